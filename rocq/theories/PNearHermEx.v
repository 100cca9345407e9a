(** Concrete cases for C112. *)
From Coq Require Import Reals List Arith Lia Lra Bool String.
From Coquelicot Require Import Coquelicot.
From Verif Require Import Base CMat CMatFacts Det Norms Expm ExpmFacts ExpmBounds ModelUnitary ModelHamiltonian
  Spec SpecModel SpecHamiltonian SpecNearHerm PUnitary PDrift PGates PHam PHamTerm PHamRun PHamIso PNearHerm.
Import ListNotations.
Open Scope R_scope.
Open Scope C_scope.

(** [i 10^-9] times the identity. *)
Definition skew : mat := fun i j => if Nat.eqb i j then (0%R, (/ 10 ^ 9)%R) else 0.
Lemma p9 : (10 ^ 9 = 1000000000)%R. Proof. ring. Qed.
Lemma p8 : (10 ^ 8 = 100000000)%R. Proof. ring. Qed.
Lemma p5 : (10 ^ 5 = 100000)%R. Proof. ring. Qed.
Lemma p10 : (10 ^ 10 = 10000000000)%R. Proof. ring. Qed.
Lemma skew_mod i j : (Cmod (skew i j) <= / 10 ^ 9)%R.
Proof.
  unfold skew. rewrite p9. destruct (Nat.eqb i j); [|rewrite Cmod_0; lra].
  unfold Cmod. cbn [fst snd]. replace (0 ^ 2 + (/ 1000000000) ^ 2)%R with (/ 1000000000 * / 1000000000)%R by ring. rewrite sqrt_square; lra.
Qed.
Lemma skew_diff i j : (Cmod (skew i j - Cconj (skew j i)) <= 2 / 10 ^ 9)%R.
Proof.
  assert (T := Cmod_triangle (skew i j) (- Cconj (skew j i))). rewrite Cmod_opp, Cmod_conj in T.
  assert (A := skew_mod i j). assert (B := skew_mod j i). unfold Cminus. rewrite p9 in *. lra.
Qed.
Lemma skew_near : nearly_hermitian 2 skew.
Proof.
  intros i j _ _. eapply Rle_trans; [apply skew_diff|]. rewrite p9, p8, p5. assert (A := Cmod_ge_0 (skew j i)). lra.
Qed.
Lemma skew_fro : (fro 2 (mminus skew (adj skew)) <= 4 / 10 ^ 9)%R.
Proof.
  eapply Rle_trans; [apply (fro_of_entries 2 _ (2 / 10 ^ 9))|].
  - rewrite p9. lra.
  - intros i j _ _. unfold mminus, adj. apply skew_diff.
  - simpl INR. rewrite p9. lra.
Qed.
Lemma skew_not : ~ hermitian_mx 2 skew.
Proof.
  intros H. specialize (H 0%nat 0%nat ltac:(lia) ltac:(lia)). unfold skew, adj in H. cbn [Nat.eqb] in H.
  apply (f_equal snd) in H. cbn [snd Cconj] in H. rewrite p9 in H. simpl in H. lra.
Qed.
Lemma skew_term : exists tm, mk_term (square 2 skew) = Ok tm /\ t_dim tm = 2%nat.
Proof.
  destruct (mk_term_close 2 skew ltac:(lia)) as (tm & E & D & _).
  - apply allclose_spec. intros i j Hi Hj. assert (X := skew_near i j Hi Hj). unfold adj. rewrite Cmod_conj. exact X.
  - intros Z. specialize (Z 0%nat 0%nat ltac:(lia) ltac:(lia)). unfold skew, mzero in Z. cbn [Nat.eqb] in Z.
    apply (f_equal snd) in Z. cbn [snd] in Z. rewrite p9 in Z. simpl in Z. lra.
  - now exists tm.
Qed.
Lemma ham_one tm : mk_hamiltonian [tm] = Ok {| h_dim := t_dim tm; h_terms := [tm] |}.
Proof. unfold mk_hamiltonian. cbn [forallb]. rewrite Nat.eqb_refl. reflexivity. Qed.

Lemma exp_small x : (0 <= x <= 4 / 10 ^ 9)%R -> (exp x - 1 <= 41 / 10 ^ 10)%R.
Proof.
  intros [x0 xs]. assert (Q := exp_defect_sq x x0). rewrite p9 in xs. rewrite p10.
  assert (E3 : (exp x <= 3)%R). { eapply Rle_trans; [|exact exp_le_3]. left; apply exp_increasing; lra. }
  assert (x2 : (x ^ 2 * exp x <= x ^ 2 * 3)%R) by (apply Rmult_le_compat_l; [apply pow2_ge_0|exact E3]). simpl in *. nra.
Qed.
Lemma clean_small : (0 <= sqrt 2 * INR 2 * eps_code <= 4 / 10 ^ 10)%R.
Proof.
  assert (S := sqrt2_bounds). simpl INR. unfold eps_code. replace (10 ^ 12)%R with 1000000000000%R by ring. rewrite p10. lra.
Qed.

Lemma ex_C112_time_lemma : exists M tm h t m, mk_term (square 2 M) = Ok tm /\ mk_hamiltonian [tm] = Ok h /\ ~ hermitian_mx 2 M /\
  (0 < t)%R /\ (forall i j, (i < 2)%nat -> (j < 2)%nat -> (Cmod (M i j) <= m)%R) /\
  (INR 2 * (/ 10 ^ 8 + / 10 ^ 5 * m) * Rabs t <= 8 / 10 ^ 9)%R /\ (sqrt 2 * INR 2 * eps_code <= 4 / 10 ^ 10)%R /\ (INR 2 <= 10 ^ 6)%R.
Proof.
  destruct skew_term as (tm & E & D). exists skew, tm, {| h_dim := t_dim tm; h_terms := [tm] |}, (1 / 4)%R, (/ 10 ^ 9)%R.
  split; [exact E|]. split; [apply ham_one|]. split; [exact skew_not|]. split; [lra|]. split; [intros; apply skew_mod|].
  split; [|split; [apply clean_small|simpl; lra]].
  rewrite Rabs_pos_eq by lra. simpl INR. rewrite p9, p8, p5. lra.
Qed.
Lemma ex_C112_term_lemma : exists M tm h t delta, mk_term (square 2 M) = Ok tm /\ mk_hamiltonian [tm] = Ok h /\ ~ hermitian_mx 2 M /\
  (fro 2 (mminus M (adj M)) <= delta)%R /\ t = 2%R /\
  (exp (delta * Rabs t / 2) - 1 + sqrt 2 * INR 2 * eps_code <= 45 / 10 ^ 10)%R /\
  (INR 2 * (exp (delta * Rabs t / 2) - 1 + sqrt 2 * INR 2 * eps_code) <= / 200)%R.
Proof.
  destruct skew_term as (tm & E & D). exists skew, tm, {| h_dim := t_dim tm; h_terms := [tm] |}, 2%R, (4 / 10 ^ 9)%R.
  split; [exact E|]. split; [apply ham_one|]. split; [exact skew_not|]. split; [exact skew_fro|]. split; [reflexivity|].
  assert (X := exp_small (4 / 10 ^ 9)). assert (Y := clean_small).
  replace (4 / 10 ^ 9 * Rabs 2 / 2)%R with (4 / 10 ^ 9)%R by (rewrite Rabs_pos_eq by lra; field; rewrite ?p9; lra).
  set (z := (sqrt 2 * INR 2 * eps_code)%R) in *. rewrite p10 in *.
  assert (X' : (exp (4 / 10 ^ 9) - 1 <= 41 / 10000000000)%R) by (apply X; rewrite p9; lra).
  split; [lra|]. change (INR 2) with 2%R. lra.
Qed.
Lemma ex_C112_sum_lemma : exists Ms h t delta, accepted_as 2 Ms h /\ List.length Ms = 2%nat /\ nearly_hermitian 2 (total Ms) /\
  ~ hermitian_mx 2 (total Ms) /\ (fro 2 (mminus (total Ms) (adj (total Ms))) <= delta)%R /\ t = 2%R /\
  (exp (delta * Rabs t / 2) - 1 + sqrt 2 * INR 2 * eps_code <= 45 / 10 ^ 10)%R /\
  (INR 2 * (exp (delta * Rabs t / 2) - 1 + sqrt 2 * INR 2 * eps_code) <= / 200)%R.
Proof.
  destruct skew_term as (tm & E & D).
  destruct (mk_term_close 2 mid ltac:(lia)) as (tm2 & E2 & D2 & _).
  { apply allclose_meq. intros i j _ _. unfold adj, mid. rewrite (Nat.eqb_sym j i). destruct (Nat.eqb i j); apply injective_projections; cbn; ring. }
  { intros Z. specialize (Z 0%nat 0%nat ltac:(lia) ltac:(lia)). unfold mid, mzero in Z. cbn [Nat.eqb] in Z. apply RtoC_inj in Z. lra. }
  assert (T : forall i j, total [skew; mid] i j = skew i j + mid i j) by (intros; unfold total; cbn; ring).
  assert (MC : forall i j, Cconj (mid j i) = mid i j).
  { intros i j. unfold mid. rewrite (Nat.eqb_sym j i). destruct (Nat.eqb i j); apply injective_projections; cbn; ring. }
  assert (TD : forall i j, total [skew; mid] i j - Cconj (total [skew; mid] j i) = skew i j - Cconj (skew j i)).
  { intros i j. rewrite !T. assert (X : Cconj (skew j i + mid j i) = Cconj (skew j i) + Cconj (mid j i)) by (apply injective_projections; cbn; ring).
    rewrite X, MC. ring. }
  exists [skew; mid], {| h_dim := 2; h_terms := [tm; tm2] |}, 2%R, (4 / 10 ^ 9)%R.
  split.
  { exists [tm; tm2]. split; [constructor; [exact E|constructor; [exact E2|constructor]]|].
    unfold mk_hamiltonian. cbn [forallb]. rewrite D, D2. reflexivity. }
  split; [reflexivity|]. split.
  { intros i j _ _. rewrite TD. eapply Rle_trans; [apply skew_diff|]. rewrite p9, p8, p5.
    assert (A := Cmod_ge_0 (total [skew; mid] j i)). lra. }
  split.
  { intros H. apply skew_not. intros i j Hi Hj. specialize (H i j Hi Hj). unfold adj in *.
    assert (X := TD i j). rewrite <- H in X. replace (total [skew; mid] i j - total [skew; mid] i j) with (RtoC 0) in X by ring.
    replace (skew i j) with (skew i j - Cconj (skew j i) + Cconj (skew j i)) by ring. rewrite <- X. ring. }
  split.
  { eapply Rle_trans; [|exact skew_fro]. right. apply fro_meq. intros i j _ _. unfold mminus, adj. apply TD. }
  split; [reflexivity|].
  assert (X := exp_small (4 / 10 ^ 9)). assert (Y := clean_small).
  replace (4 / 10 ^ 9 * Rabs 2 / 2)%R with (4 / 10 ^ 9)%R by (rewrite Rabs_pos_eq by lra; field; rewrite ?p9; lra).
  set (z := (sqrt 2 * INR 2 * eps_code)%R) in *. rewrite p10 in *.
  assert (X' : (exp (4 / 10 ^ 9) - 1 <= 41 / 10000000000)%R) by (apply X; rewrite p9; lra).
  split; [lra|]. change (INR 2) with 2%R. lra.
Qed.
