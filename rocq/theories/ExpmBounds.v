(** Norm bounds for the matrix exponential and for products of exponentials. *)
From Coq Require Import Reals List Arith Lia Lra Permutation.
From Coquelicot Require Import Coquelicot.
From Verif Require Import Base CMat CMatFacts DetFacts Norms Expm ExpmFacts.
Import ListNotations.
Open Scope R_scope.
Open Scope C_scope.

Lemma rsum_lim n (f : nat -> nat -> R) (l : nat -> R) :
  (forall i, (i < n)%nat -> is_lim_seq (fun N => f i N) (l i)) ->
  is_lim_seq (fun N => rsum n (fun i => f i N)) (rsum n l).
Proof.
  induction n as [|n IH]; intros H; simpl.
  - apply is_lim_seq_const.
  - apply is_lim_seq_plus'; [apply IH; intros i Hi; apply H; lia|apply H; lia].
Qed.

Lemma fro2_lim n (S : nat -> mat) (X : mat) :
  (forall i j, (i < n)%nat -> (j < n)%nat ->
     is_lim_seq (fun N => fst (S N i j)) (fst (X i j)) /\ is_lim_seq (fun N => snd (S N i j)) (snd (X i j))) ->
  is_lim_seq (fun N => fro2 n (S N)) (fro2 n X).
Proof.
  intros H. unfold fro2. apply (rsum_lim n (fun i N => rsum n (fun j => (Cmod (S N i j) ^ 2)%R))). intros i Hi.
  apply (rsum_lim n (fun j N => (Cmod (S N i j) ^ 2)%R)). intros j Hj.
  destruct (H i j Hi Hj) as [H1 H2].
  assert (E : forall z, (Cmod z ^ 2 = fst z * fst z + snd z * snd z)%R).
  { intros z. unfold Cmod. rewrite pow2_sqrt; [ring|]. nra. }
  rewrite E. eapply is_lim_seq_ext; [intros N; symmetry; apply E|].
  apply is_lim_seq_plus'; apply is_lim_seq_mult'; assumption.
Qed.

Lemma fro_lim n (S : nat -> mat) (X : mat) c :
  (forall i j, (i < n)%nat -> (j < n)%nat ->
     is_lim_seq (fun N => fst (S N i j)) (fst (X i j)) /\ is_lim_seq (fun N => snd (S N i j)) (snd (X i j))) ->
  (forall N, (fro n (S N) <= c)%R) -> (fro n X <= c)%R.
Proof.
  intros H B. assert (c0 : (0 <= c)%R) by (eapply Rle_trans; [apply fro_nonneg|apply (B O)]).
  apply sqr_le_le; auto. rewrite fro_sqr.
  assert (K : Rbar_le (fro2 n X) (c ^ 2)%R).
  { eapply (is_lim_seq_le (fun N => fro2 n (S N)) (fun _ => (c ^ 2)%R)); [|apply fro2_lim, H|apply is_lim_seq_const].
    intros N. rewrite <- fro_sqr. apply pow_incr. split; [apply fro_nonneg|apply B]. }
  exact K.
Qed.

Definition etail (n : nat) (A : mat) (N : nat) : mat := fun i j => csum N (fun k => exp_term n A (S (S k)) i j).

Lemma csum_shift2 N f : csum (S (S N)) f = f O + f 1%nat + csum N (fun k => f (S (S k))).
Proof.
  induction N as [|N IH]; [simpl; ring|].
  change (csum (S (S (S N))) f) with (csum (S (S N)) f + f (S (S N))). rewrite IH. simpl. ring.
Qed.

Lemma exp_term_0 n A i j : exp_term n A 0 i j = mid i j.
Proof.
  unfold exp_term, mscale. change (INR (fact 0)) with 1%R. rewrite Rinv_1. simpl. ring.
Qed.
Lemma exp_term_1 n A i j : (i < n)%nat -> (j < n)%nat -> exp_term n A 1 i j = A i j.
Proof.
  intros Hi Hj. unfold exp_term, mscale. change (INR (fact 1)) with 1%R. rewrite Rinv_1. cbn [mpow].
  rewrite (mmul_1_r n A i j Hi Hj). ring.
Qed.

Lemma etail_lim n A i j : (i < n)%nat -> (j < n)%nat ->
  is_lim_seq (fun N => fst (etail n A N i j)) (fst (mminus (mminus (expm n A) mid) A i j)) /\
  is_lim_seq (fun N => snd (etail n A N i j)) (snd (mminus (mminus (expm n A) mid) A i j)).
Proof.
  intros Hi Hj. assert (H := expm_series n A i j Hi Hj). apply cseries_lim in H. destruct H as [H1 H2].
  apply (is_lim_seq_incr_n _ 2) in H1. apply (is_lim_seq_incr_n _ 2) in H2.
  assert (E : forall N, etail n A N i j = csum (N + 2) (fun k => exp_term n A k i j) - mid i j - A i j).
  { intros N. replace (N + 2)%nat with (S (S N)) by lia. rewrite csum_shift2, exp_term_0, exp_term_1 by auto.
    unfold etail. ring. }
  split.
  - apply is_lim_seq_ext with (u := fun N => (fst (csum (N + 2) (fun k => exp_term n A k i j)) - fst (mid i j) - fst (A i j))%R).
    { intros N. rewrite E. reflexivity. }
    apply is_lim_seq_minus'; [|apply is_lim_seq_const]. apply is_lim_seq_minus'; [exact H1|apply is_lim_seq_const].
  - apply is_lim_seq_ext with (u := fun N => (snd (csum (N + 2) (fun k => exp_term n A k i j)) - snd (mid i j) - snd (A i j))%R).
    { intros N. rewrite E. reflexivity. }
    apply is_lim_seq_minus'; [|apply is_lim_seq_const]. apply is_lim_seq_minus'; [exact H2|apply is_lim_seq_const].
Qed.

Lemma etail_fro n A N : (fro n (etail n A N) <= exp (fro n A) - 1 - fro n A)%R.
Proof.
  set (a := fro n A). assert (Ha : (0 <= a)%R) by apply fro_nonneg.
  assert (K : (fro n (etail n A N) <= sum_n (fun k => (/ INR (fact k) * a ^ k)%R) (S N) - 1 - a)%R).
  { induction N as [|N IH].
    - rewrite sum_Sn, sum_O. change (fact 1) with (fact 0). change (INR (fact 0)) with 1%R.
      unfold plus; simpl. assert (E : fro n (etail n A 0) = 0%R).
      { rewrite <- (fro_mzero n). apply fro_proper. intros i j _ _. reflexivity. }
      rewrite E. lra.
    - rewrite sum_Sn. assert (E : fro n (etail n A (S N)) = fro n (mplus (etail n A N) (exp_term n A (S (S N))))).
      { apply fro_proper. intros i j _ _. reflexivity. }
      rewrite E. eapply Rle_trans; [apply fro_triangle|].
      unfold exp_term. rewrite fro_mscale. rewrite Cmod_R.
      assert (P := Rinv_0_lt_compat _ (fact_pos (S (S N)))). rewrite Rabs_pos_eq by lra.
      assert (M : (/ INR (fact (S (S N))) * fro n (mpow n A (S (S N))) <= / INR (fact (S (S N))) * a ^ S (S N))%R).
      { apply Rmult_le_compat_l; [lra|]. apply fro_mpow. }
      unfold plus; simpl. simpl in IH, M. lra. }
  assert (P := exp_partial a Ha (S N)). lra.
Qed.

Lemma expm_second n A : (fro n (mminus (mminus (expm n A) mid) A) <= exp (fro n A) - 1 - fro n A)%R.
Proof. apply fro_lim with (S := etail n A); [apply etail_lim|apply etail_fro]. Qed.

Lemma exp_ge x : (1 + x <= exp x)%R.
Proof.
  destruct (Req_dec x 0) as [->|N]; [rewrite exp_0; lra|]. left. now apply exp_ineq1.
Qed.

Lemma expm_first n A : (fro n (mminus (expm n A) mid) <= exp (fro n A) - 1)%R.
Proof.
  assert (E : fro n (mminus (expm n A) mid) = fro n (mplus (mminus (mminus (expm n A) mid) A) A)).
  { apply fro_proper. intros i j _ _. unfold mplus, mminus. ring. }
  rewrite E. eapply Rle_trans; [apply fro_triangle|]. assert (H := expm_second n A). lra.
Qed.

Lemma exp_defect_mono x y : (0 <= x)%R -> (x <= y)%R -> (exp x - 1 - x <= exp y - 1 - y)%R.
Proof.
  intros Hx Hxy. assert (E : exp y = (exp x * exp (y - x))%R) by (rewrite <- exp_plus; f_equal; ring).
  assert (G := exp_ge (y - x)). assert (1 <= exp x)%R by (assert (K := exp_ge x); lra). nra.
Qed.

Lemma exp_defect_sq s : (0 <= s)%R -> (exp s - 1 - s <= s ^ 2 * exp s)%R.
Proof.
  intros Hs. assert (P := exp_pos s).
  assert (A : (exp s - 1 <= s * exp s)%R).
  { assert (G := exp_ge (- s)). assert (E : (exp (- s) * exp s = 1)%R) by (rewrite <- exp_plus, <- exp_0; f_equal; ring).
    nra. }
  nra.
Qed.

(** ** Products *)
Definition msum (l : list mat) : mat := fold_right mplus mzero l.
Definition expprod (n : nat) (l : list mat) : mat := fold_right (fun X P => mmul n (expm n X) P) mid l.
Definition frosum (n : nat) (l : list mat) : R := fold_right (fun X s => (fro n X + s)%R) 0%R l.

Lemma frosum_nonneg n l : (0 <= frosum n l)%R.
Proof. induction l as [|X l IH]; simpl; [lra|]. assert (K := fro_nonneg n X). lra. Qed.

Lemma fro_msum n l : (fro n (msum l) <= frosum n l)%R.
Proof.
  induction l as [|X l IH]; simpl; [rewrite fro_mzero; lra|].
  eapply Rle_trans; [apply fro_triangle|]. lra.
Qed.

Lemma expprod_second n l : (forall X, In X l -> unitary_mx n (expm n X)) ->
  (fro n (mminus (mminus (expprod n l) mid) (msum l)) <= exp (frosum n l) - 1 - frosum n l)%R.
Proof.
  induction l as [|X l IH]; intros HU; simpl.
  - rewrite exp_0. assert (E : fro n (mminus (mminus mid mid) mzero) = 0%R).
    { rewrite <- (fro_mzero n). apply fro_proper. intros i j _ _. unfold mminus, mzero. ring. }
    rewrite E. lra.
  - specialize (IH (fun Y H => HU Y (or_intror H))).
    set (E := expm n X). set (P := expprod n l) in *. set (Y := msum l) in *. set (s := frosum n l) in *.
    set (x := fro n X).
    assert (U : unitary_mx n E) by (apply HU; now left).
    assert (D : meq n (mminus (mminus (mmul n E P) mid) (mplus X Y))
       (mplus (mmul n E (mminus (mminus P mid) Y))
              (mplus (mmul n (mminus E mid) Y) (mminus (mminus E mid) X)))).
    { assert (A1 : meq n (mmul n E (mminus (mminus P mid) Y)) (mminus (mminus (mmul n E P) E) (mmul n E Y))).
      { rewrite !mmul_mminus_r, mmul_1_r. reflexivity. }
      assert (A2 : meq n (mmul n (mminus E mid) Y) (mminus (mmul n E Y) Y)).
      { rewrite !mmul_mminus_l, mmul_1_l. reflexivity. }
      rewrite A1, A2. intros i j _ _. unfold mplus, mminus. ring. }
    rewrite D. eapply Rle_trans; [apply fro_triangle|].
    rewrite (fro_unitary_l n E _ U).
    assert (T := fro_triangle n (mmul n (mminus E mid) Y) (mminus (mminus E mid) X)).
    assert (M := fro_mmul n (mminus E mid) Y). assert (F1 := expm_first n X). assert (F2 := expm_second n X).
    fold E x in F1, F2. assert (Ys := fro_msum n l). fold Y s in Ys.
    assert (N1 := fro_nonneg n Y). assert (N2 := fro_nonneg n (mminus E mid)). assert (N3 := frosum_nonneg n l). fold s in N3.
    assert (N4 : (0 <= x)%R) by apply fro_nonneg.
    assert (G1 := exp_ge x). assert (G2 := exp_ge s).
    rewrite exp_plus.
    assert (fro n (mminus E mid) * fro n Y <= (exp x - 1) * s)%R.
    { apply Rmult_le_compat; lra. }
    assert (0 <= (exp x - 1) * (exp s - 1 - s))%R by (apply Rmult_le_pos; lra).
    lra.
Qed.

(** One Trotter step. *)
Lemma trotter_step n l : (forall X, In X l -> unitary_mx n (expm n X)) ->
  (fro n (mminus (expprod n l) (expm n (msum l))) <= 2 * (exp (frosum n l) - 1 - frosum n l))%R.
Proof.
  intros HU. assert (A := expprod_second n l HU). assert (B := expm_second n (msum l)).
  assert (M := exp_defect_mono _ _ (fro_nonneg n (msum l)) (fro_msum n l)).
  assert (E : fro n (mminus (expprod n l) (expm n (msum l))) =
    fro n (mminus (mminus (mminus (expprod n l) mid) (msum l)) (mminus (mminus (expm n (msum l)) mid) (msum l)))).
  { apply fro_proper. intros i j _ _. unfold mminus. ring. }
  rewrite E. clear E.
  set (X := mminus (mminus (expprod n l) mid) (msum l)) in *.
  set (Y := mminus (mminus (expm n (msum l)) mid) (msum l)) in *.
  assert (T := fro_minus_triangle n X mzero Y).
  assert (E1 : fro n (mminus X mzero) = fro n X) by (apply fro_proper; intros i j _ _; unfold mminus, mzero; ring).
  assert (E2 : fro n (mminus mzero Y) = fro n Y).
  { rewrite fro_minus_sym. apply fro_proper; intros i j _ _; unfold mminus, mzero; ring. }
  lra.
Qed.

Lemma msum_perm l l' : Permutation l l' -> forall i j, msum l i j = msum l' i j.
Proof.
  induction 1; intros i j; simpl; unfold mplus in *; [reflexivity|now rewrite IHPermutation|ring|congruence].
Qed.

Lemma frosum_perm n l l' : Permutation l l' -> frosum n l = frosum n l'.
Proof. induction 1; simpl; lra. Qed.

(** A product of unitaries close to powers of one unitary. *)
Lemma product_close n Q d (l : list mat) : unitary_mx n Q -> (forall P, In P l -> unitary_mx n P) ->
  (forall P, In P l -> (fro n (mminus P Q) <= d)%R) ->
  (fro n (mminus (fold_right (fun P R => mmul n P R) mid l) (mpow n Q (List.length l))) <= INR (List.length l) * d)%R.
Proof.
  intros UQ. induction l as [|P l IH]; intros HU HD.
  - simpl. rewrite fro_minus_self by reflexivity. lra.
  - cbn [fold_right List.length mpow]. rewrite S_INR.
    set (R := fold_right (fun P R => mmul n P R) mid l) in *. set (W := mpow n Q (List.length l)) in *.
    specialize (IH (fun X H => HU X (or_intror H)) (fun X H => HD X (or_intror H))).
    assert (T := fro_minus_triangle n (mmul n P R) (mmul n P W) (mmul n Q W)).
    assert (E1 : fro n (mminus (mmul n P R) (mmul n P W)) = fro n (mminus R W)).
    { rewrite <- (fro_unitary_l n P (mminus R W)) by (apply HU; now left). apply fro_proper.
      intros i j _ _. unfold mmul, mminus. rewrite <- csum_minus. apply csum_ext. intros; ring. }
    assert (UW : unitary_mx n W).
    { unfold W. clear -UQ. induction (List.length l) as [|k IH]; [apply unitary_mid|]. cbn [mpow]. now apply unitary_mmul. }
    assert (E2 : fro n (mminus (mmul n P W) (mmul n Q W)) = fro n (mminus P Q)).
    { rewrite <- (fro_unitary_r n W (mminus P Q)) by auto. apply fro_proper.
      intros i j _ _. unfold mmul, mminus. rewrite <- csum_minus. apply csum_ext. intros; ring. }
    assert (D := HD P (or_introl eq_refl)). lra.
Qed.
