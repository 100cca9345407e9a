(** Properties of the rounded products. *)
From Coq Require Import Reals List Arith Bool Lia Lra Psatz String Setoid Morphisms.
From Coquelicot Require Import Rcomplements Complex.
From Verif Require Import Base CMat CMatFacts Det DetFacts CRoot Norms ModelUnitary ModelEntry
  ModelRound Spec SpecModel SpecRound PUnitary PBits PEmbed PEntry PDrift PHamRun PSeqNear PSeqProps PRound.
Import ListNotations.
Open Scope R_scope.
Open Scope C_scope.

Lemma small_round_lim eps mu n K : small_round eps mu n K ->
  (err (eta eps mu) n (7 + 9 * K) <= round_bound eps mu n K)%R /\ lim (eta eps mu) n (7 + 9 * K).
Proof.
  intros (He & Hm & S1 & S2).
  apply (drift_lim (eta eps mu) n (7 + 9 * K) (K + 1) 16); auto.
  - now apply eta0.
  - rewrite !plus_INR, mult_INR. assert (X := pos_INR K).
    replace (INR 7) with 7%R by (simpl; ring). replace (INR 9) with 9%R by (simpl; ring).
    replace (INR 1) with 1%R by reflexivity. lra.
Qed.

Lemma round_run ar eps mu n ops : small_round eps mu n (List.length ops) ->
  (forall k, (k <= n)%nat -> accurate ar mu (2 ^ k)) -> r_ops_ok ar eps mu n ops ->
  match holds_after [] None ops with
  | Some es => exists q pv, r_run ar eps (r_empty (2 ^ n)) ops = Ok q /\
      rinv eps mu n (List.length ops) q es pv
  | None => r_run ar eps (r_empty (2 ^ n)) ops = Raise AssertionError
  end.
Proof.
  intros HS Ha Ho. destruct (small_round_lim _ _ _ _ HS) as [_ L]. destruct HS as (He & Hm & _).
  apply (rrun_ok ar eps mu He Hm n Ha n ops (le_n n) Ho 0%nat (r_empty (2 ^ n)) [] None).
  - split; [reflexivity|]. split; [reflexivity|]. split; [reflexivity|].
    split; [|split; reflexivity]. split; [apply le_n|]. exists []. split; [constructor|]. exact I.
  - eapply rlim_mono; [assumption|assumption| |exact L]. lia.
Qed.

Lemma round_product : forall ar eps mu n ops es,
  small_round eps mu n (List.length ops) ->
  (forall k, (k <= n)%nat -> accurate ar mu (2 ^ k)) ->
  r_ops_ok ar eps mu n ops -> holds_after [] None ops = Some es ->
  exists q p, r_run ar eps (r_empty (2 ^ n)) ops = Ok q /\ rs_entries q = es /\
    r_product ar eps q = Ok p /\ u_dim p = (2 ^ n)%nat /\
    (fro (2 ^ n) (mminus (u_mat p) (ordered n es)) <= round_bound eps mu n (List.length ops))%R.
Proof.
  intros ar eps mu n ops es.
  intros HS Ha Ho HH. assert (R := round_run ar eps mu n ops HS Ha Ho). rewrite HH in R.
  destruct R as (q & pv & E & I). destruct (small_round_lim _ _ _ _ HS) as [B L].
  destruct HS as (He & Hm & _). set (K := List.length ops) in *.
  destruct (rproduct_ok ar eps mu He Hm n Ha n K q es pv (le_n n) I) as (p & hs & Ep & HF & (Dp & Sp & _ & Fp)).
  { eapply rlim_mono; [assumption|assumption| |exact L]. lia. }
  exists q, p. split; auto. split; [apply I|]. split; auto. split; auto.
  assert (O := rordered_near eps mu He Hm n es hs HF).
  eapply Rle_trans; [apply fro_minus_triangle with (B := ordered n hs)|].
  rewrite (fro_minus_sym _ (ordered n hs)).
  assert (Z := eta0 eps mu He Hm).
  assert (M := err_mono _ Z n (2 * List.length es) (2 * K) ltac:(destruct I as (_ & _ & _ & (X & _) & _); lia)).
  assert (A := err_add (eta eps mu) n (1 + 7 * K) (2 * K)).
  assert (M' := err_mono _ Z n (1 + 7 * K + 2 * K) (7 + 9 * K) ltac:(lia)).
  assert (P1 := err_pos _ Z n (1 + 7 * K)). assert (P2 := err_pos _ Z n (2 * K)).
  assert (0 <= err (eta eps mu) n (1 + 7 * K) * err (eta eps mu) n (2 * K))%R by now apply Rmult_le_pos.
  lra.
Qed.

Lemma round_undo : forall ar eps mu n ops,
  small_round eps mu n (List.length ops) ->
  (forall k, (k <= n)%nat -> accurate ar mu (2 ^ k)) ->
  r_ops_ok ar eps mu n ops -> holds_after [] None ops = None ->
  r_run ar eps (r_empty (2 ^ n)) ops = Raise AssertionError.
Proof.
  intros ar eps mu n ops. intros HS Ha Ho HH. assert (R := round_run ar eps mu n ops HS Ha Ho). now rewrite HH in R. Qed.

(** ** Distances *)
Lemma trace_near d A B : (0 < d)%nat ->
  (Rabs (Cmod (mtrace d A) / INR d - Cmod (mtrace d B) / INR d) <= fro d (mminus A B))%R.
Proof.
  intros Hd. assert (D0 : (0 < INR d)%R) by (apply lt_0_INR; lia).
  assert (T := mtrace_fro d (mminus A B)).
  assert (E : mtrace d A = mtrace d B + mtrace d (mminus A B)).
  { unfold mtrace. rewrite <- csum_plus. apply csum_ext. intros. unfold mminus. ring. }
  assert (K : (Rabs (Cmod (mtrace d A) - Cmod (mtrace d B)) <= Cmod (mtrace d (mminus A B)))%R).
  { apply Rabs_le. assert (U := Cmod_upper (mtrace d A) (mtrace d B)). assert (U' := Cmod_upper (mtrace d B) (mtrace d A)).
    replace (mtrace d A - mtrace d B) with (mtrace d (mminus A B)) in U by (rewrite E; ring).
    replace (mtrace d B - mtrace d A) with (- mtrace d (mminus A B)) in U' by (rewrite E; ring).
    rewrite Cmod_opp in U'. lra. }
  unfold Rdiv. rewrite <- Rmult_minus_distr_r, Rabs_mult, (Rabs_pos_eq (/ INR d)) by (left; now apply Rinv_0_lt_compat).
  apply Rmult_le_reg_r with (INR d); auto. rewrite Rmult_assoc, Rinv_l by lra. rewrite Rmult_1_r.
  assert (F0 := fro_nonneg d (mminus A B)).
  eapply Rle_trans; [exact K|]. eapply Rle_trans; [exact T|]. rewrite Rmult_comm. lra.
Qed.

Lemma fro_adj_minus d A B : fro d (mminus (adj A) (adj B)) = fro d (mminus A B).
Proof.
  assert (E : meq d (mminus (adj A) (adj B)) (adj (mminus A B))).
  { intros i j _ _. unfold mminus, adj. now rewrite Cconj_minus. }
  now rewrite E, fro_adj.
Qed.

Lemma round_distance : forall ar eps mu n ops es t,
  small_round eps mu n (List.length ops) ->
  (forall k, (k <= n)%nat -> accurate ar mu (2 ^ k)) ->
  r_ops_ok ar eps mu n ops -> holds_after [] None ops = Some es ->
  r_gate ar eps mu t -> u_dim t = (2 ^ n)%nat ->
  exists q p x, r_run ar eps (r_empty (2 ^ n)) ops = Ok q /\ r_product ar eps q = Ok p /\
    r_distance_from ar eps t p = Ok x /\
    (Rabs (x - (1 - overlap (2 ^ n) (u_mat t) (ordered n es))) <= round_bound eps mu n (List.length ops))%R.
Proof.
  intros ar eps mu n ops es t.
  intros HS Ha Ho HH Ht Dt. assert (R := round_run ar eps mu n ops HS Ha Ho). rewrite HH in R.
  destruct R as (q & pv & E & I). destruct (small_round_lim _ _ _ _ HS) as [B L].
  destruct HS as (He & Hm & _). set (K := List.length ops) in *.
  assert (LM : forall c, (c <= 7 + 9 * K)%nat -> lim (eta eps mu) n c)
    by (intros c Hc; eapply rlim_mono; [assumption|assumption| |exact L]; lia).
  destruct (rproduct_ok ar eps mu He Hm n Ha n K q es pv (le_n n) I) as (p & hs & Ep & HF & Np); [apply LM; lia|].
  destruct (r_gate_ideal ar eps mu He Hm n Ha t n n Ht Dt (le_n n) (le_n n)) as (G & SG & DG & FG); [apply LM; lia|].
  rewrite Dt in SG, DG, FG. assert (Z := eta0 eps mu He Hm).
  assert (Nt : rnear eps mu n 2 G t).
  { split; auto. split; auto. split; auto. eapply Rle_trans; [exact FG|]. apply err_2; auto. }
  destruct (rnear_inverse ar eps mu He Hm n Ha n 2 G t (le_n n) Nt) as (i & Ei & Ni); [apply LM; lia|].
  exists q, p, (a_dist ar (2 ^ n) (a_mul ar (2 ^ n) (u_mat i) (u_mat p))). split; auto. split; auto.
  assert (Dp := proj1 Np). split.
  { unfold r_distance_from. rewrite Dp, Dt, Nat.eqb_refl. unfold assert. cbn [bind]. rewrite Ei. reflexivity. }
  destruct Np as (_ & Sp & _ & Fp). destruct Ni as (_ & Si & _ & Fi).
  assert (ES : forall c, (c <= 6 + 9 * K)%nat -> (err (eta eps mu) n c <= / 4)%R).
  { intros c Hc. destruct (LM c ltac:(lia)) as [L1 _]. replace (10 ^ 10)%R with 10000000000%R in L1 by ring. lra. }
  assert (Bi : bounded2 (2 ^ n) (u_mat i)).
  { apply (near_bounded _ (adj G) _ (err (eta eps mu) n 3)); auto; [apply Si|].
    assert (X := ES 3%nat ltac:(lia)). lra. }
  assert (Bp : bounded2 (2 ^ n) (u_mat p)).
  { apply (near_bounded _ (ordered n hs) _ (err (eta eps mu) n (1 + 7 * K))); auto; [apply Sp|].
    assert (X := ES (1 + 7 * K)%nat ltac:(lia)). lra. }
  assert (AC := Ha n (le_n n)).
  assert (Wm := acc_mul _ _ _ AC _ _ Bi Bp).
  set (X := a_mul ar (2 ^ n) (u_mat i) (u_mat p)) in *.
  assert (FX := within_fro mu _ _ _ Hm Wm).
  assert (F1 := fro_product (2 ^ n) _ _ _ _ _ _ (proj1 Si) (proj1 Sp) Fi Fp).
  rewrite <- err_add in F1.
  assert (Hmx : (INR (2 ^ n) * mu + mu <= xi (eta eps mu) n)%R).
  { unfold xi, kappa0, eta. assert (S1 := sqrt_INR_ge1 (2 ^ n) (pow2_pos n)).
    assert (P2 : (1 <= INR (2 ^ n))%R) by (change 1%R with (INR 1); apply le_INR; assert (T := pow2_pos n); lia).
    set (D := INR (2 ^ n)) in *. set (s := sqrt D) in *.
    assert (mu <= D * mu)%R by nra. assert (0 <= D * mu)%R by lra. assert (0 <= D * eps)%R by nra.
    assert (D * mu <= D * mu * s)%R by nra. assert (0 <= D * eps * s)%R by nra.
    replace (8 / 5 * D * (s + 1) * (eps + 9 * mu))%R with
      (8 / 5 * (D * eps * s) + 8 / 5 * (D * eps) + 72 / 5 * (D * mu * s) + 72 / 5 * (D * mu))%R by field.
    lra. }
  assert (FXG : (fro (2 ^ n) (mminus X (mmul (2 ^ n) (adj G) (ordered n hs))) <= err (eta eps mu) n (4 + 7 * K) + INR (2 ^ n) * mu)%R).
  { eapply Rle_trans; [apply fro_minus_triangle with (B := mmul (2 ^ n) (u_mat i) (u_mat p))|].
    replace (3 + (1 + 7 * K))%nat with (4 + 7 * K)%nat in F1 by lia. lra. }
  assert (U : unitary_mx (2 ^ n) (mmul (2 ^ n) (adj G) (ordered n hs))).
  { apply unitary_mmul; [apply Si|apply Sp]. }
  assert (BX : bounded2 (2 ^ n) X).
  { apply (near_bounded _ _ _ _ U FXG). assert (T := ES (4 + 7 * K)%nat ltac:(lia)).
    assert (T1 := ES 1%nat ltac:(lia)). unfold err at 1 in T1. rewrite pow_1 in T1. lra. }
  assert (AD := acc_dist _ _ _ AC X BX).
  assert (O := rordered_near eps mu He Hm n es hs HF).
  assert (Ft : (fro (2 ^ n) (mminus (adj (u_mat t)) (adj G)) <= err (eta eps mu) n 2)%R).
  { rewrite fro_adj_minus. apply Nt. }
  assert (F2 := fro_product (2 ^ n) _ _ _ _ _ _ (unitary_adj _ _ (proj1 SG)) (proj1 Sp) Ft O).
  rewrite <- err_add in F2.
  assert (M := err_mono _ Z n (2 + 2 * List.length es) (2 + 2 * K) ltac:(destruct I as (_ & _ & _ & (Y & _) & _); lia)).
  assert (FT : (fro (2 ^ n) (mminus X (mmul (2 ^ n) (adj (u_mat t)) (ordered n es))) <=
     err (eta eps mu) n (4 + 7 * K) + INR (2 ^ n) * mu + err (eta eps mu) n (2 + 2 * K))%R).
  { eapply Rle_trans; [apply fro_minus_triangle with (B := mmul (2 ^ n) (adj G) (ordered n hs))|].
    rewrite (fro_minus_sym _ (mmul _ (adj G) _)). lra. }
  assert (T := trace_near (2 ^ n) X (mmul (2 ^ n) (adj (u_mat t)) (ordered n es)) (pow2_pos n)).
  unfold overlap.
  assert (A := err_add (eta eps mu) n (4 + 7 * K) (2 + 2 * K)).
  assert (S' := err_S _ Z n (4 + 7 * K + (2 + 2 * K))).
  replace (S (4 + 7 * K + (2 + 2 * K))) with (7 + 9 * K)%nat in S' by lia.
  assert (P1 := err_pos _ Z n (4 + 7 * K)). assert (P2 := err_pos _ Z n (2 + 2 * K)).
  assert (0 <= err (eta eps mu) n (4 + 7 * K) * err (eta eps mu) n (2 + 2 * K))%R by now apply Rmult_le_pos.
  apply Rabs_le. apply Rabs_le_between in AD. apply Rabs_le_between in T. lra.
Qed.

(** ** Exact arithmetic *)
Lemma exact_is_mk : forall eps d a nm ps iv ap, r_unitary exact_arith eps d a nm ps iv ap = mk_unitary eps d a nm ps iv ap.
Proof.
  intros eps d a nm ps iv ap. reflexivity. Qed.
Lemma exact_is_distance : forall eps u v, r_distance_from exact_arith eps u v = u_distance_from eps u v.
Proof.
  intros eps u v.
  unfold r_distance_from, u_distance_from, u_distance_from_array, square. cbn [nrows ncols elt].
  rewrite Bool.andb_diag. reflexivity.
Qed.
Lemma exact_is_full : forall eps g d,
  r_full exact_arith eps g d =
  snd (get_full_unitary eps d {| e_unitary := fst g; e_apply := snd g; e_cache := [] |}).
Proof.
  intros eps g d.
  unfold r_full, get_full_unitary, e_dim. cbn [e_unitary e_apply e_cache cache_get].
  destruct (assert _); cbn [bind snd]; [|reflexivity].
  unfold compute_full_unitary, e_dim. cbn [e_unitary e_apply].
  unfold r_identity. rewrite exact_is_mk. unfold u_identity.
  destruct (mk_unitary _ _ _ _ _ _ _) as [i|]; cbn [bind snd]; [|reflexivity].
  change (r_tensor exact_arith eps (fst g) i) with (u_tensor eps (fst g) i).
  destruct (u_tensor eps (fst g) i) as [v|]; cbn [bind snd]; [|reflexivity].
  destruct (assert _); cbn [bind snd]; [|reflexivity].
  destruct (get_permute_matrix _ _) as [P|]; cbn [bind snd]; [|reflexivity].
  rewrite exact_is_mk. destruct (mk_unitary _ _ _ _ _ _ _); reflexivity.
Qed.

Lemma exact_accurate : forall d, (0 < d)%nat -> accurate exact_arith 0 d.
Proof.
  intros d.
  intros Hd. assert (Z : forall z : C, (Cmod (z - z)%C <= 0)%R).
  { intros z. replace (z - z) with (RtoC 0) by ring. rewrite Cmod_0. lra. }
  constructor; cbn [exact_arith a_mul a_kron a_close a_det a_root a_scale a_dist].
  - intros A B _ _ i j _ _. apply Z.
  - intros a k A B _ _ _ _ _ i j _ _. apply Z.
  - intros A B H. apply allclose_spec. intros i j Hi Hj. eapply Rle_trans; [apply H; auto|].
    unfold atol, rtol.
    assert (0 < / 10 ^ 8)%R by (apply Rinv_0_lt_compat, pow_lt; lra).
    assert (0 < / 10 ^ 5)%R by (apply Rinv_0_lt_compat, pow_lt; lra).
    assert (T := Cmod_ge_0 (B i j)).
    assert (0 <= / 10 ^ 5 * Cmod (B i j))%R by (apply Rmult_le_pos; lra). lra.
  - intros A P _ _. apply Z.
  - intros z Hz. exists (croot d (/ z)). split; [|apply Z]. apply croot_pow; auto. apply Cinv_neq0.
    intros ->. rewrite Cmod_0 in Hz. apply Rabs_le_between in Hz. lra.
  - intros z _. apply Z.
  - intros c A _ _ i j _ _. apply Z.
  - intros A _. rewrite Rminus_eq_0, Rabs_R0. lra.
Qed.

(** A gate can always be made. *)
Lemma round_gate : forall ar eps mu n (M A : mat) nm ps iv ap,
  small_round eps mu n 0 -> accurate ar mu (2 ^ n) -> unitary_mx (2 ^ n) M -> within mu (2 ^ n) A M ->
  exists u (c : C), r_unitary ar eps (2 ^ n) (Some (square (2 ^ n) A)) nm ps iv ap = Ok u /\
    Cmod c = 1%R /\ u_dim u = (2 ^ n)%nat /\
    (fro (2 ^ n) (mminus (u_mat u) (mscale c M)) <= round_bound eps mu n 0)%R.
Proof.
  intros ar eps mu n M A nm ps iv ap.
  intros (He & Hm & S1 & S2) Ha HU HW. assert (E0 := eta0 eps mu He Hm).
  assert (P2 := pow2_pos n). set (d := (2 ^ n)%nat) in *.
  assert (SQ := sqrt_INR_ge1 d P2).
  assert (D1 : (1 <= INR d)%R) by (change 1%R with (INR 1); apply le_INR; lia).
  assert (KB : (10 * (kappa0 d * eta eps mu) <= round_bound eps mu n 0)%R).
  { unfold round_bound, kappa0. fold d. unfold eta. replace (INR (0 + 1)) with 1%R by reflexivity.
    apply Req_le. field. }
  assert (K0 : (0 <= kappa0 d * eta eps mu)%R).
  { apply Rmult_le_pos; auto. unfold kappa0. apply Rmult_le_pos; [lra|lra]. }
  assert (KD : (28 * (INR d * mu) <= kappa0 d * eta eps mu)%R).
  { unfold kappa0, eta.
    apply Rle_trans with (8 / 5 * INR d * 2 * (9 * mu))%R; [assert (0 <= INR d * mu)%R by (apply Rmult_le_pos; lra); lra|].
    apply Rmult_le_compat; try lra.
    apply Rmult_le_compat_l; lra. }
  assert (V0 : (0 <= INR d * mu)%R) by (apply Rmult_le_pos; lra).
  assert (HF : (fro d (mminus A M) <= INR d * mu)%R) by (apply within_fro; auto).
  assert (S2' : (INR d * (280 * (INR d * mu)) <= / 100)%R).
  { eapply Rle_trans; [|exact S2]. apply Rmult_le_compat_l; lra. }
  assert (DD0 : (0 <= INR d * (INR d * mu))%R) by (apply Rmult_le_pos; lra).
  destruct (r_norm ar eps mu He Hm d M A 0 nm ps iv ap P2 Ha HU) as (u & c & E & Du & _ & _ & _ & _ & Hc & _ & _ & _ & HN).
  - lra.
  - lra.
  - eapply Rle_trans; [apply (det_near_unitary d M M A 0 (INR d * mu)); auto|]; try lra.
    rewrite fro_minus_self by reflexivity. lra.
  - lra.
  - apply Rle_trans with (INR d * round_bound eps mu n 0)%R; auto. apply Rmult_le_compat_l; lra.
  - exists u, c. repeat split; auto. eapply Rle_trans; [exact HN|]. lra.
Qed.
