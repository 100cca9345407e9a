(** A long one-qubit sequence whose product() raises: the clean-up of one gate is
    repeated until the unitarity check of the constructor fails (C66). *)
From Coq Require Import Reals List Arith Lia Lra Bool String ZArith.
From Coquelicot Require Import Rcomplements Complex.
From Verif Require Import Base CMat CMatFacts Det DetFacts CRoot Norms Expm ExpmFacts ModelUnitary ModelEntry
  ModelSequence Spec SpecModel PUnitary PUnitaryProps PBits PEmbed PEntry PDrift PSu2 PSeqHeap PSeqMeth PSeqNear
  PSeqWorld PSeqInv PSeqUndo PSeqCases.
Import ListNotations.
Open Scope R_scope.
Open Scope C_scope.

(** ** Roots and norms *)
Lemma Cmod_le_parts (z : C) : (Cmod z <= Rabs (fst z) + Rabs (snd z))%R.
Proof.
  apply sqr_le_le; [assert (A := Rabs_pos (fst z)); assert (B := Rabs_pos (snd z)); lra|].
  rewrite Cmod2. assert (A := Rabs_pos (fst z)). assert (B := Rabs_pos (snd z)).
  rewrite <- (pow2_abs (fst z)), <- (pow2_abs (snd z)). nra.
Qed.

Lemma fro_entries A t : (0 <= t)%R ->
  (forall i j, (i < 2)%nat -> (j < 2)%nat -> (Cmod (A i j) <= t)%R) -> (fro 2 A <= 2 * t)%R.
Proof.
  intros Ht H. apply sqr_le_le; [lra|]. rewrite fro_sqr. unfold fro2, vnorm2. cbn [rsum].
  assert (P : forall i j, (i < 2)%nat -> (j < 2)%nat -> (Cmod (A i j) ^ 2 <= t ^ 2)%R).
  { intros i j Hi Hj. apply pow_incr. split; [apply Cmod_ge_0|auto]. }
  assert (P1 := P 0%nat 0%nat ltac:(lia) ltac:(lia)). assert (P2 := P 0%nat 1%nat ltac:(lia) ltac:(lia)).
  assert (P3 := P 1%nat 0%nat ltac:(lia) ltac:(lia)). assert (P4 := P 1%nat 1%nat ltac:(lia) ltac:(lia)).
  lra.
Qed.

(** Every component is at least [t] in absolute value. *)
Definition thick (t : R) (A : mat) : Prop :=
  forall i j, (i < 2)%nat -> (j < 2)%nat -> (t <= Rabs (fst (A i j)) /\ t <= Rabs (snd (A i j)))%R.

Lemma thick_clean eps A B : (eps <= / 10)%R -> thick (3 / 10) B -> (fro 2 (mminus A B) <= / 10)%R ->
  eps_clean eps 2 A.
Proof.
  intros He HT HF i j Hi Hj. destruct (HT i j Hi Hj) as [T1 T2].
  assert (E := fro_entry 2 (mminus A B) i j Hi Hj).
  change (mminus A B i j) with (A i j - B i j) in E.
  assert (R1 := Re_le_Cmod (A i j - B i j)). assert (R2 := Im_le_Cmod (A i j - B i j)). 
  change (Rabs (fst (A i j) - fst (B i j)) <= Cmod (A i j - B i j))%R in R1.
  change (Rabs (snd (A i j) - snd (B i j)) <= Cmod (A i j - B i j))%R in R2.
  split; intros L; exfalso.
  - assert (X := Rabs_triang_inv (fst (B i j)) (fst (A i j))).
    rewrite (Rabs_minus_sym (fst (B i j))) in X. lra.
  - assert (X := Rabs_triang_inv (snd (B i j)) (snd (A i j))).
    rewrite (Rabs_minus_sym (snd (B i j))) in X. lra.
Qed.

(** ** Powers of a matrix near the identity *)
Lemma mpow_first_order n X Q t : meq n Q (mplus mid X) -> (fro n X <= t)%R -> forall k, (INR k * t <= 1)%R ->
  (fro n (mminus (mpow n Q k) (mplus mid (mscale (RtoC (INR k)) X))) <= (INR k * t) ^ 2)%R.
Proof.
  intros HQ HX. assert (X0 := fro_nonneg n X).
  induction k as [|k IH]; intros Hk.
  - rewrite fro_minus_self; [simpl; lra|]. cbn [mpow]. simpl INR. intros i j _ _.
    unfold mplus, mscale. ring.
  - rewrite S_INR in *. assert (K0 := pos_INR k).
    assert (IH' := IH ltac:(nra)). clear IH.
    set (E := mminus (mpow n Q k) (mplus mid (mscale (RtoC (INR k)) X))) in *.
    assert (EQ : meq n (mminus (mpow n Q (S k)) (mplus mid (mscale (RtoC (INR k + 1)) X)))
       (mplus E (mplus (mmul n X E) (mscale (RtoC (INR k)) (mmul n X X))))).
    { cbn [mpow]. assert (EP : meq n (mpow n Q k) (mplus E (mplus mid (mscale (RtoC (INR k)) X)))).
      { intros i j _ _. unfold E, mplus, mminus. ring. }
      assert (EM := mmul_proper n Q (mplus mid X) HQ _ _ EP). 
      intros i j Hi Hj. unfold mminus at 1. rewrite (EM i j Hi Hj). revert i j Hi Hj.
      change (meq n (mminus (mmul n (mplus mid X) (mplus E (mplus mid (mscale (RtoC (INR k)) X))))
        (mplus mid (mscale (RtoC (INR k + 1)) X))) (mplus E (mplus (mmul n X E) (mscale (RtoC (INR k)) (mmul n X X))))).
      rewrite mmul_mplus_l, !mmul_mplus_r, !mmul_1_l, !mmul_1_r, mmul_mscale_r.
      intros i j _ _. unfold mplus, mminus, mscale. rewrite RtoC_plus. ring. }
    rewrite EQ.
    eapply Rle_trans; [apply fro_triangle|]. 
    assert (A1 := fro_triangle n (mmul n X E) (mscale (RtoC (INR k)) (mmul n X X))).
    rewrite fro_mscale, Cmod_R, Rabs_pos_eq in A1 by exact K0.
    assert (A2 := fro_mmul n X E). assert (A3 := fro_mmul n X X). assert (E0 := fro_nonneg n E).
    assert (B1 : (fro n X * fro n E <= t * (INR k * t) ^ 2)%R) by (apply Rmult_le_compat; auto).
    assert (B2 : (fro n X * fro n X <= t * t)%R) by (apply Rmult_le_compat; auto).
    assert (B3 : (INR k * (fro n (mmul n X X)) <= INR k * (t * t))%R) by (apply Rmult_le_compat_l; lra).
    assert (B4 : (t * (INR k * t) ^ 2 <= INR k * t ^ 2)%R).
    { replace (t * (INR k * t) ^ 2)%R with ((INR k * t ^ 2) * (INR k * t))%R by ring.
      rewrite <- (Rmult_1_r (INR k * t ^ 2)) at 2. apply Rmult_le_compat_l; [|nra].
      apply Rmult_le_pos; [auto|apply pow2_ge_0]. }
    nra.
Qed.

(** ** The gate *)
Section Gate.
Variable e : R.
Hypothesis e0 : (0 < e)%R.
Hypothesis e1 : (e <= / 10 ^ 10)%R.

Definition gc : R := sqrt (1 - e ^ 2).
Definition gph : C := (gc, e).
Definition gv : C := (7 / 25, 24 / 25)%R.
Definition gw : C := (4 / 5, - (3 / 5))%R.
(** An exact unitary matrix with one component in (0, e). *)
Definition gM : mat :=
  mat22 (RtoC (3 / 5) * gph) (RtoC (- (4 / 5)) * (gv * gph)) (RtoC (4 / 5)) (RtoC (3 / 5) * gv).
(** The same without that component. *)
Definition gN : mat :=
  mat22 (RtoC (3 / 5 * gc)) (RtoC (- (4 / 5)) * (gv * gph)) (RtoC (4 / 5)) (RtoC (3 / 5) * gv).
(** The limit for [e] to 0, with determinant 1. *)
Definition gG0 : mat :=
  mat22 (RtoC (3 / 5) * gw) (RtoC (- (4 / 5)) * Cconj gw) (RtoC (4 / 5) * gw) (RtoC (3 / 5) * Cconj gw).
Definition gW : mat :=
  mat22 (1 / 2, 1 / 2)%R (1 / 2, 1 / 2)%R (- (1 / 2), 1 / 2)%R (1 / 2, - (1 / 2))%R.

Lemma e_small : (e < / 1000000)%R.
Proof. eapply Rle_lt_trans; [exact e1|]. apply Rinv_lt_contravar; [|simpl; lra]. simpl. lra. Qed.

Lemma gc_sqr : (gc * gc = 1 - e * e)%R.
Proof. unfold gc. rewrite sqrt_sqrt; [ring|]. assert (S := e_small). nra. Qed.
Lemma gc_range : (1 - e * e <= gc <= 1)%R.
Proof.
  assert (S := gc_sqr). assert (0 <= gc)%R by apply sqrt_pos. assert (Z := e_small). nra.
Qed.

Ltac m2 := mat2; apply C_eq; unfold gM, gN, gG0, gW, mat22, mmul, adj, mid, mscale, gph, gv, gw; cbn -[gc Rdiv];
  unfold Rdiv.

Lemma gM_unitary : unitary_mx 2 gM.
Proof. assert (S := gc_sqr). m2; nra. Qed.
Lemma gW_special : special 2 gW.
Proof.
  split; [m2; field|]. rewrite det_2. apply C_eq; unfold gW, mat22; simpl; field.
Qed.

Lemma clean_R_keep x : (e <= Rabs x)%R -> clean_R e x = x.
Proof. intros H. apply clean_R_id. intros L. lra. Qed.
Lemma clean_R_opp x : clean_R e (- x) = (- clean_R e x)%R.
Proof. unfold clean_R. rewrite Rabs_Ropp. destruct (Rltb (Rabs x) e); ring. Qed.
Lemma clean_adj A : clean e (adj A) = adj (clean e A).
Proof.
  unfold clean, adj, clean_C, Cconj. cbn [fst snd].
  repeat (apply FunctionalExtensionality.functional_extensionality; intros ?). now rewrite clean_R_opp.
Qed.

Lemma clean_gM : meq 2 (clean e gM) gN.
Proof.
  assert (S := gc_range). assert (Z := e_small). assert (ee : (0 <= e * e <= e)%R) by nra.
  mat2; unfold clean, clean_C, gM, gN, mat22, gph, gv; cbn -[gc Rdiv]; apply C_eq; cbn -[gc Rdiv clean_R];
    try (rewrite clean_R_keep; [field|]; unfold Rabs; destruct (Rcase_abs _); lra).
  - unfold clean_R, Rltb. destruct (Rlt_dec _ _) as [L|L]; auto. exfalso. apply L.
    replace (3 / 5 * e + 0 * gc)%R with (3 / 5 * e)%R by ring. rewrite Rabs_pos_eq; lra.
  - unfold clean_R. rewrite Rabs_R0. unfold Rltb. destruct (Rlt_dec 0 e); lra.
Qed.

(** Determinant and phase. *)
Definition gy : C := (gc, 16 / 25 * e)%R.
Lemma det_gN : det 2 gN = gv * gy.
Proof. rewrite det_2. apply C_eq; unfold gN, mat22, gv, gy, gph; cbn -[gc Rdiv]; field. Qed.
Definition gD : R := Cmod gy.
Lemma gD_sqr : (gD * gD = 1 - 369 / 625 * (e * e))%R.
Proof.
  assert (S := gc_sqr). unfold gD. replace (Cmod gy * Cmod gy)%R with (Cmod gy ^ 2)%R by ring.
  rewrite Cmod2. unfold gy. cbn [fst snd]. nra.
Qed.
Lemma gD_range : (1 - e * e <= gD <= 1)%R.
Proof.
  assert (S := gD_sqr). assert (0 <= gD)%R by apply Cmod_ge_0. assert (Z := e_small). nra.
Qed.
Lemma Cmod_gv : Cmod gv = 1%R.
Proof. unfold Cmod, gv. cbn [fst snd]. replace (_ + _)%R with 1%R by field. apply sqrt_1. Qed.
Lemma Cmod_det_gN : Cmod (det 2 gN) = gD.
Proof. rewrite det_gN, Cmod_mult, Cmod_gv. unfold gD. ring. Qed.
Lemma det_gN_neq0 : det 2 gN <> 0.
Proof.
  intros E. assert (H := Cmod_det_gN). rewrite E, Cmod_0 in H. assert (D := gD_range). assert (Z := e_small). nra.
Qed.
Definition gom : C := croot 2 (/ det 2 gN).
Lemma gom_sqr : gom * gom = / det 2 gN.
Proof. apply croot2_sqr. apply Cinv_neq0, det_gN_neq0. Qed.
Lemma gom_mod : (Cmod gom * Cmod gom = / gD)%R.
Proof.
  rewrite <- Cmod_mult, gom_sqr, Cmod_inv by apply det_gN_neq0. now rewrite Cmod_det_gN.
Qed.
Lemma gom_near : (Cmod (gom - gw) <= 2 * e)%R.
Proof.
  assert (Z := e_small). assert (S := gc_range). assert (D := gD_range).
  assert (ee : (0 <= e * e <= e * / 1000000)%R) by nra.
  assert (N : gy <> 0) by (intros E; unfold gD in D; rewrite E, Cmod_0 in D; lra).
  assert (NV : gv <> 0) by (intros E; assert (H := Cmod_gv); rewrite E, Cmod_0 in H; lra).
  assert (GV : gw * gw * gv = 1) by (apply C_eq; unfold gv, gw; simpl; field).
  assert (E : (gom - gw) * (gom + gw) = gw * gw * ((1 - gy) * / gy)).
  { replace ((gom - gw) * (gom + gw)) with (gom * gom - gw * gw) by ring.
    rewrite gom_sqr, det_gN. replace (/ (gv * gy)) with (gw * gw * / gy).
    - field. exact N.
    - replace (/ (gv * gy)) with ((gw * gw * gv) * / (gv * gy)) by (rewrite GV; ring). field. auto. }
  apply (f_equal Cmod) in E. rewrite !Cmod_mult, Cmod_inv in E by exact N. fold gD in E.
  assert (W1 : (Cmod gw * Cmod gw = 1)%R).
  { replace (Cmod gw * Cmod gw)%R with (Cmod gw ^ 2)%R by ring. rewrite Cmod2. unfold gw. cbn [fst snd]. field. }
  rewrite W1, Rmult_1_l in E.
  assert (Y : (Cmod (1 - gy) <= e)%R).
  { eapply Rle_trans; [apply Cmod_le_parts|]. unfold gy. simpl fst. simpl snd.
    rewrite (Rabs_pos_eq (1 + - gc)) by lra. rewrite (Rabs_left (0 + - _)) by lra. lra. }
  assert (L : (4 / 5 <= Cmod (gom + gw))%R).
  { eapply Rle_trans; [|apply Re_le_Cmod]. unfold Re.
    change (fst (gom + gw)) with (fst gom + 4 / 5)%R.
    assert (P := croot2_re (/ det 2 gN)). fold gom in P. rewrite Rabs_pos_eq; lra. }
  assert (I : (/ gD <= 11 / 10)%R).
  { apply Rmult_le_reg_l with gD; [lra|]. rewrite Rinv_r by lra. lra. }
  assert (I0 : (0 < / gD)%R) by (apply Rinv_0_lt_compat; lra).
  assert (C0 := Cmod_ge_0 (gom - gw)). assert (Y0 := Cmod_ge_0 (1 - gy)).
  assert (T : (Cmod (1 - gy) * / gD <= e * (11 / 10))%R) by (apply Rmult_le_compat; lra).
  assert (T2 : (Cmod (gom - gw) * (4 / 5) <= Cmod (gom - gw) * Cmod (gom + gw))%R) by (apply Rmult_le_compat_l; lra).
  lra.
Qed.
Lemma gom_re : (0 < fst gom)%R.
Proof.
  assert (N := gom_near). assert (Z := e_small). assert (R := Re_le_Cmod (gom - gw)). unfold Re in R.
  change (fst (gom - gw)) with (fst gom - 4 / 5)%R in R. apply Rabs_le_between in R. lra.
Qed.

Definition gG : mat := mscale gom gN.
Lemma det_gG : det 2 gG = 1.
Proof. apply phase_det; [lia|]. apply det_gN_neq0. Qed.

(** ** How far it is from unitary *)
Definition gX : mat :=
  mat22 (RtoC (/ gD * (1 - 9 / 25 * (e * e)) - 1)) (0, - (12 / 25 * e * / gD))%R
        (0, 12 / 25 * e * / gD)%R (RtoC (/ gD - 1)).
Definition gQ : mat := mplus mid gX.

Lemma gom_conj : gom * Cconj gom = RtoC (/ gD).
Proof. rewrite Cmult_conj. f_equal. rewrite <- gom_mod. ring. Qed.

Lemma gram_gG : meq 2 (mmul 2 gG (adj gG)) gQ.
Proof.
  assert (D := gD_range). assert (Z := e_small). assert (S := gc_sqr).
  unfold gG. rewrite adj_mscale, mmul_mscale_l, mmul_mscale_r, mscale_mscale, gom_conj.
  mat2; apply C_eq; unfold gQ, gX, mplus, gN, mat22, mmul, adj, mid, mscale, gph, gv;
    cbn -[gc gD Rdiv]; try (field; nra); field_simplify_eq; try nra.
Qed.

Lemma ee_small : (0 < e * e <= / 1000000 * e)%R.
Proof. assert (Z := e_small). nra. Qed.

Lemma gD_inv : (1 <= / gD <= 1 + 2 * (e * e))%R.
Proof.
  assert (D := gD_range). assert (Z := ee_small). assert (Y := e_small).
  set (x := (e * e)%R) in *. assert (X : (0 < x <= / 2)%R) by lra.
  split.
  - rewrite <- Rinv_1. apply Rinv_le_contravar; lra.
  - apply Rmult_le_reg_l with gD; [lra|]. rewrite Rinv_r by lra.
    apply Rle_trans with ((1 - x) * (1 + 2 * x))%R; [nra|]. apply Rmult_le_compat_r; lra.
Qed.

Lemma gX_entry i j : (i < 2)%nat -> (j < 2)%nat -> (Cmod (gX i j) <= e / 2)%R.
Proof.
  assert (D := gD_inv). assert (Z := ee_small). assert (Y := e_small). revert i j.
  assert (H : (0 <= e * / gD <= e * (1 + 2 * (e * e)))%R) by (split; [apply Rmult_le_pos|apply Rmult_le_compat_l]; lra).
  assert (H2 : (0 <= e * (e * e) <= e * / 1000000)%R) by nra.
  assert (H3 : (0 <= / gD * (e * e) <= 2 * (e * e))%R) by nra.
  mat2; (eapply Rle_trans; [apply Cmod_le_parts|]); unfold gX, mat22; cbn -[gD Rdiv];
    rewrite ?Rabs_R0; unfold Rabs; repeat destruct (Rcase_abs _); lra.
Qed.
Lemma fro_gX : (fro 2 gX <= e)%R.
Proof.
  assert (H := fro_entries gX (e / 2)%R). replace e with (2 * (e / 2))%R at 1 by field.
  apply H; [lra|]. apply gX_entry.
Qed.
Lemma tol_e : (e <= / 10 ^ 8)%R.
Proof. eapply Rle_trans; [exact e1|]. apply Rinv_le_contravar; simpl; lra. Qed.

Lemma near_of A X : meq 2 (mmul 2 A (adj A)) (mplus mid X) ->
  (forall i j, (i < 2)%nat -> (j < 2)%nat -> (Cmod (X i j) <= e)%R) -> near_unitary 2 A.
Proof.
  intros H HX i j Hi Hj. rewrite (H i j Hi Hj). unfold mplus.
  replace (mid i j + X i j - mid i j) with (X i j) by ring.
  eapply Rle_trans; [now apply HX|]. eapply Rle_trans; [apply tol_e|].
  assert (0 < / 10 ^ 5)%R by (apply Rinv_0_lt_compat, pow_lt; lra).
  destruct (Nat.eqb i j); lra.
Qed.
Lemma near_gG : near_unitary 2 gG.
Proof.
  apply (near_of gG gX); [apply gram_gG|]. intros i j Hi Hj. assert (H := gX_entry i j Hi Hj). lra.
Qed.

(** The other order of the factors. *)
Definition gX' : mat := mminus (mmul 2 (adj gG) gG) mid.
Lemma gram_gG' : meq 2 gX' (mminus (mscale (RtoC (/ gD)) (mmul 2 (adj gN) gN)) mid).
Proof.
  unfold gX', gG. rewrite adj_mscale, mmul_mscale_l, mmul_mscale_r, mscale_mscale.
  now rewrite (Cmult_comm (Cconj gom)), gom_conj.
Qed.
Lemma gX'_entry i j : (i < 2)%nat -> (j < 2)%nat -> (Cmod (gX' i j) <= e)%R.
Proof.
  intros Hi Hj. rewrite (gram_gG' i j Hi Hj). revert i j Hi Hj.
  assert (D := gD_inv). assert (Z := ee_small). assert (Y := e_small). assert (S := gc_sqr). assert (R := gc_range).
  assert (NN : meq 2 (mmul 2 (adj gN) gN)
     (mat22 (RtoC (1 - 9 / 25 * (e * e))) (12 / 25 * (7 / 25 * (e * e) + 24 / 25 * (gc * e)), 12 / 25 * (24 / 25 * (e * e) - 7 / 25 * (gc * e)))%R
            (12 / 25 * (7 / 25 * (e * e) + 24 / 25 * (gc * e)), - (12 / 25 * (24 / 25 * (e * e) - 7 / 25 * (gc * e))))%R (RtoC 1))).
  { mat2; apply C_eq; unfold gN, mat22, mmul, adj, mid, mscale, gph, gv;
      cbn -[gc gD Rdiv]; nra. }
  assert (H : (0 <= gc * e <= e)%R) by nra.
  intros i j Hi Hj. unfold mminus, mscale. rewrite (NN i j Hi Hj). clear NN. revert i j Hi Hj.
  assert (H1 : (0 <= / gD * (gc * e) <= e * (1 + 2 * (e * e)))%R).
  { split; [apply Rmult_le_pos; lra|]. rewrite (Rmult_comm e). apply Rmult_le_compat; lra. }
  assert (H2 : (0 <= e * (e * e) <= e * / 1000000)%R) by nra.
  assert (H3 : (0 <= / gD * (e * e) <= 2 * (e * e))%R) by nra.
  mat2; (eapply Rle_trans; [apply Cmod_le_parts|]); unfold mat22, mid; cbn -[gD gc Rdiv];
    unfold Rabs; repeat destruct (Rcase_abs _); lra.
Qed.
Lemma near_gG' : near_unitary 2 (adj gG).
Proof.
  apply (near_of (adj gG) gX'); [|apply gX'_entry]. rewrite adj_adj.
  intros i j _ _. unfold gX', mplus, mminus. ring.
Qed.

(** ** No component of the partial products is small *)
Lemma Cmod_gph : Cmod gph = 1%R.
Proof.
  unfold Cmod, gph. cbn [fst snd]. replace (gc ^ 2 + e ^ 2)%R with 1%R; [apply sqrt_1|].
  assert (S := gc_sqr). nra.
Qed.
Lemma Cmod_gw : Cmod gw = 1%R.
Proof. unfold Cmod, gw. cbn [fst snd]. replace (_ + _)%R with 1%R by field. apply sqrt_1. Qed.
Definition gM0 : mat :=
  mat22 (RtoC (3 / 5)) (RtoC (- (4 / 5)) * gv) (RtoC (4 / 5)) (RtoC (3 / 5) * gv).
Lemma gG0_as : meq 2 gG0 (mscale gw gM0).
Proof. mat2; apply C_eq; unfold gG0, gM0, mscale, mat22, gv, gw; cbn -[Rdiv]; field. Qed.

Lemma gN_entry i j : (i < 2)%nat -> (j < 2)%nat -> (Cmod (gN i j) <= 1)%R.
Proof.
  assert (R := gc_range). assert (Z := ee_small). assert (Y := e_small).
  revert i j; mat2; unfold gN; cbn [mat22]; rewrite ?Cmod_mult, ?Cmod_R, ?Cmod_gv, ?Cmod_gph;
    unfold Rabs; destruct (Rcase_abs _); lra.
Qed.
Lemma gN_M0 i j : (i < 2)%nat -> (j < 2)%nat -> (Cmod (gN i j - gM0 i j) <= 2 * e)%R.
Proof.
  assert (R := gc_range). assert (Z := ee_small). assert (Y := e_small).
  revert i j; mat2; unfold gN, gM0; cbn [mat22].
  - rewrite <- RtoC_minus, Cmod_R. unfold Rabs; destruct (Rcase_abs _); lra.
  - replace (RtoC (- (4 / 5)) * (gv * gph) - RtoC (- (4 / 5)) * gv) with (RtoC (- (4 / 5)) * gv * (gph - 1)) by ring.
    rewrite !Cmod_mult, Cmod_R, Cmod_gv.
    assert (H : (Cmod (gph - 1) <= 2 * e)%R).
    { eapply Rle_trans; [apply Cmod_le_parts|]. unfold gph. cbn -[gc].
      unfold Rabs; repeat destruct (Rcase_abs _); lra. }
    assert (H0 := Cmod_ge_0 (gph - 1)). rewrite Rabs_left by lra. lra.
  - replace (RtoC (4 / 5) - RtoC (4 / 5)) with (RtoC 0) by ring. rewrite Cmod_0. lra.
  - replace (_ - _) with (RtoC 0) by ring. rewrite Cmod_0. lra.
Qed.
Lemma fro_gG : (fro 2 (mminus gG gG0) <= 8 * e)%R.
Proof.
  replace (8 * e)%R with (2 * (4 * e))%R by ring. apply fro_entries; [lra|]. intros i j Hi Hj.
  unfold mminus. rewrite (gG0_as i j Hi Hj). unfold gG, mscale.
  replace (gom * gN i j - gw * gM0 i j) with ((gom - gw) * gN i j + gw * (gN i j - gM0 i j)) by ring.
  eapply Rle_trans; [apply Cmod_triangle|]. rewrite !Cmod_mult, Cmod_gw.
  assert (A := gom_near). assert (B := gN_entry i j Hi Hj). assert (D := gN_M0 i j Hi Hj).
  assert (A0 := Cmod_ge_0 (gom - gw)). assert (B0 := Cmod_ge_0 (gN i j)). nra.
Qed.

Lemma thick_gG0 : thick (3 / 10) gG0.
Proof.
  mat2; unfold gG0, gw, mat22; cbn -[Rdiv]; split; unfold Rabs; destruct (Rcase_abs _); lra.
Qed.
Lemma thick_adj t A : thick t A -> thick t (adj A).
Proof.
  intros H i j Hi Hj. destruct (H j i Hj Hi) as [H1 H2]. unfold adj, Cconj. cbn [fst snd].
  now rewrite Rabs_Ropp.
Qed.
Lemma thick_gW : thick (3 / 10) gW.
Proof.
  mat2; unfold gW, mat22; cbn -[Rdiv]; split; unfold Rabs; destruct (Rcase_abs _); lra.
Qed.
Lemma thick_GW : thick (3 / 10) (mmul 2 (adj gG0) gW).
Proof.
  mat2; unfold mmul, adj, gG0, gw, gW, mat22; cbn -[Rdiv]; split; unfold Rabs; destruct (Rcase_abs _); lra.
Qed.
Lemma clean_gG : eps_clean e 2 gG.
Proof.
  assert (Y := e_small). apply thick_clean with (B := gG0); [lra|apply thick_gG0|].
  assert (H := fro_gG). lra.
Qed.
Lemma clean_gG' : eps_clean e 2 (adj gG).
Proof. apply eps_clean_adj, clean_gG. Qed.

Lemma fro_gW : (fro 2 gW <= 3 / 2)%R.
Proof.
  rewrite fro_unitary by apply gW_special. apply sqr_le_le; [lra|].
  rewrite pow2_sqrt by apply pos_INR. simpl. lra.
Qed.
Lemma fro_gG0 : (fro 2 gG0 <= 3 / 2)%R.
Proof.
  assert (U : unitary_mx 2 gG0).
  { mat2; apply C_eq; unfold gG0, gw, mat22, mmul, adj, mid; cbn -[Rdiv]; field. }
  rewrite (fro_unitary _ _ U). apply sqr_le_le; [lra|].
  rewrite pow2_sqrt by apply pos_INR. simpl. lra.
Qed.
Lemma fro_gG_abs : (fro 2 (adj gG) <= 2)%R.
Proof.
  rewrite fro_adj. assert (H := fro_triangle 2 (mminus gG gG0) gG0).
  replace (fro 2 (mplus (mminus gG gG0) gG0)) with (fro 2 gG) in H.
  - assert (A := fro_gG). assert (B := fro_gG0). assert (Y := e_small). lra.
  - apply fro_proper. intros i j _ _. unfold mplus, mminus. ring.
Qed.

Notation Qk k := (mpow 2 gQ k).
Lemma Qk_near k : (INR k * e <= / 1000)%R -> (fro 2 (mminus (Qk k) mid) <= 2 * (INR k * e))%R.
Proof.
  intros Hk. assert (K0 := pos_INR k).
  assert (H := mpow_first_order 2 gX gQ e ltac:(reflexivity) fro_gX k ltac:(lra)).
  assert (EQ : meq 2 (mminus (Qk k) mid)
     (mplus (mminus (Qk k) (mplus mid (mscale (RtoC (INR k)) gX))) (mscale (RtoC (INR k)) gX))).
  { intros i j _ _. unfold mplus, mminus. ring. }
  rewrite EQ. eapply Rle_trans; [apply fro_triangle|]. rewrite fro_mscale, Cmod_R, Rabs_pos_eq by auto.
  assert (X := fro_gX). assert (0 <= INR k * e)%R by nra.
  assert (INR k * fro 2 gX <= INR k * e)%R by (apply Rmult_le_compat_l; lra). nra.
Qed.

Lemma QW_near k : (INR k * e <= / 1000)%R -> (fro 2 (mminus (mmul 2 (Qk k) gW) gW) <= 3 * (INR k * e))%R.
Proof.
  intros Hk. assert (EQ : meq 2 (mminus (mmul 2 (Qk k) gW) gW) (mmul 2 (mminus (Qk k) mid) gW)).
  { rewrite mmul_mminus_l, mmul_1_l. reflexivity. }
  rewrite EQ. eapply Rle_trans; [apply fro_mmul|].
  assert (A := Qk_near k Hk). assert (B := fro_gW). assert (A0 := fro_nonneg 2 (mminus (Qk k) mid)).
  assert (B0 := fro_nonneg 2 gW). nra.
Qed.
Lemma clean_QW k : (INR k * e <= / 1000)%R -> eps_clean e 2 (mmul 2 (Qk k) gW).
Proof.
  intros Hk. assert (Y := e_small). apply thick_clean with (B := gW); [lra|apply thick_gW|].
  assert (H := QW_near k Hk). lra.
Qed.
Lemma clean_GQW k : (INR k * e <= / 1000)%R -> eps_clean e 2 (mmul 2 (adj gG) (mmul 2 (Qk k) gW)).
Proof.
  intros Hk. assert (Y := e_small).
  apply thick_clean with (B := mmul 2 (adj gG0) gW); [lra|apply thick_GW|].
  assert (EQ : meq 2 (mminus (mmul 2 (adj gG) (mmul 2 (Qk k) gW)) (mmul 2 (adj gG0) gW))
    (mplus (mmul 2 (adj gG) (mminus (mmul 2 (Qk k) gW) gW)) (mmul 2 (mminus (adj gG) (adj gG0)) gW))).
  { rewrite mmul_mminus_l, mmul_mminus_r. intros i j _ _. unfold mplus, mminus. ring. }
  rewrite EQ. eapply Rle_trans; [apply fro_triangle|].
  assert (A1 := fro_mmul 2 (adj gG) (mminus (mmul 2 (Qk k) gW) gW)).
  assert (A2 := fro_mmul 2 (mminus (adj gG) (adj gG0)) gW).
  assert (A3 := QW_near k Hk). assert (A4 := fro_gG_abs). assert (A5 := fro_gW). assert (A6 := fro_gG).
  assert (A7 : fro 2 (mminus (adj gG) (adj gG0)) = fro 2 (mminus gG gG0)).
  { rewrite <- fro_adj. apply fro_proper. intros i j _ _. unfold adj, mminus. rewrite Cconj_minus. unfold Cconj. cbn [fst snd].
    rewrite !Ropp_involutive. now rewrite <- !surjective_pairing. }
  rewrite A7 in A2.
  assert (P1 := fro_nonneg 2 (adj gG)). assert (P2 := fro_nonneg 2 (mminus (mmul 2 (Qk k) gW) gW)).
  assert (P3 := fro_nonneg 2 (mminus gG gG0)). assert (P4 := fro_nonneg 2 gW).
  assert (B1 : (fro 2 (adj gG) * fro 2 (mminus (mmul 2 (Qk k) gW) gW) <= 2 * (3 * (INR k * e)))%R)
    by (apply Rmult_le_compat; auto).
  assert (B2 : (fro 2 (mminus gG gG0) * fro 2 gW <= 8 * e * (3 / 2))%R) by (apply Rmult_le_compat; auto).
  lra.
Qed.

Lemma det_gQ : det 2 gQ = 1.
Proof.
  rewrite <- (@det_ext 2 _ _ gram_gG), det_mmul, det_adj, det_gG.
  apply C_eq; simpl; ring.
Qed.
Lemma det_QW k : det 2 (mmul 2 (Qk k) gW) = 1.
Proof.
  rewrite det_mmul, (proj2 gW_special), Cmult_1_r. induction k as [|k IH]; cbn [mpow].
  - apply (special_mid 2).
  - rewrite det_mmul, IH, det_gQ. ring.
Qed.
Lemma det_GQW k : det 2 (mmul 2 (adj gG) (mmul 2 (Qk k) gW)) = 1.
Proof. rewrite det_mmul, det_QW, det_adj, det_gG. apply C_eq; simpl; ring. Qed.
Lemma step_GQW k :
  meq 2 (mmul 2 gG (mmul 2 (adj gG) (mmul 2 (Qk k) gW))) (mmul 2 (Qk (S k)) gW).
Proof. cbn [mpow]. rewrite (mmul_assoc 2 gG), gram_gG. now rewrite mmul_assoc. Qed.

(** ** After enough steps the unitarity check fails *)
Lemma adj_gQ : meq 2 (adj gQ) gQ.
Proof. rewrite <- gram_gG, adj_mmul, adj_adj. reflexivity. Qed.
Lemma mpow_add k m : meq 2 (mmul 2 (Qk k) (Qk m)) (Qk (k + m)).
Proof.
  induction k as [|k IH]; cbn [mpow Nat.add]; [now rewrite mmul_1_l|].
  rewrite <- mmul_assoc. now rewrite IH.
Qed.
Lemma gram_QW k : meq 2 (mmul 2 (mmul 2 (Qk k) gW) (adj (mmul 2 (Qk k) gW))) (Qk (k + k)).
Proof.
  rewrite adj_mmul. rewrite <- mmul_assoc, (mmul_assoc 2 gW), (unitary_right _ _ (proj1 gW_special)), mmul_1_l.
  rewrite adj_mpow. rewrite (mpow_meq 2 _ _ k adj_gQ). apply mpow_add.
Qed.

Lemma not_near k : (11 / 10 ^ 9 <= INR k * e)%R -> (INR k * e <= 12 / 10 ^ 9)%R ->
  ~ near_unitary 2 (mmul 2 (Qk k) gW).
Proof.
  intros L U H. specialize (H 0%nat 1%nat ltac:(lia) ltac:(lia)).
  rewrite (gram_QW k 0%nat 1%nat) in H by lia. cbn [mid Nat.eqb] in H.
  set (N := (k + k)%nat) in *.
  assert (EN : (INR N * e = 2 * (INR k * e))%R) by (unfold N; rewrite plus_INR; ring).
  assert (F := mpow_first_order 2 gX gQ e ltac:(reflexivity) fro_gX N ltac:(simpl in U; lra)).
  assert (E := fro_entry 2 _ 0%nat 1%nat ltac:(lia) ltac:(lia)
     : (Cmod (mminus (Qk N) (mplus mid (mscale (RtoC (INR N)) gX)) 0%nat 1%nat) <= _)%R).
  assert (EX : mminus (Qk N) (mplus mid (mscale (RtoC (INR N)) gX)) 0%nat 1%nat
             = (Qk N 0%nat 1%nat - mid 0%nat 1%nat) - RtoC (INR N) * gX 0%nat 1%nat).
  { unfold mminus, mplus, mscale. ring. }
  rewrite EX in E. 
  assert (T := Cmod_triangle (RtoC (INR N) * gX 0%nat 1%nat - (Qk N 0%nat 1%nat - mid 0%nat 1%nat)) (Qk N 0%nat 1%nat - mid 0%nat 1%nat)).
  replace (RtoC (INR N) * gX 0%nat 1%nat - (Qk N 0%nat 1%nat - mid 0%nat 1%nat) + (Qk N 0%nat 1%nat - mid 0%nat 1%nat))
    with (RtoC (INR N) * gX 0%nat 1%nat) in T by ring.
  assert (M : (12 / 25 * (INR N * e) <= Cmod (RtoC (INR N) * gX 0%nat 1%nat))%R).
  { eapply Rle_trans; [|apply Im_le_Cmod]. unfold Im, gX. cbn [mat22]. cbn -[gD Rdiv N INR].
    assert (D := gD_inv). assert (I := pos_INR N).
    assert (X : (12 / 25 * (INR N * e) <= 12 / 25 * (INR N * e) * / gD)%R).
    { rewrite <- (Rmult_1_r (12 / 25 * (INR N * e))) at 1. apply Rmult_le_compat_l; [|lra]. nra. }
    rewrite Rabs_left1; nra. }
  rewrite <- Cmod_opp in E.
  replace (- (Qk N 0%nat 1%nat - mid 0%nat 1%nat - RtoC (INR N) * gX 0%nat 1%nat))
    with (RtoC (INR N) * gX 0%nat 1%nat - (Qk N 0%nat 1%nat - mid 0%nat 1%nat)) in E by ring.
  cbn [mid Nat.eqb] in E, T.
  simpl in L, U, H. nra.
Qed.
End Gate.
