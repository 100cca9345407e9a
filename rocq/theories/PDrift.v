(** How far the constructor moves a matrix: perturbation of determinants,
    principal roots near 1, and the resulting bound for one constructor call. *)
From Coq Require Import Reals List Arith Lia Lra Psatz String.
From Coquelicot Require Import Rcomplements Complex.
From Verif Require Import Base CMat CMatFacts Det DetFacts CRoot Norms ModelUnitary Spec PUnitary.
Open Scope R_scope.
Open Scope C_scope.

(** ** Determinants *)
Fixpoint rprod (n : nat) (f : nat -> R) : R :=
  match n with O => 1%R | S k => (f 0%nat * rprod k (fun i => f (S i)))%R end.

Lemma rprod_pos n f : (forall i, (i < n)%nat -> (0 <= f i)%R) -> (0 <= rprod n f)%R.
Proof.
  revert f; induction n as [|n IH]; intros f H; simpl; [lra|].
  apply Rmult_le_pos; [apply H; lia|]. apply IH. intros i Hi. apply H. lia.
Qed.

Lemma rsum_S_l n f : rsum (S n) f = (f 0%nat + rsum n (fun i => f (S i)))%R.
Proof.
  induction n as [|n IH]; [simpl; ring|].
  change (rsum (S (S n)) f) with (rsum (S n) f + f (S n))%R. rewrite IH. simpl. ring.
Qed.

(** Dropping one column. *)
Lemma rsum_minor n (f : nat -> R) j :
  (j < S n)%nat -> (forall i, (i < S n)%nat -> (0 <= f i)%R) ->
  (rsum n (fun c => f (if Nat.ltb c j then c else S c)) <= rsum (S n) f)%R.
Proof.
  revert f j; induction n as [|n IH]; intros f j Hj Hf.
  - simpl. specialize (Hf 0%nat ltac:(lia)). lra.
  - destruct j as [|j].
    + change (fun c => f (if Nat.ltb c 0 then c else S c)) with (fun c => f (S c)).
      rewrite (rsum_S_l (S n) f). specialize (Hf 0%nat ltac:(lia)). lra.
    + rewrite (rsum_S_l n), (rsum_S_l (S n)). change (if Nat.ltb 0 (S j) then 0 else 1)%nat with 0%nat.
      apply Rplus_le_compat_l.
      rewrite (rsum_ext n _ (fun c => (fun k => f (S k)) (if Nat.ltb c j then c else S c))).
      * apply (IH (fun k => f (S k)) j); [lia|]. intros i Hi. apply Hf. lia.
      * intros i Hi. change (Nat.ltb (S i) (S j)) with (Nat.ltb i j).
        destruct (Nat.ltb i j); reflexivity.
Qed.

Lemma Cmod_sign j : Cmod (cpow (- (1)) j) = 1%R.
Proof. rewrite Cmod_cpow, Cmod_opp, Cmod_1. apply pow1. Qed.

Lemma det_abs n : forall (B : mat) (b : nat -> R),
  (forall i, (i < n)%nat -> (rsum n (fun j => Cmod (B i j)) <= b i)%R) ->
  (Cmod (det n B) <= rprod n b)%R.
Proof.
  induction n as [|n IH]; intros B b H.
  - rewrite det_0, Cmod_1. simpl. lra.
  - rewrite det_expand. eapply Rle_trans; [apply Cmod_csum_le|].
    assert (Hb : (0 <= rprod n (fun i => b (S i)))%R).
    { apply rprod_pos. intros i Hi. eapply Rle_trans; [|apply (H (S i) ltac:(lia))].
      apply rsum_nonneg. intros. apply Cmod_ge_0. }
    apply Rle_trans with (rsum (S n) (fun j => (Cmod (B 0%nat j) * rprod n (fun i => b (S i)))%R)).
    + apply rsum_le. intros j Hj. rewrite !Cmod_mult, Cmod_sign, Rmult_1_l.
      apply Rmult_le_compat_l; [apply Cmod_ge_0|]. apply IH. intros i Hi.
      eapply Rle_trans; [|apply (H (S i) ltac:(lia))].
      apply (rsum_minor n (fun c => Cmod (B (S i) c))); auto. intros; apply Cmod_ge_0.
    + rewrite rsum_mult_r. cbn [rprod]. apply Rmult_le_compat_r; auto. apply H. lia.
Qed.

Lemma det_perturb n : forall (B Z : mat) (b z : nat -> R),
  (forall i, (i < n)%nat -> (rsum n (fun j => Cmod (B i j)) <= b i)%R) ->
  (forall i, (i < n)%nat -> (rsum n (fun j => Cmod (Z i j)) <= z i)%R) ->
  (Cmod (det n (mplus B Z) - det n B) <= rprod n (fun i => (b i + z i)%R) - rprod n b)%R.
Proof.
  induction n as [|n IH]; intros B Z b z HB HZ.
  - rewrite !det_0. replace (RtoC 1 - RtoC 1) with (RtoC 0) by ring. rewrite Cmod_0. simpl. lra.
  - assert (Hbz : forall i, (i < S n)%nat ->
      (rsum (S n) (fun j => Cmod (mplus B Z i j)) <= b i + z i)%R).
    { intros i Hi. eapply Rle_trans; [|apply Rplus_le_compat; [apply HB|apply HZ]; exact Hi].
      rewrite <- rsum_plus. apply rsum_le. intros j Hj. apply Cmod_triangle. }
    assert (Hb0 : forall i, (i < S n)%nat -> (0 <= b i)%R).
    { intros i Hi. eapply Rle_trans; [|apply HB; exact Hi]. apply rsum_nonneg; intros; apply Cmod_ge_0. }
    assert (Hz0 : forall i, (i < S n)%nat -> (0 <= z i)%R).
    { intros i Hi. eapply Rle_trans; [|apply HZ; exact Hi]. apply rsum_nonneg; intros; apply Cmod_ge_0. }
    set (P := rprod n (fun i => (b (S i) + z (S i))%R)).
    set (Q := rprod n (fun i => b (S i))).
    assert (HP : (0 <= P)%R).
    { apply rprod_pos. intros i Hi. apply Rplus_le_le_0_compat; [apply Hb0|apply Hz0]; lia. }
    assert (HD : forall j, (j < S n)%nat ->
      (Cmod (det n (fun r c => mplus B Z (S r) (if Nat.ltb c j then c else S c))) <= P)%R /\
      (Cmod (det n (fun r c => mplus B Z (S r) (if Nat.ltb c j then c else S c))
             - det n (fun r c => B (S r) (if Nat.ltb c j then c else S c))) <= P - Q)%R).
    { intros j Hj. split.
      - apply det_abs. intros i Hi. eapply Rle_trans; [|apply (Hbz (S i) ltac:(lia))].
        apply (rsum_minor n (fun c => Cmod (mplus B Z (S i) c))); auto. intros; apply Cmod_ge_0.
      - apply (IH (fun r c => B (S r) (if Nat.ltb c j then c else S c))
                  (fun r c => Z (S r) (if Nat.ltb c j then c else S c))).
        + intros i Hi. eapply Rle_trans; [|apply (HB (S i) ltac:(lia))].
          apply (rsum_minor n (fun c => Cmod (B (S i) c))); auto. intros; apply Cmod_ge_0.
        + intros i Hi. eapply Rle_trans; [|apply (HZ (S i) ltac:(lia))].
          apply (rsum_minor n (fun c => Cmod (Z (S i) c))); auto. intros; apply Cmod_ge_0. }
    assert (HPQ : (0 <= P - Q)%R).
    { destruct (HD 0%nat ltac:(lia)) as [_ H]. eapply Rle_trans; [apply Cmod_ge_0|exact H]. }
    rewrite !det_expand, <- csum_minus. eapply Rle_trans; [apply Cmod_csum_le|].
    apply Rle_trans with (rsum (S n) (fun j => (Cmod (Z 0%nat j) * P + Cmod (B 0%nat j) * (P - Q))%R)).
    + apply rsum_le. intros j Hj. destruct (HD j Hj) as [H1 H2].
      set (DD := det n (fun r c => mplus B Z (S r) (if Nat.ltb c j then c else S c))) in *.
      set (DB := det n (fun r c => B (S r) (if Nat.ltb c j then c else S c))) in *.
      replace (mplus B Z 0%nat j * (cpow (- (1)) j * DD) - B 0%nat j * (cpow (- (1)) j * DB))
        with (cpow (- (1)) j * (Z 0%nat j * DD + B 0%nat j * (DD - DB)))
        by (unfold mplus; ring).
      rewrite Cmod_mult, Cmod_sign, Rmult_1_l. eapply Rle_trans; [apply Cmod_triangle|].
      rewrite !Cmod_mult. apply Rplus_le_compat; apply Rmult_le_compat_l; auto; apply Cmod_ge_0.
    + rewrite rsum_plus, !rsum_mult_r. cbn [rprod]. fold P Q.
      assert (A1 := HB 0%nat ltac:(lia)). assert (A2 := HZ 0%nat ltac:(lia)).
      assert (A3 := Hb0 0%nat ltac:(lia)). assert (A4 := Hz0 0%nat ltac:(lia)).
      nra.
Qed.

Lemma rprod_exp n f : (forall i, (i < n)%nat -> (0 <= 1 + f i)%R) ->
  (rprod n (fun i => (1 + f i)%R) <= exp (rsum n f))%R.
Proof.
  revert f; induction n as [|n IH]; intros f H.
  - simpl. rewrite exp_0. lra.
  - rewrite rsum_S_l, exp_plus. cbn [rprod].
    apply Rmult_le_compat; [apply H; lia| |apply exp_ineq1_le|].
    + apply rprod_pos. intros i Hi. apply H. lia.
    + apply IH. intros i Hi. apply H. lia.
Qed.

Lemma rprod_split n f g :
  (forall i, (i < n)%nat -> (0 <= f i)%R) -> (forall i, (i < n)%nat -> (0 <= g i)%R) ->
  (rprod n (fun i => (1 + f i + g i)%R) - rprod n (fun i => (1 + f i)%R)
   <= rprod n (fun i => (1 + f i)%R) * (rprod n (fun i => (1 + g i)%R) - 1))%R.
Proof.
  intros Hf Hg.
  assert (G : (rprod n (fun i => (1 + f i + g i)%R)
               <= rprod n (fun i => (1 + f i)%R) * rprod n (fun i => (1 + g i)%R))%R).
  { revert f g Hf Hg; induction n as [|n IH]; intros f g Hf Hg; simpl; [lra|].
    assert (A := Hf 0%nat ltac:(lia)). assert (B := Hg 0%nat ltac:(lia)).
    assert (I := IH (fun i => f (S i)) (fun i => g (S i))
                    ltac:(intros; apply Hf; lia) ltac:(intros; apply Hg; lia)).
    cbv beta in I.
    set (X := rprod n (fun i => (1 + f (S i) + g (S i))%R)) in *.
    set (Y := rprod n (fun i => (1 + f (S i))%R)) in *.
    set (Z := rprod n (fun i => (1 + g (S i))%R)) in *.
    assert (0 <= X)%R.
    { apply rprod_pos. intros i Hi. specialize (Hf (S i) ltac:(lia)). specialize (Hg (S i) ltac:(lia)). lra. }
    apply Rle_trans with ((1 + f 0%nat) * (1 + g 0%nat) * X)%R.
    - apply Rmult_le_compat_r; auto. nra.
    - replace ((1 + f 0%nat) * Y * ((1 + g 0%nat) * Z))%R
        with ((1 + f 0%nat) * (1 + g 0%nat) * (Y * Z))%R by ring.
      apply Rmult_le_compat_l; auto. nra. }
  lra.
Qed.

(** Sum of the moduli of all entries. *)
Lemma rsum_abs_fro n A :
  (rsum n (fun i => rsum n (fun j => Cmod (A i j))) <= INR n * fro n A)%R.
Proof.
  assert (E : rsum n (fun i => rsum n (fun j => Cmod (A i j)))
              = rsum (n * n) (fun k => (1 * Cmod (A (k / n)%nat (k mod n)%nat))%R)).
  { destruct (Nat.eq_dec n 0) as [->|Hn0]; [reflexivity|].
    rewrite rsum_prod by lia. apply rsum_ext. intros i Hi. apply rsum_ext. intros j Hj.
    rewrite Rmult_1_l. replace ((i * n + j) / n)%nat with i.
    - replace ((i * n + j) mod n)%nat with j; auto.
      rewrite Nat.add_comm, Nat.mod_add, Nat.mod_small; lia.
    - rewrite Nat.add_comm, Nat.div_add, Nat.div_small; lia. }
  rewrite E.
  assert (K := rsum_cauchy (n * n) (fun _ => 1%R) (fun k => Cmod (A (k / n)%nat (k mod n)%nat))).
  cbv beta in K.
  apply sqr_le_le.
  - apply Rmult_le_pos; [apply pos_INR|apply fro_nonneg].
  - rewrite Rpow_mult_distr, fro_sqr, fro2_flat. eapply Rle_trans; [exact K|].
    rewrite (rsum_ext (n*n) (fun i => (1 ^ 2)%R) (fun _ => 1%R)) by (intros; ring).
    rewrite rsum_const, mult_INR. apply Req_le. unfold vnorm2. simpl. ring.
Qed.

Lemma exp_le_inv s : (0 <= s < 1 -> exp s <= / (1 - s))%R.
Proof.
  intros H. assert (A := exp_ineq1_le (- s)). assert (0 < exp s)%R by apply exp_pos.
  assert (B : (exp s * exp (- s) = 1)%R) by (rewrite <- exp_plus, Rplus_opp_r; apply exp_0).
  apply Rmult_le_reg_r with (1 - s)%R; [lra|]. rewrite Rinv_l by lra. nra.
Qed.

(** Near a special unitary matrix, the determinant moves slowly. *)
Lemma det_near d P A B e z :
  special d P -> (fro d (mminus A P) <= e)%R -> (fro d (mminus B A) <= z)%R ->
  (INR d * e <= / 100)%R -> (INR d * z <= / 100)%R ->
  (Cmod (det d B - det d A) <= 103 / 100 * (INR d * z))%R.
Proof.
  intros [HU HD] He Hz Hde Hdz.
  assert (HU' := unitary_adj _ _ HU).
  set (Y := mmul d (adj P) (mminus A P)). set (Z := mmul d (adj P) (mminus B A)).
  assert (HdP : det d (adj P) = 1) by (rewrite det_adj, HD; apply Cconj_R).
  assert (EA : det d A = det d (mplus mid Y)).
  { replace (det d A) with (det d (adj P) * det d A) by (rewrite HdP; ring).
    rewrite <- det_mmul. apply det_ext. unfold Y. rewrite mmul_mminus_r.
    rewrite (unitary_left _ _ HU). intros i j _ _. unfold mplus, mminus. ring. }
  assert (EB : det d B = det d (mplus (mplus mid Y) Z)).
  { replace (det d B) with (det d (adj P) * det d B) by (rewrite HdP; ring).
    rewrite <- det_mmul. apply det_ext. unfold Y, Z. rewrite !mmul_mminus_r.
    rewrite (unitary_left _ _ HU). intros i j _ _. unfold mplus, mminus. ring. }
  rewrite EA, EB.
  assert (FY : (fro d Y <= e)%R) by (unfold Y; now rewrite fro_unitary_l).
  assert (FZ : (fro d Z <= z)%R) by (unfold Z; now rewrite fro_unitary_l).
  set (y := fun i => rsum d (fun j => Cmod (Y i j))).
  set (zz := fun i => rsum d (fun j => Cmod (Z i j))).
  assert (Hy : forall i, (i < d)%nat -> (0 <= y i)%R) by (intros; apply rsum_nonneg; intros; apply Cmod_ge_0).
  assert (Hzz : forall i, (i < d)%nat -> (0 <= zz i)%R) by (intros; apply rsum_nonneg; intros; apply Cmod_ge_0).
  eapply Rle_trans.
  { apply (det_perturb d (mplus mid Y) Z (fun i => (1 + y i)%R) zz).
    - intros i Hi. apply Rle_trans with (rsum d (fun j => Cmod (mid i j)) + y i)%R.
      + unfold y. rewrite <- rsum_plus. apply rsum_le. intros j Hj. apply Cmod_triangle.
      + apply Rplus_le_compat_r. apply Req_le.
        assert (E1 : RtoC (rsum d (fun j => Cmod (mid i j))) = RtoC 1).
        { rewrite <- csum_RtoC. rewrite (csum_single d i); auto.
          - rewrite Cmod_mid, Nat.eqb_refl. reflexivity.
          - intros j Hj Hne. rewrite Cmod_mid. apply not_eq_sym, Nat.eqb_neq in Hne. now rewrite Hne. }
        now apply RtoC_inj in E1.
    - intros i Hi. apply Rle_refl. }
  eapply Rle_trans; [apply rprod_split; auto|].
  assert (Sy : (rsum d y <= INR d * e)%R).
  { eapply Rle_trans; [apply rsum_abs_fro|]. apply Rmult_le_compat_l; auto. apply pos_INR. }
  assert (Sz : (rsum d zz <= INR d * z)%R).
  { eapply Rle_trans; [apply rsum_abs_fro|]. apply Rmult_le_compat_l; auto. apply pos_INR. }
  assert (Ly : (rprod d (fun i => (1 + y i)%R) <= / (1 - / 100))%R).
  { eapply Rle_trans; [apply rprod_exp; intros i Hi; specialize (Hy i Hi); lra|].
    eapply Rle_trans; [apply exp_le_inv|].
    - split; [now apply rsum_nonneg|lra].
    - apply Rinv_le_contravar; lra. }
  assert (Lz : (rprod d (fun i => (1 + zz i)%R) - 1 <= 100 / 99 * (INR d * z))%R).
  { assert (A1 := rprod_exp d zz ltac:(intros i Hi; specialize (Hzz i Hi); lra)).
    assert (S0 : (0 <= rsum d zz)%R) by now apply rsum_nonneg.
    assert (A2 := exp_le_inv (rsum d zz) ltac:(lra)).
    set (s := rsum d zz) in *.
    assert (A3 : (/ (1 - s) <= 1 + 100 / 99 * s)%R).
    { apply Rmult_le_reg_r with (1 - s)%R; [lra|]. rewrite Rinv_l by lra. nra. }
    lra. }
  assert (Py : (0 <= rprod d (fun i => (1 + y i)%R))%R).
  { apply rprod_pos. intros i Hi. specialize (Hy i Hi). lra. }
  assert (Pz : (0 <= INR d * z)%R).
  { eapply Rle_trans; [|exact Sz]. now apply rsum_nonneg. }
  replace (/ (1 - / 100))%R with (100 / 99)%R in Ly by field.
  set (X := rprod d (fun i => (1 + y i)%R)) in *. set (W := (rprod d (fun i => (1 + zz i)%R) - 1)%R) in *.
  nra.
Qed.

(** ** Principal roots near 1 *)
Lemma geometric (w : C) d : (w - 1) * csum d (fun j => cpow w j) = cpow w d - 1.
Proof.
  induction d as [|d IH]; simpl; [ring|]. rewrite Cmult_plus_distr_l, IH. ring.
Qed.

Lemma csum_fst n f : fst (csum n f) = rsum n (fun i => fst (f i)).
Proof. induction n as [|n IH]; simpl; auto. now rewrite IH. Qed.

Lemma cos_mono a b : (Rabs a <= Rabs b -> Rabs b <= PI -> cos b <= cos a)%R.
Proof.
  intros H1 H2.
  assert (E : forall x, cos x = cos (Rabs x)).
  { intros x. unfold Rabs. destruct (Rcase_abs x); auto. now rewrite cos_neg. }
  rewrite (E a), (E b). assert (0 <= Rabs a)%R by apply Rabs_pos.
  apply cos_decr_1; lra.
Qed.

Lemma fst_carg (z : C) : z <> 0 -> fst z = (Cmod z * cos (carg z))%R.
Proof.
  intros H. apply cis_carg in H. apply (f_equal fst) in H. simpl in H. lra.
Qed.

Lemma pow_le_1 x n m : (0 <= x <= 1)%R -> (n <= m)%nat -> (x ^ m <= x ^ n)%R.
Proof.
  intros Hx. induction 1 as [|m Hm IH]; [lra|].
  simpl. assert (0 <= x ^ m)%R by (apply pow_le; lra). nra.
Qed.

Lemma croot_near d (z : C) h :
  (0 < d)%nat -> (Cmod (z - 1) <= h)%R -> (h <= / 100)%R ->
  (INR d * Cmod (croot d z - 1) <= 103 / 100 * Cmod (z - 1))%R.
Proof.
  intros Hd Hz Hh.
  assert (Hd0 : (0 < INR d)%R) by (apply lt_0_INR; lia).
  assert (R1 := Re_le_Cmod (z - 1)). simpl in R1. apply Rabs_le_between in R1.
  assert (Hm1 : (Cmod z <= 1 + h)%R).
  { replace z with (1 + (z - 1)) by ring. eapply Rle_trans; [apply Cmod_triangle|].
    rewrite Cmod_1. lra. }
  assert (Hre : (1 - h <= fst z)%R) by lra.
  assert (Hz0 : z <> 0) by (intros ->; simpl in *; lra).
  assert (Hm0 : (0 < Cmod z)%R) by now apply Cmod_gt_0.
  assert (Hmr : (fst z <= Cmod z)%R).
  { assert (K := Re_le_Cmod z). apply Rabs_le_between in K. lra. }
  set (w := croot d z). set (r := Rpower (Cmod z) (/ INR d)).
  assert (Hr : (0 < r)%R) by apply exp_pos.
  assert (Hrd : (r ^ d = Cmod z)%R).
  { rewrite <- Rpower_pow by auto. unfold r. rewrite Rpower_mult, Rinv_l by lra.
    now apply Rpower_1. }
  assert (Hwj : forall j, (j < d)%nat -> ((1 - h) / (1 + h) <= fst (cpow w j))%R).
  { intros j Hj. unfold w, croot. fold r. rewrite cpow_mult_l, cpow_RtoC, cpow_cis. simpl.
    rewrite Rmult_0_l, Rminus_0_r.
    assert (C1 : (cos (carg z) <= cos (INR j * (carg z / INR d)))%R).
    { assert (K := carg_range z). apply cos_mono; [|apply Rabs_le; lra].
      rewrite Rabs_mult. unfold Rdiv. rewrite Rabs_mult.
      rewrite (Rabs_pos_eq (INR j)) by apply pos_INR.
      rewrite (Rabs_pos_eq (/ INR d)) by (left; now apply Rinv_0_lt_compat).
      replace (INR j * (Rabs (carg z) * / INR d))%R with (Rabs (carg z) * (INR j * / INR d))%R by ring.
      rewrite <- (Rmult_1_r (Rabs (carg z))) at 2. apply Rmult_le_compat_l; [apply Rabs_pos|].
      apply Rmult_le_reg_r with (INR d); auto. rewrite Rmult_assoc, Rinv_l by lra.
      assert (INR j <= INR d)%R by (apply le_INR; lia). lra. }
    assert (C2 : (cos (carg z) = fst z / Cmod z)%R).
    { rewrite (fst_carg z Hz0). field. lra. }
    assert (Hj1 : (INR j / INR d <= 1)%R).
    { apply Rmult_le_reg_r with (INR d); auto. unfold Rdiv. rewrite Rmult_assoc, Rinv_l by lra.
      assert (INR j <= INR d)%R by (apply le_INR; lia). lra. }
    assert (Hc0 : (0 < fst z / Cmod z)%R) by (apply Rdiv_lt_0_compat; lra).
    destruct (Rle_lt_dec (Cmod z) 1) as [L|L].
    - (* r <= 1 *)
      assert (r <= 1)%R.
      { apply Rnot_lt_le. intros Hlt. assert (1 < r ^ d)%R by (apply Rlt_pow_R1; auto; lia). lra. }
      assert (Cmod z <= r ^ j)%R.
      { rewrite <- Hrd. apply pow_le_1; [lra|lia]. }
      apply Rle_trans with (Cmod z * (fst z / Cmod z))%R.
      + replace (Cmod z * (fst z / Cmod z))%R with (fst z) by (field; lra).
        apply Rle_trans with (1 - h)%R; auto. apply Rmult_le_reg_r with (1 + h)%R; [|].
        * assert (0 <= h)%R by (eapply Rle_trans; [apply Cmod_ge_0|exact Hz]). lra.
        * assert (0 <= h)%R by (eapply Rle_trans; [apply Cmod_ge_0|exact Hz]).
          unfold Rdiv. rewrite Rmult_assoc, Rinv_l by lra. nra.
      + apply Rmult_le_compat; lra.
    - assert (1 <= r)%R.
      { apply Rnot_lt_le. intros Hlt. assert (r ^ d <= 1)%R.
        { rewrite <- (pow1 d). apply pow_incr. lra. }
        lra. }
      assert (1 <= r ^ j)%R by now apply pow_R1_Rle.
      apply Rle_trans with (1 * (fst z / Cmod z))%R.
      + rewrite Rmult_1_l. unfold Rdiv.
        apply Rmult_le_compat; try lra.
        * left. apply Rinv_0_lt_compat. lra.
        * apply Rinv_le_contravar; lra.
      + apply Rmult_le_compat; lra. }
  assert (Hs : (INR d * ((1 - h) / (1 + h)) <= Cmod (csum d (fun j => cpow w j)))%R).
  { apply Rle_trans with (fst (csum d (fun j => cpow w j))).
    - rewrite csum_fst, <- rsum_const. apply rsum_le. exact Hwj.
    - assert (K := Re_le_Cmod (csum d (fun j => cpow w j))). apply Rabs_le_between in K. lra. }
  assert (E : (Cmod (w - 1) * Cmod (csum d (fun j => cpow w j)) = Cmod (z - 1))%R).
  { rewrite <- Cmod_mult, geometric. unfold w. now rewrite croot_pow. }
  assert (0 <= h)%R by (eapply Rle_trans; [apply Cmod_ge_0|exact Hz]).
  assert (F : (99 / 101 <= (1 - h) / (1 + h))%R).
  { apply Rmult_le_reg_r with (1 + h)%R; [lra|]. unfold Rdiv at 2. rewrite Rmult_assoc, Rinv_l by lra. lra. }
  assert (0 <= Cmod (w - 1))%R by apply Cmod_ge_0.
  rewrite <- E. set (S := Cmod (csum d (fun j => cpow w j))) in *. set (W := Cmod (w - 1)) in *.
  assert (INR d * (99/101) <= S)%R.
  { eapply Rle_trans; [|exact Hs]. apply Rmult_le_compat_l; lra. }
  nra.
Qed.

(** ** The clean-up *)
Lemma clean_C_near eps z : (0 <= eps)%R -> (Cmod (clean_C eps z - z) <= sqrt 2 * eps)%R.
Proof.
  intros He. assert (K : forall x, (Rabs (clean_R eps x - x) <= eps)%R).
  { intros x. unfold clean_R. destruct (Rltb (Rabs x) eps) eqn:E.
    - apply Rltb_spec in E. rewrite Rabs_minus_sym, Rminus_0_r. lra.
    - rewrite Rminus_eq_0, Rabs_R0. lra. }
  eapply Rle_trans; [apply Cmod_2Rmax|]. apply Rmult_le_compat_l; [apply sqrt_pos|].
  apply Rmax_lub; apply K.
Qed.

Lemma clean_near eps d A :
  (0 <= eps)%R -> (fro d (mminus (clean eps A) A) <= sqrt 2 * INR d * eps)%R.
Proof.
  intros He. assert (0 <= sqrt 2)%R by apply sqrt_pos. assert (0 <= INR d)%R by apply pos_INR.
  apply sqr_le_le.
  - apply Rmult_le_pos; [apply Rmult_le_pos|]; auto.
  - rewrite fro_sqr. unfold fro2, vnorm2.
    apply Rle_trans with (rsum d (fun _ => rsum d (fun _ => ((sqrt 2 * eps) ^ 2)%R))).
    + apply rsum_le. intros i Hi. apply rsum_le. intros j Hj. apply pow_incr.
      split; [apply Cmod_ge_0|]. now apply clean_C_near.
    + rewrite !rsum_const. apply Req_le. ring.
Qed.

(** ** One constructor call *)
Definition kappa0 (d : nat) : R := (8 / 5 * INR d * (sqrt (INR d) + 1))%R.

Lemma kappa0_pos d : (0 <= kappa0 d)%R.
Proof.
  unfold kappa0. assert (0 <= INR d)%R by apply pos_INR. assert (0 <= sqrt (INR d))%R by apply sqrt_pos.
  apply Rmult_le_pos; [|lra]. lra.
Qed.

Lemma fro_near_gram d P A e :
  unitary_mx d P -> (fro d (mminus A P) <= e)%R ->
  (fro d (mminus (mmul d A (adj A)) mid) <= 2 * e + e * e)%R.
Proof.
  intros HU He. set (E := mminus A P).
  assert (K : meq d (mminus (mmul d A (adj A)) mid)
                    (mplus (mmul d E (adj P)) (mplus (mmul d P (adj E)) (mmul d E (adj E))))).
  { assert (HA : meq d A (mplus P E)) by (intros i j _ _; unfold E, mplus, mminus; ring).
    assert (HA' : meq d (adj A) (mplus (adj P) (adj E))).
    { rewrite HA. intros i j _ _. unfold adj, mplus. apply Cconj_plus. }
    rewrite <- (unitary_right _ _ HU). rewrite HA' at 1. rewrite HA at 1.
    rewrite mmul_mplus_l, !mmul_mplus_r.
    intros i j _ _. unfold mplus, mminus. ring. }
  rewrite K. assert (0 <= fro d E)%R by apply fro_nonneg. fold E in He.
  eapply Rle_trans; [apply fro_triangle|].
  rewrite (fro_unitary_r d (adj P)) by now apply unitary_adj.
  assert (T := fro_triangle d (mmul d P (adj E)) (mmul d E (adj E))).
  rewrite (fro_unitary_l d P) in T by auto. rewrite fro_adj in T.
  assert (M := fro_mmul d E (adj E)). rewrite fro_adj in M. nra.
Qed.

Lemma sqrt2_bounds : (1 < sqrt 2 < 14143 / 10000)%R.
Proof.
  split.
  - rewrite <- sqrt_1 at 1. apply sqrt_lt_1_alt. lra.
  - rewrite <- (sqrt_pow2 (14143 / 10000)) by lra. apply sqrt_lt_1_alt. lra.
Qed.

Lemma sqrt_INR_ge1 d : (0 < d)%nat -> (1 <= sqrt (INR d))%R.
Proof.
  intros Hd. rewrite <- sqrt_1 at 1. apply sqrt_le_1_alt.
  change 1%R with (INR 1). apply le_INR. lia.
Qed.

Lemma Cinv_neq0 (z : C) : z <> 0 -> / z <> 0.
Proof. intros H E. assert (K : z * / z = 1) by (field; auto). rewrite E, Cmult_0_r in K. apply RtoC_inj in K. lra. Qed.

Lemma cpow_neq0 (z : C) k : z <> 0 -> cpow z k <> 0.
Proof.
  intros H. induction k as [|k IH]; simpl; [intros E; apply RtoC_inj in E; lra|]. now apply Cmult_neq_0.
Qed.

Lemma cpow_div (v z : C) k : z <> 0 -> cpow (v / z) k = cpow v k / cpow z k.
Proof.
  intros H. induction k as [|k IH]; simpl; [field; intros E; apply RtoC_inj in E; lra|].
  rewrite IH. field. split; auto. now apply cpow_neq0.
Qed.

(** A phase that turns a unitary matrix into one of determinant 1. *)
Lemma unitary_det_mod d P : unitary_mx d P -> Cmod (det d P) = 1%R.
Proof.
  intros H. assert (E := det_ext H). rewrite det_mmul, det_adj, det_mid in E.
  rewrite Cmult_conj in E. apply RtoC_inj in E. assert (0 <= Cmod (det d P))%R by apply Cmod_ge_0. nra.
Qed.

Lemma phase_special d P : (0 < d)%nat -> unitary_mx d P ->
  let c := croot d (/ det d P) in Cmod c = 1%R /\ special d (mscale c P).
Proof.
  intros Hd HU c. assert (M := unitary_det_mod d P HU).
  assert (N : det d P <> 0) by (intros E; rewrite E, Cmod_0 in M; lra).
  assert (Hc : Cmod c = 1%R).
  { apply Cmod_croot_1. rewrite Cmod_inv by auto. rewrite M. field. }
  split; auto. split; [|now apply phase_det].
  unfold unitary_mx. rewrite adj_mscale, mmul_mscale_l, mmul_mscale_r, mscale_mscale.
  rewrite Cmod_one_conj by auto. red in HU. rewrite HU. apply mscale_1.
Qed.

Lemma det_near_unitary d P A B e z : (0 < d)%nat ->
  unitary_mx d P -> (fro d (mminus A P) <= e)%R -> (fro d (mminus B A) <= z)%R ->
  (INR d * e <= / 100)%R -> (INR d * z <= / 100)%R ->
  (Cmod (det d B - det d A) <= 103 / 100 * (INR d * z))%R.
Proof.
  intros Hd HU He Hz Hde Hdz. destruct (phase_special d P Hd HU) as [Hc HS].
  set (c := croot d (/ det d P)) in *.
  assert (E : forall X Y, fro d (mminus (mscale c X) (mscale c Y)) = fro d (mminus X Y)).
  { intros X Y. rewrite <- (Rmult_1_l (fro d (mminus X Y))), <- Hc, <- fro_mscale.
    apply fro_proper. intros i j _ _. unfold mminus, mscale. ring. }
  assert (K := det_near d (mscale c P) (mscale c A) (mscale c B) e z HS).
  rewrite !E in K. specialize (K He Hz Hde Hdz). rewrite !det_mscale in K.
  replace (cpow c d * det d B - cpow c d * det d A) with (cpow c d * (det d B - det d A)) in K by ring.
  rewrite Cmod_mult in K.
  assert (P1 : Cmod (cpow c d) = 1%R).
  { clear -Hc. clearbody c. induction d as [|k IH]; simpl; [apply Cmod_1|]. rewrite Cmod_mult, IH, Hc. ring. }
  rewrite P1, Rmult_1_l in K. exact K.
Qed.

(** One constructor call on a matrix near a unitary one: the result is near the
    unitary matrix times a phase. *)
Lemma normalise_gen eps d P A e nm ps iv ap :
  (0 < d)%nat -> (0 <= eps)%R -> unitary_mx d P -> Cmod (det d A) = 1%R ->
  (fro d (mminus A P) <= e)%R ->
  (e + kappa0 d * eps <= 45 / 10 ^ 10)%R -> (INR d * (e + kappa0 d * eps) <= / 100)%R ->
  exists p c, mk_unitary eps d (Some (square d A)) nm ps iv ap = Ok p /\
    u_dim p = d /\ det d (u_mat p) = 1 /\
    u_name p = match nm with Some s => s | None => "U"%string end /\
    u_params p = ps /\ u_inv p = iv /\ u_apply p = ap /\
    Cmod c = 1%R /\ cpow c d * det d A = 1 /\ (det d A = 1 -> c = 1) /\
    (fro d (mminus (u_mat p) (mscale c P)) <= e + kappa0 d * eps)%R.
Proof.
  intros Hd He HU HA Hfro Hx Hdx.
  replace (10 ^ 10)%R with 10000000000%R in Hx by ring.
  assert (Hs2 := sqrt2_bounds). assert (Hsd := sqrt_INR_ge1 d Hd).
  assert (Hd1 : (1 <= INR d)%R) by (change 1%R with (INR 1); apply le_INR; lia).
  set (sd := sqrt (INR d)) in *.
  set (z := (sqrt 2 * INR d * eps)%R). set (B := clean eps A).
  assert (Hz0 : (0 <= z)%R) by (unfold z; apply Rmult_le_pos; [apply Rmult_le_pos|]; lra).
  assert (He0 : (0 <= e)%R) by (eapply Rle_trans; [apply fro_nonneg|exact Hfro]).
  assert (Hc : (fro d (mminus B A) <= z)%R) by now apply clean_near.
  assert (Hzd : (z <= 14143 / 10000 * (INR d * eps))%R).
  { unfold z. assert (0 <= INR d * eps)%R by nra. nra. }
  set (q := (INR d * eps)%R) in *. assert (Hq : (0 <= q)%R) by (unfold q; nra).
  assert (Ex : (kappa0 d * eps = 8 / 5 * (q * sd + q))%R).
  { unfold kappa0, q. fold sd. ring. }
  rewrite Ex in *. assert (Hqs : (q <= q * sd)%R) by nra.
  assert (Hzx : (z <= 8 / 5 * (q * sd + q) / 2)%R) by lra.
  assert (HBP : (fro d (mminus B P) <= e + z)%R).
  { eapply Rle_trans; [apply fro_minus_triangle with (B := A)|]. lra. }
  assert (NA : det d A <> 0) by (intros E; rewrite E, Cmod_0 in HA; lra).
  set (rho := det d B / det d A).
  assert (HdB : (Cmod (rho - 1) <= 103 / 100 * (INR d * z))%R).
  { replace (rho - 1) with ((det d B - det d A) * / det d A) by (unfold rho; field; auto).
    rewrite Cmod_mult, Cmod_inv by auto. rewrite HA, Rinv_1, Rmult_1_r.
    apply det_near_unitary with (P := P) (e := e); auto; nra. }
  assert (Hdz : (INR d * z <= / 200)%R) by nra.
  assert (Hrho : rho <> 0).
  { intros E. rewrite E in HdB. replace (0 - 1) with (- (1)) in HdB by ring.
    rewrite Cmod_opp, Cmod_1 in HdB. lra. }
  assert (EBr : det d B = rho * det d A) by (unfold rho; field; auto).
  assert (Hdet : det d B <> 0) by (rewrite EBr; now apply Cmult_neq_0).
  assert (Hgram := fro_near_gram d P B (e + z) HU HBP).
  assert (Hnear : near_unitary d B).
  { intros i j Hi Hj. change (mmul d B (adj B) i j - mid i j) with (mminus (mmul d B (adj B)) mid i j).
    eapply Rle_trans; [apply (fro_entry d); auto|]. eapply Rle_trans; [exact Hgram|].
    assert (e + z <= 45 / 10000000000)%R by lra.
    assert (0 <= / 10 ^ 5 * (if Nat.eqb i j then 1 else 0))%R.
    { apply Rmult_le_pos; [left; apply Rinv_0_lt_compat, pow_lt; lra|]. destruct (Nat.eqb i j); lra. }
    replace (10 ^ 8)%R with 100000000%R by ring. nra. }
  set (w := croot d (/ det d B)). set (r := croot d (/ rho)).
  assert (Wd : cpow w d = / det d B).
  { apply croot_pow; auto. now apply Cinv_neq0. }
  assert (Rd : cpow r d = / rho).
  { apply croot_pow; auto. now apply Cinv_neq0. }
  assert (Nr : r <> 0) by apply croot_neq0.
  assert (Nrd : cpow r d <> 0) by (rewrite Rd; now apply Cinv_neq0).
  assert (Cd : cpow (w / r) d = / det d A).
  { rewrite cpow_div by auto. rewrite Wd, Rd, EBr.
    field; repeat split; auto; intros E; apply RtoC_inj in E; lra. }
  assert (Hcm : Cmod (w / r) = 1%R).
  { assert (X : (Cmod (w / r) ^ d = 1)%R).
    { rewrite <- Cmod_cpow, Cd, Cmod_inv by auto. rewrite HA. field. }
    assert (G0 : (0 <= Cmod (w / r))%R) by apply Cmod_ge_0. set (m := Cmod (w / r)) in *. clearbody m.
    destruct (Rtotal_order m 1) as [L|[L|L]]; auto; exfalso.
    - destruct d as [|k]; [lia|]. simpl in X.
      assert (K : (m ^ k <= 1 ^ k)%R) by (apply pow_incr; lra). rewrite pow1 in K. nra.
    - assert (1 < m ^ d)%R by (apply Rlt_pow_R1; [lra|lia]). lra. }
  rewrite (mk_unitary_ok eps d (square d A)); auto. fold B.
  eexists. exists (w / r). split; [reflexivity|]. cbn [u_dim u_mat u_name u_params u_inv u_apply elt square].
  fold B. fold w. split; auto. split; [now apply phase_det|].
  repeat (split; [reflexivity|]).
  split; auto. split; [rewrite Cd; field; auto|]. split.
  { intros E1. assert (w = r) by (unfold w, r; rewrite EBr, E1; f_equal; f_equal; ring).
    rewrite H. field. auto. }
  assert (Hmd : (99 / 100 <= Cmod rho)%R).
  { assert (K : (Cmod 1 <= Cmod rho + Cmod (rho - 1))%R).
    { rewrite <- (Cmod_opp (rho - 1)).
      eapply Rle_trans; [|apply Cmod_triangle]. apply Req_le. f_equal. ring. }
    rewrite Cmod_1 in K. lra. }
  assert (Hzi : (Cmod (/ rho - 1)%C <= 100 / 99 * (103 / 100 * (INR d * z)))%R).
  { replace (/ rho - 1) with (- ((rho - 1) * / rho)) by (field; auto).
    rewrite Cmod_opp, Cmod_mult, Cmod_inv by auto.
    rewrite Rmult_comm. apply Rmult_le_compat; try apply Cmod_ge_0; auto.
    - left. apply Rinv_0_lt_compat. lra.
    - replace (100 / 99)%R with (/ (99 / 100))%R by field. apply Rinv_le_contravar; lra. }
  assert (Hw : (INR d * Cmod (r - 1) <= 103 / 100 * Cmod (/ rho - 1)%C)%R).
  { apply croot_near with (h := (/ 100)%R); auto; lra. }
  assert (Hw' : (Cmod (r - 1) <= 1072 / 1000 * z)%R).
  { apply Rmult_le_reg_l with (INR d); [lra|]. nra. }
  assert (Hw0 : (0 <= Cmod (r - 1))%R) by apply Cmod_ge_0.
  assert (HB : (fro d B <= sd + (e + z))%R).
  { assert (T := fro_triangle d (mminus B P) P).
    assert (E : fro d (mplus (mminus B P) P) = fro d B).
    { apply fro_proper. intros i j _ _. unfold mplus, mminus. ring. }
    rewrite E, (fro_unitary d P HU) in T. fold sd in T. lra. }
  assert (E : fro d (mminus (mscale w B) (mscale (w / r) P)) =
              fro d (mplus (mminus B P) (mscale (r - 1) B))).
  { transitivity (Cmod (w / r) * fro d (mplus (mminus B P) (mscale (r - 1) B)))%R; [|rewrite Hcm; ring].
    rewrite <- fro_mscale.
    apply fro_proper. intros i j _ _. unfold mplus, mminus, mscale. field. auto. }
  rewrite E. eapply Rle_trans; [apply fro_triangle|]. rewrite fro_mscale.
  assert (0 <= fro d B)%R by apply fro_nonneg.
  apply Rle_trans with (e + z + 1072 / 1000 * z * (sd + 1 / 1000))%R.
  - apply Rplus_le_compat; auto. apply Rmult_le_compat; auto; lra.
  - assert (z * sd <= 14143 / 10000 * (q * sd))%R by nra. nra.
Qed.

Lemma normalise eps d P A e nm ps iv ap :
  (0 < d)%nat -> (0 <= eps)%R -> special d P -> det d A = 1 ->
  (fro d (mminus A P) <= e)%R ->
  (e + kappa0 d * eps <= 45 / 10 ^ 10)%R -> (INR d * (e + kappa0 d * eps) <= / 100)%R ->
  exists p, mk_unitary eps d (Some (square d A)) nm ps iv ap = Ok p /\
    u_dim p = d /\ det d (u_mat p) = 1 /\
    u_name p = match nm with Some s => s | None => "U"%string end /\
    u_params p = ps /\ u_inv p = iv /\ u_apply p = ap /\
    (fro d (mminus (u_mat p) P) <= e + kappa0 d * eps)%R.
Proof.
  intros Hd He HS HA Hfro Hx Hdx.
  destruct (normalise_gen eps d P A e nm ps iv ap) as (p & c & E & D & De & N1 & N2 & N3 & N4 & _ & _ & C1 & F);
    auto; [apply HS|rewrite HA; apply Cmod_1|].
  exists p. repeat (split; [assumption|]). rewrite (C1 HA) in F.
  assert (X : fro d (mminus (u_mat p) P) = fro d (mminus (u_mat p) (mscale 1 P))).
  { apply fro_proper. intros i j _ _. unfold mminus, mscale. ring. }
  now rewrite X.
Qed.
