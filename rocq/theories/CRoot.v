(** Argument and principal root of a complex number. *)
From Coq Require Import Reals Arith Lia Lra.
From Coquelicot Require Import Rcomplements Complex.
From Verif Require Import CMat CMatFacts Det DetFacts.
Open Scope R_scope.
Open Scope C_scope.

(** The argument in (-pi, pi] (numpy's [angle]). *)
Definition carg (z : C) : R :=
  if Rle_dec 0 (snd z) then acos (fst z / Cmod z) else (- acos (fst z / Cmod z))%R.

(** numpy's [z ** (1 / d)] for [z <> 0]: the principal [d]-th root
    [exp(log(z) / d)]. *)
Definition croot (d : nat) (z : C) : C :=
  RtoC (Rpower (Cmod z) (/ INR d)) * cis (carg z / INR d).

Lemma div_Cmod_range (z : C) : z <> 0 -> (-1 <= fst z / Cmod z <= 1)%R.
Proof.
  intros Hz. assert (Hp := Cmod_gt_0 z). assert (0 < Cmod z)%R by tauto.
  assert (H1 := Re_le_Cmod z). apply Rabs_le_between in H1.
  split; apply Rmult_le_reg_r with (Cmod z); auto; unfold Rdiv;
    rewrite Rmult_assoc, Rinv_l by lra; lra.
Qed.

Lemma cis_carg (z : C) : z <> 0 -> RtoC (Cmod z) * cis (carg z) = z.
Proof.
  intros Hz. assert (Hr := div_Cmod_range z Hz).
  assert (0 < Cmod z)%R by (apply Cmod_gt_0; exact Hz).
  assert (Hc : (Cmod z * (fst z / Cmod z) = fst z)%R) by (field; lra).
  assert (Hs : (Cmod z * sqrt (1 - (fst z / Cmod z)²) = Rabs (snd z))%R).
  { rewrite <- sqrt_Rsqr_abs.
    rewrite <- (sqrt_Rsqr (Cmod z)) at 1 by lra. rewrite <- sqrt_mult_alt by apply Rle_0_sqr.
    f_equal. unfold Rsqr. field_simplify; [|lra]. rewrite Cmod2. simpl. ring. }
  unfold carg, cis. destruct (Rle_dec 0 (snd z)) as [Hp|Hn].
  - apply C_eq; simpl; rewrite cos_acos, sin_acos by lra; rewrite Rabs_pos_eq in Hs by lra; lra.
  - rewrite cos_neg, sin_neg. rewrite Rabs_left in Hs by lra.
    apply C_eq; simpl; rewrite cos_acos, sin_acos by lra; lra.
Qed.

Lemma carg_range (z : C) : (- PI < carg z <= PI)%R.
Proof.
  unfold carg. assert (H := acos_bound (fst z / Cmod z)). assert (0 < PI)%R by apply PI_RGT_0.
  destruct (Rle_dec 0 (snd z)) as [Hp|Hn]; [lra|].
  split; [|lra]. apply Ropp_lt_contravar.
  destruct (Rle_lt_or_eq_dec _ _ (proj2 H)) as [|E]; auto.
  exfalso. apply Hn.
  assert (Hz : z <> 0) by (intros ->; apply Hn; simpl; lra).
  assert (Ec := f_equal cos E). rewrite cos_acos in Ec by now apply div_Cmod_range.
  rewrite cos_PI in Ec.
  assert (0 < Cmod z)%R by (apply Cmod_gt_0; exact Hz).
  assert (E1 : (fst z = - Cmod z)%R).
  { apply Rmult_eq_reg_r with (/ Cmod z)%R; [|apply Rinv_neq_0_compat; lra].
    unfold Rdiv in Ec. rewrite Ec. field. lra. }
  assert (E2 := Cmod2 z). rewrite E1 in E2. nra.
Qed.

Lemma carg_1 : carg 1 = 0%R.
Proof.
  unfold carg. simpl. destruct (Rle_dec 0 0) as [_|H]; [|lra].
  rewrite Cmod_1. unfold Rdiv. rewrite Rinv_1, Rmult_1_r. apply acos_1.
Qed.

Lemma cpow_cis a n : cpow (cis a) n = cis (INR n * a).
Proof.
  induction n as [|n IH]; [simpl; rewrite Rmult_0_l; now rewrite cis_0|].
  change (cpow (cis a) (S n)) with (cis a * cpow (cis a) n).
  rewrite IH, <- cis_plus, S_INR. f_equal. ring.
Qed.
Lemma cpow_RtoC r n : cpow (RtoC r) n = RtoC (r ^ n).
Proof. induction n as [|n IH]; simpl; auto. rewrite IH, <- RtoC_mult. reflexivity. Qed.

Lemma croot_pow d (z : C) : (0 < d)%nat -> z <> 0 -> cpow (croot d z) d = z.
Proof.
  intros Hd Hz. assert (0 < INR d)%R by now apply lt_0_INR.
  assert (0 < Cmod z)%R by (apply Cmod_gt_0; exact Hz).
  unfold croot. rewrite cpow_mult_l, cpow_RtoC, cpow_cis.
  rewrite <- Rpower_pow by apply exp_pos. rewrite Rpower_mult.
  rewrite Rinv_l, Rpower_1 by lra.
  replace (INR d * (carg z / INR d))%R with (carg z) by (field; lra).
  now apply cis_carg.
Qed.

Lemma croot_1 d : croot d 1 = 1.
Proof.
  unfold croot. rewrite carg_1, Cmod_1. unfold Rdiv. rewrite Rmult_0_l, cis_0.
  unfold Rpower. rewrite ln_1, Rmult_0_r, exp_0. ring.
Qed.

Lemma Cmod_croot d (z : C) : Cmod (croot d z) = Rpower (Cmod z) (/ INR d).
Proof.
  unfold croot. rewrite Cmod_mult, Cmod_cis, Cmod_R, Rmult_1_r.
  apply Rabs_pos_eq. left. apply exp_pos.
Qed.

Lemma Cmod_croot_1 d (z : C) : Cmod z = 1%R -> Cmod (croot d z) = 1%R.
Proof.
  intros H. rewrite Cmod_croot, H. unfold Rpower. now rewrite ln_1, Rmult_0_r, exp_0.
Qed.

Lemma croot_neq0 d (z : C) : croot d z <> 0.
Proof.
  intros E. assert (H := Cmod_croot d z). rewrite E, Cmod_0 in H.
  unfold Rpower in H. assert (0 < exp (/ INR d * ln (Cmod z)))%R by apply exp_pos. lra.
Qed.
