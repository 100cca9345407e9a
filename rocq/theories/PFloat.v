(** [random_value] in IEEE double precision: C49. *)
From Coq Require Import ZArith Reals Bool Lra Lia.
From Flocq Require Import Core.Core.
From Flocq Require Plus_error.
From Flocq Require Import IEEE754.BinarySingleNaN IEEE754.Binary IEEE754.Bits.
From Verif Require Import ModelFloat.
Open Scope R_scope.

Notation fexp := (SpecFloat.fexp 53 1024).
Notation rnd := (round radix2 fexp ZnearestE).
Notation fmt := (generic_format radix2 fexp).
Notation BR := (B2R 53 1024).
Notation fin := (is_finite 53 1024).

Local Instance prec_ok : Prec_gt_0 53.
Proof. reflexivity. Qed.
Local Instance fexp_valid : Valid_exp fexp.
Proof. apply (FLT_exp_valid (-1074) 53). Qed.
Local Instance fexp_mono : Monotone_exp fexp.
Proof. apply (FLT_exp_monotone (-1074) 53). Qed.
Lemma fmt_BR x : fmt (BR x).
Proof. apply generic_format_B2R. Qed.

Lemma below_one x : fmt x -> x < 1 -> x <= 1 - bpow radix2 (-53).
Proof.
  intros F H. assert (F1 : fmt 1). { change 1 with (bpow radix2 0). apply generic_format_bpow. reflexivity || discriminate. }
  replace (1 - bpow radix2 (-53)) with (pred radix2 fexp 1).
  { apply pred_ge_gt; auto. apply fexp_valid. }
  change 1 with (bpow radix2 0) at 1. rewrite pred_bpow. reflexivity.
Qed.

(** The product does not exceed the exact difference. *)
Lemma scaled_le a b x : fmt a -> fmt b -> a <= b -> 0 <= x <= 1 - bpow radix2 (-53) ->
  0 <= rnd (x * rnd (b - a)) <= b - a.
Proof.
  intros Fa Fb Hab Hx. set (D := b - a). set (F := rnd D).
  assert (FF : fmt F) by (apply generic_format_round; typeclasses eauto).
  assert (D0 : 0 <= D) by (unfold D; lra).
  assert (F0 : 0 <= F). { apply round_ge_generic; try typeclasses eauto; auto. apply generic_format_0. }
  assert (B0 := bpow_gt_0 radix2 (-53)).
  split. { apply round_ge_generic; try typeclasses eauto; [apply generic_format_0|]. apply Rmult_le_pos; lra. }
  assert (xF : x * F <= F). { rewrite <- (Rmult_1_l F) at 2. apply Rmult_le_compat_r; lra. }
  destruct (Rle_or_lt F D) as [L|L].
  { eapply Rle_trans; [|exact L]. apply round_le_generic; try typeclasses eauto; auto. }
  (* F > D: the difference was rounded upwards *)
  assert (Fp : 0 < F) by lra.
  assert (P : pred radix2 fexp F <= D).
  { apply Rnot_lt_le. intros H. assert (F <= pred radix2 fexp F).
    { apply round_le_generic; try typeclasses eauto; [apply generic_format_pred; auto; typeclasses eauto|lra]. }
    assert (Q := pred_lt_id radix2 fexp F ltac:(lra)). lra. }
  eapply Rle_trans; [|exact P].
  apply round_N_le_midp; [typeclasses eauto|apply generic_format_pred; auto; typeclasses eauto|].
  rewrite succ_pred; [|typeclasses eauto|exact FF].
  (* normal range *)
  assert (N : bpow radix2 (-1021) < D).
  { apply Rnot_le_lt. intros H. apply Rlt_not_eq in L. apply L. symmetry. apply round_generic; try typeclasses eauto.
    apply (Plus_error.FLT_format_plus_small radix2 (-1074) 53 b (- a)); auto.
    - apply generic_format_opp. exact Fa.
    - fold (b - a). fold D. rewrite Rabs_pos_eq by exact D0. exact H. }
  set (e := mag radix2 F).
  assert (He : bpow radix2 (e - 1) <= F < bpow radix2 e).
  { assert (Z := bpow_mag_le radix2 F ltac:(lra)). assert (Z' := bpow_mag_gt radix2 F). rewrite Rabs_pos_eq in Z, Z' by lra. split; assumption. }
  assert (E1 : (-1020 <= e)%Z).
  { assert (bpow radix2 (-1021) < bpow radix2 e) by lra. apply lt_bpow in H. lia. }
  assert (EX : fexp e = (e - 53)%Z). { unfold fexp, SpecFloat.emin. lia. }
  assert (U : ulp radix2 fexp F = bpow radix2 (e - 53)).
  { rewrite ulp_neq_0 by lra. unfold cexp. fold e. now rewrite EX. }
  assert (Q : x * F <= F - bpow radix2 (-53) * F).
  { replace (F - bpow radix2 (-53) * F) with ((1 - bpow radix2 (-53)) * F) by ring. apply Rmult_le_compat_r; lra. }
  assert (H54 : bpow radix2 (e - 53) = 2 * bpow radix2 (e - 54)).
  { replace (e - 53)%Z with (1 + (e - 54))%Z by ring. rewrite bpow_plus. reflexivity. }
  assert (H53 : bpow radix2 (-53) * bpow radix2 (e - 1) = bpow radix2 (e - 54)).
  { rewrite <- bpow_plus. f_equal. ring. }
  assert (S := pred_plus_ulp radix2 fexp F Fp FF).
  destruct (proj1 He) as [G|G].
  - assert (UL : ulp radix2 fexp (pred radix2 fexp F) <= ulp radix2 fexp F).
    { apply ulp_le_pos; try typeclasses eauto.
      - apply pred_ge_0; auto; typeclasses eauto.
      - apply pred_le_id. }
    assert (bpow radix2 (-53) * bpow radix2 (e - 1) < bpow radix2 (-53) * F) by (apply Rmult_lt_compat_l; lra). lra.
  - rewrite <- G in *. rewrite pred_bpow.
    assert (EX' : bpow radix2 (fexp (e - 1)) <= bpow radix2 (e - 54)).
    { apply bpow_le. unfold fexp, SpecFloat.emin. lia. }
    assert (B54 := bpow_gt_0 radix2 (e - 54)). lra.
Qed.

(** ** Comparisons of finite doubles *)
Lemma f_le_finite x y : fin x = true -> fin y = true -> (f_le x y = true <-> BR x <= BR y).
Proof.
  intros Fx Fy. unfold f_le, b64_compare. rewrite Bcompare_correct by assumption.
  destruct (Rcompare_spec (BR x) (BR y)); split; intros; try discriminate; try reflexivity; lra.
Qed.
Lemma f_ge_finite x y : fin x = true -> fin y = true -> (f_ge x y = true <-> BR y <= BR x).
Proof.
  intros Fx Fy. unfold f_ge, b64_compare. rewrite Bcompare_correct by assumption.
  destruct (Rcompare_spec (BR x) (BR y)); split; intros; try discriminate; try reflexivity; lra.
Qed.

Lemma minus_finite a b : fin (b64_minus mode_NE b a) = true -> fin b = true /\ fin a = true.
Proof.
  destruct a as [s|s|s pl H|s m e H], b as [s'|s'|s' pl' H'|s' m' e' H']; try (intros _; split; reflexivity);
    destruct s, s'; intros; discriminate.
Qed.
Lemma mult_nonfinite x d : fin d = false -> fin (b64_mult mode_NE x d) = false.
Proof.
  destruct d as [s|s|s pl H|s m e H]; try discriminate; intros _;
    destruct x as [s'|s'|s' pl' H'|s' m' e' H']; destruct s, s'; reflexivity.
Qed.
Lemma plus_nonfinite p a : fin p = false -> fin (b64_plus mode_NE p a) = false.
Proof.
  destruct p as [s|s|s pl H|s m e H]; try discriminate; intros _;
    destruct a as [s'|s'|s' pl' H'|s' m' e' H']; destruct s, s'; reflexivity.
Qed.
Lemma nonfinite_invalid a b v : fin a = true -> fin b = true -> fin v = false -> f_is_valid a b v = false.
Proof.
  destruct v as [s|s|s pl H|s m e H]; try discriminate;
    destruct a as [sa|sa|sa pla Ha|sa ma ea Ha]; try discriminate;
    destruct b as [sb|sb|sb plb Hb|sb mb eb Hb]; try discriminate; intros _ _ _;
    destruct s, sa, sb; reflexivity.
Qed.

Lemma rabs_between a b v : BR a <= v <= BR b -> Rabs v < bpow radix2 1024.
Proof.
  intros H. assert (A := abs_B2R_lt_emax 53 1024 a). assert (B := abs_B2R_lt_emax 53 1024 b).
  apply Rabs_def2 in A, B. apply Rabs_def1; lra.
Qed.

Lemma minus_value a b : fin (b64_minus mode_NE b a) = true ->
  BR (b64_minus mode_NE b a) = rnd (BR b - BR a).
Proof.
  intros FD. destruct (minus_finite _ _ FD) as [Fb Fa]. unfold b64_minus in *.
  match goal with |- B2R _ _ (Bminus _ _ ?h1 ?h2 ?n _ _ _) = _ =>
    assert (C := Bminus_correct 53 1024 h1 h2 n mode_NE b a Fb Fa) end.
  destruct (Rlt_bool _ _); [exact (proj1 C)|].
  destruct C as [C _]. exfalso. revert C FD. clear. generalize (Bsign 53 1024 b).
  match goal with |- forall s, B2FF _ _ ?t = _ -> _ => destruct t end; cbn; intros; discriminate.
Qed.

Lemma mult_value x d v : fin x = true -> fin d = true -> rnd (BR x * BR d) = v -> Rabs v < bpow radix2 1024 ->
  BR (b64_mult mode_NE x d) = v /\ fin (b64_mult mode_NE x d) = true.
Proof.
  intros Fx Fd E H. unfold b64_mult in *.
  match goal with |- B2R _ _ (Bmult _ _ ?h1 ?h2 ?n _ _ _) = _ /\ _ =>
    assert (C := Bmult_correct 53 1024 h1 h2 n mode_NE x d) end.
  change (round_mode mode_NE) with ZnearestE in C. rewrite E in C. rewrite Rlt_bool_true in C by exact H.
  destruct C as (C1 & C2 & _). split; [exact C1|]. rewrite Fx, Fd in C2. exact C2.
Qed.

Lemma plus_value x d v : fin x = true -> fin d = true -> rnd (BR x + BR d) = v -> Rabs v < bpow radix2 1024 ->
  BR (b64_plus mode_NE x d) = v /\ fin (b64_plus mode_NE x d) = true.
Proof.
  intros Fx Fd E H. unfold b64_plus in *.
  match goal with |- B2R _ _ (Bplus _ _ ?h1 ?h2 ?n _ _ _) = _ /\ _ =>
    assert (C := Bplus_correct 53 1024 h1 h2 n mode_NE x d Fx Fd) end.
  change (round_mode mode_NE) with ZnearestE in C. rewrite E in C. rewrite Rlt_bool_true in C by exact H.
  destruct C as (C1 & C2 & _). split; [exact C1|exact C2].
Qed.

(** When the difference of the bounds is finite, the computed value is finite
    and between them. *)
Lemma random_value_between a b x :
  fin (b64_minus mode_NE b a) = true -> BR a <= BR b -> fin x = true -> 0 <= BR x < 1 ->
  fin (f_random_value a b x) = true /\ BR a <= BR (f_random_value a b x) <= BR b.
Proof.
  intros FD Hab Fx Hx. destruct (minus_finite _ _ FD) as [Fb Fa].
  assert (HD := minus_value _ _ FD).
  assert (X1 := below_one _ (fmt_BR x) (proj2 Hx)).
  destruct (scaled_le (BR a) (BR b) (BR x) (fmt_BR a) (fmt_BR b) Hab ltac:(lra)) as [Y0 Y1].
  assert (DL := abs_B2R_lt_emax 53 1024 (b64_minus mode_NE b a)). rewrite HD in DL.
  assert (B0 := bpow_gt_0 radix2 (-53)).
  assert (F0 : 0 <= rnd (BR b - BR a)).
  { apply round_ge_generic; try typeclasses eauto; [apply generic_format_0|lra]. }
  rewrite Rabs_pos_eq in DL by exact F0.
  assert (YF : rnd (BR x * rnd (BR b - BR a)) <= rnd (BR b - BR a)).
  { apply round_le_generic; try typeclasses eauto; [apply generic_format_round; typeclasses eauto|].
    rewrite <- (Rmult_1_l (rnd (BR b - BR a))) at 2. apply Rmult_le_compat_r; lra. }
  destruct (mult_value x (b64_minus mode_NE b a) _ Fx FD eq_refl) as [M1 M2].
  { rewrite HD. rewrite Rabs_pos_eq by exact Y0. lra. }
  rewrite HD in M1. set (y := rnd (BR x * rnd (BR b - BR a))) in *.
  assert (V : BR a <= rnd (y + BR a) <= BR b).
  { split.
    - apply round_ge_generic; try typeclasses eauto; [apply fmt_BR|lra].
    - apply round_le_generic; try typeclasses eauto; [apply fmt_BR|lra]. }
  destruct (plus_value (b64_mult mode_NE x (b64_minus mode_NE b a)) a (rnd (y + BR a)) M2 Fa) as [P1 P2].
  { now rewrite M1. }
  { eapply rabs_between; exact V. }
  unfold f_random_value. rewrite P1. split; [exact P2|exact V].
Qed.

Lemma C49_double_lemma : forall a b x : binary64,
  f_accepts a b = true -> fin (b64_minus mode_NE b a) = true ->
  fin x = true -> (0 <= BR x < 1)%R ->
  fin (f_random_value a b x) = true
  /\ (BR a <= BR (f_random_value a b x) <= BR b)%R
  /\ f_is_valid a b (f_random_value a b x) = true.
Proof.
  intros a b x A FD Fx Hx. destruct (minus_finite _ _ FD) as [Fb Fa].
  apply f_ge_finite in A; [|assumption..].
  destruct (random_value_between a b x FD A Fx Hx) as [F V]. split; [exact F|]. split; [exact V|].
  unfold f_is_valid. rewrite (proj2 (f_ge_finite _ _ F Fa) (proj1 V)), (proj2 (f_le_finite _ _ F Fb) (proj2 V)). reflexivity.
Qed.

Lemma C49_overflow_lemma : forall a b x : binary64,
  fin a = true -> fin b = true -> fin (b64_minus mode_NE b a) = false ->
  f_is_valid a b (f_random_value a b x) = false.
Proof.
  intros a b x Fa Fb FD. apply nonfinite_invalid; [assumption..|]. unfold f_random_value.
  apply plus_nonfinite, mult_nonfinite, FD.
Qed.

Lemma nan_compare a b v : is_nan 53 1024 v = true -> f_is_valid a b v = false.
Proof. destruct v; try discriminate; intros _; destruct a; reflexivity. Qed.

Lemma zero_times_nonfinite d : fin d = false -> is_nan 53 1024 (b64_mult mode_NE (B754_zero 53 1024 false) d) = true.
Proof. destruct d as [s|s|s pl H|s m e H]; try discriminate; intros _; destruct s; reflexivity. Qed.
Lemma nan_plus p a : is_nan 53 1024 p = true -> is_nan 53 1024 (b64_plus mode_NE p a) = true.
Proof. destruct p as [s|s|s pl H|s m e H]; try discriminate; intros _; destruct a; reflexivity. Qed.

Lemma C49_exactly_lemma : forall a b : binary64, f_accepts a b = true ->
  ((forall x : binary64, fin x = true -> (0 <= BR x < 1)%R -> f_is_valid a b (f_random_value a b x) = true)
   <-> fin (b64_minus mode_NE b a) = true).
Proof.
  intros a b A. split.
  - intros H. destruct (fin (b64_minus mode_NE b a)) eqn:E; [reflexivity|].
    rewrite <- (H (B754_zero 53 1024 false) eq_refl ltac:(cbn; lra)).
    symmetry. apply nan_compare. unfold f_random_value. apply nan_plus, zero_times_nonfinite, E.
  - intros FD x Fx Hx. apply C49_double_lemma; assumption.
Qed.
