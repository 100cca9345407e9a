(** Random parameter values and [as_unitary]; concrete cases for C49. *)
From Coq Require Import Reals List Arith Lia Lra Bool String ZArith.
From Coquelicot Require Import Complex.
From Flocq Require Import Core.Core IEEE754.BinarySingleNaN IEEE754.Binary IEEE754.Bits.
From Verif Require Import Base CMat Det Norms ModelUnitary ModelPrimitive ModelGates ModelFloat Spec SpecModel
  SpecCompiler PUnitary PCompRun PFamilies PFloat.
Import ListNotations.
Open Scope R_scope.
Open Scope res_scope.

Lemma mk_parameter_inv nm a b f p : mk_parameter nm a b f = Ok p ->
  p = {| pr_name := nm; pr_min := a; pr_max := b; pr_angle := f |} /\ (a <= b)%R.
Proof.
  unfold mk_parameter, Rleb. destruct (String.eqb nm ""); [discriminate|]. cbn [negb assert bind].
  destruct (Rle_dec a b); [|discriminate]. cbn [assert bind]. intros E. injection E as <-. auto.
Qed.

Lemma C49_real_lemma : forall nm a b f p x, mk_parameter nm a b f = Ok p -> (0 <= x < 1)%R ->
  (a <= pr_random_value p x <= b)%R /\ pr_is_valid p (pr_random_value p x) = true /\
  ((a < b)%R -> (pr_random_value p x < b)%R) /\
  (forall v, (a <= v < b)%R -> exists y, (0 <= y < 1)%R /\ pr_random_value p y = v).
Proof.
  intros nm a b f p x E Hx. destruct (mk_parameter_inv _ _ _ _ _ E) as [-> Hab].
  assert (V : (a <= x * (b - a) + a <= b)%R) by nra.
  split; [exact V|]. split; [apply pr_valid_spec; exact V|]. unfold pr_random_value. cbn [pr_min pr_max]. split.
  - intros L. nra.
  - intros v Hv. exists ((v - a) / (b - a))%R. split.
    + split.
      * apply Rmult_le_pos; [lra|]. left. apply Rinv_0_lt_compat. lra.
      * apply Rmult_lt_reg_r with (b - a)%R; [lra|]. unfold Rdiv. rewrite Rmult_assoc, Rinv_l; lra.
    + field. lra.
Qed.

(** One parameter in doubles: its bounds, the sample drawn, and the parameter it
    is in the model. *)
Definition double_parameter (p : parameter) (t : binary64 * binary64 * binary64) : Prop :=
  let '(a, b, x) := t in
  pr_min p = BR a /\ pr_max p = BR b /\ f_accepts a b = true /\
  fin (b64_minus mode_NE b a) = true /\ fin x = true /\ (0 <= BR x < 1)%R.

Lemma double_in_range ps ts : Forall2 double_parameter ps ts ->
  in_range ps (map (fun '(a, b, x) => BR (f_random_value a b x)) ts).
Proof.
  unfold in_range. induction 1 as [|p [[a b] x] ps ts H _ IH]; cbn [map]; constructor; auto.
  destruct H as (-> & -> & A & D & Fx & Hx). apply (C49_double_lemma a b x A D Fx Hx).
Qed.

Lemma as_unitary_in_range eps pu vs : in_range (pu_params pu) vs ->
  exists d, fill_dict (pu_params pu) vs [] = Ok d /\
    as_unitary eps pu vs =
      (do m <- pu_matrix pu vs; mk_unitary eps (pu_dim pu) (Some m) (Some (pu_name pu)) d false []).
Proof.
  intros H. unfold as_unitary. rewrite (check_values_range _ _ H). cbn [bind assert].
  destruct (fill_dict_ok (pu_params pu) vs [] (F2_length _ _ _ H)) as [d F]. rewrite F. cbn [bind]. eauto.
Qed.

Lemma C49_as_unitary_lemma : forall eps pu ts,
  List.Forall2 (fun p t => let '(a, b, x) := t in
    pr_min p = BR a /\ pr_max p = BR b /\ f_accepts a b = true /\
    fin (b64_minus mode_NE b a) = true /\ fin x = true /\ (0 <= BR x < 1)%R) (pu_params pu) ts ->
  let vs := map (fun t => let '(a, b, x) := t in BR (f_random_value a b x)) ts in
  exists d, as_unitary eps pu vs =
    (do m <- pu_matrix pu vs; mk_unitary eps (pu_dim pu) (Some m) (Some (pu_name pu)) d false []).
Proof.
  intros eps pu ts H vs. destruct (as_unitary_in_range eps pu vs (double_in_range _ _ H)) as (d & _ & E). eauto.
Qed.

(** ** Cases *)
(** -1.5, 2.25 and 0.75 as doubles: sign, mantissa, exponent. *)
Definition d_m15 : binary64 := b64_of_bits 13832806255468478464.
Definition d_p225 : binary64 := b64_of_bits 4612248968380809216.
Definition d_p075 : binary64 := b64_of_bits 4604930618986332160.
Definition d_max : binary64 := b64_of_bits 9218868437227405311.
Definition d_mmax : binary64 := b64_of_bits 18442240474082181119.
(** 1 - 2^-53, the largest sample. *)
Definition d_top : binary64 := b64_of_bits 4607182418800017407.

(** The real value of a computed double. *)
Ltac value := match goal with |- BR ?t = _ =>
  rewrite <- (FF2R_B2FF 53 1024 t);
  let v := eval vm_compute in (B2FF 53 1024 t) in
  replace (B2FF 53 1024 t) with v by (vm_cast_no_check (eq_refl v)) end;
  unfold FF2R, F2R; cbn; lra.

Lemma d_values : BR d_m15 = (- 3 / 2)%R /\ BR d_p225 = (9 / 4)%R /\ BR d_p075 = (3 / 4)%R.
Proof.
  unfold d_m15, d_p225, d_p075.
  repeat split; value.
Qed.

Lemma C49_case_lemma :
  f_accepts d_m15 d_p225 = true /\ fin (b64_minus mode_NE d_p225 d_m15) = true /\ fin d_p075 = true /\
  (0 <= BR d_p075 < 1)%R /\ BR d_m15 = (- 3 / 2)%R /\ BR d_p225 = (9 / 4)%R /\
  BR (f_random_value d_m15 d_p225 d_p075) = (21 / 16)%R.
Proof.
  destruct d_values as (A & B & C). rewrite A, B, C.
  repeat split; try (vm_compute; reflexivity); try lra.
  value.
Qed.

Lemma C49_overflow_case_lemma :
  f_accepts d_mmax d_max = true /\ fin d_mmax = true /\ fin d_max = true /\
  fin (b64_minus mode_NE d_max d_mmax) = false /\
  f_is_valid d_mmax d_max (f_random_value d_mmax d_max d_p075) = false.
Proof. repeat split; vm_compute; reflexivity. Qed.

Lemma C49_real_case_lemma : exists p, mk_parameter "beta" (- 1) 3 true = Ok p /\ (0 <= 1 / 4 < 1)%R /\
  pr_random_value p (1 / 4) = 0%R.
Proof.
  eexists. split; [unfold mk_parameter; cbn [String.eqb negb assert bind]; rewrite Rleb_le by lra; reflexivity|].
  split; [lra|]. unfold pr_random_value. cbn [pr_min pr_max]. lra.
Qed.

Lemma C49_as_unitary_case_lemma :
  let p := {| pr_name := "t"; pr_min := (- 3 / 2)%R; pr_max := (9 / 4)%R; pr_angle := false |} in
  List.Forall2 (fun p t => let '(a, b, x) := t in
    pr_min p = BR a /\ pr_max p = BR b /\ f_accepts a b = true /\
    fin (b64_minus mode_NE b a) = true /\ fin x = true /\ (0 <= BR x < 1)%R) [p; p]
    [(d_m15, d_p225, d_p075); (d_m15, d_p225, d_top)].
Proof.
  destruct d_values as (A & B & C).
  assert (T : (BR d_top = 1 - / 9007199254740992)%R).
  { unfold d_top. value. }
  assert (T' : (0 < / 9007199254740992 < 1)%R) by lra.
  apply Forall2_cons; [|apply Forall2_cons; [|apply Forall2_nil]]; cbn [pr_min pr_max]; rewrite A, B, ?C, ?T;
    repeat split; try (vm_compute; reflexivity); lra.
Qed.
