(** Properties of random parameter values: C49.

    Doubles are Flocq's [binary64]; [BR] is the real number a finite double stands
    for, [fin] says that it is finite.  [b64_minus mode_NE] is subtraction rounded
    to nearest even. *)
From Coq Require Import Reals List Arith Bool String ZArith.
From Flocq Require Import IEEE754.BinarySingleNaN IEEE754.Binary IEEE754.Bits.
From Verif Require Import Base ModelUnitary ModelPrimitive ModelFloat PFloat PParam.
Import ListNotations.
Open Scope R_scope.
Open Scope res_scope.

(** C49: for accepted bounds whose difference does not overflow and a sample in
    [0, 1), the value computed with IEEE rounding is finite, between the bounds,
    and [is_valid]. *)
Theorem C49_random_value_in_doubles : forall a b x : binary64,
  f_accepts a b = true -> fin (b64_minus mode_NE b a) = true ->
  fin x = true -> (0 <= BR x < 1)%R ->
  fin (f_random_value a b x) = true
  /\ (BR a <= BR (f_random_value a b x) <= BR b)%R
  /\ f_is_valid a b (f_random_value a b x) = true.
Proof. exact C49_double_lemma. Qed.
Print Assumptions C49_random_value_in_doubles.

(** Bounds -1.5 and 2.25, sample 0.75: the value is 1.3125. *)
Example C49_case :
  f_accepts d_m15 d_p225 = true /\ fin (b64_minus mode_NE d_p225 d_m15) = true /\ fin d_p075 = true /\
  (0 <= BR d_p075 < 1)%R /\ BR d_m15 = (- 3 / 2)%R /\ BR d_p225 = (9 / 4)%R /\
  BR (f_random_value d_m15 d_p225 d_p075) = (21 / 16)%R.
Proof. exact C49_case_lemma. Qed.

(** C49: if the difference of two finite bounds overflows, no sample gives a valid
    value: the property fails for such a parameter. *)
Theorem C49_overflow_refuted : forall a b x : binary64,
  fin a = true -> fin b = true -> fin (b64_minus mode_NE b a) = false ->
  f_is_valid a b (f_random_value a b x) = false.
Proof. exact C49_overflow_lemma. Qed.
Print Assumptions C49_overflow_refuted.

(** The largest double and its negative: accepted by the constructor. *)
Example C49_overflow_case :
  f_accepts d_mmax d_max = true /\ fin d_mmax = true /\ fin d_max = true /\
  fin (b64_minus mode_NE d_max d_mmax) = false /\
  f_is_valid d_mmax d_max (f_random_value d_mmax d_max d_p075) = false.
Proof. exact C49_overflow_case_lemma. Qed.

(** C49: so [random_value] of an accepted parameter is always valid exactly if the
    difference of its bounds is finite. *)
Theorem C49_exactly : forall a b : binary64, f_accepts a b = true ->
  ((forall x : binary64, fin x = true -> (0 <= BR x < 1)%R -> f_is_valid a b (f_random_value a b x) = true)
   <-> fin (b64_minus mode_NE b a) = true).
Proof. exact C49_exactly_lemma. Qed.
Print Assumptions C49_exactly.

(** C49: in real arithmetic the value is in range, below the maximum of a proper
    range, and every value from the minimum up to, not including, the maximum is
    the value of some sample. *)
Theorem C49_random_value_in_reals : forall nm a b f p x, mk_parameter nm a b f = Ok p -> (0 <= x < 1)%R ->
  (a <= pr_random_value p x <= b)%R /\ pr_is_valid p (pr_random_value p x) = true /\
  ((a < b)%R -> (pr_random_value p x < b)%R) /\
  (forall v, (a <= v < b)%R -> exists y, (0 <= y < 1)%R /\ pr_random_value p y = v).
Proof. exact C49_real_lemma. Qed.
Print Assumptions C49_random_value_in_reals.

(** A quarter of the way from -1 to 3. *)
Example C49_real_case : exists p, mk_parameter "beta" (- 1) 3 true = Ok p /\ (0 <= 1 / 4 < 1)%R /\
  pr_random_value p (1 / 4) = 0%R.
Proof. exact C49_real_case_lemma. Qed.

(** C49: [as_unitary] on values drawn in doubles passes its range check and its
    dictionary: only the callable or the constructor can still raise. *)
Theorem C49_as_unitary : forall eps pu ts,
  List.Forall2 (fun p t => let '(a, b, x) := t in
    pr_min p = BR a /\ pr_max p = BR b /\ f_accepts a b = true /\
    fin (b64_minus mode_NE b a) = true /\ fin x = true /\ (0 <= BR x < 1)%R) (pu_params pu) ts ->
  let vs := map (fun t => let '(a, b, x) := t in BR (f_random_value a b x)) ts in
  exists d, as_unitary eps pu vs =
    (do m <- pu_matrix pu vs; mk_unitary eps (pu_dim pu) (Some m) (Some (pu_name pu)) d false []).
Proof. exact C49_as_unitary_lemma. Qed.
Print Assumptions C49_as_unitary.

(** Two parameters; the second sample is the largest double below 1. *)
Example C49_as_unitary_case :
  let p := {| pr_name := "t"; pr_min := (- 3 / 2)%R; pr_max := (9 / 4)%R; pr_angle := false |} in
  List.Forall2 (fun p t => let '(a, b, x) := t in
    pr_min p = BR a /\ pr_max p = BR b /\ f_accepts a b = true /\
    fin (b64_minus mode_NE b a) = true /\ fin x = true /\ (0 <= BR x < 1)%R) [p; p]
    [(d_m15, d_p225, d_p075); (d_m15, d_p225, d_top)].
Proof. exact C49_as_unitary_case_lemma. Qed.

