(** What the printed JAQAL and display texts stand for: C105.

    [jaqal_operation n t] and [display_operation n t] are the operations on [n] qubits that the texts stand for
    (SpecPrint.v); [shown_bound d L] is [L * 3/2 * d], [store_bound eps n L] the clean-up error of [L] gates, 0 at
    [eps = 0]. *)
From Coq Require Import Reals List Arith Bool String ZArith.
From Coquelicot Require Import Complex.
From Verif Require Import Base CMat Norms ModelUnitary ModelPrimitive ModelSequence ModelCompiler ModelGates ModelText ModelDecimal ModelExample
  Spec SpecModel SpecText SpecCompiler SpecGates SpecExample SpecDecimal SpecPrint PDecimal PDecimalOp PDecimalEx PPrint PPrintEx.
Import ListNotations.
Open Scope R_scope.
Open Scope string_scope.

(** C105: after any history, get_jaqal() of a sequence of the library's gates returns a text that stands for a unitary
    operation close to what the gates do: half a unit of the seventh decimal for each angle. *)
Theorem C105_jaqal : forall eps K w s n, drift_world eps K w -> has_dim w s (2 ^ n) -> small_drift eps n K -> small_drift eps 2 1 ->
  (forall g, In g (contents w s) -> library_gate eps (fst g)) ->
  let L := List.length (contents w s) in
  exists t Q, snd (on_seq s (get_jaqal py_fmt eps) w) = Ok t /\ jaqal_operation n t = Some Q /\ unitary_mx (2 ^ n) Q /\
    (fro (2 ^ n) (mminus (ordered n (contents w s)) Q) <= sqrt (INR (2 ^ n)) * shown_bound (/ 2 / 10 ^ 7) L + store_bound eps n L)%R.
Proof. exact jaqal_text_lemma. Qed.
Print Assumptions C105_jaqal.

(** C105: the same for get_display_output(), with three decimals of the multiples of pi. *)
Theorem C105_display : forall eps K w s n, drift_world eps K w -> has_dim w s (2 ^ n) -> small_drift eps n K -> small_drift eps 2 1 ->
  (forall g, In g (contents w s) -> library_gate eps (fst g)) ->
  let L := List.length (contents w s) in
  exists t Q, snd (on_seq s (get_display_output py_fmt eps) w) = Ok t /\ display_operation n t = Some Q /\ unitary_mx (2 ^ n) Q /\
    (fro (2 ^ n) (mminus (ordered n (contents w s)) Q) <= sqrt (INR (2 ^ n)) * shown_bound (PI / 2 / 10 ^ 3) L + store_bound eps n L)%R.
Proof. exact display_text_lemma. Qed.
Print Assumptions C105_display.

(** A sequence of two couplings at the threshold of the code, and the lines that are printed. *)
Example C105_case : exists w u v, drift_world eps_code 2 w /\ has_dim w 0 (2 ^ 2) /\ contents w 0 = [(u, [0; 1]%nat); (v, [1; 0]%nat)] /\
  small_drift eps_code 2 2 /\ small_drift eps_code 2 1 /\ (forall g, In g (contents w 0) -> library_gate eps_code (fst g)) /\
  map (jaqal_line py_fmt) (contents w 0) = [("XX", ["1.0471976"], [0; 1]%nat); ("XX", ["1.0"], [1; 0]%nat)] /\
  map (display_line py_fmt) (contents w 0) = [("XX", ["theta=0.333π"], [0; 1]%nat); ("XX", ["theta=0.318π"], [1; 0]%nat)].
Proof. exact ex_C105_lemma. Qed.

(** C105: the JAQAL text of a compiled sequence stands for an operation whose distance from the target is the cost that the
    compiler states, up to the errors of printing and of clean-ups; after an early end it is small
    ([C95_report_case] meets these hypotheses). *)
Theorem C105_compiled : forall g eps n K max st c T nm ps iv ap target,
  rng_ok g -> drift_world eps K (r_world st) -> good_compiler eps n c ->
  c_array c = false \/ List.length (c_prims c) = 1%nat ->
  (forall p u, In p (c_prims c) -> instance eps p u -> library_gate eps u) ->
  unitary_mx (2 ^ n) T -> mk_unitary eps (2 ^ n) (Some (square (2 ^ n) T)) nm ps iv ap = Ok target ->
  (0 < max)%Z -> small_drift eps n (S (K + Z.to_nat max)) -> small_drift eps 2 1 ->
  forall st' r, compile_and_report py_fmt g eps target max (st, c) = (st', Ok r) ->
  let gap := (6 * drift_bound eps n (S (K + Z.to_nat max)) + shown_bound (/ 2 / 10 ^ 7) (rp_length r) + store_bound eps n (rp_length r))%R in
  exists t Q, snd (on_seq (rp_seq r) (get_jaqal py_fmt eps) (r_world (fst st'))) = Ok t /\
    jaqal_operation n t = Some Q /\ unitary_mx (2 ^ n) Q /\
    (Rabs (rp_cost r - (1 - overlap (2 ^ n) T Q)) <= gap)%R /\
    ((Z.of_nat (rp_steps r) < max)%Z -> (1 - overlap (2 ^ n) T Q <= / 10 ^ 8 + gap)%R).
Proof. exact jaqal_report_lemma. Qed.
Print Assumptions C105_compiled.

(** C105: angles between 0 and 2 pi are printed, in both formats, as angles between 0 and 2 pi, so as valid parameters of
    the library's gates (2 pi is printed as 6.2831853). *)
Theorem C105_angle : forall v, (0 <= v <= 2 * PI)%R ->
  (0 <= read_real (py_fmt 7 v) <= 2 * PI)%R /\ (Rabs (read_real (py_fmt 7 v) - v) <= / 2 / 10 ^ 7)%R /\
  (0 <= read_shown ("theta=" ++ display_value py_fmt (v, true)) <= 2 * PI)%R /\
  (Rabs (read_shown ("theta=" ++ display_value py_fmt (v, true)) - v) <= PI / 2 / 10 ^ 3)%R.
Proof. exact C105_angle_lemma. Qed.
Print Assumptions C105_angle.

(** C105: the texts do not determine the gates: two different couplings are printed alike. *)
Theorem C105_same_text_refuted : exists u v, library_gate 0 u /\ library_gate 0 v /\
  (forall qs, jaqal_line py_fmt (u, qs) = jaqal_line py_fmt (v, qs)) /\
  (forall qs, display_line py_fmt (u, qs) = display_line py_fmt (v, qs)) /\ ~ meq 4 (u_mat u) (u_mat v).
Proof. exact C105_same_text_lemma. Qed.
Print Assumptions C105_same_text_refuted.

