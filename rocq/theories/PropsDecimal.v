(** The printed numbers and what the printed QASM stands for: C95.

    [py_fmt k x] is [str(round(x, k))] (ModelDecimal.v); [read_real], [read_value] read
    numbers back, [text_operation n t] is the operation on [n] qubits that the QASM text [t]
    stands for (SpecDecimal.v).  [print_bound L] is [L * 3/2 * (pi/2) * 10^-7],
    [store_bound eps n L] the clean-up error of [L] gates, 0 at [eps = 0]. *)
From Coq Require Import Reals List Arith Bool String ZArith.
From Coquelicot Require Import Complex.
From Verif Require Import Base CMat Norms ModelUnitary ModelPrimitive ModelSequence ModelCompiler ModelGates ModelText ModelDecimal ModelExample
  Spec SpecModel SpecText SpecCompiler SpecGates SpecExample SpecDecimal PDecimal PDecimalOp PDecimalReport PDecimalEx.
Import ListNotations.
Open Scope R_scope.
Open Scope string_scope.

(** C95: the printed text is a number with at most [k] decimals, and none of these is nearer to
    the number that was printed. *)
Theorem C95_number : forall k x, numeral (py_fmt k x) /\
  (exists n, read_real (py_fmt k x) = IZR n / 10 ^ k) /\ (Rabs (read_real (py_fmt k x) - x) <= / 2 * / 10 ^ k)%R /\
  (forall m, Rabs (read_real (py_fmt k x) - x) <= Rabs (IZR m / 10 ^ k - x))%R.
Proof. exact C95_number_lemma. Qed.
Print Assumptions C95_number.

(** What is printed: exponents below 0.0001, at least one decimal, a sign that stays. *)
Example C95_number_case :
  py_fmt 7 (1 / 4) = "0.25" /\ py_fmt 7 2 = "2.0" /\ py_fmt 7 0 = "0.0" /\ py_fmt 7 (-1 / 3) = "-0.3333333" /\
  py_fmt 7 (25 / 2) = "12.5" /\ py_fmt 7 (/ 10 ^ 4) = "0.0001" /\ py_fmt 7 (/ 10 ^ 5) = "1e-05" /\
  py_fmt 7 (12 / 10 ^ 7) = "1.2e-06" /\ py_fmt 7 (-1 / 10 ^ 9) = "-0.0" /\ py_fmt 3 (1234 / 1000) = "1.234" /\
  read_real "1.2e-06" = (12 / 10 ^ 7)%R /\ read_value "pi*0.25" = (PI / 4)%R.
Proof. exact ex_C95_texts_lemma. Qed.

(** C95: a number with at most [k] decimals is printed as it is ([C95_number_case]). *)
Theorem C95_exact : forall k n, read_real (py_fmt k (IZR n / 10 ^ k)) = (IZR n / 10 ^ k)%R.
Proof. exact C95_exact_lemma. Qed.
Print Assumptions C95_exact.

(** C95: larger numbers are printed as numbers that are not smaller ([C95_number_case]). *)
Theorem C95_order : forall k x y, (x <= y)%R -> (read_real (py_fmt k x) <= read_real (py_fmt k y))%R.
Proof. exact C95_order_lemma. Qed.
Print Assumptions C95_order.

(** C95: an angle between 0 and 2 pi is printed as one between 0 and 2 pi, at most
    pi/2 * 10^-7 away; so the printed values are valid parameters of the library's gates. *)
Theorem C95_angle : forall v, (0 <= v <= 2 * PI)%R ->
  let v' := read_value (qasm_value py_fmt (v, true)) in (0 <= v' <= 2 * PI)%R /\ (Rabs (v' - v) <= PI / 2 / 10 ^ 7)%R.
Proof. exact C95_angle_lemma. Qed.
Print Assumptions C95_angle.

(** C95: the QASM lines of any list of the library's gates, at any places, stand for a unitary
    operation that is close to what the gates do. *)
Theorem C95_gates : forall eps n gs, small_drift eps 2 1 ->
  (forall g, In g gs -> library_gate eps (fst g) /\ placement n (snd g) /\ (2 ^ List.length (snd g))%nat = u_dim (fst g)) ->
  exists Q, lines_operation n (map (qasm_line py_fmt) gs) mid = Some Q /\ unitary_mx (2 ^ n) Q /\
    (fro (2 ^ n) (mminus (ordered n gs) Q) <= sqrt (INR (2 ^ n)) * print_bound (List.length gs) + store_bound eps n (List.length gs))%R.
Proof. exact operation_lemma. Qed.
Print Assumptions C95_gates.

(** A coupling of two of three qubits at the threshold of the code. *)
Example C95_gates_case : exists u, library_gate eps_code u /\ u_params u = [("theta", ((PI / 3)%R, true))] /\ small_drift eps_code 2 1 /\
  placement 3 [2; 0]%nat /\ (2 ^ List.length [2; 0]%nat)%nat = u_dim u.
Proof. exact ex_C95_gate_lemma. Qed.

(** C95: the same for the text that get_qasm() of a sequence returns, after any history. *)
Theorem C95_text : forall eps K w s n, drift_world eps K w -> has_dim w s (2 ^ n) -> small_drift eps n K -> small_drift eps 2 1 ->
  (forall g, In g (contents w s) -> library_gate eps (fst g)) ->
  let L := List.length (contents w s) in
  exists t Q, snd (on_seq s (get_qasm py_fmt eps) w) = Ok t /\ text_operation n t = Some Q /\ unitary_mx (2 ^ n) Q /\
    (fro (2 ^ n) (mminus (ordered n (contents w s)) Q) <= sqrt (INR (2 ^ n)) * print_bound L + store_bound eps n L)%R.
Proof. exact text_lemma. Qed.
Print Assumptions C95_text.

(** A sequence of two couplings at the threshold of the code. *)
Example C95_text_case : exists w u v, drift_world eps_code 2 w /\ has_dim w 0 (2 ^ 2) /\ contents w 0 = [(u, [0; 1]%nat); (v, [1; 0]%nat)] /\
  u_params u = [("theta", ((PI / 3)%R, true))] /\ u_params v = [("theta", (1%R, true))] /\
  small_drift eps_code 2 2 /\ small_drift eps_code 2 1 /\ (forall g, In g (contents w 0) -> library_gate eps_code (fst g)).
Proof. exact ex_C95_text_lemma. Qed.

(** C95: a compilation that is printed as the notebook does prints a cost that is the distance
    between the target and the operation of the printed text, up to the errors of printing
    and of clean-ups. *)
Theorem C95_report : forall g eps n K max st c T nm ps iv ap target,
  rng_ok g -> drift_world eps K (r_world st) -> good_compiler eps n c ->
  c_array c = false \/ List.length (c_prims c) = 1%nat ->
  (forall p u, In p (c_prims c) -> instance eps p u -> library_gate eps u) ->
  unitary_mx (2 ^ n) T -> mk_unitary eps (2 ^ n) (Some (square (2 ^ n) T)) nm ps iv ap = Ok target ->
  (0 < max)%Z -> small_drift eps n (S (K + Z.to_nat max)) -> small_drift eps 2 1 ->
  forall st' r, compile_and_report py_fmt g eps target max (st, c) = (st', Ok r) ->
  let gap := (6 * drift_bound eps n (S (K + Z.to_nat max)) + print_bound (rp_length r) + store_bound eps n (rp_length r))%R in
  text_tells n T max gap r.
Proof. exact C95_report_lemma. Qed.
Print Assumptions C95_report.

(** The notebook's compiler and 24 steps at the threshold of the code; this also meets the
    hypotheses of [C95_notebook]. *)
Example C95_report_case : exists g c T target (rvs : nat -> res ndarray), rng_ok g /\ drift_world eps_code 0 w_empty /\ good_compiler eps_code 2 c /\ c_array c = false /\
  List.length (c_prims c) = 2%nat /\ (forall p u, In p (c_prims c) -> instance eps_code p u -> library_gate eps_code u) /\
  unitary_mx (2 ^ 2) T /\ mk_unitary eps_code (2 ^ 2) (Some (square (2 ^ 2) T)) None [] false [] = Ok target /\
  rvs 4%nat = Ok (square 4 T) /\ (overlap 4 T mid = 0)%R /\
  small_drift eps_code 2 (S (0 + Z.to_nat 24)) /\ small_drift eps_code 2 (S (Z.to_nat 12 + Z.to_nat 12)) /\ small_drift eps_code 2 1 /\
  exists st r, compile_and_report py_fmt g eps_code target 24 ({| r_world := w_empty; r_draws := 0 |}, c) = (st, Ok r).
Proof. exact ex_C95_report_lemma. Qed.

(** C95: both pairs of cells of the example notebook. *)
Theorem C95_notebook : forall g eps max rvs T k, rng_ok g -> unitary_mx 4 T -> rvs 4%nat = Ok (square 4 T) ->
  (0 < max)%Z -> small_drift eps 2 (S (Z.to_nat max + Z.to_nat max)) ->
  let gap r := (6 * drift_bound eps 2 (S (Z.to_nat max + Z.to_nat max)) + print_bound (rp_length r) + store_bound eps 2 (rp_length r))%R in
  exists c, example_compiler eps = Ok c /\
  exists st1 c1 r1, example_xx py_fmt g eps max ({| r_world := w_empty; r_draws := k |}, c) = ((st1, c1), Ok r1) /\
    text_tells 2 (xx_coupling (PI / 4)) max (gap r1) r1 /\
    forall st2 r2, example_random py_fmt g eps rvs max (st1, c1) = (st2, Ok r2) -> text_tells 2 T max (gap r2) r2.
Proof. exact C95_notebook_lemma. Qed.
Print Assumptions C95_notebook.

(** C95: the text does not determine the gate: two different couplings are printed alike. *)
Theorem C95_same_text_refuted : exists u v, library_gate 0 u /\ library_gate 0 v /\
  (forall qs, qasm_line py_fmt (u, qs) = qasm_line py_fmt (v, qs)) /\ u_params u <> u_params v /\
  ~ meq 4 (u_mat u) (u_mat v).
Proof. exact C95_same_text_lemma. Qed.
Print Assumptions C95_same_text_refuted.

