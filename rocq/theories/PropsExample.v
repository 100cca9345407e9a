(** The example notebook and what only scripts use: C94, and additions to C07 and C31.

    [infidelity n T gs] is 1 - |tr(T^dagger P)| / 2^n for the product [P] of the gates [gs];
    [truthful fmt n T max bound w r] says that the printed report [r] is right about the
    sequence it names (SpecExample.v). *)
From Coq Require Import Reals List Arith Bool String ZArith.
From Coquelicot Require Import Complex.
From Verif Require Import Base CMat ModelUnitary ModelPrimitive ModelSequence ModelCompiler ModelGates ModelText ModelExample
  Spec SpecModel SpecText SpecCompiler SpecGates SpecExample PExample PNotebook.
Import ListNotations.
Open Scope R_scope.

(** C94: compile a target and print the result, from any state and for any sensible compiler
    whose gates have plain names.  Either the printed report is right, or [cost_by_step[-1]]
    raises [IndexError]; which of the two happens is decided by the distance of the target
    from the identity. *)
Theorem C94_report : forall fmt g eps n K max st c T nm ps iv ap target,
  rng_ok g -> (forall k x, numeral (fmt k x)) ->
  drift_world eps K (r_world st) -> good_compiler eps n c ->
  c_array c = false \/ List.length (c_prims c) = 1%nat ->
  (forall p u, In p (c_prims c) -> instance eps p u -> plain_gate u) ->
  unitary_mx (2 ^ n) T -> mk_unitary eps (2 ^ n) (Some (square (2 ^ n) T)) nm ps iv ap = Ok target ->
  (0 < max)%Z -> small_drift eps n (S (K + Z.to_nat max)) ->
  let bound := (6 * drift_bound eps n (S (K + Z.to_nat max)))%R in
  exists st' b, drift_world eps (K + Z.to_nat max) (r_world st') /\
    ((exists r, compile_and_report fmt g eps target max (st, c) = ((st', set_beta c b), Ok r) /\
        truthful fmt n T max bound (r_world st') r /\
        (forall l, In l (contents (r_world st') (rp_seq r)) ->
           exists p, weighted (c_prims c) (c_probs c) p /\ allows eps (2 ^ n) p l) /\
        (/ 10 ^ 8 - bound < infidelity n T [])%R) \/
     (compile_and_report fmt g eps target max (st, c) = ((st', set_beta c b), Raise IndexError) /\
        (infidelity n T [] <= / 10 ^ 8 + bound)%R)).
Proof. exact C94_report_lemma. Qed.
Print Assumptions C94_report.

(** The notebook's compiler, 24 steps at the threshold of the code, a target far from the
    identity. *)
Example C94_report_case : exists (fmt : nat -> R -> string) g c T target, rng_ok g /\ (forall k x, numeral (fmt k x)) /\
  drift_world eps_code 0 w_empty /\ good_compiler eps_code 2 c /\ c_array c = false /\
  (forall p u, In p (c_prims c) -> instance eps_code p u -> plain_gate u) /\
  (exists p u, In p (c_prims c) /\ instance eps_code p u /\ u_name u = "Rxy"%string) /\
  unitary_mx (2 ^ 2) T /\ mk_unitary eps_code (2 ^ 2) (Some (square (2 ^ 2) T)) None [] false [] = Ok target /\
  (/ 10 ^ 8 + 6 * drift_bound eps_code 2 (S (0 + Z.to_nat 24)) < infidelity 2 T [])%R /\ small_drift eps_code 2 (S (0 + Z.to_nat 24)).
Proof. exact ex_C94_report_lemma. Qed.

(** C94: the notebook.  The first pair of cells always prints a right report, the second pair
    unless the random target is the identity up to the tolerance of close_to; every line of
    QASM is a rotation of one qubit or a coupling of both. *)
Theorem C94_notebook : forall fmt g eps max rvs T k, rng_ok g -> (forall k x, numeral (fmt k x)) ->
  unitary_mx 4 T -> rvs 4%nat = Ok (square 4 T) ->
  (0 < max)%Z -> small_drift eps 2 (S (Z.to_nat max + Z.to_nat max)) ->
  let bound := (6 * drift_bound eps 2 (S (Z.to_nat max + Z.to_nat max)))%R in
  exists c, example_compiler eps = Ok c /\
  exists st1 c1 r1, example_xx fmt g eps max ({| r_world := w_empty; r_draws := k |}, c) = ((st1, c1), Ok r1) /\
    truthful fmt 2 (xx_coupling (PI / 4)) max bound (r_world st1) r1 /\
    (exists ls, read_text read_qasm_line (rp_qasm r1) = Some ls /\ List.Forall notebook_line ls) /\
  exists st2 c2,
    ((exists r2, example_random fmt g eps rvs max (st1, c1) = ((st2, c2), Ok r2) /\
        truthful fmt 2 T max bound (r_world st2) r2 /\
        (/ 10 ^ 8 - bound < 1 - overlap 4 T mid)%R /\
        exists ls, read_text read_qasm_line (rp_qasm r2) = Some ls /\ List.Forall notebook_line ls) \/
     (example_random fmt g eps rvs max (st1, c1) = ((st2, c2), Raise IndexError) /\
        (1 - overlap 4 T mid <= / 10 ^ 8 + bound)%R)).
Proof. exact C94_notebook_lemma. Qed.
Print Assumptions C94_notebook.

(** 12 steps at the threshold of the code, and the notebook's 500 without clean-up. *)
Example C94_case : exists (fmt : nat -> R -> string) g (rvs : nat -> res ndarray) T, rng_ok g /\ (forall k x, numeral (fmt k x)) /\ unitary_mx 4 T /\
  rvs 4%nat = Ok (square 4 T) /\ (overlap 4 T mid = 0)%R /\
  small_drift eps_code 2 (S (Z.to_nat 12 + Z.to_nat 12)) /\ small_drift 0 2 (S (Z.to_nat 500 + Z.to_nat 500)).
Proof. exact ex_C94_lemma. Qed.

(** C94: the second pair of cells does raise when the target is the identity. *)
Theorem C94_close_target_refuted : forall fmt g rvs max k, rng_ok g -> (forall k x, numeral (fmt k x)) ->
  rvs 4%nat = Ok (square 4 mid) -> (0 < max)%Z ->
  exists c st1 c1 r1 st2 c2, example_compiler 0 = Ok c /\
    example_xx fmt g 0 max ({| r_world := w_empty; r_draws := k |}, c) = ((st1, c1), Ok r1) /\
    example_random fmt g 0 rvs max (st1, c1) = ((st2, c2), Raise IndexError).
Proof. exact C94_close_target_lemma. Qed.
Print Assumptions C94_close_target_refuted.

(** C94: the cost between two couplings depends on the difference of the angles only. *)
Theorem C94_coupling_distance : forall eps a b, eps_clean eps 4 (xx_coupling a) -> eps_clean eps 4 (xx_coupling b) ->
  exists u v, g_xx eps a = Ok u /\ g_xx eps b = Ok v /\ u_distance_from eps u v = Ok (1 - Rabs (cos (a - b)))%R.
Proof. exact C94_coupling_lemma. Qed.
Print Assumptions C94_coupling_distance.

(** Two angles at the threshold of the code. *)
Example C94_coupling_case : eps_clean eps_code 4 (xx_coupling (PI / 4)) /\ eps_clean eps_code 4 (xx_coupling (PI / 2)).
Proof. exact ex_coupling_lemma. Qed.

(** C31: a draw makes the sequence grow or shrink, never both, and shrinks it exactly from the
    append probability on. *)
Theorem C31_remove : forall g ap st, rng_ok g -> (0 <= ap <= 1)%R ->
  exists a, choose_action g ap st = ({| r_world := r_world st; r_draws := S (r_draws st) |}, Ok a) /\
    (is_append a = true <-> (g_unif g (r_draws st) < ap)%R) /\
    (is_remove a = true <-> (ap <= g_unif g (r_draws st))%R).
Proof. exact C31_remove_lemma. Qed.
Print Assumptions C31_remove.

(** A generator that answers 1/2. *)
Example C31_remove_case : exists g, rng_ok g /\ g_unif g 0 = (1 / 2)%R.
Proof. exact ex_C31_remove_lemma. Qed.

(** C07: [close_to] with an array. *)
Theorem C07_array : forall eps u a, built eps u -> eps_clean eps (u_dim u) (u_mat u) ->
  (nrows a = u_dim u -> ncols a = u_dim u ->
   (forall t, exists b, u_close_to_array eps u a (Some t) = Ok b /\
      (b = true <-> (t <= overlap (u_dim u) (u_mat u) (elt a))%R)) /\
   (exists b, u_close_to_array eps u a None = Ok b /\
      (b = true <-> (Rabs (1 - overlap (u_dim u) (u_mat u) (elt a)) <= / 10 ^ 8)%R))) /\
  (nrows a <> u_dim u \/ ncols a <> u_dim u -> forall t, u_close_to_array eps u a t = Raise AssertionError).
Proof. exact C07_array_lemma. Qed.
Print Assumptions C07_array.

(** The coupling by pi/2 and the identity's array. *)
Example C07_array_case : exists u a, built eps_code u /\ eps_clean eps_code (u_dim u) (u_mat u) /\
  nrows a = u_dim u /\ ncols a = u_dim u /\ unitary_mx (u_dim u) (elt a) /\ overlap (u_dim u) (u_mat u) (elt a) = 0%R.
Proof. exact ex_C07_array_lemma. Qed.

(** C07: an array that is not unitary can pass with threshold 1.0, though not without one. *)
Theorem C07_array_refuted : exists u a, built 0 u /\ nrows a = u_dim u /\ ncols a = u_dim u /\
  ~ unitary_mx (u_dim u) (elt a) /\ u_close_to_array 0 u a (Some 1%R) = Ok true /\ u_close_to_array 0 u a None = Ok false.
Proof. exact C07_array_refuted_lemma. Qed.
Print Assumptions C07_array_refuted.

