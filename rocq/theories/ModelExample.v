(** Model of the example notebook, and of the few functions of the library that only
    scripts and tests use.  Definitions only. *)
From Coq Require Import Reals List Arith Bool String ZArith.
From Coquelicot Require Import Complex.
From Verif Require Import Base CMat ModelUnitary ModelEntry ModelPrimitive ModelSequence ModelCompiler ModelGates ModelText.
Import ListNotations.
Open Scope se_scope.

(** [CompilerAction.is_remove]; compiler/compiler_action.py:33-47. *)
Definition is_remove (a : action) : bool :=
  match a with ActRemoveFirst | ActRemoveLast => true | _ => false end.

(** [Unitary.close_to] with an array argument, as in the tests; unitary/unitary.py:279-303
    (the type annotation says [Unitary]; [distance_from] accepts both). *)
Definition u_close_to_array (eps : R) (u : unitary) (a : ndarray) (threshold : option R) : res bool :=
  bind (u_distance_from_array eps u a) (fun distance =>
  match threshold with
  | Some t => Ok (Rleb distance (1 - t)%R)
  | None => Ok (isclose (RtoC distance) 0)
  end).

(** [UnitarySequence.get_length]; unitary/unitary_sequence.py:102-109. *)
Definition get_length : meth nat := s <-- m_self ;; se_ret (List.length (s_entries s)).

(** [l[-1]] of a Python list; examples/stoq_example.ipynb:51, 93. *)
Definition last_item (l : list R) : res R :=
  match l with [] => Raise IndexError | _ => Ok (last l 0%R) end.

(** What a pair of cells shows: the length of the sequence, the last cost, the number of
    steps and the QASM text (the elapsed time is left out); examples/stoq_example.ipynb:50-52,
    70, 92-94, 118.  [rp_seq] is the sequence itself. *)
Record report : Type := {
  rp_seq : nat;
  rp_length : nat;
  rp_cost : R;
  rp_steps : nat;
  rp_qasm : string }.

Section Example.
(** [str(round(x, k))], the random generator and the clean-up threshold, as in the other
    models; unitary/unitary.py:70-71, 157-161, compiler/compiler.py:224-402. *)
Variable fmt : nat -> R -> string.
Variable g : rng.
Variable eps : R.

(** A method of a sequence called from a script; examples/stoq_example.ipynb:50, 70, 92, 118. *)
Definition run_seq {A} (s : nat) (m : meth A) : RM A :=
  fun st => let '(w', r) := on_seq s m (r_world st) in
            ({| r_world := w'; r_draws := r_draws st |}, r).

(** The two primitives of the notebook; examples/stoq_example.ipynb:23-26. *)
Definition example_primitives : res (list primitive) :=
  bind (pd_rotation_xy eps) (fun rotation =>
  bind (mk_primitive (Family rotation) None) (fun p1 =>
  bind (pd_xx eps) (fun xx =>
  bind (mk_primitive (Family xx) None) (fun p2 => Ok [p1; p2])))).

(** [Compiler(system_dimension, unitary_primitives)]; examples/stoq_example.ipynb:19-28 with
    the defaults at compiler/compiler.py:49-50. *)
Definition example_compiler : res compiler :=
  bind example_primitives (fun ps => mk_compiler 4 false ps None (1 / 2) (1 / 10)).

(** Compile, look at the result, print it; examples/stoq_example.ipynb:48-52 and 70,
    90-94 and 118. *)
Definition compile_and_report (target : unitary) (max_step_count : Z) : CM report :=
  r <-- compile g eps target None max_step_count ;;
  n <-- c_run (run_seq (fst r) get_length) ;;
  cost <-- se_lift (last_item (snd r)) ;;
  text <-- c_run (run_seq (fst r) (get_qasm fmt eps)) ;;
  se_ret {| rp_seq := fst r; rp_length := n; rp_cost := cost; rp_steps := List.length (snd r); rp_qasm := text |}.

(** The cells for the target [UnitaryDefinitions.xx()], whose angle is pi/4 by default
    (unitary/unitary_definitions.py:209); examples/stoq_example.ipynb:47-52, 70. *)
Definition example_xx (max_step_count : Z) : CM report :=
  target <-- se_lift (g_xx eps (PI / 4)%R) ;;
  compile_and_report target max_step_count.

(** The cells for the target [Unitary.random(system_dimension)];
    examples/stoq_example.ipynb:89-94, 118. *)
Definition example_random (rvs : nat -> res ndarray) (max_step_count : Z) : CM report :=
  target <-- se_lift (u_random eps rvs 4) ;;
  compile_and_report target max_step_count.

End Example.
