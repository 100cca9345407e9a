(** [CompilerResult] and the measuring of time in the compiler: compiler/compiler_result.py, compiler/compiler.py:74-155.

    Time is a real number carried beside the state.  How long a reading of the clock ([tick]) and a run of the loop ([dur])
    take is left open: they are arbitrary functions of the moment (and, for a run, of the state) in which they begin.  A
    reading gives the moment at which it begins.  Other statements take no time. *)
From Coq Require Import Reals List ZArith.
From Verif Require Import Base ModelUnitary ModelPrimitive ModelSequence ModelCompiler.
Import ListNotations.

(** [CompilerResult]; compiler/compiler_result.py:9-32.  The sequence is its number in the world. *)
Record compiler_result : Type := {
  cr_sequence : nat;  (* [compiled_sequence], compiler_result.py:30 *)
  cr_costs : list R;  (* [cost_by_step], compiler_result.py:31 *)
  cr_time : R         (* [total_elapsed_time], compiler_result.py:32 *)
}.

(** Computations of the compiler that can read the clock; compiler/compiler.py:103-109, 147-154. *)
Definition TM (A : Type) : Type := SE (R * (rstate * compiler)) A.

Section Timed.
(** How long the work of compiler/compiler.py:103-106, 147-151 takes. *)
Variable tick : R -> R.
Variable dur : R -> rstate * compiler -> R.
(** The random numbers and the clean-up threshold, as in ModelCompiler.v (numpy.random; unitary/unitary.py:70-71). *)
Variable g : rng.
Variable eps : R.

(** [time.perf_counter()]; compiler/compiler.py:103, 106, 147, 151. *)
Definition perf_counter : TM R := fun s => ((fst s + tick (fst s), snd s)%R, Ok (fst s)).

(** The call of the loop, which takes time; compiler/compiler.py:104-105, 148-150. *)
Definition takes_time {A} (m : CM A) : TM A := fun s =>
  let '(x, r) := m (snd s) in ((fst s + dur (fst s) (snd s), x)%R, r).

(** A statement of the compiler that takes no time; compiler/compiler.py:101. *)
Definition at_once {A} (m : CM A) : TM A := fun s => let '(x, r) := m (snd s) in ((fst s, x), r).

(** Lines 103-110 and 147-155 of compiler/compiler.py. *)
Definition measured (m : CM (nat * list R)) : TM compiler_result :=
  initial_time <-- perf_counter ;;
  r <-- takes_time m ;;
  end_time <-- perf_counter ;;
  se_ret {| cr_sequence := fst r; cr_costs := snd r; cr_time := (end_time - initial_time)%R |}.

(** [compile]; compiler/compiler.py:74-110. *)
Definition compile_result (target : unitary) (threshold : option R) (max_step_count : Z) : TM compiler_result :=
  at_once (c <-- c_self ;; se_lift (assert_primitives c)) ;;;
  measured (compile_with g eps (make_random_change g eps) target threshold max_step_count).

(** [compile_layered]; compiler/compiler.py:112-155. *)
Definition compile_layered_result (target : unitary) (counts : list (primitive * Z)) (threshold : option R)
    (max_step_count : Z) : TM compiler_result :=
  measured (compile_with g eps (make_random_change_layered g eps counts) target threshold max_step_count).
End Timed.
