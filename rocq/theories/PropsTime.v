(** The elapsed time in the result of a compilation: C111.

    [tick] and [dur] say how long a reading of the clock and a run of the loop take; [never_back]: no negative time.
    [timed_as]: the same outcome as without a clock, and a measured time between the time of the loop and the time of the
    whole call (SpecTime.v). *)
From Coq Require Import Reals List Arith Bool String ZArith.
From Verif Require Import Base ModelUnitary ModelPrimitive ModelSequence ModelCompiler ModelResult SpecModel SpecCompiler SpecTime
  PTime PTimeEx.
Import ListNotations.
Open Scope R_scope.

(** C111: compile() gives the sequence, the costs and the exceptions of the compilation without a clock, and
    total_elapsed_time is not negative, not less than the time of the loop and not more than the time of the call. *)
Theorem C111_compile : forall tick dur g eps target thr K now st c, never_back tick dur ->
  timed_as tick dur now (st, c) (compile_result tick dur g eps target thr K (now, (st, c))) (compile g eps target thr K (st, c)).
Proof. exact compile_timed. Qed.
Print Assumptions C111_compile.

(** C111: the same for compile_layered(). *)
Theorem C111_layered : forall tick dur g eps target counts thr K now st c, never_back tick dur ->
  timed_as tick dur now (st, c) (compile_layered_result tick dur g eps target counts thr K (now, (st, c)))
    (compile_layered g eps target counts thr K (st, c)).
Proof. exact layered_timed. Qed.
Print Assumptions C111_layered.

(** One step, in a loop that takes 3 units of time, with readings that take 1 unit. *)
Example C111_case : exists tick dur g target st c now now' st' c' r,
  never_back tick dur /\ compile_result tick dur g 0 target (Some 2%R) 1 (now, (st, c)) = ((now', (st', c')), Ok r) /\
  List.length (cr_costs r) = 1%nat /\ List.length (contents (r_world st') (cr_sequence r)) = 1%nat /\
  dur (now + tick now) (st, c) = 3 /\ cr_time r = 4 /\ now' - now = 5.
Proof. exact ex_C111_lemma. Qed.

(** The same with a layer of three gates. *)
Example C111_layered_case : exists tick dur g target counts st c now now' st' c' r,
  never_back tick dur /\ compile_layered_result tick dur g 0 target counts (Some 2%R) 1 (now, (st, c)) = ((now', (st', c')), Ok r) /\
  List.length (contents (r_world st') (cr_sequence r)) = 3%nat /\
  dur (now + tick now) (st, c) = 3 /\ cr_time r = 4 /\ now' - now = 5.
Proof. exact ex_C111_layered_lemma. Qed.

