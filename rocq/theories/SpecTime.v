(** What the measured time is to be. *)
From Coq Require Import Reals List ZArith.
From Verif Require Import Base ModelSequence ModelCompiler ModelResult.
Import ListNotations.
Open Scope R_scope.

(** Nothing takes negative time. *)
Definition never_back (tick : R -> R) (dur : R -> rstate * compiler -> R) : Prop :=
  (forall t, 0 <= tick t) /\ (forall t x, 0 <= dur t x).

(** [y] is the outcome of a call begun at moment [now] in state [x] that measures its time, [z] the outcome of the same call
    without a clock.  They end in the same state, with the same sequence and costs or the same exception; time does not run
    back; and the measured time is not negative, not shorter than the run of the loop (which begins after one reading of the
    clock) and not longer than the whole call. *)
Definition timed_as (tick : R -> R) (dur : R -> rstate * compiler -> R) (now : R) (x : rstate * compiler)
    (y : (R * (rstate * compiler)) * res compiler_result) (z : (rstate * compiler) * res (nat * list R)) : Prop :=
  snd (fst y) = fst z /\ now <= fst (fst y) /\
  match snd y, snd z with
  | Ok r, Ok (s, costs) =>
      cr_sequence r = s /\ cr_costs r = costs /\
      0 <= cr_time r /\ dur (now + tick now) x <= cr_time r /\ cr_time r <= fst (fst y) - now
  | Raise e, Raise f => e = f
  | _, _ => False
  end.
