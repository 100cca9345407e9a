(** What a run of the compiler with inexact costs is, in terms of plain lists of gates. *)
From Coq Require Import Reals List Arith Bool.
From Verif Require Import Base CMat ModelUnitary ModelRound ModelRoundComp Spec SpecModel SpecRound.
Import ListNotations.
Open Scope R_scope.

(** The list of gates after a change. *)
Definition changed (c : rchange) (es : list (unitary * list nat)) : list (unitary * list nat) :=
  match c with
  | RAddFirst gs => rev gs ++ es
  | RAddLast gs => es ++ gs
  | RDropFirst k => skipn k es
  | RDropLast k => firstn (List.length es - k) es
  end.

(** [annealed cost B close es steps es' costs]: from the gates [es] the annealing loop, when
    every cost it works with is within [B] of [cost], ends with the gates [es'] after
    recording [costs]. *)
Inductive annealed (cost : list (unitary * list nat) -> R) (B : R) (close : R -> bool) :
  list (unitary * list nat) -> list rproposal -> list (unitary * list nat) -> list R -> Prop :=
| annealed_close es steps x :
    Rabs (x - cost es) <= B -> close x = true -> annealed cost B close es steps es []
| annealed_end es x :
    Rabs (x - cost es) <= B -> close x = false -> annealed cost B close es [] es []
| annealed_step es s t es' costs x current proposed :
    Rabs (x - cost es) <= B -> close x = false ->
    Rabs (current - cost es) <= B ->
    Rabs (proposed - cost (changed (rp_change s) es)) <= B ->
    let accept := rp_accept s current proposed in
    annealed cost B close (if accept then changed (rp_change s) es else es) t es' costs ->
    annealed cost B close es (s :: t) es' ((if accept then proposed else current) :: costs).

(** The number of method calls that change the sequence. *)
Definition change_calls (steps : list rproposal) : nat :=
  fold_right (fun s k => (List.length (change_ops (rp_change s)) + k)%nat) 0%nat steps.

(** Every gate is one that came out of the constructor, placed on distinct qubits of the
    system; and a change that leaves the cost as it is is accepted (the probability
    is [min(1, exp(0)) = 1]). *)
Definition r_steps_ok (ar : arith) (eps mu : R) (n : nat) (steps : list rproposal) : Prop :=
  forall s, In s steps -> r_ops_ok ar eps mu n (change_ops (rp_change s)) /\
    forall x, rp_accept s x x = true.

(** The run with exact costs. *)
Fixpoint exact_path (cost : list (unitary * list nat) -> R) (close : R -> bool)
    (es : list (unitary * list nat)) (steps : list rproposal) : list (unitary * list nat) * list R :=
  if close (cost es) then (es, [])
  else match steps with
       | [] => (es, [])
       | s :: t =>
           let new := changed (rp_change s) es in
           let kept := if rp_accept s (cost es) (cost new) then new else es in
           let rest := exact_path cost close kept t in
           (fst rest, cost kept :: snd rest)
       end.

(** No decision along the exact run is changed by errors of up to [B] in the costs. *)
Fixpoint decided (cost : list (unitary * list nat) -> R) (B : R) (close : R -> bool)
    (es : list (unitary * list nat)) (steps : list rproposal) : Prop :=
  (forall x, Rabs (x - cost es) <= B -> close x = close (cost es)) /\
  match steps with
  | [] => True
  | s :: t =>
      let new := changed (rp_change s) es in
      close (cost es) = true \/
      ((new = es \/
        forall x y, Rabs (x - cost es) <= B -> Rabs (y - cost new) <= B ->
          rp_accept s x y = rp_accept s (cost es) (cost new)) /\
       decided cost B close (if rp_accept s (cost es) (cost new) then new else es) t)
  end.

(** Accept exactly when the cost does not increase: the limit of a large [beta]. *)
Definition greedy (current proposed : R) : bool := if Rle_dec proposed current then true else false.

(** [close_to] with a threshold, [distance <= max_distance]. *)
Definition at_most (max_distance : R) (distance : R) : bool :=
  if Rle_dec distance max_distance then true else false.

(** Remove the first gate, append [g], remove the last gate, greedily (for the example). *)
Definition had_steps (g : unitary) : list rproposal :=
  [ {| rp_change := RDropFirst 1; rp_accept := greedy |};
    {| rp_change := RAddLast [(g, [0%nat])]; rp_accept := greedy |};
    {| rp_change := RDropLast 1; rp_accept := greedy |} ].
