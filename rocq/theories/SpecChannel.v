(** Vocabulary for statements about averages over random draws. *)
From Coq Require Import Reals List.
From Coquelicot Require Import Coquelicot.
From Verif Require Import CMat.
Import ListNotations.
Open Scope R_scope.
Open Scope C_scope.

(** [m] is the mean of [f] over [N] independent uniform numbers of [0, 1): the
    iterated integral. *)
Fixpoint mean (N : nat) (f : list R -> R) (m : R) : Prop :=
  match N with
  | O => f [] = m
  | S N' => exists F : R -> R,
      (forall x, (0 <= x < 1)%R -> mean N' (fun xs => f (x :: xs)) (F x)) /\ is_RInt F 0 1 m
  end.

(** What the operator [U] makes of the density matrix [X]. *)
Definition turned (d : nat) (U X : mat) : mat := mmul d U (mmul d X (adj U)).

(** [Y] is the mean, entry by entry, of what the operators [P xs] make of [X]. *)
Definition mean_turned (d N : nat) (P : list R -> mat) (X Y : mat) : Prop :=
  forall i j, (i < d)%nat -> (j < d)%nat ->
    mean N (fun xs => Re (turned d (P xs) X i j)) (Re (Y i j)) /\
    mean N (fun xs => Im (turned d (P xs) X i j)) (Im (Y i j)).
