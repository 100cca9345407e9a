(** Vocabulary for C106: means over a random generator of what operators make of a matrix. *)
From Coq Require Import Reals List.
From Coquelicot Require Import Coquelicot.
From Verif Require Import CMat ModelCompiler SpecChannel SpecChain.
Import ListNotations.
Open Scope R_scope.

(** [Y] is the mean, entry by entry, of what the operators [P g] make of [X], over the
    answers of the generator from its [r]-th question on. *)
Definition average_turned (d r : nat) (P : rng -> mat) (X Y : mat) : Prop :=
  forall i j, (i < d)%nat -> (j < d)%nat ->
    average r (fun g => Re (turned d (P g) X i j)) [] (Re (Y i j)) /\
    average r (fun g => Im (turned d (P g) X i j)) [] (Im (Y i j)).
