(** Vocabulary of C104: the size of the commutators of a list of matrices. *)
From Coq Require Import Reals List.
From Verif Require Import CMat Norms.
Import ListNotations.
Open Scope R_scope.

(** [A B - B A]. *)
Definition commutator (d : nat) (A B : mat) : mat := mminus (mmul d A B) (mmul d B A).

(** The Frobenius norms of the commutators of all pairs, each pair counted once. *)
Fixpoint commutators (d : nat) (Ms : list mat) : R :=
  match Ms with
  | [] => 0
  | A :: l => fold_right (fun B s => fro d (commutator d A B) + s) (commutators d l) l
  end.
