(** What a weighted choice should do, said with sums of real numbers only. *)
From Coq Require Import Reals List.
From Flocq Require Import Core.Core.
Import ListNotations.
Open Scope R_scope.

(** The doubles, without a largest one. *)
Definition double (x : R) : Prop := generic_format radix2 (FLT_exp (-1074) 53) x.

Definition total (l : list R) : R := fold_right Rplus 0 l.

(** Number [i] is a possible choice with the weights [w], and it is the one that belongs to [x] up to [delta]: the
    weights before it make up at most the part [x + delta] of the whole, and together with it at least [x - delta]. *)
Definition chosen (delta : R) (w : list R) (x : R) (i : nat) : Prop :=
  (i < List.length w)%nat /\ 0 < nth i w 0 /\
  total (firstn i w) / total w - delta <= x <= total (firstn (S i) w) / total w + delta.
