(** Matrices that are nearly Hermitian. *)
From Coq Require Import Reals List.
From Coquelicot Require Import Complex.
From Verif Require Import Base CMat ModelUnitary ModelHamiltonian.
Import ListNotations.
Open Scope R_scope.
Open Scope C_scope.

(** The Hermitian part [(A + A^dagger) / 2]. *)
Definition hermitian_part (A : mat) : mat := fun i j => RtoC (/ 2) * (A i j + Cconj (A j i)).

(** [h] is the [Hamiltonian] of terms made of the matrices [Ms], whatever the constructors accepted. *)
Definition accepted_as (d : nat) (Ms : list mat) (h : hamiltonian) : Prop :=
  exists ts, Forall2 (fun M t => mk_term (square d M) = Ok t) Ms ts /\ mk_hamiltonian ts = Ok h.

(** numpy's closeness of a matrix to its adjoint, with the default tolerances. *)
Definition nearly_hermitian (d : nat) (A : mat) : Prop :=
  forall i j, (i < d)%nat -> (j < d)%nat -> (Cmod (A i j - Cconj (A j i)) <= / 10 ^ 8 + / 10 ^ 5 * Cmod (A j i))%R.
