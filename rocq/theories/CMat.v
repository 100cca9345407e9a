(** Complex matrices as functions, the vocabulary used for numpy arrays.
    Definitions only; their algebra is in [CMatFacts.v]. *)
From Coq Require Import Reals List Arith.
From Coquelicot Require Import Complex.
Import ListNotations.
Open Scope R_scope.
Open Scope C_scope.
#[global] Arguments Cmod x%C.

(** A matrix is given by its entries; which of them matter is said by a
    dimension that accompanies the matrix. *)
Definition mat : Type := nat -> nat -> C.

(** 2-dimensional numpy arrays. *)
Record ndarray : Type := { nrows : nat; ncols : nat; elt : mat }.

(** Finite sums, [f 0 + ... + f (n-1)]. *)
Fixpoint csum (n : nat) (f : nat -> C) : C :=
  match n with O => 0 | S k => csum k f + f k end.

Fixpoint rsum (n : nat) (f : nat -> R) : R :=
  match n with O => 0%R | S k => (rsum k f + f k)%R end.

(** numpy's [A @ B] for square arrays of size [n]. *)
Definition mmul (n : nat) (A B : mat) : mat :=
  fun i j => csum n (fun k => A i k * B k j).

(** numpy's [A.T.conj()]. *)
Definition adj (A : mat) : mat := fun i j => Cconj (A j i).

Definition transpose (A : mat) : mat := fun i j => A j i.

(** [np.identity]. *)
Definition mid : mat := fun i j => if Nat.eqb i j then 1 else 0.

Definition mscale (c : C) (A : mat) : mat := fun i j => c * A i j.
#[global] Arguments mscale c%C A i j.
Definition mplus (A B : mat) : mat := fun i j => A i j + B i j.
Definition mminus (A B : mat) : mat := fun i j => A i j - B i j.
Definition mzero : mat := fun _ _ => 0.

(** [np.trace]. *)
Definition mtrace (n : nat) (A : mat) : C := csum n (fun i => A i i).

(** [np.kron(A, B)] where [B] is [m] by [m]. *)
Definition kron (m : nat) (A B : mat) : mat :=
  fun i j => A (i / m)%nat (j / m)%nat * B (i mod m)%nat (j mod m)%nat.

(** Powers. *)
Fixpoint mpow (n : nat) (A : mat) (k : nat) : mat :=
  match k with O => mid | S j => mmul n A (mpow n A j) end.

(** Equality of the [n] by [n] parts. *)
Definition meq (n : nat) (A B : mat) : Prop :=
  forall i j, (i < n)%nat -> (j < n)%nat -> A i j = B i j.

(** [A] is an [n] by [n] unitary matrix: [A A^dagger = 1]. *)
Definition unitary_mx (n : nat) (A : mat) : Prop :=
  meq n (mmul n A (adj A)) mid.

(** [A] is an [n] by [n] Hermitian matrix. *)
Definition hermitian_mx (n : nat) (A : mat) : Prop := meq n A (adj A).

(** Equal up to a global phase. *)
Definition phase_eq (n : nat) (A B : mat) : Prop :=
  exists c : C, Cmod c = 1%R /\ meq n A (mscale c B).

(** [cis t = e^{it}]. *)
Definition cis (t : R) : C := (cos t, sin t).

(** Boolean comparisons of reals. *)
Definition Rleb (x y : R) : bool := if Rle_dec x y then true else false.
Definition Rltb (x y : R) : bool := if Rlt_dec x y then true else false.
