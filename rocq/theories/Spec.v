(** Specifications used in the property statements.  Nothing here refers to
    the way the code computes its results. *)
From Coq Require Import Reals List Arith Bool String.
From Coquelicot Require Import Complex.
From Verif Require Import Base CMat Det.
Import ListNotations.
Open Scope R_scope.
Open Scope C_scope.

(** No non-zero real or imaginary part of the [n] by [n] matrix is smaller than
    [eps] in absolute value. Always true for [eps = 0]. *)
Definition eps_clean (eps : R) (n : nat) (A : mat) : Prop :=
  forall i j, (i < n)%nat -> (j < n)%nat ->
    ((Rabs (fst (A i j)) < eps)%R -> fst (A i j) = 0%R) /\
    ((Rabs (snd (A i j)) < eps)%R -> snd (A i j) = 0%R).

(** [B] is [A] with the components below [eps] replaced by 0. *)
Definition cleared (eps : R) (n : nat) (A B : mat) : Prop :=
  forall i j, (i < n)%nat -> (j < n)%nat ->
    ((Rabs (fst (A i j)) < eps)%R -> fst (B i j) = 0%R) /\
    ((eps <= Rabs (fst (A i j)))%R -> fst (B i j) = fst (A i j)) /\
    ((Rabs (snd (A i j)) < eps)%R -> snd (B i j) = 0%R) /\
    ((eps <= Rabs (snd (A i j)))%R -> snd (B i j) = snd (A i j)).

(** [A A^dagger] is within [1e-8 + 1e-5 * identity] of the identity, entry by
    entry. *)
Definition near_unitary (n : nat) (A : mat) : Prop :=
  forall i j, (i < n)%nat -> (j < n)%nat ->
    (Cmod (mmul n A (adj A) i j - mid i j)
     <= / 10 ^ 8 + / 10 ^ 5 * (if Nat.eqb i j then 1 else 0))%R.

(** Unitary with determinant 1. *)
Definition special (n : nat) (A : mat) : Prop := unitary_mx n A /\ det n A = 1.

(** Normalised overlap [|tr(A^dagger B)| / n]. *)
Definition overlap (n : nat) (A B : mat) : R :=
  (Cmod (mtrace n (mmul n (adj A) B)) / INR n)%R.

(** Bit of qubit [q] in the basis state [i] of [n] qubits; qubit 0 is the most
    significant. *)
Definition bit (n i q : nat) : nat := ((i / 2 ^ (n - 1 - q)) mod 2)%nat.

(** The number read off the qubits [qs] of basis state [i], first qubit of the
    list most significant. *)
Definition subindex (n : nat) (qs : list nat) (i : nat) : nat :=
  fold_left (fun acc q => (2 * acc + bit n i q)%nat) qs 0%nat.

(** [i] and [j] agree on every qubit outside [qs]. *)
Definition agree_off (n : nat) (qs : list nat) (i j : nat) : bool :=
  forallb (fun q => existsb (Nat.eqb q) qs || Nat.eqb (bit n i q) (bit n j q)) (seq 0 n).

(** The operator on [n] qubits that applies [U] to the qubits [qs] (in this
    order) and nothing to the others. *)
Definition embed (n : nat) (qs : list nat) (U : mat) : mat :=
  fun i j => if agree_off n qs i j then U (subindex n qs i) (subindex n qs j) else 0.

(** A legal placement of an operation on [length qs] of [n] qubits. *)
Definition placement (n : nat) (qs : list nat) : Prop :=
  NoDup qs /\ qs <> [] /\ forall q, In q qs -> (q < n)%nat.
