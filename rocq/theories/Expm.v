(** The matrix exponential, the vocabulary used for [scipy.linalg.expm].
    Definitions only; the facts are in [ExpmFacts.v]. *)
From Coq Require Import Reals Arith.
From Coquelicot Require Import Coquelicot.
From Verif Require Import CMat.
Open Scope R_scope.
Open Scope C_scope.

(** The term [A^k / k!]. *)
Definition exp_term (n : nat) (A : mat) (k : nat) : mat :=
  mscale (RtoC (/ INR (fact k))) (mpow n A k).

(** The sum of the power series, entry by entry. *)
Definition expm (n : nat) (A : mat) : mat :=
  fun i j => (Series (fun k => fst (exp_term n A k i j)), Series (fun k => snd (exp_term n A k i j))).

(** [E] is the exponential of [A]: every entry of [E] is the limit of the
    partial sums of [A^k / k!]. *)
Definition is_expm (n : nat) (A E : mat) : Prop :=
  forall i j, (i < n)%nat -> (j < n)%nat ->
    is_lim_seq (fun N => fst (csum N (fun k => mpow n A k i j / RtoC (INR (fact k))))) (fst (E i j)) /\
    is_lim_seq (fun N => snd (csum N (fun k => mpow n A k i j / RtoC (INR (fact k))))) (snd (E i j)).
