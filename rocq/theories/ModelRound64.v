(** A double-precision arithmetic for ModelRound.v.  Definitions only.

    Every real operation is followed by rounding to nearest even in a format with 53 bits
    and the exponent range of IEEE binary64 below (Flocq's FLT format; overflow cannot
    occur on the numbers at hand and is left out).  Matrix products, [np.kron], scaling
    and the trace are computed by the textbook loops.  For the determinant, the complex
    root and the absolute value the correctly rounded result is taken: LAPACK's LU
    factorisation, numpy's complex power and its norm are not modelled. *)
From Coq Require Import Reals List Arith Bool ZArith.
From Flocq Require Import Core.Core.
From Coquelicot Require Import Complex.
From Verif Require Import Base CMat Det CRoot ModelUnitary ModelRound.
Open Scope R_scope.

(** Rounding of one real number to double precision, as after every floating-point
    operation of numpy behind unitary/unitary.py:75-80, 276, 324-327. *)
Definition rn (x : R) : R := round radix2 (FLT_exp (-1074) 53) ZnearestE x.

(** Complex addition and multiplication on pairs of doubles, and rounding of both
    components; the elementary operations behind unitary/unitary.py:75, 80, 276, 324. *)
Definition c_round (z : C) : C := (rn (fst z), rn (snd z)).
Definition c_add (x y : C) : C := (rn (fst x + fst y), rn (snd x + snd y)).
Definition c_mul (x y : C) : C :=
  (rn (rn (fst x * fst y) - rn (snd x * snd y)), rn (rn (fst x * snd y) + rn (snd x * fst y))).

(** A sum accumulated from the left; the loop inside [@] and [np.trace]
    (unitary/unitary.py:75, 324, 325, 341, 356). *)
Fixpoint c_sum (n : nat) (f : nat -> C) : C :=
  match n with O => RtoC 0 | S k => c_add (c_sum k f) (f k) end.

(** The operations of [arith] in double precision; unitary/unitary.py:75-80, 276, 324-327. *)
Definition arith64 : arith :=
  {| a_mul := fun n A B i j => c_sum n (fun k => c_mul (A i k) (B k j));
     a_kron := fun k A B i j => c_mul (A (i / k)%nat (j / k)%nat) (B (i mod k)%nat (j mod k)%nat);
     a_close := allclose;
     a_det := fun n A => c_round (det n A);
     a_root := fun n z => c_round (croot n (/ z)%C);
     a_scale := fun c A i j => c_mul c (A i j);
     a_dist := fun n A => rn (1 - rn (rn (Cmod (c_sum n (fun i => A i i))) / INR n)) |}.
