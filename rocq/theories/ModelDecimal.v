(** Model of [str(round(x, k))], with which the library prints the parameters of gates.
    Definitions only.  [x] is a real number.  [round(x, k)] of a Python float is the decimal
    with [k] places nearest to it, ties to even, as the nearest double; [str] of that double is
    the shortest decimal that stands for it, which is that decimal again as long as it has at
    most 15 digits, i.e. for |x| below 10^8 and k = 7.  Larger numbers are not modelled (the
    functions below then give a text with more digits than Python's), nor are infinities
    and nan. *)
From Coq Require Import Reals List Arith Bool String Ascii ZArith.
From Flocq Require Import Core.Core.
From Verif Require Import Base.
Open Scope string_scope.

(** The integer [round(x, k) * 10**k]; unitary/unitary.py:130-131, 157-161, 187-191. *)
Definition round_units (k : nat) (x : R) : Z := ZnearestE (x * 10 ^ k)%R.

(** A decimal digit; unitary/unitary.py:131, 158, 161, 188, 191. *)
Definition digit (d : Z) : ascii := ascii_of_nat (48 + Z.to_nat d).

(** The last [k] digits of [n]; unitary/unitary.py:131, 158, 161, 188, 191. *)
Fixpoint pad (k : nat) (n : Z) : string :=
  match k with
  | O => ""
  | S j => String (digit ((n / 10 ^ Z.of_nat j) mod 10)) (pad j n)
  end.

(** The number of digits of [n], found within [fuel] divisions;
    unitary/unitary.py:131, 158, 161, 188, 191. *)
Fixpoint ndigits (fuel : nat) (n : Z) : nat :=
  match fuel with
  | O => 1
  | S f => if Z.ltb n 10 then 1 else S (ndigits f (n / 10))
  end.

(** [str(n)] of an integer that is not negative; unitary/unitary.py:131, 158, 161, 188, 191. *)
Definition str_int (n : Z) : string := pad (ndigits (Z.to_nat (Z.log2 n)) n) n.

(** The text without the zeros at its end; unitary/unitary.py:131, 158, 161, 188, 191. *)
Fixpoint strip (s : string) : string :=
  match s with
  | "" => ""
  | String c t =>
      match strip t with
      | "" => if Ascii.eqb c "0" then "" else String c ""
      | t' => String c t'
      end
  end.

(** [str] of the double nearest to [n / 10^k], for [n] not negative: below 0.0001 with an
    exponent of at least two digits, otherwise with at least one digit after the
    point; unitary/unitary.py:131, 158, 161, 188, 191. *)
Definition str_decimal (k : nat) (n : Z) : string :=
  if Z.ltb 0 n && Z.ltb (n * 10 ^ 4) (10 ^ Z.of_nat k) then
    let l := ndigits k n in
    let rest := strip (pad (l - 1) n) in
    let e := Z.of_nat (k + 1 - l) in
    pad 1 (n / 10 ^ Z.of_nat (l - 1)) ++
    (match rest with "" => "" | _ => "." ++ rest end) ++
    "e-" ++ (if Z.ltb e 10 then "0" ++ str_int e else str_int e)
  else
    str_int (n / 10 ^ Z.of_nat k) ++ "." ++
    (match strip (pad k n) with "" => "0" | f => f end).

(** [str(round(x, k))]; unitary/unitary.py:130-131, 157-161, 187-191.  The sign stays when
    the number is rounded to 0 ("-0.0"). *)
Definition py_fmt (k : nat) (x : R) : string :=
  (if Rlt_dec x 0 then "-" else "") ++ str_decimal k (Z.abs (round_units k x)).
