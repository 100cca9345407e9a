(** [ParameterizedUnitaryParameter] in IEEE double precision (Flocq's binary64,
    rounding to nearest even).  Definitions only. *)
From Coq Require Import ZArith Bool.
From Flocq Require Import IEEE754.BinarySingleNaN IEEE754.Binary IEEE754.Bits.

(** [max_value - min_value], [*] and [+] on Python floats;
    unitary/parameterized_unitary_parameter.py:81-82. *)
Definition f_random_value (min_value max_value sample : binary64) : binary64 :=
  b64_plus mode_NE (b64_mult mode_NE sample (b64_minus mode_NE max_value min_value)) min_value.

(** [x >= y] on Python floats (false when one is a nan);
    unitary/parameterized_unitary_parameter.py:32, 70. *)
Definition f_ge (x y : binary64) : bool :=
  match b64_compare x y with Some Gt | Some Eq => true | _ => false end.
(** [x <= y]; unitary/parameterized_unitary_parameter.py:71. *)
Definition f_le (x y : binary64) : bool :=
  match b64_compare x y with Some Lt | Some Eq => true | _ => false end.

(** [is_valid]; unitary/parameterized_unitary_parameter.py:57-71. *)
Definition f_is_valid (min_value max_value v : binary64) : bool := f_ge v min_value && f_le v max_value.

(** The range check of [__init__];
    unitary/parameterized_unitary_parameter.py:32. *)
Definition f_accepts (min_value max_value : binary64) : bool := f_ge max_value min_value.
