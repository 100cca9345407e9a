(** Reading the JAQAL text and the display text back: independent of how they are written. *)
From Coq Require Import Reals List Arith Bool String Ascii ZArith.
From Verif Require Import Base CMat ModelUnitary SpecModel SpecText SpecDecimal Spec.
Import ListNotations.
Open Scope string_scope.

(** What lines do, one after the other, to [n] qubits, when [read] reads their values. *)
Fixpoint lines_by (read : string -> R) (n : nat) (ls : list line) (P : mat) : option mat :=
  match ls with
  | [] => Some P
  | (name, ps, qs) :: t =>
      match operator_named name (map read ps) with
      | Some A => lines_by read n t (mmul (2 ^ n) (embed n qs A) P)
      | None => None
      end
  end.

(** JAQAL: the values are plain numbers. *)
Definition jaqal_operation (n : nat) (t : string) : option mat :=
  match read_text read_jaqal_line t with
  | Some ls => lines_by read_real n ls mid
  | None => None
  end.

(** "theta=0.25π" and "theta=0.25"; the letter is the two bytes 207 and 128. *)
Definition read_shown (s : string) : R :=
  match split_on "=" s with
  | [_; v] =>
      match split_on "207" v with
      | [x; String "128" ""] => (PI * read_real x)%R
      | _ => read_real v
      end
  | _ => 0%R
  end.
Definition display_operation (n : nat) (t : string) : option mat :=
  match read_text read_display_line t with
  | Some ls => lines_by read_shown n ls mid
  | None => None
  end.

(** How far a text of [L] gates may be from the gates, when each of up to three angles is at
    most [d] from the value that was printed. *)
Definition shown_bound (d : R) (L : nat) : R := (INR L * (3 / 2 * d))%R.
