(** Reading the printed numbers and gates back: independent of how they are written. *)
From Coq Require Import Reals List Arith Bool String Ascii ZArith.
From Coquelicot Require Import Complex.
From Verif Require Import Base CMat ModelUnitary ModelPrimitive ModelSequence ModelGates ModelExample Spec SpecModel SpecCompiler SpecText SpecGates.
Import ListNotations.
Open Scope string_scope.

(** The integer written in decimal digits. *)
Definition digits_value (s : string) : Z :=
  fold_left (fun n c => 10 * n + (Z.of_nat (nat_of_ascii c) - 48))%Z (chars s) 0%Z.

(** "12" and "12.5". *)
Definition read_plain (s : string) : R :=
  match split_on "." s with
  | [i; f] => (IZR (digits_value (i ++ f)) / 10 ^ String.length f)%R
  | _ => IZR (digits_value s)
  end.

(** "-07" and "+16". *)
Definition read_exponent (s : string) : Z :=
  match s with
  | String "-" t => - digits_value t
  | String "+" t => digits_value t
  | _ => digits_value s
  end.

(** "12.5" and "1.25e+01". *)
Definition read_unsigned (s : string) : R :=
  match split_on "e" s with
  | [m; e] => (read_plain m * powerRZ 10 (read_exponent e))%R
  | _ => read_plain s
  end.

(** A decimal number with or without sign. *)
Definition read_real (s : string) : R :=
  match s with
  | String "-" t => (- read_unsigned t)%R
  | _ => read_unsigned s
  end.

(** A parameter of QASM: "pi*0.25" is an angle. *)
Definition read_value (s : string) : R :=
  match s with
  | String "p" (String "i" (String "*" t)) => (PI * read_real t)%R
  | _ => read_real s
  end.

(** The operator with a name: the parameterised gates of the library on one and two qubits. *)
Definition operator_named (name : string) (vs : list R) : option mat :=
  match vs with
  | [t] => if String.eqb name "XX" then Some (xx_coupling t) else None
  | [t; p] => if String.eqb name "Rxy" then Some (rotation (cos p) (sin p) 0 t) else None
  | [a; b; c] =>
      if String.eqb name "Rxyz"
      then Some (mmul 2 (rotation 0 0 1 a) (mmul 2 (rotation 0 1 0 b) (rotation 0 0 1 c))) else None
  | _ => None
  end.

(** What the lines of a QASM text do, one after the other, to [n] qubits. *)
Fixpoint lines_operation (n : nat) (ls : list line) (P : mat) : option mat :=
  match ls with
  | [] => Some P
  | (name, ps, qs) :: t =>
      match operator_named name (map read_value ps) with
      | Some A => lines_operation n t (mmul (2 ^ n) (embed n qs A) P)
      | None => None
      end
  end.
Definition text_operation (n : nat) (t : string) : option mat :=
  match read_text read_qasm_line t with
  | Some ls => lines_operation n ls mid
  | None => None
  end.

(** The gate is a member of one of the library's families on one or two qubits. *)
Definition library_gate (eps : R) (u : unitary) : Prop :=
  exists pu vs, (pd_rotation_xy eps = Ok pu \/ pd_rotation_xyz = Ok pu \/ pd_xx eps = Ok pu) /\
    in_range (pu_params pu) vs /\ as_unitary eps pu vs = Ok u.

(** How far the text of [L] gates may be from the gates: each has up to three angles,
    rounded to 7 decimals of a multiple of pi. *)
Definition print_bound (L : nat) : R := (INR L * (3 / 2 * (PI / 2 / 10 ^ 7)))%R.
(** How far [L] stored gates on [n] qubits may be from the gates that were asked for. *)
Definition store_bound (eps : R) (n L : nat) : R := ((1 + drift_bound eps n 1) ^ L - 1)%R.

(** The QASM of the report, read back, is an operation whose distance from [T] is the cost that
    the report states, up to [gap]; after an early end that distance is small. *)
Definition text_tells (n : nat) (T : mat) (max : Z) (gap : R) (r : report) : Prop :=
  exists Q, text_operation n (rp_qasm r) = Some Q /\ unitary_mx (2 ^ n) Q /\
    (Rabs (rp_cost r - (1 - overlap (2 ^ n) T Q)) <= gap)%R /\
    ((Z.of_nat (rp_steps r) < max)%Z -> (1 - overlap (2 ^ n) T Q <= / 10 ^ 8 + gap)%R).
