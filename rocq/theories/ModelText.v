(** Model of the text output of [Unitary] and [UnitarySequence].  Definitions
    only.  Python strings are byte strings here (UTF-8). *)
From Coq Require Import Reals List Arith Bool String Ascii DecimalString.
From Verif Require Import Base ModelUnitary ModelEntry ModelSequence.
Import ListNotations.
Open Scope string_scope.
Open Scope se_scope.

(** The newline character; unitary/unitary_sequence.py:276-277. *)
Definition newline : string := String "010" "".
(** The tab character; unitary/unitary.py:175. *)
Definition tab : string := String "009" "".

(** [str(q)] of a qubit index, a non-negative integer; unitary/unitary.py:144, 175. *)
Definition str_nat (q : nat) : string := NilZero.string_of_uint (Nat.to_uint q).

(** [str(l)] of a list of integers: "[0, 1]"; unitary/unitary.py:195.  (A numpy
    array is printed differently; the model's qubit lists are lists.) *)
Definition str_list (l : list nat) : string := "[" ++ String.concat ", " (map str_nat l) ++ "]".

(** [self.apply_to], or all qubits if that is empty; unitary/unitary.py:139-142,
    170-173. *)
Definition shown_qubits (u : unitary) : list nat :=
  if Nat.eqb (List.length (u_apply u)) 0 then seq 0 (Nat.log2 (u_dim u)) else u_apply u.

(** ["q[" + str(q) + "]"]; unitary/unitary.py:144, 175. *)
Definition str_qubit (q : nat) : string := "q[" ++ str_nat q ++ "]".

Section Text.
(** [fmt k x] is [str(round(x, k))], whatever Python makes of that;
    unitary/unitary.py:130-131, 157-161, 187-191. *)
Variable fmt : nat -> R -> string.

(** [Unitary.get_jaqal]; unitary/unitary.py:121-146. *)
Definition u_get_jaqal (u : unitary) : string :=
  let parameters :=
    if Nat.ltb 0 (List.length (u_params u))
    then String.concat " " (map (fun kv => fmt 7 (fst (snd kv))) (u_params u))
    else "" in
  let qubits := String.concat " " (map str_qubit (shown_qubits u)) in
  u_name u ++ " " ++ qubits ++ " " ++ parameters.

(** [as_pi_fraction(v[0]) if v[1] else as_decimal(v[0])] of [get_qasm];
    unitary/unitary.py:157-161, 166. *)
Definition qasm_number (v : R * bool) : string :=
  if snd v then "pi*" ++ fmt 7 (fst v / PI)%R else fmt 7 (fst v).

(** [Unitary.get_qasm]; unitary/unitary.py:148-177. *)
Definition u_get_qasm (u : unitary) : string :=
  let parameters :=
    if Nat.ltb 0 (List.length (u_params u))
    then "(" ++ String.concat "," (map (fun kv => qasm_number (snd kv)) (u_params u)) ++ ")"
    else "" in
  let qubits := tab ++ String.concat "," (map str_qubit (shown_qubits u)) in
  u_name u ++ parameters ++ qubits ++ ";".

(** [as_pi_fraction(v[0]) if v[1] else as_decimal(v[0])] of [get_display_name];
    unitary/unitary.py:187-191, 198. *)
Definition display_number (v : R * bool) : string :=
  if snd v then fmt 3 (fst v / PI)%R ++ "π" else fmt 4 (fst v).

(** [Unitary.get_display_name]; unitary/unitary.py:179-204. *)
Definition u_get_display_name (u : unitary) : string :=
  let s0 := u_name u in
  let s1 := if Nat.ltb 0 (List.length (u_apply u)) then s0 ++ str_list (u_apply u) else s0 in
  let s2 :=
    if Nat.ltb 0 (List.length (u_params u))
    then s1 ++ ("(" ++ String.concat ", "
                  (map (fun kv => fst kv ++ "=" ++ display_number (snd kv)) (u_params u)) ++ ")")
    else s1 in
  if u_inv u then s2 ++ "†" else s2.

Variable eps : R.

(** The list comprehension over [self.sequence_entries];
    unitary/unitary_sequence.py:278-279, 292-293, 304-305. *)
Fixpoint text_loop (show : unitary -> string) (d : nat) (ls : list nat) : SE heap (list string) :=
  match ls with
  | [] => se_ret []
  | l :: t =>
      u <-- h_full eps l d ;;
      ts <-- text_loop show d t ;;
      se_ret (show u :: ts)
  end.

(** A header line followed by the joined lines of the entries;
    unitary/unitary_sequence.py:276-279, 290-293, 302-305. *)
Definition get_text (header : string) (show : unitary -> string) : meth string :=
  s <-- m_self ;;
  ls <-- m_heap (text_loop show (s_dim s) (s_entries s)) ;;
  se_ret ((header ++ newline) ++ String.concat newline ls).

(** [UnitarySequence.get_jaqal]; unitary/unitary_sequence.py:267-279. *)
Definition get_jaqal : meth string :=
  get_text "// JAQAL generated from UnitarySequence.get_jaqal()" u_get_jaqal.
(** [UnitarySequence.get_qasm]; unitary/unitary_sequence.py:281-293. *)
Definition get_qasm : meth string :=
  get_text "# QASM generated from UnitarySequence.get_qasm()" u_get_qasm.
(** [UnitarySequence.get_display_output]; unitary/unitary_sequence.py:295-305. *)
Definition get_display_output : meth string :=
  get_text "# Generated from UnitarySequence.get_display_output()" u_get_display_name.
End Text.
