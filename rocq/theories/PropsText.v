(** Properties of the text output of sequences: C51, C52.

    [fmt k x] is what Python prints for [round(x, k)]; all that is assumed of it is
    that it prints a non-empty text of the characters of numbers ([numeral]).
    [read_text] reads a text back; see SpecText. *)
From Coq Require Import Reals List Arith Bool String Ascii ZArith.
From Verif Require Import Base CMat ModelUnitary ModelEntry ModelSequence ModelText Spec SpecModel SpecText
  PSeqEx PTextSeq PTextEx.
Import ListNotations.
Open Scope string_scope.

(** C51: in each of the three formats, what can be read back from the text of a
    sequence is, in order, the name, the parameters and the qubits of its entries.
    For every history of calls and every threshold, as long as no name contains
    punctuation or white space. *)
Theorem C51_texts_read_back : forall fmt eps os s t,
  (forall k x, numeral (fmt k x)) ->
  let w := exec eps os w_empty in
  (forall g, In g (contents w s) -> plain_gate (fst g)) ->
  (snd (on_seq s (get_qasm fmt eps) w) = Ok t ->
     read_text read_qasm_line t = Some (map (qasm_line fmt) (contents w s))) /\
  (snd (on_seq s (get_jaqal fmt eps) w) = Ok t ->
     read_text read_jaqal_line t = Some (map (jaqal_line fmt) (contents w s))) /\
  (snd (on_seq s (get_display_output fmt eps) w) = Ok t ->
     read_text read_display_line t = Some (map (display_line fmt) (contents w s))).
Proof. exact C51_read_back_lemma. Qed.
Print Assumptions C51_texts_read_back.

(** A history meeting the hypotheses, with a repeated entry object. *)
Example C51_case : exists u os,
  built 0 u /\ meq 2 (u_mat u) rot345 /\ u_name u = "R" /\
  u_params u = [("theta", ((PI / 4)%R, true)); ("rate", ((-1)%R, false))] /\
  os = [NewEntry u [0%Z]; NewEntry u [1%Z]; NewSequence 4 false [0; 1; 0]%nat] /\
  history 0 (built 0) odd_entries os w_empty /\ has_dim (exec 0 os w_empty) 0 (2 ^ 2) /\
  contents (exec 0 os w_empty) 0 = [(u, [0%nat]); (u, [1%nat]); (u, [0%nat])] /\
  (forall g, In g (contents (exec 0 os w_empty) 0) -> plain_gate (fst g)).
Proof. exact ex_C51_lemma. Qed.

(** A QASM text written out. *)
Example C51_text_case : forall fmt u,
  built 0 u -> u_dim u = 2%nat -> u_name u = "R" ->
  u_params u = [("theta", ((PI / 4)%R, true)); ("rate", ((-1)%R, false))] ->
  let os := [NewEntry u [0%Z]; NewEntry u [1%Z]; NewSequence 4 false [0; 1]%nat] in
  let args := "(pi*" ++ fmt 7%nat (PI / 4 / PI)%R ++ "," ++ fmt 7%nat (-1)%R ++ ")" in
  snd (on_seq 0 (get_qasm fmt 0) (exec 0 os w_empty)) =
    Ok ("# QASM generated from UnitarySequence.get_qasm()" ++ String "010" ("R" ++ args ++ String "009" ("q[0];" ++
        String "010" ("R" ++ args ++ String "009" "q[1];")))).
Proof. exact ex_C51_text_lemma. Qed.

(** A [fmt] that prints numbers. *)
Example C51_fmt_case : forall k x, numeral (some_fmt k x).
Proof. exact some_fmt_numeral. Qed.

(** C51: the texts exist for every history of exact gates ([C51_case] is one) ... *)
Theorem C51_texts_exist : forall fmt os s n,
  history 0 (built 0) odd_entries os w_empty ->
  has_dim (exec 0 os w_empty) s (2 ^ n) ->
  let w := exec 0 os w_empty in
  (exists t, snd (on_seq s (get_qasm fmt 0) w) = Ok t) /\
  (exists t, snd (on_seq s (get_jaqal fmt 0) w) = Ok t) /\
  (exists t, snd (on_seq s (get_display_output fmt 0) w) = Ok t).
Proof. exact C51_exists_lemma. Qed.
Print Assumptions C51_texts_exist.

(** C51: ... and, at the code's threshold too, for histories of a bounded length
    without [inverse()]. *)
Theorem C51_texts_exist_drift : forall fmt eps os s n,
  (0 <= eps <= 1)%R ->
  history eps (made eps) (fun _ _ => False) os w_empty ->
  has_dim (exec eps os w_empty) s (2 ^ n) ->
  let D := (14 * INR (updates os 0) * INR (2 ^ n) * (sqrt (INR (2 ^ n)) + 1) * eps)%R in
  (D <= 45 / 10 ^ 10)%R -> (INR (2 ^ n) * D <= / 100)%R ->
  let w := exec eps os w_empty in
  (exists t, snd (on_seq s (get_qasm fmt eps) w) = Ok t) /\
  (exists t, snd (on_seq s (get_jaqal fmt eps) w) = Ok t) /\
  (exists t, snd (on_seq s (get_display_output fmt eps) w) = Ok t).
Proof. exact C51_exists_drift_lemma. Qed.
Print Assumptions C51_texts_exist_drift.

(** The code's threshold and a gate with components below it. *)
Example C51_texts_exist_drift_case :
  exists u os, mk_unitary eps_code 2 (Some (square 2 tiny_rotation)) None [] false [] = Ok u /\
    unitary_mx 2 tiny_rotation /\ ~ eps_clean eps_code 2 tiny_rotation /\
    os = [NewEntry u [0%Z]; NewEntry u [1%Z]; NewSequence 4 false [0; 0]%nat; Product 0; AppendLast 0 1 true;
          RemoveFirst 0 false; AppendFirst 0 1 true; Undo 0] /\
    history eps_code (made eps_code) (fun _ _ => False) os w_empty /\
    has_dim (exec eps_code os w_empty) 0 (2 ^ 2) /\
    let D := (14 * INR (updates os 0) * INR (2 ^ 2) * (sqrt (INR (2 ^ 2)) + 1) * eps_code)%R in
    (0 < D <= 45 / 10 ^ 10)%R /\ (INR (2 ^ 2) * D <= / 100)%R.
Proof. exact ex_C15_unclean_lemma. Qed.

(** C51: asking for a text changes no sequence: neither entries nor product. [C51_case]
    meets the hypothesis. *)
Theorem C51_texts_change_nothing : forall fmt eps os s t d,
  has_dim (exec eps os w_empty) t d ->
  let w := exec eps os w_empty in
  let unchanged w' := has_dim w' t d /\ contents w' t = contents w t /\
    forall p, answers eps w' t p <-> answers eps w t p in
  unchanged (fst (on_seq s (get_qasm fmt eps) w)) /\
  unchanged (fst (on_seq s (get_jaqal fmt eps) w)) /\
  unchanged (fst (on_seq s (get_display_output fmt eps) w)).
Proof. exact C51_effect_lemma. Qed.
Print Assumptions C51_texts_change_nothing.

(** C51: the same for the line of one unitary; without [apply_to] it names all qubits. *)
Theorem C51_unitary_read_back : forall fmt u,
  (forall k x, numeral (fmt k x)) -> plain_gate u ->
  let qs := match u_apply u with [] => seq 0 (Nat.log2 (u_dim u)) | l => l end in
  qs <> [] ->
  read_qasm_line (u_get_qasm fmt u) = Some (qasm_line fmt (u, qs)) /\
  read_jaqal_line (u_get_jaqal fmt u) = Some (jaqal_line fmt (u, qs)) /\
  (u_apply u <> [] -> u_inv u = false ->
   read_display_line (u_get_display_name fmt u) = Some (display_line fmt (u, qs))).
Proof. exact C51_unitary_lemma. Qed.
Print Assumptions C51_unitary_read_back.

(** A unitary without [apply_to]. *)
Example C51_unitary_case : exists u,
  built 0 u /\ u_dim u = 2%nat /\ u_apply u = [] /\ plain_gate u /\ seq 0 (Nat.log2 (u_dim u)) = [0%nat].
Proof. exact ex_C51_unitary_lemma. Qed.

(** C52: the text of [inverse()] has the lines of the sequence's text in reverse
    order, in each format: nothing in it shows that the gates are inverted. (Also
    when entry objects are repeated.) *)
Theorem C52_inverse_text_is_reversed : forall fmt eps os s i t t',
  (forall k x, numeral (fmt k x)) ->
  let w := exec eps os w_empty in
  let w' := fst (step eps (Inverse s) w) in
  let reversed := split_on "010" t' = hd "" (split_on "010" t) :: rev (tl (split_on "010" t)) in
  (forall g, In g (contents w s) -> plain_gate (fst g)) ->
  snd (step eps (Inverse s) w) = Ok (VSequence i) ->
  (snd (on_seq s (get_qasm fmt eps) w) = Ok t -> snd (on_seq i (get_qasm fmt eps) w') = Ok t' -> reversed) /\
  (snd (on_seq s (get_jaqal fmt eps) w) = Ok t -> snd (on_seq i (get_jaqal fmt eps) w') = Ok t' -> reversed) /\
  (snd (on_seq s (get_display_output fmt eps) w) = Ok t ->
   snd (on_seq i (get_display_output fmt eps) w') = Ok t' -> reversed).
Proof. exact C52_reversed_lemma. Qed.
Print Assumptions C52_inverse_text_is_reversed.

(** A sequence and its inverse that have texts. *)
Example C52_inverse_text_case : exists u os i,
  built 0 u /\ os = [NewEntry u [0%Z]; NewEntry u [1%Z]; NewSequence 4 false [0; 1]%nat] /\
  let w := exec 0 os w_empty in
  let w' := fst (step 0 (Inverse 0) w) in
  snd (step 0 (Inverse 0) w) = Ok (VSequence i) /\
  (forall g, In g (contents w 0) -> plain_gate (fst g)) /\ List.length (contents w 0) = 2%nat /\
  forall fmt,
    (exists t t', snd (on_seq 0 (get_qasm fmt 0) w) = Ok t /\ snd (on_seq i (get_qasm fmt 0) w') = Ok t') /\
    (exists t t', snd (on_seq 0 (get_jaqal fmt 0) w) = Ok t /\ snd (on_seq i (get_jaqal fmt 0) w') = Ok t') /\
    (exists t t', snd (on_seq 0 (get_display_output fmt 0) w) = Ok t /\ snd (on_seq i (get_display_output fmt 0) w') = Ok t').
Proof. exact ex_C52_reversed_lemma. Qed.

(** C52: an entry and the entry of the inverse gate give the same line. *)
Theorem C52_same_line : forall fmt eps u v qs d f f',
  u_inverse eps u = Ok v -> qs <> [] ->
  snd (get_full_unitary eps d {| e_unitary := u; e_apply := qs; e_cache := [] |}) = Ok f ->
  snd (get_full_unitary eps d {| e_unitary := v; e_apply := qs; e_cache := [] |}) = Ok f' ->
  u_get_qasm fmt f' = u_get_qasm fmt f /\ u_get_jaqal fmt f' = u_get_jaqal fmt f /\
  u_get_display_name fmt f' = u_get_display_name fmt f.
Proof. exact C52_line_lemma. Qed.
Print Assumptions C52_same_line.

(** A gate that is not its own inverse. *)
Example C52_same_line_case : exists u v f f',
  built 0 u /\ u_inverse 0 u = Ok v /\ ~ meq 2 (u_mat u) (u_mat v) /\
  snd (get_full_unitary 0 4 {| e_unitary := u; e_apply := [1%nat]; e_cache := [] |}) = Ok f /\
  snd (get_full_unitary 0 4 {| e_unitary := v; e_apply := [1%nat]; e_cache := [] |}) = Ok f'.
Proof. exact ex_C52_line_lemma. Qed.

(** C52: [Unitary.get_display_name] alone does tell them apart. *)
Theorem C52_display_name_marks_inverse : forall fmt eps u v, u_inverse eps u = Ok v ->
  (u_inv u = false -> u_get_display_name fmt v = u_get_display_name fmt u ++ "†") /\
  (u_inv u = true -> u_get_display_name fmt u = u_get_display_name fmt v ++ "†").
Proof. exact C52_mark_lemma. Qed.
Print Assumptions C52_display_name_marks_inverse.

(** A gate and its inverse. *)
Example C52_display_name_case : exists u v, built 0 u /\ u_inverse 0 u = Ok v /\ u_inv u = false /\ u_inv v = true.
Proof. exact ex_C52_mark_lemma. Qed.

(** C52: a sequence and its inverse with the same text in all formats, but different
    products: the text does not determine the operation. *)
Theorem C52_text_refuted : exists os s i n p p',
  history 0 (built 0) odd_entries (os ++ [Inverse s]) w_empty /\
  snd (step 0 (Inverse s) (exec 0 os w_empty)) = Ok (VSequence i) /\
  let w := exec 0 os w_empty in
  let w' := exec 0 (os ++ [Inverse s]) w_empty in
  has_dim w s (2 ^ n) /\ has_dim w' i (2 ^ n) /\
  (forall fmt,
    (exists t, snd (on_seq s (get_qasm fmt 0) w) = Ok t /\ snd (on_seq i (get_qasm fmt 0) w') = Ok t) /\
    (exists t, snd (on_seq s (get_jaqal fmt 0) w) = Ok t /\ snd (on_seq i (get_jaqal fmt 0) w') = Ok t) /\
    (exists t, snd (on_seq s (get_display_output fmt 0) w) = Ok t /\ snd (on_seq i (get_display_output fmt 0) w') = Ok t)) /\
  answers 0 w s p /\ answers 0 w' i p' /\ ~ meq (2 ^ n) (u_mat p) (u_mat p').
Proof. exact C52_refuted_lemma. Qed.
Print Assumptions C52_text_refuted.

