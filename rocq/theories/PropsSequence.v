(** Properties of [UnitarySequence]: C14-C23, C64, C66.

    A program is a list of calls ([op]) on any number of entries and sequences,
    which may share entry objects.  [exec eps os w_empty] is the state after the
    calls [os]; a program goes on after exceptions. *)
From Coq Require Import Reals List Arith Bool String ZArith.
From Coquelicot Require Import Complex.
From Verif Require Import Base CMat Det Norms ModelUnitary ModelEntry ModelSequence Spec SpecModel
  PSeqUndo PSeqProps PSeqCases PSeqEx PSeqParity PLongRun.
Import ListNotations.
Open Scope R_scope.
Open Scope C_scope.

(** C14: after any history of calls, [product()] of every sequence answers the
    ordered product of the gates the sequence contains, first gate rightmost.
    (Threshold 0; [inverse()] only on sequences in which no object occurs an even
    number of times.) *)
Theorem C14_product_is_ordered_product : forall os s n,
  history 0 (built 0) odd_entries os w_empty ->
  has_dim (exec 0 os w_empty) s (2 ^ n) ->
  let w := exec 0 os w_empty in
  exists p, answers 0 w s p /\ u_dim p = (2 ^ n)%nat /\
    meq (2 ^ n) (u_mat p) (ordered n (contents w s)).
Proof. exact C14_lemma. Qed.
Print Assumptions C14_product_is_ordered_product.

(** A history with a repeated entry object, a maintained product and an undo. *)
Example C14_case :
  exists u os, built 0 u /\ meq 2 (u_mat u) rot345 /\
    os = [NewEntry u [0%Z]; NewEntry u [1%Z]; NewSequence 4 false [0; 0]%nat; AppendLast 0 1 true;
          Product 0; RemoveFirst 0 false; AppendFirst 0 1 true; Undo 0] /\
    history 0 (built 0) odd_entries os w_empty /\ has_dim (exec 0 os w_empty) 0 (2 ^ 2) /\
    contents (exec 0 (firstn 4 os) w_empty) 0 = [(u, [0%nat]); (u, [0%nat]); (u, [1%nat])].
Proof. exact ex_C14_lemma. Qed.

(** C15: with the clean-up of components below [eps], the maintained product stays
    within [14 K d (sqrt d + 1) eps] of the exact ordered product in Frobenius norm,
    after [K] product updates, as long as that is small. *)
Theorem C15_product_drift : forall eps os s n,
  (0 <= eps <= 1)%R ->
  history eps (made eps) (fun _ _ => False) os w_empty ->
  has_dim (exec eps os w_empty) s (2 ^ n) ->
  let D := (14 * INR (updates os 0) * INR (2 ^ n) * (sqrt (INR (2 ^ n)) + 1) * eps)%R in
  (D <= 45 / 10 ^ 10)%R -> (INR (2 ^ n) * D <= / 100)%R ->
  let w := exec eps os w_empty in
  exists p, answers eps w s p /\ u_dim p = (2 ^ n)%nat /\
    (fro (2 ^ n) (mminus (u_mat p) (ordered n (contents w s))) <= D)%R.
Proof. exact C15_lemma. Qed.
Print Assumptions C15_product_drift.

(** The code's threshold, and a gate with components below it. *)
Example C15_unclean_case :
  exists u os, mk_unitary eps_code 2 (Some (square 2 tiny_rotation)) None [] false [] = Ok u /\
    unitary_mx 2 tiny_rotation /\ ~ eps_clean eps_code 2 tiny_rotation /\
    os = [NewEntry u [0%Z]; NewEntry u [1%Z]; NewSequence 4 false [0; 0]%nat; Product 0; AppendLast 0 1 true;
          RemoveFirst 0 false; AppendFirst 0 1 true; Undo 0] /\
    history eps_code (made eps_code) (fun _ _ => False) os w_empty /\
    has_dim (exec eps_code os w_empty) 0 (2 ^ 2) /\
    let D := (14 * INR (updates os 0) * INR (2 ^ 2) * (sqrt (INR (2 ^ 2)) + 1) * eps_code)%R in
    (0 < D <= 45 / 10 ^ 10)%R /\ (INR (2 ^ 2) * D <= / 100)%R.
Proof. exact ex_C15_unclean_lemma. Qed.

(** The code's threshold, and a history with five updates on two qubits. *)
Example C15_case :
  exists u os, built eps_code u /\ eps_clean eps_code (u_dim u) (u_mat u) /\ meq 2 (u_mat u) rot345 /\
    os = [NewEntry u [0%Z]; NewEntry u [1%Z]; NewSequence 4 false [0; 0]%nat; Product 0; AppendLast 0 1 true;
          RemoveFirst 0 false; AppendFirst 0 1 true; Undo 0] /\
    history eps_code (fun u => built eps_code u /\ eps_clean eps_code (u_dim u) (u_mat u)) (fun _ _ => False) os w_empty /\
    has_dim (exec eps_code os w_empty) 0 (2 ^ 2) /\
    let D := (14 * INR (updates os 0) * INR (2 ^ 2) * (sqrt (INR (2 ^ 2)) + 1) * eps_code)%R in
    (0 < D <= 45 / 10 ^ 10)%R /\ (INR (2 ^ 2) * D <= / 100)%R.
Proof. exact ex_C15_lemma. Qed.

(** C15: the same with a smaller constant, and with [inverse()], when no gate has a
    stored component in (0, eps). The hypotheses are met by [C15_case] too. *)
Theorem C15_product_drift_clean : forall eps os s n,
  (0 <= eps <= 1)%R ->
  history eps (fun u => built eps u /\ eps_clean eps (u_dim u) (u_mat u)) odd_entries os w_empty ->
  has_dim (exec eps os w_empty) s (2 ^ n) ->
  let D := (2 * INR (updates os 0) * INR (2 ^ n) * (sqrt (INR (2 ^ n)) + 1) * eps)%R in
  (D <= 45 / 10 ^ 10)%R -> (INR (2 ^ n) * D <= / 100)%R ->
  let w := exec eps os w_empty in
  exists p, answers eps w s p /\ u_dim p = (2 ^ n)%nat /\
    (fro (2 ^ n) (mminus (u_mat p) (ordered n (contents w s))) <= D)%R.
Proof. exact C15_clean_lemma. Qed.
Print Assumptions C15_product_drift_clean.

(** C16: undo() restores the entries from before the latest saved change, whatever
    unsaved changes and other calls came in between; for every threshold. *)
Theorem C16_undo_restores_entries : forall eps os o os' s,
  saves (exec eps os w_empty) s o ->
  quiet_history eps s os' (fst (step eps o (exec eps os w_empty))) ->
  let w0 := exec eps os w_empty in
  let w1 := exec eps (os ++ o :: os') w_empty in
  let w2 := fst (step eps (Undo s) w1) in
  snd (step eps (Undo s) w1) = Ok VNone /\ contents w2 s = contents w0 s.
Proof. exact C16_undo_lemma. Qed.
Print Assumptions C16_undo_restores_entries.

(** C16: and the product from before. *)
Theorem C16_undo_restores_product : forall os o os' s n p,
  history 0 (built 0) odd_entries (os ++ o :: os') w_empty ->
  has_dim (exec 0 os w_empty) s (2 ^ n) ->
  saves (exec 0 os w_empty) s o ->
  quiet_history 0 s os' (fst (step 0 o (exec 0 os w_empty))) ->
  answers 0 (exec 0 os w_empty) s p ->
  exists p', answers 0 (exec 0 (os ++ o :: os' ++ [Undo s]) w_empty) s p' /\
    u_dim p' = u_dim p /\ meq (u_dim p) (u_mat p') (u_mat p).
Proof. exact C16_product_lemma. Qed.
Print Assumptions C16_undo_restores_product.

(** A history meeting the hypotheses of both. *)
Example C16_case :
  exists u os o os', built 0 u /\ meq 2 (u_mat u) rot345 /\
    os = [NewEntry u [0%Z]; NewEntry u [1%Z]; NewSequence 4 false [0; 0]%nat] /\
    o = AppendLast 0 1 true /\
    os' = [RemoveFirst 0 false; Product 0; AppendFirst 0 1 false; Combine [0%nat]; RemoveLast 0 false] /\
    history 0 (built 0) odd_entries (os ++ o :: os') w_empty /\
    has_dim (exec 0 os w_empty) 0 (2 ^ 2) /\ saves (exec 0 os w_empty) 0 o /\
    quiet_history 0 0 os' (fst (step 0 o (exec 0 os w_empty))) /\
    exists p, answers 0 (exec 0 os w_empty) 0 p.
Proof. exact ex_C16_lemma. Qed.

(** C16: a second undo() without a saved change in between raises and changes
    nothing; for every threshold. *)
Theorem C16_undo_only_once : forall eps os os' s,
  snd (step eps (Undo s) (exec eps os w_empty)) = Ok VNone ->
  quiet_history eps s os' (fst (step eps (Undo s) (exec eps os w_empty))) ->
  let w := exec eps (os ++ Undo s :: os') w_empty in
  step eps (Undo s) w = (w, Raise AssertionError).
Proof. exact C16_once_lemma. Qed.
Print Assumptions C16_undo_only_once.

(** A history meeting the hypotheses. *)
Example C16_once_case :
  exists os os', snd (step 0 (Undo 0) (exec 0 os w_empty)) = Ok VNone /\
    os' = [AppendLast 0 1 false; RemoveFirst 0 false; Product 0; NewSequence 4 true [0; 1]%nat] /\
    quiet_history 0 0 os' (fst (step 0 (Undo 0) (exec 0 os w_empty))).
Proof. exact ex_C16_once_lemma. Qed.

(** C16: nor can a new sequence be undone before its first saved change. *)
Theorem C16_nothing_to_undo : forall eps os d a ls os' s,
  snd (step eps (NewSequence d a ls) (exec eps os w_empty)) = Ok (VSequence s) ->
  quiet_history eps s os' (fst (step eps (NewSequence d a ls) (exec eps os w_empty))) ->
  let w := exec eps (os ++ NewSequence d a ls :: os') w_empty in
  step eps (Undo s) w = (w, Raise AssertionError).
Proof. exact C16_new_lemma. Qed.
Print Assumptions C16_nothing_to_undo.

(** Removing from an empty sequence saves nothing. *)
Example C16_new_case :
  exists os', snd (step 0 (NewSequence 4 false []) (exec 0 [] w_empty)) = Ok (VSequence 0) /\
    os' = [RemoveFirst 0 true; Product 0; NewSequence 4 true []] /\
    quiet_history 0 0 os' (fst (step 0 (NewSequence 4 false []) (exec 0 [] w_empty))).
Proof. exact ex_C16_new_lemma. Qed.

(** C17: combine() succeeds on sequences of one dimension; the new sequence has the
    concatenated entries and the product of the products, last one leftmost; the
    inputs keep their entries. *)
Theorem C17_combine : forall os ss n,
  history 0 (built 0) odd_entries os w_empty ->
  ss <> [] -> (forall s, In s ss -> has_dim (exec 0 os w_empty) s (2 ^ n)) ->
  let w := exec 0 os w_empty in
  let w' := fst (step 0 (Combine ss) w) in
  exists c p,
    snd (step 0 (Combine ss) w) = Ok (VSequence c) /\ has_dim w' c (2 ^ n) /\ ~ has_dim w c (2 ^ n) /\
    contents w' c = List.concat (map (contents w) ss) /\
    answers 0 w' c p /\
    (forall ps, Forall2 (answers 0 w) ss ps ->
       meq (2 ^ n) (u_mat p) (fold_left (fun P q => mmul (2 ^ n) (u_mat q) P) ps mid)) /\
    (forall s, In s ss -> contents w' s = contents w s).
Proof. exact C17_lemma. Qed.
Print Assumptions C17_combine.

(** Three arguments, one of them twice, one array-built. *)
Example C17_case :
  exists u os ss, built 0 u /\ meq 2 (u_mat u) rot345 /\
    os = [NewEntry u [0%Z]; NewEntry u [1%Z]; NewSequence 4 false [0; 0]%nat; NewSequence 4 true [1]%nat] /\
    ss = [1; 0; 1]%nat /\
    history 0 (built 0) odd_entries os w_empty /\
    (forall s, In s ss -> has_dim (exec 0 os w_empty) s (2 ^ 2)) /\
    List.concat (map (contents (exec 0 os w_empty)) ss) =
      [(u, [1%nat]); (u, [0%nat]); (u, [0%nat]); (u, [1%nat])].
Proof. exact ex_C17_lemma. Qed.

(** C17: no arguments, or arguments of different dimensions, are refused without
    any effect. *)
Theorem C17_combine_refuses : forall eps w,
  step eps (Combine []) w = (w, Raise AssertionError) /\
  forall ss s t d e, (forall s, In s ss -> exists d, has_dim w s d) ->
    In s ss -> In t ss -> has_dim w s d -> has_dim w t e -> d <> e ->
    step eps (Combine ss) w = (w, Raise AssertionError).
Proof. exact C17_reject_lemma. Qed.
Print Assumptions C17_combine_refuses.

(** Two sequences of different dimensions. *)
Example C17_refuses_case :
  exists w, has_dim w 0 2 /\ has_dim w 1 4 /\ forall s, In s [0; 1]%nat -> exists d, has_dim w s d.
Proof. exact ex_C17_reject_lemma. Qed.

(** C18: inverse() of a list-built sequence in which every entry object occurs an odd
    number of times (once, as a rule) has the reversed, inverted gates; its product is their ordered product and the inverse
    of the original product. *)
Theorem C18_inverse : forall os s n,
  history 0 (built 0) odd_entries os w_empty ->
  has_dim (exec 0 os w_empty) s (2 ^ n) -> from_array (exec 0 os w_empty) s false ->
  odd_entries (exec 0 os w_empty) s ->
  let w := exec 0 os w_empty in
  let w' := fst (step 0 (Inverse s) w) in
  exists i p q,
    snd (step 0 (Inverse s) w) = Ok (VSequence i) /\ has_dim w' i (2 ^ n) /\ ~ has_dim w i (2 ^ n) /\
    Forall2 (fun g g' => snd g' = snd g /\ u_dim (fst g') = u_dim (fst g) /\
               meq (u_dim (fst g)) (u_mat (fst g')) (adj (u_mat (fst g))))
      (rev (contents w s)) (contents w' i) /\
    answers 0 w s p /\ answers 0 w' i q /\
    meq (2 ^ n) (mmul (2 ^ n) (u_mat q) (u_mat p)) mid /\
    meq (2 ^ n) (u_mat q) (ordered n (contents w' i)) /\
    contents w' s = contents w s.
Proof. exact C18_lemma. Qed.
Print Assumptions C18_inverse.

(** Two objects on two qubits, one of them three times. *)
Example C18_case :
  exists u os, built 0 u /\ meq 2 (u_mat u) rot345 /\
    os = [NewEntry u [0%Z]; NewEntry u [1%Z]; NewSequence 4 false [0; 1; 0; 0]%nat] /\
    history 0 (built 0) odd_entries os w_empty /\
    has_dim (exec 0 os w_empty) 0 (2 ^ 2) /\ from_array (exec 0 os w_empty) 0 false /\
    odd_entries (exec 0 os w_empty) 0 /\
    contents (exec 0 os w_empty) 0 = [(u, [0%nat]); (u, [1%nat]); (u, [0%nat]); (u, [0%nat])].
Proof. exact ex_C18_lemma. Qed.

(** C19: without that condition this fails, for every threshold
    up to 1/5: the reported product of the inverse is not the ordered product of its
    entries. (The code inverts a shared entry object twice.) *)
Theorem C19_inverse_repeated_entry_refuted : forall eps, (0 <= eps <= / 5)%R ->
  exists os s i n p,
    history eps (built eps) (fun w s => from_array w s false /\ has_dim w s (2 ^ n)) (os ++ [Inverse s]) w_empty /\
    snd (step eps (Inverse s) (exec eps os w_empty)) = Ok (VSequence i) /\
    let w := exec eps (os ++ [Inverse s]) w_empty in
    answers eps w i p /\ has_dim w i (2 ^ n) /\
    ~ meq (2 ^ n) (u_mat p) (ordered n (contents w i)).
Proof. exact C19_lemma. Qed.
Print Assumptions C19_inverse_repeated_entry_refuted.

(** C20: calls that are not append, remove or undo of sequence [t] itself change
    neither its entries nor the answer of its product(); for every threshold. *)
Theorem C20_isolation : forall eps os os' t d,
  has_dim (exec eps os w_empty) t d ->
  (forall o, In o os' -> mutates o t = false) ->
  let w := exec eps os w_empty in
  let w' := exec eps (os ++ os') w_empty in
  has_dim w' t d /\ contents w' t = contents w t /\
  forall p, answers eps w' t p <-> answers eps w t p.
Proof. exact C20_lemma. Qed.
Print Assumptions C20_isolation.

(** Two sequences built from one entry object. *)
Example C20_case :
  exists u os os', built 0 u /\ meq 2 (u_mat u) rot345 /\
    os = [NewEntry u [0%Z]; NewSequence 4 false [0]%nat; NewSequence 4 false [0; 0]%nat] /\
    os' = [AppendFirst 1 0 true; Product 0; Inverse 0; Inverse 1; Combine [0; 1; 0]%nat; Undo 1; GetEntries 0] /\
    has_dim (exec 0 os w_empty) 0 4 /\ forall o, In o os' -> mutates o 0 = false.
Proof. exact ex_C20_lemma. Qed.

(** C21: appending an entry that does not fit raises and changes nothing at all;
    for every threshold. *)
Theorem C21_append_refuses : forall eps os s d l sv,
  has_dim (exec eps os w_empty) s d -> (l < List.length (w_heap (exec eps os w_empty)))%nat ->
  ~ fits (exec eps os w_empty) d l ->
  let w := exec eps os w_empty in
  step eps (AppendFirst s l sv) w = (w, Raise AssertionError) /\
  step eps (AppendLast s l sv) w = (w, Raise AssertionError).
Proof. exact C21_lemma. Qed.
Print Assumptions C21_append_refuses.

(** C21: neither can a sequence be built from such entries. *)
Theorem C21_new_refuses : forall eps os d ia ls,
  (forall l, In l ls -> (l < List.length (w_heap (exec eps os w_empty)))%nat) ->
  (exists l, In l ls /\ ~ fits (exec eps os w_empty) d l) ->
  let w := exec eps os w_empty in
  step eps (NewSequence d ia ls) w = (w, Raise AssertionError).
Proof. exact C21_new_lemma. Qed.
Print Assumptions C21_new_refuses.

(** A gate on qubit 1 and a one-qubit sequence. *)
Example C21_case :
  exists u os, built 0 u /\ meq 2 (u_mat u) rot345 /\
    os = [NewEntry u [1%Z]; NewSequence 2 false []] /\
    has_dim (exec 0 os w_empty) 0 2 /\ (0 < List.length (w_heap (exec 0 os w_empty)))%nat /\
    ~ fits (exec 0 os w_empty) 2 0.
Proof. exact ex_C21_lemma. Qed.

(** C22: on a power-of-two dimension, an append that passes the check succeeds and
    adds exactly the gate at its end. *)
Theorem C22_append_all_or_nothing : forall os s n l sv,
  history 0 (built 0) odd_entries os w_empty ->
  has_dim (exec 0 os w_empty) s (2 ^ n) -> from_array (exec 0 os w_empty) s false ->
  (l < List.length (w_heap (exec 0 os w_empty)))%nat -> fits (exec 0 os w_empty) (2 ^ n) l ->
  let w := exec 0 os w_empty in
  let g := (e_unitary (obj (w_heap w) l), e_apply (obj (w_heap w) l)) in
  snd (step 0 (AppendFirst s l sv) w) = Ok VNone /\
  contents (fst (step 0 (AppendFirst s l sv) w)) s = g :: contents w s /\
  snd (step 0 (AppendLast s l sv) w) = Ok VNone /\
  contents (fst (step 0 (AppendLast s l sv) w)) s = contents w s ++ [g].
Proof. exact C22_pow2_lemma. Qed.
Print Assumptions C22_append_all_or_nothing.

(** A gate on qubit 1 of two. *)
Example C22_case :
  exists u os, built 0 u /\ meq 2 (u_mat u) rot345 /\
    os = [NewEntry u [1%Z]; NewSequence 4 false [0]%nat] /\
    history 0 (built 0) odd_entries os w_empty /\
    has_dim (exec 0 os w_empty) 0 (2 ^ 2) /\ from_array (exec 0 os w_empty) 0 false /\
    (0 < List.length (w_heap (exec 0 os w_empty)))%nat /\ fits (exec 0 os w_empty) (2 ^ 2) 0.
Proof. exact ex_C22_lemma. Qed.

(** C22: on any other dimension, an append to a sequence that has computed its
    product always raises, after it has changed the entries and not the product;
    for every threshold. *)
Theorem C22_append_other_dimension_refuted : forall eps os s d l p,
  answers eps (exec eps os w_empty) s p ->
  has_dim (exec eps os w_empty) s d -> (forall n, d <> (2 ^ n)%nat) ->
  from_array (exec eps os w_empty) s false ->
  (l < List.length (w_heap (exec eps os w_empty)))%nat -> fits (exec eps os w_empty) d l ->
  let w := exec eps (os ++ [Product s]) w_empty in
  let w1 := fst (step eps (AppendFirst s l false) w) in
  let w2 := fst (step eps (AppendLast s l false) w) in
  let g := (e_unitary (obj (w_heap w) l), e_apply (obj (w_heap w) l)) in
  ((exists x, snd (step eps (AppendFirst s l false) w) = Raise x) /\
   contents w1 s = g :: contents w s /\ answers eps w1 s p) /\
  ((exists x, snd (step eps (AppendLast s l false) w) = Raise x) /\
   contents w2 s = contents w s ++ [g] /\ answers eps w2 s p).
Proof. exact C22_other_lemma. Qed.
Print Assumptions C22_append_other_dimension_refuted.

(** Dimension 6. *)
Example C22_other_case :
  exists u os p, built eps_code u /\ meq 2 (u_mat u) rot345 /\
    os = [NewEntry u [1%Z]; NewSequence 6 false []] /\
    answers eps_code (exec eps_code os w_empty) 0 p /\
    has_dim (exec eps_code os w_empty) 0 6 /\ (forall n, 6 <> 2 ^ n)%nat /\
    from_array (exec eps_code os w_empty) 0 false /\
    (0 < List.length (w_heap (exec eps_code os w_empty)))%nat /\ fits (exec eps_code os w_empty) 6 0.
Proof. exact ex_C22_other_lemma. Qed.

(** C23: on an array-built sequence every change raises, and neither the entries
    nor the product change; for every threshold. *)
Theorem C23_array_read_only : forall eps os s o,
  from_array (exec eps os w_empty) s true -> effective (exec eps os w_empty) s o ->
  let w := exec eps os w_empty in
  let w' := fst (step eps o w) in
  (exists x, snd (step eps o w) = Raise x) /\
  contents w' s = contents w s /\ forall p, answers eps w' s p <-> answers eps w s p.
Proof. exact C23_lemma. Qed.
Print Assumptions C23_array_read_only.

(** C23: it is an [AttributeError], also for inverse(). *)
Theorem C23_array_attribute_error : forall os s n o,
  history 0 (built 0) odd_entries os w_empty ->
  has_dim (exec 0 os w_empty) s (2 ^ n) -> from_array (exec 0 os w_empty) s true ->
  effective (exec 0 os w_empty) s o \/ o = Inverse s ->
  snd (step 0 o (exec 0 os w_empty)) = Raise AttributeError.
Proof. exact C23_exact_lemma. Qed.
Print Assumptions C23_array_attribute_error.

(** An array-built sequence of one gate. *)
Example C23_case :
  exists u os, built 0 u /\ meq 2 (u_mat u) rot345 /\
    os = [NewEntry u [1%Z]; NewSequence 4 true [0]%nat] /\
    history 0 (built 0) odd_entries os w_empty /\
    has_dim (exec 0 os w_empty) 0 (2 ^ 2) /\ from_array (exec 0 os w_empty) 0 true /\
    effective (exec 0 os w_empty) 0 (RemoveLast 0 true) /\ effective (exec 0 os w_empty) 0 (AppendFirst 0 0 true).
Proof. exact ex_C23_lemma. Qed.

(** C64: for every threshold and every history: when inverse() succeeds, the gates of
    the result are those of the sequence in reverse order, each inverted as many
    times as its object occurs in the sequence; product() answers the inverse of
    what product() of the original answers. *)
Theorem C64_inverse_entries : forall eps os s i q,
  let w := exec eps os w_empty in
  let w' := fst (step eps (Inverse s) w) in
  nth_error (w_seqs w) s = Some q ->
  snd (step eps (Inverse s) w) = Ok (VSequence i) ->
  Forall2 (fun l g' => snd g' = e_apply (obj (w_heap w) l) /\
      inverted eps (count_occ Nat.eq_dec (s_entries q) l) (e_unitary (obj (w_heap w) l)) (fst g'))
    (rev (s_entries q)) (contents w' i) /\
  exists p v, answers eps w s p /\ u_inverse eps p = Ok v /\ answers eps w' i v.
Proof. exact C64_lemma. Qed.
Print Assumptions C64_inverse_entries.

(** C64: so a gate is inverted if its object occurs an odd number of times, and left
    as it was otherwise; whatever was inverted before. *)
Theorem C64_parity : forall eps os s i q, (0 <= eps <= 1)%R ->
  history eps (fun u => built eps u /\ eps_clean eps (u_dim u) (u_mat u)) (fun _ _ => True) os w_empty ->
  let w := exec eps os w_empty in
  let w' := fst (step eps (Inverse s) w) in
  nth_error (w_seqs w) s = Some q ->
  snd (step eps (Inverse s) w) = Ok (VSequence i) ->
  Forall2 (fun l g' => let u := e_unitary (obj (w_heap w) l) in
      snd g' = e_apply (obj (w_heap w) l) /\ u_dim (fst g') = u_dim u /\
      meq (u_dim u) (u_mat (fst g'))
        (if Nat.odd (count_occ Nat.eq_dec (s_entries q) l) then adj (u_mat u) else u_mat u))
    (rev (s_entries q)) (contents w' i).
Proof. exact C64_parity_lemma. Qed.
Print Assumptions C64_parity.

(** C64: in exact arithmetic the call succeeds whatever the repetitions. *)
Theorem C64_never_fails : forall os s n,
  history 0 (built 0) odd_entries os w_empty ->
  let w := exec 0 os w_empty in
  has_dim w s (2 ^ n) -> from_array w s false ->
  exists i, snd (step 0 (Inverse s) w) = Ok (VSequence i).
Proof. exact C64_total_lemma. Qed.
Print Assumptions C64_never_fails.

(** One object twice and another one three times. *)
Example C64_case :
  exists u os q, built 0 u /\ meq 2 (u_mat u) rot345 /\
    os = [NewEntry u [0%Z]; NewEntry u [1%Z]; NewSequence 4 false [0; 1; 0; 1; 1]%nat] /\
    history 0 (built 0) odd_entries os w_empty /\
    history 0 (fun u => built 0 u /\ eps_clean 0 (u_dim u) (u_mat u)) (fun _ _ => True) os w_empty /\
    has_dim (exec 0 os w_empty) 0 (2 ^ 2) /\ from_array (exec 0 os w_empty) 0 false /\
    nth_error (w_seqs (exec 0 os w_empty)) 0 = Some q /\
    map (count_occ Nat.eq_dec (s_entries q)) (s_entries q) = [2; 3; 2; 3; 3]%nat.
Proof. exact ex_C64_lemma. Qed.

(** C66: the bound of C15 needs its condition on the number of updates.  For every
    threshold up to 1e-10 there is a program that makes a one-qubit sequence of at
    most [3e-8 / eps] gates, all accepted by the constructor, whose exact ordered
    product is within 1e-7 of a matrix of determinant 1 that is exactly unitary,
    and product() of which raises AssertionError. *)
Theorem C66_long_sequence_refuted : forall eps, (0 < eps <= / 10 ^ 10)%R ->
  exists os s U,
    history eps (made eps) (fun _ _ => False) os w_empty /\
    let w := exec eps os w_empty in
    has_dim w s (2 ^ 1) /\ special 2 U /\
    (fro 2 (mminus (ordered 1 (contents w s)) U) <= / 10 ^ 7)%R /\
    (INR (updates os 0) * eps <= 3 / 10 ^ 8)%R /\
    snd (step eps (Product s) w) = Raise AssertionError.
Proof. exact C66_lemma. Qed.
Print Assumptions C66_long_sequence_refuted.

(** The code's threshold: at most 30000 gates. *)
Example C66_case : (0 < eps_code <= / 10 ^ 10)%R.
Proof. exact ex_C66_lemma. Qed.

