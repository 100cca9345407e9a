(** Qubit numbers from 62 on: C93.

    The library checks [2**(np.max(apply_to) + 1) <= dimension] with numpy's 64-bit integers.
    ModelWide.v computes the power as numpy does; the other models compute it exactly. *)
From Coq Require Import Reals List Arith Bool String ZArith.
From Coquelicot Require Import Complex.
From Verif Require Import Base CMat ModelUnitary ModelEntry ModelSequence ModelWide Spec SpecModel SpecWide PWide PWide2.
Import ListNotations.

(** C93: in a program that names no qubit above 61, every call does in 64-bit arithmetic what it
    does in exact arithmetic, so everything proved about [step] holds of it. *)
Theorem C93_same : forall eps os o, Forall names_low_qubits os -> names_low_qubits o ->
  exec64 eps os w_empty = exec eps os w_empty /\
  step64 eps o (exec64 eps os w_empty) = step eps o (exec eps os w_empty).
Proof. exact C93_same_lemma. Qed.
Print Assumptions C93_same.

(** Qubit 61 is still covered, qubit 62 is not. *)
Example C93_same_case : forall u, Forall names_low_qubits (wide_program u 61) /\ names_low_qubits (AppendLast 0 0 false) /\
  ~ Forall names_low_qubits (wide_program u 62).
Proof. exact C93_same_case_lemma. Qed.

(** C93: a gate on a qubit from 62 on is accepted by every sequence large enough for the gate,
    although the sequence has no such qubit. *)
Theorem C93_accepted : forall d ia ls h, Forall (fun l => (e_dim (obj h l) <= d)%nat /\ has_wide_qubit (obj h l)) ls ->
  exists h' ls', new_sequence64 d ia ls h =
    (h', Ok {| s_dim := d; s_array := ia; s_entries := ls'; s_product := None;
               s_prev_entries := None; s_prev_product := None |}).
Proof. exact C93_accepted_lemma. Qed.
Print Assumptions C93_accepted.

(** C93: the product of a sequence holding a gate outside the system raises, unless it was kept. *)
Theorem C93_product_raises : forall eps os s q l, let w := exec64 eps os w_empty in
  nth_error (w_seqs w) s = Some q -> s_product q = None ->
  In l (s_entries q) -> outside (s_dim q) (obj (w_heap w) l) ->
  exists w' x, step64 eps (Product s) w = (w', Raise x).
Proof. exact C93_product_lemma. Qed.
Print Assumptions C93_product_raises.

(** The constructor accepts a gate on qubit 62 for a sequence of one qubit. *)
Example C93_product_case : exists u w' q' h',
  step64 eps_code (NewSequence 2 false [0%nat]) (exec64 eps_code [NewEntry u [62%Z]] w_empty) = (w', Ok (VSequence 0)) /\
  w_heap w' = h' /\ nth_error (w_seqs w') 0 = Some q' /\ s_product q' = None /\
  s_entries q' = [1%nat] /\ outside (s_dim q') (obj h' 1).
Proof. exact C93_product_case_lemma. Qed.

(** C93: when a product is kept, appending such a gate raises after the gate was put into the
    list, and from then on [product] answers the product without it. *)
Theorem C93_stale_product : forall eps os s l q p, let w := exec64 eps os w_empty in
  nth_error (w_seqs w) s = Some q -> s_array q = false -> s_product q = Some p ->
  (l < List.length (w_heap w))%nat -> (e_dim (obj (w_heap w) l) <= s_dim q)%nat ->
  has_wide_qubit (obj (w_heap w) l) -> outside (s_dim q) (obj (w_heap w) l) ->
  (exists w' x q', step64 eps (AppendLast s l false) w = (w', Raise x) /\
     nth_error (w_seqs w') s = Some q' /\ s_entries q' = s_entries q ++ [l] /\
     step64 eps (Product s) w' = (w', Ok (VUnitary p))) /\
  (exists w' x q', step64 eps (AppendFirst s l false) w = (w', Raise x) /\
     nth_error (w_seqs w') s = Some q' /\ s_entries q' = l :: s_entries q /\
     step64 eps (Product s) w' = (w', Ok (VUnitary p))).
Proof. exact C93_stale_lemma. Qed.
Print Assumptions C93_stale_product.

(** One qubit, a rotation on qubit 62: the append raises, the list has one gate, the product is
    the old one.  With exact arithmetic the append is refused before anything changes. *)
Theorem C93_refused_refuted : exists u p, u_dim u = 2%nat /\
  let w := exec64 eps_code (wide_program u 62) w_empty in
  step64 eps_code (Product 0) w = (w, Ok (VUnitary p)) /\
  (exists w' x q', step64 eps_code (AppendLast 0 0 false) w = (w', Raise x) /\
     nth_error (w_seqs w') 0 = Some q' /\ s_entries q' = [0%nat] /\
     step64 eps_code (Product 0) w' = (w', Ok (VUnitary p))) /\
  snd (step eps_code (AppendLast 0 0 false) (exec eps_code (wide_program u 62) w_empty)) = Raise AssertionError.
Proof. exact C93_case_lemma2. Qed.
Print Assumptions C93_refused_refuted.

(** C93: the exception is an [IndexError] from [permute_order[apply] = next_index]. *)
Theorem C93_index_error : forall eps n e, (eps <= 1)%R -> built eps (e_unitary e) ->
  eps_clean eps (e_dim e) (u_mat (e_unitary e)) -> e_cache e = [] ->
  (2 ^ List.length (e_apply e))%nat = e_dim e -> (e_dim e <= 2 ^ n)%nat ->
  has_wide_qubit e -> outside (2 ^ n) e ->
  get_full_unitary64 eps (2 ^ n) e = (e, Raise IndexError).
Proof. exact C93_index_error_lemma. Qed.
Print Assumptions C93_index_error.

(** A two-qubit gate on the qubits 62 and 0, for a system of three qubits. *)
Example C93_index_error_case : exists e, built eps_code (e_unitary e) /\
  eps_clean eps_code (e_dim e) (u_mat (e_unitary e)) /\ e_cache e = [] /\
  mk_entry (e_unitary e) [62; 0]%Z = Ok e /\
  (2 ^ List.length (e_apply e))%nat = e_dim e /\ (e_dim e <= 2 ^ 3)%nat /\
  has_wide_qubit e /\ outside (2 ^ 3) e.
Proof. exact C93_index_case_lemma. Qed.

