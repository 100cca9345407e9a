(** Properties of [UnitarySequenceEntry] and [UnitaryPrimitive]: C09-C13, C53. *)
From Coq Require Import Reals List Arith Bool String ZArith.
From Coquelicot Require Import Complex.
From Verif Require Import Base CMat Det ModelUnitary ModelEntry ModelPrimitive Spec SpecModel PUnitary PEntry.
Import ListNotations.
Open Scope R_scope.
Open Scope C_scope.

(** C09: [UnitarySequenceEntry(u, qs).get_full_unitary(2**n)] is the gate applied
    to exactly the named qubits, in the listed order. *)
Theorem C09_full_unitary_is_embedding : forall eps n u qs,
  (eps <= 1)%R -> built eps u -> eps_clean eps (u_dim u) (u_mat u) ->
  placement n qs -> (2 ^ List.length qs)%nat = u_dim u ->
  exists f,
    full_of eps u qs n f /\ u_dim f = (2 ^ n)%nat /\
    meq (2 ^ n) (u_mat f) (embed n qs (u_mat u)) /\
    u_name f = u_name u /\ u_params f = u_params u /\ u_apply f = qs.
Proof. exact C09_lemma. Qed.
Print Assumptions C09_full_unitary_is_embedding.

(** A two-qubit gate on qubits 2 and 0 of three, and two entries of the result. *)
Example C09_case :
  (exists u, built eps_code u /\ eps_clean eps_code (u_dim u) (u_mat u) /\
     placement 3 [2; 0]%nat /\ (2 ^ List.length [2; 0]%nat)%nat = u_dim u) /\
  (forall U, embed 3 [2; 0]%nat U 1%nat 4%nat = U 2%nat 1%nat) /\
  (forall U, embed 3 [2; 0]%nat U 1%nat 6%nat = 0).
Proof. exact ex_C09_lemma. Qed.

(** C09: it succeeds only on power-of-two dimensions that contain all named
    qubits, whatever the gate. The hypotheses are met by [C12_case]. *)
Theorem C09_only_enough_qubits : forall eps u qs e D f e',
  mk_entry u qs = Ok e -> get_full_unitary eps D e = (e', Ok f) ->
  exists n, D = (2 ^ n)%nat /\ (u_dim u <= D)%nat /\ forall q, In q qs -> (q < Z.of_nat n)%Z.
Proof. exact C09_needs_pow2_lemma. Qed.
Print Assumptions C09_only_enough_qubits.

(** C10: get_permute_matrix returns a permutation matrix. *)
Theorem C10_permute_matrix : forall u n qs e,
  placement n qs -> mk_entry u (map Z.of_nat qs) = Ok e ->
  exists P, get_permute_matrix e (2 ^ n) = Ok P /\
    (forall i, (i < 2 ^ n)%nat -> exists k, (k < 2 ^ n)%nat /\ P i k = 1 /\
       forall j, (j < 2 ^ n)%nat -> j <> k -> P i j = 0) /\
    (forall j, (j < 2 ^ n)%nat -> exists k, (k < 2 ^ n)%nat /\ P k j = 1 /\
       forall i, (i < 2 ^ n)%nat -> i <> k -> P i j = 0) /\
    meq (2 ^ n) (mmul (2 ^ n) P (transpose P)) mid /\
    meq (2 ^ n) (mmul (2 ^ n) (transpose P) P) mid.
Proof. exact C10_lemma. Qed.
Print Assumptions C10_permute_matrix.

(** An entry meeting the hypotheses of C10. *)
Example C10_case :
  exists u e, placement 3 [2; 0]%nat /\ mk_entry u (map Z.of_nat [2; 0]%nat) = Ok e.
Proof. exact ex_C10_lemma. Qed.

(** C11: the full unitary of a product of gates is the product of the full
    unitaries. *)
Theorem C11_embedding_of_product : forall n u v qs,
  built 0 u -> built 0 v -> u_dim v = u_dim u -> placement n qs ->
  (2 ^ List.length qs)%nat = u_dim u ->
  exists w f g h,
    u_left_multiply 0 u v = Ok w /\
    full_of 0 u qs n f /\ full_of 0 v qs n g /\ full_of 0 w qs n h /\
    u_dim f = (2 ^ n)%nat /\ u_dim g = (2 ^ n)%nat /\ u_dim h = (2 ^ n)%nat /\
    meq (2 ^ n) (u_mat h) (mmul (2 ^ n) (u_mat g) (u_mat f)).
Proof. exact C11_product_lemma. Qed.
Print Assumptions C11_embedding_of_product.

(** Gates meeting the hypotheses. *)
Example C11_case :
  exists u v, built 0 u /\ built 0 v /\ u_dim v = u_dim u /\ placement 2 [1]%nat /\
    (2 ^ List.length [1]%nat)%nat = u_dim u /\
    ~ meq 2 (mmul 2 (u_mat u) (u_mat v)) (u_mat u).
Proof. exact ex_C11_lemma. Qed.

(** C11: the full unitary of an inverse is the inverse. The hypotheses are met by
    [C09_case]. *)
Theorem C11_embedding_of_inverse : forall eps n u qs,
  (eps <= 1)%R -> built eps u -> eps_clean eps (u_dim u) (u_mat u) ->
  placement n qs -> (2 ^ List.length qs)%nat = u_dim u ->
  exists v f g,
    u_inverse eps u = Ok v /\ full_of eps u qs n f /\ full_of eps v qs n g /\
    u_dim f = (2 ^ n)%nat /\ u_dim g = (2 ^ n)%nat /\
    meq (2 ^ n) (u_mat g) (adj (u_mat f)) /\
    meq (2 ^ n) (mmul (2 ^ n) (u_mat g) (u_mat f)) mid.
Proof. exact C11_inverse_lemma. Qed.
Print Assumptions C11_embedding_of_inverse.

(** C11: gates on disjoint qubits commute, and make up their tensor product. *)
Theorem C11_disjoint_gates_commute : forall eps n u v qs rs,
  (eps <= 1)%R -> built eps u -> eps_clean eps (u_dim u) (u_mat u) ->
  built eps v -> eps_clean eps (u_dim v) (u_mat v) ->
  placement n qs -> (2 ^ List.length qs)%nat = u_dim u ->
  placement n rs -> (2 ^ List.length rs)%nat = u_dim v ->
  (forall q, In q qs -> ~ In q rs) ->
  exists f g,
    full_of eps u qs n f /\ full_of eps v rs n g /\
    u_dim f = (2 ^ n)%nat /\ u_dim g = (2 ^ n)%nat /\
    meq (2 ^ n) (mmul (2 ^ n) (u_mat f) (u_mat g)) (mmul (2 ^ n) (u_mat g) (u_mat f)) /\
    meq (2 ^ n) (mmul (2 ^ n) (u_mat f) (u_mat g))
                (embed n (qs ++ rs) (kron (u_dim v) (u_mat u) (u_mat v))).
Proof. exact C11_commute_lemma. Qed.
Print Assumptions C11_disjoint_gates_commute.

(** A gate meeting the hypotheses (on qubits 1 and 2). *)
Example C11_commute_case :
  exists u, built eps_code u /\ eps_clean eps_code (u_dim u) (u_mat u) /\
    placement 3 [1]%nat /\ (2 ^ List.length [1]%nat)%nat = u_dim u /\
    placement 3 [2]%nat /\ (forall q, In q [1]%nat -> ~ In q [2]%nat).
Proof. exact ex_C11_commute_lemma. Qed.

(** C12: the answers to any history of calls are those of a fresh entry. *)
Theorem C12_cache_transparent : forall eps u qs e ds,
  mk_entry u qs = Ok e ->
  full_answers eps ds e = map (fun d => snd (get_full_unitary eps d e)) ds.
Proof. exact C12_lemma. Qed.
Print Assumptions C12_cache_transparent.

(** An entry whose answers differ between dimensions 2, 4 and 6. *)
Example C12_case :
  exists u e f g, mk_entry u [0%Z] = Ok e /\
    snd (get_full_unitary eps_code 2 e) = Ok f /\ snd (get_full_unitary eps_code 4 e) = Ok g /\
    u_dim f = 2%nat /\ u_dim g = 4%nat /\
    snd (get_full_unitary eps_code 6 e) = Raise ValueError.
Proof. exact ex_C12_lemma. Qed.

(** C13: the entry constructor accepts exactly the well-formed placements, keeps
    its arguments, and otherwise raises [AssertionError] (or [ValueError] for an
    empty list with a one-dimensional gate). *)
Theorem C13_entry_constructor : forall u qs,
  ((exists e, mk_entry u qs = Ok e) <->
   qs <> [] /\ NoDup qs /\ (forall q, In q qs -> (0 <= q)%Z) /\
   (2 ^ List.length qs)%nat = u_dim u) /\
  (forall e, mk_entry u qs = Ok e ->
     e_unitary e = u /\ map Z.of_nat (e_apply e) = qs /\ e_dim e = u_dim u) /\
  (forall x, mk_entry u qs = Raise x -> (x = AssertionError \/ x = ValueError) /\
     (x = ValueError <-> qs = [] /\ u_dim u = 1%nat)).
Proof. exact C13_lemma. Qed.
Print Assumptions C13_entry_constructor.

(** Accepted and refused placements of one gate. *)
Example C13_case :
  exists u e, u_dim u = 4%nat /\ mk_entry u [2; 0]%Z = Ok e /\
    mk_entry u [2; 2]%Z = Raise AssertionError /\ mk_entry u [-1; 0]%Z = Raise AssertionError.
Proof. exact ex_C13_lemma. Qed.

(** C53, first half: [UnitaryPrimitive] accepts exactly well-formed allowed lists. *)
Theorem C53_primitive_constructor : forall u allowed,
  ((exists p, mk_primitive u allowed = Ok p) <->
   (forall ls, allowed = Some ls -> forall qs, In qs ls ->
     qs <> [] /\ NoDup qs /\ (forall q, In q qs -> (0 <= q)%Z) /\
     (2 ^ List.length qs)%nat = src_dim u)) /\
  (forall p, mk_primitive u allowed = Ok p ->
     p_source p = u /\ option_map (map (map Z.of_nat)) (p_allowed p) = allowed).
Proof. exact C53_constructor_lemma. Qed.
Print Assumptions C53_primitive_constructor.

(** Accepted and refused lists; qubit 7 is accepted, whatever the system. *)
Example C53_case :
  exists u, u_dim u = 2%nat /\
    (exists p, mk_primitive (Fixed u) (Some [[0%Z]; [7%Z]]) = Ok p) /\
    mk_primitive (Fixed u) (Some [[0%Z]; [-1]%Z]) = Raise AssertionError.
Proof. exact ex_C53_lemma. Qed.

