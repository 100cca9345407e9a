(** Products in an inexact arithmetic: C75.

    [arith] is the arithmetic the library computes in; [accurate ar mu d] says that in
    dimension [d] each of its operations is within [mu] of the exact one. [holds_after]
    (SpecRound.v) says which gates a sequence holds after a list of method calls, in
    terms of plain lists; [ordered n es] is the exact product of their embeddings. *)
From Coq Require Import Reals List Arith Bool String.
From Coquelicot Require Import Complex.
From Verif Require Import Base CMat Norms ModelUnitary ModelEntry ModelRound ModelRound64 Spec SpecModel
  SpecGates SpecRound PRoundProps PRound64 PRoundEx.
Import ListNotations.
Open Scope R_scope.
Open Scope C_scope.

(** C75: for every accurate arithmetic, a matrix that is unitary up to rounding passes the
    constructor, and what it stores is the unitary matrix, up to a phase, within the bound. *)
Theorem C75_gate : forall ar eps mu n (M A : mat) nm ps iv ap,
  small_round eps mu n 0 -> accurate ar mu (2 ^ n) -> unitary_mx (2 ^ n) M -> within mu (2 ^ n) A M ->
  exists u (c : C), r_unitary ar eps (2 ^ n) (Some (square (2 ^ n) A)) nm ps iv ap = Ok u /\
    Cmod c = 1%R /\ u_dim u = (2 ^ n)%nat /\
    (fro (2 ^ n) (mminus (u_mat u) (mscale c M)) <= round_bound eps mu n 0)%R.
Proof. exact round_gate. Qed.
Print Assumptions C75_gate.

(** C75: after any list of method calls - appending and removing at either end, with and
    without saving, undo, product - in any accurate arithmetic, the sequence holds the
    gates it should, no call has raised, and the product it reports is within the bound
    of the exact product of those gates. The bound grows linearly in the number of calls. *)
Theorem C75_product : forall ar eps mu n ops es,
  small_round eps mu n (List.length ops) ->
  (forall k, (k <= n)%nat -> accurate ar mu (2 ^ k)) ->
  r_ops_ok ar eps mu n ops -> holds_after [] None ops = Some es ->
  exists q p, r_run ar eps (r_empty (2 ^ n)) ops = Ok q /\ rs_entries q = es /\
    r_product ar eps q = Ok p /\ u_dim p = (2 ^ n)%nat /\
    (fro (2 ^ n) (mminus (u_mat p) (ordered n es)) <= round_bound eps mu n (List.length ops))%R.
Proof. exact round_product. Qed.
Print Assumptions C75_product.

(** C75: if [undo] is called with nothing saved, the run ends in [AssertionError]. *)
Theorem C75_undo_with_nothing_saved : forall ar eps mu n ops,
  small_round eps mu n (List.length ops) ->
  (forall k, (k <= n)%nat -> accurate ar mu (2 ^ k)) ->
  r_ops_ok ar eps mu n ops -> holds_after [] None ops = None ->
  r_run ar eps (r_empty (2 ^ n)) ops = Raise AssertionError.
Proof. exact round_undo. Qed.
Print Assumptions C75_undo_with_nothing_saved.

(** C75: the distance from any target that the compiler would compare is within the same
    bound of the exact distance. *)
Theorem C75_distance : forall ar eps mu n ops es t,
  small_round eps mu n (List.length ops) ->
  (forall k, (k <= n)%nat -> accurate ar mu (2 ^ k)) ->
  r_ops_ok ar eps mu n ops -> holds_after [] None ops = Some es ->
  r_gate ar eps mu t -> u_dim t = (2 ^ n)%nat ->
  exists q p x, r_run ar eps (r_empty (2 ^ n)) ops = Ok q /\ r_product ar eps q = Ok p /\
    r_distance_from ar eps t p = Ok x /\
    (Rabs (x - (1 - overlap (2 ^ n) (u_mat t) (ordered n es))) <= round_bound eps mu n (List.length ops))%R.
Proof. exact round_distance. Qed.
Print Assumptions C75_distance.

(** C75: double precision with the textbook loops is accurate, for up to 23 qubits. *)
Theorem C75_double_is_accurate : forall n k, (n <= 23)%nat -> (k <= n)%nat -> accurate arith64 (mu64 n) (2 ^ k).
Proof. exact mu64_accurate. Qed.
Print Assumptions C75_double_is_accurate.

(** C75: the claim for double precision. *)
Theorem C75_double_product : forall eps n ops es, (n <= 23)%nat ->
  small_round eps (mu64 n) n (List.length ops) ->
  r_ops_ok arith64 eps (mu64 n) n ops -> holds_after [] None ops = Some es ->
  exists q p, r_run arith64 eps (r_empty (2 ^ n)) ops = Ok q /\ rs_entries q = es /\
    r_product arith64 eps q = Ok p /\ u_dim p = (2 ^ n)%nat /\
    (fro (2 ^ n) (mminus (u_mat p) (ordered n es)) <= round_bound eps (mu64 n) n (List.length ops))%R.
Proof. exact double_product. Qed.
Print Assumptions C75_double_product.

(** C75: the claim about distances for double precision. *)
Theorem C75_double_distance : forall eps n ops es t, (n <= 23)%nat ->
  small_round eps (mu64 n) n (List.length ops) ->
  r_ops_ok arith64 eps (mu64 n) n ops -> holds_after [] None ops = Some es ->
  r_gate arith64 eps (mu64 n) t -> u_dim t = (2 ^ n)%nat ->
  exists q p x, r_run arith64 eps (r_empty (2 ^ n)) ops = Ok q /\ r_product arith64 eps q = Ok p /\
    r_distance_from arith64 eps t p = Ok x /\
    (Rabs (x - (1 - overlap (2 ^ n) (u_mat t) (ordered n es)))
       <= round_bound eps (mu64 n) n (List.length ops))%R.
Proof. exact double_distance. Qed.
Print Assumptions C75_double_distance.

(** The Hadamard gate with double-precision entries, with the threshold of the code and 30
    method calls. *)
Example C75_case : small_round eps_code (mu64 1) 1 30 /\
  exists g, r_gate arith64 eps_code (mu64 1) g /\ u_dim g = 2%nat /\ u_name g = "H"%string /\
    r_ops_ok arith64 eps_code (mu64 1) 1 (had_ops g) /\
    holds_after [] None (had_ops g) = Some [(g, [0%nat]); (g, [0%nat])] /\
    holds_after [] None (had_ops g ++ [RUndo]) = None.
Proof. exact ex_C75_lemma. Qed.

(** C75: in exact arithmetic the rounded constructor is the constructor of the model. *)
Theorem C75_exact_constructor : forall eps d a nm ps iv ap, r_unitary exact_arith eps d a nm ps iv ap = mk_unitary eps d a nm ps iv ap.
Proof. exact exact_is_mk. Qed.
Print Assumptions C75_exact_constructor.

(** C75: so is the embedding. *)
Theorem C75_exact_full : forall eps g d,
  r_full exact_arith eps g d =
  snd (get_full_unitary eps d {| e_unitary := fst g; e_apply := snd g; e_cache := [] |}).
Proof. exact exact_is_full. Qed.
Print Assumptions C75_exact_full.

(** C75: so is the distance. *)
Theorem C75_exact_distance : forall eps u v, r_distance_from exact_arith eps u v = u_distance_from eps u v.
Proof. exact exact_is_distance. Qed.
Print Assumptions C75_exact_distance.

(** C75: and exact arithmetic is accurate with error zero. *)
Theorem C75_exact_is_accurate : forall d, (0 < d)%nat -> accurate exact_arith 0 d.
Proof. exact exact_accurate. Qed.
Print Assumptions C75_exact_is_accurate.

