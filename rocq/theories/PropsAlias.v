(** Properties of shared mutable objects: C71-C74.

    A program is a list of actions ([act]): calls of the library, and what the client
    does on its own to arrays, dictionaries and lists.  [act_run eps xs store0] is the
    store after the actions [xs]; [look k n] is the value of the [n]-th [Unitary]. *)
From Coq Require Import Reals List Arith Bool String ZArith.
From Coquelicot Require Import Complex.
From Verif Require Import Base CMat ModelUnitary ModelEntry ModelSequence ModelAlias Spec SpecModel
  SpecAlias PSeqCases PAlias.
Import ListNotations.
Open Scope R_scope.
Open Scope C_scope.

(** C71: every call that makes a [Unitary] computes what the value-level model says from
    the present values of its arguments: a new object with that value, or the exception
    and an unchanged store.  (A product gets the present contents of the default list
    as its qubits.) *)
Theorem C71_calls_compute_values : forall eps k x r,
  computes eps k x r ->
  match r with
  | Ok u => exists k', act_step eps x k = (k', Ok (OUnit (List.length (k_units k)))) /\
                       look k' (List.length (k_units k)) = u /\
                       List.length (k_units k') = Datatypes.S (List.length (k_units k))
  | Raise e => act_step eps x k = (k, Raise e)
  end.
Proof. exact C71_values_lemma. Qed.
Print Assumptions C71_calls_compute_values.

(** C71: a call of the library changes no existing array, dictionary, list or object. *)
Theorem C71_calls_change_nothing : forall eps k x n,
  reached eps k -> library x -> alive k n ->
  extends k (fst (act_step eps x k)) /\ look (fst (act_step eps x k)) n = look k n.
Proof. exact C71_frame_lemma. Qed.
Print Assumptions C71_calls_change_nothing.

(** C71: no two [Unitary] objects of a program hold the same array. *)
Theorem C71_arrays_not_shared : forall eps k n m,
  reached eps k -> alive k n -> alive k m -> n <> m ->
  o_array (object k n) <> o_array (object k m).
Proof. exact C71_own_lemma. Qed.
Print Assumptions C71_arrays_not_shared.

(** C71: an array of the client is never held by a [Unitary], and nothing but the
    client's own writes changes it. *)
Theorem C71_client_arrays_not_kept : forall eps xs a ys,
  let r := List.length (k_arrays (act_run eps xs store0)) in
  let k := act_run eps (xs ++ MakeArray a :: ys) store0 in
  (forall n, alive k n -> o_array (object k n) <> r) /\
  ((forall A, ~ In (WriteArray r A) ys) -> nth r (k_arrays k) no_array = a).
Proof. exact C71_client_lemma. Qed.
Print Assumptions C71_client_arrays_not_kept.

(** C71: as long as the client writes only into arrays that no [Unitary] holds, every
    [Unitary] keeps its value for the rest of the program. *)
Theorem C71_values_are_constant : forall eps xs, forall k n,
  reached eps k -> polite eps xs k -> alive k n ->
  alive (act_run eps xs k) n /\ look (act_run eps xs k) n = look k n.
Proof. exact C71_immutable_lemma. Qed.
Print Assumptions C71_values_are_constant.

(** Three objects, and a client that writes into its own array. *)
Example C71_case :
  let k := act_run eps_code [NewUnitary 2 None None None false None; InverseOf 0; LeftOf 0 1] store0 in
  let r := List.length (k_arrays k) in
  reached eps_code k /\ alive k 0 /\ alive k 1 /\ alive k 2 /\
  polite eps_code [MakeArray (square 2 mid); WriteArray r (fun _ _ => 0); InverseOf 0] k.
Proof. exact ex_C71_lemma. Qed.

(** C72: a write into the array that [get_matrix()] returns gives the object that matrix,
    and changes no other object - not its inverse, nor any product made of it. *)
Theorem C72_write_through_get_matrix : forall eps k n A,
  reached eps k -> alive k n ->
  exists r, act_step eps (GetMatrix n) k = (k, Ok (OArray r)) /\
    look (fst (act_step eps (WriteArray r A) k)) n = with_mat (look k n) A /\
    (forall m, alive k m -> m <> n -> look (fst (act_step eps (WriteArray r A) k)) m = look k m).
Proof. exact C72_write_lemma. Qed.
Print Assumptions C72_write_through_get_matrix.

(** C72: with zeros written into it, [inverse()], [distance_from()] and both
    multiplications raise [AssertionError], in every program and for every threshold. *)
Theorem C72_zeros_break_the_object : forall eps k n m,
  reached eps k -> alive k n -> alive k m -> u_dim (look k m) = u_dim (look k n) ->
  exists r, act_step eps (GetMatrix n) k = (k, Ok (OArray r)) /\
    let k' := fst (act_step eps (WriteArray r (fun _ _ => 0)) k) in
    act_step eps (InverseOf n) k' = (k', Raise AssertionError) /\
    act_step eps (DistanceOf n m) k' = (k', Raise AssertionError) /\
    act_step eps (LeftOf n m) k' = (k', Raise AssertionError) /\
    act_step eps (RightOf n m) k' = (k', Raise AssertionError).
Proof. exact C72_zero_lemma. Qed.
Print Assumptions C72_zeros_break_the_object.

(** C72: the object is not protected from its clients: [inverse()] of an identity works
    before, and fails after a write through [get_matrix()]. *)
Theorem C72_isolation_refuted :
  exists k r k1, reached eps_code k /\ alive k 0 /\
    act_step eps_code (GetMatrix 0) k = (k, Ok (OArray r)) /\
    (exists k', act_step eps_code (InverseOf 0) k = (k', Ok (OUnit 1))) /\
    k1 = fst (act_step eps_code (WriteArray r (fun _ _ => 0)) k) /\
    act_step eps_code (InverseOf 0) k1 = (k1, Raise AssertionError).
Proof. exact C72_isolation_refuted_lemma. Qed.
Print Assumptions C72_isolation_refuted.

(** C73: [inverse()] and [tensor()] hand the dictionary and the list of the object on to
    the new one. *)
Theorem C73_inverse_and_tensor_share : forall eps k x n k' m,
  (x = InverseOf n \/ exists l, x = TensorOf n l) ->
  act_step eps x k = (k', Ok (OUnit m)) ->
  o_dict (object k' m) = o_dict (object k n) /\ o_list (object k' m) = o_list (object k n).
Proof. exact C73_derived_lemma. Qed.
Print Assumptions C73_inverse_and_tensor_share.

(** C73: a product has a dictionary of its own and the default list. *)
Theorem C73_products_share_the_default_list : forall eps k x n l k' m,
  reached eps k -> (x = LeftOf n l \/ x = RightOf n l) ->
  act_step eps x k = (k', Ok (OUnit m)) ->
  (forall p, alive k p -> o_dict (object k p) <> o_dict (object k' m)) /\ o_list (object k' m) = 0%nat.
Proof. exact C73_product_lemma. Qed.
Print Assumptions C73_products_share_the_default_list.

(** C73: the constructor keeps the dictionary and the list it is given; without, the
    dictionary is new and the list is the default list. *)
Theorem C73_constructor_sharing : forall eps k d matrix name params inv apply_to k' m,
  reached eps k ->
  act_step eps (NewUnitary d matrix name params inv apply_to) k = (k', Ok (OUnit m)) ->
  match params with
  | Some r => o_dict (object k' m) = r
  | None => forall p, alive k p -> o_dict (object k p) <> o_dict (object k' m)
  end /\
  o_list (object k' m) = match apply_to with Some r => r | None => 0%nat end.
Proof. exact C73_constructor_lemma. Qed.
Print Assumptions C73_constructor_sharing.

(** C73: a write into a dictionary changes the parameters of exactly the objects that hold it. *)
Theorem C73_write_dictionary : forall eps k r d n,
  reached eps k -> alive k n ->
  look (fst (act_step eps (WriteDict r d) k)) n =
    if Nat.eqb (o_dict (object k n)) r then with_params (look k n) d else look k n.
Proof. exact C73_write_dict_lemma. Qed.
Print Assumptions C73_write_dictionary.

(** C73: a write into a list changes the qubits of exactly the objects that hold it. *)
Theorem C73_write_list : forall eps k r l n,
  reached eps k -> alive k n ->
  look (fst (act_step eps (WriteList r l) k)) n =
    if Nat.eqb (o_list (object k n)) r then with_apply (look k n) l else look k n.
Proof. exact C73_write_list_lemma. Qed.
Print Assumptions C73_write_list.

(** C73: what is written into the default list becomes the qubits of every product and
    every [Unitary] made later without [apply_to]. *)
Theorem C73_default_list_leaks : forall eps k l x n p k' m,
  reached eps k -> (x = LeftOf n p \/ x = RightOf n p \/ exists d a nm ps iv, x = NewUnitary d a nm ps iv None) ->
  act_step eps x (fst (act_step eps (WriteList 0 l) k)) = (k', Ok (OUnit m)) ->
  u_apply (look k' m) = l.
Proof. exact C73_default_lemma. Qed.
Print Assumptions C73_default_list_leaks.

(** C73: a write into the dictionary of an object changes the parameters of another one
    (the inverse made from it). *)
Theorem C73_parameters_refuted :
  exists k r d, reached eps_code k /\ alive k 0 /\ alive k 1 /\
    object k 1 <> object k 0 /\ r = o_dict (object k 0) /\
    u_params (look k 1) <> d /\
    u_params (look (fst (act_step eps_code (WriteDict r d) k)) 1) = d.
Proof. exact C73_params_refuted_lemma. Qed.
Print Assumptions C73_parameters_refuted.

(** C73: a write into the list of an object made without [apply_to] gives qubits to an
    object made later without [apply_to]. *)
Theorem C73_default_refuted :
  exists k r l k' m, reached eps_code k /\ alive k 0 /\ r = o_list (object k 0) /\
    act_step eps_code (NewUnitary 2 None None None false None)
      (fst (act_step eps_code (WriteList r l) k)) = (k', Ok (OUnit m)) /\
    l <> [] /\ u_apply (look k' m) = l.
Proof. exact C73_default_refuted_lemma. Qed.
Print Assumptions C73_default_refuted.

(** C74: after [seq.product().get_matrix()[:] = A], [product()] of the sequence answers [A];
    entries and other sequences are not touched. *)
Theorem C74_kept_product_is_exposed : forall eps s A w p w1,
  step eps (Product s) w = (w1, Ok (VUnitary p)) ->
  exists w2, scribble eps s A w = (w2, Ok tt) /\
    step eps (Product s) w2 = (w2, Ok (VUnitary (with_mat p A))) /\
    w_heap w2 = w_heap w1 /\
    (forall t, t <> s -> nth_error (w_seqs w2) t = nth_error (w_seqs w1) t).
Proof. exact C74_scribble_lemma. Qed.
Print Assumptions C74_kept_product_is_exposed.

(** C74: [undo()], where possible, discards the write. *)
Theorem C74_undo_discards_the_write : forall eps s A w p w1 q,
  step eps (Product s) w = (w1, Ok (VUnitary p)) ->
  nth_error (w_seqs w1) s = Some q -> s_prev_entries q <> None ->
  step eps (Undo s) (fst (scribble eps s A w)) = step eps (Undo s) w1.
Proof. exact C74_undo_lemma. Qed.
Print Assumptions C74_undo_discards_the_write.

(** A sequence of one gate, with a saved state, whose product is available. *)
Example C74_case :
  exists u os w1 p q, built 0 u /\ meq 2 (u_mat u) rot345 /\
    os = [NewEntry u [0%Z]; NewSequence 2 false []; AppendLast 0 0 true] /\
    step 0 (Product 0) (exec 0 os w_empty) = (w1, Ok (VUnitary p)) /\
    nth_error (w_seqs w1) 0 = Some q /\ s_prev_entries q <> None.
Proof. exact ex_C74_lemma. Qed.

(** C74: so [product()] need not be the product of the entries: the empty sequence
    answers zero.  (C14 is about programs that do not write into results.) *)
Theorem C74_product_refuted : forall eps, (0 <= eps <= 1)%R ->
  exists w w2 p, w = exec eps [NewSequence 2 false []] w_empty /\
    contents w2 0 = contents w 0 /\ contents w 0 = [] /\
    scribble eps 0 (fun _ _ => 0) w = (w2, Ok tt) /\ answers eps w2 0 p /\ ~ meq 2 (u_mat p) mid.
Proof. exact C74_refuted_lemma. Qed.
Print Assumptions C74_product_refuted.

