(** The two models of sequences and of the compiler agree: C92.

    [step] and [compile] (ModelSequence.v, ModelCompiler.v) work on Python objects: entries in a
    store with their caches, sequences holding references to them.  [r_step] and [r_compile]
    (ModelRound.v, ModelRoundComp.v) work on plain lists, in an exchangeable arithmetic.
    [plain_view] forgets the identities and the caches; SpecAgree.v says what corresponds. *)
From Coq Require Import Reals List Arith Bool String ZArith.
From Coquelicot Require Import Complex.
From Verif Require Import Base CMat Norms ModelUnitary ModelEntry ModelPrimitive ModelSequence ModelCompiler
  ModelRound ModelRoundComp Spec SpecModel SpecGates SpecCompiler SpecRound SpecRoundComp SpecAgree PAgree PAgree2 PAgreeEx.
Import ListNotations.
Open Scope R_scope.
Open Scope C_scope.

(** C92: in every state a program can reach, a call on a sequence does exactly what the call on
    the plain list does in exact arithmetic: the same new state, the same answer, the same
    exception. *)
Theorem C92_methods : forall eps w s q o m, reachable eps w -> plain_view w s = Some q -> same_call w s o m ->
  match r_step exact_arith eps q m with
  | Ok q' => exists w', step eps o w =
               (w', match m with RProduct => bind (r_product exact_arith eps q) (fun p => Ok (VUnitary p)) | _ => Ok VNone end) /\
             plain_view w' s = Some q'
  | Raise x => exists w', step eps o w = (w', Raise x)
  end.
Proof. exact methods_agree. Qed.
Print Assumptions C92_methods.

(** C92: a completed call of [compile] is the run on plain lists, with the same recorded costs and
    the same final state, for some list of proposals each of which is one gate the primitives
    allow or one removal, accepted by Metropolis' rule at the annealing parameter of that step. *)
Theorem C92_compile : forall g eps target threshold K st c st' c' s costs,
  rng_ok g -> reachable eps (r_world st) ->
  compile g eps target threshold K (st, c) = ((st', c'), Ok (s, costs)) ->
  exists steps q, List.length steps = List.length costs /\
    r_compile exact_arith eps (c_dim c) target (close_at threshold) steps = Ok (q, costs) /\
    plain_view (r_world st') s = Some q /\
    forall k pr, nth_error steps k = Some pr ->
      drawn_change eps c (rp_change pr) /\ metropolis_rule (beta_in_step c k) (rp_accept pr).
Proof. exact compile_agrees2. Qed.
Print Assumptions C92_compile.

(** C92: the same for [compile_layered], whose proposals are whole layers. *)
Theorem C92_layered : forall g eps target counts threshold K st c st' c' s costs,
  rng_ok g -> reachable eps (r_world st) ->
  compile_layered g eps target counts threshold K (st, c) = ((st', c'), Ok (s, costs)) ->
  exists steps q, List.length steps = List.length costs /\
    r_compile exact_arith eps (c_dim c) target (close_at threshold) steps = Ok (q, costs) /\
    plain_view (r_world st') s = Some q /\
    forall k pr, nth_error steps k = Some pr ->
      drawn_layer eps (c_dim c) counts (rp_change pr) /\ metropolis_rule (beta_in_step c k) (rp_accept pr).
Proof. exact layered_compile_agrees2. Qed.
Print Assumptions C92_layered.

(** C92: with the clean-up threshold of the code, a completed call of [compile] is simulated
    annealing on lists of gates: every cost it works with is within the bound of the true
    cost of the gates, in every dimension and for any number of steps. *)
Theorem C92_anneals : forall g eps n target threshold K st c st' c' s costs,
  rng_ok g -> reachable eps (r_world st) -> c_dim c = (2 ^ n)%nat ->
  (forall p, In p (c_prims c) -> good_source eps (p_source p)) ->
  made eps target -> u_dim target = (2 ^ n)%nat ->
  compile g eps target threshold K (st, c) = ((st', c'), Ok (s, costs)) ->
  small_round eps 0 n (List.length costs) ->
  exists steps, List.length steps = List.length costs /\
    (forall k pr, nth_error steps k = Some pr ->
       drawn_change eps c (rp_change pr) /\ metropolis_rule (beta_in_step c k) (rp_accept pr)) /\
    annealed (fun es => 1 - overlap (2 ^ n) (u_mat target) (ordered n es))%R (round_bound eps 0 n (List.length costs))
      (close_at threshold) [] steps (contents (r_world st') s) costs.
Proof. exact compile_anneals. Qed.
Print Assumptions C92_anneals.

(** C92: the same for [compile_layered]. *)
Theorem C92_layered_anneals : forall g eps n target counts threshold K st c st' c' s costs,
  rng_ok g -> reachable eps (r_world st) -> c_dim c = (2 ^ n)%nat ->
  (forall pc, In pc counts -> good_source eps (p_source (fst pc))) ->
  made eps target -> u_dim target = (2 ^ n)%nat ->
  compile_layered g eps target counts threshold K (st, c) = ((st', c'), Ok (s, costs)) ->
  small_round eps 0 n (List.length costs * table_size counts) ->
  exists steps, List.length steps = List.length costs /\
    (forall k pr, nth_error steps k = Some pr ->
       drawn_layer eps (2 ^ n) counts (rp_change pr) /\ metropolis_rule (beta_in_step c k) (rp_accept pr)) /\
    annealed (fun es => 1 - overlap (2 ^ n) (u_mat target) (ordered n es))%R
      (round_bound eps 0 n (List.length costs * table_size counts))
      (close_at threshold) [] steps (contents (r_world st') s) costs.
Proof. exact layered_anneals. Qed.
Print Assumptions C92_layered_anneals.

(** A rotation in a sequence, and three calls that correspond. *)
Example C92_methods_case : exists u w q, reachable 0 w /\ meq 2 (u_mat u) rot345 /\
  plain_view w 0 = Some q /\ rs_entries q = [(u, [0%nat])] /\ rs_prev q = Some [] /\
  same_call w 0 (AppendFirst 0 0 true) (RFirst (u, [0%nat]) true) /\
  same_call w 0 (Undo 0) RUndo /\ same_call w 0 (Product 0) RProduct.
Proof. exact ex_C92_methods_lemma. Qed.

(** A run of one step that keeps the gate it adds meets all the hypotheses. *)
Example C92_case : exists g c target st st' c' s costs,
  rng_ok g /\ reachable 0 (r_world st) /\ c_dim c = 2%nat /\
  (forall p, In p (c_prims c) -> good_source 0 (p_source p)) /\ made 0 target /\ u_dim target = 2%nat /\
  compile g 0 target (Some 2%R) 1 (st, c) = ((st', c'), Ok (s, costs)) /\
  small_round 0 0 1 (List.length costs) /\
  List.length costs = 1%nat /\ List.length (contents (r_world st') s) = 1%nat.
Proof. exact ex_C92_run_lemma. Qed.

