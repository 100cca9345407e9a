(** The compiler in an inexact arithmetic: C90.

    [r_compile] (ModelRoundComp.v) is the loop of [compile] and [compile_layered] on rounded
    sequences.  [annealed cost B close es steps es' costs] (SpecRoundComp.v) is the annealing
    loop on plain lists of gates, when every cost it works with is within [B] of [cost].
    [exact_path] is the loop with exact costs; [decided] says that no decision on it is changed
    by errors of at most [B]. *)
From Coq Require Import Reals List Arith Bool String.
From Coquelicot Require Import Complex.
From Verif Require Import Base CMat Norms ModelUnitary ModelRound ModelRound64 ModelRoundComp
  Spec SpecModel SpecGates SpecRound SpecRoundComp PRoundComp PRoundComp2.
Import ListNotations.
Open Scope R_scope.
Open Scope C_scope.

(** C90: for every target, every list of proposed changes (single gates or layers), every
    decision rule and every closeness test, in any accurate arithmetic, the run raises
    nothing, the gates it ends with and the costs it records are those of the annealing loop
    with every cost within the bound of the true cost of the gates, and the product of the
    final sequence is within the bound of the exact product. *)
Theorem C90_compile : forall ar eps mu n target close steps,
  small_round eps mu n (change_calls steps) ->
  (forall k, (k <= n)%nat -> accurate ar mu (2 ^ k)) ->
  r_gate ar eps mu target -> u_dim target = (2 ^ n)%nat -> r_steps_ok ar eps mu n steps ->
  let B := round_bound eps mu n (change_calls steps) in
  exists q costs p,
    r_compile ar eps (2 ^ n) target close steps = Ok (q, costs) /\
    annealed (fun es => 1 - overlap (2 ^ n) (u_mat target) (ordered n es))%R B close [] steps (rs_entries q) costs /\
    r_product ar eps q = Ok p /\ u_dim p = (2 ^ n)%nat /\
    (fro (2 ^ n) (mminus (u_mat p) (ordered n (rs_entries q))) <= B)%R.
Proof. exact round_compile. Qed.
Print Assumptions C90_compile.

(** C90: the last recorded cost is within the bound of the true cost of the gates returned;
    a run that stops early has returned gates whose true cost is at most the limit of the
    closeness test plus the bound; and if no decision is closer than the bound, the gates are
    exactly those of the run in exact arithmetic, and the recorded costs agree within the bound. *)
Theorem C90_result : forall ar eps mu n target close steps q costs,
  small_round eps mu n (change_calls steps) ->
  (forall k, (k <= n)%nat -> accurate ar mu (2 ^ k)) ->
  r_gate ar eps mu target -> u_dim target = (2 ^ n)%nat -> r_steps_ok ar eps mu n steps ->
  r_compile ar eps (2 ^ n) target close steps = Ok (q, costs) ->
  let B := round_bound eps mu n (change_calls steps) in
  let cost es := (1 - overlap (2 ^ n) (u_mat target) (ordered n es))%R in
  (List.length costs <= List.length steps)%nat /\
  (costs <> [] -> (Rabs (last costs 0 - cost (rs_entries q)) <= B)%R) /\
  ((List.length costs < List.length steps)%nat ->
   forall limit, (forall x, close x = true -> (x <= limit)%R) -> (cost (rs_entries q) <= limit + B)%R) /\
  (decided cost B close [] steps ->
   rs_entries q = fst (exact_path cost close [] steps) /\
   Forall2 (fun x y => (Rabs (x - y) <= B)%R) costs (snd (exact_path cost close [] steps))).
Proof. exact round_compile_end. Qed.
Print Assumptions C90_result.

(** C90: the claim for double precision. *)
Theorem C90_double_compile : forall eps n target close steps, (n <= 23)%nat ->
  small_round eps (mu64 n) n (change_calls steps) ->
  r_gate arith64 eps (mu64 n) target -> u_dim target = (2 ^ n)%nat -> r_steps_ok arith64 eps (mu64 n) n steps ->
  let B := round_bound eps (mu64 n) n (change_calls steps) in
  exists q costs p,
    r_compile arith64 eps (2 ^ n) target close steps = Ok (q, costs) /\
    annealed (fun es => 1 - overlap (2 ^ n) (u_mat target) (ordered n es))%R B close [] steps (rs_entries q) costs /\
    r_product arith64 eps q = Ok p /\ u_dim p = (2 ^ n)%nat /\
    (fro (2 ^ n) (mminus (u_mat p) (ordered n (rs_entries q))) <= B)%R.
Proof. exact double_compile. Qed.
Print Assumptions C90_double_compile.

(** The Hadamard gate with double-precision entries as the target, and the threshold of the
    code; the first step finds nothing to remove, the second appends the gate, and the run stops. *)
Example C90_case : exists g, r_gate arith64 eps_code (mu64 1) g /\ u_dim g = (2 ^ 1)%nat /\ u_name g = "H"%string /\
  small_round eps_code (mu64 1) 1 (change_calls (had_steps g)) /\
  r_steps_ok arith64 eps_code (mu64 1) 1 (had_steps g) /\
  let cost es := (1 - overlap (2 ^ 1) (u_mat g) (ordered 1 es))%R in
  let B := round_bound eps_code (mu64 1) 1 (change_calls (had_steps g)) in
  decided cost B (at_most (1 / 100)) [] (had_steps g) /\
  fst (exact_path cost (at_most (1 / 100)) [] (had_steps g)) = [(g, [0%nat])] /\
  List.length (snd (exact_path cost (at_most (1 / 100)) [] (had_steps g))) = 2%nat.
Proof. exact ex_C90_lemma. Qed.

