(** How many gates a compilation places, and what no run can do better than: C107.

    [cost_of n target gs] is one minus the overlap of the target with the product of the gates [gs] (SpecChain.v);
    [allows] and [weighted] say which gates the compiler's primitives stand for (SpecCompiler.v). *)
From Coq Require Import Reals List Arith Bool String ZArith.
From Coquelicot Require Import Complex.
From Verif Require Import Base CMat Norms ModelUnitary ModelEntry ModelPrimitive ModelSequence ModelCompiler Spec SpecModel
  SpecCompiler SpecRound SpecChain PGateCount PGateCountEx.
Import ListNotations.
Open Scope R_scope.

(** C107: a compiled sequence has at most as many gates as steps were made, at every clean-up threshold and whatever the
    random answers. *)
Theorem C107_gates : forall g eps st c target thr K st' c' s costs,
  rng_ok g -> reachable eps (r_world st) ->
  compile g eps target thr K (st, c) = ((st', c'), Ok (s, costs)) ->
  (List.length (contents (r_world st') s) <= List.length costs)%nat.
Proof. exact compile_gates. Qed.
Print Assumptions C107_gates.

(** C107: with compile_layered(), at most as many layers. *)
Theorem C107_layered_gates : forall g eps st c target counts thr K st' c' s costs,
  rng_ok g -> reachable eps (r_world st) ->
  compile_layered g eps target counts thr K (st, c) = ((st', c'), Ok (s, costs)) ->
  (List.length (contents (r_world st') s) <= List.length costs * table_size counts)%nat.
Proof. exact layered_gates. Qed.
Print Assumptions C107_layered_gates.

(** C107: the cost recorded in step k is, up to the clean-up, the cost of a sequence of at most k allowed gates. *)
Theorem C107_costs : forall g eps n target thr K st c st' c' s costs,
  rng_ok g -> reachable eps (r_world st) -> c_dim c = (2 ^ n)%nat ->
  (forall p, In p (c_prims c) -> good_source eps (p_source p)) -> made eps target -> u_dim target = (2 ^ n)%nat ->
  compile g eps target thr K (st, c) = ((st', c'), Ok (s, costs)) ->
  small_round eps 0 n (List.length costs) ->
  forall k x, nth_error costs k = Some x ->
  exists gs, (List.length gs <= S k)%nat /\
    List.Forall (fun gt => exists p, weighted (c_prims c) (c_probs c) p /\ allows eps (c_dim c) p gt) gs /\
    Rabs (x - cost_of n target gs) <= round_bound eps 0 n (List.length costs).
Proof. exact compile_costs. Qed.
Print Assumptions C107_costs.

(** C107: the same for compile_layered(). *)
Theorem C107_layered_costs : forall g eps n target counts thr K st c st' c' s costs,
  rng_ok g -> reachable eps (r_world st) -> c_dim c = (2 ^ n)%nat ->
  (forall pc, In pc counts -> good_source eps (p_source (fst pc))) -> made eps target -> u_dim target = (2 ^ n)%nat ->
  compile_layered g eps target counts thr K (st, c) = ((st', c'), Ok (s, costs)) ->
  small_round eps 0 n (List.length costs * table_size counts) ->
  forall k x, nth_error costs k = Some x ->
  exists gs, (List.length gs <= S k * table_size counts)%nat /\
    List.Forall (fun gt => exists pc, In pc counts /\ allows eps (2 ^ n) (fst pc) gt) gs /\
    Rabs (x - cost_of n target gs) <= round_bound eps 0 n (List.length costs * table_size counts).
Proof. exact layered_costs. Qed.
Print Assumptions C107_layered_costs.

(** C107: so no recorded cost is below the best one of all allowed sequences with as many gates as there were steps, whatever
    the random answers and the annealing parameters. *)
Theorem C107_lower_bound : forall g eps n target thr K st c st' c' s costs e,
  rng_ok g -> reachable eps (r_world st) -> c_dim c = (2 ^ n)%nat ->
  (forall p, In p (c_prims c) -> good_source eps (p_source p)) -> made eps target -> u_dim target = (2 ^ n)%nat ->
  compile g eps target thr K (st, c) = ((st', c'), Ok (s, costs)) ->
  small_round eps 0 n (List.length costs) ->
  (forall gs, (List.length gs <= List.length costs)%nat ->
     List.Forall (fun gt => exists p, weighted (c_prims c) (c_probs c) p /\ allows eps (c_dim c) p gt) gs -> e <= cost_of n target gs) ->
  forall x, In x costs -> e - round_bound eps 0 n (List.length costs) <= x.
Proof. exact lower_bound. Qed.
Print Assumptions C107_lower_bound.

(** C107: if no sequence of fewer than k allowed gates meets the tolerance, every run makes k steps (or all it may make), and
    a run that may make fewer than k steps misses the tolerance. *)
Theorem C107_steps_needed : forall g st c target thr max st' c' s costs n k,
  rng_ok g -> exact_world (r_world st) -> c_dim c = (2 ^ n)%nat ->
  (forall p, In p (c_prims c) -> good_source 0 (p_source p)) -> built 0 target -> u_dim target = (2 ^ n)%nat ->
  compile g 0 target thr max (st, c) = ((st', c'), Ok (s, costs)) ->
  (forall gs, (List.length gs < k)%nat ->
     List.Forall (fun gt => exists p, weighted (c_prims c) (c_probs c) p /\ allows 0 (c_dim c) p gt) gs -> tolerance thr < cost_of n target gs) ->
  (Z.min max (Z.of_nat k) <= Z.of_nat (List.length costs))%Z /\
  ((Z.max 0 max < Z.of_nat k)%Z -> tolerance thr < cost_of n target (contents (r_world st') s)).
Proof. exact steps_needed. Qed.
Print Assumptions C107_steps_needed.

(** The square of a rotation, with the rotation as the only gate: two steps are needed for the tolerance 1/10, a run of two steps
    meets it with two gates, and a run of one step is left with a cost of at least 2/5. *)
Example C107_case : exists c target st,
  exact_world (r_world st) /\ reachable 0 (r_world st) /\ c_dim c = (2 ^ 1)%nat /\
  (forall p, In p (c_prims c) -> good_source 0 (p_source p)) /\ built 0 target /\ made 0 target /\ u_dim target = (2 ^ 1)%nat /\
  (forall k, small_round 0 0 1 k) /\
  (forall gs, (List.length gs < 2)%nat ->
     List.Forall (fun gt => exists p, weighted (c_prims c) (c_probs c) p /\ allows 0 (c_dim c) p gt) gs ->
     2 / 5 <= cost_of 1 target gs /\ tolerance (Some (9 / 10)) < cost_of 1 target gs) /\
  (exists g st' c' s costs, rng_ok g /\ compile g 0 target (Some (9 / 10)) 2 (st, c) = ((st', c'), Ok (s, costs)) /\
     List.length costs = 2%nat /\ List.length (contents (r_world st') s) = 2%nat /\
     cost_of 1 target (contents (r_world st') s) <= tolerance (Some (9 / 10))) /\
  (exists g st' c' s costs, rng_ok g /\ compile g 0 target (Some (9 / 10)) 1 (st, c) = ((st', c'), Ok (s, costs)) /\
     List.length costs = 1%nat).
Proof. exact ex_C107_lemma. Qed.

(** A layered run of one step that keeps its layer of three gates: the bound is attained. *)
Example C107_layered_case : exists g c target counts st st' c' s costs,
  rng_ok g /\ reachable 0 (r_world st) /\ c_dim c = (2 ^ 1)%nat /\
  (forall pc, In pc counts -> good_source 0 (p_source (fst pc))) /\ made 0 target /\ u_dim target = (2 ^ 1)%nat /\
  compile_layered g 0 target counts (Some 2%R) 1 (st, c) = ((st', c'), Ok (s, costs)) /\
  (forall k, small_round 0 0 1 k) /\
  table_size counts = 3%nat /\ List.length costs = 1%nat /\ List.length (contents (r_world st') s) = 3%nat.
Proof. exact ex_C107_layered_lemma. Qed.

