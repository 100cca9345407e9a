(** Properties of [Compiler]: C24-C34, the second half of C53, C55, C63, C68 and C69.

    [g] stands for the answers of numpy's random generator; statements hold for
    every [g] that keeps to [rng_ok].  The state is the world of entries and
    sequences, the number of random draws so far, and the compiler object. *)
From Coq Require Import Reals List Arith Bool String ZArith.
From Coquelicot Require Import Complex.
From Verif Require Import Base CMat Det Norms ModelUnitary ModelEntry ModelPrimitive ModelSequence ModelCompiler
  Spec SpecModel SpecCompiler PCompProps PCompMore PCompCases PCompEx PCompCost PReach PReachEx SpecChain PChain
  PChainStep PChainRun PChainBal PChainHit PChainLay.
Import ListNotations.
Open Scope R_scope.
Open Scope C_scope.

(** C24: compile() records at most [max] costs; when it records fewer, the
    returned sequence passes the threshold test; for every threshold [eps] and
    every compiler. *)
Theorem C24_compile_steps : forall g eps st c target thr max st' c' s costs,
  rng_ok g -> reachable eps (r_world st) ->
  compile g eps target thr max (st, c) = ((st', c'), Ok (s, costs)) ->
  (Z.of_nat (List.length costs) <= Z.max 0 max)%Z /\
  exists p close, answers eps (r_world st') s p /\ u_close_to eps p target thr = Ok close /\
    (close = false -> (max <= Z.of_nat (List.length costs))%Z).
Proof. exact C24_lemma. Qed.
Print Assumptions C24_compile_steps.

(** C24: the same for compile_layered(). *)
Theorem C24_compile_layered_steps : forall g eps st c target counts thr max st' c' s costs,
  rng_ok g -> reachable eps (r_world st) ->
  compile_layered g eps target counts thr max (st, c) = ((st', c'), Ok (s, costs)) ->
  (Z.of_nat (List.length costs) <= Z.max 0 max)%Z /\
  exists p close, answers eps (r_world st') s p /\ u_close_to eps p target thr = Ok close /\
    (close = false -> (max <= Z.of_nat (List.length costs))%Z).
Proof. exact C24_layered_lemma. Qed.
Print Assumptions C24_compile_layered_steps.

(** C24: the loop's fuel is never used up: more fuel gives the same run. *)
Theorem C24_loop_ends : forall g eps change s target thr max st fuel,
  (S (Z.to_nat max) <= fuel)%nat ->
  compile_loop g eps change s target thr max [] fuel st =
  compile_loop g eps change s target thr max [] (S (Z.to_nat max)) st.
Proof. exact C24_fuel_lemma. Qed.
Print Assumptions C24_loop_ends.

(** A run of one step with a rotation; also a case of C25-C28. *)
Example C24_case : exists g c target st st' c' s costs,
  rng_ok g /\ exact_world (r_world st) /\ reachable 0 (r_world st) /\
  good_compiler 0 1 c /\ c_array c = false /\ built 0 target /\ u_dim target = 2%nat /\
  compile g 0 target (Some 2%R) 1 (st, c) = ((st', c'), Ok (s, costs)) /\
  List.length costs = 1%nat /\ List.length (contents (r_world st') s) = 1%nat.
Proof. exact ex_run_lemma. Qed.

(** A layered run; also a case of C25-C28 and C32. *)
Example C24_layered_case : exists g c target counts st st' c' s costs,
  rng_ok g /\ exact_world (r_world st) /\ reachable 0 (r_world st) /\
  c_dim c = 2%nat /\ (0 <= c_append c <= 1)%R /\ good_table 0 1 counts /\
  Forall (fun pc => (0 <= snd pc)%Z) counts /\ built 0 target /\ u_dim target = 2%nat /\
  compile_layered g 0 target counts (Some 2%R) 1 (st, c) = ((st', c'), Ok (s, costs)) /\
  total_count counts = 3%Z /\ List.length (contents (r_world st') s) = 3%nat.
Proof. exact ex_layered_lemma. Qed.

(** C25: the last recorded cost is the distance between the target and the
    product of the returned sequence. *)
Theorem C25_last_cost : forall g st c target thr max st' c' s costs n,
  rng_ok g -> exact_world (r_world st) -> c_dim c = (2 ^ n)%nat ->
  (forall p, In p (c_prims c) -> good_source 0 (p_source p)) ->
  compile g 0 target thr max (st, c) = ((st', c'), Ok (s, costs)) -> costs <> [] ->
  exists p, answers 0 (r_world st') s p /\ u_distance_from 0 target p = Ok (last costs 0%R).
Proof. exact C25_lemma. Qed.
Print Assumptions C25_last_cost.

(** C25: the same for compile_layered(). *)
Theorem C25_last_cost_layered : forall g st c target counts thr max st' c' s costs n,
  rng_ok g -> exact_world (r_world st) -> c_dim c = (2 ^ n)%nat ->
  (forall pc, In pc counts -> good_source 0 (p_source (fst pc))) ->
  compile_layered g 0 target counts thr max (st, c) = ((st', c'), Ok (s, costs)) -> costs <> [] ->
  exists p, answers 0 (r_world st') s p /\ u_distance_from 0 target p = Ok (last costs 0%R).
Proof. exact C25_layered_lemma. Qed.
Print Assumptions C25_last_cost_layered.

(** C25: the costs recorded up to any step are those of the run that is stopped
    there; with C25_last_cost every recorded cost is the distance of the sequence at
    that point. *)
Theorem C25_every_cost : forall g eps st target thr max st' s costs m,
  compile g eps target thr max st = (st', Ok (s, costs)) -> (m <= List.length costs)%nat -> (Z.of_nat m <= max)%Z ->
  exists st'', compile g eps target thr (Z.of_nat m) st = (st'', Ok (s, firstn m costs)).
Proof. exact C25_prefix_lemma. Qed.
Print Assumptions C25_every_cost.

(** C25: the same for compile_layered(). *)
Theorem C25_every_cost_layered : forall g eps st target counts thr max st' s costs m,
  compile_layered g eps target counts thr max st = (st', Ok (s, costs)) -> (m <= List.length costs)%nat ->
  (Z.of_nat m <= max)%Z ->
  exists st'', compile_layered g eps target counts thr (Z.of_nat m) st = (st'', Ok (s, firstn m costs)).
Proof. exact C25_prefix_layered_lemma. Qed.
Print Assumptions C25_every_cost_layered.

(** C25: for every threshold, world, compiler and target: the last recorded cost is
    the distance between the target and the product of the returned sequence, or a
    unitary of which that product is the copy the constructor makes (the copy taken
    by save_undo_state() and put back by undo()). *)
Theorem C25_last_cost_any_eps : forall g eps st c target thr max st' c' s costs,
  rng_ok g -> compile g eps target thr max (st, c) = ((st', c'), Ok (s, costs)) -> costs <> [] ->
  exists p q, answers eps (r_world st') s p /\
    (q = p \/ mk_unitary eps (u_dim q) (Some (square (u_dim q) (u_mat q))) None [] false [] = Ok p) /\
    u_distance_from eps target q = Ok (last costs 0%R).
Proof. exact C25_priced_lemma. Qed.
Print Assumptions C25_last_cost_any_eps.

(** C25: the same for compile_layered(). *)
Theorem C25_last_cost_layered_any_eps : forall g eps st c target counts thr max st' c' s costs,
  rng_ok g -> compile_layered g eps target counts thr max (st, c) = ((st', c'), Ok (s, costs)) -> costs <> [] ->
  exists p q, answers eps (r_world st') s p /\
    (q = p \/ mk_unitary eps (u_dim q) (Some (square (u_dim q) (u_mat q))) None [] false [] = Ok p) /\
    u_distance_from eps target q = Ok (last costs 0%R).
Proof. exact C25_priced_layered_lemma. Qed.
Print Assumptions C25_last_cost_layered_any_eps.

(** C25: with the clean-up at any [eps], the last recorded cost is the distance
    between the target and the product of the returned sequence up to the drift bound. *)
Theorem C25_last_cost_drift : forall g eps st c target thr max st' c' s costs n K,
  rng_ok g -> drift_world eps K (r_world st) -> c_dim c = (2 ^ n)%nat ->
  (forall p, In p (c_prims c) -> good_source eps (p_source p)) ->
  made eps target -> u_dim target = (2 ^ n)%nat ->
  small_drift eps n (Datatypes.S (K + Z.to_nat max)) ->
  compile g eps target thr max (st, c) = ((st', c'), Ok (s, costs)) -> costs <> [] ->
  exists p x, answers eps (r_world st') s p /\ u_distance_from eps target p = Ok x /\
    (Rabs (x - last costs 0%R) <= 3 * drift_bound eps n (Datatypes.S (K + Z.to_nat max)))%R.
Proof. exact C25_drift_lemma. Qed.
Print Assumptions C25_last_cost_drift.

(** C25: the same for compile_layered(). *)
Theorem C25_last_cost_layered_drift : forall g eps st c target counts thr max st' c' s costs n K,
  rng_ok g -> drift_world eps K (r_world st) -> c_dim c = (2 ^ n)%nat ->
  (forall pc, In pc counts -> good_source eps (p_source (fst pc))) ->
  made eps target -> u_dim target = (2 ^ n)%nat ->
  small_drift eps n (Datatypes.S (K + table_size counts * Z.to_nat max)) ->
  compile_layered g eps target counts thr max (st, c) = ((st', c'), Ok (s, costs)) -> costs <> [] ->
  exists p x, answers eps (r_world st') s p /\ u_distance_from eps target p = Ok x /\
    (Rabs (x - last costs 0%R) <= 3 * drift_bound eps n (Datatypes.S (K + table_size counts * Z.to_nat max)))%R.
Proof. exact C25_drift_layered_lemma. Qed.
Print Assumptions C25_last_cost_layered_drift.

(** A run of 60 steps with the code's threshold. *)
Example C25_drift_case : exists g c target st st' c' s costs,
  rng_ok g /\ drift_world eps_code 0 (r_world st) /\ good_compiler eps_code 1 c /\ made eps_code target /\ u_dim target = 2%nat /\
  small_drift eps_code 1 61 /\
  compile g eps_code target (Some 10%R) 60 (st, c) = ((st', c'), Ok (s, costs)) /\ List.length costs = 60%nat.
Proof. exact ex_cost_lemma. Qed.

(** C26: the product the returned sequence reports is the ordered product of its
    entries, and the threshold test was made on it. *)
Theorem C26_product_of_result : forall g st c target thr max st' c' s costs n,
  rng_ok g -> exact_world (r_world st) -> c_dim c = (2 ^ n)%nat ->
  (forall p, In p (c_prims c) -> good_source 0 (p_source p)) ->
  compile g 0 target thr max (st, c) = ((st', c'), Ok (s, costs)) ->
  exact_world (r_world st') /\
  exists p close, answers 0 (r_world st') s p /\ u_dim p = (2 ^ n)%nat /\
    meq (2 ^ n) (u_mat p) (ordered n (contents (r_world st') s)) /\
    u_close_to 0 p target thr = Ok close /\
    (close = false -> (max <= Z.of_nat (List.length costs))%Z).
Proof. exact C26_lemma. Qed.
Print Assumptions C26_product_of_result.

(** C26: the same for compile_layered(). *)
Theorem C26_product_of_layered_result : forall g st c target counts thr max st' c' s costs n,
  rng_ok g -> exact_world (r_world st) -> c_dim c = (2 ^ n)%nat ->
  (forall pc, In pc counts -> good_source 0 (p_source (fst pc))) ->
  compile_layered g 0 target counts thr max (st, c) = ((st', c'), Ok (s, costs)) ->
  exact_world (r_world st') /\
  exists p close, answers 0 (r_world st') s p /\ u_dim p = (2 ^ n)%nat /\
    meq (2 ^ n) (u_mat p) (ordered n (contents (r_world st') s)) /\
    u_close_to 0 p target thr = Ok close /\
    (close = false -> (max <= Z.of_nat (List.length costs))%Z).
Proof. exact C26_layered_lemma. Qed.
Print Assumptions C26_product_of_layered_result.

(** C26: with the clean-up at any [eps], up to the drift bound. *)
Theorem C26_product_of_result_drift : forall g eps st c target thr max st' c' s costs n K,
  rng_ok g -> drift_world eps K (r_world st) -> c_dim c = (2 ^ n)%nat ->
  (forall p, In p (c_prims c) -> good_source eps (p_source p)) ->
  small_drift eps n (K + Z.to_nat max) ->
  compile g eps target thr max (st, c) = ((st', c'), Ok (s, costs)) ->
  drift_world eps (K + Z.to_nat max) (r_world st') /\
  exists p close, answers eps (r_world st') s p /\ u_dim p = (2 ^ n)%nat /\
    (fro (2 ^ n) (mminus (u_mat p) (ordered n (contents (r_world st') s))) <= drift_bound eps n (K + Z.to_nat max))%R /\
    u_close_to eps p target thr = Ok close /\
    (close = false -> (max <= Z.of_nat (List.length costs))%Z).
Proof. exact C26_drift_lemma. Qed.
Print Assumptions C26_product_of_result_drift.

(** C26: the same for compile_layered(). *)
Theorem C26_product_of_layered_result_drift : forall g eps st c target counts thr max st' c' s costs n K,
  rng_ok g -> drift_world eps K (r_world st) -> c_dim c = (2 ^ n)%nat ->
  (forall pc, In pc counts -> good_source eps (p_source (fst pc))) ->
  small_drift eps n (K + table_size counts * Z.to_nat max) ->
  compile_layered g eps target counts thr max (st, c) = ((st', c'), Ok (s, costs)) ->
  drift_world eps (K + table_size counts * Z.to_nat max) (r_world st') /\
  exists p close, answers eps (r_world st') s p /\ u_dim p = (2 ^ n)%nat /\
    (fro (2 ^ n) (mminus (u_mat p) (ordered n (contents (r_world st') s))) <=
      drift_bound eps n (K + table_size counts * Z.to_nat max))%R /\
    u_close_to eps p target thr = Ok close /\
    (close = false -> (max <= Z.of_nat (List.length costs))%Z).
Proof. exact C26_drift_layered_lemma. Qed.
Print Assumptions C26_product_of_layered_result_drift.

(** The code's threshold, a rotation and 60 steps; also a case of C28. *)
Example C26_drift_case : exists g c target st,
  rng_ok g /\ drift_world eps_code 0 (r_world st) /\ good_compiler eps_code 1 c /\ c_array c = false /\
  built eps_code target /\ u_dim target = 2%nat /\ small_drift eps_code 1 (S (0 + Z.to_nat 60)).
Proof. exact ex_drift_lemma. Qed.

(** The code's threshold, layers of three rotations and 20 steps; also a case of C28. *)
Example C26_drift_layered_case : exists g c target counts st,
  rng_ok g /\ drift_world eps_code 0 (r_world st) /\ c_dim c = 2%nat /\ (0 <= c_append c <= 1)%R /\
  good_table eps_code 1 counts /\ built eps_code target /\ u_dim target = 2%nat /\
  small_drift eps_code 1 (S (0 + table_size counts * Z.to_nat 20)).
Proof. exact ex_drift_layered_lemma. Qed.

(** C27: every entry of the returned sequence is something a primitive allows, one
    with a probability above 0 if there are probabilities; for every threshold and
    every compiler. *)
Theorem C27_only_allowed : forall g eps st c target thr max st' c' s costs,
  rng_ok g -> reachable eps (r_world st) ->
  compile g eps target thr max (st, c) = ((st', c'), Ok (s, costs)) ->
  has_dim (r_world st') s (c_dim c) /\
  Forall (fun gt => exists p, weighted (c_prims c) (c_probs c) p /\ allows eps (c_dim c) p gt) (contents (r_world st') s).
Proof. exact C27_lemma. Qed.
Print Assumptions C27_only_allowed.

(** C27: the same for compile_layered(), for primitives with a positive count. *)
Theorem C27_only_allowed_layered : forall g eps st c target counts thr max st' c' s costs,
  rng_ok g -> reachable eps (r_world st) ->
  compile_layered g eps target counts thr max (st, c) = ((st', c'), Ok (s, costs)) ->
  has_dim (r_world st') s (c_dim c) /\
  Forall (fun gt => exists pc, In pc counts /\ (0 < snd pc)%Z /\ allows eps (c_dim c) (fst pc) gt)
    (contents (r_world st') s).
Proof. exact C27_layered_lemma. Qed.
Print Assumptions C27_only_allowed_layered.

(** C28: with well-formed arguments compile() returns, whatever the random
    answers. (In exact arithmetic without the clean-up.) *)
Theorem C28_compile_never_fails : forall g st c target thr max n,
  rng_ok g -> exact_world (r_world st) -> good_compiler 0 n c ->
  c_array c = false \/ List.length (c_prims c) = 1%nat ->
  built 0 target -> u_dim target = (2 ^ n)%nat ->
  exists st' c' s costs, compile g 0 target thr max (st, c) = ((st', c'), Ok (s, costs)).
Proof. exact C28_lemma. Qed.
Print Assumptions C28_compile_never_fails.

(** C28: the same for compile_layered(). *)
Theorem C28_compile_layered_never_fails : forall g st c target counts thr max n,
  rng_ok g -> exact_world (r_world st) -> c_dim c = (2 ^ n)%nat -> (0 <= c_append c <= 1)%R ->
  good_table 0 n counts -> built 0 target -> u_dim target = (2 ^ n)%nat ->
  exists st' c' s costs, compile_layered g 0 target counts thr max (st, c) = ((st', c'), Ok (s, costs)).
Proof. exact C28_layered_lemma. Qed.
Print Assumptions C28_compile_layered_never_fails.

(** C28: with the clean-up at any [eps], while the drift bound stays below the
    tolerances of the construction checks. *)
Theorem C28_compile_never_fails_drift : forall g eps st c target thr max n K,
  rng_ok g -> drift_world eps K (r_world st) -> good_compiler eps n c ->
  c_array c = false \/ List.length (c_prims c) = 1%nat ->
  made eps target -> u_dim target = (2 ^ n)%nat ->
  small_drift eps n (S (K + Z.to_nat max)) ->
  exists st' c' s costs, compile g eps target thr max (st, c) = ((st', c'), Ok (s, costs)).
Proof. exact C28_drift_lemma. Qed.
Print Assumptions C28_compile_never_fails_drift.

(** C28: the same for compile_layered(). *)
Theorem C28_compile_layered_never_fails_drift : forall g eps st c target counts thr max n K,
  rng_ok g -> drift_world eps K (r_world st) -> c_dim c = (2 ^ n)%nat -> (0 <= c_append c <= 1)%R ->
  good_table eps n counts -> made eps target -> u_dim target = (2 ^ n)%nat ->
  small_drift eps n (S (K + table_size counts * Z.to_nat max)) ->
  exists st' c' s costs, compile_layered g eps target counts thr max (st, c) = ((st', c'), Ok (s, costs)).
Proof. exact C28_drift_layered_lemma. Qed.
Print Assumptions C28_compile_layered_never_fails_drift.

(** C29: one step of the compiler: the annealing parameter grows, a change is
    proposed, and it is kept exactly when the next draw is below Metropolis'
    probability; a change that does not raise the cost is always kept. *)
Theorem C29_step : forall g eps c s target st st' c' cost,
  rng_ok g -> reachable eps (r_world st) -> list_sequence (r_world st) s (c_dim c) ->
  compile_step g eps (make_random_change g eps) s target (st, c) = ((st', c'), Ok cost) ->
  let beta := Rmin (c_beta c + c_rate c) (c_max_beta c) in
  c' = set_beta c beta /\
  exists before current st1 after proposed,
    answers eps (r_world st) s before /\ u_distance_from eps target before = Ok current /\
    make_random_change g eps s
      ({| r_world := fst (step eps (Product s) (r_world st)); r_draws := r_draws st |}, set_beta c beta) =
      ((st1, set_beta c beta), Ok tt) /\
    answers eps (r_world st1) s after /\ u_distance_from eps target after = Ok proposed /\
    let x := g_unif g (r_draws st1) in
    (((x < metropolis beta (proposed - current))%R /\ cost = proposed /\
      contents (r_world st') s = contents (r_world st1) s /\ answers eps (r_world st') s after) \/
     ((metropolis beta (proposed - current) <= x)%R /\ cost = current /\
      contents (r_world st') s = contents (r_world st) s)) /\
    ((0 <= beta)%R -> (proposed <= current)%R -> cost = proposed /\
      contents (r_world st') s = contents (r_world st1) s /\ answers eps (r_world st') s after).
Proof. exact C29_lemma. Qed.
Print Assumptions C29_step.

(** C29: the same for compile_layered(). *)
Theorem C29_step_layered : forall g eps c counts s target st st' c' cost,
  rng_ok g -> reachable eps (r_world st) -> list_sequence (r_world st) s (c_dim c) ->
  compile_step g eps (make_random_change_layered g eps counts) s target (st, c) = ((st', c'), Ok cost) ->
  let beta := Rmin (c_beta c + c_rate c) (c_max_beta c) in
  c' = set_beta c beta /\
  exists before current st1 after proposed,
    answers eps (r_world st) s before /\ u_distance_from eps target before = Ok current /\
    make_random_change_layered g eps counts s
      ({| r_world := fst (step eps (Product s) (r_world st)); r_draws := r_draws st |}, set_beta c beta) =
      ((st1, set_beta c beta), Ok tt) /\
    answers eps (r_world st1) s after /\ u_distance_from eps target after = Ok proposed /\
    let x := g_unif g (r_draws st1) in
    (((x < metropolis beta (proposed - current))%R /\ cost = proposed /\
      contents (r_world st') s = contents (r_world st1) s /\ answers eps (r_world st') s after) \/
     ((metropolis beta (proposed - current) <= x)%R /\ cost = current /\
      contents (r_world st') s = contents (r_world st) s)) /\
    ((0 <= beta)%R -> (proposed <= current)%R -> cost = proposed /\
      contents (r_world st') s = contents (r_world st1) s /\ answers eps (r_world st') s after).
Proof. exact C29_layered_lemma. Qed.
Print Assumptions C29_step_layered.

(** C29: a step that leaves the entries as they were leaves the product as it was. *)
Theorem C29_rejected_product : forall g c s target st st' c' cost n p,
  rng_ok g -> exact_world (r_world st) -> list_sequence (r_world st) s (2 ^ n) -> c_dim c = (2 ^ n)%nat ->
  (forall p, In p (c_prims c) -> good_source 0 (p_source p)) ->
  compile_step g 0 (make_random_change g 0) s target (st, c) = ((st', c'), Ok cost) ->
  contents (r_world st') s = contents (r_world st) s -> answers 0 (r_world st) s p ->
  exact_world (r_world st') /\
  exists p', answers 0 (r_world st') s p' /\ u_dim p' = u_dim p /\ meq (u_dim p) (u_mat p') (u_mat p).
Proof. exact C29_rejected_lemma. Qed.
Print Assumptions C29_rejected_product.

(** C29: the same for compile_layered(). *)
Theorem C29_rejected_product_layered : forall g c counts s target st st' c' cost n p,
  rng_ok g -> exact_world (r_world st) -> list_sequence (r_world st) s (2 ^ n) -> c_dim c = (2 ^ n)%nat ->
  (forall pc, In pc counts -> good_source 0 (p_source (fst pc))) ->
  compile_step g 0 (make_random_change_layered g 0 counts) s target (st, c) = ((st', c'), Ok cost) ->
  contents (r_world st') s = contents (r_world st) s -> answers 0 (r_world st) s p ->
  exact_world (r_world st') /\
  exists p', answers 0 (r_world st') s p' /\ u_dim p' = u_dim p /\ meq (u_dim p) (u_mat p') (u_mat p).
Proof. exact C29_rejected_layered_lemma. Qed.
Print Assumptions C29_rejected_product_layered.

(** A step that proposes a change and rejects it. *)
Example C29_case : exists g c target st s st' c' cost p,
  rng_ok g /\ exact_world (r_world st) /\ reachable 0 (r_world st) /\
  list_sequence (r_world st) s (2 ^ 1) /\ c_dim c = (2 ^ 1)%nat /\
  (forall p, In p (c_prims c) -> good_source 0 (p_source p)) /\
  compile_step g 0 (make_random_change g 0) s target (st, c) = ((st', c'), Ok cost) /\
  answers 0 (r_world st) s p /\ contents (r_world st') s = contents (r_world st) s /\
  c_beta c' = 16%R /\
  (exists st1 c1, make_random_change g 0 s
      ({| r_world := fst (step 0 (Product s) (r_world st)); r_draws := r_draws st |}, c') = ((st1, c1), Ok tt) /\
     contents (r_world st1) s <> contents (r_world st) s).
Proof. exact ex_C29_lemma. Qed.

(** C30: after any calls of compile() and compile_layered() with [k] recorded
    costs in total, the annealing parameter is [min (k rate) ((2^d)^2)], and nothing
    else of the compiler has changed. *)
Theorem C30_annealing : forall g eps d arr ps probs ap rate c ks st st' c' k,
  mk_compiler d arr ps probs ap rate = Ok c ->
  compile_calls g eps ks (st, c) (st', c') k ->
  c_beta c' = Rmin (INR k * rate) ((2 ^ d) ^ 2) /\ c' = set_beta c (c_beta c').
Proof. exact C30_lemma. Qed.
Print Assumptions C30_annealing.

(** Two calls of one step each. *)
Example C30_case : exists g d ps c ks st st' c',
  rng_ok g /\ mk_compiler d false ps None (1 / 2) 1 = Ok c /\ List.length ks = 2%nat /\
  compile_calls g 0 ks (st, c) (st', c') 2.
Proof. exact ex_C30_lemma. Qed.

(** C31: an action is chosen exactly when the draw is in its interval. *)
Theorem C31_action_intervals : forall g ap st a, rng_ok g -> (0 <= ap <= 1)%R ->
  let x := g_unif g (r_draws st) in
  (fst (action_interval ap a) <= x < snd (action_interval ap a))%R <->
  choose_action g ap st = ({| r_world := r_world st; r_draws := S (r_draws st) |}, Ok a).
Proof. exact C31_lemma. Qed.
Print Assumptions C31_action_intervals.

(** C31: an append probability outside [0, 1] raises and changes nothing. *)
Theorem C31_refuses : forall g eps c s st counts, ~ (0 <= c_append c <= 1)%R ->
  make_random_change g eps s (st, c) = ((st, c), Raise ValueError) /\
  make_random_change_layered g eps counts s (st, c) = ((st, c), Raise ValueError).
Proof. exact C31_refused_lemma. Qed.
Print Assumptions C31_refuses.

(** C31: what each action does to the sequence. *)
Theorem C31_effect : forall g eps c s st st' c' a, rng_ok g -> (0 <= c_append c <= 1)%R ->
  reachable eps (r_world st) -> list_sequence (r_world st) s (c_dim c) ->
  make_random_change g eps s (st, c) = ((st', c'), Ok tt) ->
  let x := g_unif g (r_draws st) in
  (fst (action_interval (c_append c) a) <= x < snd (action_interval (c_append c) a))%R ->
  let old := contents (r_world st) s in let new := contents (r_world st') s in
  match a with
  | ActAppendFirst => exists gt p, weighted (c_prims c) (c_probs c) p /\ allows eps (c_dim c) p gt /\ new = gt :: old
  | ActAppendLast => exists gt p, weighted (c_prims c) (c_probs c) p /\ allows eps (c_dim c) p gt /\ new = old ++ [gt]
  | ActRemoveFirst => new = tl old
  | ActRemoveLast => new = removelast old
  end.
Proof. exact C31_effect_lemma. Qed.
Print Assumptions C31_effect.

(** C31: the same for layers. *)
Theorem C31_effect_layered : forall g eps c counts s st st' c' a, rng_ok g -> (0 <= c_append c <= 1)%R ->
  reachable eps (r_world st) -> list_sequence (r_world st) s (c_dim c) ->
  make_random_change_layered g eps counts s (st, c) = ((st', c'), Ok tt) ->
  let x := g_unif g (r_draws st) in
  (fst (action_interval (c_append c) a) <= x < snd (action_interval (c_append c) a))%R ->
  let old := contents (r_world st) s in let new := contents (r_world st') s in
  let L := Z.to_nat (total_count counts) in
  match a with
  | ActAppendFirst => exists layer, layer_of eps (c_dim c) counts layer /\ new = layer ++ old
  | ActAppendLast => exists layer, layer_of eps (c_dim c) counts layer /\ new = old ++ layer
  | ActRemoveFirst => new = skipn L old
  | ActRemoveLast => new = firstn (List.length old - L) old
  end.
Proof. exact C31_effect_layered_lemma. Qed.
Print Assumptions C31_effect_layered.

(** Appending at the end. *)
Example C31_case : exists g c s st st' c',
  rng_ok g /\ (0 <= c_append c <= 1)%R /\ reachable 0 (r_world st) /\ list_sequence (r_world st) s (c_dim c) /\
  make_random_change g 0 s (st, c) = ((st', c'), Ok tt) /\
  (fst (action_interval (c_append c) ActAppendLast) <= g_unif g (r_draws st)
     < snd (action_interval (c_append c) ActAppendLast))%R /\
  List.length (contents (r_world st') s) = 1%nat.
Proof. exact ex_C31_lemma. Qed.

(** Appending a layer of two in front. *)
Example C31_layered_case : exists g c counts s st st' c',
  rng_ok g /\ (0 <= c_append c <= 1)%R /\ reachable 0 (r_world st) /\ list_sequence (r_world st) s (c_dim c) /\
  make_random_change_layered g 0 counts s (st, c) = ((st', c'), Ok tt) /\
  (fst (action_interval (c_append c) ActAppendFirst) <= g_unif g (r_draws st)
     < snd (action_interval (c_append c) ActAppendFirst))%R /\
  List.length (contents (r_world st') s) = 2%nat.
Proof. exact ex_C31_layered_lemma. Qed.

(** C32: with non-negative counts, what compile_layered() returns consists of whole
    layers, and its length is a multiple of the total count. *)
Theorem C32_whole_layers : forall g eps st c target counts thr max st' c' s costs,
  rng_ok g -> reachable eps (r_world st) -> Forall (fun pc => (0 <= snd pc)%Z) counts ->
  compile_layered g eps target counts thr max (st, c) = ((st', c'), Ok (s, costs)) ->
  exists layers, contents (r_world st') s = List.concat layers /\
    Forall (layer_of eps (c_dim c) counts) layers /\
    Z.of_nat (List.length (contents (r_world st') s)) = (Z.of_nat (List.length layers) * total_count counts)%Z.
Proof. exact C32_lemma. Qed.
Print Assumptions C32_whole_layers.

(** C33: with a negative count it does not: a total count of 2 and a result of
    length 3. *)
Theorem C33_negative_counts_refuted : exists g c target counts st st' c' s costs,
  rng_ok g /\ reachable 0 (r_world st) /\
  mk_compiler 2 false (map fst counts) None (1 / 2) 1 = Ok c /\
  good_table 0 1 counts /\ built 0 target /\ u_dim target = 2%nat /\
  compile_layered g 0 target counts (Some 2%R) 1 (st, c) = ((st', c'), Ok (s, costs)) /\
  total_count counts = 2%Z /\ List.length (contents (r_world st') s) = 3%nat.
Proof. exact C33_lemma. Qed.
Print Assumptions C33_negative_counts_refuted.

(** C33: in general, one accepted step on the empty sequence adds as many entries as the
    positive counts say, whatever the total count is. *)
Theorem C33_negative_counts_add_nothing : forall g st c target counts n,
  rng_ok g -> (forall j, g_unif g j = 0%R) ->
  exact_world (r_world st) -> c_dim c = (2 ^ n)%nat -> (0 < c_append c <= 1)%R ->
  good_table 0 n counts -> built 0 target -> u_dim target = (2 ^ n)%nat ->
  exists st' c' s costs,
    compile_layered g 0 target counts (Some 2%R) 1 (st, c) = ((st', c'), Ok (s, costs)) /\
    List.length (contents (r_world st') s) = table_size counts.
Proof. exact C33_general_lemma. Qed.
Print Assumptions C33_negative_counts_add_nothing.

(** C34: with explicit probabilities and a primitive without places, every attempt
    to append raises. *)
Theorem C34_append_raises : forall g eps c q p s st, rng_ok g ->
  c_probs c = Some q -> List.length q = List.length (c_prims c) ->
  In p (c_prims c) -> p_allowed p = Some [] -> (0 <= c_append c <= 1)%R ->
  (g_unif g (r_draws st) < c_append c)%R ->
  make_random_change g eps s (st, c) =
    (({| r_world := r_world st; r_draws := S (r_draws st) |}, c), Raise ValueError).
Proof. exact C34_lemma. Qed.
Print Assumptions C34_append_raises.

(** C34: such a compiler returns nothing but the empty sequence. *)
Theorem C34_only_empty_result : forall g eps c q p target thr max st st' c' s costs, rng_ok g -> reachable eps (r_world st) ->
  c_probs c = Some q -> List.length q = List.length (c_prims c) ->
  In p (c_prims c) -> p_allowed p = Some [] ->
  compile g eps target thr max (st, c) = ((st', c'), Ok (s, costs)) ->
  contents (r_world st') s = [].
Proof. exact C34_result_lemma. Qed.
Print Assumptions C34_only_empty_result.

(** A good primitive and one without places; all constructors accept. *)
Example C34_case : exists u c q p,
  built 0 u /\
  mk_primitive (Fixed u) (Some []) = Ok p /\
  mk_compiler 2 false [rot_primitive u; p] (Some [1 / 2; 1 / 2]%R) (1 / 2) 1 = Ok c /\
  c_probs c = Some q /\ List.length q = List.length (c_prims c) /\ In p (c_prims c) /\ p_allowed p = Some [] /\
  exists g st st' c' s costs, rng_ok g /\ reachable 0 (r_world st) /\
    compile g 0 u (Some 2%R) 0 (st, c) = ((st', c'), Ok (s, costs)).
Proof. exact ex_C34_lemma. Qed.

(** C53: a place outside the system is not noticed by the constructors: with one
    random history compile() returns, with another it raises. *)
Theorem C53_late_failure : exists u p c target st,
  mk_primitive (Fixed u) (Some [[0%Z]; [7%Z]]) = Ok p /\
  mk_compiler 2 false [p] None (1 / 2) 1 = Ok c /\ built 0 u /\ built 0 target /\ u_dim target = 2%nat /\
  exact_world (r_world st) /\
  (exists g st' c' s costs, rng_ok g /\ compile g 0 target (Some 2%R) 1 (st, c) = ((st', c'), Ok (s, costs)) /\
     contents (r_world st') s = [(u, [0%nat])]) /\
  (exists g st' c', rng_ok g /\ compile g 0 target (Some 2%R) 1 (st, c) = ((st', c'), Raise AssertionError)).
Proof. exact C53_late_lemma. Qed.
Print Assumptions C53_late_failure.

(** C55: compiling changes neither the entries nor the dimension nor the answer of
    product() of any list-built sequence that existed before; also when it raises. *)
Theorem C55_compile_isolation : forall g eps st k t d p, rng_ok g -> reachable eps (r_world (fst st)) ->
  list_sequence (r_world (fst st)) t d ->
  let w' := r_world (fst (fst (run_call g eps k st))) in
  list_sequence w' t d /\ contents w' t = contents (r_world (fst st)) t /\
  (answers eps (r_world (fst st)) t p -> answers eps w' t p).
Proof. exact C55_lemma. Qed.
Print Assumptions C55_compile_isolation.

(** A sequence with a rotation. *)
Example C55_case : exists g c u st t d p,
  rng_ok g /\ reachable 0 (r_world st) /\ list_sequence (r_world st) t d /\ answers 0 (r_world st) t p /\
  contents (r_world st) t <> [] /\
  exists st' c' s costs, run_call g 0 (Plain u (Some 2%R) 1) (st, c) = ((st', c'), Ok (s, costs)) /\ List.length costs = 1%nat.
Proof. exact ex_C55_lemma. Qed.

(** C63: every sequence of gates that the primitives stand for can come out: some
    answers of the generator make compile() return it, whatever the target, unless a
    shorter part of it already passes the threshold test. *)
Theorem C63_every_sequence : forall st c n gts,
  exact_world (r_world st) -> good_compiler 0 n c -> c_array c = false \/ List.length (c_prims c) = 1%nat ->
  (0 < c_append c)%R -> Forall (in_repertoire 0 n c) gts ->
  exists g, rng_ok g /\ forall target thr, built 0 target -> u_dim target = (2 ^ n)%nat ->
  exists st' c' s costs,
    compile g 0 target thr (Z.of_nat (List.length gts)) (st, c) = ((st', c'), Ok (s, costs)) /\
    contents (r_world st') s = firstn (List.length costs) gts /\
    ((List.length costs < List.length gts)%nat ->
       exists p, answers 0 (r_world st') s p /\ u_close_to 0 p target thr = Ok true).
Proof. exact C63_lemma. Qed.
Print Assumptions C63_every_sequence.

(** C63: the same for compile_layered() and sequences of layers. *)
Theorem C63_every_sequence_layered : forall st c n counts layers,
  exact_world (r_world st) -> c_dim c = (2 ^ n)%nat -> (0 < c_append c <= 1)%R -> good_table 0 n counts ->
  Forall (drawable_layer 0 n counts) layers ->
  exists g, rng_ok g /\ forall target thr, built 0 target -> u_dim target = (2 ^ n)%nat ->
  exists st' c' s costs,
    compile_layered g 0 target counts thr (Z.of_nat (List.length layers)) (st, c) = ((st', c'), Ok (s, costs)) /\
    contents (r_world st') s = List.concat (firstn (List.length costs) layers) /\
    ((List.length costs < List.length layers)%nat ->
       exists p, answers 0 (r_world st') s p /\ u_close_to 0 p target thr = Ok true).
Proof. exact C63_layered_lemma. Qed.
Print Assumptions C63_every_sequence_layered.

(** C63: with the clean-up at any [eps], while the drift bound stays below the
    tolerances. *)
Theorem C63_every_sequence_drift : forall eps st c n K gts,
  drift_world eps K (r_world st) -> good_compiler eps n c -> c_array c = false \/ List.length (c_prims c) = 1%nat ->
  (0 < c_append c)%R -> Forall (in_repertoire eps n c) gts -> small_drift eps n (S (K + List.length gts)) ->
  exists g, rng_ok g /\ forall target thr, made eps target -> u_dim target = (2 ^ n)%nat ->
  exists st' c' s costs,
    compile g eps target thr (Z.of_nat (List.length gts)) (st, c) = ((st', c'), Ok (s, costs)) /\
    contents (r_world st') s = firstn (List.length costs) gts /\
    ((List.length costs < List.length gts)%nat ->
       exists p, answers eps (r_world st') s p /\ u_close_to eps p target thr = Ok true).
Proof. exact C63_drift_lemma. Qed.
Print Assumptions C63_every_sequence_drift.

(** C63: the same for compile_layered(). *)
Theorem C63_every_sequence_layered_drift : forall eps st c n K counts layers,
  drift_world eps K (r_world st) -> c_dim c = (2 ^ n)%nat -> (0 < c_append c <= 1)%R -> good_table eps n counts ->
  Forall (drawable_layer eps n counts) layers -> small_drift eps n (S (K + table_size counts * List.length layers)) ->
  exists g, rng_ok g /\ forall target thr, made eps target -> u_dim target = (2 ^ n)%nat ->
  exists st' c' s costs,
    compile_layered g eps target counts thr (Z.of_nat (List.length layers)) (st, c) = ((st', c'), Ok (s, costs)) /\
    contents (r_world st') s = List.concat (firstn (List.length costs) layers) /\
    ((List.length costs < List.length layers)%nat ->
       exists p, answers eps (r_world st') s p /\ u_close_to eps p target thr = Ok true).
Proof. exact C63_drift_layered_lemma. Qed.
Print Assumptions C63_every_sequence_layered_drift.

(** C63: a target that is a product of such gates up to a phase can be found: some
    answers of the generator make compile() return a sequence that passes the test,
    within as many steps as the product has gates. *)
Theorem C63_expressible_is_found : forall st c n gts target thr,
  exact_world (r_world st) -> good_compiler 0 n c -> c_array c = false \/ List.length (c_prims c) = 1%nat ->
  (0 < c_append c)%R -> Forall (in_repertoire 0 n c) gts ->
  built 0 target -> u_dim target = (2 ^ n)%nat -> phase_eq (2 ^ n) (u_mat target) (ordered n gts) ->
  match thr with Some t => (t <= 1)%R | None => True end ->
  exists g st' c' s costs p, rng_ok g /\
    compile g 0 target thr (Z.of_nat (List.length gts)) (st, c) = ((st', c'), Ok (s, costs)) /\
    answers 0 (r_world st') s p /\ u_close_to 0 p target thr = Ok true.
Proof. exact C63_expressible_lemma. Qed.
Print Assumptions C63_expressible_is_found.

(** C63: the same for compile_layered(). *)
Theorem C63_expressible_is_found_layered : forall st c n counts layers target thr,
  exact_world (r_world st) -> c_dim c = (2 ^ n)%nat -> (0 < c_append c <= 1)%R -> good_table 0 n counts ->
  Forall (drawable_layer 0 n counts) layers ->
  built 0 target -> u_dim target = (2 ^ n)%nat -> phase_eq (2 ^ n) (u_mat target) (ordered n (List.concat layers)) ->
  match thr with Some t => (t <= 1)%R | None => True end ->
  exists g st' c' s costs p, rng_ok g /\
    compile_layered g 0 target counts thr (Z.of_nat (List.length layers)) (st, c) = ((st', c'), Ok (s, costs)) /\
    answers 0 (r_world st') s p /\ u_close_to 0 p target thr = Ok true.
Proof. exact C63_expressible_layered_lemma. Qed.
Print Assumptions C63_expressible_is_found_layered.

(** Two qubits, two primitives with probabilities, and the product of two rotations. *)
Example C63_case : exists st c gts target,
  exact_world (r_world st) /\ good_compiler 0 2 c /\ c_array c = false /\ (0 < c_append c)%R /\
  Forall (in_repertoire 0 2 c) gts /\ List.length gts = 2%nat /\ built 0 target /\ u_dim target = 4%nat /\
  phase_eq 4 (u_mat target) (ordered 2 gts).
Proof. exact ex_C63_lemma. Qed.

(** The code's threshold and three gates. *)
Example C63_drift_case : exists st c gts target,
  drift_world eps_code 0 (r_world st) /\ good_compiler eps_code 2 c /\ c_array c = false /\ (0 < c_append c)%R /\
  Forall (in_repertoire eps_code 2 c) gts /\ List.length gts = 3%nat /\
  small_drift eps_code 2 (S (0 + List.length gts)) /\ made eps_code target /\ u_dim target = 4%nat.
Proof. exact ex_C63_drift_lemma. Qed.

(** Two layers of two gates, the first one not in the order of the table. *)
Example C63_layered_case : exists st c counts layers target,
  exact_world (r_world st) /\ c_dim c = 4%nat /\ (0 < c_append c <= 1)%R /\ good_table 0 2 counts /\
  Forall (drawable_layer 0 2 counts) layers /\ map (@List.length _) layers = [2; 2]%nat /\
  built 0 target /\ u_dim target = 4%nat /\ phase_eq 4 (u_mat target) (ordered 2 (List.concat layers)).
Proof. exact ex_C63_layered_lemma. Qed.

(** C68: one step of compile() is a step of Metropolis' chain: the mean of any
    function of the new contents, over ideal random answers, is the one of the
    proposal law (append at either end with half the append probability each, by the
    primitives' probabilities and with equal chances for the places; remove at either
    end) followed by acceptance. *)
Theorem C68_step_mean : forall n st c s target F,
  exact_world (r_world st) -> list_sequence (r_world st) s (2 ^ n) -> good_compiler 0 n c -> fixed_gates c ->
  built 0 target -> u_dim target = (2 ^ n)%nat ->
  average (r_draws st) (fun g => F (step_contents st c s target g)) []
    (step_mean n c (Rmin (c_beta c + c_rate c) (c_max_beta c)) target F (contents (r_world st) s)).
Proof. exact C68_mean_lemma. Qed.
Print Assumptions C68_step_mean.

(** C68: the chance of each other sequence. *)
Theorem C68_step_chance : forall n st c s target gs',
  exact_world (r_world st) -> list_sequence (r_world st) s (2 ^ n) -> good_compiler 0 n c -> fixed_gates c ->
  built 0 target -> u_dim target = (2 ^ n)%nat ->
  let gs := contents (r_world st) s in gs <> gs' ->
  chance (r_draws st) (fun g => step_contents st c s target g = gs')
    (metropolis (Rmin (c_beta c + c_rate c) (c_max_beta c)) (cost_of n target gs' - cost_of n target gs) *
     proposed n c gs gs')%R.
Proof. exact C68_chance_lemma. Qed.
Print Assumptions C68_step_chance.

(** C68: an event has one chance, between 0 and 1. *)
Theorem C68_chance_unique : forall r E p p', chance r E p -> chance r E p' -> p = p' /\ (0 <= p <= 1)%R.
Proof. exact C68_unique_lemma. Qed.
Print Assumptions C68_chance_unique.

(** C68: detailed balance, with the weight exp(- beta cost) times, for each gate, its
    probability and the odds of appending. *)
Theorem C68_detailed_balance : forall n c target st s st' s' p p',
  good_compiler 0 n c -> fixed_gates c -> (0 < c_append c < 1)%R -> built 0 target -> u_dim target = (2 ^ n)%nat ->
  exact_world (r_world st) -> list_sequence (r_world st) s (2 ^ n) ->
  exact_world (r_world st') -> list_sequence (r_world st') s' (2 ^ n) ->
  let gs := contents (r_world st) s in let gs' := contents (r_world st') s' in
  let beta := Rmin (c_beta c + c_rate c) (c_max_beta c) in gs <> gs' ->
  chance (r_draws st) (fun g => step_contents st c s target g = gs') p ->
  chance (r_draws st') (fun g => step_contents st' c s' target g = gs) p' ->
  (boltzmann n c beta target gs * p = boltzmann n c beta target gs' * p')%R.
Proof. exact C68_detailed_lemma. Qed.
Print Assumptions C68_detailed_balance.

(** The first step of a one-qubit compilation appends the rotation with this chance. *)
Example C68_case : exists st c s target gs',
  exact_world (r_world st) /\ list_sequence (r_world st) s (2 ^ 1) /\ good_compiler 0 1 c /\ fixed_gates c /\
  built 0 target /\ u_dim target = (2 ^ 1)%nat /\ (0 < c_append c < 1)%R /\
  contents (r_world st) s = [] /\ List.length gs' = 1%nat /\
  chance (r_draws st) (fun g => step_contents st c s target g = gs') (exp (-16 * (2 / 5)) * (1 / 2))%R.
Proof. exact ex_C68_lemma. Qed.

(** C69: the law of the whole compilation: the mean of any function of the returned
    sequence and the recorded costs, over ideal random answers, is the one of the
    annealed chain that starts from the empty sequence and stops at the tolerance or
    after [max] steps. *)
Theorem C69_compile_mean : forall n st c target thr max F,
  exact_world (r_world st) -> good_compiler 0 n c -> c_array c = false \/ List.length (c_prims c) = 1%nat -> fixed_gates c ->
  built 0 target -> u_dim target = (2 ^ n)%nat ->
  average (r_draws st) (fun g => match compiled st c target thr max g with Some (gs, costs) => F gs costs | None => 0%R end) []
    (run_mean (single_mean n c) n c target thr F (Z.to_nat max) (c_beta c) [] []).
Proof. exact C69_mean_lemma. Qed.
Print Assumptions C69_compile_mean.

(** C69: if some list of gates is close enough to the target, compile() succeeds at
    least with this chance, given as many steps as the list has gates. *)
Theorem C69_success_chance : forall n st c target thr max gts,
  exact_world (r_world st) -> good_compiler 0 n c -> c_array c = false \/ List.length (c_prims c) = 1%nat -> fixed_gates c ->
  built 0 target -> u_dim target = (2 ^ n)%nat ->
  (0 <= c_beta c)%R -> (0 <= c_rate c)%R -> (0 <= c_max_beta c)%R ->
  match thr with Some t => (t <= 1)%R | None => True end ->
  (cost_of n target gts <= tolerance thr)%R -> (List.length gts <= Z.to_nat max)%nat ->
  exists p, chance (r_draws st) (fun g => exists gs costs, compiled st c target thr max g = Some (gs, costs) /\
      (cost_of n target gs <= tolerance thr)%R) p /\
    (fold_right Rmult 1 (map (fun g => c_append c / 2 * gate_chance n c g * exp (- c_max_beta c)) gts) <= p <= 1)%R.
Proof. exact C69_success_lemma. Qed.
Print Assumptions C69_success_chance.

(** C69: the same law for compile_layered(): one gate for each place of the table,
    chosen independently, in random order; put in front in reverse, or behind. *)
Theorem C69_compile_layered_mean : forall n st c target counts thr max F,
  exact_world (r_world st) -> c_dim c = (2 ^ n)%nat -> (0 <= c_append c <= 1)%R -> good_table 0 n counts -> fixed_table counts ->
  built 0 target -> u_dim target = (2 ^ n)%nat ->
  average (r_draws st) (fun g => match compiled_layered st c target counts thr max g with Some (gs, costs) => F gs costs | None => 0%R end) []
    (run_mean (layered_mean n c counts) n c target thr F (Z.to_nat max) (c_beta c) [] []).
Proof. exact C69_layered_lemma. Qed.
Print Assumptions C69_compile_layered_mean.

(** C69: the same bound for compile_layered() and a list of layers. *)
Theorem C69_success_chance_layered : forall n st c target counts thr max layers,
  exact_world (r_world st) -> c_dim c = (2 ^ n)%nat -> (0 <= c_append c <= 1)%R -> good_table 0 n counts -> fixed_table counts ->
  built 0 target -> u_dim target = (2 ^ n)%nat ->
  (0 <= c_beta c)%R -> (0 <= c_rate c)%R -> (0 <= c_max_beta c)%R ->
  match thr with Some t => (t <= 1)%R | None => True end ->
  (cost_of n target (List.concat layers) <= tolerance thr)%R -> (List.length layers <= Z.to_nat max)%nat ->
  exists p, chance (r_draws st) (fun g => exists gs costs, compiled_layered st c target counts thr max g = Some (gs, costs) /\
      (cost_of n target gs <= tolerance thr)%R) p /\
    (fold_right Rmult 1 (map (fun l => c_append c / 2 * layer_chance n counts l * exp (- c_max_beta c)) layers) <= p <= 1)%R.
Proof. exact C69_success_layered_lemma. Qed.
Print Assumptions C69_success_chance_layered.

(** One gate, which is the target: within [m] steps it is found with chance 1 - 2^-m. *)
Example C69_case : exists st c target u,
  exact_world (r_world st) /\ good_compiler 0 1 c /\ c_array c = false /\ fixed_gates c /\ built 0 target /\ u_dim target = (2 ^ 1)%nat /\
  forall m, chance (r_draws st) (fun g => exists costs, compiled st c target None (Z.of_nat m) g = Some ([(u, [0%nat])], costs))
    (1 - (1 / 2) ^ m)%R.
Proof. exact ex_C69_lemma. Qed.

(** A layer of two gates, whose product is the target. *)
Example C69_layered_case : exists st c target u counts,
  exact_world (r_world st) /\ c_dim c = (2 ^ 1)%nat /\ (0 <= c_append c <= 1)%R /\ good_table 0 1 counts /\ fixed_table counts /\
  built 0 target /\ u_dim target = (2 ^ 1)%nat /\
  forall m, chance (r_draws st)
    (fun g => exists costs, compiled_layered st c target counts None (Z.of_nat m) g = Some ([(u, [0%nat]); (u, [0%nat])], costs))
    (1 - (1 / 2) ^ m)%R.
Proof. exact ex_C69_layered_lemma. Qed.

