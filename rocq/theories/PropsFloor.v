(** The chance that a compilation with parameterised gates succeeds: C98.

    [chance_at_least r E p] says that [E] holds of the source of randomness from draw [r] on with
    chance [p] or more (SpecFloor.v); it is also meant for events that have no exact chance in
    the sense of [chance] (SpecChain.v), as when a gate has random angles.
    [continuous_source] says that a parameterised gate depends continuously on its
    parameters, [on_offer n c g] that the compiler may draw the gate [g], a parameterised one
    at any values in the declared ranges; [layer_of] says the same of a layer (SpecCompiler.v).
    [compiled st c target thr max g] is what compile() returns.  [set_beta c b] is the compiler
    with inverse temperature [b], which earlier compilations have left behind
    (compiler/compiler.py:70, 173, 263). *)
From Coq Require Import Reals List Arith Bool ZArith String.
From Coquelicot Require Import Complex.
From Verif Require Import Base CMat ModelUnitary ModelPrimitive ModelGates ModelHamiltonian ModelSequence ModelCompiler
  Spec SpecModel SpecCompiler SpecGates SpecChain SpecFloor PSeqNear PSeqCases PFloorMain PFloorLib PFloorEx.
Import ListNotations.
Open Scope R_scope.

(** C98: if some list of gates on offer comes within the tolerance, at whatever values of the
    parameters, then there are a number of steps [m] and a chance [rho], the same for every state
    and every temperature the compiler is in, such that each further [m] allowed steps make
    the chance to fail smaller by the factor [1 - rho]. *)
Theorem C98_found : forall n c target thr gts,
  good_compiler 0 n c -> c_array c = false \/ List.length (c_prims c) = 1%nat ->
  (forall p, In p (c_prims c) -> continuous_source (p_source p)) -> 0 < c_append c ->
  built 0 target -> u_dim target = (2 ^ n)%nat -> 0 <= c_rate c -> 0 <= c_max_beta c ->
  match thr with Some t => t <= 1 | None => True end ->
  (forall g, In g gts -> on_offer n c g) -> cost_of n target gts < tolerance thr ->
  exists m rho, (0 < m)%nat /\ 0 < rho <= 1 /\
    forall st b max, exact_world (r_world st) -> 0 <= b ->
    chance_at_least (r_draws st) (fun g => exists gs costs, compiled st (set_beta c b) target thr max g = Some (gs, costs) /\
        cost_of n target gs <= tolerance thr) (1 - (1 - rho) ^ (Z.to_nat max / m)).
Proof. exact C98_found_lemma. Qed.
Print Assumptions C98_found.

(** Rotations by random angles, one of which is the target; this also meets the hypotheses of
    [C98_limit]. *)
Example C98_found_case : exists c target gts,
  good_compiler 0 1 c /\ c_array c = false /\ (forall p, In p (c_prims c) -> continuous_source (p_source p)) /\
  (exists p pu, In p (c_prims c) /\ p_source p = Family pu) /\ 0 < c_append c /\
  built 0 target /\ u_dim target = (2 ^ 1)%nat /\ 0 <= c_rate c /\ 0 <= c_max_beta c /\
  (forall g, In g gts -> on_offer 1 c g) /\ cost_of 1 target gts < tolerance None /\ tolerance None < cost_of 1 target [].
Proof. exact ex_C98_found_lemma. Qed.

(** C98: with enough allowed steps the chance of success is as close to 1 as desired. *)
Theorem C98_limit : forall n c target thr gts delta,
  good_compiler 0 n c -> c_array c = false \/ List.length (c_prims c) = 1%nat ->
  (forall p, In p (c_prims c) -> continuous_source (p_source p)) -> 0 < c_append c ->
  built 0 target -> u_dim target = (2 ^ n)%nat -> 0 <= c_rate c -> 0 <= c_max_beta c ->
  match thr with Some t => t <= 1 | None => True end ->
  (forall g, In g gts -> on_offer n c g) -> cost_of n target gts < tolerance thr -> 0 < delta ->
  exists N, forall st b max, exact_world (r_world st) -> 0 <= b -> (N <= max)%Z ->
    chance_at_least (r_draws st) (fun g => exists gs costs, compiled st (set_beta c b) target thr max g = Some (gs, costs) /\
        cost_of n target gs <= tolerance thr) (1 - delta).
Proof. exact C98_limit_lemma. Qed.
Print Assumptions C98_limit.

(** C98: already in as many steps as the list has gates the chance of success is positive, with
    the same bound for every state.  The case [C98_found_case] meets the hypotheses. *)
Theorem C98_within : forall n c target thr gts,
  good_compiler 0 n c -> c_array c = false \/ List.length (c_prims c) = 1%nat ->
  (forall p, In p (c_prims c) -> continuous_source (p_source p)) -> 0 < c_append c ->
  built 0 target -> u_dim target = (2 ^ n)%nat -> 0 <= c_rate c -> 0 <= c_max_beta c ->
  match thr with Some t => t <= 1 | None => True end ->
  (forall g, In g gts -> on_offer n c g) -> cost_of n target gts < tolerance thr ->
  exists rho, 0 < rho <= 1 /\ forall st b max, exact_world (r_world st) -> 0 <= b -> (Z.of_nat (List.length gts) <= max)%Z ->
    chance_at_least (r_draws st) (fun g => exists gs costs, compiled st (set_beta c b) target thr max g = Some (gs, costs) /\
        cost_of n target gs <= tolerance thr) rho.
Proof. exact C98_within_lemma. Qed.
Print Assumptions C98_within.

(** C98: the same for compile_layered() and lists of layers. *)
Theorem C98_found_layered : forall n c target counts thr layers,
  c_dim c = (2 ^ n)%nat -> 0 < c_append c <= 1 -> good_table 0 n counts ->
  (forall pc, In pc counts -> (0 <= snd pc)%Z /\ continuous_source (p_source (fst pc))) ->
  built 0 target -> u_dim target = (2 ^ n)%nat -> 0 <= c_rate c -> 0 <= c_max_beta c ->
  match thr with Some t => t <= 1 | None => True end ->
  (forall l, In l layers -> layer_of 0 (2 ^ n) counts l) -> cost_of n target (List.concat layers) < tolerance thr ->
  exists m rho, (0 < m)%nat /\ 0 < rho <= 1 /\
    forall st b max, exact_world (r_world st) -> 0 <= b ->
    chance_at_least (r_draws st) (fun g => exists gs costs, compiled_layered st (set_beta c b) target counts thr max g = Some (gs, costs) /\
        cost_of n target gs <= tolerance thr) (1 - (1 - rho) ^ (Z.to_nat max / m)).
Proof. exact C98_found_layered_lemma. Qed.
Print Assumptions C98_found_layered.

(** Layers of two rotations by random angles; this also meets the hypotheses of
    [C98_limit_layered]. *)
Example C98_layered_case : exists c target counts layers,
  c_dim c = (2 ^ 1)%nat /\ 0 < c_append c <= 1 /\ good_table 0 1 counts /\
  (forall pc, In pc counts -> (0 <= snd pc)%Z /\ continuous_source (p_source (fst pc))) /\
  built 0 target /\ u_dim target = (2 ^ 1)%nat /\ 0 <= c_rate c /\ 0 <= c_max_beta c /\
  (forall l, In l layers -> layer_of 0 (2 ^ 1) counts l /\ List.length l = 2%nat) /\
  cost_of 1 target (List.concat layers) < tolerance None /\ tolerance None < cost_of 1 target [].
Proof. exact ex_C98_layered_lemma. Qed.

(** C98: with enough allowed steps compile_layered() succeeds with a chance as close to 1 as
    desired. *)
Theorem C98_limit_layered : forall n c target counts thr layers delta,
  c_dim c = (2 ^ n)%nat -> 0 < c_append c <= 1 -> good_table 0 n counts ->
  (forall pc, In pc counts -> (0 <= snd pc)%Z /\ continuous_source (p_source (fst pc))) ->
  built 0 target -> u_dim target = (2 ^ n)%nat -> 0 <= c_rate c -> 0 <= c_max_beta c ->
  match thr with Some t => t <= 1 | None => True end ->
  (forall l, In l layers -> layer_of 0 (2 ^ n) counts l) -> cost_of n target (List.concat layers) < tolerance thr -> 0 < delta ->
  exists N, forall st b max, exact_world (r_world st) -> 0 <= b -> (N <= max)%Z ->
    chance_at_least (r_draws st) (fun g => exists gs costs, compiled_layered st (set_beta c b) target counts thr max g = Some (gs, costs) /\
        cost_of n target gs <= tolerance thr) (1 - delta).
Proof. exact C98_limit_layered_lemma. Qed.
Print Assumptions C98_limit_layered.

(** C98: in as many steps as there are layers compile_layered() has a positive chance.  The case
    [C98_layered_case] meets the hypotheses. *)
Theorem C98_within_layered : forall n c target counts thr layers,
  c_dim c = (2 ^ n)%nat -> 0 < c_append c <= 1 -> good_table 0 n counts ->
  (forall pc, In pc counts -> (0 <= snd pc)%Z /\ continuous_source (p_source (fst pc))) ->
  built 0 target -> u_dim target = (2 ^ n)%nat -> 0 <= c_rate c -> 0 <= c_max_beta c ->
  match thr with Some t => t <= 1 | None => True end ->
  (forall l, In l layers -> layer_of 0 (2 ^ n) counts l) -> cost_of n target (List.concat layers) < tolerance thr ->
  exists rho, 0 < rho <= 1 /\ forall st b max, exact_world (r_world st) -> 0 <= b -> (Z.of_nat (List.length layers) <= max)%Z ->
    chance_at_least (r_draws st) (fun g => exists gs costs, compiled_layered st (set_beta c b) target counts thr max g = Some (gs, costs) /\
        cost_of n target gs <= tolerance thr) rho.
Proof. exact C98_within_layered_lemma. Qed.
Print Assumptions C98_within_layered.

(** C98: the inverse of whatever the gates express is found too, within every positive tolerance,
    even if the ranges of the parameters do not contain the inverse gates. *)
Theorem C98_inverse : forall n c target thr gts delta,
  good_compiler 0 n c -> c_array c = false \/ List.length (c_prims c) = 1%nat ->
  (forall p, In p (c_prims c) -> continuous_source (p_source p)) -> 0 < c_append c ->
  built 0 target -> u_dim target = (2 ^ n)%nat -> 0 <= c_rate c -> 0 <= c_max_beta c ->
  match thr with Some t => t < 1 | None => True end ->
  (forall g, In g gts -> on_offer n c g) -> overlap (2 ^ n) (u_mat target) (adj (ordered n gts)) = 1 -> 0 < delta ->
  exists N, forall st b max, exact_world (r_world st) -> 0 <= b -> (N <= max)%Z ->
    chance_at_least (r_draws st) (fun g => exists gs costs, compiled st (set_beta c b) target thr max g = Some (gs, costs) /\
        cost_of n target gs <= tolerance thr) (1 - delta).
Proof. exact C98_inverse_lemma. Qed.
Print Assumptions C98_inverse.

(** C98: the same for layers. *)
Theorem C98_inverse_layered : forall n c target counts thr layers delta,
  c_dim c = (2 ^ n)%nat -> 0 < c_append c <= 1 -> good_table 0 n counts ->
  (forall pc, In pc counts -> (0 <= snd pc)%Z /\ continuous_source (p_source (fst pc))) ->
  built 0 target -> u_dim target = (2 ^ n)%nat -> 0 <= c_rate c -> 0 <= c_max_beta c ->
  match thr with Some t => t < 1 | None => True end ->
  (forall l, In l layers -> layer_of 0 (2 ^ n) counts l) ->
  overlap (2 ^ n) (u_mat target) (adj (ordered n (List.concat layers))) = 1 -> 0 < delta ->
  exists N, forall st b max, exact_world (r_world st) -> 0 <= b -> (N <= max)%Z ->
    chance_at_least (r_draws st) (fun g => exists gs costs, compiled_layered st (set_beta c b) target counts thr max g = Some (gs, costs) /\
        cost_of n target gs <= tolerance thr) (1 - delta).
Proof. exact C98_inverse_layered_lemma. Qed.
Print Assumptions C98_inverse_layered.

(** A gate and a layer of two whose inverse is the target: the hypotheses of [C98_inverse] and
    [C98_inverse_layered]. *)
Example C98_inverse_case : exists c target counts gts layers,
  good_compiler 0 1 c /\ c_array c = false /\ (forall p, In p (c_prims c) -> continuous_source (p_source p)) /\
  0 < c_append c <= 1 /\ good_table 0 1 counts /\ (forall pc, In pc counts -> (0 <= snd pc)%Z /\ continuous_source (p_source (fst pc))) /\
  built 0 target /\ u_dim target = (2 ^ 1)%nat /\ 0 <= c_rate c /\ 0 <= c_max_beta c /\
  (forall g, In g gts -> on_offer 1 c g) /\ overlap (2 ^ 1) (u_mat target) (adj (ordered 1 gts)) = 1 /\
  (forall l, In l layers -> layer_of 0 (2 ^ 1) counts l /\ List.length l = 2%nat) /\
  overlap (2 ^ 1) (u_mat target) (adj (ordered 1 (List.concat layers))) = 1 /\ tolerance None < cost_of 1 target [].
Proof. exact ex_C98_inverse_lemma. Qed.

(** C98: all parameterised gates of the library depend continuously on their parameters. *)
Theorem C98_library_continuous :
  (forall pu, pd_rotation_xy 0 = Ok pu -> continuous_source (Family pu)) /\
  (forall pu, pd_rotation_xyz = Ok pu -> continuous_source (Family pu)) /\
  (forall pu, pd_xx 0 = Ok pu -> continuous_source (Family pu)) /\
  (forall n pu, pd_gms 0 n = Ok pu -> continuous_source (Family pu)) /\
  (forall d h t_min t_max sfx pu, (0 < d)%nat -> hermitian_mx d h -> t_min <= t_max ->
     pd_time_evolution 0 d h t_min t_max sfx = Ok pu -> continuous_source (Family pu)).
Proof. exact C98_library_lemma. Qed.
Print Assumptions C98_library_continuous.

(** All of them exist; the evolution of the matrix X for a time between -1 and 1. *)
Example C98_library_case : (exists pu, pd_rotation_xy 0 = Ok pu) /\ (exists pu, pd_rotation_xyz = Ok pu) /\ (exists pu, pd_xx 0 = Ok pu) /\
  (exists pu, pd_gms 0 3 = Ok pu) /\ hermitian_mx 2 pauli_x /\ exists pu, pd_time_evolution 0 2 pauli_x (-1) 1 "X"%string = Ok pu.
Proof. exact ex_C98_library_lemma. Qed.

(** C98: the compiler of tests/test_compiler.py:96-128, whose only gate is the general rotation of
    one qubit, finds every one-qubit target within every tolerance with a chance as
    close to 1 as desired. *)
Theorem C98_one_qubit : forall pu p c ap rate target thr delta,
  pd_rotation_xyz = Ok pu -> mk_primitive (Family pu) None = Ok p -> mk_compiler 2 false [p] None ap rate = Ok c ->
  0 < ap <= 1 -> 0 <= rate -> built 0 target -> u_dim target = 2%nat ->
  match thr with Some t => t < 1 | None => True end -> 0 < delta ->
  exists N, forall st b max, exact_world (r_world st) -> 0 <= b -> (N <= max)%Z ->
    chance_at_least (r_draws st) (fun g => exists gs costs, compiled st (set_beta c b) target thr max g = Some (gs, costs) /\
        cost_of 1 target gs <= tolerance thr) (1 - delta).
Proof. exact C98_one_qubit_lemma. Qed.
Print Assumptions C98_one_qubit.

(** The general rotation and a target that is not the identity. *)
Example C98_one_qubit_case : exists pu p c target,
  pd_rotation_xyz = Ok pu /\ mk_primitive (Family pu) None = Ok p /\ mk_compiler 2 false [p] None (1 / 2) (1 / 10) = Ok c /\
  built 0 target /\ u_dim target = 2%nat /\ tolerance None < cost_of 1 target [].
Proof. exact ex_C98_one_qubit_lemma. Qed.

