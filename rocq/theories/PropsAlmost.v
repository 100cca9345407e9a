(** The chance that a compilation succeeds: C96.

    [chance r E p] is the chance that [E] holds of the source of randomness from draw [r] on;
    [compiled st c target thr max g] is what compile() returns; [gate_chance n c g] is the
    chance that the gate [g] is the one offered, [layer_chance] that of a layer (SpecChain.v).
    [set_beta c b] is the compiler with inverse temperature [b], which earlier compilations
    have left behind (compiler/compiler.py:70, 173, 263). *)
From Coq Require Import Reals List Arith Bool ZArith.
From Coquelicot Require Import Complex.
From Verif Require Import Base CMat ModelUnitary ModelPrimitive ModelSequence ModelCompiler
  Spec SpecModel SpecCompiler SpecChain PSeqNear PSeqCases PCompEx PAlmostRun PAlmostEx.
Import ListNotations.
Open Scope R_scope.

(** C96: if some list of offered gates comes within the tolerance, then there are a number of
    steps [m] and a chance [rho], the same for every state and every temperature the compiler
    is in, such that each further [m] allowed steps make the chance to fail smaller by the
    factor [1 - rho]. *)
Theorem C96_found : forall n c target thr gts,
  good_compiler 0 n c -> c_array c = false \/ List.length (c_prims c) = 1%nat -> fixed_gates c -> 0 < c_append c ->
  built 0 target -> u_dim target = (2 ^ n)%nat -> 0 <= c_rate c -> 0 <= c_max_beta c ->
  match thr with Some t => t <= 1 | None => True end ->
  (forall g, In g gts -> 0 < gate_chance n c g) -> cost_of n target gts < tolerance thr ->
  exists m rho, (0 < m)%nat /\ 0 < rho <= 1 /\
    forall st b max, exact_world (r_world st) -> 0 <= b ->
    exists p, chance (r_draws st) (fun g => exists gs costs, compiled st (set_beta c b) target thr max g = Some (gs, costs) /\
        cost_of n target gs <= tolerance thr) p /\
      1 - (1 - rho) ^ (Z.to_nat max / m) <= p <= 1.
Proof. exact C96_found_lemma. Qed.
Print Assumptions C96_found.

(** One gate, which is the target; this also meets the hypotheses of [C96_limit]. *)
Example C96_found_case : exists c target gts,
  good_compiler 0 1 c /\ c_array c = false /\ fixed_gates c /\ 0 < c_append c /\ built 0 target /\ u_dim target = (2 ^ 1)%nat /\
  0 <= c_rate c /\ 0 <= c_max_beta c /\ (forall g, In g gts -> 0 < gate_chance 1 c g) /\
  cost_of 1 target gts < tolerance None /\ tolerance None < cost_of 1 target [].
Proof. exact ex_C96_found_lemma. Qed.

(** C96: with enough allowed steps the chance of success is as close to 1 as desired. *)
Theorem C96_limit : forall n c target thr gts delta,
  good_compiler 0 n c -> c_array c = false \/ List.length (c_prims c) = 1%nat -> fixed_gates c -> 0 < c_append c ->
  built 0 target -> u_dim target = (2 ^ n)%nat -> 0 <= c_rate c -> 0 <= c_max_beta c ->
  match thr with Some t => t <= 1 | None => True end ->
  (forall g, In g gts -> 0 < gate_chance n c g) -> cost_of n target gts < tolerance thr -> 0 < delta ->
  exists N, forall st b max, exact_world (r_world st) -> 0 <= b -> (N <= max)%Z ->
    exists p, chance (r_draws st) (fun g => exists gs costs, compiled st (set_beta c b) target thr max g = Some (gs, costs) /\
        cost_of n target gs <= tolerance thr) p /\
      1 - delta <= p <= 1.
Proof. exact C96_limit_lemma. Qed.
Print Assumptions C96_limit.

(** C96: the same for compile_layered() and layers that are offered. *)
Theorem C96_found_layered : forall n c target counts thr layers,
  c_dim c = (2 ^ n)%nat -> 0 < c_append c <= 1 -> good_table 0 n counts -> fixed_table counts ->
  (forall pc, In pc counts -> (0 <= snd pc)%Z) ->
  built 0 target -> u_dim target = (2 ^ n)%nat -> 0 <= c_rate c -> 0 <= c_max_beta c ->
  match thr with Some t => t <= 1 | None => True end ->
  (forall l, In l layers -> 0 < layer_chance n counts l) -> cost_of n target (List.concat layers) < tolerance thr ->
  exists m rho, (0 < m)%nat /\ 0 < rho <= 1 /\
    forall st b max, exact_world (r_world st) -> 0 <= b ->
    exists p, chance (r_draws st) (fun g => exists gs costs, compiled_layered st (set_beta c b) target counts thr max g = Some (gs, costs) /\
        cost_of n target gs <= tolerance thr) p /\
      1 - (1 - rho) ^ (Z.to_nat max / m) <= p <= 1.
Proof. exact C96_found_layered_lemma. Qed.
Print Assumptions C96_found_layered.

(** C96: with enough allowed steps compile_layered() succeeds with a chance as close to 1 as
    desired. *)
Theorem C96_limit_layered : forall n c target counts thr layers delta,
  c_dim c = (2 ^ n)%nat -> 0 < c_append c <= 1 -> good_table 0 n counts -> fixed_table counts ->
  (forall pc, In pc counts -> (0 <= snd pc)%Z) ->
  built 0 target -> u_dim target = (2 ^ n)%nat -> 0 <= c_rate c -> 0 <= c_max_beta c ->
  match thr with Some t => t <= 1 | None => True end ->
  (forall l, In l layers -> 0 < layer_chance n counts l) -> cost_of n target (List.concat layers) < tolerance thr -> 0 < delta ->
  exists N, forall st b max, exact_world (r_world st) -> 0 <= b -> (N <= max)%Z ->
    exists p, chance (r_draws st) (fun g => exists gs costs, compiled_layered st (set_beta c b) target counts thr max g = Some (gs, costs) /\
        cost_of n target gs <= tolerance thr) p /\
      1 - delta <= p <= 1.
Proof. exact C96_limit_layered_lemma. Qed.
Print Assumptions C96_limit_layered.

(** C96: the inverse of whatever the gates express is found too, within every positive tolerance,
    even if no gate has its inverse among the gates offered. *)
Theorem C96_inverse : forall n c target thr gts delta,
  good_compiler 0 n c -> c_array c = false \/ List.length (c_prims c) = 1%nat -> fixed_gates c -> 0 < c_append c ->
  built 0 target -> u_dim target = (2 ^ n)%nat -> 0 <= c_rate c -> 0 <= c_max_beta c ->
  match thr with Some t => t < 1 | None => True end ->
  (forall g, In g gts -> 0 < gate_chance n c g) -> overlap (2 ^ n) (u_mat target) (adj (ordered n gts)) = 1 -> 0 < delta ->
  exists N, forall st b max, exact_world (r_world st) -> 0 <= b -> (N <= max)%Z ->
    exists p, chance (r_draws st) (fun g => exists gs costs, compiled st (set_beta c b) target thr max g = Some (gs, costs) /\
        cost_of n target gs <= tolerance thr) p /\
      1 - delta <= p <= 1.
Proof. exact C96_inverse_lemma. Qed.
Print Assumptions C96_inverse.

(** A rotation and its inverse, which one use of the gate does not give. *)
Example C96_inverse_case : exists c target gts,
  good_compiler 0 1 c /\ c_array c = false /\ fixed_gates c /\ 0 < c_append c /\ built 0 target /\ u_dim target = (2 ^ 1)%nat /\
  0 <= c_rate c /\ 0 <= c_max_beta c /\ (forall g, In g gts -> 0 < gate_chance 1 c g) /\
  overlap 2 (u_mat target) (adj (ordered 1 gts)) = 1 /\
  tolerance None < cost_of 1 target [] /\ tolerance None < cost_of 1 target gts.
Proof. exact ex_C96_inverse_lemma. Qed.

(** C96: the same for layers, as in layered randomized analog verification. *)
Theorem C96_inverse_layered : forall n c target counts thr layers delta,
  c_dim c = (2 ^ n)%nat -> 0 < c_append c <= 1 -> good_table 0 n counts -> fixed_table counts ->
  (forall pc, In pc counts -> (0 <= snd pc)%Z) ->
  built 0 target -> u_dim target = (2 ^ n)%nat -> 0 <= c_rate c -> 0 <= c_max_beta c ->
  match thr with Some t => t < 1 | None => True end ->
  (forall l, In l layers -> 0 < layer_chance n counts l) ->
  overlap (2 ^ n) (u_mat target) (adj (ordered n (List.concat layers))) = 1 -> 0 < delta ->
  exists N, forall st b max, exact_world (r_world st) -> 0 <= b -> (N <= max)%Z ->
    exists p, chance (r_draws st) (fun g => exists gs costs, compiled_layered st (set_beta c b) target counts thr max g = Some (gs, costs) /\
        cost_of n target gs <= tolerance thr) p /\
      1 - delta <= p <= 1.
Proof. exact C96_inverse_layered_lemma. Qed.
Print Assumptions C96_inverse_layered.

(** A layer of two gates, a target that it gives and one that it inverts: the hypotheses of
    [C96_found_layered], [C96_limit_layered] and [C96_inverse_layered]. *)
Example C96_layered_case : exists c target inverse layers counts,
  c_dim c = (2 ^ 1)%nat /\ 0 < c_append c <= 1 /\ good_table 0 1 counts /\ fixed_table counts /\
  (forall pc, In pc counts -> (0 <= snd pc)%Z) /\ 0 <= c_rate c /\ 0 <= c_max_beta c /\
  built 0 target /\ u_dim target = (2 ^ 1)%nat /\ built 0 inverse /\ u_dim inverse = (2 ^ 1)%nat /\
  (forall l, In l layers -> 0 < layer_chance 1 counts l) /\
  cost_of 1 target (List.concat layers) < tolerance None /\ tolerance None < cost_of 1 target [] /\
  overlap (2 ^ 1) (u_mat inverse) (adj (ordered 1 (List.concat layers))) = 1 /\
  tolerance None < cost_of 1 inverse [] /\ tolerance None < cost_of 1 inverse (List.concat layers).
Proof. exact ex_C96_layered_lemma. Qed.

(** C96: if no list of offered gates comes within the tolerance, no number of steps helps. *)
Theorem C96_hopeless : forall n st c target thr max,
  exact_world (r_world st) ->
  good_compiler 0 n c -> c_array c = false \/ List.length (c_prims c) = 1%nat -> fixed_gates c ->
  built 0 target -> u_dim target = (2 ^ n)%nat ->
  (forall gts, (forall g, In g gts -> 0 < gate_chance n c g) -> tolerance thr < cost_of n target gts) ->
  chance (r_draws st) (fun g => exists gs costs, compiled st c target thr max g = Some (gs, costs) /\
        cost_of n target gs <= tolerance thr) 0.
Proof. exact C96_hopeless_lemma. Qed.
Print Assumptions C96_hopeless.

(** Rotations about one axis and a target that turns about another. *)
Example C96_hopeless_case : exists st c target,
  exact_world (r_world st) /\ good_compiler 0 1 c /\ c_array c = false /\ fixed_gates c /\ built 0 target /\ u_dim target = (2 ^ 1)%nat /\
  (exists g, 0 < gate_chance 1 c g) /\
  forall gts, (forall g, In g gts -> 0 < gate_chance 1 c g) -> tolerance None < cost_of 1 target gts.
Proof. exact ex_C96_hopeless_lemma. Qed.

(** C96: the same for layers. *)
Theorem C96_hopeless_layered : forall n st c target counts thr max,
  exact_world (r_world st) ->
  c_dim c = (2 ^ n)%nat -> 0 <= c_append c <= 1 -> good_table 0 n counts -> fixed_table counts ->
  (forall pc, In pc counts -> (0 <= snd pc)%Z) ->
  built 0 target -> u_dim target = (2 ^ n)%nat ->
  (forall layers, (forall l, In l layers -> 0 < layer_chance n counts l) -> tolerance thr < cost_of n target (List.concat layers)) ->
  chance (r_draws st) (fun g => exists gs costs, compiled_layered st c target counts thr max g = Some (gs, costs) /\
        cost_of n target gs <= tolerance thr) 0.
Proof. exact C96_hopeless_layered_lemma. Qed.
Print Assumptions C96_hopeless_layered.

(** Layers of two rotations about one axis and a target that turns about another. *)
Example C96_hopeless_layered_case : exists st c target counts,
  exact_world (r_world st) /\ c_dim c = (2 ^ 1)%nat /\ 0 <= c_append c <= 1 /\ good_table 0 1 counts /\ fixed_table counts /\
  (forall pc, In pc counts -> (0 <= snd pc)%Z) /\ built 0 target /\ u_dim target = (2 ^ 1)%nat /\
  (exists l, 0 < layer_chance 1 counts l) /\
  forall layers, (forall l, In l layers -> 0 < layer_chance 1 counts l) -> tolerance None < cost_of 1 target (List.concat layers).
Proof. exact ex_C96_hopeless_layered_lemma. Qed.

