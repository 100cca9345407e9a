(** The chance that the inverse part of a generated sequence is found: C100.

    [chance_at_least] is defined in SpecFloor.v: at least that chance, over the ideal random
    answers, that the run has the outcome.  Here the run draws its own target: first the
    random part of the sequence, then the compilation of its inverse, and the outcome is
    about the whole sequence that is returned.  [good_set] and [good_table] (SpecCompiler.v)
    are the sets of primitives the compiler accepts, [continuous_source] (SpecFloor.v) that
    a gate depends continuously on its parameters (a fixed gate always does),
    [exact_world] (SpecCompiler.v) a state that any calls of the API produce at eps = 0. *)
From Coq Require Import Reals List Arith Bool ZArith String.
From Coquelicot Require Import Complex.
From Verif Require Import Base CMat ModelUnitary ModelPrimitive ModelGates ModelSequence ModelCompiler ModelVerification
  Spec SpecModel SpecCompiler SpecGates SpecChain SpecFloor PSeqNear PSeqWorld PSeqCases PCompCases PFloorEx PFloorRav.
Import ListNotations.
Open Scope R_scope.

(** C100: a sequence from generate_rav_sequence() is within the threshold of the identity with a
    chance of at least 1 - (1-rho)^(max/m).  [m] and [rho] do not depend on the length of the
    random part, on what is drawn for it, on the number of steps or on the state. *)
Theorem C100_found : forall n arr ps thr ap probs,
  good_set 0 n ps probs -> arr = false \/ List.length ps = 1%nat ->
  (forall p, In p ps -> continuous_source (p_source p)) -> 0 < ap <= 1 -> 0 < thr < 1 ->
  exists m rho, (0 < m)%nat /\ 0 < rho <= 1 /\ forall len max st, (0 <= len)%Z -> (0 < max)%Z -> exact_world (r_world st) ->
  chance_at_least (r_draws st) (fun g => exists st' s costs,
      generate_rav_sequence g 0 (2 ^ n) arr ps len thr ap probs max st = (st', Ok (s, costs)) /\
      thr <= overlap (2 ^ n) mid (ordered n (contents (r_world st') s))) (1 - (1 - rho) ^ (Z.to_nat max / m)).
Proof. exact C100_found_lemma. Qed.
Print Assumptions C100_found.

(** C100: so for every delta > 0 there is one number of steps after which the chance is at least
    1 - delta for random parts of every length. *)
Theorem C100_limit : forall n arr ps thr ap probs delta,
  good_set 0 n ps probs -> arr = false \/ List.length ps = 1%nat ->
  (forall p, In p ps -> continuous_source (p_source p)) -> 0 < ap <= 1 -> 0 < thr < 1 -> 0 < delta ->
  exists N, forall len max st, (0 <= len)%Z -> (N <= max)%Z -> exact_world (r_world st) ->
  chance_at_least (r_draws st) (fun g => exists st' s costs,
      generate_rav_sequence g 0 (2 ^ n) arr ps len thr ap probs max st = (st', Ok (s, costs)) /\
      thr <= overlap (2 ^ n) mid (ordered n (contents (r_world st') s))) (1 - delta).
Proof. exact C100_limit_lemma. Qed.
Print Assumptions C100_limit.

(** Two qubits, parameterised rotations and XX gates; the table is a layer of two rotations and one
    XX gate. *)
Example C100_case : exists pr px ps counts, pd_rotation_xy 0 = Ok pr /\ pd_xx 0 = Ok px /\ ps = [turner pr; turner px] /\
  good_set 0 2 ps None /\ (forall p, In p ps -> continuous_source (p_source p)) /\ exact_world (r_world start) /\
  counts = [(turner pr, 2%Z); (turner px, 1%Z)] /\ good_table 0 2 counts /\
  (forall pc, In pc counts -> (0 <= snd pc)%Z /\ continuous_source (p_source (fst pc)) /\ (src_dim (p_source (fst pc)) <= 2 ^ 2)%nat).
Proof. exact ex_C100_lemma. Qed.

(** C100: the same for generate_layered_rav_sequence(). *)
Theorem C100_found_layered : forall n counts thr ap,
  good_table 0 n counts ->
  (forall pc, In pc counts -> (0 <= snd pc)%Z /\ continuous_source (p_source (fst pc)) /\ (src_dim (p_source (fst pc)) <= 2 ^ n)%nat) ->
  0 < ap <= 1 -> 0 < thr < 1 ->
  exists m rho, (0 < m)%nat /\ 0 < rho <= 1 /\ forall len max st, (0 <= len)%Z -> (0 < max)%Z -> exact_world (r_world st) ->
  chance_at_least (r_draws st) (fun g => exists st' s costs,
      generate_layered_rav_sequence g 0 (2 ^ n) counts len thr ap max st = (st', Ok (s, costs)) /\
      thr <= overlap (2 ^ n) mid (ordered n (contents (r_world st') s))) (1 - (1 - rho) ^ (Z.to_nat max / m)).
Proof. exact C100_found_layered_lemma. Qed.
Print Assumptions C100_found_layered.

(** C100: and for every delta > 0 there is one number of steps for any number of layers. *)
Theorem C100_limit_layered : forall n counts thr ap delta,
  good_table 0 n counts ->
  (forall pc, In pc counts -> (0 <= snd pc)%Z /\ continuous_source (p_source (fst pc)) /\ (src_dim (p_source (fst pc)) <= 2 ^ n)%nat) ->
  0 < ap <= 1 -> 0 < thr < 1 -> 0 < delta ->
  exists N, forall len max st, (0 <= len)%Z -> (N <= max)%Z -> exact_world (r_world st) ->
  chance_at_least (r_draws st) (fun g => exists st' s costs,
      generate_layered_rav_sequence g 0 (2 ^ n) counts len thr ap max st = (st', Ok (s, costs)) /\
      thr <= overlap (2 ^ n) mid (ordered n (contents (r_world st') s))) (1 - delta).
Proof. exact C100_limit_layered_lemma. Qed.
Print Assumptions C100_limit_layered.

(** C100: with the threshold 1 ("exact compilation") it is not so: for a rotation by the angle
    with cosine 3/5 no sequence with a non-empty random part is ever the identity, whatever
    the random numbers and the number of steps. *)
Theorem C100_exact_refuted : exists u ps, ps = [rot_primitive u] /\ good_set 0 1 ps None /\
  (forall p, In p ps -> continuous_source (p_source p)) /\
  forall g len ap max st st' s costs, rng_ok g -> (0 < len)%Z -> exact_world (r_world st) ->
    generate_rav_sequence g 0 (2 ^ 1) false ps len 1 ap None max st = (st', Ok (s, costs)) ->
    overlap (2 ^ 1) mid (ordered 1 (contents (r_world st') s)) < 1.
Proof. exact C100_exact_refuted_lemma. Qed.
Print Assumptions C100_exact_refuted.

