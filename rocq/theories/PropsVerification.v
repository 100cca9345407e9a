(** Properties of [Verification]: C35-C37, C56, C57.

    [g] stands for the answers of numpy's random generator; statements hold for
    every [g] that keeps to [rng_ok]. *)
From Coq Require Import Reals List Arith Bool String ZArith.
From Coquelicot Require Import Complex.
From Verif Require Import Base CMat Det Norms ModelUnitary ModelEntry ModelPrimitive ModelSequence ModelCompiler
  ModelVerification Spec SpecModel SpecCompiler PSeqCases PCompProps PCompMore PCompCases PVerifyProps.
Import ListNotations.
Open Scope R_scope.
Open Scope C_scope.

(** C35: the result is [len] random entries followed by compiled entries; the
    random entries are those the same call without inversion returns; at most [max]
    costs; for every threshold [eps] and all arguments with which the call returns. *)
Theorem C35_random_then_compiled : forall g eps d arr ps len thr ap probs max st st' s costs,
  rng_ok g -> reachable eps (r_world st) ->
  generate_rav_sequence g eps d arr ps len thr ap probs max st = (st', Ok (s, costs)) ->
  exists rand comp, list_sequence (r_world st') s d /\ contents (r_world st') s = rand ++ comp /\
    Z.of_nat (List.length rand) = len /\
    Forall (fun gt => exists p, weighted ps probs p /\ allows eps d p gt) (rand ++ comp) /\
    (Z.of_nat (List.length costs) <= Z.max 0 max)%Z /\
    (exists st0 s0, generate_rav_sequence g eps d arr ps len 0 ap probs max st = (st0, Ok (s0, [])) /\
       contents (r_world st0) s0 = rand) /\
    (thr = 0%R \/ max = 0%Z -> comp = [] /\ costs = []).
Proof. exact C35_structure_lemma. Qed.
Print Assumptions C35_random_then_compiled.

(** C35: the distance of the whole product from the identity is the distance of
    the compiled part from the inverse of the random part, which is the last cost;
    when the compiler stopped early the whole is within the threshold.
    (Exact arithmetic.) *)
Theorem C35_distance_from_identity : forall g n arr ps len thr ap probs max st st' s costs,
  rng_ok g -> exact_world (r_world st) -> (forall p, In p ps -> good_source 0 (p_source p)) ->
  thr <> 0%R -> max <> 0%Z ->
  generate_rav_sequence g 0 (2 ^ n) arr ps len thr ap probs max st = (st', Ok (s, costs)) ->
  exact_world (r_world st') /\
  exists rand comp, Z.of_nat (List.length rand) = len /\ contents (r_world st') s = rand ++ comp /\
  exists p i dist, answers 0 (r_world st') s p /\ meq (2 ^ n) (u_mat p) (ordered n (rand ++ comp)) /\
    u_identity 0 (2 ^ n) = Ok i /\ u_distance_from 0 p i = Ok dist /\
    dist = (1 - overlap (2 ^ n) (adj (ordered n rand)) (ordered n comp))%R /\
    (costs <> [] -> last costs 0%R = dist) /\
    ((Z.of_nat (List.length costs) < max)%Z -> u_close_to 0 p i (Some thr) = Ok true).
Proof. exact C35_metric_lemma. Qed.
Print Assumptions C35_distance_from_identity.

(** C35: with sensible arguments the call returns, whatever the random answers. *)
Theorem C35_never_fails : forall g n arr ps len thr ap probs max st,
  rng_ok g -> exact_world (r_world st) -> good_set 0 n ps probs ->
  (0 <= len)%Z -> (0 <= thr <= 1)%R -> (0 <= ap <= 1)%R ->
  arr = false \/ List.length ps = 1%nat \/ thr = 0%R \/ max = 0%Z ->
  exists st' s costs, generate_rav_sequence g 0 (2 ^ n) arr ps len thr ap probs max st = (st', Ok (s, costs)).
Proof. exact C35_total_lemma. Qed.
Print Assumptions C35_never_fails.

(** C35: the same with the clean-up at [eps], as long as the drift stays small. *)
Theorem C35_never_fails_drift : forall g eps n arr ps len thr ap probs max st K,
  rng_ok g -> drift_world eps K (r_world st) -> good_set eps n ps probs ->
  (0 <= len)%Z -> (0 <= thr <= 1)%R -> (0 <= ap <= 1)%R ->
  arr = false \/ List.length ps = 1%nat \/ thr = 0%R \/ max = 0%Z ->
  small_drift eps n (2 * S (K + Z.to_nat len + Z.to_nat max)) ->
  exists st' s costs, generate_rav_sequence g eps (2 ^ n) arr ps len thr ap probs max st = (st', Ok (s, costs)).
Proof. exact C35_total_drift_lemma. Qed.
Print Assumptions C35_never_fails_drift.

(** Two rotations, three random entries, at most five steps. *)
Example C35_case : exists g u st st' s costs, let ps := [rot_primitive u; rot_primitive u] in
  rng_ok g /\ exact_world (r_world st) /\ reachable 0 (r_world st) /\ good_set 0 1 ps None /\
  generate_rav_sequence g 0 (2 ^ 1) false ps 3 (9 / 10) (1 / 2) None 5 st = (st', Ok (s, costs)) /\
  exists rand comp, List.length rand = 3%nat /\ contents (r_world st') s = rand ++ comp.
Proof. exact ex_C35_lemma. Qed.

(** The code's threshold, ten random entries, fifty steps. *)
Example C35_drift_case : exists g u st, let ps := [rot_primitive u; rot_primitive u] in
  rng_ok g /\ drift_world eps_code 0 (r_world st) /\ good_set eps_code 1 ps None /\
  small_drift eps_code 1 (2 * S (0 + Z.to_nat 10 + Z.to_nat 20)).
Proof. exact ex_C35_drift_lemma. Qed.

(** C36: threshold 0 or no steps: exactly [len] entries and no costs. *)
Theorem C36_no_inversion : forall g eps d arr ps len thr ap probs max st st' s costs,
  rng_ok g -> reachable eps (r_world st) -> thr = 0%R \/ max = 0%Z ->
  generate_rav_sequence g eps d arr ps len thr ap probs max st = (st', Ok (s, costs)) ->
  list_sequence (r_world st') s d /\ Z.of_nat (List.length (contents (r_world st') s)) = len /\ costs = [] /\
  Forall (fun gt => exists p, weighted ps probs p /\ allows eps d p gt) (contents (r_world st') s).
Proof. exact C36_rav_lemma. Qed.
Print Assumptions C36_no_inversion.

(** C36: generate_xeb_sequence() returns exactly [len] layers and no costs. *)
Theorem C36_xeb : forall g eps d counts len st st' s costs,
  rng_ok g -> reachable eps (r_world st) ->
  generate_xeb_sequence g eps d counts len st = (st', Ok (s, costs)) ->
  list_sequence (r_world st') s d /\ costs = [] /\
  exists layers, contents (r_world st') s = List.concat layers /\ Z.of_nat (List.length layers) = len /\
    Forall (layer_of eps d counts) layers.
Proof. exact C36_xeb_lemma. Qed.
Print Assumptions C36_xeb.

(** Three entries, primitives given as an array. *)
Example C36_case : exists g u st st' s costs, let ps := [rot_primitive u; rot_primitive u] in
  rng_ok g /\ reachable 0 (r_world st) /\
  generate_rav_sequence g 0 (2 ^ 1) true ps 3 0 (1 / 2) None 5 st = (st', Ok (s, costs)) /\
  List.length (contents (r_world st') s) = 3%nat.
Proof. exact ex_C36_lemma. Qed.

(** Four layers of three rotations. *)
Example C36_xeb_case : exists g u st st' s costs,
  rng_ok g /\ reachable 0 (r_world st) /\
  generate_xeb_sequence g 0 (2 ^ 1) (rot_table u) 4 st = (st', Ok (s, costs)) /\
  List.length (contents (r_world st') s) = 12%nat.
Proof. exact ex_xeb_lemma. Qed.

(** C37: [len] random layers followed by whole compiled layers; the random layers
    are those the same call without inversion returns. *)
Theorem C37_layers_then_compiled : forall g eps d counts len thr ap max st st' s costs,
  rng_ok g -> reachable eps (r_world st) ->
  generate_layered_rav_sequence g eps d counts len thr ap max st = (st', Ok (s, costs)) ->
  exists rand comp, list_sequence (r_world st') s d /\ contents (r_world st') s = List.concat rand ++ comp /\
    Z.of_nat (List.length rand) = len /\ Forall (layer_of eps d counts) rand /\
    Forall (fun gt => exists pc, In pc counts /\ (0 < snd pc)%Z /\ allows eps d (fst pc) gt) comp /\
    (Forall (fun pc => (0 <= snd pc)%Z) counts ->
       exists layers, comp = List.concat layers /\ Forall (layer_of eps d counts) layers) /\
    (Z.of_nat (List.length costs) <= Z.max 0 max)%Z /\
    (exists st0 s0, generate_layered_rav_sequence g eps d counts len 0 ap max st = (st0, Ok (s0, [])) /\
       contents (r_world st0) s0 = List.concat rand) /\
    (thr = 0%R \/ max = 0%Z -> comp = [] /\ costs = []).
Proof. exact C37_structure_lemma. Qed.
Print Assumptions C37_layers_then_compiled.

(** C37: the distance of the whole product from the identity.  (Exact arithmetic.) *)
Theorem C37_distance_from_identity : forall g n counts len thr ap max st st' s costs,
  rng_ok g -> exact_world (r_world st) -> (forall pc, In pc counts -> good_source 0 (p_source (fst pc))) ->
  thr <> 0%R -> max <> 0%Z ->
  generate_layered_rav_sequence g 0 (2 ^ n) counts len thr ap max st = (st', Ok (s, costs)) ->
  exact_world (r_world st') /\
  exists rand comp, Z.of_nat (List.length rand) = len /\ Forall (layer_of 0 (2 ^ n) counts) rand /\
    contents (r_world st') s = List.concat rand ++ comp /\
  exists p i dist, answers 0 (r_world st') s p /\ meq (2 ^ n) (u_mat p) (ordered n (List.concat rand ++ comp)) /\
    u_identity 0 (2 ^ n) = Ok i /\ u_distance_from 0 p i = Ok dist /\
    dist = (1 - overlap (2 ^ n) (adj (ordered n (List.concat rand))) (ordered n comp))%R /\
    (costs <> [] -> last costs 0%R = dist) /\
    ((Z.of_nat (List.length costs) < max)%Z -> u_close_to 0 p i (Some thr) = Ok true).
Proof. exact C37_metric_lemma. Qed.
Print Assumptions C37_distance_from_identity.

(** C37: with a sensible table the call returns, whatever the random answers. *)
Theorem C37_never_fails : forall g n counts len thr ap max st,
  rng_ok g -> exact_world (r_world st) -> good_table 0 n counts ->
  (forall pc, In pc counts -> (src_dim (p_source (fst pc)) <= 2 ^ n)%nat) ->
  (0 <= len)%Z -> (0 <= thr <= 1)%R -> (0 <= ap <= 1)%R ->
  exists st' s costs, generate_layered_rav_sequence g 0 (2 ^ n) counts len thr ap max st = (st', Ok (s, costs)).
Proof. exact C37_total_lemma. Qed.
Print Assumptions C37_never_fails.

(** C37: the same with the clean-up at [eps]. *)
Theorem C37_never_fails_drift : forall g eps n counts len thr ap max st K,
  rng_ok g -> drift_world eps K (r_world st) -> good_table eps n counts ->
  (forall pc, In pc counts -> (src_dim (p_source (fst pc)) <= 2 ^ n)%nat) ->
  (0 <= len)%Z -> (0 <= thr <= 1)%R -> (0 <= ap <= 1)%R ->
  small_drift eps n (2 * S (K + Z.to_nat len * table_size counts + table_size counts * Z.to_nat max)) ->
  exists st' s costs, generate_layered_rav_sequence g eps (2 ^ n) counts len thr ap max st = (st', Ok (s, costs)).
Proof. exact C37_total_drift_lemma. Qed.
Print Assumptions C37_never_fails_drift.

(** Two random layers of three rotations. *)
Example C37_case : exists g u st st' s costs,
  rng_ok g /\ exact_world (r_world st) /\ reachable 0 (r_world st) /\ good_table 0 1 (rot_table u) /\
  (forall pc, In pc (rot_table u) -> (src_dim (p_source (fst pc)) <= 2 ^ 1)%nat) /\
  Forall (fun pc => (0 <= snd pc)%Z) (rot_table u) /\
  generate_layered_rav_sequence g 0 (2 ^ 1) (rot_table u) 2 (9 / 10) (1 / 2) 5 st = (st', Ok (s, costs)) /\
  (6 <= List.length (contents (r_world st') s))%nat.
Proof. exact ex_C37_lemma. Qed.

(** The code's threshold, five layers of three rotations, ten steps. *)
Example C37_drift_case : exists g u st,
  rng_ok g /\ drift_world eps_code 0 (r_world st) /\ good_table eps_code 1 (rot_table u) /\
  (forall pc, In pc (rot_table u) -> (src_dim (p_source (fst pc)) <= 2 ^ 1)%nat) /\
  small_drift eps_code 1 (2 * S (0 + Z.to_nat 3 * table_size (rot_table u) + table_size (rot_table u) * Z.to_nat 6)).
Proof. exact ex_C37_drift_lemma. Qed.

(** C56: an array of two or more primitives never gives a result when an inverse
    has to be compiled. *)
Theorem C56_array_never_returns : forall g eps d ps len thr ap probs max st st' s costs,
  rng_ok g -> reachable eps (r_world st) -> (2 <= List.length ps)%nat -> thr <> 0%R -> max <> 0%Z ->
  generate_rav_sequence g eps d true ps len thr ap probs max st <> (st', Ok (s, costs)).
Proof. exact C56_never_lemma. Qed.
Print Assumptions C56_array_never_returns.

(** C56: with sensible arguments the call ends in [ValueError], after the random
    part was drawn and multiplied. *)
Theorem C56_array_value_error : forall g n ps len thr ap probs max st,
  rng_ok g -> exact_world (r_world st) -> good_set 0 n ps probs ->
  (0 <= len)%Z -> (0 <= thr <= 1)%R -> (0 <= ap <= 1)%R ->
  (2 <= List.length ps)%nat -> thr <> 0%R -> max <> 0%Z ->
  exists st', generate_rav_sequence g 0 (2 ^ n) true ps len thr ap probs max st = (st', Raise ValueError).
Proof. exact C56_error_lemma. Qed.
Print Assumptions C56_array_value_error.

(** Two rotations in an array. *)
Example C56_case : exists g u st st', let ps := [rot_primitive u; rot_primitive u] in
  rng_ok g /\ exact_world (r_world st) /\ good_set 0 1 ps None /\
  generate_rav_sequence g 0 (2 ^ 1) true ps 3 (9 / 10) (1 / 2) None 5 st = (st', Raise ValueError).
Proof. exact ex_C56_lemma. Qed.

(** C57: generating a sequence changes neither the entries nor the dimension nor
    the answer of product() of any list-built sequence that existed before; also
    when it raises. *)
Theorem C57_rav_isolation : forall g eps d arr ps len thr ap probs max st t dt p,
  rng_ok g -> reachable eps (r_world st) -> list_sequence (r_world st) t dt ->
  let w' := r_world (fst (generate_rav_sequence g eps d arr ps len thr ap probs max st)) in
  list_sequence w' t dt /\ contents w' t = contents (r_world st) t /\
  (answers eps (r_world st) t p -> answers eps w' t p).
Proof. exact C57_rav_lemma. Qed.
Print Assumptions C57_rav_isolation.

(** C57: the same for generate_layered_rav_sequence() (and generate_xeb_sequence(),
    which calls it). *)
Theorem C57_layered_rav_isolation : forall g eps d counts len thr ap max st t dt p,
  rng_ok g -> reachable eps (r_world st) -> list_sequence (r_world st) t dt ->
  let w' := r_world (fst (generate_layered_rav_sequence g eps d counts len thr ap max st)) in
  list_sequence w' t dt /\ contents w' t = contents (r_world st) t /\
  (answers eps (r_world st) t p -> answers eps w' t p).
Proof. exact C57_layered_lemma. Qed.
Print Assumptions C57_layered_rav_isolation.

(** A sequence with a rotation. *)
Example C57_case : exists g u st t d p, let ps := [rot_primitive u; rot_primitive u] in
  rng_ok g /\ reachable 0 (r_world st) /\ list_sequence (r_world st) t d /\ answers 0 (r_world st) t p /\
  contents (r_world st) t <> [] /\
  exists st' s costs, generate_rav_sequence g 0 (2 ^ 1) false ps 3 (9 / 10) (1 / 2) None 5 st = (st', Ok (s, costs)) /\ s <> t.
Proof. exact ex_C57_lemma. Qed.

