(** Properties of programs on a single qubit: C70. *)
From Coq Require Import Reals List Arith Bool String ZArith.
From Coquelicot Require Import Complex.
From Verif Require Import Base CMat Det Norms ModelUnitary ModelEntry ModelPrimitive ModelGates ModelSequence ModelCompiler
  ModelVerification Spec SpecModel SpecCompiler SpecOneQubit PUnitaryProps PSeqCases POneQubit.
Import ListNotations.
Open Scope R_scope.
Open Scope C_scope.

(** C70: the constructor keeps 2 by 2 matrices of determinant 1 exactly unitary, even
    where it clears components. *)
Theorem C70_gates : forall eps M nm ps iv ap, (0 <= eps <= / 1000)%R -> special 2 M ->
  exists u, mk_unitary eps 2 (Some (square 2 M)) nm ps iv ap = Ok u /\ u_dim u = 2%nat /\ exact_gate eps u /\
    (fro 2 (mminus (u_mat u) M) <= 8 * eps)%R.
Proof. exact su2_gate_lemma. Qed.
Print Assumptions C70_gates.

(** C70: so all gates of the library's two families of rotations are exact, at every
    angle. The sizes are met by [eps_code], see [C70_compile_case]. *)
Theorem C70_rotations : forall eps, (0 <= eps <= / 1000)%R ->
  (exists pu, pd_rotation_xy eps = Ok pu /\ forall al, exact_primitive eps {| p_source := Family pu; p_allowed := al |}) /\
  (exists pu, pd_rotation_xyz = Ok pu /\ forall al, exact_primitive eps {| p_source := Family pu; p_allowed := al |}).
Proof. exact exact_rotations_lemma. Qed.
Print Assumptions C70_rotations.

(** C70: after any number of calls the product of a sequence of exact gates on one
    qubit is still exactly unitary with determinant 1, and its distance to the
    product of the stored gates grows at most linearly. *)
Theorem C70_product : forall eps os s, (0 <= eps <= / 1000)%R -> exact_program eps os ->
  has_dim (exec eps os w_empty) s 2 ->
  let w := exec eps os w_empty in
  exists p, answers eps w s p /\ u_dim p = 2%nat /\ special 2 (u_mat p) /\
    (fro 2 (mminus (u_mat p) (ordered 1 (contents w s))) <= 24 * INR (updates os 0) * eps)%R.
Proof. exact one_qubit_product_lemma. Qed.
Print Assumptions C70_product.

(** The code's threshold; k gates for every k, far beyond C15's limit. *)
Example C70_product_case : exists u, made eps_code u /\ exact_gate eps_code u /\ meq 2 (u_mat u) rot345 /\
  forall k, let os := NewEntry u [0%Z] :: NewSequence 2 false [] :: repeat (AppendLast 0 0 true) k in
    exact_program eps_code os /\ has_dim (exec eps_code os w_empty) 0 2 /\ updates os 0 = k.
Proof. exact ex_one_product_lemma. Qed.

(** C70: adding a gate to such a sequence, or removing one, never raises. *)
Theorem C70_updates : forall eps w s, (0 <= eps <= / 1000)%R -> exact_state eps w -> list_sequence w s 2 ->
  (forall l sv, (l < List.length (w_heap w))%nat -> e_apply (obj (w_heap w) l) = [0%nat] ->
     snd (step eps (AppendFirst s l sv) w) = Ok VNone /\ snd (step eps (AppendLast s l sv) w) = Ok VNone) /\
  (forall sv, snd (step eps (RemoveFirst s sv) w) = Ok VNone /\ snd (step eps (RemoveLast s sv) w) = Ok VNone).
Proof. exact one_qubit_updates_lemma. Qed.
Print Assumptions C70_updates.

(** A sequence with the same entry object twice. *)
Example C70_updates_case : exists u os w, os = [NewEntry u [0%Z]; NewSequence 2 false [0%nat; 0%nat]] /\
  w = exec eps_code os w_empty /\ exact_state eps_code w /\ list_sequence w 0 2 /\
  (0 < List.length (w_heap w))%nat /\ e_apply (obj (w_heap w) 0) = [0%nat].
Proof. exact ex_one_updates_lemma. Qed.

(** C70: compile() on one qubit never fails, without a limit on the number of steps. *)
Theorem C70_compile : forall g eps st c target thr max,
  rng_ok g -> (0 <= eps <= / 10 ^ 10)%R -> exact_state eps (r_world st) -> good_compiler eps 1 c ->
  (forall p, In p (c_prims c) -> exact_primitive eps p) ->
  c_array c = false \/ List.length (c_prims c) = 1%nat ->
  made eps target -> u_dim target = 2%nat ->
  exists st' c' s costs, compile g eps target thr max (st, c) = ((st', c'), Ok (s, costs)).
Proof. exact one_qubit_compile_lemma. Qed.
Print Assumptions C70_compile.

(** C70: the same for compile_layered(). *)
Theorem C70_compile_layered : forall g eps st c target counts thr max,
  rng_ok g -> (0 <= eps <= / 10 ^ 10)%R -> exact_state eps (r_world st) -> c_dim c = 2%nat -> (0 <= c_append c <= 1)%R ->
  good_table eps 1 counts -> (forall p k, In (p, k) counts -> exact_primitive eps p) ->
  made eps target -> u_dim target = 2%nat ->
  exists st' c' s costs, compile_layered g eps target counts thr max (st, c) = ((st', c'), Ok (s, costs)).
Proof. exact one_qubit_layered_lemma. Qed.
Print Assumptions C70_compile_layered.

(** C70: generate_rav_sequence() on one qubit never fails, for every length. *)
Theorem C70_rav : forall g eps arr ps len thr ap probs max st,
  rng_ok g -> (0 <= eps <= / 10 ^ 10)%R -> exact_state eps (r_world st) -> good_set eps 1 ps probs ->
  (forall p, In p ps -> exact_primitive eps p) ->
  (0 <= len)%Z -> (0 <= thr <= 1)%R -> (0 <= ap <= 1)%R ->
  arr = false \/ List.length ps = 1%nat \/ thr = 0%R \/ max = 0%Z ->
  exists st' s costs, generate_rav_sequence g eps 2 arr ps len thr ap probs max st = (st', Ok (s, costs)).
Proof. exact one_qubit_rav_lemma. Qed.
Print Assumptions C70_rav.

(** C70: the same for generate_layered_rav_sequence(). *)
Theorem C70_layered_rav : forall g eps counts len thr ap max st,
  rng_ok g -> (0 <= eps <= / 10 ^ 10)%R -> exact_state eps (r_world st) -> good_table eps 1 counts ->
  (forall p k, In (p, k) counts -> exact_primitive eps p /\ (src_dim (p_source p) <= 2)%nat) ->
  (0 <= len)%Z -> (0 <= thr <= 1)%R -> (0 <= ap <= 1)%R ->
  exists st' s costs, generate_layered_rav_sequence g eps 2 counts len thr ap max st = (st', Ok (s, costs)).
Proof. exact one_qubit_layered_rav_lemma. Qed.
Print Assumptions C70_layered_rav.

(** The code's threshold and the library's two rotations with random angles, for all
    four. *)
Example C70_compile_case : exists g st px pz target, let ps := [px; pz] in let counts := [(px, 2%Z); (pz, 1%Z)] in
  (exists pu, pd_rotation_xy eps_code = Ok pu /\ px = {| p_source := Family pu; p_allowed := None |}) /\
  (exists pu, pd_rotation_xyz = Ok pu /\ pz = {| p_source := Family pu; p_allowed := None |}) /\
  rng_ok g /\ (0 <= eps_code <= / 10 ^ 10)%R /\ exact_state eps_code (r_world st) /\
  (forall p, In p ps -> exact_primitive eps_code p) /\ good_set eps_code 1 ps None /\
  (exists c, mk_compiler 2 false ps None (1 / 2) (1 / 10) = Ok c /\ good_compiler eps_code 1 c) /\
  good_table eps_code 1 counts /\
  (forall p k, In (p, k) counts -> exact_primitive eps_code p /\ (src_dim (p_source p) <= 2)%nat) /\
  made eps_code target /\ u_dim target = 2%nat /\ meq 2 (u_mat target) rot345.
Proof. exact ex_one_compile_lemma. Qed.

