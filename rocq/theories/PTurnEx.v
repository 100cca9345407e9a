(** Concrete cases for C114. *)
From Coq Require Import Reals List Arith Lia Lra Bool String ZArith.
From Coquelicot Require Import Complex.
From Verif Require Import Base CMat CMatFacts Det DetFacts ModelUnitary ModelEntry ModelPrimitive ModelSequence ModelCompiler ModelRound
  Spec SpecModel SpecCompiler SpecAgree SpecRepro SpecTurn PUnitary PCompView PCompRun PCompLoop PCompTotal PCompProps PCompMore PCompCases PSeqEx PCompEx PLongRun PReproEx PPhase
  PSeqCases PPhaseEx PTurn PTurn2.
Import ListNotations.
Open Scope R_scope.

Lemma opposite_turned u v : u_dim u = 2%nat -> u_dim v = 2%nat -> meq 2 (u_mat v) (mscale (- (1))%C (u_mat u)) -> turned 0 u v.
Proof. intros D D2 E. split; [congruence|]. exists (- (1))%C. split; [left; right; now left|]. now rewrite D. Qed.
Lemma rot_turned u v : turned 0 u v -> turned_primitive 0 (rot_primitive u) (rot_primitive v).
Proof. intros T. split; [reflexivity|exact T]. Qed.
Lemma one_turned u v a b : turned 0 u v -> turned_compiler 0 (one_compiler u a b) (one_compiler v a b).
Proof. intros T. split; [|reflexivity]. apply List.Forall2_cons; [now apply rot_turned|apply List.Forall2_nil]. Qed.

Lemma ex_C114_lemma : exists g1 g2 u v c d t st1 st2 st1' st2' c' d' s1 s2 costs,
  rng_ok g1 /\ same_answers g1 (r_draws st1) g2 (r_draws st2) /\ reachable 0 (r_world st1) /\ reachable 0 (r_world st2) /\
  built 0 u /\ built 0 v /\ ~ meq 2 (u_mat v) (u_mat u) /\
  map p_source (c_prims c) = [Fixed u] /\ map p_source (c_prims d) = [Fixed v] /\
  turned_compiler 0 c d /\ c_dim c = (2 ^ 1)%nat /\
  compile g1 0 t (Some 2%R) 1 (st1, c) = ((st1', c'), Ok (s1, costs)) /\
  compile g2 0 t (Some 2%R) 1 (st2, d) = ((st2', d'), Ok (s2, costs)) /\
  turned_gates 0 (contents (r_world st1') s1) (contents (r_world st2') s2).
Proof.
  destruct (rot345_built 0 ltac:(lra)) as (u & B & D & _).
  destruct (opposite u B D) as (v & B2 & (D2 & _) & E2 & N). rewrite D in D2.
  set (g := const_rng 0 0). assert (G : rng_ok g) by (apply const_rng_ok; lra).
  set (c := one_compiler u (1 / 2) 1). assert (GC : good_compiler 0 1 c) by (apply one_good; auto; lra).
  set (d := one_compiler v (1 / 2) 1).
  assert (TC : turned_compiler 0 c d) by now apply one_turned, opposite_turned.
  assert (HR : reachable 0 (r_world start)) by now exists [].
  destruct (C28_lemma g start c u (Some 2%R) 1 1 G empty_exact GC (or_introl eq_refl) B D) as (st' & c' & s & costs & E).
  assert (X := compile_turned g (later g) 0 1 u (Some 2%R) 1 c d start (busy start) G (later_same g _) HR (busy_reachable 0 start HR) TC eq_refl).
  rewrite E in X. destruct (compile (later g) 0 u (Some 2%R) 1 (busy start, d)) as [[st2 d'] [[s2 costs2]|e]] eqn:F;
    unfold turned_compilation in X; cbn [fst snd] in X; [|contradiction].
  destruct X as (<- & _ & _ & HC).
  exists g, (later g), u, v, c, d, u, start, (busy start), st', st2, c', d', s, s2, costs.
  split; [exact G|]. split; [apply later_same|]. split; [exact HR|]. split; [now apply busy_reachable|]. auto 20.
Qed.

Lemma ex_C114_both_lemma : exists g1 g2 u v c d t t2 st1 st2 st1' st2' c' d' s1 s2 costs,
  rng_ok g1 /\ same_answers g1 (r_draws st1) g2 (r_draws st2) /\ reachable 0 (r_world st1) /\ reachable 0 (r_world st2) /\
  built 0 u /\ built 0 v /\ ~ meq 2 (u_mat v) (u_mat u) /\
  map p_source (c_prims c) = [Fixed u] /\ map p_source (c_prims d) = [Fixed v] /\
  phase_twins 0 t t2 /\ ~ meq 2 (u_mat t2) (u_mat t) /\ turned_compiler 0 c d /\ c_dim c = (2 ^ 1)%nat /\
  compile g1 0 t (Some 2%R) 1 (st1, c) = ((st1', c'), Ok (s1, costs)) /\
  compile g2 0 t2 (Some 2%R) 1 (st2, d) = ((st2', d'), Ok (s2, costs)) /\
  turned_gates 0 (contents (r_world st1') s1) (contents (r_world st2') s2).
Proof.
  destruct (rot345_built 0 ltac:(lra)) as (u & B & D & _).
  destruct (opposite u B D) as (v & B2 & TW & E2 & N). assert (D2 := proj1 TW). rewrite D in D2.
  set (g := const_rng 0 0). assert (G : rng_ok g) by (apply const_rng_ok; lra).
  set (c := one_compiler u (1 / 2) 1). assert (GC : good_compiler 0 1 c) by (apply one_good; auto; lra).
  set (d := one_compiler v (1 / 2) 1).
  assert (TC : turned_compiler 0 c d) by now apply one_turned, opposite_turned.
  assert (HR : reachable 0 (r_world start)) by now exists [].
  destruct (C28_lemma g start c u (Some 2%R) 1 1 G empty_exact GC (or_introl eq_refl) B D) as (st' & c' & s & costs & E).
  assert (X := all_turned g (later g) 0 1 u v (Some 2%R) 1 c d start (busy start) TW G (later_same g _) HR (busy_reachable 0 start HR) TC eq_refl).
  rewrite E in X. destruct (compile (later g) 0 v (Some 2%R) 1 (busy start, d)) as [[st2 d'] [[s2 costs2]|e]] eqn:F;
    unfold turned_compilation in X; cbn [fst snd] in X; [|contradiction].
  destruct X as (<- & _ & _ & HC).
  exists g, (later g), u, v, c, d, u, v, start, (busy start), st', st2, c', d', s, s2, costs.
  split; [exact G|]. split; [apply later_same|]. split; [exact HR|]. split; [now apply busy_reachable|]. auto 20.
Qed.

Lemma ex_C114_layered_lemma : exists g1 g2 u v c d x y t st1 st2 st1' st2' c' d' s1 s2 costs,
  rng_ok g1 /\ same_answers g1 (r_draws st1) g2 (r_draws st2) /\ reachable 0 (r_world st1) /\ reachable 0 (r_world st2) /\
  built 0 u /\ built 0 v /\ ~ meq 2 (u_mat v) (u_mat u) /\
  map (fun p => p_source (fst p)) x = [Fixed u; Fixed u] /\ map (fun p => p_source (fst p)) y = [Fixed v; Fixed v] /\
  turned_compiler 0 c d /\ c_dim c = (2 ^ 1)%nat /\ turned_table 0 x y /\
  compile_layered g1 0 t x (Some 2%R) 1 (st1, c) = ((st1', c'), Ok (s1, costs)) /\
  compile_layered g2 0 t y (Some 2%R) 1 (st2, d) = ((st2', d'), Ok (s2, costs)) /\
  List.length (contents (r_world st1') s1) = 3%nat /\
  turned_gates 0 (contents (r_world st1') s1) (contents (r_world st2') s2).
Proof.
  destruct (rot345_built 0 ltac:(lra)) as (u & B & D & _).
  destruct (opposite u B D) as (v & B2 & (D2 & _) & E2 & N). rewrite D in D2.
  set (g := const_rng 0 0). assert (G : rng_ok g) by (apply const_rng_ok; lra).
  set (c := one_compiler u (1 / 2) 1). set (d := one_compiler v (1 / 2) 1).
  set (x := [(rot_primitive u, 2%Z); (rot_primitive u, 1%Z)]). set (y := [(rot_primitive v, 2%Z); (rot_primitive v, 1%Z)]).
  assert (TU : turned 0 u v) by now apply opposite_turned.
  assert (TC : turned_compiler 0 c d) by now apply one_turned.
  assert (TX : turned_table 0 x y) by (repeat apply List.Forall2_cons; try apply List.Forall2_nil; (split; [now apply rot_turned|reflexivity])).
  assert (GT : good_table 0 1 x).
  { repeat constructor; try (now apply rot_good); try discriminate; (exists 1%nat; simpl; auto). }
  assert (HR : reachable 0 (r_world start)) by now exists [].
  destruct (C33_general_lemma g start c u x 1 G (fun _ => eq_refl) empty_exact eq_refl ltac:(simpl; lra) GT B D)
    as (st' & c' & s & costs & E & L).
  assert (X := layered_turned g (later g) 0 1 u x y (Some 2%R) 1 c d start (busy start) G (later_same g _) HR (busy_reachable 0 start HR) TC eq_refl TX).
  rewrite E in X. destruct (compile_layered (later g) 0 u y (Some 2%R) 1 (busy start, d)) as [[st2 d'] [[s2 costs2]|e]] eqn:F;
    unfold turned_compilation in X; cbn [fst snd] in X; [|contradiction].
  destruct X as (<- & _ & _ & HC).
  exists g, (later g), u, v, c, d, x, y, u, start, (busy start), st', st2, c', d', s, s2, costs.
  split; [exact G|]. split; [apply later_same|]. split; [exact HR|]. split; [now apply busy_reachable|]. auto 20.
Qed.

(** The same gate at the threshold of the code, and the phase [i]. *)
Lemma ex_C114_gates_lemma : exists M u v, unitary_mx 2 M /\ ~ eps_clean eps_code 2 M /\ plain_phase eps_code Ci /\
  mk_unitary eps_code 2 (Some (square 2 M)) None [] false [] = Ok u /\
  mk_unitary eps_code 2 (Some (square 2 (mscale Ci M))) None [] false [] = Ok v /\
  constructed eps_code u /\ constructed eps_code v /\ phase_eq 2 (u_mat v) (u_mat u) /\ turned eps_code u v.
Proof.
  destruct ex_C15_unclean_lemma as (u & _ & E & U & N & _).
  assert (P : plain_phase eps_code Ci) by (left; right; right; now left).
  assert (X := arrays_turned eps_code 1 tiny_rotation Ci None [] false [] None [] false [] P).
  change (2 ^ 1)%nat with 2%nat in X. rewrite E in X. unfold same_res in X.
  destruct (mk_unitary eps_code 2 (Some (square 2 (mscale Ci tiny_rotation))) None [] false []) as [v|e] eqn:F; [|contradiction].
  exists tiny_rotation, u, v. split; [exact U|]. split; [exact N|]. split; [exact P|]. split; [exact E|]. split; [exact F|].
  split; [do 6 eexists; exact E|]. split; [do 6 eexists; exact F|]. split; [|exact X].
  destruct X as (_ & z & Z & EM). replace (u_dim u) with 2%nat in EM by (symmetry; exact (proj1 (mk_unitary_det _ _ _ _ _ _ _ _ E))).
  exists z. split; [now apply (PTurn.ph_mod eps_code)|exact EM].
Qed.
