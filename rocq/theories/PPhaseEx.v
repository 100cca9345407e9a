(** Concrete cases for C110. *)
From Coq Require Import Reals List Arith Lia Lra Bool String ZArith.
From Coquelicot Require Import Complex.
From Verif Require Import Base CMat CMatFacts Det DetFacts ModelUnitary ModelEntry ModelPrimitive ModelSequence ModelCompiler ModelRound
  Spec SpecModel SpecCompiler SpecAgree SpecRepro PUnitary PSeqEx PCompEx PLongRun PReproEx PPhase.
Import ListNotations.
Open Scope R_scope.

(** The target with the opposite sign. *)
Lemma opposite t1 : built 0 t1 -> u_dim t1 = 2%nat -> exists t2, built 0 t2 /\ phase_twins 0 t1 t2 /\
  meq 2 (u_mat t2) (mscale (- (1))%C (u_mat t1)) /\ ~ meq 2 (u_mat t2) (u_mat t1).
Proof.
  intros B D. destruct (built_wf _ _ B) as (_ & HS). rewrite D in HS. destruct HS as [HU HD].
  assert (M1 : Cmod (- (1))%C = 1) by now rewrite Cmod_opp, Cmod_1.
  assert (HU2 : unitary_mx 2 (mscale (- (1))%C (u_mat t1))).
  { unfold unitary_mx in *. rewrite (phase_square 2 _ (u_mat t1) _ M1 (fun i j _ _ => eq_refl)). exact HU. }
  assert (HD2 : det 2 (mscale (- (1))%C (u_mat t1)) = 1%C) by (rewrite det_mscale, HD; cbn [cpow]; ring).
  destruct (mk_same 0 2 _ None [] false [] ltac:(lia) (eps_clean_0 2 _) (unitary_near _ _ HU2) HD2) as (t2 & E & D2 & M2).
  exists t2. split.
  { exists 2%nat, (mscale (- (1))%C (u_mat t1)), None, [], false, []. split; [exact HU2|]. split; [apply eps_clean_0|exact E]. }
  split.
  { split; [congruence|]. rewrite D. split; [now exists (- (1))%C|]. left. split; apply eps_clean_0. }
  split; [exact M2|]. intros K.
  assert (Z : forall i j, (i < 2)%nat -> (j < 2)%nat -> u_mat t1 i j = 0%C).
  { intros i j Hi Hj. assert (X : mscale (- (1))%C (u_mat t1) i j = u_mat t1 i j) by (rewrite <- M2, K by auto; reflexivity).
    unfold mscale in X. destruct (u_mat t1 i j) as [x y]. injection X as X1 X2. cbn in X1, X2.
    apply injective_projections; cbn; lra. }
  specialize (HU 0%nat 0%nat ltac:(lia) ltac:(lia)). unfold mmul in HU. cbn [csum] in HU.
  rewrite !Z in HU by lia. unfold mid in HU. cbn [Nat.eqb] in HU. apply (f_equal fst) in HU. cbn in HU. lra.
Qed.

Lemma ex_C110_lemma : exists g1 g2 c t1 t2 st1 st2 st1' st2' c' s1 s2 costs,
  rng_ok g1 /\ same_answers g1 (r_draws st1) g2 (r_draws st2) /\ reachable 0 (r_world st1) /\ reachable 0 (r_world st2) /\
  built 0 t1 /\ built 0 t2 /\ phase_twins 0 t1 t2 /\ ~ meq 2 (u_mat t2) (u_mat t1) /\
  compile g1 0 t1 (Some 2%R) 1 (st1, c) = ((st1', c'), Ok (s1, costs)) /\
  compile g2 0 t2 (Some 2%R) 1 (st2, c) = ((st2', c'), Ok (s2, costs)) /\
  List.length costs = 1%nat /\ List.length (contents (r_world st1') s1) = 1%nat /\
  contents (r_world st2') s2 = contents (r_world st1') s1.
Proof.
  destruct ex_run_lemma as (g & c & target & st & st' & c' & s & costs & G & _ & R & _ & _ & B & D & E & L & L').
  destruct (opposite target B D) as (t2 & B2 & P & _ & N).
  assert (X := compile_phase g (later g) 0 target t2 (Some 2%R) 1 c st (busy st) P G (later_same g _) R (busy_reachable 0 st R)).
  rewrite E in X. destruct (compile (later g) 0 t2 (Some 2%R) 1 (busy st, c)) as [[st2 c2] [[s2 costs2]|e]] eqn:E2;
    unfold same_compilation in X; cbn [fst snd] in X; [|contradiction].
  destruct X as (<- & <- & _ & HC & _).
  exists g, (later g), c, target, t2, st, (busy st), st', st2, c', s, s2, costs.
  split; [exact G|]. split; [apply later_same|]. split; [exact R|]. split; [now apply busy_reachable|].
  split; [exact B|]. split; [exact B2|]. split; [exact P|]. split; [exact N|]. now rewrite <- HC.
Qed.

Lemma ex_C110_layered_lemma : exists g1 g2 c t1 t2 counts st1 st2 st1' st2' c' s1 s2 costs,
  rng_ok g1 /\ same_answers g1 (r_draws st1) g2 (r_draws st2) /\ reachable 0 (r_world st1) /\ reachable 0 (r_world st2) /\
  built 0 t1 /\ built 0 t2 /\ phase_twins 0 t1 t2 /\ ~ meq 2 (u_mat t2) (u_mat t1) /\
  compile_layered g1 0 t1 counts (Some 2%R) 1 (st1, c) = ((st1', c'), Ok (s1, costs)) /\
  compile_layered g2 0 t2 counts (Some 2%R) 1 (st2, c) = ((st2', c'), Ok (s2, costs)) /\
  contents (r_world st2') s2 = contents (r_world st1') s1.
Proof.
  destruct ex_layered_lemma as (g & c & target & counts & st & st' & c' & s & costs & G & _ & R & _ & _ & _ & _ & B & D & E & _ & _).
  destruct (opposite target B D) as (t2 & B2 & P & _ & N).
  assert (X := layered_phase g (later g) 0 target t2 counts (Some 2%R) 1 c st (busy st) P G (later_same g _) R (busy_reachable 0 st R)).
  rewrite E in X. destruct (compile_layered (later g) 0 t2 counts (Some 2%R) 1 (busy st, c)) as [[st2 c2] [[s2 costs2]|e]] eqn:E2;
    unfold same_compilation in X; cbn [fst snd] in X; [|contradiction].
  destruct X as (<- & <- & _ & HC & _).
  exists g, (later g), c, target, t2, counts, st, (busy st), st', st2, c', s, s2, costs.
  split; [exact G|]. split; [apply later_same|]. split; [exact R|]. split; [now apply busy_reachable|].
  split; [exact B|]. split; [exact B2|]. split; [exact P|]. split; [exact N|]. now rewrite <- HC.
Qed.

(** A target the clean-up changes, at the code's own threshold, and the phase [i]. *)
Lemma ex_C110_small_lemma : exists M t1, unitary_mx 2 M /\ ~ eps_clean eps_code 2 M /\ cpow Ci 4 = 1%C /\
  mk_unitary eps_code 2 (Some (square 2 M)) None [] false [] = Ok t1.
Proof.
  destruct ex_C15_unclean_lemma as (u & _ & E & U & N & _). exists tiny_rotation, u.
  split; [exact U|]. split; [exact N|]. split; [|exact E]. cbn [cpow]. apply injective_projections; cbn; ring.
Qed.
Lemma ex_C110_arrays_lemma : exists d M c t1, Cmod c = 1 /\ c <> 1%C /\
  mk_unitary 0 d (Some (square d M)) None [] false [] = Ok t1.
Proof.
  destruct (mk_unitary_exact 0 2 tiny_rotation None [] false [] ltac:(lia) tiny_unitary (eps_clean_0 2 _)) as (u & E & _).
  exists 2%nat, tiny_rotation, (- (1))%C, u. split; [now rewrite Cmod_opp, Cmod_1|]. split; [|exact E].
  intros K. apply (f_equal fst) in K. cbn in K. lra.
Qed.
