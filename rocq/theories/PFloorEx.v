(** A compilation with random rotations, as in the tests; cases. *)
From Coq Require Import Reals List Arith Lia Lra Bool ZArith String Permutation.
From Coquelicot Require Import Coquelicot.
From Verif Require Import Base CMat CMatFacts Det DetFacts Norms ModelUnitary ModelEntry ModelPrimitive ModelGates ModelHamiltonian
  ModelSequence ModelCompiler Spec SpecModel SpecCompiler SpecGates PUnitary PUnitaryProps PDrift PEmbed PEntry PSeqHeap PSeqMeth PSeqNear PSeqWorld
  PSeqUndo PSeqInv PSeqHist PSeqProps PSeqCases PCompView PCompRun PCompEntry PCompLoop PCompTrace PCompTotal PCompProps PCompMore
  PCompCases PCompEx PReach PVerify PFamilies PHamRun SpecChain PChain PChainStep PChainRun PChainHit PChainLay PAlmostComp PAlmostRun PAlmostEx
  SpecFloor PFloor PFloorMain PFloorLib.
Import ListNotations.
Open Scope R_scope.
Set Bullet Behavior "Strict Subproofs".

Definition turner (pu : punitary) : primitive := {| p_source := Family pu; p_allowed := None |}.
Lemma turner_dim pu : pd_rotation_xyz = Ok pu -> pu_dim pu = 2%nat.
Proof. unfold pd_rotation_xyz. rewrite !angle_ok by reflexivity. intros H. injection H as <-. reflexivity. Qed.
Lemma turner_good pu : pd_rotation_xyz = Ok pu -> good_primitive 0 1 (turner pu).
Proof.
  intros H. destruct (library_good_lemma 0 (proj1 (drift_0 2 1))) as (_ & (pu' & E & GS) & _). assert (pu' = pu) by congruence. subst pu'.
  split; [exact GS|]. cbn [turner p_allowed]. exists 1%nat. split; [lia|]. change (pu_dim pu = 2%nat). now apply turner_dim.
Qed.

(** Every matrix is the matrix of one of the gates. *)
Lemma turner_reach pu U : pd_rotation_xyz = Ok pu -> unitary_mx 2 U -> exists u,
  allows 0 2 (turner pu) (u, [0%nat]) /\ u_dim u = 2%nat /\ phase_eq 2 (u_mat u) U.
Proof.
  intros H HU. destruct (rotation_xyz_reach_lemma 0 U (proj1 (drift_0 1 1)) HU) as (pu' & a & b & c & s & E & Hs & ST). assert (pu' = pu) by congruence. subst pu'.
  destruct (stores_exact 1 1 _ _ ST) as (u & Eu & Du & Mu). exists u. split; [|split; [exact Du|]].
  - split; [|split; [|split; [|split; [|split]]]]; cbn [fst snd turner p_allowed List.length].
    + cbn [instance p_source]. exists [a; b; c]. split; [|exact Eu]. now apply (as_unitary_ok_inv 0 pu [a; b; c] u).
    + discriminate.
    + constructor; [intros []|constructor].
    + discriminate.
    + now rewrite Du.
    + intros q [<-|[]]. cbn. lia.
  - exists s. split; [exact Hs|exact Mu].
Qed.
Lemma single_ordered u : meq 2 (ordered 1 [(u, [0%nat])]) (u_mat u).
Proof. unfold ordered. cbn [fold_left fst snd]. change (2 ^ 1)%nat with 2%nat. now rewrite mmul_1_r, embed_one. Qed.
Lemma phase_cost target gts : unitary_mx 2 (u_mat target) -> phase_eq 2 (ordered 1 gts) (u_mat target) -> cost_of 1 target gts = 0.
Proof.
  intros U (z & Hz & E). unfold cost_of. change (2 ^ 1)%nat with 2%nat. rewrite (overlap_proper 2 _ _ (meq_refl _ _) _ _ E).
  rewrite overlap_phase_r by auto. assert (X := proj2 (overlap_1_iff 2 (u_mat target) (u_mat target) ltac:(lia) U U)). rewrite X; [ring|]. apply phase_refl. reflexivity.
Qed.
Lemma some_tolerance thr : match thr with Some t => t < 1 | None => True end -> 0 < tolerance thr.
Proof. destruct thr; cbn [tolerance]; intros; [lra|]. apply Rinv_0_lt_compat, pow_lt. lra. Qed.

Definition turn_compiler (pu : punitary) (ap rate : R) : compiler :=
  {| c_dim := 2; c_array := false; c_prims := [turner pu]; c_probs := None; c_max_beta := ((2 ^ 2) ^ 2)%R; c_beta := 0; c_rate := rate; c_append := ap |}.
Lemma turn_good pu ap rate : pd_rotation_xyz = Ok pu -> 0 <= ap <= 1 -> good_compiler 0 1 (turn_compiler pu ap rate).
Proof.
  intros H Ha. split; [reflexivity|]. split; [exact Ha|]. cbn [c_prims c_probs turn_compiler]. split.
  - intros p [<-|[]]. now apply turner_good.
  - exists (turner pu). split; [now left|]. discriminate.
Qed.
Lemma turn_offer pu ap rate gt : allows 0 2 (turner pu) gt -> on_offer 1 (turn_compiler pu ap rate) gt.
Proof. intros H. exists (turner pu). split; [|exact H]. exists 0%nat. split; [reflexivity|]. intros q Hq. discriminate. Qed.

Lemma C98_one_qubit_lemma : forall pu p c ap rate target thr delta,
  pd_rotation_xyz = Ok pu -> mk_primitive (Family pu) None = Ok p -> mk_compiler 2 false [p] None ap rate = Ok c ->
  0 < ap <= 1 -> 0 <= rate -> built 0 target -> u_dim target = 2%nat ->
  match thr with Some t => t < 1 | None => True end -> 0 < delta ->
  exists N, forall st b max, exact_world (r_world st) -> 0 <= b -> (N <= max)%Z ->
    chance_at_least (r_draws st) (fun g => exists gs costs, compiled st (set_beta c b) target thr max g = Some (gs, costs) /\
        cost_of 1 target gs <= tolerance thr) (1 - delta).
Proof.
  intros pu p c ap rate target thr delta H EP EC Ha Hr HT HD Ht Hdl.
  cbn [mk_primitive] in EP. injection EP as <-. fold (turner pu) in EC.
  assert (C : c = turn_compiler pu ap rate).
  { unfold mk_compiler in EC. cbn [forallb p_source turner src_dim] in EC. rewrite (turner_dim pu H) in EC. cbn in EC. injection EC as <-. reflexivity. }
  subst c. assert (UT : unitary_mx 2 (u_mat target)). { rewrite <- HD. apply (built_wf 0). exact HT. }
  destruct (turner_reach pu _ H UT) as (u & A & Du & Pu).
  apply (C98_limit_lemma 1 _ target thr [(u, [0%nat])] delta); auto.
  - apply turn_good; auto. lra.
  - intros q [<-|[]]. exact (xyz_continuous pu H).
  - cbn. lra.
  - cbn [c_max_beta turn_compiler]. apply pow_le, pow_le. lra.
  - destruct thr; lra || auto.
  - intros g [<-|[]]. now apply turn_offer.
  - rewrite phase_cost; [now apply some_tolerance|exact UT|]. destruct Pu as (z & Hz & E). exists z. split; [exact Hz|]. now rewrite single_ordered.
Qed.

Lemma xyz_is : exists pu, pd_rotation_xyz = Ok pu.
Proof. unfold pd_rotation_xyz. rewrite !angle_ok by reflexivity. eexists. reflexivity. Qed.

Lemma ex_C98_one_qubit_lemma : exists pu p c target,
  pd_rotation_xyz = Ok pu /\ mk_primitive (Family pu) None = Ok p /\ mk_compiler 2 false [p] None (1 / 2) (1 / 10) = Ok c /\
  built 0 target /\ u_dim target = 2%nat /\ tolerance None < cost_of 1 target [].
Proof.
  destruct xyz_is as (pu & H). destruct (rot345_built 0 ltac:(lra)) as (t & B & D & Mt & _). assert (T := tol8).
  exists pu, (turner pu), (turn_compiler pu (1 / 2) (1 / 10)), t. split; [exact H|]. split; [reflexivity|]. split.
  { unfold mk_compiler. cbn [forallb p_source turner src_dim]. rewrite (turner_dim pu H). reflexivity. }
  split; [exact B|]. split; [exact D|]. unfold cost_of. change (2 ^ 1)%nat with 2%nat. change (ordered 1 []) with mid. rewrite overlap_345 by auto. lra.
Qed.

Lemma ex_C98_found_lemma : exists c target gts,
  good_compiler 0 1 c /\ c_array c = false /\ (forall p, In p (c_prims c) -> continuous_source (p_source p)) /\
  (exists p pu, In p (c_prims c) /\ p_source p = Family pu) /\ 0 < c_append c /\
  built 0 target /\ u_dim target = (2 ^ 1)%nat /\ 0 <= c_rate c /\ 0 <= c_max_beta c /\
  (forall g, In g gts -> on_offer 1 c g) /\ cost_of 1 target gts < tolerance None /\ tolerance None < cost_of 1 target [].
Proof.
  destruct xyz_is as (pu & H). destruct (rot345_built 0 ltac:(lra)) as (t & B & D & Mt & _). assert (T := tol8).
  assert (UT : unitary_mx 2 (u_mat t)). { rewrite <- D. apply (built_wf 0). exact B. }
  destruct (turner_reach pu _ H UT) as (u & A & Du & Pu). exists (turn_compiler pu (1 / 2) (1 / 10)), t, [(u, [0%nat])].
  split; [apply turn_good; auto; lra|]. split; [reflexivity|]. split; [intros q [<-|[]]; exact (xyz_continuous pu H)|].
  split; [exists (turner pu), pu; split; [now left|reflexivity]|]. split; [cbn; lra|]. split; [exact B|]. split; [exact D|]. split; [cbn; lra|].
  split; [cbn [c_max_beta turn_compiler]; apply pow_le, pow_le; lra|]. split; [intros g [<-|[]]; now apply turn_offer|]. split.
  - rewrite phase_cost; [lra|exact UT|]. destruct Pu as (z & Hz & E). exists z. split; [exact Hz|]. now rewrite single_ordered.
  - unfold cost_of. change (2 ^ 1)%nat with 2%nat. change (ordered 1 []) with mid. rewrite overlap_345 by auto. lra.
Qed.

(** A layer of two rotations. *)
Lemma ex_C98_layered_lemma : exists c target counts layers,
  c_dim c = (2 ^ 1)%nat /\ 0 < c_append c <= 1 /\ good_table 0 1 counts /\
  (forall pc, In pc counts -> (0 <= snd pc)%Z /\ continuous_source (p_source (fst pc))) /\
  built 0 target /\ u_dim target = (2 ^ 1)%nat /\ 0 <= c_rate c /\ 0 <= c_max_beta c /\
  (forall l, In l layers -> layer_of 0 (2 ^ 1) counts l /\ List.length l = 2%nat) /\
  cost_of 1 target (List.concat layers) < tolerance None /\ tolerance None < cost_of 1 target [].
Proof.
  destruct xyz_is as (pu & H). destruct (rot345_built 0 ltac:(lra)) as (t & B & D & Mt & _). assert (T := tol8).
  assert (UT : unitary_mx 2 (u_mat t)). { rewrite <- D. apply (built_wf 0). exact B. }
  destruct (turner_reach pu _ H UT) as (u & A & Du & Pu). destruct (turner_reach pu mid H (unitary_mid 2)) as (v & A' & Dv & Pv).
  exists (turn_compiler pu (1 / 2) (1 / 10)), t, [(turner pu, 2%Z)], [[(u, [0%nat]); (v, [0%nat])]].
  split; [reflexivity|]. split; [cbn; lra|]. split; [constructor; [split; [apply turner_good, H|discriminate]|constructor]|].
  split; [intros pc [<-|[]]; cbn [fst snd]; split; [lia|exact (xyz_continuous pu H)]|]. split; [exact B|]. split; [exact D|]. split; [cbn; lra|].
  split; [cbn [c_max_beta turn_compiler]; apply pow_le, pow_le; lra|]. split; [|split].
  - intros l [<-|[]]. split; [|reflexivity]. exists [[(u, [0%nat]); (v, [0%nat])]]. split; [apply Permutation_refl|]. constructor; [|constructor].
    cbn [fst snd]. split; [reflexivity|]. constructor; [exact A|constructor; [exact A'|constructor]].
  - cbn [List.concat app]. rewrite phase_cost; [lra|exact UT|]. destruct Pu as (z & Hz & E). destruct Pv as (y & Hy & F). exists (y * z)%C. split; [rewrite Cmod_mult, Hy, Hz; ring|].
    unfold ordered. cbn [fold_left fst snd]. change (2 ^ 1)%nat with 2%nat. rewrite mmul_1_r, !embed_one, E, F, mmul_mscale_l, mmul_mscale_r, mmul_1_l, mscale_mscale. reflexivity.
  - unfold cost_of. change (2 ^ 1)%nat with 2%nat. change (ordered 1 []) with mid. rewrite overlap_345 by auto. lra.
Qed.

(** The inverse of one gate and of a layer. *)
Lemma adj_reach pu t : pd_rotation_xyz = Ok pu -> unitary_mx 2 (u_mat t) -> exists u v,
  allows 0 2 (turner pu) (u, [0%nat]) /\ allows 0 2 (turner pu) (v, [0%nat]) /\
  overlap 2 (u_mat t) (adj (ordered 1 [(u, [0%nat])])) = 1 /\ overlap 2 (u_mat t) (adj (ordered 1 [(u, [0%nat]); (v, [0%nat])])) = 1.
Proof.
  intros H UT. assert (UA : unitary_mx 2 (adj (u_mat t))) by now apply unitary_adj.
  destruct (turner_reach pu _ H UA) as (u & A & Du & (z & Hz & E)). destruct (turner_reach pu mid H (unitary_mid 2)) as (v & A' & Dv & (y & Hy & F)).
  exists u, v. split; [exact A|]. split; [exact A'|].
  assert (X : forall c M, Cmod c = 1 -> meq 2 M (mscale c (adj (u_mat t))) -> overlap 2 (u_mat t) (adj M) = 1).
  { intros c M Hc K. assert (L : meq 2 (adj M) (mscale (Cconj c) (u_mat t))) by (rewrite K, adj_mscale, adj_adj; reflexivity).
    rewrite (overlap_proper 2 _ _ (meq_refl _ _) _ _ L), overlap_phase_r by now rewrite Cmod_conj.
    apply (proj2 (overlap_1_iff 2 (u_mat t) (u_mat t) ltac:(lia) UT UT)). apply phase_refl. reflexivity. }
  split.
  - apply (X z); auto. now rewrite single_ordered.
  - apply (X (y * z)%C); [rewrite Cmod_mult, Hy, Hz; ring|]. unfold ordered. cbn [fold_left fst snd]. change (2 ^ 1)%nat with 2%nat.
    rewrite mmul_1_r, !embed_one, E, F, mmul_mscale_l, mmul_mscale_r, mmul_1_l, mscale_mscale. reflexivity.
Qed.
Lemma ex_C98_inverse_lemma : exists c target counts gts layers,
  good_compiler 0 1 c /\ c_array c = false /\ (forall p, In p (c_prims c) -> continuous_source (p_source p)) /\
  0 < c_append c <= 1 /\ good_table 0 1 counts /\ (forall pc, In pc counts -> (0 <= snd pc)%Z /\ continuous_source (p_source (fst pc))) /\
  built 0 target /\ u_dim target = (2 ^ 1)%nat /\ 0 <= c_rate c /\ 0 <= c_max_beta c /\
  (forall g, In g gts -> on_offer 1 c g) /\ overlap (2 ^ 1) (u_mat target) (adj (ordered 1 gts)) = 1 /\
  (forall l, In l layers -> layer_of 0 (2 ^ 1) counts l /\ List.length l = 2%nat) /\
  overlap (2 ^ 1) (u_mat target) (adj (ordered 1 (List.concat layers))) = 1 /\ tolerance None < cost_of 1 target [].
Proof.
  destruct xyz_is as (pu & H). destruct (rot345_built 0 ltac:(lra)) as (t & B & D & Mt & _). assert (T := tol8).
  assert (UT : unitary_mx 2 (u_mat t)). { rewrite <- D. apply (built_wf 0). exact B. }
  destruct (adj_reach pu t H UT) as (u & v & A & A' & O1 & O2).
  exists (turn_compiler pu (1 / 2) (1 / 10)), t, [(turner pu, 2%Z)], [(u, [0%nat])], [[(u, [0%nat]); (v, [0%nat])]].
  split; [apply turn_good; auto; lra|]. split; [reflexivity|]. split; [intros q [<-|[]]; exact (xyz_continuous pu H)|].
  split; [cbn; lra|]. split; [constructor; [split; [apply turner_good, H|discriminate]|constructor]|].
  split; [intros pc [<-|[]]; cbn [fst snd]; split; [lia|exact (xyz_continuous pu H)]|]. split; [exact B|]. split; [exact D|]. split; [cbn; lra|].
  split; [cbn [c_max_beta turn_compiler]; apply pow_le, pow_le; lra|]. split; [intros g [<-|[]]; now apply turn_offer|]. split; [exact O1|]. split; [|split].
  - intros l [<-|[]]. split; [|reflexivity]. exists [[(u, [0%nat]); (v, [0%nat])]]. split; [apply Permutation_refl|]. constructor; [|constructor].
    cbn [fst snd]. split; [reflexivity|]. constructor; [exact A|constructor; [exact A'|constructor]].
  - exact O2.
  - unfold cost_of. change (2 ^ 1)%nat with 2%nat. change (ordered 1 []) with mid. rewrite overlap_345 by auto. lra.
Qed.
Lemma ex_C98_library_lemma : (exists pu, pd_rotation_xy 0 = Ok pu) /\ (exists pu, pd_rotation_xyz = Ok pu) /\ (exists pu, pd_xx 0 = Ok pu) /\
  (exists pu, pd_gms 0 3 = Ok pu) /\ hermitian_mx 2 pauli_x /\ exists pu, pd_time_evolution 0 2 pauli_x (-1) 1 "X"%string = Ok pu.
Proof.
  destruct (library_good_lemma 0 (proj1 (drift_0 2 1))) as ((p1 & E1 & _) & (p2 & E2 & _) & (p3 & E3 & _)).
  destruct (library_gms_lemma 3) as (p4 & E4 & _). assert (HX : hermitian_mx 2 pauli_x).
  { intros i j Hi Hj. destruct i as [|[|i]], j as [|[|j]]; try lia; apply C_eq; simpl; ring. }
  split; [eauto|]. split; [eauto|]. split; [eauto|]. split; [eauto|]. split; [exact HX|]. eexists. apply pd_te_ok; [lia|exact HX|lra].
Qed.
