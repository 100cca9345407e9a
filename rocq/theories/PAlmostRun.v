(** The chance that compile() succeeds. *)
From Coq Require Import Reals List Arith Lia Lra Bool ZArith Permutation ClassicalEpsilon.
From Coquelicot Require Import Coquelicot.
From Verif Require Import Base CMat CMatFacts Det DetFacts Norms ModelUnitary ModelEntry ModelPrimitive
  ModelSequence ModelCompiler Spec SpecModel SpecCompiler PUnitary PUnitaryProps PEmbed PEntry PSeqHeap PSeqMeth PSeqNear PSeqWorld
  PSeqUndo PSeqInv PSeqHist PSeqProps PSeqCases PCompView PCompRun PCompEntry PCompLoop PCompTrace PCompTotal PCompProps PCompMore
  PCompCases PCompEx PReach PVerify SpecChain PChain PChainStep PChainRun PChainBal PChainHit PChainLay PRecur PAlmost PAlmostComp.
Import ListNotations.
Open Scope R_scope.
Set Bullet Behavior "Strict Subproofs".

Lemma hit_is n target thr r (out : rng -> option (list gatety * list R)) v :
  average r (fun g => match out g with Some (gs, costs) => ind (cost_of n target gs <= tolerance thr) | None => 0 end) [] v ->
  chance r (fun g => exists gs costs, out g = Some (gs, costs) /\ (cost_of n target gs <= tolerance thr)%R) v.
Proof.
  intros HA. unfold chance. eapply average_ext; [|exact HA]. intros g. cbv beta. destruct (out g) as [[gs costs]|].
  - apply ind_iff. split; [intros (gs' & costs' & H & Hle); congruence|eauto].
  - apply ind_false. intros (gs & costs & H & _). discriminate.
Qed.

Lemma target_unitary n target : built 0 target -> u_dim target = (2 ^ n)%nat -> unitary_mx (2 ^ n) (u_mat target).
Proof. intros B D. rewrite <- D. eapply built_wf in B. apply B. Qed.

Lemma far (rho delta : R) (m : nat) : (0 < m)%nat -> 0 < rho <= 1 -> 0 < delta ->
  exists N, forall k, (N <= k)%nat -> (1 - rho) ^ (k / m) <= delta.
Proof.
  intros Hm Hr Hd. destruct (pow_lt_1_zero (1 - rho) ltac:(rewrite Rabs_pos_eq; lra) delta Hd) as (N & HN).
  exists (N * m)%nat. intros k Hk. assert (K : (k / m >= N)%nat) by (apply Nat.div_le_lower_bound; lia).
  specialize (HN _ K). rewrite Rabs_pos_eq in HN; [lra|]. apply pow_le. lra.
Qed.

Lemma run_mean_beta P n c b0 target thr F : (forall gs V W, (forall x, V x = W x) -> P gs V = P gs W) ->
  forall k b gs costs, run_mean P n (set_beta c b0) target thr F k b gs costs = run_mean P n c target thr F k b gs costs.
Proof.
  intros HP. induction k as [|k IH]; intros b gs costs; cbn [run_mean]; destruct (Rle_dec _ _); auto. cbv zeta.
  apply HP. intros x. unfold accept_mean. cbv zeta. rewrite !IH. reflexivity.
Qed.

Lemma single_mean_ext n c gs V W : (forall x, V x = W x) -> single_mean n c gs V = single_mean n c gs W.
Proof.
  intros H. unfold single_mean. rewrite !H.
  rewrite (offer_mean_ext n _ _ (fun g => V (g :: gs)) (fun g => W (g :: gs))), (offer_mean_ext n _ _ (fun g => V (gs ++ [g])) (fun g => W (gs ++ [g]))); auto.
Qed.
Lemma layer_mean_ext n counts V W : (forall x, V x = W x) -> layer_mean n counts V = layer_mean n counts W.
Proof. intros H. apply Rle_antisym; apply layer_mean_le; intros; rewrite H; lra. Qed.
Lemma layered_mean_ext n c counts gs V W : (forall x, V x = W x) -> layered_mean n c counts gs V = layered_mean n c counts gs W.
Proof.
  intros H. unfold layered_mean. cbv zeta. rewrite !H.
  rewrite (layer_mean_ext n counts (fun l => V (rev l ++ gs)) (fun l => W (rev l ++ gs))), (layer_mean_ext n counts (fun l => V (gs ++ l)) (fun l => W (gs ++ l))); auto.
Qed.

Lemma C96_found_lemma : forall n c target thr gts,
  good_compiler 0 n c -> c_array c = false \/ List.length (c_prims c) = 1%nat -> fixed_gates c -> 0 < c_append c ->
  built 0 target -> u_dim target = (2 ^ n)%nat -> 0 <= c_rate c -> 0 <= c_max_beta c ->
  match thr with Some t => t <= 1 | None => True end ->
  (forall g, In g gts -> 0 < gate_chance n c g) -> cost_of n target gts < tolerance thr ->
  exists m rho, (0 < m)%nat /\ 0 < rho <= 1 /\
    forall st b max, exact_world (r_world st) -> 0 <= b ->
    exists p, chance (r_draws st) (fun g => exists gs costs, compiled st (set_beta c b) target thr max g = Some (gs, costs) /\
        cost_of n target gs <= tolerance thr) p /\
      1 - (1 - rho) ^ (Z.to_nat max / m) <= p <= 1.
Proof.
  intros n c target thr gts HC HA HF Hap HT HD Hr Hm Ht HG Hc.
  assert (CH := good_choosable 0 n c HC). assert (Ha := proj1 (proj2 HC)).
  destruct (found n c target thr (single_mean n c) (gate_weight n c) (offered n c) (single_block n c)) with (gts := gts) as (m & rho & H1 & H2 & H3); auto.
  - intros gs H. now apply single_fin.
  - intros gs _. now apply single_one.
  - intros gs x F. now apply gate_weight_le.
  - intros x. now apply gate_weight_range.
  - intros x (g & -> & Hg). cbn [gate_weight]. apply Rmult_lt_0_compat; auto. lra.
  - intros g [].
  - intros. now apply offered_app.
  - intros x (g & -> & Hg) g' [<-|[]]. auto.
  - apply offered_split.
  - intros. now apply (offered_unitary n c).
  - now apply target_unitary.
  - exists m, rho. split; auto. split; auto. intros st b max HX Hb.
    assert (X := C69_mean_lemma n st (set_beta c b) target thr max (fun gs _ => ind (cost_of n target gs <= tolerance thr)) HX HC HA HF HT HD).
    apply hit_is in X. change (c_beta (set_beta c b)) with b in X. change (single_mean n (set_beta c b)) with (single_mean n c) in X.
    rewrite run_mean_beta in X by (intros gs V W HVW; now apply single_mean_ext).
    eexists. split; [exact X|]. split.
    + apply (H3 (Z.to_nat max / m)%nat (Z.to_nat max) b [] []); auto; [|intros g []]. rewrite Nat.mul_comm. apply Nat.mul_div_le. lia.
    + apply (C68_unique_lemma _ _ _ _ X X).
Qed.

Lemma C96_hopeless_lemma : forall n st c target thr max,
  exact_world (r_world st) ->
  good_compiler 0 n c -> c_array c = false \/ List.length (c_prims c) = 1%nat -> fixed_gates c ->
  built 0 target -> u_dim target = (2 ^ n)%nat ->
  (forall gts, (forall g, In g gts -> 0 < gate_chance n c g) -> tolerance thr < cost_of n target gts) ->
  chance (r_draws st) (fun g => exists gs costs, compiled st c target thr max g = Some (gs, costs) /\
        cost_of n target gs <= tolerance thr) 0.
Proof.
  intros n st c target thr max HX HC HA HF HT HD HN.
  assert (X := C69_mean_lemma n st c target thr max (fun gs _ => ind (cost_of n target gs <= tolerance thr)) HX HC HA HF HT HD).
  apply hit_is in X. rewrite (hopeless n c target thr (single_mean n c) (offered n c)) in X; auto.
  - intros gs H. now apply single_fin.
  - intros gs _. now apply single_one.
  - intros gs H. specialize (HN gs H). lra.
  - intros g [].
Qed.

Lemma C96_found_layered_lemma : forall n c target counts thr layers,
  c_dim c = (2 ^ n)%nat -> 0 < c_append c <= 1 -> good_table 0 n counts -> fixed_table counts ->
  (forall pc, In pc counts -> (0 <= snd pc)%Z) ->
  built 0 target -> u_dim target = (2 ^ n)%nat -> 0 <= c_rate c -> 0 <= c_max_beta c ->
  match thr with Some t => t <= 1 | None => True end ->
  (forall l, In l layers -> 0 < layer_chance n counts l) -> cost_of n target (List.concat layers) < tolerance thr ->
  exists m rho, (0 < m)%nat /\ 0 < rho <= 1 /\
    forall st b max, exact_world (r_world st) -> 0 <= b ->
    exists p, chance (r_draws st) (fun g => exists gs costs, compiled_layered st (set_beta c b) target counts thr max g = Some (gs, costs) /\
        cost_of n target gs <= tolerance thr) p /\
      1 - (1 - rho) ^ (Z.to_nat max / m) <= p <= 1.
Proof.
  intros n c target counts thr layers Hd Hap HC HF HN HT HD Hr Hm Ht HG Hc.
  assert (Ha : 0 <= c_append c <= 1) by lra.
  destruct (found n c target thr (layered_mean n c counts) (fun x => c_append c / 2 * layer_chance n counts x) (layered n counts) (layer_block n counts))
    with (gts := List.concat layers) as (m & rho & H1 & H2 & H3); auto.
  - intros gs H. now apply layered_fin.
  - intros gs _. now apply layered_one.
  - intros gs x F. now apply layer_weight_le.
  - intros x. now apply layer_weight_range.
  - intros x Hx. apply Rmult_lt_0_compat; [lra|exact Hx].
  - exists []. split; [intros ? []|reflexivity].
  - intros. now apply layered_app.
  - intros. now apply layered_block.
  - intros gs H. eapply layered_unitary; eauto.
  - now apply target_unitary.
  - exists layers. auto.
  - exists m, rho. split; auto. split; auto. intros st b max HX Hb.
    assert (X := C69_layered_lemma n st (set_beta c b) target counts thr max (fun gs _ => ind (cost_of n target gs <= tolerance thr)) HX Hd Ha HC HF HT HD).
    apply hit_is in X. change (c_beta (set_beta c b)) with b in X. change (layered_mean n (set_beta c b) counts) with (layered_mean n c counts) in X.
    rewrite run_mean_beta in X by (intros gs V W HVW; now apply layered_mean_ext).
    eexists. split; [exact X|]. split.
    + apply (H3 (Z.to_nat max / m)%nat (Z.to_nat max) b [] []); auto; [|exists []; split; [intros ? []|reflexivity]].
      rewrite Nat.mul_comm. apply Nat.mul_div_le. lia.
    + apply (C68_unique_lemma _ _ _ _ X X).
Qed.

Lemma C96_hopeless_layered_lemma : forall n st c target counts thr max,
  exact_world (r_world st) ->
  c_dim c = (2 ^ n)%nat -> 0 <= c_append c <= 1 -> good_table 0 n counts -> fixed_table counts ->
  (forall pc, In pc counts -> (0 <= snd pc)%Z) ->
  built 0 target -> u_dim target = (2 ^ n)%nat ->
  (forall layers, (forall l, In l layers -> 0 < layer_chance n counts l) -> tolerance thr < cost_of n target (List.concat layers)) ->
  chance (r_draws st) (fun g => exists gs costs, compiled_layered st c target counts thr max g = Some (gs, costs) /\
        cost_of n target gs <= tolerance thr) 0.
Proof.
  intros n st c target counts thr max HX Hd Ha HC HF HP HT HD HN.
  assert (X := C69_layered_lemma n st c target counts thr max (fun gs _ => ind (cost_of n target gs <= tolerance thr)) HX Hd Ha HC HF HT HD).
  apply hit_is in X. rewrite (hopeless n c target thr (layered_mean n c counts) (layered n counts)) in X; auto.
  - intros gs H. now apply layered_fin.
  - intros gs _. now apply layered_one.
  - intros gs (xs & X1 & ->). specialize (HN xs X1). lra.
  - exists []. split; [intros ? []|reflexivity].
Qed.

Lemma C96_limit_lemma : forall n c target thr gts delta,
  good_compiler 0 n c -> c_array c = false \/ List.length (c_prims c) = 1%nat -> fixed_gates c -> 0 < c_append c ->
  built 0 target -> u_dim target = (2 ^ n)%nat -> 0 <= c_rate c -> 0 <= c_max_beta c ->
  match thr with Some t => t <= 1 | None => True end ->
  (forall g, In g gts -> 0 < gate_chance n c g) -> cost_of n target gts < tolerance thr -> 0 < delta ->
  exists N, forall st b max, exact_world (r_world st) -> 0 <= b -> (N <= max)%Z ->
    exists p, chance (r_draws st) (fun g => exists gs costs, compiled st (set_beta c b) target thr max g = Some (gs, costs) /\
        cost_of n target gs <= tolerance thr) p /\
      1 - delta <= p <= 1.
Proof.
  intros n c target thr gts delta HC HA HF Hap HT HD Hr Hm Ht HG Hc Hdl.
  destruct (C96_found_lemma n c target thr gts HC HA HF Hap HT HD Hr Hm Ht HG Hc) as (m & rho & H1 & H2 & H3).
  destruct (far rho delta m H1 H2 Hdl) as (N & HN). exists (Z.of_nat N). intros st b max HX Hb Hmx.
  destruct (H3 st b max HX Hb) as (p & P1 & P2). exists p. split; auto. specialize (HN (Z.to_nat max) ltac:(lia)). lra.
Qed.
Lemma C96_limit_layered_lemma : forall n c target counts thr layers delta,
  c_dim c = (2 ^ n)%nat -> 0 < c_append c <= 1 -> good_table 0 n counts -> fixed_table counts ->
  (forall pc, In pc counts -> (0 <= snd pc)%Z) ->
  built 0 target -> u_dim target = (2 ^ n)%nat -> 0 <= c_rate c -> 0 <= c_max_beta c ->
  match thr with Some t => t <= 1 | None => True end ->
  (forall l, In l layers -> 0 < layer_chance n counts l) -> cost_of n target (List.concat layers) < tolerance thr -> 0 < delta ->
  exists N, forall st b max, exact_world (r_world st) -> 0 <= b -> (N <= max)%Z ->
    exists p, chance (r_draws st) (fun g => exists gs costs, compiled_layered st (set_beta c b) target counts thr max g = Some (gs, costs) /\
        cost_of n target gs <= tolerance thr) p /\
      1 - delta <= p <= 1.
Proof.
  intros n c target counts thr layers delta Hd Hap HC HF HP HT HD Hr Hm Ht HG Hc Hdl.
  destruct (C96_found_layered_lemma n c target counts thr layers Hd Hap HC HF HP HT HD Hr Hm Ht HG Hc) as (m & rho & H1 & H2 & H3).
  destruct (far rho delta m H1 H2 Hdl) as (N & HN). exists (Z.of_nat N). intros st b max HX Hb Hmx.
  destruct (H3 st b max HX Hb) as (p & P1 & P2). exists p. split; auto. specialize (HN (Z.to_nat max) ltac:(lia)). lra.
Qed.

(** The inverse of what the gates express. *)
Lemma C96_inverse_lemma : forall n c target thr gts delta,
  good_compiler 0 n c -> c_array c = false \/ List.length (c_prims c) = 1%nat -> fixed_gates c -> 0 < c_append c ->
  built 0 target -> u_dim target = (2 ^ n)%nat -> 0 <= c_rate c -> 0 <= c_max_beta c ->
  match thr with Some t => t < 1 | None => True end ->
  (forall g, In g gts -> 0 < gate_chance n c g) -> overlap (2 ^ n) (u_mat target) (adj (ordered n gts)) = 1 -> 0 < delta ->
  exists N, forall st b max, exact_world (r_world st) -> 0 <= b -> (N <= max)%Z ->
    exists p, chance (r_draws st) (fun g => exists gs costs, compiled st (set_beta c b) target thr max g = Some (gs, costs) /\
        cost_of n target gs <= tolerance thr) p /\
      1 - delta <= p <= 1.
Proof.
  intros n c target thr gts delta HC HA HF Hap HT HD Hr Hm Ht HG HO Hdl.
  assert (TP : 0 < tolerance thr). { destruct thr; cbn [tolerance]; [lra|]. apply Rinv_0_lt_compat, pow_lt. lra. }
  destruct (inverse_word n (offered n c)) with (target := target) (gts := gts) (tol := tolerance thr) as (w & W1 & W2); auto.
  - intros g [].
  - intros. now apply offered_app.
  - intros. now apply (offered_unitary n c).
  - now apply target_unitary.
  - apply (C96_limit_lemma n c target thr w delta); auto. destruct thr; auto. lra.
Qed.
Lemma C96_inverse_layered_lemma : forall n c target counts thr layers delta,
  c_dim c = (2 ^ n)%nat -> 0 < c_append c <= 1 -> good_table 0 n counts -> fixed_table counts ->
  (forall pc, In pc counts -> (0 <= snd pc)%Z) ->
  built 0 target -> u_dim target = (2 ^ n)%nat -> 0 <= c_rate c -> 0 <= c_max_beta c ->
  match thr with Some t => t < 1 | None => True end ->
  (forall l, In l layers -> 0 < layer_chance n counts l) ->
  overlap (2 ^ n) (u_mat target) (adj (ordered n (List.concat layers))) = 1 -> 0 < delta ->
  exists N, forall st b max, exact_world (r_world st) -> 0 <= b -> (N <= max)%Z ->
    exists p, chance (r_draws st) (fun g => exists gs costs, compiled_layered st (set_beta c b) target counts thr max g = Some (gs, costs) /\
        cost_of n target gs <= tolerance thr) p /\
      1 - delta <= p <= 1.
Proof.
  intros n c target counts thr layers delta Hd Hap HC HF HP HT HD Hr Hm Ht HG HO Hdl.
  assert (TP : 0 < tolerance thr). { destruct thr; cbn [tolerance]; [lra|]. apply Rinv_0_lt_compat, pow_lt. lra. }
  assert (Ha : 0 <= c_append c <= 1) by lra.
  destruct (inverse_word n (layered n counts)) with (target := target) (gts := List.concat layers) (tol := tolerance thr) as (w & (xs & X1 & ->) & W2); auto.
  - exists []. split; [intros ? []|reflexivity].
  - intros. now apply layered_app.
  - intros gs H. eapply layered_unitary; eauto.
  - now apply target_unitary.
  - exists layers. auto.
  - apply (C96_limit_layered_lemma n c target counts thr xs delta); auto. destruct thr; auto. lra.
Qed.
