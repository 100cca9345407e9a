(** The chances of a whole compilation. *)
From Coq Require Import Reals List Arith Lia Lra Bool String ZArith Permutation.
From Coquelicot Require Import Coquelicot.
From Verif Require Import Base CMat CMatFacts Det DetFacts Norms ModelUnitary ModelEntry ModelPrimitive
  ModelSequence ModelCompiler Spec SpecModel SpecCompiler PUnitary PUnitaryProps PEmbed PEntry PSeqHeap PSeqMeth PSeqNear PSeqWorld
  PSeqUndo PSeqInv PSeqHist PSeqProps PSeqCases PCompView PCompRun PCompEntry PCompLoop PCompTrace PCompTotal PCompProps PCompMore
  PCompCases PCompEx PReach PVerify SpecChain PChain PChainStep PChainRun PChainBal.
Import ListNotations.
Open Scope R_scope.

Lemma C69_mean_lemma : forall n st c target thr max F,
  exact_world (r_world st) -> good_compiler 0 n c -> c_array c = false \/ List.length (c_prims c) = 1%nat -> fixed_gates c ->
  built 0 target -> u_dim target = (2 ^ n)%nat ->
  average (r_draws st) (fun g => match compiled st c target thr max g with Some (gs, costs) => F gs costs | None => 0%R end) []
    (run_mean (single_mean n c) n c target thr F (Z.to_nat max) (c_beta c) [] []).
Proof. intros n st c target thr max F HX HC HA HF HT HD. now apply compile_average. Qed.

(** * Monotonicity *)
Lemma sum_le {A} (l : list A) F G : (forall x, In x l -> F x <= G x) ->
  fold_right Rplus 0 (map F l) <= fold_right Rplus 0 (map G l).
Proof.
  induction l as [|x t IH]; intros H; [simpl; lra|]. cbn [map fold_right]. apply Rplus_le_compat.
  - apply H. now left.
  - apply IH. intros. apply H. now right.
Qed.
Lemma meanl_le {A} (l : list A) F G : (forall x, In x l -> F x <= G x) -> meanl l F <= meanl l G.
Proof.
  intros H. unfold meanl, Rdiv. destruct l as [|x t]; [simpl; lra|]. apply Rmult_le_compat_r; [|now apply sum_le].
  left. apply Rinv_0_lt_compat, lt_0_INR. simpl. lia.
Qed.
Lemma gate_mean_le n p F G : (forall g, F g <= G g) -> gate_mean n p F <= gate_mean n p G.
Proof. intros H. unfold gate_mean. destruct (p_source p); [|lra]. apply meanl_le. auto. Qed.

Lemma offer_mean_le n ps q F G : choosable ps q -> (forall g, F g <= G g) -> offer_mean n ps q F <= offer_mean n ps q G.
Proof.
  intros [N HQ] H. unfold offer_mean. change has_place with usable. destruct q as [q|].
  - assert (HS := good_sum_pos _ _ HQ). destruct HQ as (L & P & _). rewrite sumR_fold in HS. unfold Rdiv.
    apply Rmult_le_compat_r; [left; now apply Rinv_0_lt_compat|]. apply sum_le. intros [p x] Hx.
    apply in_combine_r in Hx. cbn [fst snd]. apply Rmult_le_compat_l; [now apply P|]. now apply gate_mean_le.
  - apply meanl_le. intros. now apply gate_mean_le.
Qed.

Lemma offer_mean_one n ps q : choosable ps q -> offer_mean n ps q (fun _ => 1) <= 1.
Proof.
  intros [N HQ]. unfold offer_mean. change has_place with usable.
  assert (G : forall p, gate_mean n p (fun _ => 1) <= 1).
  { intros p. unfold gate_mean. destruct (p_source p); [|lra].
    destruct (places n (Nat.log2 (u_dim u)) p) as [|x l]; [unfold meanl, Rdiv; simpl; lra|]. rewrite meanl_const by discriminate. lra. }
  destruct q as [q|].
  - assert (HS := good_sum_pos _ _ HQ). destruct HQ as (L & P & _). rewrite sumR_fold in HS.
    apply Rmult_le_reg_r with (fold_right Rplus 0 q); auto. unfold Rdiv. rewrite Rmult_assoc, Rinv_l, Rmult_1_r, Rmult_1_l by lra.
    revert L P. generalize (filter usable ps). clear - G. intros us. revert us. induction q as [|x q IH]; intros us L P.
    + destruct us; simpl; lra.
    + destruct us as [|p us]; [discriminate|]. cbn [List.combine map fold_right fst snd].
      apply Rplus_le_compat; [|apply IH; [now injection L|intros; apply P; now right]].
      rewrite <- (Rmult_1_r x) at 2. apply Rmult_le_compat_l; auto. apply P. now left.
  - apply Rle_trans with (meanl (filter usable ps) (fun _ => 1)); [now apply meanl_le|]. rewrite meanl_const by auto. lra.
Qed.

Lemma exp_le_mono x y : x <= y -> exp x <= exp y.
Proof. intros [H| ->]; [left; now apply exp_increasing|lra]. Qed.

(** * Hitting the target *)
Section Hit.
Variables (n : nat) (c : compiler) (target : unitary) (thr : option R).
Variables (P : list gatety -> (list gatety -> R) -> R) (w : list gatety -> R).
Hypothesis HP0 : forall gs F, (forall g, 0 <= F g) -> 0 <= P gs F.
Hypothesis HPw : forall gs x F, (forall g, 0 <= F g) -> w x * F (gs ++ x) <= P gs F.
Hypothesis Hw : forall x, 0 <= w x <= 1.
Hypothesis Hrate : 0 <= c_rate c.
Hypothesis Hmax : 0 <= c_max_beta c.
Hypothesis Hthr : match thr with Some t => t <= 1 | None => True end.
Notation hit := (fun gs => ind (cost_of n target gs <= tolerance thr)).
Notation run := (run_mean P n c target thr (fun gs _ => hit gs)).

Lemma tolerance_nonneg : 0 <= tolerance thr.
Proof. unfold tolerance. destruct thr; [lra|]. left. apply Rinv_0_lt_compat. apply pow_lt. lra. Qed.

Lemma cost_le_1 gs : cost_of n target gs <= 1.
Proof.
  unfold cost_of, overlap. set (x := Cmod _ / _). cut (0 <= x); [lra|]. unfold x, Rdiv.
  apply Rmult_le_pos; [apply Cmod_ge_0|]. left. apply Rinv_0_lt_compat, lt_0_INR.
  assert (X := Nat.pow_nonzero 2 n ltac:(lia)). lia.
Qed.

Lemma accept_nonneg b F gs gs1 : (forall g, 0 <= F g) -> 0 <= accept_mean n b target F gs gs1.
Proof.
  intros H. unfold accept_mean. cbv zeta.
  assert (M := metropolis_range b (cost_of n target gs1 - cost_of n target gs)).
  assert (X := H gs). assert (Y := H gs1). apply Rplus_le_le_0_compat; apply Rmult_le_pos; lra.
Qed.

Lemma run_nonneg k : forall b gs costs, 0 <= run k b gs costs.
Proof.
  induction k as [|k IH]; intros b gs costs; cbn [run_mean]; destruct (Rle_dec _ _); try apply ind_range. cbv zeta.
  apply HP0. intros g. apply accept_nonneg. intros. apply IH.
Qed.

Lemma metropolis_floor b d : 0 <= b <= c_max_beta c -> d <= 1 -> exp (- c_max_beta c) <= metropolis b d.
Proof.
  intros Hb Hd. unfold metropolis. apply Rmin_glb.
  - rewrite <- exp_0. apply exp_le_mono. lra.
  - apply exp_le_mono. nra.
Qed.

Lemma prod_range l : 0 <= fold_right Rmult 1 (map (fun x => w x * exp (- c_max_beta c)) l) <= 1.
Proof.
  assert (E0 := exp_pos (- c_max_beta c)). assert (E1 : exp (- c_max_beta c) <= 1) by (rewrite <- exp_0; apply exp_le_mono; lra).
  induction l as [|x l IH]; cbn [map fold_right]; [lra|].
  assert (Q := Hw x). assert (B : 0 <= w x * exp (- c_max_beta c) <= 1) by nra.
  set (y := w x * exp (- c_max_beta c)) in *. nra.
Qed.

Lemma hit_bound : forall xs k b gs costs, (List.length xs <= k)%nat -> 0 <= b ->
  cost_of n target (gs ++ List.concat xs) <= tolerance thr ->
  fold_right Rmult 1 (map (fun x => w x * exp (- c_max_beta c)) xs) <= run k b gs costs.
Proof.
  induction xs as [|x t IH]; intros k b gs costs Hk Hb Hc.
  - cbn [List.concat] in Hc. rewrite app_nil_r in Hc. cbn [map fold_right]. destruct k; cbn [run_mean];
      (destruct (Rle_dec _ _); [|contradiction]); rewrite ind_true by auto; lra.
  - destruct k as [|k]; [simpl in Hk; lia|]. cbn [run_mean]. cbv zeta. destruct (Rle_dec _ _) as [Hs|Hs].
    + rewrite ind_true by auto. apply prod_range.
    + set (b' := Rmin (b + c_rate c) (c_max_beta c)).
      assert (Hb' : 0 <= b' <= c_max_beta c) by (split; [apply Rmin_glb; lra|apply Rmin_r]).
      set (V := fun gs' => run k b' gs' (costs ++ [cost_of n target gs'])).
      assert (HV : forall gs', 0 <= V gs') by (intros; apply run_nonneg).
      assert (Hr : fold_right Rmult 1 (map (fun x => w x * exp (- c_max_beta c)) t) <= V (gs ++ x)).
      { apply IH; [simpl in Hk; lia|lra|]. now rewrite <- app_assoc. }
      assert (E0 := exp_pos (- c_max_beta c)). assert (Q := Hw x).
      fold V. eapply Rle_trans; [|apply (HPw gs x); intros; now apply accept_nonneg].
      cbn [map fold_right]. rewrite Rmult_assoc. apply Rmult_le_compat_l; [lra|].
      unfold accept_mean. cbv zeta. set (d := cost_of n target (gs ++ x) - cost_of n target gs).
      assert (M := metropolis_range b' d).
      assert (Fl : exp (- c_max_beta c) <= metropolis b' d).
      { apply metropolis_floor; auto. unfold d. assert (T := cost_le_1 (gs ++ x)). assert (T' := tolerance_nonneg). lra. }
      assert (Y := HV gs). assert (Z := HV (gs ++ x)).
      assert (0 <= (1 - metropolis b' d) * V gs) by (apply Rmult_le_pos; lra).
      apply Rle_trans with (metropolis b' d * V (gs ++ x)); [|lra].
      assert (Pr := prod_range t). apply Rmult_le_compat; lra.
Qed.

(** The chance itself. *)
Lemma hit_chance r (out : rng -> option (list gatety * list R)) k b xs :
  average r (fun g => match out g with Some (gs, costs) => hit gs | None => 0 end) [] (run k b [] []) ->
  (List.length xs <= k)%nat -> 0 <= b -> cost_of n target (List.concat xs) <= tolerance thr ->
  exists p, chance r (fun g => exists gs costs, out g = Some (gs, costs) /\ (cost_of n target gs <= tolerance thr)%R) p /\
    (fold_right Rmult 1 (map (fun x => w x * exp (- c_max_beta c)) xs) <= p <= 1)%R.
Proof.
  intros HA Hl Hb Hc. set (E := fun g => exists gs costs, out g = Some (gs, costs) /\ (cost_of n target gs <= tolerance thr)%R).
  assert (X : chance r E (run k b [] [])).
  { unfold chance. eapply average_ext; [|exact HA]. intros g. cbv beta.
    unfold E. destruct (out g) as [[gs costs]|].
    - apply ind_iff. split; [intros (gs' & costs' & H & Hle); congruence|eauto].
    - apply ind_false. intros (gs & costs & H & _). discriminate. }
  eexists. split; [exact X|]. split.
  - now apply hit_bound.
  - apply (C68_unique_lemma _ _ _ _ X X).
Qed.
End Hit.

Section Single.
Variables (n : nat) (c : compiler).
Hypothesis HQ : choosable (c_prims c) (c_probs c).
Hypothesis Hap : 0 <= c_append c <= 1.
Notation ap := (c_append c).
Notation om := (offer_mean n (c_prims c) (c_probs c)).

Lemma offer_nonneg F : (forall g, 0 <= F g) -> 0 <= om F.
Proof.
  intros H. replace 0 with (om (fun g => 0 * F g)) by (rewrite offer_mean_scal; ring).
  apply offer_mean_le; auto. intros g. rewrite Rmult_0_l. auto.
Qed.

Lemma single_nonneg gs F : (forall g, 0 <= F g) -> 0 <= single_mean n c gs F.
Proof.
  intros H. unfold single_mean.
  repeat apply Rplus_le_le_0_compat; apply Rmult_le_pos; auto; try lra; apply offer_nonneg; auto.
Qed.

Lemma gate_chance_range g : 0 <= gate_chance n c g <= 1.
Proof.
  unfold gate_chance. split; [apply offer_nonneg; intros; apply ind_range|].
  apply Rle_trans with (om (fun _ => 1)); [apply offer_mean_le; auto; intros; apply ind_range|]. now apply offer_mean_one.
Qed.

Definition gate_weight (x : list gatety) : R := match x with [g] => ap / 2 * gate_chance n c g | _ => 0 end.

Lemma gate_weight_range x : 0 <= gate_weight x <= 1.
Proof. destruct x as [|g [|g' t]]; cbn [gate_weight]; try lra. assert (Q := gate_chance_range g). nra. Qed.

Lemma gate_weight_le gs x F : (forall g, 0 <= F g) -> gate_weight x * F (gs ++ x) <= single_mean n c gs F.
Proof.
  intros H. destruct x as [|g [|g' t]]; cbn [gate_weight]; try (rewrite Rmult_0_l; now apply single_nonneg).
  assert (X : om (fun g' => F (gs ++ [g]) * ind (g' = g)) <= om (fun g' => F (gs ++ [g']))).
  { apply offer_mean_le; auto. intros g'. destruct (Classical_Prop.classic (g' = g)) as [->|NE].
    - rewrite ind_true by auto. lra.
    - rewrite ind_false by auto. rewrite Rmult_0_r. auto. }
  rewrite offer_mean_scal in X. fold (gate_chance n c g) in X. unfold single_mean.
  assert (A1 : 0 <= ap / 2 * om (fun g0 => F (g0 :: gs))) by (apply Rmult_le_pos; [lra|]; apply offer_nonneg; auto).
  assert (A2 : 0 <= (1 - ap) / 2 * F (tl gs)) by (apply Rmult_le_pos; [lra|auto]).
  assert (A3 : 0 <= (1 - ap) / 2 * F (removelast gs)) by (apply Rmult_le_pos; [lra|auto]).
  assert (A4 : ap / 2 * (F (gs ++ [g]) * gate_chance n c g) <= ap / 2 * om (fun g' => F (gs ++ [g']))) by (apply Rmult_le_compat_l; lra).
  lra.
Qed.
End Single.

Lemma C69_success_lemma : forall n st c target thr max gts,
  exact_world (r_world st) -> good_compiler 0 n c -> c_array c = false \/ List.length (c_prims c) = 1%nat -> fixed_gates c ->
  built 0 target -> u_dim target = (2 ^ n)%nat ->
  (0 <= c_beta c)%R -> (0 <= c_rate c)%R -> (0 <= c_max_beta c)%R ->
  match thr with Some t => (t <= 1)%R | None => True end ->
  (cost_of n target gts <= tolerance thr)%R -> (List.length gts <= Z.to_nat max)%nat ->
  exists p, chance (r_draws st) (fun g => exists gs costs, compiled st c target thr max g = Some (gs, costs) /\
      (cost_of n target gs <= tolerance thr)%R) p /\
    (fold_right Rmult 1 (map (fun g => c_append c / 2 * gate_chance n c g * exp (- c_max_beta c)) gts) <= p <= 1)%R.
Proof.
  intros n st c target thr max gts HX HC HA HF HT HD Hb Hr Hm Ht Hc Hl.
  assert (HQ := good_choosable 0 n c HC). assert (Hap := proj1 (proj2 HC)).
  destruct (hit_chance n c target thr (single_mean n c) (gate_weight n c) (single_nonneg n c HQ Hap) (gate_weight_le n c HQ Hap)
    (gate_weight_range n c HQ Hap) Hr Hm Ht (r_draws st) (compiled st c target thr max) (Z.to_nat max) (c_beta c) (map (fun g => [g]) gts))
    as (p & H1 & H2); auto.
  - now apply C69_mean_lemma.
  - now rewrite map_length.
  - replace (List.concat (map (fun g => [g]) gts)) with gts; [exact Hc|]. clear. induction gts as [|g t IH]; [reflexivity|]. cbn. now rewrite <- IH.
  - exists p. split; auto. rewrite map_map in H2. exact H2.
Qed.

(** * A case: one gate, which is the target *)
Lemma ex_C69_lemma : exists st c target u,
  exact_world (r_world st) /\ good_compiler 0 1 c /\ c_array c = false /\ fixed_gates c /\ built 0 target /\ u_dim target = (2 ^ 1)%nat /\
  forall m, chance (r_draws st) (fun g => exists costs, compiled st c target None (Z.of_nat m) g = Some ([(u, [0%nat])], costs))
    (1 - (1 / 2) ^ m)%R.
Proof.
  destruct (rot345_built 0 ltac:(lra)) as (u & B & D & Mu & _).
  set (c := one_compiler u (1 / 2) 16).
  assert (GC : good_compiler 0 1 c) by (apply one_good; auto; lra).
  exists one_seq, c, u, u.
  do 6 (split; [first [assumption|reflexivity|exact one_seq_exact|exact (one_fixed _ _ _)]|]). intros m.
  assert (Ot : cost_of 1 u [] = 2 / 5).
  { unfold cost_of. change (2 ^ 1)%nat with 2%nat. replace (overlap 2 (u_mat u) (ordered 1 [])) with (overlap 2 rot345 mid).
    - unfold overlap. cbn -[Rdiv].
      replace (_ + _)%C with (RtoC (6 / 5)) by (apply C_eq; simpl; field).
      rewrite Cmod_R, Rabs_pos_eq by lra. field.
    - apply overlap_proper; [now symmetry|reflexivity]. }
  assert (Op : cost_of 1 u [(u, [0%nat])] = 0).
  { unfold cost_of. change (2 ^ 1)%nat with 2%nat. replace (overlap 2 (u_mat u) (ordered 1 [(u, [0%nat])])) with (overlap 2 rot345 rot345).
    - unfold overlap. cbn -[Rdiv].
      replace (_ + _)%C with (RtoC 2) by (apply C_eq; simpl; field).
      rewrite Cmod_R, Rabs_pos_eq by lra. field.
    - apply overlap_proper; [now symmetry|]. unfold ordered. cbn [fold_left fst snd].
      change (2 ^ 1)%nat with 2%nat. rewrite mmul_1_r, embed_one. now symmetry. }
  assert (O : forall F, offer_mean 1 (c_prims c) (c_probs c) F = F (u, [0%nat])).
  { intros F. unfold offer_mean, gate_mean, c, meanl. cbn -[INR Nat.log2]. unfold places. cbn -[INR Nat.log2].
    rewrite D. change (Nat.log2 2) with 1%nat. cbn -[INR]. simpl INR. field. }
  set (F := fun (gs : list gate_on) (_ : list R) => ind (gs = [(u, [0%nat])])).
  assert (T8 : 0 < / 10 ^ 8 < 2 / 5) by (split; [apply Rinv_0_lt_compat, pow_lt; lra|]; lra).
  assert (S : forall k b costs, run_mean (single_mean 1 c) 1 c u None F k b [(u, [0%nat])] costs = 1).
  { intros k b costs. destruct k; cbn [run_mean]; (destruct (Rle_dec _ _) as [|N]; [unfold F; now rewrite ind_true|]);
      exfalso; apply N; rewrite Op; unfold tolerance; lra. }
  assert (K : forall k b costs, 0 <= b -> run_mean (single_mean 1 c) 1 c u None F k b [] costs = 1 - (1 / 2) ^ k).
  { induction k as [|k IH]; intros b costs Hb; cbn [run_mean]; (destruct (Rle_dec _ _) as [Y|_]; [rewrite Ot in Y; unfold tolerance in Y; lra|]).
    - unfold F. rewrite ind_false by discriminate. simpl. lra.
    - cbv zeta. assert (Hb' : 0 <= Rmin (b + c_rate c) (c_max_beta c)) by (apply Rmin_glb; simpl; lra).
      unfold single_mean. rewrite !O. cbn [app tl removelast]. unfold accept_mean. cbv zeta.
      rewrite S, !IH by auto. rewrite Ot, Op.
      replace (metropolis _ (0 - 2 / 5)) with 1. 2:{ unfold metropolis. symmetry. apply Rmin_left. rewrite <- exp_0. apply exp_le_mono. nra. }
      cbn [c_append c one_compiler]. simpl pow. lra. }
  assert (A := C69_mean_lemma 1 one_seq c u None (Z.of_nat m) F one_seq_exact GC (or_introl eq_refl) (one_fixed _ _ _) B D).
  rewrite Nat2Z.id, (K m (c_beta c) []) in A by (simpl; lra).
  unfold chance. eapply average_ext; [|exact A].
  intros g. cbv beta. unfold F. destruct (compiled one_seq c u None (Z.of_nat m) g) as [[gs costs]|].
  - apply ind_iff. split; [intros (costs' & H); congruence|intros ->; eauto].
  - apply ind_false. intros (costs & H). discriminate.
Qed.
