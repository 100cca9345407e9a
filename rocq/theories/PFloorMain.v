(** The chance that a compilation with parameterised gates succeeds. *)
From Coq Require Import Reals List Arith Lia Lra Bool String ZArith Permutation ClassicalEpsilon.
From Coquelicot Require Import Coquelicot.
From Verif Require Import Base CMat CMatFacts Det DetFacts Norms ModelUnitary ModelEntry ModelPrimitive
  ModelSequence ModelCompiler Spec SpecModel SpecCompiler PUnitary PUnitaryProps PEmbed PEntry PSeqHeap PSeqMeth PSeqNear PSeqWorld
  PSeqUndo PSeqInv PSeqHist PSeqProps PSeqCases PCompView PCompRun PCompEntry PCompLoop PCompTrace PCompTotal PCompProps PCompMore
  PCompCases PCompEx PReach PVerify SpecChain PChain PChainStep PChainRun PChainBal PChainHit PChainLay PRecur PAlmost PAlmostComp PAlmostRun
  SpecFloor PFloor PFloorNear PFloorComp PFloorChange PFloorRun.
Import ListNotations.
Open Scope R_scope.
Set Bullet Behavior "Strict Subproofs".

Lemma allows_fits n p gt : good_primitive 0 n p -> allows 0 (2 ^ n) p gt -> PAlmostComp.fits n gt.
Proof.
  intros [GS _] (I & _ & ND & NE & HL & HB). destruct (good_instance 0 p (fst gt) GS I) as [M _].
  split; [eapply built_wf; apply made_built0; exact M|]. split; auto. split; auto. split; auto.
  intros q Hq. specialize (HB q Hq). apply Nat.pow_le_mono_r_iff in HB; lia.
Qed.

Lemma hits_zero {S A} (dr : S -> nat) (m : rng -> SE S A) s Q : tree dr m s -> hits dr m s Q 0.
Proof.
  intros H r0 h f lo hi L D Hl K. replace (lo + (hi - lo) * 0) with (lo + (lo - lo) * 0) by ring. apply (H r0 h f lo lo L D (Rle_refl lo)).
  intros h' s' x L' D' E. destruct (K h' s' x L' D' E) as [K1 _]. auto.
Qed.

Lemma floor_and n c change (Inv B B' : list gatety -> Prop) w : (forall a x, Inv (a ++ x) -> B' x) -> floor n c change Inv B w ->
  floor n c change Inv (fun x => B x /\ B' x) w.
Proof.
  intros I H s r0 h0 st b cs f lo hi HH HIc HL0 HR0 Hl K. apply (H s r0 h0 st b cs f lo hi HH HIc HL0 HR0 Hl).
  intros h st1 cs1 Lh E HH1 HI1 HR1. destruct (K h st1 cs1 Lh E HH1 HI1 HR1) as [K1 K2]. split; [exact K1|].
  intros x -> Bx. apply (K2 x); eauto.
Qed.

Lemma spread (e : R) (m n : nat) : 0 < e -> exists t, 0 < t /\ INR m * (INR (2 ^ n) * t) <= e.
Proof.
  intros He. assert (A := pos_INR m). assert (B := pos_INR (2 ^ n)). assert (C := Rmult_le_pos _ _ A B).
  exists (e / (INR m * INR (2 ^ n) + 1)). split; [apply Rdiv_lt_0_compat; lra|].
  replace (INR m * (INR (2 ^ n) * (e / (INR m * INR (2 ^ n) + 1)))) with (e * (INR m * INR (2 ^ n) / (INR m * INR (2 ^ n) + 1))) by (field; lra).
  rewrite <- (Rmult_1_r e) at 2. apply Rmult_le_compat_l; [lra|]. apply Rle_div_l; lra.
Qed.

Lemma concat_near n target e gs (bs : list ((list gatety -> Prop) * R)) xs :
  Forall2 (fun x (bw : (list gatety -> Prop) * R) => forall y, fst bw y -> Forall2 (gate_near e) x y /\ forall g, In g y -> PAlmostComp.fits n g) gs bs -> inside bs xs ->
  0 <= e -> unitary_mx (2 ^ n) (u_mat target) -> forall a, (forall g, In g a -> PAlmostComp.fits n g) -> (forall g, In g (List.concat gs) -> PAlmostComp.fits n g) ->
  cost_of n target (a ++ List.concat xs) <= cost_of n target (a ++ List.concat gs) + INR (List.length (List.concat gs)) * (INR (2 ^ n) * e).
Proof.
  intros HF HI He HT a Fa Fg.
  assert (X : Forall2 (gate_near e) (List.concat gs) (List.concat xs) /\ forall g, In g (List.concat xs) -> PAlmostComp.fits n g).
  { clear - HF HI. revert xs HI. induction HF as [|x bw gs bs Hx _ IH]; intros xs HI; inversion HI as [|? y ? ys Hy Hys]; subst; cbn [List.concat].
    - split; [constructor|intros ? []].
    - destruct (IH ys Hys) as [I1 I2]. destruct (Hx y Hy) as [J1 J2]. split; [now apply Forall2_app|].
      intros g Hg. apply in_app_or in Hg. destruct Hg; auto. }
  destruct X. now apply near_cost.
Qed.

(** * compile() *)
Section Single.
Variables (n : nat) (c : compiler) (target : unitary).
Hypothesis HC : good_compiler 0 n c.
Hypothesis HCS : forall p, In p (c_prims c) -> continuous_source (p_source p).
Hypothesis Hap : 0 < c_append c.
Hypothesis HT : built 0 target.
Hypothesis HD : u_dim target = (2 ^ n)%nat.

Definition offers (gs : list gatety) : Prop := forall g, In g gs -> on_offer n c g.
Notation change := (fun g => make_random_change g 0).

Lemma offer_fits g : on_offer n c g -> PAlmostComp.fits n g.
Proof.
  intros (p & HW & HA). apply (allows_fits n p); auto. destruct HW as (i & Hi & _). apply nth_error_In, filter_In in Hi. apply HC. apply Hi.
Qed.
Lemma offers_change g a b : rng_ok g -> offers a -> one_change 0 c a b -> offers b.
Proof.
  intros _ Ha [(gt & p & HW & HA & [->| ->])|(_ & [->| ->])] x Hx.
  - destruct Hx as [<-|Hx]; auto. exists p. rewrite (proj1 HC) in HA. auto.
  - apply in_app_or in Hx. destruct Hx as [Hx|[<-|[]]]; auto. exists p. rewrite (proj1 HC) in HA. auto.
  - apply Ha. now apply in_tl.
  - apply Ha. now apply in_removelast.
Qed.

Lemma single_to_floor B w : (forall s st b cs pv, sees 0 (r_world st) s (2 ^ n) cs pv -> exact_world (r_world st) ->
    chits (fun g => change g s) (st, set_beta c b)
      (fun sc _ => exists x pv', B x /\ sees 0 (r_world (fst sc)) s (2 ^ n) (cs ++ x) pv') w) -> floor n c change offers B w.
Proof.
  apply (hits_floor n c change 1 (fun _ => one_change 0 c) offers (proj1 HC) (fun g G => change_single g 0 G c)
    (fun g s G => single_traced g 0 G _ c s (single_safe n c HC _ made_built0)) (fun g G => single_total_change n c HC g G) offers_change).
Qed.

Lemma single_box e gt : 0 < e -> on_offer n c gt -> exists w, 0 < w <= 1 /\
  floor n c change offers (fun x => Forall2 (gate_near e) [gt] x /\ forall g, In g x -> PAlmostComp.fits n g) w.
Proof.
  intros He Hg. destruct (single_hits e n c gt He HC HCS Hap Hg) as (w & Hw & H). exists w. split; auto. apply floor_and.
  - intros a x Hx g Hin. apply offer_fits, Hx. apply in_or_app. now right.
  - apply single_to_floor. intros s st b cs pv S _. eapply hits_weaken; [|exact (H s st b cs pv S)].
    intros sc _ (gt' & pv' & N & S'). exists [gt'], pv'. split; [|exact S']. constructor; auto.
Qed.

Lemma single_boxes e gts : 0 < e -> offers gts -> exists bs, floors n c change offers bs /\
  Forall2 (fun x (bw : (list gatety -> Prop) * R) => forall y, fst bw y -> Forall2 (gate_near e) x y /\ forall g, In g y -> PAlmostComp.fits n g) (map (fun g => [g]) gts) bs.
Proof.
  intros He. induction gts as [|g t IH]; intros H.
  - exists []. split; [intros ? []|constructor].
  - destruct IH as (bs & B1 & B2); [intros x Hx; apply H; now right|]. destruct (single_box e g He (H g (or_introl eq_refl))) as (w & Hw & HF).
    exists ((fun x => Forall2 (gate_near e) [g] x /\ forall g, In g x -> PAlmostComp.fits n g, w) :: bs). split.
    + intros bw [<-|Hb]; [|now apply B1]. cbn [fst snd]. split; [exact HF|exact Hw].
    + cbn [map]. constructor; [|exact B2]. cbn [fst]. auto.
Qed.

Lemma concat_single {A} (l : list A) : List.concat (map (fun x => [x]) l) = l.
Proof. induction l; cbn; congruence. Qed.

Lemma single_found thr gts : 0 <= c_rate c -> 0 <= c_max_beta c -> match thr with Some t => t <= 1 | None => True end ->
  offers gts -> cost_of n target gts < tolerance thr ->
  exists m rho, (0 < m)%nat /\ 0 < rho <= 1 /\ forall st b max, exact_world (r_world st) -> 0 <= b ->
    least (r_draws st) (fun g => match compile_with g 0 (make_random_change g 0) target thr max (st, set_beta c b) with
      | ((st', _), Ok (s, costs)) => ind (cost_of n target (contents (r_world st') s) <= tolerance thr) | _ => 0 end) []
      (1 - (1 - rho) ^ (Z.to_nat max / m)).
Proof.
  intros Hr Hm Ht HG Hc.
  assert (OU : forall a, offers a -> unitary_mx (2 ^ n) (ordered n a)).
  { intros a Ha. apply (ordered_special n). intros g Hg. now apply offer_fits, Ha. }
  apply (with_floor n c change target 1 thr (fun _ => one_change 0 c) offers (proj1 HC) HT HD (fun g G => change_single g 0 G c)
    (fun g s G => single_traced g 0 G _ c s (single_safe n c HC _ made_built0)) (fun g G => single_total_change n c HC g G)) with (gts := gts); auto.
  - apply single_to_floor. intros s st b cs pv S _. apply hits_zero, tree_single.
  - intros ? [].
  - intros a b Ha Hb x Hx. apply in_app_or in Hx. destruct Hx; auto.
  - intros w e Hw He. destruct (spread e (List.length w) n He) as (t & Ht0 & Hte). destruct (single_boxes t w Ht0 Hw) as (bs & B1 & B2).
    exists bs. split; auto. intros a xs Ha Hxs.
    assert (X := concat_near n target t _ bs xs B2 Hxs ltac:(lra) (target_unitary n target HT HD) a (fun g Hg => offer_fits g (Ha g Hg))).
    rewrite concat_single in X. specialize (X (fun g Hg => offer_fits g (Hw g Hg))). lra.
Qed.
Lemma single_once thr gts : 0 <= c_rate c -> 0 <= c_max_beta c -> match thr with Some t => t <= 1 | None => True end ->
  offers gts -> cost_of n target gts < tolerance thr ->
  exists rho, 0 < rho <= 1 /\ forall st b max, exact_world (r_world st) -> 0 <= b -> (Z.of_nat (List.length gts) <= max)%Z ->
    least (r_draws st) (fun g => match compile_with g 0 (make_random_change g 0) target thr max (st, set_beta c b) with
      | ((st', _), Ok (s, costs)) => ind (cost_of n target (contents (r_world st') s) <= tolerance thr) | _ => 0 end) [] rho.
Proof.
  intros Hr Hm Ht HG Hc. destruct (spread (tolerance thr - cost_of n target gts) (List.length gts) n ltac:(lra)) as (t & Ht0 & Hte).
  destruct (single_boxes t gts Ht0 HG) as (bs & B1 & B2). eexists. split; [apply (boxes_range n c change offers Hm bs B1)|].
  intros st b max HX Hb Hl.
  apply (once_floor n c change target 1 thr (fun _ => one_change 0 c) offers (proj1 HC) HT HD (fun g G => change_single g 0 G c)
    (fun g s G => single_traced g 0 G _ c s (single_safe n c HC _ made_built0)) (fun g G => single_total_change n c HC g G)); auto.
  - apply single_to_floor. intros s st' b' cs pv S _. apply hits_zero, tree_single.
  - intros ? [].
  - rewrite <- (F2_length _ _ _ B2), map_length. exact Hl.
  - intros xs Hxs.
    assert (X := concat_near n target t _ bs xs B2 Hxs ltac:(lra) (target_unitary n target HT HD) [] ltac:(intros ? [])).
    rewrite concat_single in X. specialize (X (fun g Hg => offer_fits g (HG g Hg))). cbn [app] in X. lra.
Qed.
End Single.

(** * compile_layered() *)
Section Layered.
Variables (n : nat) (c : compiler) (target : unitary) (counts : list (primitive * Z)).
Hypothesis Hd : c_dim c = (2 ^ n)%nat.
Hypothesis Hap : 0 < c_append c <= 1.
Hypothesis HC : good_table 0 n counts.
Hypothesis HN : forall pc, In pc counts -> (0 <= snd pc)%Z.
Hypothesis HCS : forall p, In p (table_list counts) -> continuous_source (p_source p).
Hypothesis HT : built 0 target.
Hypothesis HD : u_dim target = (2 ^ n)%nat.

Definition layers_of (gs : list gatety) : Prop := exists xs, (forall x, In x xs -> layer_of 0 (2 ^ n) counts x) /\ gs = List.concat xs.
Notation change := (fun g => make_random_change_layered g 0 counts).
Notation size := (Z.to_nat (layer_length counts)).

Lemma layer_offered layer : layer_of 0 (2 ^ n) counts layer -> layer_on_offer n counts layer.
Proof.
  intros (parts & PM & HF). exists (List.concat parts). split; [|now apply orders_spec].
  clear - HF. unfold table_list. induction HF as [|[p k] part t parts [L HA] _ IH]; cbn [flat_map List.concat fst snd]; [constructor|].
  apply Forall2_app; [|exact IH]. cbn [fst snd] in *. rewrite <- L. clear - HA. induction HA; cbn [List.length repeat]; constructor; auto.
Qed.
Lemma layer_fits layer g : layer_of 0 (2 ^ n) counts layer -> In g layer -> PAlmostComp.fits n g.
Proof.
  intros (parts & PM & HF) Hg. apply (Permutation_in _ PM) in Hg. clear PM. unfold good_table in HC.
  clear - HF Hg HC. revert Hg HC. induction HF as [|[p k] part t parts [L HA] _ IH]; cbn [List.concat]; intros Hg HC; [destruct Hg|].
  inversion HC as [|? ? [GP _] HC']; subst. apply in_app_or in Hg. destruct Hg as [Hg|Hg]; [|now apply IH].
  rewrite List.Forall_forall in HA. apply (allows_fits n p); auto.
Qed.
Lemma layers_fit gs g : layers_of gs -> In g gs -> PAlmostComp.fits n g.
Proof. intros (xs & X1 & ->) Hg. apply in_concat in Hg. destruct Hg as (x & Hx & Hg). apply (layer_fits x); auto. Qed.
Lemma layer_size_is layer : layer_of 0 (2 ^ n) counts layer -> List.length layer = size.
Proof.
  intros H. rewrite (layer_of_length _ _ _ _ H). clear - HN. revert HN. induction counts as [|[p k] t IH]; intros HN; [reflexivity|].
  assert (K : (0 <= k)%Z) by (apply (HN (p, k)); now left). assert (X := IH (fun pc Hp => HN pc (or_intror Hp))).
  assert (Y : (0 <= layer_length t)%Z).
  { clear - HN. assert (H : forall pc, In pc t -> (0 <= snd pc)%Z) by (intros; apply HN; now right). clear HN.
    induction t as [|q t IH]; cbn; [lia|]. assert (Z := IH (fun pc Hp => H pc (or_intror Hp))). assert (W := H q (or_introl eq_refl)).
    unfold layer_length in Z. lia. }
  unfold layer_size in *. cbn [fold_right snd layer_length] in *. unfold layer_length in *. cbn [fold_right snd]. lia.
Qed.
Lemma layers_app a b : layers_of a -> layers_of b -> layers_of (a ++ b).
Proof.
  intros (xs & X1 & ->) (ys & Y1 & ->). exists (xs ++ ys). rewrite concat_app. split; auto. intros x Hx. apply in_app_or in Hx. destruct Hx; auto.
Qed.
Lemma layers_one x : layer_of 0 (2 ^ n) counts x -> layers_of x.
Proof. intros H. exists [x]. cbn. rewrite app_nil_r. split; auto. intros y [<-|[]]. exact H. Qed.

Lemma layers_change g a b : rng_ok g -> layers_of a -> layer_change 0 (c_dim c) counts a b -> layers_of b.
Proof.
  intros _ Ha [(layer & HL & [->| ->])|(_ & _ & [->| ->])]; rewrite ?Hd in *.
  - apply layers_app; auto. now apply layers_one.
  - apply layers_app; auto. now apply layers_one.
  - destruct Ha as (xs & X1 & ->). destruct xs as [|x xs].
    + cbn [List.concat]. rewrite skipn_nil. exists []. split; [intros ? []|reflexivity].
    + cbn [List.concat]. rewrite <- (layer_size_is x (X1 x (or_introl eq_refl))), skipn_app, skipn_all, Nat.sub_diag.
      cbn [app skipn]. exists xs. split; auto. intros. apply X1. now right.
  - destruct Ha as (xs & X1 & ->). destruct xs as [|x xs] using rev_ind.
    + cbn [List.concat]. rewrite firstn_nil. exists []. split; [intros ? []|reflexivity].
    + clear IHxs. rewrite concat_app. cbn [List.concat]. rewrite app_nil_r.
      rewrite app_length, (layer_size_is x (X1 x ltac:(apply in_or_app; right; now left))), Nat.add_sub, firstn_app, firstn_all, Nat.sub_diag. cbn [firstn]. rewrite app_nil_r.
      exists xs. split; auto. intros. apply X1. apply in_or_app. now left.
Qed.

Lemma layered_to_floor B w : (forall s st b cs pv, sees 0 (r_world st) s (2 ^ n) cs pv -> exact_world (r_world st) ->
    chits (fun g => change g s) (st, set_beta c b)
      (fun sc _ => exists x pv', B x /\ sees 0 (r_world (fst sc)) s (2 ^ n) (cs ++ x) pv') w) -> floor n c change layers_of B w.
Proof.
  assert (Ha : 0 <= c_append c <= 1) by lra.
  apply (hits_floor n c change (layer_size counts) (fun _ => layer_change 0 (c_dim c) counts) layers_of Hd (fun g G => change_layered g 0 G c counts)
    (fun g s G => layered_traced g 0 G _ c counts s (layered_safe n counts HC _ made_built0))
    (fun g G => layered_total_change n c counts Hd Ha HC g G) layers_change).
Qed.

Lemma layered_box e layer : 0 < e -> layer_of 0 (2 ^ n) counts layer -> exists w, 0 < w <= 1 /\
  floor n c change layers_of (fun x => Forall2 (gate_near e) layer x /\ forall g, In g x -> PAlmostComp.fits n g) w.
Proof.
  intros He Hg. destruct (layered_hits e n c counts layer He Hd Hap HC HCS (layer_offered layer Hg)) as (w & Hw & H). exists w. split; auto. apply floor_and.
  - intros a x Hx g Hin. apply (layers_fit (a ++ x)); auto. apply in_or_app. now right.
  - apply layered_to_floor. intros s st b cs pv S HX. eapply hits_weaken; [|exact (H s st b cs pv S (exact_W _ HX))].
    intros sc _ (gts' & pv' & N & S'). eauto.
Qed.

Lemma layered_boxes e xs : 0 < e -> (forall x, In x xs -> layer_of 0 (2 ^ n) counts x) -> exists bs, floors n c change layers_of bs /\
  Forall2 (fun x (bw : (list gatety -> Prop) * R) => forall y, fst bw y -> Forall2 (gate_near e) x y /\ forall g, In g y -> PAlmostComp.fits n g) xs bs.
Proof.
  intros He. induction xs as [|x t IH]; intros H.
  - exists []. split; [intros ? []|constructor].
  - destruct IH as (bs & B1 & B2); [intros; apply H; now right|]. destruct (layered_box e x He (H x (or_introl eq_refl))) as (w & Hw & HF).
    exists ((fun y => Forall2 (gate_near e) x y /\ forall g, In g y -> PAlmostComp.fits n g, w) :: bs). split.
    + intros bw [<-|Hb]; [|now apply B1]. cbn [fst snd]. split; [exact HF|exact Hw].
    + constructor; [|exact B2]. cbn [fst]. auto.
Qed.

Lemma layered_found thr gts : 0 <= c_rate c -> 0 <= c_max_beta c -> match thr with Some t => t <= 1 | None => True end ->
  layers_of gts -> cost_of n target gts < tolerance thr ->
  exists m rho, (0 < m)%nat /\ 0 < rho <= 1 /\ forall st b max, exact_world (r_world st) -> 0 <= b ->
    least (r_draws st) (fun g => match compile_with g 0 (make_random_change_layered g 0 counts) target thr max (st, set_beta c b) with
      | ((st', _), Ok (s, costs)) => ind (cost_of n target (contents (r_world st') s) <= tolerance thr) | _ => 0 end) []
      (1 - (1 - rho) ^ (Z.to_nat max / m)).
Proof.
  intros Hr Hm Ht HG Hc. assert (Ha : 0 <= c_append c <= 1) by lra.
  assert (OU : forall a, layers_of a -> unitary_mx (2 ^ n) (ordered n a)).
  { intros a HL. apply (ordered_special n). intros g Hg. now apply (layers_fit a). }
  apply (with_floor n c change target (layer_size counts) thr (fun _ => layer_change 0 (c_dim c) counts) layers_of Hd HT HD (fun g G => change_layered g 0 G c counts)
    (fun g s G => layered_traced g 0 G _ c counts s (layered_safe n counts HC _ made_built0))
    (fun g G => layered_total_change n c counts Hd Ha HC g G)) with (gts := gts); auto.
  - apply layered_to_floor. intros s st b cs pv S _. apply hits_zero, tree_layered.
  - exists []. split; [intros ? []|reflexivity].
  - apply layers_app.
  - intros w e Hw He. destruct (spread e (List.length w) n He) as (t & Ht0 & Hte). destruct Hw as (ys & Y1 & ->).
    destruct (layered_boxes t ys Ht0 Y1) as (bs & B1 & B2). exists bs. split; auto. intros a xs HA Hxs.
    assert (X := concat_near n target t _ bs xs B2 Hxs ltac:(lra) (target_unitary n target HT HD) a (fun g Hg => layers_fit a g HA Hg)).
    specialize (X (fun g Hg => layers_fit (List.concat ys) g (ex_intro _ ys (conj Y1 eq_refl)) Hg)). lra.
Qed.
Lemma layered_once thr layers : 0 <= c_rate c -> 0 <= c_max_beta c -> match thr with Some t => t <= 1 | None => True end ->
  (forall l, In l layers -> layer_of 0 (2 ^ n) counts l) -> cost_of n target (List.concat layers) < tolerance thr ->
  exists rho, 0 < rho <= 1 /\ forall st b max, exact_world (r_world st) -> 0 <= b -> (Z.of_nat (List.length layers) <= max)%Z ->
    least (r_draws st) (fun g => match compile_with g 0 (make_random_change_layered g 0 counts) target thr max (st, set_beta c b) with
      | ((st', _), Ok (s, costs)) => ind (cost_of n target (contents (r_world st') s) <= tolerance thr) | _ => 0 end) [] rho.
Proof.
  intros Hr Hm Ht HG Hc. assert (Ha : 0 <= c_append c <= 1) by lra.
  destruct (spread (tolerance thr - cost_of n target (List.concat layers)) (List.length (List.concat layers)) n ltac:(lra)) as (t & Ht0 & Hte).
  destruct (layered_boxes t layers Ht0 HG) as (bs & B1 & B2). eexists. split; [apply (boxes_range n c change layers_of Hm bs B1)|].
  intros st b max HX Hb Hl.
  apply (once_floor n c change target (layer_size counts) thr (fun _ => layer_change 0 (c_dim c) counts) layers_of Hd HT HD (fun g G => change_layered g 0 G c counts)
    (fun g s G => layered_traced g 0 G _ c counts s (layered_safe n counts HC _ made_built0))
    (fun g G => layered_total_change n c counts Hd Ha HC g G)); auto.
  - apply layered_to_floor. intros s st' b' cs pv S _. apply hits_zero, tree_layered.
  - exists []. split; [intros ? []|reflexivity].
  - rewrite <- (F2_length _ _ _ B2). exact Hl.
  - intros xs Hxs.
    assert (X := concat_near n target t _ bs xs B2 Hxs ltac:(lra) (target_unitary n target HT HD) [] ltac:(intros ? [])).
    specialize (X (fun g Hg => layers_fit (List.concat layers) g (ex_intro _ layers (conj HG eq_refl)) Hg)). cbn [app] in X. lra.
Qed.
End Layered.

(** * The chances *)
Lemma floor_chance n target thr r (out : rng -> option (list gatety * list R)) p :
  least r (fun g => match out g with Some (gs, costs) => ind (cost_of n target gs <= tolerance thr) | None => 0 end) [] p ->
  chance_at_least r (fun g => exists gs costs, out g = Some (gs, costs) /\ cost_of n target gs <= tolerance thr) p.
Proof.
  intros H. apply least_chance. revert H. generalize (@nil (question * answer)). intros h H.
  induction H as [h m H|h q F m H IH HM]; [|eapply least_ask; eauto]. apply least_known. intros g G T. eapply Rle_trans; [exact (H g G T)|]. right.
  destruct (out g) as [[gs costs]|].
  - symmetry. apply ind_iff. split; [intros (gs' & costs' & HE & Hle); congruence|eauto].
  - symmetry. apply ind_false. intros (gs & costs & HE & _). discriminate.
Qed.
Lemma least_ext r f f' h m : (forall g, f g = f' g) -> least r f' h m -> least r f h m.
Proof.
  intros E H. induction H as [h m H|h q F m H IH HM].
  - apply least_known. intros g G T. rewrite E. auto.
  - eapply least_ask; eauto.
Qed.
Lemma chance_lower r E p p' : p' <= p -> chance_at_least r E p -> chance_at_least r E p'.
Proof. intros L (f & m & H1 & H2 & H3). exists f, m. split; auto. split; auto. lra. Qed.

Lemma C98_found_lemma : forall n c target thr gts,
  good_compiler 0 n c -> c_array c = false \/ List.length (c_prims c) = 1%nat ->
  (forall p, In p (c_prims c) -> continuous_source (p_source p)) -> 0 < c_append c ->
  built 0 target -> u_dim target = (2 ^ n)%nat -> 0 <= c_rate c -> 0 <= c_max_beta c ->
  match thr with Some t => t <= 1 | None => True end ->
  (forall g, In g gts -> on_offer n c g) -> cost_of n target gts < tolerance thr ->
  exists m rho, (0 < m)%nat /\ 0 < rho <= 1 /\
    forall st b max, exact_world (r_world st) -> 0 <= b ->
    chance_at_least (r_draws st) (fun g => exists gs costs, compiled st (set_beta c b) target thr max g = Some (gs, costs) /\
        cost_of n target gs <= tolerance thr) (1 - (1 - rho) ^ (Z.to_nat max / m)).
Proof.
  intros n c target thr gts HC HA HCS Hap HT HD Hr Hm Ht HG Hc.
  destruct (single_found n c target HC HCS Hap HT HD thr gts Hr Hm Ht HG Hc) as (m & rho & M1 & M2 & H). exists m, rho. split; auto. split; auto.
  intros st b max HX Hb. apply floor_chance. eapply least_ext; [|exact (H st b max HX Hb)]. intros g.
  assert (Nc : c_prims c <> []).
  { destruct (good_choosable 0 n c HC) as [N _]. intros E. rewrite E in N. now apply N. }
  unfold compiled. rewrite compile_eq by auto.
  destruct (compile_with _ _ _ _ _ _ _) as [[st' c'] [[s costs]|e]]; reflexivity.
Qed.

Lemma C98_found_layered_lemma : forall n c target counts thr layers,
  c_dim c = (2 ^ n)%nat -> 0 < c_append c <= 1 -> good_table 0 n counts ->
  (forall pc, In pc counts -> (0 <= snd pc)%Z /\ continuous_source (p_source (fst pc))) ->
  built 0 target -> u_dim target = (2 ^ n)%nat -> 0 <= c_rate c -> 0 <= c_max_beta c ->
  match thr with Some t => t <= 1 | None => True end ->
  (forall l, In l layers -> layer_of 0 (2 ^ n) counts l) -> cost_of n target (List.concat layers) < tolerance thr ->
  exists m rho, (0 < m)%nat /\ 0 < rho <= 1 /\
    forall st b max, exact_world (r_world st) -> 0 <= b ->
    chance_at_least (r_draws st) (fun g => exists gs costs, compiled_layered st (set_beta c b) target counts thr max g = Some (gs, costs) /\
        cost_of n target gs <= tolerance thr) (1 - (1 - rho) ^ (Z.to_nat max / m)).
Proof.
  intros n c target counts thr layers Hd Hap HC HP HT HD Hr Hm Ht HG Hc.
  assert (HCS : forall p, In p (table_list counts) -> continuous_source (p_source p)).
  { intros p Hp. unfold table_list in Hp. apply in_flat_map in Hp. destruct Hp as (pc & Hpc & Hp). apply repeat_spec in Hp. subst p. now apply HP. }
  destruct (layered_found n c target counts Hd Hap HC (fun pc H => proj1 (HP pc H)) HCS HT HD thr (List.concat layers) Hr Hm Ht) as (m & rho & M1 & M2 & H); auto.
  { exists layers. auto. }
  exists m, rho. split; auto. split; auto.
  intros st b max HX Hb. apply floor_chance. eapply least_ext; [|exact (H st b max HX Hb)]. intros g. unfold compiled_layered, compile_layered.
  destruct (compile_with _ _ _ _ _ _ _) as [[st' c'] [[s costs]|e]]; reflexivity.
Qed.

Lemma C98_limit_lemma : forall n c target thr gts delta,
  good_compiler 0 n c -> c_array c = false \/ List.length (c_prims c) = 1%nat ->
  (forall p, In p (c_prims c) -> continuous_source (p_source p)) -> 0 < c_append c ->
  built 0 target -> u_dim target = (2 ^ n)%nat -> 0 <= c_rate c -> 0 <= c_max_beta c ->
  match thr with Some t => t <= 1 | None => True end ->
  (forall g, In g gts -> on_offer n c g) -> cost_of n target gts < tolerance thr -> 0 < delta ->
  exists N, forall st b max, exact_world (r_world st) -> 0 <= b -> (N <= max)%Z ->
    chance_at_least (r_draws st) (fun g => exists gs costs, compiled st (set_beta c b) target thr max g = Some (gs, costs) /\
        cost_of n target gs <= tolerance thr) (1 - delta).
Proof.
  intros n c target thr gts delta HC HA HCS Hap HT HD Hr Hm Ht HG Hc Hdl.
  destruct (C98_found_lemma n c target thr gts HC HA HCS Hap HT HD Hr Hm Ht HG Hc) as (m & rho & H1 & H2 & H3).
  destruct (far rho delta m H1 H2 Hdl) as (N & HN). exists (Z.of_nat N). intros st b max HX Hb Hmx.
  eapply chance_lower; [|apply (H3 st b max HX Hb)]. specialize (HN (Z.to_nat max) ltac:(lia)). lra.
Qed.
Lemma C98_limit_layered_lemma : forall n c target counts thr layers delta,
  c_dim c = (2 ^ n)%nat -> 0 < c_append c <= 1 -> good_table 0 n counts ->
  (forall pc, In pc counts -> (0 <= snd pc)%Z /\ continuous_source (p_source (fst pc))) ->
  built 0 target -> u_dim target = (2 ^ n)%nat -> 0 <= c_rate c -> 0 <= c_max_beta c ->
  match thr with Some t => t <= 1 | None => True end ->
  (forall l, In l layers -> layer_of 0 (2 ^ n) counts l) -> cost_of n target (List.concat layers) < tolerance thr -> 0 < delta ->
  exists N, forall st b max, exact_world (r_world st) -> 0 <= b -> (N <= max)%Z ->
    chance_at_least (r_draws st) (fun g => exists gs costs, compiled_layered st (set_beta c b) target counts thr max g = Some (gs, costs) /\
        cost_of n target gs <= tolerance thr) (1 - delta).
Proof.
  intros n c target counts thr layers delta Hd Hap HC HP HT HD Hr Hm Ht HG Hc Hdl.
  destruct (C98_found_layered_lemma n c target counts thr layers Hd Hap HC HP HT HD Hr Hm Ht HG Hc) as (m & rho & H1 & H2 & H3).
  destruct (far rho delta m H1 H2 Hdl) as (N & HN). exists (Z.of_nat N). intros st b max HX Hb Hmx.
  eapply chance_lower; [|apply (H3 st b max HX Hb)]. specialize (HN (Z.to_nat max) ltac:(lia)). lra.
Qed.

Lemma C98_inverse_lemma : forall n c target thr gts delta,
  good_compiler 0 n c -> c_array c = false \/ List.length (c_prims c) = 1%nat ->
  (forall p, In p (c_prims c) -> continuous_source (p_source p)) -> 0 < c_append c ->
  built 0 target -> u_dim target = (2 ^ n)%nat -> 0 <= c_rate c -> 0 <= c_max_beta c ->
  match thr with Some t => t < 1 | None => True end ->
  (forall g, In g gts -> on_offer n c g) -> overlap (2 ^ n) (u_mat target) (adj (ordered n gts)) = 1 -> 0 < delta ->
  exists N, forall st b max, exact_world (r_world st) -> 0 <= b -> (N <= max)%Z ->
    chance_at_least (r_draws st) (fun g => exists gs costs, compiled st (set_beta c b) target thr max g = Some (gs, costs) /\
        cost_of n target gs <= tolerance thr) (1 - delta).
Proof.
  intros n c target thr gts delta HC HA HCS Hap HT HD Hr Hm Ht HG HO Hdl.
  assert (TP : 0 < tolerance thr). { destruct thr; cbn [tolerance]; [lra|]. apply Rinv_0_lt_compat, pow_lt. lra. }
  destruct (inverse_word n (offers n c)) with (target := target) (gts := gts) (tol := tolerance thr) as (w & W1 & W2); auto.
  - intros g [].
  - intros a b A B g Hg. apply in_app_or in Hg. destruct Hg; auto.
  - intros a A. apply (ordered_special n). intros g Hg. apply (offer_fits n c HC), A, Hg.
  - now apply target_unitary.
  - apply (C98_limit_lemma n c target thr w delta); auto. destruct thr; auto. lra.
Qed.
Lemma C98_inverse_layered_lemma : forall n c target counts thr layers delta,
  c_dim c = (2 ^ n)%nat -> 0 < c_append c <= 1 -> good_table 0 n counts ->
  (forall pc, In pc counts -> (0 <= snd pc)%Z /\ continuous_source (p_source (fst pc))) ->
  built 0 target -> u_dim target = (2 ^ n)%nat -> 0 <= c_rate c -> 0 <= c_max_beta c ->
  match thr with Some t => t < 1 | None => True end ->
  (forall l, In l layers -> layer_of 0 (2 ^ n) counts l) ->
  overlap (2 ^ n) (u_mat target) (adj (ordered n (List.concat layers))) = 1 -> 0 < delta ->
  exists N, forall st b max, exact_world (r_world st) -> 0 <= b -> (N <= max)%Z ->
    chance_at_least (r_draws st) (fun g => exists gs costs, compiled_layered st (set_beta c b) target counts thr max g = Some (gs, costs) /\
        cost_of n target gs <= tolerance thr) (1 - delta).
Proof.
  intros n c target counts thr layers delta Hd Hap HC HP HT HD Hr Hm Ht HG HO Hdl.
  assert (TP : 0 < tolerance thr). { destruct thr; cbn [tolerance]; [lra|]. apply Rinv_0_lt_compat, pow_lt. lra. }
  destruct (inverse_word n (layers_of n counts)) with (target := target) (gts := List.concat layers) (tol := tolerance thr) as (w & (xs & X1 & ->) & W2); auto.
  - exists []. split; [intros ? []|reflexivity].
  - intros. now apply layers_app.
  - intros gs H. apply (ordered_special n). intros g Hg. now apply (layers_fit n counts HC gs).
  - now apply target_unitary.
  - exists layers. auto.
  - apply (C98_limit_layered_lemma n c target counts thr xs delta); auto. destruct thr; auto. lra.
Qed.

Lemma C98_within_lemma : forall n c target thr gts,
  good_compiler 0 n c -> c_array c = false \/ List.length (c_prims c) = 1%nat ->
  (forall p, In p (c_prims c) -> continuous_source (p_source p)) -> 0 < c_append c ->
  built 0 target -> u_dim target = (2 ^ n)%nat -> 0 <= c_rate c -> 0 <= c_max_beta c ->
  match thr with Some t => t <= 1 | None => True end ->
  (forall g, In g gts -> on_offer n c g) -> cost_of n target gts < tolerance thr ->
  exists rho, 0 < rho <= 1 /\ forall st b max, exact_world (r_world st) -> 0 <= b -> (Z.of_nat (List.length gts) <= max)%Z ->
    chance_at_least (r_draws st) (fun g => exists gs costs, compiled st (set_beta c b) target thr max g = Some (gs, costs) /\
        cost_of n target gs <= tolerance thr) rho.
Proof.
  intros n c target thr gts HC HA HCS Hap HT HD Hr Hm Ht HG Hc.
  destruct (single_once n c target HC HCS Hap HT HD thr gts Hr Hm Ht HG Hc) as (rho & M2 & H). exists rho. split; auto.
  intros st b max HX Hb Hl. apply floor_chance. eapply least_ext; [|exact (H st b max HX Hb Hl)]. intros g.
  assert (Nc : c_prims c <> []).
  { destruct (good_choosable 0 n c HC) as [N _]. intros E. rewrite E in N. now apply N. }
  unfold compiled. rewrite compile_eq by auto.
  destruct (compile_with _ _ _ _ _ _ _) as [[st' c'] [[s costs]|e]]; reflexivity.
Qed.
Lemma C98_within_layered_lemma : forall n c target counts thr layers,
  c_dim c = (2 ^ n)%nat -> 0 < c_append c <= 1 -> good_table 0 n counts ->
  (forall pc, In pc counts -> (0 <= snd pc)%Z /\ continuous_source (p_source (fst pc))) ->
  built 0 target -> u_dim target = (2 ^ n)%nat -> 0 <= c_rate c -> 0 <= c_max_beta c ->
  match thr with Some t => t <= 1 | None => True end ->
  (forall l, In l layers -> layer_of 0 (2 ^ n) counts l) -> cost_of n target (List.concat layers) < tolerance thr ->
  exists rho, 0 < rho <= 1 /\ forall st b max, exact_world (r_world st) -> 0 <= b -> (Z.of_nat (List.length layers) <= max)%Z ->
    chance_at_least (r_draws st) (fun g => exists gs costs, compiled_layered st (set_beta c b) target counts thr max g = Some (gs, costs) /\
        cost_of n target gs <= tolerance thr) rho.
Proof.
  intros n c target counts thr layers Hd Hap HC HP HT HD Hr Hm Ht HG Hc.
  assert (HCS : forall p, In p (table_list counts) -> continuous_source (p_source p)).
  { intros p Hp. unfold table_list in Hp. apply in_flat_map in Hp. destruct Hp as (pc & Hpc & Hp). apply repeat_spec in Hp. subst p. now apply HP. }
  destruct (layered_once n c target counts Hd Hap HC (fun pc H => proj1 (HP pc H)) HCS HT HD thr layers Hr Hm Ht HG Hc) as (rho & M2 & H).
  exists rho. split; auto.
  intros st b max HX Hb Hl. apply floor_chance. eapply least_ext; [|exact (H st b max HX Hb Hl)]. intros g. unfold compiled_layered, compile_layered.
  destruct (compile_with _ _ _ _ _ _ _) as [[st' c'] [[s costs]|e]]; reflexivity.
Qed.
