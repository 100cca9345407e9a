(** The offered gates and layers: finitely many, all well-formed. *)
From Coq Require Import Reals List Arith Lia Lra Bool ZArith Permutation ClassicalEpsilon.
From Coquelicot Require Import Coquelicot.
From Verif Require Import Base CMat CMatFacts Det DetFacts Norms ModelUnitary ModelEntry ModelPrimitive
  ModelSequence ModelCompiler Spec SpecModel SpecCompiler PUnitary PUnitaryProps PEmbed PEntry PSeqHeap PSeqMeth PSeqNear PSeqWorld
  PSeqUndo PSeqInv PSeqHist PSeqProps PSeqCases PCompView PCompRun PCompEntry PCompLoop PCompTrace PCompTotal PCompProps PCompMore
  PCompCases PCompEx PReach PVerify SpecChain PChain PChainStep PChainRun PChainBal PChainHit PChainLay PRecur PAlmost.
Import ListNotations.
Open Scope R_scope.
Set Bullet Behavior "Strict Subproofs".

Definition fits (n : nat) (g : gatety) : Prop :=
  wf (fst g) /\ placement n (snd g) /\ (2 ^ List.length (snd g))%nat = u_dim (fst g).

Lemma places_fit n p u qs : good_primitive 0 n p -> p_source p = Fixed u -> In qs (places n (Nat.log2 (u_dim u)) p) -> fits n (u, qs).
Proof.
  intros [GS GA] HS Hq. rewrite HS in GS, GA. cbn [good_source src_dim] in GS, GA.
  assert (W : wf u) by (eapply built_wf; apply made_built0; exact GS). unfold places in Hq.
  destruct (p_allowed p) as [ls|].
  - destruct (GA qs Hq) as [P1 P2]. split; [|split]; auto.
  - destruct GA as (k & Hk & GA). rewrite GA, Nat.log2_pow2 in Hq by lia. apply in_map_iff in Hq. destruct Hq as (o & <- & Ho).
    apply orders_spec in Ho. destruct (firstn_perm_placement n k o Hk Ho) as [P1 P2]. split; [exact W|]. split; [exact P1|].
    cbn [fst snd]. now rewrite P2, GA.
Qed.
Lemma places_nonempty n k p : usable p = true -> places n k p <> [].
Proof.
  unfold usable, places. destruct (p_allowed p) as [[|x l]|]; try discriminate.
  intros _ E. apply map_eq_nil in E. now apply orders_nonempty in E.
Qed.

Lemma gate_fin n p : good_primitive 0 n p -> fin (gate_mean n p) (fits n).
Proof.
  intros G. unfold gate_mean. destruct (p_source p) as [u|] eqn:E; [|apply fin_zero].
  apply (fin_meanl _ (fun qs (F : gatety -> R) => F (u, qs))). intros qs Hq. apply (fin_one (u, qs)). now apply (places_fit n p).
Qed.
Lemma gate_one n p : usable p = true -> (exists u, p_source p = Fixed u) -> gate_mean n p (fun _ => 1) = 1.
Proof. intros U [u E]. unfold gate_mean. rewrite E. apply meanl_const. now apply places_nonempty. Qed.

Lemma offer_fin n ps q : choosable ps q -> (forall p, In p ps -> good_primitive 0 n p) -> fin (offer_mean n ps q) (fits n).
Proof.
  intros [N HQ] HP. unfold offer_mean. change has_place with usable.
  assert (G : forall p, In p (filter usable ps) -> fin (gate_mean n p) (fits n)).
  { intros p Hp. apply filter_In in Hp. apply gate_fin. apply HP, Hp. }
  destruct q as [q|].
  - assert (HS := good_sum_pos _ _ HQ). destruct HQ as (L & Q0 & _). rewrite sumR_fold in HS.
    eapply (fin_ext (fun F => / fold_right Rplus 0 q *
      fold_right Rplus 0 (map (fun pq => snd pq * gate_mean n (fst pq) F) (List.combine (filter usable ps) q)))).
    + intros F. unfold Rdiv. ring.
    + apply fin_scal; [left; now apply Rinv_0_lt_compat|].
      apply (fin_sum _ (fun pq (F : gatety -> R) => snd pq * gate_mean n (fst pq) F)). intros [p x] Hx. cbn [fst snd].
      apply fin_scal; [apply Q0; eapply in_combine_r; exact Hx|]. apply G. eapply in_combine_l; exact Hx.
  - apply (fin_meanl _ (fun p (F : gatety -> R) => gate_mean n p F)). exact G.
Qed.

Lemma offer_one n ps q : choosable ps q -> (forall p, In p ps -> exists u, p_source p = Fixed u) -> offer_mean n ps q (fun _ => 1) = 1.
Proof.
  intros [N HQ] HF. unfold offer_mean. change has_place with usable.
  assert (G : forall p, In p (filter usable ps) -> gate_mean n p (fun _ => 1) = 1).
  { intros p Hp. apply filter_In in Hp. apply gate_one; [apply Hp|]. apply HF, Hp. }
  destruct q as [q|].
  - assert (HS := good_sum_pos _ _ HQ). destruct HQ as (L & _ & _). rewrite sumR_fold in HS.
    assert (E : fold_right Rplus 0 (map (fun pq => snd pq * gate_mean n (fst pq) (fun _ => 1)) (List.combine (filter usable ps) q)) = fold_right Rplus 0 q).
    { clear - L G. revert q L. induction (filter usable ps) as [|p us IH]; intros [|x q] L; try discriminate; auto.
      cbn [List.combine map fold_right fst snd]. rewrite G by now left. rewrite IH; [ring|intros; apply G; now right|now injection L]. }
    rewrite E. field. lra.
  - rewrite (meanl_ext _ _ (fun _ => 1)) by exact G. now apply meanl_const.
Qed.

(** * Single gates *)
Section Single.
Variables (n : nat) (c : compiler).
Hypothesis HC : good_compiler 0 n c.
Hypothesis HF : fixed_gates c.
Notation ap := (c_append c).
Notation om := (offer_mean n (c_prims c) (c_probs c)).
Definition offered (gs : list gatety) : Prop := forall g, In g gs -> 0 < gate_chance n c g.
Definition single_block (x : list gatety) : Prop := exists g, x = [g] /\ 0 < gate_chance n c g.

Let CH : choosable (c_prims c) (c_probs c) := good_choosable 0 n c HC.
Let Hap : 0 <= ap <= 1 := proj1 (proj2 HC).

Lemma om_fin : fin om (fun g => fits n g /\ 0 < gate_chance n c g).
Proof. apply fin_sharp. apply offer_fin; auto. apply HC. Qed.
Lemma om_one : om (fun _ => 1) = 1.
Proof. apply offer_one; auto. Qed.

Lemma chance_fits g : 0 < gate_chance n c g -> fits n g.
Proof.
  intros H. destruct (Classical_Prop.classic (fits n g)) as [|N]; auto. exfalso. unfold gate_chance in H.
  rewrite (fin_eq om _ _ (fun g => 0 * 1) om_fin) in H.
  - rewrite offer_mean_scal in H. lra.
  - intros a [Ha _]. rewrite ind_false; [ring|]. intros ->. auto.
Qed.
Lemma offered_unitary gs : offered gs -> unitary_mx (2 ^ n) (ordered n gs).
Proof. intros H. apply (ordered_special n gs). intros g Hg. apply (chance_fits g). auto. Qed.
Lemma offered_app a b : offered a -> offered b -> offered (a ++ b).
Proof. intros Ha Hb g Hg. apply in_app_or in Hg. destruct Hg; auto. Qed.
Lemma offered_split a : offered a -> exists xs, (forall x, In x xs -> single_block x) /\ a = List.concat xs.
Proof.
  intros H. exists (map (fun g => [g]) a). split.
  - intros x Hx. apply in_map_iff in Hx. destruct Hx as (g & <- & Hg). exists g. auto.
  - clear. induction a as [|g t IH]; cbn; congruence.
Qed.

Lemma in_tl {A} (x : A) l : In x (tl l) -> In x l.
Proof. destruct l; cbn; auto. Qed.
Lemma in_removelast {A} (x : A) l : In x (removelast l) -> In x l.
Proof.
  induction l as [|a [|b l] IH]; auto; [intros []|]. intros [E|H]; [now left|right; apply IH; exact H].
Qed.

Lemma single_fin gs : offered gs -> fin (single_mean n c gs) offered.
Proof.
  intros H. unfold single_mean. repeat apply fin_plus; apply fin_scal; try lra.
  - apply (fin_bind om (fun g (F : list gatety -> R) => F (g :: gs)) _ offered om_fin). intros g [_ Hg]. apply (fin_one (g :: gs)).
    intros g' [<-|H']; auto.
  - apply (fin_bind om (fun g (F : list gatety -> R) => F (gs ++ [g])) _ offered om_fin). intros g [_ Hg]. apply (fin_one (gs ++ [g])).
    apply offered_app; auto. intros g' [<-|[]]. auto.
  - apply (fin_one (tl gs)). intros g Hg. apply H. now apply in_tl.
  - apply (fin_one (removelast gs)). intros g Hg. apply H. now apply in_removelast.
Qed.
Lemma single_one gs : single_mean n c gs (fun _ => 1) = 1.
Proof. unfold single_mean. rewrite !om_one. field. Qed.
End Single.

(** * Layers *)
Section Layers.
Variables (n : nat) (c : compiler) (counts : list (primitive * Z)).
Hypothesis Hd : c_dim c = (2 ^ n)%nat.
Hypothesis Hap : 0 <= c_append c <= 1.
Hypothesis HC : good_table 0 n counts.
Hypothesis HF : fixed_table counts.
Hypothesis HN : forall pc, In pc counts -> (0 <= snd pc)%Z.
Notation ps := (table_list counts).
Definition layer_block (x : list gatety) : Prop := 0 < layer_chance n counts x.
Definition layered (gs : list gatety) : Prop := exists xs, (forall x, In x xs -> layer_block x) /\ gs = List.concat xs.

Lemma gates_fin ps0 : (forall p, In p ps0 -> good_primitive 0 n p) ->
  fin (gates_mean n ps0) (fun l => (forall g, In g l -> fits n g) /\ List.length l = List.length ps0).
Proof.
  induction ps0 as [|p t IH]; intros H; cbn [gates_mean].
  - apply (fin_one (@nil gatety)). split; auto. intros g [].
  - apply (fin_bind (gate_mean n p) (fun g (F : list gatety -> R) => gates_mean n t (fun l => F (g :: l))) (fits n)).
    + apply gate_fin, H. now left.
    + intros g Hg. apply (fin_bind (gates_mean n t) (fun l (F : list gatety -> R) => F (g :: l)) _ _ (IH (fun q Hq => H q (or_intror Hq)))).
      intros l [L1 L2]. apply (fin_one (g :: l)). split; [|cbn; congruence]. intros g' [<-|H']; auto.
Qed.
Lemma gates_one ps0 : (forall p, In p ps0 -> usable p = true /\ exists u, p_source p = Fixed u) -> gates_mean n ps0 (fun _ => 1) = 1.
Proof.
  induction ps0 as [|p t IH]; intros H; cbn [gates_mean]; auto. destruct (H p (or_introl eq_refl)) as [U E].
  rewrite IH by (intros q Hq; apply H; now right). now apply gate_one.
Qed.

Lemma table_fixed p : In p ps -> exists u, p_source p = Fixed u.
Proof.
  intros Hp. unfold table_list in Hp. apply in_flat_map in Hp. destruct Hp as (pc & Hq & Hp). apply repeat_spec in Hp. subst. now apply HF.
Qed.
Lemma layer_one : layer_mean n counts (fun _ => 1) = 1.
Proof.
  unfold layer_mean. assert (E : gates_mean n ps (fun _ => 1) = 1).
  { apply gates_one. intros p Hp. split; [apply (table_good n c counts Hd HC p Hp)|now apply table_fixed]. }
  apply Rle_antisym.
  - eapply Rle_trans; [apply gates_mean_le|right; exact E]. intros l. rewrite meanl_const; [lra|apply orders_nonempty].
  - eapply Rle_trans; [right; symmetry; exact E|]. apply gates_mean_le. intros l. rewrite meanl_const; [lra|apply orders_nonempty].
Qed.

Definition whole (x : list gatety) : Prop :=
  ((forall g, In g x -> fits n g) /\ List.length x = List.length ps) /\ layer_block x /\ layer_block (rev x).
Lemma order_chance l x : 0 < gates_mean n ps (fun b => ind (b = l)) -> In x (orders l) -> layer_block x.
Proof.
  intros Hl Hx. unfold layer_block, layer_chance, layer_mean. set (k := meanl (orders l) (fun b => ind (b = x))).
  assert (K : 0 < k).
  { unfold k, meanl. apply Rdiv_lt_0_compat.
    - clear - Hx. induction (orders l) as [|y t IH]; [destruct Hx|]. cbn [map fold_right].
      assert (T : 0 <= fold_right Rplus 0 (map (fun b => ind (b = x)) t)).
      { clear. induction t as [|z t IH]; cbn [map fold_right]; [lra|]. assert (I := ind_range (z = x)). lra. }
      destruct Hx as [->|Hx]; [rewrite ind_true by auto; lra|]. assert (I := ind_range (y = x)). assert (J := IH Hx). lra.
    - apply lt_0_INR. destruct (orders l); [destruct Hx|cbn; lia]. }
  apply Rlt_le_trans with (k * gates_mean n ps (fun b => ind (b = l))); [now apply Rmult_lt_0_compat|].
  rewrite <- gates_mean_scal. apply gates_mean_le. intros b. destruct (Classical_Prop.classic (b = l)) as [->|NE].
  - rewrite ind_true by auto. unfold k. lra.
  - rewrite ind_false by auto. rewrite Rmult_0_r. apply Rle_trans with (meanl (orders b) (fun _ => 0)).
    + rewrite meanl_const; [lra|apply orders_nonempty].
    + apply meanl_le. intros. apply ind_range.
Qed.
Lemma layer_fin : fin (layer_mean n counts) whole.
Proof.
  unfold layer_mean. assert (G := fin_sharp _ _ (gates_fin ps (fun p Hp => proj1 (table_good n c counts Hd HC p Hp)))).
  apply (fin_bind (gates_mean n ps) (fun l (F : list gatety -> R) => meanl (orders l) F) _ whole G).
  intros l [[L1 L2] L3]. apply (fin_meanl _ (fun x (F : list gatety -> R) => F x)). intros x Hx. apply (fin_one x).
  assert (PM := proj1 (orders_spec l x) Hx). split; [split|split].
  - intros g Hg. apply L1. eapply Permutation_in; [exact PM|exact Hg].
  - rewrite (Permutation_length PM). exact L2.
  - now apply (order_chance l).
  - apply (order_chance l); auto. apply orders_spec. eapply Permutation_trans; [apply Permutation_sym, Permutation_rev|exact PM].
Qed.
Lemma block_whole x : layer_block x -> whole x.
Proof.
  intros H. destruct (Classical_Prop.classic (whole x)) as [|N]; auto. exfalso. unfold layer_block, layer_chance in H.
  rewrite (fin_eq (layer_mean n counts) _ _ (fun g => 0 * 1) layer_fin) in H.
  - rewrite layer_mean_scal in H. lra.
  - intros a Ha. rewrite ind_false; [ring|]. intros ->. auto.
Qed.

Lemma size_table : Z.to_nat (fold_right Z.add 0%Z (map snd counts)) = List.length ps.
Proof.
  clear HC HF. revert HN. unfold table_list. induction counts as [|pc t IH]; intros H; auto. cbn [map fold_right flat_map].
  rewrite app_length, repeat_length, <- IH by (intros; apply H; now right).
  assert (0 <= snd pc)%Z by (apply H; now left).
  assert (0 <= fold_right Z.add 0 (map snd t))%Z.
  { assert (forall x, In x t -> (0 <= snd x)%Z) by (intros; apply H; now right). clear - H1. induction t as [|x t IH]; cbn [map fold_right]; [lia|].
    assert (0 <= snd x)%Z by (apply H1; now left). assert (0 <= fold_right Z.add 0 (map snd t))%Z by (apply IH; intros; apply H1; now right). lia. }
  lia.
Qed.

Lemma layered_app a b : layered a -> layered b -> layered (a ++ b).
Proof.
  intros (xs & X1 & ->) (ys & Y1 & ->). exists (xs ++ ys). split; [|now rewrite concat_app].
  intros x Hx. apply in_app_or in Hx. destruct Hx; auto.
Qed.
Lemma layered_block x : layer_block x -> layered x.
Proof. intros H. exists [x]. split; [intros y [<-|[]]; auto|]. cbn. now rewrite app_nil_r. Qed.
Lemma layered_unitary gs : layered gs -> unitary_mx (2 ^ n) (ordered n gs).
Proof.
  intros (xs & X1 & ->). apply (ordered_special n). intros g Hg. apply in_concat in Hg. destruct Hg as (x & Hx & Hg).
  now apply (block_whole x (X1 x Hx)).
Qed.

Lemma layered_skip gs : layered gs -> layered (skipn (List.length ps) gs).
Proof.
  intros (xs & X1 & ->). destruct xs as [|x xs].
  - cbn [List.concat]. rewrite skipn_nil. exists []. split; [intros ? []|reflexivity].
  - cbn [List.concat]. destruct (block_whole x (X1 x (or_introl eq_refl))) as [[_ L] _]. rewrite <- L, skipn_app, skipn_all, Nat.sub_diag.
    cbn [app skipn]. exists xs. split; auto. intros. apply X1. now right.
Qed.
Lemma layered_first gs : layered gs -> layered (firstn (List.length gs - List.length ps) gs).
Proof.
  intros (xs & X1 & ->). destruct xs as [|x xs] using rev_ind.
  - cbn [List.concat]. rewrite firstn_nil. exists []. split; [intros ? []|reflexivity].
  - clear IHxs. rewrite concat_app. cbn [List.concat]. rewrite app_nil_r.
    destruct (block_whole x (X1 x ltac:(apply in_or_app; right; now left))) as [[_ L] _].
    rewrite app_length, L, Nat.add_sub, firstn_app, firstn_all, Nat.sub_diag. cbn [firstn]. rewrite app_nil_r.
    exists xs. split; auto. intros. apply X1. apply in_or_app. now left.
Qed.

Lemma layered_fin gs : layered gs -> fin (layered_mean n c counts gs) layered.
Proof.
  intros H. unfold layered_mean. cbv zeta. rewrite size_table. repeat apply fin_plus; apply fin_scal; try lra.
  - apply (fin_bind (layer_mean n counts) (fun l (F : list gatety -> R) => F (rev l ++ gs)) _ layered layer_fin). intros l (_ & _ & Hl).
    apply (fin_one (rev l ++ gs)). apply layered_app; auto. now apply layered_block.
  - apply (fin_bind (layer_mean n counts) (fun l (F : list gatety -> R) => F (gs ++ l)) _ layered layer_fin). intros l (_ & Hl & _).
    apply (fin_one (gs ++ l)). apply layered_app; auto. now apply layered_block.
  - apply (fin_one (skipn (List.length ps) gs)). now apply layered_skip.
  - apply (fin_one (firstn (List.length gs - List.length ps) gs)). now apply layered_first.
Qed.
Lemma layered_one gs : layered_mean n c counts gs (fun _ => 1) = 1.
Proof. unfold layered_mean. cbv zeta. rewrite !layer_one. field. Qed.
End Layers.
