(** Lower bounds for the chances of a random change. *)
From Coq Require Import Reals List Arith Lia Lra Bool String ZArith Permutation ClassicalEpsilon.
From Coquelicot Require Import Coquelicot.
From Verif Require Import Base CMat CMatFacts Det DetFacts Norms ModelUnitary ModelEntry ModelPrimitive
  ModelSequence ModelCompiler Spec SpecModel SpecCompiler PUnitary PUnitaryProps PEmbed PEntry PSeqHeap PSeqMeth PSeqNear PSeqWorld
  PSeqUndo PSeqInv PSeqHist PSeqProps PSeqCases PCompView PCompRun PCompEntry PCompLoop PCompTrace PCompTotal PCompProps PCompMore
  PCompCases PCompEx PReach PVerify SpecChain PChain PChainStep PChainRun PChainLay SpecFloor PFloor PFloorNear PFloorComp.
Import ListNotations.
Open Scope R_scope.
Open Scope se_scope.
Set Bullet Behavior "Strict Subproofs".

Notation chits := (hits c_draws).
Notation ctree := (tree c_draws).

Lemma hits_run {A} (m : rng -> RM A) st c (Q : rstate -> A -> Prop) w : rhits m st Q w ->
  chits (fun g => c_run (m g)) (st, c) (fun sc a => Q (fst sc) a /\ snd sc = c) w.
Proof.
  intros H r0 h f lo hi L D Hl K. apply (H r0 h f lo hi L D Hl). intros h' s' x L' D' E.
  destruct (K h' (s', c) x L' D') as [K1 K2].
  - intros g G T. destruct (E g G T) as [T1 E1]. split; auto. unfold c_run. cbn [fst snd]. now rewrite E1.
  - split; [exact K1|]. intros HQ. apply K2. intros a Ha. auto.
Qed.
Lemma tree_run {A} (m : rng -> RM A) sc : rtree m (fst sc) -> ctree (fun g => c_run (m g)) sc.
Proof. intros H. destruct sc as [st c]. eapply hits_weaken; [|apply hits_run, H]. auto. Qed.
Lemma hits_self sc (Q : rstate * compiler -> compiler -> Prop) : Q sc (snd sc) -> chits (fun _ => c_self) sc Q 1.
Proof. intros H. apply hits_det with (s' := sc) (x := Ok (snd sc)); auto. now intros ? [= <-]. Qed.
Lemma tree_self sc : ctree (fun _ => c_self) sc.
Proof. now apply tree_det with (s' := sc) (x := Ok (snd sc)). Qed.

Lemma tree_action ap st : rtree (fun g => choose_action g ap) st.
Proof. unfold choose_action. cbv zeta. apply tree_bind; [apply tree_choice_p|]. intros. apply tree_ret. Qed.

Lemma action_last ap x : 0 <= ap <= 1 -> ap / 2 <= x < ap -> action_at ap x = ActAppendLast.
Proof. intros Ha Hx. unfold action_at. destruct (Rlt_dec _ _); [lra|]. destruct (Rlt_dec _ _); [reflexivity|lra]. Qed.

Lemma hits_action ap st : 0 <= ap <= 1 ->
  rhits (fun g => choose_action g ap) st (fun st' a => r_world st' = r_world st /\ a = ActAppendLast) (ap / 2).
Proof.
  intros Ha.
  apply hits_ask with (q := QUnif) (out := fun y => match y with
      AReal x => ({| r_world := r_world st; r_draws := S (r_draws st) |}, Ok (action_at ap x))
    | _ => ({| r_world := r_world st; r_draws := S (r_draws st) |}, Raise TypeError) end)
    (O := fun y => match y with AReal x => ap / 2 <= x < ap | _ => False end).
  - intros g G. cbn [reply]. now apply choose_action_at.
  - now intros [x| |].
  - cbn [mean_answer]. assert (X := between_RInt (ap / 2) ap ltac:(lra) ltac:(lra)). replace (ap - ap / 2) with (ap / 2) in X by field. exact X.
  - intros [x|k|l] Px; try contradiction. intros Hx v [= <-]. cbn [fst]. split; auto. now apply action_last.
Qed.

Lemma tree_append_all mk ls : forall first st, rtree (fun _ => append_all 0 mk ls first) st.
Proof.
  induction ls as [|l t IH]; intros first st; cbn [append_all]; [apply tree_ret|]. apply tree_bind; [apply tree_call|]. intros. apply IH.
Qed.
Lemma tree_remove_all mk k : forall first st, rtree (fun _ => remove_all 0 mk k first) st.
Proof.
  induction k as [|k IH]; intros first st; cbn [remove_all]; [apply tree_ret|]. apply tree_bind; [apply tree_call|]. intros. apply IH.
Qed.

Lemma append_all_keeps mk ls : forall first st, r_draws (fst (append_all 0 mk ls first st)) = r_draws st.
Proof.
  induction ls as [|l t IH]; intros first st; cbn [append_all]; [reflexivity|]. unfold se_bind, call.
  destruct (step 0 (mk l first) (r_world st)) as [w [v|e]]; [|reflexivity]. now rewrite IH.
Qed.

(** * One gate *)
Lemma tree_single s sc : ctree (fun g => make_random_change g 0 s) sc.
Proof.
  unfold make_random_change. apply tree_bind; [apply tree_self|]. intros sc1 c. apply tree_bind; [apply tree_run, tree_action|].
  intros sc2 a. destruct a.
  - apply tree_bind; [apply tree_run, tree_create|]. intros sc3 l. apply tree_bind; [apply tree_run, tree_call|]. intros. apply tree_ret.
  - apply tree_bind; [apply tree_run, tree_create|]. intros sc3 l. apply tree_bind; [apply tree_run, tree_call|]. intros. apply tree_ret.
  - apply tree_bind; [apply tree_run, tree_call|]. intros. apply tree_ret.
  - apply tree_bind; [apply tree_run, tree_call|]. intros. apply tree_ret.
Qed.

Lemma single_hits e n c gt : 0 < e -> good_compiler 0 n c -> (forall p, In p (c_prims c) -> continuous_source (p_source p)) ->
  0 < c_append c -> on_offer n c gt ->
  exists w, 0 < w <= 1 /\ forall s st b cs pv, sees 0 (r_world st) s (2 ^ n) cs pv ->
    chits (fun g => make_random_change g 0 s) (st, set_beta c b)
      (fun sc _ => exists gt' pv', gate_near e gt gt' /\ sees 0 (r_world (fst sc)) s (2 ^ n) (cs ++ [gt']) pv') w.
Proof.
  intros He HC HCS Hap (p & HW & HA). assert (CH := good_choosable 0 n c HC). destruct HC as (Hd & Ha & GP & _).
  assert (Hp : In p (c_prims c)). { destruct HW as (i & Hi & _). apply nth_error_In, filter_In in Hi. apply Hi. }
  destruct (create_hits e n (c_prims c) (c_probs c) p gt He (HCS p Hp) CH HW (GP p Hp) HA) as (w & Ww & H).
  assert (P1 : 0 <= 1 * 1 <= 1) by lra. assert (P2 : 0 <= w * (1 * 1) <= 1) by lra.
  exists (1 * (c_append c / 2 * (w * (1 * 1)))). split; [split; [repeat apply Rmult_lt_0_compat; lra|nra]|].
  intros s st b cs pv HS. unfold make_random_change.
  eapply hits_bind with (Q1 := fun sc' c' => sc' = (st, set_beta c b) /\ c' = set_beta c b); [nra|now apply hits_self| |].
  2:{ intros sc1 c1. apply tree_bind; [apply tree_run, tree_action|]. intros sc2 a. destruct a.
      - apply tree_bind; [apply tree_run, tree_create|]. intros sc3 l. apply tree_bind; [apply tree_run, tree_call|]. intros. apply tree_ret.
      - apply tree_bind; [apply tree_run, tree_create|]. intros sc3 l. apply tree_bind; [apply tree_run, tree_call|]. intros. apply tree_ret.
      - apply tree_bind; [apply tree_run, tree_call|]. intros. apply tree_ret.
      - apply tree_bind; [apply tree_run, tree_call|]. intros. apply tree_ret. }
  intros sc1 c1 [-> ->]. cbv beta. eapply hits_bind; [exact P2|apply hits_run, hits_action; exact Ha| |].
  2:{ intros sc2 a. destruct a.
      - apply tree_bind; [apply tree_run, tree_create|]. intros sc3 l. apply tree_bind; [apply tree_run, tree_call|]. intros. apply tree_ret.
      - apply tree_bind; [apply tree_run, tree_create|]. intros sc3 l. apply tree_bind; [apply tree_run, tree_call|]. intros. apply tree_ret.
      - apply tree_bind; [apply tree_run, tree_call|]. intros. apply tree_ret.
      - apply tree_bind; [apply tree_run, tree_call|]. intros. apply tree_ret. }
  intros [st2 c2] a [[Ew ->] Ec]. cbn [fst snd] in Ew, Ec. subst c2. cbv beta iota. cbn [set_beta c_dim c_prims c_probs]. rewrite Hd.
  eapply hits_bind; [exact P1|apply hits_run, H| |].
  2:{ intros sc3 l. apply tree_bind; [apply tree_run, tree_call|]. intros. apply tree_ret. }
  intros [st3 c3] l [(gt' & N & L & Sp) Ec]. cbn [fst snd] in *. subst c3. cbv beta.
  assert (HS3 : sees 0 (r_world st3) s (2 ^ n) cs pv) by (rewrite <- Ew in HS; now apply (Sp s)).
  eapply hits_bind with (Q1 := fun sc _ => exists pv', sees 0 (r_world (fst sc)) s (2 ^ n) (cs ++ [gt']) pv'); [lra| | |intros; apply tree_ret].
  - destruct (step 0 (AppendLast s l true) (r_world st3)) as [w3 x] eqn:E.
    eapply hits_det with (s' := ({| r_world := w3; r_draws := r_draws st3 |}, _)) (x := x).
    + intros _. unfold c_run, call. cbn [fst snd]. now rewrite E.
    + reflexivity.
    + intros v ->. destruct (append_last_view 0 _ _ _ _ _ _ _ _ _ _ HS3 L E) as (S4 & _). cbn [fst r_world]. eauto.
  - intros [st4 c4] v (pv' & S4). apply hits_ret. eauto.
Qed.

(** * A layer *)
Lemma tree_layered counts s sc : ctree (fun g => make_random_change_layered g 0 counts s) sc.
Proof.
  unfold make_random_change_layered. apply tree_bind; [apply tree_self|]. intros sc1 c. apply tree_bind; [apply tree_run, tree_action|].
  intros sc2 a. destruct a.
  - apply tree_bind; [apply tree_run, tree_layer|]. intros sc3 l. apply tree_run, tree_append_all.
  - apply tree_bind; [apply tree_run, tree_layer|]. intros sc3 l. apply tree_run, tree_append_all.
  - apply tree_run, tree_remove_all.
  - apply tree_run, tree_remove_all.
Qed.

Lemma layered_hits e n c counts layer : 0 < e -> c_dim c = (2 ^ n)%nat -> 0 < c_append c <= 1 -> good_table 0 n counts ->
  (forall p, In p (table_list counts) -> continuous_source (p_source p)) -> layer_on_offer n counts layer ->
  exists w, 0 < w <= 1 /\ forall s st b cs pv, sees 0 (r_world st) s (2 ^ n) cs pv -> WG 0 anyg (r_world st) ->
    chits (fun g => make_random_change_layered g 0 counts s) (st, set_beta c b)
      (fun sc _ => exists gts' pv', Forall2 (gate_near e) layer gts' /\ sees 0 (r_world (fst sc)) s (2 ^ n) (cs ++ gts') pv') w.
Proof.
  intros He Hd Hap HC HCS HL. destruct (layer_hits e n counts layer He HC HCS HL) as (w & Ww & H).
  assert (P2 : 0 <= w * 1 <= 1) by lra.
  exists (1 * (c_append c / 2 * (w * 1))). split; [split; [repeat apply Rmult_lt_0_compat; lra|nra]|].
  intros s st b cs pv HS HWG. unfold make_random_change_layered.
  eapply hits_bind with (Q1 := fun sc' c' => sc' = (st, set_beta c b) /\ c' = set_beta c b); [nra|now apply hits_self| |].
  2:{ intros sc1 c1. apply tree_bind; [apply tree_run, tree_action|]. intros sc2 a. destruct a.
      - apply tree_bind; [apply tree_run, tree_layer|]. intros sc3 l. apply tree_run, tree_append_all.
      - apply tree_bind; [apply tree_run, tree_layer|]. intros sc3 l. apply tree_run, tree_append_all.
      - apply tree_run, tree_remove_all.
      - apply tree_run, tree_remove_all. }
  intros sc1 c1 [-> ->]. cbv beta. eapply hits_bind; [exact P2|apply hits_run, hits_action; cbn [set_beta c_append]; lra| |].
  2:{ intros sc2 a. destruct a.
      - apply tree_bind; [apply tree_run, tree_layer|]. intros sc3 l. apply tree_run, tree_append_all.
      - apply tree_bind; [apply tree_run, tree_layer|]. intros sc3 l. apply tree_run, tree_append_all.
      - apply tree_run, tree_remove_all.
      - apply tree_run, tree_remove_all. }
  intros [st2 c2] a [[Ew ->] Ec]. cbn [fst snd] in Ew, Ec. subst c2. cbv beta iota. cbn [set_beta c_dim c_prims c_probs]. rewrite Hd.
  rewrite <- Ew in HS, HWG.
  eapply hits_bind; [lra|apply hits_run, H; exact HWG| |intros; apply tree_run, tree_append_all].
  intros [st3 c3] ls [(gts' & N & L & Sp) Ec]. cbn [fst snd] in *. subst c3. cbv beta.
  assert (HS3 : sees 0 (r_world st3) s (2 ^ n) cs pv) by (now apply (Sp s)).
  eapply hits_weaken; [|apply hits_run with (Q := fun st' _ => exists pv', sees 0 (r_world st') s (2 ^ n) (cs ++ gts') pv')].
  - intros sc v [(pv' & S4) _]. exists gts', pv'. auto.
  - destruct (append_all 0 (AppendLast s) ls true st3) as [st4 x] eqn:E. apply hits_det with (s' := st4) (x := x); auto.
    + assert (X := append_all_keeps (AppendLast s) ls true st3). rewrite E in X. exact X.
    + intros [] ->. destruct (append_all_last 0 s ls gts' true st3 st4 _ cs pv E HS3 L) as (S4 & _). eauto.
Qed.
