(** How many gates a run can have placed, and what follows for the costs: C107. *)
From Coq Require Import Reals List Arith Lia Lra Bool String ZArith Permutation.
From Coquelicot Require Import Coquelicot.
From Verif Require Import Base CMat CMatFacts Det DetFacts Norms ModelUnitary ModelEntry ModelPrimitive
  ModelSequence ModelCompiler ModelRound ModelRoundComp Spec SpecModel SpecCompiler SpecRound SpecRoundComp SpecAgree SpecChain SpecGates
  PUnitary PUnitaryProps PDrift PEmbed PEntry PSeqHeap PSeqMeth PSeqNear PSeqWorld
  PSeqUndo PSeqInv PSeqHist PSeqProps PSeqCases PCompView PCompRun PCompEntry PCompLoop PCompTrace PCompTotal PCompProps PCompMore
  PCompCases PCompEx PAgree PAgree2 PAgreeEx.
Import ListNotations.
Open Scope R_scope.
Set Bullet Behavior "Strict Subproofs".

(** ** Growth of a plain sequence *)
Definition short (A : nat) (q : rseq) : Prop :=
  (List.length (rs_entries q) <= A)%nat /\ forall es, rs_prev q = Some es -> (List.length es <= A)%nat.

Lemma short_mono A B q : (A <= B)%nat -> short A q -> short B q.
Proof. intros L [H1 H2]. split; [lia|]. intros es E. specialize (H2 es E). lia. Qed.

Lemma save_short ar eps A sv q q' : short A q -> r_save ar eps sv q = Ok q' -> short A q'.
Proof.
  intros [H1 H2] E. unfold r_save in E. destruct sv; [|injection E as <-; now split].
  match type of E with bind ?x _ = _ => destruct x as [pp|]; [|discriminate] end. cbn [bind] in E. injection E as <-.
  split; cbn [rs_entries rs_prev]; [exact H1|]. intros es [= <-]. exact H1.
Qed.
Lemma set_short A q es upd q' : short A q -> (List.length es <= A)%nat -> r_set q es upd = Ok q' -> short A q'.
Proof.
  intros [H1 H2] L E. unfold r_set in E.
  match type of E with bind ?x _ = _ => destruct x as [pp|]; [|discriminate] end. cbn [bind] in E. injection E as <-.
  now split.
Qed.
Lemma step_short ar eps A q o q' : short A q -> r_step ar eps q o = Ok q' ->
  short (match o with RFirst _ _ | RLast _ _ => S A | _ => A end) q'.
Proof.
  intros HS E. destruct o as [g sv|g sv|sv|sv| |]; cbn [r_step] in E.
  - unfold assert in E. destruct (r_valid q g); [|discriminate]. cbn [bind] in E.
    destruct (r_save ar eps sv q) as [q1|] eqn:E1; [|discriminate]. cbn [bind] in E.
    assert (H1 := save_short _ _ _ _ _ _ HS E1). eapply set_short; [eapply short_mono; [|exact H1]; lia| |exact E].
    cbn [List.length]. destruct H1. lia.
  - unfold assert in E. destruct (r_valid q g); [|discriminate]. cbn [bind] in E.
    destruct (r_save ar eps sv q) as [q1|] eqn:E1; [|discriminate]. cbn [bind] in E.
    assert (H1 := save_short _ _ _ _ _ _ HS E1). eapply set_short; [eapply short_mono; [|exact H1]; lia| |exact E].
    rewrite app_length. cbn [List.length]. destruct H1. lia.
  - destruct (rs_entries q) as [|g t] eqn:Q; [injection E as <-; exact HS|].
    destruct (r_save ar eps sv q) as [q1|] eqn:E1; [|discriminate]. cbn [bind] in E.
    eapply set_short; [exact (save_short _ _ _ _ _ _ HS E1)| |exact E]. destruct HS as [H1 _]. rewrite Q in H1. cbn [List.length] in H1. lia.
  - destruct (rev (rs_entries q)) as [|g t] eqn:Q; [injection E as <-; exact HS|].
    destruct (r_save ar eps sv q) as [q1|] eqn:E1; [|discriminate]. cbn [bind] in E.
    eapply set_short; [exact (save_short _ _ _ _ _ _ HS E1)| |exact E].
    destruct HS as [H1 _]. rewrite <- rev_length, Q in H1. cbn [List.length] in H1. rewrite rev_length. lia.
  - destruct (rs_prev q) as [es|] eqn:Q; [|discriminate]. injection E as <-. split; cbn [rs_entries rs_prev]; [|discriminate].
    now apply HS.
  - destruct (r_product ar eps q) as [p|]; [|discriminate]. cbn [bind] in E. injection E as <-. exact HS.
Qed.
Lemma run_short ar eps : forall ops A q q', short A q -> r_run ar eps q ops = Ok q' -> short (A + List.length ops) q'.
Proof.
  induction ops as [|o t IH]; intros A q q' HS E; cbn [r_run List.length] in *.
  - injection E as <-. now rewrite Nat.add_0_r.
  - destruct (r_step ar eps q o) as [q1|] eqn:E1; [|discriminate]. cbn [bind] in E.
    rewrite <- Nat.add_succ_comm. apply (IH (S A) q1); [|exact E].
    eapply short_mono; [|exact (step_short _ _ _ _ _ _ HS E1)]. destruct o; lia.
Qed.
Lemma keep_short ar eps A q qp : short A q -> r_keep ar eps q = Ok qp -> short A (fst qp).
Proof.
  intros HS E. unfold r_keep in E. destruct (r_step ar eps q RProduct) as [q1|] eqn:E1; [|discriminate]. cbn [bind] in E.
  destruct (r_product ar eps q1) as [p|]; [|discriminate]. cbn [bind] in E. injection E as <-. cbn [fst].
  exact (step_short _ _ _ _ _ _ HS E1).
Qed.
Lemma compile_step_short ar eps target A s q qc : short A q -> r_compile_step ar eps target s q = Ok qc ->
  short (A + List.length (change_ops (rp_change s))) (fst qc).
Proof.
  intros HS E. unfold r_compile_step in E. destruct (r_keep ar eps q) as [qb|] eqn:E1; [|discriminate]. cbn [bind] in E.
  destruct (r_run ar eps (fst qb) (change_ops (rp_change s))) as [q1|] eqn:E2; [|discriminate]. cbn [bind] in E.
  destruct (r_distance_from ar eps target (snd qb)) as [x|]; [|discriminate]. cbn [bind] in E.
  destruct (r_keep ar eps q1) as [qp|] eqn:E3; [|discriminate]. cbn [bind] in E.
  destruct (r_distance_from ar eps target (snd qp)) as [y|]; [|discriminate]. cbn [bind] in E.
  assert (H3 := keep_short _ _ _ _ _ (run_short _ _ _ _ _ _ (keep_short _ _ _ _ _ HS E1) E2) E3).
  destruct (rp_accept s x y); [injection E as <-; exact H3|].
  destruct (r_step ar eps (fst qp) RUndo) as [q3|] eqn:E4; [|discriminate]. cbn [bind] in E. injection E as <-. cbn [fst].
  exact (step_short _ _ _ _ _ _ H3 E4).
Qed.
Lemma loop_short ar eps target close m : forall steps A q q' costs, short A q ->
  (forall s, In s steps -> (List.length (change_ops (rp_change s)) <= m)%nat) ->
  r_compile_loop ar eps target close steps q = Ok (q', costs) -> short (A + List.length costs * m) q'.
Proof.
  induction steps as [|s t IH]; intros A q q' costs HS L E; cbn [r_compile_loop] in E;
    (destruct (r_keep ar eps q) as [qp|] eqn:E1; [|discriminate]); cbn [bind] in E;
    (destruct (r_distance_from ar eps (snd qp) target) as [x|]; [|discriminate]); cbn [bind] in E;
    assert (H1 := keep_short _ _ _ _ _ HS E1); destruct (close x);
    try (injection E as <- <-; cbn [List.length]; now rewrite Nat.add_0_r).
  destruct (r_compile_step ar eps target s (fst qp)) as [qc|] eqn:E2; [|discriminate]. cbn [bind] in E.
  destruct (r_compile_loop ar eps target close t (fst qc)) as [[q2 cs]|] eqn:E3; [|discriminate]. cbn [bind] in E.
  injection E as <- <-. cbn [fst snd List.length].
  assert (H2 := compile_step_short _ _ _ _ _ _ _ H1 E2).
  eapply short_mono; [|eapply IH; [exact H2| |exact E3]; intros; apply L; now right].
  specialize (L s (or_introl eq_refl)). cbn. lia.
Qed.

(** ** The number of gates of a compiled sequence *)
Theorem compile_gates : forall g eps st c target thr K st' c' s costs,
  rng_ok g -> reachable eps (r_world st) ->
  compile g eps target thr K (st, c) = ((st', c'), Ok (s, costs)) ->
  (List.length (contents (r_world st') s) <= List.length costs)%nat.
Proof.
  intros g eps st c target thr K st' c' s costs G HR E.
  destruct (compile_agrees2 g eps target thr K st c st' c' s costs G HR E) as (steps & q & L & ER & V & P).
  rewrite (view_contents _ _ _ V). unfold r_compile in ER.
  assert (S0 : short 0 (r_empty (c_dim c))) by (split; [reflexivity|discriminate]).
  assert (X := fun H => loop_short _ _ _ _ 1 steps 0 _ q costs S0 H ER). rewrite Nat.mul_1_r in X. refine (proj1 (X _)). clear X.
  intros pr Hp. apply In_nth_error in Hp. destruct Hp as (k & Hk). destruct (P k pr Hk) as [I _]. rewrite ops_length. unfold drawn_change in I.
  destruct (rp_change pr) as [gs|gs|j|j]; try lia.
  all: destruct I as (g1 & p & -> & _); cbn; lia.
Qed.

Theorem layered_gates : forall g eps st c target counts thr K st' c' s costs,
  rng_ok g -> reachable eps (r_world st) ->
  compile_layered g eps target counts thr K (st, c) = ((st', c'), Ok (s, costs)) ->
  (List.length (contents (r_world st') s) <= List.length costs * table_size counts)%nat.
Proof.
  intros g eps st c target counts thr K st' c' s costs G HR E.
  destruct (layered_compile_agrees2 g eps target counts thr K st c st' c' s costs G HR E) as (steps & q & L & ER & V & P).
  rewrite (view_contents _ _ _ V). unfold r_compile in ER.
  assert (S0 : short 0 (r_empty (c_dim c))) by (split; [reflexivity|discriminate]).
  refine (proj1 (loop_short _ _ _ _ (table_size counts) steps 0 _ q costs S0 _ ER)).
  intros pr Hp. apply In_nth_error in Hp. destruct Hp as (k & Hk). destruct (P k pr Hk) as [I _]. rewrite ops_length. unfold drawn_layer in I.
  destruct (rp_change pr) as [gs|gs|j|j].
  1,2: apply layer_length in I; lia.
  all: subst j; apply total_le.
Qed.

(** ** The recorded costs *)
Lemma annealed_costs (ok : unitary * list nat -> Prop) m cost B close es steps es' costs :
  annealed cost B close es steps es' costs ->
  (forall pr, In pr steps -> match rp_change pr with
     | RAddFirst gs | RAddLast gs => (List.length gs <= m)%nat /\ List.Forall ok gs | _ => True end) ->
  List.Forall ok es -> forall k x, nth_error costs k = Some x ->
  exists gs, (List.length gs <= List.length es + S k * m)%nat /\ List.Forall ok gs /\ Rabs (x - cost gs) <= B.
Proof.
  induction 1 as [es steps x H1 H2|es x H1 H2|es s t es' costs x cur prop H1 H2 H3 H4 acc H IH]; intros D F k y Hk.
  1,2: destruct k; discriminate.
  assert (Ds := D s (or_introl eq_refl)).
  assert (X : (List.length (changed (rp_change s) es) <= List.length es + m)%nat /\ List.Forall ok (changed (rp_change s) es)).
  { destruct (rp_change s) as [gs|gs|j|j]; cbn [changed].
    - destruct Ds. rewrite app_length, rev_length. split; [lia|]. apply Forall_app. split; [now apply Forall_rev|exact F].
    - destruct Ds. rewrite app_length. split; [lia|]. apply Forall_app. now split.
    - rewrite skipn_length. split; [lia|]. rewrite List.Forall_forall in *. intros z Hz. apply F.
      rewrite <- (firstn_skipn j es). apply in_or_app. now right.
    - rewrite firstn_length. split; [lia|]. rewrite List.Forall_forall in *. intros z Hz. apply F.
      rewrite <- (firstn_skipn (List.length es - j) es). apply in_or_app. now left. }
  destruct X as [X1 X2]. destruct k as [|k]; cbn [nth_error] in Hk.
  - injection Hk as <-. destruct acc.
    + exists (changed (rp_change s) es). split; [lia|]. split; assumption.
    + exists es. split; [lia|]. split; assumption.
  - destruct (IH (fun pr Hp => D pr (or_intror Hp))) with (k := k) (x := y) as (gs & G1 & G2 & G3).
    + destruct acc; assumption.
    + exact Hk.
    + exists gs. split; [|now split]. destruct acc; cbn; cbn in G1; lia.
Qed.

Theorem compile_costs : forall g eps n target thr K st c st' c' s costs,
  rng_ok g -> reachable eps (r_world st) -> c_dim c = (2 ^ n)%nat ->
  (forall p, In p (c_prims c) -> good_source eps (p_source p)) -> made eps target -> u_dim target = (2 ^ n)%nat ->
  compile g eps target thr K (st, c) = ((st', c'), Ok (s, costs)) ->
  small_round eps 0 n (List.length costs) ->
  forall k x, nth_error costs k = Some x ->
  exists gs, (List.length gs <= S k)%nat /\
    List.Forall (fun gt => exists p, weighted (c_prims c) (c_probs c) p /\ allows eps (c_dim c) p gt) gs /\
    Rabs (x - cost_of n target gs) <= round_bound eps 0 n (List.length costs).
Proof.
  intros g eps n target thr K st c st' c' s costs G HR D GS M DT E SR k x Hk.
  destruct (compile_anneals g eps n target thr K st c st' c' s costs G HR D GS M DT E SR) as (steps & L & P & A).
  destruct (annealed_costs (fun gt => exists p, weighted (c_prims c) (c_probs c) p /\ allows eps (c_dim c) p gt) 1 _ _ _ _ _ _ _ A) with (k := k) (x := x)
    as (gs & G1 & G2 & G3); [|constructor|exact Hk|].
  - intros pr Hp. apply In_nth_error in Hp. destruct Hp as (j & Hj). destruct (P j pr Hj) as [I _]. unfold drawn_change in I.
    destruct (rp_change pr) as [gs|gs|i|i]; try exact Logic.I.
    all: destruct I as (g1 & p & -> & I1 & I2); split; [cbn; lia|]; constructor; [now exists p|constructor].
  - exists gs. split; [cbn in G1; lia|]. split; [exact G2|exact G3].
Qed.

Theorem layered_costs : forall g eps n target counts thr K st c st' c' s costs,
  rng_ok g -> reachable eps (r_world st) -> c_dim c = (2 ^ n)%nat ->
  (forall pc, In pc counts -> good_source eps (p_source (fst pc))) -> made eps target -> u_dim target = (2 ^ n)%nat ->
  compile_layered g eps target counts thr K (st, c) = ((st', c'), Ok (s, costs)) ->
  small_round eps 0 n (List.length costs * table_size counts) ->
  forall k x, nth_error costs k = Some x ->
  exists gs, (List.length gs <= S k * table_size counts)%nat /\
    List.Forall (fun gt => exists pc, In pc counts /\ allows eps (2 ^ n) (fst pc) gt) gs /\
    Rabs (x - cost_of n target gs) <= round_bound eps 0 n (List.length costs * table_size counts).
Proof.
  intros g eps n target counts thr K st c st' c' s costs G HR D GS M DT E SR k x Hk.
  destruct (layered_anneals g eps n target counts thr K st c st' c' s costs G HR D GS M DT E SR) as (steps & L & P & A).
  destruct (annealed_costs (fun gt => exists pc, In pc counts /\ allows eps (2 ^ n) (fst pc) gt) (table_size counts) _ _ _ _ _ _ _ A) with (k := k) (x := x)
    as (gs & G1 & G2 & G3); [|constructor|exact Hk|].
  - intros pr Hp. apply In_nth_error in Hp. destruct Hp as (j & Hj). destruct (P j pr Hj) as [I _]. unfold drawn_layer in I.
    destruct (rp_change pr) as [gs|gs|i|i]; try exact Logic.I.
    all: split; [rewrite (layer_length _ _ _ _ I); lia|]; apply List.Forall_forall; intros gt Hg; exact (layer_in _ _ _ _ _ I Hg).
  - exists gs. split; [exact G1|]. split; [exact G2|exact G3].
Qed.

(** No run does better than the best sequence of as many gates. *)
Theorem lower_bound : forall g eps n target thr K st c st' c' s costs e,
  rng_ok g -> reachable eps (r_world st) -> c_dim c = (2 ^ n)%nat ->
  (forall p, In p (c_prims c) -> good_source eps (p_source p)) -> made eps target -> u_dim target = (2 ^ n)%nat ->
  compile g eps target thr K (st, c) = ((st', c'), Ok (s, costs)) ->
  small_round eps 0 n (List.length costs) ->
  (forall gs, (List.length gs <= List.length costs)%nat ->
     List.Forall (fun gt => exists p, weighted (c_prims c) (c_probs c) p /\ allows eps (c_dim c) p gt) gs -> e <= cost_of n target gs) ->
  forall x, In x costs -> e - round_bound eps 0 n (List.length costs) <= x.
Proof.
  intros g eps n target thr K st c st' c' s costs e G HR D GS M DT E SR H x Hx.
  apply In_nth_error in Hx. destruct Hx as (k & Hk).
  destruct (compile_costs g eps n target thr K st c st' c' s costs G HR D GS M DT E SR k x Hk) as (gs & G1 & G2 & G3).
  assert (Lk : (k < List.length costs)%nat) by (apply nth_error_Some; congruence).
  specialize (H gs ltac:(lia) G2). apply Rabs_le_between in G3. lra.
Qed.

(** ** The steps a tolerance takes *)
Lemma tolerance_test n target thr p gs : built 0 target -> u_dim target = (2 ^ n)%nat -> wf p -> u_dim p = (2 ^ n)%nat ->
  meq (2 ^ n) (u_mat p) (ordered n gs) ->
  u_close_to 0 p target thr = Ok (if Rle_dec (cost_of n target gs) (tolerance thr) then true else false).
Proof.
  intros HT HD SP D0 E'.
  assert (Ec : cost_of n target gs = (1 - overlap (2 ^ n) (u_mat p) (u_mat target))%R).
  { unfold cost_of. f_equal. rewrite overlap_sym. symmetry. apply overlap_proper; [exact E'|reflexivity]. }
  assert (Nn : (0 <= cost_of n target gs)%R).
  { rewrite Ec. destruct SP as (Pp & U & _). destruct (built_wf _ _ HT) as (_ & T & _). rewrite D0 in Pp, U. rewrite HD in T.
    assert (X := overlap_le_1 _ _ _ Pp U T). lra. }
  unfold u_close_to. rewrite overlap_inv; [|exact SP|apply eps_clean_0|congruence]. cbn [bind].
  rewrite D0, <- Ec. unfold tolerance. destruct thr as [t|]; [reflexivity|].
  f_equal. unfold isclose, Rleb. replace (RtoC (cost_of n target gs) - RtoC 0)%C with (RtoC (cost_of n target gs)) by ring.
  rewrite !Cmod_R, (Rabs_pos_eq _ Nn), Rabs_R0, Rmult_0_r, Rplus_0_r. reflexivity.
Qed.

Theorem steps_needed : forall g st c target thr max st' c' s costs n k,
  rng_ok g -> exact_world (r_world st) -> c_dim c = (2 ^ n)%nat ->
  (forall p, In p (c_prims c) -> good_source 0 (p_source p)) -> built 0 target -> u_dim target = (2 ^ n)%nat ->
  compile g 0 target thr max (st, c) = ((st', c'), Ok (s, costs)) ->
  (forall gs, (List.length gs < k)%nat ->
     List.Forall (fun gt => exists p, weighted (c_prims c) (c_probs c) p /\ allows 0 (c_dim c) p gt) gs -> tolerance thr < cost_of n target gs) ->
  (Z.min max (Z.of_nat k) <= Z.of_nat (List.length costs))%Z /\
  ((Z.max 0 max < Z.of_nat k)%Z -> tolerance thr < cost_of n target (contents (r_world st') s)).
Proof.
  intros g st c target thr max st' c' s costs n k G HX D GS B DT E H.
  assert (HR : reachable 0 (r_world st)) by (destruct HX as (os & -> & _); now exists os).
  assert (LG := compile_gates g 0 st c target thr max st' c' s costs G HR E).
  destruct (C27_lemma g 0 st c target thr max st' c' s costs G HR E) as (HD & FA).
  destruct (C24_lemma g 0 st c target thr max st' c' s costs G HR E) as (LC & _).
  destruct (C26_lemma g st c target thr max st' c' s costs n G HX D GS E) as (HX' & p & close & A & Dp & Ep & Ec & N).
  assert (T := fun L => H (contents (r_world st') s) L FA).
  split; [|intros L; apply T; lia].
  destruct (le_lt_dec k (List.length (contents (r_world st') s))) as [L|L]; [lia|]. specialize (T L).
  rewrite D in HD. destruct (exact_winv_ex _ HX') as [K HW].
  destruct (winv_exact 0 K (r_world st') s n ltac:(lra) HW HD (lim_zero _ _)) as (p' & A' & NN).
  assert (p' = p) by (eapply answers_unique; eauto). subst p'.
  destruct (near_zero _ _ _ _ NN) as (_ & U & Em).
  assert (Wp : wf p) by (apply (wf_of p (2 ^ n) _ (proj1 (Nat.neq_0_lt_0 _) (Nat.pow_nonzero 2 n ltac:(lia))) Dp Em U)).
  rewrite (tolerance_test n target thr p _ B DT Wp Dp Ep) in Ec. destruct (Rle_dec _ _) as [R|R]; [lra|].
  injection Ec as <-. specialize (N eq_refl). lia.
Qed.
