(** The compiler of the object model anneals, and concrete cases. *)
From Coq Require Import Reals List Arith Lia Lra Bool String ZArith Permutation.
From Coquelicot Require Import Complex.
From Verif Require Import Base CMat CMatFacts Det CRoot Norms ModelUnitary ModelEntry ModelPrimitive ModelSequence ModelCompiler
  ModelRound ModelRoundComp Spec SpecModel SpecGates SpecCompiler SpecRound SpecRoundComp SpecAgree
  PUnitary PEntry PSeqHeap PSeqMeth PSeqWorld PSeqUndo PSeqCases PCompView PCompRun PCompEntry PCompLoop PCompTrace PCompTotal PCompProps PCompCases PCompEx
  PRoundProps PRoundComp PRoundComp2 PAgree PAgree2.
Import ListNotations.
Open Scope R_scope.
Open Scope C_scope.
Open Scope list_scope.
Set Bullet Behavior "Strict Subproofs".

Lemma methods_agree eps w s q o m : reachable eps w -> plain_view w s = Some q -> same_call w s o m ->
  match r_step exact_arith eps q m with
  | Ok q' => exists w', step eps o w =
               (w', match m with RProduct => bind (r_product exact_arith eps q) (fun p => Ok (VUnitary p)) | _ => Ok VNone end) /\
             plain_view w' s = Some q'
  | Raise x => exists w', step eps o w = (w', Raise x)
  end.
Proof. intros [os ->]. apply step_agree, W_exec. Qed.

Lemma within_refl d A : within 0 d A A.
Proof. intros i j _ _. replace (A i j - A i j)%C with (RtoC 0) by ring. rewrite Cmod_0. lra. Qed.

Lemma made_r_gate eps u : made eps u -> r_gate exact_arith eps 0 u.
Proof.
  intros (d & M & nm & ps & iv & ap & [U|(v & (d' & M' & nm' & ps' & iv' & ap' & U & Ev) & D & <-)] & E).
  - left. exists d, M, M, nm, ps, iv, ap. split; [exact U|]. split; [apply within_refl|exact E].
  - right. exists v, nm, ps, iv, ap. split.
    + exists d', M', M', nm', ps', iv', ap'. split; [exact U|]. split; [apply within_refl|exact Ev].
    + left. rewrite D. exact E.
Qed.

Lemma annealed_mono cost B B' close es steps es' costs : (B <= B')%R ->
  annealed cost B close es steps es' costs -> annealed cost B' close es steps es' costs.
Proof.
  intros L H. induction H as [es steps x X H|es x X H|es s t es' costs x cu pr X H1 H2 H3 acc H IH].
  - eapply annealed_close; [|exact H]; lra.
  - eapply annealed_end; [|exact H]; lra.
  - eapply annealed_step with (x := x); [lra|exact H1|lra|lra|exact IH].
Qed.

Lemma round_bound_mono eps mu n K K' : (0 <= eps)%R -> (0 <= mu)%R -> (K <= K')%nat ->
  (round_bound eps mu n K <= round_bound eps mu n K')%R.
Proof.
  intros He Hm L. unfold round_bound. assert (X := le_INR (K + 1) (K' + 1) ltac:(lia)).
  assert (0 <= INR (2 ^ n))%R by apply pos_INR. assert (0 <= sqrt (INR (2 ^ n)))%R by apply sqrt_pos.
  apply Rmult_le_compat_r; [lra|]. apply Rmult_le_compat_r; [lra|]. apply Rmult_le_compat_r; [lra|]. lra.
Qed.

Lemma small_round_mono eps mu n K K' : (K <= K')%nat -> small_round eps mu n K' -> small_round eps mu n K.
Proof.
  intros L (A & B & C & D). assert (X := round_bound_mono eps mu n K K' A B L).
  assert (0 <= INR (2 ^ n))%R by apply pos_INR.
  split; [exact A|]. split; [exact B|]. split; [lra|].
  eapply Rle_trans; [|exact D]. apply Rmult_le_compat_l; lra.
Qed.

Lemma metropolis_same beta accept x : metropolis_rule beta accept -> accept x x = true.
Proof.
  intros (y & Y & H). apply H. unfold metropolis. rewrite Rminus_eq_0, Rmult_0_r, exp_0.
  unfold Rmin. destruct (Rle_dec 1 1); lra.
Qed.

Lemma allows_gate_ok eps n p gt : good_source eps (p_source p) -> allows eps (2 ^ n) p gt ->
  r_gate exact_arith eps 0 (fst gt) /\ placement n (snd gt) /\ (2 ^ List.length (snd gt))%nat = u_dim (fst gt).
Proof.
  intros G (I & _ & ND & NE & D & Q). split; [apply made_r_gate; exact (proj1 (good_instance eps p (fst gt) G I))|].
  split; [|exact D]. split; [exact ND|]. split; [exact NE|]. intros q Hq. apply Q in Hq.
  assert (q + 1 <= n)%nat; [|lia]. apply (Nat.pow_le_mono_r_iff 2); lia.
Qed.

Lemma brings_ops ch o gt : In o (change_ops ch) -> In gt (brings o) ->
  match ch with RAddFirst gs | RAddLast gs => In gt gs | _ => False end.
Proof.
  destruct ch as [gs|gs|k|k]; cbn.
  1,2: destruct gs as [|g0 t]; [intros []|]; intros [<-|H]; [intros [<-|[]]; now left|];
    apply in_map_iff in H; destruct H as (g1 & <- & H); intros [<-|[]]; now right.
  all: destruct k; [intros []|]; intros [<-|H]; [intros []|]; apply repeat_spec in H; subst o; intros [].
Qed.

Lemma change_calls_le steps m : (forall s, In s steps -> (List.length (change_ops (rp_change s)) <= m)%nat) ->
  (change_calls steps <= List.length steps * m)%nat.
Proof.
  induction steps as [|s t IH]; intros H; [cbn; lia|].
  assert (X := H s (or_introl eq_refl)). assert (Y := IH (fun u Hu => H u (or_intror Hu))).
  cbn [change_calls fold_right List.length] in *. fold (change_calls t) in *. lia.
Qed.

Lemma ops_length ch : List.length (change_ops ch) =
  match ch with RAddFirst gs | RAddLast gs => List.length gs | RDropFirst k | RDropLast k => k end.
Proof.
  destruct ch as [[|g t]|[|g t]|[|k]|[|k]]; cbn; rewrite ?map_length, ?repeat_length; reflexivity.
Qed.

Lemma view_contents w s q : plain_view w s = Some q -> contents w s = rs_entries q.
Proof.
  unfold plain_view, contents. destruct (nth_error (w_seqs w) s) as [sq|]; [|discriminate].
  destruct (s_array sq); [discriminate|]. intros H. injection H as <-. reflexivity.
Qed.

(** From the agreement to annealing. *)
Lemma anneal_of eps n target thr steps q costs m :
  r_compile exact_arith eps (2 ^ n) target (close_at thr) steps = Ok (q, costs) ->
  made eps target -> u_dim target = (2 ^ n)%nat ->
  r_steps_ok exact_arith eps 0 n steps ->
  (forall s, In s steps -> (List.length (change_ops (rp_change s)) <= m)%nat) ->
  small_round eps 0 n (List.length steps * m) ->
  annealed (fun es => 1 - overlap (2 ^ n) (u_mat target) (ordered n es))%R (round_bound eps 0 n (List.length steps * m))
    (close_at thr) [] steps (rs_entries q) costs.
Proof.
  intros E T D S L SR. assert (X := change_calls_le steps m L).
  destruct (round_compile exact_arith eps 0 n target (close_at thr) steps) as (q' & costs' & p & E' & A & _); auto.
  - eapply small_round_mono; eauto.
  - intros k _. apply exact_accurate. assert (Y := Nat.pow_nonzero 2 k ltac:(lia)). lia.
  - now apply made_r_gate.
  - assert (F : (q', costs') = (q, costs)) by congruence. injection F as -> ->.
    eapply annealed_mono; [|exact A]. apply round_bound_mono; try apply SR. exact X.
Qed.

Lemma layer_in eps d counts gs gt : layer_of eps d counts gs -> In gt gs ->
  exists pc, In pc counts /\ allows eps d (fst pc) gt.
Proof.
  intros (parts & P & F) H. apply (Permutation_in gt P) in H. clear P.
  induction F as [|pc part cs ps [_ A] F IH]; [destruct H|].
  cbn in H. apply in_app_or in H. destruct H as [H|H].
  - exists pc. split; [now left|]. rewrite List.Forall_forall in A. now apply A.
  - destruct (IH H) as (pc' & I & J). exists pc'. split; [now right|exact J].
Qed.

Lemma layer_length eps d counts gs : layer_of eps d counts gs -> List.length gs = table_size counts.
Proof.
  intros (parts & P & F). rewrite (Permutation_length P). clear P.
  induction F as [|pc part cs ps [A _] F IH]; [reflexivity|].
  cbn. rewrite app_length, A, IH. reflexivity.
Qed.

Lemma total_le counts : (Z.to_nat (total_count counts) <= table_size counts)%nat.
Proof.
  unfold total_count, table_size. induction counts as [|[p z] t IH]; [reflexivity|].
  cbn [map fold_right snd]. lia.
Qed.

Theorem compile_anneals g eps n target threshold K st c st' c' s costs :
  rng_ok g -> reachable eps (r_world st) -> c_dim c = (2 ^ n)%nat ->
  (forall p, In p (c_prims c) -> good_source eps (p_source p)) ->
  made eps target -> u_dim target = (2 ^ n)%nat ->
  compile g eps target threshold K (st, c) = ((st', c'), Ok (s, costs)) ->
  small_round eps 0 n (List.length costs) ->
  exists steps, List.length steps = List.length costs /\
    (forall k pr, nth_error steps k = Some pr ->
       drawn_change eps c (rp_change pr) /\ metropolis_rule (beta_in_step c k) (rp_accept pr)) /\
    annealed (fun es => 1 - overlap (2 ^ n) (u_mat target) (ordered n es))%R (round_bound eps 0 n (List.length costs))
      (close_at threshold) [] steps (contents (r_world st') s) costs.
Proof.
  intros RG HR D GS T DT H SR. destruct (compile_agrees g eps RG _ _ _ _ _ _ _ _ _ HR H) as (steps & q & L & E & V & P).
  exists steps. split; [exact L|]. split; [exact P|]. rewrite (view_contents _ _ _ V). rewrite D in E.
  assert (P' : forall pr, In pr steps -> drawn_change eps c (rp_change pr) /\ exists b, metropolis_rule b (rp_accept pr)).
  { intros pr I. apply In_nth_error in I. destruct I as [k I]. apply P in I. destruct I as [I J]. eauto. }
  rewrite <- L, <- (Nat.mul_1_r (List.length steps)). rewrite <- L, <- (Nat.mul_1_r (List.length steps)) in SR.
  apply anneal_of; auto.
  - intros pr I. apply P' in I. destruct I as [I [b J]]. split; [|intros x; eapply metropolis_same; eauto].
    intros o gt Ho Hg. assert (B := brings_ops _ _ _ Ho Hg). unfold drawn_change in I. rewrite D in I.
    destruct (rp_change pr) as [gs|gs|k|k]; [| |destruct B|destruct B].
    all: destruct I as (g1 & p & -> & Wp & A); apply in_inv in B; destruct B as [<-|B]; [|destruct B];
      apply (allows_gate_ok eps n p); [apply GS; eapply weighted_in; eauto|exact A].
  - intros pr I. apply P' in I. destruct I as [I _]. rewrite ops_length. unfold drawn_change in I.
    destruct (rp_change pr) as [gs|gs|k|k]; try lia.
    all: destruct I as (g1 & p & -> & _); cbn; lia.
Qed.

Theorem layered_anneals g eps n target counts threshold K st c st' c' s costs :
  rng_ok g -> reachable eps (r_world st) -> c_dim c = (2 ^ n)%nat ->
  (forall pc, In pc counts -> good_source eps (p_source (fst pc))) ->
  made eps target -> u_dim target = (2 ^ n)%nat ->
  compile_layered g eps target counts threshold K (st, c) = ((st', c'), Ok (s, costs)) ->
  small_round eps 0 n (List.length costs * table_size counts) ->
  exists steps, List.length steps = List.length costs /\
    (forall k pr, nth_error steps k = Some pr ->
       drawn_layer eps (2 ^ n) counts (rp_change pr) /\ metropolis_rule (beta_in_step c k) (rp_accept pr)) /\
    annealed (fun es => 1 - overlap (2 ^ n) (u_mat target) (ordered n es))%R
      (round_bound eps 0 n (List.length costs * table_size counts))
      (close_at threshold) [] steps (contents (r_world st') s) costs.
Proof.
  intros RG HR D GS T DT H SR.
  destruct (layered_compile_agrees g eps RG _ _ _ _ _ _ _ _ _ _ HR H) as (steps & q & L & E & V & P).
  rewrite D in E, P.
  exists steps. split; [exact L|]. split; [exact P|]. rewrite (view_contents _ _ _ V).
  assert (P' : forall pr, In pr steps -> drawn_layer eps (2 ^ n) counts (rp_change pr) /\ exists b, metropolis_rule b (rp_accept pr)).
  { intros pr I. apply In_nth_error in I. destruct I as [k I]. apply P in I. destruct I as [I J]. eauto. }
  rewrite <- L. rewrite <- L in SR.
  apply anneal_of; auto.
  - intros pr I. apply P' in I. destruct I as [I [b J]]. split; [|intros x; eapply metropolis_same; eauto].
    intros o gt Ho Hg. assert (B := brings_ops _ _ _ Ho Hg). unfold drawn_layer in I.
    destruct (rp_change pr) as [gs|gs|k|k]; [| |destruct B|destruct B].
    all: destruct (layer_in _ _ _ _ _ I B) as (pc & Ip & A); apply (allows_gate_ok eps n (fst pc)); [apply GS; exact Ip|exact A].
  - intros pr I. apply P' in I. destruct I as [I _]. rewrite ops_length. unfold drawn_layer in I.
    destruct (rp_change pr) as [gs|gs|k|k].
    1,2: apply layer_length in I; lia.
    all: subst k; apply total_le.
Qed.

(** A sequence holding one gate, and the calls on it. *)
Lemma ex_C92_methods_lemma : exists u w q, reachable 0 w /\ meq 2 (u_mat u) rot345 /\
  plain_view w 0 = Some q /\ rs_entries q = [(u, [0%nat])] /\ rs_prev q = Some [] /\
  same_call w 0 (AppendFirst 0 0 true) (RFirst (u, [0%nat]) true) /\
  same_call w 0 (Undo 0) RUndo /\ same_call w 0 (Product 0) RProduct.
Proof.
  destruct (rot345_built 0 ltac:(lra)) as (u & B & D & M & _).
  set (os := [NewEntry u [0%Z]; NewSequence 2 false []; AppendLast 0 0 true]).
  exists u, (exec 0 os w_empty).
  assert (Q : exists q, plain_view (exec 0 os w_empty) 0 = Some q /\ rs_entries q = [(u, [0%nat])] /\ rs_prev q = Some []).
  { unfold os. clear B M. destruct u as [d m nm ps iv ap]. cbn in D. subst d. eexists.
    split; [reflexivity|]. split; reflexivity. }
  destruct Q as (q & Q1 & Q2 & Q3). exists q.
  split; [now exists os|]. split; [exact M|]. split; [exact Q1|]. split; [exact Q2|]. split; [exact Q3|].
  split; [|split; constructor].
  assert (H : e_unitary (obj (w_heap (exec 0 os w_empty)) 0) = u /\ e_apply (obj (w_heap (exec 0 os w_empty)) 0) = [0%nat] /\
    (0 < List.length (w_heap (exec 0 os w_empty)))%nat).
  { unfold os. clear - D. destruct u as [d m nm ps iv ap]. cbn in D. subst d. cbn. auto with arith. }
  destruct H as (H1 & H2 & H3). rewrite <- H1, <- H2 at 1. constructor. exact H3.
Qed.

(** A run of one step that keeps the gate it adds. *)
Lemma ex_C92_run_lemma : exists g c target st st' c' s costs,
  rng_ok g /\ reachable 0 (r_world st) /\ c_dim c = 2%nat /\
  (forall p, In p (c_prims c) -> good_source 0 (p_source p)) /\ made 0 target /\ u_dim target = 2%nat /\
  compile g 0 target (Some 2%R) 1 (st, c) = ((st', c'), Ok (s, costs)) /\
  small_round 0 0 1 (List.length costs) /\
  List.length costs = 1%nat /\ List.length (contents (r_world st') s) = 1%nat.
Proof.
  destruct ex_run_lemma as (g & c & target & st & st' & c' & s & costs & G & _ & R & GC & _ & B & D & E & L & L').
  exists g, c, target, st, st', c', s, costs. destruct GC as (GD & _ & GP & _).
  split; [exact G|]. split; [exact R|]. split; [exact GD|].
  split; [intros p Hp; exact (proj1 (GP p Hp))|]. split; [apply built_made; exact B|]. split; [exact D|].
  split; [exact E|]. split; [|auto].
  assert (Z : round_bound 0 0 1 (List.length costs) = 0%R) by (unfold round_bound; ring).
  assert (0 < / 10 ^ 10)%R by (apply Rinv_0_lt_compat, pow_lt; lra).
  unfold small_round. rewrite Z. repeat split; lra.
Qed.

Lemma compile_agrees2 g eps target threshold K st c st' c' s costs :
  rng_ok g -> reachable eps (r_world st) ->
  compile g eps target threshold K (st, c) = ((st', c'), Ok (s, costs)) ->
  exists steps q, List.length steps = List.length costs /\
    r_compile exact_arith eps (c_dim c) target (close_at threshold) steps = Ok (q, costs) /\
    plain_view (r_world st') s = Some q /\
    forall k pr, nth_error steps k = Some pr ->
      drawn_change eps c (rp_change pr) /\ metropolis_rule (beta_in_step c k) (rp_accept pr).
Proof. intros RG. now apply compile_agrees. Qed.

Lemma layered_compile_agrees2 g eps target counts threshold K st c st' c' s costs :
  rng_ok g -> reachable eps (r_world st) ->
  compile_layered g eps target counts threshold K (st, c) = ((st', c'), Ok (s, costs)) ->
  exists steps q, List.length steps = List.length costs /\
    r_compile exact_arith eps (c_dim c) target (close_at threshold) steps = Ok (q, costs) /\
    plain_view (r_world st') s = Some q /\
    forall k pr, nth_error steps k = Some pr ->
      drawn_layer eps (c_dim c) counts (rp_change pr) /\ metropolis_rule (beta_in_step c k) (rp_accept pr).
Proof. intros RG. now apply layered_compile_agrees. Qed.
