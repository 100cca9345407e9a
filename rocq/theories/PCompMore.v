(** Proofs of more properties of the compiler: single steps, the annealing
    parameter, actions, layers, unusable primitives. *)
From Coq Require Import Reals List Arith Lia Lra Bool String ZArith Permutation.
From Coquelicot Require Import Rcomplements Complex.
From Verif Require Import Base CMat CMatFacts Det DetFacts Norms ModelUnitary ModelEntry ModelPrimitive
  ModelSequence ModelCompiler Spec SpecModel SpecCompiler PUnitary PUnitaryProps PEntry PSeqHeap PSeqMeth PSeqNear PSeqWorld
  PSeqUndo PSeqInv PSeqHist PSeqProps PCompView PCompRun PCompEntry PCompLoop PCompTrace PCompTotal PCompProps.
Import ListNotations.
Open Scope R_scope.
Open Scope C_scope.
Open Scope se_scope.

Lemma sees_intro eps w s d : WG eps anyg w -> list_sequence w s d -> exists pv, sees eps w s d (contents w s) pv.
Proof.
  intros HW (q & E & D & A). eexists. split; [exact HW|]. exists q. split; auto. split; auto. split; auto.
  split; [|reflexivity]. now rewrite (contents_gates w s q E).
Qed.

Lemma metropolis_one beta d : (0 <= beta)%R -> (d <= 0)%R -> metropolis beta d = 1%R.
Proof.
  intros H1 H2. unfold metropolis. apply Rmin_left. rewrite <- exp_0.
  destruct (Req_dec (- beta * d) 0) as [->|N]; [lra|].
  left. apply exp_increasing. nra.
Qed.
Lemma metropolis_up beta d : (0 <= beta)%R -> (0 <= d)%R -> metropolis beta d = exp (- beta * d).
Proof.
  intros H1 H2. unfold metropolis. apply Rmin_right. rewrite <- exp_0.
  destruct (Req_dec (- beta * d) 0) as [->|N]; [lra|].
  left. apply exp_increasing. nra.
Qed.

(** ** C29 *)
Lemma step_metropolis g eps change Rel c s target st st' c' cost :
  rng_ok g -> change_ok eps change Rel c -> WG eps anyg (r_world st) -> list_sequence (r_world st) s (c_dim c) ->
  compile_step g eps change s target (st, c) = ((st', c'), Ok cost) ->
  let beta := Rmin (c_beta c + c_rate c) (c_max_beta c) in
  c' = set_beta c beta /\
  exists before current st1 after proposed,
    answers eps (r_world st) s before /\ u_distance_from eps target before = Ok current /\
    change s ({| r_world := fst (step eps (Product s) (r_world st)); r_draws := r_draws st |}, set_beta c beta) =
      ((st1, set_beta c beta), Ok tt) /\
    answers eps (r_world st1) s after /\ u_distance_from eps target after = Ok proposed /\
    let x := g_unif g (r_draws st1) in
    (((x < metropolis beta (proposed - current))%R /\ cost = proposed /\
      contents (r_world st') s = contents (r_world st1) s /\ answers eps (r_world st') s after) \/
     ((metropolis beta (proposed - current) <= x)%R /\ cost = current /\
      contents (r_world st') s = contents (r_world st) s)) /\
    ((0 <= beta)%R -> (proposed <= current)%R -> cost = proposed /\
      contents (r_world st') s = contents (r_world st1) s /\ answers eps (r_world st') s after).
Proof.
  intros G HC HW HL H beta. destruct (sees_intro eps _ _ _ HW HL) as (pv & S).
  rewrite <- (set_beta_same c) in H.
  destruct (step_ok g eps G change Rel c (c_beta c) s target _ _ _ _ _ _ HC S H)
    as (-> & p & current & p1 & proposed & cs1 & x & A & Ec & _ & Ep & (st1 & Hch & A1 & (pv1 & S1) & Hd & Hx) & D).
  fold beta in Hch, D |- *. split; [reflexivity|]. exists p, current, st1, p1, proposed.
  split; [exact A|]. split; [exact Ec|]. split; [exact Hch|]. split; [exact A1|]. split; [exact Ep|].
  cbv zeta. rewrite <- Hx.
  assert (D' : ((x < metropolis beta (proposed - current))%R /\ cost = proposed /\
      contents (r_world st') s = contents (r_world st1) s /\ answers eps (r_world st') s p1) \/
     ((metropolis beta (proposed - current) <= x)%R /\ cost = current /\
      contents (r_world st') s = contents (r_world st) s)).
  { rewrite (sees_contents _ _ _ _ _ _ S1). destruct D as [(X1 & X2 & (pv2 & X3) & X4)|(X1 & X2 & X3)].
    - left. rewrite (sees_contents _ _ _ _ _ _ X3). auto.
    - right. rewrite (sees_contents _ _ _ _ _ _ X3). auto. }
  split; [exact D'|]. intros Hb Hle. destruct D' as [(_ & X)|(X & _)]; [exact X|]. exfalso.
  rewrite metropolis_one in X by lra. subst x. assert (B := proj1 G (r_draws st1)). lra.
Qed.

Lemma C29_lemma : forall g eps c s target st st' c' cost,
  rng_ok g -> reachable eps (r_world st) -> list_sequence (r_world st) s (c_dim c) ->
  compile_step g eps (make_random_change g eps) s target (st, c) = ((st', c'), Ok cost) ->
  let beta := Rmin (c_beta c + c_rate c) (c_max_beta c) in
  c' = set_beta c beta /\
  exists before current st1 after proposed,
    answers eps (r_world st) s before /\ u_distance_from eps target before = Ok current /\
    make_random_change g eps s
      ({| r_world := fst (step eps (Product s) (r_world st)); r_draws := r_draws st |}, set_beta c beta) =
      ((st1, set_beta c beta), Ok tt) /\
    answers eps (r_world st1) s after /\ u_distance_from eps target after = Ok proposed /\
    let x := g_unif g (r_draws st1) in
    (((x < metropolis beta (proposed - current))%R /\ cost = proposed /\
      contents (r_world st') s = contents (r_world st1) s /\ answers eps (r_world st') s after) \/
     ((metropolis beta (proposed - current) <= x)%R /\ cost = current /\
      contents (r_world st') s = contents (r_world st) s)) /\
    ((0 <= beta)%R -> (proposed <= current)%R -> cost = proposed /\
      contents (r_world st') s = contents (r_world st1) s /\ answers eps (r_world st') s after).
Proof.
  intros g eps c s target st st' c' cost G HR HL H.
  eapply (step_metropolis g eps _ _ c); eauto; [now apply change_single|now apply reachable_W].
Qed.

Lemma C29_layered_lemma : forall g eps c counts s target st st' c' cost,
  rng_ok g -> reachable eps (r_world st) -> list_sequence (r_world st) s (c_dim c) ->
  compile_step g eps (make_random_change_layered g eps counts) s target (st, c) = ((st', c'), Ok cost) ->
  let beta := Rmin (c_beta c + c_rate c) (c_max_beta c) in
  c' = set_beta c beta /\
  exists before current st1 after proposed,
    answers eps (r_world st) s before /\ u_distance_from eps target before = Ok current /\
    make_random_change_layered g eps counts s
      ({| r_world := fst (step eps (Product s) (r_world st)); r_draws := r_draws st |}, set_beta c beta) =
      ((st1, set_beta c beta), Ok tt) /\
    answers eps (r_world st1) s after /\ u_distance_from eps target after = Ok proposed /\
    let x := g_unif g (r_draws st1) in
    (((x < metropolis beta (proposed - current))%R /\ cost = proposed /\
      contents (r_world st') s = contents (r_world st1) s /\ answers eps (r_world st') s after) \/
     ((metropolis beta (proposed - current) <= x)%R /\ cost = current /\
      contents (r_world st') s = contents (r_world st) s)) /\
    ((0 <= beta)%R -> (proposed <= current)%R -> cost = proposed /\
      contents (r_world st') s = contents (r_world st1) s /\ answers eps (r_world st') s after).
Proof.
  intros g eps c counts s target st st' c' cost G HR HL H.
  eapply (step_metropolis g eps _ _ c); eauto; [now apply change_layered|now apply reachable_W].
Qed.

(** In exact arithmetic a step that leaves the entries as they were also leaves the
    product as it was. *)
Lemma step_same_product g change Rel c k s target st st' c' cost n p :
  rng_ok g -> change_ok 0 change Rel c -> (forall s, ctraced 0 (built 0) c k (change s)) ->
  exact_world (r_world st) -> list_sequence (r_world st) s (2 ^ n) -> c_dim c = (2 ^ n)%nat ->
  compile_step g 0 change s target (st, c) = ((st', c'), Ok cost) ->
  contents (r_world st') s = contents (r_world st) s -> answers 0 (r_world st) s p ->
  exact_world (r_world st') /\
  exists p', answers 0 (r_world st') s p' /\ u_dim p' = u_dim p /\ meq (u_dim p) (u_mat p') (u_mat p).
Proof.
  intros G HC HT HX HL Hd H HS A.
  assert (HX' : exact_world (r_world st')).
  { eapply evolves_exact; [exact HX|].
    destruct (step_traced g 0 (built 0) c k change s target HT st (c_beta c)) as [T _].
    rewrite set_beta_same, H in T. exact T. }
  split; auto.
  destruct (exact_winv_ex _ HX) as [K HW]. destruct (exact_winv_ex _ HX') as [K' HW'].
  rewrite <- Hd in HL. destruct (sees_intro 0 _ _ _ (exact_W _ HX) HL) as (pv & S).
  rewrite <- (set_beta_same c) in H.
  destruct (step_ok g 0 G change Rel c (c_beta c) s target _ _ _ _ _ _ HC S H)
    as (_ & p0 & current & p1 & proposed & cs1 & x & _ & _ & _ & _ & _ & D).
  assert (X : exists cs2 pv2, sees 0 (r_world st') s (c_dim c) cs2 pv2).
  { destruct D as [(_ & _ & [pv1 D] & _)|(_ & _ & D)]; eauto. }
  destruct X as (cs2 & pv2 & S2).
  assert (cs2 = contents (r_world st) s) by (rewrite <- HS; symmetry; eapply sees_contents; eauto). subst cs2.
  rewrite Hd in S, S2.
  exact (exact_same K K' _ _ s n _ pv pv2 p HW HW' S S2 A).
Qed.

Lemma C29_rejected_lemma : forall g c s target st st' c' cost n p,
  rng_ok g -> exact_world (r_world st) -> list_sequence (r_world st) s (2 ^ n) -> c_dim c = (2 ^ n)%nat ->
  (forall p, In p (c_prims c) -> good_source 0 (p_source p)) ->
  compile_step g 0 (make_random_change g 0) s target (st, c) = ((st', c'), Ok cost) ->
  contents (r_world st') s = contents (r_world st) s -> answers 0 (r_world st) s p ->
  exact_world (r_world st') /\
  exists p', answers 0 (r_world st') s p' /\ u_dim p' = u_dim p /\ meq (u_dim p) (u_mat p') (u_mat p).
Proof.
  intros g c s target st st' c' cost n p G HX HL Hd HP H HS A.
  eapply (step_same_product g _ _ c 1); eauto; [now apply change_single|].
  intros s0. apply single_traced; auto. apply (good_safe 0); auto.
Qed.

Lemma C29_rejected_layered_lemma : forall g c counts s target st st' c' cost n p,
  rng_ok g -> exact_world (r_world st) -> list_sequence (r_world st) s (2 ^ n) -> c_dim c = (2 ^ n)%nat ->
  (forall pc, In pc counts -> good_source 0 (p_source (fst pc))) ->
  compile_step g 0 (make_random_change_layered g 0 counts) s target (st, c) = ((st', c'), Ok cost) ->
  contents (r_world st') s = contents (r_world st) s -> answers 0 (r_world st) s p ->
  exact_world (r_world st') /\
  exists p', answers 0 (r_world st') s p' /\ u_dim p' = u_dim p /\ meq (u_dim p) (u_mat p') (u_mat p).
Proof.
  intros g c counts s target st st' c' cost n p G HX HL Hd HP H HS A.
  eapply (step_same_product g _ _ c (layer_size counts)); eauto; [now apply change_layered|].
  intros s0. apply layered_traced; auto. apply (good_safe_counts 0); auto.
Qed.

(** ** C30 *)
Lemma call_beta g eps k c0 j st st' c' s costs : (0 <= c_max_beta c0)%R ->
  run_call g eps k (st, at_step c0 j) = ((st', c'), Ok (s, costs)) ->
  c' = at_step c0 (j + List.length costs).
Proof.
  intros M H. destruct k as [t thr m|t counts thr m]; cbn [run_call] in H.
  - apply compile_inv in H. eapply with_beta; eauto. apply keeps_single.
  - eapply with_beta; eauto. intros s0. apply keeps_layered.
Qed.

Lemma calls_beta g eps c0 ks : (0 <= c_max_beta c0)%R -> forall st st' c' j k,
  compile_calls g eps ks (st, at_step c0 j) (st', c') k -> c' = at_step c0 (j + k).
Proof.
  intros M. induction ks as [|call ks IH]; intros st st' c' j k H; inversion H; subst.
  - now rewrite Nat.add_0_r.
  - destruct st1 as [st1 c1]. match goal with X : run_call _ _ _ _ = _ |- _ => apply (call_beta g eps _ c0 j) in X; [|exact M] end.
    subst c1. match goal with X : compile_calls _ _ _ _ _ _ |- _ => apply IH in X end.
    subst c'. f_equal. lia.
Qed.

Lemma C30_lemma : forall g eps d arr ps probs ap rate c ks st st' c' k,
  mk_compiler d arr ps probs ap rate = Ok c ->
  compile_calls g eps ks (st, c) (st', c') k ->
  c_beta c' = Rmin (INR k * rate) ((2 ^ d) ^ 2) /\ c' = set_beta c (c_beta c').
Proof.
  intros g eps d arr ps probs ap rate c ks st st' c' k Hc H. unfold mk_compiler in Hc.
  destruct (assert (Nat.ltb 0 d)); [|discriminate]. cbn [bind] in Hc.
  destruct (assert _); [|discriminate]. cbn [bind] in Hc. injection Hc as <-.
  set (c := {| c_dim := d; c_array := _ |}) in *.
  assert (M : (0 < c_max_beta c)%R). { unfold c; cbn [c_max_beta]. pose proof (pow_lt 2 d ltac:(lra)). nra. }
  assert (E : c = at_step c 0).
  { unfold at_step. simpl (INR 0). rewrite Rmult_0_l, Rmin_left by lra. reflexivity. }
  rewrite E in H. apply calls_beta in H; [|lra]. subst c'. simpl (0 + k)%nat. split; reflexivity.
Qed.

(** ** C31 *)
Definition action_at (ap x : R) : action :=
  if Rlt_dec x (ap / 2) then ActAppendFirst
  else if Rlt_dec x ap then ActAppendLast
  else if Rlt_dec x (ap + (1 - ap) / 2) then ActRemoveFirst else ActRemoveLast.

Lemma Rleb_false a b : (b < a)%R -> Rleb a b = false.
Proof. intros H. destruct (Rleb a b) eqn:E; auto. apply Rleb_spec in E. lra. Qed.
Lemma Rleb_true a b : (a <= b)%R -> Rleb a b = true.
Proof. intros H. now apply Rleb_spec. Qed.
Lemma Rltb_false a b : (b <= a)%R -> Rltb a b = false.
Proof. intros H. destruct (Rltb a b) eqn:E; auto. apply Rltb_spec in E. lra. Qed.

Lemma choose_action_at g ap st : rng_ok g -> (0 <= ap <= 1)%R ->
  choose_action g ap st = ({| r_world := r_world st; r_draws := S (r_draws st) |},
    Ok (action_at ap (g_unif g (r_draws st)))).
Proof.
  intros G Ha. unfold choose_action, actions. cbn [filter is_append List.length Nat.sub map].
  unfold choice_p. cbn [Nat.eqb List.length negb].
  replace (INR 2) with 2%R by (simpl; lra).
  cbn [existsb]. rewrite !(Rltb_false (ap / 2) 0), !(Rltb_false ((1 - ap) / 2) 0) by lra. cbn [orb].
  rewrite Rltb_false.
  2:{ cbn [sumR]. replace (ap / 2 + (ap / 2 + ((1 - ap) / 2 + ((1 - ap) / 2 + 0))) - 1)%R with 0%R by lra.
      rewrite Rabs_R0. pose proof choice_tol_small. lra. }
  unfold se_bind at 1, se_bind at 1, draw_unif at 1.
  set (x := g_unif g (r_draws st)). assert (B : (0 <= x < 1)%R) by apply G.
  cbn [cumsumR last map].
  replace (0 + ap / 2 + ap / 2 + (1 - ap) / 2 + (1 - ap) / 2)%R with 1%R by lra.
  unfold se_ret. f_equal. f_equal. unfold action_at. cbn [searchsorted].
  destruct (Rlt_dec x (ap / 2)).
  { rewrite Rleb_false by lra. reflexivity. }
  rewrite Rleb_true by lra. destruct (Rlt_dec x ap).
  { rewrite Rleb_false by lra. reflexivity. }
  rewrite Rleb_true by lra. destruct (Rlt_dec x (ap + (1 - ap) / 2)).
  { rewrite Rleb_false by lra. reflexivity. }
  rewrite Rleb_true by lra. rewrite Rleb_false by lra. reflexivity.
Qed.

Lemma action_at_iff ap x a : (0 <= ap <= 1)%R -> (0 <= x < 1)%R ->
  action_at ap x = a <-> (fst (action_interval ap a) <= x < snd (action_interval ap a))%R.
Proof.
  intros Ha Hx. unfold action_at.
  destruct (Rlt_dec x (ap / 2)), (Rlt_dec x ap), (Rlt_dec x (ap + (1 - ap) / 2)); destruct a; simpl; split; intros H;
    try discriminate; try reflexivity; try lra.
Qed.

Lemma C31_lemma : forall g ap st a, rng_ok g -> (0 <= ap <= 1)%R ->
  let x := g_unif g (r_draws st) in
  (fst (action_interval ap a) <= x < snd (action_interval ap a))%R <->
  choose_action g ap st = ({| r_world := r_world st; r_draws := S (r_draws st) |}, Ok a).
Proof.
  intros g ap st a G Ha x. rewrite choose_action_at by auto. fold x.
  assert (B : (0 <= x < 1)%R) by apply G. rewrite <- (action_at_iff ap x a Ha B). split; intros H.
  - now rewrite H.
  - injection H as H. exact H.
Qed.

Lemma C31_refused_lemma : forall g eps c s st counts, ~ (0 <= c_append c <= 1)%R ->
  make_random_change g eps s (st, c) = ((st, c), Raise ValueError) /\
  make_random_change_layered g eps counts s (st, c) = ((st, c), Raise ValueError).
Proof.
  intros g eps c s st counts H.
  assert (E : choose_action g (c_append c) st = (st, Raise ValueError)).
  { unfold choose_action, actions. cbn [filter is_append List.length Nat.sub map].
    unfold choice_p. cbn [Nat.eqb List.length negb].
    replace (INR 2) with 2%R by (simpl; lra).
    assert (X : existsb (fun y => Rltb y 0) [(c_append c / 2)%R; (c_append c / 2)%R; ((1 - c_append c) / 2)%R; ((1 - c_append c) / 2)%R] = true).
    { apply existsb_exists. destruct (Rlt_dec (c_append c) 0).
      - exists (c_append c / 2)%R. split; [simpl; auto|]. apply Rltb_spec. lra.
      - exists ((1 - c_append c) / 2)%R. split; [simpl; auto|]. apply Rltb_spec. lra. }
    rewrite X. reflexivity. }
  unfold make_random_change, make_random_change_layered.
  split; unfold se_bind, c_self; cbn [snd fst]; unfold c_run; cbn [snd fst]; now rewrite E.
Qed.

Lemma single_action g eps c0 s st st' c' cs pv : rng_ok g -> (0 <= c_append c0 <= 1)%R ->
  sees eps (r_world st) s (c_dim c0) cs pv ->
  make_random_change g eps s (st, c0) = ((st', c'), Ok tt) ->
  exists pv', match action_at (c_append c0) (g_unif g (r_draws st)) with
  | ActAppendFirst => exists gt p, weighted (c_prims c0) (c_probs c0) p /\ allows eps (c_dim c0) p gt /\
      sees eps (r_world st') s (c_dim c0) (gt :: cs) pv'
  | ActAppendLast => exists gt p, weighted (c_prims c0) (c_probs c0) p /\ allows eps (c_dim c0) p gt /\
      sees eps (r_world st') s (c_dim c0) (cs ++ [gt]) pv'
  | ActRemoveFirst => sees eps (r_world st') s (c_dim c0) (tl cs) pv'
  | ActRemoveLast => sees eps (r_world st') s (c_dim c0) (removelast cs) pv'
  end.
Proof.
  intros G Ha S H. unfold make_random_change in H.
  apply bind_ok in H. destruct H as (c & stc & H0 & H). unfold c_self in H0. injection H0 as <- <-.
  cbn [snd] in H. apply bind_ok in H. destruct H as (a & [st1 c1] & H1 & H).
  apply c_run_inv in H1. destruct H1 as [H1 ->].
  rewrite choose_action_at in H1 by auto. injection H1 as E1 <-.
  replace (r_world st) with (r_world st1) in S by now rewrite <- E1.
  assert (A : forall mk : nat -> bool -> op, forall f,
    (forall l sv w w' v gt, sees eps w s (c_dim c0) cs pv -> has_gate w l gt -> step eps (mk l sv) w = (w', Ok v) ->
      sees eps w' s (c_dim c0) (f gt) (if sv then Some cs else pv) /\ fits w (c_dim c0) l) ->
    (l <-- c_run (create_random_sequence_entry g eps (c_dim c0) (c_prims c0) (c_probs c0));;
     c_run (call eps (mk l true));;; se_ret tt) (st1, c0) = ((st', c'), Ok tt) ->
    exists pv' gt p, weighted (c_prims c0) (c_probs c0) p /\ allows eps (c_dim c0) p gt /\
      sees eps (r_world st') s (c_dim c0) (f gt) pv').
  { intros mk f Hmk HH. apply bind_ok in HH. destruct HH as (l & [st2 c2] & H2 & HH).
    apply c_run_inv in H2. destruct H2 as [H2 ->].
    apply bind_ok in HH. destruct HH as (v & [st3 c3] & H3 & HH).
    apply c_run_inv in H3. destruct H3 as [H3 ->]. apply ret_ok in HH. destruct HH as [HH _].
    injection HH as -> ->.
    apply (create_ok g eps G) in H2. destruct H2 as (gt & O & HG & Sp).
    destruct (proj1 (proj2 (Sp s)) _ _ _ S) as [S2 _].
    apply call_ok in H3. destruct H3 as [H3 _].
    destruct (Hmk l true _ _ _ gt S2 HG H3) as (S3 & F).
    destruct (offered_allows _ _ _ _ (c_dim c0) O) as (p & Hp & Hal).
    { exact (proj2 (fits_gate _ _ _ _ HG F)). }
    exists (Some cs), gt, p. auto. }
  destruct (action_at (c_append c0) (g_unif g (r_draws st))).
  - apply (A _ (fun gt => gt :: cs)) in H; auto. intros l sv w w' v gt S0 HG E.
    destruct (append_first_view eps _ _ _ _ _ _ _ _ _ _ S0 HG E) as (X1 & X2 & _). auto.
  - apply (A _ (fun gt => cs ++ [gt])) in H; auto. intros l sv w w' v gt S0 HG E.
    destruct (append_last_view eps _ _ _ _ _ _ _ _ _ _ S0 HG E) as (X1 & X2 & _). auto.
  - apply bind_ok in H. destruct H as (v & [st3 c3] & H3 & H).
    apply c_run_inv in H3. destruct H3 as [H3 ->]. apply ret_ok in H. destruct H as [H _].
    injection H as -> ->. apply call_ok in H3. destruct H3 as [H3 _].
    destruct (remove_first_view eps _ _ _ _ _ _ _ _ S H3) as [S3 _]. eauto.
  - apply bind_ok in H. destruct H as (v & [st3 c3] & H3 & H).
    apply c_run_inv in H3. destruct H3 as [H3 ->]. apply ret_ok in H. destruct H as [H _].
    injection H as -> ->. apply call_ok in H3. destruct H3 as [H3 _].
    destruct (remove_last_view eps _ _ _ _ _ _ _ _ S H3) as [S3 _]. eauto.
Qed.

Lemma C31_effect_lemma : forall g eps c s st st' c' a, rng_ok g -> (0 <= c_append c <= 1)%R ->
  reachable eps (r_world st) -> list_sequence (r_world st) s (c_dim c) ->
  make_random_change g eps s (st, c) = ((st', c'), Ok tt) ->
  let x := g_unif g (r_draws st) in
  (fst (action_interval (c_append c) a) <= x < snd (action_interval (c_append c) a))%R ->
  let old := contents (r_world st) s in let new := contents (r_world st') s in
  match a with
  | ActAppendFirst => exists gt p, weighted (c_prims c) (c_probs c) p /\ allows eps (c_dim c) p gt /\ new = gt :: old
  | ActAppendLast => exists gt p, weighted (c_prims c) (c_probs c) p /\ allows eps (c_dim c) p gt /\ new = old ++ [gt]
  | ActRemoveFirst => new = tl old
  | ActRemoveLast => new = removelast old
  end.
Proof.
  intros g eps c s st st' c' a G Ha HR HL H x Hx old new.
  destruct (sees_intro eps _ _ _ (reachable_W _ _ HR) HL) as (pv & S). fold old in S.
  destruct (single_action g eps c s st st' c' _ pv G Ha S H) as (pv' & D).
  assert (B : (0 <= x < 1)%R) by apply G.
  apply (action_at_iff _ x a Ha B) in Hx. fold x in D. rewrite Hx in D.
  destruct a.
  - destruct D as (gt & p & Hp & Hal & D). exists gt, p. split; auto. split; auto. eapply sees_contents; eauto.
  - destruct D as (gt & p & Hp & Hal & D). exists gt, p. split; auto. split; auto. eapply sees_contents; eauto.
  - eapply sees_contents; eauto.
  - eapply sees_contents; eauto.
Qed.

(** ** C32 *)
Lemma total_layer counts : total_count counts = layer_length counts.
Proof. unfold total_count. induction counts as [|[p c] t IH]; simpl; congruence. Qed.

Lemma nonneg_size counts : Forall (fun pc => (0 <= snd pc)%Z) counts -> layer_length counts = Z.of_nat (layer_size counts).
Proof. induction 1 as [|[p c] t H _ IH]; simpl in *; lia. Qed.

Lemma layer_of_length eps d counts layer : layer_of eps d counts layer -> List.length layer = layer_size counts.
Proof.
  intros (parts & P & F). rewrite (Permutation_length P). clear P.
  induction F as [|pc part counts parts [H1 _] _ IH]; simpl; auto. rewrite app_length. lia.
Qed.

Definition whole_layers eps d counts (cs : list (unitary * list nat)) : Prop :=
  exists layers, cs = List.concat layers /\ Forall (layer_of eps d counts) layers.

Lemma whole_change eps d counts cs cs' : Forall (fun pc => (0 <= snd pc)%Z) counts ->
  whole_layers eps d counts cs -> layer_change eps d counts cs cs' -> whole_layers eps d counts cs'.
Proof.
  intros N (layers & -> & F) H. unfold layer_change in H. rewrite nonneg_size, Nat2Z.id in H by auto.
  destruct H as [(layer & HL & [->| ->])|(_ & _ & D)].
  - exists (layer :: layers). split; auto.
  - exists (layers ++ [layer]). split.
    + rewrite concat_app. simpl. now rewrite app_nil_r.
    + apply Forall_app. auto.
  - destruct D as [->| ->].
    + destruct layers as [|l ls].
      * exists []. simpl. now rewrite skipn_nil.
      * inversion F; subst. exists ls. split; auto. simpl.
        rewrite skipn_app, skipn_all2, <- (layer_of_length eps d counts l), Nat.sub_diag; auto.
        rewrite (layer_of_length eps d counts l); auto.
    + induction layers as [|l ls _] using rev_ind.
      * exists []. simpl. auto.
      * apply Forall_app in F. destruct F as [F1 F2]. inversion F2; subst. exists ls. split; auto.
        rewrite concat_app. simpl. rewrite app_nil_r, app_length.
        rewrite (layer_of_length eps d counts l) by auto.
        replace (List.length (List.concat ls) + layer_size counts - layer_size counts)%nat
          with (List.length (List.concat ls) + 0)%nat by lia.
        rewrite firstn_app_2. simpl. now rewrite app_nil_r.
Qed.

Lemma C32_lemma : forall g eps st c target counts thr max st' c' s costs,
  rng_ok g -> reachable eps (r_world st) -> Forall (fun pc => (0 <= snd pc)%Z) counts ->
  compile_layered g eps target counts thr max (st, c) = ((st', c'), Ok (s, costs)) ->
  exists layers, contents (r_world st') s = List.concat layers /\
    Forall (layer_of eps (c_dim c) counts) layers /\
    Z.of_nat (List.length (contents (r_world st') s)) = (Z.of_nat (List.length layers) * total_count counts)%Z.
Proof.
  intros g eps st c target counts thr max st' c' s costs G HR HN H.
  destruct (with_ok g eps G _ _ c target thr max (whole_layers eps (c_dim c) counts) st c st' c' s costs
    (change_layered g eps G c counts) (eq_sym (set_beta_same c))) as (_ & (cs & pv & S & layers & E & F) & _); auto.
  - exists []. auto.
  - intros cs cs' HP HC. eapply whole_change; eauto.
  - now apply reachable_W.
  - exists layers. rewrite (sees_contents _ _ _ _ _ _ S). split; auto. split; auto.
    rewrite total_layer, nonneg_size by auto. subst cs. clear S H. 
    rewrite <- Nat2Z.inj_mul. f_equal.
    induction F as [|l ls HL _ IH]; simpl; auto. rewrite app_length, (layer_of_length _ _ _ _ HL). lia.
Qed.

Lemma layered_action g eps c0 counts s st st' c' cs pv : rng_ok g -> (0 <= c_append c0 <= 1)%R ->
  sees eps (r_world st) s (c_dim c0) cs pv ->
  make_random_change_layered g eps counts s (st, c0) = ((st', c'), Ok tt) ->
  exists pv', match action_at (c_append c0) (g_unif g (r_draws st)) with
  | ActAppendFirst => exists layer, layer_of eps (c_dim c0) counts layer /\
      sees eps (r_world st') s (c_dim c0) (layer ++ cs) pv'
  | ActAppendLast => exists layer, layer_of eps (c_dim c0) counts layer /\
      sees eps (r_world st') s (c_dim c0) (cs ++ layer) pv'
  | ActRemoveFirst => sees eps (r_world st') s (c_dim c0) (skipn (Z.to_nat (layer_length counts)) cs) pv'
  | ActRemoveLast => sees eps (r_world st') s (c_dim c0)
      (firstn (List.length cs - Z.to_nat (layer_length counts)) cs) pv'
  end.
Proof.
  intros G Ha S H. unfold make_random_change_layered in H.
  apply bind_ok in H. destruct H as (c & stc & H0 & H). unfold c_self in H0. injection H0 as <- <-.
  cbn [snd] in H. apply bind_ok in H. destruct H as (a & [st1 c1] & H1 & H).
  apply c_run_inv in H1. destruct H1 as [H1 ->].
  rewrite choose_action_at in H1 by auto. injection H1 as E1 <-.
  replace (r_world st) with (r_world st1) in S by now rewrite <- E1.
  assert (A : forall (mk : nat -> bool -> op) (f : list (unitary * list nat) -> list (unitary * list nat))
     (h : list (unitary * list nat) -> list (unitary * list nat)),
    (forall gs, Permutation (f gs) gs) ->
    (forall ls gs sta stb, append_all eps mk ls true sta = (stb, Ok tt) ->
      sees eps (r_world sta) s (c_dim c0) cs pv -> Forall2 (has_gate (r_world sta)) ls gs ->
      exists pv', sees eps (r_world stb) s (c_dim c0) (h (f gs)) pv' /\ Forall (fits_in (c_dim c0)) gs) ->
    (ls <-- c_run (create_random_layer g eps (c_dim c0) counts);;
     c_run (append_all eps mk ls true)) (st1, c0) = ((st', c'), Ok tt) ->
    exists pv' layer, layer_of eps (c_dim c0) counts layer /\ sees eps (r_world st') s (c_dim c0) (h layer) pv').
  { intros mk f h Hf Hmk HH. apply bind_ok in HH. destruct HH as (ls & [st2 c2] & H2 & HH).
    apply c_run_inv in H2. destruct H2 as [H2 ->].
    apply c_run_inv in HH. destruct HH as [HH ->].
    destruct (create_layer_ok g eps G _ _ _ _ _ H2 (sees_W _ _ _ _ _ _ S)) as (parts & gs & P1 & P2 & P3 & P4).
    destruct (proj1 (proj2 (P4 s)) _ _ _ S) as [S2 A2].
    destruct (Hmk _ _ _ _ HH S2 P3) as (pv' & S3 & F).
    exists pv', (f gs). split; auto. exists parts. split; [eapply Permutation_trans; [apply Hf|exact P2]|].
    apply parts_allows; auto. eapply Permutation_Forall; eauto. }
  destruct (action_at (c_append c0) (g_unif g (r_draws st))).
  - apply (A _ (@rev (unitary * list nat)) (fun l => l ++ cs)) in H; auto.
    + intros gs. apply Permutation_sym, Permutation_rev.
    + intros ls gs sta stb E S0 F0.
      destruct (append_all_first eps s ls gs true sta stb _ _ _ E S0 F0) as (X1 & X2 & X3). eauto.
  - apply (A _ (fun gs => gs) (fun l => cs ++ l)) in H; auto.
    intros ls gs sta stb E S0 F0.
    destruct (append_all_last eps s ls gs true sta stb _ _ _ E S0 F0) as (X1 & X2 & X3). eauto.
  - apply c_run_inv in H. destruct H as [H _].
    destruct (remove_all_first eps s _ true st1 st' _ _ _ H S) as [X _]. eauto.
  - apply c_run_inv in H. destruct H as [H _].
    destruct (remove_all_last eps s _ true st1 st' _ _ _ H S) as [X _]. eauto.
Qed.

Lemma C31_effect_layered_lemma : forall g eps c counts s st st' c' a, rng_ok g -> (0 <= c_append c <= 1)%R ->
  reachable eps (r_world st) -> list_sequence (r_world st) s (c_dim c) ->
  make_random_change_layered g eps counts s (st, c) = ((st', c'), Ok tt) ->
  let x := g_unif g (r_draws st) in
  (fst (action_interval (c_append c) a) <= x < snd (action_interval (c_append c) a))%R ->
  let old := contents (r_world st) s in let new := contents (r_world st') s in
  let L := Z.to_nat (total_count counts) in
  match a with
  | ActAppendFirst => exists layer, layer_of eps (c_dim c) counts layer /\ new = layer ++ old
  | ActAppendLast => exists layer, layer_of eps (c_dim c) counts layer /\ new = old ++ layer
  | ActRemoveFirst => new = skipn L old
  | ActRemoveLast => new = firstn (List.length old - L) old
  end.
Proof.
  intros g eps c counts s st st' c' a G Ha HR HL H x Hx old new L. unfold L. clear L. rewrite total_layer.
  destruct (sees_intro eps _ _ _ (reachable_W _ _ HR) HL) as (pv & S). fold old in S.
  destruct (layered_action g eps c counts s st st' c' _ pv G Ha S H) as (pv' & D).
  assert (B : (0 <= x < 1)%R) by apply G.
  apply (action_at_iff _ x a Ha B) in Hx. fold x in D. rewrite Hx in D.
  destruct a.
  - destruct D as (layer & HLy & D). exists layer. split; auto. eapply sees_contents; eauto.
  - destruct D as (layer & HLy & D). exists layer. split; auto. eapply sees_contents; eauto.
  - eapply sees_contents; eauto.
  - eapply sees_contents; eauto.
Qed.

(** ** C34 *)
Lemma filter_lt {A} (f : A -> bool) l x : In x l -> f x = false -> (List.length (filter f l) < List.length l)%nat.
Proof.
  induction l as [|y t IH]; intros H E; [contradiction|]. simpl.
  assert (L : (List.length (filter f t) <= List.length t)%nat).
  { clear. induction t; simpl; auto. destruct (f a); simpl; lia. }
  destruct H as [->|H].
  - rewrite E. lia.
  - specialize (IH H E). destruct (f y); simpl; lia.
Qed.

Lemma create_unusable g eps d ps q p st : List.length q = List.length ps -> In p ps -> p_allowed p = Some [] ->
  create_random_sequence_entry g eps d ps (Some q) st = (st, Raise ValueError).
Proof.
  intros HL Hp Hn. unfold create_random_sequence_entry. unfold se_bind at 1, choice_p.
  assert (L : (List.length (filter usable ps) < List.length ps)%nat).
  { apply (filter_lt _ _ p); auto. unfold usable. now rewrite Hn. }
  destruct (Nat.eqb_spec (List.length (filter usable ps)) 0); [reflexivity|].
  destruct (Nat.eqb_spec (List.length q) (List.length (filter usable ps))); [lia|]. reflexivity.
Qed.

Lemma C34_lemma : forall g eps c q p s st, rng_ok g ->
  c_probs c = Some q -> List.length q = List.length (c_prims c) ->
  In p (c_prims c) -> p_allowed p = Some [] -> (0 <= c_append c <= 1)%R ->
  (g_unif g (r_draws st) < c_append c)%R ->
  make_random_change g eps s (st, c) =
    (({| r_world := r_world st; r_draws := S (r_draws st) |}, c), Raise ValueError).
Proof.
  intros g eps c q p s st G Hq HL Hp Hn Ha Hx. unfold make_random_change.
  unfold se_bind at 1, c_self. cbn [snd].
  rewrite (bind_eq _ _ _ _ _ (c_run_eq _ _ _ _ _ (choose_action_at g (c_append c) st G Ha))).
  rewrite Hq. unfold action_at. destruct (Rlt_dec _ (c_append c / 2)); [|destruct (Rlt_dec _ (c_append c)); [|lra]];
    unfold se_bind at 1, c_run at 1; cbn [fst snd]; rewrite (create_unusable g eps _ _ _ p); auto.
Qed.

Lemma C34_result_lemma : forall g eps c q p target thr max st st' c' s costs, rng_ok g -> reachable eps (r_world st) ->
  c_probs c = Some q -> List.length q = List.length (c_prims c) ->
  In p (c_prims c) -> p_allowed p = Some [] ->
  compile g eps target thr max (st, c) = ((st', c'), Ok (s, costs)) ->
  contents (r_world st') s = [].
Proof.
  intros g eps c q p target thr max st st' c' s costs G HR Hq HL Hp Hn H. apply compile_inv in H.
  assert (HC : change_ok eps (make_random_change g eps) (fun cs cs' => cs <> [] /\ (cs' = tl cs \/ cs' = removelast cs)) c).
  { intros b s0 st0 st0' c0' cs pv S0 E.
    assert (K : forall mk, (l <-- c_run (create_random_sequence_entry g eps (c_dim (set_beta c b)) (c_prims (set_beta c b)) (c_probs (set_beta c b)));;
       c_run (call eps (mk l true));;; se_ret tt) = fun st => (st, Raise ValueError)).
    { intros mk. cbn [set_beta c_dim c_prims c_probs]. rewrite Hq.
      apply FunctionalExtensionality.functional_extensionality. intros [sta ca]. unfold se_bind at 1, c_run at 1. cbn [fst snd].
      now rewrite (create_unusable g eps _ _ _ p). }
    assert (X := E). unfold make_random_change in X.
    apply bind_ok in X. destruct X as (cc & stc & H0 & X). unfold c_self in H0. injection H0 as <- <-.
    cbn [snd] in X. apply bind_ok in X. destruct X as (a & [st1 c1] & H1 & X).
    apply c_run_inv in H1. destruct H1 as [H1 ->].
    assert (W1 := draws_world _ _ _ _ (draws_choose_action g _) H1). rewrite <- W1 in S0.
    destruct a; try (rewrite K in X; discriminate).
    - apply bind_ok in X. destruct X as (v & [st3 c3] & H3 & X).
      apply c_run_inv in H3. destruct H3 as [H3 ->]. apply ret_ok in X. destruct X as [X _].
      injection X as -> ->. split; auto. apply call_ok in H3. destruct H3 as [H3 _].
      destruct (remove_first_view eps _ _ _ _ _ _ _ _ S0 H3) as [S3 N].
      destruct cs as [|x t].
      + exists [], pv. split; auto. right. split; auto. intros p0. now rewrite (N eq_refl), W1.
      + exists t, (Some (x :: t)). split; auto. left. split; auto. split; [discriminate|auto].
    - apply bind_ok in X. destruct X as (v & [st3 c3] & H3 & X).
      apply c_run_inv in H3. destruct H3 as [H3 ->]. apply ret_ok in X. destruct X as [X _].
      injection X as -> ->. split; auto. apply call_ok in H3. destruct H3 as [H3 _].
      destruct (remove_last_view eps _ _ _ _ _ _ _ _ S0 H3) as [S3 N].
      destruct cs as [|x t].
      + exists [], pv. split; auto. right. split; auto. intros p0. now rewrite (N eq_refl), W1.
      + exists (removelast (x :: t)), (Some (x :: t)). split; auto. left. split; auto. split; [discriminate|auto]. }
  destruct (with_ok g eps G _ _ c target thr max (fun cs => cs = []) st c st' c' s costs
    HC (eq_sym (set_beta_same c)) eq_refl) as (_ & (cs & pv & S & P) & _); auto.
  - intros cs cs' -> (N & _). congruence.
  - now apply reachable_W.
  - now rewrite (sees_contents _ _ _ _ _ _ S).
Qed.

(** ** Nothing else is touched *)
Section Spare.
Variable g : rng.
Variable eps : R.
Hypothesis G : rng_ok g.
Variable t : nat.
Notation spares := (spares eps t).

Definition rspares {A} (m : RM A) : Prop := forall st, spares (r_world st) (r_world (fst (m st))).
Definition cspares {A} (m : CM A) : Prop := forall st, spares (r_world (fst st)) (r_world (fst (fst (m st)))).

Lemma rspares_bind {A B} (m : RM A) (f : A -> RM B) :
  rspares m -> (forall a, rspares (f a)) -> rspares (se_bind m f).
Proof.
  intros H1 H2 st. unfold se_bind. specialize (H1 st). destruct (m st) as [st1 [a|x]]; [|exact H1].
  eapply spares_trans; [exact H1|apply H2].
Qed.
Lemma cspares_bind {A B} (m : CM A) (f : A -> CM B) :
  cspares m -> (forall a, cspares (f a)) -> cspares (se_bind m f).
Proof.
  intros H1 H2 st. unfold se_bind. specialize (H1 st). destruct (m st) as [st1 [a|x]]; [|exact H1].
  eapply spares_trans; [exact H1|apply H2].
Qed.
Lemma rspares_draws {A} (m : RM A) : draws_only m -> rspares m.
Proof. intros H st. rewrite (H st). apply spares_refl. Qed.
Lemma rspares_call o : mutates o t = false -> rspares (call eps o).
Proof.
  intros H st. apply (spares_step eps t (r_world st) o) in H. unfold call.
  destruct (step eps o (r_world st)) as [w' r]. exact H.
Qed.
Lemma cspares_run {A} (m : RM A) : rspares m -> cspares (c_run m).
Proof. intros H [st c]. unfold c_run. cbn [fst]. specialize (H st). destruct (m st). exact H. Qed.
Lemma cspares_lift {A} (r : res A) : cspares (se_lift r).
Proof. intros st. apply spares_refl. Qed.
Lemma cspares_ret {A} (a : A) : cspares (se_ret a).
Proof. intros st. apply spares_refl. Qed.
Lemma cspares_self : cspares c_self.
Proof. intros st. apply spares_refl. Qed.
Lemma cspares_anneal : cspares anneal.
Proof. intros st. apply spares_refl. Qed.

Lemma rspares_create d ps probs : rspares (create_random_sequence_entry g eps d ps probs).
Proof.
  intros st. destruct (create_random_sequence_entry g eps d ps probs st) as [st' [l|x]] eqn:E; cbn [fst].
  - apply (create_ok g eps G) in E. destruct E as (gt & _ & _ & H). apply H.
  - apply create_raise in E. rewrite E. apply spares_refl.
Qed.
Lemma rspares_entries d p n : rspares (create_entries g eps d p n).
Proof.
  induction n as [|n IH]; simpl; [apply rspares_draws, draws_ret|].
  apply rspares_bind; [apply rspares_create|]. intros. apply rspares_bind; [exact IH|]. intros. apply rspares_draws, draws_ret.
Qed.
Lemma rspares_layer d counts : rspares (create_random_layer g eps d counts).
Proof.
  apply rspares_bind; [|intros; apply rspares_draws, draws_shuffle].
  induction counts as [|[p c] cs IH]; simpl; [apply rspares_draws, draws_ret|].
  apply rspares_bind; [apply rspares_entries|]. intros. apply rspares_bind; [exact IH|]. intros. apply rspares_draws, draws_ret.
Qed.
Lemma rspares_append_all mk ls : (forall l b, mutates (mk l b) t = false) -> forall first, rspares (append_all eps mk ls first).
Proof.
  intros H. induction ls as [|l ls IH]; intros first; simpl; [apply rspares_draws, draws_ret|].
  apply rspares_bind; [now apply rspares_call|]. intros. apply IH.
Qed.
Lemma rspares_remove_all mk k : (forall b, mutates (mk b) t = false) -> forall first, rspares (remove_all eps mk k first).
Proof.
  intros H. induction k as [|k IH]; intros first; simpl; [apply rspares_draws, draws_ret|].
  apply rspares_bind; [now apply rspares_call|]. intros. apply IH.
Qed.

Lemma cspares_single s : s <> t -> cspares (make_random_change g eps s).
Proof.
  intros N. assert (E : Nat.eqb s t = false) by now apply Nat.eqb_neq.
  apply cspares_bind; [apply cspares_self|]. intros c.
  apply cspares_bind; [apply cspares_run, rspares_draws, draws_choose_action|]. intros [].
  1,2: (apply cspares_bind; [apply cspares_run, rspares_create|]; intros; apply cspares_bind; [|intros; apply cspares_ret];
     apply cspares_run, rspares_call; exact E).
  1,2: (apply cspares_bind; [|intros; apply cspares_ret]; apply cspares_run, rspares_call; exact E).
Qed.
Lemma cspares_layered counts s : s <> t -> cspares (make_random_change_layered g eps counts s).
Proof.
  intros N. assert (E : Nat.eqb s t = false) by now apply Nat.eqb_neq.
  apply cspares_bind; [apply cspares_self|]. intros c.
  apply cspares_bind; [apply cspares_run, rspares_draws, draws_choose_action|]. intros [].
  1,2: (apply cspares_bind; [apply cspares_run, rspares_layer|]; intros; apply cspares_run, rspares_append_all; intros; exact E).
  1,2: (apply cspares_run, rspares_remove_all; intros; exact E).
Qed.

Section Change.
Variable change : nat -> CM unit.
Hypothesis HC : forall s, s <> t -> cspares (change s).
Lemma cspares_product s : cspares (c_run (call_unitary eps (Product s))).
Proof.
  apply cspares_run. apply rspares_bind; [now apply rspares_call|].
  intros []; apply rspares_draws; first [apply draws_ret|apply draws_raise].
Qed.
Lemma cspares_step s target : s <> t -> cspares (compile_step g eps change s target).
Proof.
  intros N. assert (E : Nat.eqb s t = false) by now apply Nat.eqb_neq. unfold compile_step.
  apply cspares_bind; [apply cspares_anneal|]. intros _.
  apply cspares_bind; [apply cspares_product|]. intros p.
  apply cspares_bind; [now apply HC|]. intros _.
  apply cspares_bind; [apply cspares_lift|]. intros cur.
  apply cspares_bind; [apply cspares_product|]. intros p1.
  apply cspares_bind; [apply cspares_lift|]. intros pro.
  apply cspares_bind.
  - apply cspares_bind; [apply cspares_self|]. intros c. apply cspares_bind; [|intros; apply cspares_ret].
    apply cspares_run, rspares_draws, draws_unif.
  - intros []; [apply cspares_ret|]. apply cspares_bind; [|intros; apply cspares_ret].
    apply cspares_run, rspares_call. exact E.
Qed.
Lemma cspares_loop s target thr max fuel : s <> t -> forall costs, cspares (compile_loop g eps change s target thr max costs fuel).
Proof.
  intros N. induction fuel as [|fuel IH]; intros costs; cbn [compile_loop]; [intros st; apply spares_refl|].
  apply cspares_bind; [apply cspares_product|]. intros p.
  apply cspares_bind; [apply cspares_lift|]. intros []; [apply cspares_ret|].
  destruct (Z.ltb _ _); [|apply cspares_ret].
  apply cspares_bind; [now apply cspares_step|]. intros. apply IH.
Qed.
Lemma spares_with target thr max st : WG eps anyg (r_world (fst st)) -> (t < List.length (w_seqs (r_world (fst st))))%nat ->
  spares (r_world (fst st)) (r_world (fst (fst (compile_with g eps change target thr max st)))).
Proof.
  intros HW HL. destruct st as [st c]. cbn [fst] in *. unfold compile_with. unfold se_bind at 1, c_self. cbn [snd].
  destruct (new_sequence_view eps (r_world st) (c_dim c) HW) as (w1 & E & _).
  assert (E1 : call_sequence eps (NewSequence (c_dim c) false []) st =
    ({| r_world := w1; r_draws := r_draws st |}, Ok (List.length (w_seqs (r_world st))))).
  { unfold call_sequence, se_bind, call. rewrite E. reflexivity. }
  rewrite (bind_eq _ _ _ _ _ (c_run_eq _ _ _ _ _ E1)).
  apply spares_trans with w1.
  - apply (spares_step_eq eps t _ (NewSequence (c_dim c) false []) _ _ eq_refl E).
  - assert (X : cspares (costs <-- compile_loop g eps change (List.length (w_seqs (r_world st))) target thr max [] (S (Z.to_nat max));;
      se_ret (List.length (w_seqs (r_world st)), costs))).
    2:{ exact (X ({| r_world := w1; r_draws := r_draws st |}, c)). }
    apply (cspares_bind (compile_loop g eps change (List.length (w_seqs (r_world st))) target thr max [] (S (Z.to_nat max)))
      (fun costs => se_ret (List.length (w_seqs (r_world st)), costs)));
      [apply cspares_loop; lia|intros; apply cspares_ret].
Qed.
End Change.
End Spare.

Lemma spares_others eps t w w' : WG eps anyg w -> spares eps t w w' ->
  forall d p, list_sequence w t d -> list_sequence w' t d /\ contents w' t = contents w t /\
    (answers eps w t p -> answers eps w' t p).
Proof.
  intros HW (_ & H & _) d p HL. destruct (sees_intro eps w t d HW HL) as (pv & S).
  destruct (H d _ _ S) as [S' A]. split; [|split; [eapply sees_contents; eauto|apply A]].
  destruct S' as (_ & q & E & D & Ar & _). exists q. auto.
Qed.

Lemma C55_lemma : forall g eps st k t d p, rng_ok g -> reachable eps (r_world (fst st)) ->
  list_sequence (r_world (fst st)) t d ->
  let w' := r_world (fst (fst (run_call g eps k st))) in
  list_sequence w' t d /\ contents w' t = contents (r_world (fst st)) t /\
  (answers eps (r_world (fst st)) t p -> answers eps w' t p).
Proof.
  intros g eps st k t d p G HR HL w'. assert (HW := reachable_W _ _ HR).
  apply (spares_others eps t (r_world (fst st)) w' HW); [|exact HL].
  assert (L : (t < List.length (w_seqs (r_world (fst st))))%nat).
  { destruct HL as (q & E & _). apply nth_error_Some. congruence. }
  subst w'. destruct k as [tg thr m|tg counts thr m]; cbn [run_call].
  - unfold compile. unfold se_bind at 1, c_self. cbn [snd]. unfold se_bind at 1, se_lift.
    destruct (assert_primitives (snd st)); [|apply spares_refl].
    apply spares_with; auto. intros s. apply cspares_single; auto.
  - apply spares_with; auto. intros s. apply cspares_layered; auto.
Qed.
