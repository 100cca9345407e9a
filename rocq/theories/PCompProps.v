(** Proofs of the properties of the compiler. *)
From Coq Require Import Reals List Arith Lia Lra Bool String ZArith Permutation.
From Coquelicot Require Import Rcomplements Complex.
From Verif Require Import Base CMat CMatFacts Det DetFacts Norms ModelUnitary ModelEntry ModelPrimitive
  ModelSequence ModelCompiler Spec SpecModel SpecCompiler PUnitary PUnitaryProps PEntry PSeqHeap PSeqMeth PSeqNear PSeqWorld
  PSeqUndo PSeqInv PSeqHist PSeqProps PCompView PCompRun PCompEntry PCompLoop PCompTrace PCompTotal.
Import ListNotations.
Open Scope R_scope.
Open Scope C_scope.
Open Scope se_scope.

(** ** Worlds *)
Lemma exact_winv_ex w : exact_world w -> exists K, winv 0 true K w.
Proof. intros (os & -> & H). exists (updates os 0). now apply exact_winv. Qed.

Lemma drift_winv eps K w : (0 <= eps <= 1)%R -> drift_world eps K w -> winv eps false K w.
Proof.
  intros He (os & -> & H & U). eapply winv_mono; [lra|lra|exact U|].
  apply exec_winv; [lra|lra| |apply winv_empty].
  eapply history_weaken; [| |exact H].
  - intros u B. split; [now apply made_rough|discriminate].
  - intros w s [].
Qed.

Lemma exact_W w : exact_world w -> WG 0 anyg w.
Proof. intros H. destruct (exact_winv_ex w H) as [K HK]. eapply winv_any; eauto. Qed.

Lemma evolves_exact k w w' : exact_world w -> evolves 0 (built 0) k w w' -> exact_world w'.
Proof.
  intros (os & -> & H) (os' & -> & H' & _). exists (os ++ os'). split; [symmetry; apply exec_app|].
  apply history_app; auto. eapply history_weaken; [| |exact H']; auto. intros w s [].
Qed.

Lemma evolves_drift eps K k w w' : drift_world eps K w -> evolves eps (made eps) k w w' -> drift_world eps (K + k) w'.
Proof.
  intros (os & -> & H & U) (os' & -> & H' & U'). exists (os ++ os'). split; [symmetry; apply exec_app|].
  split; [now apply history_app|]. rewrite updates_app.
  specialize (U' (updates os 0)). lia.
Qed.

Lemma evolves_weaken eps (P Q : unitary -> Prop) k w w' : (forall u, P u -> Q u) -> evolves eps P k w w' -> evolves eps Q k w w'.
Proof.
  intros H (os & E & Hh & U). exists os. split; auto. split; auto. eapply history_weaken; [exact H| |exact Hh]. auto.
Qed.

Lemma reachable_W eps w : reachable eps w -> WG eps anyg w.
Proof. intros (os & ->). apply W_exec. Qed.

(** ** C24 *)
Lemma fuel_irrelevant g eps change s target thr max : forall fuel fuel' costs st,
  (Z.to_nat (max - Z.of_nat (List.length costs)) < fuel)%nat -> (fuel <= fuel')%nat ->
  compile_loop g eps change s target thr max costs fuel' st = compile_loop g eps change s target thr max costs fuel st.
Proof.
  induction fuel as [|fuel IH]; intros fuel' costs st H1 H2; [lia|].
  destruct fuel' as [|fuel']; [lia|]. cbn [compile_loop]. unfold se_bind.
  destruct (c_run (call_unitary eps (Product s)) st) as [st1 [p|x]]; auto.
  destruct (se_lift (u_close_to eps p target thr) st1) as [st2 [[|]|x]]; auto.
  destruct (Z.ltb_spec (Z.of_nat (List.length costs)) max) as [L|L]; auto.
  destruct (compile_step g eps change s target st2) as [st3 [cost|x]]; auto.
  apply IH; rewrite ?app_length; simpl; lia.
Qed.

Lemma C24_lemma : forall g eps st c target thr max st' c' s costs,
  rng_ok g -> reachable eps (r_world st) ->
  compile g eps target thr max (st, c) = ((st', c'), Ok (s, costs)) ->
  (Z.of_nat (List.length costs) <= Z.max 0 max)%Z /\
  exists p close, answers eps (r_world st') s p /\ u_close_to eps p target thr = Ok close /\
    (close = false -> (max <= Z.of_nat (List.length costs))%Z).
Proof.
  intros g eps st c target thr max st' c' s costs G HW H. unfold compile in H.
  apply bind_ok in H. destruct H as (cc & sty & H0 & H). unfold c_self in H0. injection H0 as <- <-.
  apply bind_ok in H. destruct H as (t & sty & H1 & H). apply lift_ok in H1. destruct H1 as [-> _].
  destruct (with_ok g eps G _ _ c target thr max (fun _ => True) st c st' c' s costs
    (change_single g eps G c) (eq_sym (set_beta_same c)) I (fun _ _ _ _ => I) (reachable_W _ _ HW) H) as (_ & _ & A & B).
  auto.
Qed.

Lemma C24_layered_lemma : forall g eps st c target counts thr max st' c' s costs,
  rng_ok g -> reachable eps (r_world st) ->
  compile_layered g eps target counts thr max (st, c) = ((st', c'), Ok (s, costs)) ->
  (Z.of_nat (List.length costs) <= Z.max 0 max)%Z /\
  exists p close, answers eps (r_world st') s p /\ u_close_to eps p target thr = Ok close /\
    (close = false -> (max <= Z.of_nat (List.length costs))%Z).
Proof.
  intros g eps st c target counts thr max st' c' s costs G HW H. unfold compile_layered in H.
  destruct (with_ok g eps G _ _ c target thr max (fun _ => True) st c st' c' s costs
    (change_layered g eps G c counts) (eq_sym (set_beta_same c)) I (fun _ _ _ _ => I) (reachable_W _ _ HW) H) as (_ & _ & A & B).
  auto.
Qed.

Lemma C24_fuel_lemma : forall g eps change s target thr max st fuel,
  (S (Z.to_nat max) <= fuel)%nat ->
  compile_loop g eps change s target thr max [] fuel st =
  compile_loop g eps change s target thr max [] (S (Z.to_nat max)) st.
Proof. intros. apply fuel_irrelevant; auto. simpl. rewrite Z.sub_0_r. lia. Qed.

(** ** C25 *)
Lemma distance_meq eps u v v' : u_dim v = u_dim v' -> meq (u_dim v) (u_mat v) (u_mat v') ->
  u_distance_from eps u v = u_distance_from eps u v'.
Proof.
  intros D E. unfold u_distance_from, u_distance_from_array. cbn [nrows ncols square]. rewrite <- D.
  destruct (Nat.eqb_spec (u_dim v) (u_dim u)) as [Du|]; [|reflexivity]. cbn [andb assert bind].
  destruct (u_inverse eps u) as [i|x]; [|reflexivity]. cbn [bind elt]. rewrite <- Du.
  assert (T : mtrace (u_dim v) (mmul (u_dim v) (u_mat i) (u_mat v)) = mtrace (u_dim v) (mmul (u_dim v) (u_mat i) (u_mat v'))).
  { now rewrite E. }
  cbn [elt square]. rewrite T. reflexivity.
Qed.

Lemma exact_answers K w s n cs pv : winv 0 true K w -> sees 0 w s (2 ^ n) cs pv ->
  exists p, answers 0 w s p /\ u_dim p = (2 ^ n)%nat /\ meq (2 ^ n) (u_mat p) (ordered n cs).
Proof.
  intros HW S.
  destruct (winv_exact 0 K w s n ltac:(lra) HW (sees_has_dim _ _ _ _ _ _ S) (lim_zero _ _)) as (p & A & N).
  rewrite (sees_contents _ _ _ _ _ _ S) in N. destruct (near_zero _ _ _ _ N) as (D & _ & E).
  exists p. auto.
Qed.

Lemma exact_same K K' w w' s n cs pv pv' p :
  winv 0 true K w -> winv 0 true K' w' -> sees 0 w s (2 ^ n) cs pv -> sees 0 w' s (2 ^ n) cs pv' ->
  answers 0 w s p -> exists p', answers 0 w' s p' /\ u_dim p' = u_dim p /\ meq (u_dim p) (u_mat p') (u_mat p).
Proof.
  intros HW HW' S S' A.
  destruct (exact_answers K w s n cs pv HW S) as (p0 & A0 & D0 & E0).
  assert (p0 = p) by (eapply answers_unique; eauto). subst p0.
  destruct (exact_answers K' w' s n cs pv' HW' S') as (p' & A' & D' & E').
  exists p'. split; auto. rewrite D0. split; [exact D'|]. now rewrite E', E0.
Qed.

Lemma step_last g change Rel c0 k bt s target st st' c' cost cs pv n K :
  rng_ok g -> change_ok 0 change Rel c0 -> (forall s, ctraced 0 (safe_gate 0 true) c0 k (change s)) ->
  c_dim c0 = (2 ^ n)%nat ->
  winv 0 true K (r_world st) -> sees 0 (r_world st) s (c_dim c0) cs pv ->
  compile_step g 0 change s target (st, set_beta c0 bt) = ((st', c'), Ok cost) ->
  winv 0 true (K + k) (r_world st') /\
  exists p, answers 0 (r_world st') s p /\ u_distance_from 0 target p = Ok cost.
Proof.
  intros G HC HT Hd HW S H.
  assert (HW' : winv 0 true (K + k) (r_world st')).
  { apply (evolves_winv 0 ltac:(lra) ltac:(lra) true K k (r_world st)); auto.
    destruct (step_traced g 0 (safe_gate 0 true) c0 k change s target HT st bt) as [T _]. now rewrite H in T. }
  split; auto.
  destruct (step_ok g 0 G change Rel c0 bt s target _ _ _ _ _ _ HC S H)
    as (_ & p & current & p1 & proposed & cs1 & x & A & Ec & _ & Ep & _ & D).
  destruct D as [(_ & -> & _ & A1)|(_ & -> & S')].
  - exists p1. auto.
  - rewrite Hd in S, S'.
    destruct (exact_same _ _ _ _ s n cs pv None p HW HW' S S' A) as (p' & A' & D' & E').
    exists p'. split; auto. rewrite <- Ec. apply distance_meq; auto. now rewrite D'.
Qed.

Lemma loop_last g change Rel c0 k s target thr max n :
  rng_ok g -> change_ok 0 change Rel c0 -> (forall s, ctraced 0 (safe_gate 0 true) c0 k (change s)) ->
  c_dim c0 = (2 ^ n)%nat ->
  forall fuel bt costs st st' c' costs' cs pv K,
  winv 0 true K (r_world st) -> sees 0 (r_world st) s (c_dim c0) cs pv ->
  (costs = [] \/ exists p, answers 0 (r_world st) s p /\ u_distance_from 0 target p = Ok (last costs 0%R)) ->
  compile_loop g 0 change s target thr max costs fuel (st, set_beta c0 bt) = ((st', c'), Ok costs') ->
  costs' = [] \/ exists p, answers 0 (r_world st') s p /\ u_distance_from 0 target p = Ok (last costs' 0%R).
Proof.
  intros G HC HT Hd. induction fuel as [|fuel IH]; intros bt costs st st' c' costs' cs pv K HW S HL H; [discriminate|].
  cbn [compile_loop] in H.
  apply bind_ok in H. destruct H as (p & [st1 c1] & H1 & H). apply c_run_inv in H1. destruct H1 as [H1 ->].
  apply call_unitary_ok in H1. destruct H1 as [H1 _].
  destruct (product_view 0 _ _ _ _ _ _ _ S H1) as (p' & E & S1 & A & A1 & _). injection E as <-.
  assert (HW1 := step_winv 0 ltac:(lra) ltac:(lra) true (Product s) K (r_world st) I HW). rewrite H1 in HW1. cbn [fst cost1] in HW1.
  assert (HL1 : costs = [] \/ exists p, answers 0 (r_world st1) s p /\ u_distance_from 0 target p = Ok (last costs 0%R)).
  { destruct HL as [->|(p0 & A0 & E0)]; auto. right. exists p. split; auto.
    assert (p0 = p) by (eapply answers_unique; eauto). congruence. }
  apply bind_ok in H. destruct H as (close & sty & H2 & H). apply lift_ok in H2. destruct H2 as [-> H2].
  destruct close; [|destruct (Z.ltb (Z.of_nat (List.length costs)) max)].
  - apply ret_ok in H. destruct H as [H ->]. injection H as -> ->. exact HL1.
  - apply bind_ok in H. destruct H as (cost & [st2 c2] & H3 & H).
    destruct (step_last g change Rel c0 k bt s target _ _ _ _ _ _ n K G HC HT Hd HW1 S1 H3) as (HW2 & HL2).
    destruct (step_ok g 0 G change Rel c0 bt s target _ _ _ _ _ _ HC S1 H3)
      as (-> & q1 & q2 & q3 & q4 & cs1 & q5 & _ & _ & _ & _ & _ & D).
    assert (X : exists cs2 pv2, sees 0 (r_world st2) s (c_dim c0) cs2 pv2).
    { destruct D as [(_ & _ & [pv1 D] & _)|(_ & _ & D)]; eauto. }
    destruct X as (cs2 & pv2 & S2).
    eapply (IH _ (costs ++ [cost]) st2 st' c' costs' cs2 pv2 (K + k)%nat HW2 S2); [|exact H].
    right. now rewrite last_last.
  - apply ret_ok in H. destruct H as [H ->]. injection H as -> ->. exact HL1.
Qed.

Lemma with_last g change Rel c k target thr max st st' c' s costs n :
  rng_ok g -> change_ok 0 change Rel c -> (forall s, ctraced 0 (safe_gate 0 true) c k (change s)) ->
  c_dim c = (2 ^ n)%nat -> exact_world (r_world st) ->
  compile_with g 0 change target thr max (st, c) = ((st', c'), Ok (s, costs)) ->
  costs <> [] -> exists p, answers 0 (r_world st') s p /\ u_distance_from 0 target p = Ok (last costs 0%R).
Proof.
  intros G HC HT Hd HX H HN. destruct (exact_winv_ex _ HX) as [K HW].
  unfold compile_with in H.
  apply bind_ok in H. destruct H as (cc & sty & H0 & H). unfold c_self in H0. injection H0 as <- <-.
  cbn [snd] in H. apply bind_ok in H. destruct H as (s0 & [st1 c1] & H1 & H).
  apply c_run_inv in H1. destruct H1 as [H1 ->]. apply call_sequence_ok in H1. destruct H1 as [H1 _].
  assert (HW1 := step_winv 0 ltac:(lra) ltac:(lra) true (NewSequence (c_dim c) false []) K (r_world st) I HW).
  rewrite H1 in HW1. cbn [fst] in HW1.
  destruct (new_sequence_view 0 (r_world st) (c_dim c) (exact_W _ HX)) as (w1 & E & S1).
  rewrite E in H1. injection H1 as E1 <-.
  apply bind_ok in H. destruct H as (costs1 & [st2 c2] & H2 & H). apply ret_ok in H. destruct H as [H H3].
  injection H as -> ->. injection H3 as -> ->.
  rewrite E1 in S1. rewrite <- (set_beta_same c) in H2.
  destruct (loop_last g change Rel c k _ target thr max n G HC HT Hd _ _ _ _ _ _ _ _ _ _ HW1 S1 (or_introl eq_refl) H2) as [|X]; auto.
  contradiction.
Qed.

Lemma made_from_built0 u : made_from 0 u -> built 0 u.
Proof. intros (d & M & nm & ps & iv & ap & HU & E). exists d, M, nm, ps, iv, ap. auto using eps_clean_0. Qed.
Lemma made_built0 u : made 0 u -> built 0 u.
Proof. intros (d & M & nm & ps & iv & ap & HU & E). exists d, M, nm, ps, iv, ap. split; auto using eps_clean_0.
  destruct HU as [HU|(v & Hv & <- & <-)]; auto. apply made_from_built0, built_wf in Hv. apply Hv.
Qed.
#[export] Hint Resolve made_built0 built_made : core.
Lemma safe_built0 u : built 0 u -> safe_gate 0 true u.
Proof.
  intros B. assert (W := built_wf _ _ B). split; [apply wf_rough; auto; lra|]. intros _. split; auto. apply eps_clean_0.
Qed.
Lemma safe_made0 u : made 0 u -> safe_gate 0 true u.
Proof. intros B. now apply safe_built0, made_built0. Qed.
Lemma safe_made eps u : (0 <= eps)%R -> made eps u -> safe_gate eps false u.
Proof. intros He B. split; [now apply made_rough|discriminate]. Qed.

Lemma good_safe eps (P : unitary -> Prop) ps : (forall u, made eps u -> P u) ->
  (forall p, In p ps -> good_source eps (p_source p)) -> Forall (safe_primitive eps P) ps.
Proof.
  intros HP H. apply Forall_forall. intros p Hp u I. apply HP. eapply good_instance; eauto.
Qed.
Lemma good_safe_counts eps (P : unitary -> Prop) (counts : list (primitive * Z)) : (forall u, made eps u -> P u) ->
  (forall pc, In pc counts -> good_source eps (p_source (fst pc))) ->
  Forall (fun pc => safe_primitive eps P (fst pc)) counts.
Proof.
  intros HP H. apply Forall_forall. intros p Hp u I. apply HP. eapply good_instance; eauto.
Qed.

Lemma compile_inv g eps target thr max st c st' c' r :
  compile g eps target thr max (st, c) = ((st', c'), Ok r) ->
  compile_with g eps (make_random_change g eps) target thr max (st, c) = ((st', c'), Ok r).
Proof.
  intros H. unfold compile in H.
  apply bind_ok in H. destruct H as (cc & sty & H0 & H). unfold c_self in H0. injection H0 as <- <-.
  apply bind_ok in H. destruct H as (t & sty & H1 & H). apply lift_ok in H1. destruct H1 as [-> _]. exact H.
Qed.

Lemma C25_lemma : forall g st c target thr max st' c' s costs n,
  rng_ok g -> exact_world (r_world st) -> c_dim c = (2 ^ n)%nat ->
  (forall p, In p (c_prims c) -> good_source 0 (p_source p)) ->
  compile g 0 target thr max (st, c) = ((st', c'), Ok (s, costs)) -> costs <> [] ->
  exists p, answers 0 (r_world st') s p /\ u_distance_from 0 target p = Ok (last costs 0%R).
Proof.
  intros g st c target thr max st' c' s costs n G HX Hd HP H HN. apply compile_inv in H.
  eapply (with_last g _ _ c 1); eauto; [now apply change_single|].
  intros s0. apply single_traced; auto. now apply (good_safe 0); [apply safe_made0|].
Qed.

Lemma C25_layered_lemma : forall g st c target counts thr max st' c' s costs n,
  rng_ok g -> exact_world (r_world st) -> c_dim c = (2 ^ n)%nat ->
  (forall pc, In pc counts -> good_source 0 (p_source (fst pc))) ->
  compile_layered g 0 target counts thr max (st, c) = ((st', c'), Ok (s, costs)) -> costs <> [] ->
  exists p, answers 0 (r_world st') s p /\ u_distance_from 0 target p = Ok (last costs 0%R).
Proof.
  intros g st c target counts thr max st' c' s costs n G HX Hd HP H HN. unfold compile_layered in H.
  eapply (with_last g _ _ c (layer_size counts)); eauto; [now apply change_layered|].
  intros s0. apply layered_traced; auto. now apply (good_safe_counts 0); [apply safe_made0|].
Qed.

(** Stopping earlier gives the same run, cut. *)
Lemma loop_prefix g eps change s target thr max m :
  (Z.of_nat m <= max)%Z ->
  forall fuel fuel' costs st st' costs',
  compile_loop g eps change s target thr max costs fuel st = (st', Ok costs') ->
  (List.length costs <= m <= List.length costs')%nat -> (m - List.length costs < fuel')%nat ->
  exists st'', compile_loop g eps change s target thr (Z.of_nat m) costs fuel' st = (st'', Ok (firstn m costs')).
Proof.
  intros HM. induction fuel as [|fuel IH]; intros fuel' costs st st' costs' H HL HF; [discriminate|].
  destruct fuel' as [|fuel']; [lia|].
  assert (HE : forall st1, (st1, Ok costs) = (st', Ok costs') -> firstn m costs' = costs).
  { intros st1 X. injection X as _ <-. assert (m = List.length costs) by lia. subst m. apply firstn_all. }
  cbn [compile_loop] in H |- *. unfold se_bind in *.
  destruct (c_run (call_unitary eps (Product s)) st) as [st1 [p|x]]; [|discriminate].
  destruct (se_lift (u_close_to eps p target thr) st1) as [st2 [[|]|x]]; [| |discriminate].
  - unfold se_ret in *. rewrite (HE _ H). eauto.
  - destruct (Z.ltb_spec (Z.of_nat (List.length costs)) max) as [L|L].
    + destruct (compile_step g eps change s target st2) as [st3 [cost|x]] eqn:ES; [|discriminate].
      destruct (Z.ltb_spec (Z.of_nat (List.length costs)) (Z.of_nat m)) as [L1|L1].
      * rewrite ES. apply (IH fuel' _ _ st'); auto; rewrite app_length; simpl; lia.
      * assert (EL : m = List.length costs) by lia. clear IH.
        assert (X : exists more, costs' = (costs ++ [cost]) ++ more).
        { clear - H. revert H. generalize (costs ++ [cost]). revert st3. induction fuel as [|fuel IH]; intros st3 l H; [discriminate|].
          cbn [compile_loop] in H. unfold se_bind in H.
          destruct (c_run (call_unitary eps (Product s)) st3) as [st1 [p|x]]; [|discriminate].
          destruct (se_lift (u_close_to eps p target thr) st1) as [st2 [[|]|x]]; [| |discriminate].
          - unfold se_ret in H. injection H as _ <-. exists []. now rewrite app_nil_r.
          - destruct (Z.ltb (Z.of_nat (List.length l)) max).
            + destruct (compile_step g eps change s target st2) as [st4 [c4|x]]; [|discriminate].
              apply IH in H. destruct H as (more & ->). exists (c4 :: more). now rewrite <- app_assoc.
            + unfold se_ret in H. injection H as _ <-. exists []. now rewrite app_nil_r. }
        destruct X as (more & ->). rewrite <- app_assoc. subst m. rewrite firstn_app, Nat.sub_diag, firstn_all.
        simpl. rewrite app_nil_r. unfold se_ret. eauto.
    + destruct (Z.ltb_spec (Z.of_nat (List.length costs)) (Z.of_nat m)); [lia|].
      unfold se_ret in *. rewrite (HE _ H). eauto.
Qed.

Lemma with_prefix g eps change target thr max st st' s costs m :
  compile_with g eps change target thr max st = (st', Ok (s, costs)) -> (m <= List.length costs)%nat ->
  (Z.of_nat m <= max)%Z ->
  exists st'', compile_with g eps change target thr (Z.of_nat m) st = (st'', Ok (s, firstn m costs)).
Proof.
  intros H HL HM. unfold compile_with in *. unfold se_bind at 1 in H. unfold se_bind at 1. unfold c_self in *.
  unfold se_bind at 1 in H. unfold se_bind at 1.
  destruct (c_run _ st) as [st1 [s1|x]]; [|discriminate].
  apply bind_ok in H. destruct H as (c1 & st2 & H & H2). apply ret_ok in H2. destruct H2 as [-> H2].
  injection H2 as -> ->.
  destruct (loop_prefix g eps change s1 target thr max m HM _ (S (Z.to_nat (Z.of_nat m))) [] st1 st2 c1 H) as (st'' & E).
  - simpl. lia.
  - simpl. lia.
  - exists st''. rewrite (bind_eq _ _ _ _ _ E). reflexivity.
Qed.

Lemma C25_prefix_lemma : forall g eps st target thr max st' s costs m,
  compile g eps target thr max st = (st', Ok (s, costs)) -> (m <= List.length costs)%nat -> (Z.of_nat m <= max)%Z ->
  exists st'', compile g eps target thr (Z.of_nat m) st = (st'', Ok (s, firstn m costs)).
Proof.
  intros g eps st target thr max st' s costs m H HL HM. unfold compile in *.
  unfold se_bind in *. unfold c_self in *. destruct (se_lift (assert_primitives (snd st)) st) as [st1 [x|e]]; [|discriminate].
  eapply with_prefix; eauto.
Qed.

Lemma C25_prefix_layered_lemma : forall g eps st target counts thr max st' s costs m,
  compile_layered g eps target counts thr max st = (st', Ok (s, costs)) -> (m <= List.length costs)%nat ->
  (Z.of_nat m <= max)%Z ->
  exists st'', compile_layered g eps target counts thr (Z.of_nat m) st = (st'', Ok (s, firstn m costs)).
Proof. intros. eapply with_prefix; eauto. Qed.

(** ** C26 *)
Lemma drift_small eps n K : small_drift eps n K -> lim eps n (8 * K) /\ (err eps n (8 * K) <= drift_bound eps n K)%R.
Proof.
  intros ((E0 & E1) & H1 & H2). destruct (drift_lim eps n (8 * K) K 14) as [B L]; auto.
  rewrite mult_INR. simpl (INR 8). assert (0 <= INR K)%R by apply pos_INR. lra.
Qed.

Lemma with_product g change Rel c k target thr max st st' c' s costs n :
  rng_ok g -> change_ok 0 change Rel c -> (forall s, ctraced 0 (built 0) c k (change s)) ->
  c_dim c = (2 ^ n)%nat -> exact_world (r_world st) ->
  compile_with g 0 change target thr max (st, c) = ((st', c'), Ok (s, costs)) ->
  exact_world (r_world st') /\
  exists p close, answers 0 (r_world st') s p /\ u_dim p = (2 ^ n)%nat /\
    meq (2 ^ n) (u_mat p) (ordered n (contents (r_world st') s)) /\
    u_close_to 0 p target thr = Ok close /\
    (close = false -> (max <= Z.of_nat (List.length costs))%Z).
Proof.
  intros G HC HT Hd HX H.
  destruct (with_ok g 0 G _ _ c target thr max (fun _ => True) st c st' c' s costs
    HC (eq_sym (set_beta_same c)) I (fun _ _ _ _ => I) (exact_W _ HX) H) as (_ & (cs & pv & S & _) & _ & p & close & A & Ec & D).
  assert (HX' : exact_world (r_world st')).
  { eapply evolves_exact; [exact HX|].
    destruct (with_traced g 0 (built 0) c k change target thr max HT st (c_beta c)) as [T _].
    rewrite set_beta_same, H in T. exact T. }
  split; auto. destruct (exact_winv_ex _ HX') as [K HW]. rewrite Hd in S.
  destruct (exact_answers K _ s n cs pv HW S) as (p' & A' & D' & E').
  assert (p' = p) by (eapply answers_unique; eauto). subst p'.
  exists p, close. rewrite (sees_contents _ _ _ _ _ _ S). auto 10.
Qed.

Lemma with_product_drift g eps change Rel c k target thr max st st' c' s costs n K :
  rng_ok g -> change_ok eps change Rel c -> (forall s, ctraced eps (made eps) c k (change s)) ->
  c_dim c = (2 ^ n)%nat -> drift_world eps K (r_world st) ->
  small_drift eps n (K + k * Z.to_nat max) ->
  compile_with g eps change target thr max (st, c) = ((st', c'), Ok (s, costs)) ->
  drift_world eps (K + k * Z.to_nat max) (r_world st') /\
  exists p close, answers eps (r_world st') s p /\ u_dim p = (2 ^ n)%nat /\
    (fro (2 ^ n) (mminus (u_mat p) (ordered n (contents (r_world st') s))) <= drift_bound eps n (K + k * Z.to_nat max))%R /\
    u_close_to eps p target thr = Ok close /\
    (close = false -> (max <= Z.of_nat (List.length costs))%Z).
Proof.
  intros G HC HT Hd HX SD H. assert (HE := proj1 SD). destruct (drift_small _ _ _ SD) as [L B].
  assert (HW0 := drift_winv eps K _ HE HX).
  destruct (with_ok g eps G _ _ c target thr max (fun _ => True) st c st' c' s costs
    HC (eq_sym (set_beta_same c)) I (fun _ _ _ _ => I) (winv_any _ _ _ _ HW0) H) as (_ & (cs & pv & S & _) & _ & p & close & A & Ec & D).
  assert (HX' : drift_world eps (K + k * Z.to_nat max) (r_world st')).
  { eapply evolves_drift; [exact HX|].
    destruct (with_traced g eps (made eps) c k change target thr max HT st (c_beta c)) as [T _].
    rewrite set_beta_same, H in T. exact T. }
  split; auto. assert (HW := drift_winv eps _ _ HE HX'). rewrite Hd in S.
  destruct (winv_stored eps _ _ s n HE HW (sees_has_dim _ _ _ _ _ _ S)) as (p' & A' & N & _ & F & _).
  { eapply lim_mono; [apply HE|apply HE| |exact L]. lia. }
  assert (p' = p) by (eapply answers_unique; eauto). subst p'. destruct N as (N1 & _).
  exists p, close. split; auto. split; auto. split; [|auto].
  eapply Rle_trans; [exact F|]. eapply Rle_trans; [|exact B]. apply err_mono; [apply HE|lia].
Qed.

Lemma C26_lemma : forall g st c target thr max st' c' s costs n,
  rng_ok g -> exact_world (r_world st) -> c_dim c = (2 ^ n)%nat ->
  (forall p, In p (c_prims c) -> good_source 0 (p_source p)) ->
  compile g 0 target thr max (st, c) = ((st', c'), Ok (s, costs)) ->
  exact_world (r_world st') /\
  exists p close, answers 0 (r_world st') s p /\ u_dim p = (2 ^ n)%nat /\
    meq (2 ^ n) (u_mat p) (ordered n (contents (r_world st') s)) /\
    u_close_to 0 p target thr = Ok close /\
    (close = false -> (max <= Z.of_nat (List.length costs))%Z).
Proof.
  intros g st c target thr max st' c' s costs n G HX Hd HP H. apply compile_inv in H.
  eapply (with_product g _ _ c 1); eauto; [now apply change_single|].
  intros s0. apply single_traced; auto. apply (good_safe 0); auto.
Qed.

Lemma C26_layered_lemma : forall g st c target counts thr max st' c' s costs n,
  rng_ok g -> exact_world (r_world st) -> c_dim c = (2 ^ n)%nat ->
  (forall pc, In pc counts -> good_source 0 (p_source (fst pc))) ->
  compile_layered g 0 target counts thr max (st, c) = ((st', c'), Ok (s, costs)) ->
  exact_world (r_world st') /\
  exists p close, answers 0 (r_world st') s p /\ u_dim p = (2 ^ n)%nat /\
    meq (2 ^ n) (u_mat p) (ordered n (contents (r_world st') s)) /\
    u_close_to 0 p target thr = Ok close /\
    (close = false -> (max <= Z.of_nat (List.length costs))%Z).
Proof.
  intros g st c target counts thr max st' c' s costs n G HX Hd HP H.
  eapply (with_product g _ _ c (layer_size counts)); eauto; [now apply change_layered|].
  intros s0. apply layered_traced; auto. apply (good_safe_counts 0); auto.
Qed.

Lemma C26_drift_lemma : forall g eps st c target thr max st' c' s costs n K,
  rng_ok g -> drift_world eps K (r_world st) -> c_dim c = (2 ^ n)%nat ->
  (forall p, In p (c_prims c) -> good_source eps (p_source p)) ->
  small_drift eps n (K + Z.to_nat max) ->
  compile g eps target thr max (st, c) = ((st', c'), Ok (s, costs)) ->
  drift_world eps (K + Z.to_nat max) (r_world st') /\
  exists p close, answers eps (r_world st') s p /\ u_dim p = (2 ^ n)%nat /\
    (fro (2 ^ n) (mminus (u_mat p) (ordered n (contents (r_world st') s))) <= drift_bound eps n (K + Z.to_nat max))%R /\
    u_close_to eps p target thr = Ok close /\
    (close = false -> (max <= Z.of_nat (List.length costs))%Z).
Proof.
  intros g eps st c target thr max st' c' s costs n K G HX Hd HP SD H. apply compile_inv in H.
  rewrite <- (Nat.mul_1_l (Z.to_nat max)) in SD |- *.
  eapply (with_product_drift g eps _ _ c 1); eauto; [now apply change_single|].
  intros s0. apply single_traced; auto. now apply (good_safe eps).
Qed.

Lemma C26_drift_layered_lemma : forall g eps st c target counts thr max st' c' s costs n K,
  rng_ok g -> drift_world eps K (r_world st) -> c_dim c = (2 ^ n)%nat ->
  (forall pc, In pc counts -> good_source eps (p_source (fst pc))) ->
  small_drift eps n (K + table_size counts * Z.to_nat max) ->
  compile_layered g eps target counts thr max (st, c) = ((st', c'), Ok (s, costs)) ->
  drift_world eps (K + table_size counts * Z.to_nat max) (r_world st') /\
  exists p close, answers eps (r_world st') s p /\ u_dim p = (2 ^ n)%nat /\
    (fro (2 ^ n) (mminus (u_mat p) (ordered n (contents (r_world st') s))) <=
      drift_bound eps n (K + table_size counts * Z.to_nat max))%R /\
    u_close_to eps p target thr = Ok close /\
    (close = false -> (max <= Z.of_nat (List.length costs))%Z).
Proof.
  intros g eps st c target counts thr max st' c' s costs n K G HX Hd HP SD H.
  eapply (with_product_drift g eps _ _ c (layer_size counts)); eauto; [now apply change_layered|].
  intros s0. apply layered_traced; auto. now apply (good_safe_counts eps).
Qed.

(** ** C27 *)
Lemma Forall_tl {A} (P : A -> Prop) l : Forall P l -> Forall P (tl l).
Proof. destruct 1; simpl; auto. Qed.
Lemma Forall_firstn_any {A} (P : A -> Prop) l k : Forall P l -> Forall P (firstn k l).
Proof. intros H. rewrite <- (firstn_skipn k l) in H. apply Forall_app in H. apply H. Qed.
Lemma Forall_skipn_any {A} (P : A -> Prop) l k : Forall P l -> Forall P (skipn k l).
Proof. intros H. rewrite <- (firstn_skipn k l) in H. apply Forall_app in H. apply H. Qed.

Lemma C27_lemma : forall g eps st c target thr max st' c' s costs,
  rng_ok g -> reachable eps (r_world st) ->
  compile g eps target thr max (st, c) = ((st', c'), Ok (s, costs)) ->
  has_dim (r_world st') s (c_dim c) /\
  Forall (fun gt => exists p, weighted (c_prims c) (c_probs c) p /\ allows eps (c_dim c) p gt) (contents (r_world st') s).
Proof.
  intros g eps st c target thr max st' c' s costs G HW H. apply compile_inv in H.
  destruct (with_ok g eps G _ _ c target thr max
    (Forall (fun gt => exists p, weighted (c_prims c) (c_probs c) p /\ allows eps (c_dim c) p gt)) st c st' c' s costs
    (change_single g eps G c) (eq_sym (set_beta_same c)) (Forall_nil _)) as (_ & (cs & pv & S & P) & _); auto.
  - intros cs cs' P [(gt & p & Hp & Ha & [->| ->])|(_ & [->| ->])].
    + constructor; eauto.
    + apply Forall_app. split; auto. constructor; eauto.
    + now apply Forall_tl.
    + rewrite removelast_firstn_len. now apply Forall_firstn_any.
  - now apply reachable_W.
  - rewrite (sees_contents _ _ _ _ _ _ S). split; [eapply sees_has_dim; eauto|exact P].
Qed.

Lemma layer_allowed eps d counts layer : layer_of eps d counts layer ->
  Forall (fun gt => exists pc, In pc counts /\ (0 < snd pc)%Z /\ allows eps d (fst pc) gt) layer.
Proof.
  intros (parts & P & F). eapply Permutation_Forall; [apply Permutation_sym; exact P|]. clear P.
  induction F as [|pc part counts parts [H1 H2] _ IH]; simpl; [constructor|]. apply Forall_app. split.
  - rewrite Forall_forall in *. intros gt Hgt. exists pc. split; [simpl; auto|]. split; auto.
    destruct part as [|x t]; [contradiction|]. simpl in H1. lia.
  - eapply Forall_impl; [|exact IH]. intros gt (pc' & A & B). exists pc'. split; auto.
Qed.

Lemma C27_layered_lemma : forall g eps st c target counts thr max st' c' s costs,
  rng_ok g -> reachable eps (r_world st) ->
  compile_layered g eps target counts thr max (st, c) = ((st', c'), Ok (s, costs)) ->
  has_dim (r_world st') s (c_dim c) /\
  Forall (fun gt => exists pc, In pc counts /\ (0 < snd pc)%Z /\ allows eps (c_dim c) (fst pc) gt)
    (contents (r_world st') s).
Proof.
  intros g eps st c target counts thr max st' c' s costs G HW H.
  destruct (with_ok g eps G _ _ c target thr max
    (Forall (fun gt => exists pc, In pc counts /\ (0 < snd pc)%Z /\ allows eps (c_dim c) (fst pc) gt)) st c st' c' s costs
    (change_layered g eps G c counts) (eq_sym (set_beta_same c)) (Forall_nil _)) as (_ & (cs & pv & S & P) & _); auto.
  - intros cs cs' P [(layer & HL & D)|(_ & _ & [->| ->])].
    + apply layer_allowed in HL. destruct D as [->| ->]; apply Forall_app; auto.
    + now apply Forall_skipn_any.
    + now apply Forall_firstn_any.
  - now apply reachable_W.
  - rewrite (sees_contents _ _ _ _ _ _ S). split; [eapply sees_has_dim; eauto|exact P].
Qed.

(** ** C28 *)
Lemma good_choosable eps n c : good_compiler eps n c -> choosable (c_prims c) (c_probs c).
Proof.
  intros (_ & _ & _ & H). unfold choosable. destruct (c_probs c) as [q|].
  - destruct H as (H1 & H2 & H3). rewrite filter_all; auto.
    intros p Hp. specialize (H2 p Hp). unfold usable. destruct (p_allowed p) as [[|]|]; auto.
  - destruct H as (p & Hp & Hn). split; auto. intros E.
    assert (In p (filter usable (c_prims c))).
    { apply filter_In. split; auto. unfold usable. destruct (p_allowed p) as [[|]|]; auto. }
    rewrite E in H. destruct H.
Qed.

Lemma good_nonempty eps n c : good_compiler eps n c -> c_prims c <> [].
Proof.
  intros (_ & _ & _ & H). destruct (c_probs c) as [q|]; [apply H|]. destruct H as (p & Hp & _).
  intros E. rewrite E in Hp. destruct Hp.
Qed.

Lemma compile_eq g eps target thr max st c :
  c_prims c <> [] -> c_array c = false \/ List.length (c_prims c) = 1%nat ->
  compile g eps target thr max (st, c) = compile_with g eps (make_random_change g eps) target thr max (st, c).
Proof.
  intros HN HA. unfold compile. unfold se_bind at 1, c_self. cbn [snd]. unfold se_bind at 1, se_lift, assert_primitives.
  assert (E : (c_array c && Nat.ltb 1 (List.length (c_prims c)))%bool = false).
  { destruct HA as [->| ->]; [reflexivity|apply andb_false_r]. }
  rewrite E. destruct (c_prims c); [congruence|]. reflexivity.
Qed.

Section C28.
Variables (g : rng) (eps : R) (b : bool) (n K : nat) (c : compiler) (target : unitary) (thr : option R) (max : Z) (st : rstate).
Hypothesis G : rng_ok g.
Hypothesis He : (0 <= eps <= 1)%R.
Hypothesis HB : forall u, made eps u -> safe_gate eps b u.
Hypothesis Hb2 : b = true -> lim eps n 2.
Hypothesis HW : winv eps b K (r_world st).
Hypothesis Ht : exists i, u_inverse eps target = Ok i.
Hypothesis Htd : u_dim target = (2 ^ n)%nat.

Lemma single_never_fails_safe :
  Forall (safe_primitive eps (safe_gate eps b)) (c_prims c) ->
  good_compiler eps n c -> c_array c = false \/ List.length (c_prims c) = 1%nat ->
  limb eps b n (S (unit_cost b * (K + 1 * Z.to_nat max))) ->
  exists st' c' s costs, compile g eps target thr max (st, c) = ((st', c'), Ok (s, costs)).
Proof.
  intros HS HC HA L. rewrite compile_eq; auto; [|eapply good_nonempty; eauto].
  assert (CH := good_choosable eps n c HC).
  destruct HC as (Hd & Ha & HP & _).
  destruct (with_total g eps G (proj1 He) (proj2 He) b n (make_random_change g eps) (one_change eps c) c 1 target thr max
    (change_single g eps G c) (fun s => single_traced g eps G _ c s HS)
    (total_single g eps G (proj1 He) (proj2 He) b n Hb2 c Hd Ha (fun p Hp => good_drawn g eps G n p (HP p Hp)) CH HS) Hd Ht Htd (c_beta c) st K HW L)
    as (st' & b' & s & costs & E).
  rewrite set_beta_same in E. eauto.
Qed.

Lemma layered_never_fails_safe counts :
  Forall (fun pc => safe_primitive eps (safe_gate eps b) (fst pc)) counts ->
  c_dim c = (2 ^ n)%nat -> (0 <= c_append c <= 1)%R -> good_table eps n counts ->
  limb eps b n (S (unit_cost b * (K + table_size counts * Z.to_nat max))) ->
  exists st' c' s costs, compile_layered g eps target counts thr max (st, c) = ((st', c'), Ok (s, costs)).
Proof.
  intros HS Hd Ha HC L.
  destruct (with_total g eps G (proj1 He) (proj2 He) b n (make_random_change_layered g eps counts)
    (layer_change eps (c_dim c) counts) c (table_size counts) target thr max
    (change_layered g eps G c counts) (fun s => layered_traced g eps G _ c counts s HS)
    (total_layered g eps G (proj1 He) (proj2 He) b n Hb2 c counts Hd Ha HC HS) Hd Ht Htd (c_beta c) st K HW L)
    as (st' & b' & s & costs & E).
  rewrite set_beta_same in E. unfold compile_layered. eauto.
Qed.
Lemma single_never_fails :
  good_compiler eps n c -> c_array c = false \/ List.length (c_prims c) = 1%nat ->
  limb eps b n (S (unit_cost b * (K + 1 * Z.to_nat max))) ->
  exists st' c' s costs, compile g eps target thr max (st, c) = ((st', c'), Ok (s, costs)).
Proof.
  intros HC HA L. apply single_never_fails_safe; auto.
  apply (good_safe eps); auto. intros p Hp. apply HC in Hp. apply Hp.
Qed.

Lemma layered_never_fails counts :
  c_dim c = (2 ^ n)%nat -> (0 <= c_append c <= 1)%R -> good_table eps n counts ->
  limb eps b n (S (unit_cost b * (K + table_size counts * Z.to_nat max))) ->
  exists st' c' s costs, compile_layered g eps target counts thr max (st, c) = ((st', c'), Ok (s, costs)).
Proof.
  intros Hd Ha HC L. apply layered_never_fails_safe; auto.
  apply (good_safe_counts eps); auto. intros pc Hp. unfold good_table in HC. rewrite Forall_forall in HC.
  apply HC in Hp. apply Hp.
Qed.
End C28.

Lemma C28_lemma : forall g st c target thr max n,
  rng_ok g -> exact_world (r_world st) -> good_compiler 0 n c ->
  c_array c = false \/ List.length (c_prims c) = 1%nat ->
  built 0 target -> u_dim target = (2 ^ n)%nat ->
  exists st' c' s costs, compile g 0 target thr max (st, c) = ((st', c'), Ok (s, costs)).
Proof.
  intros g st c target thr max n G HX HC HA Ht Htd. destruct (exact_winv_ex _ HX) as [K HW].
  apply (single_never_fails g 0 true n K); auto; [lra|apply safe_made0|intros _; apply lim0_zero| |apply lim_zero].
  apply (made_inverse 0 ltac:(lra) ltac:(lra) n); auto. apply lim0_zero.
Qed.

Lemma C28_layered_lemma : forall g st c target counts thr max n,
  rng_ok g -> exact_world (r_world st) -> c_dim c = (2 ^ n)%nat -> (0 <= c_append c <= 1)%R ->
  good_table 0 n counts -> built 0 target -> u_dim target = (2 ^ n)%nat ->
  exists st' c' s costs, compile_layered g 0 target counts thr max (st, c) = ((st', c'), Ok (s, costs)).
Proof.
  intros g st c target counts thr max n G HX Hd Ha HC Ht Htd. destruct (exact_winv_ex _ HX) as [K HW].
  apply (layered_never_fails g 0 true n K); auto; [lra|apply safe_made0|intros _; apply lim0_zero| |apply lim_zero].
  apply (made_inverse 0 ltac:(lra) ltac:(lra) n); auto. apply lim0_zero.
Qed.

Lemma C28_drift_lemma : forall g eps st c target thr max n K,
  rng_ok g -> drift_world eps K (r_world st) -> good_compiler eps n c ->
  c_array c = false \/ List.length (c_prims c) = 1%nat ->
  made eps target -> u_dim target = (2 ^ n)%nat ->
  small_drift eps n (S (K + Z.to_nat max)) ->
  exists st' c' s costs, compile g eps target thr max (st, c) = ((st', c'), Ok (s, costs)).
Proof.
  intros g eps st c target thr max n K G HX HC HA Ht Htd SD. assert (HE := proj1 SD).
  destruct (drift_small _ _ _ SD) as [L _].
  apply (single_never_fails g eps false n K); auto; [intros u; apply safe_made, HE|discriminate|now apply drift_winv| |].
  - apply (made_inverse eps (proj1 HE) (proj2 HE) n); auto. eapply lim_mono; [apply HE|apply HE| |exact L]. lia.
  - left. eapply lim_mono; [apply HE|apply HE| |exact L]. unfold unit_cost, gc; simpl. lia.
Qed.

Lemma C28_drift_layered_lemma : forall g eps st c target counts thr max n K,
  rng_ok g -> drift_world eps K (r_world st) -> c_dim c = (2 ^ n)%nat -> (0 <= c_append c <= 1)%R ->
  good_table eps n counts -> made eps target -> u_dim target = (2 ^ n)%nat ->
  small_drift eps n (S (K + table_size counts * Z.to_nat max)) ->
  exists st' c' s costs, compile_layered g eps target counts thr max (st, c) = ((st', c'), Ok (s, costs)).
Proof.
  intros g eps st c target counts thr max n K G HX Hd Ha HC Ht Htd SD. assert (HE := proj1 SD).
  destruct (drift_small _ _ _ SD) as [L _].
  apply (layered_never_fails g eps false n K); auto; [intros u; apply safe_made, HE|discriminate|now apply drift_winv| |].
  - apply (made_inverse eps (proj1 HE) (proj2 HE) n); auto. eapply lim_mono; [apply HE|apply HE| |exact L]. lia.
  - left. eapply lim_mono; [apply HE|apply HE| |exact L]. unfold unit_cost, gc; simpl. lia.
Qed.
