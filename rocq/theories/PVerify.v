(** Random sequences followed by their compiled inverses. *)
From Coq Require Import Reals List Arith Lia Lra Bool String ZArith Permutation.
From Coquelicot Require Import Rcomplements Complex.
From Verif Require Import Base CMat CMatFacts Det DetFacts ModelUnitary ModelEntry ModelPrimitive
  ModelSequence ModelCompiler ModelVerification Spec SpecModel SpecCompiler PUnitary PEntry PSeqHeap
  PSeqMeth PSeqNear PSeqWorld PSeqUndo PSeqInv PSeqHist PSeqProps PCompView PCompRun PCompEntry PCompLoop
  PCompTrace PCompTotal PCompProps PCompMore.
Import ListNotations.
Open Scope R_scope.
Open Scope C_scope.
Open Scope se_scope.

(** ** combine, for every threshold *)
Section CombineView.
Variable eps : R.
Notation W := (WG eps anyg).
Notation wrel := (wrel eps).

Lemma contents_wrel w w' s q :
  W w -> wrel w w' -> nth_error (w_seqs w) s = Some q -> contents w' s = contents w s.
Proof.
  intros HW (X & _ & S) Hq. destruct (S s q Hq) as (q' & Hq' & (_ & _ & E & _)).
  unfold contents. rewrite Hq, Hq', E. eapply gates_ext; eauto. exact (proj1 (proj2 HW s q Hq)).
Qed.

Lemma combine_loop_view ss : forall ls p w w' ls' p',
  W w -> in_heap (w_heap w) ls -> (forall s, In s ss -> exists q, nth_error (w_seqs w) s = Some q) ->
  combine_loop eps ss ls p w = (w', Ok (ls', p')) ->
  W w' /\ wrel w w' /\ in_heap (w_heap w') ls' /\
  gates (w_heap w') ls' = gates (w_heap w) ls ++ List.concat (map (contents w) ss).
Proof.
  induction ss as [|s ss IH]; intros ls p w w' ls' p' HW HR Hss H; cbn [combine_loop] in H.
  - unfold se_ret in H. injection H as <- <- <-. split; auto. split; [apply wrel_refl|]. split; auto.
    cbn [map List.concat]. now rewrite app_nil_r.
  - apply bind_ok in H. destruct H as (l1 & w1 & E1 & H).
    destruct (Hss s) as [q Hq]; [simpl; auto|].
    destruct (calm_entries eps anyg (fun _ => True) s w HW I) as (W1 & S1 & R1).
    rewrite E1 in W1, S1, R1. cbn [fst snd] in W1, S1, R1. specialize (R1 l1 eq_refl).
    assert (G1 : gates (w_heap w1) l1 = contents w s).
    { unfold on_seq in E1. rewrite Hq in E1. unfold se_bind, m_self, m_heap, h_deepcopy in E1. cbn [fst snd] in E1.
      destruct (deepcopy (w_heap w) (s_entries q)) as [h' ls1] eqn:E. injection E1 as <- <-.
      destruct (deepcopy_frame eps anyg _ _ h' ls1 (proj1 (proj2 HW s q Hq)) E) as (_ & _ & _ & E4 & _).
      cbn [w_heap]. rewrite E4. symmetry. now apply contents_gates. }
    apply bind_ok in H. destruct H as (ps & w2 & E2 & H).
    destruct (calm_product eps anyg (fun _ => True) s w1 W1 I) as (W2 & S2 & _).
    rewrite E2 in W2, S2. cbn [fst snd] in W2, S2.
    apply bind_ok in H. destruct H as (p1 & w3 & E3 & H). apply lift_ok in E3. destruct E3 as [-> _].
    assert (S12 : wrel w w2) by exact (wrel_trans eps anyg w w1 w2 S1 S2).
    assert (X2 : heap_ext (w_heap w1) (w_heap w2)) by apply S2.
    assert (X12 : heap_ext (w_heap w) (w_heap w2)) by apply S12.
    destruct (IH (ls ++ l1) p1 w2 w' ls' p') as (W3 & S3 & R3 & G3); auto.
    { apply in_heap_app. split; [exact (in_heap_ext _ _ _ X12 HR)|exact (in_heap_ext _ _ _ X2 R1)]. }
    { intros s' Hs'. destruct (Hss s') as [q' Hq']; [simpl; auto|].
      destruct S12 as (_ & _ & S12). destruct (S12 s' q' Hq') as (q2 & Hq2 & _). eauto. }
    split; auto. split; [exact (wrel_trans eps anyg _ _ _ S12 S3)|]. split; auto.
    rewrite G3, gates_app. cbn [map List.concat]. rewrite <- app_assoc. f_equal.
    + now apply gates_ext.
    + f_equal.
      * rewrite <- G1. now apply gates_ext.
      * f_equal. apply map_ext_in. intros s' Hs'.
        destruct (Hss s') as [q' Hq']; [simpl; auto|]. eapply contents_wrel; eauto.
Qed.

Lemma combine_view ss w w' v :
  W w -> step eps (Combine ss) w = (w', Ok v) ->
  exists d, v = VSequence (List.length (w_seqs w)) /\ (forall s, In s ss -> has_dim w s d) /\
    sees eps w' (List.length (w_seqs w)) d (List.concat (map (contents w) ss)) None.
Proof.
  intros HW H. cbn [step] in H. apply bind_ok in H. destruct H as (q & w1 & E & H).
  destruct (combine_ok_inv eps ss w w1 q E) as (s0 & st & q0 & Ess & E0 & D & Hss).
  assert (K := keeps_combine eps ss w). rewrite E in K. cbn [fst] in K.
  assert (HW' : W w').
  { pose proof (step_frame eps anyg (Combine ss) w (any_allowed eps _) HW) as [F _].
    cbn [step] in F. unfold se_bind in F at 1. rewrite E, H in F. exact F. }
  unfold add_seq in H. injection H as <- <-. rewrite K.
  exists (s_dim q). split; auto. split.
  { intros s Hs. destruct (Hss s Hs) as (q1 & H1 & H2). exists q1. split; auto. congruence. }
  assert (X : s_array q = false /\ gates (w_heap w1) (s_entries q) = List.concat (map (contents w) ss) /\ s_prev_entries q = None).
  { unfold combine in E. unfold se_bind at 1, se_get in E. subst ss. rewrite E0 in E.
    apply bind_ok in E. destruct E as (t0 & wy & H1 & E). apply lift_ok in H1. destruct H1 as [-> _].
    apply bind_ok in E. destruct E as (p0 & wy & H1 & E). apply lift_ok in H1. destruct H1 as [-> _].
    apply bind_ok in E. destruct E as ([ls p] & w2 & H1 & E).
    destruct (combine_loop_view (s0 :: st) [] p0 w w2 ls p HW (in_heap_nil _)) as (W2 & S2 & R2 & G2); auto.
    { intros s Hs. destruct (Hss s Hs) as (q1 & Hq1 & _). eauto. }
    apply bind_ok in E. destruct E as (c & w3 & H2 & E). apply ret_ok in E. destruct E as [-> ->].
    cbn [fst] in H2. unfold on_heap in H2.
    destruct (new_sequence_spec eps anyg (s_dim q0) false ls (w_heap w2) (proj1 W2) R2)
      as (h2 & r2 & E2 & _ & _ & [(_ & ls' & -> & _ & G3 & _)|(_ & _ & ->)]); rewrite E2 in H2; [|discriminate].
    injection H2 as <- <-. cbn [w_heap set_product s_array s_entries s_prev_entries]. rewrite G3, G2. auto. }
  destruct X as (X1 & X2 & X3). split; auto. exists q. cbn [w_seqs w_heap].
  rewrite nth_error_app2, K, Nat.sub_diag by lia. split; auto. split; auto. split; auto. split; auto. now rewrite X3.
Qed.
End CombineView.

(** ** The random part *)
Section Random.
Variables (g : rng) (eps : R).
Hypothesis G : rng_ok g.
Notation W := (WG eps anyg).
Notation sees := (sees eps).
Notation gatety := (unitary * list nat)%type.

Lemma append_random_ok d ps probs s k : forall st st' cs pv,
  append_random g eps d ps probs s k st = (st', Ok tt) -> sees (r_world st) s d cs pv ->
  exists rand pv', sees (r_world st') s d (cs ++ rand) pv' /\ List.length rand = k /\
    Forall (fun gt => exists p, weighted ps probs p /\ allows eps d p gt) rand.
Proof.
  induction k as [|k IH]; intros st st' cs pv H S; cbn [append_random] in H.
  - apply ret_ok in H. destruct H as [-> _]. exists [], pv. rewrite app_nil_r. auto.
  - apply bind_ok in H. destruct H as (l & st1 & H1 & H).
    destruct (create_ok g eps G _ _ _ _ _ _ H1) as (gt & O & HG & SP).
    destruct (proj1 (proj2 (SP s)) _ _ _ S) as [S1 _].
    apply bind_ok in H. destruct H as (v & st2 & H2 & H). apply call_ok in H2. destruct H2 as [H2 _].
    destruct (append_last_view eps _ _ _ _ _ _ _ _ _ _ S1 HG H2) as (S2 & F & _).
    destruct (IH _ _ _ _ H S2) as (rand & pv' & S3 & L & A).
    exists (gt :: rand), pv'. rewrite <- app_assoc in S3. split; auto. split; [simpl; congruence|].
    constructor; auto. eapply offered_allows; eauto. intros q Hq. exact (proj2 (fits_gate _ _ _ _ HG F) q Hq).
Qed.

Lemma append_random_traced (safe : unitary -> Prop) d ps probs s : Forall (safe_primitive eps safe) ps ->
  forall k, traced eps safe k (append_random g eps d ps probs s k).
Proof.
  intros HP. induction k as [|k IH]; cbn [append_random]; [intros st; apply evolves_refl|].
  change (Datatypes.S k) with (0 + (1 + k))%nat. apply traced_bind; [now apply create_traced|]. intros _ _ l _.
  apply traced_bind; [apply traced_call; lia|]. intros _ _ v _. exact IH.
Qed.

Lemma append_entries_ok s ls : forall gs st st' d cs pv,
  append_entries eps s ls st = (st', Ok tt) -> sees (r_world st) s d cs pv ->
  Forall2 (has_gate (r_world st)) ls gs ->
  exists pv', sees (r_world st') s d (cs ++ gs) pv' /\ Forall (fits_in d) gs.
Proof.
  induction ls as [|l ls IH]; intros gs st st' d cs pv H S F; cbn [append_entries] in H.
  - apply ret_ok in H. destruct H as [-> _]. inversion F. subst. exists pv. rewrite app_nil_r. auto.
  - inversion F as [|? gt ? gs' F1 F2]. subst. apply bind_ok in H. destruct H as (v & st1 & H1 & H).
    apply call_ok in H1. destruct H1 as [H1 _].
    destruct (append_last_view eps _ _ _ _ _ _ _ _ _ _ S F1 H1) as (S1 & Ft & X).
    destruct (IH gs' _ _ _ _ _ H S1 (has_gates_ext _ _ _ _ X F2)) as (pv' & S2 & Fs).
    exists pv'. rewrite <- app_assoc in S2. split; auto. constructor; auto.
    intros q Hq. exact (proj2 (fits_gate _ _ _ _ F1 Ft) q Hq).
Qed.

Lemma append_entries_traced (safe : unitary -> Prop) s ls : traced eps safe (List.length ls) (append_entries eps s ls).
Proof.
  induction ls as [|l ls IH]; cbn [append_entries List.length]; [intros st; apply evolves_refl|].
  change (Datatypes.S (List.length ls)) with (1 + List.length ls)%nat.
  apply traced_bind; [apply traced_call; lia|]. intros _ _ v _. exact IH.
Qed.

Lemma append_random_layers_ok d counts s k : forall st st' cs pv,
  append_random_layers g eps d counts s k st = (st', Ok tt) -> sees (r_world st) s d cs pv ->
  exists layers pv', sees (r_world st') s d (cs ++ List.concat layers) pv' /\ List.length layers = k /\
    Forall (layer_of eps d counts) layers.
Proof.
  induction k as [|k IH]; intros st st' cs pv H S; cbn [append_random_layers] in H.
  - apply ret_ok in H. destruct H as [-> _]. exists [], pv. cbn [List.concat]. rewrite app_nil_r. auto.
  - apply bind_ok in H. destruct H as (ls & st1 & H1 & H).
    destruct (create_layer_ok g eps G _ _ _ _ _ H1 (sees_W _ _ _ _ _ _ S)) as (parts & gs & P & PM & HG & SP).
    destruct (proj1 (proj2 (SP s)) _ _ _ S) as [S1 _].
    apply bind_ok in H. destruct H as ([] & st2 & H2 & H).
    destruct (append_entries_ok s ls gs _ _ _ _ _ H2 S1 HG) as (pv1 & S2 & F).
    destruct (IH _ _ _ _ H S2) as (layers & pv' & S3 & L & A).
    exists (gs :: layers), pv'. cbn [List.concat]. rewrite <- app_assoc in S3. split; auto. split; [simpl; congruence|].
    constructor; auto. exists parts. split; auto. apply parts_allows; auto.
    eapply Permutation_Forall; eauto.
Qed.

Lemma append_random_layers_traced (safe : unitary -> Prop) d counts s :
  Forall (fun pc => safe_primitive eps safe (fst pc)) counts ->
  forall k, traced eps safe (k * layer_size counts) (append_random_layers g eps d counts s k).
Proof.
  intros HP. induction k as [|k IH]; cbn [append_random_layers]; [intros st; apply evolves_refl|].
  cbn [Nat.mul].
  change (layer_size counts + k * layer_size counts)%nat with (0 + (layer_size counts + k * layer_size counts))%nat.
  apply traced_bind; [now apply layer_traced|]. intros st st1 ls H1.
  apply traced_bind; [|intros _ _ v _; exact IH].
  rewrite <- (layer_length_ok g eps G _ _ _ _ _ H1). apply append_entries_traced.
Qed.

Lemma evolves_reach (safe : unitary -> Prop) k w w' : reachable eps w -> evolves eps safe k w w' -> reachable eps w'.
Proof. intros [o1 ->] (o2 & -> & _). exists (o1 ++ o2). symmetry. apply exec_app. Qed.

Lemma step_reach o w : reachable eps w -> reachable eps (fst (step eps o w)).
Proof. intros [os ->]. exists (os ++ [o]). now rewrite exec_app. Qed.

Lemma safe_any ps : Forall (safe_primitive eps (fun _ => True)) ps.
Proof. apply Forall_forall. intros p _ u _. exact I. Qed.
Lemma safe_any_counts (counts : list (primitive * Z)) :
  Forall (fun pc => safe_primitive eps (fun _ => True) (fst pc)) counts.
Proof. apply Forall_forall. intros p _ u _. exact I. Qed.

Lemma with_compiler_ok {A} mk (m : CM A) st st' r :
  with_compiler mk m st = (st', Ok r) -> exists c c', mk = Ok c /\ m (st, c) = ((st', c'), Ok r).
Proof.
  intros H. apply bind_ok in H. destruct H as (c & sty & H0 & H). apply lift_ok in H0. destruct H0 as [-> E].
  destruct (m (st, c)) as [[st1 c1] r1] eqn:E1. injection H as -> ->. eauto.
Qed.

Lemma compile_inverse_ok s run st st' t costs d cs pv :
  compile_inverse eps s run st = (st', Ok (t, costs)) -> sees (r_world st) s d cs pv ->
  exists p target st1 st2 s2,
    answers eps (r_world st1) s p /\ u_inverse eps p = Ok target /\
    r_world st1 = fst (step eps (Product s) (r_world st)) /\ sees (r_world st1) s d cs pv /\
    run target st1 = (st2, Ok (s2, costs)) /\
    step eps (Combine [s; s2]) (r_world st2) = (r_world st', Ok (VSequence t)).
Proof.
  intros H S. unfold compile_inverse in H.
  apply bind_ok in H. destruct H as (p & st1 & H1 & H). apply call_unitary_ok in H1. destruct H1 as [H1 _].
  apply bind_ok in H. destruct H as (target & sty & H2 & H). apply lift_ok in H2. destruct H2 as [-> H2].
  apply bind_ok in H. destruct H as ([s2 costs2] & st2 & H3 & H).
  apply bind_ok in H. destruct H as (t2 & st3 & H4 & H). apply call_sequence_ok in H4. destruct H4 as [H4 _].
  apply ret_ok in H. destruct H as [-> H]. injection H as -> ->.
  destruct (product_view eps _ _ _ _ _ _ _ S H1) as (p' & E & S1 & _ & A & _). injection E as <-.
  exists p, target, st1, st2, s2. rewrite H1. cbn [fst snd] in *. auto 10.
Qed.

(** What is needed of the compilation. *)
Lemma inverse_contents s run st st' t costs d cs pv (P : list gatety -> list R -> Prop) :
  (forall target st1 st2 s2 costs, reachable eps (r_world st1) -> sees (r_world st1) s d cs pv ->
     run target st1 = (st2, Ok (s2, costs)) ->
     (exists pv', sees (r_world st2) s d cs pv') /\ P (contents (r_world st2) s2) costs) ->
  reachable eps (r_world st) -> sees (r_world st) s d cs pv ->
  compile_inverse eps s run st = (st', Ok (t, costs)) ->
  exists comp, sees (r_world st') t d (cs ++ comp) None /\ P comp costs.
Proof.
  intros HR RE S H.
  destruct (compile_inverse_ok s run st st' t costs d cs pv H S) as (p & target & st1 & st2 & s2 & A & I & E1 & S1 & H3 & H4).
  destruct (HR target st1 st2 s2 costs) as [(pv2 & S2) PC]; auto.
  { rewrite E1. now apply step_reach. }
  destruct (combine_view eps _ _ _ _ (sees_W _ _ _ _ _ _ S2) H4) as (d' & E & D & S3). injection E as ->.
  destruct (D s) as (q & Hq & Hd); [simpl; auto|].
  assert (Ed : d' = d) by (destruct S2 as (_ & q2 & Hq2 & Hd2 & _); congruence). rewrite Ed in S3.
  cbn [map List.concat] in S3. rewrite app_nil_r in S3. rewrite (sees_contents _ _ _ _ _ _ S2) in S3.
  exists (contents (r_world st2) s2). auto.
Qed.
End Random.

(** ** The structure of the result *)
Lemma assert_ok {S} b (st st' : S) t : se_assert b st = (st', Ok t) -> b = true /\ st' = st.
Proof. unfold se_assert, se_lift, assert. intros H. destruct b; [|discriminate]. injection H as <- _. auto. Qed.

Lemma mk_compiler_ok d arr ps probs ap rate c : mk_compiler d arr ps probs ap rate = Ok c ->
  (0 < d)%nat /\ c_dim c = d /\ c_array c = arr /\ c_prims c = ps /\ c_probs c = probs /\ c_append c = ap.
Proof.
  unfold mk_compiler. destruct (Nat.ltb_spec 0 d); cbn [assert bind]; [|discriminate].
  destruct (forallb _ ps); cbn [assert bind]; [|discriminate]. intros [= <-]. auto 10.
Qed.

Lemma zero_fine : (Rleb 0 0 && Rleb 0 1)%bool = true.
Proof. unfold Rleb. destruct (Rle_dec 0 0); [|lra]. destruct (Rle_dec 0 1); [reflexivity|lra]. Qed.
Lemma zero_skips max : skip_inversion 0 max = true.
Proof. unfold skip_inversion. destruct (Req_EM_T 0 0); [reflexivity|congruence]. Qed.

Section Structure.
Variables (g : rng) (eps : R).
Hypothesis G : rng_ok g.
Notation sees := (sees eps).

(** The compilation leaves the random sequence alone. *)
Lemma compiled_ok change c target thr max st st' c' s costs s0 d cs pv Rel (P : list (unitary * list nat) -> Prop) :
  change_ok eps change Rel c ->
  (forall st, WG eps anyg (r_world (fst st)) -> (s0 < List.length (w_seqs (r_world (fst st))))%nat ->
     spares eps s0 (r_world (fst st)) (r_world (fst (fst (compile_with g eps change target thr max st))))) ->
  P [] -> (forall cs cs', P cs -> Rel cs cs' -> P cs') ->
  sees (r_world st) s0 d cs pv ->
  compile_with g eps change target thr max (st, c) = ((st', c'), Ok (s, costs)) ->
  (exists pv', sees (r_world st') s0 d cs pv') /\ P (contents (r_world st') s) /\
  (Z.of_nat (List.length costs) <= Z.max 0 max)%Z.
Proof.
  intros HC HS P0 HP S H.
  destruct (with_ok g eps G change Rel c target thr max P st c st' c' s costs HC (eq_sym (set_beta_same c)) P0 HP
    (sees_W _ _ _ _ _ _ S) H) as (_ & (cs' & pv' & S' & P') & HB & _).
  rewrite (sees_contents _ _ _ _ _ _ S'). split; auto.
  specialize (HS (st, c)). cbn [fst] in HS. rewrite H in HS. cbn [fst] in HS.
  destruct HS as (_ & HS & _); [exact (sees_W _ _ _ _ _ _ S)| |].
  { destruct S as (_ & q & Hq & _). apply nth_error_Some. congruence. }
  destruct (HS _ _ _ S) as [S2 _]. eauto.
Qed.

Lemma spares_single s0 target thr max st : WG eps anyg (r_world (fst st)) ->
  (s0 < List.length (w_seqs (r_world (fst st))))%nat ->
  spares eps s0 (r_world (fst st)) (r_world (fst (fst (compile_with g eps (make_random_change g eps) target thr max st)))).
Proof. apply spares_with. intros s H. now apply cspares_single. Qed.

Lemma spares_layers s0 counts target thr max st : WG eps anyg (r_world (fst st)) ->
  (s0 < List.length (w_seqs (r_world (fst st))))%nat ->
  spares eps s0 (r_world (fst st))
    (r_world (fst (fst (compile_with g eps (make_random_change_layered g eps counts) target thr max st)))).
Proof. apply spares_with. intros s H. now apply cspares_layered. Qed.

Lemma new_reach st s st1 d : reachable eps (r_world st) ->
  call_sequence eps (NewSequence d false []) st = (st1, Ok s) ->
  reachable eps (r_world st1) /\ sees (r_world st1) s d [] None /\ s = List.length (w_seqs (r_world st)).
Proof.
  intros RE H. apply call_sequence_ok in H. destruct H as [H _].
  destruct (new_sequence_view eps (r_world st) d (reachable_W _ _ RE)) as (w1 & E & S1).
  rewrite E in H. injection H as -> <-. split; auto.
  pose proof (step_reach eps (NewSequence d false []) _ RE) as X. now rewrite E in X.
Qed.

Lemma allowed_change c cs cs' :
  Forall (fun gt => exists p, weighted (c_prims c) (c_probs c) p /\ allows eps (c_dim c) p gt) cs -> one_change eps c cs cs' ->
  Forall (fun gt => exists p, weighted (c_prims c) (c_probs c) p /\ allows eps (c_dim c) p gt) cs'.
Proof.
  intros P [(gt & p & Hp & Ha & [->| ->])|(_ & [->| ->])].
  - constructor; eauto.
  - apply Forall_app. split; auto. constructor; eauto.
  - now apply Forall_tl.
  - rewrite removelast_firstn_len. now apply Forall_firstn_any.
Qed.

Lemma rav_structure d arr ps len thr ap probs max st st' s costs :
  reachable eps (r_world st) ->
  generate_rav_sequence g eps d arr ps len thr ap probs max st = (st', Ok (s, costs)) ->
  exists rand comp, list_sequence (r_world st') s d /\ contents (r_world st') s = rand ++ comp /\
    Z.of_nat (List.length rand) = len /\
    Forall (fun gt => exists p, weighted ps probs p /\ allows eps d p gt) (rand ++ comp) /\
    (Z.of_nat (List.length costs) <= Z.max 0 max)%Z /\
    (exists st0 s0, generate_rav_sequence g eps d arr ps len 0 ap probs max st = (st0, Ok (s0, [])) /\
       contents (r_world st0) s0 = rand) /\
    (thr = 0%R \/ max = 0%Z -> comp = [] /\ costs = []).
Proof.
  intros RE H. unfold generate_rav_sequence in H.
  apply bind_ok in H. destruct H as (t0 & sty & H0 & H). apply assert_ok in H0. destruct H0 as [HF ->].
  apply bind_ok in H. destruct H as (t1 & sty & H0 & H). apply assert_ok in H0. destruct H0 as [HL ->].
  apply Z.leb_le in HL.
  apply bind_ok in H. destruct H as (t2 & sty & H0 & H). apply assert_ok in H0. destruct H0 as [_ ->].
  apply bind_ok in H. destruct H as (s0 & st1 & H1 & H).
  destruct (new_reach _ _ _ _ RE H1) as (RE1 & S1 & _).
  apply bind_ok in H. destruct H as ([] & st2 & H2 & H).
  destruct (append_random_ok g eps G d ps probs s0 _ _ _ _ _ H2 S1) as (rand & pv & S2 & L & A). cbn [app] in S2.
  assert (RE2 : reachable eps (r_world st2)).
  { pose proof (append_random_traced g eps G (fun _ => True) d ps probs s0 (safe_any eps ps) (Z.to_nat len) st1) as T.
    rewrite H2 in T. exact (evolves_reach eps _ _ _ _ RE1 T). }
  assert (ER : exists st0 s0, generate_rav_sequence g eps d arr ps len 0 ap probs max st = (st0, Ok (s0, [])) /\
       contents (r_world st0) s0 = rand).
  { exists st2, s0. split; [|exact (sees_contents _ _ _ _ _ _ S2)]. unfold generate_rav_sequence, se_assert.
    apply Z.leb_le in HL. rewrite HF, HL, zero_fine. cbn [assert].
    unfold se_bind at 1, se_lift at 1. unfold se_bind at 1, se_lift at 1. unfold se_bind at 1, se_lift at 1.
    rewrite (bind_eq _ _ _ _ _ H1), (bind_eq _ _ _ _ _ H2), zero_skips. reflexivity. }
  destruct (skip_inversion thr max) eqn:SK.
  - apply ret_ok in H. destruct H as [-> H]. injection H as -> ->. exists rand, []. rewrite app_nil_r.
    rewrite (sees_contents _ _ _ _ _ _ S2). split; [destruct S2 as (_ & q & ? & ? & ? & _); exists q; auto|].
    split; auto. split; [lia|]. split; auto. split; [simpl; lia|]. auto.
  - assert (HR : forall target st3 st4 s4 costs4, reachable eps (r_world st3) -> sees (r_world st3) s0 d rand pv ->
      with_compiler (mk_compiler d arr ps probs ap (1 / 10)) (compile g eps target (Some thr) max) st3 = (st4, Ok (s4, costs4)) ->
      (exists pv', sees (r_world st4) s0 d rand pv') /\
      Forall (fun gt => exists p, weighted ps probs p /\ allows eps d p gt) (contents (r_world st4) s4) /\
      (Z.of_nat (List.length costs4) <= Z.max 0 max)%Z).
    { intros target st3 st4 s4 costs4 RE3 S3 H3. apply with_compiler_ok in H3.
      destruct H3 as (c & c' & HM & H3). apply mk_compiler_ok in HM. destruct HM as (_ & Ed & _ & Ep & Eq & _).
      apply compile_inv in H3. rewrite <- Ed, <- Ep, <- Eq.
      eapply (compiled_ok _ c); [exact (change_single g eps G c)|intros; now apply spares_single|constructor| |rewrite Ed; exact S3|exact H3].
      apply allowed_change. }
    destruct (inverse_contents eps s0 _ st2 st' s costs d rand pv
      (fun cs costs => Forall (fun gt => exists p, weighted ps probs p /\ allows eps d p gt) cs /\ (Z.of_nat (List.length costs) <= Z.max 0 max)%Z)
      HR RE2 S2 H) as (comp & S3 & A3 & A4).
    exists rand, comp. rewrite (sees_contents _ _ _ _ _ _ S3).
    split; [destruct S3 as (_ & q & ? & ? & ? & _); exists q; auto|]. split; auto. split; [lia|].
    split; [apply Forall_app; auto|]. split; auto. split; auto. intros D. exfalso. unfold skip_inversion in SK. apply orb_false_iff in SK.
    destruct SK as [K1 K2]. apply Z.eqb_neq in K2. destruct (Req_EM_T thr 0); [discriminate|tauto].
Qed.

Lemma layered_structure d counts len thr ap max st st' s costs :
  reachable eps (r_world st) ->
  generate_layered_rav_sequence g eps d counts len thr ap max st = (st', Ok (s, costs)) ->
  exists rand comp, list_sequence (r_world st') s d /\ contents (r_world st') s = List.concat rand ++ comp /\
    Z.of_nat (List.length rand) = len /\ Forall (layer_of eps d counts) rand /\
    Forall (fun gt => exists pc, In pc counts /\ (0 < snd pc)%Z /\ allows eps d (fst pc) gt) comp /\
    (Forall (fun pc => (0 <= snd pc)%Z) counts -> whole_layers eps d counts comp) /\
    (Z.of_nat (List.length costs) <= Z.max 0 max)%Z /\
    (exists st0 s0, generate_layered_rav_sequence g eps d counts len 0 ap max st = (st0, Ok (s0, [])) /\
       contents (r_world st0) s0 = List.concat rand) /\
    (thr = 0%R \/ max = 0%Z -> comp = [] /\ costs = []).
Proof.
  intros RE H. unfold generate_layered_rav_sequence in H.
  apply bind_ok in H. destruct H as (t0 & sty & H0 & H). apply assert_ok in H0. destruct H0 as [HF ->].
  apply bind_ok in H. destruct H as (t1 & sty & H0 & H). apply assert_ok in H0. destruct H0 as [HL ->].
  apply Z.leb_le in HL.
  apply bind_ok in H. destruct H as (t2 & sty & H0 & H). apply assert_ok in H0. destruct H0 as [_ ->].
  apply bind_ok in H. destruct H as (s0 & st1 & H1 & H).
  destruct (new_reach _ _ _ _ RE H1) as (RE1 & S1 & _).
  apply bind_ok in H. destruct H as ([] & st2 & H2 & H).
  destruct (append_random_layers_ok g eps G d counts s0 _ _ _ _ _ H2 S1) as (rand & pv & S2 & L & A). cbn [app] in S2.
  assert (RE2 : reachable eps (r_world st2)).
  { pose proof (append_random_layers_traced g eps G (fun _ => True) d counts s0 (safe_any_counts eps counts) (Z.to_nat len) st1) as T.
    rewrite H2 in T. exact (evolves_reach eps _ _ _ _ RE1 T). }
  assert (ER : exists st0 s0, generate_layered_rav_sequence g eps d counts len 0 ap max st = (st0, Ok (s0, [])) /\
       contents (r_world st0) s0 = List.concat rand).
  { exists st2, s0. split; [|exact (sees_contents _ _ _ _ _ _ S2)]. unfold generate_layered_rav_sequence, se_assert.
    apply Z.leb_le in HL. rewrite HF, HL, zero_fine. cbn [assert].
    unfold se_bind at 1, se_lift at 1. unfold se_bind at 1, se_lift at 1. unfold se_bind at 1, se_lift at 1.
    rewrite (bind_eq _ _ _ _ _ H1), (bind_eq _ _ _ _ _ H2), zero_skips. reflexivity. }
  destruct (skip_inversion thr max) eqn:SK.
  - apply ret_ok in H. destruct H as [-> H]. injection H as -> ->. exists rand, []. rewrite app_nil_r.
    rewrite (sees_contents _ _ _ _ _ _ S2). split; [destruct S2 as (_ & q & ? & ? & ? & _); exists q; auto|].
    split; auto. split; [lia|]. split; auto. split; auto.
    split; [intros _; exists []; auto|]. split; [simpl; lia|]. auto.
  - set (P := fun cs => Forall (fun gt => exists pc, In pc counts /\ (0 < snd pc)%Z /\ allows eps d (fst pc) gt) cs /\
      (Forall (fun pc => (0 <= snd pc)%Z) counts -> whole_layers eps d counts cs)).
    assert (HR : forall target st3 st4 s4 costs4, reachable eps (r_world st3) -> sees (r_world st3) s0 d (List.concat rand) pv ->
      with_compiler (mk_compiler d false (map fst counts) None ap (1 / 10))
        (compile_layered g eps target counts (Some thr) max) st3 = (st4, Ok (s4, costs4)) ->
      (exists pv', sees (r_world st4) s0 d (List.concat rand) pv') /\ P (contents (r_world st4) s4) /\
      (Z.of_nat (List.length costs4) <= Z.max 0 max)%Z).
    { intros target st3 st4 s4 costs4 RE3 S3 H3. apply with_compiler_ok in H3.
      destruct H3 as (c & c' & HM & H3). apply mk_compiler_ok in HM. destruct HM as (_ & Ed & _ & Ep & _).
      eapply (compiled_ok (make_random_change_layered g eps counts) c) with (P := P);
        [exact (change_layered g eps G c counts)|intros; now apply spares_layers| | |exact S3|exact H3].
      { split; [constructor|]. intros _. exists []. auto. }
      unfold P. rewrite <- Ed.
      intros cs cs' [P1 P2] HC. split; [|intros HN; eapply whole_change; eauto].
      destruct HC as [(layer & HLy & D)|(_ & _ & [->| ->])].
      + apply layer_allowed in HLy. destruct D as [->| ->]; apply Forall_app; auto.
      + now apply Forall_skipn_any.
      + now apply Forall_firstn_any. }
    destruct (inverse_contents eps s0 _ st2 st' s costs d (List.concat rand) pv
      (fun cs costs => P cs /\ (Z.of_nat (List.length costs) <= Z.max 0 max)%Z) HR RE2 S2 H) as (comp & S3 & (A3 & A4) & A5).
    exists rand, comp. rewrite (sees_contents _ _ _ _ _ _ S3).
    split; [destruct S3 as (_ & q & ? & ? & ? & _); exists q; auto|]. split; auto. split; [lia|].
    split; auto. split; auto. split; auto. split; auto. split; auto. intros D. exfalso. unfold skip_inversion in SK. apply orb_false_iff in SK.
    destruct SK as [K1 K2]. apply Z.eqb_neq in K2. destruct (Req_EM_T thr 0); [discriminate|tauto].
Qed.
End Structure.

(** ** The distance from the identity, in exact arithmetic *)
Section Metric.
Variable g : rng.
Hypothesis G : rng_ok g.

Lemma exact_special w s n cs pv p : exact_world w -> sees 0 w s (2 ^ n) cs pv -> answers 0 w s p ->
  u_dim p = (2 ^ n)%nat /\ wf p /\ special (2 ^ n) (ordered n cs) /\ meq (2 ^ n) (u_mat p) (ordered n cs).
Proof.
  intros HX S A. destruct (exact_winv_ex _ HX) as [K HW].
  destruct (winv_exact 0 K w s n ltac:(lra) HW (sees_has_dim _ _ _ _ _ _ S) (lim_zero _ _)) as (p' & A' & N).
  rewrite (sees_contents _ _ _ _ _ _ S) in N. destruct (near_zero _ _ _ _ N) as (D & SP & E).
  assert (p' = p) by (eapply answers_unique; eauto). subst p'.
  assert (Hn : (0 < 2 ^ n)%nat) by (apply Nat.neq_0_lt_0, Nat.pow_nonzero; lia).
  split; auto. split; auto. eapply wf_of; eauto.
Qed.

Lemma exact_answer_ex w s n cs pv : exact_world w -> sees 0 w s (2 ^ n) cs pv -> exists p, answers 0 w s p.
Proof.
  intros HX S. destruct (exact_winv_ex _ HX) as [K HW].
  destruct (exact_answers K w s n cs pv HW S) as (p & A & _). eauto.
Qed.

Lemma step_exact o w : exact_world w ->
  match o with NewEntry u _ => built 0 u | Inverse s => odd_entries w s | _ => True end ->
  exact_world (fst (step 0 o w)).
Proof.
  intros (os & -> & H) HO. exists (os ++ [o]). split; [now rewrite exec_app|].
  apply history_app; auto. cbn [history]. auto.
Qed.

Lemma inverse_metric n s run st st' t costs rand pv thr max :
  (forall target st1 st2 s2 costs, exact_world (r_world st1) -> sees 0 (r_world st1) s (2 ^ n) rand pv ->
     run target st1 = (st2, Ok (s2, costs)) ->
     exact_world (r_world st2) /\ (exists pv', sees 0 (r_world st2) s (2 ^ n) rand pv') /\
     (exists cs2 pv2, sees 0 (r_world st2) s2 (2 ^ n) cs2 pv2) /\
     exists pc close, answers 0 (r_world st2) s2 pc /\ u_close_to 0 pc target (Some thr) = Ok close /\
       (close = false -> (max <= Z.of_nat (List.length costs))%Z) /\
       (costs <> [] -> u_distance_from 0 target pc = Ok (last costs 0%R))) ->
  exact_world (r_world st) -> sees 0 (r_world st) s (2 ^ n) rand pv ->
  compile_inverse 0 s run st = (st', Ok (t, costs)) ->
  exact_world (r_world st') /\
  exists comp p i dist, contents (r_world st') t = rand ++ comp /\ answers 0 (r_world st') t p /\
    meq (2 ^ n) (u_mat p) (ordered n (rand ++ comp)) /\
    u_identity 0 (2 ^ n) = Ok i /\ u_distance_from 0 p i = Ok dist /\
    dist = (1 - overlap (2 ^ n) (adj (ordered n rand)) (ordered n comp))%R /\
    (costs <> [] -> last costs 0%R = dist) /\
    ((Z.of_nat (List.length costs) < max)%Z -> u_close_to 0 p i (Some thr) = Ok true).
Proof.
  intros HR HX S H. assert (Hn : (0 < 2 ^ n)%nat) by (apply Nat.neq_0_lt_0, Nat.pow_nonzero; lia).
  destruct (compile_inverse_ok 0 s run st st' t costs _ rand pv H S)
    as (p0 & target & st1 & st2 & s2 & A & EI & E1 & S1 & H3 & H4).
  assert (HX1 : exact_world (r_world st1)) by (rewrite E1; apply step_exact; auto).
  destruct (exact_special _ _ _ _ _ _ HX1 S1 A) as (D0 & W0 & SP0 & M0).
  destruct (u_inverse_ok 0 p0 W0 (eps_clean_0 _ _)) as (target' & EI' & DT & _ & _ & _ & _ & MT).
  assert (target' = target) by congruence. subst target'. rewrite D0 in DT, MT.
  assert (MT' : meq (2 ^ n) (u_mat target) (adj (ordered n rand))) by (now rewrite MT, M0).
  assert (SPT : special (2 ^ n) (adj (ordered n rand))) by (now apply special_adj).
  assert (WT : wf target) by (eapply wf_of; eauto).
  destruct (HR target st1 st2 s2 costs HX1 S1 H3) as (HX2 & (pv' & S2) & (comp & pv2 & SC) & pc & close & AC & EC & HC & HL).
  destruct (exact_special _ _ _ _ _ _ HX2 SC AC) as (DC & WC & SPC & MC).
  destruct (combine_view 0 _ _ _ _ (sees_W _ _ _ _ _ _ S2) H4) as (d' & E & D & S3). injection E as Et.
  destruct (D s) as (q & Hq & Hd); [simpl; auto|].
  assert (Ed : d' = (2 ^ n)%nat) by (destruct S2 as (_ & q2 & Hq2 & Hd2 & _); congruence). rewrite Ed in S3.
  rewrite <- Et in S3. cbn [map List.concat] in S3. rewrite app_nil_r in S3.
  rewrite (sees_contents _ _ _ _ _ _ S2), (sees_contents _ _ _ _ _ _ SC) in S3.
  assert (HX3 : exact_world (r_world st')).
  { pose proof (step_exact (Combine [s; s2]) _ HX2 I) as X. now rewrite H4 in X. }
  destruct (exact_answer_ex _ _ _ _ _ HX3 S3) as (p & AP).
  destruct (exact_special _ _ _ _ _ _ HX3 S3 AP) as (DP & WP & SPP & MP).
  destruct (u_identity_ok 0 (2 ^ n) Hn ltac:(lra)) as (i & EId & DI & _ & _ & _ & _ & MI).
  assert (SI : wf i) by (eapply wf_of; eauto using special_mid).
  assert (OV : overlap (2 ^ n) (u_mat p) (u_mat i) = overlap (2 ^ n) (adj (ordered n rand)) (ordered n comp)).
  { rewrite MP, MI, ordered_app.
    rewrite <- (overlap_right (2 ^ n) (adj (ordered n rand))) by (apply SPT).
    assert (U0 : meq (2 ^ n) (mmul (2 ^ n) (ordered n rand) (adj (ordered n rand))) mid) by apply SP0.
    rewrite <- (mmul_assoc (2 ^ n) (ordered n comp)), U0, mmul_1_l, mmul_1_r. apply overlap_sym. }
  split; auto. exists comp, p, i, (1 - overlap (2 ^ n) (adj (ordered n rand)) (ordered n comp))%R.
  rewrite (sees_contents _ _ _ _ _ _ S3). split; auto. split; auto. split; auto. split; auto.
  assert (DD : u_distance_from 0 p i = Ok (1 - overlap (2 ^ n) (adj (ordered n rand)) (ordered n comp))%R).
  { rewrite overlap_inv by (auto using eps_clean_0; congruence). now rewrite DP, OV. }
  assert (DT' : u_distance_from 0 target pc = Ok (1 - overlap (2 ^ n) (adj (ordered n rand)) (ordered n comp))%R).
  { rewrite overlap_inv by (auto using eps_clean_0; congruence). now rewrite DT, MT', MC. }
  assert (DC' : u_distance_from 0 pc target = Ok (1 - overlap (2 ^ n) (adj (ordered n rand)) (ordered n comp))%R).
  { rewrite overlap_inv by (auto using eps_clean_0; congruence). now rewrite DC, MT', MC, overlap_sym. }
  split; auto. split; auto. split.
  - intros HN. specialize (HL HN). congruence.
  - intros HN. unfold u_close_to in *. rewrite DC' in EC. rewrite DD. cbn [bind] in *.
    injection EC as EC. rewrite EC. destruct close; auto. specialize (HC eq_refl). lia.
Qed.
End Metric.
