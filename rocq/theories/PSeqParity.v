(** inverse() of a sequence whose entry objects may occur several times. *)
From Coq Require Import Reals List Arith Lia Lra Bool String ZArith Setoid Morphisms.
From Coquelicot Require Import Complex.
From Verif Require Import Base CMat CMatFacts Det DetFacts CRoot Norms ModelUnitary ModelEntry
  ModelSequence Spec SpecModel PUnitary PBits PEmbed PEntry PDrift PUnitaryProps PSeqHeap PSeqMeth PSeqNear PSeqWorld
  PSeqUndo PSeqInv PSeqHist PSeqProps PSeqCases PSeqEx.
Import ListNotations.
Open Scope R_scope.
Open Scope C_scope.
Open Scope se_scope.

Lemma invert_loop_times eps ls : forall (h h' : heap), in_heap h ls ->
  invert_loop eps ls h = (h', Ok tt) ->
  forall l, e_apply (obj h' l) = e_apply (obj h l) /\
    inverted eps (count_occ Nat.eq_dec ls l) (e_unitary (obj h l)) (e_unitary (obj h' l)).
Proof.
  induction ls as [|x ls IH]; intros h h' Hl E l.
  - injection E as <-. split; reflexivity.
  - apply in_heap_cons in Hl. destruct Hl as [Hx Hl].
    cbn [invert_loop] in E. unfold se_bind at 1, se_get in E. unfold se_bind at 1, se_lift in E.
    destruct (u_inverse eps (e_unitary (obj h x))) as [ui|e] eqn:Eu; [|discriminate].
    unfold se_bind at 1, se_put in E.
    specialize (IH (list_set h x {| e_unitary := ui; e_apply := e_apply (obj h x); e_cache := [] |}) h'
      ltac:(intros k Hk; rewrite list_set_length; now apply Hl) E l). clear E. rename IH into E.
    rewrite obj_set in E by exact Hx. cbn [count_occ].
    destruct (Nat.eqb_spec x l) as [E0|N].
    + subst l. cbn [e_apply e_unitary] in E. destruct (Nat.eq_dec x x) as [_|]; [|congruence].
      destruct E as [E1 E2]. split; auto. cbn [inverted]. exists ui. auto.
    + destruct (Nat.eq_dec x l); [congruence|exact E].
Qed.

Lemma renamed_gates h h' g ls : gates h' (map g ls) = gates h ls ->
  forall l, In l ls -> e_apply (obj h' (g l)) = e_apply (obj h l) /\ e_unitary (obj h' (g l)) = e_unitary (obj h l).
Proof.
  unfold gates. rewrite map_map. intros E l Hl.
  assert (K' : gate (obj h' (g l)) = gate (obj h l)) by (apply (ext_in_map E); auto).
  unfold gate in K'. injection K'. auto.
Qed.

Lemma inverse_times eps h s h' s' i : G eps anyg h s -> inverse eps (h, s) = ((h', s'), Ok i) ->
  Forall2 (fun l l' => e_apply (obj h' l') = e_apply (obj h l) /\
      inverted eps (count_occ Nat.eq_dec (s_entries s) l) (e_unitary (obj h l)) (e_unitary (obj h' l')))
    (rev (s_entries s)) (s_entries i) /\
  s_dim i = s_dim s /\ s_array i = false /\
  (exists p v, reported eps h s = Ok p /\ u_inverse eps p = Ok v /\ s_product i = Some v).
Proof.
  intros HG. unfold inverse. unfold se_bind at 1. cbn [m_self snd].
  unfold se_bind at 1. unfold m_heap, h_deepcopy. cbn [fst snd].
  destruct (deepcopy h (s_entries s)) as [h1 ls] eqn:E1.
  destruct (deepcopy_frame eps anyg _ _ h1 ls (proj1 (proj2 HG)) E1) as (X1 & K1 & R1 & G1 & F1 & D1 & _).
  specialize (K1 (proj1 HG)).
  unfold se_bind at 1. cbn [fst snd].
  destruct (new_sequence_spec eps anyg (s_dim s) (s_array s) ls h1 K1 R1)
    as (h2 & r2 & E2 & X2 & K2 & [(V & ls' & -> & R2 & G2 & F2 & D2 & _)|(V & -> & ->)]); rewrite E2; [|discriminate].
  assert (X02 : heap_ext h h2) by (eapply heap_ext_trans; eauto).
  cbn [s_array]. destruct (s_array s) eqn:Ar; [discriminate|].
  cbn [s_entries set_entries]. unfold se_bind at 1. cbn [fst snd].
  assert (Hin : forall l, In l (rev ls') -> (List.length h1 <= l < List.length h2)%nat).
  { intros l Hl. apply in_rev in Hl. split; [now apply F2|now apply R2]. }
  destruct (invert_loop_frame eps anyg (rev ls') h2 (List.length h1) Hin) as (h3 & r3 & E3 & K3 & N3 & F3); auto.
  rewrite E3. destruct r3 as [[]|x]; [|discriminate].
  assert (L3 := invert_loop_times eps (rev ls') h2 h3 ltac:(intros l Hl; now apply Hin) E3).
  assert (X03 : heap_ext h h3).
  { split; [destruct X02; lia|]. intros l Hl. rewrite F3.
    - now apply X02.
    - intros Hl'. apply in_rev in Hl'. apply F2 in Hl'. destruct X1; lia. }
  unfold se_bind at 1.
  destruct (product_same eps anyg h3 s (conj K3 (seq_rng_ext _ _ _ X03 (proj2 HG))))
    as (h4 & s4 & r4 & E4 & X4 & K4 & _ & _ & Er).
  rewrite E4. destruct r4 as [p|x]; [|discriminate].
  unfold se_bind, se_lift. destruct (u_inverse eps p) as [pi|x] eqn:Epi; [|discriminate].
  intros E. injection E as <- <- <-. cbn [s_entries set_product set_entries s_dim s_array s_product].
  split; [|split; [reflexivity|split; [reflexivity|exists p, pi; repeat split; auto]]].
  - destruct (renamed_trans _ _ _ D1 D2) as (g & -> & Hg). rewrite G1 in G2.
    assert (H2 := renamed_gates h h2 g _ G2). rewrite <- map_rev.
    assert (HH : forall l, In l (s_entries s) -> e_apply (obj h4 (g l)) = e_apply (obj h l) /\
      inverted eps (count_occ Nat.eq_dec (s_entries s) l) (e_unitary (obj h l)) (e_unitary (obj h4 (g l)))).
    { intros l Hl. destruct (H2 l Hl) as [A1 A2]. destruct (L3 (g l)) as [B1 B2].
      assert (Lg : (g l < List.length h3)%nat).
      { rewrite N3. apply R2. now apply in_map. }
      rewrite count_occ_rev, count_renamed in B2; [|intros; apply Hg; auto].
      assert (C := proj2 X4 (g l) Lg). unfold gate in C. injection C as C1 C2. rewrite C1, C2. rewrite <- A1, <- A2. auto. }
    assert (HH' : forall l, In l (rev (s_entries s)) -> In l (s_entries s)) by (intros; now apply in_rev).
    induction (rev (s_entries s)) as [|l t IH]; cbn [map]; constructor.
    + apply HH, HH'. simpl; auto.
    + apply IH. intros. apply HH'. simpl; auto.
  - rewrite Er. unfold reported. destruct (s_product s); auto. rewrite (gates_ext h h3 _ X03 (proj1 (proj2 HG))); reflexivity.
Qed.

Lemma C64_lemma : forall eps os s i q,
  let w := exec eps os w_empty in
  let w' := fst (step eps (Inverse s) w) in
  nth_error (w_seqs w) s = Some q ->
  snd (step eps (Inverse s) w) = Ok (VSequence i) ->
  Forall2 (fun l g' => snd g' = e_apply (obj (w_heap w) l) /\
      inverted eps (count_occ Nat.eq_dec (s_entries q) l) (e_unitary (obj (w_heap w) l)) (fst g'))
    (rev (s_entries q)) (contents w' i) /\
  exists p v, answers eps w s p /\ u_inverse eps p = Ok v /\ answers eps w' i v.
Proof.
  intros eps os s i q w w' Hq E. assert (W0 : WG eps anyg w) by apply W_exec.
  assert (W1 : WG eps anyg w') by now apply W_step.
  assert (HG := WG_G eps anyg w s q W0 Hq).
  destruct (inverse eps (w_heap w, q)) as [[h' q'] r] eqn:Ei.
  destruct (on_seq_target s (inverse eps) w q h' q' r Hq Ei) as [E1 _].
  subst w'. cbn [step] in E, W1 |- *. unfold se_bind in E, W1 |- *. rewrite E1 in E, W1 |- *.
  destruct r as [j|x]; [|discriminate]. unfold add_seq in E, W1 |- *. cbn [fst snd w_seqs w_heap] in E, W1 |- *.
  injection E as <-. destruct (inverse_times eps _ _ _ _ _ HG Ei) as (F & _ & _ & p & v & P1 & P2 & P3).
  set (ws := list_set (w_seqs w) s q') in *.
  assert (Hj : nth_error (ws ++ [j]) (List.length ws) = Some j).
  { rewrite nth_error_app2 by lia. now rewrite Nat.sub_diag. }
  split.
  - unfold contents. cbn [w_seqs w_heap]. rewrite Hj. clear - F. induction F as [|l l' t t' H F IH]; cbn [map]; constructor; auto.
  - exists p, v. split; [now apply (answers_iff eps w s q p W0 Hq)|]. split; auto.
    apply (answers_iff eps _ _ j v W1 Hj). unfold reported. now rewrite P3.
Qed.

Lemma inverted_parity eps qs m : (0 <= eps <= 1)%R -> forall u v, gok eps true (u, qs) -> inverted eps m u v ->
  u_dim v = u_dim u /\ meq (u_dim u) (u_mat v) (if Nat.odd m then adj (u_mat u) else u_mat u).
Proof.
  intros He. induction m as [|m IH]; intros u v Hu Hv; cbn [inverted] in Hv.
  - subst v. split; reflexivity.
  - destruct Hv as (t & Et & Hv).
    destruct (gok_inverse eps ltac:(lra) true eq_refl u t qs Hu Et) as (Ht & Dt & Mt).
    destruct (IH t v Ht Hv) as [D M]. split; [congruence|]. rewrite Dt in M.
    rewrite M, Nat.odd_succ, <- Nat.negb_odd. destruct (Nat.odd m); cbn [negb]; [|exact Mt].
    rewrite Mt. now rewrite adj_adj.
Qed.

Lemma C64_parity_lemma : forall eps os s i q, (0 <= eps <= 1)%R ->
  history eps (fun u => built eps u /\ eps_clean eps (u_dim u) (u_mat u)) (fun _ _ => True) os w_empty ->
  let w := exec eps os w_empty in
  let w' := fst (step eps (Inverse s) w) in
  nth_error (w_seqs w) s = Some q ->
  snd (step eps (Inverse s) w) = Ok (VSequence i) ->
  Forall2 (fun l g' => let u := e_unitary (obj (w_heap w) l) in
      snd g' = e_apply (obj (w_heap w) l) /\ u_dim (fst g') = u_dim u /\
      meq (u_dim u) (u_mat (fst g'))
        (if Nat.odd (count_occ Nat.eq_dec (s_entries q) l) then adj (u_mat u) else u_mat u))
    (rev (s_entries q)) (contents w' i).
Proof.
  intros eps os s i q He Hh w w' Hq E.
  assert (W0 : WG eps (gok eps true) w).
  { apply WG_exec. intros o Ho.
    assert (K : match o with NewEntry u _ => built eps u /\ eps_clean eps (u_dim u) (u_mat u) | _ => True end).
    { clear - Hh Ho. revert Hh Ho. generalize w_empty. induction os as [|o' os IH]; intros w Hh Ho; [destruct Ho|].
      cbn [history] in Hh. destruct Hh as [H1 H2]. destruct Ho as [->|Ho]; [|now apply (IH _ H2)].
      destruct o; auto. }
    destruct o; try exact I.
    - apply (legal_allowed eps ltac:(lra) true w_empty). cbn [legal1]. destruct K as [K1 K2].
      apply built_wf in K1. split; [apply wf_rough; auto; lra|]. auto.
    - cbn [allowed]. apply Pinv_true; auto; lra. }
  destruct (C64_lemma eps os s i q Hq E) as [F _]. fold w w' in F.
  assert (HR : in_heap (w_heap w) (rev (s_entries q))).
  { intros l Hl. apply in_rev in Hl. now apply (proj2 W0 s q Hq). }
  revert HR. induction F as [|l g' t t' [F1 F2] F IH]; intros HR; constructor.
  - cbv zeta. split; auto. eapply inverted_parity; eauto.
    apply (proj1 W0 l). apply HR. simpl; auto.
  - apply IH. intros x Hx. apply HR. simpl; auto.
Qed.

(** In exact arithmetic the call succeeds whatever the repetitions. *)
Lemma inverse_total n K h q :
  G 0 (gok 0 true) h q -> s_dim q = (2 ^ n)%nat -> s_array q = false -> sat 0 true n K h q ->
  exists h' q' i, inverse 0 (h, q) = ((h', q'), Ok i).
Proof.
  intros HG Hd Ar HS. unfold inverse. unfold se_bind at 1. cbn [m_self snd].
  unfold se_bind at 1. unfold m_heap, h_deepcopy. cbn [fst snd].
  destruct (deepcopy h (s_entries q)) as [h1 ls] eqn:E1.
  destruct (deepcopy_frame 0 (gok 0 true) _ _ h1 ls (proj1 (proj2 HG)) E1) as (X1 & K1 & R1 & G1 & F1 & _).
  specialize (K1 (proj1 HG)).
  assert (Gq := part_gates 0 true n K h _ _ (proj1 HG) (proj1 (proj2 HG)) (proj1 HS)).
  unfold se_bind at 1. cbn [fst snd].
  destruct (new_sequence_spec 0 (gok 0 true) (s_dim q) (s_array q) ls h1 K1 R1)
    as (h2 & r2 & E2 & X2 & K2 & HH).
  assert (V : forallb (fun l => entry_valid (s_dim q) (obj h1 l)) ls = true).
  { apply forallb_forall. intros l Hl.
    assert (Hg : In (gate (obj h1 l)) (gates h1 ls)) by (apply (in_map (fun l => gate (obj h1 l))); auto).
    rewrite G1 in Hg. apply Gq in Hg. destruct Hg as [(_ & _ & _ & H4 & _) Hp].
    rewrite Hd. now apply placement_entry_valid. }
  destruct HH as [(_ & ls' & -> & R2 & G2 & F2 & _)|(V' & _)]; [|congruence].
  rewrite E2. cbn [s_array]. rewrite Ar. cbn [s_entries set_entries]. unfold se_bind at 1. cbn [fst snd].
  destruct (invert_loop_spec 0 ltac:(lra) true eq_refl (rev ls') h2) as (h3 & E3 & K3 & N3 & _ & F3); auto.
  { intros l Hl. apply in_rev in Hl. auto. }
  rewrite E3.
  assert (X03 : heap_ext h h3).
  { split; [destruct X1, X2; lia|]. intros l Hl. rewrite F3.
    - apply (heap_ext_trans _ _ _ X1 X2); auto.
    - intros Hin. apply in_rev in Hin. apply F2 in Hin. destruct X1; lia. }
  assert (HR3 := seq_rng_ext _ _ _ X03 (proj2 HG)).
  assert (HS3 := sat_ext 0 true n K h h3 q X03 (proj2 HG) HS).
  unfold se_bind at 1.
  destruct (product_spec 0 (gok 0 true) h3 q (conj K3 HR3)) as (h4 & E4 & X4 & K4 & _).
  rewrite E4. destruct (reported_near 0 ltac:(lra) ltac:(lra) true n K h3 q (conj K3 HR3) Hd (lim_zero _ _) HS3) as (p & Ep & Np).
  rewrite Ep. destruct (nearb_inverse 0 ltac:(lra) true n _ _ p Np (lim_zero _ _)) as (pi & Epi & Npi).
  unfold se_bind, se_lift. rewrite Epi. eexists _, _, _. reflexivity.
Qed.

Lemma C64_total_lemma : forall os s n,
  history 0 (built 0) odd_entries os w_empty ->
  let w := exec 0 os w_empty in
  has_dim w s (2 ^ n) -> from_array w s false ->
  exists i, snd (step 0 (Inverse s) w) = Ok (VSequence i).
Proof.
  intros os s n H w (q & Hq & Hd) (q0 & Hq0 & Ar). rewrite Hq in Hq0. injection Hq0 as <-.
  assert (HW := exact_winv os H). fold w in HW.
  destruct (inverse_total n (updates os 0) (w_heap w) q) as (h' & q' & i & E); auto.
  - apply (WG_G 0 _ w s q (proj1 HW) Hq).
  - apply (proj2 HW s q n Hq Hd (lim_zero _ _)).
  - destruct (on_seq_target s (inverse 0) w q h' q' (Ok i) Hq E) as [E1 _].
    cbn [step]. unfold se_bind. rewrite E1. eexists. reflexivity.
Qed.

(** One object twice and another one three times. *)
Lemma ex_C64_lemma :
  exists u os q, built 0 u /\ meq 2 (u_mat u) rot345 /\
    os = [NewEntry u [0%Z]; NewEntry u [1%Z]; NewSequence 4 false [0; 1; 0; 1; 1]%nat] /\
    history 0 (built 0) odd_entries os w_empty /\
    history 0 (fun u => built 0 u /\ eps_clean 0 (u_dim u) (u_mat u)) (fun _ _ => True) os w_empty /\
    has_dim (exec 0 os w_empty) 0 (2 ^ 2) /\ from_array (exec 0 os w_empty) 0 false /\
    nth_error (w_seqs (exec 0 os w_empty)) 0 = Some q /\
    map (count_occ Nat.eq_dec (s_entries q)) (s_entries q) = [2; 3; 2; 3; 3]%nat.
Proof.
  destruct (rot345_built 0 ltac:(lra)) as (u & B & D & M & _).
  exists u. eexists _, _. split; [exact B|]. split; [exact M|]. split; [reflexivity|].
  split; [cbn [history]; auto 20|]. split; [cbn [history]; auto 20 using eps_clean_0|]. clear B M. conc u D.
  split; [eexists; split; reflexivity|]. split; [eexists; split; reflexivity|]. split; reflexivity.
Qed.
