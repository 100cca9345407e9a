(** One qubit: no drift away from SU(2), whatever the number of updates. *)
From Coq Require Import Reals List Arith Lia Lra Bool String ZArith.
From Coquelicot Require Import Rcomplements Complex.
From Verif Require Import Base CMat CMatFacts Det DetFacts Norms ModelUnitary ModelEntry ModelPrimitive ModelGates
  ModelSequence ModelCompiler ModelVerification Spec SpecModel SpecCompiler SpecGates SpecOneQubit PUnitary PUnitaryProps PDrift PSu2 PEntry
  PGates PSeqHeap PSeqMeth PSeqNear PSeqWorld PSeqUndo PSeqInv PSeqHist PSeqProps PSeqCases PSeqEx PCompView PCompRun PCompEntry
  PCompLoop PCompTrace PCompTotal PCompProps PCompMore PCompCases PCompEx PVerify PVerifyProps PFamilies.
Import ListNotations.
Open Scope R_scope.
Open Scope C_scope.
Open Scope se_scope.

Lemma kappa2 : (0 <= kappa0 2 <= 8)%R.
Proof.
  unfold kappa0. assert (S := sqrt2_bounds). replace (INR 2) with 2%R by (simpl; ring). lra.
Qed.

Lemma fro_minus_le n A B : (fro n (mminus A B) <= fro n A + fro n B)%R.
Proof.
  eapply Rle_trans; [apply fro_minus_triangle with (B := mzero)|]. rewrite (fro_minus_sym n mzero B).
  apply Req_le. f_equal; apply fro_proper; intros i j _ _; unfold mminus, mzero; ring.
Qed.

(** ** Gates *)
Lemma su2_gate_lemma : forall eps M nm ps iv ap, (0 <= eps <= / 1000)%R -> special 2 M ->
  exists u, mk_unitary eps 2 (Some (square 2 M)) nm ps iv ap = Ok u /\ u_dim u = 2%nat /\ exact_gate eps u /\
    (fro 2 (mminus (u_mat u) M) <= 8 * eps)%R.
Proof.
  intros eps M nm ps iv ap HE HM.
  destruct (mk_su2 eps M nm ps iv ap HE HM) as (u & E & D & S & _ & _ & _ & _ & F & Cl).
  exists u. split; auto. split; auto. split; [unfold exact_gate; rewrite D; auto|].
  eapply Rle_trans; [exact F|]. apply Rmult_le_compat_r; [lra|apply kappa2].
Qed.

Lemma exact_safe eps u : (0 <= eps)%R -> made eps u -> exact_gate eps u -> safe_gate eps true u.
Proof.
  intros E0 HM [S C]. assert (W : wf u) by (split; [apply (made_rough eps E0 u HM)|exact S]).
  split; [now apply wf_rough|auto].
Qed.

Lemma exact_safe_primitive eps n p : (0 <= eps)%R -> good_primitive eps n p -> exact_primitive eps p ->
  safe_primitive eps (safe_gate eps true) p.
Proof.
  intros E0 HG HX u HI. apply exact_safe; auto. now apply (good_instance eps p u (proj1 HG)).
Qed.

Lemma exact_state_winv eps w : (0 <= eps <= 1)%R -> exact_state eps w -> exists K, winv eps true K w.
Proof.
  intros HE (os & -> & H). exists (updates os 0). apply exec_winv; [lra|lra| |apply winv_empty].
  eapply history_weaken; [| |exact H].
  - intros u [HM HX]. apply exact_safe; auto. lra.
  - auto.
Qed.

Lemma limb_one eps c : (0 <= eps <= / 1000)%R -> limb eps true 1 c.
Proof. intros H. right. unfold single. split; auto. split; auto. lra. Qed.

Lemma one_lim2 eps : (0 <= eps <= / 10 ^ 10)%R -> lim eps 1 3 /\ (0 <= eps <= / 1000)%R.
Proof.
  intros [E0 E1]. assert (K := kappa2). replace (10 ^ 10)%R with 10000000000%R in E1 by ring.
  split; [|lra]. unfold lim, err. change (2 ^ 1)%nat with 2%nat. replace (INR 2) with 2%R by (simpl; ring).
  unfold xi. change (2 ^ 1)%nat with 2%nat. set (x := (kappa0 2 * eps)%R).
  assert (X : (0 <= x <= 8 / 10000000000)%R).
  { unfold x. split; [apply Rmult_le_pos; lra|].
    apply Rle_trans with (8 * eps)%R; [apply Rmult_le_compat_r; lra|lra]. }
  assert (Y : ((1 + x) ^ 3 - 1 <= 4 * x)%R) by nra.
  replace (10 ^ 10)%R with 10000000000%R by ring. lra.
Qed.

(** ** The product *)
Lemma one_qubit_product_lemma : forall eps os s, (0 <= eps <= / 1000)%R -> exact_program eps os ->
  has_dim (exec eps os w_empty) s 2 ->
  let w := exec eps os w_empty in
  exists p, answers eps w s p /\ u_dim p = 2%nat /\ special 2 (u_mat p) /\
    (fro 2 (mminus (u_mat p) (ordered 1 (contents w s))) <= 24 * INR (updates os 0) * eps)%R.
Proof.
  intros eps os s HE H HD. cbv zeta. set (K := updates os 0).
  destruct (winv_exact eps K (exec eps os w_empty) s 1) as (p & A & N); auto; [lra| |now apply limb_one|].
  - apply exec_winv; [lra|lra| |apply winv_empty]. eapply history_weaken; [| |exact H].
    + intros u [HM HX]. apply exact_safe; auto. lra.
    + auto.
  - destruct N as [(N1 & N2 & N3 & N4) N5]. exists p. split; auto. split; auto.
    assert (S : special 2 (u_mat p)) by (apply N5; repeat split; auto; lra).
    split; auto. change (2 ^ 1)%nat with 2%nat in *. replace (unit_cost true * K)%nat with K in * by (cbn; lia).
    unfold err, xi in N4. change (2 ^ 1)%nat with 2%nat in *.
    assert (KP := kappa2). set (x := (kappa0 2 * eps)%R) in *.
    assert (X : (0 <= x <= 8 * eps)%R) by (unfold x; split; [apply Rmult_le_pos; lra|apply Rmult_le_compat_r; lra]).
    assert (K0 := pos_INR K).
    destruct (Rle_dec (INR K * x) 1) as [B|B].
    + assert (P := pow_linear x K (proj1 X) B).
      eapply Rle_trans; [exact N4|]. assert (0 <= INR K * x)%R by nra. nra.
    + eapply Rle_trans; [apply fro_minus_le|].
      rewrite (fro_unitary 2 _ (proj1 S)), (fro_unitary 2 _ (proj1 N2)).
      replace (INR 2) with 2%R by (simpl; ring). assert (Q := sqrt2_bounds). nra.
Qed.

(** ** append, remove *)
Lemma one_qubit_updates_lemma : forall eps w s, (0 <= eps <= / 1000)%R -> exact_state eps w -> list_sequence w s 2 ->
  (forall l sv, (l < List.length (w_heap w))%nat -> e_apply (obj (w_heap w) l) = [0%nat] ->
     snd (step eps (AppendFirst s l sv) w) = Ok VNone /\ snd (step eps (AppendLast s l sv) w) = Ok VNone) /\
  (forall sv, snd (step eps (RemoveFirst s sv) w) = Ok VNone /\ snd (step eps (RemoveLast s sv) w) = Ok VNone).
Proof.
  intros eps w s HE HX HL. assert (e1 : (0 <= eps <= 1)%R) by lra. destruct (exact_state_winv eps w e1 HX) as [K HW].
  destruct HL as (q & Hq & Hd & Ha).
  assert (S : sees eps w s (2 ^ 1) (gates (w_heap w) (s_entries q)) (option_map (gates (w_heap w)) (s_prev_entries q))).
  { split; [eapply winv_any; eauto|]. exists q. auto. }
  assert (P0 := placement_10).
  split.
  - intros l sv Hl Hg.
    assert (PG : placement 1 (snd (gate (obj (w_heap w) l)))) by (unfold gate; cbn [snd]; now rewrite Hg).
    split.
    + destruct (append_first_total eps (proj1 e1) (proj2 e1) true 1 K w s _ _ l _ sv HW S (conj Hl eq_refl) PG (limb_one eps _ HE)) as [w' E].
      now rewrite E.
    + destruct (append_last_total eps (proj1 e1) (proj2 e1) true 1 K w s _ _ l _ sv HW S (conj Hl eq_refl) PG (limb_one eps _ HE)) as [w' E].
      now rewrite E.
  - intros sv. split.
    + destruct (remove_first_total eps (proj1 e1) (proj2 e1) true 1 K w s _ _ sv HW S (limb_one eps _ HE)) as [w' E]. now rewrite E.
    + destruct (remove_last_total eps (proj1 e1) (proj2 e1) true 1 K w s _ _ sv HW S (limb_one eps _ HE)) as [w' E]. now rewrite E.
Qed.

(** ** compile() *)
Lemma one_qubit_compile_lemma : forall g eps st c target thr max,
  rng_ok g -> (0 <= eps <= / 10 ^ 10)%R -> exact_state eps (r_world st) -> good_compiler eps 1 c ->
  (forall p, In p (c_prims c) -> exact_primitive eps p) ->
  c_array c = false \/ List.length (c_prims c) = 1%nat ->
  made eps target -> u_dim target = 2%nat ->
  exists st' c' s costs, compile g eps target thr max (st, c) = ((st', c'), Ok (s, costs)).
Proof.
  intros g eps st c target thr max G HE HX HC HP HA HT HD. destruct (one_lim2 eps HE) as [L3 HE'].
  assert (e1 : (0 <= eps <= 1)%R) by lra. destruct (exact_state_winv eps _ e1 HX) as [K HW].
  apply (single_never_fails_safe g eps true 1 K); auto.
  - intros _. eapply lim_mono; [lra|lra| |exact L3]. lia.
  - apply (made_inverse eps (proj1 e1) (proj2 e1) 1); auto.
  - apply List.Forall_forall. intros p Hp. apply (exact_safe_primitive eps 1); auto; [lra|]. destruct HC as (_ & _ & HG & _). auto.
  - now apply limb_one.
Qed.

Lemma one_qubit_layered_lemma : forall g eps st c target counts thr max,
  rng_ok g -> (0 <= eps <= / 10 ^ 10)%R -> exact_state eps (r_world st) -> c_dim c = 2%nat -> (0 <= c_append c <= 1)%R ->
  good_table eps 1 counts -> (forall p k, In (p, k) counts -> exact_primitive eps p) ->
  made eps target -> u_dim target = 2%nat ->
  exists st' c' s costs, compile_layered g eps target counts thr max (st, c) = ((st', c'), Ok (s, costs)).
Proof.
  intros g eps st c target counts thr max G HE HX Hd Ha HC HP HT HD. destruct (one_lim2 eps HE) as [L3 HE'].
  assert (e1 : (0 <= eps <= 1)%R) by lra. destruct (exact_state_winv eps _ e1 HX) as [K HW].
  apply (layered_never_fails_safe g eps true 1 K); auto.
  - intros _. eapply lim_mono; [lra|lra| |exact L3]. lia.
  - apply (made_inverse eps (proj1 e1) (proj2 e1) 1); auto.
  - apply List.Forall_forall. intros [p k] Hp. apply (exact_safe_primitive eps 1); [lra| |eapply HP; eauto].
    unfold good_table in HC. rewrite List.Forall_forall in HC. now apply (HC (p, k)).
  - now apply limb_one.
Qed.

(** ** Randomised analog verification *)
Lemma one_qubit_rav_lemma : forall g eps arr ps len thr ap probs max st,
  rng_ok g -> (0 <= eps <= / 10 ^ 10)%R -> exact_state eps (r_world st) -> good_set eps 1 ps probs ->
  (forall p, In p ps -> exact_primitive eps p) ->
  (0 <= len)%Z -> (0 <= thr <= 1)%R -> (0 <= ap <= 1)%R ->
  arr = false \/ List.length ps = 1%nat \/ thr = 0%R \/ max = 0%Z ->
  exists st' s costs, generate_rav_sequence g eps 2 arr ps len thr ap probs max st = (st', Ok (s, costs)).
Proof.
  intros g eps arr ps len thr ap probs max st G HE HX HS HP HL HT Ha HA. destruct (one_lim2 eps HE) as [L3 HE'].
  assert (e1 : (0 <= eps <= 1)%R) by lra. destruct (exact_state_winv eps _ e1 HX) as [K HW].
  assert (L2 : true = true -> lim eps 1 2) by (intros _; eapply lim_mono; [lra|lra| |exact L3]; lia).
  apply (rav_total_safe g eps true 1 G (proj1 e1) (proj2 e1) L2) with (K := K) (c0 := any_compiler (2 ^ 1) ps probs ap); auto.
  - apply List.Forall_forall. intros p Hp. apply (exact_safe_primitive eps 1); auto; [lra|]. now apply HS.
  - intros p Hp. now apply HS.
  - now apply set_compiler.
  - now apply limb_one.
Qed.

Lemma one_qubit_layered_rav_lemma : forall g eps counts len thr ap max st,
  rng_ok g -> (0 <= eps <= / 10 ^ 10)%R -> exact_state eps (r_world st) -> good_table eps 1 counts ->
  (forall p k, In (p, k) counts -> exact_primitive eps p /\ (src_dim (p_source p) <= 2)%nat) ->
  (0 <= len)%Z -> (0 <= thr <= 1)%R -> (0 <= ap <= 1)%R ->
  exists st' s costs, generate_layered_rav_sequence g eps 2 counts len thr ap max st = (st', Ok (s, costs)).
Proof.
  intros g eps counts len thr ap max st G HE HX HC HP HL HT Ha. destruct (one_lim2 eps HE) as [L3 HE'].
  assert (e1 : (0 <= eps <= 1)%R) by lra. destruct (exact_state_winv eps _ e1 HX) as [K HW].
  assert (L2 : true = true -> lim eps 1 2) by (intros _; eapply lim_mono; [lra|lra| |exact L3]; lia).
  apply (layered_total_safe g eps true 1 G (proj1 e1) (proj2 e1) L2) with (K := K); auto.
  - apply List.Forall_forall. intros [p k] Hp. apply (exact_safe_primitive eps 1); [lra| |eapply HP; eauto].
    unfold good_table in HC. rewrite List.Forall_forall in HC. now apply (HC (p, k)).
  - intros [p k] Hp. now apply (HP p k).
  - now apply limb_one.
Qed.

(** ** The library's rotations *)
Lemma exact_rotations_lemma : forall eps, (0 <= eps <= / 1000)%R ->
  (exists pu, pd_rotation_xy eps = Ok pu /\ forall al, exact_primitive eps {| p_source := Family pu; p_allowed := al |}) /\
  (exists pu, pd_rotation_xyz = Ok pu /\ forall al, exact_primitive eps {| p_source := Family pu; p_allowed := al |}).
Proof.
  intros eps HE. split.
  - unfold pd_rotation_xy. rewrite !angle_ok by reflexivity. eexists. split; [reflexivity|]. intros al u (vs & HV & EU).
    cbn [p_source] in *. unfold as_unitary in EU.
    inversion HV as [|? t ? ? Ht T]; subst. inversion T as [|? p ? ? Hp T']; subst. inversion T'; subst.
    cbn [pu_params pu_matrix pu_name pu_dim check_values] in EU. cbn in Ht, Hp.
    rewrite !valid_ok in EU by assumption. cbn [bind assert andb fill_dict rotation_xy_matrix] in EU.
    unfold matrix_of, g_rphi in EU.
    match type of EU with context [mk_unitary eps 2 (Some ?a) ?nm ?ps ?iv ?ap] =>
      destruct (mk_su2 eps (elt a) nm ps iv ap HE) as (v & E & D & S & _ & _ & _ & _ & F & Cl) end.
    { eapply special_meq; [symmetry; apply rphi_matrix|]. apply rotation_special, unit_xy. }
    change (mk_unitary eps 2 (Some (square 2 (elt ?a)))) with (mk_unitary eps 2 (Some a)) in E.
    rewrite E in EU. cbn [bind] in EU. rewrite D in EU.
    destruct (mk_su2 eps (u_mat v) (Some "Rxy"%string) [("theta"%string, (t, true)); ("phi"%string, (p, true))] false [] HE S)
      as (v' & E' & D' & S' & _ & _ & _ & _ & F' & Cl').
    assert (X : Ok v' = Ok u) by (rewrite <- E', <- EU; reflexivity). injection X as <-.
    unfold exact_gate. now rewrite D'.
  - unfold pd_rotation_xyz. rewrite !angle_ok by reflexivity. eexists. split; [reflexivity|]. intros al u (vs & HV & EU).
    cbn [p_source] in *. unfold as_unitary in EU.
    inversion HV as [|? a ? ? Ht T]; subst. inversion T as [|? b ? ? Hp T']; subst. inversion T' as [|? c ? ? Hc T2]; subst. inversion T2; subst.
    cbn [pu_params pu_matrix pu_name pu_dim check_values] in EU. cbn in Ht, Hp, Hc.
    rewrite !valid_ok in EU by assumption. cbn [bind assert andb fill_dict rotation_xyz_matrix] in EU.
    match type of EU with context [mk_unitary eps 2 (Some ?a) ?nm ?ps ?iv ?ap] =>
      destruct (mk_su2 eps (elt a) nm ps iv ap HE) as (v & E & D & S & _ & _ & _ & _ & F & Cl) end.
    { eapply special_meq; [symmetry; apply xyz_matrix|]. apply euler_special. }
    assert (X : Ok v = Ok u) by (rewrite <- E, <- EU; reflexivity). injection X as <-.
    unfold exact_gate. now rewrite D.
Qed.

(** ** Concrete cases *)
Lemma small_code21 : small_drift eps_code 2 1.
Proof.
  unfold small_drift, drift_bound. replace (INR (2 ^ 2)) with 4%R by (simpl; ring).
  replace (sqrt 4) with 2%R by (rewrite <- (sqrt_square 2) by lra; f_equal; ring).
  replace (INR 1) with 1%R by (simpl; ring).
  unfold eps_code. replace (10 ^ 12)%R with 1000000000000%R by ring.
  replace (10 ^ 10)%R with 10000000000%R by ring. repeat split; lra.
Qed.

Lemma eps_code_10 : (0 <= eps_code <= / 10 ^ 10)%R.
Proof.
  unfold eps_code. replace (10 ^ 12)%R with 1000000000000%R by ring. replace (10 ^ 10)%R with 10000000000%R by ring. lra.
Qed.

Lemma updates_repeat k : forall K, updates (repeat (AppendLast 0 0 true) k) K = (k + K)%nat.
Proof. induction k as [|k IH]; intros K; cbn [repeat updates]; [reflexivity|]. rewrite IH. lia. Qed.

Lemma history_repeat eps P Q k : forall w, history eps P Q (repeat (AppendLast 0 0 true) k) w.
Proof. induction k as [|k IH]; intros w; cbn [repeat history]; auto. Qed.

Lemma ex_one_product_lemma : exists u, made eps_code u /\ exact_gate eps_code u /\ meq 2 (u_mat u) rot345 /\
  forall k, let os := NewEntry u [0%Z] :: NewSequence 2 false [] :: repeat (AppendLast 0 0 true) k in
    exact_program eps_code os /\ has_dim (exec eps_code os w_empty) 0 2 /\ updates os 0 = k.
Proof.
  assert (S := eps_code_small).
  destruct (rot345_built eps_code ltac:(lra)) as (u & B & D & M & Cl).
  assert (X : exact_gate eps_code u) by (split; [apply (built_wf _ _ B)|now rewrite D]).
  exists u. split; [now apply built_made|]. split; [exact X|]. split; [exact M|]. intros k. cbv zeta. split; [|split].
  - unfold exact_program. cbn [history]. split; [split; [now apply built_made|exact X]|]. split; [exact I|]. apply history_repeat.
  - change (?a :: ?b :: ?t) with ([a; b] ++ t). apply (has_dim_exec eps_code).
    conc u D. eexists. split; reflexivity.
  - cbn [updates List.length Nat.max]. rewrite updates_repeat. lia.
Qed.

Lemma ex_one_updates_lemma : exists u os w, os = [NewEntry u [0%Z]; NewSequence 2 false [0%nat; 0%nat]] /\
  w = exec eps_code os w_empty /\ exact_state eps_code w /\ list_sequence w 0 2 /\
  (0 < List.length (w_heap w))%nat /\ e_apply (obj (w_heap w) 0) = [0%nat].
Proof.
  assert (S := eps_code_small).
  destruct (rot345_built eps_code ltac:(lra)) as (u & B & D & M & Cl).
  exists u. eexists _, _. split; [reflexivity|]. split; [reflexivity|]. split.
  - eexists. split; [reflexivity|]. unfold exact_program. cbn [history]. split; [|auto].
    split; [now apply built_made|]. split; [apply (built_wf _ _ B)|now rewrite D].
  - conc u D. split; [eexists; repeat split; reflexivity|]. split; [cbn; lia|reflexivity].
Qed.

(** The two rotations of the library, with their random angles. *)
Lemma ex_one_compile_lemma : exists g st px pz target, let ps := [px; pz] in let counts := [(px, 2%Z); (pz, 1%Z)] in
  (exists pu, pd_rotation_xy eps_code = Ok pu /\ px = {| p_source := Family pu; p_allowed := None |}) /\
  (exists pu, pd_rotation_xyz = Ok pu /\ pz = {| p_source := Family pu; p_allowed := None |}) /\
  rng_ok g /\ (0 <= eps_code <= / 10 ^ 10)%R /\ exact_state eps_code (r_world st) /\
  (forall p, In p ps -> exact_primitive eps_code p) /\ good_set eps_code 1 ps None /\
  (exists c, mk_compiler 2 false ps None (1 / 2) (1 / 10) = Ok c /\ good_compiler eps_code 1 c) /\
  good_table eps_code 1 counts /\
  (forall p k, In (p, k) counts -> exact_primitive eps_code p /\ (src_dim (p_source p) <= 2)%nat) /\
  made eps_code target /\ u_dim target = 2%nat /\ meq 2 (u_mat target) rot345.
Proof.
  assert (S := eps_code_small). assert (SD := small_code21).
  destruct (rot345_built eps_code ltac:(lra)) as (u & B & D & M & Cl).
  destruct (exact_rotations_lemma eps_code ltac:(lra)) as [(pu & E1 & X1) (pv & E2 & X2)].
  destruct (library_good_lemma eps_code SD) as [(pu' & E1' & G1) [(pv' & E2' & G2) _]].
  rewrite E1 in E1'. injection E1' as <-. rewrite E2 in E2'. injection E2' as <-.
  assert (D1 : pu_dim pu = 2%nat).
  { unfold pd_rotation_xy in E1. rewrite !angle_ok in E1 by reflexivity. unfold mk_punitary in E1. cbn in E1. now injection E1 as <-. }
  assert (D2 : pu_dim pv = 2%nat).
  { unfold pd_rotation_xyz in E2. rewrite !angle_ok in E2 by reflexivity. unfold mk_punitary in E2. cbn in E2. now injection E2 as <-. }
  set (px := {| p_source := Family pu; p_allowed := None |}). set (pz := {| p_source := Family pv; p_allowed := None |}).
  assert (P1 : good_primitive eps_code 1 px).
  { split; [exact G1|]. cbn [p_allowed px p_source src_dim]. exists 1%nat. split; [lia|exact D1]. }
  assert (P2 : good_primitive eps_code 1 pz).
  { split; [exact G2|]. cbn [p_allowed pz p_source src_dim]. exists 1%nat. split; [lia|exact D2]. }
  assert (GS : good_set eps_code 1 [px; pz] None).
  { split.
    - intros p [<-|[<-|[]]]; (split; [assumption|]); cbn [px pz p_source src_dim]; rewrite ?D1, ?D2; cbn; lia.
    - exists px. split; [now left|discriminate]. }
  exists (const_rng 0 0), start, px, pz, u. cbv zeta.
  split; [exists pu; auto|]. split; [exists pv; auto|]. split; [apply const_rng_ok; lra|].
  split; [apply eps_code_10|]. split; [exists []; split; [reflexivity|exact I]|].
  split; [intros p [<-|[<-|[]]]; [apply X1|apply X2]|]. split; [exact GS|]. split.
  { destruct (mk_compiler_fine 2 false [px; pz] None (1 / 2) (1 / 10) ltac:(lia)) as (c & EK).
    { intros p Hp. now apply GS. }
    destruct (mk_compiler_ok _ _ _ _ _ _ _ EK) as (_ & Cd & Ca & Cp & Cq & Cap).
    exists c. split; [exact EK|]. destruct (set_compiler eps_code 1 [px; pz] None (1 / 2) GS ltac:(lra)) as (H1 & H2 & H3).
    unfold good_compiler. rewrite Cd, Cp, Cq, Cap. auto. }
  split; [apply List.Forall_forall; intros pc [<-|[<-|[]]]; (split; [assumption|]); discriminate|].
  split; [|auto using built_made].
  intros p k [H|[H|[]]]; injection H as <- <-; (split; [solve [apply X1|apply X2]|]); cbn [px pz p_source src_dim]; rewrite ?D1, ?D2; lia.
Qed.
