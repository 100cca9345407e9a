(** Random sequences followed by their compiled inverses: the metric and the
    absence of exceptions. *)
From Coq Require Import Reals List Arith Lia Lra Bool String ZArith Permutation.
From Coquelicot Require Import Rcomplements Complex.
From Verif Require Import Base CMat CMatFacts Det DetFacts ModelUnitary ModelEntry ModelPrimitive
  ModelSequence ModelCompiler ModelVerification Spec SpecModel SpecCompiler PUnitary PUnitaryProps PEntry PSeqHeap
  PSeqMeth PSeqNear PSeqWorld PSeqUndo PSeqInv PSeqHist PSeqProps PSeqCases PCompView PCompRun PCompEntry PCompLoop
  PCompTrace PCompTotal PCompProps PCompMore PCompCases PCompEx PVerify.
Import ListNotations.
Open Scope R_scope.
Open Scope C_scope.
Open Scope se_scope.

Lemma skip_false thr max : thr <> 0%R -> max <> 0%Z -> skip_inversion thr max = false.
Proof.
  intros H1 H2. unfold skip_inversion. destruct (Req_EM_T thr 0); [congruence|]. now apply Z.eqb_neq.
Qed.

(** ** The distance, in exact arithmetic *)
Section Metric.
Variable g : rng.
Hypothesis G : rng_ok g.

Lemma with_metric change Rel c k target thr max st st' c' s costs n s0 rand pv :
  change_ok 0 change Rel c -> (forall s, ctraced 0 (built 0) c k (change s)) ->
  (forall st, WG 0 anyg (r_world (fst st)) -> (s0 < List.length (w_seqs (r_world (fst st))))%nat ->
     spares 0 s0 (r_world (fst st)) (r_world (fst (fst (compile_with g 0 change target (Some thr) max st))))) ->
  c_dim c = (2 ^ n)%nat -> exact_world (r_world st) -> sees 0 (r_world st) s0 (2 ^ n) rand pv ->
  compile_with g 0 change target (Some thr) max (st, c) = ((st', c'), Ok (s, costs)) ->
  exact_world (r_world st') /\ (exists pv', sees 0 (r_world st') s0 (2 ^ n) rand pv') /\
  (exists cs2 pv2, sees 0 (r_world st') s (2 ^ n) cs2 pv2) /\
  exists pc close, answers 0 (r_world st') s pc /\ u_close_to 0 pc target (Some thr) = Ok close /\
    (close = false -> (max <= Z.of_nat (List.length costs))%Z) /\
    (costs <> [] -> u_distance_from 0 target pc = Ok (last costs 0%R)).
Proof.
  intros HC HT HS Hd HX S H.
  destruct (with_product g change Rel c k target (Some thr) max st st' c' s costs n G HC HT Hd HX H)
    as (HX' & p & close & A & _ & _ & EC & HN).
  destruct (with_ok g 0 G change Rel c target (Some thr) max (fun _ => True) st c st' c' s costs HC
    (eq_sym (set_beta_same c)) I (fun _ _ _ _ => I) (exact_W _ HX) H) as (_ & (cs & pv' & S' & _) & _).
  split; auto. split; [|split].
  - destruct (compiled_ok g 0 G change c target (Some thr) max st st' c' s costs s0 (2 ^ n) rand pv Rel (fun _ => True)
      HC HS I (fun _ _ _ _ => I) S H) as [S2 _]. exact S2.
  - rewrite <- Hd. eauto.
  - exists p, close. split; auto. split; auto. split; auto. intros HNN.
    destruct (with_last g change Rel c k target (Some thr) max st st' c' s costs n G HC) as (p' & A' & D); auto.
    { intros s1. intros st1 b1. destruct (HT s1 st1 b1) as [T1 T2]. split; auto.
      eapply evolves_weaken; [|exact T1]. apply safe_built0. }
    assert (p' = p) by (eapply answers_unique; eauto). now subst.
Qed.

(** What is claimed of a generated sequence; [rand] is the part that was drawn. *)
Definition metric_claim (n : nat) (thr : R) (max : Z) (w : world) (s : nat) (costs : list R)
    (rand comp : list (unitary * list nat)) : Prop :=
  contents w s = rand ++ comp /\
  exists p i dist, answers 0 w s p /\ meq (2 ^ n) (u_mat p) (ordered n (rand ++ comp)) /\
    u_identity 0 (2 ^ n) = Ok i /\ u_distance_from 0 p i = Ok dist /\
    dist = (1 - overlap (2 ^ n) (adj (ordered n rand)) (ordered n comp))%R /\
    (costs <> [] -> last costs 0%R = dist) /\
    ((Z.of_nat (List.length costs) < max)%Z -> u_close_to 0 p i (Some thr) = Ok true).

Lemma rav_metric n arr ps len thr ap probs max st st' s costs :
  exact_world (r_world st) -> (forall p, In p ps -> good_source 0 (p_source p)) ->
  thr <> 0%R -> max <> 0%Z ->
  generate_rav_sequence g 0 (2 ^ n) arr ps len thr ap probs max st = (st', Ok (s, costs)) ->
  exact_world (r_world st') /\
  exists rand comp, Z.of_nat (List.length rand) = len /\
    metric_claim n thr max (r_world st') s costs rand comp.
Proof.
  intros HX HP HT HM H. unfold generate_rav_sequence in H. rewrite skip_false in H by auto.
  apply bind_ok in H. destruct H as (t0 & sty & H0 & H). apply assert_ok in H0. destruct H0 as [_ ->].
  apply bind_ok in H. destruct H as (t1 & sty & H0 & H). apply assert_ok in H0. destruct H0 as [HL ->].
  apply Z.leb_le in HL.
  apply bind_ok in H. destruct H as (t2 & sty & H0 & H). apply assert_ok in H0. destruct H0 as [_ ->].
  apply bind_ok in H. destruct H as (s0 & st1 & H1 & H).
  apply call_sequence_ok in H1. destruct H1 as [H1 _].
  destruct (new_sequence_view 0 (r_world st) (2 ^ n) (exact_W _ HX)) as (w1 & E & S1).
  rewrite E in H1. injection H1 as -> <-.
  assert (HX1 : exact_world (r_world st1)).
  { pose proof (step_exact (NewSequence (2 ^ n) false []) _ HX I) as X. now rewrite E in X. }
  apply bind_ok in H. destruct H as ([] & st2 & H2 & H).
  destruct (append_random_ok g 0 G _ ps probs _ _ _ _ _ _ H2 S1) as (rand & pv & S2 & L & _). cbn [app] in S2.
  assert (HX2 : exact_world (r_world st2)).
  { pose proof (append_random_traced g 0 G (built 0) (2 ^ n) ps probs (List.length (w_seqs (r_world st)))
      (good_safe 0 _ ps made_built0 HP) (Z.to_nat len) st1) as T.
    rewrite H2 in T. exact (evolves_exact _ _ _ HX1 T). }
  pose proof (fun HR => inverse_metric n _ _ st2 st' s costs rand pv thr max HR HX2 S2 H) as IM.
  destruct IM as (HX' & comp & p & i & dist & C & M).
  { intros target st3 st4 s4 costs4 HX3 S3 H3. apply with_compiler_ok in H3.
    destruct H3 as (c & c' & HMK & H3). apply mk_compiler_ok in HMK. destruct HMK as (_ & Ed & _ & Ep & _).
    apply compile_inv in H3.
    eapply (with_metric (make_random_change g 0) (one_change 0 c) c 1); eauto.
    - exact (change_single g 0 G c).
    - intros s5. apply single_traced; auto. apply (good_safe 0); auto. now rewrite Ep.
    - intros. now apply spares_single. }
  split; auto. exists rand, comp. split; [lia|]. split; auto. exists p, i, dist. exact M.
Qed.

Lemma layered_metric n counts len thr ap max st st' s costs :
  exact_world (r_world st) -> (forall pc, In pc counts -> good_source 0 (p_source (fst pc))) ->
  thr <> 0%R -> max <> 0%Z ->
  generate_layered_rav_sequence g 0 (2 ^ n) counts len thr ap max st = (st', Ok (s, costs)) ->
  exact_world (r_world st') /\
  exists rand comp, Z.of_nat (List.length rand) = len /\ Forall (layer_of 0 (2 ^ n) counts) rand /\
    metric_claim n thr max (r_world st') s costs (List.concat rand) comp.
Proof.
  intros HX HP HT HM H. unfold generate_layered_rav_sequence in H. rewrite skip_false in H by auto.
  apply bind_ok in H. destruct H as (t0 & sty & H0 & H). apply assert_ok in H0. destruct H0 as [_ ->].
  apply bind_ok in H. destruct H as (t1 & sty & H0 & H). apply assert_ok in H0. destruct H0 as [HL ->].
  apply Z.leb_le in HL.
  apply bind_ok in H. destruct H as (t2 & sty & H0 & H). apply assert_ok in H0. destruct H0 as [_ ->].
  apply bind_ok in H. destruct H as (s0 & st1 & H1 & H).
  apply call_sequence_ok in H1. destruct H1 as [H1 _].
  destruct (new_sequence_view 0 (r_world st) (2 ^ n) (exact_W _ HX)) as (w1 & E & S1).
  rewrite E in H1. injection H1 as -> <-.
  assert (HX1 : exact_world (r_world st1)).
  { pose proof (step_exact (NewSequence (2 ^ n) false []) _ HX I) as X. now rewrite E in X. }
  apply bind_ok in H. destruct H as ([] & st2 & H2 & H).
  destruct (append_random_layers_ok g 0 G _ counts _ _ _ _ _ _ H2 S1) as (rand & pv & S2 & L & A). cbn [app] in S2.
  assert (HX2 : exact_world (r_world st2)).
  { pose proof (append_random_layers_traced g 0 G (built 0) (2 ^ n) counts (List.length (w_seqs (r_world st)))
      (good_safe_counts 0 _ counts made_built0 HP) (Z.to_nat len) st1) as T.
    rewrite H2 in T. exact (evolves_exact _ _ _ HX1 T). }
  pose proof (fun HR => inverse_metric n _ _ st2 st' s costs (List.concat rand) pv thr max HR HX2 S2 H) as IM.
  destruct IM as (HX' & comp & p & i & dist & C & M).
  { intros target st3 st4 s4 costs4 HX3 S3 H3. apply with_compiler_ok in H3.
    destruct H3 as (c & c' & HMK & H3). apply mk_compiler_ok in HMK. destruct HMK as (_ & Ed & _).
    eapply (with_metric (make_random_change_layered g 0 counts) (layer_change 0 (c_dim c) counts) c (layer_size counts)); eauto.
    - exact (change_layered g 0 G c counts).
    - intros s5. apply layered_traced; auto. apply (good_safe_counts 0); auto.
    - intros. now apply spares_layers. }
  split; auto. exists rand, comp. split; [lia|]. split; auto. split; auto. exists p, i, dist. exact M.
Qed.
End Metric.

(** ** No exceptions *)
Section Total.
Variables (g : rng) (eps : R) (b : bool) (n : nat).
Hypothesis G : rng_ok g.
Hypothesis eps0 : (0 <= eps)%R.
Hypothesis eps1 : (eps <= 1)%R.
Hypothesis HB : forall u, made eps u -> safe_gate eps b u.
Hypothesis Hb2 : b = true -> lim eps n 2.
Notation winv := (winv eps b).
Notation lim := (limb eps b).
Notation uc := (unit_cost b).
Notation sees := (sees eps).

Lemma random_total ps probs s :
  (forall p, In p ps -> drawn_ok g eps n p) -> choosable ps probs ->
  Forall (safe_primitive eps (safe_gate eps b)) ps ->
  forall len st K cs pv, winv K (r_world st) -> sees (r_world st) s (2 ^ n) cs pv -> lim n (uc * (K + len)) ->
  exists st', append_random g eps (2 ^ n) ps probs s len st = (st', Ok tt).
Proof.
  intros HP HC HS. induction len as [|len IH]; intros st K cs pv HW S L; cbn [append_random].
  { eexists. reflexivity. }
  destruct (create_total g eps G eps0 eps1 n ps probs st HP HC (lim_two eps eps0 eps1 b n Hb2 (K + Datatypes.S len) ltac:(lia) L)) as (st1 & l & gt & E1 & HG & P).
  rewrite (bind_eq _ _ _ _ _ E1).
  assert (HW1 : winv K (r_world st1)).
  { rewrite <- (Nat.add_0_r K). apply (evolves_winv eps eps0 eps1 b K 0 (r_world st)); auto.
    pose proof (create_traced g eps G _ 0 (2 ^ n) ps probs HS st) as T. now rewrite E1 in T. }
  destruct (create_ok g eps G _ _ _ _ _ _ E1) as (gt' & O & HG' & SP).
  destruct (proj1 (proj2 (SP s)) _ _ _ S) as [S1 _].
  assert (L1 : lim n (uc * Datatypes.S K)) by (eapply limb_mono; [exact eps0|exact eps1| |exact L]; nia).
  destruct (append_last_total eps eps0 eps1 b n K _ s cs pv l gt true HW1 S1 HG P L1) as (w2 & E2).
  rewrite (bind_eq _ _ _ _ _ (call_eq eps _ _ _ _ E2)).
  destruct (append_last_view eps _ _ _ _ _ _ _ _ _ _ S1 HG E2) as (S2 & _).
  assert (HW2 := step_winv eps eps0 eps1 b (AppendLast s l true) K _ I HW1). rewrite E2 in HW2. cbn [fst cost1] in HW2.
  eapply IH; [exact HW2|exact S2|]. eapply limb_mono; [exact eps0|exact eps1| |exact L]. nia.
Qed.

Lemma entries_total s ls : forall gs st K cs pv,
  winv K (r_world st) -> sees (r_world st) s (2 ^ n) cs pv ->
  Forall2 (has_gate (r_world st)) ls gs -> Forall (fun gt => placement n (snd gt)) gs ->
  lim n (uc * (K + List.length ls)) ->
  exists st', append_entries eps s ls st = (st', Ok tt).
Proof.
  induction ls as [|l ls IH]; intros gs st K cs pv HW S F P L; cbn [append_entries].
  { eexists. reflexivity. }
  inversion F as [|? gt ? gs' F1 F2]; subst. inversion P as [|? ? P1 P2]; subst.
  assert (L1 : lim n (uc * Datatypes.S K)) by (eapply limb_mono; [exact eps0|exact eps1| |exact L]; simpl; nia).
  destruct (append_last_total eps eps0 eps1 b n K _ s cs pv l gt true HW S F1 P1 L1) as (w2 & E2).
  rewrite (bind_eq _ _ _ _ _ (call_eq eps _ _ _ _ E2)).
  destruct (append_last_view eps _ _ _ _ _ _ _ _ _ _ S F1 E2) as (S2 & _ & X).
  assert (HW2 := step_winv eps eps0 eps1 b (AppendLast s l true) K _ I HW). rewrite E2 in HW2. cbn [fst cost1] in HW2.
  eapply IH; [exact HW2|exact S2|exact (has_gates_ext _ _ _ _ X F2)|exact P2|].
  eapply limb_mono; [exact eps0|exact eps1| |exact L]. simpl. nia.
Qed.

Lemma layers_total counts s :
  good_table eps n counts -> Forall (fun pc => safe_primitive eps (safe_gate eps b) (fst pc)) counts ->
  forall len st K cs pv, winv K (r_world st) -> sees (r_world st) s (2 ^ n) cs pv ->
  lim n (uc * (K + len * table_size counts)) ->
  exists st', append_random_layers g eps (2 ^ n) counts s len st = (st', Ok tt).
Proof.
  intros HC HS. induction len as [|len IH]; intros st K cs pv HW S L; cbn [append_random_layers].
  { eexists. reflexivity. }
  destruct (layer_total g eps G eps0 eps1 n counts st HC (fun X => lim_two eps eps0 eps1 b n Hb2 (K + Datatypes.S len * table_size counts) ltac:(change (layer_size counts) with (table_size counts) in X; nia) L) (winv_any _ _ _ _ HW)) as (st1 & ls & gs & E1 & F & P).
  rewrite (bind_eq _ _ _ _ _ E1).
  assert (HW1 : winv K (r_world st1)).
  { rewrite <- (Nat.add_0_r K). apply (evolves_winv eps eps0 eps1 b K 0 (r_world st)); auto.
    pose proof (layer_traced g eps G _ (2 ^ n) counts HS st) as T. now rewrite E1 in T. }
  destruct (create_layer_ok g eps G _ _ _ _ _ E1 (sees_W _ _ _ _ _ _ S)) as (parts & gs' & _ & _ & _ & SP).
  destruct (proj1 (proj2 (SP s)) _ _ _ S) as [S1 _].
  assert (LL := layer_length_ok g eps G _ _ _ _ _ E1).
  change (layer_size counts) with (table_size counts) in LL.
  destruct (entries_total s ls gs st1 K cs pv HW1 S1 F P) as (st2 & E2).
  { eapply limb_mono; [exact eps0|exact eps1| |exact L]. rewrite LL. simpl. nia. }
  rewrite (bind_eq _ _ _ _ _ E2).
  destruct (append_entries_ok eps s ls gs st1 st2 _ cs pv E2 S1 F) as (pv2 & S2 & _).
  eapply (IH st2 (K + table_size counts)%nat); [|exact S2|].
  - apply (evolves_winv eps eps0 eps1 b K (table_size counts) (r_world st1)); auto.
    pose proof (append_entries_traced eps (safe_gate eps b) s ls st1) as T. rewrite E2, LL in T. exact T.
  - eapply limb_mono; [exact eps0|exact eps1| |exact L]. simpl. nia.
Qed.

Lemma inverse_prefix K s run st cs pv :
  winv K (r_world st) -> sees (r_world st) s (2 ^ n) cs pv ->
  lim n (uc * (2 * Datatypes.S K)) ->
  exists target st1, winv K (r_world st1) /\ sees (r_world st1) s (2 ^ n) cs pv /\
    u_dim target = (2 ^ n)%nat /\ (exists i, u_inverse eps target = Ok i) /\
    compile_inverse eps s run st =
      (r <-- run target ;; t <-- call_sequence eps (Combine [s; fst r]) ;; se_ret (t, snd r)) st1.
Proof.
  intros HW S L. assert (UC : (1 <= uc)%nat) by (unfold unit_cost; lia).
  destruct (product_total eps eps0 eps1 b n K (r_world st) s cs pv HW S) as (w1 & p & E1 & N1 & _ & _ & S1 & HW1).
  { eapply limb_mono; [exact eps0|exact eps1| |exact L]. nia. }
  destruct (nearb_inverse eps eps0 b n _ _ _ N1) as (target & E2 & N2).
  { eapply limb_mono; [exact eps0|exact eps1| |exact L]. nia. }
  destruct (nearb_inverse eps eps0 b n _ _ _ N2) as (i & E3 & _).
  { eapply limb_mono; [exact eps0|exact eps1| |exact L]. nia. }
  exists target, {| r_world := w1; r_draws := r_draws st |}. split; [exact HW1|]. split; [exact S1|].
  split; [exact (proj1 (proj1 N2))|]. split; [eauto|].
  unfold compile_inverse. rewrite (bind_eq _ _ _ _ _ (call_unitary_eq _ _ _ _ _ E1)).
  unfold se_bind at 1, se_lift at 1. now rewrite E2.
Qed.

Lemma inverse_total K k s run st cs pv :
  winv K (r_world st) -> sees (r_world st) s (2 ^ n) cs pv ->
  lim n (uc * (2 * Datatypes.S (K + k))) ->
  (forall target st1, winv K (r_world st1) -> sees (r_world st1) s (2 ^ n) cs pv ->
     u_dim target = (2 ^ n)%nat -> (exists i, u_inverse eps target = Ok i) ->
     exists st2 s2 costs, run target st1 = (st2, Ok (s2, costs)) /\ winv (K + k) (r_world st2) /\
       has_dim (r_world st2) s (2 ^ n) /\ has_dim (r_world st2) s2 (2 ^ n)) ->
  exists st' t costs, compile_inverse eps s run st = (st', Ok (t, costs)).
Proof.
  intros HW S L HR.
  destruct (inverse_prefix K s run st cs pv HW S) as (target & st1 & HW1 & S1 & DT & IT & E).
  { eapply limb_mono; [exact eps0|exact eps1| |exact L]. nia. }
  rewrite E. destruct (HR target st1 HW1 S1 DT IT) as (st2 & s2 & costs & E4 & HW2 & D1 & D2).
  rewrite (bind_eq _ _ _ _ _ E4). cbn [fst snd].
  destruct D1 as (q1 & Q1 & D1). destruct D2 as (q2 & Q2 & D2).
  destruct (combine_sat eps eps0 eps1 b n (K + k) [s; s2] (r_world st2) q1 s [s2] HW2 eq_refl Q1 D1 L) as (w5 & q & E5 & _).
  { intros s5 [<-|[<-|[]]]; eauto. }
  assert (E6 : exists w6 t, step eps (Combine [s; s2]) (r_world st2) = (w6, Ok (VSequence t))).
  { cbn [step]. rewrite (bind_eq _ _ _ _ _ E5). do 2 eexists. reflexivity. }
  destruct E6 as (w6 & t & E6). unfold call_sequence, se_bind, call. rewrite E6. do 3 eexists. reflexivity.
Qed.

Lemma mk_compiler_fine d arr ps probs ap rate :
  (0 < d)%nat -> (forall p, In p ps -> (src_dim (p_source p) <= d)%nat) ->
  exists c, mk_compiler d arr ps probs ap rate = Ok c.
Proof.
  intros H1 H2. unfold mk_compiler. replace (Nat.ltb 0 d) with true by (symmetry; now apply Nat.ltb_lt).
  cbn [assert bind].
  replace (forallb (fun p => Nat.leb (src_dim (p_source p)) d) ps) with true.
  - cbn [assert bind]. eauto.
  - symmetry. apply forallb_forall. intros p Hp. apply Nat.leb_le. auto.
Qed.

Lemma rav_prefix arr ps len thr ap probs max st K c0 :
  Forall (safe_primitive eps (safe_gate eps b)) ps -> winv K (r_world st) -> (0 <= len)%Z -> (0 <= thr <= 1)%R ->
  (forall p, In p ps -> (src_dim (p_source p) <= 2 ^ n)%nat) ->
  c_dim c0 = (2 ^ n)%nat -> c_prims c0 = ps -> c_probs c0 = probs -> c_append c0 = ap ->
  good_compiler eps n c0 ->
  lim n (uc * (K + Z.to_nat len)) ->
  exists s0 st2 rand pv, sees (r_world st2) s0 (2 ^ n) rand pv /\ winv (K + Z.to_nat len) (r_world st2) /\
    generate_rav_sequence g eps (2 ^ n) arr ps len thr ap probs max st =
      (if skip_inversion thr max then se_ret (s0, [])
       else compile_inverse eps s0 (fun target =>
         with_compiler (mk_compiler (2 ^ n) arr ps probs ap (1 / 10)) (compile g eps target (Some thr) max))) st2.
Proof.
  intros HS HW HL [HT0 HT1] HD Ed Ep Eq Ea GC L.
  assert (Hn : (0 < 2 ^ n)%nat) by (apply Nat.neq_0_lt_0, Nat.pow_nonzero; lia).
  unfold generate_rav_sequence. unfold se_assert.
  replace (forallb (fun p => Nat.leb (src_dim (p_source p)) (2 ^ n)) ps) with true.
  2:{ symmetry. apply forallb_forall. intros p Hp. apply Nat.leb_le. auto. }
  replace (Z.leb 0 len) with true by (symmetry; now apply Z.leb_le).
  assert (R1 : (Rleb 0 thr && Rleb thr 1)%bool = true).
  { apply andb_true_iff. unfold Rleb. split; destruct (Rle_dec _ _); auto; lra. }
  rewrite R1. cbn [assert].
  unfold se_bind at 1, se_lift at 1. unfold se_bind at 1, se_lift at 1. unfold se_bind at 1, se_lift at 1.
  destruct (new_sequence_view eps (r_world st) (2 ^ n) (winv_any _ _ _ _ HW)) as (w1 & E & S1).
  assert (HW1 := step_winv eps eps0 eps1 b (NewSequence (2 ^ n) false []) K (r_world st) I HW).
  rewrite E in HW1. cbn [fst cost1] in HW1. rewrite Nat.max_0_r in HW1.
  set (s0 := List.length (w_seqs (r_world st))) in *.
  assert (EC : call_sequence eps (NewSequence (2 ^ n) false []) st = ({| r_world := w1; r_draws := r_draws st |}, Ok s0)).
  { unfold call_sequence, se_bind, call. rewrite E. reflexivity. }
  rewrite (bind_eq _ _ _ _ _ EC).
  destruct (random_total ps probs s0) with (len := Z.to_nat len) (st := {| r_world := w1; r_draws := r_draws st |})
    (K := K) (cs := @nil (unitary * list nat)) (pv := @None (list (unitary * list nat))) as (st2 & E2); auto.
  { intros p Hp. apply good_drawn; auto. rewrite <- Ep in Hp. now apply GC. }
  { rewrite <- Ep, <- Eq. eapply good_choosable; eauto. }
  rewrite (bind_eq _ _ _ _ _ E2).
  destruct (append_random_ok g eps G _ ps probs _ _ _ _ _ _ E2 S1) as (rand & pv & S2 & _). cbn [app] in S2.
  assert (HW2 : winv (K + Z.to_nat len) (r_world st2)).
  { apply (evolves_winv eps eps0 eps1 b K (Z.to_nat len) w1); auto.
    pose proof (append_random_traced g eps G (safe_gate eps b) (2 ^ n) ps probs s0 HS (Z.to_nat len)
      {| r_world := w1; r_draws := r_draws st |}) as T.
    now rewrite E2 in T. }
  exists s0, st2, rand, pv. auto.
Qed.

Lemma rav_total_safe arr ps len thr ap probs max st K c0 :
  Forall (safe_primitive eps (safe_gate eps b)) ps -> winv K (r_world st) -> (0 <= len)%Z -> (0 <= thr <= 1)%R ->
  (forall p, In p ps -> (src_dim (p_source p) <= 2 ^ n)%nat) ->
  c_dim c0 = (2 ^ n)%nat -> c_prims c0 = ps -> c_probs c0 = probs -> c_append c0 = ap ->
  good_compiler eps n c0 ->
  arr = false \/ List.length ps = 1%nat \/ thr = 0%R \/ max = 0%Z ->
  lim n (uc * (2 * Datatypes.S (K + Z.to_nat len + Z.to_nat max))) ->
  exists st' s costs, generate_rav_sequence g eps (2 ^ n) arr ps len thr ap probs max st = (st', Ok (s, costs)).
Proof.
  intros HS HW HL HT HD Ed Ep Eq Ea GC HA L.
  assert (Hn : (0 < 2 ^ n)%nat) by (apply Nat.neq_0_lt_0, Nat.pow_nonzero; lia).
  destruct (rav_prefix arr ps len thr ap probs max st K c0) as (s0 & st2 & rand & pv & S2 & HW2 & E); auto.
  { eapply limb_mono; [exact eps0|exact eps1| |exact L]. nia. }
  rewrite E.
  destruct (skip_inversion thr max) eqn:SK; [do 3 eexists; reflexivity|].
  assert (HA' : arr = false \/ List.length ps = 1%nat).
  { unfold skip_inversion in SK. apply orb_false_iff in SK. destruct SK as [K1 K2]. apply Z.eqb_neq in K2.
    destruct (Req_EM_T thr 0); [discriminate|tauto]. }
  destruct (mk_compiler_fine (2 ^ n) arr ps probs ap (1 / 10) Hn HD) as (c & EK).
  destruct (mk_compiler_ok _ _ _ _ _ _ _ EK) as (_ & Cd & Ca & Cp & Cq & Cap).
  assert (GC' : good_compiler eps n c).
  { unfold good_compiler in *. rewrite Cd, Cp, Cq, Cap. rewrite Ep, Eq, Ea in GC. tauto. }
  eapply (inverse_total (K + Z.to_nat len) (Z.to_nat max)); [exact HW2|exact S2|exact L|].
  intros target st3 HW3 S3 DT IT.
  destruct (single_never_fails_safe g eps b n (K + Z.to_nat len) c target (Some thr) max st3 G (conj eps0 eps1) Hb2 HW3 IT DT
    ltac:(rewrite Cp; exact HS) GC')
    as (st4 & c' & s4 & costs & E4).
  { now rewrite Ca, Cp. }
  { eapply limb_mono; [exact eps0|exact eps1| |exact L]. unfold unit_cost. nia. }
  exists st4, s4, costs. split; [|split; [|split]].
  - unfold with_compiler. rewrite EK. unfold se_bind, se_lift. now rewrite E4.
  - apply compile_inv in E4.
    destruct (with_traced g eps (safe_gate eps b) c 1 (make_random_change g eps) target (Some thr) max
      (fun s => single_traced g eps G _ c s ltac:(rewrite Cp; exact HS)) st3 (c_beta c)) as [T _].
    rewrite set_beta_same, E4 in T. cbn [fst] in T. rewrite Nat.mul_1_l in T.
    exact (evolves_winv eps eps0 eps1 b _ _ _ _ HW3 T).
  - apply compile_inv in E4.
    destruct (compiled_ok g eps G _ c target (Some thr) max st3 st4 c' s4 costs s0 (2 ^ n) rand pv (one_change eps c) (fun _ => True)
      (change_single g eps G c) (fun st => spares_single g eps G s0 target (Some thr) max st) I (fun _ _ _ _ => I) S3 E4) as [(pv4 & S4) _].
    eapply sees_has_dim; eauto.
  - apply compile_inv in E4.
    destruct (with_ok g eps G _ _ c target (Some thr) max (fun _ => True) st3 c st4 c' s4 costs
      (change_single g eps G c) (eq_sym (set_beta_same c)) I (fun _ _ _ _ => I) (winv_any _ _ _ _ HW3) E4) as (_ & (cs4 & pv4 & S4 & _) & _).
    rewrite <- Cd. eapply sees_has_dim; eauto.
Qed.

Lemma rav_total arr ps len thr ap probs max st K c0 :
  winv K (r_world st) -> (0 <= len)%Z -> (0 <= thr <= 1)%R ->
  (forall p, In p ps -> (src_dim (p_source p) <= 2 ^ n)%nat) ->
  c_dim c0 = (2 ^ n)%nat -> c_prims c0 = ps -> c_probs c0 = probs -> c_append c0 = ap ->
  good_compiler eps n c0 ->
  arr = false \/ List.length ps = 1%nat \/ thr = 0%R \/ max = 0%Z ->
  lim n (uc * (2 * Datatypes.S (K + Z.to_nat len + Z.to_nat max))) ->
  exists st' s costs, generate_rav_sequence g eps (2 ^ n) arr ps len thr ap probs max st = (st', Ok (s, costs)).
Proof.
  intros HW HL HT HD Ed Ep Eq Ea GC HA L. apply (rav_total_safe arr ps len thr ap probs max st K c0); auto.
  apply (good_safe eps); auto. intros p Hp. rewrite <- Ep in Hp. apply GC in Hp. apply Hp.
Qed.

Lemma layered_total_safe counts len thr ap max st K :
  Forall (fun pc => safe_primitive eps (safe_gate eps b) (fst pc)) counts -> winv K (r_world st) -> (0 <= len)%Z -> (0 <= thr <= 1)%R -> (0 <= ap <= 1)%R ->
  (forall pc, In pc counts -> (src_dim (p_source (fst pc)) <= 2 ^ n)%nat) ->
  good_table eps n counts ->
  lim n (uc * (2 * Datatypes.S (K + Z.to_nat len * table_size counts + table_size counts * Z.to_nat max))) ->
  exists st' s costs, generate_layered_rav_sequence g eps (2 ^ n) counts len thr ap max st = (st', Ok (s, costs)).
Proof.
  intros HS HW HL [HT0 HT1] HAP HD GC L.
  assert (Hn : (0 < 2 ^ n)%nat) by (apply Nat.neq_0_lt_0, Nat.pow_nonzero; lia).
  unfold generate_layered_rav_sequence. unfold se_assert.
  replace (forallb (fun pc => Nat.leb (src_dim (p_source (fst pc))) (2 ^ n)) counts) with true.
  2:{ symmetry. apply forallb_forall. intros p Hp. apply Nat.leb_le. auto. }
  replace (Z.leb 0 len) with true by (symmetry; now apply Z.leb_le).
  assert (R1 : (Rleb 0 thr && Rleb thr 1)%bool = true).
  { apply andb_true_iff. unfold Rleb. split; destruct (Rle_dec _ _); auto; lra. }
  rewrite R1. cbn [assert].
  unfold se_bind at 1, se_lift at 1. unfold se_bind at 1, se_lift at 1. unfold se_bind at 1, se_lift at 1.
  destruct (new_sequence_view eps (r_world st) (2 ^ n) (winv_any _ _ _ _ HW)) as (w1 & E & S1).
  assert (HW1 := step_winv eps eps0 eps1 b (NewSequence (2 ^ n) false []) K (r_world st) I HW).
  rewrite E in HW1. cbn [fst cost1] in HW1. rewrite Nat.max_0_r in HW1.
  set (s0 := List.length (w_seqs (r_world st))) in *.
  assert (EC : call_sequence eps (NewSequence (2 ^ n) false []) st = ({| r_world := w1; r_draws := r_draws st |}, Ok s0)).
  { unfold call_sequence, se_bind, call. rewrite E. reflexivity. }
  rewrite (bind_eq _ _ _ _ _ EC).
  destruct (layers_total counts s0 GC HS (Z.to_nat len) {| r_world := w1; r_draws := r_draws st |}
    K [] None HW1 S1) as (st2 & E2).
  { eapply limb_mono; [exact eps0|exact eps1| |exact L]. nia. }
  rewrite (bind_eq _ _ _ _ _ E2).
  destruct (append_random_layers_ok g eps G _ counts _ _ _ _ _ _ E2 S1) as (rand & pv & S2 & _). cbn [app] in S2.
  assert (HW2 : winv (K + Z.to_nat len * table_size counts) (r_world st2)).
  { apply (evolves_winv eps eps0 eps1 b K (Z.to_nat len * table_size counts) w1); auto.
    pose proof (append_random_layers_traced g eps G (safe_gate eps b) (2 ^ n) counts s0 HS (Z.to_nat len)
      {| r_world := w1; r_draws := r_draws st |}) as T.
    rewrite E2 in T. exact T. }
  destruct (skip_inversion thr max) eqn:SK; [do 3 eexists; reflexivity|].
  destruct (mk_compiler_fine (2 ^ n) false (map fst counts) None ap (1 / 10) Hn) as (c & EK).
  { intros p Hp. apply in_map_iff in Hp. destruct Hp as (pc & <- & Hp). auto. }
  destruct (mk_compiler_ok _ _ _ _ _ _ _ EK) as (_ & Cd & Ca & Cp & Cq & Cap).
  eapply (inverse_total (K + Z.to_nat len * table_size counts) (table_size counts * Z.to_nat max));
    [exact HW2|exact S2|exact L|].
  intros target st3 HW3 S3 DT IT.
  destruct (layered_never_fails_safe g eps b n (K + Z.to_nat len * table_size counts) c target (Some thr) max st3 G
    (conj eps0 eps1) Hb2 HW3 IT DT counts) as (st4 & c' & s4 & costs & E4); auto.
  { now rewrite Cap. }
  { eapply limb_mono; [exact eps0|exact eps1| |exact L]. unfold unit_cost. nia. }
  exists st4, s4, costs. split; [|split; [|split]].
  - unfold with_compiler. rewrite EK. unfold se_bind, se_lift. now rewrite E4.
  - destruct (with_traced g eps (safe_gate eps b) c (table_size counts) (make_random_change_layered g eps counts) target (Some thr) max
      (fun s => layered_traced g eps G _ c counts s HS) st3 (c_beta c)) as [T _].
    unfold compile_layered in E4. rewrite set_beta_same, E4 in T. cbn [fst] in T.
    exact (evolves_winv eps eps0 eps1 b _ _ _ _ HW3 T).
  - destruct (compiled_ok g eps G _ c target (Some thr) max st3 st4 c' s4 costs s0 (2 ^ n) (List.concat rand) pv
      (layer_change eps (c_dim c) counts) (fun _ => True)
      (change_layered g eps G c counts) (fun st => spares_layers g eps G s0 counts target (Some thr) max st) I (fun _ _ _ _ => I) S3 E4) as [(pv4 & S4) _].
    eapply sees_has_dim; eauto.
  - destruct (with_ok g eps G _ _ c target (Some thr) max (fun _ => True) st3 c st4 c' s4 costs
      (change_layered g eps G c counts) (eq_sym (set_beta_same c)) I (fun _ _ _ _ => I) (winv_any _ _ _ _ HW3) E4) as (_ & (cs4 & pv4 & S4 & _) & _).
    rewrite <- Cd. eapply sees_has_dim; eauto.
Qed.

Lemma layered_total counts len thr ap max st K :
  winv K (r_world st) -> (0 <= len)%Z -> (0 <= thr <= 1)%R -> (0 <= ap <= 1)%R ->
  (forall pc, In pc counts -> (src_dim (p_source (fst pc)) <= 2 ^ n)%nat) ->
  good_table eps n counts ->
  lim n (uc * (2 * Datatypes.S (K + Z.to_nat len * table_size counts + table_size counts * Z.to_nat max))) ->
  exists st' s costs, generate_layered_rav_sequence g eps (2 ^ n) counts len thr ap max st = (st', Ok (s, costs)).
Proof.
  intros HW HL HT HAP HD GC L. apply (layered_total_safe counts len thr ap max st K); auto.
  apply (good_safe_counts eps); auto. intros pc Hp. unfold good_table in GC. rewrite Forall_forall in GC.
  apply GC in Hp. apply Hp.
Qed.

(** An array of two or more primitives passes the random phase and then always
    fails: [assert unitary_primitives] raises. *)
Lemma array_total ps len thr ap probs max st K c0 :
  winv K (r_world st) -> (0 <= len)%Z -> (0 <= thr <= 1)%R ->
  (forall p, In p ps -> (src_dim (p_source p) <= 2 ^ n)%nat) ->
  c_dim c0 = (2 ^ n)%nat -> c_prims c0 = ps -> c_probs c0 = probs -> c_append c0 = ap ->
  good_compiler eps n c0 ->
  (2 <= List.length ps)%nat -> thr <> 0%R -> max <> 0%Z ->
  lim n (uc * (2 * Datatypes.S (K + Z.to_nat len))) ->
  exists st', generate_rav_sequence g eps (2 ^ n) true ps len thr ap probs max st = (st', Raise ValueError).
Proof.
  intros HW HL HT HD Ed Ep Eq Ea GC H2 HT0 HM L.
  assert (Hn : (0 < 2 ^ n)%nat) by (apply Nat.neq_0_lt_0, Nat.pow_nonzero; lia).
  assert (HS : Forall (safe_primitive eps (safe_gate eps b)) ps).
  { apply (good_safe eps); auto. intros p Hp. rewrite <- Ep in Hp. apply GC in Hp. apply Hp. }
  destruct (rav_prefix true ps len thr ap probs max st K c0) as (s0 & st2 & rand & pv & S2 & HW2 & E); auto.
  { eapply limb_mono; [exact eps0|exact eps1| |exact L]. nia. }
  rewrite E, skip_false by auto.
  destruct (inverse_prefix (K + Z.to_nat len) s0 (fun target =>
    with_compiler (mk_compiler (2 ^ n) true ps probs ap (1 / 10)) (compile g eps target (Some thr) max)) st2 rand pv HW2 S2 L)
    as (target & st3 & _ & _ & _ & _ & E3).
  rewrite E3. destruct (mk_compiler_fine (2 ^ n) true ps probs ap (1 / 10) Hn HD) as (c & EK).
  destruct (mk_compiler_ok _ _ _ _ _ _ _ EK) as (_ & _ & Ca & Cp & _).
  exists st3. unfold se_bind at 1. unfold with_compiler. unfold se_bind at 1, se_lift at 1. rewrite EK.
  unfold compile. unfold se_bind at 1, c_self. cbn [snd]. unfold se_bind at 1, se_lift, assert_primitives.
  rewrite Ca, Cp. replace (Nat.ltb 1 (List.length ps)) with true by (symmetry; apply Nat.ltb_lt; lia). reflexivity.
Qed.
End Total.

(** ** Other sequences *)
Section Isolation.
Variables (g : rng) (eps : R) (t : nat).
Hypothesis G : rng_ok g.
Notation sees := (sees eps).

Definition hspares {A} (m : RM A) : Prop := forall st d cs pv, sees (r_world st) t d cs pv ->
  spares eps t (r_world st) (r_world (fst (m st))).

Lemma hspares_bind {A B} (m : RM A) (f : A -> RM B) : hspares m -> (forall a, hspares (f a)) -> hspares (se_bind m f).
Proof.
  intros H1 H2 st d cs pv S. unfold se_bind. specialize (H1 st d cs pv S). destruct (m st) as [st1 [a|x]]; [|exact H1].
  cbn [fst] in H1. eapply spares_trans; [exact H1|]. destruct (proj1 (proj2 H1) _ _ _ S) as [S1 _]. eapply H2; eauto.
Qed.
Lemma hspares_r {A} (m : RM A) : rspares eps t m -> hspares m.
Proof. intros H st d cs pv _. apply H. Qed.
Lemma hspares_lift {A} (r : res A) : hspares (se_lift r).
Proof. intros st d cs pv _. apply spares_refl. Qed.
Lemma rspares_unitary o : mutates o t = false -> rspares eps t (call_unitary eps o).
Proof.
  intros M. apply rspares_bind; [now apply rspares_call|].
  intros []; apply rspares_draws; first [apply draws_ret|apply draws_raise].
Qed.
Lemma rspares_sequence o : mutates o t = false -> rspares eps t (call_sequence eps o).
Proof.
  intros M. apply rspares_bind; [now apply rspares_call|].
  intros []; apply rspares_draws; first [apply draws_ret|apply draws_raise].
Qed.
Lemma rspares_random d ps probs s k : s <> t -> rspares eps t (append_random g eps d ps probs s k).
Proof.
  intros N. assert (E : Nat.eqb s t = false) by now apply Nat.eqb_neq.
  induction k as [|k IH]; cbn [append_random]; [intros st; apply spares_refl|].
  apply rspares_bind; [now apply rspares_create|]. intros l. apply rspares_bind; [now apply rspares_call|]. auto.
Qed.
Lemma rspares_appends s ls : s <> t -> rspares eps t (append_entries eps s ls).
Proof.
  intros N. assert (E : Nat.eqb s t = false) by now apply Nat.eqb_neq.
  induction ls as [|l ls IH]; cbn [append_entries]; [intros st; apply spares_refl|].
  apply rspares_bind; [now apply rspares_call|]. auto.
Qed.
Lemma hspares_layers d counts s k : s <> t -> hspares (append_random_layers g eps d counts s k).
Proof.
  intros N. induction k as [|k IH]; cbn [append_random_layers]; [intros st d0 cs pv _; apply spares_refl|].
  apply hspares_bind; [apply hspares_r; now apply rspares_layer|]. intros ls.
  apply hspares_bind; [apply hspares_r; now apply rspares_appends|]. auto.
Qed.
Lemma hspares_inverse s run : (forall target, hspares (run target)) -> hspares (compile_inverse eps s run).
Proof.
  intros H. unfold compile_inverse.
  apply hspares_bind; [apply hspares_r; now apply rspares_unitary|]. intros p.
  apply hspares_bind; [apply hspares_lift|]. intros target.
  apply hspares_bind; [apply H|]. intros r.
  apply hspares_bind; [apply hspares_r; now apply rspares_sequence|]. intros u st d cs pv _. apply spares_refl.
Qed.
Lemma hspares_with mk (m : CM (nat * list R)) :
  (forall st, WG eps anyg (r_world (fst st)) -> (t < List.length (w_seqs (r_world (fst st))))%nat ->
     spares eps t (r_world (fst st)) (r_world (fst (fst (m st))))) -> hspares (with_compiler mk m).
Proof.
  intros H. apply hspares_bind; [apply hspares_lift|]. intros c st d cs pv S. specialize (H (st, c)). cbn [fst] in H.
  destruct (m (st, c)) as [[st1 c1] r]. apply H; [exact (sees_W _ _ _ _ _ _ S)|].
  destruct S as (_ & q & Hq & _). apply nth_error_Some. congruence.
Qed.

Lemma hspares_new d (f : nat -> RM (nat * list R)) : (forall s, s <> t -> hspares (f s)) ->
  hspares (s <-- call_sequence eps (NewSequence d false []) ;; f s).
Proof.
  intros H st d0 cs pv S.
  destruct (new_sequence_view eps (r_world st) d (sees_W _ _ _ _ _ _ S)) as (w1 & E & _).
  assert (EC : call_sequence eps (NewSequence d false []) st =
    ({| r_world := w1; r_draws := r_draws st |}, Ok (List.length (w_seqs (r_world st))))).
  { unfold call_sequence, se_bind, call. rewrite E. reflexivity. }
  rewrite (bind_eq _ _ _ _ _ EC).
  assert (M : mutates (NewSequence d false []) t = false) by reflexivity.
  assert (SP := spares_step_eq eps t _ _ _ _ M E).
  eapply spares_trans; [exact SP|]. destruct (proj1 (proj2 SP) _ _ _ S) as [S1 _].
  refine (H _ _ {| r_world := w1; r_draws := r_draws st |} _ _ _ S1).
  destruct S as (_ & q & Hq & _). intros X. assert (t < List.length (w_seqs (r_world st)))%nat by (apply nth_error_Some; congruence). lia.
Qed.

Lemma rav_spares d arr ps len thr ap probs max : hspares (generate_rav_sequence g eps d arr ps len thr ap probs max).
Proof.
  unfold generate_rav_sequence, se_assert.
  apply hspares_bind; [apply hspares_lift|]. intros _. apply hspares_bind; [apply hspares_lift|]. intros _.
  apply hspares_bind; [apply hspares_lift|]. intros _. apply hspares_new. intros s N.
  apply hspares_bind; [apply hspares_r; now apply rspares_random|]. intros _.
  destruct (skip_inversion thr max); [intros st d0 cs pv _; apply spares_refl|].
  apply hspares_inverse. intros target. apply hspares_with. intros st HW HL.
  unfold compile. unfold se_bind at 1, c_self. cbn [snd]. unfold se_bind at 1, se_lift.
  destruct (assert_primitives (snd st)); [|apply spares_refl].
  now apply spares_single.
Qed.

Lemma layered_spares d counts len thr ap max : hspares (generate_layered_rav_sequence g eps d counts len thr ap max).
Proof.
  unfold generate_layered_rav_sequence, se_assert.
  apply hspares_bind; [apply hspares_lift|]. intros _. apply hspares_bind; [apply hspares_lift|]. intros _.
  apply hspares_bind; [apply hspares_lift|]. intros _. apply hspares_new. intros s N.
  apply hspares_bind; [now apply hspares_layers|]. intros _.
  destruct (skip_inversion thr max); [intros st d0 cs pv _; apply spares_refl|].
  apply hspares_inverse. intros target. apply hspares_with. intros st HW HL. now apply spares_layers.
Qed.
End Isolation.


(** ** The statements *)
Definition any_compiler (d : nat) (ps : list primitive) (probs : option (list R)) (ap : R) : compiler :=
  {| c_dim := d; c_array := false; c_prims := ps; c_probs := probs; c_max_beta := 0; c_beta := 0; c_rate := 0; c_append := ap |}.

Lemma set_compiler eps n ps probs ap : good_set eps n ps probs -> (0 <= ap <= 1)%R ->
  good_compiler eps n (any_compiler (2 ^ n) ps probs ap).
Proof.
  intros [H1 H2] Ha. split; [reflexivity|]. split; [exact Ha|]. split; [|exact H2]. intros p Hp. now apply H1.
Qed.

Lemma C35_structure_lemma : forall g eps d arr ps len thr ap probs max st st' s costs,
  rng_ok g -> reachable eps (r_world st) ->
  generate_rav_sequence g eps d arr ps len thr ap probs max st = (st', Ok (s, costs)) ->
  exists rand comp, list_sequence (r_world st') s d /\ contents (r_world st') s = rand ++ comp /\
    Z.of_nat (List.length rand) = len /\
    Forall (fun gt => exists p, weighted ps probs p /\ allows eps d p gt) (rand ++ comp) /\
    (Z.of_nat (List.length costs) <= Z.max 0 max)%Z /\
    (exists st0 s0, generate_rav_sequence g eps d arr ps len 0 ap probs max st = (st0, Ok (s0, [])) /\
       contents (r_world st0) s0 = rand) /\
    (thr = 0%R \/ max = 0%Z -> comp = [] /\ costs = []).
Proof. intros. eapply rav_structure; eauto. Qed.

Lemma C35_metric_lemma : forall g n arr ps len thr ap probs max st st' s costs,
  rng_ok g -> exact_world (r_world st) -> (forall p, In p ps -> good_source 0 (p_source p)) ->
  thr <> 0%R -> max <> 0%Z ->
  generate_rav_sequence g 0 (2 ^ n) arr ps len thr ap probs max st = (st', Ok (s, costs)) ->
  exact_world (r_world st') /\
  exists rand comp, Z.of_nat (List.length rand) = len /\ contents (r_world st') s = rand ++ comp /\
  exists p i dist, answers 0 (r_world st') s p /\ meq (2 ^ n) (u_mat p) (ordered n (rand ++ comp)) /\
    u_identity 0 (2 ^ n) = Ok i /\ u_distance_from 0 p i = Ok dist /\
    dist = (1 - overlap (2 ^ n) (adj (ordered n rand)) (ordered n comp))%R /\
    (costs <> [] -> last costs 0%R = dist) /\
    ((Z.of_nat (List.length costs) < max)%Z -> u_close_to 0 p i (Some thr) = Ok true).
Proof. intros. eapply rav_metric; eauto. Qed.

Lemma C35_total_lemma : forall g n arr ps len thr ap probs max st,
  rng_ok g -> exact_world (r_world st) -> good_set 0 n ps probs ->
  (0 <= len)%Z -> (0 <= thr <= 1)%R -> (0 <= ap <= 1)%R ->
  arr = false \/ List.length ps = 1%nat \/ thr = 0%R \/ max = 0%Z ->
  exists st' s costs, generate_rav_sequence g 0 (2 ^ n) arr ps len thr ap probs max st = (st', Ok (s, costs)).
Proof.
  intros g n arr ps len thr ap probs max st G HX HS HL HT Ha HA. destruct (exact_winv_ex _ HX) as [K HW].
  apply (rav_total g 0 true n G ltac:(lra) ltac:(lra) safe_made0 (fun _ => lim0_zero _ _)) with (K := K) (c0 := any_compiler (2 ^ n) ps probs ap); auto.
  - intros p Hp. now apply HS.
  - now apply set_compiler.
  - apply lim_zero.
Qed.

Lemma C35_total_drift_lemma : forall g eps n arr ps len thr ap probs max st K,
  rng_ok g -> drift_world eps K (r_world st) -> good_set eps n ps probs ->
  (0 <= len)%Z -> (0 <= thr <= 1)%R -> (0 <= ap <= 1)%R ->
  arr = false \/ List.length ps = 1%nat \/ thr = 0%R \/ max = 0%Z ->
  small_drift eps n (2 * S (K + Z.to_nat len + Z.to_nat max)) ->
  exists st' s costs, generate_rav_sequence g eps (2 ^ n) arr ps len thr ap probs max st = (st', Ok (s, costs)).
Proof.
  intros g eps n arr ps len thr ap probs max st K G HX HS HL HT Ha HA SD. assert (HE := proj1 SD).
  destruct (drift_small _ _ _ SD) as [L _].
  apply (rav_total g eps false n G (proj1 HE) (proj2 HE) (fun u => safe_made eps u (proj1 HE)) (fun X => False_ind _ (diff_false_true X))) with (K := K) (c0 := any_compiler (2 ^ n) ps probs ap); auto.
  - now apply drift_winv.
  - intros p Hp. now apply HS.
  - now apply set_compiler.
  - left. eapply lim_mono; [apply HE|apply HE| |exact L]. unfold unit_cost, gc. lia.
Qed.

Lemma C36_rav_lemma : forall g eps d arr ps len thr ap probs max st st' s costs,
  rng_ok g -> reachable eps (r_world st) -> thr = 0%R \/ max = 0%Z ->
  generate_rav_sequence g eps d arr ps len thr ap probs max st = (st', Ok (s, costs)) ->
  list_sequence (r_world st') s d /\ Z.of_nat (List.length (contents (r_world st') s)) = len /\ costs = [] /\
  Forall (fun gt => exists p, weighted ps probs p /\ allows eps d p gt) (contents (r_world st') s).
Proof.
  intros g eps d arr ps len thr ap probs max st st' s costs G HR HZ H.
  destruct (rav_structure g eps G _ _ _ _ _ _ _ _ _ _ _ _ HR H) as (rand & comp & HL & E & L & A & _ & _ & HC).
  destruct (HC HZ) as [-> ->]. rewrite app_nil_r in *. rewrite E. auto.
Qed.

Lemma C36_xeb_lemma : forall g eps d counts len st st' s costs,
  rng_ok g -> reachable eps (r_world st) ->
  generate_xeb_sequence g eps d counts len st = (st', Ok (s, costs)) ->
  list_sequence (r_world st') s d /\ costs = [] /\
  exists layers, contents (r_world st') s = List.concat layers /\ Z.of_nat (List.length layers) = len /\
    Forall (layer_of eps d counts) layers.
Proof.
  intros g eps d counts len st st' s costs G HR H.
  destruct (layered_structure g eps G _ _ _ _ _ _ _ _ _ _ HR H) as (rand & comp & HL & E & L & A & _ & _ & _ & _ & HC).
  destruct (HC (or_introl eq_refl)) as [-> ->]. rewrite app_nil_r in E. eauto 10.
Qed.

Lemma C37_structure_lemma : forall g eps d counts len thr ap max st st' s costs,
  rng_ok g -> reachable eps (r_world st) ->
  generate_layered_rav_sequence g eps d counts len thr ap max st = (st', Ok (s, costs)) ->
  exists rand comp, list_sequence (r_world st') s d /\ contents (r_world st') s = List.concat rand ++ comp /\
    Z.of_nat (List.length rand) = len /\ Forall (layer_of eps d counts) rand /\
    Forall (fun gt => exists pc, In pc counts /\ (0 < snd pc)%Z /\ allows eps d (fst pc) gt) comp /\
    (Forall (fun pc => (0 <= snd pc)%Z) counts ->
       exists layers, comp = List.concat layers /\ Forall (layer_of eps d counts) layers) /\
    (Z.of_nat (List.length costs) <= Z.max 0 max)%Z /\
    (exists st0 s0, generate_layered_rav_sequence g eps d counts len 0 ap max st = (st0, Ok (s0, [])) /\
       contents (r_world st0) s0 = List.concat rand) /\
    (thr = 0%R \/ max = 0%Z -> comp = [] /\ costs = []).
Proof. intros. eapply layered_structure; eauto. Qed.

Lemma C37_metric_lemma : forall g n counts len thr ap max st st' s costs,
  rng_ok g -> exact_world (r_world st) -> (forall pc, In pc counts -> good_source 0 (p_source (fst pc))) ->
  thr <> 0%R -> max <> 0%Z ->
  generate_layered_rav_sequence g 0 (2 ^ n) counts len thr ap max st = (st', Ok (s, costs)) ->
  exact_world (r_world st') /\
  exists rand comp, Z.of_nat (List.length rand) = len /\ Forall (layer_of 0 (2 ^ n) counts) rand /\
    contents (r_world st') s = List.concat rand ++ comp /\
  exists p i dist, answers 0 (r_world st') s p /\ meq (2 ^ n) (u_mat p) (ordered n (List.concat rand ++ comp)) /\
    u_identity 0 (2 ^ n) = Ok i /\ u_distance_from 0 p i = Ok dist /\
    dist = (1 - overlap (2 ^ n) (adj (ordered n (List.concat rand))) (ordered n comp))%R /\
    (costs <> [] -> last costs 0%R = dist) /\
    ((Z.of_nat (List.length costs) < max)%Z -> u_close_to 0 p i (Some thr) = Ok true).
Proof. intros. eapply layered_metric; eauto. Qed.

Lemma C37_total_lemma : forall g n counts len thr ap max st,
  rng_ok g -> exact_world (r_world st) -> good_table 0 n counts ->
  (forall pc, In pc counts -> (src_dim (p_source (fst pc)) <= 2 ^ n)%nat) ->
  (0 <= len)%Z -> (0 <= thr <= 1)%R -> (0 <= ap <= 1)%R ->
  exists st' s costs, generate_layered_rav_sequence g 0 (2 ^ n) counts len thr ap max st = (st', Ok (s, costs)).
Proof.
  intros g n counts len thr ap max st G HX HS HD HL HT Ha. destruct (exact_winv_ex _ HX) as [K HW].
  apply (layered_total g 0 true n G ltac:(lra) ltac:(lra) safe_made0 (fun _ => lim0_zero _ _)) with (K := K); auto. apply lim_zero.
Qed.

Lemma C37_total_drift_lemma : forall g eps n counts len thr ap max st K,
  rng_ok g -> drift_world eps K (r_world st) -> good_table eps n counts ->
  (forall pc, In pc counts -> (src_dim (p_source (fst pc)) <= 2 ^ n)%nat) ->
  (0 <= len)%Z -> (0 <= thr <= 1)%R -> (0 <= ap <= 1)%R ->
  small_drift eps n (2 * S (K + Z.to_nat len * table_size counts + table_size counts * Z.to_nat max)) ->
  exists st' s costs, generate_layered_rav_sequence g eps (2 ^ n) counts len thr ap max st = (st', Ok (s, costs)).
Proof.
  intros g eps n counts len thr ap max st K G HX HS HD HL HT Ha SD. assert (HE := proj1 SD).
  destruct (drift_small _ _ _ SD) as [L _].
  apply (layered_total g eps false n G (proj1 HE) (proj2 HE) (fun u => safe_made eps u (proj1 HE)) (fun X => False_ind _ (diff_false_true X))) with (K := K); auto.
  - now apply drift_winv.
  - left. eapply lim_mono; [apply HE|apply HE| |exact L]. unfold unit_cost, gc. lia.
Qed.

Lemma C56_never_lemma : forall g eps d ps len thr ap probs max st st' s costs,
  rng_ok g -> reachable eps (r_world st) -> (2 <= List.length ps)%nat -> thr <> 0%R -> max <> 0%Z ->
  generate_rav_sequence g eps d true ps len thr ap probs max st <> (st', Ok (s, costs)).
Proof.
  intros g eps d ps len thr ap probs max st st' s costs G HR H2 HT HM H. unfold generate_rav_sequence in H.
  rewrite skip_false in H by auto.
  apply bind_ok in H. destruct H as (? & ? & _ & H). apply bind_ok in H. destruct H as (? & ? & _ & H).
  apply bind_ok in H. destruct H as (? & ? & _ & H). apply bind_ok in H. destruct H as (? & ? & _ & H).
  apply bind_ok in H. destruct H as (? & ? & _ & H). unfold compile_inverse in H.
  apply bind_ok in H. destruct H as (? & ? & _ & H). apply bind_ok in H. destruct H as (? & ? & _ & H).
  apply bind_ok in H. destruct H as ([s2 c2] & st4 & H & _).
  apply with_compiler_ok in H. destruct H as (c & c' & HM' & H). apply mk_compiler_ok in HM'.
  destruct HM' as (_ & _ & Ca & Cp & _). unfold compile in H.
  apply bind_ok in H. destruct H as (cc & sty & H0 & H). unfold c_self in H0. injection H0 as <- <-.
  apply bind_ok in H. destruct H as (u & sty & H1 & H). apply lift_ok in H1. destruct H1 as [_ H1].
  unfold assert_primitives in H1. cbn [snd] in H1. rewrite Ca, Cp in H1.
  replace (Nat.ltb 1 (List.length ps)) with true in H1 by (symmetry; apply Nat.ltb_lt; lia). discriminate.
Qed.

Lemma C56_error_lemma : forall g n ps len thr ap probs max st,
  rng_ok g -> exact_world (r_world st) -> good_set 0 n ps probs ->
  (0 <= len)%Z -> (0 <= thr <= 1)%R -> (0 <= ap <= 1)%R ->
  (2 <= List.length ps)%nat -> thr <> 0%R -> max <> 0%Z ->
  exists st', generate_rav_sequence g 0 (2 ^ n) true ps len thr ap probs max st = (st', Raise ValueError).
Proof.
  intros g n ps len thr ap probs max st G HX HS HL HT Ha H2 H3 H4. destruct (exact_winv_ex _ HX) as [K HW].
  apply (array_total g 0 true n G ltac:(lra) ltac:(lra) safe_made0 (fun _ => lim0_zero _ _)) with (K := K) (c0 := any_compiler (2 ^ n) ps probs ap); auto.
  - intros p Hp. now apply HS.
  - now apply set_compiler.
  - apply lim_zero.
Qed.

Lemma C57_rav_lemma : forall g eps d arr ps len thr ap probs max st t dt p,
  rng_ok g -> reachable eps (r_world st) -> list_sequence (r_world st) t dt ->
  let w' := r_world (fst (generate_rav_sequence g eps d arr ps len thr ap probs max st)) in
  list_sequence w' t dt /\ contents w' t = contents (r_world st) t /\
  (answers eps (r_world st) t p -> answers eps w' t p).
Proof.
  intros g eps d arr ps len thr ap probs max st t dt p G HR HL w'. assert (HW := reachable_W _ _ HR).
  apply (spares_others eps t (r_world st) w' HW); [|exact HL].
  destruct (sees_intro eps _ t dt HW HL) as (pv & S). eapply rav_spares; eauto.
Qed.

Lemma C57_layered_lemma : forall g eps d counts len thr ap max st t dt p,
  rng_ok g -> reachable eps (r_world st) -> list_sequence (r_world st) t dt ->
  let w' := r_world (fst (generate_layered_rav_sequence g eps d counts len thr ap max st)) in
  list_sequence w' t dt /\ contents w' t = contents (r_world st) t /\
  (answers eps (r_world st) t p -> answers eps w' t p).
Proof.
  intros g eps d counts len thr ap max st t dt p G HR HL w'. assert (HW := reachable_W _ _ HR).
  apply (spares_others eps t (r_world st) w' HW); [|exact HL].
  destruct (sees_intro eps _ t dt HW HL) as (pv & S). eapply layered_spares; eauto.
Qed.

(** ** Concrete cases *)
Lemma rot_set eps u : built eps u -> u_dim u = 2%nat -> good_set eps 1 [rot_primitive u; rot_primitive u] None.
Proof.
  intros B D. split.
  - assert (X : good_primitive eps 1 (rot_primitive u) /\ (src_dim (p_source (rot_primitive u)) <= 2 ^ 1)%nat).
    { split; [split; [exact (built_made _ _ B)|exists 1%nat; simpl; auto]|]. simpl. lia. }
    intros p [<-|[<-|[]]]; exact X.
  - exists (rot_primitive u). split; [simpl; auto|discriminate].
Qed.

Lemma ex_C35_lemma : exists g u st st' s costs, let ps := [rot_primitive u; rot_primitive u] in
  rng_ok g /\ exact_world (r_world st) /\ reachable 0 (r_world st) /\ good_set 0 1 ps None /\
  generate_rav_sequence g 0 (2 ^ 1) false ps 3 (9 / 10) (1 / 2) None 5 st = (st', Ok (s, costs)) /\
  exists rand comp, List.length rand = 3%nat /\ contents (r_world st') s = rand ++ comp.
Proof.
  destruct (rot345_built 0 ltac:(lra)) as (u & B & D & _).
  set (g := const_rng 0 0). assert (G : rng_ok g) by (apply const_rng_ok; lra).
  assert (HR : reachable 0 (r_world start)) by now exists []. assert (GS := rot_set 0 u B D).
  destruct (C35_total_lemma g 1 false [rot_primitive u; rot_primitive u] 3 (9 / 10) (1 / 2) None 5 start G empty_exact GS)
    as (st' & s & costs & E); try lia; try lra; auto.
  exists g, u, start, st', s, costs. cbv zeta.
  split; [exact G|]. split; [exact empty_exact|]. split; [exact HR|]. split; [exact GS|]. split; [exact E|].
  destruct (rav_structure g 0 G _ _ _ _ _ _ _ _ _ _ _ _ HR E) as (rand & comp & _ & E' & L & _).
  exists rand, comp. split; auto. lia.
Qed.

Lemma ex_C35_drift_lemma : exists g u st, let ps := [rot_primitive u; rot_primitive u] in
  rng_ok g /\ drift_world eps_code 0 (r_world st) /\ good_set eps_code 1 ps None /\
  small_drift eps_code 1 (2 * S (0 + Z.to_nat 10 + Z.to_nat 20)).
Proof.
  pose proof eps_code_small as HE.
  destruct (rot345_built eps_code ltac:(lra)) as (u & B & D & _).
  exists (const_rng 0 0), u, start. cbv zeta.
  split; [apply const_rng_ok; lra|]. split.
  { exists []. split; [reflexivity|]. split; [exact I|]. simpl. lia. }
  split; [now apply rot_set|].
  change (2 * S (0 + Z.to_nat 10 + Z.to_nat 20))%nat with 62%nat. unfold small_drift, drift_bound.
  replace (INR 62) with 62%R by (rewrite INR_IZR_INZ; reflexivity).
  replace (INR (2 ^ 1)) with 2%R by (simpl; lra). unfold eps_code.
  pose proof sqrt_two. split; [lra|]. split; lra.
Qed.

Lemma ex_C36_lemma : exists g u st st' s costs, let ps := [rot_primitive u; rot_primitive u] in
  rng_ok g /\ reachable 0 (r_world st) /\
  generate_rav_sequence g 0 (2 ^ 1) true ps 3 0 (1 / 2) None 5 st = (st', Ok (s, costs)) /\
  List.length (contents (r_world st') s) = 3%nat.
Proof.
  destruct (rot345_built 0 ltac:(lra)) as (u & B & D & _).
  set (g := const_rng 0 0). assert (G : rng_ok g) by (apply const_rng_ok; lra).
  assert (HR : reachable 0 (r_world start)) by now exists []. assert (GS := rot_set 0 u B D).
  destruct (C35_total_lemma g 1 true [rot_primitive u; rot_primitive u] 3 0 (1 / 2) None 5 start G empty_exact GS)
    as (st' & s & costs & E); try lia; try lra; auto.
  exists g, u, start, st', s, costs. cbv zeta.
  split; [exact G|]. split; [exact HR|]. split; [exact E|].
  destruct (C36_rav_lemma _ _ _ _ _ _ _ _ _ _ _ _ _ _ G HR (or_introl eq_refl) E) as (_ & L & _). lia.
Qed.

Definition rot_table (u : unitary) : list (primitive * Z) := [(rot_primitive u, 2%Z); (rot_primitive u, 1%Z)].

Lemma rot_table_good eps u : built eps u -> u_dim u = 2%nat -> good_table eps 1 (rot_table u) /\
  (forall pc, In pc (rot_table u) -> (src_dim (p_source (fst pc)) <= 2 ^ 1)%nat).
Proof.
  intros B D. destruct (rot_set eps u B D) as [H _]. destruct (H (rot_primitive u) (or_introl eq_refl)) as [H1 H2]. split.
  - repeat (constructor; [split; [exact H1|discriminate]|]). constructor.
  - intros pc [<-|[<-|[]]]; exact H2.
Qed.

Lemma layer_length_3 d u l : layer_of 0 d (rot_table u) l -> List.length l = 3%nat.
Proof.
  intros (parts & P & F). rewrite (Permutation_length P).
  inversion F as [|? a ? t1 H1 F1]; subst. inversion F1 as [|? b ? t2 H2 F2]; subst. inversion F2; subst.
  destruct H1 as [H1 _]. destruct H2 as [H2 _]. cbn [List.concat snd] in *. rewrite !app_length. simpl in *. lia.
Qed.

Lemma ex_xeb_lemma : exists g u st st' s costs,
  rng_ok g /\ reachable 0 (r_world st) /\
  generate_xeb_sequence g 0 (2 ^ 1) (rot_table u) 4 st = (st', Ok (s, costs)) /\
  List.length (contents (r_world st') s) = 12%nat.
Proof.
  destruct (rot345_built 0 ltac:(lra)) as (u & B & D & _).
  set (g := const_rng 0 0). assert (G : rng_ok g) by (apply const_rng_ok; lra).
  assert (HR : reachable 0 (r_world start)) by now exists []. destruct (rot_table_good 0 u B D) as [GT GD].
  destruct (C37_total_lemma g 1 (rot_table u) 4 0 (1 / 2) 0 start G empty_exact GT GD) as (st' & s & costs & E); try lia; try lra.
  exists g, u, start, st', s, costs. split; [exact G|]. split; [exact HR|]. split; [exact E|].
  destruct (C36_xeb_lemma _ _ _ _ _ _ _ _ _ G HR E) as (_ & _ & layers & E' & L & F).
  rewrite E'. destruct layers as [|a [|b [|c [|d0 [|]]]]]; simpl in L; try lia.
  apply Forall_cons_iff in F. destruct F as [Fa F]. apply Forall_cons_iff in F. destruct F as [Fb F].
  apply Forall_cons_iff in F. destruct F as [Fc F]. apply Forall_cons_iff in F. destruct F as [Fd _].
  apply layer_length_3 in Fa, Fb, Fc, Fd.
  simpl. rewrite !app_length. simpl. lia.
Qed.

Lemma ex_C37_lemma : exists g u st st' s costs,
  rng_ok g /\ exact_world (r_world st) /\ reachable 0 (r_world st) /\ good_table 0 1 (rot_table u) /\
  (forall pc, In pc (rot_table u) -> (src_dim (p_source (fst pc)) <= 2 ^ 1)%nat) /\
  Forall (fun pc => (0 <= snd pc)%Z) (rot_table u) /\
  generate_layered_rav_sequence g 0 (2 ^ 1) (rot_table u) 2 (9 / 10) (1 / 2) 5 st = (st', Ok (s, costs)) /\
  (6 <= List.length (contents (r_world st') s))%nat.
Proof.
  destruct (rot345_built 0 ltac:(lra)) as (u & B & D & _).
  set (g := const_rng 0 0). assert (G : rng_ok g) by (apply const_rng_ok; lra).
  assert (HR : reachable 0 (r_world start)) by now exists []. destruct (rot_table_good 0 u B D) as [GT GD].
  destruct (C37_total_lemma g 1 (rot_table u) 2 (9 / 10) (1 / 2) 5 start G empty_exact GT GD) as (st' & s & costs & E); try lia; try lra.
  exists g, u, start, st', s, costs. split; [exact G|]. split; [exact empty_exact|]. split; [exact HR|].
  split; [exact GT|]. split; [exact GD|]. split; [repeat constructor; simpl; lia|]. split; [exact E|].
  destruct (layered_structure g 0 G _ _ _ _ _ _ _ _ _ _ HR E) as (rand & comp & _ & E' & L & F & _).
  rewrite E'. destruct rand as [|a [|b [|]]]; simpl in L; try lia.
  apply Forall_cons_iff in F. destruct F as [Fa F]. apply Forall_cons_iff in F. destruct F as [Fb _].
  apply layer_length_3 in Fa, Fb. simpl. rewrite !app_length. simpl. lia.
Qed.

Lemma ex_C37_drift_lemma : exists g u st,
  rng_ok g /\ drift_world eps_code 0 (r_world st) /\ good_table eps_code 1 (rot_table u) /\
  (forall pc, In pc (rot_table u) -> (src_dim (p_source (fst pc)) <= 2 ^ 1)%nat) /\
  small_drift eps_code 1 (2 * S (0 + Z.to_nat 3 * table_size (rot_table u) + table_size (rot_table u) * Z.to_nat 6)).
Proof.
  pose proof eps_code_small as HE.
  destruct (rot345_built eps_code ltac:(lra)) as (u & B & D & _). destruct (rot_table_good eps_code u B D) as [GT GD].
  exists (const_rng 0 0), u, start.
  split; [apply const_rng_ok; lra|]. split.
  { exists []. split; [reflexivity|]. split; [exact I|]. simpl. lia. }
  split; [exact GT|]. split; [exact GD|].
  change (2 * S (0 + Z.to_nat 3 * table_size (rot_table u) + table_size (rot_table u) * Z.to_nat 6))%nat with 56%nat.
  unfold small_drift, drift_bound.
  replace (INR 56) with 56%R by (rewrite INR_IZR_INZ; reflexivity).
  replace (INR (2 ^ 1)) with 2%R by (simpl; lra). unfold eps_code.
  pose proof sqrt_two. split; [lra|]. split; lra.
Qed.

Lemma ex_C56_lemma : exists g u st st', let ps := [rot_primitive u; rot_primitive u] in
  rng_ok g /\ exact_world (r_world st) /\ good_set 0 1 ps None /\
  generate_rav_sequence g 0 (2 ^ 1) true ps 3 (9 / 10) (1 / 2) None 5 st = (st', Raise ValueError).
Proof.
  destruct (rot345_built 0 ltac:(lra)) as (u & B & D & _).
  set (g := const_rng 0 0). assert (G : rng_ok g) by (apply const_rng_ok; lra).
  assert (GS := rot_set 0 u B D).
  destruct (C56_error_lemma g 1 [rot_primitive u; rot_primitive u] 3 (9 / 10) (1 / 2) None 5 start G empty_exact GS)
    as (st' & E); try lia; try lra; auto.
  exists g, u, start, st'. cbv zeta. split; [exact G|]. split; [exact empty_exact|]. split; [exact GS|exact E].
Qed.

Lemma ex_C57_lemma : exists g u st t d p, let ps := [rot_primitive u; rot_primitive u] in
  rng_ok g /\ reachable 0 (r_world st) /\ list_sequence (r_world st) t d /\ answers 0 (r_world st) t p /\
  contents (r_world st) t <> [] /\
  exists st' s costs, generate_rav_sequence g 0 (2 ^ 1) false ps 3 (9 / 10) (1 / 2) None 5 st = (st', Ok (s, costs)) /\ s <> t.
Proof.
  destruct (rot345_built 0 ltac:(lra)) as (u & B & D & _).
  set (g := const_rng 0 0). assert (G : rng_ok g) by (apply const_rng_ok; lra).
  set (os := [NewEntry u [0%Z]; NewSequence 2 false [0%nat]]).
  set (st := {| r_world := exec 0 os w_empty; r_draws := 0 |}).
  assert (HX : exact_world (r_world st)).
  { exists os. split; [reflexivity|]. cbn [os history]. auto 10. }
  assert (HL : list_sequence (r_world st) 0 2).
  { subst st os. destruct u as [d m nm ps iv ap]. simpl in D. subst d. eexists. split; [reflexivity|]. split; reflexivity. }
  assert (HN : List.length (contents (r_world st) 0) = 1%nat).
  { clear HX HL. subst st os. destruct u as [d m nm ps iv ap]. simpl in D. subst d. reflexivity. }
  destruct (exact_winv_ex _ HX) as [K HW].
  destruct (sees_intro 0 (r_world st) 0 2 (exact_W _ HX) HL) as (pv & S).
  destruct (exact_answers _ _ _ 1 _ _ HW S) as (p & A & _).
  assert (HR : reachable 0 (r_world st)) by now exists os.
  destruct (C35_total_lemma g 1 false [rot_primitive u; rot_primitive u] 3 (9 / 10) (1 / 2) None 5 st G HX (rot_set 0 u B D))
    as (st' & s & costs & E); try lia; try lra; auto.
  exists g, u, st, 0%nat, 2%nat, p. cbv zeta.
  split; [exact G|]. split; [exact HR|]. split; [exact HL|]. split; [exact A|].
  split; [intros X; rewrite X in HN; discriminate|]. exists st', s, costs. split; [exact E|]. intros ->.
  destruct (rav_structure g 0 G _ _ _ _ _ _ _ _ _ _ _ _ HR E) as (rand & comp & _ & E' & L & _).
  destruct (C57_rav_lemma g 0 (2 ^ 1) false [rot_primitive u; rot_primitive u] 3 (9 / 10) (1 / 2) None 5 st 0 2 p G HR HL) as (_ & E2 & _).
  rewrite E in E2. cbn [fst] in E2. rewrite E' in E2. apply (f_equal (@List.length _)) in E2.
  rewrite app_length, HN in E2. lia.
Qed.
