(** Concrete cases for the properties of the compiler. *)
From Coq Require Import Reals List Arith Lia Lra Bool String ZArith Permutation.
From Coquelicot Require Import Rcomplements Complex.
From Verif Require Import Base CMat CMatFacts Det DetFacts Norms ModelUnitary ModelEntry ModelPrimitive
  ModelSequence ModelCompiler Spec SpecModel SpecCompiler PUnitary PUnitaryProps PEntry PSeqHeap PSeqMeth PSeqNear PSeqWorld
  PSeqUndo PSeqInv PSeqHist PSeqProps PSeqCases PCompView PCompRun PCompEntry PCompLoop PCompTrace PCompTotal PCompProps PCompMore
  PCompCases.
Import ListNotations.
Open Scope R_scope.
Open Scope C_scope.
Open Scope se_scope.

(** A compiler with one primitive. *)
Definition one_compiler (u : unitary) (ap rate : R) : compiler :=
  {| c_dim := 2; c_array := false; c_prims := [rot_primitive u]; c_probs := None;
     c_max_beta := ((2 ^ 2) ^ 2)%R; c_beta := 0; c_rate := rate; c_append := ap |}.

Lemma one_good eps u ap rate : built eps u -> u_dim u = 2%nat -> (0 <= ap <= 1)%R -> good_compiler eps 1 (one_compiler u ap rate).
Proof.
  intros B D Ha. split; [reflexivity|]. split; [exact Ha|]. split.
  - intros p [<-|[]]. split; [exact (built_made _ _ B)|]. exists 1%nat. simpl. auto.
  - exists (rot_primitive u). split; [simpl; auto|discriminate].
Qed.

Lemma one_made u ap rate : u_dim u = 2%nat ->
  mk_compiler 2 false [rot_primitive u] None ap rate = Ok (one_compiler u ap rate).
Proof. intros D. unfold mk_compiler. cbn [Nat.ltb Nat.leb assert bind]. simpl forallb. rewrite D. reflexivity. Qed.

Lemma one_costs g change target max st st' c c' s costs n K :
  compile_with g 0 change target (Some 2%R) max (st, c) = ((st', c'), Ok (s, costs)) ->
  u_dim target = (2 ^ n)%nat -> wf target ->
  (Z.of_nat (List.length costs) <= Z.max 0 max)%Z ->
  (exists p close, answers 0 (r_world st') s p /\ u_close_to 0 p target (Some 2%R) = Ok close /\
    (close = false -> (max <= Z.of_nat (List.length costs))%Z)) ->
  winv 0 true K (r_world st') -> (exists cs pv, sees 0 (r_world st') s (2 ^ n) cs pv) ->
  Z.of_nat (List.length costs) = Z.max 0 max.
Proof.
  intros _ D W L (p & close & A & E & N) HW (cs & pv & S).
  destruct (exact_answers_wf _ _ _ _ _ _ _ HW S A) as [Dp Wp].
  rewrite (never_close p target n Dp Wp W D) in E. injection E as <-. specialize (N eq_refl). lia.
Qed.

Lemma ex_run_lemma : exists g c target st st' c' s costs,
  rng_ok g /\ exact_world (r_world st) /\ reachable 0 (r_world st) /\
  good_compiler 0 1 c /\ c_array c = false /\ built 0 target /\ u_dim target = 2%nat /\
  compile g 0 target (Some 2%R) 1 (st, c) = ((st', c'), Ok (s, costs)) /\
  List.length costs = 1%nat /\ List.length (contents (r_world st') s) = 1%nat.
Proof.
  destruct (rot345_built 0 ltac:(lra)) as (u & B & D & _).
  set (g := const_rng 0 0). assert (G : rng_ok g) by (apply const_rng_ok; lra).
  set (c := one_compiler u (1 / 2) 1). assert (GC : good_compiler 0 1 c) by (apply one_good; auto; lra).
  assert (HS : Forall (safe_primitive 0 (built 0)) (c_prims c)).
  { apply (good_safe 0); auto. intros p [<-|[]]. exact (built_made _ _ B). }
  assert (HR : reachable 0 (r_world start)) by now exists [].
  destruct (C28_lemma g start c u (Some 2%R) 1 1 G empty_exact GC (or_introl eq_refl) B D) as (st' & c' & s & costs & E).
  exists g, c, u, start, st', c', s, costs.
  do 8 (split; [first [assumption|exact empty_exact|reflexivity]|]).
  assert (E' := compile_inv _ _ _ _ _ _ _ _ _ _ E).
  destruct (C26_lemma g start c u (Some 2%R) 1 st' c' s costs 1 G empty_exact eq_refl) as (HX' & p & close & A & Dp & _ & Ec & N); auto.
  { intros p [<-|[]]. exact (built_made _ _ B). }
  destruct (C24_lemma g 0 start c u (Some 2%R) 1 st' c' s costs G HR E) as (L & _).
  destruct (C27_lemma g 0 start c u (Some 2%R) 1 st' c' s costs G HR E) as (HD & _).
  split.
  - destruct (exact_winv_ex _ HX') as [K HW].
    destruct (winv_exact 0 K (r_world st') s 1 ltac:(lra) HW HD (lim_zero _ _)) as (p' & A' & NN).
    assert (p' = p) by (eapply answers_unique; eauto). subst p'.
    destruct (near_zero _ _ _ _ NN) as (_ & U & Em).
    assert (Wp : wf p) by (apply (wf_of p 2 _ ltac:(lia) Dp Em U)).
    rewrite (never_close p u 1 Dp Wp (built_wf _ _ B) D) in Ec. injection Ec as <-. specialize (N eq_refl). lia.
  - apply (one_step g _ _ c 1 u start st' c' s costs 1 (fun cs => List.length cs = 1%nat) G (fun _ => eq_refl)
      (change_single g 0 G c)); auto.
    + intros s0. apply single_traced; auto. apply (good_safe 0); [apply safe_made0|]. intros q [<-|[]]. exact (built_made _ _ B).
    + exact empty_exact.
    + eapply built_wf; eauto.
    + intros st0 st0' b s0 pv pv' cs' S Ech S'.
      destruct (single_action g 0 (set_beta c b) s0 st0 st0' _ [] pv G ltac:(simpl; lra) S Ech) as (pv2 & X).
      change (g_unif g (r_draws st0)) with 0%R in X. rewrite action_zero in X by (simpl; lra).
      destruct X as (gt & q & _ & _ & S2). apply sees_contents in S2. apply sees_contents in S'.
      replace cs' with [gt] by congruence. reflexivity.
Qed.

Lemma ex_layered_lemma : exists g c target counts st st' c' s costs,
  rng_ok g /\ exact_world (r_world st) /\ reachable 0 (r_world st) /\
  c_dim c = 2%nat /\ (0 <= c_append c <= 1)%R /\ good_table 0 1 counts /\
  Forall (fun pc => (0 <= snd pc)%Z) counts /\ built 0 target /\ u_dim target = 2%nat /\
  compile_layered g 0 target counts (Some 2%R) 1 (st, c) = ((st', c'), Ok (s, costs)) /\
  total_count counts = 3%Z /\ List.length (contents (r_world st') s) = 3%nat.
Proof.
  destruct (rot345_built 0 ltac:(lra)) as (u & B & D & _).
  set (g := const_rng 0 0). assert (G : rng_ok g) by (apply const_rng_ok; lra).
  set (c := one_compiler u (1 / 2) 1).
  set (counts := [(rot_primitive u, 2%Z); (rot_primitive u, 1%Z)]).
  assert (GT : good_table 0 1 counts).
  { repeat constructor; try (now apply rot_good); try discriminate; (exists 1%nat; simpl; auto). }
  assert (HR : reachable 0 (r_world start)) by now exists [].
  destruct (C33_general_lemma g start c u counts 1 G (fun _ => eq_refl) empty_exact eq_refl ltac:(simpl; lra) GT B D)
    as (st' & c' & s & costs & E & L).
  exists g, c, u, counts, start, st', c', s, costs.
  do 4 (split; [first [assumption|exact empty_exact|reflexivity]|]).
  split; [simpl; lra|]. split; [exact GT|]. split; [repeat constructor; simpl; lia|]. auto 10.
Qed.

Lemma sqrt_two : (sqrt 2 <= 3 / 2)%R.
Proof. rewrite <- (sqrt_Rsqr (3 / 2)) by lra. apply sqrt_le_1_alt. unfold Rsqr. lra. Qed.

Lemma ex_drift_lemma : exists g c target st,
  rng_ok g /\ drift_world eps_code 0 (r_world st) /\ good_compiler eps_code 1 c /\ c_array c = false /\
  built eps_code target /\ u_dim target = 2%nat /\ small_drift eps_code 1 (S (0 + Z.to_nat 60)).
Proof.
  pose proof eps_code_small as HE.
  destruct (rot345_built eps_code ltac:(lra)) as (u & B & D & _).
  exists (const_rng 0 0), (one_compiler u (1 / 2) 1), u, start.
  split; [apply const_rng_ok; lra|]. split.
  { exists []. split; [reflexivity|]. split; [exact I|]. simpl. lia. }
  split; [apply one_good; auto; lra|]. split; [reflexivity|]. split; auto. split; auto.
  change (S (0 + Z.to_nat 60)) with 61%nat. unfold small_drift, drift_bound.
  replace (INR 61) with 61%R by (rewrite INR_IZR_INZ; reflexivity).
  replace (INR (2 ^ 1)) with 2%R by (simpl; lra). unfold eps_code.
  pose proof sqrt_two. split; [lra|]. split; lra.
Qed.

Lemma ex_drift_layered_lemma : exists g c target counts st,
  rng_ok g /\ drift_world eps_code 0 (r_world st) /\ c_dim c = 2%nat /\ (0 <= c_append c <= 1)%R /\
  good_table eps_code 1 counts /\ built eps_code target /\ u_dim target = 2%nat /\
  small_drift eps_code 1 (S (0 + table_size counts * Z.to_nat 20)).
Proof.
  pose proof eps_code_small as HE.
  destruct (rot345_built eps_code ltac:(lra)) as (u & B & D & _).
  exists (const_rng 0 0), (one_compiler u (1 / 2) 1), u, [(rot_primitive u, 3%Z)], start.
  split; [apply const_rng_ok; lra|]. split.
  { exists []. split; [reflexivity|]. split; [exact I|]. simpl. lia. }
  split; [reflexivity|]. split; [simpl; lra|]. split.
  { constructor; [|constructor]. split; [|discriminate]. split; [exact (built_made _ _ B)|]. exists 1%nat. simpl. auto. }
  split; auto. split; auto.
  change (S (0 + table_size [(rot_primitive u, 3%Z)] * Z.to_nat 20)) with 61%nat. unfold small_drift, drift_bound.
  replace (INR 61) with 61%R by (rewrite INR_IZR_INZ; reflexivity).
  replace (INR (2 ^ 1)) with 2%R by (simpl; lra). unfold eps_code.
  pose proof sqrt_two. split; [lra|]. split; lra.
Qed.

(** A step that is rejected: appending a rotation when the target is already
    reached. *)
Definition one_seq : rstate := {| r_world := exec 0 [NewSequence 2 false []] w_empty; r_draws := 0 |}.

Lemma one_seq_exact : exact_world (r_world one_seq).
Proof. exists [NewSequence 2 false []]. split; [reflexivity|]. cbn [history]. auto 10. Qed.
Lemma one_seq_list : list_sequence (r_world one_seq) 0 2.
Proof. eexists. split; [reflexivity|]. split; reflexivity. Qed.
Lemma one_seq_reach : reachable 0 (r_world one_seq).
Proof. now exists [NewSequence 2 false []]. Qed.

Lemma one_step_total x u rate t : (0 <= x < 1)%R -> built 0 u -> u_dim u = 2%nat -> wf t -> u_dim t = 2%nat ->
  let g := const_rng x 0 in let c := one_compiler u 1 rate in
  exists st' c' cost, compile_step g 0 (make_random_change g 0) 0 t (one_seq, c) = ((st', c'), Ok cost).
Proof.
  intros Hx B D Wt Dt g c. assert (G : rng_ok g) by (apply const_rng_ok; lra).
  destruct (exact_winv_ex _ one_seq_exact) as [K HW].
  assert (GC : good_compiler 0 1 c) by (apply one_good; auto; lra).
  assert (CH := good_choosable 0 1 c GC). destruct GC as (Hd & Ha & HP & _).
  assert (HS : Forall (safe_primitive 0 (safe_gate 0 true)) (c_prims c)).
  { apply (good_safe 0); [apply safe_made0|]. intros p Hp. apply HP in Hp. apply Hp. }
  destruct (sees_intro 0 (r_world one_seq) 0 2 (exact_W _ one_seq_exact) one_seq_list) as (pv & S).
  assert (Hi : exists i, u_inverse 0 t = Ok i).
  { destruct (u_inverse_ok 0 t Wt (eps_clean_0 _ _)) as (i & E & _). eauto. }
  destruct (step_total g 0 G ltac:(lra) ltac:(lra) true 1 (make_random_change g 0) (one_change 0 c) c 1 t
    (change_single g 0 G c) (fun s => single_traced g 0 G _ c s HS)
    (total_single g 0 G ltac:(lra) ltac:(lra) true 1 (fun _ => lim0_zero _ _) c Hd Ha (fun p Hp => good_drawn g 0 G 1 p (HP p Hp)) CH HS) Hd Hi Dt
    (c_beta c) 0%nat one_seq K _ pv HW S (lim_zero _ _)) as (st' & b & cost & E).
  rewrite set_beta_same in E. eauto.
Qed.

Lemma exp_quarter : (exp (-16 * (2 / 5)) <= / 2)%R.
Proof.
  replace (-16 * (2 / 5))%R with (- (32 / 5))%R by field. rewrite exp_Ropp.
  apply Rinv_le_contravar; [lra|]. pose proof (exp_ineq1 (32 / 5)). lra.
Qed.

Lemma ex_C29_lemma : exists g c target st s st' c' cost p,
  rng_ok g /\ exact_world (r_world st) /\ reachable 0 (r_world st) /\
  list_sequence (r_world st) s (2 ^ 1) /\ c_dim c = (2 ^ 1)%nat /\
  (forall p, In p (c_prims c) -> good_source 0 (p_source p)) /\
  compile_step g 0 (make_random_change g 0) s target (st, c) = ((st', c'), Ok cost) /\
  answers 0 (r_world st) s p /\ contents (r_world st') s = contents (r_world st) s /\
  c_beta c' = 16%R /\
  (exists st1 c1, make_random_change g 0 s
      ({| r_world := fst (step 0 (Product s) (r_world st)); r_draws := r_draws st |}, c') = ((st1, c1), Ok tt) /\
     contents (r_world st1) s <> contents (r_world st) s).
Proof.
  destruct (rot345_built 0 ltac:(lra)) as (u & B & D & Mu & _).
  destruct (u_identity_ok 0 2 ltac:(lia) ltac:(lra)) as (t & Et & Dt & _ & _ & _ & _ & Mt).
  assert (Wt : wf t).
  { apply (wf_of t 2 mid); auto. apply special_mid. }
  set (g := const_rng (/ 2) 0). assert (G : rng_ok g) by (apply const_rng_ok; lra).
  set (c := one_compiler u 1 16).
  destruct (one_step_total (/ 2) u 16 t ltac:(lra) B D Wt Dt) as (st' & c' & cost & E). fold g c in E.
  destruct (C29_lemma g 0 c 0 t one_seq st' c' cost G one_seq_reach one_seq_list E)
    as (Ec & before & cur & st1 & after & prop & A & Hc & Hch & A1 & Hp & Hx & _).
  exists g, c, t, one_seq, 0%nat, st', c', cost, before.
  do 8 (split; [first [assumption|exact one_seq_exact|exact one_seq_reach|exact one_seq_list|reflexivity
    |intros p [<-|[]]; exact (built_made _ _ B)]|]).
  destruct (exact_winv_ex _ one_seq_exact) as [K HW].
  destruct (sees_intro 0 (r_world one_seq) 0 2 (exact_W _ one_seq_exact) one_seq_list) as (pv & S).
  change (contents (r_world one_seq) 0) with (@nil (unitary * list nat)) in *.
  set (sp := {| r_world := fst (step 0 (Product 0) (r_world one_seq)); r_draws := r_draws one_seq |}) in *.
  assert (Sp : sees 0 (r_world sp) 0 2 [] pv) by (apply sees_other; auto).
  assert (HWp := step_winv 0 ltac:(lra) ltac:(lra) true (Product 0) _ (r_world one_seq) I HW).
  change (fst (step 0 (Product 0) (r_world one_seq))) with (r_world sp) in HWp.
  assert (Hb : c' = set_beta c 16).
  { rewrite Ec. f_equal. simpl. rewrite Rmin_left; lra. }
  rewrite <- Ec in Hch. rewrite Hb in *.
  destruct (single_action g 0 (set_beta c 16) 0 sp st1 _ [] pv G ltac:(simpl; lra) Sp Hch) as (pv1 & Ha).
  replace (action_at _ _) with ActAppendLast in Ha.
  2:{ symmetry. apply action_at_iff; [simpl; lra|simpl; lra|]. simpl. lra. }
  destruct Ha as (gt & q & Hq & (I1 & _ & I3 & I4 & I5 & I6) & S1). apply weighted_in in Hq. destruct Hq as [<-|[]].
  assert (Eg : gt = (u, [0%nat])).
  { destruct gt as [v qs]. cbn [fst snd] in *. cbn in I1. subst v. f_equal. rewrite D in I5.
    destruct qs as [|a [|b qs]]; [congruence| |].
    - specialize (I6 a (or_introl eq_refl)). destruct a; [reflexivity|].
      exfalso. assert (2 ^ 2 <= 2 ^ (Datatypes.S a + 1))%nat by (apply Nat.pow_le_mono_r; lia). simpl in *. lia.
    - exfalso. assert (2 ^ 2 <= 2 ^ List.length (a :: b :: qs))%nat by (apply Nat.pow_le_mono_r; simpl; lia). simpl in *. lia. }
  subst gt. cbn [app] in S1.
  assert (HS : Forall (safe_primitive 0 (safe_gate 0 true)) (c_prims c)).
  { apply (good_safe 0); [apply safe_made0|]. intros p [<-|[]]. exact (built_made _ _ B). }
  assert (HX1 : exact_world (r_world sp)).
  { apply (evolves_exact 0 (r_world one_seq)); [exact one_seq_exact|]. now apply evolves_step. }
  assert (HS' : Forall (safe_primitive 0 (built 0)) (c_prims c)).
  { apply (good_safe 0); auto. intros p [<-|[]]. exact (built_made _ _ B). }
  destruct (single_traced g 0 G _ c 0 HS' sp 16) as [EV _]. rewrite Hch in EV. cbn [fst] in EV.
  destruct (exact_winv_ex _ (evolves_exact _ _ _ HX1 EV)) as [K1 HW1].
  destruct (exact_answers _ _ _ 1 _ _ HW S) as (p0 & A0 & D0 & M0).
  destruct (exact_answers _ _ _ 1 _ _ HW1 S1) as (p1 & A0' & D1 & M1).
  assert (p0 = before) by (eapply answers_unique; eauto). subst p0.
  assert (p1 = after) by (eapply answers_unique; eauto). subst p1.
  change (2 ^ 1)%nat with 2%nat in *.
  assert (Ct : eps_clean 0 (u_dim t) (u_mat t)) by apply eps_clean_0.
  rewrite overlap_inv in Hc by (auto; congruence). injection Hc as Hc.
  rewrite overlap_inv in Hp by (auto; congruence). injection Hp as Hp.
  rewrite Dt, Mt, M0 in Hc. rewrite Dt, Mt, M1 in Hp.
  assert (Oc : overlap 2 mid (ordered 1 []) = 1%R).
  { unfold overlap, ordered. cbn [fold_left]. cbn -[Rdiv].
    replace (_ + _)%C with (RtoC 2) by (apply C_eq; simpl; ring).
    rewrite Cmod_R, Rabs_pos_eq by lra. field. }
  assert (Op : overlap 2 mid (ordered 1 [(u, [0%nat])]) = (3 / 5)%R).
  { replace (overlap 2 mid (ordered 1 [(u, [0%nat])])) with (overlap 2 mid rot345).
    - unfold overlap. cbn -[Rdiv].
      replace (_ + _)%C with (RtoC (6 / 5)) by (apply C_eq; simpl; field).
      rewrite Cmod_R, Rabs_pos_eq by lra. field.
    - apply overlap_proper; [reflexivity|]. unfold ordered. cbn [fold_left fst snd].
      change (2 ^ 1)%nat with 2%nat. rewrite mmul_1_r, embed_one. now symmetry. }
  rewrite Oc in Hc. rewrite Op in Hp. subst cur prop.
  cbv zeta in Hx. replace (Rmin (c_beta c + c_rate c) (c_max_beta c)) with 16%R in Hx by (simpl; rewrite Rmin_left; lra).
  replace (g_unif _ _) with (/ 2)%R in Hx by reflexivity.
  rewrite metropolis_up in Hx by lra.
  replace (- (16) * (1 - 3 / 5 - (1 - 1)))%R with (-16 * (2 / 5))%R in Hx by field.
  pose proof exp_quarter as EQ.
  split; [destruct Hx as [(Hx & _)|(_ & _ & Hx)]; [lra|exact Hx]|].
  split; [reflexivity|]. exists st1, (set_beta c 16). split; [exact Hch|].
  rewrite (sees_contents _ _ _ _ _ _ S1). discriminate.
Qed.

Lemma one_run g u st b : rng_ok g -> built 0 u -> u_dim u = 2%nat -> exact_world (r_world st) ->
  let c := set_beta (one_compiler u (1 / 2) 1) b in
  exists st' b' s costs, compile g 0 u (Some 2%R) 1 (st, c) = ((st', set_beta c b'), Ok (s, costs)) /\
    List.length costs = 1%nat /\ exact_world (r_world st').
Proof.
  intros G B D HX c.
  assert (GC : good_compiler 0 1 c) by (apply (one_good 0 u (1 / 2) 1); auto; lra).
  destruct (C28_lemma g st c u (Some 2%R) 1 1 G HX GC (or_introl eq_refl) B D) as (st' & c' & s & costs & E).
  destruct (C26_lemma g st c u (Some 2%R) 1 st' c' s costs 1 G HX eq_refl) as (HX' & p & close & A & Dp & _ & Ec & N); auto.
  { intros q [<-|[]]. exact (built_made _ _ B). }
  assert (HR : reachable 0 (r_world st)) by (destruct HX as (os & -> & _); now exists os).
  destruct (C24_lemma g 0 st c u (Some 2%R) 1 st' c' s costs G HR E) as (L & _).
  destruct (C27_lemma g 0 st c u (Some 2%R) 1 st' c' s costs G HR E) as (HD & _).
  assert (Hc : exists b', c' = set_beta c b').
  { assert (HS : Forall (safe_primitive 0 (built 0)) (c_prims c)).
    { apply (good_safe 0); auto. intros q [<-|[]]. exact (built_made _ _ B). }
    rewrite compile_eq in E by (simpl; auto; discriminate).
    destruct (with_traced g 0 (built 0) c 1 (make_random_change g 0) u (Some 2%R) 1
      (fun s => single_traced g 0 G _ c s HS) st (c_beta c)) as [_ (b' & Hb)].
    rewrite set_beta_same, E in Hb. cbn [fst snd] in Hb. eauto. }
  destruct Hc as (b' & ->). exists st', b', s, costs. split; [exact E|]. split; [|exact HX'].
  destruct (exact_winv_ex _ HX') as [K HW].
  destruct (winv_exact 0 K (r_world st') s 1 ltac:(lra) HW HD (lim_zero _ _)) as (p' & A' & NN).
  assert (p' = p) by (eapply answers_unique; eauto). subst p'.
  destruct (near_zero _ _ _ _ NN) as (_ & U & Em).
  assert (Wp : wf p) by (apply (wf_of p 2 _ ltac:(lia) Dp Em U)).
  rewrite (never_close p u 1 Dp Wp (built_wf _ _ B) D) in Ec. injection Ec as <-. specialize (N eq_refl). lia.
Qed.

Lemma ex_C30_lemma : exists g d ps c ks st st' c',
  rng_ok g /\ mk_compiler d false ps None (1 / 2) 1 = Ok c /\ List.length ks = 2%nat /\
  compile_calls g 0 ks (st, c) (st', c') 2.
Proof.
  destruct (rot345_built 0 ltac:(lra)) as (u & B & D & _).
  set (g := const_rng 0 0). assert (G : rng_ok g) by (apply const_rng_ok; lra).
  set (c := one_compiler u (1 / 2) 1).
  destruct (one_run g u start (c_beta c) G B D empty_exact) as (st1 & b1 & s1 & l1 & E1 & L1 & X1).
  destruct (one_run g u st1 b1 G B D X1) as (st2 & b2 & s2 & l2 & E2 & L2 & _).
  fold c in E1, E2. rewrite set_beta_same in E1.
  exists g, 2%nat, [rot_primitive u], c, [Plain u (Some 2%R) 1; Plain u (Some 2%R) 1], start, st2, (set_beta (set_beta c b1) b2).
  split; [exact G|]. split; [now apply one_made|]. split; [reflexivity|].
  replace 2%nat with (List.length l1 + (List.length l2 + 0))%nat by lia.
  eapply calls_cons; [exact E1|]. eapply calls_cons; [exact E2|]. constructor.
Qed.

Lemma ex_C31_lemma : exists g c s st st' c',
  rng_ok g /\ (0 <= c_append c <= 1)%R /\ reachable 0 (r_world st) /\ list_sequence (r_world st) s (c_dim c) /\
  make_random_change g 0 s (st, c) = ((st', c'), Ok tt) /\
  (fst (action_interval (c_append c) ActAppendLast) <= g_unif g (r_draws st)
     < snd (action_interval (c_append c) ActAppendLast))%R /\
  List.length (contents (r_world st') s) = 1%nat.
Proof.
  destruct (rot345_built 0 ltac:(lra)) as (u & B & D & _).
  set (g := const_rng (1 / 3) 0). assert (G : rng_ok g) by (apply const_rng_ok; lra).
  set (c := one_compiler u (1 / 2) 1).
  assert (GC : good_compiler 0 1 c) by (apply one_good; auto; lra).
  assert (CH := good_choosable 0 1 c GC). destruct GC as (Hd & Ha & HP & _).
  assert (HS : Forall (safe_primitive 0 (safe_gate 0 true)) (c_prims c)).
  { apply (good_safe 0); [apply safe_made0|]. intros p Hp. apply HP in Hp. apply Hp. }
  destruct (exact_winv_ex _ one_seq_exact) as [K HW].
  destruct (sees_intro 0 (r_world one_seq) 0 2 (exact_W _ one_seq_exact) one_seq_list) as (pv & S).
  destruct (total_single g 0 G ltac:(lra) ltac:(lra) true 1 (fun _ => lim0_zero _ _) c Hd Ha (fun p Hp => good_drawn g 0 G 1 p (HP p Hp)) CH HS
    (c_beta c) 0%nat one_seq K _ pv HW S (lim_zero _ _)) as (st' & E).
  rewrite set_beta_same in E.
  exists g, c, 0%nat, one_seq, st', c. split; [exact G|]. split; [exact Ha|]. split; [exact one_seq_reach|].
  split; [exact one_seq_list|]. split; [exact E|].
  assert (Hx : (fst (action_interval (c_append c) ActAppendLast) <= g_unif g (r_draws one_seq)
     < snd (action_interval (c_append c) ActAppendLast))%R) by (simpl; lra).
  split; [exact Hx|].
  destruct (C31_effect_lemma g 0 c 0 one_seq st' c ActAppendLast G Ha one_seq_reach one_seq_list E Hx) as (gt & p & _ & _ & ->).
  reflexivity.
Qed.

(** The layered variant: a layer of two in front, with x = 0. *)
Lemma ex_C31_layered_lemma : exists g c counts s st st' c',
  rng_ok g /\ (0 <= c_append c <= 1)%R /\ reachable 0 (r_world st) /\ list_sequence (r_world st) s (c_dim c) /\
  make_random_change_layered g 0 counts s (st, c) = ((st', c'), Ok tt) /\
  (fst (action_interval (c_append c) ActAppendFirst) <= g_unif g (r_draws st)
     < snd (action_interval (c_append c) ActAppendFirst))%R /\
  List.length (contents (r_world st') s) = 2%nat.
Proof.
  destruct (rot345_built 0 ltac:(lra)) as (u & B & D & _).
  set (g := const_rng 0 0). assert (G : rng_ok g) by (apply const_rng_ok; lra).
  set (c := one_compiler u (1 / 2) 1). set (counts := [(rot_primitive u, 2%Z)]).
  assert (Ha : (0 <= c_append c <= 1)%R) by (simpl; lra).
  assert (GT : good_table 0 1 counts).
  { repeat constructor; try (now apply rot_good); try discriminate; (exists 1%nat; simpl; auto). }
  assert (HS : Forall (fun pc => safe_primitive 0 (safe_gate 0 true) (fst pc)) counts).
  { apply (good_safe_counts 0); [apply safe_made0|]. intros pc [<-|[]]. exact (built_made _ _ B). }
  destruct (exact_winv_ex _ one_seq_exact) as [K HW].
  destruct (sees_intro 0 (r_world one_seq) 0 2 (exact_W _ one_seq_exact) one_seq_list) as (pv & S).
  destruct (total_layered g 0 G ltac:(lra) ltac:(lra) true 1 (fun _ => lim0_zero _ _) c counts eq_refl Ha GT HS
    (c_beta c) 0%nat one_seq K _ pv HW S (lim_zero _ _)) as (st' & E).
  rewrite set_beta_same in E.
  exists g, c, counts, 0%nat, one_seq, st', c. split; [exact G|]. split; [exact Ha|]. split; [exact one_seq_reach|].
  split; [exact one_seq_list|]. split; [exact E|].
  assert (Hx : (fst (action_interval (c_append c) ActAppendFirst) <= g_unif g (r_draws one_seq)
     < snd (action_interval (c_append c) ActAppendFirst))%R) by (simpl; lra).
  split; [exact Hx|].
  destruct (C31_effect_layered_lemma g 0 c counts 0 one_seq st' c ActAppendFirst G Ha one_seq_reach one_seq_list E Hx)
    as (layer & HL & ->). rewrite app_nil_r. exact (layer_of_length 0 _ _ _ HL).
Qed.

Lemma no_steps g eps ch ch' t thr st st' c c' c1 r : c_dim c = c_dim c' ->
  compile_with g eps ch t thr 0 (st, c) = ((st', c1), Ok r) ->
  compile_with g eps ch' t thr 0 (st, c') = ((st', c'), Ok r).
Proof.
  intros Hd. unfold compile_with, se_bind, c_self, c_run. cbn [snd fst]. rewrite Hd.
  destruct (call_sequence eps (NewSequence (c_dim c') false []) st) as [st1 [s|x]]; [|intros H; discriminate H].
  change (Datatypes.S (Z.to_nat 0)) with 1%nat. cbn [compile_loop]. unfold se_bind, c_run. cbn [fst snd].
  destruct (call_unitary eps (Product s) st1) as [st2 [p|x]]; [|intros H; discriminate H].
  unfold se_lift. destruct (u_close_to eps p t thr) as [[|]|x]; [| |intros H; discriminate H];
    cbn; intros H; injection H as -> _ <-; reflexivity.
Qed.

(** A good primitive and one without allowed places, with probabilities. *)
Lemma ex_C34_lemma : exists u c q p,
  built 0 u /\
  mk_primitive (Fixed u) (Some []) = Ok p /\
  mk_compiler 2 false [rot_primitive u; p] (Some [1 / 2; 1 / 2]%R) (1 / 2) 1 = Ok c /\
  c_probs c = Some q /\ List.length q = List.length (c_prims c) /\ In p (c_prims c) /\ p_allowed p = Some [] /\
  exists g st st' c' s costs, rng_ok g /\ reachable 0 (r_world st) /\
    compile g 0 u (Some 2%R) 0 (st, c) = ((st', c'), Ok (s, costs)).
Proof.
  destruct (rot345_built 0 ltac:(lra)) as (u & B & D & _).
  exists u. eexists. eexists. eexists. split; [exact B|]. split; [reflexivity|]. split.
  { unfold mk_compiler. cbn [Nat.ltb Nat.leb assert bind]. simpl forallb. rewrite D. reflexivity. }
  split; [reflexivity|]. split; [reflexivity|]. split; [simpl; auto|]. split; [reflexivity|].
  set (c := {| c_dim := 2 |}).
  set (g := const_rng 0 0). assert (G : rng_ok g) by (apply const_rng_ok; lra).
  destruct (one_run g u start 0 G B D empty_exact) as (st1 & b1 & s1 & l1 & E1 & L1 & X1).
  destruct (C25_prefix_lemma g 0 _ _ _ _ _ _ _ 0 E1 ltac:(lia) ltac:(lia)) as ([st2 c2] & E2). cbn [firstn] in E2.
  change (Z.of_nat 0) with 0%Z in E2. rewrite compile_eq in E2 by first [left; reflexivity|discriminate].
  apply (no_steps _ _ _ (make_random_change g 0) _ _ _ _ _ c) in E2; [|reflexivity].
  exists g, start, st2, c, s1, []. split; [exact G|]. split; [now exists []|].
  rewrite compile_eq by first [left; reflexivity|discriminate]. exact E2.
Qed.

(** Another sequence in the world while compiling. *)
Lemma ex_C55_lemma : exists g c u st t d p,
  rng_ok g /\ reachable 0 (r_world st) /\ list_sequence (r_world st) t d /\ answers 0 (r_world st) t p /\
  contents (r_world st) t <> [] /\
  exists st' c' s costs, run_call g 0 (Plain u (Some 2%R) 1) (st, c) = ((st', c'), Ok (s, costs)) /\ List.length costs = 1%nat.
Proof.
  destruct (rot345_built 0 ltac:(lra)) as (u & B & D & _).
  set (g := const_rng 0 0). assert (G : rng_ok g) by (apply const_rng_ok; lra).
  set (os := [NewEntry u [0%Z]; NewSequence 2 false [0%nat]]).
  set (st := {| r_world := exec 0 os w_empty; r_draws := 0 |}).
  assert (HX : exact_world (r_world st)).
  { exists os. split; [reflexivity|]. cbn [os history]. auto 10. }
  assert (HL : list_sequence (r_world st) 0 2).
  { subst st os. destruct u as [d m nm ps iv ap]. simpl in D. subst d. eexists. split; [reflexivity|]. split; reflexivity. }
  assert (HN : contents (r_world st) 0 <> []).
  { clear HX HL. subst st os. destruct u as [d m nm ps iv ap]. simpl in D. subst d. discriminate. }
  destruct (exact_winv_ex _ HX) as [K HW].
  destruct (sees_intro 0 (r_world st) 0 2 (exact_W _ HX) HL) as (pv & S).
  destruct (exact_answers _ _ _ 1 _ _ HW S) as (p & A & _).
  destruct (one_run g u st 0 G B D HX) as (st' & b' & s & costs & E & L & _).
  exists g, (set_beta (one_compiler u (1 / 2) 1) 0), u, st, 0%nat, 2%nat, p.
  split; [exact G|]. split; [now exists os|]. split; [exact HL|]. split; [exact A|]. split; [exact HN|].
  exists st', (set_beta (set_beta (one_compiler u (1 / 2) 1) 0) b'), s, costs. split; [exact E|exact L].
Qed.
