(** The report of a compilation. *)
From Coq Require Import Reals List Arith Lia Lra Bool String ZArith.
From Coquelicot Require Import Rcomplements Complex.
From Verif Require Import Base CMat CMatFacts Det DetFacts Norms ModelUnitary ModelEntry ModelPrimitive
  ModelSequence ModelCompiler ModelGates ModelText ModelExample Spec SpecModel SpecText SpecCompiler SpecExample
  PUnitary PDrift PEntry PSeqHeap PSeqMeth PSeqWorld
  PSeqUndo PCompView PCompRun PCompEntry PCompLoop PCompTrace PCompProps PCompMore PSeqNear PSeqInv PSeqHist PCompTotal PHamRun PCompCases PCompEx
  PCompCost PTextSeq.
Import ListNotations.
Set Bullet Behavior "Strict Subproofs".
Open Scope R_scope.
Open Scope C_scope.
Open Scope se_scope.

(** ** Asking for a text, as calls *)
Lemma world_eta (w : world) : {| w_heap := w_heap w; w_seqs := w_seqs w |} = w.
Proof. now destruct w. Qed.
Lemma list_set_len {A} (l : list A) s q : List.length (list_set l s q) = List.length l.
Proof. revert s; induction l as [|x l IH]; intros [|s]; simpl; auto. Qed.

Lemma h_full_len eps l d (h h' : heap) r : h_full eps l d h = (h', r) -> List.length h' = List.length h.
Proof.
  unfold h_full. destruct (get_full_unitary _ _ _) as [e' r']. intros H. injection H as <- _. apply list_set_len.
Qed.

Lemma text_loop_exec eps show d ls : forall (h h' : heap) ts seqs,
  (forall l, In l ls -> (l < List.length h)%nat) ->
  text_loop eps show d ls h = (h', Ok ts) ->
  exec eps (map (fun l => FullUnitary l d) ls) {| w_heap := h; w_seqs := seqs |} = {| w_heap := h'; w_seqs := seqs |}.
Proof.
  induction ls as [|l ls IH]; intros h h' ts seqs HL H.
  - cbn in H. injection H as <- _. reflexivity.
  - cbn [text_loop] in H. apply bind_ok in H. destruct H as (u & h1 & H1 & H).
    apply bind_ok in H. destruct H as (ts' & h2 & H2 & H). apply ret_ok in H. destruct H as [-> _].
    cbn [map exec step]. unfold se_bind, se_get. cbn [w_heap].
    assert (L : Nat.ltb l (List.length h) = true) by (apply Nat.ltb_lt, HL; now left).
    rewrite L. unfold on_heap. cbn [w_heap w_seqs]. rewrite H1. cbn [fst se_ret].
    refine (IH h1 _ _ seqs _ H2).
    intros k Hk. rewrite (h_full_len _ _ _ _ _ _ H1). apply HL. now right.
Qed.

Lemma text_evolves eps header show s w w' t : WG eps anyg w ->
  on_seq s (get_text eps header show) w = (w', Ok t) -> evolves eps (made eps) 0 w w'.
Proof.
  intros HW H. unfold on_seq in H. destruct (nth_error (w_seqs w) s) as [q|] eqn:Hq; [|discriminate].
  destruct (get_text eps header show (w_heap w, q)) as [[h' q'] r] eqn:E. injection H as <- ->.
  unfold get_text in E. apply bind_ok in E. destruct E as (q0 & st0 & E0 & E). unfold m_self in E0. injection E0 as <- <-.
  cbn [snd] in E. apply bind_ok in E. destruct E as (ls & [h1 q1] & E1 & E). apply ret_ok in E. destruct E as [E _].
  injection E as -> ->. unfold m_heap in E1. cbn [fst snd] in E1.
  destruct (text_loop eps show (s_dim q) (s_entries q) (w_heap w)) as [h2 r2] eqn:E2. injection E1 as -> -> ->.
  rewrite list_set_same by exact Hq.
  exists (map (fun l => FullUnitary l (s_dim q1)) (s_entries q1)). split; [|split].
  - assert (X := text_loop_exec eps show (s_dim q1) (s_entries q1) (w_heap w) h1 ls (w_seqs w) (proj1 (proj2 HW s q1 Hq)) E2).
    rewrite world_eta in X. now rewrite X.
  - clear. generalize (s_entries q1) as ls. intros ls. revert w. induction ls as [|l ls IH]; intros w; cbn [map history]; auto.
  - intros K. assert (U : updates (map (fun l => FullUnitary l (s_dim q1)) (s_entries q1)) K = K); [|lia].
    clear. revert K. induction (s_entries q1) as [|l ls IH]; intros K; cbn [map updates]; auto.
Qed.

(** ** Traces of near-unitary products *)
Lemma trace_gap d A B A' B' U : (0 < d)%nat -> unitary_mx d U -> unitary_mx d A' ->
  (fro d (mminus B U) <= / 100)%R ->
  (Rabs (Cmod (mtrace d (mmul d A B)) / INR d - Cmod (mtrace d (mmul d A' B')) / INR d)
    <= 101 / 100 * fro d (mminus A A') + fro d (mminus B B'))%R.
Proof.
  intros Hd HU HA HB. assert (Hd0 : (0 < INR d)%R) by (apply lt_0_INR; lia).
  set (a := mtrace d (mmul d A B)). set (b := mtrace d (mmul d A' B')).
  assert (X : (Rabs (Cmod a - Cmod b) <= Cmod (a - b))%R).
  { assert (T1 := Cmod_triangle (a - b) b). assert (T2 := Cmod_triangle (b - a) a).
    replace (a - b + b)%C with a in T1 by ring. replace (b - a + a)%C with b in T2 by ring.
    assert (E : Cmod (b - a) = Cmod (a - b)) by (rewrite <- (Cmod_opp (a - b)); f_equal; ring).
    apply Rabs_le. lra. }
  set (D := mminus (mmul d A B) (mmul d A' B')).
  assert (E : a - b = mtrace d D).
  { unfold a, b, D, mtrace. rewrite <- csum_minus. apply csum_ext. intros k Hk. reflexivity. }
  assert (F : (fro d D <= 101 / 100 * fro d (mminus A A') + fro d (mminus B B'))%R).
  { assert (K : meq d D (mplus (mplus (mmul d (mminus A A') U) (mmul d (mminus A A') (mminus B U))) (mmul d A' (mminus B B')))).
    { unfold D. rewrite !mmul_mminus_r, !mmul_mminus_l. intros i j _ _. unfold mplus, mminus. ring. }
    rewrite K. eapply Rle_trans; [apply fro_triangle|]. rewrite (fro_unitary_l d A') by auto. apply Rplus_le_compat_r.
    eapply Rle_trans; [apply fro_triangle|]. rewrite fro_unitary_r by auto.
    assert (M := fro_mmul d (mminus A A') (mminus B U)). assert (N := fro_nonneg d (mminus A A')).
    assert (N2 := fro_nonneg d (mminus B U)). nra. }
  assert (G := mtrace_fro d D). rewrite <- E in G.
  replace (Cmod a / INR d - Cmod b / INR d)%R with (/ INR d * (Cmod a - Cmod b))%R by (field; lra).
  rewrite Rabs_mult, (Rabs_pos_eq (/ INR d)) by (apply Rlt_le, Rinv_0_lt_compat; lra).
  apply (Rmult_le_reg_l (INR d)); [lra|]. rewrite <- Rmult_assoc, Rinv_r, Rmult_1_l by lra.
  eapply Rle_trans; [exact X|]. eapply Rle_trans; [exact G|]. apply Rmult_le_compat_l; lra.
Qed.

Lemma overlap_phase d c T B : Cmod c = 1%R -> overlap d (mscale c T) B = overlap d T B.
Proof.
  intros Hc. unfold overlap.
  assert (E : mtrace d (mmul d (adj (mscale c T)) B) = Cconj c * mtrace d (mmul d (adj T) B)).
  { rewrite <- mtrace_mscale. unfold mtrace. apply csum_ext. intros k Hk. unfold mscale, mmul.
    rewrite <- csum_mult_l. apply csum_ext. intros j Hj. unfold adj. rewrite Cconj_mult. ring. }
  rewrite E, Cmod_mult, Cmod_conj, Hc, Rmult_1_l. reflexivity.
Qed.

(** ** Targets *)
Definition aims (eps : R) (n : nat) (T : mat) (u : unitary) : Prop :=
  exists c, Cmod c = 1%R /\ u_dim u = (2 ^ n)%nat /\ det (2 ^ n) (u_mat u) = 1 /\ special (2 ^ n) (mscale c T) /\
    (fro (2 ^ n) (mminus (u_mat u) (mscale c T)) <= err eps n 1)%R.

Lemma made_aims eps n T nm ps iv ap u : (0 <= eps)%R -> lim eps n 1 -> unitary_mx (2 ^ n) T ->
  mk_unitary eps (2 ^ n) (Some (square (2 ^ n) T)) nm ps iv ap = Ok u -> aims eps n T u.
Proof.
  intros E0 L HU E. assert (Hd := PBits.pow2_pos n).
  assert (Z : (fro (2 ^ n) (mminus T T) <= 0)%R).
  { apply Req_le. rewrite <- (fro_mzero (2 ^ n)). apply fro_proper. intros i j _ _. unfold mminus, mzero. ring. }
  assert (X : err eps n 1 = (0 + kappa0 (2 ^ n) * eps)%R) by (unfold err, xi; ring).
  destruct L as [L1 L2]. rewrite X in L1, L2.
  destruct (normalise_gen eps (2 ^ n) T T 0 nm ps iv ap Hd E0 HU (unitary_det_mod _ T HU) Z L1 L2)
    as (p & c & Ep & Dp & De & _ & _ & _ & _ & Cc & Cd & _ & F).
  rewrite E in Ep. injection Ep as <-. exists c. split; [exact Cc|]. split; [exact Dp|]. split; [exact De|].
  split; [|rewrite X; exact F]. split; [now apply unitary_mscale|]. rewrite det_mscale. exact Cd.
Qed.

(** The distance from the target that compile() records, and the one that it tests. *)
Lemma aims_near eps n T u : aims eps n T u -> exists c, Cmod c = 1%R /\ near eps n 1 (mscale c T) u.
Proof. intros (c & Hc & D & De & S & F). exists c. repeat split; auto; apply S. Qed.

Lemma cost_gap eps n T u c1 P p O b x : (0 <= eps <= 1)%R -> aims eps n T u -> near eps n c1 P p ->
  (fro (2 ^ n) (mminus (u_mat p) O) <= b)%R -> lim eps n (S (S c1)) ->
  u_distance_from eps u p = Ok x ->
  (Rabs (x - (1 - overlap (2 ^ n) T O)) <= 101 / 100 * err eps n 2 + b)%R.
Proof.
  intros [e0 e1] HA HP HO L H. destruct (aims_near _ _ _ _ HA) as (c & Hc & HN).
  assert (L2 : lim eps n 2) by (eapply lim_mono; [exact e0|exact e1| |exact L]; lia).
  destruct (near_inverse eps e0 n 1 _ _ HN L2) as (i & Ei & (Di & Si & _ & Fi)).
  unfold u_distance_from, u_distance_from_array, square in H. cbn [nrows ncols elt] in H.
  rewrite (proj1 HN), (proj1 HP), Nat.eqb_refl in H. cbn [andb assert bind] in H. rewrite Ei in H. cbn [bind] in H. injection H as <-.
  assert (Hd := PBits.pow2_pos n). destruct HP as (Dp & (UP & _) & _ & FP).
  assert (FP' : (fro (2 ^ n) (mminus (u_mat p) P) <= / 100)%R).
  { eapply Rle_trans; [exact FP|]. assert (M := err_mono eps e0 n c1 (S (S c1)) ltac:(lia)). destruct L as [L1 _]. lra. }
  assert (G := trace_gap (2 ^ n) (u_mat i) (u_mat p) (adj (mscale c T)) O P Hd UP (proj1 Si) FP').
  rewrite <- (overlap_phase (2 ^ n) c T O Hc). unfold overlap.
  match goal with |- (Rabs ?a <= _)%R => replace a with
    (- (Cmod (mtrace (2 ^ n) (mmul (2 ^ n) (u_mat i) (u_mat p))) / INR (2 ^ n) -
        Cmod (mtrace (2 ^ n) (mmul (2 ^ n) (adj (mscale c T)) O)) / INR (2 ^ n)))%R by ring end.
  rewrite Rabs_Ropp. lra.
Qed.

Lemma test_gap eps n T u c1 P p O b x : (0 <= eps <= 1)%R -> aims eps n T u -> near eps n c1 P p ->
  (fro (2 ^ n) (mminus P O) <= b)%R -> lim eps n (S (S c1)) ->
  u_distance_from eps p u = Ok x ->
  (Rabs (x - (1 - overlap (2 ^ n) T O)) <= 101 / 100 * err eps n 1 + err eps n (S c1) + b)%R.
Proof.
  intros [e0 e1] HA HP HO L H. destruct (aims_near _ _ _ _ HA) as (c & Hc & HN).
  assert (L2 : lim eps n (S c1)) by (eapply lim_mono; [exact e0|exact e1| |exact L]; lia).
  destruct (near_inverse eps e0 n c1 _ _ HP L2) as (i & Ei & (Di & Si & _ & Fi)).
  unfold u_distance_from, u_distance_from_array, square in H. cbn [nrows ncols elt] in H.
  rewrite (proj1 HN), (proj1 HP), Nat.eqb_refl in H. cbn [andb assert bind] in H. rewrite Ei in H. cbn [bind] in H. injection H as <-.
  assert (Hd := PBits.pow2_pos n). destruct HN as (Du & Su & _ & Fu).
  assert (Fi' : (fro (2 ^ n) (mminus (u_mat i) (adj P)) <= / 100)%R).
  { eapply Rle_trans; [exact Fi|]. destruct L2 as [L1 _]. lra. }
  assert (G := trace_gap (2 ^ n) (u_mat u) (u_mat i) (mscale c T) (adj O) (adj P) Hd (proj1 Si) (proj1 Su) Fi').
  rewrite mtrace_mmul_comm in G.
  assert (E : Cmod (mtrace (2 ^ n) (mmul (2 ^ n) (mscale c T) (adj O))) = Cmod (mtrace (2 ^ n) (mmul (2 ^ n) (adj (mscale c T)) O))).
  { rewrite <- (Cmod_conj (mtrace (2 ^ n) (mmul (2 ^ n) (adj (mscale c T)) O))), <- mtrace_adj.
    f_equal. rewrite mtrace_mmul_comm. unfold mtrace. apply csum_ext. intros k Hk. symmetry.
    transitivity (mmul (2 ^ n) (adj O) (adj (adj (mscale c T))) k k); [now apply adj_mmul|].
    apply csum_ext. intros j Hj. now rewrite (adj_adj (2 ^ n) (mscale c T) j k). }
  rewrite E in G. rewrite <- (overlap_phase (2 ^ n) c T O Hc). unfold overlap.
  match goal with |- (Rabs ?a <= _)%R => replace a with
    (- (Cmod (mtrace (2 ^ n) (mmul (2 ^ n) (u_mat i) (u_mat u))) / INR (2 ^ n) -
        Cmod (mtrace (2 ^ n) (mmul (2 ^ n) (adj (mscale c T)) O)) / INR (2 ^ n)))%R by ring end.
  rewrite Rabs_Ropp. eapply Rle_trans; [exact G|].
  assert (A := fro_minus_triangle (2 ^ n) (u_mat i) (adj P) (adj O)).
  assert (B : fro (2 ^ n) (mminus (adj P) (adj O)) = fro (2 ^ n) (mminus P O)).
  { rewrite <- (fro_adj _ (mminus P O)). apply fro_proper. intros r k _ _. unfold adj, mminus. now rewrite Cconj_minus. }
  lra.
Qed.

(** ** The first test of the loop *)
Lemma loop_grows g eps change s target thr max : forall fuel cs st st' cs',
  compile_loop g eps change s target thr max cs fuel st = (st', Ok cs') -> (List.length cs <= List.length cs')%nat.
Proof.
  induction fuel as [|fuel IH]; intros cs st st' cs' H; cbn [compile_loop] in H; [discriminate|].
  apply bind_ok in H. destruct H as (p & st1 & _ & H). apply bind_ok in H. destruct H as (b & st2 & _ & H).
  destruct b; [apply ret_ok in H; destruct H as [_ ->]; lia|].
  destruct (Z.ltb _ _); [|apply ret_ok in H; destruct H as [_ ->]; lia].
  apply bind_ok in H. destruct H as (cost & st3 & _ & H). apply IH in H. rewrite app_length in H. simpl in H. lia.
Qed.

Lemma with_first g eps change c target thr max st st' c' s costs K : (0 <= eps <= 1)%R ->
  drift_world eps K (r_world st) -> (0 < max)%Z ->
  compile_with g eps change target thr max (st, c) = ((st', c'), Ok (s, costs)) ->
  exists w p close, drift_world eps K w /\ has_dim w s (c_dim c) /\ contents w s = [] /\
    answers eps w s p /\ u_close_to eps p target thr = Ok close /\ (close = true <-> costs = []).
Proof.
  intros HE HX Hm H. unfold compile_with in H.
  apply bind_ok in H. destruct H as (cc & sty & H0 & H). unfold c_self in H0. injection H0 as <- <-.
  cbn [snd] in H. apply bind_ok in H. destruct H as (s0 & [st1 c1] & H1 & H).
  apply c_run_inv in H1. destruct H1 as [H1 ->]. apply call_sequence_ok in H1. destruct H1 as [H1 _].
  assert (HX1 : drift_world eps K (r_world st1)).
  { assert (T := evolves_step eps (made eps) 0 (NewSequence (c_dim c) false []) (r_world st) eq_refl). rewrite H1 in T. cbn [fst] in T.
    rewrite <- (Nat.add_0_r K). eapply evolves_drift; eauto. }
  destruct (new_sequence_view eps (r_world st) (c_dim c) (winv_any _ _ _ _ (drift_winv eps K _ HE HX))) as (w1 & E & S1).
  rewrite E in H1. injection H1 as E1 E2.
  apply bind_ok in H. destruct H as (costs1 & [st2 c2] & H2 & H). apply ret_ok in H. destruct H as [H H3].
  injection H as -> ->. injection H3 as -> ->. rewrite E1, E2 in S1. clear E E1 E2 w1 HX.
  cbn [compile_loop] in H2. apply bind_ok in H2. destruct H2 as (p & [st3 c3] & Hp & H2).
  apply c_run_inv in Hp. destruct Hp as [Hp ->]. apply call_unitary_ok in Hp. destruct Hp as [Hp _].
  destruct (product_view eps _ _ _ _ _ _ _ S1 Hp) as (p' & Ep & _ & A & _). injection Ep as <-.
  apply bind_ok in H2. destruct H2 as (b & stz & Hb & H2). apply lift_ok in Hb. destruct Hb as [-> Hb].
  exists (r_world st1), p, b. split; [exact HX1|]. split; [exact (sees_has_dim _ _ _ _ _ _ S1)|].
  split; [exact (sees_contents _ _ _ _ _ _ S1)|]. split; [exact A|]. split; [exact Hb|]. destruct b.
  - apply ret_ok in H2. destruct H2 as [_ ->]. tauto.
  - split; [discriminate|]. intros ->. destruct (Z.ltb_spec (Z.of_nat (@List.length R [])) max) as [Hl|Hl]; [|cbn in Hl; lia].
    apply bind_ok in H2. destruct H2 as (cost & st4 & _ & H2). apply loop_grows in H2. simpl in H2. lia.
Qed.

Lemma close_none eps u v b : u_close_to eps u v None = Ok b ->
  exists x, u_distance_from eps u v = Ok x /\ (b = true <-> (Rabs x <= / 10 ^ 8)%R).
Proof.
  unfold u_close_to. destruct (u_distance_from eps u v) as [x|e]; cbn [bind]; [|discriminate]. intros H. injection H as <-.
  exists x. split; [reflexivity|]. rewrite isclose_spec. replace (RtoC x - 0) with (RtoC x) by ring.
  rewrite Cmod_R, Cmod_0, Rmult_0_r, Rplus_0_r. reflexivity.
Qed.

Lemma run_length s w : forall d, has_dim w s d -> on_seq s get_length w = (w, Ok (List.length (contents w s))).
Proof.
  intros d (q & Hq & _). unfold on_seq, get_length, contents. rewrite Hq. unfold se_bind, m_self, se_ret. cbn [fst snd].
  rewrite list_set_same by exact Hq. rewrite world_eta, map_length. reflexivity.
Qed.

Lemma C94_report_lemma : forall fmt g eps n K max st c T nm ps iv ap target,
  rng_ok g -> (forall k x, numeral (fmt k x)) ->
  drift_world eps K (r_world st) -> good_compiler eps n c ->
  c_array c = false \/ List.length (c_prims c) = 1%nat ->
  (forall p u, In p (c_prims c) -> instance eps p u -> plain_gate u) ->
  unitary_mx (2 ^ n) T -> mk_unitary eps (2 ^ n) (Some (square (2 ^ n) T)) nm ps iv ap = Ok target ->
  (0 < max)%Z -> small_drift eps n (S (K + Z.to_nat max)) ->
  let bound := (6 * drift_bound eps n (S (K + Z.to_nat max)))%R in
  exists st' b, drift_world eps (K + Z.to_nat max) (r_world st') /\
    ((exists r, compile_and_report fmt g eps target max (st, c) = ((st', set_beta c b), Ok r) /\
        truthful fmt n T max bound (r_world st') r /\
        (forall l, In l (contents (r_world st') (rp_seq r)) ->
           exists p, weighted (c_prims c) (c_probs c) p /\ allows eps (2 ^ n) p l) /\
        (/ 10 ^ 8 - bound < infidelity n T [])%R) \/
     (compile_and_report fmt g eps target max (st, c) = ((st', set_beta c b), Raise IndexError) /\
        (infidelity n T [] <= / 10 ^ 8 + bound)%R)).
Proof.
  intros fmt g eps n K max st c T nm ps iv ap target G Hf HX HC HA Hpl HT Et Hm SD bound.
  assert (HE := proj1 SD). destruct HE as [e0 e1]. set (N := (K + Z.to_nat max)%nat) in *.
  destruct (drift_small _ _ _ SD) as [L B].
  assert (Dt : u_dim target = (2 ^ n)%nat) by (apply mk_unitary_det in Et; apply Et).
  assert (Mt : made eps target) by (do 6 eexists; split; [left; exact HT|exact Et]).
  assert (At : aims eps n T target).
  { eapply made_aims; eauto. eapply lim_mono; [exact e0|exact e1| |exact L]. lia. }
  destruct (C28_drift_lemma g eps st c target None max n K G HX HC HA Mt Dt SD) as (st1 & c1 & s & costs & Hc).
  assert (Hd := proj1 HC). assert (HS : forall p, In p (c_prims c) -> good_source eps (p_source p)).
  { intros p Hp. destruct HC as (_ & _ & HC & _). apply (HC p Hp). }
  assert (SD' : small_drift eps n N).
  { split; [auto|]. assert (X : (0 <= drift_bound eps n N <= drift_bound eps n (S N))%R).
    { unfold drift_bound. rewrite S_INR. assert (P1 := pos_INR N). assert (P2 := pos_INR (2 ^ n)). assert (P3 := sqrt_pos (INR (2 ^ n))).
      assert (Y : (0 <= INR (2 ^ n) * (sqrt (INR (2 ^ n)) + 1) * eps)%R) by (repeat apply Rmult_le_pos; lra).
      replace (14 * INR N * INR (2 ^ n) * (sqrt (INR (2 ^ n)) + 1) * eps)%R with (14 * INR N * (INR (2 ^ n) * (sqrt (INR (2 ^ n)) + 1) * eps))%R by ring.
      replace (14 * (INR N + 1) * INR (2 ^ n) * (sqrt (INR (2 ^ n)) + 1) * eps)%R with (14 * (INR N + 1) * (INR (2 ^ n) * (sqrt (INR (2 ^ n)) + 1) * eps))%R by ring.
      nra. }
    destruct SD as (_ & S1 & S2). split; [lra|]. eapply Rle_trans; [|exact S2]. apply Rmult_le_compat_l; [apply pos_INR|apply X]. }
  destruct (C26_drift_lemma g eps st c target None max st1 c1 s costs n K G HX Hd HS SD' Hc) as (HX1 & p & close & Ap & Dp & Fp & Hcl & Hend).
  assert (Hreach : reachable eps (r_world st)) by (destruct HX as (os & -> & _); exists os; reflexivity).
  destruct (C24_lemma g eps st c target None max st1 c1 s costs G Hreach Hc) as (Hlen & _).
  destruct (C27_lemma g eps st c target None max st1 c1 s costs G Hreach Hc) as (HD1 & Hall). rewrite Hd in HD1, Hall.
  assert (Hcb : exists b, c1 = set_beta c b).
  { assert (Q := Hc). apply compile_inv in Q.
    destruct (with_traced g eps (made eps) c 1 (make_random_change g eps) target None max
      (fun s0 => single_traced g eps G (made eps) c s0 (good_safe eps (made eps) (c_prims c) (fun u Hu => Hu) HS)) st (c_beta c)) as [_ [b Hb]].
    rewrite set_beta_same, Q in Hb. cbn [fst snd] in Hb. eauto. }
  destruct Hcb as [b ->].
  assert (HW1 := drift_winv eps N _ (conj e0 e1) HX1).
  assert (L8 : lim eps n (8 * N)) by (eapply lim_mono; [exact e0|exact e1| |exact L]; lia).
  destruct (winv_stored eps N (r_world st1) s n (conj e0 e1) HW1 HD1 L8) as (p' & A' & NP & FO & FP & HG & HK).
  assert (p' = p) by (eapply answers_unique; eauto). subst p'.
  assert (L6 : lim eps n (S (S (6 * N)))) by (eapply lim_mono; [exact e0|exact e1| |exact L]; lia).
  assert (B0 : (0 <= drift_bound eps n (S N))%R) by (eapply Rle_trans; [|exact B]; apply err_pos; auto).
  assert (EM : forall k, (k <= 8 * S N)%nat -> (err eps n k <= drift_bound eps n (S N))%R).
  { intros k Hk. eapply Rle_trans; [|exact B]. now apply err_mono. }
  assert (Eq : compile g eps target None max (st, c) = ((st1, set_beta c b), Ok (s, costs))) by exact Hc.
  destruct (with_first g eps (make_random_change g eps) c target None max st st1 (set_beta c b) s costs K (conj e0 e1) HX Hm (compile_inv _ _ _ _ _ _ _ _ _ _ Hc))
    as (w0 & p0 & close0 & HX0 & HD0 & HC0 & A0 & Hcl0 & Hemp). rewrite Hd in HD0.
  assert (Far : forall x0, u_distance_from eps p0 target = Ok x0 -> (Rabs (x0 - infidelity n T []) <= bound)%R).
  { intros x0 Hx0. assert (LK : lim eps n (8 * K)) by (eapply lim_mono; [exact e0|exact e1| |exact L]; unfold N; lia).
    destruct (winv_stored eps K w0 s n (conj e0 e1) (drift_winv eps K _ (conj e0 e1) HX0) HD0 LK) as (p' & A0' & N0 & F0 & _).
    assert (p' = p0) by (eapply answers_unique; eauto). subst p'. rewrite HC0 in *.
    assert (LS : lim eps n (S (S (6 * K)))) by (eapply lim_mono; [exact e0|exact e1| |exact L]; unfold N; lia).
    rewrite fro_minus_sym in F0.
    assert (X := test_gap eps n T target (6 * K) _ p0 _ _ x0 (conj e0 e1) At N0 F0 LS Hx0).
    assert (M1 := EM 1%nat ltac:(lia)). assert (M2 := EM (S (6 * K)) ltac:(unfold N; lia)). assert (M3 := EM (2 * K)%nat ltac:(unfold N; lia)).
    unfold infidelity, bound. eapply Rle_trans; [exact X|]. lra. }
  destruct (close_none _ _ _ _ Hcl0) as (x0 & Ex0 & Hx0). specialize (Far x0 Ex0).
  assert (Run : forall A (k : nat -> CM A), (n0 <-- c_run (run_seq s get_length) ;; k n0) (st1, set_beta c b) =
    k (List.length (contents (r_world st1) s)) (st1, set_beta c b)).
  { intros A k. unfold se_bind, c_run, run_seq. cbn [fst snd]. rewrite (run_length s (r_world st1) _ HD1). destruct st1. reflexivity. }
  destruct costs as [|c0 costs'].
  - exists st1, b. split; [exact HX1|]. right. split.
    + unfold compile_and_report. unfold se_bind at 1. rewrite Eq. cbn [fst snd]. rewrite Run. reflexivity.
    + assert (close0 = true) by (now apply Hemp). apply Hx0 in H. clear - Far H.
      apply Rabs_le_between in Far. apply Rabs_le_between in H. lra.
  - set (cs := c0 :: costs') in *. assert (NE : cs <> []) by discriminate.
    destruct (C25_drift_lemma g eps st c target None max st1 (set_beta c b) s cs n K G HX Hd HS Mt Dt SD Hc NE) as (p2 & x & A2 & Ex & Hx).
    assert (p2 = p) by (eapply answers_unique; eauto). subst p2.
    assert (Hplain : forall gt, In gt (contents (r_world st1) s) -> plain_gate (fst gt)).
    { intros gt Hgt. rewrite List.Forall_forall in Hall. destruct (Hall gt Hgt) as (pr & (i & Hi & _) & (HI & _)).
      apply (Hpl pr); [|exact HI]. apply nth_error_In in Hi. now apply filter_In in Hi. }
    assert (HX1' := HX1). destruct HX1' as (os & Ew & Hh & Hu).
    assert (HF := winv_full eps false N (r_world st1) s n (conj e0 e1) HW1 HD1).
    destruct (text_exists eps (r_world st1) s (2 ^ n) "# QASM generated from UnitarySequence.get_qasm()" (u_get_qasm fmt)
      (winv_any _ _ _ _ HW1) HD1 (HF ltac:(left; eapply lim_mono; [exact e0|exact e1| |exact L8]; unfold unit_cost, gc; lia))) as (t & Ht).
    fold (get_qasm fmt eps) in Ht.
    destruct (on_seq s (get_qasm fmt eps) (r_world st1)) as [w' rt] eqn:Etx. cbn [snd] in Ht. subst rt.
    assert (Ev := text_evolves eps _ _ s _ _ _ (winv_any _ _ _ _ HW1) Etx).
    assert (HXw : drift_world eps N w') by (rewrite <- (Nat.add_0_r N); eapply evolves_drift; eauto).
    assert (RB := C51_read_back_lemma fmt eps os s t Hf). cbv zeta in RB. rewrite <- Ew in RB.
    destruct (RB Hplain) as (RB1 & _). rewrite Etx in RB1. specialize (RB1 eq_refl). clear RB.
    assert (TE := text_effect eps "# QASM generated from UnitarySequence.get_qasm()" (u_get_qasm fmt) os s s (2 ^ n)).
    cbv zeta in TE. rewrite <- Ew in TE. fold (get_qasm fmt eps) in TE. rewrite Etx in TE. cbn [fst] in TE.
    destruct (TE HD1) as (HDw & HCw & _).
    exists {| r_world := w'; r_draws := r_draws st1 |}, b. split; [exact HXw|]. left.
    exists {| rp_seq := s; rp_length := List.length (contents (r_world st1) s); rp_cost := last cs 0%R;
              rp_steps := List.length cs; rp_qasm := t |}.
    split; [|split; [|split]].
    + unfold compile_and_report. unfold se_bind at 1. rewrite Eq. cbn [fst snd]. rewrite Run.
      unfold se_bind at 1. unfold se_lift at 1. unfold cs at 1. cbn [last_item]. fold cs.
      unfold se_bind, c_run, run_seq. cbn [fst snd]. rewrite Etx. reflexivity.
    + unfold truthful. cbn [rp_seq rp_length rp_cost rp_steps rp_qasm r_world]. rewrite HCw. split; [exact HDw|].
      split; [reflexivity|]. split; [unfold cs in *; cbn [List.length] in *; lia|].
      assert (CG := cost_gap eps n T target (6 * N) _ p _ _ x (conj e0 e1) At NP FP L6 Ex).
      assert (M2 := EM 2%nat ltac:(lia)). assert (M8 := EM (8 * N)%nat ltac:(lia)). fold (infidelity n T (contents (r_world st1) s)) in CG.
      split.
      { unfold bound. replace (last cs 0 - infidelity n T (contents (r_world st1) s))%R
          with ((x - infidelity n T (contents (r_world st1) s)) - (x - last cs 0))%R by ring.
        eapply Rle_trans; [apply Rabs_triang|]. rewrite Rabs_Ropp. fold N in Hx. lra. }
      split; [|exact RB1]. intros Hlt. destruct close; [|specialize (Hend eq_refl); lia].
      destruct (close_none _ _ _ _ Hcl) as (y & Ey & Hy). assert (Hy' := proj1 Hy eq_refl).
      rewrite fro_minus_sym in FO.
      assert (TG := test_gap eps n T target (6 * N) _ p _ _ y (conj e0 e1) At NP FO L6 Ey). fold (infidelity n T (contents (r_world st1) s)) in TG.
      assert (M1 := EM 1%nat ltac:(lia)). assert (M6 := EM (S (6 * N)) ltac:(lia)). assert (M3 := EM (2 * N)%nat ltac:(lia)).
      apply Rabs_le_between in TG. apply Rabs_le_between in Hy'. unfold bound. lra.
    + cbn [r_world rp_seq]. rewrite HCw. intros l Hl. rewrite List.Forall_forall in Hall. exact (Hall l Hl).
    + destruct close0; [assert (X : cs = []) by (now apply Hemp); discriminate|].
      assert (Hx1 : ~ (Rabs x0 <= / 10 ^ 8)%R) by (intros H; apply Hx0 in H; discriminate).
      apply Rnot_le_lt in Hx1.
      assert (P0 : (0 <= infidelity n T [])%R).
      { assert (X := overlap_le_1 (2 ^ n) T (ordered n []) (proj1 (Nat.neq_0_lt_0 _) (Nat.pow_nonzero 2 n ltac:(lia))) HT (unitary_mid _)). unfold infidelity. lra. }
      clear - Far Hx1 P0. apply Rabs_le_between in Far. unfold Rabs in Hx1. destruct (Rcase_abs x0); lra.
Qed.
