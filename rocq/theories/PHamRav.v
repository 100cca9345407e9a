(** RAV sequences of a Hamiltonian: C45. *)
From Coq Require Import Reals List Arith Bool String ZArith Lra Lia Permutation Sorted.
From Coquelicot Require Import Coquelicot.
From Verif Require PBits.
From Verif Require Import Base CMat CMatFacts Det DetFacts Norms CRoot Expm ExpmFacts ExpmBounds ModelUnitary ModelEntry
  ModelPrimitive ModelSequence ModelCompiler ModelVerification ModelGates ModelHamiltonian Spec SpecModel
  SpecCompiler SpecGates SpecHamiltonian PUnitary PDrift PEmbed PEntry PSeqHeap PSeqMeth PSeqNear PSeqWorld PSeqUndo
  PCompView PCompRun PCompEntry PCompLoop PCompTrace PCompTotal PCompProps PCompMore PSeqInv PSeqHist PSeqProps PVerify
  PVerifyProps PGates PHam PHamTerm PHamSeq PHamRun PHamTrot PHamSub PHamStoq.
Import ListNotations.
Open Scope R_scope.
Open Scope C_scope.
Open Scope res_scope.
Open Scope se_scope.

(** * The times *)
Lemma rav_time_shift g T d j : rav_time g T (d + 3) j = rav_time g T d (Datatypes.S j).
Proof.
  unfold rav_time. replace (d + 3 + 3 * j)%nat with (d + 3 * Datatypes.S j)%nat by lia. reflexivity.
Qed.
Lemma rav_subset_shift g ls d j : rav_subset g ls (d + 3) j = rav_subset g ls d (Datatypes.S j).
Proof.
  unfold rav_subset. replace (d + 3 + 3 * j)%nat with (d + 3 * Datatypes.S j)%nat by lia. reflexivity.
Qed.
Lemma rav_elapsed_0 g T d : rav_elapsed g T d 0 = 0%R.
Proof. reflexivity. Qed.
Lemma rav_elapsed_first g T d k :
  rav_elapsed g T d (Datatypes.S k) = (Rabs (rav_time g T d 0) + rav_elapsed g T (d + 3) k)%R.
Proof.
  unfold rav_elapsed. cbn [seq map fold_right]. f_equal. rewrite <- seq_shift, map_map. f_equal. apply map_ext.
  intros j. now rewrite rav_time_shift.
Qed.
Lemma rav_elapsed_last g T d k :
  rav_elapsed g T d (Datatypes.S k) = (rav_elapsed g T d k + Rabs (rav_time g T d k))%R.
Proof.
  unfold rav_elapsed. rewrite seq_S, map_app. cbn [map Nat.add].
  induction (map (fun j => Rabs (rav_time g T d j)) (seq 0 k)) as [|x l IH]; cbn [app fold_right]; [ring|]. rewrite IH. ring.
Qed.

Lemma rav_time_bound g T d j : rng_ok g -> (0 <= T)%R -> (- T <= rav_time g T d j <= T)%R.
Proof.
  intros (U & _) T0. unfold rav_time. specialize (U (d + 3 * j)%nat).
  assert (0 <= T * g_unif g (d + 3 * j))%R by (apply Rmult_le_pos; lra).
  assert (T * g_unif g (d + 3 * j) <= T * 1)%R by (apply Rmult_le_compat_l; lra).
  destruct (Rlt_dec _ _); lra.
Qed.
Lemma rav_time_abs g T d j : rng_ok g -> (0 <= T)%R -> Rabs (rav_time g T d j) = (T * g_unif g (d + 3 * j))%R.
Proof.
  intros (U & _) T0. unfold rav_time. specialize (U (d + 3 * j)%nat).
  assert (0 <= T * g_unif g (d + 3 * j))%R by (apply Rmult_le_pos; lra).
  destruct (Rlt_dec _ _).
  - rewrite Rmult_1_r. now apply Rabs_pos_eq.
  - replace (T * g_unif g (d + 3 * j) * -1)%R with (- (T * g_unif g (d + 3 * j)))%R by ring. rewrite Rabs_Ropp. now apply Rabs_pos_eq.
Qed.
(** A step is shorter than [T], unless [T = 0]. *)
Lemma rav_time_strict g T d j : rng_ok g -> (0 < T)%R -> (Rabs (rav_time g T d j) < T)%R.
Proof.
  intros G T0. rewrite rav_time_abs by (auto; lra). destruct G as (U & _). specialize (U (d + 3 * j)%nat).
  rewrite <- (Rmult_1_r T) at 2. apply Rmult_lt_compat_l; lra.
Qed.
Lemma rav_elapsed_zero g d k : rng_ok g -> rav_elapsed g 0 d k = 0%R.
Proof.
  intros G. induction k as [|k IH]; [reflexivity|]. rewrite rav_elapsed_last, IH, rav_time_abs by (auto; lra). ring.
Qed.
Lemma rav_elapsed_grows g T d delta k : rng_ok g -> (0 <= T)%R ->
  (forall j, (delta <= g_unif g (d + 3 * j))%R) -> (INR k * (T * delta) <= rav_elapsed g T d k)%R.
Proof.
  intros G T0 H. induction k as [|k IH]; [rewrite rav_elapsed_0; simpl; lra|].
  rewrite rav_elapsed_last, S_INR, rav_time_abs by auto.
  assert (T * delta <= T * g_unif g (d + 3 * k))%R by now apply Rmult_le_compat_l. lra.
Qed.

Lemma F2_map_l {A B C} (f : A -> B) (P : B -> C -> Prop) l r : Forall2 (fun a c => P (f a) c) l r -> Forall2 P (map f l) r.
Proof. intros H. induction H; constructor; auto. Qed.

Lemma F2_nth {A B} (P : A -> B -> Prop) l r i b d : Forall2 P l r -> nth_error r i = Some b -> P (nth i l d) b.
Proof.
  intros H. revert i. induction H as [|x y l r H F IH]; intros [|i] E; try discriminate.
  - injection E as <-. exact H.
  - cbn [nth]. now apply IH.
Qed.

(** * The loop *)
Section Loop.
Variables (g : rng) (eps : R) (n : nat) (Ms : list mat) (h : hamiltonian) (T time : R).
Hypothesis G : rng_ok g.
Hypothesis n1 : (1 <= n)%nat.
Hypothesis HH : hamiltonian_of (2 ^ n) Ms h.
Hypothesis T0 : (0 <= T)%R.
Variables (ls : list (list nat)) (ps : list primitive) (s : nat).
Hypothesis F : Forall2 (subset_prim eps n Ms T) ls ps.
Hypothesis NE : ls <> [].
Notation W := (WG eps anyg).
Notation sees := (sees eps).
Notation aq := (map Z.of_nat (seq 0 n)).
Notation loop k := (rav_loop eps g k ps aq T time s).
Notation SG d j := (subset_gate eps n Ms (rav_subset g ls d j) (rav_time g T d j)).

Lemma entry_evolves safe u st st1 l : call_entry eps (NewEntry u aq) st = (st1, Ok l) -> (safe u : Prop) ->
  evolves eps safe 0 (r_world st) (r_world st1).
Proof.
  intros H HS. apply call_entry_ok in H. destruct H as [H _].
  assert (X := traced_call eps safe 0 (NewEntry u aq) HS st). unfold call in X. rewrite H in X. exact X.
Qed.

Lemma rav_round k tot st : W (r_world st) -> (tot < time)%R ->
  exists st1 l u, grows eps st st1 /\ r_draws st1 = (r_draws st + 3)%nat /\ has_gate (r_world st1) l (on_all n u) /\
    SG (r_draws st) 0%nat (on_all n u) /\
    (forall safe : unitary -> Prop, (forall u, made eps u -> safe u) -> evolves eps safe 0 (r_world st) (r_world st1)) /\
    loop (Datatypes.S k) tot st =
      (call eps (AppendLast s l true) ;;; loop k (tot + Rabs (rav_time g T (r_draws st) 0))%R) st1.
Proof.
  intros HW HT. set (d := r_draws st).
  assert (LL := F2_length _ _ _ F). assert (LP : (0 < List.length ls)%nat) by (destruct ls; [congruence|simpl; lia]).
  set (st0 := {| r_world := r_world st; r_draws := (d + 3)%nat |}).
  set (i := g_int g (d + 2) (List.length ps)).
  assert (Hi : (i < List.length ps)%nat) by (apply G; lia).
  destruct (nth_error ps i) as [p|] eqn:Ep; [|apply nth_error_None in Ep; lia].
  assert (SPp := F2_nth _ _ _ _ _ [] F Ep).
  destruct (prim_at_ok eps n Ms h T HH _ p (rav_time g T d 0) SPp (rav_time_bound g T d 0 G T0))
    as (u & Eu & Mu & Du & SGu).
  destruct (entry_all eps n n1 st0 u HW Du) as (st1 & l & E1 & D1 & G1 & HG).
  exists st1, l, u. split; [|split; [exact D1|split; [exact HG|split; [|split]]]].
  - destruct G1 as [A1 A2]. split; [exact A1|exact A2].
  - unfold rav_subset. rewrite Nat.mul_0_r, Nat.add_0_r, LL. exact SGu.
  - intros safe HS. apply (entry_evolves safe u st0 st1 l E1). auto.
  - cbn [rav_loop]. unfold Rltb. destruct (Rlt_dec tot time); [|contradiction].
    unfold draw_unif. unfold se_bind at 1. unfold se_bind at 1. cbn [r_draws r_world].
    unfold se_bind at 1, choice_unif. destruct (Nat.eqb_spec (List.length ps) 0); [lia|]. cbn [r_draws r_world].
    replace (Datatypes.S (Datatypes.S (r_draws st))) with (d + 2)%nat by (unfold d; lia). fold i. rewrite Ep.
    assert (ET : (T * g_unif g (r_draws st) * (if if Rlt_dec (g_unif g (Datatypes.S (r_draws st))) (8 / 10) then true else false
       then 1 else -1))%R = rav_time g T d 0).
    { unfold rav_time. rewrite Nat.mul_0_r, Nat.add_0_r. unfold d. rewrite Nat.add_1_r. now destruct (Rlt_dec _ _). }
    rewrite ET. unfold se_bind at 1, se_lift. rewrite Eu.
    replace (Datatypes.S (d + 2)) with (d + 3)%nat by lia. fold st0. rewrite (bind_eq _ _ _ _ _ E1). reflexivity.
Qed.

Lemma rav_loop_done k tot st : ~ (tot < time)%R -> loop k tot st = (st, Ok tt).
Proof. intros H. destruct k; cbn [rav_loop]; unfold Rltb; destruct (Rlt_dec tot time); try contradiction; reflexivity. Qed.

Lemma rav_loop_ok fuel : forall st st' tot cs pv, loop fuel tot st = (st', Ok tt) -> sees (r_world st) s (2 ^ n) cs pv ->
  exists k rand pv', sees (r_world st') s (2 ^ n) (cs ++ rand) pv' /\
    Forall2 (fun j gt => SG (r_draws st) j gt) (seq 0 k) rand /\
    (time <= tot + rav_elapsed g T (r_draws st) k)%R /\
    (forall k', (k' < k)%nat -> (tot + rav_elapsed g T (r_draws st) k' < time)%R) /\ (k <= fuel)%nat /\
    (forall safe : unitary -> Prop, (forall u, made eps u -> safe u) -> evolves eps safe k (r_world st) (r_world st')).
Proof.
  induction fuel as [|fuel IH]; intros st st' tot cs pv H S; destruct (Rlt_le_dec tot time) as [HT|HT].
  - cbn [rav_loop] in H. unfold Rltb in H. destruct (Rlt_dec tot time); [discriminate|contradiction].
  - rewrite rav_loop_done in H by lra. injection H as <-. exists 0%nat, [], pv. rewrite app_nil_r, rav_elapsed_0.
    split; [exact S|]. split; [constructor|]. split; [lra|]. split; [intros; lia|]. split; [lia|]. intros. apply evolves_refl.
  - destruct (rav_round fuel tot st (sees_W _ _ _ _ _ _ S) HT) as (st1 & l & u & GR & D1 & HG & SGu & EV & E).
    rewrite E in H. apply bind_ok in H. destruct H as (v & st2 & H2 & H).
    assert (TR := fun safe => traced_call eps safe 1 (AppendLast s l true) (le_n 1) st1). rewrite H2 in TR. cbn [fst] in TR.
    apply call_ok in H2. destruct H2 as [H2 D2].
    destruct (proj1 (proj2 (proj2 GR s)) _ _ _ S) as [S1 _].
    destruct (append_last_view eps _ _ _ _ _ _ _ _ _ _ S1 HG H2) as (S2 & _).
    destruct (IH _ _ _ _ _ H S2) as (k & rand & pv' & S3 & FR & T1 & T2 & Lk & EV3).
    rewrite D1 in D2. rewrite D2 in FR, T1, T2. exists (Datatypes.S k), (on_all n u :: rand), pv'.
    rewrite <- app_assoc in S3. split; [exact S3|]. split; [|split; [|split; [|split; [lia|]]]].
    + cbn [seq]. constructor; [exact SGu|]. rewrite <- seq_shift. apply F2_map_l. eapply F2_impl; [|exact FR].
      intros j gt. cbv beta. rewrite rav_time_shift, rav_subset_shift. auto.
    + rewrite rav_elapsed_first. lra.
    + intros [|k'] Hk; [rewrite rav_elapsed_0; lra|]. rewrite rav_elapsed_first. specialize (T2 k' ltac:(lia)). lra.
    + intros safe HS. change (Datatypes.S k) with (0 + (1 + k))%nat. eapply evolves_trans; [apply EV, HS|].
      eapply evolves_trans; [apply TR|]. now apply EV3.
  - rewrite rav_loop_done in H by lra. injection H as <-. exists 0%nat, [], pv. rewrite app_nil_r, rav_elapsed_0.
    split; [exact S|]. split; [constructor|]. split; [lra|]. split; [intros; lia|]. split; [lia|]. intros. apply evolves_refl.
Qed.

(** Whether the loop ends depends only on the draws. *)
Lemma rav_loop_runs b fuel : (0 <= eps)%R -> (eps <= 1)%R -> (forall u, made eps u -> safe_gate eps b u) ->
  forall st K tot cs pv, winv eps b K (r_world st) -> sees (r_world st) s (2 ^ n) cs pv ->
  limb eps b n (unit_cost b * (K + fuel)) ->
  exists st' r, loop fuel tot st = (st', r) /\
    ((exists k, (k <= fuel)%nat /\ (time <= tot + rav_elapsed g T (r_draws st) k)%R) -> r = Ok tt) /\
    ((forall k, (k <= fuel)%nat -> (tot + rav_elapsed g T (r_draws st) k < time)%R) -> r = Raise OutOfFuel).
Proof.
  intros E0 E1 HB. induction fuel as [|fuel IH]; intros st K tot cs pv HW S L; destruct (Rlt_le_dec tot time) as [HT|HT].
  - exists st, (Raise OutOfFuel). cbn [rav_loop]. unfold Rltb. destruct (Rlt_dec tot time); [|contradiction].
    split; [reflexivity|]. split; [|reflexivity]. intros (k & Hk & X). exfalso.
    replace k with 0%nat in X by lia. rewrite rav_elapsed_0 in X. lra.
  - exists st, (Ok tt). rewrite rav_loop_done by lra. split; [reflexivity|]. split; [reflexivity|].
    intros X. specialize (X 0%nat ltac:(lia)). rewrite rav_elapsed_0 in X. lra.
  - destruct (rav_round fuel tot st (sees_W _ _ _ _ _ _ S) HT) as (st1 & l & u & GR & D1 & HG & SGu & EV & E).
    rewrite E.
    assert (HW1 : winv eps b K (r_world st1)).
    { rewrite <- (Nat.add_0_r K). apply (evolves_winv eps E0 E1 b K 0 (r_world st)); auto. }
    destruct (proj1 (proj2 (proj2 GR s)) _ _ _ S) as [S1 _].
    assert (L1 : limb eps b n (unit_cost b * Datatypes.S K)) by (eapply limb_mono; [exact E0|exact E1| |exact L]; nia).
    destruct (append_last_total eps E0 E1 b n K _ s cs pv l _ true HW1 S1 HG (placement_all n n1) L1) as (w2 & E2).
    rewrite (bind_eq _ _ _ _ _ (call_eq eps _ _ _ _ E2)).
    destruct (append_last_view eps _ _ _ _ _ _ _ _ _ _ S1 HG E2) as (S2 & _).
    assert (HW2 := step_winv eps E0 E1 b (AppendLast s l true) K _ I HW1). rewrite E2 in HW2. cbn [fst cost1] in HW2.
    destruct (IH {| r_world := w2; r_draws := r_draws st1 |} _ (tot + Rabs (rav_time g T (r_draws st) 0))%R _ _ HW2 S2) as (st' & r & ER & R1 & R2).
    { eapply limb_mono; [exact E0|exact E1| |exact L]. nia. }
    cbn [r_draws] in R1, R2. rewrite D1 in R1, R2. exists st', r. split; [exact ER|]. split.
    + intros ([|k] & Hk & X); [rewrite rav_elapsed_0 in X; lra|]. apply R1. exists k. split; [lia|].
      rewrite rav_elapsed_first in X. lra.
    + intros X. apply R2. intros k Hk. specialize (X (Datatypes.S k) ltac:(lia)). rewrite rav_elapsed_first in X. lra.
  - exists st, (Ok tt). rewrite rav_loop_done by lra. split; [reflexivity|]. split; [reflexivity|].
    intros X. specialize (X 0%nat ltac:(lia)). rewrite rav_elapsed_0 in X. lra.
Qed.
End Loop.

(** * The whole *)
Section Whole.
Variables (g : rng) (eps : R) (n : nat) (Ms : list mat) (h : hamiltonian) (T time thr : R) (b : bool) (fuel : nat).
Hypothesis G : rng_ok g.
Hypothesis n1 : (1 <= n)%nat.
Hypothesis SD1 : small_drift eps n 1.
Hypothesis HH : hamiltonian_of (2 ^ n) Ms h.
Notation sees := (sees eps).
Notation SG ls d j := (subset_gate eps n Ms (rav_subset g ls d j) (rav_time g T d j)).
Notation run := (fun target => compile_stoq_for eps g h target T thr b).

Lemma rav_start ps st : stoq_primitives eps h T b = Ok ps -> WG eps anyg (r_world st) ->
  exists st1 s0, r_draws st1 = r_draws st /\ sees (r_world st1) s0 (2 ^ n) [] None /\
    r_world st1 = fst (step eps (NewSequence (2 ^ n) false []) (r_world st)) /\
    compile_rav_sequence eps g fuel h time T thr b st =
      (rav_loop eps g fuel ps (map Z.of_nat (seq 0 n)) T time s0 0 ;;; compile_inverse eps s0 run) st1.
Proof.
  intros EP HW. destruct (ham_facts _ _ _ HH) as (DP & D & _).
  destruct (new_sequence_view eps (r_world st) (2 ^ n) HW) as (w1 & E & S1).
  exists {| r_world := w1; r_draws := r_draws st |}, (List.length (w_seqs (r_world st))).
  split; [reflexivity|]. split; [exact S1|]. split; [now rewrite E|].
  unfold compile_rav_sequence. unfold se_bind at 1, se_lift at 1. rewrite EP, D.
  assert (EC : call_sequence eps (NewSequence (2 ^ n) false []) st =
    ({| r_world := w1; r_draws := r_draws st |}, Ok (List.length (w_seqs (r_world st))))).
  { unfold call_sequence, se_bind, call. rewrite E. reflexivity. }
  rewrite (bind_eq _ _ _ _ _ EC). now rewrite (all_qubits_n h n D).
Qed.

Lemma stoq_keeps target st st' s costs s0 cs pv : reachable eps (r_world st) -> sees (r_world st) s0 (2 ^ n) cs pv ->
  compile_stoq_for eps g h target T thr b st = (st', Ok (s, costs)) ->
  exists pv', sees (r_world st') s0 (2 ^ n) cs pv'.
Proof.
  intros RE S H. destruct (stoq_for_inv g eps n Ms h T b n1 SD1 HH _ _ _ _ _ H) as (ps & c & c' & E & Cd & Ca & Cp & GC & EC).
  apply compile_inv in EC.
  destruct (compiled_ok g eps G _ c target (Some thr) 10000 st st' c' s costs s0 (2 ^ n) cs pv (one_change eps c) (fun _ => True)
    (change_single g eps G c) (fun st => spares_single g eps G s0 target (Some thr) 10000 st) I (fun _ _ _ _ => I) S EC) as [X _].
  exact X.
Qed.

Lemma rav_ps st st' r : compile_rav_sequence eps g fuel h time T thr b st = (st', Ok r) ->
  exists ps, stoq_primitives eps h T b = Ok ps.
Proof.
  intros H. unfold compile_rav_sequence in H. apply bind_ok in H. destruct H as (ps & st1 & E & _). apply lift_ok in E.
  exists ps. apply E.
Qed.

Lemma rav_ham_structure st st' s costs : reachable eps (r_world st) ->
  compile_rav_sequence eps g fuel h time T thr b st = (st', Ok (s, costs)) ->
  exists ls k rand comp, term_subsets (List.length Ms) b ls /\ ls <> [] /\ (0 <= T)%R /\
    sees (r_world st') s (2 ^ n) (rand ++ comp) None /\
    Forall2 (fun j gt => SG ls (r_draws st) j gt) (seq 0 k) rand /\
    (time <= rav_elapsed g T (r_draws st) k)%R /\
    (forall k', (k' < k)%nat -> (rav_elapsed g T (r_draws st) k' < time)%R) /\
    List.Forall (stoq_gate eps n Ms T b) comp /\ (Z.of_nat (List.length costs) <= 10000)%Z.
Proof.
  intros RE H. destruct (rav_ps _ _ _ H) as (ps & EP).
  destruct (prims_facts eps n Ms h T b n1 SD1 HH ps EP) as (ls & TS & F & NE).
  assert (T0 := prims_T eps n Ms h T b n1 SD1 HH ps EP).
  destruct (rav_start ps st EP (reachable_W _ _ RE)) as (st1 & s0 & D1 & S1 & W1 & E).
  rewrite E in H. apply bind_ok in H. destruct H as ([] & st2 & H2 & H).
  destruct (rav_loop_ok g eps n Ms h T time G n1 HH T0 ls ps s0 F NE fuel _ _ _ _ _ H2 S1)
    as (k & rand & pv & S2 & FR & T1 & T2 & Lk & EV). cbn [app] in S2. rewrite D1 in FR, T1, T2.
  assert (RE1 : reachable eps (r_world st1)) by (rewrite W1; now apply step_reach).
  assert (RE2 : reachable eps (r_world st2)) by exact (evolves_reach eps _ _ _ _ RE1 (EV (fun _ => True) (fun _ _ => I))).
  destruct (inverse_contents eps s0 run st2 st' s costs (2 ^ n) rand pv
    (fun cs costs => List.Forall (stoq_gate eps n Ms T b) cs /\ (Z.of_nat (List.length costs) <= 10000)%Z))
    as (comp & S3 & A3 & A4); auto.
  - intros target st3 st4 s4 costs4 RE3 S3 H3. split; [eapply stoq_keeps; eauto|].
    destruct (stoq_for_ok g eps n Ms h T b G n1 SD1 HH target thr st3 st4 s4 costs4 RE3 H3) as (_ & X1 & X2 & _). auto.
  - rewrite Rplus_0_l in T1. exists ls, k, rand, comp. split; [exact TS|]. split; [exact NE|]. split; [exact T0|]. split; [exact S3|].
    split; [exact FR|]. split; [exact T1|]. split; [|auto]. intros k' Hk. specialize (T2 k' Hk). lra.
Qed.

Lemma rav_ham_total bb K st : (forall u, made eps u -> safe_gate eps bb u) -> (bb = true -> lim eps n 2) ->
  winv eps bb K (r_world st) -> (0 <= T)%R -> limb eps bb n (unit_cost bb * (2 * Datatypes.S (K + fuel + steps_max))) ->
  ((exists k, (k <= fuel)%nat /\ (time <= rav_elapsed g T (r_draws st) k)%R) ->
     exists st' s costs, compile_rav_sequence eps g fuel h time T thr b st = (st', Ok (s, costs))) /\
  ((forall k, (k <= fuel)%nat -> (rav_elapsed g T (r_draws st) k < time)%R) ->
     exists st', compile_rav_sequence eps g fuel h time T thr b st = (st', Raise OutOfFuel)).
Proof.
  intros HB Hb2 HW T0 L. assert (He := proj1 SD1). destruct He as [E0 E1].
  destruct (primitives_ok eps n Ms h T b n1 SD1 HH T0) as (ls0 & ps & EP & _).
  destruct (prims_facts eps n Ms h T b n1 SD1 HH ps EP) as (ls & TS & F & NE).
  destruct (rav_start ps st EP (winv_any _ _ _ _ HW)) as (st1 & s0 & D1 & S1 & W1 & E). rewrite E.
  assert (HW1 : winv eps bb K (r_world st1)).
  { assert (X := step_winv eps E0 E1 bb (NewSequence (2 ^ n) false []) K (r_world st) I HW).
    rewrite <- W1 in X. cbn [cost1] in X. now rewrite Nat.max_0_r in X. }
  destruct (rav_loop_runs g eps n Ms h T time G n1 HH T0 ls ps s0 F NE bb fuel E0 E1 HB st1 K 0%R _ _ HW1 S1)
    as (st2 & r & E2 & R1 & R2).
  { eapply limb_mono; [exact E0|exact E1| |exact L]. nia. }
  rewrite D1 in R1, R2. split.
  - intros (k & Hk & X). rewrite R1 in E2 by (exists k; split; [exact Hk|lra]).
    rewrite (bind_eq _ _ _ _ _ E2).
    destruct (rav_loop_ok g eps n Ms h T time G n1 HH T0 ls ps s0 F NE fuel _ _ _ _ _ E2 S1)
      as (k2 & rand & pv & S2 & _ & _ & _ & Lk & EV). cbn [app] in S2.
    assert (HW2 : winv eps bb (K + fuel) (r_world st2)).
    { eapply winv_mono; [exact E0|exact E1| |exact (evolves_winv eps E0 E1 bb K k2 _ _ HW1 (EV _ HB))]. lia. }
    destruct (stoq_compiler g eps n Ms h T b n1 SD1 HH ps EP) as (c & _ & Cd & Ca & Cp & GC & RC).
    assert (HS : List.Forall (safe_primitive eps (safe_gate eps bb)) (c_prims c)).
    { apply (good_safe eps); auto. intros p Hp. apply GC in Hp. apply Hp. }
    eapply (inverse_total eps bb n E0 E1 (K + fuel) steps_max); [exact HW2|exact S2|exact L|].
    intros target st3 HW3 S3 DT IT.
    destruct (single_never_fails g eps bb n (K + fuel) c target (Some thr) 10000 st3 G (conj E0 E1) HB Hb2 HW3 IT DT GC)
      as (st4 & c' & s4 & costs & E4); [now left| |].
    { eapply limb_mono; [exact E0|exact E1| |exact L]. fold steps_max. unfold unit_cost. nia. }
    assert (E5 : compile_stoq_for eps g h target T thr b st3 = (st4, Ok (s4, costs))) by (now rewrite RC, E4).
    exists st4, s4, costs. split; [exact E5|]. apply compile_inv in E4. split; [|split].
    + destruct (with_traced g eps (safe_gate eps bb) c 1 (make_random_change g eps) target (Some thr) 10000
        (fun s => single_traced g eps G _ c s HS) st3 (c_beta c)) as [TR _].
      rewrite set_beta_same, E4 in TR. cbn [fst] in TR. rewrite Nat.mul_1_l in TR. fold steps_max in TR.
      exact (evolves_winv eps E0 E1 bb _ _ _ _ HW3 TR).
    + destruct (compiled_ok g eps G _ c target (Some thr) 10000 st3 st4 c' s4 costs s0 (2 ^ n) rand pv (one_change eps c) (fun _ => True)
        (change_single g eps G c) (fun st => spares_single g eps G s0 target (Some thr) 10000 st) I (fun _ _ _ _ => I) S3 E4) as [(pv4 & S4) _].
      eapply sees_has_dim; eauto.
    + destruct (with_ok g eps G _ _ c target (Some thr) 10000 (fun _ => True) st3 c st4 c' s4 costs
        (change_single g eps G c) (eq_sym (set_beta_same c)) I (fun _ _ _ _ => I) (winv_any _ _ _ _ HW3) E4) as (_ & (cs4 & pv4 & S4 & _) & _).
      rewrite <- Cd. eapply sees_has_dim; eauto.
  - intros X. rewrite R2 in E2 by (intros k Hk; specialize (X k Hk); lra). exists st2.
    now rewrite (bind_eq_raise _ _ _ _ _ E2).
Qed.
End Whole.

(** * The statements *)
Lemma C45_lemma : forall g eps n Ms h time T thr simultaneous fuel st st' s costs,
  rng_ok g -> (1 <= n)%nat -> small_drift eps n 1 -> hamiltonian_of (2 ^ n) Ms h -> reachable eps (r_world st) ->
  compile_rav_sequence eps g fuel h time T thr simultaneous st = (st', Ok (s, costs)) ->
  let d := r_draws st in
  exists ls k rand comp, term_subsets (List.length Ms) simultaneous ls /\
    list_sequence (r_world st') s (2 ^ n) /\ contents (r_world st') s = rand ++ comp /\
    Forall2 (fun j gt => subset_gate eps n Ms (rav_subset g ls d j) (rav_time g T d j) gt) (seq 0 k) rand /\
    (forall j, In (rav_subset g ls d j) ls /\ (- T <= rav_time g T d j <= T)%R) /\
    (time <= rav_elapsed g T d k)%R /\ (forall k', (k' < k)%nat -> (rav_elapsed g T d k' < time)%R) /\
    ((0 < time)%R -> (rav_elapsed g T d k < time + T)%R) /\
    List.Forall (stoq_gate eps n Ms T simultaneous) comp /\ (Z.of_nat (List.length costs) <= 10000)%Z.
Proof.
  intros g eps n Ms h time T thr b fuel st st' s costs G N1 SD HH RE H d.
  destruct (rav_ham_structure g eps n Ms h T time thr b fuel G N1 SD HH st st' s costs RE H)
    as (ls & k & rand & comp & TS & NE & T0 & S & FR & T1 & T2 & FC & L). fold d in FR, T1, T2.
  exists ls, k, rand, comp. split; [exact TS|]. split; [eapply sees_list; eauto|].
  split; [exact (sees_contents _ _ _ _ _ _ S)|]. split; [exact FR|]. split; [|split; [exact T1|split; [exact T2|split; [|auto]]]].
  - intros j. split; [|now apply rav_time_bound]. unfold rav_subset. apply nth_In. apply G. destruct ls; [congruence|simpl; lia].
  - intros PT. destruct k as [|k]; [rewrite rav_elapsed_0 in T1; lra|]. specialize (T2 k ltac:(lia)).
    destruct (Rle_lt_or_eq_dec _ _ T0) as [TP|TZ].
    + rewrite rav_elapsed_last. assert (X := rav_time_strict g T d k G TP). lra.
    + rewrite <- TZ, rav_elapsed_zero in T1 by exact G. lra.
Qed.

Lemma C45_never_lemma : forall g eps n Ms h time thr simultaneous fuel st,
  rng_ok g -> (1 <= n)%nat -> small_drift eps n 1 -> hamiltonian_of (2 ^ n) Ms h -> (0 < time)%R ->
  (reachable eps (r_world st) -> forall st' s costs,
     compile_rav_sequence eps g fuel h time 0 thr simultaneous st <> (st', Ok (s, costs))) /\
  (eps = 0%R -> exact_world (r_world st) -> exists st',
     compile_rav_sequence eps g fuel h time 0 thr simultaneous st = (st', Raise OutOfFuel)).
Proof.
  intros g eps n Ms h time thr b fuel st G N1 SD HH PT. split.
  - intros RE st' s costs H.
    destruct (rav_ham_structure g eps n Ms h 0 time thr b fuel G N1 SD HH st st' s costs RE H)
      as (ls & k & rand & comp & _ & _ & _ & _ & _ & T1 & _). rewrite rav_elapsed_zero in T1 by exact G. lra.
  - intros -> HX. destruct (exact_winv_ex _ HX) as [K HW].
    destruct (rav_ham_total g 0 n Ms h 0 time thr b fuel G N1 SD HH true K st safe_made0 (fun _ => lim0_zero _ _) HW
      ltac:(lra) (lim_zero _ _)) as [_ X].
    apply X. intros k _. rewrite rav_elapsed_zero by exact G. exact PT.
Qed.

Lemma C45_run_lemma : forall g n Ms h time T thr simultaneous fuel st,
  rng_ok g -> (1 <= n)%nat -> hamiltonian_of (2 ^ n) Ms h -> exact_world (r_world st) -> (0 <= T)%R ->
  ((exists k, (k <= fuel)%nat /\ (time <= rav_elapsed g T (r_draws st) k)%R) ->
     exists st' s costs, compile_rav_sequence 0 g fuel h time T thr simultaneous st = (st', Ok (s, costs))) /\
  ((forall k, (k <= fuel)%nat -> (rav_elapsed g T (r_draws st) k < time)%R) ->
     exists st', compile_rav_sequence 0 g fuel h time T thr simultaneous st = (st', Raise OutOfFuel)).
Proof.
  intros g n Ms h time T thr b fuel st G N1 HH HX T0. destruct (exact_winv_ex _ HX) as [K HW].
  apply (rav_ham_total g 0 n Ms h T time thr b fuel G N1 (small_drift_0 n 1) HH true K st safe_made0 (fun _ => lim0_zero _ _) HW
      T0 (lim_zero _ _)).
Qed.

Lemma C45_drift_lemma : forall g eps n Ms h time T thr simultaneous fuel st K,
  rng_ok g -> (1 <= n)%nat -> hamiltonian_of (2 ^ n) Ms h -> drift_world eps K (r_world st) -> (0 <= T)%R ->
  small_drift eps n (2 * S (K + fuel + Z.to_nat 10000)) ->
  ((exists k, (k <= fuel)%nat /\ (time <= rav_elapsed g T (r_draws st) k)%R) ->
     exists st' s costs, compile_rav_sequence eps g fuel h time T thr simultaneous st = (st', Ok (s, costs))) /\
  ((forall k, (k <= fuel)%nat -> (rav_elapsed g T (r_draws st) k < time)%R) ->
     exists st', compile_rav_sequence eps g fuel h time T thr simultaneous st = (st', Raise OutOfFuel)).
Proof.
  intros g eps n Ms h time T thr b fuel st K G N1 HH HX T0 SDK. fold steps_max in SDK. assert (HE := proj1 SDK).
  assert (SD : small_drift eps n 1) by (eapply small_drift_le; [|exact SDK]; lia).
  destruct (drift_small _ _ _ SDK) as [L _].
  apply (rav_ham_total g eps n Ms h T time thr b fuel G N1 SD HH false K st (fun u => safe_made eps u (proj1 HE))
    (fun X => False_ind _ (diff_false_true X))); auto.
  - now apply drift_winv.
  - left. eapply lim_mono; [apply HE|apply HE| |exact L]. unfold unit_cost, gc. lia.
Qed.

(** If the draws for the step lengths stay above some positive number, the loop ends. *)
Lemma C45_terminates_lemma : forall g n Ms h time T thr simultaneous st delta,
  rng_ok g -> (1 <= n)%nat -> hamiltonian_of (2 ^ n) Ms h -> exact_world (r_world st) -> (0 < T)%R ->
  (0 < delta)%R -> (forall j, (delta <= g_unif g (r_draws st + 3 * j))%R) ->
  exists fuel0, forall fuel, (fuel0 <= fuel)%nat ->
    exists st' s costs, compile_rav_sequence 0 g fuel h time T thr simultaneous st = (st', Ok (s, costs)).
Proof.
  intros g n Ms h time T thr b st delta G N1 HH HX T0 D0 HD.
  assert (P : (0 < T * delta)%R) by (now apply Rmult_lt_0_compat).
  destruct (nat_above (time / (T * delta))) as (k & Hk). exists k. intros fuel Hf.
  apply (C45_run_lemma g n Ms h time T thr b fuel st G N1 HH HX ltac:(lra)). exists k. split; [exact Hf|].
  eapply Rle_trans; [|apply (rav_elapsed_grows g T _ delta k G ltac:(lra) HD)].
  assert (X : (time / (T * delta) * (T * delta) <= INR k * (T * delta))%R) by (apply Rmult_le_compat_r; lra).
  replace (time / (T * delta) * (T * delta))%R with time in X by (field; lra). exact X.
Qed.

Lemma C45_metric_lemma : forall g n Ms h time T thr simultaneous fuel st st' s costs,
  rng_ok g -> (1 <= n)%nat -> hamiltonian_of (2 ^ n) Ms h -> exact_world (r_world st) ->
  compile_rav_sequence 0 g fuel h time T thr simultaneous st = (st', Ok (s, costs)) ->
  exact_world (r_world st') /\
  exists ls k rand comp, term_subsets (List.length Ms) simultaneous ls /\
  Forall2 (fun j gt => subset_gate 0 n Ms (rav_subset g ls (r_draws st) j) (rav_time g T (r_draws st) j) gt) (seq 0 k) rand /\
  contents (r_world st') s = rand ++ comp /\
  exists p i dist, answers 0 (r_world st') s p /\ meq (2 ^ n) (u_mat p) (ordered n (rand ++ comp)) /\
    u_identity 0 (2 ^ n) = Ok i /\ u_distance_from 0 p i = Ok dist /\
    dist = (1 - overlap (2 ^ n) (adj (ordered n rand)) (ordered n comp))%R /\
    (costs <> [] -> last costs 0%R = dist) /\
    ((Z.of_nat (List.length costs) < 10000)%Z -> u_close_to 0 p i (Some thr) = Ok true).
Proof.
  intros g n Ms h time T thr b fuel st st' s costs G N1 HH HX H. assert (SD1 := small_drift_0 n 1).
  destruct (rav_ps _ _ _ _ _ _ _ _ _ _ _ H) as (ps & EP).
  destruct (prims_facts 0 n Ms h T b N1 SD1 HH ps EP) as (ls & TS & F & NE).
  assert (T0 := prims_T 0 n Ms h T b N1 SD1 HH ps EP).
  destruct (rav_start g 0 n Ms h T time thr b fuel HH ps st EP (exact_W _ HX)) as (st1 & s0 & D1 & S1 & W1 & E).
  rewrite E in H. apply bind_ok in H. destruct H as ([] & st2 & H2 & H).
  destruct (rav_loop_ok g 0 n Ms h T time G N1 HH T0 ls ps s0 F NE fuel _ _ _ _ _ H2 S1)
    as (k & rand & pv & S2 & FR & _ & _ & _ & EV). cbn [app] in S2. rewrite D1 in FR.
  assert (HX1 : exact_world (r_world st1)) by (rewrite W1; now apply step_exact).
  assert (HX2 : exact_world (r_world st2)) by exact (evolves_exact _ _ _ HX1 (EV (built 0) made_built0)).
  pose proof (fun HR => inverse_metric n _ _ st2 st' s costs rand pv thr 10000 HR HX2 S2 H) as IM.
  destruct IM as (HX' & comp & p & i & dist & C & M).
  - intros target st3 st4 s4 costs4 HX3 S3 H3.
    destruct (stoq_for_inv g 0 n Ms h T b N1 SD1 HH _ _ _ _ _ H3) as (ps' & c & c' & E' & Cd & Ca & Cp & GC & EC).
    apply compile_inv in EC.
    eapply (with_metric g G (make_random_change g 0) (one_change 0 c) c 1); eauto.
    + exact (change_single g 0 G c).
    + intros s5. apply single_traced; auto. apply (good_safe 0); auto. intros p Hp. apply GC in Hp. apply Hp.
    + intros. now apply spares_single.
  - split; [exact HX'|]. exists ls, k, rand, comp. split; [exact TS|]. split; [exact FR|]. split; [exact C|].
    exists p, i, dist. exact M.
Qed.
