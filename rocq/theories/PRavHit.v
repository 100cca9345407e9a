(** compile_rav_sequence() can succeed, for every time. *)
From Coq Require Import Reals List Arith Lia Lra Bool ZArith String Permutation ClassicalEpsilon.
From Coquelicot Require Import Coquelicot.
From Verif Require Import Base CMat CMatFacts Det DetFacts Norms Expm ModelUnitary ModelEntry ModelPrimitive ModelGates ModelHamiltonian
  ModelSequence ModelCompiler ModelVerification Spec SpecModel SpecCompiler SpecGates SpecHamiltonian PUnitary PUnitaryProps PDrift PEmbed PEntry PSeqHeap PSeqMeth
  PSeqNear PSeqWorld PSeqHist PSeqProps PCompView PCompRun PCompLoop PCompTrace PCompTotal PCompProps PCompCases PVerify PHam PHamRun PHamTrot PHamSub PHamStoq PHamRav PHamEx
  SpecChain PChain PChainStep PChainRun SpecFloor PFloor PFloorMain PFloorLib PFloorEx PFloorStoq PFloorTrot PFloorInv PDecimalOp PRavTime.
Import ListNotations.
Open Scope R_scope.
Set Bullet Behavior "Strict Subproofs".

(** * Draws in given sets *)
Fixpoint boxed (g : rng) (d : nat) (qs : list (question * (answer -> Prop))) : Prop :=
  match qs with [] => True | qb :: qs => snd qb (reply g d (fst qb)) /\ boxed g (Datatypes.S d) qs end.

Lemma boxed_least qs : forall r f h ws, Forall2 (fun qb w => 0 <= w /\ mean_answer (fst qb) (fun a => ind (snd qb a)) w) qs ws ->
  (forall g, 0 <= f g) -> (forall g, rng_ok g -> tells g r h -> boxed g (r + List.length h) qs -> 1 <= f g) -> least r f h (fold_right Rmult 1 ws).
Proof.
  induction qs as [|[q B] qs IH]; intros r f h ws F P K; inversion F as [|? w ? ws' [W M] F']; subst.
  - apply least_known. intros g G T. apply K; auto. exact I.
  - cbn [fst snd fold_right] in *. set (rest := fold_right Rmult 1 ws') in *.
    apply least_ask with (q := q) (F := fun a => 0 + rest * ind (B a)).
    + intros a Pa. destruct (excluded_middle_informative (B a)) as [Y|N].
      * rewrite ind_true by exact Y. apply least_lower with (m := rest); [|lra]. apply IH; auto.
        intros g G T HB. apply tells_snoc in T. destruct T as [T U]. apply K; auto. split; cbn [fst snd].
        -- apply replies_reply in U. now rewrite U.
        -- rewrite app_length in HB. cbn [List.length] in HB. now replace (r + (List.length h + 1))%nat with (Datatypes.S (r + List.length h)) in HB by lia.
      * rewrite ind_false by exact N. apply least_known. intros g _ _. specialize (P g). lra.
    + assert (X := mean_answer_affine q _ w 0 rest M). now replace (0 + rest * w) with (w * rest) in X by ring.
Qed.

Lemma boxed_chance qs ws r : Forall2 (fun qb w => 0 <= w /\ mean_answer (fst qb) (fun a => ind (snd qb a)) w) qs ws ->
  chance_at_least r (fun g => boxed g r qs) (fold_right Rmult 1 ws).
Proof.
  intros F. apply least_chance. apply (boxed_least qs); auto.
  - intros g. apply ind_range.
  - intros g G _ HB. cbn [List.length] in HB. rewrite Nat.add_0_r in HB. rewrite ind_true by exact HB. lra.
Qed.

(** * Forward and back *)
Section Pairs.
Variables (L : nat) (v e : R).
Hypothesis HL : (0 < L)%nat.
Hypothesis Hv : 0 <= v.
Hypothesis He : 0 < e.
Hypothesis Hve : v + e <= 1.

Definition within (a : answer) : Prop := match a with AReal x => v <= x < v + e | _ => False end.
Definition fwd (a : answer) : Prop := match a with AReal x => x < 8 / 10 | _ => False end.
Definition bwd (a : answer) : Prop := match a with AReal x => 8 / 10 <= x | _ => False end.
Definition zero (a : answer) : Prop := a = AInt 0.
Definition pair : list (question * (answer -> Prop)) := [(QUnif, within); (QUnif, fwd); (QInt L, zero); (QUnif, within); (QUnif, bwd); (QInt L, zero)].
Definition pair_w : list R := [e; 8 / 10; / INR L; e; 2 / 10; / INR L].
Fixpoint pairs (m : nat) : list (question * (answer -> Prop)) := match m with O => [] | Datatypes.S m => pair ++ pairs m end.
Fixpoint pairs_w (m : nat) : list R := match m with O => [] | Datatypes.S m => pair_w ++ pairs_w m end.

Lemma within_mean : mean_answer QUnif (fun a => ind (within a)) e.
Proof.
  cbn [mean_answer within]. assert (A := below_RInt (v + e) 1 0 ltac:(lra)). assert (B := below_RInt v 1 0 ltac:(lra)).
  assert (X := @is_RInt_minus R_NormedModule _ _ 0 1 _ _ A B).
  match type of X with is_RInt _ _ _ ?k => replace k with e in X by (unfold minus, plus, opp; simpl; ring) end.
  eapply is_RInt_ext; [|exact X]. intros x _. unfold minus, plus, opp. simpl. match goal with |- @eq _ ?a ?b => change (@eq R a b) end.
  destruct (Rlt_dec x (v + e)), (Rlt_dec x v); [rewrite ind_false by (intros ?; lra)|rewrite ind_true by (split; lra)|rewrite ind_false by (intros ?; lra)|rewrite ind_false by (intros ?; lra)]; try ring; lra.
Qed.
Lemma fwd_mean : mean_answer QUnif (fun a => ind (fwd a)) (8 / 10).
Proof.
  cbn [mean_answer fwd]. assert (A := below_RInt (8 / 10) 1 0 ltac:(lra)). replace (8 / 10 * 1 + (1 - 8 / 10) * 0) with (8 / 10) in A by field.
  eapply is_RInt_ext; [|exact A]. intros x _. cbv beta. match goal with |- @eq _ ?a ?b => change (@eq R a b) end. destruct (Rlt_dec x (8 / 10)); [rewrite ind_true by lra|rewrite ind_false by (intros ?; lra)]; reflexivity.
Qed.
Lemma bwd_mean : mean_answer QUnif (fun a => ind (bwd a)) (2 / 10).
Proof.
  cbn [mean_answer bwd]. assert (A := below_RInt (8 / 10) 0 1 ltac:(lra)). replace (8 / 10 * 0 + (1 - 8 / 10) * 1) with (2 / 10) in A by field.
  eapply is_RInt_ext; [|exact A]. intros x _. cbv beta. match goal with |- @eq _ ?a ?b => change (@eq R a b) end. destruct (Rlt_dec x (8 / 10)); [rewrite ind_false by (intros ?; lra)|rewrite ind_true by lra]; reflexivity.
Qed.
Lemma zero_mean : mean_answer (QInt L) (fun a => ind (zero a)) (/ INR L).
Proof.
  split; auto. unfold meanl. rewrite seq_length. destruct L as [|l]; [lia|]. cbn [seq map fold_right]. rewrite ind_true by reflexivity.
  replace (fold_right Rplus 0 (map (fun k => ind (zero (AInt k))) (seq 1 l))) with 0; [field; apply not_0_INR; lia|].
  assert (X : forall a, (0 < a)%nat -> 0 = fold_right Rplus 0 (map (fun k => ind (zero (AInt k))) (seq a l))); [|apply X; lia].
  clear. induction l as [|l IH]; intros a Ha; [reflexivity|]. cbn [seq map fold_right]. rewrite <- IH by lia.
  rewrite ind_false; [ring|]. intros X. injection X as ->. lia.
Qed.

Lemma pairs_means m : Forall2 (fun qb w => 0 <= w /\ mean_answer (fst qb) (fun a => ind (snd qb a)) w) (pairs m) (pairs_w m).
Proof.
  assert (I0 : 0 <= / INR L) by (left; apply Rinv_0_lt_compat, lt_0_INR; lia).
  induction m as [|m IH]; cbn [pairs pairs_w]; [constructor|]. apply Forall2_app; [|exact IH].
  repeat (apply Forall2_cons; [split; [lra|]; cbn [fst snd]; first [exact within_mean|exact fwd_mean|exact bwd_mean|exact zero_mean]|]). apply Forall2_nil.
Qed.
Lemma pairs_pos m : 0 < fold_right Rmult 1 (pairs_w m) <= 1.
Proof.
  assert (I0 : 0 < / INR L <= 1).
  { split; [apply Rinv_0_lt_compat, lt_0_INR; lia|]. rewrite <- Rinv_1. apply Rinv_le_contravar; [lra|]. apply (le_INR 1). lia. }
  assert (P : forall a b, 0 < a <= 1 -> 0 < b <= 1 -> 0 < a * b <= 1).
  { intros a b Ha Hb. split; [apply Rmult_lt_0_compat; lra|]. rewrite <- (Rmult_1_l 1). apply Rmult_le_compat; lra. }
  induction m as [|m IH]; cbn [pairs_w pair_w app fold_right]; [lra|]. repeat (apply P; [lra|]). exact IH.
Qed.

Lemma boxed_pairs g m d : boxed g d (pairs m) -> forall j, (j < 2 * m)%nat -> v <= g_unif g (d + 3 * j) < v + e /\ g_int g (d + 3 * j + 2) L = 0%nat.
Proof.
  revert d. induction m as [|m IH]; intros d H j Hj; [lia|]. cbn [pairs pair app boxed fst snd reply within fwd bwd] in H. unfold zero in H.
  destruct H as (H1 & H2 & H3 & H4 & H5 & H6 & H7). injection H3 as H3. injection H6 as H6.
  destruct j as [|[|j]].
  - replace (d + 3 * 0)%nat with d by lia. split; auto. now replace (d + 2)%nat with (S (S d)) by lia.
  - replace (d + 3 * 1)%nat with (S (S (S d))) by lia. split; auto. now replace (S (S (S d)) + 2)%nat with (S (S (S (S (S d))))) by lia.
  - specialize (IH _ H7 j ltac:(lia)). now replace (d + 3 * S (S j))%nat with (S (S (S (S (S (S d))))) + 3 * j)%nat by lia.
Qed.

Lemma pairs_cancel g T m d : 0 <= T -> boxed g d (pairs m) -> Rabs (sums (fun g d => rav_time g T d 0) g d (2 * m)) <= INR m * (T * e).
Proof.
  intros HT. revert d. induction m as [|m IH]; intros d H; [simpl; rewrite Rabs_R0; lra|].
  cbn [pairs pair app boxed fst snd reply within fwd bwd] in H. destruct H as (H1 & H2 & _ & H4 & H5 & _ & H7).
  specialize (IH _ H7). replace (2 * S m)%nat with (S (S (2 * m))) by lia. cbn [sums].
  replace (d + 3 + 3)%nat with (S (S (S (S (S (S d)))))) by lia. set (z := sums _ _ _ _) in *. rewrite S_INR.
  unfold rav_time. replace (d + 3 * 0)%nat with d by lia. replace (d + 3 + 3 * 0)%nat with (S (S (S d))) by lia.
  replace (d + 1)%nat with (S d) by lia. replace (S (S (S d)) + 1)%nat with (S (S (S (S d)))) by lia.
  destruct (Rlt_dec (g_unif g (S d)) (8 / 10)); [|contradiction]. destruct (Rlt_dec (g_unif g (S (S (S (S d))))) (8 / 10)); [lra|].
  set (x := g_unif g d) in *. set (y := g_unif g (S (S (S d)))) in *.
  replace (T * x * 1 + (T * y * -1 + z)) with (T * (x - y) + z) by ring. eapply Rle_trans; [apply Rabs_triang|].
  assert (Rabs (T * (x - y)) <= T * e); [|lra]. rewrite Rabs_mult, (Rabs_pos_eq T) by auto. apply Rmult_le_compat_l; auto.
  apply Rabs_le. lra.
Qed.
End Pairs.

(** * Nothing to compile *)
Lemma with_done g (change : nat -> CM unit) target thr max st c st' c' s costs n : built 0 target -> u_dim target = (2 ^ n)%nat -> c_dim c = (2 ^ n)%nat ->
  exact_world (r_world st) -> cost_of n target [] <= tolerance thr -> compile_with g 0 change target thr max (st, c) = ((st', c'), Ok (s, costs)) ->
  contents (r_world st') s = [].
Proof.
  intros BT DT DC HX HC E. destruct (new_sequence_view 0 (r_world st) (c_dim c) (exact_W _ HX)) as (w1 & E1 & S1).
  set (s1 := List.length (w_seqs (r_world st))) in *. set (st1 := {| r_world := w1; r_draws := r_draws st |}).
  assert (HH : holds n s1 st1 []).
  { rewrite DC in S1. apply (sees_holds n s1 st1 [] None); auto. apply (evolves_exact 0 (r_world st)); auto.
    assert (X := evolves_step 0 (built 0) 0 (NewSequence (c_dim c) false []) (r_world st)). rewrite E1 in X. now apply X. }
  assert (EC : call_sequence 0 (NewSequence (c_dim c) false []) st = (st1, Ok s1)).
  { unfold call_sequence, se_bind, call. rewrite E1. reflexivity. }
  destruct (close_exact n target thr BT DT s1 st1 [] HH) as (w2 & p & E2 & HH2 & Ecl). destruct (Rle_dec _ _) in Ecl; [|contradiction].
  unfold compile_with in E. unfold se_bind at 1, c_self in E. cbn [snd] in E.
  rewrite (bind_eq _ _ _ _ _ (c_run_eq _ _ _ _ _ EC)) in E. cbn [compile_loop] in E.
  unfold se_bind at 1 in E. rewrite (bind_eq _ _ _ _ _ (c_run_eq _ _ _ _ _ (call_unitary_eq _ _ _ _ _ E2))), Ecl in E.
  cbn in E. injection E as <- <- <- <-. exact (proj2 (proj2 HH2)).
Qed.

(** * The product of the random part when all subsets are the same *)
Lemma same_subset n Ms l (ts : list R) rand : Forall2 (fun t gt => subset_gate 0 n Ms l t gt) ts rand ->
  phase_eq (2 ^ n) (ordered n rand) (ev (2 ^ n) (part_of Ms l) (fold_right Rplus 0 ts)).
Proof.
  intros F. induction F as [|t gt ts rand (Q & SG & _) F (z & Hz & W)].
  - apply phase_refl. cbn [fold_right]. now rewrite ev_0.
  - destruct (stores_phase_0 n (fst gt) _ (SG _ (ev_evolution (2 ^ n) (part_of Ms l) t))) as (_ & (y & Hy & P)).
    exists (z * y)%C. split; [rewrite Cmod_mult, Hz, Hy; ring|]. cbn [fold_right].
    rewrite ordered_cons, W, Q, embed_all, P, (Rplus_comm t), ev_add. now rewrite mmul_mscale_l, mmul_mscale_r, mscale_mscale.
Qed.

Lemma nearly_still n A : hermitian_mx (2 ^ n) A -> forall thr, thr < 1 -> exists d, 0 < d /\ forall t, Rabs t <= d -> thr <= overlap (2 ^ n) mid (ev (2 ^ n) A t).
Proof.
  intros HA thr Ht. assert (SP := size_pos n). assert (Hn : (0 < 2 ^ n)%nat) by (apply Nat.neq_0_lt_0, Nat.pow_nonzero; lia).
  set (e := sqrt (INR (2 ^ n)) * (1 - thr)). assert (He : 0 < e) by (apply Rmult_lt_0_compat; lra).
  assert (Hf := fro_nonneg (2 ^ n) A). exists (ln (1 + e) / (1 + fro (2 ^ n) A)).
  assert (LP : 0 < ln (1 + e)) by (rewrite <- ln_1; apply ln_increasing; lra).
  split; [apply Rdiv_lt_0_compat; lra|]. intros t Hd.
  assert (X := ev_turn (2 ^ n) A t 0 HA). rewrite Rminus_0_r in X.
  assert (Y := overlap_gap (2 ^ n) mid (ev (2 ^ n) A t) (ev (2 ^ n) A 0) Hn (proj1 (special_mid (2 ^ n)))).
  rewrite (overlap_proper (2 ^ n) mid mid (meq_refl _ _) _ _ (ev_0 (2 ^ n) A)) in Y.
  rewrite (proj2 (overlap_1_iff (2 ^ n) mid mid Hn (proj1 (special_mid _)) (proj1 (special_mid _))) (phase_refl _ _ _ (meq_refl _ _))) in Y.
  assert (Z : Rabs t * fro (2 ^ n) A <= ln (1 + e)).
  { apply Rle_div_r in Hd; [|lra]. assert (0 <= Rabs t) by apply Rabs_pos. nra. }
  assert (Z' : exp (Rabs t * fro (2 ^ n) A) <= 1 + e).
  { rewrite <- (exp_ln (1 + e)) by lra. destruct Z as [Z|Z]; [left; now apply exp_increasing|right; now rewrite Z]. }
  assert (B : sqrt (INR (2 ^ n)) * Rabs (overlap (2 ^ n) mid (ev (2 ^ n) A t) - 1) <= sqrt (INR (2 ^ n)) * (1 - thr)) by (fold e; lra).
  apply Rmult_le_reg_l in B; auto. apply Rabs_le_between in B. lra.
Qed.

Lemma elapsed_between g T d m v e : rng_ok g -> 0 <= T -> (forall j, (j < m)%nat -> v <= g_unif g (d + 3 * j) < v + e) ->
  forall k, (k <= m)%nat -> INR k * (T * v) <= rav_elapsed g T d k <= INR k * (T * (v + e)).
Proof.
  intros G HT H. induction k as [|k IH]; intros Hk; [rewrite rav_elapsed_0; simpl; lra|].
  specialize (IH ltac:(lia)). rewrite rav_elapsed_last, S_INR, rav_time_abs by auto. specialize (H k ltac:(lia)).
  assert (T * v <= T * g_unif g (d + 3 * k)) by (apply Rmult_le_compat_l; lra).
  assert (T * g_unif g (d + 3 * k) <= T * (v + e)) by (apply Rmult_le_compat_l; lra). lra.
Qed.

Lemma pairs_choice time T d : 0 < T -> 0 < d -> exists m v e, 0 <= v /\ 0 < e /\ v + e <= 1 /\ time <= INR (2 * m) * (T * v) /\
  (forall k, (k < 2 * m)%nat -> INR k * (T * (v + e)) < time) /\ INR m * (T * e) <= d.
Proof.
  intros HT Hd. destruct (Rle_dec time 0) as [H0|H0].
  - exists 0%nat, 0, 1. simpl. repeat split; try lra. intros k Hk. lia.
  - destruct (nat_above (time / T)) as (m & Hm). apply Rlt_div_l in Hm; auto.
    assert (MP : 0 < INR m) by (apply Rnot_le_lt; intros X; nra).
    set (v := time / (2 * INR m * T)). assert (MT : 0 < INR m * T) by (now apply Rmult_lt_0_compat).
    assert (V0 : 0 < v) by (apply Rdiv_lt_0_compat; nra).
    assert (V1 : v < 1 / 2) by (apply Rlt_div_l; nra).
    assert (EV : 2 * INR m * (T * v) = time) by (unfold v; field; lra).
    set (e := Rmin (1 / 2) (Rmin (v / (2 * INR m)) (d / (INR m * T)))).
    assert (E0 : 0 < e) by (repeat apply Rmin_glb_lt; [lra|apply Rdiv_lt_0_compat; lra|apply Rdiv_lt_0_compat; lra]).
    assert (E1 : e <= 1 / 2) by apply Rmin_l.
    assert (E2 : e <= v / (2 * INR m)) by (eapply Rle_trans; [apply Rmin_r|apply Rmin_l]). apply Rle_div_r in E2; [|lra].
    assert (E3 : e <= d / (INR m * T)) by (eapply Rle_trans; [apply Rmin_r|apply Rmin_r]). apply Rle_div_r in E3; [|lra].
    exists m, v, e. split; [lra|]. split; [lra|]. split; [lra|]. split; [rewrite mult_INR; simpl; lra|]. split; [|nra].
    intros k Hk. assert (K : INR k <= 2 * INR m - 1).
    { assert (X := le_INR (S k) (2 * m) ltac:(lia)). rewrite S_INR, mult_INR in X. simpl in X. lra. }
    rewrite <- EV. assert (KE : INR k * (v + e) < 2 * INR m * v) by (assert (0 <= INR k) by apply pos_INR; nra). nra.
Qed.

Lemma C101_possible_lemma : forall n Ms h time T thr simultaneous, (1 <= n)%nat -> hamiltonian_of (2 ^ n) Ms h -> 0 < T -> thr < 1 ->
  exists fuel0 rho, 0 < rho <= 1 /\ forall fuel st, (fuel0 <= fuel)%nat -> exact_world (r_world st) ->
  chance_at_least (r_draws st) (fun g => exists st' s costs, compile_rav_sequence 0 g fuel h time T thr simultaneous st = (st', Ok (s, costs)) /\
    thr <= overlap (2 ^ n) mid (ordered n (contents (r_world st') s))) rho.
Proof.
  intros n Ms h time T thr b N1 HH HT Ht. assert (SD1 := small_drift_0 n 1). assert (T0 : 0 <= T) by lra.
  destruct (primitives_ok 0 n Ms h T b N1 SD1 HH T0) as (ls0 & ps & EP & _).
  destruct (prims_facts 0 n Ms h T b N1 SD1 HH ps EP) as (ls & TS & F & NE). set (L := List.length ls).
  assert (HL : (0 < L)%nat) by (unfold L; destruct ls; [congruence|simpl; lia]).
  set (A := part_of Ms (nth 0 ls [])). assert (HA : hermitian_mx (2 ^ n) A) by (apply part_hermitian; eapply ham_hermitian; eauto).
  destruct (nearly_still n A HA thr Ht) as (dd & D0 & HD).
  destruct (pairs_choice time T dd HT D0) as (m & v & e & Hv & He & Hve & C1 & C2 & C3).
  exists (2 * m)%nat, (fold_right Rmult 1 (pairs_w L e m)). split; [apply (pairs_pos L v e); auto; lra|]. intros fuel st Hf HX.
  apply (chance_event _ (fun g => boxed g (r_draws st) (pairs L v e m))); [|apply boxed_chance, pairs_means; auto].
  intros g G HB. assert (HB1 : forall j, (j < 2 * m)%nat -> v <= g_unif g (r_draws st + 3 * j) < v + e /\ g_int g (r_draws st + 3 * j + 2) L = 0%nat)
    by (eapply boxed_pairs; eauto).
  assert (HE := elapsed_between g T (r_draws st) (2 * m) v e G T0 (fun j Hj => proj1 (HB1 j Hj))).
  destruct (proj1 (C45_run_lemma g n Ms h time T thr b fuel st G N1 HH HX T0)) as (st' & s & costs & ER).
  { exists (2 * m)%nat. split; auto. specialize (HE (2 * m)%nat (Nat.le_refl _)). lra. }
  exists st', s, costs. split; [exact ER|].
  destruct (rav_start g 0 n Ms h T time thr b fuel HH ps st EP (exact_W _ HX)) as (st1 & s0 & D1 & S1 & W1 & E).
  rewrite E in ER. apply bind_ok in ER. destruct ER as ([] & st2 & H2 & H).
  destruct (rav_loop_ok g 0 n Ms h T time G N1 HH T0 ls ps s0 F NE fuel _ _ _ _ _ H2 S1) as (k & rand & pv & S2 & FR & T1 & T2 & _ & EV).
  cbn [app] in S2. rewrite D1 in FR, T1, T2.
  assert (HX1 : exact_world (r_world st1)) by (rewrite W1; now apply step_exact).
  assert (HX2 : exact_world (r_world st2)) by exact (evolves_exact _ _ _ HX1 (EV (built 0) made_built0)).
  assert (K : k = (2 * m)%nat).
  { destruct (Nat.lt_trichotomy k (2 * m)) as [X|[X|X]]; auto; exfalso.
    - specialize (C2 k X). specialize (HE k ltac:(lia)). lra.
    - specialize (T2 _ X). specialize (HE (2 * m)%nat (Nat.le_refl _)). lra. }
  subst k.
  assert (PR : phase_eq (2 ^ n) (ordered n rand) (ev (2 ^ n) A (sums (fun g d => rav_time g T d 0) g (r_draws st) (2 * m)))).
  { rewrite <- time_sums. apply same_subset. clear - FR HB1.
    assert (X : forall j, In j (seq 0 (2 * m)) -> rav_subset g ls (r_draws st) j = nth 0 ls []).
    { intros j Hj. apply in_seq in Hj. unfold rav_subset. fold L. now rewrite (proj2 (HB1 j ltac:(lia))). }
    revert X. induction FR as [|j gt js rand H FR IH]; intros X; cbn [map]; [constructor|].
    constructor; [rewrite (X j (or_introl eq_refl)) in H; exact H|]. apply IH. intros; apply X; now right. }
  assert (OV : thr <= overlap (2 ^ n) mid (ordered n rand)).
  { destruct PR as (z & Hz & PR). rewrite (overlap_proper _ _ _ (meq_refl _ _) _ _ PR), overlap_phase_r by auto. apply HD.
    eapply Rle_trans; [eapply pairs_cancel; eauto|exact C3]. }
  destruct (compile_inverse_ok 0 s0 _ st2 st' s costs _ rand pv H S2) as (p0 & target & st3 & st4 & s4 & A0 & EI & E3 & S3 & H3 & H4).
  assert (HX3 : exact_world (r_world st3)) by (rewrite E3; apply step_exact; auto).
  destruct (exact_special _ _ _ _ _ _ HX3 S3 A0) as (Dp & W0 & SP0 & M0).
  destruct (u_inverse_ok 0 p0 W0 (eps_clean_0 _ _)) as (target' & EI' & DT & _ & _ & _ & _ & MT).
  assert (target' = target) by congruence. subst target'. rewrite Dp in DT, MT.
  assert (BT : built 0 target).
  { exists (u_dim p0), (adj (u_mat p0)). do 4 eexists. split; [rewrite Dp, M0; now apply special_adj|]. split; [apply eps_clean_0|]. unfold u_inverse in EI. exact EI. }
  assert (CI : cost_of n target [] = idcost n (rand ++ [])) by (apply cost_inverse; [exact SP0|now rewrite MT, M0]).
  destruct (stoq_for_inv g 0 n Ms h T b N1 SD1 HH _ _ _ _ _ H3) as (ps' & c & c' & E' & Cd & Ca & Cp & GC & EC). apply compile_inv in EC.
  assert (C4 : contents (r_world st4) s4 = []).
  { apply (with_done g (make_random_change g 0) target (Some thr) 10000 st3 c st4 c' s4 costs n BT DT Cd HX3); auto. rewrite CI, app_nil_r. unfold idcost, tolerance. lra. }
  destruct (stoq_keeps g 0 n Ms h T thr b G N1 SD1 HH target st3 st4 s4 costs s0 rand pv) as (pv4 & S4); auto.
  { destruct HX3 as (os & -> & _). now exists os. }
  destruct (combine_view 0 _ _ _ _ (sees_W _ _ _ _ _ _ S4) H4) as (d' & Et & _ & S5). injection Et as Et.
  rewrite <- Et in S5. cbn [map List.concat] in S5. rewrite app_nil_r, (sees_contents _ _ _ _ _ _ S4), C4, app_nil_r in S5.
  now rewrite (sees_contents _ _ _ _ _ _ S5).
Qed.

Lemma ex_C101_lemma : exists h st, hamiltonian_of (2 ^ 1) [pauli_x; pauli_z] h /\ exact_world (r_world st) /\
  1 < INR (10 * 10) * (1 / 10 / 2) /\
  99 / 100 <= 1 - INR (10 * 10) * (1 / 10 * (1 / 10) / 12) / ((INR (10 * 10) * (1 / 10 / 2) - 1) * (INR (10 * 10) * (1 / 10 / 2) - 1)).
Proof.
  destruct ex_ham as (h & Hh). exists h, start. split; [exact Hh|]. split; [exact empty_exact|]. rewrite mult_INR. simpl. split; lra.
Qed.
