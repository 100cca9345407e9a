(** Consequences for the compiler in an inexact arithmetic, double precision, and a
    concrete case. *)
From Coq Require Import Reals List Arith Bool Lia Lra Psatz String.
From Coquelicot Require Import Rcomplements Complex.
From Verif Require Import Base CMat CMatFacts Det DetFacts CRoot Norms ModelUnitary ModelEntry
  ModelRound ModelRound64 ModelRoundComp Spec SpecModel SpecGates SpecRound SpecRoundComp
  PUnitary PEntry PSeqCases PDrift PRound PRoundProps PRound64 PGatesEx PRoundEx PRoundComp.
Import ListNotations.
Open Scope R_scope.
Open Scope C_scope.

Lemma annealed_len cost B close es steps es' costs : annealed cost B close es steps es' costs ->
  (List.length costs <= List.length steps)%nat /\
  ((List.length costs < List.length steps)%nat -> exists x, (Rabs (x - cost es') <= B)%R /\ close x = true).
Proof.
  induction 1 as [es steps x Hx HC|es x Hx HC|es s t es' costs x c p Hx HC Hc Hp acc H IH]; cbn [List.length].
  - split; [lia|]. intros _. exists x. auto.
  - split; [lia|]. intros; lia.
  - destruct IH as [IH1 IH2]. split; [lia|]. intros HL. apply IH2. lia.
Qed.

Lemma annealed_last cost B close es steps es' costs : annealed cost B close es steps es' costs ->
  forall d, (Rabs (d - cost es) <= B)%R -> (Rabs (last costs d - cost es') <= B)%R.
Proof.
  induction 1 as [es steps x Hx HC|es x Hx HC|es s t es' costs x c p Hx HC Hc Hp acc H IH]; intros d Hd; auto.
  assert (G : forall y (l : list R), last (y :: l) d = last l y).
  { intros y l. revert y. induction l as [|z l IHl]; intros y; [reflexivity|].
    change (last (z :: l) d = last (z :: l) y). destruct l; [reflexivity|]. rewrite (IHl z). symmetry.
    change (last (z :: r :: l) y) with (last (r :: l) y). clear.
    revert r. induction l as [|w l IHl]; intros r; [reflexivity|]. exact (IHl w). }
  rewrite G. apply IH. destruct acc; assumption.
Qed.

Lemma annealed_pos cost B close es steps es' costs : annealed cost B close es steps es' costs -> (0 <= B)%R.
Proof. intros H. destruct H; (eapply Rle_trans; [apply Rabs_pos|eassumption]). Qed.

Lemma annealed_exact cost B close es steps es' costs : annealed cost B close es steps es' costs ->
  decided cost B close es steps ->
  es' = fst (exact_path cost close es steps) /\
  Forall2 (fun x y => (Rabs (x - y) <= B)%R) costs (snd (exact_path cost close es steps)).
Proof.
  induction 1 as [es steps x Hx HC|es x Hx HC|es s t es' costs x c p Hx HC Hc Hp acc H IH]; intros D.
  - assert (E : close (cost es) = true) by (destruct steps; cbn [decided] in D; destruct D as [D _]; rewrite <- HC; symmetry; exact (D x Hx)).
    destruct steps; cbn [exact_path]; rewrite E; (split; [reflexivity|constructor]).
  - cbn [exact_path]. destruct (close (cost es)); (split; [reflexivity|constructor]).
  - cbn [decided] in D. destruct D as [D1 D2]. assert (E : close (cost es) = false) by (rewrite <- HC; symmetry; exact (D1 x Hx)).
    destruct D2 as [D2|[D2 D3]]; [congruence|].
    cbn [exact_path]. rewrite E. cbn [fst snd].
    assert (EK : (if acc then changed (rp_change s) es else es) =
      (if rp_accept s (cost es) (cost (changed (rp_change s) es)) then changed (rp_change s) es else es)).
    { destruct D2 as [D2|D2]; [rewrite D2; destruct acc, (rp_accept s (cost es) (cost es)); reflexivity|].
      specialize (D2 c p Hc Hp). fold acc in D2. now rewrite D2. }
    rewrite <- EK in *.
    destruct (IH D3) as [I1 I2]. split; [exact I1|]. constructor; [|exact I2]. destruct acc; assumption.
Qed.

Lemma round_compile_end : forall ar eps mu n target close steps q costs,
  small_round eps mu n (change_calls steps) ->
  (forall k, (k <= n)%nat -> accurate ar mu (2 ^ k)) ->
  r_gate ar eps mu target -> u_dim target = (2 ^ n)%nat -> r_steps_ok ar eps mu n steps ->
  r_compile ar eps (2 ^ n) target close steps = Ok (q, costs) ->
  let B := round_bound eps mu n (change_calls steps) in
  let cost es := (1 - overlap (2 ^ n) (u_mat target) (ordered n es))%R in
  (List.length costs <= List.length steps)%nat /\
  (costs <> [] -> (Rabs (last costs 0 - cost (rs_entries q)) <= B)%R) /\
  ((List.length costs < List.length steps)%nat ->
   forall limit, (forall x, close x = true -> (x <= limit)%R) -> (cost (rs_entries q) <= limit + B)%R) /\
  (decided cost B close [] steps ->
   rs_entries q = fst (exact_path cost close [] steps) /\
   Forall2 (fun x y => (Rabs (x - y) <= B)%R) costs (snd (exact_path cost close [] steps))).
Proof.
  intros ar eps mu n target close steps q costs HS Ha Ht Dt Hok E B cost.
  destruct (round_compile ar eps mu n target close steps HS Ha Ht Dt Hok) as (q' & costs' & p & E' & A & _).
  rewrite E in E'. assert (q' = q) by congruence. assert (costs' = costs) by congruence. subst q' costs'.
  fold B in A. destruct (annealed_len _ _ _ _ _ _ _ A) as [L1 L2]. split; [exact L1|]. split; [|split].
  - intros NE. assert (LL := annealed_last _ _ _ _ _ _ _ A).
    assert (BP : (0 <= B)%R) by exact (annealed_pos _ _ _ _ _ _ _ A).
    specialize (LL (1 - overlap (2 ^ n) (u_mat target) (ordered n []))%R).
    rewrite Rminus_eq_0, Rabs_R0 in LL. specialize (LL BP).
    destruct (exists_last NE) as (l' & z & El). rewrite El, last_last in LL. rewrite El, last_last. exact LL.
  - intros HL limit Hlim. destruct (L2 HL) as (x & Hx & HC). specialize (Hlim x HC).
    unfold cost. apply Rabs_le_between in Hx. lra.
  - intros D. exact (annealed_exact _ _ _ _ _ _ _ A D).
Qed.

Lemma double_compile : forall eps n target close steps, (n <= 23)%nat ->
  small_round eps (mu64 n) n (change_calls steps) ->
  r_gate arith64 eps (mu64 n) target -> u_dim target = (2 ^ n)%nat -> r_steps_ok arith64 eps (mu64 n) n steps ->
  let B := round_bound eps (mu64 n) n (change_calls steps) in
  exists q costs p,
    r_compile arith64 eps (2 ^ n) target close steps = Ok (q, costs) /\
    annealed (fun es => 1 - overlap (2 ^ n) (u_mat target) (ordered n es))%R B close [] steps (rs_entries q) costs /\
    r_product arith64 eps q = Ok p /\ u_dim p = (2 ^ n)%nat /\
    (fro (2 ^ n) (mminus (u_mat p) (ordered n (rs_entries q))) <= B)%R.
Proof.
  intros eps n target close steps Hn HS Ht Dt Hok. apply round_compile; auto.
  intros k Hk. now apply mu64_accurate.
Qed.

(** ** A concrete case *)
Lemma greedy_same x : greedy x x = true.
Proof. unfold greedy. destruct (Rle_dec x x); auto. lra. Qed.

Lemma ex_C90_lemma : exists g, r_gate arith64 eps_code (mu64 1) g /\ u_dim g = (2 ^ 1)%nat /\ u_name g = "H"%string /\
  small_round eps_code (mu64 1) 1 (change_calls (had_steps g)) /\
  r_steps_ok arith64 eps_code (mu64 1) 1 (had_steps g) /\
  let cost es := (1 - overlap (2 ^ 1) (u_mat g) (ordered 1 es))%R in
  let B := round_bound eps_code (mu64 1) 1 (change_calls (had_steps g)) in
  decided cost B (at_most (1 / 100)) [] (had_steps g) /\
  fst (exact_path cost (at_most (1 / 100)) [] (had_steps g)) = [(g, [0%nat])] /\
  List.length (snd (exact_path cost (at_most (1 / 100)) [] (had_steps g))) = 2%nat.
Proof.
  assert (HU : unitary_mx 2 hadamard) by apply ex_reach_lemma.
  assert (HW := hadamard64_within HU).
  destruct (round_gate arith64 eps_code (mu64 1) 1 hadamard hadamard64 (Some "H"%string) [] false [])
    as (g & c & E & Hc & D & F); auto.
  { apply small_code_1. lia. }
  { apply mu64_accurate; lia. }
  assert (G : r_gate arith64 eps_code (mu64 1) g).
  { left. exists 2%nat, hadamard64, hadamard, (Some "H"%string), [], false, []. auto. }
  exists g. split; auto. split; auto. split.
  { unfold r_unitary in E. cbv zeta in E. repeat (match type of E with context [bind ?x _] => destruct x; cbn [bind] in E; [|discriminate] end).
    destruct (Ceq_dec _ _); [discriminate|]. inversion E. reflexivity. }
  split; [apply small_code_1; cbn; lia|]. split.
  { intros s Hs. split; [|intros x; destruct Hs as [<-|[<-|[<-|[]]]]; apply greedy_same].
    intros o h Ho Hh. assert (h = (g, [0%nat])) as ->.
    { destruct Hs as [<-|[<-|[<-|[]]]]; cbn in Ho; destruct Ho as [<-|[]]; cbn in Hh; intuition congruence. }
    cbn [fst snd List.length]. split; auto. split; auto.
    split; [repeat constructor; simpl; auto|]. split; [discriminate|]. intros x [<-|[]]. lia. }
  cbv zeta. set (cost := fun es => _). set (B := round_bound _ _ _ _).
  assert (HB : (B <= / 1000)%R).
  { unfold B. destruct (small_code_1 (change_calls (had_steps g)) ltac:(cbn; lia)) as (_ & _ & H & _).
    replace (10 ^ 10)%R with 10000000000%R in H by ring. lra. }
  set (b := round_bound eps_code (mu64 1) 1 0) in *.
  assert (Hb : (b <= / 1000)%R).
  { unfold b. destruct (small_code_1 0 ltac:(lia)) as (_ & _ & H & _).
    replace (10 ^ 10)%R with 10000000000%R in H by ring. lra. }
  assert (b0 : (0 <= b)%R) by (eapply Rle_trans; [apply fro_nonneg|exact F]).
  assert (UH : unitary_mx (2 ^ 1) (mscale c hadamard)) by (apply unitary_mscale; auto).
  assert (O1 : (Rabs (overlap 2 (u_mat g) (u_mat g) - 1) <= 3 / 1000)%R).
  { assert (X := overlap_near 1 _ _ _ _ _ _ UH UH F F).
    assert (S1 : overlap (2 ^ 1) (mscale c hadamard) (mscale c hadamard) = 1%R).
    { unfold overlap. rewrite (mtrace_proper (2 ^ 1) _ mid (unitary_left _ _ UH)).
      change (2 ^ 1)%nat with 2%nat. unfold mtrace, mid. cbn [csum Nat.eqb].
      replace (0 + 1 + 1)%C with (RtoC 2) by (apply injective_projections; simpl; ring).
      rewrite Cmod_R, Rabs_right by lra. simpl. field. }
    rewrite S1 in X. eapply Rle_trans; [exact X|]. nra. }
  assert (O2 : (overlap 2 (u_mat g) mid <= 3 / 1000)%R).
  { assert (X := overlap_near 1 _ _ mid mid _ 0 UH (unitary_mid _) F ltac:(rewrite fro_minus_self by reflexivity; lra)).
    assert (Z : overlap (2 ^ 1) (mscale c hadamard) mid = 0%R).
    { change (2 ^ 1)%nat with 2%nat. rewrite overlap_phase_l by auto. unfold overlap.
      replace (mtrace 2 (mmul 2 (adj hadamard) mid)) with (RtoC 0); [rewrite Cmod_0; unfold Rdiv; apply Rmult_0_l|].
      unfold mtrace, mmul, adj, mid, hadamard, mscale, mat22. cbn [csum Nat.eqb].
      apply injective_projections; simpl; ring. }
    rewrite Z in X. apply Rabs_le_between in X. change (2 ^ 1)%nat with 2%nat in X. lra. }
  assert (C0 : (997 / 1000 <= cost [])%R).
  { unfold cost. change (ordered 1 []) with mid. change (2 ^ 1)%nat with 2%nat. lra. }
  assert (C1 : (Rabs (cost [(g, [0%nat])]) <= 3 / 1000)%R).
  { unfold cost. replace (overlap (2 ^ 1) (u_mat g) (ordered 1 [(g, [0%nat])])) with (overlap (2 ^ 1) (u_mat g) (u_mat g)).
    - change (2 ^ 1)%nat with 2%nat. rewrite Rabs_minus_sym. exact O1.
    - apply overlap_proper; [reflexivity|]. symmetry. change (ordered 1 [(g, [0%nat])]) with (mmul (2 ^ 1) (embed 1 [0%nat] (u_mat g)) mid).
      change (2 ^ 1)%nat with 2%nat. rewrite mmul_1_r. apply embed_one. }
  apply Rabs_le_between in C1.
  assert (N0 : forall x, (Rabs (x - cost []) <= B)%R -> at_most (1 / 100) x = false).
  { intros x Hx. apply Rabs_le_between in Hx. unfold at_most. destruct (Rle_dec x (1 / 100)); auto. lra. }
  assert (N1 : forall x, (Rabs (x - cost [(g, [0%nat])]) <= B)%R -> at_most (1 / 100) x = true).
  { intros x Hx. apply Rabs_le_between in Hx. unfold at_most. destruct (Rle_dec x (1 / 100)); auto. lra. }
  assert (B0 : (0 <= B)%R).
  { unfold B, round_bound. repeat apply Rmult_le_pos; try lra; try apply pos_INR.
    - assert (T := sqrt_pos (INR (2 ^ 1))). lra.
    - unfold eps_code, mu64. assert (0 < / 10 ^ 12)%R by (apply Rinv_0_lt_compat, pow_lt; lra).
      assert (0 < / 2 ^ 53)%R by (apply Rinv_0_lt_compat, pow_lt; lra).
      assert (0 <= INR (2 ^ 1))%R by apply pos_INR. nra. }
  assert (E0 : at_most (1 / 100) (cost []) = false) by (apply N0; rewrite Rminus_eq_0, Rabs_R0; lra).
  assert (E1 : at_most (1 / 100) (cost [(g, [0%nat])]) = true) by (apply N1; rewrite Rminus_eq_0, Rabs_R0; lra).
  assert (E2 : greedy (cost []) (cost [(g, [0%nat])]) = true).
  { unfold greedy. destruct (Rle_dec _ _); auto. lra. }
  assert (SK : skipn 1 (@nil (unitary * list nat)) = []) by reflexivity.
  unfold had_steps. cbn [decided exact_path changed rp_change rp_accept].
  rewrite !SK, !greedy_same. cbn [app]. rewrite !E0, !E2, !E1. cbn [fst snd List.length].
  split; [|split; reflexivity].
  split; [exact N0|]. right. split; [left; reflexivity|]. split; [exact N0|]. right. split; [right|].
  - intros x y Hx Hy. apply Rabs_le_between in Hx. apply Rabs_le_between in Hy.
    unfold greedy. destruct (Rle_dec y x); auto. lra.
  - split; [exact N1|]. left. reflexivity.
Qed.
