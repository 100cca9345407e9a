(** The chance that the inverse part of a generated sequence is found; cases. *)
From Coq Require Import Reals List Arith Lia Lra Bool ZArith String Permutation.
From Coquelicot Require Import Coquelicot.
From Verif Require Import Base CMat CMatFacts Det DetFacts Norms ModelUnitary ModelEntry ModelPrimitive ModelGates ModelHamiltonian
  ModelSequence ModelCompiler ModelVerification Spec SpecModel SpecCompiler SpecGates PUnitary PUnitaryProps PDrift PEmbed PEntry PSeqHeap PSeqMeth PSeqNear PSeqWorld
  PSeqUndo PSeqInv PSeqHist PSeqProps PSeqCases PCompView PCompRun PCompEntry PCompLoop PCompTrace PCompTotal PCompProps PCompMore
  PCompCases PCompEx PReach PVerify PVerifyProps PFamilies PHamRun SpecChain PChain PChainStep PChainRun PChainHit PChainLay PAlmostComp PAlmostRun PAlmostEx
  SpecFloor PFloor PFloorMain PFloorLib PFloorEx PFloorInv.
Import ListNotations.
Open Scope R_scope.
Set Bullet Behavior "Strict Subproofs".

Lemma C100_found_lemma : forall n arr ps thr ap probs,
  good_set 0 n ps probs -> arr = false \/ List.length ps = 1%nat ->
  (forall p, In p ps -> continuous_source (p_source p)) -> 0 < ap <= 1 -> 0 < thr < 1 ->
  exists m rho, (0 < m)%nat /\ 0 < rho <= 1 /\ forall len max st, (0 <= len)%Z -> (0 < max)%Z -> exact_world (r_world st) ->
  chance_at_least (r_draws st) (fun g => exists st' s costs,
      generate_rav_sequence g 0 (2 ^ n) arr ps len thr ap probs max st = (st', Ok (s, costs)) /\
      thr <= overlap (2 ^ n) mid (ordered n (contents (r_world st') s))) (1 - (1 - rho) ^ (Z.to_nat max / m)).
Proof. intros. now apply rav_found. Qed.

Lemma C100_limit_lemma : forall n arr ps thr ap probs delta,
  good_set 0 n ps probs -> arr = false \/ List.length ps = 1%nat ->
  (forall p, In p ps -> continuous_source (p_source p)) -> 0 < ap <= 1 -> 0 < thr < 1 -> 0 < delta ->
  exists N, forall len max st, (0 <= len)%Z -> (N <= max)%Z -> exact_world (r_world st) ->
  chance_at_least (r_draws st) (fun g => exists st' s costs,
      generate_rav_sequence g 0 (2 ^ n) arr ps len thr ap probs max st = (st', Ok (s, costs)) /\
      thr <= overlap (2 ^ n) mid (ordered n (contents (r_world st') s))) (1 - delta).
Proof.
  intros n arr ps thr ap probs delta GS HA HCS Hap Ht Hdl.
  destruct (C100_found_lemma n arr ps thr ap probs GS HA HCS Hap Ht) as (m & rho & H1 & H2 & H3).
  destruct (far rho delta m H1 H2 Hdl) as (N & HN). exists (Z.max 1 (Z.of_nat N)). intros len max st HL Hmx HX.
  eapply chance_lower; [|apply (H3 len max st HL ltac:(lia) HX)]. specialize (HN (Z.to_nat max) ltac:(lia)). lra.
Qed.

Lemma C100_found_layered_lemma : forall n counts thr ap,
  good_table 0 n counts ->
  (forall pc, In pc counts -> (0 <= snd pc)%Z /\ continuous_source (p_source (fst pc)) /\ (src_dim (p_source (fst pc)) <= 2 ^ n)%nat) ->
  0 < ap <= 1 -> 0 < thr < 1 ->
  exists m rho, (0 < m)%nat /\ 0 < rho <= 1 /\ forall len max st, (0 <= len)%Z -> (0 < max)%Z -> exact_world (r_world st) ->
  chance_at_least (r_draws st) (fun g => exists st' s costs,
      generate_layered_rav_sequence g 0 (2 ^ n) counts len thr ap max st = (st', Ok (s, costs)) /\
      thr <= overlap (2 ^ n) mid (ordered n (contents (r_world st') s))) (1 - (1 - rho) ^ (Z.to_nat max / m)).
Proof.
  intros n counts thr ap HC HP Hap Ht. apply lay_found; auto.
  - intros pc H. split; now apply HP.
  - intros pc H. now apply HP.
Qed.

Lemma C100_limit_layered_lemma : forall n counts thr ap delta,
  good_table 0 n counts ->
  (forall pc, In pc counts -> (0 <= snd pc)%Z /\ continuous_source (p_source (fst pc)) /\ (src_dim (p_source (fst pc)) <= 2 ^ n)%nat) ->
  0 < ap <= 1 -> 0 < thr < 1 -> 0 < delta ->
  exists N, forall len max st, (0 <= len)%Z -> (N <= max)%Z -> exact_world (r_world st) ->
  chance_at_least (r_draws st) (fun g => exists st' s costs,
      generate_layered_rav_sequence g 0 (2 ^ n) counts len thr ap max st = (st', Ok (s, costs)) /\
      thr <= overlap (2 ^ n) mid (ordered n (contents (r_world st') s))) (1 - delta).
Proof.
  intros n counts thr ap delta HC HP Hap Ht Hdl.
  destruct (C100_found_layered_lemma n counts thr ap HC HP Hap Ht) as (m & rho & H1 & H2 & H3).
  destruct (far rho delta m H1 H2 Hdl) as (N & HN). exists (Z.max 1 (Z.of_nat N)). intros len max st HL Hmx HX.
  eapply chance_lower; [|apply (H3 len max st HL ltac:(lia) HX)]. specialize (HN (Z.to_nat max) ltac:(lia)). lra.
Qed.

(** * Threshold 1 *)
Lemma powers_345 u gs : meq 2 (u_mat u) rot345 -> gs <> [] -> (forall g, In g gs -> g = (u, [0%nat])) ->
  exists a b q : Z, (0 < q)%Z /\ (a * a + b * b = q * q)%Z /\ (a mod 5 = 3)%Z /\ (b mod 5 = 4)%Z /\
  meq 2 (ordered 1 gs) (mat22 (RtoC (IZR a / IZR q)) (RtoC (- (IZR b / IZR q))) (RtoC (IZR b / IZR q)) (RtoC (IZR a / IZR q))).
Proof.
  intros M HN. induction gs as [|g gs IH]; intros H; [congruence|].
  assert (Eg : meq 2 (embed 1 (snd g) (u_mat (fst g))) rot345).
  { rewrite (H g) by now left. cbn [fst snd]. now rewrite embed_one. }
  assert (EO : meq 2 (ordered 1 (g :: gs)) (mmul 2 (ordered 1 gs) rot345)).
  { change 2%nat with (2 ^ 1)%nat at 1. etransitivity; [apply (ordered_cons 1)|]. change (2 ^ 1)%nat with 2%nat. now rewrite Eg. }
  destruct gs as [|g' gs].
  - exists 3%Z, 4%Z, 5%Z. repeat split; try reflexivity. rewrite EO. change (ordered 1 []) with mid. rewrite mmul_1_l.
    mat2; unfold rot345, mat22; cbn -[Rdiv]; try reflexivity.
  - destruct (IH ltac:(discriminate)) as (a & b & q & Hq & E & A5 & B5 & EM); [intros; apply H; now right|].
    exists (3 * a - 4 * b)%Z, (4 * a + 3 * b)%Z, (5 * q)%Z. split; [lia|]. split; [nia|].
    assert (Ha := Z.div_mod a 5 ltac:(lia)). assert (Hb := Z.div_mod b 5 ltac:(lia)). rewrite A5 in Ha. rewrite B5 in Hb.
    split; [symmetry; apply Z.mod_unique with (q := (3 * (a / 5) - 4 * (b / 5) - 2)%Z); lia|].
    split; [symmetry; apply Z.mod_unique with (q := (4 * (a / 5) + 3 * (b / 5) + 4)%Z); lia|].
    rewrite EO, EM. assert (0 < IZR q) by (apply IZR_lt; lia).
    rewrite minus_IZR, plus_IZR, !mult_IZR.
    mat2; unfold mmul, rot345, mat22; cbn -[Rdiv]; apply C_eq; simpl; field; lra.
Qed.

Lemma powers_below u gs : meq 2 (u_mat u) rot345 -> gs <> [] -> (forall g, In g gs -> g = (u, [0%nat])) ->
  overlap 2 mid (ordered 1 gs) < 1.
Proof.
  intros M HN H. destruct (powers_345 u gs M HN H) as (a & b & q & Hq & E & A5 & B5 & EM).
  rewrite (overlap_proper 2 mid mid ltac:(reflexivity) _ _ EM). assert (Q : 0 < IZR q) by (apply IZR_lt; lia).
  unfold overlap. cbn -[Rdiv].
  match goal with |- Cmod ?z / _ < 1 => replace z with (RtoC (2 * (IZR a / IZR q))) by (apply C_eq; simpl; field; lra) end.
  rewrite Cmod_R. assert (X : Rabs (IZR a / IZR q) < 1).
  { unfold Rdiv. rewrite Rabs_mult, (Rabs_pos_eq (/ _)) by (left; now apply Rinv_0_lt_compat).
    apply Rlt_div_l; [lra|]. rewrite Rmult_1_l, <- abs_IZR. apply IZR_lt.
    assert (b <> 0)%Z by (intros ->; discriminate). nia. }
  rewrite Rabs_mult, Rabs_pos_eq by lra. lra.
Qed.

Lemma C100_exact_refuted_lemma : exists u ps, ps = [rot_primitive u] /\ good_set 0 1 ps None /\
  (forall p, In p ps -> continuous_source (p_source p)) /\
  forall g len ap max st st' s costs, rng_ok g -> (0 < len)%Z -> exact_world (r_world st) ->
    generate_rav_sequence g 0 (2 ^ 1) false ps len 1 ap None max st = (st', Ok (s, costs)) ->
    overlap (2 ^ 1) mid (ordered 1 (contents (r_world st') s)) < 1.
Proof.
  destruct (rot345_built 0 ltac:(lra)) as (u & B & D & Mu & _). exists u, [rot_primitive u]. split; [reflexivity|]. split; [|split].
  - split.
    + intros p [<-|[]]. split; [now apply rot_good|]. simpl. lia.
    + exists (rot_primitive u). split; [now left|discriminate].
  - intros p [<-|[]]. exact I.
  - intros g len ap max st st' s costs G HL HX E.
    assert (HR : reachable 0 (r_world st)) by (destruct HX as (os & -> & _); now exists os).
    destruct (rav_structure g 0 G _ _ _ _ _ _ _ _ _ _ _ _ HR E) as (rand & comp & _ & EC & LR & FA & _).
    apply (powers_below u); auto.
    + rewrite EC. intros X. apply (f_equal (@List.length _)) in X. rewrite app_length in X. simpl in X. lia.
    + rewrite EC. intros [v qs] Hg. rewrite List.Forall_forall in FA. destruct (FA _ Hg) as (p & (i & Hi & _) & I & _ & ND & NE & HQ & HB).
      apply nth_error_In, filter_In in Hi. destruct Hi as [[<-|[]] _]. cbn [fst snd] in *. unfold instance in I. cbn [rot_primitive p_source] in I. subst v.
      f_equal. rewrite D in HQ. assert (L1 : List.length qs = 1%nat).
      { apply (Nat.pow_inj_r 2); [lia|]. rewrite HQ. reflexivity. }
      destruct qs as [|q [|q' qs]]; try discriminate. f_equal. specialize (HB q (or_introl eq_refl)).
      destruct q; auto. change (2 ^ (S q + 1))%nat with (2 * (2 ^ (q + 1)))%nat in HB. rewrite Nat.add_1_r in HB. cbn [Nat.pow] in HB.
      assert (0 < 2 ^ q)%nat by (apply Nat.neq_0_lt_0, Nat.pow_nonzero; lia). lia.
Qed.

(** * Cases *)
Lemma two_qubit_prims : exists pr px, pd_rotation_xy 0 = Ok pr /\ pd_xx 0 = Ok px /\
  good_primitive 0 2 (turner pr) /\ good_primitive 0 2 (turner px) /\ pu_dim pr = 2%nat /\ pu_dim px = 4%nat.
Proof.
  destruct (library_good_lemma 0 (proj1 (drift_0 2 1))) as ((pr & E1 & G1) & _ & (px & E3 & G3)). exists pr, px. split; auto. split; auto.
  assert (D1 : pu_dim pr = 2%nat) by (clear - E1; unfold pd_rotation_xy in E1; rewrite !angle_ok in E1 by reflexivity; injection E1 as <-; reflexivity).
  assert (D3 : pu_dim px = 4%nat) by (clear - E3; unfold pd_xx in E3; rewrite !angle_ok in E3 by reflexivity; injection E3 as <-; reflexivity).
  split; [|split; [|split; assumption]].
  - split; [exact G1|]. cbn [turner p_allowed]. exists 1%nat. split; [lia|]. exact D1.
  - split; [exact G3|]. cbn [turner p_allowed]. exists 2%nat. split; [lia|]. exact D3.
Qed.

Lemma ex_C100_lemma : exists pr px ps counts, pd_rotation_xy 0 = Ok pr /\ pd_xx 0 = Ok px /\ ps = [turner pr; turner px] /\
  good_set 0 2 ps None /\ (forall p, In p ps -> continuous_source (p_source p)) /\ exact_world (r_world start) /\
  counts = [(turner pr, 2%Z); (turner px, 1%Z)] /\ good_table 0 2 counts /\
  (forall pc, In pc counts -> (0 <= snd pc)%Z /\ continuous_source (p_source (fst pc)) /\ (src_dim (p_source (fst pc)) <= 2 ^ 2)%nat).
Proof.
  destruct two_qubit_prims as (pr & px & E1 & E2 & G1 & G2 & D1 & D2).
  assert (K1 := proj1 C98_library_lemma pr E1). assert (K2 := proj1 (proj2 (proj2 C98_library_lemma)) px E2).
  exists pr, px, [turner pr; turner px], [(turner pr, 2%Z); (turner px, 1%Z)].
  split; [exact E1|]. split; [exact E2|]. split; [reflexivity|]. split; [|split; [|split; [|split; [|split]]]].
  - split.
    + intros p [<-|[<-|[]]]; (split; [assumption|]); cbn [turner p_source src_dim]; simpl; lia.
    + exists (turner pr). split; [now left|discriminate].
  - intros p [<-|[<-|[]]]; assumption.
  - exact empty_exact.
  - reflexivity.
  - apply List.Forall_cons; [split; [exact G1|discriminate]|]. apply List.Forall_cons; [split; [exact G2|discriminate]|]. apply List.Forall_nil.
  - intros pc [<-|[<-|[]]]; cbn [fst snd turner p_source src_dim]; (split; [lia|split; [assumption|simpl; lia]]).
Qed.
