(** The example notebook. *)
From Coq Require Import Reals List Arith Lia Lra Bool String Ascii ZArith.
From Coquelicot Require Import Rcomplements Complex.
From Verif Require Import Base CMat CMatFacts Det DetFacts Norms ModelUnitary ModelEntry ModelPrimitive
  ModelSequence ModelCompiler ModelGates ModelText ModelExample Spec SpecModel SpecText SpecCompiler SpecGates SpecExample
  PUnitary PDrift PEntry PSeqNear PCompTotal PCompMore PCompProps PGates PGms PFamilies PGatesEx PExample PTextEx PCompCases PCompEx.
Import ListNotations.
Set Bullet Behavior "Strict Subproofs".
Open Scope R_scope.
Open Scope C_scope.
Open Scope se_scope.

(** ** How far apart two couplings are *)
Lemma coupling_overlap a b : overlap 4 (xx_coupling a) (xx_coupling b) = Rabs (cos (a - b)).
Proof.
  unfold overlap. replace (mtrace 4 (mmul 4 (adj (xx_coupling a)) (xx_coupling b))) with (RtoC (4 * cos (a - b))%R).
  - rewrite Cmod_R, Rabs_mult, (Rabs_right 4) by lra. simpl (INR 4). field.
  - rewrite cos_minus. unfold mtrace, mmul, adj, xx_coupling, kron, pauli_x, mat22, mid, Cconj. simpl.
    apply C_eq; simpl; ring.
Qed.

Lemma coupling_zero : meq 4 (xx_coupling 0) mid.
Proof.
  intros i j Hi Hj. unfold xx_coupling. rewrite cos_0, sin_0. apply C_eq; simpl; ring.
Qed.

Lemma overlap_meq d A A' B B' : meq d A A' -> meq d B B' -> overlap d A B = overlap d A' B'.
Proof.
  intros HA HB. unfold overlap. do 2 f_equal. apply csum_ext. intros i Hi. assert (X : meq d (mmul d (adj A) B) (mmul d (adj A') B')) by (now rewrite HA, HB). now apply X.
Qed.

(** ** The compiler of the notebook *)
Lemma plain_dec s : forallb (fun c => negb (existsb (Ascii.eqb c) (["009"; "010"]%char ++ chars " ()[],;=")%list)) (chars s) = true -> plain s.
Proof.
  intros H c Hc Hi. rewrite forallb_forall in H. specialize (H c Hc). apply negb_true_iff in H.
  assert (X : existsb (Ascii.eqb c) (["009"; "010"]%char ++ chars " ()[],;=")%list = true).
  { apply existsb_exists. exists c. split; [exact Hi|apply Ascii.eqb_refl]. }
  congruence.
Qed.

Definition notebook_gate (u : unitary) : Prop :=
  (u_name u = "Rxy"%string /\ map fst (u_params u) = ["theta"; "phi"]%string /\ u_dim u = 2%nat) \/
  (u_name u = "XX"%string /\ map fst (u_params u) = ["theta"]%string /\ u_dim u = 4%nat).

Lemma notebook_plain u : notebook_gate u -> plain_gate u.
Proof.
  intros H. assert (K : forall l, (forall s, In s l -> plain s) -> map fst (u_params u) = l ->
    forall k v, In (k, v) (u_params u) -> plain k).
  { intros l Hl E k v Hk. apply Hl. rewrite <- E. now apply (in_map fst) in Hk. }
  destruct H as [(N & P & _)|(N & P & _)]; split; try (rewrite N; now apply plain_dec); eapply K; try exact P.
  - intros s [<-|[<-|[]]]; now apply plain_dec.
  - intros s [<-|[]]; now apply plain_dec.
Qed.

Lemma notebook_lines fmt eps p g : notebook_gate (fst g) -> allows eps 4 p g -> notebook_line (qasm_line fmt g).
Proof.
  intros H (_ & _ & ND & NE & HD & HQ). assert (Q : forall q, In q (snd g) -> (q = 0 \/ q = 1)%nat).
  { intros q Hq. specialize (HQ q Hq). destruct q as [|[|q]]; auto. exfalso.
    assert (X : (2 ^ 3 <= 2 ^ (S (S q) + 1))%nat) by (apply Nat.pow_le_mono_r; lia). simpl (2 ^ 3)%nat in X. lia. }
  assert (Lp : List.length (u_params (fst g)) = List.length (map fst (u_params (fst g)))) by (symmetry; apply map_length).
  unfold notebook_line, qasm_line. destruct H as [(N & P & D)|(N & P & D)]; rewrite D in HD; rewrite P in Lp; cbn [List.length] in Lp.
  - left. rewrite map_length. split; [exact N|]. split; [exact Lp|].
    destruct (snd g) as [|q [|q' l]]; [congruence| |].
    + destruct (Q q (or_introl eq_refl)) as [->| ->]; auto.
    + exfalso. assert (X : (2 ^ 2 <= 2 ^ List.length (q :: q' :: l))%nat) by (apply Nat.pow_le_mono_r; simpl; lia). rewrite HD in X. simpl in X. lia.
  - right. rewrite map_length. split; [exact N|]. split; [exact Lp|].
    destruct (snd g) as [|q [|q' [|q2 l]]]; [congruence|simpl in HD; lia| |].
    + assert (q <> q'). { inversion ND as [|? ? Hn _]; subst. intros ->. apply Hn. now left. }
      destruct (Q q (or_introl eq_refl)) as [->| ->], (Q q' (or_intror (or_introl eq_refl))) as [->| ->]; auto; congruence.
    + exfalso. assert (X : (2 ^ 3 <= 2 ^ List.length (q :: q' :: q2 :: l))%nat) by (apply Nat.pow_le_mono_r; simpl; lia). rewrite HD in X. simpl in X. lia.
Qed.

Lemma instance_labels eps pu vs u : as_unitary eps pu vs = Ok u ->
  u_dim u = pu_dim pu /\ u_name u = pu_name pu /\ exists d, fill_dict (pu_params pu) vs [] = Ok d /\ u_params u = d.
Proof.
  unfold as_unitary. destruct (check_values _ _) as [b|]; cbn [bind]; [|discriminate]. destruct b; cbn [bind assert]; [|discriminate].
  destruct (fill_dict _ _ _) as [d|]; cbn [bind]; [|discriminate]. destruct (pu_matrix pu vs) as [m|]; cbn [bind]; [|discriminate].
  intros H. apply mk_unitary_inv in H. destruct H as (_ & _ & _ & _ & _ & ->). cbn [u_dim u_name u_params]. eauto.
Qed.

Lemma example_compiler_lemma : forall eps, small_drift eps 2 1 -> exists c, example_compiler eps = Ok c /\
  good_compiler eps 2 c /\ c_array c = false /\ List.length (c_prims c) = 2%nat /\
  (forall p u, In p (c_prims c) -> instance eps p u -> notebook_gate u).
Proof.
  intros eps SD. destruct (library_good_lemma eps SD) as ((p1 & E1 & G1) & _ & (p2 & E2 & G2)).
  unfold example_compiler, example_primitives. rewrite E1, E2. cbn [bind mk_primitive].
  assert (A1 : pu_dim p1 = 2%nat /\ pu_name p1 = "Rxy"%string /\ map pr_name (pu_params p1) = ["theta"; "phi"]%string).
  { unfold pd_rotation_xy in E1. rewrite !angle_ok in E1 by reflexivity. injection E1 as <-. now cbn. }
  assert (A2 : pu_dim p2 = 4%nat /\ pu_name p2 = "XX"%string /\ map pr_name (pu_params p2) = ["theta"]%string).
  { unfold pd_xx in E2. rewrite !angle_ok in E2 by reflexivity. injection E2 as <-. now cbn. }
  clear E1 E2. destruct A1 as (D1 & N1 & P1), A2 as (D2 & N2 & P2).
  unfold mk_compiler. cbn [forallb p_source src_dim]. rewrite D1, D2. cbn [Nat.leb Nat.ltb assert bind andb].
  eexists. split; [reflexivity|]. split; [|split; [reflexivity|split; [reflexivity|]]].
  - unfold good_compiler. cbn [c_dim c_append c_prims c_probs]. split; [reflexivity|]. split; [lra|]. split.
    + intros p [<-|[<-|[]]]; (split; [assumption|]); cbn [p_allowed p_source src_dim].
      * exists 1%nat. split; [lia|exact D1].
      * exists 2%nat. split; [lia|exact D2].
    + eexists. split; [left; reflexivity|]. discriminate.
  - cbn [c_prims]. intros p u [<-|[<-|[]]] (vs & _ & Hu); apply instance_labels in Hu; destruct Hu as (D & N & d & F & P).
    + left. rewrite D, N, P. split; [exact N1|]. split; [|exact D1].
      destruct (pu_params p1) as [|a [|b [|? ?]]]; try discriminate. injection P1 as Q1 Q2. cbn [fill_dict] in F.
      destruct vs as [|v [|v' vs]]; try discriminate. injection F as <-. rewrite Q1, Q2. reflexivity.
    + right. rewrite D, N, P. split; [exact N2|]. split; [|exact D2].
      destruct (pu_params p2) as [|a [|? ?]]; try discriminate. injection P2 as Q1. cbn [fill_dict] in F.
      destruct vs as [|v vs]; try discriminate. injection F as <-. rewrite Q1. reflexivity.
Qed.

Lemma good_beta eps n c b : good_compiler eps n c -> good_compiler eps n (set_beta c b).
Proof. intros H. exact H. Qed.

Lemma truthful_weaken fmt n T T' max b b' w r : meq (2 ^ n) T T' -> (b <= b')%R ->
  truthful fmt n T max b w r -> truthful fmt n T' max b' w r.
Proof.
  intros HT Hb (H1 & H2 & H3 & H4 & H5 & H6). assert (E : forall gs, infidelity n T gs = infidelity n T' gs).
  { intros gs. unfold infidelity. f_equal. apply overlap_meq; [exact HT|reflexivity]. }
  rewrite E in H4, H5. split; [exact H1|]. split; [exact H2|]. split; [exact H3|]. split; [lra|]. split; [|exact H6].
  intros Hl. specialize (H5 Hl). lra.
Qed.

Lemma drift_mono eps n K K' : (0 <= eps)%R -> (K <= K')%nat -> (drift_bound eps n K <= drift_bound eps n K')%R.
Proof.
  intros He HK. unfold drift_bound. apply le_INR in HK. assert (P2 := pos_INR (2 ^ n)). assert (P3 := sqrt_pos (INR (2 ^ n))).
  apply Rmult_le_compat_r; [exact He|]. apply Rmult_le_compat_r; [lra|]. apply Rmult_le_compat_r; [exact P2|]. lra.
Qed.

Lemma small_drift_steps eps n K K' : (K <= K')%nat -> small_drift eps n K' -> small_drift eps n K.
Proof.
  intros HK (He & H1 & H2). assert (X := drift_mono eps n K K' (proj1 He) HK). split; [exact He|]. split; [lra|].
  eapply Rle_trans; [|exact H2]. apply Rmult_le_compat_l; [apply pos_INR|exact X].
Qed.

Lemma empty_world_drift eps K : drift_world eps K w_empty.
Proof. exists []. split; [reflexivity|]. split; [constructor|]. simpl. lia. Qed.

Lemma notebook_core : forall fmt g eps max rvs T k, rng_ok g -> (forall k x, numeral (fmt k x)) ->
  unitary_mx 4 T -> rvs 4%nat = Ok (square 4 T) ->
  (0 < max)%Z -> small_drift eps 2 (S (Z.to_nat max + Z.to_nat max)) ->
  let bound := (6 * drift_bound eps 2 (S (Z.to_nat max + Z.to_nat max)))%R in
  exists c, example_compiler eps = Ok c /\
  exists st1 c1 r1, example_xx fmt g eps max ({| r_world := w_empty; r_draws := k |}, c) = ((st1, c1), Ok r1) /\
    truthful fmt 2 (xx_coupling (PI / 4)) max bound (r_world st1) r1 /\
    (exists ls, read_text read_qasm_line (rp_qasm r1) = Some ls /\ List.Forall notebook_line ls) /\
    (forall l, In l (contents (r_world st1) (rp_seq r1)) -> exists p, In p (c_prims c) /\ allows eps (2 ^ 2) p l) /\
  exists st2 c2,
    ((exists r2, example_random fmt g eps rvs max (st1, c1) = ((st2, c2), Ok r2) /\
        truthful fmt 2 T max bound (r_world st2) r2 /\
        (/ 10 ^ 8 - bound < 1 - overlap 4 T mid)%R /\
        (exists ls, read_text read_qasm_line (rp_qasm r2) = Some ls /\ List.Forall notebook_line ls) /\
        (forall l, In l (contents (r_world st2) (rp_seq r2)) -> exists p, In p (c_prims c) /\ allows eps (2 ^ 2) p l)) \/
     (example_random fmt g eps rvs max (st1, c1) = ((st2, c2), Raise IndexError) /\
        (1 - overlap 4 T mid <= / 10 ^ 8 + bound)%R)).
Proof.
  intros fmt g eps max rvs T k G Hf HT Hr Hm SD bound. set (m := Z.to_nat max) in *.
  destruct (example_compiler_lemma eps (small_drift_steps eps 2 1 (S (m + m)) ltac:(lia) SD)) as (c & Ec & HC & HA & HL & HI).
  exists c. split; [exact Ec|]. assert (HE := proj1 SD).
  assert (Lines : forall w r, truthful fmt 2 T max bound w r \/ truthful fmt 2 (xx_coupling (PI / 4)) max bound w r ->
    (forall l, In l (contents w (rp_seq r)) -> exists p, weighted (c_prims c) (c_probs c) p /\ allows eps (2 ^ 2) p l) ->
    exists ls, read_text read_qasm_line (rp_qasm r) = Some ls /\ List.Forall notebook_line ls).
  { intros w r Ht Hall. exists (map (qasm_line fmt) (contents w (rp_seq r))). split; [destruct Ht as [Ht|Ht]; apply Ht|].
    apply List.Forall_forall. intros l Hl. apply in_map_iff in Hl. destruct Hl as (gt & <- & Hg).
    destruct (Hall gt Hg) as (p & (i & Hi & _) & Ha). apply (notebook_lines fmt eps p); [|exact Ha].
    apply (HI p); [|apply Ha]. apply nth_error_In in Hi. now apply filter_In in Hi. }
  assert (Hpl : forall p u, In p (c_prims c) -> instance eps p u -> plain_gate u).
  { intros p u Hp Hi. apply notebook_plain. now apply (HI p). }
  set (st0 := {| r_world := w_empty; r_draws := k |}).
  assert (B1 : (6 * drift_bound eps 2 (S (0 + m)) <= bound)%R).
  { unfold bound. assert (X := drift_mono eps 2 (S (0 + m)) (S (m + m)) (proj1 HE) ltac:(lia)). lra. }
  set (X := elt (np_array
    [[RtoC (cos (PI / 4)); RtoC 0; RtoC 0; - Ci * RtoC (sin (PI / 4))];
     [RtoC 0; RtoC (cos (PI / 4)); - Ci * RtoC (sin (PI / 4)); RtoC 0];
     [RtoC 0; - Ci * RtoC (sin (PI / 4)); RtoC (cos (PI / 4)); RtoC 0];
     [- Ci * RtoC (sin (PI / 4)); RtoC 0; RtoC 0; RtoC (cos (PI / 4))]])).
  assert (EX : meq 4 X (xx_coupling (PI / 4))) by apply xx_matrix_eq.
  assert (UX : unitary_mx (2 ^ 2) X) by (eapply unitary_meq; [symmetry; exact EX|]; apply (xx_special (PI / 4))).
  destruct (xx_ok eps (PI / 4) (small_drift_steps eps 2 1 (S (m + m)) ltac:(lia) SD)) as (SX & _).
  assert (HX : exists target, g_xx eps (PI / 4) = Ok target).
  { destruct SX as (u & Eu & _). eauto. }
  destruct HX as (target & Et).
  assert (Et' : mk_unitary eps (2 ^ 2) (Some (square (2 ^ 2) X)) (Some "XX"%string) [("θ"%string, ((PI / 4)%R, true))] false [] = Ok target) by exact Et.
  destruct (C94_report_lemma fmt g eps 2 0 max st0 c X _ _ _ _ target G Hf (empty_world_drift eps 0) HC (or_introl HA) Hpl UX Et' Hm
    (small_drift_steps eps 2 (S (0 + m)) (S (m + m)) ltac:(lia) SD)) as (st1 & b1 & HW1 & [(r1 & E1 & T1 & A1 & _)|(_ & Far)]).
  2:{ exfalso. unfold infidelity in Far. cbn [ordered] in Far.
      assert (O : overlap (2 ^ 2) X (ordered 2 []) = Rabs (cos (PI / 4 - 0))).
      { rewrite <- coupling_overlap. apply overlap_meq; [exact EX|symmetry; exact coupling_zero]. }
      cbn [ordered] in O. rewrite O, Rminus_0_r, cos_PI4 in Far. fold m in Far.
      assert (Q : (1 / sqrt 2 <= 3 / 4)%R).
      { assert (S2 : (0 < sqrt 2)%R) by (apply sqrt_lt_R0; lra). assert (S3 := sqrt_sqrt 2 ltac:(lra)).
        apply Rmult_le_reg_r with (sqrt 2); [exact S2|]. unfold Rdiv. rewrite Rmult_assoc, Rinv_l by lra. clear - S2 S3. nra. }
      assert (Q0 : (0 <= 1 / sqrt 2)%R). { apply Rlt_le, Rdiv_lt_0_compat; [lra|]. apply sqrt_lt_R0; lra. }
      rewrite Rabs_pos_eq in Far by exact Q0. destruct SD as (_ & S1 & _). unfold bound in B1. lra. }
  exists st1, (set_beta c b1), r1. split.
  { unfold example_xx. unfold se_bind at 1. unfold se_lift at 1. rewrite Et. exact E1. }
  assert (T1' : truthful fmt 2 (xx_coupling (PI / 4)) max bound (r_world st1) r1).
  { eapply truthful_weaken; [exact EX|exact B1|exact T1]. }
  split; [exact T1'|]. split; [apply (Lines (r_world st1)); auto|].
  assert (In_prims : forall l, (exists p, weighted (c_prims c) (c_probs c) p /\ allows eps (2 ^ 2) p l) -> exists p, In p (c_prims c) /\ allows eps (2 ^ 2) p l).
  { intros l (p & (i & Hi & _) & Ha). exists p. split; [|exact Ha]. apply nth_error_In in Hi. now apply filter_In in Hi. }
  split; [intros l Hl; apply In_prims, A1, Hl|].
  assert (HR : exists v, u_random eps rvs 4 = Ok v /\ mk_unitary eps (2 ^ 2) (Some (square (2 ^ 2) T)) None [] false [] = Ok v).
  { destruct (drift_small _ _ _ SD) as [L _]. destruct HE as [e0 e1].
    destruct (made_ok eps e0 (2 ^ 2) T None [] false [] ltac:(simpl; lia) (or_introl HT)
      (lim_tame eps e0 e1 2 2 (2 ^ 2) (le_n _) (le_n _) (lim_mono eps e0 e1 2 2 (8 * S (m + m)) ltac:(lia) L))) as (v & Ev & _).
    exists v. split; [|exact Ev]. unfold u_random. rewrite Hr. exact Ev. }
  destruct HR as (v & Ev & Ev').
  destruct (C94_report_lemma fmt g eps 2 m max st1 (set_beta c b1) T _ _ _ _ v G Hf HW1 (good_beta _ _ _ b1 HC) (or_introl HA) Hpl HT Ev' Hm SD)
    as (st2 & b2 & HW2 & R).
  exists st2, (set_beta (set_beta c b1) b2).
  assert (Er : example_random fmt g eps rvs max (st1, set_beta c b1) = compile_and_report fmt g eps v max (st1, set_beta c b1)).
  { unfold example_random. unfold se_bind at 1. unfold se_lift at 1. rewrite Ev. reflexivity. }
  rewrite Er. destruct R as [(r2 & E2 & T2 & A2 & Far)|(E2 & Far)].
  - left. exists r2. split; [exact E2|]. split; [exact T2|]. split; [exact Far|]. split; [apply (Lines (r_world st2)); auto|].
    intros l Hl. apply In_prims, A2, Hl.
  - right. split; [exact E2|exact Far].
Qed.

Lemma C94_notebook_lemma : forall fmt g eps max rvs T k, rng_ok g -> (forall k x, numeral (fmt k x)) ->
  unitary_mx 4 T -> rvs 4%nat = Ok (square 4 T) ->
  (0 < max)%Z -> small_drift eps 2 (S (Z.to_nat max + Z.to_nat max)) ->
  let bound := (6 * drift_bound eps 2 (S (Z.to_nat max + Z.to_nat max)))%R in
  exists c, example_compiler eps = Ok c /\
  exists st1 c1 r1, example_xx fmt g eps max ({| r_world := w_empty; r_draws := k |}, c) = ((st1, c1), Ok r1) /\
    truthful fmt 2 (xx_coupling (PI / 4)) max bound (r_world st1) r1 /\
    (exists ls, read_text read_qasm_line (rp_qasm r1) = Some ls /\ List.Forall notebook_line ls) /\
  exists st2 c2,
    ((exists r2, example_random fmt g eps rvs max (st1, c1) = ((st2, c2), Ok r2) /\
        truthful fmt 2 T max bound (r_world st2) r2 /\
        (/ 10 ^ 8 - bound < 1 - overlap 4 T mid)%R /\
        exists ls, read_text read_qasm_line (rp_qasm r2) = Some ls /\ List.Forall notebook_line ls) \/
     (example_random fmt g eps rvs max (st1, c1) = ((st2, c2), Raise IndexError) /\
        (1 - overlap 4 T mid <= / 10 ^ 8 + bound)%R)).
Proof.
  intros fmt g eps max rvs T k G Hf HT Hr Hm SD bound.
  destruct (notebook_core fmt g eps max rvs T k G Hf HT Hr Hm SD) as (c & Ec & st1 & c1 & r1 & E1 & T1 & L1 & _ & st2 & c2 & H2).
  exists c. split; [exact Ec|]. exists st1, c1, r1. split; [exact E1|]. split; [exact T1|]. split; [exact L1|]. exists st2, c2.
  destruct H2 as [(r2 & E2 & T2 & F2 & L2 & _)|H2]; [left; exists r2; auto|right; exact H2].
Qed.

Lemma C94_close_target_lemma : forall fmt g rvs max k, rng_ok g -> (forall k x, numeral (fmt k x)) ->
  rvs 4%nat = Ok (square 4 mid) -> (0 < max)%Z ->
  exists c st1 c1 r1 st2 c2, example_compiler 0 = Ok c /\
    example_xx fmt g 0 max ({| r_world := w_empty; r_draws := k |}, c) = ((st1, c1), Ok r1) /\
    example_random fmt g 0 rvs max (st1, c1) = ((st2, c2), Raise IndexError).
Proof.
  intros fmt g rvs max k G Hf Hr Hm. assert (HT := unitary_mid 4).
  assert (Z0 : forall n K, drift_bound 0 n K = 0%R) by (intros n K; unfold drift_bound; ring).
  assert (SD : forall n K, small_drift 0 n K). { intros n K. unfold small_drift. rewrite Z0. lra. }
  destruct (C94_notebook_lemma fmt g 0 max rvs mid k G Hf HT Hr Hm (SD _ _))
    as (c & Ec & st1 & c1 & r1 & E1 & _ & _ & st2 & c2 & [(r2 & _ & _ & Far & _)|(E2 & _)]).
  - exfalso. rewrite Z0 in Far. assert (O : overlap 4 mid mid = Rabs (cos (0 - 0))).
    { rewrite <- coupling_overlap. apply overlap_meq; symmetry; exact coupling_zero. }
    rewrite O, Rminus_0_r, cos_0, Rabs_R1 in Far. lra.
  - exists c, st1, c1, r1, st2, c2. auto.
Qed.

Lemma C94_coupling_lemma : forall eps a b, eps_clean eps 4 (xx_coupling a) -> eps_clean eps 4 (xx_coupling b) ->
  exists u v, g_xx eps a = Ok u /\ g_xx eps b = Ok v /\ u_distance_from eps u v = Ok (1 - Rabs (cos (a - b)))%R.
Proof.
  intros eps a b Ca Cb. destruct (xx_exact eps a Ca) as (u & Eu & Du & Mu & Wu & _). destruct (xx_exact eps b Cb) as (v & Ev & Dv & Mv & _).
  exists u, v. split; [exact Eu|]. split; [exact Ev|]. rewrite overlap_inv; [|exact Wu| |congruence].
  - rewrite Du, <- coupling_overlap, (overlap_meq 4 _ _ _ _ Mu Mv). reflexivity.
  - rewrite Du. eapply eps_clean_meq; [symmetry; exact Mu|exact Ca].
Qed.

(** ** Actions *)
Lemma C31_remove_lemma : forall g ap st, rng_ok g -> (0 <= ap <= 1)%R ->
  exists a, choose_action g ap st = ({| r_world := r_world st; r_draws := S (r_draws st) |}, Ok a) /\
    (is_append a = true <-> (g_unif g (r_draws st) < ap)%R) /\
    (is_remove a = true <-> (ap <= g_unif g (r_draws st))%R).
Proof.
  intros g ap st G Ha. assert (Hx := proj1 G (r_draws st)). set (x := g_unif g (r_draws st)) in *.
  assert (S : exists a, (fst (action_interval ap a) <= x < snd (action_interval ap a))%R).
  { destruct (Rlt_dec x (ap / 2)); [exists ActAppendFirst; simpl; lra|].
    destruct (Rlt_dec x ap); [exists ActAppendLast; simpl; lra|].
    destruct (Rlt_dec x (ap + (1 - ap) / 2)); [exists ActRemoveFirst|exists ActRemoveLast]; simpl; lra. }
  destruct S as (a & Hi). exists a. split; [now apply C31_lemma|].
  destruct a; simpl in *; (split; split); intros; try reflexivity; try discriminate; lra.
Qed.

(** ** close_to with an array *)
Lemma C07_array_lemma : forall eps u a, built eps u -> eps_clean eps (u_dim u) (u_mat u) ->
  (nrows a = u_dim u -> ncols a = u_dim u ->
   (forall t, exists b, u_close_to_array eps u a (Some t) = Ok b /\
      (b = true <-> (t <= overlap (u_dim u) (u_mat u) (elt a))%R)) /\
   (exists b, u_close_to_array eps u a None = Ok b /\
      (b = true <-> (Rabs (1 - overlap (u_dim u) (u_mat u) (elt a)) <= / 10 ^ 8)%R))) /\
  (nrows a <> u_dim u \/ ncols a <> u_dim u -> forall t, u_close_to_array eps u a t = Raise AssertionError).
Proof.
  intros eps u a B Cl. assert (W := built_wf _ _ B). split.
  - intros Hr Hk. unfold u_close_to_array. rewrite (distance_array_ok u a eps W Cl Hr Hk). cbn [bind]. split.
    + intros t. eexists. split; [reflexivity|]. rewrite Rleb_spec. split; lra.
    + eexists. split; [reflexivity|]. rewrite isclose_spec. set (x := (1 - _)%R). replace (RtoC x - 0) with (RtoC x) by ring.
      rewrite Cmod_R, Cmod_0, Rmult_0_r, Rplus_0_r. reflexivity.
  - intros H t. unfold u_close_to_array, u_distance_from_array.
    destruct H as [H|H]; apply Nat.eqb_neq in H; rewrite H, ?andb_false_r; reflexivity.
Qed.

Lemma C07_array_refuted_lemma : exists u a, built 0 u /\ nrows a = u_dim u /\ ncols a = u_dim u /\
  ~ unitary_mx (u_dim u) (elt a) /\ u_close_to_array 0 u a (Some 1%R) = Ok true /\ u_close_to_array 0 u a None = Ok false.
Proof.
  destruct (mk_unitary_exact 0 1 mid None [] false [] ltac:(lia) (unitary_mid 1) (eps_clean_0 1 mid)) as (u & Eu & Du & _ & _ & _ & _ & Mu & _).
  assert (B : built 0 u). { do 6 eexists. split; [exact (unitary_mid 1)|]. split; [apply eps_clean_0|exact Eu]. }
  assert (W := built_wf _ _ B). exists u, (square 1 (fun _ _ => RtoC 2)). split; [exact B|]. rewrite Du. split; [reflexivity|]. split; [reflexivity|].
  assert (U1 : Cmod (u_mat u 0%nat 0%nat) = 1%R).
  { destruct W as (_ & (U & _)). rewrite Du in U. specialize (U 0%nat 0%nat ltac:(lia) ltac:(lia)).
    unfold mmul, adj, mid in U. simpl in U. rewrite Cplus_0_l in U. apply (f_equal Cmod) in U. rewrite Cmod_mult, Cmod_conj, Cmod_1 in U.
    assert (P := Cmod_ge_0 (u_mat u 0%nat 0%nat)). nra. }
  assert (O : overlap (u_dim u) (u_mat u) (elt (square 1 (fun _ _ => RtoC 2))) = 2%R).
  { rewrite Du. unfold overlap, mtrace, mmul, adj. simpl. rewrite !Cplus_0_l, Cmod_mult, Cmod_conj, U1, Cmod_R, Rabs_right by lra. field. }
  destruct (C07_array_lemma 0 u (square 1 (fun _ _ => RtoC 2)) B (eps_clean_0 _ _)) as (X & _).
  destruct (X (eq_sym Du) (eq_sym Du)) as (H1 & (b & H2 & H3)). rewrite O in *. split; [|split].
  - intros U. specialize (U 0%nat 0%nat ltac:(lia) ltac:(lia)). unfold mmul, adj, mid in U. simpl in U.
    apply (f_equal fst) in U. simpl in U. lra.
  - destruct (H1 1%R) as (b' & E & Hb). rewrite E. f_equal. apply Hb. lra.
  - rewrite H2. f_equal. destruct b; [|reflexivity]. assert (Y := proj1 H3 eq_refl). replace (1 - 2)%R with (-1)%R in Y by ring.
    rewrite Rabs_left in Y by lra. lra.
Qed.

(** ** Cases *)
Lemma ex_C94_threshold : small_drift eps_code 2 25.
Proof.
  unfold small_drift, drift_bound, eps_code. simpl (2 ^ 2)%nat. replace (INR 4) with 4%R by (simpl; ring).
  replace (INR 25) with 25%R by (simpl; ring).
  replace (sqrt 4) with 2%R by (symmetry; replace 4%R with (2 * 2)%R by ring; apply sqrt_square; lra). lra.
Qed.

Lemma ex_C94_lemma : exists (fmt : nat -> R -> string) g (rvs : nat -> res ndarray) T, rng_ok g /\ (forall k x, numeral (fmt k x)) /\ unitary_mx 4 T /\
  rvs 4%nat = Ok (square 4 T) /\ (overlap 4 T mid = 0)%R /\
  small_drift eps_code 2 (S (Z.to_nat 12 + Z.to_nat 12)) /\ small_drift 0 2 (S (Z.to_nat 500 + Z.to_nat 500)).
Proof.
  exists some_fmt, (const_rng 0 0), (fun d => Ok (square d (xx_coupling (PI / 2)))), (xx_coupling (PI / 2)).
  split; [apply const_rng_ok; lra|]. split; [exact some_fmt_numeral|]. split; [apply xx_special|]. split; [reflexivity|].
  split.
  - rewrite <- (overlap_meq 4 _ _ _ _ (meq_refl _ _) coupling_zero), coupling_overlap, Rminus_0_r, cos_PI2. apply Rabs_R0.
  - split; [exact ex_C94_threshold|]. unfold small_drift, drift_bound. rewrite !Rmult_0_r. lra.
Qed.

Lemma ex_C94_report_lemma : exists (fmt : nat -> R -> string) g c T target, rng_ok g /\ (forall k x, numeral (fmt k x)) /\
  drift_world eps_code 0 w_empty /\ good_compiler eps_code 2 c /\ c_array c = false /\
  (forall p u, In p (c_prims c) -> instance eps_code p u -> plain_gate u) /\
  (exists p u, In p (c_prims c) /\ instance eps_code p u /\ u_name u = "Rxy"%string) /\
  unitary_mx (2 ^ 2) T /\ mk_unitary eps_code (2 ^ 2) (Some (square (2 ^ 2) T)) None [] false [] = Ok target /\
  (/ 10 ^ 8 + 6 * drift_bound eps_code 2 (S (0 + Z.to_nat 24)) < infidelity 2 T [])%R /\ small_drift eps_code 2 (S (0 + Z.to_nat 24)).
Proof.
  destruct (example_compiler_lemma eps_code (small_drift_steps eps_code 2 1 25 ltac:(lia) ex_C94_threshold)) as (c & Ec & HC & HA & HL & HI).
  destruct (drift_small _ _ _ ex_C94_threshold) as [L _]. destruct (proj1 ex_C94_threshold) as [e0 e1].
  destruct (made_ok eps_code e0 (2 ^ 2) (xx_coupling (PI / 2)) None [] false [] ltac:(simpl; lia) (or_introl (proj1 (xx_special (PI / 2))))
    (lim_tame eps_code e0 e1 2 2 (2 ^ 2) (le_n _) (le_n _) (lim_mono eps_code e0 e1 2 2 (8 * 25) ltac:(lia) L))) as (v & Ev & _).
  exists some_fmt, (const_rng 0 0), c, (xx_coupling (PI / 2)), v.
  split; [apply const_rng_ok; lra|]. split; [exact some_fmt_numeral|]. split; [apply empty_world_drift|]. split; [exact HC|]. split; [exact HA|].
  split; [intros p u Hp Hi; apply notebook_plain; now apply (HI p)|]. split.
  { destruct (rotation_xy_lemma eps_code 0 0 (small_drift_less eps_code 1 2 1 ltac:(lia) (small_drift_steps eps_code 2 1 25 ltac:(lia) ex_C94_threshold)))
      as (pu & Epu & (u & Eu & _) & Lb); [assert (P := PI_RGT_0); lra|assert (P := PI_RGT_0); lra|].
    unfold example_compiler, example_primitives in Ec. rewrite Epu in Ec. cbn [bind mk_primitive] in Ec.
    destruct (pd_xx eps_code) as [p2|]; cbn [bind] in Ec; [|discriminate]. unfold mk_compiler in Ec.
    destruct (Nat.ltb 0 4); cbn [assert bind] in Ec; [|discriminate]. destruct (forallb _ _); cbn [assert bind] in Ec; [|discriminate].
    injection Ec as <-. eexists. exists u. split; [left; reflexivity|]. split.
    - unfold instance. cbn [p_source]. exists [0%R; 0%R]. split; [|exact Eu].
      unfold pd_rotation_xy in Epu. rewrite !angle_ok in Epu by reflexivity. injection Epu as <-. cbn [pu_params].
      assert (P := PI_RGT_0). repeat constructor; cbn [pr_min pr_max]; lra.
    - destruct Lb as (u' & Eu' & N & _). congruence. }
  split; [apply xx_special|]. split; [exact Ev|]. split; [|exact ex_C94_threshold].
  destruct ex_C94_threshold as (_ & B & _). change (0 + Z.to_nat 24)%nat with 24%nat.
  unfold infidelity. cbn [ordered].
  assert (O : overlap (2 ^ 2) (xx_coupling (PI / 2)) (ordered 2 []) = 0%R).
  { rewrite <- (overlap_meq 4 _ _ _ _ (meq_refl _ _) coupling_zero), coupling_overlap, Rminus_0_r, cos_PI2. apply Rabs_R0. }
  rewrite O. lra.
Qed.

Lemma ex_coupling_lemma : eps_clean eps_code 4 (xx_coupling (PI / 4)) /\ eps_clean eps_code 4 (xx_coupling (PI / 2)).
Proof.
  assert (S2 : (0 < sqrt 2)%R) by (apply sqrt_lt_R0; lra). assert (S3 := sqrt_sqrt 2 ltac:(lra)).
  assert (Q : (1 / 2 <= 1 / sqrt 2)%R).
  { apply Rmult_le_reg_r with (sqrt 2); [exact S2|]. unfold Rdiv. rewrite (Rmult_assoc 1 (/ sqrt 2)), Rinv_l by lra. clear - S2 S3. nra. }
  unfold eps_code. split; apply xx_clean; intros H.
  - rewrite cos_PI4, Rabs_right in H by lra. lra.
  - rewrite sin_PI4, Rabs_right in H by lra. lra.
  - apply cos_PI2.
  - rewrite sin_PI2, Rabs_R1 in H. lra.
Qed.

Lemma ex_C31_remove_lemma : exists g, rng_ok g /\ g_unif g 0 = (1 / 2)%R.
Proof. exists (const_rng (1 / 2) 0). split; [apply const_rng_ok; lra|reflexivity]. Qed.

Lemma ex_C07_array_lemma : exists u a, built eps_code u /\ eps_clean eps_code (u_dim u) (u_mat u) /\
  nrows a = u_dim u /\ ncols a = u_dim u /\ unitary_mx (u_dim u) (elt a) /\ overlap (u_dim u) (u_mat u) (elt a) = 0%R.
Proof.
  destruct ex_coupling_lemma as [_ C]. destruct (xx_exact eps_code (PI / 2) C) as (u & Eu & D & M & _).
  exists u, (square 4 mid). split.
  - unfold g_xx in Eu. do 6 eexists. split; [|split; [|exact Eu]].
    + eapply unitary_meq; [symmetry; apply xx_matrix_eq|apply xx_special].
    + eapply eps_clean_meq; [symmetry; apply xx_matrix_eq|exact C].
  - rewrite D. split; [eapply eps_clean_meq; [symmetry; exact M|exact C]|]. split; [reflexivity|]. split; [reflexivity|].
    split; [apply unitary_mid|]. cbn [elt square].
    rewrite (overlap_meq 4 _ _ _ _ M (meq_sym _ _ _ coupling_zero)), coupling_overlap, Rminus_0_r, cos_PI2. apply Rabs_R0.
Qed.
