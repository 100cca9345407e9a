(** The inverse of a random sequence is found, with a chance that does not depend on the sequence. *)
From Coq Require Import Reals List Arith Lia Lra Bool String ZArith Permutation ClassicalEpsilon.
From Coquelicot Require Import Coquelicot.
From Verif Require Import Base CMat CMatFacts Det DetFacts Norms ModelUnitary ModelEntry ModelPrimitive
  ModelSequence ModelCompiler ModelVerification Spec SpecModel SpecCompiler PUnitary PUnitaryProps PEmbed PEntry PSeqHeap PSeqMeth PSeqNear PSeqWorld
  PSeqUndo PSeqInv PSeqHist PSeqProps PSeqCases PCompView PCompRun PCompEntry PCompLoop PCompTrace PCompTotal PCompProps PCompMore
  PCompCases PCompEx PReach PVerify PVerifyProps SpecChain PChain PChainStep PChainRun PChainBal PChainHit PChainLay PRecur PAlmost PAlmostComp PAlmostRun
  SpecFloor PFloor PFloorNear PFloorComp PFloorChange PFloorRun PFloorMain.
Import ListNotations.
Open Scope R_scope.
Open Scope se_scope.
Set Bullet Behavior "Strict Subproofs".

Definition idcost (n : nat) (gs : list gatety) : R := 1 - overlap (2 ^ n) mid (ordered n gs).

Lemma cost_inverse n target rand cs : special (2 ^ n) (ordered n rand) -> meq (2 ^ n) (u_mat target) (adj (ordered n rand)) ->
  cost_of n target cs = idcost n (rand ++ cs).
Proof.
  intros SP MT. unfold cost_of, idcost. f_equal. rewrite MT, ordered_app.
  rewrite <- (overlap_right (2 ^ n) (adj (ordered n rand)) mid) by (now apply special_adj).
  assert (U0 : meq (2 ^ n) (mmul (2 ^ n) (ordered n rand) (adj (ordered n rand))) mid) by apply SP.
  now rewrite <- (mmul_assoc (2 ^ n) (ordered n cs)), U0, mmul_1_l, mmul_1_r.
Qed.

Section Inverse.
Variables (n : nat) (c : compiler) (change : rng -> nat -> CM unit) (k0 : nat) (thr : R)
  (Rel : rng -> list gatety -> list gatety -> Prop) (Inv : list gatety -> Prop).
Hypothesis Hd : c_dim c = (2 ^ n)%nat.
Hypothesis H1 : forall g, rng_ok g -> change_ok 0 (change g) (Rel g) c.
Hypothesis H2 : forall g s, rng_ok g -> ctraced 0 (built 0) c k0 (change g s).
Hypothesis H3 : forall g, rng_ok g -> total_change 0 true n k0 (change g) c.
Hypothesis HI : forall g a b, rng_ok g -> Inv a -> Rel g a b -> Inv b.
Hypothesis Hrate : 0 <= c_rate c.
Hypothesis Hmax : 0 <= c_max_beta c.
Hypothesis Hbeta : 0 <= c_beta c.
Hypothesis Hthr : thr < 1.
Hypothesis HTree : floor n c change Inv (fun _ => False) 0.
Hypothesis Hsp : forall g s0 target thr max st, rng_ok g -> WG 0 anyg (r_world (fst st)) -> (s0 < List.length (w_seqs (r_world (fst st))))%nat ->
  spares 0 s0 (r_world (fst st)) (r_world (fst (fst (compile_with g 0 (change g) target thr max st)))).
Hypothesis Inil : Inv [].
Hypothesis Iapp : forall a b, Inv a -> Inv b -> Inv (a ++ b).
Hypothesis Iuni : forall a, Inv a -> unitary_mx (2 ^ n) (ordered n a).
Hypothesis IBox : forall target, built 0 target -> u_dim target = (2 ^ n)%nat -> forall w e, Inv w -> 0 < e -> exists bs, floors n c change Inv bs /\
  forall a xs, Inv a -> inside bs xs -> cost_of n target (a ++ List.concat xs) <= cost_of n target (a ++ w) + e.

Notation prod bs := (fold_right Rmult 1 (map (fun bw : (list gatety -> Prop) * R => snd bw * exp (- c_max_beta c)) bs)).

Lemma near_id : exists m rho, (0 < m)%nat /\ 0 < rho <= 1 /\ forall cs, Inv cs -> exists bs, floors n c change Inv bs /\ (List.length bs <= m)%nat /\ rho <= prod bs /\
  forall xs, inside bs xs -> idcost n (cs ++ List.concat xs) <= 1 - thr.
Proof.
  assert (Hn : (0 < 2 ^ n)%nat) by (apply Nat.neq_0_lt_0, Nat.pow_nonzero; lia).
  destruct (u_identity_ok 0 (2 ^ n) Hn ltac:(lra)) as (i & EId & DI & _ & _ & _ & _ & MI).
  assert (BI : built 0 i).
  { exists (2 ^ n)%nat, mid. do 4 eexists. split; [apply special_mid|]. split; [apply eps_clean_0|]. unfold u_identity in EId. exact EId. }
  assert (CI : forall gs, cost_of n i gs = idcost n gs) by (intros gs; unfold cost_of, idcost; now rewrite MI).
  destruct (near_floor n c change i Inv Hd BI DI Hmax Inil Iapp Iuni (IBox i BI DI) [] (1 - thr) Inil) as (m & rho & M1 & M2 & H).
  { rewrite CI. unfold idcost. rewrite (proj2 (overlap_1_iff (2 ^ n) mid (ordered n []) Hn (proj1 (special_mid _)) (Iuni [] Inil))); [lra|].
    exists (RtoC 1). split; [rewrite Cmod_R, Rabs_R1; reflexivity|]. unfold ordered. cbn [fold_left]. intros i0 j0 _ _. unfold mscale. ring. }
  exists m, rho. split; auto. split; auto. intros cs Hcs. destruct (H cs Hcs) as (bs & B1 & B2 & B3 & B4). exists bs. repeat split; auto; try apply B1; auto.
  intros xs Hx. rewrite <- CI. auto.
Qed.

Lemma inverse_least m rho : (0 < m)%nat -> 0 < rho <= 1 ->
  (forall cs, Inv cs -> exists bs, floors n c change Inv bs /\ (List.length bs <= m)%nat /\ rho <= prod bs /\
    forall xs, inside bs xs -> idcost n (cs ++ List.concat xs) <= 1 - thr) ->
  forall (run : rng -> unitary -> RM (nat * list R)) max,
  (forall g target st1 st2 c' s costs, rng_ok g -> compile_with g 0 (change g) target (Some thr) max (st1, c) = ((st2, c'), Ok (s, costs)) ->
     run g target st1 = (st2, Ok (s, costs))) ->
  forall st s0 rand r0 h0 f, holds n s0 st rand -> Inv rand -> legal h0 -> r_draws st = (r0 + List.length h0)%nat ->
  (forall h st' t costs comp, legal h ->
     (forall g, rng_ok g -> tells g r0 h -> tells g r0 h0 /\ compile_inverse 0 s0 (run g) st = (st', Ok (t, costs))) ->
     contents (r_world st') t = rand ++ comp -> least r0 f h 0 /\ (idcost n (rand ++ comp) <= 1 - thr -> least r0 f h 1)) ->
  least r0 f h0 (1 - (1 - rho) ^ (Z.to_nat max / m)).
Proof.
  intros Hm Hr HU run max Hrun st s0 rand r0 h0 f HH HIr HL0 HR0 Leaf.
  assert (Hn : (0 < 2 ^ n)%nat) by (apply Nat.neq_0_lt_0, Nat.pow_nonzero; lia).
  destruct (holds_sees _ _ _ _ HH) as (pv & S). destruct (exact_winv_ex _ (proj1 HH)) as [K HW].
  destruct (product_total 0 ltac:(lra) ltac:(lra) true n K (r_world st) s0 rand pv HW S (lim_zero _ _)) as (w1 & p & E1 & _ & _ & A1 & S1 & _).
  set (st1 := {| r_world := w1; r_draws := r_draws st |}).
  assert (HX1 : exact_world (r_world st1)).
  { pose proof (step_exact (Product s0) _ (proj1 HH) I) as X. now rewrite E1 in X. }
  destruct (exact_special (r_world st1) s0 n rand pv p HX1 S1 A1) as (D0 & W0 & SP0 & M0).
  destruct (u_inverse_ok 0 p W0 (eps_clean_0 _ _)) as (target & EI & DT & _ & _ & _ & _ & MT). rewrite D0 in DT, MT.
  assert (MT' : meq (2 ^ n) (u_mat target) (adj (ordered n rand))) by (now rewrite MT, M0).
  assert (BT : built 0 target).
  { exists (u_dim p), (adj (u_mat p)). do 4 eexists. split; [rewrite D0, M0; now apply special_adj|]. split; [apply eps_clean_0|]. unfold u_inverse in EI. exact EI. }
  assert (CI : forall cs, cost_of n target cs = idcost n (rand ++ cs)) by (intros; now apply cost_inverse).
  assert (HL := attempts_floor n c change target k0 (Some thr) Rel Inv Hd BT DT H1 H2 H3 Hrate Hmax ltac:(lra) HTree m rho Hr).
  specialize (HL ltac:(intros cs Hcs; destruct (HU (rand ++ cs) (Iapp _ _ HIr Hcs)) as (bs & B1 & B2 & B3 & B4); exists bs; split; [exact B1|]; split; [exact B2|]; split; [exact B3|];
    intros xs Hx; rewrite CI, app_assoc; now apply B4)).
  refine (start_leaf n c change target (Some thr) Hd (1 - (1 - rho) ^ (Z.to_nat max / m)) st1 (c_beta c) max r0 h0 f HX1 Hbeta HL0 HR0 _ _).
  { intros s st2 HH2 HR2 Leaf2.
    apply (HL (Z.to_nat max / m)%nat max s r0 f (Z.to_nat max) (Datatypes.S (Z.to_nat max)) (c_beta c) st2 [] [] h0); auto.
    - rewrite Nat.mul_comm. apply Nat.mul_div_le. lia.
    - simpl. lia. }
  intros h st2 b' s2 comp costs Lh HS HH2 HR2. rewrite set_beta_same in HS.
  destruct (teller r0 h Lh) as (g0 & G0 & T0). destruct (HS g0 G0 T0) as [_ EC0].
  destruct (compiled_ok g0 0 G0 (change g0) c target (Some thr) max st1 st2 _ s2 costs s0 (2 ^ n) rand pv (Rel g0) (fun _ => True)
    (H1 g0 G0) (fun st3 => Hsp g0 s0 target (Some thr) max st3 G0) I (fun _ _ _ _ => I) S1 EC0) as [(pv2 & S2) _].
  destruct (holds_sees _ _ _ _ HH2) as (pv3 & S3). destruct (exact_winv_ex _ (proj1 HH2)) as [K2 HW2].
  destruct (sees_has_dim _ _ _ _ _ _ S2) as (q1 & Q1 & D1). destruct (sees_has_dim _ _ _ _ _ _ S3) as (q2 & Q2 & D2).
  destruct (combine_sat 0 ltac:(lra) ltac:(lra) true n K2 [s0; s2] (r_world st2) q1 s0 [s2] HW2 eq_refl Q1 D1 (lim_zero _ _)) as (w5 & q & E5 & _).
  { intros s5 [<-|[<-|[]]]; eauto. }
  assert (E6 : exists w6 t, step 0 (Combine [s0; s2]) (r_world st2) = (w6, Ok (VSequence t))).
  { cbn [step]. rewrite (bind_eq _ _ _ _ _ E5). do 2 eexists. reflexivity. }
  destruct E6 as (w6 & t & E6).
  destruct (combine_view 0 _ _ _ _ (sees_W _ _ _ _ _ _ S2) E6) as (d' & Et & _ & S4). injection Et as Et.
  cbn [map List.concat] in S4. rewrite app_nil_r in S4.
  rewrite (sees_contents _ _ _ _ _ _ S2), (sees_contents _ _ _ _ _ _ S3), <- Et in S4.
  rewrite CI. apply (Leaf h {| r_world := w6; r_draws := r_draws st2 |} t costs comp Lh).
  - intros g G T. destruct (HS g G T) as [T' EC]. split; auto. unfold compile_inverse.
    rewrite (bind_eq _ _ _ _ _ (call_unitary_eq _ _ _ _ _ E1)). unfold se_bind at 1, se_lift at 1. rewrite EI.
    rewrite (bind_eq _ _ _ _ _ (Hrun g target st1 st2 _ s2 costs G EC)). cbn [fst snd].
    unfold call_sequence, se_bind, call. now rewrite E6.
  - exact (sees_contents _ _ _ _ _ _ S4).
Qed.
Lemma rav_least m rho : (0 < m)%nat -> 0 < rho <= 1 ->
  (forall cs, Inv cs -> exists bs, floors n c change Inv bs /\ (List.length bs <= m)%nat /\ rho <= prod bs /\
    forall xs, inside bs xs -> idcost n (cs ++ List.concat xs) <= 1 - thr) ->
  forall (draw : rng -> RM unit) (run : rng -> unitary -> RM (nat * list R)) max s0 st,
  (forall g target st1 st2 c' s costs, rng_ok g -> compile_with g 0 (change g) target (Some thr) max (st1, c) = ((st2, c'), Ok (s, costs)) ->
     run g target st1 = (st2, Ok (s, costs))) ->
  rtree draw st -> (forall g, rng_ok g -> exists st2 rand, draw g st = (st2, Ok tt) /\ holds n s0 st2 rand /\ Inv rand) ->
  least (r_draws st) (fun g => ind (exists st' t costs, (draw g ;;; compile_inverse 0 s0 (run g)) st = (st', Ok (t, costs)) /\
      thr <= overlap (2 ^ n) mid (ordered n (contents (r_world st') t)))) [] (1 - (1 - rho) ^ (Z.to_nat max / m)).
Proof.
  intros Hm Hr HU draw run max s0 st Hrun HT HDr. set (lam := 1 - (1 - rho) ^ (Z.to_nat max / m)).
  set (f := fun g : rng => ind _). replace lam with (lam + (lam - lam) * 0) by ring.
  refine (HT (r_draws st) [] f lam lam (List.Forall_nil _) (eq_sym (Nat.add_0_r _)) (Rle_refl _) _).
  intros h st2 x Lh HR2 HS. destruct (teller (r_draws st) h Lh) as (g0 & G0 & T0). destruct (HDr g0 G0) as (st2' & rand & E0 & HH & HIr).
  destruct (HS g0 G0 T0) as [_ E0']. rewrite E0 in E0'. injection E0' as <- <-.
  assert (X : least (r_draws st) f h lam); [|split; [exact X|intros _; exact X]].
  refine (inverse_least m rho Hm Hr HU run max Hrun st2' s0 rand (r_draws st) h f HH HIr Lh HR2 _).
  intros h' st' t costs comp Lh' HS' EC.
  assert (V : forall g, rng_ok g -> tells g (r_draws st) h' -> (draw g ;;; compile_inverse 0 s0 (run g)) st = (st', Ok (t, costs))).
  { intros g G T. destruct (HS' g G T) as [T1 E1]. destruct (HS g G T1) as [_ E2]. now rewrite (bind_eq _ _ _ _ _ E2). }
  split.
  - apply least_known. intros g G T. apply ind_range.
  - intros Hc. apply least_known. intros g G T. unfold f. rewrite ind_true; [lra|]. exists st', t, costs. split; [now apply V|].
    rewrite EC. unfold idcost in Hc. lra.
Qed.
End Inverse.

Lemma tree_random d ps probs s k : forall st, rtree (fun g => append_random g 0 d ps probs s k) st.
Proof.
  induction k as [|k IH]; intros st; cbn [append_random]; [apply tree_ret|]. apply tree_bind; [apply tree_create|]. intros s1 l.
  apply tree_bind; [apply tree_call|]. intros s2 v. apply IH.
Qed.
Lemma tree_entries s ls : forall st, rtree (fun _ => append_entries 0 s ls) st.
Proof.
  induction ls as [|l ls IH]; intros st; cbn [append_entries]; [apply tree_ret|]. apply tree_bind; [apply tree_call|]. intros. apply IH.
Qed.
Lemma tree_random_layers d counts s k : forall st, rtree (fun g => append_random_layers g 0 d counts s k) st.
Proof.
  induction k as [|k IH]; intros st; cbn [append_random_layers]; [apply tree_ret|]. apply tree_bind; [apply tree_layer|]. intros s1 l.
  apply tree_bind; [apply tree_entries|]. intros s2 v. apply IH.
Qed.

(** * generate_rav_sequence() *)
Section Rav.
Variables (n : nat) (arr : bool) (ps : list primitive) (thr ap : R) (probs : option (list R)).
Hypothesis GS : good_set 0 n ps probs.
Hypothesis HA : arr = false \/ List.length ps = 1%nat.
Hypothesis HCS : forall p, In p ps -> continuous_source (p_source p).
Hypothesis Hap : 0 < ap <= 1.
Hypothesis Hthr : 0 < thr < 1.

Let c := {| c_dim := 2 ^ n; c_array := arr; c_prims := ps; c_probs := probs; c_max_beta := ((2 ^ (2 ^ n)) ^ 2)%R; c_beta := 0%R;
        c_rate := 1 / 10; c_append := ap |}.
Let change := fun g => make_random_change g 0.

Lemma rav_good : good_compiler 0 n c.
Proof. destruct GS as [G1 G2]. split; [reflexivity|]. split; [cbn; lra|]. split; [|exact G2]. intros p Hp. now apply G1. Qed.

Lemma rav_made : mk_compiler (2 ^ n) arr ps probs ap (1 / 10) = Ok c.
Proof.
  unfold mk_compiler. assert (Hn : (0 < 2 ^ n)%nat) by (apply Nat.neq_0_lt_0, Nat.pow_nonzero; lia).
  replace (Nat.ltb 0 (2 ^ n)) with true by (symmetry; now apply Nat.ltb_lt). cbn [assert bind].
  replace (forallb (fun p => Nat.leb (src_dim (p_source p)) (2 ^ n)) ps) with true; [reflexivity|].
  symmetry. apply forallb_forall. intros p Hp. apply Nat.leb_le. now apply GS.
Qed.

Lemma beta_pos : 0 <= c_max_beta c.
Proof. unfold c; cbn [c_max_beta]; apply pow_le, pow_le; lra. Qed.

Lemma rav_inv_uni a : offers n c a -> unitary_mx (2 ^ n) (ordered n a).
Proof. intros Ha. apply (ordered_special n). intros g Hg. apply (offer_fits n c rav_good), Ha, Hg. Qed.

Lemma rav_box target : built 0 target -> u_dim target = (2 ^ n)%nat -> forall w e, offers n c w -> 0 < e -> exists bs, floors n c change (offers n c) bs /\
  forall a xs, offers n c a -> inside bs xs -> cost_of n target (a ++ List.concat xs) <= cost_of n target (a ++ w) + e.
Proof.
  intros HT HD w e Hw He. destruct (spread e (List.length w) n He) as (t & Ht0 & Hte).
  destruct (single_boxes n c rav_good HCS (proj1 Hap) t w Ht0 Hw) as (bs & B1 & B2).
  exists bs. split; auto. intros a xs Ha Hxs.
  assert (X := concat_near n target t _ bs xs B2 Hxs ltac:(lra) (target_unitary n target HT HD) a (fun g Hg => offer_fits n c rav_good g (Ha g Hg))).
  rewrite concat_single in X. specialize (X (fun g Hg => offer_fits n c rav_good g (Hw g Hg))). lra.
Qed.

Lemma rav_found : exists m rho, (0 < m)%nat /\ 0 < rho <= 1 /\ forall len max st, (0 <= len)%Z -> (0 < max)%Z -> exact_world (r_world st) ->
  chance_at_least (r_draws st) (fun g => exists st' s costs, generate_rav_sequence g 0 (2 ^ n) arr ps len thr ap probs max st = (st', Ok (s, costs)) /\
      thr <= overlap (2 ^ n) mid (ordered n (contents (r_world st') s))) (1 - (1 - rho) ^ (Z.to_nat max / m)).
Proof.
  assert (Inil : offers n c []) by (intros ? []).
  assert (Iapp : forall a b, offers n c a -> offers n c b -> offers n c (a ++ b)) by (intros a b Ha Hb x Hx; apply in_app_or in Hx; destruct Hx; auto).
  assert (Htr : floor n c change (offers n c) (fun _ => False) 0).
  { apply (single_to_floor n c rav_good). intros s st b cs pv S _. apply hits_zero, tree_single. }
  destruct (near_id n c change thr (offers n c) eq_refl beta_pos (proj2 Hthr) Inil Iapp rav_inv_uni rav_box) as (m & rho & Hm & Hr & HU).
  exists m, rho. split; auto. split; auto. intros len max st HL HM HX. apply least_chance.
  assert (Hn : (0 < 2 ^ n)%nat) by (apply Nat.neq_0_lt_0, Nat.pow_nonzero; lia).
  destruct (new_sequence_view 0 (r_world st) (2 ^ n) (exact_W _ HX)) as (w1 & E & S1).
  set (s0 := List.length (w_seqs (r_world st))) in *. set (st1 := {| r_world := w1; r_draws := r_draws st |}).
  assert (HX1 : exact_world (r_world st1)).
  { pose proof (step_exact (NewSequence (2 ^ n) false []) _ HX I) as X. now rewrite E in X. }
  assert (EC : call_sequence 0 (NewSequence (2 ^ n) false []) st = (st1, Ok s0)).
  { unfold call_sequence, se_bind, call. rewrite E. reflexivity. }
  set (run := fun g target => with_compiler (mk_compiler (2 ^ n) arr ps probs ap (1 / 10)) (compile g 0 target (Some thr) max)).
  assert (HS : List.Forall (safe_primitive 0 (safe_gate 0 true)) ps).
  { apply (good_safe 0 _ ps safe_made0). intros p Hp. now apply GS. }
  assert (HSb : List.Forall (safe_primitive 0 (built 0)) ps).
  { apply (good_safe 0 _ ps made_built0). intros p Hp. now apply GS. }
  assert (HDr : forall g, rng_ok g -> exists st2 rand, append_random g 0 (2 ^ n) ps probs s0 (Z.to_nat len) st1 = (st2, Ok tt) /\ holds n s0 st2 rand /\ offers n c rand).
  { intros g G. destruct (exact_winv_ex _ HX1) as [K HW1].
    destruct (random_total g 0 true n G ltac:(lra) ltac:(lra) (fun _ => lim0_zero _ _) ps probs s0) with (len := Z.to_nat len) (st := st1)
      (K := K) (cs := @nil (unitary * list nat)) (pv := @None (list (unitary * list nat))) as (st2 & E2); auto using lim_zero.
    { intros p Hp. apply good_drawn; auto. apply GS. exact Hp. }
    { exact (good_choosable 0 n c rav_good). }
    destruct (append_random_ok g 0 G _ ps probs _ _ _ _ _ _ E2 S1) as (rand & pv & S2 & _ & A2). cbn [app] in S2.
    exists st2, rand. split; auto. split.
    - apply (sees_holds n s0 st2 rand pv); auto.
      pose proof (append_random_traced g 0 G (built 0) (2 ^ n) ps probs s0 HSb (Z.to_nat len) st1) as T.
      rewrite E2 in T. exact (evolves_exact _ _ _ HX1 T).
    - intros x Hx. rewrite List.Forall_forall in A2. exact (A2 x Hx). }
  assert (Nc : c_prims c <> []).
  { destruct (good_choosable 0 n c rav_good) as [N _]. intros E'. rewrite E' in N. now apply N. }
  refine (least_ext _ _ _ _ _ _ (rav_least n c change 1 thr (fun _ => one_change 0 c) (offers n c) eq_refl (fun g G => change_single g 0 G c)
    (fun g s G => single_traced g 0 G _ c s (single_safe n c rav_good _ made_built0)) (fun g G => single_total_change n c rav_good g G)
    _ beta_pos _ (proj2 Hthr) Htr (fun g s0 target thr max st G => spares_single g 0 G s0 target thr max st) Inil Iapp m rho Hm Hr HU
    (fun g => append_random g 0 (2 ^ n) ps probs s0 (Z.to_nat len)) run max s0 st1 _ (tree_random _ _ _ _ _ _) HDr)).
  - intros g. apply ind_iff. unfold generate_rav_sequence, se_assert.
    replace (forallb (fun p => Nat.leb (src_dim (p_source p)) (2 ^ n)) ps) with true.
    2:{ symmetry. apply forallb_forall. intros p Hp. apply Nat.leb_le. now apply GS. }
    replace (Z.leb 0 len) with true by (symmetry; now apply Z.leb_le).
    assert (R1 : (Rleb 0 thr && Rleb thr 1)%bool = true).
    { apply andb_true_iff. unfold Rleb. split; destruct (Rle_dec _ _); auto; lra. }
    rewrite R1. cbn [assert].
    unfold se_bind at 1, se_lift at 1. unfold se_bind at 1, se_lift at 1. unfold se_bind at 1, se_lift at 1.
    rewrite (bind_eq _ _ _ _ _ EC), skip_false by (lra || lia). reflexivity.
  - cbn. lra.
  - cbn. lra.
  - intros g target st2 st3 c' s costs G EC'. unfold run, with_compiler. rewrite rav_made. unfold se_bind, se_lift.
    rewrite compile_eq by auto. unfold change in EC'. now rewrite EC'.
Qed.
End Rav.

(** * generate_layered_rav_sequence() *)
Section Layers.
Variables (n : nat) (counts : list (primitive * Z)) (thr ap : R).
Hypothesis HC : good_table 0 n counts.
Hypothesis HP : forall pc, In pc counts -> (0 <= snd pc)%Z /\ continuous_source (p_source (fst pc)).
Hypothesis HDm : forall pc, In pc counts -> (src_dim (p_source (fst pc)) <= 2 ^ n)%nat.
Hypothesis Hap : 0 < ap <= 1.
Hypothesis Hthr : 0 < thr < 1.

Let c := {| c_dim := 2 ^ n; c_array := false; c_prims := map fst counts; c_probs := None; c_max_beta := ((2 ^ (2 ^ n)) ^ 2)%R; c_beta := 0%R;
        c_rate := 1 / 10; c_append := ap |}.
Let change := fun g => make_random_change_layered g 0 counts.

Lemma lay_made : mk_compiler (2 ^ n) false (map fst counts) None ap (1 / 10) = Ok c.
Proof.
  unfold mk_compiler. assert (Hn : (0 < 2 ^ n)%nat) by (apply Nat.neq_0_lt_0, Nat.pow_nonzero; lia).
  replace (Nat.ltb 0 (2 ^ n)) with true by (symmetry; now apply Nat.ltb_lt). cbn [assert bind].
  replace (forallb (fun p => Nat.leb (src_dim (p_source p)) (2 ^ n)) (map fst counts)) with true; [reflexivity|].
  symmetry. apply forallb_forall. intros p Hp. apply in_map_iff in Hp. destruct Hp as (pc & <- & Hp). apply Nat.leb_le. auto.
Qed.

Lemma lay_cont : forall p, In p (table_list counts) -> continuous_source (p_source p).
Proof. intros p Hp. unfold table_list in Hp. apply in_flat_map in Hp. destruct Hp as (pc & Hpc & Hp). apply repeat_spec in Hp. subst p. now apply HP. Qed.

Lemma lay_inv_uni a : layers_of n counts a -> unitary_mx (2 ^ n) (ordered n a).
Proof. intros HL. apply (ordered_special n). intros g Hg. now apply (layers_fit n counts HC a). Qed.

Lemma lay_box target : built 0 target -> u_dim target = (2 ^ n)%nat -> forall w e, layers_of n counts w -> 0 < e -> exists bs, floors n c change (layers_of n counts) bs /\
  forall a xs, layers_of n counts a -> inside bs xs -> cost_of n target (a ++ List.concat xs) <= cost_of n target (a ++ w) + e.
Proof.
  intros HT HD w e Hw He. destruct (spread e (List.length w) n He) as (t & Ht0 & Hte). destruct Hw as (ys & Y1 & ->).
  destruct (layered_boxes n c counts eq_refl Hap HC (fun pc H => proj1 (HP pc H)) lay_cont t ys Ht0 Y1) as (bs & B1 & B2). exists bs. split; auto. intros a xs HA Hxs.
  assert (X := concat_near n target t _ bs xs B2 Hxs ltac:(lra) (target_unitary n target HT HD) a (fun g Hg => layers_fit n counts HC a g HA Hg)).
  specialize (X (fun g Hg => layers_fit n counts HC (List.concat ys) g (ex_intro _ ys (conj Y1 eq_refl)) Hg)). lra.
Qed.

Lemma lay_found : exists m rho, (0 < m)%nat /\ 0 < rho <= 1 /\ forall len max st, (0 <= len)%Z -> (0 < max)%Z -> exact_world (r_world st) ->
  chance_at_least (r_draws st) (fun g => exists st' s costs, generate_layered_rav_sequence g 0 (2 ^ n) counts len thr ap max st = (st', Ok (s, costs)) /\
      thr <= overlap (2 ^ n) mid (ordered n (contents (r_world st') s))) (1 - (1 - rho) ^ (Z.to_nat max / m)).
Proof.
  assert (Inil : layers_of n counts []) by (exists []; split; [intros ? []|reflexivity]).
  assert (Iapp : forall a b, layers_of n counts a -> layers_of n counts b -> layers_of n counts (a ++ b)) by apply layers_app.
  assert (Ha : 0 <= c_append c <= 1) by (cbn; lra).
  assert (HB : 0 <= c_max_beta c) by (unfold c; cbn [c_max_beta]; apply pow_le, pow_le; lra).
  assert (Htr : floor n c change (layers_of n counts) (fun _ => False) 0).
  { apply (layered_to_floor n c counts eq_refl Hap HC (fun pc H => proj1 (HP pc H))). intros s st b cs pv S _. apply hits_zero, tree_layered. }
  destruct (near_id n c change thr (layers_of n counts) eq_refl HB (proj2 Hthr) Inil Iapp lay_inv_uni lay_box) as (m & rho & Hm & Hr & HU).
  exists m, rho. split; auto. split; auto. intros len max st HL HM HX. apply least_chance.
  assert (Hn : (0 < 2 ^ n)%nat) by (apply Nat.neq_0_lt_0, Nat.pow_nonzero; lia).
  destruct (new_sequence_view 0 (r_world st) (2 ^ n) (exact_W _ HX)) as (w1 & E & S1).
  set (s0 := List.length (w_seqs (r_world st))) in *. set (st1 := {| r_world := w1; r_draws := r_draws st |}).
  assert (HX1 : exact_world (r_world st1)).
  { pose proof (step_exact (NewSequence (2 ^ n) false []) _ HX I) as X. now rewrite E in X. }
  assert (EC : call_sequence 0 (NewSequence (2 ^ n) false []) st = (st1, Ok s0)).
  { unfold call_sequence, se_bind, call. rewrite E. reflexivity. }
  set (run := fun g target => with_compiler (mk_compiler (2 ^ n) false (map fst counts) None ap (1 / 10)) (compile_layered g 0 target counts (Some thr) max)).
  assert (HDr : forall g, rng_ok g -> exists st2 rand, append_random_layers g 0 (2 ^ n) counts s0 (Z.to_nat len) st1 = (st2, Ok tt) /\ holds n s0 st2 rand /\ layers_of n counts rand).
  { intros g G. destruct (exact_winv_ex _ HX1) as [K HW1].
    destruct (layers_total g 0 true n G ltac:(lra) ltac:(lra) (fun _ => lim0_zero _ _) counts s0 HC (layered_safe n counts HC _ safe_made0) (Z.to_nat len) st1
      K [] None HW1 S1 (lim_zero _ _)) as (st2 & E2).
    destruct (append_random_layers_ok g 0 G _ counts _ _ _ _ _ _ E2 S1) as (rand & pv & S2 & _ & A2). cbn [app] in S2.
    exists st2, (List.concat rand). split; auto. split.
    - apply (sees_holds n s0 st2 _ pv); auto.
      pose proof (append_random_layers_traced g 0 G (built 0) (2 ^ n) counts s0 (layered_safe n counts HC _ made_built0) (Z.to_nat len) st1) as T.
      rewrite E2 in T. exact (evolves_exact _ _ _ HX1 T).
    - exists rand. split; auto. rewrite List.Forall_forall in A2. exact A2. }
  refine (least_ext _ _ _ _ _ _ (rav_least n c change (layer_size counts) thr (fun _ => layer_change 0 (c_dim c) counts) (layers_of n counts) eq_refl (fun g G => change_layered g 0 G c counts)
    (fun g s G => layered_traced g 0 G _ c counts s (layered_safe n counts HC _ made_built0)) (fun g G => layered_total_change n c counts eq_refl Ha HC g G)
    _ HB _ (proj2 Hthr) Htr (fun g s0 target thr max st G => spares_layers g 0 G s0 counts target thr max st) Inil Iapp m rho Hm Hr HU
    (fun g => append_random_layers g 0 (2 ^ n) counts s0 (Z.to_nat len)) run max s0 st1 _ (tree_random_layers _ _ _ _ _) HDr)).
  - intros g. apply ind_iff. unfold generate_layered_rav_sequence, se_assert.
    replace (forallb (fun pc => Nat.leb (src_dim (p_source (fst pc))) (2 ^ n)) counts) with true.
    2:{ symmetry. apply forallb_forall. intros p Hp. apply Nat.leb_le. auto. }
    replace (Z.leb 0 len) with true by (symmetry; now apply Z.leb_le).
    assert (R1 : (Rleb 0 thr && Rleb thr 1)%bool = true).
    { apply andb_true_iff. unfold Rleb. split; destruct (Rle_dec _ _); auto; lra. }
    rewrite R1. cbn [assert].
    unfold se_bind at 1, se_lift at 1. unfold se_bind at 1, se_lift at 1. unfold se_bind at 1, se_lift at 1.
    rewrite (bind_eq _ _ _ _ _ EC), skip_false by (lra || lia). reflexivity.
  - cbn. lra.
  - cbn. lra.
  - intros g target st2 st3 c' s costs G EC'. unfold run, with_compiler. rewrite lay_made. unfold se_bind, se_lift.
    unfold compile_layered. unfold change in EC'. now rewrite EC'.
Qed.
End Layers.
