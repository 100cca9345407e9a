(** The chances of one step of compile_layered(), and detailed balance. *)
From Coq Require Import Reals List Arith Lia Lra Bool String ZArith Permutation.
From Coquelicot Require Import Coquelicot.
From Verif Require Import Base CMat CMatFacts Det DetFacts Norms ModelUnitary ModelEntry ModelPrimitive
  ModelSequence ModelCompiler Spec SpecModel SpecCompiler PUnitary PUnitaryProps PEmbed PEntry PSeqHeap PSeqMeth PSeqNear PSeqWorld
  PSeqUndo PSeqInv PSeqHist PSeqProps PSeqCases PCompView PCompRun PCompEntry PCompLoop PCompTrace PCompTotal PCompProps PCompMore
  PCompCases PCompEx PReach PVerify SpecChain PChain PChainStep PChainRun PChainBal PChainHit PChainLay PAlmost PAlmostComp PAlmostRun PAlmostEx
  SpecChainLay.
Import ListNotations.
Open Scope R_scope.
Set Bullet Behavior "Strict Subproofs".

(** * Orders read backwards *)
Lemma meanl_perm {A} (l l' : list A) F : Permutation l l' -> meanl l F = meanl l' F.
Proof.
  intros P. unfold meanl. rewrite (Permutation_length P). f_equal.
  induction P; cbn [map fold_right]; [reflexivity| |ring|congruence]. rewrite IHP. ring.
Qed.
Lemma orders_rev_seq k : Permutation (map (@rev nat) (orders (seq 0 k))) (orders (seq 0 k)).
Proof.
  assert (ND := orders_nodup (seq 0 k) (seq_NoDup k 0)). apply NoDup_Permutation; auto.
  - apply FinFun.Injective_map_NoDup; auto. intros a b E. rewrite <- (rev_involutive a), E. apply rev_involutive.
  - intros x. rewrite in_map_iff, orders_spec. split.
    + intros (y & <- & H). apply orders_spec in H. eapply Permutation_trans; [apply Permutation_sym, Permutation_rev|exact H].
    + intros H. exists (rev x). split; [apply rev_involutive|]. apply orders_spec.
      eapply Permutation_trans; [apply Permutation_sym, Permutation_rev|exact H].
Qed.
Lemma orders_rev {A} (l : list A) F : meanl (orders l) (fun x => F (rev x)) = meanl (orders l) F.
Proof.
  destruct l as [|d t]; [reflexivity|]. set (l := d :: t). rewrite <- (map_nth_seq l d), orders_map, !meanl_map.
  rewrite <- (meanl_perm _ _ (fun x => F (map (fun i => nth i l d) x)) (orders_rev_seq (List.length l))), meanl_map.
  apply meanl_ext. intros x _. now rewrite map_rev.
Qed.
Lemma layer_mean_rev n counts F : layer_mean n counts (fun l => F (rev l)) = layer_mean n counts F.
Proof.
  unfold layer_mean. apply Rle_antisym; apply gates_mean_le; intros l; rewrite orders_rev; lra.
Qed.
Lemma C97_reversed_lemma : forall n counts l, layer_chance n counts (rev l) = layer_chance n counts l.
Proof.
  intros n counts l. unfold layer_chance. rewrite <- layer_mean_rev. apply layer_mean_ext. intros x. apply ind_iff.
  split; [intros E; rewrite <- (rev_involutive x), E; apply rev_involutive|intros ->; reflexivity].
Qed.

(** * The mean and the chances of a step *)
Lemma C97_mean_lemma : forall n st c s target counts F,
  exact_world (r_world st) -> list_sequence (r_world st) s (2 ^ n) ->
  c_dim c = (2 ^ n)%nat -> 0 <= c_append c <= 1 -> good_table 0 n counts -> fixed_table counts ->
  built 0 target -> u_dim target = (2 ^ n)%nat ->
  let gs := contents (r_world st) s in
  average (r_draws st) (fun g => F (step_contents_layered st c s target counts g)) []
    (layered_mean n c counts gs (accept_mean n (Rmin (c_beta c + c_rate c) (c_max_beta c)) target F gs)).
Proof.
  intros n st c s target counts F HX HL Hd Ha HC HF HT HD gs.
  apply (step_tree n c (fun g => make_random_change_layered g 0 counts) target (layer_size counts) (layered_mean n c counts)
    (fun _ => layer_change 0 (c_dim c) counts) Hd HT HD (fun g G => change_layered g 0 G c counts)
    (fun g s G => layered_traced g 0 G _ c counts s (layered_safe n counts HC _ made_built0))
    (layered_total_change n c counts Hd Ha HC) (fun s => layered_change_tree n c counts Hd Ha HC s HF) s (r_draws st) [] st (c_beta c) gs _ F).
  - split; auto.
  - constructor.
  - simpl. lia.
  - intros h st2 cs2 Lh HS HH2 HR2. apply average_known. intros g G T. destruct (HS g G T) as [_ E].
    rewrite set_beta_same in E. unfold step_contents_layered. rewrite E. cbn [fst]. f_equal. apply HH2.
Qed.

Lemma step_chance_layered n c counts beta target gs gs' : gs <> gs' ->
  layered_mean n c counts gs (accept_mean n beta target (fun l => ind (l = gs')) gs) =
  metropolis beta (cost_of n target gs' - cost_of n target gs) * layered_mean n c counts gs (fun l => ind (l = gs')).
Proof.
  intros N.
  rewrite (layered_mean_ext n c counts gs _ (fun gs1 => metropolis beta (cost_of n target gs' - cost_of n target gs) * ind (gs1 = gs'))).
  - unfold layered_mean. cbv zeta. rewrite !layer_mean_scal. ring.
  - intros gs1. unfold accept_mean. cbv zeta. rewrite (ind_false (gs = gs')) by auto.
    destruct (Classical_Prop.classic (gs1 = gs')) as [->|N1]; [rewrite ind_true by auto|rewrite ind_false by auto]; ring.
Qed.
Lemma C97_chance_lemma : forall n st c s target counts gs',
  exact_world (r_world st) -> list_sequence (r_world st) s (2 ^ n) ->
  c_dim c = (2 ^ n)%nat -> 0 <= c_append c <= 1 -> good_table 0 n counts -> fixed_table counts ->
  built 0 target -> u_dim target = (2 ^ n)%nat ->
  let gs := contents (r_world st) s in gs <> gs' ->
  chance (r_draws st) (fun g => step_contents_layered st c s target counts g = gs')
    (metropolis (Rmin (c_beta c + c_rate c) (c_max_beta c)) (cost_of n target gs' - cost_of n target gs) *
     layered_mean n c counts gs (fun l => ind (l = gs'))).
Proof.
  intros n st c s target counts gs' HX HL Hd Ha HC HF HT HD gs N. rewrite <- step_chance_layered by exact N.
  apply (C97_mean_lemma n st c s target counts (fun l => ind (l = gs')) HX HL Hd Ha HC HF HT HD).
Qed.

(** * Detailed balance *)
Lemma concat_same {A} k : (0 < k)%nat -> forall xs ys : list (list A), (forall l, In l xs -> List.length l = k) ->
  (forall l, In l ys -> List.length l = k) -> List.concat xs = List.concat ys -> xs = ys.
Proof.
  intros Hk. induction xs as [|x xs IH]; intros [|y ys] HX HY E; auto.
  - exfalso. assert (L := HY y (or_introl eq_refl)). destruct y; [simpl in L; lia|discriminate].
  - exfalso. assert (L := HX x (or_introl eq_refl)). destruct x; [simpl in L; lia|discriminate].
  - cbn [List.concat] in E. destruct (PRecur.app_eq_len x (List.concat xs) y (List.concat ys)) as [-> E2]; auto.
    + rewrite (HX x), (HY y); auto; now left.
    + f_equal. apply IH; auto; intros; [apply HX|apply HY]; now right.
Qed.

Section Balance.
Variables (n : nat) (c : compiler) (counts : list (primitive * Z)).
Hypothesis Hd : c_dim c = (2 ^ n)%nat.
Hypothesis Hap : 0 < c_append c < 1.
Hypothesis HC : good_table 0 n counts.
Hypothesis HF : fixed_table counts.
Hypothesis HN : forall pc, In pc counts -> (0 <= snd pc)%Z.
Notation ap := (c_append c).
Notation q := (layer_chance n counts).
Notation lm := (layer_mean n counts).
Notation prior := (fun ls => fold_right Rmult 1 (map (fun l => ap / (1 - ap) * q l) ls)).
Let size := Z.to_nat (fold_right Z.add 0%Z (map snd counts)).
Let sized (ls : list (list gatety)) := forall l, In l ls -> List.length l = size.

Lemma whole_sized ls : whole_layers counts ls -> sized ls.
Proof. intros H l Hl. unfold size. rewrite <- (H l Hl). now rewrite Nat2Z.id. Qed.
Lemma layer_none F : (forall l, List.length l = size -> F l = 0) -> lm F = 0.
Proof.
  intros H. rewrite (fin_eq lm _ _ (fun l => 0 * F l) (layer_fin n c counts Hd HC)); [rewrite layer_mean_scal; ring|].
  intros l [[_ L] _]. rewrite H; [ring|]. unfold size. rewrite (size_table n c counts Hd HN). exact L.
Qed.
Lemma lprior_app l l' : prior (l ++ l') = prior l * prior l'.
Proof. induction l as [|x t IH]; cbn [app map fold_right]; [ring|]. rewrite IH. ring. Qed.

Lemma first_balance_l ls ls' : sized ls -> sized ls' -> List.concat ls <> List.concat ls' ->
  prior ls * (ap / 2 * lm (fun l => ind (rev l ++ List.concat ls = List.concat ls'))) =
  prior ls' * ((1 - ap) / 2 * ind (skipn size (List.concat ls') = List.concat ls)).
Proof.
  intros S S' N. destruct ls' as [|x t].
  - cbn [List.concat] in N |- *. rewrite skipn_nil. rewrite (ind_false ([] = _)) by congruence.
    rewrite layer_none; [ring|]. intros l _. apply ind_false. intros E. apply app_eq_nil in E. now destruct E.
  - cbn [List.concat] in N |- *. assert (Lx : List.length x = size) by (apply S'; now left).
    assert (St : sized t) by (intros l Hl; apply S'; now right).
    rewrite <- Lx at 1. rewrite skipn_app, skipn_all, Nat.sub_diag. cbn [app skipn].
    destruct (Classical_Prop.classic (List.concat t = List.concat ls)) as [E|NE].
    + rewrite (ind_true (_ = _)) by auto. assert (K : (0 < size)%nat).
      { destruct size; [|lia]. exfalso. apply N. rewrite <- E. destruct x; [reflexivity|discriminate]. }
      apply (concat_same size K) in E; auto. subst t.
      rewrite (layer_mean_ext n counts _ (fun l => ind (l = rev x))).
      * change (lm (fun l => ind (l = rev x))) with (q (rev x)). rewrite C97_reversed_lemma. cbn [map fold_right]. field. lra.
      * intros l. apply ind_iff. split.
        -- intros E. apply app_inv_tail in E. rewrite <- E. now rewrite rev_involutive.
        -- intros ->. now rewrite rev_involutive.
    + rewrite (ind_false (List.concat t = _)) by auto. rewrite layer_none; [ring|]. intros l Ll. apply ind_false. intros E.
      apply PRecur.app_eq_len in E; [|now rewrite rev_length, Ll]. destruct E as [_ E]. auto.
Qed.
Lemma last_balance_l ls ls' : sized ls -> sized ls' -> List.concat ls <> List.concat ls' ->
  prior ls * (ap / 2 * lm (fun l => ind (List.concat ls ++ l = List.concat ls'))) =
  prior ls' * ((1 - ap) / 2 * ind (firstn (List.length (List.concat ls') - size) (List.concat ls') = List.concat ls)).
Proof.
  intros S S' N. destruct ls' as [|x t _] using rev_ind.
  - cbn [List.concat] in N |- *. rewrite firstn_nil. rewrite (ind_false ([] = _)) by congruence.
    rewrite layer_none; [ring|]. intros l _. apply ind_false. intros E. apply app_eq_nil in E. now destruct E.
  - rewrite concat_app in N |- *. cbn [List.concat] in N |- *. rewrite app_nil_r in N |- *.
    assert (Lx : List.length x = size) by (apply S', in_or_app; right; now left).
    assert (St : sized t) by (intros l Hl; apply S', in_or_app; now left).
    rewrite app_length, Lx, Nat.add_sub, firstn_app, firstn_all, Nat.sub_diag. cbn [firstn]. rewrite app_nil_r.
    destruct (Classical_Prop.classic (List.concat t = List.concat ls)) as [E|NE].
    + rewrite (ind_true (_ = _)) by auto. assert (K : (0 < size)%nat).
      { destruct size; [|lia]. exfalso. apply N. rewrite <- E. destruct x; [now rewrite app_nil_r|discriminate]. }
      apply (concat_same size K) in E; auto. subst t.
      rewrite (layer_mean_ext n counts _ (fun l => ind (l = x))).
      * change (lm (fun l => ind (l = x))) with (q x). rewrite (lprior_app ls [x]). cbn [map fold_right]. field. lra.
      * intros l. apply ind_iff. split; [intros E; now apply app_inv_head in E|intros ->; reflexivity].
    + rewrite (ind_false (List.concat t = _)) by auto. rewrite layer_none; [ring|]. intros l Ll. apply ind_false. intros E.
      apply (f_equal (@rev _)) in E. rewrite !rev_app_distr in E. apply PRecur.app_eq_len in E; [|now rewrite !rev_length, Ll].
      destruct E as [_ E]. apply (f_equal (@rev _)) in E. rewrite !rev_involutive in E. auto.
Qed.

Lemma layered_balance ls ls' : sized ls -> sized ls' -> List.concat ls <> List.concat ls' ->
  prior ls * layered_mean n c counts (List.concat ls) (fun l => ind (l = List.concat ls')) =
  prior ls' * layered_mean n c counts (List.concat ls') (fun l => ind (l = List.concat ls)).
Proof.
  intros S S' N. assert (N' := not_eq_sym N). unfold layered_mean. cbv zeta. fold size.
  assert (A := first_balance_l ls ls' S S' N). assert (B := last_balance_l ls ls' S S' N).
  assert (A' := first_balance_l ls' ls S' S N'). assert (B' := last_balance_l ls' ls S' S N'). cbv beta in *.
  rewrite !Rmult_plus_distr_l, A, B, A', B'. ring.
Qed.
End Balance.

Lemma C97_detailed_lemma : forall n c target counts st s st' s' ls ls' p p',
  c_dim c = (2 ^ n)%nat -> 0 < c_append c < 1 -> good_table 0 n counts -> fixed_table counts ->
  (forall pc, In pc counts -> (0 <= snd pc)%Z) -> built 0 target -> u_dim target = (2 ^ n)%nat ->
  exact_world (r_world st) -> list_sequence (r_world st) s (2 ^ n) ->
  exact_world (r_world st') -> list_sequence (r_world st') s' (2 ^ n) ->
  whole_layers counts ls -> whole_layers counts ls' ->
  contents (r_world st) s = List.concat ls -> contents (r_world st') s' = List.concat ls' -> List.concat ls <> List.concat ls' ->
  chance (r_draws st) (fun g => step_contents_layered st c s target counts g = List.concat ls') p ->
  chance (r_draws st') (fun g => step_contents_layered st' c s' target counts g = List.concat ls) p' ->
  let beta := Rmin (c_beta c + c_rate c) (c_max_beta c) in
  boltzmann_layered n c counts beta target ls * p = boltzmann_layered n c counts beta target ls' * p'.
Proof.
  intros n c target counts st s st' s' ls ls' p p' Hd Hap HC HF HN HT HD HX HL HX' HL' W W' E E' N H H' beta.
  assert (Ha : 0 <= c_append c <= 1) by lra.
  assert (P := C97_chance_lemma n st c s target counts (List.concat ls') HX HL Hd Ha HC HF HT HD). cbv zeta in P. rewrite E in P.
  assert (P' := C97_chance_lemma n st' c s' target counts (List.concat ls) HX' HL' Hd Ha HC HF HT HD). cbv zeta in P'. rewrite E' in P'.
  rewrite (proj1 (C68_unique_lemma _ _ _ _ H (P N))), (proj1 (C68_unique_lemma _ _ _ _ H' (P' (not_eq_sym N)))).
  fold beta. unfold boltzmann_layered.
  assert (B1 := metropolis_balance beta (cost_of n target (List.concat ls)) (cost_of n target (List.concat ls'))).
  assert (B2 := layered_balance n c counts Hd Hap HC HN ls ls' (whole_sized counts ls W) (whole_sized counts ls' W') N). cbv beta in B2.
  set (Q := fold_right Rmult 1 (map _ ls)) in *. set (Q' := fold_right Rmult 1 (map _ ls')) in *.
  set (x := cost_of n target (List.concat ls)) in *. set (y := cost_of n target (List.concat ls')) in *.
  set (a := layered_mean _ _ _ (List.concat ls) _) in *. set (a' := layered_mean _ _ _ (List.concat ls') _) in *.
  transitivity ((exp (- beta * x) * metropolis beta (y - x)) * (Q * a)); [ring|]. rewrite B1, B2. ring.
Qed.

(** * A case *)
Lemma ex_C97_lemma : exists st c s target counts ls ls',
  exact_world (r_world st) /\ list_sequence (r_world st) s (2 ^ 1) /\ c_dim c = (2 ^ 1)%nat /\ 0 < c_append c < 1 /\
  good_table 0 1 counts /\ fixed_table counts /\ (forall pc, In pc counts -> (0 <= snd pc)%Z) /\ built 0 target /\ u_dim target = (2 ^ 1)%nat /\
  whole_layers counts ls /\ whole_layers counts ls' /\ contents (r_world st) s = List.concat ls /\ List.length (List.concat ls') = 2%nat /\
  chance (r_draws st) (fun g => step_contents_layered st c s target counts g = List.concat ls') (exp (-16 * (18 / 25)) * (1 / 2)).
Proof.
  destruct (rot345_built 0 ltac:(lra)) as (u & B & D & Mu & _).
  destruct (u_identity_ok 0 2 ltac:(lia) ltac:(lra)) as (t & Et & Dt & _ & _ & _ & _ & Mt).
  assert (Bt : built 0 t).
  { exists 2%nat, mid, (Some "I"%string), [], false, []. split; [apply unitary_mid|]. split; [apply eps_clean_mid; lra|exact Et]. }
  set (c := one_compiler u (1 / 2) 16). set (two := [(u, [0%nat]); (u, [0%nat])]). set (counts := [(rot_primitive u, 2%Z)]).
  exists one_seq, c, 0%nat, t, counts, [], [two].
  split; [exact one_seq_exact|]. split; [exact one_seq_list|]. split; [reflexivity|]. split; [simpl; lra|]. split; [now apply pair_good|].
  split; [apply pair_fixed|]. split; [intros pc [<-|[]]; cbn; lia|]. split; [exact Bt|]. split; [exact Dt|].
  split; [intros l []|]. split; [intros l [<-|[]]; reflexivity|]. split; [reflexivity|]. split; [reflexivity|].
  change (List.concat [two]) with two.
  assert (A := C97_chance_lemma 1 one_seq c 0 t counts two one_seq_exact one_seq_list eq_refl ltac:(simpl; lra) (pair_good u B D) (pair_fixed u) Bt Dt).
  cbv zeta in A. change (contents (r_world one_seq) 0) with (@nil gate_on) in A.
  specialize (A ltac:(discriminate)).
  replace (Rmin (c_beta c + c_rate c) (c_max_beta c)) with 16 in A by (simpl; rewrite Rmin_left; lra).
  assert (Oc : cost_of 1 t [] = 0).
  { unfold cost_of. change (2 ^ 1)%nat with 2%nat. replace (overlap 2 (u_mat t) (ordered 1 [])) with (overlap 2 mid mid).
    - unfold overlap. cbn -[Rdiv].
      replace (_ + _)%C with (RtoC 2) by (apply C_eq; simpl; ring).
      rewrite Cmod_R, Rabs_pos_eq by lra. field.
    - apply overlap_proper; [now symmetry|reflexivity]. }
  assert (Op : cost_of 1 t two = 18 / 25).
  { unfold cost_of. change (2 ^ 1)%nat with 2%nat. unfold two. rewrite (overlap_proper 2 _ _ Mt _ _ (pair_ordered u Mu)).
    unfold overlap. cbn -[Rdiv]. replace (_ + _)%C with (RtoC (- (14 / 25))) by (apply C_eq; simpl; field).
    rewrite Cmod_R, Rabs_Ropp, Rabs_pos_eq by lra. field. }
  rewrite Oc, Op in A. replace (metropolis 16 (18 / 25 - 0)) with (exp (-16 * (18 / 25))) in A.
  2:{ unfold metropolis. rewrite Rmin_right.
      - f_equal. lra.
      - eapply Rle_trans; [apply (exp_le_mono _ 0); lra|rewrite exp_0; lra]. }
  replace (layered_mean 1 c counts [] (fun l => ind (l = two))) with (1 / 2) in A; [exact A|].
  unfold layered_mean, counts. cbv zeta. rewrite !pair_layer by exact D. fold two. rewrite skipn_nil, firstn_nil.
  change (rev two ++ []) with two. change ([] ++ two) with two. rewrite (ind_true (two = two)) by reflexivity.
  rewrite (ind_false ([] = two)) by discriminate. cbn [c_append c one_compiler]. lra.
Qed.
