(** The whole compilation as a walk: the mean over all answers of the generator. *)
From Coq Require Import Reals List Arith Lia Lra Bool String ZArith Permutation.
From Coquelicot Require Import Coquelicot.
From Verif Require Import Base CMat CMatFacts Det DetFacts Norms ModelUnitary ModelEntry ModelPrimitive
  ModelSequence ModelCompiler Spec SpecModel SpecCompiler PUnitary PUnitaryProps PEmbed PEntry PSeqHeap PSeqMeth PSeqNear PSeqWorld
  PSeqUndo PSeqInv PSeqHist PSeqProps PSeqCases PCompView PCompRun PCompEntry PCompLoop PCompTrace PCompTotal PCompProps PCompMore
  PCompCases PCompEx PReach PVerify SpecChain PChain PChainStep.
Import ListNotations.
Open Scope R_scope.

Section Run.
Variables (n : nat) (c : compiler) (change : rng -> nat -> CM unit) (target : unitary) (k : nat) (thr : option R) (max : Z)
  (P : list gatety -> (list gatety -> R) -> R) (Rel : rng -> list gatety -> list gatety -> Prop).
Hypothesis Hd : c_dim c = (2 ^ n)%nat.
Hypothesis HT : built 0 target.
Hypothesis HD : u_dim target = (2 ^ n)%nat.
Hypothesis H1 : forall g, rng_ok g -> change_ok 0 (change g) (Rel g) c.
Hypothesis H2 : forall g s, rng_ok g -> ctraced 0 (built 0) c k (change g s).
Hypothesis H3 : forall g, rng_ok g -> total_change 0 true n k (change g) c.
Hypothesis HP : forall s, change_tree n s c change P.

(** The test before each step. *)
Lemma close_exact s st cs : holds n s st cs ->
  exists w1 p, step 0 (Product s) (r_world st) = (w1, Ok (VUnitary p)) /\
    holds n s {| r_world := w1; r_draws := r_draws st |} cs /\
    u_close_to 0 p target thr = Ok (if Rle_dec (cost_of n target cs) (tolerance thr) then true else false).
Proof.
  intros HH. destruct (holds_sees _ _ _ _ HH) as (pv & S). destruct (exact_winv_ex _ (proj1 HH)) as [K HW].
  destruct (product_total 0 ltac:(lra) ltac:(lra) true n K (r_world st) s cs pv HW S (lim_zero _ _))
    as (w1 & p & E1 & _ & A1 & _ & S1 & _).
  exists w1, p. split; auto. split.
  - apply (sees_holds n s {| r_world := w1; r_draws := r_draws st |} cs pv); auto. cbn [r_world].
    apply (evolves_exact 0 (r_world st)); [apply HH|].
    assert (X := evolves_step 0 (built 0) 0 (Product s) (r_world st)). rewrite E1 in X. now apply X.
  - destruct (exact_special _ _ _ _ _ _ (proj1 HH) S A1) as (D0 & SP & B0 & E').
    assert (Ec : cost_of n target cs = (1 - overlap (2 ^ n) (u_mat p) (u_mat target))%R).
    { unfold cost_of. f_equal. rewrite overlap_sym. symmetry. apply overlap_proper; [exact E'|reflexivity]. }
    assert (Nn : (0 <= cost_of n target cs)%R).
    { rewrite Ec. destruct SP as (Pp & U & _). destruct (built_wf _ _ HT) as (_ & T & _). rewrite D0 in Pp, U. rewrite HD in T.
      assert (X := overlap_le_1 _ _ _ Pp U T). lra. }
    unfold u_close_to. rewrite overlap_inv; [|exact SP|apply eps_clean_0|congruence]. cbn [bind].
    rewrite D0, <- Ec. unfold tolerance. destruct thr as [t|]; [reflexivity|].
    f_equal. unfold isclose, Rleb. replace (RtoC (cost_of n target cs) - RtoC 0)%C with (RtoC (cost_of n target cs)) by ring.
    rewrite !Cmod_R, (Rabs_pos_eq _ Nn), Rabs_R0, Rmult_0_r, Rplus_0_r. reflexivity.
Qed.

Lemma loop_tree s r0 f F : forall m fuel b st cs costs h0, holds n s st cs -> legal h0 -> r_draws st = (r0 + List.length h0)%nat ->
  Z.to_nat (max - Z.of_nat (List.length costs)) = m -> (m < fuel)%nat ->
  (forall h st' b' cs' costs', legal h ->
     (forall g, rng_ok g -> tells g r0 h -> tells g r0 h0 /\
        compile_loop g 0 (change g) s target thr max costs fuel (st, set_beta c b) = ((st', set_beta c b'), Ok costs')) ->
     holds n s st' cs' -> r_draws st' = (r0 + List.length h)%nat -> average r0 f h (F cs' costs')) ->
  average r0 f h0 (run_mean P n c target thr F m b cs costs).
Proof.
  induction m as [|m IH]; intros fuel b st cs costs h0 HH HL0 HR0 Em Hf Leaf; (destruct fuel as [|fuel]; [lia|]);
    destruct (close_exact s st cs HH) as (w1 & p & E1 & HH1 & EC).
  - assert (X : average r0 f h0 (F cs costs)).
    { apply (Leaf h0 {| r_world := w1; r_draws := r_draws st |} b); auto. intros g G T. split; auto. cbn [compile_loop].
      rewrite (bind_eq _ _ _ _ _ (c_run_eq _ _ _ _ _ (call_unitary_eq _ _ _ _ _ E1))).
      rewrite EC. unfold se_bind at 1, se_lift. destruct (Rle_dec _ _); [reflexivity|].
      destruct (Z.ltb_spec (Z.of_nat (List.length costs)) max); [lia|reflexivity]. }
    cbn [run_mean]. destruct (Rle_dec _ _); exact X.
  - cbn [run_mean]. destruct (Rle_dec (cost_of n target cs) (tolerance thr)) as [Hc|Hc].
    + apply (Leaf h0 {| r_world := w1; r_draws := r_draws st |} b); auto. intros g G T. split; auto. cbn [compile_loop].
      rewrite (bind_eq _ _ _ _ _ (c_run_eq _ _ _ _ _ (call_unitary_eq _ _ _ _ _ E1))).
      rewrite EC. reflexivity.
    + cbv zeta. assert (LT : (Z.of_nat (List.length costs) < max)%Z) by lia.
      apply (step_tree n c change target k P Rel Hd HT HD H1 H2 H3 HP s r0 h0 {| r_world := w1; r_draws := r_draws st |} b cs f
        (fun gs' => run_mean P n c target thr F m (Rmin (b + c_rate c) (c_max_beta c)) gs' (costs ++ [cost_of n target gs'])) HH1 HL0 HR0).
      intros h st2 cs2 Lh HS HH2 HR2.
      assert (LC : List.length (costs ++ [cost_of n target cs2]) = Datatypes.S (List.length costs)) by (rewrite app_length; simpl; lia).
      apply (IH fuel _ st2 cs2 _ h HH2 Lh HR2); [rewrite LC; lia|lia|].
      intros h' st' b' cs' costs' Lh' HS' HH' HR'. apply (Leaf h' st' b' cs' costs' Lh'); auto.
      intros g G T'. destruct (HS' g G T') as [T E']. destruct (HS g G T) as [T0 E]. split; auto. cbn [compile_loop].
      rewrite (bind_eq _ _ _ _ _ (c_run_eq _ _ _ _ _ (call_unitary_eq _ _ _ _ _ E1))).
      rewrite EC. unfold se_bind at 1, se_lift.
      destruct (Z.ltb_spec (Z.of_nat (List.length costs)) max); [|lia].
      rewrite (bind_eq _ _ _ _ _ E). exact E'.
Qed.

Lemma with_tree st F : exact_world (r_world st) ->
  average (r_draws st) (fun g => match compile_with g 0 (change g) target thr max (st, c) with
    | ((st', _), Ok (s, costs)) => F (contents (r_world st') s) costs | _ => 0 end) []
    (run_mean P n c target thr F (Z.to_nat max) (c_beta c) [] []).
Proof.
  intros HX. destruct (new_sequence_view 0 (r_world st) (c_dim c) (exact_W _ HX)) as (w1 & E & S1).
  set (s := List.length (w_seqs (r_world st))) in *. set (st1 := {| r_world := w1; r_draws := r_draws st |}).
  assert (HH : holds n s st1 []).
  { rewrite Hd in S1. apply (sees_holds n s st1 [] None); auto. apply (evolves_exact 0 (r_world st)); auto.
    assert (X := evolves_step 0 (built 0) 0 (NewSequence (c_dim c) false []) (r_world st)). rewrite E in X. now apply X. }
  assert (EC : call_sequence 0 (NewSequence (c_dim c) false []) st = (st1, Ok s)).
  { unfold call_sequence, se_bind, call. rewrite E. reflexivity. }
  apply (loop_tree s _ _ _ (Z.to_nat max) (Datatypes.S (Z.to_nat max)) (c_beta c) st1 [] [] []); auto.
  - constructor.
  - simpl. lia.
  - simpl. lia.
  - intros h st' b' cs' costs' Lh HS HH' HR'. apply average_known. intros g G T. destruct (HS g G T) as [_ E'].
    unfold compile_with. unfold se_bind at 1, c_self. cbn [snd].
    rewrite (bind_eq _ _ _ _ _ (c_run_eq _ _ _ _ _ EC)). rewrite <- (set_beta_same c) at 1.
    rewrite (bind_eq _ _ _ _ _ E'). cbn. now rewrite (proj2 (proj2 HH')).
Qed.
End Run.

Lemma average_ext r f f' h m : (forall g, f g = f' g) -> average r f' h m -> average r f h m.
Proof.
  intros E H. induction H as [h m H|h q F m H IH HM].
  - apply average_known. intros g G T. rewrite E. auto.
  - eapply average_ask; eauto.
Qed.

(** * compile() *)
Section Compile.
Variables (n : nat) (c : compiler) (target : unitary).
Hypothesis HC : good_compiler 0 n c.
Hypothesis HF : fixed_gates c.
Hypothesis HT : built 0 target.
Hypothesis HD : u_dim target = (2 ^ n)%nat.

Lemma single_total_change g : rng_ok g -> total_change 0 true n 1 (make_random_change g 0) c.
Proof.
  intros G. assert (CH := good_choosable 0 n c HC). assert (HS := single_safe n c HC _ safe_made0). destruct HC as (Hd & Ha & GP & _).
  exact (total_single g 0 G ltac:(lra) ltac:(lra) true n (fun _ => lim0_zero _ _) c Hd Ha
    (fun p Hp => good_drawn g 0 G n p (GP p Hp)) CH HS).
Qed.

Lemma compile_average st thr max F : exact_world (r_world st) -> c_array c = false \/ List.length (c_prims c) = 1%nat ->
  average (r_draws st) (fun g => match compiled st c target thr max g with Some (gs, costs) => F gs costs | None => 0 end) []
    (run_mean (single_mean n c) n c target thr F (Z.to_nat max) (c_beta c) [] []).
Proof.
  intros HX HA. assert (Nc : c_prims c <> []).
  { destruct (good_choosable 0 n c HC) as [N _]. intros E. rewrite E in N. now apply N. }
  assert (X := with_tree n c (fun g => make_random_change g 0) target 1 thr max (single_mean n c) (fun _ => one_change 0 c)
    (proj1 HC) HT HD (fun g G => change_single g 0 G c) (fun g s G => single_traced g 0 G _ c s (single_safe n c HC _ made_built0))
    single_total_change (fun s => single_change_tree n c HC s HF) st F HX).
  eapply average_ext; [|exact X]. intros g. unfold compiled. rewrite compile_eq by auto.
  destruct (compile_with _ _ _ _ _ _ _) as [[st' c'] [[s costs]|e]]; reflexivity.
Qed.

Lemma step_average st s F : exact_world (r_world st) -> list_sequence (r_world st) s (2 ^ n) ->
  average (r_draws st) (fun g => F (step_contents st c s target g)) []
    (step_mean n c (Rmin (c_beta c + c_rate c) (c_max_beta c)) target F (contents (r_world st) s)).
Proof.
  intros HX HL. unfold step_mean.
  apply (step_tree n c (fun g => make_random_change g 0) target 1 (single_mean n c) (fun _ => one_change 0 c)
    (proj1 HC) HT HD (fun g G => change_single g 0 G c) (fun g s G => single_traced g 0 G _ c s (single_safe n c HC _ made_built0))
    single_total_change (fun s => single_change_tree n c HC s HF) s (r_draws st) [] st (c_beta c) (contents (r_world st) s) _ F).
  - split; auto.
  - constructor.
  - simpl. lia.
  - intros h st2 cs2 Lh HS HH2 HR2. apply average_known. intros g G T. destruct (HS g G T) as [_ E].
    rewrite set_beta_same in E. unfold step_contents. rewrite E. cbn [fst]. f_equal. apply HH2.
Qed.
End Compile.
