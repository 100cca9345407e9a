(** Runs with constant random numbers: how compilation goes wrong with negative
    counts (C33) and with qubits outside the system (C53). *)
From Coq Require Import Reals List Arith Lia Lra Bool String ZArith Permutation.
From Coquelicot Require Import Rcomplements Complex.
From Verif Require Import Base CMat CMatFacts Det DetFacts Norms ModelUnitary ModelEntry ModelPrimitive
  ModelSequence ModelCompiler Spec SpecModel SpecCompiler PUnitary PUnitaryProps PEntry PSeqHeap PSeqMeth PSeqNear PSeqWorld
  PSeqUndo PSeqInv PSeqHist PSeqProps PSeqCases PCompView PCompRun PCompEntry PCompLoop PCompTrace PCompTotal PCompProps PCompMore.
Import ListNotations.
Open Scope R_scope.
Open Scope C_scope.
Open Scope se_scope.

Definition const_rng (x : R) (i : nat) : rng :=
  {| g_unif := fun _ => x; g_int := fun _ n => Nat.min i (n - 1); g_perm := fun _ n => seq 0 n |}.

Lemma const_rng_ok x i : (0 <= x < 1)%R -> rng_ok (const_rng x i).
Proof.
  intros H. split; [intros; exact H|]. split; [intros k n Hn; cbn; lia|]. intros k n. apply Permutation_refl.
Qed.

Lemma exact_answers_wf K w s n cs pv p : winv 0 true K w -> sees 0 w s (2 ^ n) cs pv -> answers 0 w s p ->
  u_dim p = (2 ^ n)%nat /\ wf p.
Proof.
  intros HW S A0.
  destruct (winv_exact 0 K w s n ltac:(lra) HW (sees_has_dim _ _ _ _ _ _ S) (lim_zero _ _)) as (p' & A & N).
  assert (p' = p) by (eapply answers_unique; eauto). subst p'.
  destruct (near_zero _ _ _ _ N) as (D & U & E). split; auto.
  apply (wf_of p (2 ^ n) _ ltac:(apply Nat.neq_0_lt_0, Nat.pow_nonzero; lia) D E U).
Qed.

Lemma never_close p target n : u_dim p = (2 ^ n)%nat -> wf p ->
  wf target -> u_dim target = (2 ^ n)%nat -> u_close_to 0 p target (Some 2%R) = Ok false.
Proof.
  intros D W (P & T & _) Dt. unfold u_close_to.
  rewrite overlap_inv by (auto using eps_clean_0; congruence). cbn [bind]. f_equal. apply Rleb_false.
  destruct W as (Pp & U & _). rewrite Dt in T. rewrite D in U, Pp |- *.
  assert (X := overlap_le_1 _ _ _ Pp U T). lra.
Qed.

Lemma metropolis_pos b d : (0 < metropolis b d)%R.
Proof. unfold metropolis. apply Rmin_glb_lt; [lra|apply exp_pos]. Qed.

(** One step with zero draws is accepted. *)
Lemma one_step g change Rel c k target st st' c' s costs n (P : list (unitary * list nat) -> Prop) :
  rng_ok g -> (forall j, g_unif g j = 0%R) ->
  change_ok 0 change Rel c -> (forall s, ctraced 0 (safe_gate 0 true) c k (change s)) ->
  c_dim c = (2 ^ n)%nat -> exact_world (r_world st) -> wf target -> u_dim target = (2 ^ n)%nat ->
  (forall st0 st0' b s pv pv' cs', sees 0 (r_world st0) s (c_dim c) [] pv ->
     change s (st0, set_beta c b) = ((st0', set_beta c b), Ok tt) ->
     sees 0 (r_world st0') s (c_dim c) cs' pv' -> P cs') ->
  compile_with g 0 change target (Some 2%R) 1 (st, c) = ((st', c'), Ok (s, costs)) ->
  P (contents (r_world st') s).
Proof.
  intros G G0 HC HT Hd HX Ht Htd HP H. destruct (exact_winv_ex _ HX) as [K HW].
  unfold compile_with in H.
  apply bind_ok in H. destruct H as (cc & sty & H0 & H). unfold c_self in H0. injection H0 as <- <-.
  cbn [snd] in H. apply bind_ok in H. destruct H as (s0 & [st1 c1] & H1 & H).
  apply c_run_inv in H1. destruct H1 as [H1 ->]. apply call_sequence_ok in H1. destruct H1 as [H1 _].
  assert (HW1 := step_winv 0 ltac:(lra) ltac:(lra) true (NewSequence (c_dim c) false []) K (r_world st) I HW).
  rewrite H1 in HW1. cbn [fst] in HW1.
  destruct (new_sequence_view 0 (r_world st) (c_dim c) (exact_W _ HX)) as (w1 & E & S1).
  rewrite E in H1. injection H1 as E1 <-. rewrite E1 in S1. clear E E1 HW HX.
  apply bind_ok in H. destruct H as (costs1 & [st2 c2] & H2 & H). apply ret_ok in H. destruct H as [H H3].
  injection H as -> ->. injection H3 as -> ->.
  set (s := List.length (w_seqs (r_world st))) in *. clearbody s. clear st.
  change (S (Z.to_nat 1)) with 2%nat in H2. cbn [compile_loop] in H2.
  apply bind_ok in H2. destruct H2 as (p & [st3 c3] & H3 & H2). apply c_run_inv in H3. destruct H3 as [H3 ->].
  apply call_unitary_ok in H3. destruct H3 as [H3 _].
  assert (HW2 := step_winv 0 ltac:(lra) ltac:(lra) true (Product s) _ (r_world st1) I HW1). rewrite H3 in HW2. cbn [fst] in HW2.
  destruct (product_view 0 _ _ _ _ _ _ _ S1 H3) as (p' & E & S2 & A & A1 & _). injection E as <-.
  apply bind_ok in H2. destruct H2 as (close & sty & H4 & H2). apply lift_ok in H4. destruct H4 as [-> H4].
  assert (S1' := S1). rewrite Hd in S1'.
  destruct (exact_answers_wf _ _ _ _ _ _ _ HW1 S1' A) as [Dp Wp].
  rewrite (never_close p target n Dp Wp Ht Htd) in H4. injection H4 as <-.
  change (Z.ltb (Z.of_nat (@List.length R [])) 1) with true in H2. cbv iota in H2.
  apply bind_ok in H2. destruct H2 as (cost & [st4 c4] & H4 & H2).
  rewrite <- (set_beta_same c) in H4.
  destruct (step_ok g 0 G change Rel c (c_beta c) s target _ _ _ _ _ _ HC S2 H4)
    as (-> & q1 & q2 & q3 & q4 & cs1 & q5 & _ & _ & _ & _ & (st5 & Hch & _ & (pv5 & S5) & _ & Hq5) & D).
  assert (P1 : P cs1).
  { assert (Sx := sees_other 0 _ _ _ _ _ (Product s) S2 eq_refl).
    eapply (HP {| r_world := fst (step 0 (Product s) (r_world st3)); r_draws := r_draws st3 |}); [exact Sx|exact Hch|exact S5]. }
  rewrite G0 in Hq5. subst q5.
  destruct D as [(_ & _ & (pv6 & S6) & _)|(D & _)].
  2:{ exfalso. pose proof (metropolis_pos (Rmin (c_beta c + c_rate c) (c_max_beta c)) (q4 - q2)). lra. }
  apply bind_ok in H2. destruct H2 as (p2 & [st7 c7] & H7 & H2). apply c_run_inv in H7. destruct H7 as [H7 ->].
  apply call_unitary_ok in H7. destruct H7 as [H7 _].
  destruct (product_view 0 _ _ _ _ _ _ _ S6 H7) as (p' & _ & S7 & _).
  apply bind_ok in H2. destruct H2 as (close & sty & H8 & H2). apply lift_ok in H8. destruct H8 as [-> _].
  assert (E8 : (st2, c2) = (st7, set_beta c (Rmin (c_beta c + c_rate c) (c_max_beta c)))).
  { destruct close; [apply ret_ok in H2; apply H2|].
    change (Z.ltb (Z.of_nat (List.length ([] ++ [cost]))) 1) with false in H2. cbv iota in H2.
    apply ret_ok in H2. apply H2. }
  injection E8 as -> _. now rewrite (sees_contents _ _ _ _ _ _ S7).
Qed.

(** ** C33 *)
Lemma action_zero ap : (0 < ap)%R -> action_at ap 0 = ActAppendFirst.
Proof. intros H. unfold action_at. destruct (Rlt_dec 0 (ap / 2)); auto. lra. Qed.

Lemma C33_general_lemma : forall g st c target counts n,
  rng_ok g -> (forall j, g_unif g j = 0%R) ->
  exact_world (r_world st) -> c_dim c = (2 ^ n)%nat -> (0 < c_append c <= 1)%R ->
  good_table 0 n counts -> built 0 target -> u_dim target = (2 ^ n)%nat ->
  exists st' c' s costs,
    compile_layered g 0 target counts (Some 2%R) 1 (st, c) = ((st', c'), Ok (s, costs)) /\
    List.length (contents (r_world st') s) = table_size counts.
Proof.
  intros g st c target counts n G G0 HX Hd Ha HC Ht Htd.
  destruct (C28_layered_lemma g st c target counts (Some 2%R) 1 n G HX Hd ltac:(lra) HC Ht Htd) as (st' & c' & s & costs & H).
  exists st', c', s, costs. split; auto. unfold compile_layered in H.
  apply (one_step g _ _ c (layer_size counts) target st st' c' s costs n
    (fun cs => List.length cs = table_size counts) G G0 (change_layered g 0 G c counts)); auto.
  - intros s0. apply layered_traced; auto. apply (good_safe_counts 0); [apply safe_made0|].
    intros pc Hp. unfold good_table in HC. rewrite Forall_forall in HC. apply HC in Hp. apply Hp.
  - eapply built_wf; eauto.
  - intros st0 st0' b s0 pv pv' cs' S E S'.
    destruct (layered_action g 0 (set_beta c b) counts s0 st0 st0' _ [] pv G ltac:(simpl; lra) S E) as (pv2 & D).
    rewrite G0 in D. rewrite action_zero in D by (simpl; lra).
    destruct D as (layer & HL & S2). rewrite app_nil_r in S2.
    apply sees_contents in S2. apply sees_contents in S'. cbn [set_beta c_dim] in HL.
    replace cs' with layer by congruence. exact (layer_of_length 0 _ _ _ HL).
Qed.

Definition rot_primitive (u : unitary) : primitive := {| p_source := Fixed u; p_allowed := None |}.

Lemma rot_good u : built 0 u -> u_dim u = 2%nat -> good_primitive 0 1 (rot_primitive u).
Proof. intros B D. split; [exact (built_made _ _ B)|]. exists 1%nat. simpl. auto. Qed.

Lemma empty_exact : exact_world w_empty.
Proof. exists []. split; [reflexivity|exact I]. Qed.

Lemma C33_lemma : exists g c target counts st st' c' s costs,
  rng_ok g /\ reachable 0 (r_world st) /\
  mk_compiler 2 false (map fst counts) None (1 / 2) 1 = Ok c /\
  good_table 0 1 counts /\ built 0 target /\ u_dim target = 2%nat /\
  compile_layered g 0 target counts (Some 2%R) 1 (st, c) = ((st', c'), Ok (s, costs)) /\
  total_count counts = 2%Z /\ List.length (contents (r_world st') s) = 3%nat.
Proof.
  destruct (rot345_built 0 ltac:(lra)) as (u & B & D & _).
  set (counts := [(rot_primitive u, 3%Z); (rot_primitive u, (-1)%Z)]).
  set (c := {| c_dim := 2; c_array := false; c_prims := map fst counts; c_probs := None;
    c_max_beta := ((2 ^ 2) ^ 2)%R; c_beta := 0; c_rate := 1; c_append := (1 / 2)%R |}).
  assert (GT : good_table 0 1 counts).
  { repeat constructor; try (now apply rot_good); try discriminate;
     (exists 1%nat; simpl; auto). }
  destruct (C33_general_lemma (const_rng 0 0) {| r_world := w_empty; r_draws := 0 |} c u counts 1)
    as (st' & c' & s & costs & E & L).
  - apply const_rng_ok. lra.
  - reflexivity.
  - exact empty_exact.
  - reflexivity.
  - simpl. lra.
  - exact GT.
  - exact B.
  - exact D.
  - exists (const_rng 0 0), c, u, counts, {| r_world := w_empty; r_draws := 0 |}, st', c', s, costs.
    split; [apply const_rng_ok; lra|]. split; [now exists []|]. split.
    { unfold mk_compiler. cbn [Nat.ltb Nat.leb assert bind]. simpl forallb. rewrite D. reflexivity. }
    split; [exact GT|]. auto 10.
Qed.

(** ** C53, second half *)
Definition two_places (u : unitary) : primitive := {| p_source := Fixed u; p_allowed := Some [[0%nat]; [7%nat]] |}.

Definition two_compiler (u : unitary) : compiler :=
  {| c_dim := 2; c_array := false; c_prims := [two_places u]; c_probs := None;
     c_max_beta := ((2 ^ 2) ^ 2)%R; c_beta := 0; c_rate := 1; c_append := (1 / 2)%R |}.

Definition start : rstate := {| r_world := w_empty; r_draws := 0 |}.

Lemma two_fine u : built 0 u -> u_dim u = 2%nat ->
  exists st' c' s costs, compile (const_rng 0 0) 0 u (Some 2%R) 1 (start, two_compiler u) = ((st', c'), Ok (s, costs)) /\
    contents (r_world st') s = [(u, [0%nat])].
Proof.
  intros B D. set (g := const_rng 0 0). assert (G : rng_ok g) by (apply const_rng_ok; lra).
  set (c := two_compiler u).
  destruct (exact_winv_ex _ empty_exact) as [K HW].
  assert (HS : Forall (safe_primitive 0 (safe_gate 0 true)) (c_prims c)).
  { constructor; [|constructor]. intros v E. cbn in E. subst v. now apply safe_built0. }
  rewrite compile_eq by (simpl; auto; discriminate).
  destruct (with_total g 0 G ltac:(lra) ltac:(lra) true 1 (make_random_change g 0) (one_change 0 c) c 1 u (Some 2%R) 1
    (change_single g 0 G c) (fun s => single_traced g 0 G _ c s HS)) with (bt := c_beta c) (st := start) (K := K)
    as (st' & b' & s & costs & E); auto using lim_zero, lim0_zero.
  - apply (total_single g 0 G); auto using lim_zero, lim0_zero; try lra.
    + simpl. lra.
    + intros p [<-|[]]. split; [exact (built_made _ _ B)|]. simpl. intros _ k. split; [|auto].
      exact placement_10.
    + split; [discriminate|exact I].
  - apply (made_inverse 0 ltac:(lra) ltac:(lra) 1); auto using lim_zero, lim0_zero.
  - rewrite set_beta_same in E. exists st', (set_beta c b'), s, costs. split; auto.
    apply (one_step g _ _ c 1 u start st' (set_beta c b') s costs 1 (fun cs => cs = [(u, [0%nat])]) G (fun _ => eq_refl)
      (change_single g 0 G c)); auto.
    + intros s0. apply single_traced; auto.
    + exact empty_exact.
    + eapply built_wf; eauto.
    + intros st0 st0' b s0 pv pv' cs' S Ech S'.
      unfold make_random_change in Ech.
      apply bind_ok in Ech. destruct Ech as (cc & stc & H0 & Ech). unfold c_self in H0. injection H0 as <- <-.
      cbn [snd] in Ech. apply bind_ok in Ech. destruct Ech as (a & [st1 c1] & H1 & Ech).
      apply c_run_inv in H1. destruct H1 as [H1 ->].
      rewrite choose_action_at in H1 by (auto; simpl; lra). rewrite action_zero in H1 by (simpl; lra).
      injection H1 as E1 <-.
      apply bind_ok in Ech. destruct Ech as (l & [st2 c2] & H2 & Ech). apply c_run_inv in H2. destruct H2 as [H2 ->].
      apply bind_ok in Ech. destruct Ech as (v & [st3 c3] & H3 & Ech). apply c_run_inv in H3. destruct H3 as [H3 ->].
      apply ret_ok in Ech. destruct Ech as [Ech _]. injection Ech as ->.
      apply call_ok in H3. destruct H3 as [H3 _].
      assert (S1 : sees 0 (r_world st1) s0 (c_dim c) [] pv) by now rewrite <- E1.
      unfold create_random_sequence_entry in H2.
      apply bind_ok in H2. destruct H2 as (i & st4 & H4 & H2). unfold choice_unif in H4. cbn in H4. injection H4 as E4 <-.
      cbn [nth_error filter usable two_places p_allowed c_prims set_beta c two_compiler p_source] in H2.
      apply bind_ok in H2. destruct H2 as (v1 & st5 & H5 & H2). apply ret_ok in H5. destruct H5 as [-> ->].
      apply bind_ok in H2. destruct H2 as (qs & st6 & H6 & H2).
      apply bind_ok in H6. destruct H6 as (j & st7 & H7 & H6). unfold choice_unif in H7. cbn in H7. injection H7 as E7 <-.
      apply ret_ok in H6. destruct H6 as [-> ->]. cbn [nth map] in H2.
      apply call_entry_ok in H2. destruct H2 as [H2 _].
      destruct (new_entry_view 0 _ _ _ _ _ H2) as (l' & El & HG & _). injection El as <-.
      assert (S2 : sees 0 (r_world st2) s0 (c_dim c) [] pv).
      { replace (r_world st2) with (fst (step 0 (NewEntry u [Z.of_nat 0]) (r_world st7))) by now rewrite H2.
        apply sees_other; auto. rewrite <- E7. cbn [r_world]. rewrite <- E4. exact S1. }
      destruct (append_first_view 0 _ _ _ _ _ _ _ _ _ _ S2 HG H3) as (S3 & _).
      apply sees_contents in S3. apply sees_contents in S'. rewrite <- S', S3. reflexivity.
Qed.

Lemma product_exact K w s n cs pv : winv 0 true K w -> sees 0 w s (2 ^ n) cs pv ->
  exists w' p, step 0 (Product s) w = (w', Ok (VUnitary p)) /\ answers 0 w s p /\ u_dim p = (2 ^ n)%nat /\ wf p /\
    sees 0 w' s (2 ^ n) cs pv /\ winv 0 true K w'.
Proof.
  intros HW S.
  destruct (product_total 0 ltac:(lra) ltac:(lra) true n K w s cs pv HW S (lim_zero _ _)) as (w' & p & E & _ & A & _ & S' & HW').
  exists w', p. destruct (exact_answers_wf _ _ _ _ _ _ _ HW S A) as [D W]. auto 10.
Qed.

Lemma two_fails u : built 0 u -> u_dim u = 2%nat ->
  exists st' c', compile (const_rng 0 1) 0 u (Some 2%R) 1 (start, two_compiler u) = ((st', c'), Raise AssertionError).
Proof.
  intros B D. set (g := const_rng 0 1). assert (G : rng_ok g) by (apply const_rng_ok; lra).
  set (c := two_compiler u).
  destruct (exact_winv_ex _ empty_exact) as [K HW].
  rewrite compile_eq by (simpl; auto; discriminate).
  unfold compile_with. unfold se_bind at 1, c_self. cbn [snd].
  destruct (new_sequence_view 0 (r_world start) (c_dim c) (exact_W _ empty_exact)) as (w1 & E1 & S1).
  assert (HW1 := step_winv 0 ltac:(lra) ltac:(lra) true (NewSequence (c_dim c) false []) K (r_world start) I HW).
  rewrite E1 in HW1. cbn [fst] in HW1. cbn [r_world start w_seqs w_empty List.length] in E1, S1.
  assert (C1 : call_sequence 0 (NewSequence (c_dim c) false []) start = ({| r_world := w1; r_draws := 0 |}, Ok 0%nat)).
  { unfold call_sequence, se_bind, call. cbn [r_world start]. rewrite E1. reflexivity. }
  rewrite (bind_eq _ _ _ _ _ (c_run_eq _ _ _ _ _ C1)). clear C1 E1 HW.
  change (S (Z.to_nat 1)) with 2%nat. cbn [compile_loop].
  match goal with |- context [se_bind (se_bind ?m ?f) ?h ?st] => set (hh := h) end. clearbody hh.
  assert (X : exists st' c', (p <-- c_run (call_unitary 0 (Product 0));;
       close <-- se_lift (u_close_to 0 p u (Some 2%R));;
       (if close : bool then se_ret [] else
        if Z.ltb (Z.of_nat (@List.length R [])) 1 then
         cost <-- compile_step g 0 (make_random_change g 0) 0 u;; 
         compile_loop g 0 (make_random_change g 0) 0 u (Some 2%R) 1 ([] ++ [cost]) 1
        else se_ret [])) ({| r_world := w1; r_draws := 0 |}, c) = ((st', c'), Raise AssertionError)).
  2:{ destruct X as (st' & c' & X). exists st', c'. exact (bind_eq_raise _ _ _ _ _ X). }
  clear hh.
  destruct (product_exact _ w1 0 1 [] None HW1 S1) as (w2 & p & E2 & A2 & Dp & Wp & S2 & HW2).
  rewrite (bind_eq _ _ _ _ _ (c_run_eq _ _ _ _ _ (call_unitary_eq 0 _ {| r_world := w1; r_draws := 0 |} _ _ E2))).
  unfold se_bind at 1, se_lift at 1. rewrite (never_close p u 1 Dp Wp (built_wf _ _ B) D).
  change (Z.ltb (Z.of_nat (@List.length R [])) 1) with true. cbv iota. cbn [r_draws].
  unfold compile_step.
  unfold se_bind at 1. unfold se_bind at 1, anneal. cbn [fst snd].
  set (c1 := set_beta c _).
  destruct (product_exact _ w2 0 1 [] None HW2 S2) as (w3 & p3 & E3 & A3 & Dp3 & Wp3 & S3 & HW3).
  rewrite (bind_eq _ _ _ _ _ (c_run_eq _ _ _ _ _ (call_unitary_eq 0 _ {| r_world := w2; r_draws := 0 |} _ _ E3))).
  assert (X : exists st', make_random_change g 0 0 ({| r_world := w3; r_draws := 0 |}, c1) = ((st', c1), Raise AssertionError)).
  2:{ destruct X as (st' & X). exists st', c1. cbn [r_draws]. unfold se_bind at 1. rewrite X. reflexivity. }
  unfold make_random_change. unfold se_bind at 1, c_self. cbn [snd].
  assert (Ha : (0 <= c_append c1 <= 1)%R) by (simpl; lra).
  rewrite (bind_eq _ _ _ _ _ (c_run_eq _ _ _ _ _ (choose_action_at g (c_append c1) {| r_world := w3; r_draws := 0 |} G Ha))).
  cbn [r_world r_draws]. change (g_unif g 0) with 0%R. rewrite action_zero by (simpl; lra).
  assert (ME : exists e, mk_entry u [7%Z] = Ok e).
  { apply mk_entry_iff. split; [discriminate|]. split; [repeat constructor; simpl; tauto|]. split; [|now rewrite D].
    intros q [<-|[]]. lia. }
  destruct ME as [e ME].
  destruct (step 0 (NewEntry u [7%Z]) w3) as [w4 r4] eqn:E4.
  assert (exists l, r4 = Ok (VEntry l)) as [l ->].
  { revert E4. cbn [step]. rewrite ME. intros E4. injection E4 as _ <-. eauto. }
  assert (C4 : create_random_sequence_entry g 0 (c_dim c1) (c_prims c1) (c_probs c1) {| r_world := w3; r_draws := 1 |} =
    ({| r_world := w4; r_draws := 3 |}, Ok l)).
  { unfold create_random_sequence_entry. cbn. unfold se_bind, choice_unif, se_ret. cbn.
    unfold call_entry, se_bind, call. cbn [r_world r_draws]. rewrite E4. reflexivity. }
  rewrite (bind_eq _ _ _ _ _ (c_run_eq _ _ _ _ _ C4)).
  destruct (new_entry_view 0 _ _ _ _ _ E4) as (l' & El & HG & _). injection El as <-.
  assert (S4 := sees_other 0 _ _ _ _ _ (NewEntry u [7%Z]) S3 eq_refl). rewrite E4 in S4. cbn [fst] in S4.
  assert (X : step 0 (AppendFirst 0 l true) w4 = (w4, Raise AssertionError)).
  { destruct S4 as (W4 & q & Hq & Hdq & _). destruct HG as [Hl HG].
    assert (V : entry_valid (s_dim q) (obj (w_heap w4) l) = false).
    { rewrite Hdq. apply (entry_unfit 0 w4 2 l W4 Hl). intros F. 
      unfold fits in F. apply (f_equal snd) in HG. cbn in HG. destruct F as (_ & F). rewrite HG in F.
      specialize (F 7%nat ltac:(simpl; auto)). simpl in F. lia. }
    rewrite step_append_first.
    replace (Nat.ltb l (List.length (w_heap w4))) with true by (symmetry; now apply Nat.ltb_lt).
    unfold se_bind at 1.
    rewrite (on_seq_nop 0 (append_first 0 l true) w4 q (Raise AssertionError) Hq); auto.
    now rewrite append_first_eq, V. }
  eexists. unfold se_bind at 1, c_run at 1, call. cbn [fst snd r_world r_draws]. rewrite X. reflexivity.
Qed.

Lemma C53_late_lemma : exists u p c target st,
  mk_primitive (Fixed u) (Some [[0%Z]; [7%Z]]) = Ok p /\
  mk_compiler 2 false [p] None (1 / 2) 1 = Ok c /\ built 0 u /\ built 0 target /\ u_dim target = 2%nat /\
  exact_world (r_world st) /\
  (exists g st' c' s costs, rng_ok g /\ compile g 0 target (Some 2%R) 1 (st, c) = ((st', c'), Ok (s, costs)) /\
     contents (r_world st') s = [(u, [0%nat])]) /\
  (exists g st' c', rng_ok g /\ compile g 0 target (Some 2%R) 1 (st, c) = ((st', c'), Raise AssertionError)).
Proof.
  destruct (rot345_built 0 ltac:(lra)) as (u & B & D & _).
  exists u, (two_places u), (two_compiler u), u, start.
  split. { unfold mk_primitive. cbn. rewrite D. reflexivity. }
  split. { unfold mk_compiler. cbn [Nat.ltb Nat.leb assert bind]. simpl forallb. rewrite D. reflexivity. }
  split; auto. split; auto. split; auto. split; [exact empty_exact|]. split.
  - destruct (two_fine u B D) as (st' & c' & s & costs & E). exists (const_rng 0 0), st', c', s, costs.
    split; auto. apply const_rng_ok. lra.
  - destruct (two_fails u B D) as (st' & c' & E). exists (const_rng 0 1), st', c'. split; auto. apply const_rng_ok. lra.
Qed.
