(** The object model and the model on plain lists agree: runs of the compiler. *)
From Coq Require Import Reals List Arith Lia Lra Bool String ZArith Permutation.
From Coquelicot Require Import Complex.
From Verif Require Import Base CMat CMatFacts Det CRoot ModelUnitary ModelEntry ModelPrimitive ModelSequence ModelCompiler
  ModelRound ModelRoundComp Spec SpecModel SpecCompiler SpecAgree PUnitary PEntry PSeqHeap PSeqMeth PSeqWorld
  PSeqUndo PCompView PCompRun PCompEntry PCompLoop PAgree.
Import ListNotations.
Open Scope R_scope.
Open Scope C_scope.
Open Scope list_scope.
Open Scope se_scope.

Section Agree.
Variable g : rng.
Variable eps : R.
Hypothesis RG : rng_ok g.
Notation W := (WG eps anyg).
Notation ex := exact_arith.
Notation gatety := (unitary * list nat)%type.

(** New entry objects only. *)
Definition grows (w w' : world) : Prop := w_seqs w' = w_seqs w /\ heap_ext (w_heap w) (w_heap w').

Lemma grows_refl w : grows w w.
Proof. split; [reflexivity|apply heap_ext_refl]. Qed.
Lemma grows_trans w1 w2 w3 : grows w1 w2 -> grows w2 w3 -> grows w1 w3.
Proof. intros [A1 A2] [B1 B2]. split; [congruence|eapply heap_ext_trans; eauto]. Qed.

Lemma grows_view w w' s q : W w -> grows w w' -> plain_view w s = Some q -> plain_view w' s = Some q.
Proof.
  intros HW [A X] V. apply plain_view_iff in V. destruct V as (sq & E & B & ->). apply plain_view_iff.
  exists sq. rewrite A. split; [exact E|]. split; [exact B|]. symmetry. apply rview_ext; [exact X|].
  destruct HW as [_ R]. now apply (R s).
Qed.

Lemma sees_of_view w s q : W w -> plain_view w s = Some q -> sees eps w s (rs_dim q) (rs_entries q) (rs_prev q).
Proof.
  intros HW V. apply plain_view_iff in V. destruct V as (sq & E & A & ->). split; [exact HW|].
  exists sq. split; [exact E|]. split; [reflexivity|]. split; [exact A|]. split; reflexivity.
Qed.

Lemma create_grows d ps probs st st' l :
  create_random_sequence_entry g eps d ps probs st = (st', Ok l) -> grows (r_world st) (r_world st').
Proof.
  intros H. apply (create_inv g eps RG) in H. destruct H as (u & qs & pr & _ & _ & _ & H). cbn [step] in H.
  destruct (mk_entry u (map Z.of_nat qs)) as [e|x]; [|discriminate].
  injection H as H _. rewrite <- H. split; [reflexivity|apply heap_ext_app].
Qed.

Lemma create_entries_grows d p k : forall st st' ls,
  create_entries g eps d p k st = (st', Ok ls) -> grows (r_world st) (r_world st').
Proof.
  induction k as [|k IH]; intros st st' ls H; simpl in H.
  - apply ret_ok in H. destruct H as [-> _]. apply grows_refl.
  - apply bind_ok in H. destruct H as (l & st1 & H1 & H).
    apply bind_ok in H. destruct H as (ls1 & st2 & H2 & H). apply ret_ok in H. destruct H as [-> _].
    eapply grows_trans; [eapply create_grows; eauto|eapply IH; eauto].
Qed.

Lemma create_loop_grows d counts : forall st st' ls,
  create_layer_loop g eps d counts st = (st', Ok ls) -> grows (r_world st) (r_world st').
Proof.
  induction counts as [|[p c] t IH]; intros st st' ls H; simpl in H.
  - apply ret_ok in H. destruct H as [-> _]. apply grows_refl.
  - apply bind_ok in H. destruct H as (ls1 & st1 & H1 & H).
    apply bind_ok in H. destruct H as (ls2 & st2 & H2 & H). apply ret_ok in H. destruct H as [-> _].
    eapply grows_trans; [eapply create_entries_grows; eauto|eapply IH; eauto].
Qed.

Lemma create_layer_grows d counts st st' ls :
  create_random_layer g eps d counts st = (st', Ok ls) -> grows (r_world st) (r_world st').
Proof.
  intros H. apply bind_ok in H. destruct H as (ls1 & st1 & H1 & H).
  apply create_loop_grows in H1. unfold shuffle in H. injection H as <- _. exact H1.
Qed.

(** ** Calls that went well *)
Lemma call_agree w s q o m w' v : W w -> plain_view w s = Some q -> same_call w s o m ->
  step eps o w = (w', Ok v) ->
  exists q', r_step ex eps q m = Ok q' /\ plain_view w' s = Some q' /\ W w' /\
    (m = RProduct -> exists p, v = VUnitary p /\ r_product ex eps q = Ok p).
Proof.
  intros HW V S E. pose proof (step_agree eps w s q o m HW V S) as A.
  destruct (r_step ex eps q m) as [q'|x] eqn:Q.
  2:{ destruct A as (w1 & A). congruence. }
  destruct A as (w1 & A1 & A2). rewrite E in A1. injection A1 as <- Av. exists q'.
  split; [reflexivity|]. split; [exact A2|]. split.
  - pose proof (W_step eps o w HW) as X. now rewrite E in X.
  - intros ->. cbn [r_step] in Q. destruct (r_product ex eps q) as [p|x]; [|discriminate].
    cbn [bind] in Av. injection Av as ->. eauto.
Qed.

Lemma keep_agree w s q w' p : W w -> plain_view w s = Some q ->
  step eps (Product s) w = (w', Ok (VUnitary p)) ->
  exists q', r_keep ex eps q = Ok (q', p) /\ plain_view w' s = Some q' /\ W w' /\ rs_dim q' = rs_dim q.
Proof.
  intros HW V E.
  destruct (call_agree w s q (Product s) RProduct w' _ HW V (same_product _ _) E) as (q' & Q & V' & HW' & P).
  destruct (P eq_refl) as (p' & Ep & Rp). injection Ep as <-.
  exists q'. unfold r_keep. rewrite Q. cbn [bind]. cbn [r_step] in Q. rewrite Rp in Q. cbn [bind] in Q.
  injection Q as <-. cbn [r_product rs_product rs_dim bind]. auto.
Qed.

Definition adds_first (first : bool) (gs : list gatety) : list rop :=
  match gs with [] => [] | gt :: t => RFirst gt first :: map (fun gt => RFirst gt false) t end.
Definition adds_last (first : bool) (gs : list gatety) : list rop :=
  match gs with [] => [] | gt :: t => RLast gt first :: map (fun gt => RLast gt false) t end.

Lemma adds_first_false gs : adds_first false gs = map (fun gt => RFirst gt false) gs.
Proof. now destruct gs. Qed.
Lemma adds_last_false gs : adds_last false gs = map (fun gt => RLast gt false) gs.
Proof. now destruct gs. Qed.

Lemma has_gate_call w s l gt sv : has_gate w l gt -> same_call w s (AppendFirst s l sv) (RFirst gt sv).
Proof. intros [L <-]. now apply same_first. Qed.
Lemma has_gate_call_last w s l gt sv : has_gate w l gt -> same_call w s (AppendLast s l sv) (RLast gt sv).
Proof. intros [L <-]. now apply same_last. Qed.

Lemma append_first_agree s ls : forall gs first st st' q,
  append_all eps (AppendFirst s) ls first st = (st', Ok tt) ->
  W (r_world st) -> plain_view (r_world st) s = Some q -> Forall2 (has_gate (r_world st)) ls gs ->
  exists q', r_run ex eps q (adds_first first gs) = Ok q' /\ plain_view (r_world st') s = Some q' /\ W (r_world st').
Proof.
  induction ls as [|l ls IH]; intros gs first st st' q H HW V F; simpl in H.
  - apply ret_ok in H. destruct H as [-> _]. inversion F; subst. exists q. split; [reflexivity|auto].
  - apply bind_ok in H. destruct H as (v & st1 & H1 & H2). apply call_ok in H1. destruct H1 as [H1 _].
    inversion F as [|? gt ? gs' F1 F2]; subst.
    destruct (call_agree _ _ _ _ _ _ _ HW V (has_gate_call _ s l gt first F1) H1) as (q1 & Q1 & V1 & HW1 & _).
    assert (F3 : Forall2 (has_gate (r_world st1)) ls gs').
    { eapply has_gates_ext; [|exact F2]. pose proof (step_ext eps (AppendFirst s l first) _ HW) as X.
      now rewrite H1 in X. }
    destruct (IH gs' false st1 st' q1 H2 HW1 V1 F3) as (q' & Q2 & V2 & HW2).
    exists q'. split; [|auto]. cbn [adds_first r_run]. rewrite Q1. cbn [bind].
    now rewrite adds_first_false in Q2.
Qed.

Lemma append_last_agree s ls : forall gs first st st' q,
  append_all eps (AppendLast s) ls first st = (st', Ok tt) ->
  W (r_world st) -> plain_view (r_world st) s = Some q -> Forall2 (has_gate (r_world st)) ls gs ->
  exists q', r_run ex eps q (adds_last first gs) = Ok q' /\ plain_view (r_world st') s = Some q' /\ W (r_world st').
Proof.
  induction ls as [|l ls IH]; intros gs first st st' q H HW V F; simpl in H.
  - apply ret_ok in H. destruct H as [-> _]. inversion F; subst. exists q. split; [reflexivity|auto].
  - apply bind_ok in H. destruct H as (v & st1 & H1 & H2). apply call_ok in H1. destruct H1 as [H1 _].
    inversion F as [|? gt ? gs' F1 F2]; subst.
    destruct (call_agree _ _ _ _ _ _ _ HW V (has_gate_call_last _ s l gt first F1) H1) as (q1 & Q1 & V1 & HW1 & _).
    assert (F3 : Forall2 (has_gate (r_world st1)) ls gs').
    { eapply has_gates_ext; [|exact F2]. pose proof (step_ext eps (AppendLast s l first) _ HW) as X.
      now rewrite H1 in X. }
    destruct (IH gs' false st1 st' q1 H2 HW1 V1 F3) as (q' & Q2 & V2 & HW2).
    exists q'. split; [|auto]. cbn [adds_last r_run]. rewrite Q1. cbn [bind].
    now rewrite adds_last_false in Q2.
Qed.

Definition pops (pop : bool -> rop) (first : bool) (k : nat) : list rop :=
  match k with O => [] | S k => pop first :: repeat (pop false) k end.

Lemma pops_false pop k : pops pop false k = repeat (pop false) k.
Proof. now destruct k. Qed.

Lemma remove_agree s mk pop k : (forall w sv, same_call w s (mk sv) (pop sv)) -> forall first st st' q,
  remove_all eps mk k first st = (st', Ok tt) ->
  W (r_world st) -> plain_view (r_world st) s = Some q ->
  exists q', r_run ex eps q (pops pop first k) = Ok q' /\ plain_view (r_world st') s = Some q' /\ W (r_world st').
Proof.
  intros Hmk. induction k as [|k IH]; intros first st st' q H HW V; simpl in H.
  - apply ret_ok in H. destruct H as [-> _]. exists q. split; [reflexivity|auto].
  - apply bind_ok in H. destruct H as (v & st1 & H1 & H2). apply call_ok in H1. destruct H1 as [H1 _].
    destruct (call_agree _ _ _ _ _ _ _ HW V (Hmk _ first) H1) as (q1 & Q1 & V1 & HW1 & _).
    destruct (IH false st1 st' q1 H2 HW1 V1) as (q' & Q2 & V2 & HW2).
    exists q'. split; [|auto]. cbn [pops r_run]. rewrite Q1. cbn [bind]. now rewrite pops_false in Q2.
Qed.

(** ** Changes *)
Definition change_agrees (change : nat -> CM unit) (P : rchange -> Prop) (c0 : compiler) : Prop :=
  forall b s st st' c' q,
    W (r_world st) -> plain_view (r_world st) s = Some q -> rs_dim q = c_dim c0 ->
    change s (st, set_beta c0 b) = ((st', c'), Ok tt) ->
    c' = set_beta c0 b /\ exists ch q', P ch /\ r_run ex eps q (change_ops ch) = Ok q' /\
      plain_view (r_world st') s = Some q' /\ W (r_world st').

Lemma single_agrees c0 : change_agrees (make_random_change g eps) (drawn_change eps c0) c0.
Proof.
  intros b s st st' c' q HW V D H. unfold make_random_change in H.
  apply bind_ok in H. destruct H as (c & stc & H0 & H). unfold c_self in H0. injection H0 as <- <-.
  cbn [snd] in H. apply bind_ok in H. destruct H as (a & [st1 c1] & H1 & H).
  apply c_run_inv in H1. destruct H1 as [H1 ->].
  assert (W1 := draws_world _ _ _ _ (draws_choose_action g _) H1). rewrite <- W1 in HW, V.
  assert (A : forall mk : nat -> bool -> op, forall radd : gatety -> bool -> rop,
    (forall w l gt sv, has_gate w l gt -> same_call w s (mk l sv) (radd gt sv)) ->
    (forall w l gt w' v, sees eps w s (c_dim c0) (rs_entries q) (rs_prev q) -> has_gate w l gt ->
       step eps (mk l true) w = (w', Ok v) -> fits w (c_dim c0) l) ->
    (l <-- c_run (create_random_sequence_entry g eps (c_dim (set_beta c0 b)) (c_prims (set_beta c0 b)) (c_probs (set_beta c0 b)));;
     c_run (call eps (mk l true));;; se_ret tt) (st1, set_beta c0 b) = ((st', c'), Ok tt) ->
    c' = set_beta c0 b /\ exists gt p q', weighted (c_prims c0) (c_probs c0) p /\ allows eps (c_dim c0) p gt /\
      r_run ex eps q [radd gt true] = Ok q' /\ plain_view (r_world st') s = Some q' /\ W (r_world st')).
  { intros mk radd Hmk Hfit HH. apply bind_ok in HH. destruct HH as (l & [st2 c2] & H2 & HH).
    apply c_run_inv in H2. destruct H2 as [H2 ->]. cbn [set_beta c_dim c_prims c_probs] in H2.
    apply bind_ok in HH. destruct HH as (v & [st3 c3] & H3 & HH).
    apply c_run_inv in H3. destruct H3 as [H3 ->]. apply ret_ok in HH. destruct HH as [HH _].
    injection HH as -> ->. split; [reflexivity|].
    pose proof (create_grows _ _ _ _ _ _ H2) as Gr.
    apply (create_ok g eps RG) in H2. destruct H2 as (gt & O & HG & Sp).
    assert (HW2 : W (r_world st2)) by (now apply (Sp s)).
    assert (V2 := grows_view _ _ s q HW Gr V).
    apply call_ok in H3. destruct H3 as [H3 _].
    destruct (call_agree _ _ _ _ _ _ _ HW2 V2 (Hmk _ l gt true HG) H3) as (q' & Q & V3 & HW3 & _).
    assert (S2 := sees_of_view _ _ _ HW2 V2). rewrite D in S2.
    assert (F := Hfit _ l gt _ _ S2 HG H3).
    destruct (offered_allows eps _ _ _ (c_dim c0) O (proj2 (fits_gate _ _ _ _ HG F))) as (p & Hp & Ha).
    exists gt, p, q'. cbn [r_run]. rewrite Q. cbn [bind]. auto. }
  destruct a.
  - apply (A _ RFirst) in H.
    + destruct H as (-> & gt & p & q' & Hp & Ha & Hq & HV). split; [reflexivity|].
      exists (RAddFirst [gt]), q'. split; [exists gt, p; auto|]. split; [exact Hq|exact HV].
    + intros w l gt sv. apply has_gate_call.
    + intros w l gt w' v S0 HG E. now destruct (append_first_view eps _ _ _ _ _ _ _ _ _ _ S0 HG E) as (_ & F & _).
  - apply (A _ RLast) in H.
    + destruct H as (-> & gt & p & q' & Hp & Ha & Hq & HV). split; [reflexivity|].
      exists (RAddLast [gt]), q'. split; [exists gt, p; auto|]. split; [exact Hq|exact HV].
    + intros w l gt sv. apply has_gate_call_last.
    + intros w l gt w' v S0 HG E. now destruct (append_last_view eps _ _ _ _ _ _ _ _ _ _ S0 HG E) as (_ & F & _).
  - apply bind_ok in H. destruct H as (v & [st3 c3] & H3 & HH).
    apply c_run_inv in H3. destruct H3 as [H3 ->]. apply ret_ok in HH. destruct HH as [HH _].
    injection HH as -> ->. split; [reflexivity|]. apply call_ok in H3. destruct H3 as [H3 _].
    destruct (call_agree _ _ _ _ _ _ _ HW V (same_pop_first _ s true) H3) as (q' & Q & V3 & HW3 & _).
    exists (RDropFirst 1), q'. split; [reflexivity|]. cbn [change_ops repeat r_run]. rewrite Q. cbn [bind]. auto.
  - apply bind_ok in H. destruct H as (v & [st3 c3] & H3 & HH).
    apply c_run_inv in H3. destruct H3 as [H3 ->]. apply ret_ok in HH. destruct HH as [HH _].
    injection HH as -> ->. split; [reflexivity|]. apply call_ok in H3. destruct H3 as [H3 _].
    destruct (call_agree _ _ _ _ _ _ _ HW V (same_pop_last _ s true) H3) as (q' & Q & V3 & HW3 & _).
    exists (RDropLast 1), q'. split; [reflexivity|]. cbn [change_ops repeat r_run]. rewrite Q. cbn [bind]. auto.
Qed.

Lemma layer_length_total counts : layer_length counts = total_count counts.
Proof.
  unfold total_count, layer_length. induction counts as [|[p c] t IH]; [reflexivity|]. cbn [fold_right map snd].
  now rewrite IH.
Qed.

Lemma layered_agrees c0 counts :
  change_agrees (make_random_change_layered g eps counts) (drawn_layer eps (c_dim c0) counts) c0.
Proof.
  intros b s st st' c' q HW V D H. unfold make_random_change_layered in H.
  apply bind_ok in H. destruct H as (c & stc & H0 & H). unfold c_self in H0. injection H0 as <- <-.
  cbn [snd] in H. apply bind_ok in H. destruct H as (a & [st1 c1] & H1 & H).
  apply c_run_inv in H1. destruct H1 as [H1 ->].
  assert (W1 := draws_world _ _ _ _ (draws_choose_action g _) H1). rewrite <- W1 in HW, V.
  assert (A : forall (mk : nat -> bool -> op) (adds : bool -> list gatety -> list rop),
    (forall ls gs sta stb, append_all eps mk ls true sta = (stb, Ok tt) ->
      W (r_world sta) -> plain_view (r_world sta) s = Some q -> Forall2 (has_gate (r_world sta)) ls gs ->
      Forall (fits_in (c_dim c0)) gs /\
      exists q', r_run ex eps q (adds true gs) = Ok q' /\ plain_view (r_world stb) s = Some q' /\ W (r_world stb)) ->
    (ls <-- c_run (create_random_layer g eps (c_dim (set_beta c0 b)) counts);;
     c_run (append_all eps mk ls true)) (st1, set_beta c0 b) = ((st', c'), Ok tt) ->
    c' = set_beta c0 b /\ exists gs q', layer_of eps (c_dim c0) counts gs /\
      r_run ex eps q (adds true gs) = Ok q' /\ plain_view (r_world st') s = Some q' /\ W (r_world st')).
  { intros mk adds Hmk HH. apply bind_ok in HH. destruct HH as (ls & [st2 c2] & H2 & HH).
    apply c_run_inv in H2. destruct H2 as [H2 ->]. cbn [set_beta c_dim] in H2.
    apply c_run_inv in HH. destruct HH as [HH ->]. split; [reflexivity|].
    pose proof (create_layer_grows _ _ _ _ _ H2) as Gr.
    destruct (create_layer_ok g eps RG _ _ _ _ _ H2 HW) as (parts & gs & P1 & P2 & P3 & P4).
    assert (HW2 : W (r_world st2)) by (now apply (P4 s)).
    assert (V2 := grows_view _ _ s q HW Gr V).
    destruct (Hmk _ _ _ _ HH HW2 V2 P3) as (F & q' & Q & V3 & HW3).
    exists gs, q'. split; [|auto]. exists parts. split; [exact P2|].
    apply parts_allows; [exact P1|]. eapply Permutation_Forall; eauto. }
  destruct a.
  - apply (A _ adds_first) in H.
    + destruct H as (-> & gs & q' & Hl & Hq & HV). split; [reflexivity|].
      exists (RAddFirst gs), q'. split; [exact Hl|]. split; [|exact HV]. destruct gs; exact Hq.
    + intros ls gs sta stb E Wa Va F. split; [|eapply append_first_agree; eauto].
      assert (S0 := sees_of_view _ _ _ Wa Va). rewrite D in S0.
      now destruct (append_all_first eps s ls gs true sta stb _ _ _ E S0 F) as (_ & X & _).
  - apply (A _ adds_last) in H.
    + destruct H as (-> & gs & q' & Hl & Hq & HV). split; [reflexivity|].
      exists (RAddLast gs), q'. split; [exact Hl|]. split; [|exact HV]. destruct gs; exact Hq.
    + intros ls gs sta stb E Wa Va F. split; [|eapply append_last_agree; eauto].
      assert (S0 := sees_of_view _ _ _ Wa Va). rewrite D in S0.
      now destruct (append_all_last eps s ls gs true sta stb _ _ _ E S0 F) as (_ & X & _).
  - apply c_run_inv in H. destruct H as [H ->]. split; [reflexivity|].
    destruct (remove_agree s _ RPopFirst _ (fun w sv => same_pop_first w s sv) _ _ _ _ H HW V) as (q' & Q & HV).
    exists (RDropFirst (Z.to_nat (layer_length counts))), q'. cbn [drawn_layer]. rewrite layer_length_total.
    split; [reflexivity|]. split; [|exact HV]. rewrite <- layer_length_total. destruct (Z.to_nat (layer_length counts)); exact Q.
  - apply c_run_inv in H. destruct H as [H ->]. split; [reflexivity|].
    destruct (remove_agree s _ RPopLast _ (fun w sv => same_pop_last w s sv) _ _ _ _ H HW V) as (q' & Q & HV).
    exists (RDropLast (Z.to_nat (layer_length counts))), q'. cbn [drawn_layer]. rewrite layer_length_total.
    split; [reflexivity|]. split; [|exact HV]. rewrite <- layer_length_total. destruct (Z.to_nat (layer_length counts)); exact Q.
Qed.

(** ** The loop *)
Lemma r_step_dim q m q' : r_step ex eps q m = Ok q' -> rs_dim q' = rs_dim q.
Proof.
  assert (SV : forall sv q q1, r_save ex eps sv q = Ok q1 -> rs_dim q1 = rs_dim q).
  { intros sv a a1. destruct sv; cbn [r_save]; [|now intros [= <-]].
    destruct (match rs_product a with Some p => _ | None => _ end); cbn [bind]; [|discriminate]. now intros [= <-]. }
  assert (ST : forall q es f q1, r_set q es f = Ok q1 -> rs_dim q1 = rs_dim q).
  { intros a es f a1. unfold r_set. destruct (match rs_product a with Some p => _ | None => _ end); cbn [bind]; [|discriminate].
    now intros [= <-]. }
  assert (SS : forall sv q es f q1, bind (r_save ex eps sv q) (fun q1 => r_set q1 (es q1) (f q1)) = Ok q1 -> rs_dim q1 = rs_dim q).
  { intros sv a es f a1 H. destruct (r_save ex eps sv a) as [a2|] eqn:E; [|discriminate]. cbn [bind] in H.
    rewrite (ST _ _ _ _ H). exact (SV _ _ _ E). }
  destruct m as [gt sv|gt sv|sv|sv| |]; cbn [r_step].
  - destruct (r_valid q gt); cbn [assert bind]; [|discriminate]. apply (SS sv q (fun q1 => gt :: rs_entries q1) (fun _ => _)).
  - destruct (r_valid q gt); cbn [assert bind]; [|discriminate]. apply (SS sv q (fun q1 => rs_entries q1 ++ [gt]) (fun _ => _)).
  - destruct (rs_entries q) as [|gt t]; [now intros [= <-]|]. apply (SS sv q (fun q1 => t) (fun _ => _)).
  - destruct (rev (rs_entries q)) as [|gt t]; [now intros [= <-]|]. apply (SS sv q (fun q1 => rev t) (fun _ => _)).
  - destruct (rs_prev q); [|discriminate]. now intros [= <-].
  - destruct (r_product ex eps q); cbn [bind]; [|discriminate]. now intros [= <-].
Qed.

Lemma r_run_dim ms : forall q q', r_run ex eps q ms = Ok q' -> rs_dim q' = rs_dim q.
Proof.
  induction ms as [|m ms IH]; intros q q' H; cbn [r_run] in H.
  - now injection H as <-.
  - destruct (r_step ex eps q m) as [q1|] eqn:E; [|discriminate]. cbn [bind] in H.
    rewrite (IH _ _ H). now apply (r_step_dim _ _ _ E).
Qed.

Lemma set_beta_dim c b : c_dim (set_beta c b) = c_dim c.
Proof. reflexivity. Qed.

Lemma step_agrees change P c0 : change_agrees change P c0 ->
  forall b s target st st' c' q x,
  W (r_world st) -> plain_view (r_world st) s = Some q -> rs_dim q = c_dim c0 ->
  compile_step g eps change s target (st, set_beta c0 b) = ((st', c'), Ok x) ->
  let b' := Rmin (b + c_rate c0) (c_max_beta c0) in
  c' = set_beta c0 b' /\ exists pr q', P (rp_change pr) /\ metropolis_rule b' (rp_accept pr) /\
    r_compile_step ex eps target pr q = Ok (q', x) /\ plain_view (r_world st') s = Some q' /\
    W (r_world st') /\ rs_dim q' = c_dim c0.
Proof.
  intros HC b s target st st' c' q x HW V D H b'. unfold compile_step in H.
  apply bind_ok in H. destruct H as (u0 & [sta ca] & H0 & H).
  unfold anneal in H0. cbn [fst snd set_beta c_beta c_rate c_max_beta] in H0. injection H0 as <- <- _.
  fold b' in H.
  apply bind_ok in H. destruct H as (pb & [st1 c1] & H1 & H).
  apply c_run_inv in H1. destruct H1 as [H1 ->]. apply call_unitary_ok in H1. destruct H1 as [H1 _].
  destruct (keep_agree _ _ _ _ _ HW V H1) as (q1 & K1 & V1 & HW1 & D1).
  apply bind_ok in H. destruct H as ([] & [st2 c2] & H2 & H).
  change (set_beta (set_beta c0 b) b') with (set_beta c0 b') in H2.
  destruct (HC b' s st1 st2 c2 q1 HW1 V1 (eq_trans D1 D) H2) as (-> & ch & q2 & Pch & R2 & V2 & HW2).
  apply bind_ok in H. destruct H as (cur & st2' & H3 & H). apply lift_ok in H3. destruct H3 as [-> H3].
  apply bind_ok in H. destruct H as (pp & [st3 c3] & H4 & H).
  apply c_run_inv in H4. destruct H4 as [H4 ->]. apply call_unitary_ok in H4. destruct H4 as [H4 _].
  destruct (keep_agree _ _ _ _ _ HW2 V2 H4) as (q3 & K3 & V3 & HW3 & D3).
  apply bind_ok in H. destruct H as (prop & st3' & H5 & H). apply lift_ok in H5. destruct H5 as [-> H5].
  apply bind_ok in H. destruct H as (acc & [st4 c4] & H6 & H).
  unfold accept_proposed_change in H6. apply bind_ok in H6. destruct H6 as (cc & stc & H6 & H7).
  unfold c_self in H6. injection H6 as <- <-. cbn [snd] in H7.
  apply bind_ok in H7. destruct H7 as (r & [st5 c5] & H7 & H8). apply c_run_inv in H7. destruct H7 as [H7 ->].
  unfold draw_unif in H7. injection H7 as <- <-.
  apply ret_ok in H8. destruct H8 as [H8 ->]. injection H8 as -> ->.
  assert (RU := proj1 RG (r_draws st3)).
  set (r := g_unif g (r_draws st3)) in *.
  set (pr := {| rp_change := ch; rp_accept := fun current proposed => Rltb r (metropolis b' (proposed - current)) |}).
  assert (MR : metropolis_rule b' (rp_accept pr)).
  { exists r. split; [exact RU|]. intros cur0 prop0. apply Rltb_spec. }
  assert (E : r_compile_step ex eps target pr q =
    if rp_accept pr cur prop then Ok (q3, prop) else bind (r_step ex eps q3 RUndo) (fun q4 => Ok (q4, cur))).
  { unfold r_compile_step. rewrite K1. cbn [bind fst snd]. cbn [pr rp_change]. rewrite R2. cbn [bind].
    rewrite r_distance_exact, H3. cbn [bind]. rewrite K3. cbn [bind fst snd]. rewrite r_distance_exact, H5. reflexivity. }
  change (Rltb r (Rmin 1 (exp (- c_beta (set_beta c0 b') * (prop - cur))))) with (rp_accept pr cur prop) in H.
  destruct (rp_accept pr cur prop) eqn:AC.
  - apply ret_ok in H. destruct H as [H ->]. injection H as -> ->. split; [reflexivity|].
    exists pr, q3. split; [exact Pch|]. split; [exact MR|]. split; [exact E|]. split; [exact V3|]. split; [exact HW3|].
    rewrite D3, (r_run_dim _ _ _ R2), D1. exact D.
  - apply bind_ok in H. destruct H as (v & [st6 c6] & H6 & H).
    apply c_run_inv in H6. destruct H6 as [H6 ->]. apply ret_ok in H. destruct H as [H ->]. injection H as -> ->.
    split; [reflexivity|]. apply call_ok in H6. destruct H6 as [H6 _].
    destruct (call_agree _ _ _ _ _ _ _ HW3 V3 (same_undo _ s) H6) as (q4 & Q4 & V4 & HW4 & _).
    rewrite Q4 in E. exists pr, q4. split; [exact Pch|]. split; [exact MR|]. split; [exact E|]. split; [exact V4|].
    split; [exact HW4|]. rewrite (r_step_dim _ _ _ Q4), D3, (r_run_dim _ _ _ R2), D1. exact D.
Qed.

Lemma beta_next c k :
  beta_in_step (set_beta c (Rmin (c_beta c + c_rate c) (c_max_beta c))) k = beta_in_step c (S k).
Proof. induction k as [|k IH]; [reflexivity|]. cbn [beta_in_step] in *. rewrite IH. reflexivity. Qed.

Lemma close_agrees u v t : u_close_to eps u v t = bind (r_distance_from ex eps u v) (fun x => Ok (close_at t x)).
Proof. rewrite r_distance_exact. unfold u_close_to. destruct (u_distance_from eps u v), t; reflexivity. Qed.

Lemma loop_agrees change P c0 : (forall b, change_agrees change P (set_beta c0 b)) ->
  forall s target threshold K fuel b costs st st' c' q res,
  W (r_world st) -> plain_view (r_world st) s = Some q -> rs_dim q = c_dim c0 ->
  compile_loop g eps change s target threshold K costs fuel (st, set_beta c0 b) = ((st', c'), Ok res) ->
  exists steps new q', res = costs ++ new /\ List.length steps = List.length new /\
    r_compile_loop ex eps target (close_at threshold) steps q = Ok (q', new) /\
    plain_view (r_world st') s = Some q' /\
    forall k pr, nth_error steps k = Some pr ->
      P (rp_change pr) /\ metropolis_rule (beta_in_step (set_beta c0 b) k) (rp_accept pr).
Proof.
  intros HC s target threshold K. induction fuel as [|fuel IH]; intros b costs st st' c' q res HW V D H; cbn [compile_loop] in H.
  { discriminate. }
  apply bind_ok in H. destruct H as (p & [st1 c1] & H1 & H).
  apply c_run_inv in H1. destruct H1 as [H1 ->]. apply call_unitary_ok in H1. destruct H1 as [H1 _].
  destruct (keep_agree _ _ _ _ _ HW V H1) as (q1 & K1 & V1 & HW1 & D1).
  apply bind_ok in H. destruct H as (cl & st1' & H2 & H). apply lift_ok in H2. destruct H2 as [-> H2].
  rewrite close_agrees in H2. destruct (r_distance_from ex eps p target) as [x|e] eqn:RD; [|discriminate].
  cbn [bind] in H2. injection H2 as <-.
  assert (E : forall steps, r_compile_loop ex eps target (close_at threshold) steps q =
    if close_at threshold x then Ok (q1, []) else
    match steps with
    | [] => Ok (q1, [])
    | s :: t => bind (r_compile_step ex eps target s q1) (fun qc =>
        bind (r_compile_loop ex eps target (close_at threshold) t (fst qc)) (fun rest => Ok (fst rest, snd qc :: snd rest)))
    end).
  { intros steps. destruct steps; cbn [r_compile_loop]; rewrite K1; cbn [bind fst snd]; rewrite RD; reflexivity. }
  assert (Z : se_ret costs (st1, set_beta c0 b) = ((st', c'), Ok res) ->
    (forall steps, steps = [] -> r_compile_loop ex eps target (close_at threshold) steps q = Ok (q1, [])) ->
    exists steps new q', res = costs ++ new /\ List.length steps = List.length new /\
    r_compile_loop ex eps target (close_at threshold) steps q = Ok (q', new) /\
    plain_view (r_world st') s = Some q' /\
    forall k pr, nth_error steps k = Some pr ->
      P (rp_change pr) /\ metropolis_rule (beta_in_step (set_beta c0 b) k) (rp_accept pr)).
  { intros Hr Hq. apply ret_ok in Hr. destruct Hr as [Hr ->]. injection Hr as -> ->.
    exists [], [], q1. split; [symmetry; apply app_nil_r|]. split; [reflexivity|]. split; [now apply Hq|].
    split; [exact V1|]. intros [|k] pr Hk; discriminate. }
  destruct (close_at threshold x) eqn:CL.
  { apply Z; [exact H|]. intros steps ->. rewrite E. reflexivity. }
  destruct (Z.ltb (Z.of_nat (List.length costs)) K).
  2:{ apply Z; [exact H|]. intros steps ->. rewrite E. reflexivity. }
  clear Z. apply bind_ok in H. destruct H as (y & [st2 c2] & H3 & H).
  destruct (step_agrees change P (set_beta c0 b) (HC b) b s target st1 st2 c2 q1 y HW1 V1 (eq_trans D1 D) H3)
    as (-> & pr & q2 & P1 & P2 & P3 & V2 & HW2 & D2).
  cbn [set_beta c_rate c_max_beta] in *. set (b' := Rmin (b + c_rate c0) (c_max_beta c0)) in *.
  change (set_beta (set_beta c0 b) b') with (set_beta c0 b') in H.
  destruct (IH b' _ _ _ _ _ _ HW2 V2 D2 H) as (steps & new & q' & -> & L & R & V3 & B).
  exists (pr :: steps), (y :: new), q'. split; [now rewrite <- app_assoc|]. split; [cbn; now rewrite L|].
  split; [|split; [exact V3|]].
  - rewrite E, P3. cbn [bind fst snd]. rewrite R. reflexivity.
  - intros [|k] pr' Hk; cbn [nth_error] in Hk.
    + injection Hk as <-. split; [exact P1|]. exact P2.
    + destruct (B k pr' Hk) as [B1 B2]. split; [exact B1|].
      rewrite <- beta_next. exact B2.
Qed.

Lemma with_agrees change P c0 : (forall b, change_agrees change P (set_beta c0 b)) ->
  forall target threshold K st st' c' s costs,
  W (r_world st) ->
  compile_with g eps change target threshold K (st, c0) = ((st', c'), Ok (s, costs)) ->
  exists steps q, List.length steps = List.length costs /\
    r_compile ex eps (c_dim c0) target (close_at threshold) steps = Ok (q, costs) /\
    plain_view (r_world st') s = Some q /\
    forall k pr, nth_error steps k = Some pr ->
      P (rp_change pr) /\ metropolis_rule (beta_in_step c0 k) (rp_accept pr).
Proof.
  intros HC target threshold K st st' c' s costs HW H. unfold compile_with in H.
  apply bind_ok in H. destruct H as (c & stc & H0 & H). unfold c_self in H0. injection H0 as <- <-. cbn [snd] in H.
  apply bind_ok in H. destruct H as (s1 & [st1 c1] & H1 & H).
  apply c_run_inv in H1. destruct H1 as [H1 ->]. apply call_sequence_ok in H1. destruct H1 as [H1 _].
  assert (E : step eps (NewSequence (c_dim c0) false []) (r_world st) =
    ({| w_heap := w_heap (r_world st); w_seqs := w_seqs (r_world st) ++
    [{| s_dim := c_dim c0; s_array := false; s_entries := []; s_product := None; s_prev_entries := None;
        s_prev_product := None |}] |}, Ok (VSequence (List.length (w_seqs (r_world st)))))) by reflexivity.
  assert (HW1 : W (r_world st1)).
  { pose proof (W_step eps (NewSequence (c_dim c0) false []) _ HW) as X. now rewrite H1 in X. }
  rewrite E in H1. injection H1 as H1 <-.
  assert (V1 : plain_view (r_world st1) (List.length (w_seqs (r_world st))) = Some (r_empty (c_dim c0))).
  { rewrite <- H1. unfold plain_view. cbn [w_seqs w_heap]. rewrite nth_error_app2, Nat.sub_diag by lia. reflexivity. }
  apply bind_ok in H. destruct H as (costs1 & [st2 c2] & H2 & H). apply ret_ok in H. destruct H as [H3 H4].
  injection H3 as -> ->. injection H4 as -> ->.
  rewrite <- (set_beta_same c0) in H2.
  destruct (loop_agrees change P c0 HC _ _ _ _ _ _ _ _ _ _ _ _ HW1 V1 eq_refl H2) as (steps & new & q' & -> & L & R & V2 & B).
  exists steps, q'. split; [exact L|]. split; [exact R|]. split; [exact V2|].
  now rewrite (set_beta_same c0) in B.
Qed.

Theorem compile_agrees target threshold K st c st' c' s costs :
  reachable eps (r_world st) ->
  compile g eps target threshold K (st, c) = ((st', c'), Ok (s, costs)) ->
  exists steps q, List.length steps = List.length costs /\
    r_compile ex eps (c_dim c) target (close_at threshold) steps = Ok (q, costs) /\
    plain_view (r_world st') s = Some q /\
    forall k pr, nth_error steps k = Some pr ->
      drawn_change eps c (rp_change pr) /\ metropolis_rule (beta_in_step c k) (rp_accept pr).
Proof.
  intros [os EW] H. unfold compile in H. apply bind_ok in H. destruct H as (c1 & stc & H0 & H).
  unfold c_self in H0. injection H0 as <- <-. cbn [snd] in H.
  apply bind_ok in H. destruct H as ([] & st1 & H1 & H). apply lift_ok in H1. destruct H1 as [-> _].
  eapply with_agrees; [|rewrite EW; apply W_exec|exact H]. intros b. exact (single_agrees (set_beta c b)).
Qed.

Theorem layered_compile_agrees target counts threshold K st c st' c' s costs :
  reachable eps (r_world st) ->
  compile_layered g eps target counts threshold K (st, c) = ((st', c'), Ok (s, costs)) ->
  exists steps q, List.length steps = List.length costs /\
    r_compile ex eps (c_dim c) target (close_at threshold) steps = Ok (q, costs) /\
    plain_view (r_world st') s = Some q /\
    forall k pr, nth_error steps k = Some pr ->
      drawn_layer eps (c_dim c) counts (rp_change pr) /\ metropolis_rule (beta_in_step c k) (rp_accept pr).
Proof.
  intros [os EW] H. unfold compile_layered in H.
  eapply with_agrees; [|rewrite EW; apply W_exec|exact H]. intros b. exact (layered_agrees (set_beta c b) counts).
Qed.
End Agree.
