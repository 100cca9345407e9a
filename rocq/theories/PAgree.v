(** The object model and the model on plain lists agree: calls. *)
From Coq Require Import Reals List Arith Lia Lra Bool String ZArith Permutation.
From Coquelicot Require Import Complex.
From Verif Require Import Base CMat Det CRoot ModelUnitary ModelEntry ModelPrimitive ModelSequence ModelCompiler
  ModelRound ModelRoundComp Spec SpecModel SpecCompiler SpecAgree PUnitary PEntry PSeqHeap PSeqMeth PSeqWorld
  PSeqUndo PCompView PCompRun PCompEntry PCompLoop.
Import ListNotations.
Open Scope R_scope.
Open Scope C_scope.
Open Scope list_scope.
Open Scope se_scope.

Lemma said_gates h ls : said h ls = gates h ls.
Proof. reflexivity. Qed.

Section Agree.
Variable eps : R.
Notation W := (WG eps anyg).
Notation ex := exact_arith.

(** Only the state of one sequence. *)
Definition rview (h : heap) (q : sequence) : rseq :=
  {| rs_dim := s_dim q; rs_entries := gates h (s_entries q); rs_product := s_product q;
     rs_prev := option_map (gates h) (s_prev_entries q); rs_prev_product := s_prev_product q |}.

Lemma plain_view_iff w s q : plain_view w s = Some q <->
  exists sq, nth_error (w_seqs w) s = Some sq /\ s_array sq = false /\ q = rview (w_heap w) sq.
Proof.
  unfold plain_view. destruct (nth_error (w_seqs w) s) as [sq|].
  2:{ split; [discriminate|]. intros (? & ? & _). discriminate. }
  destruct (s_array sq) eqn:A.
  - split; [discriminate|]. intros (? & E & B & _). injection E as <-. congruence.
  - split.
    + intros H. injection H as <-. exists sq. split; [reflexivity|]. split; [exact A|reflexivity].
    + intros (sq' & E & _ & ->). injection E as <-. reflexivity.
Qed.

Lemma r_unitary_exact d m nm ps iv ap : r_unitary ex eps d m nm ps iv ap = mk_unitary eps d m nm ps iv ap.
Proof. reflexivity. Qed.
Lemma r_inverse_exact u : r_inverse ex eps u = u_inverse eps u.
Proof. reflexivity. Qed.
Lemma r_left_exact u v : r_left_multiply ex eps u v = u_left_multiply eps u v.
Proof. reflexivity. Qed.
Lemma r_right_exact u v : r_right_multiply ex eps u v = u_right_multiply eps u v.
Proof. reflexivity. Qed.

Lemma r_full_exact gt d : r_full ex eps gt d = full_pure eps d gt.
Proof.
  unfold r_full, full_pure, get_full_unitary, e_dim. cbn [e_unitary e_cache cache_get].
  destruct (assert (Nat.leb (u_dim (fst gt)) d)) as [[]|x]; [|reflexivity]. cbn [bind].
  unfold compute_full_unitary, e_dim. cbn [e_unitary e_apply].
  change (r_identity ex eps) with (u_identity eps). change (r_tensor ex eps) with (u_tensor eps).
  change (r_unitary ex eps) with (mk_unitary eps).
  match goal with |- ?a = snd match ?b with _ => _ end => change a with b; destruct b; reflexivity end.
Qed.

Lemma r_distance_exact u v : r_distance_from ex eps u v = u_distance_from eps u v.
Proof.
  unfold r_distance_from, u_distance_from, u_distance_from_array, square. cbn [nrows ncols elt].
  rewrite andb_diag. reflexivity.
Qed.

Lemma rview_ext h h' q : heap_ext h h' -> seq_rng h q -> rview h' q = rview h q.
Proof.
  intros X [R1 R2]. unfold rview. f_equal.
  - now apply gates_ext.
  - now apply opt_gates_ext.
Qed.

Ltac fields := unfold rview; cbn [s_dim s_array s_entries s_product s_prev_entries s_prev_product
  rs_dim rs_entries rs_product rs_prev rs_prev_product set_prev_entries set_prev_product set_entries
  set_product option_map fst snd].

(** Saving. *)
Lemma save_agree sv h sq : G eps anyg h sq -> s_array sq = false ->
  match r_save ex eps sv (rview h sq) with
  | Ok q1 => exists h1 sq1, m_save eps sv (h, sq) = ((h1, sq1), Ok tt) /\ q1 = rview h1 sq1 /\
      heap_ext h h1 /\ G eps anyg h1 sq1 /\ s_array sq1 = false /\ s_entries sq1 = s_entries sq /\ s_dim sq1 = s_dim sq
  | Raise x => exists st1, m_save eps sv (h, sq) = (st1, Raise x)
  end.
Proof.
  intros HG A. destruct sv; cbn [r_save m_save].
  2:{ exists h, sq. repeat (split; [solve [reflexivity|apply heap_ext_refl|auto]|]). reflexivity. }
  destruct (save_spec eps anyg h sq HG) as (h1 & ls & X & O1 & I1 & G1 & _ & E).
  rewrite E. destruct HG as [Hok [R1 R2]].
  assert (I2 : in_heap h1 (s_entries sq)) by (eapply in_heap_ext; eauto).
  assert (V : gates h1 (s_entries sq) = gates h (s_entries sq)) by now apply gates_ext.
  cbn [rview rs_product]. destruct (s_product sq) as [p|] eqn:P.
  - change (r_unitary ex eps (u_dim p) (Some (square (u_dim p) (u_mat p))) None [] false []) with (rewrap eps p).
    destruct (rewrap eps p) as [p'|x]; cbn [bind]; [|eexists; reflexivity].
    eexists _, _. split; [reflexivity|]. split.
    + fields. rewrite V, G1, P. reflexivity.
    + split; [exact X|]. split; [|auto]. split; [exact O1|]. split; cbn; [exact I2|].
      intros ls0 [= <-]. exact I1.
  - cbn [bind]. eexists _, _. split; [reflexivity|]. split.
    + fields. rewrite V, G1, P. reflexivity.
    + split; [exact X|]. split; [|auto]. split; [exact O1|]. split; cbn; [exact I2|].
      intros ls0 [= <-]. exact I1.
Qed.

(** The common shape of the mutators. *)
Lemma mutate_agree l sv f upd es h sq :
  G eps anyg h sq -> s_array sq = false -> (l < List.length h)%nat ->
  (forall h', heap_ext h h' -> gates h' (f (s_entries sq)) = es) ->
  match bind (r_save ex eps sv (rview h sq)) (fun q1 =>
          r_set q1 es (fun p => bind (r_full ex eps (gate (obj h l)) (s_dim sq)) (fun u => upd p u))) with
  | Ok q' => exists h' sq', mutate eps l sv f upd (h, sq) = ((h', sq'), Ok tt) /\ q' = rview h' sq' /\ s_array sq' = false
  | Raise x => exists st1, mutate eps l sv f upd (h, sq) = (st1, Raise x)
  end.
Proof.
  intros HG A L F. pose proof (save_agree sv h sq HG A) as S.
  assert (M : mutate eps l sv f upd (h, sq) = match m_save eps sv (h, sq) with
      | (st1, Ok _) => (m_change_list f ;;; s <-- m_self ;;
          match s_product s with
          | Some p => u <-- m_heap (h_full eps l (s_dim s)) ;; p' <-- se_lift (upd p u) ;;
                      m_upd (fun s => set_product s (Some p'))
          | None => se_ret tt
          end) st1
      | (st1, Raise x) => (st1, Raise x) end) by reflexivity.
  rewrite M. clear M.
  destruct (r_save ex eps sv (rview h sq)) as [q1|x].
  2:{ destruct S as (st1 & ->). cbn [bind]. eexists; reflexivity. }
  destruct S as (h1 & sq1 & -> & -> & X & G1 & A1 & E1 & D1). cbn [bind].
  unfold m_change_list, se_bind, m_self, m_upd. cbn [snd fst]. rewrite A1. cbn [snd fst set_entries s_product s_dim].
  unfold r_set. cbn [rview rs_product rs_dim rs_prev rs_prev_product].
  destruct (s_product sq1) as [p|] eqn:P.
  2:{ eexists _, _. split; [reflexivity|]. split; [|exact A1]. fields. rewrite P, E1, (F _ X). reflexivity. }
  unfold m_heap. cbn [fst snd].
  destruct (h_full_spec eps anyg l (s_dim sq1) h1) as (h2 & E2 & X2 & O2 & L2).
  { apply G1. } { destruct X as [X _]. lia. }
  rewrite E2. rewrite r_full_exact. rewrite D1. destruct X as [X0 X1]. rewrite (X1 l L).
  destruct (full_pure eps (s_dim sq) (gate (obj h l))) as [u|x]; cbn [bind]; [|eexists; reflexivity].
  unfold se_lift. destruct (upd p u) as [p'|x]; cbn [bind]; [|eexists; reflexivity].
  eexists _, _. split; [reflexivity|]. split; [|exact A1]. fields.
  rewrite E1. rewrite (F h2) by (eapply heap_ext_trans; [split; eauto|exact X2]).
  rewrite (opt_gates_ext h1 h2) by (auto; apply G1). rewrite ?D1; reflexivity.
Qed.

Lemma product_loop_agree d : forall ls acc h, heap_ok eps anyg h -> in_heap h ls ->
  exists h', product_loop eps d ls acc h = (h', r_fold ex eps d (gates h ls) acc) /\ heap_ext h h' /\ heap_ok eps anyg h'.
Proof.
  induction ls as [|l t IH]; intros acc h O I.
  - exists h. split; [reflexivity|]. split; [apply heap_ext_refl|exact O].
  - apply in_heap_cons in I. destruct I as [L I].
    destruct (h_full_spec eps anyg l d h O L) as (h1 & E1 & X1 & O1 & _).
    cbn [product_loop gates map r_fold]. rewrite r_full_exact. unfold se_bind at 1. rewrite E1.
    destruct (full_pure eps d (gate (obj h l))) as [u|x]; cbn [bind]; [|exists h1; auto].
    unfold se_bind at 1, se_lift.
    change (r_left_multiply ex eps acc u) with (u_left_multiply eps acc u).
    destruct (u_left_multiply eps acc u) as [acc'|x]; cbn [bind]; [|exists h1; auto].
    destruct (IH acc' h1 O1) as (h2 & E2 & X2 & O2); [eapply in_heap_ext; eauto|].
    exists h2. rewrite E2. rewrite (gates_ext h h1) by auto. split; [reflexivity|].
    split; [eapply heap_ext_trans; eauto|exact O2].
Qed.

Lemma product_agree h sq : G eps anyg h sq ->
  match r_product ex eps (rview h sq) with
  | Ok p => exists h', product eps (h, sq) = ((h', set_product sq (Some p)), Ok p) /\ heap_ext h h'
  | Raise x => exists st1, product eps (h, sq) = (st1, Raise x)
  end.
Proof.
  intros [O [R1 R2]]. unfold r_product, product, se_bind, m_self. cbn [snd rview rs_product rs_dim rs_entries].
  destruct (s_product sq) as [p|] eqn:P.
  - exists h. split; [|apply heap_ext_refl]. unfold se_ret. destruct sq; cbn in *. now rewrite P.
  - change (r_unitary ex eps (s_dim sq) None None [] false []) with (mk_unitary eps (s_dim sq) None None [] false []).
    unfold se_lift. destruct (mk_unitary eps (s_dim sq) None None [] false []) as [p0|x]; cbn [bind]; [|eexists; reflexivity].
    destruct (product_loop_agree (s_dim sq) (s_entries sq) p0 h O R1) as (h1 & E1 & X1 & _).
    unfold m_heap. cbn [fst snd]. rewrite E1. destruct (r_fold ex eps (s_dim sq) (gates h (s_entries sq)) p0) as [p|x]; [|eexists; reflexivity].
    exists h1. split; [reflexivity|exact X1].
Qed.

Lemma on_seq_run {A} s (m : meth A) w sq h' sq' r :
  nth_error (w_seqs w) s = Some sq -> m (w_heap w, sq) = ((h', sq'), r) ->
  on_seq s m w = ({| w_heap := h'; w_seqs := list_set (w_seqs w) s sq' |}, r) /\
  nth_error (list_set (w_seqs w) s sq') s = Some sq'.
Proof.
  intros E M. unfold on_seq. rewrite E, M. split; [reflexivity|].
  rewrite (nth_error_list_set _ _ _ _ _ E), Nat.eqb_refl. reflexivity.
Qed.

Lemma removelast_rev {A} (l : list A) x t : rev l = x :: t -> removelast l = rev t /\ l = rev t ++ [x].
Proof.
  intros H. assert (E : l = rev t ++ [x]) by (rewrite <- (rev_involutive l), H; reflexivity).
  split; [|exact E]. rewrite E. apply removelast_last.
Qed.

(** The calls that return nothing. *)
Lemma finish w s sq (m : meth unit) (rr : res rseq) :
  nth_error (w_seqs w) s = Some sq ->
  match rr with
  | Ok q' => exists h' sq', m (w_heap w, sq) = ((h', sq'), Ok tt) /\ q' = rview h' sq' /\ s_array sq' = false
  | Raise x => exists st1, m (w_heap w, sq) = (st1, Raise x)
  end ->
  match rr with
  | Ok q' => exists w', (on_seq s m ;;; se_ret VNone) w = (w', Ok VNone) /\ plain_view w' s = Some q'
  | Raise x => exists w', (on_seq s m ;;; se_ret VNone) w = (w', Raise x)
  end.
Proof.
  intros E H. destruct rr as [q'|x].
  - destruct H as (h' & sq' & M & -> & A). destruct (on_seq_run s m w sq h' sq' _ E M) as [E1 E2].
    unfold se_bind. rewrite E1. eexists. split; [reflexivity|]. apply plain_view_iff. exists sq'. auto.
  - destruct H as ([h' sq'] & M). destruct (on_seq_run s m w sq h' sq' _ E M) as [E1 E2].
    unfold se_bind. rewrite E1. eauto.
Qed.

Lemma step_agree w s q o m : W w -> plain_view w s = Some q -> same_call w s o m ->
  match r_step ex eps q m with
  | Ok q' => exists w', step eps o w = (w', match m with RProduct => bind (r_product ex eps q) (fun p => Ok (VUnitary p))
                                                  | _ => Ok VNone end) /\ plain_view w' s = Some q'
  | Raise x => exists w', step eps o w = (w', Raise x)
  end.
Proof.
  intros HW V S. apply plain_view_iff in V. destruct V as (sq & E & A & ->).
  assert (HG := WG_G eps anyg w s sq HW E).
  destruct S as [l sv L|l sv L|sv|sv| |].
  - rewrite step_append_first. destruct (Nat.ltb_spec l (List.length (w_heap w))); [|lia].
    apply (finish w s sq (append_first eps l sv)); [exact E|]. rewrite append_first_eq. cbn [r_step].
    change (r_valid (rview (w_heap w) sq) (e_unitary (obj (w_heap w) l), e_apply (obj (w_heap w) l)))
      with (entry_valid (s_dim sq) (obj (w_heap w) l)).
    destruct (entry_valid (s_dim sq) (obj (w_heap w) l)); cbn [assert bind]; [|eexists; reflexivity].
    pose proof (mutate_agree l sv (fun ls => l :: ls) (upd_first eps) (gate (obj (w_heap w) l) :: gates (w_heap w) (s_entries sq)) (w_heap w) sq HG A L) as M.
    assert (F : forall h', heap_ext (w_heap w) h' -> gates h' (l :: s_entries sq) = gate (obj (w_heap w) l) :: gates (w_heap w) (s_entries sq)).
    { intros h' X. change (gates h' (l :: s_entries sq)) with (gate (obj h' l) :: gates h' (s_entries sq)).
      rewrite (gates_ext (w_heap w) h' (s_entries sq)) by (auto; exact (proj1 (proj2 HG))). now rewrite (proj2 X l L). }
    specialize (M F). pose proof (save_agree sv (w_heap w) sq HG A) as SV.
    destruct (r_save ex eps sv (rview (w_heap w) sq)) as [q1|x]; cbn [bind] in *; [|exact M].
    destruct SV as (h1 & sq1 & _ & -> & X & _ & _ & E1 & _).
    cbn [rview rs_entries rs_dim]. rewrite E1, (gates_ext (w_heap w) h1) by (auto; exact (proj1 (proj2 HG))). exact M.
  - rewrite step_append_last. destruct (Nat.ltb_spec l (List.length (w_heap w))); [|lia].
    apply (finish w s sq (append_last eps l sv)); [exact E|]. rewrite append_last_eq. cbn [r_step].
    change (r_valid (rview (w_heap w) sq) (e_unitary (obj (w_heap w) l), e_apply (obj (w_heap w) l)))
      with (entry_valid (s_dim sq) (obj (w_heap w) l)).
    destruct (entry_valid (s_dim sq) (obj (w_heap w) l)); cbn [assert bind]; [|eexists; reflexivity].
    pose proof (mutate_agree l sv (fun ls => ls ++ [l]) (upd_last eps) (gates (w_heap w) (s_entries sq) ++ [gate (obj (w_heap w) l)]) (w_heap w) sq HG A L) as M.
    assert (F : forall h', heap_ext (w_heap w) h' -> gates h' (s_entries sq ++ [l]) = gates (w_heap w) (s_entries sq) ++ [gate (obj (w_heap w) l)]).
    { intros h' X. rewrite gates_app, (gates_ext (w_heap w) h' (s_entries sq)) by (auto; exact (proj1 (proj2 HG))).
      change (gates h' [l]) with [gate (obj h' l)]. now rewrite (proj2 X l L). }
    specialize (M F). pose proof (save_agree sv (w_heap w) sq HG A) as SV.
    destruct (r_save ex eps sv (rview (w_heap w) sq)) as [q1|x]; cbn [bind] in *; [|exact M].
    destruct SV as (h1 & sq1 & _ & -> & X & _ & _ & E1 & _).
    cbn [rview rs_entries rs_dim]. rewrite E1, (gates_ext (w_heap w) h1) by (auto; exact (proj1 (proj2 HG))). exact M.
  - cbn [step]. apply (finish w s sq (remove_first eps sv)); [exact E|]. rewrite remove_first_eq. cbn [r_step rview rs_entries].
    destruct (s_entries sq) as [|l t] eqn:Q; cbn [gates map].
    + eexists _, _. split; [reflexivity|]. split; [unfold rview; rewrite Q; reflexivity|exact A].
    + assert (L : (l < List.length (w_heap w))%nat) by (apply (proj1 (proj2 HG)); rewrite Q; simpl; auto).
      pose proof (mutate_agree l sv (@tl nat) (upd_unfirst eps) (gates (w_heap w) t) (w_heap w) sq HG A L) as M.
      assert (F : forall h', heap_ext (w_heap w) h' -> gates h' (tl (s_entries sq)) = gates (w_heap w) t).
      { intros h' X. rewrite Q. cbn [tl]. apply gates_ext; [exact X|].
        intros x Hx. apply (proj1 (proj2 HG)). rewrite Q. simpl; auto. }
      exact (M F).
  - cbn [step]. apply (finish w s sq (remove_last eps sv)); [exact E|]. rewrite remove_last_eq. cbn [r_step rview rs_entries].
    change (rev (gates (w_heap w) (s_entries sq))) with (rev (map (fun l => gate (obj (w_heap w) l)) (s_entries sq))).
    rewrite <- map_rev.
    destruct (rev (s_entries sq)) as [|l t] eqn:Q; cbn [map].
    + eexists _, _. split; [reflexivity|]. split; [reflexivity|exact A].
    + destruct (removelast_rev _ _ _ Q) as [Q1 Q2].
      assert (L : (l < List.length (w_heap w))%nat) by (apply (proj1 (proj2 HG)); rewrite Q2; apply in_or_app; simpl; auto).
      pose proof (mutate_agree l sv (@removelast nat) (upd_unlast eps) (gates (w_heap w) (rev t)) (w_heap w) sq HG A L) as M.
      assert (F : forall h', heap_ext (w_heap w) h' -> gates h' (removelast (s_entries sq)) = gates (w_heap w) (rev t)).
      { intros h' X. rewrite Q1. apply gates_ext; [exact X|].
        intros x Hx. apply (proj1 (proj2 HG)). rewrite Q2. apply in_or_app; auto. }
      specialize (M F). rewrite <- map_rev in *. exact M.
  - cbn [step]. apply (finish w s sq undo); [exact E|]. cbn [r_step rview rs_prev].
    unfold undo, se_bind, m_self, m_upd. cbn [fst snd].
    destruct (s_prev_entries sq) as [ls|]; cbn [option_map]; [|eexists; reflexivity].
    eexists _, _. split; [reflexivity|]. split; [reflexivity|exact A].
  - cbn [step r_step]. pose proof (product_agree (w_heap w) sq HG) as P. unfold se_bind.
    destruct (r_product ex eps (rview (w_heap w) sq)) as [p|x]; cbn [bind].
    + destruct P as (h' & P & X). destruct (on_seq_run s (product eps) w sq _ _ _ E P) as [E1 E2]. rewrite E1.
      eexists. split; [reflexivity|]. apply plain_view_iff. eexists. split; [exact E2|]. split; [exact A|].
      fields. destruct HG as [_ [R1 R2]].
      rewrite (gates_ext (w_heap w) h'), (opt_gates_ext (w_heap w) h') by auto. reflexivity.
    + destruct P as ([h' sq'] & P). destruct (on_seq_run s (product eps) w sq _ _ _ E P) as [E1 E2]. rewrite E1. eauto.
Qed.
End Agree.
