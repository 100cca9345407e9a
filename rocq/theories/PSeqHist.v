(** Histories of calls: the invariant along every history, and undo. *)
From Coq Require Import Reals List Arith Lia Lra Bool String ZArith.
From Coquelicot Require Import Complex.
From Verif Require Import Base CMat CMatFacts Det DetFacts CRoot Norms ModelUnitary ModelEntry
  ModelSequence Spec SpecModel PUnitary PBits PEmbed PEntry PDrift PSeqHeap PSeqMeth PSeqNear PSeqWorld
  PSeqInv.
Import ListNotations.
Open Scope R_scope.
Open Scope C_scope.
Open Scope se_scope.

Section Hist.
Variable eps : R.
Hypothesis eps0 : (0 <= eps)%R.
Hypothesis eps1 : (eps <= 1)%R.
Variable b : bool.

Notation Pg := (gok eps b).
Notation near := (nearb eps b).
Notation lim := (limb eps b).
Notation G := (G eps Pg).
Notation WG := (WG eps Pg).
Notation uc := (unit_cost b).
Notation sat := (sat eps b).
Notation winv := (winv eps b).

Lemma mutate_array n K l sv f upd h q :
  G h q -> s_array q = true -> lim n (uc * S K) -> sat n K h q ->
  exists h' q', mutate eps l sv f upd (h, q) = ((h', q'), Raise AttributeError) /\ sat n (S K) h' q'.
Proof.
  intros HG Ha HL HS. unfold mutate. unfold se_bind at 1.
  destruct (save_sat eps eps0 eps1 b n K sv h q HG HL HS) as (h1 & q1 & E1 & X1 & G1 & S1 & D1 & A1 & L1 & P1).
  rewrite E1. unfold se_bind at 1. unfold m_change_list. unfold se_bind at 1. cbn [m_self snd].
  rewrite A1, Ha. exists h1, q1. split; [reflexivity|auto].
Qed.

Lemma winv_on_seq {A} K K' s (m : meth A) w q :
  (K <= K')%nat -> winv K w -> nth_error (w_seqs w) s = Some q ->
  (exists h' q' r, m (w_heap w, q) = ((h', q'), r) /\ heap_ext (w_heap w) h' /\ G h' q' /\
     s_dim q' = s_dim q) ->
  (forall n, s_dim q = (2 ^ n)%nat -> lim n (uc * K') -> sat n K (w_heap w) q ->
     exists h' q' r, m (w_heap w, q) = ((h', q'), r) /\ sat n K' h' q') ->
  winv K' (fst (on_seq s m w)).
Proof.
  intros HK HW Es (h' & q' & r & E & X & GG & D) HS.
  destruct (on_seq_frame eps Pg s m w q (proj1 HW) Es) as (W1 & _).
  { exists h', q', r. auto. }
  split; auto. unfold on_seq in W1 |- *. rewrite Es, E in W1 |- *. cbn [fst w_seqs w_heap] in *.
  intros t p n Ht Hd HL. rewrite (nth_error_list_set _ _ _ _ _ Es) in Ht.
  assert (HL1 : lim n (uc * K)) by (eapply limb_mono; [exact eps0|exact eps1| |exact HL]; nia).
  destruct (Nat.eqb_spec s t) as [<-|Hne].
  - injection Ht as <-. rewrite D in Hd.
    destruct (HS n Hd HL) as (h1 & q1 & r1 & E1 & S1).
    + apply (proj2 HW s q n); auto.
    + rewrite E in E1. injection E1 as <- <- <-. auto.
  - apply sat_mono with (K := K); auto. eapply sat_ext; [exact X|exact (proj2 (proj1 HW) t p Ht)|].
    apply (proj2 HW t p n); auto.
Qed.

(** What a call adds to the number of updates. *)
Definition cost1 (o : op) (K : nat) : nat :=
  match o with
  | AppendFirst _ _ _ | AppendLast _ _ _ | RemoveFirst _ _ | RemoveLast _ _ | Inverse _ => S K
  | NewSequence _ _ ls => Nat.max K (List.length ls)
  | Combine ss => Nat.max K (List.length ss * S K)
  | _ => K
  end.

Definition legal1 (w : world) (o : op) : Prop :=
  match o with
  | NewEntry u _ => rough eps u /\ (b = true -> wf u /\ eps_clean eps (u_dim u) (u_mat u))
  | Inverse s => b = true /\ odd_entries w s
  | _ => True
  end.

Lemma legal_allowed w o : legal1 w o -> allowed eps Pg o.
Proof.
  destruct o; cbn [legal1 allowed]; auto.
  - intros [Hw Hc] e E. assert (F := mk_entry_fields _ _ _ E). destruct F as (F1 & F2 & _).
    destruct (proj1 (mk_entry_iff u apply_to) (ex_intro _ e E)) as (H1 & H2 & H3 & H4).
    unfold gate. rewrite F1, F2. split; auto. cbn [fst snd]. split; [|split; [|split]]; auto.
    + clear - H2 H3. induction H2 as [|x l Hx H IH]; simpl; constructor.
      * intros Hin. apply in_map_iff in Hin. destruct Hin as (y & Hy & Hin).
        assert (0 <= x)%Z by (apply H3; simpl; auto). assert (0 <= y)%Z by (apply H3; simpl; auto).
        assert (x = y) by lia. subst. auto.
      * apply IH. intros q Hq. apply H3; simpl; auto.
    + destruct apply_to; [congruence|discriminate].
    + now rewrite map_length.
  - intros [Hb _]. now apply Pinv_true.
Qed.

Lemma step_winv_mut o K w : mutator o = true -> winv K w -> winv (cost1 o K) (fst (step eps o w)).
Proof.
  intros Hm HW.
  assert (KK : (K <= cost1 o K)%nat) by (destruct o; simpl; lia).
  assert (Hnull : winv (cost1 o K) w) by (apply winv_mono with (K := K); auto).
  assert (Hgen : forall s m, target_meth eps o = Some (s, m) ->
     (match o with AppendFirst _ l _ | AppendLast _ l _ => (l < List.length (w_heap w))%nat | _ => True end) ->
     (forall n q, G (w_heap w) q -> s_dim q = (2 ^ n)%nat -> lim n (uc * cost1 o K) -> sat n K (w_heap w) q ->
       exists h' q' r, m (w_heap w, q) = ((h', q'), r) /\ sat n (cost1 o K) h' q') ->
     winv (cost1 o K) (fst (on_seq s m w))).
  { intros s m Ht HL Hs. destruct (nth_error (w_seqs w) s) as [q|] eqn:Es.
    - apply winv_on_seq with (K := K) (q := q); auto.
      + destruct (mutator_frame eps Pg o s m (w_heap w) q Ht (WG_G eps Pg w s q (proj1 HW) Es) HL)
          as (h' & q' & r & E & X & GG & D & _). exists h', q', r. auto.
      + intros n Hd Hl HS. apply Hs; auto. apply (WG_G eps Pg w s q (proj1 HW) Es).
    - unfold on_seq. rewrite Es. exact Hnull. }
  destruct o; try discriminate Hm.
  - rewrite step_append_first.
    destruct (Nat.ltb_spec l (List.length (w_heap w))) as [L|]; [|exact Hnull].
    rewrite (proj1 (se_bind_ret _ _ _)). apply Hgen; auto. intros n q GG Hd HL HS. rewrite append_first_eq.
    destruct (entry_valid (s_dim q) (obj (w_heap w) l)) eqn:V.
    2:{ eexists _, _, _. split; [reflexivity|]. apply sat_mono with (K := K); auto. }
    destruct (s_array q) eqn:Ar.
    + destruct (mutate_array n K l save_undo (fun ls => l :: ls) (upd_first eps) (w_heap w) q GG Ar HL HS) as (h' & q' & E & S').
      eauto.
    + destruct (append_first_sat eps eps0 eps1 b n K l save_undo (w_heap w) q GG Hd Ar HL HS L) as (h' & q' & E & _ & _ & S' & _).
      { rewrite Hd in V. destruct (proj1 GG l L) as [_ (_ & H1 & H2 & _)]. now apply entry_valid_placement. }
      eauto.
  - rewrite step_append_last.
    destruct (Nat.ltb_spec l (List.length (w_heap w))) as [L|]; [|exact Hnull].
    rewrite (proj1 (se_bind_ret _ _ _)). apply Hgen; auto. intros n q GG Hd HL HS. rewrite append_last_eq.
    destruct (entry_valid (s_dim q) (obj (w_heap w) l)) eqn:V.
    2:{ eexists _, _, _. split; [reflexivity|]. apply sat_mono with (K := K); auto. }
    destruct (s_array q) eqn:Ar.
    + destruct (mutate_array n K l save_undo (fun ls => ls ++ [l]) (upd_last eps) (w_heap w) q GG Ar HL HS) as (h' & q' & E & S').
      eauto.
    + destruct (append_last_sat eps eps0 eps1 b n K l save_undo (w_heap w) q GG Hd Ar HL HS L) as (h' & q' & E & _ & _ & S' & _).
      { rewrite Hd in V. destruct (proj1 GG l L) as [_ (_ & H1 & H2 & _)]. now apply entry_valid_placement. }
      eauto.
  - cbn [step]. rewrite (proj1 (se_bind_ret _ _ _)). apply Hgen; auto. intros n q GG Hd HL HS.
    rewrite remove_first_eq. destruct (s_entries q) as [|l t] eqn:El.
    { eexists _, _, _. split; [reflexivity|]. apply sat_mono with (K := K); auto. }
    destruct (s_array q) eqn:Ar.
    + destruct (mutate_array n K l save_undo (@tl nat) (upd_unfirst eps) (w_heap w) q GG Ar HL HS) as (h' & q' & E & S').
      eauto.
    + destruct (remove_first_sat eps eps0 eps1 b n K l t save_undo (w_heap w) q GG Hd Ar HL HS El) as (h' & q' & E & _ & _ & S' & _).
      eauto.
  - cbn [step]. rewrite (proj1 (se_bind_ret _ _ _)). apply Hgen; auto. intros n q GG Hd HL HS.
    rewrite remove_last_eq. destruct (rev (s_entries q)) as [|l t] eqn:El.
    { eexists _, _, _. split; [reflexivity|]. apply sat_mono with (K := K); auto. }
    assert (El' : s_entries q = rev t ++ [l]).
    { rewrite <- (rev_involutive (s_entries q)), El. reflexivity. }
    destruct (s_array q) eqn:Ar.
    + destruct (mutate_array n K l save_undo (@removelast nat) (upd_unlast eps) (w_heap w) q GG Ar HL HS) as (h' & q' & E & S').
      eauto.
    + destruct (remove_last_sat eps eps0 eps1 b n K l (rev t) save_undo (w_heap w) q GG Hd Ar HL HS El') as (h' & q' & E & _ & _ & S' & _).
      eauto.
  - cbn [step]. rewrite (proj1 (se_bind_ret _ _ _)). apply Hgen; auto. intros n q GG Hd HL HS.
    destruct (undo_sat eps b n K (w_heap w) q GG HS) as (q' & r & E & _ & S' & _). eauto.
Qed.

Lemma keeps_step o : mutator o = false ->
  (match o with NewSequence _ _ _ | Inverse _ | Combine _ => False | _ => True end) -> keeps (step eps o).
Proof.
  destruct o; intros Hm Hn; try discriminate Hm; try destruct Hn; cbn [step].
  - intros w. destruct (mk_entry u apply_to); reflexivity.
  - apply keeps_bind; [apply keeps_get|]. intros w0. destruct (Nat.ltb _ _); [|apply keeps_raise].
    apply keeps_bind; [apply keeps_heap|]. intros u. apply keeps_ret.
  - apply keeps_bind; [apply keeps_seq|]. intros u. apply keeps_ret.
  - apply keeps_bind; [apply keeps_seq|]. intros u. apply keeps_ret.
Qed.

Lemma combine_ok_inv ss w w1 q : combine eps ss w = (w1, Ok q) ->
  exists s0 st q0, ss = s0 :: st /\ nth_error (w_seqs w) s0 = Some q0 /\ s_dim q = s_dim q0 /\
    forall s, In s ss -> exists q, nth_error (w_seqs w) s = Some q /\ s_dim q = s_dim q0.
Proof.
  unfold combine. unfold se_bind at 1, se_get. destruct ss as [|s0 st]; [discriminate|].
  destruct (nth_error (w_seqs w) s0) as [q0|] eqn:E0; [|discriminate].
  unfold se_bind at 1, se_assert, se_lift at 1, assert.
  destruct (forallb _ (s0 :: st)) eqn:V; [|discriminate].
  unfold se_bind at 1, se_lift at 1. destruct (u_identity eps (s_dim q0)) as [u|x]; [|discriminate].
  unfold se_bind at 1. destruct (combine_loop eps (s0 :: st) [] u w) as [w2 [r|x]]; [|discriminate].
  unfold se_bind at 1, on_heap. destruct (new_sequence (s_dim q0) false (fst r) (w_heap w2)) as [h [c|x]] eqn:En;
    [|discriminate].
  unfold se_ret. intros [= <- <-]. exists s0, st, q0. split; auto. split; auto. split.
  - unfold new_sequence in En. destruct (forallb _ (fst r)); [|discriminate].
    destruct (deepcopy _ _). injection En as _ <-. reflexivity.
  - intros s Hs. rewrite forallb_forall in V. specialize (V s Hs).
    destruct (nth_error (w_seqs w) s) as [q|]; [|discriminate]. exists q. split; auto. now apply Nat.eqb_eq.
Qed.

Lemma step_winv o K w : legal1 w o -> winv K w -> winv (cost1 o K) (fst (step eps o w)).
Proof.
  intros HA HW. assert (AL := legal_allowed w o HA).
  destruct (mutator o) eqn:Hm; [now apply step_winv_mut|].
  assert (Hnull : forall K', (K <= K')%nat -> winv K' w).
  { intros K' H. apply winv_mono with (K := K); auto. }
  destruct o; try discriminate Hm; cbn [cost1];
    try (apply (winv_calm eps eps0 eps1 b (fun _ => True) _ (fun _ _ => True)); auto; [apply step_calm; auto|apply keeps_step; solve [auto]]).
  - cbn [step]. unfold se_bind at 1, se_get.
    destruct (forallb (fun l => Nat.ltb l (List.length (w_heap w))) ls) eqn:L; [|apply Hnull; lia].
    assert (R : in_heap (w_heap w) ls).
    { intros l Hl. rewrite forallb_forall in L. apply L in Hl. now apply Nat.ltb_lt. }
    apply (winv_then_add eps eps0 eps1 b (fun w => in_heap (w_heap w) ls) _ K); auto; [apply calm_new|apply keeps_heap|lia|].
    intros w1 q n E Hd HL. unfold on_heap in E.
    destruct (new_sequence d is_array ls (w_heap w)) as [h' r] eqn:En. injection E as <- ->.
    cbn [w_heap]. apply (new_sat eps b n _ d is_array ls (w_heap w) h' q); auto.
    + apply (proj1 HW).
    + unfold new_sequence in En. destruct (forallb (fun l => entry_valid d (obj (w_heap w) l)) ls); [|discriminate].
      destruct (deepcopy (w_heap w) ls) as [h2 l2]. injection En as _ <-. exact Hd.
    + lia.
  - cbn [step]. destruct HA as [Hb HD].
    apply (winv_then_add eps eps0 eps1 b (fun _ => True) _ K); auto;
      [apply calm_inverse; exact AL|apply keeps_seq|].
    intros w1 q n E Hd HL. unfold on_seq in E. destruct (nth_error (w_seqs w) s) as [q0|] eqn:Es; [|discriminate].
    assert (GG := WG_G eps Pg w s q0 (proj1 HW) Es).
    destruct (inverse_frame eps Pg (w_heap w) q0 AL GG) as (h' & q' & r & E' & _ & _ & _ & _ & F).
    rewrite E' in E. injection E as <- ->. destruct (F q eq_refl) as (_ & D & Ar). rewrite D in Hd.
    destruct (inverse_sat eps eps0 eps1 b n K (w_heap w) q0 Hb GG Hd Ar (HD q0 Es) HL) as (h2 & q2 & i & E2 & _ & _ & S2 & _).
    { apply (proj2 HW s q0 n Es Hd). eapply limb_mono; [exact eps0|exact eps1| |exact HL]. nia. }
    rewrite E' in E2. injection E2 as <- <- <-. exact S2.
  - cbn [step].
    apply (winv_then_add eps eps0 eps1 b (fun _ => True) _ K); auto;
      [apply calm_combine|apply keeps_combine|lia|].
    intros w1 q n E Hd HL. destruct (combine_ok_inv ss w w1 q E) as (s0 & st & q0 & Ess & E0 & D & Hss).
    assert (Hd0 : s_dim q0 = (2 ^ n)%nat) by congruence.
    destruct (combine_sat eps eps0 eps1 b n K ss w q0 s0 st HW Ess E0 Hd0) as (w2 & q2 & E2 & _ & _ & _ & _ & _ & S2 & _).
    { eapply limb_mono; [exact eps0|exact eps1| |exact HL]. nia. }
    { intros s Hs. destruct (Hss s Hs) as (q3 & ? & ?). exists q3. split; auto. congruence. }
    rewrite E in E2. injection E2 as <- <-. eapply sat_mono; [exact eps0| |exact S2]. lia.
Qed.

Lemma winv_empty : winv 0 w_empty.
Proof. split; [apply WG_empty|]. intros [|t] q n H; discriminate. Qed.

Lemma exec_winv os : forall K w,
  history eps (fun u => rough eps u /\ (b = true -> wf u /\ eps_clean eps (u_dim u) (u_mat u)))
    (fun w s => b = true /\ odd_entries w s) os w ->
  winv K w -> winv (updates os K) (exec eps os w).
Proof.
  induction os as [|o os IH]; intros K w Hh HW; cbn [exec updates history] in *; auto.
  destruct Hh as [H1 H2]. apply IH; auto. apply (step_winv o K w); auto.
Qed.

Lemma answers_reported w s q p : WG w -> nth_error (w_seqs w) s = Some q ->
  (answers eps w s p <-> reported eps (w_heap w) q = Ok p).
Proof.
  intros HW Hq. unfold answers. rewrite (step_product eps Pg w s q HW Hq).
  destruct (reported eps (w_heap w) q) as [p'|x].
  - split; intros H; injection H as ->; auto.
  - split; discriminate.
Qed.

Lemma winv_answers K w s n :
  winv K w -> has_dim w s (2 ^ n) -> lim n (uc * K) ->
  exists p, answers eps w s p /\ near n (uc * K) (iordered eps n (contents w s)) p /\
    (forall g, In g (contents w s) -> Pg g /\ placement n (snd g)) /\ (List.length (contents w s) <= K)%nat.
Proof.
  intros HW (q & Hq & Hd) HL.
  destruct (reported_near eps eps0 eps1 b n K (w_heap w) q (WG_G eps Pg w s q (proj1 HW) Hq) Hd HL) as (p & Ep & Np).
  { apply (proj2 HW s q n Hq Hd HL). }
  exists p. split; [now apply (answers_reported w s q p (proj1 HW) Hq)|].
  assert (GG := WG_G eps Pg w s q (proj1 HW) Hq). assert (HS := proj1 (proj2 HW s q n Hq Hd HL)).
  unfold contents. rewrite Hq. split; [exact Np|]. split.
  - exact (part_gates eps b n K (w_heap w) _ _ (proj1 GG) (proj1 (proj2 GG)) HS).
  - rewrite map_length. apply HS.
Qed.
End Hist.

Lemma winv_exact eps K w s n : (0 <= eps <= 1)%R -> winv eps true K w -> has_dim w s (2 ^ n) ->
  limb eps true n (unit_cost true * K) ->
  exists p, answers eps w s p /\ nearb eps true n (unit_cost true * K) (ordered n (contents w s)) p.
Proof.
  intros [e0 e1] HW HD HL. destruct (winv_answers eps e0 e1 true K w s n HW HD HL) as (p & A & N & G & _).
  exists p. split; auto. rewrite iordered_wf in N; auto. intros g Hg. now apply G.
Qed.

Lemma winv_stored eps K w s n : (0 <= eps <= 1)%R -> winv eps false K w -> has_dim w s (2 ^ n) ->
  lim eps n (8 * K) ->
  exists p, answers eps w s p /\ near eps n (6 * K) (iordered eps n (contents w s)) p /\
    (fro (2 ^ n) (mminus (ordered n (contents w s)) (iordered eps n (contents w s))) <= err eps n (2 * K))%R /\
    (fro (2 ^ n) (mminus (u_mat p) (ordered n (contents w s))) <= err eps n (8 * K))%R /\
    (forall g, In g (contents w s) -> gok eps false g /\ placement n (snd g)) /\
    (List.length (contents w s) <= K)%nat.
Proof.
  intros [e0 e1] HW HD HL.
  destruct (winv_answers eps e0 e1 false K w s n HW HD) as (p & A & N & G & L).
  { left. eapply lim_mono; [exact e0|exact e1| |exact HL]. unfold unit_cost, gc. lia. }
  apply proj1 in N. exists p. split; auto. split; auto.
  assert (O : (fro (2 ^ n) (mminus (ordered n (contents w s)) (iordered eps n (contents w s))) <= err eps n (2 * K))%R).
  { destruct K as [|K].
    - destruct (contents w s); [|simpl in L; lia]. rewrite fro_minus_self by reflexivity. apply err_pos; auto.
    - eapply Rle_trans; [apply ordered_near; auto|apply err_mono; auto; lia].
      eapply lim_mono; [exact e0|exact e1| |exact HL]. lia. }
  split; auto. split; [|split; auto].
  destruct N as (_ & _ & _ & N).
  eapply Rle_trans; [apply fro_minus_triangle with (B := iordered eps n (contents w s))|].
  rewrite (fro_minus_sym _ (iordered eps n (contents w s))).
  replace (8 * K)%nat with (6 * K + 2 * K)%nat by lia. rewrite err_add.
  assert (E1 := err_pos eps e0 n (6 * K)). assert (E2 := err_pos eps e0 n (2 * K)).
  change (unit_cost false) with 6%nat in N.
  assert (0 <= err eps n (6 * K) * err eps n (2 * K))%R by now apply Rmult_le_pos. lra.
Qed.
