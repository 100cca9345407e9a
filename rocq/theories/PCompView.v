(** What a client sees of one sequence: its gates and the gates of its snapshot.
    How every call changes this view, for every clean-up threshold. *)
From Coq Require Import Reals List Arith Lia Lra Bool String ZArith.
From Coquelicot Require Import Complex.
From Verif Require Import Base CMat CMatFacts Det DetFacts ModelUnitary ModelEntry ModelPrimitive
  ModelSequence Spec SpecModel PUnitary PEntry PSeqHeap PSeqMeth PSeqWorld PSeqUndo.
Import ListNotations.
Open Scope R_scope.
Open Scope C_scope.
Open Scope se_scope.

Section View.
Variable eps : R.
Notation W := (WG eps anyg).

(** Sequence [s] (built from a list) has dimension [d], contains [cs], and its
    snapshot contains [pv]. *)
Definition sees (w : world) (s d : nat) (cs : list (unitary * list nat))
    (pv : option (list (unitary * list nat))) : Prop :=
  W w /\ exists q, nth_error (w_seqs w) s = Some q /\ s_dim q = d /\ s_array q = false /\
    gates (w_heap w) (s_entries q) = cs /\
    option_map (gates (w_heap w)) (s_prev_entries q) = pv.

(** The object at [l] says [g]. *)
Definition has_gate (w : world) (l : nat) (g : unitary * list nat) : Prop :=
  (l < List.length (w_heap w))%nat /\ gate (obj (w_heap w) l) = g.

Lemma sees_contents w s d cs pv : sees w s d cs pv -> contents w s = cs.
Proof. intros (_ & q & E & _ & _ & H & _). now rewrite (contents_gates w s q E). Qed.

Lemma sees_has_dim w s d cs pv : sees w s d cs pv -> has_dim w s d.
Proof. intros (_ & q & E & D & _). now exists q. Qed.

Lemma sees_W w s d cs pv : sees w s d cs pv -> W w.
Proof. intros [H _]; exact H. Qed.

Lemma has_gate_step w l g o : W w -> has_gate w l g -> has_gate (fst (step eps o w)) l g.
Proof.
  intros HW [H1 H2]. pose proof (step_ext eps o w HW) as [L E]. split; [lia|]. rewrite E; auto.
Qed.

Lemma opt_gates_ext h h' o : heap_ext h h' -> (forall ls, o = Some ls -> in_heap h ls) ->
  option_map (gates h') o = option_map (gates h) o.
Proof. intros E H. destruct o as [ls|]; simpl; auto. f_equal. apply gates_ext; auto. Qed.

(** Calls that do not change [s]. *)
Lemma sees_other w s d cs pv o : sees w s d cs pv -> mutates o s = false ->
  sees (fst (step eps o w)) s d cs pv.
Proof.
  intros (HW & q & E & D & A & G1 & G2) M.
  destruct (step_frame eps anyg o w (any_allowed eps o) HW) as (HW' & X & _ & F).
  destruct (F s q M E) as (q' & E' & (S1 & S2 & S3 & S4 & _)).
  split; [exact HW'|]. exists q'. split; [exact E'|]. split; [congruence|]. split; [congruence|].
  destruct HW as [_ R]. destruct (R s q E) as [R1 R2].
  rewrite S3, S4. split.
  - rewrite <- G1. apply gates_ext; auto.
  - rewrite <- G2. apply opt_gates_ext; auto.
Qed.

Lemma new_sequence_view w d :
  W w ->
  exists w', step eps (NewSequence d false []) w = (w', Ok (VSequence (List.length (w_seqs w)))) /\
    sees w' (List.length (w_seqs w)) d [] None.
Proof.
  intros HW.
  exists {| w_heap := w_heap w; w_seqs := w_seqs w ++
    [{| s_dim := d; s_array := false; s_entries := []; s_product := None; s_prev_entries := None;
        s_prev_product := None |}] |}.
  assert (E : step eps (NewSequence d false []) w =
    ({| w_heap := w_heap w; w_seqs := w_seqs w ++
    [{| s_dim := d; s_array := false; s_entries := []; s_product := None; s_prev_entries := None;
        s_prev_product := None |}] |}, Ok (VSequence (List.length (w_seqs w))))) by reflexivity.
  split; [exact E|]. split.
  - pose proof (W_step eps (NewSequence d false []) w HW) as X. rewrite E in X. exact X.
  - eexists. split.
    + cbn [w_seqs]. rewrite nth_error_app2 by lia. rewrite Nat.sub_diag. reflexivity.
    + repeat split; reflexivity.
Qed.

Lemma new_entry_view w u qs w' v :
  step eps (NewEntry u qs) w = (w', Ok v) ->
  exists l, v = VEntry l /\ has_gate w' l (u, map Z.to_nat qs) /\ exists e, mk_entry u qs = Ok e.
Proof.
  cbn [step]. destruct (mk_entry u qs) as [e|x] eqn:E; intros H; [|discriminate].
  injection H as <- <-. exists (List.length (w_heap w)). split; auto. split; [|eauto].
  split; cbn [w_heap].
  - rewrite app_length. simpl. lia.
  - rewrite obj_app_r. apply mk_entry_fields in E. destruct E as (E1 & E2 & _).
    unfold gate. congruence.
Qed.

(** The fate of a mutator that got past its checks and did not raise. *)
Lemma mutate_view w s d cs pv l sv f upd w' r fg :
  sees w s d cs pv -> (l < List.length (w_heap w))%nat ->
  (forall ls x, In x (f ls) -> x = l \/ In x ls) ->
  (forall h ls, gates h (f ls) = fg h (gates h ls)) ->
  on_seq s (mutate eps l sv f upd) w = (w', Ok r) ->
  sees w' s d (fg (w_heap w') cs) (if sv then Some cs else pv) /\ heap_ext (w_heap w) (w_heap w').
Proof.
  intros (HW & q & E & D & A & G1 & G2) L Hf Hg H.
  assert (HG := WG_G eps anyg w s q HW E).
  destruct (mutate_frame eps anyg l sv f upd _ q HG L Hf)
    as (h' & q' & r' & E1 & X & GG & D' & A' & P1 & P2 & _ & _ & K).
  destruct (on_seq_target s (mutate eps l sv f upd) w q h' q' r' E E1) as [E2 E3].
  rewrite E2 in H. injection H as <- ->. cbn [w_heap].
  destruct (on_seq_frame eps anyg s (mutate eps l sv f upd) w q HW E) as (HW' & _).
  { exists h', q', (Ok r). auto. }
  rewrite E2 in HW'. cbn [fst] in HW'.
  destruct HG as [_ [R1 R2]].
  split; [|exact X]. split; [exact HW'|]. exists q'. cbn [w_seqs w_heap].
  split; [exact E3|]. split; [congruence|]. split; [congruence|]. destruct r. split.
  - rewrite K by reflexivity. rewrite Hg. f_equal. rewrite <- G1. now apply gates_ext.
  - destruct sv.
    + destruct (P1 eq_refl) as (ls & Q1 & Q2). rewrite Q1. cbn [option_map]. now rewrite Q2, G1.
    + destruct (P2 eq_refl) as (Q1 & Q2). rewrite Q1, <- G2. now apply opt_gates_ext.
Qed.

Lemma on_seq_ext {A} s (m m' : meth A) w :
  (forall q, nth_error (w_seqs w) s = Some q -> m (w_heap w, q) = m' (w_heap w, q)) ->
  on_seq s m w = on_seq s m' w.
Proof. intros H. unfold on_seq. destruct (nth_error (w_seqs w) s) eqn:E; auto. now rewrite H. Qed.

Lemma bind_none {A} (m : SE world A) w w' v :
  (m ;;; se_ret VNone) w = (w', Ok v) -> v = VNone /\ exists a, m w = (w', Ok a).
Proof.
  unfold se_bind, se_ret. destruct (m w) as [w1 [a|x]]; intros H; [|discriminate].
  injection H as <- <-. eauto.
Qed.

Lemma append_first_view w s d cs pv l g sv w' v :
  sees w s d cs pv -> has_gate w l g ->
  step eps (AppendFirst s l sv) w = (w', Ok v) ->
  sees w' s d (g :: cs) (if sv then Some cs else pv) /\ fits w d l /\ heap_ext (w_heap w) (w_heap w').
Proof.
  intros S [L G] H. rewrite step_append_first in H.
  destruct (Nat.ltb_spec l (List.length (w_heap w))); [|lia].
  apply bind_none in H. destruct H as (-> & a & H).
  destruct (S) as (HW & q & E & D & A & _).
  destruct (entry_valid (s_dim q) (obj (w_heap w) l)) eqn:V.
  2:{ erewrite on_seq_nop in H; [|exact E|rewrite append_first_eq, V; reflexivity]. discriminate. }
  erewrite on_seq_ext in H.
  2:{ intros q1 E1. replace q1 with q by congruence. rewrite append_first_eq, V. reflexivity. }
  destruct (fun A B => mutate_view w s d cs pv l sv _ _ w' a (fun h gs => gate (obj h l) :: gs) S L A B H) as [M X].
  { intros ls x [->|Hx]; auto. }
  { reflexivity. }
  split; [|split; [|exact X]].
  - replace g with (gate (obj (w_heap w') l)); [exact M|]. rewrite <- G. apply X. exact L.
  - rewrite D in V. now apply (proj1 (entry_valid_fits eps w d l HW L)) in V.
Qed.

Lemma gates_app h l1 l2 : gates h (l1 ++ l2) = gates h l1 ++ gates h l2.
Proof. apply map_app. Qed.

Lemma append_last_view w s d cs pv l g sv w' v :
  sees w s d cs pv -> has_gate w l g ->
  step eps (AppendLast s l sv) w = (w', Ok v) ->
  sees w' s d (cs ++ [g]) (if sv then Some cs else pv) /\ fits w d l /\ heap_ext (w_heap w) (w_heap w').
Proof.
  intros S [L G] H. rewrite step_append_last in H.
  destruct (Nat.ltb_spec l (List.length (w_heap w))); [|lia].
  apply bind_none in H. destruct H as (-> & a & H).
  destruct (S) as (HW & q & E & D & A & _).
  destruct (entry_valid (s_dim q) (obj (w_heap w) l)) eqn:V.
  2:{ erewrite on_seq_nop in H; [|exact E|rewrite append_last_eq, V; reflexivity]. discriminate. }
  erewrite on_seq_ext in H.
  2:{ intros q1 E1. replace q1 with q by congruence. rewrite append_last_eq, V. reflexivity. }
  destruct (fun A B => mutate_view w s d cs pv l sv _ _ w' a (fun h gs => gs ++ [gate (obj h l)]) S L A B H) as [M X].
  { intros ls x Hx. apply in_app_or in Hx. destruct Hx as [Hx|[->|[]]]; auto. }
  { intros h ls. apply gates_app. }
  split; [|split; [|exact X]].
  - replace g with (gate (obj (w_heap w') l)); [exact M|]. rewrite <- G. apply X. exact L.
  - rewrite D in V. now apply (proj1 (entry_valid_fits eps w d l HW L)) in V.
Qed.
Lemma gates_tl h ls : gates h (tl ls) = tl (gates h ls).
Proof. destruct ls; reflexivity. Qed.

Lemma gates_removelast h ls : gates h (removelast ls) = removelast (gates h ls).
Proof.
  induction ls as [|l t IH]; simpl; auto. destruct t; simpl in *; auto. now rewrite IH.
Qed.

Lemma remove_first_view w s d cs pv sv w' v :
  sees w s d cs pv ->
  step eps (RemoveFirst s sv) w = (w', Ok v) ->
  sees w' s d (tl cs) (match cs with [] => pv | _ => if sv then Some cs else pv end) /\
  (cs = [] -> w' = w).
Proof.
  intros S H. cbn [step] in H. apply bind_none in H. destruct H as (-> & a & H).
  destruct (S) as (HW & q & E & D & A & G1 & G2).
  destruct (s_entries q) as [|l t] eqn:Q.
  - erewrite on_seq_nop in H; [|exact E|rewrite remove_first_eq, Q; reflexivity].
    injection H as <- _. simpl in G1. subst cs. split; auto.
  - erewrite on_seq_ext in H.
    2:{ intros q1 E1. replace q1 with q by congruence. rewrite remove_first_eq, Q. reflexivity. }
    assert (L : (l < List.length (w_heap w))%nat).
    { destruct HW as [_ R]. destruct (R s q E) as [R1 _]. apply R1. rewrite Q. simpl; auto. }
    destruct (fun A B => mutate_view w s d cs pv l sv _ _ w' a (fun h gs => tl gs) S L A B H) as [M _].
    { intros ls x Hx. right. now apply in_tl. }
    { intros. apply gates_tl. }
    subst cs. simpl in *. split; [exact M|discriminate].
Qed.

Lemma remove_last_view w s d cs pv sv w' v :
  sees w s d cs pv ->
  step eps (RemoveLast s sv) w = (w', Ok v) ->
  sees w' s d (removelast cs) (match cs with [] => pv | _ => if sv then Some cs else pv end) /\
  (cs = [] -> w' = w).
Proof.
  intros S H. cbn [step] in H. apply bind_none in H. destruct H as (-> & a & H).
  destruct (S) as (HW & q & E & D & A & G1 & G2).
  destruct (rev (s_entries q)) as [|l t] eqn:Q.
  - erewrite on_seq_nop in H; [|exact E|rewrite remove_last_eq, Q; reflexivity].
    injection H as <- _. assert (Q' : s_entries q = []).
    { rewrite <- (rev_involutive (s_entries q)), Q. reflexivity. }
    rewrite Q' in G1. simpl in G1. subst cs. split; auto.
  - erewrite on_seq_ext in H.
    2:{ intros q1 E1. replace q1 with q by congruence. rewrite remove_last_eq, Q. reflexivity. }
    assert (Q' : s_entries q = rev t ++ [l]).
    { rewrite <- (rev_involutive (s_entries q)), Q. reflexivity. }
    assert (L : (l < List.length (w_heap w))%nat).
    { destruct HW as [_ R]. destruct (R s q E) as [R1 _]. apply R1. rewrite Q'. apply in_or_app. simpl; auto. }
    destruct (fun A B => mutate_view w s d cs pv l sv _ _ w' a (fun h gs => removelast gs) S L A B H) as [M _].
    { intros ls x Hx. right. now apply in_removelast. }
    { intros. apply gates_removelast. }
    rewrite Q' in G1. unfold gates in G1. rewrite map_app in G1.
    destruct cs; [destruct (map _ (rev t)); discriminate|]. split; [exact M|discriminate].
Qed.

Lemma undo_view w s d cs c :
  sees w s d cs (Some c) ->
  exists w', step eps (Undo s) w = (w', Ok VNone) /\ sees w' s d c None /\ w_heap w' = w_heap w.
Proof.
  intros (HW & q & E & D & A & G1 & G2).
  destruct (s_prev_entries q) as [ls|] eqn:P; [|discriminate]. injection G2 as G2.
  destruct (undo_some eps w s q ls E P) as (q' & E1 & E2 & Q1 & Q2 & Q3 & Q4).
  assert (A' : s_dim q' = s_dim q /\ s_array q' = s_array q).
  { revert E1. cbn [step]. unfold on_seq, undo, se_bind, m_self, m_upd, se_ret. rewrite E. cbn [snd fst].
    rewrite P. cbn [fst snd]. intros E1. injection E1 as E1.
    assert (X : nth_error (list_set (w_seqs w) s q') s = Some q') by exact E2.
    rewrite <- E1 in X. rewrite (nth_error_list_set _ _ _ _ _ E), Nat.eqb_refl in X.
    injection X as <-. auto. }
  pose proof (W_step eps (Undo s) w HW) as HW'. rewrite E1 in HW'. cbn [fst] in HW'.
  eexists. split; [exact E1|]. split; [|reflexivity]. split; [exact HW'|]. exists q'.
  cbn [w_seqs w_heap]. rewrite Q1, Q2. destruct A' as [A1 A2]. repeat split; try congruence; auto.
Qed.

Lemma product_view w s d cs pv w' v :
  sees w s d cs pv ->
  step eps (Product s) w = (w', Ok v) ->
  exists p, v = VUnitary p /\ sees w' s d cs pv /\ answers eps w s p /\ answers eps w' s p /\
    heap_ext (w_heap w) (w_heap w').
Proof.
  intros S H.
  assert (S' := sees_other w s d cs pv (Product s) S eq_refl).
  destruct S as (HW & q & E & _).
  pose proof (step_product eps anyg w s q HW E) as P. rewrite H in S', P. cbn [fst snd] in *.
  destruct (reported eps (w_heap w) q) as [p|x] eqn:R; [|discriminate]. injection P as ->.
  exists p. split; auto. split; auto.
  destruct (step_frame eps anyg (Product s) w (any_allowed eps (Product s)) HW) as (HW' & X & _ & F).
  destruct (F s q eq_refl E) as (q' & E' & (_ & _ & _ & _ & _ & S6 & _)).
  rewrite H in *. cbn [fst] in *. repeat split.
  - apply (answers_iff eps w s q); auto.
  - apply (answers_iff eps w' s q'); auto. congruence.
  - apply X.
  - apply X.
Qed.

(** Once a sequence has answered, the answer is kept by calls on other objects. *)
Lemma answers_other w s d cs pv o p : sees w s d cs pv -> mutates o s = false ->
  answers eps w s p -> answers eps (fst (step eps o w)) s p.
Proof.
  intros (HW & q & E & _) M A.
  destruct (step_frame eps anyg o w (any_allowed eps o) HW) as (HW' & X & _ & F).
  destruct (F s q M E) as (q' & E' & (_ & _ & _ & _ & _ & S6 & _)).
  apply (answers_iff eps _ s q'); auto. rewrite S6. apply (answers_iff eps w s q); auto.
Qed.

Lemma answers_unique w s p p' : answers eps w s p -> answers eps w s p' -> p = p'.
Proof. unfold answers. congruence. Qed.
End View.
