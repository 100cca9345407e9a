(** Methods of sequences: frame properties valid for every clean-up threshold. *)
From Coq Require Import Reals List Arith Lia Lra Bool String ZArith.
From Coquelicot Require Import Complex.
From Verif Require Import Base CMat CMatFacts Det DetFacts ModelUnitary ModelEntry ModelSequence
  Spec SpecModel PUnitary PEntry PSeqHeap.
Import ListNotations.
Open Scope R_scope.
Open Scope C_scope.
Open Scope se_scope.

(** The common shape of the four mutators. *)
Definition mutate (eps : R) (l : nat) (sv : bool) (f : list nat -> list nat)
    (upd : unitary -> unitary -> res unitary) : meth unit :=
  m_save eps sv ;;;
  m_change_list f ;;;
  s <-- m_self ;;
  match s_product s with
  | Some p =>
      u <-- m_heap (h_full eps l (s_dim s)) ;;
      p' <-- se_lift (upd p u) ;;
      m_upd (fun s => set_product s (Some p'))
  | None => se_ret tt
  end.

Definition upd_first eps (p u : unitary) := u_right_multiply eps p u.
Definition upd_last eps (p u : unitary) := u_left_multiply eps p u.
Definition upd_unfirst eps (p u : unitary) := bind (u_inverse eps u) (u_right_multiply eps p).
Definition upd_unlast eps (p u : unitary) := bind (u_inverse eps u) (u_left_multiply eps p).

Lemma append_first_eq eps l sv h s :
  append_first eps l sv (h, s) =
  if entry_valid (s_dim s) (obj h l)
  then mutate eps l sv (fun ls => l :: ls) (upd_first eps) (h, s)
  else ((h, s), Raise AssertionError).
Proof.
  unfold append_first. unfold se_bind at 1. unfold m_assert_valid, assert. cbn [fst snd].
  destruct (entry_valid (s_dim s) (obj h l)); reflexivity.
Qed.

Lemma append_last_eq eps l sv h s :
  append_last eps l sv (h, s) =
  if entry_valid (s_dim s) (obj h l)
  then mutate eps l sv (fun ls => ls ++ [l]) (upd_last eps) (h, s)
  else ((h, s), Raise AssertionError).
Proof.
  unfold append_last. unfold se_bind at 1. unfold m_assert_valid, assert. cbn [fst snd].
  destruct (entry_valid (s_dim s) (obj h l)); reflexivity.
Qed.

Lemma se_bind_ext {S A B} (m : SE S A) (f g : A -> SE S B) s :
  (forall a s', f a s' = g a s') -> se_bind m f s = se_bind m g s.
Proof. intros H. unfold se_bind. destruct (m s) as [s' [a|x]]; auto. Qed.

Lemma se_lift_bind {S A B C} (a : res A) (b : A -> res B) (k : B -> SE S C) s :
  se_bind (se_lift a) (fun x => se_bind (se_lift (b x)) k) s =
  se_bind (se_lift (bind a b)) k s.
Proof. unfold se_bind, se_lift. destruct a; reflexivity. Qed.

Lemma remove_first_eq eps sv h s :
  remove_first eps sv (h, s) =
  match s_entries s with
  | [] => ((h, s), Ok tt)
  | l :: _ => mutate eps l sv (@tl nat) (upd_unfirst eps) (h, s)
  end.
Proof.
  unfold remove_first. unfold se_bind at 1. cbn [m_self snd].
  destruct (s_entries s) as [|l t]; [reflexivity|]. unfold mutate.
  apply se_bind_ext. intros [] s1. apply se_bind_ext. intros [] s2.
  apply se_bind_ext. intros q s3. destruct (s_product q); [|reflexivity].
  apply se_bind_ext. intros u' s4. unfold upd_unfirst.
  exact (se_lift_bind (u_inverse eps u') (u_right_multiply eps u) _ s4).
Qed.

Lemma remove_last_eq eps sv h s :
  remove_last eps sv (h, s) =
  match rev (s_entries s) with
  | [] => ((h, s), Ok tt)
  | l :: _ => mutate eps l sv (@removelast nat) (upd_unlast eps) (h, s)
  end.
Proof.
  unfold remove_last. unfold se_bind at 1. cbn [m_self snd].
  destruct (rev (s_entries s)) as [|l t]; [reflexivity|]. unfold mutate.
  apply se_bind_ext. intros [] s1. apply se_bind_ext. intros [] s2.
  apply se_bind_ext. intros q s3. destruct (s_product q); [|reflexivity].
  apply se_bind_ext. intros u' s4. unfold upd_unlast.
  exact (se_lift_bind (u_inverse eps u') (u_left_multiply eps u) _ s4).
Qed.

(** * Frame *)
Definition seq_rng (h : heap) (s : sequence) : Prop :=
  in_heap h (s_entries s) /\ (forall ls, s_prev_entries s = Some ls -> in_heap h ls).

Definition G (eps : R) (Pg : unitary * list nat -> Prop) (h : heap) (s : sequence) : Prop := heap_ok eps Pg h /\ seq_rng h s.

Lemma seq_rng_ext h h' s : heap_ext h h' -> seq_rng h s -> seq_rng h' s.
Proof.
  intros E [H1 H2]. split; [eapply in_heap_ext; eauto|].
  intros ls Hls. eapply in_heap_ext; eauto.
Qed.

Definition rewrap (eps : R) (p : unitary) : res unitary :=
  mk_unitary eps (u_dim p) (Some (square (u_dim p) (u_mat p))) None [] false [].

(** What saving does: the store and the object afterwards. *)
Lemma save_spec eps Pg h s :
  G eps Pg h s ->
  exists h' ls,
    heap_ext h h' /\ heap_ok eps Pg h' /\ in_heap h' ls /\ gates h' ls = gates h (s_entries s) /\
    List.length ls = List.length (s_entries s) /\
    save_undo_state eps (h, s) =
      match s_product s with
      | None => ((h', set_prev_entries s (Some ls)), Ok tt)
      | Some p =>
          match rewrap eps p with
          | Ok p' => ((h', set_prev_product (set_prev_entries s (Some ls)) (Some p')), Ok tt)
          | Raise x => ((h', set_prev_entries s (Some ls)), Raise x)
          end
      end.
Proof.
  intros [Hok [Hr _]].
  destruct (deepcopy h (s_entries s)) as [h' ls] eqn:E.
  destruct (deepcopy_frame eps Pg h (s_entries s) h' ls Hr E) as (E1 & E2 & E3 & E4 & _ & _ & E5).
  exists h', ls. repeat (split; [solve [auto]|]).
  unfold save_undo_state, se_bind, m_self, m_heap, h_deepcopy, m_upd, se_lift, se_ret.
  cbn [fst snd]. rewrite E. destruct (s_product s) as [p|]; cbn [fst snd]; auto.
Qed.

(** The object after [m_save], as far as the frame is concerned. *)
Lemma m_save_frame eps Pg sv h s :
  G eps Pg h s ->
  exists h' s' r,
    m_save eps sv (h, s) = ((h', s'), r) /\
    heap_ext h h' /\ G eps Pg h' s' /\
    s_dim s' = s_dim s /\ s_array s' = s_array s /\ s_entries s' = s_entries s /\
    s_product s' = s_product s /\
    (sv = true -> exists ls, s_prev_entries s' = Some ls /\ gates h' ls = gates h (s_entries s)) /\
    (sv = false -> s' = s /\ r = Ok tt).
Proof.
  intros HG. destruct sv; simpl.
  - destruct (save_spec eps Pg h s HG) as (h' & ls & E1 & E2 & E3 & E4 & _ & E5).
    rewrite E5. destruct HG as [Hok [Hr Hp]].
    assert (Hr' : in_heap h' (s_entries s)) by (eapply in_heap_ext; eauto).
    destruct (s_product s) as [p|] eqn:Ep.
    + destruct (rewrap eps p) as [p'|x].
      * eexists _, _, _. split; [reflexivity|]. split; auto. split.
        { split; auto. split; auto. simpl. intros ls0 [= <-]. auto. }
        simpl. repeat (split; [solve [auto]|]). split; [eauto|discriminate].
      * eexists _, _, _. split; [reflexivity|]. split; auto. split.
        { split; auto. split; auto. simpl. intros ls0 [= <-]. auto. }
        simpl. repeat (split; [solve [auto]|]). split; [eauto|discriminate].
    + eexists _, _, _. split; [reflexivity|]. split; auto. split.
      { split; auto. split; auto. simpl. intros ls0 [= <-]. auto. }
      simpl. repeat (split; [solve [auto]|]). split; [eauto|discriminate].
  - exists h, s, (Ok tt). repeat (split; [solve [auto using heap_ext_refl]|]).
    split; [discriminate|auto].
Qed.

Lemma mutate_frame eps Pg l sv f upd h s :
  G eps Pg h s -> (l < List.length h)%nat ->
  (forall ls x, In x (f ls) -> x = l \/ In x ls) ->
  exists h' s' r,
    mutate eps l sv f upd (h, s) = ((h', s'), r) /\
    heap_ext h h' /\ G eps Pg h' s' /\
    s_dim s' = s_dim s /\ s_array s' = s_array s /\
    (sv = true -> exists ls, s_prev_entries s' = Some ls /\ gates h' ls = gates h (s_entries s)) /\
    (sv = false -> s_prev_entries s' = s_prev_entries s /\ s_prev_product s' = s_prev_product s) /\
    (s_entries s' = s_entries s \/ s_entries s' = f (s_entries s)) /\
    (s_array s = true -> exists x, r = Raise x) /\
    (r = Ok tt -> s_entries s' = f (s_entries s)).
Proof.
  intros HG Hl Hf. unfold mutate. unfold se_bind at 1.
  destruct (m_save_frame eps Pg sv h s HG)
    as (h1 & s1 & r1 & E & X1 & G1 & D1 & A1 & L1 & P1 & S1 & N1).
  rewrite E. destruct r1 as [[]|x].
  2:{ exists h1, s1, (Raise x). repeat (split; [solve [auto]|]).
      split; [intros K; destruct (N1 K); subst; auto|]. split; [auto|].
      split; [eauto|discriminate]. }
  unfold se_bind at 1. unfold m_change_list. unfold se_bind at 1. cbn [m_self snd].
  rewrite A1. destruct (s_array s) eqn:Ar.
  { unfold se_raise. exists h1, s1, (Raise AttributeError).
    repeat (split; [solve [auto]|]).
    split; [intros K; destruct (N1 K); subst; auto|]. split; [auto|].
    split; [eauto|discriminate]. }
  cbn [m_upd fst snd]. unfold m_upd at 1. cbn [fst snd]. unfold se_bind at 1. cbn [m_self snd].
  set (s2 := set_entries s1 (f (s_entries s1))).
  assert (R2 : seq_rng h1 s2).
  { destruct G1 as [_ [R1 R1']]. split; [|exact R1']. simpl. intros x Hx.
    apply Hf in Hx. destruct Hx as [->|Hx]; auto. destruct X1. lia. }
  assert (G2 : G eps Pg h1 s2) by (split; [apply G1|auto]).
  destruct (s_product s2) as [p|] eqn:Ep.
  2:{ exists h1, s2, (Ok tt). split; [reflexivity|]. split; auto. split; auto.
      split; auto. split; [simpl; congruence|].
      split; [intros K; destruct (S1 K) as (ls & ? & ?); exists ls; auto|].
      split; [intros K; destruct (N1 K); subst; auto|].
      simpl. rewrite L1. split; [auto|]. split; [discriminate|auto]. }
  unfold se_bind at 1. unfold m_heap. cbn [fst snd].
  destruct (h_full_spec eps Pg l (s_dim s2) h1) as (h3 & E3 & X3 & K3 & N3).
  { apply G1. } { destruct X1; lia. }
  rewrite E3.
  assert (X13 : heap_ext h h3) by (eapply heap_ext_trans; eauto).
  assert (G3 : G eps Pg h3 s2) by (split; [auto|exact (seq_rng_ext h1 h3 s2 X3 (proj2 G2))]).
  assert (S3 : sv = true -> exists ls, s_prev_entries s2 = Some ls /\ gates h3 ls = gates h (s_entries s)).
  { intros K. destruct (S1 K) as (ls & H1 & H2). exists ls. split; auto. rewrite <- H2.
    eapply gates_ext; eauto. now apply G1. }
  assert (N4 : sv = false -> s_prev_entries s2 = s_prev_entries s /\ s_prev_product s2 = s_prev_product s).
  { intros K. destruct (N1 K). subst. auto. }
  destruct (full_pure eps (s_dim s2) (gate (obj h1 l))) as [u|x].
  - unfold se_bind, se_lift. destruct (upd p u) as [p'|x].
    + exists h3, (set_product s2 (Some p')), (Ok tt).
      split; [reflexivity|]. split; auto. split; [split; [apply G3|exact (proj2 G3)]|].
      split; [exact D1|]. split; [exact A1|]. split; [exact S3|]. split; [exact N4|].
      simpl. rewrite L1. split; [auto|]. split; [discriminate|auto].
    + exists h3, s2, (Raise x). split; [reflexivity|]. split; auto. split; auto.
      split; [exact D1|]. split; [exact A1|]. split; [exact S3|]. split; [exact N4|].
      simpl. rewrite L1. split; [auto|]. split; [discriminate|discriminate].
  - exists h3, s2, (Raise x). split; [reflexivity|]. split; auto. split; auto.
    split; [exact D1|]. split; [exact A1|]. split; [exact S3|]. split; [exact N4|].
    simpl. rewrite L1. split; [auto|]. split; [discriminate|discriminate].
Qed.

(** * product *)
Fixpoint pure_loop (eps : R) (d : nat) (gs : list (unitary * list nat)) (acc : unitary) : res unitary :=
  match gs with
  | [] => Ok acc
  | g :: t => bind (full_pure eps d g) (fun u =>
              bind (u_left_multiply eps acc u) (fun acc' => pure_loop eps d t acc'))
  end.

Definition pure_product (eps : R) (d : nat) (gs : list (unitary * list nat)) : res unitary :=
  bind (mk_unitary eps d None None [] false []) (pure_loop eps d gs).

Lemma product_loop_spec eps Pg d ls : forall h acc,
  heap_ok eps Pg h -> in_heap h ls ->
  exists h' : heap, product_loop eps d ls acc h = (h', pure_loop eps d (gates h ls) acc) /\
    heap_ext h h' /\ heap_ok eps Pg h' /\ List.length h' = List.length h.
Proof.
  induction ls as [|l ls IH]; intros h acc Hok Hr.
  - exists h. split; [reflexivity|]. auto using heap_ext_refl.
  - apply in_heap_cons in Hr. destruct Hr as [Hl Hr].
    destruct (h_full_spec eps Pg l d h Hok Hl) as (h1 & E1 & X1 & K1 & N1).
    cbn [product_loop gates map pure_loop]. unfold se_bind at 1. rewrite E1.
    destruct (full_pure eps d (gate (obj h l))) as [u|x]; cbn [bind].
    + unfold se_bind at 1. unfold se_lift. destruct (u_left_multiply eps acc u) as [acc'|x]; cbn [bind].
      * destruct (IH h1 acc' K1) as (h2 & E2 & X2 & K2 & N2); [eapply in_heap_ext; eauto|].
        exists h2. rewrite E2. fold (gates h ls). rewrite (gates_ext h h1 ls) by auto.
        split; auto. split; [eapply heap_ext_trans; eauto|]. split; auto. lia.
      * exists h1. auto.
    + exists h1. auto.
Qed.

(** The product a sequence reports. *)
Definition reported (eps : R) (h : heap) (s : sequence) : res unitary :=
  match s_product s with
  | Some p => Ok p
  | None => pure_product eps (s_dim s) (gates h (s_entries s))
  end.

Lemma product_spec eps Pg h s :
  G eps Pg h s ->
  exists h',
    product eps (h, s) = ((h', match reported eps h s with
                               | Ok p => set_product s (Some p)
                               | Raise _ => s end), reported eps h s) /\
    heap_ext h h' /\ heap_ok eps Pg h' /\ List.length h' = List.length h.
Proof.
  intros [Hok [Hr Hp]]. unfold product, reported. unfold se_bind at 1. cbn [m_self snd].
  destruct (s_product s) as [p|] eqn:Ep.
  - exists h. split; [|auto using heap_ext_refl]. unfold se_ret. repeat f_equal.
    destruct s; simpl in *; subst; reflexivity.
  - unfold pure_product, se_bind, se_lift.
    destruct (mk_unitary eps (s_dim s) None None [] false []) as [p0|x]; cbn [bind].
    + unfold m_heap. cbn [fst snd].
      destruct (product_loop_spec eps Pg (s_dim s) (s_entries s) h p0 Hok Hr) as (h1 & E1 & X1 & K1 & N1).
      rewrite E1. exists h1. split; [|auto].
      destruct (pure_loop eps (s_dim s) (gates h (s_entries s)) p0); reflexivity.
    + exists h. split; auto using heap_ext_refl.
Qed.

(** * inverse *)
Lemma invert_loop_frame eps (Pg : unitary * list nat -> Prop) ls : forall (h : heap) N,
  (forall l, In l ls -> (N <= l < List.length h)%nat) ->
  (forall u v qs, Pg (u, qs) -> u_inverse eps u = Ok v -> Pg (v, qs)) ->
  heap_ok eps Pg h ->
  exists h' r, invert_loop eps ls h = (h', r) /\ heap_ok eps Pg h' /\
    List.length h' = List.length h /\
    (forall l, ~ In l ls -> obj h' l = obj h l).
Proof.
  induction ls as [|l ls IH]; intros h N Hl Hinv Hok.
  - exists h, (Ok tt). split; [reflexivity|]. auto.
  - cbn [invert_loop]. unfold se_bind at 1, se_get. unfold se_bind at 1, se_lift.
    destruct (u_inverse eps (e_unitary (obj h l))) as [ui|x] eqn:Eu.
    + unfold se_bind at 1, se_put.
      assert (L : (l < List.length h)%nat) by (apply Hl; simpl; auto).
      set (e := {| e_unitary := ui; e_apply := e_apply (obj h l); e_cache := [] |}).
      destruct (IH (list_set h l e) N) as (h' & r & E & K & Ln & Fr).
      * intros x Hx. rewrite list_set_length. apply Hl; simpl; auto.
      * exact Hinv.
      * intros k Hk. rewrite list_set_length in Hk. rewrite obj_set by auto.
        destruct (Nat.eqb l k); auto. split; [intros d u; discriminate|].
        apply (Hinv (e_unitary (obj h l))); auto. exact (proj2 (Hok l L)).
      * exists h', r. split; auto. split; auto. rewrite list_set_length in Ln. split; auto.
        intros k Hk. rewrite Fr by (simpl in Hk; tauto). rewrite obj_set by auto.
        destruct (Nat.eqb_spec l k) as [<-|]; auto. simpl in Hk. tauto.
    + exists h, (Raise x). auto.
Qed.

Lemma new_sequence_spec eps Pg d ia ls h :
  heap_ok eps Pg h -> in_heap h ls ->
  exists h' r, new_sequence d ia ls h = (h', r) /\ heap_ext h h' /\ heap_ok eps Pg h' /\
    ((forallb (fun l => entry_valid d (obj h l)) ls = true /\
      exists ls', r = Ok {| s_dim := d; s_array := ia; s_entries := ls'; s_product := None;
                            s_prev_entries := None; s_prev_product := None |} /\
        in_heap h' ls' /\ gates h' ls' = gates h ls /\
        (forall l, In l ls' -> (List.length h <= l)%nat) /\ renamed ls ls' /\
        List.length ls' = List.length ls)
     \/ (forallb (fun l => entry_valid d (obj h l)) ls = false /\ h' = h /\ r = Raise AssertionError)).
Proof.
  intros Hok Hr. unfold new_sequence.
  destruct (forallb (fun l => entry_valid d (obj h l)) ls) eqn:V.
  - destruct (deepcopy h ls) as [h' ls'] eqn:E.
    destruct (deepcopy_frame eps Pg h ls h' ls' Hr E) as (E1 & E2 & E3 & E4 & E5 & E6 & E7).
    eexists _, _; split; [reflexivity|]; split; [auto|]; split; [auto|]; left;
      split; [auto|]; exists ls'; auto 10.
  - eexists _, _. split; [reflexivity|]. split; [apply heap_ext_refl|]. auto 10.
Qed.
