(** The store of entries: frame lemmas valid for every clean-up threshold. *)
From Coq Require Import Reals List Arith Lia Lra Bool String ZArith.
From Coquelicot Require Import Complex.
From Verif Require Import Base CMat CMatFacts Det DetFacts ModelUnitary ModelEntry ModelSequence
  Spec SpecModel PUnitary PEntry.
Import ListNotations.
Open Scope R_scope.
Open Scope C_scope.

(** What an entry says, forgetting its identity and its cache. *)
Definition gate (e : entry) : unitary * list nat := (e_unitary e, e_apply e).

Definition gates (h : heap) (ls : list nat) : list (unitary * list nat) :=
  map (fun l => gate (obj h l)) ls.

Definition in_heap (h : heap) (ls : list nat) : Prop := forall l, In l ls -> (l < List.length h)%nat.

(** Every stored object has a faithful cache and says something that satisfies
    [Pg]. *)
Definition heap_ok (eps : R) (Pg : unitary * list nat -> Prop) (h : heap) : Prop :=
  forall l, (l < List.length h)%nat -> cache_ok eps (obj h l) /\ Pg (gate (obj h l)).

(** Nothing but caches changed in the objects of [h]. *)
Definition heap_ext (h h' : heap) : Prop :=
  (List.length h <= List.length h')%nat /\
  forall l, (l < List.length h)%nat -> gate (obj h' l) = gate (obj h l).

Lemma heap_ext_refl h : heap_ext h h.
Proof. split; auto. Qed.
Lemma heap_ext_trans h1 h2 h3 : heap_ext h1 h2 -> heap_ext h2 h3 -> heap_ext h1 h3.
Proof.
  intros [L1 H1] [L2 H2]. split; [lia|]. intros l Hl. rewrite H2 by lia. auto.
Qed.
Lemma heap_ext_app h t : heap_ext h (h ++ t).
Proof.
  split; [rewrite app_length; lia|]. intros l Hl. unfold obj. now rewrite app_nth1.
Qed.
Lemma in_heap_ext h h' ls : heap_ext h h' -> in_heap h ls -> in_heap h' ls.
Proof. intros [L _] H l Hl. specialize (H l Hl). lia. Qed.
Lemma gates_ext h h' ls : heap_ext h h' -> in_heap h ls -> gates h' ls = gates h ls.
Proof. intros [_ E] H. apply map_ext_in. intros l Hl. apply E. auto. Qed.
Lemma in_heap_nil h : in_heap h [].
Proof. intros l []. Qed.
Lemma in_heap_app h l1 l2 : in_heap h (l1 ++ l2) <-> in_heap h l1 /\ in_heap h l2.
Proof.
  unfold in_heap. split.
  - intros H. split; intros l Hl; apply H; apply in_or_app; auto.
  - intros [H1 H2] l Hl. apply in_app_or in Hl. destruct Hl; auto.
Qed.
Lemma in_heap_cons h l ls : in_heap h (l :: ls) <-> (l < List.length h)%nat /\ in_heap h ls.
Proof.
  unfold in_heap. split.
  - intros H. split; [apply H; simpl; auto|]. intros x Hx. apply H; simpl; auto.
  - intros [H1 H2] x [<-|Hx]; auto.
Qed.

Lemma obj_app_l h t l : (l < List.length h)%nat -> obj (h ++ t) l = obj h l.
Proof. intros H. unfold obj. now rewrite app_nth1. Qed.
Lemma obj_app_r h e : obj (h ++ [e]) (List.length h) = e.
Proof. unfold obj. rewrite app_nth2, Nat.sub_diag by lia. reflexivity. Qed.

(** * deepcopy *)
Lemma deepcopy_aux_spec ls : forall h memo N,
  (N <= List.length h)%nat ->
  (forall l v, memo_get memo l = Some v ->
     (l < N)%nat /\ (N <= v < List.length h)%nat /\ obj h v = obj h l) ->
  (forall l l' v, memo_get memo l = Some v -> memo_get memo l' = Some v -> l = l') ->
  (forall l, In l ls -> (l < N)%nat) ->
  exists g t,
    deepcopy_aux h memo ls = (h ++ t, map g ls) /\
    (forall l v, memo_get memo l = Some v -> g l = v) /\
    (forall l, In l ls ->
       (N <= g l < List.length (h ++ t))%nat /\ obj (h ++ t) (g l) = obj h l) /\
    (forall l l', In l ls \/ memo_get memo l <> None -> In l' ls \/ memo_get memo l' <> None ->
       g l = g l' -> l = l') /\
    (forall k, (List.length h <= k < List.length (h ++ t))%nat ->
       exists l, In l ls /\ obj (h ++ t) k = obj h l).
Proof.
  induction ls as [|l ls IH]; intros h memo N HN Hm Hinj Hlt.
  - exists (fun l => match memo_get memo l with Some v => v | None => 0%nat end), [].
    rewrite app_nil_r. simpl. split; auto. split; [|split; [|split]].
    + intros l v ->. auto.
    + tauto.
    + intros l l' [[]|H1] [[]|H2] E.
      destruct (memo_get memo l) as [v|] eqn:E1; [|tauto].
      destruct (memo_get memo l') as [v'|] eqn:E2; [|tauto]. subst. eauto.
    + intros k Hk. lia.
  - simpl. destruct (memo_get memo l) as [v|] eqn:E.
    + destruct (IH h memo N HN Hm Hinj) as (g & t & E1 & E2 & E3 & E4 & E5).
      { intros x Hx. apply Hlt; simpl; auto. }
      exists g, t. rewrite E1. split; [now rewrite (E2 l v E)|]. split; auto.
      split; [|split].
      * intros x [<-|Hx]; [|auto]. rewrite (E2 l v E). destruct (Hm l v E) as (H0 & H1 & H2).
        split; [rewrite app_length; lia|]. rewrite obj_app_l by lia. auto.
      * intros x y Hx Hy. apply E4.
        -- destruct Hx as [[<-|Hx]|Hx]; auto. right; congruence.
        -- destruct Hy as [[<-|Hy]|Hy]; auto. right; congruence.
      * intros k Hk. destruct (E5 k Hk) as (x & Hx & Ex). exists x. auto.
    + assert (Hl : (l < N)%nat) by (apply Hlt; simpl; auto).
      destruct (IH (h ++ [obj h l]) ((l, List.length h) :: memo) N) as (g & t & E1 & E2 & E3 & E4 & E5).
      * rewrite app_length. lia.
      * intros x v. simpl. destruct (Nat.eqb_spec l x) as [<-|Hne].
        -- intros [= <-]. split; auto. split; [rewrite app_length; simpl; lia|].
           rewrite obj_app_r, obj_app_l by lia. reflexivity.
        -- intros H. destruct (Hm x v H) as (H0 & H1 & H2). split; auto.
           split; [rewrite app_length; lia|]. now rewrite !obj_app_l by lia.
      * intros x y v. simpl. destruct (Nat.eqb_spec l x) as [<-|Hx], (Nat.eqb_spec l y) as [<-|Hy]; auto.
        -- intros [= <-] H. destruct (Hm y _ H). lia.
        -- intros H [= <-]. destruct (Hm x _ H). lia.
        -- apply Hinj.
      * intros x Hx. apply Hlt; simpl; auto.
      * assert (Gl : g l = List.length h) by (apply E2; simpl; now rewrite Nat.eqb_refl).
        exists g, (obj h l :: t).
        replace (h ++ obj h l :: t) with ((h ++ [obj h l]) ++ t) by (rewrite <- app_assoc; reflexivity).
        rewrite E1, Gl. split; auto. split; [|split; [|split]].
        -- intros x v Hx. apply E2. simpl. destruct (Nat.eqb_spec l x) as [<-|]; [congruence|auto].
        -- intros x [<-|Hx].
           ++ rewrite Gl. split; [rewrite !app_length; simpl; lia|].
              rewrite obj_app_l by (rewrite app_length; simpl; lia). apply obj_app_r.
           ++ destruct (E3 x Hx) as [H1 H2]. split; auto. rewrite H2. apply obj_app_l.
              assert (x < N)%nat by (apply Hlt; simpl; auto). lia.
        -- intros x y Hx Hy. apply E4; simpl.
           ++ destruct (Nat.eqb_spec l x); [right; congruence|].
              destruct Hx as [[?|?]|?]; auto; tauto.
           ++ destruct (Nat.eqb_spec l y); [right; congruence|].
              destruct Hy as [[?|?]|?]; auto; tauto.
        -- intros k Hk. destruct (Nat.eq_dec k (List.length h)) as [->|Hne].
           ++ exists l. split; auto. rewrite obj_app_l by (rewrite app_length; simpl; lia).
              apply obj_app_r.
           ++ destruct (E5 k) as (x & Hx & Ex); [rewrite !app_length in *; simpl in *; lia|].
              exists x. split; auto. rewrite Ex. apply obj_app_l.
              assert (x < N)%nat by (apply Hlt; simpl; auto). lia.
Qed.

Lemma deepcopy_spec h ls : in_heap h ls ->
  exists g t,
    deepcopy h ls = (h ++ t, map g ls) /\
    (forall l, In l ls ->
       (List.length h <= g l < List.length (h ++ t))%nat /\ obj (h ++ t) (g l) = obj h l) /\
    (forall l l', In l ls -> In l' ls -> g l = g l' -> l = l') /\
    (forall k, (List.length h <= k < List.length (h ++ t))%nat ->
       exists l, In l ls /\ obj (h ++ t) k = obj h l).
Proof.
  intros H. destruct (deepcopy_aux_spec ls h [] (List.length h)) as (g & t & E1 & _ & E3 & E4 & E5); auto.
  - discriminate.
  - discriminate.
  - exists g, t. unfold deepcopy. auto 6.
Qed.

(** The same list up to a renaming of the locations. *)
Definition renamed (ls ls' : list nat) : Prop :=
  exists g, ls' = map g ls /\ forall l l', In l ls -> In l' ls -> g l = g l' -> l = l'.

Lemma renamed_NoDup ls ls' : renamed ls ls' -> NoDup ls -> NoDup ls'.
Proof.
  intros (g & -> & E4) Hnd. induction Hnd as [|x l Hx Hnd IH]; simpl; constructor.
  - intros Hin. apply in_map_iff in Hin. destruct Hin as (y & Hy & Hin).
    apply E4 in Hy; simpl; auto. subst. auto.
  - apply IH. intros a b Ha Hb. apply E4; simpl; auto.
Qed.

Lemma count_renamed g ls : forall (l : nat),
  (forall x, In x ls -> g x = g l -> x = l) ->
  count_occ Nat.eq_dec (map g ls) (g l) = count_occ Nat.eq_dec ls l.
Proof.
  induction ls as [|x ls IH]; intros l H; [reflexivity|]. cbn [map count_occ].
  rewrite (IH l) by (intros; apply H; simpl; auto).
  destruct (Nat.eq_dec x l) as [->|N].
  - destruct (Nat.eq_dec (g l) (g l)); congruence.
  - destruct (Nat.eq_dec (g x) (g l)) as [E|]; [|reflexivity]. destruct N. apply H; simpl; auto.
Qed.

Lemma renamed_trans l1 l2 l3 : renamed l1 l2 -> renamed l2 l3 -> renamed l1 l3.
Proof.
  intros (g & -> & Hg) (k & -> & Hk). exists (fun l => k (g l)). split; [apply map_map|].
  intros l l' Hl Hl' E. apply Hg; auto. apply Hk; auto; now apply in_map.
Qed.

Lemma deepcopy_frame eps Pg h ls h' ls' : in_heap h ls -> deepcopy h ls = (h', ls') ->
  heap_ext h h' /\ (heap_ok eps Pg h -> heap_ok eps Pg h') /\ in_heap h' ls' /\
  gates h' ls' = gates h ls /\ (forall l, In l ls' -> (List.length h <= l)%nat) /\
  renamed ls ls' /\ List.length ls' = List.length ls.
Proof.
  intros H E. destruct (deepcopy_spec h ls H) as (g & t & E1 & E3 & E4 & E5).
  rewrite E1 in E. injection E as <- <-. split; [apply heap_ext_app|].
  split; [|split; [|split; [|split; [|split]]]].
  - intros Hok k Hk. destruct (Nat.lt_ge_cases k (List.length h)) as [L|L].
    + rewrite obj_app_l by auto. auto.
    + destruct (E5 k) as (x & Hx & ->); auto.
  - intros l Hl. apply in_map_iff in Hl. destruct Hl as (x & <- & Hx). now apply E3.
  - unfold gates. rewrite map_map. apply map_ext_in. intros x Hx. destruct (E3 x Hx) as [_ ->]. auto.
  - intros l Hl. apply in_map_iff in Hl. destruct Hl as (x & <- & Hx). now apply E3.
  - exists g. split; auto.
  - now rewrite map_length.
Qed.

(** * get_full_unitary on a stored object *)
Definition full_pure (eps : R) (d : nat) (g : unitary * list nat) : res unitary :=
  snd (get_full_unitary eps d {| e_unitary := fst g; e_apply := snd g; e_cache := [] |}).

Lemma obj_set h l e k : (l < List.length h)%nat ->
  obj (list_set h l e) k = if Nat.eqb l k then e else obj h k.
Proof. intros H. unfold obj. now apply nth_list_set. Qed.

Lemma h_full_spec eps Pg l d h :
  heap_ok eps Pg h -> (l < List.length h)%nat ->
  exists h' : heap, h_full eps l d h = (h', full_pure eps d (gate (obj h l))) /\
    heap_ext h h' /\ heap_ok eps Pg h' /\ List.length h' = List.length h.
Proof.
  intros Hok Hl. unfold h_full.
  destruct (get_full_unitary_cache eps d (obj h l) (proj1 (Hok l Hl))) as (H1 & H2 & H3 & H4).
  destruct (get_full_unitary eps d (obj h l)) as [e' r]. simpl in *. exists (list_set h l e').
  split; [|split; [|split]].
  - f_equal. rewrite H1. reflexivity.
  - split; [rewrite list_set_length; lia|]. intros k Hk. rewrite obj_set by auto.
    destruct (Nat.eqb_spec l k) as [<-|]; auto. unfold gate. now rewrite H2, H3.
  - intros k Hk. rewrite list_set_length in Hk. rewrite obj_set by auto.
    destruct (Nat.eqb_spec l k); auto. split; auto. unfold gate. rewrite H2, H3. now apply Hok.
  - apply list_set_length.
Qed.
