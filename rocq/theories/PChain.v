(** Averages over the answers of a random generator. *)
From Coq Require Import Reals List Arith Lia Lra Bool ZArith Permutation ClassicalEpsilon.
From Coquelicot Require Import Coquelicot.
From Verif Require Import Base CMat ModelUnitary ModelEntry ModelPrimitive ModelSequence ModelCompiler Spec SpecModel
  SpecCompiler SpecChain.
Import ListNotations.
Open Scope R_scope.

(** * Indicators and means *)
Lemma ind_true (P : Prop) : P -> ind P = 1.
Proof. intros H. unfold ind. destruct (excluded_middle_informative P); [reflexivity|contradiction]. Qed.
Lemma ind_false (P : Prop) : ~ P -> ind P = 0.
Proof. intros H. unfold ind. destruct (excluded_middle_informative P); [contradiction|reflexivity]. Qed.
Lemma ind_iff (P Q : Prop) : (P <-> Q) -> ind P = ind Q.
Proof.
  intros H. unfold ind. destruct (excluded_middle_informative P), (excluded_middle_informative Q); auto; tauto.
Qed.
Lemma ind_and (P Q : Prop) : ind (P /\ Q) = ind P * ind Q.
Proof.
  destruct (Classical_Prop.classic P) as [p|p]; [|rewrite !(ind_false P), ind_false by tauto; ring].
  destruct (Classical_Prop.classic Q) as [q|q]; [rewrite !ind_true by tauto; ring|rewrite (ind_false Q), ind_false by tauto; ring].
Qed.
Lemma ind_range (P : Prop) : 0 <= ind P <= 1.
Proof. unfold ind. destruct (excluded_middle_informative P); lra. Qed.

Lemma sum_ext {A} (l : list A) F G : (forall x, In x l -> F x = G x) ->
  fold_right Rplus 0 (map F l) = fold_right Rplus 0 (map G l).
Proof.
  induction l as [|x t IH]; intros H; [reflexivity|]. cbn [map fold_right].
  rewrite H by (simpl; auto). rewrite IH; [reflexivity|]. intros; apply H; simpl; auto.
Qed.
Lemma sum_scal {A} (l : list A) F k :
  fold_right Rplus 0 (map (fun x => k * F x) l) = k * fold_right Rplus 0 (map F l).
Proof. induction l as [|x t IH]; cbn [map fold_right]; [ring|]. rewrite IH. ring. Qed.
Lemma sum_const {A} (l : list A) k : fold_right Rplus 0 (map (fun _ => k) l) = INR (List.length l) * k.
Proof.
  induction l as [|x t IH]; [simpl; ring|]. cbn [map fold_right]. rewrite IH. cbn [List.length]. rewrite S_INR. ring.
Qed.

Lemma meanl_ext {A} (l : list A) F G : (forall x, In x l -> F x = G x) -> meanl l F = meanl l G.
Proof. intros H. unfold meanl. now rewrite (sum_ext l F G H). Qed.
Lemma meanl_scal {A} (l : list A) F k : meanl l (fun x => k * F x) = k * meanl l F.
Proof. unfold meanl. rewrite sum_scal. unfold Rdiv. ring. Qed.
Lemma meanl_const {A} (l : list A) k : l <> [] -> meanl l (fun _ => k) = k.
Proof.
  intros H. unfold meanl. rewrite sum_const. field. apply not_0_INR. destruct l; [contradiction|discriminate].
Qed.
Lemma meanl_nth {A} (l : list A) d F : meanl l F = meanl (seq 0 (List.length l)) (fun i => F (nth i l d)).
Proof.
  unfold meanl. rewrite seq_length. f_equal. f_equal.
  rewrite <- (map_map (fun i => nth i l d) F). f_equal.
  apply (nth_ext _ _ d d).
  - now rewrite map_length, seq_length.
  - intros i Hi. rewrite (nth_indep (map _ _) d ((fun i => nth i l d) 0%nat)) by now rewrite map_length, seq_length.
    rewrite (map_nth (fun i => nth i l d)), seq_nth by auto. reflexivity.
Qed.
Lemma meanl_map {A B} (l : list A) (f : A -> B) F : meanl (map f l) F = meanl l (fun x => F (f x)).
Proof. unfold meanl. now rewrite map_map, map_length. Qed.

(** * Orders *)
Lemma insertions_spec {A} (x : A) l l' : In l' (insertions x l) -> Permutation l' (x :: l).
Proof.
  revert l'. induction l as [|y t IH]; intros l' H.
  - simpl in H. destruct H as [<-|[]]. reflexivity.
  - cbn [insertions] in H. destruct H as [<-|H]; [reflexivity|].
    apply in_map_iff in H. destruct H as (z & <- & H). apply IH in H.
    rewrite H. apply perm_swap.
Qed.

Lemma insertions_split {A} (x : A) l1 l2 : In (l1 ++ x :: l2) (insertions x (l1 ++ l2)).
Proof.
  induction l1 as [|y t IH]; simpl.
  - destruct l2; simpl; auto.
  - right. apply in_map. exact IH.
Qed.

Lemma orders_spec {A} (l : list A) : forall l', In l' (orders l) <-> Permutation l' l.
Proof.
  induction l as [|x t IH]; intros l'.
  - simpl. split; [intros [<-|[]]; reflexivity|]. intros H. apply Permutation_sym, Permutation_nil in H. auto.
  - cbn [orders]. rewrite in_flat_map. split.
    + intros (o & H1 & H2). apply IH in H1. apply insertions_spec in H2. now rewrite H2, H1.
    + intros H. assert (I : In x l') by (apply (Permutation_in x (Permutation_sym H)); simpl; auto).
      apply in_split in I. destruct I as (l1 & l2 & ->).
      exists (l1 ++ l2). split; [|apply insertions_split].
      apply IH. apply Permutation_sym, Permutation_cons_app_inv with (a := x), Permutation_sym. exact H.
Qed.

Lemma orders_nonempty {A} (l : list A) : orders l <> [].
Proof.
  intros E. assert (H : In l (orders l)) by (apply orders_spec; reflexivity). rewrite E in H. destruct H.
Qed.

Lemma insertions_nodup {A} (x : A) l : ~ In x l -> NoDup (insertions x l).
Proof.
  induction l as [|y t IH]; intros H; cbn [insertions].
  - constructor; [simpl; tauto|constructor].
  - constructor.
    + intros K. apply in_map_iff in K. destruct K as (z & E & _). injection E as E _. apply H. simpl; auto.
    + apply FinFun.Injective_map_NoDup; [intros a b E; now injection E|]. apply IH. intros K. apply H. simpl; auto.
Qed.

Lemma insertions_inj {A} (x : A) l l' z : ~ In x l -> ~ In x l' -> In z (insertions x l) -> In z (insertions x l') -> l = l'.
Proof.
  revert l' z. induction l as [|y t IH]; intros [|y' t'] z H H' I I'.
  - reflexivity.
  - exfalso. apply insertions_spec, Permutation_length in I. apply insertions_spec, Permutation_length in I'. simpl in *. lia.
  - exfalso. apply insertions_spec, Permutation_length in I. apply insertions_spec, Permutation_length in I'. simpl in *. lia.
  - cbn [insertions] in I, I'. destruct I as [<-|I], I' as [E|I'].
    + congruence.
    + apply in_map_iff in I'. destruct I' as (w & E & _). injection E as E _. exfalso. apply H'. simpl; auto.
    + subst z. apply in_map_iff in I. destruct I as (w & E & _). injection E as E _. exfalso. apply H. simpl; auto.
    + apply in_map_iff in I. apply in_map_iff in I'. destruct I as (w & E & I), I' as (w' & E' & I').
      subst z. injection E' as -> ->. f_equal. eapply IH; eauto; intros K; [apply H|apply H']; simpl; auto.
Qed.

(** Each order is listed once. *)
Lemma orders_nodup {T} (l : list T) : NoDup l -> NoDup (orders l).
Proof.
  induction 1 as [|x t H N IH]; cbn [orders].
  - constructor; [simpl; tauto|constructor].
  - assert (B : forall o, In o (orders t) -> ~ In x o).
    { intros o Ho K. apply orders_spec in Ho. apply (Permutation_in _ Ho) in K. contradiction. }
    clear N H. induction IH as [|o os H1 N IH]; cbn [flat_map]; [constructor|].
    assert (A : NoDup (insertions x o)) by (apply insertions_nodup, B; simpl; auto).
    assert (D : forall z, In z (insertions x o) -> ~ In z (flat_map (insertions x) os)).
    { intros z Hz K. apply in_flat_map in K. destruct K as (o' & K1 & K2).
      assert (o = o') by (eapply insertions_inj; [| |exact Hz|exact K2]; apply B; simpl; auto). subst. contradiction. }
    assert (N' : NoDup (flat_map (insertions x) os)) by (apply IH; intros; apply B; simpl; auto).
    revert A D. generalize (insertions x o). intros l. induction l as [|a l IHl]; intros A D; [exact N'|].
    inversion A; subst. simpl. constructor.
    + rewrite in_app_iff. intros [K|K]; [contradiction|]. eapply D; [|exact K]. simpl; auto.
    + apply IHl; auto. intros z Hz. apply D. simpl; auto.
Qed.

(** * Means over answers *)
Lemma mean_answer_ext q F F' m m' : (forall a, possible q a -> F a = F' a) ->
  mean_answer q F m -> mean_answer q F' m' -> m = m'.
Proof.
  intros H M M'. destruct q as [|n|n]; cbn [mean_answer] in *.
  - assert (X : is_RInt (fun x => F (AReal x)) 0 1 m').
    { apply (@is_RInt_ext R_NormedModule (fun x => F' (AReal x))); [|exact M'].
      intros x [X1 X2]. rewrite Rmin_left in X1 by lra. rewrite Rmax_right in X2 by lra.
      symmetry. apply H. simpl. lra. }
    apply (is_RInt_unique (V := R_CompleteNormedModule)) in M.
    apply (is_RInt_unique (V := R_CompleteNormedModule)) in X. congruence.
  - destruct M as [Hn ->], M' as [_ ->]. apply meanl_ext. intros k Hk. apply H. apply in_seq in Hk. simpl. lia.
  - subst. apply meanl_ext. intros l Hl. apply H. exact Hl.
Qed.

Lemma const_RInt (k : R) : is_RInt (fun _ => k) 0 1 k.
Proof.
  refine (eq_ind _ (fun m => is_RInt (fun _ => k) 0 1 m) (@is_RInt_const R_NormedModule 0 1 k) k _).
  change ((1 - 0) * k = k). ring.
Qed.

Lemma mean_answer_const q F m k : (forall a, possible q a -> F a = k) -> mean_answer q F m -> m = k.
Proof.
  intros H M. apply (mean_answer_ext q F (fun _ => k)); auto.
  destruct q as [|n|n]; cbn [mean_answer] in *.
  - apply const_RInt.
  - split; [apply M|]. symmetry. apply meanl_const. destruct M as [M _]. destruct n; [lia|discriminate].
  - symmetry. apply meanl_const, orders_nonempty.
Qed.

Lemma mean_answer_possible q F m : mean_answer q F m -> exists a, possible q a.
Proof.
  destruct q as [|n|n]; cbn [mean_answer].
  - intros _. exists (AReal 0). simpl. lra.
  - intros [H _]. exists (AInt 0). simpl. lia.
  - intros _. exists (AList (seq 0 n)). simpl. apply orders_spec. reflexivity.
Qed.

(** * Generators that tell a given story *)
Definition legal (h : list (question * answer)) : Prop := List.Forall (fun qa => possible (fst qa) (snd qa)) h.

Definition reply (g : rng) (k : nat) (q : question) : answer :=
  match q with QUnif => AReal (g_unif g k) | QInt n => AInt (g_int g k n) | QPerm n => AList (g_perm g k n) end.

Lemma replies_reply g k q a : replies g k (q, a) <-> (reply g k q = a).
Proof.
  destruct q, a; simpl; split; intros H; try discriminate; try contradiction; try congruence; try (now injection H).
Qed.

Lemma reply_possible g k q : rng_ok g -> match q with QInt n => (0 < n)%nat | _ => True end -> possible q (reply g k q).
Proof.
  intros (G1 & G2 & G3) H. destruct q; simpl; auto. apply orders_spec. auto.
Qed.

Definition set_reply (g : rng) (k : nat) (q : question) (a : answer) : rng :=
  {| g_unif := fun j => match q, a with QUnif, AReal x => if Nat.eqb j k then x else g_unif g j | _, _ => g_unif g j end;
     g_int := fun j n => match q, a with QInt m, AInt i => if Nat.eqb j k && Nat.eqb n m then i else g_int g j n | _, _ => g_int g j n end;
     g_perm := fun j n => match q, a with QPerm m, AList l => if Nat.eqb j k && Nat.eqb n m then l else g_perm g j n | _, _ => g_perm g j n end |}.

Lemma set_reply_ok g k q a : rng_ok g -> possible q a -> rng_ok (set_reply g k q a).
Proof.
  intros (G1 & G2 & G3) P. split; [|split]; intros; simpl; destruct q as [|m|m], a as [x|i|l]; auto; simpl in P; try contradiction.
  - destruct (Nat.eqb k0 k); auto.
  - destruct (Nat.eqb_spec k0 k), (Nat.eqb_spec n m); simpl; auto. subst. auto.
  - destruct (Nat.eqb_spec k0 k), (Nat.eqb_spec n m); simpl; auto. subst. now apply orders_spec.
Qed.

Lemma set_reply_same g k q a : possible q a -> reply (set_reply g k q a) k q = a.
Proof.
  destruct q as [|m|m], a as [x|i|l]; simpl; try contradiction; intros _; now rewrite ?Nat.eqb_refl.
Qed.

Lemma set_reply_other g k q a j q' : j <> k \/ q' <> q -> reply (set_reply g k q a) j q' = reply g j q'.
Proof.
  intros H. destruct q as [|m|m], a as [x|i|l], q' as [|m'|m']; simpl; auto.
  - destruct (Nat.eqb_spec j k); auto. destruct H; congruence.
  - destruct (Nat.eqb_spec j k), (Nat.eqb_spec m' m); auto. destruct H; congruence.
  - destruct (Nat.eqb_spec j k), (Nat.eqb_spec m' m); auto. destruct H; congruence.
Qed.

Lemma tells_nil g r : tells g r [].
Proof. intros [|i] qa H; discriminate. Qed.

Lemma tells_snoc g r h qa : tells g r (h ++ [qa]) <-> tells g r h /\ replies g (r + List.length h) qa.
Proof.
  split.
  - intros H. split.
    + intros i qb E. apply H. rewrite nth_error_app1; auto. apply nth_error_Some. congruence.
    + apply H. rewrite nth_error_app2, Nat.sub_diag by lia. reflexivity.
  - intros [H1 H2] i qb E. destruct (Nat.lt_ge_cases i (List.length h)) as [L|L].
    + rewrite nth_error_app1 in E by auto. auto.
    + rewrite nth_error_app2 in E by auto. destruct (i - List.length h)%nat as [|j] eqn:J; [|destruct j; discriminate].
      injection E as <-. now replace i with (List.length h) by lia.
Qed.

Definition g_zero : rng := {| g_unif := fun _ => 0; g_int := fun _ _ => 0%nat; g_perm := fun _ n => seq 0 n |}.

Lemma teller r h : legal h -> exists g, rng_ok g /\ tells g r h.
Proof.
  induction h as [|[q a] h IH] using rev_ind; intros L.
  - exists g_zero. split; [|apply tells_nil]. split; [|split]; intros; simpl; auto; lra.
  - apply Forall_app in L. destruct L as [L1 L2]. inversion L2; subst. simpl in *.
    destruct (IH L1) as (g & G & T). exists (set_reply g (r + List.length h) q a).
    split; [now apply set_reply_ok|]. apply tells_snoc. split.
    + intros i [q' a'] E. apply replies_reply. rewrite set_reply_other.
      * apply replies_reply. now apply T.
      * left. assert (i < List.length h)%nat by (apply nth_error_Some; congruence). lia.
    + apply replies_reply. now apply set_reply_same.
Qed.

Lemma legal_snoc h q a : legal h -> possible q a -> legal (h ++ [(q, a)]).
Proof. intros H P. apply Forall_app. split; auto. Qed.

(** * An average is unique *)
Lemma known_unique r f h m' : average r f h m' -> forall m, legal h ->
  (forall g, rng_ok g -> tells g r h -> f g = m) -> m' = m.
Proof.
  induction 1 as [h m' H|h q F m' H IH M]; intros m L K.
  - destruct (teller r h L) as (g & G & T). rewrite <- (H g G T). auto.
  - apply (mean_answer_const q F m' m); auto. intros a P. apply IH; auto using legal_snoc.
    intros g G T. apply tells_snoc in T. apply K; tauto.
Qed.

(** [g'] gives the same answers as [g], but for question [q] at place [k]. *)
Definition same_but (k : nat) (q : question) (g g' : rng) : Prop :=
  forall j q', j <> k \/ q' <> q -> reply g j q' = reply g' j q'.

Lemma tells_same_but r h k q g g' : same_but k q g g' ->
  (forall i q' a, nth_error h i = Some (q', a) -> (r + i)%nat <> k \/ q' <> q) -> tells g r h -> tells g' r h.
Proof.
  intros S H T i [q' a] E. apply replies_reply. rewrite <- S by (eapply H; eauto). apply replies_reply. now apply T.
Qed.

Lemma average_indep r f h m : average r f h m -> forall i q0 a0 q g g',
  nth_error h i = Some (q0, a0) -> q0 <> q -> rng_ok g -> rng_ok g' -> tells g r h -> same_but (r + i) q g g' -> f g = f g'.
Proof.
  induction 1 as [h m H|h q1 F m H IH M]; intros i q0 a0 q g g' E N G G' T S.
  - rewrite !H; auto. eapply tells_same_but; eauto. intros j q' a E'.
    destruct (Nat.eq_dec j i) as [->|]; [right; congruence|left; lia].
  - set (a := reply g (r + List.length h) q1).
    assert (P : possible q1 a).
    { apply reply_possible; auto. destruct q1; auto. apply M. }
    apply (IH a P i q0 a0 q); auto.
    + rewrite nth_error_app1; auto. apply nth_error_Some. congruence.
    + apply tells_snoc. split; auto. apply replies_reply. reflexivity.
Qed.

(** If the answer to [q] at place [length h] does not matter, it may be replaced. *)
Lemma average_transport r f h q a q' a' : possible q a ->
  (forall g g', rng_ok g -> rng_ok g' -> tells g r h -> same_but (r + List.length h) q g g' -> f g = f g') ->
  forall t m, average r f (h ++ (q, a) :: t) m -> average r f (h ++ (q', a') :: t) m.
Proof.
  intros P I t m A. remember (h ++ (q, a) :: t) as h1 eqn:E. revert t E.
  induction A as [h1 m H|h1 q1 F m H IH M]; intros t ->.
  - apply average_known. intros g G T.
    set (g1 := set_reply g (r + List.length h) q a).
    assert (S : same_but (r + List.length h) q g g1).
    { intros j q2 D. unfold g1. now rewrite set_reply_other. }
    assert (G1 : rng_ok g1) by now apply set_reply_ok.
    assert (T0 : tells g r h).
    { intros i qa E. apply T. rewrite nth_error_app1; auto. apply nth_error_Some. congruence. }
    rewrite (I g g1 G G1 T0 S). apply H; auto.
    intros i [q2 a2] E. apply replies_reply.
    destruct (Nat.lt_trichotomy i (List.length h)) as [L|[L|L]].
    + unfold g1. rewrite set_reply_other by (left; lia). apply replies_reply. apply T0.
      now rewrite nth_error_app1 in E by auto.
    + subst i. rewrite nth_error_app2, Nat.sub_diag in E by lia. simpl in E. injection E as <- <-.
      unfold g1. now apply set_reply_same.
    + unfold g1. rewrite set_reply_other by (left; lia). apply replies_reply. apply T.
      rewrite nth_error_app2 in E by lia. rewrite nth_error_app2 by lia.
      destruct (i - List.length h)%nat eqn:J; [lia|]. exact E.
  - apply average_ask with (q := q1) (F := F); auto. intros b Pb. rewrite <- app_assoc. cbn [app].
    apply IH; auto. now rewrite <- app_assoc.
Qed.

Lemma tells_app_first r h q a t g : tells g r (h ++ (q, a) :: t) -> tells g r (h ++ [(q, a)]).
Proof.
  intros T i qa E. apply T. destruct (Nat.lt_ge_cases i (List.length h)) as [L|L].
  - rewrite nth_error_app1 in * by auto. exact E.
  - rewrite nth_error_app2 in * by auto. destruct (i - List.length h)%nat as [|j]; [exact E|destruct j; discriminate].
Qed.

Lemma question_dec (q q' : question) : {q = q'} + {q <> q'}.
Proof. decide equality; apply Nat.eq_dec. Qed.

Lemma average_unique r f h m : average r f h m -> forall m', legal h -> average r f h m' -> m = m'.
Proof.
  induction 1 as [h m H|h q F m H IH M]; intros m' L A'.
  - symmetry. eapply known_unique; eauto.
  - assert (A : average r f h m) by (eapply average_ask; eauto).
    inversion A' as [h2 m2 H'|h2 q' F' m2 H' M']; subst.
    + eapply known_unique; eauto.
    + destruct (question_dec q q') as [<-|N].
      * apply (mean_answer_ext q F F'); auto. intros a P. apply IH; auto using legal_snoc.
      * (* neither answer matters *)
        assert (I' : forall g g', rng_ok g -> rng_ok g' -> tells g r h -> same_but (r + List.length h) q' g g' -> f g = f g').
        { intros g g' G G' T S. set (a := reply g (r + List.length h) q).
          assert (P : possible q a) by (apply reply_possible; auto; destruct q; auto; apply M).
          apply (average_indep r f _ _ (H a P) (List.length h) q a q' g g'); auto.
          - rewrite nth_error_app2, Nat.sub_diag by lia. reflexivity.
          - apply tells_snoc. split; auto. apply replies_reply. reflexivity. }
        assert (E : forall a a', possible q a -> possible q' a' -> F a = F' a').
        { intros a a' P P'. apply IH; auto using legal_snoc.
          exact (average_transport r f h q' a' q a P' I' [] _ (H' a' P')). }
        destruct (mean_answer_possible _ _ _ M) as (a0 & P0).
        destruct (mean_answer_possible _ _ _ M') as (a1 & P1).
        rewrite (mean_answer_const q F m (F a0)); auto.
        -- symmetry. apply (mean_answer_const q' F' m' (F a0)); auto. intros a' P'. symmetry. auto.
        -- intros a P. rewrite (E a a1), (E a0 a1); auto.
Qed.

(** An average is between the bounds of the function. *)
Lemma mean_answer_bounds q F m lo hi : (forall a, possible q a -> lo <= F a <= hi) -> mean_answer q F m -> lo <= m <= hi.
Proof.
  intros H M. destruct q as [|n|n]; cbn [mean_answer] in M.
  - assert (K := const_RInt).
    split.
    + apply (is_RInt_le (fun _ => lo) (fun x => F (AReal x)) 0 1); auto; [lra|]. intros x Hx. apply H. simpl. lra.
    + apply (is_RInt_le (fun x => F (AReal x)) (fun _ => hi) 0 1); auto; [lra|]. intros x Hx. apply H. simpl. lra.
  - destruct M as [Hn ->]. unfold meanl. rewrite seq_length.
    assert (P : 0 < INR n) by (apply lt_0_INR; lia).
    assert (B : forall l, (forall k, In k l -> (k < n)%nat) ->
      INR (List.length l) * lo <= fold_right Rplus 0 (map (fun k => F (AInt k)) l) <= INR (List.length l) * hi).
    { induction l as [|k l IH]; intros Hl; [simpl; lra|]. cbn [map fold_right]. cbn [List.length]. rewrite S_INR.
      assert (lo <= F (AInt k) <= hi) by (apply H; simpl; apply Hl; simpl; auto).
      assert (Z := IH ltac:(intros; apply Hl; simpl; auto)). lra. }
    specialize (B (seq 0 n) ltac:(intros k Hk; apply in_seq in Hk; lia)). rewrite seq_length in B.
    split; [apply Rle_div_r|apply Rle_div_l]; lra.
  - subst m. unfold meanl.
    assert (P : 0 < INR (List.length (orders (seq 0 n)))).
    { apply lt_0_INR. generalize (orders_nonempty (seq 0 n)). destruct (orders (seq 0 n)); [congruence|simpl; lia]. }
    assert (B : forall l, (forall k, In k l -> In k (orders (seq 0 n))) ->
      INR (List.length l) * lo <= fold_right Rplus 0 (map (fun k => F (AList k)) l) <= INR (List.length l) * hi).
    { induction l as [|k l IH]; intros Hl; [simpl; lra|]. cbn [map fold_right]. cbn [List.length]. rewrite S_INR.
      assert (lo <= F (AList k) <= hi) by (apply H; simpl; apply Hl; simpl; auto).
      assert (Z := IH ltac:(intros; apply Hl; simpl; auto)). lra. }
    specialize (B _ (fun k Hk => Hk)).
    split; [apply Rle_div_r|apply Rle_div_l]; lra.
Qed.

Lemma average_bounds r f h m lo hi : average r f h m -> legal h ->
  (forall g, rng_ok g -> tells g r h -> lo <= f g <= hi) -> lo <= m <= hi.
Proof.
  induction 1 as [h m H|h q F m H IH M]; intros L B.
  - destruct (teller r h L) as (g & G & T). rewrite <- (H g G T). auto.
  - apply (mean_answer_bounds q F m); auto. intros a P. apply IH; auto using legal_snoc.
    intros g G T. apply tells_snoc in T. apply B; tauto.
Qed.

(** * Step functions of a draw *)
Fixpoint dot (l l' : list R) : R :=
  match l, l' with x :: t, y :: t' => x * y + dot t t' | _, _ => 0 end.

Lemma steps_RInt s f : 0 < s -> forall cs vs a, List.length cs = List.length vs ->
  (forall c, In c cs -> 0 <= c) ->
  (forall k x, (k < List.length cs)%nat ->
     (a + fold_right Rplus 0 (firstn k cs)) / s <= x < (a + fold_right Rplus 0 (firstn (S k) cs)) / s -> f x = nth k vs 0) ->
  is_RInt f (a / s) ((a + fold_right Rplus 0 cs) / s) (dot cs vs / s).
Proof.
  intros SP. induction cs as [|c cs IH]; intros [|v vs] a LN P H; try discriminate.
  - simpl. rewrite Rplus_0_r. replace (0 / s) with (@zero R_NormedModule) by (change (0 = 0 / s); field; lra).
    apply (@is_RInt_point R_NormedModule).
  - assert (c0 : 0 <= c) by (apply P; simpl; auto).
    assert (LE : a / s <= (a + c) / s).
    { unfold Rdiv. apply Rmult_le_compat_r; [left; now apply Rinv_0_lt_compat|lra]. }
    assert (A1 : is_RInt f (a / s) ((a + c) / s) (c * v / s)).
    { apply (@is_RInt_ext R_NormedModule (fun _ => v)).
      - intros x [X1 X2]. rewrite Rmin_left in X1 by lra. rewrite Rmax_right in X2 by lra.
        symmetry. apply (H 0%nat); [simpl; lia|]. cbn [firstn fold_right].
        rewrite Rplus_0_r. replace (a + (c + 0)) with (a + c) by ring. lra.
      - replace (c * v / s) with (@scal R_AbsRing R_NormedModule ((a + c) / s - a / s) v)
          by (change (((a + c) / s - a / s) * v = c * v / s); field; lra).
        apply (@is_RInt_const R_NormedModule). }
    assert (A2 : is_RInt f ((a + c) / s) ((a + c + fold_right Rplus 0 cs) / s) (dot cs vs / s)).
    { apply IH.
      - simpl in LN. lia.
      - intros; apply P; simpl; auto.
      - intros k x Hk Hx. apply (H (S k)); [simpl; lia|].
        change (firstn (S (S k)) (c :: cs)) with (c :: firstn (S k) cs).
        change (firstn (S k) (c :: cs)) with (c :: firstn k cs). cbn [fold_right].
        replace (a + (c + fold_right Rplus 0 (firstn k cs))) with (a + c + fold_right Rplus 0 (firstn k cs)) by ring.
        replace (a + (c + fold_right Rplus 0 (firstn (S k) cs))) with (a + c + fold_right Rplus 0 (firstn (S k) cs)) by ring.
        exact Hx. }
    assert (A3 := @is_RInt_Chasles R_NormedModule f _ _ _ _ _ A1 A2).
    cbn [fold_right dot]. replace ((a + (c + fold_right Rplus 0 cs)) / s)
      with ((a + c + fold_right Rplus 0 cs) / s) by (f_equal; ring).
    replace ((c * v + dot cs vs) / s) with (@plus R_NormedModule (c * v / s) (dot cs vs / s)); [exact A3|].
    change (c * v / s + dot cs vs / s = (c * v + dot cs vs) / s). field. lra.
Qed.

Lemma below_RInt t u v : 0 <= t <= 1 -> is_RInt (fun x => if Rlt_dec x t then u else v) 0 1 (t * u + (1 - t) * v).
Proof.
  intros H. assert (A := steps_RInt 1 (fun x => if Rlt_dec x t then u else v) Rlt_0_1 [t; 1 - t] [u; v] 0 eq_refl).
  cbn [fold_right dot] in A. replace (0 / 1) with 0 in A by field.
  replace ((0 + (t + (1 - t + 0))) / 1) with 1 in A by field.
  replace ((t * u + ((1 - t) * v + 0)) / 1) with (t * u + (1 - t) * v) in A by field. apply A.
  - intros c [<-|[<-|[]]]; lra.
  - intros [|[|k]] x Hk; cbn [firstn fold_right nth]; intros Hx; [| |simpl in Hk; lia].
    + destruct (Rlt_dec x t); [auto|lra].
    + destruct (Rlt_dec x t); [lra|auto].
Qed.
