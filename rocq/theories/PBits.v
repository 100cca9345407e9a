(** Binary digits and the index permutation computed by get_permute_matrix. *)
From Coq Require Import List Arith Lia Bool Permutation Sorted.
From Verif Require Import Base CMat ModelEntry Spec.
Import ListNotations.

(** Value of a digit list, most significant first. *)
Definition val (l : list nat) : nat := fold_left (fun a b => 2 * a + b) l 0.

Lemma fold_val l a : fold_left (fun a b => 2 * a + b) l a = a * 2 ^ length l + val l.
Proof.
  unfold val. revert a. induction l as [|x l IH]; intros a; cbn [fold_left].
  - simpl. lia.
  - rewrite IH. rewrite (IH (2 * 0 + x)). simpl length. rewrite Nat.pow_succ_r'. nia.
Qed.

Lemma val_app l1 l2 : val (l1 ++ l2) = val l1 * 2 ^ length l2 + val l2.
Proof. unfold val at 1. rewrite fold_left_app, fold_val. reflexivity. Qed.

Lemma val_cons x l : val (x :: l) = x * 2 ^ length l + val l.
Proof. change (x :: l) with ([x] ++ l). rewrite val_app. unfold val at 1. simpl. lia. Qed.

Lemma val_snoc l x : val (l ++ [x]) = 2 * val l + x.
Proof. rewrite val_app. unfold val at 2. simpl. lia. Qed.

Definition bin (l : list nat) : Prop := forall x, In x l -> x < 2.

Lemma val_lt l : bin l -> val l < 2 ^ length l.
Proof.
  induction l as [|x l IH]; intros H.
  - unfold val; simpl. lia.
  - rewrite val_cons. simpl length. rewrite Nat.pow_succ_r'.
    assert (x < 2) by (apply H; simpl; auto).
    assert (val l < 2 ^ length l) by (apply IH; intros y Hy; apply H; simpl; auto).
    nia.
Qed.

Lemma pow2_pos n : 0 < 2 ^ n.
Proof. pose proof (Nat.pow_nonzero 2 n). lia. Qed.

Lemma bin_app l1 l2 : bin (l1 ++ l2) <-> bin l1 /\ bin l2.
Proof.
  unfold bin. split.
  - intros H. split; intros x Hx; apply H; apply in_or_app; auto.
  - intros [H1 H2] x Hx. apply in_app_or in Hx. destruct Hx; auto.
Qed.

Lemma bit_val l q : bin l -> q < length l -> bit (length l) (val l) q = nth q l 0.
Proof.
  intros Hb Hq. destruct (nth_split l 0 Hq) as (l1 & l2 & E & Hl1).
  set (x := nth q l 0) in *.
  assert (Hx : x < 2) by (apply Hb; rewrite E; apply in_or_app; simpl; auto).
  rewrite E in Hb. apply bin_app in Hb. destruct Hb as [Hb1 Hb2].
  assert (Hb3 : bin l2) by (intros y Hy; apply Hb2; simpl; auto).
  unfold bit. replace (length l - 1 - q) with (length l2) by (rewrite E, app_length; simpl; lia).
  rewrite E, val_app, val_cons. simpl length. rewrite Nat.pow_succ_r'.
  replace (val l1 * (2 * 2 ^ length l2) + (x * 2 ^ length l2 + val l2))
    with ((val l1 * 2 + x) * 2 ^ length l2 + val l2) by ring.
  pose proof (val_lt l2 Hb3). pose proof (pow2_pos (length l2)).
  rewrite Nat.div_add_l by lia. rewrite (Nat.div_small (val l2)) by auto.
  replace (val l1 * 2 + x + 0) with (x + val l1 * 2) by ring.
  rewrite Nat.mod_add by lia. now apply Nat.mod_small.
Qed.

Lemma bit_lt n i q : bit n i q < 2.
Proof. unfold bit. apply Nat.mod_upper_bound. lia. Qed.

Definition bits (n i : nat) : list nat := map (bit n i) (seq 0 n).

Lemma bits_length n i : length (bits n i) = n.
Proof. unfold bits. now rewrite map_length, seq_length. Qed.

Lemma bits_bin n i : bin (bits n i).
Proof. intros x Hx. apply in_map_iff in Hx. destruct Hx as (q & <- & _). apply bit_lt. Qed.

Lemma map_bin n i l : bin (map (bit n i) l).
Proof. intros x Hx. apply in_map_iff in Hx. destruct Hx as (q & <- & _). apply bit_lt. Qed.

Lemma val_bits n i : i < 2 ^ n -> val (bits n i) = i.
Proof.
  revert i. induction n as [|n IH]; intros i Hi.
  - simpl in Hi. unfold val; simpl. lia.
  - unfold bits. rewrite seq_S, map_app. simpl map at 2. rewrite val_snoc.
    assert (E : map (bit (S n) i) (seq 0 n) = bits n (i / 2)).
    { unfold bits. apply map_ext_in. intros q Hq. apply in_seq in Hq. unfold bit.
      replace (S n - 1 - q) with (S (n - 1 - q)) by lia.
      rewrite Nat.pow_succ_r', Nat.div_div; auto. apply Nat.pow_nonzero; lia. }
    rewrite E, IH.
    + unfold bit. replace (S n - 1 - n) with 0 by lia. simpl Nat.pow. rewrite Nat.div_1_r.
      rewrite (Nat.div_mod i 2) at 3 by lia. lia.
    + rewrite Nat.pow_succ_r' in Hi. apply Nat.div_lt_upper_bound; lia.
Qed.

Lemma bit_inj n i j :
  i < 2 ^ n -> j < 2 ^ n -> (forall q, q < n -> bit n i q = bit n j q) -> i = j.
Proof.
  intros Hi Hj H. rewrite <- (val_bits n i Hi), <- (val_bits n j Hj). f_equal.
  unfold bits. apply map_ext_in. intros q Hq. apply in_seq in Hq. apply H. lia.
Qed.

Lemma subindex_val n qs i : subindex n qs i = val (map (bit n i) qs).
Proof.
  unfold subindex, val.
  assert (G : forall a, fold_left (fun acc q => 2 * acc + bit n i q) qs a =
                        fold_left (fun a b => 2 * a + b) (map (bit n i) qs) a).
  { induction qs as [|q qs IH]; intros a; cbn [map fold_left]; auto. }
  apply G.
Qed.

Lemma subindex_lt n qs i : subindex n qs i < 2 ^ length qs.
Proof.
  rewrite subindex_val. pose proof (val_lt _ (map_bin n i qs)). now rewrite map_length in H.
Qed.

Lemma subindex_app n q1 q2 i :
  subindex n (q1 ++ q2) i = subindex n q1 i * 2 ^ length q2 + subindex n q2 i.
Proof. now rewrite !subindex_val, map_app, val_app, map_length. Qed.

Lemma val_inj l1 l2 : bin l1 -> bin l2 -> length l1 = length l2 -> val l1 = val l2 -> l1 = l2.
Proof.
  intros H1 H2 HL E. apply nth_ext with (d := 0) (d' := 0); auto. intros q Hq.
  rewrite <- bit_val by auto. rewrite E, HL. apply bit_val; auto. lia.
Qed.

Lemma subindex_eq n qs i j :
  subindex n qs i = subindex n qs j <-> (forall q, In q qs -> bit n i q = bit n j q).
Proof.
  rewrite !subindex_val. split.
  - intros E. apply val_inj in E; auto using map_bin.
    + intros q Hq.
      clear - E Hq. induction qs as [|x qs IH]; simpl in *; [tauto|].
      injection E as E1 E2. destruct Hq as [<-|Hq]; auto.
    + now rewrite !map_length.
  - intros H. f_equal. now apply map_ext_in.
Qed.

Lemma agree_off_spec n qs i j :
  agree_off n qs i j = true <-> (forall q, q < n -> ~ In q qs -> bit n i q = bit n j q).
Proof.
  unfold agree_off. rewrite forallb_forall. split.
  - intros H q Hq Hn. specialize (H q). rewrite orb_true_iff, Nat.eqb_eq in H.
    destruct H as [H|H]; auto.
    + apply in_seq. lia.
    + apply existsb_exists in H. destruct H as (x & Hx & E). apply Nat.eqb_eq in E. subst. tauto.
  - intros H q Hq. apply in_seq in Hq. apply orb_true_iff.
    destruct (existsb (Nat.eqb q) qs) eqn:E; auto. right. apply Nat.eqb_eq. apply H; [lia|].
    intros Hin. apply not_true_iff_false in E. apply E. apply existsb_exists.
    exists q. split; auto. apply Nat.eqb_refl.
Qed.

Lemma bool_iff (a b : bool) : (a = true <-> b = true) -> a = b.
Proof. destruct a, b; intuition congruence. Qed.

(** * The permutation order *)
Lemma place_named_spec qs : forall o next,
  NoDup qs -> (forall q, In q qs -> q < length o) ->
  snd (place_named o next qs) = next + length qs /\
  length (fst (place_named o next qs)) = length o /\
  (forall m, m < length qs ->
     nth (nth m qs 0) (fst (place_named o next qs)) None = Some (next + m)) /\
  (forall q, ~ In q qs -> nth q (fst (place_named o next qs)) None = nth q o None).
Proof.
  induction qs as [|q qs IH]; intros o next Hnd Hlt.
  - simpl. repeat split; auto; lia.
  - inversion_clear Hnd as [|? ? Hnq Hnd'].
    destruct (IH (list_set o q (Some next)) (S next) Hnd') as (E1 & E2 & E3 & E4).
    { intros x Hx. rewrite list_set_length. apply Hlt. simpl; auto. }
    simpl place_named. rewrite E1, E2, list_set_length. repeat split.
    + simpl. lia.
    + intros [|m] Hm.
      * simpl nth. rewrite E4 by auto. rewrite nth_list_set_same.
        -- f_equal; lia.
        -- apply Hlt; simpl; auto.
      * simpl nth. rewrite E3 by (simpl in Hm; lia). f_equal; lia.
    + intros x Hx. simpl in Hx. rewrite E4 by tauto. apply nth_list_set_other. tauto.
Qed.

Fixpoint count_none (l : list (option nat)) : nat :=
  match l with [] => 0 | None :: t => S (count_none t) | Some _ :: t => count_none t end.

Lemma place_rest_length l : forall next, length (place_rest l next) = length l.
Proof. induction l as [|[k|] l IH]; intros; simpl; auto. Qed.

Lemma place_rest_nth l : forall next i, i < length l ->
  nth i (place_rest l next) 0 =
  match nth i l None with Some k => k | None => next + count_none (firstn i l) end.
Proof.
  induction l as [|o l IH]; intros next i Hi; [simpl in Hi; lia|].
  destruct o as [k|], i as [|i]; simpl in *; auto.
  - apply IH. lia.
  - lia.
  - rewrite IH by lia. destruct (nth i l None); auto; lia.
Qed.

Lemma count_none_firstn_lt l : forall i j, i < j -> j <= length l -> nth i l None = None ->
  count_none (firstn i l) < count_none (firstn j l).
Proof.
  induction l as [|o l IH]; intros [|i] [|j] Hij Hj Hn; simpl in *; try lia.
  - subst. lia.
  - assert (count_none (firstn i l) < count_none (firstn j l)) by (apply IH; auto; lia).
    destruct o; lia.
Qed.

Lemma count_none_le l : count_none l <= length l.
Proof. induction l as [|[k|] l IH]; simpl; lia. Qed.

Lemma count_none_set l q x : q < length l -> nth q l None = None ->
  S (count_none (list_set l q (Some x))) = count_none l.
Proof.
  revert q; induction l as [|o l IH]; intros [|q] Hq Hn; simpl in *; try lia.
  - subst. auto.
  - specialize (IH q). destruct o; rewrite <- IH; auto; lia.
Qed.

Lemma count_none_place qs : forall o next,
  NoDup qs -> (forall q, In q qs -> q < length o) ->
  (forall q, In q qs -> nth q o None = None) ->
  count_none (fst (place_named o next qs)) + length qs = count_none o.
Proof.
  induction qs as [|q qs IH]; intros o next Hnd Hlt Hn.
  - simpl. lia.
  - inversion_clear Hnd as [|? ? Hnq Hnd']. simpl.
    rewrite <- (count_none_set o q next) by (try apply Hlt; try apply Hn; simpl; auto).
    rewrite <- (IH (list_set o q (Some next)) (S next)); auto.
    + lia.
    + intros x Hx. rewrite list_set_length. apply Hlt; simpl; auto.
    + intros x Hx. rewrite nth_list_set_other; [apply Hn; simpl; auto|].
      intros E. subst. auto.
Qed.

Lemma count_none_repeat n : count_none (repeat None n) = n.
Proof. induction n; simpl; auto. Qed.

Lemma nth_repeat_none n q : nth q (repeat (@None nat) n) None = None.
Proof. revert q; induction n; intros [|q]; simpl; auto. Qed.

Section Order.
Variables (n : nat) (qs : list nat).
Hypothesis Hnd : NoDup qs.
Hypothesis Hlt : forall q, In q qs -> q < n.

Let Hlt' : forall q, In q qs -> q < length (repeat (@None nat) n).
Proof. intros q Hq. rewrite repeat_length. auto. Qed.

Lemma permute_order_eq :
  permute_order n qs = place_rest (fst (place_named (repeat None n) 0 qs)) (length qs).
Proof.
  unfold permute_order. destruct (place_named_spec qs (repeat None n) 0 Hnd Hlt') as (E & _).
  destruct (place_named (repeat None n) 0 qs) as [o nx]. simpl in *. now subst.
Qed.

Lemma order_length : length (permute_order n qs) = n.
Proof.
  rewrite permute_order_eq, place_rest_length.
  destruct (place_named_spec qs (repeat None n) 0 Hnd Hlt') as (_ & E & _).
  now rewrite E, repeat_length.
Qed.

Lemma named_length : length (fst (place_named (repeat None n) 0 qs)) = n.
Proof.
  destruct (place_named_spec qs (repeat None n) 0 Hnd Hlt') as (_ & E & _).
  now rewrite E, repeat_length.
Qed.

Lemma order_named m : m < length qs -> nth (nth m qs 0) (permute_order n qs) 0 = m.
Proof.
  intros Hm. destruct (place_named_spec qs (repeat None n) 0 Hnd Hlt') as (_ & _ & E & _).
  rewrite permute_order_eq, place_rest_nth.
  - now rewrite E.
  - rewrite named_length. apply Hlt. now apply nth_In.
Qed.

Lemma order_rest q : q < n -> ~ In q qs ->
  length qs <= nth q (permute_order n qs) 0 < n.
Proof.
  intros Hq Hn. destruct (place_named_spec qs (repeat None n) 0 Hnd Hlt') as (_ & _ & _ & E).
  rewrite permute_order_eq, place_rest_nth by (now rewrite named_length).
  assert (E0 : nth q (fst (place_named (repeat None n) 0 qs)) None = None)
    by (rewrite E by auto; apply nth_repeat_none).
  rewrite E0. split; [lia|].
  pose proof (count_none_firstn_lt _ q n Hq (Nat.eq_le_incl _ _ (eq_sym named_length)) E0) as K.
  rewrite (@firstn_all2 _ n) in K by (rewrite named_length; lia).
  pose proof (count_none_place qs (repeat None n) 0 Hnd Hlt' (fun q _ => nth_repeat_none n q)) as C.
  rewrite count_none_repeat in C. lia.
Qed.

Lemma qs_length : length qs <= n.
Proof.
  rewrite <- (seq_length n 0). apply NoDup_incl_length; auto.
  intros q Hq. apply in_seq. specialize (Hlt q Hq). lia.
Qed.

Lemma order_lt q : q < n -> nth q (permute_order n qs) 0 < n.
Proof.
  intros Hq. destruct (in_dec Nat.eq_dec q qs) as [Hin|Hin].
  - destruct (In_nth _ _ 0 Hin) as (m & Hm & <-). rewrite order_named by auto.
    pose proof qs_length. lia.
  - now apply order_rest.
Qed.

Lemma order_rest_inj q r : q < n -> r < n -> ~ In q qs -> ~ In r qs -> q < r ->
  nth q (permute_order n qs) 0 < nth r (permute_order n qs) 0.
Proof.
  intros Hq Hr Hnq Hnr Hqr.
  destruct (place_named_spec qs (repeat None n) 0 Hnd Hlt') as (_ & _ & _ & E).
  rewrite permute_order_eq, !place_rest_nth by (now rewrite named_length).
  rewrite !E, !nth_repeat_none by auto.
  apply Nat.add_lt_mono_l. apply count_none_firstn_lt; auto.
  - rewrite named_length. lia.
  - now rewrite E, nth_repeat_none.
Qed.

Lemma order_inj q r : q < n -> r < n ->
  nth q (permute_order n qs) 0 = nth r (permute_order n qs) 0 -> q = r.
Proof.
  intros Hq Hr E.
  destruct (in_dec Nat.eq_dec q qs) as [Hiq|Hiq], (in_dec Nat.eq_dec r qs) as [Hir|Hir].
  - destruct (In_nth _ _ 0 Hiq) as (m & Hm & E1), (In_nth _ _ 0 Hir) as (k & Hk & E2).
    rewrite <- E1, <- E2 in E. rewrite !order_named in E by auto. subst. auto.
  - destruct (In_nth _ _ 0 Hiq) as (m & Hm & E1). rewrite <- E1 in E.
    rewrite order_named in E by auto. pose proof (order_rest r Hr Hir). lia.
  - destruct (In_nth _ _ 0 Hir) as (m & Hm & E1). rewrite <- E1 in E.
    rewrite order_named in E by auto. pose proof (order_rest q Hq Hiq). lia.
  - destruct (Nat.lt_trichotomy q r) as [H|[H|H]]; auto.
    + pose proof (order_rest_inj q r Hq Hr Hiq Hir H). lia.
    + pose proof (order_rest_inj r q Hr Hq Hir Hiq H). lia.
Qed.

Lemma order_NoDup : NoDup (permute_order n qs).
Proof.
  apply (NoDup_nth _ 0). intros i j Hi Hj E. rewrite order_length in Hi, Hj.
  now apply order_inj.
Qed.

Lemma order_perm : Permutation (permute_order n qs) (seq 0 n).
Proof.
  apply NoDup_Permutation_bis.
  - apply order_NoDup.
  - rewrite seq_length, order_length. lia.
  - intros x Hx. destruct (In_nth _ _ 0 Hx) as (q & Hq & <-). rewrite order_length in Hq.
    apply in_seq. pose proof (order_lt q Hq). lia.
Qed.

Lemma order_surj k : k < n -> exists q, q < n /\ nth q (permute_order n qs) 0 = k.
Proof.
  intros Hk. assert (Hin : In k (permute_order n qs)).
  { eapply Permutation_in; [symmetry; apply order_perm|]. apply in_seq. lia. }
  destruct (In_nth _ _ 0 Hin) as (q & Hq & E). rewrite order_length in Hq. eauto.
Qed.
End Order.

(** * Sorting *)
Lemma insertn_perm x l : Permutation (insertn x l) (x :: l).
Proof.
  induction l as [|y l IH]; simpl; auto. destruct (Nat.leb x y); auto.
  rewrite IH. apply perm_swap.
Qed.
Lemma sortn_perm l : Permutation (sortn l) l.
Proof. induction l as [|x l IH]; simpl; auto. rewrite insertn_perm. now constructor. Qed.
Lemma insertn_sorted x l : StronglySorted le l -> StronglySorted le (insertn x l).
Proof.
  induction 1 as [|y l HS IH HF]; simpl.
  - repeat constructor.
  - destruct (Nat.leb_spec x y).
    + constructor; [now constructor|]. constructor; auto.
      eapply Forall_impl; [|exact HF]. intros; lia.
    + constructor; auto. rewrite Forall_forall in *. intros z Hz.
      eapply Permutation_in in Hz; [|apply insertn_perm]. destruct Hz as [<-|Hz]; [lia|auto].
Qed.
Lemma sortn_sorted l : StronglySorted le (sortn l).
Proof. induction l; simpl; [constructor|]. now apply insertn_sorted. Qed.
Lemma sorted_unique l1 : forall l2, StronglySorted le l1 -> StronglySorted le l2 ->
  Permutation l1 l2 -> l1 = l2.
Proof.
  induction l1 as [|x l1 IH]; intros [|y l2] H1 H2 HP; auto.
  - apply Permutation_length in HP. discriminate.
  - apply Permutation_length in HP. discriminate.
  - inversion_clear H1 as [|? ? S1 F1]. inversion_clear H2 as [|? ? S2 F2].
    rewrite Forall_forall in F1, F2.
    assert (x <= y).
    { assert (In y (x :: l1)) by (eapply Permutation_in; [symmetry; eauto|simpl; auto]).
      destruct H as [->|H]; auto. }
    assert (y <= x).
    { assert (In x (y :: l2)) by (eapply Permutation_in; [eauto|simpl; auto]).
      destruct H0 as [->|H0]; auto. }
    assert (x = y) by lia. subst. f_equal. apply IH; auto.
    now apply Permutation_cons_inv in HP.
Qed.
Lemma seq_sorted n : forall a, StronglySorted le (seq a n).
Proof.
  induction n as [|n IH]; intros a; simpl; constructor; auto.
  apply Forall_forall. intros x Hx. apply in_seq in Hx. lia.
Qed.
Lemma eqb_listn_spec a : forall b, eqb_listn a b = true <-> a = b.
Proof.
  induction a as [|x a IH]; intros [|y b]; simpl; split; intros H; try congruence; auto.
  - apply andb_true_iff in H. destruct H as [H1 H2]. apply Nat.eqb_eq in H1.
    apply IH in H2. congruence.
  - injection H as -> ->. rewrite Nat.eqb_refl. simpl. now apply IH.
Qed.
Lemma sortn_order n qs : NoDup qs -> (forall q, In q qs -> q < n) ->
  eqb_listn (sortn (permute_order n qs)) (seq 0 n) = true.
Proof.
  intros H1 H2. apply eqb_listn_spec. apply sorted_unique.
  - apply sortn_sorted.
  - apply seq_sorted.
  - rewrite sortn_perm. now apply order_perm.
Qed.

(** * The index permutation *)
Lemma fold_set_spec (s v : nat -> nat) row0 m :
  (forall k, k < m -> s k < length row0) ->
  (forall i j, i < m -> j < m -> s i = s j -> i = j) ->
  let row := fold_left (fun row k => list_set row (s k) (v k)) (seq 0 m) row0 in
  length row = length row0 /\
  (forall k, k < m -> nth (s k) row 0 = v k).
Proof.
  induction m as [|m IH]; intros Hs Hi.
  - simpl. split; auto. lia.
  - rewrite seq_S, fold_left_app. simpl fold_left.
    destruct IH as [E1 E2].
    { intros k Hk. apply Hs. lia. }
    { intros i j H1 H2. apply Hi; lia. }
    cbv zeta in *. split.
    + now rewrite list_set_length.
    + intros k Hk. destruct (Nat.eq_dec k m) as [->|Hne].
      * apply nth_list_set_same. rewrite E1. apply Hs. lia.
      * rewrite nth_list_set_other; [apply E2; lia|]. intros E. apply Hi in E; lia.
Qed.

Lemma prodn_cons x l : prodn (x :: l) = x * prodn l.
Proof.
  unfold prodn. simpl. rewrite Nat.add_0_r.
  assert (G : forall l a, fold_left Nat.mul l a = a * fold_left Nat.mul l 1).
  { clear. induction l as [|y l IH]; intros a; simpl; [lia|].
    rewrite IH. rewrite (IH (y + 0)). lia. }
  now rewrite G.
Qed.
Lemma prodn_two l : (forall x, In x l -> x = 2) -> prodn l = 2 ^ length l.
Proof.
  induction l as [|x l IH]; intros H; auto.
  rewrite prodn_cons, (H x), IH by (simpl; auto; intros; apply H; simpl; auto).
  simpl length. now rewrite Nat.pow_succ_r'.
Qed.

Lemma nth_repeat2 n k : k < n -> nth k (repeat 2 n) 0 = 2.
Proof. revert k; induction n; intros [|k] H; simpl; auto; try lia. apply IHn. lia. Qed.

Lemma select_row_spec n ord c :
  length ord = n -> (forall k, k < n -> nth k ord 0 < n) -> NoDup ord ->
  length (select_row ord (repeat 2 n) c) = n /\
  forall k, k < n -> nth (nth k ord 0) (select_row ord (repeat 2 n) c) 0 = bit n c k + 1.
Proof.
  intros HL Hlt Hnd. unfold select_row. rewrite HL, repeat_length.
  destruct (fold_set_spec (fun k => nth k ord 0)
    (fun k => (c / prodn (map (fun i => nth i (repeat 2 n) 0) (skipn (k + 1) ord)))
                 mod nth (nth k ord 0) (repeat 2 n) 0 + 1) (repeat 1 n) n) as [E1 E2].
  - intros k Hk. rewrite repeat_length. auto.
  - intros i j Hi Hj E. eapply NoDup_nth; eauto; lia.
  - cbv zeta in *. rewrite repeat_length in E1. split; auto.
    intros k Hk. rewrite E2 by auto. f_equal. unfold bit.
    rewrite nth_repeat2 by auto. f_equal. f_equal.
    rewrite prodn_two.
    + rewrite map_length, skipn_length. f_equal. lia.
    + intros x Hx. apply in_map_iff in Hx. destruct Hx as (i & <- & Hi).
      apply nth_repeat2.
      assert (Hin : In i ord) by (rewrite <- (firstn_skipn (k + 1) ord); apply in_or_app; auto).
      destruct (In_nth _ _ 0 Hin) as (j & Hj & <-). apply Hlt. lia.
Qed.

Fixpoint pows (a m : nat) : list nat := match m with 0 => [] | S k => a :: pows (2 * a) k end.

Lemma dotn_pows l : forall a, dotn l (pows a (length l)) = a * val (rev l).
Proof.
  induction l as [|x l IH]; intros a.
  - simpl. unfold val; simpl. lia.
  - cbn [dotn length pows rev]. rewrite IH, val_snoc. lia.
Qed.

Lemma cumprod_repeat m : forall a, a :: cumprod a (repeat 2 m) = pows a (S m).
Proof.
  induction m as [|m IH]; intros a; auto.
  cbn [repeat cumprod]. rewrite IH. cbn [pows]. rewrite (Nat.mul_comm a 2). reflexivity.
Qed.

Lemma rev_repeat {A} (x : A) n : rev (repeat x n) = repeat x n.
Proof.
  induction n as [|n IH]; auto. simpl. rewrite IH. symmetry. apply repeat_cons.
Qed.

Lemma place_values_pows n : 0 < n -> place_values (repeat 2 n) = pows 1 n.
Proof.
  intros Hn. unfold place_values. rewrite rev_repeat. destruct n as [|n]; [lia|].
  replace (repeat 2 (S n)) with (repeat 2 n ++ [2]).
  - rewrite removelast_last. apply cumprod_repeat.
  - symmetry. simpl. apply repeat_cons.
Qed.

Section PermInd.
Variables (n : nat) (ord : list nat).
Hypothesis Hn : 0 < n.
Hypothesis HL : length ord = n.
Hypothesis Hlt : forall k, k < n -> nth k ord 0 < n.
Hypothesis Hnd : NoDup ord.
Hypothesis Hsurj : forall p, p < n -> exists k, k < n /\ nth k ord 0 = p.

Let row c := map (fun x => x - 1) (select_row ord (repeat 2 n) c).

Lemma perm_ind_val c : perm_ind (repeat 2 n) ord c = val (row c).
Proof.
  unfold perm_ind. rewrite map_rev. destruct (select_row_spec n ord c HL Hlt Hnd) as [E _].
  rewrite place_values_pows by auto.
  fold (row c).
  replace (pows 1 n) with (pows 1 (length (rev (row c)))).
  - rewrite dotn_pows, rev_involutive. lia.
  - unfold row. now rewrite rev_length, map_length, E.
Qed.

Lemma row_length c : length (row c) = n.
Proof.
  unfold row. rewrite map_length. now destruct (select_row_spec n ord c HL Hlt Hnd).
Qed.

Lemma row_nth c k : k < n -> nth (nth k ord 0) (row c) 0 = bit n c k.
Proof.
  intros Hk. unfold row. destruct (select_row_spec n ord c HL Hlt Hnd) as [E1 E2].
  pose proof (map_nth (fun x => x - 1) (select_row ord (repeat 2 n) c) 0 (nth k ord 0)) as M.
  cbv beta in M. change (0 - 1) with 0 in M. rewrite M, E2 by auto. lia.
Qed.

Lemma row_bin c : bin (row c).
Proof.
  intros x Hx. destruct (In_nth _ _ 0 Hx) as (p & Hp & <-). rewrite row_length in Hp.
  destruct (Hsurj p Hp) as (k & Hk & <-). rewrite row_nth by auto. apply bit_lt.
Qed.

Lemma perm_ind_lt c : perm_ind (repeat 2 n) ord c < 2 ^ n.
Proof. rewrite perm_ind_val. pose proof (val_lt _ (row_bin c)). now rewrite row_length in H. Qed.

Lemma perm_ind_bit c k : k < n ->
  bit n (perm_ind (repeat 2 n) ord c) (nth k ord 0) = bit n c k.
Proof.
  intros Hk. rewrite perm_ind_val. rewrite <- (row_length c) at 1.
  rewrite bit_val; [now apply row_nth|apply row_bin|]. rewrite row_length. auto.
Qed.

Lemma perm_ind_inj i j : i < 2 ^ n -> j < 2 ^ n ->
  perm_ind (repeat 2 n) ord i = perm_ind (repeat 2 n) ord j -> i = j.
Proof.
  intros Hi Hj E. apply (bit_inj n); auto. intros k Hk.
  rewrite <- (perm_ind_bit i k Hk), <- (perm_ind_bit j k Hk). now rewrite E.
Qed.
End PermInd.

(** Splitting a basis index into its leading and trailing digits. *)
Lemma div_bits n m x : m <= n -> x < 2 ^ n ->
  x / 2 ^ (n - m) = val (map (bit n x) (seq 0 m)) /\
  x mod 2 ^ (n - m) = val (map (bit n x) (seq m (n - m))).
Proof.
  intros Hm Hx. pose proof (val_bits n x Hx) as E. unfold bits in E.
  replace n with (m + (n - m)) in E at 2 by lia. rewrite seq_app, map_app, val_app in E.
  rewrite map_length, seq_length in E. simpl plus in E.
  pose proof (val_lt _ (map_bin n x (seq m (n - m)))) as K. rewrite map_length, seq_length in K.
  pose proof (pow2_pos (n - m)).
  set (a := val (map (bit n x) (seq 0 m))) in *.
  set (b := val (map (bit n x) (seq m (n - m)))) in *.
  rewrite <- E. split.
  - rewrite Nat.div_add_l by lia. rewrite Nat.div_small by auto. lia.
  - rewrite Nat.add_comm, Nat.mod_add by lia. now apply Nat.mod_small.
Qed.
