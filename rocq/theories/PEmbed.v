(** Algebra of [embed], and its agreement with the index permutation of
    get_permute_matrix. *)
From Coq Require Import Reals List Arith Lia Bool Permutation Setoid Morphisms.
From Coquelicot Require Import Complex.
From Verif Require Import Base CMat CMatFacts Det DetFacts ModelUnitary ModelEntry Spec PBits PUnitary.
Import ListNotations.
Open Scope R_scope.
Open Scope C_scope.

(** The index map of get_permute_matrix. *)
Definition pind (n : nat) (qs : list nat) (i : nat) : nat :=
  perm_ind (repeat 2%nat n) (permute_order n qs) i.

Section Pind.
Variables (n : nat) (qs : list nat).
Hypothesis Hp : placement n qs.

Lemma placement_pos : (0 < n)%nat.
Proof.
  destruct Hp as (_ & Hne & Hlt). destruct qs as [|q t]; [congruence|].
  assert (q < n)%nat by (apply Hlt; simpl; auto). lia.
Qed.

Lemma placement_length : (length qs <= n)%nat.
Proof. destruct Hp as (Hnd & _ & Hlt). now apply qs_length. Qed.

Lemma pind_lt i : (pind n qs i < 2 ^ n)%nat.
Proof.
  destruct Hp as (Hnd & Hne & Hlt). unfold pind. apply perm_ind_lt.
  - apply placement_pos.
  - now apply order_length.
  - intros k Hk. now apply order_lt.
  - now apply order_NoDup.
  - intros p Hpp. now apply order_surj.
Qed.

Lemma pind_inj i j :
  (i < 2 ^ n)%nat -> (j < 2 ^ n)%nat -> pind n qs i = pind n qs j -> i = j.
Proof.
  destruct Hp as (Hnd & Hne & Hlt). unfold pind. apply perm_ind_inj.
  - apply placement_pos.
  - now apply order_length.
  - intros k Hk. now apply order_lt.
  - now apply order_NoDup.
  - intros p Hpp. now apply order_surj.
Qed.

Lemma pind_bit i k : (k < n)%nat ->
  bit n (pind n qs i) (nth k (permute_order n qs) 0%nat) = bit n i k.
Proof.
  destruct Hp as (Hnd & Hne & Hlt). unfold pind. apply perm_ind_bit.
  - apply placement_pos.
  - now apply order_length.
  - intros j Hj. now apply order_lt.
  - now apply order_NoDup.
  - intros p Hpp. now apply order_surj.
Qed.

Lemma pind_named i m : (m < length qs)%nat -> bit n (pind n qs i) m = bit n i (nth m qs 0%nat).
Proof.
  intros Hm. destruct Hp as (Hnd & Hne & Hlt).
  rewrite <- (order_named n qs Hnd Hlt m Hm) at 1. apply pind_bit. apply Hlt. now apply nth_In.
Qed.

Lemma pind_high i : (pind n qs i / 2 ^ (n - length qs) = subindex n qs i)%nat.
Proof.
  destruct (div_bits n (length qs) (pind n qs i) placement_length (pind_lt i)) as [E _].
  rewrite E, subindex_val. f_equal. apply nth_ext with (d := 0%nat) (d' := 0%nat).
  - now rewrite !map_length, seq_length.
  - intros m Hm. rewrite map_length, seq_length in Hm.
    rewrite (nth_indep _ 0%nat (bit n (pind n qs i) 0)) by (now rewrite map_length, seq_length).
    rewrite map_nth, seq_nth by auto. simpl plus. rewrite pind_named by auto.
    rewrite (nth_indep (map (bit n i) qs) 0%nat (bit n i 0%nat)) by (now rewrite map_length).
    now rewrite map_nth.
Qed.

Lemma pind_low i j :
  (pind n qs i mod 2 ^ (n - length qs) = pind n qs j mod 2 ^ (n - length qs))%nat <->
  agree_off n qs i j = true.
Proof.
  destruct Hp as (Hnd & Hne & Hlt).
  destruct (div_bits n (length qs) (pind n qs i) placement_length (pind_lt i)) as [_ ->].
  destruct (div_bits n (length qs) (pind n qs j) placement_length (pind_lt j)) as [_ ->].
  rewrite agree_off_spec. rewrite <- !subindex_val. rewrite subindex_eq. split.
  - intros H q Hq Hnq. rewrite <- (pind_bit i q Hq), <- (pind_bit j q Hq). apply H.
    apply in_seq. pose proof (order_rest n qs Hnd Hlt q Hq Hnq). pose proof placement_length. lia.
  - intros H k Hk. apply in_seq in Hk.
    assert (Hkn : (k < n)%nat) by (pose proof placement_length; lia).
    destruct (order_surj n qs Hnd Hlt k Hkn) as (q & Hq & E).
    rewrite <- E. rewrite !pind_bit by auto. apply H; auto.
    intros Hin. destruct (In_nth _ _ 0%nat Hin) as (m & Hm & E').
    rewrite <- E', order_named in E by auto. lia.
Qed.

Lemma embed_pind U i j :
  kron (2 ^ (n - length qs)) U mid (pind n qs i) (pind n qs j) = embed n qs U i j.
Proof.
  unfold kron, embed, mid. rewrite !pind_high.
  destruct (Nat.eqb_spec (pind n qs i mod 2 ^ (n - length qs)) (pind n qs j mod 2 ^ (n - length qs)))
    as [E|E].
  - apply pind_low in E. rewrite E. ring.
  - destruct (agree_off n qs i j) eqn:A; [|ring]. apply pind_low in A. tauto.
Qed.

Lemma dim_split : (2 ^ length qs * 2 ^ (n - length qs) = 2 ^ n)%nat.
Proof. rewrite <- Nat.pow_add_r. f_equal. pose proof placement_length. lia. Qed.
End Pind.

(** Reindexing by a bijection commutes with products. *)
Lemma csum_reindex N f g :
  (forall i, (i < N)%nat -> (f i < N)%nat) ->
  (forall i j, (i < N)%nat -> (j < N)%nat -> f i = f j -> i = j) ->
  csum N (fun i => g (f i)) = csum N g.
Proof.
  intros Hf Hinj.
  pose proof (sel_mx_orth N f Hf Hinj) as HO.
  assert (HT : meq N (mmul N (transpose (sel_mx f)) (sel_mx f)) mid).
  { assert (HU : unitary_mx N (sel_mx f)).
    { unfold unitary_mx. intros i j Hi Hj. rewrite <- (HO i j Hi Hj).
      apply csum_ext. intros k Hk. f_equal. unfold adj, transpose, sel_mx.
      destruct (Nat.eqb (f j) k); apply Cconj_R. }
    apply unitary_left in HU. intros i j Hi Hj. rewrite <- (HU i j Hi Hj).
    apply csum_ext. intros k Hk. f_equal. unfold adj, transpose, sel_mx.
    destruct (Nat.eqb (f k) i); symmetry; apply Cconj_R. }
  transitivity (csum N (fun i => csum N (fun k => sel_mx f i k * g k))).
  - apply csum_ext. intros i Hi. unfold sel_mx. symmetry. now apply (csum_delta N (f i) g (Hf i Hi)).
  - rewrite csum_swap. apply csum_ext. intros k Hk. rewrite csum_mult_r.
    assert (E : csum N (fun i => sel_mx f i k) = 1); [|rewrite E; ring].
    rewrite <- (csum_ext N (fun i => transpose (sel_mx f) k i * sel_mx f i k)).
    + change (mmul N (transpose (sel_mx f)) (sel_mx f) k k = 1). rewrite HT by auto.
      unfold mid. now rewrite Nat.eqb_refl.
    + intros i Hi. unfold transpose, sel_mx. destruct (Nat.eqb (f i) k); ring.
Qed.

Lemma mmul_reindex N f A B :
  (forall i, (i < N)%nat -> (f i < N)%nat) ->
  (forall i j, (i < N)%nat -> (j < N)%nat -> f i = f j -> i = j) ->
  meq N (mmul N (fun i j => A (f i) (f j)) (fun i j => B (f i) (f j)))
        (fun i j => mmul N A B (f i) (f j)).
Proof.
  intros Hf Hinj i j Hi Hj. unfold mmul.
  apply (csum_reindex N f (fun k => A (f i) k * B k (f j)) Hf Hinj).
Qed.

Section Embed.
Variables (n : nat) (qs : list nat).
Hypothesis Hp : placement n qs.

Lemma embed_as U :
  meq (2 ^ n) (embed n qs U) (fun i j => kron (2 ^ (n - length qs)) U mid (pind n qs i) (pind n qs j)).
Proof. intros i j Hi Hj. symmetry. now apply embed_pind. Qed.

Lemma embed_mmul U V :
  meq (2 ^ n) (mmul (2 ^ n) (embed n qs U) (embed n qs V)) (embed n qs (mmul (2 ^ length qs) U V)).
Proof.
  rewrite !embed_as.
  rewrite (mmul_reindex (2 ^ n) (pind n qs)
             (kron (2 ^ (n - length qs)) U mid) (kron (2 ^ (n - length qs)) V mid)).
  - intros i j Hi Hj. pose proof (pind_lt n qs Hp i). pose proof (pind_lt n qs Hp j).
    rewrite <- (dim_split n qs Hp) in *.
    rewrite kron_mmul; auto using pow2_pos.
    apply (kron_proper (2 ^ length qs) (2 ^ (n - length qs))); auto using pow2_pos.
    + reflexivity.
    + apply mmul_1_l.
  - intros; now apply pind_lt.
  - intros; eapply pind_inj; eauto.
Qed.

Lemma embed_adj U : meq (2 ^ n) (adj (embed n qs U)) (embed n qs (adj U)).
Proof.
  intros i j Hi Hj. unfold adj, embed.
  assert (E : agree_off n qs j i = agree_off n qs i j).
  { apply bool_iff. rewrite !agree_off_spec. split; intros H q H1 H2; symmetry; auto. }
  rewrite E. destruct (agree_off n qs i j); auto. apply Cconj_R.
Qed.

Lemma embed_proper U V : meq (2 ^ length qs) U V -> meq (2 ^ n) (embed n qs U) (embed n qs V).
Proof.
  intros E i j Hi Hj. unfold embed. destruct (agree_off n qs i j); auto.
  apply E; apply subindex_lt.
Qed.

Lemma embed_mid : meq (2 ^ n) (embed n qs mid) mid.
Proof.
  intros i j Hi Hj. unfold embed, mid.
  destruct (Nat.eqb_spec i j) as [->|Hne].
  - rewrite Nat.eqb_refl. replace (agree_off n qs j j) with true; auto.
    symmetry. apply agree_off_spec. auto.
  - destruct (agree_off n qs i j) eqn:A; auto.
    destruct (Nat.eqb_spec (subindex n qs i) (subindex n qs j)) as [E|]; auto.
    exfalso. apply Hne. apply (bit_inj n); auto. intros q Hq.
    rewrite agree_off_spec in A. rewrite subindex_eq in E.
    destruct (in_dec Nat.eq_dec q qs); auto.
Qed.

Lemma embed_special U : special (2 ^ length qs) U -> special (2 ^ n) (embed n qs U).
Proof.
  intros HU.
  assert (HS : special (2 ^ n)
    (fun i j => kron (2 ^ (n - length qs)) U mid (pind n qs i) (pind n qs j))).
  { apply special_reindex.
    - intros; now apply pind_lt.
    - intros; eapply pind_inj; eauto.
    - rewrite <- (dim_split n qs Hp). apply special_kron; auto using pow2_pos.
      apply special_mid. }
  destruct HS as [H1 H2]. split.
  - now rewrite embed_as.
  - now rewrite embed_as.
Qed.

Lemma embed_unitary U : unitary_mx (2 ^ length qs) U -> unitary_mx (2 ^ n) (embed n qs U).
Proof.
  intros HU. rewrite embed_as. apply unitary_reindex.
  - intros; now apply pind_lt.
  - intros; eapply pind_inj; eauto.
  - rewrite <- (dim_split n qs Hp). apply unitary_kron; auto using pow2_pos. apply unitary_mid.
Qed.

Lemma embed_mplus U V :
  meq (2 ^ n) (embed n qs (mplus U V)) (mplus (embed n qs U) (embed n qs V)).
Proof. intros i j _ _. unfold embed, mplus. destruct (agree_off n qs i j); ring. Qed.

Lemma embed_mscale c U :
  meq (2 ^ n) (embed n qs (mscale c U)) (mscale c (embed n qs U)).
Proof. intros i j _ _. unfold embed, mscale. destruct (agree_off n qs i j); ring. Qed.

Lemma embed_clean eps U :
  eps_clean eps (2 ^ length qs) U -> eps_clean eps (2 ^ n) (embed n qs U).
Proof.
  intros H i j Hi Hj. unfold embed. destruct (agree_off n qs i j).
  - apply H; apply subindex_lt.
  - simpl. auto.
Qed.
End Embed.

(** Embedding on part of a longer qubit list. *)
Lemma embed_app_l n q1 q2 U :
  placement n q1 -> NoDup (q1 ++ q2) -> (forall q, In q q2 -> (q < n)%nat) ->
  meq (2 ^ n) (embed n q1 U) (embed n (q1 ++ q2) (kron (2 ^ length q2) U mid)).
Proof.
  intros Hp Hnd Hlt i j Hi Hj. unfold embed, kron, mid.
  rewrite !subindex_app. pose proof (subindex_lt n q2 i). pose proof (subindex_lt n q2 j).
  pose proof (pow2_pos (length q2)).
  rewrite !Nat.div_add_l, !(Nat.div_small (subindex n q2 _)) by (auto; lia).
  rewrite !Nat.add_0_r.
  rewrite (Nat.add_comm _ (subindex n q2 i)), (Nat.add_comm _ (subindex n q2 j)).
  rewrite !Nat.mod_add, !Nat.mod_small by (auto; lia).
  destruct (agree_off n q1 i j) eqn:A.
  - rewrite agree_off_spec in A.
    replace (agree_off n (q1 ++ q2) i j) with true.
    + replace (Nat.eqb (subindex n q2 i) (subindex n q2 j)) with true; [ring|].
      symmetry. apply Nat.eqb_eq. apply subindex_eq. intros q Hq. apply A; auto.
      intros Hq1. clear - Hnd Hq Hq1. induction q1 as [|x q1 IH]; simpl in *; auto.
      inversion_clear Hnd as [|? ? Hx Hnd']. destruct Hq1 as [->|Hq1]; auto.
      apply Hx. apply in_or_app; auto.
    + symmetry. apply agree_off_spec. intros q Hq Hn. apply A; auto.
      intros Hin. apply Hn. apply in_or_app; auto.
  - destruct (agree_off n (q1 ++ q2) i j) eqn:B; auto.
    destruct (Nat.eqb_spec (subindex n q2 i) (subindex n q2 j)) as [E|]; [|ring].
    exfalso. apply not_true_iff_false in A. apply A. apply agree_off_spec. intros q Hq Hn.
    rewrite agree_off_spec in B. rewrite subindex_eq in E.
    destruct (in_dec Nat.eq_dec q q2); auto. apply B; auto. rewrite in_app_iff. tauto.
Qed.

Lemma embed_app_r n q1 q2 V :
  placement n q2 -> NoDup (q1 ++ q2) -> (forall q, In q q1 -> (q < n)%nat) ->
  meq (2 ^ n) (embed n q2 V) (embed n (q1 ++ q2) (kron (2 ^ length q2) mid V)).
Proof.
  intros Hp Hnd Hlt i j Hi Hj. unfold embed, kron, mid.
  rewrite !subindex_app. pose proof (subindex_lt n q2 i). pose proof (subindex_lt n q2 j).
  pose proof (pow2_pos (length q2)).
  rewrite !Nat.div_add_l, !(Nat.div_small (subindex n q2 _)) by (auto; lia).
  rewrite !Nat.add_0_r.
  rewrite (Nat.add_comm _ (subindex n q2 i)), (Nat.add_comm _ (subindex n q2 j)).
  rewrite !Nat.mod_add, !Nat.mod_small by (auto; lia).
  destruct (agree_off n q2 i j) eqn:A.
  - rewrite agree_off_spec in A.
    replace (agree_off n (q1 ++ q2) i j) with true.
    + replace (Nat.eqb (subindex n q1 i) (subindex n q1 j)) with true; [ring|].
      symmetry. apply Nat.eqb_eq. apply subindex_eq. intros q Hq. apply A; auto.
      intros Hq1. clear - Hnd Hq Hq1. induction q1 as [|x q1 IH]; simpl in *; auto.
      inversion_clear Hnd as [|? ? Hx Hnd']. destruct Hq as [->|Hq]; auto.
      apply Hx. apply in_or_app; auto.
    + symmetry. apply agree_off_spec. intros q Hq Hn. apply A; auto.
      intros Hin. apply Hn. apply in_or_app; auto.
  - destruct (agree_off n (q1 ++ q2) i j) eqn:B; auto.
    destruct (Nat.eqb_spec (subindex n q1 i) (subindex n q1 j)) as [E|]; [|ring].
    exfalso. apply not_true_iff_false in A. apply A. apply agree_off_spec. intros q Hq Hn.
    rewrite agree_off_spec in B. rewrite subindex_eq in E.
    destruct (in_dec Nat.eq_dec q q1); auto. apply B; auto. rewrite in_app_iff. tauto.
Qed.

Lemma placement_app n q1 q2 :
  placement n q1 -> placement n q2 -> (forall q, In q q1 -> ~ In q q2) -> placement n (q1 ++ q2).
Proof.
  intros (A1 & A2 & A3) (B1 & B2 & B3) HD. split; [|split].
  - clear A2 A3. induction q1 as [|x q1 IH]; simpl; auto. inversion_clear A1 as [|? ? Hx Hnd].
    constructor.
    + rewrite in_app_iff. intros [H|H]; auto. apply (HD x); simpl; auto.
    + apply IH; auto. intros q Hq. apply HD. simpl; auto.
  - destruct q1; simpl; congruence.
  - intros q Hq. apply in_app_or in Hq. destruct Hq; auto.
Qed.

Lemma embed_commute n q1 q2 U V :
  placement n q1 -> placement n q2 -> (forall q, In q q1 -> ~ In q q2) ->
  meq (2 ^ n) (mmul (2 ^ n) (embed n q1 U) (embed n q2 V))
              (mmul (2 ^ n) (embed n q2 V) (embed n q1 U)) /\
  meq (2 ^ n) (mmul (2 ^ n) (embed n q1 U) (embed n q2 V))
              (embed n (q1 ++ q2) (kron (2 ^ length q2) U V)).
Proof.
  intros H1 H2 HD. pose proof (placement_app n q1 q2 H1 H2 HD) as H3.
  assert (E1 := embed_app_l n q1 q2 U H1 (proj1 H3) (proj2 (proj2 H2))).
  assert (E2 := embed_app_r n q1 q2 V H2 (proj1 H3) (proj2 (proj2 H1))).
  assert (P1 : meq (2 ^ n) (mmul (2 ^ n) (embed n q1 U) (embed n q2 V))
              (embed n (q1 ++ q2) (kron (2 ^ length q2) U V))).
  { rewrite E1, E2, embed_mmul by auto. apply embed_proper.
    rewrite app_length, Nat.pow_add_r. rewrite kron_mmul by apply pow2_pos.
    apply kron_proper; [apply pow2_pos|apply mmul_1_r|apply mmul_1_l]. }
  split; auto. rewrite P1. rewrite E1, E2, embed_mmul by auto. symmetry. apply embed_proper.
  rewrite app_length, Nat.pow_add_r. rewrite kron_mmul by apply pow2_pos.
  apply kron_proper; [apply pow2_pos|apply mmul_1_l|apply mmul_1_r].
Qed.

(** On all qubits in their natural order, embedding does nothing. *)
Lemma embed_all n U : meq (2 ^ n) (embed n (seq 0 n) U) U.
Proof.
  intros i j Hi Hj. unfold embed.
  replace (agree_off n (seq 0 n) i j) with true.
  - rewrite !subindex_val. fold (bits n i). fold (bits n j). now rewrite !val_bits.
  - symmetry. apply agree_off_spec. intros q Hq Hn. exfalso. apply Hn. apply in_seq. lia.
Qed.

Lemma placement_all n : (0 < n)%nat -> placement n (seq 0 n).
Proof.
  intros Hn. split; [apply seq_NoDup|]. split.
  - destruct n; simpl; [lia|congruence].
  - intros q Hq. apply in_seq in Hq. lia.
Qed.
