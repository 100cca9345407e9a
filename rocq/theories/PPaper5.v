(** Proofs about runs, bins and buckets of the paper's notebooks. *)
From Coq Require Import Reals List Arith Bool Lia Lra.
From Verif Require Import Base CMat ModelPaper SpecPaper PPaper.
Import ListNotations.
Open Scope R_scope.

Lemma skipn_twice {A} : forall a b (l : list A), skipn a (skipn b l) = skipn (a + b) l.
Proof.
  intros a b. revert a. induction b as [| b IH]; intros a l; [now rewrite Nat.add_0_r |].
  destruct l as [| x l]; [now rewrite !skipn_nil |]. rewrite Nat.add_succ_r. cbn [skipn]. apply IH.
Qed.

Lemma runs_from {A} k : forall c s (l : list A), (k * (s + c) <= List.length l)%nat ->
  List.concat (map (fun r => slice (k * r) (k * (r + 1)) l) (seq s c)) = firstn (k * c) (skipn (k * s) l) /\
  (forall r, In r (map (fun r => slice (k * r) (k * (r + 1)) l) (seq s c)) -> List.length r = k).
Proof.
  induction c as [| c IH]; intros s l H.
  - rewrite Nat.mul_0_r. split; [reflexivity | intros r []].
  - destruct (IH (S s) l ltac:(nia)) as [E L]. cbn [seq map List.concat]. split.
    + rewrite E. unfold slice. replace (k * (s + 1) - k * s)%nat with k by nia.
      replace (k * S s)%nat with (k + k * s)%nat by nia.
      replace (k * S c)%nat with (k + k * c)%nat by nia.
      transitivity (firstn (k + k * c) (firstn k (skipn (k * s) l) ++ skipn k (skipn (k * s) l))); [| now rewrite firstn_skipn].
      assert (Lk : List.length (firstn k (skipn (k * s) l)) = k)
        by (rewrite firstn_length, skipn_length; apply Nat.min_l; nia).
      rewrite firstn_app, Lk.
      replace (firstn (k + k * c) (firstn k (skipn (k * s) l))) with (firstn k (skipn (k * s) l))
        by (symmetry; apply firstn_all2; lia).
      replace (k + k * c - k)%nat with (k * c)%nat by lia. f_equal.
      rewrite skipn_twice. reflexivity.
    + intros r [<- | Hr]; [| now apply L]. unfold slice. rewrite firstn_length, skipn_length, Nat.min_l; nia.
Qed.

Lemma runs_lemma : forall A k (l : list A), (0 < k)%nat ->
  List.length (split_runs k l) = (List.length l / k)%nat /\
  (forall r, In r (split_runs k l) -> List.length r = k) /\
  List.concat (split_runs k l) = firstn (k * (List.length l / k)) l /\
  bin_slices k l = split_runs k l.
Proof.
  intros A k l Hk. assert (B := Nat.mul_div_le (List.length l) k ltac:(lia)).
  destruct (runs_from k (List.length l / k) 0 l) as [E L]; [simpl; exact B |].
  split; [unfold split_runs; now rewrite map_length, seq_length |].
  split; [exact L |]. split; [rewrite Nat.mul_0_r in E; exact E |].
  unfold bin_slices, split_runs, range_step. rewrite map_map.
  assert (D := Nat.div_mod (List.length l) k ltac:(lia)).
  replace ((List.length l - List.length l mod k + (k - 1)) / k)%nat with (List.length l / k)%nat.
  - apply map_ext. intros i. replace (k * (i + 1))%nat with (k * i + k)%nat by lia. reflexivity.
  - apply (Nat.div_unique _ _ _ (k - 1)); lia.
Qed.

Lemma all_some_map {A B} (f : A -> option B) (g : A -> B) l : (forall a, In a l -> f a = Some (g a)) ->
  all_some (map f l) = Some (map g l).
Proof.
  induction l as [| a l IH]; intros H; [reflexivity |]. cbn [map all_some].
  rewrite (H a) by now left. rewrite IH; [reflexivity | intros b Hb; apply H; now right].
Qed.

Lemma np_sum_app a b : np_sum (a ++ b) = np_sum a + np_sum b.
Proof.
  induction a as [| x a IH]; [change (np_sum b = 0 + np_sum b); lra |].
  change (x + np_sum (a ++ b) = x + np_sum a + np_sum b). rewrite IH. lra.
Qed.

Lemma sum_means k ls : (0 < k)%nat -> (forall r, In r ls -> List.length r = k) ->
  INR k * np_sum (map (fun r => np_sum r / INR (List.length r)) ls) = np_sum (List.concat ls).
Proof.
  intros Hk. assert (Hk' := lt_0_INR k Hk). induction ls as [| r ls IH]; intros H; [unfold np_sum; simpl; lra |].
  cbn [map List.concat]. rewrite np_sum_app, <- IH by (intros x Hx; apply H; now right).
  change (INR k * (np_sum r / INR (List.length r) + np_sum (map (fun r => np_sum r / INR (List.length r)) ls)) =
    np_sum r + INR k * np_sum (map (fun r => np_sum r / INR (List.length r)) ls)).
  rewrite (H r) by now left. field. lra.
Qed.

Lemma runs_some k l : (0 < k)%nat ->
  run_probs k l = Some (map (fun r => np_sum r / INR (List.length r)) (split_runs k l)).
Proof.
  intros Hk. destruct (runs_lemma _ k l Hk) as (_ & L & _). unfold run_probs. apply all_some_map.
  intros r Hr. apply np_mean_some. intros ->. specialize (L _ Hr). simpl in L. lia.
Qed.

Lemma mean_lemma : forall k (l : list R), (0 < k)%nat ->
  exists ms, run_probs k l = Some ms /\ bin_means k l = Some ms /\
    List.length ms = (List.length l / k)%nat /\
    np_mean ms = np_mean (firstn (k * (List.length l / k)) l).
Proof.
  intros k l Hk. destruct (runs_lemma _ k l Hk) as (N & L & E & EB).
  assert (R := runs_some k l Hk). eexists. split; [exact R |].
  split; [unfold bin_means; rewrite EB; exact R |]. rewrite map_length. split; [exact N |].
  assert (S := sum_means k (split_runs k l) Hk L). rewrite E in S.
  assert (Hk' := lt_0_INR k Hk).
  unfold np_mean. rewrite map_length, N. rewrite firstn_length, Nat.min_l by (apply Nat.mul_div_le; lia).
  rewrite mult_INR. set (c := INR (List.length l / k)) in *.
  unfold np_div. destruct (Req_EM_T c 0) as [Z | Z].
  - destruct (Req_EM_T (INR k * c) 0) as [_ | W]; [reflexivity |]. exfalso. apply W. rewrite Z. lra.
  - destruct (Req_EM_T (INR k * c) 0) as [W | _].
    + exfalso. apply Rmult_integral in W. destruct W; lra.
    + f_equal. rewrite <- S. field. lra.
Qed.

(** ** Buckets *)

Lemma slice_ext {A} i j (l l' : list A) :
  (forall p, (i <= p < j)%nat -> nth_error l p = nth_error l' p) -> slice i j l = slice i j l'.
Proof.
  unfold slice. remember (j - i)%nat as c eqn:Ec. revert i l l' Ec.
  induction c as [| c IH]; intros i l l' Ec H; [reflexivity |].
  assert (HD : forall m : list A, firstn (S c) (skipn i m) =
    match nth_error m i with Some x => x :: firstn c (skipn (S i) m) | None => [] end).
  { clear. intros m. revert i. induction m as [| x m IH]; intros i; [now destruct i |].
    destruct i as [| i]; [reflexivity |]. exact (IH i). }
  rewrite !HD, <- (H i) by lia. destruct (nth_error l i); [| reflexivity]. f_equal.
  apply IH; [lia | intros p Hp; apply H; lia].
Qed.

Lemma mod_in_bucket B i p : (0 < B)%nat -> (B * i <= p < B * i + B - 1)%nat -> (p mod B <> B - 1)%nat.
Proof. intros HB Hp. rewrite <- (Nat.mod_unique p B i (p - B * i)) by lia. lia. Qed.

Lemma bucket_lemma : forall B (l l' : list R), (0 < B)%nat -> List.length l = List.length l' ->
  (forall p, (p mod B <> B - 1)%nat -> nth_error l p = nth_error l' p) ->
  bucket_means B l = bucket_means B l'.
Proof.
  intros B l l' HB HL H. unfold bucket_means, bucket_slices. rewrite <- HL. do 2 f_equal.
  apply map_ext_in. intros i Hi. unfold range_step in Hi. apply in_map_iff in Hi.
  destruct Hi as (c & <- & _). apply slice_ext. intros p Hp. apply H. now apply (mod_in_bucket B c).
Qed.

Lemma bucket_one B l : (0 < B)%nat -> List.length l = B ->
  bucket_means B l = all_some [np_mean (firstn (B - 1) l)].
Proof.
  intros HB HL. unfold bucket_means, bucket_slices, range_step. rewrite HL.
  replace ((B + (B - 1)) / B)%nat with 1%nat by (apply (Nat.div_unique _ _ _ (B - 1)); lia).
  cbn [seq map]. rewrite Nat.mul_0_r. unfold slice. rewrite Nat.add_0_l, Nat.sub_0_r. reflexivity.
Qed.

Lemma np_sum_repeat0 n : np_sum (repeat 0 n) = 0.
Proof. induction n as [| n IH]; [reflexivity |]. change (0 + np_sum (repeat 0 n) = 0). rewrite IH. lra. Qed.

Lemma bucket_refuted_lemma : forall B, (2 <= B)%nat -> exists l m,
  List.length l = B /\ bucket_means B l = Some [0] /\ np_mean l = Some m /\ 0 < m.
Proof.
  intros B HB. exists (repeat 0 (B - 1) ++ [INR B]), 1.
  assert (HB' : 0 < INR B) by (apply lt_0_INR; lia).
  assert (HL : List.length (repeat 0 (B - 1) ++ [INR B]) = B) by (rewrite app_length, repeat_length; simpl; lia).
  split; [exact HL |]. split; [| split; [| lra]].
  - rewrite bucket_one by (try exact HL; lia).
    rewrite firstn_app, repeat_length, Nat.sub_diag. cbn [firstn]. rewrite app_nil_r.
    rewrite firstn_all2 by (rewrite repeat_length; lia).
    rewrite np_mean_some.
    + rewrite np_sum_repeat0. cbn [all_some]. do 2 f_equal. unfold Rdiv. lra.
    + intros Z. apply (f_equal (@List.length R)) in Z. rewrite repeat_length in Z. simpl in Z. lia.
  - rewrite np_mean_some by (destruct (B - 1)%nat; discriminate).
    rewrite np_sum_app, np_sum_repeat0, HL. cbn [np_sum fold_right]. f_equal. field. lra.
Qed.

Lemma bucket_size_one_lemma : forall l, l <> [] -> bucket_means 1 l = None.
Proof.
  intros l Hl. unfold bucket_means, bucket_slices, range_step.
  destruct l as [| x l]; [congruence |]. rewrite Nat.sub_diag, Nat.add_0_r, Nat.div_1_r.
  cbn [List.length seq map all_some]. unfold slice. rewrite Nat.mul_0_r. cbn [Nat.add Nat.sub firstn].
  unfold np_mean, np_div. cbn [List.length INR]. destruct (Req_EM_T 0 0); [reflexivity | congruence].
Qed.

(** ** Every second circuit *)

Lemma even_interleave {A} : forall (a b : list A) s, List.length a = List.length b -> Nat.even s = true ->
  let l := flat_map (fun xy => [fst xy; snd xy]) (List.combine a b) in
  map snd (filter (fun ix => Nat.even (fst ix)) (List.combine (seq s (List.length l)) l)) = a.
Proof.
  induction a as [| x a IH]; intros [| y b] s HL Hs; try discriminate; [reflexivity |].
  cbn [List.combine flat_map List.app fst snd List.length seq filter].
  rewrite Hs. rewrite Nat.even_succ, <- Nat.negb_even, Hs. cbn [negb map snd]. f_equal.
  apply IH; [now injection HL | exact Hs].
Qed.

Lemma interleave_length {A} : forall (a b : list A), List.length a = List.length b ->
  List.length (flat_map (fun xy => [fst xy; snd xy]) (List.combine a b)) = (2 * List.length a)%nat.
Proof.
  induction a as [| x a IH]; intros [| y b] HL; try discriminate; [reflexivity |].
  cbn [List.combine flat_map List.app List.length]. rewrite IH by now injection HL. lia.
Qed.

Lemma discard_lemma : forall A (a b c : list A), List.length a = 22%nat -> List.length b = 22%nat ->
  discard_odd (flat_map (fun xy => [fst xy; snd xy]) (List.combine a b) ++ c) = a ++ c.
Proof.
  intros A a b c Ha Hb. unfold discard_odd.
  assert (L := interleave_length a b ltac:(congruence)). rewrite Ha in L. cbn in L.
  rewrite firstn_app, skipn_app, L, Nat.sub_diag, firstn_O, skipn_O, app_nil_r.
  rewrite firstn_all2 by lia. rewrite skipn_all2 by lia. cbn [List.app]. f_equal.
  unfold every_second. apply (even_interleave a b 0); [congruence | reflexivity].
Qed.

Lemma index_lemma : forall k, (k < 50)%nat ->
  circuit_index (2 * (k + 1)) = Some k /\
  (forall n, circuit_index n = Some k <-> (n = 2 * (k + 1) \/ n = 2 * (k + 1) + 1)%nat).
Proof.
  intros k Hk.
  assert (C : forall n, circuit_index n = Some k <-> (n / 2 = k + 1)%nat).
  { intros n. unfold circuit_index. cbv zeta. generalize (n / 2)%nat. intros i.
    destruct (Nat.leb_spec 1 i) as [H1 | H1]; destruct (Nat.leb_spec (i - 1) 49) as [H2 | H2]; cbn [andb].
    - split; intros E; [assert (i - 1 = k)%nat by congruence; lia | f_equal; lia].
    - split; [discriminate | lia].
    - split; [discriminate | lia].
    - split; [discriminate | lia]. }
  assert (D : forall n, (n / 2 = k + 1 <-> (n = 2 * (k + 1) \/ n = 2 * (k + 1) + 1))%nat).
  { intros n. assert (X := Nat.div_mod n 2 ltac:(lia)). assert (Y := Nat.mod_upper_bound n 2 ltac:(lia)).
    split; [lia |]. intros [-> | ->]; symmetry; [apply (Nat.div_unique _ _ _ 0) | apply (Nat.div_unique _ _ _ 1)]; lia. }
  split; [apply C, D; now left | intros n; now rewrite C, D].
Qed.
