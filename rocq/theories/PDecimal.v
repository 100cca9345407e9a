(** The printed numbers. *)
From Coq Require Import Reals List Arith Lia Lra Bool String Ascii ZArith.
From Flocq Require Import Core.Core.
From Verif Require Import Base ModelUnitary ModelSequence ModelText ModelDecimal SpecText SpecDecimal PText.
Import ListNotations.
Open Scope string_scope.

Definition dval (n : Z) (l : list ascii) : Z := fold_left (fun n c => 10 * n + (Z.of_nat (nat_of_ascii c) - 48))%Z l n.

Lemma dval_shift l : forall n, dval n l = (n * 10 ^ Z.of_nat (List.length l) + dval 0 l)%Z.
Proof.
  induction l as [|c l IH]; intros n; cbn [dval fold_left List.length].
  - simpl. lia.
  - fold (dval (10 * n + (Z.of_nat (nat_of_ascii c) - 48)) l). fold (dval (10 * 0 + (Z.of_nat (nat_of_ascii c) - 48)) l).
    rewrite (IH (10 * n + _)%Z), (IH (10 * 0 + _)%Z). rewrite Nat2Z.inj_succ, Z.pow_succ_r by lia. ring.
Qed.

Lemma chars_length s : List.length (chars s) = String.length s.
Proof. induction s as [|c s IH]; simpl; auto. Qed.

Lemma digits_app a b : digits_value (a ++ b) = (digits_value a * 10 ^ Z.of_nat (String.length b) + digits_value b)%Z.
Proof.
  unfold digits_value. rewrite chars_app, fold_left_app. fold (dval 0 (chars a)). fold (dval (dval 0 (chars a)) (chars b)).
  rewrite dval_shift, chars_length. reflexivity.
Qed.

Lemma digit_value d : (0 <= d < 10)%Z -> (Z.of_nat (nat_of_ascii (digit d)) - 48 = d)%Z.
Proof.
  intros H. unfold digit. rewrite nat_ascii_embedding by lia. rewrite Nat2Z.inj_add, Z2Nat.id by lia. lia.
Qed.

Lemma digit_in d : (0 <= d < 10)%Z -> In (digit d) (chars "0123456789").
Proof.
  intros H. assert (X : (d = 0 \/ d = 1 \/ d = 2 \/ d = 3 \/ d = 4 \/ d = 5 \/ d = 6 \/ d = 7 \/ d = 8 \/ d = 9)%Z) by lia.
  repeat (destruct X as [->|X]; [vm_compute; tauto|]). subst. vm_compute. tauto.
Qed.

Lemma pad_length k n : String.length (pad k n) = k.
Proof. induction k; simpl; auto. Qed.

Lemma pad_value k n : (0 <= n)%Z -> digits_value (pad k n) = (n mod 10 ^ Z.of_nat k)%Z.
Proof.
  intros Hn. induction k as [|k IH]; [simpl; now rewrite Z.mod_1_r|].
  cbn [pad]. change (String ?c ?t) with (String c "" ++ t). rewrite digits_app, IH, pad_length.
  replace (digits_value (String (digit ((n / 10 ^ Z.of_nat k) mod 10)) "")) with ((n / 10 ^ Z.of_nat k) mod 10)%Z.
  2:{ unfold digits_value. cbn [chars list_ascii_of_string fold_left]. rewrite digit_value by (apply Z.mod_pos_bound; lia). lia. }
  rewrite Nat2Z.inj_succ, Z.pow_succ_r by lia. rewrite (Z.mul_comm 10). rewrite Z.rem_mul_r; [lia| |lia].
  apply Z.pow_nonzero; lia.
Qed.

Lemma pad_digits k n c : In c (chars (pad k n)) -> In c (chars "0123456789").
Proof.
  induction k as [|k IH]; [intros []|]. cbn [pad chars list_ascii_of_string]. intros [<-|H]; [|now apply IH].
  apply digit_in, Z.mod_pos_bound. lia.
Qed.

(** ** Zeros at the end *)
Fixpoint zeros (z : nat) : string := match z with O => "" | S z => String "0" (zeros z) end.
Lemma zeros_length z : String.length (zeros z) = z.
Proof. induction z; simpl; auto. Qed.
Lemma zeros_value z : digits_value (zeros z) = 0%Z.
Proof. induction z; simpl; auto. Qed.

Lemma strip_zeros s : exists z, s = strip s ++ zeros z.
Proof.
  induction s as [|c s (z & IH)]; [exists 0%nat; reflexivity|]. cbn [strip]. destruct (strip s) as [|c' t] eqn:E.
  - destruct (Ascii.eqb_spec c "0").
    + subst c. exists (S z). simpl in *. now rewrite <- IH.
    + exists z. simpl in *. now rewrite <- IH.
  - exists z. cbn [append]. now rewrite IH at 1.
Qed.

Lemma strip_in s c : In c (chars (strip s)) -> In c (chars s).
Proof. destruct (strip_zeros s) as (z & E). rewrite E at 2. rewrite chars_app. intros H. apply in_or_app. now left. Qed.

Lemma strip_read i s : (IZR (digits_value (i ++ strip s)) / 10 ^ String.length (strip s) = IZR (digits_value (i ++ s)) / 10 ^ String.length s)%R.
Proof.
  destruct (strip_zeros s) as (z & E). set (t := strip s) in *. rewrite E. rewrite <- sapp_assoc. rewrite (digits_app (i ++ t)), zeros_value, Z.add_0_r.
  assert (L : String.length (t ++ zeros z) = (String.length t + z)%nat).
  { rewrite <- !chars_length, chars_app, app_length, !chars_length, zeros_length. reflexivity. }
  rewrite L, zeros_length, mult_IZR, pow_add. rewrite <- (pow_IZR 10).
  assert (P : forall k, (10 ^ k <> 0)%R) by (intros k; apply pow_nonzero; lra). field. split; apply P.
Qed.

(** ** The number of digits *)
Lemma ndigits_bounds : forall f n, (0 <= n < 10 ^ Z.of_nat (S f))%Z ->
  (n < 10 ^ Z.of_nat (ndigits f n))%Z /\ (1 <= ndigits f n <= S f)%nat /\ ((1 <= n)%Z -> (10 ^ Z.of_nat (ndigits f n - 1) <= n)%Z).
Proof.
  induction f as [|f IH]; intros n H.
  - cbn [ndigits]. split; [exact (proj2 H)|]. split; [lia|]. simpl. lia.
  - cbn [ndigits]. destruct (Z.ltb_spec n 10) as [Hs|Hs].
    + split; [simpl; lia|]. split; [lia|]. simpl. lia.
    + assert (D := Z.div_mod n 10 ltac:(lia)). assert (M := Z.mod_pos_bound n 10 ltac:(lia)).
      destruct (IH (n / 10)%Z) as (A & B & C).
      { split; [apply Z.div_pos; lia|]. apply Z.div_lt_upper_bound; [lia|]. rewrite <- Z.pow_succ_r by lia.
        replace (Z.succ (Z.of_nat (S f))) with (Z.of_nat (S (S f))) by lia. lia. }
      split; [rewrite Nat2Z.inj_succ, Z.pow_succ_r by lia; lia|]. split; [lia|]. intros _.
      assert (1 <= n / 10)%Z by (apply Z.div_le_lower_bound; lia). specialize (C H0).
      replace (S (ndigits f (n / 10)) - 1)%nat with (S (ndigits f (n / 10) - 1)) by lia.
      rewrite Nat2Z.inj_succ, Z.pow_succ_r by lia. lia.
Qed.

Lemma log_fuel n : (0 <= n)%Z -> (n < 10 ^ Z.of_nat (S (Z.to_nat (Z.log2 n))))%Z.
Proof.
  intros H. destruct (Z.eq_dec n 0) as [->|N]; [simpl; lia|].
  rewrite Nat2Z.inj_succ, Z2Nat.id by apply Z.log2_nonneg.
  assert (L := Z.log2_spec n ltac:(lia)).
  eapply Z.lt_le_trans; [apply L|]. apply Z.pow_le_mono_l. lia.
Qed.

Lemma str_int_value n : (0 <= n)%Z -> digits_value (str_int n) = n.
Proof.
  intros H. unfold str_int. rewrite pad_value by exact H. apply Z.mod_small. split; [exact H|].
  now apply (ndigits_bounds _ _ (conj H (log_fuel n H))).
Qed.
Lemma str_int_digits n c : In c (chars (str_int n)) -> In c (chars "0123456789").
Proof. apply pad_digits. Qed.
Lemma str_int_nonempty n : (0 <= n)%Z -> str_int n <> "".
Proof.
  intros H E. apply (f_equal String.length) in E. unfold str_int in E. rewrite pad_length in E. simpl in E.
  assert (X := proj1 (proj2 (ndigits_bounds _ _ (conj H (log_fuel n H))))). lia.
Qed.

(** ** Reading *)
Lemma digits_lack s c : (forall a, In a (chars s) -> In a (chars "0123456789")) -> ~ In c (chars "0123456789") -> lacks c s.
Proof. intros H N I. apply N. now apply H. Qed.

Lemma read_plain_point i f : (forall a, In a (chars i) -> In a (chars "0123456789")) -> (forall a, In a (chars f) -> In a (chars "0123456789")) ->
  read_plain (i ++ "." ++ f) = (IZR (digits_value (i ++ f)) / 10 ^ String.length f)%R.
Proof.
  intros Hi Hf. unfold read_plain. change ("." ++ f) with (String "." f).
  rewrite split_app by (apply digits_lack; [exact Hi|absent]). rewrite split_lacks by (apply digits_lack; [exact Hf|absent]). reflexivity.
Qed.
Lemma read_plain_int i : (forall a, In a (chars i) -> In a (chars "0123456789")) -> read_plain i = IZR (digits_value i).
Proof. intros Hi. unfold read_plain. rewrite split_lacks by (apply digits_lack; [exact Hi|absent]). reflexivity. Qed.

Lemma str_decimal_chars k n c : In c (chars (str_decimal k n)) -> In c (chars "0123456789.e-").
Proof.
  assert (D : forall s, (forall a, In a (chars s) -> In a (chars "0123456789")) -> In c (chars s) -> In c (chars "0123456789.e-")).
  { intros s Hs H. specialize (Hs c H). unfold chars in *. simpl in *. tauto. }
  assert (DS : forall j m, In c (chars (strip (pad j m))) -> In c (chars "0123456789.e-")).
  { intros j m. apply D. intros a Ha. apply strip_in in Ha. now apply pad_digits in Ha. }
  unfold str_decimal. destruct (_ && _).
  - rewrite !chars_app, !in_app_iff. intros [H|[H|[H|H]]].
    + eapply D; [|exact H]. apply pad_digits.
    + destruct (strip (pad (ndigits k n - 1) n)) eqn:E; [destruct H|]. rewrite <- E in H. cbn [append chars list_ascii_of_string] in H.
      destruct H as [<-|H]; [vm_compute; tauto|]. now apply DS in H.
    + vm_compute in *. tauto.
    + destruct (Z.ltb _ _); [rewrite chars_app, in_app_iff in H; destruct H as [H|H]; [vm_compute in *; tauto|]|];
        (eapply D; [|exact H]; apply str_int_digits).
  - rewrite !chars_app, !in_app_iff. intros [H|[H|H]].
    + eapply D; [|exact H]. apply str_int_digits.
    + vm_compute in *. tauto.
    + destruct (strip (pad k n)) eqn:E; [vm_compute in *; tauto|]. rewrite <- E in H. now apply DS in H.
Qed.

Lemma read_decimal_point k n : (0 <= n)%Z ->
  read_unsigned (str_int (n / 10 ^ Z.of_nat k) ++ "." ++ (match strip (pad k n) with "" => "0" | f => f end)) = (IZR n / 10 ^ k)%R.
Proof.
  intros Hn. assert (P : forall j, (0 < 10 ^ Z.of_nat j)%Z) by (intros j; apply Z.pow_pos_nonneg; lia).
  assert (P0 : forall j, (10 ^ j <> 0)%R) by (intros j; apply pow_nonzero; lra).
  set (i := str_int (n / 10 ^ Z.of_nat k)). set (f := match strip (pad k n) with "" => "0" | f => f end).
  assert (Di : forall a, In a (chars i) -> In a (chars "0123456789")) by apply str_int_digits.
  assert (Df : forall a, In a (chars f) -> In a (chars "0123456789")).
  { intros a. unfold f. destruct (strip (pad k n)) eqn:E; [vm_compute; tauto|]. rewrite <- E. intros Ha. apply strip_in in Ha. now apply pad_digits in Ha. }
  unfold read_unsigned. rewrite split_lacks.
  2:{ apply lacks_app. split; [apply digits_lack; [exact Di|absent]|]. apply lacks_cons. split; [discriminate|]. apply digits_lack; [exact Df|absent]. }
  rewrite read_plain_point by assumption.
  assert (W : digits_value (i ++ pad k n) = n).
  { rewrite digits_app, pad_length, pad_value by exact Hn. unfold i. rewrite str_int_value by (apply Z.div_pos; [exact Hn|apply P]).
    symmetry. rewrite Z.mul_comm. apply Z.div_mod. specialize (P k). lia. }
  assert (S := strip_read i (pad k n)). rewrite W, pad_length in S. rewrite <- S. unfold f.
  destruct (strip (pad k n)) eqn:E; [|reflexivity].
  rewrite sapp_nil_r, digits_app. cbn [String.length]. change (digits_value "0") with 0%Z. rewrite Z.add_0_r, mult_IZR. simpl. field.
Qed.

Lemma read_str_decimal k n : (0 <= n)%Z -> read_unsigned (str_decimal k n) = (IZR n / 10 ^ k)%R.
Proof.
  intros Hn. assert (P : forall j, (0 < 10 ^ Z.of_nat j)%Z) by (intros j; apply Z.pow_pos_nonneg; lia).
  assert (PR : forall j, IZR (10 ^ Z.of_nat j) = (10 ^ j)%R) by (intros j; now rewrite pow_IZR).
  assert (P0 : forall j, (10 ^ j <> 0)%R) by (intros j; apply pow_nonzero; lra).
  unfold str_decimal. destruct (Z.ltb_spec 0 n) as [Hp|Hp]; cbn [andb].
  destruct (Z.ltb_spec (n * 10 ^ 4) (10 ^ Z.of_nat k)) as [Hs|Hs].
  - set (l := ndigits k n).
    assert (Hk : (0 <= n < 10 ^ Z.of_nat (S k))%Z).
    { split; [exact Hn|]. rewrite Nat2Z.inj_succ, Z.pow_succ_r by lia. specialize (P k). change (10 ^ 4)%Z with 10000%Z in Hs. lia. }
    destruct (ndigits_bounds k n Hk) as (A & B & C). fold l in A, B, C. specialize (C ltac:(lia)).
    assert (Hl : (l <= k)%nat).
    { assert (X : (10 ^ Z.of_nat (l - 1) < 10 ^ Z.of_nat k)%Z) by (change (10 ^ 4)%Z with 10000%Z in Hs; lia).
      apply Z.pow_lt_mono_r_iff in X; lia. }
    set (d1 := pad 1 (n / 10 ^ Z.of_nat (l - 1))). set (r0 := pad (l - 1) n).
    set (e := Z.of_nat (k + 1 - l)). set (ex := if Z.ltb e 10 then "0" ++ str_int e else str_int e).
    assert (Ex : digits_value ex = e).
    { unfold ex. assert (He : (0 <= e)%Z) by (unfold e; lia). destruct (Z.ltb e 10); [rewrite digits_app|]; rewrite str_int_value by exact He; simpl; lia. }
    assert (Dx : forall a, In a (chars ex) -> In a (chars "0123456789")).
    { unfold ex. intros a. destruct (Z.ltb e 10); [rewrite chars_app, in_app_iff; intros [H|H]; [vm_compute in *; tauto|]|intros H]; eapply str_int_digits, H. }
    assert (D1 : forall a, In a (chars d1) -> In a (chars "0123456789")) by apply pad_digits.
    assert (DR : forall a, In a (chars (strip r0)) -> In a (chars "0123456789")) by (intros a Ha; apply strip_in in Ha; now apply pad_digits in Ha).
    set (m := d1 ++ match strip r0 with "" => "" | _ => "." ++ strip r0 end).
    assert (Lm : lacks "e" m).
    { unfold m. apply lacks_app. split; [apply digits_lack; [exact D1|absent]|]. destruct (strip r0) eqn:E; [apply lacks_nil|]. rewrite <- E in *.
      apply lacks_cons. split; [discriminate|]. apply digits_lack; [exact DR|absent]. }
    replace (d1 ++ (match strip r0 with "" => "" | String _ _ => "." ++ strip r0 end) ++ "e-" ++ ex) with (m ++ String "e" ("-" ++ ex))
      by (unfold m; rewrite sapp_assoc; reflexivity).
    unfold read_unsigned. rewrite split_app by exact Lm.
    rewrite split_lacks by (apply lacks_app; split; [absent|apply digits_lack; [exact Dx|absent]]).
    cbn [append read_exponent]. rewrite Ex.
    assert (V : read_plain m = (IZR n / 10 ^ (l - 1))%R).
    { assert (W : digits_value (d1 ++ r0) = n).
      { rewrite digits_app. unfold d1, r0. rewrite !pad_value, pad_length; [|exact Hn|apply Z.div_pos; [exact Hn|apply P]].
        rewrite (Z.mod_small (n / _)).
        - symmetry. rewrite Z.mul_comm. apply Z.div_mod. specialize (P (l - 1)%nat). lia.
        - split; [apply Z.div_pos; [exact Hn|apply P]|]. apply Z.div_lt_upper_bound; [apply P|].
          rewrite <- Z.pow_add_r by lia. replace (Z.of_nat (l - 1) + Z.of_nat 1)%Z with (Z.of_nat l) by lia. exact A. }
      assert (S := strip_read d1 r0). rewrite W in S. unfold r0 in S at 3. rewrite pad_length in S.
      unfold m. destruct (strip r0) eqn:E.
      - rewrite sapp_nil_r, read_plain_int by exact D1. rewrite <- S. rewrite sapp_nil_r. simpl. field.
      - rewrite <- E in *. rewrite read_plain_point by assumption. exact S. }
    rewrite V. rewrite powerRZ_neg'. unfold e. rewrite <- pow_powerRZ.
    replace (10 ^ k)%R with (10 ^ (l - 1) * 10 ^ (k + 1 - l))%R by (rewrite <- pow_add; f_equal; lia).
    field. split; apply P0.
  - apply read_decimal_point. exact Hn.
  - apply read_decimal_point. exact Hn.
Qed.

(** ** With sign *)
Lemma digits_head s t : s <> "" -> (forall a, In a (chars s) -> In a (chars "0123456789")) ->
  match s ++ t with String "-" _ => False | _ => True end.
Proof.
  destruct s as [|c s]; [congruence|]. intros _ H. specialize (H c (or_introl eq_refl)).
  cbn [append]. destruct c as [[] [] [] [] [] [] [] []]; try exact I. vm_compute in H. repeat (destruct H as [H|H]; [discriminate H|]). exact H.
Qed.

Lemma str_decimal_head k n : (0 <= n)%Z -> match str_decimal k n with String "-" _ => False | _ => True end.
Proof.
  intros H. unfold str_decimal. destruct (_ && _).
  - apply digits_head; [|apply pad_digits]. intros E. apply (f_equal String.length) in E. rewrite pad_length in E. discriminate E.
  - apply digits_head; [|apply str_int_digits]. apply str_int_nonempty, Z.div_pos; [exact H|]. apply Z.pow_pos_nonneg; lia.
Qed.

Lemma read_py_fmt k x : read_real (py_fmt k x) = (IZR (round_units k x) / 10 ^ k)%R.
Proof.
  assert (Hp : (0 < 10 ^ k)%R) by (apply pow_lt; lra).
  unfold py_fmt. destruct (Rlt_dec x 0) as [H|H]; cbn [append].
  - unfold read_real. rewrite read_str_decimal by apply Z.abs_nonneg.
    assert (N : (round_units k x <= 0)%Z).
    { unfold round_units. rewrite <- (Zrnd_IZR ZnearestE 0). apply (Zrnd_le ZnearestE). nra. }
    rewrite Z.abs_neq, opp_IZR by exact N. field. lra.
  - assert (N : (0 <= round_units k x)%Z).
    { unfold round_units. rewrite <- (Zrnd_IZR ZnearestE 0) at 1. apply (Zrnd_le ZnearestE). nra. }
    assert (S := str_decimal_head k (Z.abs (round_units k x)) (Z.abs_nonneg _)).
    rewrite <- (Z.abs_eq _ N) at 2. rewrite <- (read_str_decimal k (Z.abs (round_units k x))) by apply Z.abs_nonneg.
    destruct (str_decimal k (Z.abs (round_units k x))) as [|c t]; [reflexivity|].
    unfold read_real. destruct c as [[] [] [] [] [] [] [] []]; try reflexivity. destruct S.
Qed.

Lemma py_fmt_close k x : (Rabs (read_real (py_fmt k x) - x) <= / 2 * / 10 ^ k)%R.
Proof.
  rewrite read_py_fmt. assert (Hp : (0 < 10 ^ k)%R) by (apply pow_lt; lra).
  assert (H := Znearest_half (fun x => negb (Z.even x)) (x * 10 ^ k)%R). fold (round_units k x) in H.
  replace (IZR (round_units k x) / 10 ^ k - x)%R with (- (x * 10 ^ k - IZR (round_units k x)) * / 10 ^ k)%R by (field; lra).
  rewrite Rabs_mult, Rabs_Ropp, (Rabs_pos_eq (/ 10 ^ k)) by (left; apply Rinv_0_lt_compat; exact Hp).
  apply Rmult_le_compat_r; [left; apply Rinv_0_lt_compat; exact Hp|]. exact H.
Qed.
