(** The text output of unitaries and sequences can be read back: C51. *)
From Coq Require Import Reals List Arith Lia Lra Bool String Ascii DecimalString DecimalNat ZArith.
From Coquelicot Require Import Complex.
From Verif Require Import Base CMat Det ModelUnitary ModelEntry ModelSequence ModelText Spec SpecModel SpecText
  PUnitary PEntry PSeqHeap PSeqMeth PSeqWorld PSeqUndo.
Import ListNotations.
Open Scope string_scope.

(** ** Strings *)
Definition lacks (c : ascii) (s : string) : Prop := ~ In c (chars s).

Lemma chars_app s t : chars (s ++ t) = (chars s ++ chars t)%list.
Proof. induction s as [|a s IH]; simpl; [reflexivity|]. unfold chars in *. simpl. now rewrite IH. Qed.
Lemma sapp_nil_r s : s ++ "" = s.
Proof. induction s as [|a s IH]; simpl; [reflexivity|]. now rewrite IH. Qed.
Lemma sapp_assoc a b c : (a ++ b) ++ c = a ++ (b ++ c).
Proof. induction a as [|x a IH]; simpl; [reflexivity|]. now rewrite IH. Qed.

Lemma lacks_app c s t : lacks c (s ++ t) <-> lacks c s /\ lacks c t.
Proof. unfold lacks. rewrite chars_app, in_app_iff. tauto. Qed.
Lemma lacks_cons c a s : lacks c (String a s) <-> a <> c /\ lacks c s.
Proof. unfold lacks. unfold chars. simpl. tauto. Qed.
Lemma lacks_nil c : lacks c "".
Proof. intros []. Qed.
Lemma lacks_concat c sep l : lacks c sep -> (forall s, In s l -> lacks c s) -> lacks c (String.concat sep l).
Proof.
  intros H. induction l as [|x l IH]; intros Hl; [apply lacks_nil|]. simpl. destruct l as [|y l].
  - apply Hl. now left.
  - apply lacks_app. split; [apply Hl; now left|]. apply lacks_app. split; [exact H|]. apply IH. intros s Hs. apply Hl. now right.
Qed.

Lemma split_lacks c s : lacks c s -> split_on c s = [s].
Proof.
  induction s as [|a s IH]; intros H; [reflexivity|]. apply lacks_cons in H. destruct H as [H1 H2]. simpl.
  destruct (Ascii.eqb_spec a c); [contradiction|]. now rewrite (IH H2).
Qed.
Lemma split_app c s t : lacks c s -> split_on c (s ++ String c t) = s :: split_on c t.
Proof.
  induction s as [|a s IH]; intros H; simpl.
  - now rewrite Ascii.eqb_refl.
  - apply lacks_cons in H. destruct H as [H1 H2]. destruct (Ascii.eqb_spec a c); [contradiction|].
    now rewrite (IH H2).
Qed.
(** Pieces joined by the character followed by [pad]. *)
Lemma split_concat c pad l : lacks c pad -> (forall s, In s l -> lacks c s) -> l <> [] ->
  split_on c (String.concat (String c pad) l) =
  match l with [] => [] | x :: t => x :: map (fun s => pad ++ s) t end.
Proof.
  intros Hp. induction l as [|x l IH]; intros Hl N; [congruence|]. simpl. destruct l as [|y l].
  - apply split_lacks. apply Hl. now left.
  - rewrite split_app by (apply Hl; now left). f_equal.
    destruct l as [|z l].
    + simpl. apply split_lacks. apply lacks_app. split; [exact Hp|]. apply Hl. right. now left.
    + assert (E := IH (fun s Hs => Hl s (or_intror Hs)) ltac:(discriminate)).
      set (r := String.concat (String c pad) (y :: z :: l)) in *. clearbody r.
      (* pad carries over to the first piece *)
      assert (G : forall p r h t, lacks c p -> split_on c r = h :: t -> split_on c (p ++ r) = (p ++ h) :: t).
      { clear. intros p r h t. induction p as [|a p IH]; intros H E; simpl; [exact E|].
        apply lacks_cons in H. destruct H as [H1 H2]. destruct (Ascii.eqb_spec a c); [contradiction|]. now rewrite (IH H2 E). }
      rewrite (G pad r y (map (fun s => pad ++ s) (z :: l)) Hp E). reflexivity.
Qed.
Lemma split_join c l : (forall s, In s l -> lacks c s) -> l <> [] -> split_on c (String.concat (String c "") l) = l.
Proof.
  intros H N. rewrite split_concat; auto using lacks_nil. destruct l as [|x l]; [congruence|]. f_equal.
  apply map_id.
Qed.

Lemma drop_last_app s a : drop_last (s ++ String a "") = s.
Proof.
  induction s as [|x s IH]; [reflexivity|]. simpl. rewrite IH. destruct s; reflexivity.
Qed.

(** ** Numbers *)
Lemma read_string u : forall n,
  fold_left (fun n c => (10 * n + (nat_of_ascii c - 48))%nat) (chars (NilEmpty.string_of_uint u)) n = Nat.of_uint_acc u n.
Proof.
  induction u; intros n; unfold chars in *; cbn [NilEmpty.string_of_uint list_ascii_of_string fold_left Nat.of_uint_acc];
    [reflexivity|..]; rewrite IHu; f_equal; rewrite Nat.tail_mul_spec; cbn [nat_of_ascii]; unfold nat_of_ascii;
    cbn [N_of_ascii N_of_digits]; lia.
Qed.
Lemma uint_digit u c : In c (chars (NilEmpty.string_of_uint u)) -> In c (chars "0123456789").
Proof.
  induction u; unfold chars in *; cbn [NilEmpty.string_of_uint list_ascii_of_string In]; intros H; try tauto;
    destruct H as [<-|H]; auto 12.
Qed.
Lemma str_nat_empty n : str_nat n = NilEmpty.string_of_uint (Nat.to_uint n).
Proof.
  unfold str_nat, NilZero.string_of_uint. destruct (Nat.to_uint n) eqn:E; try reflexivity.
  exfalso. assert (H := DecimalNat.Unsigned.of_to n). assert (Z := DecimalNat.Unsigned.to_of (Nat.to_uint n)). 
  rewrite H in Z. rewrite E in Z. discriminate.
Qed.
Lemma str_nat_digit n c : In c (chars (str_nat n)) -> In c (chars "0123456789").
Proof. rewrite str_nat_empty. apply uint_digit. Qed.
Lemma read_str_nat n : read_number (str_nat n) = n.
Proof. rewrite str_nat_empty. unfold read_number. rewrite read_string. apply (DecimalNat.Unsigned.of_to n). Qed.
Lemma str_nat_lacks n c : ~ In c (chars "0123456789") -> lacks c (str_nat n).
Proof. intros H G. apply H. eapply str_nat_digit. exact G. Qed.
Lemma read_str_qubit n : read_qubit (str_qubit n) = n.
Proof. unfold read_qubit, str_qubit. cbn [append drop_first]. rewrite drop_last_app. apply read_str_nat. Qed.
Lemma str_qubit_lacks n c : ~ In c (chars "q[]0123456789") -> lacks c (str_qubit n).
Proof.
  intros H. unfold str_qubit. apply lacks_app. split; [|apply lacks_app; split; [apply str_nat_lacks|]];
    intros G; apply H; unfold chars in *; simpl in *; tauto.
Qed.

(** ** What lacks which character *)
Definition specials : list ascii := (["009"; "010"]%char ++ chars " ()[],;=")%list.
Lemma plain_lacks s c : plain s -> In c specials -> lacks c s.
Proof. intros H Hc G. exact (H c G Hc). Qed.
Lemma numeral_lacks s c : numeral s -> ~ In c (chars "0123456789.+-einfa") -> lacks c s.
Proof. intros [_ H] Hc G. apply Hc. now apply H. Qed.

Ltac absent := let H := fresh in intros H; unfold chars in H; simpl in H;
  repeat (destruct H as [H|H]; [discriminate H|]); exact H.
Ltac special := unfold specials, chars; simpl; tauto.

Section Lines.
Variable fmt : nat -> R -> string.
Hypothesis Hfmt : forall k x, numeral (fmt k x).

Lemma qasm_number_value v : qasm_number fmt v = qasm_value fmt v.
Proof. destruct v as [x [|]]; reflexivity. Qed.
Lemma display_number_value v : display_number fmt v = display_value fmt v.
Proof. destruct v as [x [|]]; reflexivity. Qed.
Lemma qasm_value_lacks v c : ~ In c (chars "p*0123456789.+-einfa") -> lacks c (qasm_value fmt v).
Proof.
  intros H. assert (N : forall k x, lacks c (fmt k x)).
  { intros k x. apply numeral_lacks; [apply Hfmt|]. intros G. apply H. unfold chars in *. simpl in *. tauto. }
  destruct v as [x [|]]; cbn [qasm_value]; [|apply N]. apply lacks_app. split; [|apply N].
  intros G. apply H. unfold chars in *. simpl in *. tauto.
Qed.
Lemma display_value_lacks v c : ~ In c (chars "π0123456789.+-einfa") -> lacks c (display_value fmt v).
Proof.
  intros H. assert (N : forall k x, lacks c (fmt k x)).
  { intros k x. apply numeral_lacks; [apply Hfmt|]. intros G. apply H. unfold chars in *. simpl in *. tauto. }
  destruct v as [x [|]]; cbn [display_value]; [|apply N]. apply lacks_app. split; [apply N|].
  intros G. apply H. unfold chars in *. simpl in *. tauto.
Qed.

Lemma length_ltb {A} (l : list A) : Nat.ltb 0 (List.length l) = match l with [] => false | _ => true end.
Proof. destruct l; reflexivity. Qed.

Lemma join_qubits sep l : (forall n, lacks sep (str_qubit n)) -> l <> [] ->
  map read_qubit (split_on sep (String.concat (String sep "") (map str_qubit l))) = l.
Proof.
  intros H N. rewrite split_join.
  - rewrite map_map. rewrite (map_ext _ (fun n => n)) by apply read_str_qubit. apply map_id.
  - intros s Hs. apply in_map_iff in Hs. destruct Hs as (n & <- & _). apply H.
  - intros E. apply N. now apply map_eq_nil in E.
Qed.

Lemma qasm_params_lacks u c : ~ In c (chars "(),p*0123456789.+-einfa") ->
  lacks c (if Nat.ltb 0 (List.length (u_params u))
    then "(" ++ String.concat "," (map (fun kv => qasm_number fmt (snd kv)) (u_params u)) ++ ")"
    else "").
Proof.
  intros H. destruct (Nat.ltb 0 _); [|apply lacks_nil].
  apply lacks_app. split; [intros G; apply H; unfold chars in *; simpl in *; tauto|].
  apply lacks_app. split; [|intros G; apply H; unfold chars in *; simpl in *; tauto].
  apply lacks_concat; [intros G; apply H; unfold chars in *; simpl in *; tauto|].
  intros s Hs. apply in_map_iff in Hs. destruct Hs as (kv & <- & _). rewrite qasm_number_value. apply qasm_value_lacks.
  intros G. apply H. unfold chars in *. simpl in *. tauto.
Qed.

Lemma read_qasm_unitary u : plain_gate u -> shown_qubits u <> [] ->
  read_qasm_line (u_get_qasm fmt u) = Some (qasm_line fmt (u, shown_qubits u)).
Proof.
  intros [Pn _] N. unfold u_get_qasm, read_qasm_line. cbv zeta.
  set (ps := if Nat.ltb 0 (List.length (u_params u)) then _ else "").
  assert (Lp : forall c, ~ In c (chars "(),p*0123456789.+-einfa") -> lacks c ps) by (intros c; apply qasm_params_lacks).
  set (qt := String.concat "," (map str_qubit (shown_qubits u))).
  change (tab ++ qt) with (String "009" qt).
  replace (u_name u ++ ps ++ String "009" qt ++ ";") with ((u_name u ++ ps) ++ String "009" (qt ++ ";"))
    by (rewrite !sapp_assoc; reflexivity).
  rewrite split_app by (apply lacks_app; split; [apply plain_lacks; [exact Pn|special]|apply Lp; absent]).
  rewrite split_lacks.
  2:{ apply lacks_app. split; [|absent]. apply lacks_concat; [absent|]. intros s Hs.
      apply in_map_iff in Hs. destruct Hs as (n & <- & _). apply str_qubit_lacks. absent. }
  change ";" with (String ";" ""). rewrite drop_last_app. unfold qt.
  change "," with (String "," "") at 1.
  rewrite (join_qubits "," (shown_qubits u)) by (auto; intros n; apply str_qubit_lacks; absent).
  unfold qasm_line. cbn [fst snd]. unfold ps. rewrite length_ltb. destruct (u_params u) as [|kv d] eqn:E.
  - rewrite sapp_nil_r. rewrite split_lacks by (apply plain_lacks; [exact Pn|special]). reflexivity.
  - set (l := kv :: d). set (m := map (fun kv => qasm_number fmt (snd kv)) l).
    change ("(" ++ String.concat "," m ++ ")") with (String "(" (String.concat "," m ++ String ")" "")).
    rewrite split_app by (apply plain_lacks; [exact Pn|special]).
    assert (Lm : forall c s, ~ In c (chars "p*0123456789.+-einfa") -> In s m -> lacks c s).
    { intros c s Hc Hs. apply in_map_iff in Hs. destruct Hs as (k & <- & _). rewrite qasm_number_value. now apply qasm_value_lacks. }
    rewrite split_lacks.
    2:{ apply lacks_app. split; [|absent]. apply lacks_concat; [absent|]. intros s Hs. apply Lm; [absent|exact Hs]. }
    rewrite drop_last_app. change "," with (String "," "") at 1. rewrite split_join.
    + unfold m. rewrite (map_ext _ (fun kv => qasm_value fmt (snd kv))) by (intros k; apply qasm_number_value). reflexivity.
    + intros s Hs. apply Lm; [absent|exact Hs].
    + discriminate.
Qed.

Lemma str_qubit_word n : is_qubit_word (str_qubit n) = true.
Proof. reflexivity. Qed.
Lemma numeral_word s : numeral s -> is_qubit_word s = false /\ String.eqb s "" = false.
Proof.
  intros [N H]. destruct s as [|c s]; [congruence|]. split; [|reflexivity].
  unfold is_qubit_word. specialize (H c (or_introl eq_refl)). unfold chars in H. simpl in H.
  repeat (destruct H as [<-|H]; [reflexivity|]). destruct H.
Qed.

Lemma concat_app sep l1 l2 : l1 <> [] -> l2 <> [] ->
  String.concat sep l1 ++ sep ++ String.concat sep l2 = String.concat sep (l1 ++ l2)%list.
Proof.
  intros N1 N2. induction l1 as [|x l1 IH]; [congruence|]. destruct l1 as [|y l1].
  - simpl. destruct l2; [congruence|reflexivity].
  - change ((x :: y :: l1) ++ l2)%list with (x :: ((y :: l1) ++ l2))%list.
    change (String.concat sep (x :: y :: l1)) with (x ++ sep ++ String.concat sep (y :: l1)).
    rewrite !sapp_assoc. rewrite IH by discriminate. reflexivity.
Qed.

Lemma filter_all {A} (f : A -> bool) l : (forall x, In x l -> f x = true) -> filter f l = l.
Proof. induction l as [|x l IH]; intros H; simpl; [reflexivity|]. rewrite (H x (or_introl eq_refl)). f_equal. apply IH. intros y Hy. apply H. now right. Qed.
Lemma filter_none {A} (f : A -> bool) l : (forall x, In x l -> f x = false) -> filter f l = [].
Proof. induction l as [|x l IH]; intros H; simpl; [reflexivity|]. rewrite (H x (or_introl eq_refl)). apply IH. intros y Hy. apply H. now right. Qed.

Lemma read_jaqal_unitary u : plain_gate u -> shown_qubits u <> [] ->
  read_jaqal_line (u_get_jaqal fmt u) = Some (jaqal_line fmt (u, shown_qubits u)).
Proof.
  intros [Pn _] N. unfold u_get_jaqal, read_jaqal_line, jaqal_line. cbv zeta. cbn [fst snd].
  set (qs := map str_qubit (shown_qubits u)).
  set (m := map (fun kv => fmt 7 (fst (snd kv))) (u_params u)).
  assert (E : (if Nat.ltb 0 (List.length (u_params u)) then String.concat " " m else "") =
              String.concat " " (match m with [] => [""] | _ => m end)).
  { unfold m. rewrite length_ltb. destruct (u_params u); reflexivity. }
  rewrite E. clear E. set (m' := match m with [] => [""] | _ => m end).
  assert (Nq : qs <> []) by (unfold qs; intros X; apply N; now apply map_eq_nil in X).
  assert (Nm : m' <> []) by (unfold m'; destruct m; discriminate).
  rewrite concat_app by assumption. change (" " ++ String.concat " " (qs ++ m')) with (String " " (String.concat " " (qs ++ m'))).
  rewrite split_app by (apply plain_lacks; [exact Pn|special]).
  change " " with (String " " "") at 1. rewrite split_join.
  - assert (Q1 : forall s, In s qs -> is_qubit_word s = true).
    { intros s Hs. apply in_map_iff in Hs. destruct Hs as (n & <- & _). reflexivity. }
    assert (M1 : forall s, In s m -> is_qubit_word s = false /\ String.eqb s "" = false).
    { intros s Hs. apply in_map_iff in Hs. destruct Hs as (n & <- & _). apply numeral_word, Hfmt. }
    rewrite !filter_app.
    rewrite (filter_none _ qs) by (intros s Hs; now rewrite Q1).
    rewrite (filter_all is_qubit_word qs) by exact Q1.
    rewrite (filter_none is_qubit_word m').
    2:{ unfold m'. intros s Hs. destruct m as [|x t]; [|now apply M1]. destruct Hs as [<-|[]]. reflexivity. }
    rewrite app_nil_r. cbn [app]. apply f_equal. apply f_equal2.
    + apply f_equal. unfold m'. destruct m as [|x t] eqn:Em; [reflexivity|]. rewrite <- Em. apply filter_all.
      intros s Hs. rewrite Em in Hs. destruct (M1 s Hs) as [-> ->]. reflexivity.
    + unfold qs. rewrite map_map. rewrite (map_ext _ (fun n => n)) by apply read_str_qubit. apply map_id.
  - intros s Hs. apply in_app_iff in Hs. destruct Hs as [Hs|Hs].
    + apply in_map_iff in Hs. destruct Hs as (n & <- & _). apply str_qubit_lacks. absent.
    + assert (Lm : forall x, In x m -> lacks " " x).
      { intros x Hx. apply in_map_iff in Hx. destruct Hx as (k & <- & _). apply numeral_lacks; [apply Hfmt|absent]. }
      unfold m' in Hs. destruct m as [|x t]; [|now apply Lm]. destruct Hs as [<-|[]]. apply lacks_nil.
  - intros X. apply app_eq_nil in X. tauto.
Qed.

Lemma unpad_digit n : unpad (str_nat n) = str_nat n.
Proof.
  assert (L : lacks " " (str_nat n)) by (apply str_nat_lacks; absent).
  destruct (str_nat n) as [|c s]; [reflexivity|]. apply lacks_cons in L. destruct L as [L _].
  unfold unpad. destruct c as [[] [] [] [] [] [] [] []]; try reflexivity. now destruct L.
Qed.
Lemma unpad_lacks s : lacks " " s -> unpad s = s.
Proof.
  intros L. destruct s as [|c s]; [reflexivity|]. apply lacks_cons in L. destruct L as [L _].
  unfold unpad. destruct c as [[] [] [] [] [] [] [] []]; try reflexivity. now destruct L.
Qed.

Lemma unpad_pieces l : (forall s, In s l -> lacks "," s) -> (forall s, In s l -> lacks " " s) -> l <> [] ->
  map unpad (split_on "," (String.concat ", " l)) = l.
Proof.
  intros L1 L2 N. change ", " with (String "," " "). rewrite split_concat; [|absent|exact L1|exact N].
  destruct l as [|x l]; [congruence|]. simpl map. f_equal.
  - apply unpad_lacks, L2. now left.
  - rewrite map_map. rewrite (map_ext _ (fun s => s)); [apply map_id|]. intros s. reflexivity.
Qed.

Lemma read_display_unitary u : plain_gate u -> u_apply u <> [] -> u_inv u = false ->
  read_display_line (u_get_display_name fmt u) = Some (display_line fmt (u, u_apply u)).
Proof.
  intros [Pn Pk] N I. unfold u_get_display_name, read_display_line, display_line. cbv zeta. cbn [fst snd].
  rewrite I, !length_ltb. destruct (u_apply u) as [|q t] eqn:Eq; [congruence|]. rewrite <- Eq. clear I.
  set (ds := map str_nat (u_apply u)).
  assert (Ld : forall c s, ~ In c (chars "0123456789") -> In s ds -> lacks c s).
  { intros c s Hc Hs. apply in_map_iff in Hs. destruct Hs as (n & <- & _). now apply str_nat_lacks. }
  assert (RD : map read_number (map unpad (split_on "," (String.concat ", " ds))) = u_apply u).
  { rewrite unpad_pieces; [|intros s; apply Ld; absent|intros s; apply Ld; absent|unfold ds; rewrite Eq; discriminate].
    unfold ds. rewrite map_map. rewrite (map_ext _ (fun n => n)) by apply read_str_nat. apply map_id. }
  set (m := map (fun kv => fst kv ++ "=" ++ display_number fmt (snd kv)) (u_params u)).
  assert (Em : m = map (fun kv => fst kv ++ "=" ++ display_value fmt (snd kv)) (u_params u)).
  { apply map_ext. intros kv. now rewrite display_number_value. }
  assert (Lm : forall c s, In c specials -> c <> "="%char -> ~ In c (chars "π0123456789.+-einfa") -> In s m -> lacks c s).
  { intros c s H1 H2 H3 Hs. rewrite Em in Hs. apply in_map_iff in Hs. destruct Hs as ([k v] & <- & Hk). cbn [fst snd].
    apply lacks_app. split; [apply plain_lacks; [exact (Pk k v Hk)|exact H1]|].
    apply lacks_app. split; [|now apply display_value_lacks]. apply lacks_cons. split; [congruence|apply lacks_nil]. }
  set (ps := match m with [] => "" | _ => "(" ++ String.concat ", " m ++ ")" end).
  assert (Lps : forall c, In c specials -> c <> "="%char -> ~ In c (chars "(), π0123456789.+-einfa") -> lacks c ps).
  { intros c H1 H2 H3. unfold ps.
    assert (X : forall a s, In a (chars "(), ") -> lacks c s -> lacks c (String a s)).
    { intros a s Ha Hs. apply lacks_cons. split; [|exact Hs]. intros ->. apply H3. revert Ha. unfold chars. simpl. tauto. }
    assert (Y : lacks c (String.concat ", " m)).
    { apply lacks_concat.
      - apply X; [unfold chars; simpl; tauto|]. apply X; [unfold chars; simpl; tauto|apply lacks_nil].
      - intros s Hs. apply Lm; auto. intros G. apply H3. revert G. unfold chars. simpl. tauto. }
    destruct m; [apply lacks_nil|]. cbn [append]. apply X; [unfold chars; simpl; tauto|]. apply lacks_app. split; [exact Y|].
    apply X; [unfold chars; simpl; tauto|apply lacks_nil]. }
  replace (if match u_params u with [] => false | _ => true end
     then (u_name u ++ str_list (u_apply u)) ++ "(" ++ String.concat ", " m ++ ")"
     else u_name u ++ str_list (u_apply u)) with (u_name u ++ String "[" (String.concat ", " ds ++ String "]" ps)).
  2:{ unfold str_list, ps, m. fold ds. destruct (u_params u); cbn [map]; rewrite ?sapp_assoc; cbn [append]; rewrite ?sapp_assoc; reflexivity. }
  rewrite split_app by (apply plain_lacks; [exact Pn|special]).
  rewrite (split_lacks "[").
  2:{ apply lacks_app. split.
      - apply lacks_concat; [absent|]. intros s. apply Ld. absent.
      - apply lacks_cons. split; [discriminate|]. apply Lps; [special|discriminate|absent]. }
  rewrite split_app by (apply lacks_concat; [absent|intros s; apply Ld; absent]).
  rewrite split_lacks by (apply Lps; [special|discriminate|absent]).
  rewrite RD. rewrite <- Em. apply f_equal. apply f_equal2; [|reflexivity]. apply f_equal.
  unfold ps. destruct m as [|x t'] eqn:Emm; [reflexivity|]. cbn [append drop_first].
  change ")" with (String ")" "") at 1.
  rewrite drop_last_app. apply unpad_pieces; [| |discriminate].
  - intros s Hs. apply Lm; [special|discriminate|absent|exact Hs].
  - intros s Hs. apply Lm; [special|discriminate|absent|exact Hs].
Qed.
End Lines.
