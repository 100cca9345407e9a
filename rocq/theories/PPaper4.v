(** Proofs about the circuit files of the paper's notebooks. *)
From Coq Require Import Reals List Arith Bool Lia String Ascii ZArith.
From Verif Require Import Base CMat ModelUnitary ModelEntry ModelSequence ModelText Spec SpecModel SpecText
  PUnitary PEntry PSeqHeap PSeqMeth PSeqWorld PSeqUndo PSeqProps PText PTextSeq PTextEx PSeqEx ModelPaper.
Import ListNotations.
Open Scope string_scope.

Lemma py_split_on c s : py_split c s = split_on c s.
Proof. induction s as [| a s IH]; simpl; [reflexivity |]. now rewrite IH. Qed.

Lemma spaces_lacks c indent : (forall a, In a (chars indent) -> a = " "%char) -> c <> " "%char -> lacks c indent.
Proof. intros H N G. apply N. now apply H. Qed.

Lemma prefix_app_space name rest : String.prefix "MS" (name ++ " " ++ rest) = String.prefix "MS" name.
Proof.
  destruct name as [| a [| b name]]; [reflexivity | | ].
  - change ((String a "") ++ " " ++ rest) with (String a (String " " rest)). cbn [String.prefix].
    destruct (Ascii.ascii_dec "M" a); [| reflexivity]. destruct (Ascii.ascii_dec "S" " "); [discriminate | reflexivity].
  - change ((String a (String b name)) ++ " " ++ rest) with (String a (String b (name ++ " " ++ rest))). cbn [String.prefix].
    destruct (Ascii.ascii_dec "M" a); [| reflexivity]. destruct (Ascii.ascii_dec "S" b); [| reflexivity].
    destruct (name ++ " " ++ rest); destruct name; reflexivity.
Qed.

Lemma prefix_indent indent s : (forall a, In a (chars indent) -> a = " "%char) ->
  String.prefix "MS" s = false -> String.prefix "MS" (indent ++ s) = false.
Proof.
  intros H P. destruct indent as [| a t]; [exact P |].
  rewrite (H a) by (left; reflexivity). reflexivity.
Qed.

Lemma first_word_indent indent s : (forall a, In a (chars indent) -> a = " "%char) ->
  String.prefix "MS" (hd "" (py_split " " s)) = false ->
  String.prefix "MS" (hd "" (py_split " " (indent ++ s))) = false.
Proof.
  intros H P. destruct indent as [| a t]; [exact P |].
  rewrite (H a) by (left; reflexivity). reflexivity.
Qed.

Definition jaqal_header : string := "// JAQAL generated from UnitarySequence.get_jaqal()".

Definition frame (indent : string) (n : nat) (body : list string) : list string :=
  "" :: (indent ++ "from qscout.v1.std usepulses *") :: (indent ++ "register q[" ++ str_nat n ++ "]") ::
  (indent ++ "prepare_all") :: (indent ++ jaqal_header) :: (body ++ [(indent ++ "measure_all")%string; indent])%list.

Lemma concat_cons a l : l <> [] -> String.concat newline (a :: l) = a ++ newline ++ String.concat newline l.
Proof. destruct l; [congruence | reflexivity]. Qed.

Lemma file_lines indent n ls :
  circuit_file indent n ((jaqal_header ++ newline) ++ String.concat newline ls) =
  String.concat newline (frame indent n (match ls with [] => [""] | _ => ls end)).
Proof.
  unfold frame. cbn [List.app].
  rewrite !concat_cons by discriminate.
  rewrite concat_cons by (destruct ls; discriminate).
  rewrite <- concat_app; [| destruct ls; discriminate | discriminate].
  rewrite concat_cons by discriminate. cbn [String.concat].
  replace (String.concat newline (match ls with [] => [""] | _ :: _ => ls end)) with (String.concat newline ls)
    by (destruct ls; reflexivity).
  unfold circuit_file. rewrite !sapp_assoc. reflexivity.
Qed.

Section Count.
Variable fmt : nat -> R -> string.
Hypothesis Hfmt : forall k x, numeral (fmt k x).

Lemma jaqal_first_word u : plain_gate u ->
  String.prefix "MS" (u_get_jaqal fmt u) = String.prefix "MS" (u_name u) /\
  hd "" (py_split " " (u_get_jaqal fmt u)) = u_name u.
Proof.
  intros [Pn _]. unfold u_get_jaqal. cbv zeta. split; [apply prefix_app_space |].
  rewrite py_split_on. change (" " ++ ?x) with (String " " x). rewrite split_app; [reflexivity |].
  apply plain_lacks; [exact Pn | special].
Qed.

Lemma filter_lines eps d (f : string -> bool) gs ls :
  (forall g, In g gs -> plain_gate (fst g) /\ snd g <> []) ->
  (forall u, plain_gate u -> f (u_get_jaqal fmt u) = String.prefix "MS" (u_name u)) ->
  Forall2 (fun g l => exists u, full_pure eps d g = Ok u /\ l = u_get_jaqal fmt u) gs ls ->
  List.length (filter f ls) = List.length (filter (fun g => String.prefix "MS" (u_name (fst g))) gs).
Proof.
  intros Hg Hf F. induction F as [| g l gs ls (u & Eu & ->) F IH]; [reflexivity |].
  destruct (full_pure_labels _ _ _ _ Eu) as (_ & E1 & E2 & _).
  destruct (Hg g (or_introl eq_refl)) as [[P1 P2] _].
  assert (Pu : plain_gate u) by (split; [rewrite E1; exact P1 | rewrite E2; exact P2]).
  cbn [filter]. rewrite (Hf u Pu), E1.
  assert (IH' := IH (fun x Hx => Hg x (or_intror Hx))).
  destruct (String.prefix "MS" (u_name (fst g))); cbn [List.length]; now rewrite IH'.
Qed.

Lemma filter_false {A} (f : A -> bool) a l : f a = false -> filter f (a :: l) = filter f l.
Proof. intros H. cbn [filter]. now rewrite H. Qed.

Lemma count_lemma : forall eps os s t indent n,
  let w := exec eps os w_empty in
  (forall g, In g (contents w s) -> plain_gate (fst g)) ->
  (forall a, In a (chars indent) -> a = " "%char) ->
  snd (on_seq s (get_jaqal fmt eps) w) = Ok t ->
  let MS_gates := List.length (filter (fun g => String.prefix "MS" (u_name (fst g))) (contents w s)) in
  get_layer_count (circuit_file indent n t) = MS_gates /\
  get_2Q_gate_count (circuit_file indent n t) = MS_gates.
Proof.
  intros eps os s t indent n w Hp Hi E MS_gates.
  assert (W : WG eps anyg w) by apply W_exec.
  destruct (nth_error (w_seqs w) s) as [q|] eqn:Hq.
  2:{ unfold on_seq in E. rewrite Hq in E. discriminate. }
  assert (Hg : forall g, In g (contents w s) -> plain_gate (fst g) /\ snd g <> []).
  { intros g Hg. split; [now apply Hp|]. eapply reachable_nonempty. exact Hg. }
  unfold get_jaqal in E. rewrite (on_seq_text eps anyg _ _ w s q W Hq) in E.
  unfold pure_text in E.
  destruct (pure_lines eps (u_get_jaqal fmt) (s_dim q) (contents w s)) as [ls|x] eqn:EL; cbn [bind] in E; [|discriminate].
  assert (Et : t = (jaqal_header ++ newline) ++ String.concat newline ls) by (unfold jaqal_header; congruence).
  clear E.
  assert (F := pure_lines_inv _ _ _ _ _ EL).
  assert (Lk : forall l, In l ls -> lacks "010" l).
  { intros l Hl. destruct (F2_in_r _ _ _ _ F Hl) as (g & Hin & u & Eu & ->).
    destruct (full_pure_labels _ _ _ _ Eu) as (_ & E1 & E2 & E3 & E4). destruct (Hg g Hin) as [[P1 P2] P3].
    apply (readable_jaqal fmt Hfmt u); [split; [rewrite E1; exact P1 | rewrite E2; exact P2] | now rewrite E4 | exact E3]. }
  rewrite Et, file_lines.
  set (body := match ls with [] => [""] | _ => ls end).
  assert (Lb : forall l, In l body -> lacks "010" l).
  { unfold body. destruct ls; [intros l [<- | []]; apply lacks_nil | exact Lk]. }
  assert (Li : lacks "010" indent) by (apply spaces_lacks; [exact Hi | discriminate]).
  assert (SP : py_split "010" (String.concat newline (frame indent n body)) = frame indent n body).
  { rewrite py_split_on. unfold newline. apply split_join; [| discriminate].
    intros l Hl. unfold frame in Hl.
    destruct Hl as [<- | [<- | [<- | [<- | [<- | Hl]]]]]; [apply lacks_nil | | | | |].
    1-4: apply lacks_app; (split; [exact Li |]); try absent.
    + apply lacks_app. split; [absent |]. apply lacks_app. split; [| absent]. apply str_nat_lacks. absent.
    + apply in_app_or in Hl. destruct Hl as [Hl | Hl]; [now apply Lb |].
      cbn [In] in Hl. destruct Hl as [<- | [<- | []]]; [| exact Li].
      apply lacks_app. split; [exact Li | absent]. }
  assert (CB : forall f : string -> bool, f "" = false ->
    (forall u, plain_gate u -> f (u_get_jaqal fmt u) = String.prefix "MS" (u_name u)) ->
    List.length (filter f body) = MS_gates).
  { intros f F0 Ff. unfold MS_gates. rewrite <- (filter_lines eps (s_dim q) f _ ls Hg Ff F).
    unfold body. destruct ls; [cbn [filter]; rewrite F0 |]; reflexivity. }
  split.
  - unfold get_layer_count. rewrite SP. unfold frame.
    do 5 (rewrite filter_false; [| first [reflexivity | now apply prefix_indent]]).
    rewrite !filter_app, !app_length.
    rewrite (CB (startswith "MS")); [| reflexivity | intros u Pu; exact (proj1 (jaqal_first_word u Pu))].
    rewrite !filter_false; [cbn [filter List.length]; lia | |].
    + unfold startswith. rewrite <- (sapp_nil_r indent). now apply prefix_indent.
    + now apply prefix_indent.
  - unfold get_2Q_gate_count. rewrite SP.
    assert (SL : slice 5 (List.length (frame indent n body) - 1) (frame indent n body) =
                 (body ++ [(indent ++ "measure_all")%string])%list).
    { unfold slice, frame. cbn [skipn List.app]. cbn [List.length].
      rewrite app_length. cbn [List.length].
      change [indent ++ "measure_all"; indent] with ([(indent ++ "measure_all")%string] ++ [indent])%list.
      rewrite app_assoc. rewrite firstn_app. rewrite app_length. cbn [List.length].
      replace (S (S (S (S (S (List.length body + 2))))) - 1 - 5)%nat with (List.length body + 1)%nat by lia.
      replace (List.length body + 1 - (List.length body + 1))%nat with 0%nat by lia.
      cbn [firstn]. rewrite app_nil_r. apply firstn_all2. rewrite app_length. cbn [List.length]. lia. }
    rewrite SL, filter_app, app_length.
    rewrite (CB (fun rotation => startswith "MS" (hd "" (py_split " " rotation)))).
    + rewrite filter_false; [cbn [filter List.length]; lia |].
      unfold startswith. now apply first_word_indent.
    + reflexivity.
    + intros u Pu. unfold startswith. now rewrite (proj2 (jaqal_first_word u Pu)).
Qed.
End Count.

Lemma C85_lemma : forall fmt eps os s t indent n,
  (forall k x, numeral (fmt k x)) ->
  let w := exec eps os w_empty in
  (forall g, In g (contents w s) -> plain_gate (fst g)) ->
  (forall a, In a (chars indent) -> a = " "%char) ->
  snd (on_seq s (get_jaqal fmt eps) w) = Ok t ->
  let MS_gates := List.length (filter (fun g => String.prefix "MS" (u_name (fst g))) (contents w s)) in
  get_layer_count (circuit_file indent n t) = MS_gates /\
  get_2Q_gate_count (circuit_file indent n t) = MS_gates.
Proof. intros fmt eps os s t indent n H. exact (count_lemma fmt H eps os s t indent n). Qed.
