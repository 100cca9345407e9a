(** The text output of sequences: C51, C52. *)
From Coq Require Import Reals List Arith Lia Lra Bool String Ascii ZArith.
From Coquelicot Require Import Complex.
From Verif Require Import Base CMat Det ModelUnitary ModelEntry ModelSequence ModelText Spec SpecModel SpecText
  PUnitary PEntry PSeqHeap PSeqMeth PSeqWorld PSeqUndo PSeqNear PSeqInv PSeqHist PSeqProps PText.
Import ListNotations.
Open Scope string_scope.

(** ** Labels survive get_full_unitary *)
Lemma full_pure_labels eps D g f : full_pure eps D g = Ok f ->
  u_dim f = D /\ u_name f = u_name (fst g) /\ u_params f = u_params (fst g) /\ u_inv f = false /\ u_apply f = snd g.
Proof.
  unfold full_pure, get_full_unitary, assert. cbn [e_unitary e_apply e_cache cache_get].
  destruct (Nat.leb _ D); [|discriminate]. cbn [snd fst].
  unfold compute_full_unitary.
  destruct (u_identity _ _); cbn [bind]; [|discriminate].
  destruct (u_tensor _ _ _); cbn [bind]; [|discriminate].
  unfold assert. destruct (Nat.eqb _ _); cbn [bind]; [|discriminate].
  destruct (get_permute_matrix _ _); cbn [bind]; [|discriminate].
  cbn [e_unitary e_apply snd].
  destruct (mk_unitary _ _ _ _ _ _ _) as [v|x] eqn:E; [|discriminate].
  intros H. cbn [snd] in H. injection H as <-.
  destruct (mk_unitary_inv _ _ _ _ _ _ _ _ E) as (_ & _ & _ & _ & _ & ->). auto.
Qed.

(** ** The loop *)
Fixpoint pure_lines (eps : R) (show : unitary -> string) (d : nat) (gs : list (unitary * list nat)) : res (list string) :=
  match gs with
  | [] => Ok []
  | g :: t => bind (full_pure eps d g) (fun u => bind (pure_lines eps show d t) (fun ts => Ok (show u :: ts)))
  end.

Lemma text_loop_spec eps Pg show d ls : forall h,
  heap_ok eps Pg h -> in_heap h ls ->
  exists h' : heap, text_loop eps show d ls h = (h', pure_lines eps show d (gates h ls)) /\
    heap_ext h h' /\ heap_ok eps Pg h' /\ List.length h' = List.length h.
Proof.
  induction ls as [|l ls IH]; intros h Hok Hr.
  - exists h. split; [reflexivity|]. auto using heap_ext_refl.
  - apply in_heap_cons in Hr. destruct Hr as [Hl Hr].
    destruct (h_full_spec eps Pg l d h Hok Hl) as (h1 & E1 & X1 & K1 & N1).
    cbn [text_loop gates map pure_lines]. unfold se_bind at 1. rewrite E1.
    destruct (full_pure eps d (gate (obj h l))) as [u|x]; cbn [bind].
    + unfold se_bind at 1. destruct (IH h1 K1) as (h2 & E2 & X2 & K2 & N2); [eapply in_heap_ext; eauto|].
      exists h2. rewrite E2. fold (gates h ls). rewrite (gates_ext h h1 ls) by auto. split.
      * destruct (pure_lines eps show d (gates h ls)); reflexivity.
      * split; [eapply heap_ext_trans; eauto|]. split; auto. lia.
    + exists h1. auto.
Qed.

Definition pure_text eps header show d gs : res string :=
  bind (pure_lines eps show d gs) (fun ls => Ok ((header ++ newline) ++ String.concat newline ls)).

Lemma get_text_spec eps Pg header show h s : G eps Pg h s ->
  exists h', get_text eps header show (h, s) = ((h', s), pure_text eps header show (s_dim s) (gates h (s_entries s))) /\
    heap_ext h h' /\ heap_ok eps Pg h'.
Proof.
  intros [Hok [Hr _]]. unfold get_text, pure_text. unfold se_bind at 1. cbn [m_self snd].
  unfold se_bind, m_heap. cbn [fst snd].
  destruct (text_loop_spec eps Pg show (s_dim s) (s_entries s) h Hok Hr) as (h1 & E1 & X1 & K1 & N1).
  rewrite E1. exists h1. split; [|auto].
  destruct (pure_lines eps show (s_dim s) (gates h (s_entries s))); reflexivity.
Qed.

(** Asking for the text changes nothing. *)
Lemma calm_text eps Pg P header show s : calm eps Pg P (on_seq s (get_text eps header show)) (fun _ _ => True).
Proof.
  apply calm_on_seq. intros w q HW _ Hq. assert (HG := WG_G _ _ _ _ _ HW Hq).
  destruct (get_text_spec eps Pg header show _ _ HG) as (h' & E & X & K).
  eexists h', q, _. split; [exact E|]. split; [exact X|]. split; [exact K|].
  split; [exact (seq_rng_ext _ _ _ X (proj2 HG))|]. split; [apply same_ext; [exact X|apply HG]|]. auto.
Qed.

Lemma on_seq_text eps Pg header show w s q : WG eps Pg w -> nth_error (w_seqs w) s = Some q ->
  snd (on_seq s (get_text eps header show) w) = pure_text eps header show (s_dim q) (contents w s).
Proof.
  intros HW Hq. destruct (get_text_spec eps Pg header show (w_heap w) q (WG_G _ _ _ _ _ HW Hq)) as (h' & E & _).
  unfold on_seq. rewrite Hq, E. cbn [snd]. now rewrite (contents_gates w s q Hq).
Qed.

(** ** Reading whole texts *)
Lemma read_lines (read_line : string -> option line) ls xs :
  Forall2 (fun l x => read_line l = Some x) ls xs ->
  fold_right (fun l r => match read_line l, r with
                         | Some x, Some xs => Some (x :: xs) | _, _ => None end) (Some []) ls = Some xs.
Proof. induction 1 as [|l x ls xs H _ IH]; [reflexivity|]. simpl. now rewrite H, IH. Qed.

Lemma read_text_lines read_line header ls xs :
  lacks "010" header -> (forall l, In l ls -> lacks "010" l) -> (forall l, In l ls -> l <> "") ->
  Forall2 (fun l x => read_line l = Some x) ls xs ->
  read_text read_line ((header ++ newline) ++ String.concat newline ls) = Some xs.
Proof.
  intros Hh Hl Hn F. unfold read_text. rewrite sapp_assoc.
  change (newline ++ String.concat newline ls) with (String "010" (String.concat newline ls)).
  rewrite split_app by exact Hh. destruct ls as [|l ls].
  - inversion F; subst. reflexivity.
  - unfold newline. rewrite split_join; [|exact Hl|discriminate].
    destruct l as [|c l]; [exfalso; apply (Hn ""); [now left|reflexivity]|].
    rewrite <- (read_lines read_line _ _ F). destruct ls; reflexivity.
Qed.

Lemma pure_lines_inv eps show d gs ls : pure_lines eps show d gs = Ok ls ->
  Forall2 (fun g l => exists u, full_pure eps d g = Ok u /\ l = show u) gs ls.
Proof.
  revert ls. induction gs as [|g gs IH]; intros ls; cbn [pure_lines].
  - intros H. injection H as <-. constructor.
  - destruct (full_pure eps d g) as [u|x] eqn:Eu; cbn [bind]; [|discriminate].
    destruct (pure_lines eps show d gs) as [ts|x]; cbn [bind]; [|discriminate].
    intros H. injection H as <-. constructor; [eauto|now apply IH].
Qed.

Lemma shown_apply u : u_apply u <> [] -> shown_qubits u = u_apply u.
Proof. intros H. unfold shown_qubits. destruct (u_apply u); [congruence|reflexivity]. Qed.

Lemma F2_map_r {A B C} (R : A -> B -> Prop) (f : A -> C) (Q : B -> C -> Prop) l m :
  Forall2 R l m -> (forall a b, In a l -> R a b -> Q b (f a)) -> Forall2 Q m (map f l).
Proof.
  induction 1 as [|a b l m H F IH]; intros K; simpl; constructor.
  - apply K; [now left|exact H].
  - apply IH. intros x y Hx. apply K. now right.
Qed.
Lemma F2_in_r {A B} (R : A -> B -> Prop) l m b : Forall2 R l m -> In b m -> exists a, In a l /\ R a b.
Proof.
  induction 1 as [|a b' l m H F IH]; intros [].
  - subst. exists a. split; [now left|exact H].
  - destruct (IH H0) as (x & Hx & Rx). exists x. split; [now right|exact Rx].
Qed.

Section Read.
Variable fmt : nat -> R -> string.
Hypothesis Hfmt : forall k x, numeral (fmt k x).

(** What a format must satisfy. *)
Definition readable (show : unitary -> string) (read_line : string -> option line)
    (says : unitary * list nat -> line) : Prop :=
  forall u, plain_gate u -> u_apply u <> [] -> u_inv u = false ->
    lacks "010" (show u) /\ show u <> "" /\ read_line (show u) = Some (says (u, u_apply u)).

Lemma says_labels (says : unitary * list nat -> line) :
  (forall u v qs, u_name u = u_name v -> u_params u = u_params v -> says (u, qs) = says (v, qs)) ->
  forall eps D g f, full_pure eps D g = Ok f -> says (f, u_apply f) = says g.
Proof.
  intros H eps D [u qs] f E. destruct (full_pure_labels _ _ _ _ E) as (_ & E1 & E2 & _ & E3).
  rewrite E3. cbn [fst snd] in *. now apply H.
Qed.

Lemma read_pure_text show read_line says header eps d gs t :
  readable show read_line says -> lacks "010" header ->
  (forall u v qs, u_name u = u_name v -> u_params u = u_params v -> says (u, qs) = says (v, qs)) ->
  (forall g, In g gs -> plain_gate (fst g) /\ snd g <> []) ->
  pure_text eps header show d gs = Ok t ->
  read_text read_line t = Some (map says gs).
Proof.
  intros R Hh Hs Hg E. unfold pure_text in E.
  destruct (pure_lines eps show d gs) as [ls|x] eqn:EL; cbn [bind] in E; [|discriminate]. injection E as <-.
  assert (F := pure_lines_inv _ _ _ _ _ EL).
  assert (P : forall g u, In g gs -> full_pure eps d g = Ok u -> plain_gate u /\ u_apply u <> [] /\ u_inv u = false).
  { intros g u Hin Eu. destruct (full_pure_labels _ _ _ _ Eu) as (_ & E1 & E2 & E3 & E4). destruct (Hg g Hin) as [[P1 P2] P3].
    split; [split; [rewrite E1; exact P1|rewrite E2; exact P2]|]. split; [now rewrite E4|exact E3]. }
  apply read_text_lines; [exact Hh| | |].
  - intros l Hl. destruct (F2_in_r _ _ _ _ F Hl) as (g & Hin & u & Eu & ->). destruct (P g u Hin Eu) as (P1 & P2 & P3). now apply R.
  - intros l Hl. destruct (F2_in_r _ _ _ _ F Hl) as (g & Hin & u & Eu & ->). destruct (P g u Hin Eu) as (P1 & P2 & P3). now apply R.
  - eapply F2_map_r; [exact F|]. intros g l Hin (u & Eu & ->). destruct (P g u Hin Eu) as (P1 & P2 & P3).
    destruct (R u P1 P2 P3) as (_ & _ & ->). f_equal. exact (says_labels says Hs _ _ _ _ Eu).
Qed.


Lemma readable_qasm : readable (u_get_qasm fmt) read_qasm_line (qasm_line fmt).
Proof.
  intros u [Pn Pk] N I. split; [|split].
  - unfold u_get_qasm. cbv zeta. apply lacks_app. split; [apply plain_lacks; [exact Pn|special]|].
    apply lacks_app. split; [apply qasm_params_lacks; [exact Hfmt|absent]|].
    apply lacks_app. split; [|absent]. apply lacks_app. split; [absent|].
    apply lacks_concat; [absent|]. intros s Hs. apply in_map_iff in Hs. destruct Hs as (n & <- & _). apply str_qubit_lacks. absent.
  - unfold u_get_qasm. cbv zeta. destruct (u_name u); [|discriminate]. destruct (Nat.ltb 0 _); discriminate.
  - rewrite read_qasm_unitary; [|exact Hfmt|split; assumption|rewrite shown_apply; exact N]. now rewrite shown_apply.
Qed.

Lemma readable_jaqal : readable (u_get_jaqal fmt) read_jaqal_line (jaqal_line fmt).
Proof.
  intros u [Pn Pk] N I. split; [|split].
  - unfold u_get_jaqal. cbv zeta. apply lacks_app. split; [apply plain_lacks; [exact Pn|special]|].
    apply lacks_app. split; [absent|]. apply lacks_app. split.
    { apply lacks_concat; [absent|]. intros s Hs. apply in_map_iff in Hs. destruct Hs as (n & <- & _). apply str_qubit_lacks. absent. }
    apply lacks_app. split; [absent|]. destruct (Nat.ltb 0 _); [|apply lacks_nil].
    apply lacks_concat; [absent|]. intros s Hs. apply in_map_iff in Hs. destruct Hs as (n & <- & _). apply numeral_lacks; [apply Hfmt|absent].
  - unfold u_get_jaqal. cbv zeta. destruct (u_name u); discriminate.
  - rewrite read_jaqal_unitary; [|exact Hfmt|split; assumption|rewrite shown_apply; exact N]. now rewrite shown_apply.
Qed.

Lemma readable_display : readable (u_get_display_name fmt) read_display_line (display_line fmt).
Proof.
  intros u [Pn Pk] N I. split; [|split].
  - unfold u_get_display_name. cbv zeta. rewrite I.
    assert (L1 : lacks "010" (u_name u)) by (apply plain_lacks; [exact Pn|special]).
    assert (L2 : lacks "010" (str_list (u_apply u))).
    { unfold str_list. apply lacks_app. split; [absent|]. apply lacks_app. split; [|absent].
      apply lacks_concat; [absent|]. intros s Hs. apply in_map_iff in Hs. destruct Hs as (n & <- & _). apply str_nat_lacks. absent. }
    assert (L3 : lacks "010" ("(" ++ String.concat ", "
                  (map (fun kv => fst kv ++ "=" ++ display_number fmt (snd kv)) (u_params u)) ++ ")")).
    { apply lacks_app. split; [absent|]. apply lacks_app. split; [|absent].
      apply lacks_concat; [absent|]. intros s Hs. apply in_map_iff in Hs. destruct Hs as ([k v] & <- & Hk). cbn [fst snd].
      apply lacks_app. split; [apply plain_lacks; [exact (Pk k v Hk)|special]|]. apply lacks_app. split; [absent|].
      rewrite display_number_value. apply display_value_lacks; [exact Hfmt|absent]. }
    assert (L4 : lacks "010" (u_name u ++ str_list (u_apply u))) by (apply lacks_app; now split).
    destruct (Nat.ltb 0 (List.length (u_apply u))), (Nat.ltb 0 (List.length (u_params u)));
      try assumption; apply lacks_app; now split.
  - unfold u_get_display_name. cbv zeta. rewrite I. rewrite !length_ltb. destruct (u_apply u); [congruence|].
    destruct (u_name u); destruct (u_params u); discriminate.
  - apply read_display_unitary; [exact Hfmt|split; assumption|exact N|exact I].
Qed.
End Read.

Lemma reachable_nonempty eps os s g : In g (contents (exec eps os w_empty) s) -> snd g <> [].
Proof.
  intros H. assert (W := W_exec eps os). unfold contents in H.
  destruct (nth_error _ s) as [q|] eqn:Hq; [|destruct H]. apply in_map_iff in H. destruct H as (l & <- & Hl).
  apply (proj1 W l). exact (proj1 (proj2 W s q Hq) l Hl).
Qed.

Lemma C51_read_back_lemma : forall fmt eps os s t,
  (forall k x, numeral (fmt k x)) ->
  let w := exec eps os w_empty in
  (forall g, In g (contents w s) -> plain_gate (fst g)) ->
  (snd (on_seq s (get_qasm fmt eps) w) = Ok t ->
     read_text read_qasm_line t = Some (map (qasm_line fmt) (contents w s))) /\
  (snd (on_seq s (get_jaqal fmt eps) w) = Ok t ->
     read_text read_jaqal_line t = Some (map (jaqal_line fmt) (contents w s))) /\
  (snd (on_seq s (get_display_output fmt eps) w) = Ok t ->
     read_text read_display_line t = Some (map (display_line fmt) (contents w s))).
Proof.
  intros fmt eps os s t Hf w Hp. assert (W : WG eps anyg w) by apply W_exec.
  destruct (nth_error (w_seqs w) s) as [q|] eqn:Hq.
  2:{ unfold on_seq. rewrite Hq. cbn [snd]. repeat split; discriminate. }
  assert (Hg : forall g, In g (contents w s) -> plain_gate (fst g) /\ snd g <> []).
  { intros g Hg. split; [now apply Hp|]. eapply reachable_nonempty. exact Hg. }
  unfold get_qasm, get_jaqal, get_display_output. rewrite !(on_seq_text eps anyg _ _ w s q W Hq).
  split; [|split]; intros E.
  - refine (read_pure_text _ _ _ _ _ _ _ _ (readable_qasm fmt Hf) _ _ Hg E); [absent|].
    intros u v qs E1 E2. unfold qasm_line. cbn [fst snd]. now rewrite E1, E2.
  - refine (read_pure_text _ _ _ _ _ _ _ _ (readable_jaqal fmt Hf) _ _ Hg E); [absent|].
    intros u v qs E1 E2. unfold jaqal_line. cbn [fst snd]. now rewrite E1, E2.
  - refine (read_pure_text _ _ _ _ _ _ _ _ (readable_display fmt Hf) _ _ Hg E); [absent|].
    intros u v qs E1 E2. unfold display_line. cbn [fst snd]. now rewrite E1, E2.
Qed.

(** ** The texts exist *)
Lemma pure_lines_ok eps show d gs : (forall g, In g gs -> exists f, full_pure eps d g = Ok f) ->
  exists ls, pure_lines eps show d gs = Ok ls.
Proof.
  induction gs as [|g gs IH]; intros H; [eexists; reflexivity|]. cbn [pure_lines].
  destruct (H g (or_introl eq_refl)) as (f & ->). cbn [bind].
  destruct IH as (ls & ->); [intros x Hx; apply H; now right|]. eexists. reflexivity.
Qed.

Lemma winv_full eps b K w s n : (0 <= eps <= 1)%R -> winv eps b K w -> has_dim w s (2 ^ n) -> limb eps b n (unit_cost b * K) ->
  forall g, In g (contents w s) -> exists f, full_pure eps (2 ^ n) g = Ok f.
Proof.
  intros He HW HD HL g Hg.
  destruct (winv_answers eps (proj1 He) (proj2 He) b K w s n HW HD HL) as (p & _ & _ & HG & HK).
  destruct (HG g Hg) as [G1 G2].
  destruct (nearb_gate eps (proj1 He) (proj2 He) b n g G1 G2) as (f & i & E & _); [|eauto].
  eapply limb_mono; [exact (proj1 He)|exact (proj2 He)| |exact HL].
  destruct (contents w s) as [|x l]; [destruct Hg|]. simpl in HK. unfold unit_cost. destruct K; lia.
Qed.

Lemma text_exists eps w s d header show : WG eps anyg w -> has_dim w s d ->
  (forall g, In g (contents w s) -> exists f, full_pure eps d g = Ok f) ->
  exists t, snd (on_seq s (get_text eps header show) w) = Ok t.
Proof.
  intros HW (q & Hq & <-) Hg. rewrite (on_seq_text eps anyg _ _ w s q HW Hq). unfold pure_text.
  destruct (pure_lines_ok eps show (s_dim q) _ Hg) as (ls & ->). eexists. reflexivity.
Qed.

Lemma C51_exists_lemma : forall fmt os s n,
  history 0 (built 0) odd_entries os w_empty ->
  has_dim (exec 0 os w_empty) s (2 ^ n) ->
  let w := exec 0 os w_empty in
  (exists t, snd (on_seq s (get_qasm fmt 0) w) = Ok t) /\
  (exists t, snd (on_seq s (get_jaqal fmt 0) w) = Ok t) /\
  (exists t, snd (on_seq s (get_display_output fmt 0) w) = Ok t).
Proof.
  intros fmt os s n H HD w.
  assert (F := winv_full 0 true _ w s n ltac:(lra) (exact_winv os H) HD (lim_zero _ _)).
  repeat split; refine (text_exists 0 w s _ _ _ (W_exec 0 os) HD F).
Qed.

Lemma C51_exists_drift_lemma : forall fmt eps os s n,
  (0 <= eps <= 1)%R ->
  history eps (made eps) (fun _ _ => False) os w_empty ->
  has_dim (exec eps os w_empty) s (2 ^ n) ->
  let D := (14 * INR (updates os 0) * INR (2 ^ n) * (sqrt (INR (2 ^ n)) + 1) * eps)%R in
  (D <= 45 / 10 ^ 10)%R -> (INR (2 ^ n) * D <= / 100)%R ->
  let w := exec eps os w_empty in
  (exists t, snd (on_seq s (get_qasm fmt eps) w) = Ok t) /\
  (exists t, snd (on_seq s (get_jaqal fmt eps) w) = Ok t) /\
  (exists t, snd (on_seq s (get_display_output fmt eps) w) = Ok t).
Proof.
  intros fmt eps os s n He H HD D H1 H2 w. set (K := updates os 0) in *.
  destruct (drift_lim eps n (8 * K) K 14) as [B L]; auto; [lra| |].
  { rewrite mult_INR. simpl (INR 8). assert (0 <= INR K)%R by apply pos_INR. lra. }
  assert (HW : winv eps false K w).
  { apply exec_winv; [lra|lra| |apply winv_empty].
    eapply history_weaken; [| |exact H].
    - intros u Bu. split; [apply made_rough; auto; lra|discriminate].
    - intros w0 t []. }
  assert (F := winv_full eps false K w s n He HW HD).
  repeat split; refine (text_exists eps w s _ _ _ (W_exec eps os) HD (F _));
    (left; eapply lim_mono; [exact (proj1 He)|exact (proj2 He)| |exact L]; unfold unit_cost, gc; lia).
Qed.

(** ** The texts cause nothing *)
Lemma text_effect eps header show os s t d :
  has_dim (exec eps os w_empty) t d ->
  let w := exec eps os w_empty in
  let w' := fst (on_seq s (get_text eps header show) w) in
  has_dim w' t d /\ contents w' t = contents w t /\ forall p, answers eps w' t p <-> answers eps w t p.
Proof.
  intros (q & Hq & <-) w w'. assert (W0 : WG eps anyg w) by apply W_exec.
  destruct (calm_text eps anyg (fun _ => True) header show s w W0 I) as (W1 & (X & _ & S) & _). fold w' in W1, X, S.
  destruct (S t q Hq) as (q' & Hq' & (D & _ & E & _ & _ & R & _)).
  split; [exists q'; auto|]. split.
  - rewrite (contents_gates w' t q' Hq'), (contents_gates w t q Hq), E. apply gates_ext; [exact X|].
    exact (proj1 (proj2 W0 t q Hq)).
  - intros p. rewrite (answers_iff eps w' t q' p W1 Hq'), (answers_iff eps w t q p W0 Hq). now rewrite R.
Qed.

Lemma C51_effect_lemma : forall fmt eps os s t d,
  has_dim (exec eps os w_empty) t d ->
  let w := exec eps os w_empty in
  let unchanged w' := has_dim w' t d /\ contents w' t = contents w t /\
    forall p, answers eps w' t p <-> answers eps w t p in
  unchanged (fst (on_seq s (get_qasm fmt eps) w)) /\
  unchanged (fst (on_seq s (get_jaqal fmt eps) w)) /\
  unchanged (fst (on_seq s (get_display_output fmt eps) w)).
Proof.
  intros fmt eps os s t d HD w unchanged. unfold unchanged, get_qasm, get_jaqal, get_display_output.
  split; [|split]; now apply text_effect.
Qed.

(** Single unitaries. *)
Lemma C51_unitary_lemma : forall fmt u,
  (forall k x, numeral (fmt k x)) -> plain_gate u ->
  let qs := match u_apply u with [] => seq 0 (Nat.log2 (u_dim u)) | l => l end in
  qs <> [] ->
  read_qasm_line (u_get_qasm fmt u) = Some (qasm_line fmt (u, qs)) /\
  read_jaqal_line (u_get_jaqal fmt u) = Some (jaqal_line fmt (u, qs)) /\
  (u_apply u <> [] -> u_inv u = false ->
   read_display_line (u_get_display_name fmt u) = Some (display_line fmt (u, qs))).
Proof.
  intros fmt u Hf Hp qs Hq.
  assert (E : shown_qubits u = qs) by (unfold shown_qubits, qs; destruct (u_apply u); reflexivity).
  rewrite <- E. split; [|split].
  - apply read_qasm_unitary; auto. now rewrite E.
  - apply read_jaqal_unitary; auto. now rewrite E.
  - intros N I. rewrite (shown_apply u N). now apply read_display_unitary.
Qed.

(** ** Inverses *)
Definition label (g : unitary * list nat) : string * list (string * (R * bool)) * list nat :=
  (u_name (fst g), u_params (fst g), snd g).

Lemma u_inverse_labels eps u v : u_inverse eps u = Ok v ->
  u_name v = u_name u /\ u_params v = u_params u /\ u_inv v = negb (u_inv u) /\ u_apply v = u_apply u /\ u_dim v = u_dim u.
Proof.
  unfold u_inverse. intros E. destruct (mk_unitary_inv _ _ _ _ _ _ _ _ E) as (_ & _ & _ & _ & _ & ->).
  cbn [u_name u_params u_inv u_apply u_dim]. auto.
Qed.

Lemma invert_loop_labels eps ls : forall (h h' : heap) r, in_heap h ls -> invert_loop eps ls h = (h', r) ->
  forall l, label (gate (obj h' l)) = label (gate (obj h l)).
Proof.
  induction ls as [|x ls IH]; intros h h' r Hl E l.
  - injection E as <- <-. reflexivity.
  - apply in_heap_cons in Hl. destruct Hl as [Hx Hl].
    cbn [invert_loop] in E. unfold se_bind at 1, se_get in E. unfold se_bind at 1, se_lift in E.
    destruct (u_inverse eps (e_unitary (obj h x))) as [ui|e] eqn:Eu; [|injection E as <- <-; reflexivity].
    unfold se_bind at 1, se_put in E. eapply IH in E; [rewrite E|intros k Hk; rewrite list_set_length; now apply Hl].
    rewrite obj_set by exact Hx. destruct (Nat.eqb_spec x l) as [<-|_]; [|reflexivity].
    destruct (u_inverse_labels _ _ _ Eu) as (E1 & E2 & _). unfold label, gate. cbn [fst snd e_unitary e_apply]. now rewrite E1, E2.
Qed.

Lemma inverse_labels eps h s h' s' i : G eps anyg h s -> inverse eps (h, s) = ((h', s'), Ok i) ->
  map label (gates h' (s_entries i)) = rev (map label (gates h (s_entries s))) /\ s_dim i = s_dim s.
Proof.
  intros HG. unfold inverse. unfold se_bind at 1. cbn [m_self snd].
  unfold se_bind at 1. unfold m_heap, h_deepcopy. cbn [fst snd].
  destruct (deepcopy h (s_entries s)) as [h1 ls] eqn:E1.
  destruct (deepcopy_frame eps anyg _ _ h1 ls (proj1 (proj2 HG)) E1) as (X1 & K1 & R1 & G1 & F1 & _).
  specialize (K1 (proj1 HG)).
  unfold se_bind at 1. cbn [fst snd].
  destruct (new_sequence_spec eps anyg (s_dim s) (s_array s) ls h1 K1 R1)
    as (h2 & r2 & E2 & X2 & K2 & [(V & ls' & -> & R2 & G2 & F2 & _)|(V & -> & ->)]); rewrite E2; [|discriminate].
  assert (X02 : heap_ext h h2) by (eapply heap_ext_trans; eauto).
  cbn [s_array]. destruct (s_array s); [discriminate|].
  cbn [s_entries set_entries]. unfold se_bind at 1. cbn [fst snd].
  assert (Hin : forall l, In l (rev ls') -> (List.length h1 <= l < List.length h2)%nat).
  { intros l Hl. apply in_rev in Hl. split; [now apply F2|now apply R2]. }
  destruct (invert_loop_frame eps anyg (rev ls') h2 (List.length h1) Hin) as (h3 & r3 & E3 & K3 & N3 & F3); auto.
  assert (L3 := invert_loop_labels eps (rev ls') h2 h3 r3 ltac:(intros l Hl; now apply Hin) E3).
  rewrite E3.
  assert (X03 : heap_ext h h3).
  { split; [destruct X02; lia|]. intros l Hl. rewrite F3.
    - now apply X02.
    - intros Hl'. apply in_rev in Hl'. apply F2 in Hl'. destruct X1; lia. }
  destruct r3 as [[]|x]; [|discriminate]. unfold se_bind at 1.
  destruct (product_same eps anyg h3 s (conj K3 (seq_rng_ext _ _ _ X03 (proj2 HG)))) as (h4 & s4 & r4 & E4 & X4 & K4 & _).
  rewrite E4. destruct r4 as [p|x]; [|discriminate].
  unfold se_bind, se_lift. destruct (u_inverse eps p) as [pi|x]; [|discriminate].
  intros E. injection E as <- <- <-. cbn [s_entries set_product set_entries s_dim]. split; [|reflexivity].
  rewrite <- G1, <- G2. unfold gates. rewrite <- !map_rev, !map_map. apply map_ext_in. intros l Hl.
  rewrite (proj2 X4 l) by (rewrite N3; now apply Hin). apply L3.
Qed.

Lemma inverse_contents eps os s i :
  let w := exec eps os w_empty in
  let w' := fst (step eps (Inverse s) w) in
  snd (step eps (Inverse s) w) = Ok (VSequence i) ->
  map label (contents w' i) = rev (map label (contents w s)).
Proof.
  intros w w'. subst w'. assert (W0 : WG eps anyg w) by apply W_exec. cbn [step]. unfold se_bind at 1 2.
  unfold on_seq. destruct (nth_error (w_seqs w) s) as [q|] eqn:Hq; [|discriminate].
  destruct (inverse eps (w_heap w, q)) as [[h' q'] [j|x]] eqn:E; [|discriminate].
  destruct (inverse_labels eps _ _ _ _ _ (WG_G eps anyg w s q W0 Hq) E) as [L _].
  unfold add_seq. cbn [fst snd w_seqs w_heap]. intros H. injection H as <-.
  rewrite (contents_gates w s q Hq). rewrite <- L. f_equal. unfold contents. cbn [w_seqs w_heap].
  rewrite nth_error_app2 by lia. rewrite Nat.sub_diag. reflexivity.
Qed.

Definition by_label (show : unitary -> string) : Prop :=
  forall u v, u_name u = u_name v -> u_params u = u_params v -> u_inv u = u_inv v -> u_apply u = u_apply v ->
    u_apply u <> [] -> show u = show v.

Lemma by_label_qasm fmt : by_label (u_get_qasm fmt).
Proof. intros u v E1 E2 E3 E4 N. unfold u_get_qasm. rewrite !shown_apply by congruence. now rewrite E1, E2, E4. Qed.
Lemma by_label_jaqal fmt : by_label (u_get_jaqal fmt).
Proof. intros u v E1 E2 E3 E4 N. unfold u_get_jaqal. rewrite !shown_apply by congruence. now rewrite E1, E2, E4. Qed.
Lemma by_label_display fmt : by_label (u_get_display_name fmt).
Proof. intros u v E1 E2 E3 E4 N. unfold u_get_display_name. now rewrite E1, E2, E3, E4. Qed.

Lemma full_show eps show d d' g g' f f' : by_label show -> label g = label g' -> snd g <> [] ->
  full_pure eps d g = Ok f -> full_pure eps d' g' = Ok f' -> show f = show f'.
Proof.
  intros B L N E E'. destruct (full_pure_labels _ _ _ _ E) as (_ & A1 & A2 & A3 & A4).
  destruct (full_pure_labels _ _ _ _ E') as (_ & B1 & B2 & B3 & B4). injection L as L1 L2 L3.
  apply B; congruence.
Qed.

Lemma lines_by_label eps show d d' gs : forall gs' ls ls', by_label show -> map label gs = map label gs' ->
  (forall g, In g gs -> snd g <> []) ->
  pure_lines eps show d gs = Ok ls -> pure_lines eps show d' gs' = Ok ls' -> ls = ls'.
Proof.
  induction gs as [|g gs IH]; intros [|g' gs'] ls ls' B L N E E'; try discriminate.
  - cbn in E, E'. congruence.
  - cbn [map] in L. assert (L1 : label g = label g') by congruence. assert (L2 : map label gs = map label gs') by congruence.
    clear L. cbn [pure_lines] in E, E'.
    destruct (full_pure eps d g) as [f|] eqn:F; cbn [bind] in E; [|discriminate].
    destruct (full_pure eps d' g') as [f'|] eqn:F'; cbn [bind] in E'; [|discriminate].
    destruct (pure_lines eps show d gs) as [t|] eqn:T; cbn [bind] in E; [|discriminate].
    destruct (pure_lines eps show d' gs') as [t'|] eqn:T'; cbn [bind] in E'; [|discriminate].
    injection E as <-. injection E' as <-.
    rewrite (full_show eps show d d' g g' f f' B L1 (N g (or_introl eq_refl)) F F').
    rewrite (IH gs' t t' B L2 (fun x Hx => N x (or_intror Hx)) eq_refl T'). reflexivity.
Qed.

Lemma pure_lines_app eps show d gs1 gs2 ls1 ls2 : pure_lines eps show d gs1 = Ok ls1 -> pure_lines eps show d gs2 = Ok ls2 ->
  pure_lines eps show d (gs1 ++ gs2) = Ok (ls1 ++ ls2)%list.
Proof.
  revert ls1. induction gs1 as [|g gs IH]; intros ls1 E1 E2.
  - injection E1 as <-. exact E2.
  - cbn [app pure_lines] in *. destruct (full_pure eps d g); cbn [bind] in *; [|discriminate].
    destruct (pure_lines eps show d gs) as [t|]; cbn [bind] in *; [|discriminate]. injection E1 as <-.
    rewrite (IH t eq_refl E2). reflexivity.
Qed.
Lemma pure_lines_rev eps show d gs : forall ls, pure_lines eps show d gs = Ok ls -> pure_lines eps show d (rev gs) = Ok (rev ls).
Proof.
  induction gs as [|g gs IH]; intros ls E; cbn [pure_lines rev] in *; [now injection E as <-|].
  destruct (full_pure eps d g) as [f|] eqn:F; cbn [bind] in *; [|discriminate].
  destruct (pure_lines eps show d gs) as [t|]; cbn [bind] in *; [|discriminate]. injection E as <-.
  cbn [rev]. apply pure_lines_app; [now apply IH|]. cbn [pure_lines]. now rewrite F.
Qed.

Lemma split_text header ls : lacks "010" header -> (forall l, In l ls -> lacks "010" l) ->
  split_on "010" ((header ++ newline) ++ String.concat newline ls) = header :: match ls with [] => [""] | _ => ls end.
Proof.
  intros Hh Hl. rewrite sapp_assoc.
  change (newline ++ String.concat newline ls) with (String "010" (String.concat newline ls)).
  rewrite split_app by exact Hh. destruct ls as [|l ls]; [reflexivity|]. unfold newline.
  rewrite split_join; [reflexivity|exact Hl|discriminate].
Qed.

Lemma inverse_text eps header show read_line says os s i t t' :
  by_label show -> readable show read_line says -> lacks "010" header ->
  let w := exec eps os w_empty in
  let w' := fst (step eps (Inverse s) w) in
  (forall g, In g (contents w s) -> plain_gate (fst g)) ->
  snd (step eps (Inverse s) w) = Ok (VSequence i) ->
  snd (on_seq s (get_text eps header show) w) = Ok t ->
  snd (on_seq i (get_text eps header show) w') = Ok t' ->
  split_on "010" t' = hd "" (split_on "010" t) :: rev (tl (split_on "010" t)).
Proof.
  intros B Rd Hh w w' Hp HI Ht Ht'. assert (W0 : WG eps anyg w) by apply W_exec.
  assert (W1 : WG eps anyg w') by (apply W_step; exact W0).
  destruct (nth_error (w_seqs w) s) as [q|] eqn:Hq; [|unfold on_seq in Ht; rewrite Hq in Ht; discriminate].
  destruct (nth_error (w_seqs w') i) as [q'|] eqn:Hq'; [|unfold on_seq in Ht'; rewrite Hq' in Ht'; discriminate].
  rewrite (on_seq_text eps anyg _ _ w s q W0 Hq) in Ht. rewrite (on_seq_text eps anyg _ _ w' i q' W1 Hq') in Ht'.
  assert (L := inverse_contents eps os s i HI). fold w w' in L. unfold pure_text in *.
  destruct (pure_lines eps show (s_dim q) (contents w s)) as [ls|] eqn:El; cbn [bind] in Ht; [|discriminate].
  destruct (pure_lines eps show (s_dim q') (contents w' i)) as [ls'|] eqn:El'; cbn [bind] in Ht'; [|discriminate].
  injection Ht as <-. injection Ht' as <-.
  assert (N : forall g, In g (contents w s) -> snd g <> []) by (intros g Hg; eapply reachable_nonempty; exact Hg).
  assert (E : ls' = rev ls).
  { symmetry. refine (lines_by_label eps show (s_dim q) (s_dim q') (rev (contents w s)) (contents w' i) (rev ls) ls' B _ _ _ El').
    - rewrite map_rev. now symmetry.
    - intros g Hg. apply N. now apply in_rev.
    - now apply pure_lines_rev. }
  assert (Lk : forall l, In l ls -> lacks "010" l).
  { intros l Hl. destruct (F2_in_r _ _ _ _ (pure_lines_inv _ _ _ _ _ El) Hl) as (g & Hin & u & Eu & ->).
    destruct (full_pure_labels _ _ _ _ Eu) as (_ & E1 & E2 & E3 & E4). apply Rd.
    - destruct (Hp g Hin) as [P1 P2]. split; [now rewrite E1|now rewrite E2].
    - rewrite E4. now apply N.
    - exact E3. }
  subst ls'. rewrite !split_text; try exact Hh; try exact Lk; [|intros l Hl; apply Lk; now apply in_rev].
  cbn [hd tl]. f_equal. destruct ls as [|l ls]; [reflexivity|].
  destruct (rev (l :: ls)) as [|x y] eqn:Er; [|reflexivity].
  apply (f_equal (@List.length _)) in Er. rewrite rev_length in Er. discriminate.
Qed.

Lemma C52_reversed_lemma : forall fmt eps os s i t t',
  (forall k x, numeral (fmt k x)) ->
  let w := exec eps os w_empty in
  let w' := fst (step eps (Inverse s) w) in
  let reversed := split_on "010" t' = hd "" (split_on "010" t) :: rev (tl (split_on "010" t)) in
  (forall g, In g (contents w s) -> plain_gate (fst g)) ->
  snd (step eps (Inverse s) w) = Ok (VSequence i) ->
  (snd (on_seq s (get_qasm fmt eps) w) = Ok t -> snd (on_seq i (get_qasm fmt eps) w') = Ok t' -> reversed) /\
  (snd (on_seq s (get_jaqal fmt eps) w) = Ok t -> snd (on_seq i (get_jaqal fmt eps) w') = Ok t' -> reversed) /\
  (snd (on_seq s (get_display_output fmt eps) w) = Ok t ->
   snd (on_seq i (get_display_output fmt eps) w') = Ok t' -> reversed).
Proof.
  intros fmt eps os s i t t' Hf w w' reversed Hp HI. unfold reversed, get_qasm, get_jaqal, get_display_output.
  split; [|split]; intros H1 H2.
  - refine (inverse_text eps _ _ _ _ os s i t t' (by_label_qasm fmt) (readable_qasm fmt Hf) _ Hp HI H1 H2). absent.
  - refine (inverse_text eps _ _ _ _ os s i t t' (by_label_jaqal fmt) (readable_jaqal fmt Hf) _ Hp HI H1 H2). absent.
  - refine (inverse_text eps _ _ _ _ os s i t t' (by_label_display fmt) (readable_display fmt Hf) _ Hp HI H1 H2). absent.
Qed.

(** One entry and the entry of its inverse. *)
Lemma C52_line_lemma : forall fmt eps u v qs d f f',
  u_inverse eps u = Ok v -> qs <> [] ->
  snd (get_full_unitary eps d {| e_unitary := u; e_apply := qs; e_cache := [] |}) = Ok f ->
  snd (get_full_unitary eps d {| e_unitary := v; e_apply := qs; e_cache := [] |}) = Ok f' ->
  u_get_qasm fmt f' = u_get_qasm fmt f /\ u_get_jaqal fmt f' = u_get_jaqal fmt f /\
  u_get_display_name fmt f' = u_get_display_name fmt f.
Proof.
  intros fmt eps u v qs d f f' EI N E E'.
  destruct (u_inverse_labels _ _ _ EI) as (L1 & L2 & _).
  assert (L : label (v, qs) = label (u, qs)) by (unfold label; cbn [fst snd]; now rewrite L1, L2).
  split; [|split]; refine (full_show eps _ d d (v, qs) (u, qs) f' f _ L N E' E);
    [apply by_label_qasm|apply by_label_jaqal|apply by_label_display].
Qed.

(** [get_display_name] itself does mark inverses. *)
Lemma C52_mark_lemma : forall fmt eps u v, u_inverse eps u = Ok v ->
  (u_inv u = false -> u_get_display_name fmt v = u_get_display_name fmt u ++ "†") /\
  (u_inv u = true -> u_get_display_name fmt u = u_get_display_name fmt v ++ "†").
Proof.
  intros fmt eps u v E. destruct (u_inverse_labels _ _ _ E) as (L1 & L2 & L3 & L4 & _).
  split; intros H; unfold u_get_display_name; rewrite L1, L2, L3, L4, H; reflexivity.
Qed.
