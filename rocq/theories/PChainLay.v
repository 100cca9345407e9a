(** compile_layered() as a walk: the mean over all answers of the generator. *)
From Coq Require Import Reals List Arith Lia Lra Bool String ZArith Permutation.
From Coquelicot Require Import Coquelicot.
From Verif Require Import Base CMat CMatFacts Det DetFacts Norms ModelUnitary ModelEntry ModelPrimitive
  ModelSequence ModelCompiler Spec SpecModel SpecCompiler PUnitary PUnitaryProps PEmbed PEntry PSeqHeap PSeqMeth PSeqNear PSeqWorld
  PSeqUndo PSeqInv PSeqHist PSeqProps PSeqCases PCompView PCompRun PCompEntry PCompLoop PCompTrace PCompTotal PCompProps PCompMore
  PCompCases PCompEx PReach PVerify SpecChain PChain PChainStep PChainRun PChainBal PChainHit.
Import ListNotations.
Open Scope R_scope.

(** * Orders *)
Lemma insertions_map {A B} (f : A -> B) x l : insertions (f x) (map f l) = map (map f) (insertions x l).
Proof.
  induction l as [|y t IH]; [reflexivity|]. cbn [insertions map]. f_equal. cbn [map] in IH. rewrite IH.
  rewrite !map_map. reflexivity.
Qed.

Lemma orders_map {A B} (f : A -> B) l : orders (map f l) = map (map f) (orders l).
Proof.
  induction l as [|x t IH]; [reflexivity|]. cbn [orders map]. rewrite IH. clear IH.
  induction (orders t) as [|o os IH]; [reflexivity|]. cbn [flat_map map]. rewrite map_app, IH, insertions_map. reflexivity.
Qed.

Lemma map_nth_seq {A} (l : list A) d : map (fun i => nth i l d) (seq 0 (List.length l)) = l.
Proof.
  induction l as [|x t IH]; [reflexivity|]. cbn [List.length seq map]. f_equal.
  rewrite <- seq_shift, map_map. exact IH.
Qed.

(** * Creating the gates of a layer *)
Fixpoint create_list (g : rng) (d : nat) (ps : list primitive) : RM (list nat) :=
  match ps with
  | [] => se_ret []
  | p :: t => l <-- create_random_sequence_entry g 0 d [p] None ;; ls <-- create_list g d t ;; se_ret (l :: ls)
  end.

Lemma create_list_app g d a b st :
  create_list g d (a ++ b) st = (ls <-- create_list g d a ;; ls' <-- create_list g d b ;; se_ret (ls ++ ls')) st.
Proof.
  revert st. induction a as [|p t IH]; intros st; cbn [app create_list].
  - unfold se_bind, se_ret. destruct (create_list g d b st) as [st' [ls|e]]; reflexivity.
  - unfold se_bind in *. destruct (create_random_sequence_entry g 0 d [p] None st) as [st1 [l|e]]; [|reflexivity].
    rewrite IH. destruct (create_list g d t st1) as [st2 [ls|e]]; [|reflexivity]. unfold se_ret.
    destruct (create_list g d b st2) as [st3 [ls'|e]]; reflexivity.
Qed.

Lemma create_entries_list g d p k st : create_entries g 0 d p k st = create_list g d (repeat p k) st.
Proof.
  revert st. induction k as [|k IH]; intros st; [reflexivity|]. cbn [create_entries repeat create_list].
  unfold se_bind. destruct (create_random_sequence_entry g 0 d [p] None st) as [st1 [l|e]]; [|reflexivity].
  rewrite IH. reflexivity.
Qed.

Lemma create_loop_list g d counts st : create_layer_loop g 0 d counts st = create_list g d (table_list counts) st.
Proof.
  revert st. induction counts as [|[p k] t IH]; intros st; [reflexivity|].
  cbn [create_layer_loop]. unfold table_list. cbn [flat_map fst snd]. fold (table_list t). rewrite create_list_app.
  unfold se_bind. rewrite create_entries_list. destruct (create_list g d (repeat p (Z.to_nat k)) st) as [st1 [ls|e]]; [|reflexivity].
  rewrite IH. reflexivity.
Qed.

(** The gates the answers from the [r]-th on stand for. *)
Fixpoint gives_all (g : rng) (n r : nat) (ps : list primitive) (gts : list gatety) : Prop :=
  match ps, gts with
  | [], [] => True
  | p :: ps', gt :: gts' => gives g n [p] None r gt /\ gives_all g n (r + 2) ps' gts'
  | _, _ => False
  end.

Lemma gives_all_length g n ps : forall r gts, gives_all g n r ps gts -> List.length gts = List.length ps.
Proof. induction ps as [|p t IH]; intros r [|gt gts]; simpl; try tauto. intros [_ H]. f_equal. eauto. Qed.

Lemma gives_all_snoc g n ps : forall r gts p gt, gives_all g n r ps gts -> gives g n [p] None (r + 2 * List.length ps) gt ->
  gives_all g n r (ps ++ [p]) (gts ++ [gt]).
Proof.
  induction ps as [|q t IH]; intros r [|gq gts] p gt; try (cbn [gives_all]; tauto).
  - intros _ H. cbn [app gives_all]. split; auto. cbn [List.length] in H. now rewrite Nat.mul_0_r, Nat.add_0_r in H.
  - intros [H1 H2] H. cbn [app gives_all]. split; auto. apply IH; auto. cbn [List.length] in H.
    replace (r + 2 + 2 * List.length t)%nat with (r + 2 * Datatypes.S (List.length t))%nat by lia. exact H.
Qed.

Definition good_list (n : nat) (ps : list primitive) : Prop :=
  forall p, In p ps -> good_primitive 0 n p /\ usable p = true.

Lemma good_list_choosable n ps p : good_list n ps -> In p ps -> choosable [p] None.
Proof. intros H Hp. destruct (H p Hp) as [_ U]. split; auto. cbn [filter]. rewrite U. discriminate. Qed.

Lemma create_draws g n ps probs gt st st' l : rng_ok g -> choosable ps probs -> (forall p, In p ps -> good_primitive 0 n p) ->
  gives g n ps probs (r_draws st) gt -> create_random_sequence_entry g 0 (2 ^ n) ps probs st = (st', Ok l) ->
  r_draws st' = (r_draws st + 2)%nat /\ has_gate (r_world st') l gt.
Proof.
  intros G CH GP HG H. rewrite (create_eval g n _ _ gt st G CH GP HG) in H.
  apply call_entry_ok in H. destruct H as [H HR]. cbn [r_world r_draws] in H, HR. split; auto.
  destruct (new_entry_view 0 _ _ _ _ _ H) as (l' & E & HL & _). injection E as <-. rewrite to_of_nat in HL. now destruct gt.
Qed.

Lemma create_list_eval g n : rng_ok g -> forall ps gts st st' ls, good_list n ps -> gives_all g n (r_draws st) ps gts -> WG 0 anyg (r_world st) ->
  create_list g (2 ^ n) ps st = (st', Ok ls) ->
  r_draws st' = (r_draws st + 2 * List.length ps)%nat /\ Forall2 (has_gate (r_world st')) ls gts /\ forall s, spares 0 s (r_world st) (r_world st').
Proof.
  intros G. induction ps as [|p t IH]; intros gts st st' ls GL HG HW H; cbn [create_list] in H.
  - apply ret_ok in H. destruct H as [-> ->]. destruct gts; [|contradiction]. cbn [List.length]. split; [lia|]. split; [constructor|]. intros s. apply spares_refl.
  - destruct gts as [|gt gts]; [contradiction|]. destruct HG as [H1 HG].
    apply bind_ok in H. destruct H as (l & st1 & E1 & H). apply bind_ok in H. destruct H as (ls1 & st2 & E2 & H).
    apply ret_ok in H. destruct H as [-> ->].
    assert (GP : forall q, In q [p] -> good_primitive 0 n q) by (intros q [<-|[]]; apply GL; now left).
    destruct (create_draws g n [p] None gt st st1 l G (good_list_choosable n (p :: t) p GL (or_introl eq_refl)) GP H1 E1) as [R1 L1].
    destruct (create_ok g 0 G _ _ _ _ _ _ E1) as (_ & _ & _ & Sp).
    assert (HW1 : WG 0 anyg (r_world st1)) by (now apply (Sp 0%nat)).
    rewrite <- R1 in HG.
    destruct (IH gts st1 st2 ls1 (fun q Hq => GL q (or_intror Hq)) HG HW1 E2) as (R2 & F2 & Sp2).
    cbn [List.length]. split; [lia|]. split.
    + constructor; auto. apply (Sp2 0%nat); auto.
    + intros s. eapply spares_trans; eauto.
Qed.

Lemma bind_same_r {S A B} (m m' : SE S A) (f f' : A -> SE S B) sc : m sc = m' sc ->
  (forall a sc', m sc = (sc', Ok a) -> f a sc' = f' a sc') -> se_bind m f sc = se_bind m' f' sc.
Proof. intros E H. unfold se_bind. rewrite <- E. destruct (m sc) as [sc' [a|e]]; auto. Qed.

Lemma create_list_same g g' n : rng_ok g -> rng_ok g' -> forall ps gts st, good_list n ps ->
  gives_all g n (r_draws st) ps gts -> gives_all g' n (r_draws st) ps gts ->
  create_list g (2 ^ n) ps st = create_list g' (2 ^ n) ps st.
Proof.
  intros G G'. induction ps as [|p t IH]; intros gts st GL HG HG'; [reflexivity|].
  destruct gts as [|gt gts]; [contradiction|]. destruct HG as [H1 HG], HG' as [H1' HG'].
  assert (GP : forall q, In q [p] -> good_primitive 0 n q) by (intros q [<-|[]]; apply GL; now left).
  assert (CH := good_list_choosable n (p :: t) p GL (or_introl eq_refl)).
  cbn [create_list]. apply bind_same_r.
  - now rewrite !(create_eval _ n _ _ gt st) by auto.
  - intros l st1 E1. destruct (create_draws g n [p] None gt st st1 l G CH GP H1 E1) as [R1 _].
    apply bind_same_r; [|reflexivity]. apply (IH gts); rewrite ?R1; auto. intros q Hq. apply GL. now right.
Qed.

(** * Proposals *)
Notation pick o gts := (map (fun i => nth i gts (e_unitary no_entry, @nil nat)) o).

Section Layered.
Variables (n : nat) (c : compiler) (counts : list (primitive * Z)).
Hypothesis Hd : c_dim c = (2 ^ n)%nat.
Hypothesis Ha : 0 <= c_append c <= 1.
Hypothesis HC : good_table 0 n counts.
Notation ps := (table_list counts).
Notation size := (Z.to_nat (layer_length counts)).

Lemma table_good : good_list n ps.
Proof.
  intros p Hp. unfold table_list in Hp. apply in_flat_map in Hp. destruct Hp as ([q k] & Hq & Hp). cbn [fst snd] in Hp.
  assert (K : (0 < k)%Z) by (destruct k; simpl in Hp; try contradiction; lia).
  apply repeat_spec in Hp. subst p. unfold good_table in HC. rewrite List.Forall_forall in HC. destruct (HC _ Hq) as [G U].
  split; auto. cbn [fst snd] in U. specialize (U K). unfold usable. destruct (p_allowed q) as [[|x l]|]; auto; congruence.
Qed.

(** The layer with gates [gts] in order [o] is proposed with action [a] by the [k]
    answers from the [r]-th on. *)
Definition proposes (a : action) (gts : list gatety) (o : list nat) (g : rng) (r : nat) (cs cs1 : list gatety) (k : nat) : Prop :=
  action_at (c_append c) (g_unif g r) = a /\
  match a with
  | ActAppendFirst => k = (2 + 2 * List.length ps)%nat /\ gives_all g n (S r) ps gts /\
      g_perm g (S r + 2 * List.length ps) (List.length ps) = o /\ cs1 = rev (pick o gts) ++ cs
  | ActAppendLast => k = (2 + 2 * List.length ps)%nat /\ gives_all g n (S r) ps gts /\
      g_perm g (S r + 2 * List.length ps) (List.length ps) = o /\ cs1 = cs ++ pick o gts
  | ActRemoveFirst => k = 1%nat /\ cs1 = skipn size cs
  | ActRemoveLast => k = 1%nat /\ cs1 = firstn (List.length cs - size) cs
  end.

Lemma layer_eval g gts o st st' ls : rng_ok g -> gives_all g n (r_draws st) ps gts ->
  g_perm g (r_draws st + 2 * List.length ps) (List.length ps) = o -> WG 0 anyg (r_world st) ->
  create_random_layer g 0 (2 ^ n) counts st = (st', Ok ls) ->
  r_draws st' = (r_draws st + 2 * List.length ps + 1)%nat /\ Forall2 (has_gate (r_world st')) ls (pick o gts) /\
  forall s, spares 0 s (r_world st) (r_world st').
Proof.
  intros G HG HO HW H. apply bind_ok in H. destruct H as (ls1 & st1 & H1 & H). rewrite create_loop_list in H1.
  destruct (create_list_eval g n G ps gts st st1 ls1 table_good HG HW H1) as (R1 & F & Sp).
  assert (LL : List.length ls1 = List.length ps) by now rewrite (F2_length _ _ _ F), (gives_all_length _ _ _ _ _ HG).
  unfold shuffle in H. injection H as <- <-. cbn [r_world r_draws]. rewrite LL, R1, HO. split; [lia|]. split; [|exact Sp].
  apply Forall2_nth_perm; auto. intros i Hi. rewrite <- HO in Hi. destruct G as (_ & _ & G3).
  apply (Permutation_in _ (G3 _ _)) in Hi. apply in_seq in Hi. lia.
Qed.

Lemma append_all_draws (mk : nat -> bool -> op) ls : forall first st st', append_all 0 mk ls first st = (st', Ok tt) -> r_draws st' = r_draws st.
Proof.
  induction ls as [|l t IH]; intros first st st' H; cbn [append_all] in H.
  - apply ret_ok in H. destruct H as [-> _]. reflexivity.
  - apply bind_ok in H. destruct H as (v & st1 & H1 & H). apply call_draws in H1. apply IH in H. congruence.
Qed.
Lemma remove_all_draws (mk : bool -> op) k : forall first st st', remove_all 0 mk k first st = (st', Ok tt) -> r_draws st' = r_draws st.
Proof.
  induction k as [|k IH]; intros first st st' H; cbn [remove_all] in H.
  - apply ret_ok in H. destruct H as [-> _]. reflexivity.
  - apply bind_ok in H. destruct H as (v & st1 & H1 & H). apply call_draws in H1. apply IH in H. congruence.
Qed.

Lemma layered_eval a gts o g b s st st' c' cs pv cs1 k : rng_ok g -> sees 0 (r_world st) s (2 ^ n) cs pv ->
  make_random_change_layered g 0 counts s (st, set_beta c b) = ((st', c'), Ok tt) ->
  proposes a gts o g (r_draws st) cs cs1 k ->
  (exists pv', sees 0 (r_world st') s (2 ^ n) cs1 pv') /\ r_draws st' = (r_draws st + k)%nat.
Proof.
  intros G S H [HPa HP]. unfold make_random_change_layered in H.
  apply bind_ok in H. destruct H as (c1 & stc & H0 & H). unfold c_self in H0. injection H0 as <- <-.
  cbn [snd] in H. apply bind_ok in H. destruct H as (a' & [st1 c1] & H1 & H).
  apply c_run_inv in H1. destruct H1 as [H1 ->]. cbn [set_beta c_append] in H1.
  rewrite choose_action_at in H1 by auto. rewrite HPa in H1. injection H1 as E1 <-.
  assert (W1 : r_world st1 = r_world st) by now rewrite <- E1.
  assert (R1 : r_draws st1 = Datatypes.S (r_draws st)) by now rewrite <- E1.
  rewrite <- W1 in S. rewrite <- R1 in HP. clear E1 W1.
  assert (A : forall mk : nat -> bool -> op,
    (ls <-- c_run (create_random_layer g 0 (c_dim (set_beta c b)) counts);; c_run (append_all 0 mk ls true)) (st1, set_beta c b) = ((st', c'), Ok tt) ->
    gives_all g n (r_draws st1) ps gts -> g_perm g (r_draws st1 + 2 * List.length ps) (List.length ps) = o ->
    exists st2 ls, append_all 0 mk ls true st2 = (st', Ok tt) /\ sees 0 (r_world st2) s (2 ^ n) cs pv /\
      Forall2 (has_gate (r_world st2)) ls (pick o gts) /\ r_draws st' = (r_draws st1 + 2 * List.length ps + 1)%nat).
  { intros mk HH HG HO. apply bind_ok in HH. destruct HH as (ls & [st2 c2] & H2 & HH).
    apply c_run_inv in H2. destruct H2 as [H2 ->]. cbn [set_beta c_dim] in H2. rewrite Hd in H2.
    apply c_run_inv in HH. destruct HH as [HH ->].
    destruct (layer_eval g gts o st1 st2 ls G HG HO (sees_W _ _ _ _ _ _ S) H2) as (R2 & F & Sp).
    exists st2, ls. split; auto. split; [apply (Sp s); exact S|]. split; auto.
    now rewrite (append_all_draws _ _ _ _ _ HH). }
  destruct a.
  - destruct HP as (-> & HG & HO & ->). destruct (A _ H HG HO) as (st2 & ls & EA & S2 & F2 & R2).
    destruct (append_all_first 0 s ls _ true st2 st' _ _ _ EA S2 F2) as (X1 & _). split; [eauto|lia].
  - destruct HP as (-> & HG & HO & ->). destruct (A _ H HG HO) as (st2 & ls & EA & S2 & F2 & R2).
    destruct (append_all_last 0 s ls _ true st2 st' _ _ _ EA S2 F2) as (X1 & _). split; [eauto|lia].
  - destruct HP as (-> & ->). apply c_run_inv in H. destruct H as [H ->].
    destruct (remove_all_first 0 s _ true _ _ _ _ _ H S) as [X1 _]. rewrite (remove_all_draws _ _ _ _ _ H). split; [eauto|lia].
  - destruct HP as (-> & ->). apply c_run_inv in H. destruct H as [H ->].
    destruct (remove_all_last 0 s _ true _ _ _ _ _ H S) as [X1 _]. rewrite (remove_all_draws _ _ _ _ _ H). split; [eauto|lia].
Qed.

Lemma layered_same a gts o g g' b s st cs cs1 k : rng_ok g -> rng_ok g' -> WG 0 anyg (r_world st) ->
  proposes a gts o g (r_draws st) cs cs1 k -> proposes a gts o g' (r_draws st) cs cs1 k ->
  make_random_change_layered g 0 counts s (st, set_beta c b) = make_random_change_layered g' 0 counts s (st, set_beta c b).
Proof.
  intros G G' HW [A HP] [A' HP']. unfold make_random_change_layered.
  apply bind_same_r; [reflexivity|]. intros c1 sc E0. unfold c_self in E0. injection E0 as <- <-. cbn [snd set_beta c_append].
  assert (E := choose_action_at g (c_append c) st G Ha). assert (E' := choose_action_at g' (c_append c) st G' Ha).
  rewrite A in E. rewrite A' in E'.
  rewrite (bind_eq _ _ _ _ _ (c_run_eq _ _ _ _ _ E)), (bind_eq _ _ _ _ _ (c_run_eq _ _ _ _ _ E')).
  set (st1 := {| r_world := r_world st; r_draws := Datatypes.S (r_draws st) |}).
  assert (Cr : gives_all g n (r_draws st1) ps gts -> gives_all g' n (r_draws st1) ps gts ->
    g_perm g (r_draws st1 + 2 * List.length ps) (List.length ps) = g_perm g' (r_draws st1 + 2 * List.length ps) (List.length ps) ->
    create_random_layer g 0 (2 ^ n) counts st1 = create_random_layer g' 0 (2 ^ n) counts st1).
  { intros H H' HO. unfold create_random_layer. apply bind_same_r.
    - rewrite !create_loop_list. apply (create_list_same g g' n G G' ps gts); auto. apply table_good.
    - intros ls st2 E2. rewrite create_loop_list in E2.
      destruct (create_list_eval g n G ps gts st1 st2 ls table_good H HW E2) as (R2 & F & _).
      unfold shuffle. rewrite (F2_length _ _ _ F), (gives_all_length _ _ _ _ _ H), R2, HO. reflexivity. }
  destruct a; auto; destruct HP as (_ & HG & HO & _), HP' as (_ & HG' & HO' & _); cbn [set_beta c_dim]; rewrite Hd;
    (apply bind_same_r; [|reflexivity]); unfold c_run; cbn [fst snd]; rewrite Cr; auto; cbn [st1 r_draws]; congruence.
Qed.

(** The mean over the gates of one primitive, given the answers so far. *)
Lemma entry_average r0 f h r p V : legal h -> r = (r0 + List.length h)%nat -> usable p = true -> (exists u, p_source p = Fixed u) ->
  (forall h' gt, legal h' -> List.length h' = (List.length h + 2)%nat -> (forall g, tells g r0 h' -> tells g r0 h) ->
     (forall g, rng_ok g -> tells g r0 h' -> gives g n [p] None r gt) -> average r0 f h' (V gt)) ->
  average r0 f h (gate_mean n p V).
Proof.
  intros Lh -> U [u HS] Leaf.
  apply average_ask with (q := QInt 1) (F := fun _ => gate_mean n p V);
    [|cbn [mean_answer]; split; [lia|]; symmetry; apply meanl_const; discriminate].
  intros [x|k|l] P; try (simpl in P; contradiction). cbn [possible] in P. assert (k = 0%nat) by lia. subst k.
  assert (Pk : forall g, tells g r0 (h ++ [(QInt 1, AInt 0)]) -> picks g [p] None (r0 + List.length h) 0).
  { intros g T. apply tells_snoc in T. destruct T as [_ T]. cbn [replies] in T. unfold picks. cbn [filter]. rewrite U. exact T. }
  unfold gate_mean. rewrite HS. unfold places.
  assert (Lands : forall q a qs, possible q a ->
    (forall g, rng_ok g -> tells g r0 ((h ++ [(QInt 1, AInt 0)]) ++ [(q, a)]) -> lands g n p u (Datatypes.S (r0 + List.length h)) qs) ->
    average r0 f ((h ++ [(QInt 1, AInt 0)]) ++ [(q, a)]) (V (u, qs))).
  { intros q a qs Pq HL. apply Leaf.
    - apply legal_snoc; auto. now apply legal_snoc.
    - rewrite !app_length. simpl. lia.
    - intros g T. apply tells_snoc in T. destruct T as [T _]. apply tells_snoc in T. apply T.
    - intros g G T. assert (L := HL g G T). apply tells_snoc in T. destruct T as [T _].
      exists 0%nat, p. cbn [filter nth_error fst snd]. rewrite U. split; auto. }
  assert (R2 : (r0 + List.length (h ++ [(QInt 1, AInt 0)]))%nat = Datatypes.S (r0 + List.length h)) by (rewrite app_length; simpl; lia).
  destruct (p_allowed p) as [ls|] eqn:EA.
  - assert (Ne : ls <> []) by (unfold usable in U; rewrite EA in U; destruct ls; [discriminate|congruence]).
    apply average_ask with (q := QInt (List.length ls))
      (F := fun a => match a with AInt k => V (u, nth k ls []) | _ => 0%R end).
    + intros [x|k|l] Pk'; try (simpl in Pk'; contradiction). apply Lands; auto. intros g G T.
      apply tells_snoc in T. destruct T as [_ T]. rewrite R2 in T. cbn [replies] in T.
      unfold lands. rewrite EA. now rewrite T.
    + cbn [mean_answer]. split; [destruct ls; [congruence|simpl; lia]|]. apply (meanl_nth ls [] (fun qs => V (u, qs))).
  - apply average_ask with (q := QPerm n)
      (F := fun a => match a with AList l => V (u, firstn (Nat.log2 (u_dim u)) l) | _ => 0%R end).
    + intros [x|k|l] Pk'; try (simpl in Pk'; contradiction). apply Lands; auto. intros g G T.
      apply tells_snoc in T. destruct T as [_ T]. rewrite R2 in T. cbn [replies] in T.
      unfold lands. rewrite EA. now rewrite T.
    + cbn [mean_answer]. apply (meanl_map (orders (seq 0 n)) (firstn (Nat.log2 (u_dim u))) (fun qs => V (u, qs))).
Qed.

Lemma gates_average r0 f h0 r : forall qs pre gts h V, legal h -> r = (r0 + List.length h0)%nat ->
  List.length h = (List.length h0 + 2 * List.length pre)%nat -> (forall g, tells g r0 h -> tells g r0 h0) ->
  (forall g, rng_ok g -> tells g r0 h -> gives_all g n r pre gts) ->
  (forall p, In p qs -> usable p = true /\ exists u, p_source p = Fixed u) ->
  (forall h' gts', legal h' -> List.length h' = (List.length h0 + 2 * List.length (pre ++ qs))%nat -> (forall g, tells g r0 h' -> tells g r0 h0) ->
     (forall g, rng_ok g -> tells g r0 h' -> gives_all g n r (pre ++ qs) (gts ++ gts')) -> average r0 f h' (V gts')) ->
  average r0 f h (gates_mean n qs V).
Proof.
  induction qs as [|p t IH]; intros pre gts h V Lh Er Hl T0 HG HU Leaf; cbn [gates_mean].
  - apply Leaf; rewrite ?app_nil_r; auto.
  - destruct (HU p (or_introl eq_refl)) as [U FS].
    apply (entry_average r0 f h (r0 + List.length h) p); auto. intros h' gt Lh' Hl' T' HG'.
    apply (IH (pre ++ [p]) (gts ++ [gt])); auto.
    + rewrite app_length. simpl. lia.
    + intros g G T. apply gives_all_snoc; [apply HG; auto|].
      replace (r + 2 * List.length pre)%nat with (r0 + List.length h)%nat by lia. auto.
    + intros q Hq. apply HU. now right.
    + intros h2 gts2 L2 Hl2 T2 HG2. rewrite <- app_assoc in Hl2. apply Leaf; auto. intros g G T.
      specialize (HG2 g G T). rewrite <- !app_assoc in HG2. exact HG2.
Qed.

Section Tree.
Variables (s r0 : nat) (h0 : list (question * answer)) (st : rstate) (b : R) (cs : list gatety) (f : rng -> R)
  (V : list gatety -> R).
Hypothesis HF : fixed_table counts.
Hypothesis HH : holds n s st cs.
Hypothesis HL0 : legal h0.
Hypothesis HR0 : r_draws st = (r0 + List.length h0)%nat.
Hypothesis Leaf : forall h st1 cs1, legal h ->
  (forall g, rng_ok g -> tells g r0 h -> tells g r0 h0 /\
     make_random_change_layered g 0 counts s (st, set_beta c b) = ((st1, set_beta c b), Ok tt)) ->
  holds n s st1 cs1 -> r_draws st1 = (r0 + List.length h)%nat -> average r0 f h (V cs1).
Notation r := (r_draws st).

Lemma layered_safe (Q : unitary -> Prop) : (forall u, made 0 u -> Q u) -> List.Forall (fun pc => safe_primitive 0 Q (fst pc)) counts.
Proof.
  intros H. rewrite List.Forall_forall. intros pc Hpc. unfold good_table in HC. rewrite List.Forall_forall in HC.
  assert (X := good_safe 0 Q [fst pc] H). rewrite List.Forall_forall in X. apply X; [|now left].
  intros p [<-|[]]. apply (HC pc Hpc).
Qed.

Lemma layered_total_change g : rng_ok g -> total_change 0 true n (layer_size counts) (make_random_change_layered g 0 counts) c.
Proof.
  intros G. apply (total_layered g 0 G ltac:(lra) ltac:(lra) true n (fun _ => lim0_zero _ _)); auto.
  apply layered_safe, safe_made0.
Qed.

Lemma layered_leaf a gts o h k cs1 : legal h -> List.length h = (List.length h0 + k)%nat ->
  (forall g, tells g r0 h -> tells g r0 h0) ->
  (forall g, rng_ok g -> tells g r0 h -> proposes a gts o g r cs cs1 k) -> average r0 f h (V cs1).
Proof.
  intros Lh Hk T0 HP. destruct (teller r0 h Lh) as (g0 & G0 & T).
  destruct (holds_sees _ _ _ _ HH) as (pv & S). destruct (exact_winv_ex _ (proj1 HH)) as [K HW].
  destruct (layered_total_change g0 G0 b s st K cs pv HW S (lim_zero _ _)) as (st1 & E).
  destruct (layered_eval a gts o g0 b s st st1 _ cs pv cs1 k G0 S E (HP g0 G0 T)) as ((pv1 & S1) & HR).
  apply (Leaf h st1 cs1 Lh).
  - intros g G Tg. split; auto. rewrite <- E. apply (layered_same a gts o g g0 b s st cs cs1 k G G0); auto. exact (sees_W _ _ _ _ _ _ S).
  - eapply sees_holds; [|exact S1]. destruct (layered_traced g0 0 G0 _ c counts s (layered_safe _ made_built0) st b) as [EV _].
    rewrite E in EV. exact (evolves_exact _ _ _ (proj1 HH) EV).
  - rewrite HR, HR0, Hk. lia.
Qed.

Lemma layer_average a h mk : legal h -> List.length h = (List.length h0 + 1)%nat -> (forall g, tells g r0 h -> tells g r0 h0) ->
  (forall g gts o, rng_ok g -> tells g r0 h -> gives_all g n (Datatypes.S r) ps gts ->
     g_perm g (Datatypes.S r + 2 * List.length ps) (List.length ps) = o ->
     proposes a gts o g r cs (mk (pick o gts)) (2 + 2 * List.length ps)) ->
  average r0 f h (layer_mean n counts (fun l => V (mk l))).
Proof.
  intros Lh Hl T0 HP. unfold layer_mean.
  apply (gates_average r0 f h (Datatypes.S r) ps [] [] h); auto.
  - lia.
  - simpl. lia.
  - intros. exact I.
  - intros p Hp. split; [now apply table_good|]. unfold table_list in Hp. apply in_flat_map in Hp.
    destruct Hp as (pc & Hpc & Hp). apply repeat_spec in Hp. subst p. now apply HF.
  - intros h1 gts L1 Hl1 T1 HG. cbn [app] in *.
    assert (Lg : List.length gts = List.length ps).
    { destruct (teller r0 h1 L1) as (g0 & G0 & T). exact (gives_all_length _ _ _ _ _ (HG g0 G0 T)). }
    apply average_ask with (q := QPerm (List.length ps))
      (F := fun x => match x with AList o => V (mk (pick o gts)) | _ => 0%R end).
    + intros [x|k|o] Po; try (simpl in Po; contradiction).
      apply (layered_leaf a gts o _ (2 + 2 * List.length ps)).
      * now apply legal_snoc.
      * rewrite app_length. simpl. lia.
      * intros g T. apply tells_snoc in T. destruct T as [T _]. auto.
      * intros g G T. apply tells_snoc in T. destruct T as [T U]. cbn [replies] in U. apply HP; auto.
        replace (Datatypes.S r + 2 * List.length ps)%nat with (r0 + List.length h1)%nat by lia. exact U.
    + cbn [mean_answer]. rewrite <- Lg. rewrite <- (map_nth_seq gts (e_unitary no_entry, [])) at 1. rewrite orders_map.
      apply (meanl_map (orders (seq 0 (List.length gts))) (fun o => pick o gts) (fun l => V (mk l))).
Qed.

Lemma layer_length_sum : layer_length counts = fold_right Z.add 0%Z (map snd counts).
Proof. clear. unfold layer_length. induction counts as [|[p k] t IH]; [reflexivity|]. cbn [fold_right map snd]. now rewrite IH. Qed.

Lemma layered_tree : average r0 f h0 (layered_mean n c counts cs V).
Proof.
  unfold layered_mean. cbv zeta. rewrite <- layer_length_sum.
  set (W := fun a => match a with
    | ActAppendFirst => layer_mean n counts (fun l => V (rev l ++ cs)) | ActAppendLast => layer_mean n counts (fun l => V (cs ++ l))
    | ActRemoveFirst => V (skipn size cs) | ActRemoveLast => V (firstn (List.length cs - size) cs) end).
  apply average_ask with (q := QUnif) (F := fun a => match a with AReal x => W (action_at (c_append c) x) | _ => 0%R end).
  - intros [x|k|l] Px; try (simpl in Px; contradiction).
    assert (T0 : forall g, tells g r0 (h0 ++ [(QUnif, AReal x)]) -> tells g r0 h0 /\ g_unif g r = x).
    { intros g T. apply tells_snoc in T. rewrite HR0. exact T. }
    assert (T1 : forall g, tells g r0 (h0 ++ [(QUnif, AReal x)]) -> tells g r0 h0) by apply T0.
    assert (T2 : forall g, tells g r0 (h0 ++ [(QUnif, AReal x)]) -> g_unif g r = x) by apply T0.
    assert (Lg := legal_snoc h0 QUnif (AReal x) HL0 Px).
    assert (Ln : List.length (h0 ++ [(QUnif, AReal x)]) = (List.length h0 + 1)%nat) by now rewrite app_length.
    destruct (action_at (c_append c) x) eqn:EA; cbn [W].
    + apply (layer_average ActAppendFirst _ (fun l => rev l ++ cs)); auto. intros g gts o G T HG HO.
      split; [now rewrite (T2 g T)|auto].
    + apply (layer_average ActAppendLast _ (fun l => cs ++ l)); auto. intros g gts o G T HG HO.
      split; [now rewrite (T2 g T)|auto].
    + apply (layered_leaf ActRemoveFirst [] [] _ 1); auto. intros g G T. split; [now rewrite (T2 g T)|auto].
    + apply (layered_leaf ActRemoveLast [] [] _ 1); auto. intros g G T. split; [now rewrite (T2 g T)|auto].
  - cbn [mean_answer]. now apply (action_RInt W).
Qed.
End Tree.

Lemma layered_change_tree s : fixed_table counts -> change_tree n s c (fun g => make_random_change_layered g 0 counts) (layered_mean n c counts).
Proof. intros HF r0 h0 st b cs f V HH HL0 HR0 Leaf. eapply layered_tree; eauto. Qed.

Lemma layered_average st target thr max F : exact_world (r_world st) -> fixed_table counts ->
  built 0 target -> u_dim target = (2 ^ n)%nat ->
  average (r_draws st) (fun g => match compiled_layered st c target counts thr max g with Some (gs, costs) => F gs costs | None => 0 end) []
    (run_mean (layered_mean n c counts) n c target thr F (Z.to_nat max) (c_beta c) [] []).
Proof.
  intros HX HF HT HD.
  assert (X := with_tree n c (fun g => make_random_change_layered g 0 counts) target (layer_size counts) thr max (layered_mean n c counts)
    (fun _ => layer_change 0 (c_dim c) counts)
    Hd HT HD (fun g G => change_layered g 0 G c counts) (fun g s G => layered_traced g 0 G _ c counts s (layered_safe _ made_built0))
    layered_total_change (fun s => layered_change_tree s HF) st F HX).
  eapply average_ext; [|exact X]. intros g. unfold compiled_layered, compile_layered.
  destruct (compile_with _ _ _ _ _ _ _) as [[st' c'] [[s costs]|e]]; reflexivity.
Qed.
End Layered.

Lemma C69_layered_lemma : forall n st c target counts thr max F,
  exact_world (r_world st) -> c_dim c = (2 ^ n)%nat -> (0 <= c_append c <= 1)%R -> good_table 0 n counts -> fixed_table counts ->
  built 0 target -> u_dim target = (2 ^ n)%nat ->
  average (r_draws st) (fun g => match compiled_layered st c target counts thr max g with Some (gs, costs) => F gs costs | None => 0%R end) []
    (run_mean (layered_mean n c counts) n c target thr F (Z.to_nat max) (c_beta c) [] []).
Proof. intros n st c target counts thr max F HX Hd Ha HC HF HT HD. now apply layered_average. Qed.

(** * Chances *)
Lemma gates_mean_le n ps : forall F G, (forall l, F l <= G l) -> gates_mean n ps F <= gates_mean n ps G.
Proof. induction ps as [|p t IH]; intros F G H; cbn [gates_mean]; auto. apply gate_mean_le. intros g. apply IH. auto. Qed.
Lemma gates_mean_scal n ps : forall F k, gates_mean n ps (fun l => k * F l) = k * gates_mean n ps F.
Proof.
  induction ps as [|p t IH]; intros F k; cbn [gates_mean]; auto. rewrite <- gate_mean_scal. apply gate_mean_ext.
  intros g. apply (IH (fun l => F (g :: l)) k).
Qed.
Lemma gate_mean_one n p : gate_mean n p (fun _ => 1) <= 1.
Proof.
  unfold gate_mean. destruct (p_source p); [|lra].
  destruct (places n (Nat.log2 (u_dim u)) p) as [|x l]; [unfold meanl, Rdiv; simpl; lra|]. rewrite meanl_const by discriminate. lra.
Qed.
Lemma gates_mean_one n ps : gates_mean n ps (fun _ => 1) <= 1.
Proof.
  induction ps as [|p t IH]; cbn [gates_mean]; [lra|]. eapply Rle_trans; [|apply (gate_mean_one n p)]. apply gate_mean_le. auto.
Qed.
Lemma layer_mean_le n counts F G : (forall l, F l <= G l) -> layer_mean n counts F <= layer_mean n counts G.
Proof. intros H. apply gates_mean_le. intros l. apply meanl_le. auto. Qed.
Lemma layer_mean_scal n counts F k : layer_mean n counts (fun l => k * F l) = k * layer_mean n counts F.
Proof.
  unfold layer_mean. rewrite <- gates_mean_scal.
  apply Rle_antisym; apply gates_mean_le; intros l; rewrite meanl_scal; lra.
Qed.
Lemma layer_nonneg n counts F : (forall l, 0 <= F l) -> 0 <= layer_mean n counts F.
Proof.
  intros H. replace 0 with (layer_mean n counts (fun l => 0 * F l)) by (rewrite layer_mean_scal; ring).
  apply layer_mean_le. intros l. rewrite Rmult_0_l. auto.
Qed.
Lemma layer_chance_range n counts l : 0 <= layer_chance n counts l <= 1.
Proof.
  unfold layer_chance. split; [apply layer_nonneg; intros; apply ind_range|].
  eapply Rle_trans; [apply layer_mean_le; intros; apply ind_range|].
  unfold layer_mean. eapply Rle_trans; [|apply (gates_mean_one n (table_list counts))]. apply gates_mean_le. intros l'.
  rewrite meanl_const; [lra|apply orders_nonempty].
Qed.

Section Chances.
Variables (n : nat) (c : compiler) (counts : list (primitive * Z)).
Hypothesis Hap : 0 <= c_append c <= 1.
Notation ap := (c_append c).

Lemma layered_nonneg gs F : (forall g, 0 <= F g) -> 0 <= layered_mean n c counts gs F.
Proof.
  intros H. unfold layered_mean. cbv zeta.
  repeat apply Rplus_le_le_0_compat; apply Rmult_le_pos; auto; try lra; apply layer_nonneg; auto.
Qed.

Lemma layer_weight_range x : 0 <= ap / 2 * layer_chance n counts x <= 1.
Proof. assert (Q := layer_chance_range n counts x). nra. Qed.

Lemma layer_weight_le gs x F : (forall g, 0 <= F g) -> ap / 2 * layer_chance n counts x * F (gs ++ x) <= layered_mean n c counts gs F.
Proof.
  intros H.
  assert (X : layer_mean n counts (fun l => F (gs ++ x) * ind (l = x)) <= layer_mean n counts (fun l => F (gs ++ l))).
  { apply layer_mean_le. intros l. destruct (Classical_Prop.classic (l = x)) as [->|NE].
    - rewrite ind_true by auto. lra.
    - rewrite ind_false by auto. rewrite Rmult_0_r. auto. }
  rewrite layer_mean_scal in X. fold (layer_chance n counts x) in X. unfold layered_mean. cbv zeta.
  set (size := Z.to_nat _).
  assert (A1 : 0 <= ap / 2 * layer_mean n counts (fun l => F (rev l ++ gs))) by (apply Rmult_le_pos; [lra|]; apply layer_nonneg; auto).
  assert (A2 : 0 <= (1 - ap) / 2 * F (skipn size gs)) by (apply Rmult_le_pos; [lra|auto]).
  assert (A3 : 0 <= (1 - ap) / 2 * F (firstn (List.length gs - size) gs)) by (apply Rmult_le_pos; [lra|auto]).
  assert (A4 : ap / 2 * (F (gs ++ x) * layer_chance n counts x) <= ap / 2 * layer_mean n counts (fun l => F (gs ++ l))) by (apply Rmult_le_compat_l; lra).
  lra.
Qed.
End Chances.

Lemma C69_success_layered_lemma : forall n st c target counts thr max layers,
  exact_world (r_world st) -> c_dim c = (2 ^ n)%nat -> (0 <= c_append c <= 1)%R -> good_table 0 n counts -> fixed_table counts ->
  built 0 target -> u_dim target = (2 ^ n)%nat ->
  (0 <= c_beta c)%R -> (0 <= c_rate c)%R -> (0 <= c_max_beta c)%R ->
  match thr with Some t => (t <= 1)%R | None => True end ->
  (cost_of n target (List.concat layers) <= tolerance thr)%R -> (List.length layers <= Z.to_nat max)%nat ->
  exists p, chance (r_draws st) (fun g => exists gs costs, compiled_layered st c target counts thr max g = Some (gs, costs) /\
      (cost_of n target gs <= tolerance thr)%R) p /\
    (fold_right Rmult 1 (map (fun l => c_append c / 2 * layer_chance n counts l * exp (- c_max_beta c)) layers) <= p <= 1)%R.
Proof.
  intros n st c target counts thr max layers HX Hd Ha HC HF HT HD Hb Hr Hm Ht Hc Hl.
  apply (hit_chance n c target thr (layered_mean n c counts) (fun x => c_append c / 2 * layer_chance n counts x)
    (layered_nonneg n c counts Ha) (layer_weight_le n c counts Ha)
    (layer_weight_range n c counts Ha) Hr Hm Ht (r_draws st) (compiled_layered st c target counts thr max) (Z.to_nat max) (c_beta c) layers); auto.
  now apply C69_layered_lemma.
Qed.

(** * A case: a layer of two gates, whose product is the target *)
Lemma ex_C69_layered_lemma : exists st c target u counts,
  exact_world (r_world st) /\ c_dim c = (2 ^ 1)%nat /\ (0 <= c_append c <= 1)%R /\ good_table 0 1 counts /\ fixed_table counts /\
  built 0 target /\ u_dim target = (2 ^ 1)%nat /\
  forall m, chance (r_draws st)
    (fun g => exists costs, compiled_layered st c target counts None (Z.of_nat m) g = Some ([(u, [0%nat]); (u, [0%nat])], costs))
    (1 - (1 / 2) ^ m)%R.
Proof.
  destruct (rot345_built 0 ltac:(lra)) as (u & B & D & Mu & _).
  assert (SP : special 2 rot2) by (rewrite <- rot2_sqr; apply special_mmul; apply rot345_special).
  destruct (mk_special 0 2 rot2 (Some "T"%string) [] false [] ltac:(lia) SP (rot2_clean 0 ltac:(lra))) as (t & Et & Dt & _ & _ & _ & _ & Mt).
  assert (Bt : built 0 t).
  { exists 2%nat, rot2, (Some "T"%string), [], false, []. split; [apply SP|]. split; [apply rot2_clean; lra|exact Et]. }
  set (c := one_compiler u (1 / 2) 16). set (counts := [(rot_primitive u, 2%Z)]).
  assert (GT : good_table 0 1 counts).
  { repeat constructor; try (now apply rot_good); try discriminate; (exists 1%nat; simpl; auto). }
  assert (FT : fixed_table counts) by (intros pc [<-|[]]; exists u; reflexivity).
  exists one_seq, c, t, u, counts.
  split; [exact one_seq_exact|]. split; [reflexivity|]. split; [simpl; lra|]. do 4 (split; [assumption|]). intros m.
  set (two := [(u, [0%nat]); (u, [0%nat])]).
  assert (Ot : cost_of 1 t [] = 18 / 25).
  { unfold cost_of. change (2 ^ 1)%nat with 2%nat. replace (overlap 2 (u_mat t) (ordered 1 [])) with (overlap 2 rot2 mid).
    - unfold overlap. cbn -[Rdiv].
      replace (_ + _)%C with (RtoC (- (14 / 25))) by (apply C_eq; simpl; field).
      rewrite Cmod_R, Rabs_Ropp, Rabs_pos_eq by lra. field.
    - apply overlap_proper; [now symmetry|reflexivity]. }
  assert (Op : cost_of 1 t two = 0).
  { unfold cost_of. change (2 ^ 1)%nat with 2%nat. replace (overlap 2 (u_mat t) (ordered 1 two)) with (overlap 2 rot2 rot2).
    - unfold overlap. cbn -[Rdiv].
      replace (_ + _)%C with (RtoC 2) by (apply C_eq; simpl; field).
      rewrite Cmod_R, Rabs_pos_eq by lra. field.
    - apply overlap_proper; [now symmetry|]. unfold ordered, two. cbn [fold_left fst snd].
      change (2 ^ 1)%nat with 2%nat. rewrite mmul_1_r, embed_one, Mu. now rewrite rot2_sqr. }
  assert (O : forall F, layer_mean 1 counts F = F two).
  { intros F. unfold layer_mean. change (table_list counts) with [rot_primitive u; rot_primitive u]. cbn [gates_mean].
    assert (Q : forall F, gate_mean 1 (rot_primitive u) F = F (u, [0%nat])).
    { intros F'. unfold gate_mean, meanl. cbn -[INR Nat.log2]. unfold places. cbn -[INR Nat.log2].
      rewrite D. change (Nat.log2 2) with 1%nat. cbn -[INR]. simpl INR. field. }
    rewrite !Q. fold two. unfold meanl. cbn -[INR]. fold two. simpl INR. field. }
  set (F := fun (gs : list gate_on) (_ : list R) => ind (gs = two)).
  assert (T8 : 0 < / 10 ^ 8 < 2 / 5) by (split; [apply Rinv_0_lt_compat, pow_lt; lra|]; lra).
  assert (S : forall k b costs, run_mean (layered_mean 1 c counts) 1 c t None F k b two costs = 1).
  { intros k b costs. destruct k; cbn [run_mean]; (destruct (Rle_dec _ _) as [|N]; [unfold F; now rewrite ind_true|]);
      exfalso; apply N; rewrite Op; unfold tolerance; lra. }
  assert (K : forall k b costs, 0 <= b -> run_mean (layered_mean 1 c counts) 1 c t None F k b [] costs = 1 - (1 / 2) ^ k).
  { induction k as [|k IH]; intros b costs Hb; cbn [run_mean]; (destruct (Rle_dec _ _) as [Y|_]; [rewrite Ot in Y; unfold tolerance in Y; lra|]).
    - unfold F. rewrite ind_false by discriminate. simpl. lra.
    - cbv zeta. assert (Hb' : 0 <= Rmin (b + c_rate c) (c_max_beta c)) by (apply Rmin_glb; simpl; lra).
      unfold layered_mean. cbv zeta. rewrite !O. rewrite skipn_nil, firstn_nil. change (rev two ++ []) with two. change ([] ++ two) with two.
      unfold accept_mean. cbv zeta.
      rewrite S, !IH by auto. rewrite Ot, Op.
      replace (metropolis _ (0 - 18 / 25)) with 1. 2:{ unfold metropolis. symmetry. apply Rmin_left. rewrite <- exp_0. apply exp_le_mono. nra. }
      cbn [c_append c one_compiler]. simpl pow. lra. }
  assert (A := C69_layered_lemma 1 one_seq c t counts None (Z.of_nat m) F one_seq_exact eq_refl ltac:(simpl; lra) GT FT Bt Dt).
  rewrite Nat2Z.id, (K m (c_beta c) []) in A by (simpl; lra).
  unfold chance. eapply average_ext; [|exact A].
  intros g. cbv beta. unfold F. destruct (compiled_layered one_seq c t counts None (Z.of_nat m) g) as [[gs costs]|].
  - apply ind_iff. split; [intros (costs' & H); congruence|intros ->; eauto].
  - apply ind_false. intros (costs & H). discriminate.
Qed.
