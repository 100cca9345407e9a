(** Proofs about ModelWide.v. *)
From Coq Require Import Reals List Arith Bool String ZArith Lia.
From Coquelicot Require Import Complex.
From Verif Require Import Base CMat Det CRoot ModelUnitary ModelEntry ModelSequence ModelWide SpecWide.
Import ListNotations.
Set Bullet Behavior "Strict Subproofs".
Open Scope se_scope.

(** * The wrapped power *)

Lemma wrap64_small z : (- 2 ^ 63 <= z < 2 ^ 63)%Z -> wrap64 z = z.
Proof.
  intros H. unfold wrap64. rewrite Z.mod_small; [lia|].
  replace (2 ^ 64)%Z with (2 ^ 63 + 2 ^ 63)%Z by reflexivity. lia.
Qed.

Lemma np_pow2_small k : (k <= 62)%nat -> np_pow2 k = (2 ^ Z.of_nat k)%Z.
Proof.
  intros H. unfold np_pow2. apply wrap64_small. split.
  - pose proof (Z.pow_nonneg 2 (Z.of_nat k)). assert (0 < 2 ^ 63)%Z by reflexivity. lia.
  - apply Z.pow_lt_mono_r; lia.
Qed.

Lemma np_pow2_wide k : (63 <= k)%nat -> (np_pow2 k <= 0)%Z.
Proof.
  intros H. destruct (Nat.eq_dec k 63) as [-> | N].
  - vm_compute. discriminate.
  - unfold np_pow2, wrap64.
    assert (E : (2 ^ Z.of_nat k = 2 ^ (Z.of_nat k - 64) * 2 ^ 64)%Z).
    { rewrite <- Z.pow_add_r by lia. f_equal. lia. }
    rewrite E, Z.add_comm, Z.mod_add by discriminate. vm_compute. discriminate.
Qed.

Lemma fold_max_ge l : forall a, (a <= fold_left Nat.max l a)%nat.
Proof. induction l as [| x t IH]; intros a; cbn; [lia|]. specialize (IH (Nat.max a x)). lia. Qed.

Lemma fold_max_in l : forall a q, In q l -> (q <= fold_left Nat.max l a)%nat.
Proof.
  induction l as [| x t IH]; intros a q H; cbn in *; [contradiction|].
  destruct H as [-> | H].
  - pose proof (fold_max_ge t (Nat.max a q)). lia.
  - now apply IH.
Qed.

Lemma list_maxn_in l q : In q l -> (q <= list_maxn l)%nat.
Proof. apply fold_max_in. Qed.

Lemma fold_max_le l m : forall a, (a <= m)%nat -> Forall (fun q => (q <= m)%nat) l -> (fold_left Nat.max l a <= m)%nat.
Proof.
  induction l as [| x t IH]; intros a Ha H; cbn; [lia|]. inversion H; subst. apply IH; [lia | auto].
Qed.

Lemma list_maxn_le l m : Forall (fun q => (q <= m)%nat) l -> (list_maxn l <= m)%nat.
Proof. intros H. apply fold_max_le; [lia | exact H]. Qed.

Lemma fits64_low l d : Forall (fun q => (q <= 61)%nat) l ->
  fits64 l d = Nat.leb (2 ^ (list_maxn l + 1)) d.
Proof.
  intros H. pose proof (list_maxn_le l 61 H) as L. unfold fits64.
  rewrite np_pow2_small by lia.
  replace (2 ^ Z.of_nat (list_maxn l + 1))%Z with (Z.of_nat (2 ^ (list_maxn l + 1))).
  2:{ rewrite Nat2Z.inj_pow. reflexivity. }
  destruct (Nat.leb_spec (2 ^ (list_maxn l + 1)) d) as [A | A].
  - apply Z.leb_le. lia.
  - apply Z.leb_gt. lia.
Qed.

Lemma fits64_wide l d q : In q l -> (62 <= q)%nat -> fits64 l d = true.
Proof.
  intros Hq H. unfold fits64. apply Z.leb_le.
  pose proof (list_maxn_in l q Hq). pose proof (np_pow2_wide (list_maxn l + 1) ltac:(lia)). lia.
Qed.

(** * Agreement of computations and predicates kept by them *)

Definition agr {S A} (g : S -> heap) (P : entry -> Prop) (m m' : SE S A) : Prop :=
  forall st, Forall P (g st) -> m st = m' st /\ Forall P (g (fst (m st))).

Section Agr.
Variable P : entry -> Prop.
Hypothesis P_none : P no_entry.
Variable S : Type.
Variable g : S -> heap.

Lemma agr_bind A B (m m' : SE S A) (f f' : A -> SE S B) :
  agr g P m m' -> (forall a, agr g P (f a) (f' a)) -> agr g P (se_bind m f) (se_bind m' f').
Proof.
  intros H1 H2 st Hs. destruct (H1 st Hs) as [E K]. unfold se_bind. rewrite <- E.
  destruct (m st) as [s' [a | x]]; cbn in *.
  - now apply H2.
  - auto.
Qed.

Lemma agr_ret A (a : A) : agr g P (se_ret a) (se_ret a).
Proof. intros st H. split; auto. Qed.
Lemma agr_raise A x : agr g P (se_raise x : SE S A) (se_raise x).
Proof. intros st H. split; auto. Qed.
Lemma agr_lift A (r : res A) : agr g P (se_lift r) (se_lift r).
Proof. intros st H. split; auto. Qed.
Lemma agr_get_bind A (f f' : S -> SE S A) :
  (forall s, Forall P (g s) -> agr g P (f s) (f' s)) -> agr g P (se_bind se_get f) (se_bind se_get f').
Proof. intros H st Hs. apply (H st Hs st Hs). Qed.
Lemma agr_put s : Forall P (g s) -> agr g P (se_put s) (se_put s).
Proof. intros Hs st H. split; auto. Qed.
End Agr.

Notation hp := (fun h : heap => h).
Notation mp := (fun st : heap * sequence => fst st).
Notation wp := (fun w : world => w_heap w).

Lemma Forall_list_set {A} (Q : A -> Prop) (l : list A) : forall n x, Q x -> Forall Q l -> Forall Q (list_set l n x).
Proof.
  induction l as [| y t IH]; intros n x Hx H; destruct n; cbn; inversion H; subst; constructor; auto.
Qed.

Section Keep.
Variable P : entry -> Prop.
Hypothesis P_none : P no_entry.

Lemma P_obj h l : Forall P h -> P (obj h l).
Proof.
  intros H. unfold obj. destruct (Nat.lt_ge_cases l (List.length h)) as [L | L].
  - rewrite List.Forall_forall in H. apply H. now apply nth_In.
  - now rewrite nth_overflow.
Qed.

Lemma deepcopy_keeps ls : forall h memo, Forall P h -> Forall P (fst (deepcopy_aux h memo ls)).
Proof.
  induction ls as [| l t IH]; intros h memo H; cbn; auto.
  destruct (memo_get memo l).
  - specialize (IH h memo H). destruct (deepcopy_aux h memo t). exact IH.
  - assert (H' : Forall P (h ++ [obj h l])).
    { apply Forall_app. split; auto. constructor; auto. now apply P_obj. }
    specialize (IH _ ((l, List.length h) :: memo) H').
    destruct (deepcopy_aux (h ++ [obj h l]) ((l, List.length h) :: memo) t). exact IH.
Qed.

Lemma agr_deepcopy ls : agr hp P (h_deepcopy ls) (h_deepcopy ls).
Proof.
  intros h H. unfold h_deepcopy, deepcopy. pose proof (deepcopy_keeps ls h [] H) as K.
  destruct (deepcopy_aux h [] ls). auto.
Qed.

Lemma agr_self : agr mp P m_self m_self.
Proof. intros st H. split; auto. Qed.
Lemma agr_upd f : agr mp P (m_upd f) (m_upd f).
Proof. intros st H. split; auto. Qed.
Lemma agr_m_heap A (m m' : SE heap A) : agr hp P m m' -> agr mp P (m_heap m) (m_heap m').
Proof.
  intros K [h s] H. destruct (K h H) as [E K']. unfold m_heap. cbn. rewrite <- E.
  destruct (m h). cbn in *. auto.
Qed.
Lemma agr_on_seq A s (m m' : meth A) : agr mp P m m' -> agr wp P (on_seq s m) (on_seq s m').
Proof.
  intros K w H. unfold on_seq. destruct (nth_error (w_seqs w) s) as [q|]; [|cbn; auto].
  destruct (K (w_heap w, q) H) as [E K']. rewrite <- E. destruct (m (w_heap w, q)) as [[h' q'] r]. cbn in *. auto.
Qed.
Lemma agr_on_heap A (m m' : SE heap A) : agr hp P m m' -> agr wp P (on_heap m) (on_heap m').
Proof.
  intros K w H. destruct (K (w_heap w) H) as [E K']. unfold on_heap. rewrite <- E.
  destruct (m (w_heap w)). cbn in *. auto.
Qed.
Lemma agr_add_seq q : agr wp P (add_seq q) (add_seq q).
Proof. intros w H. split; auto. Qed.

Variable eps : R.

Lemma agr_change f : agr mp P (m_change_list f) (m_change_list f).
Proof.
  apply agr_bind; [apply agr_self|]. intros s. destruct (s_array s); [apply agr_raise | apply agr_upd].
Qed.

Lemma agr_save sv : agr mp P (m_save eps sv) (m_save eps sv).
Proof.
  destruct sv; [|apply agr_ret]. cbn. unfold save_undo_state.
  apply agr_bind; [apply agr_self|]. intros s.
  apply agr_bind; [apply agr_m_heap, agr_deepcopy|]. intros ls.
  apply agr_bind; [apply agr_upd|]. intros _.
  destruct (s_product s); [|apply agr_ret].
  apply agr_bind; [apply agr_lift|]. intros p. apply agr_upd.
Qed.

Hypothesis P_inv : forall e u, P e -> P {| e_unitary := u; e_apply := e_apply e; e_cache := [] |}.

Lemma agr_invert ls : agr hp P (invert_loop eps ls) (invert_loop eps ls).
Proof.
  induction ls as [| l t IH]; [apply agr_ret|]. cbn [invert_loop].
  apply agr_get_bind. intros h Hh.
  apply agr_bind; [apply agr_lift|]. intros u.
  apply agr_bind; [|intros _; exact IH].
  apply agr_put. apply Forall_list_set; auto. apply P_inv. now apply P_obj.
Qed.

Lemma agr_undo : agr mp P undo undo.
Proof.
  apply agr_bind; [apply agr_self|]. intros s. destruct (s_prev_entries s); [apply agr_upd | apply agr_raise].
Qed.

Lemma agr_get_entries s :
  agr wp P (on_seq s (q <-- m_self ;; m_heap (h_deepcopy (s_entries q))))
           (on_seq s (q <-- m_self ;; m_heap (h_deepcopy (s_entries q)))).
Proof.
  apply agr_on_seq. apply agr_bind; [apply agr_self|]. intros q. apply agr_m_heap, agr_deepcopy.
Qed.

End Keep.

Lemma forallb_ext_P h (v v' : entry -> bool) (P : entry -> Prop) ls : P no_entry -> Forall P h ->
  (forall e, P e -> v e = v' e) ->
  forallb (fun l => v (obj h l)) ls = forallb (fun l => v' (obj h l)) ls.
Proof.
  intros P0 H E. induction ls as [| l t IH]; cbn; auto. rewrite IH, E; auto. now apply P_obj.
Qed.

Ltac agr_go tac := repeat lazymatch goal with
  | |- agr _ _ (se_ret _) _ => apply agr_ret
  | |- agr _ _ (se_raise _) _ => apply agr_raise
  | |- agr _ _ (se_lift _) _ => apply agr_lift
  | |- agr _ _ (se_assert _) _ => apply agr_lift
  | |- agr _ _ m_self _ => apply agr_self
  | |- agr _ _ (m_upd _) _ => apply agr_upd
  | |- agr _ _ undo _ => apply agr_undo
  | |- agr _ _ (add_seq _) _ => apply agr_add_seq
  | |- agr _ _ (m_change_list _) _ => apply agr_change
  | |- agr _ _ (m_save _ _) _ => apply agr_save; assumption
  | |- agr _ _ (h_deepcopy _) _ => apply agr_deepcopy; assumption
  | |- agr _ _ (invert_loop _ _) _ => apply agr_invert; assumption
  | |- agr _ _ (m_heap _) _ => apply agr_m_heap
  | |- agr _ _ (on_seq _ _) _ => apply agr_on_seq
  | |- agr _ _ (on_heap _) _ => apply agr_on_heap
  | |- agr _ _ (se_bind se_get _) _ => apply agr_get_bind; intros ? ?
  | |- agr _ _ (se_bind _ _) _ => apply agr_bind; [| intros ?]
  | |- agr _ _ (match ?x with _ => _ end) _ => destruct x
  | |- _ => tac
  end.

(** ** Qubits up to 61: the two models agree *)

Definition low (e : entry) : Prop := Forall (fun q => (q <= 61)%nat) (e_apply e).

Lemma low_none : low no_entry.
Proof. constructor. Qed.

Lemma low_inv e u : low e -> low {| e_unitary := u; e_apply := e_apply e; e_cache := [] |}.
Proof. auto. Qed.

Section Low.
Variable eps : R.

Lemma permute64_low e d : low e -> get_permute_matrix64 e d = get_permute_matrix e d.
Proof.
  intros H. unfold get_permute_matrix64, get_permute_matrix. rewrite (fits64_low _ _ H).
  destruct (Nat.leb (e_dim e) d); cbn [assert bind]; auto.
  destruct (Nat.leb_spec (2 ^ (list_maxn (e_apply e) + 1)) d) as [L | L]; cbn [assert bind]; auto.
  rewrite (proj2 (forallb_forall _ _)); auto.
  intros q Hq. apply Nat.ltb_lt.
  assert (0 < d)%nat by (pose proof (Nat.pow_nonzero 2 (list_maxn (e_apply e) + 1)); lia).
  apply (Nat.log2_le_pow2 d) in L; auto. pose proof (list_maxn_in _ _ Hq). lia.
Qed.

Lemma full64_low d e : low e -> get_full_unitary64 eps d e = get_full_unitary eps d e.
Proof.
  intros H. unfold get_full_unitary64, get_full_unitary, compute_full_unitary64, compute_full_unitary.
  now rewrite (permute64_low e d H).
Qed.

Lemma full_apply d e : e_apply (fst (get_full_unitary64 eps d e)) = e_apply e.
Proof.
  unfold get_full_unitary64. destruct (assert _); auto. destruct (cache_get _ _); auto.
  destruct (compute_full_unitary64 _ _ _); auto.
Qed.

Lemma agr_full_low l d : agr hp low (h_full64 eps l d) (h_full eps l d).
Proof.
  intros h H. unfold h_full64, h_full. pose proof (P_obj low low_none h l H) as K.
  rewrite <- (full64_low d _ K). pose proof (full_apply d (obj h l)) as A.
  destruct (get_full_unitary64 eps d (obj h l)) as [e' r]. cbn in *. split; auto.
  apply Forall_list_set; auto. unfold low. now rewrite A.
Qed.

Lemma valid_low d e : low e -> entry_valid64 d e = entry_valid d e.
Proof. intros H. unfold entry_valid64, entry_valid. now rewrite fits64_low. Qed.

Lemma agr_new_low d ia ls : agr hp low (new_sequence64 d ia ls) (new_sequence d ia ls).
Proof.
  intros h H. unfold new_sequence64, new_sequence.
  rewrite (forallb_ext_P h _ _ low ls low_none H (valid_low d)).
  destruct (forallb _ ls); [|auto]. pose proof (deepcopy_keeps low low_none ls h [] H) as K.
  unfold deepcopy. destruct (deepcopy_aux h [] ls). auto.
Qed.

Lemma agr_valid_low l : agr mp low (m_assert_valid64 l) (m_assert_valid l).
Proof.
  intros [h s] H. unfold m_assert_valid64, m_assert_valid. cbn [fst snd] in *.
  rewrite (valid_low (s_dim s) (obj h l)); auto. apply P_obj; auto using low_none.
Qed.

Hint Resolve low_none low_inv : core.

Ltac base := idtac; lazymatch goal with
  | |- agr _ _ (h_full64 _ _ _) _ => apply agr_full_low
  | |- agr _ _ (new_sequence64 _ _ _) _ => apply agr_new_low
  | |- agr _ _ (m_assert_valid64 _) _ => apply agr_valid_low
  end.

Lemma agr_loop_low d ls : forall acc, agr hp low (product_loop64 eps d ls acc) (product_loop eps d ls acc).
Proof.
  induction ls as [| l t IH]; intros acc; cbn [product_loop64 product_loop]; agr_go ltac:(idtac; lazymatch goal with |- agr _ _ (product_loop64 _ _ _ _) _ => apply IH | |- _ => base end).
Qed.

Lemma agr_product_low : agr mp low (product64 eps) (product eps).
Proof. unfold product64, product. agr_go ltac:(idtac; lazymatch goal with |- agr _ _ (product_loop64 _ _ _ _) _ => apply agr_loop_low | |- _ => base end). Qed.

Lemma agr_inverse_low : agr mp low (inverse64 eps) (inverse eps).
Proof.
  unfold inverse64, inverse. pose proof low_none. pose proof low_inv. agr_go ltac:(idtac; lazymatch goal with |- agr _ _ (product64 _) _ => apply agr_product_low | |- _ => base end).
Qed.

Lemma agr_combine_loop_low ss : forall ls p, agr wp low (combine_loop64 eps ss ls p) (combine_loop eps ss ls p).
Proof.
  pose proof low_none. pose proof low_inv.
  induction ss as [| s t IH]; intros ls p; cbn [combine_loop64 combine_loop];
    agr_go ltac:(idtac; lazymatch goal with |- agr _ _ (product64 _) _ => apply agr_product_low | |- agr _ _ (combine_loop64 _ _ _ _) _ => apply IH | |- _ => base end).
Qed.

Lemma agr_combine_low ss : agr wp low (combine64 eps ss) (combine eps ss).
Proof.
  unfold combine64, combine. pose proof low_none. pose proof low_inv.
  agr_go ltac:(idtac; lazymatch goal with |- agr _ _ (combine_loop64 _ _ _ _) _ => apply agr_combine_loop_low | |- _ => base end).
Qed.

Lemma agr_step_low o : names_low_qubits o -> agr wp low (step64 eps o) (step eps o).
Proof.
  intros Ho. pose proof low_none. pose proof low_inv.
  destruct o; cbn [step64 step];
    try (unfold append_first64, append_first, append_last64, append_last, remove_first64, remove_first,
      remove_last64, remove_last;
      agr_go ltac:(idtac; lazymatch goal with |- agr _ _ (product64 _) _ => apply agr_product_low | |- agr _ _ (inverse64 _) _ => apply agr_inverse_low | |- agr _ _ (combine64 _ _) _ => apply agr_combine_low | |- _ => base end); fail).
  intros w Hw. unfold mk_entry.
  destruct (assert (nodupb_Z apply_to)); cbn [bind]; [|auto].
  destruct (assert (Nat.eqb _ _)); cbn [bind]; [|auto].
  destruct apply_to as [| q t]; [auto|].
  destruct (assert (forallb _ _)); cbn [bind]; [|auto].
  split; auto. cbn [fst w_heap]. apply Forall_app. split; auto. constructor; auto.
  unfold low. cbn [e_apply]. cbn [names_low_qubits] in Ho. apply Forall_map.
  eapply Forall_impl; [|exact Ho]. cbn. intros. lia.
Qed.

Lemma exec_low os : forall w, Forall names_low_qubits os -> Forall low (w_heap w) ->
  exec64 eps os w = exec eps os w /\ Forall low (w_heap (exec64 eps os w)).
Proof.
  induction os as [| o t IH]; intros w Ho Hw; cbn [exec64 exec]; [auto|].
  inversion Ho; subst. destruct (agr_step_low o H1 w Hw) as [E K]. rewrite <- E. now apply IH.
Qed.

Lemma C93_same_lemma os o : Forall names_low_qubits os -> names_low_qubits o ->
  exec64 eps os w_empty = exec eps os w_empty /\
  step64 eps o (exec64 eps os w_empty) = step eps o (exec eps os w_empty).
Proof.
  intros H1 H2. destruct (exec_low os w_empty H1 ltac:(constructor)) as [E K].
  split; auto. rewrite <- E. now apply agr_step_low.
Qed.
End Low.

(** ** Qubits from 62 on *)

Lemma C93_accepted_lemma d ia ls h : Forall (fun l => (e_dim (obj h l) <= d)%nat /\ has_wide_qubit (obj h l)) ls ->
  exists h' ls', new_sequence64 d ia ls h =
    (h', Ok {| s_dim := d; s_array := ia; s_entries := ls'; s_product := None;
               s_prev_entries := None; s_prev_product := None |}).
Proof.
  intros H. unfold new_sequence64. rewrite (proj2 (forallb_forall _ _)).
  - destruct (deepcopy h ls) as [h' ls']. eauto.
  - intros l Hl. rewrite List.Forall_forall in H. destruct (H l Hl) as (D & q & Hq & L).
    unfold entry_valid64. rewrite (fits64_wide _ d q Hq L). apply andb_true_intro. split; auto.
    now apply Nat.leb_le.
Qed.

Lemma outside_forallb d e : outside d e -> forallb (fun q => Nat.ltb q (Nat.log2 d)) (e_apply e) = false.
Proof.
  intros (q & Hq & L). destruct (forallb _ _) eqn:F; auto.
  rewrite forallb_forall in F. specialize (F q Hq). apply Nat.ltb_lt in F. lia.
Qed.

Lemma permute64_outside e d : outside d e -> exists x, get_permute_matrix64 e d = Raise x.
Proof.
  intros H. unfold get_permute_matrix64. rewrite (outside_forallb d e H).
  unfold assert. destruct (Nat.leb _ _); cbn; [|eauto]. destruct (fits64 _ _); cbn; eauto.
Qed.

Lemma compute64_outside eps e d : outside d e -> exists x, compute_full_unitary64 eps e d = Raise x.
Proof.
  intros H. unfold compute_full_unitary64. destruct (permute64_outside e d H) as (x & E).
  destruct (u_identity _ _); cbn [bind]; [|eauto]. destruct (u_tensor _ _ _); cbn [bind]; [|eauto].
  destruct (assert _); cbn [bind]; [|eauto]. rewrite E. cbn. eauto.
Qed.

(** What is in the cache has its qubits inside the system. *)
Definition inside (e : entry) : Prop :=
  forall d u, cache_get (e_cache e) d = Some u -> ~ outside d e.

Lemma inside_none : inside no_entry.
Proof. intros d u H. discriminate. Qed.

Lemma inside_inv e u : inside e -> inside {| e_unitary := u; e_apply := e_apply e; e_cache := [] |}.
Proof. intros H d v E. discriminate. Qed.

Section Outside.
Variable eps : R.

Lemma full64_inside d e : inside e -> inside (fst (get_full_unitary64 eps d e)).
Proof.
  intros H. unfold get_full_unitary64. destruct (assert _); auto. destruct (cache_get _ _); auto.
  destruct (compute_full_unitary64 eps e d) as [f | x] eqn:E; auto.
  intros d' u. cbn. destruct (Nat.eqb_spec d d') as [<- | N]; intros C O.
  - destruct (compute64_outside eps e d O) as (x & X). congruence.
  - exact (H d' u C O).
Qed.

Lemma agr_full_inside l d : agr hp inside (h_full64 eps l d) (h_full64 eps l d).
Proof.
  intros h H. unfold h_full64. pose proof (full64_inside d _ (P_obj inside inside_none h l H)) as A.
  destruct (get_full_unitary64 eps d (obj h l)) as [e' r]. cbn in *. split; auto.
  apply Forall_list_set; auto.
Qed.

Lemma agr_new_inside d ia ls : agr hp inside (new_sequence64 d ia ls) (new_sequence64 d ia ls).
Proof.
  intros h H. unfold new_sequence64.
  destruct (forallb _ ls); [|auto]. pose proof (deepcopy_keeps inside inside_none ls h [] H) as K.
  unfold deepcopy. destruct (deepcopy_aux h [] ls). auto.
Qed.

Lemma agr_valid_inside l : agr mp inside (m_assert_valid64 l) (m_assert_valid64 l).
Proof. intros [h s] H. auto. Qed.

Ltac base := idtac; lazymatch goal with
  | |- agr _ _ (h_full64 _ _ _) _ => apply agr_full_inside
  | |- agr _ _ (new_sequence64 _ _ _) _ => apply agr_new_inside
  | |- agr _ _ (m_assert_valid64 _) _ => apply agr_valid_inside
  end.

Lemma agr_loop_inside d ls : forall acc, agr hp inside (product_loop64 eps d ls acc) (product_loop64 eps d ls acc).
Proof.
  induction ls as [| l t IH]; intros acc; cbn [product_loop64]; agr_go ltac:(idtac; lazymatch goal with |- agr _ _ (product_loop64 _ _ _ _) _ => apply IH | |- _ => base end).
Qed.

Lemma agr_product_inside : agr mp inside (product64 eps) (product64 eps).
Proof. unfold product64. agr_go ltac:(idtac; lazymatch goal with |- agr _ _ (product_loop64 _ _ _ _) _ => apply agr_loop_inside | |- _ => base end). Qed.

Lemma agr_inverse_inside : agr mp inside (inverse64 eps) (inverse64 eps).
Proof.
  unfold inverse64. pose proof inside_none. pose proof inside_inv. agr_go ltac:(idtac; lazymatch goal with |- agr _ _ (product64 _) _ => apply agr_product_inside | |- _ => base end).
Qed.

Lemma agr_combine_loop_inside ss : forall ls p, agr wp inside (combine_loop64 eps ss ls p) (combine_loop64 eps ss ls p).
Proof.
  pose proof inside_none. pose proof inside_inv.
  induction ss as [| s t IH]; intros ls p; cbn [combine_loop64];
    agr_go ltac:(idtac; lazymatch goal with |- agr _ _ (product64 _) _ => apply agr_product_inside | |- agr _ _ (combine_loop64 _ _ _ _) _ => apply IH | |- _ => base end).
Qed.

Lemma agr_combine_inside ss : agr wp inside (combine64 eps ss) (combine64 eps ss).
Proof.
  unfold combine64. pose proof inside_none. pose proof inside_inv.
  agr_go ltac:(idtac; lazymatch goal with |- agr _ _ (combine_loop64 _ _ _ _) _ => apply agr_combine_loop_inside | |- _ => base end).
Qed.

Lemma agr_step_inside o : agr wp inside (step64 eps o) (step64 eps o).
Proof.
  pose proof inside_none. pose proof inside_inv.
  destruct o; cbn [step64];
    try (unfold append_first64, append_last64, remove_first64, remove_last64;
      agr_go ltac:(idtac; lazymatch goal with |- agr _ _ (product64 _) _ => apply agr_product_inside | |- agr _ _ (inverse64 _) _ => apply agr_inverse_inside | |- agr _ _ (combine64 _ _) _ => apply agr_combine_inside | |- _ => base end); fail).
  intros w Hw. split; auto. destruct (mk_entry u apply_to) as [e|] eqn:E; [|auto].
  cbn [fst w_heap]. apply Forall_app. split; auto. constructor; auto.
  unfold mk_entry in E.
  destruct (assert (nodupb_Z apply_to)); cbn [bind] in E; [|discriminate].
  destruct (assert (Nat.eqb _ _)); cbn [bind] in E; [|discriminate].
  destruct apply_to as [| q t]; [discriminate|].
  destruct (assert (forallb _ _)); cbn [bind] in E; [|discriminate].
  injection E as <-. intros d v C. discriminate.
Qed.

Lemma exec_inside os : forall w, Forall inside (w_heap w) -> Forall inside (w_heap (exec64 eps os w)).
Proof.
  induction os as [| o t IH]; intros w Hw; cbn [exec64]; [auto|].
  apply IH. now apply agr_step_inside.
Qed.

Lemma reach_inside os : Forall inside (w_heap (exec64 eps os w_empty)).
Proof. apply exec_inside. constructor. Qed.

Lemma full64_outside d e : inside e -> outside d e -> exists x, get_full_unitary64 eps d e = (e, Raise x).
Proof.
  intros H O. unfold get_full_unitary64. destruct (assert _) as [[]|]; [|eauto].
  destruct (cache_get _ _) eqn:C; [exfalso; exact (H _ _ C O)|].
  destruct (compute64_outside eps e d O) as (x & E). rewrite E. eauto.
Qed.
End Outside.
