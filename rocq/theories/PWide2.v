(** Proofs about ModelWide.v: entries with a qubit from 62 on. *)
From Coq Require Import Reals List Arith Bool String ZArith Lia Lra.
From Coquelicot Require Import Complex.
From Verif Require Import Base CMat CMatFacts Det CRoot Norms ModelUnitary ModelEntry ModelSequence ModelWide Spec SpecModel SpecWide
  PBits PUnitary PUnitaryProps PEntry PSeqUndo PWide.
Import ListNotations.
Set Bullet Behavior "Strict Subproofs".
Open Scope se_scope.

Lemma valid_wide d e : (e_dim e <= d)%nat -> has_wide_qubit e -> entry_valid64 d e = true.
Proof.
  intros D (q & Hq & L). unfold entry_valid64. rewrite (fits64_wide _ d q Hq L).
  apply andb_true_intro. split; auto. now apply Nat.leb_le.
Qed.

Lemma list_set_obj h l : list_set h l (obj h l) = h.
Proof.
  unfold obj. revert l. induction h as [| e t IH]; intros l; destruct l; cbn; auto. now rewrite IH.
Qed.

Section Wide.
Variable eps : R.

Lemma h_full64_outside (h : heap) l d : Forall inside h -> outside d (obj h l) ->
  exists x, h_full64 eps l d h = (h, Raise x).
Proof.
  intros H O. unfold h_full64.
  destruct (full64_outside eps d _ (P_obj inside inside_none h l H) O) as (x & E).
  rewrite E, list_set_obj. eauto.
Qed.

Lemma append_last_outside (h : heap) s l p : Forall inside h -> s_array s = false -> s_product s = Some p ->
  entry_valid64 (s_dim s) (obj h l) = true -> outside (s_dim s) (obj h l) ->
  exists x, append_last64 eps l false (h, s) = ((h, set_entries s (s_entries s ++ [l])), Raise x).
Proof.
  intros H A P V O. destruct (h_full64_outside h l (s_dim s) H O) as (x & E). exists x.
  unfold append_last64, m_assert_valid64, m_save, m_change_list, m_self, m_upd, m_heap, se_bind, se_ret, assert.
  cbn [fst snd]. rewrite V, A. cbn [set_entries s_product s_dim fst snd]. rewrite P. cbn [fst snd set_entries s_dim]. rewrite E. reflexivity.
Qed.

Lemma append_first_outside (h : heap) s l p : Forall inside h -> s_array s = false -> s_product s = Some p ->
  entry_valid64 (s_dim s) (obj h l) = true -> outside (s_dim s) (obj h l) ->
  exists x, append_first64 eps l false (h, s) = ((h, set_entries s (l :: s_entries s)), Raise x).
Proof.
  intros H A P V O. destruct (h_full64_outside h l (s_dim s) H O) as (x & E). exists x.
  unfold append_first64, m_assert_valid64, m_save, m_change_list, m_self, m_upd, m_heap, se_bind, se_ret, assert.
  cbn [fst snd]. rewrite V, A. cbn [set_entries s_product s_dim fst snd]. rewrite P. cbn [fst snd set_entries s_dim]. rewrite E. reflexivity.
Qed.

Lemma list_set_nth {A} (l : list A) i x y : nth_error l i = Some y -> nth_error (list_set l i x) i = Some x.
Proof. revert i. induction l as [| z t IH]; intros i H; destruct i; cbn in *; try discriminate; auto. Qed.

Lemma product_kept w s q p : nth_error (w_seqs w) s = Some q -> s_product q = Some p ->
  step64 eps (Product s) w = (w, Ok (VUnitary p)).
Proof.
  intros N P. cbn [step64]. unfold se_bind at 1. unfold on_seq. rewrite N.
  unfold product64, m_self, se_bind, se_ret. cbn [snd]. rewrite P. rewrite (list_set_same _ _ _ N).
  destruct w; reflexivity.
Qed.

Lemma C93_stale_lemma os s l q p : let w := exec64 eps os w_empty in
  nth_error (w_seqs w) s = Some q -> s_array q = false -> s_product q = Some p ->
  (l < List.length (w_heap w))%nat -> (e_dim (obj (w_heap w) l) <= s_dim q)%nat ->
  has_wide_qubit (obj (w_heap w) l) -> outside (s_dim q) (obj (w_heap w) l) ->
  (exists w' x q', step64 eps (AppendLast s l false) w = (w', Raise x) /\
     nth_error (w_seqs w') s = Some q' /\ s_entries q' = s_entries q ++ [l] /\
     step64 eps (Product s) w' = (w', Ok (VUnitary p))) /\
  (exists w' x q', step64 eps (AppendFirst s l false) w = (w', Raise x) /\
     nth_error (w_seqs w') s = Some q' /\ s_entries q' = l :: s_entries q /\
     step64 eps (Product s) w' = (w', Ok (VUnitary p))).
Proof.
  intros w N A P L D W O. pose proof (reach_inside eps os) as I. fold w in I.
  pose proof (valid_wide _ _ D W) as V.
  destruct (append_last_outside (w_heap w) q l p I A P V O) as (x & E).
  destruct (append_first_outside (w_heap w) q l p I A P V O) as (y & F).
  split.
  - eexists {| w_heap := w_heap w; w_seqs := list_set (w_seqs w) s (set_entries q (s_entries q ++ [l])) |}, x, _.
    split; [|split; [|split]].
    + cbn [step64]. unfold se_bind, se_get. rewrite (proj2 (Nat.ltb_lt _ _) L). unfold on_seq. rewrite N. cbv beta iota. rewrite E. reflexivity.
    + cbn [w_seqs]. eapply list_set_nth, N.
    + reflexivity.
    + eapply product_kept; [cbn [w_seqs]; eapply list_set_nth, N|]. exact P.
  - eexists {| w_heap := w_heap w; w_seqs := list_set (w_seqs w) s (set_entries q (l :: s_entries q)) |}, y, _.
    split; [|split; [|split]].
    + cbn [step64]. unfold se_bind, se_get. rewrite (proj2 (Nat.ltb_lt _ _) L). unfold on_seq. rewrite N. cbv beta iota. rewrite F. reflexivity.
    + cbn [w_seqs]. eapply list_set_nth, N.
    + reflexivity.
    + eapply product_kept; [cbn [w_seqs]; eapply list_set_nth, N|]. exact P.
Qed.

(** ** Products that were not kept *)

Lemma h_full64_apply l d h l' : e_apply (obj (fst (h_full64 eps l d h)) l') = e_apply (obj h l').
Proof.
  unfold h_full64. pose proof (full_apply eps d (obj h l)) as A.
  destruct (get_full_unitary64 eps d (obj h l)) as [e' r]. cbn [fst] in *. revert A. unfold obj.
  revert l l'. induction h as [| e t IH]; intros l l' A; destruct l, l'; cbn in *; auto.
Qed.

Lemma loop_outside d ls : forall acc h, Forall inside h -> (exists l, In l ls /\ outside d (obj h l)) ->
  exists x, snd (product_loop64 eps d ls acc h) = Raise x.
Proof.
  induction ls as [| l t IH]; intros acc h H (l' & Hl & O); [contradiction|].
  cbn [product_loop64]. unfold se_bind at 1.
  pose proof (proj2 (agr_full_inside eps l d h H)) as K. cbn in K. pose proof (h_full64_apply l d h) as Ap.
  destruct Hl as [-> | Hl].
  - destruct (h_full64_outside h l' d H O) as (x & E). rewrite E. cbn. eauto.
  - destruct (h_full64 eps l d h) as [h' [u | x]]; [|cbn; eauto]. cbn [fst] in *.
    unfold se_bind, se_lift. destruct (u_left_multiply eps acc u) as [a|x]; [|cbn; eauto].
    apply IH; auto. exists l'. split; auto. destruct O as (q & Hq & L). exists q. now rewrite Ap.
Qed.

Lemma C93_product_lemma os s q l : let w := exec64 eps os w_empty in
  nth_error (w_seqs w) s = Some q -> s_product q = None ->
  In l (s_entries q) -> outside (s_dim q) (obj (w_heap w) l) ->
  exists w' x, step64 eps (Product s) w = (w', Raise x).
Proof.
  intros w N P Hl O. pose proof (reach_inside eps os) as I. fold w in I.
  cbn [step64]. unfold se_bind at 1. unfold on_seq. rewrite N.
  unfold product64. unfold m_self, se_bind, se_lift. cbn [snd]. rewrite P.
  destruct (mk_unitary eps (s_dim q) None None [] false []) as [p0 | x]; [|cbn; eauto].
  unfold m_heap. cbn [fst].
  destruct (loop_outside (s_dim q) (s_entries q) p0 (w_heap w) I (ex_intro _ l (conj Hl O))) as (x & E).
  destruct (product_loop64 eps (s_dim q) (s_entries q) p0 (w_heap w)) as [h' r]. cbn [snd] in E. subst r.
  cbn. eauto.
Qed.

(** ** Which exception *)

Lemma C93_index_error_lemma n e : (eps <= 1)%R -> built eps (e_unitary e) ->
  eps_clean eps (e_dim e) (u_mat (e_unitary e)) -> e_cache e = [] ->
  (2 ^ List.length (e_apply e))%nat = e_dim e -> (e_dim e <= 2 ^ n)%nat ->
  has_wide_qubit e -> outside (2 ^ n) e ->
  get_full_unitary64 eps (2 ^ n) e = (e, Raise IndexError).
Proof.
  intros He Hb Hc C0 Hd D W O. unfold get_full_unitary64. unfold assert.
  rewrite (proj2 (Nat.leb_le _ _) D). rewrite C0. cbn [cache_get].
  assert (Ln : (List.length (e_apply e) <= n)%nat).
  { rewrite <- Hd in D. apply Nat.pow_le_mono_r_iff in D; lia. }
  assert (S : (2 ^ List.length (e_apply e) * 2 ^ (n - List.length (e_apply e)) = 2 ^ n)%nat).
  { rewrite <- Nat.pow_add_r. f_equal. lia. }
  assert (X : compute_full_unitary64 eps e (2 ^ n) = Raise IndexError); [|now rewrite X].
  unfold compute_full_unitary64.
  assert (Eb : (2 ^ n / e_dim e = 2 ^ (n - List.length (e_apply e)))%nat).
  { rewrite <- Hd, <- S, Nat.mul_comm. apply Nat.div_mul. apply Nat.pow_nonzero. lia. }
  rewrite Eb.
  destruct (expanded_ok eps (2 ^ List.length (e_apply e)) (2 ^ (n - List.length (e_apply e))) (e_unitary e))
    as (i & p & Ei & Ep & Hdp & Mp); auto using pow2_pos.
  { eapply built_wf; eauto. }
  rewrite Ei. cbn [bind]. rewrite Ep. cbn [bind]. rewrite S in Hdp. rewrite Hdp, Nat.eqb_refl.
  unfold assert at 1. cbn [bind]. unfold get_permute_matrix64.
  rewrite (proj2 (Nat.leb_le _ _) D). destruct W as (q & Hq & L). rewrite (fits64_wide _ (2 ^ n) q Hq L).
  rewrite (outside_forallb _ _ O). reflexivity.
Qed.
End Wide.

(** * A program of five calls *)

Section Case.
Variable eps : R.
Variable u : unitary.
Hypothesis He : (eps <= 1)%R.
Hypothesis Hu : u_dim u = 2%nat.

Lemma C93_case_lemma : exists p,
  let w := exec64 eps (wide_program u 62) w_empty in
  step64 eps (Product 0) w = (w, Ok (VUnitary p)) /\
  (exists w' x q', step64 eps (AppendLast 0 0 false) w = (w', Raise x) /\
     nth_error (w_seqs w') 0 = Some q' /\ s_entries q' = [0%nat] /\
     step64 eps (Product 0) w' = (w', Ok (VUnitary p))) /\
  snd (step eps (AppendLast 0 0 false) (exec eps (wide_program u 62) w_empty)) = Raise AssertionError.
Proof.
  destruct (u_identity_ok eps 2 ltac:(lia) He) as (i & Ei & _).
  assert (K : exists p, mk_unitary eps 2 None None [] false [] = Ok p).
  { unfold u_identity in Ei. unfold mk_unitary in *. cbn [Nat.ltb Nat.leb assert bind] in *.
    destruct (assert _); cbn [bind] in *; [|discriminate].
    destruct (assert _); cbn [bind] in *; [|discriminate].
    destruct (Ceq_dec _ 0); [discriminate|]. eauto. }
  destruct K as (p & Ep). exists p.
  set (e := {| e_unitary := u; e_apply := [62%nat]; e_cache := [] |}).
  assert (Ee : mk_entry u [62%Z] = Ok e).
  { unfold mk_entry. cbn [nodupb_Z existsb negb List.length andb]. rewrite Hu. reflexivity. }
  set (q := {| s_dim := 2; s_array := false; s_entries := []; s_product := Some p;
               s_prev_entries := None; s_prev_product := None |}).
  assert (E : exec64 eps (wide_program u 62) w_empty = {| w_heap := [e]; w_seqs := [q] |}).
  { unfold wide_program. cbn [exec64 step64]. rewrite Ee. cbn [fst w_heap w_empty app w_seqs].
    unfold se_bind, se_get, on_heap, on_seq, add_seq, product64, m_self, se_lift, m_heap. cbn -[mk_unitary]. rewrite Ep. reflexivity. }
  assert (E' : exec eps (wide_program u 62) w_empty = {| w_heap := [e]; w_seqs := [q] |}).
  { unfold wide_program. cbn [exec step]. rewrite Ee. cbn [fst w_heap w_empty app w_seqs].
    unfold se_bind, se_get, on_heap, on_seq, add_seq, product, m_self, se_lift, m_heap. cbn -[mk_unitary]. rewrite Ep. reflexivity. }
  cbv zeta. split; [|split].
  - rewrite E. eapply product_kept; reflexivity.
  - pose proof (C93_stale_lemma eps (wide_program u 62) 0 0 q p) as T. cbv zeta in T. rewrite E in T |- *.
    apply T; try reflexivity.
    + cbn. lia.
    + cbn. unfold e_dim. cbn [e_unitary e]. lia.
    + exists 62%nat. cbn. auto.
    + exists 62%nat. cbn [obj nth w_heap e e_apply s_dim q]. split; [left; reflexivity|]. change (Nat.log2 2) with 1%nat. lia.
  - rewrite E'. cbn [step]. unfold se_bind, se_get. cbn [w_heap List.length Nat.ltb Nat.leb].
    unfold on_seq. cbn [w_seqs nth_error w_heap]. unfold append_last, m_assert_valid, se_bind.
    cbn [fst snd]. unfold entry_valid. replace (Nat.leb (2 ^ _) (s_dim q)) with false.
    + rewrite andb_false_r. reflexivity.
    + symmetry. apply Nat.leb_gt. cbn [s_dim q obj nth e e_apply].
      apply (Nat.lt_le_trans _ (2 ^ 2)); [cbn; lia|]. apply Nat.pow_le_mono_r; [lia|]. unfold list_maxn. cbn [fold_left]. lia.
Qed.
End Case.

Lemma C93_case_lemma2 : exists u p, u_dim u = 2%nat /\
  let w := exec64 eps_code (wide_program u 62) w_empty in
  step64 eps_code (Product 0) w = (w, Ok (VUnitary p)) /\
  (exists w' x q', step64 eps_code (AppendLast 0 0 false) w = (w', Raise x) /\
     nth_error (w_seqs w') 0 = Some q' /\ s_entries q' = [0%nat] /\
     step64 eps_code (Product 0) w' = (w', Ok (VUnitary p))) /\
  snd (step eps_code (AppendLast 0 0 false) (exec eps_code (wide_program u 62) w_empty)) = Raise AssertionError.
Proof.
  destruct ex_object_lemma as (u & B & D & M & K).
  assert (S := eps_code_small).
  destruct (C93_case_lemma eps_code u ltac:(lra) D) as (p & H). exists u, p. split; [exact D|exact H].
Qed.

Lemma C93_same_case_lemma u : Forall names_low_qubits (wide_program u 61) /\ names_low_qubits (AppendLast 0 0 false) /\
  ~ Forall names_low_qubits (wide_program u 62).
Proof.
  split; [|split].
  - repeat constructor; cbn; lia.
  - exact I.
  - intros H. inversion H as [| o t H1 H2]; subst. inversion H1; subst. lia.
Qed.

Lemma C93_index_case_lemma : exists e, built eps_code (e_unitary e) /\
  eps_clean eps_code (e_dim e) (u_mat (e_unitary e)) /\ e_cache e = [] /\
  mk_entry (e_unitary e) [62; 0]%Z = Ok e /\
  (2 ^ List.length (e_apply e))%nat = e_dim e /\ (e_dim e <= 2 ^ 3)%nat /\
  has_wide_qubit e /\ outside (2 ^ 3) e.
Proof.
  destruct ex_two_qubit as (u & B & D & M & K).
  exists {| e_unitary := u; e_apply := [62; 0]%nat; e_cache := [] |}.
  unfold e_dim. cbn [e_unitary e_apply e_cache]. rewrite D.
  split; [exact B|]. split; [exact K|]. split; [reflexivity|]. split.
  { unfold mk_entry. rewrite D. reflexivity. }
  split; [reflexivity|]. split; [cbn; lia|]. split.
  - exists 62%nat. cbn. auto.
  - exists 62%nat. cbn [e_apply]. split; [now left|]. change (Nat.log2 (2 ^ 3)) with 3%nat. lia.
Qed.

Lemma C93_product_case_lemma : exists u w' q' h',
  step64 eps_code (NewSequence 2 false [0%nat]) (exec64 eps_code [NewEntry u [62%Z]] w_empty) = (w', Ok (VSequence 0)) /\
  w_heap w' = h' /\ nth_error (w_seqs w') 0 = Some q' /\ s_product q' = None /\
  s_entries q' = [1%nat] /\ outside (s_dim q') (obj h' 1).
Proof.
  destruct ex_object_lemma as (u & B & D & M & K).
  set (e := {| e_unitary := u; e_apply := [62%nat]; e_cache := [] |}).
  assert (Ee : mk_entry u [62%Z] = Ok e) by (unfold mk_entry; rewrite D; reflexivity).
  assert (V : entry_valid64 2 e = true).
  { apply valid_wide; [unfold e_dim; cbn; lia|]. exists 62%nat. cbn. auto. }
  set (q := {| s_dim := 2; s_array := false; s_entries := [1%nat]; s_product := None;
               s_prev_entries := None; s_prev_product := None |}).
  exists u, {| w_heap := [e; e]; w_seqs := [q] |}, q, [e; e].
  split.
  - cbn [exec64 step64]. rewrite Ee. cbn [fst w_heap w_empty app w_seqs].
    unfold se_bind, se_get. cbn [forallb w_heap List.length Nat.ltb Nat.leb andb].
    unfold on_heap, new_sequence64. cbn [w_heap forallb obj nth]. rewrite V. reflexivity.
  - repeat (split; [reflexivity|]). exists 62%nat. cbn [obj nth e_apply e s_dim q].
    split; [left; reflexivity|]. change (Nat.log2 2) with 1%nat. lia.
Qed.
