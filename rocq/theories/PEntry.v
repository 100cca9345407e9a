(** Proofs about sequence entries: C09-C13, C53. *)
From Coq Require Import Reals List Arith Lia Lra Bool String ZArith Setoid Morphisms.
From Coquelicot Require Import Complex.
From Verif Require Import Base CMat CMatFacts Det DetFacts ModelUnitary ModelEntry ModelPrimitive Spec SpecModel
  PBits PUnitary PEmbed PUnitaryProps.
Import ListNotations.
Open Scope R_scope.
Open Scope C_scope.

(** * Constructors *)
Lemma mk_entry_iff u qs :
  (exists e, mk_entry u qs = Ok e) <->
  qs <> [] /\ NoDup qs /\ (forall q, In q qs -> (0 <= q)%Z) /\ (2 ^ List.length qs)%nat = u_dim u.
Proof.
  unfold mk_entry, assert. destruct (nodupb_Z qs) eqn:E1; simpl.
  - apply nodupb_Z_spec in E1. destruct (Nat.eqb_spec (2 ^ List.length qs) (u_dim u)); simpl.
    + destruct qs as [|q t] eqn:Eq.
      * split; [intros [e' H]; discriminate|tauto].
      * rewrite <- Eq in *. destruct (forallb (fun q => Z.leb 0 q) qs) eqn:E2; simpl.
        -- rewrite forallb_forall in E2. split; [|intros; eexists; reflexivity].
           intros _. split; [congruence|]. repeat split; auto. intros x Hx. apply E2 in Hx. lia.
        -- split; [intros [e' H]; discriminate|]. intros (_ & _ & H & _).
           exfalso. apply not_true_iff_false in E2. apply E2. apply forallb_forall.
           intros x Hx. apply H in Hx. lia.
    + split; [intros [e' H]; discriminate|tauto].
  - apply not_true_iff_false in E1. rewrite nodupb_Z_spec in E1.
    split; [intros [e' H]; discriminate|tauto].
Qed.

Lemma mk_entry_fields u qs e : mk_entry u qs = Ok e ->
  e_unitary e = u /\ e_apply e = map Z.to_nat qs /\ e_cache e = [].
Proof.
  unfold mk_entry, assert. destruct (nodupb_Z qs); simpl; [|discriminate].
  destruct (Nat.eqb _ _); simpl; [|discriminate]. destruct qs as [|q t]; [discriminate|].
  destruct (forallb _ _); cbn [bind]; [|discriminate]. intros [= <-]. auto.
Qed.

Lemma mk_entry_raises u qs x : mk_entry u qs = Raise x ->
  x = if (match qs with [] => true | _ => false end) && Nat.eqb (u_dim u) 1
      then ValueError else AssertionError.
Proof.
  unfold mk_entry, assert. destruct qs as [|q t].
  - cbn [nodupb_Z List.length bind andb]. change (2 ^ 0)%nat with 1%nat.
    rewrite (Nat.eqb_sym (u_dim u)). destruct (Nat.eqb 1 (u_dim u)); cbn [bind]; congruence.
  - destruct (nodupb_Z _); cbn [bind]; [|simpl; congruence].
    destruct (Nat.eqb _ _); cbn [bind]; [|simpl; congruence].
    destruct (forallb _ _); cbn [bind]; simpl; congruence.
Qed.

Lemma to_of_nat qs : map Z.to_nat (map Z.of_nat qs) = qs.
Proof.
  rewrite map_map. rewrite <- map_id. apply map_ext. apply Nat2Z.id.
Qed.

Lemma mk_entry_nat u n qs :
  placement n qs -> (2 ^ List.length qs)%nat = u_dim u ->
  exists e, mk_entry u (map Z.of_nat qs) = Ok e /\
            e = {| e_unitary := u; e_apply := qs; e_cache := [] |}.
Proof.
  intros (Hnd & Hne & Hlt) Hd.
  destruct (proj2 (mk_entry_iff u (map Z.of_nat qs))) as [e He].
  - split; [destruct qs; simpl; congruence|]. split; [|split].
    + apply FinFun.Injective_map_NoDup; auto. intros a b. lia.
    + intros q Hq. apply in_map_iff in Hq. destruct Hq as (k & <- & _). lia.
    + now rewrite map_length.
  - exists e. split; auto. apply mk_entry_fields in He. rewrite to_of_nat in He.
    destruct e; simpl in *. destruct He as (-> & -> & ->). reflexivity.
Qed.

Lemma mk_primitive_iff u allowed :
  (exists p, mk_primitive u allowed = Ok p) <->
  (forall ls, allowed = Some ls -> forall qs, In qs ls ->
     qs <> [] /\ NoDup qs /\ (forall q, In q qs -> (0 <= q)%Z) /\
     (2 ^ List.length qs)%nat = src_dim u).
Proof.
  unfold mk_primitive, assert. destruct allowed as [ls|].
  2:{ split; [discriminate|]. intros _. eexists; reflexivity. }
  destruct (forallb nodupb_Z ls) eqn:E1; cbn [bind].
  2:{ split; [intros [? ?]; discriminate|]. intros H. exfalso.
      apply not_true_iff_false in E1. apply E1. apply forallb_forall. intros l Hl.
      apply nodupb_Z_spec. now apply (H ls). }
  destruct (forallb (fun l => Nat.eqb (2 ^ List.length l) (src_dim u)) ls) eqn:E2; cbn [bind].
  2:{ split; [intros [? ?]; discriminate|]. intros H. exfalso.
      apply not_true_iff_false in E2. apply E2. apply forallb_forall. intros l Hl.
      apply Nat.eqb_eq. now apply (H ls). }
  destruct (existsb _ ls) eqn:E3; cbn [bind].
  1:{ split; [intros [? ?]; discriminate|]. intros H. exfalso.
      apply existsb_exists in E3. destruct E3 as (l & Hl & E). destruct l; [|discriminate].
      now apply (H ls eq_refl []). }
  destruct (forallb (forallb _) ls) eqn:E4; cbn [bind].
  2:{ split; [intros [? ?]; discriminate|]. intros H. exfalso.
      apply not_true_iff_false in E4. apply E4. apply forallb_forall. intros l Hl.
      apply forallb_forall. intros q Hq.
      destruct (H ls eq_refl l Hl) as (_ & _ & H' & _). apply H' in Hq. lia. }
  split; [|intros; eexists; reflexivity].
  intros _ ls' [= <-] qs Hin. rewrite forallb_forall in E1, E2, E4. repeat split.
  - intros ->. apply not_true_iff_false in E3. apply E3. apply existsb_exists. eexists; split; eauto.
  - apply nodupb_Z_spec. auto.
  - intros q Hq. specialize (E4 qs Hin). rewrite forallb_forall in E4. specialize (E4 q Hq). lia.
  - specialize (E2 qs Hin). now apply Nat.eqb_eq.
Qed.

(** * The permutation matrix *)
Lemma list_maxn_ge l : forall a, (forall q, In q l -> q <= fold_left Nat.max l a)%nat /\
  (a <= fold_left Nat.max l a)%nat.
Proof.
  induction l as [|x l IH]; intros a; simpl.
  - split; [tauto|lia].
  - destruct (IH (Nat.max a x)) as [H1 H2]. split; [|lia].
    intros q [->|Hq]; [lia|auto].
Qed.
Lemma list_maxn_in l : forall a, (fold_left Nat.max l a = a \/ In (fold_left Nat.max l a) l)%nat.
Proof.
  induction l as [|x l IH]; intros a; simpl; auto.
  destruct (IH (Nat.max a x)) as [H|H]; auto. rewrite H.
  destruct (Nat.max_spec a x) as [[_ E]|[_ E]]; rewrite E; auto.
Qed.

Lemma list_maxn_lt l n : l <> [] -> (forall q, In q l -> (q < n)%nat) -> (list_maxn l < n)%nat.
Proof.
  intros Hne H. unfold list_maxn. destruct (list_maxn_in l 0%nat) as [E|E]; [|auto].
  rewrite E. destruct l as [|x l]; [congruence|]. specialize (H x (or_introl eq_refl)). lia.
Qed.

Lemma prodn_repeat2 n : prodn (repeat 2%nat n) = (2 ^ n)%nat.
Proof.
  rewrite prodn_two; [now rewrite repeat_length|].
  intros x Hx. now apply repeat_spec in Hx.
Qed.

Lemma get_permute_matrix_ok n e :
  placement n (e_apply e) -> (2 ^ List.length (e_apply e))%nat = e_dim e ->
  get_permute_matrix e (2 ^ n) = Ok (sel_mx (pind n (e_apply e))).
Proof.
  intros Hp Hd. unfold get_permute_matrix, assert.
  replace (Nat.leb (e_dim e) (2 ^ n)) with true.
  2:{ symmetry. apply Nat.leb_le. rewrite <- Hd. apply Nat.pow_le_mono_r; [lia|].
      now apply placement_length. }
  cbn [bind].
  replace (Nat.leb (2 ^ (list_maxn (e_apply e) + 1)) (2 ^ n)) with true.
  2:{ symmetry. apply Nat.leb_le. apply Nat.pow_le_mono_r; [lia|].
      destruct Hp as (_ & Hne & Hlt). pose proof (list_maxn_lt _ n Hne Hlt). lia. }
  cbn [bind]. rewrite Nat.log2_pow2 by lia. rewrite repeat_length.
  rewrite sortn_order by (apply Hp). cbn [bind].
  rewrite prodn_repeat2, Nat.eqb_refl. reflexivity.
Qed.

Lemma get_permute_matrix_pow2 e D P : get_permute_matrix e D = Ok P ->
  (exists n, D = 2 ^ n /\ forall q, In q (e_apply e) -> q < n)%nat.
Proof.
  unfold get_permute_matrix, assert.
  destruct (Nat.leb _ D); cbn [bind]; [|discriminate].
  destruct (Nat.leb_spec (2 ^ (list_maxn (e_apply e) + 1)) D) as [L|]; cbn [bind]; [|discriminate].
  destruct (eqb_listn _ _); cbn [bind]; [|discriminate].
  rewrite prodn_repeat2. destruct (Nat.eqb_spec (2 ^ Nat.log2 D) D) as [E|]; [|discriminate].
  intros _. exists (Nat.log2 D). split; auto. intros q Hq.
  rewrite <- E in L. apply Nat.pow_le_mono_r_iff in L; [|lia].
  pose proof (proj1 (list_maxn_ge (e_apply e) 0%nat) q Hq). unfold list_maxn in L. lia.
Qed.

(** * Full unitaries *)
Lemma kron_id_clean eps a b U :
  (0 < b)%nat -> eps_clean eps a U -> eps_clean eps (a * b) (kron b U mid).
Proof.
  intros Hb H i j Hi Hj. unfold kron, mid.
  destruct (Nat.eqb (i mod b) (j mod b)).
  - assert ((i / b < a)%nat /\ (j / b < a)%nat) as [Hi' Hj'].
    { split; apply Nat.div_lt_upper_bound; lia. }
    rewrite Cmult_1_r. auto.
  - rewrite Cmult_0_r. simpl. auto.
Qed.

Lemma expanded_ok eps a b u :
  (0 < b)%nat -> (eps <= 1)%R -> wf u -> u_dim u = a -> eps_clean eps (u_dim u) (u_mat u) ->
  exists i p, u_identity eps b = Ok i /\ u_tensor eps u i = Ok p /\
    u_dim p = (a * b)%nat /\ meq (a * b) (u_mat p) (kron b (u_mat u) mid).
Proof.
  intros Hb He Hw Hu Hc. destruct (u_identity_ok eps b Hb He) as (i & Ei & Hi & _ & _ & _ & _ & Mi).
  assert (wi : wf i) by (eapply wf_of; eauto using special_mid).
  assert (K : meq (a * b) (kron b (u_mat u) (u_mat i)) (kron b (u_mat u) mid)).
  { apply kron_proper; auto. reflexivity. }
  destruct (u_tensor_ok eps u i Hw wi) as (p & Ep & Hp & _ & _ & _ & _ & Mp).
  - rewrite Hi, Hu. rewrite K. apply kron_id_clean; auto. now rewrite <- Hu.
  - exists i, p. rewrite Hi, Hu in *. repeat split; auto. now rewrite Mp.
Qed.

Lemma compute_full_unitary_ok eps n e :
  (eps <= 1)%R -> placement n (e_apply e) ->
  (2 ^ List.length (e_apply e))%nat = e_dim e ->
  wf (e_unitary e) -> eps_clean eps (e_dim e) (u_mat (e_unitary e)) ->
  exists f, compute_full_unitary eps e (2 ^ n) = Ok f /\ u_dim f = (2 ^ n)%nat /\
    u_name f = u_name (e_unitary e) /\ u_params f = u_params (e_unitary e) /\
    u_inv f = false /\ u_apply f = e_apply e /\
    meq (2 ^ n) (u_mat f) (embed n (e_apply e) (u_mat (e_unitary e))).
Proof.
  intros He Hp Hd Hw Hc. unfold compute_full_unitary.
  set (qs := e_apply e) in *. set (u := e_unitary e) in *.
  assert (Eb : (2 ^ n / e_dim e = 2 ^ (n - List.length qs))%nat).
  { rewrite <- Hd, <- (dim_split n qs Hp), Nat.mul_comm. apply Nat.div_mul.
    apply Nat.pow_nonzero. lia. }
  rewrite Eb.
  destruct (expanded_ok eps (2 ^ List.length qs) (2 ^ (n - List.length qs)) u)
    as (i & p & Ei & Ep & Hdp & Mp); auto using pow2_pos.
  rewrite Ei. cbn [bind]. rewrite Ep. cbn [bind]. rewrite dim_split in * by auto.
  rewrite Hdp, Nat.eqb_refl. unfold assert at 1. cbn [bind].
  rewrite (get_permute_matrix_ok n e Hp Hd). cbn [bind].
  fold qs.
  assert (EF : meq (2 ^ n)
     (mmul (2 ^ n) (mmul (2 ^ n) (sel_mx (pind n qs)) (u_mat p)) (transpose (sel_mx (pind n qs))))
     (embed n qs (u_mat u))).
  { rewrite sel_mx_conj by (intros; now apply pind_lt).
    intros a b Ha Hb. rewrite Mp by (now apply pind_lt). now apply embed_pind. }
  assert (Hs : special (2 ^ List.length qs) (u_mat u)).
  { rewrite Hd. apply Hw. }
  destruct (mk_special eps (2 ^ n)
     (mmul (2 ^ n) (mmul (2 ^ n) (sel_mx (pind n qs)) (u_mat p)) (transpose (sel_mx (pind n qs))))
     (Some (u_name u)) (u_params u) false qs) as (f & E & E1 & E2 & E3 & E4 & E5 & E6).
  - apply pow2_pos.
  - rewrite EF. now apply embed_special.
  - rewrite EF. apply embed_clean. rewrite Hd. exact Hc.
  - exists f. repeat split; auto. now rewrite E6, EF.
Qed.

Lemma get_full_fresh eps D e :
  e_cache e = [] -> (e_dim e <= D)%nat ->
  snd (get_full_unitary eps D e) = compute_full_unitary eps e D.
Proof.
  intros Hc Hd. unfold get_full_unitary. unfold assert.
  apply Nat.leb_le in Hd. rewrite Hd, Hc. simpl.
  destruct (compute_full_unitary eps e D); reflexivity.
Qed.

Lemma C09_lemma : forall eps n u qs,
  (eps <= 1)%R -> built eps u -> eps_clean eps (u_dim u) (u_mat u) ->
  placement n qs -> (2 ^ List.length qs)%nat = u_dim u ->
  exists f,
    full_of eps u qs n f /\ u_dim f = (2 ^ n)%nat /\
    meq (2 ^ n) (u_mat f) (embed n qs (u_mat u)) /\
    u_name f = u_name u /\ u_params f = u_params u /\ u_apply f = qs.
Proof.
  intros eps n u qs He Hb Hc Hp Hd.
  destruct (mk_entry_nat u n qs Hp Hd) as (e & Ee & Fe).
  destruct (compute_full_unitary_ok eps n e) as (f & E & E1 & E2 & E3 & E4 & E5 & E6);
    subst e; cbn [e_unitary e_apply e_dim] in *; auto.
  - eapply built_wf; eauto.
  - exists f. split; [|auto]. eexists. split; [exact Ee|].
    rewrite get_full_fresh; auto. unfold e_dim; simpl. rewrite <- Hd.
    apply Nat.pow_le_mono_r; [lia|]. now apply placement_length.
Qed.

Lemma C09_needs_pow2_lemma : forall eps u qs e D f e',
  mk_entry u qs = Ok e -> get_full_unitary eps D e = (e', Ok f) ->
  exists n, D = (2 ^ n)%nat /\ (u_dim u <= D)%nat /\ forall q, In q qs -> (q < Z.of_nat n)%Z.
Proof.
  intros eps u qs e D f e' Ee E.
  assert (HP := proj1 (mk_entry_iff u qs) (ex_intro _ e Ee)).
  apply mk_entry_fields in Ee. destruct Ee as (E1 & E2 & E3).
  unfold get_full_unitary, assert in E. rewrite E3 in E.
  destruct (Nat.leb_spec (e_dim e) D) as [L|]; [|discriminate]. cbn [cache_get] in E.
  unfold compute_full_unitary in E.
  destruct (u_identity _ _); cbn [bind] in E; [|discriminate].
  destruct (u_tensor _ _ _); cbn [bind] in E; [|discriminate].
  unfold assert in E. destruct (Nat.eqb _ _); cbn [bind] in E; [|discriminate].
  destruct (get_permute_matrix e D) eqn:G; cbn [bind] in E; [|discriminate].
  apply get_permute_matrix_pow2 in G. destruct G as (n & -> & Hq). exists n. split; auto.
  split; [rewrite <- E1; exact L|]. intros q Hin.
  assert (Z.to_nat q < n)%nat by (apply Hq; rewrite E2; now apply in_map).
  destruct HP as (_ & _ & HP & _). specialize (HP q Hin). lia.
Qed.

Lemma C10_lemma : forall u n qs e,
  placement n qs -> mk_entry u (map Z.of_nat qs) = Ok e ->
  exists P, get_permute_matrix e (2 ^ n) = Ok P /\
    (forall i, (i < 2 ^ n)%nat -> exists k, (k < 2 ^ n)%nat /\ P i k = 1 /\
       forall j, (j < 2 ^ n)%nat -> j <> k -> P i j = 0) /\
    (forall j, (j < 2 ^ n)%nat -> exists k, (k < 2 ^ n)%nat /\ P k j = 1 /\
       forall i, (i < 2 ^ n)%nat -> i <> k -> P i j = 0) /\
    meq (2 ^ n) (mmul (2 ^ n) P (transpose P)) mid /\
    meq (2 ^ n) (mmul (2 ^ n) (transpose P) P) mid.
Proof.
  intros u n qs e Hp Ee.
  assert (HP := proj1 (mk_entry_iff u _) (ex_intro _ e Ee)).
  rewrite map_length in HP.
  apply mk_entry_fields in Ee. rewrite to_of_nat in Ee. destruct Ee as (E1 & E2 & E3).
  exists (sel_mx (pind n qs)).
  assert (HO : meq (2 ^ n) (mmul (2 ^ n) (sel_mx (pind n qs)) (transpose (sel_mx (pind n qs)))) mid).
  { apply sel_mx_orth; intros; [now apply pind_lt|eapply pind_inj; eauto]. }
  assert (HA : meq (2 ^ n) (transpose (sel_mx (pind n qs))) (adj (sel_mx (pind n qs)))).
  { intros i j _ _. unfold transpose, adj, sel_mx. destruct (Nat.eqb _ _); symmetry; apply Cconj_R. }
  assert (HU : unitary_mx (2 ^ n) (sel_mx (pind n qs))).
  { unfold unitary_mx. now rewrite <- HA. }
  assert (HO' : meq (2 ^ n) (mmul (2 ^ n) (transpose (sel_mx (pind n qs))) (sel_mx (pind n qs))) mid).
  { rewrite HA. now apply unitary_left. }
  split; [|split; [|split; [|split]]]; auto.
  - rewrite <- E2 in Hp |- *. apply get_permute_matrix_ok; auto.
    unfold e_dim. rewrite E1, E2. tauto.
  - intros i Hi. exists (pind n qs i). split; [now apply pind_lt|]. unfold sel_mx.
    rewrite Nat.eqb_refl. split; auto. intros j Hj Hne.
    destruct (Nat.eqb_spec (pind n qs i) j); congruence.
  - intros j Hj.
    (* surjectivity from the left inverse *)
    assert (K := HO' j j Hj Hj). unfold mid in K. rewrite Nat.eqb_refl in K.
    destruct (existsb (fun k => Nat.eqb (pind n qs k) j) (seq 0 (2 ^ n))) eqn:Ex.
    + apply existsb_exists in Ex. destruct Ex as (k & Hk & Ek). apply in_seq in Hk.
      apply Nat.eqb_eq in Ek. exists k. split; [lia|]. unfold sel_mx. rewrite Ek, Nat.eqb_refl.
      split; auto. intros i Hi Hne. destruct (Nat.eqb_spec (pind n qs i) j) as [E|]; auto.
      exfalso. apply Hne. eapply pind_inj; eauto; [lia|congruence].
    + exfalso. unfold mmul in K. rewrite csum_zero in K.
      * apply (f_equal fst) in K. simpl in K. lra.
      * intros k Hk. unfold transpose, sel_mx.
        destruct (Nat.eqb (pind n qs k) j) eqn:E; [|ring].
        apply not_true_iff_false in Ex. exfalso. apply Ex. apply existsb_exists. exists k.
        split; auto. apply in_seq. lia.
Qed.

Lemma full_of_det eps u qs n f g : full_of eps u qs n f -> full_of eps u qs n g -> f = g.
Proof. intros (e & E1 & E2) (e' & E1' & E2'). congruence. Qed.

Lemma C11_product_lemma : forall n u v qs,
  built 0 u -> built 0 v -> u_dim v = u_dim u -> placement n qs ->
  (2 ^ List.length qs)%nat = u_dim u ->
  exists w f g h,
    u_left_multiply 0 u v = Ok w /\
    full_of 0 u qs n f /\ full_of 0 v qs n g /\ full_of 0 w qs n h /\
    u_dim f = (2 ^ n)%nat /\ u_dim g = (2 ^ n)%nat /\ u_dim h = (2 ^ n)%nat /\
    meq (2 ^ n) (u_mat h) (mmul (2 ^ n) (u_mat g) (u_mat f)).
Proof.
  intros n u v qs Hu Hv Huv Hp Hd.
  assert (wu := built_wf _ _ Hu). assert (wv := built_wf _ _ Hv).
  assert (H01 : (0 <= 1)%R) by lra.
  destruct (u_left_multiply_ok 0 u v wu wv (eq_sym Huv) (eps_clean_0 _ _))
    as (w & Ew & Dw & _ & _ & _ & _ & Mw).
  destruct (C09_lemma 0 n u qs H01 Hu (eps_clean_0 _ _) Hp Hd) as (f & F1 & F2 & F3 & _).
  destruct (C09_lemma 0 n v qs H01 Hv (eps_clean_0 _ _) Hp) as (g & G1 & G2 & G3 & _);
    [congruence|].
  assert (Hw : built 0 w).
  { unfold u_left_multiply, assert in Ew. rewrite Huv, Nat.eqb_refl in Ew. cbn [bind] in Ew.
    eexists _, _, _, _, _, _. split; [|split; [apply eps_clean_0|exact Ew]].
    apply unitary_mmul; [rewrite <- Huv; apply wv|apply wu]. }
  destruct (C09_lemma 0 n w qs H01 Hw (eps_clean_0 _ _) Hp) as (h & I1 & I2 & I3 & _);
    [congruence|].
  exists w, f, g, h. repeat (split; [solve [auto]|]).
  rewrite F3, G3, I3. rewrite embed_mmul by auto. apply embed_proper. rewrite Hd. auto.
Qed.

Lemma C11_inverse_lemma : forall eps n u qs,
  (eps <= 1)%R -> built eps u -> eps_clean eps (u_dim u) (u_mat u) ->
  placement n qs -> (2 ^ List.length qs)%nat = u_dim u ->
  exists v f g,
    u_inverse eps u = Ok v /\ full_of eps u qs n f /\ full_of eps v qs n g /\
    u_dim f = (2 ^ n)%nat /\ u_dim g = (2 ^ n)%nat /\
    meq (2 ^ n) (u_mat g) (adj (u_mat f)) /\
    meq (2 ^ n) (mmul (2 ^ n) (u_mat g) (u_mat f)) mid.
Proof.
  intros eps n u qs He Hu Hc Hp Hd. assert (wu := built_wf _ _ Hu).
  destruct (u_inverse_ok eps u wu Hc) as (v & Ev & Dv & _ & _ & _ & _ & Mv).
  assert (cv : eps_clean eps (u_dim v) (u_mat v)).
  { rewrite Dv, Mv. now apply eps_clean_adj. }
  assert (Hv : built eps v).
  { unfold u_inverse in Ev. eexists _, _, _, _, _, _. split; [|split; [|exact Ev]].
    - apply unitary_adj. apply wu.
    - now apply eps_clean_adj. }
  destruct (C09_lemma eps n u qs He Hu Hc Hp Hd) as (f & F1 & F2 & F3 & _).
  destruct (C09_lemma eps n v qs He Hv cv Hp) as (g & G1 & G2 & G3 & _); [congruence|].
  exists v, f, g. repeat (split; [solve [auto]|]).
  assert (A : meq (2 ^ n) (u_mat g) (adj (u_mat f))).
  { rewrite F3, G3, embed_adj by auto. apply embed_proper. now rewrite Hd. }
  split; auto. rewrite A. apply unitary_left. rewrite F3. apply embed_unitary; auto.
  rewrite Hd. apply wu.
Qed.

Lemma C11_commute_lemma : forall eps n u v qs rs,
  (eps <= 1)%R -> built eps u -> eps_clean eps (u_dim u) (u_mat u) ->
  built eps v -> eps_clean eps (u_dim v) (u_mat v) ->
  placement n qs -> (2 ^ List.length qs)%nat = u_dim u ->
  placement n rs -> (2 ^ List.length rs)%nat = u_dim v ->
  (forall q, In q qs -> ~ In q rs) ->
  exists f g,
    full_of eps u qs n f /\ full_of eps v rs n g /\
    u_dim f = (2 ^ n)%nat /\ u_dim g = (2 ^ n)%nat /\
    meq (2 ^ n) (mmul (2 ^ n) (u_mat f) (u_mat g)) (mmul (2 ^ n) (u_mat g) (u_mat f)) /\
    meq (2 ^ n) (mmul (2 ^ n) (u_mat f) (u_mat g))
                (embed n (qs ++ rs) (kron (u_dim v) (u_mat u) (u_mat v))).
Proof.
  intros eps n u v qs rs He Hu Hcu Hv Hcv Hp Hd Hp' Hd' HD.
  destruct (C09_lemma eps n u qs He Hu Hcu Hp Hd) as (f & F1 & F2 & F3 & _).
  destruct (C09_lemma eps n v rs He Hv Hcv Hp' Hd') as (g & G1 & G2 & G3 & _).
  exists f, g. repeat (split; [solve [auto]|]).
  destruct (embed_commute n qs rs (u_mat u) (u_mat v) Hp Hp' HD) as [E1 E2].
  rewrite F3, G3. split; auto. rewrite <- Hd'. exact E2.
Qed.

(** * The cache *)
Definition cache_ok (eps : R) (e : entry) : Prop :=
  forall d u, cache_get (e_cache e) d = Some u ->
    (e_dim e <= d)%nat /\ compute_full_unitary eps e d = Ok u.

Definition fresh (e : entry) : entry :=
  {| e_unitary := e_unitary e; e_apply := e_apply e; e_cache := [] |}.

Lemma compute_fresh eps e e' d :
  e_unitary e = e_unitary e' -> e_apply e = e_apply e' ->
  compute_full_unitary eps e d = compute_full_unitary eps e' d.
Proof.
  intros H1 H2. unfold compute_full_unitary, get_permute_matrix, e_dim. rewrite H1, H2. reflexivity.
Qed.

Lemma get_full_unitary_cache eps d e :
  cache_ok eps e ->
  snd (get_full_unitary eps d e) = snd (get_full_unitary eps d (fresh e)) /\
  e_unitary (fst (get_full_unitary eps d e)) = e_unitary e /\
  e_apply (fst (get_full_unitary eps d e)) = e_apply e /\
  cache_ok eps (fst (get_full_unitary eps d e)).
Proof.
  intros Hc. unfold get_full_unitary. change (e_dim (fresh e)) with (e_dim e).
  rewrite (compute_fresh eps (fresh e) e d) by reflexivity.
  unfold assert. destruct (Nat.leb_spec (e_dim e) d) as [L|L]; simpl; auto.
  destruct (cache_get (e_cache e) d) as [u|] eqn:E; simpl.
  - destruct (Hc d u E) as [_ K]. rewrite K. auto.
  - destruct (compute_full_unitary eps e d) as [u|x] eqn:K; simpl; auto.
    repeat split; auto.
    + cbn [e_cache cache_get] in H. change (e_dim e <= d0)%nat. destruct (Nat.eqb_spec d d0) as [->|].
      * auto.
      * now apply (Hc d0 u0).
    + cbn [e_cache cache_get] in H. erewrite compute_fresh with (e' := e) by reflexivity.
      destruct (Nat.eqb_spec d d0) as [->|]; [congruence|]. now apply Hc.
Qed.

Lemma C12_lemma : forall eps u qs e ds,
  mk_entry u qs = Ok e ->
  full_answers eps ds e = map (fun d => snd (get_full_unitary eps d e)) ds.
Proof.
  intros eps u qs e ds Ee. apply mk_entry_fields in Ee. destruct Ee as (_ & _ & Hc).
  assert (Ef : fresh e = e) by (destruct e; simpl in *; now subst).
  assert (G : forall ds e', cache_ok eps e' -> fresh e' = e ->
    full_answers eps ds e' = map (fun d => snd (get_full_unitary eps d e)) ds).
  { clear ds. induction ds as [|d ds IH]; intros e' Hok Hf; simpl; auto.
    destruct (get_full_unitary_cache eps d e' Hok) as (H1 & H2 & H3 & H4).
    destruct (get_full_unitary eps d e') as [e'' r]. simpl in *. rewrite Hf in H1. f_equal; auto.
    apply IH; auto. rewrite <- Hf. unfold fresh. now rewrite H2, H3. }
  apply G; auto. intros d v. rewrite Hc. discriminate.
Qed.

Lemma C13_lemma : forall u qs,
  ((exists e, mk_entry u qs = Ok e) <->
   qs <> [] /\ NoDup qs /\ (forall q, In q qs -> (0 <= q)%Z) /\
   (2 ^ List.length qs)%nat = u_dim u) /\
  (forall e, mk_entry u qs = Ok e ->
     e_unitary e = u /\ map Z.of_nat (e_apply e) = qs /\ e_dim e = u_dim u) /\
  (forall x, mk_entry u qs = Raise x -> (x = AssertionError \/ x = ValueError) /\
     (x = ValueError <-> qs = [] /\ u_dim u = 1%nat)).
Proof.
  intros u qs. split; [apply mk_entry_iff|split].
  - intros e He. assert (HP := proj1 (mk_entry_iff u qs) (ex_intro _ e He)).
    apply mk_entry_fields in He. destruct He as (H1 & H2 & _). split; auto. split.
    + rewrite H2, map_map. rewrite <- map_id. apply map_ext_in. intros q Hq.
      apply Z2Nat.id. now apply HP.
    + unfold e_dim. now rewrite H1.
  - intros x Hx. apply mk_entry_raises in Hx. subst x. destruct qs as [|q t]; simpl.
    + destruct (Nat.eqb_spec (u_dim u) 1).
      * tauto.
      * split; [tauto|]. split; [discriminate|tauto].
    + split; [tauto|]. split; [discriminate|]. intros [? ?]; discriminate.
Qed.

Lemma C53_constructor_lemma : forall u allowed,
  ((exists p, mk_primitive u allowed = Ok p) <->
   (forall ls, allowed = Some ls -> forall qs, In qs ls ->
     qs <> [] /\ NoDup qs /\ (forall q, In q qs -> (0 <= q)%Z) /\
     (2 ^ List.length qs)%nat = src_dim u)) /\
  (forall p, mk_primitive u allowed = Ok p ->
     p_source p = u /\ option_map (map (map Z.of_nat)) (p_allowed p) = allowed).
Proof.
  intros u allowed. split; [apply mk_primitive_iff|]. intros p Hp.
  assert (HP := proj1 (mk_primitive_iff u allowed) (ex_intro _ p Hp)).
  unfold mk_primitive in Hp. destruct allowed as [ls|].
  - destruct (assert (forallb nodupb_Z ls)); cbn [bind] in Hp; [|discriminate].
    destruct (assert _); cbn [bind] in Hp; [|discriminate].
    destruct (existsb _ ls); [discriminate|].
    destruct (assert _); cbn [bind] in Hp; [|discriminate].
    injection Hp as <-. simpl. split; auto. f_equal. rewrite map_map.
    rewrite <- map_id. apply map_ext_in. intros l Hl. rewrite map_map.
    rewrite <- map_id. apply map_ext_in. intros q Hq. apply Z2Nat.id.
    destruct (HP ls eq_refl l Hl) as (_ & _ & H & _). auto.
  - injection Hp as <-. auto.
Qed.

(** * Concrete cases *)
Lemma placement_two : placement 3 [2; 0]%nat.
Proof.
  split; [|split].
  - repeat constructor; simpl; intuition lia.
  - discriminate.
  - simpl. intros q. lia.
Qed.

Lemma ex_two_qubit : exists u, built eps_code u /\ u_dim u = 4%nat /\
  meq 4 (u_mat u) (kron 2 rot345 rot345) /\ eps_clean eps_code 4 (u_mat u).
Proof.
  assert (S := eps_code_small).
  assert (HS : special 4 (kron 2 rot345 rot345)).
  { change 4%nat with (2 * 2)%nat. apply special_kron; auto; apply rot345_special. }
  assert (HC : eps_clean eps_code 4 (kron 2 rot345 rot345)).
  { change 4%nat with (2 * 2)%nat. apply (eps_clean_products eps_code 2); [lra|reflexivity|reflexivity]. }
  destruct (mk_special eps_code 4 _ (Some "RR"%string) [] false [] ltac:(lia) HS HC)
    as (u & E & E1 & _ & _ & _ & _ & E2).
  exists u. split; [|split; [auto|split; [auto|now rewrite E2]]].
  eexists _, _, _, _, _, _. split; [|split; [|exact E]]; auto. apply HS.
Qed.

Lemma ex_C09_lemma :
  (exists u, built eps_code u /\ eps_clean eps_code (u_dim u) (u_mat u) /\
     placement 3 [2; 0]%nat /\ (2 ^ List.length [2; 0]%nat)%nat = u_dim u) /\
  (forall U, embed 3 [2; 0]%nat U 1%nat 4%nat = U 2%nat 1%nat) /\
  (forall U, embed 3 [2; 0]%nat U 1%nat 6%nat = 0).
Proof.
  split; [|split; intros U; reflexivity].
  destruct ex_two_qubit as (u & B & D & M & K). exists u. rewrite D.
  split; auto. split; auto. split; [apply placement_two|reflexivity].
Qed.

Lemma ex_C10_lemma :
  exists u e, placement 3 [2; 0]%nat /\ mk_entry u (map Z.of_nat [2; 0]%nat) = Ok e.
Proof.
  destruct ex_two_qubit as (u & B & D & M & K). exists u.
  destruct (mk_entry_nat u 3 [2; 0]%nat placement_two) as (e & E & _); [now rewrite D|].
  exists e. split; auto. apply placement_two.
Qed.

Lemma ex_C11_lemma :
  exists u v, built 0 u /\ built 0 v /\ u_dim v = u_dim u /\ placement 2 [1]%nat /\
    (2 ^ List.length [1]%nat)%nat = u_dim u /\
    ~ meq 2 (mmul 2 (u_mat u) (u_mat v)) (u_mat u).
Proof.
  destruct ex_built0_lemma as (u & B & D & M). exists u, u. rewrite D.
  repeat (split; [solve [auto]|]). split; [|split; [reflexivity|]].
  - split; [repeat constructor; simpl; tauto|]. split; [discriminate|]. simpl. intros; lia.
  - rewrite M. intros H. specialize (H 0%nat 0%nat ltac:(lia) ltac:(lia)).
    apply (f_equal fst) in H. simpl in H. lra.
Qed.

Lemma ex_C11_commute_lemma :
  exists u, built eps_code u /\ eps_clean eps_code (u_dim u) (u_mat u) /\
    placement 3 [1]%nat /\ (2 ^ List.length [1]%nat)%nat = u_dim u /\
    placement 3 [2]%nat /\ (forall q, In q [1]%nat -> ~ In q [2]%nat).
Proof.
  destruct ex_object_lemma as (u & B & D & M & K). exists u. rewrite D.
  repeat (split; [solve [auto]|]).
  split; [|split; [reflexivity|split]].
  - split; [repeat constructor; simpl; tauto|]. split; [discriminate|]. simpl. intros; lia.
  - split; [repeat constructor; simpl; tauto|]. split; [discriminate|]. simpl. intros; lia.
  - simpl. intros; lia.
Qed.

Lemma ex_C12_lemma :
  exists u e f g, mk_entry u [0%Z] = Ok e /\
    snd (get_full_unitary eps_code 2 e) = Ok f /\ snd (get_full_unitary eps_code 4 e) = Ok g /\
    u_dim f = 2%nat /\ u_dim g = 4%nat /\
    snd (get_full_unitary eps_code 6 e) = Raise ValueError.
Proof.
  assert (S := eps_code_small).
  destruct ex_object_lemma as (u & B & D & M & K).
  assert (P : forall n, (0 < n)%nat -> placement n [0]%nat).
  { intros n Hn. split; [repeat constructor; simpl; tauto|]. split; [discriminate|].
    simpl. intros; lia. }
  destruct (C09_lemma eps_code 1 u [0]%nat ltac:(lra) B ltac:(now rewrite D) (P 1%nat ltac:(lia)) ltac:(now rewrite D))
    as (f & (e & E1 & E2) & F & _).
  destruct (C09_lemma eps_code 2 u [0]%nat ltac:(lra) B ltac:(now rewrite D) (P 2%nat ltac:(lia)) ltac:(now rewrite D))
    as (g & (e' & E1' & E2') & G & _).
  assert (e' = e) by congruence. subst e'.
  exists u, e, f, g. split; auto. split; auto. split; auto. split; auto. split; auto.
  apply mk_entry_fields in E1. destruct E1 as (U1 & U2 & U3). simpl in U2.
  rewrite get_full_fresh; auto.
  2:{ unfold e_dim. rewrite U1, D. lia. }
  unfold compute_full_unitary. unfold e_dim at 1. rewrite U1, D.
  change (6 / 2)%nat with 3%nat.
  destruct (expanded_ok eps_code 2 3 u) as (i & p & I1 & I2 & I3 & _);
    auto; try lia; try lra.
  { eapply built_wf; eauto. }
  { now rewrite D. }
  rewrite I1. cbn [bind]. rewrite I2. cbn [bind]. rewrite I3.
  change (Nat.eqb (2 * 3) 6) with true. unfold assert at 1. cbn [bind].
  unfold get_permute_matrix, e_dim. rewrite U1, U2, D. reflexivity.
Qed.

Lemma ex_C13_lemma :
  exists u e, u_dim u = 4%nat /\ mk_entry u [2; 0]%Z = Ok e /\
    mk_entry u [2; 2]%Z = Raise AssertionError /\ mk_entry u [-1; 0]%Z = Raise AssertionError.
Proof.
  destruct ex_two_qubit as (u & B & D & M & K). exists u.
  destruct (mk_entry_nat u 3 [2; 0]%nat placement_two) as (e & E & _); [now rewrite D|].
  exists e. split; auto. split; auto. unfold mk_entry. rewrite D. split; reflexivity.
Qed.

Lemma ex_C53_lemma :
  exists u, u_dim u = 2%nat /\
    (exists p, mk_primitive (Fixed u) (Some [[0%Z]; [7%Z]]) = Ok p) /\
    mk_primitive (Fixed u) (Some [[0%Z]; [-1]%Z]) = Raise AssertionError.
Proof.
  destruct ex_object_lemma as (u & B & D & M & K). exists u. split; auto.
  unfold mk_primitive. cbn [forallb List.length src_dim]. rewrite D. split; [eexists|]; reflexivity.
Qed.
