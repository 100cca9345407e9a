(** Sequences on renumbered qubits: C115. *)
From Coq Require Import Reals List Arith Lia Lra Bool String Setoid Morphisms FinFun.
From Coquelicot Require Import Complex.
From Verif Require Import Base CMat CMatFacts Det DetFacts Norms CRoot ModelUnitary ModelEntry ModelPrimitive ModelSequence
  ModelCompiler ModelRound Spec SpecModel SpecCompiler SpecAgree SpecRepro SpecTurn SpecRelabel PBits PUnitary PEmbed PEntry PAgree PRepro PTurn.
Import ListNotations.
Open Scope R_scope.
Open Scope C_scope.

(** * Matrices with renumbered rows and columns *)
Section Idx.
Variable eps : R.
Variable N : nat.
Variable f : nat -> nat.
Hypothesis Hf : forall i, (i < N)%nat -> (f i < N)%nat.
Hypothesis Hi : forall i j, (i < N)%nat -> (j < N)%nat -> f i = f j -> i = j.

Lemma f_onto j : (j < N)%nat -> exists i, (i < N)%nat /\ f i = j.
Proof.
  intros H. assert (S : bSurjective N f).
  { apply bInjective_bSurjective; [exact Hf|]. intros x y Hx Hy. now apply Hi. }
  exact (S j H).
Qed.

Definition rel (A B : mat) : Prop := meq N (fun i j => B (f i) (f j)) A.
Definition urel (u v : unitary) : Prop := u_dim u = N /\ u_dim v = N /\ rel (u_mat u) (u_mat v).

Lemma rel_mmul A A' B B' : rel A A' -> rel B B' -> rel (mmul N A B) (mmul N A' B').
Proof.
  intros HA HB. unfold rel. rewrite <- (mmul_reindex N f A' B' Hf Hi). unfold rel in HA, HB. rewrite HA, HB. reflexivity.
Qed.
Lemma rel_adj A B : rel A B -> rel (adj A) (adj B).
Proof. intros H i j Hi' Hj. unfold adj. now rewrite <- (H j i Hj Hi'). Qed.
Lemma rel_mid : rel mid mid.
Proof.
  intros i j Hi' Hj. unfold mid. destruct (Nat.eqb_spec i j) as [->|Ne]; [now rewrite Nat.eqb_refl|].
  destruct (Nat.eqb_spec (f i) (f j)); [|reflexivity]. exfalso. auto.
Qed.
Lemma rel_clean A B : rel A B -> rel (clean eps A) (clean eps B).
Proof. intros H i j Hi' Hj. unfold clean. now rewrite <- (H i j Hi' Hj). Qed.
Lemma rel_allclose A B C D : rel A C -> rel B D -> allclose N A B = allclose N C D.
Proof.
  intros H K. apply eq_true_iff_eq. rewrite !allclose_spec. split; intros X i j Hi' Hj.
  - destruct (f_onto i Hi') as (i0 & I0 & <-). destruct (f_onto j Hj) as (j0 & J0 & <-).
    specialize (X i0 j0 I0 J0). rewrite <- (H i0 j0 I0 J0), <- (K i0 j0 I0 J0) in X. exact X.
  - rewrite <- (H i j Hi' Hj), <- (K i j Hi' Hj). apply X; auto.
Qed.
Lemma rel_det A B : rel A B -> det N B = det N A.
Proof. intros H. rewrite <- (det_reindex N f B Hf Hi). now apply (@det_ext N). Qed.
Lemma rel_trace A B : rel A B -> mtrace N B = mtrace N A.
Proof.
  intros H. unfold mtrace. rewrite <- (csum_reindex N f (fun i => B i i) Hf Hi). apply csum_ext. intros i Hi'. apply (H i i Hi' Hi').
Qed.

Lemma mk_moved A B nm1 ps1 iv1 ap1 nm2 ps2 iv2 ap2 : rel A B ->
  same_res urel (mk_unitary eps N (Some (square N A)) nm1 ps1 iv1 ap1) (mk_unitary eps N (Some (square N B)) nm2 ps2 iv2 ap2).
Proof.
  intros E0. assert (E := rel_clean A B E0). unfold same_res, mk_unitary, bind. destruct (Nat.ltb 0 N); [|exact eq_refl]. cbn [assert].
  cbn [nrows ncols elt square]. rewrite Nat.eqb_refl. cbn [andb assert].
  rewrite <- (rel_allclose _ _ _ _ (rel_mmul _ _ _ _ E (rel_adj _ _ E)) rel_mid).
  destruct (allclose N (mmul N (clean eps A) (adj (clean eps A))) mid); [|exact eq_refl]. cbn [assert].
  rewrite (rel_det _ _ E). destruct (Ceq_dec (det N (clean eps A)) 0); [exact eq_refl|].
  split; [reflexivity|]. split; [reflexivity|]. cbn [u_mat]. intros i j Hi' Hj. unfold mscale. now rewrite <- (E i j Hi' Hj).
Qed.

Notation ex := exact_arith.
Lemma inverse_moved u v : urel u v -> same_res urel (r_inverse ex eps u) (r_inverse ex eps v).
Proof.
  intros (D1 & D2 & R). unfold r_inverse. rewrite !r_unitary_exact, D1, D2. apply mk_moved. now apply rel_adj.
Qed.
Lemma left_moved u v a b : urel u v -> urel a b -> same_res urel (r_left_multiply ex eps u a) (r_left_multiply ex eps v b).
Proof.
  intros (D1 & D2 & R) (F1 & F2 & S). unfold r_left_multiply. rewrite D1, D2, F1, F2, Nat.eqb_refl. cbn [assert bind].
  rewrite !r_unitary_exact. apply mk_moved. now apply rel_mmul.
Qed.
Lemma right_moved u v a b : urel u v -> urel a b -> same_res urel (r_right_multiply ex eps u a) (r_right_multiply ex eps v b).
Proof.
  intros (D1 & D2 & R) (F1 & F2 & S). unfold r_right_multiply. rewrite D1, D2, F1, F2, Nat.eqb_refl. cbn [assert bind].
  rewrite !r_unitary_exact. apply mk_moved. now apply rel_mmul.
Qed.
Lemma distance_moved t1 t2 u v : urel t1 t2 -> urel u v -> u_distance_from eps t1 u = u_distance_from eps t2 v.
Proof.
  intros (D1 & D2 & R) (F1 & F2 & S). unfold u_distance_from, u_distance_from_array. cbn [nrows ncols elt square].
  rewrite D1, D2, F1, F2, Nat.eqb_refl. cbn [andb assert bind]. unfold u_inverse. rewrite D1, D2.
  assert (X := mk_moved _ _ (Some (u_name t1)) (u_params t1) (negb (u_inv t1)) (u_apply t1)
    (Some (u_name t2)) (u_params t2) (negb (u_inv t2)) (u_apply t2) (rel_adj _ _ R)). unfold same_res in X.
  destruct (mk_unitary eps N (Some (square N (adj (u_mat t1)))) _ _ _ _) as [i1|e1],
    (mk_unitary eps N (Some (square N (adj (u_mat t2)))) _ _ _ _) as [i2|e2]; try contradiction; [|now subst].
  destruct X as (_ & _ & X). cbn [bind]. now rewrite (rel_trace _ _ (rel_mmul _ _ _ _ X S)).
Qed.
Lemma close_moved t1 t2 u v thr : urel t1 t2 -> urel u v -> u_close_to eps u t1 thr = u_close_to eps v t2 thr.
Proof. intros HT HU. unfold u_close_to. now rewrite (distance_moved u v t1 t2 HU HT). Qed.
End Idx.

(** * Renumbered qubits *)
Section Qubits.
Variable n : nat.
Variable f : nat -> nat.
Hypothesis N0 : (0 < n)%nat.
Hypothesis RL : relabelling n f.

Lemma back q : (q < n)%nat -> exists r, (r < n)%nat /\ f r = q.
Proof. apply f_onto; apply RL. Qed.
Definition inv (q : nat) : nat := hd 0%nat (filter (fun r => Nat.eqb (f r) q) (seq 0 n)).
Lemma inv_ok q : (q < n)%nat -> (inv q < n)%nat /\ f (inv q) = q.
Proof.
  intros Hq. destruct (back q Hq) as (r & Hr & E). unfold inv.
  destruct (filter (fun r => Nat.eqb (f r) q) (seq 0 n)) as [|x l] eqn:F.
  - exfalso. assert (I : In r (filter (fun r => Nat.eqb (f r) q) (seq 0 n))).
    { apply filter_In. split; [apply in_seq; lia|]. now apply Nat.eqb_eq. }
    now rewrite F in I.
  - assert (I : In x (filter (fun r => Nat.eqb (f r) q) (seq 0 n))) by (rewrite F; now left).
    apply filter_In in I. destruct I as [I1 I2]. apply in_seq in I1. apply Nat.eqb_eq in I2. cbn [hd]. split; [lia|exact I2].
Qed.
Definition invs : list nat := map inv (seq 0 n).
Lemma invs_nth m : (m < n)%nat -> nth m invs 0%nat = inv m.
Proof.
  intros H. unfold invs. rewrite (nth_indep _ 0%nat (inv 0)) by (now rewrite map_length, seq_length).
  rewrite map_nth, seq_nth by exact H. reflexivity.
Qed.
Lemma invs_placement : placement n invs.
Proof.
  split; [|split].
  - unfold invs. apply (NoDup_map_inv f). rewrite map_map.
    replace (map (fun x => f (inv x)) (seq 0 n)) with (seq 0 n); [apply seq_NoDup|].
    rewrite <- (map_id (seq 0 n)) at 1. apply map_ext_in. intros a Ha. apply in_seq in Ha. symmetry. apply inv_ok. lia.
  - unfold invs. destruct n; [lia|discriminate].
  - intros q Hq. unfold invs in Hq. apply in_map_iff in Hq. destruct Hq as (x & <- & Hx). apply in_seq in Hx. apply inv_ok. lia.
Qed.

(** The new number of a basis state. *)
Definition phi (i : nat) : nat := pind n invs i.
Lemma phi_lt i : (phi i < 2 ^ n)%nat. Proof. apply pind_lt, invs_placement. Qed.
Lemma phi_inj i j : (i < 2 ^ n)%nat -> (j < 2 ^ n)%nat -> phi i = phi j -> i = j.
Proof. apply pind_inj, invs_placement. Qed.
Lemma phi_bit i q : (q < n)%nat -> bit n (phi i) (f q) = bit n i q.
Proof.
  intros Hq. assert (H := proj1 RL q Hq). unfold phi. rewrite pind_named; [|exact invs_placement|unfold invs; now rewrite map_length, seq_length].
  rewrite (invs_nth _ H). f_equal. destruct (inv_ok (f q) H) as [H1 H2]. now apply (proj2 RL).
Qed.
Lemma bits_eq i j : (i < 2 ^ n)%nat -> (j < 2 ^ n)%nat -> (forall q, (q < n)%nat -> bit n i q = bit n j q) -> i = j.
Proof.
  intros Hi Hj H. rewrite <- (val_bits n i Hi), <- (val_bits n j Hj). f_equal. unfold bits. apply map_ext_in. intros q Hq.
  apply in_seq in Hq. apply H. lia.
Qed.
Lemma moved_phi i j : moved n f i j <-> j = phi i.
Proof.
  split.
  - intros [H1 H2]. apply bits_eq; [exact H1|apply phi_lt|]. intros q Hq. destruct (back q Hq) as (r & Hr & <-).
    now rewrite (H2 r Hr), (phi_bit i r Hr).
  - intros ->. split; [apply phi_lt|]. intros q Hq. now apply phi_bit.
Qed.
Lemma relabelled_rel A B : relabelled n f A B <-> rel (2 ^ n) phi A B.
Proof.
  split.
  - intros H i j Hi Hj. apply H; auto; now apply moved_phi.
  - intros H i j i' j' Hi Hj Mi Mj. apply moved_phi in Mi, Mj. subst. exact (H i j Hi Hj).
Qed.
Lemma unitary_urel u v : relabelled_unitary n f u v <-> urel (2 ^ n) phi u v.
Proof. unfold relabelled_unitary, urel. now rewrite relabelled_rel. Qed.

Lemma subindex_phi qs i : (forall q, In q qs -> (q < n)%nat) -> subindex n (map f qs) (phi i) = subindex n qs i.
Proof.
  intros H. rewrite !subindex_val. f_equal. rewrite map_map. apply map_ext_in. intros q Hq. apply phi_bit. auto.
Qed.
Lemma agree_phi qs i j : (forall q, In q qs -> (q < n)%nat) -> agree_off n (map f qs) (phi i) (phi j) = agree_off n qs i j.
Proof.
  intros H. apply eq_true_iff_eq. rewrite !agree_off_spec. split; intros X q Hq Hn.
  - rewrite <- !(phi_bit _ q Hq). apply X; [now apply RL|]. intros K. apply in_map_iff in K. destruct K as (r & E & Hr).
    apply Hn. replace q with r; [exact Hr|]. apply (proj2 RL); auto.
  - destruct (back q Hq) as (r & Hr & <-). rewrite !(phi_bit _ r Hr). apply X; [exact Hr|]. intros K. apply Hn. now apply in_map.
Qed.
Lemma embed_phi qs U : (forall q, In q qs -> (q < n)%nat) -> rel (2 ^ n) phi (embed n qs U) (embed n (map f qs) U).
Proof. intros H i j _ _. unfold embed. now rewrite (agree_phi qs i j H), !(subindex_phi qs _ H). Qed.
Lemma placement_map qs : placement n qs -> placement n (map f qs).
Proof.
  intros (H1 & H2 & H3). split; [|split].
  - clear H2. induction qs as [|q qs IH]; cbn; [constructor|]. inversion H1 as [|? ? Hn Hd]; subst. constructor.
    + intros K. apply in_map_iff in K. destruct K as (r & E & Hr). apply Hn. replace q with r; [exact Hr|].
      apply (proj2 RL); auto; apply H3; cbn; auto.
    + apply IH; [exact Hd|]. intros r Hr. apply H3. now right.
  - destruct qs; [contradiction|discriminate].
  - intros q Hq. apply in_map_iff in Hq. destruct Hq as (r & <- & Hr). apply RL. auto.
Qed.

Variable eps : R.
Notation ex := exact_arith.
Notation ur := (urel (2 ^ n) phi).
(** A gate on existing qubits, and the gate on the renumbered ones. *)
Definition grel (g h : unitary * list nat) : Prop :=
  h = relabel f g /\ placement n (snd g) /\ (2 ^ List.length (snd g))%nat = u_dim (fst g).

(** The expanded gate is a Kronecker product with the identity. *)
Lemma expanded_form u b x T : (0 < b)%nat -> r_identity ex eps b = Ok x -> r_tensor ex eps u x = Ok T ->
  u_dim T = (b * u_dim u)%nat /\ exists A, meq (u_dim u * b) (u_mat T) (kron b A mid).
Proof.
  intros B0 EI ET. unfold r_identity in EI. unfold r_tensor in ET. rewrite r_unitary_exact in EI, ET.
  destruct (mk_unitary_det _ _ _ _ _ _ _ _ EI) as (DX & _).
  assert (FX : exists z : C, meq b (u_mat x) (mscale z mid)).
  { unfold mk_unitary, bind, assert in EI. cbn [nrows ncols elt square] in EI.
    destruct (Nat.ltb 0 b); [|discriminate]. rewrite Nat.eqb_refl in EI. cbn [andb] in EI. destruct (allclose b _ _); [|discriminate].
    destruct (Ceq_dec _ _); [discriminate|]. injection EI as <-. cbn [u_mat].
    exists (croot b (/ det b (clean eps mid)) * clean_C eps 1). intros i j _ _. unfold mscale, clean, mid.
    destruct (Nat.eqb i j); [ring|]. replace (clean_C eps 0) with (RtoC 0); [ring|].
    unfold clean_C, clean_R. cbn [fst snd RtoC]. destruct (Rltb _ _); reflexivity. }
  destruct FX as (z & FX). rewrite DX in ET.
  unfold mk_unitary, bind, assert in ET. cbn [nrows ncols elt square] in ET.
  destruct (Nat.ltb 0 _); [|discriminate]. rewrite (Nat.mul_comm (u_dim u) b), Nat.eqb_refl in ET. cbn [andb] in ET.
  destruct (allclose _ _ _); [|discriminate]. destruct (Ceq_dec _ _); [discriminate|]. injection ET as <-. cbn [u_mat u_dim].
  split; [reflexivity|]. set (k := croot _ _). exists (fun i j => k * clean_C eps (u_mat u i j * z)).
  intros i j Hi Hj. cbn [a_kron exact_arith]. unfold mscale, clean, kron.
  rewrite (FX (i mod b)%nat (j mod b)%nat) by (apply Nat.mod_upper_bound; lia). unfold mscale, mid.
  destruct (Nat.eqb (i mod b) (j mod b)); [now rewrite !Cmult_1_r|].
  rewrite !Cmult_0_r. replace (clean_C eps 0) with (RtoC 0); [ring|].
  unfold clean_C, clean_R. cbn [fst snd RtoC]. destruct (Rltb _ _); reflexivity.
Qed.

Lemma full_moved g h : grel g h -> same_res ur (r_full ex eps g (2 ^ n)) (r_full ex eps h (2 ^ n)).
Proof.
  intros (-> & HP & HD). unfold r_full, relabel. cbn [fst snd]. destruct g as [u qs]. cbn [fst snd] in *.
  destruct (Nat.leb (u_dim u) (2 ^ n)); [|exact eq_refl]. cbn [assert bind].
  assert (Eb : (2 ^ n / u_dim u = 2 ^ (n - List.length qs))%nat).
  { rewrite <- HD, <- (dim_split n qs HP), Nat.mul_comm. apply Nat.div_mul. apply Nat.pow_nonzero. lia. }
  rewrite Eb. set (b := (2 ^ (n - List.length qs))%nat). assert (B0 : (0 < b)%nat) by apply pow2_pos.
  destruct (r_identity ex eps b) as [x|e] eqn:EI; [|exact eq_refl]. cbn [bind].
  destruct (r_tensor ex eps u x) as [T|e] eqn:ET; [|exact eq_refl]. cbn [bind].
  destruct (expanded_form u b x T B0 EI ET) as (DT & A & EA).
  assert (DN : (u_dim u * b = 2 ^ n)%nat) by (unfold b; rewrite <- HD; now apply dim_split).
  rewrite DT, (Nat.mul_comm b), DN, Nat.eqb_refl. cbn [assert bind].
  assert (HP' := placement_map qs HP).
  rewrite !(get_permute_matrix_ok n) by (unfold e_dim; cbn [e_apply e_unitary]; rewrite ?map_length; assumption). cbn [bind e_apply].
  rewrite !r_unitary_exact. rewrite DN in EA. apply mk_moved; [intros; apply phi_lt|apply phi_inj|].
  assert (EF : forall ps, placement n ps -> List.length ps = List.length qs -> meq (2 ^ n)
     (mmul (2 ^ n) (mmul (2 ^ n) (sel_mx (pind n ps)) (u_mat T)) (transpose (sel_mx (pind n ps)))) (embed n ps A)).
  { intros ps HPs L. rewrite sel_mx_conj by (intros; now apply pind_lt). intros i j Hi Hj.
    rewrite EA by (now apply pind_lt). unfold b. rewrite <- L. now apply embed_pind. }
  intros i j Hi Hj. rewrite (EF (map f qs) HP' (map_length _ _) (phi i) (phi j) (phi_lt i) (phi_lt j)), (EF qs HP eq_refl i j Hi Hj).
  apply embed_phi; auto. apply HP.
Qed.

(** * Sequences *)
Definition seq_moved (q r : rseq) : Prop :=
  rs_dim q = (2 ^ n)%nat /\ rs_dim r = (2 ^ n)%nat /\ Forall2 grel (rs_entries q) (rs_entries r) /\
  opt_rel ur (rs_product q) (rs_product r) /\ opt_rel (Forall2 grel) (rs_prev q) (rs_prev r) /\
  opt_rel ur (rs_prev_product q) (rs_prev_product r).
Definition op_moved (o p : rop) : Prop :=
  match o, p with
  | RFirst g s, RFirst h t | RLast g s, RLast h t => grel g h /\ s = t
  | RPopFirst s, RPopFirst t | RPopLast s, RPopLast t => s = t
  | RUndo, RUndo | RProduct, RProduct => True
  | _, _ => False
  end.

Let PL : forall i, (i < 2 ^ n)%nat -> (phi i < 2 ^ n)%nat := fun i _ => phi_lt i.
Lemma save_moved s q r : seq_moved q r -> same_res (fun q' r' => seq_moved q' r' /\ rs_entries q' = rs_entries q /\ rs_entries r' = rs_entries r)
  (r_save ex eps s q) (r_save ex eps s r).
Proof.
  intros H. unfold r_save. destruct s; [|cbn; auto]. destruct H as (D1 & D2 & H1 & H2 & H3 & H4).
  eapply same_bind with (P := opt_rel ur).
  - destruct (rs_product q) as [p|], (rs_product r) as [p'|]; try contradiction.
    + destruct H2 as (T1 & T2 & T3). rewrite !r_unitary_exact, T1, T2.
      eapply same_bind; [apply (mk_moved eps _ _ PL phi_inj _ _ _ _ _ _ _ _ _ _ T3)|]. intros a b X. exact X.
    + exact H4.
  - intros a b X. cbn. unfold seq_moved. cbn [rs_dim rs_entries rs_product rs_prev rs_prev_product]. auto 10.
Qed.
Lemma set_moved q r es fs F G : seq_moved q r -> Forall2 grel es fs ->
  (forall u v, ur u v -> same_res ur (F u) (G v)) -> same_res seq_moved (r_set q es F) (r_set r fs G).
Proof.
  intros (D1 & D2 & H1 & H2 & H3 & H4) HE HF. unfold r_set.
  eapply same_bind with (P := opt_rel ur).
  - destruct (rs_product q) as [p|], (rs_product r) as [p'|]; try contradiction; [|exact I].
    eapply same_bind; [apply (HF _ _ H2)|]. intros a b X. exact X.
  - intros a b X. cbn. unfold seq_moved. cbn [rs_dim rs_entries rs_product rs_prev rs_prev_product]. auto 10.
Qed.
Lemma fold_moved : forall es fs, Forall2 grel es fs -> forall u v, ur u v ->
  same_res ur (r_fold ex eps (2 ^ n) es u) (r_fold ex eps (2 ^ n) fs v).
Proof.
  intros es fs H. induction H as [|g h es fs G _ IH]; intros u v T; cbn [r_fold]; [exact T|].
  eapply same_bind; [apply (full_moved _ _ G)|]. intros a b TA.
  eapply same_bind; [apply (left_moved eps _ _ PL phi_inj _ _ _ _ T TA)|]. intros c d TC. now apply IH.
Qed.
Lemma product_moved q r : seq_moved q r -> same_res ur (r_product ex eps q) (r_product ex eps r).
Proof.
  intros (D1 & D2 & H1 & H2 & H3 & H4). unfold r_product.
  destruct (rs_product q) as [p|], (rs_product r) as [p'|]; try contradiction; [exact H2|].
  rewrite D1, D2, !r_unitary_exact, !mk_unitary_none.
  eapply same_bind; [apply (mk_moved eps _ _ PL phi_inj); apply rel_mid; [exact phi_inj]|]. intros a b T. now apply fold_moved.
Qed.

Lemma valid_moved q r g h : seq_moved q r -> grel g h -> r_valid r h = r_valid q g.
Proof.
  intros (D1 & D2 & _) (-> & HP & _). unfold r_valid, relabel. cbn [fst snd]. rewrite D1, D2.
  assert (K : forall ps, placement n ps -> Nat.leb (2 ^ (list_maxn ps + 1)) (2 ^ n) = true).
  { intros ps (_ & H2 & H3). apply Nat.leb_le, Nat.pow_le_mono_r; [lia|]. assert (X := list_maxn_lt ps n H2 H3). lia. }
  now rewrite (K _ HP), (K _ (placement_map _ HP)).
Qed.

Lemma step_moved q r o p : seq_moved q r -> op_moved o p -> same_res seq_moved (r_step ex eps q o) (r_step ex eps r p).
Proof.
  intros H HO. assert (H' := H). destruct H' as (D1 & D2 & H1 & H2 & H3 & H4).
  destruct o as [g s|g s|s|s| |], p as [h t|h t|t|t| |]; try contradiction; cbn [op_moved] in HO; cbn [r_step].
  - destruct HO as [G <-]. rewrite (valid_moved q r g h H G). destruct (r_valid q g); [|exact eq_refl]. cbn [assert bind]. rewrite D1, D2.
    eapply same_bind; [apply (save_moved s _ _ H)|]. intros q1 r1 (S1 & E1 & E2).
    apply set_moved; auto; [rewrite E1, E2; now constructor|]. intros u v T.
    eapply same_bind; [apply (full_moved _ _ G)|]. intros a b TA. apply (right_moved eps _ _ PL phi_inj); assumption.
  - destruct HO as [G <-]. rewrite (valid_moved q r g h H G). destruct (r_valid q g); [|exact eq_refl]. cbn [assert bind]. rewrite D1, D2.
    eapply same_bind; [apply (save_moved s _ _ H)|]. intros q1 r1 (S1 & E1 & E2).
    apply set_moved; auto; [rewrite E1, E2; apply Forall2_app; auto|]. intros u v T.
    eapply same_bind; [apply (full_moved _ _ G)|]. intros a b TA. apply (left_moved eps _ _ PL phi_inj); assumption.
  - subst t. destruct H1 as [|g h es fs G H1]; [exact H|].
    eapply same_bind; [apply (save_moved s _ _ H)|]. intros q1 r1 (S1 & E1 & E2).
    apply set_moved; auto. intros u v T. rewrite D1, D2.
    eapply same_bind; [apply (full_moved _ _ G)|]. intros a b TA.
    eapply same_bind; [apply (inverse_moved eps _ _ PL phi_inj _ _ TA)|]. intros c d TC. apply (right_moved eps _ _ PL phi_inj); assumption.
  - subst t. apply F2_rev in H1. destruct H1 as [|g h es fs G H1]; [exact H|].
    eapply same_bind; [apply (save_moved s _ _ H)|]. intros q1 r1 (S1 & E1 & E2).
    apply set_moved; auto; [now apply F2_rev|]. intros u v T. rewrite D1, D2.
    eapply same_bind; [apply (full_moved _ _ G)|]. intros a b TA.
    eapply same_bind; [apply (inverse_moved eps _ _ PL phi_inj _ _ TA)|]. intros c d TC. apply (left_moved eps _ _ PL phi_inj); assumption.
  - destruct (rs_prev q) as [es|], (rs_prev r) as [fs|]; try contradiction; [|exact eq_refl].
    cbn. unfold seq_moved. cbn [rs_dim rs_entries rs_product rs_prev rs_prev_product]. repeat (split; auto).
  - eapply same_bind; [apply (product_moved _ _ H)|]. intros a b X. cbn. unfold seq_moved.
    cbn [rs_dim rs_entries rs_product rs_prev rs_prev_product]. auto 10.
Qed.
End Qubits.
