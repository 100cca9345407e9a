(** The Pauli bases of one and two qubits; depolarisation; qubits of a larger system. *)
From Coq Require Import Reals List Arith Lia Lra Bool Psatz Setoid Morphisms.
From Coquelicot Require Import Rcomplements Complex.
From Verif Require Import Base CMat CMatFacts Det DetFacts Norms Spec SpecModel SpecGates SpecChannel
  ModelNoise SpecNoise PUnitary PBits PEmbed PEntry PSeqNear PChannel PGates PNoise.
Import ListNotations.
Open Scope R_scope.
Open Scope C_scope.

Ltac below2 H := match type of H with (?i < _)%nat => destruct i as [|[|i]]; [| |exfalso; simpl in H; lia] end.
Ltac below4 H := match type of H with (?i < _)%nat =>
  destruct i as [|[|[|[|i]]]]; [| | | |exfalso; simpl in H; lia] end.

Lemma pauli_basis : obasis 2 pauli.
Proof.
  constructor.
  - lia.
  - intros i Hi. below4 Hi; cases2; unfold adj, pauli; simpl; apply C_eq; simpl; ring.
  - intros a b c e Ha Hb Hc He. below2 Ha; below2 Hb; below2 Hc; below2 He; simpl; apply C_eq; simpl; ring.
  - intros i j Hi Hj. below4 Hi; below4 Hj; unfold mtrace, mmul; simpl; apply C_eq; simpl; ring.
Qed.

Lemma csum_prod2 n m (f g : nat -> C) : (0 < m)%nat ->
  csum (n * m) (fun k => f (k / m)%nat * g (k mod m)%nat) = csum n f * csum m g.
Proof.
  intros Hm. rewrite csum_prod. rewrite <- csum_mult_r. apply csum_ext. intros i Hi.
  rewrite <- csum_mult_l. apply csum_ext. intros j Hj.
  rewrite Nat.div_add_l, Nat.div_small, Nat.add_0_r by lia.
  rewrite Nat.add_comm, Nat.mod_add, Nat.mod_small by lia. reflexivity.
Qed.

Lemma kron_basis d1 d2 P Q : obasis d1 P -> obasis d2 Q ->
  obasis (d1 * d2) (fun k => kron d2 (P (k / (d2 * d2))%nat) (Q (k mod (d2 * d2))%nat)).
Proof.
  intros H1 H2. assert (p1 := ob_pos _ _ H1). assert (p2 := ob_pos _ _ H2).
  assert (E : (d1 * d2 * (d1 * d2) = d1 * d1 * (d2 * d2))%nat) by ring.
  assert (p3 : (0 < d2 * d2)%nat) by nia.
  assert (LD : forall i, (i < d1 * d2 * (d1 * d2))%nat -> (i / (d2 * d2) < d1 * d1)%nat).
  { intros i Hi. apply Nat.div_lt_upper_bound; nia. }
  assert (LM : forall i, (i mod (d2 * d2) < d2 * d2)%nat) by (intros i; apply Nat.mod_upper_bound; lia).
  assert (KD : forall i, (i < d1 * d2)%nat -> (i / d2 < d1)%nat) by (intros i Hi; apply Nat.div_lt_upper_bound; nia).
  assert (KM : forall i, (i mod d2 < d2)%nat) by (intros i; apply Nat.mod_upper_bound; lia).
  assert (EQ : forall m i j, (0 < m)%nat -> (Nat.eqb i j) = Nat.eqb (i / m) (j / m) && Nat.eqb (i mod m) (j mod m)).
  { intros m i j Hm. destruct (Nat.eqb_spec i j) as [->|N].
    - now rewrite !Nat.eqb_refl.
    - symmetry. apply andb_false_iff. destruct (Nat.eqb_spec (i / m) (j / m)) as [A|]; auto. right.
      apply Nat.eqb_neq. intros B. apply N. rewrite (Nat.div_mod i m), (Nat.div_mod j m) by lia. now rewrite A, B. }
  constructor.
  - nia.
  - intros i Hi. rewrite kron_adj. apply kron_proper; auto; [now apply (ob_herm _ _ H1), LD|now apply (ob_herm _ _ H2)].
  - intros a b c e Ha Hb Hc He. rewrite E. unfold kron.
    transitivity (csum (d1 * d1) (fun k => P k (a / d2)%nat (b / d2)%nat * P k (c / d2)%nat (e / d2)%nat) *
      csum (d2 * d2) (fun k => Q k (a mod d2)%nat (b mod d2)%nat * Q k (c mod d2)%nat (e mod d2)%nat)).
    { rewrite <- csum_prod2 by auto. apply csum_ext. intros j _. cbv beta. ring. }
    rewrite (ob_full _ _ H1), (ob_full _ _ H2) by auto.
    rewrite (EQ d2 a e), (EQ d2 b c), mult_INR, RtoC_mult by auto.
    destruct (Nat.eqb (a / d2) (e / d2)), (Nat.eqb (b / d2) (c / d2)),
      (Nat.eqb (a mod d2) (e mod d2)), (Nat.eqb (b mod d2) (c mod d2)); simpl; ring.
  - intros i j Hi Hj.
    rewrite (mtrace_meq _ _ _ (kron_mmul d1 d2 _ _ _ _ p2)). rewrite mtrace_kron by auto.
    rewrite (ob_orth _ _ H1), (ob_orth _ _ H2) by auto.
    rewrite (EQ (d2 * d2)%nat i j), mult_INR, RtoC_mult by auto.
    destruct (Nat.eqb (i / (d2 * d2)) (j / (d2 * d2))), (Nat.eqb (i mod (d2 * d2)) (j mod (d2 * d2))); simpl; ring.
Qed.

Lemma pauli2_basis : obasis 4 pauli2.
Proof. exact (kron_basis 2 2 pauli pauli pauli_basis pauli_basis). Qed.

(** Signs. *)
Definition psign (i k : nat) : R :=
  if Nat.eqb i 0 || Nat.eqb k 0 || Nat.eqb i k then 1%R else (-1)%R.
Lemma pauli_conj i k : (i < 4)%nat -> (k < 4)%nat ->
  meq 2 (mmul 2 (pauli k) (mmul 2 (pauli i) (pauli k))) (mscale (RtoC (psign i k)) (pauli i)).
Proof.
  intros Hi Hk. below4 Hi; below4 Hk; cases2; unfold mmul, mscale, psign; simpl; apply C_eq; simpl; ring.
Qed.
Lemma pauli2_conj i k : (i < 16)%nat -> (k < 16)%nat ->
  meq 4 (mmul 4 (pauli2 k) (mmul 4 (pauli2 i) (pauli2 k)))
        (mscale (RtoC (psign (i / 4) (k / 4) * psign (i mod 4) (k mod 4))) (pauli2 i)).
Proof.
  intros Hi Hk. unfold pauli2.
  assert (K : forall A B C D, meq 4 (mmul 4 (kron 2 A B) (kron 2 C D)) (kron 2 (mmul 2 A C) (mmul 2 B D))).
  { intros. apply (kron_mmul 2 2). lia. }
  rewrite !K.
  eapply meq_trans.
  - apply (kron_proper 2 2); [lia|apply pauli_conj; apply Nat.div_lt_upper_bound; lia|apply pauli_conj; apply Nat.mod_upper_bound; lia].
  - intros a b _ _. unfold kron, mscale. rewrite RtoC_mult. ring.
Qed.

(** ** Depolarisation *)
Definition pdep (t : R) (k : nat) : R := if Nat.eqb k 0 then ((1 + 3 * t) / 4)%R else ((1 - t) / 4)%R.

Lemma pdep_sign t i : (i < 4)%nat ->
  csum 4 (fun k => RtoC (pdep t k * psign i k)) = if Nat.eqb i 0 then 1 else RtoC t.
Proof. intros Hi. below4 Hi; unfold pdep, psign; simpl; apply C_eq; simpl; field. Qed.

Lemma process_dep t X : meq 2 (of_process 2 pauli (diag1 t) X) (wsum 4 (pdep t) (fun k => turned 2 (pauli k) X)).
Proof.
  apply (process_diagonal 2 pauli pauli_basis (pdep t) psign); [apply pauli_conj|].
  intros i j Hi Hj. unfold diag1. destruct (Nat.eqb i j) eqn:E; auto. now rewrite pdep_sign.
Qed.

Lemma depolarise_mix t X : meq 2 (depolarise t X) (wsum 4 (pdep t) (fun k => turned 2 (pauli k) X)).
Proof.
  cases2; unfold depolarise, wsum, turned, mmul, adj, mtrace, pdep, mid; simpl; apply C_eq; simpl; field.
Qed.

Definition pdep2 (t : R) (k : nat) : R := (pdep t (k / 4) * pdep t (k mod 4))%R.
Lemma process_dep2 t X : meq 4 (of_process 4 pauli2 (kron 4 (diag1 t) (diag1 t)) X)
  (wsum 16 (pdep2 t) (fun k => turned 4 (pauli2 k) X)).
Proof.
  apply (process_diagonal 4 pauli2 pauli2_basis (pdep2 t)
    (fun i k => psign (i / 4) (k / 4) * psign (i mod 4) (k mod 4))%R); [apply pauli2_conj|].
  intros i j Hi Hj. unfold kron, diag1.
  assert (EQ : Nat.eqb i j = Nat.eqb (i / 4) (j / 4) && Nat.eqb (i mod 4) (j mod 4)).
  { destruct (Nat.eqb_spec i j) as [->|N].
    - now rewrite !Nat.eqb_refl.
    - symmetry. apply andb_false_iff. destruct (Nat.eqb_spec (i / 4) (j / 4)) as [A|]; auto. right.
      apply Nat.eqb_neq. intros B. apply N. rewrite (Nat.div_mod i 4), (Nat.div_mod j 4) by lia. now rewrite A, B. }
  rewrite EQ.
  assert (SUM : csum 16 (fun k => RtoC (pdep2 t k * (psign (i / 4) (k / 4) * psign (i mod 4) (k mod 4)))) =
    (if Nat.eqb (i / 4) 0 then 1 else RtoC t) * (if Nat.eqb (i mod 4) 0 then 1 else RtoC t)).
  { rewrite <- (pdep_sign t (i / 4)), <- (pdep_sign t (i mod 4)).
    - rewrite <- (csum_prod2 4 4) by lia. apply csum_ext. intros k _. unfold pdep2. rewrite <- RtoC_mult. f_equal. ring.
    - apply Nat.mod_upper_bound. lia.
    - apply Nat.div_lt_upper_bound; simpl in Hi; lia. }
  simpl (4 * 4)%nat. rewrite SUM.
  destruct (Nat.eqb (i / 4) (j / 4)), (Nat.eqb (i mod 4) (j mod 4)); simpl; ring.
Qed.

(** ** Operations on some of the qubits *)
Lemma turned_entry d U X i j : turned d U X i j =
  csum d (fun k => csum d (fun l => U i k * Cconj (U j l) * X k l)).
Proof.
  unfold turned, mmul, adj. apply csum_ext. intros k _. rewrite <- csum_mult_l. apply csum_ext. intros l _. ring.
Qed.
Lemma turned_unit d U a b i j : (a < d)%nat -> (b < d)%nat ->
  turned d U (unit_mx a b) i j = U i a * Cconj (U j b).
Proof.
  intros Ha Hb. rewrite turned_entry. unfold unit_mx. rewrite (csum_single d a); auto.
  - rewrite (csum_single d b); auto.
    + rewrite !Nat.eqb_refl. simpl. ring.
    + intros l _ N. apply Nat.eqb_neq in N. rewrite N, andb_false_r. ring.
  - intros k _ N. apply csum_zero. intros l _. apply Nat.eqb_neq in N. rewrite N. simpl. ring.
Qed.

Lemma on_qubits_mix n qs F m p V X : 
  (forall Y, meq (2 ^ List.length qs) (F Y) (wsum m p (fun k => turned (2 ^ List.length qs) (V k) Y))) ->
  meq (2 ^ n) (on_qubits n qs F X) (wsum m p (fun k => turned (2 ^ n) (embed n qs (V k)) X)).
Proof.
  intros HF i j Hi Hj. unfold on_qubits, wsum.
  transitivity (csum (2 ^ n) (fun k => csum (2 ^ n) (fun l => csum m (fun x =>
    RtoC (p x) * (embed n qs (V x) i k * Cconj (embed n qs (V x) j l) * X k l))))).
  - apply csum_ext. intros k Hk. apply csum_ext. intros l Hl. unfold embed.
    destruct (agree_off n qs i k); cbn [andb].
    + destruct (agree_off n qs j l).
      * rewrite HF by apply subindex_lt. unfold wsum. rewrite <- csum_mult_r. apply csum_ext. intros x _.
        rewrite turned_unit by apply subindex_lt. ring.
      * symmetry. apply csum_zero. intros x _. rewrite Cconj_R. ring.
    + symmetry. apply csum_zero. intros x _. ring.
  - transitivity (csum (2 ^ n) (fun k => csum m (fun x => csum (2 ^ n) (fun l =>
      RtoC (p x) * (embed n qs (V x) i k * Cconj (embed n qs (V x) j l) * X k l))))).
    + apply csum_ext. intros k _. apply csum_swap.
    + rewrite csum_swap. apply csum_ext. intros x _. rewrite turned_entry, <- csum_mult_l.
      apply csum_ext. intros k _. now rewrite csum_mult_l.
Qed.

Lemma wsum_1 d (Y : nat -> mat) : meq d (wsum 1 (fun _ => 1%R) Y) (Y 0%nat).
Proof. intros i j _ _. unfold wsum. simpl. ring. Qed.

Lemma on_qubits_turned n qs F U X :
  (forall Y, meq (2 ^ List.length qs) (F Y) (turned (2 ^ List.length qs) U Y)) ->
  meq (2 ^ n) (on_qubits n qs F X) (turned (2 ^ n) (embed n qs U) X).
Proof.
  intros HF. eapply meq_trans.
  - apply (on_qubits_mix n qs F 1 (fun _ => 1%R) (fun _ => U)). intros Y.
    eapply meq_trans; [apply HF|]. apply meq_sym, (wsum_1 _ (fun _ => _)).
  - apply (wsum_1 _ (fun _ => _)).
Qed.

Lemma on_qubits_meq n qs F G X Y :
  (forall Z, meq (2 ^ List.length qs) (F Z) (G Z)) -> meq (2 ^ n) X Y ->
  meq (2 ^ n) (on_qubits n qs F X) (on_qubits n qs G Y).
Proof.
  intros HF HX i j Hi Hj. unfold on_qubits. apply csum_ext. intros k Hk. apply csum_ext. intros l Hl.
  destruct (agree_off n qs i k && agree_off n qs j l); auto. rewrite HF by apply subindex_lt. now rewrite HX.
Qed.
