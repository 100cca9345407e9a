(** Unitary matrices and determinants, in the vocabulary of [CMat.v]. *)
From Coq Require Import Reals List Arith Lia Lra Setoid Morphisms.
From Coquelicot Require Import Complex.
From Verif Require Import CMat CMatFacts Det.
Open Scope R_scope.
Open Scope C_scope.

#[export] Instance det_proper n : Proper (meq n ==> eq) (det n).
Proof. intros A B H. now apply det_ext. Qed.

#[export] Instance unitary_mx_proper n : Proper (meq n ==> iff) (unitary_mx n).
Proof. intros A B H. unfold unitary_mx. rewrite H. tauto. Qed.
#[export] Instance hermitian_mx_proper n : Proper (meq n ==> iff) (hermitian_mx n).
Proof. intros A B H. unfold hermitian_mx. rewrite H. tauto. Qed.

Lemma unitary_left n A : unitary_mx n A -> meq n (mmul n (adj A) A) mid.
Proof. apply mmul_one_sided. Qed.

Lemma unitary_right n A : unitary_mx n A -> meq n (mmul n A (adj A)) mid.
Proof. intros H. exact H. Qed.

Lemma unitary_mid n : unitary_mx n mid.
Proof. unfold unitary_mx. rewrite adj_mid. apply mmul_1_l. Qed.

Lemma unitary_adj n A : unitary_mx n A -> unitary_mx n (adj A).
Proof. intros H. unfold unitary_mx. rewrite adj_adj. now apply unitary_left. Qed.

Lemma unitary_mmul n A B :
  unitary_mx n A -> unitary_mx n B -> unitary_mx n (mmul n A B).
Proof.
  unfold unitary_mx. intros HA HB. rewrite adj_mmul.
  rewrite <- mmul_assoc. rewrite (mmul_assoc n B (adj B) (adj A)), HB.
  rewrite mmul_1_l. exact HA.
Qed.

Lemma unitary_mscale n c A :
  Cmod c = 1%R -> unitary_mx n A -> unitary_mx n (mscale c A).
Proof.
  unfold unitary_mx. intros Hc HA.
  rewrite adj_mscale, mmul_mscale_l, mmul_mscale_r, mscale_mscale, HA.
  rewrite Cmod_one_conj by exact Hc. apply mscale_1.
Qed.

Lemma unitary_kron n m A B :
  (0 < m)%nat -> unitary_mx n A -> unitary_mx m B -> unitary_mx (n * m) (kron m A B).
Proof.
  unfold unitary_mx. intros Hm HA HB.
  rewrite kron_adj, kron_mmul by exact Hm.
  rewrite (kron_proper n m _ mid _ mid Hm HA HB). now apply kron_mid.
Qed.

Lemma unitary_det_mod n A : unitary_mx n A -> Cmod (det n A) = 1%R.
Proof.
  unfold unitary_mx. intros H. assert (E : det n A * Cconj (det n A) = 1).
  { rewrite <- det_adj, <- det_mmul, H. apply det_mid. }
  rewrite Cmult_conj in E. apply RtoC_inj in E.
  assert (0 <= Cmod (det n A))%R by apply Cmod_ge_0. nra.
Qed.

Lemma unitary_det_neq0 n A : unitary_mx n A -> det n A <> 0.
Proof. intros H. apply Cmod_one_neq0. now apply unitary_det_mod. Qed.

(** Reindexing rows and columns by the same injective map on [0, n). *)
Definition sel_mx (f : nat -> nat) : mat := fun i j => if Nat.eqb (f i) j then 1 else 0.

Lemma sel_mx_conj n f A :
  (forall i, (i < n)%nat -> (f i < n)%nat) ->
  meq n (mmul n (mmul n (sel_mx f) A) (transpose (sel_mx f)))
        (fun i j => A (f i) (f j)).
Proof.
  intros Hf i j Hi Hj. unfold mmul, transpose, sel_mx.
  rewrite (csum_single n (f j)); auto.
  - rewrite Nat.eqb_refl, Cmult_1_r.
    exact (csum_delta n (f i) (fun k => A k (f j)) (Hf i Hi)).
  - intros k Hk Hn. destruct (Nat.eqb_spec (f j) k); [congruence|]. ring.
Qed.

Lemma sel_mx_orth n f :
  (forall i, (i < n)%nat -> (f i < n)%nat) ->
  (forall i j, (i < n)%nat -> (j < n)%nat -> f i = f j -> i = j) ->
  meq n (mmul n (sel_mx f) (transpose (sel_mx f))) mid.
Proof.
  intros Hf Hinj i j Hi Hj. unfold mmul, transpose, sel_mx, mid.
  rewrite (csum_delta n (f i) (fun k => if Nat.eqb (f j) k then 1 else 0)) by auto.
  destruct (Nat.eqb_spec i j) as [->|Hn].
  - now rewrite Nat.eqb_refl.
  - destruct (Nat.eqb_spec (f j) (f i)) as [E|]; auto.
    exfalso. apply Hn. symmetry. auto.
Qed.

Lemma det_reindex n f A :
  (forall i, (i < n)%nat -> (f i < n)%nat) ->
  (forall i j, (i < n)%nat -> (j < n)%nat -> f i = f j -> i = j) ->
  det n (fun i j => A (f i) (f j)) = det n A.
Proof.
  intros Hf Hinj. rewrite <- (sel_mx_conj n f A Hf). rewrite !det_mmul.
  assert (E : det n (sel_mx f) * det n (transpose (sel_mx f)) = 1).
  { rewrite <- det_mmul, sel_mx_orth by auto. apply det_mid. }
  transitivity (det n A * (det n (sel_mx f) * det n (transpose (sel_mx f)))); [ring|].
  rewrite E. ring.
Qed.

Lemma unitary_reindex n f A :
  (forall i, (i < n)%nat -> (f i < n)%nat) ->
  (forall i j, (i < n)%nat -> (j < n)%nat -> f i = f j -> i = j) ->
  unitary_mx n A -> unitary_mx n (fun i j => A (f i) (f j)).
Proof.
  intros Hf Hinj HA.
  rewrite <- (sel_mx_conj n f A Hf).
  assert (HP : unitary_mx n (sel_mx f)).
  { unfold unitary_mx. rewrite <- (sel_mx_orth n f Hf Hinj).
    apply mmul_proper; [reflexivity|]. intros i j _ _. unfold adj, transpose, sel_mx.
    destruct (Nat.eqb (f j) i); apply Cconj_R. }
  apply unitary_mmul; [now apply unitary_mmul|].
  assert (E : meq n (transpose (sel_mx f)) (adj (sel_mx f))).
  { intros i j _ _. unfold adj, transpose, sel_mx.
    destruct (Nat.eqb (f j) i); symmetry; apply Cconj_R. }
  rewrite E. now apply unitary_adj.
Qed.

(** Determinant of Kronecker products. *)
Lemma cpow_mult_l c d n : cpow (c * d) n = cpow c n * cpow d n.
Proof. induction n as [|n IH]; simpl; [ring|]. rewrite IH. ring. Qed.
Lemma cpow_1 n : cpow 1 n = 1.
Proof. induction n as [|n IH]; simpl; auto. rewrite IH. ring. Qed.
Lemma cpow_add c n m : cpow c (n + m) = cpow c n * cpow c m.
Proof. induction n as [|n IH]; simpl; [ring|]. rewrite IH. ring. Qed.
Lemma Cmod_cpow c n : Cmod (cpow c n) = (Cmod c ^ n)%R.
Proof. induction n as [|n IH]; simpl; [apply Cmod_1|]. now rewrite Cmod_mult, IH. Qed.

Lemma det_kron_id_l n m B :
  (0 < m)%nat -> det (n * m) (kron m mid B) = cpow (det m B) n.
Proof.
  intros Hm. induction n as [|n IH].
  - simpl. transitivity (det 0 mid); [|apply det_mid]. apply det_ext.
    intros i j Hi; lia.
  - simpl Nat.mul. rewrite det_block.
    + simpl cpow. f_equal.
      * apply det_ext. intros i j Hi Hj. unfold kron, mid.
        rewrite !Nat.div_small, !Nat.mod_small by auto. simpl. ring.
      * rewrite <- IH. apply det_ext. intros i j Hi Hj. unfold kron, mid.
        replace (m + i)%nat with (i + 1 * m)%nat by lia.
        replace (m + j)%nat with (j + 1 * m)%nat by lia.
        rewrite !Nat.div_add, !Nat.mod_add by lia.
        f_equal. rewrite !Nat.add_1_r. reflexivity.
    + intros i j Hi Hj. unfold kron, mid.
      rewrite (Nat.div_small i m) by auto.
      replace (m + j)%nat with (j + 1 * m)%nat by lia.
      rewrite Nat.div_add by lia. rewrite Nat.add_1_r. simpl. ring.
Qed.

Lemma det_kron_id_r n m A :
  (0 < m)%nat -> det (n * m) (kron m A mid) = cpow (det n A) m.
Proof.
  intros Hm. destruct n as [|n'].
  { assert (E0 : forall B, det 0 B = 1).
    { intros B. transitivity (det 0 mid); [|apply det_mid]. apply det_ext. intros i j Hi; lia. }
    simpl. rewrite !E0. symmetry. apply cpow_1. }
  remember (S n') as n eqn:En. assert (Hn : (0 < n)%nat) by lia. clear n' En.
  rewrite <- (det_kron_id_l m n A Hn). rewrite Nat.mul_comm.
  rewrite <- (det_reindex (m * n) (fun i => ((i mod m) * n + i / m)%nat) (kron n mid A)).
  - apply det_ext. intros i j Hi Hj. unfold kron.
    assert (Hdi : (i / m < n)%nat) by (apply Nat.div_lt_upper_bound; lia).
    assert (Hdj : (j / m < n)%nat) by (apply Nat.div_lt_upper_bound; lia).
    rewrite !Nat.div_add_l by lia.
    rewrite (Nat.div_small (i / m) n), (Nat.div_small (j / m) n) by auto.
    rewrite !Nat.add_0_r.
    rewrite (Nat.add_comm (i mod m * n)), (Nat.add_comm (j mod m * n)).
    rewrite !Nat.mod_add by lia. rewrite !(Nat.mod_small (_ / m) n) by auto. ring.
  - intros i Hi.
    assert (i / m < n)%nat by (apply Nat.div_lt_upper_bound; lia).
    assert (i mod m < m)%nat by (apply Nat.mod_upper_bound; lia). nia.
  - intros i j Hi Hj E.
    assert (Hdi : (i / m < n)%nat) by (apply Nat.div_lt_upper_bound; lia).
    assert (Hdj : (j / m < n)%nat) by (apply Nat.div_lt_upper_bound; lia).
    assert (E1 : (i mod m = j mod m)%nat).
    { apply (f_equal (fun x => (x / n)%nat)) in E. rewrite !Nat.div_add_l in E by lia.
      rewrite !(Nat.div_small (_ / m) n) in E by auto. lia. }
    assert (E2 : (i / m = j / m)%nat) by nia.
    rewrite (Nat.div_mod i m), (Nat.div_mod j m) by lia. congruence.
Qed.

Lemma det_kron n m A B :
  (0 < m)%nat -> det (n * m) (kron m A B) = cpow (det n A) m * cpow (det m B) n.
Proof.
  intros Hm.
  assert (E : meq (n * m) (kron m A B) (mmul (n * m) (kron m A mid) (kron m mid B))).
  { rewrite kron_mmul by exact Hm. apply kron_proper; auto.
    - symmetry. apply mmul_1_r.
    - symmetry. apply mmul_1_l. }
  rewrite E, det_mmul, det_kron_id_l, det_kron_id_r by exact Hm. reflexivity.
Qed.

Lemma det_1 A : det 1 A = A 0%nat 0%nat.
Proof. rewrite det_expand. simpl. rewrite det_0. ring. Qed.

Lemma det_2 A :
  det 2 A = A 0%nat 0%nat * A 1%nat 1%nat - A 0%nat 1%nat * A 1%nat 0%nat.
Proof. rewrite det_expand. simpl. rewrite !det_1. simpl. ring. Qed.
