(** The noisy emulator: process matrices and what they do. *)
From Coq Require Import Reals List Arith Lia Lra Bool Psatz Setoid Morphisms.
From Coquelicot Require Import Rcomplements Complex.
From Verif Require Import Base CMat CMatFacts Det DetFacts Norms Spec SpecModel SpecGates SpecChannel
  ModelNoise SpecNoise PUnitary PBits PEmbed PEntry PChannel PGates.
Import ListNotations.
Open Scope R_scope.
Open Scope C_scope.

(** ** Operator bases *)
Record obasis (d : nat) (P : nat -> mat) : Prop := {
  ob_pos : (0 < d)%nat;
  ob_herm : forall i, (i < d * d)%nat -> meq d (adj (P i)) (P i);
  ob_full : forall a b c e, (a < d)%nat -> (b < d)%nat -> (c < d)%nat -> (e < d)%nat ->
    csum (d * d) (fun j => P j a b * P j c e) =
    if Nat.eqb a e && Nat.eqb b c then RtoC (INR d) else 0;
  ob_orth : forall i j, (i < d * d)%nat -> (j < d * d)%nat ->
    mtrace d (mmul d (P i) (P j)) = if Nat.eqb i j then RtoC (INR d) else 0 }.

Lemma INR_C d : (0 < d)%nat -> RtoC (INR d) <> 0.
Proof. intros H E. apply RtoC_inj in E. assert (0 < INR d)%R by (apply lt_0_INR; lia). lra. Qed.

Lemma mtrace_meq d A B : meq d A B -> mtrace d A = mtrace d B.
Proof. intros E. apply csum_ext. intros i Hi. now apply E. Qed.

Lemma mtrace_sum d (A B : mat) :
  mtrace d (mmul d A B) = csum d (fun i => csum d (fun k => A i k * B k i)).
Proof. reflexivity. Qed.

(** Linearity of [tr(H . )]. *)
Lemma mtrace_comb d m (H : mat) (c : nat -> C) (Q : nat -> mat) :
  mtrace d (mmul d H (fun a b => csum m (fun j => c j * Q j a b))) =
  csum m (fun j => c j * mtrace d (mmul d H (Q j))).
Proof.
  unfold mtrace, mmul.
  transitivity (csum d (fun i => csum m (fun j => csum d (fun k => c j * (H i k * Q j k i))))).
  - apply csum_ext. intros i _. rewrite csum_swap. apply csum_ext. intros k _.
    rewrite <- csum_mult_l. apply csum_ext. intros j _. ring.
  - rewrite csum_swap. apply csum_ext. intros j _. rewrite <- csum_mult_l.
    apply csum_ext. intros i _. now rewrite csum_mult_l.
Qed.

Section Basis.
Variables (d : nat) (P : nat -> mat).
Hypothesis OB : obasis d P.

Lemma expand X : meq d X (fun a b =>
  / RtoC (INR d) * csum (d * d) (fun i => mtrace d (mmul d (P i) X) * P i a b)).
Proof.
  intros a b Ha Hb. assert (N := INR_C d (ob_pos d P OB)).
  assert (E : csum (d * d) (fun i => mtrace d (mmul d (P i) X) * P i a b) = RtoC (INR d) * X a b).
  { transitivity (csum (d * d) (fun i => csum d (fun c => csum d (fun e => X e c * (P i c e * P i a b))))).
    { apply csum_ext. intros i _. unfold mtrace, mmul. rewrite <- csum_mult_r. apply csum_ext. intros c _.
      rewrite <- csum_mult_r. apply csum_ext. intros e _. ring. }
    rewrite csum_swap.
    transitivity (csum d (fun c => csum d (fun e =>
      X e c * if Nat.eqb c b && Nat.eqb e a then RtoC (INR d) else 0))).
    { apply csum_ext. intros c Hc. rewrite csum_swap. apply csum_ext. intros e He.
      rewrite csum_mult_l. f_equal. now apply (ob_full d P OB). }
    rewrite (csum_single d b).
    - rewrite (csum_single d a); auto.
      + rewrite !Nat.eqb_refl. simpl. ring.
      + intros e He Ne. apply Nat.eqb_neq in Ne. rewrite Ne, andb_false_r. ring.
    - auto.
    - intros c Hc Nc. apply csum_zero. intros e He. apply Nat.eqb_neq in Nc. rewrite Nc. simpl. ring. }
  rewrite E. field. exact N.
Qed.

Lemma coefficient M X k : (k < d * d)%nat ->
  mtrace d (mmul d (P k) (of_process d P M X)) =
  csum (d * d) (fun j => M k j * mtrace d (mmul d (P j) X)).
Proof.
  intros Hk. assert (N := INR_C d (ob_pos d P OB)). unfold of_process.
  set (g := fun i => csum (d * d) (fun j => M i j * mtrace d (mmul d (P j) X))).
  transitivity (mtrace d (mmul d (P k) (fun a b => csum (d * d) (fun i => (/ RtoC (INR d) * g i) * P i a b)))).
  { apply mtrace_meq, mmul_meq; [reflexivity|]. intros a b _ _. rewrite <- csum_mult_l.
    apply csum_ext. intros i _. unfold g. ring. }
  rewrite mtrace_comb. rewrite (csum_single (d * d) k).
  - rewrite (ob_orth d P OB k k) by auto. rewrite Nat.eqb_refl. unfold g. field. exact N.
  - auto.
  - intros i Hi Ni. rewrite (ob_orth d P OB k i) by auto.
    assert (k <> i) by auto. apply Nat.eqb_neq in H. rewrite H. ring.
Qed.

Lemma by_coefficients X Y :
  (forall k, (k < d * d)%nat -> mtrace d (mmul d (P k) X) = mtrace d (mmul d (P k) Y)) -> meq d X Y.
Proof.
  intros H. eapply meq_trans; [apply expand|]. eapply meq_trans; [|apply meq_sym, expand].
  intros a b _ _. f_equal. apply csum_ext. intros k Hk. now rewrite H.
Qed.

Lemma process_mmul M N X :
  meq d (of_process d P (mmul (d * d) M N) X) (of_process d P M (of_process d P N X)).
Proof.
  apply by_coefficients. intros k Hk. rewrite !coefficient by auto. unfold mmul at 1.
  transitivity (csum (d * d) (fun j => csum (d * d) (fun l => M k l * (N l j * mtrace d (mmul d (P j) X))))).
  - apply csum_ext. intros j _. rewrite <- csum_mult_r. apply csum_ext. intros l _. ring.
  - rewrite csum_swap. apply csum_ext. intros l Hl. rewrite coefficient by auto. now rewrite csum_mult_l.
Qed.

Lemma process_meq M N X Y : meq (d * d) M N -> meq d X Y -> meq d (of_process d P M X) (of_process d P N Y).
Proof.
  intros HM HX. apply by_coefficients. intros k Hk. rewrite !coefficient by auto.
  apply csum_ext. intros j Hj. rewrite HM by auto. f_equal. apply mtrace_meq, mmul_meq; [reflexivity|exact HX].
Qed.

Lemma process_mid X : meq d (of_process d P mid X) X.
Proof.
  apply by_coefficients. intros k Hk. rewrite coefficient by auto. rewrite (csum_single (d * d) k); auto.
  - unfold mid. rewrite Nat.eqb_refl. ring.
  - intros j _ Nj. unfold mid. assert (k <> j) by auto. apply Nat.eqb_neq in H. rewrite H. ring.
Qed.

Lemma real_of_conj (z : C) : Cconj z = z -> z = RtoC (Re z).
Proof.
  destruct z as [a b]. unfold Cconj, RtoC, Re. simpl. intros E. injection E as E. f_equal. lra.
Qed.

Lemma pauligate_real U i j : (i < d * d)%nat -> (j < d * d)%nat ->
  unitary_to_pauligate d P U i j = / RtoC (INR d) * mtrace d (mmul d (P i) (turned d U (P j))).
Proof.
  intros Hi Hj. unfold unitary_to_pauligate. fold (turned d U (P j)).
  set (z := mtrace d (mmul d (P i) (turned d U (P j)))).
  assert (E : Cconj z = z).
  { unfold z. rewrite <- mtrace_adj.
    assert (Q : meq d (adj (mmul d (P i) (turned d U (P j)))) (mmul d (turned d U (P j)) (P i))).
    { rewrite adj_mmul. apply mmul_meq; [|now apply (ob_herm d P OB)].
      unfold turned. rewrite !adj_mmul, adj_adj. rewrite (ob_herm d P OB j Hj). now rewrite mmul_assoc. }
    rewrite (mtrace_meq d _ _ Q). apply mtrace_mmul_comm. }
  apply real_of_conj in E. rewrite E at 2. unfold Rdiv. rewrite RtoC_mult, RtoC_inv.
  - unfold z, turned. ring.
  - assert (0 < INR d)%R by (apply lt_0_INR; apply OB). lra.
Qed.

Lemma turned_cyclic A U X : mtrace d (mmul d A (turned d U X)) = mtrace d (mmul d (mmul d (adj U) (mmul d A U)) X).
Proof.
  unfold turned. transitivity (mtrace d (mmul d (mmul d A U) (mmul d X (adj U)))).
  { apply mtrace_meq. now rewrite !mmul_assoc. }
  transitivity (mtrace d (mmul d (mmul d (mmul d A U) X) (adj U))).
  { apply mtrace_meq. now rewrite !mmul_assoc. }
  rewrite mtrace_mmul_comm. apply mtrace_meq. now rewrite !mmul_assoc.
Qed.

Lemma process_turned U X : meq d (of_process d P (unitary_to_pauligate d P U) X) (turned d U X).
Proof.
  assert (N := INR_C d (ob_pos d P OB)).
  apply by_coefficients. intros k Hk. rewrite coefficient by auto.
  rewrite (turned_cyclic (P k) U X). set (H := mmul d (adj U) (mmul d (P k) U)).
  transitivity (mtrace d (mmul d H (fun a b => csum (d * d) (fun j =>
     (/ RtoC (INR d) * mtrace d (mmul d (P j) X)) * P j a b)))).
  - rewrite mtrace_comb. apply csum_ext. intros j Hj. rewrite pauligate_real by auto.
    rewrite turned_cyclic. fold H. ring.
  - apply mtrace_meq, mmul_meq; [reflexivity|]. apply meq_sym. eapply meq_trans; [apply expand|].
    intros a b _ _. rewrite <- csum_mult_l. apply csum_ext. intros j _. ring.
Qed.

(** Diagonal process matrices: mixtures of the basis operators. *)
Lemma process_diagonal (p : nat -> R) (s : nat -> nat -> R) (M : mat) X :
  (forall i k, (i < d * d)%nat -> (k < d * d)%nat ->
     meq d (mmul d (P k) (mmul d (P i) (P k))) (mscale (RtoC (s i k)) (P i))) ->
  (forall i j, (i < d * d)%nat -> (j < d * d)%nat ->
     M i j = if Nat.eqb i j then csum (d * d) (fun k => RtoC (p k * s i k)) else 0) ->
  meq d (of_process d P M X) (wsum (d * d) p (fun k => turned d (P k) X)).
Proof.
  intros HS HM. apply by_coefficients. intros i Hi. rewrite coefficient by auto.
  rewrite (csum_single (d * d) i); auto.
  2:{ intros j Hj Nj. rewrite HM by auto. assert (i <> j) by auto. apply Nat.eqb_neq in H. rewrite H. ring. }
  rewrite HM, Nat.eqb_refl by auto. unfold wsum. rewrite mtrace_comb. rewrite <- csum_mult_r.
  apply csum_ext. intros k Hk. rewrite turned_cyclic. rewrite RtoC_mult.
  replace (mtrace d (mmul d (mmul d (adj (P k)) (mmul d (P i) (P k))) X))
    with (RtoC (s i k) * mtrace d (mmul d (P i) X)); [ring|].
  rewrite <- mtrace_mscale. apply mtrace_meq. symmetry.
  rewrite (ob_herm d P OB k Hk). rewrite (HS i k Hi Hk). apply mmul_mscale_l.
Qed.
End Basis.
