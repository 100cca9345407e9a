(** Time evolution: the constructor on an exponential of a Hermitian matrix. *)
From Coq Require Import Reals List Arith Bool String ZArith Lra Lia Permutation.
From Coquelicot Require Import Coquelicot.
From Verif Require Import Base CMat CMatFacts Det DetFacts Norms CRoot Expm ExpmFacts ExpmBounds ModelUnitary ModelEntry
  ModelPrimitive ModelSequence ModelCompiler ModelVerification ModelGates ModelHamiltonian Spec SpecModel
  SpecCompiler SpecGates SpecHamiltonian PUnitary PDrift PEmbed PEntry PSeqNear PCompRun PCompProps PGates PFamilies.
Import ListNotations.
Open Scope R_scope.
Open Scope C_scope.
Open Scope res_scope.

Definition ev (d : nat) (h : mat) (t : R) : mat := epath d (mscale Ci h) t.

Lemma ev_expm d h t : ev d h t = expm d (mscale (RtoC t) (mscale Ci h)).
Proof. reflexivity. Qed.

Lemma evolution_ev d h t E : evolution d h t E -> meq d E (ev d h t).
Proof.
  intros H. rewrite (is_expm_unique _ _ _ H), ev_expm. apply expm_meq. intros i j _ _. unfold mscale. ring.
Qed.

Lemma is_expm_meq d A B E : meq d A B -> is_expm d A E -> is_expm d B E.
Proof.
  intros M H. apply is_expm_series. intros i j Hi Hj. assert (K := proj1 (is_expm_series _ _ _) H i j Hi Hj).
  eapply cseries_ext; [|exact K]. intros k. simpl. now apply exp_term_meq.
Qed.

Lemma ev_evolution d h t : evolution d h t (ev d h t).
Proof.
  unfold evolution. rewrite ev_expm. eapply is_expm_meq; [|apply is_expm_expm].
  intros i j _ _. unfold mscale. ring.
Qed.

Lemma hermitian_scale d h t : hermitian_mx d h -> hermitian_mx d (mscale (RtoC t) h).
Proof.
  intros H i j Hi Hj. unfold mscale, adj. rewrite Cconj_mult, Cconj_R. f_equal. apply (H i j Hi Hj).
Qed.
Lemma hermitian_plus d A B : hermitian_mx d A -> hermitian_mx d B -> hermitian_mx d (mplus A B).
Proof.
  intros HA HB i j Hi Hj. unfold mplus, adj. rewrite Cconj_plus. f_equal; [apply HA|apply HB]; auto.
Qed.
Lemma hermitian_zero d : hermitian_mx d mzero.
Proof. intros i j _ _. unfold mzero, adj. apply C_eq; simpl; ring. Qed.
Lemma hermitian_meq d A B : meq d A B -> hermitian_mx d A -> hermitian_mx d B.
Proof.
  intros E H i j Hi Hj. unfold adj. rewrite <- (E i j Hi Hj), <- (E j i Hj Hi). apply (H i j Hi Hj).
Qed.

Lemma ev_unitary d h t : hermitian_mx d h -> unitary_mx d (ev d h t).
Proof.
  intros H. assert (U := expm_unitary d _ (hermitian_scale d h t H)).
  assert (E : meq d (ev d h t) (expm d (mscale Ci (mscale (RtoC t) h)))).
  { rewrite ev_expm. apply expm_meq. intros i j _ _. unfold mscale. ring. }
  unfold unitary_mx. now rewrite E.
Qed.

Lemma ev_meq d h h' t : meq d h h' -> meq d (ev d h t) (ev d h' t).
Proof. intros E. rewrite !ev_expm. apply expm_meq. intros i j Hi Hj. unfold mscale. now rewrite (E i j Hi Hj). Qed.

Lemma ev_0 d h : meq d (ev d h 0) mid.
Proof. apply epath_0. Qed.
Lemma ev_add d h s t : meq d (ev d h (s + t)) (mmul d (ev d h s) (ev d h t)).
Proof. apply epath_add. Qed.

Lemma ev_neg d h t : hermitian_mx d h -> meq d (ev d h (- t)) (adj (ev d h t)).
Proof.
  intros H. assert (U := ev_unitary d h t H).
  transitivity (mmul d (ev d h (- t)) (mmul d (ev d h t) (adj (ev d h t)))).
  - unfold unitary_mx in U. rewrite U. now rewrite mmul_1_r.
  - rewrite mmul_assoc. unfold ev. rewrite epath_inverse. apply mmul_1_l.
Qed.

(** The answer of [time_evolution] when the threshold is small. *)
Lemma te_near eps n h t sfx : (0 <= eps)%R -> lim eps n 1 -> hermitian_mx (2 ^ n) h ->
  exists u c, time_evolution eps (2 ^ n) h t sfx = Ok u /\ Cmod c = 1%R /\
    near eps n 1 (mscale c (ev (2 ^ n) h t)) u /\ made_from eps u /\
    u_name u = ("H" ++ sfx)%string /\ u_params u = [("t"%string, (t, false))] /\ u_inv u = false /\ u_apply u = [].
Proof.
  intros E0 L HH. assert (U := ev_unitary (2 ^ n) h t HH).
  assert (D : (0 < 2 ^ n)%nat) by (apply Nat.neq_0_lt_0, Nat.pow_nonzero; lia).
  destruct L as [L1 L2]. unfold err in L1, L2. rewrite pow_1 in L1, L2. unfold xi in L1, L2.
  destruct (normalise_gen eps (2 ^ n) (ev (2 ^ n) h t) (ev (2 ^ n) h t) 0 (Some ("H" ++ sfx)%string)
              [("t"%string, (t, false))] false [] D E0 U (unitary_det_mod _ _ U))
    as (u & c & Eu & Hd & Det1 & N1 & N2 & N3 & N4 & Hc & Hcd & _ & HF).
  - rewrite fro_minus_self by reflexivity. lra.
  - lra.
  - replace (0 + kappa0 (2 ^ n) * eps)%R with (1 + kappa0 (2 ^ n) * eps - 1)%R by ring. exact L2.
  - exists u, c. unfold time_evolution. rewrite allclose_meq by exact HH. cbn [assert bind].
    rewrite <- ev_expm, Eu. repeat (split; [auto; fail|]). split; [|split].
    + split; [exact Hd|]. split; [|split; [exact Det1|]].
      * split; [now apply unitary_mscale|]. rewrite det_mscale. exact Hcd.
      * eapply Rle_trans; [exact HF|]. unfold err, xi. rewrite pow_1. lra.
    + exists (2 ^ n)%nat, (ev (2 ^ n) h t), (Some ("H" ++ sfx)%string), [("t"%string, (t, false))], false, [].
      split; assumption.
    + auto.
Qed.

(** The same without clean-up, in every dimension. *)
Lemma te_exact d h t sfx : (0 < d)%nat -> hermitian_mx d h ->
  exists u c, time_evolution 0 d h t sfx = Ok u /\ u_dim u = d /\ Cmod c = 1%R /\ special d (u_mat u) /\
    meq d (u_mat u) (mscale c (ev d h t)).
Proof.
  intros D HH. assert (U := ev_unitary d h t HH).
  destruct (mk_unitary_exact 0 d (ev d h t) (Some ("H" ++ sfx)%string) [("t"%string, (t, false))] false [] D U
              (eps_clean_0 _ _)) as (u & Eu & Hd & _ & _ & _ & _ & HM & Hc & HS).
  exists u, (croot d (/ det d (ev d h t))). unfold time_evolution. rewrite allclose_meq by exact HH.
  cbn [assert bind]. rewrite <- ev_expm. auto.
Qed.
