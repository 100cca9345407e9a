(** The determinant of a function matrix, through mathcomp's [\det].
    This is the only file that mixes mathcomp with the standard library; it
    exports facts stated with the vocabulary of [CMat.v] only. *)
From Coq Require Import Reals ClassicalEpsilon.
From Coquelicot Require Import Complex.
From Verif Require Import CMat CMatFacts.
From mathcomp Require Import all_ssreflect all_algebra.
Set Implicit Arguments. Unset Strict Implicit. Unset Printing Implicit Defensive.
Import GRing.Theory.
Local Open Scope ring_scope.

(** ** Coquelicot's complex numbers as a mathcomp field *)
Definition Ceqb (x y : C) : bool := if Ceq_dec x y then true else false.
Lemma CeqP : Equality.axiom Ceqb.
Proof. move=> x y; rewrite /Ceqb; case: Ceq_dec => H; by constructor. Qed.
Canonical C_eqMixin := EqMixin CeqP.
Canonical C_eqType := Eval hnf in EqType C C_eqMixin.

Definition C_find (P : pred C) (n : nat) : option C :=
  match excluded_middle_informative (exists x, P x) with
  | left h => Some (proj1_sig (constructive_indefinite_description (fun x => P x) h))
  | right _ => None
  end.
Lemma C_find_correct (P : pred C) n x : C_find P n = Some x -> P x.
Proof.
rewrite /C_find; case: excluded_middle_informative => // h [<-].
exact: (proj2_sig (constructive_indefinite_description (fun x => P x) h)).
Qed.
Lemma C_find_complete (P : pred C) : (exists x, P x) -> exists n, C_find P n.
Proof. move=> h; exists O; rewrite /C_find; by case: excluded_middle_informative. Qed.
Lemma C_find_ext (P Q : pred C) : P =1 Q -> C_find P =1 C_find Q.
Proof.
move=> e n.
have -> : P = Q by apply: FunctionalExtensionality.functional_extensionality.
by [].
Qed.
Definition C_choiceMixin := @Choice.Mixin C C_find C_find_correct C_find_complete C_find_ext.
Canonical C_choiceType := Eval hnf in ChoiceType C C_choiceMixin.
Definition C_zmodMixin := ZmodMixin Cplus_assoc Cplus_comm Cplus_0_l
  (fun x => etrans (Cplus_comm _ _) (Cplus_opp_r x)).
Canonical C_zmodType := Eval hnf in ZmodType C C_zmodMixin.
Lemma C1_neq0 : RtoC 1 != RtoC 0.
Proof. apply/eqP => H. apply RtoC_inj in H. by apply R1_neq_R0. Qed.
Definition C_comRingMixin := ComRingMixin Cmult_assoc Cmult_comm Cmult_1_l Cmult_plus_distr_r C1_neq0.
Canonical C_ringType := Eval hnf in RingType C C_comRingMixin.
Canonical C_comRingType := Eval hnf in ComRingType C Cmult_comm.

Definition Cinv_total (x : C) : C := if x == (0 : C) then 0 else Cinv x.
Lemma C_mulVf : GRing.Field.axiom Cinv_total.
Proof. move=> x /negbTE H; rewrite /Cinv_total H; apply: Cinv_l; by apply/eqP; rewrite H. Qed.
Lemma C_inv0 : Cinv_total 0 = 0.
Proof. by rewrite /Cinv_total eqxx. Qed.
Definition C_unitRingMixin := FieldUnitMixin C_mulVf C_inv0.
Canonical C_unitRingType := Eval hnf in UnitRingType C C_unitRingMixin.
Canonical C_comUnitRingType := Eval hnf in [comUnitRingType of C].
Lemma C_field_axiom : GRing.Field.mixin_of C_unitRingType.
Proof. by move=> x. Qed.
Canonical C_idomainType := Eval hnf in IdomainType C (FieldIdomainMixin C_field_axiom).
Canonical C_fieldType := Eval hnf in FieldType C C_field_axiom.

(** ** The bridge *)
Definition mx (n : nat) (A : mat) : 'M[C]_n := \matrix_(i < n, j < n) A i j.

Definition det (n : nat) (A : mat) : C := \det (mx n A).

Lemma mxE_eq n A B : meq n A B -> mx n A = mx n B.
Proof. move=> H; apply/matrixP=> i j; rewrite !mxE; apply: H; exact/ltP. Qed.

Lemma eq_mxE n A B : mx n A = mx n B -> meq n A B.
Proof.
move=> /matrixP H i j /ltP Hi /ltP Hj; move: (H (Ordinal Hi) (Ordinal Hj)); by rewrite !mxE.
Qed.

Lemma csum_big n f : csum n f = \sum_(i < n) f i :> C.
Proof. by elim: n => [|n IH] /=; rewrite ?big_ord0 // big_ord_recr /= IH. Qed.

Lemma mx_mmul n A B : mx n (mmul n A B) = mx n A *m mx n B.
Proof.
apply/matrixP=> i j; rewrite !mxE /mmul csum_big; apply: eq_bigr => k _; by rewrite !mxE.
Qed.

Lemma mx_mid n : mx n mid = 1%:M.
Proof.
apply/matrixP=> i j; rewrite !mxE /mid.
case: (Nat.eqb_spec i j) => [/val_inj ->|H]; first by rewrite eqxx.
by case: eqP => // e; case: H; rewrite e.
Qed.

Lemma det_ext n A B : meq n A B -> det n A = det n B.
Proof. by rewrite /det => /mxE_eq ->. Qed.

Lemma det_mid n : det n mid = RtoC 1.
Proof. by rewrite /det mx_mid det1. Qed.

Lemma det_mmul n A B : det n (mmul n A B) = Cmult (det n A) (det n B).
Proof. by rewrite /det mx_mmul det_mulmx. Qed.

Fixpoint cpow (c : C) (n : nat) : C :=
  match n with O => RtoC 1 | S k => Cmult c (cpow c k) end.

Lemma cpowE c n : cpow c n = c ^+ n.
Proof. by elim: n => //= n ->; rewrite exprS. Qed.

Lemma det_mscale n c A : det n (mscale c A) = Cmult (cpow c n) (det n A).
Proof.
rewrite /det.
have -> : mx n (mscale c A) = c *: mx n A by apply/matrixP=> i j; rewrite !mxE.
by rewrite detZ cpowE.
Qed.

Lemma det_transpose n A : det n (transpose A) = det n A.
Proof.
rewrite /det.
have -> : mx n (transpose A) = (mx n A)^T by apply/matrixP=> i j; rewrite !mxE.
by rewrite det_tr.
Qed.

Lemma Cconj_additive : additive (Cconj : C -> C).
Proof. move=> x y; exact: Cconj_minus. Qed.
Lemma Cconj_multiplicative : multiplicative (Cconj : C -> C).
Proof. split=> [x y|]; [exact: Cconj_mult|exact: (Cconj_R 1)]. Qed.
Canonical Cconj_additiveM := Additive Cconj_additive.
Canonical Cconj_rmorphism := AddRMorphism Cconj_multiplicative.

Lemma det_adj n A : det n (adj A) = Cconj (det n A).
Proof.
rewrite /det.
have -> : mx n (adj A) = (map_mx Cconj_rmorphism (mx n A))^T by apply/matrixP=> i j; rewrite !mxE.
by rewrite det_tr det_map_mx.
Qed.

Lemma mmul_one_sided n A B : meq n (mmul n A B) mid -> meq n (mmul n B A) mid.
Proof.
move=> /mxE_eq H; apply: eq_mxE; move: H; rewrite !mx_mmul !mx_mid; exact: mulmx1C.
Qed.

(** Block-triangular determinants. *)
Lemma det_block m p F :
  (forall i j, (i < m)%coq_nat -> (j < p)%coq_nat -> F i (m + j)%coq_nat = RtoC 0) ->
  det (m + p)%coq_nat F
  = Cmult (det m F) (det p (fun i j => F (m + i)%coq_nat (m + j)%coq_nat)).
Proof.
move=> H0; rewrite /det.
have -> : mx (m + p) F = block_mx (mx m F) 0 (\matrix_(i < p, j < m) F (m + i)%N j)
   (mx p (fun i j => F (m + i)%coq_nat (m + j)%coq_nat)).
  apply/matrixP=> i j; rewrite !mxE.
  case: (splitP i) => i' Hi; rewrite !mxE; case: (splitP j) => j' Hj; rewrite !mxE Hi Hj //.
  by apply: H0; apply/ltP.
by rewrite det_lblock.
Qed.

(** A singular matrix has a non-zero vector in its left kernel. *)
Lemma det0_kernel n A : det n A = RtoC 0 ->
  exists v : nat -> C,
    (exists i, (i < n)%coq_nat /\ v i <> RtoC 0) /\
    forall j, (j < n)%coq_nat -> csum n (fun i => Cmult (v i) (A i j)) = RtoC 0.
Proof.
rewrite /det => /eqP /det0P [v vn0 vA].
exists (fun i => if insub i is Some i' then v 0 i' else 0); split.
- move: vn0; case: (pickP (fun i => v 0 i != 0)) => [i Hi _|Hall].
    exists i; split; first exact/ltP.
    by rewrite valK; apply/eqP.
  case/negP; apply/eqP/matrixP=> a b; rewrite ord1 mxE; apply/eqP; by move: (Hall b) => /negbFE.
- move=> j /ltP Hj; move/matrixP: vA => /(_ 0 (Ordinal Hj)); rewrite !mxE => E.
  rewrite csum_big -[RHS]E; apply: eq_bigr => i _; by rewrite valK !mxE.
Qed.

Lemma det_kernel n A (v : nat -> C) :
  (exists i, (i < n)%coq_nat /\ v i <> RtoC 0) ->
  (forall j, (j < n)%coq_nat -> csum n (fun i => Cmult (v i) (A i j)) = RtoC 0) ->
  det n A = RtoC 0.
Proof.
move=> [i [/ltP Hi vi]] H; rewrite /det; apply/eqP/det0P.
exists (\row_(k < n) v k).
- apply/eqP => /matrixP /(_ 0 (Ordinal Hi)); rewrite !mxE; exact: vi.
- apply/matrixP=> a b; rewrite !mxE; apply: etrans (H b _); last exact/ltP.
  rewrite csum_big; apply: eq_bigr => k _; by rewrite !mxE.
Qed.

(** Expansion along the first row. *)
Lemma det_expand n A :
  det (S n) A = csum (S n) (fun j => Cmult (A 0%N j)
    (Cmult (cpow (Copp (RtoC 1)) j)
           (det n (fun r c => A (S r) (if Nat.ltb c j then c else S c))))).
Proof.
rewrite /det (expand_det_row _ ord0) csum_big; apply: eq_bigr => j _.
rewrite mxE /cofactor add0n cpowE; congr (_ * (_ * _)).
congr (\det _); apply/matrixP=> r c; rewrite !mxE /=.
congr (A _ _); rewrite /bump; case: (leqP j c) => H.
- have -> : Nat.ltb c j = false by apply/Nat.ltb_ge/leP.
  by rewrite add1n.
- have -> : Nat.ltb c j = true by apply/Nat.ltb_lt/ltP.
  by rewrite add0n.
Qed.

Lemma det_0 A : det 0 A = RtoC 1.
Proof. by rewrite /det det_mx00. Qed.

(** A matrix with non-zero determinant has an inverse. *)
Lemma det_inverse n A : det n A <> RtoC 0 -> exists G, meq n (mmul n G A) mid.
Proof.
rewrite /det => D.
exists (fun i j => match insub i, insub j with Some a, Some b => invmx (mx n A) a b | _, _ => 0 end).
apply: eq_mxE; rewrite mx_mmul mx_mid.
have -> : mx n (fun i j => match insub i, insub j with Some a, Some b => invmx (mx n A) a b | _, _ => 0 end)
          = invmx (mx n A).
  by apply/matrixP=> i j; rewrite mxE !valK.
apply: mulVmx; rewrite unitmxE unitfE; apply/eqP; exact: D.
Qed.
