(** Random orders: the mean of what a Trotter step does agrees with the exact evolution up to
    the third order.  C106. *)
From Coq Require Import Reals List Arith Bool String ZArith Lra Lia Permutation.
From Coquelicot Require Import Coquelicot.
From Verif Require Import Base CMat CMatFacts Det DetFacts Norms CRoot Expm ExpmFacts ModelUnitary ModelHamiltonian Spec SpecModel SpecCompiler
  SpecGates SpecHamiltonian SpecTrotter SpecChannel PGates PHam PHamSeq PHamRun PChannel PTrotComm.
Import ListNotations.
Set Bullet Behavior "Strict Subproofs".
Open Scope R_scope.
Open Scope C_scope.

(** * Taylor's formula with a bound of the third derivative *)
Lemma descend (g g1 : R -> R) : (forall s, is_derive g s (g1 s)) -> (g 0 <= 0)%R -> (forall s, (0 <= s)%R -> (g1 s <= 0)%R) ->
  forall s, (0 <= s)%R -> (g s <= 0)%R.
Proof.
  intros D G0 G1 s Hs. destruct (MVT_gen g 0 s g1) as (z & Hz & Ez).
  - intros; apply D.
  - intros x _. apply derivable_continuous_pt. exists (g1 x). apply is_derive_Reals, D.
  - rewrite Rmin_left, Rmax_right in Hz by lra. assert (X := G1 z (proj1 Hz)). rewrite Rminus_0_r in Ez. nra.
Qed.

Lemma taylor3_upper (f f1 f2 f3 : R -> R) c :
  (forall s, is_derive f s (f1 s)) -> (forall s, is_derive f1 s (f2 s)) -> (forall s, is_derive f2 s (f3 s)) ->
  (forall s, (f3 s <= c)%R) -> (f 1 - f 0 - f1 0 - f2 0 / 2 <= c / 6)%R.
Proof.
  intros D1 D2 D3 B.
  assert (K2 : forall s, (0 <= s)%R -> (f2 s - f2 0 - c * s <= 0)%R).
  { apply (descend (fun s => f2 s - f2 0 - c * s)%R (fun s => f3 s - c)%R).
    - intros s. assert (X := D3 s). auto_derive; [exists (f3 s); exact X|].
      change (Derive (fun x => f2 x) s) with (Derive f2 s). rewrite (is_derive_unique f2 s _ X). field.
    - lra.
    - intros s _. specialize (B s). lra. }
  assert (K1 : forall s, (0 <= s)%R -> (f1 s - f1 0 - f2 0 * s - c / 2 * (s * s) <= 0)%R).
  { apply (descend (fun s => f1 s - f1 0 - f2 0 * s - c / 2 * (s * s))%R (fun s => f2 s - f2 0 - c * s)%R).
    - intros s. assert (X := D2 s). auto_derive; [exists (f2 s); exact X|].
      change (Derive (fun x => f1 x) s) with (Derive f1 s). rewrite (is_derive_unique f1 s _ X). field.
    - lra.
    - exact K2. }
  assert (K0 := descend (fun s => f s - f 0 - f1 0 * s - f2 0 / 2 * (s * s) - c / 6 * (s * s * s))%R
    (fun s => f1 s - f1 0 - f2 0 * s - c / 2 * (s * s))%R). cbv beta in K0.
  assert (H := K0 ltac:(intros s; assert (X := D1 s); auto_derive; [exists (f1 s); exact X|];
      change (Derive (fun x => f x) s) with (Derive f s); rewrite (is_derive_unique f s _ X); field) ltac:(lra) K1 1%R ltac:(lra)).
  lra.
Qed.

Lemma taylor3_mat n (F F1 F2 F3 : R -> mat) c : (0 <= c)%R ->
  (forall s, mderiv n F s (F1 s)) -> (forall s, mderiv n F1 s (F2 s)) -> (forall s, mderiv n F2 s (F3 s)) ->
  (forall s, (fro n (F3 s) <= c)%R) ->
  (fro n (mminus (mminus (mminus (F 1%R) (F 0%R)) (F1 0%R)) (mscale (RtoC (/ 2)) (F2 0%R))) <= c / 6)%R.
Proof.
  intros C0 D1 D2 D3 B. set (Z := mminus (mminus (mminus (F 1%R) (F 0%R)) (F1 0%R)) (mscale (RtoC (/ 2)) (F2 0%R))).
  assert (ZP := fro_nonneg n Z).
  assert (K := taylor3_upper (fun s => fst (cip n Z (F s))) (fun s => fst (cip n Z (F1 s)))
                 (fun s => fst (cip n Z (F2 s))) (fun s => fst (cip n Z (F3 s))) (fro n Z * c)).
  cbv beta in K.
  assert (S : cip n Z (mscale (RtoC (/ 2)) (F2 0%R)) = RtoC (/ 2) * cip n Z (F2 0%R)).
  { unfold cip. rewrite <- csum_mult_l. apply csum_ext. intros i _. rewrite <- csum_mult_l. apply csum_ext. intros j _. unfold mscale. ring. }
  assert (E : (fst (cip n Z (F 1%R)) - fst (cip n Z (F 0%R)) - fst (cip n Z (F1 0%R)) - fst (cip n Z (F2 0%R)) / 2)%R = (fro n Z ^ 2)%R).
  { rewrite fro_sqr. assert (X := cip_self n Z). unfold Z at 2 in X. rewrite !cip_minus, S in X.
    apply (f_equal fst) in X. cbn [fst RtoC] in X. rewrite <- X. simpl. field. }
  rewrite E in K.
  assert (K' : (fro n Z ^ 2 <= fro n Z * c / 6)%R).
  { apply K.
    - intros s. apply (cip_deriv n Z F s _ (D1 s)).
    - intros s. apply (cip_deriv n Z F1 s _ (D2 s)).
    - intros s. apply (cip_deriv n Z F2 s _ (D3 s)).
    - intros s. eapply Rle_trans; [apply Rle_abs|].
      eapply Rle_trans; [eapply Rle_trans; [apply Rmax_l|apply Rmax_Cmod]|].
      eapply Rle_trans; [apply cip_bound|]. apply Rmult_le_compat_l; auto. }
  destruct (Req_dec (fro n Z) 0) as [->|N]; [lra|]. clear - K' N ZP. nra.
Qed.

(** * The commutator is bilinear *)
Lemma comm_i_plus n A X Y : meq n (comm_i n A (mplus X Y)) (mplus (comm_i n A X) (comm_i n A Y)).
Proof. unfold comm_i. rewrite mmul_mplus_r, mmul_mplus_l. intros i j _ _. unfold mminus, mplus. ring. Qed.
Lemma comm_i_minus n A X Y : meq n (comm_i n A (mminus X Y)) (mminus (comm_i n A X) (comm_i n A Y)).
Proof. unfold comm_i. rewrite mmul_mminus_r, mmul_mminus_l. intros i j _ _. unfold mminus. ring. Qed.
Lemma comm_i_scale n A c X : meq n (comm_i n A (mscale c X)) (mscale c (comm_i n A X)).
Proof. unfold comm_i. rewrite mmul_mscale_r, (mmul_mscale_l n c X). intros i j _ _. unfold mminus, mscale. ring. Qed.
Lemma comm_i_plus_l n A B X : meq n (comm_i n (mplus A B) X) (mplus (comm_i n A X) (comm_i n B X)).
Proof.
  assert (E : meq n (mscale Ci (mplus A B)) (mplus (mscale Ci A) (mscale Ci B))) by (intros i j _ _; unfold mscale, mplus; ring).
  unfold comm_i. rewrite E, mmul_mplus_r, mmul_mplus_l. intros i j _ _. unfold mminus, mplus. ring.
Qed.
Lemma comm_i_meq_l n A B X : meq n A B -> meq n (comm_i n A X) (comm_i n B X).
Proof. intros E. unfold comm_i. now rewrite E. Qed.
Lemma comm_i_zero n X : meq n (comm_i n mzero X) mzero.
Proof.
  assert (E : meq n (mscale Ci mzero) mzero) by (intros i j _ _; unfold mscale, mzero; ring).
  unfold comm_i. rewrite E, mmul_zero_l, mmul_zero_r. intros i j _ _. unfold mminus, mzero. ring.
Qed.

Lemma opb_plus n A B a b : opb n A a -> opb n B b -> opb n (mplus A B) (a + b).
Proof.
  intros HA HB v. specialize (HA v). specialize (HB v).
  eapply Rle_trans; [|eapply Rle_trans; [apply (vnorm_triangle n (mapply n A v) (mapply n B v))|lra]].
  right. apply vnorm_ext. intros i Hi. unfold mapply, mplus. rewrite <- csum_plus. apply csum_ext. intros. ring.
Qed.
Lemma opb_zero n : opb n mzero 0.
Proof.
  intros v. rewrite Rmult_0_l. right. rewrite <- (Rmult_0_l (vnorm n v)), <- Cmod_0, <- vnorm_scale.
  apply vnorm_ext. intros i Hi. unfold mapply, mzero. rewrite csum_zero; [ring|]. intros k _. ring.
Qed.

(** * One gate *)
Section Gate.
Variable n : nat.
Variable A : mat.
Variable a : R.
Hypothesis a0 : (0 <= a)%R.
Hypothesis hA : hermitian_mx n A.
Hypothesis bA : opb n A a.

Lemma gate_first X : (fro n (mminus (turned n (ev n A 1) X) X) <= 2 * a * fro n X)%R.
Proof.
  assert (XP := fro_nonneg n X).
  assert (K := grow_mat n (fun s => turned n (ev n A s) X) (fun s => comm_i n A (turned n (ev n A s) X)) (2 * a * fro n X) 0 1
    ltac:(lra) ltac:(apply Rmult_le_pos; lra) ltac:(lra)). cbv beta in K.
  eapply Rle_trans; [|eapply Rle_trans; [apply K|lra]].
  - right. apply fro_proper.
    assert (E0 : meq n (turned n (ev n A 0) X) X) by (rewrite ev_0; apply turned_mid).
    intros i j Hi Hj. unfold mminus. now rewrite (E0 i j Hi Hj).
  - intros s. now apply turned_deriv.
  - intros s _. assert (K1 := comm_i_fro n A a (turned n (ev n A s) X) a0 hA bA).
    rewrite turned_fro in K1 by (now apply ev_unitary). lra.
Qed.

Definition half_square (X : mat) : mat := mscale (RtoC (/ 2)) (comm_i n A (comm_i n A X)).

Lemma gate_third X :
  (fro n (mminus (mminus (mminus (turned n (ev n A 1) X) X) (comm_i n A X)) (half_square X)) <= (2 * a) ^ 3 / 6 * fro n X)%R.
Proof.
  assert (XP := fro_nonneg n X).
  assert (K := taylor3_mat n (fun s => turned n (ev n A s) X) (fun s => comm_i n A (turned n (ev n A s) X))
    (fun s => comm_i n A (comm_i n A (turned n (ev n A s) X))) (fun s => comm_i n A (comm_i n A (comm_i n A (turned n (ev n A s) X))))
    ((2 * a) ^ 3 * fro n X)).
  replace ((2 * a) ^ 3 / 6 * fro n X)%R with ((2 * a) ^ 3 * fro n X / 6)%R by field.
  eapply Rle_trans; [|apply K].
  - right. apply fro_proper. cbv beta.
    assert (E0 : meq n (turned n (ev n A 0) X) X) by (rewrite ev_0; apply turned_mid).
    assert (E1 := comm_i_meq n A _ _ E0). assert (E2 := comm_i_meq n A _ _ E1).
    intros i j Hi Hj. unfold half_square, mminus, mscale. now rewrite (E0 i j Hi Hj), (E1 i j Hi Hj), (E2 i j Hi Hj).
  - apply Rmult_le_pos; [apply pow_le; lra|exact XP].
  - intros s. now apply turned_deriv.
  - intros s. apply mderiv_comm. now apply turned_deriv.
  - intros s. apply mderiv_comm, mderiv_comm. now apply turned_deriv.
  - intros s. set (Y := turned n (ev n A s) X). assert (EY : fro n Y = fro n X) by (apply turned_fro; now apply ev_unitary).
    assert (K1 := comm_i_fro n A a Y a0 hA bA). assert (K2 := comm_i_fro n A a (comm_i n A Y) a0 hA bA).
    assert (K3 := comm_i_fro n A a (comm_i n A (comm_i n A Y)) a0 hA bA). rewrite EY in K1.
    assert (A2 : (0 <= 2 * a)%R) by lra.
    eapply Rle_trans; [exact K3|]. replace ((2 * a) ^ 3 * fro n X)%R with (2 * a * (2 * a * (2 * a * fro n X)))%R by ring.
    apply Rmult_le_compat_l; [exact A2|]. eapply Rle_trans; [exact K2|]. apply Rmult_le_compat_l; [exact A2|exact K1].
Qed.

Lemma half_square_fro X : (fro n (half_square X) <= (2 * a) ^ 2 / 2 * fro n X)%R.
Proof.
  unfold half_square. rewrite fro_mscale, Cmod_R, Rabs_pos_eq by lra.
  assert (K1 := comm_i_fro n A a X a0 hA bA). assert (K2 := comm_i_fro n A a (comm_i n A X) a0 hA bA).
  assert (XP := fro_nonneg n X). assert ((2 * a * fro n (comm_i n A X) <= 2 * a * (2 * a * fro n X))%R) by (apply Rmult_le_compat_l; lra).
  lra.
Qed.
End Gate.

(** * A list of gates, the first of which acts first *)
Definition runs (n : nat) (l : list mat) (X : mat) : mat := fold_left (fun Y A => turned n (ev n A 1) Y) l X.
Fixpoint quad (n : nat) (l : list mat) (X : mat) : mat :=
  match l with
  | [] => mzero
  | A :: t => mplus (quad n t X) (mplus (half_square n A X) (comm_i n (total t) (comm_i n A X)))
  end.

Lemma quad_minus n l X Y : meq n (quad n l (mminus X Y)) (mminus (quad n l X) (quad n l Y)).
Proof.
  induction l as [|A l IH]; cbn [quad].
  - intros i j _ _. unfold mminus, mzero. ring.
  - assert (E1 := comm_i_minus n A X Y).
    assert (E2 : meq n (comm_i n A (comm_i n A (mminus X Y))) (mminus (comm_i n A (comm_i n A X)) (comm_i n A (comm_i n A Y)))).
    { eapply meq_trans; [apply comm_i_meq, E1|apply comm_i_minus]. }
    assert (E3 : meq n (comm_i n (total l) (comm_i n A (mminus X Y))) (mminus (comm_i n (total l) (comm_i n A X)) (comm_i n (total l) (comm_i n A Y)))).
    { eapply meq_trans; [apply comm_i_meq, E1|apply comm_i_minus]. }
    intros i j Hi Hj. unfold mplus, half_square, mscale. rewrite (IH i j Hi Hj), (E2 i j Hi Hj), (E3 i j Hi Hj). unfold mminus. ring.
Qed.

Lemma quad_snoc n l A X : meq n (quad n (l ++ [A]) X) (mplus (quad n l X) (mplus (half_square n A X) (comm_i n A (comm_i n (total l) X)))).
Proof.
  induction l as [|B l IH]; cbn [app quad].
  - change (total []) with mzero.
    assert (E0 := comm_i_zero n (comm_i n A X)).
    assert (E1 : meq n (comm_i n A (comm_i n mzero X)) mzero).
    { eapply meq_trans; [apply comm_i_meq, comm_i_zero|]. intros i j Hi Hj.
      unfold comm_i, mminus. rewrite (mmul_zero_r n _ i j Hi Hj), (mmul_zero_l n _ i j Hi Hj). unfold mzero. ring. }
    intros i j Hi Hj. unfold mplus. rewrite (E0 i j Hi Hj), (E1 i j Hi Hj). unfold mzero. ring.
  - assert (T1 : meq n (total (l ++ [A])) (mplus (total l) A)).
    { intros i j _ _. clear. induction l as [|D l IH]; [unfold total, mplus; cbn [app fold_right]; ring|].
      cbn [app]. rewrite total_cons. unfold mplus in *. rewrite IH, total_cons. unfold mplus. ring. }
    assert (E1 : meq n (comm_i n (total (l ++ [A])) (comm_i n B X)) (mplus (comm_i n (total l) (comm_i n B X)) (comm_i n A (comm_i n B X)))).
    { eapply meq_trans; [apply comm_i_meq_l, T1|apply comm_i_plus_l]. }
    assert (E2 : meq n (comm_i n A (comm_i n (total (B :: l)) X)) (mplus (comm_i n A (comm_i n B X)) (comm_i n A (comm_i n (total l) X)))).
    { eapply meq_trans; [apply comm_i_meq; eapply meq_trans; [apply (comm_i_meq_l n (total (B :: l)) (mplus B (total l))); intros i j _ _; apply total_cons|apply comm_i_plus_l]|apply comm_i_plus]. }
    intros i j Hi Hj. unfold mplus. rewrite (IH i j Hi Hj), (E1 i j Hi Hj), (E2 i j Hi Hj). unfold mplus. ring.
Qed.

Lemma total_rev l : forall i j, total (rev l) i j = total l i j.
Proof.
  intros i j. assert (G : forall a b, total (a ++ b) i j = (total a i j + total b i j)%C).
  { induction a as [|D a IH]; intros b; [unfold total; cbn [app fold_right]; ring|]. cbn [app]. rewrite !total_cons. unfold mplus. rewrite IH. ring. }
  induction l as [|A l IH]; [reflexivity|]. cbn [rev]. rewrite G, IH, total_cons. unfold mplus, total. cbn [fold_right]. ring.
Qed.

Lemma quad_rev n l X : meq n (mplus (quad n l X) (quad n (rev l) X)) (comm_i n (total l) (comm_i n (total l) X)).
Proof.
  induction l as [|A l IH]; cbn [quad rev].
  - change (total []) with mzero. assert (E := comm_i_zero n (comm_i n mzero X)). intros i j Hi Hj. rewrite (E i j Hi Hj). unfold mplus, mzero. ring.
  - assert (Q := quad_snoc n (rev l) A X). set (S := total l) in *.
    assert (T0 : meq n (total (A :: l)) (mplus A S)) by (intros i j _ _; apply total_cons).
    assert (TR : meq n (comm_i n A (comm_i n (total (rev l)) X)) (comm_i n A (comm_i n S X))).
    { apply comm_i_meq, comm_i_meq_l. intros i j _ _. apply total_rev. }
    assert (E : meq n (comm_i n (total (A :: l)) (comm_i n (total (A :: l)) X))
      (mplus (mplus (comm_i n A (comm_i n A X)) (comm_i n A (comm_i n S X))) (mplus (comm_i n S (comm_i n A X)) (comm_i n S (comm_i n S X))))).
    { eapply meq_trans; [apply comm_i_meq_l, T0|]. eapply meq_trans; [apply comm_i_plus_l|].
      assert (G : forall B, meq n (comm_i n B (comm_i n (total (A :: l)) X)) (mplus (comm_i n B (comm_i n A X)) (comm_i n B (comm_i n S X)))).
      { intros B. eapply meq_trans; [apply comm_i_meq; eapply meq_trans; [apply comm_i_meq_l, T0|apply comm_i_plus_l]|apply comm_i_plus]. }
      assert (G1 := G A). assert (G2 := G S). intros i j Hi Hj. unfold mplus. rewrite (G1 i j Hi Hj), (G2 i j Hi Hj). reflexivity. }
    intros i j Hi Hj. rewrite (E i j Hi Hj). specialize (IH i j Hi Hj). unfold mplus in IH |- *.
    rewrite (Q i j Hi Hj). unfold mplus. rewrite (TR i j Hi Hj). unfold half_square, mscale.
    rewrite <- IH. set (z := comm_i n A (comm_i n A X) i j).
    transitivity ((RtoC (/ 2) * z + RtoC (/ 2) * z) + comm_i n A (comm_i n S X) i j
      + (comm_i n S (comm_i n A X) i j + (quad n l X i j + quad n (rev l) X i j))); [ring|].
    f_equal. f_equal. unfold z, RtoC. destruct (comm_i n A (comm_i n A X) i j) as [u v]. apply injective_projections; simpl; field.
Qed.

(** The first terms of the expansion of a list of gates. *)
Lemma jets n : forall l, (forall A, In A l -> hermitian_mx n A) -> forall cs, Forall2 (fun A a => (0 <= a)%R /\ opb n A a) l cs ->
  let s := fold_right Rplus 0%R cs in let x := (2 * s)%R in
  (0 <= s)%R /\ hermitian_mx n (total l) /\ opb n (total l) s /\
  (forall X, fro n (runs n l X) = fro n X) /\
  (forall X, (fro n (quad n l X) <= x ^ 2 / 2 * fro n X)%R) /\
  (forall X, (fro n (mminus (runs n l X) X) <= x * fro n X)%R) /\
  (forall X, (fro n (mminus (mminus (runs n l X) X) (comm_i n (total l) X)) <= x ^ 2 / 2 * fro n X)%R) /\
  (forall X, (fro n (mminus (mminus (mminus (runs n l X) X) (comm_i n (total l) X)) (quad n l X)) <= x ^ 3 / 6 * fro n X)%R).
Proof.
  induction l as [|A l IH]; intros HM cs HF; inversion HF as [|? a ? cs' [a0 bA] HF' E1 E2]; subst; cbn [fold_right].
  - change (total []) with mzero. cbn [runs fold_left quad].
    split; [lra|]. split; [apply hermitian_zero|]. split; [apply opb_zero|].
    assert (Z : forall X, fro n (mminus X X) = 0%R) by (intros X; now apply fro_minus_self).
    split; [reflexivity|].
    assert (P0 : fro n mzero = 0%R) by apply fro_mzero.
    split; [intros X; rewrite P0; lra|]. split; [intros X; change (runs n [] X) with X; rewrite Z; lra|].
    assert (C0 := comm_i_zero n). split; intros X; change (runs n [] X) with X.
    + rewrite (fro_proper n _ mzero), P0; [lra|]. intros i j Hi Hj. unfold mminus. rewrite (C0 X i j Hi Hj). unfold mzero. ring.
    + rewrite (fro_proper n _ mzero), P0; [lra|]. intros i j Hi Hj. unfold mminus. rewrite (C0 X i j Hi Hj). unfold mzero. ring.
  - assert (hA : hermitian_mx n A) by (apply HM; now left).
    destruct (IH (fun B HB => HM B (or_intror HB)) cs' HF') as (s0 & HT & OT & FR & FQ & J0 & J1 & J2).
    set (s := fold_right Rplus 0%R cs') in *. set (x := (2 * s)%R) in *. set (y := (2 * a)%R).
    replace (2 * (a + s))%R with (x + y)%R by (unfold x, y; ring).
    assert (x0 : (0 <= x)%R) by (unfold x; lra). assert (y0 : (0 <= y)%R) by (unfold y; lra).
    assert (T0 : meq n (total (A :: l)) (mplus A (total l))) by (intros i j _ _; apply total_cons).
    assert (TC : forall X, meq n (comm_i n (total (A :: l)) X) (mplus (comm_i n A X) (comm_i n (total l) X))).
    { intros X. eapply meq_trans; [apply comm_i_meq_l, T0|apply comm_i_plus_l]. }
    assert (BL : forall X, (fro n (comm_i n (total l) X) <= x * fro n X)%R) by (intros X; apply (comm_i_fro n _ s X s0 HT OT)).
    assert (BA : forall X, (fro n (comm_i n A X) <= y * fro n X)%R) by (intros X; apply (comm_i_fro n _ a X a0 hA bA)).
    assert (G1 := gate_first n A a a0 hA bA). assert (G2 := turned_taylor n A a).
    assert (G3 := gate_third n A a a0 hA bA). assert (GQ := half_square_fro n A a a0 hA bA).
    fold y in G1, G3, GQ.
    assert (G2' : forall X, (fro n (mminus (mminus (turned n (ev n A 1) X) X) (comm_i n A X)) <= y ^ 2 / 2 * fro n X)%R).
    { intros X. replace (y ^ 2 / 2)%R with (2 * a ^ 2)%R by (unfold y; field). now apply G2. }
    assert (ER : forall X, runs n (A :: l) X = runs n l (turned n (ev n A 1) X)) by reflexivity.
    assert (FT : forall X, fro n (turned n (ev n A 1) X) = fro n X) by (intros X; apply turned_fro; now apply ev_unitary).
    assert (H1 : hermitian_mx n (total (A :: l))) by (apply (hermitian_meq n (mplus A (total l))); [now symmetry|]; now apply hermitian_plus).
    split; [lra|]. split; [exact H1|].
    split; [apply (opb_meq n (mplus A (total l))); [now symmetry|]; now apply opb_plus|].
    split; [intros X; now rewrite ER, FR|].
    split; [|split; [|split]]; intros X; set (Y := turned n (ev n A 1) X); assert (XP := fro_nonneg n X); assert (FY : fro n Y = fro n X) by apply FT.
    + cbn [quad]. eapply Rle_trans; [apply fro_triangle|]. eapply Rle_trans; [apply Rplus_le_compat_l, fro_triangle|].
      assert (K1 := FQ X). assert (K2 := GQ X). assert (K3 := BL (comm_i n A X)). assert (K4 := BA X).
      assert (K5 : (x * fro n (comm_i n A X) <= x * (y * fro n X))%R) by (now apply Rmult_le_compat_l).
      clear - K1 K2 K3 K5. replace ((x + y) ^ 2 / 2 * fro n X)%R with (x ^ 2 / 2 * fro n X + (y ^ 2 / 2 * fro n X + x * (y * fro n X)))%R by field. lra.
    + rewrite ER. fold Y. eapply Rle_trans; [apply (fro_minus_triangle n _ Y)|].
      assert (K1 := J0 Y). rewrite FY in K1. assert (K2 := G1 X). fold Y in K2. lra.
    + rewrite ER. fold Y.
      assert (E : meq n (mminus (mminus (runs n l Y) X) (comm_i n (total (A :: l)) X))
        (mplus (mplus (mminus (mminus (runs n l Y) Y) (comm_i n (total l) Y)) (comm_i n (total l) (mminus Y X))) (mminus (mminus Y X) (comm_i n A X)))).
      { assert (C1 := comm_i_minus n (total l) Y X). assert (C2 := TC X).
        set (U := comm_i n (total l) (mminus Y X)) in *. set (V := comm_i n (total (A :: l)) X) in *. clearbody U V.
        intros i j Hi Hj. specialize (C1 i j Hi Hj). specialize (C2 i j Hi Hj). unfold mplus, mminus in *. rewrite C1, C2. ring. }
      rewrite E. eapply Rle_trans; [apply fro_triangle|]. eapply Rle_trans; [apply Rplus_le_compat_r, fro_triangle|].
      assert (K1 := J1 Y). rewrite FY in K1. assert (K2 := BL (mminus Y X)). assert (K3 := G1 X). fold Y in K3.
      assert (K4 := G2' X). fold Y in K4. assert (K5 : (x * fro n (mminus Y X) <= x * (y * fro n X))%R) by (now apply Rmult_le_compat_l).
      clear - K1 K2 K4 K5. replace ((x + y) ^ 2 / 2 * fro n X)%R with (x ^ 2 / 2 * fro n X + x * (y * fro n X) + y ^ 2 / 2 * fro n X)%R by field. lra.
    + rewrite ER. fold Y. cbn [quad].
      assert (E : meq n (mminus (mminus (mminus (runs n l Y) X) (comm_i n (total (A :: l)) X)) (mplus (quad n l X) (mplus (half_square n A X) (comm_i n (total l) (comm_i n A X)))))
        (mplus (mplus (mminus (mminus (mminus (runs n l Y) Y) (comm_i n (total l) Y)) (quad n l Y)) (quad n l (mminus Y X)))
               (mplus (comm_i n (total l) (mminus (mminus Y X) (comm_i n A X))) (mminus (mminus (mminus Y X) (comm_i n A X)) (half_square n A X))))).
      { assert (C1 := comm_i_minus n (total l) Y X). assert (C2 := TC X). assert (C3 := quad_minus n l Y X).
        assert (C4 := comm_i_minus n (total l) (mminus Y X) (comm_i n A X)).
        set (W := comm_i n (total l) (mminus (mminus Y X) (comm_i n A X))) in *.
        set (U := comm_i n (total l) (mminus Y X)) in *. set (V := comm_i n (total (A :: l)) X) in *.
        set (Z := quad n l (mminus Y X)) in *. clearbody U V W Z.
        intros i j Hi Hj. specialize (C1 i j Hi Hj). specialize (C2 i j Hi Hj). specialize (C3 i j Hi Hj). specialize (C4 i j Hi Hj).
        unfold mplus, mminus in *. rewrite C3, C4, C1, C2. ring. }
      rewrite E. eapply Rle_trans; [apply fro_triangle|]. eapply Rle_trans; [apply Rplus_le_compat; apply fro_triangle|].
      assert (K1 := J2 Y). rewrite FY in K1. assert (K2 := FQ (mminus Y X)). assert (K3 := G1 X). fold Y in K3.
      assert (K4 := BL (mminus (mminus Y X) (comm_i n A X))). assert (K5 := G2' X). fold Y in K5. assert (K6 := G3 X). fold Y in K6.
      assert (K7 : (x ^ 2 / 2 * fro n (mminus Y X) <= x ^ 2 / 2 * (y * fro n X))%R) by (apply Rmult_le_compat_l; [assert (Z := pow2_ge_0 x); lra|exact K3]).
      assert (K8 : (x * fro n (mminus (mminus Y X) (comm_i n A X)) <= x * (y ^ 2 / 2 * fro n X))%R) by (now apply Rmult_le_compat_l).
      clear - K1 K2 K4 K6 K7 K8.
      replace ((x + y) ^ 3 / 6 * fro n X)%R with (x ^ 3 / 6 * fro n X + x ^ 2 / 2 * (y * fro n X) + (x * (y ^ 2 / 2 * fro n X) + y ^ 3 / 6 * fro n X))%R by field. lra.
Qed.
