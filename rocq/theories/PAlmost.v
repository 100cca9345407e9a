(** Given enough steps the compiler finds what its gates can express. *)
From Coq Require Import Reals List Arith Lia Lra Bool ZArith Permutation ClassicalEpsilon.
From Coquelicot Require Import Coquelicot.
From Verif Require Import Base CMat CMatFacts Det DetFacts Norms ModelUnitary ModelEntry ModelPrimitive
  ModelSequence ModelCompiler Spec SpecModel SpecCompiler PUnitary PUnitaryProps PEmbed PEntry PSeqHeap PSeqMeth PSeqNear PSeqWorld
  PSeqUndo PSeqInv PSeqHist PSeqProps PSeqCases PCompView PCompRun PCompEntry PCompLoop PCompTrace PCompTotal PCompProps PCompMore
  PCompCases PCompEx PReach PVerify SpecChain PChain PChainStep PChainRun PChainBal PChainHit PRecur.
Import ListNotations.
Open Scope R_scope.
Set Bullet Behavior "Strict Subproofs".

(** * Means over finitely many cases of positive weight *)
Definition weighted_sum {A} (l : list (R * A)) (F : A -> R) : R := fold_right Rplus 0 (map (fun wa => fst wa * F (snd wa)) l).
Definition fin {A} (M : (A -> R) -> R) (Q : A -> Prop) : Prop :=
  exists l, (forall wa, In wa l -> 0 < fst wa /\ Q (snd wa)) /\ forall F, M F = weighted_sum l F.

Lemma wsum_app {A} (l l' : list (R * A)) F : weighted_sum (l ++ l') F = weighted_sum l F + weighted_sum l' F.
Proof. unfold weighted_sum. induction l as [|x l IH]; cbn [app map fold_right]; [ring|]. rewrite IH. ring. Qed.
Lemma wsum_scale {A} (l : list (R * A)) k F : weighted_sum (map (fun wa => (k * fst wa, snd wa)) l) F = k * weighted_sum l F.
Proof. unfold weighted_sum. induction l as [|x l IH]; cbn [map fold_right fst snd]; [ring|]. rewrite IH. ring. Qed.

Lemma fin_ext {A} M N (Q : A -> Prop) : (forall F, M F = N F) -> fin M Q -> fin N Q.
Proof. intros E (l & H & S). exists l. split; auto. intros F. rewrite <- E. auto. Qed.
Lemma fin_zero {A} (Q : A -> Prop) : fin (fun _ => 0) Q.
Proof. exists []. split; [intros ? []|reflexivity]. Qed.
Lemma fin_one {A} (a : A) (Q : A -> Prop) : Q a -> fin (fun F => F a) Q.
Proof. intros H. exists [(1, a)]. split; [intros ? [<-|[]]; cbn; split; [lra|auto]|]. intros F. unfold weighted_sum. cbn. ring. Qed.
Lemma fin_scal {A} k M (Q : A -> Prop) : 0 <= k -> fin M Q -> fin (fun F => k * M F) Q.
Proof.
  intros [Hk|<-] (l & H & S).
  - exists (map (fun wa => (k * fst wa, snd wa)) l). split.
    + intros wa Hw. apply in_map_iff in Hw. destruct Hw as (x & <- & Hx). cbn. split; [|apply H; auto].
      apply Rmult_lt_0_compat; auto. now apply H.
    + intros F. now rewrite wsum_scale, S.
  - exists []. split; [intros ? []|]. intros F. unfold weighted_sum. cbn. ring.
Qed.
Lemma fin_plus {A} M N (Q : A -> Prop) : fin M Q -> fin N Q -> fin (fun F => M F + N F) Q.
Proof.
  intros (l & H & S) (l' & H' & S'). exists (l ++ l'). split.
  - intros wa Hw. apply in_app_or in Hw. destruct Hw; auto.
  - intros F. now rewrite wsum_app, S, S'.
Qed.
Lemma fin_sum {A B} (l : list B) (M : B -> (A -> R) -> R) (Q : A -> Prop) : (forall x, In x l -> fin (M x) Q) ->
  fin (fun F => fold_right Rplus 0 (map (fun x => M x F) l)) Q.
Proof.
  induction l as [|x l IH]; intros H; [apply fin_zero|]. cbn [map fold_right]. apply fin_plus; [apply H; now left|].
  apply IH. intros. apply H. now right.
Qed.
Lemma fin_meanl {A B} (l : list B) (M : B -> (A -> R) -> R) (Q : A -> Prop) : (forall x, In x l -> fin (M x) Q) ->
  fin (fun F => meanl l (fun x => M x F)) Q.
Proof.
  intros H. destruct l as [|x l].
  - eapply fin_ext; [|apply fin_zero]. intros F. unfold meanl. cbn. unfold Rdiv. ring.
  - eapply (fin_ext (fun F => / INR (List.length (x :: l)) * fold_right Rplus 0 (map (fun x => M x F) (x :: l)))).
    + intros F. unfold meanl, Rdiv. ring.
    + apply fin_scal; [left; apply Rinv_0_lt_compat, lt_0_INR; cbn; lia|]. now apply fin_sum.
Qed.
Lemma fin_bind {A B} (M : (A -> R) -> R) (N : A -> (B -> R) -> R) (Q : A -> Prop) (Q' : B -> Prop) :
  fin M Q -> (forall a, Q a -> fin (N a) Q') -> fin (fun F => M (fun a => N a F)) Q'.
Proof.
  intros (l & H & S) HN. eapply (fin_ext (fun F => fold_right Rplus 0 (map (fun wa => fst wa * N (snd wa) F) l))).
  - intros F. rewrite S. reflexivity.
  - apply fin_sum. intros wa Hw. destruct (H wa Hw). apply fin_scal; [lra|auto].
Qed.
Lemma fin_weaken {A} M (Q Q' : A -> Prop) : (forall a, Q a -> Q' a) -> fin M Q -> fin M Q'.
Proof. intros I (l & H & S). exists l. split; auto. intros wa Hw. destruct (H wa Hw). auto. Qed.

Lemma fin_le {A} M (Q : A -> Prop) F G : fin M Q -> (forall a, Q a -> F a <= G a) -> M F <= M G.
Proof.
  intros (l & H & S) HL. rewrite !S. unfold weighted_sum. apply sum_le. intros wa Hw. destruct (H wa Hw).
  apply Rmult_le_compat_l; [lra|auto].
Qed.
Lemma fin_eq {A} M (Q : A -> Prop) F G : fin M Q -> (forall a, Q a -> F a = G a) -> M F = M G.
Proof. intros HM H. apply Rle_antisym; apply (fin_le _ _ _ _ HM); intros a Ha; rewrite (H a Ha); lra. Qed.
Lemma fin_shift {A} M (Q : A -> Prop) k F : fin M Q -> M (fun _ => 1) = 1 -> M F = k + M (fun a => F a - k).
Proof.
  intros (l & _ & S) H1. rewrite S in H1 |- *. rewrite S. replace k with (k * weighted_sum l (fun _ => 1)) at 1 by (rewrite H1; ring).
  clear. unfold weighted_sum. induction l as [|x l IH]; cbn [map fold_right]; [ring|]. rewrite IH. ring.
Qed.
(** Cases of positive chance are among those that are summed over. *)
Lemma fin_sharp {A} M (Q : A -> Prop) : fin M Q -> fin M (fun a => Q a /\ 0 < M (fun b => ind (b = a))).
Proof.
  intros (l & H & S). exists l. split; auto. intros wa Hw. destruct (H wa Hw) as [W HQ]. split; auto. split; auto.
  rewrite S. clear S. induction l as [|x l IH]; [destruct Hw|]. unfold weighted_sum. cbn [map fold_right]. fold (weighted_sum l (fun b => ind (b = snd wa))).
  assert (N : forall l', (forall wa, In wa l' -> 0 < fst wa /\ Q (snd wa)) -> 0 <= weighted_sum l' (fun b => ind (b = snd wa))).
  { clear. intros l' H. unfold weighted_sum. induction l' as [|x l IH]; cbn [map fold_right]; [lra|].
    destruct (H x (or_introl eq_refl)). assert (I := ind_range (snd x = snd wa)). assert (0 <= fst x * ind (snd x = snd wa)) by (apply Rmult_le_pos; lra).
    assert (X : 0 <= fold_right Rplus 0 (map (fun wa0 => fst wa0 * ind (snd wa0 = snd wa)) l)) by (apply IH; intros; apply H; now right). lra. }
  destruct Hw as [->|Hw].
  - rewrite ind_true by auto. assert (X := N l (fun y Hy => H y (or_intror Hy))). lra.
  - assert (X := IH (fun y Hy => H y (or_intror Hy)) Hw). destruct (H x (or_introl eq_refl)). assert (I := ind_range (snd x = snd wa)).
    assert (0 <= fst x * ind (snd x = snd wa)) by (apply Rmult_le_pos; lra). lra.
Qed.

(** * Trying again and again *)
Section Again.
Variables (n : nat) (c : compiler) (target : unitary) (thr : option R).
Variables (P : list gatety -> (list gatety -> R) -> R) (w : list gatety -> R).
Variables (Inv : list gatety -> Prop) (Blk : list gatety -> Prop).
Hypothesis HPf : forall gs, Inv gs -> fin (P gs) Inv.
Hypothesis HP1 : forall gs, Inv gs -> P gs (fun _ => 1) = 1.
Hypothesis HPw : forall gs x F, (forall g, 0 <= F g) -> w x * F (gs ++ x) <= P gs F.
Hypothesis Hw : forall x, 0 <= w x <= 1.
Hypothesis Hwp : forall x, Blk x -> 0 < w x.
Hypothesis Hrate : 0 <= c_rate c.
Hypothesis Hmax : 0 <= c_max_beta c.
Hypothesis Hthr : match thr with Some t => t <= 1 | None => True end.
Hypothesis Inil : Inv [].
Hypothesis Iapp : forall a b, Inv a -> Inv b -> Inv (a ++ b).
Hypothesis Iblk : forall x, Blk x -> Inv x.
Hypothesis Isplit : forall a, Inv a -> exists xs, (forall x, In x xs -> Blk x) /\ a = List.concat xs.
Hypothesis Iuni : forall a, Inv a -> unitary_mx (2 ^ n) (ordered n a).
Hypothesis HT : unitary_mx (2 ^ n) (u_mat target).
Notation run := (run_mean P n c target thr (fun gs _ => ind (cost_of n target gs <= tolerance thr))).
Notation prod := (fun xs => fold_right Rmult 1 (map (fun x => w x * exp (- c_max_beta c)) xs)).

Lemma run_le_1 : forall k b gs costs, Inv gs -> 0 <= run k b gs costs <= 1.
Proof.
  induction k as [|k IH]; intros b gs costs HI; cbn [run_mean]; destruct (Rle_dec _ _); try apply ind_range. cbv zeta.
  assert (R : forall a, Inv a -> 0 <= accept_mean n (Rmin (b + c_rate c) (c_max_beta c)) target
     (fun gs' => run k (Rmin (b + c_rate c) (c_max_beta c)) gs' (costs ++ [cost_of n target gs'])) gs a <= 1).
  { intros a Ha. unfold accept_mean. cbv zeta. assert (M := metropolis_range (Rmin (b + c_rate c) (c_max_beta c)) (cost_of n target a - cost_of n target gs)).
    assert (X := IH (Rmin (b + c_rate c) (c_max_beta c)) gs (costs ++ [cost_of n target gs]) HI).
    assert (Y := IH (Rmin (b + c_rate c) (c_max_beta c)) a (costs ++ [cost_of n target a]) Ha).
    set (m := metropolis _ _) in *. set (x := run_mean _ _ _ _ _ _ _ _ gs _) in *. set (y := run_mean _ _ _ _ _ _ _ _ a _) in *. clear - M X Y.
    split; nra. }
  split.
  - assert (Z : P gs (fun _ => 0) = 0). { rewrite (fin_shift (P gs) Inv (-1) _ (HPf gs HI) (HP1 gs HI)).
      rewrite (fin_eq _ Inv _ (fun _ => 1) (HPf gs HI)); [rewrite HP1 by auto; ring|]. intros. ring. }
    rewrite <- Z. apply (fin_le _ Inv _ _ (HPf gs HI)). intros a Ha. apply R; auto.
  - rewrite <- (HP1 gs HI). apply (fin_le _ Inv _ _ (HPf gs HI)). intros a Ha. apply R; auto.
Qed.

(** One more attempt: what is missing shrinks by the chance of the attempt. *)
Lemma attempt lam k : 0 <= lam <= 1 ->
  (forall k' b gs costs, (k <= k')%nat -> 0 <= b -> Inv gs -> lam <= run k' b gs costs) ->
  forall xs k' b gs costs, (forall x, In x xs -> Blk x) -> (k + List.length xs <= k')%nat -> 0 <= b -> Inv gs ->
  cost_of n target (gs ++ List.concat xs) <= tolerance thr ->
  lam + (1 - lam) * prod xs <= run k' b gs costs.
Proof.
  intros Hl HL. induction xs as [|x t IH]; intros k' b gs costs HB Hk Hb HI Hc.
  - cbn [List.concat] in Hc. rewrite app_nil_r in Hc. cbn [map fold_right]. destruct k'; cbn [run_mean];
      (destruct (Rle_dec _ _); [|contradiction]); rewrite ind_true by auto; lra.
  - cbn [List.length] in Hk. destruct k' as [|k']; [lia|]. cbn [run_mean]. cbv zeta. destruct (Rle_dec _ _) as [Hs|Hs].
    + rewrite ind_true by auto. assert (X := prod_range c w Hw Hmax (x :: t)). cbv beta in X |- *. set (y := fold_right _ _ _) in *. nra.
    + set (b' := Rmin (b + c_rate c) (c_max_beta c)).
      assert (Hb' : 0 <= b' <= c_max_beta c) by (split; [apply Rmin_glb; lra|apply Rmin_r]).
      set (V := fun gs' => run k' b' gs' (costs ++ [cost_of n target gs'])).
      assert (HBx : Blk x) by (apply HB; now left). assert (HIx : Inv (gs ++ x)) by auto.
      assert (HV : forall a, Inv a -> lam <= V a) by (intros; apply HL; auto; [lia|lra]).
      assert (Hr : lam + (1 - lam) * prod t <= V (gs ++ x)).
      { apply IH; auto; [intros; apply HB; now right|lia|lra|]. now rewrite <- app_assoc. }
      set (A := accept_mean n b' target V gs).
      assert (HA : forall a, Inv a -> lam <= A a).
      { intros a Ha. unfold A, accept_mean. cbv zeta. assert (M := metropolis_range b' (cost_of n target a - cost_of n target gs)).
        assert (X := HV a Ha). assert (Y := HV gs HI). set (m := metropolis _ _) in *. clear - M X Y. nra. }
      set (G := fun a => if excluded_middle_informative (Inv a) then A a - lam else 0).
      assert (EG : P gs A = lam + P gs G).
      { rewrite (fin_shift (P gs) Inv lam A (HPf gs HI) (HP1 gs HI)). f_equal. apply (fin_eq _ Inv _ _ (HPf gs HI)).
        intros a Ha. unfold G. destruct (excluded_middle_informative _); [reflexivity|contradiction]. }
      fold V A. rewrite EG. apply Rplus_le_compat_l.
      assert (G0 : forall a, 0 <= G a).
      { intros a. unfold G. destruct (excluded_middle_informative _) as [Ha|]; [|lra]. assert (X := HA a Ha). lra. }
      eapply Rle_trans; [|apply (HPw gs x G G0)]. cbn [map fold_right].
      assert (GX : (1 - lam) * (exp (- c_max_beta c) * prod t) <= G (gs ++ x)).
      { unfold G. destruct (excluded_middle_informative _); [|contradiction]. unfold A, accept_mean. cbv zeta.
        set (d := cost_of n target (gs ++ x) - cost_of n target gs). assert (M := metropolis_range b' d).
        assert (Fl : exp (- c_max_beta c) <= metropolis b' d).
        { apply metropolis_floor; auto. unfold d. assert (T := cost_le_1 n target (gs ++ x)). assert (T' := tolerance_nonneg thr Hthr). lra. }
        assert (Y := HV gs HI). assert (Pr := prod_range c w Hw Hmax t). assert (E0 := exp_pos (- c_max_beta c)).
        cbv beta in Hr, Pr |- *. set (q := fold_right Rmult 1 _) in *. set (m := metropolis b' d) in *. set (e := exp _) in *. set (vx := V (gs ++ x)) in *. set (v := V gs) in *.
        clear - Hr M Fl Y Pr E0 Hl. assert ((1 - lam) * (e * q) <= m * ((1 - lam) * q)).
        { replace ((1 - lam) * (e * q)) with (e * ((1 - lam) * q)) by ring. apply Rmult_le_compat_r; [|lra]. apply Rmult_le_pos; lra. }
        assert (m * ((1 - lam) * q) <= m * (vx - lam)) by (apply Rmult_le_compat_l; lra).
        assert (0 <= (1 - m) * (v - lam)) by (apply Rmult_le_pos; lra).
        replace (m * vx + (1 - m) * v - lam) with (m * (vx - lam) + (1 - m) * (v - lam)) by ring. lra. }
      apply Rle_trans with (w x * ((1 - lam) * (exp (- c_max_beta c) * prod t))); [right; cbv beta; ring|].
      apply Rmult_le_compat_l; [apply Hw|exact GX].
Qed.

Lemma prod_pos xs : (forall x, In x xs -> Blk x) -> 0 < prod xs.
Proof.
  induction xs as [|x t IH]; intros H; cbn [map fold_right]; [lra|]. apply Rmult_lt_0_compat; [|apply IH; intros; apply H; now right].
  apply Rmult_lt_0_compat; [apply Hwp, H; now left|apply exp_pos].
Qed.

Lemma uniform ws : (forall a, In a ws -> Inv a) -> exists m rho, (0 < m)%nat /\ 0 < rho <= 1 /\
  forall a, In a ws -> exists xs, (forall x, In x xs -> Blk x) /\ a = List.concat xs /\ (List.length xs <= m)%nat /\ rho <= prod xs.
Proof.
  induction ws as [|a ws IH]; intros H.
  - exists 1%nat, 1. split; [lia|]. split; [lra|]. intros a [].
  - destruct IH as (m & rho & Hm & Hr & IH); [intros; apply H; now right|].
    destruct (Isplit a (H a (or_introl eq_refl))) as (xs & HB & Ea). assert (Pp := prod_pos xs HB).
    exists (Nat.max m (List.length xs)), (Rmin rho (prod xs)). split; [lia|]. split.
    + split; [apply Rmin_glb_lt; [apply Hr|exact Pp]|]. eapply Rle_trans; [apply Rmin_l|apply Hr].
    + intros a' [<-|Ha'].
      * exists xs. repeat split; auto; [lia|apply Rmin_r].
      * destruct (IH a' Ha') as (ys & Y1 & Y2 & Y3 & Y4). exists ys. repeat split; auto; [lia|].
        eapply Rle_trans; [apply Rmin_l|exact Y4].
Qed.

Lemma found gts : Inv gts -> cost_of n target gts < tolerance thr ->
  exists m rho, (0 < m)%nat /\ 0 < rho <= 1 /\
    forall j k b gs costs, (j * m <= k)%nat -> 0 <= b -> Inv gs -> 1 - (1 - rho) ^ j <= run k b gs costs.
Proof.
  intros HG Hc. destruct (continuations n Inv Inil Iapp Iuni target gts (tolerance thr) HT HG Hc) as (ws & W1 & W2).
  destruct (uniform ws W1) as (m & rho & Hm & Hr & HU). exists m, rho. split; auto. split; auto.
  induction j as [|j IH]; intros k b gs costs Hk Hb HI.
  - cbn [pow]. destruct (run_le_1 k b gs costs HI). lra.
  - destruct (W2 gs HI) as (a & Ha & Hca). destruct (HU a Ha) as (xs & X1 & -> & X3 & X4).
    assert (L : 0 <= 1 - (1 - rho) ^ j <= 1).
    { assert (0 <= (1 - rho) ^ j) by (apply pow_le; lra). assert ((1 - rho) ^ j <= 1) by (eapply Rle_trans; [apply (pow_incr _ 1); lra|rewrite pow1; lra]). lra. }
    assert (X := attempt (1 - (1 - rho) ^ j) (j * m) L (fun k' b' gs' costs' H1 H2 H3 => IH k' b' gs' costs' H1 H2 H3) xs k b gs costs X1
      ltac:(cbn [Nat.mul] in Hk; lia) Hb HI Hca).
    cbn [pow]. cbv beta in X, X4.
    set (q := fold_right Rmult 1 _) in *. set (z := (1 - rho) ^ j) in *. assert (Z : z * rho <= z * q) by (apply Rmult_le_compat_l; lra). lra.
Qed.

(** Nothing is found where there is nothing to find. *)
Lemma hopeless : (forall gs, Inv gs -> ~ cost_of n target gs <= tolerance thr) -> forall k b gs costs, Inv gs -> run k b gs costs = 0.
Proof.
  intros HN. induction k as [|k IH]; intros b gs costs HI; cbn [run_mean]; (destruct (Rle_dec _ _) as [Y|_]; [now apply HN in Y|]).
  - apply ind_false. auto.
  - cbv zeta. assert (Z : P gs (fun _ => 0) = 0). { rewrite (fin_shift (P gs) Inv (-1) _ (HPf gs HI) (HP1 gs HI)).
      rewrite (fin_eq _ Inv _ (fun _ => 1) (HPf gs HI)); [rewrite HP1 by auto; ring|]. intros. ring. }
    etransitivity; [|exact Z]. apply (fin_eq _ Inv _ _ (HPf gs HI)). intros a Ha. unfold accept_mean. cbv zeta. rewrite !IH by auto. ring.
Qed.
End Again.
