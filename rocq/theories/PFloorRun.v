(** A compilation with parameterised gates finds what its gates can express. *)
From Coq Require Import Reals List Arith Lia Lra Bool String ZArith Permutation ClassicalEpsilon.
From Coquelicot Require Import Coquelicot.
From Verif Require Import Base CMat CMatFacts Det DetFacts Norms ModelUnitary ModelEntry ModelPrimitive
  ModelSequence ModelCompiler Spec SpecModel SpecCompiler PUnitary PUnitaryProps PEmbed PEntry PSeqHeap PSeqMeth PSeqNear PSeqWorld
  PSeqUndo PSeqInv PSeqHist PSeqProps PSeqCases PCompView PCompRun PCompEntry PCompLoop PCompTrace PCompTotal PCompProps PCompMore
  PCompCases PCompEx PReach PVerify SpecChain PChain PChainStep PChainRun PChainBal PChainHit PChainLay PRecur PAlmost PAlmostComp PAlmostRun
  SpecFloor PFloor PFloorNear PFloorComp PFloorChange.
Import ListNotations.
Open Scope R_scope.
Set Bullet Behavior "Strict Subproofs".

Section Run.
Variables (n : nat) (c : compiler) (change : rng -> nat -> CM unit) (target : unitary) (k0 : nat) (thr : option R)
  (Rel : rng -> list gatety -> list gatety -> Prop) (Inv : list gatety -> Prop).
Hypothesis Hd : c_dim c = (2 ^ n)%nat.
Hypothesis HT : built 0 target.
Hypothesis HD : u_dim target = (2 ^ n)%nat.
Hypothesis H1 : forall g, rng_ok g -> change_ok 0 (change g) (Rel g) c.
Hypothesis H2 : forall g s, rng_ok g -> ctraced 0 (built 0) c k0 (change g s).
Hypothesis H3 : forall g, rng_ok g -> total_change 0 true n k0 (change g) c.
Hypothesis HI : forall g a b, rng_ok g -> Inv a -> Rel g a b -> Inv b.
Hypothesis Hrate : 0 <= c_rate c.
Hypothesis Hmax : 0 <= c_max_beta c.
Hypothesis Hthr : match thr with Some t => t <= 1 | None => True end.

(** With a chance of at least [w] the change appends something in [B]. *)
Definition floor (B : list gatety -> Prop) (w : R) : Prop :=
  forall s r0 h0 st b cs f lo hi, holds n s st cs -> Inv cs -> legal h0 -> r_draws st = (r0 + List.length h0)%nat -> lo <= hi ->
  (forall h st1 cs1, legal h ->
     (forall g, rng_ok g -> tells g r0 h -> tells g r0 h0 /\
        change g s (st, set_beta c b) = ((st1, set_beta c b), Ok tt)) ->
     holds n s st1 cs1 -> Inv cs1 -> r_draws st1 = (r0 + List.length h)%nat ->
     least r0 f h lo /\ (forall x, cs1 = cs ++ x -> B x -> least r0 f h hi)) ->
  least r0 f h0 (lo + (hi - lo) * w).

Lemma hits_floor B w : (forall s st b cs pv, sees 0 (r_world st) s (2 ^ n) cs pv -> exact_world (r_world st) ->
    chits (fun g => change g s) (st, set_beta c b)
      (fun sc _ => exists x pv', B x /\ sees 0 (r_world (fst sc)) s (2 ^ n) (cs ++ x) pv') w) -> floor B w.
Proof.
  intros H s r0 h0 st b cs f lo hi HH HIc HL0 HR0 Hl K. destruct (holds_sees _ _ _ _ HH) as (pv & S).
  apply (H s st b cs pv S (proj1 HH) r0 h0 f lo hi HL0 HR0 Hl). intros h' sc x Lh Dsc E.
  destruct (teller r0 h' Lh) as (g0 & G0 & T). destruct (exact_winv_ex _ (proj1 HH)) as [KK HW].
  destruct (H3 g0 G0 b s st KK cs pv HW S (lim_zero _ _)) as (st1 & E1).
  destruct (E g0 G0 T) as [T0 E0]. cbv beta in E0. rewrite E1 in E0. injection E0 as <- <-.
  assert (S' : sees 0 (r_world st) s (c_dim c) cs pv) by now rewrite Hd.
  destruct (H1 g0 G0 b s st st1 _ cs pv S' E1) as (_ & cs1 & pv1 & S1 & HR). rewrite Hd in S1.
  assert (HH1 : holds n s st1 cs1).
  { eapply sees_holds; [|exact S1]. destruct (H2 g0 s G0 st b) as [EV _]. rewrite E1 in EV. exact (evolves_exact _ _ _ (proj1 HH) EV). }
  assert (HI1 : Inv cs1) by (destruct HR as [[_ HR]|[-> _]]; eauto).
  destruct (K h' st1 cs1 Lh E HH1 HI1 Dsc) as [K1 K2]. split; [exact K1|].
  intros HQ. destruct (HQ tt eq_refl) as (x & pv' & Bx & Sx). cbn [fst] in Sx. apply (K2 x); auto.
  rewrite <- (sees_contents _ _ _ _ _ _ S1), <- (sees_contents _ _ _ _ _ _ Sx). reflexivity.
Qed.

Notation next b := (Rmin (b + c_rate c) (c_max_beta c)).

Lemma step_floor B w : 0 <= w -> floor B w -> forall s r0 h0 st b cs f lo hi,
  holds n s st cs -> Inv cs -> legal h0 -> r_draws st = (r0 + List.length h0)%nat -> lo <= hi -> 0 <= b -> tolerance thr < cost_of n target cs ->
  (forall h st2 cs2, legal h ->
     (forall g, rng_ok g -> tells g r0 h -> tells g r0 h0 /\
        compile_step g 0 (change g) s target (st, set_beta c b) = ((st2, set_beta c (next b)), Ok (cost_of n target cs2))) ->
     holds n s st2 cs2 -> Inv cs2 -> r_draws st2 = (r0 + List.length h)%nat ->
     least r0 f h lo /\ (forall x, cs2 = cs ++ x -> B x -> least r0 f h hi)) ->
  least r0 f h0 (lo + (hi - lo) * (w * exp (- c_max_beta c))).
Proof.
  intros Hw HF s r0 h0 st b cs f lo hi HH HIc HL0 HR0 Hl Hb Hcost Leaf.
  set (e := exp (- c_max_beta c)).
  assert (E0 : 0 < e <= 1). { split; [apply exp_pos|]. rewrite <- exp_0. destruct (Rle_lt_or_eq_dec _ _ Hmax) as [Y|Y]; [left; apply exp_increasing; lra|right; unfold e; f_equal; lra]. }
  set (stp := {| r_world := fst (step 0 (Product s) (r_world st)); r_draws := r_draws st |}).
  assert (HHp : holds n s stp cs).
  { destruct (holds_sees _ _ _ _ HH) as (pv & S). eapply (sees_holds n s stp cs pv).
    - apply (evolves_exact 0 (r_world st)); [apply HH|]. now apply evolves_step.
    - apply sees_other; auto. }
  assert (Hhi : lo <= lo + (hi - lo) * e). { assert (0 <= (hi - lo) * e) by (apply Rmult_le_pos; lra). lra. }
  replace (lo + (hi - lo) * (w * e)) with (lo + ((lo + (hi - lo) * e) - lo) * w) by ring.
  apply (HF s r0 h0 stp (next b) cs f lo _ HHp HIc HL0 HR0 Hhi).
  intros h st1 cs1 Lh HCh HH1 HI1 HR1. set (al := metropolis (next b) (cost_of n target cs1 - cost_of n target cs)).
  assert (Next : forall x, 0 <= x < 1 -> exists st2, let cs2 := if Rlt_dec x al then cs1 else cs in
     (forall g, rng_ok g -> tells g r0 (h ++ [(QUnif, AReal x)]) -> tells g r0 h0 /\
        compile_step g 0 (change g) s target (st, set_beta c b) = ((st2, set_beta c (next b)), Ok (cost_of n target cs2))) /\
     holds n s st2 cs2 /\ Inv cs2 /\ r_draws st2 = (r0 + List.length (h ++ [(QUnif, AReal x)]))%nat /\ legal (h ++ [(QUnif, AReal x)])).
  { intros x Px. assert (Lx := legal_snoc h QUnif (AReal x) Lh Px).
    destruct (teller r0 _ Lx) as (g0 & G0 & T0').
    assert (T0 := T0'). apply tells_snoc in T0. destruct T0 as [T0 U0]. cbn [replies] in U0. rewrite <- HR1 in U0.
    destruct (HCh g0 G0 T0) as [_ EE0].
    destruct (step_value n c change target k0 Rel Hd HT HD H1 H2 H3 g0 s st b cs cs1 st1 G0 HH EE0 HH1) as (st2 & E2 & HH2 & HR2). rewrite U0 in E2, HH2. fold al in E2, HH2.
    exists st2. cbv zeta. split; [|split; [|split; [|split]]]; auto.
    - intros g G T. apply tells_snoc in T. destruct T as [T U]. cbn [replies] in U. rewrite <- HR1 in U.
      destruct (HCh g G T) as [Th E]. split; auto.
      rewrite (step_same c change target g g0 s st b st1 E EE0) by congruence. exact E2.
    - destruct (Rlt_dec x al); auto.
    - rewrite HR2, HR1, app_length. simpl. lia. }
  assert (Ask : forall v, lo <= v -> (forall x, 0 <= x < al -> x < 1 -> least r0 f (h ++ [(QUnif, AReal x)]) v) ->
     least r0 f h (lo + (v - lo) * al)).
  { intros v Hv Hx. assert (M := metropolis_range (next b) (cost_of n target cs1 - cost_of n target cs)). fold al in M.
    apply least_ask with (q := QUnif) (F := fun a => match a with AReal x => if Rlt_dec x al then v else lo | _ => 0 end).
    - intros [x|j|l] Px; try (simpl in Px; contradiction). simpl in Px. destruct (Rlt_dec x al) as [Y|Y].
      + apply Hx; lra.
      + destruct (Next x Px) as (st2 & EE & A1 & A2 & A3 & A4). destruct (Rlt_dec x al); [contradiction|].
        now apply (Leaf _ st2 cs).
    - cbn [mean_answer]. replace (lo + (v - lo) * al) with (al * v + (1 - al) * lo) by ring. now apply (below_RInt al). }
  assert (Acc : forall x, 0 <= x < al -> x < 1 -> least r0 f (h ++ [(QUnif, AReal x)]) lo /\
    forall y, cs1 = cs ++ y -> B y -> least r0 f (h ++ [(QUnif, AReal x)]) hi).
  { intros x Hx Hx1. destruct (Next x ltac:(lra)) as (st2 & EE & A1 & A2 & A3 & A4). destruct (Rlt_dec x al); [|lra]. now apply (Leaf _ st2 cs1). }
  split.
  - replace lo with (lo + (lo - lo) * al) by ring. apply Ask; [lra|]. intros x Hx Hx1. now apply Acc.
  - intros y Ey By. apply least_lower with (m := lo + (hi - lo) * al).
    + apply Ask; auto. intros x Hx Hx1. now apply (Acc x Hx Hx1) with (y := y).
    + apply Rplus_le_compat_l, Rmult_le_compat_l; [lra|]. unfold al, e. apply metropolis_floor; auto.
      * split; [apply Rmin_glb; lra|apply Rmin_r].
      * assert (T := cost_le_1 n target cs1). assert (T' := tolerance_nonneg thr Hthr). lra.
Qed.

(** * The loop *)
Definition loop_floor (k : nat) (lam : R) : Prop :=
  forall max s r0 f m fuel b st cs costs h0, (k <= m)%nat -> holds n s st cs -> Inv cs -> legal h0 -> r_draws st = (r0 + List.length h0)%nat ->
  Z.to_nat (max - Z.of_nat (List.length costs)) = m -> (m < fuel)%nat -> 0 <= b ->
  (forall h st' b' cs' costs', legal h ->
     (forall g, rng_ok g -> tells g r0 h -> tells g r0 h0 /\
        compile_loop g 0 (change g) s target thr max costs fuel (st, set_beta c b) = ((st', set_beta c b'), Ok costs')) ->
     holds n s st' cs' -> r_draws st' = (r0 + List.length h)%nat ->
     least r0 f h 0 /\ (cost_of n target cs' <= tolerance thr -> least r0 f h 1)) ->
  least r0 f h0 lam.

(** The loop is in one of three cases: done, out of steps, or it makes a step and goes on. *)
Lemma loop_unfold B w lo hi max s r0 f m fuel b st cs costs h0 : 0 <= w -> floor B w -> 0 <= lo <= hi -> hi <= 1 ->
  holds n s st cs -> Inv cs -> legal h0 -> r_draws st = (r0 + List.length h0)%nat ->
  Z.to_nat (max - Z.of_nat (List.length costs)) = m -> (m < fuel)%nat -> 0 <= b ->
  (forall h st' b' cs' costs', legal h ->
     (forall g, rng_ok g -> tells g r0 h -> tells g r0 h0 /\
        compile_loop g 0 (change g) s target thr max costs fuel (st, set_beta c b) = ((st', set_beta c b'), Ok costs')) ->
     holds n s st' cs' -> r_draws st' = (r0 + List.length h)%nat ->
     least r0 f h 0 /\ (cost_of n target cs' <= tolerance thr -> least r0 f h 1)) ->
  (forall m' h st2 cs2, m = S m' -> legal h -> (m' < pred fuel)%nat -> 
     holds n s st2 cs2 -> Inv cs2 -> r_draws st2 = (r0 + List.length h)%nat -> 0 <= next b ->
     Z.to_nat (max - Z.of_nat (List.length (costs ++ [cost_of n target cs2]))) = m' ->
     (forall h2 st' b' cs' costs', legal h2 ->
       (forall g, rng_ok g -> tells g r0 h2 -> tells g r0 h /\
         compile_loop g 0 (change g) s target thr max (costs ++ [cost_of n target cs2]) (pred fuel) (st2, set_beta c (next b)) = ((st', set_beta c b'), Ok costs')) ->
       holds n s st' cs' -> r_draws st' = (r0 + List.length h2)%nat ->
       least r0 f h2 0 /\ (cost_of n target cs' <= tolerance thr -> least r0 f h2 1)) ->
     least r0 f h lo /\ (forall x, cs2 = cs ++ x -> B x -> least r0 f h hi)) ->
  (cost_of n target cs <= tolerance thr /\ least r0 f h0 1) \/ (tolerance thr < cost_of n target cs /\ m = 0%nat /\ least r0 f h0 0) \/
  (tolerance thr < cost_of n target cs /\ least r0 f h0 (lo + (hi - lo) * (w * exp (- c_max_beta c)))).
Proof.
  intros Hw HF Hlo Hhi HH HIc HL0 HR0 Em Hf Hb Leaf Go. destruct fuel as [|fuel]; [lia|]. cbn [pred] in Go.
  destruct (close_exact n target thr HT HD s st cs HH) as (w1 & p & E1 & HH1 & EC).
  destruct (Rle_dec (cost_of n target cs) (tolerance thr)) as [Hc|Hc].
  - left. split; auto. apply (Leaf h0 {| r_world := w1; r_draws := r_draws st |} b cs costs); auto. intros g G T. split; auto. cbn [compile_loop].
    rewrite (bind_eq _ _ _ _ _ (c_run_eq _ _ _ _ _ (call_unitary_eq _ _ _ _ _ E1))). rewrite EC. reflexivity.
  - right. destruct m as [|m].
    + left. split; [lra|]. split; auto. apply (Leaf h0 {| r_world := w1; r_draws := r_draws st |} b cs costs); auto. intros g G T. split; auto. cbn [compile_loop].
      rewrite (bind_eq _ _ _ _ _ (c_run_eq _ _ _ _ _ (call_unitary_eq _ _ _ _ _ E1))).
      rewrite EC. unfold se_bind at 1, se_lift. destruct (Z.ltb_spec (Z.of_nat (List.length costs)) max); [lia|reflexivity].
    + right. split; [lra|]. assert (LT : (Z.of_nat (List.length costs) < max)%Z) by lia.
      apply (step_floor B w Hw HF s r0 h0 {| r_world := w1; r_draws := r_draws st |} b cs f lo hi HH1 HIc HL0 HR0 ltac:(lra) Hb ltac:(lra)).
      intros h st2 cs2 Lh HS HH2 HI2 HR2.
      assert (LC : List.length (costs ++ [cost_of n target cs2]) = Datatypes.S (List.length costs)) by (rewrite app_length; simpl; lia).
      apply (Go m h st2 cs2); auto; [lia|apply Rmin_glb; lra|rewrite LC; lia|].
      intros h' st' b' cs' costs' Lh' HS' HH' HR'. apply (Leaf h' st' b' cs' costs' Lh'); auto.
      intros g G T'. destruct (HS' g G T') as [T E']. destruct (HS g G T) as [T0 E]. split; auto. cbn [compile_loop].
      rewrite (bind_eq _ _ _ _ _ (c_run_eq _ _ _ _ _ (call_unitary_eq _ _ _ _ _ E1))).
      rewrite EC. unfold se_bind at 1, se_lift.
      destruct (Z.ltb_spec (Z.of_nat (List.length costs)) max); [|lia].
      rewrite (bind_eq _ _ _ _ _ E). exact E'.
Qed.

Hypothesis HTree : floor (fun _ => False) 0.

Lemma loop_zero : loop_floor 0 0.
Proof.
  intros max s r0 f m. induction m as [|m IH]; intros fuel b st cs costs h0 _ HH HIc HL0 HR0 Em Hf Hb Leaf.
  - destruct (loop_unfold (fun _ => False) 0 0 0 max s r0 f _ fuel b st cs costs h0 ltac:(lra) HTree ltac:(lra) ltac:(lra) HH HIc HL0 HR0 Em Hf Hb Leaf)
      as [[_ X]|[(_ & _ & X)|[_ X]]].
    + intros m' h st2 cs2 E. discriminate.
    + apply least_lower with (m := 1); [exact X|lra].
    + exact X.
    + apply least_lower with (1 := X). lra.
  - destruct (loop_unfold (fun _ => False) 0 0 0 max s r0 f _ fuel b st cs costs h0 ltac:(lra) HTree ltac:(lra) ltac:(lra) HH HIc HL0 HR0 Em Hf Hb Leaf)
      as [[_ X]|[(_ & _ & X)|[_ X]]].
    + intros m' h st2 cs2 [= <-] Lh Hf2 HH2 HI2 HR2 Hb2 Em2 Leaf2. split; [|contradiction].
      exact (IH (pred fuel) _ st2 cs2 _ h ltac:(lia) HH2 HI2 Lh HR2 Em2 Hf2 Hb2 Leaf2).
    + apply least_lower with (m := 1); [exact X|lra].
    + exact X.
    + apply least_lower with (1 := X). lra.
Qed.

Notation boxes := (list ((list gatety -> Prop) * R)).
Notation prod bs := (fold_right Rmult 1 (map (fun bw : (list gatety -> Prop) * R => snd bw * exp (- c_max_beta c)) bs)).
Definition inside (bs : boxes) (xs : list (list gatety)) : Prop := Forall2 (fun bw x => fst bw x) bs xs.
Definition floors (bs : boxes) : Prop := forall bw, In bw bs -> floor (fst bw) (snd bw) /\ 0 < snd bw <= 1.

Lemma boxes_range bs : floors bs -> 0 < prod bs <= 1.
Proof.
  assert (E0 : 0 < exp (- c_max_beta c) <= 1).
  { split; [apply exp_pos|]. rewrite <- exp_0. destruct (Rle_lt_or_eq_dec _ _ Hmax) as [Y|Y]; [left; apply exp_increasing; lra|right; f_equal; lra]. }
  induction bs as [|bw t IH]; intros H; cbn [map fold_right]; [lra|]. destruct (H bw (or_introl eq_refl)) as [_ W].
  assert (X := IH (fun y Hy => H y (or_intror Hy))). set (e := exp _) in *. set (q := fold_right _ _ _) in *. clear - E0 W X.
  assert (0 < snd bw * e <= 1) by (split; [apply Rmult_lt_0_compat; lra|nra]). split; [apply Rmult_lt_0_compat; lra|nra].
Qed.

(** One more attempt. *)
Lemma attempt_floor lam k : 0 <= lam <= 1 -> loop_floor k lam -> forall bs, floors bs ->
  forall max s r0 f m fuel b st cs costs h0, (k + List.length bs <= m)%nat -> holds n s st cs -> Inv cs -> legal h0 -> r_draws st = (r0 + List.length h0)%nat ->
  Z.to_nat (max - Z.of_nat (List.length costs)) = m -> (m < fuel)%nat -> 0 <= b ->
  (forall xs, inside bs xs -> cost_of n target (cs ++ List.concat xs) <= tolerance thr) ->
  (forall h st' b' cs' costs', legal h ->
     (forall g, rng_ok g -> tells g r0 h -> tells g r0 h0 /\
        compile_loop g 0 (change g) s target thr max costs fuel (st, set_beta c b) = ((st', set_beta c b'), Ok costs')) ->
     holds n s st' cs' -> r_draws st' = (r0 + List.length h)%nat ->
     least r0 f h 0 /\ (cost_of n target cs' <= tolerance thr -> least r0 f h 1)) ->
  least r0 f h0 (lam + (1 - lam) * prod bs).
Proof.
  intros Hl HL. induction bs as [|[B w] t IH]; intros HFl max s r0 f m fuel b st cs costs h0 Hk HH HIc HL0 HR0 Em Hf Hb HC Leaf.
  - assert (Hc := HC [] ltac:(constructor)). cbn [List.concat] in Hc. rewrite app_nil_r in Hc.
    destruct (loop_unfold (fun _ => False) 0 0 0 max s r0 f m fuel b st cs costs h0 ltac:(lra) HTree ltac:(lra) ltac:(lra) HH HIc HL0 HR0 Em Hf Hb Leaf)
      as [[_ X]|[[X _]|[X _]]]; [| |lra|lra].
    + intros m' h st2 cs2 -> Lh Hf2 HH2 HI2 HR2 Hb2 Em2 Leaf2. split; [|contradiction].
      exact (loop_zero max s r0 f m' (pred fuel) _ st2 cs2 _ h ltac:(lia) HH2 HI2 Lh HR2 Em2 Hf2 Hb2 Leaf2).
    + apply least_lower with (m := 1); [exact X|]. cbn [map fold_right]. lra.
  - assert (Ht : floors t) by (intros y Hy; apply HFl; now right). destruct (HFl (B, w) (or_introl eq_refl)) as [HB Hw]. cbn [fst snd] in HB, Hw.
    assert (Q := boxes_range t Ht). assert (Q' := boxes_range _ HFl). cbn [List.length] in Hk.
    assert (P0 : 0 <= (1 - lam) * prod t) by (apply Rmult_le_pos; lra). assert (P1 : (1 - lam) * prod t <= (1 - lam) * 1) by (apply Rmult_le_compat_l; lra).
    destruct (loop_unfold B w lam (lam + (1 - lam) * prod t) max s r0 f m fuel b st cs costs h0 ltac:(lra) HB ltac:(lra) ltac:(lra) HH HIc HL0 HR0 Em Hf Hb Leaf)
      as [[_ X]|[(_ & X & _)|[_ X]]]; [| |lia|].
    + intros m' h st2 cs2 -> Lh Hf2 HH2 HI2 HR2 Hb2 Em2 Leaf2. split.
      * exact (HL max s r0 f m' (pred fuel) _ st2 cs2 _ h ltac:(lia) HH2 HI2 Lh HR2 Em2 Hf2 Hb2 Leaf2).
      * intros x -> Bx. apply (IH Ht max s r0 f m' (pred fuel) _ st2 (cs ++ x) _ h ltac:(lia) HH2 HI2 Lh HR2 Em2 Hf2 Hb2); auto.
        intros xs Hxs. rewrite <- app_assoc. apply (HC (x :: xs)). now constructor.
    + apply least_lower with (m := 1); [exact X|]. set (q := prod (_ :: _)) in *. clear - Q' Hl. nra.
    + apply least_lower with (1 := X). right. cbn [map fold_right snd]. ring.
Qed.

Lemma attempts_floor m rho : 0 < rho <= 1 ->
  (forall cs, Inv cs -> exists bs, floors bs /\ (List.length bs <= m)%nat /\ rho <= prod bs /\
    forall xs, inside bs xs -> cost_of n target (cs ++ List.concat xs) <= tolerance thr) ->
  forall j, loop_floor (j * m) (1 - (1 - rho) ^ j).
Proof.
  intros Hr HU. induction j as [|j IH].
  - cbn [Nat.mul pow]. replace (1 - 1) with 0 by ring. exact loop_zero.
  - intros max s r0 f k fuel b st cs costs h0 Hk HH HIc HL0 HR0 Em Hf Hb Leaf.
    destruct (HU cs HIc) as (bs & B1 & B2 & B3 & B4).
    assert (L : 0 <= 1 - (1 - rho) ^ j <= 1).
    { assert (0 <= (1 - rho) ^ j) by (apply pow_le; lra). assert ((1 - rho) ^ j <= 1) by (eapply Rle_trans; [apply (pow_incr _ 1); lra|rewrite pow1; lra]). lra. }
    assert (X := attempt_floor (1 - (1 - rho) ^ j) (j * m) L IH bs B1 max s r0 f k fuel b st cs costs h0
      ltac:(cbn [Nat.mul] in Hk; lia) HH HIc HL0 HR0 Em Hf Hb).
    apply least_lower with (m := 1 - (1 - rho) ^ j + (1 - (1 - (1 - rho) ^ j)) * prod bs).
    + apply X; auto.
    + cbn [pow]. set (q := prod bs) in *. set (z := (1 - rho) ^ j) in *. assert (Z : z * rho <= z * q) by (apply Rmult_le_compat_l; lra). lra.
Qed.

(** * The whole compilation *)
Hypothesis Inil : Inv [].
Hypothesis Iapp : forall a b, Inv a -> Inv b -> Inv (a ++ b).
Hypothesis Iuni : forall a, Inv a -> unitary_mx (2 ^ n) (ordered n a).
Hypothesis IBox : forall w e, Inv w -> 0 < e -> exists bs, floors bs /\
  forall a xs, Inv a -> inside bs xs -> cost_of n target (a ++ List.concat xs) <= cost_of n target (a ++ w) + e.

Lemma uniform_floor e ws : 0 < e -> (forall a, In a ws -> Inv a) -> exists m rho, (0 < m)%nat /\ 0 < rho <= 1 /\
  forall w, In w ws -> exists bs, floors bs /\ (List.length bs <= m)%nat /\ rho <= prod bs /\
    forall a xs, Inv a -> inside bs xs -> cost_of n target (a ++ List.concat xs) <= cost_of n target (a ++ w) + e.
Proof.
  intros He. induction ws as [|a ws IH]; intros H.
  - exists 1%nat, 1. split; [lia|]. split; [lra|]. intros a [].
  - destruct IH as (m & rho & Hm & Hr & IH); [intros; apply H; now right|].
    destruct (IBox a e (H a (or_introl eq_refl)) He) as (bs & HB & Ea). assert (Pp := boxes_range bs HB).
    exists (Nat.max m (List.length bs)), (Rmin rho (prod bs)). split; [lia|]. split.
    + split; [apply Rmin_glb_lt; [apply Hr|apply Pp]|]. eapply Rle_trans; [apply Rmin_l|apply Hr].
    + intros a' [<-|Ha'].
      * exists bs. repeat split; auto; try apply HB; auto; [lia|apply Rmin_r].
      * destruct (IH a' Ha') as (ys & Y1 & Y2 & Y3 & Y4). exists ys. repeat split; auto; try apply Y1; auto; [lia|].
        eapply Rle_trans; [apply Rmin_l|exact Y3].
Qed.

Lemma near_floor gts tol : Inv gts -> cost_of n target gts < tol ->
  exists m rho, (0 < m)%nat /\ 0 < rho <= 1 /\ forall cs, Inv cs -> exists bs, floors bs /\ (List.length bs <= m)%nat /\ rho <= prod bs /\
    forall xs, inside bs xs -> cost_of n target (cs ++ List.concat xs) <= tol.
Proof.
  intros HG Hc. set (e := (tol - cost_of n target gts) / 2). assert (He : 0 < e) by (unfold e; lra).
  destruct (continuations n Inv Inil Iapp Iuni target gts (tol - e) (target_unitary n target HT HD) HG) as (ws & W1 & W2); [unfold e; lra|].
  destruct (uniform_floor e ws He W1) as (m & rho & Hm & Hr & HU). exists m, rho. split; auto. split; auto.
  intros cs HIc. destruct (W2 cs HIc) as (a & Ha & Hca). destruct (HU a Ha) as (bs & B1 & B2 & B3 & B4). exists bs. repeat split; auto; try apply B1; auto.
  intros xs Hxs. specialize (B4 cs xs HIc Hxs). lra.
Qed.

Lemma found_floor gts : Inv gts -> cost_of n target gts < tolerance thr ->
  exists m rho, (0 < m)%nat /\ 0 < rho <= 1 /\ forall j, loop_floor (j * m) (1 - (1 - rho) ^ j).
Proof.
  intros HG Hc. destruct (near_floor gts (tolerance thr) HG Hc) as (m & rho & Hm & Hr & HU). exists m, rho. split; auto. split; auto.
  now apply attempts_floor.
Qed.

(** From the new sequence on. *)
Lemma start_leaf lam st b max r0 h0 f : exact_world (r_world st) -> 0 <= b -> legal h0 -> r_draws st = (r0 + List.length h0)%nat ->
  (forall s st1, holds n s st1 [] -> r_draws st1 = (r0 + List.length h0)%nat ->
   (forall h st' b' cs' costs', legal h ->
     (forall g, rng_ok g -> tells g r0 h -> tells g r0 h0 /\
        compile_loop g 0 (change g) s target thr max [] (Datatypes.S (Z.to_nat max)) (st1, set_beta c b) = ((st', set_beta c b'), Ok costs')) ->
     holds n s st' cs' -> r_draws st' = (r0 + List.length h)%nat ->
     least r0 f h 0 /\ (cost_of n target cs' <= tolerance thr -> least r0 f h 1)) ->
   least r0 f h0 lam) ->
  (forall h st' b' s cs' costs', legal h ->
     (forall g, rng_ok g -> tells g r0 h -> tells g r0 h0 /\
        compile_with g 0 (change g) target thr max (st, set_beta c b) = ((st', set_beta c b'), Ok (s, costs'))) ->
     holds n s st' cs' -> r_draws st' = (r0 + List.length h)%nat ->
     least r0 f h 0 /\ (cost_of n target cs' <= tolerance thr -> least r0 f h 1)) ->
  least r0 f h0 lam.
Proof.
  intros HX Hb HL0 HR0 HL Leaf. destruct (new_sequence_view 0 (r_world st) (c_dim c) (exact_W _ HX)) as (w1 & E & S1).
  set (s := List.length (w_seqs (r_world st))) in *. set (st1 := {| r_world := w1; r_draws := r_draws st |}).
  assert (HH : holds n s st1 []).
  { rewrite Hd in S1. apply (sees_holds n s st1 [] None); auto. apply (evolves_exact 0 (r_world st)); auto.
    assert (X := evolves_step 0 (built 0) 0 (NewSequence (c_dim c) false []) (r_world st)). rewrite E in X. now apply X. }
  assert (EC : call_sequence 0 (NewSequence (c_dim c) false []) st = (st1, Ok s)).
  { unfold call_sequence, se_bind, call. rewrite E. reflexivity. }
  apply (HL s st1 HH HR0). intros h st' b' cs' costs' Lh HS HH' HR'. apply (Leaf h st' b' s cs' costs' Lh); auto.
  intros g G T. destruct (HS g G T) as [T0 E']. split; auto.
  unfold compile_with. unfold se_bind at 1, c_self. cbn [snd]. change (c_dim (set_beta c b)) with (c_dim c).
  rewrite (bind_eq _ _ _ _ _ (c_run_eq _ _ _ _ _ EC)). rewrite (bind_eq _ _ _ _ _ E'). reflexivity.
Qed.

Lemma start_floor lam st b max : exact_world (r_world st) -> 0 <= b ->
  (forall s r0 f st1, holds n s st1 [] -> r_draws st1 = (r0 + 0)%nat ->
   (forall h st' b' cs' costs', legal h ->
     (forall g, rng_ok g -> tells g r0 h -> tells g r0 [] /\
        compile_loop g 0 (change g) s target thr max [] (Datatypes.S (Z.to_nat max)) (st1, set_beta c b) = ((st', set_beta c b'), Ok costs')) ->
     holds n s st' cs' -> r_draws st' = (r0 + List.length h)%nat ->
     least r0 f h 0 /\ (cost_of n target cs' <= tolerance thr -> least r0 f h 1)) ->
   least r0 f [] lam) ->
  least (r_draws st) (fun g => match compile_with g 0 (change g) target thr max (st, set_beta c b) with
    | ((st', _), Ok (s, costs)) => ind (cost_of n target (contents (r_world st') s) <= tolerance thr) | _ => 0 end) [] lam.
Proof.
  intros HX Hb HL. refine (start_leaf lam st b max (r_draws st) [] _ HX Hb (List.Forall_nil _) (eq_sym (Nat.add_0_r _)) _ _).
  { intros s st1. apply HL. }
  intros h st' b' s cs' costs' Lh HS HH' HR'.
  assert (V : forall g, rng_ok g -> tells g (r_draws st) h ->
    match compile_with g 0 (change g) target thr max (st, set_beta c b) with
    | ((st', _), Ok (s, costs)) => ind (cost_of n target (contents (r_world st') s) <= tolerance thr) | _ => 0 end =
    ind (cost_of n target cs' <= tolerance thr)).
  { intros g G T. destruct (HS g G T) as [_ ->]. now rewrite (proj2 (proj2 HH')). }
  split.
  - apply least_known. intros g G T. rewrite V by auto. apply ind_range.
  - intros Hok. apply least_known. intros g G T. rewrite V, ind_true by auto. lra.
Qed.

Lemma with_floor gts : Inv gts -> cost_of n target gts < tolerance thr ->
  exists m rho, (0 < m)%nat /\ 0 < rho <= 1 /\ forall st b max, exact_world (r_world st) -> 0 <= b ->
    least (r_draws st) (fun g => match compile_with g 0 (change g) target thr max (st, set_beta c b) with
      | ((st', _), Ok (s, costs)) => ind (cost_of n target (contents (r_world st') s) <= tolerance thr) | _ => 0 end) []
      (1 - (1 - rho) ^ (Z.to_nat max / m)).
Proof.
  intros HG Hc. destruct (found_floor gts HG Hc) as (m & rho & Hm & Hr & HL). exists m, rho. split; auto. split; auto.
  intros st b max HX Hb. apply start_floor; auto. intros s r0 f st1 HH HR Leaf.
  apply (HL (Z.to_nat max / m)%nat max s r0 f (Z.to_nat max) (Datatypes.S (Z.to_nat max)) b st1 [] [] []); auto.
  - rewrite Nat.mul_comm. apply Nat.mul_div_le. lia.
  - constructor.
  - simpl. lia.
Qed.

(** One attempt, from the empty sequence. *)
Lemma once_floor bs st b max : floors bs -> (Z.of_nat (List.length bs) <= max)%Z -> exact_world (r_world st) -> 0 <= b ->
  (forall xs, inside bs xs -> cost_of n target (List.concat xs) <= tolerance thr) ->
  least (r_draws st) (fun g => match compile_with g 0 (change g) target thr max (st, set_beta c b) with
    | ((st', _), Ok (s, costs)) => ind (cost_of n target (contents (r_world st') s) <= tolerance thr) | _ => 0 end) [] (prod bs).
Proof.
  intros HB Hmx HX Hb HC. apply start_floor; auto. intros s r0 f st1 HH HR Leaf.
  replace (prod bs) with (0 + (1 - 0) * prod bs) by ring.
  apply (attempt_floor 0 0 ltac:(lra) loop_zero bs HB max s r0 f (Z.to_nat max) (Datatypes.S (Z.to_nat max)) b st1 [] [] []); auto.
  - lia.
  - constructor.
  - simpl. lia.
Qed.
End Run.
