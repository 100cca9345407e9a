(** Proofs about the compiler in an inexact arithmetic. *)
From Coq Require Import Reals List Arith Bool Lia Lra Psatz String Setoid Morphisms.
From Coquelicot Require Import Rcomplements Complex.
From Verif Require Import Base CMat CMatFacts Det DetFacts CRoot Norms ModelUnitary ModelEntry
  ModelRound ModelRoundComp Spec SpecModel SpecRound SpecRoundComp
  PUnitary PBits PEmbed PEntry PDrift PHamRun PSeqNear PSeqProps PRound PRoundProps.
Import ListNotations.
Open Scope R_scope.
Open Scope C_scope.

Section Comp.
Variables (ar : arith) (eps mu : R).
Hypothesis He : (0 <= eps)%R.
Hypothesis Hm : (0 <= mu)%R.
Variable n : nat.
Hypothesis Ha : forall k, (k <= n)%nat -> accurate ar mu (2 ^ k).
Notation Err := (err (eta eps mu)).
Notation Lim := (lim (eta eps mu)).
Notation inv := (rinv eps mu n).

Lemma LM c1 c2 : (c1 <= c2)%nat -> Lim n c2 -> Lim n c1.
Proof. intros H L. eapply rlim_mono; [exact He | exact Hm | exact H | exact L]. Qed.

(** ** Distances *)
Lemma dist_near c1 c2 G H a b : rnear eps mu n c1 G a -> rnear eps mu n c2 H b -> Lim n (c1 + c2 + 2) ->
  exists x, r_distance_from ar eps a b = Ok x /\
    (Rabs (x - (1 - overlap (2 ^ n) G H)) <= Err n (c1 + 1 + c2) + INR (2 ^ n) * mu + mu)%R.
Proof.
  intros Na Nb L. assert (Z := eta0 eps mu He Hm).
  destruct (rnear_inverse ar eps mu He Hm n Ha n c1 G a (le_n n) Na) as (i & Ei & Ni); [eapply LM; [|exact L]; lia|].
  assert (Da := proj1 Na). assert (Db := proj1 Nb).
  exists (a_dist ar (2 ^ n) (a_mul ar (2 ^ n) (u_mat i) (u_mat b))). split.
  { unfold r_distance_from. rewrite Da, Db, Nat.eqb_refl. unfold assert. cbn [bind]. rewrite Ei. reflexivity. }
  destruct Nb as (_ & Sb & _ & Fb). destruct Ni as (_ & Si & _ & Fi).
  assert (ES : forall c, (c <= c1 + c2 + 2)%nat -> (Err n c <= / 4)%R).
  { intros c Hc. destruct (LM c _ Hc L) as [L1 _]. replace (10 ^ 10)%R with 10000000000%R in L1 by ring. lra. }
  assert (Bi : bounded2 (2 ^ n) (u_mat i)).
  { apply (near_bounded _ (adj G) _ (Err n (S c1))); auto; [apply Si|]. assert (X := ES (S c1) ltac:(lia)). lra. }
  assert (Bb : bounded2 (2 ^ n) (u_mat b)).
  { apply (near_bounded _ H _ (Err n c2)); auto; [apply Sb|]. assert (X := ES c2 ltac:(lia)). lra. }
  assert (AC := Ha n (le_n n)).
  assert (Wm := acc_mul _ _ _ AC _ _ Bi Bb).
  set (X := a_mul ar (2 ^ n) (u_mat i) (u_mat b)) in *.
  assert (FX := within_fro mu _ _ _ Hm Wm).
  assert (F1 := fro_product (2 ^ n) _ _ _ _ _ _ (proj1 Si) (proj1 Sb) Fi Fb).
  rewrite <- err_add in F1.
  assert (FXG : (fro (2 ^ n) (mminus X (mmul (2 ^ n) (adj G) H)) <= Err n (c1 + 1 + c2) + INR (2 ^ n) * mu)%R).
  { eapply Rle_trans; [apply fro_minus_triangle with (B := mmul (2 ^ n) (u_mat i) (u_mat b))|].
    replace (S c1 + c2)%nat with (c1 + 1 + c2)%nat in F1 by lia. lra. }
  assert (U : unitary_mx (2 ^ n) (mmul (2 ^ n) (adj G) H)) by (apply unitary_mmul; [apply Si|apply Sb]).
  assert (P2 : (1 <= INR (2 ^ n))%R) by (change 1%R with (INR 1); apply le_INR; assert (T := pow2_pos n); lia).
  assert (SM := lim_small eps mu He Hm n (c1 + c2 + 1)). rewrite <- Nat.add_succ_r in SM.
  specialize (SM L).
  assert (DM : (INR (2 ^ n) * mu <= / 2000)%R).
  { eapply Rle_trans; [|exact SM]. rewrite <- (Rmult_1_l (INR (2 ^ n) * mu)) at 1.
    apply Rmult_le_compat_r; [apply Rmult_le_pos; lra | exact P2]. }
  assert (BX : bounded2 (2 ^ n) X).
  { apply (near_bounded _ _ _ _ U FXG). assert (T := ES (c1 + 1 + c2)%nat ltac:(lia)). lra. }
  assert (AD := acc_dist _ _ _ AC X BX).
  assert (T := trace_near (2 ^ n) X (mmul (2 ^ n) (adj G) H) (pow2_pos n)).
  unfold overlap. apply Rabs_le. apply Rabs_le_between in AD. apply Rabs_le_between in T. lra.
Qed.

Variable target : unitary.
Hypothesis Ht : r_gate ar eps mu target.
Hypothesis Dt : u_dim target = (2 ^ n)%nat.

Definition cost (es : list (unitary * list nat)) : R := (1 - overlap (2 ^ n) (u_mat target) (ordered n es))%R.

Lemma mu_xi : (INR (2 ^ n) * mu + mu <= xi (eta eps mu) n)%R.
Proof.
  unfold xi, kappa0, eta. assert (S1 := sqrt_INR_ge1 (2 ^ n) (pow2_pos n)).
  assert (P2 : (1 <= INR (2 ^ n))%R) by (change 1%R with (INR 1); apply le_INR; assert (T := pow2_pos n); lia).
  set (D := INR (2 ^ n)) in *. set (s := sqrt D) in *.
  assert (mu <= D * mu)%R by nra. assert (0 <= D * mu)%R by lra. assert (0 <= D * eps)%R by nra.
  assert (D * mu <= D * mu * s)%R by nra. assert (0 <= D * eps * s)%R by nra.
  replace (8 / 5 * D * (s + 1) * (eps + 9 * mu))%R with
    (8 / 5 * (D * eps * s) + 8 / 5 * (D * eps) + 72 / 5 * (D * mu * s) + 72 / 5 * (D * mu))%R by field.
  lra.
Qed.

Lemma overlap_near A A' B B' x y : unitary_mx (2 ^ n) A -> unitary_mx (2 ^ n) B ->
  (fro (2 ^ n) (mminus A' A) <= x)%R -> (fro (2 ^ n) (mminus B' B) <= y)%R ->
  (Rabs (overlap (2 ^ n) A' B' - overlap (2 ^ n) A B) <= x + y + x * y)%R.
Proof.
  intros UA UB HA HB. assert (T := trace_near (2 ^ n) (mmul (2 ^ n) (adj A') B') (mmul (2 ^ n) (adj A) B) (pow2_pos n)).
  unfold overlap. eapply Rle_trans; [exact T|].
  apply fro_product; auto; [now apply unitary_adj | now rewrite fro_adj_minus].
Qed.

Lemma cost_near K es q pv : inv K q es pv -> Lim n (7 + 9 * K) -> forall p, r_product ar eps q = Ok p ->
  (exists x, r_distance_from ar eps target p = Ok x /\ (Rabs (x - cost es) <= Err n (7 + 9 * K))%R) /\
  (exists x, r_distance_from ar eps p target = Ok x /\ (Rabs (x - cost es) <= Err n (7 + 9 * K))%R).
Proof.
  intros I L p Ep. assert (Z := eta0 eps mu He Hm).
  destruct (rproduct_ok ar eps mu He Hm n Ha n K q es pv (le_n n) I) as (p' & hs & Ep' & HF & Np);
    [eapply LM; [|exact L]; lia|].
  rewrite Ep in Ep'. injection Ep' as <-.
  destruct (r_gate_ideal ar eps mu He Hm n Ha target n n Ht Dt (le_n n) (le_n n)) as (G & SG & DG & FG);
    [eapply LM; [|exact L]; lia|].
  rewrite Dt in SG, DG, FG.
  assert (Nt : rnear eps mu n 2 G target).
  { split; auto. split; auto. split; auto. eapply Rle_trans; [exact FG|]. apply err_2; auto. }
  assert (O := rordered_near eps mu He Hm n es hs HF).
  assert (ON := overlap_near _ _ _ _ _ _ (proj1 SG) (ridl_ordered eps mu n es hs HF) (proj2 (proj2 (proj2 Nt)))
                  O).
  rewrite <- err_add in ON.
  assert (M := err_mono _ Z n (2 + 2 * List.length es) (2 + 2 * K) ltac:(destruct I as (_ & _ & _ & (Y & _) & _); lia)).
  assert (A := err_add (eta eps mu) n (4 + 7 * K) (2 + 2 * K)).
  assert (S' := err_S _ Z n (4 + 7 * K + (2 + 2 * K))).
  replace (S (4 + 7 * K + (2 + 2 * K))) with (7 + 9 * K)%nat in S' by lia.
  assert (P1 := err_pos _ Z n (4 + 7 * K)). assert (P2 := err_pos _ Z n (2 + 2 * K)).
  assert (0 <= Err n (4 + 7 * K) * Err n (2 + 2 * K))%R by now apply Rmult_le_pos.
  assert (MX := mu_xi). apply Rabs_le_between in ON.
  split.
  - destruct (dist_near 2 (1 + 7 * K) G (ordered n hs) target p Nt Np) as (x & Ex & Bx); [eapply LM; [|exact L]; lia|].
    exists x. split; [exact Ex|]. replace (2 + 1 + (1 + 7 * K))%nat with (4 + 7 * K)%nat in Bx by lia.
    unfold cost. apply Rabs_le. apply Rabs_le_between in Bx. lra.
  - destruct (dist_near (1 + 7 * K) 2 (ordered n hs) G p target Np Nt) as (x & Ex & Bx); [eapply LM; [|exact L]; lia|].
    exists x. split; [exact Ex|]. replace (1 + 7 * K + 1 + 2)%nat with (4 + 7 * K)%nat in Bx by lia.
    rewrite overlap_sym in Bx. unfold cost. apply Rabs_le. apply Rabs_le_between in Bx. lra.
Qed.

(** ** Changes *)
Lemma keep_ok K q es pv : inv K q es pv -> Lim n (1 + 7 * K) ->
  exists q' p, r_keep ar eps q = Ok (q', p) /\ r_product ar eps q' = Ok p /\ inv K q' es pv /\
    rs_product q' = Some p.
Proof.
  intros I L. destruct (rproduct_ok ar eps mu He Hm n Ha n K q es pv (le_n n) I L) as (p & hs & Ep & HF & Np).
  destruct I as (A & B & C & D & E & F). unfold r_keep. cbn [r_step]. rewrite Ep. cbn [bind].
  eexists. exists p. split; [reflexivity|]. split; [reflexivity|]. split; [|reflexivity].
  split; [exact A|]. split; [exact B|]. split; [exact C|]. split; [|split; [discriminate|exact F]].
  cbn. split; [apply D|]. exists hs. auto.
Qed.

Lemma keep_again q p : rs_product q = Some p -> r_keep ar eps q = Ok (q, p).
Proof.
  intros E. unfold r_keep. cbn [r_step]. unfold r_product at 1. rewrite E. cbn [bind].
  unfold r_product. cbn [rs_product bind]. destruct q; cbn in *. now rewrite E.
Qed.

Lemma undo_ok K q es es' : inv K q es (Some es') ->
  exists q', r_step ar eps q RUndo = Ok q' /\ inv K q' es' None.
Proof.
  intros (A & B & C & D & E & F). cbn [r_step]. rewrite C. eexists. split; [reflexivity|].
  split; [exact A|]. split; [reflexivity|]. split; [reflexivity|]. split; [exact F|]. split; reflexivity.
Qed.

Lemma more_ok (mk : unitary * list nat -> rop) (put : unitary * list nat -> list (unitary * list nat) -> list (unitary * list nat)) :
  (forall K g q es pv, inv K q es pv -> Lim n (1 + 7 * S K) ->
     r_gate ar eps mu (fst g) -> placement n (snd g) -> (2 ^ List.length (snd g))%nat = u_dim (fst g) ->
     exists q', r_step ar eps q (mk g) = Ok q' /\ inv (S K) q' (put g es) pv) ->
  forall gs, (forall g, In g gs -> r_gate ar eps mu (fst g) /\ placement n (snd g) /\ (2 ^ List.length (snd g))%nat = u_dim (fst g)) ->
  forall K q es pv, inv K q es pv -> Lim n (1 + 7 * (K + List.length gs)) ->
  exists q', r_run ar eps q (map mk gs) = Ok q' /\ inv (K + List.length gs) q' (fold_left (fun l g => put g l) gs es) pv.
Proof.
  intros Hs gs. induction gs as [|g gs IH]; intros Hg K q es pv I L; cbn [map r_run fold_left List.length] in *.
  - exists q. rewrite Nat.add_0_r. auto.
  - destruct (Hg g (or_introl eq_refl)) as (H1 & H2 & H3).
    destruct (Hs K g q es pv I) as (q1 & E1 & I1); auto; [eapply LM; [|exact L]; lia|].
    rewrite E1. cbn [bind]. rewrite Nat.add_succ_r in *.
    destruct (IH (fun g' H => Hg g' (or_intror H)) (S K) q1 _ pv I1 L) as (q' & E' & I'). exists q'. auto.
Qed.

Lemma pops_first_ok k : forall K q es pv, inv K q es pv -> Lim n (1 + 7 * (K + k)) ->
  exists q', r_run ar eps q (repeat (RPopFirst false) k) = Ok q' /\ inv (K + k) q' (skipn k es) pv.
Proof.
  induction k as [|k IH]; intros K q es pv I L; cbn [repeat r_run].
  - exists q. rewrite Nat.add_0_r. auto.
  - destruct es as [|g es].
    + assert (B := proj1 (proj2 I)). replace (r_step ar eps q (RPopFirst false)) with (Ok q)
        by (cbn [r_step]; now rewrite B). cbn [bind].
      destruct (IH K q [] pv I) as (q' & E & I'); [eapply LM; [|exact L]; lia|].
      exists q'. split; auto. rewrite skipn_nil in *. eapply rinv_mono; [exact He|exact Hm| |exact I']. lia.
    + destruct (rstep_pop_first ar eps mu He Hm n Ha n K false q g es pv (le_n n) I) as (q1 & E1 & I1);
        [eapply LM; [|exact L]; lia|].
      rewrite E1. cbn [bind skipn]. rewrite Nat.add_succ_r in *. apply (IH (S K) q1 es pv I1 L).
Qed.

Lemma pops_last_ok k : forall K q es pv, inv K q es pv -> Lim n (1 + 7 * (K + k)) ->
  exists q', r_run ar eps q (repeat (RPopLast false) k) = Ok q' /\ inv (K + k) q' (firstn (List.length es - k) es) pv.
Proof.
  induction k as [|k IH]; intros K q es pv I L; cbn [repeat r_run].
  - exists q. rewrite Nat.add_0_r, Nat.sub_0_r, firstn_all. auto.
  - destruct es as [|g0 es0] eqn:Ees.
    + assert (B := proj1 (proj2 I)). replace (r_step ar eps q (RPopLast false)) with (Ok q)
        by (cbn [r_step]; now rewrite B). cbn [bind].
      destruct (IH K q [] pv I) as (q' & E & I'); [eapply LM; [|exact L]; lia|].
      exists q'. split; auto. rewrite firstn_nil in *. eapply rinv_mono; [exact He|exact Hm| |exact I']. lia.
    + rewrite <- Ees in *. destruct (exists_last (l := es)) as (es1 & g & Eg); [congruence|]. clear Ees. subst es.
      destruct (rstep_pop_last ar eps mu He Hm n Ha n K false q g es1 pv (le_n n) I) as (q1 & E1 & I1);
        [eapply LM; [|exact L]; lia|].
      rewrite E1. cbn [bind]. rewrite Nat.add_succ_r in *.
      destruct (IH (S K) q1 es1 pv I1 L) as (q' & E' & I'). exists q'. split; auto.
      rewrite app_length. cbn [List.length]. replace (List.length es1 + 1 - S k)%nat with (List.length es1 - k)%nat by lia.
      rewrite firstn_app. replace (List.length es1 - k - List.length es1)%nat with 0%nat by lia.
      cbn [firstn]. now rewrite app_nil_r.
Qed.

Lemma fold_cons {A} (gs : list A) : forall es, fold_left (fun l g => g :: l) gs es = rev gs ++ es.
Proof. induction gs as [|g gs IH]; intros es; [reflexivity|]. cbn [fold_left rev]. rewrite IH, <- app_assoc. reflexivity. Qed.
Lemma fold_snoc {A} (gs : list A) : forall es, fold_left (fun l g => l ++ [g]) gs es = es ++ gs.
Proof. induction gs as [|g gs IH]; intros es; cbn [fold_left]; [now rewrite app_nil_r|]. rewrite IH, <- app_assoc. reflexivity. Qed.

(** Either nothing at all happens, or the state before was saved. *)
Lemma change_ok c K q es pv : r_ops_ok ar eps mu n (change_ops c) -> inv K q es pv ->
  Lim n (1 + 7 * (K + List.length (change_ops c))) ->
  exists q', r_run ar eps q (change_ops c) = Ok q' /\
    ((q' = q /\ changed c es = es) \/ inv (K + List.length (change_ops c)) q' (changed c es) (Some es)).
Proof.
  intros Hok I L. destruct c as [gs|gs|k|k].
  - destruct gs as [|g gs]; [exists q; split; [reflexivity|]; left; auto|].
    cbn [change_ops changed] in *. cbn [List.length] in *. rewrite map_length in *.
    assert (Hg : forall g', In g' (g :: gs) -> r_gate ar eps mu (fst g') /\ placement n (snd g') /\ (2 ^ List.length (snd g'))%nat = u_dim (fst g')).
    { intros g' [<-|H]; [apply (Hok (RFirst g true) g); simpl; auto|].
      apply (Hok (RFirst g' false) g'); [right; apply in_map_iff; eauto|simpl; auto]. }
    destruct (Hg g (or_introl eq_refl)) as (H1 & H2 & H3).
    destruct (proj1 (rstep_app ar eps mu He Hm n Ha n K (RFirst g true) g true q es pv (le_n n) I ltac:(eapply LM; [|exact L]; lia) H1 H2 H3) eq_refl)
      as (q1 & E1 & I1).
    cbn [r_run]. rewrite E1. cbn [bind]. rewrite Nat.add_succ_r in *.
    destruct (more_ok (fun g => RFirst g false) (fun g l => g :: l)) with (gs := gs) (K := S K) (q := q1) (es := g :: es) (pv := Some es)
      as (q' & E' & I'); auto.
    + intros K0 g0 q0 es0 pv0 I0 L0 G1 G2 G3.
      apply (proj1 (rstep_app ar eps mu He Hm n Ha n K0 (RFirst g0 false) g0 false q0 es0 pv0 (le_n n) I0 L0 G1 G2 G3) eq_refl).
    + intros g' H. apply Hg. now right.
    + exists q'. split; auto. right. rewrite fold_cons in I'. cbn [rev]. rewrite <- app_assoc. exact I'.
  - destruct gs as [|g gs]; [exists q; split; [reflexivity|]; left; split; [reflexivity|]; cbn; apply app_nil_r|].
    cbn [change_ops changed] in *. cbn [List.length] in *. rewrite map_length in *.
    assert (Hg : forall g', In g' (g :: gs) -> r_gate ar eps mu (fst g') /\ placement n (snd g') /\ (2 ^ List.length (snd g'))%nat = u_dim (fst g')).
    { intros g' [<-|H]; [apply (Hok (RLast g true) g); simpl; auto|].
      apply (Hok (RLast g' false) g'); [right; apply in_map_iff; eauto|simpl; auto]. }
    destruct (Hg g (or_introl eq_refl)) as (H1 & H2 & H3).
    destruct (proj2 (rstep_app ar eps mu He Hm n Ha n K (RLast g true) g true q es pv (le_n n) I ltac:(eapply LM; [|exact L]; lia) H1 H2 H3) eq_refl)
      as (q1 & E1 & I1).
    cbn [r_run]. rewrite E1. cbn [bind]. rewrite Nat.add_succ_r in *.
    destruct (more_ok (fun g => RLast g false) (fun g l => l ++ [g])) with (gs := gs) (K := S K) (q := q1) (es := es ++ [g]) (pv := Some es)
      as (q' & E' & I'); auto.
    + intros K0 g0 q0 es0 pv0 I0 L0 G1 G2 G3.
      apply (proj2 (rstep_app ar eps mu He Hm n Ha n K0 (RLast g0 false) g0 false q0 es0 pv0 (le_n n) I0 L0 G1 G2 G3) eq_refl).
    + intros g' H. apply Hg. now right.
    + exists q'. split; auto. right. rewrite fold_snoc, <- app_assoc in I'. exact I'.
  - destruct k as [|k]; [exists q; split; [reflexivity|]; left; auto|].
    cbn [change_ops changed] in *. cbn [List.length] in *. rewrite repeat_length in *. rewrite Nat.add_succ_r in *.
    destruct es as [|g es].
    + assert (B := proj1 (proj2 I)). exists q. split; [|left; auto]. clear - B.
      assert (S1 : forall b, r_step ar eps q (RPopFirst b) = Ok q) by (intros b; cbn [r_step]; now rewrite B).
      cbn [r_run]. rewrite S1. cbn [bind]. induction k as [|k IH]; [reflexivity|]. cbn [repeat r_run]. now rewrite S1.
    + destruct (rstep_pop_first ar eps mu He Hm n Ha n K true q g es pv (le_n n) I) as (q1 & E1 & I1);
        [eapply LM; [|exact L]; lia|].
      cbn [r_run]. rewrite E1. cbn [bind skipn].
      destruct (pops_first_ok k (S K) q1 es _ I1 L) as (q' & E' & I'). exists q'. auto.
  - destruct k as [|k]; [exists q; split; [reflexivity|]; left; split; [reflexivity|]; cbn [changed]; now rewrite Nat.sub_0_r, firstn_all|].
    cbn [change_ops changed] in *. cbn [List.length] in *. rewrite repeat_length in *. rewrite Nat.add_succ_r in *.
    destruct es as [|g0 es0] eqn:Ees.
    + assert (B := proj1 (proj2 I)). exists q. split; [|left; split; [reflexivity|apply firstn_nil]]. clear - B.
      assert (S1 : forall b, r_step ar eps q (RPopLast b) = Ok q) by (intros b; cbn [r_step]; now rewrite B).
      cbn [r_run]. rewrite S1. cbn [bind]. induction k as [|k IH]; [reflexivity|]. cbn [repeat r_run]. now rewrite S1.
    + rewrite <- Ees in *. destruct (exists_last (l := es)) as (es1 & g & Eg); [congruence|]. clear Ees. subst es.
      destruct (rstep_pop_last ar eps mu He Hm n Ha n K true q g es1 pv (le_n n) I) as (q1 & E1 & I1);
        [eapply LM; [|exact L]; lia|].
      cbn [r_run]. rewrite E1. cbn [bind].
      destruct (pops_last_ok k (S K) q1 es1 _ I1 L) as (q' & E' & I'). exists q'. split; auto. right.
      rewrite app_length. cbn [List.length]. replace (List.length es1 + 1 - S k)%nat with (List.length es1 - k)%nat by lia.
      rewrite firstn_app. replace (List.length es1 - k - List.length es1)%nat with 0%nat by lia.
      cbn [firstn]. now rewrite app_nil_r.
Qed.

(** ** The loop *)
Lemma loop_ok B close : forall steps K q es pv, r_steps_ok ar eps mu n steps -> inv K q es pv ->
  Lim n (7 + 9 * (K + change_calls steps)) -> (Err n (7 + 9 * (K + change_calls steps)) <= B)%R ->
  exists q' es' costs pv', r_compile_loop ar eps target close steps q = Ok (q', costs) /\
    inv (K + change_calls steps) q' es' pv' /\ annealed cost B close es steps es' costs.
Proof.
  assert (Z := eta0 eps mu He Hm).
  induction steps as [|s t IH]; intros K q es pv Hok I L HB.
  - cbn [change_calls fold_right] in *. rewrite Nat.add_0_r in *. cbn [r_compile_loop].
    destruct (keep_ok K q es pv I ltac:(eapply LM; [|exact L]; lia)) as (q' & p & Ek & Ep & I' & _).
    rewrite Ek. cbn [bind fst snd].
    destruct (proj2 (cost_near K es q' pv I' L p Ep)) as (x & Ex & Bx). rewrite Ex. cbn [bind].
    exists q', es, [], pv. split; [destruct (close x); reflexivity|]. split; [exact I'|].
    destruct (close x) eqn:EC; [apply annealed_close with x|apply annealed_end with x]; auto; lra.
  - cbn [change_calls fold_right] in *. fold (change_calls t) in *.
    set (k := List.length (change_ops (rp_change s))) in *.
    destruct (Hok s (or_introl eq_refl)) as [Hs Hacc].
    destruct (keep_ok K q es pv I ltac:(eapply LM; [|exact L]; lia)) as (q0 & p0 & Ek & Ep & I0 & P0).
    cbn [r_compile_loop]. rewrite Ek. cbn [bind fst snd].
    assert (LK : Lim n (7 + 9 * K)) by (eapply LM; [|exact L]; lia).
    assert (LK' : Lim n (7 + 9 * (K + k))) by (eapply LM; [|exact L]; lia).
    assert (EK : (Err n (7 + 9 * K) <= B)%R) by (eapply Rle_trans; [apply err_mono; [exact Z|]|exact HB]; lia).
    assert (EK' : (Err n (7 + 9 * (K + k)) <= B)%R) by (eapply Rle_trans; [apply err_mono; [exact Z|]|exact HB]; lia).
    destruct (cost_near K es q0 pv I0 LK p0 Ep) as [(c & Ec & Bc) (x & Ex & Bx)].
    rewrite Ex. cbn [bind]. destruct (close x) eqn:EC.
    { exists q0, es, [], pv. split; [reflexivity|]. split; [eapply rinv_mono; [exact He|exact Hm| |exact I0]; lia|].
      apply annealed_close with x; auto. lra. }
    unfold r_compile_step. rewrite (keep_again q0 p0 P0). cbn [bind fst snd].
    destruct (change_ok (rp_change s) K q0 es pv Hs I0 ltac:(fold k; eapply LM; [|exact L]; lia)) as (q1 & E1 & HC).
    rewrite E1. cbn [bind]. rewrite Ec. cbn [bind].
    destruct HC as [[-> HC]|I1].
    + rewrite (keep_again q0 p0 P0). cbn [bind fst snd]. rewrite Ec. cbn [bind]. rewrite Hacc. cbn [bind fst snd].
      destruct (IH (K + k)%nat q0 es pv) as (q' & es' & costs & pv' & E' & I' & A').
      * intros s' H. apply Hok. now right.
      * eapply rinv_mono; [exact He|exact Hm| |exact I0]. lia.
      * now rewrite <- Nat.add_assoc.
      * now rewrite <- Nat.add_assoc.
      * rewrite E'. cbn [bind fst snd]. rewrite <- Nat.add_assoc in I'.
        exists q', es', (c :: costs), pv'. split; [reflexivity|]. split; [exact I'|].
        assert (ST := annealed_step cost B close es s t es' costs x c c). cbv zeta in ST.
        rewrite Hacc, HC in ST. apply ST; auto; lra.
    + fold k in I1.
      destruct (keep_ok (K + k) q1 _ _ I1 ltac:(eapply LM; [|exact L]; lia)) as (q2 & p2 & Ek2 & Ep2 & I2 & P2).
      rewrite Ek2. cbn [bind fst snd].
      destruct (proj1 (cost_near (K + k) _ q2 _ I2 LK' p2 Ep2)) as (y & Ey & By).
      rewrite Ey. cbn [bind].
      assert (ST := fun es' costs => annealed_step cost B close es s t es' costs x c y). cbv zeta in ST.
      destruct (rp_accept s c y) eqn:EA; cbn [bind fst snd].
      * destruct (IH (K + k)%nat q2 (changed (rp_change s) es) (Some es)) as (q' & es' & costs & pv' & E' & I' & A');
          [intros s' H; apply Hok; now right|exact I2|now rewrite <- Nat.add_assoc|now rewrite <- Nat.add_assoc|].
        rewrite E'. cbn [bind fst snd]. rewrite <- Nat.add_assoc in I'.
        exists q', es', (y :: costs), pv'. split; [reflexivity|]. split; [exact I'|]. apply ST; auto; lra.
      * destruct (undo_ok (K + k) q2 _ es I2) as (q3 & E3 & I3). rewrite E3. cbn [bind fst snd].
        destruct (IH (K + k)%nat q3 es None) as (q' & es' & costs & pv' & E' & I' & A');
          [intros s' H; apply Hok; now right|exact I3|now rewrite <- Nat.add_assoc|now rewrite <- Nat.add_assoc|].
        rewrite E'. cbn [bind fst snd]. rewrite <- Nat.add_assoc in I'.
        exists q', es', (c :: costs), pv'. split; [reflexivity|]. split; [exact I'|]. apply ST; auto; lra.
Qed.
End Comp.

Lemma round_compile : forall ar eps mu n target close steps,
  small_round eps mu n (change_calls steps) ->
  (forall k, (k <= n)%nat -> accurate ar mu (2 ^ k)) ->
  r_gate ar eps mu target -> u_dim target = (2 ^ n)%nat -> r_steps_ok ar eps mu n steps ->
  let B := round_bound eps mu n (change_calls steps) in
  exists q costs p,
    r_compile ar eps (2 ^ n) target close steps = Ok (q, costs) /\
    annealed (fun es => 1 - overlap (2 ^ n) (u_mat target) (ordered n es))%R B close [] steps (rs_entries q) costs /\
    r_product ar eps q = Ok p /\ u_dim p = (2 ^ n)%nat /\
    (fro (2 ^ n) (mminus (u_mat p) (ordered n (rs_entries q))) <= B)%R.
Proof.
  intros ar eps mu n target close steps HS Ha Ht Dt Hok B.
  destruct (small_round_lim _ _ _ _ HS) as [HB L]. destruct HS as (He & Hm & _). fold B in HB.
  set (K := change_calls steps) in *.
  destruct (loop_ok ar eps mu He Hm n Ha target Ht Dt B close steps 0 (r_empty (2 ^ n)) [] None Hok) as (q & es & costs & pv & E & I & A).
  - split; [reflexivity|]. split; [reflexivity|]. split; [reflexivity|].
    split; [|split; reflexivity]. split; [apply le_n|]. exists []. split; [constructor|]. exact I.
  - exact L.
  - exact HB.
  - change (0 + change_calls steps)%nat with K in I. assert (B' := proj1 (proj2 I)).
    destruct (rproduct_ok ar eps mu He Hm n Ha n K q es pv (le_n n) I) as (p & hs & Ep & HF & (Dp & Sp & _ & Fp)).
    { eapply rlim_mono; [assumption|assumption| |exact L]. lia. }
    exists q, costs, p. split; [exact E|]. rewrite B'. split; [exact A|]. split; [exact Ep|]. split; [exact Dp|].
    assert (O := rordered_near eps mu He Hm n es hs HF).
    eapply Rle_trans; [apply fro_minus_triangle with (B := ordered n hs)|].
    rewrite (fro_minus_sym _ (ordered n hs)).
    assert (Z := eta0 eps mu He Hm).
    assert (M := err_mono _ Z n (2 * List.length es) (2 * K) ltac:(destruct I as (_ & _ & _ & (X & _) & _); lia)).
    assert (A' := err_add (eta eps mu) n (1 + 7 * K) (2 * K)).
    assert (M' := err_mono _ Z n (1 + 7 * K + 2 * K) (7 + 9 * K) ltac:(lia)).
    assert (P1 := err_pos _ Z n (1 + 7 * K)). assert (P2 := err_pos _ Z n (2 * K)).
    assert (0 <= err (eta eps mu) n (1 + 7 * K) * err (eta eps mu) n (2 * K))%R by now apply Rmult_le_pos.
    lra.
Qed.
