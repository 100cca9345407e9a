(** QDRIFT sequences are close to the exact evolution with high chance: C103. *)
From Coq Require Import Reals List Arith Bool String ZArith Lra Lia.
From Coquelicot Require Import Coquelicot.
From Verif Require Import Base CMat CMatFacts Det DetFacts Norms CRoot Expm ExpmFacts ExpmBounds ModelUnitary ModelEntry
  ModelPrimitive ModelSequence ModelCompiler ModelVerification ModelGates ModelHamiltonian Spec SpecModel
  SpecCompiler SpecGates SpecHamiltonian SpecChannel SpecChain SpecFloor PUnitary PDrift PEntry PSeqNear
  PCompRun PHam PHamTerm PHamSeq PHamRun PHamTrot PHamQd PDecimalOp PChannel PHamChan.
Import ListNotations.
Set Bullet Behavior "Strict Subproofs".
Open Scope R_scope.
Open Scope C_scope.

(** * One random step, acting on one side *)
Lemma ev_mul_deriv n A Y s : mderiv n (fun s => mmul n (ev n A s) Y) s (mmul n (mscale Ci A) (mmul n (ev n A s) Y)).
Proof.
  eapply mderiv_val; [|apply mderiv_mul_r, (epath_deriv n (mscale Ci A) s)]. unfold ev. now rewrite mmul_assoc.
Qed.

Lemma fro_Ci n A : fro n (mscale Ci A) = fro n A.
Proof. rewrite fro_mscale. replace (Cmod Ci) with 1%R; [ring|]. unfold Cmod, Ci. cbn [fst snd]. replace (0 ^ 2 + 1 ^ 2)%R with 1%R by ring. now rewrite sqrt_1. Qed.

Lemma left_taylor n A a Y : (0 <= a)%R -> hermitian_mx n A -> opb n A a ->
  (fro n (mminus (mminus (mmul n (ev n A 1) Y) Y) (mmul n (mscale Ci A) Y)) <= a ^ 2 * fro n Y / 2)%R.
Proof.
  intros A0 HA H. assert (YP := fro_nonneg n Y).
  assert (K := taylor_mat n (fun s => mmul n (ev n A s) Y) (fun s => mmul n (mscale Ci A) (mmul n (ev n A s) Y))
    (fun s => mmul n (mscale Ci A) (mmul n (mscale Ci A) (mmul n (ev n A s) Y))) (a ^ 2 * fro n Y)).
  eapply Rle_trans; [|apply K].
  - right. apply fro_proper. cbv beta.
    assert (E0 : meq n (mmul n (ev n A 0) Y) Y) by (rewrite ev_0; apply mmul_1_l).
    assert (E1 : meq n (mmul n (mscale Ci A) (mmul n (ev n A 0) Y)) (mmul n (mscale Ci A) Y)) by now rewrite E0.
    intros i j Hi Hj. unfold mminus. now rewrite (E0 i j Hi Hj), (E1 i j Hi Hj).
  - apply Rmult_le_pos; [nra|exact YP].
  - intros s. apply ev_mul_deriv.
  - intros s. apply mderiv_mul_l, ev_mul_deriv.
  - intros s.
    assert (G : forall Z, (fro n (mmul n (mscale Ci A) Z) <= a * fro n Z)%R).
    { intros Z. rewrite (fro_proper n _ (mscale Ci (mmul n A Z))) by apply mmul_mscale_l. rewrite fro_Ci. now apply opb_l. }
    eapply Rle_trans; [apply G|]. assert (K1 := G (mmul n (ev n A s) Y)).
    rewrite (fro_unitary_l n (ev n A s) Y) in K1 by (now apply ev_unitary). nra.
Qed.

Section Steps.
Variable n m : nat.
Variable p : nat -> R.
Variable A : nat -> mat.
Variable a : R.
Hypothesis a0 : (0 <= a)%R.
Hypothesis p0 : forall k, (k < m)%nat -> (0 <= p k)%R.
Hypothesis p1 : rsum m p = 1%R.
Hypothesis hA : forall k, (k < m)%nat -> hermitian_mx n (A k).
Hypothesis bA : forall k, (k < m)%nat -> opb n (A k) a.
Let B : mat := wsum m p A.

Lemma left_close Y :
  (fro n (mminus (wsum m p (fun k => mmul n (ev n (A k) 1) Y)) (mmul n (ev n B 1) Y)) <= a ^ 2 * fro n Y)%R.
Proof.
  assert (HB : hermitian_mx n B) by (now apply step_hermitian).
  assert (OB : opb n B a) by (now apply (step_opb n m p A a)).
  assert (T := left_taylor n B a Y a0 HB OB). assert (YP := fro_nonneg n Y).
  set (R1 := mminus (mminus (mmul n (ev n B 1) Y) Y) (mmul n (mscale Ci B) Y)) in *.
  set (Rk := fun k => mminus (mminus (mmul n (ev n (A k) 1) Y) Y) (mmul n (mscale Ci (A k)) Y)).
  assert (EC : meq n (wsum m p (fun k => mmul n (mscale Ci (A k)) Y)) (mmul n (mscale Ci B) Y)).
  { assert (E1 : meq n (mscale Ci B) (wsum m p (fun k => mscale Ci (A k)))).
    { intros i j _ _. unfold mscale, B, wsum. rewrite <- csum_mult_l. apply csum_ext. intros. ring. }
    rewrite E1. symmetry. apply wsum_mmul_r. }
  assert (ES : meq n (wsum m p Rk) (mminus (mminus (wsum m p (fun k => mmul n (ev n (A k) 1) Y)) Y) (mmul n (mscale Ci B) Y))).
  { unfold Rk. rewrite wsum_minus.
    assert (E1 := wsum_minus n m p (fun k => mmul n (ev n (A k) 1) Y) (fun _ => Y)).
    assert (E2 := wsum_const n m p Y p1).
    intros i j Hi Hj. unfold mminus. rewrite <- (EC i j Hi Hj), <- (E2 i j Hi Hj) at 1.
    specialize (E1 i j Hi Hj). unfold mminus in E1. rewrite E1. reflexivity. }
  assert (FS : (fro n (wsum m p Rk) <= a ^ 2 * fro n Y / 2)%R).
  { eapply Rle_trans; [apply wsum_fro, p0|].
    apply Rle_trans with (rsum m (fun k => (a ^ 2 * fro n Y / 2) * p k)%R).
    - apply rsum_le. intros k Hk. rewrite Rmult_comm. apply Rmult_le_compat_r; [now apply p0|].
      unfold Rk. apply left_taylor; auto.
    - rewrite rsum_mult_l, p1. lra. }
  assert (K := fro_minus_triangle n (wsum m p Rk) mzero R1).
  replace (fro n (mminus (wsum m p Rk) mzero)) with (fro n (wsum m p Rk)) in K
    by (apply fro_proper; intros i j _ _; unfold mminus, mzero; ring).
  replace (fro n (mminus mzero R1)) with (fro n R1) in K
    by (rewrite fro_minus_sym; apply fro_proper; intros i j _ _; unfold mminus, mzero; ring).
  eapply Rle_trans; [|eapply Rle_trans; [exact K|lra]].
  right. apply fro_proper. intros i j Hi Hj. unfold mminus at 2. rewrite (ES i j Hi Hj). unfold R1, mminus. ring.
Qed.

(** * Many steps *)
Fixpoint mixed (N : nat) (Y : mat) : mat :=
  match N with O => Y | S N' => wsum m p (fun k => mixed N' (mmul n (ev n (A k) 1) Y)) end.

Lemma mixed_close N : forall Y,
  (fro n (mminus (mixed N Y) (mmul n (ev n B (INR N)) Y)) <= INR N * (a ^ 2 * fro n Y))%R.
Proof.
  assert (HB : hermitian_mx n B) by (now apply step_hermitian).
  induction N as [|N IH]; intros Y.
  - simpl INR. rewrite Rmult_0_l. rewrite fro_minus_self; [lra|]. cbn [mixed]. now rewrite ev_0, mmul_1_l.
  - cbn [mixed]. rewrite S_INR, Rmult_plus_distr_r, Rmult_1_l.
    set (Z := fun k => mmul n (ev n (A k) 1) Y).
    change (fun k => mixed N (mmul n (ev n (A k) 1) Y)) with (fun k => mixed N (Z k)).
    assert (UB : unitary_mx n (ev n B (INR N))) by (now apply ev_unitary).
    eapply Rle_trans; [apply (fro_minus_triangle n _ (mmul n (ev n B (INR N)) (wsum m p Z)))|].
    apply Rplus_le_compat.
    + replace (fro n (mminus (wsum m p (fun k => mixed N (Z k))) (mmul n (ev n B (INR N)) (wsum m p Z))))
        with (fro n (wsum m p (fun k => mminus (mixed N (Z k)) (mmul n (ev n B (INR N)) (Z k))))).
      * eapply Rle_trans; [apply wsum_fro, p0|].
        apply Rle_trans with (rsum m (fun k => (INR N * (a ^ 2 * fro n Y)) * p k)%R).
        -- apply rsum_le. intros k Hk. rewrite Rmult_comm. apply Rmult_le_compat_r; [now apply p0|].
           eapply Rle_trans; [apply IH|]. unfold Z. rewrite fro_unitary_l; [lra|]. apply ev_unitary. now apply hA.
        -- rewrite rsum_mult_l, p1. lra.
      * apply fro_proper. rewrite wsum_minus. assert (E := wsum_mmul_l n m p (ev n B (INR N)) Z).
        intros i j Hi Hj. unfold mminus. now rewrite (E i j Hi Hj).
    + eapply Rle_trans; [|apply (left_close Y)]. right. fold Z.
      rewrite <- (fro_unitary_l n (ev n B (INR N)) (mminus (wsum m p Z) (mmul n (ev n B 1) Y))) by exact UB.
      apply fro_proper.
      assert (E : meq n (mmul n (ev n B (INR N + 1)) Y) (mmul n (ev n B (INR N)) (mmul n (ev n B 1) Y))).
      { rewrite ev_add. symmetry. apply mmul_assoc. }
      rewrite mmul_mminus_r. intros i j Hi Hj. unfold mminus. now rewrite (E i j Hi Hj).
Qed.

(** * Means over lists of choices *)
Fixpoint choices (N : nat) (G : list nat -> R) : R :=
  match N with O => G [] | S N' => rsum m (fun k => (p k * choices N' (fun ks => G (k :: ks)))%R) end.

Lemma choices_le N : forall F G, (forall ks, List.length ks = N -> List.Forall (fun k => (k < m)%nat) ks -> (F ks <= G ks)%R) ->
  (choices N F <= choices N G)%R.
Proof.
  induction N as [|N IH]; intros F G H; cbn [choices]; [apply H; [reflexivity|constructor]|].
  apply rsum_le. intros k Hk. apply Rmult_le_compat_l; [now apply p0|]. apply IH. intros ks L Hks.
  apply H; [simpl; lia|constructor; assumption].
Qed.

Lemma choices_ext N : forall F G, (forall ks, F ks = G ks) -> choices N F = choices N G.
Proof.
  induction N as [|N IH]; intros F G H; cbn [choices]; [apply H|].
  apply rsum_ext. intros k Hk. f_equal. apply IH. intros. apply H.
Qed.

Lemma choices_affine N b c : forall F, choices N (fun ks => (b + c * F ks)%R) = (b + c * choices N F)%R.
Proof.
  induction N as [|N IH]; intros F; cbn [choices]; [reflexivity|].
  rewrite (rsum_ext m _ (fun k => (b * p k + c * (p k * choices N (fun ks => F (k :: ks))))%R)).
  - rewrite rsum_plus, !rsum_mult_l, p1. ring.
  - intros k Hk. rewrite (IH (fun ks => F (k :: ks))). ring.
Qed.

Definition kprod (ks : list nat) : mat := lprod n (map (fun k => ev n (A k) 1) ks).

Lemma kprod_unitary ks : List.Forall (fun k => (k < m)%nat) ks -> unitary_mx n (kprod ks).
Proof.
  unfold kprod. induction 1 as [|k ks Hk _ IH]; cbn [map lprod fold_right]; [apply unitary_mid|].
  apply unitary_mmul; [exact IH|]. apply ev_unitary. now apply hA.
Qed.

Lemma cip_wsum Z X : cip n Z (wsum m p X) = csum m (fun k => RtoC (p k) * cip n Z (X k)).
Proof.
  unfold cip, wsum.
  rewrite (csum_ext m (fun k => RtoC (p k) * csum n (fun i => csum n (fun j => Cconj (Z i j) * X k i j)))
             (fun k => csum n (fun i => csum n (fun j => Cconj (Z i j) * (RtoC (p k) * X k i j))))).
  - rewrite (csum_swap m n). apply csum_ext. intros i _. rewrite (csum_swap m n). apply csum_ext. intros j _.
    now rewrite <- csum_mult_l.
  - intros k _. rewrite <- csum_mult_l. apply csum_ext. intros i _. rewrite <- csum_mult_l. apply csum_ext. intros j _. ring.
Qed.

Lemma choices_cip N : forall Z Y, choices N (fun ks => Re (cip n Z (mmul n (kprod ks) Y))) = Re (cip n Z (mixed N Y)).
Proof.
  induction N as [|N IH]; intros Z Y; cbn [choices mixed].
  - f_equal. apply cip_meq. unfold kprod. cbn [map lprod fold_right]. apply mmul_1_l.
  - rewrite cip_wsum.
    assert (PR : forall f, Re (csum m f) = rsum m (fun k => Re (f k))).
    { intros f. apply part_rsum; [|reflexivity]. intros [x y] [x' y']. reflexivity. }
    rewrite PR. apply rsum_ext. intros k Hk.
    assert (S : forall (r : R) z, Re (RtoC r * z) = (r * Re z)%R) by (intros r [u v]; simpl; ring).
    rewrite S. f_equal. rewrite <- IH. apply choices_ext. intros ks. f_equal. apply cip_meq.
    unfold kprod. cbn [map lprod fold_right]. symmetry. apply mmul_assoc.
Qed.

Lemma cip_trace Z X : cip n Z X = mtrace n (mmul n (adj Z) X).
Proof.
  unfold cip, mtrace, mmul, adj. rewrite (csum_swap n n). reflexivity.
Qed.

(** The mean distance of the random product from the evolution of the mean. *)
Lemma choices_distance N : (0 < n)%nat ->
  (choices N (fun ks => (1 - overlap n (ev n B (INR N)) (kprod ks))%R) <= INR N * a ^ 2)%R.
Proof.
  intros N0. assert (n0 : (0 < INR n)%R) by (apply lt_0_INR; exact N0).
  assert (HB : hermitian_mx n B) by (now apply step_hermitian).
  set (E := ev n B (INR N)). assert (UE : unitary_mx n E) by (now apply ev_unitary).
  apply Rle_trans with (choices N (fun ks => (1 + (- / INR n) * Re (cip n E (mmul n (kprod ks) mid)))%R)).
  - apply choices_le. intros ks _ _. unfold overlap. rewrite <- cip_trace.
    rewrite (cip_meq n E (mmul n (kprod ks) mid) (kprod ks)) by apply mmul_1_r.
    assert (K : (Re (cip n E (kprod ks)) <= Cmod (cip n E (kprod ks)))%R).
    { eapply Rle_trans; [apply Rle_abs|]. eapply Rle_trans; [apply Rmax_l|apply Rmax_Cmod]. }
    apply (Rmult_le_compat_r (/ INR n)) in K; [|apply Rlt_le, Rinv_0_lt_compat, n0]. unfold Rdiv. lra.
  - rewrite choices_affine, choices_cip.
    assert (M := mixed_close N mid). fold B in M. fold E in M.
    assert (FM : fro n mid = sqrt (INR n)) by (apply fro_unitary, unitary_mid).
    assert (C1 := cip_bound n E (mminus (mixed N mid) (mmul n E mid))).
    rewrite cip_minus in C1.
    assert (EE : cip n E (mmul n E mid) = RtoC (INR n)).
    { rewrite (cip_meq n E (mmul n E mid) E) by apply mmul_1_r. rewrite cip_self. f_equal. rewrite <- fro_sqr, (fro_unitary n E UE). apply pow2_sqrt. lra. }
    rewrite EE in C1. rewrite (fro_unitary n E UE) in C1.
    assert (C2 : (INR n - Re (cip n E (mixed N mid)) <= Cmod (cip n E (mixed N mid) - RtoC (INR n)))%R).
    { eapply Rle_trans; [|eapply Rle_trans; [apply Rmax_l|apply Rmax_Cmod]]. cbn [fst Cminus Cplus Copp RtoC].
      change (Re (cip n E (mixed N mid))) with (fst (cip n E (mixed N mid))).
      rewrite <- Rabs_Ropp. eapply Rle_trans; [|apply Rle_abs]. unfold Cminus, Cplus, Copp, RtoC. cbn [fst]. lra. }
    rewrite FM in M.
    assert (SS : (sqrt (INR n) * sqrt (INR n) = INR n)%R) by (apply sqrt_sqrt; lra).
    assert (S0 := sqrt_pos (INR n)).
    assert (C3 : (INR n - Re (cip n E (mixed N mid)) <= INR N * a ^ 2 * INR n)%R).
    { eapply Rle_trans; [exact C2|]. eapply Rle_trans; [exact C1|].
      eapply Rle_trans; [apply Rmult_le_compat_l; [exact S0|exact M]|]. right. rewrite <- SS at 3. ring. }
    apply (Rmult_le_compat_r (/ INR n)) in C3; [|apply Rlt_le, Rinv_0_lt_compat, n0].
    replace ((INR n - Re (cip n E (mixed N mid))) * / INR n)%R with (1 + - / INR n * Re (cip n E (mixed N mid)))%R in C3 by (field; lra).
    replace (INR N * a ^ 2 * INR n * / INR n)%R with (INR N * a ^ 2)%R in C3 by (field; lra). exact C3.
Qed.
End Steps.

(** * Uniform draws *)
Lemma mean_choices cs : cs <> [] -> (forall c, In c cs -> (0 < c)%R) ->
  forall N G, mean N (fun xs => G (map (sel cs) xs))
    (choices (List.length cs) (fun k => (nth k cs 0 / fold_right Rplus 0 cs)%R) N G).
Proof.
  intros NE P. induction N as [|N IH]; intros G; cbn [mean choices]; [reflexivity|].
  set (m := List.length cs) in *. set (p := fun k => (nth k cs 0 / fold_right Rplus 0 cs)%R) in *.
  exists (fun x => choices m p N (fun ks => G (sel cs x :: ks))). split.
  - intros x _. cbn [map]. apply (IH (fun ks => G (sel cs x :: ks))).
  - exact (step_mean cs (fun k => choices m p N (fun ks => G (k :: ks))) NE P).
Qed.

Lemma seq_snoc r k : seq r (S k) = seq r k ++ [(r + k)%nat].
Proof. apply seq_S. Qed.

Lemma mean_average_from r f : forall N ys m, mean N (fun xs => f (ys ++ xs)) m ->
  SpecChain.average r (fun g => f (map (g_unif g) (seq r (List.length ys + N)))) (map (fun x => (QUnif, AReal x)) ys) m.
Proof.
  induction N as [|N IH]; intros ys m H.
  - cbn [mean] in H. apply average_known. intros g _ T. rewrite <- H, Nat.add_0_r, app_nil_r. f_equal.
    apply nth_ext with (d := 0%R) (d' := 0%R); [now rewrite map_length, seq_length|].
    intros i Hi. rewrite map_length, seq_length in Hi.
    assert (X := T i (QUnif, AReal (nth i ys 0%R))). cbn in X.
    rewrite (nth_indep _ 0%R (g_unif g 0%nat)) by (rewrite map_length, seq_length; exact Hi).
    rewrite map_nth, seq_nth by exact Hi. apply X.
    rewrite nth_error_map. rewrite (nth_error_nth' ys 0%R Hi). reflexivity.
  - cbn [mean] in H. destruct H as (F & H & I).
    apply average_ask with (q := QUnif) (F := fun a => match a with AReal x => F x | _ => 0%R end).
    + intros [x|k|l] Hx; cbn in Hx; try contradiction.
      assert (K := IH (ys ++ [x]) (F x)). rewrite map_app, app_length in K. cbn [map List.length] in K.
      replace (List.length ys + 1 + N)%nat with (List.length ys + S N)%nat in K by lia. apply K.
      eapply mean_ext; [|apply H; exact Hx]. intros xs. cbv beta. now rewrite <- app_assoc.
    + exact I.
Qed.

Lemma mean_average r N f m : mean N f m -> SpecChain.average r (fun g => f (map (g_unif g) (seq r N))) [] m.
Proof. intros H. apply (mean_average_from r f N [] m). eapply mean_ext; [|exact H]. reflexivity. Qed.

(** * QDRIFT *)
Definition qd_gen (Ms : list mat) (cs : list R) (t : R) (N : nat) (k : nat) : mat :=
  mscale (RtoC (fold_right Rplus 0%R cs * t / INR N / nth k cs 0)) (nth k Ms mzero).
Definition qd_mean (n : nat) (Ms : list mat) (cs : list R) (t : R) (N : nat) (E : mat) : R :=
  choices (List.length cs) (fun k => (nth k cs 0 / fold_right Rplus 0 cs)%R) N
    (fun ks => (1 - overlap (2 ^ n) E (kprod (2 ^ n) (qd_gen Ms cs t N) ks))%R).

Lemma qd_facts n Ms cs h t N E : (1 <= n)%nat -> (1 <= N)%nat ->
  hamiltonian_of (2 ^ n) Ms h -> Forall2 (operator_norm (2 ^ n)) Ms cs -> evolution (2 ^ n) (total Ms) t E ->
  cs <> [] /\ (forall c, In c cs -> (0 < c)%R) /\ cs = coefficients h /\
  (forall k, (k < List.length cs)%nat -> hermitian_mx (2 ^ n) (qd_gen Ms cs t N k)) /\
  (qd_mean n Ms cs t N E <= (fold_right Rplus 0 cs * t) ^ 2 / INR N)%R /\ (0 <= qd_mean n Ms cs t N E)%R /\
  unitary_mx (2 ^ n) E.
Proof.
  intros N1 NN HH FC HE.
  destruct (ham_facts _ _ _ HH) as (_ & D & NE & F).
  assert (LT := F2_length _ _ _ F). assert (LC := F2_length _ _ _ FC).
  assert (EC : cs = coefficients h) by (unfold coefficients; eapply coefficients_norms; eauto).
  assert (CP : forall c, In c cs -> (0 < c)%R).
  { rewrite EC. unfold coefficients. clear - F. intros c Hc. apply in_map_iff in Hc. destruct Hc as (x & <- & Hx).
    induction F as [|M y Ms ts H F IH]; [destruct Hx|]. destruct Hx as [<-|Hx]; [apply H|auto]. }
  assert (CN : cs <> []) by (destruct cs, Ms; simpl in *; congruence).
  assert (SP := sumR_pos cs CN CP). rewrite sumR_fold in SP.
  set (s := fold_right Rplus 0%R cs) in *. set (d := (2 ^ n)%nat) in *.
  assert (NP : (0 < INR N)%R) by (apply lt_0_INR; lia).
  assert (d0 : (0 < d)%nat) by (unfold d; assert (X := Nat.pow_nonzero 2 n ltac:(lia)); lia).
  set (p := fun k => (nth k cs 0 / s)%R). set (a := Rabs (s * t / INR N)).
  assert (NC : forall k, (k < List.length cs)%nat -> (0 < nth k cs 0)%R) by (intros; apply CP, nth_In; assumption).
  set (qg := qd_gen Ms cs t N).
  assert (HA : forall k, (k < List.length cs)%nat -> hermitian_mx d (qg k)).
  { intros k Hk. unfold qg, qd_gen. apply hermitian_scale.
    assert (Hk' : (k < List.length Ms)%nat) by lia. clear - F Hk'. revert k Hk'.
    induction F as [|M y Ms ts H F IH]; intros [|k] L; simpl in L; try lia; cbn [nth]; [apply H|apply IH; lia]. }
  assert (BA : forall k, (k < List.length cs)%nat -> opb d (qg k) a).
  { intros k Hk. unfold qg, qd_gen. fold s.
    replace a with (Rabs (s * t / INR N / nth k cs 0) * nth k cs 0)%R.
    - apply opb_scale. assert (Hk' : (k < List.length Ms)%nat) by lia. clear - FC Hk'. revert k Hk'.
      induction FC as [|M c Ms cs H F IH]; intros [|k] L; simpl in L; try lia; cbn [nth]; [exact (proj1 H)|apply IH; lia].
    - unfold a, Rdiv. rewrite (Rabs_mult _ (/ nth k cs 0)), (Rabs_pos_eq (/ nth k cs 0)).
      + field. assert (X0 := NC k Hk). lra.
      + apply Rlt_le, Rinv_0_lt_compat. now apply NC. }
  assert (P0 : forall k, (k < List.length cs)%nat -> (0 <= p k)%R).
  { intros k Hk. unfold p. apply Rlt_le, Rdiv_lt_0_compat; auto. }
  assert (P1 : rsum (List.length cs) p = 1%R).
  { unfold p, Rdiv. rewrite <- (Rinv_r s) by lra. rewrite (rsum_ext _ _ (fun k => (/ s * nth k cs 0)%R)) by (intros; ring).
    rewrite rsum_mult_l, Rmult_comm. f_equal. unfold s. clear.
    assert (RS : forall n f, rsum (S n) f = (f O + rsum n (fun k => f (S k)))%R).
    { induction n as [|n IH]; intros f; [simpl; ring|]. cbn [rsum] in *. rewrite IH. ring. }
    induction cs as [|c l IH]; [reflexivity|]. cbn [List.length fold_right]. rewrite RS. cbn [nth]. now rewrite IH. }
  assert (EB : meq d (ev d (wsum (List.length cs) p qg) (INR N)) E).
  { rewrite (evolution_ev _ _ _ _ HE), !ev_expm. apply expm_meq. intros i j _ _. unfold mscale, wsum.
    rewrite total_csum, LC, <- !csum_mult_l. apply csum_ext. intros k Hk. unfold qg, qd_gen, p, mscale. fold s.
    assert (X0 := NC k Hk).
    replace (RtoC t) with (RtoC (INR N) * (RtoC (nth k cs 0 / s) * RtoC (s * t / INR N / nth k cs 0))).
    - ring.
    - rewrite <- !RtoC_mult. f_equal. field. repeat split; lra. }
  assert (HB : hermitian_mx d (wsum (List.length cs) p qg)) by (now apply step_hermitian).
  assert (UE : unitary_mx d E).
  { assert (X := ev_unitary d _ (INR N) HB). unfold unitary_mx in *. rewrite <- EB. exact X. }
  assert (OE : forall ks, overlap d E (kprod d qg ks) = overlap d (ev d (wsum (List.length cs) p qg) (INR N)) (kprod d qg ks)).
  { intros ks. unfold overlap. do 2 f_equal. apply csum_ext. intros i Hi.
    assert (X : meq d (mmul d (adj E) (kprod d qg ks)) (mmul d (adj (ev d (wsum (List.length cs) p qg) (INR N))) (kprod d qg ks)))
      by (now rewrite EB). now apply X. }
  split; [exact CN|]. split; [exact CP|]. split; [exact EC|]. split; [exact HA|]. split; [|split; [|exact UE]].
  - unfold qd_mean. fold d s qg. change (fun k => (nth k cs 0 / s)%R) with p.
    rewrite (choices_ext _ p N _ (fun ks => (1 - overlap d (ev d (wsum (List.length cs) p qg) (INR N)) (kprod d qg ks))%R))
      by (intros ks; now rewrite OE).
    eapply Rle_trans; [apply (choices_distance d (List.length cs) p qg a (Rabs_pos _) P0 P1 HA BA N d0)|].
    right. unfold a. rewrite pow2_abs. field. lra.
  - unfold qd_mean. fold d s qg. change (fun k => (nth k cs 0 / s)%R) with p.
    replace 0%R with (0 + 0 * choices (List.length cs) p N (fun _ => 0))%R by ring.
    rewrite <- (choices_affine (List.length cs) p P1 N 0 0 (fun _ => 0%R)).
    apply choices_le; [exact P0|]. intros ks _ Hks.
    assert (X := overlap_le_1 d E (kprod d qg ks)).
    enough (overlap d E (kprod d qg ks) <= 1)%R by lra. apply X; auto. now apply (kprod_unitary d (List.length cs)).
Qed.

Lemma rprod_kprod n Ms cs t N xs :
  rprod (2 ^ n) cs (qd_gen Ms cs t N) xs = kprod (2 ^ n) (qd_gen Ms cs t N) (map (sel cs) xs).
Proof. unfold rprod, kprod. now rewrite map_map. Qed.

Lemma C103_mean_lemma : forall n Ms cs h t N E, (1 <= n)%nat -> (1 <= N)%nat ->
  hamiltonian_of (2 ^ n) Ms h -> Forall2 (operator_norm (2 ^ n)) Ms cs -> evolution (2 ^ n) (total Ms) t E ->
  exists P : list R -> mat,
    (forall g eps st, rng_ok g -> small_drift eps n (2 * N) -> reachable eps (r_world st) ->
       exists st' s p c, qdrift_sequence eps g h t (Z.of_nat N) st = (st', Ok s) /\
         answers eps (r_world st') s p /\ Cmod c = 1%R /\
         (fro (2 ^ n) (mminus (u_mat p) (mscale c (P (map (g_unif g) (seq (r_draws st) N)))))
            <= drift_bound eps n (2 * N))%R) /\
    exists m, mean N (fun xs => (1 - overlap (2 ^ n) E (P xs))%R) m /\
      (0 <= m <= (fold_right Rplus 0 cs * t) ^ 2 / INR N)%R.
Proof.
  intros n Ms cs h t N E N1 NN HH FC HE.
  destruct (qd_facts n Ms cs h t N E N1 NN HH FC HE) as (CN & CP & EC & _ & U & L & _).
  exists (rprod (2 ^ n) cs (qd_gen Ms cs t N)). split.
  - intros g eps st RG SD RE. exact (qdrift_product g eps n Ms cs h t N st RG N1 NN SD HH EC RE).
  - exists (qd_mean n Ms cs t N E). split; [|split; assumption].
    eapply mean_ext; [|apply (mean_choices cs CN CP N)]. intros xs. cbv beta.
    now rewrite <- (rprod_kprod n Ms cs t N xs).
Qed.

(** [overlap] moves by at most the distance in the Frobenius norm. *)
Lemma overlap_moves d T A B : (0 < d)%nat -> unitary_mx d T -> (overlap d T A - overlap d T B <= fro d (mminus A B))%R.
Proof.
  intros d0 UT. assert (G := overlap_gap d T A B d0 UT). assert (FP := fro_nonneg d (mminus A B)).
  assert (S1 : (1 <= sqrt (INR d))%R).
  { rewrite <- sqrt_1. apply sqrt_le_1_alt. change 1%R with (INR 1). apply le_INR. lia. }
  assert (RA := Rle_abs (overlap d T A - overlap d T B)). assert (R0 := Rabs_pos (overlap d T A - overlap d T B)). nra.
Qed.

Lemma C103_chance_lemma : forall n Ms cs h t N E eps st delta, (1 <= n)%nat -> (1 <= N)%nat ->
  hamiltonian_of (2 ^ n) Ms h -> Forall2 (operator_norm (2 ^ n)) Ms cs -> evolution (2 ^ n) (total Ms) t E ->
  small_drift eps n (2 * N) -> reachable eps (r_world st) -> (0 < delta)%R ->
  chance_at_least (r_draws st)
    (fun g => exists st' s p, qdrift_sequence eps g h t (Z.of_nat N) st = (st', Ok s) /\ answers eps (r_world st') s p /\
       (1 - overlap (2 ^ n) E (u_mat p) <= delta + drift_bound eps n (2 * N))%R)
    (1 - (fold_right Rplus 0 cs * t) ^ 2 / (INR N * delta))%R.
Proof.
  intros n Ms cs h t N E eps st delta N1 NN HH FC HE SD RE DP.
  destruct (qd_facts n Ms cs h t N E N1 NN HH FC HE) as (CN & CP & EC & HA & U & L & UE).
  assert (d0 : (0 < 2 ^ n)%nat) by (assert (X := Nat.pow_nonzero 2 n ltac:(lia)); lia).
  assert (NP : (0 < INR N)%R) by (apply lt_0_INR; lia).
  set (P := rprod (2 ^ n) cs (qd_gen Ms cs t N)).
  exists (fun g => (1 + (- / delta) * (1 - overlap (2 ^ n) E (P (map (g_unif g) (seq (r_draws st) N)))))%R), (1 + (- / delta) * qd_mean n Ms cs t N E)%R.
  assert (DI : (0 < / delta)%R) by (now apply Rinv_0_lt_compat).
  split; [|split].
  - intros g RG. destruct (qdrift_product g eps n Ms cs h t N st RG N1 NN SD HH EC RE) as (st' & s & p & c & Es & An & Hc & Hp).
    fold (qd_gen Ms cs t N) in Hp. change (fun k => mscale (RtoC (fold_right Rplus 0%R cs * t / INR N / nth k cs 0)) (nth k Ms mzero)) with (qd_gen Ms cs t N) in Hp.
    fold P in Hp. set (Q := P (map (g_unif g) (seq (r_draws st) N))) in *.
    unfold ind. destruct (ClassicalEpsilon.excluded_middle_informative _) as [_|Hn].
    + assert (X : (overlap (2 ^ n) E Q <= 1)%R).
      { unfold Q, P. rewrite rprod_kprod. apply overlap_le_1; auto. apply (kprod_unitary (2 ^ n) (List.length cs)); [exact HA|].
        apply List.Forall_forall. intros k Hk. apply in_map_iff in Hk. destruct Hk as (x & <- & Hx).
        unfold sel. destruct (find _ _) eqn:Ef; [apply find_some in Ef; destruct Ef as [Ef _]; apply in_seq in Ef; lia|].
        destruct cs; [congruence|simpl; lia]. }
      assert ((0 <= / delta * (1 - overlap (2 ^ n) E Q))%R) by (apply Rmult_le_pos; lra). lra.
    + assert (X : (delta < 1 - overlap (2 ^ n) E Q)%R).
      { apply Rnot_le_lt. intros Hle. apply Hn. exists st', s, p. split; [exact Es|]. split; [exact An|].
        assert (OM := overlap_moves (2 ^ n) E (mscale c Q) (u_mat p) d0 UE).
        rewrite overlap_phase_r in OM by exact Hc. rewrite fro_minus_sym in OM. lra. }
      apply (Rmult_lt_compat_l (/ delta)) in X; [|exact DI]. rewrite Rinv_l in X by lra. lra.
  - apply (mean_average (r_draws st) N (fun xs => (1 + (- / delta) * (1 - overlap (2 ^ n) E (P xs)))%R)).
    destruct (ham_facts _ _ _ HH) as (_ & _ & _ & F).
    assert (P1 : rsum (List.length cs) (fun k => (nth k cs 0 / fold_right Rplus 0 cs)%R) = 1%R).
    { assert (SP := sumR_pos cs CN CP). rewrite sumR_fold in SP. set (s := fold_right Rplus 0%R cs) in *.
      unfold Rdiv. rewrite <- (Rinv_r s) by lra. rewrite (rsum_ext _ _ (fun k => (/ s * nth k cs 0)%R)) by (intros; ring).
      rewrite rsum_mult_l, Rmult_comm. f_equal. unfold s. clear.
      assert (RS : forall n f, rsum (S n) f = (f O + rsum n (fun k => f (S k)))%R).
      { induction n as [|n IH]; intros f; [simpl; ring|]. cbn [rsum] in *. rewrite IH. ring. }
      induction cs as [|c l IH]; [reflexivity|]. cbn [List.length fold_right]. rewrite RS. cbn [nth]. now rewrite IH. }
    unfold qd_mean. rewrite <- (choices_affine _ _ P1).
    eapply mean_ext; [|apply (mean_choices cs CN CP N)]. intros xs. cbv beta. unfold P. now rewrite rprod_kprod.
  - assert (X : (/ delta * qd_mean n Ms cs t N E <= / delta * ((fold_right Rplus 0 cs * t) ^ 2 / INR N))%R) by (apply Rmult_le_compat_l; lra).
    replace ((fold_right Rplus 0 cs * t) ^ 2 / (INR N * delta))%R with (/ delta * ((fold_right Rplus 0 cs * t) ^ 2 / INR N))%R by (field; lra). lra.
Qed.

Lemma C103_limit_lemma : forall n Ms h t E delta q, (1 <= n)%nat ->
  hamiltonian_of (2 ^ n) Ms h -> evolution (2 ^ n) (total Ms) t E -> (0 < delta)%R -> (q < 1)%R ->
  exists N0, forall N st, (N0 <= N)%nat -> reachable 0 (r_world st) ->
  chance_at_least (r_draws st)
    (fun g => exists st' s p, qdrift_sequence 0 g h t (Z.of_nat N) st = (st', Ok s) /\ answers 0 (r_world st') s p /\
       (1 - overlap (2 ^ n) E (u_mat p) <= delta)%R) q.
Proof.
  intros n Ms h t E delta q N1 HH HE DP Q1.
  assert (FC : exists cs, Forall2 (operator_norm (2 ^ n)) Ms cs).
  { destruct (ham_facts _ _ _ HH) as (_ & _ & _ & F). clear - F. induction F as [|M y Ms ts H F [cs IH]].
    - now exists [].
    - exists (t_coeff y :: cs). constructor; [apply H|exact IH]. }
  destruct FC as (cs & FC). set (X := ((fold_right Rplus 0 cs * t) ^ 2 / (delta * (1 - q)))%R).
  destruct (nat_above X) as (k & Hk). exists (S k). intros N st HN RE.
  assert (Z0 := PFamilies.drift_0 n (2 * N)).
  destruct (C103_chance_lemma n Ms cs h t N E 0 st delta N1 ltac:(lia) HH FC HE (proj1 Z0) RE DP) as (f & m & Hf & Ha & Hm).
  exists f, m. split; [|split; [exact Ha|]].
  - rewrite (proj2 Z0), Rplus_0_r in Hf. exact Hf.
  - eapply Rle_trans; [|exact Hm].
    assert (NP : (0 < INR N)%R) by (apply lt_0_INR; lia).
    assert (KN : (X < INR N)%R) by (eapply Rlt_le_trans; [exact Hk|apply le_INR; lia]).
    assert (DQ : (0 < delta * (1 - q))%R) by (apply Rmult_lt_0_compat; lra).
    assert (Y : ((fold_right Rplus 0 cs * t) ^ 2 / (INR N * delta) <= 1 - q)%R).
    { unfold X in KN. apply (Rmult_lt_compat_r (delta * (1 - q))) in KN; [|exact DQ].
      unfold Rdiv in KN at 1. rewrite Rmult_assoc, Rinv_l, Rmult_1_r in KN by lra.
      apply (Rmult_le_reg_r (INR N * delta)); [now apply Rmult_lt_0_compat|].
      unfold Rdiv. rewrite Rmult_assoc, Rinv_l, Rmult_1_r; [lra|]. apply Rgt_not_eq. now apply Rmult_lt_0_compat. }
    lra.
Qed.
