(** QDRIFT sequences in the mean over the draws: C65. *)
From Coq Require Import Reals List Arith Bool String ZArith Lra Lia Permutation.
From Coquelicot Require Import Coquelicot.
From Verif Require Import Base CMat CMatFacts Det DetFacts Norms CRoot Expm ExpmFacts ExpmBounds ModelUnitary ModelEntry
  ModelPrimitive ModelSequence ModelCompiler ModelVerification ModelGates ModelHamiltonian Spec SpecModel
  SpecCompiler SpecGates SpecHamiltonian SpecChannel PUnitary PDrift PEmbed PEntry PSeqHeap PSeqMeth PSeqNear PSeqWorld PSeqUndo
  PCompView PCompRun PCompEntry PCompProps PSeqInv PVerify PGates PHam PHamTerm PHamSeq PHamRun PHamTrot PHamQd PChannel.
Import ListNotations.
Open Scope R_scope.
Open Scope C_scope.
Open Scope res_scope.
Open Scope se_scope.

(** * Means *)
Lemma mean_ext N : forall f g m, (forall xs, f xs = g xs) -> mean N f m -> mean N g m.
Proof.
  induction N as [|N IH]; intros f g m E; cbn [mean]; [now rewrite E|].
  intros (F & H & I). exists F. split; [|exact I]. intros x Hx. apply (IH (fun xs => f (x :: xs))); [intros; apply E|now apply H].
Qed.

Lemma mean_unique N : forall f m m', mean N f m -> mean N f m' -> m = m'.
Proof.
  induction N as [|N IH]; intros f m m'; cbn [mean]; [congruence|].
  intros (F & H & I) (F' & H' & I').
  assert (X : is_RInt F 0 1 m').
  { apply (@is_RInt_ext R_NormedModule F'); [|exact I']. intros x [X1 X2].
    rewrite Rmin_left in X1 by lra. rewrite Rmax_right in X2 by lra.
    apply (IH (fun xs => f (x :: xs))); [apply H'|apply H]; lra. }
  apply (is_RInt_unique (V := R_CompleteNormedModule)) in I.
  apply (is_RInt_unique (V := R_CompleteNormedModule)) in X. congruence.
Qed.

(** * The selected index is unique *)
Lemma weight_mono cs : (forall c, In c cs -> (0 < c)%R) -> forall k k', (k <= k')%nat ->
  (weight_below cs k <= weight_below cs k')%R.
Proof.
  unfold weight_below. induction cs as [|c cs IH]; intros P k k' L; [rewrite !firstn_nil; lra|].
  assert (c0 : (0 < c)%R) by (apply P; simpl; auto).
  assert (P' : forall c, In c cs -> (0 < c)%R) by (intros; apply P; simpl; auto).
  destruct k as [|k], k' as [|k']; simpl; try lra; try lia.
  - assert (X := IH P' 0%nat k' ltac:(lia)). simpl in X. lra.
  - assert (X := IH P' k k' ltac:(lia)). lra.
Qed.

Lemma selected_unique cs x k k' : cs <> [] -> (forall c, In c cs -> (0 < c)%R) ->
  selected cs x k -> selected cs x k' -> k = k'.
Proof.
  intros NE P [_ S1] [_ S2]. assert (SP := sumR_pos cs NE P). rewrite sumR_fold in SP.
  set (s := fold_right Rplus 0%R cs) in *.
  assert (M : forall a b, (a <= b)%nat -> (weight_below cs a / s <= weight_below cs b / s)%R).
  { intros a b L. apply Rmult_le_compat_r; [apply Rlt_le, Rinv_0_lt_compat, SP|now apply weight_mono]. }
  destruct (lt_eq_lt_dec k k') as [[L|E]|L]; [|exact E|].
  - assert (X := M (S k) k' L). lra.
  - assert (X := M (S k') k L). lra.
Qed.

Definition sel_dec (cs : list R) (x : R) (k : nat) : bool :=
  if Rle_dec (weight_below cs k / fold_right Rplus 0 cs) x
  then if Rlt_dec x (weight_below cs (S k) / fold_right Rplus 0 cs) then true else false else false.
Definition sel (cs : list R) (x : R) : nat :=
  match find (sel_dec cs x) (seq 0 (List.length cs)) with Some k => k | None => O end.

Lemma sel_selected cs x k : cs <> [] -> (forall c, In c cs -> (0 < c)%R) -> selected cs x k -> sel cs x = k.
Proof.
  intros NE P S. unfold sel. destruct (find _ _) as [k'|] eqn:E.
  - apply find_some in E. destruct E as [I D]. apply in_seq in I.
    apply (selected_unique cs x); auto. split; [lia|]. unfold sel_dec in D.
    destruct (Rle_dec _ _); [|discriminate]. destruct (Rlt_dec _ _); [|discriminate]. now split.
  - exfalso.
    assert (X := find_none _ _ E k). destruct S as [L [S1 S2]].
    assert (Y : sel_dec cs x k = false) by (apply X, in_seq; lia). unfold sel_dec in Y.
    destruct (Rle_dec _ _); [|contradiction]. destruct (Rlt_dec _ _); [discriminate|contradiction].
Qed.

(** * The mean of a step function *)
Lemma dotR_rsum cs : forall vs, List.length cs = List.length vs ->
  dotR cs vs = rsum (List.length cs) (fun k => (nth k cs 0 * nth k vs 0)%R).
Proof.
  assert (RS : forall n f, rsum (S n) f = (f O + rsum n (fun k => f (S k)))%R).
  { induction n as [|n IH]; intros f; [simpl; ring|]. cbn [rsum] in *. rewrite IH. ring. }
  induction cs as [|c cs IH]; intros [|v vs] L; try discriminate; [reflexivity|].
  cbn [List.length dotR]. rewrite RS. cbn [nth]. rewrite IH by (simpl in L; lia). reflexivity.
Qed.

Lemma step_mean cs (G : nat -> R) : cs <> [] -> (forall c, In c cs -> (0 < c)%R) ->
  is_RInt (fun x => G (sel cs x)) 0 1
    (rsum (List.length cs) (fun k => (nth k cs 0 / fold_right Rplus 0 cs * G k)%R)).
Proof.
  intros NE P. assert (SP := sumR_pos cs NE P). rewrite sumR_fold in SP.
  set (s := fold_right Rplus 0%R cs) in *.
  set (vs := map G (seq 0 (List.length cs))).
  assert (LV : List.length cs = List.length vs) by (unfold vs; now rewrite map_length, seq_length).
  assert (NV : forall k, (k < List.length cs)%nat -> nth k vs 0%R = G k).
  { intros k Hk. unfold vs. rewrite (nth_indep _ 0%R (G 0%nat)) by (rewrite map_length, seq_length; exact Hk).
    rewrite map_nth, seq_nth by exact Hk. reflexivity. }
  assert (R := step_RInt s (fun x => G (sel cs x)) SP cs vs 0 LV P).
  replace (0 / s)%R with 0%R in R by (field; lra).
  replace ((0 + fold_right Rplus 0 cs) / s)%R with 1%R in R by (fold s; field; lra).
  replace (rsum (List.length cs) (fun k => (nth k cs 0 / s * G k)%R)) with (dotR cs vs / s)%R.
  - apply R. intros k x Hk Hx. rewrite !Rplus_0_l in Hx. rewrite NV by exact Hk. f_equal.
    apply sel_selected; auto. split; [exact Hk|exact Hx].
  - rewrite dotR_rsum by exact LV. unfold Rdiv. rewrite Rmult_comm, <- rsum_mult_l. apply rsum_ext.
    intros k Hk. rewrite NV by exact Hk. ring.
Qed.

(** * The random product *)
Section Product.
Variable d : nat.
Variable cs : list R.
Variable A : nat -> mat.
Hypothesis NE : cs <> [].
Hypothesis P : forall c, In c cs -> (0 < c)%R.

Definition rprod (xs : list R) : mat := lprod d (map (fun x => ev d (A (sel cs x)) 1) xs).
Let p (k : nat) : R := (nth k cs 0 / fold_right Rplus 0 cs)%R.
Let avg := average d (List.length cs) p A.

Lemma part_rsum (pr : C -> R) m f : (forall x y, pr (x + y) = (pr x + pr y)%R) -> pr 0 = 0%R ->
  pr (csum m f) = rsum m (fun k => pr (f k)).
Proof. intros HA H0. induction m as [|m IH]; cbn [csum rsum]; [exact H0|]. now rewrite HA, IH. Qed.

Lemma mean_rprod (pr : C -> R) : (forall x y, pr (x + y) = (pr x + pr y)%R) ->
  (forall (r : R) z, pr (RtoC r * z) = (r * pr z)%R) -> forall N X i j, (i < d)%nat -> (j < d)%nat ->
  mean N (fun xs => pr (turned d (rprod xs) X i j)) (pr (avg N X i j)).
Proof.
  intros PA PS.
  assert (P0 : pr 0 = 0%R). { assert (X := PS 0%R 0). rewrite Rmult_0_l in X. now rewrite Cmult_0_l in X. }
  induction N as [|N IH]; intros X i j Hi Hj.
  - cbn [mean]. unfold avg, rprod. cbn [average map lprod fold_right]. f_equal. now apply turned_mid.
  - cbn [mean]. exists (fun x => pr (avg N (turned d (ev d (A (sel cs x)) 1) X) i j)). split.
    + intros x _. eapply mean_ext; [|apply IH; auto]. intros xs. cbv beta. apply (f_equal pr).
      unfold rprod. cbn [map lprod fold_right]. symmetry. now apply turned_mmul.
    + unfold avg. cbn [average]. unfold wsum at 1. rewrite (part_rsum pr) by auto.
      assert (K := step_mean cs (fun k => pr (avg N (turned d (ev d (A k) 1) X) i j)) NE P). cbv beta in K.
      replace (rsum (List.length cs) (fun k => pr (RtoC (p k) * average d (List.length cs) p A N (turned d (ev d (A k) 1) X) i j)))
        with (rsum (List.length cs) (fun k => (nth k cs 0 / fold_right Rplus 0 cs * pr (avg N (turned d (ev d (A k) 1) X) i j))%R));
        [exact K|].
      apply rsum_ext. intros k _. now rewrite PS.
Qed.
End Product.

(** * C65 *)
Lemma total_csum Ms i j : total Ms i j = csum (List.length Ms) (fun k => nth k Ms mzero i j).
Proof.
  assert (RS : forall n f, csum (S n) f = f O + csum n (fun k => f (S k))).
  { induction n as [|n IH]; intros f; [simpl; ring|]. cbn [csum] in *. rewrite IH. ring. }
  unfold total. induction Ms as [|M Ms IH]; [reflexivity|]. cbn [List.length fold_right]. rewrite RS, IH. reflexivity.
Qed.

Lemma qdrift_product g eps n Ms cs h t N st : rng_ok g -> (1 <= n)%nat -> (1 <= N)%nat -> small_drift eps n (2 * N) ->
  hamiltonian_of (2 ^ n) Ms h -> cs = coefficients h -> reachable eps (r_world st) ->
  let A := fun k => mscale (RtoC (fold_right Rplus 0%R cs * t / INR N / nth k cs 0)) (nth k Ms mzero) in
  exists st' s p c, qdrift_sequence eps g h t (Z.of_nat N) st = (st', Ok s) /\
    answers eps (r_world st') s p /\ Cmod c = 1%R /\
    (fro (2 ^ n) (mminus (u_mat p) (mscale c (rprod (2 ^ n) cs A (map (g_unif g) (seq (r_draws st) N)))))
       <= drift_bound eps n (2 * N))%R.
Proof.
  intros RG N1 NN SD HH -> RE A. set (cs := coefficients h) in *.
  destruct (small_lim eps n (2 * N) (16 * N) SD ltac:(lia)) as [E0 L].
  assert (E1 : (eps <= 1)%R) by apply SD.
  destruct (drift_small _ _ _ SD) as [_ B]. replace (8 * (2 * N))%nat with (16 * N)%nat in B by lia.
  assert (LM : forall c, (c <= 16 * N)%nat -> lim eps n c) by (intros c Hc; now apply (lim_mono eps E0 E1 n c (16 * N))).
  assert (BM : forall c, (c <= 16 * N)%nat -> (err eps n c <= drift_bound eps n (2 * N))%R).
  { intros c Hc. eapply Rle_trans; [now apply (err_mono eps E0 n c (16 * N))|exact B]. }
  destruct (ham_facts _ _ _ HH) as (_ & D & NE & F).
  assert (LT := F2_length _ _ _ F).
  assert (CP : forall c, In c cs -> (0 < c)%R).
  { unfold cs, coefficients. clear - F. intros c Hc. apply in_map_iff in Hc. destruct Hc as (x & <- & Hx).
    induction F as [|M y Ms ts H F IH]; [destruct Hx|]. destruct Hx as [<-|Hx]; [apply H|auto]. }
  assert (CN : cs <> []).
  { intros X. apply (f_equal (@List.length R)) in X. unfold cs, coefficients in X. rewrite map_length in X.
    destruct Ms; [congruence|]. simpl in *. lia. }
  assert (HW := reachable_W _ _ RE).
  destruct (qdrift_builds g eps n Ms h (sumR cs * t / INR N) N RG N1 E0 (LM 1%nat ltac:(lia)) HH st HW) as (us & FU & BU).
  fold cs in FU, BU.
  destruct (run_all eps n N1 st _ _ _ HW BU) as (st' & s & Es & DR & G & S & AN).
  { intros u Hu. clear - FU Hu. induction FU as [|j v js vs H F IH]; [destruct Hu|].
    destruct Hu as [<-|Hu]; [apply H|auto]. }
  assert (LU : List.length us = N).
  { rewrite <- (F2_length _ _ _ FU). apply seq_length. }
  assert (VV : exists Vs, Forall2 (stands eps n) us Vs /\
     Forall2 (phased (2 ^ n)) Vs (map (fun x => ev (2 ^ n) (A (sel cs x)) 1) (map (g_unif g) (seq (r_draws st) N)))).
  { clear - FU CP CN. induction FU as [|j u js us (Du & k & M & c & b & EM & Ec & Sk & Hb & Su & Lb) F IH].
    - exists []. split; constructor.
    - destruct IH as (Vs & F1 & F2).
      exists (mscale b (ev (2 ^ n) (mscale (RtoC (/ c)) M) (sumR cs * t / INR N)) :: Vs).
      split; [constructor; assumption|]. cbn [map]. constructor; [|exact F2].
      exists b. split; [exact Hb|].
      rewrite (sel_selected cs _ k CN CP Sk).
      assert (EE : meq (2 ^ n) (ev (2 ^ n) (mscale (RtoC (/ c)) M) (sumR cs * t / INR N)) (ev (2 ^ n) (A k) 1)).
      { rewrite !ev_expm. apply expm_meq. intros i q _ _. unfold A, mscale.
        rewrite (nth_error_nth _ _ _ Ec), (nth_error_nth _ _ _ EM), sumR_fold.
        unfold Rdiv. rewrite !RtoC_mult. ring. }
      now rewrite EE. }
  destruct VV as (Vs & SV & PV).
  destruct (product_near eps n us Vs) as (p & Ep & Np); auto.
  - intros ->. simpl in LU. lia.
  - rewrite LU. apply LM. lia.
  - rewrite LU in Np. destruct (lprod_phase (2 ^ n) _ _ PV) as (a & Ha & EP).
    assert (Np' := near_meq eps n _ _ _ _ EP Np).
    exists st', s, p, a. split; [|split; [now apply AN|split; [exact Ha|]]].
    + unfold qdrift_sequence. fold cs. rewrite D, Nat2Z.id, <- INR_IZR_INZ. exact Es.
    + eapply Rle_trans; [|apply (BM (9 * N)%nat ltac:(lia))]. apply Np'.
Qed.

Lemma C65_lemma : forall n Ms cs h t N E, (1 <= n)%nat -> (1 <= N)%nat ->
  hamiltonian_of (2 ^ n) Ms h -> Forall2 (operator_norm (2 ^ n)) Ms cs -> evolution (2 ^ n) (total Ms) t E ->
  exists P : list R -> mat,
    (forall g eps st, rng_ok g -> small_drift eps n (2 * N) -> reachable eps (r_world st) ->
       exists st' s p c, qdrift_sequence eps g h t (Z.of_nat N) st = (st', Ok s) /\
         answers eps (r_world st') s p /\ Cmod c = 1%R /\
         (fro (2 ^ n) (mminus (u_mat p) (mscale c (P (map (g_unif g) (seq (r_draws st) N)))))
            <= drift_bound eps n (2 * N))%R) /\
    (forall X, exists Y, mean_turned (2 ^ n) N P X Y /\
       (fro (2 ^ n) (mminus Y (turned (2 ^ n) E X))
          <= 4 * (fold_right Rplus 0 cs * t) ^ 2 / INR N * fro (2 ^ n) X)%R).
Proof.
  intros n Ms cs h t N E N1 NN HH FC HE.
  destruct (ham_facts _ _ _ HH) as (_ & D & NE & F).
  assert (LT := F2_length _ _ _ F). assert (LC := F2_length _ _ _ FC).
  assert (EC : cs = coefficients h) by (unfold coefficients; eapply coefficients_norms; eauto).
  assert (CP : forall c, In c cs -> (0 < c)%R).
  { rewrite EC. unfold coefficients. clear - F. intros c Hc. apply in_map_iff in Hc. destruct Hc as (x & <- & Hx).
    induction F as [|M y Ms ts H F IH]; [destruct Hx|]. destruct Hx as [<-|Hx]; [apply H|auto]. }
  assert (CN : cs <> []) by (destruct cs, Ms; simpl in *; congruence).
  assert (SP := sumR_pos cs CN CP). rewrite sumR_fold in SP.
  set (s := fold_right Rplus 0%R cs) in *. set (d := (2 ^ n)%nat) in *.
  assert (NP : (0 < INR N)%R) by (apply lt_0_INR; lia).
  set (A := fun k => mscale (RtoC (s * t / INR N / nth k cs 0)) (nth k Ms mzero)).
  exists (rprod d cs A). split.
  - intros g eps st RG SD RE. exact (qdrift_product g eps n Ms cs h t N st RG N1 NN SD HH EC RE).
  - intros X. set (p := fun k => (nth k cs 0 / s)%R).
    exists (average d (List.length cs) p A N X). split.
    + intros i j Hi Hj. split.
      * apply (mean_rprod d cs A CN CP Re); auto. intros r [u v]. simpl. ring.
      * apply (mean_rprod d cs A CN CP Im); auto. intros r [u v]. simpl. ring.
    + set (a := Rabs (s * t / INR N)).
      assert (NC : forall k, (k < List.length cs)%nat -> (0 < nth k cs 0)%R) by (intros; apply CP, nth_In; assumption).
      assert (K := average_close d (List.length cs) p A a (Rabs_pos _)).
      assert (EB : meq d (ev d (wsum (List.length cs) p A) (INR N)) E).
      { rewrite (evolution_ev _ _ _ _ HE), !ev_expm. apply expm_meq. intros i j _ _. unfold mscale, wsum.
        rewrite total_csum, LC, <- !csum_mult_l. apply csum_ext. intros k Hk. unfold A, p, mscale.
        assert (X0 := NC k Hk).
        replace (RtoC t) with (RtoC (INR N) * (RtoC (nth k cs 0 / s) * RtoC (s * t / INR N / nth k cs 0))).
        - ring.
        - rewrite <- !RtoC_mult. f_equal. field. repeat split; lra. }
      assert (EF : meq d (turned d E X) (turned d (ev d (wsum (List.length cs) p A) (INR N)) X)) by now rewrite EB.
      eapply Rle_trans; [right; apply fro_proper|eapply Rle_trans; [apply K|]].
      * intros i j Hi Hj. unfold mminus. now rewrite (EF i j Hi Hj).
      * intros k Hk. unfold p. apply Rlt_le, Rdiv_lt_0_compat; auto.
      * unfold p, Rdiv. rewrite <- (Rinv_r s) by lra. rewrite (rsum_ext _ _ (fun k => (/ s * nth k cs 0)%R)) by (intros; ring).
        rewrite rsum_mult_l, Rmult_comm. f_equal. unfold s. clear.
        assert (RS : forall n f, rsum (S n) f = (f O + rsum n (fun k => f (S k)))%R).
        { induction n as [|n IH]; intros f; [simpl; ring|]. cbn [rsum] in *. rewrite IH. ring. }
        induction cs as [|c l IH]; [reflexivity|]. cbn [List.length fold_right]. rewrite RS. cbn [nth]. now rewrite IH.
      * intros k Hk. unfold A. apply hermitian_scale.
        assert (Hk' : (k < List.length Ms)%nat) by lia. clear - F Hk'. revert k Hk'.
        induction F as [|M y Ms ts H F IH]; intros [|k] L; simpl in L; try lia; cbn [nth]; [apply H|apply IH; lia].
      * intros k Hk. unfold A.
        replace a with (Rabs (s * t / INR N / nth k cs 0) * nth k cs 0)%R.
        -- apply opb_scale. assert (Hk' : (k < List.length Ms)%nat) by lia. clear - FC Hk'. revert k Hk'.
           induction FC as [|M c Ms cs H F IH]; intros [|k] L; simpl in L; try lia; cbn [nth]; [exact (proj1 H)|apply IH; lia].
        -- unfold a, Rdiv. rewrite (Rabs_mult _ (/ nth k cs 0)), (Rabs_pos_eq (/ nth k cs 0)).
           ++ field. assert (X0 := NC k Hk). lra.
           ++ apply Rlt_le, Rinv_0_lt_compat. now apply NC.
      * right. unfold a. rewrite pow2_abs. field. lra.
Qed.

Lemma mean_unique_lemma : forall N f m m', mean N f m -> mean N f m' -> m = m'.
Proof. exact mean_unique. Qed.
