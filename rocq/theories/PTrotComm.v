(** The Trotter error in terms of commutators: C104. *)
From Coq Require Import Reals List Arith Bool String ZArith Lra Lia Permutation.
From Coquelicot Require Import Coquelicot.
From Verif Require Import Base CMat CMatFacts Det DetFacts Norms CRoot Expm ExpmFacts ExpmBounds ModelUnitary ModelEntry ModelPrimitive ModelSequence ModelCompiler ModelVerification ModelGates ModelHamiltonian Spec SpecModel SpecCompiler SpecGates SpecHamiltonian PUnitary PDrift PEmbed PEntry PSeqHeap PSeqMeth PSeqNear PSeqWorld PSeqUndo PCompView PCompRun PCompEntry PCompProps PSeqInv PVerify PGates PHam PHamTerm PHamSeq PHamRun SpecTrotter PHamTrot PDecimalOp PChannel.
Import ListNotations.
Set Bullet Behavior "Strict Subproofs".
Open Scope R_scope.
Open Scope C_scope.

(** * Growth of a matrix function *)
Lemma grow_upper (f f1 : R -> R) c0 c1 b : (0 <= b)%R ->
  (forall s, is_derive f s (f1 s)) -> (forall s, (0 <= s <= b)%R -> (f1 s <= c0 + c1 * s)%R) ->
  (f b - f 0 <= c0 * b + c1 * (b * b) / 2)%R.
Proof.
  intros B0 D B. set (g := fun s => (f s - c0 * s - c1 / 2 * (s * s))%R).
  assert (DG : forall s, is_derive g s (f1 s - c0 - c1 * s)%R).
  { intros s. unfold g. assert (X := D s).
    auto_derive; [exists (f1 s); exact X|]. change (Derive (fun x => f x) s) with (Derive f s). rewrite (is_derive_unique f s _ X). field. }
  destruct (MVT_gen g 0 b (fun s => (f1 s - c0 - c1 * s)%R)) as (z & Hz & Ez).
  - intros; apply DG.
  - intros x _. apply derivable_continuous_pt. exists (f1 x - c0 - c1 * x)%R. apply is_derive_Reals, DG.
  - rewrite Rmin_left, Rmax_right in Hz by lra. unfold g in Ez. assert (X := B z Hz).
    assert (Y : ((f1 z - c0 - c1 * z) * (b - 0) <= 0)%R) by (rewrite Rminus_0_r; nra). lra.
Qed.

Lemma grow_mat n (F F1 : R -> mat) c0 c1 b : (0 <= b)%R -> (0 <= c0)%R -> (0 <= c1)%R ->
  (forall s, mderiv n F s (F1 s)) -> (forall s, (0 <= s <= b)%R -> (fro n (F1 s) <= c0 + c1 * s)%R) ->
  (fro n (mminus (F b) (F 0%R)) <= c0 * b + c1 * (b * b) / 2)%R.
Proof.
  intros B0 C0 C1 D B. set (Z := mminus (F b) (F 0%R)). assert (ZP := fro_nonneg n Z).
  assert (K := grow_upper (fun s => fst (cip n Z (F s))) (fun s => fst (cip n Z (F1 s))) (fro n Z * c0) (fro n Z * c1) b B0).
  cbv beta in K.
  assert (E : (fst (cip n Z (F b)) - fst (cip n Z (F 0%R)))%R = (fro n Z ^ 2)%R).
  { rewrite fro_sqr. assert (X := cip_self n Z). unfold Z at 2 in X. rewrite !cip_minus in X.
    apply (f_equal fst) in X. cbn [fst RtoC] in X. exact X. }
  rewrite E in K.
  assert (K' : (fro n Z ^ 2 <= fro n Z * (c0 * b + c1 * (b * b) / 2))%R).
  { replace (fro n Z * (c0 * b + c1 * (b * b) / 2))%R with (fro n Z * c0 * b + fro n Z * c1 * (b * b) / 2)%R by field.
    apply K.
    - intros s. apply (cip_deriv n Z F s _ (D s)).
    - intros s Hs. eapply Rle_trans; [apply Rle_abs|].
      eapply Rle_trans; [eapply Rle_trans; [apply Rmax_l|apply Rmax_Cmod]|].
      eapply Rle_trans; [apply cip_bound|].
      replace (fro n Z * c0 + fro n Z * c1 * s)%R with (fro n Z * (c0 + c1 * s))%R by ring.
      apply Rmult_le_compat_l; auto. }
  assert (P : (0 <= c0 * b + c1 * (b * b) / 2)%R).
  { assert ((0 <= c0 * b)%R) by (now apply Rmult_le_pos). assert ((0 <= c1 * (b * b))%R) by (apply Rmult_le_pos; nra). lra. }
  destruct (Req_dec (fro n Z) 0) as [->|N]; [exact P|]. clear - K' ZP N. nra.
Qed.

(** * Two terms *)
Definition mopp (A : mat) : mat := mscale (RtoC (-1)) A.

Lemma mopp_hermitian n A : hermitian_mx n A -> hermitian_mx n (mopp A).
Proof. intros H. now apply (hermitian_scale n A (-1)). Qed.

Lemma ev_opp n A s : meq n (ev n (mopp A) s) (ev n A (- s)).
Proof. rewrite !ev_expm. apply expm_meq. intros i j _ _. unfold mopp, mscale. rewrite RtoC_opp. replace (RtoC (-1)) with (- RtoC 1) by (apply C_eq; simpl; ring). ring. Qed.

Lemma ev_opp_l n A s : hermitian_mx n A -> meq n (mmul n (ev n A s) (ev n (mopp A) s)) mid.
Proof.
  intros H. rewrite ev_opp, <- ev_add. replace (s + - s)%R with 0%R by ring. apply ev_0.
Qed.

Lemma ev_deriv n A s : mderiv n (ev n A) s (mmul n (mscale Ci A) (ev n A s)).
Proof. apply epath_deriv. Qed.
Lemma ev_comm n A B s : meq n (mmul n A B) (mmul n B A) -> meq n (mmul n B (ev n A s)) (mmul n (ev n A s) B).
Proof.
  intros H. apply (epath_commute n (mscale Ci A) B). now rewrite mmul_mscale_l, mmul_mscale_r, H.
Qed.

Lemma commute_grow n A B s : (0 <= s)%R -> hermitian_mx n A ->
  (fro n (commutator n (ev n A s) B) <= s * fro n (commutator n A B))%R.
Proof.
  intros S0 HA. set (c := fro n (commutator n A B)).
  assert (UA : forall s, unitary_mx n (ev n A s)) by (intros; now apply ev_unitary).
  assert (UO : forall s, unitary_mx n (ev n (mopp A) s)) by (intros; apply ev_unitary; now apply mopp_hermitian).
  set (L := fun s => mmul n (ev n (mopp A) s) (mmul n B (ev n A s))).
  assert (G : (fro n (mminus (L s) (L 0%R)) <= c * s + 0 * (s * s) / 2)%R).
  { apply (grow_mat n L (fun s => mmul n (ev n (mopp A) s) (mmul n (mscale (- Ci) (commutator n A B)) (ev n A s))));
      [exact S0|apply fro_nonneg|apply Rle_refl| |].
    - intros x. eapply mderiv_val; [|apply mderiv_mmul; [apply ev_deriv|apply mderiv_mul_l, ev_deriv]].
      assert (E1 : meq n (mmul n (mscale Ci (mopp A)) (ev n (mopp A) x)) (mmul n (ev n (mopp A) x) (mscale Ci (mopp A)))).
      { rewrite mmul_mscale_l, mmul_mscale_r. now rewrite (ev_comm n (mopp A) (mopp A) x) by reflexivity. }
      rewrite E1. rewrite <- !mmul_assoc, <- mmul_mplus_r. apply mmul_proper; [reflexivity|].
      unfold commutator, mopp. rewrite !mmul_mscale_l, mmul_mminus_l, !mmul_mscale_r, !mmul_assoc.
      intros i j _ _. unfold mplus, mscale, mminus. replace (RtoC (-1)) with (- RtoC 1) by (apply C_eq; simpl; ring). ring.
    - intros x _. rewrite fro_unitary_l by apply UO. rewrite fro_unitary_r by apply UA.
      rewrite fro_mscale, Cmod_opp. replace (Cmod Ci) with 1%R; [unfold c; lra|].
      unfold Cmod, Ci. cbn [fst snd]. replace (0 ^ 2 + 1 ^ 2)%R with 1%R by ring. now rewrite sqrt_1. }
  replace (c * s + 0 * (s * s) / 2)%R with (s * c)%R in G by field.
  eapply Rle_trans; [|exact G]. right.
  rewrite <- (fro_unitary_l n (ev n A s) (mminus (L s) (L 0%R))) by apply UA.
  unfold commutator. rewrite fro_minus_sym. apply fro_proper. unfold L. rewrite mmul_mminus_r.
  assert (E0 : meq n (mmul n (ev n (mopp A) 0) (mmul n B (ev n A 0))) B) by now rewrite !ev_0, mmul_1_l, mmul_1_r.
  rewrite E0, mmul_assoc, ev_opp_l, mmul_1_l by exact HA. reflexivity.
Qed.

Lemma two_terms_1 n A B : hermitian_mx n A -> hermitian_mx n B ->
  (fro n (mminus (mmul n (ev n A 1) (ev n B 1)) (ev n (mplus A B) 1)) <= fro n (commutator n A B) / 2)%R.
Proof.
  intros HA HB. set (c := fro n (commutator n A B)). set (H := mplus A B).
  assert (HH : hermitian_mx n H) by now apply hermitian_plus.
  assert (UA : forall s, unitary_mx n (ev n A s)) by (intros; now apply ev_unitary).
  assert (UB : forall s, unitary_mx n (ev n B s)) by (intros; now apply ev_unitary).
  assert (UO : forall s, unitary_mx n (ev n (mopp H) s)) by (intros; apply ev_unitary; now apply mopp_hermitian).
  set (G := fun s => mmul n (ev n (mopp H) s) (mmul n (ev n A s) (ev n B s))).
  assert (K : (fro n (mminus (G 1%R) (G 0%R)) <= 0 * 1 + c * (1 * 1) / 2)%R).
  { apply (grow_mat n G (fun s => mmul n (ev n (mopp H) s) (mmul n (mscale Ci (commutator n (ev n A s) B)) (ev n B s))));
      [lra|lra|apply fro_nonneg| |].
    - intros x. eapply mderiv_val; [|apply mderiv_mmul; [apply ev_deriv|apply mderiv_mmul; apply ev_deriv]].
      assert (E1 : meq n (mmul n (mscale Ci (mopp H)) (ev n (mopp H) x)) (mmul n (ev n (mopp H) x) (mscale Ci (mopp H)))).
      { rewrite mmul_mscale_l, mmul_mscale_r. now rewrite (ev_comm n (mopp H) (mopp H) x) by reflexivity. }
      rewrite E1. rewrite <- (mmul_assoc n (ev n (mopp H) x) (mscale Ci (mopp H))), <- mmul_mplus_r. apply mmul_proper; [reflexivity|].
      unfold commutator, mopp, H. rewrite !mmul_mscale_l, mmul_mminus_l, !mmul_mscale_r, !mmul_mplus_l, <- !mmul_assoc.
      intros i j _ _. unfold mplus, mscale, mminus. replace (RtoC (-1)) with (- RtoC 1) by (apply C_eq; simpl; ring). ring.
    - intros x Hx. rewrite fro_unitary_l by apply UO. rewrite fro_unitary_r by apply UB.
      rewrite fro_mscale. replace (Cmod Ci) with 1%R.
      + assert (X := commute_grow n A B x (proj1 Hx) HA). fold c in X. lra.
      + unfold Cmod, Ci. cbn [fst snd]. replace (0 ^ 2 + 1 ^ 2)%R with 1%R by ring. now rewrite sqrt_1. }
  replace (0 * 1 + c * (1 * 1) / 2)%R with (c / 2)%R in K by field.
  eapply Rle_trans; [|exact K]. right.
  rewrite <- (fro_unitary_l n (ev n H 1) (mminus (G 1%R) (G 0%R))) by now apply ev_unitary.
  apply fro_proper. unfold G. rewrite mmul_mminus_r.
  assert (E0 : meq n (mmul n (ev n (mopp H) 0) (mmul n (ev n A 0) (ev n B 0))) mid) by now rewrite !ev_0, !mmul_1_l.
  now rewrite E0, (mmul_assoc n (ev n H 1)), ev_opp_l, mmul_1_l, mmul_1_r by exact HH.
Qed.

Lemma ev_scaled d M a s : meq d (ev d (mscale (RtoC a) M) s) (ev d M (a * s)).
Proof. rewrite !ev_expm. apply expm_meq. intros i j _ _. unfold mscale. rewrite RtoC_mult. ring. Qed.

Lemma two_terms n A B t : hermitian_mx n A -> hermitian_mx n B ->
  (fro n (mminus (mmul n (ev n A t) (ev n B t)) (ev n (mplus A B) t)) <= t ^ 2 / 2 * fro n (commutator n A B))%R.
Proof.
  intros HA HB.
  assert (K := two_terms_1 n (mscale (RtoC t) A) (mscale (RtoC t) B) (hermitian_scale n A t HA) (hermitian_scale n B t HB)).
  eapply Rle_trans; [|eapply Rle_trans; [exact K|]]; right.
  - apply fro_proper.
    assert (E : meq n (mplus (mscale (RtoC t) A) (mscale (RtoC t) B)) (mscale (RtoC t) (mplus A B))).
    { intros i j _ _. unfold mplus, mscale. ring. }
    now rewrite (ev_meq n _ _ 1 E), !ev_scaled, Rmult_1_r.
  - transitivity (fro n (mscale (RtoC (t ^ 2)) (commutator n A B)) / 2)%R.
    + f_equal. apply fro_proper. unfold commutator. rewrite !mmul_mscale_l, !mmul_mscale_r.
      intros i j _ _. unfold mminus, mscale. replace (RtoC (t ^ 2)) with (RtoC t * RtoC t) by (rewrite <- RtoC_mult; f_equal; ring). ring.
    + rewrite fro_mscale, Cmod_R, Rabs_pos_eq by apply pow2_ge_0. field.
Qed.

(** * Many terms *)
Lemma total_cons M Ms : forall i j, total (M :: Ms) i j = mplus M (total Ms) i j.
Proof. reflexivity. Qed.

Lemma commutator_sym n A B : fro n (commutator n A B) = fro n (commutator n B A).
Proof. apply fro_minus_sym. Qed.

Lemma commutator_total n A Ms :
  (fro n (commutator n (total Ms) A) <= fold_right (fun B s => fro n (commutator n A B) + s) 0 Ms)%R.
Proof.
  induction Ms as [|B Ms IH].
  - cbn [fold_right]. rewrite (fro_proper n _ mzero), fro_mzero; [lra|]. unfold commutator.
    intros i j Hi Hj. unfold mminus. change (total []) with mzero.
    rewrite (mmul_zero_l n A i j Hi Hj), (mmul_zero_r n A i j Hi Hj). unfold mzero. ring.
  - cbn [fold_right].
    assert (E : meq n (commutator n (total (B :: Ms)) A) (mplus (commutator n B A) (commutator n (total Ms) A))).
    { assert (T : meq n (total (B :: Ms)) (mplus B (total Ms))) by (intros i j _ _; apply total_cons).
      unfold commutator. rewrite T, mmul_mplus_l, mmul_mplus_r. intros i j _ _. unfold mplus, mminus. ring. }
    rewrite E. eapply Rle_trans; [apply fro_triangle|]. rewrite (commutator_sym n B A). lra.
Qed.

Lemma fold_add (f : mat -> R) c l : fold_right (fun B s => (f B + s)%R) c l = (fold_right (fun B s => (f B + s)%R) 0%R l + c)%R.
Proof. induction l as [|x l IH]; cbn [fold_right]; [ring|]. rewrite IH. ring. Qed.

Lemma fold_nonneg (f : mat -> R) l : (forall x, (0 <= f x)%R) -> (0 <= fold_right (fun B s => (f B + s)%R) 0%R l)%R.
Proof. intros H. induction l as [|x l IH]; cbn [fold_right]; [lra|]. specialize (H x). lra. Qed.

Lemma commutators_nonneg n Ms : (0 <= commutators n Ms)%R.
Proof.
  induction Ms as [|A l IH]; cbn [commutators]; [lra|]. rewrite fold_add.
  assert (X := fold_nonneg (fun B => fro n (commutator n A B)) l ltac:(intros; apply fro_nonneg)). cbv beta in X. lra.
Qed.

Lemma fold_perm (f : mat -> R) l l' : Permutation l l' ->
  fold_right (fun B s => (f B + s)%R) 0%R l = fold_right (fun B s => (f B + s)%R) 0%R l'.
Proof. induction 1; cbn [fold_right]; lra. Qed.

Lemma commutators_perm n l l' : Permutation l l' -> commutators n l = commutators n l'.
Proof.
  induction 1 as [|x l l' H IH|x y l|l1 l2 l3 H1 IH1 H2 IH2].
  - reflexivity.
  - cbn [commutators]. rewrite (fold_add _ (commutators n l)), (fold_add _ (commutators n l')), IH.
    now rewrite (fold_perm _ _ _ H).
  - cbn [commutators fold_right].
    set (fx := fun B => fro n (commutator n x B)). set (fy := fun B => fro n (commutator n y B)). set (c := commutators n l).
    change (fro n (commutator n y x) + fold_right (fun B s => (fy B + s)%R) (fold_right (fun B s => (fx B + s)%R) c l) l =
      fro n (commutator n x y) + fold_right (fun B s => (fx B + s)%R) (fold_right (fun B s => (fy B + s)%R) c l) l)%R.
    rewrite (fold_add fy (fold_right _ c l)), (fold_add fx c), (fold_add fx (fold_right _ c l)), (fold_add fy c).
    rewrite (commutator_sym n y x). lra.
  - congruence.
Qed.

Lemma block_comm n Ms t : (forall M, In M Ms -> hermitian_mx n M) ->
  (fro n (mminus (lprod n (map (fun M => ev n M t) Ms)) (ev n (total Ms) t)) <= t ^ 2 / 2 * commutators n Ms)%R.
Proof.
  induction Ms as [|A l IH]; intros HM.
  - cbn [map lprod fold_right commutators]. rewrite fro_minus_self; [lra|].
    assert (E : meq n (ev n (total []) t) mid).
    { change (total []) with mzero. rewrite ev_expm, <- (expm_zero n). apply expm_meq. intros i j _ _. unfold mscale, mzero. ring. }
    now rewrite E.
  - cbn [map lprod fold_right commutators]. fold (lprod n (map (fun M => ev n M t) l)).
    assert (HA : hermitian_mx n A) by (apply HM; now left).
    assert (HL : forall M, In M l -> hermitian_mx n M) by (intros; apply HM; now right).
    assert (HT : hermitian_mx n (total l)).
    { clear - HL. induction l as [|B l IH]; [apply hermitian_zero|]. apply (hermitian_meq n (mplus B (total l))); [intros i j _ _; reflexivity|].
      apply hermitian_plus; [apply HL; now left|apply IH; intros; apply HL; now right]. }
    eapply Rle_trans; [apply (fro_minus_triangle n _ (mmul n (ev n (total l) t) (ev n A t)))|].
    rewrite fold_add.
    assert (K1 : (fro n (mminus (mmul n (lprod n (map (fun M => ev n M t) l)) (ev n A t)) (mmul n (ev n (total l) t) (ev n A t)))
       <= t ^ 2 / 2 * commutators n l)%R).
    { eapply Rle_trans; [|exact (IH HL)]. right.
      rewrite <- (fro_unitary_r n (ev n A t) (mminus (lprod n (map (fun M => ev n M t) l)) (ev n (total l) t))) by now apply ev_unitary.
      apply fro_proper. now rewrite mmul_mminus_l. }
    assert (K2 := two_terms n (total l) A t HT HA).
    assert (E : meq n (mplus (total l) A) (total (A :: l))).
    { intros i j _ _. unfold mplus. rewrite total_cons. unfold mplus. ring. }
    rewrite (ev_meq n _ _ t E) in K2.
    assert (K3 := commutator_total n A l).
    assert (T0 : (0 <= t ^ 2 / 2)%R) by (assert (X := pow2_ge_0 t); lra).
    apply (Rmult_le_compat_l _ _ _ T0) in K3. lra.
Qed.

(** * The sequence *)
Lemma trotter_ideal g eps n Ms h t N b st e : rng_ok g -> (1 <= n)%nat -> (1 <= N)%nat ->
  small_drift eps n (2 * (N * List.length Ms)) -> hamiltonian_of (2 ^ n) Ms h -> reachable eps (r_world st) ->
  (0 <= e)%R ->
  (forall block, Permutation block (map (fun M => ev (2 ^ n) M (t / INR N)) Ms) ->
     (fro (2 ^ n) (mminus (lprod (2 ^ n) block) (ev (2 ^ n) (total Ms) (t / INR N))) <= e)%R) ->
  exists st' s v p x Q, trotter_sequence eps g h t (Z.of_nat N) b st = (st', Ok s) /\
    time_evolution_operator eps h t = Ok v /\ answers eps (r_world st') s p /\
    u_distance_from eps p v = Ok x /\
    (Rabs x <= drift_bound eps n (2 * (N * List.length Ms)) + INR N * e)%R /\
    unitary_mx (2 ^ n) Q /\ (fro (2 ^ n) (mminus (u_mat p) Q) <= drift_bound eps n (2 * (N * List.length Ms)))%R /\
    (forall E, evolution (2 ^ n) (total Ms) t E -> exists c, Cmod c = 1%R /\ (fro (2 ^ n) (mminus Q (mscale c E)) <= INR N * e)%R).
Proof.
  intros RG N1 NN SD HH RE He HB.
  set (K := (N * List.length Ms)%nat) in *.
  destruct (ham_facts _ _ _ HH) as (_ & D & NE & F).
  assert (KP : (1 <= K)%nat).
  { unfold K. assert (1 <= List.length Ms)%nat by (destruct Ms; [congruence|simpl; lia]). nia. }
  destruct (small_lim eps n (2 * K) (16 * K) SD ltac:(lia)) as [E0 L].
  assert (E1 : (eps <= 1)%R) by apply SD.
  destruct (drift_small _ _ _ SD) as [_ B]. replace (8 * (2 * K))%nat with (16 * K)%nat in B by lia.
  assert (LM : forall c, (c <= 16 * K)%nat -> lim eps n c) by (intros c Hc; now apply (lim_mono eps E0 E1 n c (16 * K))).
  assert (BM : forall c, (c <= 16 * K)%nat -> (err eps n c <= drift_bound eps n (2 * K))%R).
  { intros c Hc. eapply Rle_trans; [now apply (err_mono eps E0 n c (16 * K))|exact B]. }
  destruct (trotter_run g eps n Ms h t N b st RG N1 NN E0 (LM 1%nat ltac:(lia)) HH RE)
    as (st' & s & us & cs & idxs & Es & RE' & L1 & L2 & HK & LI & FP & Hb & S & A).
  destruct (teo_stands eps n Ms h t E0 (LM 1%nat ltac:(lia)) HH) as (v & a & Ev & Ha & Sv & Dv).
  set (dt := (t / INR N)%R) in *. set (d := (2 ^ n)%nat) in *.
  set (EE := map (fun M => ev d M dt) Ms).
  set (VV := map (fun cE => mscale (fst cE) (snd cE)) (List.combine cs EE)).
  assert (LE : List.length EE = List.length Ms) by (unfold EE; now rewrite map_length).
  assert (LV : List.length VV = List.length Ms).
  { unfold VV. rewrite map_length, combine_length, L2, LE. lia. }
  assert (NV : forall i, (i < List.length Ms)%nat -> nth i VV mid = mscale (nth i cs (RtoC 1)) (ev d (nth i Ms mzero) dt)).
  { intros i Hi. unfold VV.
    rewrite (nth_indep _ mid (mscale 1 (ev d mzero dt))) by (fold VV; lia).
    change (mscale 1 (ev d mzero dt)) with ((fun cE : C * mat => mscale (fst cE) (snd cE)) (RtoC 1, ev d mzero dt)).
    rewrite map_nth, combine_nth by congruence. cbn [fst snd]. f_equal. unfold EE.
    rewrite (map_nth (fun M => ev d M dt)). reflexivity. }
  assert (NEE : forall i, (i < List.length Ms)%nat -> nth i EE mid = ev d (nth i Ms mzero) dt).
  { intros i Hi. unfold EE. rewrite (nth_indep _ mid (ev d mzero dt)) by (fold EE; lia).
    apply (map_nth (fun M => ev d M dt)). }
  assert (SV : Forall2 (stands eps n) us VV).
  { apply (F2_nth _ _ _ some_gate mid); [congruence|]. intros i Hi. rewrite L1 in Hi. rewrite NV by exact Hi.
    apply (HK i _ (nth_error_nth_lt Ms i mzero Hi)). }
  assert (PV : Forall2 (phased d) VV EE).
  { apply (F2_nth _ _ _ mid mid); [congruence|]. intros i Hi. rewrite LV in Hi. rewrite NV, NEE by exact Hi.
    exists (nth i cs (RtoC 1)). split; [apply (HK i _ (nth_error_nth_lt Ms i mzero Hi))|reflexivity]. }
  assert (IDX : forall idx, In idx idxs -> forall i, In i idx -> (i < List.length Ms)%nat).
  { intros idx Hidx i Hi. rewrite List.Forall_forall in FP. apply (Permutation_in _ (FP idx Hidx)) in Hi.
    apply in_seq in Hi. lia. }
  set (lu := List.concat (map (map (fun i => nth i us some_gate)) idxs)) in *.
  set (bV := map (map (fun i => nth i VV mid)) idxs). set (bE := map (map (fun i => nth i EE mid)) idxs).
  assert (SVl : Forall2 (stands eps n) lu (List.concat bV)).
  { apply F2_concat. unfold bV. clear - SV IDX L1. induction idxs as [|idx idxs IH]; simpl; constructor.
    - apply Forall2_nth_perm; auto. intros i Hi. rewrite L1. apply (IDX idx); simpl; auto.
    - apply IH. intros idx' H' i Hi. apply (IDX idx'); simpl; auto. }
  assert (PVl : Forall2 (phased d) (List.concat bV) (List.concat bE)).
  { apply F2_concat. unfold bV, bE. clear - PV IDX LV. induction idxs as [|idx idxs IH]; simpl; constructor.
    - apply Forall2_nth_perm; auto. intros i Hi. rewrite LV. apply (IDX idx); simpl; auto.
    - apply IH. intros idx' H' i Hi. apply (IDX idx'); simpl; auto. }
  assert (LL : List.length lu = K).
  { unfold lu, K. clear - LI FP. revert N LI. induction FP as [|idx idxs HP _ IH]; intros N LI.
    - simpl in LI. subst N. reflexivity.
    - cbn [map List.concat]. rewrite app_length, map_length, (Permutation_length HP), seq_length.
      simpl in LI. subst N. rewrite (IH _ eq_refl). simpl. lia. }
  destruct (product_near eps n lu (List.concat bV)) as (p & Ep & Np); auto.
  { intros X. rewrite X in LL. simpl in LL. lia. }
  { rewrite LL. apply LM. lia. }
  rewrite LL in Np.
  destruct (lprod_phase d _ _ PVl) as (c & Hc & EP).
  assert (CL : (fro d (mminus (lprod d (List.concat bE)) (ev d (total Ms) t)) <= INR N * e)%R).
  { assert (HMs : forall M, In M Ms -> hermitian_mx d M).
    { clear - F. intros M HM. induction F as [|a b la lb H F IH]; [destruct HM|].
      destruct HM as [<-|HM]; [apply H|auto]. }
    assert (LB : List.length (map (lprod d) bE) = N) by (unfold bE; now rewrite !map_length).
    assert (Q := lprod_close d (map (lprod d) bE) (repeat (ev d (total Ms) dt) N) e He).
    rewrite LB in Q.
    eapply Rle_trans; [|apply Q].
    - right. apply fro_proper. rewrite lprod_concat, lprod_repeat_ev. unfold dt.
      replace (INR N * (t / INR N))%R with t by (field; apply not_0_INR; lia). reflexivity.
    - assert (PB : List.Forall (fun bl => Permutation bl EE) bE).
      { apply List.Forall_forall. intros bl Hbl. apply in_map_iff in Hbl. destruct Hbl as (idx & <- & Hidx).
        apply nth_permutation. rewrite LE. rewrite List.Forall_forall in FP. auto. }
      clear Q. revert PB LB. generalize bE. clearbody dt. clear - HMs HB F.
      intros bE. revert N. induction bE as [|bl bE IH]; intros N PB LB.
      + simpl in LB. subst N. constructor.
      + simpl in LB. subst N. cbn [map repeat]. constructor.
        * assert (P := Forall_inv PB). destruct (block_close d Ms dt bl HMs P) as [U _].
          split; [exact U|]. split; [|now apply HB]. apply ev_unitary. eapply total_hermitian; eauto.
        * apply IH; [|reflexivity]. now apply Forall_inv_tail in PB. }
  assert (CL2 : (fro d (mminus (lprod d (List.concat bV)) (mscale c (ev d (total Ms) t))) <= INR N * e)%R).
  { eapply Rle_trans; [|exact CL]. right.
    transitivity (fro d (mscale c (mminus (lprod d (List.concat bE)) (ev d (total Ms) t)))).
    - apply fro_proper. rewrite EP. intros i j _ _. unfold mminus, mscale. ring.
    - rewrite fro_mscale, Hc. ring. }
  destruct (distance_near eps n (9 * K) 1 _ _ p v (INR N * e) (c * Cconj a) E0 Np (proj1 Sv) (LM (Datatypes.S (9 * K)) ltac:(lia)))
    as (x & Ex & Bx).
  - rewrite Cmod_mult, Cmod_conj, Hc, Ha. ring.
  - eapply Rle_trans; [|exact CL2]. right. apply fro_proper. fold d. rewrite mscale_mscale.
    replace (c * Cconj a * a) with (c * (Cconj a * a)) by ring. rewrite Cmod_one_conj' by exact Ha.
    now replace (c * 1) with c by ring.
  - exists st', s, v, p, x, (lprod d (List.concat bV)). split; [exact Es|]. split; [exact Ev|]. split; [now apply A|]. split; [exact Ex|].
    split; [eapply Rle_trans; [exact Bx|]; apply Rplus_le_compat_r; apply BM; lia|].
    split; [|split; [eapply Rle_trans; [apply Np|]; apply BM; lia|]].
    + apply (PFamilies.unitary_meq d (mscale c (lprod d (List.concat bE)))); [now symmetry|]. apply unitary_mscale; [exact Hc|].
      apply lprod_unitary. intros V HV. apply in_concat in HV. destruct HV as (bl & Hbl & HV). apply in_map_iff in Hbl. destruct Hbl as (idx & <- & Hidx).
      apply in_map_iff in HV. destruct HV as (i & <- & Hi). rewrite NEE by (apply (IDX idx Hidx i Hi)). apply ev_unitary.
      assert (HMs : forall M, In M Ms -> hermitian_mx d M).
      { clear - F. intros M HM. induction F as [|a0 b0 la lb H F IH]; [destruct HM|]. destruct HM as [<-|HM]; [apply H|auto]. }
      apply HMs, nth_In. apply (IDX idx Hidx i Hi).
    + intros E HE. exists c. split; [exact Hc|]. rewrite (evolution_ev _ _ _ _ HE). exact CL2.
Qed.

Lemma C104_lemma : forall g eps n Ms h t N randomize st E, rng_ok g -> (1 <= n)%nat -> (1 <= N)%nat ->
  small_drift eps n (2 * (N * List.length Ms)) -> hamiltonian_of (2 ^ n) Ms h -> reachable eps (r_world st) ->
  evolution (2 ^ n) (total Ms) t E ->
  let delta := (t ^ 2 / (2 * INR N) * commutators (2 ^ n) Ms)%R in
  let drift := drift_bound eps n (2 * (N * List.length Ms)) in
  exists st' s v p x c, trotter_sequence eps g h t (Z.of_nat N) randomize st = (st', Ok s) /\
    time_evolution_operator eps h t = Ok v /\ answers eps (r_world st') s p /\
    u_distance_from eps p v = Ok x /\ (Rabs x <= drift + delta)%R /\
    Cmod c = 1%R /\ (fro (2 ^ n) (mminus (u_mat p) (mscale c E)) <= drift + delta)%R /\
    (1 - overlap (2 ^ n) E (u_mat p) <= drift + delta ^ 2 / (2 * INR (2 ^ n)))%R.
Proof.
  intros g eps n Ms h t N b st E RG N1 NN SD HH RE HE delta drift.
  destruct (ham_facts _ _ _ HH) as (_ & D & NE & F).
  assert (HMs : forall M, In M Ms -> hermitian_mx (2 ^ n) M).
  { clear - F. intros M HM. induction F as [|a b la lb H F IH]; [destruct HM|]. destruct HM as [<-|HM]; [apply H|auto]. }
  assert (NP : (0 < INR N)%R) by (apply lt_0_INR; lia).
  set (e := ((t / INR N) ^ 2 / 2 * commutators (2 ^ n) Ms)%R).
  assert (CN := commutators_nonneg (2 ^ n) Ms).
  assert (e0 : (0 <= e)%R).
  { unfold e. apply Rmult_le_pos; [|exact CN]. assert (X := pow2_ge_0 (t / INR N)). lra. }
  assert (ED : (INR N * e)%R = delta) by (unfold e, delta; field; lra).
  destruct (trotter_ideal g eps n Ms h t N b st e RG N1 NN SD HH RE e0) as (st' & s & v & p & x & Q & A1 & A2 & A3 & A4 & A5 & UQ & A6 & A7).
  { intros block P.
    apply Permutation_map_inv in P. destruct P as (Ms' & -> & P).
    assert (ET : meq (2 ^ n) (ev (2 ^ n) (total Ms) (t / INR N)) (ev (2 ^ n) (total Ms') (t / INR N))).
    { apply ev_meq. intros i j _ _. unfold total. clear - P.
      induction P; cbn [fold_right]; [reflexivity|now rewrite IHP|ring|congruence]. }
    rewrite ET. unfold e. rewrite (commutators_perm (2 ^ n) _ _ P). apply block_comm.
    intros M HM. apply HMs. eapply Permutation_in; [apply Permutation_sym; exact P|exact HM]. }
  rewrite ED in *. fold drift in A5, A6. destruct (A7 E HE) as (c & Hc & HQ).
  exists st', s, v, p, x, c. split; [exact A1|]. split; [exact A2|]. split; [exact A3|]. split; [exact A4|]. split; [exact A5|].
  split; [exact Hc|]. split.
  - eapply Rle_trans; [apply (fro_minus_triangle _ _ Q)|]. lra.
  - assert (d0 : (0 < 2 ^ n)%nat) by (assert (X := Nat.pow_nonzero 2 n ltac:(lia)); lia).
    assert (dR : (0 < INR (2 ^ n))%R) by (now apply lt_0_INR).
    assert (UE : unitary_mx (2 ^ n) E).
    { apply (PFamilies.unitary_meq _ (ev (2 ^ n) (total Ms) t)); [symmetry; now apply evolution_ev|]. apply ev_unitary. eapply total_hermitian; eauto. }
    assert (G := overlap_gap (2 ^ n) E Q (u_mat p) d0 UE). rewrite fro_minus_sym in G.
    assert (S1 : (1 <= sqrt (INR (2 ^ n)))%R).
    { rewrite <- sqrt_1. apply sqrt_le_1_alt. change 1%R with (INR 1). apply le_INR. lia. }
    assert (G' : (overlap (2 ^ n) E Q - overlap (2 ^ n) E (u_mat p) <= drift)%R).
    { assert (X := Rle_abs (overlap (2 ^ n) E Q - overlap (2 ^ n) E (u_mat p))).
      assert (Y := Rabs_pos (overlap (2 ^ n) E Q - overlap (2 ^ n) E (u_mat p))). nra. }
    assert (K := overlap_all (2 ^ n) E Q c d0 UE UQ Hc). rewrite <- fro_sqr in K.
    assert (F0 := fro_nonneg (2 ^ n) (mminus Q (mscale c E))).
    assert (SQ : (fro (2 ^ n) (mminus Q (mscale c E)) ^ 2 <= delta ^ 2)%R) by (apply pow_incr; lra).
    assert (Z : (1 - overlap (2 ^ n) E Q <= delta ^ 2 / (2 * INR (2 ^ n)))%R).
    { apply (Rmult_le_reg_l (2 * INR (2 ^ n))); [lra|]. unfold Rdiv.
      replace (2 * INR (2 ^ n) * (delta ^ 2 * / (2 * INR (2 ^ n))))%R with (delta ^ 2)%R by (field; lra). lra. }
    lra.
Qed.

(** * The bound is 0 exactly for commuting terms *)
Lemma fold_zero (f : mat -> R) l : (forall x, (0 <= f x)%R) -> fold_right (fun B s => (f B + s)%R) 0%R l = 0%R <-> (forall x, In x l -> f x = 0%R).
Proof.
  intros H. induction l as [|y l IH]; cbn [fold_right].
  - split; [intros _ x []|reflexivity].
  - assert (X := fold_nonneg f l H). assert (Y := H y). split.
    + intros E x [<-|Hx]; [lra|]. apply IH; [lra|exact Hx].
    + intros Hx. rewrite (Hx y (or_introl eq_refl)), (proj2 IH); [ring|]. intros x Hi. apply Hx. now right.
Qed.

Lemma commutator_zero n A B : fro n (commutator n A B) = 0%R <-> meq n (mmul n A B) (mmul n B A).
Proof.
  split.
  - intros H i j Hi Hj. assert (X := fro_0 n _ H i j Hi Hj). unfold commutator, mminus, mzero in X.
    replace (mmul n A B i j) with (mmul n A B i j - mmul n B A i j + mmul n B A i j) by ring. rewrite X. apply Cplus_0_l.
  - intros H. unfold commutator. now apply fro_minus_self.
Qed.

Lemma C104_zero_lemma : forall d Ms, commutators d Ms = 0%R <-> commuting d Ms.
Proof.
  intros d Ms. induction Ms as [|A l IH]; cbn [commutators].
  - split; [intros _ A B []|reflexivity].
  - rewrite (fold_add (fun B => fro d (commutator d A B))).
    assert (X := fold_nonneg (fun B => fro d (commutator d A B)) l ltac:(intros; apply fro_nonneg)).
    assert (Y := commutators_nonneg d l). assert (Z := fold_zero (fun B => fro d (commutator d A B)) l ltac:(intros; apply fro_nonneg)).
    cbv beta in X, Z. split.
    + intros E. assert (E1 := proj1 Z ltac:(lra)). assert (E2 := proj1 IH ltac:(lra)).
      intros P Q [<-|HP] [<-|HQ].
      * reflexivity.
      * apply commutator_zero. now apply E1.
      * symmetry. apply commutator_zero. now apply E1.
      * now apply E2.
    + intros H. rewrite (proj2 Z), (proj2 IH); [ring| |].
      * intros P Q HP HQ. apply H; now right.
      * intros B HB. apply commutator_zero. apply H; [now left|now right].
Qed.
