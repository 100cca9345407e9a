(** Properties of time evolution and of the sequences built from a Hamiltonian:
    C38-C43. *)
From Coq Require Import Reals List Arith Bool String ZArith Lra Lia Permutation.
From Coquelicot Require Import Coquelicot.
From Verif Require PBits.
From Verif Require Import Base CMat CMatFacts Det DetFacts Norms CRoot Expm ExpmFacts ExpmBounds ModelUnitary ModelEntry
  ModelPrimitive ModelSequence ModelCompiler ModelVerification ModelGates ModelHamiltonian Spec SpecModel
  SpecCompiler SpecGates SpecHamiltonian PUnitary PDrift PEmbed PEntry PSeqHeap PSeqMeth PSeqNear PSeqWorld PSeqUndo
  PCompView PCompRun PCompEntry PCompProps PSeqInv PVerify PGates PHam PHamTerm PHamSeq.
Import ListNotations.
Open Scope R_scope.
Open Scope C_scope.
Open Scope res_scope.
Open Scope se_scope.

(** * C38 *)
Lemma C38_lemma : forall d M, (0 < d)%nat -> hermitian_mx d M -> ~ meq d M mzero ->
  exists t, mk_term (square d M) = Ok t /\ t_dim t = d /\ (0 < t_coeff t)%R /\
    meq d (mscale (RtoC (t_coeff t)) (t_norm t)) M /\ hermitian_mx d (t_norm t) /\
    operator_norm d M (t_coeff t) /\ operator_norm d (t_norm t) 1 /\
    singular_value d M (t_coeff t) /\ (forall s, singular_value d M s -> (s <= t_coeff t)%R).
Proof.
  intros d M D H NZ. eexists. split; [now apply mk_term_ok|]. cbn [t_dim t_coeff t_norm].
  set (c := max_singular d M). assert (N := max_singular_norm d M D). fold c in N.
  assert (C0 : (0 < c)%R).
  { destruct (Rle_lt_or_eq_dec _ _ (max_singular_nonneg d M D)) as [|E]; auto. exfalso. apply NZ.
    apply max_singular_0; auto. }
  split; [reflexivity|]. split; [exact C0|]. split; [|split; [|split; [exact N|split; [|split]]]].
  - intros i j _ _. unfold mscale. rewrite Cmult_assoc, <- RtoC_mult, Rinv_r, Cmult_1_l by lra. reflexivity.
  - now apply hermitian_scale.
  - replace 1%R with (/ c * c)%R by (field; lra). apply operator_norm_scale; auto. now apply Rinv_0_lt_compat.
  - now apply max_singular_value.
  - intros s Hs. eapply singular_le; eauto.
Qed.

Lemma C38_rejects_lemma :
  (forall d M, (0 < d)%nat -> meq d M mzero -> mk_term (square d M) = Raise AssertionError) /\
  (forall m, nrows m <> ncols m -> mk_term m = Raise AssertionError) /\
  (forall d M i j, (i < d)%nat -> (j < d)%nat ->
     (/ 10 ^ 8 + / 10 ^ 5 * Cmod (M j i) < Cmod (M i j - Cconj (M j i)))%R ->
     mk_term (square d M) = Raise AssertionError) /\
  (forall M, mk_term (square 0 M) = Raise ValueError).
Proof.
  split; [|split; [|split]].
  - intros d M D Z. unfold mk_term, square. cbn [nrows ncols elt]. rewrite Nat.eqb_refl. cbn [assert bind].
    rewrite allclose_meq; [|intros i j Hi Hj; unfold adj; rewrite (Z i j Hi Hj), (Z j i Hj Hi); unfold mzero; now rewrite Cconj_R].
    cbn [assert bind]. destruct (Nat.eqb_spec d 0); [lia|].
    destruct (Req_EM_T (max_singular d M) 0) as [E|E]; [reflexivity|]. exfalso. apply E. now apply max_singular_0.
  - intros m NE. unfold mk_term. destruct (Nat.eqb_spec (ncols m) (nrows m)); [congruence|reflexivity].
  - intros d M i j Hi Hj F. unfold mk_term, square. cbn [nrows ncols elt]. rewrite Nat.eqb_refl. cbn [assert bind].
    destruct (allclose d M (adj M)) eqn:A; [|reflexivity]. exfalso.
    assert (K := proj1 (allclose_spec _ _ _) A i j Hi Hj). unfold adj in K. rewrite Cmod_conj in K. unfold atol, rtol in K. lra.
  - intros M. unfold mk_term, square. cbn [nrows ncols elt]. reflexivity.
Qed.

(** * C39 *)
Lemma C39_lemma : forall eps n h t sfx E, small_drift eps n 1 -> hermitian_mx (2 ^ n) h ->
  evolution (2 ^ n) h t E ->
  stores_phase eps 1 n (time_evolution eps (2 ^ n) h t sfx) E /\
  labelled (time_evolution eps (2 ^ n) h t sfx) ("H" ++ sfx) [("t"%string, (t, false))].
Proof.
  intros eps n h t sfx E SD HH HE. destruct (small_lim eps n 1 1 SD ltac:(lia)) as [E0 L].
  destruct (te_near eps n h t sfx E0 L HH) as (u & c & Eu & Hc & N & _ & L1 & L2 & L3 & L4).
  split.
  - refine (stores_phase_near eps n 1 1 _ E c u SD ltac:(lia) Eu _ Hc).
    eapply near_meq; [|exact N]. now rewrite (evolution_ev _ _ _ _ HE).
  - exists u. auto.
Qed.

Lemma C39_exact_lemma : forall d h t sfx E, (0 < d)%nat -> hermitian_mx d h -> evolution d h t E ->
  stores_exactly d (time_evolution 0 d h t sfx) E.
Proof.
  intros d h t sfx E D HH HE. destruct (te_exact d h t sfx D HH) as (u & c & Eu & Du & Hc & S & M).
  exists u. split; [exact Eu|]. split; [exact Du|]. split; [apply S|]. exists c. split; [exact Hc|].
  rewrite M. now rewrite (evolution_ev _ _ _ _ HE).
Qed.

Lemma close_phase d A B (X : mat) a b ea eb : Cmod a = 1%R -> Cmod b = 1%R ->
  (fro d (mminus A (mscale a X)) <= ea)%R -> (fro d (mminus B (mscale b X)) <= eb)%R ->
  (fro d (mminus A (mscale (a * Cconj b) B)) <= ea + eb)%R.
Proof.
  intros Ha Hb HA HB. eapply Rle_trans; [apply (fro_minus_triangle _ _ (mscale a X))|].
  apply Rplus_le_compat; [exact HA|].
  assert (E : fro d (mminus (mscale a X) (mscale (a * Cconj b) B)) = fro d (mminus (mscale b X) B)).
  { transitivity (fro d (mscale (a * Cconj b) (mminus (mscale b X) B))).
    - apply fro_proper. intros i j _ _. unfold mminus, mscale.
      transitivity (a * (Cconj b * b) * X i j - a * Cconj b * B i j); [|ring].
      rewrite Cmod_one_conj' by exact Hb. ring.
    - rewrite fro_mscale, Cmod_mult, Cmod_conj, Ha, Hb. ring. }
  rewrite E, fro_minus_sym. exact HB.
Qed.

Lemma C39_group_lemma : forall eps n h s t sfx, small_drift eps n 1 -> hermitian_mx (2 ^ n) h ->
  (exists u v w x c, time_evolution eps (2 ^ n) h s sfx = Ok u /\ time_evolution eps (2 ^ n) h t sfx = Ok v /\
     u_left_multiply eps u v = Ok w /\ time_evolution eps (2 ^ n) h (s + t) sfx = Ok x /\
     Cmod c = 1%R /\ (fro (2 ^ n) (mminus (u_mat w) (mscale c (u_mat x))) <= drift_bound eps n 1)%R) /\
  (exists u i y c, time_evolution eps (2 ^ n) h t sfx = Ok u /\ u_inverse eps u = Ok i /\
     time_evolution eps (2 ^ n) h (- t) sfx = Ok y /\
     Cmod c = 1%R /\ (fro (2 ^ n) (mminus (u_mat i) (mscale c (u_mat y))) <= drift_bound eps n 1)%R) /\
  (exists z c, time_evolution eps (2 ^ n) h 0 sfx = Ok z /\
     Cmod c = 1%R /\ (fro (2 ^ n) (mminus (u_mat z) (mscale c mid)) <= drift_bound eps n 1)%R).
Proof.
  intros eps n h s t sfx SD HH. destruct (small_lim eps n 1 8 SD ltac:(lia)) as [E0 L].
  assert (E1 : (eps <= 1)%R) by apply SD.
  destruct (drift_small _ _ _ SD) as [_ B]. change (8 * 1)%nat with 8%nat in B.
  assert (LM : forall c, (c <= 8)%nat -> lim eps n c) by (intros c Hc; now apply (lim_mono eps E0 E1 n c 8)).
  assert (T := fun t => te_near eps n h t sfx E0 (LM 1%nat ltac:(lia)) HH).
  assert (SUM : forall c1 c2, (c1 + c2 <= 8)%nat -> (err eps n c1 + err eps n c2 <= drift_bound eps n 1)%R).
  { intros c1 c2 Hc. eapply Rle_trans; [|exact B]. eapply Rle_trans; [|apply (err_mono eps E0 n (c1 + c2) 8 Hc)].
    rewrite err_add. assert (P1 := err_pos eps E0 n c1). assert (P2 := err_pos eps E0 n c2).
    assert (0 <= err eps n c1 * err eps n c2)%R by now apply Rmult_le_pos. lra. }
  split; [|split].
  - destruct (T s) as (u & a & Eu & Ha & Nu & _). destruct (T t) as (v & b & Ev & Hb & Nv & _).
    destruct (T (s + t)%R) as (x & c & Ex & Hc & Nx & _).
    destruct (near_left eps E0 n 1 1 _ _ _ _ Nu Nv (LM 3%nat ltac:(lia))) as (w & Ew & Nw).
    exists u, v, w, x, ((b * a) * Cconj c). repeat (split; [assumption|]). split.
    + rewrite !Cmod_mult, Cmod_conj, Ha, Hb, Hc. ring.
    + eapply Rle_trans; [|apply (SUM 3%nat 1%nat ltac:(lia))].
      apply (close_phase _ _ _ (ev (2 ^ n) h (s + t))); auto.
      * rewrite Cmod_mult, Ha, Hb. ring.
      * destruct Nw as (_ & _ & _ & F). eapply Rle_trans; [|exact F]. right. apply fro_proper.
        rewrite Rplus_comm. rewrite ev_add, mmul_mscale_l, mmul_mscale_r, mscale_mscale. reflexivity.
      * apply Nx.
  - destruct (T t) as (u & a & Eu & Ha & Nu & _). destruct (T (- t)%R) as (y & c & Ey & Hc & Ny & _).
    destruct (near_inverse eps E0 n 1 _ u Nu (LM 2%nat ltac:(lia))) as (i & Ei & Ni).
    exists u, i, y, (Cconj a * Cconj c). repeat (split; [assumption|]). split.
    + rewrite Cmod_mult, !Cmod_conj, Ha, Hc. ring.
    + eapply Rle_trans; [|apply (SUM 2%nat 1%nat ltac:(lia))].
      apply (close_phase _ _ _ (ev (2 ^ n) h (- t))); auto.
      * now rewrite Cmod_conj.
      * destruct Ni as (_ & _ & _ & F). eapply Rle_trans; [|exact F]. right. apply fro_proper.
        rewrite adj_mscale, ev_neg by exact HH. reflexivity.
      * apply Ny.
  - destruct (T 0%R) as (z & c & Ez & Hc & Nz & _). exists z, c. split; [exact Ez|]. split; [exact Hc|].
    destruct Nz as (_ & _ & _ & F). assert (K := SUM 1%nat 0%nat ltac:(lia)). rewrite err_0 in K.
    eapply Rle_trans; [|eapply Rle_trans; [exact F|lra]]. right. apply fro_proper. now rewrite ev_0.
Qed.

(** The parameterised form. *)
Lemma pd_te_ok eps d h t_min t_max sfx : (0 < d)%nat -> hermitian_mx d h -> (t_min <= t_max)%R ->
  pd_time_evolution eps d h t_min t_max sfx =
  Ok {| pu_dim := d; pu_matrix := evolution_matrix eps d h sfx;
        pu_params := [{| pr_name := "t"; pr_min := t_min; pr_max := t_max; pr_angle := false |}];
        pu_name := "H" ++ sfx |}.
Proof.
  intros D HH T. unfold pd_time_evolution. rewrite allclose_meq by exact HH. cbn [assert bind].
  rewrite (proj2 (Rleb_spec _ _) T). cbn [assert bind]. unfold mk_parameter. cbn [String.eqb negb assert bind].
  rewrite (proj2 (Rleb_spec _ _) T). cbn [assert bind]. unfold mk_punitary.
  rewrite (proj2 (Nat.ltb_lt _ _) D). reflexivity.
Qed.

Lemma C39_family_lemma : forall eps n h t_min t_max sfx, small_drift eps n 1 -> hermitian_mx (2 ^ n) h ->
  ((t_min <= t_max)%R -> exists pu, pd_time_evolution eps (2 ^ n) h t_min t_max sfx = Ok pu /\
     pu_dim pu = (2 ^ n)%nat /\ List.map pr_name (pu_params pu) = ["t"%string] /\
     (forall t E, (t_min <= t <= t_max)%R -> evolution (2 ^ n) h t E ->
        stores_phase eps 1 n (as_unitary eps pu [t]) E /\
        labelled (as_unitary eps pu [t]) ("H" ++ sfx) [("t"%string, (t, false))]) /\
     (forall t, (t < t_min)%R \/ (t_max < t)%R -> as_unitary eps pu [t] = Raise AssertionError)) /\
  ((t_max < t_min)%R -> pd_time_evolution eps (2 ^ n) h t_min t_max sfx = Raise AssertionError).
Proof.
  intros eps n h t_min t_max sfx SD HH. split.
  - intros T. eexists. split; [exact (pd_te_ok eps (2 ^ n) h t_min t_max sfx (PBits.pow2_pos n) HH T)|].
    cbn [pu_dim pu_params map pr_name]. split; [reflexivity|]. split; [reflexivity|]. split.
    + intros t E [T1 T2] HE. destruct (small_lim eps n 1 2 SD ltac:(lia)) as [E0 L].
      assert (E1 : (eps <= 1)%R) by apply SD.
      destruct (te_near eps n h t sfx E0 (lim_mono eps E0 E1 n 1 2 ltac:(lia) L) HH) as (u & c & Eu & Hc & N & _).
      unfold as_unitary. cbn [pu_params pu_matrix pu_dim pu_name check_values pr_min pr_max pr_is_valid].
      unfold pr_is_valid. cbn [pr_min pr_max]. rewrite (proj2 (Rleb_spec _ _) T1), (proj2 (Rleb_spec _ _) T2).
      cbn [andb bind assert fill_dict dict_put pr_name pr_angle]. unfold evolution_matrix. rewrite Eu. cbn [bind].
      assert (D := proj1 N). rewrite D. destruct N as (_ & S & De & F).
      destruct (near_mk eps E0 n 1 _ (u_mat u) (Some ("H" ++ sfx)%string) [("t"%string, (t, false))] false [] S De F L)
        as (p & Ep & Np & L1 & L2 & L3 & L4).
      rewrite Ep. split; [|exists p; auto].
      refine (stores_phase_near eps n 1 2 _ E c p SD ltac:(lia) eq_refl _ Hc).
      eapply near_meq; [|exact Np]. now rewrite (evolution_ev _ _ _ _ HE).
    + intros t HT. unfold as_unitary. cbn [pu_params check_values]. unfold pr_is_valid. cbn [pr_min pr_max].
      assert (X : (Rleb t_min t && Rleb t t_max)%bool = false).
      { apply andb_false_iff. destruct HT as [HT|HT]; [left|right]; now apply Rleb_false. }
      rewrite X. reflexivity.
  - intros T. unfold pd_time_evolution. rewrite allclose_meq by exact HH. cbn [assert bind].
    rewrite (proj2 (Rleb_false _ _) T). reflexivity.
Qed.

(** * Hamiltonians *)
Lemma F2_impl {A B} (P Q : A -> B -> Prop) l l' : (forall a b, P a b -> Q a b) -> Forall2 P l l' -> Forall2 Q l l'.
Proof. induction 2; constructor; auto. Qed.

Definition term_of (d : nat) (M : mat) (t : term) : Prop :=
  hermitian_mx d M /\ t_dim t = d /\ meq d (t_matrix t) M /\ (0 < t_coeff t)%R /\
  operator_norm d M (t_coeff t) /\ t_norm t = mscale (RtoC (/ t_coeff t)) M.

Lemma ham_facts d Ms h : hamiltonian_of d Ms h ->
  (0 < d)%nat /\ h_dim h = d /\ Ms <> [] /\ Forall2 (term_of d) Ms (h_terms h).
Proof.
  intros (ts & F & E).
  assert (T : Forall2 (fun M t => (0 < d)%nat /\ term_of d M t) Ms ts).
  { eapply F2_impl; [|exact F]. intros M t [HH Et].
    destruct (mk_term_inv _ _ Et) as (_ & D & _ & NZ & ->). unfold square in D, NZ |- *. cbn [nrows ncols elt] in *.
    split; [exact D|]. split; [exact HH|]. cbn [t_dim t_coeff t_norm]. split; [reflexivity|].
    assert (C0 := max_singular_nonneg d M D).
    split; [|split; [lra|split; [now apply max_singular_norm|reflexivity]]].
    intros i j _ _. unfold t_matrix, mscale. cbn [t_coeff t_norm].
    rewrite Cmult_assoc, <- RtoC_mult, Rinv_r, Cmult_1_l by exact NZ. reflexivity. }
  destruct T as [|M t Ms ts [D T0] T]; [discriminate|].
  unfold mk_hamiltonian in E. destruct (forallb _ _); [|discriminate]. cbn [assert bind] in E. injection E as <-.
  cbn [h_dim h_terms]. split; [exact D|]. split; [apply T0|]. split; [discriminate|].
  constructor; [exact T0|]. eapply F2_impl; [|exact T]. intros a b K; apply K.
Qed.

Lemma sum_total d Ms ts : Forall2 (term_of d) Ms ts -> meq d (sum_matrices ts) (total Ms).
Proof.
  induction 1 as [|M t Ms ts H _ IH]; intros i j Hi Hj; [reflexivity|].
  cbn [sum_matrices fold_right total]. unfold mplus at 1. fold (sum_matrices ts). rewrite (IH i j Hi Hj).
  destruct H as (_ & _ & E & _). rewrite (E i j Hi Hj). reflexivity.
Qed.
Lemma total_hermitian d Ms ts : Forall2 (term_of d) Ms ts -> hermitian_mx d (total Ms).
Proof.
  induction 1 as [|M t Ms ts H _ IH].
  - apply hermitian_zero.
  - apply (hermitian_plus d M (total Ms)); auto. apply H.
Qed.

Lemma all_qubits_n h n : h_dim h = (2 ^ n)%nat -> all_qubits h = map Z.of_nat (seq 0 n).
Proof. intros H. unfold all_qubits, qubit_count. rewrite H, Nat.log2_pow2 by lia. reflexivity. Qed.

(** One gate of these sequences. *)
Lemma te_stands eps n A M dt sfx : (0 <= eps)%R -> lim eps n 1 -> hermitian_mx (2 ^ n) M -> meq (2 ^ n) A M ->
  exists u c, time_evolution eps (2 ^ n) A dt sfx = Ok u /\ Cmod c = 1%R /\
    stands eps n u (mscale c (ev (2 ^ n) M dt)) /\ u_dim u = (2 ^ n)%nat /\
    u_name u = ("H" ++ sfx)%string /\ u_params u = [("t"%string, (dt, false))] /\ u_inv u = false /\ u_apply u = [].
Proof.
  intros E0 L HM EM. assert (HA : hermitian_mx (2 ^ n) A) by (eapply hermitian_meq; [symmetry; exact EM|exact HM]).
  destruct (te_near eps n A dt sfx E0 L HA) as (u & c & Eu & Hc & N & MF & L1 & L2 & L3 & L4).
  exists u, c. split; [exact Eu|]. split; [exact Hc|]. split; [|split; [apply N|auto]].
  split; [|exact MF]. eapply near_meq; [|exact N]. now rewrite (ev_meq _ _ _ _ EM).
Qed.

(** * Products of evolutions *)
Definition phased (d : nat) (V E : mat) : Prop := exists c, Cmod c = 1%R /\ meq d V (mscale c E).

Lemma lprod_phase d Vs Es : Forall2 (phased d) Vs Es -> phased d (lprod d Vs) (lprod d Es).
Proof.
  induction 1 as [|V E Vs Es (a & Ha & HV) _ (b & Hb & IH)].
  - exists 1. split; [apply Cmod_1|]. now rewrite mscale_1.
  - exists (b * a). split; [rewrite Cmod_mult, Ha, Hb; ring|]. cbn [lprod fold_right].
    fold (lprod d Vs). fold (lprod d Es). rewrite IH, HV, mmul_mscale_l, mmul_mscale_r, mscale_mscale. reflexivity.
Qed.

Lemma lprod_repeat_ev d h s N : meq d (lprod d (repeat (ev d h s) N)) (ev d h (INR N * s)).
Proof.
  induction N as [|N IH].
  - simpl. rewrite Rmult_0_l. now rewrite ev_0.
  - cbn [repeat lprod fold_right]. fold (lprod d (repeat (ev d h s) N)). rewrite IH, S_INR.
    rewrite Rmult_plus_distr_r, Rmult_1_l, ev_add. reflexivity.
Qed.

Lemma lprod_close d Ps Qs e : (0 <= e)%R ->
  Forall2 (fun P Q => unitary_mx d P /\ unitary_mx d Q /\ (fro d (mminus P Q) <= e)%R) Ps Qs ->
  (fro d (mminus (lprod d Ps) (lprod d Qs)) <= INR (List.length Ps) * e)%R.
Proof.
  intros He. induction 1 as [|P Q Ps Qs (UP & UQ & F) H IH].
  - simpl. rewrite fro_minus_self by reflexivity. lra.
  - cbn [lprod fold_right]. fold (lprod d Ps). fold (lprod d Qs). cbn [List.length]. rewrite S_INR.
    assert (U : unitary_mx d (lprod d Qs)).
    { apply lprod_unitary. clear - H. induction H as [|a b la lb K H IH]; [intros V []|]. intros V [<-|HV]; [apply K|auto]. }
    eapply Rle_trans; [apply (fro_minus_triangle _ _ (mmul d (lprod d Qs) P))|].
    assert (E1 : fro d (mminus (mmul d (lprod d Ps) P) (mmul d (lprod d Qs) P)) = fro d (mminus (lprod d Ps) (lprod d Qs))).
    { rewrite <- (fro_unitary_r d P (mminus (lprod d Ps) (lprod d Qs))) by exact UP. apply fro_proper.
      now rewrite mmul_mminus_l. }
    assert (E2 : fro d (mminus (mmul d (lprod d Qs) P) (mmul d (lprod d Qs) Q)) = fro d (mminus P Q)).
    { rewrite <- (fro_unitary_l d (lprod d Qs) (mminus P Q)) by exact U. apply fro_proper.
      now rewrite mmul_mminus_r. }
    rewrite E1, E2. lra.
Qed.

Lemma lprod_expprod d Xs : meq d (lprod d (map (expm d) Xs)) (expprod d (rev Xs)).
Proof.
  assert (A : forall l X, meq d (expprod d (l ++ [X])) (mmul d (expprod d l) (expm d X))).
  { intros l X. induction l as [|Y l IH]; cbn [app expprod fold_right].
    - now rewrite mmul_1_l, mmul_1_r.
    - fold (expprod d (l ++ [X])). fold (expprod d l). rewrite IH. now rewrite mmul_assoc. }
  induction Xs as [|X Xs IH]; [reflexivity|]. cbn [map lprod fold_right rev].
  fold (lprod d (map (expm d) Xs)). rewrite IH, A. reflexivity.
Qed.

(** * The distance between the product and the wanted operator *)
Lemma mtrace_fro d A : (Cmod (mtrace d A) <= INR d * fro d A)%R.
Proof.
  unfold mtrace. eapply Rle_trans; [apply Cmod_csum_le|]. rewrite <- rsum_const. apply rsum_le.
  intros i Hi. now apply fro_entry.
Qed.

Lemma distance_near eps n c1 c2 P Q p u e c : (0 <= eps)%R ->
  near eps n c1 P p -> near eps n c2 Q u -> lim eps n (S c1) ->
  Cmod c = 1%R -> (fro (2 ^ n) (mminus P (mscale c Q)) <= e)%R ->
  exists x, u_distance_from eps p u = Ok x /\ (Rabs x <= err eps n (S c1 + c2) + e)%R.
Proof.
  intros E0 NP NQ L Hc F.
  destruct (near_inverse eps E0 n c1 P p NP L) as (i & Ei & Ni).
  assert (D := proj1 NP). assert (D' := proj1 NQ).
  exists (1 - Cmod (mtrace (2 ^ n) (mmul (2 ^ n) (u_mat i) (u_mat u))) / INR (2 ^ n))%R.
  split.
  { unfold u_distance_from, u_distance_from_array, square. cbn [nrows ncols elt].
    rewrite D, D', Nat.eqb_refl. cbn [andb assert bind]. rewrite Ei. reflexivity. }
  set (d := (2 ^ n)%nat) in *.
  assert (Dp : (0 < INR d)%R) by (apply lt_0_INR, PBits.pow2_pos).
  destruct Ni as (_ & (Ui & _) & _ & Fi). destruct NQ as (_ & (UQ & _) & _ & FQ).
  destruct NP as (_ & (UP & _) & _ & _).
  assert (K1 := fro_product d (u_mat i) (u_mat u) (adj P) Q _ _ Ui UQ Fi FQ).
  rewrite <- err_add in K1. set (T := mmul d (u_mat i) (u_mat u)) in *.
  assert (K2 : (fro d (mminus (mmul d (adj P) Q) (mscale (Cconj c) mid)) <= e)%R).
  { eapply Rle_trans; [|exact F]. right.
    transitivity (fro d (mminus (mscale c Q) P)); [|apply fro_minus_sym].
    assert (UPa : unitary_mx d (adj P)) by exact Ui.
    rewrite <- (fro_unitary_l d (adj P) (mminus (mscale c Q) P) UPa).
    transitivity (fro d (mscale c (mminus (mmul d (adj P) Q) (mscale (Cconj c) mid)))).
    - rewrite fro_mscale, Hc. ring.
    - apply fro_proper. rewrite mmul_mminus_r, mmul_mscale_r.
      assert (PP : meq d (mmul d (adj P) P) mid) by (apply unitary_left; exact UP).
      rewrite PP. intros a b _ _. unfold mminus, mscale.
      transitivity (c * mmul d (adj P) Q a b - (c * Cconj c) * mid a b); [ring|]. rewrite Cmod_one_conj by exact Hc. ring. }
  assert (K3 : (fro d (mminus T (mscale (Cconj c) mid)) <= err eps n (S c1 + c2) + e)%R).
  { eapply Rle_trans; [apply (fro_minus_triangle _ _ (mmul d (adj P) Q))|]. lra. }
  assert (K4 := mtrace_fro d (mminus T (mscale (Cconj c) mid))).
  assert (E4 : mtrace d (mminus T (mscale (Cconj c) mid)) = mtrace d T - Cconj c * RtoC (INR d)).
  { rewrite <- mtrace_mid, <- mtrace_mscale. unfold mtrace. rewrite <- csum_minus. reflexivity. }
  rewrite E4 in K4.
  assert (K5 : (Rabs (Cmod (mtrace d T) - INR d) <= INR d * (err eps n (S c1 + c2) + e))%R).
  { eapply Rle_trans; [|eapply Rle_trans; [exact K4|apply Rmult_le_compat_l; [lra|exact K3]]].
    assert (M : Cmod (Cconj c * RtoC (INR d)) = INR d).
    { rewrite Cmod_mult, Cmod_conj, Hc, Cmod_R, Rabs_pos_eq by lra. ring. }
    rewrite <- M at 1. set (z := mtrace d T). set (y := Cconj c * RtoC (INR d)).
    assert (T1 := Cmod_triangle (z - y) y). replace (z - y + y) with z in T1 by ring.
    assert (T2 := Cmod_triangle (y - z) z). replace (y - z + z) with y in T2 by ring.
    assert (T3 : Cmod (y - z) = Cmod (z - y)) by (rewrite <- Cmod_opp; f_equal; ring).
    apply Rabs_le. lra. }
  replace (1 - Cmod (mtrace d T) / INR d)%R with (- (/ INR d * (Cmod (mtrace d T) - INR d)))%R by (field; lra).
  rewrite Rabs_Ropp, Rabs_mult, (Rabs_pos_eq (/ INR d)) by (apply Rlt_le, Rinv_0_lt_compat; exact Dp).
  apply (Rmult_le_compat_l (/ INR d)) in K5; [|apply Rlt_le, Rinv_0_lt_compat; exact Dp].
  rewrite <- Rmult_assoc, Rinv_l, Rmult_1_l in K5 by lra. exact K5.
Qed.
