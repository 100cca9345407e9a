(** Acceptance of Hamiltonians, closed forms of evolutions, and concrete cases of
    the properties C38 to C45 and C60 to C62. *)
From Coq Require Import Reals List Arith Bool String ZArith Lra Lia Permutation Sorted.
From Coquelicot Require Import Coquelicot.
From Verif Require PBits.
From Verif Require Import Base CMat CMatFacts Det DetFacts Norms CRoot Expm ExpmFacts ExpmBounds ModelUnitary ModelEntry
  ModelPrimitive ModelSequence ModelCompiler ModelVerification ModelGates ModelHamiltonian Spec SpecModel
  SpecCompiler SpecGates SpecHamiltonian PUnitary PDrift PEmbed PEntry PSeqHeap PSeqMeth PSeqNear PSeqWorld PSeqUndo
  PCompView PCompRun PCompEntry PCompLoop PCompTrace PCompTotal PCompProps PCompMore PSeqInv PSeqHist PSeqProps PCompCases
  PVerify PVerifyProps PGates PGms PGatesEx PHam PHamTerm PHamSeq PHamRun PHamTrot PHamQd PHamSub PHamStoq PHamRav PHamIso.
Import ListNotations.
Open Scope R_scope.
Open Scope C_scope.
Open Scope res_scope.

(** * The constructor *)
Lemma C38_hamiltonian_lemma : forall ts,
  (forall h, mk_hamiltonian ts = Ok h -> ts <> [] /\ h_terms h = ts /\ (forall t, In t ts -> t_dim t = h_dim h)) /\
  (ts <> [] -> (forall t u, In t ts -> In u ts -> t_dim t = t_dim u) -> exists h, mk_hamiltonian ts = Ok h) /\
  (ts = [] \/ (exists t u, In t ts /\ In u ts /\ t_dim t <> t_dim u) -> mk_hamiltonian ts = Raise AssertionError).
Proof.
  intros ts. destruct ts as [|t0 ts].
  { split; [discriminate|]. split; [congruence|reflexivity]. }
  unfold mk_hamiltonian. destruct (forallb (fun t => Nat.eqb (t_dim t) (t_dim t0)) (t0 :: ts)) eqn:F; cbn [assert bind].
  - rewrite forallb_forall in F. assert (F' : forall t, In t (t0 :: ts) -> t_dim t = t_dim t0).
    { intros t H. now apply Nat.eqb_eq, F. }
    split.
    + intros h E. injection E as <-. cbn [h_terms h_dim]. split; [discriminate|]. split; [reflexivity|exact F'].
    + split; [eauto|]. intros [E|(t & u & Ht & Hu & N)]; [discriminate|]. exfalso. apply N. now rewrite (F' t Ht), (F' u Hu).
  - split; [discriminate|]. split; [|reflexivity]. intros _ H. exfalso. apply not_true_iff_false in F. apply F.
    apply forallb_forall. intros t Ht. apply Nat.eqb_eq, H; [exact Ht|left; reflexivity].
Qed.

Lemma ham_exists d Ms : (0 < d)%nat -> Ms <> [] -> (forall M, In M Ms -> hermitian_mx d M /\ ~ meq d M mzero) ->
  exists h, hamiltonian_of d Ms h.
Proof.
  intros D NE H.
  assert (X : exists ts, Forall2 (fun M t => hermitian_mx d M /\ mk_term (square d M) = Ok t) Ms ts /\ forall t, In t ts -> t_dim t = d).
  { clear NE. induction Ms as [|M Ms IH].
    - exists []. split; [constructor|intros t []].
    - destruct IH as (ts & F & E). { intros; apply H; now right. }
      destruct (H M (or_introl eq_refl)) as [H1 H2]. destruct (C38_lemma d M D H1 H2) as (t & Et & Dt & _).
      exists (t :: ts). split; [constructor; auto|]. intros x [<-|Hx]; auto. }
  destruct X as (ts & F & E). destruct (proj1 (proj2 (C38_hamiltonian_lemma ts))) as (h & Eh).
  - intros ->. inversion F; subst; congruence.
  - intros t u Ht Hu. now rewrite (E t Ht), (E u Hu).
  - exists h, ts. auto.
Qed.

(** * Closed forms *)
Lemma C39_involution_lemma : forall d A t, meq d (mmul d A A) mid ->
  evolution d A t (fun i j => RtoC (cos t) * mid i j + Ci * RtoC (sin t) * A i j).
Proof.
  intros d A t H.
  set (X := fun (s : R) => (fun i j => RtoC (cos s) * mid i j + Ci * RtoC (sin s) * A i j) : mat).
  assert (DX : forall s, mderiv d X s (mmul d (mscale Ci A) (X s))).
  { intros s. eapply mderiv_val with (L := fun i j => RtoC (- sin s) * mid i j + Ci * RtoC (cos s) * A i j).
    - assert (E : meq d (X s) (mplus (mscale (RtoC (cos s)) mid) (mscale (Ci * RtoC (sin s)) A))).
      { intros i j _ _. unfold X, mplus, mscale. ring. }
      rewrite E. rewrite mmul_mscale_l. intros i j Hi Hj. unfold mscale at 1.
      replace (mmul d A (mplus (mscale (RtoC (cos s)) mid) (mscale (Ci * RtoC (sin s)) A)) i j)
        with (RtoC (cos s) * A i j + Ci * RtoC (sin s) * mid i j).
      + rewrite RtoC_opp. transitivity (Ci * Ci * RtoC (sin s) * mid i j + Ci * RtoC (cos s) * A i j); [|ring].
        f_equal. f_equal. unfold Ci, RtoC, Cmult, Copp. simpl. f_equal; ring.
      + rewrite <- (H i j Hi Hj). rewrite <- (mmul_1_r d A i j Hi Hj) at 1. unfold mmul, mplus, mscale.
        rewrite <- !csum_mult_l, <- csum_plus. apply csum_ext. intros k Hk. ring.
    - intros i j _ _. apply cderiv_plus.
      + apply cderiv_ext with (f := fun x => mid i j * RtoC (cos x)); [intros; ring|].
        replace (RtoC (- sin s) * mid i j) with (0 * RtoC (cos s) + mid i j * RtoC (- sin s)) by ring.
        apply (cderiv_mult (fun _ => mid i j) (fun x => RtoC (cos x))); [apply cderiv_const|]. split; cbn [fst snd RtoC]; auto_derive; auto; ring.
      + apply cderiv_ext with (f := fun x => Ci * A i j * RtoC (sin x)); [intros; ring|].
        replace (Ci * RtoC (cos s) * A i j) with (0 * RtoC (sin s) + Ci * A i j * RtoC (cos s)) by ring.
        apply (cderiv_mult (fun _ => Ci * A i j) (fun x => RtoC (sin x))); [apply cderiv_const|]. split; cbn [fst snd RtoC]; auto_derive; auto; ring. }
  assert (E := ode d (mscale Ci A) X DX t).
  assert (X0 : meq d (X 0%R) mid).
  { intros i j _ _. unfold X. rewrite cos_0, sin_0. ring. }
  rewrite X0, mmul_1_r in E.
  assert (V := ev_evolution d A t). intros i j Hi Hj. specialize (V i j Hi Hj). unfold ev in V. rewrite <- (E i j Hi Hj) in V. exact V.
Qed.

Lemma C39_rotation_lemma :
  (forall x y z t, (x ^ 2 + y ^ 2 + z ^ 2 = 1)%R ->
     evolution 2 (fun i j => RtoC x * pauli_x i j + RtoC y * pauli_y i j + RtoC z * pauli_z i j) t (rotation x y z (-2 * t))) /\
  (forall t, evolution 4 (kron 2 pauli_x pauli_x) t (xx_coupling (- t))).
Proof.
  assert (K : forall d A t E, meq d (mmul d A A) mid ->
    (forall i j, (i < d)%nat -> (j < d)%nat -> E i j = RtoC (cos t) * mid i j + Ci * RtoC (sin t) * A i j) -> evolution d A t E).
  { intros d A t E H HE i j Hi Hj. rewrite (HE i j Hi Hj). exact (C39_involution_lemma d A t H i j Hi Hj). }
  split.
  - intros x y z t H. apply K.
    + assert (H' : (z * z = 1 - x * x - y * y)%R) by lra.
      cases2; unfold mmul, pauli_x, pauli_y, pauli_z, mat22, mid; simpl; apply C_eq; simpl; ring [H'].
    + intros i j _ _. unfold rotation. replace (-2 * t / 2)%R with (- t)%R by field. rewrite cos_neg, sin_neg, RtoC_opp. ring.
  - intros t. apply K.
    + change 4%nat with (2 * 2)%nat. rewrite kron_mmul by lia.
      assert (E : meq 2 (mmul 2 pauli_x pauli_x) mid).
      { cases2; unfold mmul, pauli_x, mat22, mid; simpl; apply C_eq; simpl; ring. }
      transitivity (kron 2 mid mid : mat); [apply kron_proper; auto; lia|]. apply kron_mid. lia.
    + intros i j _ _. unfold xx_coupling. rewrite cos_neg, sin_neg, RtoC_opp. ring.
Qed.

(** * Concrete cases *)
Definition XZ : mat := fun i j => pauli_x i j + pauli_z i j.

Lemma herm_x : hermitian_mx 2 pauli_x.
Proof. cases2; unfold adj, pauli_x, mat22, Cconj; simpl; apply C_eq; simpl; ring. Qed.
Lemma herm_z : hermitian_mx 2 pauli_z.
Proof. cases2; unfold adj, pauli_z, mat22, Cconj; simpl; apply C_eq; simpl; ring. Qed.
Lemma herm_id d : hermitian_mx d mid.
Proof. intros i j _ _. unfold adj, mid. rewrite (Nat.eqb_sym j i). destruct (Nat.eqb i j); apply C_eq; simpl; ring. Qed.
Lemma C1_nz : RtoC 1 <> RtoC 0.
Proof. intros X. injection X. lra. Qed.
Lemma entry_nonzero d (M : mat) i j : (i < d)%nat -> (j < d)%nat -> M i j <> 0 -> ~ meq d M mzero.
Proof. intros Hi Hj N Z. apply N. exact (Z i j Hi Hj). Qed.
Lemma nz_x : ~ meq 2 pauli_x mzero.
Proof. apply (entry_nonzero 2 _ 0 1); try lia. exact C1_nz. Qed.
Lemma nz_z : ~ meq 2 pauli_z mzero.
Proof. apply (entry_nonzero 2 _ 0 0); try lia. exact C1_nz. Qed.
Lemma nz_id d : (0 < d)%nat -> ~ meq d mid mzero.
Proof. intros D. apply (entry_nonzero d _ 0 0); try lia. exact C1_nz. Qed.

Lemma ex_ham : exists h, hamiltonian_of (2 ^ 1) [pauli_x; pauli_z] h.
Proof.
  apply ham_exists; [simpl; lia|discriminate|]. intros M [<-|[<-|[]]]; split.
  - exact herm_x.
  - exact nz_x.
  - exact herm_z.
  - exact nz_z.
Qed.

(** X + Z has coefficient sqrt 2. *)
Lemma ex_term_lemma : hermitian_mx 2 XZ /\ ~ meq 2 XZ mzero /\
  exists t, mk_term (square 2 XZ) = Ok t /\ t_coeff t = sqrt 2.
Proof.
  assert (H : hermitian_mx 2 XZ).
  { cases2; unfold adj, XZ, pauli_x, pauli_z, mat22, Cconj; simpl; apply C_eq; simpl; ring. }
  assert (N : ~ meq 2 XZ mzero).
  { apply (entry_nonzero 2 _ 0 1); try lia. unfold XZ, pauli_x, pauli_z, mat22. simpl. rewrite Cplus_0_r. exact C1_nz. }
  split; [exact H|]. split; [exact N|]. destruct (C38_lemma 2 XZ ltac:(lia) H N) as (t & E & _ & P & _ & _ & _ & _ & (_ & v & Hv & Ev) & _).
  exists t. split; [exact E|].
  assert (S : meq 2 (mmul 2 (adj XZ) XZ) (mscale (RtoC 2) mid)).
  { cases2; unfold mmul, adj, mscale, XZ, pauli_x, pauli_z, mat22, mid, Cconj; simpl; apply C_eq; simpl; ring. }
  assert (Q : forall i, (i < 2)%nat -> RtoC (t_coeff t ^ 2 - 2) * v i = 0).
  { intros i Hi. specialize (Ev i Hi). unfold mapply in Ev.
    rewrite (csum_ext 2 _ (fun k => RtoC 2 * mid i k * v k)) in Ev by (intros k Hk; now rewrite (S i k Hi Hk)).
    rewrite RtoC_minus. match goal with |- (?a - ?b) * ?c = _ => transitivity (a * c - b * c); [ring|] end. rewrite <- Ev. destruct i as [|[|]]; [| |lia]; unfold mid; simpl; ring. }
  destruct (Req_dec (t_coeff t ^ 2 - 2) 0) as [Z|Z].
  - apply Rsqr_inj; [lra|apply sqrt_pos|]. rewrite Rsqr_sqrt by lra. unfold Rsqr. lra.
  - exfalso. assert (V : forall i, (i < 2)%nat -> v i = 0).
    { intros i Hi. specialize (Q i Hi). destruct (Ceq_dec (v i) 0) as [|NZ]; [assumption|]. exfalso.
      apply (Cmult_neq_0 (RtoC (t_coeff t ^ 2 - 2)) (v i)); [|exact NZ|exact Q]. intros X. apply Z. now injection X. }
    rewrite (vnorm_ext 2 v (fun i => 0 * v i)) in Hv by (intros i Hi; rewrite (V i Hi); ring).
    rewrite vnorm_scale, Cmod_0 in Hv. lra.
Qed.

Lemma involution_norm d A : (0 < d)%nat -> hermitian_mx d A -> meq d (mmul d A A) mid -> operator_norm d A 1.
Proof.
  intros D H S. assert (NZ : ~ meq d A mzero).
  { intros Z. assert (E := S 0%nat 0%nat D D). rewrite (mmul_proper d _ _ Z _ _ Z 0%nat 0%nat D D), (mmul_zero_l d _ 0%nat 0%nat D D) in E.
    unfold mzero, mid in E. simpl in E. injection E. lra. }
  destruct (C38_lemma d A D H NZ) as (t & _ & _ & P & _ & _ & O & _ & (_ & v & Hv & Ev) & _).
  replace 1%R with (t_coeff t); [exact O|].
  assert (Q : forall i, (i < d)%nat -> RtoC (t_coeff t ^ 2 - 1) * v i = 0).
  { intros i Hi. specialize (Ev i Hi). unfold mapply in Ev.
    assert (S' : meq d (mmul d (adj A) A) mid). { rewrite <- S. apply mmul_proper; [|reflexivity]. now symmetry. }
    rewrite (csum_ext d _ (fun k => mid i k * v k)) in Ev by (intros k Hk; now rewrite (S' i k Hi Hk)).
    assert (X : csum d (fun k => mid i k * v k) = v i).
    { rewrite (csum_single d i) by (try assumption; intros k _ Hk; unfold mid; rewrite (proj2 (Nat.eqb_neq i k)) by congruence; ring).
      unfold mid. rewrite Nat.eqb_refl. ring. }
    rewrite X in Ev. rewrite RtoC_minus. match goal with |- (?a - ?b) * ?c = _ => transitivity (a * c - b * c); [ring|] end. rewrite <- Ev. ring. }
  destruct (Req_dec (t_coeff t ^ 2 - 1) 0) as [Z|Z]; [nra|].
  exfalso. rewrite (vnorm_ext d v (fun i => 0 * v i)) in Hv.
  - rewrite vnorm_scale, Cmod_0 in Hv. lra.
  - intros i Hi. specialize (Q i Hi). destruct (Ceq_dec (v i) 0) as [->|NZi]; [ring|]. exfalso.
    apply (Cmult_neq_0 (RtoC (t_coeff t ^ 2 - 1)) (v i)); [|exact NZi|exact Q]. intros X. apply Z. now injection X.
Qed.

Lemma sq_x : meq 2 (mmul 2 pauli_x pauli_x) mid.
Proof. cases2; unfold mmul, pauli_x, mat22, mid; simpl; apply C_eq; simpl; ring. Qed.
Lemma sq_z : meq 2 (mmul 2 pauli_z pauli_z) mid.
Proof. cases2; unfold mmul, pauli_z, mat22, mid; simpl; apply C_eq; simpl; ring. Qed.

Lemma eps_code_40 : small_drift eps_code 1 40.
Proof. apply (drift_case _ _ _ (3 / 2)); [apply sqrt_le; simpl; lra|apply eps_code_pos| |]; unfold eps_code; simpl; lra. Qed.
Lemma start_reachable eps : reachable eps (r_world start).
Proof. now exists []. Qed.

Lemma ex_evolution_lemma : small_drift eps_code 1 1 /\ hermitian_mx (2 ^ 1) pauli_x /\
  evolution (2 ^ 1) pauli_x (PI / 4) (rotation 1 0 0 (- (PI / 2))).
Proof.
  split; [apply (small_drift_le _ _ 40); [lia|apply eps_code_40]|]. split; [exact herm_x|].
  replace (- (PI / 2))%R with (-2 * (PI / 4))%R by field.
  assert (E := proj1 C39_rotation_lemma 1%R 0%R 0%R (PI / 4)%R ltac:(ring)). eapply is_expm_meq; [|exact E].
  intros i j _ _. cbv beta. ring.
Qed.

Lemma ex_sequences_lemma : exists g h, rng_ok g /\ hamiltonian_of (2 ^ 1) [pauli_x; pauli_z] h /\
  (1 <= 10)%nat /\ small_drift eps_code 1 (2 * 10) /\ small_drift eps_code 1 (2 * (10 * List.length [pauli_x; pauli_z])) /\
  Forall2 (operator_norm (2 ^ 1)) [pauli_x; pauli_z] [1; 1]%R /\ reachable eps_code (r_world start).
Proof.
  destruct ex_ham as (h & H). exists (const_rng (1 / 2) 0), h. split; [apply const_rng_ok; lra|]. split; [exact H|].
  split; [lia|]. split; [apply (small_drift_le _ _ 40); [lia|apply eps_code_40]|]. split; [exact eps_code_40|].
  split; [|apply start_reachable]. constructor; [|constructor; [|constructor]].
  - apply (involution_norm 2); [lia|exact herm_x|exact sq_x].
  - apply (involution_norm 2); [lia|exact herm_z|exact sq_z].
Qed.

Lemma ex_mean_lemma : exists g h E, rng_ok g /\ hamiltonian_of (2 ^ 1) [pauli_x; pauli_z] h /\ (1 <= 10)%nat /\
  small_drift eps_code 1 (2 * 10) /\ Forall2 (operator_norm (2 ^ 1)) [pauli_x; pauli_z] [1; 1]%R /\
  reachable eps_code (r_world start) /\ evolution (2 ^ 1) (total [pauli_x; pauli_z]) 1 E.
Proof.
  destruct ex_sequences_lemma as (g & h & G & H & _ & S & _ & F & R).
  exists g, h, (ev (2 ^ 1) (total [pauli_x; pauli_z]) 1). split; [exact G|]. split; [exact H|]. split; [lia|].
  split; [exact S|]. split; [exact F|]. split; [exact R|]. apply ev_evolution.
Qed.

Lemma ex_commuting_lemma : exists h, hamiltonian_of (2 ^ 1) [pauli_z; mid] h /\ commuting (2 ^ 1) [pauli_z; mid] /\
  small_drift eps_code 1 (2 * (10 * List.length [pauli_z; mid])).
Proof.
  destruct (ham_exists (2 ^ 1) [pauli_z; mid]) as (h & H); [simpl; lia|discriminate| |].
  { intros M [<-|[<-|[]]]; split; [exact herm_z|exact nz_z|apply herm_id|apply nz_id; simpl; lia]. }
  exists h. split; [exact H|]. split; [|exact eps_code_40].
  intros A B [<-|[<-|[]]] [<-|[<-|[]]]; try reflexivity; [now rewrite mmul_1_l, mmul_1_r|now rewrite mmul_1_l, mmul_1_r].
Qed.

Lemma ex_stoq_lemma : exists g h st st' s costs, rng_ok g /\ hamiltonian_of (2 ^ 1) [pauli_x; pauli_z] h /\
  exact_world (r_world st) /\ small_drift 0 1 1 /\ reachable 0 (r_world st) /\
  compile_stoq_sequence 0 g h 1 (1 / 10) (1 / 100) true st = (st', Ok (s, costs)).
Proof.
  destruct ex_ham as (h & H). set (g := const_rng (1 / 2) 0). assert (G : rng_ok g) by (apply const_rng_ok; lra).
  destruct (C44_exact_lemma g 1 _ h 1 (1 / 10) (1 / 100) true start G ltac:(lia) H empty_exact ltac:(lra)) as (st' & s & costs & v & p & E & _).
  exists g, h, start, st', s, costs. split; [exact G|]. split; [exact H|]. split; [exact empty_exact|].
  split; [apply small_drift_0|]. split; [apply start_reachable|exact E].
Qed.

Lemma ex_stoq_drift_lemma : small_drift (/ 10 ^ 16) 1 (S (0 + Z.to_nat 10000)) /\
  drift_world (/ 10 ^ 16) 0 (r_world start) /\ small_drift (/ 10 ^ 16) 1 (2 * S (0 + 100 + Z.to_nat 10000)).
Proof.
  assert (D : small_drift (/ 10 ^ 16) 1 (2 * S (0 + 100 + Z.to_nat 10000))).
  { assert (E : INR (2 * S (0 + 100 + Z.to_nat 10000)) = 20202%R).
    { rewrite INR_IZR_INZ. now f_equal. }
    apply (drift_case _ _ _ (3 / 2)); [apply sqrt_le; simpl; lra|simpl; lra| |]; rewrite E;
      replace (INR (2 ^ 1)) with 2%R by (simpl; lra); simpl; lra. }
  split; [apply (small_drift_le _ _ (2 * S (0 + 100 + Z.to_nat 10000))); [lia|exact D]|]. split; [|exact D].
  exists []. split; [reflexivity|]. split; [exact I|]. simpl. lia.
Qed.

Lemma ex_rav_lemma : exists g h st fuel st' s costs, rng_ok g /\ hamiltonian_of (2 ^ 1) [pauli_x; pauli_z] h /\
  exact_world (r_world st) /\ reachable 0 (r_world st) /\ (forall j, (1 / 2 <= g_unif g (r_draws st + 3 * j))%R) /\
  compile_rav_sequence 0 g fuel h 1 (1 / 10) (1 / 100) false st = (st', Ok (s, costs)).
Proof.
  destruct ex_ham as (h & H). set (g := const_rng (1 / 2) 0). assert (G : rng_ok g) by (apply const_rng_ok; lra).
  destruct (C45_terminates_lemma g 1 _ h 1 (1 / 10) (1 / 100) false start (1 / 2) G ltac:(lia) H empty_exact ltac:(lra) ltac:(lra)) as (fuel & F).
  { intros j. cbn. lra. }
  destruct (F fuel ltac:(lia)) as (st' & s & costs & E).
  exists g, h, start, fuel, st', s, costs. split; [exact G|]. split; [exact H|]. split; [exact empty_exact|].
  split; [apply start_reachable|]. split; [|exact E]. intros j. cbn. lra.
Qed.

(** Another sequence, with ten entries, beside the runs. *)
Lemma ex_beside_lemma : exists g h st t p, rng_ok g /\ hamiltonian_of (2 ^ 1) [pauli_x; pauli_z] h /\
  reachable eps_code (r_world st) /\ list_sequence (r_world st) t 2 /\ List.length (contents (r_world st) t) = 10%nat /\
  answers eps_code (r_world st) t p.
Proof.
  destruct ex_ham as (h & H).
  destruct (C40_lemma eps_code 1 [pauli_x; pauli_z] h 1 10 start ltac:(lia) ltac:(lia))
    as (st & t & u & v & p & x & _ & HR & HL & HC & _ & _ & HA & _).
  - apply (small_drift_le _ _ 40); [lia|apply eps_code_40].
  - exact H.
  - apply start_reachable.
  - exists (const_rng (1 / 2) 0), h, st, t, p. split; [apply const_rng_ok; lra|]. split; [exact H|]. split; [exact HR|].
    split; [exact HL|]. split; [|exact HA]. rewrite HC. apply repeat_length.
Qed.

(** A Hamiltonian on a qutrit. *)
Lemma ex_qutrit_lemma : exists ts h u, mk_hamiltonian ts = Ok h /\ (forall n, (1 <= n)%nat -> h_dim h <> (2 ^ n)%nat) /\
  time_evolution_operator 0 h 1 = Ok u.
Proof.
  destruct (ham_exists 3 [mid]) as (h & ts & F & E); [lia|discriminate| |].
  { intros M [<-|[]]; split; [apply herm_id|apply nz_id; lia]. }
  assert (HF := ham_facts 3 [mid] h (ex_intro _ ts (conj F E))). destruct HF as (_ & D & _ & T).
  assert (S := sum_total _ _ _ T).
  assert (HS : hermitian_mx 3 (sum_matrices (h_terms h))).
  { intros i j Hi Hj. unfold adj. rewrite (S i j Hi Hj), (S j i Hj Hi). unfold total. cbn [fold_right].
    rewrite (herm_id 3 i j Hi Hj) at 1. unfold adj. rewrite Cplus_0_r, Cplus_0_r. reflexivity. }
  destruct (C39_exact_lemma 3 (sum_matrices (h_terms h)) 1 "" _ ltac:(lia) HS (ev_evolution 3 (sum_matrices (h_terms h)) 1)) as (u & E1 & _).
  exists ts, h, u. split; [exact E|]. split; [|unfold time_evolution_operator; now rewrite D].
  rewrite D. intros [|n] Hn; [lia|]. simpl. lia.
Qed.
