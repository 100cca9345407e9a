(** Combined statements about the gate library, and concrete cases. *)
From Coq Require Import Reals List Arith Lia Lra Bool String ZArith.
From Coquelicot Require Import Complex.
From Verif Require Import Base CMat CMatFacts Det DetFacts Norms CRoot ModelUnitary ModelEntry
  ModelPrimitive ModelGates ModelSequence Spec SpecModel SpecCompiler SpecGates PUnitary PEmbed PDrift
  PEntry PUnitaryProps PSeqNear PSeqCases PCompProps PGates PGms PFamilies.
Import ListNotations.
Open Scope R_scope.
Open Scope C_scope.
Open Scope res_scope.

Lemma rotations_lemma : forall eps t p, small_drift eps 1 1 ->
  stores eps 1 1 (g_rx eps t) (rotation 1 0 0 t) /\ labelled (g_rx eps t) "Rx" [("θ"%string, (t, true))] /\
  stores eps 1 1 (g_ry eps t) (rotation 0 1 0 t) /\ labelled (g_ry eps t) "Ry" [("θ"%string, (t, true))] /\
  stores eps 1 1 (g_rz eps t) (rotation 0 0 1 t) /\ labelled (g_rz eps t) "Rz" [("θ"%string, (t, true))] /\
  stores eps 1 1 (g_rphi eps t p) (rotation (cos p) (sin p) 0 t) /\
  labelled (g_rphi eps t p) "R" [("θ"%string, (t, true)); ("Φ"%string, (p, true))].
Proof.
  intros eps t p H. destruct (rx_ok eps t H), (ry_ok eps t H), (rz_ok eps t H), (rphi_ok eps t p H).
  repeat (split; [assumption|]). assumption.
Qed.

Lemma xx_gate_lemma : forall eps t, small_drift eps 2 1 ->
  stores eps 1 2 (g_xx eps t) (xx_coupling t) /\ labelled (g_xx eps t) "XX" [("θ"%string, (t, true))].
Proof. intros eps t H. now apply xx_ok. Qed.

Lemma sigmas_lemma : forall eps, small_drift eps 1 1 ->
  stores_phase eps 1 1 (g_sigmax eps) pauli_x /\ labelled (g_sigmax eps) "X" [] /\
  stores_phase eps 1 1 (g_sigmay eps) pauli_y /\ labelled (g_sigmay eps) "Y" [] /\
  stores_phase eps 1 1 (g_sigmaz eps) pauli_z /\ labelled (g_sigmaz eps) "Z" [].
Proof. exact sigma_lemma. Qed.

Lemma gms_special_cases_lemma :
  (forall eps t, small_drift eps 2 1 -> eps_clean eps 4 (xx_coupling t) ->
     exists u v, g_gms eps 2 t = Ok u /\ g_xx eps t = Ok v /\ meq 4 (u_mat v) (xx_coupling t) /\
       (fro 4 (mminus (u_mat u) (u_mat v)) <= drift_bound eps 2 1)%R) /\
  (forall eps n K, (S (List.length (all_pairs n)) <= 8 * K)%nat -> small_drift eps n K ->
     exists u, g_gms eps n 0 = Ok u /\ u_dim u = (2 ^ n)%nat /\
       (fro (2 ^ n) (mminus (u_mat u) mid) <= drift_bound eps n K)%R).
Proof.
  split.
  - intros eps t H HC. destruct (gms_lemma eps 2 1 t (ltac:(simpl; lia)) H HC) as [(u & Eu & _ & _ & F) _].
    destruct (xx_exact eps t HC) as (v & Ev & _ & M & _). exists u, v. do 3 (split; [assumption|]).
    change (2 ^ 2)%nat with 4%nat in F. rewrite M, <- gms_two_lemma. exact F.
  - intros eps n K B H. destruct (gms_lemma eps n K 0 B H) as [(u & Eu & D & _ & F) _].
    { apply xx_clean; rewrite ?cos_0, ?sin_0; [rewrite Rabs_R1|reflexivity].
      intros X. destruct H as ((_ & E1) & _). lra. }
    exists u. split; [exact Eu|]. split; [exact D|]. rewrite <- (gms_zero_lemma n). exact F.
Qed.

(** ** Concrete cases *)
Lemma drift_case eps n K s : (sqrt (INR (2 ^ n)) <= s)%R -> (0 <= eps <= 1)%R ->
  (14 * INR K * INR (2 ^ n) * (s + 1) * eps <= 45 / 10 ^ 10)%R ->
  (INR (2 ^ n) * (14 * INR K * INR (2 ^ n) * (s + 1) * eps) <= / 100)%R -> small_drift eps n K.
Proof.
  intros Hs He H1 H2.
  assert (X : (drift_bound eps n K <= 14 * INR K * INR (2 ^ n) * (s + 1) * eps)%R).
  { unfold drift_bound. apply Rmult_le_compat_r; [apply He|]. apply Rmult_le_compat_l; [|lra].
    assert (A := pos_INR K). assert (B := pos_INR (2 ^ n)). nra. }
  split; [exact He|]. split; [lra|]. assert (B := pos_INR (2 ^ n)). nra.
Qed.

Lemma eps_code_pos : (0 <= eps_code <= 1)%R.
Proof. unfold eps_code. lra. Qed.
Lemma sqrt_le x s : (0 <= s)%R -> (x <= s * s)%R -> (sqrt x <= s)%R.
Proof. intros Hs H. rewrite <- (sqrt_square s Hs). now apply sqrt_le_1_alt. Qed.

Lemma ex_one_qubit_lemma : small_drift eps_code 1 1 /\ small_drift eps_code 1 3 /\ (eps_code <= / 3)%R.
Proof.
  split; [|split; [|unfold eps_code; lra]].
  - apply (drift_case _ _ _ 2); [apply sqrt_le; simpl; lra|apply eps_code_pos| |]; unfold eps_code; simpl; lra.
  - apply (drift_case _ _ _ 2); [apply sqrt_le; simpl; lra|apply eps_code_pos| |]; unfold eps_code; simpl; lra.
Qed.

(** A rotation that is stored exactly with the code's threshold. *)
Lemma ex_rotation_lemma : small_drift eps_code 1 1 /\ eps_clean eps_code 2 (rotation 0 1 0 (PI / 2)) /\
  exists u, g_ry eps_code (PI / 2) = Ok u /\
    meq 2 (u_mat u) (mat22 (RtoC (/ sqrt 2)) (RtoC (- / sqrt 2)) (RtoC (/ sqrt 2)) (RtoC (/ sqrt 2))).
Proof.
  assert (H := proj1 ex_one_qubit_lemma). split; [exact H|].
  assert (E : meq 2 (rotation 0 1 0 (PI / 2)) (mat22 (RtoC (/ sqrt 2)) (RtoC (- / sqrt 2)) (RtoC (/ sqrt 2)) (RtoC (/ sqrt 2)))).
  { rewrite rotation_entries. replace (PI / 2 / 2)%R with (PI / 4)%R by field.
    destruct sqrt2_inv as [-> ->]. cases2; unfold mat22; simpl; apply C_eq; simpl; ring. }
  assert (X : (/ 2 <= / sqrt 2)%R).
  { apply Rinv_le_contravar; [apply Rlt_sqrt2_0|]. apply sqrt_le; lra. }
  assert (HC : eps_clean eps_code 2 (rotation 0 1 0 (PI / 2))).
  { eapply eps_clean_meq; [symmetry; exact E|]. assert (L : (eps_code < / 2)%R) by (unfold eps_code; lra).
    cases2; unfold mat22; simpl; (split; [|intros _; reflexivity]); rewrite ?Rabs_Ropp, Rabs_pos_eq; lra. }
  split; [exact HC|]. destruct (rotations_lemma eps_code (PI / 2) 0 H) as (_ & _ & (u & Eu & _ & _ & _ & M) & _).
  exists u. split; [exact Eu|]. rewrite <- E. apply M. exact HC.
Qed.

Lemma ex_two_qubit_lemma : small_drift eps_code 2 1 /\ eps_clean eps_code 4 (xx_coupling (PI / 4)).
Proof.
  split.
  - apply (drift_case _ _ _ 2); [apply sqrt_le; simpl; lra|apply eps_code_pos| |]; unfold eps_code; simpl; lra.
  - assert (X : (/ 2 <= / sqrt 2)%R).
    { apply Rinv_le_contravar; [apply Rlt_sqrt2_0|]. apply sqrt_le; lra. }
    assert (L : (eps_code < / 2)%R) by (unfold eps_code; lra).
    apply xx_clean; destruct sqrt2_inv as [E1 E2]; rewrite ?E1, ?E2, Rabs_pos_eq; lra.
Qed.

(** Four qubits for one gate, three for four gates in a row, with the code's
    threshold. *)
Lemma ex_gms_lemma :
  (S (List.length (all_pairs 4)) <= 8 * 1)%nat /\ small_drift eps_code 4 1 /\
  eps_clean eps_code 4 (xx_coupling (PI / 4)) /\
  (4 * S (List.length (all_pairs 3)) + 3 <= 8 * 3)%nat /\ small_drift eps_code 3 3 /\ (eps_code <= / 2)%R.
Proof.
  split; [vm_compute; repeat constructor|]. split.
  { apply (drift_case _ _ _ 4); [apply sqrt_le; simpl; lra|apply eps_code_pos| |]; unfold eps_code; simpl; lra. }
  split; [apply ex_two_qubit_lemma|]. split; [vm_compute; repeat constructor|]. split.
  { apply (drift_case _ _ _ 3); [apply sqrt_le; simpl; lra|apply eps_code_pos| |]; unfold eps_code; simpl; lra. }
  unfold eps_code. lra.
Qed.

(** In exact arithmetic the hypotheses hold for every angle and number of qubits. *)
Lemma ex_gms_exact_lemma : forall n a b,
  small_drift 0 n (n * n + 2) /\ (4 * S (List.length (all_pairs n)) + 3 <= 4 * (n * n + 2))%nat /\
  exists u v w, g_gms 0 n a = Ok u /\ g_gms 0 n b = Ok v /\ u_left_multiply 0 u v = Ok w /\
    meq (2 ^ n) (u_mat w) (global_coupling n (a + b)).
Proof.
  intros n a b. assert (B := gms_count n). destruct (drift_0 n (n * n + 2)) as [H D0].
  split; [exact H|]. split; [exact B|].
  destruct (gms_add_lemma 0 n (n * n + 2) a b ltac:(lia) H (eps_clean_0 _ _) (eps_clean_0 _ _))
    as (u & v & w & Eu & Ev & Ew & _ & F).
  exists u, v, w. do 3 (split; [assumption|]). rewrite D0 in F.
  assert (Z := fro_0 _ _ (Rle_antisym _ _ F (fro_nonneg _ _))). intros i j Hi Hj.
  specialize (Z i j Hi Hj). unfold mminus, mzero in Z.
  transitivity (u_mat w i j - global_coupling n (a + b) i j + global_coupling n (a + b) i j); [ring|].
  rewrite Z. ring.
Qed.

(** A reachable target: the Hadamard matrix. *)
Lemma ex_reach_lemma : small_drift eps_code 1 1 /\ unitary_mx 2 hadamard.
Proof.
  split; [apply ex_one_qubit_lemma|].
  assert (A : meq 2 (adj hadamard) hadamard).
  { cases2; unfold adj, hadamard, mscale, mat22; simpl; apply C_eq; simpl; ring. }
  unfold unitary_mx. rewrite A. apply hadamard_sq.
Qed.

(** A call that succeeds: Rxyz at three values. *)
Lemma ex_as_unitary_lemma : exists pu u, pd_rotation_xyz = Ok pu /\
  as_unitary eps_code pu [1; 2; 3]%R = Ok u /\ u_get_parameter_value u "beta" = Some (2%R, true) /\
  u_get_parameter_value u "delta" = None /\
  as_unitary eps_code pu [1; 2]%R = Raise IndexError /\
  as_unitary eps_code pu [1; -2; 3]%R = Raise AssertionError /\
  as_unitary eps_code pu [1; 2; 3; 4]%R = Raise IndexError.
Proof.
  assert (P3 : (3 < 2 * PI)%R) by (assert (H := PI2_3_2); lra).
  destruct (rotation_xyz_lemma eps_code 1 2 3) as (pu & Ep & (u & Eu & _) & _);
    [apply ex_one_qubit_lemma|lra|lra|lra|].
  assert (Ps : map pr_name (pu_params pu) = ["alpha"; "beta"; "gamma"]%string /\
    Forall (fun p => pr_min p = 0%R /\ pr_max p = (2 * PI)%R /\ pr_angle p = true) (pu_params pu)).
  { unfold pd_rotation_xyz in Ep. rewrite !angle_ok in Ep by reflexivity. injection Ep as <-. simpl. split; [reflexivity|].
    repeat constructor. }
  destruct Ps as [N F].
  destruct (pu_params pu) as [|p1 [|p2 [|p3 [|]]]] eqn:E; try discriminate. simpl in N. injection N as N1 N2 N3.
  inversion F as [|? ? F1 F']; subst. inversion F' as [|? ? F2 F'']; subst. inversion F'' as [|? ? F3 _]; subst.
  destruct (as_unitary_ok_lemma _ _ _ _ Eu) as (_ & _ & _ & _ & _ & G & G').
  assert (Rs := as_unitary_raise_lemma eps_code pu). try rewrite E in G'.
  exists pu, u. split; [exact Ep|]. split; [exact Eu|]. split.
  { rewrite <- N2. rewrite (G [p1] p2 [p3] [1%R] 2%R [3%R]); auto.
    - now rewrite (proj2 (proj2 F2)).
    - rewrite N2. simpl. rewrite N3. intros [X|[]]. discriminate. }
  split.
  { apply G'. simpl. rewrite N1, N2, N3. intros [X|[X|[X|[]]]]; discriminate. }
  split; [|split].
  - destruct (Rs [1; 2]%R) as (_ & H & _). try rewrite E in H. specialize (H ltac:(simpl; lia)).
    destruct H as [H|H]; [exact H|]. unfold as_unitary in H. rewrite E in H. simpl in H.
    unfold pr_is_valid in H. destruct F1 as (A1 & A2 & _), F2 as (B1 & B2 & _). rewrite A1, A2, B1, B2 in H.
    rewrite !Rleb_le in H by lra. discriminate.
  - refine (proj1 (proj2 (proj2 (Rs [1; -2; 3]%R))) _ _); rewrite E; [reflexivity|]. intros X. inversion X as [|? ? ? ? _ X1]; subst.
    inversion X1 as [|? ? ? ? [X2 _] _]; subst. destruct F2 as (B1 & _). rewrite B1 in X2. lra.
  - refine (proj1 (Rs [1; 2; 3; 4]%R) _). rewrite E. simpl. lia.
Qed.

(** A flip of the middle qubit. *)
Lemma ex_qecc_lemma : (eps_code <= / 3)%R /\ (forall k, Some 1%nat = Some k -> (k < 3)%nat) /\
  forall a b, mapply 8 phase_flip_circuit (phase_flip (Some 1%nat) (encoded a b)) 2%nat = a /\
    mapply 8 phase_flip_circuit (phase_flip (Some 1%nat) (encoded a b)) 3%nat = b.
Proof.
  assert (K : forall k, Some 1%nat = Some k -> (k < 3)%nat) by (intros k E; injection E as <-; lia).
  split; [unfold eps_code; lra|]. split; [exact K|]. intros a b.
  rewrite !qecc_corrects_matrix by (lia || exact K). split; reflexivity.
Qed.

Lemma ex_threshold_lemma : small_drift eps_code 2 1.
Proof. apply ex_two_qubit_lemma. Qed.
