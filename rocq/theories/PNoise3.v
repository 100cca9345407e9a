(** The gates of the noisy emulator, and circuits of them. *)
From Coq Require Import Reals List Arith Lia Lra Bool Psatz Setoid Morphisms.
From Coquelicot Require Import Rcomplements Complex.
From Verif Require Import Base CMat CMatFacts Det DetFacts Norms Spec SpecModel SpecGates SpecChannel
  ModelNoise SpecNoise PUnitary PBits PEmbed PEntry PSeqNear PChannel PGates PNoise PNoise2.
Import ListNotations.
Open Scope R_scope.
Open Scope C_scope.

Ltac cases4 :=
  let i := fresh "i" in let j := fresh "j" in let Hi := fresh "Hi" in let Hj := fresh "Hj" in
  intros i j Hi Hj; destruct i as [|[|[|[|i]]]]; [| | | |exfalso; simpl in Hi; lia];
  (destruct j as [|[|[|[|j]]]]; [| | | |exfalso; simpl in Hj; lia]).

(** ** The ideal gates *)
Lemma U_R_equatorial f a : meq 2 (U_R f a) (equatorial f a).
Proof.
  unfold equatorial. rewrite rotation_entries. unfold U_R, cis. rewrite cos_neg, sin_neg.
  cases2; unfold mat22; simpl; apply C_eq; simpl; ring.
Qed.
Lemma U_Rz_rotation a : meq 2 (U_Rz a) (rotation 0 0 1 a).
Proof.
  rewrite rotation_entries. unfold U_Rz, cis. rewrite cos_neg, sin_neg.
  cases2; unfold mat22; simpl; apply C_eq; simpl; ring.
Qed.
Lemma U_MS_coupling f a : meq 4 (U_MS f a) (ms_coupling f a).
Proof.
  assert (P := pyth f). assert (H : (cos f * cos f = 1 - sin f * sin f)%R) by lra.
  unfold U_MS, ms_coupling, cis. rewrite cos_neg, sin_neg, cos_2a, sin_2a.
  cases4; unfold kron, mid, pauli_x, pauli_y, mat22; simpl; apply C_eq; simpl; ring [H].
Qed.

Lemma U_R_unitary f a : unitary_mx 2 (U_R f a).
Proof.
  assert (P := pyth (a / 2)). assert (Q := pyth f). unfold unitary_mx, U_R, cis. rewrite cos_neg, sin_neg.
  set (c := cos (a / 2)) in *. set (s := sin (a / 2)) in *. set (x := cos f) in *. set (y := sin f) in *.
  clearbody c s x y. assert (Hc : (c * c = 1 - s * s)%R) by lra. assert (Hx : (x * x = 1 - y * y)%R) by lra.
  cases2; unfold mmul, adj, mid; simpl; apply C_eq; simpl; ring [Hc Hx].
Qed.
Lemma U_Rz_unitary a : unitary_mx 2 (U_Rz a).
Proof.
  assert (P := pyth (a / 2)). unfold unitary_mx, U_Rz, cis. rewrite cos_neg, sin_neg.
  set (c := cos (a / 2)) in *. set (s := sin (a / 2)) in *.
  clearbody c s. assert (Hc : (c * c = 1 - s * s)%R) by lra.
  cases2; unfold mmul, adj, mid; simpl; apply C_eq; simpl; ring [Hc].
Qed.
Lemma U_MS_unitary f a : unitary_mx 4 (U_MS f a).
Proof.
  assert (P := pyth (a / 2)). assert (Q := pyth (2 * f)). unfold unitary_mx, U_MS, cis. rewrite cos_neg, sin_neg.
  set (c := cos (a / 2)) in *. set (s := sin (a / 2)) in *. set (x := cos (2 * f)) in *. set (y := sin (2 * f)) in *.
  clearbody c s x y. assert (Hc : (c * c = 1 - s * s)%R) by lra. assert (Hx : (x * x = 1 - y * y)%R) by lra.
  cases4; unfold mmul, adj, mid; simpl; apply C_eq; simpl; ring [Hc Hx].
Qed.
Lemma U_R_back f a : meq 2 (mmul 2 (U_R f (- a)) (U_R f a)) mid.
Proof.
  assert (P := pyth (a / 2)). assert (Q := pyth f). unfold U_R, cis. rewrite cos_neg, sin_neg.
  replace (- a / 2)%R with (- (a / 2))%R by field. rewrite cos_neg, sin_neg.
  set (c := cos (a / 2)) in *. set (s := sin (a / 2)) in *. set (x := cos f) in *. set (y := sin f) in *.
  clearbody c s x y. assert (Hc : (c * c = 1 - s * s)%R) by lra. assert (Hx : (x * x = 1 - y * y)%R) by lra.
  cases2; unfold mmul, adj, mid; simpl; apply C_eq; simpl; ring [Hc Hx].
Qed.
Lemma U_Rz_back a : meq 2 (mmul 2 (U_Rz (- a)) (U_Rz a)) mid.
Proof.
  assert (P := pyth (a / 2)). unfold U_Rz, cis.
  replace (- a / 2)%R with (- (a / 2))%R by field. rewrite Ropp_involutive, !cos_neg, !sin_neg.
  set (c := cos (a / 2)) in *. set (s := sin (a / 2)) in *.
  clearbody c s. assert (Hc : (c * c = 1 - s * s)%R) by lra.
  cases2; unfold mmul, adj, mid; simpl; apply C_eq; simpl; ring [Hc].
Qed.
Lemma U_MS_back f a : meq 4 (mmul 4 (U_MS f (- a)) (U_MS f a)) mid.
Proof.
  assert (P := pyth (a / 2)). assert (Q := pyth (2 * f)). unfold U_MS, cis. rewrite cos_neg, sin_neg.
  replace (- a / 2)%R with (- (a / 2))%R by field. rewrite cos_neg, sin_neg.
  set (c := cos (a / 2)) in *. set (s := sin (a / 2)) in *. set (x := cos (2 * f)) in *. set (y := sin (2 * f)) in *.
  clearbody c s x y. assert (Hc : (c * c = 1 - s * s)%R) by lra. assert (Hx : (x * x = 1 - y * y)%R) by lra.
  cases4; unfold mmul, adj, mid; simpl; apply C_eq; simpl; ring [Hc Hx].
Qed.

(** ** Numbers *)
Lemma np_sign_opp a : np_sign (- a) = (- np_sign a)%R.
Proof.
  unfold np_sign. destruct (Rlt_dec 0 (- a)), (Rlt_dec 0 a), (Rlt_dec (- a) 0), (Rlt_dec a 0); lra.
Qed.
Lemma overrotated_eq x a b : overrotated x a b -> b = (a + x * np_sign a)%R.
Proof.
  intros (H1 & H2 & H3). unfold np_sign. destruct (Rlt_dec 0 a); [rewrite H1 by auto; ring|].
  destruct (Rlt_dec a 0); [rewrite H2 by auto; ring|]. assert (a = 0)%R by lra. rewrite H3 by auto. lra.
Qed.
Lemma overrotated_sign x a : overrotated x a (a + x * np_sign a).
Proof.
  unfold np_sign. split; [|split]; intros H.
  - destruct (Rlt_dec 0 a); lra.
  - destruct (Rlt_dec 0 a); [lra|]. destruct (Rlt_dec a 0); lra.
  - destruct (Rlt_dec 0 a); [lra|]. destruct (Rlt_dec a 0); lra.
Qed.
Lemma survives_eq e u t : survives e u t -> t = depolarization_term e u.
Proof.
  unfold survives, depolarization_term, np_power. intros [[H ->]|[(H & Hu & ->)|[Hu ->]]].
  - destruct (Req_EM_T u 0) as [->|]; [rewrite Rpower_O; lra|]. destruct (Rle_dec _ _); [lra|reflexivity].
  - destruct (Req_EM_T u 0); [contradiction|]. destruct (Rle_dec _ _); [reflexivity|lra].
  - destruct (Req_EM_T u 0); [reflexivity|contradiction].
Qed.
Lemma survives_term e u : (depolarization e <= 1)%R -> survives e u (depolarization_term e u).
Proof.
  intros H. unfold survives, depolarization_term, np_power. destruct (Req_EM_T u 0) as [->|N]; [tauto|].
  destruct (Rle_dec (1 - depolarization e) 0); [right; left|left]; repeat split; auto; lra.
Qed.
Lemma term_range e u : (0 <= depolarization e <= 1)%R -> (0 <= u)%R -> (0 <= depolarization_term e u <= 1)%R.
Proof.
  intros H Hu. unfold depolarization_term, np_power. destruct (Req_EM_T u 0); [lra|].
  destruct (Rle_dec (1 - depolarization e) 0); [lra|].
  unfold Rpower. split; [left; apply exp_pos|].
  assert (L : (ln (1 - depolarization e) <= 0)%R).
  { destruct (Req_dec (depolarization e) 0) as [->|]; [rewrite Rminus_0_r, ln_1; lra|].
    rewrite <- ln_1. left. apply ln_increasing; lra. }
  set (l := ln (1 - depolarization e)) in *. assert (N : (u * l <= 0)%R) by nra.
  destruct (Req_dec (u * l) 0) as [->|]; [rewrite exp_0; lra|]. rewrite <- exp_0. left. apply exp_increasing. lra.
Qed.
Lemma term_plus e u v : (0 <= u)%R -> (0 <= v)%R ->
  (depolarization_term e u * depolarization_term e v = depolarization_term e (u + v))%R.
Proof.
  intros Hu Hv. unfold depolarization_term, np_power.
  destruct (Req_EM_T u 0) as [->|Nu]; [rewrite Rplus_0_l; destruct (Req_EM_T v 0); lra|].
  destruct (Req_EM_T v 0) as [->|Nv]; [rewrite Rplus_0_r; destruct (Req_EM_T u 0); lra|].
  destruct (Req_EM_T (u + v) 0); [lra|]. destruct (Rle_dec _ _); [lra|]. now rewrite Rpower_plus.
Qed.
Lemma term_zero e u : depolarization e = 0%R -> depolarization_term e u = 1%R.
Proof.
  intros E. unfold depolarization_term, np_power. rewrite E. destruct (Req_EM_T u 0); auto.
  destruct (Rle_dec _ _); [lra|]. unfold Rpower. replace (1 - 0)%R with 1%R by ring. now rewrite ln_1, Rmult_0_r, exp_0.
Qed.

(** ** Process matrices of the gates *)
Lemma turned_meq d U V X Y : meq d U V -> meq d X Y -> meq d (turned d U X) (turned d V Y).
Proof. intros HU HX. unfold turned. now rewrite HU, HX. Qed.

Lemma gate_R_acts e f a X :
  meq 2 (of_process 2 pauli (gate_R e f a) X)
        (turned 2 (noisy_R e f a) (depolarise (depolarization_term e (gateduration_R a)) X)).
Proof.
  unfold gate_R. eapply meq_trans; [apply (process_mmul 2 pauli pauli_basis)|].
  eapply meq_trans; [apply (process_turned 2 pauli pauli_basis)|].
  apply turned_meq; [reflexivity|]. eapply meq_trans; [apply process_dep|apply meq_sym, depolarise_mix].
Qed.
Lemma gate_R_lemma : forall e f a b t X,
  survives e (Rabs a / (PI / 2)) t -> overrotated (r_rotation_error e) a b ->
  meq 2 (of_process 2 pauli (gate_R e f a) X)
        (turned 2 (equatorial (f + 2 * PI * r_phase_error e) b) (depolarise t X)).
Proof.
  intros e f a b t X Ht Hb. rewrite gate_R_acts. apply survives_eq in Ht. apply overrotated_eq in Hb.
  unfold gateduration_R. rewrite <- Ht. apply turned_meq; [|reflexivity].
  unfold noisy_R. rewrite <- Hb. apply U_R_equatorial.
Qed.
Lemma gate_Rz_lemma : forall a X, meq 2 (of_process 2 pauli (gate_Rz a) X) (turned 2 (rotation 0 0 1 a) X).
Proof.
  intros a X. unfold gate_Rz. rewrite (process_turned 2 pauli pauli_basis). apply turned_meq; [apply U_Rz_rotation|reflexivity].
Qed.
Lemma idle_lemma : forall e u t X, survives e u t -> meq 2 (of_process 2 pauli (idle e u) X) (depolarise t X).
Proof.
  intros e u t X Ht. apply survives_eq in Ht. unfold idle. rewrite <- Ht.
  eapply meq_trans; [apply process_dep|apply meq_sym, depolarise_mix].
Qed.

Lemma placement_2 q : (q < 2)%nat -> placement 2 [q].
Proof.
  intros H. split; [|split].
  - constructor; [intros []|constructor].
  - discriminate.
  - intros x [<-|[]]; auto.
Qed.

Lemma local_depolarise t X :
  meq 4 (of_process 4 pauli2 (kron 4 (diag1 t) (diag1 t)) X)
        (on_qubits 2 [0%nat] (depolarise t) (on_qubits 2 [1%nat] (depolarise t) X)).
Proof.
  rewrite process_dep2. apply meq_sym.
  eapply meq_trans; [apply (on_qubits_mix 2 [0%nat] (depolarise t) 4 (pdep t) pauli); apply depolarise_mix|].
  change (2 ^ 2)%nat with 4%nat.
  eapply meq_trans.
  { apply wsum_meq. intros k Hk. apply turned_meq; [reflexivity|].
    apply (on_qubits_mix 2 [1%nat] (depolarise t) 4 (pdep t) pauli). apply depolarise_mix. }
  change (2 ^ 2)%nat with 4%nat.
  eapply meq_trans; [apply wsum_meq; intros k Hk; apply wsum_turned|].
  intros a b Ha Hb. unfold wsum at 1 2.
  transitivity (csum 4 (fun k => csum 4 (fun l => RtoC (pdep t k * pdep t l) *
     turned 4 (kron 2 (pauli k) (pauli l)) X a b))).
  - apply csum_ext. intros k Hk. rewrite <- csum_mult_l. apply csum_ext. intros l Hl.
    assert (E : meq 4 (turned 4 (embed 2 [0%nat] (pauli k)) (turned 4 (embed 2 [1%nat] (pauli l)) X))
                      (turned 4 (kron 2 (pauli k) (pauli l)) X)).
    { rewrite <- turned_mmul. apply turned_meq; [|reflexivity].
      destruct (embed_commute 2 [0%nat] [1%nat] (pauli k) (pauli l)) as [_ E].
      - apply placement_2. lia.
      - apply placement_2. lia.
      - intros q [<-|[]] [E|[]]; discriminate.
      - change (2 ^ 2)%nat with 4%nat in E. rewrite E. apply (embed_all 2). }
    rewrite (E a b Ha Hb). rewrite RtoC_mult. ring.
  - unfold wsum. change 16%nat with (4 * 4)%nat. rewrite csum_prod. apply csum_ext. intros k Hk.
    apply csum_ext. intros l Hl. unfold pdep2, pauli2.
    rewrite Nat.div_add_l, Nat.div_small, Nat.add_0_r by lia.
    rewrite Nat.add_comm, Nat.mod_add, Nat.mod_small by lia. reflexivity.
Qed.

Lemma gate_MS_acts e f a X :
  meq 4 (of_process 4 pauli2 (gate_MS e f a) X)
    (turned 4 (noisy_MS e f a) (of_process 4 pauli2
       (kron 4 (diag1 (depolarization_term e (gateduration_MS a))) (diag1 (depolarization_term e (gateduration_MS a)))) X)).
Proof.
  unfold gate_MS. eapply meq_trans; [apply (process_mmul 4 pauli2 pauli2_basis)|].
  apply (process_turned 4 pauli2 pauli2_basis).
Qed.
Lemma gate_MS_lemma : forall e f a b t X,
  survives e (10 * (Rabs a / (PI / 2))) t -> overrotated (ms_rotation_error e) a b ->
  meq 4 (of_process 4 pauli2 (gate_MS e f a) X)
        (turned 4 (ms_coupling (f + 2 * PI * ms_phase_error e) b)
           (on_qubits 2 [0%nat] (depolarise t) (on_qubits 2 [1%nat] (depolarise t) X))).
Proof.
  intros e f a b t X Ht Hb. rewrite gate_MS_acts. apply survives_eq in Ht. apply overrotated_eq in Hb.
  unfold gateduration_MS. replace (10 * Rabs a / (PI / 2))%R with (10 * (Rabs a / (PI / 2)))%R by (unfold Rdiv; ring).
  rewrite <- Ht. apply turned_meq; [|apply local_depolarise].
  unfold noisy_MS. rewrite <- Hb. apply U_MS_coupling.
Qed.
