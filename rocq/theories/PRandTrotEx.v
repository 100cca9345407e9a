(** Random orders: a case, and what fails for the fixed order.  C106. *)
From Coq Require Import Reals List Arith Bool String ZArith Lra Lia Permutation.
From Coquelicot Require Import Coquelicot.
From Verif Require Import Base CMat CMatFacts Det DetFacts Norms CRoot Expm ExpmFacts ExpmBounds ModelUnitary ModelEntry ModelPrimitive ModelSequence ModelCompiler ModelVerification ModelGates ModelHamiltonian Spec SpecModel SpecCompiler SpecGates SpecHamiltonian SpecChannel SpecChain SpecRandTrot PUnitary PDrift PEmbed PEntry PSeqHeap PSeqMeth PSeqNear PSeqWorld PSeqUndo PCompView PCompRun PCompEntry PCompProps PSeqInv PVerify PGates PHam PHamTerm PHamSeq PHamRun SpecTrotter PHamTrot PCompCases PGatesEx PHamEx PChannel PTrotComm PChain PFloorTrot PFloorTrotEx PRandTrot PRandTrotMean PRandTrotRun.
Import ListNotations.
Set Bullet Behavior "Strict Subproofs".
Open Scope R_scope.
Open Scope C_scope.

Lemma ex_C106_lemma : exists g h E, rng_ok g /\ hamiltonian_of (2 ^ 1) [pauli_x; pauli_z] h /\ (1 <= 10)%nat /\
  small_drift eps_code 1 (2 * (10 * List.length [pauli_x; pauli_z])) /\
  Forall2 (operator_norm (2 ^ 1)) [pauli_x; pauli_z] [1; 1]%R /\ reachable eps_code (r_world start) /\
  evolution (2 ^ 1) (total [pauli_x; pauli_z]) (1 / 4) E /\
  (8 / 3 * (fold_right Rplus 0 [1; 1] * Rabs (1 / 4)) ^ 3 / INR 10 ^ 2 = 1 / 300)%R.
Proof.
  destruct ex_sequences_lemma as (g & h & G & H & _ & _ & S & F & R).
  exists g, h, (ev (2 ^ 1) (total [pauli_x; pauli_z]) (1 / 4)). split; [exact G|]. split; [exact H|]. split; [lia|].
  split; [exact S|]. split; [exact F|]. split; [exact R|]. split; [apply ev_evolution|].
  cbn [fold_right]. rewrite Rabs_pos_eq by lra. simpl. field.
Qed.

Lemma fro_minus_0 n A B : fro n (mminus A B) = 0%R -> meq n A B.
Proof. intros H i j Hi Hj. assert (K := fro_0 n _ H i j Hi Hj). unfold mminus, mzero in K. replace (A i j) with ((A i j - B i j) + B i j) by ring. rewrite K. ring. Qed.

(** * The order as given *)
Lemma fixed_run g eps n Ms h t N st : rng_ok g -> (1 <= n)%nat -> (1 <= N)%nat ->
  small_drift eps n (2 * (N * List.length Ms)) -> hamiltonian_of (2 ^ n) Ms h -> reachable eps (r_world st) ->
  exists st' s p c, trotter_sequence eps g h t (Z.of_nat N) false st = (st', Ok s) /\
    answers eps (r_world st') s p /\ Cmod c = 1%R /\
    (fro (2 ^ n) (mminus (u_mat p) (mscale c (lprod (2 ^ n) (map (fun i => ev (2 ^ n) (nth i Ms mzero) (t / INR N)) (List.concat (repeat (seq 0 (List.length Ms)) N))))))
       <= drift_bound eps n (2 * (N * List.length Ms)))%R.
Proof.
  intros RG N1 NN SD HH RE.
  set (K := (N * List.length Ms)%nat) in *.
  destruct (ham_facts _ _ _ HH) as (_ & D & NE & F).
  assert (KP : (1 <= K)%nat).
  { unfold K. assert (1 <= List.length Ms)%nat by (destruct Ms; [congruence|simpl; lia]). nia. }
  destruct (small_lim eps n (2 * K) (16 * K) SD ltac:(lia)) as [E0 L].
  assert (E1 : (eps <= 1)%R) by apply SD.
  destruct (drift_small _ _ _ SD) as [_ B]. replace (8 * (2 * K))%nat with (16 * K)%nat in B by lia.
  assert (LM : forall c, (c <= 16 * K)%nat -> lim eps n c) by (intros c Hc; now apply (lim_mono eps E0 E1 n c (16 * K))).
  assert (BM : forall c, (c <= 16 * K)%nat -> (err eps n c <= drift_bound eps n (2 * K))%R).
  { intros c Hc. eapply Rle_trans; [now apply (err_mono eps E0 n c (16 * K))|exact B]. }
  destruct (trotter_run g eps n Ms h t N false st RG N1 NN E0 (LM 1%nat ltac:(lia)) HH RE)
    as (st' & s & us & cs & idxs & Es & RE' & L1 & L2 & HK & LI & FP & Hb & S & A).
  assert (EI := Hb eq_refl). subst idxs. clear Hb LI FP. set (dt := (t / INR N)%R) in *.
  rewrite <- concat_map in A. set (I := List.concat (repeat (seq 0 (List.length Ms)) N)) in *.
  assert (IN : forall i, In i I -> (i < List.length Ms)%nat).
  { intros i Hi. apply in_concat in Hi. destruct Hi as (l & Hl & Hi). apply repeat_spec in Hl. subst l. apply in_seq in Hi. lia. }
  assert (LI : List.length I = K).
  { unfold I, K. clear. induction N as [|N IH]; [reflexivity|]. cbn [repeat List.concat]. rewrite app_length, IH, seq_length. reflexivity. }
  assert (ST : forall i, In i I -> Cmod (nth i cs (RtoC 1)) = 1%R /\
     stands eps n (nth i us some_gate) (mscale (nth i cs (RtoC 1)) (ev (2 ^ n) (nth i Ms mzero) dt))).
  { intros i Hi. apply IN in Hi. destruct (HK i _ (nth_error_nth_lt Ms i mzero Hi)) as (K1 & K2 & _). auto. }
  set (V := fun i => mscale (nth i cs (RtoC 1)) (ev (2 ^ n) (nth i Ms mzero) dt)).
  destruct (product_near eps n (map (fun i => nth i us some_gate) I) (map V I)) as (p & Ep & Np); auto.
  { intros X. apply (f_equal (@List.length unitary)) in X. rewrite map_length, LI in X. simpl in X. lia. }
  { rewrite map_length, LI. apply LM. lia. }
  { apply F2_maps. intros i Hi. now apply ST. }
  rewrite map_length, LI in Np.
  destruct (lprod_phase (2 ^ n) (map V I) (map (fun i => ev (2 ^ n) (nth i Ms mzero) dt) I)) as (c & Hc & EP).
  { apply F2_maps. intros i Hi. exists (nth i cs (RtoC 1)). split; [now apply ST|reflexivity]. }
  exists st', s, p, c. split; [exact Es|split; [now apply A|split; [exact Hc|]]].
  assert (Np' := near_meq eps n _ _ _ _ EP Np). eapply Rle_trans; [|apply (BM (9 * K)%nat ltac:(lia))]. apply Np'.
Qed.

Lemma xz_second t : let l := [mscale (RtoC t) pauli_x; mscale (RtoC t) pauli_z] in
  meq 2 (mminus (quad 2 l pauli_x) (half_square 2 (total l) pauli_x)) (mscale (RtoC (- 2 * t ^ 2)) pauli_z).
Proof.
  intros l i j Hi Hj. unfold l, half_square, comm_i, mminus, mplus, mscale, mmul, total, quad, half_square, comm_i, pauli_x, pauli_z, mat22.
  cbn [fold_right csum]. unfold mminus, mplus, mscale, mmul, mzero. cbn [csum].
  destruct i as [|[|i]]; destruct j as [|[|j]]; try lia; apply injective_projections; simpl; field.
Qed.

Lemma opb_one M t : operator_norm 2 M 1 -> (0 <= t)%R -> (0 <= t)%R /\ opb 2 (mscale (RtoC t) M) t.
Proof. intros [H _] T. split; [exact T|]. assert (K := opb_scale 2 M 1 t H). rewrite Rabs_pos_eq in K by exact T. now rewrite Rmult_1_r in K. Qed.

Lemma C106_fixed_lemma : exists h, hamiltonian_of (2 ^ 1) [pauli_x; pauli_z] h /\ Forall2 (operator_norm (2 ^ 1)) [pauli_x; pauli_z] [1; 1]%R /\
  forall K, exists t E, (0 < t)%R /\ evolution (2 ^ 1) (total [pauli_x; pauli_z]) t E /\
  forall g st, rng_ok g -> reachable 0 (r_world st) ->
  exists st' s p, trotter_sequence 0 g h t 1 false st = (st', Ok s) /\ answers 0 (r_world st') s p /\
    (K * (fold_right Rplus 0 [1; 1] * Rabs t) ^ 3 / INR 1 ^ 2 * fro (2 ^ 1) pauli_x
       < fro (2 ^ 1) (mminus (turned (2 ^ 1) (u_mat p) pauli_x) (turned (2 ^ 1) E pauli_x)))%R.
Proof.
  destruct ex_sequences_lemma as (_ & h & _ & H & _ & _ & _ & F & _). exists h. split; [exact H|]. split; [exact F|].
  intros K. set (t := (/ (8 * Rabs K + 22))%R). assert (KP := Rabs_pos K). assert (KL := Rle_abs K).
  assert (t0 : (0 < t)%R) by (apply Rinv_0_lt_compat; lra).
  assert (tK : (t * (8 * Rabs K + 22) = 1)%R) by (unfold t; apply Rinv_l; lra). clearbody t.
  exists t, (ev 2 (total [pauli_x; pauli_z]) t). split; [exact t0|]. split; [apply ev_evolution|].
  intros g st RG RE. change (Z.of_nat 1) with 1%Z.
  destruct (fixed_run g 0 1 _ h t 1 st RG (le_n _) (le_n _) (proj1 (PFamilies.drift_0 1 _)) H RE) as (st' & s & p & c & Es & An & Hc & Fr).
  exists st', s, p. split; [exact Es|]. split; [exact An|].
  change (2 ^ 1)%nat with 2%nat in *. rewrite (proj2 (PFamilies.drift_0 1 _)) in Fr.
  set (l := [mscale (RtoC t) pauli_x; mscale (RtoC t) pauli_z]).
  set (V := lprod 2 (map (fun A => ev 2 A 1) l)).
  assert (EV : meq 2 (u_mat p) (mscale c V)).
  { eapply meq_trans; [apply fro_minus_0; apply Rle_antisym; [exact Fr|apply fro_nonneg]|].
    apply mscale_proper. change (List.concat (repeat (seq 0 (List.length [pauli_x; pauli_z])) 1)) with [0; 1]%nat. unfold V, l.
    apply lprod_meq. cbn [map nth]. replace (t / INR 1)%R with (t * 1)%R by (simpl; field).
    repeat constructor; symmetry; apply ev_scaled. }
  assert (ET : meq 2 (turned 2 (u_mat p) pauli_x) (runs 2 l pauli_x)).
  { rewrite EV, runs_turned. fold V. unfold turned. rewrite adj_mscale, mmul_mscale_l, !mmul_mscale_r, mscale_mscale.
    replace (c * Cconj c) with (RtoC 1) by (rewrite Cmult_comm; symmetry; now apply Cmod_one_conj'). apply mscale_1. }
  assert (EE : meq 2 (turned 2 (ev 2 (total [pauli_x; pauli_z]) t) pauli_x) (turned 2 (ev 2 (total l) 1) pauli_x)).
  { assert (T : meq 2 (total l) (mscale (RtoC t) (total [pauli_x; pauli_z]))).
    { intros i j _ _. unfold l, total, mscale. cbn [fold_right]. ring. }
    rewrite (ev_meq 2 _ _ 1 T), ev_scaled, Rmult_1_r. reflexivity. }
  assert (HL : forall A, In A l -> hermitian_mx 2 A).
  { intros A [<-|[<-|[]]]; apply hermitian_scale; [exact herm_x|exact herm_z]. }
  assert (FL : Forall2 (fun A a => (0 <= a)%R /\ opb 2 A a) l [t; t]).
  { inversion F as [|? ? ? ? F1 F' ]; subst. inversion F' as [|? ? ? ? F2 _]; subst. constructor; [apply opb_one; [exact F1|lra]|].
    constructor; [apply opb_one; [exact F2|lra]|constructor]. }
  destruct (jets 2 l HL [t; t] FL) as (J1 & J2 & J3 & _ & _ & _ & _ & J4). cbn [fold_right] in J1, J3, J4.
  assert (B1 := J4 pauli_x). assert (B2 := gate_third 2 (total l) _ J1 J2 J3 pauli_x).
  assert (S2 := xz_second t). cbv zeta in S2. fold l in S2.
  set (W := runs 2 l pauli_x) in *. set (T := turned 2 (ev 2 (total l) 1) pauli_x) in *.
  set (R1 := mminus (mminus (mminus W pauli_x) (comm_i 2 (total l) pauli_x)) (quad 2 l pauli_x)) in *.
  set (R2 := mminus (mminus (mminus T pauli_x) (comm_i 2 (total l) pauli_x)) (half_square 2 (total l) pauli_x)) in *.
  assert (EQ : meq 2 (mscale (RtoC (- 2 * t ^ 2)) pauli_z) (mplus (mminus (mminus (turned 2 (u_mat p) pauli_x) (turned 2 (ev 2 (total [pauli_x; pauli_z]) t) pauli_x)) R1) R2)).
  { intros i j Hi Hj. rewrite <- (S2 i j Hi Hj). unfold mplus, mminus at 2 3. rewrite (ET i j Hi Hj), (EE i j Hi Hj).
    unfold R1, R2, mminus. ring. }
  assert (LB : (2 * t ^ 2 * sqrt 2 <= fro 2 (mminus (turned 2 (u_mat p) pauli_x) (turned 2 (ev 2 (total [pauli_x; pauli_z]) t) pauli_x)) + fro 2 R1 + fro 2 R2)%R).
  { replace (2 * t ^ 2 * sqrt 2)%R with (fro 2 (mscale (RtoC (- 2 * t ^ 2)) pauli_z)).
    - rewrite EQ. eapply Rle_trans; [apply fro_triangle|]. apply Rplus_le_compat_r. apply POneQubit.fro_minus_le.
    - rewrite fro_mscale, fro_z, Cmod_R. f_equal. replace (- 2 * t ^ 2)%R with (- (2 * t ^ 2))%R by ring. rewrite Rabs_Ropp. apply Rabs_pos_eq.
      assert (Z := pow2_ge_0 t). lra. }
  rewrite fro_x in B1, B2 |- *. cbn [fold_right]. rewrite (Rabs_pos_eq t) by lra.
  assert (Q : (0 < sqrt 2)%R) by (apply sqrt_lt_R0; lra).
  replace (INR 1) with 1%R by reflexivity.
  assert (Z1 : (K * ((1 + (1 + 0)) * t) ^ 3 / 1 ^ 2 * sqrt 2 = 8 * K * t ^ 3 * sqrt 2)%R) by field.
  rewrite Z1. clear Z1.
  assert (Z2 : ((2 * (t + (t + 0))) ^ 3 / 6 * sqrt 2 = 32 / 3 * t ^ 3 * sqrt 2)%R) by field.
  rewrite Z2 in B1, B2. clear Z2.
  assert (Z3 : (8 * K * t ^ 3 + 64 / 3 * t ^ 3 < 2 * t ^ 2)%R).
  { assert (t2 : (0 < t ^ 2)%R) by nra. replace (8 * K * t ^ 3 + 64 / 3 * t ^ 3)%R with (t ^ 2 * (t * (8 * K + 64 / 3)))%R by ring.
    assert ((t * (8 * K + 64 / 3) < 2)%R) by nra. nra. }
  assert (Z4 : ((8 * K * t ^ 3 + 64 / 3 * t ^ 3) * sqrt 2 < 2 * t ^ 2 * sqrt 2)%R) by (now apply Rmult_lt_compat_r).
  clear - LB B1 B2 Z4. lra.
Qed.

Lemma average_turned_unique : forall d r P X Y Y', average_turned d r P X Y -> average_turned d r P X Y' -> meq d Y Y'.
Proof.
  intros d r P X Y Y' H H' i j Hi Hj. destruct (H i j Hi Hj) as [A1 A2]. destruct (H' i j Hi Hj) as [B1 B2].
  assert (L : legal []) by constructor.
  apply injective_projections; [exact (average_unique _ _ _ _ A1 _ L B1)|exact (average_unique _ _ _ _ A2 _ L B2)].
Qed.
