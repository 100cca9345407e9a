(** Circuits of noisy gates. *)
From Coq Require Import Reals List Arith Lia Lra Bool Psatz Setoid Morphisms.
From Coquelicot Require Import Rcomplements Complex.
From Verif Require Import Base CMat CMatFacts Det DetFacts Norms Spec SpecModel SpecGates SpecChannel
  ModelNoise SpecNoise PUnitary PBits PEmbed PEntry PSeqNear PChannel PGates PNoise PNoise2 PNoise3.
Import ListNotations.
Open Scope R_scope.
Open Scope C_scope.

(** ** Density matrices *)
Definition form (d : nat) (X : mat) (x : nat -> C) : C :=
  csum d (fun i => csum d (fun j => Cconj (x i) * X i j * x j)).
Definition col (x : nat -> C) : mat := fun i _ => x i.
Lemma form_col d X x : form d X x = mmul d (adj (col x)) (mmul d X (col x)) 0%nat 0%nat.
Proof.
  unfold form, mmul, adj, col. apply csum_ext. intros i _. rewrite <- csum_mult_l. apply csum_ext. intros j _. ring.
Qed.
Lemma form_turned d U X x : (0 < d)%nat -> 
  form d (turned d U X) x = form d X (fun i => mmul d (adj U) (col x) i 0%nat).
Proof.
  intros Hd. rewrite !form_col.
  set (y := fun i => mmul d (adj U) (col x) i 0%nat).
  assert (E : meq d (mmul d (adj (col x)) (mmul d (turned d U X) (col x)))
                    (mmul d (adj (mmul d (adj U) (col x))) (mmul d X (mmul d (adj U) (col x))))).
  { unfold turned. rewrite adj_mmul, adj_adj, !mmul_assoc. reflexivity. }
  rewrite (E 0%nat 0%nat Hd Hd).
  assert (Y : meq d (mmul d (adj U) (col x)) (col y)) by (intros i j _ _; reflexivity).
  assert (F : meq d (mmul d (adj (mmul d (adj U) (col x))) (mmul d X (mmul d (adj U) (col x))))
                    (mmul d (adj (col y)) (mmul d X (col y)))) by now rewrite Y.
  exact (F 0%nat 0%nat Hd Hd).
Qed.
Lemma density_meq d X Y : meq d X Y -> density d X -> density d Y.
Proof.
  intros E (A & T & P). split; [now rewrite <- E|]. split; [now rewrite <- (mtrace_meq d X Y E)|].
  intros x. replace (csum d _) with (form d X x); [apply P|]. unfold form. apply csum_ext. intros i Hi.
  apply csum_ext. intros j Hj. now rewrite E.
Qed.
Lemma trace_turned d U X : unitary_mx d U -> mtrace d (turned d U X) = mtrace d X.
Proof.
  intros HU. apply unitary_left in HU. unfold turned. rewrite mtrace_mmul_comm. apply mtrace_meq.
  now rewrite <- mmul_assoc, HU, mmul_1_r.
Qed.
Lemma density_turned d U X : (0 < d)%nat -> unitary_mx d U -> density d X -> density d (turned d U X).
Proof.
  intros Hd HU (A & T & P). split; [|split].
  - unfold turned. now rewrite !adj_mmul, adj_adj, A, mmul_assoc.
  - now rewrite trace_turned.
  - intros x. change (0 <= Re (form d (turned d U X) x))%R. rewrite form_turned by auto. apply P.
Qed.
Lemma RtoC_rsum m p : RtoC (rsum m p) = csum m (fun k => RtoC (p k)).
Proof. induction m; simpl; auto. rewrite RtoC_plus. now rewrite IHm. Qed.
Lemma Re_csum m f : Re (csum m f) = rsum m (fun k => Re (f k)).
Proof. induction m; simpl; auto. now rewrite <- IHm. Qed.
Lemma mtrace_wsum d m p Y : mtrace d (wsum m p Y) = csum m (fun k => RtoC (p k) * mtrace d (Y k)).
Proof.
  unfold mtrace, wsum. rewrite csum_swap. apply csum_ext. intros k _. now rewrite csum_mult_l.
Qed.
Lemma form_wsum d m p Y x : form d (wsum m p Y) x = csum m (fun k => RtoC (p k) * form d (Y k) x).
Proof.
  unfold form, wsum. transitivity (csum d (fun i => csum m (fun k => csum d (fun j =>
    RtoC (p k) * (Cconj (x i) * Y k i j * x j))))).
  - apply csum_ext. intros i _. rewrite csum_swap. apply csum_ext. intros j _.
    rewrite <- csum_mult_l, <- csum_mult_r. apply csum_ext. intros k _. ring.
  - rewrite csum_swap. apply csum_ext. intros k _. rewrite <- csum_mult_l. apply csum_ext. intros i _.
    now rewrite csum_mult_l.
Qed.
Lemma density_wsum d m p Y : (forall k, (k < m)%nat -> (0 <= p k)%R) -> rsum m p = 1%R ->
  (forall k, (k < m)%nat -> density d (Y k)) -> density d (wsum m p Y).
Proof.
  intros Hp Hs HY. split; [|split].
  - intros i j Hi Hj. unfold adj, wsum. rewrite csum_conj. apply csum_ext. intros k Hk.
    rewrite Cconj_mult, Cconj_R. destruct (HY k Hk) as (A & _). specialize (A i j Hi Hj). unfold adj in A. now rewrite A.
  - rewrite mtrace_wsum. transitivity (csum m (fun k => RtoC (p k))).
    + apply csum_ext. intros k Hk. destruct (HY k Hk) as (_ & -> & _). ring.
    + now rewrite <- RtoC_rsum, Hs.
  - intros x. change (0 <= Re (form d (wsum m p Y) x))%R. rewrite form_wsum, Re_csum.
    apply rsum_nonneg. intros k Hk. destruct (HY k Hk) as (_ & _ & P). specialize (P x).
    change (0 <= Re (form d (Y k) x))%R in P. specialize (Hp k Hk).
    replace (Re (RtoC (p k) * form d (Y k) x)%C) with (p k * Re (form d (Y k) x))%R
      by (unfold Re, RtoC; simpl; ring).
    now apply Rmult_le_pos.
Qed.

(** ** Operations as mixtures of unitaries *)
Definition mixture (d m : nat) (p : nat -> R) (V : nat -> mat) (F : mat -> mat) : Prop :=
  (forall k, (k < m)%nat -> (0 <= p k)%R) /\ rsum m p = 1%R /\ (forall k, (k < m)%nat -> unitary_mx d (V k)) /\
  forall X, meq d (F X) (wsum m p (fun k => turned d (V k) X)).
Lemma pdep_pos t k : (0 <= t <= 1)%R -> (0 <= pdep t k)%R.
Proof. intros H. unfold pdep. destruct (Nat.eqb k 0); lra. Qed.
Lemma pdep_sum t : rsum 4 (pdep t) = 1%R.
Proof. unfold pdep. simpl. field. Qed.
Lemma pdep2_sum t : rsum 16 (pdep2 t) = 1%R.
Proof. unfold pdep2, pdep. simpl. field. Qed.
Lemma pauli_unitary k : (k < 4)%nat -> unitary_mx 2 (pauli k).
Proof.
  intros H. unfold unitary_mx. below4 H; cases2; unfold mmul, adj, mid; simpl; apply C_eq; simpl; ring.
Qed.
Lemma kron_unitary_2 A B : unitary_mx 2 A -> unitary_mx 2 B -> unitary_mx 4 (kron 2 A B).
Proof. intros HA HB. apply (unitary_kron 2 2); auto; lia. Qed.
Lemma pauli2_unitary k : (k < 16)%nat -> unitary_mx 4 (pauli2 k).
Proof.
  intros H. unfold pauli2. apply kron_unitary_2; apply pauli_unitary.
  - apply Nat.div_lt_upper_bound; lia.
  - apply Nat.mod_upper_bound. lia.
Qed.
Lemma mixture_turned d m p V F U : unitary_mx d U -> mixture d m p V F ->
  mixture d m p (fun k => mmul d U (V k)) (fun X => turned d U (F X)).
Proof.
  intros HU (A & B & D & E). split; [auto|]. split; [auto|]. split.
  - intros k Hk. now apply unitary_mmul; auto.
  - intros X. rewrite (turned_meq d U U (F X) _ (meq_refl d U) (E X)). rewrite wsum_turned.
    apply wsum_meq. intros k _. now rewrite turned_mmul.
Qed.
Lemma mixture_ext d m p V F G : (forall X, meq d (G X) (F X)) -> mixture d m p V F -> mixture d m p V G.
Proof. intros H (A & B & D & E). repeat split; auto. intros X. now rewrite H, E. Qed.
Lemma mixture_dep t : (0 <= t <= 1)%R -> mixture 2 4 (pdep t) pauli (of_process 2 pauli (diag1 t)).
Proof.
  intros Ht. split; [intros; now apply pdep_pos|]. split; [apply pdep_sum|].
  split; [apply pauli_unitary|]. apply process_dep.
Qed.
Lemma mixture_dep2 t : (0 <= t <= 1)%R ->
  mixture 4 16 (pdep2 t) pauli2 (of_process 4 pauli2 (kron 4 (diag1 t) (diag1 t))).
Proof.
  intros Ht. split; [intros; unfold pdep2; apply Rmult_le_pos; now apply pdep_pos|]. split; [apply pdep2_sum|].
  split; [apply pauli2_unitary|]. apply process_dep2.
Qed.
Lemma mixture_on n qs m p V F : placement n qs -> mixture (2 ^ List.length qs) m p V F ->
  mixture (2 ^ n) m p (fun k => embed n qs (V k)) (on_qubits n qs F).
Proof.
  intros Hp (A & B & D & E). split; [auto|]. split; [auto|]. split.
  - intros k Hk. apply embed_unitary; auto.
  - intros X. now apply on_qubits_mix.
Qed.
Lemma mixture_density d m p V F X : (0 < d)%nat -> mixture d m p V F -> density d X -> density d (F X).
Proof.
  intros Hd (A & B & D & E) HX. apply (density_meq _ _ _ (meq_sym _ _ _ (E X))). apply density_wsum; auto.
  intros k Hk. now apply density_turned; auto.
Qed.

Lemma gateduration_nonneg a : (0 <= Rabs a / (PI / 2))%R.
Proof.
  apply Rmult_le_pos; [apply Rabs_pos|]. left. apply Rinv_0_lt_compat. assert (Q := PI_RGT_0). lra.
Qed.
Lemma gateduration_MS_nonneg a : (0 <= gateduration_MS a)%R.
Proof. assert (Q := gateduration_nonneg a). unfold gateduration_MS, Rdiv in *. lra. Qed.

Lemma gate_R_mixture e f a : (0 <= depolarization e <= 1)%R ->
  exists m p V, mixture 2 m p V (of_process 2 pauli (gate_R e f a)).
Proof.
  intros He. set (t := depolarization_term e (gateduration_R a)).
  assert (Ht : (0 <= t <= 1)%R) by (apply term_range; auto; apply gateduration_nonneg).
  exists 4%nat, (pdep t), (fun k => mmul 2 (noisy_R e f a) (pauli k)).
  apply (mixture_ext 2 4 (pdep t) (fun k => mmul 2 (noisy_R e f a) (pauli k))
    (fun X => turned 2 (noisy_R e f a) (of_process 2 pauli (diag1 t) X))).
  - intros X. unfold gate_R. eapply meq_trans; [apply (process_mmul 2 pauli pauli_basis)|].
    apply (process_turned 2 pauli pauli_basis).
  - apply (mixture_turned 2 4 (pdep t) pauli); [apply U_R_unitary|now apply mixture_dep].
Qed.
Lemma gate_MS_mixture e f a : (0 <= depolarization e <= 1)%R ->
  exists m p V, mixture 4 m p V (of_process 4 pauli2 (gate_MS e f a)).
Proof.
  intros He. set (t := depolarization_term e (gateduration_MS a)).
  assert (Ht : (0 <= t <= 1)%R) by (apply term_range; auto; apply gateduration_MS_nonneg).
  exists 16%nat, (pdep2 t), (fun k => mmul 4 (noisy_MS e f a) (pauli2 k)).
  apply (mixture_ext 4 16 (pdep2 t) (fun k => mmul 4 (noisy_MS e f a) (pauli2 k))
    (fun X => turned 4 (noisy_MS e f a) (of_process 4 pauli2 (kron 4 (diag1 t) (diag1 t)) X))).
  - intros X. exact (gate_MS_acts e f a X).
  - apply (mixture_turned 4 16 (pdep2 t) pauli2); [apply U_MS_unitary|now apply mixture_dep2].
Qed.
Lemma gate_Rz_mixture a : exists m p V, mixture 2 m p V (of_process 2 pauli (gate_Rz a)).
Proof.
  exists 1%nat, (fun _ => 1%R), (fun _ => U_Rz a).
  split; [intros; lra|]. split; [simpl; lra|]. split; [intros; apply U_Rz_unitary|].
  intros X. eapply meq_trans; [apply (process_turned 2 pauli pauli_basis)|].
  apply meq_sym, (wsum_1 2 (fun _ => turned 2 (U_Rz a) X)).
Qed.
Lemma nop_mixture e n o : (0 <= depolarization e <= 1)%R -> placement n (nop_qubits o) ->
  match o with NIdle _ t => (0 <= t)%R | _ => True end ->
  exists m p V, mixture (2 ^ n) m p V (nop_run e n o).
Proof.
  intros He Hp Hi. destruct o as [q f a|q0 q1 f a|q a|q u]; cbn [nop_qubits] in Hp.
  - destruct (gate_R_mixture e f a He) as (m & p & V & M).
    exists m, p, (fun k => embed n [q] (V k)). exact (mixture_on n [q] m p V _ Hp M).
  - destruct (gate_MS_mixture e f a He) as (m & p & V & M).
    exists m, p, (fun k => embed n [q0; q1] (V k)). exact (mixture_on n [q0; q1] m p V _ Hp M).
  - destruct (gate_Rz_mixture a) as (m & p & V & M).
    exists m, p, (fun k => embed n [q] (V k)). exact (mixture_on n [q] m p V _ Hp M).
  - exists 4%nat, (pdep (depolarization_term e u)), (fun k => embed n [q] (pauli k)).
    apply (mixture_on n [q] 4 _ pauli); auto. apply mixture_dep. now apply term_range.
Qed.

Lemma physical_lemma : forall e n c X, (0 <= depolarization e <= 1)%R -> circuit_ok n c ->
  density (2 ^ n) X -> density (2 ^ n) (emulate e n c X).
Proof.
  intros e n c X He. revert X. induction c as [|o c IH]; intros X Hc HX; auto.
  cbn [emulate fold_left]. apply IH; [intros o' H'; apply Hc; now right|].
  destruct (Hc o (or_introl eq_refl)) as [Hp Hi].
  destruct (nop_mixture e n o He Hp Hi) as (m & p & V & M). revert HX. apply (mixture_density _ _ _ _ _ _ (pow2_pos n) M).
Qed.

(** ** Without depolarisation: mirror circuits *)
Definition nop_unitary (e : noise) (o : nop) : mat :=
  match o with
  | NR _ f a => noisy_R e f a | NMS _ _ f a => noisy_MS e f a | NRz _ a => U_Rz a | NIdle _ _ => mid
  end.
Lemma depolarise_1 X : meq 2 (depolarise 1 X) X.
Proof. intros a b _ _. unfold depolarise. replace (1 - 1)%R with 0%R by ring. ring. Qed.
Lemma process_diag_1 X : meq 2 (of_process 2 pauli (diag1 1) X) X.
Proof.
  eapply meq_trans; [apply process_dep|]. eapply meq_trans; [apply meq_sym, depolarise_mix|]. apply depolarise_1.
Qed.
Lemma process_diag2_1 X : meq 4 (of_process 4 pauli2 (kron 4 (diag1 1) (diag1 1)) X) X.
Proof.
  eapply meq_trans; [|apply (process_mid 4 pauli2 pauli2_basis)].
  apply (process_meq 4 pauli2 pauli2_basis); [|reflexivity].
  intros i j Hi Hj. unfold kron, diag1, mid.
  assert (E : (i = 4 * (i / 4) + i mod 4)%nat) by (apply Nat.div_mod; lia).
  assert (F : (j = 4 * (j / 4) + j mod 4)%nat) by (apply Nat.div_mod; lia).
  destruct (Nat.eqb_spec i j) as [->|N].
  - rewrite !Nat.eqb_refl. destruct (Nat.eqb (j / 4) 0), (Nat.eqb (j mod 4) 0); apply C_eq; simpl; ring.
  - destruct (Nat.eqb_spec (i / 4) (j / 4)) as [A|]; [|ring].
    destruct (Nat.eqb_spec (i mod 4) (j mod 4)) as [B|]; [|ring]. congruence.
Qed.
Lemma nop_coherent e n o X : depolarization e = 0%R ->
  meq (2 ^ n) (nop_run e n o X) (turned (2 ^ n) (embed n (nop_qubits o) (nop_unitary e o)) X).
Proof.
  intros He. destruct o as [q f a|q0 q1 f a|q a|q u]; cbn [nop_qubits nop_run nop_unitary]; apply on_qubits_turned; intros Y.
  - change (2 ^ List.length [q])%nat with 2%nat. rewrite gate_R_acts, term_zero by auto.
    apply turned_meq; [reflexivity|apply depolarise_1].
  - change (2 ^ List.length [q0; q1])%nat with 4%nat. rewrite gate_MS_acts, term_zero by auto.
    apply turned_meq; [reflexivity|apply process_diag2_1].
  - apply (process_turned 2 pauli pauli_basis).
  - change (2 ^ List.length [q])%nat with 2%nat. unfold idle. rewrite term_zero by auto.
    now rewrite process_diag_1, turned_mid.
Qed.
Lemma nop_run_meq e n o X Y : meq (2 ^ n) X Y -> meq (2 ^ n) (nop_run e n o X) (nop_run e n o Y).
Proof. intros H. destruct o; cbn [nop_run]; apply on_qubits_meq; auto; intros; apply meq_refl. Qed.
Lemma emulate_meq e n c : forall X Y, meq (2 ^ n) X Y -> meq (2 ^ n) (emulate e n c X) (emulate e n c Y).
Proof. induction c as [|o c IH]; intros X Y H; auto. cbn [emulate fold_left]. apply IH, nop_run_meq, H. Qed.
Lemma nop_unitary_back e o : 
  meq (2 ^ List.length (nop_qubits o)) (mmul (2 ^ List.length (nop_qubits o)) (nop_unitary e (nop_back o)) (nop_unitary e o)) mid.
Proof.
  destruct o as [q f a|q0 q1 f a|q a|q u]; cbn [nop_qubits nop_unitary nop_back].
  - unfold noisy_R. rewrite np_sign_opp.
    replace (- a + r_rotation_error e * - np_sign a)%R with (- (a + r_rotation_error e * np_sign a))%R by ring.
    apply U_R_back.
  - unfold noisy_MS. rewrite np_sign_opp.
    replace (- a + ms_rotation_error e * - np_sign a)%R with (- (a + ms_rotation_error e * np_sign a))%R by ring.
    apply U_MS_back.
  - apply U_Rz_back.
  - apply mmul_1_l.
Qed.
Lemma nop_qubits_back o : nop_qubits (nop_back o) = nop_qubits o.
Proof. now destruct o. Qed.
Lemma nop_back_run e n o X : depolarization e = 0%R -> placement n (nop_qubits o) ->
  meq (2 ^ n) (nop_run e n (nop_back o) (nop_run e n o X)) X.
Proof.
  intros He Hp. rewrite (nop_coherent e n (nop_back o)) by auto. rewrite nop_qubits_back.
  rewrite (turned_meq _ _ _ _ _ (meq_refl _ _) (nop_coherent e n o X He)).
  rewrite <- turned_mmul. eapply meq_trans; [apply turned_meq; [|apply meq_refl]|apply turned_mid].
  rewrite embed_mmul by auto. rewrite (embed_proper n (nop_qubits o) _ _ (nop_unitary_back e o)). now apply embed_mid.
Qed.
Lemma mirror_cons o c : mirror (o :: c) = mirror c ++ [nop_back o].
Proof. reflexivity. Qed.
Lemma emulate_app e n c c' X : emulate e n (c ++ c') X = emulate e n c' (emulate e n c X).
Proof. unfold emulate. apply fold_left_app. Qed.

Lemma mirror_lemma : forall e n c X, depolarization e = 0%R -> circuit_ok n c ->
  meq (2 ^ n) (emulate e n (c ++ mirror c) X) X.
Proof.
  intros e n c X He. revert X. induction c as [|o c IH]; intros X Hc; [apply meq_refl|].
  rewrite mirror_cons, app_assoc, emulate_app. cbn [app].
  change (emulate e n (o :: c ++ mirror c) X) with (emulate e n (c ++ mirror c) (nop_run e n o X)).
  cbn [emulate fold_left]. eapply meq_trans.
  - apply nop_run_meq. apply IH. intros o' H'. apply Hc. now right.
  - apply nop_back_run; auto. apply Hc. now left.
Qed.

(** ** One qubit *)
Lemma trace_depolarise t X : mtrace 2 (depolarise t X) = mtrace 2 X.
Proof. unfold mtrace, depolarise, mid. simpl. apply C_eq; simpl; rewrite ?RtoC_minus; unfold Rdiv; field. Qed.
Lemma depolarise_meq t X Y : meq 2 X Y -> meq 2 (depolarise t X) (depolarise t Y).
Proof. intros H a b Ha Hb. unfold depolarise. now rewrite (mtrace_meq 2 X Y H), H. Qed.
Lemma depolarise_comp s t X : meq 2 (depolarise s (depolarise t X)) (depolarise (s * t) X).
Proof.
  intros a b Ha Hb. unfold depolarise at 1. rewrite trace_depolarise. unfold depolarise.
  rewrite !RtoC_minus, RtoC_mult. ring.
Qed.
Lemma depolarise_turned t U X : unitary_mx 2 U -> meq 2 (depolarise t (turned 2 U X)) (turned 2 U (depolarise t X)).
Proof.
  intros HU. apply meq_sym.
  assert (E : meq 2 (turned 2 U (depolarise t X))
    (fun a b => RtoC t * turned 2 U X a b + RtoC (1 - t) * (mtrace 2 X / 2) * mmul 2 U (adj U) a b)).
  { intros a b Ha Hb. rewrite !turned_entry. unfold depolarise, mmul, adj, mid. simpl. ring. }
  intros a b Ha Hb. rewrite (E a b Ha Hb). unfold depolarise. rewrite trace_turned by auto. now rewrite (HU a b Ha Hb).
Qed.
Lemma one_qubit_op o : placement 1 (nop_qubits o) -> nop_qubits o = [0%nat].
Proof.
  intros (A & B & D). assert (Z : forall q, In q (nop_qubits o) -> q = 0%nat) by (intros q Hq; specialize (D q Hq); lia).
  destruct o; cbn [nop_qubits] in *; try (rewrite (Z q (or_introl eq_refl)); reflexivity).
  exfalso. rewrite (Z q0), (Z q1) in A by (simpl; auto). inversion_clear A as [|? ? N _]. apply N. now left.
Qed.
Lemma embed_one U : meq 2 (embed 1 [0%nat] U) U.
Proof. apply (embed_all 1). Qed.
Lemma nop_unitary_unitary e o : nop_qubits o = [0%nat] -> unitary_mx 2 (nop_unitary e o).
Proof.
  destruct o; cbn [nop_qubits nop_unitary]; intros H; [apply U_R_unitary|discriminate|apply U_Rz_unitary|].
  unfold unitary_mx. cases2; unfold mmul, adj, mid; simpl; apply C_eq; simpl; ring.
Qed.
Lemma one_qubit_run e o X : nop_qubits o = [0%nat] ->
  meq 2 (nop_run e 1 o X) (turned 2 (nop_unitary e o) (depolarise (depolarization_term e (nop_duration o)) X)).
Proof.
  intros H.
  assert (M : exists m p V, (forall Y, meq 2 (turned 2 (nop_unitary e o) (depolarise (depolarization_term e (nop_duration o)) Y))
     (wsum m p (fun k => turned 2 (V k) Y)))).
  { eexists _, _, _. intros Y. eapply meq_trans; [apply turned_meq; [apply meq_refl|apply depolarise_mix]|].
    eapply meq_trans; [apply wsum_turned|]. apply (wsum_meq 2 4 (pdep (depolarization_term e (nop_duration o))) _ (fun k => turned 2 (mmul 2 (nop_unitary e o) (pauli k)) Y)). intros k _. now rewrite turned_mmul. }
  destruct M as (m & p & V & M).
  assert (G : exists F, nop_run e 1 o X = on_qubits 1 [0%nat] F X /\
    forall Y, meq 2 (F Y) (turned 2 (nop_unitary e o) (depolarise (depolarization_term e (nop_duration o)) Y))).
  { destruct o as [q f a|q0 q1 f a|q a|q u]; cbn [nop_qubits] in H; try discriminate;
      injection H as ->; cbn [nop_run nop_unitary nop_duration]; eexists; (split; [reflexivity|]); intros Y.
    - apply gate_R_acts.
    - unfold gate_Rz. rewrite (process_turned 2 pauli pauli_basis). apply turned_meq; [reflexivity|].
      unfold depolarization_term, np_power. destruct (Req_EM_T 0 0); [|lra]. apply meq_sym, depolarise_1.
    - rewrite turned_mid. unfold idle. eapply meq_trans; [apply process_dep|apply meq_sym, depolarise_mix]. }
  destruct G as (F & -> & G). eapply meq_trans.
  - apply (on_qubits_mix 1 [0%nat] F m p V). intros Y. now rewrite <- M, G.
  - rewrite M. apply wsum_meq. intros k _. apply turned_meq; [apply embed_one|reflexivity].
Qed.
Lemma coherent_unitary e o : nop_unitary (coherent e) o = nop_unitary e o.
Proof. now destruct o. Qed.
Lemma one_qubit_coherent_run e o X : nop_qubits o = [0%nat] ->
  meq 2 (nop_run (coherent e) 1 o X) (turned 2 (nop_unitary e o) X).
Proof.
  intros H. rewrite one_qubit_run by auto. rewrite term_zero by reflexivity. rewrite coherent_unitary.
  apply turned_meq; [reflexivity|apply depolarise_1].
Qed.
Lemma coherent_depolarise e c : forall t X, circuit_ok 1 c ->
  meq 2 (emulate (coherent e) 1 c (depolarise t X)) (depolarise t (emulate (coherent e) 1 c X)).
Proof.
  induction c as [|o c IH]; intros t X Hc; [apply meq_refl|]. cbn [emulate fold_left].
  assert (Q : nop_qubits o = [0%nat]) by (apply one_qubit_op, Hc; now left).
  assert (Hc' : circuit_ok 1 c) by (intros o' H'; apply Hc; now right).
  eapply meq_trans; [|apply (IH t _ Hc')]. apply (emulate_meq (coherent e) 1 c). change (2 ^ 1)%nat with 2%nat.
  rewrite one_qubit_coherent_run by auto. rewrite (depolarise_meq t _ _ (one_qubit_coherent_run e o X Q)).
  apply meq_sym, depolarise_turned. now apply nop_unitary_unitary.
Qed.
Lemma nop_duration_nonneg o : match o with NIdle _ t => (0 <= t)%R | _ => True end -> (0 <= nop_duration o)%R.
Proof.
  destruct o; cbn [nop_duration]; intros H; auto; try lra; assert (Q := gateduration_nonneg angle); lra.
Qed.
Lemma total_nonneg n c : circuit_ok n c -> (0 <= total_duration c)%R.
Proof.
  induction c as [|o c IH]; intros Hc; [apply Rle_refl|]. cbn [total_duration fold_right].
  apply Rplus_le_le_0_compat; [apply nop_duration_nonneg, (Hc o); now left|].
  apply IH. intros o' H'. apply Hc. now right.
Qed.
Lemma one_qubit_term e c : forall X, circuit_ok 1 c ->
  meq 2 (emulate e 1 c X) (depolarise (depolarization_term e (total_duration c)) (emulate (coherent e) 1 c X)).
Proof.
  induction c as [|o c IH]; intros X Hc.
  - cbn [emulate fold_left total_duration fold_right]. unfold depolarization_term, np_power.
    destruct (Req_EM_T 0 0); [|lra]. apply meq_sym, depolarise_1.
  - assert (Q : nop_qubits o = [0%nat]) by (apply one_qubit_op, Hc; now left).
    assert (Hc' : circuit_ok 1 c) by (intros o' H'; apply Hc; now right).
    change (emulate e 1 (o :: c) X) with (emulate e 1 c (nop_run e 1 o X)).
    change (emulate (coherent e) 1 (o :: c) X) with (emulate (coherent e) 1 c (nop_run (coherent e) 1 o X)).
    change (total_duration (o :: c)) with (nop_duration o + total_duration c)%R.
    rewrite (IH _ Hc'). rewrite <- term_plus, Rmult_comm by (try apply (total_nonneg 1 c Hc'); apply nop_duration_nonneg, (Hc o); now left).
    rewrite <- depolarise_comp. apply depolarise_meq. rewrite <- coherent_depolarise by auto.
    apply (emulate_meq (coherent e) 1 c). change (2 ^ 1)%nat with 2%nat. rewrite one_qubit_run by auto.
    rewrite (depolarise_meq _ _ _ (one_qubit_coherent_run e o X Q)).
    apply meq_sym, depolarise_turned. now apply nop_unitary_unitary.
Qed.
Lemma one_qubit_lemma : forall e c t X, circuit_ok 1 c -> survives e (total_duration c) t ->
  meq 2 (emulate e 1 c X) (depolarise t (emulate (coherent e) 1 c X)).
Proof. intros e c t X Hc Ht. apply survives_eq in Ht. subst t. now apply one_qubit_term. Qed.

Lemma total_app c c' : total_duration (c ++ c') = (total_duration c + total_duration c')%R.
Proof. induction c as [|o c IH]; cbn [app total_duration fold_right]; [unfold total_duration; lra|].
  unfold total_duration in *. rewrite IH. lra. Qed.
Lemma total_mirror c : total_duration (mirror c) = total_duration c.
Proof.
  induction c as [|o c IH]; auto. rewrite mirror_cons, total_app, IH. cbn [total_duration fold_right].
  assert (nop_duration (nop_back o) = nop_duration o) by (destruct o; cbn [nop_duration nop_back]; rewrite ?Rabs_Ropp; reflexivity).
  unfold total_duration. lra.
Qed.
Lemma mirror_ok n c : circuit_ok n c -> circuit_ok n (mirror c).
Proof.
  intros H o Ho. unfold mirror in Ho. apply in_rev, in_map_iff in Ho. destruct Ho as (o' & <- & Ho').
  rewrite nop_qubits_back. specialize (H o' Ho'). now destruct o'.
Qed.
Lemma one_qubit_mirror_lemma : forall e c t X, circuit_ok 1 c -> survives e (2 * total_duration c) t ->
  meq 2 (emulate e 1 (c ++ mirror c) X) (depolarise t X).
Proof.
  intros e c t X Hc Ht. rewrite (one_qubit_lemma e (c ++ mirror c) t).
  - apply depolarise_meq. now apply (mirror_lemma (coherent e) 1).
  - intros o Ho. apply in_app_iff in Ho. destruct Ho as [Ho|Ho]; [now apply Hc|now apply (mirror_ok 1 c)].
  - rewrite total_app, total_mirror. now replace (total_duration c + total_duration c)%R with (2 * total_duration c)%R by ring.
Qed.
