(** The operation that a printed text stands for. *)
From Coq Require Import Reals List Arith Lia Lra Bool String Ascii ZArith.
From Coquelicot Require Import Rcomplements Complex.
From Verif Require Import Base CMat CMatFacts Det DetFacts Norms ModelUnitary ModelPrimitive ModelEntry ModelSequence ModelGates ModelText
  ModelDecimal Spec SpecModel SpecCompiler SpecText SpecGates SpecDecimal PUnitary PBits PEmbed PEntry PDrift PSeqNear PGates PGms
  PFamilies PText PTextSeq PSeqHeap PSeqMeth PSeqWorld PSeqUndo PSeqInv PSeqHist PSeqProps PCompProps PNotebook PDecimal.
Import ListNotations.
Open Scope R_scope.
Open Scope C_scope.
Set Bullet Behavior "Strict Subproofs".

(** ** Numbers *)
Lemma py_fmt_numeral k x : numeral (py_fmt k x).
Proof.
  unfold numeral, py_fmt. split.
  - destruct (Rlt_dec x 0); [discriminate|]. cbn [append]. assert (H := str_decimal_head).
    unfold str_decimal. destruct (_ && _); intros E; apply (f_equal String.length) in E;
      rewrite <- chars_length, !chars_app, !app_length, !chars_length in E; cbn [String.length] in E; try lia.
  - intros c. rewrite chars_app, in_app_iff. intros [H|H].
    + destruct (Rlt_dec x 0); [|destruct H]. vm_compute in *. tauto.
    + apply str_decimal_chars in H. vm_compute in *. tauto.
Qed.

Lemma read_real_not_pi s : (forall c, In c (chars s) -> In c (chars "0123456789.+-einfa")) -> read_value s = read_real s.
Proof.
  intros H. destruct s as [|c s]; [reflexivity|]. specialize (H c (or_introl eq_refl)).
  destruct c as [[] [] [] [] [] [] [] []]; try reflexivity.
  exfalso. vm_compute in H. repeat (destruct H as [H|H]; [discriminate H|]). exact H.
Qed.

Lemma angle_close v : (Rabs (read_value (qasm_value py_fmt (v, true)) - v) <= PI / 2 / 10 ^ 7)%R.
Proof.
  unfold qasm_value. cbn [append read_value]. assert (H := py_fmt_close 7 (v / PI)). assert (P := PI_RGT_0).
  set (r := read_real (py_fmt 7 (v / PI))) in *. replace (PI * r - v)%R with (PI * (r - v / PI))%R by (field; lra).
  rewrite Rabs_mult, (Rabs_pos_eq PI) by lra. replace (PI / 2 / 10 ^ 7)%R with (PI * (/ 2 * / 10 ^ 7))%R by (field; apply pow_nonzero; lra).
  apply Rmult_le_compat_l; [lra|exact H].
Qed.
Lemma decimal_close v : (Rabs (read_value (qasm_value py_fmt (v, false)) - v) <= / 2 / 10 ^ 7)%R.
Proof. unfold qasm_value. rewrite read_real_not_pi by apply py_fmt_numeral. apply py_fmt_close. Qed.

(** ** Gates *)
Lemma chord a b : ((cos a - cos b) ^ 2 + (sin a - sin b) ^ 2 <= (a - b) ^ 2)%R.
Proof.
  assert (E : ((cos a - cos b) ^ 2 + (sin a - sin b) ^ 2 = 4 * sin ((a - b) / 2) ^ 2)%R).
  { rewrite form2, form4. assert (P := pyth ((a + b) / 2)).
    transitivity (4 * sin ((a - b) / 2) ^ 2 * (cos ((a + b) / 2) * cos ((a + b) / 2) + sin ((a + b) / 2) * sin ((a + b) / 2)))%R; [ring|rewrite P; ring]. }
  rewrite E. set (x := ((a - b) / 2)%R). replace ((a - b) ^ 2)%R with (4 * x ^ 2)%R by (unfold x; field).
  apply Rmult_le_compat_l; [lra|]. rewrite <- (pow2_abs (sin x)), <- (pow2_abs x). apply pow_incr. split; [apply Rabs_pos|].
  assert (K : forall y, (0 <= y)%R -> (Rabs (sin y) <= y)%R).
  { intros y Hy. destruct (Req_dec y 0) as [->|N]; [rewrite sin_0, Rabs_R0; lra|].
    apply Rabs_le. split; [|left; apply sin_lt_x; lra].
    destruct (Rle_lt_dec y 1) as [H|H].
    - assert (0 <= sin y)%R by (apply sin_ge_0; [lra|]; assert (X := PI2_1); lra). lra.
    - assert (X := SIN_bound y). lra. }
  destruct (Rle_lt_dec 0 x) as [H|H].
  - rewrite (Rabs_pos_eq x H). now apply K.
  - rewrite (Rabs_left x H), <- Rabs_Ropp, <- sin_neg. apply K. lra.
Qed.

Lemma rotation_turn x y z s t : (x * x + y * y + z * z = 1)%R ->
  (fro 2 (mminus (rotation x y z s) (rotation x y z t)) <= sqrt 2 * (Rabs (s - t) / 2))%R.
Proof.
  intros U. assert (S2 : (sqrt 2 * sqrt 2 = 2)%R) by (apply sqrt_sqrt; lra). assert (S0 := sqrt_pos 2). assert (A := Rabs_pos (s - t)).
  apply sqr_le_le; [apply Rmult_le_pos; lra|]. rewrite fro_sqr.
  replace ((sqrt 2 * (Rabs (s - t) / 2)) ^ 2)%R with (2 * (s / 2 - t / 2) ^ 2)%R.
  2:{ replace ((sqrt 2 * (Rabs (s - t) / 2)) ^ 2)%R with ((sqrt 2 * sqrt 2) * ((Rabs (s - t)) ^ 2 / 4))%R by field. rewrite S2, pow2_abs. field. }
  assert (C := chord (s / 2) (t / 2)).
  enough (E : fro2 2 (mminus (rotation x y z s) (rotation x y z t)) =
    (2 * ((cos (s / 2) - cos (t / 2)) ^ 2 + (x * x + y * y + z * z) * (sin (s / 2) - sin (t / 2)) ^ 2))%R) by (rewrite E, U; lra).
  unfold fro2, vnorm2. cbn [rsum]. rewrite !Cmod2. unfold mminus, rotation, pauli_x, pauli_y, pauli_z, mid, mat22. simpl. ring.
Qed.

Lemma axis_turn p q t :
  (fro 2 (mminus (rotation (cos p) (sin p) 0 t) (rotation (cos q) (sin q) 0 t)) <= sqrt 2 * Rabs (p - q))%R.
Proof.
  assert (S2 : (sqrt 2 * sqrt 2 = 2)%R) by (apply sqrt_sqrt; lra). assert (S0 := sqrt_pos 2). assert (A := Rabs_pos (p - q)).
  apply sqr_le_le; [apply Rmult_le_pos; lra|]. rewrite fro_sqr.
  replace ((sqrt 2 * Rabs (p - q)) ^ 2)%R with (2 * (p - q) ^ 2)%R.
  2:{ replace ((sqrt 2 * Rabs (p - q)) ^ 2)%R with ((sqrt 2 * sqrt 2) * (Rabs (p - q)) ^ 2)%R by ring. rewrite S2, pow2_abs. ring. }
  assert (C := chord p q).
  assert (E : fro2 2 (mminus (rotation (cos p) (sin p) 0 t) (rotation (cos q) (sin q) 0 t)) =
    (2 * (sin (t / 2) ^ 2 * ((cos p - cos q) ^ 2 + (sin p - sin q) ^ 2)))%R).
  { unfold fro2, vnorm2. cbn [rsum]. rewrite !Cmod2. unfold mminus, rotation, pauli_x, pauli_y, pauli_z, mid, mat22. simpl. ring. }
  rewrite E. apply Rmult_le_compat_l; [lra|]. assert (B := SIN_bound (t / 2)).
  assert (Q : (0 <= sin (t / 2) ^ 2 <= 1)%R) by (split; [apply pow2_ge_0|nra]).
  eapply Rle_trans; [apply Rmult_le_compat; [apply Q| |apply Q|exact C]|lra].
  assert (X := pow2_ge_0 (cos p - cos q)). assert (Y := pow2_ge_0 (sin p - sin q)). lra.
Qed.

Lemma coupling_turn s t : (fro 4 (mminus (xx_coupling s) (xx_coupling t)) <= 2 * Rabs (s - t))%R.
Proof.
  assert (A := Rabs_pos (s - t)). apply sqr_le_le; [lra|]. rewrite fro_sqr.
  replace ((2 * Rabs (s - t)) ^ 2)%R with (4 * (s - t) ^ 2)%R by (rewrite <- (pow2_abs (s - t)); ring).
  assert (C := chord s t).
  assert (E : fro2 4 (mminus (xx_coupling s) (xx_coupling t)) = (4 * ((cos s - cos t) ^ 2 + (sin s - sin t) ^ 2))%R).
  { unfold fro2, vnorm2. cbn [rsum]. rewrite !Cmod2. unfold mminus, xx_coupling, kron, pauli_x, mid, mat22. simpl. ring. }
  rewrite E. lra.
Qed.

Lemma rotation_xy_turn t p t' p' : (fro 2 (mminus (rotation (cos p) (sin p) 0 t) (rotation (cos p') (sin p') 0 t')) <=
  sqrt 2 * (Rabs (t - t') / 2 + Rabs (p - p')))%R.
Proof.
  eapply Rle_trans; [apply fro_minus_triangle with (B := rotation (cos p) (sin p) 0 t')|].
  assert (A := rotation_turn (cos p) (sin p) 0 t t' (unit_xy p)). assert (B := axis_turn p p' t'). lra.
Qed.

Lemma euler_turn a b c a' b' c' : (fro 2 (mminus (euler a b c) (euler a' b' c')) <=
  sqrt 2 * (Rabs (a - a') / 2 + Rabs (b - b') / 2 + Rabs (c - c') / 2))%R.
Proof.
  assert (Ua := rotation_special 0 0 1 a' unit_z). assert (Ub := rotation_special 0 1 0 b unit_y).
  assert (Uc := rotation_special 0 0 1 c unit_z). assert (Ub' := rotation_special 0 1 0 b' unit_y).
  assert (A := rotation_turn 0 0 1 a a' unit_z). assert (B := rotation_turn 0 1 0 b b' unit_y). assert (C := rotation_turn 0 0 1 c c' unit_z).
  unfold euler.
  assert (T1 : (fro 2 (mminus (mmul 2 (rotation 0 0 1 a) (mmul 2 (rotation 0 1 0 b) (rotation 0 0 1 c)))
     (mmul 2 (rotation 0 0 1 a') (mmul 2 (rotation 0 1 0 b) (rotation 0 0 1 c)))) = fro 2 (mminus (rotation 0 0 1 a) (rotation 0 0 1 a')))%R).
  { rewrite <- (fro_unitary_r 2 (mmul 2 (rotation 0 1 0 b) (rotation 0 0 1 c)) (mminus (rotation 0 0 1 a) (rotation 0 0 1 a')))
      by (apply unitary_mmul; [apply Ub|apply Uc]).
    apply fro_proper. now rewrite mmul_mminus_l. }
  assert (T2 : (fro 2 (mminus (mmul 2 (rotation 0 0 1 a') (mmul 2 (rotation 0 1 0 b) (rotation 0 0 1 c)))
     (mmul 2 (rotation 0 0 1 a') (mmul 2 (rotation 0 1 0 b') (rotation 0 0 1 c)))) = fro 2 (mminus (rotation 0 1 0 b) (rotation 0 1 0 b')))%R).
  { rewrite <- (fro_unitary_r 2 (rotation 0 0 1 c) (mminus (rotation 0 1 0 b) (rotation 0 1 0 b'))) by apply Uc.
    rewrite <- (fro_unitary_l 2 (rotation 0 0 1 a') (mmul 2 (mminus _ _) _)) by apply Ua.
    apply fro_proper. rewrite mmul_mminus_l. now rewrite mmul_mminus_r. }
  assert (T3 : (fro 2 (mminus (mmul 2 (rotation 0 0 1 a') (mmul 2 (rotation 0 1 0 b') (rotation 0 0 1 c)))
     (mmul 2 (rotation 0 0 1 a') (mmul 2 (rotation 0 1 0 b') (rotation 0 0 1 c')))) = fro 2 (mminus (rotation 0 0 1 c) (rotation 0 0 1 c')))%R).
  { rewrite <- (fro_unitary_l 2 (rotation 0 1 0 b') (mminus (rotation 0 0 1 c) (rotation 0 0 1 c'))) by apply Ub'.
    rewrite <- (fro_unitary_l 2 (rotation 0 0 1 a') (mmul 2 _ (mminus _ _))) by apply Ua.
    apply fro_proper. rewrite mmul_mminus_r. now rewrite mmul_mminus_r. }
  eapply Rle_trans; [apply fro_minus_triangle with (B := mmul 2 (rotation 0 0 1 a') (mmul 2 (rotation 0 1 0 b) (rotation 0 0 1 c)))|]. rewrite T1.
  eapply Rle_trans; [apply Rplus_le_compat_l, (fro_minus_triangle 2 _ (mmul 2 (rotation 0 0 1 a') (mmul 2 (rotation 0 1 0 b') (rotation 0 0 1 c))))|].
  rewrite T2, T3. lra.
Qed.

(** ** Placed gates *)
Lemma embed_fro n qs A B : placement n qs ->
  (fro (2 ^ n) (mminus (embed n qs A) (embed n qs B)) = sqrt (INR (2 ^ (n - List.length qs))) * fro (2 ^ List.length qs) (mminus A B))%R.
Proof.
  intros Hp. set (k := (n - List.length qs)%nat).
  assert (Edim : (2 ^ List.length qs * 2 ^ k = 2 ^ n)%nat) by now apply dim_split.
  assert (E : meq (2 ^ n) (mminus (embed n qs A) (embed n qs B))
    (fun a b => kron (2 ^ k) (mminus A B) mid (pind n qs a) (pind n qs b))).
  { intros a b Ha Hb. unfold mminus. rewrite <- (embed_pind n qs) by auto. rewrite <- (embed_pind n qs) by auto.
    fold k. unfold kron. ring. }
  rewrite E. rewrite fro_reindex.
  - rewrite <- Edim, fro_kron_id by auto using pow2_pos. reflexivity.
  - intros; now apply pind_lt.
  - intros; eapply pind_inj; eauto.
Qed.

Lemma in_range_angles : forall ps vs, Forall (fun p => pr_min p = 0%R /\ pr_max p = (2 * PI)%R) ps -> in_range ps vs ->
  List.length vs = List.length ps /\ Forall (fun v => 0 <= v <= 2 * PI)%R vs.
Proof.
  induction ps as [|p ps IH]; intros vs HF HR; inversion HR as [|? v ? vs' H HR' E1 E2]; subst; [split; [reflexivity|constructor]|].
  inversion_clear HF as [|? ? [A B] HF']. destruct (IH vs' HF' HR') as [L F]. cbn [List.length].
  split; [now rewrite L|]. constructor; [rewrite <- B, <- A; exact H|exact F].
Qed.

(** What is printed for a gate of the library stands for nearly the same gate. *)
Lemma library_lemma eps u : small_drift eps 2 1 -> library_gate eps u ->
  exists k M M', u_dim u = (2 ^ k)%nat /\ special (2 ^ k) M /\ (fro (2 ^ k) (mminus (u_mat u) M) <= drift_bound eps k 1)%R /\
    operator_named (u_name u) (map read_value (map (fun kv => qasm_value py_fmt (snd kv)) (u_params u))) = Some M' /\
    unitary_mx (2 ^ k) M' /\ (fro (2 ^ k) (mminus M M') <= 3 / 2 * sqrt (INR (2 ^ k)) * (PI / 2 / 10 ^ 7))%R /\
    plain_gate u.
Proof.
  intros H2 (pu & vs & Hpu & Hr & Hu). assert (H1 : small_drift eps 1 1) by (apply (small_drift_less eps 1 2 1); [lia|exact H2]).
  destruct Hpu as [Hpu|[Hpu|Hpu]].
  - assert (R : List.length vs = 2%nat /\ Forall (fun v => 0 <= v <= 2 * PI)%R vs).
    { unfold pd_rotation_xy in Hpu. rewrite !angle_ok in Hpu by reflexivity. injection Hpu as <-. apply in_range_angles in Hr; [exact Hr|]. repeat constructor. }
    destruct R as [L F]. destruct vs as [|t [|p [|? ?]]]; try discriminate L. inversion_clear F as [|? ? Ht F']. inversion_clear F' as [|? ? Hp _].
    destruct (rotation_xy_lemma eps t p H1 Ht Hp) as (pu' & Ep & (v & Ev & D & _ & Fr & _) & (v' & Ev' & N1 & N2 & _)).
    rewrite Hpu in Ep. injection Ep as <-. rewrite Hu in Ev, Ev'. injection Ev as <-. injection Ev' as <-.
    set (t' := read_value (qasm_value py_fmt (t, true))). set (p' := read_value (qasm_value py_fmt (p, true))).
    exists 1%nat, (rotation (cos p) (sin p) 0 t), (rotation (cos p') (sin p') 0 t').
    split; [exact D|]. split; [apply rotation_special, unit_xy|]. split; [exact Fr|]. split; [rewrite N1, N2; reflexivity|].
    split; [apply rotation_special, unit_xy|]. split.
    + assert (A := angle_close t). assert (B := angle_close p). fold t' in A. fold p' in B.
      change (2 ^ 1)%nat with 2%nat. change (INR 2) with 2%R. rewrite Rabs_minus_sym in A, B.
      eapply Rle_trans; [apply rotation_xy_turn|]. assert (S := sqrt_pos 2).
      replace (3 / 2 * sqrt 2 * (PI / 2 / 10 ^ 7))%R with (sqrt 2 * (3 / 2 * (PI / 2 / 10 ^ 7)))%R by ring.
      apply Rmult_le_compat_l; [exact S|]. lra.
    + unfold plain_gate. rewrite N1, N2. split; [apply plain_dec; reflexivity|].
      intros k v [E|[E|[]]]; injection E as <- <-; apply plain_dec; reflexivity.
  - assert (R : List.length vs = 3%nat /\ Forall (fun v => 0 <= v <= 2 * PI)%R vs).
    { unfold pd_rotation_xyz in Hpu. rewrite !angle_ok in Hpu by reflexivity. injection Hpu as <-. apply in_range_angles in Hr; [exact Hr|]. repeat constructor. }
    destruct R as [L F]. destruct vs as [|a [|b [|c [|? ?]]]]; try discriminate L. inversion_clear F as [|? ? Ha F']. inversion_clear F' as [|? ? Hb F]. inversion_clear F as [|? ? Hc _].
    destruct (rotation_xyz_lemma eps a b c H1 Ha Hb Hc) as (pu' & Ep & (v & Ev & D & _ & Fr & _) & (v' & Ev' & N1 & N2 & _)).
    rewrite Hpu in Ep. injection Ep as <-. rewrite Hu in Ev, Ev'. injection Ev as <-. injection Ev' as <-.
    set (a' := read_value (qasm_value py_fmt (a, true))). set (b' := read_value (qasm_value py_fmt (b, true))).
    set (c' := read_value (qasm_value py_fmt (c, true))).
    exists 1%nat, (euler a b c), (euler a' b' c').
    split; [exact D|]. split; [apply euler_special|]. split; [exact Fr|]. split; [rewrite N1, N2; reflexivity|].
    split; [apply euler_special|]. split.
    + assert (A := angle_close a). assert (B := angle_close b). assert (C := angle_close c). fold a' in A. fold b' in B. fold c' in C.
      change (2 ^ 1)%nat with 2%nat. change (INR 2) with 2%R. rewrite Rabs_minus_sym in A, B, C.
      eapply Rle_trans; [apply euler_turn|]. assert (S := sqrt_pos 2).
      replace (3 / 2 * sqrt 2 * (PI / 2 / 10 ^ 7))%R with (sqrt 2 * (3 / 2 * (PI / 2 / 10 ^ 7)))%R by ring.
      apply Rmult_le_compat_l; [exact S|]. lra.
    + unfold plain_gate. rewrite N1, N2. split; [apply plain_dec; reflexivity|].
      intros k v [E|[E|[E|[]]]]; injection E as <- <-; apply plain_dec; reflexivity.
  - assert (R : List.length vs = 1%nat /\ Forall (fun v => 0 <= v <= 2 * PI)%R vs).
    { unfold pd_xx in Hpu. rewrite !angle_ok in Hpu by reflexivity. injection Hpu as <-. apply in_range_angles in Hr; [exact Hr|]. repeat constructor. }
    destruct R as [L F]. destruct vs as [|t [|? ?]]; try discriminate L. inversion_clear F as [|? ? Ht _].
    destruct (xx_family_lemma eps t H2 Ht) as (pu' & Ep & (v & Ev & D & _ & Fr & _) & (v' & Ev' & N1 & N2 & _)).
    rewrite Hpu in Ep. injection Ep as <-. rewrite Hu in Ev, Ev'. injection Ev as <-. injection Ev' as <-.
    set (t' := read_value (qasm_value py_fmt (t, true))).
    exists 2%nat, (xx_coupling t), (xx_coupling t').
    split; [exact D|]. split; [apply xx_special|]. split; [exact Fr|]. split; [rewrite N1, N2; reflexivity|].
    split; [apply xx_special|]. split.
    + assert (A := angle_close t). fold t' in A.
      change (2 ^ 2)%nat with 4%nat. replace (INR 4) with (2 * 2)%R by (simpl; lra). rewrite sqrt_square by lra. rewrite Rabs_minus_sym in A.
      eapply Rle_trans; [apply coupling_turn|]. assert (P := Rabs_pos (t - t')). lra.
    + unfold plain_gate. rewrite N1, N2. split; [apply plain_dec; reflexivity|].
      intros k v [E|[]]; injection E as <- <-; apply plain_dec; reflexivity.
Qed.

(** ** Products *)
Definition gate_bound (n : nat) : R := (3 / 2 * sqrt (INR (2 ^ n)) * (PI / 2 / 10 ^ 7))%R.

Lemma drift_kron eps n k : (0 <= eps)%R -> (k <= n)%nat ->
  (sqrt (INR (2 ^ (n - k))) * drift_bound eps k 1 <= drift_bound eps n 1)%R.
Proof.
  intros E H. assert (K := kappa0_kron (2 ^ k) (2 ^ (n - k)) (pow2_pos _) (pow2_pos _)).
  rewrite <- Nat.pow_add_r in K. replace (k + (n - k))%nat with n in K by lia. unfold kappa0 in K. unfold drift_bound.
  set (s := sqrt (INR (2 ^ (n - k)))) in *. set (a := (sqrt (INR (2 ^ k)))) in *. set (c := sqrt (INR (2 ^ n))) in *.
  set (A := INR (2 ^ k)) in *. set (B := INR (2 ^ n)) in *. simpl (INR 1).
  apply (Rmult_le_compat_r eps) in K; [|exact E]. lra.
Qed.

Lemma sqrt_kron n k : (k <= n)%nat -> (sqrt (INR (2 ^ (n - k))) * sqrt (INR (2 ^ k)) = sqrt (INR (2 ^ n)))%R.
Proof.
  intros H. rewrite <- sqrt_mult by apply pos_INR. rewrite <- mult_INR, <- Nat.pow_add_r. do 3 f_equal. lia.
Qed.

Lemma placed_lemma eps n g : small_drift eps 2 1 -> library_gate eps (fst g) -> placement n (snd g) -> (2 ^ List.length (snd g))%nat = u_dim (fst g) ->
  exists M M', operator_named (u_name (fst g)) (map read_value (map (fun kv => qasm_value py_fmt (snd kv)) (u_params (fst g)))) = Some M' /\
    unitary_mx (2 ^ n) (embed n (snd g) M) /\ unitary_mx (2 ^ n) (embed n (snd g) M') /\
    (fro (2 ^ n) (mminus (embed n (snd g) (u_mat (fst g))) (embed n (snd g) M)) <= drift_bound eps n 1)%R /\
    (fro (2 ^ n) (mminus (embed n (snd g) M) (embed n (snd g) M')) <= gate_bound n)%R.
Proof.
  intros H HL HP HD. destruct (library_lemma eps _ H HL) as (k & M & M' & D & S & F & O & U & B & _).
  rewrite D in HD. apply Nat.pow_inj_r in HD; [|lia]. subst k.
  assert (Hk : (List.length (snd g) <= n)%nat) by now apply placement_length.
  exists M, M'. split; [exact O|]. split; [now apply embed_special|]. split; [now apply embed_unitary|].
  rewrite !embed_fro by exact HP. assert (Q := sqrt_pos (INR (2 ^ (n - List.length (snd g))))). split.
  - eapply Rle_trans; [apply Rmult_le_compat_l; [exact Q|exact F]|]. apply drift_kron; [|exact Hk]. apply H.
  - eapply Rle_trans; [apply Rmult_le_compat_l; [exact Q|exact B]|]. unfold gate_bound. rewrite <- (sqrt_kron n _ Hk). right. ring.
Qed.

Lemma lines_lemma eps n : small_drift eps 2 1 -> forall gs P0 P1 P2 e, 
  (forall g, In g gs -> library_gate eps (fst g) /\ placement n (snd g) /\ (2 ^ List.length (snd g))%nat = u_dim (fst g)) ->
  unitary_mx (2 ^ n) P1 -> unitary_mx (2 ^ n) P2 -> (0 <= e)%R ->
  (fro (2 ^ n) (mminus P0 P1) <= e)%R ->
  exists Q1 Q2, lines_operation n (map (qasm_line py_fmt) gs) P2 = Some Q2 /\ unitary_mx (2 ^ n) Q1 /\ unitary_mx (2 ^ n) Q2 /\
    (fro (2 ^ n) (mminus (fold_left (fun P g => mmul (2 ^ n) (embed n (snd g) (u_mat (fst g))) P) gs P0) Q1) <=
       (1 + e) * (1 + drift_bound eps n 1) ^ List.length gs - 1)%R /\
    (fro (2 ^ n) (mminus Q1 Q2) <= fro (2 ^ n) (mminus P1 P2) + INR (List.length gs) * gate_bound n)%R.
Proof.
  intros H. induction gs as [|g gs IH]; intros P0 P1 P2 e HG U1 U2 He HF.
  - exists P1, P2. split; [reflexivity|]. split; [exact U1|]. split; [exact U2|]. simpl. split; lra.
  - destruct (HG g (or_introl eq_refl)) as (HL & HP & HD).
    destruct (placed_lemma eps n g H HL HP HD) as (M & M' & O & UM & UM' & F1 & F2).
    assert (D0 : (0 <= drift_bound eps n 1)%R) by (eapply Rle_trans; [apply fro_nonneg|exact F1]).
    cbn [map fold_left lines_operation qasm_line]. unfold qasm_line at 1. cbn [fst snd]. rewrite O.
    assert (X := fro_product (2 ^ n) _ _ _ _ _ _ UM U1 F1 HF).
    destruct (IH (mmul (2 ^ n) (embed n (snd g) (u_mat (fst g))) P0) (mmul (2 ^ n) (embed n (snd g) M) P1) (mmul (2 ^ n) (embed n (snd g) M') P2) (drift_bound eps n 1 + e + drift_bound eps n 1 * e)%R
       (fun g' Hg' => HG g' (or_intror Hg')) (unitary_mmul _ _ _ UM U1) (unitary_mmul _ _ _ UM' U2) ltac:(nra) X) as (Q1 & Q2 & E & V1 & V2 & G1 & G2).
    exists Q1, Q2. split; [exact E|]. split; [exact V1|]. split; [exact V2|]. split.
    + eapply Rle_trans; [exact G1|]. cbn [List.length pow]. right. ring.
    + eapply Rle_trans; [exact G2|]. cbn [List.length]. rewrite S_INR.
      assert (Y : (fro (2 ^ n) (mminus (mmul (2 ^ n) (embed n (snd g) M) P1) (mmul (2 ^ n) (embed n (snd g) M') P2)) <=
                   fro (2 ^ n) (mminus P1 P2) + gate_bound n)%R).
      { eapply Rle_trans; [apply fro_minus_triangle with (B := mmul (2 ^ n) (embed n (snd g) M) P2)|].
        apply Rplus_le_compat.
        - right. rewrite <- mmul_mminus_r. now apply fro_unitary_l.
        - rewrite <- mmul_mminus_l. rewrite fro_unitary_r by exact U2. exact F2. }
      lra.
Qed.

Lemma operation_lemma : forall eps n gs, small_drift eps 2 1 ->
  (forall g, In g gs -> library_gate eps (fst g) /\ placement n (snd g) /\ (2 ^ List.length (snd g))%nat = u_dim (fst g)) ->
  exists Q, lines_operation n (map (qasm_line py_fmt) gs) mid = Some Q /\ unitary_mx (2 ^ n) Q /\
    (fro (2 ^ n) (mminus (ordered n gs) Q) <= sqrt (INR (2 ^ n)) * print_bound (List.length gs) + store_bound eps n (List.length gs))%R.
Proof.
  intros eps n gs H HG.
  destruct (lines_lemma eps n H gs mid mid mid 0 HG (unitary_mid _) (unitary_mid _) ltac:(lra)) as (Q1 & Q2 & E & V1 & V2 & G1 & G2).
  { rewrite fro_minus_self by reflexivity. lra. }
  exists Q2. split; [exact E|]. split; [exact V2|]. rewrite (fro_minus_self _ mid mid) in G2 by reflexivity.
  eapply Rle_trans; [apply (fro_minus_triangle _ _ Q1)|]. unfold ordered, print_bound, store_bound. unfold gate_bound in G2. lra.
Qed.

(** ** Texts *)
Lemma text_lemma : forall eps K w s n, drift_world eps K w -> has_dim w s (2 ^ n) -> small_drift eps n K -> small_drift eps 2 1 ->
  (forall g, In g (contents w s) -> library_gate eps (fst g)) ->
  let L := List.length (contents w s) in
  exists t Q, snd (on_seq s (get_qasm py_fmt eps) w) = Ok t /\ text_operation n t = Some Q /\ unitary_mx (2 ^ n) Q /\
    (fro (2 ^ n) (mminus (ordered n (contents w s)) Q) <= sqrt (INR (2 ^ n)) * print_bound L + store_bound eps n L)%R.
Proof.
  intros eps K w s n HX HD SD S2 HG L. assert (HE := proj1 SD). assert (HW := drift_winv eps K w HE HX).
  destruct (drift_small _ _ _ SD) as [Lm _].
  assert (L6 : lim eps n (unit_cost false * K)).
  { eapply lim_mono; [exact (proj1 HE)|exact (proj2 HE)| |exact Lm]. unfold unit_cost, gc. lia. }
  destruct (winv_answers eps (proj1 HE) (proj2 HE) false K w s n HW HD (or_introl L6)) as (_ & _ & _ & HP & _).
  destruct HX as (os & -> & _ & _).
  destruct (text_exists eps (exec eps os w_empty) s (2 ^ n) "# QASM generated from UnitarySequence.get_qasm()" (u_get_qasm py_fmt) (W_exec eps os) HD
    (winv_full eps false K _ s n HE HW HD (or_introl L6))) as (t & Et).
  destruct (operation_lemma eps n (contents (exec eps os w_empty) s) S2) as (Q & EQ & UQ & FQ).
  { intros g Hg. split; [now apply HG|]. destruct (HP g Hg) as [(_ & _ & _ & D & _) P]. now split. }
  exists t, Q. split; [exact Et|]. split; [|split; [exact UQ|exact FQ]].
  unfold text_operation. destruct (C51_read_back_lemma py_fmt eps os s t py_fmt_numeral) as (R & _).
  { intros g Hg. destruct (library_lemma eps _ S2 (HG g Hg)) as (? & ? & ? & _ & _ & _ & _ & _ & _ & P). exact P. }
  rewrite (R Et). exact EQ.
Qed.

(** ** Costs *)
Lemma trace_fro d A : (Cmod (mtrace d A) <= sqrt (INR d) * fro d A)%R.
Proof.
  unfold mtrace. assert (C := csum_cauchy d (fun _ => 1) (fun i => A i i)). cbv beta in C.
  assert (E : csum d (fun i => 1 * A i i) = csum d (fun i => A i i)) by (apply csum_ext; intros; ring). rewrite E in C.
  eapply Rle_trans; [exact C|]. apply Rmult_le_compat; try apply sqrt_pos.
  - right. unfold vnorm, vnorm2. f_equal. rewrite <- (Rmult_1_r (INR d)). rewrite <- rsum_const. apply rsum_ext. intros. rewrite Cmod_1. ring.
  - unfold vnorm, fro. apply sqrt_le_1_alt. unfold fro2, vnorm2. apply rsum_le. intros i Hi.
    apply (rsum_term_le d (fun j => (Cmod (A i j) ^ 2)%R) i); [|exact Hi]. intros. apply pow2_ge_0.
Qed.

Lemma overlap_gap d T A B : (0 < d)%nat -> unitary_mx d T ->
  (sqrt (INR d) * Rabs (overlap d T A - overlap d T B) <= fro d (mminus A B))%R.
Proof.
  intros Hd HT. assert (D0 : (0 < INR d)%R) by (apply lt_0_INR; lia). unfold overlap.
  set (a := mtrace d (mmul d (adj T) A)). set (b := mtrace d (mmul d (adj T) B)).
  assert (E : a - b = mtrace d (mmul d (adj T) (mminus A B))).
  { unfold a, b, mtrace. rewrite <- csum_minus. apply csum_ext. intros i Hi. rewrite (mmul_mminus_r d (adj T) A B i i Hi Hi). reflexivity. }
  assert (F := trace_fro d (mmul d (adj T) (mminus A B))). rewrite <- E in F. rewrite fro_unitary_l in F by now apply unitary_adj.
  assert (R : (Rabs (Cmod a - Cmod b) <= Cmod (a - b))%R).
  { apply Rabs_le. assert (X := Cmod_triangle (a - b) b). assert (Y := Cmod_triangle (b - a) a).
    replace (a - b + b) with a in X by ring. replace (b - a + a) with b in Y by ring.
    replace (b - a) with (- (a - b)) in Y by ring. rewrite Cmod_opp in Y. lra. }
  replace (Cmod a / INR d - Cmod b / INR d)%R with ((Cmod a - Cmod b) * / INR d)%R by (field; lra).
  rewrite Rabs_mult, (Rabs_pos_eq (/ INR d)) by (left; now apply Rinv_0_lt_compat).
  assert (S : (sqrt (INR d) * sqrt (INR d) = INR d)%R) by (apply sqrt_sqrt; lra).
  assert (S0 : (0 < sqrt (INR d))%R) by now apply sqrt_lt_R0.
  apply Rle_trans with (sqrt (INR d) * (sqrt (INR d) * fro d (mminus A B) * / INR d))%R.
  - apply Rmult_le_compat_l; [lra|]. apply Rmult_le_compat_r; [left; now apply Rinv_0_lt_compat|]. lra.
  - right. transitivity ((sqrt (INR d) * sqrt (INR d)) * fro d (mminus A B) * / INR d)%R; [ring|]. rewrite S. field. lra.
Qed.
