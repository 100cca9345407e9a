(** The times in the random part of compile_rav_sequence(): moments, and the chance that it ends. *)
From Coq Require Import Reals List Arith Lia Lra Bool ZArith String Permutation ClassicalEpsilon.
From Coquelicot Require Import Coquelicot.
From Verif Require Import Base CMat ModelUnitary ModelEntry ModelPrimitive ModelGates ModelHamiltonian
  ModelSequence ModelCompiler ModelVerification Spec SpecModel SpecCompiler SpecGates SpecHamiltonian PCompCases PDrift PUnitary PUnitaryProps PCompRun PHamRun PHamTrot PHamSub PHamStoq PHamRav SpecChain PChain
  SpecFloor PFloor PFloorMain PFloorEx PFloorStoq.
Import ListNotations.
Open Scope R_scope.
Set Bullet Behavior "Strict Subproofs".

(** * Sums of independent terms, three draws each *)
Section Sums.
Variable X : rng -> nat -> R.
Variables mu s2 : R.
Hypothesis HX : forall r f h A B D,
  (forall h' x, List.length h' = (List.length h + 3)%nat -> (forall g, tells g r h' -> tells g r h /\ X g (r + List.length h)%nat = x) ->
     average r f h' (A + B * x + D * (x * x))) -> average r f h (A + B * mu + D * s2).

Fixpoint sums (g : rng) (d k : nat) : R := match k with O => 0 | Datatypes.S k => X g d + sums g (d + 3) k end.

Lemma moments k : forall r h a b c, average r (fun g => a + b * sums g (r + List.length h) k + c * (sums g (r + List.length h) k * sums g (r + List.length h) k)) h
  (a + b * (INR k * mu) + c * (INR k * (s2 - mu * mu) + (INR k * mu) * (INR k * mu))).
Proof.
  assert (X0 : forall r h k f a b c, (forall g, rng_ok g -> tells g r h -> f g = a + b * sums g (r + List.length h) k + c * (sums g (r + List.length h) k * sums g (r + List.length h) k)) ->
     average r f h (a + b * (INR k * mu) + c * (INR k * (s2 - mu * mu) + (INR k * mu) * (INR k * mu)))).
  { clear k. intros r h k. revert h. induction k as [|k IH]; intros h f a b c E.
    - apply average_known. intros g G T. rewrite E by auto. cbn [sums]. simpl. ring.
    - set (m := INR k * mu). set (q := INR k * (s2 - mu * mu) + INR k * mu * (INR k * mu)).
      replace (a + b * (INR (Datatypes.S k) * mu) + c * (INR (Datatypes.S k) * (s2 - mu * mu) + INR (Datatypes.S k) * mu * (INR (Datatypes.S k) * mu)))
        with ((a + b * m + c * q) + (b + 2 * c * m) * mu + c * s2) by (rewrite S_INR; unfold m, q; ring).
      apply HX. intros h' x L T.
      replace (a + b * m + c * q + (b + 2 * c * m) * x + c * (x * x)) with ((a + b * x + c * (x * x)) + (b + 2 * c * x) * m + c * q) by ring.
      apply IH. intros g G Tg. destruct (T g Tg) as [T0 TX]. rewrite E by auto. cbn [sums]. rewrite TX, L, Nat.add_assoc. ring. }
  intros r h a b c. apply X0. reflexivity.
Qed.

Lemma mean_sum k r : average r (fun g => sums g r k) [] (INR k * mu).
Proof.
  assert (M := moments k r [] 0 1 0). cbn [List.length] in M. rewrite Nat.add_0_r in M.
  replace (0 + 1 * (INR k * mu) + 0 * (INR k * (s2 - mu * mu) + INR k * mu * (INR k * mu))) with (INR k * mu) in M by ring.
  apply (average_ext_tells _ _ _ _ M). intros; ring.
Qed.

(** Chebyshev's inequality. *)
Lemma above k r x : x < INR k * mu ->
  chance_at_least r (fun g => x <= sums g r k) (1 - INR k * (s2 - mu * mu) / ((INR k * mu - x) * (INR k * mu - x))).
Proof.
  intros H. set (m := INR k * mu) in *. set (e := m - x). assert (He : 0 < e) by (unfold e; lra). assert (P : 0 < e * e) by nra.
  exists (fun g => 1 - (sums g r k - m) * (sums g r k - m) / (e * e)). exists (1 - INR k * (s2 - mu * mu) / (e * e)). split; [|split; [|fold e; lra]].
  - intros g G. destruct (Rle_dec x (sums g r k)) as [Y|N].
    + rewrite ind_true by exact Y. assert (0 <= (sums g r k - m) * (sums g r k - m) / (e * e)); [|lra].
      apply Rle_mult_inv_pos; auto. apply Rle_0_sqr.
    + rewrite ind_false by exact N. assert (1 <= (sums g r k - m) * (sums g r k - m) / (e * e)); [|lra].
      apply (Rmult_le_reg_r (e * e)); auto. unfold Rdiv. rewrite Rmult_assoc, Rinv_l, Rmult_1_l, Rmult_1_r by lra. unfold e in *. nra.
  - assert (M := moments k r [] (1 - m * m / (e * e)) (2 * m / (e * e)) (- / (e * e))). cbn [List.length] in M. rewrite Nat.add_0_r in M.
    fold m in M. match type of M with average _ _ _ ?v => replace v with (1 - INR k * (s2 - mu * mu) / (e * e)) in M by (field; lra) end.
    apply (average_ext_tells _ _ _ _ M). intros g _. field. lra.
Qed.
End Sums.

(** * One step *)
Lemma tells_three g r h x y z : tells g r (h ++ [(QUnif, AReal x); (QUnif, AReal y); (QUnif, AReal z)]) ->
  tells g r h /\ g_unif g (r + List.length h) = x /\ g_unif g (r + List.length h + 1) = y.
Proof.
  intros T. change (h ++ [(QUnif, AReal x); (QUnif, AReal y); (QUnif, AReal z)]) with (h ++ [(QUnif, AReal x)] ++ [(QUnif, AReal y)] ++ [(QUnif, AReal z)]) in T.
  rewrite 2 app_assoc in T. apply tells_snoc in T. destruct T as [T _]. apply tells_snoc in T. destruct T as [T Ty]. apply tells_snoc in T. destruct T as [T Tx].
  split; auto. split; [exact Tx|]. rewrite app_length in Ty. cbn [List.length] in Ty. now rewrite Nat.add_assoc in Ty.
Qed.

Lemma quad_RInt A B D T : is_RInt (fun x => A + B * (T * x) + D * ((T * x) * (T * x))) 0 1 (A + B * (T / 2) + D * (T * T / 3)).
Proof.
  set (P := fun x : R => A * x + B * T * (x * x) / 2 + D * (T * T) * (x * x * x) / 3).
  assert (H := @is_RInt_derive R_CompleteNormedModule P (fun x => A + B * (T * x) + D * ((T * x) * (T * x))) 0 1).
  replace (A + B * (T / 2) + D * (T * T / 3)) with (P 1 - P 0) by (unfold P; field). apply H.
  - intros x _. unfold P. auto_derive; [exact I|field].
  - intros x _. apply (@ex_derive_continuous R_AbsRing R_NormedModule). auto_derive; auto.
Qed.

Definition sgn (y : R) : R := if Rlt_dec y (8 / 10) then 1 else -1.

Lemma sgn_RInt P Q : is_RInt (fun y => P + Q * sgn y) 0 1 (P + Q * (6 / 10)).
Proof.
  replace (P + Q * (6 / 10)) with (plus (scal (8 / 10 - 0) (P + Q)) (scal (1 - 8 / 10) (P - Q))) by (unfold plus, scal; simpl; unfold mult; simpl; field).
  apply (@is_RInt_Chasles R_NormedModule _ 0 (8 / 10) 1).
  - apply (is_RInt_ext (fun _ => P + Q)); [|apply (@is_RInt_const R_NormedModule)]. intros y. rewrite Rmin_left, Rmax_right by lra. intros Hy. unfold sgn.
    destruct (Rlt_dec y (8 / 10)); [change (P + Q = P + Q * 1 :> R); ring|lra].
  - apply (is_RInt_ext (fun _ => P - Q)); [|apply (@is_RInt_const R_NormedModule)]. intros y. rewrite Rmin_left, Rmax_right by lra. intros Hy. unfold sgn.
    destruct (Rlt_dec y (8 / 10)); [lra|change (P - Q = P + Q * -1 :> R); ring].
Qed.

Lemma three (X : rng -> nat -> R) (X' : R -> R -> R) r f h A B D m1 m2 : (forall g d, X g d = X' (g_unif g d) (g_unif g (d + 1))) ->
  (exists F, (forall x, 0 <= x < 1 -> is_RInt (fun y => A + B * X' x y + D * (X' x y * X' x y)) 0 1 (F x)) /\ is_RInt F 0 1 (A + B * m1 + D * m2)) ->
  (forall h' x, List.length h' = (List.length h + 3)%nat -> (forall g, tells g r h' -> tells g r h /\ X g (r + List.length h)%nat = x) ->
     average r f h' (A + B * x + D * (x * x))) -> average r f h (A + B * m1 + D * m2).
Proof.
  intros E (F & HF & HM) K. apply average_ask with (q := QUnif) (F := fun a => match a with AReal x => F x | _ => 0 end); [|exact HM].
  intros [x| |] Px; try contradiction. apply average_ask with (q := QUnif) (F := fun a => match a with AReal y => A + B * X' x y + D * (X' x y * X' x y) | _ => 0 end); [|apply HF; exact Px].
  intros [y| |] Py; try contradiction. apply average_ask with (q := QUnif) (F := fun _ => A + B * X' x y + D * (X' x y * X' x y)); [|apply const_RInt].
  intros [z| |] Pz; try contradiction. rewrite <- !app_assoc. cbn [app]. apply K.
  - rewrite app_length. reflexivity.
  - intros g T. apply tells_three in T. destruct T as (T & Tx & Ty). split; auto. rewrite E. now rewrite Tx, Ty.
Qed.

Lemma length_moments T r f h A B D : 0 <= T ->
  (forall h' x, List.length h' = (List.length h + 3)%nat -> (forall g, tells g r h' -> tells g r h /\ Rabs (rav_time g T (r + List.length h) 0) = x) ->
     average r f h' (A + B * x + D * (x * x))) -> average r f h (A + B * (T / 2) + D * (T * T / 3)).
Proof.
  intros HT K. apply (three (fun g d => Rabs (T * g_unif g d)) (fun x y => Rabs (T * x))); [reflexivity| |].
  - exists (fun x => A + B * (T * x) + D * ((T * x) * (T * x))). split; [|apply quad_RInt].
    intros x Hx. rewrite Rabs_pos_eq by (apply Rmult_le_pos; lra). apply const_RInt.
  - intros h' x L Tl. apply K; auto. intros g Tg. destruct (Tl g Tg) as [T0 E]. split; auto. rewrite <- E. unfold rav_time.
    rewrite Nat.mul_0_r, Nat.add_0_r. destruct (Rlt_dec _ _); [f_equal; ring|].
    rewrite <- Rabs_Ropp. f_equal. ring.
Qed.

Lemma signed_moments T r f h A B D : 0 <= T ->
  (forall h' x, List.length h' = (List.length h + 3)%nat -> (forall g, tells g r h' -> tells g r h /\ rav_time g T (r + List.length h) 0 = x) ->
     average r f h' (A + B * x + D * (x * x))) -> average r f h (A + B * (3 / 10 * T) + D * (T * T / 3)).
Proof.
  intros HT K. apply (three (fun g d => T * g_unif g d * sgn (g_unif g (d + 1))) (fun x y => T * x * sgn y)); [reflexivity| |].
  - exists (fun x => A + (6 / 10 * B) * (T * x) + D * ((T * x) * (T * x))). split.
    + intros x Hx. apply (is_RInt_ext (fun y => (A + D * ((T * x) * (T * x))) + B * (T * x) * sgn y)).
      * intros y _. unfold sgn. match goal with |- @eq _ ?a ?b => change (@eq R a b) end. destruct (Rlt_dec _ _); ring.
      * replace (A + 6 / 10 * B * (T * x) + D * (T * x * (T * x))) with (A + D * (T * x * (T * x)) + B * (T * x) * (6 / 10)) by field. apply sgn_RInt.
    + replace (A + B * (3 / 10 * T) + D * (T * T / 3)) with (A + 6 / 10 * B * (T / 2) + D * (T * T / 3)) by field. apply quad_RInt.
  - intros h' x L Tl. apply K; auto. intros g Tg. destruct (Tl g Tg) as [T0 E]. split; auto. rewrite <- E. unfold rav_time, sgn.
    now rewrite Nat.mul_0_r, Nat.add_0_r.
Qed.
Lemma elapsed_sums g T d k : rav_elapsed g T d k = sums (fun g d => Rabs (rav_time g T d 0)) g d k.
Proof.
  revert d. induction k as [|k IH]; intros d; [reflexivity|]. cbn [sums]. rewrite rav_elapsed_first. f_equal. apply IH.
Qed.

Lemma time_sums g T d k : fold_right Rplus 0 (map (rav_time g T d) (seq 0 k)) = sums (fun g d => rav_time g T d 0) g d k.
Proof.
  revert d. induction k as [|k IH]; intros d; [reflexivity|]. cbn [sums seq map fold_right]. f_equal. rewrite <- IH.
  rewrite <- seq_shift, map_map. f_equal. apply map_ext. intros j. unfold rav_time.
  replace (d + 3 * Datatypes.S j)%nat with (d + 3 + 3 * j)%nat by lia. reflexivity.
Qed.

(** * The statements *)
Lemma elapsed_chance T k time r : 0 <= T -> time < INR k * (T / 2) ->
  chance_at_least r (fun g => time <= rav_elapsed g T r k) (1 - INR k * (T * T / 12) / ((INR k * (T / 2) - time) * (INR k * (T / 2) - time))).
Proof.
  intros HT H.
  assert (X := above (fun g d => Rabs (rav_time g T d 0)) (T / 2) (T * T / 3) (fun r f h A B D => length_moments T r f h A B D HT) k r time H).
  replace (T * T / 3 - T / 2 * (T / 2)) with (T * T / 12) in X by field. revert X. apply chance_event. intros g _. now rewrite elapsed_sums.
Qed.

Lemma C101_returns_lemma : forall n Ms h time T thr simultaneous fuel k st,
  (1 <= n)%nat -> hamiltonian_of (2 ^ n) Ms h -> exact_world (r_world st) -> 0 < T -> (k <= fuel)%nat -> time < INR k * (T / 2) ->
  chance_at_least (r_draws st) (fun g => exists st' s costs ls rand comp,
      compile_rav_sequence 0 g fuel h time T thr simultaneous st = (st', Ok (s, costs)) /\
      contents (r_world st') s = rand ++ comp /\ term_subsets (List.length Ms) simultaneous ls /\
      Forall2 (fun j gt => subset_gate 0 n Ms (rav_subset g ls (r_draws st) j) (rav_time g T (r_draws st) j) gt) (seq 0 (List.length rand)) rand /\
      List.Forall (stoq_gate 0 n Ms T simultaneous) comp /\ time <= INR (List.length rand) * T /\ (List.length rand <= k)%nat)
    (1 - INR k * (T * T / 12) / ((INR k * (T / 2) - time) * (INR k * (T / 2) - time))).
Proof.
  intros n Ms h time T thr b fuel k st N1 HH HX HT Hk H.
  assert (X := elapsed_chance T k time (r_draws st) ltac:(lra) H). revert X. apply chance_event. intros g G E.
  destruct (proj1 (C45_run_lemma g n Ms h time T thr b fuel st G N1 HH HX ltac:(lra)) (ex_intro _ k (conj Hk E))) as (st' & s & costs & ER).
  assert (HR : reachable 0 (r_world st)) by (destruct HX as (os & -> & _); now exists os).
  destruct (C45_lemma g 0 n Ms h time T thr b fuel st st' s costs G N1 (small_drift_0 n 1) HH HR ER) as (ls & k' & rand & comp & TS & _ & EC & F & HB & T1 & T2 & _ & FC & _).
  assert (L : List.length rand = k') by (rewrite <- (F2_length _ _ _ F); apply seq_length).
  exists st', s, costs, ls, rand, comp. rewrite L. repeat (split; [assumption|]). split.
  - eapply Rle_trans; [exact T1|]. clear - G HT. induction k' as [|k IH]; [rewrite rav_elapsed_0; simpl; lra|].
    rewrite rav_elapsed_last, S_INR. assert (X := rav_time_strict g T (r_draws st) k G HT). lra.
  - destruct (Nat.le_gt_cases k' k) as [Y|N]; auto. specialize (T2 k N). lra.
Qed.

Lemma C101_limit_lemma : forall n Ms h time T thr simultaneous delta,
  (1 <= n)%nat -> hamiltonian_of (2 ^ n) Ms h -> 0 < T -> 0 < delta -> exists N, forall fuel st, (N <= fuel)%nat -> exact_world (r_world st) ->
  chance_at_least (r_draws st) (fun g => exists st' s costs, compile_rav_sequence 0 g fuel h time T thr simultaneous st = (st', Ok (s, costs))) (1 - delta).
Proof.
  intros n Ms h time T thr b delta N1 HH HT Hd.
  destruct (nat_above (Rmax (4 * time / T) (4 / (3 * delta)))) as (N & HN). assert (H1 := Rmax_l (4 * time / T) (4 / (3 * delta))). assert (H2 := Rmax_r (4 * time / T) (4 / (3 * delta))).
  exists (Datatypes.S N). intros fuel st Hf HX. set (K := INR fuel). assert (HK : INR N < K) by (apply lt_INR; lia).
  assert (A1 : 4 * time <= K * T) by (assert (H : 4 * time / T < K) by lra; apply Rlt_div_l in H; lra).
  assert (A2 : 4 < K * (3 * delta)) by (assert (H : 4 / (3 * delta) < K) by lra; apply Rlt_div_l in H; lra).
  assert (KP : 0 < K) by (apply lt_0_INR; lia). assert (KT : 0 < K * T) by (now apply Rmult_lt_0_compat).
  apply chance_lower with (p := 1 - K * (T * T / 12) / ((K * (T / 2) - time) * (K * (T / 2) - time))).
  - assert (E : K * T / 4 <= K * (T / 2) - time) by lra. set (e := K * (T / 2) - time) in *.
    assert (P : 0 < e * e) by nra. assert (Q : K * T / 4 * (K * T / 4) <= e * e) by (apply Rmult_le_compat; lra).
    assert (K * (T * T / 12) / (e * e) <= delta); [|lra]. apply Rle_div_l; auto.
    apply Rle_trans with (delta * (K * T / 4 * (K * T / 4))); [|apply Rmult_le_compat_l; lra].
    replace (delta * (K * T / 4 * (K * T / 4))) with (K * (3 * delta) * (K * (T * T) / 48)) by field.
    assert (0 < K * (T * T) / 48) by (apply Rdiv_lt_0_compat; [apply Rmult_lt_0_compat; nra|lra]). nra.
  - apply chance_event with (E := fun g => exists st' s costs ls rand comp,
      compile_rav_sequence 0 g fuel h time T thr b st = (st', Ok (s, costs)) /\
      contents (r_world st') s = rand ++ comp /\ term_subsets (List.length Ms) b ls /\
      Forall2 (fun j gt => subset_gate 0 n Ms (rav_subset g ls (r_draws st) j) (rav_time g T (r_draws st) j) gt) (seq 0 (List.length rand)) rand /\
      List.Forall (stoq_gate 0 n Ms T b) comp /\ time <= INR (List.length rand) * T /\ (List.length rand <= fuel)%nat).
    + intros g _ (st' & s & costs & _ & _ & _ & E & _). eauto.
    + apply C101_returns_lemma; auto. fold K. lra.
Qed.

Lemma C101_always_refuted_lemma : forall n Ms h time T thr simultaneous st,
  (1 <= n)%nat -> hamiltonian_of (2 ^ n) Ms h -> exact_world (r_world st) -> 0 <= T -> 0 < time ->
  exists g, rng_ok g /\ forall fuel, exists st', compile_rav_sequence 0 g fuel h time T thr simultaneous st = (st', Raise OutOfFuel).
Proof.
  intros n Ms h time T thr b st N1 HH HX HT Ht. exists (const_rng 0 0). assert (G : rng_ok (const_rng 0 0)) by (apply const_rng_ok; lra).
  split; auto. intros fuel. apply (C45_run_lemma _ n Ms h time T thr b fuel st G N1 HH HX HT). intros k _.
  replace (rav_elapsed (const_rng 0 0) T (r_draws st) k) with 0; auto. induction k as [|k IH]; [symmetry; apply rav_elapsed_0|].
  rewrite rav_elapsed_last, <- IH. rewrite rav_time_abs by auto. cbn. ring.
Qed.

Lemma C101_forward_mean_lemma : forall T k r, 0 <= T ->
  average r (fun g => fold_right Rplus 0 (map (rav_time g T r) (seq 0 k))) [] (3 / 10 * (INR k * T)).
Proof.
  intros T k r HT.
  assert (X := mean_sum (fun g d => rav_time g T d 0) (3 / 10 * T) (T * T / 3) (fun r f h A B D => signed_moments T r f h A B D HT) k r).
  replace (3 / 10 * (INR k * T)) with (INR k * (3 / 10 * T)) by ring. apply (average_ext_tells _ _ _ _ X). intros g _. apply time_sums.
Qed.

Lemma C101_forward_lemma : forall T k r x, 0 <= T -> x < 3 / 10 * (INR k * T) ->
  chance_at_least r (fun g => x <= fold_right Rplus 0 (map (rav_time g T r) (seq 0 k)))
    (1 - INR k * (73 / 300 * (T * T)) / ((3 / 10 * (INR k * T) - x) * (3 / 10 * (INR k * T) - x))).
Proof.
  intros T k r x HT H. replace (3 / 10 * (INR k * T)) with (INR k * (3 / 10 * T)) in * by ring.
  assert (X := above (fun g d => rav_time g T d 0) (3 / 10 * T) (T * T / 3) (fun r f h A B D => signed_moments T r f h A B D HT) k r x H).
  replace (T * T / 3 - 3 / 10 * T * (3 / 10 * T)) with (73 / 300 * (T * T)) in X by field. revert X. apply chance_event. intros g _. now rewrite time_sums.
Qed.
Lemma C101_elapsed_mean_lemma : forall T k r, 0 <= T -> average r (fun g => rav_elapsed g T r k) [] (INR k * T / 2).
Proof.
  intros T k r HT.
  assert (X := mean_sum (fun g d => Rabs (rav_time g T d 0)) (T / 2) (T * T / 3) (fun r f h A B D => length_moments T r f h A B D HT) k r).
  replace (INR k * T / 2) with (INR k * (T / 2)) by field. apply (average_ext_tells _ _ _ _ X). intros g _. apply elapsed_sums.
Qed.
