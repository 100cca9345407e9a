(** QDRIFT sequences: C43; sequences without steps. *)
From Coq Require Import Reals List Arith Bool String ZArith Lra Lia Permutation.
From Coquelicot Require Import Coquelicot.
From Verif Require PBits.
From Verif Require Import Base CMat CMatFacts Det DetFacts Norms CRoot Expm ExpmFacts ExpmBounds ModelUnitary ModelEntry
  ModelPrimitive ModelSequence ModelCompiler ModelVerification ModelGates ModelHamiltonian Spec SpecModel
  SpecCompiler SpecGates SpecHamiltonian PUnitary PDrift PEmbed PEntry PSeqHeap PSeqMeth PSeqNear PSeqWorld PSeqUndo
  PCompView PCompRun PCompEntry PCompProps PSeqInv PVerify PGates PHam PHamTerm PHamSeq PHamRun PHamTrot.
Import ListNotations.
Open Scope R_scope.
Open Scope C_scope.
Open Scope res_scope.
Open Scope se_scope.

(** * The selected index *)
Lemma sumR_div l a : sumR (map (fun c => (c / a)%R) l) = (sumR l / a)%R.
Proof.
  rewrite !sumR_fold. induction l as [|x l IH]; simpl; [unfold Rdiv; ring|]. rewrite IH. unfold Rdiv. ring.
Qed.
Lemma sumR_pos l : l <> [] -> (forall x, In x l -> (0 < x)%R) -> (0 < sumR l)%R.
Proof.
  intros NE H. rewrite sumR_fold. destruct l as [|x l]; [congruence|]. simpl.
  assert (0 < x)%R by (apply H; simpl; auto).
  assert (0 <= fold_right Rplus 0 l)%R.
  { assert (K : forall y, In y l -> (0 < y)%R) by (intros; apply H; simpl; auto). clear - K.
    induction l as [|y l IH]; simpl; [lra|]. assert (0 < y)%R by (apply K; simpl; auto).
    assert (0 <= fold_right Rplus 0 l)%R by (apply IH; intros; apply K; simpl; auto). lra. }
  lra.
Qed.

Lemma choice_selected g cs st : rng_ok g -> cs <> [] -> (forall c, In c cs -> (0 < c)%R) ->
  exists k, choice_p g (List.length cs) (map (fun c => (c / sumR cs)%R) cs) st =
      ({| r_world := r_world st; r_draws := S (r_draws st) |}, Ok k) /\
    selected cs (g_unif g (r_draws st)) k.
Proof.
  intros RG NE P. assert (SP := sumR_pos cs NE P).
  set (p := map (fun c => (c / sumR cs)%R) cs).
  assert (S1 : sumR p = 1%R) by (unfold p; rewrite sumR_div; field; lra).
  destruct (choice_p_good g (List.length cs) p st RG) as (k & E & K1 & K2 & K3).
  - destruct cs; [congruence|simpl; lia].
  - split; [unfold p; now rewrite map_length|]. split.
    + intros x Hx. apply in_map_iff in Hx. destruct Hx as (c & <- & Hc). apply P in Hc.
      apply Rlt_le, Rdiv_lt_0_compat; lra.
    + rewrite <- sumR_fold, S1, Rminus_diag_eq by reflexivity. rewrite Rabs_R0.
      apply Rlt_le, Rinv_0_lt_compat, pow_lt. lra.
  - exists k. split; [exact E|]. split; [exact K1|]. rewrite S1, Rmult_1_r in K2, K3.
    unfold p in K2, K3. rewrite firstn_map, sumR_div in K2, K3.
    unfold weight_below. rewrite <- !sumR_fold. split; [exact K2|exact K3].
Qed.

Lemma coefficients_norms d Ms ts : Forall2 (term_of d) Ms ts -> forall cs, Forall2 (operator_norm d) Ms cs ->
  cs = map t_coeff ts.
Proof.
  induction 1 as [|M x Ms ts H _ IH]; intros cs F; inversion F; subst; [reflexivity|].
  cbn [map]. f_equal; [|auto]. eapply operator_norm_unique; [eassumption|]. apply H.
Qed.

(** * C43 *)
Definition qd_gate (eps : R) (g : rng) (n : nat) (Ms : list mat) (cs : list R) (dt : R) (j : nat) (u : unitary) : Prop :=
  u_dim u = (2 ^ n)%nat /\
  exists k M c b, nth_error Ms k = Some M /\ nth_error cs k = Some c /\
    selected cs (g_unif g j) k /\ Cmod b = 1%R /\
    stands eps n u (mscale b (ev (2 ^ n) (mscale (RtoC (/ c)) M) dt)) /\
    labelled (Ok u) ("H" ++ str_nat k ++ " λ/N") [("t"%string, (dt, false))].

Lemma qdrift_builds g eps n Ms h dt N : rng_ok g -> (1 <= n)%nat -> (0 <= eps)%R -> lim eps n 1 ->
  hamiltonian_of (2 ^ n) Ms h -> forall st, WG eps anyg (r_world st) ->
  let cs := coefficients h in
  exists us, Forall2 (qd_gate eps g n Ms cs dt) (seq (r_draws st) N) us /\
    builds eps n st (qdrift_entries eps g h (map (fun c => (c / sumR cs)%R) cs) dt N st)
      (r_draws st + N)%nat us.
Proof.
  intros RG N1 E0 L HH. destruct (ham_facts _ _ _ HH) as (_ & D & NE & F).
  assert (LT := F2_length _ _ _ F).
  assert (CP : forall c, In c (coefficients h) -> (0 < c)%R).
  { unfold coefficients. clear - F. intros c Hc. apply in_map_iff in Hc. destruct Hc as (x & <- & Hx).
    induction F as [|M y Ms ts H F IH]; [destruct Hx|]. destruct Hx as [<-|Hx]; [apply H|auto]. }
  assert (CN : coefficients h <> []).
  { intros X. apply (f_equal (@List.length R)) in X. unfold coefficients in X. rewrite map_length in X.
    destruct Ms; [congruence|]. simpl in *. lia. }
  intros st HW cs. revert st HW. induction N as [|N IH]; intros st HW.
  - exists []. split; [constructor|]. rewrite Nat.add_0_r. apply builds_nil.
  - destruct (choice_selected g (coefficients h) st RG CN CP) as (k & Ek & Sk).
    fold cs in Ek, Sk.
    assert (LC : List.length cs = List.length (h_terms h)) by (unfold cs, coefficients; now rewrite map_length).
    assert (Hk : (k < List.length (h_terms h))%nat) by (rewrite <- LC; apply Sk).
    destruct (nth_error (h_terms h) k) as [x|] eqn:Ex; [|apply nth_error_None in Ex; lia].
    destruct (nth_error Ms k) as [M|] eqn:EM; [|apply nth_error_None in EM; lia].
    assert (TX : term_of (2 ^ n) M x).
    { clear - F Ex EM. revert k Ex EM. induction F as [|a b la lb H F IH]; intros [|k] Ex EM; try discriminate.
      - injection Ex as <-. injection EM as <-. exact H.
      - eapply IH; eauto. }
    destruct TX as (HM & _ & _ & CX & _ & TN).
    assert (HNM : hermitian_mx (2 ^ n) (mscale (RtoC (/ t_coeff x)) M)).
    { intros i j Hi Hj. unfold adj, mscale. rewrite Cconj_mult, Cconj_R. f_equal. now apply HM. }
    destruct (te_stands eps n (t_norm x) (mscale (RtoC (/ t_coeff x)) M) dt (str_nat k ++ " λ/N") E0 L HNM)
      as (u & b & Eu & Hb & Su & Du & Lb).
    { rewrite TN. reflexivity. }
    set (st1 := {| r_world := r_world st; r_draws := S (r_draws st) |}) in *.
    destruct (entry_all eps n N1 st1 u HW Du) as (st2 & l & E2 & D2 & G2 & HG).
    destruct (IH st2 (grows_W _ _ _ G2 HW)) as (us & FU & (st3 & ls & E3 & D3 & G3 & F3)).
    exists (u :: us). split.
    + cbn [seq]. constructor.
      * split; [exact Du|]. exists k, M, (t_coeff x), b. split; [exact EM|]. split.
        { unfold cs, coefficients. now apply map_nth_error. }
        split; [exact Sk|]. split; [exact Hb|]. split; [exact Su|]. exists u. split; [reflexivity|exact Lb].
      * rewrite D2 in FU. exact FU.
    + exists st3, (l :: ls). split; [|split; [|split]].
      * cbn [qdrift_entries]. rewrite <- LC. rewrite (bind_eq _ _ _ _ _ Ek). rewrite Ex.
        unfold se_bind at 1, se_lift. rewrite D, Eu. rewrite (all_qubits_n h n D).
        rewrite (bind_eq _ _ _ _ _ E2). rewrite (bind_eq _ _ _ _ _ E3). reflexivity.
      * rewrite D3, D2. unfold st1. cbn [r_draws]. lia.
      * eapply grows_trans; [exact G2|exact G3].
      * cbn [map]. assert (K : Forall2 (has_gate (r_world st3)) [l] [on_all n u]).
        { eapply grows_gates; [exact G3|exact (grows_W _ _ _ G2 HW)|]. constructor; [exact HG|constructor]. }
        inversion K; subst. constructor; auto.
Qed.

Lemma C43_lemma : forall g eps n Ms cs h t N st, rng_ok g -> (1 <= n)%nat -> small_drift eps n 1 ->
  hamiltonian_of (2 ^ n) Ms h -> Forall2 (operator_norm (2 ^ n)) Ms cs -> reachable eps (r_world st) ->
  exists st' s, qdrift_sequence eps g h t (Z.of_nat N) st = (st', Ok s) /\
    reachable eps (r_world st') /\ list_sequence (r_world st') s (2 ^ n) /\
    r_draws st' = (r_draws st + N)%nat /\
    Forall2 (fun j gt => snd gt = seq 0 n /\
        exists k M c, nth_error Ms k = Some M /\ nth_error cs k = Some c /\
          selected cs (g_unif g j) k /\
          (forall E, evolution (2 ^ n) (mscale (RtoC (/ c)) M) (fold_right Rplus 0%R cs * t / INR N) E ->
             stores_phase eps 1 n (Ok (fst gt)) E) /\
          labelled (Ok (fst gt)) ("H" ++ str_nat k ++ " λ/N")
            [("t"%string, ((fold_right Rplus 0%R cs * t / INR N)%R, false))])
      (seq (r_draws st) N) (contents (r_world st') s).
Proof.
  intros g eps n Ms cs h t N st RG N1 SD HH FC RE.
  destruct (small_lim eps n 1 1 SD ltac:(lia)) as [E0 L].
  destruct (ham_facts _ _ _ HH) as (_ & D & NE & F).
  assert (EC : coefficients h = cs) by (unfold coefficients; symmetry; eapply coefficients_norms; eauto).
  assert (HW := reachable_W _ _ RE).
  destruct (qdrift_builds g eps n Ms h (sumR cs * t / INR N) N RG N1 E0 L HH st HW) as (us & FU & BU).
  rewrite EC in FU, BU.
  destruct (run_all eps n N1 st _ _ _ HW BU) as (st' & s & Es & DR & G & S & A).
  { intros u Hu. clear - FU Hu. induction FU as [|j v js vs H F IH]; [destruct Hu|].
    destruct Hu as [<-|Hu]; [apply H|auto]. }
  exists st', s. split; [|split; [now apply G|split; [eapply sees_list; eauto|split; [exact DR|]]]].
  - unfold qdrift_sequence. rewrite EC, D, Nat2Z.id, <- INR_IZR_INZ. exact Es.
  - rewrite (sees_contents _ _ _ _ _ _ S), <- sumR_fold.
    clear - FU SD. induction FU as [|j u js us (Du & k & M & c & b & EM & Ec & Sk & Hb & Su & Lb) F IH];
      cbn [map]; constructor; auto.
    cbn [on_all fst snd]. split; [reflexivity|]. exists k, M, c. repeat (split; [assumption|]). split; [|exact Lb].
    intros E HE. refine (stores_phase_near eps n 1 1 _ E b u SD ltac:(lia) eq_refl _ Hb).
    eapply near_meq; [|exact (proj1 Su)]. now rewrite (evolution_ev _ _ _ _ HE).
Qed.

(** * The mean of the drawn generator *)
Fixpoint dotR (l l' : list R) : R :=
  match l, l' with x :: t, y :: t' => (x * y + dotR t t')%R | _, _ => 0%R end.

Lemma step_RInt s f : (0 < s)%R -> forall cs vs a, List.length cs = List.length vs ->
  (forall c, In c cs -> (0 < c)%R) ->
  (forall k x, (k < List.length cs)%nat ->
     ((a + weight_below cs k) / s <= x < (a + weight_below cs (S k)) / s)%R -> f x = nth k vs 0%R) ->
  is_RInt f (a / s)%R ((a + fold_right Rplus 0 cs) / s)%R (dotR cs vs / s)%R.
Proof.
  intros SP. induction cs as [|c cs IH]; intros [|v vs] a LN P H; try discriminate.
  - simpl. rewrite Rplus_0_r. replace (0 / s)%R with (@zero R_NormedModule) by (change (0 = 0 / s)%R; field; lra).
    apply (@is_RInt_point R_NormedModule).
  - assert (c0 : (0 < c)%R) by (apply P; simpl; auto).
    assert (LE : (a / s < (a + c) / s)%R).
    { unfold Rdiv. apply Rmult_lt_compat_r; [now apply Rinv_0_lt_compat|lra]. }
    assert (A1 : is_RInt f (a / s)%R ((a + c) / s)%R (c * v / s)%R).
    { apply (@is_RInt_ext R_NormedModule (fun _ => v)).
      - intros x [X1 X2]. rewrite Rmin_left in X1 by lra. rewrite Rmax_right in X2 by lra.
        symmetry. apply (H 0%nat); [simpl; lia|]. unfold weight_below. simpl.
        rewrite Rplus_0_r. replace (a + (c + 0))%R with (a + c)%R by ring. lra.
      - replace (c * v / s)%R with (@scal R_AbsRing R_NormedModule ((a + c) / s - a / s)%R v)
          by (change (((a + c) / s - a / s) * v = c * v / s)%R; field; lra).
        apply (@is_RInt_const R_NormedModule). }
    assert (A2 : is_RInt f ((a + c) / s)%R ((a + c + fold_right Rplus 0 cs) / s)%R (dotR cs vs / s)%R).
    { apply IH.
      - simpl in LN. lia.
      - intros; apply P; simpl; auto.
      - intros k x Hk Hx. apply (H (S k)); [simpl; lia|]. unfold weight_below in *. simpl in *.
        replace (a + (c + fold_right Rplus 0 (firstn k cs)))%R with (a + c + fold_right Rplus 0 (firstn k cs))%R by ring.
        replace (a + (c + match cs with [] => 0 | a :: l => a + fold_right Rplus 0 (firstn k l) end))%R
          with (a + c + match cs with [] => 0 | a :: l => a + fold_right Rplus 0 (firstn k l) end)%R by ring.
        destruct cs; simpl in *; lra. }
    assert (A3 := @is_RInt_Chasles R_NormedModule f _ _ _ _ _ A1 A2).
    cbn [fold_right dotR]. replace ((a + (c + fold_right Rplus 0 cs)) / s)%R
      with ((a + c + fold_right Rplus 0 cs) / s)%R by (f_equal; ring).
    replace ((c * v + dotR cs vs) / s)%R with (@plus R_NormedModule (c * v / s)%R (dotR cs vs / s)%R); [exact A3|].
    change (c * v / s + dotR cs vs / s = (c * v + dotR cs vs) / s)%R. field. lra.
Qed.

(** The generator [i t H] of the drawn gate, in the mean over the draw, is the one
    of the whole Hamiltonian. *)
Lemma C43_average_lemma : forall d Ms cs t N (G : R -> mat), Ms <> [] -> (1 <= N)%nat ->
  Forall2 (operator_norm d) Ms cs -> (forall c, In c cs -> (0 < c)%R) ->
  (forall x k M c, (0 <= x < 1)%R -> selected cs x k -> nth_error Ms k = Some M -> nth_error cs k = Some c ->
     G x = mscale (RtoC (fold_right Rplus 0%R cs * t / INR N)) (mscale (RtoC (/ c)) M)) ->
  forall i j,
    is_RInt (fun x => Re (G x i j)) 0 1 (Re (RtoC (t / INR N) * total Ms i j)) /\
    is_RInt (fun x => Im (G x i j)) 0 1 (Im (RtoC (t / INR N) * total Ms i j)).
Proof.
  intros d Ms cs t N G NE NN FC P HG i j.
  assert (LC := F2_length _ _ _ FC).
  set (s := fold_right Rplus 0%R cs) in *.
  assert (SP : (0 < s)%R).
  { unfold s. rewrite <- sumR_fold. apply sumR_pos; auto. destruct cs; [destruct Ms; [congruence|discriminate]|discriminate]. }
  assert (NP : (0 < INR N)%R) by (apply lt_0_INR; lia).
  assert (GEN : forall (pr : C -> R), (forall x y, pr (x + y) = (pr x + pr y)%R) ->
     (forall (r : R) z, pr (RtoC r * z) = (r * pr z)%R) ->
     is_RInt (fun x => pr (G x i j)) 0 1 (pr (RtoC (t / INR N) * total Ms i j))).
  { intros pr PA PS.
    set (vs := map (fun cM => (s * t / INR N * (/ fst cM * pr (snd cM i j)))%R) (List.combine cs Ms)).
    assert (LV : List.length cs = List.length vs) by (unfold vs; rewrite map_length, combine_length; lia).
    assert (NV : forall k M c, nth_error Ms k = Some M -> nth_error cs k = Some c ->
              nth k vs 0%R = (s * t / INR N * (/ c * pr (M i j)))%R).
    { intros k M c EM Ec. unfold vs. apply nth_error_nth.
      change (s * t / INR N * (/ c * pr (M i j)))%R
        with ((fun cM : R * mat => (s * t / INR N * (/ fst cM * pr (snd cM i j)))%R) (c, M)).
      apply map_nth_error. clear - EM Ec. revert Ms cs EM Ec.
      induction k as [|k IH]; intros [|M' Ms] [|c' cs] EM Ec; try discriminate; simpl in *.
      - injection EM as ->. injection Ec as ->. reflexivity.
      - auto. }
    assert (WB : forall k, (0 <= weight_below cs k <= s)%R).
    { unfold weight_below, s. clear - P. intros k. revert k. induction cs as [|c cs IH]; intros [|k]; simpl; try lra.
      - assert (0 < c)%R by (apply P; simpl; auto).
        destruct (IH (fun x Hx => P x (or_intror Hx)) 0%nat) as [_ A]. simpl in A. lra.
      - assert (0 < c)%R by (apply P; simpl; auto).
        destruct (IH (fun x Hx => P x (or_intror Hx)) k) as [A B]. lra. }
    assert (SI : (0 < / s)%R) by (now apply Rinv_0_lt_compat).
    assert (R := step_RInt s (fun x => pr (G x i j)) SP cs vs 0 LV P).
    replace (0 / s)%R with 0%R in R by (field; lra).
    replace ((0 + fold_right Rplus 0 cs) / s)%R with 1%R in R by (fold s; field; lra).
    assert (EV : (dotR cs vs / s)%R = pr (RtoC (t / INR N) * total Ms i j)).
    { rewrite PS. unfold vs. clear - LC P SP NP PA PS.
      assert (P0 : pr 0 = 0%R).
      { assert (X := PS 0%R 0). rewrite Rmult_0_l in X. now rewrite Cmult_0_l in X. }
      revert Ms LC. assert (SN : (s <> 0)%R) by lra. clearbody s. induction cs as [|c cs IH]; intros [|M Ms] LC; try discriminate.
      - unfold total. simpl. rewrite P0. field. lra.
      - cbn [List.combine map dotR fst snd]. unfold total. cbn [fold_right]. fold (total Ms i j). rewrite PA.
        simpl in LC. assert (c0 : (0 < c)%R) by (apply P; simpl; auto).
        assert (X := IH (fun x Hx => P x (or_intror Hx)) Ms ltac:(lia)). unfold total in X. unfold total.
        rewrite Rmult_plus_distr_l, <- X. field. lra. }
    rewrite EV in R. apply R. intros k x Hk Hx. rewrite !Rplus_0_l in Hx.
    destruct (nth_error cs k) as [c|] eqn:Ec; [|apply nth_error_None in Ec; lia].
    destruct (nth_error Ms k) as [M|] eqn:EM; [|apply nth_error_None in EM; lia].
    rewrite (NV k M c EM Ec). rewrite (HG x k M c); auto.
    - unfold mscale. now rewrite !PS.
    - destruct (WB k) as [W1 _]. destruct (WB (S k)) as [_ W2]. split.
      + eapply Rle_trans; [|apply Hx]. apply Rmult_le_pos; lra.
      + eapply Rlt_le_trans; [apply Hx|]. apply (Rmult_le_reg_r s); [exact SP|].
        unfold Rdiv. rewrite Rmult_assoc, Rinv_l by lra. lra.
    - split; [lia|exact Hx]. }
  split; apply GEN.
  - intros x y. reflexivity.
  - intros r [a b]. simpl. ring.
  - intros x y. reflexivity.
  - intros r [a b]. simpl. ring.
Qed.

(** * No steps, or a negative number of steps *)
Lemma C41_zero_lemma : forall g eps h t randomize st,
  ideal_sequence eps h t 0 st = (st, Raise ZeroDivisionError) /\
  trotter_sequence eps g h t 0 randomize st = (st, Raise ZeroDivisionError).
Proof. intros. split; reflexivity. Qed.

Lemma C41_negative_lemma : forall g eps n Ms h t N randomize st, (1 <= n)%nat -> small_drift eps n 1 ->
  hamiltonian_of (2 ^ n) Ms h -> reachable eps (r_world st) -> (N < 0)%Z ->
  (exists st' s, ideal_sequence eps h t N st = (st', Ok s) /\ contents (r_world st') s = []) /\
  (exists st' s, trotter_sequence eps g h t N randomize st = (st', Ok s) /\ contents (r_world st') s = []) /\
  (exists st' s, qdrift_sequence eps g h t N st = (st', Ok s) /\ contents (r_world st') s = []).
Proof.
  intros g eps n Ms h t N b st N1 SD HH RE HN.
  destruct (small_lim eps n 1 1 SD ltac:(lia)) as [E0 L].
  destruct (ham_facts _ _ _ HH) as (_ & D & NE & F).
  assert (HW := reachable_W _ _ RE).
  assert (TN : Z.to_nat N = 0%nat) by lia.
  assert (PS : per_step t N st = (st, Ok (t / IZR N)%R)).
  { unfold per_step. destruct (Z.eqb_spec N 0); [lia|reflexivity]. }
  destruct (run_all eps n N1 st (se_ret []) _ [] HW (builds_nil eps n st)) as (st' & s & Es & _ & _ & S & _).
  { intros u []. }
  assert (CT := sees_contents _ _ _ _ _ _ S). cbn [map] in CT.
  split; [|split]; exists st', s; split; auto.
  - destruct (teo_stands eps n Ms h (t / IZR N) E0 L HH) as (u & c & Eu & _).
    unfold ideal_sequence. rewrite (bind_eq _ _ _ _ _ PS).
    unfold se_bind at 1, se_lift. rewrite Eu, TN, D. exact Es.
  - unfold trotter_sequence. rewrite (bind_eq _ _ _ _ _ PS). rewrite TN, D. exact Es.
  - unfold qdrift_sequence. rewrite TN, D. exact Es.
Qed.
