(** Random orders: means over the orders of the terms.  C106. *)
From Coq Require Import Reals List Arith Bool String ZArith Lra Lia Permutation.
From Coquelicot Require Import Coquelicot.
From Verif Require Import Base CMat CMatFacts Det DetFacts Norms CRoot Expm ExpmFacts ModelUnitary ModelEntry ModelSequence ModelCompiler
  ModelHamiltonian Spec SpecModel SpecCompiler
  SpecGates SpecHamiltonian SpecTrotter SpecChannel SpecChain PGates PHam PHamSeq PHamRun PCompEntry PChannel PTrotComm PChain PLayBal PCompRun PFloor POneQubit PRandTrot.
Import ListNotations.
Set Bullet Behavior "Strict Subproofs".
Open Scope R_scope.
Open Scope C_scope.

(** * Means of matrices over a list *)
Definition wmean (O : list (list nat)) (F : list nat -> mat) : mat :=
  wsum (List.length O) (fun _ => / INR (List.length O))%R (fun k => F (nth k O [])).

Lemma csum_seq m c f :
  Re (csum m (fun k => RtoC c * f k)) = (c * fold_right Rplus 0 (map (fun k => Re (f k)) (seq 0 m)))%R /\
  Im (csum m (fun k => RtoC c * f k)) = (c * fold_right Rplus 0 (map (fun k => Im (f k)) (seq 0 m)))%R.
Proof.
  assert (S : forall l y, fold_right Rplus 0%R (l ++ [y]) = (fold_right Rplus 0%R l + y)%R).
  { induction l as [|z l IH]; intros y; cbn [app fold_right]; [ring|]. rewrite IH. ring. }
  induction m as [|m [I1 I2]]; [simpl; lra|].
  rewrite seq_S, !map_app. cbn [map csum Nat.add]. rewrite !S. unfold Re, Im in *. cbn [fst snd Cplus]. rewrite I1, I2. simpl. lra.
Qed.
Lemma wmean_entry O F i j : Re (wmean O F i j) = meanl O (fun o => Re (F o i j)) /\ Im (wmean O F i j) = meanl O (fun o => Im (F o i j)).
Proof.
  unfold wmean, wsum. destruct (csum_seq (List.length O) (/ INR (List.length O)) (fun k => F (nth k O []) i j)) as [-> ->].
  rewrite (meanl_nth O [] (fun o => Re (F o i j))), (meanl_nth O [] (fun o => Im (F o i j))). unfold meanl. rewrite seq_length. unfold Rdiv. lra.
Qed.
Lemma weight_one (O : list (list nat)) : O <> [] -> rsum (List.length O) (fun _ => / INR (List.length O))%R = 1%R.
Proof.
  intros NE. assert (G : forall m c, rsum m (fun _ => c) = (INR m * c)%R).
  { induction m as [|m IH]; intros c; [simpl; ring|]. cbn [rsum]. rewrite IH, S_INR. ring. }
  rewrite G. apply Rinv_r. apply not_0_INR. destruct O; [contradiction|discriminate].
Qed.
Lemma wmean_fro n O F c : O <> [] -> (forall o, In o O -> (fro n (F o) <= c)%R) -> (fro n (wmean O F) <= c)%R.
Proof.
  intros NE H. assert (P : (0 < INR (List.length O))%R) by (apply lt_0_INR; destruct O; [contradiction|simpl; lia]).
  assert (IP := Rinv_0_lt_compat _ P). unfold wmean. eapply Rle_trans; [apply wsum_fro; intros; lra|].
  apply Rle_trans with (rsum (List.length O) (fun _ => c * / INR (List.length O)))%R.
  - apply rsum_le. intros k Hk. rewrite Rmult_comm. apply Rmult_le_compat_r; [lra|]. apply H. now apply nth_In.
  - rewrite rsum_mult_l, weight_one by exact NE. lra.
Qed.
Lemma wmean_meq n O F G : (forall o, In o O -> meq n (F o) (G o)) -> meq n (wmean O F) (wmean O G).
Proof. intros H. apply wsum_meq. intros k Hk. apply H. now apply nth_In. Qed.
Lemma wmean_minus n O F G : meq n (wmean O (fun o => mminus (F o) (G o))) (mminus (wmean O F) (wmean O G)).
Proof. apply (wsum_minus n). Qed.
Lemma wmean_const n O X : O <> [] -> meq n (wmean O (fun _ => X)) X.
Proof. intros NE. apply (wsum_const n). now apply weight_one. Qed.
Lemma wmean_turned n O U F : meq n (turned n U (wmean O F)) (wmean O (fun o => turned n U (F o))).
Proof. apply (wsum_turned n). Qed.

(** * Orders of the terms *)
Definition pick (o idx : list nat) : list nat := map (fun i => nth i idx 0%nat) o.
Definition at_ (As : list mat) (idx : list nat) : list mat := map (fun i => nth i As mzero) idx.

Lemma total_perm l l' : Permutation l l' -> forall i j, total l i j = total l' i j.
Proof.
  intros P i j. induction P as [|A l l' _ IH|A B l|l1 l2 l3 _ I1 _ I2]; [reflexivity| | |congruence].
  - rewrite !total_cons. unfold mplus. now rewrite IH.
  - rewrite !total_cons. unfold mplus. rewrite !total_cons. unfold mplus. ring.
Qed.
Lemma sum_perm l l' : Permutation l l' -> fold_right Rplus 0%R l = fold_right Rplus 0%R l'.
Proof. induction 1; simpl; lra. Qed.

Lemma F2_at {A B} (P : A -> B -> Prop) l l' d d' : Forall2 P l l' -> forall i, (i < List.length l)%nat -> P (nth i l d) (nth i l' d').
Proof.
  induction 1 as [|a b l l' H _ IH]; intros i Hi; [simpl in Hi; lia|]. destruct i as [|i]; [exact H|]. apply IH. simpl in Hi; lia.
Qed.

Section Means.
Variable n : nat.
Variable As : list mat.
Variable cs : list R.
Hypothesis hA : forall A, In A As -> hermitian_mx n A.
Hypothesis hcs : Forall2 (fun A a => (0 <= a)%R /\ opb n A a) As cs.
Let m := List.length As.
Let O := orders (seq 0 m).
Let s := fold_right Rplus 0%R cs.
Let S0 := total As.

Lemma pick_perm o idx : In o O -> Permutation idx (seq 0 m) -> Permutation (pick o idx) (seq 0 m).
Proof.
  intros Ho P. apply orders_spec in Ho. eapply Permutation_trans; [|exact P]. apply nth_permutation.
  rewrite (Permutation_length P), seq_length. exact Ho.
Qed.

Lemma block_jets idx : Permutation idx (seq 0 m) ->
  (0 <= s)%R /\ hermitian_mx n S0 /\ opb n S0 s /\
  (forall X, fro n (runs n (at_ As idx) X) = fro n X) /\
  (forall X, (fro n (mminus (mminus (mminus (runs n (at_ As idx) X) X) (comm_i n S0 X)) (quad n (at_ As idx) X)) <= (2 * s) ^ 3 / 6 * fro n X)%R).
Proof.
  intros P. assert (PA : Permutation (at_ As idx) As) by (now apply nth_permutation).
  assert (LC : List.length cs = m) by (symmetry; apply (PCompRun.F2_length _ _ _ hcs)).
  assert (PC : Permutation (map (fun i => nth i cs 0%R) idx) cs) by (apply nth_permutation; now rewrite LC).
  destruct (jets n (at_ As idx)) with (cs := map (fun i => nth i cs 0%R) idx) as (J1 & J2 & J3 & J4 & _ & _ & _ & J5).
  - intros A HA. apply hA. now apply (Permutation_in _ PA).
  - assert (IN : forall i, In i idx -> (i < m)%nat) by (intros i Hi; apply (Permutation_in _ P), in_seq in Hi; lia).
    clear - hcs IN. unfold at_. induction idx as [|i idx IH]; cbn [map]; constructor.
    + assert (Hi := IN i (or_introl eq_refl)). exact (F2_at _ _ _ mzero 0%R hcs i Hi).
    + apply IH. intros i' Hi'. apply IN. now right.
  - rewrite (sum_perm _ _ PC) in J1, J3, J5. fold s in J1, J3, J5.
    assert (T := total_perm _ _ PA). split; [exact J1|].
    split; [apply (hermitian_meq n (total (at_ As idx))); [intros i j _ _; apply T|exact J2]|].
    split; [apply (opb_meq n (total (at_ As idx))); [intros i j _ _; apply T|exact J3]|].
    split; [exact J4|]. intros X. eapply Rle_trans; [|apply J5]. right. apply fro_proper.
    assert (E := comm_i_meq_l n S0 (total (at_ As idx)) X ltac:(intros i j _ _; symmetry; apply T)).
    intros i j Hi Hj. unfold mminus. now rewrite (E i j Hi Hj).
Qed.

Lemma mean_quad idx X : Permutation idx (seq 0 m) ->
  meq n (wmean O (fun o => quad n (at_ As (pick o idx)) X)) (half_square n S0 X).
Proof.
  intros P i j Hi Hj. set (Q := fun o => quad n (at_ As (pick o idx)) X i j).
  set (z := comm_i n S0 (comm_i n S0 X) i j).
  assert (K : forall o, In o O -> (Q o + Q (rev o) = z)%C).
  { intros o Ho. assert (E : at_ As (pick (rev o) idx) = rev (at_ As (pick o idx))) by (unfold at_, pick; now rewrite !map_rev).
    unfold Q. rewrite E. assert (R := quad_rev n (at_ As (pick o idx)) X i j Hi Hj). unfold mplus in R. rewrite R.
    assert (T := total_perm _ _ (nth_permutation As mzero _ (pick_perm o idx Ho P))).
    assert (E1 : forall Y, meq n (comm_i n (total (at_ As (pick o idx))) Y) (comm_i n S0 Y)).
    { intros Y. apply comm_i_meq_l. intros i' j' _ _. apply T. }
    unfold z. rewrite (E1 _ i j Hi Hj). apply (comm_i_meq n S0 _ _ (E1 X) i j Hi Hj). }
  assert (NE : O <> []) by apply orders_nonempty.
  assert (G : forall f : C -> R, (forall a b, f (a + b)%C = (f a + f b)%R) -> meanl O (fun o => f (Q o)) = (/ 2 * f z)%R).
  { intros f Hf. assert (E1 : meanl O (fun o => f (Q (rev o))) = meanl O (fun o => f (Q o))).
    { rewrite <- (meanl_map O (@rev nat) (fun o => f (Q o))). apply meanl_perm, orders_rev_seq. }
    assert (E2 : meanl O (fun o => f (Q o) + f (Q (rev o)))%R = f z).
    { rewrite (meanl_ext O _ (fun _ => f z)); [now apply meanl_const|]. intros o Ho. rewrite <- Hf. now rewrite K. }
    assert (E3 : meanl O (fun o => f (Q o) + f (Q (rev o)))%R = (meanl O (fun o => f (Q o)) + meanl O (fun o => f (Q (rev o))))%R).
    { unfold meanl. rewrite <- Rdiv_plus_distr. f_equal. clear. induction O as [|o l IH]; cbn [map fold_right]; [ring|]. rewrite IH. ring. }
    lra. }
  destruct (wmean_entry O (fun o => quad n (at_ As (pick o idx)) X) i j) as [E1 E2].
  assert (G1 := G Re ltac:(reflexivity)). assert (G2 := G Im ltac:(reflexivity)). unfold Q in G1, G2. rewrite G1 in E1. rewrite G2 in E2.
  unfold half_square, mscale. fold z.
  apply injective_projections.
  - change (fst (wmean O (fun o => quad n (at_ As (pick o idx)) X) i j)) with (Re (wmean O (fun o => quad n (at_ As (pick o idx)) X) i j)).
    rewrite E1. unfold Re. simpl. lra.
  - change (snd (wmean O (fun o => quad n (at_ As (pick o idx)) X) i j)) with (Im (wmean O (fun o => quad n (at_ As (pick o idx)) X) i j)).
    rewrite E2. unfold Im. simpl. lra.
Qed.

Lemma mean_step idx X : Permutation idx (seq 0 m) ->
  (fro n (mminus (wmean O (fun o => runs n (at_ As (pick o idx)) X)) (turned n (ev n S0 1) X)) <= 8 / 3 * s ^ 3 * fro n X)%R.
Proof.
  intros P. assert (NE : O <> []) by apply orders_nonempty. destruct (block_jets idx P) as (s0 & HS & OS & _).
  set (W := fun o => runs n (at_ As (pick o idx)) X). set (Q := fun o => quad n (at_ As (pick o idx)) X).
  set (Rk := fun o => mminus (mminus (mminus (W o) X) (comm_i n S0 X)) (Q o)).
  assert (B1 : (fro n (wmean O Rk) <= (2 * s) ^ 3 / 6 * fro n X)%R).
  { apply wmean_fro; [exact NE|]. intros o Ho. apply (block_jets (pick o idx) (pick_perm o idx Ho P)). }
  assert (B2 := gate_third n S0 s s0 HS OS X).
  set (R0 := mminus (mminus (mminus (turned n (ev n S0 1) X) X) (comm_i n S0 X)) (half_square n S0 X)) in *.
  assert (E : meq n (mminus (wmean O W) (turned n (ev n S0 1) X)) (mminus (wmean O Rk) R0)).
  { assert (M1 := wmean_minus n O (fun o => mminus (mminus (W o) X) (comm_i n S0 X)) Q).
    assert (M2 := wmean_minus n O (fun o => mminus (W o) X) (fun _ => comm_i n S0 X)).
    assert (M3 := wmean_minus n O W (fun _ => X)).
    assert (M4 := wmean_const n O X NE). assert (M5 := wmean_const n O (comm_i n S0 X) NE). assert (M6 := mean_quad idx X P). fold Q in M6.
    intros i j Hi Hj. specialize (M1 i j Hi Hj). specialize (M2 i j Hi Hj). specialize (M3 i j Hi Hj).
    change (wmean O Rk i j = wmean O (fun o => mminus (mminus (W o) X) (comm_i n S0 X)) i j - wmean O Q i j) in M1.
    change (wmean O (fun o => mminus (mminus (W o) X) (comm_i n S0 X)) i j = wmean O (fun o => mminus (W o) X) i j - wmean O (fun _ => comm_i n S0 X) i j) in M2.
    change (wmean O (fun o => mminus (W o) X) i j = wmean O W i j - wmean O (fun _ => X) i j) in M3.
    rewrite (M4 i j Hi Hj) in M3. rewrite (M5 i j Hi Hj) in M2. rewrite (M6 i j Hi Hj) in M1.
    unfold R0, mminus. rewrite M1, M2, M3. ring. }
  rewrite E. eapply Rle_trans; [apply POneQubit.fro_minus_le|].
  replace (8 / 3 * s ^ 3 * fro n X)%R with ((2 * s) ^ 3 / 6 * fro n X + (2 * s) ^ 3 / 6 * fro n X)%R by field. lra.
Qed.

(** * Many steps *)
Fixpoint tm (N : nat) (idx : list nat) (X : mat) : mat :=
  match N with
  | 0%nat => X
  | S N' => wmean O (fun o => tm N' (pick o idx) (runs n (at_ As (pick o idx)) X))
  end.

Lemma mean_steps N : forall idx X, Permutation idx (seq 0 m) ->
  (fro n (mminus (tm N idx X) (turned n (ev n S0 (INR N)) X)) <= INR N * (8 / 3 * s ^ 3 * fro n X))%R.
Proof.
  assert (NE : O <> []) by apply orders_nonempty.
  induction N as [|N IH]; intros idx X P.
  - simpl INR. rewrite Rmult_0_l. rewrite fro_minus_self; [lra|]. cbn [tm]. now rewrite ev_0, turned_mid.
  - cbn [tm]. rewrite S_INR, Rmult_plus_distr_r, Rmult_1_l.
    destruct (block_jets idx P) as (s0 & HS & OS & _).
    set (Y := fun o => runs n (at_ As (pick o idx)) X).
    change (fun o => tm N (pick o idx) (runs n (at_ As (pick o idx)) X)) with (fun o => tm N (pick o idx) (Y o)).
    assert (UB : unitary_mx n (ev n S0 (INR N))) by (now apply ev_unitary).
    eapply Rle_trans; [apply (fro_minus_triangle n _ (turned n (ev n S0 (INR N)) (wmean O Y)))|].
    apply Rplus_le_compat.
    + replace (fro n (mminus (wmean O (fun o => tm N (pick o idx) (Y o))) (turned n (ev n S0 (INR N)) (wmean O Y))))
        with (fro n (wmean O (fun o => mminus (tm N (pick o idx) (Y o)) (turned n (ev n S0 (INR N)) (Y o))))).
      * apply wmean_fro; [exact NE|]. intros o Ho. assert (P' := pick_perm o idx Ho P).
        eapply Rle_trans; [apply IH, P'|]. destruct (block_jets _ P') as (_ & _ & _ & F & _). unfold Y. rewrite F. lra.
      * apply fro_proper. rewrite wmean_minus. assert (E := wmean_turned n O (ev n S0 (INR N)) Y).
        intros i j Hi Hj. unfold mminus. now rewrite (E i j Hi Hj).
    + eapply Rle_trans; [|apply (mean_step idx X P)]. right. fold Y.
      rewrite <- (turned_fro n (ev n S0 (INR N)) (mminus (wmean O Y) (turned n (ev n S0 1) X))) by exact UB.
      apply fro_proper. rewrite turned_minus.
      assert (E : meq n (turned n (ev n S0 (INR N + 1)) X) (turned n (ev n S0 (INR N)) (turned n (ev n S0 1) X))).
      { rewrite ev_add. apply turned_mmul. }
      intros i j Hi Hj. unfold mminus. now rewrite (E i j Hi Hj).
Qed.

(** * The mean over the generator *)
Fixpoint drawn (g : rng) (r N : nat) (idx : list nat) : list (list nat) :=
  match N with
  | 0%nat => []
  | S N' => let idx' := pick (g_perm g r (List.length idx)) idx in idx' :: drawn g (S r) N' idx'
  end.

Lemma drawn_average (f : C -> R) i j r : (forall F, f (wmean O F i j) = meanl O (fun o => f (F o i j))) -> forall N h idx X,
  Permutation idx (seq 0 m) ->
  SpecChain.average r (fun g => f (runs n (List.concat (map (at_ As) (drawn g (r + List.length h) N idx))) X i j)) h (f (tm N idx X i j)).
Proof.
  intros Hf. induction N as [|N IH]; intros h idx X P.
  - apply average_known. intros g _ _. reflexivity.
  - cbn [tm]. rewrite Hf.
    apply (average_ask r _ h (QPerm m) (fun a => match a with AList o => f (tm N (pick o idx) (runs n (at_ As (pick o idx)) X) i j) | _ => 0%R end)); [|reflexivity].
    intros [x|k|o] Po; try contradiction. cbn [possible] in Po.
    assert (K := IH (h ++ [(QPerm m, AList o)]) (pick o idx) (runs n (at_ As (pick o idx)) X) (pick_perm o idx Po P)).
    apply (average_ext_tells _ _ _ _ K). intros g T. apply tells_snoc in T. destruct T as [_ T]. cbn [replies] in T.
    cbn [drawn]. rewrite (Permutation_length P), seq_length. rewrite T. rewrite app_length. cbn [List.length map List.concat].
    replace (r + (List.length h + 1))%nat with (S (r + List.length h)) by lia.
    unfold runs at 1. rewrite fold_left_app. reflexivity.
Qed.
End Means.

(** A list of gates as an operator. *)
Lemma runs_turned n l : forall X, meq n (runs n l X) (turned n (lprod n (map (fun A => ev n A 1) l)) X).
Proof.
  induction l as [|A l IH]; intros X.
  - cbn [runs fold_left map lprod fold_right]. now rewrite turned_mid.
  - change (runs n (A :: l) X) with (runs n l (turned n (ev n A 1) X)). rewrite IH. cbn [map lprod fold_right].
    fold (lprod n (map (fun A => ev n A 1) l)). rewrite turned_mmul. reflexivity.
Qed.
