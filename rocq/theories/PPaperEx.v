(** Concrete cases for the statements about the paper's notebooks. *)
From Coq Require Import Reals List Arith Bool Lia Lra String Ascii ZArith Psatz.
From Coquelicot Require Import Complex.
From Verif Require Import Base CMat CMatFacts Det DetFacts ModelUnitary ModelEntry ModelSequence ModelText Spec SpecModel SpecText
  SpecGates SpecNoise ModelNoise PUnitary PUnitaryProps PRound PEntry PSeqHeap PSeqMeth PSeqWorld PSeqUndo PSeqNear PSeqInv PSeqHist PSeqProps
  PSeqCases PSeqEx PText PTextSeq PTextEx PNoiseEx
  ModelPaper SpecPaper PPaper PPaper2 PPaper3 PPaper4 PPaper5 PPaperNoise.
Import ListNotations.
Open Scope R_scope.

(** Two outcomes with probabilities 3/4 and 1/4. *)
Definition uneven (k : nat) : R := match k with O => 3 / 4 | _ => 1 / 4 end.

Lemma uneven_distribution : distribution 2 uneven.
Proof. split; [intros [| k] _; simpl; lra | simpl; lra]. Qed.

Lemma ex_C80_lemma : exists p, distribution 2 p /\ p 0%nat = 3 / 4 /\ p 0%nat <> 1 / INR 2 /\
  output_probs 2 p (1 / 10) 0 = 29 / 40.
Proof.
  exists uneven. split; [exact uneven_distribution |]. split; [reflexivity |].
  split; [simpl; lra | unfold output_probs; simpl; lra].
Qed.

Lemma ex_C80_matrix_lemma : unitary_mx 2 rot345 /\ ideal_output_probs rot345 0 0 = 9 / 25 /\
  ideal_output_probs rot345 0 1 = 16 / 25.
Proof.
  split; [exact rot345_unitary |]. unfold ideal_output_probs, rot345, mat22. simpl.
  rewrite !Cmod_R, !Rabs_right by lra. split; field.
Qed.

Lemma uneven_not_certain : ~ certain 2 uneven.
Proof. intros ([| k] & _ & E); simpl in E; lra. Qed.

Lemma xeb_refuted_lemma : exists p F s, distribution 2 p /\ power_sum 2 p 2 <> 1 / INR 2 /\
  let q := output_probs 2 p (1 / 10) in
  (forall l, shots_of 2 100 l -> exists m, (forall k, (k < 2)%nat -> measured_prob l k = Some (m k)) /\
     xeb_fidelity 2 p m = Some (F l)) /\
  std_f_xeb (INR 100) (INR 2) (1 / 10) (power_sum 2 p 2) (power_sum 2 p 3) (power_sum 2 p 4) = Some s /\
  0 <= s /\ shots_var 2 q 100 F < s ^ 2.
Proof.
  assert (D := uneven_distribution).
  assert (Hx : power_sum 2 uneven 2 <> 1 / INR 2) by (unfold power_sum; simpl; lra).
  destruct (xeb_lemma 2 100 uneven (1 / 10) ltac:(lia) D Hx ltac:(lra)) as (F & s & H1 & _ & H3 & H4 & _ & H6 & H7).
  exists uneven, F, s. split; [exact D |]. split; [exact Hx |]. cbv zeta.
  split; [exact H1 |]. split; [exact H3 |]. split; [exact H4 |].
  destruct H6 as [H6 | H6]; [exact H6 |]. exfalso. apply uneven_not_certain. now apply H7.
Qed.

Lemma ex_C81_lemma : exists p, distribution 2 p /\ power_sum 2 p 2 = 5 / 8 /\ power_sum 2 p 2 <> 1 / INR 2 /\ ~ certain 2 p.
Proof.
  exists uneven. split; [exact uneven_distribution |].
  split; [unfold power_sum; simpl; lra |]. split; [unfold power_sum; simpl; lra | exact uneven_not_certain].
Qed.

Lemma ex_C82_lemma : exists r p F G, distribution 2 r /\ r 0%nat = 1 /\ distribution 2 p /\ power_sum 2 p 2 <> 1 / INR 2 /\
  ~ certain 2 p /\
  (forall l, shots_of 2 100 l -> exists m, measured_prob l 0 = Some m /\ rav_fidelity 2 m (r 0%nat) = Some (F l)) /\
  (forall l, shots_of 2 100 l -> exists m, (forall k, (k < 2)%nat -> measured_prob l k = Some (m k)) /\
     xeb_fidelity 2 p m = Some (G l)).
Proof.
  set (r := fun k : nat => match k with O => 1 | _ => 0 end).
  assert (Dr : distribution 2 r) by (split; [intros [| k] _; simpl; lra | simpl; lra]).
  assert (D := uneven_distribution).
  assert (Hx : power_sum 2 uneven 2 <> 1 / INR 2) by (unfold power_sum; simpl; lra).
  assert (Hr : r 0%nat <> 1 / INR 2) by (simpl; lra).
  destruct (rav_lemma 2 100 r 0 (1 / 10) ltac:(lia) Dr ltac:(lia) Hr ltac:(lra)) as (F & _ & HF & _).
  destruct (xeb_lemma 2 100 uneven (1 / 10) ltac:(lia) D Hx ltac:(lra)) as (G & _ & HG & _).
  exists r, uneven, F, G. split; [exact Dr |]. split; [reflexivity |]. split; [exact D |]. split; [exact Hx |].
  split; [exact uneven_not_certain |]. split; [exact HF | exact HG].
Qed.

(** The simulation gives half of the fidelity. *)
Lemma scaled_refuted_lemma : exists p F, distribution 2 p /\ p 0%nat = 3 / 4 /\
  let pr := output_probs 2 p (1 / 10) 0 in
  let q := fun k => if Nat.eqb k 1 then pr else 1 - pr in
  (forall draws, List.length draws = 100%nat ->
     scaled_fidelity 2 (rav_measurements pr draws) =
     Some (F (map (fun u => if Rlt_dec u pr then 1%nat else 0%nat) draws))) /\
  distribution 2 q /\ shots_mean 2 q 100 F = (1 - 1 / 10) / 2.
Proof.
  destruct (scaled_lemma 2 100 uneven 0 (1 / 10) ltac:(lia) ltac:(lia) uneven_distribution ltac:(lia) ltac:(lra))
    as (F & H1 & H2 & H3 & _).
  exists uneven, F. split; [exact uneven_distribution |]. split; [reflexivity |]. cbv zeta.
  split; [exact H1 |]. split; [exact H2 |]. rewrite H3. change (INR 2) with 2. unfold uneven. lra.
Qed.

Lemma ex_C84_lemma : exists u I, built 0 u /\ eps_clean 0 (u_dim u) (u_mat u) /\ meq 2 (u_mat u) rot345 /\
  u_dim u = 2%nat /\ u_identity 0 (u_dim u) = Ok I /\ u_distance_from 0 u I = Ok (2 / 5) /\ INR (u_dim u) * (2 / 5) <= 1.
Proof.
  destruct (rot345_built 0 ltac:(lra)) as (u & B & D & M & Cl).
  destruct (u_identity_ok 0 2 ltac:(lia) ltac:(lra)) as (I & EI & DI & _ & _ & _ & _ & MI).
  exists u, I. rewrite D. split; [exact B |]. split; [exact Cl |]. split; [exact M |]. split; [reflexivity |].
  split; [exact EI |]. split; [| simpl; lra].
  rewrite (overlap_inv u I 0 (built_wf 0 u B) ltac:(now rewrite D) ltac:(congruence)).
  f_equal. rewrite D.
  assert (EO : overlap 2 (u_mat u) (u_mat I) = overlap 2 rot345 mid).
  { unfold overlap. do 2 f_equal. unfold mtrace. apply csum_ext. intros i Hi. unfold mmul, adj.
    apply csum_ext. intros k Hk. rewrite MI, M by assumption. reflexivity. }
  rewrite EO, overlap_mid.
  replace (mtrace 2 rot345) with (RtoC (6 / 5)) by (unfold mtrace, rot345, mat22; simpl; apply C_eq; simpl; field).
  rewrite Cmod_R, Rabs_right by lra. simpl. field.
Qed.

(** The bound for 6 and 7 qubits is 1/20. *)
Lemma ex_C84_accepted_lemma : (2 <= 2 ^ 6)%nat /\ 2 / INR (2 ^ 6) <= 5 / 100.
Proof. split; [apply Nat.leb_le; reflexivity |]. rewrite pow_INR. simpl. lra. Qed.

(** ** A file with two MS gates *)
(** The MS gate with angles 0 and pi. *)
Definition ms_pi : mat := fun i j => if Nat.eqb (i + j) 3 then (- Ci)%C else RtoC 0.
Lemma ms_pi_unitary : unitary_mx 4 ms_pi.
Proof.
  intros i j Hi Hj. unfold mmul, adj, ms_pi, mid.
  do 4 (destruct i as [| i]; [do 4 (destruct j as [| j]; [apply C_eq; simpl; ring |]); lia |]). lia.
Qed.

Lemma ex_C85_lemma : exists u v os t,
  u_name u = "R"%string /\ u_name v = "MS"%string /\
  os = [NewEntry u [0%Z]; NewEntry v [1%Z; 0%Z]; NewSequence 4 false [0; 1; 0; 1]%nat] /\
  contents (exec 0 os w_empty) 0 = [(u, [0%nat]); (v, [1%nat; 0%nat]); (u, [0%nat]); (v, [1%nat; 0%nat])] /\
  (forall g, In g (contents (exec 0 os w_empty) 0) -> plain_gate (fst g)) /\
  (forall k x, numeral (some_fmt k x)) /\
  snd (on_seq 0 (get_jaqal some_fmt 0) (exec 0 os w_empty)) = Ok t /\
  get_layer_count (circuit_file "    " 2 t) = 2%nat /\ get_2Q_gate_count (circuit_file "    " 2 t) = 2%nat.
Proof.
  destruct (some_gate 0 ltac:(lra)) as (u & Bu & Du & _ & _ & Nu & Pu & _).
  destruct (mk_unitary_exact 0 4 ms_pi (Some "MS"%string) [] false [] ltac:(lia) ms_pi_unitary (eps_clean_0 4 ms_pi))
    as (v & Ev & Dv & Nv & Pv & _).
  assert (Bv : built 0 v).
  { exists 4%nat, ms_pi, (Some "MS"%string), [], false, []. split; [exact ms_pi_unitary |].
    split; [apply eps_clean_0 | exact Ev]. }
  set (os := [NewEntry u [0%Z]; NewEntry v [1%Z; 0%Z]; NewSequence 4 false [0; 1; 0; 1]%nat]).
  assert (C : contents (exec 0 os w_empty) 0 =
    [(u, [0%nat]); (v, [1%nat; 0%nat]); (u, [0%nat]); (v, [1%nat; 0%nat])]).
  { unfold os. clear - Du Dv. conc u Du. destruct v as [d2 m2 nm2 ps2 iv2 ap2]; simpl in Dv; subst d2. reflexivity. }
  assert (PL : forall g, In g (contents (exec 0 os w_empty) 0) -> plain_gate (fst g)).
  { intros g Hg. rewrite C in Hg.
    assert (PU : plain_gate u) by now apply some_plain.
    assert (PV : plain_gate v).
    { unfold plain_gate. rewrite Nv, Pv. split; [| intros k x []]. intros c Hc. unfold chars in *. simpl in *.
      destruct Hc as [<- | [<- | []]]; intros H; repeat (destruct H as [H | H]; [discriminate H |]); exact H. }
    destruct Hg as [<- | [<- | [<- | [<- | []]]]]; assumption. }
  assert (HH : history 0 (built 0) odd_entries os w_empty) by (cbn [os history]; auto 20).
  assert (HD : has_dim (exec 0 os w_empty) 0 (2 ^ 2)).
  { unfold os. clear - Du Dv. conc u Du. destruct v as [d2 m2 nm2 ps2 iv2 ap2]; simpl in Dv; subst d2. eexists. split; reflexivity. }
  destruct (C51_exists_lemma some_fmt os 0 2 HH HD) as (_ & (t & Et) & _).
  exists u, v, os, t. split; [exact Nu |]. split; [exact Nv |]. split; [reflexivity |]. split; [exact C |].
  split; [exact PL |]. split; [exact some_fmt_numeral |]. split; [exact Et |].
  destruct (count_lemma some_fmt some_fmt_numeral 0 os 0 t "    " 2 PL
              ltac:(intros a; unfold chars; simpl; intuition) Et) as [E1 E2].
  cbv zeta in E1, E2. rewrite C in E1, E2. cbn [filter fst] in E1, E2. rewrite Nu, Nv in E1, E2. split; [exact E1 | exact E2].
Qed.

Lemma ex_C86_lemma : split_runs 2 [1; 2; 3; 4; 5]%nat = [[1; 2]; [3; 4]]%nat /\
  bin_slices 2 [1; 2; 3; 4; 5]%nat = [[1; 2]; [3; 4]]%nat /\ run_probs 2 [0; 1; 1; 1] = Some [1 / 2; 1].
Proof.
  split; [reflexivity |]. split; [reflexivity |]. rewrite (runs_some 2) by lia. unfold split_runs, slice, np_sum. simpl. f_equal.
  f_equal; [field |]. f_equal. field.
Qed.

Lemma ex_C87_lemma : exists l l' m : list R, l <> l' /\ List.length l = List.length l' /\
  (forall p, (p mod 50 <> 50 - 1)%nat -> nth_error l p = nth_error l' p) /\
  bucket_means 50 l = Some m.
Proof.
  set (z := repeat 0 49).
  assert (E : forall x, bucket_means 50 (z ++ [x]) = Some [0]).
  { intros x. rewrite bucket_one; [| lia | reflexivity].
    replace (firstn (50 - 1) (z ++ [x])) with z by reflexivity.
    rewrite np_mean_some by discriminate. unfold z. rewrite np_sum_repeat0. cbn [all_some]. do 2 f_equal. unfold Rdiv. lra. }
  exists (z ++ [0])%list, (z ++ [1])%list, [0]. split; [| split; [reflexivity | split; [| apply E]]].
  - intros H. apply app_inv_head in H. injection H as H. lra.
  - intros p Hp. destruct (Nat.lt_ge_cases p 49) as [L | L].
    + rewrite !nth_error_app1 by exact L. reflexivity.
    + destruct (Nat.eq_dec p 49) as [-> | N]; [exfalso; apply Hp; reflexivity |].
      assert (H : forall x, nth_error (z ++ [x]) p = None).
      { intros x. apply nth_error_None. change (List.length (z ++ [x])) with 50%nat. lia. }
      now rewrite !H.
Qed.

Lemma ex_C88_lemma : exists a b c : list nat, List.length a = 22%nat /\ List.length b = 22%nat /\ a <> b /\ c <> [].
Proof.
  exists (seq 0 22), (seq 22 22), [44%nat]. split; [reflexivity |]. split; [reflexivity |].
  split; discriminate.
Qed.
