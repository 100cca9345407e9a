(** get_trotter_sequence with randomize: the mean over the orders.  C106. *)
From Coq Require Import Reals List Arith Bool String ZArith Lra Lia Permutation.
From Coquelicot Require Import Coquelicot.
From Verif Require Import Base CMat CMatFacts Det DetFacts Norms CRoot Expm ExpmFacts ExpmBounds ModelUnitary ModelEntry ModelPrimitive ModelSequence ModelCompiler ModelVerification ModelGates ModelHamiltonian Spec SpecModel SpecCompiler SpecGates SpecHamiltonian SpecChannel SpecChain SpecRandTrot PUnitary PDrift PEmbed PEntry PSeqHeap PSeqMeth PSeqNear PSeqWorld PSeqUndo PCompView PCompRun PCompEntry PCompProps PSeqInv PVerify PGates PHam PHamTerm PHamSeq PHamRun SpecTrotter PHamTrot PChannel PTrotComm PChain PChainRun PFloorTrot PRandTrot PRandTrotMean.
Import ListNotations.
Set Bullet Behavior "Strict Subproofs".
Open Scope R_scope.
Open Scope C_scope.
Open Scope res_scope.
Open Scope se_scope.

(** * What the sequence contains *)
Lemma drawn_builds eps n h dt us : (1 <= n)%nat -> h_dim h = (2 ^ n)%nat ->
  (forall i x, nth_error (h_terms h) i = Some x ->
    time_evolution eps (2 ^ n) (t_matrix x) dt (str_nat i) = Ok (nth i us some_gate) /\ u_dim (nth i us some_gate) = (2 ^ n)%nat) ->
  forall g, rng_ok g -> forall N idx st,
  Permutation idx (seq 0 (List.length (h_terms h))) -> WG eps anyg (r_world st) ->
  List.Forall (fun l => Permutation l (seq 0 (List.length (h_terms h)))) (drawn g (r_draws st) N idx) /\
  exists k, builds eps n st (trotter_entries eps g h dt true idx N st) k
      (List.concat (map (map (fun i => nth i us some_gate)) (drawn g (r_draws st) N idx))).
Proof.
  intros n1 hd hus g RG. induction N as [|N IH]; intros idx st HP HW.
  - split; [constructor|]. exists (r_draws st). apply builds_nil.
  - cbn [trotter_entries drawn].
    set (idx' := pick (g_perm g (r_draws st) (List.length idx)) idx).
    assert (HP' : Permutation idx' (seq 0 (List.length (h_terms h)))).
    { eapply Permutation_trans; [|exact HP]. apply nth_permutation. apply RG. }
    set (st1 := {| r_world := r_world st; r_draws := S (r_draws st) |}).
    assert (Em : shuffle g 0%nat idx st = (st1, Ok idx')) by reflexivity.
    rewrite (bind_eq _ _ _ _ _ Em).
    assert (Hin : forall i, In i idx' -> (i < List.length (h_terms h))%nat).
    { intros i Hi. apply (Permutation_in _ HP') in Hi. apply in_seq in Hi. lia. }
    destruct (term_builds eps n n1 h hd dt us hus idx' Hin st1 HW) as (st2 & ls & E2 & D2 & G2 & F2).
    destruct (IH idx' st2 HP' (grows_W _ _ _ G2 HW)) as (FP & k' & (st3 & ls' & E3 & D3 & G3 & F3)).
    rewrite D2 in FP, F3. cbn [r_draws st1] in FP, F3.
    split; [constructor; auto|]. exists k'. exists st3, (ls ++ ls'). split; [|split; [exact D3|split]].
    + unfold se_bind. rewrite E2, E3. reflexivity.
    + eapply grows_trans; [exact G2|exact G3].
    + cbn [map List.concat]. rewrite map_app. apply Forall2_app; auto.
      eapply grows_gates; eauto. exact (grows_W _ _ _ G2 HW).
Qed.

Lemma drawn_length g N : forall r idx, List.length (drawn g r N idx) = N.
Proof. induction N as [|N IH]; intros r idx; [reflexivity|]. cbn [drawn List.length]. now rewrite IH. Qed.

Lemma F2_maps {A B D} (P : B -> D -> Prop) (f : A -> B) (k : A -> D) l : (forall x, In x l -> P (f x) (k x)) -> Forall2 P (map f l) (map k l).
Proof. induction l as [|x l IH]; intros H; cbn [map]; constructor; [apply H; now left|]. apply IH. intros; apply H; now right. Qed.

(** The operator of the orders drawn, up to a phase. *)
Definition drawn_operator (d : nat) (Ms : list mat) (dt : R) (N : nat) (g : rng) (r : nat) : mat :=
  lprod d (map (fun i => ev d (nth i Ms mzero) dt) (List.concat (drawn g r N (seq 0 (List.length Ms))))).

Lemma drawn_run g eps n Ms h t N st : rng_ok g -> (1 <= n)%nat -> (1 <= N)%nat ->
  small_drift eps n (2 * (N * List.length Ms)) -> hamiltonian_of (2 ^ n) Ms h -> reachable eps (r_world st) ->
  exists st' s p c, trotter_sequence eps g h t (Z.of_nat N) true st = (st', Ok s) /\
    answers eps (r_world st') s p /\ Cmod c = 1%R /\
    (fro (2 ^ n) (mminus (u_mat p) (mscale c (drawn_operator (2 ^ n) Ms (t / INR N) N g (r_draws st))))
       <= drift_bound eps n (2 * (N * List.length Ms)))%R.
Proof.
  intros RG N1 NN SD HH RE.
  set (K := (N * List.length Ms)%nat) in *.
  destruct (ham_facts _ _ _ HH) as (_ & D & NE & F). assert (LT := F2_length _ _ _ F).
  assert (KP : (1 <= K)%nat).
  { unfold K. assert (1 <= List.length Ms)%nat by (destruct Ms; [congruence|simpl; lia]). nia. }
  destruct (small_lim eps n (2 * K) (16 * K) SD ltac:(lia)) as [E0 L].
  assert (E1 : (eps <= 1)%R) by apply SD.
  destruct (drift_small _ _ _ SD) as [_ B]. replace (8 * (2 * K))%nat with (16 * K)%nat in B by lia.
  assert (LM : forall c, (c <= 16 * K)%nat -> lim eps n c) by (intros c Hc; now apply (lim_mono eps E0 E1 n c (16 * K))).
  assert (BM : forall c, (c <= 16 * K)%nat -> (err eps n c <= drift_bound eps n (2 * K))%R).
  { intros c Hc. eapply Rle_trans; [now apply (err_mono eps E0 n c (16 * K))|exact B]. }
  set (dt := (t / INR N)%R).
  destruct (term_gates eps n dt Ms (h_terms h) E0 (LM 1%nat ltac:(lia)) F 0) as (us & cs & L1 & L2 & TG).
  assert (HUS : forall i x, nth_error (h_terms h) i = Some x ->
    time_evolution eps (2 ^ n) (t_matrix x) dt (str_nat i) = Ok (nth i us some_gate) /\
    u_dim (nth i us some_gate) = (2 ^ n)%nat).
  { intros i x Ex. assert (Hi : (i < List.length Ms)%nat).
    { rewrite LT. apply nth_error_Some. congruence. }
    destruct (TG i _ x (nth_error_nth_lt Ms i mzero Hi) Ex) as (K1 & _ & _ & K2 & _). auto. }
  destruct (drawn_builds eps n h dt us N1 D HUS g RG N (seq 0 (List.length (h_terms h))) st
              (Permutation_refl _) (reachable_W _ _ RE)) as (FP & k & BU).
  set (idxs := drawn g (r_draws st) N (seq 0 (List.length (h_terms h)))) in *.
  rewrite <- concat_map in BU. set (I := List.concat idxs) in *.
  assert (IN : forall i, In i I -> (i < List.length Ms)%nat).
  { intros i Hi. apply in_concat in Hi. destruct Hi as (l & Hl & Hi). rewrite List.Forall_forall in FP.
    apply (Permutation_in _ (FP l Hl)) in Hi. apply in_seq in Hi. lia. }
  assert (LI : List.length I = K).
  { unfold I, K. assert (LD := drawn_length g N (r_draws st) (seq 0 (List.length (h_terms h)))). fold idxs in LD. rewrite <- LD. clear - FP LT.
    induction FP as [|l ls P _ IH]; [reflexivity|]. cbn [List.concat List.length]. rewrite app_length, IH, (Permutation_length P), seq_length. simpl. lia. }
  destruct (run_all eps n N1 st _ k _ (reachable_W _ _ RE) BU) as (st' & s & Es & _ & G & S & A).
  { intros u Hu. apply in_map_iff in Hu. destruct Hu as (i & <- & Hi). apply IN in Hi. rewrite LT in Hi.
    destruct (nth_error (h_terms h) i) as [x|] eqn:Ex; [now apply (HUS i x)|]. apply nth_error_None in Ex. lia. }
  assert (ST : forall i, In i I -> Cmod (nth i cs (RtoC 1)) = 1%R /\
     stands eps n (nth i us some_gate) (mscale (nth i cs (RtoC 1)) (ev (2 ^ n) (nth i Ms mzero) dt))).
  { intros i Hi. apply IN in Hi. assert (Hi' := Hi). rewrite LT in Hi'.
    destruct (nth_error (h_terms h) i) as [x|] eqn:Ex; [|apply nth_error_None in Ex; lia].
    destruct (TG i _ x (nth_error_nth_lt Ms i mzero Hi) Ex) as (_ & K1 & K2 & _). auto. }
  set (V := fun i => mscale (nth i cs (RtoC 1)) (ev (2 ^ n) (nth i Ms mzero) dt)).
  destruct (product_near eps n (map (fun i => nth i us some_gate) I) (map V I)) as (p & Ep & Np); auto.
  { intros X. apply (f_equal (@List.length unitary)) in X. rewrite map_length, LI in X. simpl in X. lia. }
  { rewrite map_length, LI. apply LM. lia. }
  { apply F2_maps. intros i Hi. now apply ST. }
  rewrite map_length, LI in Np.
  destruct (lprod_phase (2 ^ n) (map V I) (map (fun i => ev (2 ^ n) (nth i Ms mzero) dt) I)) as (c & Hc & EP).
  { apply F2_maps. intros i Hi. exists (nth i cs (RtoC 1)). split; [now apply ST|reflexivity]. }
  exists st', s, p, c. split; [|split; [now apply A|split; [exact Hc|]]].
  - unfold trotter_sequence. rewrite (bind_eq _ _ _ _ _ (per_step_ok t N st NN)). rewrite D, Nat2Z.id. exact Es.
  - assert (Np' := near_meq eps n _ _ _ _ EP Np). eapply Rle_trans; [|apply (BM (9 * K)%nat ltac:(lia))].
    unfold drawn_operator. rewrite LT. fold idxs. fold I. apply Np'.
Qed.

(** * The theorem *)
Lemma C106_lemma : forall n Ms cs h t N E, (1 <= n)%nat -> (1 <= N)%nat ->
  hamiltonian_of (2 ^ n) Ms h -> Forall2 (operator_norm (2 ^ n)) Ms cs -> evolution (2 ^ n) (total Ms) t E ->
  exists P : rng -> nat -> mat,
    (forall g eps st, rng_ok g -> small_drift eps n (2 * (N * List.length Ms)) -> reachable eps (r_world st) ->
       exists st' s p c, trotter_sequence eps g h t (Z.of_nat N) true st = (st', Ok s) /\
         answers eps (r_world st') s p /\ Cmod c = 1%R /\
         (fro (2 ^ n) (mminus (u_mat p) (mscale c (P g (r_draws st)))) <= drift_bound eps n (2 * (N * List.length Ms)))%R) /\
    (forall r X, exists Y, average_turned (2 ^ n) r (fun g => P g r) X Y /\
       (fro (2 ^ n) (mminus Y (turned (2 ^ n) E X))
          <= 8 / 3 * (fold_right Rplus 0 cs * Rabs t) ^ 3 / INR N ^ 2 * fro (2 ^ n) X)%R).
Proof.
  intros n Ms cs h t N E N1 NN HH FC HE.
  destruct (ham_facts _ _ _ HH) as (_ & D & NE & F).
  assert (HMs : forall M, In M Ms -> hermitian_mx (2 ^ n) M).
  { clear - F. intros M HM. induction F as [|a b la lb H F IH]; [destruct HM|]. destruct HM as [<-|HM]; [apply H|auto]. }
  set (d := (2 ^ n)%nat) in *. assert (NP : (0 < INR N)%R) by (apply lt_0_INR; lia).
  assert (d0 : (0 < d)%nat) by (unfold d; assert (X := Nat.pow_nonzero 2 n ltac:(lia)); lia).
  set (dt := (t / INR N)%R).
  exists (drawn_operator d Ms dt N). split.
  { intros g eps st RG SD RE. exact (drawn_run g eps n Ms h t N st RG N1 NN SD HH RE). }
  intros r X. set (As := map (mscale (RtoC dt)) Ms). set (bs := map (fun c => Rabs dt * c)%R cs).
  assert (hA : forall A, In A As -> hermitian_mx d A).
  { intros A HA. apply in_map_iff in HA. destruct HA as (M & <- & HM). apply hermitian_scale. now apply HMs. }
  assert (hB : Forall2 (fun A a => (0 <= a)%R /\ opb d A a) As bs).
  { unfold As, bs. clear - FC d0. induction FC as [|M c Ms cs [H1 H2] _ IH]; cbn [map]; constructor; auto.
    assert (c0 : (0 <= c)%R).
    { assert (V := H1 (fun i => if Nat.eqb i 0 then 1%C else 0%C)). assert (V1 := vnorm_nonneg d (mapply d M (fun i => if Nat.eqb i 0 then 1%C else 0%C))).
      assert (V2 : (0 < vnorm d (fun i => if Nat.eqb i 0 then 1%C else 0%C))%R).
      { destruct (Rle_lt_or_eq_dec _ _ (vnorm_nonneg d (fun i => if Nat.eqb i 0 then 1%C else 0%C))) as [K|K]; [exact K|].
        exfalso. assert (Z := vnorm_entry d (fun i => if Nat.eqb i 0 then 1%C else 0%C) 0 d0). simpl in Z. rewrite Cmod_1 in Z. lra. }
      clear - V V1 V2. nra. }
    split; [apply Rmult_le_pos; [apply Rabs_pos|exact c0]|]. rewrite Rmult_comm. rewrite Rmult_comm. apply opb_scale. exact H1. }
  assert (LA : List.length As = List.length Ms) by (unfold As; now rewrite map_length).
  set (idx := seq 0 (List.length Ms)). assert (P0 : Permutation idx (seq 0 (List.length As))) by (unfold idx; now rewrite LA).
  exists (tm d As N idx X). split.
  - assert (ER : forall g i j, (i < d)%nat -> (j < d)%nat ->
       turned d (drawn_operator d Ms dt N g r) X i j = runs d (List.concat (map (at_ As) (drawn g (r + List.length (@nil (question * answer))) N idx))) X i j).
    { intros g i j Hi Hj. simpl List.length. rewrite Nat.add_0_r. rewrite (runs_turned d _ X i j Hi Hj). apply turned_proper; [|reflexivity|exact Hi|exact Hj].
      unfold drawn_operator. fold idx. replace (map (at_ As) (drawn g r N idx)) with (map (map (fun i => nth i As mzero)) (drawn g r N idx)) by reflexivity.
      rewrite <- concat_map, map_map. apply lprod_meq. apply F2_maps. intros k _. unfold As.
      assert (Z : meq d (nth k (map (mscale (RtoC dt)) Ms) mzero) (mscale (RtoC dt) (nth k Ms mzero))).
      { destruct (Nat.lt_ge_cases k (List.length Ms)) as [H|H].
        - rewrite (nth_indep _ mzero (mscale (RtoC dt) mzero)) by (now rewrite map_length). now rewrite map_nth.
        - rewrite !nth_overflow by (rewrite ?map_length; exact H). intros i' j' _ _. unfold mscale, mzero. ring. }
      rewrite (ev_meq d _ _ 1 Z), ev_scaled, Rmult_1_r. reflexivity. }
    intros i j Hi Hj. split.
    + eapply PChainRun.average_ext; [intros g; rewrite ER by assumption; reflexivity|].
      apply (drawn_average d As Re i j r); [|exact P0]. intros G. apply wmean_entry.
    + eapply PChainRun.average_ext; [intros g; rewrite ER by assumption; reflexivity|].
      apply (drawn_average d As Im i j r); [|exact P0]. intros G. apply wmean_entry.
  - assert (K := mean_steps d As bs hA hB N idx X P0).
    assert (EB : meq d (ev d (total As) (INR N)) E).
    { rewrite (evolution_ev _ _ _ _ HE).
      assert (T : meq d (total As) (mscale (RtoC dt) (total Ms))).
      { intros i j _ _. unfold As. clear. induction Ms as [|M Ms IH]; [unfold total, mscale; simpl; ring|].
        cbn [map]. rewrite !total_cons. unfold mplus, mscale in *. rewrite IH, total_cons. unfold mplus. ring. }
      rewrite (ev_meq d _ _ _ T), ev_scaled. unfold dt. replace (t / INR N * INR N)%R with t by (field; lra). reflexivity. }
    eapply Rle_trans; [|eapply Rle_trans; [exact K|]].
    + right. apply fro_proper. assert (Z : meq d (turned d (ev d (total As) (INR N)) X) (turned d E X)) by (now rewrite EB).
      intros i j Hi Hj. unfold mminus. now rewrite (Z i j Hi Hj).
    + assert (SB : fold_right Rplus 0%R bs = (Rabs t / INR N * fold_right Rplus 0%R cs)%R).
      { assert (AD : Rabs dt = (Rabs t / INR N)%R).
        { unfold dt, Rdiv. rewrite Rabs_mult, Rabs_inv, (Rabs_pos_eq (INR N)) by lra. reflexivity. }
        unfold bs. rewrite AD. clear. induction cs as [|c cs IH]; cbn [map fold_right]; [ring|]. rewrite IH. ring. }
      rewrite SB. right. field. lra.
Qed.
