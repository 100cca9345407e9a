(** The ideal, Trotter and QDRIFT sequences: C40-C43. *)
From Coq Require Import Reals List Arith Bool String ZArith Lra Lia Permutation.
From Coquelicot Require Import Coquelicot.
From Verif Require PBits.
From Verif Require Import Base CMat CMatFacts Det DetFacts Norms CRoot Expm ExpmFacts ExpmBounds ModelUnitary ModelEntry
  ModelPrimitive ModelSequence ModelCompiler ModelVerification ModelGates ModelHamiltonian Spec SpecModel
  SpecCompiler SpecGates SpecHamiltonian PUnitary PDrift PEmbed PEntry PSeqHeap PSeqMeth PSeqNear PSeqWorld PSeqUndo
  PCompView PCompRun PCompEntry PCompProps PSeqInv PVerify PGates PHam PHamTerm PHamSeq PHamRun.
Import ListNotations.
Open Scope R_scope.
Open Scope C_scope.
Open Scope res_scope.
Open Scope se_scope.

Lemma sees_list eps w s d cs pv : sees eps w s d cs pv -> list_sequence w s d.
Proof. intros (_ & q & E & D & A & _). now exists q. Qed.

Lemma per_step_ok t N st : (1 <= N)%nat -> per_step t (Z.of_nat N) st = (st, Ok (t / INR N)%R).
Proof.
  intros H. unfold per_step. destruct (Z.eqb_spec (Z.of_nat N) 0); [lia|]. now rewrite <- INR_IZR_INZ.
Qed.

Lemma teo_stands eps n Ms h t : (0 <= eps)%R -> lim eps n 1 -> hamiltonian_of (2 ^ n) Ms h ->
  exists u c, time_evolution_operator eps h t = Ok u /\ Cmod c = 1%R /\
    stands eps n u (mscale c (ev (2 ^ n) (total Ms) t)) /\ u_dim u = (2 ^ n)%nat.
Proof.
  intros E0 L H. destruct (ham_facts _ _ _ H) as (_ & D & _ & F).
  unfold time_evolution_operator. rewrite D.
  destruct (te_stands eps n _ _ t "" E0 L (total_hermitian _ _ _ F) (sum_total _ _ _ F))
    as (u & c & Eu & Hc & S & Du & _). exists u, c. auto.
Qed.

(** * C40 *)
Lemma ideal_builds eps n u N : (1 <= n)%nat -> u_dim u = (2 ^ n)%nat -> forall st, WG eps anyg (r_world st) ->
  builds eps n st (ideal_entries eps u (map Z.of_nat (seq 0 n)) N st) (r_draws st) (repeat u N).
Proof.
  intros N1 D. induction N as [|N IH]; intros st HW; [apply builds_nil|].
  cbn [ideal_entries repeat]. apply builds_cons; auto. intros st1 HW1 _ <-. now apply IH.
Qed.

Lemma F2_repeat {A B} (P : A -> B -> Prop) a b N : P a b -> Forall2 P (repeat a N) (repeat b N).
Proof. intros H. induction N; simpl; constructor; auto. Qed.
Lemma map_repeat' {A B} (f : A -> B) a N : map f (repeat a N) = repeat (f a) N.
Proof. induction N; simpl; congruence. Qed.

Lemma C40_lemma : forall eps n Ms h t N st, (1 <= n)%nat -> (1 <= N)%nat -> small_drift eps n (2 * N) ->
  hamiltonian_of (2 ^ n) Ms h -> reachable eps (r_world st) ->
  exists st' s u v p x, ideal_sequence eps h t (Z.of_nat N) st = (st', Ok s) /\
    reachable eps (r_world st') /\ list_sequence (r_world st') s (2 ^ n) /\
    contents (r_world st') s = repeat (u, seq 0 n) N /\
    time_evolution_operator eps h (t / INR N) = Ok u /\
    time_evolution_operator eps h t = Ok v /\
    answers eps (r_world st') s p /\
    u_distance_from eps p v = Ok x /\ (Rabs x <= drift_bound eps n (2 * N))%R /\
    (forall E, evolution (2 ^ n) (total Ms) t E ->
       exists c, Cmod c = 1%R /\ (fro (2 ^ n) (mminus (u_mat p) (mscale c E)) <= drift_bound eps n (2 * N))%R).
Proof.
  intros eps n Ms h t N st N1 NN SD HH RE.
  destruct (small_lim eps n (2 * N) (16 * N) SD ltac:(lia)) as [E0 L].
  assert (E1 : (eps <= 1)%R) by apply SD.
  destruct (drift_small _ _ _ SD) as [_ B]. replace (8 * (2 * N))%nat with (16 * N)%nat in B by lia.
  assert (LM : forall c, (c <= 16 * N)%nat -> lim eps n c) by (intros c Hc; now apply (lim_mono eps E0 E1 n c (16 * N))).
  assert (BM : forall c, (c <= 16 * N)%nat -> (err eps n c <= drift_bound eps n (2 * N))%R).
  { intros c Hc. eapply Rle_trans; [now apply (err_mono eps E0 n c (16 * N))|exact B]. }
  destruct (ham_facts _ _ _ HH) as (_ & D & _ & F).
  destruct (teo_stands eps n Ms h (t / INR N) E0 (LM 1%nat ltac:(lia)) HH) as (u & c & Eu & Hc & Su & Du).
  destruct (teo_stands eps n Ms h t E0 (LM 1%nat ltac:(lia)) HH) as (v & b & Ev & Hb & Sv & Dv).
  destruct (run_all eps n N1 st (ideal_entries eps u (map Z.of_nat (seq 0 n)) N) (r_draws st) (repeat u N))
    as (st' & s & Es & _ & G & S & A).
  - now apply reachable_W.
  - apply ideal_builds; auto. now apply reachable_W.
  - intros u' Hu'. apply repeat_spec in Hu'. congruence.
  - destruct (product_near eps n (repeat u N) (repeat (mscale c (ev (2 ^ n) (total Ms) (t / INR N))) N))
      as (p & Ep & Np); auto.
    + destruct N; [lia|discriminate].
    + rewrite repeat_length. apply LM. lia.
    + now apply F2_repeat.
    + rewrite repeat_length in Np.
      destruct (lprod_phase (2 ^ n) (repeat (mscale c (ev (2 ^ n) (total Ms) (t / INR N))) N)
                  (repeat (ev (2 ^ n) (total Ms) (t / INR N)) N)) as (a & Ha & EP).
      { apply F2_repeat. exists c. split; [exact Hc|reflexivity]. }
      rewrite lprod_repeat_ev in EP.
      replace (INR N * (t / INR N))%R with t in EP by (field; apply not_0_INR; lia).
      assert (Np' := near_meq eps n _ _ _ _ EP Np).
      destruct (distance_near eps n (9 * N) 1 _ _ p v 0 (a * Cconj b) E0 Np' (proj1 Sv) (LM (Datatypes.S (9 * N)) ltac:(lia)))
        as (x & Ex & Bx).
      * rewrite Cmod_mult, Cmod_conj, Ha, Hb. ring.
      * rewrite fro_minus_self; [lra|]. rewrite mscale_mscale.
        replace (a * Cconj b * b) with (a * (Cconj b * b)) by ring. rewrite Cmod_one_conj' by exact Hb.
        now replace (a * 1) with a by ring.
      * exists st', s, u, v, p, x. split; [|split; [|split; [|split; [|split; [|split; [|split; [|split; [|split]]]]]]]]; auto.
        -- unfold ideal_sequence. rewrite (bind_eq _ _ _ _ _ (per_step_ok t N st NN)).
           unfold se_bind at 1, se_lift. rewrite Eu. rewrite (all_qubits_n h n D), D, Nat2Z.id. exact Es.
        -- now apply G.
        -- eapply sees_list; eauto.
        -- rewrite (sees_contents _ _ _ _ _ _ S). exact (map_repeat' (on_all n) u N).
        -- now apply A.
        -- eapply Rle_trans; [exact Bx|]. rewrite Rplus_0_r. apply BM. lia.
        -- intros E HE. exists a. split; [exact Ha|].
           eapply Rle_trans; [|apply (BM (9 * N)%nat ltac:(lia))].
           rewrite (evolution_ev _ _ _ _ HE). apply Np'.
Qed.

(** * Trotter sequences *)
Definition some_gate : unitary :=
  {| u_dim := 0; u_mat := mzero; u_name := ""; u_params := []; u_inv := false; u_apply := [] |}.

(** The gates of the terms, for one time. *)
Lemma term_gates eps n dt Ms ts : (0 <= eps)%R -> lim eps n 1 -> Forall2 (term_of (2 ^ n)) Ms ts -> forall k,
  exists us cs, List.length us = List.length ts /\ List.length cs = List.length ts /\
    forall i M x, nth_error Ms i = Some M -> nth_error ts i = Some x ->
      let u := nth i us some_gate in let c := nth i cs (RtoC 1) in
      time_evolution eps (2 ^ n) (t_matrix x) dt (str_nat (k + i)) = Ok u /\ Cmod c = 1%R /\
      stands eps n u (mscale c (ev (2 ^ n) M dt)) /\ u_dim u = (2 ^ n)%nat /\
      labelled (Ok u) ("H" ++ str_nat (k + i)) [("t"%string, (dt, false))].
Proof.
  intros E0 L. induction 1 as [|M x Ms ts H _ IH]; intros k.
  - exists [], []. split; [reflexivity|]. split; [reflexivity|]. intros [|i] M x H; discriminate.
  - destruct (IH (S k)) as (us & cs & L1 & L2 & K).
    destruct H as (HM & _ & EM & _).
    destruct (te_stands eps n _ _ dt (str_nat k) E0 L HM EM) as (u & c & Eu & Hc & Su & Du & N1 & N2 & N3 & N4).
    exists (u :: us), (c :: cs). split; [simpl; congruence|]. split; [simpl; congruence|].
    intros [|i] M' x' E1 E2; cbn [nth_error nth] in *.
    + injection E1 as <-. injection E2 as <-. rewrite Nat.add_0_r. repeat (split; [assumption|]). exists u. auto.
    + specialize (K i M' x' E1 E2). replace (k + S i)%nat with (S k + i)%nat by lia. exact K.
Qed.

Section Loop.
Variable eps : R.
Variable n : nat.
Hypothesis n1 : (1 <= n)%nat.
Variable h : hamiltonian.
Hypothesis hd : h_dim h = (2 ^ n)%nat.
Variable dt : R.
Variable us : list unitary.
Hypothesis hus : forall i x, nth_error (h_terms h) i = Some x ->
  time_evolution eps (2 ^ n) (t_matrix x) dt (str_nat i) = Ok (nth i us some_gate) /\
  u_dim (nth i us some_gate) = (2 ^ n)%nat.

Lemma term_builds idx : (forall i, In i idx -> (i < List.length (h_terms h))%nat) ->
  forall st, WG eps anyg (r_world st) ->
  builds eps n st (term_entries eps h dt idx st) (r_draws st) (map (fun i => nth i us some_gate) idx).
Proof.
  induction idx as [|i idx IH]; intros Hi st HW; [apply builds_nil|]. cbn [term_entries map].
  destruct (nth_error (h_terms h) i) as [x|] eqn:Ex.
  2:{ exfalso. apply nth_error_None in Ex. specialize (Hi i (or_introl eq_refl)). lia. }
  destruct (hus i x Ex) as [Eu Du]. unfold se_bind at 1, se_lift. rewrite hd, Eu, (all_qubits_n h n hd).
  apply builds_cons; auto. intros st1 HW1 _ <-. apply IH; auto. intros j Hj. apply Hi. simpl; auto.
Qed.

Lemma trotter_builds g b N : rng_ok g -> forall idx st,
  Permutation idx (seq 0 (List.length (h_terms h))) -> WG eps anyg (r_world st) ->
  exists idxs k, List.length idxs = N /\
    List.Forall (fun l => Permutation l (seq 0 (List.length (h_terms h)))) idxs /\
    (b = false -> idxs = repeat idx N) /\
    builds eps n st (trotter_entries eps g h dt b idx N st) k
      (List.concat (map (map (fun i => nth i us some_gate)) idxs)).
Proof.
  intros RG. induction N as [|N IH]; intros idx st HP HW.
  - exists [], (r_draws st). split; [reflexivity|]. split; [constructor|]. split; [reflexivity|]. apply builds_nil.
  - cbn [trotter_entries].
    set (m := if b then shuffle g 0%nat idx else se_ret idx).
    assert (M : exists k idx', m st = ({| r_world := r_world st; r_draws := k |}, Ok idx') /\
       Permutation idx' (seq 0 (List.length (h_terms h))) /\ (b = false -> idx' = idx)).
    { unfold m. destruct b.
      - exists (S (r_draws st)), (map (fun i => nth i idx 0%nat) (g_perm g (r_draws st) (List.length idx))).
        split; [reflexivity|]. split; [|discriminate].
        eapply Permutation_trans; [|exact HP]. apply nth_permutation. apply RG.
      - exists (r_draws st), idx. destruct st. auto. }
    destruct M as (k & idx' & Em & HP' & Hb). unfold m in Em. rewrite (bind_eq _ _ _ _ _ Em).
    set (st1 := {| r_world := r_world st; r_draws := k |}).
    (* the rest *)
    assert (Hin : forall i, In i idx' -> (i < List.length (h_terms h))%nat).
    { intros i Hi. apply (Permutation_in _ HP') in Hi. apply in_seq in Hi. lia. }
    destruct (term_builds idx' Hin st1 HW) as (st2 & ls & E2 & D2 & G2 & F2).
    destruct (IH idx' st2 HP' (grows_W _ _ _ G2 HW)) as (idxs & k' & L & FP & Hb' & (st3 & ls' & E3 & D3 & G3 & F3)).
    exists (idx' :: idxs), k'. split; [simpl; congruence|]. split; [constructor; auto|]. split.
    { intros Eb. cbn [repeat]. rewrite (Hb' Eb), (Hb Eb). reflexivity. }
    exists st3, (ls ++ ls'). split; [|split; [exact D3|split]].
    + unfold se_bind. rewrite E2, E3. reflexivity.
    + eapply grows_trans; [exact G2|exact G3].
    + cbn [map List.concat]. rewrite map_app. apply Forall2_app; auto.
      eapply grows_gates; eauto. exact (grows_W _ _ _ G2 HW).
Qed.
End Loop.

Lemma F2_concat {A B} (P : A -> B -> Prop) l l' : Forall2 (Forall2 P) l l' -> Forall2 P (List.concat l) (List.concat l').
Proof. induction 1; simpl; [constructor|]. now apply Forall2_app. Qed.

Lemma F2_nth {A B} (P : A -> B -> Prop) l l' d d' : List.length l = List.length l' ->
  (forall i, (i < List.length l)%nat -> P (nth i l d) (nth i l' d')) -> Forall2 P l l'.
Proof.
  revert l'. induction l as [|x l IH]; intros [|y l'] L H; try discriminate; constructor.
  - apply (H 0%nat). simpl. lia.
  - apply IH; [simpl in L; lia|]. intros i Hi. apply (H (S i)). simpl. lia.
Qed.

Lemma nth_error_nth_lt {A} (l : list A) i d : (i < List.length l)%nat -> nth_error l i = Some (nth i l d).
Proof. intros H. now apply nth_error_nth'. Qed.

(** What [get_trotter_sequence] builds. *)
Lemma trotter_run g eps n Ms h t N b st : rng_ok g -> (1 <= n)%nat -> (1 <= N)%nat ->
  (0 <= eps)%R -> lim eps n 1 -> hamiltonian_of (2 ^ n) Ms h -> reachable eps (r_world st) ->
  exists st' s us cs idxs,
    trotter_sequence eps g h t (Z.of_nat N) b st = (st', Ok s) /\
    reachable eps (r_world st') /\
    List.length us = List.length Ms /\ List.length cs = List.length Ms /\
    (forall i M, nth_error Ms i = Some M ->
      let u := nth i us some_gate in let c := nth i cs (RtoC 1) in
      Cmod c = 1%R /\ stands eps n u (mscale c (ev (2 ^ n) M (t / INR N))) /\
      labelled (Ok u) ("H" ++ str_nat i) [("t"%string, ((t / INR N)%R, false))]) /\
    List.length idxs = N /\ List.Forall (fun l => Permutation l (seq 0 (List.length Ms))) idxs /\
    (b = false -> idxs = repeat (seq 0 (List.length Ms)) N) /\
    let l := List.concat (map (map (fun i => nth i us some_gate)) idxs) in
    sees eps (r_world st') s (2 ^ n) (map (on_all n) l) None /\
    (forall p, answers eps (r_world st') s p <-> pure_product eps (2 ^ n) (map (on_all n) l) = Ok p).
Proof.
  intros RG N1 NN E0 L HH RE. destruct (ham_facts _ _ _ HH) as (_ & D & _ & F).
  assert (LT := F2_length _ _ _ F).
  destruct (term_gates eps n (t / INR N) Ms (h_terms h) E0 L F 0) as (us & cs & L1 & L2 & K).
  assert (HUS : forall i x, nth_error (h_terms h) i = Some x ->
    time_evolution eps (2 ^ n) (t_matrix x) (t / INR N) (str_nat i) = Ok (nth i us some_gate) /\
    u_dim (nth i us some_gate) = (2 ^ n)%nat).
  { intros i x Ex. assert (Hi : (i < List.length Ms)%nat).
    { rewrite LT. apply nth_error_Some. congruence. }
    destruct (K i _ x (nth_error_nth_lt Ms i mzero Hi) Ex) as (K1 & _ & _ & K2 & _). auto. }
  destruct (trotter_builds eps n N1 h D (t / INR N) us HUS g b N RG (seq 0 (List.length (h_terms h))) st
              (Permutation_refl _) (reachable_W _ _ RE)) as (idxs & k & LI & FP & Hb & BU).
  destruct (run_all eps n N1 st _ k _ (reachable_W _ _ RE) BU) as (st' & s & Es & _ & G & S & A).
  { intros u Hu. apply in_concat in Hu. destruct Hu as (l & Hl & Hu). apply in_map_iff in Hl.
    destruct Hl as (idx & <- & Hidx). apply in_map_iff in Hu. destruct Hu as (i & <- & Hi).
    rewrite List.Forall_forall in FP. apply (Permutation_in _ (FP idx Hidx)) in Hi. apply in_seq in Hi.
    destruct (nth_error (h_terms h) i) as [x|] eqn:Ex; [now apply (HUS i x)|].
    apply nth_error_None in Ex. lia. }
  exists st', s, us, cs, idxs. split; [|split; [|split; [congruence|split; [congruence|split; [|split; [exact LI|]]]]]].
  - unfold trotter_sequence. rewrite (bind_eq _ _ _ _ _ (per_step_ok t N st NN)). rewrite D, Nat2Z.id. exact Es.
  - now apply G.
  - intros i M EM. assert (Hi : (i < List.length (h_terms h))%nat) by (rewrite <- LT; apply nth_error_Some; congruence).
    destruct (nth_error (h_terms h) i) as [x|] eqn:Ex; [|apply nth_error_None in Ex; lia].
    destruct (K i M x EM Ex) as (_ & K1 & K2 & _ & K3). auto.
  - rewrite LT. split; [exact FP|]. split; [exact Hb|]. split; [exact S|exact A].
Qed.

Definition term_gate (eps : R) (n : nat) (dt : R) (sfx : string) (M : mat) (gt : unitary * list nat) : Prop :=
  snd gt = seq 0 n /\ (forall E, evolution (2 ^ n) M dt E -> stores_phase eps 1 n (Ok (fst gt)) E) /\
  labelled (Ok (fst gt)) ("H" ++ sfx) [("t"%string, (dt, false))].

Lemma C41_lemma : forall g eps n Ms h t N randomize st, rng_ok g -> (1 <= n)%nat -> (1 <= N)%nat ->
  small_drift eps n 1 -> hamiltonian_of (2 ^ n) Ms h -> reachable eps (r_world st) ->
  exists st' s gates blocks,
    trotter_sequence eps g h t (Z.of_nat N) randomize st = (st', Ok s) /\
    reachable eps (r_world st') /\ list_sequence (r_world st') s (2 ^ n) /\
    contents (r_world st') s = List.concat blocks /\ List.length blocks = N /\
    List.Forall (fun block => Permutation block gates) blocks /\
    (randomize = false -> blocks = repeat gates N) /\
    List.length gates = List.length Ms /\
    (forall i M, nth_error Ms i = Some M -> exists gt, nth_error gates i = Some gt /\
       snd gt = seq 0 n /\
       (forall E, evolution (2 ^ n) M (t / INR N) E -> stores_phase eps 1 n (Ok (fst gt)) E) /\
       labelled (Ok (fst gt)) ("H" ++ str_nat i) [("t"%string, ((t / INR N)%R, false))]).
Proof.
  intros g eps n Ms h t N b st RG N1 NN SD HH RE.
  destruct (small_lim eps n 1 1 SD ltac:(lia)) as [E0 L].
  destruct (trotter_run g eps n Ms h t N b st RG N1 NN E0 L HH RE)
    as (st' & s & us & cs & idxs & Es & RE' & L1 & L2 & K & LI & FP & Hb & S & _).
  exists st', s, (map (on_all n) us), (map (map (fun i => on_all n (nth i us some_gate))) idxs).
  split; [exact Es|]. split; [exact RE'|]. split; [eapply sees_list; eauto|]. split; [|split; [|split; [|split; [|split]]]].
  - rewrite (sees_contents _ _ _ _ _ _ S). rewrite concat_map, map_map. f_equal. apply map_ext. intros l.
    now rewrite map_map.
  - now rewrite map_length.
  - apply List.Forall_forall. intros bl Hbl. apply in_map_iff in Hbl. destruct Hbl as (idx & <- & Hidx).
    rewrite List.Forall_forall in FP. specialize (FP idx Hidx).
    rewrite <- (map_map (fun i => nth i us some_gate) (on_all n)). apply Permutation_map, nth_permutation.
    now rewrite L1.
  - intros Eb. rewrite (Hb Eb), map_repeat'. f_equal. rewrite <- (map_map (fun i => nth i us some_gate) (on_all n)).
    f_equal. rewrite <- L1. apply map_nth_seq.
  - now rewrite map_length.
  - intros i M EM. assert (Hi : (i < List.length us)%nat) by (rewrite L1; apply nth_error_Some; congruence).
    destruct (K i M EM) as (Hc & St & Lb). exists (on_all n (nth i us some_gate)). split.
    + apply map_nth_error. now apply nth_error_nth_lt.
    + cbn [on_all fst snd]. split; [reflexivity|]. split; [|exact Lb].
      intros E HE. refine (stores_phase_near eps n 1 1 _ E (nth i cs (RtoC 1)) _ SD ltac:(lia) eq_refl _ Hc).
      eapply near_meq; [|exact (proj1 St)]. now rewrite (evolution_ev _ _ _ _ HE).
Qed.

(** * C42 *)
Definition gens (Ms : list mat) (dt : R) : list mat := map (fun M => mscale (RtoC dt) (mscale Ci M)) Ms.

Lemma gens_sum d Ms dt : meq d (msum (gens Ms dt)) (mscale (RtoC dt) (mscale Ci (total Ms))).
Proof.
  intros i j Hi Hj. unfold mscale. induction Ms as [|M Ms IH]; cbn [gens map msum fold_right total].
  - unfold mzero. ring.
  - unfold mplus at 1. fold (msum (gens Ms dt)). unfold gens in IH. fold (gens Ms dt) in *.
    change (fold_right mplus mzero (gens Ms dt)) with (msum (gens Ms dt)). rewrite IH. unfold mscale, total. simpl. ring.
Qed.

Lemma gens_size d Ms t N : (1 <= N)%nat -> frosum d (gens Ms (t / INR N)) = (total_size d Ms t / INR N)%R.
Proof.
  intros NN. unfold total_size. assert (P : (0 < INR N)%R) by (apply lt_0_INR; lia).
  induction Ms as [|M Ms IH]; cbn [gens map frosum fold_right].
  - field. lra.
  - fold (gens Ms (t / INR N)). change (fold_right (fun X s => (fro d X + s)%R) 0%R (gens Ms (t / INR N)))
      with (frosum d (gens Ms (t / INR N))). rewrite IH.
    rewrite !fro_mscale, Cmod_R, Cmod_Ci. unfold Rdiv at 1. rewrite Rabs_mult, (Rabs_pos_eq (/ INR N)).
    + field. lra.
    + apply Rlt_le, Rinv_0_lt_compat, P.
Qed.

Lemma lprod_concat d ls : meq d (lprod d (List.concat ls)) (lprod d (map (lprod d) ls)).
Proof.
  induction ls as [|l ls IH]; [reflexivity|]. cbn [List.concat map]. rewrite lprod_app, IH. reflexivity.
Qed.

Lemma gens_unitary d Ms dt : (forall M, In M Ms -> hermitian_mx d M) ->
  forall X, In X (gens Ms dt) -> unitary_mx d (expm d X).
Proof.
  intros H X HX. apply in_map_iff in HX. destruct HX as (M & <- & HM). apply (ev_unitary d M dt). auto.
Qed.

(** One block: any order of the terms. *)
Lemma block_close d Ms dt block : (forall M, In M Ms -> hermitian_mx d M) ->
  Permutation block (map (fun M => ev d M dt) Ms) ->
  unitary_mx d (lprod d block) /\
  (fro d (mminus (lprod d block) (ev d (total Ms) dt))
   <= 2 * (exp (frosum d (gens Ms dt)) - 1 - frosum d (gens Ms dt)))%R.
Proof.
  intros HM P.
  assert (E : map (fun M => ev d M dt) Ms = map (expm d) (gens Ms dt)).
  { unfold gens. rewrite map_map. reflexivity. }
  rewrite E in P. apply Permutation_map_inv in P. destruct P as (Xs & -> & P).
  assert (U : forall X, In X (rev Xs) -> unitary_mx d (expm d X)).
  { intros X HX. apply in_rev in HX. apply (gens_unitary d Ms dt HM).
    eapply Permutation_in; [apply Permutation_sym; exact P|exact HX]. }
  split.
  - apply lprod_unitary. intros V HV. apply in_map_iff in HV. destruct HV as (X & <- & HX).
    apply U. now apply -> in_rev.
  - assert (T := trotter_step d (rev Xs) U).
    assert (P' : Permutation (rev Xs) (gens Ms dt)).
    { eapply Permutation_trans; [apply Permutation_sym, Permutation_rev|now apply Permutation_sym]. }
    rewrite (frosum_perm d _ _ P') in T.
    eapply Rle_trans; [|exact T]. right. apply fro_proper. rewrite lprod_expprod.
    assert (EE : meq d (ev d (total Ms) dt) (expm d (msum (rev Xs)))).
    { rewrite ev_expm. apply expm_meq. rewrite <- gens_sum. intros i j _ _.
      apply msum_perm. now apply Permutation_sym. }
    now rewrite EE.
Qed.

Lemma commute_msum d X l : (forall Y, In Y l -> meq d (mmul d X Y) (mmul d Y X)) ->
  meq d (mmul d X (msum l)) (mmul d (msum l) X).
Proof.
  induction l as [|Y l IH]; intros H; cbn [msum fold_right].
  - intros i j _ _. unfold mmul, mzero. rewrite !csum_zero; auto; intros; ring.
  - fold (msum l). rewrite mmul_mplus_r, mmul_mplus_l. rewrite IH by (intros; apply H; simpl; auto).
    now rewrite (H Y (or_introl eq_refl)).
Qed.

Lemma expprod_commute d l : (forall X Y, In X l -> In Y l -> meq d (mmul d X Y) (mmul d Y X)) ->
  meq d (expprod d l) (expm d (msum l)).
Proof.
  induction l as [|X l IH]; intros H; cbn [expprod msum fold_right].
  - now rewrite expm_zero.
  - fold (expprod d l). fold (msum l). rewrite IH by (intros; apply H; simpl; auto).
    rewrite expm_plus; [reflexivity|]. apply commute_msum. intros Y HY. apply H; simpl; auto.
Qed.

Lemma block_commute d Ms dt block : commuting d Ms ->
  Permutation block (map (fun M => ev d M dt) Ms) -> meq d (lprod d block) (ev d (total Ms) dt).
Proof.
  intros HC P.
  assert (E : map (fun M => ev d M dt) Ms = map (expm d) (gens Ms dt)).
  { unfold gens. rewrite map_map. reflexivity. }
  rewrite E in P. apply Permutation_map_inv in P. destruct P as (Xs & -> & P).
  rewrite lprod_expprod, expprod_commute.
  - rewrite ev_expm. apply expm_meq. rewrite <- gens_sum. intros i j _ _. apply msum_perm.
    eapply Permutation_trans; [apply Permutation_sym, Permutation_rev|now apply Permutation_sym].
  - intros X Y HX HY. apply in_rev in HX. apply in_rev in HY.
    apply (Permutation_in _ (Permutation_sym P)) in HX. apply (Permutation_in _ (Permutation_sym P)) in HY.
    apply in_map_iff in HX. destruct HX as (A & <- & HA). apply in_map_iff in HY. destruct HY as (B & <- & HB).
    rewrite !mmul_mscale_l, !mmul_mscale_r. rewrite (HC A B HA HB).
    intros i j _ _. unfold mscale. ring.
Qed.

(** The Trotter product against the exact evolution: [e] bounds the error of a
    block in every order. *)
Lemma trotter_close g eps n Ms h t N b st e : rng_ok g -> (1 <= n)%nat -> (1 <= N)%nat ->
  small_drift eps n (2 * (N * List.length Ms)) -> hamiltonian_of (2 ^ n) Ms h -> reachable eps (r_world st) ->
  (0 <= e)%R ->
  (forall block, Permutation block (map (fun M => ev (2 ^ n) M (t / INR N)) Ms) ->
     (fro (2 ^ n) (mminus (lprod (2 ^ n) block) (ev (2 ^ n) (total Ms) (t / INR N))) <= e)%R) ->
  exists st' s v p x, trotter_sequence eps g h t (Z.of_nat N) b st = (st', Ok s) /\
    time_evolution_operator eps h t = Ok v /\ answers eps (r_world st') s p /\
    u_distance_from eps p v = Ok x /\
    (Rabs x <= drift_bound eps n (2 * (N * List.length Ms)) + INR N * e)%R /\
    (forall E, evolution (2 ^ n) (total Ms) t E -> exists c, Cmod c = 1%R /\
       (fro (2 ^ n) (mminus (u_mat p) (mscale c E)) <= drift_bound eps n (2 * (N * List.length Ms)) + INR N * e)%R).
Proof.
  intros RG N1 NN SD HH RE He HB.
  set (K := (N * List.length Ms)%nat) in *.
  destruct (ham_facts _ _ _ HH) as (_ & D & NE & F).
  assert (KP : (1 <= K)%nat).
  { unfold K. assert (1 <= List.length Ms)%nat by (destruct Ms; [congruence|simpl; lia]). nia. }
  destruct (small_lim eps n (2 * K) (16 * K) SD ltac:(lia)) as [E0 L].
  assert (E1 : (eps <= 1)%R) by apply SD.
  destruct (drift_small _ _ _ SD) as [_ B]. replace (8 * (2 * K))%nat with (16 * K)%nat in B by lia.
  assert (LM : forall c, (c <= 16 * K)%nat -> lim eps n c) by (intros c Hc; now apply (lim_mono eps E0 E1 n c (16 * K))).
  assert (BM : forall c, (c <= 16 * K)%nat -> (err eps n c <= drift_bound eps n (2 * K))%R).
  { intros c Hc. eapply Rle_trans; [now apply (err_mono eps E0 n c (16 * K))|exact B]. }
  destruct (trotter_run g eps n Ms h t N b st RG N1 NN E0 (LM 1%nat ltac:(lia)) HH RE)
    as (st' & s & us & cs & idxs & Es & RE' & L1 & L2 & HK & LI & FP & Hb & S & A).
  destruct (teo_stands eps n Ms h t E0 (LM 1%nat ltac:(lia)) HH) as (v & a & Ev & Ha & Sv & Dv).
  set (dt := (t / INR N)%R) in *. set (d := (2 ^ n)%nat) in *.
  set (EE := map (fun M => ev d M dt) Ms).
  set (VV := map (fun cE => mscale (fst cE) (snd cE)) (List.combine cs EE)).
  assert (LE : List.length EE = List.length Ms) by (unfold EE; now rewrite map_length).
  assert (LV : List.length VV = List.length Ms).
  { unfold VV. rewrite map_length, combine_length, L2, LE. lia. }
  assert (NV : forall i, (i < List.length Ms)%nat -> nth i VV mid = mscale (nth i cs (RtoC 1)) (ev d (nth i Ms mzero) dt)).
  { intros i Hi. unfold VV.
    rewrite (nth_indep _ mid (mscale 1 (ev d mzero dt))) by (fold VV; lia).
    change (mscale 1 (ev d mzero dt)) with ((fun cE : C * mat => mscale (fst cE) (snd cE)) (RtoC 1, ev d mzero dt)).
    rewrite map_nth, combine_nth by congruence. cbn [fst snd]. f_equal. unfold EE.
    rewrite (map_nth (fun M => ev d M dt)). reflexivity. }
  assert (NEE : forall i, (i < List.length Ms)%nat -> nth i EE mid = ev d (nth i Ms mzero) dt).
  { intros i Hi. unfold EE. rewrite (nth_indep _ mid (ev d mzero dt)) by (fold EE; lia).
    apply (map_nth (fun M => ev d M dt)). }
  assert (SV : Forall2 (stands eps n) us VV).
  { apply (F2_nth _ _ _ some_gate mid); [congruence|]. intros i Hi. rewrite L1 in Hi. rewrite NV by exact Hi.
    apply (HK i _ (nth_error_nth_lt Ms i mzero Hi)). }
  assert (PV : Forall2 (phased d) VV EE).
  { apply (F2_nth _ _ _ mid mid); [congruence|]. intros i Hi. rewrite LV in Hi. rewrite NV, NEE by exact Hi.
    exists (nth i cs (RtoC 1)). split; [apply (HK i _ (nth_error_nth_lt Ms i mzero Hi))|reflexivity]. }
  assert (IDX : forall idx, In idx idxs -> forall i, In i idx -> (i < List.length Ms)%nat).
  { intros idx Hidx i Hi. rewrite List.Forall_forall in FP. apply (Permutation_in _ (FP idx Hidx)) in Hi.
    apply in_seq in Hi. lia. }
  set (lu := List.concat (map (map (fun i => nth i us some_gate)) idxs)) in *.
  set (bV := map (map (fun i => nth i VV mid)) idxs). set (bE := map (map (fun i => nth i EE mid)) idxs).
  assert (SVl : Forall2 (stands eps n) lu (List.concat bV)).
  { apply F2_concat. unfold bV. clear - SV IDX L1. induction idxs as [|idx idxs IH]; simpl; constructor.
    - apply Forall2_nth_perm; auto. intros i Hi. rewrite L1. apply (IDX idx); simpl; auto.
    - apply IH. intros idx' H' i Hi. apply (IDX idx'); simpl; auto. }
  assert (PVl : Forall2 (phased d) (List.concat bV) (List.concat bE)).
  { apply F2_concat. unfold bV, bE. clear - PV IDX LV. induction idxs as [|idx idxs IH]; simpl; constructor.
    - apply Forall2_nth_perm; auto. intros i Hi. rewrite LV. apply (IDX idx); simpl; auto.
    - apply IH. intros idx' H' i Hi. apply (IDX idx'); simpl; auto. }
  assert (LL : List.length lu = K).
  { unfold lu, K. clear - LI FP. revert N LI. induction FP as [|idx idxs HP _ IH]; intros N LI.
    - simpl in LI. subst N. reflexivity.
    - cbn [map List.concat]. rewrite app_length, map_length, (Permutation_length HP), seq_length.
      simpl in LI. subst N. rewrite (IH _ eq_refl). simpl. lia. }
  destruct (product_near eps n lu (List.concat bV)) as (p & Ep & Np); auto.
  { intros X. rewrite X in LL. simpl in LL. lia. }
  { rewrite LL. apply LM. lia. }
  rewrite LL in Np.
  destruct (lprod_phase d _ _ PVl) as (c & Hc & EP).
  assert (CL : (fro d (mminus (lprod d (List.concat bE)) (ev d (total Ms) t)) <= INR N * e)%R).
  { assert (HMs : forall M, In M Ms -> hermitian_mx d M).
    { clear - F. intros M HM. induction F as [|a b la lb H F IH]; [destruct HM|].
      destruct HM as [<-|HM]; [apply H|auto]. }
    assert (LB : List.length (map (lprod d) bE) = N) by (unfold bE; now rewrite !map_length).
    assert (Q := lprod_close d (map (lprod d) bE) (repeat (ev d (total Ms) dt) N) e He).
    rewrite LB in Q.
    eapply Rle_trans; [|apply Q].
    - right. apply fro_proper. rewrite lprod_concat, lprod_repeat_ev. unfold dt.
      replace (INR N * (t / INR N))%R with t by (field; apply not_0_INR; lia). reflexivity.
    - assert (PB : List.Forall (fun bl => Permutation bl EE) bE).
      { apply List.Forall_forall. intros bl Hbl. apply in_map_iff in Hbl. destruct Hbl as (idx & <- & Hidx).
        apply nth_permutation. rewrite LE. rewrite List.Forall_forall in FP. auto. }
      clear Q. revert PB LB. generalize bE. clearbody dt. clear - HMs HB F.
      intros bE. revert N. induction bE as [|bl bE IH]; intros N PB LB.
      + simpl in LB. subst N. constructor.
      + simpl in LB. subst N. cbn [map repeat]. constructor.
        * assert (P := Forall_inv PB). destruct (block_close d Ms dt bl HMs P) as [U _].
          split; [exact U|]. split; [|now apply HB]. apply ev_unitary. eapply total_hermitian; eauto.
        * apply IH; [|reflexivity]. now apply Forall_inv_tail in PB. }
  assert (CL2 : (fro d (mminus (lprod d (List.concat bV)) (mscale c (ev d (total Ms) t))) <= INR N * e)%R).
  { eapply Rle_trans; [|exact CL]. right.
    transitivity (fro d (mscale c (mminus (lprod d (List.concat bE)) (ev d (total Ms) t)))).
    - apply fro_proper. rewrite EP. intros i j _ _. unfold mminus, mscale. ring.
    - rewrite fro_mscale, Hc. ring. }
  destruct (distance_near eps n (9 * K) 1 _ _ p v (INR N * e) (c * Cconj a) E0 Np (proj1 Sv) (LM (Datatypes.S (9 * K)) ltac:(lia)))
    as (x & Ex & Bx).
  - rewrite Cmod_mult, Cmod_conj, Hc, Ha. ring.
  - eapply Rle_trans; [|exact CL2]. right. apply fro_proper. fold d. rewrite mscale_mscale.
    replace (c * Cconj a * a) with (c * (Cconj a * a)) by ring. rewrite Cmod_one_conj' by exact Ha.
    now replace (c * 1) with c by ring.
  - exists st', s, v, p, x. split; [exact Es|]. split; [exact Ev|]. split; [now apply A|]. split; [exact Ex|]. split.
    + eapply Rle_trans; [exact Bx|]. apply Rplus_le_compat_r. apply BM. lia.
    + intros E HE. exists c. split; [exact Hc|].
      eapply Rle_trans; [apply (fro_minus_triangle _ _ (lprod d (List.concat bV)))|].
      apply Rplus_le_compat.
      * eapply Rle_trans; [apply Np|]. apply BM. lia.
      * rewrite (evolution_ev _ _ _ _ HE). exact CL2.
Qed.

Lemma total_size_nonneg d Ms t : (0 <= total_size d Ms t)%R.
Proof.
  unfold total_size. apply Rmult_le_pos; [apply Rabs_pos|]. exact (frosum_nonneg d Ms).
Qed.

Lemma C42_lemma : forall g eps n Ms h t N randomize st, rng_ok g -> (1 <= n)%nat -> (1 <= N)%nat ->
  small_drift eps n (2 * (N * List.length Ms)) -> hamiltonian_of (2 ^ n) Ms h -> reachable eps (r_world st) ->
  exists st' s v p x, trotter_sequence eps g h t (Z.of_nat N) randomize st = (st', Ok s) /\
    time_evolution_operator eps h t = Ok v /\ answers eps (r_world st') s p /\
    u_distance_from eps p v = Ok x /\
    (Rabs x <= drift_bound eps n (2 * (N * List.length Ms)) + trotter_bound (total_size (2 ^ n) Ms t) N)%R /\
    (forall E, evolution (2 ^ n) (total Ms) t E -> exists c, Cmod c = 1%R /\
       (fro (2 ^ n) (mminus (u_mat p) (mscale c E))
        <= drift_bound eps n (2 * (N * List.length Ms)) + trotter_bound (total_size (2 ^ n) Ms t) N)%R).
Proof.
  intros g eps n Ms h t N b st RG N1 NN SD HH RE.
  destruct (ham_facts _ _ _ HH) as (_ & _ & _ & F).
  assert (HMs : forall M, In M Ms -> hermitian_mx (2 ^ n) M).
  { clear - F. intros M HM. induction F as [|a b la lb H F IH]; [destruct HM|].
    destruct HM as [<-|HM]; [apply H|auto]. }
  set (S := total_size (2 ^ n) Ms t). assert (S0 : (0 <= S)%R) by apply total_size_nonneg.
  assert (NP : (0 < INR N)%R) by (apply lt_0_INR; lia).
  assert (SN : (0 <= S / INR N)%R) by (apply Rmult_le_pos; [exact S0|apply Rlt_le, Rinv_0_lt_compat, NP]).
  assert (DS := exp_defect_sq _ SN).
  assert (e0 : (0 <= 2 * ((S / INR N) ^ 2 * exp (S / INR N)))%R).
  { apply Rmult_le_pos; [lra|]. apply Rmult_le_pos; [apply pow2_ge_0|apply Rlt_le, exp_pos]. }
  destruct (trotter_close g eps n Ms h t N b st _ RG N1 NN SD HH RE e0) as (st' & s & v & p & x & A1 & A2 & A3 & A4 & A5 & A6).
  - intros block P. destruct (block_close _ _ _ _ HMs P) as [_ BC]. eapply Rle_trans; [exact BC|].
    rewrite gens_size by exact NN. fold S. lra.
  - assert (EB : (INR N * (2 * ((S / INR N) ^ 2 * exp (S / INR N))))%R = trotter_bound S N).
    { unfold trotter_bound. field. lra. }
    rewrite EB in *. exists st', s, v, p, x. auto 10.
Qed.

Lemma C42_commuting_lemma : forall g eps n Ms h t N randomize st, rng_ok g -> (1 <= n)%nat -> (1 <= N)%nat ->
  small_drift eps n (2 * (N * List.length Ms)) -> hamiltonian_of (2 ^ n) Ms h -> reachable eps (r_world st) ->
  commuting (2 ^ n) Ms ->
  exists st' s v p x, trotter_sequence eps g h t (Z.of_nat N) randomize st = (st', Ok s) /\
    time_evolution_operator eps h t = Ok v /\ answers eps (r_world st') s p /\
    u_distance_from eps p v = Ok x /\ (Rabs x <= drift_bound eps n (2 * (N * List.length Ms)))%R /\
    (forall E, evolution (2 ^ n) (total Ms) t E -> exists c, Cmod c = 1%R /\
       (fro (2 ^ n) (mminus (u_mat p) (mscale c E)) <= drift_bound eps n (2 * (N * List.length Ms)))%R).
Proof.
  intros g eps n Ms h t N b st RG N1 NN SD HH RE HC.
  destruct (trotter_close g eps n Ms h t N b st 0 RG N1 NN SD HH RE (Rle_refl 0)) as (st' & s & v & p & x & A1 & A2 & A3 & A4 & A5 & A6).
  - intros block P. rewrite fro_minus_self; [lra|]. now apply block_commute.
  - rewrite Rmult_0_r, Rplus_0_r in *. exists st', s, v, p, x. auto 10.
Qed.

Lemma trotter_bound_small S N (tol : R) : (0 <= S)%R -> (0 < tol)%R -> (1 <= N)%nat ->
  (2 * S ^ 2 * exp S / tol < INR N)%R -> (trotter_bound S N < tol)%R.
Proof.
  intros S0 T NN H. assert (NP : (1 <= INR N)%R) by (apply (le_INR 1); exact NN).
  unfold trotter_bound.
  assert (SN : (S / INR N <= S)%R).
  { apply (Rmult_le_reg_r (INR N)); [lra|]. unfold Rdiv. rewrite Rmult_assoc, Rinv_l by lra. nra. }
  assert (EX : (exp (S / INR N) <= exp S)%R).
  { destruct (Rle_lt_or_eq_dec _ _ SN) as [K|K]; [left; now apply exp_increasing|right; now rewrite K]. }
  assert (A : (2 * (S ^ 2 / INR N) * exp (S / INR N) <= 2 * (S ^ 2 / INR N) * exp S)%R).
  { apply Rmult_le_compat_l; [|exact EX]. apply Rmult_le_pos; [lra|].
    apply Rmult_le_pos; [apply pow2_ge_0|apply Rlt_le, Rinv_0_lt_compat; lra]. }
  eapply Rle_lt_trans; [exact A|].
  replace (2 * (S ^ 2 / INR N) * exp S)%R with ((2 * S ^ 2 * exp S) / INR N)%R by (field; lra).
  apply (Rmult_lt_reg_r (INR N)); [lra|]. unfold Rdiv. rewrite Rmult_assoc, Rinv_l, Rmult_1_r by lra.
  apply (Rmult_lt_compat_l tol) in H; [|exact T].
  replace (tol * (2 * S ^ 2 * exp S / tol))%R with (2 * S ^ 2 * exp S)%R in H by (field; lra). lra.
Qed.

Lemma nat_above r : exists k, (r < INR k)%R.
Proof.
  exists (Z.to_nat (up r)). rewrite INR_IZR_INZ. destruct (archimed r) as [A _].
  eapply Rlt_le_trans; [exact A|]. apply IZR_le. lia.
Qed.

Lemma C42_limit_lemma : forall n Ms t tol, (1 <= n)%nat -> (0 < tol)%R ->
  exists N0, forall N g h randomize st, (N0 <= N)%nat -> rng_ok g -> hamiltonian_of (2 ^ n) Ms h ->
    reachable 0 (r_world st) ->
    exists st' s v p x, trotter_sequence 0 g h t (Z.of_nat N) randomize st = (st', Ok s) /\
      time_evolution_operator 0 h t = Ok v /\ answers 0 (r_world st') s p /\
      u_distance_from 0 p v = Ok x /\ (Rabs x < tol)%R.
Proof.
  intros n Ms t tol N1 T. set (S := total_size (2 ^ n) Ms t).
  assert (S0 : (0 <= S)%R) by apply total_size_nonneg.
  destruct (nat_above (2 * S ^ 2 * exp S / tol)%R) as [N0 HN0].
  exists (N0 + 1)%nat. intros N g h b st HN RG HH RE.
  assert (SD : small_drift 0 n (2 * (N * List.length Ms))).
  { unfold small_drift, drift_bound. rewrite !Rmult_0_r. repeat split; try lra. }
  destruct (C42_lemma g 0 n Ms h t N b st RG N1 ltac:(lia) SD HH RE) as (st' & s & v & p & x & A1 & A2 & A3 & A4 & A5 & _).
  exists st', s, v, p, x. repeat (split; [assumption|]).
  eapply Rle_lt_trans; [exact A5|]. unfold drift_bound. rewrite Rmult_0_r, Rplus_0_l.
  apply trotter_bound_small; auto; [lia|]. eapply Rlt_le_trans; [exact HN0|]. apply le_INR. lia.
Qed.
