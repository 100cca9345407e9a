(** STOQ compilation from a Hamiltonian and RAV sequences of one: C44, C45. *)
From Coq Require Import Reals List Arith Bool String ZArith Lra Lia Permutation Sorted.
From Coquelicot Require Import Coquelicot.
From Verif Require PBits.
From Verif Require Import Base CMat CMatFacts Det DetFacts Norms CRoot Expm ExpmFacts ExpmBounds ModelUnitary ModelEntry
  ModelPrimitive ModelSequence ModelCompiler ModelVerification ModelGates ModelHamiltonian Spec SpecModel
  SpecCompiler SpecGates SpecHamiltonian PUnitary PDrift PEmbed PEntry PSeqHeap PSeqMeth PSeqNear PSeqWorld PSeqUndo
  PCompView PCompRun PCompEntry PCompLoop PCompTrace PCompTotal PCompProps PCompMore PSeqInv PSeqHist PVerify
  PVerifyProps PGates PHam PHamTerm PHamSeq PHamRun PHamTrot PHamSub.
Import ListNotations.
Open Scope R_scope.
Open Scope C_scope.
Open Scope res_scope.
Open Scope se_scope.

(** * The primitives and their gates *)
Definition subset_prim (eps : R) (n : nat) (Ms : list mat) (T : R) (l : list nat) (p : primitive) : Prop :=
  evolves_subset eps n Ms T l p /\ good_primitive eps n p /\ at_t p T.

Lemma ascending_of L b ls l : term_subsets L b ls -> In l ls ->
  l <> [] /\ ascending_below L l /\ (b = false -> List.length l = 1%nat).
Proof.
  destruct b; cbn [term_subsets].
  - intros [_ H] Hl. apply H in Hl. destruct Hl as [H1 H2]. split; auto. split; auto. discriminate.
  - intros -> Hl. apply in_map_iff in Hl. destruct Hl as (k & <- & Hk). apply in_seq in Hk. split; [discriminate|].
    split; [|reflexivity]. split.
    + constructor; constructor.
    + intros i [<-|[]]. lia.
Qed.

Lemma part_hermitian d Ms l : (forall M, In M Ms -> hermitian_mx d M) -> hermitian_mx d (part_of Ms l).
Proof.
  intros H. unfold part_of. assert (K : forall M, In M (map (fun i => nth i Ms mzero) l) -> hermitian_mx d M).
  { intros M HM. apply in_map_iff in HM. destruct HM as (i & <- & _).
    destruct (Nat.lt_ge_cases i (List.length Ms)) as [Hi|Hi].
    - apply H. now apply nth_In.
    - rewrite nth_overflow by exact Hi. intros a b _ _. unfold mzero, adj. now rewrite Cconj_R. }
  induction (map (fun i => nth i Ms mzero) l) as [|A As IH].
  - intros a b _ _. unfold total, adj. cbn [fold_right]. now rewrite Cconj_R.
  - intros a b Ha Hb. unfold total, adj in *. cbn [fold_right]. rewrite Cconj_plus. f_equal.
    + now apply (K A (or_introl eq_refl)).
    + apply IH; auto. intros M HM. apply K. now right.
Qed.

Lemma ham_hermitian d Ms h : hamiltonian_of d Ms h -> forall M, In M Ms -> hermitian_mx d M.
Proof.
  intros (ts & F & _). induction F as [|M t Ms ts [H _] F IH]; intros X HX; [destruct HX|].
  destruct HX as [<-|HX]; auto.
Qed.

Section Prims.
Variables (eps : R) (n : nat) (Ms : list mat) (h : hamiltonian) (T : R).
Hypothesis n1 : (1 <= n)%nat.
Hypothesis HH : hamiltonian_of (2 ^ n) Ms h.
Notation SP := (subset_prim eps n Ms T).

Lemma prim_at_ok l p t : SP l p -> (- T <= t <= T)%R ->
  exists u, primitive_at eps p t = Ok u /\ made eps u /\ u_dim u = (2 ^ n)%nat /\ subset_gate eps n Ms l t (on_all n u).
Proof.
  intros ((PA & pu & PS & D & _ & Fin & _) & (GS & _) & pu' & PS' & PP) Ht.
  assert (pu' = pu) by congruence. subst pu'.
  assert (HP := part_hermitian (2 ^ n) Ms l (ham_hermitian _ _ _ HH)).
  destruct (Fin t _ Ht (ev_evolution (2 ^ n) (part_of Ms l) t)) as [(u & c & Eu & Du & _) LB].
  exists u. unfold primitive_at. rewrite PS. split; [exact Eu|].
  assert (I : instance eps p u).
  { unfold instance. rewrite PS. exists [t]. split; [|exact Eu]. rewrite PP. constructor; [exact Ht|constructor]. }
  split; [eapply good_instance; eauto|]. split; [exact Du|]. split; [reflexivity|]. cbn [on_all fst]. split.
  - intros E HE. rewrite <- Eu. now apply Fin.
  - now rewrite <- Eu.
Qed.

Lemma prim_safe p l t u : SP l p -> primitive_at eps p t = Ok u -> made eps u.
Proof.
  intros (_ & (GS & _) & pu & PS & _) H. unfold primitive_at in H. rewrite PS in H.
  assert (I : instance eps p u).
  { unfold instance. rewrite PS. exists [t]. split; [|exact H]. now apply as_unitary_ok_inv in H. }
  eapply good_instance; eauto.
Qed.

Lemma allows_subset l p gt : SP l p -> allows eps (2 ^ n) p gt ->
  exists t, (- T <= t <= T)%R /\ subset_gate eps n Ms l t gt.
Proof.
  intros ((PA & pu & PS & D & _ & Fin & _) & _ & pu' & PS' & PP) (I & QS & _).
  assert (pu' = pu) by congruence. subst pu'.
  unfold instance in I. rewrite PS in I. destruct I as (vs & R & Eu). rewrite PP in R.
  inversion R as [|q t qs vs' Ht R']; subst. inversion R'; subst. cbn [pr_min pr_max] in Ht.
  exists t. split; [exact Ht|]. destruct (QS _ PA) as [QQ|[]]. split; [now symmetry|]. split.
  - intros E HE. rewrite <- Eu. now apply Fin.
  - rewrite <- Eu. now apply (Fin t _ Ht (ev_evolution (2 ^ n) (part_of Ms l) t)).
Qed.

Lemma allows_stoq b ls ps gt : term_subsets (List.length Ms) b ls -> Forall2 SP ls ps ->
  (exists p, In p ps /\ allows eps (2 ^ n) p gt) -> stoq_gate eps n Ms T b gt.
Proof.
  intros TS F (p & Hp & A). assert (X : exists l, In l ls /\ SP l p).
  { clear TS. induction F as [|l q ls ps H F IH]; [destruct Hp|]. destruct Hp as [<-|Hp].
    - exists l. simpl. auto.
    - destruct (IH Hp) as (l' & H1 & H2). exists l'. simpl. auto. }
  destruct X as (l & Hl & S). destruct (ascending_of _ _ _ _ TS Hl) as (X1 & X2 & X3).
  destruct (allows_subset l p gt S A) as (t & Ht & SG). exists l, t. auto.
Qed.
End Prims.

Lemma small_drift_0 n K : small_drift 0 n K.
Proof.
  split; [lra|]. unfold drift_bound. rewrite !Rmult_0_r. split; lra.
Qed.

(** * Compilation *)
Definition steps_max : nat := Z.to_nat 10000.

Section Compile.
Variables (g : rng) (eps : R) (n : nat) (Ms : list mat) (h : hamiltonian) (T : R) (b : bool).
Hypothesis G : rng_ok g.
Hypothesis n1 : (1 <= n)%nat.
Hypothesis SD1 : small_drift eps n 1.
Hypothesis HH : hamiltonian_of (2 ^ n) Ms h.
Notation SP := (subset_prim eps n Ms T).

Lemma prims_T ps : stoq_primitives eps h T b = Ok ps -> (0 <= T)%R.
Proof.
  intros H. destruct (Rle_lt_dec 0 T) as [K|K]; [exact K|].
  destruct (C44_primitives_lemma eps n Ms h T b n1 SD1 HH) as [_ X]. specialize (X K). congruence.
Qed.

Lemma prims_facts ps : stoq_primitives eps h T b = Ok ps ->
  exists ls, term_subsets (List.length Ms) b ls /\ Forall2 SP ls ps /\ ls <> [].
Proof.
  intros H. destruct (primitives_ok eps n Ms h T b n1 SD1 HH (prims_T ps H)) as (ls & ps' & E & TS & F).
  assert (ps' = ps) by congruence. subst ps'. exists ls. split; [exact TS|]. split; [exact F|].
  destruct (ham_facts _ _ _ HH) as (_ & _ & NE & _). destruct Ms as [|M Ms']; [congruence|].
  destruct b; cbn [term_subsets] in TS.
  - assert (X : In [0%nat] ls).
    { apply TS. split; [discriminate|]. split; [constructor; constructor|]. intros i [<-|[]]. simpl. lia. }
    intros ->. destruct X.
  - rewrite TS. discriminate.
Qed.

Lemma prims_good ls ps p : Forall2 SP ls ps -> In p ps -> good_primitive eps n p /\ p_allowed p = Some [seq 0 n] /\
  src_dim (p_source p) = (2 ^ n)%nat.
Proof.
  intros F Hp. induction F as [|l q ls ps H F IH]; [destruct Hp|]. destruct Hp as [<-|Hp]; auto.
  destruct H as ((PA & pu & PS & D & _) & GP & _). split; [exact GP|]. split; [exact PA|]. now rewrite PS.
Qed.

Lemma stoq_compiler ps : stoq_primitives eps h T b = Ok ps ->
  exists c, mk_compiler (h_dim h) false ps None (1 / 2) (1 / 10) = Ok c /\ c_dim c = (2 ^ n)%nat /\ c_array c = false /\
    c_prims c = ps /\ good_compiler eps n c /\
    (forall target thr st, compile_stoq_for eps g h target T thr b st =
       (let '((st', _), r) := compile g eps target (Some thr) 10000 (st, c) in (st', r))).
Proof.
  intros H. destruct (prims_facts ps H) as (ls & TS & F & NE). destruct (ham_facts _ _ _ HH) as (DP & D & _).
  destruct (mk_compiler_fine (h_dim h) false ps None (1 / 2) (1 / 10)) as (c & EC).
  { now rewrite D. }
  { intros p Hp. rewrite D. destruct (prims_good _ _ _ F Hp) as (_ & _ & ->). lia. }
  destruct (mk_compiler_ok _ _ _ _ _ _ _ EC) as (_ & Cd & Ca & Cp & Cq & Cap).
  exists c. split; [exact EC|]. split; [now rewrite Cd|]. split; [exact Ca|]. split; [exact Cp|]. split.
  - split; [now rewrite Cd|]. split; [rewrite Cap; lra|]. rewrite Cp, Cq. split.
    + intros p Hp. now apply (prims_good ls ps).
    + inversion F as [|l p ls' ps' HP F' E1 E2]; [congruence|]. subst. exists p. split; [simpl; auto|].
      destruct HP as ((PA & _) & _). rewrite PA. discriminate.
  - intros target thr st. unfold compile_stoq_for. unfold se_bind at 1, se_lift at 1. rewrite H.
    unfold with_compiler. rewrite EC. unfold se_bind, se_lift. destruct (compile _ _ _ _ _ _) as [[st' c'] r]. reflexivity.
Qed.

Lemma stoq_for_inv target thr st st' r : compile_stoq_for eps g h target T thr b st = (st', Ok r) ->
  exists ps c c', stoq_primitives eps h T b = Ok ps /\ c_dim c = (2 ^ n)%nat /\ c_array c = false /\ c_prims c = ps /\
    good_compiler eps n c /\ compile g eps target (Some thr) 10000 (st, c) = ((st', c'), Ok r).
Proof.
  intros H. assert (X : exists ps, stoq_primitives eps h T b = Ok ps).
  { unfold compile_stoq_for in H. apply bind_ok in H. destruct H as (ps & st1 & E & _). apply lift_ok in E. exists ps. apply E. }
  destruct X as (ps & E). destruct (stoq_compiler ps E) as (c & _ & Cd & Ca & Cp & GC & R). rewrite R in H.
  destruct (compile g eps target (Some thr) 10000 (st, c)) as [[st1 c'] r1] eqn:EC. injection H as -> ->.
  exists ps, c, c'. auto 10.
Qed.

Lemma stoq_for_ok target thr st st' s costs : reachable eps (r_world st) ->
  compile_stoq_for eps g h target T thr b st = (st', Ok (s, costs)) ->
  has_dim (r_world st') s (2 ^ n) /\ (Z.of_nat (List.length costs) <= 10000)%Z /\
  List.Forall (stoq_gate eps n Ms T b) (contents (r_world st') s) /\
  exists p close, answers eps (r_world st') s p /\ u_close_to eps p target (Some thr) = Ok close /\
    (close = false -> Z.of_nat (List.length costs) = 10000%Z).
Proof.
  intros RE H. destruct (stoq_for_inv _ _ _ _ _ H) as (ps & c & c' & E & Cd & Ca & Cp & GC & EC).
  destruct (prims_facts ps E) as (ls & TS & F & NE).
  destruct (C24_lemma _ _ _ _ _ _ _ _ _ _ _ G RE EC) as (L & p & close & A & EU & HC).
  destruct (C27_lemma _ _ _ _ _ _ _ _ _ _ _ G RE EC) as (HD & FA). rewrite Cd in HD, FA. rewrite Cp in FA.
  split; [exact HD|]. split; [lia|]. split.
  - eapply Forall_impl; [|exact FA]. intros gt (p1 & X & Y). apply (allows_stoq eps n Ms T b ls ps); eauto. exists p1. split; auto. eapply weighted_in; eauto.
  - exists p, close. split; [exact A|]. split; [exact EU|]. intros X. specialize (HC X). lia.
Qed.
End Compile.

Lemma C44_compile_lemma : forall g eps n Ms h t T thr simultaneous st st' s costs,
  rng_ok g -> (1 <= n)%nat -> small_drift eps n 1 -> hamiltonian_of (2 ^ n) Ms h -> reachable eps (r_world st) ->
  compile_stoq_sequence eps g h t T thr simultaneous st = (st', Ok (s, costs)) ->
  has_dim (r_world st') s (2 ^ n) /\ (Z.of_nat (List.length costs) <= 10000)%Z /\
  List.Forall (stoq_gate eps n Ms T simultaneous) (contents (r_world st') s) /\
  exists v p close, time_evolution_operator eps h t = Ok v /\ answers eps (r_world st') s p /\
    u_close_to eps p v (Some thr) = Ok close /\
    (close = false -> Z.of_nat (List.length costs) = 10000%Z).
Proof.
  intros g eps n Ms h t T thr b st st' s costs G N1 SD HH RE H. unfold compile_stoq_sequence in H.
  apply bind_ok in H. destruct H as (v & st1 & E & H). apply lift_ok in E. destruct E as [-> E].
  destruct (stoq_for_ok g eps n Ms h T b G N1 SD HH v thr st st' s costs RE H) as (A1 & A2 & A3 & p & close & A4 & A5 & A6).
  split; [exact A1|]. split; [exact A2|]. split; [exact A3|]. exists v, p, close. auto.
Qed.

Lemma teo_made eps n Ms h t : small_drift eps n 1 -> hamiltonian_of (2 ^ n) Ms h ->
  exists v, time_evolution_operator eps h t = Ok v /\ made eps v /\ u_dim v = (2 ^ n)%nat.
Proof.
  intros SD HH. destruct (small_lim eps n 1 1 SD ltac:(lia)) as [E0 L].
  destruct (teo_stands eps n Ms h t E0 L HH) as (u & c & Eu & _ & [_ MF] & Du). exists u. auto using made_from_made.
Qed.

Lemma C44_exact_lemma : forall g n Ms h t T thr simultaneous st,
  rng_ok g -> (1 <= n)%nat -> hamiltonian_of (2 ^ n) Ms h -> exact_world (r_world st) -> (0 <= T)%R ->
  exists st' s costs v p, compile_stoq_sequence 0 g h t T thr simultaneous st = (st', Ok (s, costs)) /\
    exact_world (r_world st') /\
    time_evolution_operator 0 h t = Ok v /\ answers 0 (r_world st') s p /\
    meq (2 ^ n) (u_mat p) (ordered n (contents (r_world st') s)) /\
    (costs <> [] -> u_distance_from 0 v p = Ok (last costs 0%R)).
Proof.
  intros g n Ms h t T thr b st G N1 HH HX T0. assert (SD := small_drift_0 n 1).
  destruct (teo_made 0 n Ms h t SD HH) as (v & Ev & MV & DV).
  destruct (primitives_ok 0 n Ms h T b N1 SD HH T0) as (ls & ps & E & _).
  destruct (stoq_compiler g 0 n Ms h T b N1 SD HH ps E) as (c & _ & Cd & Ca & Cp & GC & R).
  destruct (C28_lemma g st c v (Some thr) 10000 n G HX GC (or_introl Ca) (made_built0 _ MV) DV) as (st' & c' & s & costs & EC).
  assert (GS : forall p, In p (c_prims c) -> good_source 0 (p_source p)).
  { intros p Hp. destruct GC as (_ & _ & GP & _). now apply GP. }
  destruct (C26_lemma _ _ _ _ _ _ _ _ _ _ n G HX Cd GS EC) as (HX' & p & close & A & _ & M & _).
  exists st', s, costs, v, p. split; [|split; [exact HX'|split; [exact Ev|split; [exact A|split; [exact M|]]]]].
  - unfold compile_stoq_sequence, se_bind at 1, se_lift. rewrite Ev, R, EC. reflexivity.
  - intros NE. destruct (C25_lemma _ _ _ _ _ _ _ _ _ _ n G HX Cd GS EC NE) as (p' & A' & X).
    assert (p' = p) by (eapply answers_unique; eauto). now subst.
Qed.

Lemma C44_drift_lemma : forall g eps n Ms h t T thr simultaneous st K,
  rng_ok g -> (1 <= n)%nat -> hamiltonian_of (2 ^ n) Ms h -> drift_world eps K (r_world st) -> (0 <= T)%R ->
  small_drift eps n (S (K + Z.to_nat 10000)) ->
  exists st' s costs p, compile_stoq_sequence eps g h t T thr simultaneous st = (st', Ok (s, costs)) /\
    drift_world eps (K + Z.to_nat 10000) (r_world st') /\ answers eps (r_world st') s p /\
    (fro (2 ^ n) (mminus (u_mat p) (ordered n (contents (r_world st') s))) <= drift_bound eps n (K + Z.to_nat 10000))%R.
Proof.
  intros g eps n Ms h t T thr b st K G N1 HH HX T0 SDK.
  set (N := Z.to_nat 10000) in *.
  assert (SD : small_drift eps n 1) by (eapply small_drift_le; [|exact SDK]; lia).
  assert (SD2 : small_drift eps n (K + N)) by (eapply small_drift_le; [|exact SDK]; lia).
  destruct (teo_made eps n Ms h t SD HH) as (v & Ev & MV & DV).
  destruct (primitives_ok eps n Ms h T b N1 SD HH T0) as (ls & ps & E & _).
  destruct (stoq_compiler g eps n Ms h T b N1 SD HH ps E) as (c & _ & Cd & Ca & Cp & GC & R).
  destruct (C28_drift_lemma g eps st c v (Some thr) 10000 n K G HX GC (or_introl Ca) MV DV SDK) as (st' & c' & s & costs & EC).
  assert (GS : forall p, In p (c_prims c) -> good_source eps (p_source p)).
  { intros p Hp. destruct GC as (_ & _ & GP & _). now apply GP. }
  destruct (C26_drift_lemma _ _ _ _ _ _ _ _ _ _ _ n K G HX Cd GS SD2 EC) as (HX' & p & close & A & _ & M & _).
  exists st', s, costs, p. split; [|split; [exact HX'|split; [exact A|exact M]]].
  unfold compile_stoq_sequence, se_bind at 1, se_lift. rewrite Ev, R, EC. reflexivity.
Qed.
