(** Concrete cases of C63. *)
From Coq Require Import Reals List Arith Lia Lra Bool String ZArith Permutation.
From Coquelicot Require Import Rcomplements Complex.
From Verif Require Import Base CMat CMatFacts Det DetFacts Norms ModelUnitary ModelEntry ModelPrimitive
  ModelSequence ModelCompiler Spec SpecModel SpecCompiler PUnitary PUnitaryProps PEmbed PEntry PSeqHeap PSeqMeth PSeqNear PSeqWorld
  PSeqUndo PSeqInv PSeqHist PSeqProps PSeqCases PCompView PCompRun PCompEntry PCompLoop PCompTrace PCompTotal PCompProps PCompMore
  PCompCases PCompEx PReach.
Import ListNotations.
Open Scope R_scope.
Open Scope C_scope.

(** A rotation anywhere, with probability 1/4, and on qubit 1 only, with 3/4. *)
Definition second_only (u : unitary) : primitive := {| p_source := Fixed u; p_allowed := Some [[1%nat]] |}.
Definition pair_compiler (u : unitary) : compiler :=
  {| c_dim := 4; c_array := false; c_prims := [rot_primitive u; second_only u];
     c_probs := Some [(1 / 4)%R; (3 / 4)%R];
     c_max_beta := ((4 ^ 2) ^ 2)%R; c_beta := 0; c_rate := 1; c_append := (1 / 2)%R |}.
Definition pair_gates (u : unitary) : list (unitary * list nat) := [(u, [0%nat]); (u, [1%nat])].

Lemma placement_one q : (q < 2)%nat -> placement 2 [q].
Proof.
  intros H. split; [|split].
  - constructor; [simpl; tauto|constructor].
  - discriminate.
  - intros x [<-|[]]. exact H.
Qed.

Lemma rot_good2 eps u : built eps u -> u_dim u = 2%nat -> good_primitive eps 2 (rot_primitive u).
Proof. intros B D. split; [exact (built_made _ _ B)|]. exists 1%nat. split; [lia|exact D]. Qed.
Lemma second_good eps u : built eps u -> u_dim u = 2%nat -> good_primitive eps 2 (second_only u).
Proof.
  intros B D. split; [exact (built_made _ _ B)|]. intros qs [<-|[]]. split; [apply placement_one; lia|].
  simpl. now rewrite D.
Qed.

Lemma pair_good eps u : built eps u -> u_dim u = 2%nat -> good_compiler eps 2 (pair_compiler u).
Proof.
  intros B D. split; [reflexivity|]. split; [simpl; lra|]. split.
  - intros p [<-|[<-|[]]]; [now apply rot_good2|now apply second_good].
  - split; [discriminate|]. split.
    + intros p [<-|[<-|[]]]; discriminate.
    + split; [reflexivity|]. split.
      * intros x [<-|[<-|[]]]; lra.
      * cbn [fold_right]. replace (1 / 4 + (3 / 4 + 0) - 1)%R with 0%R by lra. rewrite Rabs_R0.
        apply Rlt_le, Rinv_0_lt_compat, pow_lt. lra.
Qed.

Lemma rot_drawable eps u q : u_dim u = 2%nat -> (q < 2)%nat -> drawable eps 2 (rot_primitive u) (u, [q]).
Proof.
  intros D H. split; [reflexivity|]. split; [discriminate|]. intros _. split; [now apply placement_one|exact D].
Qed.
Lemma second_drawable eps u : drawable eps 2 (second_only u) (u, [1%nat]).
Proof. split; [reflexivity|]. split; [|discriminate]. intros ls E. injection E as <-. simpl. auto. Qed.

Lemma pair_repertoire eps u : u_dim u = 2%nat -> Forall (in_repertoire eps 2 (pair_compiler u)) (pair_gates u).
Proof.
  intros D. constructor; [|constructor; [|constructor]].
  - exists (rot_primitive u). split; [|apply rot_drawable; auto].
    exists 0%nat. split; [reflexivity|]. intros q E. injection E as <-. simpl. lra.
  - exists (second_only u). split; [|apply second_drawable].
    exists 1%nat. split; [reflexivity|]. intros q E. injection E as <-. simpl. lra.
Qed.

Lemma product_target u gts : built 0 u -> u_dim u = 2%nat ->
  (forall gt, In gt gts -> fst gt = u /\ exists q, snd gt = [q] /\ (q < 2)%nat) ->
  exists target, built 0 target /\ u_dim target = 4%nat /\ phase_eq 4 (u_mat target) (ordered 2 gts).
Proof.
  intros B D H.
  assert (S : special (2 ^ 2) (ordered 2 gts)).
  { apply ordered_special. intros gt Hg. destruct (H _ Hg) as (-> & q & -> & Hq).
    split; [eapply built_wf; eauto|]. split; [now apply placement_one|]. now rewrite D. }
  destruct S as [U _]. change (2 ^ 2)%nat with 4%nat in U.
  destruct (mk_unitary_exact 0 4 (ordered 2 gts) None [] false [] ltac:(lia) U (eps_clean_0 _ _))
    as (t & E & Dt & _ & _ & _ & _ & M & C & _).
  exists t. split; [|split; [exact Dt|]].
  - exists 4%nat, (ordered 2 gts), None, [], false, []. split; [exact U|]. split; [apply eps_clean_0|exact E].
  - eexists. split; [exact C|exact M].
Qed.

Lemma ex_C63_lemma : exists st c gts target,
  exact_world (r_world st) /\ good_compiler 0 2 c /\ c_array c = false /\ (0 < c_append c)%R /\
  Forall (in_repertoire 0 2 c) gts /\ List.length gts = 2%nat /\ built 0 target /\ u_dim target = 4%nat /\
  phase_eq 4 (u_mat target) (ordered 2 gts).
Proof.
  destruct (rot345_built 0 ltac:(lra)) as (u & B & D & _).
  destruct (product_target u (pair_gates u) B D) as (t & T1 & T2 & T3).
  { intros gt [<-|[<-|[]]]; split; auto; eexists; split; [reflexivity|lia|reflexivity|lia]. }
  exists start, (pair_compiler u), (pair_gates u), t.
  split; [exact empty_exact|]. split; [now apply pair_good|]. split; [reflexivity|]. split; [simpl; lra|].
  split; [now apply pair_repertoire|]. auto.
Qed.

Lemma two_small : small_drift eps_code 2 (S (0 + 3)).
Proof.
  unfold small_drift, drift_bound. pose proof eps_code_small as HE.
  change (S (0 + 3)) with 4%nat. replace (INR 4) with 4%R by (rewrite INR_IZR_INZ; reflexivity).
  replace (INR (2 ^ 2)) with 4%R by (rewrite INR_IZR_INZ; reflexivity).
  assert (sqrt 4 <= 2)%R.
  { rewrite <- (sqrt_Rsqr 2) by lra. apply sqrt_le_1_alt. unfold Rsqr. lra. }
  unfold eps_code in *. split; [lra|]. split; lra.
Qed.

Lemma ex_C63_drift_lemma : exists st c gts target,
  drift_world eps_code 0 (r_world st) /\ good_compiler eps_code 2 c /\ c_array c = false /\ (0 < c_append c)%R /\
  Forall (in_repertoire eps_code 2 c) gts /\ List.length gts = 3%nat /\
  small_drift eps_code 2 (S (0 + List.length gts)) /\ made eps_code target /\ u_dim target = 4%nat.
Proof.
  pose proof eps_code_small as HE.
  destruct (rot345_built eps_code ltac:(lra)) as (u & B & D & _).
  destruct (mk_unitary_exact eps_code 4 mid None [] false [] ltac:(lia) (unitary_mid 4) (eps_clean_mid eps_code 4 ltac:(lra))) as (t & E & Dt & _).
  exists start, (pair_compiler u), ((u, [0%nat]) :: pair_gates u), t.
  split. { exists []. split; [reflexivity|]. split; [exact I|]. simpl. lia. }
  split; [now apply pair_good|]. split; [reflexivity|]. split; [simpl; lra|].
  split.
  { constructor; [|now apply pair_repertoire]. assert (P := pair_repertoire eps_code u D). now inversion P. }
  split; [reflexivity|]. split; [exact two_small|]. split; auto.
  exists 4%nat, mid, None, [], false, []. split; auto. left. apply unitary_mid.
Qed.

(** A layer: a rotation anywhere and one on qubit 1, in either order. *)
Definition pair_table (u : unitary) : list (primitive * Z) := [(rot_primitive u, 1%Z); (second_only u, 1%Z)].
Definition pair_layers (u : unitary) : list (list (unitary * list nat)) :=
  [[(u, [1%nat]); (u, [0%nat])]; [(u, [1%nat]); (u, [1%nat])]].

Lemma pair_table_good eps u : built eps u -> u_dim u = 2%nat -> good_table eps 2 (pair_table u).
Proof.
  intros B D. constructor; [|constructor; [|constructor]]; cbn [fst snd].
  - split; [now apply rot_good2|discriminate].
  - split; [now apply second_good|discriminate].
Qed.

Lemma pair_layers_drawable eps u : u_dim u = 2%nat -> Forall (drawable_layer eps 2 (pair_table u)) (pair_layers u).
Proof.
  intros D. constructor; [|constructor; [|constructor]].
  - exists [[(u, [0%nat])]; [(u, [1%nat])]]. split; [apply perm_swap|].
    constructor; [|constructor; [|constructor]]; (split; [reflexivity|]); (apply Forall_cons; [|apply Forall_nil]); cbn [fst].
    + apply rot_drawable; auto.
    + apply second_drawable.
  - exists [[(u, [1%nat])]; [(u, [1%nat])]]. split; [apply Permutation_refl|].
    constructor; [|constructor; [|constructor]]; (split; [reflexivity|]); (apply Forall_cons; [|apply Forall_nil]); cbn [fst].
    + apply rot_drawable; auto.
    + apply second_drawable.
Qed.

Lemma ex_C63_layered_lemma : exists st c counts layers target,
  exact_world (r_world st) /\ c_dim c = 4%nat /\ (0 < c_append c <= 1)%R /\ good_table 0 2 counts /\
  Forall (drawable_layer 0 2 counts) layers /\ map (@List.length _) layers = [2; 2]%nat /\
  built 0 target /\ u_dim target = 4%nat /\ phase_eq 4 (u_mat target) (ordered 2 (List.concat layers)).
Proof.
  destruct (rot345_built 0 ltac:(lra)) as (u & B & D & _).
  destruct (product_target u (List.concat (pair_layers u)) B D) as (t & T1 & T2 & T3).
  { intros gt Hg. simpl in Hg. repeat (destruct Hg as [<-|Hg]; [split; [reflexivity|]; eexists; split; [reflexivity|lia]|]).
    destruct Hg. }
  exists start, (pair_compiler u), (pair_table u), (pair_layers u), t.
  split; [exact empty_exact|]. split; [reflexivity|]. split; [simpl; lra|]. split; [now apply pair_table_good|].
  split; [now apply pair_layers_drawable|]. auto.
Qed.
