(** The older copies of the library beside the notebooks. *)
From Coq Require Import Reals List Arith Lia Lra Bool String ZArith.
From Coquelicot Require Import Rcomplements Complex.
From Verif Require Import Base CMat CMatFacts ModelUnitary ModelEntry ModelPrimitive ModelSequence ModelText ModelGates ModelOld
  Spec SpecModel SpecGates PUnitary PUnitaryProps PFamilies PDrift PEntry PSeqNear PGates PGms PFamilies PGatesEx PNotebook.
Import ListNotations.
Set Bullet Behavior "Strict Subproofs".
Open Scope R_scope.

Lemma old_close_to_same_lemma : forall eps u v t, t <> Some 0%R ->
  old_close_to eps u v t = u_close_to eps u v t.
Proof.
  intros eps u v [t|] H; unfold old_close_to, u_close_to, bind; destruct (u_distance_from eps u v); try reflexivity.
  destruct (Req_EM_T t 0) as [->|]; [congruence|reflexivity].
Qed.

Lemma old_close_to_zero eps u v : old_close_to eps u v (Some 0%R) = u_close_to eps u v None.
Proof.
  unfold old_close_to, u_close_to, bind. destruct (u_distance_from eps u v); [|reflexivity].
  destruct (Req_EM_T 0 0); [reflexivity|congruence].
Qed.

Lemma old_close_to_zero_lemma : forall eps u v,
  built eps u -> built eps v -> u_dim u = u_dim v -> eps_clean eps (u_dim u) (u_mat u) ->
  u_close_to eps u v (Some 0%R) = Ok true /\
  exists b, old_close_to eps u v (Some 0%R) = Ok b /\
    (b = true <-> (1 - overlap (u_dim u) (u_mat u) (u_mat v) <= / 10 ^ 8)%R).
Proof.
  intros eps u v Bu Bv D C. destruct (C07_lemma eps u v Bu Bv D C) as (T & _ & N & _). split.
  - destruct (T 0%R) as (b & E & _ & Z & _). rewrite E, Z; [reflexivity|lra].
  - rewrite old_close_to_zero. exact N.
Qed.

Lemma ex_old_pair : exists u v, built eps_code u /\ built eps_code v /\ u_dim u = u_dim v /\
  eps_clean eps_code (u_dim u) (u_mat u) /\ overlap (u_dim u) (u_mat u) (u_mat v) = 0%R.
Proof.
  destruct ex_coupling_lemma as [_ C]. destruct (xx_exact eps_code (PI / 2) C) as (u & Eu & D & M & _).
  assert (C0 : eps_clean eps_code 4 (xx_coupling 0)).
  { eapply eps_clean_meq; [symmetry; exact coupling_zero|apply eps_clean_mid; apply eps_code_pos]. }
  destruct (xx_exact eps_code 0 C0) as (v & Ev & D' & M' & _).
  exists u, v. split; [|split; [|split; [|split]]].
  - unfold g_xx in Eu. do 6 eexists. split; [|split; [|exact Eu]].
    + eapply unitary_meq; [symmetry; apply xx_matrix_eq|apply xx_special].
    + eapply eps_clean_meq; [symmetry; apply xx_matrix_eq|exact C].
  - unfold g_xx in Ev. do 6 eexists. split; [|split; [|exact Ev]].
    + eapply unitary_meq; [symmetry; apply xx_matrix_eq|apply xx_special].
    + eapply eps_clean_meq; [symmetry; apply xx_matrix_eq|exact C0].
  - congruence.
  - rewrite D. eapply eps_clean_meq; [symmetry; exact M|exact C].
  - rewrite D. rewrite (overlap_meq 4 _ _ _ _ M M'), coupling_overlap, Rminus_0_r, cos_PI2. apply Rabs_R0.
Qed.

Lemma old_close_to_refuted_lemma : exists u v, built eps_code u /\ built eps_code v /\
  u_close_to eps_code u v (Some 0%R) = Ok true /\ old_close_to eps_code u v (Some 0%R) = Ok false.
Proof.
  destruct ex_old_pair as (u & v & Bu & Bv & D & C & O). exists u, v. split; [exact Bu|]. split; [exact Bv|].
  destruct (old_close_to_zero_lemma eps_code u v Bu Bv D C) as (A & b & E & B). split; [exact A|]. rewrite E.
  destruct b; [|reflexivity]. exfalso. destruct B as [B _]. specialize (B eq_refl). rewrite O in B.
  assert (1 < 10 ^ 8)%R by (apply Rlt_pow_R1; [lra|lia]). assert (/ 10 ^ 8 < 1)%R by (rewrite <- Rinv_1; apply Rinv_lt_contravar; lra). lra.
Qed.

Lemma old_display_lemma : forall fmt eps st st' r, get_display_output fmt eps st = (st', r) ->
  match r with
  | Raise e => old_get_display_output fmt eps st = (st', Raise e)
  | Ok t => exists lines,
      t = ("# Generated from UnitarySequence.get_display_output()" ++ newline ++ lines)%string /\
      old_get_display_output fmt eps st =
        (st', Ok ("# Display output generated from UnitarySequence.get_display_output()" ++ newline ++ lines)%string)
  end.
Proof.
  intros fmt eps [h s] st' r. unfold old_get_display_output, get_display_output, get_text, se_bind, m_self, m_heap. cbn [fst snd].
  destruct (text_loop eps (u_get_display_name fmt) (s_dim s) (s_entries s) h) as [h' [ls|e]]; unfold se_ret; intros E; injection E as <- <-.
  - exists (String.concat newline ls). split; reflexivity.
  - reflexivity.
Qed.

Lemma old_compile_lemma : forall A (hook : option (unitary -> option R -> Z -> old_res (A * list R))) c T t m,
  (oc_prims c = [] -> old_compile hook c T t m = OldRaise (Lib AssertionError)) /\
  (oc_array c = true -> (2 <= List.length (oc_prims c))%nat -> old_compile hook c T t m = OldRaise (Lib ValueError)) /\
  (oc_array c = false \/ List.length (oc_prims c) = 1%nat -> oc_prims c <> [] ->
     (hook = None -> old_compile hook c T t m = OldRaise NotImplementedError) /\
     (forall f, hook = Some f -> old_compile hook c T t m = f T t m)).
Proof.
  intros A hook [d a ps] T t m. unfold old_compile, old_assert_primitives. cbn. split; [|split].
  - intros ->. reflexivity.
  - intros -> H. destruct ps as [|p [|q ps]]; cbn in H; try lia. reflexivity.
  - intros H N. destruct ps as [|p [|q ps]]; [congruence| |].
    + split; [intros ->|intros f ->]; reflexivity.
    + destruct H as [->|H]; [|cbn in H; lia]. split; [intros ->|intros f ->]; reflexivity.
Qed.

Lemma old_abstract_lemma : forall A c cs T t m r,
  old_compile (A := A) None c T t m <> OldOk r /\
  old_compile_layered (A := A) None T cs t m = OldRaise (Lib AttributeError).
Proof.
  intros A [d a ps] cs T t m r. split; [|reflexivity]. unfold old_compile, old_assert_primitives. cbn.
  destruct ps as [|p [|q ps]]; [discriminate|discriminate|destruct a; discriminate].
Qed.

Lemma old_primitives_lemma : forall d c0 calls, old_mk_compiler d = OldOk c0 ->
  let c := fold_left (fun c call => fst (old_set_primitives (fst call) (snd call) c)) calls c0 in
  oc_dim c = d /\ (0 < d)%nat /\
  (oc_prims c = [] \/ exists call, In call calls /\ oc_prims c = snd call /\ oc_array c = fst call) /\
  (forall p, In p (oc_prims c) -> (src_dim (p_source p) <= d)%nat).
Proof.
  intros d c0 calls H. unfold old_mk_compiler in H. destruct (Nat.ltb_spec 0 d) as [Hd|]; [|discriminate].
  injection H as <-.
  assert (G : forall c1, oc_dim c1 = d -> (forall p, In p (oc_prims c1) -> (src_dim (p_source p) <= d)%nat) ->
    let c := fold_left (fun c call => fst (old_set_primitives (fst call) (snd call) c)) calls c1 in
    oc_dim c = d /\ (oc_prims c = oc_prims c1 /\ oc_array c = oc_array c1 \/
       exists call, In call calls /\ oc_prims c = snd call /\ oc_array c = fst call) /\
    (forall p, In p (oc_prims c) -> (src_dim (p_source p) <= d)%nat)).
  { induction calls as [|[a ps] t IH]; intros c1 D F; cbn [fold_left fst snd]; [auto|].
    destruct (old_set_primitives a ps c1) as [c2 o] eqn:ES. cbn [fst]. unfold old_set_primitives in ES. destruct (forallb _ ps) eqn:E; injection ES as <- _.
    - destruct (IH {| oc_dim := oc_dim c1; oc_array := a; oc_prims := ps |}) as (P & Q & R).
      + exact D.
      + cbn. intros p Hp. rewrite forallb_forall in E. specialize (E p Hp). apply Nat.leb_le in E. congruence.
      + cbn in P, Q, R |- *. split; [exact P|]. split; [|exact R]. right. destruct Q as [[Q1 Q2]|(cl & Q1 & Q2 & Q3)].
        * exists (a, ps). cbn. auto.
        * exists cl. auto.
    - destruct (IH c1 D F) as (P & Q & R). split; [exact P|]. split; [|exact R].
      destruct Q as [Q|(cl & Q1 & Q2 & Q3)]; [now left|right; exists cl; cbn; auto]. }
  specialize (G {| oc_dim := d; oc_array := false; oc_prims := [] |} eq_refl (fun p F => match F with end)).
  cbv zeta in G |- *. destruct G as (P & Q & R). split; [exact P|]. split; [exact Hd|]. split; [|exact R].
  destruct Q as [[Q _]|Q]; auto.
Qed.

Lemma ex_old_compiler_lemma : exists u p c0 c, built eps_code u /\ u_dim u = 4%nat /\
  mk_primitive (Fixed u) (Some [[0%Z; 1%Z]; [1%Z; 0%Z]]) = Ok p /\ old_mk_compiler 4 = OldOk c0 /\
  old_set_primitives false [p; p] c0 = (c, OldOk tt) /\ oc_prims c <> [] /\ oc_array c = false /\
  old_mk_compiler 2 <> OldOk c0 /\
  snd (old_set_primitives false [p] {| oc_dim := 2; oc_array := false; oc_prims := [] |}) = OldRaise (Lib AssertionError).
Proof.
  destruct ex_old_pair as (u & v & Bu & _). clear v.
  destruct ex_coupling_lemma as [_ C]. destruct (xx_exact eps_code (PI / 2) C) as (w & Ew & D & M & _). clear u Bu.
  exists w. unfold mk_primitive. cbn [forallb List.length src_dim]. rewrite D. cbn.
  do 3 eexists. split.
  - unfold g_xx in Ew. do 6 eexists. split; [|split; [|exact Ew]].
    + eapply unitary_meq; [symmetry; apply xx_matrix_eq|apply xx_special].
    + eapply eps_clean_meq; [symmetry; apply xx_matrix_eq|exact C].
  - split; [reflexivity|]. split; [reflexivity|]. split; [reflexivity|]. unfold old_set_primitives. cbn. rewrite D. cbn.
    split; [reflexivity|]. cbn. split; [discriminate|]. split; [reflexivity|]. split; [discriminate|reflexivity].
Qed.
