(** Steps and runs of the compiler, seen from the compiled sequence; for every
    clean-up threshold. *)
From Coq Require Import Reals List Arith Lia Lra Bool String ZArith Permutation.
From Coquelicot Require Import Rcomplements Complex.
From Verif Require Import Base CMat CMatFacts Det DetFacts ModelUnitary ModelEntry ModelPrimitive
  ModelSequence ModelCompiler Spec SpecModel SpecCompiler PUnitary PEntry PSeqHeap PSeqMeth PSeqWorld
  PSeqUndo PCompView PCompRun PCompEntry.
Import ListNotations.
Open Scope R_scope.
Open Scope C_scope.
Open Scope se_scope.

Lemma set_beta_set c b b' : set_beta (set_beta c b) b' = set_beta c b'.
Proof. reflexivity. Qed.
Lemma set_beta_same c : set_beta c (c_beta c) = c.
Proof. now destruct c. Qed.

Section Loop.
Variable g : rng.
Variable eps : R.
Hypothesis G : rng_ok g.
Notation W := (WG eps anyg).
Notation sees := (sees eps).
Notation spares := (spares eps).
Notation gatety := (unitary * list nat)%type.

Lemma c_run_inv {A} (m : RM A) st c st' c' r :
  c_run m (st, c) = ((st', c'), r) -> m st = (st', r) /\ c' = c.
Proof. unfold c_run. cbn [fst snd]. destruct (m st) as [st1 x]. intros H. injection H as <- <- <-. auto. Qed.

(** ** Changes *)
(** A change that did not raise either saved the old contents and made the change
    [R], or left everything visible as it was. *)
Definition change_ok (change : nat -> CM unit) (R : list gatety -> list gatety -> Prop) (c0 : compiler) : Prop :=
  forall b s st st' c' cs pv,
    sees (r_world st) s (c_dim c0) cs pv ->
    change s (st, set_beta c0 b) = ((st', c'), Ok tt) ->
    c' = set_beta c0 b /\
    exists cs' pv', sees (r_world st') s (c_dim c0) cs' pv' /\
      ((pv' = Some cs /\ R cs cs') \/
       (cs' = cs /\ forall p, answers eps (r_world st) s p -> answers eps (r_world st') s p)).

Definition one_change (c : compiler) (cs cs' : list gatety) : Prop :=
  (exists gt p, weighted (c_prims c) (c_probs c) p /\ allows eps (c_dim c) p gt /\ (cs' = gt :: cs \/ cs' = cs ++ [gt])) \/
  (cs <> [] /\ (cs' = tl cs \/ cs' = removelast cs)).

Lemma offered_allows ps probs gt d : offered eps ps probs gt -> fits_in d gt -> exists p, weighted ps probs p /\ allows eps d p gt.
Proof.
  intros (p & H1 & H2 & H3 & H4 & H5 & H6) F. exists p. split; auto.
  split; [exact H2|]. split; [exact H3|]. auto.
Qed.

Lemma change_single c0 : change_ok (make_random_change g eps) (one_change c0) c0.
Proof.
  intros b s st st' c' cs pv S H. unfold make_random_change in H.
  apply bind_ok in H. destruct H as (c & stc & H0 & H). unfold c_self in H0. injection H0 as <- <-.
  cbn [snd] in H. apply bind_ok in H. destruct H as (a & [st1 c1] & H1 & H).
  apply c_run_inv in H1. destruct H1 as [H1 ->].
  assert (W1 := draws_world _ _ _ _ (draws_choose_action g _) H1). rewrite <- W1 in S.
  assert (A : forall mk : nat -> bool -> op,
    (forall l sv w w' v gt, sees w s (c_dim c0) cs pv -> has_gate w l gt -> step eps (mk l sv) w = (w', Ok v) ->
      exists cs', sees w' s (c_dim c0) cs' (if sv then Some cs else pv) /\ fits w (c_dim c0) l /\
        (cs' = gt :: cs \/ cs' = cs ++ [gt])) ->
    (l <-- c_run (create_random_sequence_entry g eps (c_dim (set_beta c0 b)) (c_prims (set_beta c0 b)) (c_probs (set_beta c0 b)));;
     c_run (call eps (mk l true));;; se_ret tt) (st1, set_beta c0 b) = ((st', c'), Ok tt) ->
    c' = set_beta c0 b /\ exists cs' pv', sees (r_world st') s (c_dim c0) cs' pv' /\
     (pv' = Some cs /\ one_change c0 cs cs')).
  { intros mk Hmk HH. apply bind_ok in HH. destruct HH as (l & [st2 c2] & H2 & HH).
    apply c_run_inv in H2. destruct H2 as [H2 ->]. cbn [set_beta c_dim c_prims c_probs] in H2.
    apply bind_ok in HH. destruct HH as (v & [st3 c3] & H3 & HH).
    apply c_run_inv in H3. destruct H3 as [H3 ->]. apply ret_ok in HH. destruct HH as [HH _].
    injection HH as -> ->. split; auto.
    apply (create_ok g eps G) in H2. destruct H2 as (gt & O & HG & Sp).
    destruct (proj1 (proj2 (Sp s)) _ _ _ S) as [S2 _].
    apply call_ok in H3. destruct H3 as [H3 _].
    destruct (Hmk l true _ _ _ gt S2 HG H3) as (cs' & S3 & F & D).
    exists cs', (Some cs). split; auto. split; auto. left.
    destruct (offered_allows _ _ _ (c_dim c0) O) as (p & Hp & Ha).
    { exact (proj2 (fits_gate _ _ _ _ HG F)). }
    exists gt, p. auto. }
  assert (B : forall mk : bool -> op, forall f : list gatety -> list gatety,
    (forall w w' v, sees w s (c_dim c0) cs pv -> step eps (mk true) w = (w', Ok v) ->
      sees w' s (c_dim c0) (f cs) (match cs with [] => pv | _ => Some cs end) /\ (cs = [] -> w' = w)) ->
    (f cs = tl cs \/ f cs = removelast cs) ->
    (c_run (call eps (mk true));;; se_ret tt) (st1, set_beta c0 b) = ((st', c'), Ok tt) ->
    c' = set_beta c0 b /\ exists cs' pv', sees (r_world st') s (c_dim c0) cs' pv' /\
     ((pv' = Some cs /\ one_change c0 cs cs') \/
      (cs' = cs /\ r_world st' = r_world st1))).
  { intros mk f Hmk Hf HH. apply bind_ok in HH. destruct HH as (v & [st3 c3] & H3 & HH).
    apply c_run_inv in H3. destruct H3 as [H3 ->]. apply ret_ok in HH. destruct HH as [HH _].
    injection HH as -> ->. split; auto.
    apply call_ok in H3. destruct H3 as [H3 _].
    destruct (Hmk _ _ _ S H3) as [S3 N]. exists (f cs). destruct cs as [|x t].
    - exists pv. split; auto. right. split; [now destruct Hf as [->| ->]|auto].
    - exists (Some (x :: t)). split; auto. left. split; auto. right. split; [discriminate|].
      destruct Hf as [->| ->]; auto. }
  destruct a.
  - apply A in H; [destruct H as (-> & cs1 & pv1 & S1 & D); split; [reflexivity|exists cs1, pv1; auto]|]. intros l sv w w' v gt S0 HG E.
    destruct (append_first_view eps _ _ _ _ _ _ _ _ _ _ S0 HG E) as (? & ? & ?). eauto.
  - apply A in H; [destruct H as (-> & cs1 & pv1 & S1 & D); split; [reflexivity|exists cs1, pv1; auto]|]. intros l sv w w' v gt S0 HG E.
    destruct (append_last_view eps _ _ _ _ _ _ _ _ _ _ S0 HG E) as (? & ? & ?). eauto.
  - apply (B _ (@tl gatety)) in H; auto.
    + destruct H as (-> & cs' & pv' & S' & D). split; auto. exists cs', pv'. split; auto.
      destruct D as [D|[-> D]]; auto. right. split; auto. intros p. now rewrite D, W1.
    + intros w w' v S0 E. exact (remove_first_view eps _ _ _ _ _ _ _ _ S0 E).
  - apply (B _ (@removelast gatety)) in H; auto.
    + destruct H as (-> & cs' & pv' & S' & D). split; auto. exists cs', pv'. split; auto.
      destruct D as [D|[-> D]]; auto. right. split; auto. intros p. now rewrite D, W1.
    + intros w w' v S0 E. exact (remove_last_view eps _ _ _ _ _ _ _ _ S0 E).
Qed.

Definition layer_change (d : nat) (counts : list (primitive * Z)) (cs cs' : list gatety) : Prop :=
  let L := Z.to_nat (layer_length counts) in
  (exists layer, layer_of eps d counts layer /\ (cs' = layer ++ cs \/ cs' = cs ++ layer)) \/
  (cs <> [] /\ L <> 0%nat /\ (cs' = skipn L cs \/ cs' = firstn (List.length cs - L) cs)).

Lemma parts_allows d counts parts : parts_of eps counts parts -> Forall (fits_in d) (List.concat parts) ->
  Forall2 (fun pc part => List.length part = Z.to_nat (snd pc) /\ Forall (allows eps d (fst pc)) part) counts parts.
Proof.
  induction 1 as [|pc part counts parts [H1 H2] _ IH]; intros F; constructor.
  - split; auto. simpl in F. apply Forall_app in F. destruct F as [F _].
    rewrite Forall_forall in *. intros x Hx.
    destruct (offered_allows _ _ _ d (H2 x Hx) (F x Hx)) as (p & Hp & A).
    apply weighted_in in Hp. destruct Hp as [->|[]]. exact A.
  - apply IH. simpl in F. apply Forall_app in F. apply F.
Qed.

Lemma change_layered c0 counts :
  change_ok (make_random_change_layered g eps counts) (layer_change (c_dim c0) counts) c0.
Proof.
  intros b s st st' c' cs pv S H. unfold make_random_change_layered in H.
  apply bind_ok in H. destruct H as (c & stc & H0 & H). unfold c_self in H0. injection H0 as <- <-.
  cbn [snd] in H. apply bind_ok in H. destruct H as (a & [st1 c1] & H1 & H).
  apply c_run_inv in H1. destruct H1 as [H1 ->].
  assert (W1 := draws_world _ _ _ _ (draws_choose_action g _) H1). rewrite <- W1 in S.
  assert (A : forall (mk : nat -> bool -> op) (f : list gatety -> list gatety),
    (forall gs, Permutation (f gs) gs) ->
    (forall ls gs sta stb, append_all eps mk ls true sta = (stb, Ok tt) ->
      sees (r_world sta) s (c_dim c0) cs pv -> Forall2 (has_gate (r_world sta)) ls gs ->
      exists cs', sees (r_world stb) s (c_dim c0) cs' (match ls with [] => pv | _ => Some cs end) /\
        Forall (fits_in (c_dim c0)) gs /\ (ls = [] -> stb = sta) /\ (cs' = f gs ++ cs \/ cs' = cs ++ f gs)) ->
    (ls <-- c_run (create_random_layer g eps (c_dim (set_beta c0 b)) counts);;
     c_run (append_all eps mk ls true)) (st1, set_beta c0 b) = ((st', c'), Ok tt) ->
    c' = set_beta c0 b /\ exists cs' pv', sees (r_world st') s (c_dim c0) cs' pv' /\
      ((pv' = Some cs /\ layer_change (c_dim c0) counts cs cs') \/
       (cs' = cs /\ forall p, answers eps (r_world st1) s p -> answers eps (r_world st') s p))).
  { intros mk f Hf Hmk HH. apply bind_ok in HH. destruct HH as (ls & [st2 c2] & H2 & HH).
    apply c_run_inv in H2. destruct H2 as [H2 ->]. cbn [set_beta c_dim] in H2.
    apply c_run_inv in HH. destruct HH as [HH ->]. split; auto.
    destruct (create_layer_ok g eps G _ _ _ _ _ H2 (sees_W _ _ _ _ _ _ S)) as (parts & gs & P1 & P2 & P3 & P4).
    destruct (proj1 (proj2 (P4 s)) _ _ _ S) as [S2 A2].
    destruct (Hmk _ _ _ _ HH S2 P3) as (cs' & S3 & F & N & D).
    exists cs'. destruct ls as [|l ls].
    - inversion P3; subst. rewrite (N eq_refl) in *. exists pv.
      assert (E : f [] = []) by (apply Permutation_nil; apply Permutation_sym; apply Hf).
      rewrite E in D. split; auto. right. split; [|exact A2].
      destruct D as [->| ->]; [auto|apply app_nil_r].
    - exists (Some cs). split; auto. left. split; auto. left. exists (f gs). split; [|exact D].
      exists parts. split; [eapply Permutation_trans; [apply Hf|exact P2]|].
      apply parts_allows; auto. eapply Permutation_Forall; eauto. }
  assert (B : forall (mk : bool -> op) (f : list gatety -> list gatety),
    (forall sta stb, remove_all eps mk (Z.to_nat (layer_length counts)) true sta = (stb, Ok tt) ->
      sees (r_world sta) s (c_dim c0) cs pv ->
      sees (r_world stb) s (c_dim c0) (f cs)
        (match Z.to_nat (layer_length counts), cs with Datatypes.S _, _ :: _ => Some cs | _, _ => pv end) /\
      (Z.to_nat (layer_length counts) = 0%nat \/ cs = [] -> r_world stb = r_world sta)) ->
    (f cs = skipn (Z.to_nat (layer_length counts)) cs \/
     f cs = firstn (List.length cs - Z.to_nat (layer_length counts)) cs) ->
    c_run (remove_all eps mk (Z.to_nat (layer_length counts)) true) (st1, set_beta c0 b) = ((st', c'), Ok tt) ->
    c' = set_beta c0 b /\ exists cs' pv', sees (r_world st') s (c_dim c0) cs' pv' /\
      ((pv' = Some cs /\ layer_change (c_dim c0) counts cs cs') \/
       (cs' = cs /\ r_world st' = r_world st1))).
  { intros mk f Hmk Hf HH. apply c_run_inv in HH. destruct HH as [HH ->]. split; auto.
    destruct (Hmk _ _ HH S) as [S3 N]. unfold layer_change. cbv zeta.
    destruct (Z.to_nat (layer_length counts)) as [|k].
    - exists (f cs), pv. split; [exact S3|]. right. split; [|apply N; auto].
      destruct Hf as [->| ->]; [reflexivity|]. now rewrite Nat.sub_0_r, firstn_all.
    - destruct cs as [|x t].
      + exists (f []), pv. split; [exact S3|]. right. split; [|apply N; auto].
        destruct Hf as [->| ->]; reflexivity.
      + exists (f (x :: t)), (Some (x :: t)). split; [exact S3|]. left. split; auto. right.
        split; [discriminate|]. split; [lia|exact Hf]. }
  assert (C : forall P : rstate -> list gatety -> Prop, (exists cs' pv', sees (r_world st') s (c_dim c0) cs' pv' /\
      ((pv' = Some cs /\ layer_change (c_dim c0) counts cs cs') \/
       (cs' = cs /\ r_world st' = r_world st1))) ->
      exists cs' pv', sees (r_world st') s (c_dim c0) cs' pv' /\
      ((pv' = Some cs /\ layer_change (c_dim c0) counts cs cs') \/
       (cs' = cs /\ forall p, answers eps (r_world st) s p -> answers eps (r_world st') s p))).
  { intros _ (cs' & pv' & S' & D). exists cs', pv'. split; auto.
    destruct D as [D|[-> D]]; auto. right. split; auto. intros p. now rewrite D, W1. }
  destruct a.
  - apply (A _ (@rev gatety)) in H; [rewrite W1 in H; exact H| |].
    + intros gs. apply Permutation_sym, Permutation_rev.
    + intros ls gs sta stb E S0 F0.
      destruct (append_all_first eps s ls gs true sta stb _ _ _ E S0 F0) as (X1 & X2 & X3).
      eexists. split; [exact X1|]. auto.
  - apply (A _ (fun gs => gs)) in H; [rewrite W1 in H; exact H| |].
    + intros gs. apply Permutation_refl.
    + intros ls gs sta stb E S0 F0.
      destruct (append_all_last eps s ls gs true sta stb _ _ _ E S0 F0) as (X1 & X2 & X3).
      eexists. split; [exact X1|]. auto.
  - apply (B _ (skipn (Z.to_nat (layer_length counts)))) in H; auto.
    + destruct H as [-> H]. split; auto. now apply (C (fun _ _ => True)).
    + intros sta stb E S0.
      exact (remove_all_first eps s _ true sta stb _ _ _ E S0).
  - apply (B _ (fun cs => firstn (List.length cs - Z.to_nat (layer_length counts)) cs)) in H; auto.
    + destruct H as [-> H]. split; auto. now apply (C (fun _ _ => True)).
    + intros sta stb E S0.
      exact (remove_all_last eps s _ true sta stb _ _ _ E S0).
Qed.

(** ** Steps *)
Lemma step_ok change R c0 b s target st st' c' cost cs pv :
  change_ok change R c0 ->
  sees (r_world st) s (c_dim c0) cs pv ->
  compile_step g eps change s target (st, set_beta c0 b) = ((st', c'), Ok cost) ->
  let beta := Rmin (b + c_rate c0) (c_max_beta c0) in
  c' = set_beta c0 beta /\
  exists p current p1 proposed cs1 x,
    answers eps (r_world st) s p /\ u_distance_from eps target p = Ok current /\
    (R cs cs1 \/ cs1 = cs) /\
    u_distance_from eps target p1 = Ok proposed /\
    (exists st1,
       change s ({| r_world := fst (step eps (Product s) (r_world st)); r_draws := r_draws st |}, set_beta c0 beta) =
         ((st1, set_beta c0 beta), Ok tt) /\
       answers eps (r_world st1) s p1 /\
       (exists pv1, sees (r_world st1) s (c_dim c0) cs1 pv1) /\
       r_draws st' = Datatypes.S (r_draws st1) /\ x = g_unif g (r_draws st1)) /\
    (((x < metropolis beta (proposed - current))%R /\ cost = proposed /\
      (exists pv1, sees (r_world st') s (c_dim c0) cs1 pv1) /\ answers eps (r_world st') s p1) \/
     ((metropolis beta (proposed - current) <= x)%R /\ cost = current /\
      sees (r_world st') s (c_dim c0) cs None)).
Proof.
  intros HC S H. unfold compile_step in H. cbv zeta. set (beta := Rmin (b + c_rate c0) (c_max_beta c0)).
  apply bind_ok in H. destruct H as (t0 & sta & Ha & H). unfold anneal in Ha. injection Ha as <- <-.
  cbn [fst snd] in H. rewrite set_beta_set in H. cbn [c_beta c_rate c_max_beta set_beta] in H. fold beta in H.
  apply bind_ok in H. destruct H as (p & [st1 c1] & H1 & H). apply c_run_inv in H1. destruct H1 as [H1 ->].
  apply call_unitary_ok in H1. destruct H1 as [H1 HD1].
  destruct (product_view eps _ _ _ _ _ _ _ S H1) as (p' & E & S1 & A & A1 & _). injection E as <-.
  apply bind_ok in H. destruct H as (t1 & [st2 c2] & HCH & H). destruct t1.
  destruct (HC _ _ _ _ _ _ _ S1 HCH) as (-> & cs1 & pv1 & S2 & D).
  replace st1 with {| r_world := fst (step eps (Product s) (r_world st)); r_draws := r_draws st |} in HCH.
  2:{ rewrite H1, <- HD1. cbn [fst]. now destruct st1. }
  apply bind_ok in H. destruct H as (current & sty & H2 & H). apply lift_ok in H2. destruct H2 as [-> H2].
  apply bind_ok in H. destruct H as (p1 & [st3 c3] & H3 & H). apply c_run_inv in H3. destruct H3 as [H3 ->].
  apply call_unitary_ok in H3. destruct H3 as [H3 HD3].
  destruct (product_view eps _ _ _ _ _ _ _ S2 H3) as (p1' & E & S3 & A2 & A3 & _). injection E as <-.
  apply bind_ok in H. destruct H as (proposed & sty & H4 & H). apply lift_ok in H4. destruct H4 as [-> H4].
  apply bind_ok in H. destruct H as (acc & [st4 c4] & H5 & H).
  unfold accept_proposed_change in H5. apply bind_ok in H5. destruct H5 as (cc & sty & H6 & H5).
  unfold c_self in H6. injection H6 as <- <-. cbn [snd] in H5.
  apply bind_ok in H5. destruct H5 as (x & [st5 c5] & H6 & H5).
  apply c_run_inv in H6. destruct H6 as [H6 ->]. apply ret_ok in H5. destruct H5 as [H5 Hacc].
  injection H5 as -> ->. cbn [set_beta c_beta] in Hacc. unfold draw_unif in H6. injection H6 as <- Hx.
  assert (RR : R cs cs1 \/ cs1 = cs) by (destruct D as [[_ D]|[D _]]; auto).
  destruct acc.
  - apply ret_ok in H. destruct H as [H ->]. injection H as -> ->. split; auto.
    exists p, current, p1, proposed, cs1, x. split; auto. split; auto. split; auto. split; auto.
    split; [exists st2; rewrite <- HD3; eauto 10|]. left.
    symmetry in Hacc. apply Rltb_spec in Hacc. split; [exact Hacc|]. split; auto. split; eauto.
  - apply bind_ok in H. destruct H as (v & [st6 c6] & H7 & H). apply c_run_inv in H7. destruct H7 as [H7 ->].
    apply ret_ok in H. destruct H as [H ->]. injection H as -> ->. split; auto.
    apply call_ok in H7. destruct H7 as [H7 Hd]. cbn [r_world r_draws] in H7, Hd.
    exists p, current, p1, proposed, cs1, x. split; auto. split; auto. split; auto. split; auto.
    split; [exists st2; rewrite <- HD3; eauto 10|]. right.
    assert (Hx' : (metropolis beta (proposed - current) <= x)%R).
    { symmetry in Hacc. destruct (Rle_or_lt (metropolis beta (proposed - current)) x) as [|L]; auto.
      apply Rltb_spec in L. unfold metropolis in L. congruence. }
    split; [exact Hx'|]. split; auto.
    destruct D as [[-> D]|[-> D]].
    + destruct (undo_view eps _ _ _ _ _ S3) as (w' & Eu & Su & _). rewrite Eu in H7. injection H7 as <- _.
      exact Su.
    + exfalso. assert (p1 = p) by (eapply answers_unique; [exact A2|apply D; exact A1]). subst p1.
      assert (proposed = current) by congruence. subst proposed.
      unfold metropolis in Hx'. replace (- beta * (current - current))%R with 0%R in Hx' by ring.
      rewrite exp_0, Rmin_left in Hx' by lra. assert (B := proj1 G (r_draws st3)). lra.
Qed.

(** ** Runs *)
Lemma loop_ok change R c0 s target thr max (P : list gatety -> Prop) :
  change_ok change R c0 ->
  (forall cs cs', P cs -> R cs cs' -> P cs') ->
  forall fuel b costs st st' c' costs' cs pv,
  sees (r_world st) s (c_dim c0) cs pv -> P cs ->
  compile_loop g eps change s target thr max costs fuel (st, set_beta c0 b) = ((st', c'), Ok costs') ->
  (exists cs' pv', sees (r_world st') s (c_dim c0) cs' pv' /\ P cs') /\
  (Z.of_nat (List.length costs) <= Z.max 0 max -> Z.of_nat (List.length costs') <= Z.max 0 max)%Z /\
  exists p close, answers eps (r_world st') s p /\ u_close_to eps p target thr = Ok close /\
    (close = false -> (max <= Z.of_nat (List.length costs'))%Z).
Proof.
  intros HC HP. induction fuel as [|fuel IH]; intros b costs st st' c' costs' cs pv S Pc H.
  { discriminate. }
  cbn [compile_loop] in H.
  apply bind_ok in H. destruct H as (p & [st1 c1] & H1 & H). apply c_run_inv in H1. destruct H1 as [H1 ->].
  apply call_unitary_ok in H1. destruct H1 as [H1 _].
  destruct (product_view eps _ _ _ _ _ _ _ S H1) as (p' & E & S1 & A & A1 & _). injection E as <-.
  apply bind_ok in H. destruct H as (close & sty & H2 & H). apply lift_ok in H2. destruct H2 as [-> H2].
  destruct close.
  - apply ret_ok in H. destruct H as [H ->]. injection H as -> ->.
    split; [eauto|]. split; auto. exists p, true. split; auto. split; auto. discriminate.
  - destruct (Z.ltb_spec (Z.of_nat (List.length costs)) max) as [L|L].
    + apply bind_ok in H. destruct H as (cost & [st2 c2] & H3 & H).
      destruct (step_ok change R c0 b s target _ _ _ _ _ _ HC S1 H3)
        as (-> & q1 & q2 & q3 & q4 & cs1 & q5 & _ & _ & D1 & _ & _ & D).
      assert (X : exists cs2 pv2, sees (r_world st2) s (c_dim c0) cs2 pv2 /\ P cs2).
      { destruct D as [(_ & _ & [pv1 D] & _)|(_ & _ & D)].
        - exists cs1, pv1. split; auto. destruct D1 as [D1| ->]; eauto.
        - exists cs, None. auto. }
      destruct X as (cs2 & pv2 & S2 & P2).
      destruct (IH _ _ _ _ _ _ _ _ S2 P2 H) as (I1 & I2 & I3). split; auto. split; auto.
      intros _. apply I2. rewrite app_length. simpl. lia.
    + apply ret_ok in H. destruct H as [H ->]. injection H as -> ->.
      split; [eauto|]. split; auto. exists p, false. split; auto.
Qed.

(** The result of a whole run: every property of contents that holds of the empty
    list and survives changes holds of the result. *)
Lemma with_ok change R c0 target thr max (P : list gatety -> Prop) st c st' c' s costs :
  change_ok change R c0 -> c = set_beta c0 (c_beta c) ->
  P [] -> (forall cs cs', P cs -> R cs cs' -> P cs') ->
  W (r_world st) ->
  compile_with g eps change target thr max (st, c) = ((st', c'), Ok (s, costs)) ->
  s = List.length (w_seqs (r_world st)) /\
  (exists cs' pv', sees (r_world st') s (c_dim c0) cs' pv' /\ P cs') /\
  (Z.of_nat (List.length costs) <= Z.max 0 max)%Z /\
  exists p close, answers eps (r_world st') s p /\ u_close_to eps p target thr = Ok close /\
    (close = false -> (max <= Z.of_nat (List.length costs))%Z).
Proof.
  intros HC Hc P0 HP HW H. unfold compile_with in H.
  apply bind_ok in H. destruct H as (cc & sty & H0 & H). unfold c_self in H0. injection H0 as <- <-.
  cbn [snd] in H. apply bind_ok in H. destruct H as (s0 & [st1 c1] & H1 & H).
  apply c_run_inv in H1. destruct H1 as [H1 ->]. apply call_sequence_ok in H1. destruct H1 as [H1 _].
  rewrite Hc in H1. cbn [set_beta c_dim] in H1.
  destruct (new_sequence_view eps (r_world st) (c_dim c0) HW) as (w1 & E & S1).
  rewrite E in H1. injection H1 as E1 <-.
  apply bind_ok in H. destruct H as (costs1 & [st2 c2] & H2 & H). apply ret_ok in H. destruct H as [H H3].
  injection H as -> ->. injection H3 as -> ->. split; auto.
  rewrite E1 in S1. rewrite Hc in H2.
  destruct (loop_ok change R c0 _ target thr max P HC HP _ _ _ _ _ _ _ _ _ S1 P0 H2) as (I1 & I2 & I3).
  split; auto. split; auto. apply I2. simpl. lia.
Qed.

(** ** The annealing parameter *)
Definition keeps_self (m : CM unit) : Prop := forall st c, snd (fst (m (st, c))) = c.

Lemma keeps_run {A} (m : RM A) st c : snd (fst (c_run m (st, c))) = c.
Proof. unfold c_run. cbn [fst snd]. now destruct (m st). Qed.

Lemma keeps_bind_run {A B} (m : RM A) (f : A -> CM B) st c :
  (forall a st', snd (fst (f a (st', c))) = c) -> snd (fst (se_bind (c_run m) f (st, c))) = c.
Proof.
  intros H. unfold se_bind, c_run. cbn [fst snd]. destruct (m st) as [st' [a|x]]; auto.
Qed.

Lemma keeps_single s : keeps_self (make_random_change g eps s).
Proof.
  intros st c. unfold make_random_change. unfold se_bind at 1, c_self. cbn [snd].
  apply keeps_bind_run. intros [] st'; repeat (apply keeps_bind_run; intros); reflexivity.
Qed.

Lemma keeps_layered counts s : keeps_self (make_random_change_layered g eps counts s).
Proof.
  intros st c. unfold make_random_change_layered. unfold se_bind at 1, c_self. cbn [snd].
  apply keeps_bind_run. intros [] st'; repeat (apply keeps_bind_run; intros); try reflexivity;
    apply keeps_run.
Qed.

Lemma step_beta change s target st c st' c' cost :
  (forall s, keeps_self (change s)) ->
  compile_step g eps change s target (st, c) = ((st', c'), Ok cost) ->
  c' = set_beta c (Rmin (c_beta c + c_rate c) (c_max_beta c)).
Proof.
  intros HK H. unfold compile_step in H.
  apply bind_ok in H. destruct H as (t0 & sta & Ha & H). unfold anneal in Ha. injection Ha as <- <-.
  cbn [fst snd] in H. set (c1 := set_beta c _) in *.
  apply bind_ok in H. destruct H as (p & [st1 c2] & H1 & H). apply c_run_inv in H1. destruct H1 as [_ ->].
  apply bind_ok in H. destruct H as (t1 & [st2 c2] & H2 & H).
  assert (c2 = c1) by (pose proof (HK s st1 c1) as E; now rewrite H2 in E). subst c2.
  apply bind_ok in H. destruct H as (cur & sty & H3 & H). apply lift_ok in H3. destruct H3 as [-> _].
  apply bind_ok in H. destruct H as (p1 & [st3 c3] & H3 & H). apply c_run_inv in H3. destruct H3 as [_ ->].
  apply bind_ok in H. destruct H as (pro & sty & H4 & H). apply lift_ok in H4. destruct H4 as [-> _].
  apply bind_ok in H. destruct H as (acc & [st4 c4] & H5 & H).
  unfold accept_proposed_change in H5. apply bind_ok in H5. destruct H5 as (cc & sty & H6 & H5).
  unfold c_self in H6. injection H6 as <- <-.
  apply bind_ok in H5. destruct H5 as (x & [st5 c5] & H6 & H5).
  apply c_run_inv in H6. destruct H6 as [_ ->]. apply ret_ok in H5. destruct H5 as [H5 _]. injection H5 as _ ->.
  destruct acc.
  - apply ret_ok in H. destruct H as [H _]. congruence.
  - apply bind_ok in H. destruct H as (v & [st6 c6] & H7 & H). apply c_run_inv in H7. destruct H7 as [_ ->].
    apply ret_ok in H. destruct H as [H _]. congruence.
Qed.

(** What is left to be said of a compiler once its [beta] is forgotten. *)
Definition at_step (c0 : compiler) (k : nat) : compiler :=
  set_beta c0 (Rmin (INR k * c_rate c0) (c_max_beta c0)).

Lemma at_step_S c0 k : (0 <= c_max_beta c0)%R ->
  set_beta (at_step c0 k) (Rmin (c_beta (at_step c0 k) + c_rate (at_step c0 k)) (c_max_beta (at_step c0 k))) =
  at_step c0 (Datatypes.S k).
Proof.
  intros M. unfold at_step at 1 2 3 4. rewrite set_beta_set. cbn [c_beta c_rate c_max_beta set_beta].
  unfold at_step. f_equal. rewrite S_INR.
  set (r := c_rate c0). set (m := c_max_beta c0) in *.
  assert (K : (0 <= INR k)%R) by apply pos_INR.
  unfold Rmin. destruct (Rle_dec (INR k * r) m), (Rle_dec ((INR k + 1) * r) m), (Rle_dec (INR k * r + r) m), (Rle_dec (m + r) m);
    try lra.
  - exfalso. assert (0 <= r)%R by nra. nra.
  - assert (r < 0)%R by nra. nra.
Qed.

Lemma loop_beta change s target thr max c0 :
  (forall s, keeps_self (change s)) -> (0 <= c_max_beta c0)%R ->
  forall fuel k costs st st' c' costs',
  compile_loop g eps change s target thr max costs fuel (st, at_step c0 k) = ((st', c'), Ok costs') ->
  exists more, costs' = costs ++ more /\ c' = at_step c0 (k + List.length more).
Proof.
  intros HK HM. induction fuel as [|fuel IH]; intros k costs st st' c' costs' H; [discriminate|].
  cbn [compile_loop] in H.
  apply bind_ok in H. destruct H as (p & [st1 c1] & H1 & H). apply c_run_inv in H1. destruct H1 as [_ ->].
  apply bind_ok in H. destruct H as (close & sty & H2 & H). apply lift_ok in H2. destruct H2 as [-> _].
  destruct close; [|destruct (Z.ltb _ _)].
  - apply ret_ok in H. destruct H as [H ->]. injection H as -> ->. exists []. rewrite app_nil_r, Nat.add_0_r. auto.
  - apply bind_ok in H. destruct H as (cost & [st2 c2] & H3 & H).
    apply step_beta in H3; auto. rewrite at_step_S in H3 by auto. subst c2.
    destruct (IH _ _ _ _ _ _ H) as (more & -> & ->). exists (cost :: more). rewrite <- app_assoc. split; auto.
    f_equal. simpl. lia.
  - apply ret_ok in H. destruct H as [H ->]. injection H as -> ->. exists []. rewrite app_nil_r, Nat.add_0_r. auto.
Qed.

Lemma with_beta change target thr max c0 k st st' c' s costs :
  (forall s, keeps_self (change s)) -> (0 <= c_max_beta c0)%R ->
  compile_with g eps change target thr max (st, at_step c0 k) = ((st', c'), Ok (s, costs)) ->
  c' = at_step c0 (k + List.length costs).
Proof.
  intros HK HM H. unfold compile_with in H.
  apply bind_ok in H. destruct H as (cc & sty & H0 & H). unfold c_self in H0. injection H0 as <- <-.
  apply bind_ok in H. destruct H as (s0 & [st1 c1] & H1 & H).
  apply c_run_inv in H1. destruct H1 as [_ ->].
  apply bind_ok in H. destruct H as (costs1 & [st2 c2] & H2 & H). apply ret_ok in H. destruct H as [H H3].
  injection H as -> ->. injection H3 as -> ->.
  destruct (loop_beta _ _ _ _ _ _ HK HM _ _ _ _ _ _ _ H2) as (more & -> & ->). reflexivity.
Qed.
End Loop.
