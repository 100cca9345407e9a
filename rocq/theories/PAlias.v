(** Proofs about shared mutable objects. *)
From Coq Require Import Reals List Arith Bool String Lia Lra.
From Coquelicot Require Import Complex.
From Verif Require Import Base CMat CMatFacts Det CRoot ModelUnitary ModelEntry ModelSequence ModelAlias SpecAlias.
Import ListNotations.
Open Scope R_scope.
Open Scope C_scope.
Open Scope se_scope.

Section P.
Variable eps : R.

(** The shape of an array an object holds. *)
Definition held (a : ndarray) : Prop := (0 < nrows a)%nat /\ ncols a = nrows a.

(** Every reference of every object exists, and no two objects hold one array. *)
Record wf (k : store) : Prop := {
  wf_array : forall n, alive k n -> (o_array (object k n) < List.length (k_arrays k))%nat;
  wf_dict : forall n, alive k n -> (o_dict (object k n) < List.length (k_dicts k))%nat;
  wf_list : forall n, alive k n -> (o_list (object k n) < List.length (k_lists k))%nat;
  wf_some : (0 < List.length (k_lists k))%nat;
  wf_own : forall n m, alive k n -> alive k m -> n <> m -> o_array (object k n) <> o_array (object k m);
  wf_shape : forall n, alive k n -> held (nth (o_array (object k n)) (k_arrays k) no_array) }.

Lemma wf0 : wf store0.
Proof.
  constructor; unfold alive; cbn; intros; try lia.
Qed.

(** What [init] does, in one form. *)
Lemma init_cases d a name params inv ap k :
  (exists e, mk_unitary eps d (Some a) name
               (match params with Some r => nth r (k_dicts k) [] | None => [] end) inv
               (nth ap (k_lists k) []) = Raise e /\
             init eps d a name params inv ap k = (k, Raise e)) \/
  (exists u, mk_unitary eps d (Some a) name
               (match params with Some r => nth r (k_dicts k) [] | None => [] end) inv
               (nth ap (k_lists k) []) = Ok u /\
     init eps d a name params inv ap k =
       ({| k_arrays := k_arrays k ++ [square d (u_mat u)];
            k_dicts := match params with Some _ => k_dicts k | None => k_dicts k ++ [[]] end;
            k_lists := k_lists k;
            k_units := k_units k ++
              [{| o_array := List.length (k_arrays k);
                  o_dict := match params with Some r => r | None => List.length (k_dicts k) end;
                  o_list := ap; o_name := u_name u; o_inv := inv |}] |},
         Ok (OUnit (List.length (k_units k))))).
Proof.
  unfold init. destruct (mk_unitary _ _ _ _ _ _) as [u|e]; [right|left]; eauto.
Qed.

Lemma mk_fields d a name ps inv ap u :
  mk_unitary eps d (Some a) name ps inv ap = Ok u ->
  u_dim u = d /\ u_params u = ps /\ u_inv u = inv /\ u_apply u = ap.
Proof.
  unfold mk_unitary, bind, assert. intros H.
  repeat (match type of H with context [if ?b then _ else _] => destruct b end; try discriminate).
  injection H as <-. auto.
Qed.

Lemma nth_last {A} (l : list A) x d : nth (List.length l) (l ++ [x]) d = x.
Proof. rewrite app_nth2, Nat.sub_diag; auto. Qed.

Lemma init_look d a name params inv ap k u :
  mk_unitary eps d (Some a) name
     (match params with Some r => nth r (k_dicts k) [] | None => [] end) inv
     (nth ap (k_lists k) []) = Ok u ->
  snd (init eps d a name params inv ap k) = Ok (OUnit (List.length (k_units k))) /\
  look (fst (init eps d a name params inv ap k)) (List.length (k_units k)) = u.
Proof.
  intros H. unfold init. rewrite H. cbn [fst snd]. split; [reflexivity|].
  destruct (mk_fields _ _ _ _ _ _ _ H) as (Hd & Hp & Hi & Ha).
  unfold look. cbn [k_units k_arrays k_dicts k_lists]. rewrite nth_last. cbn [o_array o_dict o_list o_name o_inv].
  rewrite nth_last. cbn [nrows elt square].
  destruct u as [ud um un up ui ua]. cbn in *. subst. f_equal.
  destruct params; [reflexivity|apply nth_last].
Qed.

Lemma init_extends d a name params inv ap k :
  extends k (fst (init eps d a name params inv ap k)).
Proof.
  destruct (init_cases d a name params inv ap k) as [(e & _ & ->)|(u & _ & ->)]; cbn [fst].
  - repeat split; exists []; now rewrite app_nil_r.
  - split; [|split; [|split]]; cbn [k_arrays k_dicts k_lists k_units]; eauto.
    + destruct params; eauto. exists []. now rewrite app_nil_r.
    + exists []. now rewrite app_nil_r.
Qed.

Lemma init_raise d a name params inv ap k e :
  mk_unitary eps d (Some a) name
     (match params with Some r => nth r (k_dicts k) [] | None => [] end) inv
     (nth ap (k_lists k) []) = Raise e ->
  init eps d a name params inv ap k = (k, Raise e).
Proof. intros H. unfold init. now rewrite H. Qed.

Lemma extends_refl k : extends k k.
Proof. repeat split; exists []; now rewrite app_nil_r. Qed.

Lemma extends_trans a b c : extends a b -> extends b c -> extends a c.
Proof.
  intros ([t1 H1] & [t2 H2] & [t3 H3] & [t4 H4]) ([s1 G1] & [s2 G2] & [s3 G3] & [s4 G4]).
  rewrite H1 in G1. rewrite H2 in G2. rewrite H3 in G3. rewrite H4 in G4.
  rewrite <- app_assoc in G1, G2, G3, G4. repeat split; eauto.
Qed.

(** The calls of the library are calls of [init], or do nothing. *)
Lemma library_init x k :
  library x ->
  (exists r, act_step eps x k = (k, r) /\ forall n, r <> Ok (OUnit n)) \/
  exists d a name params inv ap,
    act_step eps x k = init eps d a name params inv ap k /\
    (params = None \/ exists r, params = Some r /\
        ((r < List.length (k_dicts k))%nat \/ exists n, alive k n /\ r = o_dict (object k n))) /\
    ((ap < List.length (k_lists k))%nat \/ ap = 0%nat \/ exists n, alive k n /\ ap = o_list (object k n)).
Proof.
  intros Hl. destruct x; try destruct Hl; cbn [act_step].
  - destruct (opt_ok (k_arrays k) matrix && opt_ok (k_dicts k) params && opt_ok (k_lists k) apply_to) eqn:E;
      [right|left; eexists; split; [reflexivity|discriminate]].
    apply andb_prop in E as [E12 E3]. apply andb_prop in E12 as [E1 E2].
    do 6 eexists. split; [reflexivity|]. split.
    + destruct params as [r|]; [right|now left]. exists r. split; auto. left. now apply Nat.ltb_lt.
    + destruct apply_to as [r|]; [left; now apply Nat.ltb_lt|right; now left].
  - left. destruct (ref_ok _ _); eexists; (split; [reflexivity|discriminate]).
  - destruct (ref_ok (k_units k) n) eqn:E; [right|left; eexists; split; [reflexivity|discriminate]].
    apply Nat.ltb_lt in E. do 6 eexists. split; [reflexivity|].
    split; right; [eexists; split; [reflexivity|]; right|right]; exists n; split; auto; reflexivity.
  - destruct (ref_ok (k_units k) n && ref_ok (k_units k) m) eqn:E'; [right|left; eexists; split; [reflexivity|discriminate]].
    apply andb_prop in E' as [E' _]. apply Nat.ltb_lt in E'. do 6 eexists. split; [reflexivity|].
    split; right; [eexists; split; [reflexivity|]; right|right]; exists n; split; auto; reflexivity.
  - destruct (ref_ok (k_units k) n && ref_ok (k_units k) m); [|left; eexists; split; [reflexivity|discriminate]].
    destruct (Nat.eqb _ _); [right|left; eexists; split; [reflexivity|discriminate]].
    do 6 eexists. split; [reflexivity|]. split; auto.
  - destruct (ref_ok (k_units k) n && ref_ok (k_units k) m); [|left; eexists; split; [reflexivity|discriminate]].
    destruct (Nat.eqb _ _); [right|left; eexists; split; [reflexivity|discriminate]].
    do 6 eexists. split; [reflexivity|]. split; auto.
  - left. destruct (ref_ok (k_units k) n && ref_ok (k_units k) m); [|eexists; split; [reflexivity|discriminate]].
    destruct (u_distance_from _ _ _); eexists; (split; [reflexivity|discriminate]).
Qed.

Lemma library_extends x k : library x -> extends k (fst (act_step eps x k)).
Proof.
  intros Hl. destruct (library_init x k Hl) as [(r & -> & _)|(d & a & nm & ps & iv & ap & -> & _)].
  - apply extends_refl.
  - apply init_extends.
Qed.

Lemma alive_extends k k' n : extends k k' -> alive k n -> alive k' n /\ object k' n = object k n.
Proof.
  intros (_ & _ & _ & [t E]) H. unfold alive, object in *. rewrite E, app_length. split; [lia|now apply app_nth1].
Qed.

Lemma look_object k k' n :
  object k' n = object k n ->
  nth (o_array (object k n)) (k_arrays k') no_array = nth (o_array (object k n)) (k_arrays k) no_array ->
  nth (o_dict (object k n)) (k_dicts k') [] = nth (o_dict (object k n)) (k_dicts k) [] ->
  nth (o_list (object k n)) (k_lists k') [] = nth (o_list (object k n)) (k_lists k) [] ->
  look k' n = look k n.
Proof.
  unfold object. intros H1 H2 H3 H4. unfold look. rewrite H1, H2, H3, H4. reflexivity.
Qed.

Lemma look_extends k k' n : wf k -> extends k k' -> alive k n -> look k' n = look k n.
Proof.
  intros W E H. destruct (alive_extends k k' n E H) as [_ Ho].
  destruct E as ([t1 E1] & [t2 E2] & [t3 E3] & _).
  apply look_object; auto.
  - rewrite E1. apply app_nth1. now apply wf_array.
  - rewrite E2. apply app_nth1. now apply wf_dict.
  - rewrite E3. apply app_nth1. now apply wf_list.
Qed.

(** A store with one more object. *)
Lemma object_new us o n :
  (n < List.length (us ++ [o]))%nat ->
  ((n < List.length us)%nat /\ nth n (us ++ [o]) no_unit = nth n us no_unit) \/
  (n = List.length us /\ nth n (us ++ [o]) no_unit = o).
Proof.
  rewrite app_length. cbn. intros H. destruct (Nat.lt_ge_cases n (List.length us)) as [L|L].
  - left. split; auto. now apply app_nth1.
  - right. assert (n = List.length us) by lia. subst. split; auto. apply nth_last.
Qed.

Lemma init_wf d a name params inv ap k :
  wf k ->
  (params = None \/ exists r, params = Some r /\ (r < List.length (k_dicts k))%nat) ->
  (ap < List.length (k_lists k))%nat ->
  wf (fst (init eps d a name params inv ap k)).
Proof.
  intros W Hp Ha.
  destruct (init_cases d a name params inv ap k) as [(e & _ & ->)|(u & Hu & ->)]; cbn [fst]; [exact W|].
  constructor; unfold alive, object; cbn [k_units k_arrays k_dicts k_lists].
  - intros n Hn. rewrite app_length. cbn [List.length].
    destruct (object_new _ _ _ Hn) as [(L & ->)|(-> & ->)]; cbn [o_array]; [|lia].
    pose proof (wf_array k W n L). unfold object in *. lia.
  - intros n Hn. destruct (object_new _ _ _ Hn) as [(L & ->)|(-> & ->)]; cbn [o_dict].
    + pose proof (wf_dict k W n L). unfold object in *. destruct params; rewrite ?app_length; lia.
    + destruct Hp as [->|(r & -> & Hr)]; rewrite ?app_length; cbn; lia.
  - intros n Hn. destruct (object_new _ _ _ Hn) as [(L & ->)|(-> & ->)]; cbn [o_list]; [|lia].
    now apply (wf_list k W n L).
  - now apply wf_some.
  - intros n m Hn Hm N.
    destruct (object_new _ _ _ Hn) as [(L & ->)|(-> & ->)], (object_new _ _ _ Hm) as [(M & ->)|(-> & ->)];
      cbn [o_array]; try congruence.
    + now apply (wf_own k W).
    + pose proof (wf_array k W n L). unfold object in *. lia.
    + pose proof (wf_array k W m M). unfold object in *. lia.
  - intros n Hn. destruct (object_new _ _ _ Hn) as [(L & ->)|(-> & ->)]; cbn [o_array].
    + rewrite app_nth1 by apply (wf_array k W n L). apply (wf_shape k W n L).
    + rewrite nth_last. split; [|reflexivity]. cbn [nrows square].
      assert (Hd : Nat.ltb 0 d = true).
      { unfold mk_unitary, bind, assert in Hu. destruct (Nat.ltb 0 d); [reflexivity|discriminate]. }
      now apply Nat.ltb_lt.
Qed.

Lemma wf_step x k : wf k -> wf (fst (act_step eps x k)).
Proof.
  intros W. assert (D : library x \/ ~ library x) by (destruct x; cbn; tauto).
  destruct D as [Hl|Hc].
  - destruct (library_init x k Hl) as [(r & -> & _)|(d & a & nm & ps & iv & ap & -> & Hp & Ha)]; [exact W|].
    apply init_wf; auto.
    + destruct Hp as [->|(r & -> & [Hr|(n & Hn & ->)])]; [now left| |]; right; eexists; split; eauto.
      now apply (wf_dict k W).
    + destruct Ha as [H|[->|(n & Hn & ->)]]; auto; [now apply (wf_some k W)|now apply (wf_list k W)].
  - destruct x; cbn in Hc; try tauto; cbn [act_step fst];
      (constructor; unfold alive, object; cbn [k_units k_arrays k_dicts k_lists];
       rewrite ?app_length, ?list_set_length; cbn [List.length];
       [ intros n Hn; pose proof (wf_array k W n Hn) | intros n Hn; pose proof (wf_dict k W n Hn)
       | intros n Hn; pose proof (wf_list k W n Hn) | pose proof (wf_some k W) | apply (wf_own k W)
       | intros n Hn; pose proof (wf_array k W n Hn); pose proof (wf_shape k W n Hn) as S ];
       unfold object in *; try lia; try exact S).
    + now rewrite app_nth1.
    + destruct (Nat.eq_dec r (o_array (nth n (k_units k) no_unit))) as [->|N].
      * rewrite nth_list_set_same by auto. exact S.
      * rewrite nth_list_set_other; auto.
Qed.

Lemma wf_run xs : forall k, wf k -> wf (act_run eps xs k).
Proof.
  induction xs as [|x t IH]; intros k W; cbn [act_run]; auto. apply IH. now apply wf_step.
Qed.

Lemma wf_reached k : reached eps k -> wf k.
Proof. intros [xs ->]. apply wf_run, wf0. Qed.

(** * The calls compute what the value-level model says *)

Lemma alive_ok k n : alive k n -> ref_ok (k_units k) n = true.
Proof. intros H. now apply Nat.ltb_lt. Qed.

Lemma on_qubits_mk l d a nm ps iv :
  on_qubits l (mk_unitary eps d a nm ps iv []) = mk_unitary eps d a nm ps iv l.
Proof.
  unfold mk_unitary, bind, assert.
  repeat (match goal with |- context [if ?b then _ else _] => destruct b end; cbn; auto).
Qed.

Lemma left_eq k n m :
  on_qubits (nth 0 (k_lists k) []) (u_left_multiply eps (look k n) (look k m)) =
  if Nat.eqb (u_dim (look k n)) (u_dim (look k m)) then
    mk_unitary eps (u_dim (look k n))
      (Some (square (u_dim (look k n)) (mmul (u_dim (look k n)) (u_mat (look k m)) (u_mat (look k n)))))
      None [] false (nth 0 (k_lists k) [])
  else Raise AssertionError.
Proof.
  unfold u_left_multiply, bind, assert. destruct (Nat.eqb _ _); [apply on_qubits_mk|reflexivity].
Qed.

Lemma right_eq k n m :
  on_qubits (nth 0 (k_lists k) []) (u_right_multiply eps (look k n) (look k m)) =
  if Nat.eqb (u_dim (look k n)) (u_dim (look k m)) then
    mk_unitary eps (u_dim (look k n))
      (Some (square (u_dim (look k n)) (mmul (u_dim (look k n)) (u_mat (look k n)) (u_mat (look k m)))))
      None [] false (nth 0 (k_lists k) [])
  else Raise AssertionError.
Proof.
  unfold u_right_multiply, bind, assert. destruct (Nat.eqb _ _); [apply on_qubits_mk|reflexivity].
Qed.

Lemma C71_values_lemma k x r :
  computes eps k x r ->
  match r with
  | Ok u => exists k', act_step eps x k = (k', Ok (OUnit (List.length (k_units k)))) /\
                       look k' (List.length (k_units k)) = u /\
                       List.length (k_units k') = Datatypes.S (List.length (k_units k))
  | Raise e => act_step eps x k = (k, Raise e)
  end.
Proof.
  assert (G : forall d a name params inv ap r,
    mk_unitary eps d (Some a) name
      (match params with Some r => nth r (k_dicts k) [] | None => [] end) inv (nth ap (k_lists k) []) = r ->
    match r with
    | Ok u => exists k', init eps d a name params inv ap k = (k', Ok (OUnit (List.length (k_units k)))) /\
                         look k' (List.length (k_units k)) = u /\
                         List.length (k_units k') = Datatypes.S (List.length (k_units k))
    | Raise e => init eps d a name params inv ap k = (k, Raise e)
    end).
  { intros d a nm ps iv ap r0 H. destruct r0 as [u|e].
    - destruct (init_look _ _ _ _ _ _ _ _ H) as [H1 H2].
      exists (fst (init eps d a nm ps iv ap k)). split; [|split].
      + rewrite <- H1. apply surjective_pairing.
      + exact H2.
      + unfold init. rewrite H. cbn. rewrite app_length. cbn. lia.
    - now apply init_raise. }
  destruct x; cbn [computes]; try tauto; cbn [act_step].
  - intros (Ha & Hp & Hl & Hr).
    assert (E : opt_ok (k_arrays k) matrix && opt_ok (k_dicts k) params && opt_ok (k_lists k) apply_to = true).
    { unfold opt_ok. destruct matrix, params, apply_to; cbn; rewrite ?andb_true_iff; repeat split; auto;
        apply Nat.ltb_lt; auto. }
    rewrite E. apply G. rewrite Hr. destruct matrix; cbn [option_map]; destruct apply_to; reflexivity.
  - intros (Hn & ->). rewrite (alive_ok k n Hn). apply G. reflexivity.
  - intros (Hn & Hm & ->). rewrite (alive_ok k n Hn), (alive_ok k m Hm). apply G. reflexivity.
  - intros (Hn & Hm & ->). rewrite (alive_ok k n Hn), (alive_ok k m Hm), left_eq. cbn [andb].
    destruct (Nat.eqb _ _); [apply G; reflexivity|reflexivity].
  - intros (Hn & Hm & ->). rewrite (alive_ok k n Hn), (alive_ok k m Hm), right_eq. cbn [andb].
    destruct (Nat.eqb _ _); [apply G; reflexivity|reflexivity].
Qed.

Lemma C71_frame_lemma k x n :
  reached eps k -> library x -> alive k n ->
  extends k (fst (act_step eps x k)) /\ look (fst (act_step eps x k)) n = look k n.
Proof.
  intros R Hl Hn. pose proof (library_extends x k Hl) as E. split; auto.
  apply look_extends; auto. now apply wf_reached.
Qed.

Lemma C71_own_lemma k n m :
  reached eps k -> alive k n -> alive k m -> n <> m ->
  o_array (object k n) <> o_array (object k m).
Proof. intros R. now apply wf_own, wf_reached. Qed.

(** Actions never remove, and change only what they write. *)
Lemma step_length x k :
  (List.length (k_arrays k) <= List.length (k_arrays (fst (act_step eps x k))))%nat /\
  (List.length (k_units k) <= List.length (k_units (fst (act_step eps x k))))%nat.
Proof.
  assert (D : library x \/ ~ library x) by (destruct x; cbn; tauto). destruct D as [Hl|Hc].
  - destruct (library_extends x k Hl) as ([t1 ->] & _ & _ & [t4 ->]). rewrite !app_length. lia.
  - destruct x; cbn in Hc; try tauto; cbn [act_step fst k_arrays k_units];
      rewrite ?app_length, ?list_set_length; lia.
Qed.

Lemma step_array x k r :
  (r < List.length (k_arrays k))%nat -> (forall A, x <> WriteArray r A) ->
  nth r (k_arrays (fst (act_step eps x k))) no_array = nth r (k_arrays k) no_array.
Proof.
  intros Hr Hw. assert (D : library x \/ ~ library x) by (destruct x; cbn; tauto). destruct D as [Hl|Hc].
  - destruct (library_extends x k Hl) as ([t1 ->] & _). now apply app_nth1.
  - destruct x; cbn in Hc; try tauto; cbn [act_step fst k_arrays]; auto.
    + now apply app_nth1.
    + apply nth_list_set_other. intros ->. now apply (Hw A).
Qed.

(** An array no object holds stays unheld. *)
Lemma step_unheld x k r :
  (r < List.length (k_arrays k))%nat -> (forall n, alive k n -> o_array (object k n) <> r) ->
  forall n, alive (fst (act_step eps x k)) n -> o_array (object (fst (act_step eps x k)) n) <> r.
Proof.
  intros Hr Hu. assert (D : library x \/ ~ library x) by (destruct x; cbn; tauto). destruct D as [Hl|Hc].
  - destruct (library_init x k Hl) as [(o & -> & _)|(d & a & nm & ps & iv & ap & -> & _)]; [exact Hu|].
    destruct (init_cases d a nm ps iv ap k) as [(e & _ & ->)|(u & _ & ->)]; cbn [fst]; [exact Hu|].
    unfold alive, object. cbn [k_units]. intros n Hn.
    destruct (object_new _ _ _ Hn) as [(L & ->)|(-> & ->)]; cbn [o_array]; [now apply Hu|lia].
  - destruct x; cbn in Hc; try tauto; exact Hu.
Qed.

Lemma run_unheld xs : forall k r,
  (r < List.length (k_arrays k))%nat -> (forall n, alive k n -> o_array (object k n) <> r) ->
  (forall n, alive (act_run eps xs k) n -> o_array (object (act_run eps xs k) n) <> r) /\
  ((forall A, ~ In (WriteArray r A) xs) ->
   nth r (k_arrays (act_run eps xs k)) no_array = nth r (k_arrays k) no_array).
Proof.
  induction xs as [|x t IH]; intros k r Hr Hu; cbn [act_run]; [auto|].
  destruct (IH (fst (act_step eps x k)) r) as [H1 H2].
  - destruct (step_length x k). lia.
  - now apply step_unheld.
  - split; auto. intros Hw. rewrite H2.
    + apply step_array; auto. intros A ->. apply (Hw A). now left.
    + intros A HA. apply (Hw A). now right.
Qed.

Lemma act_run_app xs ys k : act_run eps (xs ++ ys) k = act_run eps ys (act_run eps xs k).
Proof. revert k; induction xs as [|x t IH]; intros k; cbn [app act_run]; auto. Qed.

Lemma C71_client_lemma xs a ys :
  let r := List.length (k_arrays (act_run eps xs store0)) in
  let k := act_run eps (xs ++ MakeArray a :: ys) store0 in
  (forall n, alive k n -> o_array (object k n) <> r) /\
  ((forall A, ~ In (WriteArray r A) ys) -> nth r (k_arrays k) no_array = a).
Proof.
  intros r k. unfold k. rewrite act_run_app. cbn [act_run].
  set (k0 := act_run eps xs store0) in *.
  assert (W : wf k0) by apply wf_run, wf0.
  destruct (run_unheld ys (fst (act_step eps (MakeArray a) k0)) r) as [H1 H2].
  - cbn. rewrite app_length. cbn. unfold r. lia.
  - intros n Hn. pose proof (wf_array k0 W n Hn). unfold object in *. cbn. unfold r. lia.
  - split; auto. intros Hw. rewrite (H2 Hw). cbn. apply nth_last.
Qed.

Lemma C71_immutable_lemma xs : forall k n,
  reached eps k -> polite eps xs k -> alive k n ->
  alive (act_run eps xs k) n /\ look (act_run eps xs k) n = look k n.
Proof.
  assert (G : forall xs k n, wf k -> polite eps xs k -> alive k n ->
    alive (act_run eps xs k) n /\ look (act_run eps xs k) n = look k n).
  { clear xs. induction xs as [|x t IH]; intros k n W P Hn; cbn [act_run]; [auto|].
    destruct P as [Px Pt].
    assert (S : alive (fst (act_step eps x k)) n /\ look (fst (act_step eps x k)) n = look k n).
    { assert (D : library x \/ ~ library x) by (destruct x; cbn; tauto). destruct D as [Hl|Hc].
      - pose proof (library_extends x k Hl) as E. split; [eapply alive_extends; eauto|now apply look_extends].
      - split; [destruct x; cbn in Hc; try tauto; exact Hn|].
        destruct x; cbn in Hc; try tauto; cbn [act_step fst].
        + apply look_object; cbn; auto. apply app_nth1. now apply wf_array.
        + apply look_object; cbn; auto. apply app_nth1. now apply wf_dict.
        + apply look_object; cbn; auto. apply app_nth1. now apply wf_list.
        + apply look_object; cbn; auto. apply nth_list_set_other. intros E. now apply (Px n Hn). }
    destruct S as [S1 S2]. destruct (IH (fst (act_step eps x k)) n) as [H1 H2]; auto.
    - now apply wf_step.
    - split; auto. congruence. }
  intros k n R. apply G. now apply wf_reached.
Qed.

(** * Writing through [get_matrix()] *)

Lemma C72_write_lemma k n A :
  reached eps k -> alive k n ->
  exists r, act_step eps (GetMatrix n) k = (k, Ok (OArray r)) /\
    look (fst (act_step eps (WriteArray r A) k)) n = with_mat (look k n) A /\
    (forall m, alive k m -> m <> n -> look (fst (act_step eps (WriteArray r A) k)) m = look k m).
Proof.
  intros R Hn. pose proof (wf_reached k R) as W.
  exists (o_array (object k n)). cbn [act_step]. rewrite (alive_ok k n Hn). split; [reflexivity|]. split.
  - cbn [fst]. unfold look, with_mat. cbn [k_units k_arrays k_dicts k_lists u_dim u_name u_params u_inv u_apply].
    fold (object k n). rewrite nth_list_set_same by now apply wf_array. reflexivity.
  - intros m Hm N. apply look_object; cbn; auto. apply nth_list_set_other. now apply wf_own; auto.
Qed.

(** An all-zero matrix is refused by the constructor, whatever the threshold. *)
Lemma zero_refused d name ps inv ap (M : mat) :
  (0 < d)%nat -> (forall i j, (i < d)%nat -> (j < d)%nat -> M i j = 0) ->
  mk_unitary eps d (Some (square d M)) name ps inv ap = Raise AssertionError.
Proof.
  intros Hd HM. unfold mk_unitary, bind, assert.
  assert (E0 : Nat.ltb 0 d = true) by now apply Nat.ltb_lt. rewrite E0.
  cbn [nrows ncols square elt]. rewrite Nat.eqb_refl. cbn [andb].
  replace (allclose d (mmul d (clean eps M) (adj (clean eps M))) mid) with false; [reflexivity|].
  symmetry. apply not_true_is_false. intros H. unfold allclose in H.
  rewrite forallb_lt_spec in H. specialize (H 0%nat Hd). rewrite forallb_lt_spec in H. specialize (H 0%nat Hd).
  assert (Z : mmul d (clean eps M) (adj (clean eps M)) 0%nat 0%nat = 0).
  { unfold mmul. apply csum_zero. intros i Hi. unfold clean, adj.
    rewrite HM by auto. replace (clean_C eps 0) with (RtoC 0).
    - rewrite Cmult_0_l. reflexivity.
    - unfold clean_C, clean_R. cbn. unfold Rltb. destruct (Rlt_dec _ _); reflexivity. }
  rewrite Z in H. unfold isclose, mid in H. cbn in H.
  unfold Rleb in H. destruct (Rle_dec _ _) as [L|L]; [|discriminate].
  replace (0 - RtoC 1) with (- RtoC 1) in L by ring.
  rewrite Cmod_opp, Cmod_1 in L. unfold atol, rtol in L. lra.
Qed.

Lemma zero_inverse u : (0 < u_dim u)%nat -> u_inverse eps (with_mat u (fun _ _ => 0)) = Raise AssertionError.
Proof.
  destruct u as [d A nm ps iv ap]. unfold u_inverse, with_mat. cbn [u_dim u_mat u_name u_params u_inv u_apply].
  intros Hd. apply zero_refused; [exact Hd|]. intros i j _ _. unfold adj. apply injective_projections; cbn; ring.
Qed.

Lemma zero_left d B l : (0 < d)%nat ->
  mk_unitary eps d (Some (square d (mmul d B (fun _ _ => 0)))) None [] false l = Raise AssertionError.
Proof.
  intros Hd. apply zero_refused; [exact Hd|]. intros i j _ _. unfold mmul. apply csum_zero. intros p _. ring.
Qed.

Lemma zero_right d B l : (0 < d)%nat ->
  mk_unitary eps d (Some (square d (mmul d (fun _ _ => 0) B))) None [] false l = Raise AssertionError.
Proof.
  intros Hd. apply zero_refused; [exact Hd|]. intros i j _ _. unfold mmul. apply csum_zero. intros p _. ring.
Qed.

Lemma look_dim k n : wf k -> alive k n -> (0 < u_dim (look k n))%nat.
Proof. intros W H. apply (wf_shape k W n H). Qed.

(** After all entries are set to zero, nothing that starts from the object works. *)
Lemma C72_zero_lemma k n m :
  reached eps k -> alive k n -> alive k m -> u_dim (look k m) = u_dim (look k n) ->
  exists r, act_step eps (GetMatrix n) k = (k, Ok (OArray r)) /\
    let k' := fst (act_step eps (WriteArray r (fun _ _ => 0)) k) in
    act_step eps (InverseOf n) k' = (k', Raise AssertionError) /\
    act_step eps (DistanceOf n m) k' = (k', Raise AssertionError) /\
    act_step eps (LeftOf n m) k' = (k', Raise AssertionError) /\
    act_step eps (RightOf n m) k' = (k', Raise AssertionError).
Proof.
  intros R Hn Hm Hd. pose proof (wf_reached k R) as W.
  destruct (C72_write_lemma k n (fun _ _ => 0) R Hn) as (r & G & Wn & Wm).
  exists r. split; [exact G|]. intros k'. fold k' in Wn, Wm.
  assert (An : alive k' n) by exact Hn. assert (Am : alive k' m) by exact Hm.
  pose proof (look_dim k n W Hn) as Dn.
  assert (In : u_inverse eps (look k' n) = Raise AssertionError).
  { rewrite Wn. now apply zero_inverse. }
  assert (Dm : u_dim (look k' m) = u_dim (look k' n)).
  { rewrite Wn. cbn [with_mat u_dim]. destruct (Nat.eq_dec m n) as [->|N].
    - rewrite Wn. reflexivity.
    - now rewrite Wm. }
  split; [|split; [|split]].
  - apply (C71_values_lemma k' (InverseOf n) (Raise AssertionError)). split; auto.
  - cbn [act_step]. rewrite (alive_ok k' n An), (alive_ok k' m Am). cbn [andb].
    unfold u_distance_from, u_distance_from_array. cbn [nrows ncols square].
    rewrite Dm, Nat.eqb_refl. cbn [andb bind assert]. now rewrite In.
  - apply (C71_values_lemma k' (LeftOf n m) (Raise AssertionError)). split; [auto|]. split; [auto|].
    rewrite left_eq, Dm, Nat.eqb_refl. rewrite Wn. cbn [with_mat u_dim u_mat].
    symmetry. now apply zero_left.
  - apply (C71_values_lemma k' (RightOf n m) (Raise AssertionError)). split; [auto|]. split; [auto|].
    rewrite right_eq, Dm, Nat.eqb_refl. rewrite Wn. cbn [with_mat u_dim u_mat].
    symmetry. now apply zero_right.
Qed.

(** * Shared dictionaries and lists *)

Lemma init_new d a nm ps iv ap k k' m :
  init eps d a nm ps iv ap k = (k', Ok (OUnit m)) ->
  m = List.length (k_units k) /\ alive k' m /\
  o_dict (object k' m) = match ps with Some r => r | None => List.length (k_dicts k) end /\
  o_list (object k' m) = ap /\ o_array (object k' m) = List.length (k_arrays k).
Proof.
  intros E. destruct (init_cases d a nm ps iv ap k) as [(e & _ & Ei)|(u & _ & Ei)]; rewrite Ei in E;
    [discriminate|].
  injection E as <- <-. unfold alive, object. cbn [k_units]. rewrite nth_last, app_length. cbn.
  repeat split; lia.
Qed.

Lemma C73_derived_lemma k x n k' m :
  (x = InverseOf n \/ exists l, x = TensorOf n l) ->
  act_step eps x k = (k', Ok (OUnit m)) ->
  o_dict (object k' m) = o_dict (object k n) /\ o_list (object k' m) = o_list (object k n).
Proof.
  intros [->|(l & ->)]; cbn [act_step]; intros E.
  - destruct (ref_ok _ _); [|discriminate]. now apply init_new in E as (_ & _ & -> & -> & _).
  - destruct (_ && _); [|discriminate]. now apply init_new in E as (_ & _ & -> & -> & _).
Qed.

Lemma C73_product_lemma k x n l k' m :
  reached eps k -> (x = LeftOf n l \/ x = RightOf n l) ->
  act_step eps x k = (k', Ok (OUnit m)) ->
  (forall p, alive k p -> o_dict (object k p) <> o_dict (object k' m)) /\ o_list (object k' m) = 0%nat.
Proof.
  intros R H E. pose proof (wf_reached k R) as W.
  assert (G : o_dict (object k' m) = List.length (k_dicts k) /\ o_list (object k' m) = 0%nat).
  { destruct H as [->| ->]; cbn [act_step] in E; (destruct (_ && _); [|discriminate]);
      (destruct (Nat.eqb _ _); [|discriminate]); now apply init_new in E as (_ & _ & -> & -> & _). }
  destruct G as [-> ->]. split; auto. intros p Hp. pose proof (wf_dict k W p Hp). lia.
Qed.

Lemma C73_constructor_lemma k d matrix name params inv apply_to k' m :
  reached eps k ->
  act_step eps (NewUnitary d matrix name params inv apply_to) k = (k', Ok (OUnit m)) ->
  match params with
  | Some r => o_dict (object k' m) = r
  | None => forall p, alive k p -> o_dict (object k p) <> o_dict (object k' m)
  end /\
  o_list (object k' m) = match apply_to with Some r => r | None => 0%nat end.
Proof.
  intros R E. pose proof (wf_reached k R) as W. cbn [act_step] in E. destruct (_ && _ && _); [|discriminate].
  apply init_new in E as (_ & _ & -> & -> & _). split.
  - destruct params; auto. intros p Hp. pose proof (wf_dict k W p Hp). lia.
  - destruct apply_to; reflexivity.
Qed.

Lemma C73_write_dict_lemma k r d n :
  reached eps k -> alive k n ->
  look (fst (act_step eps (WriteDict r d) k)) n =
    if Nat.eqb (o_dict (object k n)) r then with_params (look k n) d else look k n.
Proof.
  intros R Hn. pose proof (wf_dict k (wf_reached k R) n Hn) as L.
  destruct (Nat.eqb_spec (o_dict (object k n)) r) as [<-|N]; cbn [act_step fst].
  - unfold look, with_params. cbn [k_units k_arrays k_dicts k_lists u_dim u_mat u_name u_inv u_apply].
    fold (object k n). now rewrite nth_list_set_same.
  - apply look_object; cbn; auto. apply nth_list_set_other. auto.
Qed.

Lemma C73_write_list_lemma k r l n :
  reached eps k -> alive k n ->
  look (fst (act_step eps (WriteList r l) k)) n =
    if Nat.eqb (o_list (object k n)) r then with_apply (look k n) l else look k n.
Proof.
  intros R Hn. pose proof (wf_list k (wf_reached k R) n Hn) as L.
  destruct (Nat.eqb_spec (o_list (object k n)) r) as [<-|N]; cbn [act_step fst].
  - unfold look, with_apply. cbn [k_units k_arrays k_dicts k_lists u_dim u_mat u_name u_inv u_params].
    fold (object k n). now rewrite nth_list_set_same.
  - apply look_object; cbn; auto. apply nth_list_set_other. auto.
Qed.

(** What is written into the default list shows in every later product. *)
Lemma C73_default_lemma k l x n p k' m :
  reached eps k -> (x = LeftOf n p \/ x = RightOf n p \/ exists d a nm ps iv, x = NewUnitary d a nm ps iv None) ->
  act_step eps x (fst (act_step eps (WriteList 0 l) k)) = (k', Ok (OUnit m)) ->
  u_apply (look k' m) = l.
Proof.
  intros R H E. set (k1 := fst (act_step eps (WriteList 0 l) k)) in *.
  assert (L1 : nth 0 (k_lists k1) [] = l).
  { unfold k1. cbn [act_step fst k_lists]. apply nth_list_set_same. apply (wf_some k (wf_reached k R)). }
  assert (G : forall d a nm ps iv, init eps d a nm ps iv 0 k1 = (k', Ok (OUnit m)) -> u_apply (look k' m) = l).
  { intros d a nm ps iv Ei. pose proof (init_extends d a nm ps iv 0 k1) as X. rewrite Ei in X. cbn [fst] in X.
    apply init_new in Ei as (_ & _ & _ & Hl & _). unfold look. cbn [u_apply]. fold (object k' m). rewrite Hl.
    destruct X as (_ & _ & [t ->] & _). rewrite app_nth1; auto.
    unfold k1. cbn [act_step fst k_lists]. rewrite list_set_length. apply (wf_some k (wf_reached k R)). }
  destruct H as [->|[->|(d & a & nm & ps & iv & ->)]]; cbn [act_step] in E.
  - destruct (_ && _); [|discriminate]. destruct (Nat.eqb _ _); [|discriminate]. now apply G in E.
  - destruct (_ && _); [|discriminate]. destruct (Nat.eqb _ _); [|discriminate]. now apply G in E.
  - destruct (_ && _ && _); [|discriminate]. now apply G in E.
Qed.

(** * The product a sequence keeps *)

Lemma on_seq_some {A} (m : meth A) w s q :
  nth_error (w_seqs w) s = Some q ->
  on_seq s m w = let '((h', q'), r) := m (w_heap w, q) in
                 ({| w_heap := h'; w_seqs := list_set (w_seqs w) s q' |}, r).
Proof. intros E. unfold on_seq. now rewrite E. Qed.

Lemma product_cached st st' p :
  product eps st = (st', Ok p) -> s_product (snd st') = Some p.
Proof.
  unfold product, se_bind, m_self, se_ret, se_lift. cbn.
  destruct (s_product (snd st)) eqn:E.
  - intros H. injection H as <- <-. exact E.
  - destruct (mk_unitary _ _ _ _ _ _ _); [|discriminate].
    destruct (m_heap _ _) as [st1 [v|e]]; [|discriminate].
    cbn. intros H. injection H as <- <-. reflexivity.
Qed.

Lemma product_hit h q p : s_product q = Some p -> product eps (h, q) = ((h, q), Ok p).
Proof. intros H. unfold product, se_bind, m_self, se_ret. cbn. now rewrite H. Qed.

Lemma list_set_set {A} (l : list A) i x y : list_set (list_set l i x) i y = list_set l i y.
Proof. revert i; induction l as [|a t IH]; intros [|i]; cbn; auto. now rewrite IH. Qed.

Lemma nth_error_set_same {A} (l : list A) i x y :
  nth_error l i = Some y -> nth_error (list_set l i x) i = Some x.
Proof. revert i; induction l as [|a t IH]; intros [|i]; cbn; try discriminate; auto. Qed.

Lemma nth_error_set_other {A} (l : list A) i j x :
  i <> j -> nth_error (list_set l i x) j = nth_error l j.
Proof. revert i j; induction l as [|a t IH]; intros [|i] [|j] N; cbn; auto; lia. Qed.

Lemma list_set_id {A} (l : list A) i x : nth_error l i = Some x -> list_set l i x = l.
Proof.
  revert i; induction l as [|a t IH]; intros [|i]; cbn; try discriminate.
  - intros H. now injection H as ->.
  - intros H. now rewrite IH.
Qed.

(** The shape of a world after [scribble]. *)
Lemma scribble_shape s A w p w1 :
  step eps (Product s) w = (w1, Ok (VUnitary p)) ->
  exists q1, nth_error (w_seqs w1) s = Some q1 /\ s_product q1 = Some p /\
    scribble eps s A w =
      ({| w_heap := w_heap w1; w_seqs := list_set (w_seqs w1) s (overwrite A q1) |}, Ok tt).
Proof.
  cbn [step]. unfold se_bind at 1, se_ret. intros H.
  destruct (nth_error (w_seqs w) s) as [q|] eqn:Eq.
  2:{ unfold on_seq in H. rewrite Eq in H. discriminate. }
  rewrite (on_seq_some _ _ _ _ Eq) in H.
  destruct (product eps (w_heap w, q)) as [[h1 q1] [v|e]] eqn:Ep; [|discriminate].
  injection H as <- ->. cbn [w_heap w_seqs].
  exists q1. split; [eapply nth_error_set_same; eauto|]. split; [exact (product_cached _ _ _ Ep)|].
  unfold scribble. rewrite (on_seq_some _ _ _ _ Eq). unfold se_bind. rewrite Ep. unfold m_upd. cbn [fst snd].
  now rewrite list_set_set.
Qed.

Lemma C74_scribble_lemma s A w p w1 :
  step eps (Product s) w = (w1, Ok (VUnitary p)) ->
  exists w2, scribble eps s A w = (w2, Ok tt) /\
    step eps (Product s) w2 = (w2, Ok (VUnitary (with_mat p A))) /\
    w_heap w2 = w_heap w1 /\
    (forall t, t <> s -> nth_error (w_seqs w2) t = nth_error (w_seqs w1) t).
Proof.
  intros H. destruct (scribble_shape s A w p w1 H) as (q1 & E1 & E2 & E3).
  eexists. split; [exact E3|]. cbn [w_heap w_seqs]. split; [|split; [reflexivity|]].
  - cbn [step]. unfold se_bind.
    rewrite (on_seq_some _ _ _ (overwrite A q1)) by (cbn [w_seqs]; eapply nth_error_set_same; eauto).
    cbn [w_heap]. rewrite (product_hit _ _ (with_mat p A)) by (unfold overwrite; cbn; now rewrite E2).
    cbn [w_seqs]. now rewrite list_set_set.
  - intros t N. apply nth_error_set_other. auto.
Qed.

Lemma C74_undo_lemma s A w p w1 q :
  step eps (Product s) w = (w1, Ok (VUnitary p)) ->
  nth_error (w_seqs w1) s = Some q -> s_prev_entries q <> None ->
  step eps (Undo s) (fst (scribble eps s A w)) = step eps (Undo s) w1.
Proof.
  intros H Hq Hp. destruct (scribble_shape s A w p w1 H) as (q1 & E1 & E2 & E3).
  rewrite E1 in Hq. injection Hq as ->. rewrite E3. cbn [fst step]. unfold se_bind.
  rewrite (on_seq_some _ _ _ (overwrite A q)) by (cbn [w_seqs]; eapply nth_error_set_same; eauto).
  rewrite (on_seq_some _ _ _ q E1). cbn [w_heap w_seqs].
  unfold undo, se_bind, m_self, m_upd. cbn. destruct (s_prev_entries q); [|congruence].
  cbn. now rewrite list_set_set.
Qed.
End P.

(** * Cases *)
From Verif Require Import Spec PUnitary.

Definition ex_prog : list act := [NewUnitary 2 None None None false None; InverseOf 0; LeftOf 0 1].
Definition ex_first : list act := [NewUnitary 2 None None None false None].

Lemma eps_code_1 : (eps_code <= 1)%R.
Proof. unfold eps_code. lra. Qed.

(** One identity. *)
Lemma ex_one : let k := act_run eps_code ex_first store0 in
  List.length (k_units k) = 1%nat /\ List.length (k_arrays k) = 1%nat /\
  u_dim (look k 0) = 2%nat /\ meq 2 (u_mat (look k 0)) mid /\
  o_array (object k 0) = 0%nat /\ o_dict (object k 0) = 0%nat /\ o_list (object k 0) = 0%nat /\
  u_params (look k 0) = [].
Proof.
  intros k.
  destruct (mk_special eps_code 2 mid None [] false [] ltac:(lia) (special_mid 2) (eps_clean_mid _ _ eps_code_1))
    as (u & E & Hd & _ & Hp & _ & _ & Hm).
  assert (K : act_step eps_code (NewUnitary 2 None None None false None) store0 =
    ({| k_arrays := [square 2 (u_mat u)]; k_dicts := [[]]; k_lists := [[]];
        k_units := [{| o_array := 0; o_dict := 0; o_list := 0; o_name := u_name u; o_inv := false |}] |},
     Ok (OUnit 0))).
  { cbn [act_step opt_ok andb]. unfold init. cbn [default_list nth k_lists store0]. rewrite E. reflexivity. }
  unfold k, ex_first. cbn [act_run]. rewrite K. cbn [fst]. repeat split; auto.
Qed.

Lemma ex_three : let k := act_run eps_code ex_prog store0 in
  alive k 0 /\ alive k 1 /\ alive k 2 /\ o_dict (object k 0) = o_dict (object k 1) /\
  o_dict (object k 2) <> o_dict (object k 0) /\ o_list (object k 2) = o_list (object k 0).
Proof.
  intros k. destruct ex_one as (L1 & _ & D1 & M1 & _ & O1 & O2 & _).
  set (k1 := act_run eps_code ex_first store0) in *.
  assert (R1 : reached eps_code k1) by now exists ex_first.
  assert (A1 : alive k1 0) by (unfold alive; rewrite L1; lia).
  assert (W1 : PUnitary.wf (look k1 0)).
  { apply (wf_of _ 2 mid); auto. apply special_mid. }
  assert (C1 : eps_clean eps_code (u_dim (look k1 0)) (u_mat (look k1 0))).
  { rewrite D1. rewrite M1. apply eps_clean_mid, eps_code_1. }
  destruct (u_inverse_ok eps_code (look k1 0) W1 C1) as (v & Ev & Dv & _ & _ & _ & _ & Mv).
  assert (V : computes eps_code k1 (InverseOf 0) (Ok v)) by (split; auto).
  destruct (C71_values_lemma eps_code k1 _ _ V) as (k2 & E2 & K2 & N2). rewrite L1 in *.
  destruct (C73_derived_lemma eps_code k1 (InverseOf 0) 0 k2 1 (or_introl eq_refl) E2) as [S1 S2].
  assert (X2 : extends k1 k2).
  { pose proof (library_extends eps_code (InverseOf 0) k1 I) as X. now rewrite E2 in X. }
  destruct (alive_extends k1 k2 0 X2 A1) as [A2 B2].
  pose proof (look_extends k1 k2 0 (wf_reached _ _ R1) X2 A1) as Q2.
  assert (R2 : reached eps_code k2).
  { exists (ex_first ++ [InverseOf 0]). rewrite act_run_app. fold k1. cbn [act_run]. now rewrite E2. }
  assert (A21 : alive k2 1) by (unfold alive; rewrite N2; lia).
  rewrite D1 in Mv, Dv.
  assert (M1' : meq 2 (adj (u_mat (look k1 0))) mid).
  { rewrite M1. apply adj_mid. }
  assert (W2 : PUnitary.wf (look k2 1)).
  { rewrite K2. apply (wf_of _ 2 mid); auto; [|apply special_mid]. now rewrite Mv. }
  assert (C2 : eps_clean eps_code (u_dim (look k2 0)) (mmul (u_dim (look k2 0)) (u_mat (look k2 1)) (u_mat (look k2 0)))).
  { rewrite Q2, D1, K2, Mv, M1', M1, mmul_1_l. apply eps_clean_mid, eps_code_1. }
  destruct (u_left_multiply_ok eps_code (look k2 0) (look k2 1)) as (p & Ep & _); auto.
  { now rewrite Q2. }
  { rewrite Q2, K2. congruence. }
  assert (V3 : computes eps_code k2 (LeftOf 0 1) (on_qubits (nth 0 (k_lists k2) []) (Ok p))).
  { split; auto. split; auto. now rewrite Ep. }
  destruct (C71_values_lemma eps_code k2 _ _ V3) as (k3 & E3 & K3 & N3).
  rewrite N2 in E3, K3.
  assert (X3 : extends k2 k3).
  { pose proof (library_extends eps_code (LeftOf 0 1) k2 I) as X. now rewrite E3 in X. }
  destruct (alive_extends k2 k3 0 X3 A2) as [A30 B30].
  destruct (alive_extends k2 k3 1 X3 A21) as [A31 B31].
  destruct (C73_product_lemma eps_code k2 (LeftOf 0 1) 0 1 k3 2 R2 (or_introl eq_refl) E3) as [F1 F2].
  assert (K : k = k3).
  { unfold k. change ex_prog with (ex_first ++ [InverseOf 0; LeftOf 0 1]). rewrite act_run_app. fold k1.
    cbn [act_run]. rewrite E2. cbn [fst]. now rewrite E3. }
  rewrite K. repeat split; auto.
  - unfold alive. rewrite N3, N2. lia.
  - rewrite B30, B31, B2. auto.
  - rewrite B30. intros Q. now apply (F1 0%nat A2).
  - rewrite F2, B30, B2. auto.
Qed.

Lemma ex_C71_lemma :
  let k := act_run eps_code [NewUnitary 2 None None None false None; InverseOf 0; LeftOf 0 1] store0 in
  let r := List.length (k_arrays k) in
  reached eps_code k /\ alive k 0 /\ alive k 1 /\ alive k 2 /\
  polite eps_code [MakeArray (square 2 mid); WriteArray r (fun _ _ => 0); InverseOf 0] k.
Proof.
  fold ex_prog. intros k r. destruct ex_three as (A0 & A1 & A2 & _). fold k in A0, A1, A2.
  assert (R : reached eps_code k) by now exists ex_prog.
  split; [exact R|]. split; [exact A0|]. split; [exact A1|]. split; [exact A2|].
  cbn [polite]. split; [exact I|]. split; [|split; exact I].
  intros n Hn. pose proof (wf_array k (wf_reached _ _ R) n Hn) as L.
  change (o_array (object k n) <> r). unfold r. lia.
Qed.

Lemma C72_isolation_refuted_lemma :
  exists k r k1, reached eps_code k /\ alive k 0 /\
    act_step eps_code (GetMatrix 0) k = (k, Ok (OArray r)) /\
    (exists k', act_step eps_code (InverseOf 0) k = (k', Ok (OUnit 1))) /\
    k1 = fst (act_step eps_code (WriteArray r (fun _ _ => 0)) k) /\
    act_step eps_code (InverseOf 0) k1 = (k1, Raise AssertionError).
Proof.
  destruct ex_one as (L1 & _ & D1 & M1 & _).
  set (k1 := act_run eps_code ex_first store0) in *.
  assert (R1 : reached eps_code k1) by now exists ex_first.
  assert (A1 : alive k1 0) by (unfold alive; rewrite L1; lia).
  destruct (C72_zero_lemma eps_code k1 0 0 R1 A1 A1 eq_refl) as (r & G & Z & _).
  exists k1, r. eexists. split; [exact R1|]. split; [exact A1|]. split; [exact G|].
  split; [|split; [reflexivity|exact Z]].
  assert (W1 : PUnitary.wf (look k1 0)) by (apply (wf_of _ 2 mid); auto; apply special_mid).
  assert (C1 : eps_clean eps_code (u_dim (look k1 0)) (u_mat (look k1 0))).
  { rewrite D1. rewrite M1. apply eps_clean_mid, eps_code_1. }
  destruct (u_inverse_ok eps_code (look k1 0) W1 C1) as (v & Ev & _).
  assert (V : computes eps_code k1 (InverseOf 0) (Ok v)) by (split; auto).
  destruct (C71_values_lemma eps_code k1 _ _ V) as (k2 & E2 & _). rewrite L1 in E2. eauto.
Qed.

Lemma C73_params_refuted_lemma :
  exists k r d, reached eps_code k /\ alive k 0 /\ alive k 1 /\
    object k 1 <> object k 0 /\ r = o_dict (object k 0) /\
    u_params (look k 1) <> d /\
    u_params (look (fst (act_step eps_code (WriteDict r d) k)) 1) = d.
Proof.
  destruct ex_three as (A0 & A1 & _ & S & _). set (k := act_run eps_code ex_prog store0) in *.
  assert (R : reached eps_code k) by now exists ex_prog.
  exists k, (o_dict (object k 0)), (("theta"%string, (1%R, true)) :: u_params (look k 1)).
  split; [exact R|]. split; [exact A0|]. split; [exact A1|]. split.
  { intros E. apply (C71_own_lemma eps_code k 1 0 R A1 A0); [lia|]. now rewrite E. }
  split; [reflexivity|]. split.
  { intros E. apply (f_equal (@List.length _)) in E. cbn in E. lia. }
  rewrite (C73_write_dict_lemma eps_code k _ _ 1 R A1), <- S, Nat.eqb_refl. reflexivity.
Qed.

Lemma C73_default_refuted_lemma :
  exists k r l k' m, reached eps_code k /\ alive k 0 /\ r = o_list (object k 0) /\
    act_step eps_code (NewUnitary 2 None None None false None)
      (fst (act_step eps_code (WriteList r l) k)) = (k', Ok (OUnit m)) /\
    l <> [] /\ u_apply (look k' m) = l.
Proof.
  destruct ex_one as (L1 & _ & D1 & M1 & _ & _ & O & _).
  set (k := act_run eps_code ex_first store0) in *.
  assert (R : reached eps_code k) by now exists ex_first.
  assert (A : alive k 0) by (unfold alive; rewrite L1; lia).
  destruct (mk_special eps_code 2 mid None [] false [1%nat] ltac:(lia) (special_mid 2) (eps_clean_mid _ _ eps_code_1))
    as (u & E & _).
  set (k1 := fst (act_step eps_code (WriteList 0 [1%nat]) k)).
  assert (N : nth 0 (k_lists k1) [] = [1%nat]).
  { unfold k1. cbn [act_step fst k_lists]. apply nth_list_set_same. apply (wf_some k (wf_reached _ _ R)). }
  assert (V : computes eps_code k1 (NewUnitary 2 None None None false None) (Ok u)).
  { repeat split; try discriminate. cbn [option_map]. rewrite N. symmetry. exact E. }
  destruct (C71_values_lemma eps_code k1 _ _ V) as (k2 & E2 & _).
  exists k, 0%nat, [1%nat], k2, (List.length (k_units k1)).
  split; [exact R|]. split; [exact A|]. split; [now rewrite O|]. split; [exact E2|].
  split; [discriminate|].
  apply (C73_default_lemma eps_code k [1%nat] (NewUnitary 2 None None None false None) 0 0 k2 _ R); [|exact E2].
  right. right. do 5 eexists. reflexivity.
Qed.
From Verif Require Import SpecModel.

Definition ex_q : sequence :=
  {| s_dim := 2; s_array := false; s_entries := []; s_product := None; s_prev_entries := None;
     s_prev_product := None |}.

Lemma ex_exec eps : exec eps [NewSequence 2 false []] w_empty = {| w_heap := []; w_seqs := [ex_q] |}.
Proof. reflexivity. Qed.

Lemma product_empty eps h q u :
  s_product q = None -> s_entries q = [] -> mk_unitary eps (s_dim q) None None [] false [] = Ok u ->
  product eps (h, q) = ((h, set_product q (Some u)), Ok u).
Proof.
  intros H1 H2 H3. unfold product, se_bind, m_self, se_lift, se_ret. cbn [snd]. rewrite H1, H3, H2.
  cbn [product_loop]. reflexivity.
Qed.

Lemma ex_seq eps : (0 <= eps <= 1)%R ->
  let w := exec eps [NewSequence 2 false []] w_empty in
  contents w 0 = [] /\ has_dim w 0 2 /\
  exists p w1, step eps (Product 0) w = (w1, Ok (VUnitary p)) /\ meq 2 (u_mat p) mid.
Proof.
  intros [_ He] w.
  destruct (mk_special eps 2 mid None [] false [] ltac:(lia) (special_mid 2) (eps_clean_mid _ _ He))
    as (u & E & _ & _ & _ & _ & _ & M).
  split; [reflexivity|]. split; [eexists; split; reflexivity|].
  assert (E' : mk_unitary eps 2 None None [] false [] = Ok u) by exact E.
  exists u. eexists. split; [|exact M].
  unfold w. rewrite ex_exec. cbn [step]. unfold se_bind, on_seq. cbn [nth_error w_seqs w_heap].
  rewrite (product_empty eps [] ex_q u) by auto. reflexivity.
Qed.

Lemma C74_refuted_lemma : forall eps, (0 <= eps <= 1)%R ->
  exists w w2 p, w = exec eps [NewSequence 2 false []] w_empty /\
    contents w2 0 = contents w 0 /\ contents w 0 = [] /\
    scribble eps 0 (fun _ _ => 0) w = (w2, Ok tt) /\ answers eps w2 0 p /\ ~ meq 2 (u_mat p) mid.
Proof.
  intros eps He. destruct (ex_seq eps He) as (C & _ & p & w1 & E & M).
  destruct (C74_scribble_lemma eps 0 (fun _ _ => 0) _ p w1 E) as (w2 & S & P & Hh & _).
  exists (exec eps [NewSequence 2 false []] w_empty), w2, (with_mat p (fun _ _ => 0)).
  split; [reflexivity|]. split; [|split; [exact C|split; [exact S|split]]].
  - rewrite C. unfold contents. destruct (scribble_shape eps 0 (fun _ _ => 0) _ p w1 E) as (q & Q1 & Q2 & Q3).
    rewrite S in Q3. injection Q3 as ->. cbn [w_seqs w_heap].
    rewrite (nth_error_set_same _ _ _ q) by exact Q1.
    assert (Eq : s_entries q = []).
    { rewrite ex_exec in E. cbn [step] in E. unfold se_bind, on_seq in E. cbn [nth_error w_seqs w_heap] in E.
      destruct (mk_unitary eps 2 None None [] false []) as [v|e] eqn:Ev.
      - rewrite (product_empty eps [] ex_q v) in E by auto. injection E as <- _.
        cbn in Q1. now injection Q1 as <-.
      - unfold product, se_bind, m_self, se_lift in E. cbn [snd ex_q s_product s_dim] in E.
        rewrite Ev in E. discriminate. }
    unfold overwrite, set_product. cbn [s_entries]. now rewrite Eq.
  - unfold answers. now rewrite P.
  - cbn [with_mat u_mat]. intros H. specialize (H 0%nat 0%nat ltac:(lia) ltac:(lia)). cbn in H.
    apply (f_equal fst) in H. cbn in H. lra.
Qed.
From Verif Require Import PSeqProps PSeqCases PSeqEx.

Lemma product_prev eps h q h' q' r :
  product eps (h, q) = ((h', q'), r) -> s_prev_entries q' = s_prev_entries q.
Proof.
  unfold product, se_bind, m_self, se_ret, se_lift, m_upd. cbn [snd].
  destruct (s_product q).
  - intros H. now injection H as <- <- _.
  - destruct (mk_unitary _ _ _ _ _ _ _); [|intros H; now injection H as <- <- _].
    unfold m_heap. cbn [fst snd]. destruct (product_loop _ _ _ _ _) as [h1 [v|e]]; cbn;
      intros H; injection H as <- <- _; reflexivity.
Qed.

Lemma ex_C74_lemma :
  exists u os w1 p q, built 0 u /\ meq 2 (u_mat u) rot345 /\
    os = [NewEntry u [0%Z]; NewSequence 2 false []; AppendLast 0 0 true] /\
    step 0 (Product 0) (exec 0 os w_empty) = (w1, Ok (VUnitary p)) /\
    nth_error (w_seqs w1) 0 = Some q /\ s_prev_entries q <> None.
Proof.
  destruct (rot345_built 0 ltac:(lra)) as (u & B & D & M & _).
  set (os := [NewEntry u [0%Z]; NewSequence 2 false []; AppendLast 0 0 true]).
  assert (Q : exists q0, nth_error (w_seqs (exec 0 os w_empty)) 0 = Some q0 /\ s_dim q0 = 2%nat /\
                s_prev_entries q0 <> None).
  { unfold os. clear B M. destruct u as [d m nm ps iv ap]. cbn in D. subst d. eexists.
    split; [reflexivity|]. split; [reflexivity|]. cbn. discriminate. }
  destruct Q as (q0 & Q1 & Q2 & Q3).
  destruct (C14_lemma os 0 1) as (p & A & _).
  { unfold os. cbn [history]. auto 20. }
  { exists q0. split; auto. }
  unfold answers in A. destruct (step 0 (Product 0) (exec 0 os w_empty)) as [w1 r] eqn:E. cbn [snd] in A. subst r.
  exists u, os, w1, p.
  assert (E' := E). cbn [step] in E'. unfold se_bind at 1 in E'. rewrite (on_seq_some _ _ _ _ Q1) in E'.
  destruct (product 0 (w_heap (exec 0 os w_empty), q0)) as [[h1 q1] [v|e]] eqn:Ep; [|discriminate].
  unfold se_ret in E'. injection E' as <- _. exists q1.
  split; [exact B|]. split; [exact M|]. split; [reflexivity|]. split; [exact E|].
  cbn [w_seqs]. split; [eapply nth_error_set_same; eauto|].
  now rewrite (product_prev _ _ _ _ _ _ Ep).
Qed.
