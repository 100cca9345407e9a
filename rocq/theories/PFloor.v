(** Lower bounds for means over the answers of the generator, built up along a program. *)
From Coq Require Import Reals List Arith Lia Lra Bool ZArith Permutation ClassicalEpsilon.
From Coquelicot Require Import Coquelicot.
From Verif Require Import Base ModelCompiler SpecCompiler SpecChain PChain SpecFloor.
Import ListNotations.
Open Scope R_scope.
Set Bullet Behavior "Strict Subproofs".

(** * Lower means *)
Inductive least (r : nat) (f : rng -> R) : list (question * answer) -> R -> Prop :=
| least_known h m : (forall g, rng_ok g -> tells g r h -> m <= f g) -> least r f h m
| least_ask h q F m :
    (forall a, possible q a -> least r f (h ++ [(q, a)]) (F a)) -> mean_answer q F m -> least r f h m.

Definition askable (q : question) : Prop := match q with QInt n => (0 < n)%nat | _ => True end.

Lemma meanl_affine {A} (l : list A) F k j : l <> [] -> meanl l (fun x => k + j * F x) = k + j * meanl l F.
Proof.
  intros H. unfold meanl. assert (P : 0 < INR (List.length l)) by (apply lt_0_INR; destruct l; [easy|cbn; lia]).
  replace (fold_right Rplus 0 (map (fun x => k + j * F x) l)) with (INR (List.length l) * k + j * fold_right Rplus 0 (map F l)).
  - field. lra.
  - clear. induction l as [|x l IH]; [cbn; ring|]. cbn [map fold_right List.length]. rewrite <- IH, S_INR. ring.
Qed.

Lemma mean_answer_affine q F m k j : mean_answer q F m -> mean_answer q (fun a => k + j * F a) (k + j * m).
Proof.
  destruct q as [|n|n]; cbn [mean_answer].
  - intros H. apply (@is_RInt_plus R_NormedModule (fun _ => k) (fun x => j * F (AReal x))); [apply const_RInt|].
    exact (@is_RInt_scal R_NormedModule (fun x => F (AReal x)) 0 1 j m H).
  - intros [Hn ->]. split; auto. rewrite meanl_affine; auto. destruct n; [lia|easy].
  - intros ->. rewrite meanl_affine; auto. apply orders_nonempty.
Qed.
Lemma mean_answer_zero q : askable q -> mean_answer q (fun _ => 0) 0.
Proof.
  destruct q as [|n|n]; cbn [mean_answer askable].
  - intros _. apply const_RInt.
  - intros Hn. split; auto. rewrite meanl_const; auto. destruct n; [lia|easy].
  - intros _. rewrite meanl_const; auto. apply orders_nonempty.
Qed.

Lemma least_lower r f h m : least r f h m -> forall m', m' <= m -> least r f h m'.
Proof.
  intros H. induction H as [h m H|h q F m H IH HM]; intros m' L.
  - apply least_known. intros g G T. specialize (H g G T). lra.
  - apply least_ask with (q := q) (F := fun a => (m' - m) + 1 * F a).
    + intros a Pa. apply (IH a Pa). lra.
    + assert (X := mean_answer_affine q F m (m' - m) 1 HM). replace (m' - m + 1 * m) with m' in X by ring. exact X.
Qed.

Lemma average_ext_tells r f h m : average r f h m -> forall f', (forall g, tells g r h -> f' g = f g) -> average r f' h m.
Proof.
  intros H. induction H as [h m H|h q F m H IH HM]; intros f' E.
  - apply average_known. intros g G T. rewrite E; auto.
  - eapply average_ask; [|exact HM]. intros a Pa. apply IH; auto. intros g T. apply E. now apply tells_snoc in T.
Qed.

(** A lower mean is the mean of a smaller function. *)
Lemma least_average r f h m : least r f h m ->
  exists f', (forall g, rng_ok g -> tells g r h -> f' g <= f g) /\ average r f' h m.
Proof.
  intros H. induction H as [h m H|h q F m H IH HM].
  - exists (fun _ => m). split; auto. now apply average_known.
  - set (ok := fun a f' => (forall g, rng_ok g -> tells g r (h ++ [(q, a)]) -> f' g <= f g) /\ average r f' (h ++ [(q, a)]) (F a)) in *.
    set (sel := fun a => match excluded_middle_informative (exists f', ok a f') with
      | left H => proj1_sig (constructive_indefinite_description _ H) | right _ => fun _ => 0 end).
    assert (Hs : forall a, possible q a -> ok a (sel a)).
    { intros a Pa. unfold sel. destruct (excluded_middle_informative _) as [X|N]; [|exfalso; apply N, IH, Pa].
      exact (proj2_sig (constructive_indefinite_description _ X)). }
    exists (fun g => sel (reply g (r + List.length h) q) g). split.
    + intros g G T. set (a := reply g (r + List.length h) q).
      assert (Pa : possible q a).
      { apply reply_possible; auto. destruct q; auto. apply HM. }
      apply (proj1 (Hs a Pa) g G). apply tells_snoc. split; auto. now apply replies_reply.
    + eapply average_ask; [|exact HM]. intros a Pa. apply (average_ext_tells _ _ _ _ (proj2 (Hs a Pa))).
      intros g T. apply tells_snoc in T. destruct T as [_ T]. apply replies_reply in T. now rewrite T.
Qed.

Lemma least_chance r E p : least r (fun g => ind (E g)) [] p -> chance_at_least r E p.
Proof.
  intros H. destruct (least_average _ _ _ _ H) as (f & H1 & H2). exists f, p. split; [|split; auto; lra].
  intros g G. apply H1; auto. apply tells_nil.
Qed.

(** * Along a program *)
Section Hits.
Context {S : Type}.
Variable dr : S -> nat.

(** From [s] the program [m] comes to an outcome as in [Q], or raises, with a chance of at least [w];
    each outcome is known from finitely many answers. *)
Definition hits {A} (m : rng -> SE S A) (s : S) (Q : S -> A -> Prop) (w : R) : Prop :=
  forall r0 h f lo hi, legal h -> dr s = (r0 + List.length h)%nat -> lo <= hi ->
  (forall h' s' x, legal h' -> dr s' = (r0 + List.length h')%nat ->
     (forall g, rng_ok g -> tells g r0 h' -> tells g r0 h /\ m g s = (s', x)) ->
     least r0 f h' lo /\ ((forall a, x = Ok a -> Q s' a) -> least r0 f h' hi)) ->
  least r0 f h (lo + (hi - lo) * w).
Definition tree {A} (m : rng -> SE S A) (s : S) : Prop := hits m s (fun _ _ => True) 0.

Lemma hits_tree {A} (m : rng -> SE S A) s Q w : hits m s Q w -> tree m s.
Proof.
  intros H r0 h f lo hi L D Hl K. replace (lo + (hi - lo) * 0) with (lo + (lo - lo) * w) by ring. apply H; auto; [lra|].
  intros h' s' x L' D' E. destruct (K h' s' x L' D' E) as [K1 K2]. auto.
Qed.

Lemma hits_weaken {A} (m : rng -> SE S A) s (Q Q' : S -> A -> Prop) w : (forall s' a, Q s' a -> Q' s' a) -> hits m s Q w -> hits m s Q' w.
Proof.
  intros I H r0 h f lo hi L D Hl K. apply H; auto. intros h' s' x L' D' E. destruct (K h' s' x L' D' E) as [K1 K2].
  split; eauto.
Qed.

Lemma hits_less {A} (m : rng -> SE S A) s Q w w' : w' <= w -> hits m s Q w -> hits m s Q w'.
Proof.
  intros I H r0 h f lo hi L D Hl K. apply (least_lower _ _ _ _ (H r0 h f lo hi L D Hl K)). apply Rplus_le_compat_l.
  apply Rmult_le_compat_l; lra.
Qed.

(** An outcome that is known to be as in [Q] because of what is known of all outcomes. *)
Lemma hits_and {A} (m : rng -> SE S A) s (Q Q' : S -> A -> Prop) w :
  (forall g s' a, rng_ok g -> m g s = (s', Ok a) -> Q' s' a) -> hits m s Q w -> hits m s (fun s' a => Q s' a /\ Q' s' a) w.
Proof.
  intros I H r0 h f lo hi L D Hl K. apply H; auto. intros h' s' x L' D' E. destruct (K h' s' x L' D' E) as [K1 K2].
  split; auto. intros HQ. apply K2. intros a ->. split; auto. destruct (teller r0 h' L') as (g & G & T).
  apply (I g); auto. now apply E.
Qed.

Lemma hits_ext {A} (m m' : rng -> SE S A) s Q w : (forall g, rng_ok g -> m g s = m' g s) -> hits m s Q w -> hits m' s Q w.
Proof.
  intros I H r0 h f lo hi L D Hl K. apply H; auto. intros h' s' x L' D' E. apply K; auto. intros g G T. rewrite <- I by auto. auto.
Qed.

Lemma hits_det {A} (m : rng -> SE S A) s s' x (Q : S -> A -> Prop) : (forall g, m g s = (s', x)) -> dr s' = dr s ->
  (forall a, x = Ok a -> Q s' a) -> hits m s Q 1.
Proof.
  intros E D HQ r0 h f lo hi L D0 Hl K. replace (lo + (hi - lo) * 1) with hi by ring.
  apply (K h s' x); auto. congruence.
Qed.
Lemma tree_det {A} (m : rng -> SE S A) s s' x : (forall g, m g s = (s', x)) -> dr s' = dr s -> tree m s.
Proof.
  intros E D r0 h f lo hi L D0 Hl K. replace (lo + (hi - lo) * 0) with lo by ring. apply (K h s' x); auto. congruence.
Qed.

Lemma hits_ask {A} (m : rng -> SE S A) s q (out : answer -> S * res A) (O : answer -> Prop) (Q : S -> A -> Prop) w :
  (forall g, rng_ok g -> m g s = out (reply g (dr s) q)) -> (forall a, dr (fst (out a)) = Datatypes.S (dr s)) ->
  mean_answer q (fun a => ind (O a)) w ->
  (forall a, possible q a -> O a -> forall v, snd (out a) = Ok v -> Q (fst (out a)) v) -> hits m s Q w.
Proof.
  intros E D HM HO r0 h f lo hi L D0 Hl K.
  apply least_ask with (q := q) (F := fun a => lo + (hi - lo) * ind (O a)); [|now apply mean_answer_affine].
  intros a Pa. assert (L' := legal_snoc _ _ _ L Pa).
  destruct (K (h ++ [(q, a)]) (fst (out a)) (snd (out a)) L') as [K1 K2].
  - rewrite D, app_length, D0. cbn. lia.
  - intros g G T. apply tells_snoc in T. destruct T as [T U]. split; auto. rewrite E, D0 by auto. apply replies_reply in U. rewrite U.
    now destruct (out a).
  - destruct (excluded_middle_informative (O a)) as [Y|N].
    + rewrite ind_true by auto. replace (lo + (hi - lo) * 1) with hi by ring. eauto.
    + rewrite ind_false by auto. replace (lo + (hi - lo) * 0) with lo by ring. exact K1.
Qed.
Lemma tree_ask {A} (m : rng -> SE S A) s q (out : answer -> S * res A) : askable q ->
  (forall g, m g s = out (reply g (dr s) q)) -> (forall a, dr (fst (out a)) = Datatypes.S (dr s)) -> tree m s.
Proof.
  intros HA E D. apply hits_ask with (q := q) (out := out) (O := fun _ => False); auto.
  - replace (ind False) with 0 by (now rewrite ind_false). now apply mean_answer_zero.
Qed.

Lemma hits_bind {A B} (m : rng -> SE S A) (k : rng -> A -> SE S B) s (Q1 : S -> A -> Prop) (Q2 : S -> B -> Prop) w1 w2 : 0 <= w2 <= 1 ->
  hits m s Q1 w1 -> (forall s' a, Q1 s' a -> hits (fun g => k g a) s' Q2 w2) -> (forall s' a, tree (fun g => k g a) s') ->
  hits (fun g => se_bind (m g) (k g)) s Q2 (w1 * w2).
Proof.
  intros W2 H1 H2 HT r0 h f lo hi L D Hl K.
  replace (lo + (hi - lo) * (w1 * w2)) with (lo + ((lo + (hi - lo) * w2) - lo) * w1) by ring.
  assert (W : 0 <= (hi - lo) * w2) by (apply Rmult_le_pos; lra).
  assert (W' : (hi - lo) * w2 <= (hi - lo) * 1) by (apply Rmult_le_compat_l; lra).
  apply H1; auto; [lra|]. intros h' s' x L' D' E.
  assert (Lift : forall a, x = Ok a -> forall h2 s2 y, legal h2 -> dr s2 = (r0 + List.length h2)%nat ->
    (forall g, rng_ok g -> tells g r0 h2 -> tells g r0 h' /\ k g a s' = (s2, y)) ->
    least r0 f h2 lo /\ ((forall b, y = Ok b -> Q2 s2 b) -> least r0 f h2 hi)).
  { intros a -> h2 s2 y L2 D2 E2. apply K with (s' := s2); auto. intros g G T. destruct (E2 g G T) as [T' E']. destruct (E g G T') as [T0 E0].
    split; auto. unfold se_bind. now rewrite E0. }
  destruct x as [a|e].
  - split.
    + replace lo with (lo + (lo - lo) * 0) by ring. apply (HT s' a r0 h' f lo lo L' D' (Rle_refl lo)). intros h2 s2 y L2 D2 E2.
      destruct (Lift a eq_refl h2 s2 y L2 D2 E2). auto.
    + intros HQ. apply (H2 s' a (HQ a eq_refl) r0 h' f lo hi L' D' Hl). eauto.
  - destruct (K h' s' (Raise e) L' D') as [K1 K2].
    + intros g G T. destruct (E g G T) as [T0 E0]. split; auto. unfold se_bind. now rewrite E0.
    + split; auto. intros _. apply least_lower with (m := hi); [|lra]. apply K2. intros b [=].
Qed.
Lemma tree_bind {A B} (m : rng -> SE S A) (k : rng -> A -> SE S B) s : tree m s ->
  (forall s' a, tree (fun g => k g a) s') -> tree (fun g => se_bind (m g) (k g)) s.
Proof. intros H1 HT. unfold tree. rewrite <- (Rmult_0_l 0) at 1. eapply hits_bind; eauto; [lra|]. intros s' a _. apply HT. Qed.

Lemma tree_ret {A} (a : A) s : tree (fun _ => se_ret a) s.
Proof. now apply tree_det with (s' := s) (x := Ok a). Qed.
Lemma hits_ret {A} (a : A) s (Q : S -> A -> Prop) : Q s a -> hits (fun _ => se_ret a) s Q 1.
Proof. intros H. apply hits_det with (s' := s) (x := Ok a); auto. now intros ? [= <-]. Qed.
Lemma tree_raise {A} e s : tree (fun _ => se_raise e : SE S A) s.
Proof. now apply tree_det with (s' := s) (x := Raise e). Qed.
Lemma tree_lift {A} (x : res A) s : tree (fun _ => se_lift x) s.
Proof. now apply tree_det with (s' := s) (x := x). Qed.
Lemma hits_lift {A} (x : res A) s (Q : S -> A -> Prop) : (forall a, x = Ok a -> Q s a) -> hits (fun _ => se_lift x) s Q 1.
Proof. intros H. now apply hits_det with (s' := s) (x := x). Qed.
End Hits.
