(** Properties of [Unitary] objects: C01-C08, C54 and C67.
    [eps] is the clean-up threshold of the constructor ([eps_code] = 1e-12 in the
    code).  Statements about one call hold for every [eps] under the hypothesis
    that the matrix handed to the constructor has no component in (0, eps);
    at [eps = 0] that hypothesis is void ([eps_clean_0]). *)
From Coq Require Import Reals List Arith Bool String.
From Coquelicot Require Import Complex.
From Verif Require Import Base CMat Det Norms ModelUnitary Spec SpecModel PUnitary PUnitaryProps PRandom.
Import ListNotations.
Open Scope R_scope.
Open Scope C_scope.

(** C01: an exactly unitary matrix is accepted; only its global phase changes and
    the stored determinant is 1. *)
Theorem C01_constructor_changes_phase_only : forall eps d M name params inv apply,
  (0 < d)%nat -> unitary_mx d M -> eps_clean eps d M ->
  exists u c,
    mk_unitary eps d (Some (square d M)) name params inv apply = Ok u /\
    u_dim u = d /\ Cmod c = 1%R /\ meq d (u_mat u) (mscale c M) /\
    det d (u_mat u) = 1 /\ unitary_mx d (u_mat u) /\
    u_name u = match name with Some s => s | None => "U"%string end /\
    u_params u = params /\ u_inv u = inv /\ u_apply u = apply.
Proof. exact C01_lemma. Qed.
Print Assumptions C01_constructor_changes_phase_only.

(** C01: without a matrix the constructor gives the identity. *)
Theorem C01_default_is_identity : forall eps d name params inv apply,
  (0 < d)%nat -> (eps <= 1)%R ->
  exists u, mk_unitary eps d None name params inv apply = Ok u /\
    u_dim u = d /\ meq d (u_mat u) mid.
Proof. exact C01_default_lemma. Qed.
Print Assumptions C01_default_is_identity.

(** A matrix meeting the hypotheses of C01 at the code's threshold. *)
Example C01_case :
  (0 < 2)%nat /\ unitary_mx 2 rot345 /\ eps_clean eps_code 2 rot345 /\ ~ phase_eq 2 rot345 mid.
Proof. exact ex_C01_lemma. Qed.

(** C02: dimension 0, a wrong shape, or [M M^dagger] out of tolerance raise
    [AssertionError]. *)
Theorem C02_constructor_rejects : forall eps d a name params inv apply,
  (d = 0%nat \/ nrows a <> d \/ ncols a <> d \/
   (exists B, cleared eps d (elt a) B /\ ~ near_unitary d B)) ->
  mk_unitary eps d (Some a) name params inv apply = Raise AssertionError.
Proof. exact C02_rejects_lemma. Qed.
Print Assumptions C02_constructor_rejects.

(** C02: what is accepted is within the tolerance and stored with determinant 1. *)
Theorem C02_accepted_are_near_unitary : forall eps d a name params inv apply u,
  mk_unitary eps d (Some a) name params inv apply = Ok u ->
  (0 < d)%nat /\ nrows a = d /\ ncols a = d /\ u_dim u = d /\
  det d (u_mat u) = 1 /\
  exists B c, cleared eps d (elt a) B /\ near_unitary d B /\ meq d (u_mat u) (mscale c B).
Proof. exact C02_sound_lemma. Qed.
Print Assumptions C02_accepted_are_near_unitary.

(** C02: below 10^8 dimensions the constructor accepts exactly the matrices within
    tolerance and raises [AssertionError] on all others. *)
Theorem C02_constructor_decides : forall eps d a name params inv apply,
  (INR d * / 10 ^ 8 + / 10 ^ 5 < 1)%R ->
  ((exists u, mk_unitary eps d (Some a) name params inv apply = Ok u) <->
   ((0 < d)%nat /\ nrows a = d /\ ncols a = d /\
    forall B, cleared eps d (elt a) B -> near_unitary d B)) /\
  ((forall u, mk_unitary eps d (Some a) name params inv apply <> Ok u) ->
   mk_unitary eps d (Some a) name params inv apply = Raise AssertionError).
Proof. exact C02_decides_lemma. Qed.
Print Assumptions C02_constructor_decides.

(** diag(1, 2) is rejected; dimension 2 is below the limit. *)
Example C02_case :
  (exists B, cleared eps_code 2 (mat22 1 0 0 (RtoC 2)) B /\ ~ near_unitary 2 B) /\
  (INR 2 * / 10 ^ 8 + / 10 ^ 5 < 1)%R.
Proof. exact ex_C02_lemma. Qed.

(** C02: acceptance does not imply exact unitarity. *)
Theorem C02_acceptance_is_not_exact :
  exists a u, mk_unitary eps_code 2 (Some a) None [] false [] = Ok u /\
    ~ unitary_mx 2 (u_mat u).
Proof. exact C02_not_exact_lemma. Qed.
Print Assumptions C02_acceptance_is_not_exact.

(** C03: [inverse] is the adjoint, a two-sided inverse, and an involution. *)
Theorem C03_inverse : forall eps u,
  (eps <= 1)%R -> built eps u -> eps_clean eps (u_dim u) (u_mat u) ->
  exists v,
    u_inverse eps u = Ok v /\ u_dim v = u_dim u /\
    meq (u_dim u) (u_mat v) (adj (u_mat u)) /\
    (exists p, u_left_multiply eps u v = Ok p /\ u_dim p = u_dim u /\
               meq (u_dim u) (u_mat p) mid) /\
    (exists p, u_right_multiply eps u v = Ok p /\ u_dim p = u_dim u /\
               meq (u_dim u) (u_mat p) mid) /\
    (exists w, u_inverse eps v = Ok w /\ u_dim w = u_dim u /\
               meq (u_dim u) (u_mat w) (u_mat u) /\ u_name w = u_name u /\
               u_params w = u_params u /\ u_inv w = u_inv u /\ u_apply w = u_apply u).
Proof. exact C03_lemma. Qed.
Print Assumptions C03_inverse.

(** A [Unitary] object meeting the hypotheses of C03, C06, C07, C08. *)
Example C03_case :
  exists u, built eps_code u /\ u_dim u = 2%nat /\ meq 2 (u_mat u) rot345 /\
    eps_clean eps_code 2 (u_mat u).
Proof. exact ex_object_lemma. Qed.

(** C04: [u.left_multiply(f)] is F U. *)
Theorem C04_left_multiply : forall eps u f,
  built eps u -> built eps f -> u_dim u = u_dim f ->
  eps_clean eps (u_dim u) (mmul (u_dim u) (u_mat f) (u_mat u)) ->
  exists p, u_left_multiply eps u f = Ok p /\ u_dim p = u_dim u /\
    meq (u_dim u) (u_mat p) (mmul (u_dim u) (u_mat f) (u_mat u)).
Proof. exact C04_left_lemma. Qed.
Print Assumptions C04_left_multiply.

(** C04: [u.right_multiply(f)] is U F. *)
Theorem C04_right_multiply : forall eps u f,
  built eps u -> built eps f -> u_dim u = u_dim f ->
  eps_clean eps (u_dim u) (mmul (u_dim u) (u_mat u) (u_mat f)) ->
  exists p, u_right_multiply eps u f = Ok p /\ u_dim p = u_dim u /\
    meq (u_dim u) (u_mat p) (mmul (u_dim u) (u_mat u) (u_mat f)).
Proof. exact C04_right_lemma. Qed.
Print Assumptions C04_right_multiply.

(** Two objects meeting the hypotheses. *)
Example C04_case :
  exists u f, built eps_code u /\ built eps_code f /\ u_dim u = u_dim f /\
    eps_clean eps_code (u_dim u) (mmul (u_dim u) (u_mat f) (u_mat u)) /\
    eps_clean eps_code (u_dim u) (mmul (u_dim u) (u_mat u) (u_mat f)) /\
    ~ phase_eq (u_dim u) (u_mat u) mid.
Proof. exact ex_C04_lemma. Qed.

(** C04: multiplication is associative, without any phase. *)
Theorem C04_associative : forall u f g,
  built 0 u -> built 0 f -> built 0 g -> u_dim u = u_dim f -> u_dim f = u_dim g ->
  exists fu gfu gf gfu',
    u_left_multiply 0 u f = Ok fu /\ u_left_multiply 0 fu g = Ok gfu /\
    u_left_multiply 0 f g = Ok gf /\ u_left_multiply 0 u gf = Ok gfu' /\
    u_dim gfu = u_dim u /\ u_dim gfu' = u_dim u /\
    meq (u_dim u) (u_mat gfu) (u_mat gfu') /\
    meq (u_dim u) (u_mat gfu) (mmul (u_dim u) (u_mat g) (mmul (u_dim u) (u_mat f) (u_mat u))).
Proof. exact C04_assoc_lemma. Qed.
Print Assumptions C04_associative.

(** An object as in the hypotheses of the theorems at [eps = 0]. *)
Example C04_assoc_case :
  exists u, built 0 u /\ u_dim u = 2%nat /\ meq 2 (u_mat u) rot345.
Proof. exact ex_built0_lemma. Qed.

(** C04: different dimensions raise [AssertionError]. *)
Theorem C04_dimension_mismatch : forall eps u f,
  u_dim u <> u_dim f ->
  u_left_multiply eps u f = Raise AssertionError /\
  u_right_multiply eps u f = Raise AssertionError.
Proof. exact C04_mismatch_lemma. Qed.
Print Assumptions C04_dimension_mismatch.

(** C05: [tensor] is the Kronecker product, entry by entry. *)
Theorem C05_tensor : forall eps u v,
  built eps u -> built eps v ->
  eps_clean eps (u_dim u * u_dim v) (kron (u_dim v) (u_mat u) (u_mat v)) ->
  exists p, u_tensor eps u v = Ok p /\ u_dim p = (u_dim u * u_dim v)%nat /\
    (forall i j k l, (i < u_dim u)%nat -> (j < u_dim u)%nat -> (k < u_dim v)%nat -> (l < u_dim v)%nat ->
       u_mat p (i * u_dim v + k)%nat (j * u_dim v + l)%nat = u_mat u i j * u_mat v k l) /\
    u_name p = (u_name u ++ "--" ++ u_name v)%string /\
    u_params p = u_params u /\ u_apply p = u_apply u /\ u_inv p = false.
Proof. exact C05_lemma. Qed.
Print Assumptions C05_tensor.

(** An object meeting the hypotheses (tensored with itself). *)
Example C05_case :
  exists u, built eps_code u /\
    eps_clean eps_code (u_dim u * u_dim u) (kron (u_dim u) (u_mat u) (u_mat u)).
Proof. exact ex_C05_lemma. Qed.

(** C05: (A x B)(C x D) = (A C) x (B D). The hypotheses are met by [C04_assoc_case]. *)
Theorem C05_mixed_product : forall a b c d,
  built 0 a -> built 0 b -> built 0 c -> built 0 d ->
  u_dim a = u_dim c -> u_dim b = u_dim d ->
  exists ab cd abcd ac bd acbd,
    u_tensor 0 a b = Ok ab /\ u_tensor 0 c d = Ok cd /\ u_right_multiply 0 ab cd = Ok abcd /\
    u_right_multiply 0 a c = Ok ac /\ u_right_multiply 0 b d = Ok bd /\
    u_tensor 0 ac bd = Ok acbd /\
    u_dim abcd = u_dim acbd /\ meq (u_dim abcd) (u_mat abcd) (u_mat acbd).
Proof. exact C05_mixed_lemma. Qed.
Print Assumptions C05_mixed_product.

(** C06: the distance is in [0, 1], and 0 exactly for equality up to a phase.
    The hypotheses are met by [C03_case]. *)
Theorem C06_distance_range : forall eps u v,
  built eps u -> built eps v -> u_dim u = u_dim v -> eps_clean eps (u_dim u) (u_mat u) ->
  exists r, u_distance_from eps u v = Ok r /\
    r = (1 - overlap (u_dim u) (u_mat u) (u_mat v))%R /\
    (0 <= r <= 1)%R /\ (r = 0%R <-> phase_eq (u_dim u) (u_mat v) (u_mat u)).
Proof. exact C06_range_lemma. Qed.
Print Assumptions C06_distance_range.

(** C06: symmetric. *)
Theorem C06_distance_symmetric : forall eps u v,
  built eps u -> built eps v -> u_dim u = u_dim v ->
  eps_clean eps (u_dim u) (u_mat u) -> eps_clean eps (u_dim v) (u_mat v) ->
  u_distance_from eps u v = u_distance_from eps v u.
Proof. exact C06_sym_lemma. Qed.
Print Assumptions C06_distance_symmetric.

(** C06: multiplying the matrix by a phase changes nothing, on either side. *)
Theorem C06_distance_phase_blind : forall d M c nm ps iv ap u nm' ps' iv' ap' u' v,
  Cmod c = 1%R -> unitary_mx d M ->
  mk_unitary 0 d (Some (square d M)) nm ps iv ap = Ok u ->
  mk_unitary 0 d (Some (square d (mscale c M))) nm' ps' iv' ap' = Ok u' ->
  built 0 v -> u_dim v = d ->
  u_distance_from 0 u v = u_distance_from 0 u' v /\
  u_distance_from 0 v u = u_distance_from 0 v u' /\
  u_distance_from_array 0 v (square d M) = u_distance_from_array 0 v (square d (mscale c M)) /\
  u_distance_from_array 0 v (square d M) = u_distance_from 0 v u.
Proof. exact C06_phase_lemma. Qed.
Print Assumptions C06_distance_phase_blind.

(** C06: multiplying both operands by the same unitary changes nothing. *)
Theorem C06_distance_common_factor : forall f u v,
  built 0 f -> built 0 u -> built 0 v -> u_dim u = u_dim f -> u_dim v = u_dim f ->
  exists fu fv uf vf,
    u_left_multiply 0 u f = Ok fu /\ u_left_multiply 0 v f = Ok fv /\
    u_right_multiply 0 u f = Ok uf /\ u_right_multiply 0 v f = Ok vf /\
    u_distance_from 0 fu fv = u_distance_from 0 u v /\
    u_distance_from 0 uf vf = u_distance_from 0 u v.
Proof. exact C06_common_lemma. Qed.
Print Assumptions C06_distance_common_factor.

(** C06: different dimensions raise [AssertionError]. *)
Theorem C06_dimension_mismatch : forall eps u v,
  u_dim u <> u_dim v -> u_distance_from eps u v = Raise AssertionError.
Proof. exact C06_mismatch_lemma. Qed.
Print Assumptions C06_dimension_mismatch.

(** C07: the meaning of [close_to] with and without threshold. *)
Theorem C07_close_to : forall eps u v,
  built eps u -> built eps v -> u_dim u = u_dim v -> eps_clean eps (u_dim u) (u_mat u) ->
  (forall t, exists b, u_close_to eps u v (Some t) = Ok b /\
     (b = true <-> (t <= overlap (u_dim u) (u_mat u) (u_mat v))%R) /\
     ((t <= 0)%R -> b = true) /\ ((1 < t)%R -> b = false)) /\
  (exists b, u_close_to eps u v (Some 1%R) = Ok b /\
     (b = true <-> phase_eq (u_dim u) (u_mat v) (u_mat u))) /\
  (exists b, u_close_to eps u v None = Ok b /\
     (b = true <-> (1 - overlap (u_dim u) (u_mat u) (u_mat v) <= / 10 ^ 8)%R)) /\
  (forall t t', (t' <= t)%R -> u_close_to eps u v (Some t) = Ok true ->
     u_close_to eps u v (Some t') = Ok true).
Proof. exact C07_lemma. Qed.
Print Assumptions C07_close_to.

(** C07: no threshold and threshold 1.0 are different tests. *)
Theorem C07_none_differs_from_one :
  exists u v, built eps_code u /\ built eps_code v /\
    u_close_to eps_code u v None = Ok true /\
    u_close_to eps_code u v (Some 1%R) = Ok false.
Proof. exact C07_none_is_not_one_lemma. Qed.
Print Assumptions C07_none_differs_from_one.

(** C08: wrapping the matrix of a [Unitary] again keeps it. The hypotheses are met
    by [C03_case]. *)
Theorem C08_rewrap : forall eps u name params inv apply,
  built eps u -> eps_clean eps (u_dim u) (u_mat u) ->
  exists v, mk_unitary eps (u_dim u) (Some (square (u_dim u) (u_mat u))) name params inv apply = Ok v /\
    u_dim v = u_dim u /\ meq (u_dim u) (u_mat v) (u_mat u).
Proof. exact C08_lemma. Qed.
Print Assumptions C08_rewrap.

(** C54: the square root of the distance satisfies the triangle inequality. *)
Theorem C54_sqrt_distance_triangle : forall u v w,
  built 0 u -> built 0 v -> built 0 w -> u_dim u = u_dim v -> u_dim v = u_dim w ->
  exists duw duv dvw,
    u_distance_from 0 u w = Ok duw /\ u_distance_from 0 u v = Ok duv /\
    u_distance_from 0 v w = Ok dvw /\
    (sqrt duw <= sqrt duv + sqrt dvw)%R.
Proof. exact C54_lemma. Qed.
Print Assumptions C54_sqrt_distance_triangle.

(** C54: the square roots of the distances of two factors bound that of the
    products: errors of composed sequences add. *)
Theorem C54_errors_add : forall a a' b b',
  built 0 a -> built 0 a' -> built 0 b -> built 0 b' ->
  u_dim a = u_dim a' -> u_dim a' = u_dim b -> u_dim b = u_dim b' ->
  exists ab ab' d da db,
    u_left_multiply 0 a b = Ok ab /\ u_left_multiply 0 a' b' = Ok ab' /\
    u_distance_from 0 ab ab' = Ok d /\ u_distance_from 0 a a' = Ok da /\
    u_distance_from 0 b b' = Ok db /\
    (sqrt d <= sqrt da + sqrt db)%R.
Proof. exact C54_compose_lemma. Qed.
Print Assumptions C54_errors_add.

(** C67: [random] accepts every exactly unitary matrix that scipy draws: the stored
    matrix has determinant 1 and is the drawn one times a phase, up to the clean-up. *)
Theorem C67_random : forall eps rvs d M, (0 < d)%nat -> (0 <= eps)%R ->
  rvs d = Ok (square d M) -> unitary_mx d M ->
  let e := (8 / 5 * INR d * (sqrt (INR d) + 1) * eps)%R in
  (e <= 45 / 10 ^ 10)%R -> (INR d * e <= / 100)%R ->
  exists u c, u_random eps rvs d = Ok u /\ u_dim u = d /\ det d (u_mat u) = 1 /\
    Cmod c = 1%R /\ (fro d (mminus (u_mat u) (mscale c M)) <= e)%R /\
    u_name u = "U"%string /\ u_params u = [] /\ u_inv u = false /\ u_apply u = [].
Proof. exact C67_lemma. Qed.
Print Assumptions C67_random.

(** C67: an exception of the drawing function is passed on. *)
Theorem C67_random_raises : forall eps rvs d e, rvs d = Raise e -> u_random eps rvs d = Raise e.
Proof. exact C67_raises_lemma. Qed.
Print Assumptions C67_random_raises.

(** C67: the way the phase is fixed commutes with multiplication by any matrix [W] of
    determinant 1 on either side.  So if the draws [M], [W M] and [M W] are equally
    distributed, for all [W] (the Haar measure of the unitary group), the same holds
    for the stored matrices (the Haar measure of the special unitary group). *)
Theorem C67_random_invariant : forall rvs rvs' rvs'' d M W, (0 < d)%nat ->
  unitary_mx d M -> special d W ->
  rvs d = Ok (square d M) -> rvs' d = Ok (square d (mmul d W M)) ->
  rvs'' d = Ok (square d (mmul d M W)) ->
  exists u u' u'', u_random 0 rvs d = Ok u /\ u_random 0 rvs' d = Ok u' /\ u_random 0 rvs'' d = Ok u'' /\
    special d (u_mat u) /\
    meq d (u_mat u') (mmul d W (u_mat u)) /\ meq d (u_mat u'') (mmul d (u_mat u) W).
Proof. exact C67_invariant_lemma. Qed.
Print Assumptions C67_random_invariant.

(** A draw that meets the hypotheses at the code's threshold, and a refused dimension. *)
Example C67_case :
  let rvs := fun d => if Nat.eqb d 2 then Ok (square 2 rot345) else Raise ValueError in
  rvs 2%nat = Ok (square 2 rot345) /\ unitary_mx 2 rot345 /\ special 2 rot345 /\
  let e := (8 / 5 * INR 2 * (sqrt (INR 2) + 1) * eps_code)%R in
  (e <= 45 / 10 ^ 10)%R /\ (INR 2 * e <= / 100)%R /\ rvs 1%nat = Raise ValueError.
Proof. exact ex_C67_lemma. Qed.

