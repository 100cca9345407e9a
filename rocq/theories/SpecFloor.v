(** Vocabulary for statements about chances that need not be exactly defined. *)
From Coq Require Import Reals List Arith ZArith.
From Coquelicot Require Import Coquelicot.
From Verif Require Import Base CMat ModelUnitary ModelEntry ModelPrimitive ModelSequence ModelCompiler Spec SpecModel
  SpecCompiler SpecChain.
Import ListNotations.
Open Scope R_scope.

(** The event has at least the chance [p]: something that is at most 1 where it holds and at most 0
    where it does not has a mean of [p] or more. *)
Definition chance_at_least (r : nat) (E : rng -> Prop) (p : R) : Prop :=
  exists f m, (forall g, rng_ok g -> f g <= ind (E g)) /\ average r f [] m /\ p <= m.

(** The matrix of a parameterised gate depends continuously on the parameters, over their ranges
    with both ends, up to a factor of modulus 1 (the constructor of [Unitary] makes the determinant
    1 by a root that is not continuous). *)
Definition continuous_family (pu : punitary) : Prop :=
  forall vs M, in_range (pu_params pu) vs -> pu_matrix pu vs = Ok (square (pu_dim pu) M) ->
  forall e, 0 < e -> exists d, 0 < d /\
  forall vs' M', in_range (pu_params pu) vs' -> Forall2 (fun v v' => Rabs (v' - v) < d) vs vs' ->
    pu_matrix pu vs' = Ok (square (pu_dim pu) M') ->
    exists z, Cmod z = 1 /\
    forall i j, (i < pu_dim pu)%nat -> (j < pu_dim pu)%nat -> Cmod (M' i j - z * M i j)%C < e.

(** Every parameterised primitive is such. *)
Definition continuous_source (s : source) : Prop :=
  match s with Fixed _ => True | Family pu => continuous_family pu end.

(** The gate is one of those the compiler may draw, a parameterised one at any values in the ranges. *)
Definition on_offer (n : nat) (c : compiler) (gt : gate_on) : Prop :=
  exists p, weighted (c_prims c) (c_probs c) p /\ allows 0 (2 ^ n) p gt.
