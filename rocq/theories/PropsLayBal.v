(** One step of compile_layered() as a Metropolis chain over lists of layers: C97.

    [step_contents_layered st c s target counts g] is the sequence after the step,
    [boltzmann_layered] the weight of a list of layers (SpecChainLay.v); [layered_mean],
    [layer_chance] and [accept_mean] are in SpecChain.v. *)
From Coq Require Import Reals List Arith Bool ZArith.
From Coquelicot Require Import Complex.
From Verif Require Import Base CMat ModelUnitary ModelPrimitive ModelSequence ModelCompiler
  Spec SpecModel SpecCompiler SpecChain SpecChainLay PLayBal.
Import ListNotations.
Open Scope R_scope.

(** C97: the mean of any function of the sequence after one step. *)
Theorem C97_step_mean : forall n st c s target counts F,
  exact_world (r_world st) -> list_sequence (r_world st) s (2 ^ n) ->
  c_dim c = (2 ^ n)%nat -> 0 <= c_append c <= 1 -> good_table 0 n counts -> fixed_table counts ->
  built 0 target -> u_dim target = (2 ^ n)%nat ->
  let gs := contents (r_world st) s in
  average (r_draws st) (fun g => F (step_contents_layered st c s target counts g)) []
    (layered_mean n c counts gs (accept_mean n (Rmin (c_beta c + c_rate c) (c_max_beta c)) target F gs)).
Proof. exact C97_mean_lemma. Qed.
Print Assumptions C97_step_mean.

(** C97: the chance of each other sequence. *)
Theorem C97_step_chance : forall n st c s target counts gs',
  exact_world (r_world st) -> list_sequence (r_world st) s (2 ^ n) ->
  c_dim c = (2 ^ n)%nat -> 0 <= c_append c <= 1 -> good_table 0 n counts -> fixed_table counts ->
  built 0 target -> u_dim target = (2 ^ n)%nat ->
  let gs := contents (r_world st) s in gs <> gs' ->
  chance (r_draws st) (fun g => step_contents_layered st c s target counts g = gs')
    (metropolis (Rmin (c_beta c + c_rate c) (c_max_beta c)) (cost_of n target gs' - cost_of n target gs) *
     layered_mean n c counts gs (fun l => ind (l = gs'))).
Proof. exact C97_chance_lemma. Qed.
Print Assumptions C97_step_chance.

(** C97: a layer and the same layer read backwards, as append_first() puts it, are equally likely. *)
Theorem C97_reversed_layer : forall n counts l, layer_chance n counts (rev l) = layer_chance n counts l.
Proof. exact C97_reversed_lemma. Qed.
Print Assumptions C97_reversed_layer.

(** C97: detailed balance, with the weight exp(- beta cost) times, for each layer, its probability
    and the odds of appending. *)
Theorem C97_detailed_balance : forall n c target counts st s st' s' ls ls' p p',
  c_dim c = (2 ^ n)%nat -> 0 < c_append c < 1 -> good_table 0 n counts -> fixed_table counts ->
  (forall pc, In pc counts -> (0 <= snd pc)%Z) -> built 0 target -> u_dim target = (2 ^ n)%nat ->
  exact_world (r_world st) -> list_sequence (r_world st) s (2 ^ n) ->
  exact_world (r_world st') -> list_sequence (r_world st') s' (2 ^ n) ->
  whole_layers counts ls -> whole_layers counts ls' ->
  contents (r_world st) s = List.concat ls -> contents (r_world st') s' = List.concat ls' -> List.concat ls <> List.concat ls' ->
  chance (r_draws st) (fun g => step_contents_layered st c s target counts g = List.concat ls') p ->
  chance (r_draws st') (fun g => step_contents_layered st' c s' target counts g = List.concat ls) p' ->
  let beta := Rmin (c_beta c + c_rate c) (c_max_beta c) in
  boltzmann_layered n c counts beta target ls * p = boltzmann_layered n c counts beta target ls' * p'.
Proof. exact C97_detailed_lemma. Qed.
Print Assumptions C97_detailed_balance.

(** The first step of a one-qubit compilation appends a layer of two rotations with this chance. *)
Example C97_case : exists st c s target counts ls ls',
  exact_world (r_world st) /\ list_sequence (r_world st) s (2 ^ 1) /\ c_dim c = (2 ^ 1)%nat /\ 0 < c_append c < 1 /\
  good_table 0 1 counts /\ fixed_table counts /\ (forall pc, In pc counts -> (0 <= snd pc)%Z) /\ built 0 target /\ u_dim target = (2 ^ 1)%nat /\
  whole_layers counts ls /\ whole_layers counts ls' /\ contents (r_world st) s = List.concat ls /\ List.length (List.concat ls') = 2%nat /\
  chance (r_draws st) (fun g => step_contents_layered st c s target counts g = List.concat ls') (exp (-16 * (18 / 25)) * (1 / 2)).
Proof. exact ex_C97_lemma. Qed.

