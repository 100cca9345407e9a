(** Properties of [HamiltonianTerm], [Hamiltonian] and time evolution: C38-C45,
    C60-C62, C65.

    [g] stands for the answers of the random generators; statements hold for every
    [g] that keeps to [rng_ok]. *)
From Coq Require Import Reals List Arith Bool String ZArith Permutation.
From Coquelicot Require Import Coquelicot.
From Verif Require Import Base CMat Det Norms Expm ModelUnitary ModelEntry ModelPrimitive ModelSequence ModelCompiler
  ModelVerification ModelGates ModelHamiltonian Spec SpecModel SpecCompiler SpecGates SpecHamiltonian SpecChannel PCompCases PHamRun
  PHamTrot PHamQd PHamChan PHamSub PHamStoq PHamRav PHamIso PHamEx.
Import ListNotations.
Open Scope R_scope.
Open Scope C_scope.

(** C38: for a non-zero Hermitian matrix the coefficient is its operator norm and
    largest singular value, the normalised matrix has norm 1, and their product is
    the matrix. *)
Theorem C38_coefficient_is_norm : forall d M, (0 < d)%nat -> hermitian_mx d M -> ~ meq d M mzero ->
  exists t, mk_term (square d M) = Ok t /\ t_dim t = d /\ (0 < t_coeff t)%R /\
    meq d (mscale (RtoC (t_coeff t)) (t_norm t)) M /\ hermitian_mx d (t_norm t) /\
    operator_norm d M (t_coeff t) /\ operator_norm d (t_norm t) 1 /\
    singular_value d M (t_coeff t) /\ (forall s, singular_value d M s -> (s <= t_coeff t)%R).
Proof. exact C38_lemma. Qed.
Print Assumptions C38_coefficient_is_norm.

(** C38: the zero matrix, matrices that are not square, those that differ from
    their adjoint by more than numpy's tolerance, and empty ones are rejected. *)
Theorem C38_rejected_matrices :
  (forall d M, (0 < d)%nat -> meq d M mzero -> mk_term (square d M) = Raise AssertionError) /\
  (forall m, nrows m <> ncols m -> mk_term m = Raise AssertionError) /\
  (forall d M i j, (i < d)%nat -> (j < d)%nat ->
     (/ 10 ^ 8 + / 10 ^ 5 * Cmod (M j i) < Cmod (M i j - Cconj (M j i)))%R ->
     mk_term (square d M) = Raise AssertionError) /\
  (forall M, mk_term (square 0 M) = Raise ValueError).
Proof. exact C38_rejects_lemma. Qed.
Print Assumptions C38_rejected_matrices.

(** C38: [Hamiltonian] accepts exactly the non-empty lists of terms of one dimension. *)
Theorem C38_hamiltonian : forall ts,
  (forall h, mk_hamiltonian ts = Ok h -> ts <> [] /\ h_terms h = ts /\ (forall t, In t ts -> t_dim t = h_dim h)) /\
  (ts <> [] -> (forall t u, In t ts -> In u ts -> t_dim t = t_dim u) -> exists h, mk_hamiltonian ts = Ok h) /\
  (ts = [] \/ (exists t u, In t ts /\ In u ts /\ t_dim t <> t_dim u) -> mk_hamiltonian ts = Raise AssertionError).
Proof. exact C38_hamiltonian_lemma. Qed.
Print Assumptions C38_hamiltonian.

(** X + Z, whose coefficient is the root of 2. *)
Example C38_case : hermitian_mx 2 XZ /\ ~ meq 2 XZ mzero /\
  exists t, mk_term (square 2 XZ) = Ok t /\ t_coeff t = sqrt 2.
Proof. exact ex_term_lemma. Qed.

(** C39: time evolution succeeds for every time and stores exp(i h t), up to phase
    and the clean-up. *)
Theorem C39_evolution : forall eps n h t sfx E, small_drift eps n 1 -> hermitian_mx (2 ^ n) h ->
  evolution (2 ^ n) h t E ->
  stores_phase eps 1 n (time_evolution eps (2 ^ n) h t sfx) E /\
  labelled (time_evolution eps (2 ^ n) h t sfx) ("H" ++ sfx) [("t"%string, (t, false))].
Proof. exact C39_lemma. Qed.
Print Assumptions C39_evolution.

(** C39: without the clean-up it is exact, in every dimension. *)
Theorem C39_exact : forall d h t sfx E, (0 < d)%nat -> hermitian_mx d h -> evolution d h t E ->
  stores_exactly d (time_evolution 0 d h t sfx) E.
Proof. exact C39_exact_lemma. Qed.
Print Assumptions C39_exact.

(** C39: times add, the inverse is the negative time, time 0 is the identity. *)
Theorem C39_group : forall eps n h s t sfx, small_drift eps n 1 -> hermitian_mx (2 ^ n) h ->
  (exists u v w x c, time_evolution eps (2 ^ n) h s sfx = Ok u /\ time_evolution eps (2 ^ n) h t sfx = Ok v /\
     u_left_multiply eps u v = Ok w /\ time_evolution eps (2 ^ n) h (s + t) sfx = Ok x /\
     Cmod c = 1%R /\ (fro (2 ^ n) (mminus (u_mat w) (mscale c (u_mat x))) <= drift_bound eps n 1)%R) /\
  (exists u i y c, time_evolution eps (2 ^ n) h t sfx = Ok u /\ u_inverse eps u = Ok i /\
     time_evolution eps (2 ^ n) h (- t) sfx = Ok y /\
     Cmod c = 1%R /\ (fro (2 ^ n) (mminus (u_mat i) (mscale c (u_mat y))) <= drift_bound eps n 1)%R) /\
  (exists z c, time_evolution eps (2 ^ n) h 0 sfx = Ok z /\
     Cmod c = 1%R /\ (fro (2 ^ n) (mminus (u_mat z) (mscale c mid)) <= drift_bound eps n 1)%R).
Proof. exact C39_group_lemma. Qed.
Print Assumptions C39_group.

(** C39: the same for the parameterised evolution; its range is checked. *)
Theorem C39_family : forall eps n h t_min t_max sfx, small_drift eps n 1 -> hermitian_mx (2 ^ n) h ->
  ((t_min <= t_max)%R -> exists pu, pd_time_evolution eps (2 ^ n) h t_min t_max sfx = Ok pu /\
     pu_dim pu = (2 ^ n)%nat /\ List.map pr_name (pu_params pu) = ["t"%string] /\
     (forall t E, (t_min <= t <= t_max)%R -> evolution (2 ^ n) h t E ->
        stores_phase eps 1 n (as_unitary eps pu [t]) E /\
        labelled (as_unitary eps pu [t]) ("H" ++ sfx) [("t"%string, (t, false))]) /\
     (forall t, (t < t_min)%R \/ (t_max < t)%R -> as_unitary eps pu [t] = Raise AssertionError)) /\
  ((t_max < t_min)%R -> pd_time_evolution eps (2 ^ n) h t_min t_max sfx = Raise AssertionError).
Proof. exact C39_family_lemma. Qed.
Print Assumptions C39_family.

(** C39: the evolution of a matrix with square 1. *)
Theorem C39_closed_form : forall d A t, meq d (mmul d A A) mid ->
  evolution d A t (fun i j => RtoC (cos t) * mid i j + Ci * RtoC (sin t) * A i j).
Proof. exact C39_involution_lemma. Qed.
Print Assumptions C39_closed_form.

(** C39: the evolutions of the Pauli matrices are the rotations and that of X (x) X
    is the xx gate. *)
Theorem C39_rotations :
  (forall x y z t, (x ^ 2 + y ^ 2 + z ^ 2 = 1)%R ->
     evolution 2 (fun i j => RtoC x * pauli_x i j + RtoC y * pauli_y i j + RtoC z * pauli_z i j) t (rotation x y z (-2 * t))) /\
  (forall t, evolution 4 (kron 2 pauli_x pauli_x) t (xx_coupling (- t))).
Proof. exact C39_rotation_lemma. Qed.
Print Assumptions C39_rotations.

(** X for a time of pi/4, with the threshold of the code. *)
Example C39_case : small_drift eps_code 1 1 /\ hermitian_mx (2 ^ 1) pauli_x /\
  evolution (2 ^ 1) pauli_x (PI / 4) (rotation 1 0 0 (- (PI / 2))).
Proof. exact ex_evolution_lemma. Qed.

(** C40: N equal entries whose product is the exact evolution, up to the clean-ups. *)
Theorem C40_ideal : forall eps n Ms h t N st, (1 <= n)%nat -> (1 <= N)%nat -> small_drift eps n (2 * N) ->
  hamiltonian_of (2 ^ n) Ms h -> reachable eps (r_world st) ->
  exists st' s u v p x, ideal_sequence eps h t (Z.of_nat N) st = (st', Ok s) /\
    reachable eps (r_world st') /\ list_sequence (r_world st') s (2 ^ n) /\
    contents (r_world st') s = repeat (u, seq 0 n) N /\
    time_evolution_operator eps h (t / INR N) = Ok u /\
    time_evolution_operator eps h t = Ok v /\
    answers eps (r_world st') s p /\
    u_distance_from eps p v = Ok x /\ (Rabs x <= drift_bound eps n (2 * N))%R /\
    (forall E, evolution (2 ^ n) (total Ms) t E ->
       exists c, Cmod c = 1%R /\ (fro (2 ^ n) (mminus (u_mat p) (mscale c E)) <= drift_bound eps n (2 * N))%R).
Proof. exact C40_lemma. Qed.
Print Assumptions C40_ideal.

(** C41: N blocks, each a permutation of the evolutions of the terms for t/N, and
    the same order every time when not randomised. *)
Theorem C41_blocks : forall g eps n Ms h t N randomize st, rng_ok g -> (1 <= n)%nat -> (1 <= N)%nat ->
  small_drift eps n 1 -> hamiltonian_of (2 ^ n) Ms h -> reachable eps (r_world st) ->
  exists st' s gates blocks,
    trotter_sequence eps g h t (Z.of_nat N) randomize st = (st', Ok s) /\
    reachable eps (r_world st') /\ list_sequence (r_world st') s (2 ^ n) /\
    contents (r_world st') s = List.concat blocks /\ List.length blocks = N /\
    List.Forall (fun block => Permutation block gates) blocks /\
    (randomize = false -> blocks = repeat gates N) /\
    List.length gates = List.length Ms /\
    (forall i M, nth_error Ms i = Some M -> exists gt, nth_error gates i = Some gt /\
       snd gt = seq 0 n /\
       (forall E, evolution (2 ^ n) M (t / INR N) E -> stores_phase eps 1 n (Ok (fst gt)) E) /\
       labelled (Ok (fst gt)) ("H" ++ str_nat i) [("t"%string, ((t / INR N)%R, false))]).
Proof. exact C41_lemma. Qed.
Print Assumptions C41_blocks.

(** C41: zero steps raise [ZeroDivisionError]. *)
Theorem C41_zero_steps : forall g eps h t randomize st,
  ideal_sequence eps h t 0 st = (st, Raise ZeroDivisionError) /\
  trotter_sequence eps g h t 0 randomize st = (st, Raise ZeroDivisionError).
Proof. exact C41_zero_lemma. Qed.
Print Assumptions C41_zero_steps.

(** C41: a negative number of steps gives an empty sequence, not an exception. *)
Theorem C41_negative_steps : forall g eps n Ms h t N randomize st, (1 <= n)%nat -> small_drift eps n 1 ->
  hamiltonian_of (2 ^ n) Ms h -> reachable eps (r_world st) -> (N < 0)%Z ->
  (exists st' s, ideal_sequence eps h t N st = (st', Ok s) /\ contents (r_world st') s = []) /\
  (exists st' s, trotter_sequence eps g h t N randomize st = (st', Ok s) /\ contents (r_world st') s = []) /\
  (exists st' s, qdrift_sequence eps g h t N st = (st', Ok s) /\ contents (r_world st') s = []).
Proof. exact C41_negative_lemma. Qed.
Print Assumptions C41_negative_steps.

(** C42: the distance from the exact evolution is of order 1/N, whatever the shuffles. *)
Theorem C42_trotter_error : forall g eps n Ms h t N randomize st, rng_ok g -> (1 <= n)%nat -> (1 <= N)%nat ->
  small_drift eps n (2 * (N * List.length Ms)) -> hamiltonian_of (2 ^ n) Ms h -> reachable eps (r_world st) ->
  exists st' s v p x, trotter_sequence eps g h t (Z.of_nat N) randomize st = (st', Ok s) /\
    time_evolution_operator eps h t = Ok v /\ answers eps (r_world st') s p /\
    u_distance_from eps p v = Ok x /\
    (Rabs x <= drift_bound eps n (2 * (N * List.length Ms)) + trotter_bound (total_size (2 ^ n) Ms t) N)%R /\
    (forall E, evolution (2 ^ n) (total Ms) t E -> exists c, Cmod c = 1%R /\
       (fro (2 ^ n) (mminus (u_mat p) (mscale c E))
        <= drift_bound eps n (2 * (N * List.length Ms)) + trotter_bound (total_size (2 ^ n) Ms t) N)%R).
Proof. exact C42_lemma. Qed.
Print Assumptions C42_trotter_error.

(** C42: for commuting terms only the clean-ups remain. *)
Theorem C42_commuting : forall g eps n Ms h t N randomize st, rng_ok g -> (1 <= n)%nat -> (1 <= N)%nat ->
  small_drift eps n (2 * (N * List.length Ms)) -> hamiltonian_of (2 ^ n) Ms h -> reachable eps (r_world st) ->
  commuting (2 ^ n) Ms ->
  exists st' s v p x, trotter_sequence eps g h t (Z.of_nat N) randomize st = (st', Ok s) /\
    time_evolution_operator eps h t = Ok v /\ answers eps (r_world st') s p /\
    u_distance_from eps p v = Ok x /\ (Rabs x <= drift_bound eps n (2 * (N * List.length Ms)))%R /\
    (forall E, evolution (2 ^ n) (total Ms) t E -> exists c, Cmod c = 1%R /\
       (fro (2 ^ n) (mminus (u_mat p) (mscale c E)) <= drift_bound eps n (2 * (N * List.length Ms)))%R).
Proof. exact C42_commuting_lemma. Qed.
Print Assumptions C42_commuting.

(** C42: without the clean-up, the distance tends to 0 (uniformly in the shuffles). *)
Theorem C42_convergence : forall n Ms t tol, (1 <= n)%nat -> (0 < tol)%R ->
  exists N0, forall N g h randomize st, (N0 <= N)%nat -> rng_ok g -> hamiltonian_of (2 ^ n) Ms h ->
    reachable 0 (r_world st) ->
    exists st' s v p x, trotter_sequence 0 g h t (Z.of_nat N) randomize st = (st', Ok s) /\
      time_evolution_operator 0 h t = Ok v /\ answers 0 (r_world st') s p /\
      u_distance_from 0 p v = Ok x /\ (Rabs x < tol)%R.
Proof. exact C42_limit_lemma. Qed.
Print Assumptions C42_convergence.

(** C43: entry j evolves the normalised term selected by draw j for the time
    (sum of norms) t / N; term k is selected on an interval of length c_k / sum. *)
Theorem C43_sampling : forall g eps n Ms cs h t N st, rng_ok g -> (1 <= n)%nat -> small_drift eps n 1 ->
  hamiltonian_of (2 ^ n) Ms h -> Forall2 (operator_norm (2 ^ n)) Ms cs -> reachable eps (r_world st) ->
  exists st' s, qdrift_sequence eps g h t (Z.of_nat N) st = (st', Ok s) /\
    reachable eps (r_world st') /\ list_sequence (r_world st') s (2 ^ n) /\
    r_draws st' = (r_draws st + N)%nat /\
    Forall2 (fun j gt => snd gt = seq 0 n /\
        exists k M c, nth_error Ms k = Some M /\ nth_error cs k = Some c /\
          selected cs (g_unif g j) k /\
          (forall E, evolution (2 ^ n) (mscale (RtoC (/ c)) M) (fold_right Rplus 0%R cs * t / INR N) E ->
             stores_phase eps 1 n (Ok (fst gt)) E) /\
          labelled (Ok (fst gt)) ("H" ++ str_nat k ++ " λ/N")
            [("t"%string, ((fold_right Rplus 0%R cs * t / INR N)%R, false))])
      (seq (r_draws st) N) (contents (r_world st') s).
Proof. exact C43_lemma. Qed.
Print Assumptions C43_sampling.

(** C43: the mean over one draw of the generator times time of an entry is that of
    the whole Hamiltonian for t / N. *)
Theorem C43_average : forall d Ms cs t N (G : R -> mat), Ms <> [] -> (1 <= N)%nat ->
  Forall2 (operator_norm d) Ms cs -> (forall c, In c cs -> (0 < c)%R) ->
  (forall x k M c, (0 <= x < 1)%R -> selected cs x k -> nth_error Ms k = Some M -> nth_error cs k = Some c ->
     G x = mscale (RtoC (fold_right Rplus 0%R cs * t / INR N)) (mscale (RtoC (/ c)) M)) ->
  forall i j,
    is_RInt (fun x => Re (G x i j)) 0 1 (Re (RtoC (t / INR N) * total Ms i j)) /\
    is_RInt (fun x => Im (G x i j)) 0 1 (Im (RtoC (t / INR N) * total Ms i j)).
Proof. exact C43_average_lemma. Qed.
Print Assumptions C43_average.

(** X and Z, ten steps, the threshold of the code. *)
Example C40_C43_case : exists g h, rng_ok g /\ hamiltonian_of (2 ^ 1) [pauli_x; pauli_z] h /\
  (1 <= 10)%nat /\ small_drift eps_code 1 (2 * 10) /\ small_drift eps_code 1 (2 * (10 * List.length [pauli_x; pauli_z])) /\
  Forall2 (operator_norm (2 ^ 1)) [pauli_x; pauli_z] [1; 1]%R /\ reachable eps_code (r_world start).
Proof. exact ex_sequences_lemma. Qed.

(** Z and the identity, ten steps, the threshold of the code. *)
Example C42_commuting_case : exists h, hamiltonian_of (2 ^ 1) [pauli_z; mid] h /\ commuting (2 ^ 1) [pauli_z; mid] /\
  small_drift eps_code 1 (2 * (10 * List.length [pauli_z; mid])).
Proof. exact ex_commuting_lemma. Qed.

(** C44: the single terms in order or every non-empty subset once. *)
Theorem C44_term_subsets : forall n, term_subsets n true (subset_indices n true) /\
  List.length (subset_indices n true) = (2 ^ n - 1)%nat /\
  term_subsets n false (subset_indices n false).
Proof. exact C44_subsets_lemma. Qed.
Print Assumptions C44_term_subsets.

(** C44: one primitive for every subset, evolving it for a time between -T and T;
    a negative maximal step is rejected. *)
Theorem C44_primitives : forall eps n Ms h T simultaneous, (1 <= n)%nat -> small_drift eps n 1 ->
  hamiltonian_of (2 ^ n) Ms h ->
  ((0 <= T)%R -> exists ls ps, stoq_primitives eps h T simultaneous = Ok ps /\
     term_subsets (List.length Ms) simultaneous ls /\
     Forall2 (fun l p => evolves_subset eps n Ms T l p /\ good_primitive eps n p) ls ps) /\
  ((T < 0)%R -> stoq_primitives eps h T simultaneous = Raise AssertionError).
Proof. exact C44_primitives_lemma. Qed.
Print Assumptions C44_primitives.

(** C44: a compiled sequence consists of such evolutions; it is close to the target
    unless all 10000 steps were used. *)
Theorem C44_compiled : forall g eps n Ms h t T thr simultaneous st st' s costs,
  rng_ok g -> (1 <= n)%nat -> small_drift eps n 1 -> hamiltonian_of (2 ^ n) Ms h -> reachable eps (r_world st) ->
  compile_stoq_sequence eps g h t T thr simultaneous st = (st', Ok (s, costs)) ->
  has_dim (r_world st') s (2 ^ n) /\ (Z.of_nat (List.length costs) <= 10000)%Z /\
  List.Forall (stoq_gate eps n Ms T simultaneous) (contents (r_world st') s) /\
  exists v p close, time_evolution_operator eps h t = Ok v /\ answers eps (r_world st') s p /\
    u_close_to eps p v (Some thr) = Ok close /\
    (close = false -> Z.of_nat (List.length costs) = 10000%Z).
Proof. exact C44_compile_lemma. Qed.
Print Assumptions C44_compiled.

(** C44: without the clean-up the call always returns; the last cost is the
    distance of the product from the exact evolution. *)
Theorem C44_exact : forall g n Ms h t T thr simultaneous st,
  rng_ok g -> (1 <= n)%nat -> hamiltonian_of (2 ^ n) Ms h -> exact_world (r_world st) -> (0 <= T)%R ->
  exists st' s costs v p, compile_stoq_sequence 0 g h t T thr simultaneous st = (st', Ok (s, costs)) /\
    exact_world (r_world st') /\
    time_evolution_operator 0 h t = Ok v /\ answers 0 (r_world st') s p /\
    meq (2 ^ n) (u_mat p) (ordered n (contents (r_world st') s)) /\
    (costs <> [] -> u_distance_from 0 v p = Ok (last costs 0%R)).
Proof. exact C44_exact_lemma. Qed.
Print Assumptions C44_exact.

(** C44: with a small clean-up the call always returns and its product is that of
    the entries, up to the clean-ups. *)
Theorem C44_drift : forall g eps n Ms h t T thr simultaneous st K,
  rng_ok g -> (1 <= n)%nat -> hamiltonian_of (2 ^ n) Ms h -> drift_world eps K (r_world st) -> (0 <= T)%R ->
  small_drift eps n (S (K + Z.to_nat 10000)) ->
  exists st' s costs p, compile_stoq_sequence eps g h t T thr simultaneous st = (st', Ok (s, costs)) /\
    drift_world eps (K + Z.to_nat 10000) (r_world st') /\ answers eps (r_world st') s p /\
    (fro (2 ^ n) (mminus (u_mat p) (ordered n (contents (r_world st') s))) <= drift_bound eps n (K + Z.to_nat 10000))%R.
Proof. exact C44_drift_lemma. Qed.
Print Assumptions C44_drift.

(** X and Z with simultaneous terms. *)
Example C44_case : exists g h st st' s costs, rng_ok g /\ hamiltonian_of (2 ^ 1) [pauli_x; pauli_z] h /\
  exact_world (r_world st) /\ small_drift 0 1 1 /\ reachable 0 (r_world st) /\
  compile_stoq_sequence 0 g h 1 (1 / 10) (1 / 100) true st = (st', Ok (s, costs)).
Proof. exact ex_stoq_lemma. Qed.

(** A threshold that is small enough for the 10000 steps (that of the code is not). *)
Example C44_drift_case : small_drift (/ 10 ^ 16) 1 (S (0 + Z.to_nat 10000)) /\
  drift_world (/ 10 ^ 16) 0 (r_world start) /\ small_drift (/ 10 ^ 16) 1 (2 * S (0 + 100 + Z.to_nat 10000)).
Proof. exact ex_stoq_drift_lemma. Qed.

(** C45: the random part evolves for at least the requested time and less than
    max_t_step more; every step is within max_t_step; then follow compiled entries. *)
Theorem C45_random_part : forall g eps n Ms h time T thr simultaneous fuel st st' s costs,
  rng_ok g -> (1 <= n)%nat -> small_drift eps n 1 -> hamiltonian_of (2 ^ n) Ms h -> reachable eps (r_world st) ->
  compile_rav_sequence eps g fuel h time T thr simultaneous st = (st', Ok (s, costs)) ->
  let d := r_draws st in
  exists ls k rand comp, term_subsets (List.length Ms) simultaneous ls /\
    list_sequence (r_world st') s (2 ^ n) /\ contents (r_world st') s = rand ++ comp /\
    Forall2 (fun j gt => subset_gate eps n Ms (rav_subset g ls d j) (rav_time g T d j) gt) (seq 0 k) rand /\
    (forall j, In (rav_subset g ls d j) ls /\ (- T <= rav_time g T d j <= T)%R) /\
    (time <= rav_elapsed g T d k)%R /\ (forall k', (k' < k)%nat -> (rav_elapsed g T d k' < time)%R) /\
    ((0 < time)%R -> (rav_elapsed g T d k < time + T)%R) /\
    List.Forall (stoq_gate eps n Ms T simultaneous) comp /\ (Z.of_nat (List.length costs) <= 10000)%Z.
Proof. exact C45_lemma. Qed.
Print Assumptions C45_random_part.

(** C45: with max_t_step = 0 and a positive time no number of rounds suffices. *)
Theorem C45_never_returns : forall g eps n Ms h time thr simultaneous fuel st,
  rng_ok g -> (1 <= n)%nat -> small_drift eps n 1 -> hamiltonian_of (2 ^ n) Ms h -> (0 < time)%R ->
  (reachable eps (r_world st) -> forall st' s costs,
     compile_rav_sequence eps g fuel h time 0 thr simultaneous st <> (st', Ok (s, costs))) /\
  (eps = 0%R -> exact_world (r_world st) -> exists st',
     compile_rav_sequence eps g fuel h time 0 thr simultaneous st = (st', Raise OutOfFuel)).
Proof. exact C45_never_lemma. Qed.
Print Assumptions C45_never_returns.

(** C45: otherwise the call returns as soon as the steps reach the time. *)
Theorem C45_returns_when_time_is_reached : forall g n Ms h time T thr simultaneous fuel st,
  rng_ok g -> (1 <= n)%nat -> hamiltonian_of (2 ^ n) Ms h -> exact_world (r_world st) -> (0 <= T)%R ->
  ((exists k, (k <= fuel)%nat /\ (time <= rav_elapsed g T (r_draws st) k)%R) ->
     exists st' s costs, compile_rav_sequence 0 g fuel h time T thr simultaneous st = (st', Ok (s, costs))) /\
  ((forall k, (k <= fuel)%nat -> (rav_elapsed g T (r_draws st) k < time)%R) ->
     exists st', compile_rav_sequence 0 g fuel h time T thr simultaneous st = (st', Raise OutOfFuel)).
Proof. exact C45_run_lemma. Qed.
Print Assumptions C45_returns_when_time_is_reached.

(** C45: also with a small clean-up. *)
Theorem C45_returns_with_cleanup : forall g eps n Ms h time T thr simultaneous fuel st K,
  rng_ok g -> (1 <= n)%nat -> hamiltonian_of (2 ^ n) Ms h -> drift_world eps K (r_world st) -> (0 <= T)%R ->
  small_drift eps n (2 * S (K + fuel + Z.to_nat 10000)) ->
  ((exists k, (k <= fuel)%nat /\ (time <= rav_elapsed g T (r_draws st) k)%R) ->
     exists st' s costs, compile_rav_sequence eps g fuel h time T thr simultaneous st = (st', Ok (s, costs))) /\
  ((forall k, (k <= fuel)%nat -> (rav_elapsed g T (r_draws st) k < time)%R) ->
     exists st', compile_rav_sequence eps g fuel h time T thr simultaneous st = (st', Raise OutOfFuel)).
Proof. exact C45_drift_lemma. Qed.
Print Assumptions C45_returns_with_cleanup.

(** C45: in particular when the draws stay away from 0. *)
Theorem C45_terminates : forall g n Ms h time T thr simultaneous st delta,
  rng_ok g -> (1 <= n)%nat -> hamiltonian_of (2 ^ n) Ms h -> exact_world (r_world st) -> (0 < T)%R ->
  (0 < delta)%R -> (forall j, (delta <= g_unif g (r_draws st + 3 * j))%R) ->
  exists fuel0, forall fuel, (fuel0 <= fuel)%nat ->
    exists st' s costs, compile_rav_sequence 0 g fuel h time T thr simultaneous st = (st', Ok (s, costs)).
Proof. exact C45_terminates_lemma. Qed.
Print Assumptions C45_terminates.

(** C45: the distance of the whole product from the identity is that of the
    compiled part from the inverse of the random part. *)
Theorem C45_distance_from_identity : forall g n Ms h time T thr simultaneous fuel st st' s costs,
  rng_ok g -> (1 <= n)%nat -> hamiltonian_of (2 ^ n) Ms h -> exact_world (r_world st) ->
  compile_rav_sequence 0 g fuel h time T thr simultaneous st = (st', Ok (s, costs)) ->
  exact_world (r_world st') /\
  exists ls k rand comp, term_subsets (List.length Ms) simultaneous ls /\
  Forall2 (fun j gt => subset_gate 0 n Ms (rav_subset g ls (r_draws st) j) (rav_time g T (r_draws st) j) gt) (seq 0 k) rand /\
  contents (r_world st') s = rand ++ comp /\
  exists p i dist, answers 0 (r_world st') s p /\ meq (2 ^ n) (u_mat p) (ordered n (rand ++ comp)) /\
    u_identity 0 (2 ^ n) = Ok i /\ u_distance_from 0 p i = Ok dist /\
    dist = (1 - overlap (2 ^ n) (adj (ordered n rand)) (ordered n comp))%R /\
    (costs <> [] -> last costs 0%R = dist) /\
    ((Z.of_nat (List.length costs) < 10000)%Z -> u_close_to 0 p i (Some thr) = Ok true).
Proof. exact C45_metric_lemma. Qed.
Print Assumptions C45_distance_from_identity.

(** X and Z with draws of 1/2. *)
Example C45_case : exists g h st fuel st' s costs, rng_ok g /\ hamiltonian_of (2 ^ 1) [pauli_x; pauli_z] h /\
  exact_world (r_world st) /\ reachable 0 (r_world st) /\ (forall j, (1 / 2 <= g_unif g (r_draws st + 3 * j))%R) /\
  compile_rav_sequence 0 g fuel h 1 (1 / 10) (1 / 100) false st = (st', Ok (s, costs)).
Proof. exact ex_rav_lemma. Qed.

(** C60: building ideal, Trotter and QDRIFT sequences leaves every other sequence
    as it was, also when the call raises. *)
Theorem C60_sequences : forall g eps h time N b st t dt p w',
  reachable eps (r_world st) -> list_sequence (r_world st) t dt ->
  w' = r_world (fst (ideal_sequence eps h time N st)) \/
  w' = r_world (fst (trotter_sequence eps g h time N b st)) \/
  w' = r_world (fst (qdrift_sequence eps g h time N st)) ->
  list_sequence w' t dt /\ contents w' t = contents (r_world st) t /\
  (answers eps (r_world st) t p -> answers eps w' t p).
Proof. exact C60_sequences_lemma. Qed.
Print Assumptions C60_sequences.

(** C60: so do STOQ and RAV compilations. *)
Theorem C60_compilations : forall g eps fuel h time T thr b st t dt p w',
  rng_ok g -> reachable eps (r_world st) -> list_sequence (r_world st) t dt ->
  w' = r_world (fst (compile_stoq_sequence eps g h time T thr b st)) \/
  w' = r_world (fst (compile_rav_sequence eps g fuel h time T thr b st)) ->
  list_sequence w' t dt /\ contents w' t = contents (r_world st) t /\
  (answers eps (r_world st) t p -> answers eps w' t p).
Proof. exact C60_compile_lemma. Qed.
Print Assumptions C60_compilations.

(** Another sequence with ten entries. *)
Example C60_case : exists g h st t p, rng_ok g /\ hamiltonian_of (2 ^ 1) [pauli_x; pauli_z] h /\
  reachable eps_code (r_world st) /\ list_sequence (r_world st) t 2 /\ List.length (contents (r_world st) t) = 10%nat /\
  answers eps_code (r_world st) t p.
Proof. exact ex_beside_lemma. Qed.

(** C61: a Hamiltonian whose dimension is no power of two is accepted, but none of
    its sequences can be built. *)
Theorem C61_no_sequence : forall g eps ts h time N b (st st' : rstate) (s : nat),
  rng_ok g -> mk_hamiltonian ts = Ok h -> (forall n, (1 <= n)%nat -> h_dim h <> (2 ^ n)%nat) -> (1 <= N)%Z ->
  ideal_sequence eps h time N st <> (st', Ok s) /\
  trotter_sequence eps g h time N b st <> (st', Ok s) /\
  qdrift_sequence eps g h time N st <> (st', Ok s).
Proof. exact C61_sequences_lemma. Qed.
Print Assumptions C61_no_sequence.

(** C61: nor compiled. *)
Theorem C61_no_compilation : forall g eps ts h fuel time T thr b (st st' : rstate) (r : nat * list R),
  mk_hamiltonian ts = Ok h -> (forall n, (1 <= n)%nat -> h_dim h <> (2 ^ n)%nat) ->
  compile_stoq_sequence eps g h time T thr b st <> (st', Ok r) /\
  compile_rav_sequence eps g fuel h time T thr b st <> (st', Ok r).
Proof. exact C61_compile_lemma. Qed.
Print Assumptions C61_no_compilation.

(** An accepted Hamiltonian in dimension 3, with its time evolution. *)
Example C61_case : exists ts h u, mk_hamiltonian ts = Ok h /\ (forall n, (1 <= n)%nat -> h_dim h <> (2 ^ n)%nat) /\
  time_evolution_operator 0 h 1 = Ok u.
Proof. exact ex_qutrit_lemma. Qed.

(** C62 (refuted): an accepted term whose evolution is rejected for a long time. *)
Theorem C62_scalar_refuted : exists M tm h, mk_term (square 2 M) = Ok tm /\ mk_hamiltonian [tm] = Ok h /\
  forall eps, (0 <= eps <= 1 / 4)%R -> time_evolution_operator eps h 1000000000 = Raise AssertionError.
Proof. exact C62_scalar_lemma. Qed.
Print Assumptions C62_scalar_refuted.

(** C62 (refuted): two accepted terms whose Hamiltonian has no evolution at all. *)
Theorem C62_sum_refuted : exists M1 M2 t1 t2 h, mk_term (square 2 M1) = Ok t1 /\ mk_term (square 2 M2) = Ok t2 /\
  mk_hamiltonian [t1; t2] = Ok h /\
  forall eps time, time_evolution_operator eps h time = Raise AssertionError.
Proof. exact C62_sum_lemma. Qed.
Print Assumptions C62_sum_refuted.

(** C65: the product of a QDRIFT sequence is a function of its draws; what it makes
    of any matrix X (a density matrix, for instance) is, in the mean over N
    independent uniform draws, what the exact evolution makes of it, up to
    4 (sum of norms * t)^2 / N times the size of X. *)
Theorem C65_mean_of_qdrift : forall n Ms cs h t N E, (1 <= n)%nat -> (1 <= N)%nat ->
  hamiltonian_of (2 ^ n) Ms h -> Forall2 (operator_norm (2 ^ n)) Ms cs -> evolution (2 ^ n) (total Ms) t E ->
  exists P : list R -> mat,
    (forall g eps st, rng_ok g -> small_drift eps n (2 * N) -> reachable eps (r_world st) ->
       exists st' s p c, qdrift_sequence eps g h t (Z.of_nat N) st = (st', Ok s) /\
         answers eps (r_world st') s p /\ Cmod c = 1%R /\
         (fro (2 ^ n) (mminus (u_mat p) (mscale c (P (map (g_unif g) (seq (r_draws st) N)))))
            <= drift_bound eps n (2 * N))%R) /\
    (forall X, exists Y, mean_turned (2 ^ n) N P X Y /\
       (fro (2 ^ n) (mminus Y (turned (2 ^ n) E X))
          <= 4 * (fold_right Rplus 0 cs * t) ^ 2 / INR N * fro (2 ^ n) X)%R).
Proof. exact C65_lemma. Qed.
Print Assumptions C65_mean_of_qdrift.

(** C65: the mean is unique. *)
Theorem C65_mean_is_determined : forall N f m m', mean N f m -> mean N f m' -> m = m'.
Proof. exact mean_unique_lemma. Qed.
Print Assumptions C65_mean_is_determined.

(** X and Z, time 1, ten steps, the threshold of the code. *)
Example C65_case : exists g h E, rng_ok g /\ hamiltonian_of (2 ^ 1) [pauli_x; pauli_z] h /\ (1 <= 10)%nat /\
  small_drift eps_code 1 (2 * 10) /\ Forall2 (operator_norm (2 ^ 1)) [pauli_x; pauli_z] [1; 1]%R /\
  reachable eps_code (r_world start) /\ evolution (2 ^ 1) (total [pauli_x; pauli_z]) 1 E.
Proof. exact ex_mean_lemma. Qed.

