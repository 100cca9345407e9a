(** The notebooks of the paper: C80-C89, C91.

    [distribution d p]: [p] gives the probabilities of [d] outcomes.  [shots_of d K l]: [l] are
    the outcomes of [K] shots.  [shots_mean d q K F] and [shots_var d q K F] are the mean and the
    variance of [F] over [K] independent shots with the probabilities [q].  [certain d p]: one
    outcome has probability 1 (SpecPaper.v).  [output_probs d p lam] is [p] with a fraction
    [lam] of the completely mixed state.
    [draws_mean d qs F] is the mean of [F] over independent draws, one from each of the
    distributions [qs]; [spread l] is the sum of the squared deviations from the average. *)
From Coq Require Import Reals List Arith Bool String Ascii ZArith.
From Coquelicot Require Import Complex.
From Verif Require Import Base CMat ModelUnitary ModelEntry ModelSequence ModelText ModelNoise ModelPaper
  Spec SpecModel SpecText SpecGates SpecNoise SpecPaper
  PTextEx PPaper PPaper2 PPaper3 PPaper4 PPaper5 PPaperNoise PPaper6 PPaperEx PNoiseEx.
Import ListNotations.
Open Scope list_scope.
Open Scope R_scope.

(** C80: a column of a unitary matrix, squared, and its mixture with noise give probabilities. *)
Theorem C80_output_probabilities : forall d U i lam, unitary_mx d U -> (i < d)%nat -> 0 <= lam <= 1 ->
  distribution d (ideal_output_probs U i) /\
  distribution d (output_probs d (ideal_output_probs U i) lam).
Proof. exact output_dist_lemma. Qed.
Print Assumptions C80_output_probabilities.

(** A rotation with probabilities 9/25 and 16/25. *)
Example C80_output_case : unitary_mx 2 rot345 /\ ideal_output_probs rot345 0 0 = 9 / 25 /\
  ideal_output_probs rot345 0 1 = 16 / 25.
Proof. exact ex_C80_matrix_lemma. Qed.

(** C80: for any number of shots the RAV fidelity [(measured - 1/d) / (ideal - 1/d)] always has a
    value; its mean is the fraction [1 - lam] of the noise-free state and its standard deviation
    is what std_f_rav computes, exactly. *)
Theorem C80_rav_fidelity : forall d K p i lam,
  (0 < K)%nat -> distribution d p -> (i < d)%nat -> p i <> 1 / INR d -> 0 <= lam <= 1 ->
  let q := output_probs d p lam in
  exists F s,
    (forall l, shots_of d K l -> exists m, measured_prob l i = Some m /\
       rav_fidelity d m (p i) = Some (F l)) /\
    shots_mean d q K F = 1 - lam /\
    std_f_rav (INR K) (INR d) lam (1 - p i) = Some s /\
    0 <= s /\ shots_var d q K F = s ^ 2.
Proof. exact rav_lemma. Qed.
Print Assumptions C80_rav_fidelity.

(** Two outcomes with probabilities 3/4 and 1/4. *)
Example C80_rav_case : exists p, distribution 2 p /\ p 0%nat = 3 / 4 /\ p 0%nat <> 1 / INR 2 /\
  output_probs 2 p (1 / 10) 0 = 29 / 40.
Proof. exact ex_C80_lemma. Qed.

(** C81: the XEB fidelity always has a value and its mean is [1 - lam]; but the square of what
    std_f_xeb computes exceeds the variance by the covariances of the measured probabilities,
    which the formula leaves out.  It is exact only if one outcome is certain. *)
Theorem C81_xeb_fidelity : forall d K p lam,
  (0 < K)%nat -> distribution d p -> power_sum d p 2 <> 1 / INR d -> 0 <= lam <= 1 ->
  let q := output_probs d p lam in
  exists F s,
    (forall l, shots_of d K l -> exists m, (forall k, (k < d)%nat -> measured_prob l k = Some (m k)) /\
       xeb_fidelity d p m = Some (F l)) /\
    shots_mean d q K F = 1 - lam /\
    std_f_xeb (INR K) (INR d) lam (power_sum d p 2) (power_sum d p 3) (power_sum d p 4) = Some s /\
    0 <= s /\
    s ^ 2 = shots_var d q K F +
            (rsum d (fun k => p k * q k) ^ 2 - rsum d (fun k => (p k * q k) ^ 2)) /
            (power_sum d p 2 - 1 / INR d) ^ 2 / INR K /\
    shots_var d q K F <= s ^ 2 /\
    (shots_var d q K F = s ^ 2 <-> certain d p).
Proof. exact xeb_lemma. Qed.
Print Assumptions C81_xeb_fidelity.

(** Two outcomes with probabilities 3/4 and 1/4. *)
Example C81_case : exists p, distribution 2 p /\ power_sum 2 p 2 = 5 / 8 /\ power_sum 2 p 2 <> 1 / INR 2 /\ ~ certain 2 p.
Proof. exact ex_C81_lemma. Qed.

(** C81: so std_f_xeb is not the standard deviation. *)
Theorem C81_std_exact_refuted : exists p F s, distribution 2 p /\ power_sum 2 p 2 <> 1 / INR 2 /\
  let q := output_probs 2 p (1 / 10) in
  (forall l, shots_of 2 100 l -> exists m, (forall k, (k < 2)%nat -> measured_prob l k = Some (m k)) /\
     xeb_fidelity 2 p m = Some (F l)) /\
  std_f_xeb (INR 100) (INR 2) (1 / 10) (power_sum 2 p 2) (power_sum 2 p 3) (power_sum 2 p 4) = Some s /\
  0 <= s /\ shots_var 2 q 100 F < s ^ 2.
Proof. exact xeb_refuted_lemma. Qed.
Print Assumptions C81_std_exact_refuted.

(** C82: no probabilities have the sums of powers 1/2, 1/3 and 1/4 that std_f_xeb uses by default. *)
Theorem C82_default_sums_impossible : forall d p, distribution d p ->
  ~ (power_sum d p 2 = 1 / 2 /\ power_sum d p 3 = 1 / 3 /\ power_sum d p 4 = 1 / 4).
Proof. exact default_sums_lemma. Qed.
Print Assumptions C82_default_sums_impossible.

(** C82: with these defaults std_f_xeb has no value for one qubit. *)
Theorem C82_one_qubit_undefined : forall K lam, std_f_xeb_default K 2 lam = None.
Proof. exact default_two_lemma. Qed.
Print Assumptions C82_one_qubit_undefined.

(** C82: in figure 3 the curve of RAV is never above that of XEB. *)
Theorem C82_figure_3 : forall K N lam, 0 < K -> 4 <= N -> 0 <= lam <= 1 ->
  exists a b, std_f_rav K N lam eps_default = Some a /\ std_f_xeb_default K N lam = Some b /\ a <= b.
Proof. exact figure3_lemma. Qed.
Print Assumptions C82_figure_3.

(** C82: and without the defaults: for the same number of shots and the same noise the variance
    of RAV with a certain outcome is at most that of XEB with any probabilities. *)
Theorem C82_rav_below_xeb : forall d K r i p lam F G,
  (0 < K)%nat -> (2 <= d)%nat -> distribution d r -> (i < d)%nat -> r i = 1 ->
  distribution d p -> power_sum d p 2 <> 1 / INR d -> 0 <= lam <= 1 ->
  (forall l, shots_of d K l -> exists m, measured_prob l i = Some m /\ rav_fidelity d m (r i) = Some (F l)) ->
  (forall l, shots_of d K l -> exists m, (forall k, (k < d)%nat -> measured_prob l k = Some (m k)) /\
     xeb_fidelity d p m = Some (G l)) ->
  shots_var d (output_probs d r lam) K F <= shots_var d (output_probs d p lam) K G.
Proof. exact compare_lemma. Qed.
Print Assumptions C82_rav_below_xeb.

(** A certain outcome against probabilities 3/4 and 1/4, with 100 shots. *)
Example C82_case : exists r p F G, distribution 2 r /\ r 0%nat = 1 /\ distribution 2 p /\ power_sum 2 p 2 <> 1 / INR 2 /\
  ~ certain 2 p /\
  (forall l, shots_of 2 100 l -> exists m, measured_prob l 0 = Some m /\ rav_fidelity 2 m (r 0%nat) = Some (F l)) /\
  (forall l, shots_of 2 100 l -> exists m, (forall k, (k < 2)%nat -> measured_prob l k = Some (m k)) /\
     xeb_fidelity 2 p m = Some (G l)).
Proof. exact ex_C82_lemma. Qed.

(** C83: the simulation scales by [d / (d - 1)] as if the initial state were certain to come back:
    its mean is [1 - lam] only if this is so or nothing but noise is left, and its variance is
    smaller than the formula's by the square of [(d p - 1) / (d - 1)]. *)
Theorem C83_simulated_rav : forall d K p i lam,
  (0 < K)%nat -> (2 <= d)%nat -> distribution d p -> (i < d)%nat -> 0 <= lam <= 1 ->
  let pr := output_probs d p lam i in
  let q := fun k => if Nat.eqb k 1 then pr else 1 - pr in
  exists F,
    (forall draws, List.length draws = K ->
       scaled_fidelity d (rav_measurements pr draws) =
       Some (F (map (fun u => if Rlt_dec u pr then 1%nat else 0%nat) draws))) /\
    distribution 2 q /\
    shots_mean 2 q K F = (1 - lam) * (1 - (1 - p i) * (INR d / (INR d - 1))) /\
    (shots_mean 2 q K F = 1 - lam <-> lam = 1 \/ p i = 1) /\
    (p i <> 1 / INR d -> exists s, std_f_rav (INR K) (INR d) lam (1 - p i) = Some s /\
       shots_var 2 q K F = (s * ((INR d * p i - 1) / (INR d - 1))) ^ 2).
Proof. exact scaled_lemma. Qed.
Print Assumptions C83_simulated_rav.

(** C83: with probability 3/4 the simulation gives half of the fidelity. *)
Theorem C83_simulation_unbiased_refuted : exists p F, distribution 2 p /\ p 0%nat = 3 / 4 /\
  let pr := output_probs 2 p (1 / 10) 0 in
  let q := fun k => if Nat.eqb k 1 then pr else 1 - pr in
  (forall draws, List.length draws = 100%nat ->
     scaled_fidelity 2 (rav_measurements pr draws) =
     Some (F (map (fun u => if Rlt_dec u pr then 1%nat else 0%nat) draws))) /\
  distribution 2 q /\ shots_mean 2 q 100 F = (1 - 1 / 10) / 2.
Proof. exact scaled_refuted_lemma. Qed.
Print Assumptions C83_simulation_unbiased_refuted.

(** C83: the simulation starts in state 1 and the formula is evaluated for state 0: the standard
    deviations differ. *)
Theorem C83_same_state_refuted : exists U a b,
  unitary_mx 4 U /\
  std_f_rav 100 4 (1 / 2) (1 - ideal_output_probs U 0 0) = Some a /\
  std_f_rav 100 4 (1 / 2) (1 - ideal_output_probs U 1 1) = Some b /\
  a <> b.
Proof. exact other_state_lemma. Qed.
Print Assumptions C83_same_state_refuted.

(** C84: at distance [c] from the identity every initial state comes back with probability at least
    [(1 - d c)^2], and on average at least [(1 - c)^2]. *)
Theorem C84_cost_bounds_success : forall eps u I c, eps <= 1 ->
  built eps u -> eps_clean eps (u_dim u) (u_mat u) ->
  u_identity eps (u_dim u) = Ok I -> u_distance_from eps u I = Ok c ->
  let d := u_dim u in
  let success i := ideal_output_probs (u_mat u) i i in
  (forall i, (i < d)%nat -> INR d * c <= 1 -> (1 - INR d * c) ^ 2 <= success i) /\
  (1 - c) ^ 2 <= rsum d success / INR d.
Proof. exact cost_lemma. Qed.
Print Assumptions C84_cost_bounds_success.

(** A rotation at distance 2/5. *)
Example C84_case : exists u I, built 0 u /\ eps_clean 0 (u_dim u) (u_mat u) /\ meq 2 (u_mat u) rot345 /\
  u_dim u = 2%nat /\ u_identity 0 (u_dim u) = Ok I /\ u_distance_from 0 u I = Ok (2 / 5) /\ INR (u_dim u) * (2 / 5) <= 1.
Proof. exact ex_C84_lemma. Qed.

(** C84: a bound [c] of at least [2 / d] accepts a matrix that never returns the initial state. *)
Theorem C84_accepted_guarantees_refuted : forall d c, (2 <= d)%nat -> 2 / INR d <= c -> exists u I c',
  built 0 u /\ u_dim u = d /\ u_identity 0 d = Ok I /\
  u_distance_from 0 u I = Ok c' /\ c' <= c /\ ideal_output_probs (u_mat u) 0 0 = 0.
Proof. exact accepted_lemma. Qed.
Print Assumptions C84_accepted_guarantees_refuted.

(** The bound 0.05 for 6 qubits (and so for 7), fig4/sequence-generation. *)
Example C84_accepted_case : (2 <= 2 ^ 6)%nat /\ 2 / INR (2 ^ 6) <= 5 / 100.
Proof. exact ex_C84_accepted_lemma. Qed.

(** C85: for a file written from any sequence, get_layer_count() and get_2Q_gate_count() give the
    number of its gates with a name that starts with MS. *)
Theorem C85_gate_counts : forall fmt eps os s t indent n,
  (forall k x, numeral (fmt k x)) ->
  let w := exec eps os w_empty in
  (forall g, In g (contents w s) -> plain_gate (fst g)) ->
  (forall a, In a (chars indent) -> a = " "%char) ->
  snd (on_seq s (get_jaqal fmt eps) w) = Ok t ->
  let MS_gates := List.length (filter (fun g => String.prefix "MS" (u_name (fst g))) (contents w s)) in
  get_layer_count (circuit_file indent n t) = MS_gates /\
  get_2Q_gate_count (circuit_file indent n t) = MS_gates.
Proof. exact C85_lemma. Qed.
Print Assumptions C85_gate_counts.

(** Two rotations and two MS gates. *)
Example C85_case : exists u v os t,
  u_name u = "R"%string /\ u_name v = "MS"%string /\
  os = [NewEntry u [0%Z]; NewEntry v [1%Z; 0%Z]; NewSequence 4 false [0; 1; 0; 1]%nat] /\
  contents (exec 0 os w_empty) 0 = [(u, [0%nat]); (v, [1%nat; 0%nat]); (u, [0%nat]); (v, [1%nat; 0%nat])] /\
  (forall g, In g (contents (exec 0 os w_empty) 0) -> plain_gate (fst g)) /\
  (forall k x, numeral (some_fmt k x)) /\
  snd (on_seq 0 (get_jaqal some_fmt 0) (exec 0 os w_empty)) = Ok t /\
  get_layer_count (circuit_file "    " 2 t) = 2%nat /\ get_2Q_gate_count (circuit_file "    " 2 t) = 2%nat.
Proof. exact ex_C85_lemma. Qed.

(** C86: shots are split into [n / k] runs of [k] shots in their order; at most the last
    [n mod k] are left out, and bins are split in the same way. *)
Theorem C86_runs : forall A k (l : list A), (0 < k)%nat ->
  List.length (split_runs k l) = (List.length l / k)%nat /\
  (forall r, In r (split_runs k l) -> List.length r = k) /\
  List.concat (split_runs k l) = firstn (k * (List.length l / k)) l /\
  bin_slices k l = split_runs k l.
Proof. exact runs_lemma. Qed.
Print Assumptions C86_runs.

(** C86: every run and every bin has a mean, and the mean of the means is that of the shots used. *)
Theorem C86_means : forall k (l : list R), (0 < k)%nat ->
  exists ms, run_probs k l = Some ms /\ bin_means k l = Some ms /\
    List.length ms = (List.length l / k)%nat /\
    np_mean ms = np_mean (firstn (k * (List.length l / k)) l).
Proof. exact mean_lemma. Qed.
Print Assumptions C86_means.

(** Runs of two shots. *)
Example C86_case : split_runs 2 [1; 2; 3; 4; 5]%nat = [[1; 2]; [3; 4]]%nat /\
  bin_slices 2 [1; 2; 3; 4; 5]%nat = [[1; 2]; [3; 4]]%nat /\ run_probs 2 [0; 1; 1; 1] = Some [1 / 2; 1].
Proof. exact ex_C86_lemma. Qed.

(** C87: the last value of each bucket of figure 12 is not used. *)
Theorem C87_last_of_bucket_ignored : forall B (l l' : list R), (0 < B)%nat -> List.length l = List.length l' ->
  (forall p, (p mod B <> B - 1)%nat -> nth_error l p = nth_error l' p) ->
  bucket_means B l = bucket_means B l'.
Proof. exact bucket_lemma. Qed.
Print Assumptions C87_last_of_bucket_ignored.

(** Buckets of 50. *)
Example C87_case : exists l l' m : list R, l <> l' /\ List.length l = List.length l' /\
  (forall p, (p mod 50 <> 50 - 1)%nat -> nth_error l p = nth_error l' p) /\
  bucket_means 50 l = Some m.
Proof. exact ex_C87_lemma. Qed.

(** C87: so for every size from 2 on the results are not the means of the buckets ... *)
Theorem C87_bucket_means_refuted : forall B, (2 <= B)%nat -> exists l m,
  List.length l = B /\ bucket_means B l = Some [0] /\ np_mean l = Some m /\ 0 < m.
Proof. exact bucket_refuted_lemma. Qed.
Print Assumptions C87_bucket_means_refuted.

(** C87: ... and buckets of size 1 have no mean. *)
Theorem C87_size_one_undefined : forall l, l <> [] -> bucket_means 1 l = None.
Proof. exact bucket_size_one_lemma. Qed.
Print Assumptions C87_size_one_undefined.

(** C88: of 22 pairs of circuits discard_odd() keeps the first ones, and all later circuits. *)
Theorem C88_discard_odd : forall A (a b c : list A), List.length a = 22%nat -> List.length b = 22%nat ->
  discard_odd (flat_map (fun xy => [fst xy; snd xy]) (List.combine a b) ++ c) = a ++ c.
Proof. exact discard_lemma. Qed.
Print Assumptions C88_discard_odd.

(** C88: each of the 50 results is found from an even file number, and from the odd one after it. *)
Theorem C88_file_numbers : forall k, (k < 50)%nat ->
  circuit_index (2 * (k + 1)) = Some k /\
  (forall n, circuit_index n = Some k <-> (n = 2 * (k + 1) \/ n = 2 * (k + 1) + 1)%nat).
Proof. exact index_lemma. Qed.
Print Assumptions C88_file_numbers.

(** Twenty-two pairs and one more circuit. *)
Example C88_case : exists a b c : list nat, List.length a = 22%nat /\ List.length b = 22%nat /\ a <> b /\ c <> [].
Proof. exact ex_C88_lemma. Qed.

(** C89: for a one-qubit circuit followed by its mirror image the emulator gives the probabilities of
    the notebooks' noise model, and the RAV fidelity is the fraction that survives the duration
    of the circuit. *)
Theorem C89_emulated_fidelity : forall e c t i, circuit_ok 1 c -> survives e (2 * total_duration c) t -> (i < 2)%nat ->
  let measured k := Re (emulate e 1 (c ++ mirror c) (unit_mx i i) k k) in
  (forall k, (k < 2)%nat ->
     measured k = output_probs 2 (fun j => if Nat.eqb j i then 1 else 0) (1 - t) k) /\
  rav_fidelity 2 (measured i) 1 = Some t.
Proof. exact emulated_lemma. Qed.
Print Assumptions C89_emulated_fidelity.

(** A circuit with pulses and idle times. *)
Example C89_case : exists e c, circuit_ok 1 c /\ survives e (total_duration c) (/ 8) /\
  survives e (2 * total_duration c) (/ 64) /\ In (NIdle 0 2) c /\ In (NR 0 1 (PI / 2)) c.
Proof. exact ex_C78_one_lemma. Qed.

(** C91: the error bars are those of the runs of k values, sqrt(spread) / k. *)
Theorem C91_bars_of_bins : forall k (l : list R), (0 < k)%nat ->
  bin_stderrs k l = Some (map (fun b => sqrt (spread b) / INR k) (split_runs k l)) /\
  forall b, In b (split_runs k l) -> List.length b = k.
Proof. exact stderrs_lemma. Qed.
Print Assumptions C91_bars_of_bins.

(** C91: for a bin of k independent values, whatever their distributions, the mean of the
    squared error bar is (1 - 1/k) times the variance of the average of the bin, plus the
    spread of the true means of the values over k^2. *)
Theorem C91_mean_of_bars : forall d g qs, (forall q, In q qs -> distribution d q) -> qs <> [] ->
  let k := List.length qs in
  let bar l := sqrt (spread (map g l)) / INR k in
  let ms := map (mean_of d g) qs in
  (forall l, shots_of d k l -> bin_stderrs k (map g l) = Some [bar l] /\ np_mean (map g l) = Some (average (map g l))) /\
  let var := draws_mean d qs (fun l => (average (map g l) - average ms) ^ 2) in
  draws_mean d qs (fun l => average (map g l)) = average ms /\
  draws_mean d qs (fun l => bar l ^ 2) = (1 - / INR k) * var + spread ms / INR k ^ 2.
Proof. exact bars_lemma. Qed.
Print Assumptions C91_mean_of_bars.

(** C91: for a bin of k values of equal distribution the squared error bar is on average too
    small by the factor 1 - 1/k (5/6 for the bins of figure 5), while that of [sem], which
    figure 12 uses, is right. *)
Theorem C91_bars_too_small : forall d g q k, distribution d q -> (0 < k)%nat -> 0 < variance_of d g q ->
  let qs := repeat q k in
  let bar l := sqrt (spread (map g l)) / INR k in
  let var := draws_mean d qs (fun l => (average (map g l) - mean_of d g q) ^ 2) in
  var = variance_of d g q / INR k /\
  draws_mean d qs (fun l => bar l ^ 2) = (1 - / INR k) * var /\
  draws_mean d qs (fun l => bar l ^ 2) < var /\
  ((2 <= k)%nat -> exists e, (forall l, shots_of d k l -> sem (map g l) = Some (e l)) /\ draws_mean d qs (fun l => e l ^ 2) = var).
Proof. exact bars_small_lemma. Qed.
Print Assumptions C91_bars_too_small.

(** C91: if the values of a bin are all equal (always, for bins of one value) its error bar is 0
    and chi-square is undefined, for every fit. *)
Theorem C91_equal_values : forall k (l : list R) x, (0 < k)%nat -> In (repeat x k) (split_runs k l) ->
  exists bars, bin_stderrs k l = Some bars /\ In 0 bars /\ List.length bars = (List.length l / k)%nat /\
  forall y fit, List.length y = List.length bars -> List.length fit = List.length bars -> chi_square y fit bars = None.
Proof. exact equal_bins_lemma. Qed.
Print Assumptions C91_equal_values.

(** A fair coin, and five values in bins of two, of which the second has equal values. *)
Example C91_case : distribution 2 (fun _ => 1 / 2) /\
  variance_of 2 (fun k => INR k) (fun _ => 1 / 2) = 1 / 4 /\
  split_runs 2 [0; 1; 1; 1; 0] = [[0; 1]; repeat 1 2].
Proof. exact ex_C91_lemma. Qed.

