(** Model of the computations in the notebooks of /repo/paper that use sequences made by the
    library: the estimators of the fidelity, their standard deviations, the circuit files and
    the way results are split into runs, bins and buckets.  Definitions only.

    Line numbers of a notebook are those of the .ipynb file.  "4/3q" is
    paper/fig4/sequence-generation/ideal_rav_vs_xeb_simulations_3q.ipynb; the notebooks for
    2 to 8 qubits have the same definitions, with other numbers of qubits, sequences and steps
    and other bounds for [final_cost].  Numbers are reals, arrays over the
    basis states are functions on indices, lists of shots are lists.  Where numpy would give
    inf or nan (a division by 0, the mean of nothing, the root of a negative number) the
    result is [None]. *)
From Coq Require Import Reals List Arith Bool String Ascii.
From Coquelicot Require Import Complex.
From Verif Require Import Base CMat ModelText.
Import ListNotations.
Open Scope R_scope.

(** ** numpy *)

(** [a / b]; paper/fig3/fig3.ipynb:29, paper/fig5/fig5.ipynb:68-71. *)
Definition np_div (a b : R) : option R := if Req_EM_T b 0 then None else Some (a / b).
(** [np.sqrt(x)]; paper/fig3/fig3.ipynb:30, 40. *)
Definition np_sqrt (x : R) : option R := if Rlt_dec x 0 then None else Some (sqrt x).
(** [np.sum] of a list; part of [np.mean], paper/fig5/fig5.ipynb:302. *)
Definition np_sum (l : list R) : R := fold_right Rplus 0 l.
(** [np.mean(l)]; paper/fig5/fig5.ipynb:302, paper/fig8/fig8a.ipynb:80. *)
Definition np_mean (l : list R) : option R := np_div (np_sum l) (INR (List.length l)).
(** [np.std(l)]; paper/fig5/fig5.ipynb:304, 4/3q:319. *)
Definition np_std (l : list R) : option R :=
  match np_mean l with
  | None => None
  | Some m => match np_mean (map (fun x => (x - m) ^ 2) l) with
              | None => None
              | Some v => np_sqrt v
              end
  end.
(** [l[i:j]]; paper/fig5/fig5.ipynb:302, paper/fig12/fig12.ipynb:106. *)
Definition slice {A} (i j : nat) (l : list A) : list A := firstn (j - i) (skipn i l).
(** The list of the results, if all have one; the list comprehensions of
    paper/fig5/fig5.ipynb:302-304, paper/fig12/fig12.ipynb:106. *)
Fixpoint all_some {A} (l : list (option A)) : option (list A) :=
  match l with
  | [] => Some []
  | Some a :: t => match all_some t with Some r => Some (a :: r) | None => None end
  | None :: _ => None
  end.

(** ** Standard deviations from formulas *)

(** [std_f_rav(K, N, λ, ϵ)]; paper/fig3/fig3.ipynb:28-30, paper/fig4/fig4.ipynb:35-37. *)
Definition std_f_rav (K N lam eps : R) : option R :=
  match np_div 1 K, np_div N (N * (1 - eps) - 1), np_div lam N with
  | Some k, Some s, Some u =>
      np_sqrt (k * s ^ 2 * ((1 - lam) * (1 - eps) + u) * (1 - (1 - lam) * (1 - eps) - u))
  | _, _, _ => None
  end.

(** [std_f_xeb(K, N, λ, p2_sum, p3_sum, p4_sum)]; paper/fig3/fig3.ipynb:39-40,
    paper/fig4/fig4.ipynb:46-47. *)
Definition std_f_xeb (K N lam p2_sum p3_sum p4_sum : R) : option R :=
  match np_div 1 K, np_div N (p2_sum * N - 1), np_div lam N, np_div (2 * lam) N with
  | Some k, Some s, Some u, Some u2 =>
      np_sqrt (k * s ^ 2 *
               (p2_sum * (u - u ^ 2) + p3_sum * (1 - lam) * (1 - u2) - p4_sum * (1 - lam) ^ 2))
  | _, _, _, _ => None
  end.

(** [ϵ_default]; paper/fig3/fig3.ipynb:26, paper/fig4/fig4.ipynb:33. *)
Definition eps_default : R := 4 / 100.
(** [std_f_xeb] without sums: the defaults 1/2, 1/3, 1/4; paper/fig3/fig3.ipynb:33-38,
    paper/fig4/fig4.ipynb:40-45. *)
Definition std_f_xeb_default (K N lam : R) : option R := std_f_xeb K N lam (1 / 2) (1 / 3) (1 / 4).

(** [np.sum(np.array(p)**k)]; paper/fig4/fig4.ipynb:181-183. *)
Definition power_sum (d : nat) (p : nat -> R) (k : nat) : R := rsum d (fun i => p i ^ k).

(** ** The estimators *)

(** Column [i] of the matrix of the sequence, squared: the probabilities of the outcomes for
    the initial state [i]; 4/3q:235-242. *)
Definition ideal_output_probs (U : mat) (i : nat) : nat -> R := fun k => Cmod (U k i) ^ 2.
(** [output_probs]: a fraction [lam] of the completely mixed state is mixed in; 4/3q:248-252. *)
Definition output_probs (d : nat) (p : nat -> R) (lam : R) : nat -> R := fun k =>
  (1 - lam) * p k + lam * (1 / INR d).

(** The mean over the shots of the indicator of outcome [k]: [np.mean] of the 0/1 data of one
    outcome, paper/fig8/fig8a.ipynb:80, and
    [np.count_nonzero(measurements == k) / n_shots], 4/3q:516. *)
Definition measured_prob (shots : list nat) (k : nat) : option R :=
  np_mean (map (fun s => if Nat.eqb s k then 1 else 0) shots).

(** The RAV fidelity from the measured and the ideal probability of the initial state:
    paper/fig5/fig5.ipynb:68-71, paper/fig8/fig8a.ipynb:238, paper/fig9/fig9a.ipynb:232. *)
Definition rav_fidelity (d : nat) (measured ideal : R) : option R :=
  np_div (measured - 1 / INR d) (ideal - 1 / INR d).

(** [measurements]: for each shot a uniform draw is compared with the probability;
    4/3q:262. *)
Definition rav_measurements (p : R) (draws : list R) : list R :=
  map (fun u => if Rlt_dec u p then 1 else 0) draws.
(** [scaled_fidelity]; 4/3q:263. *)
Definition scaled_fidelity (d : nat) (measurements : list R) : option R :=
  match np_mean measurements, np_div (INR d) (INR d - 1) with
  | Some m, Some s => Some ((m - 1 / INR d) * s)
  | _, _ => None
  end.

(** The XEB fidelity [(x * y) / (x ** 2)]; paper/fig5/fig5.ipynb:109-114, 4/3q:520-525,
    paper/fig8/fig8b.ipynb:240-246. *)
Definition xeb_fidelity (d : nat) (ideal measured : nat -> R) : option R :=
  let e_u := power_sum d ideal 2 in
  let u_u := rsum d ideal / INR d in
  let m_u := rsum d (fun k => ideal k * measured k) in
  let y := m_u - u_u in
  let x := e_u - u_u in
  np_div (x * y) (x ^ 2).

(** ** Circuit files *)
Open Scope string_scope.

(** The text around the output of [get_jaqal]; 4/3q:165-175 with indentation "    " (the files
    in paper/fig5/data and paper/fig8/data have the same lines without it). *)
Definition circuit_file (indent : string) (n_qubits : nat) (jaqal : string) : string :=
  newline ++ indent ++ "from qscout.v1.std usepulses *" ++
  newline ++ indent ++ "register q[" ++ str_nat n_qubits ++ "]" ++
  newline ++ indent ++ "prepare_all" ++
  newline ++ indent ++ jaqal ++
  newline ++ indent ++ "measure_all" ++
  newline ++ indent.

(** [text.split(sep)] for a separator of one character; paper/fig8/fig8a.ipynb:148, 152. *)
Fixpoint py_split (sep : ascii) (text : string) : list string :=
  match text with
  | EmptyString => [""]
  | String a t =>
      if Ascii.eqb a sep then "" :: py_split sep t
      else match py_split sep t with
           | w :: r => String a w :: r
           | [] => [String a ""]
           end
  end.
(** [text.startswith(p)]; paper/fig5/fig5.ipynb:45, paper/fig8/fig8a.ipynb:154. *)
Definition startswith (p text : string) : bool := String.prefix p text.

(** [get_layer_count]; paper/fig5/fig5.ipynb:41-47.  The lines of the file. *)
Definition get_layer_count (file : string) : nat :=
  List.length (filter (startswith "MS") (py_split "010" file)).
(** [get_2Q_gate_count]: the first five lines and the last are left out and the first word of
    each line is looked at; paper/fig8/fig8a.ipynb:147-156 (the same in fig8b, fig8cd, fig9a,
    fig9b and fig9cd). *)
Definition get_2Q_gate_count (jaqal : string) : nat :=
  let code_array := py_split "010" jaqal in
  let code_array := slice 5 (List.length code_array - 1) code_array in
  List.length (filter (fun rotation => startswith "MS" (hd "" (py_split " " rotation))) code_array).

Close Scope string_scope.

(** ** Runs, bins and buckets *)

(** [range(0, m, step)] for [step > 0]; paper/fig5/fig5.ipynb:302-304,
    paper/fig12/fig12.ipynb:105 ([np.arange]). *)
Definition range_step (m step : nat) : list nat :=
  map (fun i => (step * i)%nat) (seq 0 ((m + (step - 1)) / step)).

(** The shots of each run; paper/fig8/fig8a.ipynb:74-78. *)
Definition split_runs {A} (shots_per_run : nat) (shots : list A) : list (list A) :=
  map (fun run_idx => slice (shots_per_run * run_idx) (shots_per_run * (run_idx + 1)) shots)
      (seq 0 (List.length shots / shots_per_run)).
(** The mean of each run, for the 0/1 data of one circuit and one outcome;
    paper/fig8/fig8a.ipynb:76-84. *)
Definition run_probs (shots_per_run : nat) (shots : list R) : option (list R) :=
  all_some (map np_mean (split_runs shots_per_run shots)).

(** [bin_size] successive values, without the rest, for [x_bin] and [y_bin];
    paper/fig5/fig5.ipynb:302-303, paper/fig8/fig8a.ipynb:276-277. *)
Definition bin_slices {A} (bin_size : nat) (l : list A) : list (list A) :=
  map (fun i => slice i (i + bin_size) l)
      (range_step (List.length l - List.length l mod bin_size) bin_size).
(** [y_bin] from the slices; paper/fig5/fig5.ipynb:303, paper/fig8/fig8a.ipynb:277. *)
Definition bin_means (bin_size : nat) (l : list R) : option (list R) :=
  all_some (map np_mean (bin_slices bin_size l)).
(** [y_bin_stderr]; paper/fig5/fig5.ipynb:304, paper/fig8/fig8a.ipynb:278. *)
Definition bin_stderrs (bin_size : nat) (l : list R) : option (list R) :=
  all_some (map (fun b => match np_std b with
                          | Some s => np_div s (sqrt (INR bin_size))
                          | None => None
                          end) (bin_slices bin_size l)).

(** The buckets [cost_by_step[i:i+bucket_size-1]];
    paper/fig12/fig12.ipynb:105-106, paper/fig10/fig10.ipynb:89-90. *)
Definition bucket_slices {A} (bucket_size : nat) (l : list A) : list (list A) :=
  map (fun i => slice i (i + bucket_size - 1) l) (range_step (List.length l) bucket_size).
(** [costs] from the slices; paper/fig12/fig12.ipynb:106. *)
Definition bucket_means (bucket_size : nat) (l : list R) : option (list R) :=
  all_some (map np_mean (bucket_slices bucket_size l)).

(** [l[0::2]], part of [discard_odd]; paper/fig9/fig9a.ipynb:57, 100. *)
Definition every_second {A} (l : list A) : list A :=
  map snd (filter (fun ix => Nat.even (fst ix)) (List.combine (seq 0 (List.length l)) l)).
(** [discard_odd], for one run: every second of the first 44 circuits is left out;
    paper/fig9/fig9a.ipynb:55-57, 100. *)
Definition discard_odd {A} (l : list A) : list A := every_second (firstn 44 l) ++ skipn 44 l.
(** The index of the circuit in the file "<number>_1.txt", by which its data are found;
    paper/fig8/fig8a.ipynb:164-166, paper/fig9/fig9a.ipynb:150-152. *)
Definition circuit_index (file_number : nat) : option nat :=
  let i := (file_number / 2)%nat in
  if Nat.leb 1 i && Nat.leb (i - 1) 49 then Some (i - 1)%nat else None.

(** ** Error bars *)

(** [scipy.stats.sem(l)] (the divisor of the variance is one less than the number of values);
    paper/fig12/fig12.ipynb:131. *)
Definition sem (l : list R) : option R :=
  match np_mean l with
  | None => None
  | Some m =>
      match np_div (np_sum (map (fun x => (x - m) ^ 2) l)) (INR (List.length l) - 1) with
      | None => None
      | Some v => match np_sqrt v with
                  | None => None
                  | Some s => np_div s (sqrt (INR (List.length l)))
                  end
      end
  end.

(** [np.sum((y_bin - y_fit)**2 / y_bin_stderr**2)]; paper/fig5/fig5.ipynb:313, 325,
    paper/fig8/fig8a.ipynb:282, 289. *)
Definition chi_square (y_bin y_fit y_bin_stderr : list R) : option R :=
  match all_some (map (fun t => np_div ((fst (fst t) - snd (fst t)) ^ 2) (snd t ^ 2))
                      (List.combine (List.combine y_bin y_fit) y_bin_stderr)) with
  | Some l => Some (np_sum l)
  | None => None
  end.
