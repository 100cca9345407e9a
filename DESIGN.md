# Formal model of stoq-compiler in Rocq: design

(The plan, written before the proofs. Section "Status" at the end is kept current.)

## 1. What is modelled and how

Python objects become Gallina values; a method that can raise returns `res A`
(`Ok a` or `Raise e`), and one that mutates returns the new state *together with* its
result, so that state changes made before an exception are visible.

* **Numbers.** `float`/`complex128` are modelled by the standard library's reals `R` and
  Coquelicot's complex numbers `C = R * R`. Rounding is not modelled, except where a property is
  about rounding (C49, done with Flocq, and C75 and C90, where the products of sequences and the loop
  of the compiler are computed in an arbitrary inexact arithmetic and in double precision, and C113, the weighted choices). Tolerances that appear in the code
  (`1e-12` clean-up, `rtol=1e-5`, `atol=1e-8` of `np.allclose`/`np.isclose`, the `1.5e-8` slack of
  `np.random.choice`) *are* modelled as they are part of the observable behaviour. The clean-up
  threshold is an explicit parameter `eps` of the model (the code is `eps = 1e-12`): theorems that do
  not depend on it are proved for every `eps`, algebraic identities are exact at `eps = 0`,
  and C15 bounds the effect of a positive `eps`.
* **Arrays.** An `ndarray` is `{nrows; ncols; elt : nat -> nat -> C}`; only in-range entries matter,
  equality of arrays is equality of the in-range entries (`meq`).
* **Determinant** is mathcomp's `\det`, reached through a bridge file (`Det.v`).
* **Principal power** `z ** (1/d)` is `|z|^(1/d) * cis(arg z / d)` with `arg` in `(-pi, pi]`.
* **expm** is the entrywise limit of the exponential series, **svd's largest singular value** is the
  operator norm (least upper bound of `|Ax|` over unit vectors).
* **Objects with identity.** `UnitarySequenceEntry` objects live in a heap (list indexed by
  location) because sharing of entries is observable (`inverse()` mutates, `deepcopy` preserves
  sharing). `Unitary` objects are values: no method mutates one (C71).
* **Randomness** is an oracle `rng` giving, per call, a uniform number, an index, or a permutation;
  theorems quantify over all oracles whose answers lie in the documented ranges. Weighted
  `np.random.choice` is modelled by numpy's algorithm (cumulative sums and `searchsorted`).
* **Loops** are recursion on fuel with an explicit out-of-fuel answer that theorems exclude.

Not modelled: floating-point rounding (but C49, C75, C90, C113), NaN/inf,
mutation by the caller of arrays, dictionaries and lists it shares with the library (but C71-C74, on
a model of references in `ModelAlias.v`; all other properties are about programs that do not do it), argument-type errors other than those
mentioned, negative dimensions (represented by 0), and the sampling in `scipy.stats.unitary_group` (an arbitrary
function `rvs`).  The float-to-text conversion `str(round(x, k))` is an arbitrary function `fmt`
everywhere but in C95, where it is `py_fmt` of `ModelDecimal.v`: decimal rounding of the real number
to nearest, ties to even, and Python's `repr` layout. That layout is Python's for |x| < 10^8 at
k = 7; larger numbers, inf and nan, and numpy's own rounding of near-ties (it multiplies by 10^k
first) are not modelled.

Outside `stoqcompiler/`, `paper/fig5/noisy.py` (and its copy in `paper/fig7`) is modelled in
`ModelNoise.v`. It rests on three external packages, modelled from their documentation: qscout's ideal
gates `U_R`, `U_Rz`, `U_MS`, pygsti's `unitary_to_pauligate`, and jaqalpaq, which applies a process
matrix to the qubits of a gate (`on_qubits`) and finds a gate by its name (`native`). The notebooks'
computations on sequences and shots (fidelities, standard deviations, circuit files, runs, bins and
buckets) are modelled in `ModelPaper.v`; numpy's inf and nan are `None` there, uniform draws are given
numbers, and means over shots are sums over all outcomes (`SpecPaper.v`). The cells of
`examples/stoq_example.ipynb` are modelled in `ModelExample.v`, with the few functions of the library that
only scripts and tests call. Loading of data, curve
fitting and plotting are not modelled. Of the older copies of the library in `paper/fig10`-`fig12`
the parts that differ from `stoqcompiler/` are modelled in `ModelOld.v`, which lists the differences.

## 2. Files (`/verif/rocq/theories`)

| file | content |
|---|---|
| `Base.v` | results, exceptions, list helpers |
| `CMat.v`, `CMatFacts.v` | complex matrices and their algebra |
| `Det.v`, `DetFacts.v` | determinant (bridge to mathcomp) |
| `Norms.v` | Frobenius norm |
| `CRoot.v` | argument, principal root |
| `Model*.v` | the model, definitions only, each with its source lines |
| `Expm.v`, `ExpmFacts.v`, `ExpmBounds.v` | matrix exponential: series, differential equation, Trotter-type bounds |
| `Spec.v`, `SpecModel.v`, `SpecCompiler.v`, `SpecGates.v`, `SpecHamiltonian.v`, `SpecText.v`, `SpecChannel.v`, `SpecChain.v`, `SpecOneQubit.v`, `SpecAlias.v`, `SpecRound.v`, `SpecRoundComp.v`, `SpecNoise.v`, `SpecPaper.v` | the independent specifications used in the statements |
| `P*.v` | proofs |
| `Props*.v` | the property theorems only, each followed by `Print Assumptions` |

## 3. Per property

| id | model | proof idea |
|---|---|---|
| C01-C02, C08 | `mk_unitary` | determinant scaling by the principal root; factor is 1 when det is 1; diagonal dominance for det <> 0 |
| C03-C05 | `u_inverse`, `u_left_multiply`, `u_right_multiply`, `u_tensor` | determinant multiplicative, of adjoint, of Kronecker product |
| C06-C07 | `u_distance_from`, `u_close_to` | Cauchy-Schwarz for the trace inner product with its equality case |
| C09-C11 | `perm_inds`, `permute_matrix`, `get_full_unitary` | digit arithmetic; spec `embed` by bits |
| C12 | entry cache in the heap | invariant: cache holds only fresh results |
| C13, C53 | constructors | case analysis |
| C14, C16-C23 | `seq` object + heap, operations as state transformers, histories as lists of operations | invariant by induction over histories |
| C15 | same, `eps > 0` | perturbation bound for det and principal root, linear accumulation |
| C24-C34 | `compile`, `compile_layered` with rng oracle | loop invariants |
| C63 | the same, `tape_rng` as generator | a tape of random answers that makes every step append the wanted gates and be accepted |
| C64 | `inverse`, `invert_loop`, `deepcopy` | multiplicities survive the two deep copies (injective renaming); induction over the inversion loop |
| C65 | `qdrift_sequence`, mean over the draws | second-order Taylor bound for `U X U†` (mean value theorem on the real inner product), telescoping over the steps, integral of the step function of a draw |
| C66 | `product_loop`, `mk_unitary` | an explicit gate with one component just below the threshold: its stored matrix is not unitary, and its powers leave the tolerance of the constructor; Bernoulli-type first order bound for powers of a matrix |
| C67 | `u_random` | the phase depends on the determinant only, which multiplication by a special unitary does not change |
| C68 | `compile_step`, `make_random_change`, `create_random_sequence_entry`, `accept_proposed_change` | decision tree over the answers; uniqueness of the average by exchanging questions; step functions integrated; Metropolis' ratio is symmetric in the weights |
| C69 | `compile`, `compile_layered`, `compile_with`, `compile_loop`, `compile_step`, `create_random_layer`, `u_close_to` | every method is a function of the answers known so far, so trees of answers compose: change, acceptance, loop; lower bound by following one path through the tree |
| C70 | `mk_unitary`, `product_loop`, `append_*`, `remove_*`, `compile`, `compile_layered`, `generate_rav_sequence`, `generate_layered_rav_sequence` | a matrix of SU(2) is (a, -conj c; c, conj a); clearing commutes with sign and conjugation, so the cleared matrix is a multiple of one of SU(2); the invariants of C15/C28 hold in a second form for one qubit |
| C71 | `init`, `act_step`, `act_run` | invariant: references exist, arrays of different objects are different; library calls only extend the store |
| C72 | `GetMatrix`, `WriteArray` | ownership of C71; a zero matrix fails the constructor's test |
| C73 | `WriteDict`, `WriteList` | which references each call copies |
| C74 | `scribble` | the returned object is the kept one |
| C75 | `r_unitary`, `r_full`, `r_step`, `r_run`, `r_distance_from` over an abstract `arith`; `arith64` | each constructor call moves the matrix by at most kappa (eps + 9 mu) and keeps the determinant within 4 d^2 mu of 1, so no phase is picked up; the errors of the two factors of a product add up; Flocq's rounding error bound for the instance |
| C76 | `gate_R`, `gate_MS`, `gate_Rz`, `idle` | the Pauli matrices and their products are an orthogonal basis, so a process matrix is what it does to coefficients; diagonal ones are mixtures of Pauli conjugations |
| C77 | `emulate` over `nop_run` | every operation is a mixture of unitaries, also when embedded |
| C78 | `emulate`, `mirror` | noisy unitaries of opposite angles cancel; one-qubit depolarisation commutes with unitaries |
| C79 | `native` on names and values of library gates | C46's labels with C76 |
| C80 | estimators of ModelPaper.v | mean and variance of a sum of independent shots |
| C81 | `xeb_fidelity`, `std_f_xeb` | variance of the sum against the sum of variances |
| C82 | `std_f_xeb_default` | power sums: a large third and fourth power need one large probability, which exceeds the second |
| C83 | `rav_measurements`, `scaled_fidelity` | the affine relation to the estimator of C80 |
| C84 | `u_distance_from`, `ideal_output_probs` | triangle and Cauchy-Schwarz inequalities on the trace; an exchange of two basis states |
| C85 | `circuit_file`, `get_layer_count`, `get_2Q_gate_count` | the lines of the file, from the text lemmas of C51 |
| C86 | `split_runs`, `bin_slices` | list induction |
| C87 | `bucket_slices`, `bucket_means` | slices that agree on their indices are equal |
| C88 | `discard_odd`, `circuit_index` | list induction |
| C89 | `emulate`, `rav_fidelity` | C78 with C80 |
| C90 | `r_compile`, `r_compile_loop`, `r_compile_step` over `arith` | invariant of C75 along the loop; two-sided bound for distances; a change either does nothing or saves the state before |
| C91 | `bin_stderrs`, `np_std`, `sem`, `chi_square` | means over independent draws; variance of a sum |
| C92 | `step`, `compile`, `compile_layered` against `r_step`, `r_compile` with `exact_arith` | simulation: the view of a sequence without identities and caches; the store only grows |
| C93 | `wrap64`, `np_pow2`, `get_permute_matrix64`, `entry_valid64`, `step64` against `step` | a relation between computations that keeps a predicate on entries; power of two modulo 2^64 |
| C94 | `example_compiler`, `compile_and_report`, `example_xx`, `example_random` | C24-C28 with drift, C51 for the text, overlap of two couplings by direct computation |
| C95 | `py_fmt`, `str_decimal`, `round_units` | Flocq's rounding to nearest; positional notation by induction; operators turn by at most the change of the angle; telescoping product |
| C96 | `compile`, `compile_layered` | pigeonhole on a finite grid of matrices: powers return near the identity, finitely many continuations serve all states; one attempt from every state has a chance bounded below |
| C97 | `make_random_change_layered`, `create_random_layer`, `compile_step` | the tree of answers of a layered step (C69); orders read backwards are the orders; whole layers of equal length split uniquely |
| C98 | `random_value`, `make_random_change`, `make_random_change_layered`, `compile_step`, library families | a box of parameters around each gate of the word is hit with positive chance, and the overlap is continuous; then repeated attempts as in C96 |
| C99 | `stoq_primitives`, `compile_stoq_for`, `compile_stoq_sequence` | C98 with words of Trotter rounds (C42) or of the full subset; a run adds at most one gate in a step, so the time that can be reached is bounded |
| C100 | `generate_rav_sequence`, `generate_layered_rav_sequence` | C98 for a target drawn by the run itself: every gate has a power near its inverse, with one bound for all drawn parameters; exact case by residues mod 5 |
| C101 | `compile_rav_sequence`, `rav_loop` | first and second moments of a sum of k steps of three draws each, Chebyshev; success: k even steps that cancel in pairs, stopping exactly then, and nothing left to compile |
| C102 | `old_close_to`, `old_get_display_output`, `old_compile`, `old_set_primitives` | case analysis on the threshold; C07; induction on the calls |
| C103 | `qdrift_sequence`, the draws | Duhamel and second-order Taylor bounds in the Frobenius norm; mean over the draws; Markov |
| C104 | `trotter_sequence` | derivative of exp(-i(A+B)s) exp(iAs) exp(iBs) bounded by the commutator; induction on the terms; permutations |
| C105 | `get_jaqal`, `get_display_output`, `py_fmt` | C51's readers, C95's bounds for any printer with a known error, digits of pi from an arctangent series |
| C106 | `trotter_sequence` with shuffled terms | Taylor's formula of third order for conjugations, expansion of a list of gates up to the third order, each order cancels with its reverse |
| C107 | `compile`, `compile_layered` | invariant of the run on plain lists (through C92): the length of the sequence and of its undo state; induction on the annealed run |
| C108 | `compile`, `compile_layered` | relational induction on two runs: equal draws, entries holding equal gates, and sequences with equal plain views (step_agree) |
| C109 | the generators of `Hamiltonian` and `verification` | relational induction on two runs with a list of paired sequences; framing of calls on one sequence for the others; `combine` of paired sequences |
| C110 | `compile`, `compile_layered`, `distance_from`, `close_to`, `inverse`, the constructor | distances of phase-related matrices are equal whatever the other operand; the quarter turns commute with the clean-up; the relational induction of C108 with two targets |
| C111 | `compile_result`, `compile_layered_result` (ModelResult.v) | unfolding; time carried beside the state |
| C112 | `time_evolution_operator`, `time_evolution`, `mk_term` | powers of two exponentials for time t / N and the limit of many steps; determinant near a unitary matrix |
| C113 | `choice64`, `kahan_sum`, `cumsum64`, `sum64`, `qdrift_choice64`, `action_choice64` | error bounds for the compensated and the cumulated sum; relative error of a sum for every tree of additions (Flocq); a weight 0 leaves the cumulated sum as it is |
| C114 | `compile`, `compile_layered`, `r_step` (tied to `step` by C92) | a simulation between two runs: gates, kept products and undo states differ by quarter turns; `ph_norm`: the normalisation by the determinant keeps them, as 4 divides 2^n for n > 1; the costs and the closeness do not see them |
| C115 | `compile`, `compile_layered`, `r_full`, `get_permute_matrix`, `r_step` (tied to `step` by C92) | a simulation between two runs: products and targets are conjugated by the permutation `phi` of the basis states; `full_moved`: at every threshold the expanded gate is a Kronecker product with the identity, so the permutation matrices of the code give the renumbered gate; trace, determinant and `allclose` do not see the renumbering |
| C35-C37, C56-C57 | `generate_*_sequence` | composition of the above + unitary invariance of distance |
| C38-C45, C60-C62 | `HamiltonianTerm`, `Hamiltonian` | matrix exponential theory; subsets; loop invariants |
| C46-C48, C58, C59 | gate definitions | trigonometric identities, bit-mask algebra, Euler angles |
| C49 | `pr_random_value`, and `f_random_value` on Flocq's binary64 | a difference rounded upwards times a sample below 1 rounds to at most its predecessor |
| C50 | `as_unitary` | list induction |
| C51-C52 | text output | string functions over an arbitrary `fmt` |

Properties that the code violates (C19, C22 negative part, C23, C33, C34, C45 second part, C49 when the range overflows, C52, C53 second part, C56, C61, C62, C93, C94 second part, C95 last part; C81-C84 and C87 for the notebooks) are
proved as violations (`..._refuted` / general failure theorems).

## 4. Trusted base

* Coq 8.16.1's kernel. No flags that switch off checks, no axioms of our own, no functors.
* Axioms reported by `Print Assumptions` (all from the standard library; below every theorem in
  `Props*.v`):
  `ClassicalDedekindReals.sig_not_dec`, `ClassicalDedekindReals.sig_forall_dec` (the reals),
  `FunctionalExtensionality.functional_extensionality_dep`,
  `Classical_Prop.classic`,
  `ClassicalEpsilon.constructive_indefinite_description` (through the complex numbers as a mathcomp
  field, for the determinant).
  `coqchk -o`, run over all `Props*` modules, accepts them and lists these five axioms and no unsafe
  feature.
* That the definitions in `Model*.v` say what the cited lines of `/repo` say, and that numpy/scipy
  functions behave as described in section 1. Each definition cites its lines and its
  simplifications.
* That the statements in `Props*.v`, read with `Spec*.v`, say what `properties.jsonl` says.

## 5. Coverage of the code (`stoqcompiler/`)

| file | modelled | not modelled |
|---|---|---|
| `unitary/unitary.py` | all; aliasing of arrays, dictionaries and lists in `ModelAlias.v` only | |
| `unitary/unitary_sequence_entry.py` | all; the 64-bit power of line 72 in `ModelWide.v` only (C93: it matters from qubit 62 on) | qubit numbers from 2^63 - 1 on |
| `unitary/unitary_sequence.py` | all; the 64-bit power of line 90 in `ModelWide.v` only | |
| `unitary/parameterized_unitary*.py`, `unitary_primitive.py` | all | |
| `unitary/unitary_definitions.py` | all | |
| `compiler/*.py` | all; the clock in `ModelResult.v` only (C111) | |
| `verification/verification.py` | all | |
| `hamiltonian/*.py` | all; rounding of the weights in `ModelChoice64.v` only (C113) | rounding of `svd` and `expm` |

### The clean-up threshold

`drift_bound eps n K = 14 K 2^n (sqrt(2^n) + 1) eps` bounds the effect of `K` rounds of at most
eight clean-ups; `small_drift eps n K` asks that this stays below `4.5e-9` (so that the library's own
unitarity checks cannot fail) and below `1/100` after multiplication by `2^n`. For
`eps = 1e-12` this allows about 66 rounds on one qubit. Statements about longer runs (10000
compiler steps) have a structural part for every small `eps`, a part for exact arithmetic, and a drift
part whose hypothesis asks for a smaller threshold.

## 6. Status

Proved so far: see `MANIFEST.json`. Wrong programs tried against the theorems: `seeded/LOG.jsonl`.

How to read the log. Each edit was made in a scratch copy, which was then rebuilt with every proof
whose script no longer ran replaced by `Admitted` (in the scratch copy only). `lemmas_failed` lists
those proofs. `theorems_failed` lists the theorems of the claim aimed at that are among them or whose
`Print Assumptions` then names one of them. `theorems_also_resting_on_failed_lemmas` lists the other
theorems in that position. So an entry shows that the edit does not pass the existing proof. It does
not by itself show that the theorem's statement is false for the edited model: a script may also
break on a harmless rewriting (the log has such controls). That the edit makes the claim false was
judged by reading, and is written under `breaks`. From some point on only the files with the theorems
aimed at were rebuilt, so the lists of other theorems are not complete. Entries with an empty
`theorems_failed` are controls, edits that break no stated claim, or edits no theorem caught; their
`breaks` and `remark` fields say which.
