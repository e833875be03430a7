# A Rocq (Coq 8.16.1) model of tt-sketch

## Overall shape

The model is a set of computable Gallina functions, one per Python function, over a
concrete model of NumPy arrays (`shape` + row-major `data` list), written against an
arbitrary scalar ring / field (mathcomp `comRingType`, `fieldType`, `rcfType`).
Exceptions are values: every operation that can raise returns `res A = Ok a | Err e`.

* Model files (definitions only, every definition cites lines of /repo): `Py.v`, `Nd.v`
  (Python and numpy), `Utils.v`, `UtilsNum.v`, `Rng.v` (utils.py), `Tensor.v`,
  `TensorNum.v`, `Random.v` (tensor.py, tt_svd.py), `Hash.v`
  (drm/fast_lazy_gaussian.pyx), `Sketch.v` (drm_base.py, drm/*.py, sketching_methods/*.py,
  sketch_container.py, sketch_dispatch.py, sketch.py), `Mpo.v`, `MpoRandom.v`, `Gmres.v`
  (tt_gmres.py), `Heap.v` (aliasing in tensor.py), `Size.v` (sizes and capabilities),
  `Mixed.v` (streaming sketches used as tensors).
* Specifications, written without the model's helpers: `Spec.v` (the entrywise meaning
  `den` of a tensor), `LinSpec.v` (contracts of QR/SVD), `RoundSpec.v`, `SkSpec.v` (what a
  sketch is), `RecSpec.v` (unfoldings, least squares), `MpoSpec.v`, `GmresSpec.v`,
  `ArnSpec.v`, `GmRunSpec.v`, `SvSpec.v`, `GenSpec.v`, `NoLinSpec.v`, `AccSpec.v`,
  `ProbSpec.v` (finite product probability), `GenericSpec.v`, `HeapSpec.v`, `SizeSpec.v`,
  `MixedSpec.v`.
* `*Thy*.v` files hold proofs; `Prop_*.v` hold the property theorems with
  `Print Assumptions` and the non-vacuity `Example`s (`Prop_LinEx.v`, `Prop_AccEx.v` and
  `LinExist.v` show that the oracle contracts are met by actual functions over every real
  closed field).

## Idealisations

* Scalars are elements of an arbitrary commutative ring (or a real closed field when norms,
  QR, SVD or least squares are involved).  Round-off (except in C68), NaN/inf and overflow of floats are not
  modelled; where the code would produce a non-finite value by dividing by zero the model
  returns a distinguished outcome, never a number.  64-bit and 32-bit integer wrap-around
  *is* modelled where the code depends on it (the hash).
* LAPACK calls are oracles passed as arguments: partial functions `arr -> res ...` which may
  fail with `LinAlgError`; what they return is constrained only by a contract (`A = QR`,
  `Q^T Q = I`, `U S V` with sorted singular values, normal equations, triangular solve,
  Penrose equations).  The contract is a hypothesis visible in the theorem's statement, and
  conclusions have the form `or_linalg r P`: r is LinAlgError or a value satisfying P.
* Random generators (`default_rng`, legacy `np.random`, `hash(str(d))`, entropy when no seed
  is given) and `ndtri` are oracles.  For C51 and C55 the DRM cores are computed from the
  generator's values by the model of `TensorTrain.random` and the thread pool.
* C56 models memory: buffers, views, lists and object identity.  The other files use pure
  values; C56 relates the two.
* Natural numbers are used for ranks, sizes and mode numbers; negative ranks and indices
  are outside the model.

## Plan per property

| id | modelled | proof |
|----|----------|-------|
| C01-C03 | `to_numpy` loops of TT, CP, Tucker with generic `einsum`/`reshape` | loop invariant on partial contraction |
| C04, C16 | sparse assignment loop, `to_sparse`, `split` | fold invariants |
| C05-C07 | `.T`, `*`, `+`, `-`, `+=` on an inductive type of all formats | structural induction (nested sums) |
| C08 | direct-sum cores | block chain invariant; refutation at d=1 |
| C09-C11, C15 | dispatch protocol of `dot`, `norm`, `gather`, `error` | case analysis + induction over sums |
| C12-C14, C52 | QR/SVD sweeps with oracles | orthonormality and value invariants along the sweep |
| C17-C18 | `trim_ranks` literally (100 sweeps, in-place updates) | monotone operator, distance argument; witness with 103 modes |
| C19 | `matricize`, `dematricize` | index arithmetic |
| C20 | `tt_svd` | sweep invariant |
| C21-C27 | DRM classes, `handle_transpose`, sketching methods, `general_sketch`, blocked assembly, `increase_rank` | master theorem: sketch = L X R, corollaries |
| C28-C31 | `assemble_sketched_tt`, `orth_step` | mathcomp matrix rank theory |
| C32-C33 | `SketchContainer`, `SketchedTensorTrain` | computation, refutations |
| C34-C38 | `fast_lazy_gaussian.pyx` on machine words | bit-level bijection, permutation argument |
| C39 | thread interleavings as arbitrary schedules of writes | disjointness + confluence |
| C40-C43 | MPO, TTPrecond, TTLinearMapSum (with a mutable core list for C41) | chain algebra |
| C44-C45 | `round_tt_sum`, `tt_sum_gmres` | case analysis, loop invariants, refutations |
| C46-C48, C50-C51 | argument checks, seeds, generators, constructors | direct |
| C49 | projector | Penrose equations |
| C53 | every function with a LAPACK oracle | syntactic induction over the `res` monad (`nl` tactic): LinAlgError only if an oracle raised it; totality from the contracts |
| C54 | `orth_step`, `assemble_sketched_tt`, `right_mul_pinv`, `left_mul_pinv` | orthogonal / oblique projections along the sweep, Frobenius norm algebra; best-approximation by normal equations |
| C55 | TensorTrainDRM cores as polynomial functions of the generator's values | Schwartz-Zippel for weighted product spaces, a witness draw from the TT factors of X, union bound over the bonds; refutation for dense arrays |
| C56 | tensor.py methods on a heap of buffers, views, lists, objects and caches (Heap.v) | refinement to Tensor.v; heap-extension and footprint invariants over arbitrary call sequences |
| C57 | `size`, `nnz`, `num_summands`, `get_drm_capabilities` (Size.v) | induction over nested sums; rank bounds of C13, shapes of C27 |
| C58 | methods of `Tensor` on `SketchedTensorTrain` and on sums containing one (Mixed.v) | induction over nested sums, replacing each sketch by its `to_tt()`; C22 for `st + Y`, `st - Y` |
| C59 | class `Experiment` of scripts/experiment_base.py with the pandas DataFrame and its CSV file (Experiment.v) | crash histories as lists of sessions; invariant: the file is the saved frame of a prefix of the plan, reading it back gives the same answers to `check_experiment_done` |
| C60 | the functions `experiment_*` of scripts/experiment_base.py and `tt_error_func` (Drivers.v) | composition of C13, C14, C15, C20, C27, C29-C31, C58 |
| C61 | subclasses of TTLinearMap written by a user (`MapUser` in Gmres.v) and scripts/cookie_problem.py (Cookie.v) | expansion in unit trains; chain algebra; the GMRES theory with a third kind of map |
| C62 | scripts/do_cookie.py: experiment_cookie (DoCookie.v), with the solver of C45 and the problem of C61 | C45 for the result, RoundSumThy for rounding a train, C27/C28-style error theory for sums; commuting matrices for the symmetric flag |
| C63 | scripts/data_download_util.py: download_data as a function of the folder, the server and the point of interruption (Download.v) | invariants over histories of calls; refutations by explicit histories |
| C64 | `tt_exp_decay` of three scripts and `tt_error_func` of plot_timings.py (ExpDecay.v) | recomposition of an SVD with new values; Frobenius norms for the refutation |
| C65 | `to_numpy` on cores, factors and summands that do not fit (Tensor.v; einsum with NumPy's broadcasting, Nd.v) | induction over the cores with the exact success condition of each einsum |
| C66 | several processes with one Experiment file (ExpConc.v): start, call, partial write, end of a save, in any order | invariant over the events: every frame in memory and the file hold `once` of a prefix of the plan; at least one process agrees with the file or is about to write |
| C67 | simultaneous calls of download_data (DlConc.v): look, open, blocks, close, in any order | invariant: the process that opened the file last has written a correct first part of it, blocks of others do not damage it |
| C68 | rounded evaluation of to_numpy, gather, TT.dot and X * c as a relation (FlModel.v); perturbed stored numbers: any rounding with relative error at most u, any summation order and contraction path | calculus of bounds `apx n m x y` (product: add the n, rounded: n+1, sum of k terms: n+k-1), induction over the cores; u = 0 gives the exact model; existence for every rounding function; a tensor attaining the bound for every n |
| C69 | scripts/frostt.py (Frostt.v): split, readlines, the loop, the cache files; int(), float(), gzip and npz are oracles with contracts (FrosttSpec.v) | induction over the lines; invariant of the two files over the history of calls |
| C70 | plot_cookie.py process_sl (PlotCookie.v): split, removal of newlines, join, two replacements; eval is a parameter | splitting and joining turns spaces into commas; one replacement halves a run of commas (rounding up) |

## Modelled and not modelled

| file in /repo/tt_sketch | modelled in | not modelled |
|---|---|---|
| utils.py | Utils, UtilsNum, Rng | type aliases; `hilbert_tensor`/`sqrt_tensor` rounding |
| tensor.py | Tensor, TensorNum, Random, Heap, Size, Mixed, FlModel | `__repr__`, dtype handling |
| tt_svd.py | TensorNum | |
| drm_base.py, drm/*.py | Sketch | abstract class machinery (`ABC`), `__repr__` |
| drm/fast_lazy_gaussian.pyx | Hash | OpenMP/C types beyond the widths used; ndtri itself |
| sketching_methods/*.py | Sketch | abstract classes |
| sketch_container.py, sketch_dispatch.py, sketch.py | Sketch | progress bars, `__repr__`, timing |
| tt_gmres.py | Mpo, MpoRandom, Gmres | timings and printing in the history, plotting |
| scripts/experiment_base.py, `tt_error_func` | Experiment, ExpConc, Drivers | timings; quoting and line structure of CSV files, booleans/dates/arrays as parameters, rounding in texts of floats (assumed to read back exactly: `csv_contract`), bytes of two overlapping writes mixed in one file, reading a file with no complete header, exact suffixes of `Unnamed: 0` |
| `tt_exp_decay` and `tt_error_func` of scripts/plot_dimension_scaling.py, plot_dimension_scaling_gaussian.py, plot_timings.py | ExpDecay | np.logspace is a parameter (positive, first value 1, non-increasing); the loops over parameters and the plots |
| scripts/cookie_problem.py | Cookie | reading the .mat files (the matrices and b are arguments), sparse storage, `num_coeffs = 0` |
| scripts/do_cookie.py:32-84 | DoCookie | logging, timings; maxiter = 50 and tolerance = 0 are arguments; the loop over experiments (that is C59) |
| scripts/data_download_util.py | Download, DlConc | the progress bar, failures of the file system, simultaneous calls for different URLs with the same file name |
| scripts/frostt.py:51-88 | Frostt | integers beyond 64 bits, classes of the exceptions of gzip and np.load, simultaneous calls; the experiment below line 91 |
| scripts/plot_cookie.py:16-27 | PlotCookie | eval, empty and shortened (...) arrays; the tables and plots below |
| other scripts/, tests/, docs/, setup.py | - | experiments and plots |

Known limits of the statements, all visible as hypotheses: `trim_ranks` iterates 100 times,
so ranks derived from it are optimal only up to 102 modes (C17; C29 - C31, C44, C51, C54 and
C55 inherit the bound where they use trimmed ranks for orthogonal sketches); dense and Tucker
tensors of three or more modes are sketched with another row order than the other formats
(C23, C55 refutations), so the positive theorems exclude them or state the other order.

Theorems whose name ends in `_refuted` prove that a claim a user would make is false of the
code, with an explicit counterexample.

## Mutation testing

`seeded/LOG.jsonl` records edits of the model (wrong boundary, dropped update, swapped
argument, ...) made in a scratch copy, with the theorems that stopped compiling.

## Trusted base

Coq 8.16.1's kernel; the reading of /repo by the author (no code is run); the idealisations
above; mathcomp 1.x (ssreflect, algebra, real_closed, zify), Coq's standard library.
No axioms are added.  `Print Assumptions` is run under every property theorem and prints
"Closed under the global context" for all of them.  (Tools that scan .vo files rather than
the dependencies of a theorem may list constants sealed by mathcomp's own module types, such
as `bigop`'s or `finset`'s locking modules; these are definitions behind a signature, not
axioms, and no theorem here depends on an unproved statement.)
