{"id": "C01", "title": "TensorTrain.to_numpy is the product of core slices", "statement": "For a tensor train whose consecutive ranks agree and whose boundary ranks are 1, to_numpy() succeeds, returns an array of shape tt.shape, and its entry (i1,...,id) is the 1x1 matrix product C1[:,i1,:] C2[:,i2,:] ... Cd[:,id,:].", "quantifier": "all numbers of modes, mode sizes, ranks, core entries and index tuples", "why_tests_cant": "The order d, sizes and ranks are unbounded and the claim is about every entry; tests fix a few shapes.", "anchors": ["tt_sketch/tensor.py:TensorTrain.to_numpy", "tt_sketch/tensor.py:TensorTrain.__init__"]}
{"id": "C02", "title": "CPTensor.to_numpy is the sum of outer products", "statement": "For a CP tensor whose factor matrices share one rank, to_numpy() succeeds, has shape cp.shape and entry (i1,...,id) equal to sum_r prod_mu C_mu[i_mu, r].", "quantifier": "all orders, sizes, ranks, factor entries and index tuples", "why_tests_cant": "Unbounded order and every entry.", "anchors": ["tt_sketch/tensor.py:CPTensor.to_numpy"]}
{"id": "C03", "title": "TuckerTensor.to_numpy is the multilinear product", "statement": "For a Tucker tensor whose core shape equals the factor ranks, to_numpy() succeeds, has shape tucker.shape and entry (i1,...,id) equal to sum_j core[j1..jd] prod_mu U_mu[j_mu, i_mu].", "quantifier": "all orders, sizes, ranks, entries and index tuples", "why_tests_cant": "The reshape/contract loop must be right for every order and rank tuple.", "anchors": ["tt_sketch/tensor.py:TuckerTensor.to_numpy"]}
{"id": "C04", "title": "Sparse tensors denote what their coordinates say; dense/sparse round trip", "statement": "If no coordinate is repeated and all are in range, SparseTensor.to_numpy() has the stored value at each stored coordinate and 0 elsewhere; DenseTensor.to_sparse().to_numpy() gives back the same array.", "quantifier": "all shapes, coordinate lists and values", "why_tests_cant": "Depends on every coordinate list, order and shape.", "anchors": ["tt_sketch/tensor.py:SparseTensor.to_numpy", "tt_sketch/tensor.py:DenseTensor.to_sparse"]}
{"id": "C05", "title": ".T reverses the modes in every format and is an involution", "statement": "For dense, sparse, TT, CP, Tucker and (nested) sums, X.T.to_numpy() has the reversed shape and X.T.to_numpy()[id,...,i1] = X.to_numpy()[i1,...,id]; X.T.T denotes the same tensor as X.", "quantifier": "all well-formed tensors of all formats, including nested sums, and all indices", "why_tests_cant": "Six formats times unbounded shape/nesting.", "anchors": ["tt_sketch/tensor.py:DenseTensor.T", "tt_sketch/tensor.py:SparseTensor.T", "tt_sketch/tensor.py:TensorTrain.T", "tt_sketch/tensor.py:TensorSum.T", "tt_sketch/tensor.py:CPTensor.T", "tt_sketch/tensor.py:TuckerTensor.T"]}
{"id": "C06", "title": "Scalar multiplication, negation and division act entrywise in every format", "statement": "(X*c).to_numpy() = c * X.to_numpy(), and -X, X/c likewise, with the shape unchanged, for every format.", "quantifier": "all well-formed tensors, all scalars, all indices", "why_tests_cant": "Each format stores the scalar in a different place; must hold for every order and nesting.", "anchors": ["tt_sketch/tensor.py:Tensor.__neg__", "tt_sketch/tensor.py:Tensor.__truediv__", "tt_sketch/tensor.py:TensorTrain.__mul__", "tt_sketch/tensor.py:SparseTensor.__mul__", "tt_sketch/tensor.py:CPTensor.__mul__", "tt_sketch/tensor.py:TuckerTensor.__mul__", "tt_sketch/tensor.py:TensorSum.__mul__"]}
{"id": "C07", "title": "Addition and subtraction of tensors in any formats denote the entrywise sum", "statement": "(X+Y).to_numpy() = X.to_numpy() + Y.to_numpy() and (X-Y).to_numpy() = X.to_numpy() - Y.to_numpy() whatever the formats of X and Y (including sums on either side); the result is a flat concatenation of the summand lists; S += Y has the same value.", "quantifier": "all pairs of well-formed tensors of equal shape", "why_tests_cant": "Quadratically many format pairs, unbounded summand lists.", "anchors": ["tt_sketch/tensor.py:Tensor.__add__", "tt_sketch/tensor.py:TensorSum.__add__", "tt_sketch/tensor.py:TensorSum.__iadd__", "tt_sketch/tensor.py:TensorSum.to_numpy"]}
{"id": "C08", "title": "TensorTrain.add is exact and adds the ranks", "statement": "For two tensor trains of the same shape with at least two modes, a.add(b) has shape a.shape, rank a.rank + b.rank componentwise and to_numpy() equal to the entrywise sum. (With a single mode the code returns a two-core train: the claim fails there.)", "quantifier": "all trains with d >= 2, all ranks, all entries", "why_tests_cant": "Block structure must be right for every rank pattern and order.", "anchors": ["tt_sketch/tensor.py:TensorTrain.add"]}
{"id": "C09", "title": "dot / @ of any two formats is the entrywise inner product", "statement": "X.dot(Y) terminates and returns sum_i X[i]*Y[i] for every pair of formats (dense, sparse without repeated coordinates, TT, CP, Tucker, nested sums), and so X.dot(Y) = Y.dot(X).", "quantifier": "all pairs of well-formed tensors of equal shape", "why_tests_cant": "The double-dispatch protocol (reverse=, gather, sum on either side) has unboundedly many nestings.", "anchors": ["tt_sketch/tensor.py:Tensor.dot", "tt_sketch/tensor.py:SparseTensor.dot", "tt_sketch/tensor.py:TensorTrain.dot", "tt_sketch/tensor.py:TensorSum.dot"]}
{"id": "C10", "title": "norm() is the Frobenius norm of the represented tensor", "statement": "X.norm() = sqrt(sum_i X[i]^2) for every format; in particular the tensor-train norm computed from the last core after left-orthogonalization, and the sparse norm computed from the stored values.", "quantifier": "all well-formed tensors; all QR factorizations satisfying QR = A, Q^T Q = I", "why_tests_cant": "For every input and every valid QR.", "anchors": ["tt_sketch/tensor.py:Tensor.norm", "tt_sketch/tensor.py:TensorTrain.norm", "tt_sketch/tensor.py:SparseTensor.norm"]}
{"id": "C11", "title": "gather returns the requested entries", "statement": "For in-range index rows, TT.gather, CP.gather and Sparse.gather return, for each row, the entry of to_numpy() at that index. For out-of-range rows a sparse tensor raises ValueError and a CP tensor IndexError, but a train only checks its first mode and returns 0 for the others; a CP tensor given too few index rows ignores the remaining factors.", "quantifier": "all tensors, all lists of index rows", "why_tests_cant": "Every index list and order.", "anchors": ["tt_sketch/tensor.py:TensorTrain.gather", "tt_sketch/tensor.py:CPTensor.gather", "tt_sketch/tensor.py:SparseTensor.gather", "tt_sketch/tensor.py:SparseTensor.dict"]}
{"id": "C12", "title": "orthogonalize preserves the tensor and left-orthogonalizes", "statement": "tt.orthogonalize() denotes the same tensor, has the same shape, every core but the last has orthonormal columns when unfolded to (r1*n, r2), and no rank exceeds the old rank.", "quantifier": "all well-formed trains, all valid QR factorizations", "why_tests_cant": "Every order/rank, every QR choice.", "anchors": ["tt_sketch/tensor.py:TensorTrain.orthogonalize"]}
{"id": "C13", "title": "round respects the rank budget and right-orthogonalizes", "statement": "tt.round(eps,max_rank) keeps the shape, every resulting rank is at least 1 and at most max(1, trimmed max_rank), and every core but the first has orthonormal rows when unfolded to (r1, n*r2). No rank is larger than that of the input.", "quantifier": "all trains, all eps and max_rank, all valid SVD/QR", "why_tests_cant": "Every input and every SVD.", "anchors": ["tt_sketch/tensor.py:TensorTrain.round"]}
{"id": "C14", "title": "round is exact up to the discarded singular values", "statement": "The squared Frobenius error ||tt - tt.round(...)||^2 equals the sum of the squares of all singular values discarded in the sweep; so nothing discarded implies the tensor is unchanged.", "quantifier": "all trains, all truncations, all valid SVD/QR", "why_tests_cant": "Error identity over every input and truncation pattern.", "anchors": ["tt_sketch/tensor.py:TensorTrain.round"]}
{"id": "C15", "title": "error() is the Frobenius distance", "statement": "X.error(Y) = ||X - Y||_F; relative=True divides by ||Y|| (inf if Y = 0); rmse=True divides by sqrt(number of entries); fast=True gives the same value whenever X and Y are not both zero.", "quantifier": "all pairs of well-formed tensors, all option combinations", "why_tests_cant": "Every pair and option combination.", "anchors": ["tt_sketch/tensor.py:Tensor.error", "tt_sketch/tensor.py:TensorTrain.error"]}
{"id": "C16", "title": "SparseTensor.split partitions the stored entries", "statement": "X.split(n) for n >= 1 has exactly n summands whose coordinate/value lists concatenate to those of X in order, so (without repeats) it denotes the same tensor. All pieces but the last hold nnz // n entries.", "quantifier": "all sparse tensors and all n >= 1, including n > nnz", "why_tests_cant": "Boundary arithmetic for every (nnz, n).", "anchors": ["tt_sketch/tensor.py:SparseTensor.split"]}
{"id": "C17", "title": "trim_ranks returns the largest feasible rank below the request", "statement": "For tensors with at most 102 modes and positive ranks and sizes, trim_ranks(dims, ranks) is feasible (adjacent ranks within a factor of the mode size, boundary ranks 1), is at most ranks, at least every feasible rank vector below ranks, and is idempotent. With 103 modes the hard-coded 100 sweeps are not enough and the result can violate the feasibility its docstring promises.", "quantifier": "all dims, all ranks", "why_tests_cant": "A fixpoint claim over all vectors; the failure needs more than 100 modes.", "anchors": ["tt_sketch/utils.py:trim_ranks"]}
{"id": "C18", "title": "process_tt_rank normalizes and validates", "statement": "An int becomes the constant tuple of length d-1, an iterable of length d-1 is kept (or trimmed), any other length raises ValueError.", "quantifier": "all rank arguments and shapes", "why_tests_cant": "All inputs.", "anchors": ["tt_sketch/utils.py:process_tt_rank"]}
{"id": "C19", "title": "matricize/dematricize are inverse and index-correct", "statement": "matricize(A, m)[i, ravel(rest)] = A[.., i at m, ..]; dematricize(matricize(A,m), m, A.shape) = A for every mode m; grouping leading modes is a plain reshape. For any list of distinct modes, in any order, the modes become the leading axes (or one row index) and the remaining ones the column index; repeated or out-of-range modes raise ValueError.", "quantifier": "all arrays, modes", "why_tests_cant": "All shapes and modes.", "anchors": ["tt_sketch/utils.py:matricize", "tt_sketch/utils.py:dematricize"]}
{"id": "C20", "title": "tt_svd without truncation is exact and bounded in rank", "statement": "tt_svd(X, rank) (at least two modes) returns a train of shape X.shape with ranks at most max(1, trimmed rank); all cores but the last are left-orthonormal; if no positive singular value is discarded, it denotes X.", "quantifier": "all tensors, ranks, valid SVDs", "why_tests_cant": "Every input and SVD.", "anchors": ["tt_sketch/tt_svd.py:tt_svd"]}
{"id": "C21", "title": "A streaming sketch is the DRM contraction of the represented tensor", "statement": "For sparse, TT and CP tensors and each DRM that supports them, stream_sketch returns Omega_mu = L_mu X_mu R_mu and Psi_mu = (L_{mu-1} x I) X R_mu, where X is the represented tensor, L_mu (R_mu) is the fixed matrix defined by the left (right) DRM on the first mu+1 (remaining, in reversed order) modes, restricted to the DRM's rank window.", "quantifier": "all tensors, all DRM data, all rank windows, all bonds, all entries", "why_tests_cant": "Every format/DRM pair, order, size and rank window.", "anchors": ["tt_sketch/sketch_dispatch.py:general_sketch", "tt_sketch/sketching_methods", "tt_sketch/drm"]}
{"id": "C22", "title": "Streaming sketches are linear and can be updated in place of resketching", "statement": "Sketching a TensorSum gives the entrywise sum of the sketches of its summands (any nesting, any mix of formats), and stt + Y equals the sketch, with stt's DRMs, of X + Y when stt is the sketch of X; order of updates is irrelevant.", "quantifier": "all sums, all update sequences", "why_tests_cant": "Arbitrary histories of updates.", "anchors": ["tt_sketch/sketch_dispatch.py:sketch_psi_sum", "tt_sketch/sketch_dispatch.py:sketch_omega_sum", "tt_sketch/sketch_dispatch.py:sum_sketch", "tt_sketch/sketch.py:SketchedTensorTrain.__add__", "tt_sketch/sketch_container.py:SketchContainer.__add__"]}
{"id": "C23", "title": "The sketch depends only on the tensor, not on its storage format", "statement": "With the same DRMs, sparse (no matter the coordinate order or splitting), TT and CP representations of one tensor give identical Psi and Omega. For dense and Tucker storage with at least 3 modes the code enumerates the right modes in the opposite order, so the claim fails there.", "quantifier": "all pairs of representations of the same tensor", "why_tests_cant": "Ranges over all representations; the existing tests never compare formats.", "anchors": ["tt_sketch/sketching_methods/dense_sketch.py", "tt_sketch/sketching_methods/tucker_sketch.py", "tt_sketch/drm/tensor_train_drm.py"]}
{"id": "C24", "title": "Blocked sketching equals sketching at once", "statement": "For non-decreasing rank slices from 0 to the full rank, blocked_stream_sketch(X, left, right, ls, rs) returns exactly the Psi and Omega of the unblocked sketch, for sparse, TT and CP tensors.", "quantifier": "all slice partitions (any number of blocks, empty blocks too), all tensors and DRMs", "why_tests_cant": "All partitions.", "anchors": ["tt_sketch/sketch.py:blocked_stream_sketch", "tt_sketch/sketch.py:_assemble_blocked_stream_sketches", "tt_sketch/drm_base.py:CanSlice.slice"]}
{"id": "C25", "title": "Slicing a DRM is honoured by every format it supports", "statement": "If drm supports slicing and a tensor format, the sketches made with drm.slice(a,b) are the columns a..b of those made with drm. Violated: TensorTrainDRM ignores the window for dense tensors, so blocked sketches of dense tensors raise or are wrong, and SparseSignDRM.slice forgets num_non_zero_per_row.", "quantifier": "all DRMs, formats, windows", "why_tests_cant": "All combinations; tests skip these.", "anchors": ["tt_sketch/drm/tensor_train_drm.py:TensorTrainDRM.sketch_dense", "tt_sketch/drm/tensor_train_drm.py:TensorTrainDRM.sketch_tucker", "tt_sketch/drm/sparse_sign_drm.py", "tt_sketch/drm_base.py:CanSlice.slice"]}
{"id": "C26", "title": "increase_rank extends a sketch without disturbing it", "statement": "For DRMs that can increase rank, stt.increase_rank(X, l, r) equals the streaming sketch of X made directly with the DRMs of rank (l, r); its leading sub-blocks are the old Psi and Omega.", "quantifier": "all tensors, ranks, growth steps", "why_tests_cant": "All growth histories.", "anchors": ["tt_sketch/sketch.py:SketchedTensorTrain.increase_rank", "tt_sketch/drm_base.py:CanIncreaseRank.increase_rank"]}
{"id": "C27", "title": "Shapes and ranks of a streaming sketch", "statement": "stream_sketch returns Psi_mu of shape (l_{mu-1}, n_mu, r_mu) and Omega_mu of shape (l_mu, r_mu) with l, r the (trimmed) requested ranks; to_tt() has the shape of X and rank l (or r when l > r).", "quantifier": "all inputs", "why_tests_cant": "All inputs.", "anchors": ["tt_sketch/sketch.py:stream_sketch", "tt_sketch/sketch.py:assemble_sketched_tt", "tt_sketch/sketch_container.py:SketchContainer"]}
{"id": "C28", "title": "Exact recovery by the streaming sketch", "statement": "If every Omega_mu has the same rank as the mu-th unfolding of X, then stream_sketch(X,...).to_tt() denotes exactly X (in both assembly directions).", "quantifier": "all tensors, all DRM matrices meeting the rank condition, any least-squares solver returning A B^+", "why_tests_cant": "Algebraic identity over all tensors and DRMs.", "anchors": ["tt_sketch/sketch.py:assemble_sketched_tt", "tt_sketch/sketch.py:stream_sketch", "tt_sketch/utils.py:right_mul_pinv", "tt_sketch/utils.py:left_mul_pinv"]}
{"id": "C29", "title": "Exact recovery by the orthogonal sketch", "statement": "Under the same rank condition orthogonal_sketch(X,...) denotes exactly X.", "quantifier": "all tensors, DRMs meeting the rank condition, valid QR and least squares", "why_tests_cant": "Algebraic identity over all inputs.", "anchors": ["tt_sketch/sketch_dispatch.py:general_sketch", "tt_sketch/sketch_dispatch.py:orth_step", "tt_sketch/sketch_dispatch.py:OrthogTTDRM"]}
{"id": "C30", "title": "Exact recovery by the HMT sketch", "statement": "If X_mu R_mu has the same rank as X_mu for every bond, hmt_sketch(X,...) denotes exactly X; in general it denotes the orthogonal projection of X.", "quantifier": "all tensors, DRMs, valid QR", "why_tests_cant": "Algebraic identity over all inputs.", "anchors": ["tt_sketch/sketch_dispatch.py:general_sketch", "tt_sketch/sketch.py:hmt_sketch"]}
{"id": "C31", "title": "Orthogonal and HMT sketches return left-orthonormal trains", "statement": "All cores but the last of the train returned by orthogonal_sketch and hmt_sketch have orthonormal columns when unfolded to (r1*n, r2), whatever the tensor and DRMs.", "quantifier": "all inputs", "why_tests_cant": "All inputs and QR choices.", "anchors": ["tt_sketch/sketch_dispatch.py:orth_step", "tt_sketch/sketch_dispatch.py:general_sketch"]}
{"id": "C32", "title": "Transposing a streaming sketch", "statement": "stt.T has the transposed Psi/Omega in reversed order, and reports ranks that agree with them. Violated: the DRMs carried by stt.T keep the old shape and report reversed ranks, so stt.T + Y is rejected or uses wrong ranks.", "quantifier": "all sketches", "why_tests_cant": "Only visible for non-palindromic shapes/ranks.", "anchors": ["tt_sketch/sketch.py:SketchedTensorTrain.T", "tt_sketch/drm_base.py:DRM.T", "tt_sketch/sketch_container.py:SketchContainer.T"]}
{"id": "C33", "title": "A streaming sketch can be scaled", "statement": "stt * c, -stt and stt / c are sketches of the scaled tensor. Violated: SketchContainer.__mul__ reads a local before assigning it, so every call raises UnboundLocalError.", "quantifier": "all sketches and scalars", "why_tests_cant": "A claim over all inputs; the code fails on every one.", "anchors": ["tt_sketch/sketch_container.py:SketchContainer.__mul__", "tt_sketch/sketch.py:SketchedTensorTrain.__mul__"]}
{"id": "C34", "title": "The index hash never collides", "statement": "hash_int_c is a bijection of the 64-bit words: distinct inputs have distinct hashes, every word is hit.", "quantifier": "all 2^64 words", "why_tests_cant": "2^64 cases.", "anchors": ["tt_sketch/drm/fast_lazy_gaussian.pyx:hash_int_c"]}
{"id": "C35", "title": "Lazy random entries depend only on index, column and seed", "statement": "inds_to_normal(inds, shape, a, b, seed)[k, j] is a function of the k-th coordinate, a+j and seed only: so reordering coordinates permutes rows, and a window [a,b) is the corresponding columns of [0,b'). Different seeds below 2^63 give an entry different hashed words, but they are not independent: the row of a coordinate whose first index is c+1 under seed s is the row of the coordinate with c under seed s+1, so the matrices of consecutive modes of one sketch (which use consecutive seeds) share rows.", "quantifier": "all coordinate lists, windows, seeds", "why_tests_cant": "All inputs; incl. 64-bit wrap-around.", "anchors": ["tt_sketch/drm/fast_lazy_gaussian.pyx:_inds_to_rand_double", "tt_sketch/drm/fast_lazy_gaussian.pyx:inds_to_normal", "tt_sketch/drm/sparse_gaussian_drm.py"]}
{"id": "C36", "title": "Distinct coordinates get distinct random entries", "statement": "If the product of the sketched mode sizes is below 2^31, distinct in-range coordinates have distinct flat indices and (for one column and seed) distinct hashed words. Beyond that the 32-bit running product wraps and distinct coordinates share all their 'random' entries.", "quantifier": "all shapes and coordinate pairs", "why_tests_cant": "Needs shapes with more than 2^31 cells - the intended use, never tested.", "anchors": ["tt_sketch/drm/fast_lazy_gaussian.pyx:_inds_to_rand_double"]}
{"id": "C37", "title": "Hashed words decode to positive normal doubles", "statement": "After bit masking every word decodes to a finite, positive, normal double in [2^-511, 2), with frexp mantissa in [1/2,1) and exponent in [-510,1]; so the uniform value 2m-1 lies in [0,1).", "quantifier": "all 2^64 words", "why_tests_cant": "2^64 cases.", "anchors": ["tt_sketch/drm/fast_lazy_gaussian.pyx:_inds_to_rand_double", "tt_sketch/drm/fast_lazy_gaussian.pyx:uint_to_normal"]}
{"id": "C38", "title": "Sparse sign rows have exactly the requested number of +-1", "statement": "For nnz <= rank each row of inds_to_sparse_sign over the full window has exactly nnz entries in {+1,-1} and rank-nnz zeros; rows depend only on their coordinate and seed; a window is the corresponding columns.", "quantifier": "all coordinates, seeds, ranks, nnz <= rank", "why_tests_cant": "All hash outcomes.", "anchors": ["tt_sketch/drm/fast_lazy_gaussian.pyx:_inds_to_sparse_sign", "tt_sketch/drm/fast_lazy_gaussian.pyx:inds_to_sparse_sign"]}
{"id": "C39", "title": "Threaded random fill is schedule independent and complete", "statement": "Whatever the interleaving of the worker threads, random_normal(shape, seed) ends with the same array, every cell written exactly once from its own generator. (The array does depend on the number of threads.)", "quantifier": "all sizes, thread counts, schedules", "why_tests_cant": "All interleavings.", "anchors": ["tt_sketch/utils.py:MultithreadedRNG", "tt_sketch/utils.py:random_normal"]}
{"id": "C40", "title": "Applying an MPO is the matrix-vector product", "statement": "A(x).to_numpy()[j] = sum_i A.to_numpy()[i1,j1,...,id,jd] x.to_numpy()[i]; MPO.eye(shape)(x) denotes x; <A(x), y> = <x, A.T(y)>. .size is the number of stored numbers, and A.T has the same size.", "quantifier": "all MPOs and trains", "why_tests_cant": "All orders, sizes and ranks.", "anchors": ["tt_sketch/tt_gmres.py:MPO.__call__", "tt_sketch/tt_gmres.py:MPO.eye", "tt_sketch/tt_gmres.py:MPO.T", "tt_sketch/tt_gmres.py:MPO.to_numpy", "tt_sketch/tt_gmres.py:MPO.size"]}
{"id": "C41", "title": "Scaling an MPO does not change the original", "statement": "A*c denotes c*A and leaves A unchanged. Violated: MPO.__mul__ writes into the shared core list, so A itself is scaled.", "quantifier": "all MPOs and scalars", "why_tests_cant": "A claim about histories: the object after the call.", "anchors": ["tt_sketch/tt_gmres.py:MPO.__mul__"]}
{"id": "C42", "title": "A TTPrecond inverts its matrix on its mode", "statement": "P(P.forward_call(x)) and P.forward_call(P(x)) denote x when the matrix is invertible; forward_call applies the matrix on the given mode only.", "quantifier": "all trains, modes, invertible matrices, valid QR/triangular solves", "why_tests_cant": "All inputs.", "anchors": ["tt_sketch/tt_gmres.py:TTPrecond"]}
{"id": "C43", "title": "A TTLinearMapSum applies the sum of its maps", "statement": "A(x) is the list of all maps applied to all summands, so it denotes sum over maps and summands; shape mismatches between maps and empty lists raise ValueError.", "quantifier": "all map lists and inputs", "why_tests_cant": "All lists.", "anchors": ["tt_sketch/tt_gmres.py:TTLinearMapSum"]}
{"id": "C44", "title": "round_tt_sum returns a train within the rank budget", "statement": "For methods exact, pairwise (>= 2 summands), sketch and orth_sketch the ranks of the result are at most max(1, max_rank); sketch/orth_sketch with the default oversampling are never rejected for their ranks. Violated for pairwise with a single summand: the tensor is returned unrounded.", "quantifier": "all sums, budgets, methods", "why_tests_cant": "All inputs.", "anchors": ["tt_sketch/tt_gmres.py:round_tt_sum"]}
{"id": "C45", "title": "TT-GMRES bookkeeping and residual claims", "statement": "The solver performs at most maxiter iterations, records one history entry per iteration, and (with exact rounding) the basis satisfies the Arnoldi relation so that the reported residual equals the true one; with sufficient ranks an invertible system is solved exactly after at most as many iterations as the tensor has entries. Violated: the stopping test compares the squared residual, so it can stop above tolerance; maxiter=0 raises; an exact initial guess divides by zero.", "quantifier": "all maps, right-hand sides, histories", "why_tests_cant": "All runs.", "anchors": ["tt_sketch/tt_gmres.py:tt_sum_gmres"]}
{"id": "C46", "title": "Argument checks of the sketching entry points", "statement": "stream_sketch accepts exactly the rank pairs where one side is strictly larger at every bond, orthogonal_sketch those where right > left; trimming never destroys that strict order, so a sketch made by stream_sketch can always be updated with +; general_sketch with method streaming or orthogonal and no left DRM raises ValueError. A rank tuple whose length is not the number of modes minus one raises an exception (ValueError, for the left ranks and for hmt_sketch) unless a DRM is given for that side.", "quantifier": "all rank pairs", "why_tests_cant": "All inputs.", "anchors": ["tt_sketch/sketch.py:stream_sketch", "tt_sketch/sketch.py:orthogonal_sketch", "tt_sketch/sketch_dispatch.py:general_sketch", "tt_sketch/sketch.py:hmt_sketch"]}
{"id": "C47", "title": "Same seed, same sketch", "statement": "With a fixed seed, sketches are a function of tensor, ranks, seed, number of CPU threads and the process's string-hash salt; so equal within a process. Violated across processes: the right seed is derived from hash(str(d)).", "quantifier": "all inputs, all environments", "why_tests_cant": "Needs several processes.", "anchors": ["tt_sketch/sketch.py:stream_sketch", "tt_sketch/sketch.py:orthogonal_sketch", "tt_sketch/drm_base.py:DRM.__init__"]}
{"id": "C48", "title": "Generated test tensors have the specified shape", "statement": "hilbert_tensor(d,n) has shape (n,)*d and entries 1/(1+sum i). sqrt_tensor(shape) should have the given shape. Violated: with unequal first two sizes they come out swapped.", "quantifier": "all shapes", "why_tests_cant": "All shapes; tests use equal sizes.", "anchors": ["tt_sketch/utils.py:hilbert_tensor", "tt_sketch/utils.py:sqrt_tensor"]}
{"id": "C49", "title": "projector is a projector", "statement": "projector(X,Y) is idempotent; it fixes X when Y^T X is invertible.", "quantifier": "all matrices, all Penrose inverses", "why_tests_cant": "All matrices.", "anchors": ["tt_sketch/utils.py:projector"]}
{"id": "C50", "title": "partial_dense gives the interface matrices", "statement": "partial_dense('lr')[mu][ravel(i1..imu), k] is the left partial product of the core slices; partial_dense('rl') the right ones.", "quantifier": "all trains", "why_tests_cant": "All orders.", "anchors": ["tt_sketch/tensor.py:TensorTrain.partial_dense"]}
{"id": "C51", "title": "Constructors produce well-formed tensors of the requested shape and rank", "statement": "TensorTrain.zero/random, CPTensor.random, TuckerTensor.random give tensors of the requested shape and (trimmed) rank; zero denotes 0; orthog without trim raises ValueError. The core of TuckerTensor.random and its first factor are not independent: the core determines the factor (if its size is a multiple of the number of threads).", "quantifier": "all shapes, ranks, seeds", "why_tests_cant": "All inputs.", "anchors": ["tt_sketch/tensor.py:TensorTrain.random", "tt_sketch/tensor.py:TensorTrain.zero", "tt_sketch/tensor.py:CPTensor.random", "tt_sketch/tensor.py:TuckerTensor.random"]}
{"id": "C52", "title": "svdvals returns the singular values of every bond", "statement": "tt.svdvals() returns for each bond the singular values of the unfolding. Violated: for trains with a rank exceeding the following n*r the product U@diag(S) has mismatched shapes and raises.", "quantifier": "all trains", "why_tests_cant": "All rank patterns.", "anchors": ["tt_sketch/tensor.py:TensorTrain.svdvals"]}
{"id": "C53", "title": "LinAlgError only comes from LAPACK; with routines that always converge the numerical functions are total", "statement": "Every public function of the library (tensor methods, sketching, TT-GMRES) raises LinAlgError only if one of the LAPACK routines it is given (qr, svd, lstsq, solve_triangular) raised it. With factorisation routines that always return, norm(), orthogonalize(), round() (with valid ranks), tt_svd and the HMT sketch return a result on every well-formed input.", "quantifier": "all tensors, ranks, tolerances and LAPACK routines", "why_tests_cant": "Ranges over all inputs and all behaviours of the numerical library.", "anchors": ["tt_sketch/tensor.py:TensorTrain.round", "tt_sketch/tensor.py:TensorTrain.orthogonalize", "tt_sketch/tensor.py:TensorTrain.norm", "tt_sketch/tt_svd.py:tt_svd", "tt_sketch/sketch.py:hmt_sketch", "tt_sketch/tt_gmres.py:tt_sum_gmres"]}
{"id": "C54", "title": "Deterministic error bounds for all three sketching algorithms when recovery is not exact", "statement": "When the tensor does not have the sketched rank, the trains returned by hmt_sketch, orthogonal_sketch and stream_sketch(...).to_tt() are still controlled by the sketch matrices. With X_mu the mu-th unfolding of the array, L_mu and R_mu the matrices of the left and right DRM and W_mu = L_mu^T X_mu R_mu: (hmt) the squared Frobenius error is at most the sum over the bonds of |X_mu - X_mu R_mu M_mu|^2 for any matrices M_mu, hence of |T|^2 + |T R_mu P|^2 for any splitting X_mu = B C + T with orthonormal rows C, T C^T = 0 and C R_mu P = I (the Halko-Martinsson-Tropp bound); (orthogonal) it is at most the sum of |X_mu - X_mu R_mu W_mu^T M_mu|^2 for any M_mu, hence of the generalized Nystroem errors |X_mu - X_mu R_mu W_mu^+ L_mu^T X_mu|^2; (streaming, W_mu of full row or column rank) the returned array is exactly the array with the oblique projections X_mu R_mu W_mu^+ L_mu^T (or R_mu W_mu^+ L_mu^T X_mu) of all bonds applied one after the other, and its distance to X is at most the sum of the single-bond errors, each multiplied with the norms of the projections applied after it.", "quantifier": "every tensor of every format and shape, every rank, seed and DRM meeting the documented preconditions, every draw of the random matrices, all auxiliary matrices M_mu, all LAPACK results meeting their contracts", "why_tests_cant": "tests sample a few random tensors and seeds and compare the error with a loose tolerance; that the bound holds for every tensor and every draw is a theorem about the algorithm", "anchors": ["tt_sketch/sketch.py:hmt_sketch", "tt_sketch/sketch.py:orthogonal_sketch", "tt_sketch/sketch.py:stream_sketch", "tt_sketch/sketch.py:assemble_sketched_tt", "tt_sketch/sketch_dispatch.py:general_sketch", "tt_sketch/sketch_dispatch.py:orth_step", "tt_sketch/utils.py:right_mul_pinv", "tt_sketch/utils.py:left_mul_pinv"]}
{"id": "C55", "title": "With random DRMs, tensors of the sketched rank are recovered exactly with probability one (up to coincidences)", "statement": "If every unfolding of X has rank at most the requested ranks, then stream_sketch(X, l, r).to_tt(), orthogonal_sketch(X, l, r) and hmt_sketch(X, r) with the default DRMs and no further assumption on the draws return X exactly, except on an event of the random numbers whose probability is at most d * (r_1 + ... + r_{d-1}) * p (hmt: sum of (d - mu) r_mu, times p), where r_mu are the TT ranks of X and p bounds the probability of every single outcome of a draw: with continuous draws (p -> 0) recovery is almost sure. For dense arrays with three or more modes this is false: there is an array of TT rank (2, 1) that is never recovered, whatever is drawn.", "quantifier": "every tensor (TT, CP, sparse and sums of them, dense and Tucker with two modes), shape, ranks at least the TT ranks, seed and number of threads, every product distribution of the drawn values", "why_tests_cant": "a test tries finitely many seeds; that the set of bad draws is always negligible is a statement about all tensors and all draws", "anchors": ["tt_sketch/sketch.py:stream_sketch", "tt_sketch/sketch.py:orthogonal_sketch", "tt_sketch/sketch.py:hmt_sketch", "tt_sketch/drm/tensor_train_drm.py:TensorTrainDRM", "tt_sketch/tensor.py:TensorTrain.random", "tt_sketch/utils.py:MultithreadedRNG"]}
{"id": "C56", "title": "Tensor operations never modify their operands, and in-place changes reach exactly the objects that share storage", "statement": "No sequence of constructor calls, .T, *, unary -, +, binary -, to_numpy, dense, to_sparse, split, TensorTrain.add, orthogonalize, round and gather changes the value of a tensor that already exists, and each call returns what its mathematical specification says even though arrays and lists are shared. S += Y appends the summands of Y to S and changes only objects that contain the list S.tensors; Z = S + Y taken before is unaffected. Assigning to an array element changes only tensors holding that memory cell; X*c of dense, sparse and TT tensors, TensorTrain.add and to_numpy of non-dense tensors return independent storage; X.T and split are live views. X[k] = C replaces one core. Violated: the array returned by to_numpy of a DenseTensor (or one-core train) aliases the tensor, X*c shares arrays with X for CP and Tucker, SparseTensor.gather returns stale values after the entries are modified, two TensorSums built from one list change together under +=, S += TensorSum([S]) makes S denote nothing (infinite recursion), and shape is not updated by X[k] = C. Trains returned by orthogonalize and round share no memory with the argument; violated for a single mode, where the core itself is stored in the result.", "quantifier": "all heaps (any sharing of buffers, views, lists and nested sums), all programs of such statements, all positions and values written", "why_tests_cant": "aliasing bugs depend on the whole history of a program and on which objects happen to share storage; tests exercise a few short histories", "anchors": ["tt_sketch/tensor.py:Tensor.__add__", "tt_sketch/tensor.py:TensorSum.__iadd__", "tt_sketch/tensor.py:TensorSum.__init__", "tt_sketch/tensor.py:DenseTensor.T", "tt_sketch/tensor.py:DenseTensor.to_numpy", "tt_sketch/tensor.py:DenseTensor.to_sparse", "tt_sketch/tensor.py:SparseTensor.split", "tt_sketch/tensor.py:SparseTensor.dict", "tt_sketch/tensor.py:SparseTensor.gather", "tt_sketch/tensor.py:TensorTrain.__mul__", "tt_sketch/tensor.py:TensorTrain.__setitem__", "tt_sketch/tensor.py:CPTensor.__mul__", "tt_sketch/tensor.py:TuckerTensor.__mul__", "tt_sketch/tensor.py:TensorTrain.orthogonalize", "tt_sketch/tensor.py:TensorTrain.round"]}
{"id": "C57", "title": "size, nnz and num_summands count what is stored, and operations change them predictably", "statement": "x.size is the number of stored values (plus coordinates for sparse tensors): prod(shape) for dense arrays, sum r_(k-1) n_k r_k for trains, (ndim+1)*nnz for sparse tensors, prod(rank)+sum rank_k n_k for Tucker tensors, the sum over the summands for sums, sum of all Psi and Omega sizes for a streaming sketch. .T and scalar multiplication keep it, x + y adds it, split keeps the total, round never increases it and stays within the size of the rank budget. For CPTensor size is a method instead of a number, so the size of every sum with a CP tensor in it raises TypeError; nnz of dense.to_sparse() counts all entries, zeros included. get_drm_capabilities lists for every DRM class exactly the operations it has; an unlisted sketch or increase_rank raises AttributeError.", "quantifier": "all tensors of every format and nesting of sums, all shapes and ranks, all DRM classes", "why_tests_cant": "Tests compare a few sizes; the formulas, the nesting of sums (and the TypeError for any CP inside) range over all shapes, ranks and nestings.", "anchors": ["tt_sketch/tensor.py: size, nnz, num_summands, ndim", "tt_sketch/sketch.py: SketchedTensorTrain.size, get_drm_capabilities"]}
{"id": "C58", "title": "A streaming sketch can be used wherever a Tensor is expected, except that it cannot be scaled, subtracted or sketched again", "statement": "If st is a SketchedTensorTrain, then in any expression to_numpy, dot, norm, error (absolute, relative, rmse, fast; either operand) and X + st give what they give with st replaced by st.to_tt(), also when st is a summand of a (nested) TensorSum. st + Y and st - Y are the streaming sketches of X + Y and X - Y with the same DRMs when st is the sketch of X. Violated: st * c, c * st, -st and st / c, and the same for every sum with a sketch in it, raise UnboundLocalError, hence so does Y - st; st + st' raises because a sketch cannot be sketched. An object with no sketch in it is scaled, negated and divided entry by entry; division by zero raises ZeroDivisionError.", "quantifier": "all sketches st with any DRMs, all tensors of every format, all nestings of sums with sketches in them at any position, all scalars and error options", "why_tests_cant": "Dispatch of dot and error depends on the classes of both operands and on where the sketch sits in nested sums; tests try a few pairs", "anchors": ["tt_sketch/sketch.py:SketchedTensorTrain", "tt_sketch/tensor.py:Tensor.dot", "tt_sketch/tensor.py:Tensor.error", "tt_sketch/tensor.py:TensorTrain.error", "tt_sketch/tensor.py:Tensor.__sub__", "tt_sketch/tensor.py:TensorSum", "tt_sketch/sketch_container.py:SketchContainer.__mul__", "tt_sketch/sketch_dispatch.py:get_sketch_method"]}
{"id": "C59", "title": "An interrupted experiment script can be started again: nothing is lost, nothing recorded is run twice", "statement": "Let a script open Experiment(filename) and call do_experiment for a fixed plan of experiments (name, keyword arguments). However its runs end (exception in an experiment, kill between two calls, kill while the file is written, losing the last rows), and however often it is started again: the recorded experiments are a prefix of the plan, each once; the file holds exactly them with their parameters and results; at most one call per run was executed in vain; one run that reaches the end executes exactly the calls missing from the file and completes it. force_overwrite behaves as if there were no file, which stays untouched until the first new result. Required of the plan: within a column only numbers or only strings that do not look like numbers or missing values, no result named like a parameter. Violated without that: numeric strings, mixed columns, NaN, 'NA' and results named like parameters are run again; an experiment whose parameters are a subset of an earlier one's is never run; every restart adds a column 'Unnamed: 0' to the file.", "quantifier": "all plans, all sequences of runs with any outcome of every call, all crash points between calls and during saves, any tear length, all filenames' previous contents written by such runs", "why_tests_cant": "The claim is about every crash history; the repository has no test for Experiment, and a test would try one or two restarts", "anchors": ["scripts/experiment_base.py:Experiment.__init__", "scripts/experiment_base.py:Experiment.check_experiment_done", "scripts/experiment_base.py:Experiment.do_experiment", "scripts/experiment_base.py:Experiment.save"]}
{"id": "C60", "title": "The experiment functions report the relative error of the approximation they name", "statement": "experiment_stream_sketch, experiment_orthogonal_sketch, experiment_hmt_sketch, experiment_tt_svd and experiment_tt_round return |Y - X| / |X| in the Frobenius norm, where Y is the tensor that stream_sketch, orthogonal_sketch, hmt_sketch, tt_svd or round gives for the same arguments, rounded to ranks at most recompression_rank if one is given (infinite or nan iff X = 0). The assertion on the rank after recompression never fails for a positive recompression_rank; for 0 it always does. The reported error of orthogonal and HMT sketches without recompression is at most 1; that of tt_svd and round is at most sqrt(d-1) times the relative error of any approximation with the requested ranks. tt_error_func of the scaling scripts returns the same number, infinity for a zero reference also when the absolute error is asked for. experiment_tt_round works for tensor trains only.", "quantifier": "all tensors of every format with non-empty modes, all ranks, all random draws, all linear-algebra routines meeting their contracts", "why_tests_cant": "The scripts have no tests; the claim composes sketching, recovery, rounding and error computation for every input, rank and draw", "anchors": ["scripts/experiment_base.py:experiment_stream_sketch", "scripts/experiment_base.py:experiment_orthogonal_sketch", "scripts/experiment_base.py:experiment_hmt_sketch", "scripts/experiment_base.py:experiment_tt_svd", "scripts/experiment_base.py:experiment_tt_round", "scripts/plot_dimension_scaling.py:tt_error_func"]}
{"id": "C61", "title": "A linear map written by the user is solved for as the matrix it applies; the cookie problem", "statement": "Let a subclass of TTLinearMap map every train of shape s to a train of shape t whose entries are a linear function of the entries of the argument. Then TTLinearMapSum and tt_sum_gmres treat it as that linear function: all properties of C43 and C45 hold for sums that mix such maps, MPOs and preconditioners. In particular, for the cookie problem: CookieMap(A, mode, shape, coeffs)(x)[j] = coeffs[j_mode] * sum_l A[l, j_0] x[l, j_1, ...] (factor 1 for mode 0): the transpose of A is applied; prepare_cookie_problem returns the sum of these maps with coefficients 1 and linspace(0, 10), the right hand side b along mode 0 and constant along the others, and the preconditioner with matrix A_0 + 5 (A_1 + A_2 + ...) (A_0 if num_coeffs = 1), not transposed. Where all parameters equal 5 the preconditioned operator is the identity if and only if that matrix is symmetric, so for matrices that are not symmetric the preconditioner belongs to another operator.", "quantifier": "all linear maps a user can write, all tensor trains, all shapes, all lists of matrices, all right hand sides and numbers of coefficients", "why_tests_cant": "User code is arbitrary; a test fixes one map and one train, and the scripts have no tests", "anchors": ["tt_sketch/tt_gmres.py:TTLinearMap", "tt_sketch/tt_gmres.py:TTLinearMapSum", "tt_sketch/tt_gmres.py:tt_sum_gmres", "scripts/cookie_problem.py:CookieMap", "scripts/cookie_problem.py:prepare_cookie_problem"]}
{"id": "C62", "title": "The errors reported by the cookie experiment are those of the rounded solutions; when the symmetric flag is justified", "statement": "experiment_cookie (scripts/do_cookie.py), for every valid problem (maps, preconditioner, right hand side, initial guess): whenever tt_sum_gmres returns, and the final rounding method is sketch or orth_sketch, the experiment raises LinAlgError or reports, for every final rank r, true_error = |A x - b| / |b| and precond_error = |P^-1 A x - P^-1 b| / |P^-1 b| (None/inf for a zero right hand side) of the solution x rounded to rank r (a train with all ranks at most r), and last_residual is the last entry of the residual history. With the methods exact and pairwise it raises AttributeError after the whole solve, because the solution is a train and not a sum. The flag symmetric=True it passes: for symmetric matrices A_mu, an invertible preconditioner and at least two coefficients, the preconditioned operator of the cookie problem is self-adjoint if and only if the averaged matrix P commutes with every A_mu; so the claim that symmetric matrices suffice is false.", "quantifier": "all numbers of modes, matrices, right hand sides, initial guesses, rank budgets, lists of final ranks, rounding methods, numbers of iterations, tolerances, sketch randomness, linear algebra routines meeting their contracts", "why_tests_cant": "the claim relates reported numbers to exact norms for every problem and every list of ranks; self-adjointness quantifies over all pairs of tensors", "anchors": ["scripts/do_cookie.py:experiment_cookie", "scripts/cookie_problem.py:prepare_cookie_problem", "tt_sketch/tt_gmres.py:tt_sum_gmres", "tt_sketch/tt_gmres.py:round_tt_sum"]}
{"id": "C63", "title": "Data files: what download_data leaves behind after interruptions and repeated calls", "statement": "Start with an empty folder and make any history of download_data calls, each possibly failing to connect or interrupted (exception, kill) at any byte, with server answers changing at will. The file of a name (the part of the URL after the last slash) holds exactly what the first call for that name that reached the server received, and never changes afterwards; every later call for that name returns normally without downloading. So if no call for the name was interrupted, the name belongs to one URL and the server always sends the same, then the file is complete whenever download_data returns. The claim that the file is complete whenever download_data returns is false: after one interrupted call it stays truncated forever, and for two URLs with the same last part the second gets the data of the first.", "quantifier": "all histories of calls, URLs, server answers, connection failures and interruption points", "why_tests_cant": "histories with crash points and network failures cannot be enumerated", "anchors": ["scripts/data_download_util.py:download_data", "scripts/data_download_util.py:download_url"]}
{"id": "C64", "title": "Test tensors of the scaling and timing scripts have the prescribed singular values", "statement": "tt_exp_decay(shape, rank, min_svdval <= 0, seed) of plot_dimension_scaling.py and plot_dimension_scaling_gaussian.py returns a train of the requested shape whose ranks are the requested ones made feasible, and the unfolding of each core that has more singular values (the right one if equal) has as singular values the numbers of np.logspace times the square root of how many there are; in plot_timings.py they are the singular values of the random train times the numbers of np.logspace. The gaussian script returns the same train as plot_dimension_scaling.py although it calls orthogonalize; the claim that its cores are orthogonal is false of every core with two singular values or more. tt_error_func of plot_timings.py is the relative error for a train that is not zero, and for the zero train it raises AttributeError instead of returning infinity.", "quantifier": "all shapes, ranks, seeds, generator outputs and values of np.logspace", "why_tests_cant": "all shapes, ranks and random draws", "anchors": ["scripts/plot_dimension_scaling.py:tt_exp_decay", "scripts/plot_dimension_scaling_gaussian.py:tt_exp_decay", "scripts/plot_timings.py:tt_exp_decay", "scripts/plot_timings.py:tt_error_func"]}
{"id": "C65", "title": "Which inconsistent tensors are rejected", "statement": "The constructors check nothing. For arrays with the right number of non-empty axes: TensorTrain.to_numpy() returns an array of shape .shape exactly if the first and the last rank are 1 and every two neighbouring ranks are equal or one of them is 1; CPTensor.to_numpy() exactly if all factor matrices have the same number of columns except for those with one column; TuckerTensor.to_numpy() exactly if the core has as many entries as the product of the ranks, and then it is that of the core reshaped to the ranks; TensorSum.to_numpy() exactly if every summand broadcasts to the shape of the first. In all other cases ValueError is raised. So the claim that inconsistent tensors are detected is false (a rank of 1 next to another rank, a core of the wrong shape), and the Tucker tensor built in the tutorial cannot be converted.", "quantifier": "all lists of cores, factors and summands", "why_tests_cant": "exact border between acceptance and rejection for all inputs", "anchors": ["tt_sketch/tensor.py:TensorTrain.to_numpy", "tt_sketch/tensor.py:CPTensor.to_numpy", "tt_sketch/tensor.py:TuckerTensor.to_numpy", "tt_sketch/tensor.py:TensorSum.to_numpy", "scripts/tutorial.ipynb"]}
{"id": "C66", "title": "Several copies of an experiment script on one log file", "statement": "However the starts, experiment calls, partial and complete writes of any number of processes that run the same experiment script with the same log file are interleaved, and whichever of them fail or are killed: the file always holds results of calls that were made, each experiment of a first part of the plan exactly once and in the order of the plan; once all processes are gone, one run to the end without failures calls exactly the experiments that the file does not hold and completes it; and if all processes came to the end and no call failed, the file is complete. A process that runs while no other does anything behaves like a session of C59. Copies do not share work (an experiment can be run by each of them), saved rows can disappear from the file again, and scripts with different plans lose each other's results.", "quantifier": "all plans, numbers of processes and interleavings of events", "why_tests_cant": "all schedules of concurrent processes", "anchors": ["scripts/experiment_base.py:Experiment.__init__", "scripts/experiment_base.py:Experiment.save", "scripts/experiment_base.py:Experiment.check_experiment_done", "scripts/experiment_base.py:Experiment.do_experiment"]}
{"id": "C67", "title": "Downloads that overlap", "statement": "However any number of simultaneous calls of download_data for one URL are interleaved, and whichever are killed: the file is never longer than the content of the URL and each of its bytes is that of the content or zero. When all calls have come to an end, at least one of them without an exception, none was killed and the others got no answer from the server, the file is complete. A call during which no other runs is a call of C63. That the file is complete when a call returns is false, both for a call that finds the file of another one and for a call that has downloaded everything itself; zeros left by a killed call stay.", "quantifier": "all contents, numbers of processes and interleavings", "why_tests_cant": "all schedules of concurrent processes", "anchors": ["scripts/data_download_util.py:download_data", "scripts/data_download_util.py:download_url"]}
{"id": "C68", "title": "Rounding errors of to_numpy, gather and dot", "statement": "In floating-point arithmetic with unit roundoff u (every product, sum and += off by a relative error of at most u; any order and grouping of the sums in einsum, matmul and np.sum; fused multiply-add allowed; no overflow or underflow), every entry of X.to_numpy() and every number of X.gather(idx) differs from the exact value by at most (1+u)^n - 1 times the entry of the tensor whose stored numbers are the absolute values of those of X. n is 0 for dense and sparse tensors, the sum of the ranks for a train, (d-1)+(r-1) for a CP tensor, the sum of the sides of the core for a Tucker tensor and the largest n of the summands plus their number for a sum. Likewise TT.dot(TT), whichever contraction path einsum chooses. Relative errors already present in the stored numbers, and the roundings of X * c, add their exponents to that n. Hence two machines, or gather and to_numpy, differ by at most twice that, nonnegative tensors have small relative errors, and for u = 0 the results are those of the exact model. The bound is attained.", "quantifier": "all tensors of every format and nesting, all shapes, ranks and entries, all roundings with relative error at most u and all summation orders", "why_tests_cant": "The summation order and the roundings depend on the machine; a test sees one of them on a few tensors", "anchors": ["tt_sketch/tensor.py:TensorTrain.to_numpy", "tt_sketch/tensor.py:CPTensor.to_numpy", "tt_sketch/tensor.py:TuckerTensor.to_numpy", "tt_sketch/tensor.py:TensorSum.to_numpy", "tt_sketch/tensor.py:TensorTrain.gather", "tt_sketch/tensor.py:CPTensor.gather", "tt_sketch/tensor.py:TensorTrain.dot", "tt_sketch/tensor.py:Tensor.__mul__"]}
{"id": "C69", "title": "FROSTT files and their cache", "statement": "process_frostt_tensor, given the text of a sparse tensor (one line per entry, indices counted from 1) and its number of entries, returns exactly that tensor; more entries than announced, or none, raise IndexError; fewer give a tensor with zeros added at (0, ..., 0), which means the same tensor, but its to_numpy loses the entry at (0, ..., 0). Whatever calls of get_frostt_tensor came before, failing to connect or interrupted at any byte of the download or of the saved cache file: a call never returns a wrong tensor. Without interruptions every call with an answer from the server returns the tensor, and once a call has returned it, all later calls return the same tensor without the network, whatever nnz and shape they are given. An interrupted call is not repaired: all later calls fail.", "quantifier": "all tensors and texts, all histories of calls, all interruption points", "why_tests_cant": "All files, all histories and all crash points", "anchors": ["scripts/frostt.py:process_frostt_tensor", "scripts/frostt.py:get_frostt_tensor"]}
{"id": "C70", "title": "plot_cookie.py reads back the arrays in the log file", "statement": "For an array of results in the log file as numpy prints it - numbers without spaces, newlines or commas between brackets, separated by one to four spaces, with line breaks anywhere between them - process_sl evaluates exactly the list of its numbers. With a gap of five or more spaces it evaluates a text with two commas next to each other, and with a space after the opening bracket (numbers of different lengths, as in [ 1. 10.]) a text that starts with [, so that array is not read back.", "quantifier": "all arrays of any length, all texts of numbers, all line breaks", "why_tests_cant": "All texts", "anchors": ["scripts/plot_cookie.py:process_sl"]}
