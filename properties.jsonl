{"id": "C01", "title": "to_array evaluates the matrix-product formula", "statement": "For every MPArray with dummy boundary ranks 1, entry (i_1,...,i_N) of to_array() equals the sum over all bond indices of the product of the local tensor entries, and its shape is the concatenation of the physical shapes of the sites.", "quantifier": "all numbers of sites, all numbers and sizes of physical legs per site, all ranks, all entries", "why_tests_cant": "tests compare a handful of sizes with einsum; the formula must hold for every chain length and leg layout", "anchors": ["mpnum/mparray.py:MPArray.to_array", "mpnum/mparray.py:_ltens_to_array", "mpnum/utils/extmath.py:matdot"]}
{"id": "C02", "title": "from_array followed by to_array is the identity", "statement": "MPArray.from_array(a, ndims) followed by to_array() returns exactly a, for every split of the axes of a into sites; every site but the last is left-canonical, the reported canonical_form says so, and every rank is at most full_rank of the shape.", "quantifier": "all arrays, all leg-per-site lists, every QR routine returning an isometry times a matrix", "why_tests_cant": "QR is data dependent and rank-deficient inputs are a measure-zero set random tests never hit", "anchors": ["mpnum/mparray.py:MPArray.from_array", "mpnum/mparray.py:_extract_factors", "mpnum/mparray.py:full_rank"]}
{"id": "C03", "title": "Global and local index order conversions are mutually inverse", "statement": "global_to_local and local_to_global are inverse permutations of the axes for every number of sites, every number of legs per site and every left_skip/right_skip; from_array_global followed by to_array_global is the identity.", "quantifier": "all site counts, legs per site, skips and arrays", "why_tests_cant": "a wrong permutation can agree with the right one for small symmetric cases (2 sites, 2 legs)", "anchors": ["mpnum/utils/array_transforms.py:global_to_local", "mpnum/utils/array_transforms.py:local_to_global", "mpnum/mparray.py:MPArray.from_array_global", "mpnum/mparray.py:MPArray.to_array_global"]}
{"id": "C04", "title": "from_kron represents the tensor product", "statement": "from_kron(factors) has all ranks 1 and to_array() entry (i_1..i_N) is the product of the factor entries.", "quantifier": "all lists of factors of any shapes", "why_tests_cant": "tests use fixed small factors", "anchors": ["mpnum/mparray.py:MPArray.from_kron"]}
{"id": "C05", "title": "Addition and subtraction act entrywise", "statement": "(a+b).to_array() = a.to_array()+b.to_array() and likewise for a-b, whenever the shapes agree; the ranks of the sum are the sums of the ranks; unequal lengths are rejected.", "quantifier": "all pairs of MPArrays of equal physical shape, any ranks, any length including one site", "why_tests_cant": "block-diagonal bookkeeping errors appear only for particular length/rank combinations", "anchors": ["mpnum/mparray.py:MPArray.__add__", "mpnum/mparray.py:MPArray.__sub__", "mpnum/mparray.py:_local_add"]}
{"id": "C06", "title": "Scalar multiplication, division and negation act entrywise and keep the canonical form true", "statement": "a*s, s*a, a/s, -a and in-place a*=s multiply every entry of to_array() by the scalar, whatever the reported canonical form, and the canonical_form reported afterwards is still true.", "quantifier": "all MPArrays, scalars and canonical forms", "why_tests_cant": "the scaled site depends on the canonical form, i.e. on the whole history of the object", "anchors": ["mpnum/mparray.py:MPArray.__mul__", "mpnum/mparray.py:MPArray.__imul__", "mpnum/mparray.py:MPArray.__truediv__", "mpnum/mparray.py:MPArray.__neg__"]}
{"id": "C07", "title": "sumup computes the weighted sum", "statement": "sumup(mpas, weights).to_array() is the weighted sum of the to_array() results; without weights it is the plain sum; ranks add.", "quantifier": "all non-empty lists of equal-shape MPArrays and all weights", "why_tests_cant": "number and ranks of the summands are unbounded", "anchors": ["mpnum/mparray.py:sumup", "mpnum/mparray.py:_local_add"]}
{"id": "C08", "title": "dot contracts the requested physical legs on every site", "statement": "dot(a,b,axes).to_array() is the contraction of a.to_array() and b.to_array() over the requested legs on each site, for every axes specification (int or tuple, positive or negative), and the ranks multiply.", "quantifier": "all equal-length MPArrays with matching contracted dimensions, all axes specifications", "why_tests_cant": "leg reordering mistakes only show with several legs of different sizes", "anchors": ["mpnum/mparray.py:dot", "mpnum/mparray.py:_local_dot"]}
{"id": "C09", "title": "partialdot contracts on a window and leaves the other sites alone", "statement": "partialdot(a,b,start_at) contracts the shorter MPA with the longer on sites start_at..start_at+len(shorter)-1 and equals the longer one tensored on the other sites; windows that do not fit are rejected.", "quantifier": "all pairs of MPArrays of different length and all start positions", "why_tests_cant": "the window position and lengths are unbounded; out-of-range positions are not exercised by tests", "anchors": ["mpnum/mparray.py:partialdot"]}
{"id": "C10", "title": "inner is the sesquilinear inner product of the represented arrays", "statement": "inner(a,b) = sum over all indices of conj(a[i])*b[i]; hence conj(inner(a,b)) = inner(b,a), it is linear in b, and inner(a,a) is a sum of |a[i]|^2.", "quantifier": "all pairs of equal-shape MPArrays", "why_tests_cant": "the sum has exponentially many terms", "anchors": ["mpnum/mparray.py:inner", "mpnum/mparray.py:_local_ravel", "mpnum/mparray.py:_local_dot"]}
{"id": "C11", "title": "sandwich equals the matrix element", "statement": "sandwich(mpo, mps, mps2) = inner(mps2, dot(mpo, mps)) = sum conj(mps2[i]) mpo[i,j] mps[j].", "quantifier": "all MPOs and MPSs with matching dimensions", "why_tests_cant": "efficient contraction order must agree with the definition for all sizes", "anchors": ["mpnum/mparray.py:sandwich"]}
{"id": "C12", "title": "chain and localouter are tensor products", "statement": "chain(mpas).to_array() is the outer product of the to_array() results in order, has the concatenated sites and rank 1 at the joints, and is associative; localouter is the sitewise outer product.", "quantifier": "all non-empty lists of MPArrays", "why_tests_cant": "unbounded number and shapes", "anchors": ["mpnum/mparray.py:chain", "mpnum/mparray.py:localouter"]}
{"id": "C13", "title": "transpose, T, conj and adj act on the represented array and keep the canonical form true", "statement": "transpose(axes) permutes the physical legs of each site, T reverses them, conj conjugates, adj does both; the canonical_form reported by the result is true whenever that of the argument was.", "quantifier": "all MPArrays, all permutations per site or uniform", "why_tests_cant": "canonical form reuse is only valid for particular axis permutations", "anchors": ["mpnum/mparray.py:MPArray.transpose", "mpnum/mparray.py:MPArray.T", "mpnum/mparray.py:MPArray.conj", "mpnum/mparray.py:MPArray.adj", "mpnum/mparray.py:_local_transpose"]}
{"id": "C14", "title": "sum over physical legs", "statement": "sum(axes) sums to_array() over the given legs on each site; sum() returns the sum of all entries as a scalar; documented per-site axes lists (including None as first entry) are accepted.", "quantifier": "all MPArrays and axes specifications", "why_tests_cant": "axes parsing has many branches; wrong branches silently change the result", "anchors": ["mpnum/mparray.py:MPArray.sum"]}
{"id": "C15", "title": "get, axis_iter and diag select entries", "statement": "get(idx) fixes the first leg of every site to the given index; axis_iter yields all such slices in the documented order; diag(mpa) at a single leg returns the tensor whose entries are the represented slices.", "quantifier": "all MPArrays, indices and axes", "why_tests_cant": "order of a product iterator cannot be settled by one-site examples", "anchors": ["mpnum/mparray.py:MPArray.get", "mpnum/mparray.py:MPArray.axis_iter", "mpnum/mparray.py:diag"]}
{"id": "C16", "title": "reshape and ravel keep entries in row-major order per site", "statement": "reshape(newshapes).to_array() has at each site-wise row-major position the same entry; ravel().reshape(shape) restores the MPArray; canonical form stays true.", "quantifier": "all MPArrays and all compatible shapes including -1", "why_tests_cant": "unbounded leg sizes", "anchors": ["mpnum/mparray.py:MPArray.reshape", "mpnum/mparray.py:MPArray.ravel", "mpnum/mparray.py:_local_reshape"]}
{"id": "C17", "title": "group_sites and split_sites are inverse and do not change the represented array", "statement": "group_sites(n) merges consecutive sites without changing to_array(); split_sites(n) of the result represents the same array with the original site structure.", "quantifier": "all MPArrays with length divisible by n, every QR routine", "why_tests_cant": "QR-based splitting is data dependent", "anchors": ["mpnum/mparray.py:MPArray.group_sites", "mpnum/mparray.py:MPArray.split_sites", "mpnum/mparray.py:_extract_factors"]}
{"id": "C18", "title": "leg2vleg undoes vleg2leg", "statement": "leg2vleg(pos) of vleg2leg(pos) represents the original array and has the original local tensors; vleg2leg exposes the bond as an extra leg on both sites.", "quantifier": "all MPArrays and all bond positions", "why_tests_cant": "positions and ranks are unbounded", "anchors": ["mpnum/mparray.py:MPArray.vleg2leg", "mpnum/mparray.py:MPArray.leg2vleg"]}
{"id": "C19", "title": "The reported canonical form of every derived MPArray is true", "statement": "Whenever the canonical_form of the arguments is true (the sites left of `left` are left-isometric and those from `right` on are right-isometric), so is the canonical_form of the result of every operation that passes one on (multiplication, transpose, conj, reshape, vleg2leg, leg2vleg, split, copy, load, ...).", "quantifier": "all MPArrays, all true canonical forms, all operations", "why_tests_cant": "tests check canonical forms after canonicalize, not after every derived operation on every form", "anchors": ["mpnum/mparray.py:MPArray.leg2vleg", "mpnum/mparray.py:MPArray.vleg2leg", "mpnum/mparray.py:MPArray.split", "mpnum/mparray.py:MPArray.__mul__", "mpnum/mparray.py:MPArray.transpose", "mpnum/mparray.py:MPArray.conj"]}
{"id": "C20", "title": "split and reverse preserve the entries", "statement": "split(pos) yields two MPArrays whose contraction over the exposed bond leg is the original array; reverse() reverses the order of sites; both terminate without error for every position documented.", "quantifier": "all MPArrays and positions", "why_tests_cant": "edge positions", "anchors": ["mpnum/mparray.py:MPArray.split", "mpnum/mparray.py:MPArray.reverse"]}
{"id": "C21", "title": "canonicalize does not change the represented array", "statement": "canonicalize with any accepted arguments leaves to_array() unchanged.", "quantifier": "all MPArrays, canonical forms, left/right targets, and every QR routine", "why_tests_cant": "depends on numerical QR and on the history through canonical_form", "anchors": ["mpnum/mparray.py:MPArray.canonicalize", "mpnum/mparray.py:MPArray._lcanonicalize", "mpnum/mparray.py:MPArray._rcanonicalize"]}
{"id": "C22", "title": "canonicalize reaches the requested form or raises", "statement": "After canonicalize(left,right) the reported form is at least as canonical as requested and true; it raises IndexError exactly for targets out of range and ValueError exactly for left >= right.", "quantifier": "all argument combinations (None, negative, 'afull', ints)", "why_tests_cant": "argument handling is a product of many cases", "anchors": ["mpnum/mparray.py:MPArray.canonicalize"]}
{"id": "C23", "title": "canonical_form stays true along every history of in-place operations", "statement": "Starting from any MPArray with a true canonical form, every finite sequence of canonicalize, in-place scalar multiplication, compress and local tensor updates with honest flags keeps the canonical form true and the bonds matching.", "quantifier": "all finite operation sequences", "why_tests_cant": "histories are unbounded", "anchors": ["mpnum/mpstruct.py:LocalTensors.update", "mpnum/mpstruct.py:LocalTensors._update", "mpnum/mparray.py:MPArray.canonicalize", "mpnum/mparray.py:MPArray.__imul__", "mpnum/mparray.py:MPArray.compress"]}
{"id": "C24", "title": "update keeps the MPArray consistent for every index it accepts", "statement": "LocalTensors.update(index, tens, canonicalization), whenever it does not raise, leaves neighbouring bond dimensions equal and a canonical form that is true if it was true before and the flags are honest, for positive and negative indices and slices.", "quantifier": "all indices (ints of either sign and slices), tensors and flags", "why_tests_cant": "index aliases and wrong-length slices are not covered by tests", "anchors": ["mpnum/mpstruct.py:LocalTensors.update", "mpnum/mpstruct.py:LocalTensors.__setitem__"]}
{"id": "C25", "title": "norm and normdist", "statement": "norm(mpa) is the Frobenius norm of to_array() for every MPArray with true canonical form and does not change it; normdist(a,b) = norm(a-b).", "quantifier": "all MPArrays and canonical forms, every QR routine", "why_tests_cant": "the shortcut through the canonical centre depends on history", "anchors": ["mpnum/mparray.py:norm", "mpnum/mparray.py:normdist"]}
{"id": "C26", "title": "SVD compression: rank bound and returned overlap", "statement": "compress(method='svd', rank=k) yields all ranks <= k, canonical form at the far end, and returns inner(original, compressed) which equals the squared norm of the compressed MPArray.", "quantifier": "all MPArrays, ranks k>=1, both directions, with and without canonicalization, every SVD routine", "why_tests_cant": "claims hold for arbitrary (also degenerate) singular values", "anchors": ["mpnum/mparray.py:MPArray.compress", "mpnum/mparray.py:MPArray._compress_svd", "mpnum/mparray.py:MPArray._compress_svd_r", "mpnum/mparray.py:MPArray._compress_svd_l"]}
{"id": "C27", "title": "SVD compression: error identity and relerr", "statement": "norm(original-compressed)^2 = norm(original)^2 - norm(compressed)^2; with relerr=e each bond keeps the smallest number of singular values whose sum is at least (1-e) of the total.", "quantifier": "all MPArrays, ranks and relerr", "why_tests_cant": "needs arbitrary singular value spectra, including ties", "anchors": ["mpnum/mparray.py:MPArray._compress_svd_r", "mpnum/mparray.py:MPArray._compress_svd_l"]}
{"id": "C28", "title": "Compression without truncation is exact and compression() never modifies its argument", "statement": "If rank is at least every bond dimension, compress leaves to_array() unchanged; compression() leaves self unchanged.", "quantifier": "all MPArrays and ranks", "why_tests_cant": "depends on SVD and history", "anchors": ["mpnum/mparray.py:MPArray.compression", "mpnum/mparray.py:MPArray.compress"]}
{"id": "C29", "title": "singularvals yields the Schmidt spectrum of each cut", "statement": "The k-th item of singularvals() is the list of singular values of the matricization of to_array() across bond k; their squares sum to norm^2.", "quantifier": "all MPArrays with a true canonical form", "why_tests_cant": "every cut of every length", "anchors": ["mpnum/mparray.py:MPArray.singularvals"]}
{"id": "C30", "title": "pad_ranks keeps the represented array", "statement": "pad_ranks(rank) raises each bond dimension to at least the requested one (bounded by nothing else) without changing to_array().", "quantifier": "all MPArrays, rank specifications", "why_tests_cant": "unbounded ranks", "anchors": ["mpnum/mparray.py:MPArray.pad_ranks"]}
{"id": "C31", "title": "inject inserts product sites", "statement": "inject(mpa,pos,num,inject_ten) represents the original array tensored with num copies of the injected tensors at the given positions (identity by default).", "quantifier": "all MPArrays, positions, counts and tensors", "why_tests_cant": "position arithmetic over unbounded lists", "anchors": ["mpnum/mparray.py:inject"]}
{"id": "C32", "title": "prune removes leg-less sites without changing the array", "statement": "prune(mpa) has the same to_array(), and no site without physical legs unless the array has none; with singletons=True size-one legs are dropped first.", "quantifier": "all MPArrays and all patterns of leg-less sites", "why_tests_cant": "2^N patterns", "anchors": ["mpnum/mparray.py:prune", "mpnum/mparray.py:_prune_ltens"]}
{"id": "C33", "title": "partialtrace and trace", "statement": "partialtrace(mpa,axes) traces the given pairs of legs of to_array() on each site; trace(mpa) is the full trace as a scalar.", "quantifier": "all MPArrays and axes specifications", "why_tests_cant": "axes parsing and length unbounded", "anchors": ["mpnum/mparray.py:partialtrace", "mpnum/mparray.py:trace"]}
{"id": "C34", "title": "regular_slices and embed_slice", "statement": "regular_slices(length,width,offset) yields exactly the windows that tile the chain with the given offset and cover both ends; embed_slice places an MPA on a window and the embedding tensor everywhere else.", "quantifier": "all lengths, widths, offsets", "why_tests_cant": "arithmetic side condition over naturals", "anchors": ["mpnum/mparray.py:regular_slices", "mpnum/mparray.py:embed_slice", "mpnum/mparray.py:_embed_ltens_identity"]}
{"id": "C35", "title": "local_sum is the sum of the embedded terms", "statement": "local_sum(mpas) equals the sum over s of mpas[s] placed at sites s..s+width-1 and embedding tensors elsewhere, also for the rank-saving construction used when no slices are given.", "quantifier": "all numbers of terms, widths, ranks and leg shapes", "why_tests_cant": "the finite automaton built by the efficient version has corner cases in width and length", "anchors": ["mpnum/mparray.py:local_sum", "mpnum/mparray.py:_local_sum_identity"]}
{"id": "C36", "title": "block_diag and the local direct sum agree", "statement": "block_diag(tensors, axes=(0,-1)) equals the local direct sum used for MPA addition; block_diag places the blocks and zeros exactly.", "quantifier": "all lists of tensors with equal inner shape", "why_tests_cant": "the source itself asks whether the two agree", "anchors": ["mpnum/utils/extmath.py:block_diag", "mpnum/mparray.py:_local_add"]}
{"id": "C37", "title": "full_rank bounds the rank of every bond", "statement": "full_rank(shape)[k] is the minimum of the products of dimensions left and right of bond k, and from_array/canonicalize never produce a bond larger than it needs.", "quantifier": "all shapes", "why_tests_cant": "unbounded dims", "anchors": ["mpnum/mparray.py:full_rank"]}
{"id": "C38", "title": "reductions_mpo yields the partial traces", "statement": "Each MPO yielded by reductions_mpo equals the partial trace of the full operator over all other sites, for every sequence of windows (in any order, overlapping or repeated).", "quantifier": "all MPOs and all window sequences", "why_tests_cant": "memoised remainders depend on the history of windows", "anchors": ["mpnum/mpsmpo.py:reductions_mpo"]}
{"id": "C39", "title": "reductions_pmps yields purifications of the partial traces", "statement": "For every sequence of windows, converting the yielded PMPS to an MPO gives the partial trace of the state; the state represented by the argument does not change.", "quantifier": "all PMPSs and window sequences", "why_tests_cant": "depends on in-place canonicalization between windows", "anchors": ["mpnum/mpsmpo.py:reductions_pmps"]}
{"id": "C40", "title": "MPS, PMPS and MPO conversions", "statement": "pmps_to_mpo(p) represents sum over ancillas p p^*; mps_to_mpo(m) represents the projector m m^*; pmps_to_mps(mps_to_pmps(m)) = m.", "quantifier": "all MPSs/PMPSs", "why_tests_cant": "unbounded sizes", "anchors": ["mpnum/mpsmpo.py:pmps_to_mpo", "mpnum/mpsmpo.py:mps_to_mpo", "mpnum/mpsmpo.py:mps_to_pmps", "mpnum/mpsmpo.py:pmps_to_mps"]}
{"id": "C41", "title": "pmps_dm_to_array and pmps_reduction", "statement": "pmps_dm_to_array(p) equals the array of pmps_to_mpo(p) with singleton legs removed; pmps_reduction(p,support) purifies the reduced state on the support.", "quantifier": "all PMPSs and supports", "why_tests_cant": "contraction order must match for all sizes", "anchors": ["mpnum/mpsmpo.py:pmps_dm_to_array", "mpnum/mpsmpo.py:pmps_reduction"]}
{"id": "C42", "title": "eye, zero and diagonal_mpa", "statement": "factory.eye represents the identity, factory.zero the zero array, factory.diagonal_mpa the generalized diagonal with the given entries; the canonical_form reported by diagonal_mpa is true.", "quantifier": "all site counts and dimensions", "why_tests_cant": "unbounded sizes", "anchors": ["mpnum/factory.py:eye", "mpnum/factory.py:zero", "mpnum/factory.py:diagonal_mpa"]}
{"id": "C43", "title": "Random factories meet their shape, rank and symmetry promises for every random stream", "statement": "random_mpa has the requested shape and ranks (min(rank, full_rank) unless force_rank); random_mpo(hermitian=True) represents a Hermitian operator; normalized ones have norm one; random_mpdo is a convex sum of product states.", "quantifier": "all random streams and parameters", "why_tests_cant": "random tests sample streams", "anchors": ["mpnum/factory.py:_generate", "mpnum/factory.py:random_mpa", "mpnum/factory.py:random_mpo", "mpnum/factory.py:random_mpdo"]}
{"id": "C44", "title": "named_ndarray follows axis names", "statement": "tensordot contracts the named axes and tracks the remaining names, rename renames simultaneously (swaps work), to_array(order) returns axes in the requested order, duplicates are rejected.", "quantifier": "all arrays, names and translations", "why_tests_cant": "permutation reasoning", "anchors": ["mpnum/_named_ndarray.py:named_ndarray"]}
{"id": "C45", "title": "special-purpose MPS routines agree with the generic ones", "statement": "special.inner_prod_mps(a,b) = inner(a,b) for product a; special.sumup(mpas, rank large) represents the weighted sum.", "quantifier": "all MPSs", "why_tests_cant": "sparse index construction", "anchors": ["mpnum/special.py:inner_prod_mps", "mpnum/special.py:sumup", "mpnum/special.py:_local_add_sparse"]}
{"id": "C46", "title": "Dense helpers partial_trace, mkron, matdot", "statement": "partial_trace(array, traceout) traces the listed subsystems; mkron is the iterated Kronecker product and is associative; matdot is the matrix product over adjacent legs.", "quantifier": "all arrays and index lists", "why_tests_cant": "unbounded dims", "anchors": ["mpnum/utils/extmath.py:partial_trace", "mpnum/utils/extmath.py:mkron", "mpnum/utils/extmath.py:matdot"]}
{"id": "C47", "title": "The local POVMs are complete", "statement": "The elements of x_povm(d), y_povm(d), z_povm(d) and pauli_povm(d) are positive and sum to the identity for every dimension d >= 2.", "quantifier": "all dimensions", "why_tests_cant": "tests check a few dimensions", "anchors": ["mpnum/povm/localpovm.py:x_povm", "mpnum/povm/localpovm.py:y_povm", "mpnum/povm/localpovm.py:z_povm", "mpnum/povm/localpovm.py:pauli_povm"]}
{"id": "C48", "title": "pauli_povm is informationally complete", "statement": "If two matrices give equal probabilities for every element of pauli_povm(d) then they are equal, as its info_complete flag promises.", "quantifier": "all dimensions d >= 2 and all matrices", "why_tests_cant": "rank statement for all d", "anchors": ["mpnum/povm/localpovm.py:pauli_povm"]}
{"id": "C49", "title": "MPPovm probabilities are Born probabilities", "statement": "pmf(state) has entry tr(M_i rho) for the product/matrix-product element M_i, in mps, mpdo and pmps mode; its sum is tr rho when the elements sum to the identity.", "quantifier": "all MPPovms, states and modes", "why_tests_cant": "exponential number of outcomes", "anchors": ["mpnum/povm/mppovm.py:MPPovm.pmf", "mpnum/povm/mppovm.py:MPPovm.expectations"]}
{"id": "C50", "title": "pmf_as_array does not depend on the implementation chosen", "statement": "The pmps-ltr, pmps-symm (for every cut position) and default implementations return the same array.", "quantifier": "all MPPovms and PMPSs", "why_tests_cant": "choice of the cut is a heuristic over sizes", "anchors": ["mpnum/povm/mppovm.py:MPPovm.pmf_as_array", "mpnum/povm/mppovm.py:MPPovm._pmf_as_array_pmps_ltr", "mpnum/povm/mppovm.py:MPPovm._pmf_as_array_pmps_symm"]}
{"id": "C51", "title": "embed, block and repeat of MPPovms", "statement": "embed measures the given sites and nothing elsewhere; block yields one embedding per position; repeat concatenates copies to exactly nr_sites sites.", "quantifier": "all sizes and positions", "why_tests_cant": "position arithmetic", "anchors": ["mpnum/povm/mppovm.py:MPPovm.embed", "mpnum/povm/mppovm.py:MPPovm.block", "mpnum/povm/mppovm.py:MPPovm.repeat"]}
{"id": "C52", "title": "pack_samples and unpack_samples are mutually inverse", "statement": "unpack_samples(pack_samples(s)) = s for every array of valid outcomes and pack_samples(unpack_samples(k)) = k for every valid packed outcome.", "quantifier": "all outcome dimensions and samples", "why_tests_cant": "mixed-radix arithmetic", "anchors": ["mpnum/povm/mppovm.py:MPPovm.pack_samples", "mpnum/povm/mppovm.py:MPPovm.unpack_samples"]}
{"id": "C53", "title": "est_pmf returns the empirical frequencies", "statement": "est_pmf(samples) is non-negative, sums to one and entry i is the relative frequency of i; the order of samples does not matter; the average of entry i over all data sets of independent samples is the probability of i.", "quantifier": "all non-empty sample lists", "why_tests_cant": "unbounded sample sizes", "anchors": ["mpnum/povm/mppovm.py:MPPovm.est_pmf"]}
{"id": "C54", "title": "Conditional sampling draws from the joint distribution", "statement": "The probability that the conditional sampler returns outcome x equals pmf(x), for every group size.", "quantifier": "all pmfs, numbers of sites and group sizes", "why_tests_cant": "statistical tests only detect large deviations", "anchors": ["mpnum/povm/mppovm.py:MPPovm._sample_cond", "mpnum/povm/mppovm.py:MPPovm._sample_cond_single"]}
{"id": "C55", "title": "Linear functional estimators", "statement": "lfun returns the exact mean and a non-negative variance; est_lfun with all-one weights equals est_lfun without weights, integer weights equal repeated samples, and its average over all data sets is the true value.", "quantifier": "all pmfs, sample sets, weights and coefficient functions", "why_tests_cant": "expectation over all data sets", "anchors": ["mpnum/povm/mppovm.py:MPPovm.lfun", "mpnum/povm/mppovm.py:MPPovm.est_lfun"]}
{"id": "C56", "title": "MPPovmList.est_lfun honours its weights", "statement": "MPPovmList.est_lfun(coeff, funs, samples, weights) equals the sum of the estimates of the members with their weights.", "quantifier": "all lists, samples and weights", "why_tests_cant": "no test passes weights", "anchors": ["mpnum/povm/mppovm.py:MPPovmList.est_lfun", "mpnum/povm/mppovm.py:MPPovm.est_lfun"]}
{"id": "C57", "title": "match_elems and est_pmf_from", "statement": "match_elems marks exactly the pairs of proportional elements; est_pmf_from(other, samples) averages the frequencies of matching outcomes and is exact when the samples' frequencies equal the pmf.", "quantifier": "all MPPovms", "why_tests_cant": "combinatorics of unmatched and multiply matched elements", "anchors": ["mpnum/povm/mppovm.py:MPPovm.match_elems", "mpnum/povm/mppovm.py:MPPovm.est_pmf_from"]}
{"id": "C58", "title": "project_pmf returns a probability vector or raises", "statement": "For tolerances 0 <= real_eps < 1, imag_eps >= 0, real_trunc >= 0: project_pmf(values, imag_eps, real_eps, real_trunc) either raises AssertionError (imaginary part too large, value too negative, or sum too far from one) or returns real non-negative values that sum to one; entries above the truncation threshold are unchanged by the non-negativity step, the others become zero. With a negative real_trunc or real_eps >= 1 the result need not be a probability vector.", "quantifier": "all value arrays; all tolerances in the stated range; the range is necessary", "why_tests_cant": "threshold cases", "anchors": ["mpnum/utils/pmf.py:project_nonneg", "mpnum/utils/pmf.py:project_pmf"]}
{"id": "C59", "title": "Cyclic Hamiltonians", "statement": "For N >= 2 two-site terms, mpo_cH(terms) represents sum_{s<N-1} terms[s] on sites (s, s+1) plus terms[-1] with its first tensor on site 0 and its second on site N-1; sparse_cH(terms) is the matrix of the same operator. For a last term symmetric under exchange of its two sites (e.g. the XY model) this is the documented cyclic sum over (s, s+1 mod N); for other terms it is not. No term or one term raises, and so does sparse_cH when the last term is a matrix.", "quantifier": "all chain lengths and terms", "why_tests_cant": "boundary term", "anchors": ["mpnum/utils/physics.py:mpo_cH", "mpnum/utils/physics.py:sparse_cH"]}
{"id": "C60", "title": "eig: the local operator is the compression of the global operator", "statement": "For every local tensor x at the optimised sites, the quadratic form of the local operator built from the left and right environments equals the sandwich of the global operator with the MPS in which x is substituted.", "quantifier": "all MPOs, MPSs, positions and widths", "why_tests_cant": "environment tensors accumulate over the chain", "anchors": ["mpnum/linalg.py:_eig_local_op", "mpnum/linalg.py:_eig_leftvec_add", "mpnum/linalg.py:_eig_rightvec_add"]}
{"id": "C61", "title": "eig: environments are never stale", "statement": "At every step of every sweep the environments used to build the local operator are those of the current eigenvector MPS, whatever the local eigensolver returns, for every number of sweeps and var_sites.", "quantifier": "all sweeps, chain lengths, var_sites and solver results", "why_tests_cant": "schedule of in-place cache updates", "anchors": ["mpnum/linalg.py:eig"]}
{"id": "C62", "title": "Variational compression", "statement": "compress(method='var') uses fresh environments at each local update; each update is the orthogonal projection, so the returned overlap equals inner(original, compressed) after at least one update.", "quantifier": "all MPArrays, var_sites, sweeps", "why_tests_cant": "schedule of cached environments", "anchors": ["mpnum/mparray.py:MPArray._compression_var", "mpnum/mparray.py:MPArray._adapt_to", "mpnum/mparray.py:_adapt_to_add_l", "mpnum/mparray.py:_adapt_to_add_r", "mpnum/mparray.py:_adapt_to_new_lten"]}
{"id": "C63", "title": "dump and load round trip", "statement": "load(dump(mpa)) has the same local tensors and the same canonical_form for every well-formed MPArray whose form lies in the range the constructor accepts (left index below the length, right index above 0), whatever the file held before; into a group with a dataset named like a site dump raises, and load raises KeyError when a site is missing. Forms outside the range, which honest update calls reach, do not survive the round trip.", "quantifier": "all MPArrays", "why_tests_cant": "storage keys for arbitrary lengths", "anchors": ["mpnum/mparray.py:MPArray.dump", "mpnum/mparray.py:MPArray.load"]}
{"id": "C64", "title": "Objects returned by operations are independent of their arguments", "statement": "In-place operations on the result of an operation never change what the argument represents.", "quantifier": "all operations and histories", "why_tests_cant": "aliasing shows only when both objects are used later", "anchors": ["mpnum/mparray.py:MPArray.group_sites", "mpnum/mparray.py:MPArray.__pos__", "mpnum/mparray.py:MPArray.split", "mpnum/mparray.py:MPArray.copy"]}
{"id": "C65", "title": "lfun_from and est_lfun_from weight the estimates as documented", "statement": "With other_weights the estimator is the weighted average, for every non-negative real weight vector.", "quantifier": "all weights", "why_tests_cant": "no test uses fractional weights", "anchors": ["mpnum/povm/mppovm.py:MPPovm._mppl_lfun_estimator", "mpnum/povm/mppovm.py:MPPovmList.lfun_from"]}
{"id": "C66", "title": "Local POVM probability map and concat", "statement": "dot(povm.probability_map, rho.ravel()) gives tr(M_i rho) for every i; concat(povms, weights) sums to the identity when each does and the weights sum to one.", "quantifier": "all POVMs and matrices", "why_tests_cant": "unbounded dims", "anchors": ["mpnum/povm/localpovm.py:POVM.probability_map", "mpnum/povm/localpovm.py:concat"]}
{"id": "C67", "title": "eig_sum agrees with eig on the sum", "statement": "The local operator used by eig_sum for a list of MPOs and pure states equals the local operator eig would use for their sum.", "quantifier": "all lists of MPOs/MPSs", "why_tests_cant": "representation differs (MPS kept as vectors)", "anchors": ["mpnum/linalg.py:_eig_local_op_mps", "mpnum/linalg.py:_eig_sum_minimize_locally", "mpnum/linalg.py:eig_sum"]}
{"id": "C68", "title": "Random factories are reproducible from the random state they are given", "statement": "random_mpa, random_mps, random_mpo, random_mpdo and random_local_ham called twice with the same arguments and with random states in the same state return the same array, whatever the global numpy random state is. (random_local_ham breaks this: it ignores its randstate argument and draws from the global state.)", "quantifier": "for all argument values, all states of the given generator and all global random states", "why_tests_cant": "A test seeds one state and usually the global one too; independence of the global state is a statement about all of its values.", "anchors": ["mpnum/factory.py:24-60", "mpnum/factory.py:177-238", "mpnum/factory.py:407-425"]}
{"id": "C69", "title": "est_pmf_from_mpps averages over several POVMs", "statement": "est_pmf_from_mpps(other, samples) returns for every outcome the mean of the estimates of those members of other that match it, weighted with their numbers of samples used, and the sum of these numbers; it is (nan, 0) exactly where no member matches. Exact frequencies give exact probabilities, and the estimate is unbiased if every outcome counts with the same total factor. MPPovmList.est_pmf_from does this for each member.", "quantifier": "all lists of POVMs, samples and states", "why_tests_cant": "combinations of matching and non-matching members; mean over all data sets", "anchors": ["mpnum/povm/mppovm.py:MPPovm.est_pmf_from_mpps", "mpnum/povm/mppovm.py:MPPovmList.est_pmf_from"]}
{"id": "C70", "title": "The Pauli POVMs on several sites are complete and informationally complete", "statement": "pauli_mpp(n, d) is the n-fold tensor product of pauli_povm(d), and pauli_mpps(n, d) lists all combinations of the X, Y (and, for qubits, Z) POVMs in lexicographic order; the elements of each are positive and add up to the identity; the probabilities of all outcomes determine the state; the elements of pauli_mpp are those of pauli_mpps divided by the number of parts per site. Dimensions that need more than 255 outcomes per site (12 and more, 17 and more) and dimensions below 2 are refused with AssertionError.", "quantifier": "all numbers of sites and all local dimensions", "why_tests_cant": "informational completeness speaks about all pairs of matrices, completeness about every number of sites; tests use two or three qubits", "anchors": ["mpnum/povm/mppovm.py:pauli_mpp", "mpnum/povm/mppovm.py:pauli_mpps", "mpnum/povm/localpovm.py:pauli_parts"]}
{"id": "C71", "title": "randomized_svd returns orthonormal frames with an exactly known error, and a truncated SVD if the sketch captures the matrix", "statement": "For every non-empty m x n matrix, randomized_svd(M, k, p, ...) returns u, s, v with min(k, m, n) real weights; the columns of u and the rows of v are orthonormal; u^H M = s v (M v^H = u s after a transposition); the squared Frobenius error of u s v is that of M minus the sum of the squared weights. If the sketch captures the matrix - M (M^H M)^q Omega X = M for some X, which holds for rank at most k + p and draws in general position - the result is a truncated SVD of M: both equations hold and u s v = M if k >= min(m, n). The power iterations do not spoil the capture, with any normalizer. Other dtypes than float and complex raise ValueError.", "quantifier": "all matrices, draws, numbers of components, oversamples and iterations, normalizers and transposition flags", "why_tests_cant": "the tests draw a few random matrices and compare with a tolerance; the statement holds for every draw, also degenerate ones", "anchors": ["mpnum/utils/extmath.py:randomized_svd", "mpnum/utils/extmath.py:approx_range_finder"]}
{"id": "C72", "title": "block_pmfs_as_array returns the Born probabilities of the reduced states on all blocks", "statement": "For an MPPovm with positive elements that sum to the identity and a normalised state (as mps, mpdo or pmps), block_pmfs_as_array(state, mode) yields one array per block of len(povm) neighbouring sites, from left to right; each is a probability distribution and contains the Born probabilities of the POVM in the partial trace of the state over all other sites. The same holds for given start and stop sites. For equal local dimensions the arrays are those that pmf_as_array returns for the POVMs of block(). The mode 'auto' and unknown modes raise ValueError. A POVM longer than the chain gives an empty result.", "quantifier": "all POVMs, states, modes, block positions and tolerances", "why_tests_cant": "the tests take random states on short chains and compare two implementations; positivity, normalisation and the agreement with embedding are claims about every state and every POVM", "anchors": ["mpnum/povm/mppovm.py:block_pmfs_as_array", "mpnum/povm/mppovm.py:pmfs_as_array", "mpnum/mpsmpo.py:reductions"]}
{"id": "C73", "title": "The constructors accept exactly the lists of tensors whose neighbouring bonds agree", "statement": "LocalTensors(ltens, cform) succeeds if and only if the list is non-empty, the requested canonical form (None or 0 meaning the default) lies within the chain, and for all neighbours the last axis of the left tensor is as long as the first axis of the right one; the result holds these tensors and this form. Otherwise AssertionError is raised, or IndexError if the first pair that does not fit contains a tensor without axes. MPArray(ltens) with tensors of at least two axes and outer bonds of dimension one is a valid MPArray that reports no canonical part. copy() returns an equal MPArray. Outer bonds and the number of axes are not checked.", "quantifier": "all lists of tensors and all canonical forms", "why_tests_cant": "no test calls the constructor with invalid arguments; the set of accepted arguments is infinite", "anchors": ["mpnum/mpstruct.py:LocalTensors.__init__", "mpnum/mparray.py:MPArray.__init__", "mpnum/mpstruct.py:LocalTensors.copy"]}
{"id": "C74", "title": "linear_inversion_map reconstructs states by least squares and recovers them when the POVM is informationally complete", "statement": "With a pseudo-inverse routine that meets the four Penrose equations or raises LinAlgError, linear_inversion_map of a POVM with n elements on a d-dimensional system returns a (d*d) x n matrix b (or raises LinAlgError). For the probabilities p of a matrix rho, b.p reshaped to d x d has the same probabilities as rho and the least Frobenius norm among all matrices with these probabilities; for arbitrary data f, b.f is a least-squares fit to f; if the POVM separates matrices (informational completeness), b.p equals rho exactly, in particular for pauli_povm in every dimension; with Hermitian elements and real data the reconstruction is Hermitian. The map does not depend on the routine used. For x_povm(2) states are not recovered. Element arrays that do not have three axes raise ValueError.", "quantifier": "all dimensions, all POVM element arrays, all matrices, all data vectors, all sound pseudo-inverse routines", "why_tests_cant": "tests check the reconstruction for a few dimensions and random states with floating point tolerance; least squares and least norm quantify over all matrices", "anchors": ["mpnum/povm/localpovm.py:POVM.linear_inversion_map", "mpnum/povm/localpovm.py:POVM.probability_map"]}
{"id": "C75", "title": "cXY_E0 is the ground state energy of the cyclic XY model exactly for |gamma| <= 1", "statement": "cXY_E0(N, gamma) raises ValueError exactly if N is not an odd multiple of two, and otherwise returns -1/2 times the sum of sqrt(cos(k)^2 + gamma^2 sin(k)^2) over the N angles k = 2 pi l / N (0 for negative N). The value is even in gamma, decreases with |gamma| and lies between -N/2 max(1,|gamma|) and -N/2 min(1,|gamma|). If |gamma| <= 1 it is the ground state energy of the Hamiltonian mpo_cH(cXY_local_terms(N, gamma)): an eigenvalue, and no vector has a smaller expectation value. If |gamma| > 1 it is larger than the ground state energy, which then is the same sum over the angles (2 l + 1) pi / N.", "quantifier": "all integers N and all real gamma", "why_tests_cant": "tests compare with numerical diagonalisation for a few N and the values -0.5, 0.1, 1.0 of gamma; they do not notice that the documented claim fails for |gamma| > 1", "anchors": ["mpnum/utils/physics.py:cXY_E0", "mpnum/utils/physics.py:cXY_local_terms", "mpnum/utils/physics.py:mpo_cH"]}
{"id": "C76", "title": "Which arguments are rejected and with which error; legs of dimension one are repeated", "statement": "get, transpose, sum, +, dot, inner, localouter, partialtrace, trace, diag, lt.update with a slice, embed_slice, sumup, chain, local_sum, group_sites, regular_slices and block_diag raise for arguments outside their domain: an axis or index out of range, a repeated axis, legs of unequal dimension or number, chains of unequal length, empty lists and zero divisors, with the error (AssertionError, ValueError, IndexError, ZeroDivisionError) determined by the first site that fails. The exception is repetition: adding arrays on one site, adding the inner sites of longer chains, and block_diag accept legs of dimension one and repeat them, and the entries are those of the repeated arrays. lt.update with any slice, negative bounds and steps included, writes the k-th tensor to the k-th site the slice selects and leaves the other sites alone.", "quantifier": "all arrays with any number of sites, legs and any bond dimensions, all integer axes and all slices", "why_tests_cant": "the tests contain a single pytest.raises; they cannot enumerate the arguments to be rejected, and no test adds arrays of different shapes", "anchors": ["mpnum/mparray.py:MPArray.get", "mpnum/mparray.py:MPArray.transpose", "mpnum/mparray.py:MPArray.sum", "mpnum/mparray.py:MPArray.__add__", "mpnum/mparray.py:dot", "mpnum/mparray.py:inner", "mpnum/mparray.py:partialtrace", "mpnum/mparray.py:diag", "mpnum/mparray.py:embed_slice", "mpnum/mparray.py:local_sum", "mpnum/mpstruct.py:LocalTensors.update", "mpnum/utils/extmath.py:block_diag"]}
{"id": "C77", "title": "A call that raises leaves a consistent object", "statement": "lt.update with an index or a slice writes nothing if it raises. canonicalize, norm, compress (method 'svd') and singularvals, when they raise, leave the object valid: the local tensors fit, the shape is the same, no rank has grown, and the recorded canonical form is in range and true. canonicalize, norm and singularvals leave the same array represented whether or not they raise; canonicalize rejects invalid arguments before anything is written. compress leaves an orthogonal projection of the original array (squared distance = difference of squared norms), the same array if rank and relerr permit keeping everything, and the same array after errors in its arguments (ValueError for the direction with nothing written, AssertionError for rank 0). That an interrupted compress leaves the represented array unchanged is false.", "quantifier": "all valid MPAs with any number of sites, legs and ranks, all arguments, all sound QR and SVD routines that may raise LinAlgError for any set of matrices, every point of interruption", "why_tests_cant": "numpy's factorisations practically never fail in a test, and no test inspects an object after an exception", "anchors": ["mpnum/mpstruct.py:LocalTensors.update", "mpnum/mpstruct.py:LocalTensors._update", "mpnum/mparray.py:MPArray.canonicalize", "mpnum/mparray.py:MPArray._rcanonicalize", "mpnum/mparray.py:MPArray._lcanonicalize", "mpnum/mparray.py:MPArray._compress_svd", "mpnum/mparray.py:MPArray.singularvals", "mpnum/mparray.py:norm"]}
{"id": "C78", "title": "SVD compression is quasi-optimal", "statement": "The array that compress(method='svd', rank=r) leaves is a near-best approximation: its squared distance to the original is at most the sum over the bonds j of the squared distances of arrays Y_j of the same shape, where each Y_j is only required to have rank at most r at bond j. Hence no MPA of ranks at most r is closer to the original by more than the factor sqrt(N-1), and on two sites none is closer at all. With relerr the same holds among the MPAs whose ranks do not exceed those of the result.", "quantifier": "all valid MPAs with at least two sites, any number of legs and any ranks, all ranks r > 0, all relerr, both directions, all sound QR routines and all sound SVD routines with values in descending order, all competitors", "why_tests_cant": "the claim compares the result with every array of bounded rank, a set that no test can enumerate; the tests only compare with a dense reference implementation of the same algorithm", "anchors": ["mpnum/mparray.py:MPArray.compress", "mpnum/mparray.py:MPArray._compress_svd", "mpnum/mparray.py:MPArray._compress_svd_l", "mpnum/mparray.py:MPArray._compress_svd_r", "mpnum/utils/extmath.py:truncated_svd"]}
{"id": "C79", "title": "SVD compression is independent of the factorisations and agrees with the dense reference", "statement": "If at every bond the last singular value kept is larger than the first value dropped, or the dropped values vanish, then compress(method='svd') with rank or relerr gives the same array and the same overlap for every correct QR and SVD routine and for every MPA (in any canonical form) that represents the same array; for one leg per site it is the array that the dense reference _testing.compression_svd computes with any correct SVD routine, which is the comparison made in the test suite. Without the separation this is false. singularvals returns the same values (up to zeros at the end) for every representation of the array and all correct routines. The reference returns the projectors it promises only for direction='right'.", "quantifier": "all valid MPAs with at least two sites and any ranks, all ranks r > 0, all relerr, both directions, all sound QR routines and sound SVD routines with values in descending order", "why_tests_cant": "the test runs one SVD implementation on random arrays, compares to a few digits, and cannot vary the gauge of the singular vectors", "anchors": ["mpnum/mparray.py:MPArray._compress_svd", "mpnum/mparray.py:MPArray.singularvals", "mpnum/_testing.py:compression_svd"]}
{"id": "C80", "title": "eig returns the expectation value, an upper bound, and never gets worse than its start", "statement": "With var_sites=1, eig(mpo, ...) returns a normalised MPS y and the value <y|mpo|y>; eig_sum returns the sum of the expectation values of the MPOs and of the squared overlaps with the MPSs of the list. If the local solver finds the best eigenpair (smallest, largest, or largest in magnitude), the value is at least as good as the Rayleigh quotient of the start vector, for any number of sweeps. With any var_sites the value is the expectation value of a normalised vector z of which the returned y is the truncation, <y,z> = <y,y>: the norm of y is at most one, |y - z|^2 = 1 - |y|^2, the value is <y|mpo|y> if y has norm one, and it never lies below the smallest eigenvalue. The ranks of y do not exceed the largest rank of the start vector. That the value is the expectation value of y whenever var_sites > 1 is false.", "quantifier": "all MPOs (or lists of MPOs and MPSs) on any sites, all start vectors in true canonical form, all num_sweeps, all var_sites, all sound QR and SVD routines and all eigensolvers that return eigenpairs of Hermitian matrices (or of all matrices)", "why_tests_cant": "tests compare with dense diagonalisation on a few random Hamiltonians for which the sweeps converge and the truncation is negligible; they do not see runs that have not converged, truncation in the last step, or other eigensolvers", "anchors": ["mpnum/linalg.py:296-333", "mpnum/linalg.py:353-511", "mpnum/linalg.py:514-666"]}
{"id": "C81", "title": "Variational compression never moves away from the original", "statement": "compress(method='var') with var_sites 1 or 2: the result is at least as close to the original (2-norm of the difference of the dense arrays) as the start, given or random; with more sweeps the distance does not grow and the returned overlap does not decrease. Every update of one site gives the closest state among all states that agree with the current one outside of the site; every update of two sites the closest one among those whose ranks do not exceed the largest rank of the start. A start that represents the original stays exact, and a start produced by compress(method='svd', rank=r) gives a result within the factor sqrt(N-1) of every array of ranks at most r.", "quantifier": "all complex MPArrays on any sites, all starts of the same shape in true canonical form, all ranks, all numbers of sweeps, all sound QR routines and all SVD routines that return sorted singular values", "why_tests_cant": "the tests compare the final overlap of a few random arrays with a dense reference to a tolerance after enough sweeps; they say nothing on runs that have not converged, on the single updates, on poor starts, or on the monotonicity in num_sweeps", "anchors": ["mpnum/mparray.py:861-899", "mpnum/mparray.py:1015-1112", "mpnum/mparray.py:1927-2001"]}
{"id": "C82", "title": "Compression with relerr removes every superfluous bond dimension", "statement": "compress(method='svd', relerr=e) never leaves a rank, at any bond, that is larger than the rank of some other MPArray representing the same array as the original. With relerr=0 the represented array is unchanged, so that the result has the smallest ranks of all MPArrays of this value; these ranks do not depend on the representation, the direction or the factorisation routines, and the rank of a bond is the number of values yielded by singularvals() there that do not vanish. (With rank= alone vanishing singular values are kept.)", "quantifier": "all complex MPArrays with at least two sites in a true canonical form, all relerr and rank arguments, both directions, all sound QR routines and SVD routines that return sorted singular values, all MPArrays of the same value", "why_tests_cant": "the tests compress random arrays whose ranks are generically minimal, or compare with a dense reference of the same bond; no test compares the ranks with all other representations", "anchors": ["mpnum/mparray.py:830-859", "mpnum/mparray.py:901-962", "mpnum/mparray.py:964-1013"]}
{"id": "C83", "title": "norm and normdist are the Hilbert-space norm and metric belonging to inner", "statement": "norm returns the non-negative real number whose square is inner(x, x); it vanishes only for the zero array. |inner(x, y)| <= norm(x) norm(y), norm(x + y) <= norm(x) + norm(y), norm(f * x) = |f| norm(x). normdist is a metric on the represented arrays: it is zero exactly when both MPArrays represent the same array (whatever their local tensors), it is symmetric and satisfies the triangle inequality, and |norm(x) - norm(y)| <= normdist(x, y). The alternative implementation that is commented out in normdist, sqrt(norm(x)**2 + norm(y)**2 - 2 Re inner(x, y)), returns the same number.", "quantifier": "all complex MPArrays of the same shape in a true canonical form, all numbers f, all sound QR routines", "why_tests_cant": "the tests compare norm and normdist with numpy for sampled arrays; the inequalities and the separation of different arrays concern all pairs and triples of MPArrays", "anchors": ["mpnum/mparray.py:1416-1435", "mpnum/mparray.py:1438-1450", "mpnum/mparray.py:1237-1254"]}
{"id": "C84", "title": "The squares of the singular values are the spectrum of the reduced states", "statement": "For a pure state given as an MPS, the squares of the numbers which singularvals() yields for a cut are the eigenvalues of the reduced states which reductions_mps_as_mpo() yields for the sites left and right of the cut: both reduced states are sum_c s_c^2 |u_c><u_c| with orthonormal vectors, namely the Schmidt vectors of the state, and vanish on everything orthogonal to these. Hence both have the trace norm(x)^2 and the same purity sum_c s_c^4.", "quantifier": "all MPS with at least two sites in a true canonical form, all local dimensions and ranks, every cut, all sound QR and SVD routines", "why_tests_cant": "singularvals and the reductions are computed by separate code (SVD sweep and contraction of the purification) and tested separately on sampled states; the agreement concerns every state and every cut", "anchors": ["mpnum/mparray.py:964-1013", "mpnum/mpsmpo.py:reductions_mps_as_mpo", "mpnum/mpsmpo.py:reductions_pmps", "mpnum/mpsmpo.py:pmps_to_mpo"]}
{"id": "C85", "title": "The expectation value of a sum of local operators is determined by the reduced states", "statement": "If H = local_sum(h_1, ..., h_m) places the operators h_j on given windows of the chain, then sandwich(H, x) is the sum of tr(h_j rho_j) with the states rho_j which reductions_mps_as_mpo(x) yields for the same windows; the two ways to compute an energy agree for every choice of windows, overlapping or not, in any order.", "quantifier": "all MPS with equal local dimensions, all lists of local operators of any widths and ranks, all lists of windows inside the chain, all sound QR routines", "why_tests_cant": "local_sum chooses between two constructions depending on the windows, and the reductions are computed by other code; the tests compare each with dense arrays for a few windows", "anchors": ["mpnum/mparray.py:local_sum", "mpnum/mparray.py:sandwich", "mpnum/mpsmpo.py:334-346"]}
{"id": "C86", "title": "MPOs form an operator algebra: products, adjoints and traces obey the laws of linear operators", "statement": "For MPOs with matching dimensions, square or rectangular: dot is associative, dot(dot(a, b), v) equals dot(a, dot(b, v)) for an MPS v, mpo eye is neutral on both sides, a.adj() taken twice gives a, dot(a, b).adj() equals dot(b.adj(), a.adj()), inner(dot(a, v), w) = inner(v, dot(a.adj(), w)), trace(dot(a, b)) = trace(dot(b, a)), and inner(a, b) = trace(dot(a.adj(), b)). dot distributes over sums, the trace is linear, dot of chains is the chain of the dots, and the trace of a chain is the product of the traces. All these calls succeed.", "quantifier": "all MPOs and MPSs of any length, any site dependent dimensions and any ranks, over any commutative ring with conjugation", "why_tests_cant": "each law relates several functions (dot, adj, inner, trace, eye) for all shapes; the tests compare single calls with dense arrays, mostly for square operators with equal dimensions on all sites", "anchors": ["mpnum/mparray.py:1118-1151", "mpnum/mparray.py:339", "mpnum/mparray.py:1237", "mpnum/mparray.py:1550", "mpnum/factory.py:eye"]}
{"id": "C87", "title": "Reductions of states are states and are consistent with each other", "statement": "reductions_mpo keeps the trace, hermiticity and positivity of an MPO for every window, and reducing a reduction to a smaller window yields the same operator as reducing once. The operators which reductions_mps_as_mpo yields for an MPS x, and the operator pmps_to_mpo(x) of a PMPS x, are hermitian and positive semidefinite and have trace <x|x>. Every PMPS z which reductions_pmps(x) yields has <z|z> = <x|x>. sandwich(h, x) is real for every hermitian MPO h and not negative for every positive one.", "quantifier": "all MPOs, MPSs and PMPSs of any length, dimensions and ranks, all lists of windows, all nested pairs of windows, all sound QR routines; positivity over the complex numbers, the rest over any commutative ring with conjugation", "why_tests_cant": "the tests compare single reductions of random states with dense partial traces; positivity quantifies over all vectors and consistency over all nested windows", "anchors": ["mpnum/mpsmpo.py:reductions_mpo", "mpnum/mpsmpo.py:reductions_mps_as_mpo", "mpnum/mpsmpo.py:pmps_to_mpo", "mpnum/mparray.py:1550", "mpnum/mparray.py:sandwich"]}
{"id": "C88", "title": "Positive operators stay positive", "statement": "For every MPO a, dot(a, a.adj()) and dot(a.adj(), a) are positive semidefinite. If r is positive so is a r a.adj(). Sums, multiples with a nonnegative factor and tensor products (chain) of positive MPOs are positive, and the trace of the product of two positive MPOs is real and not negative.", "quantifier": "all complex MPOs of any length, site dimensions (also rectangular for a) and ranks; for multiples, all valid recorded canonical forms", "why_tests_cant": "positivity quantifies over all vectors, and the tests compare single random operators with dense matrices", "anchors": ["mpnum/mparray.py:dot", "mpnum/mparray.py:MPArray.adj", "mpnum/mparray.py:MPArray.__add__", "mpnum/mparray.py:MPArray.__mul__", "mpnum/mparray.py:chain", "mpnum/mparray.py:trace"]}
