# Formal model of mpnum in Rocq: design

## Trusted base

* The Coq 8.16.1 kernel (and `coqchk`).
* Nothing is axiomatised by this development.  Theorems about algebra are stated over an arbitrary
  commutative ring with an involution (`StarRing`) and need no axiom.  Theorems about square
  roots, order, probabilities and POVMs over the complex numbers use Coq's real numbers and the
  axioms the standard library has for them.  The section "Assumptions" lists what
  `Print Assumptions` prints for each theorem.
* The reading of the Python source.  The code cannot be run here.  Every definition of a model
  file cites the file and the lines it models; where it simplifies, the comment says so.
* The meaning given to numpy's primitives (`NdArray.v`): transpose, reshape, tensordot, rollaxis,
  concatenate, trace, sum, `ravel_multi_index`, ... as documented by numpy, including the cases in
  which they raise.

## What is modelled and what is not

Modelled: index arithmetic, tensor contractions, control flow, error branches (exceptions are
values, `res`), canonical form bookkeeping and caches, in exact arithmetic.

| model file | code |
|------------|------|
| `PyBase`, `NdArray` | Python list indexing and slices; numpy primitives |
| `MpStruct` | `mpstruct.py`: LocalTensors |
| `MpArray` | `mparray.py`: construction, conversion, algebra, legs, sites, sums, traces; `utils/array_transforms.py`; `utils/extmath.py`: `block_diag` |
| `MpCanon` | `mparray.py`: `from_array`, `canonicalize`, `norm`, `normdist`, `compress('svd')`, `compression`, `singularvals`, `split_sites`; `extmath.py`: `truncated_svd` |
| `TestRef` | `_testing.py`: `compression_svd` (dense reference of the tests) |
| `ObjState` | the in-place methods of `MpStruct` and `MpCanon` again, with the state left by a call that raises |
| `Linalg` | `linalg.py`: `eig`, `eig_sum`; `mparray.py`: `sandwich`, `compress('var')`, `_adapt_to` |
| `MpsMpo` | `mpsmpo.py` |
| `NamedNd` | `_named_ndarray.py` |
| `ExtMath` | `extmath.py`: `partial_trace`, `mkron`, `verticalize` |
| `Factory` | `factory.py` |
| `Special` | `special.py` |
| `Store` | `MPArray.dump`, `MPArray.load` |
| `Physics` | `utils/physics.py` without `cXY_E0` |
| `CxyE0` | `utils/physics.py`: `cXY_E0` |
| `LocalPovm` | `povm/localpovm.py` |
| `Pmf` | `utils/pmf.py` |
| `MpPovm`, `PovmArr` | `povm/mppovm.py`: MPPovm (constructor, elements, embedding, blocks, probabilities), MPPovmList (structure, `pmf`) |
| `Sampling` | `povm/mppovm.py`: samplers |
| `Estim` | `povm/mppovm.py`: packing, `est_pmf`, `lfun`, `est_lfun` and their list versions |
| `Match` | `povm/mppovm.py`: `match_elems`, `est_pmf_from`, `est_pmf_from_mpps`, `lfun_from`, `est_lfun_from` |
| `Heap` | which LocalTensors object each MPArray refers to, for the operations of `mparray.py` |
| `PauliMpp` | `povm/mppovm.py`: `pauli_mpp`, `pauli_mpps` |
| `LinInv` | `povm/localpovm.py`: `POVM.linear_inversion_map` |
| `RandSvd` | `utils/extmath.py`: `_standard_normal`, `approx_range_finder`, `randomized_svd` on arrays |
| `RelErr` | the argument relerr of the SVD compression as a real number: `mparray.py` 908-922, 939-953 |
| `NormReal` | `norm` and `normdist` with the real numbers they return (`MpCanon` has their squares): `mparray.py` 1416-1450, with the alternative of `normdist` that is commented out there |

Not modelled:

* floating point rounding, dtypes and their ranges (except the ranges used by `pack_samples` and
  `random_*` sizes), memory layout and numpy buffers (the local tensors are read-only views,
  `mpstruct.py` 14-18; code that writes to the original buffer is outside the model); `nan` and the infinities are modelled where estimators use
  them (`flt`);
* the dynamic class of results (`astype`, subclass dispatch), performance, Python version issues
  (`collections.Iterable`, h5py's `.value`), `__repr__`, deprecated aliases;
* the state an object is left in by a call that raises, except for `lt.update`, `canonicalize`, `norm`,
  `compress('svd')` and `singularvals` (`ObjState`, C77).  (The other in-place methods are functions from the
  old state to the new state or an exception.)
* linear operators other than arrays in `randomized_svd`, the plotting and test helpers.

## Oracles

External routines are parameters.  Each theorem quantifies over them; the hypotheses are the
documented behaviour, and examples show that they can be met.

| parameter | code | hypothesis |
|-----------|------|------------|
| `qr` | `numpy.linalg.qr` | `qr_sound`: a returned pair has `A = QR`, `Q^H Q = 1`, `k = min(m, n)`; other results are `LinAlgError` |
| `svd` | `numpy.linalg.svd` | `svd_sound`: `A = U S V`, `U^H U = 1`, `V V^H = 1`; `C27_relerr` also assumes non-negative values in descending order, as numpy documents |
| `tsvd` | `truncated_svd` as used by `special.sumup` | `tsvd_sound`, `tsvd_full` |
| `lu`, `thin_svd`, `draw` | `linalg.lu(permute_l=True)`, `linalg.svd(full_matrices=False)`, `_standard_normal` in `randomized_svd` | `lu_sound`: `A = L U`, `k = min(m, n)`; `thin_sound`: reduced SVD; no hypothesis on the draws |
| `pinv` | `np.linalg.pinv` (or the routine given to the POVM) in `linear_inversion_map` | `pinv_sound`: an n x m matrix satisfying the four Penrose equations, or `LinAlgError` |
| `eigs` | the eigensolver argument of `eig` | `eigs_wf`: shape of the result only |
| `sqrt_`, `inv`, `phase`, `sqr` | square roots, reciprocals, phases in `norm`, `random_*` | exactness, stated with each theorem |
| streams | `randstate.normal` ... | none: for every stream of draws |
| `rng.choice` | sampling | a draw is a distribution (`Dist.v`): outcome `k` with probability `p_k` |
| `ki`, `rsq`, `frac`, `close1` | constants of `localpovm.py` | their defining equations; over `CS` they are the complex numbers |

Results that depend on an oracle have the form `outc F r P`: the call returns a value with `P`, or
it raises `LinAlgError` and the oracle can fail (`F`).

## Layers

1. `Scalar`, `Gauss`, `Cplx`: star rings, finite sums; Gaussian integers (executable, for the
   examples); complex numbers `CS` and real numbers `RS`.
2. `Index`: shapes, row-major ravel/unravel, permutations of axes.
3. `NdArray`, `NdFacts`: numpy arrays as a shape and a flat row-major list.
4. Model files (table above): one function per Python function, in the order of the code.
5. Specification, independent of the model's helpers: `Chain` and `Dense` (entries of a chain of
   local tensors as explicit sums over bond indices: `entry`, `amp`; validity `mpa_ok`),
   `CanonSpec` (isometries, truth of a canonical form, oracles), `PfKronPovm`/`PfPovmArr`
   (`elem_of`, `psd_elems`, `sums_to_id`, `mpsd`, `born_prob`), `Dist`/`PfDist` (`iid`),
   `PfMean` (means and variances), `PfTrunc` (`truncs`: truncated decompositions), `PfRelErr`
   (`least_number`), `PfCxyE0` (`ground_energy`), `PfErrors*` (`in_range`, `compat`, `selects`), `PfLfunFrom`/`PfLfunVal`/`PfLfunEst` (measurements, data sets).
6. `Pf*`: proofs.  `Props_*`: the property theorems with `Print Assumptions` and an example
   meeting their hypotheses.


## Properties: model, status, theorems

The statements are in `properties.jsonl`; the theorems of a property are those named `Cnn_...`
in the file given.  `_refuted` marks a proof that a clause is false of the model, `_partial` a
proof of a part.

| id | modelled code | status | file | theorems |
|----|------|------|------|------|
| C01 | `_ltens_to_array`, `matdot`, `to_array` | proved: all indices of to_array and its shape | `Props_Algebra` | 1 |
| C02 | `_extract_factors`, `from_array` with QR oracle | partial: proved for every split whose last group has legs; trailing groups without legs are dropped (C02_trailing_sites_refuted), ndims=0 does not return | `Props_Canon` | 7 (`trailing_sites_refuted`, `ndims_zero_refuted`) |
| C03 | `global_to_local`, `local_to_global` | proved | `Props_Build`, `Props_Canon` | 4 |
| C04 | `from_kron` | proved | `Props_Algebra` | 2 |
| C05 | `__add__`, `__sub__`, `_local_add` | proved | `Props_Algebra` | 3 |
| C06 | `__mul__`, `__imul__`, `__neg__`, division | partial: entrywise for every input; truth of the form for non-overlapping regions (l < r) and for *= always; refuted for * with overlapping regions (C06_mul_overlap_refuted) | `Props_Algebra` | 5 (`mul_overlap_refuted`) |
| C07 | `sumup`, `_local_add` | proved | `Props_Algebra` | 1 |
| C08 | `dot`, `_local_dot` | proved | `Props_Algebra` | 1 |
| C09 | `partialdot` | partial: proved for every window that fits; the clause "windows that do not fit are rejected" is refuted | `Props_Algebra` | 3 (`window_overflow_refuted`) |
| C10 | `inner` | proved | `Props_Algebra` | 3 |
| C11 | `sandwich` | proved: chains of equal length; other lengths are silently truncated (C11_length_refuted) | `Props_Linalg` | 4 (`length_refuted`) |
| C12 | `chain`, `localouter` | proved | `Props_Algebra` | 3 |
| C13 | `transpose`, `T`, `conj`, `adj` | proved | `Props_Legs` | 3 |
| C14 | `sum` | partial: proved for non-negative axes; None as first per-site entry and negative axes are refuted | `Props_Legs` | 3 (`none_first_refuted`, `negative_axis_refuted`) |
| C15 | `get`, `axis_iter`, `diag` | partial: proved; the documented order of axis_iter is refuted (last site varies fastest) | `Props_Legs` | 5 (`axis_iter_order_refuted`) |
| C16 | `reshape`, `ravel` | proved | `Props_Legs` | 8 (`reshape_short_refuted`) |
| C17 | `group_sites`, `split_sites` | partial: proved when sites have legs; sites without legs come back merged (C17_no_legs_refuted) | `Props_Canon`, `Props_Legs` | 5 (`no_legs_refuted`) |
| C18 | `vleg2leg`, `leg2vleg` | proved | `Props_Legs` | 5 |
| C19 | all operations passing `cform` | partial: proved for copy, mul, imul, neg, conj, transpose here, reshape/ravel/vleg2leg/split in C16, C18, C20, load in C63; leg2vleg refuted | `Props_Canon`, `Props_Legs` | 3 (`leg2vleg_form_refuted`) |
| C20 | `split`, `reverse` | partial: proved for every interior and outside position; split at the last site raises IndexError (refuted) | `Props_Legs` | 4 (`split_last_refuted`) |
| C21 | `canonicalize` with QR oracle | proved | `Props_Canon` | 1 |
| C22 | `canonicalize` argument handling | proved | `Props_Canon` | 2 |
| C23 | state machine of in-place operations | partial: proved for histories in which no flagged update is made while the canonical regions touch; without this the claim is refuted (C23_honest_updates_refuted) | `Props_Canon` | 2 (`honest_updates_refuted`) |
| C24 | `LocalTensors.update` | partial: proved for non-negative indices and contiguous slices with as many tensors; negative indices, string flags on slices and other slices are refuted | `Props_Canon` | 6 (`negative_index_refuted`, `slice_count_refuted`, `string_flag_refuted`) |
| C25 | `norm`, `normdist` | partial: proved for every constructible form (cform_ok); after an update that marks all sites left-canonical norm raises ValueError (refuted) | `Props_Canon` | 4 (`norm_raises_refuted`) |
| C26 | `_compress_svd_{l,r}` with SVD oracle | proved | `Props_Canon` | 4 |
| C27 | `_compress_svd_l`, `_compress_svd_r` (901-962), relerr over R | proved: relerr: over the complex numbers, for singular values that are non-negative and sorted as numpy documents; the number kept is the least possible, at least 1, limited by rank | `Props_Canon`, `Props_RelErr` | 8 |
| C28 | `compress`, `compression` | proved | `Props_Canon` | 2 |
| C29 | `singularvals` | proved | `Props_Canon` | 2 |
| C30 | `pad_ranks` | proved: pad_ranks without rank on one site raises ValueError | `Props_Legs` | 2 |
| C31 | `inject` | proved | `Props_Build` | 2 |
| C32 | `prune` | proved | `Props_Legs` | 3 |
| C33 | `partialtrace`, `trace` | proved | `Props_Legs` | 2 |
| C34 | `regular_slices`, `embed_slice` | proved | `Props_Build` | 4 |
| C35 | `local_sum`, `_local_sum_identity` | proved | `Props_Build` | 2 |
| C36 | `block_diag`, `_local_add` | proved | `Props_Build` | 2 |
| C37 | `full_rank` | proved | `Props_Build`, `Props_Canon` | 5 |
| C38 | `reductions_mpo` | proved: windows inside the chain; what happens for others is stated (C38_negative_start_refuted) | `Props_States` | 5 (`negative_start_refuted`) |
| C39 | `reductions_pmps` | proved: windows inside the chain; `reductions` returns results that represent the partial traces in the mode it returns (C39_dispatch); a negative first site is accepted and gives a wrong chain (C39_negative_start_refuted) | `Props_States` | 9 (`negative_start_refuted`) |
| C40 | conversions | proved | `Props_States` | 6 |
| C41 | `pmps_dm_to_array`, `pmps_reduction` | proved: supports without repetition; a repeated site defeats the trace (C41_duplicate_support_refuted) | `Props_States` | 6 (`duplicate_support_refuted`) |
| C42 | `eye`, `zero`, `diagonal_mpa` | proved | `Props_Factory` | 6 |
| C43 | `_generate`, `random_*` with a stream oracle | proved: for every stream of draws of the right shape; normalisation under the stated exactness of sqrt and division; C43_long_ranks_refuted: without force_rank a too long list of ranks is cut silently | `Props_Factory` | 12 (`long_ranks_refuted`) |
| C44 | `named_ndarray` | proved | `Props_Linalg` | 9 |
| C45 | `special` | proved: sumup for product tensors and exact truncated SVD; C45_inner_prod_length_refuted: different lengths are not noticed | `Props_Factory` | 7 (`inner_prod_length_refuted`) |
| C46 | dense helpers | proved: partial_trace for ascending sites, as documented | `Props_Factory`, `Props_Kron` | 9 |
| C47 | `x_povm` ... | proved | `Props_Povm` | 8 |
| C48 | `pauli_povm` | proved | `Props_Povm` | 2 |
| C49 | `pmf` | proved | `Props_MpPovm` | 11 |
| C50 | pmf implementations | proved | `Props_MpPovm` | 8 |
| C51 | `embed`, `block`, `repeat` | partial: embed, block and whole-number repeat proved, with error cases; embed with a negative startsite and the gauge independence of a partial repeat are refuted | `Props_MpPovm` | 12 (`embed_negative_refuted`, `repeat_gauge_refuted`) |
| C52 | pack/unpack | proved | `Props_Estim` | 4 |
| C53 | `est_pmf` | proved | `Props_Estim` | 6 |
| C54 | conditional sampler | proved | `Props_Sample` | 8 |
| C55 | estimators | proved: total weight above one; at most one sample raises ZeroDivisionError, total weight below one is refused or clipped (stated) | `Props_Estim`, `Props_Lfun` | 15 |
| C56 | `MPPovmList.est_lfun` | partial: without weights the claim is proved; weights are ignored (C56_weights_refuted) | `Props_Estim` | 2 (`weights_refuted`) |
| C57 | `match_elems`, `est_pmf_from` | partial: match_elems proved; est_pmf_from gives the exact and unbiased probabilities when no element matches twice; with duplicates the frequencies are added instead of averaged (C57_duplicates_refuted), with unmatched elements possible data are refused (C57_unmatched_refuted) | `Props_Match` | 13 (`duplicates_refuted`, `unmatched_refuted`) |
| C58 | `project_pmf` | proved: proved for tolerances in the stated range; refuted outside it; one truncated value in a zero-dimensional array raises AttributeError | `Props_MpPovm` | 7 (`negative_trunc_refuted`, `large_eps_refuted`) |
| C59 | `mpo_cH`, `sparse_cH` | proved: C59_orientation_refuted: the last term is placed the other way round than documented for cXY_local_terms | `Props_Misc` | 8 (`orientation_refuted`) |
| C60 | environments | proved | `Props_Linalg` | 1 |
| C61 | sweep schedule | proved | `Props_Linalg` | 5 |
| C62 | `_adapt_to` | proved: for 1 <= var_sites <= len; environments fresh for any qr/svd, projection and overlap for sound qr/svd; C62_no_update_refuted: without an update (num_sweeps=0 or var_sites > len) the returned number is not the overlap | `Props_Linalg` | 9 (`no_update_refuted`) |
| C63 | `dump`, `load` | proved: for every form the constructor accepts; C63_form_refuted: forms outside that range do not survive | `Props_Misc` | 7 (`form_refuted`) |
| C64 | `Heap`: store of LocalTensors and objects, 30 operations | partial: holds for all calls and histories except the calls that share local tensors: +x, group_sites(1), split outside the chain and MPArray(x.lt); these are characterised exactly, and the claim is refuted for each of them; canonicalization, norm and singularvals leave the arrays of all objects unchanged even when shared | `Props_Heap` | 11 (`aliasing_refuted`) |
| C65 | `_mppl_lfun_estimator` | partial: exact for positive whole-number weights and without weights; est_lfun_from (weights = numbers of samples) has the weighted average as value, is unbiased and estimates its own variance without bias; for fractional weights the claim is refuted: the integer accumulator gives 3/2 instead of 1, nan for weights below one, AssertionError for weight and coefficients zero | `Props_Lfun` | 9 (`fractional_weights_refuted`, `small_weights_refuted`) |
| C66 | `probability_map`, `concat` | proved | `Props_Povm` | 4 |
| C67 | `eig_sum` | proved | `Props_Linalg` | 2 |
| C68 | `factory.random_*`, `mpo_cH` random states | partial: random_local_ham ignores its random state (C68_random_local_ham_refuted); the other factories are functions of the stream of the state they are given in the model | `Props_Factory` | 3 (`random_local_ham_refuted`) |
| C69 | `est_pmf_from_mpps`, `MPPovmList.est_pmf_from` | proved: the number of samples used is 1 if no site is measured by both POVMs (C69_samples_used_refuted); the weights are stated with this exception | `Props_EstMpps` | 7 (`samples_used_refuted`) |
| C70 | `pauli_mpp`, `pauli_mpps` | proved | `Props_PauliMpp` | 7 |
| C71 | `randomized_svd` | proved: arrays as arguments, at least one column in the sketch; not always a truncated SVD: C71_always_truncated_refuted | `Props_RandSvd` | 8 (`always_truncated_refuted`) |
| C72 | `block_pmfs_as_array` | proved: results of sound QR factorisations; other errors than those of the QR oracle are excluded | `Props_Blocks` | 7 |
| C73 | `LocalTensors.__init__`, `MPArray.__init__`, `copy` | proved | `Props_Init` | 8 (`model_refuted`, `axes_refuted`) |
| C74 | `POVM.linear_inversion_map` | proved: relative to a sound pseudo-inverse; recovery without informational completeness fails: C74_x_refuted | `Props_LinInv` | 6 (`x_refuted`) |
| C75 | `cXY_E0` | proved: for every even N and every gamma the ground state energy is determined (C75_ground_even); the value returned is the ground state energy if |gamma| <= 1 (C75_ground) and too large otherwise (C75_ground_large; the documented claim for all gamma is refuted in C75_ground_refuted) | `Props_CxyE0` | 12 (`ground_refuted`) |
| C76 | operations on MPArrays, `block_diag`, slices | proved: the errors are those of the listed functions on valid local tensors; the claim that arrays of different shapes cannot be added is refuted in C76_add_refuted | `Props_Errors` | 22 (`add_refuted`) |
| C77 | in-place methods that raise | proved: methods modelled: lt.update, canonicalize, norm, compress(svd), singularvals; that an interrupted compress leaves the represented array unchanged is refuted in C77_compress_refuted | `Props_ObjState` | 6 (`compress_refuted`) |
| C78 | `_compress_svd` | proved: complex arrays; the object is canonicalised first (canonicalize=True); exact arithmetic | `Props_Quasi` | 4 |
| C79 | `_compress_svd`, `singularvals`, `_testing.compression_svd` | proved: complex arrays, exact arithmetic; without the separation of the values the claim is false: C79_ties_refuted; the projectors of the reference are lost for direction=left: C79_projectors_refuted | `Props_Unique` | 7 (`ties_refuted`, `projectors_refuted`) |
| C80 | `eig`, `eig_sum`, `_eig_minimize_locally2` | proved: exact arithmetic; the start vector must carry a true canonical form; that the value is the expectation value of the returned vector with several sites is refuted in C80_several_sites_refuted | `Props_EigVal` | 7 (`several_sites_refuted`) |
| C81 | `_compression_var`, `_adapt_to`, `_adapt_to_new_lten` | proved: exact arithmetic; var_sites 1 or 2 (three sites: C81_three_sites_refuted) | `Props_VarBest` | 6 (`three_sites_refuted`) |
| C82 | `_compress_svd`, `_compress_svd_l/_r` (relerr), `singularvals` | proved: exact arithmetic | `Props_MinRank` | 5 (`rank_refuted`) |
| C83 | `norm`, `normdist`, `inner` | proved: exact arithmetic | `Props_Geom` | 9 |
| C84 | `singularvals`, `reductions_mps_as_mpo`, `reductions_pmps`, `pmps_to_mpo` | proved: exact arithmetic | `Props_Spectrum` | 3 |
| C85 | `local_sum`, `sandwich`, `reductions_mps_as_mpo` | proved: default embedding (identity), equal local dimensions as local_sum requires | `Props_Energy` | 1 |
| C86 | `dot`, `adj`, `inner`, `trace`, `eye` | proved: entrywise equality; the ranks of the two sides differ in general | `Props_Oper` | 13 |
| C87 | `reductions_mpo`, `reductions_mps_as_mpo`, `pmps_to_mpo`, `trace` | proved: positivity of reductions_pmps follows with pmps_to_mpo | `Props_RedStates` | 8 |
| C88 | `dot`, `adj`, `+`, `*`, `chain`, `trace` | proved | `Props_Positive` | 5 |

## Assumptions

What `Print Assumptions` prints for each property theorem, by group.  No theorem depends on
anything else.

* Closed under the global context (336 theorems): 
  * `Props_Algebra`: C01_to_array_paths, C04_from_kron, C04_from_kron_empty, C05_add_entrywise, C05_sub_entrywise, C05_add_length_error, C06_mul_entrywise, C06_imul_entrywise, C06_neg_entrywise, C06_div_entrywise, C06_mul_overlap_refuted, C07_sumup, C08_dot, C09_partialdot_left, C09_partialdot_right, C09_window_overflow_refuted, C10_inner, C10_inner_hermitian, C10_inner_linear, C12_chain, C12_chain_assoc, C12_localouter
  * `Props_Build`: C03_global_to_local, C03_local_to_global, C03_order_error, C31_inject, C31_inject_unordered, C34_regular_slices, C34_regular_slices_uncovered, C34_embed_slice, C34_embed_slice_wrong_width, C35_local_sum_identity, C35_local_sum, C36_block_diag, C36_block_diag_local_add, C37_full_rank
  * `Props_Canon`: C02_from_array, C02_from_array_int, C02_from_array_none, C02_roundtrip, C02_none_virtual_error, C02_trailing_sites_refuted, C02_ndims_zero_refuted, C03_from_array_global, C17_group_split, C17_split_sites, C17_no_legs_refuted, C21_canonicalize, C22_canonicalize, C22_default, C23_histories_partial, C23_honest_updates_refuted, C24_update_int, C24_update_out_of_range, C24_update_slice, C24_negative_index_refuted, C24_slice_count_refuted, C24_string_flag_refuted, C25_norm, C25_normdist, C25_normdist_sub, C25_norm_raises_refuted, C26_compress, C26_compress_form, C26_compress_errors, C26_truncated_svd, C27_error_identity, C27_discarded_weight_right, C27_discarded_weight_left, C28_exact, C28_compression, C29_singularvals, C29_one_site, C37_from_array, C37_canonicalize, C37_two_sweeps, C37_fresh, C19_copy, C19_passed_on
  * `Props_EigVal`: C80_value, C80_sum_value, C80_untruncated, C80_several_sites_refuted
  * `Props_Energy`: C85_energy
  * `Props_Errors`: C76_get, C76_transpose, C76_sum, C76_sum_sites, C76_sum_length, C76_add_one, C76_add_many, C76_add_refuted, C76_lengths, C76_dot_number, C76_dot, C76_inner, C76_partialtrace, C76_trace, C76_diag, C76_diag_negative, C76_transpose_negative, C76_update_slice, C76_update_step, C76_embed, C76_lists, C76_block_diag
  * `Props_Estim`: C52_unpack_pack, C52_pack_unpack, C52_mixed_radix, C52_errors
  * `Props_Factory`: C42_zero, C42_eye, C42_eye_error, C42_diagonal, C42_diagonal_one, C42_diagonal_error, C43_random_mpa, C43_generate_error, C43_random_mpo, C43_random_mpdo, C43_random_mpdo_rank0, C43_unitary_haar, C43_random_vec, C43_random_op, C43_random_state, C43_random_local_ham, C43_random_local_ham_error, C43_long_ranks_refuted, C68_random_mpa, C68_random_local_ham_ignored, C68_random_local_ham_refuted, C45_inner_prod_mps, C45_inner_prod_error, C45_sumup, C45_sumup_one, C45_sumup_error, C45_truncated_svd, C45_inner_prod_length_refuted, C46_partial_trace, C46_partial_trace_error, C46_mkron, C46_kron_assoc, C46_mkron_app, C46_mkron_empty, C46_matdot, C46_matdot_error
  * `Props_Heap`: C64_separate, C64_new_objects_partial, C64_in_place_partial, C64_history_partial, C64_results_partial, C64_arguments_partial, C64_sharing_calls, C64_shared_change, C64_var_unshares, C64_reading, C64_aliasing_refuted
  * `Props_Init`: C73_accepts, C73_bonds, C73_form, C73_cases, C73_new, C73_copy, C73_model_refuted, C73_axes_refuted
  * `Props_Kron`: C46_mkron_axes
  * `Props_Legs`: C13_transpose, C13_conj, C13_adj, C14_sum, C14_none_first_refuted, C14_negative_axis_refuted, C15_get, C15_get_length_error, C15_axis_iter, C15_axis_iter_order_refuted, C15_diag, C16_reshape, C16_ravel, C16_reshape_error, C16_reshape_cases, C16_reshape_empty, C16_reshape_surplus, C16_reshape_short, C16_reshape_short_refuted, C17_group_sites, C17_group_sites_error, C18_vleg2leg, C18_leg2vleg, C18_leg2vleg_vleg2leg, C18_vleg2leg_last_error, C18_vleg2leg_negative, C19_leg2vleg_form_refuted, C20_split, C20_split_outside, C20_split_last_refuted, C20_reverse, C30_pad_ranks, C30_pad_ranks_error, C32_prune, C32_prune_singletons, C32_pruned_meaning, C33_partialtrace, C33_trace
  * `Props_Linalg`: C11_sandwich, C11_sandwich_default, C11_sandwich_inner, C11_length_refuted, C44_new, C44_rename, C44_renamed, C44_rename_error, C44_conj, C44_to_array, C44_to_array_error, C44_tensordot, C44_tensordot_error, C60_local_op_quadratic_form, C61_eig_fresh, C61_eig_sum_fresh, C61_eig_dense, C67_local_op, C67_eig_sum_is_eig, C61_errors, C61_sum_errors, C62_fresh, C62_dense, C62_projection, C62_update, C62_compress_var, C62_overlap, C62_no_start, C62_one_site_start, C62_no_update_refuted
  * `Props_Misc`: C59_mpo_cH, C59_sparse_cH, C59_agree, C59_symmetric, C59_cXY, C59_orientation_refuted, C59_errors, C59_shapes, C63_round_trip, C63_file, C63_contents, C63_names, C63_taken, C63_missing, C63_form_refuted
  * `Props_MpPovm`: C49_mpdo, C49_pmps, C49_mps, C49_windows_mpdo, C49_windows_pmps, C49_windows_mps, C49_total, C49_errors, C50_same_array, C50_agree, C50_every_cut, C50_cut_inside, C50_errors, C51_embed, C51_embed_complete, C51_embed_errors, C51_block, C51_block_error, C51_repeat, C51_repeat_factor, C51_repeat_error, C51_list_block, C51_list_repeat, C51_embed_negative_refuted, C51_repeat_gauge_refuted
  * `Props_ObjState`: C77_update, C77_canonicalize, C77_norm, C77_compress, C77_singularvals, C77_compress_refuted
  * `Props_Oper`: C86_associative, C86_composition, C86_identity, C86_adjoint_product, C86_adjoint_twice, C86_adjoint_inner, C86_trace_cyclic, C86_hilbert_schmidt, C86_trace_prod, C86_distributive, C86_trace_linear, C86_tensor, C86_trace_tensor
  * `Props_Povm`: C66_empty
  * `Props_RandSvd`: C71_result, C71_low_rank, C71_order, C71_dtype, C71_unknown_normalizer, C71_always_truncated_refuted
  * `Props_RedStates`: C87_mpo, C87_mpo_nested, C87_pmps_norm, C87_expectation_real
  * `Props_RelErr`: C27_truncations
  * `Props_Spectrum`: C84_spectrum, C84_eigen, C84_purity
  * `Props_States`: C38_reductions_mpo, C38_width, C38_width_starts, C38_error, C38_negative_start_refuted, C39_reductions_pmps, C39_pmps_legs, C39_width, C39_to_mpo, C39_agrees_with_mpo, C39_mps_as_mpo, C39_dispatch, C39_dispatch_mode, C39_negative_start_refuted, C40_pmps_to_mpo, C40_mps_to_pmps, C40_pmps_to_mps, C40_roundtrip, C40_mps_to_mpo, C40_errors, C41_dm_to_array, C41_dm_to_array_global, C41_dm_to_array_global_error, C41_reduction, C41_reduction_error, C41_duplicate_support_refuted
  * `Props_Unique`: C79_projectors_left, C79_projectors_refuted
* `ClassicalDedekindReals.sig_forall_dec`, `ClassicalDedekindReals.sig_not_dec`, `FunctionalExtensionality.functional_extensionality_dep` (107 theorems): 
  * `Props_Blocks`: C72_blocks, C72_windows, C72_agree, C72_traced
  * `Props_CxyE0`: C75_value, C75_error, C75_negative, C75_monotone, C75_even, C75_bounds, C75_ground_even, C75_ground, C75_ground_large, C75_ground_refuted
  * `Props_EstMpps`: C69_value, C69_exact, C69_unbiased, C69_list, C69_errors, C69_list_errors, C69_samples_used_refuted
  * `Props_Estim`: C55_lfun, C55_lfun_variance
  * `Props_Geom`: C83_norm, C83_cauchy_schwarz, C83_norm_add, C83_norm_mul, C83_normdist, C83_normdist_symmetric, C83_normdist_triangle, C83_norm_lipschitz, C83_alternative
  * `Props_Lfun`: C65_whole_weights_partial, C65_no_weights, C65_any_weights, C65_lacking, C65_est_value, C65_est_unbiased, C65_est_weights, C65_fractional_weights_refuted, C65_small_weights_refuted, C55_lfun_list
  * `Props_LinInv`: C74_pauli, C74_x_refuted
  * `Props_Match`: C57_match, C57_proportional, C57_prefactor, C57_exclude_dup, C57_match_errors, C57_est_value, C57_est_none, C57_est_exact, C57_est_mean, C57_est_accepts, C57_est_errors, C57_duplicates_refuted, C57_unmatched_refuted
  * `Props_MinRank`: C82_below, C82_minimal, C82_unique, C82_singularvals
  * `Props_MpPovm`: C49_nonneg, C49_product, C49_from_local, C50_probabilities, C50_unnormalised
  * `Props_PauliMpp`: C70_mpp, C70_mpps, C70_mpp_info_complete, C70_mpps_info_complete, C70_relation, C70_qubits, C70_errors
  * `Props_Positive`: C88_conjugation, C88_trace_product, C88_tensor
  * `Props_Povm`: C47_x_povm, C47_y_povm, C47_pauli_povm, C47_qubit_x, C47_qubit_y, C47_small, C48_pauli_povm, C48_x_not_complete
  * `Props_Quasi`: C78_cuts, C78_rank, C78_two_sites, C78_relerr
  * `Props_RedStates`: C87_mpo_positive, C87_mps, C87_pmps
  * `Props_Sample`: C54_probabilities_exist, C54_sample, C54_data_set, C54_nearly_normalised, C54_unnormalised, C54_errors, C54_group_size
  * `Props_Unique`: C79_rank, C79_relerr, C79_reference, C79_values
  * `Props_VarBest`: C81_update, C81_start, C81_sweeps, C81_exact_start, C81_after_svd
* `ClassicalDedekindReals.sig_forall_dec`, `FunctionalExtensionality.functional_extensionality_dep` (57 theorems): 
  * `Props_Blocks`: C72_embed_positive, C72_modes, C72_too_long
  * `Props_CxyE0`: C75_ground_unique, C75_two_sites
  * `Props_EigVal`: C80_truncated, C80_range, C80_improves
  * `Props_Estim`: C53_est_pmf, C53_distribution, C53_order, C53_packed, C53_unbiased, C53_errors, C55_lfun_empty, C55_est_lfun, C55_ones, C55_counts, C55_plain, C55_unbiased, C55_few_samples, C55_light_weights, C55_zero_weights, C55_unit_weight, C56_unweighted_partial, C56_weights_refuted
  * `Props_Lfun`: C55_lfun_list_errors
  * `Props_LinInv`: C74_inversion, C74_least, C74_unique, C74_axes
  * `Props_MinRank`: C82_rank_refuted
  * `Props_MpPovm`: C50_states_positive, C58_project_pmf, C58_values, C58_unchanged, C58_nonneg, C58_single_value, C58_negative_trunc_refuted, C58_large_eps_refuted
  * `Props_Positive`: C88_gram, C88_cone
  * `Props_Povm`: C47_z_povm, C47_qubit_z, C66_probability_map, C66_concat, C66_concat_weights
  * `Props_RandSvd`: C71_iterations, C71_iterations_adjoint
  * `Props_RedStates`: C87_expectation_positive
  * `Props_RelErr`: C27_relerr_count, C27_relerr, C27_relerr_compression, C27_relerr_range
  * `Props_Sample`: C54_iid
  * `Props_Unique`: C79_ties_refuted
  * `Props_VarBest`: C81_three_sites_refuted
* `ClassicalDedekindReals.sig_forall_dec` (1 theorems): 
  * `Props_Estim`: C55_default_funs

## Findings

Differences between the documentation or the intended property and the code, as modelled.
Those with a theorem name are proved.

1. `leg2vleg` returns a canonical form that is not true (`C19_leg2vleg_form_refuted`).
2. `LocalTensors.update` with a negative index marks the wrong sites (C24 refutations); a slice
   with a string as `canonicalization` is iterated character by character; a slice with the wrong
   number of tensors is accepted.
3. Two honest `update(..., 'left')` calls can give a form with overlapping regions, after which
   `norm` and `__mul__` are wrong (C23, C25, C06 refutations).
4. `compress('var')` returns a wrong overlap if no sweep is done (C62).
5. `sum(axes=[None, (0,)])` raises TypeError; `sum(axes=-1)` sums over the virtual leg (C14).
6. `axis_iter` runs in the opposite of the documented order (C15).
7. `partialdot` and similar windows that do not fit are cut instead of rejected (C09);
   `sandwich` and `special.inner_prod_mps` do not check the lengths (C11, C45).
8. `split(len - 1)` raises IndexError (C20).
9. `from_array` with `ndims=0` recurses without end; trailing groups without legs are dropped
   (C02); sites without legs come back merged (C17).
10. `reductions_mpo` and `reductions_pmps` accept a negative first site (C38, C39);
    `pmps_reduction` accepts repeated sites (C41).
11. `random_local_ham` ignores `randstate` (C68); `_generate` accepts too long rank lists (C43).
12. `load` of a form `(n, n)` raises or changes the form (C63).
13. `cXY_local_terms(..., cyclic=True)` orients the last term the other way round (C59).
14. `project_pmf` raises AssertionError/AttributeError for values its tolerances should admit, and
    accepts negative `real_trunc` (C58).
15. `MPPovm.embed` accepts a negative `startsite` (C51); a partial `repeat` depends on the gauge
    of the POVM (C51).
16. The conditional sampler fails for `n_group = 0` (ValueError) and negative values (IndexError)
    (C54).
17. `MPPovmList.est_lfun` ignores `weights` and `eps` (C56).
18. `est_lfun` needs more than one sample (ZeroDivisionError), and refuses or clips total weights
    below one (C55); POVMs without an outcome of interest make `est_pmf` fail (C53).
19. `est_pmf_from` adds the frequencies of duplicate elements instead of averaging them
    (`C57_duplicates_refuted`), and raises for possible data if `other` has unmatched elements
    (`C57_unmatched_refuted`).  It ignores its `eps` when it calls `match_elems`.
20. `_mppl_lfun_estimator` accumulates weights in an integer array: fractional weights are cut
    (`C65_fractional_weights_refuted`, `C65_small_weights_refuted`).
21. Aliasing: `+mpa`, `group_sites(1)`, `split` outside the chain and `MPArray(lt)` share their
    local tensors with the argument: `*= 2` on the result doubles the argument
    (`C64_aliasing_refuted`).  All other operations return new objects (`C64_results_partial`).
22. `est_pmf_from` reports one sample used, whatever the number of samples is, if no site is
    measured by both POVMs; such a member has too little weight in `est_pmf_from_mpps`
    (`C69_samples_used_refuted`).

23. `pauli_mpp(n, d)` raises AssertionError for `d >= 12` and `pauli_mpps(n, d)` for `d >= 17`, since
    an MPPovm admits at most 255 outcomes per site; the docstrings name no limit (`C70_errors`).
24. `randomized_svd` accepts any string as `piter_normalizer`; an unknown one skips all power
    iterations without notice (`C71_unknown_normalizer`).  Its result satisfies only one of the two
    equations of an SVD unless the sketch captures the matrix (`C71_always_truncated_refuted`).
25. `block_pmfs_as_array` refuses the mode 'auto' that `pmf_as_array` accepts (`C72_modes`), and
    returns nothing, without an error, for a POVM that is longer than the chain (`C72_too_long`).
26. `reshape` pairs sites and shapes with `zip`: surplus shapes are ignored, and a right-canonical
    chain is cut without an error if shapes are missing (`C16_reshape_surplus`,
    `C16_reshape_short_refuted`).
27. `MPArray(ltens)` does not check that the outer bonds are one, nor that tensors have two axes
    (`C73_model_refuted`, `C73_axes_refuted`).
28. `cXY_E0` is documented as the exact ground state energy for every `gamma`, but for `|gamma| > 1`
    it is too large, for every number of sites (`C75_ground_large`, `C75_ground_refuted`): the ground
    state energy is given by the angles `(2 l + 1) pi / N`.  With two sites the result is -1 instead of
    `-|gamma|` (`C75_two_sites`).  It is right for `|gamma| <= 1` (`C75_ground`).  Negative odd multiples of two are accepted (`C75_negative`).
29. `x + y` does not check that the shapes agree (`mparray.py` 349-360).  On a single site, and on the inner
    sites of longer chains, numpy repeats legs of dimension one, so arrays of different shapes can be added
    without an error (`C76_add_refuted`); at the two ends of a chain the same shapes raise ValueError
    (`C76_add_many`).  `block_diag` repeats in the same way (`C76_block_diag`).
30. `diag(mpa, axis)` and `transpose(axes)` look a negative axis up among all legs of the local tensors:
    `diag(mpa, axis=-1)` raises for every diagonal of two or more entries (`C76_diag_negative`), the axes -1
    and -2 of `transpose` raise (`C76_transpose_negative`), and -3 is its last physical leg (`C76_ex`).
31. `compress(method='svd')` interrupted by a LinAlgError leaves a partly truncated array, which is neither the
    original nor the result (`C77_compress_refuted`); with `rank=0` the array is canonicalised before the
    AssertionError (`C77_ex`).
32. `_testing.compression_svd(..., direction='left', retproj=True)` returns None instead of the list of
    projectors: line 129 assigns the result of `list.reverse()` (`C79_projectors_refuted`).  No test uses it.
33. `eig`/`eig_sum` with `var_sites > 1` return the eigenvalue of the last local problem and the
    *truncated* vector: the value is not the expectation value of the vector returned, and the vector is not
    normalised, whenever the last truncation drops something (`C80_several_sites_refuted`).
34. `compress(method='var')` with `var_sites=3` can move away from the original: the updated window is cut bond
    by bond, which is not optimal.  63|000> + 60|011> + 80|101> from the start 80|101> ends in 63|000>; the squared
    error grows from 7569 to 10000 (`C81_three_sites_refuted`).
35. `compress(method='svd', rank=r)` keeps singular values that vanish: 3|00> with a bond of dimension 2 keeps rank 2
    (`C82_rank_refuted`); `relerr=0` removes them (`C82_minimal`).

Remarks without a theorem: `pmf(state, 'pmps')`
canonicalises the caller's state; `MPPovm.T` raises AssertionError unless the dimensions agree;
`MPPovmList` of plain MPArrays raises TypeError; `special.sumup` with `scipy`'s `svds` fails when
the rank equals the smaller dimension.

## Testing the theorems

`seeded/LOG.jsonl` records edits of the model that a realistic bug would make, one per line.

- `failed` lists the lemmas and theorems that were seen to fail. Most runs stop at the first failure, so
  this is usually one lemma, often an auxiliary one.
- `dependent` lists property theorems whose proofs lead back to a failed lemma. It was computed from the names
  that occur in the sources and not by rebuilding, so it may contain theorems that survive the edit or miss some that do not.
- A failing proof script does not by itself show that a property became false. Where an edit turned out to
  keep the claim, the `note` says so; entries without a note were not all examined for this.
- `tightened` lists the theorems that were added or strengthened because an edit was not caught.
