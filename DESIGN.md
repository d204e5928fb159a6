# A Rocq model of nanograv/enterprise

This directory holds a machine-checked model (Coq/Rocq 8.16.1) of the python
package in `/repo/enterprise`, a list of properties its users rely on
(`properties.jsonl`), and proofs of those properties about the model.

## How it is organised

* `rocq/theories/Model*.v` - executable Gallina transcriptions of the python
  functions, branch by branch. No proofs. Every definition cites the file and
  lines it transcribes. Exceptions are values (`Err`), mutable objects are
  state passed and returned.
* `rocq/theories/Proof*.v` - lemmas about the models.
* `rocq/theories/Spec*.v` - small independent specifications (what the user
  expects), where the statement needs one.
* `rocq/theories/Prop*.v` - the property theorems, nothing else: each is closed
  by `exact lemma`, followed by `Print Assumptions` and by an `Example` showing
  that its hypotheses are satisfied by a concrete non-trivial case.
* `MANIFEST.json` - property id -> theorem names.
* `seeded/LOG.jsonl` - log of mutation tests of the model.

## Trusted base

* Coq's kernel (and `coqchk`).
* The axioms printed by `Print Assumptions` below each theorem. Axioms are only
  those of Coq's standard library: the axioms of the classical reals
  (`ClassicalDedekindReals.sig_forall_dec`, `sig_not_dec`), functional
  extensionality, and where R is given a mathcomp structure classical logic and
  choice (`Classical_Prop.classic`, `Epsilon.epsilon_statement`). The table in
  "Assumptions per theorem" lists which.
* The reading of python/numpy semantics stated in the comments of the models.

Floating point numbers are modelled by exact real numbers (stdlib `R`, or an
arbitrary field / real field where only algebra is needed). Rounding, overflow,
NaN and infinities are not modelled unless a definition says so.

## What is modelled

| file | lines | model | left out or simplified |
|---|---|---|---|
| signal_base.py | `cache_call` L1009-1071, `simplememobyid` | ModelCache.v | keys are opaque values; the evaluation is a partial function or a state-changing builder |
| signal_base.py, gp_signals.py, deterministic_signals.py, white_signals.py | in-place updates of returned arrays | ModelCache.v | array contents are one value per object |
| signal_base.py | metaclass and collection addition, `PTA.__init__/__add__`, `_set_signal_dict`, `signals`, `_commonsignals`, `set_default_params` | ModelCompose.v | signals are opaque apart from names, parameters and constants |
| signal_base.py | `params`, `param_names`, `map_params`, `get_lnprior`, `get_hypercube_transform`, `summary` | ModelParams.v | densities and quantiles are oracles there |
| selections.py | all selection functions, `Selection`, `selection_func` | ModelSelect.v | frequencies and times are reals |
| utils.py | `create_quantization_matrix` L758, `quant2ind` L785 | ModelSelect.v | `argsort` is any function returning a sorting permutation |
| white_signals.py | `MeasurementNoise`, `TNEquadNoise`, epoch construction of `EcorrKernelNoise` | ModelSelect.v | variances are reals |
| signal_base.py | `ndarray_alt.solve`, `csc_matrix_alt.solve`, `BlockMatrix`, `ShermanMorrison`, `get_ndiag` | ModelNoise.v | Cholesky factorisation is the exact textbook recursion of ModelLinalg.v, also for sksparse (no permutation); a Sherman-Morrison object over a scalar is refused with TypeError on solve where numpy would broadcast; sums that produce object arrays of noise objects (`NObjs`) are not followed further |
| white_signals.py | `_get_ndiag_sherman_morrison/_sparse/_block` L255-287 | ModelNoise.v | in-place reuse of the sparse matrix is in ModelCache.v |
| gp_signals.py | `MarginalizingNmat` L791-887 | ModelNoise.v | a marginalised model inside a marginalised model cannot be built and is refused; the memoised methods are transparent (C07); a BlockMatrix inside it is taken not to squeeze its products (as holds with more than one column) |
| signal_base.py | `LogLikelihood` L180-264, `get_TNr`, `get_TNT`, `get_rNr_logdet` L981-1002 | ModelLike.v | the prior matrices are given; sparse and dense Cholesky are the same function; minus infinity is a value of its own |
| utils.py | `KernelMatrix.inv` L288-309 | ModelLike.v | the SVD is an oracle; zero variances (infinite inverses) are not followed |
| utils.py | `KernelMatrix.__new__/_setcliques/add/set` L229-285 | ModelKernel.v | broadcasting of a one-element prior over several positions is refused; `np.in1d` of a set finds nothing, as in numpy |
| signal_base.py | `_combine_basis_columns` L877-923, `get_basis` L951-961, `get_phi` L967-977 of a collection | ModelKernel.v | signals are given by their basis and prior at the current parameters; the hash is any function of the column's values (so 0.0 and -0.0 hash alike) |
| signal_base.py, gp_signals.py | `PTA._get_slices`, `get_phi`, `get_phiinv` (three methods), `_setcliques`, `_setpulsarcliques` L407-673, `BasisCommonGP.get_phicross` L404-409 | ModelPhi.v | always with `logdet=True`; inverses of singular cliques raise; the sparse method is an exact Cholesky; one-element priors are not broadcast |
| gp_signals.py | `ecorr_basis_prior`, `EcorrBasisModel` L254-281 | ModelEcorr.v | the basis and prior of each selection in the order of the keys, at given values; weights are the ones of `create_quantization_matrix` |
| white_signals.py | `EcorrKernelNoise.get_ndiag` L239-249, L289-294 | ModelEcorr.v | the fast Sherman-Morrison package is not modelled |
| gp_signals.py | `BasisGP._construct_basis`, `get_phi` L97-115, L174-180 | ModelKernel.v | one basis and prior per selection; the array kept between calls is an argument |
| utils.py | `ConditionalGP` L37-141, `get_coefficients` L144-226 | ModelCond.v | SVD (which may raise), QR and the fill-reducing ordering of the sparse Cholesky are oracles; random variates are an argument; one draw |
| gp_signals.py | `_get_coefficient_logprior` L122-133, `get_delay` L140-149 of a GP with sampled coefficients | ModelCond.v | the prior and the bases of the selections are given at the current parameters |
| gp_signals.py | `WidebandTimingModel` L522-771 | ModelWide.v | the values of jumps, efacs and equads and their masks are given (their parameters and the caches are in ModelKinds.v) |
| gp_signals.py | `get_delta_dm`, `get_dm_chi2` L773-799 | ModelWideDm.v | at given DMs and uncertainties |
| white_signals.py, gp_signals.py | `MeasurementNoise` L78-97, `TNEquadNoise` L100-116, `BasisGP` L24-185 with the dispersion and chromatic bases, `FourierBasisGP` L188-216, `FourierBasisCommonGP` L411-464, `MarginalizingTimingModel` L790-817 with their functions, `powerlaw`, `turnover`, `free_spectrum`, `turnover_knee`, `broken_powerlaw` (gp_priors.py L13-38, L98-139) | ModelStandard.v | factories as sources of ModelKinds.v; default options; selections of processes as masks per pulsar; `Parameter` priors arbitrary; the time span of the common process computed once from all pulsars |
| signal_base.py | `set_default_params` L123-133, L365-367, L873-875 on the signals of ModelKinds.v | ModelDefault.v | by names: two constants of one signal with the same name are one; the values that classes of constants give are functions of the name (`ACstC`, `Fixed`); log messages left out; a common process without members is not followed |
| signal_base.py | `Signal.params` L98-101 of the signals of ModelKinds.v, by name | ModelNames.v | the parameters of priors of parameters (`param.params`, L286-292) are left out; sorting and repetitions are in ModelParams.v |
| parameter.py, selections.py | `Function`, `get_funcargs`, `function` L452-638, `selection_func` L14-51 | ModelFunc.v | python values are abstract, python functions have plain arguments with defaults; `params`, `func` and `name` are separate arguments; `UserParameter` and quantile functions left out |
| parameter.py | `sample`, `_sample` L14-36 | ModelSample.v | drawing from one prior is an oracle with an explicit generator state |
| parameter.py | the prior, quantile and sampling functions of Uniform, Normal, TruncNormal and LinearExp L201-394 | ModelPrior.v, ModelGauss.v | nan is `None`; scipy's `uniform.ppf` and `erf` are exact; generators are explicit streams; broadcasting of one-element arrays is not followed; the normal quantile function is given |
| pulsar.py | `sort_data`, `filter_data`, the array properties, `flags`, `set_flags`, `backend_flags` L127-163, L186-320 | ModelPulsar.v | times and array entries are abstract, with a total order on times; `np.sum(column) != 0.0` is any test that does not depend on the order of the rows; flags are strings with the width of their numpy type |
| pulsar.py, pulsar_inflate.py | `deflate`, `inflate`, `destroy` L626-663; `PulsarInflater` | ModelShared.v | blocks of shared memory are a finite map from names to contents; a block of size zero cannot be created; pickling copies the state of a pulsar; processes only through the operations they perform |
| pulsar.py | `get_maxobs` L51-77, `get_pdist` L82-93, the factory `Pulsar` L772-859 | ModelFiles.v | files are a map from names to lines; the timing packages, `os.path.isfile`, and `os.chdir` are arbitrary programs that may raise and change directory; recursion depth is the fuel |
| pulsar.py | `FeatherPulsar.save_feather`, `read_feather` L666-769 | ModelFiles.v | columns and JSON values are opaque, storage itself is exact; what a repaired `save_feather` would write is `save_with metadata` |
| gp_bases.py | `createfourierdesignmatrix_red`, `_dm`, `_dm_tn`, `_env`, `_ephem`, `_chromatic`, `_general` L25-355 | ModelBases.v | powers and divisions agree for positive radio frequencies and nonzero spans only; numpy's generator is a state with an arbitrary seeding and drawing function; broadcasting of a single radio frequency is left out; `_eph` (L253-258) is left out |
| gp_priors.py | `powerlaw`, `turnover`, `free_spectrum`, `t_process`, `t_process_adapt`, `turnover_knee`, `broken_powerlaw`, `powerlaw_genmodes`, `infinitepower` | ModelSpectra.v | real powers, so positive frequencies only; `nfreq` after rounding |
| utils.py | `hd_orf`, `dipole_orf`, `monopole_orf`, `anis_orf` L845-889 | ModelOrf.v | positions are three reals; the basis matrices of `anis_orf` are given |
| utils.py | `linear_interp_basis` L817-840; `unnormed_tm_basis`, `normed_tm_basis`, `svd_tm_basis`, `tm_prior` L892-929; `create_stabletimingdesignmatrix` L312-334; gp_signals.py `get_timing_model_basis` L219-231 | ModelInterp.v | `np.arange` in real arithmetic; the design matrix is a list of columns; the SVD is an oracle |
| utils.py | `create_gw_antenna_pattern` L688-722, `bwm_delay` L725-756 | ModelGw.v | real arithmetic; the direction opposite the source, where the code divides by zero, is excluded where the theorems need it |
| utils.py, constants.py | the ephemeris frame rotations, orbit interpolation and `physical_ephem_delay`, its basis and spectrum L945-1162; `M_ecl` L51-54 | ModelEphem.v | the orbit files are given as lists; orbits have as many entries as there are TOAs (an array with one entry is stretched by numpy, here not) |
| anis_coefficients.py | `almFromClm`, `clmFromAlm`, `real_sph_harm`, `mapFromClm`, `mapFromClm_fast`, `signalResponse_fast`, `getCov`, `anis_basis`, `orfFromMap_fast` | ModelHarm.v | healpy's index layout and `alm2map` are their documented sums, spherical harmonics and pixel directions are given; `clmFromMap` and `clmFromMap_fast` are not modelled |
| gp_signals.py | `FourierBasisCommonGP` L414-462 with the parts of `BasisCommonGP` it inherits L279-410 | ModelCommon.v | a program is a list of constructions and evaluations that goes on after exceptions; the class attributes, the one-entry cache and numpy's generator are state; prior and overlap function are given; delays of sampled coefficients are not modelled here |
| deterministic_signals.py | `Deterministic` L14-53; `PhysicalEphemerisSignal` L163-206 with the waveform of ModelEphem.v | ModelDet.v | values are numbers, arrays of one dimension, masks, pulsars with array attributes; the cache is C05's and left out; the factory's choice of priors (L115-146) and the orbit files are not modelled |
| utils.py | L356-484, L537-685: orbital evolution and waveforms of eccentric binaries; constants.py L18-39 | ModelCw.v | doubles are reals, broken powers are `Rpower`; Bessel functions are given; mass and distance are numbers or arrays of one entry; the harmonic table L340-353 and `odeint` L489-534 are not modelled |
| parameter.py | L39-239: `Parameter`, `GPCoefficients`, `UserParameter`, `Uniform` | ModelParClass.v | numbers are reals, minus infinity and nan; plus infinity counts as nan; arrays have one dimension and are not stretched; `repr` and `type` left out |
| pulsar.py | positions L94-124, L288-296; `PintPulsar` L326-484 and `Tempo2Pulsar` L487-620: coordinates, `_set_dm`, `setpars`, PINT flags, planets and sun, dropping of attributes | ModelBuild.v | the timing packages are tables or functions of their parameters' values; units other than those of planets and TOAs left out; objects in the drop methods are sets of attribute names; writing the pickle file is left out |
| gp_signals.py | `BasisGP` L24-185 and the sampled coefficients of `BasisCommonGP` L285-368 as objects: names, parameters, bases, priors, delays, coefficient densities and caches | ModelGp.v | prior and basis functions are those of ModelFunc.v over numbers, arrays, matrices, masks and pulsars; a single row or coefficient is not stretched; the density for a covariance matrix is an argument (C53); infinite and nan densities are one value; a hyperparameter named like a vector of coefficients is not followed |
| signal_base.py, white_signals.py, deterministic_signals.py, gp_signals.py | `SignalCollection` L776-1006 and `PTA` L180-264, L342-400, L415-673 as objects with all their caches: column layout, noise, delays, bases, priors, solved products, common signals, order of evaluation | ModelColl.v | arithmetic on arrays is any record of operations (it is that of ModelNoise.v, ModelKernel.v, ModelPhi.v, ModelLike.v); results are values, so that objects which are changed after they were returned (sparse ECORR, `PhysicalEphemerisSignal`, C05) are not covered |
| white_signals.py, deterministic_signals.py, gp_signals.py | `WhiteNoise` L28-65, `Deterministic` L14-53, `BasisGP`, `BasisCommonGP` L285-410 as members of a collection | ModelSigs.v | coefficients of common processes are left out here (C111), as are ECORR and timing models, whose classes have no state of their own beyond a cache |
| signal_base.py | arithmetic of `SignalCollection`, `PTA` and `LogLikelihood.__call__` for whole arrays of signals | ModelArray.v | arrays of different lengths are refused wherever two meet, without broadcasting; the prior of the last common signal of a class, which no pair asks for, is taken from its pair with the first; `cholesky_sparse` and dense factorisation are one exact Cholesky factorisation |
| white_signals.py, deterministic_signals.py, gp_signals.py | constructors and results of the signals of ModelSigs.v, with arrays that carry their sizes | ModelSized.v | priors are vectors (a matrix is refused); the correlation of a pair is kept beside its prior and multiplied when the joint prior is put together; the signals of a pulsar are made one after the other, without names of signals |
| white_signals.py, gp_signals.py | `EcorrKernelNoise` L199-294, `MarginalizingTimingModel` L791-819 and `WidebandTimingModel` L522-771 as members of a collection: names, parameters or constants with their labels, `get_ndiag` and the methods of the wideband class with their caches | ModelKinds.v | the method "sparse" (C05), the fast Sherman-Morrison package and arrays as values of a parameter are not followed |

Everything else is not modelled yet.

## Where the code disagrees with the property

Theorems named `..._refuted`, or stating an exception, record these.

* C02, C03, C87: a raising evaluation leaves its key in the cache list.
* C04: `set_default_params` does not invalidate caches.
* C05: arrays returned from the cache are overwritten by later calls.
* C06: the delay cache is not keyed on basis parameters.
* C07: memoisation by identity returns stale values after in-place modification.
* C09: `model + PTA` raises AttributeError.
* C11: a vector that is too short is silently accepted when the missing part belongs to a vector parameter.
* C12: `a_1` scalar and vector `a` clash.
* C14: hyperparameters enter the transform at their cube values.
* C18: `custom_backends_dict` selections can overlap; the five-name list of the documentation differs.
* C20, C21: positional gaps shift attributes; a non-TOA array of coincidentally equal length is masked.
* C86: the fixed count is zero when parameters are not listed.
* C29: overlapping epochs are not solved correctly by Sherman-Morrison.
* C30: no epoch at all, or a vector on the left of a matrix, raise.
* C31: ECORR placed before a marginalised timing model gives an unusable object.
* C34: a basis of a single column with `EcorrKernelNoise(method="block")` raises
  IndexError (the products are squeezed to numbers).
* C36: with common signals a pulsar without basis makes the evaluation raise.
* C32, C33: a signal with varying basis parameters before a column-sharing one
  shifts the hash list against the columns, so that columns of different
  contents are shared; repeated columns inside one signal are merged and their
  variance counted once.
* C112: without an epoch of two TOAs `EcorrBasisModel` has no columns, its index
  array is an empty array of doubles and the collection raises IndexError, while
  `EcorrKernelNoise` adds nothing.
* C113: the likelihood keeps its first value when `params` holds another value
  for a constant; after a basis function of one of several selections raised,
  parameters that worked before raise KeyError; the delay of a collection is
  kept under the sampled coefficients alone, although the basis may have
  parameters (`SignalCollection.delay_params` has no basis parameters).
* C52: with a slice, a vector prior added to (or set in) a matrix fills its
  whole block.
* C54: with a mixture of vector and matrix priors the prior is wrong from the
  second call on, for the same reason.
* C40: a common signal on part of a dense prior of a pulsar: cliques are never
  merged, the returned matrix is not the inverse.
* C41: with two common classes the partition method adds the variances of each
  pulsar once per class; with a dense prior it raises NotImplementedError.
* C50: when the SVD of get_coefficients raises, the QR fallback draws with the
  normal matrix instead of its inverse as covariance; `common_sparse=True`
  forgets the fill-reducing ordering.
* C51: get_coefficients without common signals skips signals of type "common
  basis" without skipping their entries (an array of one pulsar with a common
  GP is such a case); a timing-model parameter is given the entry at its place
  in `fitpars` even if columns were excluded from the basis; shared columns
  make it raise IndexError.
* C47: the constructor compares the number of TOAs with the number of
  memberships, so one overlap and one gap are accepted.
* C90: `WidebandTimingModel()` with its default arguments refuses every pulsar.
* C91: an interval without TOAs is accepted, and get_logsignalprior then raises
  IndexError.
* C61: a nested function's parameters replace outer ones of the same keyword (or
  the other way round, depending on the order), and outer values replace nested
  defaults.
* C62: `a_b` in a function and `b` in the function nested under `a` get one name.
* C63: `_sample` tests objects against names, so every hyperparameter is drawn
  again each time it is met, after the parameters that depend on it.
* C81: a pulsar without flags, or any other empty array, makes `deflate` raise
  after the arrays before it have already been replaced.
* C82: `save_feather` looks `metadata` and `to_list` up on the factory function
  `Pulsar` and always raises. The column prefix `planetssb_1` also matches
  `planetssb_10_0`, so tensors with eleven rows cannot be read.
* C83: a tim file with observations of its own and an INCLUDE line counts only the
  included ones; observations whose line begins with C are not counted.
* C58: `TruncNormal` with an array of means and one deviation raises TypeError
  as soon as a value has to be redrawn.
* C78: `filter_data` leaves site TOAs, telescopes, pulsar and sun positions
  unfiltered, and applies the mask of the stored order to planet positions in
  time order; giving only one of the two times raises TypeError.
* C80: the joined front and back end is cut to the widest flag.
* C92: `fitpars` keeps the names of dropped columns.
* C93: frequencies given as a list raise TypeError.
* C94: the phase seed distinguishes pulsars by their first TOA in units of 17
  seconds only.
* C95: a chromatic index of zero counts as no index and drops the temponest
  normalisation.
* C96: `powerlaw` with its default of two components gives four of the six
  ephemeris columns variance zero.
* C68: frequencies out of order get negative variances.
* C55: a correlated Fourier process without explicit time span uses different frequencies in different
  pulsars when one is evaluated before the last one is made, and keeps them (`interleaved_refuted`); used
  for a second array it keeps the span of the first (`reused_class_refuted`).
* C71: with all TOAs equal the basis has no
  columns, so that its rows do not sum to one.
* C72: excluding every column makes the timing-model bases raise IndexError. The singular vectors of a
  degenerate design matrix span more than its columns (`svd_rank_refuted`). Columns of zeros stay zero in the
  normalised basis and become nan in the stabilised matrix (`stable_zero`).
* C75: the ephemeris delay is linear in mass, orbit and Saturn-offset corrections but not in the rate of
  the frame drift (`drift_refuted`).
* C100: a function given as keyword of a waveform is not passed the mask, so that with a selection its
  arrays are too long and the signal raises ValueError (`nested_mask_refuted`). A value given in the
  parameter dictionary for a constant is used but is not among the parameters that the cache of the delay
  looks at (`delay_params_refuted`).
* C101: the comment promises daily averages; epochs are one second long (`ephem_daily_refuted`).
* C102: the docstring calls `nmax` the number of harmonics; `np.arange(1, nmax)` has one fewer, and with
  `nmax = 2` a circular binary is silent (`cw_harmonics_refuted`). `mc *= Tsun` and `dl *= ...` in the helpers
  overwrite an array given by the caller, so that the second and third coefficient and the caller's next
  call use a wrong mass (`cw_mass_array_refuted`, `cw_mass_wave_refuted`); numbers are safe.
* C104: the docstring of `UserParameter` asks for a sampler with the same parameters as the density; such a
  sampler cannot be called, since it gets no value and the keyword `size` (`same_arguments_refuted`,
  `sampler_size`). The length of a vector parameter's value is not compared with its size
  (`vector_length_refuted`). The comment that the exception about giving a value when sampling cannot be
  triggered is wrong: it can, by a keyword of the parameter's name (`resample`).
* C105: a B anywhere in the name makes ecliptic coordinates be converted to 1950, while `pos_t` is J2000: the
  two directions of one pulsar differ by the precession (`position_B`); globular cluster pulsars with J names
  are hit too (`cluster_epoch_refuted`).
* C106: `"fit": par in pars` compares with the list the loop runs over and is always true (`fit_refuted`); with
  PINT, DMX parameters that are not fitted are missing from `dmx` (`frozen_refuted`). WidebandTimingModel still
  refuses them (C47's `wideband_accept`), by the position of the parameter or the count of TOAs.
* C107: constructing a pulsar changes the caller's tempo2 object, so that a second pulsar of it may have other
  TOAs (`second_pulsar_refuted`).
* C108: `contextlib.suppress(NameError)` does not suppress the AttributeError of `del` (`drop_twice_refuted`).
* C109: `_construct_basis` empties `_labels` and fills them while it runs; when a basis function raises, the cache
  still says that the basis of the earlier parameters is there, and the next `get_phi` raises KeyError
  (`after_error_refuted`) or a coefficient density is that of the labels of the failed call
  (`after_error_density_refuted`). Constants are not part of `basis_params` but can be overridden through `params`
  (`constant_basis_refuted`).
* C109: `c * c / phi` broadcasts; a single variance for many coefficients is accepted and its normalisation counted once
  (`broadcast_density_refuted`).
* C110: names are joined by underscores (`selection_keyword_refuted`). `self._params[par.name] = par` for prior and
  basis functions made under one name replaces the prior's parameter by the basis's (`shared_keyword_refuted`).
* C111: `delay_params` looks for `_coefficients` in the names of parameters; given coefficients with another name are
  not part of the cache key (`common_given_refuted`).
* C122: `self._params.update(parfunc._params)` (parameter.py L505) has the constants of functions given as keywords
  under their own keywords; of two with the same keyword one is hidden from `set_default_params`, and keeps its value
  (`hidden_defaults_refuted`).
* C124: the docstring of `broken_powerlaw` gives gamma as slope above the break and delta below; it is the other way
  round (`broken_documented_refuted`).
* C88: an indefinite prior matrix is silently replaced by its absolute value.
* C126: names are joined with underscores that may occur in their parts, so that pulsars A (backend B_c) and A_B (backend c)
  share the parameter A_B_c_efac without any common signal (`shared_names_refuted`).

## Plan per property

See the section "Properties" below. `M` = what is modelled, `P` = how it is
proved.

## Properties

* **C01 Cached evaluations are transparent.** M: `cache_call` as a state machine over (cache dict, cache list), evaluation = partial function of the key. P: invariant `cache[k] = f k`, induction over histories including raising calls.
* **C02 A cached method keeps at most its limit of results.** M: same machine. P: invariant length(list)<=limit and keys(cache)=list when nothing raises; witness history for the raising case.
* **C03 A side-effecting builder cached with limit one leaves the object describing the latest request.** M: machine whose evaluation writes an object state (possibly partially before raising). P: invariant `cache = {k} -> state = build k`; witness with a raising call.
* **C04 Fixing constants takes effect on later evaluations.** M: signal with constants in a heap, cached `get_ndiag`. P: witness of staleness; positive theorem when constants are set before the first evaluation, or when no key repeats.
* **C05 Cached results are not changed by later calls.** M: heap of arrays; cache stores references; `get_delay`/`_get_ndiag_sparse` write in place. P: refutation by a three-call history; positive theorem for the copying variant and for repeated calls with one key.
* **C06 Sampled GP coefficients combine with the current basis.** M: `SignalCollection.get_delay` cache key assembled by `_set_cache_parameters`. P: refutation; positive theorem when no coefficient signal has varying basis parameters.
* **C07 Memoisation by identity is transparent for unmodified arguments.** M: one-slot memo over a heap with object identities. P: invariant by induction over histories without mutation of the key; witness with mutation.
* **C08 Adding signal models is flattening concatenation.** M: metaclass `__add__` on an inductive of operands. P: induction over sum trees.
* **C09 Arrays of pulsars are built in order.** M: `PTA.__add__`, `SignalCollection.__add__`, `__getitem__`. P: structural.
* **C10 The parameter list of an array is sorted, complete and duplicate free.** M: parameters as objects with identity, insertion into a set, sort by name. P: permutation/sortedness lemmas.
* **C11 Mapping a vector onto parameters loses and reorders nothing.** M: `map_params` loop with python slicing. P: induction on the parameter list with an accumulator invariant.
* **C12 Flattened parameter names are unique.** M: `param_names`. P: refutation witness; positive theorem on decimal suffixes.
* **C13 The log prior is the sum of the parameters' log densities.** M: `get_lnprior` over extended reals. P: fold lemmas.
* **C14 The unit-cube transform samples the joint prior.** M: `get_hypercube_transform`. P: blockwise equality for non hierarchical lists; refutation witness.
* **C15 Signals are retrievable by name.** M: `_set_signal_dict` loop. P: invariant.
* **C16 Setting constants touches exactly the named constants.** M: heap of constants. P: induction over signals.
* **C17 Flag selections partition the TOAs.** M: `np.unique`, mask dictionaries. P: list lemmas; reals for `cut_half`.
* **C18 Filtered flag selections are disjoint and select exactly the matching TOAs.** M: substring filter. P: as above.
* **C19 Frequency bands are half open and the default bands cover (0, 10 GHz).** M: bands as list of (name,(lo,hi)) over R. P: case analysis.
* **C20 Selected functions receive each pulsar attribute under its own name.** M: `selection_func.wrapper` on symbolic arguments. P: induction over the argument list; refutation witness.
* **C21 Masked attributes are restricted to the selected TOAs.** M: same wrapper with values. P: case analysis; refutation witness.
* **C22 Parameters of different selections get different names.** M: `Selection.__call__` with strings. P: injectivity of concatenation.
* **C23 Each TOA's white variance comes from its own selection.** M: mask-weighted sums over R. P: induction over masks.
* **C24 Epoch quantisation partitions the TOAs into short epochs.** M: insertion-sorted argsort and the bucket loop over R. P: loop invariant.
* **C25 Epoch quantisation does not depend on TOA order.** M: same. P: characterisation of buckets independent of the order.
* **C26 Index lists recovered from a quantisation matrix are the epochs.** M: `quant2ind`. P: induction.
* **C27 ECORR epochs of different selections never overlap.** M: construction of epoch indices under masks. P: disjointness from 24 and disjoint masks.
* **C28 Diagonal white noise is solved exactly.** M: vectors over a field. P: field algebra.
* **C29 Sherman-Morrison ECORR solves the epoch-correlated covariance exactly.** M: `ShermanMorrison` methods over mathcomp matrices. P: N * solve = id; determinant by induction over blocks (matrix determinant lemma).
* **C30 The block ECORR implementation solves the same covariance.** M: `BlockMatrix` methods with an abstract exact Cholesky solve. P: as 29.
* **C31 Adding noise components adds covariances.** M: python `sum` over noise objects with `__add__`/`__radd__` dispatch. P: case analysis and induction.
* **C32 Sharing basis columns does not change the model covariance.** M: `_combine_basis_columns`, `get_basis`, `KernelMatrix.add`. P: covariance equality by induction; refutations.
* **C33 Combined column indices are a valid layout.** M: same. P: loop invariant.
* **C34 The single-pulsar likelihood is the marginal Gaussian density.** M: likelihood formula over R matrices. P: Woodbury and determinant lemma.
* **C35 The array likelihood with correlated signals is the joint marginal Gaussian density.** M: block-diagonal assembly. P: as 34 on stacked matrices.
* **C36 Likelihood evaluation never fails for pulsars without Gaussian processes.** M: evaluation with optional bases. P: case analysis; refutation.
* **C37 A non positive definite system gives -inf.** M: factorisation as a partial function. P: case analysis.
* **C38 Pulsars occupy consecutive disjoint slices of the big prior matrix.** M: `_get_slices`. P: induction.
* **C39 The big prior matrix is symmetric with the documented entries.** M: `get_phi` as updates of a matrix. P: induction over pairs.
* **C40 Clique inversion returns the inverse of the big prior matrix.** M: clique assignment and blockwise inversion. P: block structure lemma; refutation witness.
* **C41 Partition inversion returns the inverse of the big prior matrix.** M: partition method. P: block algebra; refutation.
* **C42 All inversion methods agree.** M: dispatch. P: from 40, 41.
* **C43 Common signals are those shared by at least two pulsars.** M: `_commonsignals`. P: counting.
* **C44 The marginalising timing model removes the timing-model subspace.** M: `MarginalizingNmat.solve`. P: matrix algebra.
* **C45 Marginalising agrees with an explicit wide-prior timing model.** M: as 44 and 34. P: Woodbury plus a limit over R.
* **C46 MarginalizingNmat refuses ill-formed combinations.** M: operand and shape dispatch. P: case analysis.
* **C47 Wideband DMX bins account for every TOA.** M: interval counting. P: refutation; positive theorem for ordered disjoint bins.
* **C48 Wideband DM terms equal the full DM likelihood.** M: weighted means over R. P: completing the square.
* **C49 Conditional coefficients are the Gaussian posterior mean.** M: normal equations. P: matrix algebra and convexity.
* **C50 Coefficient draws have the posterior covariance.** M: factor maps. P: matrix algebra; refutation of the fallback.
* **C51 Coefficients are attributed to the right signal.** M: running offsets versus `_idx`. P: induction; refutation.
* **C52 KernelMatrix accumulates priors at the given indices.** M: `KernelMatrix.add/set`. P: entrywise.
* **C53 The coefficient prior is the Gaussian density of the coefficients.** M: coefficient log prior. P: algebra over R.
* **C54 A selected GP's basis is block structured.** M: `_construct_basis` layout. P: induction over keys.
* **C55 Correlated GPs use one common time span.** M: class-level lists over event histories. P: induction; refutation.
* **C56 The uniform prior, quantile and sampler describe one distribution.** M: densities over R. P: Coquelicot integrals.
* **C57 The linear-exponential prior, quantile and sampler describe one distribution.** M: as 56. P: integrals, change of variables.
* **C58 The truncated normal prior is normalised on its open interval.** M: erf defined by its integral. P: integrals; rejection loop as a function of the random stream.
* **C59 The normal prior is the Gaussian density in all its calling conventions.** M: densities over R. P: algebra of exp and products.
* **C60 Function arguments are resolved with fixed precedence.** M: `Function` objects as an inductive; `__call__`. P: case analysis per keyword.
* **C61 Nested functions keep their own keywords apart.** M: same. P: refutation; positive theorem for disjoint keywords.
* **C62 Parameter names follow the template and are stable.** M: name templates over strings. P: injectivity.
* **C63 Sampling keeps hyperparameters consistent.** M: `_sample` with an explicit random stream. P: refutation; positive theorem without sharing.
* **C64 A decorated function called with complete numeric arguments is the plain function.** M: the decorator's dispatch. P: case analysis.
* **C65 Fourier bases with the same span nest.** M: basis as lists over R. P: list lemmas.
* **C66 A Fourier GP is stationary.** M: same. P: trigonometry, sums.
* **C67 Chromatic bases are row scalings of the achromatic one.** M: same. P: algebra.
* **C68 Spectra are positive and of matching length.** M: spectra over R. P: positivity of exp and differences.
* **C69 Overlap reduction functions are symmetric and bounded.** M: ORFs over R. P: analysis of x ln x.
* **C70 Monopole and dipole correlation matrices are positive definite.** M: quadratic forms. P: sums of squares.
* **C71 Linear interpolation basis reproduces linear functions.** M: nodes and hat functions over R. P: case analysis.
* **C72 Timing-model bases span the timing model.** M: column scaling. P: matrix algebra.
* **C73 Antenna patterns satisfy the total-power identity.** M: antenna pattern. P: algebra in an orthonormal frame.
* **C74 Ecliptic/equatorial conversions are inverse rotations.** M: 3x3 matrices. P: trigonometric algebra.
* **C75 The ephemeris delay vanishes for zero parameters and is linear in masses.** M: delay formula. P: linear algebra.
* **C76 Spherical-harmonic coefficient conversions are inverse.** M: index arithmetic of healpy and the two loops. P: injectivity of the index, loop invariants.
* **C77 Sorting is a stable permutation applied to every array.** M: stable insertion sort argsort, inverse loop. P: permutation lemmas.
* **C78 Filtering by time keeps all per-TOA data aligned.** M: pulsar record and `filter_data`. P: refutation; positive theorem for the filtered fields.
* **C79 Flags set in time order are read back in time order.** M: as 77. P: composition of permutations.
* **C80 Backend flags follow the documented precedence.** M: string arrays with fixed width. P: induction over TOAs.
* **C81 Shared-memory pulsars follow the documented lifecycle.** M: shared memory as a finite map, copies as states. P: invariant over traces.
* **C82 A pulsar saved to feather can be loaded back.** M: save and read with string column names. P: refutation; reader lemmas.
* **C83 The observation count bound covers the tim file.** M: file system as a map from names to lines, fuelled recursion. P: refutations; positive theorem.
* **C84 Loading a pulsar restores the working directory.** M: loader as a program in an exception+cwd monad. P: case analysis over all outcomes.
* **C85 Pulsar distances fall back consistently.** M: dictionary lookups. P: case analysis.
* **C86 The model summary counts parameters correctly.** M: counters. P: induction.
* **C87 A successful evaluation after failures is returned.** M: as C01. P: invariant; refutation for every limit.
* **C88 A kernel matrix is inverted as itself.** M: `KernelMatrix.inv` with the SVD as an oracle. P: algebra; refutation.
* **C89 The three ECORR methods give the same noise.** M: as C29-C31. P: from them.
* **C90 A wideband timing model needs a jump selection.** M: `__init__`. P: computation; the converse is in C47.
* **C91 An empty DMX interval.** M: as C48. P: the first error of the sums.
* **C92 Filtering keeps the parameter names of the design matrix.** M: as C78. P: refutation; positive theorem when no column vanishes.
* **C93 Explicit Fourier frequencies.** M: as C65, arrays and lists distinguished. P: computation.
* **C94 Seeded phase shifts are reproducible and shared.** M: generator state. P: the state is overwritten; truncation is constant on intervals.
* **C95 The general basis agrees with the specialised ones at every index.** M: as C67. P: refutation; positive theorem for nonzero indices.
* **C96 The ephemeris basis gives a dipole-correlated process.** M: as C65 and C68. P: sums over six columns.
* **C97 Correlations of an anisotropic background are those of its sky map.** M: maps as sums over harmonics, matrices as lists of rows. P: exchange of finite sums.
* **C98 The Hellings-Downs correlation matrix is positive definite.** M: as C69. P: the curve is a convergent series of powers of the cosine with their isotropic and dipole averages removed; each term is a Gram matrix minus a projection (Cauchy-Schwarz for the multinomial scalar product), and limits of positive forms are positive.
* **C99 Every TOA gets the waveform of its own selection.** M: ModelDet.v, functions as in ModelFunc.v. P: invariant of the loop over sorted keys; a TOA selected by several keys keeps the last.
* **C100 Splitting the TOAs does not change a pointwise waveform.** P: masked arguments of a function that works entry by entry give the masked result; induction over the keywords shows that the call sees the mask in its arguments only.
* **C101 The ephemeris delay by epochs.** P: the epochs are the buckets of C13 with at least one TOA; interpolation at a sample is the sample.
* **C102 Waveforms of eccentric binaries.** M: ModelCw.v, objects of the caller returned beside the value. P: addition theorems, then derivative harmonic by harmonic.
* **C103 Orbits.** P: logarithm of Peters' relation has derivative zero; solutions are built from the inverse of an integral over the eccentricity.
* **C104 Parameter classes.** M: ModelParClass.v over ModelFunc.v. P: logarithms of products; keyword resolution as in `function_call`.
* **C105 Positions.** M: ModelBuild.v. P: trigonometry; coordinates of a direction by arc functions.
* **C106 Taken over from the packages.** M: same. P: invariants of the loops over parameters and flags.
* **C107 The tempo2 object.** M: same, values before and after. P: lookups after the loop of assignments.
* **C108 Dropping.** M: same, sets of attributes. P: the reachable sets are three.
* **C109 Gaussian process objects.** M: ModelGp.v over ModelFunc.v and ModelCache.v. P: invariant of both caches: what is stored is the right answer for some parameters with the stored key; functions depend on the values of their parameters only.
* **C110 Their parameters.** M: same. P: dictionaries filled by name; injectivity of joined names in one part.
* **C111 Common processes.** M: same. P: as C109.
* **C112 ECORR as a basis and as a kernel is the same model.** M: the basis model and the kernel from one quantisation per selection, collections and likelihood as for C29-C34. P: the columns of the basis are the indicators of the kernel's epochs, key by key; the covariances agree, the likelihood depends on the covariance only.
* **C113 Arrays as objects.** M: ModelColl.v and ModelSigs.v over ModelGp.v and ModelCache.v. P: every cache of a collection holds right answers for some parameters with the stored key; a state of a collection is fine if its signals and caches are; every method keeps this and gives the right answer. The signals of enterprise are shown to satisfy what is asked of signals.
* **C114 The value of an array's likelihood.** M: ModelArray.v: the arithmetic that C113 leaves open, on arrays that carry their sizes, put together from ModelNoise.v, ModelKernel.v, ModelPhi.v and ModelLike.v. P: each collection yields the solved products and the prior of a single pulsar (C29-C34, C112); pairs of common signals make one Kronecker block in the joint prior; the joint covariance by the identity of C35; then C113 for the history.
* **C115 Arrays of enterprise's signals.** M: ModelSized.v: the signals of C113 answering with the arrays of C114. P: what each kind of signal returns in terms of its functions (C109, C111 and the lemmas on selections); an array of sources yields sound collections, so C114 applies; an example with all five kinds of signals, sharing a column.
* **C116 Several correlated processes.** M: as C114. P: the classes and their members as the code collects them (ProofClasses.v); every class adds its own block matrix to the joint prior, so the off-diagonal covariance is a sum over classes; for cliques, the parts of the clique dictionaries are disjoint or equal; then as C114.
* **C117 ECORR and timing models in arrays.** M: ModelKinds.v: two more kinds of signals beside those of ModelSized.v. P: both have only a cache, whose entries are right answers; epochs by C13 through the renaming of the selections after their parameters; then C114 and C116. An example with both methods of ECORR, a parameter, a constant, an offset and two classes.
* **C118 Wideband timing models in arrays.** M: ModelKinds.v: the class as an object with eight caches over the base class of ModelGp.v, the methods of ModelWide.v between them. P: every cache holds right answers, method by method; delay, prior and log prior are then those of C48, which is proved for any covariance of the residuals; kinds_likelihood and kinds_classes (C117) include it. An example with a parameter, a constant, a jump and a process.
* **C119 Chi-squared of DMs.** M: two methods. P: sums over intervals; the identity of weighted scatter.
* **C120, C121 The standard model and noise models.** M: ModelStandard.v: functions with names and defaults of their arguments, factories, one array; any list of processes (red, dispersion, chromatic) with power laws, free spectra or any prior function, the common process present (C120) or not (C121). P: calls of the functions computed for any parameters; each pulsar's signals add what `kinds_classes` (C117) asks for; Fourier covariance as a sum of cosines; Hellings-Downs, dipole and monopole positive definite for different directions (C98); the selections of a process are blocks of TOAs with their own parameters and spectra; keywords are classes or instances of parameters, constants or numbers (`arg_has`); other prior functions are described by what their call returns (`shape_has`), which `standard_shapes` derives for the spectra of C68. Epochs come from C112's `ecorr_kernel`. `standard_bases` is about the bases made without keywords (their defaults are not used by the factories).
* **C122 Noise dictionaries.** M: ModelDefault.v: each signal replaces the values of the constants reached through its `_params`, functions of a class those reached through their members; marginalised timing models have no `_params`, wideband timing models only those of the DMs. P: an array after `set_defaults` is the array made from sources with these values (`defaults_made`), so that C120 and C121 apply (`standard_defaults`, `noise_defaults`; functions given as keywords by induction on classes and functions, `set_inst`, `set_agree`; power laws, free spectra and other prior functions in which no constant has the name of a parameter). `late_defaults`: a cached noise vector hides values set later; `late_defaults_refuted` is a concrete case.
* **C123 Keywords of spectra with turnover, knee or break.** M: functions of ModelStandard.v. P: `call_kws`: a call through `Function` gets each keyword's value by its name or its default; then algebra of real powers. `keywords` says what the keywords are worth without the model's call.
* **C124 Slopes of spectra.** M: ModelSpectra.v. P: logarithms of the densities of C68 as functions of the logarithm of the frequency, differentiated; density and slope are determined by the variances (`density_one`, `slope_one`), so that the limits hold for any density.
* **C125 Names of parameters.** M: ModelNames.v lists the names of the nonconstant parameters of each signal as `_params` has them. P: `src_named` says from the description of a signal alone which names it has; membership in both directions through the dictionaries, where a later parameter takes the place of an earlier one of its name. `std_named` writes the names of the standard model out. `defaults_names` says that noise dictionaries change none of them. Functions that take functions show the parameters of these under their own keywords, where they may hide each other (C122), and are left out.
* **C126 No shared white noise parameters.** M: `us_name` and `join_us` as in C125. P: the first underscore ends the name of the pulsar, and none of the keywords with its underscore is the end of another, so that name of pulsar, backend and keyword can be read off. `shared_names_refuted` has two pulsars with one EFAC.

## Assumptions per theorem

Generated from the output of `Print Assumptions`.

<!-- assumptions begin -->
* no axioms:
  * PropBuild.v: pint_dmx, t2_dmx, setpars_unfitted, pint_flags_spec, pint_picklable, t2_picklable, drop_pintpsr_spec, drop_twice_refuted
  * PropCache.v: cache_transparent, cache_returns_when_nothing_raises, cache_bound, cache_repeat_hits, cache_bound_with_failures_refuted, basis_builder_latest, basis_builder_latest_refuted, constants_set_before_use_partial, constants_used_on_miss_partial, constants_take_effect_refuted, shared_array_on_miss_partial, cached_results_change_refuted, collection_delay_is_sum_partial, collection_delay_stale_refuted, memo_by_id_transparent, memo_by_id_mutation_refuted, retry_without_failures, retry_after_failure_refuted
  * PropCommon.v: span_needed
  * PropCompose.v: signal_sum_flattens, pta_sum_in_order, pta_sum_model_plus_array_raises, pta_sum_foreign, pta_getitem_spec, get_signal_first, set_default_exact, correlated_branch_iff
  * PropDefault.v: defaults_common
  * PropDet.v: det_arguments, det_params
  * PropFiles.v: save_feather_fails, read_saved, read_noise, read_many_rows_refuted, get_maxobs_bound_partial, get_maxobs_terminates, get_maxobs_cycle, get_maxobs_mixed_refuted, get_maxobs_comment_refuted, load_restores_directory, load_tempo_directory, load_pint_directory, load_pint_clock, load_missing, load_nothing, pdist_own, pdist_prefixed, pdist_fails
  * PropFunc.v: function_call, function_call_raises, nested_takes_outer_refuted, nested_unlisted_refuted, outer_replaces_nested_refuted, nested_listed, function_parameters, function_names, us_name_form, function_names_nested_refuted, decorator_result, currying, funcargs_split, selection_binding, selection_shift_refuted
  * PropGp.v: selection_names
  * PropNames.v: defaults_names
  * PropOwner.v: white_names_distinct, white_owner
  * PropParams.v: pta_params_spec, map_params_lossless, map_params_too_long, map_params_too_short_scalar, map_params_too_short_refuted, param_names_unique, param_names_unique_refuted, hypercube_quantiles_partial, hypercube_hierarchical_refuted, summary_counts_spec, summary_fixed_count_refuted
  * PropPhi.v: slices_consecutive, slices_partition
  * PropPulsar.v: sort_data_permutes, sort_data_unsorted, sort_data_stored, filter_data_aligned, filter_data_again, filter_data_one_bound, filter_data_other_arrays_refuted, filter_data_fitpars, filter_data_fitpars_refuted, set_flags_read_back, set_flags_lengths, set_flags_array, backend_flags_precedence, backend_flags_none, backend_flags_joined_refuted
  * PropQuant.v: quant2ind_spec
  * PropSample.v: sample_keys, sample_fuel, sample_consistent_partial, sample_shared_refuted, sample_chain_refuted, sample_array_refuted
  * PropSelect.v: by_backend_partition, by_flag_spec, no_selection_partition, filtered_backends, custom_backends_none, custom_backends_dict_single, nanograv_recovery_refuted, bound_attributes_partial, bound_attributes_gap_refuted, bound_attributes_keyword_gap, masked_attribute, unmasked_attribute, masked_position_refuted, selection_names
  * PropShared.v: shared_contents, shared_inflate, shared_destroyed, shared_unlinked_once, shared_leak, shared_destroy_inflated, shared_status, shared_write, shared_deflate, shared_empty_array_refuted
  * PropWide.v: wideband_default_refused
* `ClassicalDedekindReals.sig_forall_dec`:
  * PropBuild.v: cluster_epoch_refuted, radec_missing, pint_radec_spec, fit_refuted, frozen_refuted
  * PropDet.v: det_delay, det_raises, det_split, det_split_shared, nested_mask_refuted, det_depends
  * PropInterp.v: excluded
  * PropOwner.v: shared_names_refuted
  * PropParClass.v: user_parameter, gp_coefficients, sampler_keywords, sampler_size, same_arguments_refuted
  * PropPrior.v: normal_ppf
  * PropSelect.v: custom_backends_dict_overlap_refuted
  * PropSpectra.v: infinitepower_values
* `ClassicalDedekindReals.sig_forall_dec`, `FunctionalExtensionality.functional_extensionality_dep`:
  * PropBases.v: extent_spec
  * PropBuild.v: pint_planetssb_spec, pint_planets_missing, pint_sunssb_spec
  * PropColl.v: array_history, signals_history, array_exception_refuted, array_constant_refuted, array_sampled_refuted
  * PropDefault.v: hidden_defaults_refuted, late_defaults, late_defaults_refuted
  * PropDet.v: delay_params_refuted, ephem_daily_refuted
  * PropEphem.v: orbit_interpolation, ephemeris_spectrum
  * PropGp.v: marginal_parameters, sampled_parameters, selection_keyword_refuted, shared_keyword_refuted, common_delays, common_given_refuted
  * PropHarm.v: covariance_entries, covariance_positive, map_response
  * PropInterp.v: linear_interp, linear_interp_empty, linear_interp_refuted, svd_span
  * PropOrf.v: orf_distinct, monopole_positive, dipole_positive, same_position_singular
  * PropParClass.v: uniform_quantiles, resample
  * PropPrior.v: uniform_degenerate, trunc_scalar_draws, trunc_vector_draws, trunc_terminates, trunc_mixed_refuted
  * PropQuant.v: white_ndiag_sum, quantisation_partition, quantisation_empty, quantisation_order_independent, ecorr_empty_selection
  * PropSelect.v: cut_half_partition, by_freq_band_spec, default_bands_cover
  * PropStandard.v: standard_span
* `ClassicalDedekindReals.sig_forall_dec`, `ClassicalDedekindReals.sig_not_dec`, `FunctionalExtensionality.functional_extensionality_dep`:
  * PropBuild.v: pos_angles, pos_separation, pos_injective, position_agrees, position_B, t2_planets, t2_masses, t2_solar_system, second_pulsar, second_pulsar_refuted
  * PropDet.v: ephem_epochs, ephem_isolated, ephem_none
  * PropEphem.v: ecliptic, ecliptic_inverse, euler_rotation, euler_orthogonal, framerotate, frame_lengths, frame_identity, ephemeris_delay, ephemeris_zero, ephemeris_linear, drift_refuted, ephemeris_missing, ephemeris_basis
  * PropGw.v: antenna_power, antenna_angles
  * PropHarm.v: clm_roundtrip, alm_roundtrip, clm_surplus, alm_shape, real_harm, maps_agree, anis_basis_sum, anis_orf_map, response_layout, response_power
  * PropInterp.v: normed_span, given_norms, timing_refused, timing_span, svd_rank_refuted, stable_fast, stable_zero, stable_slow, tm_weights
  * PropOrf.v: anis_symmetric, anis_isotropic, anis_value
  * PropPrior.v: trunc_class
* `ClassicalDedekindReals.sig_forall_dec`, `Epsilon.epsilon_statement`, `FunctionalExtensionality.functional_extensionality_dep`:
  * PropClasses.v: combine_shared
  * PropCond.v: attribution, attribution_joint, attribution_shared, attribution_separate, attribution_separate_refuted, timing_attribution, timing_attribution_refuted, coefficient_delay
  * PropDefault.v: defaults_made
  * PropEcorr.v: combine_posdef
  * PropKernel.v: combine_covariance, combine_order_refuted, combine_collision_refuted, combine_repeats_refuted, combine_layout, combine_distinct, combine_sharing, combine_sharing_refuted, kernel_add, kernel_set, kernel_slice, kernel_slice_diagonal_refuted, selected_basis, selected_prior, selected_covariance, selected_prior_second_call_refuted
  * PropNames.v: parameter_names
  * PropNoise.v: blockmatrix_no_epoch, noise_layouts, marginalizing_add, marginalizing_add_vector
  * PropPhi.v: phi_own, phi_cross, phi_pair, phi_symmetric
  * PropWide.v: wideband_accept, wideband_bins_accepted, wideband_bins_cover_partial, wideband_bins_refuted, wideband_empty_accepted
* `ClassicalDedekindReals.sig_forall_dec`, `ClassicalDedekindReals.sig_not_dec`, `Classical_Prop.classic`, `FunctionalExtensionality.functional_extensionality_dep`:
  * PropBases.v: basis_shape, default_frequencies, spaced_frequencies, default_is_linspace, bases_nest, explicit_frequencies, list_frequencies, list_frequencies_refuted, stationary, cross_covariance, shifts, seeded_basis, same_seed, dm_basis, chromatic_basis, temponest_basis, envelope_basis, chromatic_is_dm, dm_at_reference, general_plain, general_chromatic, general_flag, general_index_refuted
  * PropBuild.v: pos_surjective
  * PropCommon.v: common_span, same_frequencies, current_basis, evaluations_succeed, phicross_symmetric, phi_values, basis_history, explicit_span, interleaved_refuted, reused_class_refuted, no_toas, unevaluated
  * PropCw.v: cw_strain, cw_circular, cw_harmonics, cw_nothing, cw_harmonics_refuted, cw_symmetry, cw_amplitude, cw_mass_array_refuted, cw_mass_wave_refuted, peters_relation, inspiral_exists, orbit_monotone, orbit_signs, orbit_chirp, enhancement_incr, orbit_precession, orbit_constant, orbit_constant_exists
  * PropGp.v: gp_history, after_error_refuted, after_error_density_refuted, constant_basis_refuted, coefficient_density, broadcast_density_refuted
  * PropGw.v: bwm_shape, bwm_bounded, bwm_lipschitz, bwm_strain, bwm_source
  * PropHd.v: hd_semidefinite, hd_definite, hd_sharp, hd_process
  * PropKeyword.v: standard_turnover, standard_knee, standard_broken
  * PropOrf.v: orf_symmetric, hd_bounds, hd_minimum, hd_limit, orf_diagonal, ephemeris_dipole, ephemeris_position
  * PropParClass.v: pdf_logpdf, value_lookup, uniform_scalar, uniform_bounds, uniform_vector, uniform_vector_bounds, uniform_sampling, vector_length_refuted
  * PropParams.v: lnprior_is_log_of_density, lnprior_vector_dict
  * PropPrior.v: uniform_density, uniform_quantile, uniform_sampler, linexp_density, linexp_pushforward, linexp_quantile, linexp_sampler, linexp_degenerate, linexp_vector, trunc_density, trunc_conditional, normal_density, normal_shape, normal_distribution
  * PropQuant.v: measurement_noise_formula, ecorr_epochs
  * PropSlope.v: powerlaw_slope, turnover_slope, knee_slope, broken_slope, broken_limits, broken_sides, broken_documented_refuted
  * PropSpectra.v: powerlaw_variance, turnover_shape, turnover_knee_shape, broken_powerlaw_shape, amplitude, slope, spectra_positive, repeated_frequency, free_spectrum_values, t_process_values, t_process_one, t_process_range, genmodes_weights, indivisible, fourier_gp, six_columns
  * PropStandard.v: standard_shapes, standard_keyword, standard_bases
* `ClassicalDedekindReals.sig_forall_dec`, `ClassicalDedekindReals.sig_not_dec`, `Epsilon.epsilon_statement`, `FunctionalExtensionality.functional_extensionality_dep`:
  * PropGauss.v: normal_mx_diag, normal_mx_linear, normal_mx_singular
  * PropWideDm.v: wideband_chi2, wideband_chi2_empty
* `ClassicalDedekindReals.sig_forall_dec`, `ClassicalDedekindReals.sig_not_dec`, `Classical_Prop.classic`, `Epsilon.epsilon_statement`, `FunctionalExtensionality.functional_extensionality_dep`:
  * PropArray.v: array_likelihood, array_correlated
  * PropClasses.v: array_classes
  * PropCond.v: conditional_coefficients, get_coefficients_separate, get_coefficients_joint, get_coefficients_sparse, get_coefficients_sparse_refuted, get_coefficients_qr, get_coefficients_qr_refuted, coefficient_prior, coefficient_marginal, coefficient_marginal_gp
  * PropDefault.v: standard_defaults, noise_defaults
  * PropEcorr.v: ecorr_same_covariance, ecorr_same_likelihood, ecorr_no_epochs, ecorr_same_refuted
  * PropGauss.v: normal_mx_shape
  * PropKinds.v: kinds_ecorr, kinds_ecorr_empty, kinds_likelihood, kinds_classes
  * PropLike.v: likelihood_density, likelihood_marginalised, block_one_column, correlated_density, correlated_marginalised, likelihood_no_basis, correlated_no_basis, likelihood_neginf, correlated_neginf, marginalised_explicit_gp, marginalised_explicit, marginalised_limit, kernel_inverse, kernel_inverse_indefinite
  * PropNames.v: standard_names
  * PropNoise.v: diag_solve, sherman_morrison_solve, sherman_morrison_overlapping_refuted, blockmatrix_solve, blockmatrix_not_posdef, blockmatrix_row_raises, noise_sum, ecorr_before_marginalizing, marginalizing_solve, marginalizing_invariance, marginalizing_rank_deficient, marginalizing_shapes, ecorr_methods, sparse_solve
  * PropPhi.v: cliques_separated, cliques_vector, cliques_dense, cliques_untouched, cliques_refuted, partition_one_class, partition_two_classes_refuted, partition_dense, methods_agree, sparse_inverse, sparse_refuses, method_unknown
  * PropSignals.v: signals_likelihood, signals_correlated
  * PropStandard.v: standard_likelihood, noise_likelihood
  * PropWide.v: wideband_dm_terms, wideband_likelihood, wideband_measured, wideband_empty_bin
  * PropWideSig.v: kinds_wideband
<!-- assumptions end -->
