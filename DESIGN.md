# Formal model of sporco in Rocq (Coq 8.16.1)

The plan was written before the proofs and is kept, per property, in section 6; the other sections describe the development as it is.

## 1. Approach

* Every modelled function is a total Gallina function in a `*Model.v` file, with a comment citing the source file and lines.
  Exceptions are values. Statements use the vocabulary of `*Spec.v` files, which do not mention the model. Lemmas are in
  `*Proofs.v`; property theorems are in `*Props.v`, named `Cnn_...`, with `Print Assumptions` beneath and an `Example` that
  meets the hypotheses beside them.
* Numerical code is modelled over the real numbers of the standard library, over complex numbers built from them
  (`Cplx.v`), or, for the linear solvers, over an arbitrary closed field of mathcomp. Statements are about exact arithmetic.
* numpy/scipy routines which are not part of this code base (SVD, eigendecomposition, LU/Cholesky factorisation, linear
  programming, root finding) are arguments or section variables with their mathematical contract as an explicit hypothesis. The
  discrete Fourier transform is written out as a finite sum and its properties are proved.
* If a property is false of the code as written, a theorem with suffix `_refuted` gives a witness, and the largest part found
  to be true is proved separately.
* Executions are unbounded: histories are lists of arbitrary length, arrays have arbitrary sizes, iterations arbitrary numbers,
  and schedules of parallel workers are arbitrary interleavings.

## 2. Trusted base

* The kernel of Coq 8.16.1 (and its checker).
* The axioms that `Print Assumptions` lists, given per theorem in section 7. They all belong to the standard library:
  `ClassicalDedekindReals.sig_forall_dec`, `ClassicalDedekindReals.sig_not_dec` (the construction of the real numbers),
  `FunctionalExtensionality.functional_extensionality_dep`, and for a few theorems about limits `Classical_Prop.classic`.
  No axiom is added by this development; there are no Admitted proofs, no functors, no module types and no plugins.
* `coqchk` reports in addition, for the libraries that are loaded, parameters of sealed modules inside the standard library
  (`RbaseSymbolsImpl`, `ssrunder`) and mathcomp (`finfun`, `bigop`, `algC` and so on). These are definitions hidden by module
  sealing, not assumptions.
* That the model describes the code. This is a matter of reading: the model was written by hand from the source, function by
  function, and the correspondence is not checked by machine. It is supported by the citations and by the mutation log in
  `seeded/LOG.jsonl`: edits of the model as realistic bugs would make them, with the theorems that then fail.
* The contracts of external routines listed in section 3.

## 3. Contracts of external routines

| routine | used in | contract assumed |
|---|---|---|
| `scipy.optimize.brentq` | L1Proj | returns a root of the function if the values at the ends have opposite signs (proved for the call made) |
| `numpy.linalg.svd` | Nuc, Steps (RobustPCA) | orthonormal factors, non-negative singular values, product equal to the argument |
| `scipy.linalg.eigh` | LinSolve (C24) | orthogonal diagonalisation of the symmetric argument |
| `lu_factor/lu_solve, cho_factor/cho_solve` | LinSolve (C23) | solves the system whose matrix was factorised, when it is invertible (invertibility proved) |
| `scipy.optimize.linprog` | Interp (C55) | returns an optimal solution of the linear program |
| `np.pad` | Array, Bndry | contents of the interior unchanged; `wrap` mode proved to meet it |
| `multiprocessing.Pool.map` | Inter/Par, Assign/PrlCns | every task is executed to its end, in any interleaving, before the call returns |
| `urllib.request.urlopen` | Net | an arbitrary stream of outcomes |
| FFT routines | Fft and users | the finite sums that define the DFT, and for `irfftn` the rule that imaginary parts of self-conjugate samples are ignored |
| `timeit.default_timer` | Timer, Solve | arbitrary readings (non-decreasing where a theorem says so) |

## 4. What is modelled

One entry per model file, taken from its header; every definition in it carries its own citation of the source lines.

* **CdictModel.v** — Model of sporco/cdict.py: dictionaries constrained by a tree of defaults. A Python value is a leaf (any non-dict object, type [A]) or a dict, an association list from keys (strings) to values in insertion order. A Python dict has no repeated key: that is the predicate [wf]. Simplifications: leaves are opaque (in particular no leaf has an [update] or [check] method or supports [in]); a nested [ConstrainedDict] stores a path and recomputes its node of the default tree at every check, whereas the model carries that node along; the recursion is over fuel, and the entry points below supply the depth of the default tree, which is shown to be enough.
* **TimerModel.v** — Model of util.Timer and util.ContextTimer (sporco/util.py 574-899). Time readings are integers (ticks of the clock [timeit.default_timer]); the code uses floats. The two dicts [t0] and [td] always have the same keys (both are written together at lines 607-608, 635-636), so the model keeps one association list from labels to the pair of entries. Every operation takes the clock reading as an argument.
* **NetModel.v** — Model of util.netgetdata (sporco/util.py 171-208).
* **GridModel.v** — Model of util.grid_search (sporco/util.py 80-167) and of mpiutil (sporco/mpiutil.py 26-175).
* **OptShareModel.v** — Model of the options objects of convolutional dictionary learning, which update the dict of defaults of their class each time one is created (sporco/dictlrn/cbpdndl.py 325-381; sporco/dictlrn/cbpdndlmd.py 331-387 is the same code for the masked problem).
* **InitModel.v** — Model of the initialiser chains of the solver classes as sequences of attribute definitions and uses (sporco/common.py 146-225 and the __init__ methods cited below).
* **SolveModel.v** — Model of the main loops: ADMM.solve (sporco/admm/admm.py 293-389), PGM.solve (sporco/pgm/pgm.py 284-382) and DictLearn.solve (sporco/dictlrn/dictlrn.py 287-375), with their timers (sporco/util.py 574-803). The arrays of a solver are an abstract state [St]; the sub-steps are parameters. Simplifications: display output is left out; a callback may change the arrays but not the iteration counter, the statistics or the timer; exceptions raised by sub-steps are left out; the option IterTimer names a label of the timer (otherwise [elapsed] raises KeyError, which shows here as a [None] time).
* **RhoModel.v** — Model of ADMM.update_rho (sporco/admm/admm.py 549-575) over the real numbers. Rounding and NaN are left out; the conversion of the factor to the data type of the solver (line 572) is the identity.
* **ProxModel.v** — Model of sporco/prox/_lp.py, sporco/prox/_l21.py, sporco/prox/_dl1l2.py and linalg.proj_l2ball over the real numbers (rounding is left out). An array, or one group of an array for the functions with an [axis] argument, is a vector of dimension [n]. A norm over an axis with keepdims=True is constant on each group and is broadcast against the group, so that each group is treated by the function modelled here.
* **L1ProjModel.v** — Model of sporco/prox/_l1proj.py over the real numbers. An array (axis=None) or one fibre of an array (axis given) is a vector of dimension [n]; the fibres are treated independently, as in the code. scipy's brentq is an argument.
* **LinSolveModel.v** — Model of the linear solvers of sporco/linalg.py over exact fields: solvedbi_sm (232-273), solvedbd_sm (301-342), solvemdbi_ism (370-444), solvemdbi_rsm (448-511), lu_solve_* and cho_solve_* (583-811), solve_symmetric_sylvester (815-879). The diagonal-block solvers act independently on each DFT frequency; one frequency is modelled.
* **ArrayModel.v** — Model of sporco/array.py: ntpl2array, array2ntpl, transpose_ntpl_list (22-91), rolling_window (247-289), subsample_array (293-334), extract_blocks (338-379), average_blocks (383-428), combine_blocks (432-482).
* **SignalModel.v** — Model of the finite differences sporco/signal.py grad (115-168) and gradT (172-200), on arrays of any dimension with real entries, and of the total variation operators built on them: cnst_A, cnst_AT, LaplaceCentreWeight and GaussSeidelStep of sporco/admm/tvl2.py (307-371) and sporco/admm/tvl1.py (317-397). An array of shape [s] is a function on indices, used only on the indices valid for [s].
* **FftModel.v** — Model of sporco/fft.py: fftconv (376-417), fl2norm2 (421-445) and rfl2norm2 (449-484), with the transforms of numpy / pyfftw (fftn, ifftn, rfftn, irfftn with a shape argument) written out as finite sums. Exact complex arithmetic. An array of any dimension is a function of an index, and an index gives a coordinate for each axis.
* **CnvrepModel.v** — Model of the array layout inference of sporco/cnvrep.py: CSC_ConvRepIndexing (24-198), DictionarySize (211-264), CDU_ConvRepIndexing (277-454), stdformD (465-488), l1Wshape (492-550) and mskWshape (554-605). Arrays are represented by their shapes, the only thing these functions look at.
* **PcnModel.v** — Model of the dictionary constraint projections of sporco/cnvrep.py: zeromean (609-669), normalise (673-700), zpad (704-725), bcrop (729-864), Pcn (868-912), getPcn and its four functions (916-1074), on real arrays in the internal layout: [dimN] spatial axes, then channel, signal and filter axes. Exact arithmetic. The sizes in [dsz] are assumed not to exceed those of the array (otherwise numpy raises an exception or clips the slices; not modelled).
* **AdmmModel.v** — Model of the generic ADMM solver classes of sporco/admm/admm.py: the iteration of ADMM.solve (334-346) with relax_AX (441-458), ustep (434-437) and the residuals (722-775), and the specialised versions in ADMMEqual (877-983), ADMMTwoBlockCnstrnt (1165-1438), ADMMConsensus (1585-1707) and WeightedADMMConsensus (1794-1873). Exact arithmetic; arrays flattened to vectors, an array with a final block axis (consensus) being a function of the block number. The penalty parameter is fixed (update_rho is modelled in RhoModel).
* **NucModel.v** — Model of the nuclear norm functions (sporco/prox/_nuclear.py). Matrices are functions of row and column with explicit sizes; numpy.linalg.svd is a parameter, the float arithmetic is that of the real numbers.
* **StepsModel.v** — Model of the sub-steps of the sparse coding and dictionary update solvers of sporco/admm/bpdn.py, cmod.py and rpca.py. A two-dimensional array with [Nm] columns is a vector in C order, element (i, k) being at i * Nm + k; exact arithmetic.
* **PgmModel.v** — Model of the proximal gradient solvers, sporco/pgm/pgm.py, backtrack.py, momentum.py and stepsize.py. Arrays are vectors with [n] components. The methods a derived class supplies are parameters: obfn_f, obfn_g, grad_f, hessian_f and prox_g (which reads self.L). Timers, statistics and display are left out (C32, C33, C63).
* **PgmConvModel.v** — Model of sporco/pgm/cbpdn.py, class ConvBPDN, for one spatial axis of length N, one channel, one signal and M filters. A coefficient array is a vector of M * N entries, the entry of filter m at sample j at index m * N + j. A transformed array is a function of the filter and the frequency; the code stores the frequencies 0 .. N/2 only.
* **FlatModel.v** — Model of sporco/prox/_util.py: ndto2d and ndfrom2d.
* **CproxModel.v** — Model of the complex branch of prox_l1 (sporco/prox/_lp.py 183).
* **InterpModel.v** — Model of sporco/interp.py: lanczos_kernel, interpolation_points, lanczos_filters, lstabsdev, lstmaxdev.
* **MetricModel.v** — Model of sporco/metric.py: mae, mse, snr, psnr, isnr, bsnr. Images are raveled complex (or real) arrays of n entries; pamse and gmsd are in PerModel.
* **TileModel.v** — Model of sporco/util.py tiledict (285-352). The dictionary is an array indexed by row, column, channel and filter (a single channel for dictionaries of three axes); the reshape of a two-axis dictionary (302-304) produces such an array.
* **StatusModel.v** — Model of sporco/common.py solve_status_str (230-294) and of the display of a status line, `print(fmtstr % itdsp)` (admm/admm.py 592-616). Text is a list of code points, as len() counts them. Simplified: Python's % operator is modelled for conversions %[-][width][.precision]letter (not %%, not the other flags; a leading 0 of the width only changes the padding character); what a conversion letter does with a value is a parameter [body]; the class \d of the regular expression is restricted to the ASCII digits.
* **BndryModel.v** — Model of the constraints applied after soft thresholding by the options NonNegCoef and NoBndryCross: sporco/admm/cbpdn.py 304-311 (and 1652-1660), sporco/pgm/cbpdn.py 290-297, sporco/admm/parcbpdn.py 226-232 (all with the same slices). Arrays are functions of the full index [i_0; i_1; ...]; the first dimN axes are the spatial ones; [Nv] are the signal sizes and [dshape] the leading axes of the dictionary.
* **FiltModel.v** — Model of sporco/signal.py tikhonov_filter (281-301), gaussian (321-331) and local_contrast_normalise (364-385). Arrays and transforms as in FftModel.v; [sh] gives the length of the signal along each axis; the first two axes are filtered. Exact arithmetic; the conversions astype(s.dtype) of line 301 are the identity for real and complex signals and truncation for integers ([astype_int]).
* **StatsModel.v** — Model of the iteration statistics of the solver classes: the class attributes that declare the fields of the records and the columns of the display, the methods that compute the values, and the configuration objects of the dictionary learning classes (sporco/common.py 97-142, sporco/admm/*.py, sporco/pgm/*.py, sporco/dictlrn/dictlrn.py 29-158, sporco/dictlrn/common.py). A class is a constructor of [cls]; attributes and methods are resolved as Python does for single inheritance, from the class itself up through its bases. The numerical terms are parameters: [env] gives the value of each mathematical term (data fidelity, norms, ...) at the current iterate, as computed by the lines cited, so that the model keeps which term is put in which position and how the objective function is assembled from them. Names containing Greek or script letters are transliterated, different names remaining different.
* **OptMutModel.v** — Model of what the constructors of the dictionary learning classes do to the options object they are given (sporco/dictlrn/bpdndl.py 121-191, wbpdndl.py 131-195, cbpdndl.py 385-474, cbpdndlmd.py 400-498). The options object and its two nested objects are those of OptShareModel: 'BPDN'/'CBPDN' is [cb] and 'CMOD'/'CCMOD' is [cc]. opt['CMOD'] is a reference to the nested object (cdict.py 195-218), so that its update method changes the caller's object. The constructors of the sub-problem solvers only read the options (in the whole package the five calls of update modelled here are the only statements that assign to an options object); what they read is recorded, and whether they raise is a parameter.
* **CacheModel.v** — Model of the cached part of the linear solve (option HighMemSolve) of the convolutional sparse coding solvers: sporco/admm/cbpdn.py, pdcsc.py and cbpdntv.py. As in LinSolveModel one DFT frequency is modelled (for the product dictionary classes one frequency and one eigenvector of B^T B), and the dictionary has a single channel: otherwise the code stores None in the cache (e.g. cbpdn.py 252-256). The right hand side of the x step depends on Y and U and is an argument of the step.
* **InterModel.v** — Model of a phase of parallel work on shared arrays: pool.map(f, range(n)) (multiprocessing.Pool.map as called in sporco/admm/parcbpdn.py 868 and sporco/dictlrn/prlcnscdl.py 508, 1074). The arrays are in shared memory (RawArray, parcbpdn.py 90-111, prlcnscdl.py 69-89). Each task is a sequence of actions; the workers execute the actions of the tasks in any interleaving that keeps the order within each task, and the call returns when all are finished. The splitting of the task list over the workers (the chunk size) restricts the interleavings further.
* **ParModel.v** — Model of sporco/admm/parcbpdn.py: the shared arrays, the functions run by the worker processes (132-347), the partition of the filters into groups (694-697) and the solve method (728-835). Arrays hold real numbers. The axes of an array other than the filter axis are flattened into a pixel index below [P]. The solution of the linear system in the DFT domain (par_xstep 145-160) is an argument: [xs i yu0 yu1 f p] is the coefficient map of filter [f] and [dxs i yu0 yu1 p] the product of the filters of group [i] with their maps, for the arrays yu0 = Y0 - U0 of the group and yu1 = Y1 - U1/alpha of its filters (see C21 for the system solved). An assignment to (a slice of) an array computes each element and then stores each element, as separate actions.
* **ParObjModel.v** — Several ParConvBPDN objects in one process (parcbpdn.py 599-724, 728-835): the arrays and parameters of the steps are variables of the module, set by the constructor; each object keeps its iteration number and its options.
* **AssignModel.v** — Tasks made of numpy assignments to (slices of) shared arrays, with private memory for the right hand sides; see InterModel.v for the execution of several tasks.
* **PrlCnsModel.v** — Parallel consensus dictionary learning: /repo/sporco/dictlrn/prlcnscdl.py. Arrays in shared memory are flattened to real elements (a complex element is two real elements); transforms, linear solvers and the projection are parameters.
* **DlModel.v** — Dictionary learning by alternation: /repo/sporco/dictlrn/dictlrn.py, with the sub-solvers used by cbpdndl.py (convolutional sparse coding and constrained dictionary update, by ADMM or by accelerated proximal gradients). Arrays are abstract; numerical functions are parameters.
* **OnlineModel.v** — Online convolutional dictionary learning: /repo/sporco/dictlrn/onlinecdl.py.
* **CscModel.v** — Model of the x step of the convolutional sparse coding solvers of sporco/admm/cbpdn.py for real data: setdict and xstep of GenericConvBPDN and ConvBPDN (242-293), ConvElasticNet (930-963), ConvBPDNGradReg (1145-1189) and ConvTwoBlockCnstrnt (1589-1631, inherited by ConvMinL1InL2Ball and ConvBPDNMaskDcpl), the data fidelity value (obfn_dfd 337-344) and reconstruct (373-380), with the solvers of sporco/linalg.py (266-273, 335-342, 366, 417-444) at each frequency. Exact arithmetic. Arrays are functions of an index as in FftModel, except that the filter axis (and the channel axis of a multi-channel dictionary) is a separate argument. The signal axis, and the channel axis of a signal coded with a single-channel dictionary, are coordinates of the index which are not transformed. The cached part of the solution (HighMemSolve) is the subject of CacheModel, and is recomputed here.
* **CscIterModel.v** — The ADMM iteration of ConvBPDN, ConvElasticNet and ConvBPDNGradReg (sporco/admm/cbpdn.py) with the steps of CscModel, for real data. The generic iteration of AdmmModel works on vectors, so that arrays are flattened in C order: entry (m, k) of the coefficients is at m * size + k, where k counts the positions on the filtered axes. The x step treats the slices of the arrays with different coordinates on the other axes (signal index, channel index of a signal with a single-channel dictionary) independently (CscIterProofs.xstep_slice), and so do the other steps; the slice with the coordinates [base] is modelled.
* **CscTwoModel.v** — The ADMM iteration of ConvMinL1InL2Ball and ConvBPDNMaskDcpl (sporco/admm/cbpdn.py), for real data. As in CscIterModel the slice of the arrays with the coordinates [base] on the axes which are not filtered is modelled, flattened in C order. Block 0 has the shape of the signal, entry (c, k) being at c * size + k; block 1 has the shape of the coefficients. The axis swap in block_sep0 and block_cat (1691-1715) is the change between the layout with a channel axis and this one.
* **TvdModel.v** — Model of total variation deconvolution for real data, sporco/admm/tvl2.py TVL2Deconv (497-701) and sporco/admm/tvl1.py TVL1Deconv (527-743): signal.gradient_filters (228-240), constructor, xstep, ystep, cnst_A and cnst_c, with the ADMM iteration of AdmmModel. Exact arithmetic; complex data, LinSolveCheck and the initial values are not part of this model. Arrays are functions of an index as in FftModel, the component axis being a separate argument. The generic iteration works on vectors, so that arrays are flattened. The entries with the same coordinates on the axes which are not filtered form a slice; slice [t] has the coordinates [bases t], and entry k of it (in C order) is at t * size + k, component j of an array of gradients being at (j * NS + t) * size + k.
* **CtvModel.v** — Model of sporco/admm/cbpdntv.py for real data: ConvBPDNScalarTV (constructor 195-244, setdict 248-263, xstep 277-298, ystep 314-321, obfn_reg 439-446, cnst_A 457-509, cnst_B 529, cnst_c 538) and ConvBPDNVectorTV (ystep 707-715, obfn_reg 719-727), with the ADMM iteration of AdmmModel. Exact arithmetic. HighMemSolve (whose cached value is the one computed by the solver, see CacheModel), LinSolveCheck and the initial values are not part of this model; cnst_A is given the transform of X, which is the array Xf that the code passes (CtvProps.C76_Xf). Arrays are functions of an index as in FftModel, the filter and component axes being separate arguments. The generic iteration works on vectors, so that arrays are flattened. The entries with the same coordinates on the axes which are not filtered (signal index, channel index of the coefficients) form a slice; slice [t] has the coordinates [bases t]. Entry k of the slice t of coefficient map m is at (m * NS + t) * size + k, component j of an array of gradients being at ((j * M + m) * NS + t) * size + k, and the component K is the copy of the coefficients.
* **AmsModel.v** — AddMaskSim (sporco/admm/cbpdn.py 2287-2482) around ConvBPDN: mask simulation by additional impulse filters, for real data. As in CscIterModel the slice of the arrays with the coordinates [base] on the axes which are not filtered is modelled, flattened in C order; the maps of the impulse filters follow those of the M given filters (Di, 2345). [aC], [aK] and [aM] are the channel, signal and filter axes of the internal layout and [wsh] is the shape of self.W, which mskWshape (2355) and the axis swap for a multi-channel dictionary (2361-2362) determine: its size on an axis is one when the mask given by the user has no such axis, or a singleton one.
* **GrdModel.v** — The ADMM iteration of ConvL1L1Grd (sporco/admm/cbpdn.py 2488-2773), for real data, with the layout of CscTwoModel: block 0 has the shape of the signal and block 1 the shape of the coefficients. The options NonNegCoef and NoBndryCross, which the y step inherits, are not modelled (they are off by default).
* **CcmModel.v** — The dictionary update solvers for real data: ConvCnstrMOD_IterSM (sporco/admm/ccmod.py 496-505) and ConvCnstrMOD_Consensus (787-838) with the base class ConvCnstrMODBase (275-366), and the proximal gradient solver ConvCnstrMOD of sporco/pgm/ccmod.py (231-323) with PGMDFT.xstep (pgm.py 796-799). Exact arithmetic. Arrays are functions of an index with [dN] spatial axes, the channel axis [dN], the signal axis [dN + 1] and the filter axis [dN + 2]. [K] is the number of entries on the signal axis: the number of signals, times the number of channels when the dictionary has one channel and the signal more (the reshape in lines 275-277, 320-322). The coefficient maps have one channel after this reshape. LinSolveCheck, which changes no variable of the iteration, is left out; the conjugate gradient variant is not modelled.
* **RtvModel.v** — Model of ConvBPDNRecTV of sporco/admm/cbpdntv.py for real data: constructor (904-953), setdict (957-969), block_sep0 and block_sep1 (973-997), block_cat (1001-1020), xstep (1024-1079), ystep (1098-1106), cnst_A and cnst_AT (1261-1304), cnst_B (1313), cnst_c (1322), with the ADMM iteration of AdmmModel. Exact arithmetic; LinSolveCheck and the initial values are not part of this model, and cnst_A1 is given the transform of X, which is the array Xf that the code passes (RtvProps.C81_Xf). Arrays are functions of an index as in FftModel, the filter, channel and component axes being separate arguments. The generic iteration works on vectors, so that arrays are flattened. The coefficient arrays have Cx channels (the channels of the signal if the dictionary has a single one, otherwise 1) and KS signals; the slice t = x * KS + k, with coordinates [bases t] on the axes which are not filtered, is that of channel x and signal k. The gradient component (j, c) of the slice t starts at ((j * Cd + c) * NS + t) * size, where NS = Cx * KS, and the copies of the coefficient maps follow, map m of the slice t at offset (m * NS + t) * size. The code stores the copies of the maps before the gradients, and all its operations on Y and U are elementwise or by block_sep0 and block_sep1.
* **MduModel.v** — The dictionary update with mask decoupling for real data, sporco/admm/ccmodmd.py: ConvCnstrMODMaskDcpl_IterSM (638-652) with ConvCnstrMODMaskDcplBase (244-304, 338-567), and ConvCnstrMODMaskDcpl_Consensus (840-1001) with ConvCnstrMOD_Consensus (admm/ccmod.py 787-845). Exact arithmetic. The layout of the arrays is that of [CcmModel]: [dN] spatial axes, the channel axis [dN], the signal axis [dN + 1] and the filter axis [dN + 2]; [K] is the number of entries on the signal axis after the reshapes in lines 290-293 and 335-337. LinSolveCheck, which changes no variable of the iteration, the normalisation of the residuals and their thresholds, and the conjugate gradient variant (658-760) are not modelled.
* **PgnModel.v** — The proximal gradient solvers for convolutional sparse coding, sporco/pgm/cbpdn.py ConvBPDN (190-381) and ConvBPDNMask (412-508), for any number of spatial axes, channels, filters and signals, real data and exact arithmetic; the iteration is that of PGMDFT ([PgmModel.drun]), with a fixed step parameter L (no backtracking and no step size policy). Layout: [dN] spatial axes 0 .. dN - 1 of the lengths [Nv]; axis [dN] counts the [B] slices of the coefficient maps, i.e. the signals for a dictionary with several channels, and the pairs of a channel and a signal for a dictionary with one channel. The code keeps channels and signals on two axes and broadcasts; the operations act on each slice alike. The [Cd] channels of the dictionary and of the signals fitted with it are a separate argument; sums over all entries of an array are sums over the channels of sums over the other axes. Coefficient maps are vectors for [PgmModel]: entry k of map m is at m * P + k, where k counts the positions of all slices. Transformed arrays have the same layout; the code stores the half of the spectrum that rfftn returns, of which irfftn is a function ([FftModel]).
* **PdcModel.v** — Model of the product dictionary sparse coding solvers ConvProdDictBPDN and ConvProdDictBPDNJoint of sporco/admm/pdcsc.py (28-287) for real data: setdict, xstep, ystep, obfn_dfd, obfn_reg and reconstruct, with the solver of sporco/linalg.py of CscModel. Exact arithmetic. The filter axis (m below M), the channel axis of the signal (c below C) and the channel axis of the coefficients (b below Cb, the number of columns of B: line 92) are separate arguments; the signal axis is a coordinate of the index which is not transformed. np.linalg.eigh is an argument. The cached part of the solution (HighMemSolve) is recomputed here; LinSolveCheck is not modelled.
* **PdgModel.v** — Model of ConvProdDictL1L1Grd and ConvProdDictL1L1GrdJoint of sporco/admm/pdcsc.py (289-703) for real data and a fixed penalty parameter. The arguments and the layout are those of PdcModel: block 0 of the auxiliary variable has the shape of the signal, entry (c, k) at c * size + k, and block 1 the shape of the coefficients, entry (b, m, k) at (b * M + m) * size + k; the composite array of lines 395-403 is a permutation of the concatenation of the two. setdict (481-505) keeps nothing which depends on B besides Gamma and Q, so the attributes are those of a [pd_fac] with an unused last field. The cached part of the solution (HighMemSolve), LinSolveCheck, NonNegCoef and NoBndryCross are not modelled.
* **PppModel.v** — Model of the plug and play priors solvers: GenericPPP and PPP of sporco/admm/ppp.py (22-150), GenericPPPConsensus and PPPConsensus (156-299), and GenericPPP and PPP of sporco/pgm/ppp.py (23-152). The functions the user supplies (proxf, proxg, proxfi, f, gradf) are parameters; they are called with the penalty parameter, which is fixed here, so that an operator below is the function at that value. The proximal gradient solver is that of PgmModel with eval_objfn reduced to f (pgm/ppp.py 85).
* **SplModel.v** — Model of sporco/admm/spline.py (class SplineL1, 130-291) and of the functions dctii and idctii of sporco/fft.py (318-372). The transforms of scipy.fftpack are written out as finite sums (dct of type 2 with norm='ortho', and idct of type 2, which is the transform of type 3); the call of scipy itself is not modelled. Exact arithmetic. An array of any dimension is a function of an index (FftModel); the iteration of AdmmModel works on vectors, so that arrays are flattened in C order (CscIterModel), [all] being the list of all the axes of the array. The penalty parameter is fixed.
* **RpcModel.v** — Model of sporco/admm/rpca.py, class RobustPCA: the main loop with the steps of StepsModel (rpca_xstep, rpca_ystep), and what eval_objfn (214-226) records. Matrices of [M] rows and [N] columns are flattened row by row; numpy.linalg.svd is a parameter. The penalty parameter is fixed.
* **TdnModel.v** — Model of whole iterations of TVL2Denoise (sporco/admm/tvl2.py 183-371) and TVL1Denoise (sporco/admm/tvl1.py 183-365): the x step is the inner loop of GaussSeidelStep sweeps started from the previous X, stopped by MaxGSIter or by GSTol; the y step, the dual step and the relaxation are those of the outer ADMM loop (admm.py 334-346). Layout: an image is a vector of C channels (the axis caxis; C = 1 when caxis is None) of shape [s], pixel [q] (C order) of channel [c] being at [c * P + q] with [P = prod s]; axes of S other than [axes] and [caxis] are axes of [s] that are not listed in [axes]. Component [j] of a gradient array (its last axis) is at [(j * C + c) * P + q]. For TVL1Denoise the last component, of the size of the image, is at [K * C * P]. Exact arithmetic, fixed penalty parameter (AutoRho is in RhoModel). The operators are those of SignalModel.
* **InhModel.v** — Model of sporco/admm/cbpdnin.py, ConvBPDNInhib: convolutional sparse coding with lateral and self inhibition, for real data. The x step and the relaxation, the non-negativity and boundary options of the y step and the dual update are those of CscIterModel and AdmmModel. Exact arithmetic. The window of scipy.signal.get_window (265) is an arbitrary function [win] of the sample number. As in CscIterModel one slice (fixed signal and channel index) is modelled: lines 294-337 act on each slice separately.
* **CmdModel.v** — Model of the dictionary update solvers without convolution: sporco/admm/cmod.py (CnstrMOD, 147-342) and sporco/pgm/cmod.py (CnstrMOD 110-232, WeightedCnstrMOD 291-336, getPcn 342-407) with the x step of the proximal gradient loop (pgm/pgm.py 399-411, no step size policy, no Monotone option). Exact arithmetic. A matrix is a function of row and column; a dictionary has Nc rows and Nm columns (atoms), Z has Nm rows and Ns columns, S and the weights W have Nc rows and Ns columns (W after broadcasting). The linear solver of the x step (linalg.lu_solve_AATI, C23) is an argument.
* **KpsModel.v** — Model of sporco/linalg.py: block_circulant (204-228), pca (914-945), nkp (949-986), kpsvd (990-1033). np.linalg.svd is an argument: it takes the numbers of rows and columns and the matrix, and returns U, S, Vt of the thin decomposition. Arrays hold real numbers; the conversion of values assigned to an array with the type of A[0] is an argument.
* **AliModel.v** — Which array objects the solvers create, share and overwrite. The numbers are abstracted away completely: an array has some content of an arbitrary type, and an assignment may put any content into it. What is kept is object identity: whether a statement binds an attribute to a new array ([self.X = ifftn(...)]), to an array that already exists ([self.Y = self.X], [np.asarray] of an array that already has the right dtype) or writes into the array the attribute is bound to ([self.Y[:] = ...], [self.U += ...], [self.Y[self.Y < 0] = 0]). Views (slices, reshapes, swapped axes, [bcrop] of a single scale dictionary) are identified with the array they look into: writing through the one changes what the other shows. Every branch that depends on options or on numbers (relaxation, NonNegCoef, AutoRho, Monotone, backtracking, whether asarray copies) is a nondeterministic [Choice], every while loop is a [Loop] of any length.
* **RateModel.v** — Model of the residuals, the stopping thresholds and the stopping test of ADMM.solve (sporco/admm/admm.py 350-351, 374-377 and 462-486), put together with the iteration of AdmmModel and the main loop of SolveModel. AutoRho is disabled, so that update_rho (549-550) leaves the solver as it is; exact arithmetic.
* **RecModel.v** — The reconstruct methods of the solver classes. Real signals: self.fftn and self.ifftn are then rfftn and irfftn (admm/cbpdn.py 217-225). The axes that are not transformed (channels and signals) are covered by the argument [c] of CscModel and by one array per filter otherwise.
* **CgModel.v** — The dictionary updates that solve their linear system by conjugate gradients: linalg.solvemdbi_cg (sporco/linalg.py 515-579), ConvCnstrMOD_CG.xstep (sporco/admm/ccmod.py 587-600) and ConvCnstrMODMaskDcpl_CG.xstep (sporco/admm/ccmodmd.py 741-756). An array over F positions (frequency, channel) and M filters is flattened in C order: entry (f, m) is at f * M + m.
* **PiniModel.v** — How the constructor of ParConvBPDN (sporco/admm/parcbpdn.py 638-683) sets the module globals mp_Y0, mp_Y1, mp_U0 and mp_U1 that solve works on, and how they persist between objects of one process. An array is a shape and its entries in C order; the axis permutation (np.moveaxis) of the option values is the identity here.
* **SynModel.v** — signal.spnoise, signal.rndmask and signal.rgb2gray (sporco/signal.py 42-113), entry by entry. The draws of numpy's generator are arguments: [u] is an entry of np.random.uniform(-1.0, 1.0, shape).
* **PerModel.v** — metric.pamse and metric.gmsd (sporco/metric.py 202-300) for real images of n0 x n1 entries.
* **VadModel.v** — linalg.valid_adjoint (sporco/linalg.py 147-200) and linalg.rrs (883-910). Arrays are flattened.
* **InnModel.v** — linalg.inner and linalg.dot (sporco/linalg.py 41-143), on n-dimensional arrays: a shape and the entry at each list of indices. None stands for an exception.
* **AhlModel.v** — array.zpad, array.zdivide, array.atleast_nd and array.split (sporco/array.py 95-136 and 189-243). Arrays, broadcasting and positions of lists are those of InnModel; None stands for an exception.
* **DmsModel.v** — Model of sporco/interp.py bilinear_demosaic (24-92) for an image of H rows and W columns. Exact arithmetic. The one-dimensional interpolating spline is external: RectBivariateSpline(x, y, z, s=0) with its default degrees kx = ky = 3 is the tensor product of interpolating cubic splines (DmsSpec.spline), needs at least 4 samples along each axis (an exception otherwise), and moves evaluation points outside of the rectangle of the samples to its border.
* **P16Model.v** — Model of promote16 (sporco/array.py 140-185) and of the nuclear norm functions with it (sporco/prox/_nuclear.py 41, 65-67). An array is an element type with values; vectors have a single column. Exact arithmetic: conversion between floating point types does not change values, conversion to an integer type truncates towards zero. numpy.linalg.svd rejects float16, keeps float32, and computes in float64 otherwise.

## 5. What is not modelled

* Floating point rounding, overflow, NaN and infinities (apart from the 0/0 cases which are pointed out), and data types other
  than where a property is about them (C56, C61, C99).
* The `cupy` subpackage (a second copy of the solvers for GPUs), `sporco/plot.py`, `sporco/cuda.py`, the image loading classes
  of `util.py`, `complex_randn` of `sporco/signal.py`.
* The search directions of `scipy.sparse.linalg.cg` beyond what C97 needs, and the multi-dictionary classes of `admm/cbpdn.py`, except where a
  property names them.
* Memory aliasing of arrays, except in the modules that say so (Ali, OptShare, OptMut, Par, PrlCns); everywhere else arrays are
  values, which Ali (C93) justifies for the arguments and for the copies of the previous iterate.
* Exceptions raised inside numerical sub-steps and by callbacks in the main loops (C32, C33, C63), display output other than
  the status strings (C53), and pickling.
* Behaviour of the pinned Python and numpy versions beyond the rules stated in the model files (indexing, slicing, broadcasting,
  `%` formatting, identity of small integers).

## 6. Properties: approach and outcome

Status words as in MANIFEST.json. "partial" marks every property whose English statement is not true, or not proved, in full generality; the note says which. Refuted parts have a theorem with a witness (suffix `_refuted`), and the part that does hold is proved separately.

* **C01** Options objects always hold exactly the keys of their default tree. *proved.* Approach: Cdict: option trees as nested association lists; every operation returns the new tree and an outcome; invariant over operation sequences.
  Outcome: Invariant over all operation sequences on the tree; inserting a foreign options object as a value is refuted.
  Theorems (CdictProps.v): `C01_keys_invariant`, `C01_init_defaults`, `C01_foreign_object_refuted`
* **C02** Reading an option back gives the value that was set, and setting one option disturbs no other. *proved.* Approach: Cdict: get-after-set and frame lemma on paths.
  Outcome: Get-after-set, frame, failed set leaves the tree unchanged, update overlays.
  Theorems (CdictProps.v): `C02_get_after_set`, `C02_frame`, `C02_failed_set_no_change`, `C02_update_overlays`
* **C03** Invalid options are rejected, valid ones accepted, exactly. *proved.* Approach: Cdict: acceptance characterised against an independent path predicate on the default tree.
  Outcome: Acceptance characterised exactly; the documented error classes are refuted for one case.
  Theorems (CdictProps.v): `C03_leaf_accepted_iff`, `C03_leaf_errors`, `C03_update_accepted_iff`, `C03_no_fuel`, `C03_documented_errors_refuted`, `C03_keycmp_iff`
* **C04** Bulk option update is all or nothing. *partial.* Approach: Cdict; to be refuted with a witness plus the exact prefix behaviour proved.
  Outcome: The all-or-nothing claim is false of the code (C04_atomic_update_refuted); the exact mixed result is proved in C04_update_mixed_partial.
  Theorems (CdictProps.v): `C04_atomic_update_refuted`, `C04_update_mixed_partial`
* **C05** A valid options object stays usable: an existing options object is unaffected by creating another one. *proved.* Approach: OptShare: heap model in which objects share the class-level default tree; full non-interference proved (sub-objects keep their own defaults, so sharing is unobservable).
  Outcome: Full non-interference for all histories of creations, assignments and updates.
  Theorems (OptShareProps.v): `C05_objects_independent`
* **C06** Elapsed time of a timer label is exactly the total time it was running. *proved.* Approach: Timer: state machine over integer clock; specification = length of the running set of instants, computed from the event history.
  Outcome: For all event histories and clock readings.
  Theorems (TimerProps.v): `C06_elapsed_is_charged_time`, `C06_elapsed_default_label`, `C06_start_stop_idempotent`
* **C07** Timer labels are independent and errors are precise. *proved.* Approach: Timer: non-interference, error characterisation, monotonicity.
  Outcome: Non-interference, error characterisation, monotonicity.
  Theorems (TimerProps.v): `C07_other_labels_unchanged`, `C07_errors_iff_unknown`, `C07_elapsed_monotone`
* **C08** A context timer charges exactly the body of its with-block. *proved.* Approach: Timer: with-block = enter; body; exit.
  Outcome: Exact for un-nested blocks; nesting refuted (C08_nested_refuted).
  Theorems (TimerProps.v): `C08_start_stop_block`, `C08_stop_start_block`, `C08_nested_refuted`
* **C09** Network fetch retries only on timeouts and at most maxtry times. *proved.* Approach: NetGet: outcome stream oracle.
  Outcome: Retry rule for urlopen timeouts; the claim for timeouts raised while reading is refuted.
  Theorems (NetProps.v): `C09_first_non_timeout_decides`, `C09_exhausted`, `C09_attempt_bound`, `C09_read_timeout_retried_refuted`
* **C10** Grid search returns a true optimum of the grid and consistent indices. *proved.* Approach: GridSearch: nanargmin/nanargmax, product enumeration, unravel_index.
  Outcome: Optimality, first in lexicographic order, consistency of the four results, exact errors. Vector-valued functions are modelled componentwise.
  Theorems (GridProps.v): `C10_optimum`, `C10_errors`
* **C11** MPI grid search partitions the work and agrees with the serial search. *proved.* Approach: MpiPart: integer arithmetic of the rank limits; concatenation of the chunks is the whole list.
  Outcome: Partition, balance, equality with the serial search; collective sequence matches iff points >= ranks for vector-valued functions (refuted in general).
  Theorems (GridProps.v): `C11_partition`, `C11_balanced`, `C11_same_as_serial`, `C11_collectives_vector_iff`, `C11_collectives_match_refuted`
* **C12** Iteration statistics survive transposition. *partial.* Approach: Arrays: rows/columns as lists.
  Outcome: Transposition proved for all tables; the round trip through ntpl2array/array2ntpl is the identity exactly for scalar fields and raises for transposed tables of two or more rows (C12_table_refuted). Type promotion by hstack is not modelled.
  Theorems (ArrayProps.v): `C12_transpose`, `C12_roundtrip_partial`, `C12_table_refuted`
* **C13** Sliding windows and strided samples address the right elements, inside the array. *proved.* Approach: Arrays: stride arithmetic on a flat buffer.
  Outcome: For arbitrary strides, shapes, windows and steps; np.pad enters through a contract which the 'wrap' mode is proved to meet.
  Theorems (ArrayProps.v): `C13_rolling_window`, `C13_rolling_window_count`, `C13_wrap`, `C13_wrap_contract`, `C13_subsample`
* **C14** Extracting blocks and averaging them back reproduces the signal. *proved.* Approach: Blocks: one-dimensional model, then n-dimensional by index vectors.
  Outcome: Extraction grid exact, element-wise content and order; combination and averaging characterised for arbitrary blocks, and exact recovery for unmodified blocks.
  Theorems (ArrayProps.v): `C14_extract`, `C14_combine`, `C14_average`, `C14_combine_extracted`, `C14_average_extracted`
* **C15** The l1 proximal operator is soft thresholding and minimises its objective. *proved.* Approach: Prox: real vectors; scalar lemma lifted by separability.
  Outcome: Unique minimiser for element-wise nonnegative thresholds, numpy and numexpr versions agree, nonexpansive, odd. The two versions differ for negative thresholds (refutation kept). Complex arrays: see C64.
  Theorems (ProxProps.v): `C15_prox_l1_minimises`, `C15_numexpr_agrees`, `C15_nonexpansive_odd`, `C15_negative_threshold_refuted`
* **C16** The l0 proximal operator minimises its objective. *proved.* Approach: Prox: same.
  Outcome: Global minimality including ties; exact hard-threshold rule.
  Theorems (ProxProps.v): `C16_prox_l0_minimises`, `C16_hard_threshold`
* **C17** The l2 proximal operator and projection are exact. *proved.* Approach: Prox: Cauchy-Schwarz.
  Outcome: Unique minimiser, groups, unique nearest points of balls.
  Theorems (ProxProps.v): `C17_prox_l2_minimises`, `C17_prox_l2_groups`, `C17_proj_l2_nearest`, `C17_proj_l2ball_nearest`
* **C18** Projection onto the l1 ball is exact for both algorithms. *proved.* Approach: L1Proj: sorting based threshold; KKT conditions; nearest point.
  Outcome: Both algorithms give the unique nearest point; brentq is an argument with its contract for the call made, whose precondition is proved.
  Theorems (L1ProjProps.v): `C18_sortsum_nearest`, `C18_scalarroot_nearest`, `C18_brentq_precondition`, `C18_methods_agree`, `C18_dispatch`
* **C19** The l1 plus l2 (group) proximal operator minimises its objective. *proved.* Approach: Prox: KKT / composition.
  Outcome: Unique minimiser per group and for arrays of groups.
  Theorems (ProxProps.v): `C19_prox_sl1l2_minimises`, `C19_groups`
* **C20** The l1 minus l2 proximal operator minimises its non-convex objective. *proved.* Approach: ProxDL1L2: global optimality by comparison argument.
  Outcome: Global minimality for both code branches for alpha >= 0, 0 <= beta <= 1; false for beta > 1.
  Theorems (ProxProps.v): `C20_prox_dl1l2_minimises`, `C20_axis_minimises`, `C20_beta_range_refuted`
* **C21** Diagonal block plus identity systems are solved exactly. *proved.* Approach: SM: complex field, finite sums.
  Outcome: Exact solution and uniqueness over any numClosedFieldType, with or without the cached coefficient.
  Theorems (LinSolveProps.v): `C21_solvedbi_sm`, `C21_solvedbd_sm`
* **C22** Iterated Sherman-Morrison solves the multiple-block system. *proved.* Approach: SM: induction on the number of blocks.
  Outcome: Induction over the number of blocks for both algorithms; they agree.
  Theorems (LinSolveProps.v): `C22_solvemdbi_ism`, `C22_solvemdbi_rsm`, `C22_methods_agree`
* **C23** Factorised linear solvers use the right system in both shape cases. *proved.* Approach: Factor: matrix inversion lemma, solver oracle hypotheses.
  Outcome: Both shape cases; factorisation routine is an argument with its contract; invertibility proved for rho > 0.
  Theorems (LinSolveProps.v): `C23_ATAI`, `C23_AATI`, `C23_positive_rho`
* **C24** The symmetric Sylvester solver solves its equation. *partial.* Approach: Sylv: eigendecomposition oracle.
  Outcome: False for indefinite full matrices (C24_indefinite_refuted); exact for positive semi-definite ones and for diagonal or decomposed arguments; C24_sylvester_absolute says what is computed in general.
  Theorems (LinSolveProps.v): `C24_sylvester_partial`, `C24_indefinite_refuted`, `C24_sylvester_absolute`
* **C25** The finite difference operator and its adjoint are adjoint. *partial.* Approach: Grad: sums over an axis, summation by parts.
  Outcome: C25_adjoint proves the claim for every array with at least two samples on a non-negative axis; C25_adjoint_zero_pad for the zero padded variant. The full claim is false for a negative axis (C25_negative_axis_refuted: the boundary is set on axis 0) and an axis with one sample is an error (C25_one_sample_refuted).
  Theorems (SignalProps.v): `C25_adjoint`, `C25_forward_difference`, `C25_adjoint_zero_pad`, `C25_one_sample_refuted`, `C25_negative_axis_refuted`
* **C26** The total variation constraint operators are adjoint for any choice of axes. *partial.* Approach: Grad/TV...; refutation for other axis orders.
  Outcome: Refuted in full generality: adjoint for all arrays exactly when the axes are 0..m-1 in order (C26_tvl2_adjoint_iff, C26_tvl1_adjoint_iff are equivalences), so the claim for any choice of axes is false (C26_any_axes_refuted).
  Theorems (SignalProps.v): `C26_tvl2_adjoint_iff`, `C26_tvl1_adjoint_iff`, `C26_any_axes_refuted`
* **C27** Total variation x-step: fixed points of the relaxation step solve the linear system. *proved.* Approach: TV: equivalence by algebra on the model of the step.
  Outcome: Equivalence with the normal equations for every tuple of axes; equivalence with the minimisers of the x sub-problem for axes 0..m-1 (see C26); contraction in the maximum norm; loop bound of the x-step. The TVL1 step is the instance rho = W2 = 1. Real arithmetic.
  Theorems (SignalProps.v): `C27_fixed_iff_normal`, `C27_fixed_iff_minimiser`, `C27_contraction`, `C27_xstep_loop`
* **C28** The half-spectrum norm equals the signal norm. *proved.* Approach: Dft: discrete Fourier transform over own complex numbers; Parseval; conjugate symmetry.
  Outcome: Arrays of any dimension, any non-empty set of distinct non-negative axes, every length (even and odd). The transforms are the DFT sums in exact arithmetic.
  Theorems (FftProps.v): `C28_full_spectrum`, `C28_half_spectrum`, `C28_inverse_real`
* **C29** DFT-domain convolution is circular convolution. *proved.* Approach: Dft: convolution theorem.
  Outcome: Real (half spectrum) and complex branches, any number of distinct axes, any integer origins, zero padding to the larger size, broadcasting on the other axes. Exact arithmetic.
  Theorems (FftProps.v): `C29_circular_complex`, `C29_circular_real`, `C29_circular_1d`
* **C30** Convolutional array layouts are inferred consistently. *partial.* Approach: Cnvrep: branch by branch model of the constructors over shapes (lists of naturals).
  Outcome: Proved for every signal and dictionary of the documented shapes and every admissible dimK (C30_layout, C30_sizes, C30_update_agrees, C30_block_sizes). The rejection clause is false: extra axes and inconsistent dimK are accepted with sizes that do not match (C30_rejects_refuted, C30_extra_axes_refuted).
  Theorems (CnvrepProps.v): `C30_layout`, `C30_sizes`, `C30_update_agrees`, `C30_block_sizes`, `C30_rejects_refuted`, `C30_extra_axes_refuted`
* **C31** Dictionary constraint projection gives a feasible, nearest dictionary. *partial.* Approach: Pcn: filters as real vectors; normalisation, support, mean removal.
  Outcome: Support, unit norm, zero mean, nearest point and idempotence are proved for every variant returned by getPcn except zero mean without cropping when dimN is not 2: that one does not pass dimN to zeromean, and the claim is refuted for it (C31_zero_mean_dimN_refuted).
  Theorems (PcnProps.v): `C31_support`, `C31_unit_norm`, `C31_zero_mean`, `C31_nearest`, `C31_idempotent`, `C31_cropped_agrees`, `C31_Pcn_agrees`, `C31_zero_mean_dimN_refuted`
* **C32** Solver iteration accounting. *partial.* Approach: SolveLoop: loop model with abstract state and oracle step; invariant over calls.
  Outcome: Counter and statistics accounting proved for all histories of calls with MaxMainIter >= 1 and without FastSolve; false for MaxMainIter = 0 (C32_zero_iterations_refuted).
  Theorems (SolveProps.v): `C32_accounting_partial`, `C32_zero_iterations_refuted`
* **C33** A solver stops early only for a documented reason. *proved.* Approach: SolveLoop.
  Outcome: Exact stopping iteration of the ADMM, PGM and dictionary learning loops for arbitrary step, residual and callback functions.
  Theorems (SolveProps.v): `C33_admm_stopping`, `C33_pgm_stopping`, `C33_dictlearn_stopping`
* **C34** Adaptive penalty updates keep the unscaled dual variable and keep rho positive. *proved.* Approach: AdmmRho: real arithmetic.
  Outcome: Update rule, scaling of the dual variable, period, and effect on a whole history of iterations.
  Theorems (RhoProps.v): `C34_update`, `C34_history`, `C34_period`, `C34_effect`
* **C35** Specialised residuals agree with the general ADMM definitions. *partial.* Approach: AdmmRes: inner-product-space model with linear operators.
  Outcome: Agreement proved for ADMMEqual, ADMMTwoBlockCnstrnt and ADMMConsensus. Refuted with exact characterisation where the code departs: the overriding dual residual of the two-block problems (bpdn.MinL1InL2Ball, cbpdn.ConvTwoBlockCnstrnt) equals the general one without relaxation and otherwise satisfies s' = (1 - alpha) s'_prev + s; its normalisation omits A^T; WeightedADMMConsensus normalises by sqrt(sum alpha^2) and by the unweighted U.
  Theorems (AdmmProps.v): `C35_equal`, `C35_two_block`, `C35_two_block_dual`, `C35_two_block_dual_relaxed_refuted`, `C35_two_block_dual_norm_refuted`, `C35_consensus`, `C35_weighted`, `C35_weighted_norms_refuted`
* **C36** A stationary ADMM iterate is an optimal solution. *partial.* Approach: AdmmOpt: convexity argument from sub-step optimality.
  Outcome: General theorem C36_stationary_optimal and its converse; concrete for BPDN, ElasticNet, BPDNJoint, BPDNProjL1 (no NonNegCoef for the last two), MinL1InL2Ball, RobustPCA and (weighted) consensus; ConvBPDN, ConvElasticNet and ConvBPDNGradReg are in C72, the mask-decoupled and l2-constrained classes in C73, TVL2Deconv and TVL1Deconv in C75, ConvBPDNScalarTV and ConvBPDNVectorTV in C76. TVL2Denoise/TVL1Denoise (inexact x step) are not instantiated.
  Theorems (AdmmProps.v, StepsProps.v): `C36_stationary_optimal`, `C36_optimal_stationary`, `C36_bpdn`, `C36_enet`, `C36_joint`, `C36_projl1`, `C36_minl1`, `C36_rpca`, `C36_weighted`
* **C37** Each ADMM sub-step minimises the augmented Lagrangian. *partial.* Approach: AdmmSteps: minimality of the sub-steps.
  Outcome: Proved for the x and y steps of BPDN (with NonNegCoef), ElasticNet, BPDNJoint, BPDNProjL1, MinL1InL2Ball, RobustPCA, CnstrMOD and the consensus classes. Refuted for NonNegCoef with BPDNJoint and BPDNProjL1 (clipping after the prox is not the minimiser) and for zero columns in CnstrMOD. The x steps of the convolutional classes are the subject of C71.
  Theorems (StepsProps.v): `C37_bpdn_x`, `C37_enet_x`, `C37_minl1_x`, `C37_bpdn_y`, `C37_joint_y`, `C37_projl1_y`, `C37_minl1_y`, `C37_joint_nonneg_refuted`, `C37_projl1_nonneg_refuted`, `C37_rpca_x`, `C37_rpca_y`, `C37_cmod_x`, `C37_cmod_y`, `C37_cmod_zero_column_refuted`, `C37_weighted_y`, `C37_consensus_is_weighted`
* **C38** ADMM iterates approach every solution monotonically. *proved.* Approach: AdmmConv: Lyapunov argument.
  Outcome: Distance theorem for relaxation 1 from any start; for relaxation in [0,2] in the z = U - (BY - c) variable from the second iterate on. Convergence of residuals and of the objective for relaxation in (0,2); for BPDN and ElasticNet also of the objective of the returned array (C38_bpdn_returned, C38_enet_returned).
  Theorems (AdmmProps.v, StepsProps.v): `C38_distance`, `C38_distance_relaxed`, `C38_convergence`, `C38_bpdn`, `C38_bpdn_returned`, `C38_enet_returned`
* **C39** Monotone proximal gradient never increases the objective. *partial.* Approach: PgmMono: state machine.
  Outcome: Proved for the recorded objective: it never increases from one monotone iteration to the next for any step size policy and line search (C39_recorded), and the recorded value is the objective at the current iterate (C39_exact, and C39_bpdn for BPDN). Refuted: the comparison needs a previous value, so the first iteration may end above the starting point (C39_first_value_refuted, C39_small_L_refuted); PGMDFT reverts the transformed iterate only, so the returned array is not the point whose objective was recorded (C39_dft_refuted, C39_dft gives what does hold).
  Theorems (PgmProps.v): `C39_recorded`, `C39_exact`, `C39_first_value_refuted`, `C39_small_L_refuted`, `C39_dft_refuted`, `C39_dft`, `C39_bpdn`
* **C40** Backtracking terminates with a valid majorisation. *partial.* Approach: Backtrack: fuel = maxiter loop.
  Outcome: Line searches: termination within maxiter, the accepted step satisfies the tested bound, L never falls below its start (standard), robust search likewise; no failure. Refuted: maxiter 0 returns without assigning (C40_maxiter_zero_refuted); for the convolutional classes the test uses the unweighted half spectrum and accepts a step at which the upper bound of the data term is violated (C40_half_spectrum_refuted).
  Theorems (PgmConvProps.v, PgmProps.v): `C40_half_spectrum_refuted`, `C40_standard`, `C40_standard_limit`, `C40_standard_enough`, `C40_robust`, `C40_robust_limit`, `C40_no_failure`, `C40_maxiter_zero_refuted`
* **C41** Momentum sequences have the properties needed for acceleration. *partial.* Approach: Momentum: induction.
  Outcome: Nesterov and linear momentum accelerate (1 <= t_k and t_{k+1}^2 - t_{k+1} <= t_k^2); generalised linear momentum with parameters outside the documented range is refuted (C41_genlinear_refuted), its tail behaviour is characterised (C41_genlinear_tail).
  Theorems (PgmProps.v): `C41_nesterov`, `C41_nesterov_growth`, `C41_nesterov_accelerates`, `C41_linear_accelerates`, `C41_genlinear_tail`, `C41_genlinear_refuted`
* **C42** Stationary proximal gradient iterates are optimal, and steps descend. *proved.* Approach: PgmOpt: prox inequality; FISTA telescoping.
  Outcome: Fixed points are exactly the minimisers; sufficient decrease; rates for fixed L, standard and robust line search; DFT-domain iteration equals the signal-domain one; instances BPDN, WeightedBPDN, and ConvBPDN and ConvBPDNMask with one spatial axis and one channel (any number of axes, channels and signals: C83).
  Theorems (PgmConvProps.v, PgmProps.v): `C42_cbpdn`, `C42_cbpdn_mask`, `C42_cconv_usual`, `C42_fixed_optimal`, `C42_optimal_fixed`, `C42_descent`, `C42_rate_fixed`, `C42_fista`, `C42_rate_standard`, `C42_rate_robust`, `C42_dft_same`, `C42_bpdn`, `C42_bpdn_fixed`, `C42_wbpdn`
* **C43** Default solver parameters documented for a class take effect. *partial.* Approach: SetAttr: attribute store and initialiser call sequences.
  Outcome: User values always win. Class default takes effect for fourteen classes; refuted for seven (base constant wins), see C43_class_default_refuted.
  Theorems (InitProps.v): `C43_rule`, `C43_user_value_wins`, `C43_class_default_partial`, `C43_class_default_refuted`
* **C44** Caching for memory-intensive solves does not change the solution. *partial.* Approach: Cache: state machine with cached coefficient; refutations for the classes that do not refresh it properly.
  Outcome: Proved for every history of dictionary changes, penalty updates and x-steps (adaptive executions): with a valid cache the x-step solves the normal equations of the current dictionary and penalty and the option changes no result. Refuted and exactly delimited: default penalty (cache filled before rho is set), penalty updates in ConvElasticNet and ConvBPDNGradReg (inherited rhochange), construction of ConvL1L1Grd and ConvProdDictL1L1Grd fails.
  Theorems (CacheProps.v): `C44_exact`, `C44_same`, `C44_default_penalty_refuted`, `C44_penalty_change_refuted`, `C44_construct_iff`
* **C45** Parallel sparse coding is independent of scheduling. *proved.* Approach: Sched: interleavings of slice updates commute.
  Outcome: Actions of the group tasks (element computations and stores on shared arrays) under any interleaving that finishes them; whole histories of solve calls. mp_grp: ValueError exactly if there are more groups than filters or none.
  Theorems (ParProps.v): `C45_groups`, `C45_schedule`, `C45_solve`
* **C46** The parallel solver's data-fidelity step is exact. *partial.* Approach: ParY0: Sherman-Morrison for the all-ones block and minimality.
  Outcome: Y0 and Y1 updates proved exact (and unique) for all groups, masks, options. The right hand side of the x step for multi-channel dictionaries uses axis=mp_C, the channel axis only if the number of channels is dimN+1 (refuted otherwise, C46_channel_axis).
  Theorems (ParProps.v): `C46_y0`, `C46_y1`, `C46_channel_axis`
* **C47** The parallel solver performs the same iteration as its specification in every iteration number. *partial.* Approach: ParLoop: model of `is` on integers; refutation.
  Outcome: Refuted + exact characterisation: Y/U iterates are those of the ADMM specification for every history of calls unless a call ends at its limit with iteration 256 and another follows (identity comparison of integers above 256; C47_gap, C47_gap_refuted); the reported primal residual belongs to the next coefficient maps except in the last iteration (C47_residual, C47_residual_refuted).
  Theorems (ParProps.v): `C47_iterations`, `C47_count`, `C47_gap`, `C47_gap_refuted`, `C47_residual`, `C47_residual_refuted`
* **C48** Solver objects do not interfere. *partial.* Approach: ParGlobals: module-level state; refutation.
  Outcome: Refuted + exact characterisation: solve uses the data of the last constructed object (C48_last_constructed, C48_refuted); objects used one after the other do not interfere (C48_one_after_the_other); start values Y0/Y1/U0/U1 are written to the wrong variables (C48_start_values_refuted). For each of the four start values and any combination: never used, the array keeps what an earlier object left, and solve fails exactly if no earlier object created it (C48_start_values_all_refuted).
  Theorems (ParProps.v): `C48_one_after_the_other`, `C48_last_constructed`, `C48_refuted`, `C48_start_values_refuted`, `C48_start_values_all_refuted`
* **C49** Parallel consensus dictionary learning is independent of scheduling. *proved.* Approach: Sched: instance for the consensus learner.
  Outcome: Every completed schedule of the worker processes gives the result of the sequential program (C49_schedule), a schedule always completes (C49_schedule_complete), and whole solves agree (C49_solve, C49_serial). Extra findings: the options NonNegCoef, L1Weight and NoBndryCross are accepted but ignored by the parallel class (C49_options_refuted), and MaxMainIter=0 leaves a gap in the numbering (C49_numbering_refuted). After each iteration of the masked class W^2 Y = rho U holds for each signal with its own mask, in both steps (C49_masked).
  Theorems (PrlCnsProps.v): `C49_schedule`, `C49_schedule_complete`, `C49_solve`, `C49_numbering`, `C49_numbering_refuted`, `C49_serial`, `C49_options_refuted`, `C49_masked`
* **C50** Dictionary learning alternation is coherent. *proved.* Approach: DictLearn: invariant over the loop.
  Outcome: Coherence of the alternation for any component solvers, and exact contents of the recorded objective. Extra finding: with ReturnX or an L1Weight array the recorded objective is not that of the returned pair (C50_objective_refuted).
  Theorems (DlProps.v): `C50_coherent`, `C50_iteration`, `C50_accurate`, `C50_estimate`, `C50_objective_refuted`
* **C51** Online dictionary learning keeps a feasible dictionary and a decreasing step size. *proved.* Approach: Online: invariant and real analysis of the step sequence.
  Outcome: Feasibility after any sequence of calls, including ones that raise exceptions; exact step sizes; positive, strictly decreasing, divergent sum, bounded sum of squares.
  Theorems (OnlineProps.v): `C51_feasible`, `C51_records`, `C51_step_sizes`
* **C52** Iteration statistics columns match their values. *partial.* Approach: Fields: association of field names and positions.
  Outcome: For every solver class, method combination and option setting a record has one value per declared field, each field and each displayed column holds the quantity its name stands for; refuted: PGM documents a field IterBtrack that does not exist, the default DictLearn configuration fails for proximal gradient sub-solvers (exact characterisation proved), switching AccurateDFid off after construction raises.
  Theorems (StatsDlProps.v, StatsProps.v): `C52_cbpdndl`, `C52_bpdndl`, `C52_wbpdndl`, `C52_default_config`, `C52_default_config_refuted`, `C52_option_change_refuted`, `C52_fastsolve`, `C52_record`, `C52_documented`, `C52_documented_refuted`, `C52_display`, `C52_display_hidden`, `C52_online`, `C52_online_norecord`, `C52_parallel`
* **C53** Status display separators and columns have consistent width. *partial.* Approach: StatusStr: string lengths.
  Outcome: Exact lengths for all labels, formats and values: header, separator and lines agree if and only if every label fits its column (values fitting theirs); false for longer labels because the header field pads but never truncates (C53_long_label_refuted). The labels used by the classes of the package all fit. Every label starts at the position of its column (C53_labels).
  Theorems (StatusProps.v): `C53_lengths`, `C53_consistent`, `C53_long_label_refuted`, `C53_labels`, `C53_rejects`
* **C54** Interpolation points and Lanczos kernels. *proved.* Approach: Interp: real arithmetic; sinc.
  Outcome: All numbers of points and all kernel widths over the reals; filters are normalised whenever the raw kernel sum is not zero, which is the division the code performs.
  Theorems (InterpProps.v): `C54_points`, `C54_points_nozero`, `C54_kernel`, `C54_filters_normalised`, `C54_filters_sum_one`, `C54_filters_at_samples`
* **C55** Robust regression by linear programming is exact. *partial.* Approach: LinProg: LP solver as oracle; reduction correct.
  Outcome: Exact for every problem with at least one row whose linear program is solved exactly; for an array without rows the reshape of the solver result fails (C55_no_rows_refuted).
  Theorems (InterpProps.v): `C55_lstabsdev`, `C55_lstmaxdev`, `C55_well_posed`, `C55_no_rows_refuted`
* **C56** Image quality metrics behave as distances. *partial.* Approach: Metric: real arithmetic.
  Outcome: Distances and monotonicity proved over the reals for every pair of images. For integer arrays the dynamic range and the noise variance are computed in the input type and wrap around (C56_psnr_int8_refuted, C56_bsnr_uint8_refuted). pamse and gmsd are not modelled.
  Theorems (MetricProps.v): `C56_mae`, `C56_mse`, `C56_snr_decreasing`, `C56_psnr_decreasing`, `C56_invariant`, `C56_isnr`, `C56_psnr_int8_refuted`, `C56_bsnr_uint8_refuted`
* **C57** Dictionary tiling shows every atom exactly once. *partial.* Approach: Tile: integer square roots.
  Outcome: The tiling statement holds for every non-empty dictionary and every consistent list of sizes; the displayed values are undefined (0/0) for a constant dictionary (C57_constant_refuted).
  Theorems (TileProps.v): `C57_tiling`, `C57_grid`, `C57_defined`, `C57_normalised`, `C57_constant_refuted`
* **C58** Constructing a solver with valid options does not fail. *partial.* Approach: InitOrder: attribute definition/use traces of the initialiser chains; refutations.
  Outcome: The statement is false (C58_valid_options_refuted); C58_construct_iff gives the exact set of failing combinations.
  Theorems (InitProps.v): `C58_construct_iff`, `C58_valid_options_refuted`
* **C59** Boundary-crossing suppression affects only boundary coefficients. *partial.* Approach: NoBndry: Python slice semantics.
  Outcome: Exact for filters of at least two samples along every axis, including the effect on the reconstruction (no wrap-around) and minimality of the constrained step; false for filters of size one along an axis, where the slice starts at 0 and all coefficients are removed (C59_size_one_refuted).
  Theorems (BndryProps.v): `C59_exact`, `C59_size_one_refuted`, `C59_size_one_witness`, `C59_characterised`, `C59_no_wrap`, `C59_ystep_minimises`
* **C60** Nuclear norm proximal operator. *proved.* Approach: Nuclear: SVD as an argument with its contract; the nuclear norm is the dual of the operator norm.
  Outcome: prox_nuclear and norm_nuclear against the variational definition of the nuclear norm, for any SVD routine meeting its contract.
  Theorems (NucProps.v): `C60_norm_nuclear`, `C60_prox_nuclear`
* **C61** Splitting a signal into low-pass and high-pass components loses nothing. *partial.* Approach: Signal: algebra.
  Outcome: Components sum to the signal for real and complex signals and the low-pass part is the unique minimiser of the documented energy; padding and cropping characterised. Refuted for integer signals (truncated), for unpadded single-row or single-column images (filters cut by the FFT length), for contrast normalisation of constant images (0/0) and n=0 (empty arrays); the inverse identity for contrast normalisation is proved whenever c>0 or some local norm is non-zero. For integer signals each component is off by less than one and the sum by at most one (C61_integer).
  Theorems (FiltProps.v): `C61_sum`, `C61_sum_cplx`, `C61_lowpass_minimises`, `C61_lowpass_minimises_cplx`, `C61_mean_kept`, `C61_pad_reflects`, `C61_pad_crop`, `C61_integer_refuted`, `C61_integer`, `C61_one_pixel_refuted`, `C61_gaussian`, `C61_lcn_window`, `C61_lcn_inverse`, `C61_lcn_inverse_default`, `C61_lcn_constant_refuted`, `C61_lcn_n0_refuted`
* **C62** Flattening for norms is reversible. *partial.* Approach: Nd: index permutation.
  Outcome: Proved for every proper subset of axes and every order in which the axis set is iterated; flattening over all axes raises TypeError because the product over the empty axis list is a float (C62_all_axes_refuted).
  Theorems (FlatProps.v): `C62_roundtrip`, `C62_rows_are_fibres`, `C62_rowwise`, `C62_accepts`, `C62_all_axes_refuted`
* **C63** Solver timers are balanced. *proved.* Approach: SolveTimers: timer state machine composed with the solve loop.
  Outcome: All timers of a solver are balanced and stopped after every return of solve.
  Theorems (SolveProps.v): `C63_timers_balanced`
* **C64** The l1 proximal operator on complex arrays minimises its objective. *partial.* Approach: Cprox: the complex branch entry by entry; minimality by the triangle inequality for the modulus.
  Outcome: Proved at every non-zero entry with uniqueness of the minimiser; zero entries give 0/0 (C64_zero_refuted).
  Theorems (CproxProps.v): `C64_minimises`, `C64_agrees_with_real`, `C64_zero_refuted`
* **C65** Constructing a solver does not change the caller's options object. *partial.* Approach: OptMut: the caller's options object as a heap cell that the constructor chain updates; frame property of the update.
  Outcome: Refuted: constructing a dictionary learning object overwrites the initial-value entries (X0, or Y0 and U0) of the nested dictionary update options of the caller's object, also when construction fails later. Exact characterisation proved: these entries and nothing else change, the object is unchanged iff it already held them, unchanged on a method mismatch, and nothing leaks into a second construction. Which value each class writes is stated entry by entry (C65_initial).
  Theorems (OptMutProps.v): `C65_changes`, `C65_initial`, `C65_unchanged_iff`, `C65_frame`, `C65_no_leak`, `C65_refuted`
* **C66** Weight and mask arrays are laid out compatibly with the internal arrays. *partial.* Approach: Cnvrep: the reshaping rules over shapes, compared with the broadcasting rule against the internal layout.
  Outcome: Masks: proved (C66_mask). l1 weights: the internal shape is characterised exactly (C66_l1_weight) and is compatible if S has a channel axis or no further axis (C66_l1_weight_compatible); false if S has only a signal axis, for a dictionary with channels, and for other numbers of axes (three refuted theorems).
  Theorems (CnvrepProps.v): `C66_l1_weight`, `C66_l1_weight_signals_refuted`, `C66_l1_weight_channels_refuted`, `C66_l1_weight_compatible`, `C66_l1_weight_axes_refuted`, `C66_mask`
* **C67** Initial dual variable for a supplied Y0 is dual-optimal. *partial.* Approach: Steps: subgradient inequality for each class that overrides uinit.
  Outcome: Holds for BPDN/ElasticNet with unit weights (C67_bpdn), SplineL1, ProjL1, TVL2 with unit weight, mask decoupling with unit weights, CnstrMOD (as fixed point of the y step). Refuted: L1Weight other than 1, BPDNJoint, RobustPCA (wrong sign, for every nonzero Y0), MinL1InL2Ball, ConvMinL1InL2Ball (blocks exchanged), TVWeight other than 1.
  Theorems (StepsProps.v): `C67_bpdn`, `C67_spline`, `C67_projl1`, `C67_tv`, `C67_maskdcpl`, `C67_cmod`, `C67_l1weight_refuted`, `C67_joint_refuted`, `C67_rpca_refuted`, `C67_minl1_refuted`, `C67_cminl1_refuted`, `C67_tv_weight_refuted`
* **C70** The x-step of convolutional sparse coding with total variation terms solves its linear system. *partial.* Approach: Cache: the linear solve at one frequency against the normal equations with one weight per filter.
  Outcome: Refuted for weights that differ between filters: the x-step is exact for all dictionaries if and only if the weights are uniform.
  Theorems (CacheProps.v): `C70_iff`, `C70_weights`
* **C69** The dictionary update of online learning is a gradient step for the signals of the call. *partial.* Approach: Online: the update compared with the derivative of the data fidelity, by expanding the objective at every displacement.
  Outcome: Refuted + exact characterisation. Holds when the dictionary has as many channels as the signals (C69_gradient, C69_layout) and for a shared single-channel dictionary without signal axis (C69_shared). Refuted for a shared dictionary with a signal axis (C69_shared_refuted), for the masked solver (C69_masked_refuted), for a later call with one signal (C69_stale_refuted) and for a single filter (C69_single_filter_refuted).
  Theorems (OnlineProps.v): `C69_gradient`, `C69_layout`, `C69_shared`, `C69_pairs`, `C69_shared_refuted`, `C69_masked_refuted`, `C69_stale`, `C69_stale_refuted`, `C69_stale_error`, `C69_single_filter_refuted`
* **C68** Reported data fidelity and reconstruction are the spatial-domain quantities. *proved.* Approach: Csc: Parseval for the half spectrum applied to the convolution theorem.
  Outcome: C68_reconstruct, C68_fidelity (variable Y) and C68_fidelity_xstep (the stored spectrum Xf, when the option fEvalX is set). Exact arithmetic, real data, filtered axes of positive length.
  Theorems (CscProps.v): `C68_reconstruct`, `C68_fidelity`, `C68_fidelity_xstep`
* **C71** The frequency-domain x-step minimises the spatial-domain sub-problem. *partial.* Approach: Csc: the solution at each frequency satisfies the normal equations, has the symmetry of the transform of a real array, and the objective is expanded about it; inversion and convolution theorems of FftInv carry this to the spatial domain.
  Outcome: C71_xstep, C71_unique and C71_two_block: for ConvBPDN, ConvElasticNet and the two-block classes without exception, for ConvBPDNGradReg when every filtered axis has length at least 2. Refuted for ConvBPDNGradReg with an axis of length 1 (C71_gradient_axis1_refuted): the gradient filter is cropped to 1 and the value itself is penalised.
  Theorems (CscProps.v): `C71_xstep`, `C71_two_block`, `C71_unique`, `C71_gradient_axis1_refuted`
* **C72** The iteration of convolutional sparse coding solves the documented problem. *proved.* Approach: CscIter: the generic ADMM theorems (AdmmProps, StepsProofs) applied to the flattened slice; the x step minimises by C71, the y step is the prox of the weighted l1 norm on the allowed arrays, and the slices are shown independent.
  Outcome: Fixed penalty parameter, exact arithmetic, one slice of the coefficient array (C72_slices: the steps treat slices independently). C72_stationary, C72_convergence, C72_returned. The hypotheses are the sizes being positive, rho > 0, lmbda and weights non-negative, and for the gradient term axes of length at least 2 (see C71).
  Theorems (CscIterProps.v): `C72_stationary`, `C72_convergence`, `C72_returned`, `C72_slices`
* **C73** Mask-decoupled and l2-constrained convolutional sparse coding solve their problems. *partial.* Approach: CscTwo: the generic two-block ADMM theorems applied to the flattened slice (A x = (D x, x), c = (s, 0)); the x step minimises the augmented Lagrangian by C71_two_block, block 0 of the y step is the masked ridge step or the projection on one ball per channel, block 1 the prox of the weighted l1 norm on the allowed arrays. The multiplier for the mask problem is constructed from the gradient at the solution; for the ball it is a hypothesis here and constructed under Slater's condition in C74.
  Outcome: Mask problem proved in full (stationary iterates, residual and objective of the returned coefficients from any start). Ball problem: proved with one constraint per channel of the signal; convergence given a Lagrange multiplier of the problem, which exists under Slater's condition (C74_ball); refuted for the documented constraint on the whole residual when the dictionary has several channels (C73_ball_joint_refuted).
  Theorems (CscTwoProps.v): `C73_mask_stationary`, `C73_mask_convergence`, `C73_ball_stationary`, `C73_ball_convergence`, `C73_ball_joint_refuted`
* **C74** The arrays computed by the sparse coding solvers converge to a solution, and a solution exists. *proved.* Approach: AdmmLimit: the distance of (Y, U) to every saddle point does not increase (C38), so a subsequence converges by Bolzano-Weierstrass (Compact, proved over Stdlib R without choice); its limit is a saddle point because the constraint sets are closed and the objectives locally Lipschitz (LimitProofs), and then the whole sequence converges to it. Existence: a locally Lipschitz coercive function attains its minimum on a closed box-like set, or on such a set cut by convex constraints (Lagrange). Multipliers of the ball problems: Lagrange, by Farkas-style induction on the number of constraints under Slater's condition.
  Outcome: Exact arithmetic, fixed penalty parameter. Convergence theorems assume that a minimiser exists (needed: with zero weights and a rank-deficient dictionary the minimum is still attained but this is not proved) and the _exists theorems give it under the stated positivity conditions; C74_projl1, C74_minl1 and C74_ball need no such assumption (Slater point for the two ball classes). One ball per column / per channel of the signal, as the code does (C73_ball_joint_refuted for the documented joint constraint with several channels). ConvBPDNJoint is not covered.
  Theorems (LimitProps.v): `C74_bpdn_exists`, `C74_bpdn`, `C74_enet`, `C74_joint_exists`, `C74_joint`, `C74_projl1`, `C74_minl1`, `C74_csc_exists`, `C74_csc`, `C74_mask_exists`, `C74_mask`, `C74_ball_exists`, `C74_ball`
* **C75** Total variation deconvolution (TVL2Deconv, TVL1Deconv) solves its problem. *partial.* Approach: TvdFourier: by Parseval the x-step quotient minimises a sum of squared circular-convolution residuals slice by slice; the denominators are positive exactly when the blur has a non-zero sum, the transforms of the difference filters vanishing only at frequency zero. SplitConv: for ||H x - s||^2 / 2 + g(K x - c) with g convex and Lipschitz a multiplier exists (DualProofs), so that C36 and C38 and the limit theorem of C74 apply. The regulariser is a sum of norms of groups (TvdSteps), minimised by prox_l2 and prox_l1. The clauses about the axes and the reported value are false and characterised exactly.
  Outcome: Optimality, existence and convergence are proved for axes which are the leading ones in some order and a blur with non-zero sum. Refuted: gradient_filters indexes the components by the axis number, so that other axes (e.g. (1, 2)) raise IndexError (C75_axes_refuted, exact condition C75_gradient_filters); with a blur of sum zero the x step divides by zero at frequency zero (C75_denominator, exact); with caxis and a weight array the reported regularisation term is wrong or raises ValueError except for a single pixel (C75_caxis_weights). Complex data are not modelled.
  Theorems (TvdProps.v): `C75_gradient_filters`, `C75_axes_refuted`, `C75_A`, `C75_denominator`, `C75_tvl2_stationary`, `C75_tvl2_limit`, `C75_tvl1_stationary`, `C75_tvl1_limit`, `C75_exists`, `C75_caxis_weights`
* **C76** Convolutional sparse coding with total variation terms solves the documented problem. *partial.* Approach: CtvFreq: the frequency-domain system with a diagonal depending on the frequency and the coupling of the filters through the dictionary has a hermitian solution which minimises the spatial sub-problem (single-channel dictionaries need one TV weight, C70). SplitConv with K x = (weighted differences, x) gives optimality of fixed points, convergence and existence. ConvBPDNVectorTV satisfies the claim; for ConvBPDNScalarTV the y-step omits the axis argument of prox_l2, so that the problem solved has the norm of the whole array of differences in place of the sum of norms: the claim is refuted by a signal of two samples, for every start and parameter.
  Outcome: Proved for ConvBPDNVectorTV (single-channel dictionaries: equal TV weights, since otherwise the x step is inexact, see C70). Refuted for ConvBPDNScalarTV: ystep (319) calls prox_l2 without axis, so that the iteration converges to a minimiser of the problem with the l2 norm of the whole array of differences (C76_scalar_limit, exact), which is not a minimiser of the documented one (C76_scalar_refuted). The reported l1 term with weights for each filter is wrong unless there is a single filter (C76_reported_l1, exact). ConvBPDNRecTV is not modelled.
  Theorems (CtvProps.v): `C76_A`, `C76_Xf`, `C76_vector_stationary`, `C76_vector_limit`, `C76_scalar_stationary`, `C76_scalar_limit`, `C76_exists`, `C76_scalar_refuted`, `C76_reported_l1`
* **C77** Step size policies of the proximal gradient solvers give usable steps. *partial.* Approach: On PgmModel: along the gradient the data term is a quadratic whose vertex is the Cauchy step; bounds by Cauchy-Schwarz. The divergence of the weighted class is an induction: from the third iteration on the error changes sign and grows by 3/2. The Barzilai-Borwein counterexample is a run of four iterations.
  Outcome: Proved for the Cauchy policy with BPDN: where the gradient is not zero L is positive, the step is an exact line search and L is at most the Lipschitz constant; for Barzilai-Borwein L is in the range of the curvature when there is no extrapolation. Refuted: WeightedBPDN (and likewise ConvBPDNMask and the weighted dictionary updates) inherits the unweighted Hessian, its step is exact only if the weights leave the curvature along the gradient unchanged (C77_weighted_exact) and runs diverge (C77_weighted_refuted, for every weight >= 3); with momentum the Barzilai-Borwein quotient mixes differences of X with gradients at Y and leaves the range (C77_bb_refuted); both policies are 0/0 at a point with zero gradient (C77_cauchy_defined, C77_zero_signal).
  Theorems (StepSzProps.v): `C77_cauchy_defined`, `C77_cauchy_exact`, `C77_cauchy_range`, `C77_weighted_exact`, `C77_bb_range`, `C77_weighted_refuted`, `C77_bb_refuted`, `C77_zero_signal`
* **C78** Mask simulation with additional impulse filters solves the masked sparse coding problem. *partial.* Approach: The extended dictionary, the y step with the index arrays of np.where, and the inner iteration of CscIterModel. The impulse maps are eliminated from the objective of the extended problem (convolution with an impulse is the identity), existence is taken from C74_mask_exists, convergence from the general theorem behind C74_csc for a constraint set given entry by entry.
  Outcome: C78_converges: the first M maps converge to a minimiser of the masked problem with the mask that the code applies. C78_full: when W has the full shape of the impulse maps this is the intended mask. C78_applied: exact description, the applied mask is the intended one where the coordinate is zero on each axis along which W has size one, and is zero (sample ignored) elsewhere. C78_uncovered: for a mask shared between channels or signals the coefficients of every channel and signal but the first converge to zero, whatever the data (np.where indexes with positions of W itself). C78_shared_mask_refuted: witness. The statement is therefore false for broadcast masks. Modelled with ConvBPDN as inner class; non-binary weights act as their support.
  Theorems (AmsProps.v): `C78_converges`, `C78_applied`, `C78_full`, `C78_uncovered`, `C78_shared_mask_refuted`
* **C79** The l1-l1 convolutional solver with gradient regularisation minimises its documented functional. *proved.* Approach: The x step is shown to minimise the augmented Lagrangian with the results of C71 about the Fourier domain systems, the y step is the soft threshold about the signal; the general convergence theorem of SplitConv then applies with the gradient term as the smooth part and K x = (D x, x).
  Outcome: C79_limit, C79_exists, C79_stationary. The axes of the gradient need at least two samples (the gradient filters are cut to one sample otherwise). One slice (signal) at a time: the solver treats the signals independently.
  Theorems (GrdProps.v): `C79_stationary`, `C79_limit`, `C79_exists`
* **C80** What the dictionary update solvers solve. *partial.* Approach: CcmModel.v mirrors the x-, y- and u-steps in the frequency domain and uses getPcn of PcnModel.v; CcmSpec.v states the problem in the spatial domain; the constraint function is characterised by the linear functional identity <w,z> = n <P(w),z> on feasible z; the fit is an exact quadratic, so linear lower bounds have a unique slope.
  Outcome: Refuted in one part: a stationary dictionary need not be a solution, because the unit norm constraint is not convex (C80_stationary_refuted: one sample, z = s = 1, the filter -1 is stationary for every parameter above 2, the solution is the filter 1).  Everything else is proved: the x-steps (C80_xstep_ism, C80_xstep_cns), the stationary dictionaries of IterSM with penalty rho, of Consensus with penalty rho / K and of the proximal gradient solver with L = rho are exactly the dictionaries satisfying the first order condition with multipliers below rho (C80_ism, C80_cns, C80_pgm), descent of the proximal gradient step (C80_pgm_descent with C80_curvature), solutions are stationary (C80_minimiser), and stationary dictionaries with non-positive multipliers are solutions (C80_optimal).  The conjugate gradient variant and LinSolveCheck are not modelled.
  Theorems (CcmProps.v): `C80_xstep_ism`, `C80_xstep_cns`, `C80_dual_ism`, `C80_dual_cns`, `C80_ism`, `C80_cns`, `C80_pgm`, `C80_curvature`, `C80_pgm_descent`, `C80_minimiser`, `C80_optimal`, `C80_stationary_refuted`
* **C81** Sparse coding with the total variation of the reconstruction. *partial.* Approach: The x step is rewritten as a sparse coding system with the additional rows sqrt(rho) times the differences of the filters; the generic splitting results then apply to the map x -> (gradient of the reconstruction, x). View or copy is decided by the existence of strides for the new shape.
  Outcome: Refuted + exact characterisation. Proved in full (stationary states, convergence of the iterates, existence of minimisers) whenever the assignment to block_sep1(Y) in ystep changes Y; for dictionaries with Cd > 1 channels this is the case exactly if there is one signal or Cd signals (C81_view), always for Cd = 1. Otherwise the assignment goes to a copy: Y1 keeps its initial value, mu has no effect (C81_copy) and the solver enforces a constant reconstruction (C81_copy_stationary, C81_copy_limit, C81_copy_refuted). C81_dual_refuted: cnst_AT does not sum over the channels, so that the reported dual residual is not that of the problem.
  Theorems (RtvProps.v): `C81_view`, `C81_A`, `C81_Xf`, `C81_stationary`, `C81_limit`, `C81_exists`, `C81_copy`, `C81_copy_stationary`, `C81_copy_limit`, `C81_copy_refuted`, `C81_dual_refuted`
* **C82** Dictionary update with mask decoupling. *proved.* Approach: The fit with a mask is expanded along a line; the dual variable of the signal block is the squared mask times the block over rho after every iteration, so that the stationarity of the x step is the slope of the masked fit; the projection is handled as in C80.
  Outcome: IterSM and Consensus (CG solves the same system iteratively and is not modelled). Stationary dictionaries are exactly those with the first order condition with multipliers below rho (C82_ism), below K rho for the consensus solver (C82_cns). Zero residuals imply that condition (C82_residual, C82_residual_cns) and conversely (C82_fixed_residual, C82_fixed_residual_cns). Solutions are stationary once the parameter is large enough (C82_minimiser); a stationary dictionary need not be a solution because the constraint set is not convex (C82_stationary_refuted), which the statement does not claim.
  Theorems (MduProps.v): `C82_mask`, `C82_xstep`, `C82_dfid`, `C82_residual`, `C82_ism`, `C82_fixed_residual`, `C82_xstep_cns`, `C82_residual_cns`, `C82_cns`, `C82_fixed_residual_cns`, `C82_minimiser`, `C82_stationary_refuted`
* **C83** The proximal gradient convolutional solvers minimise the convolutional sparse coding problem in any number of dimensions. *proved.* Approach: PgnModel models the two classes in n dimensions on flattened arrays (PgnModel.v); the data term is a quadratic function whose expansion gives gradient, convexity and curvature bound (Parseval, adjoint of the synthesis from MduProofs); then the simulation of PGM by PGMDFT and the rate of C42.
  Outcome: for a fixed step parameter and real data; the line searches on the half spectrum are refuted in C40, and the attribute X with the monotone option in C39. C83_mono_rate is the bound for Xf
  Theorems (PgnProps.v): `C83_gradient`, `C83_gradient_mask`, `C83_value`, `C83_value_mask`, `C83_hessian`, `C83_reconstruct`, `C83_gain`, `C83_gain_one`, `C83_rate`, `C83_fixed`, `C83_mask_rate`, `C83_mask_fixed`, `C83_mono_rate`
* **C84** Product dictionary sparse coding solves its documented problem; setdict(B=...) breaks it. *partial.* Approach: The product dictionary is the multi-channel dictionary with filters B_cb d_m; the spectrum computed through the eigenvectors satisfies the normal equations of that dictionary at every frequency (orthogonality of Q and B^T B Q = Q Gamma), and the strong minimality lemma of C71 and the ADMM theorems of C36, C38 and C74 apply. The y step of the joint class is shown to be the proximal map of the sum of the two norms on every group. The refutation shows that after setdict(B=2) from B=1 the x step is that of the signal divided by two.
  Outcome: The x step, the iteration of both classes, reconstruct, the data fidelity, the construction and setdict(D=...) are proved; the statement that setdict(B=...) updates the object is refuted (C84_setdict_B_refuted). eigh enters through its contract (Q orthogonal, B^T B = Q diag(G) Q^T), which every theorem takes as a hypothesis.
  Theorems (PdcProps.v): `C84_init`, `C84_setdict_D`, `C84_xstep`, `C84_reconstruct`, `C84_fidelity`, `C84_stationary`, `C84_convergence`, `C84_iterates`, `C84_exists`, `C84_joint_stationary`, `C84_joint_iterates`, `C84_joint_exists`, `C84_setdict_B_refuted`
* **C85** Product dictionary coding with an l1 data term minimises the documented functional, but its own dual residual does not tend to zero. *partial.* Approach: PdgModel mirrors the x step in the eigenbasis of B^T B, the constraint, its adjoint, both y steps and both residuals.  PdgProofs shows that the x step equals that of ConvL1L1Grd for the flattened product dictionary (so C79's argmin applies), proves the adjoint relation and the limit of rho <U, K v>.  PdgProps instantiates the split machinery with a generic convex Lipschitz function of the coefficients, then with the l1 and the l2,1 norm.
  Outcome: Refuted as far as the dual residual is concerned, with the exact limit.  C85_stationary, C85_limit, C85_exists and the joint versions prove the rest.  C85_limit also gives the limits of both residuals: the product of the reported one (line 571, rho A^T U) with any d tends to R(p) + R(d) - R(p + d), R being the mu term, and that of the one inherited from ConvL1L1Grd to zero.  C85_dual_positive: whenever R does not vanish at the minimisers the norm of the reported residual is bounded below from some iteration on, so the stopping test is not met for small tolerances.  C85_dual_refuted gives a concrete signal for which this happens for every rho, relaxation parameter and starting state.  A comment in the source (564) says that it is not clear which of the two definitions is better.  Not modelled: HighMemSolve, automatic rho, NonNegCoef, NoBndryCross.  Read but not stated: options Y0 and U0 are ignored (400-402), Nc counts Cb for block 0, and the joint class fails with opt=None (677).
  Theorems (PdgProps.v): `C85_stationary`, `C85_limit`, `C85_exists`, `C85_dual_positive`, `C85_joint_stationary`, `C85_joint_limit`, `C85_joint_exists`, `C85_dual_refuted`
* **C86** The plug and play solvers find (consensus) equilibria, the ADMM and the proximal gradient version the same ones. *partial.* Approach: PppProofs proves the Krasnoselskii-Mann theorem in finite dimension for weighted inner products (Fejer monotonicity, Bolzano-Weierstrass) and Douglas-Rachford convergence for two firmly non-expansive operators; PppProps shows that the argument of the denoiser follows that iteration, and stacks the agents of the consensus solver in the inner product weighted by mu.
  Outcome: Proved: C86_limit, C86_stationary, C86_fixed, C86_prox_firm, C86_prox_min, C86_pgm_same, C86_pgm_residual, C86_consensus_limit, C86_consensus_min.  Refuted: C86_rho_refuted (a denoiser that ignores its second argument; the equilibrium is 1/(1+rho), for every rho) and C86_monotone_refuted (Monotone compares f alone, the only objective component these classes report, and the value at X0 stays the reference, so a run started at the minimiser of f returns the first iterate for ever).  Not proved: convergence of the proximal gradient version with momentum.  The penalty parameter is fixed; backtracking needs obfn_f, which these classes do not define.
  Theorems (PppProps.v): `C86_limit`, `C86_stationary`, `C86_fixed`, `C86_prox_firm`, `C86_prox_min`, `C86_pgm_same`, `C86_pgm_residual`, `C86_consensus_limit`, `C86_consensus_min`, `C86_rho_refuted`, `C86_monotone_refuted`
* **C87** SplineL1 computes the l1 spline of its documentation. *proved.* Approach: SplModel writes dctii/idctii as sums of cosines per axis and transcribes Alpha, Gamma, xstep, ystep, eval_objfn. SplSpec gives the operator D by differences only. SplProofs: orthogonality of the cosine basis from closed forms of cosine sums, the second difference of a basis function is alpha times it (including the ends), several axes by induction with commuting axes, symmetry of D. SplProps instantiates SplitConv with K = identity and c = S.
  Outcome: Exact arithmetic, fixed penalty parameter (AutoRho is enabled by default in this class; its effect is the subject of C34). scipy.fftpack.dct/idct are modelled by their documented sums. Existence of a solution is proved for positive weights.
  Theorems (SplProps.v): `C87_roundtrip`, `C87_operator`, `C87_linsolve`, `C87_xstep`, `C87_ystep`, `C87_stationary`, `C87_limit`, `C87_exists`, `C87_objective`
* **C88** RobustPCA converges to a solution of the robust PCA problem. *proved.* Approach: RpcModel adds the main loop and eval_objfn to the steps of StepsModel. RpcProofs: ADMM for f(x) + g(y), x + y = c by reduction to the form of AdmmLimit (sign change of y) with a multiplier from DualProofs; Lipschitz continuity of the nuclear norm from |W_ij| <= 1 for contractions. RpcSpec states the problem with the dual definition of the nuclear norm.
  Outcome: Exact arithmetic, fixed penalty parameter; numpy.linalg.svd by its contract (orthonormal factors, non-negative values, product equal to the argument). Initialisation with a given Y0 is the subject of C67 (wrong sign for this class); the limit theorem holds for any initial state.
  Theorems (RpcProps.v): `C88_exists`, `C88_limit`, `C88_large`, `C88_small`, `C88_default_column`
* **C89** TVL2Denoise and TVL1Denoise converge to the total variation solution although their x step is only a few relaxation sweeps, provided MaxGSIter is even. *proved.* Approach: TdnModel iterates the real x step loop (GaussSeidelStep of SignalModel, rrs, MaxGSIter, GSTol), the y steps and the outer ADMM loop. JacProofs proves abstractly that ADMM whose x step is an even number of Jacobi sweeps (splitting M - N with M + N and M - N positive definite) converges: the sweeps equal an exact proximal step in a positive semidefinite metric. TdnProofs shows that GaussSeidelStep is a Jacobi sweep for the Laplacian splitting, that M + N is positive (signless Laplacian, by flipping the sign of every other sample), and that with GSTol <= 0 the loop is exactly MaxGSIter sweeps. For one sweep an attracting three-cycle is exhibited with a quadratic invariant, entered from the default start after ten exact steps.
  Outcome: Fixed rho (AutoRho off), exact arithmetic, axes = (0, ..., K-1): by C26 cnst_AT is the adjoint of cnst_A only then. The refutation for MaxGSIter = 1 is part of the statement (C89_one_sweep_refuted: S = (2, -2), lmbda = 5.45, all else default). GSTol > 0 is not covered. The per-pixel TV weight w has no channel axis (for weights with caxis see C75).
  Theorems (TdnProps.v): `C89_exists_l2`, `C89_exists_l1`, `C89_unique_l2`, `C89_limit_l2`, `C89_limit_l1`, `C89_one_sweep_refuted`
* **C90** ConvBPDNInhib: what the lateral and self inhibition weights are, which problem a converged solution solves, and that it is not the documented functional. *partial.* Approach: model of the constructor lines building the windows (np.roll on index functions), of the weight updates and of the y step, on top of the ADMM model of C72; windows by modular arithmetic on the roll, convolution as a matrix sum through the FFT theorems, stationarity through the saddle point lemmas of C72/C36, first order stationarity by symmetry of the inhibition matrix
  Outcome: Partial because the documented functional is refuted (C90_functional_refuted: a stationary state of the solver that is not first order stationary for the documented functional) and replaced by an exact characterisation (C90_stationary, C90_fixed, C90_limit: equilibrium of the reweighted problem; C90_first_order: stationary for the functional with half of the inhibition, for palindromic windows). C90_groups_refuted: fractional memberships give negative weights. Convergence itself is a hypothesis of C90_limit (the problem is not convex). C90_windows: failure exactly if the odd window length exceeds the signal. The documentation writes |x * h|, the code computes h * |x|, which is what is proved. The window is an arbitrary non-negative function; scipy's get_window returns by default a periodic window, which is not a palindrome for odd lengths (C90_one_sided).
  Theorems (InhProps.v): `C90_windows`, `C90_weights`, `C90_nonneg`, `C90_plain`, `C90_stationary`, `C90_fixed`, `C90_limit`, `C90_first_order`, `C90_functional_refuted`, `C90_groups_refuted`
* **C91** The dictionary updates CnstrMOD (ADMM and proximal gradient, with and without weights) and their constraint projection. *partial.* Approach: cone projection characterised by polarity, normalisation composed with it; fixed points against variational inequalities column by column; first order condition by convexity of the misfit; limits by continuity of the cone projection and ||p|| d = p
  Outcome: Partial because of the refuted parts: unused atoms stay zero and infeasible while Cnstr reports no violation (C91_unused_refuted, C91_cnstr exact); a stationary dictionary need not be a solution (C91_stationary_refuted); hessian_f of WeightedCnstrMOD is the one without weights (C91_weighted_hessian_refuted). Everything else is proved: C91_pcn, C91_xstep, C91_admm_stationary, C91_pgm_stationary, C91_admm_limit, C91_pgm_limit, C91_descent, C91_curvature, C91_solution, C91_minimiser (the case NonNegCoef needs that the step from the solution has no zero column), C91_optimal. The linear solver is an argument satisfying the equation proved in C23. Convergence itself is a hypothesis in the limit theorems. Read but not stated: reconstruct of pgm/cmod.py (232) uses an attribute D which is never set.
  Theorems (CmdProps.v): `C91_pcn`, `C91_cnstr`, `C91_objective`, `C91_pgm_stationary`, `C91_pgm_limit`, `C91_descent`, `C91_curvature`, `C91_minimiser`, `C91_solution`, `C91_optimal`, `C91_xstep`, `C91_admm_stationary`, `C91_admm_limit`, `C91_unused_refuted`, `C91_hessian`, `C91_weighted_hessian_refuted`, `C91_stationary_refuted`
* **C92** Nearest Kronecker products, the Kronecker product SVD, principal components and block circulant matrices. *partial.* Approach: Eckart-Young proved from scratch (Gram-Schmidt with zero-or-unit vectors, Bessel, weights between zero and one); the rearrangement as a strided view, transpose and reshape; loop invariants for the block assignments
  Outcome: Partial because of the refuted parts: nkp and kpsvd raise for a first factor with a single row or column, a request with a solution, since subsample_array needs a step smaller than the axis (C92_single_refuted, exact condition C92_raises); with fewer observations than variables synthesis after analysis is not the identity (C92_pca_synthesis_refuted, otherwise C92_pca_synthesis); block_circulant converts later blocks to the type of the first and repeats single rows or columns without an exception (C92_circulant_type_refuted, C92_circulant_shape_refuted). Everything else is proved: C92_nkp, C92_kpsvd (full Eckart-Young theorem by Gram-Schmidt), C92_pca, C92_pca_best, C92_circulant, C92_circulant_raises. The decomposition itself is an argument.
  Theorems (KpsProps.v): `C92_raises`, `C92_single_refuted`, `C92_nkp`, `C92_kpsvd`, `C92_pca`, `C92_pca_best`, `C92_pca_synthesis`, `C92_pca_synthesis_refuted`, `C92_circulant`, `C92_circulant_raises`, `C92_circulant_type_refuted`, `C92_circulant_shape_refuted`
* **C93** Which arrays the solvers share with the caller and which they overwrite. *partial.* Approach: Programs over New/Bind/Write with nondeterministic branches and loops, transcribed from the constructors and iterations; a may-alias analysis proved sound by induction over executions and evaluated on each program; executions for the refuted cases from a must-be-set analysis and an executor proved sound.
  Outcome: Refuted for the listed classes and characterised exactly: C93_results_overwritten_refuted (from every reachable state an iteration exists that changes the array handed out), C93_dictlearn_refuted, C93_uinit_alias_refuted (with option Y0 the dual variable of the ADMM dictionary updates is the same array as Y until the first iteration). Array contents are abstracted; object identity, rebinding and in-place writes are modelled.
  Theorems (AliProps.v): `C93_caller_arrays`, `C93_results_stable`, `C93_results_stable_after_one`, `C93_uinit_alias_refuted`, `C93_results_overwritten_refuted`, `C93_dictlearn_refuted`, `C93_previous_iterate`, `C93_unrelaxed_product`, `C93_runs`, `C93_tv_returns_argument`
* **C94** ADMM.solve stops by its tolerances after a number of iterations that can be computed beforehand, and the tolerances bound the error of the objective. *partial.* Approach: RateModel models compute_residuals and the test of solve() on top of AdmmModel and SolveModel. The gap A x_{k+1} + B y_k - c never grows (two optimality conditions for x and two for y, Cauchy-Schwarz-free algebra), the squared distance in u - By falls by its square, hence the 1/K bound; C33 turns the bound into an iteration count. The counterexample is a scalar BPDN with X = 2^-k.
  Outcome: The English claim holds for AbsStopTol > 0 (C94_rate, C94_rate_unrelaxed, C94_fit_after_one, C94_test, C94_iterations, C94_bpdn, C94_quality); for AbsStopTol = 0, the default, it is refuted (C94_relative_only_refuted, in exact arithmetic). AutoRho has to be disabled, no callback, FastSolve off. MultiDict and consensus classes are not instantiated; BPDN is.
  Theorems (RateProps.v): `C94_rate`, `C94_fit_after_one`, `C94_rate_unrelaxed`, `C94_test`, `C94_iterations`, `C94_quality`, `C94_bpdn`, `C94_relative_only_refuted`
* **C95** ParConvBPDN, run for long enough, solves the convolutional sparse coding problem whatever the division into groups. *proved.* Approach: The memory model of C45-C47 gives the sequence of iterations for any history and schedule. The iteration is shown to be generic two-block ADMM in scaled coefficients (alpha X) with the blocks D_i X and alpha X; the joint Y0 update is the proximal step of the fidelity of the sum over groups (same residual for every group), the Y1 update that of the weighted l1 norm with constraints. A saddle point is built from any minimiser and the convergence theorem behind C74 applies.
  Outcome: Exact arithmetic; the linear system of a group is assumed solved exactly (C21 for the solver). The hypothesis on iteration 256 is the defect of C47; multi-channel dictionaries are excluded by the defect of C46 (axis=mp_C). Built on the memory model and schedules of C45-C48.
  Theorems (ParLimProps.v): `C95_limit`, `C95_one_call`, `C95_objective`, `C95_groups`, `C95_exists`
* **C96** reconstruct() returns the signal that the given coefficients and dictionary represent. *partial.* Approach: RecModel has each reconstruct method with its exceptions, over the transforms of FftModel; broadcasting of the half spectra is modelled by shapes. RecProofs: the transform of an array padded along axes where it has full size or size one is the transform of the array repeated; with C68_reconstruct this gives the convolution.
  Outcome: Refuted in full generality, with the exact characterisation. Holds for coefficients passed to every sparse coding class (C96_argument), for the default of the PGM class and of the ADMM classes unless ReturnX is set (C96_default), and for dictionary learning with cropped or full dictionaries (C96_dictlrn). The two block classes use the spectrum of X and not the variable returned by solve; the difference is at most the largest entry of X - Y1 times the filter mass (C96_two_block), and is not zero (C96_default_refuted); before the first iteration the result is whatever the allocated array holds. The dictionary update classes transform the dictionary passed on its own shape: correct when each axis has the size of the signal or one (C96_dictionary), ValueError exactly when some 1 < Nd < N (Nd//2 < N//2 on the last axis; C96_dictionary_raises), so for the cropped dictionary that getdict returns; a wrong signal for N = 2k+1, Nd = 2k on the last axis (C96_dictionary_refuted). pgm BPDN ignores its argument; pgm CnstrMOD and MultiDictConvBPDN always raise. Complex data and the consensus variants of the default, with one dictionary copy for each block, are not modelled.
  Theorems (RecProps.v): `C96_argument`, `C96_default`, `C96_two_block`, `C96_default_refuted`, `C96_dictionary_default`, `C96_dictionary`, `C96_dictionary_raises`, `C96_dictionary_refuted`, `C96_dictlrn`, `C96_bpdn`, `C96_bpdn_refuted`, `C96_raises_refuted`
* **C97** The conjugate gradient dictionary updates solve their linear system to the requested accuracy. *partial.* Approach: CgModel has the operator with its reshapes on flattened arrays and the x step; cg is a parameter. The error bound follows from <A e, e> >= rho ||e||^2 and the Cauchy-Schwarz inequality on complex vectors; the algorithm of scipy is transcribed to show that the contract can be met.
  Outcome: Refuted in full generality, with the exact characterisation. The operator is linear, self-adjoint and positive definite as cg requires (C97_operator), the systems have exactly one solution, that of solvemdbi_ism (C97_solution), and a result reported as successful is within tol ||b|| / rho of it in norm and in every entry (C97_accuracy). The tolerance is for all frequencies together, a single system can be left unsolved (C97_frequency_refuted). The second result is not the number of iterations but 0 on success and the iteration limit otherwise (C97_count, C97_count_refuted). The x step returns the previous spectrum whenever it meets the tolerance, so a stationary iterate satisfies the optimality condition up to tol ||b|| (C97_stationary) and not exactly (C97_stationary_refuted). scipy's cg is external: the theorems quantify over all functions with the contract cg_contract, which the algorithm of scipy meets in exact arithmetic (C97_contract). The transform back to the spatial domain is that of C80.
  Theorems (CgProps.v): `C97_operator`, `C97_solution`, `C97_accuracy`, `C97_stationary`, `C97_stationary_refuted`, `C97_frequency_refuted`, `C97_contract`, `C97_count`, `C97_count_refuted`
* **C98** The initial value options Y0, Y1, U0 and U1 of ParConvBPDN take effect. *partial.* Approach: PiniModel has the module globals as a map from names, the constructor's four assignments and histories of events; PiniSpec describes the array left behind from the history read backwards; induction over the history.
  Outcome: Refuted in full generality, with the exact characterisation. Without the options every solve starts from zero after any history (C98_default). An option that is set is stored under the wrong global name (line 650 sets Y0 and not mp_Y0, and so on), so its value never matters (C98_value_ignored): solve raises TypeError when no earlier object was constructed without the option (C98_fresh_refuted), and otherwise starts from what the earlier objects left in the shared array (C98_start gives it for every history; C98_stale_refuted a case without an error). Not modelled: arrays left behind with another shape, and restarting an object while another one was constructed in between (C48).
  Theorems (PiniProps.v): `C98_default`, `C98_start`, `C98_value_ignored`, `C98_fresh_refuted`, `C98_stale_refuted`
* **C99** The helpers for test data: random masks, salt and pepper noise, conversion to grey. *partial.* Approach: SynModel has the three functions entry by entry with the draw of numpy's generator as an argument and the conversion to real, integer and bool types. Probabilities are lengths of intervals of draws.
  Outcome: Proved for real types, except that a draw with |u| = frc is kept as the value of the mask (C99_mask, C99_mask_values_refuted). Refuted for other types: an integer mask is all zero and a bool mask all one for every frc (C99_mask_types_refuted), noise values are truncated in an integer image (C99_noise_types_refuted) and every integer image becomes black (C99_gray_refuted), because the weights are converted to the type of the image. Integer wrap-around and rounding are not modelled.
  Theorems (SynProps.v): `C99_mask`, `C99_mask_fraction`, `C99_mask_values_refuted`, `C99_mask_types_refuted`, `C99_noise`, `C99_noise_fraction`, `C99_noise_types_refuted`, `C99_gray`, `C99_gray_refuted`
* **C100** The perceptual metrics pamse and gmsd. *partial.* Approach: PerModel has scipy's Gaussian filter with its seven weights and reflected continuation, and convolve2d with symmetric boundary. The bound for pamse is Jensen's inequality summed over one period of the continued signal; the bound 1/2 is that of the standard deviation of values in [0, 1].
  Outcome: Proved except for two refuted parts. Symmetry holds without rescaling (C100_pamse_symmetric, C100_gmsd_symmetric) and fails with it, which is the default, because only the maximum of vref is used (C100_pamse_symmetric_refuted; C100_gmsd_symmetric_refuted for the quality map). A gmsd score of 0 does not mean that the images are similar: the standard deviation of a constant map is 0, and a step compared with a black image has score 0 at quality below 1/100 (C100_gmsd_zero_refuted). Integer images and rounding are not modelled.
  Theorems (PerProps.v): `C100_pamse_bound`, `C100_pamse_constant`, `C100_pamse_symmetric`, `C100_pamse_symmetric_refuted`, `C100_gmsd_range`, `C100_gmsd_identical`, `C100_gmsd_invariant`, `C100_gmsd_symmetric`, `C100_gmsd_zero_refuted`, `C100_gmsd_symmetric_refuted`
* **C101** The checks of linear algebra: valid_adjoint accepts exactly adjoint pairs and rrs measures a relative residual. *partial.* Approach: VadModel has the draws as arguments and 0/0 as a separate value whose comparison is False. Unit vectors as draws give the exact characterisation.
  Outcome: rrs proved (C101_rrs_range, C101_rrs_relative). For valid_adjoint, refuted in full generality with the exact characterisation: the error is 0 (or 0/0) for every draw exactly when AT is the transpose, not the conjugate transpose, of A (C101_adjoint_exact), and transposes are accepted for exactly the draws with x1 . A x0 nonzero (C101_adjoint_accepted). So the zero operator is rejected for every draw (C101_adjoint_zero_refuted), the adjoint of a complex operator can be rejected for every draw and its transpose accepted (C101_adjoint_complex_refuted), and a factor within the tolerance is accepted (C101_adjoint_tolerance_refuted). Rounding is not modelled, nor that the exceptional draws have probability zero for a nonzero operator.
  Theorems (VadProps.v): `C101_rrs_range`, `C101_rrs_relative`, `C101_adjoint_exact`, `C101_adjoint_accepted`, `C101_adjoint_zero_refuted`, `C101_adjoint_tolerance_refuted`, `C101_adjoint_complex_refuted`
* **C102** The array products inner and dot. *partial.* Approach: InnModel has arrays as shapes with entries at index lists, and moveaxis, einsum, expand_dims and broadcasting as functions on them. The proof moves the summed axis through broadcasting by induction on its position.
  Outcome: inner proved for two arrays with the same number of dimensions and an axis in range, exceptions included (C102_inner). Refuted otherwise: a negative axis is counted from the end of x in both arrays, so another axis of y is summed (C102_inner_dimensions_refuted) or an exception is raised although the product exists (C102_inner_raises_refuted), and an axis out of range is taken for another one (C102_inner_range_refuted). dot proved for matching sizes (C102_dot); sizes of one that do not match are broadcast and not rejected (C102_dot_sizes_refuted). numpy's broadcasting, moveaxis and einsum are modelled, and the specification uses the same rule of broadcasting.
  Theorems (InnProps.v): `C102_inner`, `C102_inner_dimensions_refuted`, `C102_inner_raises_refuted`, `C102_inner_range_refuted`, `C102_dot`, `C102_dot_sizes_refuted`
* **C103** The array helpers zpad, zdivide, atleast_nd and split. *partial.* Approach: AhlModel uses the arrays of InnModel. np.pad is a function on shapes and index lists; the proofs are inductions on the position of the axis.
  Outcome: Proved for zpad with 0 <= ax < ndim (C103_zpad; every other ax raises, C103_zpad_raises, so negative axes are not supported), atleast_nd (C103_atleast_nd), zdivide for a real or complex numerator of the full shape (C103_zdivide) and split for an axis in range (C103_split). Refuted: zdivide raises for integer numerators and for numerators that would have to be broadcast (C103_zdivide_refuted); split takes some axes out of range for another axis (C103_split_refuted). promote16 is not modelled.
  Theorems (AhlProps.v): `C103_zpad`, `C103_zpad_raises`, `C103_zdivide`, `C103_zdivide_refuted`, `C103_atleast_nd`, `C103_split`, `C103_split_refuted`
* **C104** Demosaicing by bilinear interpolation. *partial.* Approach: DmsSpec states what an interpolating cubic spline is. The proofs use that it interpolates, and for four samples that it is a single cubic polynomial. The green channel is put into closed form by case distinction over corners, borders and interior.
  Outcome: Proved: the measured values are kept and there is no NaN (C104_samples), red and blue are continued as constants at the border (C104_border), a missing green value is the mean of two green neighbours, opposite ones except at the corners (C104_green; which pair is up to the triangulation, it is never the mean of all four). Refuted: red and blue are interpolated by cubic splines, because RectBivariateSpline is called with its default degrees (C104_midpoint gives the weights -1, 9, 9, -1 over 16), so that an image with values in [0, 1] gets negative values (C104_bilinear_refuted); images with fewer than 8 rows or columns raise (C104_raises_refuted). The spline routine is a parameter with the hypothesis that it returns the not-a-knot interpolating spline, and linear griddata is modelled by its values on this grid.
  Theorems (DmsProps.v): `C104_raises_refuted`, `C104_samples`, `C104_border`, `C104_green`, `C104_midpoint`, `C104_bilinear_refuted`
* **C105** Promotion of half precision arrays. *partial.* Approach: P16Model adds element types to NucModel. Singular vectors have unit norm, so that truncation leaves 0 except for entries of absolute value 1.
  Outcome: True for floating point types (C105_promote, C105_apply, C105_float) and for norm_nuclear with every type. Refuted for prox_nuclear of integer matrices (C105_integer_refuted): promote16 converts the results to the type of u for every type, not only float16, so the singular vectors are truncated and the result is the zero matrix unless a singular vector is a coordinate vector (C105_integer). Rounding to float16 is not modelled.
  Theorems (P16Props.v): `C105_promote`, `C105_apply`, `C105_float`, `C105_integer`, `C105_integer_refuted`

## 7. Print Assumptions

Generated from the output of `Print Assumptions` for every theorem named in MANIFEST.json. All are axioms of the standard library.

* **Closed under the global context** (130 theorems): C01_keys_invariant, C01_init_defaults, C01_foreign_object_refuted, C02_get_after_set, C02_frame, C02_failed_set_no_change, C02_update_overlays, C03_leaf_accepted_iff, C03_leaf_errors, C03_update_accepted_iff, C03_no_fuel, C03_documented_errors_refuted, C03_keycmp_iff, C04_atomic_update_refuted, C04_update_mixed_partial, C05_objects_independent, C06_elapsed_is_charged_time, C06_elapsed_default_label, C06_start_stop_idempotent, C07_other_labels_unchanged, C07_errors_iff_unknown, C07_elapsed_monotone, C08_start_stop_block, C08_stop_start_block, C08_nested_refuted, C09_first_non_timeout_decides, C09_exhausted, C09_attempt_bound, C09_read_timeout_retried_refuted, C10_optimum, C10_errors, C11_partition, C11_balanced, C11_same_as_serial, C11_collectives_vector_iff, C11_collectives_match_refuted, C12_transpose, C12_roundtrip_partial, C12_table_refuted, C13_rolling_window, C13_rolling_window_count, C13_wrap, C13_wrap_contract, C13_subsample, C14_extract, C14_combine, C14_combine_extracted, C21_solvedbi_sm, C21_solvedbd_sm, C22_solvemdbi_ism, C22_solvemdbi_rsm, C22_methods_agree, C23_ATAI, C23_AATI, C23_positive_rho, C24_sylvester_partial, C24_indefinite_refuted, C24_sylvester_absolute, C30_layout, C30_sizes, C30_update_agrees, C30_block_sizes, C30_rejects_refuted, C30_extra_axes_refuted, C32_accounting_partial, C32_zero_iterations_refuted, C33_admm_stopping, C33_pgm_stopping, C33_dictlearn_stopping, C43_rule, C43_user_value_wins, C43_class_default_partial, C43_class_default_refuted, C44_exact, C44_same, C44_default_penalty_refuted, C44_penalty_change_refuted, C44_construct_iff, C45_groups, C49_schedule_complete, C49_numbering, C52_documented, C52_display_hidden, C53_lengths, C53_consistent, C53_long_label_refuted, C53_labels, C53_rejects, C57_grid, C58_construct_iff, C58_valid_options_refuted, C61_pad_reflects, C61_lcn_n0_refuted, C62_roundtrip, C62_rows_are_fibres, C62_rowwise, C62_accepts, C62_all_axes_refuted, C63_timers_balanced, C65_changes, C65_initial, C65_unchanged_iff, C65_frame, C65_no_leak, C65_refuted, C66_l1_weight, C66_l1_weight_signals_refuted, C66_l1_weight_channels_refuted, C66_l1_weight_compatible, C66_l1_weight_axes_refuted, C66_mask, C70_iff, C70_weights, C69_layout, C69_single_filter_refuted, C81_view, C82_mask, C93_caller_arrays, C93_results_stable, C93_results_stable_after_one, C93_uinit_alias_refuted, C93_results_overwritten_refuted, C93_dictlearn_refuted, C93_previous_iterate, C93_unrelaxed_product, C93_runs, C93_tv_returns_argument, C103_atleast_nd, C103_split, C103_split_refuted

* **`ClassicalDedekindReals.sig_forall_dec`** (37 theorems): C25_forward_difference, C25_one_sample_refuted, C50_coherent, C50_iteration, C50_accurate, C50_estimate, C52_cbpdndl, C52_bpdndl, C52_wbpdndl, C52_default_config, C52_default_config_refuted, C52_option_change_refuted, C52_documented_refuted, C52_online, C52_online_norecord, C52_parallel, C57_tiling, C57_defined, C59_exact, C59_size_one_refuted, C59_characterised, C69_pairs, C69_stale_error, C75_gradient_filters, C75_axes_refuted, C92_circulant_raises, C92_circulant_shape_refuted, C98_default, C98_start, C98_value_ignored, C98_fresh_refuted, C102_inner, C102_inner_raises_refuted, C102_inner_range_refuted, C102_dot, C103_zpad, C103_zpad_raises

* **`FunctionalExtensionality.functional_extensionality_dep`** (1 theorems): C61_pad_crop

* **`ClassicalDedekindReals.sig_forall_dec`, `FunctionalExtensionality.functional_extensionality_dep`** (138 theorems): C14_average, C14_average_extracted, C15_prox_l1_minimises, C15_numexpr_agrees, C15_negative_threshold_refuted, C18_brentq_precondition, C18_dispatch, C25_adjoint, C25_adjoint_zero_pad, C25_negative_axis_refuted, C26_tvl2_adjoint_iff, C26_tvl1_adjoint_iff, C26_any_axes_refuted, C27_fixed_iff_normal, C27_fixed_iff_minimiser, C27_contraction, C27_xstep_loop, C36_stationary_optimal, C36_optimal_stationary, C36_bpdn, C36_enet, C36_weighted, C37_bpdn_x, C37_enet_x, C37_minl1_x, C37_bpdn_y, C37_rpca_y, C37_cmod_x, C37_consensus_is_weighted, C38_distance, C38_distance_relaxed, C41_genlinear_tail, C42_fixed_optimal, C42_optimal_fixed, C42_descent, C45_schedule, C45_solve, C46_y0, C46_y1, C46_channel_axis, C47_iterations, C47_count, C47_gap, C47_gap_refuted, C47_residual, C47_residual_refuted, C48_one_after_the_other, C48_last_constructed, C48_refuted, C48_start_values_refuted, C48_start_values_all_refuted, C49_schedule, C49_solve, C49_numbering_refuted, C49_serial, C49_options_refuted, C49_masked, C50_objective_refuted, C51_records, C52_fastsolve, C52_record, C52_display, C54_points, C54_points_nozero, C55_well_posed, C55_no_rows_refuted, C57_normalised, C57_constant_refuted, C59_size_one_witness, C59_no_wrap, C59_ystep_minimises, C67_bpdn, C67_spline, C67_projl1, C67_maskdcpl, C67_l1weight_refuted, C67_rpca_refuted, C69_gradient, C69_shared, C69_shared_refuted, C69_masked_refuted, C69_stale, C69_stale_refuted, C75_caxis_weights, C76_reported_l1, C77_cauchy_range, C77_bb_range, C78_applied, C80_optimal, C80_stationary_refuted, C82_stationary_refuted, C86_stationary, C86_fixed, C86_prox_firm, C86_prox_min, C86_pgm_same, C86_consensus_min, C86_rho_refuted, C87_ystep, C91_curvature, C91_xstep, C91_hessian, C91_weighted_hessian_refuted, C91_stationary_refuted, C92_pca, C92_pca_synthesis, C92_pca_synthesis_refuted, C92_circulant, C92_circulant_type_refuted, C94_fit_after_one, C94_rate_unrelaxed, C96_bpdn, C96_bpdn_refuted, C97_operator, C98_stale_refuted, C99_mask, C99_mask_fraction, C99_mask_values_refuted, C99_mask_types_refuted, C99_noise, C99_noise_fraction, C99_noise_types_refuted, C99_gray, C99_gray_refuted, C102_inner_dimensions_refuted, C102_dot_sizes_refuted, C103_zdivide, C103_zdivide_refuted, C104_raises_refuted, C104_samples, C104_border, C104_green, C104_midpoint, C104_bilinear_refuted, C105_promote, C105_apply, C105_float, C105_integer

* **`ClassicalDedekindReals.sig_forall_dec`, `ClassicalDedekindReals.sig_not_dec`, `FunctionalExtensionality.functional_extensionality_dep`** (270 theorems): C15_nonexpansive_odd, C16_prox_l0_minimises, C16_hard_threshold, C17_prox_l2_minimises, C17_prox_l2_groups, C17_proj_l2_nearest, C17_proj_l2ball_nearest, C18_sortsum_nearest, C18_scalarroot_nearest, C18_methods_agree, C19_prox_sl1l2_minimises, C19_groups, C20_prox_dl1l2_minimises, C20_axis_minimises, C20_beta_range_refuted, C28_full_spectrum, C28_half_spectrum, C28_inverse_real, C29_circular_complex, C29_circular_real, C29_circular_1d, C31_support, C31_unit_norm, C31_zero_mean, C31_nearest, C31_idempotent, C31_cropped_agrees, C31_Pcn_agrees, C31_zero_mean_dimN_refuted, C34_update, C34_history, C34_period, C34_effect, C35_equal, C35_two_block, C35_two_block_dual, C35_two_block_dual_relaxed_refuted, C35_two_block_dual_norm_refuted, C35_consensus, C35_weighted, C35_weighted_norms_refuted, C36_joint, C36_projl1, C36_minl1, C36_rpca, C37_joint_y, C37_projl1_y, C37_minl1_y, C37_joint_nonneg_refuted, C37_projl1_nonneg_refuted, C37_rpca_x, C37_cmod_y, C37_cmod_zero_column_refuted, C37_weighted_y, C38_convergence, C38_bpdn, C38_bpdn_returned, C38_enet_returned, C39_recorded, C39_exact, C39_first_value_refuted, C39_small_L_refuted, C39_dft_refuted, C39_dft, C39_bpdn, C40_half_spectrum_refuted, C40_standard, C40_robust, C40_no_failure, C40_maxiter_zero_refuted, C41_nesterov, C41_nesterov_growth, C41_nesterov_accelerates, C41_linear_accelerates, C41_genlinear_refuted, C42_cbpdn, C42_cbpdn_mask, C42_cconv_usual, C42_rate_fixed, C42_rate_standard, C42_rate_robust, C42_dft_same, C42_bpdn, C42_bpdn_fixed, C42_wbpdn, C51_feasible, C54_filters_at_samples, C56_mae, C56_mse, C60_norm_nuclear, C60_prox_nuclear, C61_sum, C61_sum_cplx, C61_lowpass_minimises, C61_lowpass_minimises_cplx, C61_mean_kept, C61_integer_refuted, C61_integer, C61_one_pixel_refuted, C61_gaussian, C61_lcn_window, C61_lcn_inverse, C61_lcn_inverse_default, C61_lcn_constant_refuted, C64_minimises, C64_agrees_with_real, C64_zero_refuted, C67_tv, C67_cmod, C67_joint_refuted, C67_minl1_refuted, C67_cminl1_refuted, C67_tv_weight_refuted, C68_reconstruct, C68_fidelity, C68_fidelity_xstep, C71_xstep, C71_two_block, C71_unique, C71_gradient_axis1_refuted, C72_stationary, C72_convergence, C72_returned, C72_slices, C73_mask_stationary, C73_mask_convergence, C73_ball_stationary, C73_ball_convergence, C73_ball_joint_refuted, C75_A, C75_denominator, C75_tvl2_stationary, C75_tvl1_stationary, C76_A, C76_Xf, C76_vector_stationary, C76_scalar_stationary, C77_cauchy_defined, C77_cauchy_exact, C77_weighted_exact, C77_weighted_refuted, C77_bb_refuted, C77_zero_signal, C79_stationary, C80_xstep_ism, C80_xstep_cns, C80_dual_ism, C80_dual_cns, C80_ism, C80_cns, C80_pgm, C80_curvature, C80_pgm_descent, C80_minimiser, C81_A, C81_Xf, C81_stationary, C81_copy, C81_copy_stationary, C81_copy_limit, C81_copy_refuted, C81_dual_refuted, C82_xstep, C82_dfid, C82_residual, C82_ism, C82_fixed_residual, C82_xstep_cns, C82_residual_cns, C82_cns, C82_fixed_residual_cns, C82_minimiser, C83_gradient, C83_gradient_mask, C83_value, C83_value_mask, C83_hessian, C83_reconstruct, C83_gain, C83_gain_one, C83_rate, C83_fixed, C83_mask_rate, C83_mask_fixed, C83_mono_rate, C84_init, C84_setdict_D, C84_xstep, C84_reconstruct, C84_fidelity, C84_stationary, C84_convergence, C84_joint_stationary, C84_setdict_B_refuted, C85_stationary, C85_joint_stationary, C86_pgm_residual, C86_monotone_refuted, C87_roundtrip, C87_operator, C87_linsolve, C87_xstep, C87_stationary, C87_objective, C88_large, C88_small, C88_default_column, C89_unique_l2, C89_one_sweep_refuted, C90_weights, C90_plain, C91_pcn, C91_cnstr, C91_objective, C91_pgm_stationary, C91_pgm_limit, C91_descent, C91_minimiser, C91_solution, C91_optimal, C91_admm_stationary, C91_admm_limit, C91_unused_refuted, C92_raises, C92_single_refuted, C92_nkp, C92_kpsvd, C92_pca_best, C94_rate, C94_test, C94_iterations, C94_quality, C94_bpdn, C94_relative_only_refuted, C96_argument, C96_default, C96_two_block, C96_default_refuted, C96_dictionary_default, C96_dictionary, C96_dictionary_raises, C96_dictionary_refuted, C96_dictlrn, C96_raises_refuted, C97_solution, C97_accuracy, C97_stationary, C97_stationary_refuted, C97_frequency_refuted, C97_contract, C97_count, C97_count_refuted, C100_pamse_bound, C100_pamse_constant, C100_pamse_symmetric, C100_pamse_symmetric_refuted, C100_gmsd_range, C100_gmsd_identical, C100_gmsd_invariant, C100_gmsd_symmetric, C100_gmsd_zero_refuted, C100_gmsd_symmetric_refuted, C101_rrs_range, C101_rrs_relative, C101_adjoint_exact, C101_adjoint_accepted, C101_adjoint_zero_refuted, C101_adjoint_tolerance_refuted, C101_adjoint_complex_refuted, C105_integer_refuted

* **`ClassicalDedekindReals.sig_forall_dec`, `Classical_Prop.classic`, `FunctionalExtensionality.functional_extensionality_dep`** (2 theorems): C55_lstabsdev, C55_lstmaxdev

* **`ClassicalDedekindReals.sig_forall_dec`, `ClassicalDedekindReals.sig_not_dec`, `Classical_Prop.classic`, `FunctionalExtensionality.functional_extensionality_dep`** (75 theorems): C40_standard_limit, C40_standard_enough, C40_robust_limit, C42_fista, C51_step_sizes, C54_kernel, C54_filters_normalised, C54_filters_sum_one, C56_snr_decreasing, C56_psnr_decreasing, C56_invariant, C56_isnr, C56_psnr_int8_refuted, C56_bsnr_uint8_refuted, C74_bpdn_exists, C74_bpdn, C74_enet, C74_joint_exists, C74_joint, C74_projl1, C74_minl1, C74_csc_exists, C74_csc, C74_mask_exists, C74_mask, C74_ball_exists, C74_ball, C75_tvl2_limit, C75_tvl1_limit, C75_exists, C76_vector_limit, C76_scalar_limit, C76_exists, C76_scalar_refuted, C78_converges, C78_full, C78_uncovered, C78_shared_mask_refuted, C79_limit, C79_exists, C81_limit, C81_exists, C84_iterates, C84_exists, C84_joint_iterates, C84_joint_exists, C85_limit, C85_exists, C85_dual_positive, C85_joint_limit, C85_joint_exists, C85_dual_refuted, C86_limit, C86_consensus_limit, C87_limit, C87_exists, C88_exists, C88_limit, C89_exists_l2, C89_exists_l1, C89_limit_l2, C89_limit_l1, C90_windows, C90_nonneg, C90_stationary, C90_fixed, C90_limit, C90_first_order, C90_functional_refuted, C90_groups_refuted, C95_limit, C95_one_call, C95_objective, C95_groups, C95_exists

## 8. Checking

`coq_makefile -f _CoqProject -o Makefile && make -j4` in `/verif/rocq`. The mutation log `seeded/LOG.jsonl` has one line per wrong
program tried: the definition edited, the edit, the claim it breaks, the theorems that failed, and the theorems tightened as a
result.
