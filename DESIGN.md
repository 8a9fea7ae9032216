# Formal model of pySLM2 in Rocq (Coq 8.16.1)

## Approach

* `rocq/theories/*Model.v` - shallow Gallina model of the Python, function by function, each definition
  citing file and lines. Exceptions are values (`res`), mutable objects are records, methods are
  `state -> state * res out`, so a method that raises half-way shows its partial effects.
* `*Spec.v` - small independent specifications used to state properties; `*Facts*.v`, `*Thms.v`, `*Int.v`,
  `ZernBound*.v` - proofs; `*Examples.v` - concrete cases and witnesses; `Props*.v` - only the property theorems,
  each with `Print Assumptions` and satisfiability examples. Theorem names begin with the property id.
* 2-D arrays: dimensions plus an index function; statements are pointwise inside the bounds.
* `tools/gen_properties.py`, `tools/gen_manifest.py`, `tools/gen_assumptions.py` regenerate `properties.jsonl`,
  `MANIFEST.json` and the table of assumptions at the end of this file.

## Trusted base

1. The Coq 8.16.1 kernel and `coqc`.
2. The axioms of the standard library listed under "Assumptions per theorem". There are four:
   `ClassicalDedekindReals.sig_forall_dec`, `ClassicalDedekindReals.sig_not_dec` (construction of the reals),
   `FunctionalExtensionality.functional_extensionality_dep`, `Classical_Prop.classic`. No axiom is declared in
   this development, and none comes from Coquelicot or Flocq (whose definitions and theorems are used).
   A whole-library listing (`coqchk -o`) also shows the opaque fields of the standard library's
   `RbaseSymbolsImpl`, `RinvImpl` and `ssrunder` modules. These are sealed module members with bodies, not assumptions.
3. The reading of the Python source. Nothing was run. The tie between model and code is the citation at each definition.
4. The behaviour of the libraries described under "Modelled library behaviour".

## Numbers

* Floats are exact reals `R`, complex numbers Coquelicot's `C = R*R`. Overflow is modelled in `OverflowModel.v` for everything
  evaluated in floats except the FFT, GS, MRAF, IFTA and the LCOS phase factors (C146, C147): C146 shows that at practical sizes it does not occur, and only there do the accuracy theorems
  below speak about IEEE arithmetic (the bounds on the amplitudes in C134 and C137 alone do not exclude it). Rounding is modelled
  only in these places. `ansi_j_to_n_m` is modelled in IEEE binary64 (Flocq, round to nearest even). `FloatModel.v` repeats
  grids, index conversion, circular mask, normalised amplitudes, gratings and powers with a rounding after every operation
  (C95-C99, C123, C124). The rounding is any function that satisfies the record `arithmetic` of `FloatSpec.v`; binary64 and binary32,
  with gradual underflow or flush to zero, are shown to satisfy it. With no rounding these formulas are the exact model
  (theorems `C9x_no_rounding`). `FlSimModel.v` does the same for `propagate_to_image` and the powers (C103), `FlLcosModel.v` for the LCOS phase factors (C127), `FlHoloModel.v` for `calculate_dmd_state` and `FwdModel.v` for the forward transform (C134), `FlGsModel.v` for GS and MRAF (C136), `FlGridModel.v` for the image-plane grid and the windows (C138, C139); the FFT
  there is any function with a bounded error in the Euclidean norm. `FftModel.v` evaluates one (C111): a mixed-radix FFT with
  any radices, any butterflies of bounded error and any accurate table. That NumPy's FFT has this form is read from its
  documentation, not from its source; lengths it treats by Bluestein's method are not covered.
* Where infinities and NaN decide the outcome (division by a zero input amplitude, `asin` out of range, means of
  empty selections) an extended type `xr` (finite, +inf, -inf, NaN) or an option is used.
* `EUnmodelled` is not a Python exception. It marks executions that leave the modelled domain, mostly because a
  non-finite number would appear in a profile. No theorem claims anything positive about such executions: every
  theorem either concludes `Ok`, names the Python exception, or has the successful run as hypothesis.

## Modelled code

| source | modelled in | not modelled |
|--------|-------------|--------------|
| `slm.py` 13-168 `SLM`: attributes, pixel/coordinate maps, grids, `profile_to_tensor` | `SlmModel.v` | rank-1 and rank>=3 arrays |
| `slm.py` 171-471 `DMD` and the three models: state setters, gratings, `circular_patch`, `_calc_amp_phase`, `calculate_dmd_state`, `first_order_origin`, `pack_dmd_state` | `DmdModel.v` | rank-1 and rank>=3 arrays, see the next row |
| `slm.py` 270-376, 390-406, `simulation.py` 125-146 for arrays of any rank | `RankModel.v`, `RankIftaModel.v` (method "ifta") | profile objects, conversions of the element type, levels that are not finite in the simulation |
| `slm.py` 213-268 for arrays of any rank | `RankPatchModel.v` | profile objects, method "ifta" |
| the calls of the methods of `slm.py` 213, 230, 324, 487 and of `_lib.py` 41, 287: positional and keyword arguments, defaults, `**kwargs` | `KwModel.v` | what tf.constant makes of an object is an argument of the model |
| arrays behind `DMD.dmd_state` as references: allocation, in-place writes, sharing with the user's variables | `StoreModel.v` | two names for one DMD object |
| `slm.py` 474-529 `LCOS_SLM`, `PLUTO_2` | `DmdModel.v` | rank-1 and rank>=3 arrays, see the next row |
| `slm.py` 487-515, `_lib.py` 287-404 for arrays of any rank | `RankLcosModel.v` | profile objects, conversions of the element type |
| `_lib.py` all: gratings (ideal, simple, random), IFTA, GS, MRAF, dispatch | `LibModel.v`, dispatch in `DmdModel.v` | choice of FFT backend (both are the same exact sum) |
| `slm.py` 296-376, 487-515, `_lib.py` 117-284, 322-404 for arrays with NaN | `NanHoloModel.v` | arrays that are not of the size of the device; infinite samples |
| `simulation.py` all | `SimModel.v`; padded grids for any integer padding in `CropModel.v`; once more for states with NaN or infinities in `NanModel.v`, and for beams with them in `NanBeamModel.v` | overflow outside C146 |
| `profile.py` all: operators, transformations, `ConstantProfile`, `HermiteGaussian`, `LaguerreGaussian`, `SuperGaussian`, `Zernike`, setters and getters | `ProfileModel.v` | plain attributes a user adds to an object; non-finite values |
| `window.py` all | `ProfileModel.v` | - |
| `analysis.py` all | `AnalysisModel.v`; once more for maps with NaN in `AnaNanModel.v` | `verbose` printing |
| `_backend.py` all, `lru_cache` on the grid methods | `BackendModel.v` | TensorFlow's device listing is an argument |
| `util/controller.py` all | `ControllerModel.v`; `ShowModel.v` (patterns of a device as arguments) | contents of the vendor libraries; patterns that are not bool |
| `util/sample.py` | shape of the result and dependence on the NumPy version, in `ControllerModel.v` | glyph rendering by PIL |
| rounding in `slm.py` 82-107, 223-228, 270-376, 390-391, 484-485, `_lib.py` 7-11, 28, 113-207, 322-404, `simulation.py` 111-118, 69-76, 125-150, 195-225 | `FloatModel.v`, `FlSimModel.v`, `FlLcosModel.v`, `FlHoloModel.v`, `FwdModel.v`, `FlGsModel.v`; overflow in `OverflowModel.v` | overflow in the FFT, GS, MRAF and LCOS phase factors; fused multiply-add |
| rounding in `slm.py` 115-123, `simulation.py` 94-104, `window.py` 9-18, 53-60 | `FlGridModel.v`; overflow in `OverflowModel.v` | - |
| rounding in `profile.py` 215-232 | `FlHermModel.v` for all orders; `FlModeModel.v` for n = m = 0; overflow in `OverflowModel.v` | tf.exp is a parameter; x ** 2 is the rounded product |
| rounding in `profile.py` 323-337 | `FlSupModel.v` | tf.pow and tf.exp are parameters; x ** 2 is the rounded product |
| rounding in `profile.py` 276-299 | `FlLagModel.v` | tf.exp, tf.pow, atan2 and the complex exponential are parameters; x ** 2 is the rounded product; the complex products with a real or an imaginary factor have rounded products as components |
| rounding in `profile.py` 14-153, 168-178 | `FlProfModel.v` | complex operands; no bound for powers with other than non-negative integer exponents; tf.pow, tf.cos, tf.sin and the computed values of modes and windows are parameters (see C161-C164 and C123 for them) |
| `slm.py` 131-165, 213-268 with amplitudes that are not finite | `XAmpModel.v` | finite phases; the iterative method with infinite amplitudes has no theorem (in the model they are as good as NaN there) |
| `slm.py` 213-268, `_lib.py` 41-284 with phase maps that are not finite | `XPhaseModel.v` | profile objects |
| rounding in `analysis.py` 28-42, 80-102 | `FlAnaModel.v` | overflow; empty apertures (NaN, see `AnalysisModel.v`) |
| rounding in `profile.py` 397, 409-430 on those grids, without extrapolation | `FlZernModel.v` | tf.atan2, tf.cos, tf.sin are parameters with an error bound; the stored coefficients are given (scipy's factorial); x ** 2 is a rounded product; overflow |
| rounding in `_lib.py` 14-18 (`_numpy_ifft2`): NumPy's FFT and the cast | `FftModel.v` | Bluestein's method, butterflies specialised to a radix (any butterfly of bounded error is allowed) |
| `util/master_example.py`, `runtime_benchmark/`, `examples/`, `docs/`, `test/` | - (C104 states what `examples/aberration_correction.py` shows) | scripts and tests |

## Modelled library behaviour

* FFTs (numpy and tf.signal): the defining finite sums; `fftshift`, `ifftshift`, `fftfreq`: numpy's definitions.
* scipy `hermite(n).coef` and `genlaguerre(p, a).coef`: the exact coefficients. Negative orders raise ValueError.
* `tf.Variable`: a cell of a heap. Profiles refer to cells, so shared variables and later assignments are visible.
  `tf.function` is transparent, except that a loop whose body would change the shape of its variable raises (the body is
  traced even for zero iterations). `tf.range(N)` is empty for negative N.
* Keyword arrays that reach the ifta code without `profile_to_tensor` must be complex, of the backend's precision, or
  Python numbers; real arrays raise (dtype mismatch).
* A grating period of zero: `2*pi/p` is infinite, cos of the phase is NaN, every comparison with NaN is false.
* An eager tensor (`tf.constant`) has no method `value`; a `tf.Variable` has.
* Random numbers are explicit arguments: one uniform value in [0,1) per pixel.
* numpy boolean-mask assignment, casts between bool and float arrays, `packbits`: numpy's documented behaviour.
* ALP4lib: a call log, and the attribute `_lastDDRseq` = the last sequence allocated and not yet freed. Each vendor
  call may fail, decided by an oracle; theorems quantify over the oracle unless they say "no fault".
* Luxbeam: a call log, and a step semantics of the five sequencer commands used by the controller.
* `lru_cache`: a bounded association list with maxsize 128.

## Refuted properties

Thirty-one properties that a user would rely on are false of the code. They stay in the list with a theorem `..._refuted`
giving a witness. In `MANIFEST.json` their status is `partial`, with a note beginning "REFUTED".

| id | finding |
|----|---------|
| C11 | A failing `propagate_to_image` has already replaced `input_field`. |
| C18 | `Zernike` accepts m < -n. The mode is identically zero. |
| C20 | `remove_trivial_phase` is no projection: a pure tilt leaves a residual tilt, which can even grow. |
| C37 | One pixel with zero input amplitude switches every mirror off. |
| C38 | A zero target raises ZeroDivisionError after `dmd_state` was overwritten. |
| C41 | Gerchberg-Saxton with an input that has a phase can increase the error: the input phase is not subtracted. |
| C43 | The device applies exp(-i*slm_state), the algorithm optimises exp(+i*slm_state): a real input gives the reflected image. |
| C46 | `circular_patch` with method "ideal" casts grey levels to on mirrors. |
| C49 | After `load_multiple`, `load_single` leaves the ALP in slave mode. |
| C50 | Every load on the ALP allocates one more sequence and frees none (n loads, n live sequences, for every n); `close()` explicitly frees at most one. What `AlpDevFree` releases is not modelled. |
| C51 | A closed ALP controller still accepts loads and talks to the hardware; the flag, once set, survives every history. |
| C68 | Luxbeam `load_multiple([])` succeeds; the sequencer then loops forever without setting the mirrors or waiting for a trigger. |
| C55 | `profile_to_tensor` of a `ConstantProfile` returns a rank-0 tensor. |
| C79 | `Zernike.n` and `Zernike.m` raise AttributeError: they call `.value()` on a `tf.constant`. |
| C59 | With `remove_defocus=True` the mean over the aperture is not zero. |
| C82 | One MRAF iteration with the default mixing factor spoils a hologram that displays the target exactly. |
| C84 | `calculate_hologram` accepts an input and target of any common size and stores a state of that size, which then fits no beam. |
| C85 | A grating period of zero is accepted: efficiency as usual, but all mirrors off (NaN for "ideal"). |
| C97 | In double precision column 26 of a DLP9500 is converted to a coordinate and back to 26 + 2^-43. |
| C89 | Raising `s` in IFTA can lower the first diffraction order, even to zero; the returned efficiency does not see `s`. |
| C102 | `circular_patch` writes into the array behind `dmd_state`: a pattern read earlier changes with it. |
| C105 | More IFTA iterations can make the signal window worse: for every N >= 2 there is a grating where N iterations end with over 100 times the window error of thresholding. |
| C109 | `ALPController` has `__exit__` but no `__enter__`: a with statement raises before its block runs. |
| C110 | `number_image` uses `np.bool`, which NumPy 1.24-1.26 (allowed by pyproject.toml) do not have. |
| C119 | Gerchberg-Saxton multiplies the phase factors by the signed target, so a target with negative values (as in the LCOS examples) flips its signs in every iteration; one iteration spoils a hologram that displayed its magnitude exactly. |
| C120 | IFTA does not always beat the random method inside the signal window: for every N >= 2 there is a grating where nearly every random draw has less than a hundredth of IFTA's window error. |
| C132 | In single precision, the default, a Gaussian beam with a waist of 1 mm or less blanks a DLP9500: exp underflows at the corner mirror and eta becomes 0. |
| C143 | A stack of LCOS targets comes out of order: hologram k belongs to target k + K//2, since the `ifftshift` of the target runs over the leading axes too. |
| C147 | In single precision, a Gaussian beam of 1.21 mm to 1.25 mm blanks a DLP9500 though no sample of it is zero: the quotient of the amplitudes at the corner overflows, the maximum is an infinity, and eta becomes 0. |
| C150 | A misspelt option (`n=5` for `N=5`) is ignored in silence by all four methods that take options. |
| C153 | On a square panel showing as many patterns as it has rows, `circular_patch` writes whole rows of some patterns instead of the mirrors of the circle. |

Also found: `ansi_j_to_n_m` is wrong at j = 2^53 - 2^26 (C15). `first_order_origin` ignores `negative_order`: two DMDs
whose mirror patterns are identical for every call report opposite origins (C71).

## Method per property

| id | modelled as | proof |
|----|-------------|-------|
| C01-C02 | `packbits` on the row-major list; DMD object with dtype-tagged state | induction on the list; invariant over method calls |
| C03-C07 | simulation pipeline with explicit DFT sums | Parseval, unitarity, pointwise bounds |
| C08 | grids from fftfreq/fftshift/meshgrid; DFT kernel | index arithmetic + periodicity of the kernel |
| C09-C11 | simulation object as state machine with exceptions | invariants over histories; witness for the violated C11 |
| C12-C14 | pixel/coordinate maps, `fftfreq` as the numpy list construction | list lemmas |
| C15 | binary64 rounding (Flocq) of sqrt, -, / | error analysis of sqrt near perfect squares |
| C16-C18 | coefficient loop, Horner evaluation, atan2 | finite differences, Coquelicot integrals |
| C19-C21 | the analysis loops on symmetric grids, mean over boolean mask | sign-reversal symmetry of finite sums |
| C22-C30 | object graph of profiles over a heap of tf.Variables | induction over object graphs; trigonometric identities |
| C31 | backend state machine | induction over histories |
| C32-C36 | pixelwise grating functions; `_calc_amp_phase` over `xr` | real analysis, DFT inversion and shift theorem |
| C37-C38 | same, with inf/NaN branches | witnesses |
| C39-C44 | the iterations of IFTA, GS, MRAF as iterated functions | induction on N, Parseval, nearest-point projection |
| C45-C46 | masked assignment with numpy casting | pointwise; witness |
| C47-C53, C68 | controllers as call-log machines; sequencer program as a state machine | trace induction |
| C54 | lru_cache as a bounded association list | invariant |
| C55-C56 | tensor shapes and casts, constructor decision tables | case analysis; witness |
| C57-C59 | see properties.jsonl; analysis and hologram extras | finite sums; witness |
| C60-C63 | image-plane field as a function on the plane sampled by the grid | reindexing of finite sums |
| C64-C65 | Zernike radial polynomials | rotation-invariant inner product; trigonometric identities |
| C66-C67 | Hermite and Laguerre functions | integration by parts on improper integrals; Gaussian integral |
| C69-C70 | hologram calculation composed with the simulation | DFT inversion, Parseval |
| C71-C72 | the grating code under changed settings and global phases | congruence of the dispatch; trigonometric identities |
| C73-C75 | simulated field as a function of device state | linearity; reindexing of finite sums |
| C76 | thresholds as variables integrated one after the other | induction over mirrors, variance of independent mirrors |
| C77 | uniform grating, unpadded simulation | finite Fourier series of the fringe on the sample lattice |
| C78-C79 | attribute getters beside the setters | case analysis on objects; locations of one object are distinct |
| C80 | `set_dmd_grating_state` 'simple': mirror as a function of the carrier phase | explicit integral over one fringe |
| C81-C82 | the GS and MRAF loops as a run relation on centred arrays | centred form of the DFT, polar decomposition, induction on N; witness |
| C83-C84 | shapes of user arrays, broadcasting | case analysis on shapes, DFT of a centred row; witness |
| C85 | degenerate period, IEEE special values | case analysis on the outcome; witness |
| C86 | pixel sums over the aperture against disc integrals | one-dimensional midpoint sums with monotone pieces, column by column; moments of the disc by recursion |
| C87 | two runs side by side | the difference is itself an image (linearity), Parseval; cosine is 1-Lipschitz |
| C88 | the run relation of C39 with a flat-phase beam | conjugation symmetry of the DFT, reindexing by the reflection |
| C89 | scale of IFTA: run relation, simulated image of a three-mirror grating | monotonicity of the threshold, calculus of the first harmonic; witness |
| C90 | simulated images of thresholded, ideal and arbitrary patterns | Parseval (C87), nearest bit per mirror |
| C91 | simulated image of a sampled Gaussian profile | Riemann sums with a total-variation bound, an ODE in the frequency for the truncated integral |
| C92 | simulated powers of a sampled Gaussian profile | trapezoid rule with second-derivative bound, Gaussian tail bound |
| C93 | two calls of calculate_dmd_state, target moved versus origin moved | the spectrum of a cyclically displaced target is the spectrum times a linear phase (inverse of the displacement lemma of C36); the phase equals the difference of the two carriers, so all levels agree, at zeros of the spectrum because the level is 0. IFTA depends on the target only through the ideal grating. |
| C94 | simulated image and powers for grey and on/off states | `states_combine` (linearity of the transform in the field leaving the device) applied to states read by `state_tensor`; powers by `powers_after`. |
| C95 | amplitudes, grey levels and thresholds with a rounding after each operation | monotonicity of rounding, exactness of 0, 1/2, 1, 2 |
| C96-C97 | grids and index conversion with rounding | half-integers are exact, forward error analysis; witness evaluated by nearest-integer certificates |
| C98 | circular mask with rounding | all intermediate results are exact dyadic numbers |
| C99 | powers with rounding, any summation tree | monotonicity and idempotence of rounding, induction on the tree |
| C100 | two runs of GS or MRAF, target moved, start phases tilted | a relation between the phases of both runs, kept by every iteration (displacement lemma of the DFT) |
| C101 | programs over several DMDs, arrays behind references (`StoreModel.v`) | invariant: every reference valid, no two devices share an array; each action matches the value model |
| C102 | same programs, variables of the user holding arrays | refutation by a two-call program; invariants: shared reference kept, private array untouched |
| C103 | `propagate_to_image` and powers with rounding, transform of bounded error | relative-plus-absolute errors composed in the Euclidean norm (Minkowski, Parseval); square root of powers; pairwise tree for the case |
| C104 | hologram for one beam, simulation of another | the levels do not depend on phases of the beam except through the fringes; unit factors |
| C105 | IFTA with different numbers of iterations (refuted) | grey levels within 1/N of 1/2 are left alone until the last two iterations, which are then computed |
| C106 | IFTA with one iteration against thresholding; the last iteration of any run | the new pattern is the mirror pattern nearest to the corrected field (weights of the beam); Parseval; convexity for soft windows |
| C107 | first Fourier coefficient of the on-probability at finite steepness | shift of the integration interval; the tails of tanh outside one fringe are exponentially small |
| C108 | quiet operations and histories without them | relation between runs that ignores size queries in the log |
| C109 | with statement on an ALP controller (refuted) | lookup of the special methods as in Python |
| C110 | number_image (refuted for NumPy 1.24-1.26) | case split on the NumPy version |
| C111 | mixed-radix FFT with rounding, both axes, cast | Cooley-Tukey splitting of the sum; each stage composes errors in the Euclidean norm (rows, roots of unity, columns); induction on the radices; direct summation by Cauchy-Schwarz |
| C112 | constructors of the built-in devices, packing of constant states | data sheet table in `PanelSpec.v`; flattening and packing of a constant list; grid lemma of C13 |
| C113 | `HermiteGaussian` of any orders through `propagate_to_image` | explicit bound on Hermite functions by integrating the derivative of their square (orthogonality integrals as in C66); trapezium rule with second-derivative bound; recurrence in the order for the Fourier integral, with the truncated tails carried along |
| C114 | the thresholds of IFTA in double and single precision (`ThreshModel.v`) | relative rounding error of the step; ties to even just above 1/2, the float just below it is exact; certificates by integer arithmetic for the two concrete N |
| C115 | `LaguerreGaussian` of any charge and radial order through `propagate_to_image` | linear functionals on monomials x^n y^m with raising and lowering operators; H_(n+1) = 2x H_n - 2n H_(n-1) turns them into a recurrence for Laguerre polynomials; then C113 term by term |
| C116 | power of `HermiteGaussian` beams and of finite sums of them | explicit antiderivative of H_p H_q exp(-x^2) by recursion on both orders, with its distance from the limits bounded; trapezoidal rule along each axis; Gram matrix of the sampled modes |
| C117 | power of `LaguerreGaussian` beams and of sums of two | C115 expansions in both arguments of the Gram matrix; the raising operator of one argument is the lowering operator of the other, which gives the exact values |
| C118 | reset and trigger lines of a Luxbeam board | device state folded over the calls that returned (SignalSpec); per-operation lemmas, induction over histories; the log only grows |
| C119 | `calculate_hologram` with a signed target | witness of three pixels; for every panel, what one iteration aims at (the signs are inverted each time) |
| C120 | IFTA against the random method (refuted) | the grey levels of C105 made with a phase offset of 60 degrees, where the duty cycle of the random method saturates |
| C121 | pixel areas and padded grids | closed form of both padded grids, differences of neighbours |
| C122 | window of calculate_dmd_state | pointwise comparison of the two calls through the broadcast lemmas of C83; C35 for constants |
| C123 | gratings after rounding | forward error analysis at a common scale, Lipschitz bound of the cosine |
| C124 | random gratings after rounding | Hoelder bound of acos, Lipschitz bounds of the folded phase and of tanh, integral of a moved threshold |
| C125 | reflected runs of phase retrieval | the transform kernel under index reversal and conjugation, induction over the iterations, C40 on the reflected target |
| C126 | progress of Gerchberg-Saxton | exact gain of the best phase per pixel, Parseval, telescoping; equality case |
| C127 | an LCOS with rounding: phase factors, products, powers | component errors of cosine and sine, Minkowski over the panel, composed with C103; range of stored phases from C44 |
| C128 | what MRAF minimises | rescaling of the mixed field; majorisation of the weighted window error per pixel, Parseval, gain of the best phase |
| C129 | several beams in one target | linearity of the spectrum and of the image; triangle inequality at the brightest mirror of the total; equality for equal beams |
| C130 | sequences of circular patches | induction over the calls with the topmost successful patch per mirror; permutations; triangle inequality |
| C131 | a working recipe for LCOS holograms | the simulated field of the assigned phases equals the field of the algorithm; then C40, C128 |
| C132 | narrow beams in single precision (refuted) | monotone rounding and exact small integers bound the exponent at the corner from below; then the dark-mirror case of C37 |
| C133 | simulation of states with NaN | the simulation repeated over numbers that may be not finite; equal to `SimModel.v` on finite states; one `None` reaches every output of the transform |
| C134 | holograms after rounding | array errors of the forward transform by conjugation from C111, entries bounded by norms, the ratio and its maximum, direction of the angle, composed with the grating errors of C123 |
| C135 | images after rounding | fields compared in the norm that makes the transform an isometry (C103, C111), one product per pixel before and one after it, the state's error as a separate field; C134 for the grey levels and mirrors, C127's phase factors for an LCOS |
| C136 | GS and MRAF after rounding | one rounded iteration seen as two projections, each off by a bounded vector; the exact projection argument of C40 and C128 with these vectors added, then induction on the number of iterations |
| C137 | wide Gaussian beams | error propagation through the sampled formula, the exponential's difference quotient; two runs of C36's hologram compared mirror by mirror; then C134 |
| C138 | image-plane coordinates after rounding | relative errors composed step by step; strict order because neighbours differ by more than twice the error |
| C139 | windows after rounding | errors of both sides of the comparison; exact claims from monotone and odd rounding |
| C140 | stacks of targets | shapes with the last axis first; shifts along the leading axes cancel; one maximum by induction on the axes; `hologram_spec` for each image |
| C141 | packing and simulating stacks | `packbits` of an append at a byte boundary; ranks in tf.pad |
| C142 | LCOS holograms of arrays of any rank | arrays spread over a shape: broadcasting with a whole array gives a whole array, induction over the iterations; a shape that does not fit grows and never fits again |
| C143 | order of a stack of holograms (refuted) | two bright pixels on a 1 x 2 device, computed |
| C144 | IFTA on arrays of any rank | arrays spread over a shape as in C142; common normalisation of C140 moved into the parameter s |
| C145 | grids and calls with negative padding | order of the checks in `fftfreq`, `tf.range`, `tf.pad`; invariant over all calls |
| C146 | no overflow | every intermediate result is bounded by a power of two; sums by induction on the tree of additions with a factor (1 + 2^-22)^N <= 4 |
| C147 | overflow of the amplitude quotient (refuted) | the error bound of C137_sample at the corner gives a positive sample below 2^-129; the quotient rounds above 2^128, and the maximum absorbs the infinity |
| C148 | devices forget | every call that writes all mirrors computes its array from the settings alone, so the call on two devices of the same settings agrees; induction over histories; cexp 0 = 1 for the reset modulator |
| C149 | arguments and options | Python's binding of a call to a signature as a function on lists; the binding depends on the dictionary only through lookups of the known names |
| C150 | unknown options (refuted) | two dictionaries that agree on the known names give the same call |
| C151 | similar set-ups | induction on profiles: enlarged lengths at enlarged coordinates give the same value; the grids scale, so all sampled tensors and hence all patterns are equal; the simulation is followed through a relation of states |
| C152 | gratings from stacks | the result is read image by image through broadcasting; a mask with two axes is a list of positions, counted in row order |
| C153 | patches on stacks (refuted) | computation on a 2 x 2 panel with two patterns |
| C154 | reflection in the diagonal | every function of the model commutes with the exchange of rows and columns; sums and maxima do not depend on the order |
| C155 | holograms with NaN samples | NaN absorbs in maxima and transforms; on arrays without NaN the models coincide |
| C156 | phase maps with NaN samples | the map with holes and the full map run side by side through the loop over the terms |
| C157 | thresholds with K values | a threshold rounded down is below g exactly if the threshold is below g rounded up; then C76 |
| C158 | computed patterns on the boards | C48/C52/C53 with an invariant over controller histories: the board inverts exactly if asked to, the sequencer program is the modelled one; the image by linearity in the mirrors |
| C159 | simulation of beams with NaN or infinities | as C133, with `None` in the beam |
| C160 | rounding in the aperture analysis | error analysis of `np.mean` over any summation tree, one removed mode at a time with a common bound for the small quantities; the aperture by exactness of quarter integers and monotone rounding |
| C161 | rounding in Zernike modes | relative error of the normalised distance, running error of Horner's rule, cut-off by monotone rounding, the bound 1 of the radial polynomial from ZernBound.v; combined with C160 |
| C162 | rounding in Hermite-Gauss modes | relative closeness to a non-negative majorant carried through Horner's rule and the products, error of the exponent turned into a relative error, powers bounded by exponentials |
| C163 | rounding in super-Gaussian profiles | the error of the base from C162, mean value theorem for the power, error of the exponent turned into a relative error; for powers up to 1 a mixed relative and absolute error of the base and subadditivity of the power |
| C164 | rounding in Laguerre-Gauss modes | error counts for the square root, the quotients, the integer power and Horner's rule with size the polynomial at the negative argument (the coefficients alternate in sign), exponent as in C163, phase as in C161; the mode is taken at the rounded differences to the stored centre |
| C165 | rounding in expressions of profiles | inductive relation giving size, distance from 0 and error of an expression from those of its parts; induction on it |
| C166 | gratings with infinite or NaN amplitudes | pixel formula of the grating over extended reals, case split on the amplitude and the height of the carrier |
| C167 | gratings with incomplete phase maps | element by element comparison with the grating of the filled maps; numpy's conversion of NaN to True in patches |

## The project's unit tests and the theorems beside them

The tests run one device at one setting. The theorems below make the same claim for all settings, over the reals unless
a rounding theorem is named. Where a test compares floats with a tolerance, the theorem gives equality or an error bound.

| test | theorems | remarks |
|------|----------|---------|
| `test_scaling_factor` | `C91_gaussian_image`, `C08_fraunhofer_even` | bound for the tails cut off by the panel and for the sampling |
| `test_eta` (skipped in the project) | `C69_own_image_is_matched`, `C35_target_scaling` | eta = 1 exactly, 2 for half the target |
| `test_dmd_hologram_calc` | `C36_target_in_first_order`, `C93`, `C09_blanks_exactly_the_disc` | "ideal"; the 5 % of "ifta" is no theorem, C105 and C106 bound its error |
| `test_dmd_pack_dmd_state` | `C01_packed_bits` | every pattern, not only all on and all off |
| `test_padded_grid` | `C14_fourier_grid_extends`, `C14_image_grid_refines`, `C96_padded_grid_identical` | the last one for bit equality after rounding |
| `test_pixel_area` | `C121_image_cells`, `C121_fourier_cells`, `C121_image_plane_size_fixed` | |
| `test_get_input_power` | `C92_unit_test`, `C92_gaussian_power` | |
| `test_get_image_plane_power` (skipped) | `C05_all_off_dark`, `C94_dimmed_state` | |
| `test_energy_conservation` | C03, C04, `C05_all_on_identity`, C103, C111, C127 | C103, C111 and C127 after rounding |
| `test_remove_trivial_phase_piston` | C19, `C86_tilts_nearly_removed` | the residual tilt that the test tolerates is C20 (refuted) |
| `test_zernike_decomposition` | `C86_coefficients_recovered` | error at most K / radius |
| `test_profile_*`, `test_neg` | C22 | division needs a nonzero divisor |
| `test_as_complex` | C26 | |
| `test_laguerre_gaussian`, `test_laguerre_gaussian2` | `C28_gaussian`, `C28_first_order` | |
| `test_super_gaussian` | `C29_gaussian` | |
| `test_zernike_function` | `C16_zernike_value` | all orders |
| `test_luxbeam_*`, `test_alp_*` | C47 to C53, C110, C112 | the operator's answer is replaced by the vendor call log |
| `test_backend` (skipped) | C31 | |

## Testing the theorems

`seeded/LOG.jsonl` records edits of model definitions that mimic realistic bugs, the claim each breaks, the theorems
that failed to rebuild, and the theorems tightened when an edit went unnoticed.

## Assumptions per theorem

Generated from the output of `Print Assumptions`.

<!-- assumptions -->
* **no axioms (closed under the global context)** (74 theorems): `C15_every_pair_has_an_index`, `C31_backend_history`, `C31_precision_fixed_by_first_read`, `C31_matching_width`, `C54_cache_transparent`, `C54_grid_never_changes`, `C47_alp_guard`, `C47_lux_guard`, `C48_load_single`, `C48_load_multiple`, `C48_load_single_failure`, `C48_load_multiple_failure`, `C48_bad_images_stop_display`, `C49_load_single_stays_slave_refuted`, `C49_load_single_keeps_mode`, `C50_each_load_adds_one`, `C50_loads_accumulate`, `C50_alp_memory_leak_refuted`, `C50_close_frees_at_most_one`, `C51_closed_alp_controller_usable_refuted`, `C51_alp_flag_never_cleared`, `C51_lux_flag_never_cleared`, `C52_load_multiple`, `C52_load_single`, `C52_load_single_failure`, `C52_load_multiple_failure`, `C52_initialize`, `C53_display_cyclic`, `C53_never_shows_unloaded_slot`, `C53_shows_loaded_images`, `C68_alp_rejects_empty`, `C68_lux_accepts_empty_refuted`, `C68_empty_sequence_livelock`, `C47_new_alp`, `C47_new_lux`, `C48_initialize`, `C50_close_frees_pending`, `C108_alp_unimplemented`, `C108_lux_unimplemented`, `C108_alp_display_kept`, `C108_alp_histories`, `C108_lux_histories`, `C109_with_closes_refuted`, `C109_with_never_runs`, `C109_enter_would_do`, `C110_number_image_refuted`, `C110_number_image`, `C110_sizes`, `C01_packed_bits`, `C01_lossless`, `C27_rejects_negative_orders`, `C28_rejects_negative_p`, `C133_new_simulation`, `C22_other_operands`, `C78_constant`, `C78_hermite_gaussian`, `C78_super_gaussian`, `C78_rectangle`, `C78_circle`, `C79_laguerre_has_no_getters`, `C141_pack`, `C141_bytes`, `C158_alp_single`, `C158_alp_multiple`, `C158_lux_single`, `C158_lux_multiple`, `C158_failed_reinitialise`, `C118_changed_in_reset_only`, `C118_released`, `C118_one_trigger_each`, `C118_trigger_lost_after_failure`, `C56_slm_simulation_constructor`, `C56_dmd_simulation_constructor`, `C56_only_type_errors`
* **ClassicalDedekindReals.sig_forall_dec** (6 theorems): `C148_reset_state`, `C25_laguerre_assignment_ignored`, `C78_read_back`, `C78_refused`, `C78_others_unchanged`, `C78_read_only`
* **ClassicalDedekindReals.sig_forall_dec, FunctionalExtensionality.functional_extensionality_dep** (58 theorems): `C121_image_cells`, `C121_fourier_cells`, `C121_area_fails_only_without_pixels`, `C121_image_plane_size_fixed`, `C145_image_grid`, `C145_same_grids`, `C145_fourier_grid`, `C145_crop`, `C160_aperture`, `C160_safe_radius`, `C138_image_grid_after_rounding`, `C138_padded_grid_after_rounding`, `C139_rectangle`, `C139_nested`, `C95_amplitudes_in_range`, `C96_grid_after_rounding`, `C96_padded_grid_identical`, `C96_index_recovered`, `C98_mask_exact`, `C98_mask_exact_integer`, `C98_no_rounding`, `C99_passive_after_rounding`, `C99_mirror_exact`, `C12_fourier_grid_positions`, `C12_pixel_to_coordinate`, `C12_conversions_inverse`, `C12_neighbours_and_centre`, `C12_axis_pixel`, `C13_image_grid`, `C13_image_grid_shape`, `C14_fourier_grid_extends`, `C14_padded_grid_sizes`, `C14_image_grid_refines`, `C133_blocking`, `C133_finite_results`, `C132_panels`, `C146_grids`, `C146_image_grid`, `C146_profiles`, `C112_lcos_panel`, `C157_count`, `C157_step`, `C09_blanks_exactly_the_disc`, `C09_idempotent`, `C09_power_does_not_increase`, `C10_block_without_result`, `C10_powers_without_result`, `C63_axis_sampled`, `C154_grids`, `C151_grids`, `C151_coordinates`, `C151_block`, `C151_powers`, `C151_units`, `C151_focal_length`, `C151_product`, `C151_same_arguments`, `C151_lcos_units`
* **ClassicalDedekindReals.sig_forall_dec, ClassicalDedekindReals.sig_not_dec, FunctionalExtensionality.functional_extensionality_dep** (36 theorems): `C71_opposite_origins`, `C111_fft_error`, `C111_direct_butterfly`, `C139_circle`, `C103_power_conserved_after_rounding`, `C103_accurate_transform`, `C161_norm`, `C161_three_terms`, `C95_grey_levels_in_range`, `C95_simple_monotone`, `C39_what_a_run_gives`, `C88_constant_symmetric_part_corrects_nothing`, `C88_image_before_binarisation`, `C28_intensity_depends_on_r`, `C28_centre`, `C93_no_phase_for_even_sizes`, `C159_one_bad_sample`, `C159_next_run`, `C146_gratings`, `C146_hologram`, `C112_dmd_panels`, `C130_topmost_exists`, `C25_read_only`, `C78_zernike`, `C79_orders_readable_refuted`, `C79_getters_always_raise`, `C141_simulation`, `C85_zero_period_blocks_everything`, `C09_first_order_survives_default_radius`, `C154_origin`, `C151_origin`, `C106_last_iteration`, `C106_runs_have_patterns`, `C18_rejects_invalid_refuted`, `C18_rejects_large_m_and_odd`, `C18_accepted_set`
* **ClassicalDedekindReals.sig_forall_dec, ClassicalDedekindReals.sig_not_dec, Classical_Prop.classic, FunctionalExtensionality.functional_extensionality_dep** (455 theorems): `C104_wrong_beam`, `C104_aberration_correction`, `C104_product_of_profiles`, `C128_mixing_rescales_the_target`, `C128_window_error_never_increases`, `C128_progress`, `C128_plain_error_can_grow`, `C156_outside_removal`, `C156_outside_decomposition`, `C156_inside_removal`, `C156_inside_decomposition`, `C15_ansi_total`, `C15_ansi_inverse`, `C15_injective`, `C15_wrong_beyond_range`, `C15_negative_index`, `C15_domain`, `C19_closed_form`, `C19_defocus_closed_form`, `C19_zero_mean`, `C19_unchanged_outside`, `C19_linear`, `C19_piston_removed`, `C19_piston_ignored`, `C19_empty_aperture_gives_nan`, `C59_zero_mean_with_defocus_refuted`, `C20_projection_refuted`, `C20_tilt_removed_refuted`, `C20_tilt_residual`, `C20_second_pass`, `C20_tilt_can_grow`, `C21_decomposition`, `C21_modes_unique`, `C21_linear`, `C21_prefix`, `C21_zero_outside`, `C21_empty_aperture_gives_nan`, `C90_simple_grating_is_nearest`, `C90_simple_hologram_is_nearest`, `C90_ifta_without_window_is_nearest`, `C145_no_propagation`, `C145_never_a_result`, `C131_gerchberg_saxton`, `C131_mraf`, `C37_dark_pixels_exactly`, `C02_pack_accepts_exactly_bool`, `C02_history`, `C32_ideal_grating`, `C32_negative_order_negates_phases`, `C33_simple_is_thresholded_ideal`, `C33_half_period`, `C34_random_grating`, `C34_duty_increases`, `C34_duty_limit`, `C34_first_harmonic`, `C35_amplitude_normalised`, `C35_bright_inputs_qualify`, `C35_target_scaling`, `C35_input_scaling`, `C36_orders_at_the_fourier_plane`, `C36_target_in_first_order`, `C37_refuted`, `C37_one_dark_pixel_suffices`, `C38_refuted`, `C38_zero_target`, `C38_other_errors_change_nothing`, `C38_grating_atomic`, `C38_unknown_method`, `C45_patch_only_touches_its_disc`, `C45_failing_patch_changes_nothing`, `C46_refuted`, `C46_ideal_patch`, `C57_state_keeps_the_device_shape`, `C69_own_image_is_matched`, `C70_first_order_power`, `C71_equivalent_settings`, `C72_global_phase`, `C77_only_diffraction_orders`, `C77_blocking_removes_only_the_axis`, `C80_thresholded_first_harmonic`, `C80_not_proportional`, `C124_duty_after_rounding`, `C124_DLP9500`, `C124_machines`, `C100_gs_moves_with_its_target`, `C100_mraf_moves_with_its_target`, `C111_no_rounding`, `C111_numpy_accurate`, `C111_powers_agree`, `C122_only_the_filtered_spectrum_matters`, `C122_window_filters_the_target`, `C122_windows_multiply`, `C122_constant_window`, `C122_window_is_not_on_the_input`, `C160_removal`, `C160_piston`, `C160_double`, `C160_decomposition`, `C160_no_rounding`, `C138_single`, `C138_no_rounding`, `C139_pixel_window_single`, `C139_no_rounding`, `C136_gerchberg_saxton`, `C136_mraf`, `C136_gerchberg_saxton_single`, `C136_mraf_single`, `C136_no_rounding`, `C162_value`, `C162_double`, `C162_no_rounding`, `C134_rounded_hologram`, `C134_dlp9500`, `C134_numpy_transform`, `C134_no_rounding`, `C134_polar`, `C135_simulation`, `C135_grey_levels`, `C135_lcos`, `C135_lcos_single`, `C135_dlp9500`, `C135_switched_mirrors`, `C164_value`, `C164_double`, `C164_no_rounding`, `C127_lossless_after_rounding`, `C127_single_precision`, `C127_stored_phases`, `C127_no_rounding`, `C165_call`, `C165_complex`, `C165_lipschitz`, `C165_gaussian`, `C165_moved_gaussian`, `C165_no_rounding`, `C103_single_precision`, `C103_no_rounding`, `C161_modes`, `C161_bound`, `C161_trivial_modes`, `C161_removal_double`, `C161_decomposition`, `C95_formats`, `C95_no_rounding`, `C96_no_rounding`, `C97_index_round_trip_refuted`, `C99_no_rounding`, `C148_dmd_forgets`, `C148_dmd_outcome`, `C148_patch_remembers`, `C148_lcos_outcomes`, `C148_lcos_last`, `C148_lcos_failed`, `C148_reset_transparent`, `C123_grey_levels_and_mirrors`, `C123_DLP9500`, `C123_machines`, `C91_gaussian_image`, `C91_peak_on_a_DLP9500`, `C92_gaussian_power`, `C92_unit_test`, `C113_hermite_gaussian_image`, `C113_bounded`, `C113_two_lobes_on_a_DLP9500`, `C39_ifta_of_a_target`, `C39_ifta_grating`, `C39_no_iterations_is_simple`, `C40_error_never_increases`, `C40_error_converges`, `C41_refuted`, `C42_mraf_full_window_is_gs`, `C42_mixing_zero_ignores_target`, `C43_refuted`, `C43_displayed_image`, `C44_phase_ranges`, `C44_failures_change_nothing`, `C58_gs_ignores_scale`, `C58_mraf_ignores_common_scale`, `C42_mixing_one_is_gs_of_the_masked_target`, `C81_gs_run`, `C81_mraf_run`, `C82_gs_keeps_a_perfect_hologram`, `C82_mraf_with_equal_mixing_keeps_it`, `C82_default_mraf_keeps_it_refuted`, `C88_only_the_symmetric_part_counts`, `C88_only_the_symmetric_part_counts_for_gratings`, `C149_set_dmd_grating_state`, `C149_circular_patch`, `C149_calculate_dmd_state`, `C149_calculate_hologram`, `C149_by_name`, `C149_order`, `C149_unused`, `C149_too_many`, `C149_given_twice`, `C149_reserved`, `C149_defaults`, `C150_unknown_option_ignored`, `C150_refuted`, `C86_pixels_in_the_aperture`, `C86_averages_converge`, `C86_modes_nearly_orthonormal`, `C86_coefficients_recovered`, `C86_map_reconstructed`, `C86_coefficients_of_polynomials`, `C86_tilts_nearly_removed`, `C86_second_pass_changes_little`, `C86_mean_after_defocus_removal`, `C59_mean_left_by_defocus_removal`, `C107_random_first_harmonic`, `C27_hermite_gaussian`, `C27_parity`, `C28_laguerre_gaussian`, `C28_rotation_multiplies_by_phase`, `C28_gaussian`, `C28_first_order`, `C29_super_gaussian`, `C29_peak`, `C29_width`, `C29_bounded`, `C29_decreasing`, `C29_gaussian`, `C30_rectangle`, `C30_disc`, `C30_product_is_intersection`, `C30_square`, `C66_hermite_gaussian_overlap`, `C67_laguerre_gaussian_overlap`, `C93_move_target_or_grating`, `C94_states_superpose`, `C94_dimmed_state`, `C129_superposition`, `C129_equal_beams`, `C133_one_bad_mirror`, `C133_dark_pixel`, `C133_next_run`, `C133_finite_states`, `C159_finite_beams`, `C155_target_or_window`, `C155_beam`, `C155_unused_mirrors`, `C155_ifta`, `C155_phases`, `C155_no_iterations`, `C155_finite_dmd`, `C155_finite_lcos`, `C132_refuted`, `C132_blank_hologram`, `C132_underflow`, `C132_no_rounding`, `C146_machines`, `C146_simulation`, `C146_dlp9500`, `C147_refuted`, `C147_overflow`, `C116_hermite_gaussian_power`, `C116_powers_of_modes_add`, `C117_laguerre_gaussian_power`, `C117_different_beams_add`, `C117_vortex_on_a_DLP9500`, `C130_last_patch_wins`, `C130_any_order`, `C130_hidden_patch`, `C130_repeated_patch`, `C22_profile_operands`, `C22_number_operands`, `C22_negation`, `C22_power_number`, `C22_power_profile`, `C22_power_integer`, `C22_power_positive`, `C22_power_complex`, `C23_element_type`, `C23_no_type_error`, `C23_always_a_value`, `C24_formulas`, `C24_rotation_polar`, `C24_compose`, `C24_inverse`, `C24_commute_arithmetic`, `C24_commute_power`, `C24_commute_as_complex`, `C25_history_as_built`, `C25_assignment_succeeds`, `C25_older_objects_unaffected`, `C25_later_objects_unaffected`, `C25_element_type_fixed`, `C26_phase_factor`, `C26_complex_argument`, `C26_sum_is_product`, `C26_inverse`, `C55_samples_on_the_grid`, `C55_fails_on_a_failing_sample`, `C55_arrays_converted`, `C55_constants_are_scalars`, `C55_refuted`, `C157_gratings`, `C157_holograms`, `C120_ifta_better_refuted`, `C120_random_beats_every_count`, `C76_random_grating_mean`, `C76_random_hologram_mean`, `C140_two_axes`, `C140_stack`, `C140_slices`, `C140_raises`, `C144_two_axes`, `C144_stack`, `C144_raises`, `C142_two_axes`, `C142_gs`, `C142_mraf`, `C142_raises`, `C143_in_order_refuted`, `C152_two_axes`, `C152_images`, `C152_accepted`, `C152_uneven`, `C152_patch_of_stack`, `C152_patch_on_stack`, `C152_patch_counts`, `C153_patch_stays_inside_refuted`, `C153_square_panel`, `C125_conjugate`, `C125_conjugate_mraf`, `C125_reversed`, `C125_reversed_mraf`, `C125_reflected_target`, `C125_spot`, `C115_made_of_hermite_gauss`, `C115_laguerre_gaussian_image`, `C115_bounded`, `C115_vortex_on_a_DLP9500`, `C89_raising_s_raises_the_first_order_refuted`, `C89_returned_efficiency_ignores_s`, `C89_raising_s_switches_mirrors_on`, `C89_first_harmonic_peaks_at_one`, `C83_hologram_rejects_misfits`, `C83_grating_rejects_misfits`, `C83_single_rows_and_columns_repeat`, `C83_ifta_rows_repeat`, `C83_input_rows_repeat`, `C83_window_rows_repeat`, `C83_ifta_refuses_real_arrays_and_profiles`, `C83_target_of_one_row_is_a_line`, `C84_state_has_the_shape_of_the_input`, `C84_misfits_beside_a_full_input_are_rejected`, `C84_single_rows_and_columns_repeat`, `C84_misfits_are_rejected_refuted`, `C85_outcome_ignores_the_grating`, `C85_zero_period_gives_blank_patterns`, `C85_zero_period_is_refused_refuted`, `C158_which_patterns`, `C158_alp_image`, `C158_lux_image`, `C119_refuted`, `C119_iterations_alternate`, `C03_image_power_is_output_power`, `C04_padding_invariant`, `C05_grey_state_passive`, `C05_binary_state_power`, `C05_all_on_identity`, `C05_all_off_dark`, `C06_lcos_lossless`, `C07_linear`, `C07_power_scales`, `C08_fraunhofer_even`, `C08_fraunhofer_any`, `C08_fraunhofer_intensity`, `C10_results_belong_to_last_propagation`, `C11_refuted`, `C11_output_and_image_survive`, `C56_field_sizes`, `C60_padding_keeps_field`, `C61_tilt_moves_image`, `C62_real_field_symmetric`, `C62_dmd_orders_symmetric`, `C63_axis_and_bound`, `C73_complementary_patterns`, `C74_lcos_phase_offset`, `C74_new_panel_is_phase_zero`, `C75_translation_keeps_intensity`, `C87_image_error_power`, `C87_image_error_pointwise`, `C87_wrong_mirrors`, `C87_ideal_grating_lipschitz`, `C87_simple_mirrors_keep_with_margin`, `C126_progress`, `C126_stalled_runs_stay`, `C101_devices_do_not_interact`, `C102_read_pattern_is_a_snapshot_refuted`, `C102_read_pattern_follows_the_device`, `C102_snapshot_without_patches`, `C102_copy_is_a_snapshot`, `C102_write_changes_one_mirror`, `C102_write_outside`, `C114_thresholds_rise`, `C114_no_pixel_is_both`, `C114_default_is_exact`, `C114_not_always_exact`, `C114_no_rounding`, `C154_gratings`, `C154_dmd_holograms`, `C154_lcos_holograms`, `C154_simulations`, `C154_reflection`, `C154_symmetric`, `C151_profiles`, `C151_set_grating`, `C151_circular_patch`, `C151_dmd_state`, `C151_hologram`, `C151_propagate`, `C137_sample`, `C137_stability`, `C137_dlp9500`, `C137_corner`, `C105_more_iterations_refuted`, `C105_every_count_can_hurt`, `C106_one_iteration_grating`, `C106_one_iteration_hologram`, `C16_zernike_value`, `C16_unit_on_the_rim`, `C16_zero_outside`, `C17_orthonormal`, `C18_invalid_mode_is_zero`, `C64_bounded`, `C64_attained`, `C65_rotate_turns_clockwise`, `C65_rotation_mixes_partners`, `C65_rotation_keeps_m0`, `C65_parity`, `C163_value`, `C163_double`, `C163_pointwise`, `C163_plane_double`, `C163_small_powers`, `C163_small_double`, `C163_everywhere_double`, `C163_single`, `C163_everywhere_single`, `C163_no_rounding`, `C166_simple`, `C166_ideal`, `C166_random`, `C166_ifta`, `C166_patch_simple`, `C166_patch_ideal`, `C166_finite`, `C166_patch_finite`, `C167_grating`, `C167_patch`, `C167_outcome`, `C167_ifta`, `C167_complete`
<!-- end assumptions -->
