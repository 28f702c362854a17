# Formal model of sleplet in Rocq (Coq 8.16.1)

This file says what is modelled, how each property of `properties.jsonl` is
stated and proved, what has to be trusted, and what was found to be wrong in the
code.  `MANIFEST.json` lists the theorems of every property
(`tools/mkmanifest.py` regenerates it from the theorem names).

## 1. Approach

* Shallow Gallina functions mirror the Python functions branch by branch.
  Exceptions are values: `res A := Ok a | Err exn` with the Python exception
  class.
* One-dimensional numpy arrays are lists; item access, assignment, broadcasting
  and slices follow numpy's rules (`Base.v`, `Numpy.v`): out-of-range reads are
  errors, not defaults.  Matrices shared between threads are total functions on
  indices plus their stated dimensions, so every access outside the dimensions is
  visible as an error of the machine.  The arrays of the latitude-longitude
  solver carry their shape (`LatLon.v`).
* `float64`/`complex128` are idealised as the real numbers `R` of the standard
  library and Coquelicot's complex numbers `C`.  Rounding, overflow, NaN and
  infinities are **not** modelled, except for bounded errors of the eigensolver
  (`SpecRounding.v`, C78, C79).  A comparison of floats is the same comparison
  on `R`.  Where numbers are printed (file names, function names) they are
  rationals `Q`, which floats are.
* Threads: a worker is a list of atomic instructions on a shared state with a
  private local state; a schedule is an arbitrary list of worker numbers; a fault
  makes a worker raise at an arbitrary instruction (`Machine.v`, `Fault.v`).
* Files: the data directory is a map from names to contents.  Processes
  interleave arbitrarily and may die between (C13: also inside) whole-file writes
  (`Cache.v`).
* External libraries (pyssht, pys2let, LAPACK `eigh`, igl, pooch, plotly, numpy's
  random generator) are Section variables or function arguments.  What is assumed
  of them is a visible hypothesis of each theorem that needs it; beside the
  theorem an `Example` meets all hypotheses at once with concrete data.

Model files contain definitions only, each with a comment citing the `/repo` file
and lines.  `Spec*.v` hold small specifications independent of the model,
`*Proofs.v` the lemmas, `Prop*.v` only the property theorems with
`Print Assumptions` and the examples.

The spherical harmonics ssht is assumed to return are written out in
`SpecHarmonics.v` (`textbook`): Legendre polynomials by their three-term
recurrence, associated functions, Condon-Shortley phase, normalisation.  Their
orthonormality, the conjugation of opposite orders, the addition theorem and the
expansion of products with 3j symbols are proved from this definition, in
`ThreeJProofs`, `AssocProofs`, `TextbookProofs`, `ThreeJOrtho`, `LegendreTriple`.
That the Fourier sums over a table of Wigner's d-values at pi/2 are these
harmonics, for every degree, is proved from Wigner's closed formula
(`SpecWignerD`, `WignerDProofs`), so the hypothesis `textbook` of C65-C68 can be
read as "`ssht.generate_dl` returns what Wigner's formula gives".

A property that the code does not have is proved false: the theorem's name ends
in `_refuted`, it exhibits the witness, and section 6 lists it as a finding.
There are no `_partial` theorems at present.

## 2. What is modelled

| model file | code (`src/sleplet/...`) |
|---|---|
| `Parallel` | `_parallel_methods.split_arr_into_chunks` |
| `Machine`, `Fault`, `Job` | `ThreadPoolExecutor` and `SharedMemory` use of the three matrix builders; failures of workers |
| `PolarMatrix`, `Wigner` | `slepian_polar_cap`: `_create_Dm_matrix`, `_dm_matrix_serial/parallel/helper`, `_legendre_polynomials_table`, `_wigner3j`, `_polar_gap_modification` |
| `ArbitraryMatrix`, `Integration` | `slepian_arbitrary` and `mesh_slepian`: `_create_D_matrix` and helpers; `_integration_methods`; `_array_methods` |
| `LatLon` | `slepian_limit_lat_lon`: `_slepian_integral`, `_slepian_matrix` (with the order of `numba.prange`), `_create_K_matrix` |
| `LatLonParallel`, `LatLonSolve`, `ArbitrarySolve` | the interleaved `prange`; solving from scratch for boxes and arbitrary regions (matrix, `eigh`, cleaning, area) |
| `Eigen` | the cleaning functions of the four solvers (`_clean_evals_and_evecs`, sorting over orders, sign rules) |
| `Index` | `ssht.elm2ind/ind2elm` arithmetic, `_create_emm_vector` |
| `Region`, `RegionJob`, `Mask` | `slepian/region.py`, `_bool_methods`, `choose_slepian_method`, areas, Shannon numbers, file names of matrices, `_mask_methods` for the sphere |
| `Cache` | the data-directory protocol of the solvers, `setup_pooch` as a registry |
| `Transform` | `slepian_methods`, `_slepian_decomposition`, `Flm`/`Fp` translation, noise on Slepian coefficients |
| `Convolution` | `_convolution_methods` |
| `Quadrature` | sampling grid and `calc_integration_weight` |
| `Noise` | `noise.py` (SNR, noise generation), `compute_random_signal`, `create_earth_flm`, `create_wmap_flm`, `_smoothing` |
| `Threshold` | hard thresholding and `_compute_sigma_j` and variants |
| `Wavelet` | `wavelet_methods`, axisymmetric and Slepian wavelet classes, ridgelets |
| `Functions` | coefficients of the closed-form classes, boosting |
| `Mesh` | `_mesh_methods`, `meshes/*`: regions, basis, transforms, decompositions, noise, thresholding, rank selection |
| `MeshGeometry` | the six configuration files, `extract_mesh_config`, `create_camera`, `read_mesh` with `igl.upsample`, `_mesh_laplacian` with `igl.cotmatrix`, `Mesh.__post_init__` |
| `Plot` | `plot_methods`, `_plotly_methods` (as data), `_create_plot_sphere`, `_create_plot_mesh` up to the figure handed to plotly |
| `Cli` | `_scripts/plotting_on_sphere.py`, `plotting_on_mesh.py` (after argument parsing) |
| `Registry` | `_data/setup_pooch` with its module variable, `_load_flm`, `_load_cl`, the files of `mesh_eigendecomposition`; a path stands for what the file holds |
| `Argparse` | of Python's `argparse` 3.11 what the two commands use: words to options, abbreviations, letters in one word, values, counts of values, choices, the positional argument, exit status |
| `Commands` | `read_args` and `main` of both commands: the declared options, from `sys.argv` to the call of `plot` |
| `Names`, `FnNames` | `_string_methods`, `_class_lists`, names of all functions and figures |
| `Args` | pydantic fields, validators and `extra_args` of all function classes |
| `Objects` | creating an object of any sphere class: `Coefficients.__post_init__`, `Fp.__post_init__`, every `_create_coefficients`, masks of the continents, nested objects, noise, region checks |
| `MeshObjects` | creating an object of any mesh class, `plotting_on_mesh.main`, `examples/mesh/mesh_region.py`, `examples/mesh/denoising_slepian_mesh.py` |
| `Demos` | `examples/`: the covariance, denoising and progressive reconstruction demonstrations, without their figures and log messages |
| `Figures` | `examples/`: the data of the figures of Slepian functions, eigenvalues, coefficients, tilings, reconstructions, errors, translation norms and Ricker wavelets |
| `MaskedFlm` | `_mask_methods.ensure_masked_flm_bandlimited`, `_string_methods.multiples_of_pi`, the messages of the validators of `slepian.region` |

Simplifications are stated in the comment of each definition.  The main ones:

* Fields on meshes are real; complex mesh signals are not modelled.
* In a matrix job the arithmetic of one entry is one atomic instruction; reading
  and writing shared memory are separate instructions.
* An iteration of `numba.prange` in the latitude-longitude solver is one step in
  `C05_schedule`; `C05_interleaved` removes this simplification: there the
  elementary updates of all iterations interleave.
* A whole-file write is atomic except where a theorem says otherwise (C13).
* Plotly, logging and downloads are cut off at the data handed over.

## 3. Properties

For every property: what the theorems say, and what they assume about external
code.  "Any schedule" means every interleaving of every number of workers.

| id | what is proved | assumed of external code / limits |
|----|----------|-------|
| C01 | the chunks partition `0..n-1`, each increasing, sizes differ by at most one | - |
| C02 | polar-cap matrix: for any schedule and initial memory the finished matrix is the published formula; no schedule fails; every partial schedule can finish | harmonics at the edge are an argument |
| C03 | arbitrary region: the same, in spite of the shared dictionary and the order-zero short cut | conjugate symmetry of the synthesised harmonics |
| C04 | mesh: the same | - |
| C05 | latitude-longitude matrix: no index leaves its array, every entry is the integral of `Y_lm conj(Y_pq) sin(theta)` over the box; independent of the order and interleaving of the parallel iterations; Hermitian; its quadratic form is the energy in the box; eigenvalues are energy ratios in [0,1] | shape of the Wigner table; orthonormality only for the eigenvalue range |
| C06 | refuted: an exception of a worker never reaches the caller | - |
| C07 | no access through a closed mapping, no attach after release, caller waits; clean exit without failures; refuted with a failure (leaked mapping) | zero-filled fresh memory, see section 4 |
| C08 | classification of regions: total, exclusive, precedence; fields kept; default region | - |
| C09 | `ValueError` exactly outside the closed intervals; refuted: accepted boxes can be empty | - |
| C10 | the chosen solver reproduces the region | - |
| C11 | eigenvalues do not depend on any history of processes, interleavings and deaths between writes | files of the registry are sound |
| C12 | the same for eigenvectors of ranks below N and for polar caps with L <= 16; refuted in full | as C11 |
| C13 | recovery after deaths between writes; refuted inside a write and for concurrent torn reads | as C11 |
| C14 | distinct whole-degree regions have distinct files; refuted in general by three kinds of witness | - |
| C15 | one order: cached equals fresh for L <= 16; exact condition for `IndexError` above; order arrays refuted | as C11 |
| C16 | sorted, paired, orthonormal, still eigenpairs after cleaning (boxes, arbitrary, mesh) | `eigh` returns an orthonormal eigenbasis |
| C17 | polar: rows live in the slots of their order; all orders together | as C16 |
| C18 | Hermitian completion, exactly when the diagonal is real | - |
| C19 | index bijection, order vector | - |
| C20, C46 | noise and CMB: reality, which draw goes where, determinism, prefixes across band limits | the stream of draws is an argument |
| C21 | SNR identities, expected power over any ensemble with unit second moments | - |
| C22 | thresholding pointwise, in place, idempotent; zero threshold refuted in Slepian space | transforms invert each other |
| C23 | sifting convolution algebra | - |
| C24, C25 | Slepian transforms: round trips, best approximation, dispatch, counts; sphere integral = harmonic sum refuted | orthonormal eigenvectors; quadrature on the grid of the matrix |
| C26, C27 | wavelet transforms: round trips under admissibility; refuted when a zero scale precedes another; energies by Parseval, stability by Cauchy and Schwarz | generators of s2let are an argument |
| C28, C29 | mesh transforms, projection, agreement of methods, normalisation | orthonormal basis |
| C30, C31, C32, C47 | regions on meshes, boosting, masks, closed plots | land mask an argument |
| C33 | areas are surface integrals, Shannon number within 1/2; gap area refuted | - |
| C34 | every cell of the sub-integral table is the product of the two integrals, including columns +-1; conjugate symmetry | - |
| C35, C45 | 3j routine total, Racah formula, symmetries; gap factor | - |
| C36, C37, C38 | plot resolution, nearest sample, normalisation, with the refuted parts | - |
| C39, C40 | names of values and classes | - |
| C41 | accepted arguments are exactly those in range; refuted for keyword ranks and later assignment | pydantic runs validators in field order |
| C42 | Earth coefficients and smoothing | table of the file an argument |
| C43, C44 | Slepian unit vectors; translation is sifting | - |
| C48 | mesh Shannon number | - |
| C49 | signs: canonical for boxes, arbitrary regions and polar order 0; refuted for other polar orders | as C16 |
| C50, C51 | random signals; quadrature weights and their deficit | - |
| C52 | noise on Slepian coefficients; refuted for L^2-length functions | - |
| C53, C54 | closed forms and reality flags; scale selection | - |
| C55 | noise level of a scale is the standard deviation of its field | addition theorem for the sampled harmonics |
| C56, C57, C58 | mesh Slepian functions: concentration, range, optimality, trace; denoising; rank selection | orthonormal basis |
| C59, C60, C61 | figure of a sphere or mesh: position, value, colour limits, marker, amplitudes | forward/inverse transforms of pyssht |
| C62, C63, C64 | names of functions identify them; the command shows the requested function; file names identify figures | - |
| C65 | Slepian functions of a box, computed from scratch: orthonormal, energy in the box equal to the eigenvalue, optimal among band-limited functions, eigenvalues summing to the Shannon number | `eigh` gives an orthonormal eigenbasis; the Wigner table holds the textbook harmonics |
| C66 | polar caps and gaps: every matrix entry of a finished run (any schedule) is the overlap of two harmonics in the region; orders do not mix; the resulting functions are orthonormal, concentrated, optimal; sum of eigenvalues | ssht returns the textbook harmonics, `eigh` as C16 |
| C67 | arbitrary regions: the functions are orthonormal on the sphere, orthogonal over the masked samples with the eigenvalue as energy, optimal; the eigenvalues sum to the Shannon number; the bound 1 is refuted | ssht samples the textbook harmonics, `eigh` as C16 |
| C68 | the values of `_wigner3j` are the 3j symbols: orthogonal over orders, orthonormal over degrees, integrals of three Legendre polynomials, expansion of products of harmonics | textbook harmonics (product only) |
| C69 | creating an object of any sphere class: number of coefficients and reality; the maps of the continents and their mask files; Slepian maps, noise, wavelet coefficients, the Slepian Dirac delta; the default region refuted for Africa | real transforms of pyssht give real fields and coefficients of real fields; solving twice gives the same; grid indices; wavelet admissibility where stated |
| C70 | the demonstrations: theoretical variance of wavelet coefficients, what is measured instead, denoising at no and at high thresholds, reconstruction scale by scale (refuted) | `ssht.inverse` samples the textbook harmonics (or any linear synthesis); draws of unit variance without correlation |
| C71 | Wigner's formula at pi/2 gives the textbook harmonics for every degree; C05 and C65-C67 restated in spherical harmonics with no hypothesis on the table but that formula | `ssht.generate_dl` returns Wigner's values; `eigh` as C16 |
| C72 | creating an object of every mesh class (coefficients, field, name, noise), what the mesh command draws, the region and the denoising demonstration; three refuted claims | the solver returns orthonormal Slepian functions of the mesh (C28, C56); `axisym_wav_l` returns arrays of the documented sizes |
| C73 | the spectral theorem by maximising the form over a compact set; hence the calls of the three solvers can be answered for every region and band limit; two runs with different eigensolvers, sorts, schedules give the same eigenvalues, kernels and (simple) functions; caps solved as caps and as boxes agree | what is asked of the calls in C65-C67 and C71; a gap after the N-th eigenvalue for the kernel |
| C74 | turned, mirrored, complementary regions; eigenvalues grow with the region and the band limit (Courant-Fischer) | as C73; boxes on the sphere |
| C75 | polar-cap functions along a meridian are their fields, found by order and rank; eigenvalues of opposite orders agree; labels, ticks, sorted coefficients | `eigh` as C16; `ssht.inverse` samples the harmonics; files of the solver as written |
| C76 | norms of translations are energies, independent of longitude, symmetric; Ricker wavelets: layout, symmetry, bound, integral | `ssht.create_ylm` returns the textbook harmonics |
| C77 | tilings pass through the generators; sorted wavelet coefficients; reconstruction; error curves as quadrature against harmonic sum, zero for the region, refuted for the sphere | `pchip` interpolates its nodes; as C25, C26 |
| C78 | near-eigenvectors: residuals and inner products within eta; eigenvalues by Courant-Fischer for nearly orthonormal families, functions by Parseval on the residual; the same for every region | `eigh` returns an eigenbasis up to eta; everything else as C71 and C73 |
| C79 | real eigenbases seen as complex ones, so the lemmas of C73, C74 and C78 apply; sign of a unit vector from its products; rank by combinations vanishing at the vertices | `eigh` solves the one symmetric matrix it is given (exactly, or up to eta); numpy sorts; the schedule ends |
| C80 | induction over the parts of the line, whatever spelling each has; an invariant of the loop for all other lines; a refused option stays in the row until it is read, then a word is left over or the run ends (RefusedProofs.v); the number of words bounds the loop | Python's `float` of a string (a function); the band limit is not negative |
| C81 | a process is a list of lookups; runs of the mesh decomposition are cut at any write; two refuted claims | what `load_registry_from_doi`, `fetch` and `eigsh` do is arbitrary; runs follow one another |
| C82 | one triangle: the cotangents give area times squared slope (algebra of the Gram determinant); the matrix is a sum over triangles; refinement: numbering of the edges by induction over the list, each quarter has a quarter of the cross product; kernel by walking over triangles; one refuted claim | the two functions of igl are modelled from their documentation and source, in exact arithmetic; that the six files hold connected surfaces of proper triangles was checked by a script, not in Coq; the solver is assumed to return eigenpairs, orthogonal within an eigenvalue (`C82_solvable`: some solver does) |
| C83 | the cotangents are ratios, so a scale cancels; one triangle adds the same to an entry however its corners are listed; two orthonormal families of lowest eigenvectors span one space (a residual of either would be an eigenvector beyond the other); the concentration matrices are then turned into each other by an orthogonal matrix; one refuted claim | as C79 and C82; the solver returns the lowest eigenvalues with all their eigenvectors (`C83_lowest`: the lowest can always be returned) |
| C84 | a function of one angle at a time is a trigonometric polynomial, and one with more zeros than its degree vanishes; the energy at a fixed longitude is continuous in the longitude, so a zero energy forces zeros on a box; Weyl's argument with strict inequalities; for masks, a combination of the first p+1 functions that vanishes at p samples | as C71, C73; no new code modelled |
| C85 | the transforms are arguments, linear and with forward undoing inverse, on the coefficients and fields allowed by the reality flag; masking is linear on lists, and the texts follow from the floor of kπ/π | `ssht` itself; the layout of pydantic's report |
| C86 | one variable: cell by cell, with two potentials that count the partial cells at the ends; two variables by applying it twice; trigonometric polynomials are Lipschitz | no new code modelled; floating point |
| C87 | the differences of dilations telescope; the band of a scale comes from the strict fall of the function; the scales that reach the Shannon number are a prefix, so C26, C27 and C54 apply | `pys2let.axisym_wav_l` is described by its published definition (SpecTiling.v), with any function of the right shape; floating point, in which the smooth function of s2let may round to 0 or 1 near the ends of its band |

## 4. Trusted base

* Coq's kernel (8.16.1) and `coqchk`, which re-checks the compiled files.
* Axioms: only those of the Coq standard library listed in the appendix, theorem
  by theorem.  They are four: `ClassicalDedekindReals.sig_forall_dec` and
  `sig_not_dec` (the real numbers), `FunctionalExtensionality.functional_extensionality_dep`,
  and `Classical_Prop.classic`.  No axiom, `Admitted` proof, unset check, functor
  or module type is introduced here.  Coquelicot is used for complex numbers and
  integrals; it adds no axiom.
* The reading of the Python code: nothing ties the model to the code except the
  citations and the reader.
* The meaning given to numpy, numba, pydantic and the Python runtime:
  * the GIL makes one dictionary or memory access atomic; a fresh shared memory
    block is filled with zeros; the resource tracker does not remove blocks early;
  * `numba` with `fastmath` computes what the Python text says, up to rounding;
    array bounds are not checked there, so the theorems show that no access is
    out of range;
  * pydantic validates fields in their order of declaration, and again on
    assignment where `validate_assignment` is set;
  * `pooch` downloads are complete files.
* Real arithmetic stands for floating point: statements about equality of floats
  are about the idealised values.

## 5. What is not modelled

* Floating-point rounding, except that of `eigh` and of its matrix (C78, C79); NaN,
  infinities.
* pyssht, pys2let, LAPACK, igl (except `upsample` and `cotmatrix`, C82), plotly, trimesh, pooch and their files.
* Messages of argparse and logging, `multiprocess` start-up, environment variables
  other than those choosing the default region; command lines that are not ASCII.
  `Argparse.v` is Python's library, not code of the repository: it was compared
  with Python's own on 1800 random command lines (`tools/argparse_check.py`).
* Complex signals on meshes.
* Of the scripts in `examples/` the layout of the figures; the documentation and the
  tests.

## 6. Findings

Each is a theorem with a witness (`_refuted`) or follows from the named theorem.

1. A worker that raises is not noticed: `e.map` is never consumed, the matrix
   keeps zeros and the eigenvalues are silently wrong (C06).
2. A failing worker leaks its mapping of the shared block (C07).
3. Latitude-longitude boxes with min > max are accepted: empty mask, negative
   area and Shannon number (C09).
4. The area (and so the Shannon number) of a double polar cap counts one cap (C33).
5. Only N eigenvectors are written to the cache: a second construction returns
   fewer vectors than the first (C12); above L = 16 a single polar order read from
   the cache can raise `IndexError` (C15).
6. An array of orders is ignored by a fresh computation and used with a cache (C15).
7. A process that dies inside `np.save` leaves a torn file and every later
   construction raises `ValueError`; a concurrent process can read a half-written
   file (C13).
8. Different regions can share cache files: angles are rounded to whole degrees,
   solver classes share names, user masks can imitate generated names (C14).
9. The sign rule of the polar cap does nothing for orders other than 0 (C49).
10. Zero rows of wavelet coefficients are dropped, so later rows are paired with the
    wrong wavelet: wrong round trip (C26), wrong scale or `IndexError` (C54), wrong
    noise level `sigma_j[j]` (C22). With the generators of s2let a scale j accepted by
    the check is missing exactly when `B^(j_min+j) >= B (N-1)` (C87).
11. Too few noise levels: `IndexError` after the caller's array was partly
    overwritten (C22).
12. Thresholding with threshold zero is not the identity in Slepian space, because
    the quadrature weights are not exact: they integrate 1 to
    `(2 pi^2/L) cot(pi/(2L)) < 4 pi`, and to 0 for L = 1 (C22, C25, C51).
13. File-name fragments collide: 3/2 and 3; all tiny values (C39, C62); angles
    closer than the rounding (C64); plots with and without annotations (C64).
14. The plot resolution is not monotone in L (C36); the nearest sample compares
    longitudes on a line, so 2 pi - eps is sent away from 0 (C37).
15. Normalisation of nearly constant data leaves [0,1], reverses order for negative
    data and divides by zero when the maximum is 0 (C38).
16. The marker -1e5 lies inside the colour limits for large unnormalised data on
    meshes (C60).
17. `find_max_amplitude` ignores the spin (C61).
18. Mesh `_orthonormalise_basis_functions` only normalises (C29).
19. Rank checks: `MeshBasisFunctions` accepts rank = limit and then raises
    `IndexError`; keyword ranks are not checked against the limit;
    `MeshSlepianFunctions` never validates; ranks from N on depend on the cache
    (C58, C41).
20. `SphericalHarmonic`: assigning a smaller degree later leaves an order out of
    range (C41).
21. Coefficients of length N cannot be translated without the Shannon number (C44);
    Slepian functions of L^2 coefficients cannot be noised (C52).
22. `MeshNoiseField` always raises `AttributeError`; the region plays no role in
    `MeshSlepianField` (C58).
23. The name of a mesh Slepian function gets `_region`, contrary to the docstring,
    because the test reads the name of the mesh (C62).
24. `Identity` is flagged real but is not for L >= 2 (C53).
25. A Slepian function convolved with the Earth has the harmonic rotation applied
    to its N Slepian coefficients (C63).
26. Zero widths and smoothing factor 0 raise `ZeroDivisionError`; tables that are
    too short raise `IndexError` (C42, C53, C20).
27. Eigenvalues of an arbitrary region can exceed 1: the weights of
    `calc_integration_weight` are not an exact quadrature.  With only the poles
    masked out, at L = 2, the largest is 1.0056 (C67).
28. Without a region and without `SLEPIAN_MASK` in the environment, the default
    region is South America or a cap or a box, so `SlepianAfrica`,
    `SlepianNoiseAfrica` and `SlepianWaveletCoefficientsAfrica` cannot be created
    with their defaults, although the signature offers them (C69).
29. `axisymmetric_wavelet_covariance.py` takes the variance of each scale over
    the samples of the sphere, which removes the mean over the grid: degree zero
    drops out, and the scaling function never meets the theory (C70).
30. For `j_min = 0` it sets `mean_covar_data[0]` to the variance of
    `covar_data[0]`, the scales of the first run, where the first scale over the
    runs is meant (C70).
31. The Slepian covariance scripts divide the variance over the runs by their
    number, not by one less: the result is low by the factor 1 - 1/runs (C70).
32. The progressive reconstruction scripts hand one scale to
    `slepian_wavelet_inverse`, which then multiplies it with the sum of all
    wavelets: with wavelets 3/5 and 4/5 the last step is 49/25 of the signal
    (C70).
33. `denoising_slepian_wavelet` thresholds row i with the deviation of wavelet i
    and synthesises it with wavelet i although rows without coefficients were
    dropped: with one such scale before the last the result is wrong for every
    threshold (C70).
34. Noise cannot be added to `MeshSlepianWavelets` unless the Shannon number is
    the number of basis functions: the wavelets have one value per basis function
    and the noise one per Slepian function, a `ValueError` (C72).
35. `PlotMesh` hands the coordinates of the vertices to plotly as x, z, y, so
    every figure of a mesh is its mirror image (C72).
36. The last tick of the eigenvalue and tiling figures lies beyond the axis unless
    the number of functions is a power of two (C75, C77); the error curve of the
    whole sphere is not rounding error but the deficit of the quadrature (C77).
37. The usage text of `sphere` and `mesh` shows the name after the options, but
    `sphere -e 5 earth`, `sphere -m earth`, `sphere -p africa` and `mesh -e 5 bird`
    exit with status 2: the option takes the name for its value (C80).
38. `_POOCH` is assigned before its registry is read: if the request fails once (no
    network at the first lookup), later lookups do not ask again and find nothing,
    so published solutions are computed again and the Earth raises `TypeError` for
    the rest of the process (C81).
39. The rows of the mesh Laplacian sum to zero, so it has no inverse; nevertheless
    `eigsh(..., sigma=0)` asks for eigenvalues through that inverse.  That it works
    is due to rounding (C82).
40. If the number of basis functions (by default a quarter of the number of vertices)
    separates eigenvectors of one eigenvalue, as symmetric meshes allow, the Slepian
    eigenvalues depend on which of them `eigsh` returns, so on its random start
    vector: 3/4 against 1/4 for their sum on a square (C83).
41. `ensure_masked_flm_bandlimited` is not a projection although its name promises a
    band-limited masked signal: the band-limited result is not zero outside the
    region, and masking it again changes it; at L=1 a cap of 60 degrees halves the
    coefficient each time (C85).

## Appendix: Print Assumptions, theorem by theorem

Generated by `tools/mkdesign.py`.

### Closed under the global context (no axiom)

C01_balanced, C01_chunk_count, C01_chunk_increasing, C01_partition, C11_evals_history_independent, C12_full_refuted, C12_ranks_below_N, C12_small_polar_complete, C13_concurrent_torn_read_refuted, C13_recovers, C13_torn_write_refuted, C15_order_array, C15_order_array_refuted, C19_degree_order_round_trip, C19_index_round_trip, C19_order_count, C19_order_vector, C21_no_noise, C25_nothing_given, C36_bounds, C36_monotone_refuted, C36_power_of_two, C38_off, C39_angles, C39_angles_exact, C39_args, C39_args_refuted, C39_closest, C39_rounding, C39_tiny, C39_wavelet_ending, C40_checks, C40_class, C40_conversion, C40_lower, C40_map, C40_mesh_class, C40_names, C40_underscores, C41_assign, C41_assign_degree_refuted, C41_count, C41_keywords, C41_mesh_count, C41_mesh_keywords, C41_mesh_values, C41_rank_keyword_refuted, C41_region, C41_total, C41_unknown_keyword, C41_values, C54_rejected, C58_noise_field_refuted, C62_dirac_delta, C62_earth, C62_harmonic, C62_identified, C62_mesh, C62_mesh_region_refuted, C62_refuted, C62_region, C62_slepian_rank, C64_angles_refuted, C80_dashes, C80_int, C80_int_texts, C80_leaves, C80_left, C80_mesh_every, C80_mesh_reads, C80_misfit, C80_refused, C80_sphere_every, C80_sphere_reads, C80_swallowed_refuted, C80_valueless, C81_found, C81_once, C81_retry_refuted.

### `ClassicalDedekindReals.sig_forall_dec`

C03_arbitrary_can_finish, C03_arbitrary_never_fails, C04_mesh_can_finish, C04_mesh_never_fails, C06_arbitrary_failure_not_reported, C06_mesh_failure_not_reported, C07_arbitrary_clean_exit, C07_arbitrary_protocol_safe, C07_caller_waits, C07_mapping_closed_on_failure_refuted, C07_mesh_clean_exit, C07_mesh_protocol_safe, C16_mesh, C18_idempotent, C18_ignores_upper, C18_lower_kept, C18_upper_is_conjugate, C23_entries, C23_mismatch, C23_truncation, C24_short_input, C28_wrong_length, C30_faces, C31_below, C31_boost, C31_transitive, C41_harmonic, C44_dirac, C44_off_grid, C53_spherical_harmonic, C54_wavelets, C58_basis_keyword, C58_basis_limit, C75_ranked, C81_tables.

### `ClassicalDedekindReals.sig_forall_dec`, `FunctionalExtensionality.functional_extensionality_dep`

C03_arbitrary_matrix_any_schedule, C04_mesh_matrix_any_schedule, C06_failing_worker_raises_refuted, C15_one_order_any_history, C15_truncated_cache, C16_arbitrary, C16_argsort_exists, C16_lat_lon, C17_all_orders, C17_one_order, C18_hermitian_iff_real_diagonal, C23_conjugate_linear, C23_linear, C23_row_pairs, C23_rows, C23_swap, C23_unit, C24_inverse, C26_one_dimensional, C26_round_trip_refuted, C28_forward_inverse, C28_inverse_value, C28_masked, C28_methods_agree, C28_pipeline, C28_projection, C28_rank_error, C28_slepian_round_trip, C30_vertices, C31_samples, C38_constant, C38_near_constant_refuted, C38_range, C38_zero, C38_zero_maximum_refuted, C44_flm, C44_flm_samples, C44_fp, C44_fp_length, C44_fp_shannon, C48_monotone, C48_no_vertices, C48_range, C49_arbitrary_phase, C49_arbitrary_sign_canonical, C49_lat_lon_first, C49_lat_lon_sign_canonical, C49_polar_order_zero_sign_canonical, C49_polar_other_orders_keep_sign, C49_polar_sign_canonical_refuted, C53_identity_reality_refuted, C56_concentration, C56_optimal, C56_range, C56_trace, C57_thresholding, C57_zero_threshold, C58_basis_function, C58_rejected, C58_slepian_field, C58_slepian_function, C60_mesh, C60_mesh_fixed, C60_mesh_marker_refuted, C60_mesh_normalised, C61_mesh_noise_amplitude, C70_progressive, C72_colours, C72_mirror_refuted, C72_positions, C72_region, C75_pairs, C79_run, C82_infinite, C82_refined_region, C82_regions, C82_subdivide.

### `ClassicalDedekindReals.sig_forall_dec`, `ClassicalDedekindReals.sig_not_dec`, `FunctionalExtensionality.functional_extensionality_dep`

C02_polar_can_finish, C02_polar_matrix_any_schedule, C02_polar_never_fails, C02_polar_schedule_independent, C06_polar_failure_not_reported, C07_polar_clean_exit, C07_polar_protocol_safe, C08_classification, C08_default_region_fields, C08_default_region_south_america, C08_default_region_whole_degrees, C08_fields_kept, C09_nonempty_refuted, C09_value_error, C10_solver_recreates_region, C10_zero_cap_rejected, C11_whole_degree_regions, C14_imitating_mask_refuted, C14_solver_classes_share_refuted, C14_whole_degrees_distinct, C20_wmap_draws, C20_wmap_reality, C20_wmap_short_spectrum, C22_harmonic, C22_harmonic_short, C22_harmonic_zero, C22_idempotent, C22_mismatch, C22_pointwise, C22_shrinks, C22_slepian, C22_slepian_function, C24_best_approximation, C24_energy, C24_forward_of_inverse, C24_inverse_of_forward, C25_count, C25_dispatch, C25_rank_range, C25_region_is_harmonic_sum, C25_too_many, C26_energy, C26_slepian_wavelets, C26_stable, C27_forward, C27_only_tight, C27_round_trip, C27_stable, C27_wavelets, C29_decomposition, C29_normalised, C29_orthogonal, C32_continent_mask, C32_gap_mask_symmetric, C32_lat_lon_mask, C32_mask_reloaded, C32_mask_shape, C32_polar_mask, C32_polar_mask_grows, C32_unknown_mask_rejected, C32_wrong_shape_rejected, C33_shannon_close, C33_shannon_lat_lon_range, C33_shannon_monotone, C33_shannon_polar_range, C35_column_swap, C35_parity, C35_racah, C35_reflection, C35_total, C35_zero_outside_selection, C37_circle_refuted, C37_error, C37_exact, C37_nearest, C42_earth_coefficients, C42_earth_prefix, C42_earth_reality, C42_earth_short_table, C43_other_ranks, C43_unit_vector, C45_gap_doubles_even_kills_odd, C46_wmap_prefix, C47_angles, C47_masked, C47_not_closed, C50_draws, C50_successive, C50_variance, C51_integral_of_one, C51_one_degree, C51_poles, C51_weights, C53_dirac, C53_gaussian, C53_gaussian_zero, C53_harmonic_gaussian, C53_harmonic_gaussian_not_real, C53_squashed, C59_closed, C59_no_upsampling, C59_region, C59_surface, C59_unit, C59_unknown_type, C59_values, C59_wrong_size, C60_fixed, C60_limits, C60_normalised, C61_max_amplitude, C61_noise_amplitude, C61_spin_refuted, C63_convolve, C63_convolve_slepian, C63_figure, C63_reality, C63_rotate, C63_rotate_slepian, C63_slepian_earth_refuted, C63_slepian_figure, C63_translate, C63_translate_delta, C63_translate_slepian, C63_view, C64_annotations_refuted, C64_identified, C64_same_figure, C66_rotation, C68_degrees, C68_orders, C70_first_run_refuted, C70_slepian_places, C75_coefficients, C75_meridian, C75_rank, C75_real_part, C76_ricker, C77_error_region, C77_errors, C77_sparsity, C78_exact, C78_matrix, C81_mesh_files, C81_mesh_published, C81_torn_refuted, C82_eigen, C82_kernel, C82_laplacian, C82_mesh, C82_refined_energy, C82_singular_refuted, C82_unknown, C82_upsample, C83_numbers, C83_similar, C83_split_refuted, C83_triangles, C85_extremes, C85_field, C85_gap, C85_idempotent_refuted, C85_linear, C85_multiples, C85_refusals, C85_result, C85_split, C85_truncation, C87_axisymmetric, C87_axisymmetric_band, C87_generators.

### `ClassicalDedekindReals.sig_forall_dec`, `Classical_Prop.classic`, `FunctionalExtensionality.functional_extensionality_dep`

C79_approximation, C79_complement, C79_grows, C79_rank, C79_shannon, C79_unique, C83_lossy.

### `ClassicalDedekindReals.sig_forall_dec`, `ClassicalDedekindReals.sig_not_dec`, `Classical_Prop.classic`, `FunctionalExtensionality.functional_extensionality_dep`

C05_eigenvalues, C05_energy, C05_hermitian, C05_interleaved, C05_matrix, C05_schedule, C14_distinct_refuted, C20_deterministic, C20_noise_draws, C20_noise_field_real, C20_noise_reality, C21_achieved_snr, C21_add_noise, C21_expected_power, C21_mesh_noise, C21_monotone, C21_noise_power, C21_scaling, C21_sigma, C21_snr_exact, C22_slepian_zero_refuted, C25_sphere_is_harmonic_sum_refuted, C26_forward, C26_full_signal, C26_round_trip, C27_energy, C33_gap_area_refuted, C33_lat_lon_area, C33_polar_area, C34_symmetry, C34_table, C42_smoothing, C46_noise_prefix, C51_exactness_refuted, C52_added, C52_full_length_refuted, C52_identity_refuted, C52_noise, C53_elongated, C53_ridgelets, C53_ring, C54_coefficients, C54_index_error_refuted, C54_wrong_scale_refuted, C55_axisymmetric, C55_slepian, C55_textbook, C55_white, C57_add_noise, C57_noise, C57_sigma, C65_functions, C65_optimal, C65_shannon, C66_entry, C66_functions, C66_optimal, C66_orders, C66_shannon, C67_at_most_one_refuted, C67_functions, C67_optimal, C67_shannon, C68_legendre, C68_product, C69_coefficients, C69_default_africa_refuted, C69_default_region, C69_dirac, C69_earth_noise, C69_family, C69_map, C69_map_again, C69_map_land, C69_slepian_function, C69_slepian_map, C69_slepian_noise, C69_slepian_wavelets, C69_spin, C69_wavelets, C70_denoise_axisym, C70_denoise_axisym_all, C70_denoise_axisym_zero, C70_denoise_function, C70_denoise_slepian, C70_denoise_slepian_all, C70_denoise_slepian_refuted, C70_measured, C70_progressive_refuted, C70_slepian, C70_unbiased_refuted, C70_variance, C71_box, C71_box_functions, C71_cap_functions, C71_harmonics, C71_mask_functions, C71_orthonormal, C71_table, C72_basis_functions, C72_command, C72_command_first, C72_denoising, C72_denoising_demo, C72_denoising_zero, C72_field, C72_noise, C72_noise_field_refuted, C72_noised_wavelets_refuted, C72_slepian_field, C72_slepian_functions, C72_slepian_noise_field, C72_wavelet_coefficients, C72_wavelets, C73_box_answers, C73_box_determined, C73_box_unique, C73_cap_answers, C73_cap_determined, C73_cap_is_box, C73_cap_unique, C73_eigh, C73_eigh_real, C73_mask_answers, C73_mask_determined, C73_mask_unique, C74_box_grows, C74_box_in_cap, C74_cap_grows, C74_complement, C74_mask_grows, C74_mirrored, C74_turned, C75_eigenvalues, C75_ticks, C76_norms, C76_ricker_value, C76_symmetric, C77_error_sphere_refuted, C77_reconstruction, C77_tiling, C78_box, C78_cap, C78_mask, C79_answers, C79_rounded, C80_mesh_figure, C80_mesh_main, C80_sphere_figure, C80_sphere_main, C82_solvable, C83_basis, C83_lowest, C83_slepian, C84_box, C84_box_coefficient, C84_box_grows, C84_cap, C84_cap_coefficient, C84_cap_grows, C84_identity, C84_mask, C84_positive, C86_area, C86_band_limited, C86_box, C86_cap, C86_shannon, C86_sphere, C86_two_caps, C87_mesh, C87_scales, C87_slepian.
