{"id": "C01", "title": "Work splitting is an exact partition", "statement": "Splitting a range of n work items over ncpu workers returns exactly ncpu chunks; every index 0..n-1 occurs in exactly one chunk exactly once, no other index occurs, every chunk is strictly increasing, and chunk sizes differ by at most one.", "quantifier": "every n >= 0 and every ncpu >= 1", "why_tests_cant": "A test fixes a few (n, ncpu) pairs; losing or duplicating an index depends on the parity of n and on n mod ncpu, so only a proof covers all pairs.", "anchors": ["src/sleplet/_parallel_methods.py:split_arr_into_chunks"]}
{"id": "C02", "title": "Polar-cap matrix is independent of thread scheduling", "statement": "For every number of workers and every interleaving of the worker threads' element reads and writes, the order-m polar-cap matrix that is retrieved from shared memory equals the matrix defined entry by entry by the closed formula, is fully populated and is symmetric.", "quantifier": "every L, every order, every cap, every ncpu >= 1, every interleaving of the worker threads", "why_tests_cant": "The schedule is chosen by the operating system; a test observes a handful of the exponentially many interleavings.", "anchors": ["src/sleplet/slepian/slepian_polar_cap.py:SlepianPolarCap._create_Dm_matrix", "src/sleplet/slepian/slepian_polar_cap.py:SlepianPolarCap._dm_matrix_helper"]}
{"id": "C03", "title": "Arbitrary-region matrix is independent of thread scheduling and of its shortcut", "statement": "For every interleaving of the workers, including races on the shared table of cached harmonic fields, the matrix obtained after the Hermitian completion has at every entry (a,b) the masked weighted inner product of harmonics a and b; the conjugation shortcut for order-zero columns never leaves a lower-triangle entry unwritten or wrong.", "quantifier": "every L, mask, weight, ncpu >= 1, every interleaving", "why_tests_cant": "Races on the memo table and stray writes above the diagonal depend on the schedule and on the index pattern of all (l,m) pairs.", "anchors": ["src/sleplet/slepian/slepian_arbitrary.py:SlepianArbitrary._create_D_matrix", "src/sleplet/slepian/slepian_arbitrary.py:SlepianArbitrary._matrix_helper", "src/sleplet/slepian/slepian_arbitrary.py:SlepianArbitrary._integral"]}
{"id": "C04", "title": "Mesh Slepian matrix is independent of thread scheduling", "statement": "For every interleaving of the worker threads the mesh concentration matrix after completion is the symmetric Gram matrix of the basis functions restricted to the region.", "quantifier": "every mesh, region, basis count, ncpu >= 1, every interleaving", "why_tests_cant": "Schedules cannot be enumerated by tests.", "anchors": ["src/sleplet/meshes/mesh_slepian.py:MeshSlepian._create_D_matrix", "src/sleplet/meshes/mesh_slepian.py:MeshSlepian._fill_D_elements"]}
{"id": "C05", "title": "Latitude-longitude matrix equals the region overlap integrals", "statement": "For every latitude-longitude box the Slepian matrix entry for (l,m),(p,q) with p <= l equals the double integral over the box of Y_lm times the conjugate of Y_pq with the spherical area element, where Y is the Fourier-Wigner form built from the supplied Wigner-d table.", "quantifier": "every L, every real box bounds, every real Wigner table, all index pairs of the computed triangle", "why_tests_cant": "Tests compare a few matrices numerically with a tolerance; the special columns +-1 and the mirrored half of the table must be right for all indices and all bounds.", "anchors": ["src/sleplet/slepian/slepian_limit_lat_lon.py:SlepianLimitLatLon._slepian_integral", "src/sleplet/slepian/slepian_limit_lat_lon.py:SlepianLimitLatLon._slepian_matrix"]}
{"id": "C06", "title": "A failing worker must not yield a silently wrong matrix", "statement": "If a worker thread raises, constructing the Slepian object should raise. (Expected by a user; the code never consumes the results of the executor, so this is examined as a refutation.)", "quantifier": "every worker, every failure point, every interleaving", "why_tests_cant": "Requires injecting a failure at an arbitrary instruction of an arbitrary worker.", "anchors": ["src/sleplet/slepian/slepian_polar_cap.py:SlepianPolarCap._create_Dm_matrix", "src/sleplet/slepian/slepian_arbitrary.py:SlepianArbitrary._create_D_matrix", "src/sleplet/meshes/mesh_slepian.py:MeshSlepian._create_D_matrix"]}
{"id": "C07", "title": "Shared memory protocol is safe under every schedule", "statement": "During the parallel matrix construction no thread accesses a shared block through a closed mapping, no thread attaches after the block was released, the parent reads the block only after all workers finished, and when all workers succeed every mapping is closed and the block is released exactly once.", "quantifier": "every number of workers and blocks, every interleaving, every worker failure point", "why_tests_cant": "Use-after-close crashes only under particular interleavings.", "anchors": ["src/sleplet/_parallel_methods.py:create_shared_memory_array", "src/sleplet/_parallel_methods.py:attach_to_shared_memory_block", "src/sleplet/_parallel_methods.py:free_shared_memory", "src/sleplet/_parallel_methods.py:release_shared_memory"]}
{"id": "C08", "title": "Region classification is total, exclusive and follows the documented precedence", "statement": "For accepted angles a Region is a polar cap exactly when only theta_max differs from its default, a latitude-longitude region exactly when some other angle differs from its default, an arbitrary region exactly when all four angles are default and a mask name is given, and construction raises AttributeError exactly when all angles are default and no mask is given.", "quantifier": "every quadruple of accepted angles and every mask name", "why_tests_cant": "The four angles are real numbers; tests cover isolated combinations of defaults.", "anchors": ["src/sleplet/slepian/region.py:Region._identify_region", "src/sleplet/_bool_methods.py:is_polar_cap", "src/sleplet/_bool_methods.py:is_limited_lat_lon"]}
{"id": "C09", "title": "Region angle validation", "statement": "Constructing a Region raises ValueError exactly when some angle is outside its closed interval ([0,2pi] for phi, [0,pi] for theta). Users also expect an accepted latitude-longitude region to be non-empty; this is examined and refuted because min > max is accepted and gives an empty mask and, for one reversed pair, a negative area.", "quantifier": "every quadruple of real angles", "why_tests_cant": "Boundary behaviour over all reals, and absence of a cross-check between fields.", "anchors": ["src/sleplet/slepian/region.py:Region._check_phi_max", "src/sleplet/slepian/region.py:Region._check_phi_min", "src/sleplet/slepian/region.py:Region._check_theta_max", "src/sleplet/slepian/region.py:Region._check_theta_min"]}
{"id": "C10", "title": "Solver choice reproduces the requested region", "statement": "For every accepted Region the solver picked for it re-creates a Region with the same type, the same angles, the same gap flag when polar, and the same mask name when arbitrary; theta_max = 0 caps are rejected by the polar solver.", "quantifier": "every accepted Region", "why_tests_cant": "Re-classification inside the solver must agree for every real-valued input.", "anchors": ["src/sleplet/slepian_methods.py:choose_slepian_method", "src/sleplet/slepian/slepian_polar_cap.py:SlepianPolarCap._create_region", "src/sleplet/slepian/slepian_limit_lat_lon.py:SlepianLimitLatLon._create_region", "src/sleplet/slepian/slepian_arbitrary.py:SlepianArbitrary._create_region"]}
{"id": "C11", "title": "Eigenvalues do not depend on the construction history", "statement": "Starting from an empty data directory, after any sequence of Slepian constructions (with arbitrary crashes between file writes) whose regions do not share cache file names, constructing a region returns the eigenvalues that a construction from scratch would return.", "quantifier": "every history of constructions and crash points, every later construction", "why_tests_cant": "Requires all histories and crash points.", "anchors": ["src/sleplet/slepian/slepian_polar_cap.py:SlepianPolarCap._solve_eigenproblem", "src/sleplet/slepian/slepian_limit_lat_lon.py:SlepianLimitLatLon._solve_eigenproblem", "src/sleplet/slepian/slepian_arbitrary.py:SlepianArbitrary._solve_eigenproblem", "src/sleplet/_data/setup_pooch.py:find_on_pooch_then_local"]}
{"id": "C12", "title": "Eigenvectors do not depend on the construction history", "statement": "The eigenvectors returned by a construction equal those of a construction from scratch after any history. (True for the ranks below the Shannon number; refuted for the full array because only the first N eigenvectors are written to the cache.)", "quantifier": "every history, every region and bandlimit, every rank", "why_tests_cant": "The difference only appears on the second construction and for ranks at or above N.", "anchors": ["src/sleplet/slepian/slepian_polar_cap.py:SlepianPolarCap._solve_eigenproblem_from_scratch", "src/sleplet/slepian/slepian_limit_lat_lon.py:SlepianLimitLatLon._solve_eigenproblem", "src/sleplet/slepian/slepian_arbitrary.py:SlepianArbitrary._solve_D_matrix", "src/sleplet/meshes/mesh_slepian.py:MeshSlepian._compute_slepian_functions_from_scratch"]}
{"id": "C13", "title": "A crash between cache writes is recovered from", "statement": "If any number of constructions are interrupted between whole-file writes, the next construction succeeds, returns the from-scratch eigenvalues, and leaves a complete cache. Refuted inside a write: a torn file makes every later construction raise ValueError, and a concurrent process can see another's half-written file.", "quantifier": "every interleaving of any number of processes, every crash point, every region", "why_tests_cant": "Crash points have to be enumerated over all histories.", "anchors": ["src/sleplet/slepian/slepian_polar_cap.py:SlepianPolarCap._solve_eigenproblem", "src/sleplet/slepian/slepian_limit_lat_lon.py:SlepianLimitLatLon._solve_eigenproblem", "src/sleplet/meshes/mesh_slepian.py:MeshSlepian._compute_slepian_functions"]}
{"id": "C14", "title": "Distinct regions use distinct cache files", "statement": "Two different regions never share a cache file name. (True for whole-degree angles; refuted in general: the name holds angles rounded to whole degrees and the rounded Shannon number only.)", "quantifier": "every pair of accepted regions and bandlimits", "why_tests_cant": "Collisions need specific pairs of nearby angles.", "anchors": ["src/sleplet/slepian/region.py:Region._identify_region", "src/sleplet/slepian/slepian_polar_cap.py:SlepianPolarCap._create_matrix_location", "src/sleplet/slepian/slepian_limit_lat_lon.py:SlepianLimitLatLon._create_matrix_location", "src/sleplet/_string_methods.py:angle_as_degree"]}
{"id": "C15", "title": "Selecting one order gives the same answer cached or fresh", "statement": "Asking for a single order m of a polar cap returns the same eigenvalues and eigenvectors, in descending order, whether the cap was cached by an all-orders run or not, as long as all eigenvectors are in the cache (L <= 16). Refuted above: with a truncated cache the request raises IndexError exactly when one of its functions has rank N or more; an array of orders is ignored by a fresh computation but used with a cache.", "quantifier": "every L, every order, every spectrum with distinct eigenvalues inside one order", "why_tests_cant": "Needs every spectrum and every merge of the per-order spectra.", "anchors": ["src/sleplet/slepian/slepian_polar_cap.py:SlepianPolarCap._solve_eigenproblem_from_files", "src/sleplet/slepian/slepian_polar_cap.py:SlepianPolarCap._solve_eigenproblem_from_scratch", "src/sleplet/slepian/slepian_polar_cap.py:SlepianPolarCap._sort_all_evals_and_evecs"]}
{"id": "C16", "title": "Eigenpairs are returned sorted, paired, orthonormal and still eigenpairs", "statement": "Given an exact Hermitian eigendecomposition, the eigenvalues exposed by every Slepian solver are in non-increasing order, are a permutation of the input eigenvalues, row p of the eigenvectors is (up to conjugation) an eigenvector for eigenvalue p, and the rows are orthonormal; the sign and i factors do not break this.", "quantifier": "every matrix size and every exact eigendecomposition, including repeated eigenvalues", "why_tests_cant": "Argsort with ties, sign fixing and the i factor interact for arbitrary spectra.", "anchors": ["src/sleplet/slepian/slepian_polar_cap.py:SlepianPolarCap._clean_evals_and_evecs", "src/sleplet/slepian/slepian_limit_lat_lon.py:SlepianLimitLatLon._clean_evals_and_evecs", "src/sleplet/_slepian_arbitrary_methods.py:clean_evals_and_evecs", "src/sleplet/meshes/mesh_slepian.py:MeshSlepian._clean_evals_and_evecs"]}
{"id": "C17", "title": "Polar-cap eigenvectors live in the right harmonic slots", "statement": "Every eigenvector returned for order m is zero outside the coefficients of order m, carries the block eigenvector at degrees |m|..L-1 in increasing degree, the all-orders result has exactly L^2 rows, all rows together are orthonormal, and the returned order array tells the order of each row.", "quantifier": "every L >= 1 and every order", "why_tests_cant": "Boolean-mask scatter must line up for every L and m.", "anchors": ["src/sleplet/slepian/slepian_polar_cap.py:SlepianPolarCap._clean_evals_and_evecs", "src/sleplet/slepian/slepian_polar_cap.py:SlepianPolarCap._solve_eigenproblem_from_scratch", "src/sleplet/harmonic_methods.py:_create_emm_vector"]}
{"id": "C18", "title": "Hermitian completion", "statement": "Completing a matrix keeps the diagonal and lower triangle, sets every upper entry to the conjugate of its mirror image, is idempotent, ignores what the upper triangle held before, and yields a Hermitian matrix exactly when the diagonal is real.", "quantifier": "every square matrix of every size", "why_tests_cant": "Universal over sizes and contents.", "anchors": ["src/sleplet/_array_methods.py:fill_upper_triangle_of_hermitian_matrix"]}
{"id": "C19", "title": "Harmonic index bijection and order vector", "statement": "(l,m) -> l^2+l+m is a bijection between degree/order pairs below bandlimit L and 0..L^2-1; the order vector holds at each index the order of that index; exactly L-|m| indices below L^2 have order m.", "quantifier": "every L, l, m", "why_tests_cant": "Unbounded integers.", "anchors": ["src/sleplet/harmonic_methods.py:_create_emm_vector", "src/sleplet/harmonic_methods.py:_create_spherical_harmonic"]}
{"id": "C20", "title": "Generated noise and CMB fields are real fields and deterministic", "statement": "The harmonic coefficients produced by the noise generator and by the CMB simulation satisfy the reality condition f(l,-m) = (-1)^m conj f(l,m) for all l,m, have real m = 0 entries, every coefficient is assigned, and two calls with the same arguments return the same array.", "quantifier": "every L, signal, SNR and every sequence of random draws", "why_tests_cant": "All L and all random streams.", "anchors": ["src/sleplet/noise.py:_create_noise", "src/sleplet/_data/create_wmap_flm.py:create_flm"]}
{"id": "C21", "title": "Noise level matches the requested signal-to-noise", "statement": "The noise standard deviation is such that noise of exactly that power per coefficient has the requested SNR in dB; scaling the signal scales the noise; adding noise to a function keeps the unnoised coefficients and noisy = unnoised + noise.", "quantifier": "every non-zero signal of every length, every SNR", "why_tests_cant": "Real-valued identity over all signals.", "anchors": ["src/sleplet/noise.py:compute_snr", "src/sleplet/noise.py:compute_sigma_noise", "src/sleplet/functions/flm.py:Flm._add_noise_to_signal"]}
{"id": "C22", "title": "Hard thresholding", "statement": "Hard thresholding keeps every value whose magnitude is at least n_sigma*sigma unchanged and sets every other value to zero, never increases the magnitude anywhere, and is idempotent; the harmonic version leaves the scaling coefficients untouched, and the wavelet versions change the array passed by the caller.", "quantifier": "every field, threshold and number of scales", "why_tests_cant": "Universal over arrays; aliasing is invisible when only the return value is checked.", "anchors": ["src/sleplet/noise.py:_perform_hard_thresholding", "src/sleplet/noise.py:harmonic_hard_thresholding", "src/sleplet/noise.py:slepian_wavelet_hard_thresholding"]}
{"id": "C23", "title": "Sifting convolution algebra", "statement": "The sifting convolution returns the first N entries of f times conj g, is linear in f and conjugate-linear in g, has the all-ones vector as right unit, swapping the arguments conjugates the result, and truncation commutes with it; with a two-dimensional f every row is convolved with g.", "quantifier": "every pair of coefficient arrays of equal length, every Shannon number", "why_tests_cant": "Algebraic laws over all arrays.", "anchors": ["src/sleplet/_convolution_methods.py:sifting_convolution", "src/sleplet/functions/coefficients.py:Coefficients.convolve"]}
{"id": "C24", "title": "Slepian forward/inverse transforms", "statement": "With orthonormal Slepian functions the Slepian coefficients of any signal synthesised from N Slepian coefficients are those coefficients (forward after inverse is the identity), all L^2 coefficients preserve the signal energy, and N coefficients never exceed it.", "quantifier": "every L, every orthonormal Slepian basis, every signal", "why_tests_cant": "Universal over bases and signals.", "anchors": ["src/sleplet/slepian_methods.py:slepian_inverse", "src/sleplet/slepian_methods.py:slepian_forward", "src/sleplet/slepian/_slepian_decomposition.py:SlepianDecomposition._harmonic_sum"]}
{"id": "C25", "title": "Decomposition dispatch and rank checks", "statement": "The forward transform uses the harmonic sum whenever harmonic coefficients are given, otherwise integrates over the sphere without mask and over the region with mask, and raises RuntimeError when neither is given; it returns exactly n_coeffs values or raises, and a rank below zero or at or above L^2 (number of basis functions on a mesh) raises ValueError.", "quantifier": "every combination of optional inputs, every n_coeffs", "why_tests_cant": "All combinations with all ranks.", "anchors": ["src/sleplet/slepian/_slepian_decomposition.py:SlepianDecomposition._detect_method", "src/sleplet/slepian/_slepian_decomposition.py:SlepianDecomposition.decompose_all", "src/sleplet/meshes/_mesh_slepian_decomposition.py:MeshSlepianDecomposition._detect_method"]}
{"id": "C26", "title": "Slepian wavelet transform round trip", "statement": "When the wavelets satisfy the admissibility condition (squared generators sum to one at each rank below N) and the scales whose coefficients vanish are the last ones, the wavelet inverse of the wavelet forward transform returns the first N coefficients. In general (a vanishing scale before a non-vanishing one) the round trip is refuted because rows are dropped but re-paired by position. Changing the wavelet coefficients changes the reconstruction by no more than their own change.", "quantifier": "every signal, every admissible wavelet family, every N", "why_tests_cant": "The failure needs a signal whose coefficients vanish exactly on a middle scale.", "anchors": ["src/sleplet/wavelet_methods.py:slepian_wavelet_forward", "src/sleplet/wavelet_methods.py:slepian_wavelet_inverse", "src/sleplet/wavelet_methods.py:find_non_zero_wavelet_coefficients"]}
{"id": "C27", "title": "Axisymmetric wavelet transform round trip", "statement": "For generators whose squared moduli sum to one at each degree, the axisymmetric wavelet inverse of the forward transform returns the harmonic coefficients exactly. The energies of the scales on the sphere add up to the energy of the signal; the condition on the generators is necessary; changing the wavelet coefficients changes the reconstruction by no more than their own change.", "quantifier": "every L, every admissible generator family, every signal", "why_tests_cant": "Universal over signals and bandlimits.", "anchors": ["src/sleplet/wavelet_methods.py:axisymmetric_wavelet_forward", "src/sleplet/wavelet_methods.py:axisymmetric_wavelet_inverse", "src/sleplet/wavelet_methods.py:_create_axisymmetric_wavelets"]}
{"id": "C28", "title": "Mesh transforms", "statement": "With orthonormal mesh basis functions, mesh forward after mesh inverse is the identity on coefficients, the mesh inverse after forward is the orthogonal projection onto the span of the basis, and the three Slepian decomposition methods on the mesh agree on signals in the span of the Slepian functions.", "quantifier": "every mesh, every orthonormal basis, every coefficient vector", "why_tests_cant": "Universal over meshes and signals.", "anchors": ["src/sleplet/harmonic_methods.py:mesh_forward", "src/sleplet/harmonic_methods.py:mesh_inverse", "src/sleplet/meshes/_mesh_slepian_decomposition.py:MeshSlepianDecomposition"]}
{"id": "C29", "title": "Mesh basis functions come out normalised", "statement": "After normalisation every basis function has unit sum of squares, is a positive multiple of the input, and an orthogonal family becomes orthonormal; a non-orthogonal family does not become orthogonal (the step only rescales, contrary to its name).", "quantifier": "every family of non-zero functions on every mesh", "why_tests_cant": "Universal over families.", "anchors": ["src/sleplet/_mesh_methods.py:_orthonormalise_basis_functions"]}
{"id": "C30", "title": "Mesh regions on vertices and faces", "statement": "A vertex is in the region exactly when its three coordinates are inside the configured box; a face is marked exactly when all its vertices are in the region.", "quantifier": "every mesh and every box", "why_tests_cant": "Universal over meshes.", "anchors": ["src/sleplet/_mesh_methods.py:create_mesh_region", "src/sleplet/_mask_methods.py:convert_region_on_vertices_to_faces"]}
{"id": "C31", "title": "Resolution boosting", "statement": "Boosting keeps all coefficients at their (l,m) positions, pads with zeros to resolution^2 entries, is transitive, and raises ValueError when the target resolution is below the bandlimit.", "quantifier": "every coefficient array and resolution", "why_tests_cant": "Universal over sizes.", "anchors": ["src/sleplet/harmonic_methods.py:_boost_coefficient_resolution", "src/sleplet/harmonic_methods.py:invert_flm_boosted"]}
{"id": "C32", "title": "Sphere masks", "statement": "A sample is in a polar mask exactly when its colatitude is at most theta_max (or at least pi-theta_max with a gap), in a latitude-longitude mask exactly when inside the closed box; the polar mask grows with theta_max, and the gap mask is symmetric under theta -> pi - theta.", "quantifier": "every region and every sampling grid", "why_tests_cant": "Universal over regions and grids.", "anchors": ["src/sleplet/_mask_methods.py:create_mask_region"]}
{"id": "C33", "title": "Area and Shannon number", "statement": "The area used for a polar cap and for a latitude-longitude box is the surface integral over the region, so the Shannon number is within one half of area*L^2/(4 pi) and lies in 0..L^2 for caps and for ordered boxes. For a double polar cap this is refuted: the area counts one cap only.", "quantifier": "every accepted region and bandlimit", "why_tests_cant": "Real-analytic statement over all angles.", "anchors": ["src/sleplet/slepian/slepian_polar_cap.py:SlepianPolarCap._calculate_area", "src/sleplet/slepian/slepian_limit_lat_lon.py:SlepianLimitLatLon._calculate_area", "src/sleplet/slepian/slepian_functions.py:SlepianFunctions.__post_init__"]}
{"id": "C34", "title": "Sub-integral table", "statement": "Every cell of the sub-integral table of a latitude-longitude box is written, equals the product of the integral of exp(i row phi) over the longitudes and of sin(theta) exp(i col theta) over the colatitudes (including columns +-1), and the table has conjugate point symmetry about its centre.", "quantifier": "every L, every real bounds, every cell", "why_tests_cant": "Analytic identity at all cells and bounds.", "anchors": ["src/sleplet/slepian/slepian_limit_lat_lon.py:SlepianLimitLatLon._slepian_integral"]}
{"id": "C35", "title": "Wigner 3j evaluation is well defined and symmetric", "statement": "For integer arguments the Wigner 3j routine never evaluates a factorial of a negative number, is zero exactly outside the selection rules or where its Racah sum vanishes, satisfies the column-swap, reflection and parity symmetries, and equals the Racah formula.", "quantifier": "all integer degrees >= 0 and all integer orders", "why_tests_cant": "Unbounded integers; alternating sums of factorials.", "anchors": ["src/sleplet/slepian/slepian_polar_cap.py:SlepianPolarCap._wigner3j"]}
{"id": "C36", "title": "Plot resolution", "statement": "The plot resolution is L times a power of two, is at least L, equals L from 1024 on; it is not monotone in L (refuted monotonicity).", "quantifier": "every L >= 1", "why_tests_cant": "All L; non-monotone points are isolated.", "anchors": ["src/sleplet/plot_methods.py:calc_plot_resolution"]}
{"id": "C37", "title": "Nearest grid point", "statement": "The grid point chosen for a translation is a grid sample whose distance to the requested angle is minimal among all samples, the first such sample in case of ties.", "quantifier": "every grid and every requested angle", "why_tests_cant": "Universal over grids and reals.", "anchors": ["src/sleplet/plot_methods.py:_calc_nearest_grid_point"]}
{"id": "C38", "title": "Plot normalisation", "statement": "Normalised non-constant data span exactly [0,1], constant positive data become 1, zero data become 0.5, and the result is order preserving. (Refuted for data that are nearly constant: the near-constant branch divides by the maximum, which can leave [0,1] and reverses order for negative data.)", "quantifier": "every non-empty array of reals", "why_tests_cant": "The near-constant branch is reached only by special arrays.", "anchors": ["src/sleplet/plot_methods.py:_normalise_function"]}
{"id": "C39", "title": "File names distinguish parameters", "statement": "File name fragments for angles and arguments are injective on the values they encode. (True for rotation angles as fractions of pi; refuted for arguments of magnitude at least one, where the denominator is dropped.)", "quantifier": "every pair of rational parameter values", "why_tests_cant": "Collisions need specific pairs.", "anchors": ["src/sleplet/_string_methods.py:filename_args", "src/sleplet/_string_methods.py:filename_angle", "src/sleplet/_string_methods.py:_pi_in_filename"]}
{"id": "C40", "title": "Command line names resolve to the right class", "statement": "The snake-case names offered on the command line are pairwise distinct, and looking a name up returns the class it was generated from; the conversion is injective on identifiers in camel case and its result is lower case.", "quantifier": "every class of the lists, every identifier", "why_tests_cant": "Injectivity over all identifiers.", "anchors": ["src/sleplet/_string_methods.py:_convert_camel_case_to_snake_case", "src/sleplet/_string_methods.py:convert_classes_list_to_snake_case", "src/sleplet/_class_lists.py"]}
{"id": "C41", "title": "Constructor argument checks", "statement": "For every coefficient class a list of extra arguments of the wrong length is rejected, the right length assigns the arguments to the documented parameters, and degree/order/scale parameters outside their documented range are rejected, so that an accepted object always addresses an existing coefficient.", "quantifier": "every argument list", "why_tests_cant": "All lengths and integers.", "anchors": ["src/sleplet/functions/spherical_harmonic.py:SphericalHarmonic", "src/sleplet/functions/axisymmetric_wavelets.py:AxisymmetricWavelets", "src/sleplet/functions/slepian.py:Slepian", "src/sleplet/meshes/mesh_basis_functions.py:MeshBasisFunctions"]}
{"id": "C42", "title": "Earth topography coefficients are a truncated real field", "statement": "The Earth coefficients returned for bandlimit L are the conjugated first L^2 stored coefficients with negative orders filled in by the reality condition; the result for a smaller bandlimit is a prefix of the result for a larger one.", "quantifier": "every stored table, every L", "why_tests_cant": "Universal over L and data.", "anchors": ["src/sleplet/_data/create_earth_flm.py:create_flm"]}
{"id": "C43", "title": "Slepian function object has unit-vector coefficients", "statement": "The coefficients of the Slepian function of rank p < N are 1 at p and 0 elsewhere, and all zero for p >= N.", "quantifier": "every orthonormal basis, every rank", "why_tests_cant": "Universal over regions.", "anchors": ["src/sleplet/functions/slepian.py:Slepian._create_coefficients"]}
{"id": "C44", "title": "Translation is sifting", "statement": "Translating a function to (alpha,beta) multiplies each coefficient by the basis function value at that point; translating the Dirac delta gives the conjugate basis values, and evaluating a sifted convolution against the translated delta returns the signal coefficients times basis values.", "quantifier": "every L, function and grid point", "why_tests_cant": "Universal over functions.", "anchors": ["src/sleplet/functions/coefficients.py:Coefficients.translate", "src/sleplet/functions/flm.py:Flm._translation_helper", "src/sleplet/functions/fp.py:Fp._translation_helper"]}
{"id": "C45", "title": "Polar gap factor", "statement": "With a polar gap the matrix entry for degrees l,p is doubled when l+p is even and zero when odd, which is the overlap over both caps; without a gap it is unchanged.", "quantifier": "every pair of degrees", "why_tests_cant": "Universal over degrees.", "anchors": ["src/sleplet/slepian/slepian_polar_cap.py:SlepianPolarCap._polar_gap_modification"]}
{"id": "C46", "title": "Random fields are consistent across bandlimits", "statement": "The simulated CMB coefficients for bandlimit L are a prefix of those for any larger bandlimit, and noise for bandlimit L is, up to the ratio of standard deviations, a prefix of the noise for a larger bandlimit.", "quantifier": "every pair L <= L', every random stream", "why_tests_cant": "All pairs of bandlimits.", "anchors": ["src/sleplet/_data/create_wmap_flm.py:create_flm", "src/sleplet/noise.py:_create_noise"]}
{"id": "C47", "title": "Closed plots", "statement": "Masking a closed plot keeps values inside the region and replaces values outside by the unseen marker, and the extra last column is masked exactly like the first column.", "quantifier": "every region, field and grid", "why_tests_cant": "Universal over regions.", "anchors": ["src/sleplet/plot_methods.py:_set_outside_region_to_minimum"]}
{"id": "C48", "title": "Mesh Shannon number", "statement": "The mesh Shannon number is between 0 and the number of basis functions, equals it when the region is the whole mesh, is 0 for an empty region, and is monotone in the region.", "quantifier": "every non-empty mesh and region", "why_tests_cant": "Universal over meshes.", "anchors": ["src/sleplet/_slepian_arbitrary_methods.py:compute_mesh_shannon"]}
{"id": "C49", "title": "The sign convention makes eigenvectors canonical", "statement": "The eigenvectors exposed by a solver do not depend on the arbitrary sign the eigensolver gives to each vector. (True for latitude-longitude boxes, arbitrary regions and order 0 of a polar cap when the first component is non-zero; refuted for every other polar order, where the first slot is always zero and the sign rule does nothing.)", "quantifier": "every decomposition and every choice of signs", "why_tests_cant": "A test sees only the sign the installed LAPACK happens to choose.", "anchors": ["src/sleplet/slepian/slepian_polar_cap.py:SlepianPolarCap._clean_evals_and_evecs", "src/sleplet/slepian/slepian_limit_lat_lon.py:SlepianLimitLatLon._clean_evals_and_evecs", "src/sleplet/_slepian_arbitrary_methods.py:clean_evals_and_evecs"]}
{"id": "C50", "title": "Random signals have the requested variance", "statement": "A random signal for bandlimit L has L^2 coefficients, uses each draw of the caller's generator once (real parts first, then imaginary parts), advances the generator by 2 L^2 draws, and its expected power per coefficient is the requested variance whenever draws have unit second moment; two successive signals from the same generator use disjoint draws.", "quantifier": "every L, variance >= 0, generator state and ensemble of draws", "why_tests_cant": "A test sees one seed and one sample; the expectation and the disjointness of draws quantify over all streams.", "anchors": ["src/sleplet/harmonic_methods.py:compute_random_signal"]}
{"id": "C51", "title": "Quadrature weights of the sphere integrals", "statement": "The integration weight used for sphere integrals is non-negative and vanishes at the poles; on the sampling grid it integrates the constant 1 to (2 pi^2/L) cot(pi/(2L)), which is strictly below the exact area 4 pi for every L (refuting exactness), and is zero for L = 1.", "quantifier": "every L >= 1", "why_tests_cant": "Tests compare with tolerances at one L; the exact value and the strict deficit hold for every L.", "anchors": ["src/sleplet/_integration_methods.py:calc_integration_weight", "src/sleplet/_integration_methods.py:integrate_whole_sphere"]}
{"id": "C52", "title": "Noise on Slepian coefficients", "statement": "Noising a Slepian function with N coefficients adds, entry by entry, the N Slepian coefficients of a harmonic noise field scaled to the synthesised signal, and the energy of the added noise is at most that of the field. Functions that keep L^2 coefficients (Slepian wavelets, Dirac delta, identity) cannot be noised: for every 1 < N < L^2 the call raises ValueError (refuted: noise is accepted as a constructor argument of every Slepian function).", "quantifier": "every L, every orthonormal Slepian basis, every signal, every sequence of normal draws, every noise level", "why_tests_cant": "The tests noise only two Slepian signals of length N; the length mismatch depends on N and on the kind of coefficients, and the energy bound concerns every draw.", "anchors": ["src/sleplet/functions/fp.py:Fp._add_noise_to_signal", "src/sleplet/noise.py:_create_slepian_noise"]}
{"id": "C53", "title": "Closed-form coefficients and reality flags", "statement": "The Gaussian, harmonic Gaussian, Dirac delta, spherical harmonic and ridgelet ring coefficients are, at every (l,m), the closed forms documented for them; zero widths raise ZeroDivisionError; and a class that sets its reality flag produces coefficients with f(l,-m) = (-1)^m conj f(l,m). The last part is refuted for the identity, which is flagged real for every L >= 2 although its all-ones coefficients are not those of a real field.", "quantifier": "every bandlimit, every width, every spin, every degree and order", "why_tests_cant": "The tests check a handful of bandlimits and never compare the flag with the coefficients; the ring formula goes through log-gamma and needs the factorial identity at every degree.", "anchors": ["src/sleplet/functions/gaussian.py:Gaussian", "src/sleplet/functions/harmonic_gaussian.py:HarmonicGaussian", "src/sleplet/functions/identity.py:Identity", "src/sleplet/functions/dirac_delta.py:DiracDelta", "src/sleplet/functions/ridgelets.py:Ridgelets._compute_ring"]}
{"id": "C54", "title": "Selecting a wavelet scale", "statement": "A scale j accepted by the validator selects, from the wavelets, the generator of scale j (the scaling function when no scale is given); scales outside 0..j_max-j_min are rejected. From the Slepian wavelet coefficients it selects those of scale j when every scale up to j sees the signal. In general this is refuted: because rows of zero coefficients are dropped before indexing, an accepted scale can raise IndexError or return the coefficients of another scale.", "quantifier": "every wavelet family, every scale, every signal, every Shannon number", "why_tests_cant": "The tests build the classes with the default scale only; the misalignment depends on which scales vanish below the Shannon number, i.e. on region, bandlimit and signal.", "anchors": ["src/sleplet/functions/slepian_wavelet_coefficients_africa.py:SlepianWaveletCoefficientsAfrica._create_coefficients", "src/sleplet/functions/slepian_wavelets.py:SlepianWavelets._check_j", "src/sleplet/wavelet_methods.py:find_non_zero_wavelet_coefficients", "src/sleplet/wavelet_methods.py:create_kappas"]}
{"id": "C55", "title": "Noise level of a wavelet scale", "statement": "The noise added to a signal is white: any linear form in it has mean square sigma^2 times the squared norm of the form. Hence the sigma_j used for denoising is the standard deviation, at every point of the sphere, of the field of the jth wavelet coefficients of the noise (for any harmonics obeying the addition theorem, and in particular for the textbook ones), and in Slepian space the pixelwise sigma_j is the standard deviation at that pixel.", "quantifier": "every bandlimit, signal, SNR, family of wavelets, point and ensemble of uncorrelated unit-variance streams", "why_tests_cant": "A statement about the average over random streams, whereas the code always uses one seed; tests can only compare one draw against a tolerance.", "anchors": ["src/sleplet/noise.py:_compute_sigma_j", "src/sleplet/noise.py:_compute_slepian_sigma_j", "src/sleplet/noise.py:_create_noise"]}
{"id": "C56", "title": "Mesh Slepian eigenvalues are energy concentrations", "statement": "On a mesh the eigenvalue of a Slepian function equals the part of its unit energy that lies in the region, so it is in [0, 1]; distinct Slepian functions are orthogonal over the region as well as over the mesh; the eigenvalues are optimal: a band-limited signal orthogonal to the first p functions has at most the fraction lambda_p of its energy in the region; the eigenvalues add up to the energy of the basis functions in the region, at most the number of vertices of the region.", "quantifier": "every mesh with an orthonormal basis, every region, every band-limited signal", "why_tests_cant": "Universal over meshes, regions and signals.", "anchors": ["src/sleplet/meshes/mesh_slepian.py:MeshSlepian", "src/sleplet/_integration_methods.py:integrate_region_mesh"]}
{"id": "C57", "title": "Denoising on meshes", "statement": "Slepian mesh thresholding replaces every row of the caller's array by the coefficients of its thresholded field, and with thresholds that are not positive leaves the array exactly as it was; Slepian mesh noise is white noise of the strength set by the signal analysed with the Slepian functions; the noise level computed for a scale is the standard deviation, at every vertex, of the field of the wavelet coefficients of that noise.", "quantifier": "every mesh, every array of coefficients, every noise ensemble with unit variance and no correlation", "why_tests_cant": "Universal over meshes and ensembles; the deviation is an average.", "anchors": ["src/sleplet/noise.py:slepian_mesh_hard_thresholding", "src/sleplet/noise.py:compute_slepian_mesh_sigma_j", "src/sleplet/noise.py:_create_slepian_mesh_noise"]}
{"id": "C58", "title": "Rank selection and fields on meshes", "statement": "A basis function of valid rank has the corresponding unit vector as coefficients, a Slepian function of rank below the Shannon number too; negative ranks and wrong numbers of arguments raise ValueError. Defects: the rank equal to the number of basis functions passes the check and raises IndexError, the keyword is not checked, MeshSlepianFunctions never validates, from rank N on the outcome depends on the cache, MeshNoiseField always raises AttributeError, and the region plays no role in MeshSlepianField.", "quantifier": "every mesh, every rank, every argument list", "why_tests_cant": "Universal over ranks and meshes.", "anchors": ["src/sleplet/meshes/mesh_basis_functions.py:MeshBasisFunctions", "src/sleplet/meshes/mesh_slepian_functions.py:MeshSlepianFunctions", "src/sleplet/meshes/mesh_noise_field.py:MeshNoiseField", "src/sleplet/meshes/mesh_slepian_field.py:MeshSlepianField"]}
{"id": "C59", "title": "A sphere plot shows the field where it belongs", "statement": "The figure has (M+1) x (2M+1) points on the unit sphere, M the plot resolution; the colour at colatitude i pi/M and longitude j pi/M is the chosen part (real, imaginary, absolute value, sum of real and imaginary) of the field synthesised from the coefficients there; the last column repeats the first, so the surface closes; outside the region the colour is the marker. Unknown plot types raise KeyError, fields of the wrong size AttributeError.", "quantifier": "every field, band limit, plot type, spin, region", "why_tests_cant": "Universal over fields and sizes; plotting tests only look at a few saved images.", "anchors": ["src/sleplet/plotting/_create_plot_sphere.py:PlotSphere.execute", "src/sleplet/plotting/_create_plot_sphere.py:PlotSphere._setup_plot", "src/sleplet/plotting/_create_plot_sphere.py:PlotSphere._prepare_field", "src/sleplet/plot_methods.py:_boost_field", "src/sleplet/plot_methods.py:_create_plot_type"]}
{"id": "C60", "title": "Colour limits cover the data and leave the marker outside", "statement": "Without normalisation and amplitude the limits are plus and minus the largest absolute value, which is attained; given an amplitude they are plus and minus it; normalised they are 0 and 1 and the marker lies below. On meshes the limits are those of the values on the vertices and every face colour lies between them. Defect: on meshes with data below -1e5 the marker for outside the region falls inside the limits.", "quantifier": "every field, mesh, amplitude, region", "why_tests_cant": "Universal over fields.", "anchors": ["src/sleplet/plotting/_create_plot_sphere.py:PlotSphere.execute", "src/sleplet/plotting/_create_plot_mesh.py:PlotMesh.execute", "src/sleplet/_plotly_methods.py:create_tick_mark", "src/sleplet/_plotly_methods.py:create_colour_bar"]}
{"id": "C61", "title": "Amplitudes for comparing noisy plots", "statement": "find_max_amplitude returns the colour limit the plot of the same function with the same plot type would choose by itself; the amplitude used for a noisy plot is the largest absolute value of the noise-free field, which bounds its real and imaginary parts. Defect: for functions with spin, find_max_amplitude transforms without spin and the limit differs from the plot's.", "quantifier": "every function and band limit", "why_tests_cant": "Universal over fields.", "anchors": ["src/sleplet/plot_methods.py:find_max_amplitude", "src/sleplet/plot_methods.py:compute_amplitude_for_noisy_sphere_plots", "src/sleplet/plot_methods.py:compute_amplitude_for_noisy_mesh_plots"]}
{"id": "C62", "title": "The name of a function identifies it", "statement": "Two functions on the same region (or on none) whose names are equal have the same class, fields, noise, smoothing and band limit, provided their numbers are whole or fractions below one that the name can represent; the name of a Slepian function tells its rank; the name of a mesh function tells its mesh, class and fields. The region's ending is added to harmonic functions other than the maps of South America and never a second time to Slepian functions. The substrings the code searches names for - earth and dirac_delta - occur in the names of exactly the classes meant. Defects: other numbers collide (3/2 and 3), and on meshes the region suffix is added to Slepian functions too, because the test reads the mesh's name.", "quantifier": "every pair of functions, parameters, regions, noise levels, smoothing factors and band limits", "why_tests_cant": "Injectivity over infinitely many parameters.", "anchors": ["src/sleplet/functions/coefficients.py:Coefficients._add_details_to_name", "src/sleplet/functions/slepian.py:Slepian._create_name", "src/sleplet/meshes/mesh_coefficients.py:MeshCoefficients._add_details_to_name", "src/sleplet/_string_methods.py:filename_args"]}
{"id": "C63", "title": "The plotting command shows the requested function", "statement": "For every function, option and choice, the figure that the plotting command draws has at each vertex the direction of its sample and the value there of: the function; the function rotated by the nearest grid angles; the function with every coefficient multiplied by the harmonic at the nearest grid point (translation); the map's coefficients times the conjugates of these (convolution); and for names containing 'earth' the result of a last rotation to the chosen view. Slepian functions are shown inside their region as the expansion in the first N Slepian functions. The reality flag handed to the transforms is only set when the coefficients are those of a real function.", "quantifier": "for all functions, bandlimits, coefficients, options of the command, and external transforms that evaluate and rotate the harmonics", "why_tests_cant": "the combinations of method, map, view, flags and resolutions are unbounded and the tests of the plotting command mock the figure", "anchors": ["src/sleplet/_scripts/plotting_on_sphere.py:174-352", "src/sleplet/functions/coefficients.py:75-124", "src/sleplet/functions/flm.py:23-38", "src/sleplet/functions/fp.py:41-62", "src/sleplet/harmonic_methods.py:176-213"]}
{"id": "C64", "title": "Figures of different plots have different file names", "statement": "Two plots of one function whose files have the same name were made with the same method, angles up to the rounding in names, convolved map, resolution, part shown and normalisation, and the same view of the Earth when the view matters; with angles of denominator at most a million the figures are equal.", "quantifier": "for all functions, maps, angles and options offered by the command", "why_tests_cant": "a collision of names needs two particular runs out of infinitely many", "anchors": ["src/sleplet/_scripts/plotting_on_sphere.py:174-352", "src/sleplet/plotting/_create_plot_sphere.py:51-61", "src/sleplet/_string_methods.py:38-79"]}
{"id": "C65", "title": "Slepian functions of a box are orthonormal, concentrated and optimal", "statement": "For every latitude-longitude box on the sphere and every band limit, computing the Slepian functions from scratch gives L^2 eigenvalues in descending order, each between 0 and 1, and L^2 functions that are orthonormal over the sphere and orthogonal over the box, where the energy of function p is eigenvalue p. No band-limited function orthogonal to the first p of them has a larger fraction of its energy in the box than eigenvalue p. The eigenvalues add up to the Shannon number before rounding.", "quantifier": "all boxes, band limits, orders of the parallel iterations, and all eigensolvers that return an orthonormal eigenbasis", "why_tests_cant": "Tests compare eigenvalues of a few fixed regions with stored arrays; optimality ranges over all band-limited functions.", "anchors": ["src/sleplet/slepian/slepian_limit_lat_lon.py:_solve_eigenproblem", "src/sleplet/slepian/slepian_limit_lat_lon.py:_create_K_matrix", "src/sleplet/slepian/slepian_functions.py:SlepianFunctions"]}
{"id": "C66", "title": "The polar-cap matrix holds overlaps of harmonics; its Slepian functions are orthonormal, concentrated and optimal", "statement": "For every schedule of the workers, entry (r, c) of the order-|m| matrix is the integral over the cap (or both caps of a gap) of Y_{|m|+r,m} times the conjugate of Y_{|m|+c,m}; harmonics of different orders do not overlap there, so solving order by order gives all Slepian functions of the region: L^2 functions, orthonormal on the sphere, orthogonal in the caps with the eigenvalue as energy, eigenvalues descending and between 0 and 1, no band-limited function orthogonal to the first p better concentrated than eigenvalue p. Rotating about the axis multiplies a function by a phase. The eigenvalues add up to the Shannon number before rounding for one cap, and to twice that for two caps, where the code halves the area.", "quantifier": "all band limits, cap sizes, one or two caps, schedules, worker counts, previous memory contents, eigensolvers returning an orthonormal eigenbasis", "why_tests_cant": "Tests compare one cap at one band limit with stored values; optimality ranges over all band-limited functions and the matrix over all schedules.", "anchors": ["src/sleplet/slepian/slepian_polar_cap.py:_create_Dm_matrix", "src/sleplet/slepian/slepian_polar_cap.py:_dm_matrix_helper", "src/sleplet/slepian/slepian_polar_cap.py:_solve_eigenproblem"]}
{"id": "C67", "title": "Slepian functions of an arbitrary region are orthonormal, concentrated and optimal at the samples", "statement": "For every mask and every schedule of the workers, computing the Slepian functions of an arbitrary region from scratch gives L^2 functions that are orthonormal on the sphere and orthogonal in the sum over the masked samples, weighted by the area of a sample, where the energy of function p is eigenvalue p; eigenvalues descend and are not negative. No band-limited function orthogonal to the first p has more than eigenvalue p times its energy at those samples. The eigenvalues add up to the area of the mask times L^2/(4 pi), whose rounding is the Shannon number. Being fractions of energy the eigenvalues should be at most 1; because the weights are not an exact quadrature they are not: for the mask that leaves out only the poles at L=2 the largest exceeds 1.", "quantifier": "all band limits, masks of the right shape, schedules, worker counts, previous memory contents, eigensolvers returning an orthonormal eigenbasis", "why_tests_cant": "Tests look at shapes and at one stored mask; optimality ranges over all band-limited functions, and the bound 1 fails only by half a percent.", "anchors": ["src/sleplet/slepian/slepian_arbitrary.py:_solve_D_matrix", "src/sleplet/slepian/slepian_arbitrary.py:_integral", "src/sleplet/slepian/slepian_arbitrary.py:_calculate_area", "src/sleplet/_integration_methods.py:calc_integration_weight"]}
{"id": "C68", "title": "The computed symbols are the Wigner 3j symbols", "statement": "The values _wigner3j computes satisfy the identities that define the Wigner 3j symbols up to sign: summed over orders, symbols of middle degrees n and n' are orthogonal with norm 1/(2n+1); summed over middle degrees with weight 2n+1, symbols of different orders are orthonormal; the integral of three Legendre polynomials is twice the square of the symbol with orders zero; the product of a harmonic and the conjugate of another of the same order is the sum of Legendre polynomials whose coefficients are the two symbols the polar-cap matrix multiplies.", "quantifier": "all degrees and orders; all colatitudes and longitudes", "why_tests_cant": "Tests never call the routine; a table of values would cover finitely many degrees.", "anchors": ["src/sleplet/slepian/slepian_polar_cap.py:SlepianPolarCap._wigner3j", "src/sleplet/slepian/slepian_polar_cap.py:SlepianPolarCap._dm_matrix_helper"]}
{"id": "C69", "title": "Creating a function gives the function its name promises", "statement": "Whatever the arguments, region, noise and smoothing, a harmonic function that is created has L^2 coefficients, and those of a real field when it is flagged real (Identity excepted). The map of a continent is the analysis of the smoothed topography, rotated so that the continent is at the pole, inside the mask of that continent and zero outside; without a mask file the mask is the unsmoothed land within 41 (Africa) or 40 degrees (South America), is saved, and creating the map again gives the same object. The Slepian coefficients of a map are its inner products with the Slepian functions, only for the region of that continent. The noise classes hold exactly what adding noise to the map adds. The wavelet-coefficient classes hold wavelets and coefficients that reconstruct the map. The Slepian Dirac delta sits at the greatest sample of the best concentrated function and picks the value of any signal there. Without a region the default one is used; the Africa classes then cannot be created unless the environment names the mask.", "quantifier": "all classes, band limits, arguments, regions, noise levels, smoothing factors, mask files on disk, topographies, solvers", "why_tests_cant": "Tests create each class once at one band limit with the files of the repository present and look at flags and shapes; they do not compare a map with its parts nor create it with and without its mask file.", "anchors": ["src/sleplet/functions/coefficients.py:Coefficients.__post_init__", "src/sleplet/functions/fp.py:Fp.__post_init__", "src/sleplet/functions/africa.py:Africa._grid_fun", "src/sleplet/functions/south_america.py:SouthAmerica._grid_fun", "src/sleplet/functions/slepian_dirac_delta.py:SlepianDiracDelta._compute_angles", "src/sleplet/functions/slepian_noise_africa.py:SlepianNoiseAfrica._create_coefficients", "src/sleplet/functions/slepian_wavelet_coefficients_africa.py:SlepianWaveletCoefficientsAfrica._create_wavelet_coefficients"]}
{"id": "C70", "title": "The demonstrations measure and reconstruct what they say", "statement": "In the covariance demonstrations the variance of the wavelet coefficients of random signals is the theoretical one at every scale, sample and run. What the scripts measure falls short: the variance over the samples of the sphere drops degree zero and is never above the theory, the variance over runs is low by the factor 1 - 1/runs, and the non-ergodic first scale is given the variance over the scales of the first run. Denoising leaves the scaling function alone, thresholds every other scale at n_sigma times its noise deviation and synthesises the result; a zero threshold returns the noised signal and its signal-to-noise ratio, and when every value is under its threshold only the scaling function (axisymmetric) or nothing (Slepian) remains. Scale by scale reconstruction adds one scale after the other and ends at the signal (this is false).", "quantifier": "all band limits, wavelets, signals, noise levels, thresholds, numbers of runs, random draws with unit variance and no correlation", "why_tests_cant": "The scripts are not run by the tests; they print the difference between measured and theoretical covariance without a bound, and random errors hide a bias.", "anchors": ["examples/wavelets/axisymmetric_wavelet_covariance.py:axisymmetric_wavelet_covariance", "examples/arbitrary/_slepian_wavelet_covariance.py:compute_slepian_wavelet_covariance", "examples/arbitrary/africa/slepian_wavelet_covariance_africa.py:main", "examples/arbitrary/africa/progressive_wavelet_reconstruction_africa.py:main", "examples/misc/_denoising_axisym.py:denoising_axisym", "examples/arbitrary/_denoising_slepian_wavelet.py:denoising_slepian_wavelet", "examples/arbitrary/south_america/denoising_slepian_functions_south_america.py:_denoising_slepian_function"]}
{"id": "C71", "title": "Wigner's table gives the textbook harmonics at every band limit", "statement": "With the values of Wigner's d-functions at pi/2 in the table dl, as ssht.generate_dl documents, the Fourier sum the box matrix is built on is the spherical harmonic of that degree and order at every point, so each matrix entry is the integral over the box of one spherical harmonic times the conjugate of another. Hence the functions the three sphere solvers return, written in spherical harmonics, are orthonormal on the sphere, orthogonal in the region, carry their eigenvalue as energy there, and no band-limited function orthogonal to the first p is concentrated better than eigenvalue p.", "quantifier": "all band limits, degrees, orders, points, boxes, caps, gaps, masks, schedules, decompositions", "why_tests_cant": "Tests compare solvers at band limits up to 16 with one another; they cannot show the identity for every degree nor optimality among all band-limited functions.", "anchors": ["src/sleplet/slepian/slepian_limit_lat_lon.py:SlepianLimitLatLon._create_K_matrix", "src/sleplet/slepian/slepian_limit_lat_lon.py:SlepianLimitLatLon._slepian_matrix", "src/sleplet/slepian/slepian_polar_cap.py:SlepianPolarCap._create_Dm_matrix", "src/sleplet/slepian/slepian_arbitrary.py:SlepianArbitrary._create_D_matrix"]}
{"id": "C72", "title": "Functions on a mesh are created and drawn as their class says", "statement": "Creating an object of any mesh class gives the coefficients of the thing it is named after: the basis function or Slepian function of the rank (its field is that function, zero from the Shannon number on), the normals analysed on the mesh or in Slepian space, decorrelated noise of the requested level, the wavelet generator of the scale, or the wavelet coefficients of the normals at the scales that see them. Noise is added with the level and the signal-to-noise ratio requested and changes nothing else. The mesh command shows the field of these coefficients averaged over the faces, for Slepian classes only inside the region, with colour limits taken from the field without noise. The region demonstration draws exactly the faces of the region; the denoising demonstration thresholds scale by scale and is the identity at threshold zero.", "quantifier": "all meshes, bases, Slepian functions, generators, ranks, scales, arguments, noise levels, thresholds", "why_tests_cant": "Tests create a few meshes that are shipped with the package and look at array shapes; the identities between coefficients, fields and colours hold for every mesh or fail for some that no test contains.", "anchors": ["src/sleplet/meshes/mesh_coefficients.py:MeshCoefficients.__post_init__", "src/sleplet/meshes/mesh_slepian_coefficients.py:MeshSlepianCoefficients._add_noise_to_signal", "src/sleplet/meshes/mesh_slepian_wavelet_coefficients.py:MeshSlepianWaveletCoefficients._create_coefficients", "src/sleplet/meshes/mesh_slepian_wavelets.py:MeshSlepianWavelets._create_wavelets", "src/sleplet/_scripts/plotting_on_mesh.py:main", "src/sleplet/plotting/_create_plot_mesh.py:PlotMesh.execute", "examples/mesh/mesh_region.py:main", "examples/mesh/denoising_slepian_mesh.py:_denoising_mesh_slepian"]}
{"id": "C73", "title": "The Slepian functions of a region do not depend on how they are computed", "statement": "The Hermitian eigenproblem that each solver hands to LAPACK has an orthonormal solution for every region and band limit, so the assumptions made about eigh can always be met. Any two correct eigensolvers, sorts, iteration orders and thread schedules give the same eigenvalues; the sum over the first N functions of S_p(x) times the conjugate of S_p(y) is the same whenever the N-th and (N+1)-th eigenvalues differ; a function with a simple eigenvalue is the same up to a phase. A polar cap solved as a cap and as a box over all longitudes gives the same eigenvalues and functions.", "quantifier": "all regions of the three kinds, band limits, eigensolvers, sorts, schedules, points", "why_tests_cant": "Tests run one LAPACK on one machine and compare against stored numbers; degenerate eigenvalues, for which eigenvectors are not unique, and other solvers or schedules are never compared.", "anchors": ["src/sleplet/slepian/slepian_limit_lat_lon.py:SlepianLimitLatLon._solve_eigenproblem", "src/sleplet/slepian/slepian_polar_cap.py:SlepianPolarCap._solve_eigenproblem", "src/sleplet/slepian/slepian_arbitrary.py:SlepianArbitrary._solve_eigenproblem"]}
{"id": "C74", "title": "Eigenvalues follow the geometry of the region", "statement": "Turning a box about the axis or mirroring it in the equator leaves its eigenvalues unchanged and moves its Slepian functions with it. The eigenvalues of the outside of a polar cap are one minus those of the cap in the opposite order, with the functions in the opposite order. Enlarging a box, cap, polar gap or mask, adding the mirror image of a cap, putting a box into a cap, or raising the band limit (boxes and caps) never lowers the p-th eigenvalue.", "quantifier": "all boxes, caps, gaps, masks, angles, band limits, ranks p, eigensolvers, sorts, schedules", "why_tests_cant": "Each test solves one region; relations between the spectra of two regions or band limits need both, for every pair.", "anchors": ["src/sleplet/slepian/slepian_limit_lat_lon.py:SlepianLimitLatLon._solve_eigenproblem", "src/sleplet/slepian/slepian_limit_lat_lon.py:SlepianLimitLatLon._slepian_integral", "src/sleplet/slepian/slepian_polar_cap.py:SlepianPolarCap._create_Dm_matrix", "src/sleplet/slepian/slepian_arbitrary.py:SlepianArbitrary._create_D_matrix"]}
{"id": "C75", "title": "Figures of Slepian functions and eigenvalues show what their axes say", "statement": "The curve of a Slepian function of a polar cap is the real part of its field along longitude 0 at the samples of the figure, split at the edge of the cap, and for orders of either sign the real or imaginary part vanishes there. The file entry found by order and rank is the function of that rank within its order. The eigenvalues of orders m and -m coincide. Points of the ranked plot carry their eigenvalue and the absolute order, two points have one label exactly when their absolute orders agree. Ticks are the powers of two up to the first one not below the number of functions. The coefficient plot shows the magnitudes in decreasing order, the N largest for the harmonics.", "quantifier": "all band limits, cap sizes, orders, ranks, eigensolvers, sorts, signals", "why_tests_cant": "The examples are not run by the tests, and figures are only looked at.", "anchors": ["examples/polar_cap/simons_5_1.py", "examples/polar_cap/simons_5_3.py", "examples/polar_cap/eigenfunctions.py", "examples/polar_cap/eigenvalues.py", "examples/polar_cap/slepian_coefficients.py", "examples/arbitrary/eigenvalues_combined.py", "examples/mesh/mesh_slepian_eigenvalues.py"]}
{"id": "C76", "title": "Norms of translated functions and Ricker wavelets", "statement": "The plotted norm of the translation to colatitude theta is the square root of the energy of the translated function over the sphere; it does not depend on the longitude and is symmetric about the equator. The Ricker wavelets fill the plotted array block by block; the wavelet is even, at most 1 in size, 1 at time zero, and its integral over [-T, T] is 2 T exp(-pi^2 f^2 T^2).", "quantifier": "all coefficients, band limits, longitudes; all lengths, steps, lists of frequencies", "why_tests_cant": "The examples are not run by the tests; integrals and symmetries are statements about all angles and times.", "anchors": ["examples/misc/translation_normalisation.py:compute_translation_normalisation_theta", "examples/misc/wavelet_transform.py:_ricker", "examples/misc/wavelet_transform.py:main"]}
{"id": "C77", "title": "Figures of wavelets and of errors", "statement": "Every curve of a tiling runs from 0 to the last index in steps of 1/100 and passes through the values of its generator. The curves of sorted wavelet coefficients are the magnitudes of one scale in decreasing order, cut to the N largest for axisymmetric wavelets. The field drawn from the wavelet coefficients of a continent is the one drawn from its Slepian coefficients. The error curve of the region is zero when the Slepian functions solve the eigenproblem of the same mask on the same grid; that of the sphere is zero for bandlimited signals.", "quantifier": "all generators, interpolants through the nodes, signals, admissible wavelets, masks, band limits", "why_tests_cant": "The examples are not run by the tests; a single figure shows one signal.", "anchors": ["examples/wavelets/axisymmetric_tiling.py", "examples/arbitrary/africa/tiling_africa.py", "examples/mesh/mesh_tiling.py", "examples/arbitrary/africa/sparsity_wavelet_slepian_comparison_africa.py", "examples/arbitrary/africa/wavelet_reconstruction_africa.py", "examples/polar_cap/slepian_error.py:_helper_sphere", "examples/polar_cap/slepian_error.py:_helper_region"]}
{"id": "C78", "title": "Rounding errors of the eigensolver", "statement": "If eigh returns vectors and values that are an orthonormal eigenbasis only up to eta in every entry of the residuals and of the inner products, with L^2 eta <= 1/2, the solvers still succeed; the functions are orthonormal up to eta and orthogonal in the region up to 6 B L eta, every eigenvalue is within 7 B L^2 eta of the exact one of the same rank, and every function is, up to an energy of (L eta / g)^2, a combination of the exact functions whose eigenvalues are closer than g (B = 1 for boxes and caps, the largest of 1 and the first eigenvalue for masks). Errors made while the matrix was computed enlarge eta by at most delta (n + 1 + eta) / 2. The orders of polar functions stay exact.", "quantifier": "all band limits, boxes, caps, masks, error bounds, eigensolvers, sorts and schedules; any exact run of the same region", "why_tests_cant": "Tests compare one machine's output with itself; the size of the effect of rounding on eigenvalues and on (possibly degenerate) functions is a statement about all perturbations.", "anchors": ["src/sleplet/slepian/slepian_limit_lat_lon.py:_solve_eigenproblem", "src/sleplet/slepian/slepian_polar_cap.py:_solve_eigenproblem_order", "src/sleplet/slepian/slepian_arbitrary.py:_solve_D_matrix"]}
{"id": "C79", "title": "The Slepian functions of a mesh are well defined", "statement": "For every mesh with an orthonormal basis the eigenproblem set up by MeshSlepian has a solution, for every number of threads and every schedule that ends. Any two runs (other eigensolver, sorting, threads, memory contents) give the same eigenvalues; the same approximation of every signal by the first N functions if eigenvalue N is smaller than eigenvalue N-1; the same function up to its sign for a simple eigenvalue. The complementary region has the eigenvalues 1 - lambda in reverse order with the same functions. Enlarging the region or the basis makes no eigenvalue smaller. At most as many eigenvalues differ from 0 as the region has vertices, and from 1 as there are vertices outside; no more functions are kept than the region has vertices. With an eigensolver that is right up to eta, nb eta <= 1/2, functions are orthonormal up to eta, eigenvalues are within 7 nb eta, and functions are within (sqrt nb eta / g)^2 in energy of combinations of exact functions with eigenvalues closer than g.", "quantifier": "all meshes with an orthonormal basis, regions, eigensolvers, sorts, numbers of threads, memory contents, finishing schedules, signals, ranks and error bounds", "why_tests_cant": "Tests run one LAPACK on a few meshes; independence of the solver, monotony in the region and the size of rounding effects are statements about all of them.", "anchors": ["src/sleplet/meshes/mesh_slepian.py:MeshSlepian", "src/sleplet/_slepian_arbitrary_methods.py:compute_mesh_shannon", "src/sleplet/slepian_methods.py:slepian_mesh_forward", "src/sleplet/slepian_methods.py:slepian_mesh_inverse"]}
{"id": "C80", "title": "The command line means what its options say", "statement": "For both commands, any options written in any of the accepted spellings (long, unambiguous abbreviation, letter; value in the next word, after =, or directly after the letter; flags joined in one word) before and after the name give exactly the settings they say, the last of equal options counting and the others keeping their defaults; the name may follow any options after two dashes. Options that can take the name as a value must not come right before it: the command then exits with status 2. Words that are no option, abbreviate several, give a flag a value or join unknown letters to flags, values an option does not have, options without the value they need, words beside the name and unknown names end the command without a figure. Whatever the words, the command exits with status 0 or 2 or has settings with a known name and values among the declared choices. The command then makes the class whose snake-case name was given, with the band limit, arguments, region, noise and smoothing of the options, and plots it (convolved with the map asked for) with the method, angles, type, view and flags of the options; no figure comes of any other line.", "quantifier": "all lists of option spellings, all names, all lists of words, all external functions", "why_tests_cant": "Tests never call the commands; a swapped default, flag or letter shows only on the line that uses it, and the lines are infinitely many.", "anchors": ["src/sleplet/_scripts/plotting_on_sphere.py:read_args", "src/sleplet/_scripts/plotting_on_sphere.py:main", "src/sleplet/_scripts/plotting_on_mesh.py:read_args", "src/sleplet/_scripts/plotting_on_mesh.py:main"]}
{"id": "C81", "title": "Published files: one request, the registry before the disk, and no second chance", "statement": "In every process the list of published files is asked for once. If that succeeds, every lookup fetches a listed file and otherwise gives the local file or nothing. (Refuted: a failed request is repeated. The first lookup raises, all later ones treat every published file as missing, so the Earth raises TypeError and solutions are computed again although the network works.) The two files of a mesh decomposition belong together: whatever runs died between writes before, the eigenvalues and eigenvectors a run returns were computed by one and the same run, or are both fetched. (Refuted: also when a run dies inside a write; every later run then raises ValueError.)", "quantifier": "all sequences of lookups with any network and disk at each, all histories of runs cut at any write, all outcomes of the eigensolver", "why_tests_cant": "Tests run with a working network and a fresh disk; the module variable survives a failed request only within one process.", "anchors": ["src/sleplet/_data/setup_pooch.py:_lazy_load_registry", "src/sleplet/_data/setup_pooch.py:find_on_pooch_then_local", "src/sleplet/_data/create_earth_flm.py:_load_flm", "src/sleplet/_data/create_wmap_flm.py:_load_cl", "src/sleplet/_mesh_methods.py:mesh_eigendecomposition"]}
{"id": "C82", "title": "Mesh geometry: configuration, camera, refinement and Laplacian", "statement": "For each of the six shipped configurations Mesh gets a camera in the configured direction and a basis of orthonormal eigenvectors of the Laplacian of the refined mesh, with eigenvalues that are not negative and a constant function for the eigenvalue zero. Refining keeps the vertices, the total area, properness and connectedness, shares the midpoints of edges, stays in the region and changes no energy. The Laplacian is symmetric, has zero row sums, couples neighbours only, its quadratic form is the energy of the piecewise linear function, and on a connected mesh its kernel is the constants. (Refuted: the shift-invert mode with sigma=0 has a matrix to invert.)", "quantifier": "all connected meshes of proper triangles of any size, all numbers of refinements, all functions on the vertices, all solvers returning eigenpairs, both values of zoom, all numbers of basis functions", "why_tests_cant": "The tests use the shipped meshes at one refinement; that the basis is orthonormal for the plain sum over vertices whatever the mesh, and that zero has one eigenvector, are statements about every surface and every eigenvector.", "anchors": ["src/sleplet/_mesh_methods.py:41-148", "src/sleplet/meshes/mesh.py:62-92", "src/sleplet/_plotly_methods.py:15-29", "src/sleplet/_data/meshes_regions_bird.toml:1-18"]}
{"id": "C83", "title": "Mesh Slepian functions depend on the shape only, unless an eigenvalue is cut", "statement": "The mesh Laplacian does not change when the mesh is moved, turned, mirrored or scaled, nor with the order of triangles and of their corners, and follows any renumbering of the vertices. Two eigensolvers that return the lowest eigenvalues with all their eigenvectors lead to the same round trip of every field, the same Shannon number, the same Slepian eigenvalues, the same Slepian functions up to sign where simple and the same sum over functions elsewhere. (Refuted when the number of basis functions cuts an eigenvalue in two: then correct solvers give different Slepian eigenvalues.) With fewer basis functions than vertices some nonzero field has zero coefficients.", "quantifier": "all connected meshes of proper triangles, all pairs of solvers, both values of zoom, all numbers of basis functions, all fields, all threads, schedules, sortings and eigensolvers of the concentration problem", "why_tests_cant": "A test has one solver and one mesh file; independence of the solver is a statement about pairs of runs, and the failure needs an eigenvalue with several eigenvectors at exactly the cut.", "anchors": ["src/sleplet/_mesh_methods.py:65-148", "src/sleplet/meshes/mesh.py:62-92", "src/sleplet/meshes/mesh_slepian.py:44-93", "src/sleplet/harmonic_methods.py:134-173"]}
{"id": "C84", "title": "Eigenvalues of boxes and caps lie strictly between 0 and 1", "statement": "Two band-limited functions that agree on any open box, however small, have the same coefficients; a band-limited function other than 0 has positive energy in every box. Hence every eigenvalue of a latitude-longitude box is positive exactly if the box has an interior and below 1 exactly if it is not the whole sphere, and likewise for caps and pairs of caps; a box properly inside another one and a cap of smaller angle have strictly smaller eigenvalues, rank by rank. The divisor of _integrate_region is therefore never 0 for these regions, and dividing the product over the region by it gives the coefficient over the sphere for every rank. A mask has no negative eigenvalue and no more positive ones than samples away from the poles.", "quantifier": "all band limits, all boxes and caps, all masks, all ranks, all band-limited functions, all schedules of the workers, all eigensolvers and sorting routines", "why_tests_cant": "The smallest eigenvalues are below rounding error already for moderate band limits, so floating point cannot tell them from 0.", "anchors": ["src/sleplet/slepian/slepian_limit_lat_lon.py:64-228", "src/sleplet/slepian/slepian_polar_cap.py:68-402", "src/sleplet/slepian/slepian_arbitrary.py:67-200", "src/sleplet/slepian/_slepian_decomposition.py:57-82"]}
{"id": "C85", "title": "Coefficients of a masked field and the texts of refused regions", "statement": "ensure_masked_flm_bandlimited fails only where the mask cannot be made, returns L^2 coefficients (of a real field if the reality flag is set), and asked again returns the same without touching the files. For caps and boxes the transformed field has the values of the signal at the samples inside and 0 at the others. A region holding all samples (for example two caps of at least 90 degrees) returns the coefficients unchanged, one holding none returns zeros; regions with complementary masks split the coefficients into a sum; the result is linear in the coefficients. It is not a projection: masking twice differs from masking once. A region is refused with ValueError exactly if one of its four angles has a refusal text, and each text names the angle and the side on which it leaves its range (0 to 2π or π); whole multiples of π are printed as such, other angles with the multiple next to them towards 0.", "quantifier": "all coefficients, band limits, regions, spins, states of the mask files, and all pairs of linear transforms of which one undoes the other; all quadruples of angles; all integers k", "why_tests_cant": "The test of the function checks one region; linearity, splitting and the extremes quantify over all coefficients and regions, and the angles are real numbers.", "anchors": ["src/sleplet/_mask_methods.py:79-103", "src/sleplet/_string_methods.py:67-73", "src/sleplet/slepian/region.py:95-157"]}
{"id": "C86", "title": "Sampled integrals approach the integrals over the region", "statement": "The integration helpers sum samples times weights. For every resolution M and every product of functions that is bounded by B and changes at most at rate K, the sampled integral over the sphere, over the mask of a box or over the mask of a cap differs from the exact integral by at most (12 pi^3 (B+K) + 20 pi^2 B)/M, over a pair of caps by at most twice that. Band-limited functions are of this kind, so their sampled inner products tend to the exact ones like 1/M. The area that an arbitrary region computes for the mask of a box or cap is within (12 pi^3 + 20 pi^2)/(2L) of the closed form, and for a pair of caps close to twice the closed form of the code. Hence the mean of the eigenvalues found for the samples of a box or cap differs from the mean of its exact eigenvalues by at most a constant over L.", "quantifier": "all resolutions, all boxes, caps and pairs of caps, all bounded Lipschitz functions, all band-limited functions, all states of the mask files", "why_tests_cant": "The tests compare integrals of a few functions at one resolution with a tolerance; the bound holds for every function and every resolution.", "anchors": ["src/sleplet/_integration_methods.py:12-66", "src/sleplet/_mask_methods.py:18-76", "src/sleplet/slepian/slepian_arbitrary.py:58-62"]}
{"id": "C87", "title": "The wavelets made from the generators of s2let", "statement": "The generators of s2let are roots of differences of a function that falls from 1 at 1/B to 0 at 1, dilated by the powers of B. For these the squares of all scales add up to one at every degree (or Slepian rank), and scale j is non-zero exactly at the degrees p with B^(j_min+j) < B p and p < B^(j_min+j+1). There is one axisymmetric wavelet per scale after the scaling function, with non-zero coefficients exactly at order 0 and the degrees of its band. Every signal survives the axisymmetric wavelet transform and its inverse, and every signal without a zero coefficient below the Shannon number N survives the Slepian wavelet transform and its inverse, although the latter drops the scales beyond N. A scale j accepted by the check can be selected from the Slepian wavelet coefficients exactly when B^(j_min+j) < B (N - 1), and otherwise ends with an IndexError. On a mesh the same condition decides whether the wavelet coefficients of scale j of the field can be created.", "quantifier": "all bases B, lowest scales, band limits, Shannon numbers, signals, and all functions of the stated shape", "why_tests_cant": "The tests reconstruct a few signals for B = 3 and j_min = 2 within a tolerance; the statement covers every base, scale, band limit and signal, and says exactly which scales exist.", "anchors": ["src/sleplet/wavelet_methods.py:13-62", "src/sleplet/wavelet_methods.py:65-129", "src/sleplet/wavelet_methods.py:132-163", "src/sleplet/meshes/mesh_slepian_wavelet_coefficients.py:62-80"]}
