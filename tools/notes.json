{
 "C01": {
  "note": "split_arr_into_chunks for every n and every ncpu >= 1."
 },
 "C06": {
  "note": "The expected property is false of the code; proved as a refutation with a witness, plus what happens for every failure and schedule (caller returns normally, columns of the failed worker are zero)."
 },
 "C07": {
  "note": "Safety for every schedule and every injected worker failure; clean exit when no worker fails; refutation of clean exit when one fails."
 },
 "C02": {
  "note": "Every schedule, worker count and memory content; harmonics at the edge are an argument (ssht is external)."
 },
 "C03": {
  "note": "Symmetry of the synthesised harmonics under m -> -m is an explicit hypothesis (ssht is external)."
 },
 "C12": {
  "note": "The full claim is false of the code (C12_full_refuted); proved for ranks below N and for small polar caps."
 },
 "C13": {
  "note": "Proved for deaths between whole-file writes, any interleaving; refuted inside a write."
 },
 "C14": {
  "note": "Proved for whole-degree angles and masks that do not imitate generated names; refuted in general by three witnesses."
 },
 "C15": {
  "note": "Complete caches (L <= 16) proved; truncated caches characterised exactly; order arrays refuted."
 },
 "C49": {
  "note": "Refuted for polar orders other than 0, proved elsewhere."
 },
 "C11": {
  "note": "Any interleaving and deaths of any number of processes; whole-file writes atomic; registry contents sound by hypothesis."
 },
 "C05": {
  "note": "Wigner values are an argument (ssht is external); every order of the parallel iterations and every interleaving of their loads and stores. The eigenvalue range assumes the harmonics built from them are orthonormal."
 },
 "C09": {
  "note": "Every invalid angle is rejected; that an accepted region is not empty is refuted (the order of the bounds is not checked)."
 },
 "C10": {
  "note": "The constructed region determines the solver class and parameters; zero caps are rejected."
 },
 "C16": {
  "note": "The eigenproblem solver is an argument; its LAPACK contract is a hypothesis."
 },
 "C22": {
  "note": "Exact shrinkage and idempotence proved; for Slepian coefficients the zero threshold is refuted to be the identity because the sphere weights are not exact."
 },
 "C25": {
  "note": "Dispatch and rank checks proved; the sphere integral is refuted to equal the harmonic sum, by the deficit of the weights."
 },
 "C26": {
  "note": "Round trip proved for admissible wavelets when only the last scales miss the signal; refuted when an earlier scale does (its row is dropped)."
 },
 "C33": {
  "note": "Areas and Shannon numbers proved, refuted for the double cap (half the area)."
 },
 "C36": {
  "note": "Bounds and powers of two for all bandlimits; monotone inside each band, refuted across bands."
 },
 "C37": {
  "note": "Nearest sample proved on the line; refuted on the circle near 2 pi."
 },
 "C38": {
  "note": "Range and order proved above the constant threshold; refuted for nearly constant data and zero maxima."
 },
 "C39": {
  "note": "Names proved to distinguish angles and arguments up to their rendering; refuted for fractions above one."
 },
 "C41": {
  "note": "Accepted values proved in range; two routes that skip a check refuted."
 },
 "C51": {
  "note": "Exact weights and integral of one for every bandlimit; exactness refuted with the size of the deficit."
 },
 "C52": {
  "note": "Added noise proved; refuted for functions that keep all coefficients."
 },
 "C53": {
  "note": "Closed forms and reality flags proved; the flag of the identity refuted."
 },
 "C54": {
  "note": "Accepted scales select the generated wavelet; coefficients proved when no scale up to it misses the signal, index error and wrong scale refuted otherwise."
 },
 "C58": {
  "note": "Rank selection and fields proved; the noise field of a mesh refuted to be buildable."
 },
 "C60": {
  "note": "Limits proved; the marker of mesh plots refuted to lie below all data."
 },
 "C61": {
  "note": "Amplitudes proved without spin; refuted with spin."
 },
 "C62": {
  "note": "Names identify functions whose numbers have a rendering; refuted in general, with witnesses."
 },
 "C63": {
  "note": "Every command proved to show the requested function; the Earth view of a Slepian convolution refuted."
 },
 "C64": {
  "note": "File names identify figures; refuted for annotations and for angles closer than the rounding."
 },
 "C65": {
  "note": "Assumes of the external calls: the Wigner table holds the textbook harmonics (SpecHarmonics.textbook: Ferrers functions of the three-term recurrence, Condon-Shortley phase) and eigh returns an orthonormal eigenbasis; both are met by the shown case. Orthonormality and the addition theorem of the harmonics are proved, not assumed. C65_optimal quantifies over all band-limited functions."
 },
 "C66": {
  "note": "Assumes that ssht returns the textbook harmonics (SpecHarmonics.textbook) and eigh an orthonormal eigenbasis; met by the two shown cases. The expansion of a product of two harmonics in Legendre polynomials with 3j coefficients is proved from the recurrence and Racah's formula (ThreeJProofs, AssocProofs, TextbookProofs). The factor 2 for gaps is the finding of C33."
 },
 "C67": {
  "note": "Sums over the sampling grid stand for integrals over the region, as in the code. Assumes that ssht samples the textbook harmonics (SpecHarmonics.textbook) and that eigh returns an orthonormal eigenbasis; met by the shown case. The bound 1 is refuted for every eigensolver."
 },
 "C68": {
  "note": "computed w says that w lists the values of the code; the example gives the w. The sign of the symbols is pinned by C35 (equality with Racah's formula). C68_product assumes that ssht returns the textbook harmonics."
 },
 "C69": {
  "note": "C69_coefficients excludes Identity, which is flagged real but is not (C53). The solver and the mask files are state: the solver is an argument, assumed to find the second time what it left the first time where a class solves twice. C69_default_africa_refuted is the finding that the defaults never work."
 },
 "C70": {
  "note": "The figures, the log messages and the printed errors are not modelled. C70_unbiased_refuted, C70_first_run_refuted, C70_progressive_refuted and C70_denoise_slepian_refuted are findings. The random draws are any finite ensemble of streams with unit second moments and no correlation."
 },
 "C71": {
  "note": "Assumes of ssht only Wigner's closed formula for generate_dl at pi/2 (phase convention d^1_10 = -sin/sqrt 2) and the textbook harmonics for create_ylm and inverse; of eigh that it decomposes the matrix."
 },
 "C72": {
  "note": "igl, trimesh and plotly are outside: the normals, the eigenfunctions and the random draws are arguments, and the figure is the data handed to plotly. C72_noise_field_refuted, C72_noised_wavelets_refuted and C72_mirror_refuted are findings. C72_denoising counts the remaining rows as the code does (see finding 33)."
 },
 "C73": {
  "note": "The eigensolver, the sort and the order of the work are arguments of the model; the theorems compare two arbitrary choices of them. Exact arithmetic: nearly equal eigenvalues count as different."
 },
 "C74": {
  "note": "C74_mask_grows compares masks on one grid, because the grid of an arbitrary region depends on the band limit."
 },
 "C75": {
  "note": "The figures are the points, lines and ticks handed to matplotlib and seaborn. C75_real_part needs the order m: for negative orders the plotted real part is zero by the phase of the rows, which the figures avoid by using m >= 0."
 },
 "C76": {
  "note": "Times are exact multiples of the step; np.arange of floats may return one sample more or less."
 },
 "C77": {
  "note": "C77_error_sphere_refuted is a finding. Where the exact coefficient is 0 the plotted error is inf or nan in numpy; the theorems give no meaning to that value."
 },
 "C78": {
  "note": "Only eigh (and, through C78_matrix, the matrix) is inexact; the later sorting, sign fixing and sums over coefficients are exact. eta is a hypothesis: LAPACK documents it as a modest multiple of the machine precision. C78_cap_case gives numbers for the hemisphere."
 },
 "C79": {
  "note": "The mesh analogue of C73, C74 and C78. C28_pipeline asks for a solver that is right on every symmetric matrix; C79_run asks for the one matrix at hand, and C79_answers shows that this can always be met. Kernels and functions are compared only where the eigenvalues separate, as nothing else is determined."
 },
 "C80": {
  "note": "The parser model follows CPython's argparse.py of 3.11 for the kinds of option the two commands declare. The readings theorem is stated on spellings (SpecCommands), not on the parser; C80_*_every is about all word lists. What becomes of a negative band limit is not modelled. C80_refused, C80_misfit and C80_valueless allow any words around the refused ones."
 },
 "C81": {
  "note": "C81_retry_refuted and C81_torn_refuted are the refuted parts. Concurrent runs of the mesh decomposition are not modelled (for the Slepian solvers see C13)."
 },
 "C82": {
  "note": "C82_singular_refuted is the refuted part. igl.upsample and igl.cotmatrix are modelled from the library's documentation and source; reading the .off files is external."
 },
 "C83": {
  "note": "C83_split_refuted is the refuted part. C83_basis and C83_slepian assume that both solvers return whole eigenspaces (lowest_whole)."
 },
 "C84": {
  "note": "Exact eigenvalues: in floating point the smallest ones come out as rounding errors of either sign (C78 bounds these)."
 },
 "C85": {
  "note": "C85_idempotent_refuted is the refuted part; C85_result, C85_extremes, C85_split and C85_linear take the properties of the ssht transforms as hypotheses (transforms)."
 },
 "C86": {
  "note": "Exact arithmetic. The bound is not sharp (C51 has the exact value for the constant 1)."
 },
 "C87": {
  "note": "Exact arithmetic; the generators are those of the s2let paper for any function of the stated shape."
 }
}
