{"id": "C01", "title": "Reciprocal basis is dual to the primitive basis", "statement": "For a Lattice built from two linearly independent primitive vectors, the published reciprocal vectors satisfy b1.a1 = b2.a2 = 2*pi and b1.a2 = b2.a1 = 0, and they are the only pair of in-plane vectors doing so; the built-in 'square' and 'hexagonal' lattices are instances.", "quantifier": "all pairs of real primitive vectors with non-zero cross product", "why_tests_cant": "the pair of vectors ranges over a continuum; tests sample the two named lattices and a handful of custom ones", "anchors": ["legume/phc/lattice.py:Lattice.__init__", "legume/phc/lattice.py:Lattice._parse_input"]}
{"id": "C02", "title": "Cell area and Brillouin-zone area are reciprocal", "statement": "ec_area is the area |a1 x a2| of the elementary cell, it is positive for independent vectors, ec_area * bz_area = (2*pi)^2, and replacing the basis by any other basis of the same lattice changes neither area.", "quantifier": "all independent primitive pairs and all integer changes of basis of determinant +1 or -1", "why_tests_cant": "infinitely many bases generate the same lattice", "anchors": ["legume/phc/lattice.py:Lattice.__init__"]}
{"id": "C03", "title": "Named high-symmetry points are the right points", "statement": "On a 'square' lattice X and M are half of b1 and half of b1+b2; on a 'hexagonal' lattice M is half of b1 and K is equally far from the origin and from two neighbouring reciprocal vectors (a zone corner). Names are case-insensitive, a name not defined for the lattice type is rejected with ValueError, and no lattice built from two explicit vectors ever accepts X, M or K.", "quantifier": "all point arguments (strings, arrays, anything else) and all lattices", "why_tests_cant": "the rejection claim ranges over every string and lattice", "anchors": ["legume/phc/lattice.py:Lattice._parse_point", "legume/phc/lattice.py:Lattice._parse_input"]}
{"id": "C04", "title": "A Brillouin-zone path passes through every requested point", "statement": "When bz_path succeeds on n points with positive sample counts, it returns sum(ns)+1 k-points, n indexes starting at 0 and strictly increasing to sum(ns), the k-point at indexes[i] is exactly the i-th requested point, and inside segment i the samples divide the straight segment between points i and i+1 into ns[i] equal steps. It raises ValueError exactly when fewer than two points are given, when the number of counts is neither 1 nor n-1, or when a point cannot be parsed.", "quantifier": "all lattices, all point lists of any length, all lists of positive sample counts", "why_tests_cant": "number of points and counts is unbounded", "anchors": ["legume/phc/lattice.py:Lattice.bz_path"]}
{"id": "C05", "title": "Path abscissa is a normalised arc length", "statement": "The k_indexes returned by bz_path start at 0, are non-decreasing, end at 1 whenever the path is not a single repeated point, and the abscissa difference between consecutive requested points is the length of that segment divided by the total length.", "quantifier": "all point lists and all positive sample counts", "why_tests_cant": "unbounded lists over a continuum of points", "anchors": ["legume/phc/lattice.py:Lattice.bz_path"]}
{"id": "C06", "title": "bz_path accepts both documented forms of the sample count", "statement": "bz_path accepts ns as an integer or as a list; an integer n behaves as the one-element list [n].", "quantifier": "all lattices, all point lists of length at least two, all positive integers", "why_tests_cant": "a documented argument form that the test-suite never exercises; the claim is for every such call", "anchors": ["legume/phc/lattice.py:Lattice.bz_path"]}
{"id": "C07", "title": "xy_grid spans the requested number of periods", "statement": "xy_grid accepts periods as None, a number or a list of two numbers; the returned x (y) grid is symmetric about 0 and its width is the number of periods times the largest absolute x (y) component of the two primitive vectors.", "quantifier": "all lattices and all forms of the periods argument", "why_tests_cant": "ranges over all lattices, including ones whose primitive vectors have negative components", "anchors": ["legume/phc/lattice.py:Lattice.xy_grid"]}
{"id": "C08", "title": "Layers always form a gap-free stack", "statement": "After any sequence of add_layer, add_shape and add_qw calls, including calls that raise, the layers are contiguous: the first starts at z=0, each next layer starts exactly where the previous ends, each layer's thickness is the d it was created with, the upper cladding starts at the sum of all thicknesses, and the lower cladding ends at 0.", "quantifier": "all call histories with arbitrary arguments (any thickness, any layer type string, any index)", "why_tests_cant": "histories are unbounded and include failing calls at every point", "anchors": ["legume/phc/phc.py:PhotCryst.__init__", "legume/phc/phc.py:PhotCryst.add_layer", "legume/phc/layer.py:Layer.__init__"]}
{"id": "C09", "title": "Every height belongs to exactly one region", "statement": "For every history in which all thicknesses are non-negative, every z with -1e10 <= z < 1e10 lies in exactly one of {lower cladding, layers, upper cladding} as used by PhotCryst.get_eps, so the permittivity returned at (x,y,z) is the permittivity of that one region at (x,y), and heights outside that range get 0.", "quantifier": "all histories with non-negative thicknesses, all (x,y,z)", "why_tests_cant": "the height is a real number and interfaces can be anywhere", "anchors": ["legume/phc/phc.py:PhotCryst.get_eps", "legume/phc/phc.py:PhotCryst.add_layer"]}
{"id": "C10", "title": "Layer look-up by height agrees with the permittivity map", "statement": "z_to_lind(phc, z), which field and exciton code use to find the layer at height z, selects the same region that PhotCryst.get_eps uses for the permittivity at z.", "quantifier": "all histories with positive thicknesses and all z in [-1e10, 1e10)", "why_tests_cant": "disagreement can only occur on a measure-zero set of heights that sampling does not hit", "anchors": ["legume/utils.py:z_to_lind", "legume/phc/phc.py:PhotCryst.get_eps"]}
{"id": "C11", "title": "An accepted quantum well is never later rejected as lying in a cladding", "statement": "If add_qw(z) succeeded at some point of a history, then after any further calls z_to_lind still places z in a patterned layer (not a cladding), so the ExcitonSchroedEq constructor does not raise its 'in the claddings' error for it; and add_qw raises ValueError exactly when z is at or below the bottom or at or above the top of the current stack.", "quantifier": "all histories before and after the add_qw call, all z, all thicknesses", "why_tests_cant": "quantifies over every continuation of every history", "anchors": ["legume/phc/phc.py:PhotCryst.add_qw", "legume/utils.py:z_to_lind", "legume/exc/exc.py:ExcitonSchroedEq.__init__"]}
{"id": "C12", "title": "A rejected structure edit changes nothing, an accepted one changes only its target", "statement": "A call to add_layer, add_qw or add_shape that raises leaves the photonic crystal exactly as it was; a successful add_shape changes only the addressed layer or cladding (its shape list and average permittivity) and nothing else.", "quantifier": "all histories, all arguments of all three calls", "why_tests_cant": "needs every error path from every reachable state", "anchors": ["legume/phc/phc.py:PhotCryst.add_shape", "legume/phc/layer.py:ShapesLayer.add_shape", "legume/phc/phc.py:PhotCryst.add_layer", "legume/phc/phc.py:PhotCryst.add_qw"]}
{"id": "C13", "title": "Average permittivity is the area-weighted mean, however the shapes were added", "statement": "After any sequence of add_shape calls on a layer (single shapes or lists), eps_avg = eps_b + sum_i (eps_i - eps_b) * area_i / ec_area over all shapes in the layer; it does not depend on order or grouping, and if all areas are non-negative with total at most ec_area it lies between the smallest and the largest permittivity present.", "quantifier": "all background permittivities, all sequences and groupings of shapes", "why_tests_cant": "unbounded histories", "anchors": ["legume/phc/layer.py:ShapesLayer.add_shape", "legume/phc/layer.py:ShapesLayer.__init__"]}
{"id": "C14", "title": "Layer Fourier transform obeys its defining laws", "statement": "compute_ft of a layer is eps_avg at G=0; at any other G it is sum_i (eps_i - eps_b)*FT_i(G)/ec_area; it does not depend on the order in which shapes were added; a shape with the background permittivity contributes nothing; and if every shape transform satisfies FT(-G) = conj(FT(G)) then so does the layer's.", "quantifier": "all layers, all shape lists, all G", "why_tests_cant": "shape lists and wave vectors are unbounded", "anchors": ["legume/phc/layer.py:ShapesLayer.compute_ft"]}
{"id": "C15", "title": "Overlapping shapes: the last added wins, and values stay in bounds", "statement": "Layer.get_eps at a point returns the permittivity of the last-added shape one of whose examined periodic images covers the point, or the background if none does; hence every value PhotCryst.get_eps returns at -1e10 <= z < 1e10 lies between the two numbers returned by get_eps_bounds, and both bounds are permittivities actually present.", "quantifier": "all layers, all shape lists, all points", "why_tests_cant": "pointwise over a continuum and over all overlap patterns", "anchors": ["legume/phc/layer.py:ShapesLayer.get_eps", "legume/phc/phc.py:PhotCryst.get_eps_bounds", "legume/phc/phc.py:PhotCryst.get_eps"]}
{"id": "C16", "title": "The permittivity map is lattice-periodic and pointwise", "statement": "Layer.get_eps at a point depends only on the point modulo the lattice, not on which other points are in the same query.", "quantifier": "all layers, all query meshes, all lattice translations", "why_tests_cant": "depends on combinations of mesh, lattice and shape position", "anchors": ["legume/phc/layer.py:ShapesLayer.get_eps"]}
{"id": "C17", "title": "Exciton potential Fourier transform is the sum over shapes", "statement": "For a layer with shapes 1..n and positive potential height Vmax, compute_exc_ft(G) = Vmax * sum_i FT_i(G) / ec_area.", "quantifier": "all layers, any number of shapes, all G sets containing 0", "why_tests_cant": "any number of shapes; the single-shape case is the one usually tested", "anchors": ["legume/phc/layer.py:ShapesLayer.compute_exc_ft"]}
{"id": "C18", "title": "Shape transforms are those of real functions", "statement": "For Circle, Ellipse and Poly (hence Square, Hexagon, FourierShape), compute_ft(-G) is the complex conjugate of compute_ft(G), so the transform at G=0 is real and equals the stored area.", "quantifier": "all shape parameters (any number of vertices) and all G", "why_tests_cant": "continuum of G and arbitrary polygons, including the special-cased gx=0 and gx=gy=0 branches", "anchors": ["legume/phc/shapes.py:Circle.compute_ft", "legume/phc/shapes.py:Ellipse.compute_ft", "legume/phc/shapes.py:Poly.compute_ft", "legume/phc/shapes.py:Shape.__init__"]}
{"id": "C19", "title": "Polygons: area, orientation check, and the derived shapes", "statement": "Poly accepts a vertex list iff its signed (shoelace) area is non-negative, and then area is that value; reversing the vertex order negates it; it is invariant under cyclic relabelling and translation. Square has area a^2, Hexagon 3*sqrt(3)/2*a^2, for every a. A FourierShape whose sampled radius is non-negative at all its sample angles is never rejected for orientation (npts >= 2).", "quantifier": "all vertex lists of any length; all a; all Fourier coefficient lists and npts", "why_tests_cant": "unbounded vertex lists and coefficient lists", "anchors": ["legume/phc/shapes.py:Poly.__init__", "legume/phc/shapes.py:Square.__init__", "legume/phc/shapes.py:Hexagon.__init__", "legume/phc/shapes.py:FourierShape.__init__"]}
{"id": "C20", "title": "Rotating a polygon is a rigid rotation about its centroid", "statement": "Poly.rotate(angle) keeps the polygon closed, keeps all distances between vertices, the area and the centroid, so the cached area stays valid; rotate(a) then rotate(b) is rotate(a+b), rotate(0) and rotate(2*pi) change nothing.", "quantifier": "all polygons with non-zero area, all angles, all sequences of rotations", "why_tests_cant": "unbounded sequences over a continuum of angles", "anchors": ["legume/phc/shapes.py:Poly.rotate"]}
{"id": "C21", "title": "Moving a shape only multiplies its transform by a phase", "statement": "Translating a Circle, Ellipse or Poly by t multiplies compute_ft(G) by exp(-i G.t) and moves the indicator is_inside accordingly; in particular (x_cent, y_cent) is the centre of a Circle and of an Ellipse of any rotation phi.", "quantifier": "all shapes, all translations, all G", "why_tests_cant": "continuum", "anchors": ["legume/phc/shapes.py:Circle", "legume/phc/shapes.py:Ellipse", "legume/phc/shapes.py:Poly.compute_ft"]}
{"id": "C22", "title": "Polygon transform is the exact integral of exp(-iG.r) over the polygon", "statement": "Up to the documented 1e-10/1e-20/1e-50 regularisers, Poly.compute_ft(G) equals the integral of exp(-i G.r) over the polygon's interior.", "quantifier": "all polygons and all G", "why_tests_cant": "continuum of G, unbounded vertex count", "anchors": ["legume/phc/shapes.py:Poly.compute_ft"]}
{"id": "C23", "title": "A circle's area is pi r^2 up to the regulariser", "statement": "The area stored by Circle(r) (computed from the Bessel-function transform at |G| = 1e-10) differs from pi r^2 by at most 1e-20 * pi r^4.", "quantifier": "all radii with 1e-10*r <= 1", "why_tests_cant": "continuum of radii, error bound not expressible by sampling", "anchors": ["legume/phc/shapes.py:Circle.compute_ft", "legume/phc/shapes.py:Shape.__init__"]}
{"id": "C24", "title": "Truncation 'tbt' yields exactly a centred block of the reciprocal lattice", "statement": "With truncate_g='tbt' the plane-wave set consists of i*b1 + j*b2 for |i| <= n1, |j| <= n2, each exactly once, ordered with j fastest; it contains 0 in the middle, is closed under negation (the k-th from the end is minus the k-th), and has (2 n1+1)(2 n2+1) elements.", "quantifier": "all independent lattices, all gmax", "why_tests_cant": "unbounded sizes", "anchors": ["legume/gme/gme.py:GuidedModeExp._init_reciprocal_tbt", "legume/pwe/pwe.py:PlaneWaveExp._init_reciprocal", "legume/exc/exc.py:ExcitonSchroedEq._init_reciprocal_tbt"]}
{"id": "C25", "title": "Truncation 'abs' yields exactly the reciprocal vectors inside the circle", "statement": "With truncate_g='abs' the plane-wave set is exactly the set of reciprocal lattice vectors G with |G| <= 2*pi*gmax', each once, where gmax' is the (possibly nudged) gmax; it contains 0 and is closed under negation and under every isometry that maps the reciprocal lattice to itself.", "quantifier": "all independent lattices, all gmax", "why_tests_cant": "depends on the obliquity of an arbitrary lattice", "anchors": ["legume/gme/gme.py:GuidedModeExp._init_reciprocal_abs", "legume/exc/exc.py:ExcitonSchroedEq._init_reciprocal_abs"]}
{"id": "C26", "title": "The gmax nudging loop terminates and makes truncation unambiguous", "statement": "The loop that increases gmax while some |G| equals 2*pi*gmax always terminates; on exit no reciprocal vector lies exactly on the cut-off circle, and gmax was increased by at most 1e-10 times the number of candidate vectors.", "quantifier": "all lattices, all gmax", "why_tests_cant": "termination for every input", "anchors": ["legume/gme/gme.py:GuidedModeExp._init_reciprocal_abs"]}
{"id": "C27", "title": "The 'tbt' permittivity matrix holds the right Fourier component at every entry", "statement": "For every conjugate-symmetric layer transform, the block-Toeplitz matrix built from T1/T2 has entry (i,j) equal to the layer transform at g_i - g_j, for all i,j (up to the imaginary parts the code deliberately drops when all of them are below 1e-10 times the largest real part); it is Hermitian.", "quantifier": "all lattices, all truncation sizes, all layers", "why_tests_cant": "unbounded matrix sizes; index arithmetic across block boundaries", "anchors": ["legume/utils.py:toeplitz_block", "legume/gme/gme.py:GuidedModeExp._compute_ft_tbt", "legume/gme/gme.py:GuidedModeExp.compute_eps_inv", "legume/pwe/pwe.py:PlaneWaveExp._compute_ft"]}
{"id": "C28", "title": "The 'abs' permittivity matrix holds the same Fourier components as 'tbt'", "statement": "With truncate_g='abs', after de-duplicating the differences and filling one half by conjugation, the permittivity matrix has entry (i,j) equal to the layer transform at g_i - g_j, as in the 'tbt' case.", "quantifier": "all plane-wave sets, all conjugate-symmetric layers", "why_tests_cant": "unbounded sets; only visible on structures without inversion symmetry", "anchors": ["legume/gme/gme.py:GuidedModeExp._compute_ft_abs", "legume/gme/gme.py:GuidedModeExp.compute_eps_inv", "legume/exc/exc.py:ExcitonSchroedEq._compute_pot_ft_abs"]}
{"id": "C29", "title": "The GME matrix is Hermitian, whatever modes exist", "statement": "For every plane-wave set, every list of requested guided modes and every pattern of which plane waves support which mode, the assembled GME matrix is square with size the number of (mode, plane wave) pairs found, Hermitian, with real diagonal; if no mode is found for any plane wave a RuntimeError is raised instead.", "quantifier": "all mode lists, all per-plane-wave mode counts, all block values", "why_tests_cant": "block sizes vary per k-point with physics; assembly bookkeeping must work for all of them", "anchors": ["legume/gme/gme.py:GuidedModeExp._construct_mat"]}
{"id": "C30", "title": "Mixed-polarisation matrix elements are mutually adjoint", "statement": "The four matrix-element formulas satisfy M_ab(mu,nu) = conj(M_ba(nu,mu)) for every pair of modes, for Hermitian inverse-permittivity matrices, so filling the lower triangle by conjugation loses nothing and the result does not depend on the order in which modes were requested.", "quantifier": "all modes, all layers, all Hermitian inverse permittivities", "why_tests_cant": "identity over a continuum of complex amplitudes", "anchors": ["legume/gme/matrix_elements.py:mat_te_te", "legume/gme/matrix_elements.py:mat_tm_tm", "legume/gme/matrix_elements.py:mat_te_tm", "legume/gme/matrix_elements.py:mat_tm_te"]}
{"id": "C31", "title": "Vertical wave vectors lie on the decaying/outgoing branch", "statement": "chi(omega, g, eps)^2 = eps*omega^2 - g^2 for all real inputs, chi is real and non-negative when that number is non-negative, and purely imaginary with positive imaginary part otherwise.", "quantifier": "all real omega, g, eps", "why_tests_cant": "branch choice over a continuum", "anchors": ["legume/gme/slab_modes.py:chi", "legume/gme/slab_modes.py:chis_3layer"]}
{"id": "C32", "title": "Both implementations of the guided-mode condition are the same condition and are real", "statement": "For every layer stack and both polarisations: the scalar routine D22 and the vectorised routine D22s_vec agree; the three-layer closed form vanishes exactly where the transfer-matrix form does; and in the guided window (both claddings evanescent, no layer with chi=0) the transfer-matrix quantity is a real number, so taking its real part loses nothing.", "quantifier": "all numbers of layers, permittivities, thicknesses, g and omega in the window", "why_tests_cant": "unbounded layer count, continuum of parameters", "anchors": ["legume/gme/slab_modes.py:D22", "legume/gme/slab_modes.py:D22s_vec", "legume/gme/slab_modes.py:S_T_matrices_TE", "legume/gme/slab_modes.py:S_T_matrices_TM"]}
{"id": "C33", "title": "Guided-mode search returns ordered modes inside the guided window", "statement": "For every g, the frequencies returned by the guided-mode search lie strictly between g/sqrt(max eps of inner layers) and g/sqrt(max eps of claddings), are strictly increasing, at most n_modes in number, each is a root of the guided condition, and they are the lowest sign changes on the search grid; no frequency is returned when the window is empty.", "quantifier": "all stacks, all g, all step sizes, any root finder that returns a root inside a sign-changing bracket", "why_tests_cant": "continuum of parameters; the root finder is external", "anchors": ["legume/gme/slab_modes.py:guided_modes", "legume/gme/slab_modes.py:guided_mode_given_g", "legume/utils.py:fsolve"]}
{"id": "C34", "title": "Mode amplitudes satisfy Maxwell's interface conditions", "statement": "The A/B amplitudes returned by AB_matrices satisfy continuity of the tangential fields (TE: E and its derivative; TM: H and its derivative over eps) at every interface of the stack; the lower cladding has only the decaying wave, and the upper cladding has only the decaying wave exactly when the guided condition D22 vanishes.", "quantifier": "all stacks of any number of layers, both polarisations, all omega and g with non-zero chi", "why_tests_cant": "unbounded layer count", "anchors": ["legume/gme/slab_modes.py:AB_matrices", "legume/gme/slab_modes.py:S_T_matrices_TE", "legume/gme/slab_modes.py:S_T_matrices_TM"]}
{"id": "C35", "title": "Guided modes are normalised to unit magnetic energy", "statement": "normalization_coeff equals the integral over all z of |H(z)|^2 for the amplitudes it is given, so the modes returned by the search, divided by its square root, have integral 1; the quantity is real and positive.", "quantifier": "all stacks, both polarisations, all amplitudes decaying in both claddings", "why_tests_cant": "an identity between a closed form and an integral over a continuum", "anchors": ["legume/gme/slab_modes.py:normalization_coeff", "legume/gme/slab_modes.py:I_alpha", "legume/gme/slab_modes.py:J_alpha"]}
{"id": "C36", "title": "Polarisation names are accepted uniformly", "statement": "guided_modes and rad_modes accept 'te'/'tm' in any letter case with the same result.", "quantifier": "all stacks, all spellings of the polarisation", "why_tests_cant": "ranges over all stacks and spellings; a wrong spelling changes a physical result silently", "anchors": ["legume/gme/slab_modes.py:guided_mode_given_g", "legume/gme/slab_modes.py:normalization_coeff", "legume/gme/slab_modes.py:rad_modes"]}
{"id": "C37", "title": "Basis fields obey Maxwell's equations inside every layer", "statement": "For every guided-mode basis function used by ft_field_xy, in every layer and both claddings, the H and D fields are divergence-free and D = -(i/omega) curl H (one fixed sign convention), for both polarisations.", "quantifier": "all stacks, all modes, all heights z inside a layer", "why_tests_cant": "identity at every height and for every stack", "anchors": ["legume/gme/gme.py:GuidedModeExp.ft_field_xy"]}
{"id": "C38", "title": "Reported bands are the requested ones, in ascending order", "statement": "For every k-point, run() reports numeig frequencies in ascending order; they are sqrt|lambda|/(2 pi) for numeig distinct eigenvalue indices, and no unreported eigenfrequency is closer to eig_sigma than a reported one; eigenvectors stay paired with their frequencies. If more eigenvalues are requested than the matrix has, ValueError is raised.", "quantifier": "all matrices, all numeig, all eig_sigma, any tie-breaking of the sort", "why_tests_cant": "unbounded spectra and arbitrary ties", "anchors": ["legume/gme/gme.py:GuidedModeExp.run", "legume/utils.py:find_nearest"]}
{"id": "C39", "title": "Reflection matrices are reflections through the wave-vector direction", "statement": "For every angle the constructed reflection matrix is an involution of determinant -1 that fixes the direction of k and preserves lengths; for every angle accepted for the lattice type it maps the reciprocal lattice onto itself.", "quantifier": "all angles; all lattices of type square, hexagonal, rectangular", "why_tests_cant": "the acceptance tables must be right for every lattice of the given type", "anchors": ["legume/gme/gme.py:GuidedModeExp._construct_sym_mat", "legume/gme/gme.py:GuidedModeExp._calculate_refl_mat"]}
{"id": "C40", "title": "The plane waves used at a k-point are mapped to themselves by the reflection", "statement": "If the reflection fixes k and maps the truncated reciprocal set to itself, then the subset of plane waves for which a guided mode exists at that k-point (a condition on |k+G| only) is also mapped to itself, so the partner of every used plane wave is found.", "quantifier": "all k, all G sets, all thresholds", "why_tests_cant": "quantifies over all symmetric configurations", "anchors": ["legume/gme/gme.py:GuidedModeExp._get_guided", "legume/gme/gme.py:GuidedModeExp._construct_mat", "legume/gme/gme.py:GuidedModeExp._ind_g"]}
{"id": "C41", "title": "The even/odd change of basis is orthogonal and diagonalises the reflection", "statement": "For every pairing of plane waves under a reflection and any list of guided modes, the dense routine's change-of-basis matrix is orthogonal, its columns are eigenvectors of the reflection (TE modes counted with the opposite sign) with eigenvalue +1 for the first even_count columns and -1 for the rest, and even_count + odd_count is the matrix size. The sparse routine builds a basis of the same even and odd subspaces.", "quantifier": "all involutive pairings of any size, all mode lists", "why_tests_cant": "unbounded sizes; overwriting order in the loop matters", "anchors": ["legume/gme/gme.py:GuidedModeExp._separate_hamiltonian_dense", "legume/gme/gme.py:GuidedModeExp._separate_hamiltonian_sparse"]}
{"id": "C42", "title": "Symmetry separation loses no mode", "statement": "If the Hamiltonian commutes with the reflection, the off-diagonal even/odd blocks are exactly zero, and a number is an eigenvalue of the Hamiltonian iff it is an eigenvalue of the even or of the odd block; an eigenvector of a block, padded with zeros and transformed back, is an eigenvector of the full Hamiltonian with the stated parity.", "quantifier": "all Hermitian matrices commuting with the reflection, all sizes", "why_tests_cant": "unbounded sizes", "anchors": ["legume/gme/gme.py:GuidedModeExp._separate_hamiltonian_dense", "legume/gme/gme.py:GuidedModeExp.run"]}
{"id": "C43", "title": "With kz_symmetry='both' every reported mode carries its correct parity label", "statement": "run(kz_symmetry='both') returns, for every selected mode, label +1 if it came from the even block and -1 if it came from the odd block, and does not fail because of the labelling.", "quantifier": "all even/odd block sizes, all selections of numeig modes", "why_tests_cant": "only fails for particular block sizes and selections", "anchors": ["legume/gme/gme.py:GuidedModeExp.run"]}
{"id": "C44", "title": "Symmetry separation tolerates guided modes above cut-off", "statement": "When a requested guided mode does not exist for any plane wave at a k-point, run() without symmetry skips it; run() with kz_symmetry skips it in the same way.", "quantifier": "all lists of requested modes and all existence patterns", "why_tests_cant": "depends on physics of each k-point", "anchors": ["legume/gme/gme.py:GuidedModeExp._construct_mat", "legume/gme/gme.py:GuidedModeExp._separate_hamiltonian_dense"]}
{"id": "C45", "title": "run() does not depend on earlier runs", "statement": "Calling run() on a GuidedModeExp object gives the same stored results (freqs, eigvecs, kz_symms, freqs_im) as calling it with the same arguments on a freshly constructed object with the same structure, whatever runs (successful or failed) preceded it.", "quantifier": "all histories of run() calls with arbitrary options", "why_tests_cant": "unbounded histories including failures", "anchors": ["legume/gme/gme.py:GuidedModeExp.run", "legume/gme/gme.py:GuidedModeExp.compute_eps_inv", "legume/gme/gme.py:GuidedModeExp._construct_mat"]}
{"id": "C46", "title": "Radiative loss rates are non-negative and well defined", "statement": "For a mode of positive real frequency and non-negative total coupling, the computed imaginary frequency is the unique non-negative y with (x+iy)^2 having imaginary part equal to the coupling and real part the squared frequency; it is non-negative, strictly increasing in the coupling, and zero iff the coupling is zero.", "quantifier": "all frequencies and couplings", "why_tests_cant": "branch choice of a complex square root over a continuum", "anchors": ["legume/gme/gme.py:GuidedModeExp.compute_rad", "legume/gme/gme.py:GuidedModeExp.compute_rad_sp"]}
{"id": "C47", "title": "Modes below the light line have no radiative loss", "statement": "If for both claddings every plane wave has |k+G|^2 > eps_clad * omega^2, then compute_rad reports no radiative channels and exactly zero loss, and unbalance_sp is exactly 0.5.", "quantifier": "all modes, all plane-wave sets", "why_tests_cant": "all structures", "anchors": ["legume/gme/gme.py:GuidedModeExp._compute_rad_components", "legume/gme/gme.py:GuidedModeExp.run_im"]}
{"id": "C48", "title": "Polarisation unbalance is a ratio", "statement": "unbalance_sp lies in [0,1) for every mode, is below/above one half exactly when TE loss is smaller/larger than TM loss up to the 1e-15 regulariser, and is exactly 0.5 where there is no loss.", "quantifier": "all loss values", "why_tests_cant": "continuum", "anchors": ["legume/gme/gme.py:GuidedModeExp.run_im"]}
{"id": "C49", "title": "Plane-wave matrices are Hermitian and positive, so no frequency is invented", "statement": "For Hermitian positive semidefinite inverse permittivity, the PWE matrix of either polarisation is Hermitian with no negative eigenvalue, so the absolute value taken before the square root changes nothing; for a uniform permittivity eps the frequencies are |k+G|/(2 pi sqrt(eps)); multiplying the inverse permittivity by s multiplies every eigenvalue by s.", "quantifier": "all k, all plane-wave sets, all Hermitian positive inverse permittivities", "why_tests_cant": "unbounded sizes", "anchors": ["legume/pwe/pwe.py:PlaneWaveExp.run"]}
{"id": "C50", "title": "The eps_eff argument of PlaneWaveExp influences the result", "statement": "PlaneWaveExp(layer, eps_eff=e) uses e as effective permittivity, so that changing eps_eff changes the computed frequencies.", "quantifier": "all layers, all eps_eff values", "why_tests_cant": "an 'ignored argument' claim ranges over all values", "anchors": ["legume/pwe/pwe.py:PlaneWaveExp.__init__", "legume/pwe/pwe.py:PlaneWaveExp.run"]}
{"id": "C51", "title": "PWE fields are solutions of Maxwell's equations", "statement": "The Fourier coefficients of H and D returned by PlaneWaveExp.ft_field_xy are transverse to k+G and satisfy D = c (1/omega) curl H with the same unit constant c for every plane wave.", "quantifier": "all k, all plane-wave sets, all eigenvectors, both polarisations", "why_tests_cant": "per-component identity over all plane waves", "anchors": ["legume/pwe/pwe.py:PlaneWaveExp.ft_field_xy"]}
{"id": "C52", "title": "The plotted permittivity is the truncated Fourier series of the layer", "statement": "get_eps_xy (tbt) evaluates, at every point, the Fourier series of the layer over every difference of two plane waves in the basis, each difference counted once; for conjugate-symmetric transforms the value is real.", "quantifier": "all lattices, sizes, layers, points", "why_tests_cant": "unbounded sizes; duplicates are removed by a numerical unique", "anchors": ["legume/pwe/pwe.py:PlaneWaveExp.get_eps_xy", "legume/gme/gme.py:GuidedModeExp.get_eps_xy", "legume/utils.py:ftinv"]}
{"id": "C53", "title": "Exciton matrix is Hermitian and free excitons have the free dispersion", "statement": "For a Hermitian potential matrix the Schroedinger matrix built at any k is Hermitian; with zero potential its eigenvalues are hbar^2|k+G|^2/(2 M) in eV, and reported energies are these plus E0 with imaginary part loss; adding a constant c to the potential's G=0 component shifts every eigenvalue by c.", "quantifier": "all k, all plane-wave sets, all Hermitian potentials", "why_tests_cant": "unbounded sizes", "anchors": ["legume/exc/exc.py:ExcitonSchroedEq._compute_matrix", "legume/exc/exc.py:ExcitonSchroedEq.run"]}
{"id": "C54", "title": "The exciton potential can be plotted for both truncations", "statement": "ExcitonSchroedEq.get_pot_xy returns the truncated Fourier series of the potential for truncate_g='abs' and for 'tbt'.", "quantifier": "all excitonic structures", "why_tests_cant": "one branch is never exercised by the tests", "anchors": ["legume/exc/exc.py:ExcitonSchroedEq.get_pot_xy", "legume/utils.py:ftinv"]}
{"id": "C55", "title": "The Hopfield spectrum is symmetric about zero", "statement": "For a single quantum well, and for any number of photonic and excitonic states, if lambda is an eigenvalue of the generalised Hopfield matrix then so is -lambda, with an eigenvector obtained by exchanging the two halves and flipping the exciton signs; with zero oscillator strength the eigenvalues are plus and minus the bare photon and exciton energies.", "quantifier": "all sizes, all couplings", "why_tests_cant": "unbounded sizes", "anchors": ["legume/pol/pol.py:HopfieldPol._construct_Hopfield", "legume/pol/pol.py:HopfieldPol._calculate_C_D"]}
{"id": "C56", "title": "Photonic and excitonic fractions partition each polariton", "statement": "For every eigenvector of unit norm the excitonic and photonic fractions are each in [0,1] and add up to 1, for any number of photonic states, excitonic states and quantum wells.", "quantifier": "all eigenvectors, all numbers of states and wells", "why_tests_cant": "index ranges must tile the vector for all sizes", "anchors": ["legume/pol/pol.py:HopfieldPol._calculate_fraction"]}
{"id": "C57", "title": "The diamagnetic term is summed over all quantum wells everywhere in the Hopfield matrix", "statement": "With several quantum wells, every D entry of the Hopfield matrix (diagonal photon blocks and photon/anti-photon blocks) is the sum of the D matrices of all wells.", "quantifier": "any number of wells, all couplings", "why_tests_cant": "requires two or more wells with different couplings", "anchors": ["legume/pol/pol.py:HopfieldPol._construct_Hopfield"]}
{"id": "C58", "title": "All positive-energy polaritons are reported", "statement": "HopfieldPol.run reports, for each k, one energy for each positive-energy eigenvalue of the Hopfield matrix, in ascending order of real part.", "quantifier": "all sizes, all spectra symmetric about zero", "why_tests_cant": "unbounded spectra", "anchors": ["legume/pol/pol.py:HopfieldPol.run"]}
{"id": "C59", "title": "Adam respects the bounds", "statement": "With bounds lb <= ub given in either documented form, the parameters returned by adam (Nepochs >= 1) lie within the bounds component-wise, as do the parameters at every objective evaluation after the first, whatever the objective and its gradient return.", "quantifier": "all objectives and gradients, all numbers of parameters and epochs, all hyper-parameters", "why_tests_cant": "objective and gradient are arbitrary functions; histories unbounded", "anchors": ["legume/minimize.py:Minimize.adam", "legume/minimize.py:Minimize._parse_bounds"]}
{"id": "C60", "title": "Adam's objective history matches the parameters it returns", "statement": "adam returns exactly Nepochs objective values; the last one is the objective at the returned parameters; a second call starts afresh.", "quantifier": "all objectives, starting points, bounds and epoch counts >= 1", "why_tests_cant": "histories unbounded; corner case Nepochs = 1", "anchors": ["legume/minimize.py:Minimize.adam"]}
{"id": "C61", "title": "Adam does not modify the caller's starting point", "statement": "The array passed as pstart is unchanged after adam returns.", "quantifier": "all starting points, bounds, epoch counts", "why_tests_cant": "aliasing shows only for particular epoch counts", "anchors": ["legume/minimize.py:Minimize.adam"]}
{"id": "C62", "title": "Bias-corrected Adam steps are scale-free and bounded", "statement": "For a constant gradient g every Adam update equals step_size * g/(|g|+1e-8) for all iterations; in general the first update has magnitude less than step_size in every component and the sign opposite to the gradient.", "quantifier": "all gradients, all iteration numbers, all beta1, beta2 in [0,1)", "why_tests_cant": "all iterations", "anchors": ["legume/minimize.py:Minimize._step_adam"]}
{"id": "C63", "title": "pass_self hands the optimiser to every objective evaluation", "statement": "With pass_self=True, both adam and lbfgs call the objective with the optimiser object as last argument at every evaluation.", "quantifier": "all objectives and argument tuples", "why_tests_cant": "every evaluation, including the first one", "anchors": ["legume/minimize.py:Minimize.adam", "legume/minimize.py:Minimize.lbfgs"]}
{"id": "C64", "title": "Hand-written gradients are the true adjoints", "statement": "For extend, spdot, inv and interp (query inside the node range), the hand-written vector-Jacobian product is the adjoint of the derivative of the forward function: for every cotangent v and tangent t, <vjp(v), t> = <v, d f(t)>. For toeplitz_block the sum of both products is the adjoint on all inputs where T1 and T2 are consistent as produced by the solvers.", "quantifier": "all sizes, all index lists without repetition, all cotangents and tangents", "why_tests_cant": "unbounded sizes; finite-difference tests only sample", "anchors": ["legume/primitives.py:vjp_maker_extend", "legume/primitives.py:vjp_maker_TB_T1", "legume/primitives.py:vjp_maker_TB_T2", "legume/primitives.py:vjp_maker_inv", "legume/primitives.py:vjp_maker_spdot", "legume/primitives.py:vjp_maker_interp"]}
{"id": "C65", "title": "Backend selection is a clean switch", "statement": "set_backend('numpy'|'autograd') and set_print_backend('base'|'rich'|...) select that backend; any other name, or an unavailable one, raises ValueError and leaves the current backend unchanged; after any sequence of calls the active backend is that of the last successful call.", "quantifier": "all sequences of calls with arbitrary names, with and without the optional packages", "why_tests_cant": "unbounded histories and arbitrary strings", "anchors": ["legume/backend.py:set_backend", "legume/print_backend.py:set_print_backend"]}
{"id": "C66", "title": "Unit conversion is a positive proportionality and rejects bad lattice constants", "statement": "from_freq_to_e(a) raises ValueError for every a <= 0 and otherwise returns a positive factor inversely proportional to a.", "quantifier": "all numbers a", "why_tests_cant": "includes the boundary value 0", "anchors": ["legume/utils.py:from_freq_to_e"]}
{"id": "C67", "title": "find_nearest returns the N closest entries", "statement": "find_nearest(arr, v, N) returns N distinct valid indices such that every index not returned is at least as far from v as every returned one, in order of non-decreasing distance.", "quantifier": "all arrays, values and N <= len(arr), any tie-breaking", "why_tests_cant": "arbitrary ties", "anchors": ["legume/utils.py:find_nearest"]}
{"id": "C68", "title": "The Redheffer star product is associative with an identity", "statement": "RedhefferStar is associative wherever all its denominators are non-zero, and the S-matrix of empty space is a two-sided identity.", "quantifier": "all complex 2x2 S-matrices", "why_tests_cant": "algebraic law over a continuum", "anchors": ["legume/utils.py:RedhefferStar"]}
{"id": "C69", "title": "Numerical gradient is exact on affine functions and leaves its argument alone", "statement": "grad_num(f, x) returns the exact gradient for every affine f and any non-zero step, has one entry per component of x in the same shape, and does not modify x; for a quadratic f the error is exactly step times the second-order coefficient.", "quantifier": "all affine (quadratic) functions, all argument sizes, all steps", "why_tests_cant": "all sizes", "anchors": ["legume/utils.py:grad_num"]}
{"id": "C70", "title": "GDS export is all-or-nothing", "statement": "generate_gds either writes one file containing one polygon per shape, with exactly the shape's distinct vertices in order and the structure's coordinates, or raises before writing anything; polygonal shapes of every class are exported.", "quantifier": "all layers and shape lists", "why_tests_cant": "all shape lists", "anchors": ["legume/gds.py:generate_gds"]}
{"id": "C71", "title": "Progress bar has constant width", "statement": "For every completion percentage from 0 to 100 and every bar precision the textual bar has the same length, the filled part never exceeds it and is monotone in the percentage.", "quantifier": "all percentages and precisions", "why_tests_cant": "continuum of percentages", "anchors": ["legume/print_utils.py:load_bar"]}
{"id": "C72", "title": "Reading results before running gives an empty result", "statement": "Reading the result attributes (freqs, eigvecs, kpoints, kz_symms, ...) of a solver that has not been run returns an empty list rather than raising.", "quantifier": "all solver objects, all result attributes", "why_tests_cant": "per attribute and class; omitted initialisations are invisible to tests that always run first", "anchors": ["legume/gme/gme.py:GuidedModeExp", "legume/pwe/pwe.py:PlaneWaveExp", "legume/exc/exc.py:ExcitonSchroedEq", "legume/pol/pol.py:HopfieldPol"]}
{"id": "C73", "title": "Plot abscissa is monotone and spans the unit interval", "statement": "calculate_x returns one abscissa per k-point, non-decreasing; with k_units they run from 0 to 1 proportionally to path length.", "quantifier": "all k-paths of at least two distinct points", "why_tests_cant": "unbounded paths", "anchors": ["legume/viz.py:calculate_x"]}
{"id": "C74", "title": "The light line is the lowest frequency at which some cladding radiates", "statement": "The light line plotted for wave vector k is the smallest omega/(2 pi) at which some cladding satisfies eps*omega^2 >= |k|^2; so a frequency below it has no radiation channel with wave vector k.", "quantifier": "all k, all positive cladding permittivities", "why_tests_cant": "continuum", "anchors": ["legume/viz.py:_calculate_LL"]}
{"id": "C75", "title": "Field component selection", "statement": "get_field_* returns exactly the requested components, each once, with later duplicates harmless; a field name other than the allowed ones or a component other than x, y, z raises ValueError before any field is computed.", "quantifier": "all component strings", "why_tests_cant": "all strings", "anchors": ["legume/gme/gme.py:GuidedModeExp.get_field_xy", "legume/gme/gme.py:GuidedModeExp.ft_field_xy", "legume/pwe/pwe.py:PlaneWaveExp.get_field_xy"]}
{"id": "C76", "title": "The homogeneous-layer shortcut is only taken for layers with a diagonal permittivity matrix", "statement": "compute_eps_inv replaces a layer's inverse permittivity matrix by a multiple of the identity only when the layer's permittivity matrix is diagonal within 1e-10; otherwise the stored matrix is the inverse of the permittivity matrix.", "quantifier": "all lattices, truncations and conjugate-symmetric layer transforms", "why_tests_cant": "the 'tbt' test inspects only one quadrant of differences; layers that slip through have to be constructed on purpose", "anchors": ["legume/gme/gme.py:GuidedModeExp.compute_eps_inv"]}
{"id": "C77", "title": "Matrix elements are overlap integrals", "statement": "For every pair of guided-mode basis functions, the matrix element computed by mat_te_te / mat_te_tm / mat_tm_te / mat_tm_tm equals the sum over the layers of the layer's inverse-permittivity Fourier component times the integral over the layer of conj(curl field of the first) . (curl field of the second).", "quantifier": "all layer stacks, thicknesses, wave vectors, polarizations, amplitudes and inverse permittivity matrices for which the integrals converge", "why_tests_cant": "A test compares a few numbers with a quadrature; the closed forms must agree with the integrals for every wave vector, amplitude and thickness, including evanescent and mixed cases.", "anchors": ["legume/gme/matrix_elements.py:10-168", "legume/gme/gme.py:523-643"]}
{"id": "C78", "title": "The electric field is the displacement divided by the permittivity", "statement": "In every layer, the Fourier components returned by ft_field_xy for 'E', multiplied by the layer's permittivity matrix, are the components it returns for 'D' at the same height, whenever the stored inverse is the inverse of that matrix.", "quantifier": "all stacks, heights, modes and eigenvectors", "why_tests_cant": "a test compares one structure; here the layer lookup and the matrix product have to match at every height", "anchors": ["legume/gme/gme.py:1914-2124"]}
{"id": "C79", "title": "A symmetric structure's GME matrix commutes with the reflection and always separates", "statement": "If the plane-wave set and the inverse-permittivity matrices are unchanged by the reflection and the reflection fixes k, then the assembled GME matrix commutes with the reflection (TE functions counted with an extra sign), so that both the dense and the sparse routine find every partner plane wave, separate the matrix exactly, and raise an exception only when all basis functions have one parity.", "quantifier": "all symmetric plane-wave sets, permittivity matrices, mode tables, k and thresholds", "why_tests_cant": "quantifies over all symmetric structures and all sizes; tests only see that the off-diagonal block is small for one structure", "anchors": ["legume/gme/gme.py:GuidedModeExp._construct_mat", "legume/gme/gme.py:GuidedModeExp._separate_hamiltonian_dense", "legume/gme/gme.py:GuidedModeExp._separate_hamiltonian_sparse"]}
{"id": "C80", "title": "Loss rates do not depend on the phase of the eigenvector", "statement": "Multiplying a stored eigenvector by a complex number of modulus one leaves freqs_im, the TE and TM rates and the diffraction orders of the mode unchanged and multiplies every coupling constant by the conjugate of that number.", "quantifier": "all modes, eigenvectors and phases", "why_tests_cant": "eigenvector phases are arbitrary and chosen by LAPACK; a test compares with one phase only", "anchors": ["legume/gme/gme.py:GuidedModeExp._compute_rad_components"]}
{"id": "C81", "title": "The radiation channels are the diffraction orders inside the light cone, each with a finite density of states", "statement": "rad_gvec lists exactly the reciprocal vectors with |k+G| strictly inside the light cone of the cladding, rad_coup has one coupling per listed vector and polarisation, and the density of states of every listed channel is finite.", "quantifier": "all modes and plane-wave sets", "why_tests_cant": "equality |k+G|^2 = eps*omega^2 is hit only on a set of measure zero in the parameters", "anchors": ["legume/gme/gme.py:GuidedModeExp._compute_rad_components"]}
{"id": "C82", "title": "kz_symmetry 'odd' or 'even' reports exactly the nearest modes of that parity", "statement": "When the Hamiltonian commutes with the reflection, run(kz_symmetry='odd'|'even') reports the numeig eigenmodes of that parity that are nearest to eig_sigma, in ascending order of frequency, with eigenvectors of that parity; if the block has fewer than numeig states it raises ValueError.", "quantifier": "all Hermitian matrices commuting with the reflection, all plane-wave sets closed under it, all numeig and eig_sigma", "why_tests_cant": "arbitrary matrices and block sizes", "anchors": ["legume/gme/gme.py:GuidedModeExp.run", "legume/gme/gme.py:GuidedModeExp._separate_hamiltonian_dense"]}
{"id": "C83", "title": "compute_im never breaks a run", "statement": "If run(compute_im=False) succeeds with the dense solver and no symmetry, then run(compute_im=True) with otherwise equal arguments succeeds too, with the same frequencies and eigenvectors and one row of losses per k-point.", "quantifier": "all structures, options and k-points", "why_tests_cant": "the loss computation has its own indexing over modes, layers and channels, which differs at every k-point", "anchors": ["legume/gme/gme.py:GuidedModeExp.run", "legume/gme/gme.py:GuidedModeExp.run_im"]}
{"id": "C84", "title": "PWE eigenvectors are magnetic fields of modes", "statement": "For every band with non-zero frequency omega, the H coefficients returned by PlaneWaveExp.ft_field_xy satisfy curl (1/eps) (i/omega) curl H = i omega H plane wave by plane wave, and H is not zero, for both polarisations.", "quantifier": "all layers with positive permittivity matrix, all k, all bands, all eigensolvers", "why_tests_cant": "an identity between program output and Maxwell's equations for every crystal and every solver", "anchors": ["legume/pwe/pwe.py:PlaneWaveExp.run", "legume/pwe/pwe.py:PlaneWaveExp.ft_field_xy"]}
{"id": "C85", "title": "PWE permittivity matrix and map use every difference of plane waves exactly once", "statement": "The matrix assembled from Toeplitz blocks has entries eps(G_i - G_j), is Hermitian, and get_eps_xy equals the Fourier series over all distinct differences, which is real.", "quantifier": "all lattices, cutoffs and layers with a conjugate-symmetric transform", "why_tests_cant": "index bookkeeping of Toeplitz blocks for unbounded sizes", "anchors": ["legume/pwe/pwe.py:PlaneWaveExp._compute_ft", "legume/pwe/pwe.py:PlaneWaveExp._compute_eps_inv", "legume/pwe/pwe.py:PlaneWaveExp.get_eps_xy"]}
{"id": "C86", "title": "PWE frequencies do not depend on the eigensolver", "statement": "Two runs that use any two correct eigensolvers, inverses and sorting routines return the same list of frequencies, also with degenerate bands and when fewer than all bands are kept.", "quantifier": "all correct solvers, all crystals, all numeig", "why_tests_cant": "quantifies over solvers", "anchors": ["legume/pwe/pwe.py:PlaneWaveExp.run"]}
{"id": "C87", "title": "PWE runs do not depend on earlier runs", "statement": "Running an object that has been run any number of times before ends with the same outcome as running a fresh one, and a successful run leaves the same object behind; an unknown polarisation is a ValueError and an empty list of k-points an UnboundLocalError.", "quantifier": "all histories of runs", "why_tests_cant": "unbounded histories", "anchors": ["legume/pwe/pwe.py:PlaneWaveExp.run"]}
{"id": "C88", "title": "Exciton Hamiltonian contains V(G-G')", "statement": "Entry (i,j) of the potential part of the exciton matrix is the Fourier coefficient V(G_i - G_j) of the potential, for both truncations, so that the computed levels are those of the structure the user drew and not of a mirror image.", "quantifier": "all structures, lattices, cutoffs and index pairs", "why_tests_cant": "sign of a difference for every index pair; tests use centrosymmetric shapes, which hide it", "anchors": ["legume/exc/exc.py:ExcitonSchroedEq._compute_pot_ft_abs", "legume/exc/exc.py:ExcitonSchroedEq._compute_pot_ft_tbt", "legume/exc/exc.py:ExcitonSchroedEq._compute_matrix"]}
{"id": "C89", "title": "Exciton energies depend on neither the eigensolver nor earlier runs", "statement": "Two runs with any correct eigensolvers and sorting routines report the same energies; a run after any history of runs, failed ones included, ends as a run of a fresh object; an empty list of k-points and a well in a cladding are errors.", "quantifier": "all correct solvers, all histories", "why_tests_cant": "quantifies over solvers and unbounded histories", "anchors": ["legume/exc/exc.py:ExcitonSchroedEq.run", "legume/exc/exc.py:ExcitonSchroedEq.__init__"]}
{"id": "C90", "title": "Real energies without losses", "statement": "With real positive photonic frequencies and exciton energies and real D the Hopfield matrix has only real eigenvalues, whatever the number of wells.", "quantifier": "all systems without losses", "why_tests_cant": "spectrum of every matrix the constructor can build; tests use one well", "anchors": ["legume/pol/pol.py:HopfieldPol._construct_Hopfield"]}
{"id": "C91", "title": "Energies do not depend on phases of the modes", "statement": "Multiplying each photonic mode and each exciton envelope by an arbitrary phase, which the eigensolvers leave free, does not change the polariton energies.", "quantifier": "all phases, all systems", "why_tests_cant": "the phases are chosen by the eigensolver; a test sees one choice", "anchors": ["legume/pol/pol.py:HopfieldPol._construct_Hopfield", "legume/pol/pol.py:HopfieldPol._calculate_C_D"]}
{"id": "C92", "title": "Two coupled oscillators", "statement": "For one photonic mode w and one exciton level E without losses, the eigenvalues are exactly the roots of l^4 - (w^2 + E^2 + 4 w g / E) l^2 + w^2 E^2 with g the squared modulus of the coupling.", "quantifier": "all frequencies, energies and couplings", "why_tests_cant": "an identity for all real parameters", "anchors": ["legume/pol/pol.py:HopfieldPol._construct_Hopfield"]}
{"id": "C93", "title": "Energies do not depend on the order of the wells", "statement": "Adding the same quantum wells in another order gives the same polariton energies.", "quantifier": "all structures with several wells, all orders", "why_tests_cant": "quantifies over permutations of unbounded lists", "anchors": ["legume/pol/pol.py:HopfieldPol._construct_Hopfield", "legume/phc/phc.py:PhotCryst.add_qw"]}
{"id": "C94", "title": "Wrong use of the polariton solver is an error", "statement": "A structure without quantum wells or with wells of different lattice constants is refused with ValueError by the constructor; a run over no k-points fails with UnboundLocalError.", "quantifier": "all structures and options", "why_tests_cant": "quantifies over all structures", "anchors": ["legume/pol/pol.py:HopfieldPol.__init__", "legume/pol/pol.py:HopfieldPol.run"]}
{"id": "C95", "title": "Adam's steps are bounded for every history of gradients", "statement": "For beta1^2 < beta2 every update, at every iteration and whatever the gradients were, is at most step_size (1-beta1)/(1-beta1^t) sqrt((1-beta2^t)/((1-beta2)(1-beta1^2/beta2))) in magnitude; step_size alone is no bound (an update can be more than twice step_size with the default betas).", "quantifier": "all gradient histories, all iterations, all hyper-parameters", "why_tests_cant": "all histories; the large step needs hundreds of iterations", "anchors": ["legume/minimize.py:Minimize._step_adam"]}
{"id": "C96", "title": "lbfgs' history is that of the points reported", "statement": "If scipy calls back with the point it evaluated last, of_list holds the objective at the starting point and at each point called back with, and self.params is the last of them.", "quantifier": "all objectives, all such minimisers", "why_tests_cant": "scipy is an arbitrary strategy", "anchors": ["legume/minimize.py:Minimize.lbfgs"]}
{"id": "C97", "title": "Bounds are parsed or refused", "statement": "_parse_bounds accepts the documented forms with their meaning, gives one pair per parameter, raises nothing but ValueError, and refuses undocumented forms.", "quantifier": "all Python values as bounds, all parameter counts", "why_tests_cant": "infinitely many input shapes", "anchors": ["legume/minimize.py:Minimize._parse_bounds"]}
{"id": "C98", "title": "Numerical vector-Jacobian products are exact for affine functions", "statement": "The vjp made by vjp_maker_num(fn) returns v^T J for every function affine in the argument, every cotangent and non-zero step, in the shape of the argument.", "quantifier": "all affine functions, all argument shapes and sizes, all cotangents, all steps", "why_tests_cant": "infinitely many functions and shapes", "anchors": ["legume/utils.py:vjp_maker_num"]}
{"id": "C99", "title": "A rasterised GDS stays in the unit cell", "statement": "generate_gds_raster writes one polygon per contour, inside the unit cell, and the cell's outline if cell_bound is set and only then.", "quantifier": "all lattices, rasters and contours, both values of cell_bound", "why_tests_cant": "all contours of all rasters", "anchors": ["legume/gds.py:generate_gds_raster"]}
{"id": "C100", "title": "The plotted quality factor is omega/(2 gamma)", "statement": "For omega > 0 and gamma >= 0, _calculate_Q is finite, positive, strictly decreasing in gamma, below omega/(2 gamma) and within a relative error 1e-16/gamma of it.", "quantifier": "all frequencies and loss rates", "why_tests_cant": "all real pairs", "anchors": ["legume/viz.py:_calculate_Q"]}
{"id": "C101", "title": "ft2square arranges Fourier components on a square grid", "statement": "For a 'square' or 'hexagonal' lattice ft2square returns the array whose entry at the index of G is the coefficient of G; for other lattices it raises NotImplementedError.", "quantifier": "all lattices, all sets of reciprocal vectors and coefficients", "why_tests_cant": "all inputs", "anchors": ["legume/utils.py:ft2square"]}
{"id": "C102", "title": "The gradient of eigh is the true adjoint", "statement": "For Hermitian matrices read from either triangle, the vector-Jacobian product of eigh is the adjoint of the derivative of eigenvalues and eigenvectors; degenerate eigenvalues are allowed when the loss uses eigenvalues only; eigenvectors up to their phase.", "quantifier": "all sizes, both values of UPLO, all curves of matrices with differentiable eigenvectors, all cotangents", "why_tests_cant": "finite differences sample matrices; phases and degeneracies are measure-zero cases", "anchors": ["legume/primitives.py:vjp_maker_eigh"]}
{"id": "C103", "title": "The gradient of eigsh is the true adjoint", "statement": "For every number k of eigenpairs of a Hermitian matrix, the vector-Jacobian product of eigsh is the adjoint of the derivative, provided conjugate gradient solves the systems it is given.", "quantifier": "all sizes n, all k <= n, all curves of matrices, all cotangents, all solvers meeting the contract", "why_tests_cant": "all matrices and all solver outcomes", "anchors": ["legume/primitives.py:vjp_maker_eigsh"]}
{"id": "C104", "title": "The gradient of fsolve is that of the implicit function", "statement": "If f has partial derivatives at the root and that with respect to the unknown is not 0, every continuous branch of roots is differentiable and the products of vjp_factory_fsolve give its derivative.", "quantifier": "all functions, all numbers of parameters, all curves of parameters", "why_tests_cant": "all functions", "anchors": ["legume/primitives.py:vjp_factory_fsolve"]}
{"id": "C105", "title": "The gradients of sqrt and fmap", "statement": "The product of sqrt is, for x >= 0, the derivative of sqrt(x + 1e-10): finite at 0, bounded by 5e4, and within a relative error 5e-11/x of that of sqrt(x). The product of fmap is the chain rule applied to the gradients of its functions.", "quantifier": "all x >= 0, all cotangents; all non-empty lists of functions, all parameters", "why_tests_cant": "all real numbers, all functions", "anchors": ["legume/primitives.py:vjp_maker_sqrt", "legume/primitives.py:vjp_maker_fmap"]}
{"id": "C106", "title": "The gradient of eig can be computed", "statement": "Calling the vector-Jacobian product of eig returns an array for every square matrix.", "quantifier": "all matrices, all cotangents", "why_tests_cant": "no test of the repository differentiates eig", "anchors": ["legume/primitives.py:vjp_maker_eig"]}
{"id": "C107", "title": "The vertical grid spans the structure", "statement": "After any history with at least one layer, z_grid(Nz, dist) has Nz evenly spaced heights from dist below the stack to dist above it; without layers it raises IndexError.", "quantifier": "all histories, all Nz, all distances", "why_tests_cant": "all histories", "anchors": ["legume/phc/phc.py:PhotCryst.z_grid"]}
{"id": "C108", "title": "Radiation modes scatter correctly", "statement": "When the plane wave is propagating in the cladding asked for, rad_modes returns the amplitudes of the state with exactly one incoming wave, in that cladding and of amplitude 1 (1/(sqrt(eps) omega) for 'te'): continuous at every interface, with no incoming wave from the other side. That state is unique, and the power flowing through the two claddings is the same.", "quantifier": "all stacks with at least one layer and positive permittivities, all frequencies and in-plane wave vectors with no layer exactly at its light line, both polarisations in any spelling, both claddings", "why_tests_cant": "all stacks with any number of layers, real parameters", "anchors": ["legume/gme/slab_modes.py:rad_modes", "legume/gme/slab_modes.py:S_T_matrices_TE", "legume/gme/slab_modes.py:S_T_matrices_TM"]}
{"id": "C109", "title": "Guided modes are interpolated linearly", "statement": "The frequency and the amplitudes _get_guided returns for a plane wave are the linear interpolation, at |G + k|, of the table of that mode, all three with the same weights, constant outside the table; the vertical wave vectors are computed from the interpolated frequency.", "quantifier": "all tables with ascending wave vectors, all plane waves, all modes", "why_tests_cant": "all tables and real wave vectors; tests look at a few structures", "anchors": ["legume/gme/gme.py:GuidedModeExp._get_guided", "legume/gme/gme.py:GuidedModeExp._get_chi"]}
{"id": "C110", "title": "Fields are continuous at interfaces", "statement": "At every interface of a stack, a basis function whose amplitudes obey the matching conditions gives the same H, the same normal component of D and the same tangential D/eps when evaluated with the formula of the layer below and with the formula of the layer above.", "quantifier": "all histories of building a structure, all permittivities different from zero, all interfaces, both polarisations", "why_tests_cant": "all stacks with any number of layers, real parameters", "anchors": ["legume/gme/gme.py:GuidedModeExp.ft_field_xy", "legume/phc/phc.py:PhotCryst.add_layer"]}
{"id": "C111", "title": "Radiative couplings are overlaps with scattering states", "statement": "The coupling of a photonic crystal mode to an open channel of a cladding is sqrt(pi rho), with rho = eps/(4 pi sqrt(eps omega^2 - g^2)), times (-i for TE) the sum over all basis functions of the conjugated expansion coefficient times the sum over layers of the inverse permittivity's Fourier component times the overlap integral of the basis function's curl field with that of the one slab state with an incoming wave from that cladding at the channel's wave vector.", "quantifier": "all structures, all modes and channels away from the light lines, both claddings and polarisations", "why_tests_cant": "real parameters, every number of layers and plane waves; tests compare total rates of a few structures with stored numbers", "anchors": ["legume/gme/gme.py:GuidedModeExp._compute_rad_components", "legume/gme/gme.py:GuidedModeExp._get_rad", "legume/gme/slab_modes.py:rad_modes", "legume/gme/matrix_elements.py"]}
{"id": "C112", "title": "Circle and ellipse transforms are Fourier integrals of the inside test", "statement": "For every circle and every (tilted) ellipse with positive radii and every reciprocal vector G, compute_ft differs from the two-dimensional Fourier integral of the characteristic function given by is_inside by at most 1e-10 pi r^3 (circle) or 1e-10 pi r_x r_y (ellipse), the effect of the 1e-10 regulariser of |G|.", "quantifier": "all centres, radii, tilts and reciprocal vectors", "why_tests_cant": "infinitely many real parameters and an integral on the other side; tests compare with a rasterised average at a few points", "anchors": ["legume/phc/shapes.py:Circle.compute_ft", "legume/phc/shapes.py:Circle.is_inside", "legume/phc/shapes.py:Ellipse.compute_ft", "legume/phc/shapes.py:Ellipse.is_inside"]}
{"id": "C113", "title": "Mode tables of a run: nodes and rows", "statement": "After every successful run the tables kept for a k-point hold guided modes on the nodes they were asked for: with gmode_compute 'exact' the nodes are a sorted permutation of the |G+k| (with k_x moved by delta_gx), with 'interp' an equally spaced grid from 0 to the largest |G| plus the largest |k|, all nodes but the last lowered by delta_gabs; the TE table belongs to the even, the TM table to the odd requested indices, and row m lists mode m over exactly the nodes that have it. When no mode is lost between nodes, row m belongs to the last nodes and what a plane wave uses is the linear interpolation between neighbouring nodes' m-th modes.", "quantifier": "all structures, k-points, options, root finders and eigensolvers for which the run succeeds", "why_tests_cant": "the tables are internal, of data-dependent shape (a different number of modes at every node), and misalignment changes the bands only slightly", "anchors": ["legume/gme/gme.py:GuidedModeExp._compute_guided", "legume/gme/gme.py:GuidedModeExp.run", "legume/gme/gme.py:GuidedModeExp._get_guided", "legume/gme/gme.py:GuidedModeExp._construct_mat", "legume/gme/slab_modes.py:guided_modes"]}
{"id": "C114", "title": "Exciton wave functions", "statement": "After every successful exciton run ft_wavef_xy(kind, mind) returns the eigenvector of the Schroedinger operator at k-point kind that belongs to the mind-th reported energy; get_wavef_xy is the sum of its plane waves at every mesh point, lattice periodic, and the functions of one k-point are orthonormal in the mean over the unit cell; indices out of range are IndexErrors.", "quantifier": "all structures, potentials, truncations, k-points, eigensolvers", "why_tests_cant": "needs the eigenvectors for infinitely many potentials and an integral over the cell; tests look at energies only", "anchors": ["legume/exc/exc.py:ExcitonSchroedEq.ft_wavef_xy", "legume/exc/exc.py:ExcitonSchroedEq.get_wavef_xy", "legume/exc/exc.py:ExcitonSchroedEq.run", "legume/utils.py:ftinv"]}
{"id": "C115", "title": "Plane-wave expansion: fields in real space", "statement": "get_field_xy of the plane-wave expansion returns exactly the requested components of the field with the coefficients of ft_field_xy, at every mesh point; E is the run's inverse permittivity matrix applied to D; the magnetic fields of the bands at one k-point are lattice periodic and orthonormal in the mean over the unit cell, for both polarisations.", "quantifier": "all lattices, layers, k-points, polarisations, component strings, mesh sizes, eigensolvers and matrix inverses", "why_tests_cant": "orthonormality is a statement about integrals for all structures; tests plot a few fields at most", "anchors": ["legume/pwe/pwe.py:PlaneWaveExp.get_field_xy", "legume/pwe/pwe.py:PlaneWaveExp.ft_field_xy", "legume/pwe/pwe.py:PlaneWaveExp.run", "legume/utils.py:ftinv"]}
{"id": "C116", "title": "Guided-mode expansion: frequencies do not depend on the eigensolver", "statement": "With eig_sigma <= 0 (default 0) a dense run without symmetry separation reports, at every k-point, the numeig smallest frequencies of the matrix assembled there; two eigensolvers and sorting routines that meet their contracts give identical frequency lists, and at eig_sigma = 0 the sparse solver 'eigsh' gives the frequencies of 'eigh' wherever the matrix has no zero eigenvalue. For positive eig_sigma this fails: when two bands lie at the same distance from it the reported band depends on how argsort breaks the tie.", "quantifier": "all structures, options, k-point lists, object states, eigensolvers and sorting routines", "why_tests_cant": "eigenvectors of degenerate levels and ties are chosen by the linked LAPACK; a test sees one library", "anchors": ["legume/gme/gme.py:GuidedModeExp.run", "legume/utils.py:find_nearest"]}
{"id": "C117", "title": "The contracts assumed of numpy and scipy can be met", "statement": "For every input there are routines satisfying what the theorems assume of argsort (real and complex), linalg.inv, linalg.eigh (every Hermitian matrix has an orthonormal eigensystem), sparse eigsh, linalg.eig (all eigenvalues of any complex matrix) and of brentq on the characteristic function of any stack of layers, polarisation and wave vector.", "quantifier": "all sizes, all complex matrices, all layer stacks", "why_tests_cant": "existence for infinitely many inputs: the spectral theorem, the fundamental theorem of algebra and continuity of the characteristic function", "anchors": ["legume/gme/slab_modes.py:D22", "legume/gme/slab_modes.py:guided_mode_given_g", "legume/gme/gme.py:GuidedModeExp.run", "legume/pol/pol.py:HopfieldPol.run"]}
{"id": "C118", "title": "Guided modes of one slab search are orthogonal", "statement": "Two different guided modes returned for the same in-plane wave vector and polarisation have no component growing into the claddings, and the integral over all z of H1* . H2 is exactly zero, for any number of layers, TE and TM; with the unit normalisation (C35) this makes the slab modes at one g an orthonormal set, as the guided-mode expansion (a standard, not generalised, eigenproblem) presupposes.", "quantifier": "all layer stacks with positive permittivities, wave vectors, search steps and tolerances, root finders meeting their contract; modes with no layer exactly on its light line and non-zero normalisation", "why_tests_cant": "an improper integral over infinitely many stacks; the cancellation between layers is exact only symbolically", "anchors": ["legume/gme/slab_modes.py:guided_modes", "legume/gme/slab_modes.py:guided_mode_given_g", "legume/gme/slab_modes.py:AB_matrices", "legume/gme/slab_modes.py:normalization_coeff"]}
{"id": "C119", "title": "The text of an object lists what the object contains, in the units it names", "statement": "repr(phc) succeeds for every crystal and lists the lattice, every layer with its number and its shapes in the order added, and every quantum well with its number; every number printed by repr of the exciton solver and of a quantum well means, in the printed unit, the stored quantity. False of the code: one Ellipse anywhere makes repr raise NameError, and the exciton solver prints its losses 1000 times too small.", "quantifier": "all crystals, number formats and solver parameters", "why_tests_cant": "the shape that breaks repr is never printed in the tests; a unit error is not an exception", "anchors": ["legume/phc/shapes.py:Ellipse.__repr__", "legume/phc/layer.py:ShapesLayer.__repr__", "legume/phc/layer.py:QuantumWellLayer.__repr__", "legume/phc/phc.py:PhotCryst.__repr__", "legume/exc/exc.py:ExcitonSchroedEq.__repr__"]}
{"id": "C120", "title": "viz.shapes draws the outline of every shape and of its images in the cell", "statement": "For every list of shapes viz.shapes draws the outline of each shape and of those lattice images that reach into the drawn cell. False of the code: an Ellipse raises AttributeError, and images across a corner of the cell are not drawn; what holds is one exact outline for each shape and for each of its neighbours along plus and minus the primitive vectors.", "quantifier": "all lattices, shape lists, numbers of points, padding on or off", "why_tests_cant": "pictures are not compared by tests", "anchors": ["legume/viz.py:shapes", "legume/viz.py:_plot_circle"]}
{"id": "C121", "title": "viz.field draws the mode and viz.wavef the wave function", "statement": "The picture of a field component in any plane is the real part, imaginary part or modulus of u(r) (periodic = True) or of u(r) exp(i k.r) (periodic = False) at the points of the grid, the colour scale covers all values, and exactly one given coordinate chooses the plane. False of the code in the xy-plane (the phase is taken along the diagonal of the grid, and unequal grid sizes raise) and for a component letter given twice.", "quantifier": "all grids, wave vectors, fields, components and planes", "why_tests_cant": "pictures are not compared by tests; on the Gamma point and for |E| the error cannot be seen", "anchors": ["legume/viz.py:field", "legume/viz.py:wavef"]}
{"id": "C122", "title": "viz.bands draws every mode and shades the light cone", "statement": "bands draws each mode of each k-point at its path coordinate and frequency (or energy), coloured by symmetry or by quality factor, and shades exactly the region of modes that radiate into a cladding, for a GuidedModeExp or PlaneWaveExp. False of the code: every default call with a PlaneWaveExp fails, and colouring by quality factor fails when no mode is lossy.", "quantifier": "all structures, paths, frequencies, losses, symmetries and units", "why_tests_cant": "pictures are not compared by tests; correctness for all k and modes", "anchors": ["legume/viz.py:bands", "legume/viz.py:calculate_x", "legume/viz.py:_calculate_LL", "legume/viz.py:_calculate_Q"]}
{"id": "C123", "title": "Cross sections of a crystal show its permittivity", "statement": "eps_xy, eps_xz and eps_yz return, and draw with the right extent, an array in which every pixel holds the permittivity of a point that the pixel covers.", "quantifier": "all crystals built by adding layers and shapes, positions of the plane and grid sizes", "why_tests_cant": "all points of all crystals; pictures are not compared by tests", "anchors": ["legume/viz.py:eps_xy", "legume/viz.py:eps_xz", "legume/viz.py:eps_yz", "legume/viz.py:_plot_eps"]}
{"id": "C124", "title": "The panels of viz.structure and viz.eps_ft carry the titles of what they show", "statement": "Each panel shows the layer or cladding that its title names. False of the code: with cladding = True the titles of the layers are off by one against PhotCryst.layers, eps_ft fails when figure and gridspec are given and titles the layer of a plane-wave expansion as upper cladding.", "quantifier": "all crystals and grid sizes", "why_tests_cant": "pictures are not compared by tests", "anchors": ["legume/viz.py:structure", "legume/viz.py:eps_ft"]}
{"id": "C125", "title": "Wrong arguments are refused, with a fixed kind of error", "statement": "A wrong argument of a structure edit, of the permittivity map, of the cut-off or of run() always raises, and the class of the exception is fixed by the kind of mistake; a run() that is accepted had valid options; a run() refused for its options leaves the results of the run before in place although the stored k-points are already the new ones; a run() of a crystal without layers fails.", "quantifier": "all structures, edits, grids, cut-offs, options and k-points", "why_tests_cant": "tests check one or two wrong arguments, not that every wrong argument raises and that no result is overwritten", "anchors": ["legume/phc/phc.py:PhotCryst.add_shape", "legume/phc/phc.py:PhotCryst.add_layer", "legume/phc/phc.py:PhotCryst.add_qw", "legume/phc/layer.py:ShapesLayer.add_shape", "legume/phc/layer.py:ShapesLayer.get_eps", "legume/gme/gme.py:GuidedModeExp.run", "legume/gme/gme.py:GuidedModeExp._init_reciprocal_abs"]}
{"id": "C126", "title": "viz.pol_bands draws the polaritons, their quality factors or fractions, and the light cone", "statement": "After run(), pol_bands draws one marker for each polariton at its energy, coloured by excitonic fraction if asked for and otherwise by quality factor with Q_clip as upper end of the scale; the shaded region contains exactly the polaritons whose energy is that of light radiating into a cladding; the axes contain all markers; before run() it fails. False of the code: Q_clip is never used.", "quantifier": "all crystals, lattice constants, k-points, energies, losses and fractions, all options", "why_tests_cant": "pictures are not compared by tests; the cone must be right for all energies", "anchors": ["legume/viz.py:pol_bands"]}
{"id": "C127", "title": "viz.eps shows the layer and viz.pot_ft the potential of the well", "statement": "Every pixel of viz.eps has the permittivity of a point that it covers, of the last shape that covers the point; every pixel of viz.pot_ft has the value of the truncated Fourier series of the potential at a point it covers, within the colour scale. False of the code: the series overshoots the scale 0 to |V|, truncate_g = 'tbt' raises IndexError and a given figure with gridspec raises NameError.", "quantifier": "all lattices, layers, grid sizes, solvers and cut-offs", "why_tests_cant": "all points of all crystals; pictures are not compared by tests", "anchors": ["legume/viz.py:eps", "legume/viz.py:pot_ft", "legume/viz.py:_plot_eps"]}
{"id": "C128", "title": "The three field sections are sections of one field", "statement": "get_field_xy, get_field_xz and get_field_yz called with the same grid options use the same grids, and where the planes meet they return the same value of every component; viz.field draws the vertical sections, times the Bloch factor unless the periodic part is asked for.", "quantifier": "all crystals with a layer, modes, fields, components, planes, grids given or not", "why_tests_cant": "tests look at single points of single structures", "anchors": ["legume/gme/gme.py:GuidedModeExp.get_field_xy", "legume/gme/gme.py:GuidedModeExp.get_field_xz", "legume/gme/gme.py:GuidedModeExp.get_field_yz", "legume/viz.py:field"]}
{"id": "C129", "title": "HopfieldPol.run uses the options of this call and leaves the caller's dictionaries alone", "statement": "After any history of calls on any objects, run() gives the photonic solver the options passed in this call, the documented value for every other option, and the k-points of this call, and likewise every well; an unknown option raises TypeError before the solver in question changes; the dictionaries that the caller passed are unchanged. False of the code: the k-points are written into the caller's dictionaries (only that entry changes).", "quantifier": "all programs that create and change dictionaries and run any number of solver objects, with shared, given or omitted dictionaries", "why_tests_cant": "mutable default arguments misbehave only after particular histories", "anchors": ["legume/pol/pol.py:HopfieldPol.run", "legume/gme/gme.py:GuidedModeExp.set_run_options", "legume/exc/exc.py:ExcitonSchroedEq.set_run_options"]}
{"id": "C130", "title": "The texts of the solvers show the options in force", "statement": "repr of a GuidedModeExp, PlaneWaveExp or HopfieldPol succeeds at any time, lists gmax and no run options before the first run of that object, and after a run lists for every option that it names the value in force in the last run.", "quantifier": "all histories, options, number formats", "why_tests_cant": "texts are not tested; stale values appear only after several runs", "anchors": ["legume/gme/gme.py:GuidedModeExp.__repr__", "legume/pwe/pwe.py:PlaneWaveExp.__repr__", "legume/pol/pol.py:HopfieldPol.__repr__"]}
{"id": "C131", "title": "Moving the whole pattern does not change the bands", "statement": "If every shape of the layer is moved by the same vector, PlaneWaveExp.run returns the same frequencies.", "quantifier": "all lattices, cut-offs, layers whose permittivity matrix is positive and invertible, shapes, vectors, k-points, polarizations, numbers of bands", "why_tests_cant": "a continuum of displacements; tests compare single structures", "anchors": ["legume/pwe/pwe.py:PlaneWaveExp.run", "legume/pwe/pwe.py:PlaneWaveExp._compute_ft", "legume/phc/layer.py:ShapesLayer.compute_ft", "legume/phc/shapes.py:Circle.compute_ft"]}
{"id": "C132", "title": "Bands at k and -k agree", "statement": "PlaneWaveExp.run returns the same frequencies for a list of k-points and for the list of their opposites, whether or not the pattern has inversion symmetry.", "quantifier": "all lattices, cut-offs, real patterns, k-points, polarizations", "why_tests_cant": "all patterns and all k", "anchors": ["legume/pwe/pwe.py:PlaneWaveExp.run", "legume/pwe/pwe.py:PlaneWaveExp._compute_ft", "legume/phc/layer.py:ShapesLayer.compute_ft"]}
{"id": "C133", "title": "The bands have the point symmetry of the crystal", "statement": "If a rotation or reflection maps the lattice and the pattern to themselves, PlaneWaveExp.run returns the same frequencies at k and at the rotated k. False of the code: the plane waves of the hexagonal lattice fill a rhombus, so that a sixth of a turn changes the bands; true for operations that map the set of plane waves to itself.", "quantifier": "all lattices, cut-offs, patterns, operations, k-points", "why_tests_cant": "all symmetric crystals", "anchors": ["legume/pwe/pwe.py:PlaneWaveExp.run", "legume/pwe/pwe.py:PlaneWaveExp._compute_ft", "legume/phc/layer.py:ShapesLayer.compute_ft", "legume/pwe/pwe.py:PlaneWaveExp._init_reciprocal"]}
{"id": "C134", "title": "Lengths times s, frequencies divided by s", "statement": "A crystal in which all lengths are multiplied by s, with cut-off and k-points divided by s, has the bands divided by s. False of the code for every s: thresholds of 1e-10 in absolute units make the permittivity matrix singular for a huge lattice constant; true whenever the transforms scale.", "quantifier": "all lattices given by vectors, s > 0, cut-offs, k-points", "why_tests_cant": "all scale factors", "anchors": ["legume/pwe/pwe.py:PlaneWaveExp.run", "legume/pwe/pwe.py:PlaneWaveExp._compute_ft", "legume/phc/layer.py:ShapesLayer.compute_ft", "legume/phc/lattice.py:Lattice.__init__", "legume/pwe/pwe.py:PlaneWaveExp._init_reciprocal"]}
{"id": "C135", "title": "More permittivity, lower bands", "statement": "If the permittivity matrix of a second layer exceeds that of the first by a positive semidefinite matrix, no band of the second lies above the same band of the first; in particular when background and all shapes are raised by the same amount.", "quantifier": "all lattices, cut-offs, layers, amounts, k-points, polarizations, band indices", "why_tests_cant": "an inequality for all bands of all structures", "anchors": ["legume/pwe/pwe.py:PlaneWaveExp.run", "legume/pwe/pwe.py:PlaneWaveExp._compute_ft", "legume/phc/layer.py:ShapesLayer.compute_ft", "legume/pwe/pwe.py:PlaneWaveExp._compute_eps_inv"]}
{"id": "C136", "title": "Bands are periodic in k", "statement": "k-points that differ by a reciprocal lattice vector have the same frequencies. False of the code because the set of plane waves is finite and does not depend on k; opposite points b/2 and -b/2 of the zone boundary agree.", "quantifier": "all lattices, cut-offs, layers, k-points, reciprocal vectors", "why_tests_cant": "all k", "anchors": ["legume/pwe/pwe.py:PlaneWaveExp.run", "legume/pwe/pwe.py:PlaneWaveExp._compute_ft", "legume/phc/layer.py:ShapesLayer.compute_ft"]}
{"id": "C137", "title": "Moving the whole crystal does not change the guided-mode bands", "statement": "If the patterns of all layers are moved by the same in-plane vector, GuidedModeExp.run stores the same frequencies (for truncate_g 'tbt', as long as no imaginary part of a transform is small enough to be dropped), and without compute_im it fails with the same errors.", "quantifier": "all lattices, cut-offs, truncations, layers with invertible permittivity matrices, vectors, options with eig_solver 'eigh' and no kz_symmetry, k-points, states without a cached inverse", "why_tests_cant": "a continuum of displacements and all structures; tests compare single structures", "anchors": ["legume/gme/gme.py:GuidedModeExp.run", "legume/gme/gme.py:GuidedModeExp._construct_mat", "legume/gme/gme.py:GuidedModeExp.compute_eps_inv", "legume/gme/gme.py:GuidedModeExp._compute_ft_abs", "legume/gme/gme.py:GuidedModeExp._compute_ft_tbt"]}
{"id": "C138", "title": "Guided-mode bands have the symmetry of the crystal", "statement": "If a rotation or reflection about the origin leaves every layer and the set of plane waves unchanged, GuidedModeExp.run stores the same frequencies for k-points turned by it (about the point shifted by delta_gx), and without compute_im it fails with the same errors; for truncate_g 'abs' on the named lattices every symmetry of the lattice leaves the set of plane waves unchanged.", "quantifier": "all lattices, cut-offs, layers with invertible permittivity matrices, isometries, options with eig_solver 'eigh' and no kz_symmetry, k-points, states without a cached inverse", "why_tests_cant": "a continuum of k-points and all symmetric structures; the tests compare a few frequencies along one path", "anchors": ["legume/gme/gme.py:GuidedModeExp.run", "legume/gme/gme.py:GuidedModeExp._construct_mat", "legume/gme/gme.py:GuidedModeExp.compute_eps_inv", "legume/gme/matrix_elements.py:mat_te_te", "legume/gme/matrix_elements.py:mat_te_tm"]}
{"id": "C139", "title": "Moving the potential does not change the exciton energies", "statement": "If the potential of a layer is moved in the plane, ExcitonSchroedEq.run stores the same energies at the same k-points.", "quantifier": "all lattices, cut-offs, truncations, layers, heights, displacements, k-points, numbers of levels", "why_tests_cant": "a continuum of displacements and all structures", "anchors": ["legume/exc/exc.py:ExcitonSchroedEq.run", "legume/exc/exc.py:ExcitonSchroedEq.__init__", "legume/exc/exc.py:ExcitonSchroedEq._compute_pot_ft_tbt", "legume/exc/exc.py:ExcitonSchroedEq._compute_pot_ft_abs", "legume/phc/layer.py:ShapesLayer.compute_exc_ft"]}
{"id": "C140", "title": "Exciton energies: k and -k, symmetric k, units", "statement": "ExcitonSchroedEq.run stores the same energies for -k as for k, whatever the potential; for T k as for k when T is a symmetry of the potential and of the set of plane waves; and for two pairs of mass and lattice constant with the same M a^2.", "quantifier": "all lattices, cut-offs, truncations, layers, isometries, masses, lattice constants, k-points, numbers of levels", "why_tests_cant": "a continuum of k-points, masses and all structures", "anchors": ["legume/exc/exc.py:ExcitonSchroedEq.run", "legume/exc/exc.py:ExcitonSchroedEq.__init__", "legume/exc/exc.py:ExcitonSchroedEq._compute_pot_ft_tbt", "legume/exc/exc.py:ExcitonSchroedEq._compute_pot_ft_abs", "legume/phc/layer.py:ShapesLayer.compute_exc_ft"]}
{"id": "C141", "title": "Exciton energies: more plane waves never raise them, higher barriers never lower them", "statement": "When the set of plane waves grows (for 'tbt': when gmax grows), no exciton energy goes up. For one shape whose transform is within d of the integral over the shape, raising its height lowers no energy by more than n d (V'-V)/area, all energies are at least E0 - n d V/area, and the lowest is at most E0 plus the kinetic energy of any plane wave plus the mean potential.", "quantifier": "all lattices, cut-offs, truncations, layers, heights, k-points, numbers of levels", "why_tests_cant": "a claim about all pairs of cut-offs and all heights", "anchors": ["legume/exc/exc.py:ExcitonSchroedEq.run", "legume/exc/exc.py:ExcitonSchroedEq.__init__", "legume/exc/exc.py:ExcitonSchroedEq._compute_pot_ft_tbt", "legume/exc/exc.py:ExcitonSchroedEq._compute_pot_ft_abs", "legume/phc/layer.py:ShapesLayer.compute_exc_ft"]}
{"id": "C142", "title": "The report of a run shows how the time was spent", "statement": "Each line of the report printed after GuidedModeExp.run shows the time spent on its step and that time's share of the total; shares lie between 0 and 100 and add up to at most 100, and each bar of the table has its width; the plain text and the table agree.", "quantifier": "all durations of all steps, all numbers of k-points, both ways of computing guided modes, with and without symmetry", "why_tests_cant": "durations cannot be controlled in a test", "anchors": ["legume/print_utils.py:print_GME_report", "legume/print_utils.py:print_GME_report_rich", "legume/gme/gme.py:GuidedModeExp.run", "legume/gme/gme.py:GuidedModeExp._construct_mat"]}
{"id": "C143", "title": "Reporting never makes a run fail", "statement": "The report functions do not raise for any durations; without verbose they print nothing.", "quantifier": "all durations of all steps, including a clock that has not advanced, all numbers of k-points, both print backends", "why_tests_cant": "a clock that does not advance is not seen on a fast machine's tests", "anchors": ["legume/print_utils.py:print_GME_report", "legume/print_utils.py:print_GME_report_rich", "legume/print_utils.py:print_ESE_report", "legume/print_utils.py:print_ESE_report_rich", "legume/exc/exc.py:ExcitonSchroedEq.run"]}
{"id": "C144", "title": "The panels of structure show the crystal and its quantum wells", "statement": "structure(struct, xz=True, yz=True) draws the planes y = 0 and x = 0 of the crystal, every quantum well of the crystal as a line across the panel at its height, and colour limits that cover all values; the layers follow.", "quantifier": "all crystals, numbers of sample points, combinations of panels, and kinds of structure", "why_tests_cant": "all crystals; figures are not compared by the tests", "anchors": ["legume/viz.py:structure", "legume/viz.py:eps_xz", "legume/viz.py:eps_yz", "legume/phc/phc.py:PhotCryst.add_qw", "legume/pol/pol.py:HopfieldPol.__init__"]}
{"id": "C145", "title": "reciprocal marks the plane waves of the expansion", "statement": "For every object it is documented for, reciprocal draws markers at distinct reciprocal lattice vectors, symmetric about a marker at the origin.", "quantifier": "all lattices, cut-offs, truncations, and GuidedModeExp, PlaneWaveExp, ExcitonSchroedEq and HopfieldPol objects", "why_tests_cant": "all lattices and cut-offs; figures are not compared by the tests", "anchors": ["legume/viz.py:reciprocal", "legume/pol/pol.py:HopfieldPol.gvec", "legume/gme/gme.py:GuidedModeExp._init_reciprocal_abs"]}
{"id": "C146", "title": "An unpatterned slab gives back its guided modes", "statement": "When no layer has shapes, the guided-mode expansion decouples: the Hamiltonian matrix is diagonal and every frequency of a run is that of a guided mode of the slab at |G + k|, i.e. omega/2 pi with the frequency omega found by the slab-mode search.", "quantifier": "all stacks of uniform layers, all lattices, cut-offs and k-points, any number of TE and TM modes", "why_tests_cant": "the tests compare a few numbers of patterned slabs; a wrong overlap of two modes of one slab would only show up as a small shift", "anchors": ["legume/gme/gme.py:GuidedModeExp._construct_mat", "legume/gme/matrix_elements.py:mat_te_te", "legume/gme/matrix_elements.py:mat_tm_tm", "legume/gme/slab_modes.py:guided_mode_given_g", "legume/gme/slab_modes.py:normalization_coeff", "legume/gme/gme.py:GuidedModeExp.compute_eps_inv"]}
{"id": "C147", "title": "The regulariser of the overlap integrals vanishes continuously", "statement": "The 1e-20 added to the denominators of the overlap integrals is harmless for modes that decay in both claddings: matrix, outcome and squared frequencies of a run differ from those with exact integrals by at most a constant times the regulariser. The modes of the slab-mode search are such modes, also when interpolated. In particular the symmetry of the bands (C138) and the bands of unpatterned slabs (C146) survive up to that error.", "quantifier": "all stacks, lattices, cut-offs, k-points, mode sets and regularisers between 0 and 1", "why_tests_cant": "the effect of 1e-20 is below rounding in ordinary cases; only a bound for all stacks excludes a near-zero denominator", "anchors": ["legume/gme/slab_modes.py:I_alpha", "legume/gme/slab_modes.py:J_alpha", "legume/gme/matrix_elements.py:mat_te_te", "legume/gme/gme.py:GuidedModeExp._construct_mat", "legume/gme/gme.py:GuidedModeExp._get_guided", "legume/gme/gme.py:GuidedModeExp.run"]}
{"id": "C148", "title": "Every shape may be drawn in a unit cell of its own", "statement": "If every shape of every layer is moved by some lattice vector, a different one for each shape, nothing changes: the Fourier coefficients used by the solvers are the same, hence so are outcome, frequencies, eigenvectors, losses and stored matrices of GuidedModeExp.run (all options), of PlaneWaveExp.run, of ExcitonSchroedEq and, with them, of HopfieldPol. Circles and polygons, as the program makes them, move in that way.", "quantifier": "all lattices, layers, shapes, lattice vectors, cut-offs, truncations and options", "why_tests_cant": "each pair of drawings is one case; only an argument over all lattice and reciprocal vectors covers the phases", "anchors": ["legume/phc/layer.py:ShapesLayer.compute_ft", "legume/phc/layer.py:ShapesLayer.compute_exc_ft", "legume/gme/gme.py:GuidedModeExp._compute_ft_tbt", "legume/gme/gme.py:GuidedModeExp._compute_ft_abs", "legume/gme/gme.py:GuidedModeExp.compute_eps_inv", "legume/gme/gme.py:GuidedModeExp.run", "legume/pwe/pwe.py:PlaneWaveExp._compute_ft", "legume/exc/exc.py:ExcitonSchroedEq._compute_pot_ft_tbt"]}
{"id": "C149", "title": "The map of the permittivity does not depend on the cell a shape is drawn in", "statement": "ShapesLayer.get_eps returns the same values when every shape is moved by some lattice vector.", "quantifier": "all lattices, layers, shapes, lattice vectors and meshes", "why_tests_cant": "tests draw their shapes in the home cell; the number of images searched depends on the mesh, not on where the shapes are", "anchors": ["legume/phc/layer.py:ShapesLayer.get_eps"]}
{"id": "C150", "title": "The Fourier coefficients of a layer are those of its permittivity map", "statement": "For every layer filled with add_shape and every reciprocal lattice vector g, ShapesLayer.compute_ft at g is the mean over the unit cell of ShapesLayer.get_eps times exp(-i g.r), up to the errors of the transforms of the single shapes.", "quantifier": "all lattices, layers, shapes and reciprocal vectors", "why_tests_cant": "the integral is over a continuum of points; numerical quadrature of a discontinuous map has errors far above those of the transforms, and every drawing is one case", "anchors": ["legume/phc/layer.py:ShapesLayer.compute_ft", "legume/phc/layer.py:ShapesLayer.get_eps", "legume/phc/layer.py:ShapesLayer.add_shape", "legume/phc/shapes.py:Circle.compute_ft"]}
{"id": "C151", "title": "The Fourier coefficients of the exciton potential are those of the drawn wells", "statement": "ShapesLayer.compute_exc_ft gives, at every reciprocal vector g, the mean over the unit cell of U(r) exp(-i g.r), where U is V inside the shapes and 0 outside for V > 0, and 0 inside and |V| outside for V < 0, up to the errors of the transforms of the shapes.", "quantifier": "all lattices, layers with disjoint shapes, potentials V and reciprocal vectors", "why_tests_cant": "the integral is over a continuum; tests use one shape in a cell of area one, where the defect of the loop does not show", "anchors": ["legume/phc/layer.py:ShapesLayer.compute_exc_ft", "legume/exc/exc.py:ExcitonSchroedEq._compute_pot_ft_tbt"]}
