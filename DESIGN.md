# Formal model of legume: design

This directory holds a Rocq (Coq 8.16.1) model of the Python package
fancompute/legume as it stands in `/repo`, and proofs about that model.
`properties.jsonl` lists the properties in English, `MANIFEST.json` maps each
one to the theorems that settle it, `seeded/LOG.jsonl` records deliberate bugs
put into scratch copies of the model to see which theorems notice.

## 1. Modelling conventions

* **Shallow models, one Gallina function per Python function.**  Every
  definition in a `*Model.v` file carries a comment with the file and lines it
  models.  Branches are kept in source order.
* **Exceptions are values.**  `result A := Ok a | Raise e` (`Py.v`), `e` one of
  the Python exception classes the code can raise (ValueError, IndexError,
  UnboundLocalError, ...).  A name the code uses but never binds is modelled as
  `Raise NameError`/`UnboundLocalError` on the branch that reaches it.
* **Objects are records, mutation is state passing.**  A call history is a list
  of operations folded over the state; a call that raises leaves the state that
  the Python code would leave (also when that is a half-done update).
* **Numbers.**  Python/numpy floats are modelled by the real numbers of the
  standard library (`R`) and complex numbers by pairs of reals (Coquelicot's
  `C`).  Rounding, overflow, NaN and infinities are *not* modelled unless a
  property is about them (C26 has a second model over binary64 primitive
  floats).  The literal regularisers of the code (`1e-10`, `1e-20`, `1e-50`,
  ...) are kept where they are literal; where a theorem needs them to be zero
  the regulariser is a parameter of the model and the theorem says so.
* **Division.**  `x / 0` is 0 in `R`; numpy gives inf/nan with a warning.  Each
  theorem that goes through a division states the non-zero condition, or the
  model has an explicit non-finite outcome.
* **External routines** are explicit arguments of the model constrained only by
  what the property needs: `argsort` (any permutation that sorts),
  `eigh`/`eigsh`/`eig` (any list of eigenpairs), `inv` (any two-sided inverse),
  `brentq` (some root inside a sign-changing bracket), matplotlib's
  `contains_points` (any predicate), `J1` (its power series).
* **Matrices** are functions `nat -> nat -> C` used below an explicit size;
  arrays are lists.

## 2. Files

Per topic: `XModel.v` (model of the code), `XSpec.v` (the vocabulary of the
statements, independent of the model), `XProofs.v`, `XProofs2.v`, ... (lemmas),
`XProps.v` (only the property theorems, each closed by `exact`, with
`Print Assumptions` and an `Example` showing that the hypotheses are met by
something concrete).

| topic | code |
|---|---|
| Py | python results and exceptions |
| CBase, CInt | complex numbers, finite sums, matrices; integrals of complex functions (no code) |
| Cell | mean over a unit cell, plane-wave sums, Parseval (no code; used by Pwe, Exc) |
| Lattice | phc/lattice.py |
| Phc | phc/phc.py, phc/layer.py (stack, averages, transforms, get_eps), utils.z_to_lind |
| Shapes | phc/shapes.py |
| Recip | `_init_reciprocal_*` of gme, pwe, exc; utils.toeplitz_block, `_compute_ft_tbt/_abs`, compute_eps_inv's matrices, get_eps_xy; RecipFloat: the loop of C26 in binary64 |
| Slab | gme/slab_modes.py |
| MatEl | gme/matrix_elements.py, `_construct_mat`, `_get_guided`, `_compute_guided` |
| Fields | `ft_field_xy`, get_field_xy/xz/yz, get_eps_xy of gme; utils.ftinv |
| Sym | `_construct_sym_mat`, `_calculate_refl_mat`, `_separate_hamiltonian_*` |
| Rad | compute_rad, compute_rad_sp, `_compute_rad_components`, `_get_rad`, unbalance_sp |
| Run | GuidedModeExp.run / compute_eps_inv / run_im / set_run_options as a state machine |
| Pwe | pwe/pwe.py |
| Exc, Pol | exc/exc.py, pol/pol.py |
| Minimize | minimize.py |
| Prim | primitives.py vjps, utils.extend |
| Misc | utils.py rest, backend.py, print_backend.py, print_utils.py progress bar, gds.py, viz.py's calculations, property getters |
| Lin | linear algebra over C: rank, eigenvalues, spectral theorem (no code) |
| Orac | the contracts of the external routines and their satisfiability; eigensolver independence of run |
| Orth | orthogonality of slab modes (model: Slab) |
| Viz | what viz.py draws, `__repr__` of the structure classes |
| Viz2 | viz.eps, pot_ft, pol_bands; the three field sections with their grids |
| Opt | run options as dictionaries in a heap, `__repr__` of the solvers |
| Inv | no new code: pairs of runs of the plane-wave expansion (moved, reversed, rotated, scaled, raised crystals) |
| Ginv | no new code: pairs of runs of the guided-mode expansion on related crystals |
| Einv | no new code: pairs of runs of the exciton solver |
| Rep | time.time() calls of the solvers' run methods, print_utils.py 58-235 |
| Viz3 | viz.py structure (all panels), reciprocal |
| Unif | unpatterned layers: no new code |
| Reg | the regulariser of the overlap integrals: no new code |
| Img | shapes drawn in another unit cell: no new code |
| Four | Fourier coefficients as integrals of the permittivity map and of the exciton potential: no new code |

## 3. Plan per property

"refute" means: reading the code shows the statement does not hold of it; the
plan is to prove `..._refuted` with a witness and the strongest true part as
`..._partial`.

| id | what is modelled | how it is proved |
|---|---|---|
| C01 | Lattice.__init__ over R^3 vectors | field arithmetic; uniqueness by solving the 2x2 system |
| C02 | same | determinant algebra, Rabs |
| C03 | _parse_input, _parse_point | trig-free algebra with sqrt 3; case analysis on strings |
| C04 | bz_path with lists of points | induction on the point list |
| C05 | same, cumulative sums | induction, Cauchy-free: segment samples are collinear |
| C06 | ns as int or list | refute (`list(int)` raises TypeError); partial: one-element list broadcasts |
| C07 | xy_grid | refute (scalar periods; negative components); partial for lists and non-negative extents |
| C08 | PhotCryst as record, history fold | invariant by induction over operations |
| C09 | get_eps z-selection | from C08's invariant, ordering of interfaces |
| C10 | z_to_lind | refute at interfaces; partial: agreement off interfaces |
| C11 | add_qw, z_to_lind | monotonicity of the stack under further operations |
| C12 | all three mutators | case analysis; refute for a list containing a non-shape; partial otherwise |
| C13 | ShapesLayer.add_shape | fold/permutation of sums; convexity |
| C14 | ShapesLayer.compute_ft | sums, conj |
| C15 | ShapesLayer.get_eps | fold over shapes, min/max folds |
| C16 | same with nmax from the query | refute; partial for orthogonal lattices and shapes within one period of the origin, and for every lattice on meshes near the origin (hexagonal: 15/8 periods each way) |
| C17 | compute_exc_ft | refute for two shapes; partial for one shape / unit cell area |
| C18 | compute_ft of Circle, Ellipse, Poly | conj algebra on the exact formulas with regularisers |
| C19 | Poly constructor and subclasses | shoelace algebra over lists; sin addition for FourierShape |
| C20 | Poly.rotate | rotation algebra over lists |
| C21 | compute_ft, is_inside | exponent algebra; refute for rotated Ellipse centre |
| C22 | Poly.compute_ft, regularisers as parameters set to 0 | edge terms as line integrals (Coquelicot RInt); full area integral for rectangles (partial) |
| C23 | Circle.compute_ft with J1 as a power series | alternating-series bound |
| C24 | tbt index arithmetic | list lemmas |
| C25 | abs selection | Cauchy-Schwarz bound on indices; refute for oblique lattices |
| C26 | while loop with fuel; binary64 copy | pigeonhole over reals; refute for binary64 by computation |
| C27 | toeplitz_block, T1/T2 | index arithmetic div/mod |
| C28 | _compute_ft_abs | refute equality with tbt; partial: entry (i,j) = ft(g_j - g_i) |
| C29 | _construct_mat assembly | block offsets, Hermitian completion |
| C30 | matrix_elements.py | complex algebra with conj |
| C31 | chi | sqrt case analysis |
| C32 | D22, D22s_vec, S/T matrices | matrix algebra, induction over layers, reality invariant |
| C33 | guided_mode_given_g with root oracle | list induction over grid |
| C34 | AB_matrices | induction over layers |
| C35 | normalization_coeff, I_alpha, J_alpha | integrals of exponentials (Coquelicot) |
| C36 | pol string tests | refute both |
| C37 | basis functions of ft_field_xy | derivatives of exponentials |
| C38 | selection in run() | permutation/sorting lemmas |
| C39 | reflection matrices | trig; per lattice type closure; refute for a rotated rectangular lattice |
| C40 | index sets | isometry lemma |
| C41 | dense loop with overwriting | invariant over the loop; orthogonality of the final matrix |
| C42 | separation | matrix algebra |
| C43 | symm1 | refute; partial: labels correct when they exist |
| C44 | loops over gmode_inds vs gmode_include | refute |
| C45 | run as state machine | refute (stale ind_modes, cached eps_inv, stale freqs_im); partial without symmetry and constant only_gmodes |
| C46 | csqrt branch | real algebra |
| C47 | channel selection | list filters empty |
| C48 | unbalance | real algebra |
| C49 | PWE matrices | quadratic forms |
| C50 | run ignores eps_eff | refute |
| C51 | ft_field_xy | refute the curl relation; partial: transversality |
| C52 | ftinv over hstacked sets (tbt), over the unique differences (abs) | permutation of finite sums; refutation of exactness for tbt, exact for abs |
| C53 | _compute_matrix, run | matrix algebra |
| C54 | get_pot_xy | refute for tbt |
| C55 | Hopfield matrix, one well | block algebra |
| C56 | _calculate_fraction | sum splitting |
| C57 | several wells | refute; partial for one well |
| C58 | filter and truncation | refute (one dropped); partial: the reported ones are the lowest, ascending |
| C59-C62 | adam | invariants over iterations with arbitrary objective |
| C63 | adam, lbfgs | refute for lbfgs; partial for adam |
| C64 | vjps | adjoint identities over finite sums |
| C65 | set_backend, set_print_backend | history induction |
| C66 | from_freq_to_e | refute at a = 0; partial for a <> 0 |
| C67 | find_nearest | sorted permutation |
| C68 | RedhefferStar | field |
| C69 | grad_num | list induction |
| C70 | generate_gds | case analysis; refute the last clause (FourierShape) |
| C71 | load_bar | integer arithmetic |
| C72 | property getters | refute per class |
| C73, C74 | calculate_x, _calculate_LL | real algebra |
| C75 | component loop | list induction |
| C76 | compute_eps_inv's homogeneity test | off-diagonal sums; refute for tbt (cancelling transforms) |
| C77 | the four mat_* functions | each layer term as an integral of products of exponentials (Coquelicot) |
| C78 | ft_field_xy, field 'e' | matrix inverse algebra, cases on z |
| C79 | `_construct_mat` with separation | reflection invariance of every block, then C42 |
| C80 | `_compute_rad_components`, compute_rad | modulus of a common phase |
| C81 | channel selection | real algebra of the square-root branch; refute on the light line |
| C82 | run with kz_symmetry | sorting lemmas on top of C38/C42 |
| C83 | run with compute_im | case analysis over run's state; no branch of run_im raises |
| C84 | PWE eigenvectors | curl algebra per plane wave |
| C85 | PWE Toeplitz matrix and map | index arithmetic, permutation |
| C86 | PWE run with eigh oracle | uniqueness of ordered spectra |
| C87 | PWE state | history induction |
| C88 | exciton matrices | index arithmetic; refute for abs (transpose) |
| C89 | exciton run, osc_str argument | uniqueness of ordered spectra; case analysis |
| C90, C91, C93 | Hopfield matrix | similarity / hermiticity arguments; refute with explicit 2-well or 2-mode matrices |
| C92 | Hopfield matrix 1+1 | characteristic polynomial |
| C94 | HopfieldPol.__init__, run | case analysis |
| C95 | adam | bound of the update by induction over the gradient history |
| C96 | lbfgs | any callback strategy, list induction |
| C97 | _parse_bounds | case analysis over python values; refute |
| C98 | vjp_maker_num | refute shape; affine functions by sums |
| C99 | generate_gds_raster | geometry of cell; refute cell_bound=False |
| C100 | _calculate_Q | real algebra |
| C101 | ft2square | NameError branch analysis (refute) |
| C102, C103 | eigh / eigsh vjps | derivatives of curves of matrices, perturbation identity |
| C104 | fsolve vjps | implicit function along a curve |
| C105 | sqrt and fmap vjps | derivative along curves, error bound |
| C106 | vjp_maker_eig | refute (unbound names) |
| C107 | z_grid | over histories |
| C108 | rad_modes | scattering boundary problem: existence, uniqueness, power |
| C109 | `_get_guided` interpolation | piecewise-linear interpolation lemma |
| C110 | ft_field_xy at interfaces | field components from both sides with C34's matching |
| C111 | `_compute_rad_components` | integrals over all layers of guided times radiation curl |
| C112 | Circle/Ellipse compute_ft | iterated integral = Bessel series, affine change of variables |
| C113 | `_compute_guided` within run | loop invariants over nodes and rows |
| C114 | exciton ft_wavef_xy/get_wavef_xy | plane-wave sums, Parseval |
| C115 | PWE get_field_xy | plane-wave sums, Parseval |
| C116 | run with two eigensolvers | sorted spectra of one matrix coincide (multiplicities by dimension count) |
| C117 | the contracts of argsort, inv, eigh, eigsh, eig, brentq | spectral theorem and fundamental theorem of algebra from mathcomp-free linear algebra (Lin), intermediate value theorem |
| C118 | guided_modes' coefficients | Wronskian-type identity per layer, telescoping over interfaces, improper integrals in the claddings |
| C119 | `__repr__` of crystal, layers, shapes, exciton solver | refute (Ellipse, unit of the losses); text by induction over layers |
| C120 | viz.shapes | refute (Ellipse, corner); outlines by induction over shapes |
| C121 | viz.field, viz.wavef | refute (xy phase, repeated letter); other planes entry by entry |
| C122 | viz.bands | refute (PlaneWaveExp, lossless modes); markers by induction, cone from C74 |
| C123 | viz.eps_xy/xz/yz | pixels against get_eps (C05-C08) |
| C124 | viz.structure, viz.eps_ft | refute (titles); loop invariant over panels |
| C125 | the raising branches of phc, layer, gme.run and gme._init_reciprocal_abs | case analysis: each kind of mistake with its exception; inversion of an accepted run |
| C126 | viz.pol_bands | refute (Q_clip); markers and cone as in C122, energies by E = h c f / a |
| C127 | viz.eps, viz.pot_ft | refute (stripe overshoots the scale, tbt, given figure); pixels against get_eps and the series of C88 |
| C128 | get_field_xy/xz/yz with their grids, viz.field | all three evaluate one Fourier sum; grids do not depend on the other size; drawing from C121 |
| C129 | HopfieldPol.run's options, set_run_options | dictionaries in a heap; invariant over programs: the default dictionaries hold only k-points |
| C130 | `__repr__` of gme, pwe, pol | loop over option names; attributes after run from C129 |
| C131 | PlaneWaveExp.run on a moved pattern | the matrices differ by diagonal phases; eigenvalues unique (C116) |
| C132 | run at k and -k | complex conjugation and reversal of the list of plane waves (C25) |
| C133 | run at k and M k | M permutes the plane waves; refute for the hexagonal lattice (empty lattice bands, integers) |
| C134 | run on a scaled crystal | lattice and plane waves scale; refute (1e-10 test, two equal columns) |
| C135 | run on two layers | inverse is antitone; eigenvalues by a dimension count (min-max) |
| C136 | run at k and k + b | refute (one plane wave); zone boundary from C132 |
| C137 | GuidedModeExp.run on a moved crystal | the inverse permittivities differ by phases; so do the Hamiltonians block by block; two runs side by side, statement by statement; eigenvalues unique (C116) |
| C138 | GuidedModeExp.run at turned k-points | the waves are permuted; the Hamiltonian's rows and columns are permuted block by block, with a sign for TM modes under reflections; two runs side by side; eigenvalues unique (C116) |
| C139 | ExcitonSchroedEq on a moved potential | matrices differ by phases; eigenvalues unique (C116); two runs side by side |
| C140 | the same object at related k-points, or in other units | matrices differ by a permutation, by conjugation, or not at all |
| C141 | two cut-offs; two heights; bounds | min-max with a smaller matrix inside a larger one; the matrix of a shape is an integral of squares up to the regulariser 1e-10 of the transforms |
| C142 | the clock calls of a run and the report printers, durations as arguments | invariant of the loop over k-points; refuted for 'interp': the time of the guided modes is subtracted from a sum that does not contain it |
| C143 | the same | refuted: percentages are computed before verbose is looked at, and divide by the total time |
| C144 | structure with all its options | sections from C123, wells by induction on the calls that build the crystal; refuted for a GuidedModeExp, which draws no wells |
| C145 | reciprocal | from C24 and C25; refuted for a HopfieldPol before run |
| C146 | no new code: matrix elements, search and run on unpatterned layers | Poynting's theorem layer by layer turns electric into magnetic overlaps, two frequencies make them vanish; then the spectrum of a diagonal matrix; for modes computed at every plane wave the search is followed to the bands |
| C147 | no new code: the same run with two regularisers | each entry is a finite sum of products of functions of dl that are Lipschitz at 0; eigenvalues by min-max; interpolation keeps decaying nodes decaying |
| C148 | no new code: layers whose shapes are moved by lattice vectors | G.R is a multiple of 2 pi for every vector the solvers use, so the coefficient lists are equal and with them everything computed from them (functional extensionality for the matrices) |
| C149 | no new code: get_eps | false: a hole five cells away is missing from the map of the origin, although the solvers see it; true for right-angled lattices with all shapes within one period |
| C150 | no new code: compute_ft against get_eps | false: a hole drawn twice is one hole in the map and two in the coefficients; true for disjoint shapes inside a rectangular unit cell (square, rectangular, hexagonal lattices and others with a1 along x): additivity of the iterated integral, the background integrates to zero except at g = 0, images outside the home cell do not reach it |
| C151 | no new code: compute_exc_ft | false: with two disjoint wells in a cell of area 2 the first is divided by the area twice; true for one shape (either sign of V), and for disjoint shapes and V > 0 when the area is 1; C17 and the integrals of C150 |

## 4. Findings

`MANIFEST.json` says per property what is proved.  "partial" there always means
that the statement as written is false of the code (a `_refuted` theorem gives
the witness) or needs a further hypothesis, and that the listed `_partial`
theorems are the strongest true part we have.  The properties the code does not
have, with the line that breaks them, are described in the notes of C06, C07,
C10, C12, C16, C17, C21, C22, C25, C26, C28, C36, C38-C40, C43-C45, C50, C51,
C54, C57, C58, C60, C61, C63, C66, C69, C70, C72, C75, C76, C81, C88, C90, C91,
C93, C97-C99, C101, C106, C116, C119-C122, C124, C126, C127, C129, C133, C134, C136, C142, C143, C144, C145, C146, C149, C150, C151.

## 5. What is modelled and what is not

| file | modelled | not modelled |
|---|---|---|
| phc/lattice.py | all | |
| phc/phc.py, phc/layer.py | PhotCryst, Layer, ShapesLayer, QuantumWellLayer | FreeformLayer beyond the fact that add_layer cannot construct it (TypeError) |
| phc/shapes.py | all; Poly.is_inside only through an inside-predicate argument | matplotlib's `contains_points` |
| gme/gme.py | all methods that compute: constructor, reciprocal sets, run options, run, run_im, separation, radiation, fields, maps, getters; the timers | progress texts |
| gme/slab_modes.py, gme/matrix_elements.py | all | `S_T_matrices` are 2x2 by formula, not numpy broadcasting |
| pwe/pwe.py, exc/exc.py, pol/pol.py | all but printing; `__repr__` of exc.py only as numbers and units | |
| minimize.py | adam, lbfgs, bounds, _get_value | `_disp` text |
| primitives.py | every vjp maker | autograd's registration machinery |
| utils.py | all but `get_value` (the identity on floats) | `brentq` inside fsolve is an argument |
| backend.py, print_backend.py | set_backend, set_print_backend | the tables of numpy function names |
| print_utils.py | load_bar, update_prog, the numbers of the report printers | wording, number formats, rich's tables |
| gds.py | both generators | gdspy and skimage themselves |
| viz.py | calculate_x, _calculate_Q, _calculate_LL; the data drawn by bands, shapes, eps_xy/xz/yz, structure, reciprocal, eps_ft, field, wavef, eps, pot_ft, pol_bands | figures, colours, labels, colour bars |

Simplifications that matter when reading a theorem:

* Floats are reals; sums have no rounding; `numpy` nan/inf do not occur.  `x/0`
  is 0 in `R`: theorems carry the non-zero condition.  The
  model of `Poly.compute_ft` is only meaningful when no edge has
  `dy = -1e-20` or `dx = -1e-10`; the theorems about it say so.
* Regularisers (`1e-10`, `1e-20`, `1e-50`) are literal, or parameters that a
  theorem sets to 0 and says so (C79, C84 'tm', C22's limit theorem).
  With that parameter 0, `I_alpha` is the exact integral: where the code
  would divide 0 by 0 the model has the limit.
* The parameters standing for external routines and what is assumed of them
  (`*Spec.v`): `sorts`, `csorts` (argsort), `diagonalises`,
  `diagonalises_near` (eigh, eigsh), `solves` (eig), `inverts` (inv), a root
  finder that is any function in C113 and one that returns a root of a
  sign-changing bracket in C33, `phase_ok` (differentiable eigenvectors with a phase
  convention, C102/C103), a conjugate-gradient solver that solves, autograd's
  gradients as arguments (C104, C105), scipy's `minimize` as any terminating
  strategy that reports the points it evaluates (C96), the objective as a
  function of the whole history of calls, `j1` as its power series, gdspy's
  writer as a map from file names to element lists, a rounding function in
  `load_bar`.
* C117 shows that the contracts of argsort, inv, eigh, eigsh, eig and of the
  root finder can be met for every input, so no theorem holds for want of a
  routine.
* Objects with aliasing: heap models only where a property is about it (C61,
  C69); elsewhere values are immutable.

## 6. Trusted base

* Coq's kernel (and `coqchk`), version 8.16.1, with the standard library,
  Coquelicot's definitions (its axioms are those of the standard library) and
  the primitive floats for `RecipFloat.v`.
* The reading of the Python source into the model: nothing here runs the code.
* No axiom of our own.  What `Print Assumptions` lists for each of the 466
  property theorems (`sig_forall_dec`, `sig_not_dec` from
  `ClassicalDedekindReals`, `functional_extensionality_dep` from
  `FunctionalExtensionality`, `classic` from `Classical_Prop`,
  `constructive_indefinite_description` from `ClassicalEpsilon`):

* **none** (closed under the global context), 22 theorems: `C15_last_shape_wins_functional`, `C63_lbfgs_fails_partial`, `C63_lbfgs_partial`, `C65_backend`, `C65_print`, `C72_after_run_partial`, `C72_before_run_partial`, `C72_getters_refuted`, `C72_kz_symms_refuted`, `C72_no_other`, `C72_own_attribute`, `C96_history`, `C97_pairs_partial`, `C101_never_returns_partial`, `C104_arguments`, `C106_eig_partial`, `C121_plane`, `C124_eps_ft_partial`, `C124_eps_ft_refuted`, `C125_field_before_run`, `C126_before_run`, `C130_pwe`.
* **`sig_forall_dec` only**, 6: `C63_lbfgs_refuted`, `C64_extend_single`, `C64_extend_total`, `C70_all_or_nothing_partial`, `C119_fails_iff`, `C119_text_partial`.
* **`sig_forall_dec`, `functional_extensionality_dep`**, 82: `C07_grid_width_partial`, `C08_history_contents`, `C08_stack_is_contiguous`, `C09_every_height_in_one_region`, `C09_nothing_outside`, `C10_lookup_matches_map_partial`, `C10_lookup_matches_map_refuted`, `C10_lookup_wrong_at_every_interface`, `C11_accepted_well_stays_inside`, `C11_rejection_condition`, `C12_add_shape_errors`, `C12_failed_edit_changes_nothing_partial`, `C12_failed_edit_changes_nothing_refuted`, `C12_successful_add_shape_frame`, `C12_what_a_failed_list_leaves_behind`, `C13_average_between_bounds`, `C13_average_permittivity`, `C13_order_and_grouping_irrelevant`, `C14_background_shape_contributes_nothing`, `C14_conjugate_symmetry`, `C14_layer_transform`, `C14_order_irrelevant`, `C15_bounds_are_attained_and_bound`, `C17_attractive_partial`, `C17_one_shape_partial`, `C17_unit_cell_area_partial`, `C19_reversal_cycle_translation`, `C64_extend`, `C64_interp`, `C64_interp_above`, `C64_interp_total`, `C64_spdot`, `C64_toeplitz`, `C66_conversion_partial`, `C66_zero_refuted`, `C67_find_nearest`, `C68_arrays`, `C68_associative`, `C68_identity`, `C68_series`, `C69_affine_partial`, `C69_integer_array_refuted`, `C69_integer_step_refuted`, `C69_limit_partial`, `C69_quadratic_partial`, `C69_scalar_step_fails`, `C69_scalar_step_one`, `C71_bar`, `C71_progress`, `C79_inverse_symmetric`, `C97_documented_partial`, `C98_limit_partial`, `C98_shape_refuted`, `C98_vjp_partial`, `C99_cell_partial`, `C99_no_bound_refuted`, `C100_quality_factor`, `C102_both`, `C102_eigenvalues`, `C103_eigsh`, `C104_fsolve`, `C105_fmap`, `C106_eig_refuted`, `C107_vertical_grid`, `C119_units_partial`, `C119_units_refuted`, `C125_edits`, `C129_caller_partial`, `C129_caller_refuted`, `C129_direct`, `C129_options`, `C130_before_run`, `C130_pol`, `C142_bars_partial`, `C142_exact_partial`, `C142_lines_partial`, `C142_same_partial`, `C142_shares_partial`, `C142_times_refuted`, `C143_exciton_partial`, `C143_gme_partial`, `C143_silent_refuted`.
* **`sig_forall_dec`, `sig_not_dec`, `functional_extensionality_dep`, `classic`**, 59: `C19_fourier_shape_errors`, `C22_code_error_bound_partial`, `C22_code_regularisers_refuted`, `C22_limit_of_regularisers`, `C28_abs_equals_tbt_refuted`, `C33_guided_modes`, `C33_search`, `C34_derivative`, `C35_normalisation`, `C35_returned_modes`, `C36_spelling_refuted`, `C37_basis_curl`, `C37_fields_obey_maxwell`, `C45_stale_losses_refuted`, `C54_get_pot_refuted`, `C57_all_wells_refuted`, `C58_all_positive_refuted`, `C69_error_partial`, `C76_tbt_shortcut_refuted`, `C77_elements_are_overlaps`, `C88_abs_refuted`, `C90_real_refuted`, `C91_phase_refuted`, `C93_order_refuted`, `C111_couplings_are_overlaps`, `C112_circle_transform`, `C112_ellipse_transform`, `C114_wave_functions`, `C115_orthonormal`, `C116_dense_sparse`, `C116_lowest`, `C116_one_matrix`, `C116_solver_independent`, `C118_any_window`, `C118_guided_modes`, `C118_orthogonal`, `C127_scale_refuted`, `C133_hexagonal_refuted`, `C134_scaling_refuted`, `C135_monotone`, `C141_bounds`, `C141_more_waves`, `C141_raise`, `C145_polariton_refuted`, `C146_bands_partial`, `C146_energy`, `C146_exact_modes`, `C146_matrix_partial`, `C146_search`, `C146_short_waves_refuted`, `C146_spectrum_partial`, `C147_matrix`, `C147_search`, `C150_cell_partial`, `C150_circles_partial`, `C150_refuted`, `C151_one_shape_partial`, `C151_refuted`, `C151_unit_area_partial`.
* **`sig_forall_dec`, `sig_not_dec`, `constructive_indefinite_description`, `classic`, `functional_extensionality_dep`**, 11: `C116_tie_refuted`, `C117_brentq`, `C117_eig`, `C117_eigh`, `C117_eigsh`, `C135_raised`, `C137_solver`, `C146_exact_bands`, `C147_bands`, `C147_symmetry`, `C147_uniform`.
* **`sig_forall_dec`, `constructive_indefinite_description`, `classic`, `functional_extensionality_dep`**, 1: `C117_argsort`.
* **`sig_forall_dec`, `constructive_indefinite_description`, `classic`**, 1: `C117_inv`.
* **primitive floats and integers** (`PrimFloat.abs`, `PrimFloat.add`, `PrimFloat.div`, `PrimFloat.eqb`, `PrimFloat.float`, `PrimFloat.frshiftexp`, `PrimFloat.ltb`, `PrimFloat.mul`, `PrimFloat.normfr_mantissa`, `PrimFloat.of_uint63`, `PrimFloat.opp`, `PrimFloat.sqrt`, `PrimFloat.sub`, `PrimInt63.eqb`, `PrimInt63.int`, `PrimInt63.land`, `PrimInt63.lor`, `PrimInt63.lsl`, `PrimInt63.lsr`, `PrimInt63.sub`; kernel primitives, no axiom about them), 1: `C26_loop_binary64_refuted`.
* **`sig_forall_dec`, `sig_not_dec`, `functional_extensionality_dep`**: the remaining 283 theorems.
