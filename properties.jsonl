{"id": "C01", "title": "mirror is the reflection through the bond mid-plane", "statement": "grid.mirror(f) returns, at the grid point with angular index ia and radial index ir, the value f had at angular index Na-1-ia and the same radial index, separately for every spin column and for 1-D and 2-D arrays. It is therefore an involution, it is linear, it never mixes spin columns, and on the grid's own coordinates it negates Z and keeps Y.", "quantifier": "every block size NP, every number of angular/radial blocks, every bond length and box size, every array of shape (Nelem,), (Nelem,1) or (Nelem,k)", "why_tests_cant": "tests mirror one array on one 25x25 grid; index arithmetic through two Fortran-order reshapes can be right for square grids and wrong for others", "anchors": ["CADMium/psgrid/mirror.py:mirror", "CADMium/psgrid/square.py:square", "CADMium/psgrid/initialize.py:initialize"]}
{"id": "C02", "title": "grid coordinates are the prolate spheroidal map and are exactly (anti)symmetric", "statement": "After initialize(), the angular nodes are the half-shifted points (ia+1/2)*pi/Na and the radial nodes (ir+1/2)*L/Nr; Z and Y equal a*cosh(xr)*cos(xa) and a*sinh(xr)*sin(xa) at the point's own (xa, xr); the extra symmetrisation steps change none of these values; all nodes lie strictly inside (0,pi) x (0,L), and points on the boundary mesh lie outside the box.", "quantifier": "every NP, NMa, NMr >= 1, every a > 0 and L > 0, every grid point", "why_tests_cant": "the test-suite compares with stored literals for a single grid; the identity must hold at all points of all grids", "anchors": ["CADMium/psgrid/initialize.py:initialize (lines 17-51)"]}
{"id": "C03", "title": "nuclear potential is the sum of two point charges at the foci", "statement": "coulomb(grid, Za, Zb) equals -Za/|r-A| - Zb/|r-B| at every grid point, where |r-A| and |r-B| are the Euclidean distances from the point's Cartesian coordinates (Z, Y) to the foci (-a, 0) and (+a, 0). No grid point coincides with a nucleus, so no division by zero occurs, and the potential is strictly negative for positive charges.", "quantifier": "every grid, every real Za and Zb, every grid point", "why_tests_cant": "needs a trigonometric identity at every point of every grid; tests check a few numbers", "anchors": ["CADMium/common/coulomb.py:coulomb", "CADMium/psgrid/initialize.py:initialize"]}
{"id": "C04", "title": "swapping the nuclei is the same as mirroring the potential", "statement": "coulomb(grid, Za, Zb) mirrored equals coulomb(grid, Zb, Za); the potential is additive and homogeneous in the pair of charges, so the molecular external potential of a Partition is the sum of the two fragment nuclear potentials.", "quantifier": "every grid, all charges", "why_tests_cant": "relational property over pairs of runs (hyperproperty); no unit test compares two potentials for arbitrary charges", "anchors": ["CADMium/common/coulomb.py:coulomb", "CADMium/partition/partition.py:Partition.calc_nuclear_potential"]}
{"id": "C05", "title": "volume element is the product of the scale factors and is positive", "statement": "grid.w equals h1*h2*h3, is strictly positive at every grid point and is unchanged by mirror; the averaging with its own mirror image performed during initialisation is a no-op in exact arithmetic. The two scale factors h1, h2 satisfy h^2 = (dZ/dx)^2 + (dY/dx)^2 for the respective coordinate x, and h3 = Y.", "quantifier": "every grid, every grid point", "why_tests_cant": "positivity at all points of all grids is needed to rule out division by zero in every operator built from w", "anchors": ["CADMium/psgrid/initialize.py:initialize (lines 75-77)", "CADMium/psgrid/operators.py:operators (lines 14-21)"]}
{"id": "C06", "title": "angular momentum potential is 1/(2 rho^2)", "statement": "grid.f equals 1/(2*Y^2) at every point, where Y is the distance of the point from the bond axis, so the term m^2*f added to the Hamiltonian is the centrifugal potential m^2/(2 rho^2); the denominators in its definition never vanish.", "quantifier": "every grid, every grid point, every m", "why_tests_cant": "algebraic identity between two different closed forms at all points", "anchors": ["CADMium/psgrid/initialize.py:initialize (lines 79-82)", "CADMium/pssolver/pssolver.py:i_solver.hamiltonian"]}
{"id": "C07", "title": "one-dimensional quadrature is exact for polynomials of degree below the block size", "statement": "For the weights returned by NC(N, Nm) with at least two blocks, the sum of weight(i)*f(i+1/2) over the half-shifted points equals the integral of f over [0, (N-1)Nm+1] for every polynomial f of degree at most N-1 that vanishes at both end points. With a single block and N >= 3 this fails, because the right-end correction overwrites the left-end one.", "quantifier": "every N >= 2, every Nm >= 2, every polynomial of degree < N vanishing at the ends; failure: N = 3, Nm = 1", "why_tests_cant": "infinitely many block sizes and polynomials; tests use N = 7 only and never a polynomial", "anchors": ["CADMium/common/NC.py:NC"]}
{"id": "C08", "title": "quadrature weights are palindromic", "statement": "NC(N, Nm)[i] = NC(N, Nm)[len-1-i] for every index whenever Nm >= 2, so integrating a function and integrating its mirror image give the same number; for one block (Nm = 1) it can fail: N = 4 gives weights that are not palindromic.", "quantifier": "every N >= 2, every Nm >= 2, every index; failure witness N = 3, Nm = 1", "why_tests_cant": "requires uniqueness of the solution of a Vandermonde system for every N", "anchors": ["CADMium/common/NC.py:NC"]}
{"id": "C09", "title": "two-dimensional weights sit on the grid points they belong to", "statement": "The flat weight array grid.wi pairs the point (ia, ir) with (angular weight ia)*(radial weight ir) for every point when the numbers of angular and radial blocks are equal. When they differ the weights are flattened in the other memory order, so some point is paired with the wrong weight, and integrals are wrong.", "quantifier": "every NP, every NMa = NMr, every point; failure for NMa <> NMr", "why_tests_cant": "all tests and examples use NM = [n, n] (where the two orders coincide), so no test can see the difference", "anchors": ["CADMium/psgrid/initialize.py:initialize (lines 56-63)"]}
{"id": "C10", "title": "integrate is the weighted sum over the grid, linear, and mirror invariant", "statement": "For a 1-D array, and for each column of a 2-D array with two or more columns, integrate returns 2*pi*hr*ha times the sum of weight*volume*value; it is linear, it depends on no other column, and (for equal numbers of blocks, at least two) integrate(mirror f) = integrate(f).", "quantifier": "every grid, every array, every linear combination", "why_tests_cant": "linearity and mirror invariance quantify over all arrays", "anchors": ["CADMium/psgrid/integrate.py:integrate"]}
{"id": "C11", "title": "integrate on a single-column array is not the integral", "statement": "For an array of shape (Nelem, 1) the value returned by integrate is (sum of weight*volume) * (sum of values) times 2*pi*hr*ha, not the integral: the (Nelem,) weights are broadcast against the (Nelem,1) values. The two agree for constant columns only up to the factor Nelem, and there are grids and columns for which they differ. As a consequence the relative density change used as an SCF convergence test for unpolarised runs is the unweighted ratio sum|n-n_old|/sum|n|.", "quantifier": "every grid, every single-column array; existence of a counterexample", "why_tests_cant": "tests only integrate 1-D arrays or ratios in which the wrong factor cancels", "anchors": ["CADMium/psgrid/integrate.py:integrate (lines 15-16)", "CADMium/kohnsham/scf.py:scf (line 99)", "CADMium/partition/scf.py:scf (line 201)"]}
{"id": "C12", "title": "finite-difference coefficients differentiate polynomials exactly", "statement": "For any stencil of N distinct offsets and any derivative order d < N, the coefficients c returned by finite_difference_coefficients satisfy sum_j c_j * p(x_j) = p^(d)(0) for every polynomial p of degree < N, provided no exact coefficient is non-zero but smaller than 1e-10 in magnitude; otherwise the flushing to zero changes the result by at most 1e-10 * sum_j |p(x_j)|.", "quantifier": "every finite set of distinct offsets, every derivative order, every polynomial of degree < N", "why_tests_cant": "tests use one nine-point stencil", "anchors": ["CADMium/common/finite_difference_coefficients.py:finite_difference_coefficients"]}
{"id": "C13", "title": "coefficients of a symmetric stencil have the parity of the derivative", "statement": "If the offsets satisfy x_{N-1-j} = -x_j then c_{N-1-j} = (-1)^d c_j. Hence first-derivative stencils have a zero central coefficient, and the explicit antisymmetrisation/symmetrisation of the derivative matrices does not change them.", "quantifier": "every symmetric stencil of distinct offsets, every d", "why_tests_cant": "holds by uniqueness for all stencils; cannot be enumerated", "anchors": ["CADMium/common/finite_difference_coefficients.py:finite_difference_coefficients", "CADMium/psgrid/finite_difference_1d.py:finite_difference_1d (lines 31-33)", "CADMium/psgrid/finite_difference_2d.py:finite_difference_2d (lines 54-58)"]}
{"id": "C14", "title": "derivative matrices implement the reflected boundary conditions", "statement": "For a contiguous symmetric stencil -b..b, each of the eight matrices eDa1, oDa1, eDr1, oDr1, eDa2, oDa2, eDr2, oDr2 applied to a vector gives exactly the stencil (divided by the right power of the right grid spacing) applied to the vector extended evenly (e) or oddly (o) across the axis/nuclei: across both ends for the angular coordinate, across the inner end for the radial coordinate with zeros beyond the outer end.", "quantifier": "every number of points >= b, every b >= 1, every vector, every row", "why_tests_cant": "corner blocks are built with fliplr/transposes whose correctness for all sizes is an index identity", "anchors": ["CADMium/psgrid/finite_difference_1d.py:finite_difference_1d", "CADMium/psgrid/finite_difference_2d.py:finite_difference_2d"]}
{"id": "C15", "title": "outer boundary operator supplies exactly the missing ghost points", "statement": "bc1 and bc2 applied to values on the b ghost points beyond the outer radial boundary give precisely the stencil contributions that the radial matrices leave out in the last b rows: matrix*inside + bc*outside equals the full stencil applied to the extended data.", "quantifier": "every Nr >= b, every inside vector and every outside vector", "why_tests_cant": "relational identity over all vectors", "anchors": ["CADMium/psgrid/finite_difference_1d.py:finite_difference_1d (line 59)", "CADMium/psgrid/finite_difference_2d.py:finite_difference_2d (line 52)", "CADMium/psgrid/operators.py:operators (lines 67-71)"]}
{"id": "C16", "title": "Laplacian acts on the right axis with the prolate spheroidal coefficients", "statement": "(elap f)(ia,ir) = a*[ sinh(xr)*(sin(xa)*D2a + cos(xa)*D1a) f(.,ir) + sin(xa)*(sinh(xr)*D2r + cosh(xr)*D1r) f(ia,.) ] with the angular derivatives taken along ia only and the radial ones along ir only (and likewise olap with the odd matrices). Divided by the volume element this is the discretisation of the Laplacian in prolate spheroidal coordinates: for smooth f the bracket with exact derivatives equals w times the Laplacian.", "quantifier": "every grid, every array, every point", "why_tests_cant": "Kronecker-product order vs flattening order is an index identity over all sizes", "anchors": ["CADMium/psgrid/operators.py:operators (lines 38-63)"]}
{"id": "C17", "title": "Laplacian commutes with mirror", "statement": "elap(mirror f) = mirror(elap f) and olap(mirror f) = mirror(olap f), so even (odd) functions stay even (odd), and a mirror-symmetric Hamiltonian can be solved in each parity class.", "quantifier": "every grid with a symmetric stencil, every array", "why_tests_cant": "equivariance over all arrays", "anchors": ["CADMium/psgrid/operators.py:operators"]}
{"id": "C18", "title": "gradient and divergence operators act on the right axis and respect reflection", "statement": "grada/gradr give (1/h)*derivative along the angular/radial axis with even reflection; diva/divr give (1/(h1 h2 h3))*derivative of the metric-weighted component with odd reflection. The angular ones change sign under mirror, the radial ones commute with it; the gradient of a constant is zero at all points whose stencil does not reach the outer boundary.", "quantifier": "every grid, every array, every point", "why_tests_cant": "identities for all arrays and all sizes", "anchors": ["CADMium/psgrid/operators.py:operators (lines 23-36)"]}
{"id": "C19", "title": "squared gradient (sigma) of a density", "statement": "For one column, sigma(n) is the pointwise squared gradient, non-negative everywhere. For two columns, entries 0 and 2 are the pointwise squared gradients of the two spin densities, but entry 1, which a GGA functional reads as grad(n_up).grad(n_down) at each point, is the same number at every point (the dot product summed over the grid). More than two columns raise ValueError. Mirror symmetry is inherited by all three entries.", "quantifier": "every grid, every density of one or two columns; existence of a counterexample for entry 1", "why_tests_cant": "operator-precedence effect; every test uses LDA", "anchors": ["CADMium/psgrid/sigma.py:sigma"]}
{"id": "C20", "title": "Hartree potential depends linearly and only on the total density", "statement": "v_hartree(n) is linear in n; it depends on the spin columns only through their sum, all returned columns are equal, and a density column of zeros gives zero potential.", "quantifier": "every grid, all densities of one or two columns, all linear combinations; for any linear solver used for the triangular factors", "why_tests_cant": "linearity over all inputs; hyperproperty", "anchors": ["CADMium/hartree/hartree.py:Hartree.v_hartree", "CADMium/hartree/hartree.py:Hartree.e_hartree"]}
{"id": "C21", "title": "Hartree potential solves the discrete Poisson equation with multipole boundary values when the factorisation does not permute rows", "statement": "If the LU factorisation stored by the grid reproduces the even Laplacian (L*U = elap), then elap*v + blap*v_boundary = -4*pi*w*n exactly (blap acting on the outermost b radial layers), where v_boundary is the multipole expansion with moments 0..7 about the bond mid-point. If the factorisation permutes rows, the permutation is discarded and the returned potential solves a row-permuted system instead.", "quantifier": "every grid, every density, every factorisation; failure: existence of a pivoted factorisation for which the equation does not hold", "why_tests_cant": "tests never inspect the residual of Poisson's equation, and pivoting depends on the matrix", "anchors": ["CADMium/hartree/hartree.py:Hartree.v_hartree", "CADMium/psgrid/factorize_laplacian.py:factorize_laplacian"]}
{"id": "C22", "title": "boundary multipoles use the distance from the mid-point", "statement": "The quantity rho used for the multipole moments is sqrt(Z^2+Y^2), strictly positive on the interior and boundary meshes, and |Z/rho| <= 1, so the Legendre argument is always in range and no division by zero occurs.", "quantifier": "every grid, every mesh and boundary point, every a > 0", "why_tests_cant": "identity at all points", "anchors": ["CADMium/hartree/hartree.py:Hartree.v_hartree (lines 34-57)"]}
{"id": "C23", "title": "axis_plot returns values of the input on grid points, sorted along the axis", "statement": "Every (x, y) pair returned by axis_plot is (Z[k], f[k]) for a grid point k of the innermost ellipsoid or at an end of an ellipsoid; positions are returned in non-decreasing order; all points of the innermost ellipsoid are included and the two end points of every other ellipsoid are included except the last one's negative end; exactly the first and last points of the innermost ellipsoid appear twice.", "quantifier": "every grid with at least two points per direction, every array", "why_tests_cant": "the selection uses exact floating-point equality along a loop over all grid points", "anchors": ["CADMium/psgrid/psgrid.py:Psgrid.axis_plot"]}
{"id": "C24", "title": "each solver's density integrates to its electron number", "statement": "After calc_density, the integral of the density equals N when fractional occupation is on, and occ*floor(N/occ) otherwise, where occ is 2 (m=0, unpolarised), 1 (m=0, polarised), 4 (m>0, unpolarised) or 2 (m>0, polarised); in particular electrons are silently dropped when N is not a multiple of occ and fractional is off.", "quantifier": "every N >= 0, every m, both polarisations, both option settings, every set of orbitals with non-zero norm", "why_tests_cant": "continuum of N and orbitals; only integer N are tested", "anchors": ["CADMium/pssolver/calc_density.py:calc_density"]}
{"id": "C25", "title": "density is non-negative and independent of orbital sign and normalisation", "statement": "The density produced from given orbitals is non-negative wherever the orbital norms (as computed by integrate) are positive, and multiplying any orbital by a non-zero constant does not change it.", "quantifier": "every set of orbitals, every scaling", "why_tests_cant": "hyperproperty over pairs of orbital sets", "anchors": ["CADMium/pssolver/calc_density.py:calc_density"]}
{"id": "C26", "title": "too few computed orbitals are reported, never read as zeros", "statement": "If the number of computed orbitals is smaller than the number of orbitals needed for N electrons, calc_density fails with an exception instead of returning a density; with enough orbitals it succeeds.", "quantifier": "every N, Nmo, m, polarisation, option", "why_tests_cant": "boundary between success and failure over all pairs (N, Nmo)", "anchors": ["CADMium/pssolver/calc_density.py:calc_density"]}
{"id": "C27", "title": "band energy splits into kinetic and potential parts", "statement": "After calc_energy, eks is the occupation-weighted sum of eigenvalues with the same occupations as the density, and eks = Ts + Vs as long as the potential energy is finite and at most 1e5 in magnitude. Beyond that threshold (or for NaN) Vs is replaced by zero while Ts keeps the old value, so the identity fails; for an infinite potential energy nothing is replaced.", "quantifier": "every N, m, polarisation, eigenvalues, potentials", "why_tests_cant": "threshold branch depends on a real-valued quantity", "anchors": ["CADMium/pssolver/calc_energy.py:calc_energy"]}
{"id": "C28", "title": "HOMO is the highest occupied eigenvalue", "statement": "With sorted eigenvalues get_homo returns the largest eigenvalue among the orbitals that calc_density occupies, when fractional occupation is on or N is a multiple of the shell size; with fractional off and an incomplete shell it returns the eigenvalue of an orbital that carries no density. With no electrons it returns the sentinel -1/eps. calc_chempot returns the maximum over all solvers.", "quantifier": "every N, m, polarisation, sorted spectrum", "why_tests_cant": "continuum of occupations", "anchors": ["CADMium/pssolver/get_homo.py:get_homo", "CADMium/kohnsham/kohnsham.py:Kohnsham.calc_chempot"]}
{"id": "C29", "title": "orbitals returned with sym are exactly even or odd", "statement": "When the solver option sym is on, every orbital returned by calc_orbitals equals plus or minus its own mirror image, whatever the eigensolver produced and whatever near-degeneracies were mixed; eigenvalues are returned in ascending order and each orbital column stays attached to its eigenvalue (before mixing) when the eigensolver did not return all NaN.", "quantifier": "every eigensolver output, every number of orbitals", "why_tests_cant": "depends on arbitrary eigensolver output", "anchors": ["CADMium/pssolver/calc_orbitals.py:calc_orbitals"]}
{"id": "C30", "title": "iterative orbital update: converged orbitals", "statement": "An orbital whose residual is already below the tolerance should not be changed by iter_orbitals (apart from normalisation). This holds when no orbital is above the tolerance only in the sense that the call fails (the correction is unbound); when an earlier orbital was above the tolerance its correction is applied again to the converged one, so the property is false; orbitals above the tolerance receive their own Newton correction.", "quantifier": "every set of orbitals, residual pattern and linear-solver output", "why_tests_cant": "depends on which subset of orbitals has converged; a schedule of convergence tests cannot enumerate", "anchors": ["CADMium/pssolver/iter_orbitals.py:iter_orbitals (lines 33-59)"]}
{"id": "C31", "title": "normalize_orbitals fixes the norm to the shell occupation", "statement": "After normalize_orbitals every orbital column satisfies integrate(phi^2) = occ with occ = 2 or 4 (m = 0 or m > 0), halved for polarised solvers; the operation is idempotent and leaves directions unchanged.", "quantifier": "every orbital set with positive norms, every m and polarisation", "why_tests_cant": "real-valued identity over all orbitals", "anchors": ["CADMium/pssolver/normalize_orbitals.py:normalize_orbitals"]}
{"id": "C32", "title": "kinetic energy density integrates to the kinetic energy", "statement": "If the occupied orbitals satisfy the discrete eigenvalue equation exactly and the shell is complete (or fractional is off), the integral of the density computed by calc_ked_WFI equals the Ts computed by calc_energy. With fractional occupation of an incomplete shell the fractional term reuses the last full orbital and the norm of the orbital after the fractional one (or fails if there is none), so the identity is false.", "quantifier": "every N, m, polarisation, potential and set of exact eigenvectors", "why_tests_cant": "equality of two independently computed functionals over all eigenvectors", "anchors": ["CADMium/pssolver/calc_ked_WFI.py:calc_ked_WFI", "CADMium/pssolver/calc_energy.py:calc_energy"]}
{"id": "C33", "title": "density response conserves particle number and ignores constant shifts", "statement": "For integer occupations, the response matrix built by calc_response annihilates constant potentials and every column has zero volume-weighted sum, for any linear solver that solves the bordered systems it is given when those are non-singular.", "quantifier": "every grid, potential, set of normalised orbitals with exact eigen-equation, every perturbation", "why_tests_cant": "linear-algebra identity over all perturbations", "anchors": ["CADMium/pssolver/calc_response.py:calc_response"]}
{"id": "C34", "title": "Hamiltonian parity and centrifugal term", "statement": "The base Hamiltonian uses the even Laplacian for even m and the odd one for odd m, with kinetic factor -1/2 and the centrifugal term m^2*w*f on the diagonal; changing the sign of m does not change it.", "quantifier": "every m, every grid", "why_tests_cant": "all m", "anchors": ["CADMium/pssolver/pssolver.py:i_solver.hamiltonian"]}
{"id": "C35", "title": "parallel diagonalisation is schedule independent", "statement": "Kohnsham.calc_density returns the same density, and leaves the same eigenvalues and orbitals in the solvers, whatever order the worker processes finish in; if any worker dies without delivering its result, the call raises KeyError and no density is returned (solvers are never read with missing results).", "quantifier": "every number of levels and spins, every interleaving of worker completions, every subset of crashed workers", "why_tests_cant": "number of interleavings and crash subsets is exponential", "anchors": ["CADMium/kohnsham/kohnsham.py:Kohnsham.calc_density"]}
{"id": "C36", "title": "total density has the requested number of electrons per spin", "statement": "The density returned by Kohnsham.calc_density integrates, in spin column j, to the sum over m-levels of N[i][j] when fractional is on (or all shells complete); the optional averaging with the mirror image (sym) preserves this whenever integration is mirror invariant.", "quantifier": "every N matrix, every orbital set, every grid with equal block numbers", "why_tests_cant": "all shapes and electron numbers", "anchors": ["CADMium/kohnsham/kohnsham.py:Kohnsham.calc_density"]}
{"id": "C37", "title": "SCF density mixing conserves electrons and non-negativity at every iteration", "statement": "For every iteration of Kohnsham.scf (and of Partition.scf per fragment) the mixed input density integrates to the same electron number as the initial one if every output density does, and stays non-negative for mixing parameters in [0,1].", "quantifier": "every number of iterations, every sequence of output densities, every mixing parameter", "why_tests_cant": "invariant over unbounded histories", "anchors": ["CADMium/kohnsham/scf.py:scf (lines 86-90)", "CADMium/partition/scf.py:scf (line 186)"]}
{"id": "C38", "title": "Kohn-Sham SCF loop bound and exit condition", "statement": "Kohnsham.scf performs at most max(0, maxiter-1) iterations; if it stops earlier then the last computed residual is not greater than e_tol. A NaN residual (for example a zero total energy, or NaN energy) also stops the loop as if converged.", "quantifier": "every maxiter, tolerance and every sequence of residuals, including NaN", "why_tests_cant": "all residual histories", "anchors": ["CADMium/kohnsham/scf.py:scf (lines 53-116)"]}
{"id": "C39", "title": "density convergence test ignores an empty spin channel's NaN", "statement": "In a polarised run with an empty spin column, the density part of the residual is NaN (0/0), and Python's max(dif_E, NaN) returns dif_E, so the run is declared converged on the energy alone; when both columns are non-empty the residual is the maximum of energy and density change, so convergence implies both are below tolerance.", "quantifier": "every density pair, every energy pair", "why_tests_cant": "needs IEEE NaN ordering in max; not visible in tests that compare final energies", "anchors": ["CADMium/kohnsham/scf.py:scf (lines 97-104)"]}
{"id": "C40", "title": "accepted options take effect", "statement": "Every option key accepted (case-insensitively) by Kohnsham, Pssolver, Partition, Inverter and Partition.scf sets the corresponding field, and unknown keys raise ValueError. Kohnsham.scf accepts keys in any case but only lower-case keys have any effect: an upper- or mixed-case key is silently ignored.", "quantifier": "every dictionary of options, every casing of every key", "why_tests_cant": "all dictionaries and casings", "anchors": ["CADMium/kohnsham/kohnsham.py:Kohnsham.__init__", "CADMium/kohnsham/scf.py:scf (lines 26-30)", "CADMium/partition/partition.py:Partition.__init__", "CADMium/partition/scf.py:scf (lines 39-45)", "CADMium/inverter/inverter.py:Inverter.__init__", "CADMium/pssolver/pssolver.py:i_solver.__init__"]}
{"id": "C41", "title": "auto_tol always fails in Kohnsham.scf", "statement": "With auto_tol on and at least one loop test whose first disjunct is false, or after the first iteration, Kohnsham.scf raises NameError; it never returns normally after performing an iteration. With auto_tol off it never raises for this reason.", "quantifier": "every option set and every residual history", "why_tests_cant": "control flow over all histories", "anchors": ["CADMium/kohnsham/scf.py:scf (lines 59-64, 106-111)"]}
{"id": "C42", "title": "effective potential reaches the solvers", "statement": "set_effective_potential gives every solver of spin j the column vnuc+vext+vhxc of that spin. set_veff_external(v) ignores v: solvers receive the columns of the previously stored effective potential. With spinflipsym the symmetrised effective potential is stored after the solvers were given the unsymmetrised one, so it does not influence the next density.", "quantifier": "every potential, every shape of the solver array", "why_tests_cant": "relational statement about all arguments", "anchors": ["CADMium/kohnsham/kohnsham.py:Kohnsham.set_effective_potential", "CADMium/kohnsham/kohnsham.py:Kohnsham.set_veff_external", "CADMium/kohnsham/scf.py:scf (lines 67-77)"]}
{"id": "C43", "title": "Kohn-Sham total energy decomposition", "statement": "After energy(), E = Ts + Enuc (+ Eh + Ex + Ec for dft) + Za*Zb/(2a); with dft, unclamped solver energies and n equal to the solvers' output density, this equals the sum of eigenvalues minus the double counting Eh[n] and the exchange-correlation potential energy plus Ex + Ec minus the external energy.", "quantifier": "every charge pair, density, potential and eigenvalue set", "why_tests_cant": "identity between two energy expressions for all inputs", "anchors": ["CADMium/kohnsham/kohnsham.py:Kohnsham.energy"]}
{"id": "C44", "title": "fragment symmetrisation (sym) gives mirror symmetric potentials and densities", "statement": "With optKS.sym on, vnuc, vhxc, veff (for symmetric vext) and the output density equal their mirror images exactly, also in floating point, because averaging with the mirror image is commutative in each addition.", "quantifier": "every grid, every input, every commutative addition", "why_tests_cant": "bitwise statement for all inputs", "anchors": ["CADMium/kohnsham/kohnsham.py:Kohnsham.calc_nuclear_potential", "CADMium/kohnsham/kohnsham.py:Kohnsham.calc_density", "CADMium/kohnsham/kohnsham.py:Kohnsham.calc_hxc_potential"]}
{"id": "C45", "title": "ensemble scale factors and construction", "statement": "After constructing a Partition, scale factors are nu (or 1-nu and nu in an ensemble), halved with ens_spin_sym, so per fragment they sum to nu-independent 1 in an ensemble (1/2 with ens_spin_sym). The fragment objects for the upper integer exist iff both nu differ from 1, while ensemble mode is on iff at least one differs: construction fails with AttributeError when exactly one nu equals 1. ab_sym with different charges raises ValueError.", "quantifier": "every pair (nu_a, nu_b), both option settings, all charges", "why_tests_cant": "continuum of nu", "anchors": ["CADMium/partition/partition.py:Partition.__init__", "CADMium/partition/partition.py:Partition.calc_scale_factors"]}
{"id": "C46", "title": "fragment electron numbers add up in the protomolecule", "statement": "The protomolecular density is the scale-weighted sum of all component densities (plus the spin-flipped copy with ens_spin_sym), its integral is the corresponding weighted sum of electron numbers; with ens_spin_sym its two spin columns are equal.", "quantifier": "every scale factor, every density, ensemble or not", "why_tests_cant": "all densities and weights", "anchors": ["CADMium/partition/partition.py:Partition.calc_protomolecule"]}
{"id": "C47", "title": "Q functions are a partition of unity", "statement": "At every point where the protomolecular density is non-zero the Q functions of all components sum to one (for ens_spin_sym: the sum plus its spin flip is one); where it is zero every Q is zero, never NaN or infinite; for non-negative densities each Q lies in [0,1], and Q*nf reproduces the scaled component density.", "quantifier": "every set of component densities, every point, including zeros", "why_tests_cant": "0/0 handling at arbitrary points", "anchors": ["CADMium/partition/partition.py:Partition.calc_Q"]}
{"id": "C48", "title": "AB symmetry: fragment B is the mirror image of fragment A", "statement": "With ab_sym, after every mirrorAB call (hence at the end of every SCF iteration) fragment B's density, effective and external potentials and potential components are the mirror images of A's, energies and chemical potential are equal, and, if the scale factors of A and B agree, the protomolecular density is mirror symmetric and B's Q functions are mirror images of A's. Different nu_a, nu_b are accepted with ab_sym and then the density need not be symmetric.", "quantifier": "every history of iterations, every fragment state", "why_tests_cant": "invariant over unbounded histories", "anchors": ["CADMium/partition/partition.py:Partition.mirrorAB", "CADMium/partition/scf.py:scf"]}
{"id": "C49", "title": "partition energy bookkeeping", "statement": "Partition.energy satisfies E = Ef + Ep + Za*Zb/(2a) and Ef = Ea + Eb, every fragment component sum is the scale-weighted sum over components (doubled with ens_spin_sym), and B's sums are copies of A's with ab_sym. For an ensemble without ab_sym, Eb counts the upper-integer component of B twice and omits the lower one.", "quantifier": "every energy value and scale factor, all option combinations; failure: existence of ensembles with a wrong Eb", "why_tests_cant": "no test runs an ensemble without ab_sym and checks Eb against an independent sum", "anchors": ["CADMium/partition/energy.py:energy", "CADMium/partition/partition_energy.py:partition_energy"]}
{"id": "C50", "title": "fragment plus partition energy reassembles the molecular functional", "statement": "For dft, hxc_part_type exact and kinetic_part_type inversion (non-isolated, not the defective ensemble case), Et = Tsm + integral of nf*(va+vb) + Eh[nf] + Exm + Ecm where Exm, Ecm are the energies computed when the partition potential was last evaluated (i.e. for the previous protomolecular density), so exactly the molecular functional of nf only if nf has not changed since.", "quantifier": "every density, every fragment energy", "why_tests_cant": "telescoping identity across six modules for all inputs", "anchors": ["CADMium/partition/energy.py:energy", "CADMium/partition/ep_nuclear.py:ep_nuclear", "CADMium/partition/ep_kinetic.py:ep_kinetic", "CADMium/partition/ep_hxc.py:ep_hxc", "CADMium/partition/vp_hxc.py:vp_hxc"]}
{"id": "C51", "title": "partition potential is the Q-weighted average of fragment embedding potentials and splits into its components", "statement": "In component mode vp = sum_i vp_i*Q_i, its reported nuclear, kinetic and hxc components add up to it, with exact hxc the h, x, c components add up to the hxc one, also after the ens_spin_sym and ab_sym post-processing; with ab_sym the result is exactly mirror symmetric; where Q is a partition of unity and all fragments have the same embedding potential, vp equals it.", "quantifier": "every set of fragment potentials and Q functions, both symmetry options", "why_tests_cant": "linear identities over all arrays", "anchors": ["CADMium/partition/partition_potential.py:partition_potential"]}
{"id": "C52", "title": "nuclear embedding potential is the other nucleus", "statement": "vp_nuclear gives fragment A exactly the nuclear potential of B and vice versa (sym off), and the corresponding partition energy is the electrostatic energy of each fragment density in the other nucleus' field; Enucf + Ep_pot = integral of nf*(va+vb).", "quantifier": "every grid, charge pair and density", "why_tests_cant": "identity for all densities", "anchors": ["CADMium/partition/vp_nuclear.py:vp_nuclear", "CADMium/partition/ep_nuclear.py:ep_nuclear"]}
{"id": "C53", "title": "which accepted partition settings can run", "statement": "Of the settings accepted by the option validators, hxc_part_type overlap_hxc_2 and surprisal, kinetic_part_type paramke and fixed, and vp_calc_type potential_inversion can never complete an interacting SCF iteration: each raises an exception on every input. The same holds for the default kinetic_part_type vonweiz (hence for a Partition constructed with default options), for overlap_hxc without an ensemble, for interaction_type ni with hxc_part_type other than exact, and for twoorbital in polarised calculations; overlap_xc, overlap_hxc and an ensemble with twoorbital cannot complete the first iteration of a new object. With component potentials, kinetic_part_type none or libxcke and exact or hartree (dft) or exact (ni), Partition.scf returns normally for every object whose fragments' solvers deliver enough orbitals; so does every isolated calculation.", "quantifier": "every combination of accepted option values, ensemble or not, both polarisations", "why_tests_cant": "the full cross product of options is large and each failure is only reached deep inside the SCF loop", "anchors": ["CADMium/partition/partition.py:PartitionOptions", "CADMium/partition/vp_hxc.py:vp_hxc", "CADMium/partition/ep_hxc.py:ep_hxc", "CADMium/partition/vp_kinetic.py:vp_kinetic", "CADMium/partition/ep_kinetic.py:ep_kinetic", "CADMium/partition/EnsCorHar.py:EnsCorHar", "CADMium/partition/partition_potential.py:partition_potential"]}
{"id": "C54", "title": "overlap measure and its functional derivative", "statement": "For non-negative fragment densities and non-negative quadrature weights, S >= 0 and F = erf(2S) lies in [0,1); the returned dF/dn is the exact derivative of F with respect to the (unpolarised) fragment density values divided by the quadrature weight, at points where both densities are positive, scaled by the component's scale factor; it is never NaN or infinite. In polarised calculations it is the derivative at a point only where the ratio of the two fragments' densities in that spin column equals the ratio of their total densities.", "quantifier": "every pair of densities, every point", "why_tests_cant": "derivative identity over all densities", "anchors": ["CADMium/partition/vp_overlap.py:vp_overlap"]}
{"id": "C55", "title": "von Weizsaecker kinetic partition energy has the wrong sign and shape", "statement": "With kinetic_part_type vonweiz (the default) the molecular term of Ep_kin is minus the von Weizsaecker kinetic energy of nf (as given by its own energy density tsm), and the fragment term is a vector over grid points (product of a number and an array) rather than the sum of fragment kinetic energies, so Ep_kin is an array.", "quantifier": "every density with positive values; existence of a counterexample to Ep_kin = Tsm - Tsf", "why_tests_cant": "tests with the default kinetic type are run isolated, where this code is skipped", "anchors": ["CADMium/partition/ep_kinetic.py:ep_kinetic (lines 11-39)"]}
{"id": "C56", "title": "kinetic embedding potential by inversion uses the right chemical potential", "statement": "With ab_sym (B solvers have no HOMO computed) the chemical potential used for fragment kinetic potentials is the maximum of the computed HOMO values of fragment A's solvers; without ab_sym it is the HOMO of the last solver of fragment B (the upper-integer one for ensembles), not the maximum.", "quantifier": "every array of HOMO values", "why_tests_cant": "depends on the ordering of real values over all solver shapes", "anchors": ["CADMium/partition/vp_kinetic.py:vp_kinetic (lines 52-84)"]}
{"id": "C57", "title": "fragment energy densities in Ep", "statement": "The fragment exchange, correlation and Hartree energy densities subtracted in ep_hxc are the Q-weighted sums over all non-frozen components; with ab_sym they are half-sums completed by their mirror image. For the Hartree part of an ab_sym ensemble the mirror image is added inside the loop, so the first component is counted twice.", "quantifier": "every Q and energy density, ensemble or not", "why_tests_cant": "linear identity over all arrays", "anchors": ["CADMium/partition/ep_hxc.py:ep_hxc"]}
{"id": "C58", "title": "Partition SCF loop bound, exit condition and warning", "statement": "Partition.scf performs at most max_iter iterations; if it stops earlier the last residual is not greater than e_tol (or is NaN). The non-convergence warning is emitted iff max_iter-1 iterations were performed and max_iter >= 2, hence also in runs that converge at iteration max_iter-1 or max_iter, and never when max_iter = 1. With auto_tol on, a run that reaches the tolerance raises TypeError.", "quantifier": "every max_iter, tolerance and residual history", "why_tests_cant": "all histories", "anchors": ["CADMium/partition/scf.py:scf (lines 128-247)"]}
{"id": "C59", "title": "isolated fragments evolve independently", "statement": "With isolated on, every fragment's potential, density and energy after k iterations depend only on that fragment's own initial data, for every k, when iterative diagonalisation is off (with it on, the common residual decides which diagonaliser every fragment uses); no partition potential is applied and Ep = 0.", "quantifier": "every k, every pair of fragment states differing in the other fragment", "why_tests_cant": "non-interference over unbounded histories (hyperproperty)", "anchors": ["CADMium/partition/scf.py:scf", "CADMium/partition/partition_energy.py:partition_energy"]}
{"id": "C60", "title": "all active fragments feel the same partition potential", "statement": "In pdft mode every non-frozen component receives the same external potential array in every iteration; in sdft mode its own embedding potential; a frozen component keeps its previous external potential, but its density is still recomputed and mixed.", "quantifier": "every iteration, every component, every history", "why_tests_cant": "invariant over unbounded histories", "anchors": ["CADMium/partition/scf.py:scf (lines 170-188)"]}
{"id": "C61", "title": "inversion failure counter stops after two consecutive failures", "statement": "During Partition.scf with inversion the run is stopped with SystemExit exactly when two consecutive inversion reports have optimality above one; any successful report in between resets the count.", "quantifier": "every sequence of inversion reports over any number of iterations", "why_tests_cant": "all report histories", "anchors": ["CADMium/partition/scf.py:scf (lines 213-231)"]}
{"id": "C62", "title": "orbital inversion: Jacobian is the derivative of the equations", "statement": "In orbitalinvert's Newton system, eqn(X+dX) - eqn(X) - jac(X)*dX is quadratic in dX for the Kohn-Sham and density rows, and for the normalisation rows when there are at most two orbitals; the Jacobian is symmetric when the base Hamiltonian block is. With three or more orbitals the normalisation rows use the norm of the first orbital for all of them, so the Jacobian is not the derivative.", "quantifier": "every grid, potential, orbitals and step", "why_tests_cant": "polynomial identity in all unknowns", "anchors": ["CADMium/inverter/orbitalinvert.py:kmatrix"]}
{"id": "C63", "title": "orbital inversion: normalisation and symmetry of the unknown vector", "statement": "normalize rescales each orbital block so its weighted norm equals its occupation and leaves the eigenvalue and potential blocks untouched; ab_symmetrize makes the potential block mirror symmetric and every orbital block even or odd, leaving eigenvalues untouched.", "quantifier": "every unknown vector, every number of orbitals", "why_tests_cant": "identities for all vectors", "anchors": ["CADMium/inverter/orbitalinvert.py:normalize", "CADMium/inverter/orbitalinvert.py:ab_symmetrize"]}
{"id": "C64", "title": "orbital inversion: loop bound and success flag", "statement": "orbitalinvert performs at most max(1, max_iter_invert) passes; it returns success only if the last residual is not greater than the tolerance - but a NaN residual is also reported as success; when it stops because the residual exceeds 100 before the last iteration, the returned state is the one after a further update, not the one whose residual was reported.", "quantifier": "every residual history including NaN, every iteration limit", "why_tests_cant": "all histories", "anchors": ["CADMium/inverter/orbitalinvert.py:orbitalinvert (lines 294-481)"]}
{"id": "C65", "title": "inverter kinetic energy and kinetic energy density sums", "statement": "get_Ts is the sum of the solvers' kinetic energies (twice the first column with ens_spin_sym). get_ts_WFI returns per spin the density of the last m-level only, so it equals the sum over levels only when there is one level (or all earlier ones vanish).", "quantifier": "every solver array and every kinetic energy density; failure with two levels", "why_tests_cant": "all shapes; tests only have one level", "anchors": ["CADMium/inverter/get_Ts.py:get_Ts", "CADMium/inverter/get_ts_WFI.py:get_ts_WFI"]}
{"id": "C66", "title": "Wu-Yang inversion: gauge row and polarised runs", "statement": "The residual handed to the least-squares solver has a last component that does not depend on the trial potential, while the Jacobian claims derivative one with respect to its last entry; a zero of the other residual components reproduces the target density exactly. A polarised target without ens_spin_sym raises IndexError when the second spin's chemical potential is stored.", "quantifier": "every trial potential and target density", "why_tests_cant": "relational statement over all trial potentials", "anchors": ["CADMium/inverter/inverter.py:Inverter.Ws", "CADMium/inverter/inverter.py:Inverter.Jacobian", "CADMium/inverter/linresponse.py:linresponse"]}
{"id": "C67", "title": "inversion method dispatch", "statement": "Of the invert_type values accepted by the validator, qinvert, eigensolveinvert and test raise AttributeError for every input; wuyang, simple and orbitalinvert reach their implementation; any other value is rejected at construction.", "quantifier": "every option value, every input", "why_tests_cant": "all option values", "anchors": ["CADMium/inverter/inverter.py:InverterOptions", "CADMium/inverter/inverter.py:Inverter.invert"]}
{"id": "C68", "title": "exchange-correlation energy and potential assembly", "statement": "get_xc returns the integral of the total density times the energy per particle; for lda the potential is the library's vrho unchanged, for gga it is vrho minus the divergence of 2*vsigma*grad n (plus the cross terms for two spins); swapping the spin columns of the density swaps the columns of the potential and leaves the energy unchanged when the library is spin symmetric; any other family raises ValueError.", "quantifier": "every density, every library response that is spin symmetric", "why_tests_cant": "equivariance over all densities and functionals", "anchors": ["CADMium/libxc/libxc.py:Libxc.get_xc", "CADMium/libxc/libxc.py:Libxc.get_xc_dictionary"]}
{"id": "C69", "title": "spinflip reverses spin columns", "statement": "spinflip exchanges the two spin columns of a polarised array, is an involution that commutes with mirror and with integration, leaves single-column and 1-D arrays unchanged.", "quantifier": "every array", "why_tests_cant": "all arrays", "anchors": ["CADMium/psgrid/spinflip.py:spinflip"]}
{"id": "C70", "title": "Hartree potential of a mirrored density", "statement": "When the stored factors reproduce the even Laplacian and that Laplacian is non-singular, v_hartree(mirror n) is the mirror image of v_hartree(n); in particular a mirror-symmetric density has an exactly mirror-symmetric Hartree potential (boundary multipoles included).", "quantifier": "every grid with equal block numbers (at least two), every density, every pair of linear solvers meeting the contract", "why_tests_cant": "symmetry is a statement about all densities and depends on parity of all eight multipoles and of the boundary operator", "anchors": ["CADMium/hartree/hartree.py:Hartree.v_hartree", "CADMium/psgrid/operators.py:operators", "CADMium/psgrid/mirror.py:mirror"]}
{"id": "C71", "title": "three-point stencil: the discrete Poisson problem is well posed and obeys a maximum principle", "statement": "With the three-point stencil and radial spacing at most one, the even Laplacian of every grid is non-singular, so v_hartree is the unique solution of its discrete Poisson problem, and a non-negative density with non-negative boundary multipole values gives a non-negative Hartree potential.", "quantifier": "every grid size, bond length and box with L/Nr <= 1, every density", "why_tests_cant": "non-singularity for all grid sizes cannot be sampled", "anchors": ["CADMium/psgrid/operators.py:operators", "CADMium/hartree/hartree.py:Hartree.v_hartree"]}
{"id": "C72", "title": "response matrix is the first-order density change only for m = 0", "statement": "For filled shells the matrix returned by calc_response applied to any potential change dv, multiplied by 1 for m = 0 and by 2 for m <> 0, is the sum over occupied shells of the shell size times 2*phi*(first-order orbital change), the latter being the solution of the Sternheimer system with the orthogonality row; hence for m <> 0 the returned matrix is half of the density response (finding).", "quantifier": "every grid, every converged or unconverged set of orbitals, every potential change, every exact linear solver", "why_tests_cant": "a linear response identity over all potentials; the missing factor only shows for m <> 0", "anchors": ["CADMium/pssolver/calc_response.py:calc_response"]}
{"id": "C73", "title": "construction of Kohnsham and its solver array", "statement": "Kohnsham(...) lower-cases option keys and raises ValueError for unknown ones, AssertionError when Nmo and N differ in shape, AttributeError when some N is -1. Otherwise solver (i,j) has angular momentum i, N[i][j] electrons, Nmo[i][j] orbitals, a polarisation equal to the number of columns of Nmo (not the pol argument) and the given fractional/sym flags; the nuclear potential is the Coulomb potential in every spin column for pol 1 and 2 and zero for any other pol.", "quantifier": "every charge, shape, N, Nmo and option dictionary", "why_tests_cant": "all shapes and option dictionaries", "anchors": ["CADMium/kohnsham/kohnsham.py:Kohnsham.__init__", "CADMium/kohnsham/kohnsham.py:Kohnsham.calc_nuclear_potential", "CADMium/pssolver/pssolver.py:Pssolver", "CADMium/pssolver/pssolver.py:i_solver.__init__"]}
{"id": "C74", "title": "discrete Green identity of the gradient and divergence matrices", "statement": "With unit weights on the grid points, the divergence operators are minus the adjoints of the gradient operators for fields of the declared boundary parity, so the operator div grad is self-adjoint and dissipative.", "quantifier": "every grid, every pair of fields", "why_tests_cant": "an identity for all fields", "anchors": ["CADMium/psgrid/operators.py:operators"]}
{"id": "C75", "title": "the xc potential is the derivative of the xc energy", "statement": "For lda the potential returned by get_xc is the derivative of the returned energy density with respect to the density, in every direction, when the library's vrho is the derivative of its energy density; for gga with one spin the same holds for the sum over grid points.", "quantifier": "every density, every direction, every differentiable functional", "why_tests_cant": "a derivative identity over all densities and functionals", "anchors": ["CADMium/libxc/libxc.py:Libxc.get_xc", "CADMium/psgrid/operators.py:operators"]}
{"id": "C76", "title": "xc energy and potential of a mirrored density", "statement": "get_xc of a mirrored density returns the mirrored energy density and potential and the same energy.", "quantifier": "every density, every pointwise library, every grid with equal block numbers", "why_tests_cant": "symmetry over all densities", "anchors": ["CADMium/libxc/libxc.py:Libxc.get_xc", "CADMium/psgrid/mirror.py:mirror"]}
{"id": "C77", "title": "kinetic potential reported by the inverter", "statement": "get_vt is the chemical potential minus the stored potential. After orbitalinvert on a fresh inverter the chemical potential sits in one row of the array only (row ispin), so get_vt is -veff everywhere except at grid point ispin, and -veff everywhere when the shells are full (the top eigenvalue is then 0 by convention); after Wu-Yang it is u - vs in every column; after simple the 1-D potential broadcasts to an Nelem x Nelem array; before any inversion it raises TypeError.", "quantifier": "every grid, inverter state and successful inversion", "why_tests_cant": "broadcasting shape depends on which inversion ran; all states", "anchors": ["CADMium/inverter/inverter.py:Inverter.get_vt", "CADMium/inverter/orbitalinvert.py:orbitalinvert", "CADMium/inverter/simple.py:simple"]}
{"id": "C78", "title": "simple inversion: what the loop does and returns", "statement": "For one solver, simple starts from half of the shifted von Weizsaecker potential of the target (the exact potential of a one-orbital density is the whole of it), adds a tenth of the relative density error in each pass, makes at most max_iter_invert-1 passes, stops earlier only when the largest relative error is at most the tolerance, stores as chemical potential the largest eigenvalue clamped below at 0, and returns True whether or not it converged. The stored kinetic energy pairs the orbitals of the previous potential with the updated one. A 2-D target raises UnboundLocalError, a second call AttributeError, more than one column never succeeds.", "quantifier": "every target density, every answer of the eigensolver, every tolerance and limit", "why_tests_cant": "all histories of the fixed-point loop", "anchors": ["CADMium/inverter/simple.py:simple"]}
{"id": "C79", "title": "orbital inversion: unsupported inputs", "statement": "orbitalinvert raises IndexError when there is more than one angular-momentum level and when an unpolarised solver holds an odd number of electrons; with use_iterative every Newton step raises NameError. Without stored orbitals, an empty list of start eigenvalues or fewer of them than orbitals raises IndexError, and a missing start potential raises TypeError.", "quantifier": "every target, guess and inverter state", "why_tests_cant": "all inputs", "anchors": ["CADMium/inverter/orbitalinvert.py:orbitalinvert"]}
{"id": "C80", "title": "Wu-Yang inversion: state left behind", "statement": "After an unpolarised Wu-Yang inversion the stored potential column is the answer of least_squares, whereas the solvers keep the last trial potential (averaged with its mirror image under ab_sym), their orbitals and hence the stored chemical potential; with ens_spin_sym both stored columns and both chemical potentials coincide and solver (0,1) gets the answer of least_squares.", "quantifier": "every answer and trial history of the least-squares routine", "why_tests_cant": "all optimiser histories", "anchors": ["CADMium/inverter/linresponse.py:linresponse", "CADMium/inverter/inverter.py:Inverter.Ws"]}
{"id": "C81", "title": "plot arrays are a faithful picture of the grid", "statement": "For a one-dimensional array or a single column, Psgrid.plotter returns three matrices of Na+2 rows and 2*Nr columns; every entry shows the value of a grid point at its own (Z, Y) on the side X>0 and sym times the value at (Z, -Y) on the side X<0, every grid point appears on both sides, the picture closes across the axis (end rows repeat their neighbours with the sides exchanged) and X increases strictly along each inner row. Arrays with any other number of columns raise ValueError; the (Nelem,2) arrays of a spin-polarised calculation are among them.", "quantifier": "every grid, array and sym", "why_tests_cant": "reshape orders and flips for every grid size", "anchors": ["CADMium/psgrid/plotter.py:plotter"]}
{"id": "C82", "title": "surprisal of the fragment assignment", "statement": "vp_surprise stores in V.s the entropy in bits of assigning an electron to fragment A or B (between 0 and 1, 1 exactly where the densities agree), and the two potentials it then forms are the derivatives of that entropy with respect to the fragment densities; but it always raises ValueError (numpy.AxisError) after storing V.s, because it repeats a one-dimensional array along a second axis.", "quantifier": "every grid and every partition state", "why_tests_cant": "all densities; the derivative identity is a statement about limits", "anchors": ["CADMium/partition/vp_surprise.py:vp_surprise"]}
{"id": "C83", "title": "two-orbital kinetic energy and its density", "statement": "In ep_kinetic with kinetic_part_type twoorbital the stored V.phi1 and V.phi2 hold half of the electrons each and reproduce the fragment density; E.Ep_kin is their kinetic energy minus the weighted von Weizsaecker energies of the two fragments. V.ep_kin integrates against the density to that number only without an ensemble: it uses squared weights, and with ab_sym it counts fragment A twice and adds its mirror image.", "quantifier": "every grid, every partition state with settled densities", "why_tests_cant": "integral identities over all densities", "anchors": ["CADMium/partition/ep_kinetic.py:ep_kinetic"]}
{"id": "C84", "title": "two-orbital kinetic potential", "statement": "In vp_kinetic with kinetic_part_type twoorbital and no ensemble, column 1 of V.vt is the exact rate of the kinetic energy of the two orbitals with respect to the density of fragment B, column 0 misses the rate with respect to the density of A by a multiple of (integral of the Laplacian term minus the kinetic energy of the difference orbital), the subtracted fragment potential is half of the derivative of the von Weizsaecker energy, and interchanging the two fragments does not interchange the potentials.", "quantifier": "every grid, every pair of densities for which the calculation succeeds, every direction of variation", "why_tests_cant": "functional derivatives, all densities", "anchors": ["CADMium/partition/vp_kinetic.py:vp_kinetic"]}
{"id": "C85", "title": "initial guess of the inversion", "statement": "initialguessinvert returns the level-wise concatenation of Galerkin solutions: under the contracts of scipy.linalg.eig and argsort every returned orbital of level m solves the Galerkin equations of the Hamiltonian with the guessed potential on the span of the fragment orbitals of that level, its eigenvalue is its Rayleigh quotient, energies ascend within a level, and independent fragment orbitals give orbitals of norm 1 or 2 (times 2 without ens_spin_sym). The guessed potential is the Q-weighted mean of the fragment potentials and stays between them when the Q add up to one. With ab_sym the orbitals of fragment A are listed twice, so that the pencil is singular and every number is an eigenvalue.", "quantifier": "every grid with positive quadrature weights, every partition state, every number of levels and orbitals", "why_tests_cant": "Galerkin and Rayleigh identities for all trial spaces and potentials", "anchors": ["CADMium/partition/initialguessinvert.py:initialguessinvert"]}
{"id": "C86", "title": "inversion kinetic energy density", "statement": "In ep_kinetic with kinetic_part_type inversion, E.Ep_kin is the kinetic energy of the inverted orbitals minus the scaled kinetic energies of the fragments, and the stored V.ep_kin is a matrix of all differences (one row for every grid point of the fragments, one column for every grid point of the molecule) instead of an array over the grid. The diagonal of that matrix integrates to E.Ep_kin for one spin column and one level when no fragment is scaled; in an ensemble it misses by the sum of scale*(1-scale) times the kinetic energies, because the weights enter squared.", "quantifier": "every grid, every partition state, solver and inverter for which the calculation succeeds", "why_tests_cant": "integral identities over all densities and ensembles", "anchors": ["CADMium/partition/ep_kinetic.py:ep_kinetic"]}
{"id": "C87", "title": "electron numbers, sign and symmetry in every partition pass", "statement": "After every pass of Partition.scf from a constructed object (target density off) each component density integrates, spin by spin, to the electrons asked for it (fragment B of an ab_sym object: those asked for A), the protomolecular density to the weighted sum over the components, plus the spin-flipped copies under ens_spin_sym. With every mixing factor and both nu in [0,1] all densities are non-negative and every Q function lies in [0,1]. Components computed with sym stay mirror symmetric.", "quantifier": "every grid, fragment specification, nu, option set, finishing order of the workers and number of passes", "why_tests_cant": "every number of passes and every mixing factor; conservation laws over all runs", "anchors": ["CADMium/partition/scf.py:scf", "CADMium/kohnsham/kohnsham.py:Kohnsham.calc_density"]}
{"id": "C88", "title": "what the end of a self-consistency loop certifies", "statement": "A pass of Kohnsham.scf or of a component in Partition.scf leaves a density value unchanged exactly when the mixing factor is zero or the solvers, working in the potential of that very density, deliver the same value. When Kohnsham.scf leaves the loop before max_iter with a finite residual, the last pass started from a state of at least the second round, its energy differs from the previous one by at most tol times its modulus, and alpha times the integrated difference between delivered and input density is at most tol times the integrated density, for both spins. The same holds for Partition.scf with one mixing factor, for the weighted sum of the component densities.", "quantifier": "every grid, object, option dictionary, finishing order and number of passes; spin-polarised, target density off", "why_tests_cant": "a statement about the end state of every run, including tolerances close to one and slow mixing", "anchors": ["CADMium/kohnsham/scf.py:scf", "CADMium/partition/scf.py:scf"]}
{"id": "C89", "title": "without electron-electron interaction", "statement": "With interaction_type ni and workers whose answer depends only on the problem, every state visited by Kohnsham.scf has the density of the initial guess; from the first pass on its energy is the sum of occupied eigenvalues, minus the interaction of the density with the external potential set by the caller, plus the nuclear repulsion; a run with tolerance in [0,1) and at least three rounds ends after exactly two passes with residual zero. Isolated fragments of Partition.scf keep the guessed densities in the same way and their energies do not change after the first pass.", "quantifier": "every grid, object, mixing factor, schedule and number of passes", "why_tests_cant": "exact values after any number of passes, for every potential and electron configuration", "anchors": ["CADMium/kohnsham/scf.py:scf", "CADMium/kohnsham/kohnsham.py:Kohnsham.energy", "CADMium/partition/scf.py:scf"]}
{"id": "C90", "title": "an isolated fragment is a Kohn-Sham calculation", "statement": "Kohnsham.scf and, for isolated fragments, each computed component of Partition.scf run through one and the same iteration: guess from the bare potential, then mix the density delivered in the potential of the current density. With workers whose answer depends only on the problem this iteration is deterministic, so after n passes an isolated component has exactly the density and the energy that Kohnsham.scf has after n passes on an object with the same attributes, no external potential and the same mixing factor, whatever the other fragment is.", "quantifier": "every grid, fragment pair, option set, mixing factor, finishing order and number of passes", "why_tests_cant": "equality of two different programs after every number of passes", "anchors": ["CADMium/partition/scf.py:scf", "CADMium/kohnsham/scf.py:scf"]}
{"id": "C91", "title": "the mirror image of a molecule", "statement": "Mirroring a potential mirrors the eigenfunctions of the discretised Schroedinger equation and keeps the eigenvalues. Kohnsham.scf with charges (Za, Zb) and with (Zb, Za), equal electron numbers and options, takes the same number of passes to the same energy, residual and chemical potential, and the final densities are mirror images of each other. For Za = Zb the density after every pass is mirror symmetric even when the option sym is off.", "quantifier": "every mirror-invariant quadrature, pair of charges, electron configuration, option set, mixing factor and finishing order", "why_tests_cant": "a relation between two complete runs, over all charges and all numbers of passes", "anchors": ["CADMium/kohnsham/scf.py:scf", "CADMium/kohnsham/kohnsham.py:Kohnsham.__init__", "CADMium/psgrid/psgrid.py:Psgrid.mirror"]}
{"id": "C92", "title": "exchange of the two spins", "statement": "Exchanging the two spin columns of Nmo and N leaves the number of passes, the energy, the residual and the chemical potential of Kohnsham.scf unchanged and exchanges the two spin densities. With equal columns (a closed shell) both spin densities and both sets of eigenvalues agree after every pass of a polarised calculation.", "quantifier": "every grid, charge pair, occupation, option set and finishing order; spin-symmetric local functionals", "why_tests_cant": "a relation between two complete runs for all occupations", "anchors": ["CADMium/kohnsham/scf.py:scf", "CADMium/kohnsham/kohnsham.py:Kohnsham.__init__", "CADMium/libxc/libxc.py:Libxc.get_xc"]}
{"id": "C93", "title": "isolated fragments of mirror-image partitions", "statement": "Partitions that differ by exchanging the nuclei together with the fragment specifications and the two nu have, after every pass with isolated fragments, mirror-image component densities in exchanged roles, equal component energies and mirror-image protomolecular densities. For equal charges, specifications and nu, without ab_sym, the two fragments of one partition are mirror images of each other with equal energies and the protomolecular density is mirror symmetric.", "quantifier": "every mirror-invariant quadrature, pair of charges, fragment specification, nu, option set and number of passes", "why_tests_cant": "a relation between fragments and between runs after every number of passes", "anchors": ["CADMium/partition/scf.py:scf", "CADMium/partition/partition.py:Partition.__init__"]}
{"id": "C94", "title": "orbital inversion: one update and restarts", "statement": "A Newton update of orbitalinvert with an exact linear solver moves along a line on which every equation (except the wrong normalisation rows of C62) has the value (1-t)*old + O(t^2), followed by a rescaling of each orbital to its occupation. An update that recomputes the orbitals leaves normalised eigenpairs in the same potential shifted by the highest eigenvalue, so all Kohn-Sham equations vanish, and the solver holds the unshifted potential. Calling orbitalinvert again on a solver whose stored orbitals already reproduce the target succeeds after one pass, shifts the potential by the highest eigenvalue, and stores the orbitals with the opposite sign.", "quantifier": "every grid, target, potential, orbitals, stored state and answer of the linear solver and of the eigensolver meeting their contracts", "why_tests_cant": "the equations are continuous unknowns of arbitrary number and a test sees one run; the sign change has no effect on densities", "anchors": ["CADMium/inverter/orbitalinvert.py:orbitalinvert", "CADMium/inverter/orbitalinvert.py:normalize"]}
{"id": "C95", "title": "a closed shell with one column and with two", "statement": "Kohnsham.scf on a closed-shell molecule with pol = 1 (N electrons per level) and with pol = 2 (N/2 electrons per level and spin), equal charges, orbitals and options and a local functional: after equally many passes both have the same total energy and chemical potential, every spin density is half of the one-column density, and the eigenvalues of both spins equal those of the one-column calculation. Two things part the treatments. With xc_family gga the entries of sigma for two columns are wrong, so a functional whose two forms agree on closed shells gives different energy densities. The density residual of the loop is unweighted for one column and weighted for two, so the two runs may stop at different passes.", "quantifier": "every grid, charge pair, closed-shell occupation, option set, mixing factor, finishing order and number of passes; eigensolvers that do not look at the occupation", "why_tests_cant": "a relation between two runs of different array shapes for all molecules and numbers of passes", "anchors": ["CADMium/kohnsham/scf.py:scf", "CADMium/kohnsham/kohnsham.py:Kohnsham.__init__", "CADMium/libxc/libxc.py:Libxc.get_xc", "CADMium/pssolver/calc_density.py:calc_density"]}
{"id": "C96", "title": "routines that cannot be used", "statement": "Psgrid.reduced_grad raises for every array: IndexError for an array with one axis and for two columns (sigma is given one column without its axis), ValueError for one column (a float with the operator @), UnboundLocalError for any other number of columns. i_solver.get_ked_WFI raises AttributeError on every solver that Pssolver makes, because a solver has no array of solvers. The enhancement factors TW_paramke and PW91k_paramke return no value for any array and any list of parameters; with enough parameters and k[0] different from zero they raise ValueError (a float with the operator @).", "quantifier": "every grid, array shape, array content, parameter list and solver", "why_tests_cant": "the claim is about all inputs; a test of one shape shows one exception", "anchors": ["CADMium/psgrid/reduced_grad.py:reduced_grad", "CADMium/psgrid/psgrid.py:Psgrid.reduced_grad", "CADMium/pssolver/get_ked_WFI.py:get_ked_WFI", "CADMium/pssolver/pssolver.py:i_solver.get_ked_WFI", "CADMium/functionals/TW_paramke.py:TW_paramke", "CADMium/functionals/PW91k_paramke.py:PW91k_paramke"]}
{"id": "C97", "title": "embedding potentials of explicit functionals", "statement": "With kinetic_part_type none or libxcke, hxc_part_type exact or hartree and interaction_type ni or dft, the potential V.vp that a pass of Partition.scf computes for a component is the potential of the other nucleus, plus the kinetic potential of the whole density minus that of the component, plus the repulsion potential of the whole density minus that of the component, each functional evaluated at the densities the pass starts from. With calc_type sdft and exact repulsion the effective potential in which a free component is solved is therefore the potential of both nuclei, plus the repulsion potential of the whole density, plus the non-additive kinetic potential: the embedding equation of subsystem density functional theory.", "quantifier": "every grid, pair of charges, fragment specification, nu, option set of these kinds, finishing order and number of passes", "why_tests_cant": "an identity between arrays made by several functions, for all densities and functionals", "anchors": ["CADMium/partition/scf.py:scf", "CADMium/partition/partition_potential.py:partition_potential", "CADMium/partition/vp_nuclear.py:vp_nuclear", "CADMium/partition/vp_kinetic.py:vp_kinetic", "CADMium/partition/vp_hxc.py:vp_hxc"]}
{"id": "C98", "title": "interacting fragments of mirror-image partitions", "statement": "Two partitions that differ by exchanging the nuclei together with the fragment specifications, the two nu, the mixing factors and the freeze flags, with explicit local functionals: after every pass the component densities, the component embedding potentials, the partition potential and the protomolecular density are mirror images in exchanged roles, and the component energies agree. For equal charges, specifications and nu the fragments of one partition are mirror images of each other and the partition potential is mirror symmetric. The sum of fragment energies E.Ef agrees as well, but not in an ensemble: there it changes by the difference of the weighted energies of the two components of A minus that of B, because Partition.energy counts KSB twice and leaves out KSb.", "quantifier": "every mirror-invariant quadrature, pair of charges, fragment specification, nu, explicit option set, calc_type and number of passes", "why_tests_cant": "a relation between two complete runs after every number of passes", "anchors": ["CADMium/partition/scf.py:scf", "CADMium/partition/partition_potential.py:partition_potential", "CADMium/partition/energy.py:energy", "CADMium/partition/partition.py:Partition.__init__"]}
{"id": "C99", "title": "the total energy of explicit functionals", "statement": "For a partition with one component per fragment, kinetic_part_type none or libxcke, hxc_part_type exact and interaction_type dft, the total energy E.E after a pass of Partition.scf is the sum of the fragment kinetic energies plus the non-additive kinetic energy, the attraction of the whole density by both nuclei, the Hartree energy of the whole density, the exchange and correlation energies and the repulsion of the nuclei, with no remainder from the partition energy: every other term of the fragments cancels. The attraction and the Hartree energy belong to the new density, but the kinetic functional and the exchange and correlation energies are those of the densities the pass started from, so before convergence E.E is not the energy of any one density.", "quantifier": "every grid, pair of charges, fragment specification, option set of this kind, finishing order and number of passes", "why_tests_cant": "an identity between numbers made by many functions, for all densities and functionals; at convergence the two densities agree and a test cannot tell them apart", "anchors": ["CADMium/partition/scf.py:scf", "CADMium/partition/energy.py:energy", "CADMium/partition/partition_energy.py:partition_energy", "CADMium/partition/ep_kinetic.py:ep_kinetic", "CADMium/partition/ep_hxc.py:ep_hxc", "CADMium/partition/vp_kinetic.py:vp_kinetic", "CADMium/partition/vp_hxc.py:vp_hxc"]}
{"id": "C100", "title": "energies and numbers of passes of mirror-image partitions", "statement": "Two interacting partitions that differ by exchanging the nuclei with all settings of the two fragments, one component per fragment, explicit local functionals with exact repulsion: after every pass the total energies E.E are equal and so are the residuals that the loop compares with the tolerance, hence two complete runs with the same options stop after the same number of passes, with equal energies and mirror-image densities in exchanged roles.", "quantifier": "every mirror-invariant quadrature, pair of charges, fragment specification, option set of this kind, calc_type, finishing order and number of passes", "why_tests_cant": "equality of stopping times of two runs for all molecules; a test sees one pair of runs", "anchors": ["CADMium/partition/scf.py:scf", "CADMium/partition/energy.py:energy", "CADMium/partition/partition.py:Partition.__init__"]}
{"id": "C101", "title": "the derivative matrices are accurate to order 2b", "statement": "On the samples of a function with enough derivatives and the parity a derivative matrix is built for, the angular first and second derivative matrices differ from the true derivatives at every node by at most a constant of the coefficients times a bound on derivative 2b+1 (2b+2) times the step to the power 2b (the constant is explicit: sum over the stencil of |c_j| |offset_j|^k / k!, for nine points below 1/100 and 1/500). The radial matrices have the same bound, with the contribution of the nodes outside the grid written separately.", "quantifier": "every grid size, stencil half width b, smooth function of the right parity, node", "why_tests_cant": "an error bound for all smooth functions and all step sizes; a test sees one function on one grid", "anchors": ["CADMium/psgrid/finite_difference_1d.py:finite_difference_1d", "CADMium/psgrid/operators.py:operators"]}
{"id": "C102", "title": "the Laplacian with its boundary part is accurate to order 2b", "statement": "On the samples of a smooth function on the prolate spheroidal grid, elap applied to the inner values plus blap applied to the values on the boundary layer differs from the weighted Laplacian at every point by at most the sum of the four stencil errors with the coefficients of the operator, hence by a multiple of ha^(2b) + hr^(2b); far enough from the outer boundary elap alone has this error.", "quantifier": "every grid, stencil half width b, smooth even function, grid point", "why_tests_cant": "an error bound at every point for all smooth functions and all grids", "anchors": ["CADMium/psgrid/operators.py:operators", "CADMium/psgrid/initialize.py:initialize", "CADMium/psgrid/finite_difference_1d.py:finite_difference_1d"]}
{"id": "C103", "title": "the discrete Hamiltonian of a solver is consistent with the Schroedinger operator", "statement": "The matrix that i_solver.hamiltonian builds, applied to the samples of a smooth function that vanishes outside, differs at every point from the weighted Schroedinger operator (kinetic energy with the magnetic quantum number, potential times the volume weight) by half the error of the Laplacian. The samples of an exact orbital therefore satisfy the discrete eigenvalue problem that is given to the eigensolver with a residual of this size.", "quantifier": "every grid, stencil half width, magnetic quantum number, potential, smooth orbital", "why_tests_cant": "a consistency statement for all orbitals and grids; exact orbitals are known for few potentials", "anchors": ["CADMium/pssolver/pssolver.py:i_solver.hamiltonian", "CADMium/pssolver/pssolver.py:i_solver.__init__", "CADMium/psgrid/operators.py:operators"]}
{"id": "C104", "title": "the composite quadrature rule is accurate to order N", "statement": "The weights of the composite rule with N points per block and step h, applied to the samples of a function with N derivatives on [0, len], differ from the integral by at most M h^N (len c1 + 2 h c2), M a bound on the N-th derivative and c1, c2 constants of the rule, plus the weight of the two end points, which the grid does not contain, times the end values. The sizes of all weights add up to a bounded multiple of the number of points.", "quantifier": "every number of blocks, order N, smooth function, length", "why_tests_cant": "an error bound for all smooth functions; a test sees single integrals", "anchors": ["CADMium/common/NC.py:NC", "CADMium/psgrid/initialize.py:initialize"]}
{"id": "C105", "title": "integrate approximates the volume integral to order N", "statement": "Psgrid.integrate of the samples of a function F differs from the integral of F over the prolate spheroid of the grid, in space, by at most an explicit multiple of ha^N and hr^N with bounds on the N-th derivatives of F times the volume element, plus one term from the outer boundary, which vanishes with F there. With F = 1 the bound applies to the volume.", "quantifier": "every grid, order N, smooth function", "why_tests_cant": "an error bound for all smooth functions and all grids", "anchors": ["CADMium/psgrid/integrate.py:integrate", "CADMium/psgrid/initialize.py:initialize", "CADMium/common/NC.py:NC"]}
{"id": "C106", "title": "correlated Hartree energy and overlap interpolation of the partition energy", "statement": "EnsCorHar succeeds only for ensembles; it stores with each component the Hartree potential of the component of the other fragment with the complementary number of electrons, and E.Ehcor is the weighted sum of half the repulsion of each component with that potential. After ep_hxc, E.Ep_hxc is Ep_h + Ep_x + Ep_c (exact), Ep_h (hartree), (1 - F) Ep_h + F (Ep_h + Ep_x + Ep_c) (overlap_xc) or (1 - F) Ehcor + F (Ep_h + Ep_x + Ep_c) (overlap_hxc). The potential of overlap_xc is the derivative of its energy whenever the stored parts are derivatives of theirs. That of overlap_hxc is not: it differs by 2 Ehcor dFdn (sign of the last term), so it is the derivative exactly when Ehcor dFdn = 0; an evaluated ensemble violates it at every entry. For an interaction symmetric under the quadrature the stored correlated potential is the derivative of Ehcor per weight exactly when the two components of a pair have the same weight.", "quantifier": "every grid, ensemble, density, mode, variation of the parts", "why_tests_cant": "derivatives with respect to arbitrary densities; the overlap modes never complete on a new object, so no end-to-end run shows the sign", "anchors": ["CADMium/partition/EnsCorHar.py:EnsCorHar", "CADMium/partition/ep_hxc.py:ep_hxc", "CADMium/partition/vp_hxc.py:vp_hxc", "CADMium/partition/vp_overlap.py:vp_overlap"]}
{"id": "C107", "title": "the inversion behind the kinetic potential reproduces the fragment density", "statement": "With kinetic_part_type inversion and an orbitalinvert inverter, when the report that vp_kinetic keeps shows a residual within the tolerance, the molecular solver of the last inverted spin holds orbitals whose density is the summed fragment density nf of this spin (not twice it, for polarised calculations), point by point to the tolerance over the quadrature weight, and they satisfy the Kohn-Sham equations in its potential to the tolerance with highest level zero; with ens_spin_sym both columns hold this solver. On the first inversion of an unpolarised molecule vp_kin of every component is then its effective potential minus the chemical potential minus the molecular potential.", "quantifier": "every grid, partition, inverter, initial guess", "why_tests_cant": "relates the state left by a solver to its input for all inputs; a test would check single molecules to a tolerance", "anchors": ["CADMium/partition/vp_kinetic.py:vp_kinetic", "CADMium/inverter/inverter.py:Inverter.invert", "CADMium/inverter/orbitalinvert.py:orbitalinvert"]}
{"id": "C108", "title": "the Hartree potential converges with second order", "statement": "On every grid with three-point stencils and radial step at most 1, with exact solvers, the potential returned by v_hartree differs from a smooth solution u of Poisson's equation for the same density by at most the error of the multipole values just beyond the outer boundary plus (7/12 Ma ha^2 + (7/12 + L/2) Mr hr^2) (M^2 - m^2)/4, where Ma and Mr bound the fourth derivatives of u along the two coordinates, ha and hr are the steps and M is the radial coordinate of the first points outside. The second term falls like the inverse square of the number of points, uniformly up to the axis and the bond, where the coefficients of the equation are singular.", "quantifier": "every grid, density, smooth potential", "why_tests_cant": "convergence is a statement about all refinements; tests compare a few grids", "anchors": ["CADMium/hartree/hartree.py:Hartree.v_hartree", "CADMium/psgrid/initialize.py:initialize", "CADMium/common/finite_difference_coefficients.py:finite_difference_coefficients"]}
{"id": "C109", "title": "the Hartree potential depends continuously on the density", "statement": "With three-point stencils and exact solvers, if two densities differ by at most N at every grid point and their multipole values outside by at most delta, the potentials differ by at most delta + pi (a cosh L)^2 N (M^2 - m^2); in particular the potential of a density bounded by N is bounded by this, independently of the number of points.", "quantifier": "every grid, pair of densities, spin layout", "why_tests_cant": "a bound over all densities and grids; tests sample some", "anchors": ["CADMium/hartree/hartree.py:Hartree.v_hartree"]}
{"id": "C110", "title": "Kohnsham.scf keeps no hidden state and can be continued", "statement": "When the answers of the eigenvalue solvers depend on the solver and its potential only (not on direct or iterative method and previous orbitals), one pass of the loop from two states of a calculation with equal density and external potential gives equal densities, energies and orbitals, whatever else the states hold. Hence two calls on one object with the same mixing factor, spin flip and start have the same iterates, independent of tolerance, iteration limit, method and finishing order of the workers; and a call that was ended is continued by a second call with continuing=True exactly as if it had not ended: after p and q passes the density, the energy and every solver are those of one call with p + q passes.", "quantifier": "every grid, object, library, options, finishing order, number of passes", "why_tests_cant": "an equality of all intermediate states for all interruption points; stale fields (potentials, energies, solver memory) would have to be excluded one by one", "anchors": ["CADMium/kohnsham/scf.py:scf", "CADMium/kohnsham/kohnsham.py:Kohnsham.calc_density", "CADMium/kohnsham/kohnsham.py:Kohnsham.energy"]}
{"id": "C111", "title": "runs of Kohnsham.scf that do not move", "statement": "Started from a density that the solvers reproduce in its own potential, or with mixing factor alpha = 0, the loop makes exactly two passes, returns the density it started from and reports the difference 0 (two spin columns, nonzero energy, tolerance in [0, 1)). Refuted: that a reported difference within the tolerance shows self-consistency - with alpha = 0, which is accepted, a run ends long before the iteration limit with difference 0 at the non-interacting guess although the solvers deliver another density in its potential.", "quantifier": "every grid, object, density, tolerance in [0, 1), limit of at least 3", "why_tests_cant": "a claim about every starting density that is a fixed point, and about what the stopping test can conclude", "anchors": ["CADMium/kohnsham/scf.py:scf"]}
{"id": "C112", "title": "the grid scales with the distance between the nuclei", "statement": "With the half distance a replaced by lam a and everything else equal, the coordinates scale with lam, the quadrature weights and every integral with lam^3, f with 1/lam^2; gradient and divergence of the same samples with 1/lam; the Laplacian (even and odd, matrix and boundary part, divided by the weight) with 1/lam^2; the Coulomb potential of given charges with 1/lam and, with the charges divided by lam, the nuclear potential of Kohnsham (all four combinations of polarisation and symmetry) with 1/lam^2.", "quantifier": "every grid, scale factor, function, charges", "why_tests_cant": "an exact identity for all grids, functions and factors", "anchors": ["CADMium/psgrid/initialize.py:initialize", "CADMium/psgrid/operators.py:operators", "CADMium/psgrid/integrate.py:integrate", "CADMium/common/coulomb.py:coulomb", "CADMium/kohnsham/kohnsham.py:Kohnsham.calc_nuclear_potential"]}
{"id": "C113", "title": "uniform scaling of orbitals, energies and whole non-interacting runs", "statement": "The discrete Schroedinger equation holds for (v, e, phi) exactly when it holds for (v/lam^2, e/lam^2, phi) on the stretched grid. For solvers related in this way calc_density returns n/lam^3, calc_energy eks/lam^2, Ts/lam^2, Vs/lam^2 (where the cap of Vs is not met), get_homo the level over lam^2, calc_ked_WFI t/lam^5, or both raise the same exception. Whole runs of scf without interaction with charges Z/lam on the stretched grid visit the densities n/lam^3 and report the energy e/lam^2 plus the nuclear repulsion over lam^3, where e is the electronic energy of the original run.", "quantifier": "every grid, scale factor, solver, pair of runs with any tolerances, limits and finishing orders", "why_tests_cant": "a hydrogenic scaling law that holds exactly on the discrete level for all parameters, while each single run only approximates the continuum one", "anchors": ["CADMium/pssolver/pssolver.py:i_solver.hamiltonian", "CADMium/pssolver/calc_density.py:calc_density", "CADMium/pssolver/calc_energy.py:calc_energy", "CADMium/pssolver/get_homo.py:get_homo", "CADMium/pssolver/calc_ked_WFI.py:calc_ked_WFI", "CADMium/kohnsham/scf.py:scf"]}
{"id": "C114", "title": "uniform scaling of the Hartree potential and of exchange", "statement": "With exact solvers on both grids, v_hartree of n/lam^3 on the stretched grid is the potential of n over lam (in each layout; if the first call succeeds so does the second). The reduced gradients sigma computed by Psgrid.sigma scale with 1/lam^8. For every functional of exchange type (energy per particle homogeneous under this scaling), lda or gga, get_xc returns energy, energy per particle and potential over lam, including the divergence term of the gga potential, or both raise the same exception.", "quantifier": "every grid, scale factor, density, functional with the exchange scaling", "why_tests_cant": "exact scaling conditions for all densities; a test would compare a few densities to the grid error", "anchors": ["CADMium/hartree/hartree.py:Hartree.v_hartree", "CADMium/libxc/libxc.py:Libxc.get_xc", "CADMium/psgrid/sigma.py:sigma"]}
{"id": "C115", "title": "accuracy of the gradient, of sigma and of the divergence", "statement": "For samples of a smooth function with the parity of the stencil, grada and gradr return the components of its gradient along the coordinate lines up to an explicit multiple of ha^(2b) and hr^(2b) over the metric factor, and the columns of Psgrid.sigma for one spin the squared length of its gradient up to the corresponding error. diva + divr of the components of a smooth field return its divergence to the same order at points whose stencils stay inside the grid. Refuted beside the axis: there the matrices continue the flux as odd although it is even, so with three-point stencils the divergence of the unit field along the axis (exactly 0) is at most -1/(5 a cosh m) in the first angular row on every grid, however fine; and for the functional with energy density sigma and the density c + z, get_xc returns a potential of at least 2/(5 a cosh m) there instead of 0.", "quantifier": "every grid, smooth function, smooth field, point; the failure for every three-point grid with steps at most 1/4 and 1/8", "why_tests_cant": "error bounds for all smooth functions and a lower bound for the error on all fine grids; the tests compare matrix entries with stored values of the same code", "anchors": ["CADMium/psgrid/operators.py:operators", "CADMium/psgrid/sigma.py:sigma", "CADMium/libxc/libxc.py:Libxc.get_xc"]}
{"id": "C116", "title": "accuracy of the multipole boundary values", "statement": "The values that v_hartree puts on the ghost points beyond the outer boundary differ from the Coulomb potential of the charges on the grid points, each spread over its circle around the axis, by at most (rho/r)^8/(r - rho) times the sum of the magnitudes of the charges, when all charge lies within rho and the ghost point at the distance r > rho from the mid-point; and from charge over distance by at most (rho/r)/(r - rho) times it. Grid points lie within a cosh(L - h/2), ghost points beyond a sinh(L + h/2), and the first is smaller exactly if sinh(2L) sinh(h) > 1; then the bound holds for every density. Refuted: that grid points are always nearer than ghost points.", "quantifier": "every grid, density, ghost point", "why_tests_cant": "a truncation bound for all densities; it needs the addition theorem and the tail of the generating function of the Legendre polynomials", "anchors": ["CADMium/hartree/hartree.py:Hartree.v_hartree"]}
{"id": "C117", "title": "the Hartree potential with explicit boundary errors", "statement": "With three-point stencils, h <= 1 and sinh(2L) sinh(h) > 1, the potential is bounded by the total charge over the gap between points and ghost points plus a multiple of the largest density; it differs from a smooth solution of Poisson's equation by at most the quadrature error of the Coulomb integral at the ghost points, the truncation bound, and a term of second order in the steps. A density that is nowhere negative and lies within half the distance of the ghost points has a potential that is nowhere negative.", "quantifier": "every such grid, density, exact factorisation, smooth solution", "why_tests_cant": "bounds for all densities with explicit constants", "anchors": ["CADMium/hartree/hartree.py:Hartree.v_hartree", "CADMium/psgrid/operators.py:operators"]}
{"id": "C118", "title": "signs of the quadrature weights and positivity of the integral", "statement": "With 2 to 8 or 10 points per block (7 is what the examples use) and any number of blocks, all weights of the angular and radial rule are positive. Then integrate of flat arrays (and of each of two spin columns) is monotone, positive on functions that are nowhere negative and somewhere positive, bounded by the integral of the magnitude, and satisfies the Cauchy-Schwarz inequality; the overlap of two fragment densities lies between 0 and the geometric mean of their electron numbers; and a non-negative density within half the distance of the ghost points has a non-negative Hartree potential. Refuted for 9 points per block: on every such grid the fifth weight of each rule is negative and some non-negative function has a negative integral.", "quantifier": "every grid with these block sizes, any block counts, distances and cut-offs; every function and density", "why_tests_cant": "positivity of a family of rules for all numbers of blocks; a test shows it for single grids and functions", "anchors": ["CADMium/common/NC.py:NC", "CADMium/psgrid/initialize.py:initialize", "CADMium/psgrid/integrate.py:integrate", "CADMium/partition/vp_overlap.py:vp_overlap", "CADMium/hartree/hartree.py:Hartree.v_hartree"]}
{"id": "C119", "title": "the lowest level of every angular momentum on three-point grids", "statement": "With three-point stencils and a radial step of at most 1, for every angular momentum m and every potential the Hamiltonian that i_solver builds has a level with an orbital that is positive at every grid point. No other eigenvalue has a smaller real part. Every other orbital is a multiple of it or belongs to a strictly higher level and takes both signs. Every positive trial function t encloses the level between the smallest and the largest (H t)_k/(w_k t_k). No level lies below the smallest value of the potential.", "quantifier": "every such grid, angular momentum, potential, eigenvector, trial function", "why_tests_cant": "a statement about the whole spectrum of every matrix of a family; a test diagonalises single matrices", "anchors": ["CADMium/pssolver/pssolver.py:i_solver.hamiltonian", "CADMium/psgrid/operators.py:operators", "CADMium/pssolver/calc_orbitals.py:calc_orbitals"]}
{"id": "C120", "title": "the lowest level follows the potential and the angular momentum", "statement": "On the same grids, raising the potential by amounts between lo and hi raises the lowest level by an amount between lo and hi. For |m| < |m'| the lowest level of m is strictly below every level of m' in the same potential (also when the two use different parities at the axis). In a mirror-symmetric potential the lowest orbital is mirror-symmetric.", "quantifier": "every such grid, pair of potentials, pair of angular momenta", "why_tests_cant": "comparisons between the spectra of all pairs of matrices", "anchors": ["CADMium/pssolver/pssolver.py:i_solver.hamiltonian", "CADMium/psgrid/operators.py:operators"]}
{"id": "C121", "title": "which levels calc_orbitals finds", "statement": "If the shift e0 is at or below the lowest level (which holds if it is nowhere above the potential) and the eigenvalue routine returns the Nmo solutions nearest to e0, calc_orbitals returns the Nmo lowest levels in ascending order, and its first column is a non-zero multiple of the positive orbital (with sym: in a symmetric potential). Refuted without this condition: on every such grid, for every angular momentum and every e0, there are a potential and an answer within the contract for which calc_orbitals with one orbital returns a level strictly above the lowest one. The shifts the code sets are fixed numbers or depend on the charges only.", "quantifier": "every such grid, solver, potential, shift, sorting, answer of the eigenvalue routine within its contract", "why_tests_cant": "the claim is about what an iterative routine may return for every potential; a test sees the answers for a few potentials", "anchors": ["CADMium/pssolver/calc_orbitals.py:calc_orbitals", "CADMium/kohnsham/kohnsham.py:Kohnsham.__init__"]}
{"id": "C122", "title": "the levels of three-point grids are real and orthogonal", "statement": "With three-point stencils and a radial step of at most 1, for every angular momentum and potential every eigenvalue of the Hamiltonian is real, and the real and the imaginary part of every eigenvector solve the equation each, so eig.real and phi.real of calc_orbitals lose nothing unless the real part vanishes. There is one positive weight per grid, given as a product of ratios of stencil coefficients, that makes the Hamiltonians of all angular momenta symmetric; with it orbitals of different levels are orthogonal.", "quantifier": "every such grid, angular momentum, potential, complex eigenpair", "why_tests_cant": "a statement about the whole spectrum of non-symmetric matrices for all potentials", "anchors": ["CADMium/pssolver/pssolver.py:i_solver.hamiltonian", "CADMium/psgrid/operators.py:operators", "CADMium/pssolver/calc_orbitals.py:calc_orbitals"]}
{"id": "C123", "title": "minimum principle for the lowest level", "statement": "On the same grids the lowest level is the minimum of the energy quotient over all trial orbitals, attained only by multiples of the lowest orbital. It is a concave function of the potential, and first-order perturbation theory gives an upper bound. The kinetic energy of every trial orbital is positive.", "quantifier": "every such grid, angular momentum, potential, trial orbital, mixing fraction", "why_tests_cant": "an inequality over all trial vectors and pairs of potentials", "anchors": ["CADMium/pssolver/pssolver.py:i_solver.hamiltonian", "CADMium/psgrid/operators.py:operators"]}
{"id": "C124", "title": "distance between computed and exact levels", "statement": "With three-point stencils and a radial step of at most 1: for every computed level e with orbital p, every number E and every function f, (e - E) times the weighted overlap of p and f is the weighted sum of p times the residual of f in the discrete equation. For m = 0 and a smooth solution u of the Schroedinger equation with level E it follows that |e - E| times the overlap is at most a term of second order in the two steps plus the values of u just beyond the outer boundary; and if u is positive, the computed lowest level lies at most the second-order term below E, since cutting the domain can only raise it.", "quantifier": "every such grid, potential, computed orbital, smooth solution with bounded fourth derivatives along the coordinate lines", "why_tests_cant": "an error bound for all potentials and solutions; a test compares with a reference value for a few potentials", "anchors": ["CADMium/pssolver/pssolver.py:i_solver.hamiltonian", "CADMium/psgrid/operators.py:operators", "CADMium/pssolver/calc_orbitals.py:calc_orbitals"]}
{"id": "C125", "title": "convergence of the density mixing", "statement": "Suppose the solvers bring two densities closer by a factor q, on a set of densities that mixing does not leave. Then each pass of Kohnsham.scf multiplies the largest distance from the self-consistent density by at most 1 - alpha (1 - q), so small mixing factors slow the convergence in proportion. The change made by a pass bounds the distance from self-consistency only with the factor 1/(alpha (1 - q)). If q < 1 there is at most one self-consistent density. If moreover the energy depends on the density with a finite constant and stays away from zero, the loop leaves with a residual not above e_tol after a number of passes computed from these constants, provided maxiter allows it.", "quantifier": "every grid, molecule with two spin columns, solver and functional outputs, mixing factor between 0 and 1, finishing order, start", "why_tests_cant": "convergence for all runs and all passes; a test sees that particular runs end", "anchors": ["CADMium/kohnsham/scf.py:scf", "CADMium/kohnsham/kohnsham.py:Kohnsham.calc_density", "CADMium/kohnsham/kohnsham.py:Kohnsham.calc_hxc_potential"]}
{"id": "C126", "title": "levels are orthogonal for the volume element up to second order", "statement": "On three-point grids with radial step at most 1 the weight of C122 lies between exp(-s) and exp(s+t) with s = (pi/Na)^2 (1 + ln Na)/2 and t = (L/Nr)^2 (L + 1 + ln Nr), and does not fall along the radial coordinate. So normalised orbitals of different levels have an overlap of at most exp(s+t) - 1 when summed with the plain volume element, for every potential and angular momentum; and where a potential is raised, the lowest level rises at most by exp(2s+t) times the mean of the rise over the density of the old lowest orbital.", "quantifier": "every such grid, angular momentum, pair of potentials, pair of levels", "why_tests_cant": "an explicit error constant for all potentials and grids, not a comparison at one resolution", "anchors": ["CADMium/pssolver/pssolver.py:i_solver.hamiltonian", "CADMium/psgrid/operators.py:operators", "CADMium/psgrid/finite_difference_1d.py:finite_difference_1d"]}
{"id": "C127", "title": "an empty fragment exerts no force", "statement": "In every pass of Partition.scf a component for which no electrons are asked has density zero. If fragment B has neither nucleus nor electrons (Zb = 0, N = 0; explicit kinetic part, interaction 'ni' or 'dft', no ens_spin_sym, ab_sym, isolated or sym), then in every pass, for 'pdft' and 'sdft' alike, the protomolecular density is that of fragment A, and both the embedding potential of A and the common partition potential are zero at every grid point. Density and energy of fragment A after each pass are exactly those of the same number of passes of Kohnsham.scf on the object of fragment A alone, with the same mixing factor. The total energy stored after a pass is the energy of fragment A plus the change of its exchange and correlation energy in this pass, since the partition exchange-correlation energy still uses the density the pass started from.", "quantifier": "every grid, charge Za, polarisation, functional, kinetic part, mixing factor, number of passes, schedule and steady eigenvalue solver", "why_tests_cant": "an exact limit of the embedding that holds in every pass of every run; a test can only compare converged numbers of one system with a tolerance", "anchors": ["CADMium/partition/scf.py:scf", "CADMium/partition/vp_nuclear.py:vp_nuclear", "CADMium/partition/vp_kinetic.py:vp_kinetic", "CADMium/partition/vp_hxc.py:vp_hxc", "CADMium/partition/partition_potential.py:partition_potential", "CADMium/partition/energy.py:energy", "CADMium/pssolver/calc_density.py:calc_density"]}
{"id": "C128", "title": "Partition.scf keeps no hidden state and can be continued", "statement": "For explicit functionals (kinetic part 'none' or 'libxcke', hxc part 'exact' or 'hartree', interaction 'ni' or 'dft', neither isolated nor ab_sym, not from a target density): n1 passes of one call of Partition.scf followed by n2 passes of a call with continuing=True leave the same protomolecular and component densities, the same external potentials, the same partition potential on the grid and the same energy and kinetic energy of every component as n1+n2 passes of a single call; without ensembles, for interaction 'dft' with the exact hxc part, also the same total energy E. Two calls from the same state that differ only in e_tol, max_iter, auto_tol, iterative or the finishing order of the workers agree in all of this pass by pass. After any number of passes a call with continuing=True returns (also with the inversion kinetic part, under the conditions under which the first call returns); on a new object it raises AssertionError.", "quantifier": "every grid, pair of charges, polarisation, ensemble, functional, mixing factors, frozen fragments, numbers of passes, schedules and steady eigenvalue solver", "why_tests_cant": "the loop keeps its iterates in a dozen attributes of several objects; whether one of them leaks into the next call is a statement about every state a run can leave, not about one converged example", "anchors": ["CADMium/partition/scf.py:scf", "CADMium/partition/partition_potential.py:partition_potential", "CADMium/partition/energy.py:energy", "CADMium/kohnsham/kohnsham.py:calc_density"]}
{"id": "C129", "title": "a constant added to the external potential", "statement": "Raising Kohnsham.vext by a constant, which may differ between the two spins, changes nothing that can be observed except the zero of energy: pass by pass the density, the total energy and the residual are the same, the call makes the same number of passes, E.E, E.Ts and E.Enuc agree, every eigenvalue of spin s rises by c_s, E.Eks of spin s by c_s times the number of electrons in its orbitals and E.Vext by the sum of c_s times the number of electrons in the density. With one constant c for both spins the chemical potential u rises by c unless it is the value -1/eps that get_homo reports for solvers without electrons.", "quantifier": "every grid, molecule, polarisation, functional and interaction type, all options of the call (also continuing, iterative, spinflipsym), all constants, schedules and numbers of passes; eigenvalue solvers that answer a raised potential with raised levels and the same orbitals up to factors", "why_tests_cant": "the constant enters the eigenvalues, Vks and Vext and must cancel in the kinetic energy of every solver in every pass, for arbitrary constants and densities", "anchors": ["CADMium/kohnsham/scf.py:scf", "CADMium/kohnsham/kohnsham.py:energy", "CADMium/kohnsham/kohnsham.py:calc_chempot", "CADMium/pssolver/calc_energy.py:calc_energy", "CADMium/pssolver/get_homo.py:get_homo"]}
{"id": "C130", "title": "Levels, chemical potential and kinetic energy of a Kohn-Sham calculation are bounded below by the effective potential", "statement": "After a call of Kohnsham.scf with at least one pass, on a grid with three-point differences and with an eigensolver whose eigenvalues are exact in the potential it was given: no stored level lies below the lowest value b of the effective potential of its spin; E.Eks of a spin is at least b times the number of electrons in the orbitals of that spin; the chemical potential is at least the lowest value of all effective potentials, or the -1/eps reported without electrons; with positive quadrature weights E.Ts is at least minus the sum over spins of the variation B - b of the potential times the number of electrons, so it is not negative when the potentials are constant on the grid.", "quantifier": "all grids with three-point differences and spacing at most 1, all numbers of levels, spins and electrons, fractional or not, all options of scf, external potentials, functionals and eigensolvers with exact eigenvalues and orbitals that can be normalised", "why_tests_cant": "A run shows the levels of one potential; the bound holds for every potential and rests on the sign structure of the discrete Hamiltonian for every grid size together with the bookkeeping of occupations.", "anchors": ["CADMium/kohnsham/scf.py:scf", "CADMium/kohnsham/kohnsham.py:energy", "CADMium/kohnsham/kohnsham.py:calc_chempot", "CADMium/pssolver/pssolver.py:hamiltonian", "CADMium/pssolver/calc_energy.py:calc_energy", "CADMium/pssolver/get_homo.py:get_homo"]}
{"id": "C131", "title": "No mixing factor makes Kohnsham.scf converge in every case, and unconverged results are returned like converged ones", "statement": "There is an object with two electrons and a deterministic eigensolver without a self-consistent density. For every mixing factor alpha between 0 and 1 there is a positive tolerance such that scf called on it with a smaller e_tol, however large maxiter is, makes all passes maxiter allows and returns normally with a residual above e_tol. The contraction assumed in C125 can therefore not be dropped.", "quantifier": "all mixing factors in (0, 1], all tolerances below a bound proportional to the mixing factor, all iteration limits and all other options without continuing, spinflipsym and auto_tol", "why_tests_cant": "A test sees one run that stops at its iteration limit; it cannot tell slow convergence from none, for all limits and mixing factors.", "anchors": ["CADMium/kohnsham/scf.py:scf", "CADMium/kohnsham/kohnsham.py:calc_hxc_potential"]}
{"id": "C132", "title": "binding energy of one-orbital runs as a function of the nuclear charges", "statement": "A call of Kohnsham.scf on a new object without interaction, with at most one orbital of angular momentum 0 per spin and a three-point grid, whose eigensolver finds the lowest level, stores E = n a + Za Zb/(2 a_grid): n the electrons in the orbitals, a the lowest level in the field of two point charges at the foci. E minus the repulsion never rises when a charge grows and falls strictly if there are electrons, is a concave function of the pair of charges, and every trial orbital gives an upper bound for it. The runs compared may use different eigensolvers, options, mixing factors and schedules.", "quantifier": "all grids with three-point differences, all real charges, one or two spin columns, electron numbers up to a full orbital, fractional or not, all options of scf apart from continuing, spinflipsym and sym", "why_tests_cant": "Monotonicity, concavity and the minimum principle compare all pairs of runs and all trial orbitals.", "anchors": ["CADMium/kohnsham/scf.py:scf", "CADMium/kohnsham/kohnsham.py:energy", "CADMium/kohnsham/kohnsham.py:calc_nuclear_potential", "CADMium/pssolver/calc_energy.py:calc_energy"]}
{"id": "C133", "title": "signs and bounds of the classical energy terms", "statement": "After at least one pass of Kohnsham.scf with quadrature rules of positive weights and mixing factor in [0, 1]: E.Enuc lies between -M (Za + Zb)/near and -M (Za + Zb)/far, where M is the number of electrons and near, far bound the distances of grid points from the nuclei, so it is negative when there are electrons and charges; E.Vnn is not negative; E.Vext lies between the smallest and largest value of the external potential of each spin times its electrons; E.Eh is not negative when the Poisson equation is solved exactly on a three-point grid and the density ends within half the distance of the ghost points.", "quantifier": "all grids with 2 to 8 or 10 points per block, charges, electron numbers, numbers of levels, one or two spins, functionals, external potentials, mixing factors in [0, 1], schedules and numbers of passes", "why_tests_cant": "A bound on what every pass of every run can store, obtained from the conservation of electrons and the sign of the density.", "anchors": ["CADMium/kohnsham/scf.py:scf", "CADMium/kohnsham/kohnsham.py:energy", "CADMium/hartree/hartree.py:Hartree.v_hartree"]}
{"id": "C134", "title": "no binding below the lowest level of one electron", "statement": "A Kohnsham.scf run without interaction ('ni'), with any number of levels, electrons and spins and any external potential, stores E and E.Vext with E + E.Vext at least sum over the spins of (electrons of the spin) times (lowest m = 0 level in the nuclear plus external potential of the spin), plus Za Zb/(2a), provided the eigensolver returned eigenvalues of the discrete equation. For a new object without external potential the energy per electron, apart from the repulsion of the nuclei, is not lower than in a run that holds all its electrons in the lowest orbital of the same charges.", "quantifier": "all three-point grids, charges, external potentials, numbers of levels, electrons and spins (sym off), eigensolvers whose answers depend only on the potential, schedules and numbers of passes", "why_tests_cant": "A bound on every run against the spectrum of the discrete Hamiltonian for all angular momenta; a test compares a few molecules.", "anchors": ["CADMium/kohnsham/scf.py:scf", "CADMium/kohnsham/kohnsham.py:energy", "CADMium/pssolver/calc_energy.py:calc_energy", "CADMium/pssolver/pssolver.py:Pssolver"]}
{"id": "C135", "title": "the density of one orbital determines the potential", "statement": "Two solvers of the same angular momentum that hold their electrons in the lowest orbital (of either sign and any norm) and whose calc_density results agree at every grid point have effective potentials that differ by a constant. For Kohnsham.scf without interaction ('ni', one level) the stored density of a spin therefore determines the sum of nuclear and external potential of that spin up to a constant, and for new objects without external potential it determines both nuclear charges.", "quantifier": "all three-point grids with positive quadrature weights, potentials, charges, electron numbers up to a full orbital (fractional or full), eigensolvers whose answers depend only on the potential and whose first orbital is one of the lowest level, schedules and numbers of passes", "why_tests_cant": "Injectivity of the map from potentials to densities over all pairs of runs; no finite set of runs shows it.", "anchors": ["CADMium/pssolver/calc_density.py:calc_density", "CADMium/kohnsham/scf.py:scf", "CADMium/kohnsham/kohnsham.py:calc_nuclear_potential"]}
{"id": "C136", "title": "the density of one orbital moves to where the potential is lowered", "statement": "For two Kohnsham.scf runs without interaction ('ni', one level) on one grid let D be the change of nuclear plus external potential of a spin. The mean of D in the second stored density is at most the change of the lowest level, which is at most the mean of D in the first density; the two means agree only if D is constant. (Means are taken with the weights in which the discrete Hamiltonian is symmetric.) In particular a larger charge of one nucleus, the other unchanged, strictly raises the mean of 1/r in the density, r the distance from this nucleus.", "quantifier": "all three-point grids with positive quadrature weights, potentials, charges, electron numbers up to a full orbital, eigensolvers whose answers depend only on the potential and whose first orbital is one of the lowest level, schedules and numbers of passes", "why_tests_cant": "A monotonicity statement over all pairs of runs; a test can only compare single pairs of potentials.", "anchors": ["CADMium/kohnsham/scf.py:scf", "CADMium/pssolver/calc_density.py:calc_density", "CADMium/kohnsham/kohnsham.py:calc_nuclear_potential"]}
{"id": "C137", "title": "energies without interaction are piecewise linear and convex in the electron numbers", "statement": "With fractional occupation, calc_energy's sum of levels as a function of the number of electrons of a solver (levels held fixed) is linear while the same orbital is being filled, and convex when the levels are in ascending order; calc_density is linear in the same way. The same holds for the energy, namely for what Kohnsham.scf without interaction ('ni') stores as E + E.Vext: for three objects that differ only in their electron numbers, mixed level by level with weights t and 1 - t, the mixed object's energy is at most the mixed energy, and equal to it while no orbital is completed in between. The densities of a solver and of such runs are mixed in the same way while no orbital is completed.", "quantifier": "all solvers and objects with any number of levels, spins and orbitals (sym off), electron numbers, external potentials, t in [0, 1], eigensolvers that look at the potential and not at the number of electrons, schedules and numbers of passes", "why_tests_cant": "A statement about all triples of electron numbers; it is the condition the ensemble treatment of fragments relies on.", "anchors": ["CADMium/pssolver/calc_energy.py:calc_energy", "CADMium/kohnsham/scf.py:scf", "CADMium/kohnsham/kohnsham.py:energy"]}
{"id": "C138", "title": "the chemical potential is the energy of the last electron", "statement": "With fractional occupation, taking electrons out of a solver whose levels are held fixed raises calc_energy's sum of levels by exactly -get_homo per electron while the orbital of the last electron is being emptied, and by no less than that when the levels are in ascending order. For Kohnsham.scf without interaction ('ni') the stored u plays this part for the whole object: a second object with at most as many electrons in every solver has an energy E + E.Vext higher by at least -u per missing electron, and by exactly -u per missing electron when they are missing from the last orbital of solvers whose highest level is u; there is such a solver. With levels in ascending order the second object's u is not above the first one's, unless it is the constant -1/eps of a solver without electrons.", "quantifier": "all solvers and pairs of objects with any number of levels, spins and orbitals (sym off), electron numbers, external potentials, eigensolvers that look at the potential and not at the number of electrons, schedules and numbers of passes", "why_tests_cant": "It relates three quantities computed by different functions (levels, energy, chemical potential) for all pairs of electron numbers; u is never used by scf itself, so a wrong orbital in get_homo changes no energy.", "anchors": ["CADMium/pssolver/get_homo.py:get_homo", "CADMium/pssolver/calc_energy.py:calc_energy", "CADMium/kohnsham/kohnsham.py:calc_chempot", "CADMium/kohnsham/scf.py:scf"]}
