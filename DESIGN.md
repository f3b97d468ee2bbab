# Formal model of pyCADMium in Rocq 8.16.1

Source: `/repo` (read as text, never run). Model and proofs: `rocq/theories/*.v`.
Build: `cd rocq && coq_makefile -f _CoqProject -o Makefile && make -j4`.

## 1. What is modelled and how

* **Numbers.** Python floats are modelled by exact reals (`R` of the Coq standard library).
  Rounding, overflow and signed zero are not modelled. Where NaN and infinity decide control
  flow or are handled explicitly by the code (convergence tests, `nan_to_num`, clamping of Vs,
  division by a vanishing density) an extended type `num := Fin r | PInf | NInf | NaN` with
  IEEE-style division and comparisons is used instead.
* **Arrays.** A numpy vector of length n is a function `nat -> R` used on indices `< n`; a
  matrix is `nat -> nat -> R`; an `(Nelem, pol)` array is `nat -> nat -> R` (row, column).
  Fortran/C-order reshapes are index arithmetic (`k = ia + Na*ir` is order "F").
  numpy broadcasting is written out where it matters.
* **Linear algebra.** Sparse matrices are functions; `@` is a finite sum.
  Results of `lstsq`, `spsolve`, `splu`, `eigs` enter as arguments with an explicit contract
  ("any vector that satisfies the linear system"); existence of such results is proved
  where it is needed as evidence that the contract is not vacuous.
* **Exceptions** are values: `res A := Ok a | Err e` with the Python exception name.
  One extra value, `NotFinite`, is not a Python exception: it marks the point from which an array
  would hold NaN or infinities. The model stops there instead of following non-finite arrays.
  `AssertionError` in a loop that ran out of fuel is proved unreachable where it occurs.
* **Options and strings** are Coq strings; loops are `Fixpoint`s on fuel that mirrors the
  loop counter of the source, or a general while-iterator with a proved bound.
* **Oracles**: libxc, ARPACK, SciPy optimisers, other processes. They are function arguments (Section
  variables, discharged at section end), never axioms.

Every definition in a model file cites file and lines of `/repo`.

## 2. File layout

| file | content |
|---|---|
| `Base.v` | exceptions, finite sums, extended numbers, Python helpers |
| `*Model.v` | the model, function by function, no proofs |
| `*Spec.v` | independent specifications |
| `*Proofs.v` | lemmas |
| `Properties_*.v` | one theorem per property or half-property, closed by `exact`, with witness and `Print Assumptions` |

## 3. Trusted base

* Coq's kernel (checked again with `coqchk`).
* Axioms reported by `Print Assumptions`: only standard-library ones used by the real numbers
  and Coquelicot: `ClassicalDedekindReals.sig_not_dec`, `ClassicalDedekindReals.sig_forall_dec`,
  `FunctionalExtensionality.functional_extensionality_dep`, `Classical_Prop.classic`.
  Purely discrete theorems are closed under the global context. No axioms of our own.
* `coqchk` on the whole library additionally lists opaque symbols of sealed standard-library modules
  (`Coq.Reals.Rdefinitions.RbaseSymbolsImpl.*`, `Coq.Reals.Rdefinitions.RinvImpl.*`,
  `Coq.ssr.ssrunder.Under_rel.*`). They have definitions in the standard library; the module seal hides them.
* The correspondence between Python source and model, by reading (line citations).
* Exact real arithmetic in place of IEEE doubles.
* The contracts on external numerical routines listed with each theorem as hypotheses. The recurring ones are `worker_ok`
  (occupied orbitals can be normalised), `capable` (a worker returns enough orbitals) and, for C89, C90, C110, C111, C113, C127, C128, C131 and C134 only, `steady`
  (the answer of a worker depends only on the problem it is given). For C91-C93 `equivariant`: transforming the potential of a
  problem transforms the orbitals of the answer up to sign and keeps the eigenvalues. It excludes arbitrary rotations inside a
  degenerate level and a dependence on the orbitals of the previous pass. For C94 `linear_solver` (numpy.linalg.solve returns
  solutions) and `orbital_solver` (eigenpairs in the given potential). For C95 `spin_blind` (the answer does not depend on the
  occupation) and `closed_functionals` (both forms of a local functional agree on closed shells). For C101-C103 `sharp` (no stencil coefficient is flushed to zero).
  For C113 `scaled_workers` (the scaled problem is answered with the same orbitals) and for C114 `exchange_like` (homogeneity of an
  exchange functional). For C129 and C130 `normed_workers` (no returned orbital vanishes), for C130 and C134 `levels_exact` (stored levels are
  eigenvalues in the solver's own potential), for C135 `orbital_found` (the first orbital belongs to the lowest level) and for C137 and C138
  `by_potential` (the answer of a worker depends on potential and angular momentum, not on the number of electrons).
* Functional ids are natural numbers: a negative `xfunc_id` or `cfunc_id` (refused by libxc) is mapped to 0.

## 4. Not modelled

* printing, `matplotlib`, pickling, `_version.py` (versioneer), the example scripts and tests;
* the numerical algorithms inside SciPy, numpy.linalg, libxc, ARPACK and the least-squares optimiser: they are arguments
  with contracts;
* `paramke/paramke.py` (does not parse: syntax error at line 99);
* rounding of floating point numbers; entries of arrays that become infinite or NaN, except where the type `num` is used.

## 5. Per-property plan

* **C01** mirror is the reflection through the bond mid-plane — modelled: `psgrid/mirror.py:mirror`; `psgrid/square.py:square`; `psgrid/initialize.py:initialize`. Proof: mirror model via two F reshapes; index theorem, involution, linearity, coordinates.
* **C02** grid coordinates are the prolate spheroidal map and are exactly (anti)symmetric — modelled: `psgrid/initialize.py:initialize (lines 17-51)`. Proof: initialize lines 17-51 on R; field/trig identities.
* **C03** nuclear potential is the sum of two point charges at the foci — modelled: `common/coulomb.py:coulomb`; `psgrid/initialize.py:initialize`. Proof: coulomb closed form; sqrt of perfect square of cosh +- cos; positivity from node ranges.
* **C04** swapping the nuclei is the same as mirroring the potential — modelled: `common/coulomb.py:coulomb`; `partition/partition.py:Partition.calc_nuclear_potential`. Proof: cos(pi-x) = -cos x; field.
* **C05** volume element is the product of the scale factors and is positive — modelled: `psgrid/initialize.py:initialize (lines 75-77)`; `psgrid/operators.py:operators (lines 14-21)`. Proof: positivity of sin, sinh; derivative formulas via Coquelicot is_derive.
* **C06** angular momentum potential is 1/(2 rho^2) — modelled: `psgrid/initialize.py:initialize (lines 79-82)`; `pssolver/pssolver.py:i_solver.hamiltonian`. Proof: field identity cosh^2-1 = sinh^2, 1-cos^2 = sin^2.
* **C07** one-dimensional quadrature is exact for polynomials of degree below the block size — modelled: `common/NC.py:NC`. Proof: weights as any solution of the two Vandermonde systems; block decomposition of the integral; refutation N=3,Nm=1 computed.
* **C08** quadrature weights are palindromic — modelled: `common/NC.py:NC`. Proof: uniqueness of Vandermonde solution; block symmetry.
* **C09** two-dimensional weights sit on the grid points they belong to — modelled: `psgrid/initialize.py:initialize (lines 56-63)`. Proof: flat index (C order) vs (F order); counterexample with NMa<>NMr.
* **C10** integrate is the weighted sum over the grid, linear, and mirror invariant — modelled: `psgrid/integrate.py:integrate`. Proof: finite sums; re-indexing by reflection.
* **C11** integrate on a single-column array is not the integral — modelled: `psgrid/integrate.py:integrate (lines 15-16)`; `kohnsham/scf.py:scf (line 99)`; `partition/scf.py:scf (line 201)`. Proof: broadcast model; counterexample.
* **C12** finite-difference coefficients differentiate polynomials exactly — modelled: `common/finite_difference_coefficients.py:finite_difference_coefficients`. Proof: moment equations, linear extension to polynomials; flushing bound.
* **C13** coefficients of a symmetric stencil have the parity of the derivative — modelled: `common/finite_difference_coefficients.py:finite_difference_coefficients`; `psgrid/finite_difference_1d.py:finite_difference_1d (lines 31-33)`; `psgrid/finite_difference_2d.py:finite_difference_2d (lines 54-58)`. Proof: uniqueness of Vandermonde solution under reflection.
* **C14** derivative matrices implement the reflected boundary conditions — modelled: `psgrid/finite_difference_1d.py:finite_difference_1d`; `psgrid/finite_difference_2d.py:finite_difference_2d`. Proof: row-wise case analysis of banded matrix plus corner blocks.
* **C15** outer boundary operator supplies exactly the missing ghost points — modelled: `psgrid/finite_difference_1d.py:finite_difference_1d (line 59)`; `psgrid/finite_difference_2d.py:finite_difference_2d (line 52)`; `psgrid/operators.py:operators (lines 67-71)`. Proof: same, with ghost coefficients.
* **C16** Laplacian acts on the right axis with the prolate spheroidal coefficients — modelled: `psgrid/operators.py:operators (lines 38-63)`. Proof: Kronecker index lemma; continuous identity with Coquelicot derivatives.
* **C17** Laplacian commutes with mirror — modelled: `psgrid/operators.py:operators`. Proof: from reflected-extension form and symmetry of coefficients.
* **C18** gradient and divergence operators act on the right axis and respect reflection — modelled: `psgrid/operators.py:operators (lines 23-36)`. Proof: as C16; constants from sum of coefficients = 0.
* **C19** squared gradient (sigma) of a density — modelled: `psgrid/sigma.py:sigma`. Proof: model of precedence (global dot product); counterexample.
* **C20** Hartree potential depends linearly and only on the total density — modelled: `hartree/hartree.py:Hartree.v_hartree`; `hartree/hartree.py:Hartree.e_hartree`. Proof: linearity of multipoles, right-hand side, solves.
* **C21** Hartree potential solves the discrete Poisson equation with multipole boundary values when the factorisation does not permute rows — modelled: `hartree/hartree.py:Hartree.v_hartree`; `psgrid/factorize_laplacian.py:factorize_laplacian`. Proof: L y = b, U x = y implies L U x = b; counterexample 2x2 permutation.
* **C22** boundary multipoles use the distance from the mid-point — modelled: `hartree/hartree.py:Hartree.v_hartree (lines 34-57)`. Proof: field/trig identities.
* **C23** axis_plot returns values of the input on grid points, sorted along the axis — modelled: `psgrid/psgrid.py:Psgrid.axis_plot`. Proof: loop invariant of the selection; sorting with permutation lemma.
* **C24** each solver's density integrates to its electron number — modelled: `pssolver/calc_density.py:calc_density`. Proof: sum of normalised squares; floor arithmetic.
* **C25** density is non-negative and independent of orbital sign and normalisation — modelled: `pssolver/calc_density.py:calc_density`. Proof: squares over positive norms.
* **C26** too few computed orbitals are reported, never read as zeros — modelled: `pssolver/calc_density.py:calc_density`. Proof: exceptions in model; both directions.
* **C27** band energy splits into kinetic and potential parts — modelled: `pssolver/calc_energy.py:calc_energy`. Proof: extended numbers for Vs.
* **C28** HOMO is the highest occupied eigenvalue — modelled: `pssolver/get_homo.py:get_homo`; `kohnsham/kohnsham.py:Kohnsham.calc_chempot`. Proof: sortedness; case analysis.
* **C29** orbitals returned with sym are exactly even or odd — modelled: `pssolver/calc_orbitals.py:calc_orbitals`. Proof: algebra of 0.5*(f +- mirror f); argsort as permutation.
* **C30** iterative orbital update: converged orbitals — modelled: `pssolver/iter_orbitals.py:iter_orbitals (lines 33-59)`. Proof: state-passing model with unbound variable.
* **C31** normalize_orbitals fixes the norm to the shell occupation — modelled: `pssolver/normalize_orbitals.py:normalize_orbitals`. Proof: sqrt algebra.
* **C32** kinetic energy density integrates to the kinetic energy — modelled: `pssolver/calc_ked_WFI.py:calc_ked_WFI`; `pssolver/calc_energy.py:calc_energy`. Proof: exact eigen-equation; finite sums; counterexample.
* **C33** density response conserves particle number and ignores constant shifts — modelled: `pssolver/calc_response.py:calc_response`. Proof: bordered system orthogonality and normalisation rows.
* **C34** Hamiltonian parity and centrifugal term — modelled: `pssolver/pssolver.py:i_solver.hamiltonian`. Proof: parity of m.
* **C35** parallel diagonalisation is schedule independent — modelled: `kohnsham/kohnsham.py:Kohnsham.calc_density`. Proof: worker completions as a permutation of dictionary inserts; crash subset.
* **C36** total density has the requested number of electrons per spin — modelled: `kohnsham/kohnsham.py:Kohnsham.calc_density`. Proof: sum over levels; mirror invariance.
* **C37** SCF density mixing conserves electrons and non-negativity at every iteration — modelled: `kohnsham/scf.py:scf (lines 86-90)`; `partition/scf.py:scf (line 186)`. Proof: induction over iterations.
* **C38** Kohn-Sham SCF loop bound and exit condition — modelled: `kohnsham/scf.py:scf (lines 53-116)`. Proof: while-loop model; induction.
* **C39** density convergence test ignores an empty spin channel's NaN — modelled: `kohnsham/scf.py:scf (lines 97-104)`. Proof: NaN semantics of max.
* **C40** accepted options take effect — modelled: `kohnsham/kohnsham.py:Kohnsham.__init__`; `kohnsham/scf.py:scf (lines 26-30)`; `partition/partition.py:Partition.__init__`; `partition/scf.py:scf (lines 39-45)`; `inverter/inverter.py:Inverter.__init__`; `pssolver/pssolver.py:i_solver.__init__`. Proof: string keys, lower-casing; dictionary model.
* **C41** auto_tol always fails in Kohnsham.scf — modelled: `kohnsham/scf.py:scf (lines 59-64, 106-111)`. Proof: exception model of loop header.
* **C42** effective potential reaches the solvers — modelled: `kohnsham/kohnsham.py:Kohnsham.set_effective_potential`; `kohnsham/kohnsham.py:Kohnsham.set_veff_external`; `kohnsham/scf.py:scf (lines 67-77)`. Proof: store model of the solver array.
* **C43** Kohn-Sham total energy decomposition — modelled: `kohnsham/kohnsham.py:Kohnsham.energy`. Proof: algebra.
* **C44** fragment symmetrisation (sym) gives mirror symmetric potentials and densities — modelled: `kohnsham/kohnsham.py:Kohnsham.calc_nuclear_potential`; `kohnsham/kohnsham.py:Kohnsham.calc_density`; `kohnsham/kohnsham.py:Kohnsham.calc_hxc_potential`. Proof: abstract commutative addition.
* **C45** ensemble scale factors and construction — modelled: `partition/partition.py:Partition.__init__`; `partition/partition.py:Partition.calc_scale_factors`. Proof: option records and exceptions.
* **C46** fragment electron numbers add up in the protomolecule — modelled: `partition/partition.py:Partition.calc_protomolecule`. Proof: linearity.
* **C47** Q functions are a partition of unity — modelled: `partition/partition.py:Partition.calc_Q`. Proof: extended division, nan_to_num.
* **C48** AB symmetry: fragment B is the mirror image of fragment A — modelled: `partition/partition.py:Partition.mirrorAB`; `partition/scf.py:scf`. Proof: state model of fragments, invariant.
* **C49** partition energy bookkeeping — modelled: `partition/energy.py:energy`; `partition/partition_energy.py:partition_energy`. Proof: algebra and counterexample.
* **C50** fragment plus partition energy reassembles the molecular functional — modelled: `partition/energy.py:energy`; `partition/ep_nuclear.py:ep_nuclear`; `partition/ep_kinetic.py:ep_kinetic`; `partition/ep_hxc.py:ep_hxc`; `partition/vp_hxc.py:vp_hxc`. Proof: telescoping sum.
* **C51** partition potential is the Q-weighted average of fragment embedding potentials and splits into its components — modelled: `partition/partition_potential.py:partition_potential`. Proof: linearity.
* **C52** nuclear embedding potential is the other nucleus — modelled: `partition/vp_nuclear.py:vp_nuclear`; `partition/ep_nuclear.py:ep_nuclear`. Proof: algebra from C03.
* **C53** which accepted partition settings can run — modelled: `partition/partition.py:PartitionOptions`; `partition/vp_hxc.py:vp_hxc`; `partition/ep_hxc.py:ep_hxc`; `partition/vp_kinetic.py:vp_kinetic`; `partition/ep_kinetic.py:ep_kinetic`; `partition/EnsCorHar.py:EnsCorHar`; `partition/partition_potential.py:partition_potential`. Proof: dispatch functions with exceptions.
* **C54** overlap measure and its functional derivative — modelled: `partition/vp_overlap.py:vp_overlap`. Proof: erf as RInt, derivative via Coquelicot; extended numbers for 0/0.
* **C55** von Weizsaecker kinetic partition energy has the wrong sign and shape — modelled: `partition/ep_kinetic.py:ep_kinetic (lines 11-39)`. Proof: model of array/scalar types; counterexample.
* **C56** kinetic embedding potential by inversion uses the right chemical potential — modelled: `partition/vp_kinetic.py:vp_kinetic (lines 52-84)`. Proof: None-able HOMO values, overwrite order.
* **C57** fragment energy densities in Ep — modelled: `partition/ep_hxc.py:ep_hxc`. Proof: fold model; counterexample.
* **C58** Partition SCF loop bound, exit condition and warning — modelled: `partition/scf.py:scf (lines 128-247)`. Proof: loop model with warning output.
* **C59** isolated fragments evolve independently — modelled: `partition/scf.py:scf`; `partition/partition_energy.py:partition_energy`. Proof: non-interference by induction.
* **C60** all active fragments feel the same partition potential — modelled: `partition/scf.py:scf (lines 170-188)`. Proof: step function; induction.
* **C61** inversion failure counter stops after two consecutive failures — modelled: `partition/scf.py:scf (lines 213-231)`. Proof: counter automaton over report lists.
* **C62** orbital inversion: Jacobian is the derivative of the equations — modelled: `inverter/orbitalinvert.py:kmatrix`. Proof: polynomial identity on block vectors.
* **C63** orbital inversion: normalisation and symmetry of the unknown vector — modelled: `inverter/orbitalinvert.py:normalize`; `inverter/orbitalinvert.py:ab_symmetrize`. Proof: sqrt algebra, mirror.
* **C64** orbital inversion: loop bound and success flag — modelled: `inverter/orbitalinvert.py:orbitalinvert (lines 294-481)`. Proof: loop model with NaN.
* **C65** inverter kinetic energy and kinetic energy density sums — modelled: `inverter/get_Ts.py:get_Ts`; `inverter/get_ts_WFI.py:get_ts_WFI`. Proof: fold model; counterexample.
* **C66** Wu-Yang inversion: gauge row and polarised runs — modelled: `inverter/inverter.py:Inverter.Ws`; `inverter/inverter.py:Inverter.Jacobian`; `inverter/linresponse.py:linresponse`. Proof: function independence; exception model.
* **C67** inversion method dispatch — modelled: `inverter/inverter.py:InverterOptions`; `inverter/inverter.py:Inverter.invert`. Proof: dispatch model.
* **C68** exchange-correlation energy and potential assembly — modelled: `libxc/libxc.py:Libxc.get_xc`; `libxc/libxc.py:Libxc.get_xc_dictionary`. Proof: libxc oracle as Section variable.
* **C69** spinflip reverses spin columns — modelled: `psgrid/spinflip.py:spinflip`. Proof: column reversal.
* **C70** Hartree potential of a mirrored density — modelled: `hartree/hartree.py:Hartree.v_hartree`; `psgrid/operators.py:operators`; `psgrid/mirror.py:mirror`. Proof: multipole parity, boundary operator and Laplacian commute with mirror; uniqueness of the solution.
* **C71** three-point stencil: the discrete Poisson problem is well posed and obeys a maximum principle — modelled: `psgrid/operators.py:operators`; `hartree/hartree.py:Hartree.v_hartree`. Proof: rows of elap as differences to neighbours with non-negative coefficients; maximum attained; propagate outward to the Dirichlet edge.
* **C72** response matrix is the first-order density change only for m = 0 — modelled: `pssolver/calc_response.py:calc_response`. Proof: superposition of the unit right-hand sides; sum over shells.
* **C73** construction of Kohnsham and its solver array — modelled: `kohnsham/kohnsham.py:Kohnsham.__init__`; `kohnsham/kohnsham.py:Kohnsham.calc_nuclear_potential`; `pssolver/pssolver.py:Pssolver`; `pssolver/pssolver.py:i_solver.__init__`. Proof: nested loop model; pydantic model of options.
* **C74** discrete Green identity of the gradient and divergence matrices — modelled: `psgrid/operators.py:operators`. Proof: matrix transposition of the finite difference matrices, boundary coefficients.
* **C75** the xc potential is the derivative of the xc energy — modelled: `libxc/libxc.py:Libxc.get_xc`; `psgrid/operators.py:operators`. Proof: derivative of a finite sum along a line; Green identity.
* **C76** xc energy and potential of a mirrored density — modelled: `libxc/libxc.py:Libxc.get_xc`; `psgrid/mirror.py:mirror`. Proof: gradient parity; mirror of sigma, divergence and integral.
* **C77** kinetic potential reported by the inverter — modelled: `inverter/inverter.py:Inverter.get_vt`; `inverter/orbitalinvert.py:orbitalinvert`; `inverter/simple.py:simple`. Proof: broadcast model; inversion of the run of orbitalinvert.
* **C78** simple inversion: what the loop does and returns — modelled: `inverter/simple.py:simple`. Proof: relational description of the loop (fp_run) and induction on fuel.
* **C79** orbital inversion: unsupported inputs — modelled: `inverter/orbitalinvert.py:orbitalinvert`. Proof: case analysis of the set-up.
* **C80** Wu-Yang inversion: state left behind — modelled: `inverter/linresponse.py:linresponse`; `inverter/inverter.py:Inverter.Ws`. Proof: fold over the trial potentials, frame lemmas.
* **C81** plot arrays are a faithful picture of the grid — modelled: `psgrid/plotter.py:plotter`. Proof: index arithmetic of reshape and flips.
* **C82** surprisal of the fragment assignment — modelled: `partition/vp_surprise.py:vp_surprise`. Proof: derivatives of x log x, concavity bounds.
* **C83** two-orbital kinetic energy and its density — modelled: `partition/ep_kinetic.py:ep_kinetic`. Proof: integral identities, orthogonal decomposition of the density into two orbitals.
* **C84** two-orbital kinetic potential — modelled: `partition/vp_kinetic.py:vp_kinetic`. Proof: derivatives along directions, symmetric kinetic operator.
* **C85** initial guess of the inversion — modelled: `partition/initialguessinvert.py:initialguessinvert`. Proof: bilinear forms on the span of the trial functions; explicit null vector for duplicated trial functions.
* **C86** inversion kinetic energy density — modelled: `partition/ep_kinetic.py:ep_kinetic`. Proof: inversion of the loops over fragments and solvers, linearity of the quadrature.
* **C87** electron numbers, sign and symmetry in every partition pass — modelled: `partition/scf.py:scf`; `kohnsham/kohnsham.py:Kohnsham.calc_density`. Proof: induction over the passes: any property of densities kept by mixing holds after every pass; additivity of the quadrature.
* **C88** what the end of a self-consistency loop certifies — modelled: `kohnsham/scf.py:scf`; `partition/scf.py:scf`. Proof: inversion of one pass; bounds on the two residuals; the first pass cannot satisfy a tolerance below one.
* **C89** without electron-electron interaction — modelled: `kohnsham/scf.py:scf`; `kohnsham/kohnsham.py:Kohnsham.energy`; `partition/scf.py:scf`. Proof: induction over the trace: the potential of every pass is that of the guess; the double counting terms cancel.
* **C90** an isolated fragment is a Kohn-Sham calculation — modelled: `partition/scf.py:scf`; `kohnsham/scf.py:scf`. Proof: both programs are related to one inductive iteration, which is shown to be deterministic.
* **C91** the mirror image of a molecule — modelled: `kohnsham/scf.py:scf`; `kohnsham/kohnsham.py:Kohnsham.__init__`; `psgrid/psgrid.py:Psgrid.mirror`. Proof: one theorem transports runs along a permutation of points and spins; nuclear potential, Laplacian, quadrature and functionals commute with the mirror.
* **C92** exchange of the two spins — modelled: `kohnsham/scf.py:scf`; `kohnsham/kohnsham.py:Kohnsham.__init__`; `libxc/libxc.py:Libxc.get_xc`. Proof: the same transport theorem with the identity on points and the exchange of spins.
* **C93** isolated fragments of mirror-image partitions — modelled: `partition/scf.py:scf`; `partition/partition.py:Partition.__init__`. Proof: the iteration of C90 transported along the mirror; construction of the exchanged partition.
* **C94** orbital inversion: one update and restarts — modelled: `inverter/orbitalinvert.py:orbitalinvert`; `inverter/orbitalinvert.py:normalize`. Proof: exact quadratic expansion of the equations with the solved linear system; eigenpairs under a gauge shift; the run on an exact start vector.
* **C95** a closed shell with one column and with two — modelled: `kohnsham/scf.py:scf`; `kohnsham/kohnsham.py:Kohnsham.__init__`; `libxc/libxc.py:Libxc.get_xc`; `pssolver/calc_density.py:calc_density`. Proof: the loop bodies of the two shapes are compared pass by pass; explicit counterexamples on the smallest grid for gga and the residual.
* **C96** routines that cannot be used — modelled: `psgrid/reduced_grad.py:reduced_grad`; `psgrid/psgrid.py:Psgrid.reduced_grad`; `pssolver/get_ked_WFI.py:get_ked_WFI`; `pssolver/pssolver.py:i_solver.get_ked_WFI`; `functionals/TW_paramke.py:TW_paramke`; `functionals/PW91k_paramke.py:PW91k_paramke`. Proof: case analysis over the shapes; the attribute pol of constructed solvers is the number of columns.
* **C97** embedding potentials of explicit functionals — modelled: `partition/scf.py:scf`; `partition/partition_potential.py:partition_potential`; `partition/vp_nuclear.py:vp_nuclear`; `partition/vp_kinetic.py:vp_kinetic`; `partition/vp_hxc.py:vp_hxc`. Proof: the four parts of the component potential are followed to the densities they are evaluated at; sdft takes the component's own potential as external potential.
* **C98** interacting fragments of mirror-image partitions — modelled: `partition/scf.py:scf`; `partition/partition_potential.py:partition_potential`; `partition/energy.py:energy`; `partition/partition.py:Partition.__init__`. Proof: induction over the passes with the relation that densities and external potentials are reflected; each functional commutes with the reflection. The energy sum uses the lists of components of Partition.energy.
* **C99** the total energy of explicit functionals — modelled: `partition/scf.py:scf`; `partition/energy.py:energy`; `partition/partition_energy.py:partition_energy`; `partition/ep_kinetic.py:ep_kinetic`; `partition/ep_hxc.py:ep_hxc`; `partition/vp_kinetic.py:vp_kinetic`; `partition/vp_hxc.py:vp_hxc`. Proof: the integrals that vp_kinetic and vp_hxc store are followed through the pass to Partition.energy; the fragment terms cancel against the partition energy.
* **C100** energies and numbers of passes of mirror-image partitions — modelled: `partition/scf.py:scf`; `partition/energy.py:energy`; `partition/partition.py:Partition.__init__`. Proof: the energy formula of C99 is invariant term by term; then induction over the passes for the residual and comparison of the stopping tests.
* **C101** the derivative matrices are accurate to order 2b — modelled: `psgrid/finite_difference_1d.py:finite_difference_1d`; `psgrid/operators.py:operators`. Proof: Taylor expansion at the node; the moments of the coefficients kill every order below 2b+1.
* **C102** the Laplacian with its boundary part is accurate to order 2b — modelled: `psgrid/operators.py:operators`; `psgrid/initialize.py:initialize`; `psgrid/finite_difference_1d.py:finite_difference_1d`. Proof: the four line stencils of the Laplacian with the ghost values as samples of the extension of the function.
* **C103** the discrete Hamiltonian of a solver is consistent with the Schroedinger operator — modelled: `pssolver/pssolver.py:i_solver.hamiltonian`; `pssolver/pssolver.py:i_solver.__init__`; `psgrid/operators.py:operators`. Proof: the Laplacian bound with the diagonal part added; an orbital turns it into a residual.
* **C104** the composite quadrature rule is accurate to order N — modelled: `common/NC.py:NC`; `psgrid/initialize.py:initialize`. Proof: Taylor expansion block by block (moments of NC); the end corrections are the same argument at each end.
* **C105** integrate approximates the volume integral to order N — modelled: `psgrid/integrate.py:integrate`; `psgrid/initialize.py:initialize`; `common/NC.py:NC`. Proof: the rule in one direction applied to the rule in the other; the integrals are exchanged with the finite sum.
* **C106** correlated Hartree energy and overlap interpolation of the partition energy — modelled: `partition/EnsCorHar.py:EnsCorHar`; `partition/ep_hxc.py:ep_hxc`; `partition/vp_hxc.py:vp_hxc`; `partition/vp_overlap.py:vp_overlap`. Proof: invert the calls; the derivative by the product rule, the response by changing one entry and swapping the double sum.
* **C107** the inversion behind the kinetic potential reproduces the fragment density — modelled: `partition/vp_kinetic.py:vp_kinetic`; `inverter/inverter.py:Inverter.invert`; `inverter/orbitalinvert.py:orbitalinvert`. Proof: the frame of each inversion (other spin untouched), then the success theorem of orbitalinvert (C64) for the target that was passed.
* **C108** the Hartree potential converges with second order — modelled: `hartree/hartree.py:Hartree.v_hartree`; `psgrid/initialize.py:initialize`; `common/finite_difference_coefficients.py:finite_difference_coefficients`. Proof: barrier M^2 - m^2 with the maximum principle (C71); truncation error from C102 with odd third derivatives vanishing at the ends.
* **C109** the Hartree potential depends continuously on the density — modelled: `hartree/hartree.py:Hartree.v_hartree`. Proof: the same barrier applied to the difference of two solutions.
* **C110** Kohnsham.scf keeps no hidden state and can be continued — modelled: `kohnsham/scf.py:scf`; `kohnsham/kohnsham.py:Kohnsham.calc_density`; `kohnsham/kohnsham.py:Kohnsham.energy`. Proof: invert one pass into the functions it calls, each of which depends on the density; induction over two traces in step.
* **C111** runs of Kohnsham.scf that do not move — modelled: `kohnsham/scf.py:scf`. Proof: the pass returns its argument (extensionality of arrays), so C110 gives equal energies; then the stopping test.
* **C112** the grid scales with the distance between the nuclei — modelled: `psgrid/initialize.py:initialize`; `psgrid/operators.py:operators`; `psgrid/integrate.py:integrate`; `common/coulomb.py:coulomb`; `kohnsham/kohnsham.py:Kohnsham.calc_nuclear_potential`. Proof: pull the factor through each definition; the products of coordinates and weights are homogeneous in a.
* **C113** uniform scaling of orbitals, energies and whole non-interacting runs — modelled: `pssolver/pssolver.py:i_solver.hamiltonian`; `pssolver/calc_density.py:calc_density`; `pssolver/calc_energy.py:calc_energy`; `pssolver/get_homo.py:get_homo`; `pssolver/calc_ked_WFI.py:calc_ked_WFI`; `kohnsham/scf.py:scf`. Proof: the matrix of the solver scales with lam and the weight with lam^3; the loops are followed in step; for runs the density is that of the non-interacting guess (C89).
* **C114** uniform scaling of the Hartree potential and of exchange — modelled: `hartree/hartree.py:Hartree.v_hartree`; `libxc/libxc.py:Libxc.get_xc`; `psgrid/sigma.py:sigma`. Proof: charge and multipoles scale with powers of lam, the linear system with lam on both sides, and its solution is unique; exchange by the homogeneity of the functional.
* **C115** accuracy of the gradient, of sigma and of the divergence — modelled: `psgrid/operators.py:operators`; `psgrid/sigma.py:sigma`; `libxc/libxc.py:Libxc.get_xc`. Proof: Taylor bounds of C101 on the lines and the chain rule; for the failure the three-point sums of sin^2 and sinh^2 in closed form.
* **C116** accuracy of the multipole boundary values — modelled: `hartree/hartree.py:Hartree.v_hartree`. Proof: mean of the Legendre polynomials over a circle by integration by parts and a Christoffel-Darboux kernel; the bound by one follows from it; generating function by its differential equation and the mean value theorem.
* **C117** the Hartree potential with explicit boundary errors — modelled: `hartree/hartree.py:Hartree.v_hartree`; `psgrid/operators.py:operators`. Proof: insert C116 into C71, C108 and C109.
* **C118** signs of the quadrature weights and positivity of the integral — modelled: `common/NC.py:NC`; `psgrid/initialize.py:initialize`; `psgrid/integrate.py:integrate`; `partition/vp_overlap.py:vp_overlap`; `hartree/hartree.py:Hartree.v_hartree`. Proof: solve the moment systems exactly for each block size, add the end corrections, lift to any number of blocks; the inequalities follow from positive weights.
* **C119** the lowest level of every angular momentum on three-point grids — modelled: `pssolver/pssolver.py:i_solver.hamiltonian`; `psgrid/operators.py:operators`; `pssolver/calc_orbitals.py:calc_orbitals`. Proof: off-diagonal entries are not positive and the grid is connected through negative ones; existence of a positive eigenvector by the argument of Collatz and Wielandt (compactness without choice); the bounds of Barta for complex pairs.
* **C120** the lowest level follows the potential and the angular momentum — modelled: `pssolver/pssolver.py:i_solver.hamiltonian`; `psgrid/operators.py:operators`. Proof: insert the positive orbital of one problem as trial function in the other; the centrifugal term outweighs the change of parity at the axis.
* **C121** which levels calc_orbitals finds — modelled: `pssolver/calc_orbitals.py:calc_orbitals`; `kohnsham/kohnsham.py:Kohnsham.__init__`. Proof: the contract of the routine read for a shift below all levels; counterexample: choose the potential such that a vector with a sign change has the level e0.
* **C122** the levels of three-point grids are real and orthogonal — modelled: `pssolver/pssolver.py:i_solver.hamiltonian`; `psgrid/operators.py:operators`; `pssolver/calc_orbitals.py:calc_orbitals`. Proof: the coefficients of neighbours factor in the two coordinates, so the product of ratios balances them; the usual argument for symmetric matrices.
* **C123** minimum principle for the lowest level — modelled: `pssolver/pssolver.py:i_solver.hamiltonian`; `psgrid/operators.py:operators`. Proof: write the energy as a sum of squares of differences of x/u (Jacobi); connectedness for equality.
* **C124** distance between computed and exact levels — modelled: `pssolver/pssolver.py:i_solver.hamiltonian`; `psgrid/operators.py:operators`; `pssolver/calc_orbitals.py:calc_orbitals`. Proof: move the Hamiltonian to the other factor with the symmetry of C122; insert the consistency bound of C108.
* **C125** convergence of the density mixing — modelled: `kohnsham/scf.py:scf`; `kohnsham/kohnsham.py:Kohnsham.calc_density`; `kohnsham/kohnsham.py:Kohnsham.calc_hxc_potential`. Proof: induction over the passes with the mixing inequality; the stop from the residuals of two consecutive passes.
* **C126** levels are orthogonal for the volume element up to second order — modelled: `pssolver/pssolver.py:i_solver.hamiltonian`; `psgrid/operators.py:operators`; `psgrid/finite_difference_1d.py:finite_difference_1d`. Proof: addition theorems turn each ratio into (A+B)/(A-B) with B of third order; sum of reciprocals bounded by the logarithm.
* **C127** an empty fragment exerts no force — modelled: `partition/scf.py:scf`; `partition/vp_nuclear.py:vp_nuclear`; `partition/vp_kinetic.py:vp_kinetic`; `partition/vp_hxc.py:vp_hxc`; `partition/partition_potential.py:partition_potential`; `partition/energy.py:energy`; `pssolver/calc_density.py:calc_density`. Proof: the empty density is kept by mixing; functionals of equal densities cancel in the embedding potential (C97); the remaining iteration is that of C90; the energy is C99 with an empty partner.
* **C128** Partition.scf keeps no hidden state and can be continued — modelled: `partition/scf.py:scf`; `partition/partition_potential.py:partition_potential`; `partition/energy.py:energy`; `kohnsham/kohnsham.py:calc_density`. Proof: one pass maps component densities to component densities, whatever else the objects hold; induction over the passes; the total energy from C99; a continued start leaves the state between two passes unchanged.
* **C129** a constant added to the external potential — modelled: `kohnsham/scf.py:scf`; `kohnsham/kohnsham.py:energy`; `kohnsham/kohnsham.py:calc_chempot`; `pssolver/calc_energy.py:calc_energy`; `pssolver/get_homo.py:get_homo`. Proof: Follow two runs in step: raised levels give the same solver densities, and the shift of the level sum cancels against that of the potential energy because every solver density integrates to the electrons it places.
* **C130** Levels, chemical potential and kinetic energy of a Kohn-Sham calculation are bounded below by the effective potential — modelled: `kohnsham/scf.py:scf`; `kohnsham/kohnsham.py:energy`; `kohnsham/kohnsham.py:calc_chempot`; `pssolver/pssolver.py:hamiltonian`; `pssolver/calc_energy.py:calc_energy`; `pssolver/get_homo.py:get_homo`. Proof: C119 (levels lie above the potential) for the solvers of the last pass; occupation sums of calc_eks and calc_density bound level sum and potential energy.
* **C131** No mixing factor makes Kohnsham.scf converge in every case, and unconverged results are returned like converged ones — modelled: `kohnsham/scf.py:scf`; `kohnsham/kohnsham.py:calc_hxc_potential`. Proof: Two repelling electrons whose orbital sits at the lower one of two points: every pass moves density between the points by at least alpha times a constant; the energy is positive, so the residual is a number (bounds of C130).
* **C132** binding energy of one-orbital runs as a function of the nuclear charges — modelled: `kohnsham/scf.py:scf`; `kohnsham/kohnsham.py:energy`; `kohnsham/kohnsham.py:calc_nuclear_potential`; `pssolver/calc_energy.py:calc_energy`. Proof: The energy of a non-interacting run (C89) with the occupation of a single orbital; comparison of lowest levels (C120, C123) in the Coulomb potentials of C03.
* **C133** signs and bounds of the classical energy terms — modelled: `kohnsham/scf.py:scf`; `kohnsham/kohnsham.py:energy`; `hartree/hartree.py:Hartree.v_hartree`. Proof: Electrons and sign of the density in every pass (C37), positive weights (C118), point charges (C03), sign of the Hartree potential (C117).
* **C134** no binding below the lowest level of one electron — modelled: `kohnsham/scf.py:scf`; `kohnsham/kohnsham.py:energy`; `pssolver/calc_energy.py:calc_energy`; `pssolver/pssolver.py:Pssolver`. Proof: Energy of a non-interacting run as sum of levels (C89), electrons placed equal electrons requested when the occupations are fractional or the shells full, variational bound of the levels of every m (C119, C120).
* **C135** the density of one orbital determines the potential — modelled: `pssolver/calc_density.py:calc_density`; `kohnsham/scf.py:scf`; `kohnsham/kohnsham.py:calc_nuclear_potential`. Proof: The lowest level is simple with a positive orbital (C119), so the density gives the orbital and the eigenvalue equation the potential; runs without interaction keep the density of the guess (C89); the potentials of the two nuclei and the constant are linearly independent on every grid.
* **C136** the density of one orbital moves to where the potential is lowered — modelled: `kohnsham/scf.py:scf`; `pssolver/calc_density.py:calc_density`; `kohnsham/kohnsham.py:calc_nuclear_potential`. Proof: First-order change of the lowest level as an upper bound (C123) used in both directions, with its case of equality; densities as squares of the lowest orbital (C135).
* **C137** energies without interaction are piecewise linear and convex in the electron numbers — modelled: `pssolver/calc_energy.py:calc_energy`; `kohnsham/scf.py:scf`; `kohnsham/kohnsham.py:energy`. Proof: The sum of levels is the largest of the lines belonging to the orbitals; the energy of a run is the sum over its solvers (C89).
* **C138** the chemical potential is the energy of the last electron — modelled: `pssolver/get_homo.py:get_homo`; `pssolver/calc_energy.py:calc_energy`; `kohnsham/kohnsham.py:calc_chempot`; `kohnsham/scf.py:scf`. Proof: get_homo reads the level of the orbital that holds the last electron; the sum of levels is linear in this orbital and the largest of the lines otherwise (C137); calc_chempot stores the largest get_homo.

## 6. Findings

Behaviour of the code that contradicts its documentation, its evident purpose or a textbook identity. Each is visible in the
model; the theorem that exhibits it is given where there is one (`_refuted` theorems state the negation outright).

Grid, Hartree, libxc
* `sigma` for two spin columns uses one global scalar for the cross term.
* The gga potential is the derivative of the energy only with respect to unit quadrature weights.
* `plotter` refuses every `(Nelem, 2)` array (C81).
* `diva` and `divr` continue the flux through the axis as an odd function although it is even: beside the axis the divergence, and with it
  every gga potential, has an error that does not vanish with the step (C115).
* With 9 points per block the quadrature has negative weights: a non-negative density can have a negative electron number (C118).
* `reduced_grad`, `get_ked_WFI`, `TW_paramke` and `PW91k_paramke` raise on every input (C96).

Solver
* A negative electron number is not rejected: the index wraps round and the highest listed orbital supplies the density (C22, C26).
* With `fractional` off an odd electron number of an unpolarised level loses half an orbital; with exactly enough orbitals
  `get_homo` and `calc_chempot` raise IndexError.
* `calc_response` with a fractional incomplete shell always raises IndexError; it lacks the factor 2 for m different from 0;
  near-degenerate orbitals of equal parity give a NaN column.
* `calc_ked_WFI` uses the wrong orbital and norm for a fractional remainder.
* With `sym` the odd orbitals are not normalised; retried `eigs` results are not sorted.
* `iter_orbitals` reuses a stale correction and raises UnboundLocalError when the first orbital has already converged.
* The spin count of a solver is `Nmo.shape[1]`, not `Kohnsham.pol`.

Kohn-Sham
* `scf` returns in the same way whether it converged or ran out of passes; no mixing factor guarantees convergence (C131).
* Python's `max` ignores a NaN in `dif_n` and a NaN energy difference ends the loop silently, as if converged.
* `set_veff_external` ignores its argument; `auto_tol` raises NameError; mixed-case keys of `scf` are ignored.
* `Vs` entries above 1e5 are set to zero.
* `E.E` leaves out `E.Vext` also for an object used alone with `vext` set; the energy of its electrons is E + E.Vext (C129, C137, C138).
* `alpha` = 0 is accepted: the run stops after two passes at the guess and reports the difference 0 (C111).
* The shift e0 given to the eigensolvers lies above the lowest level of the united atom for two equal nuclei (C73).
* For one spin column the density residual of the loop is an unweighted ratio, for two it is weighted, so the restricted and the
  polarised calculation of one closed shell may stop at different passes; with gga they also differ in energy (C95).

Inverter
* `orbitalinvert` works for one angular-momentum level only; `use_iterative` raises NameError; a NaN residual counts as success;
  the normalisation rows of its Newton system are wrong for three or more orbitals; chemical potentials are stored by row.
* `simple` starts from half of the von Weizsaecker potential, clamps the chemical potential below at 0, combines orbitals of the old
  potential with the updated one in Ts, and shares one array between vs and veff.
* `wuyang` ignores `ispin` and `vs0` once the effective potential is set: in a spin-polarised partition both spins are inverted onto
  column 0. Its report array has None entries for the other columns, so the failure check raises AttributeError. The solver keeps the
  last trial potential although the stored potential is the answer of `least_squares`. The initial orbitals are reshaped in the
  wrong order. The Jacobian uses level 0 only. `inversion_info` is shared through the class.

Shift of the eigenvalue routine
* `e0` is set from the charges, never from the potential; no value is below the lowest level of all potentials, and a shift inside
  the spectrum makes `calc_orbitals` return a level other than the lowest (C121). Newton steps of the inverter reset it to -20 (linresponse.py:47, 79).

Partition
* `paramke` is an undefined name; the constructor sets `nb_fac` where `nub`-data is meant; `ab_sym` with different `nu_a`, `nu_b` is
  accepted; `sym` symmetrises the nuclear potential of fragments with a single nucleus.
* All fragments share one `vp` array; a frozen fragment still updates its density; the isolated calculation is coupled to the other
  fragment through the shared residual when `iterative` is on (the default); the option `isolated` of `scf` is overwritten,
  `beta` and `auto_tol_iter` are never read.
* `ep_hxc` uses `e_x`, `e_c` of an earlier call and `ep_kinetic` the kinetic functional of an earlier density (C99); `mirrorAB` leaves `KSb.vhxc` and `KSb.V` untouched.
* `energy` for an ensemble without `ab_sym` counts KSB twice, so E.Ef depends on which nucleus comes first (C98); the Hartree energy density of an `ab_sym` ensemble counts the first
  component twice (C57).
* Overlap types call `energy()` before `E.Ts` exists; the derivatives of S and F use per-spin ratios although S uses total densities (C54).
* `overlap_hxc`: the potential adds `Ehcor * dFdn` where the derivative of the energy subtracts it (C106); the stored correlated
  potential is the derivative of `Ehcor` only when nu_a + nu_b = 1 (C106).
* `vp_kinetic` drops the success flag of `invert` and keeps the report of the last spin only (C107).
* `PartitionOptions` declares `fractonal` next to the inherited `fractional`; the misspelt key is accepted and never read.
* The default kinetic type `vonweiz` never completes an interacting iteration (C53).
* `V.ep_kin` for `inversion` is an outer difference of shapes (C55, C86) whose diagonal uses squared ensemble weights (C86); fragment V.ts is multiplied by the
  number of solvers;
  `vp_kinetic` with `inversion` overwrites `ua` where `ub` is meant.
* `twoorbital`: energy and potential orbitals are scaled differently, the energy density uses squared weights and counts fragment A twice
  with `ab_sym` (C83), ensembles have no `vp_kin`, the potential is not symmetric under exchange and the fragment part is half of the
  derivative (C84).
* `initialguessinvert` with `ab_sym` uses a duplicated basis: its pencil is singular (C85).
* `vp_surprise` always raises after storing V.s (C82); no accepted option reaches it.

## 7. Seeded faults

`seeded/LOG.jsonl` records every attempt: definition, edit, claim broken, theorems that no longer prove, theorems tightened.

## 8. What `Print Assumptions` lists for each theorem

Full names: `ClassicalDedekindReals.sig_not_dec`, `ClassicalDedekindReals.sig_forall_dec`, `FunctionalExtensionality.functional_extensionality_dep`, `Classical_Prop.classic`.

* Nothing (closed under the global context) (17 theorems): C01_mirror_reflects, C01_mirror_involution, C01_mirror_columns_separate, C35_start_order_is_a_schedule, C40_unknown_key, C40_bad_value, C40_good_dictionary_accepted, C40_case, C42_external_argument_ignored_refuted, C42_external_redistributes_stored, C44_bitwise, C48_mirror, C48_mirrorAB, C48_mirrorAB_when, C69_spinflip, C78_2d, C80_start.

* `sig_forall_dec` (10 theorems): C01_mirror_linear, C07_no_failure, C09_weights_are_NC, C23_axis_points_on_grid, C42_every_solver_gets_its_column, C42_succeeds, C44_solver_potentials_symmetric, C77_after_wuyang, C77_after_simple, C77_before.

* `functional_extensionality_dep`, `sig_forall_dec` (59 theorems): C09_weights_paired, C13_parity, C13_first_derivative_centre_zero, C13_symmetrisation_is_noop, C14_radial_matrices, C14_stencil_coefficients, C15_ghost_points, C22_legendre, C27_cleanup, C28_chempot_is_max, C28_chempot_no_solvers, C28_homo_is_highest_occupied, C28_homo_no_electrons, C28_homo_incomplete_shell_refuted, C35_solver_choice, C38_nan_stops, C40_accepted_keys_take_effect, C40_accepted_iff, C40_refused, C40_words, C40_defaults, C40_scf_mixed_case_ignored_refuted, C40_scf_lower_case_works, C40_scf_unknown_key, C40_partition_scf_isolated_overwritten, C40_scf_settings, C40_inverter_settings, C40_partition_scf_settings, C46_total, C46_density, C46_spin_symmetric, C47_total, C47_values, C47_partition_of_unity, C48_density, C52_potential, C56_ab_sym, C56_last_refuted, C57_exchange, C57_hartree, C57_hartree_refuted, C64_loop, C64_choice, C64_nan_refuted, C64_nan_density_refuted, C66_gauge_jacobian, C66_gauge_jacobian_ab, C66_jacobian_needs_chi, C67_type_checked, C67_bad_type, C73_shift, C73_shift_united_refuted, C96_collected_densities_refuted, C96_enhancement_factors_refuted, C101_nine_point, C104_weight_sizes, C113_homo, C137_solver, C138_solver.

* `functional_extensionality_dep`, `sig_forall_dec`, `sig_not_dec` (288 theorems): C01_mirror_coordinates, C02_nodes_and_coordinates, C02_nodes_inside, C02_spacing, C02_boundary_mesh_outside, C04_swap_is_mirror, C04_linear_in_charges, C04_molecule_is_sum_of_fragments, C10_weighted_sum, C10_linear, C11_single_column_value, C11_constant_columns, C11_scf_ratio_is_unweighted, C12_fd_exact, C12_fd_error, C14_angular_matrices, C15_laplacian_ghosts, C16_laplacian_structure, C16_prefactor_is_w, C17_laplacian_mirror, C17_parity_preserved, C18_gradient_divergence, C18_mirror, C18_constants, C19_sigma_one_column, C19_sigma_two_columns, C19_sigma_cross_refuted, C19_sigma_other_shapes, C19_sigma_mirror, C20_linear, C20_only_total_density, C20_columns_equal, C20_zero, C20_energy_density, C20_succeeds, C21_poisson, C21_row_pivoting, C22_expansion, C23_axis_plot, C24_density_integrates_to_N, C24_density_is_textbook, C25_density_nonneg, C25_density_rescaling, C26_too_few_orbitals, C26_no_orbitals, C26_negative_electrons_refuted, C27_energy_split, C29_orbitals_even_or_odd, C29_sorted_and_attached, C29_no_nan_refuted, C29_sorted_after_retry_refuted, C30_newton_update, C31_normalize_orbitals, C32_ked_fractional, C33_response_conserves, C33_response_fractional_fails, C34_sign_of_m, C35_schedule_independent, C35_dead_worker_KeyError, C35_delivery, C36_electrons_per_spin, C36_density_nonneg, C37_electrons_every_iteration, C37_spinflip_total, C37_nonneg_every_iteration, C37_mixing_rule, C37_spinflip_mixing, C37_final_state_visited, C38_bound_and_exit, C38_difference_is_residual, C38_zero_energy_is_nan, C38_completes, C39_empty_spin_ignored, C39_both_spins, C39_one_spin_unweighted, C41_auto_tol_raises, C41_auto_tol_returns_only_without_iterating, C41_no_NameError_otherwise, C42_scf_solver_potential, C42_stored_potential_has_no_influence, C43_total_energy, C43_double_counting, C43_hartree_twice, C44_density_symmetric, C44_vhxc_symmetric, C44_vnuc_symmetric, C45_construction, C45_components, C45_scale_factors, C45_one_nu_fails, C45_one_nu_error, C45_charges, C45_unknown_option, C45_paramke_fails, C46_electrons, C46_run, C48_density_refuted, C48_run, C48_run_density, C48_run_Q, C49_sums, C49_run_sums, C49_run_energy, C49_ensemble_refuted, C50_energy, C50_run, C50_new, C51_average, C51_splits, C51_exact_splits, C51_symmetric, C51_common, C52_new_object, C52_partition_energy, C52_sum, C52_energy, C53_never, C53_run_not, C53_scf_dead, C53_overlap_first_pass, C53_twoorbital_first_pass, C53_new_overlap, C53_new_twoorbital, C53_new_scf, C53_default_refuted, C53_works, C54_values, C54_symmetric, C54_finite, C56_kinetic_potential, C57_parts, C57_kinetic, C58_trace, C58_bound, C58_stops, C58_raises, C58_auto_tol, C58_residual, C58_count, C59_independent, C59_no_potential, C60_pass, C61_history, C61_run, C61_exit, C62_jacobian_is_derivative, C62_norm_rows_refuted, C62_jacobian_symmetric, C62_zero_is_inverse, C62_kohn_sham_rows, C62_norm_rows, C62_density_rows, C63_normalize_when, C63_normalize, C63_symmetrize, C63_symmetrize_apart, C63_symmetrize_degenerate_refuted, C64_success, C64_exact_guess, C65_Ts_sum, C65_Ts_needs, C65_ts_refuted, C65_ts_ens_spin_sym, C66_gauge_row, C66_jacobian_rows, C66_density, C66_zero, C66_polarised_never, C66_polarised_error, C67_dispatch, C68_lda, C68_spin_exchange, C68_other_family, C69_spinflip_integrate, C72_response_first_order, C73_construction, C73_nuclear_potential, C73_minus_one_electrons, C73_shape_mismatch, C73_unknown_option, C73_succeeds, C77_after_orbitalinvert, C77_after_orbitalinvert_full, C78_account, C78_guess, C78_exact_potential, C78_Ts, C78_second_call, C78_two_columns, C79_levels, C79_levels_error, C79_odd, C79_iterative, C79_short_guess, C80_unpolarised, C80_ens_spin_sym, C80_no_guess, C81_entries, C81_points, C81_closed, C81_succeeds, C81_two_columns_refuted, C84_exchange, C84_exchange_refuted, C85_potential, C85_between, C85_symmetric_refuted, C86_outer_difference, C86_diagonal, C86_ensemble_refuted, C87_component_electrons, C87_electrons, C87_nonneg, C87_symmetric, C88_ks_fixed, C88_ks_certificate, C88_part_fixed, C88_part_certificate, C89_density, C89_energy, C89_two_passes, C89_isolated, C90_kohnsham_iterates, C90_partition_iterates, C90_iterates_unique, C90_isolated_as_kohnsham, C92_exchanged_spins, C92_closed_shell, C94_newton_step, C94_recomputed, C94_restart, C95_functional, C95_two_treatments, C95_gradient_refuted, C96_reduced_gradient_refuted, C97_embedding_potential, C97_subsystem_potential, C99_total_energy, C106_correlated_hartree, C106_needs_ensemble, C106_energies, C106_left, C106_runs, C106_overlap_xc, C106_overlap_hxc, C106_response, C107_density, C107_potentials, C108_points, C110_pass, C110_same_iterates, C110_continued, C110_continued_states, C111_static, C112_geometry, C112_operators, C112_nuclei, C113_schroedinger, C113_density, C113_energy, C113_kinetic_density, C113_run_density, C113_run_energy, C114_hartree, C114_sigma, C114_exchange, C125_rate, C125_change, C125_unique, C125_stops, C127_empty_density, C127_no_force, C127_as_kohnsham, C127_energy, C128_continued, C128_continued_energy, C128_same_passes, C128_same_energy, C128_resumes, C128_no_density, C129_passes, C129_energies, C129_levels, C137_density, C137_run, C137_run_density, C138_run, C138_order.

* `classic`, `functional_extensionality_dep`, `sig_forall_dec`, `sig_not_dec` (149 theorems): C03_two_point_charges, C03_attractive, C05_volume_element, C05_scale_factors_are_metric, C06_centrifugal, C07_quadrature_exact, C07_single_block_refuted, C08_palindromic, C08_single_block_refuted, C09_unequal_blocks_refuted, C10_mirror_invariant, C11_single_column_refuted, C16_continuous_laplacian, C22_interior, C22_boundary, C27_large_potential_refuted, C30_converged_unchanged_refuted, C32_ked_integrates_to_Ts, C32_ked_fractional_refuted, C34_hamiltonian, C34_mirror, C36_equal_blocks_suffice, C54_range, C54_derivative, C54_potential, C54_polarised_refuted, C55_energy_refuted, C55_density, C55_sign, C68_gga_one_spin, C68_gga_two_spins, C68_weak_form_determines, C70_hartree_mirror, C71_nonsingular, C71_maximum_principle, C71_hartree_nonneg, C72_pi_shell_response_refuted, C74_green, C74_self_adjoint, C74_dissipative, C75_lda_one_spin, C75_lda_two_spins, C75_gga_one_spin, C76_xc_mirror, C81_ordered, C82_never_returns_refuted, C82_derivative, C82_bounds, C82_defined, C83_energy, C83_density, C83_density_integrates, C83_density_ensemble_refuted, C83_density_symmetric_refuted, C84_gradients, C84_fragment_half_refuted, C85_blocks, C91_eigenpairs, C91_exchanged_charges, C91_homonuclear, C93_exchanged_nuclei, C93_identical_fragments, C95_residual_refuted, C98_exchanged_nuclei, C98_identical_fragments, C98_energy_sum, C100_every_pass, C100_complete_runs, C101_angular, C101_radial, C102_laplacian_with_boundary, C102_laplacian, C103_hamiltonian, C103_orbital_residual, C104_quadrature, C105_volume_integral, C106_weights, C106_overlap_hxc_refuted, C108_hartree_converges, C108_consistent, C109_hartree_continuous, C109_hartree_bound, C111_self_consistency_refuted, C115_gradient, C115_sigma, C115_divergence, C115_divergence_refuted, C115_potential_refuted, C116_truncation, C116_ghost_values, C116_far_field, C116_circle, C116_addition, C116_legendre_bound, C116_every_density, C116_radii, C116_radii_refuted, C117_bound, C117_nonneg, C117_error, C118_weights, C118_integrate, C118_two_spins, C118_overlap, C118_hartree, C118_nine_refuted, C119_ground_level, C119_simple, C119_bounds, C119_above_potential, C120_potential, C120_angular, C120_mirror, C121_lowest_levels, C121_safe_shift, C121_every_shift_refuted, C122_real, C122_weight, C122_orthogonal, C123_minimum, C123_concave, C123_first_order, C123_kinetic, C124_identity, C124_level, C124_from_below, C126_weight, C126_radial, C126_orthogonal, C126_first_order, C130_levels, C130_chempot, C130_kinetic, C131_converges_refuted, C131_density_refuted, C132_energy, C132_more_charge, C132_concave, C132_trial, C133_nuclear, C133_external, C133_hartree, C134_floor, C134_single, C135_solver, C135_run, C135_charges, C136_response, C136_charge.
