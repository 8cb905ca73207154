# Formal model of HyperHDG: design

The source in `/repo` is read as text; it is never built or run. Everything below
is about a hand-written Rocq (Coq 8.16.1) model. The tie between model and code is
the citation (file and lines) carried by each definition.

## Layout

* `rocq/theories/M_*.v`  model: executable Gallina functions, no proofs.
* `rocq/theories/S_*.v`  small independent specifications (where the statement needs one).
* `rocq/theories/L_*.v`  lemmas and proofs.
* `rocq/theories/P_*.v`  property theorems only; each closed by `exact`, with
  `Print Assumptions` beneath it and an `Example` showing its hypotheses are met.

## Conventions

* **Numbers.** Floating point entries are modelled by the elements of an arbitrary
  ring / field / ordered field (`comRingType`, `fieldType`, `realFieldType`,
  `rcfType` of MathComp). Rounding, infinities and NaN are *not* modelled.
* **Indices.** `nat`, unbounded, except where a property is about 32-bit wrap-around.
* **Outcomes.** Functions that can fail return a result that separates a normal value,
  a C++ exception, a failed `hy_assert` (debug build) and undefined behaviour.
* **External code.** LAPACK, TPCC (tensor product chain complex) and TPP (tensor
  product polynomials) are not in `/repo` (the submodule directories are empty).
  They appear as variables with an explicit contract in the theorem statements;
  for each contract a concrete instance is given so that it is satisfiable.
* A property that the code violates is recorded as a theorem `..._refuted` with a
  concrete witness, next to the strongest true statement that was proved.

## Plan per property

| Id | Model | Proof idea |
|----|-------|-----------|
| C01 | column-major list storage | injectivity of `col*n+row` |
| C02, C03 | loops over the storage | equality with MathComp matrix operations through an abstraction function |
| C04 | same | refutation by a 2x2 witness; characterisation as `(B A)^T` |
| C05 | lexicographic loop | induction on the list of entries |
| C06 | in-place loop with exception carrying the state | induction; witness for the Hadamard form |
| C07-C09 | sign normalisation over a LAPACK contract (Householder vectors) | matrix algebra; witnesses for the determinant claims |
| C10 | array writes with bounds check | case analysis on shapes; witnesses |
| C11 | contract for `gesv` | direct |
| C12 | mixed-radix loops | induction on the dimension |
| C13-C15 | `HyperNodeFactory` over lists, and modulo 2^32 | division/modulo arithmetic |
| C16, C17, C20, C21, C23 | cubic topology, descriptor and geometry over a TPCC contract, with a concrete TPCC | bijectivity of the numbering |
| C18 | file topology for graphs | arithmetic on blocks |
| C19, C44, C56 | state machine of the hypergraph | induction on the call history |
| C22 | signs of normals | case analysis on the face parity |
| C24 | affine map with `gesv` contract | matrix algebra |
| C25, C26 | breadth-first search over the sorted point list | loop invariant |
| C27 | printer and line parser | round-trip by induction |
| C28 | consistency loop with overwritten flag | witness, and what is detected |
| C29 | element-wise in-place loop | induction on the index |
| C30, C31 | CG loop as in the code | residual invariant; orthogonality and dimension count |
| C32 | same | observation function does not contain the count; zero tolerance throws |
| C33-C37, C39-C41 | gather / local / scatter fold | linear-algebra invariants of the fold |
| C38 | call history state machine | witness histories |
| C42 | integer-typed time argument | witness |
| C43 | fold over data container | induction |
| C45-C47 | assembled local systems over an abstract quadrature contract | block matrix algebra |
| C48-C51 | emitted index streams and counts | arithmetic; witnesses |
| C52 | worklist over an include graph | closure invariant |
| C53, C54 | file-system state machine | witness histories; restricted positive statement |
| C55 | regular-expression substitutions on strings | induction on words |
| C57 | Jacobian assembly | as C33 |
| C58-C60 | shared topologies, node types of file hypergraphs, QR data of unit-cube hyperedges | witness; block arithmetic; matrix algebra |
| C61-C62, C67, C69-C70 | lexicographic points, inner normals, identity of geometries, file names, boundary plots | index arithmetic; witnesses |
| C63-C66 | local solvers and global loop together | energy identities of the HDG problem, chains of hyperedges |
| C71, C72, C74, C76 | theta scheme with the stored state of a hyperedge | energy identities of S_Hdg with a mass matrix |
| C73, C75 | the same in the global loop | sum of local energies, induction on the steps |
| C77, C78 | local problem with source eig u; difference of two solutions against the Jacobian's right-hand sides | energy identities of S_Hdg; stability of the local solution near a regular value |
| C79 | balance of fluxes against test vectors, on the hypergraph | pairing of two eigenpairs with the symmetric form |
| C80-C85 | two coupled HDG problems of S_Hdg, arrays of twice the size | block elimination in the arrays, identities of S_Hdg for both problems |
| C87 | as C80, on the unit cube | block elimination; comparison with C45 |
| C86 | global vectors split in halves | reduction to two diffusion systems (C65) |
| C88-C90 | theta scheme of an upwind discretisation with the stored state of a hyperedge | arithmetic of the blocks, induction on the steps |
| C91, C92 | the same in the global loop | quasi-energy estimate; the wind cancels across hypernodes |
| C93, C94 | discrete Timoshenko equations as matrices of polynomial coefficients (`S_Beam`) | energy identity; arithmetic of the blocks |
| C95, C96 | rigid motions and sections in space; frames from the QR decomposition of the tangent | cross products and determinants; witnesses |
| C97 | networks placed in space | masked definite systems, connectedness |
| C98, C102 | discrete equations with advection and reaction (`S_AdvReact`) | arithmetic of the blocks; uniqueness |
| C99, C100, C103 | point values of the coefficients at the quadrature points | pointwise quadratic form, or integration by parts for a constant wind |
| C101 | winds in a hypergraph | work bounded by a sum over the faces, summed node by node (`L_GlobalShift`) |
| C104, C105 | values and gradients at the quadrature points (`S_Gradient`) | derivatives expanded in the basis; only constants have no gradient |
| C106-C110 | values, normal derivatives and gradients at quadrature points (`S_DiffusionIP.ip_weak`) | energy identity with Young's inequality; the normal fluxes are bounded by the energy; two dimensions by a trace whose solution is 0 |
| C111 | `S_Global.anchored` | `L_GlobalMasked.anchored_definite` |
| C112-C114 | the coupled problems with a reaction term (`S_BiReact`, `S_BilapParab`) | the assembled matrix is that of the coupled problem with reaction; testing with (u, -w) and with (w, u) |
| C115-C117 | the coupled problems with source eig u (`S_BilapEigs`, `S_GlobalBilapEigs`) | as C112; stability of the local solution near a regular value; pairing of two eigenpairs with exchanged halves; kappa u + w solves the diffusion problem for kappa |
| C118-C119 | free unknowns, restriction and extension (`S_Drivers`) | the loop keeps the number of constrained unknowns passed; restriction is the adjoint of extension |
| C120-C121 | eigenpairs of C79 and C117; residual norms | the extended vector only adds a row to the global loop; induction over steps and halvings |
| C122 | classical solutions on flat hyperedges (`S_Params`) | derivatives along the chart of a hyperedge; uniqueness of derivatives for the refuted parts |
| C123 | runs of time steps (`S_TimeDrivers`, `S_GlobalParab`, `S_GlobalAdvection`) | induction on the steps; the operator does not depend on sources; results vanish at Dirichlet nodes, and at outflow nodes for advection |
| C68 | reader of .geo files against a grammar | induction on the lines |

## Trusted base

1. **Coq's kernel** (8.16.1, including `vm_compute`, used for closed examples and counterexamples).
2. **Axioms.** `Print Assumptions` prints "Closed under the global context" for every theorem and
   example listed in `MANIFEST.json` except those of C122: no axiom is used, neither of the standard library nor of another one.
   The theorems of C122 (`P_Params`) are about sine and cosine of the real numbers of the standard library and use its axioms
   `ClassicalDedekindReals.sig_forall_dec`, `ClassicalDedekindReals.sig_not_dec` and
   `FunctionalExtensionality.functional_extensionality_dep`, and `C122_initial_laplace_refuted` also `Classical_Prop.classic`;
   no other theorem does.
   (Libraries that are loaded contain opaque module parameters and primitive integers and floats; no
   theorem depends on them.)
3. **The model is the code.** Each definition in `M_*.v` cites the lines it models. Nothing
   checks this correspondence mechanically.
4. **Contracts of external code** (hypotheses of the theorems, never axioms):

| External code | Contract | Where | Witness that it can be met |
|---|---|---|---|
| LAPACK `dgeqr2`/`dorg2r` | reflections `H(i)` whose product with the stored triangle is the matrix | `S_Lapack.geqr2_ok` | concrete outputs of LAPACK for 2x1, 2x2, 4x3 matrices in the examples of `P_Lapack*` |
| LAPACK `dgesv` | if it succeeds the right-hand side holds a solution; succeeds on invertible matrices | `S_Lapack.gesv_ok`, `S_LocalSolver.gesv_correct` | `inv_gesv` (inverse matrix) for every size |
| TPCC | the enumeration lists every cell of the complex once; the slice numbering is the mixed-radix one | `S_Topology.tpcc_spec` | concrete enumeration in `S_Topology` |
| TPP on the unit cube | exact integrals of tensor products of orthonormal polynomials | `S_Tpp`, `S_LocalSolver` | Legendre polynomials of every degree over a real closed field |
| TPP on affine hyperedges | the same with the geometry's matrix, areas and normals; quadrature exact for products of shape functions | `S_TppGeo.tpp_contract`, `diffusion_data` | linear functions with Simpson's rule (`C47_example`) |
| TPP, upwind integrals of `AdvectionParab` | our reading of the names (TPP is not in the repository): volume, inflow and outflow integrals of the wind, that satisfy the discrete divergence theorem | `S_AdvectionParab` | `C88_satisfiable`, every polynomial degree on an interval |
| TPP on a beam | exact integrals of one orthonormal family on a segment; loads, given values, differences and point values are arbitrary numbers | `S_Timoshenko.segment_data` | `C93_example`, every polynomial degree |
| TPP with velocity and reaction | quadrature of the given point values; exact products of shape functions otherwise | `S_AdvReact.ar_contract` | `C98_example`, `C99_example` (degree 1, every dimension) |
| iterative solvers of scipy in the time loops | a result solves the system exactly, and is zero where the right-hand side and all values of the operator are (start at zero) | `S_TimeDrivers.krylov` | `C123_example` (one unknown) |
| TPP with two degrees | gradients of shape functions of degree p+1 at quadrature points; quadrature exact for products of them | `S_DiffusionPp.setting_ok` | `C104_example` (degree 1, every dimension) |
| TPP with normal derivatives | stiffness and face integrals with normal derivatives at quadrature points, coefficient positive | `S_DiffusionIP.ip_ok` | `C107_example`, `C109_example` (degree 1, every dimension) |
| `std::istream >> double`, `std::ostream << double` | a written number is a word that is read back as some number | `S_ReadDomain.float_text` | `nat_float_text` |
| `std::ostream << double` in plot files | a word without angle brackets | `S_Plot.float_word` | `C48_show_word` |
| `std::stof`, `std::to_string` | none (parameters) | `M_Plot` | |
| SHA-256 | hexadecimal; no collision of the two names at hand (C54 only) | `P_Import` | `ex_digest`, injective |
| `configparser` | none (parameter) | `M_Import` | |

## What is modelled

| Source | Model | Remarks |
|---|---|---|
| `dense_la.hxx` | `M_DenseLA`, `M_Lapack` | all of `SmallMat` and the free functions; stream output only where C27 needs it |
| `wrapper/lapack.hxx` | `M_Lapack` | double and float overloads share one model |
| `sparse_la.hxx` | `M_SparseLA` | the vector functions and `conjugate_gradient`; vectors in a heap, so that arguments may be aliased |
| `hypercube.hxx`, `hypernodefactory.hxx` | `M_Index` | natural numbers, and modulo a word size |
| `topology/{cubic,file}.hxx`, `node_descriptor/{cubic,file}.hxx`, `wrapper/tpcc.hxx` | `M_Topology` | TPCC by contract |
| `geometry/{unit_cube,file}.hxx`, `mapping/linear.hxx` | `M_Geometry` | exact arithmetic |
| `hdg_hypergraph.hxx`, `hy_data_container.hxx`, `global_loop/*.hxx` | `M_Global` | the local solver is a parameter |
| `local_solver/diffusion_uniform_ldgh.hxx` | `M_DiffusionUniform` | |
| `local_solver/diffusion_ldgh.hxx` | `M_Diffusion` | |
| `local_solver/diffusion_eigs_ldgh.hxx` (without `errors`) | `M_DiffusionEigs` | integrals as in `M_Diffusion`; the one of the coefficient is a function of the eigenvalue |
| `local_solver/bilaplacian_ldgh.hxx` | `M_Bilaplacian` | integrals as in `M_Diffusion`, plus those of the given and initial Laplacian |
| `local_solver/bilaplacian_uniform_ldgh.hxx` | `M_BilaplacianUniform` | |
| `local_solver/advection_parab_ldgh.hxx` | `M_AdvectionParab` | integrals of the wind are fields of a record; the class of a face is an argument |
| `local_solver/timoshenko_network.hxx` | `M_Timoshenko` | one-dimensional hyperedges in space of dimension 3; integrals are fields of a record; the time is left out (the code converts it to an unsigned number that it does not use) |
| `local_solver/diffusion_advection_reaction_ldg.hxx` | `M_AdvReact` | integrals are functions of the time in a record; what equals the text of `diffusion_ldgh.hxx` reuses `M_Diffusion` |
| `local_solver/diffusion_ldgh_pp.hxx` | `M_DiffusionPp` | what equals the text of `diffusion_ldgh.hxx` reuses `M_Diffusion` |
| `local_solver/diffusion_ip.hxx` | `M_DiffusionIP` | integrals are fields of `ip_data`; the time argument of the face integrals is explicit |
| `local_solver/bilaplacian_parab_ldgh.hxx` | `M_BilapParab` | what equals the text of `bilaplacian_ldgh.hxx` reuses `M_Bilaplacian`; the stored coefficients are an argument |
| `local_solver/bilaplacian_eigs_ldgh.hxx` | `M_BilapEigs` | what equals the text of `bilaplacian_ldgh.hxx` reuses `M_Bilaplacian`; coefficient integrals depend on the eigenvalue; `errors` does not compile and is left out |
| `reproducibles_python/*_eigenvalue_*.py`: `helper_ev_approx`, `helper_ev_newt`, the Newton loop | `M_Drivers` | the wrapped C++ class, the norm and GMRES are arguments; exceptions are `Throw`; ARPACK and conjugate gradients, output and times are left out |
| `reproducibles_python/parameters/*.hxx` | `M_Params` | real numbers of the standard library; left out: node lists, Neumann values (zero), classes without analytic solution |
| `reproducibles_python/*_convergence_parabolic.py`: the time loops | `M_TimeDrivers` | the wrapped class and the chain of iterative solvers are arguments; output and rounding of times are left out |
| `local_solver/diffusion_parab_ldgh.hxx` | `M_DiffusionParab` | integrals of data at the old and the new time are fields of a record |
| `read_domain.hxx`, the stream operations it uses | `M_Text`, `M_ReadDomain` | files are texts; memory exhaustion is left out |
| `epsilon_neighborhood_graph.hxx` | `M_EpsGraph` | |
| `plot.hxx` | `M_Plot` | files are texts; unsigned arithmetic modulo 2^32 |
| `import/HyperHDG/import_cxx/{names,cpp,config,compile_prep,include}.py` | `M_Import` | compilation is one step that succeeds or fails |

The simplifications are stated at the head of each model file and beside the definitions. The main ones are
exact arithmetic, unbounded indices except where C15, C48 and C51 are about word size, assertions on unless a
flag says otherwise, and no limit on memory.

## Not modelled

Floating-point rounding; the compiler, templates as such (each template parameter is a
universally quantified number); file-system and process behaviour beyond the state
machine for the import cache; screen output; performance; threads (the code has none). Of the local solvers
`template.hxx` and `local_solver.hxx`, which hold no algorithm. Of the rest: `compile_time_tricks.hxx` (only what the models need of it), `cmake.py`, `paths.py`, the
Cython templates, `reproducibles_python` except the eigenvalue helpers, the time loops and the parameter classes, `examples`, `tests_*`.

## What the proofs found in the code

Each item is a theorem with a concrete witness or a general statement.

* `mat_times_transposed_mat` returns `(B A)^T` (C04).
* Entry-wise division stops half-way when a divisor is zero (C06).
* The QR functions: sign of the determinant wrong (C08, C09), stale or out-of-bounds entries of R for some shapes
  (C10), non-constant operands of `/` are overwritten (C11).
* `HyperNodeFactory`: the range check itself wraps modulo the word size (C15).
* `NodeDescriptor::Cubic`: faces created inside a hyperedge that lies in a boundary plane get type 0 (C20).
* `read_domain`: without assertions inconsistent files are accepted (C28). Duplicate edges (0,1), (1,0) are not noticed.
* `conjugate_gradient`: the iteration count is a by-value parameter; tolerance 0 never succeeds (C32).
* `trace_to_flux_mat` ignores the Dirichlet indices (C36); Dirichlet indices outlive a refinement (C38).
* `Parabolic::make_initial` converts the time to an integer (C42).
* Two hypergraphs that share a topology: refining one leaves the other with data of the old size (C58).
* `DiffusionParab`: for theta = 0 the global matrix is zero (C71); `bulk_values` after `set_data` shows one more step than
  was stored, and `reproducibles_python/diffusion_convergence_parabolic.py` plots in that order (C74).
* `DiffusionEigs` passes the eigenvalue as the time to the diffusion coefficient; the Jacobian lacks the derivative of
  that dependence (C78). `errors` uses an undeclared name `time` (it fails to compile if instantiated), and `bulk_values`
  takes its argument `time` as the eigenvalue.
* `Bilaplacian`: `residual_flux` does not exchange the halves of the traces as `trace_to_flux` does; harmless at zero, which
  is all that the drivers need (C82). The operator is indefinite, but the drivers start with conjugate gradients (C81).
  `make_initial` exchanges face and function (C83), so that either number may be out of range, and does not look at the condition for the Laplacian.
* `BilaplacianUniform` does not exchange the halves of the fluxes, so that its operator is not symmetric; `errors` returns 0 (C87).
* `AdvectionParab`: for tau = 0 the rows and columns of the hypernodes that no wind leaves vanish, so that the global matrix is
  singular (C91); the explicit scheme has a zero matrix (C88); the rate that `set_data` stores leaves out the traces at the
  inflow faces that the step itself takes into account (C88).
* `TimoshenkoBeam`: the frames of `Mapping::Linear`, documented to have determinant +1, have determinant -1 for beams on the first
  axis, so that networks with such beams (`domains/cross.geo`) have no common rule for rotations and moments (C95). The structural
  constants of extra data are right only if the frame happens to be that of the section; otherwise a section with equal constants
  becomes stiffer, and constants may vanish (C96). Short extra data are read beyond their end (C93).
* `DiffusionAdvectionReaction`: `assemble_loc_matrix` integrates the velocity without passing the time, so that velocities that depend
  on time are frozen at time 0 (C102). With a wind the operator is not symmetric, although the driver of the convergence test tries
  CG first (C103).
* `DiffusionPostprocess`: the post-processing uses `diffusion_coeff`, the local problem `inverse_diffusion_coeff`, and nothing
  relates the two; the default parameters of the file do not define the first. A LAPACK failure of the post-processing is not caught (C104).
* `DiffusionIP`: the integrals with normal derivatives are called without the time (633-636, 806-809), so they use the coefficient of
  time 0 (C109). The operator is not symmetric in two dimensions (C110), although `diffusion_convergence_elliptic_ip.py` tries CG
  first. A positive penalty that is too small gives a singular local matrix (C107).
* `BilaplacianParab`: the right-hand side has the old source but not the old operator, so that the scheme is an implicit Euler step of
  length theta dt with another source; only theta = 1 keeps stationary solutions (C113). `errors` and `bulk_values` solve a step from
  the stored function, which after `set_data` is already the new one (C113). `residual_flux` stabilises u with the trace of w and
  conversely, as that of `Bilaplacian` (C113).
* `BilaplacianEigs` passes the eigenvalue as the time to the coefficient, and the Jacobian lacks the derivative of that dependence
  (C116). `make_initial` numbers the functions of the second half from n_shape_bdr_ on, of which there are none on a face (C115).
  `errors` uses an undeclared name `time`.
* The Newton eigenvalue drivers call `bicgsatb` if GMRES fails, a name that does not exist: they raise an exception instead of
  trying BiCGStab (C121). `helper_ev_approx` accepts lists of constrained unknowns with duplicates or in another order and loses
  unknowns (C118). For `BilaplacianEigs` it removes the unknowns of w wherever u is given, also where w is free (C119).
* `fiber_network_diffusion.py` reports errors against `TestParametersSinEllipt`, which is no solution on fibres that are not parallel
  to the first axis (C122). `initial_laplace` of the elliptic bilaplacian classes is u and not the second unknown (C122).
* Clamped conditions (u given at hypernodes at which w is not) with piecewise constants give a singular global system of
  `Bilaplacian` and of `BilaplacianParab`: on one interval the values of w may be changed by (a, -a). The functions u and w inside the hyperedges are
  unique nevertheless, and they exist if the given u is zero; with u = 0 and u = 1
  given at the ends of an interval the system has no solution (C86, C114).
* `Mapping::Linear::inner_normal` returns a plain column of Q (C62): not orthogonal to faces, may point inward.
* `Geometry::File::boundary_lexicographic` underflows for the point numbers that `plot` passes (C70).
* `plot`: wrong vertex cells, values for two points only with subdivision, `fileEnding` is a zero byte (C48, C50, C51).
* Epsilon graphs: a single point, points that coincide when rounded, or a blank last line abort; an empty list is
  undefined behaviour; the written face types are the node numbers (C25-C27).
* Import: a retry after a failed compilation, removed code, or a second call in one process return a module with other code
  (C53); replacements and included files are not part of the module's name (C54); the default list of included files is shared by
  all configurations (C54); headers that only own code includes are not watched (C52).
