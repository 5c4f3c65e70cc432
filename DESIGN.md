# Formal model of dune-geometry in Rocq (Coq 8.16.1)

Sources modelled: `/repo/dune/geometry` (read as text, never built).  All Coq files
live in `rocq/theories`; the logical prefix is `Verif`.

## Layout

* `M_*.v`  – model files: total Gallina functions, one per C++ function, each with a
  comment citing file and lines.  No proofs.
* `S_*.v`  – small independent specifications (what the property means, not phrased with
  the model's helpers), where a spec needs definitions of its own.
* `P_*.v`  – proofs (lemmas).
* `T_*.v`  – property theorems: each closed by `exact lemma`, with `Print Assumptions`
  and non-vacuity `Example`s.

## Modelling decisions

* **Integers.** `unsigned`/`int` values that are used as bit fields are `N`; the 64 bit
  `GeometryType::Id` is built with explicit shifts and masks.  Dimensions, codimensions
  and indices are `nat`.  Where the code's fixed width matters (32-bit truncation in
  `referenceVolumeInverse`, unsigned wrap-around of `maxOrder`) the model contains the
  truncation; elsewhere theorems carry the precondition under which no overflow occurs,
  or the model works with unbounded integers and the comment says so.  `M_RefineInt` (C69)
  repeats the refinements and the entity counts with 32-bit `int` (overflow undefined) and
  `unsigned` (wrap-around) and relates them to the unbounded models.
* **Scalars.** The C++ code is templated over the coordinate type.  The model uses exact
  real numbers (Coq's `R`) or an abstract field (the matrix helpers are polymorphic in a
  record of field operations).  Tolerances that appear in the code (`64*eps`, `16*eps`) are kept
  as parameters.  Rounding is modelled only in `M_Float`, `M_FloatRefine`, `M_FloatQuad`,
  `M_FloatGlobal`, `M_FloatLocal`, `M_FloatVolume`, `M_FloatRound`, `M_FloatLFE` and `M_FloatCache` (C64 ff.), with
  Flocq's `binary_float prec emax` for arbitrary `prec` and `emax` and one correctly rounded
  operation per C++ operator; everything else is exact.
* **Vectors** `FieldVector<ct,n>` are functions `nat -> R` (or `nat -> F`); only the first
  n entries are meaningful and theorems only speak about those.
* **Buffers and pointers.** `subTopologyNumbering` is modelled both on an explicit memory
  (partial map from addresses, out-of-bounds write = error outcome) and as a pure list
  function; a refinement theorem relates the two.
* **Undefined behaviour** is a distinct outcome (`UB`) wherever the code relies on a
  precondition that a caller can violate (order table index, self assignment,
  bitset index, deleted iterators).
* **Concurrency.** `std::call_once` is modelled by a small-step transition system with an
  arbitrary scheduler; theorems quantify over all reachable states.
* **Memory model.** The transition system of C39 is sequentially consistent: a body that has
  returned from `std::call_once` happens before every later return on the same flag, which is
  what the standard guarantees.  Plain data races outside of that protocol are not modelled.
* **Quadrature tables.** `M_Tab*.v` are generated by `tools/gen_tables1d.py` and
  `tools/gen_tables_nd.py` from the headers (usage: script, path of the repository, output
  directory).  The scripts stop at every line they do not understand; the literals become exact
  rationals.  A certified fixed point evaluation (84 bits, `P_QuadFix`, `P_QuadFixN`) bounds all
  moments; linearity gives all polynomials.
* **Integrals** are iterated Riemann integrals (`RInt` of Coquelicot) along the construction
  of the reference element by prisms and cones.
* **LAPACK.** GaussJacobi_n_0 with order > 60 or alpha > 2 uses `jacobiNodesWeights`
  (`M_GolubWelsch`).  The eigenvalue solver below it (dune-common's `eigenValuesNonSym`, LAPACK
  `dgeev`) is a parameter with the contract `solver_ok`: eigenvalues with multiplicity and unit
  eigenvectors.  C40/C43 are stated for any source of rules with `lapackOk`; C59 derives
  `lapackOk` from `solver_ok` and shows that the contract can be met for every matrix used.
* **Not modelled.** Stream output other than that of GeometryType, quadpy itself (points and
  weights of its schemes; `M_PyClass` has the wrapper), the typeregistry of dune-common (its
  insertClass is modelled by what it returns), template meta-programming glue without run time effect, move semantics, exceptions other than as a result value.

## Plan per property

| id | model | proof idea |
|----|-------|-----------|
| C01-C03 | `M_Type` GeometryType record, bit operations on `N` | bit-level reasoning (`N.bits_inj`), order by lexicographic triple |
| C04,C05 | predicates and extensions on (id,dim) | bit lemmas, exhaustive case analysis in dims 2,3 (finite domain) |
| C06,C07 | `M_TypeIndex` | `N.div2`, powers of two arithmetic |
| C08 | recursion of IfGeometryType; switchCases | induction over dim |
| C09 | switch as match | size computed for every dim <= 3 |
| C10,C11 | `M_RefTopo.size` | induction on dim, Pascal, maximum bound |
| C12-C15 | `subTopologyId`, `subTopologyNumbering`, memory version | induction on dim over inductive topologies (`S_Topo`) |
| C16-C19 | `M_RefGeo` over R | induction on topology |
| C20 | mean vs centroid | explicit integral of the pyramid; witness |
| C21 | 32-bit truncation in the model | induction, witness dim 14 |
| C22,C23 | normals | induction; Gram determinant for the length |
| C24-C26 | `M_Matrix`, polymorphic; mathcomp `\det` as the spec | loop invariants, block decomposition |
| C27,C28 | `M_Affine` | from the matrix theorems |
| C29 | `M_AxisCube` three variants | induction on axes |
| C30-C34 | `M_MultiLinear` | induction on topology; Coquelicot `is_derive` for C31; history induction for C33 |
| C35,C36 | `M_GaussNewton` parameterised by the linear solver oracle | loop invariant on fuel, explicit witness |
| C37 | composition | Coquelicot chain rule |
| C38 | `M_Singleton` state machine | invariant over histories |
| C39 | `M_QuadFactory`, `M_Cache` transition system | invariants over all schedules, rank argument for termination |
| C40 | `M_Quadrature` (factory), `M_Cache` for the bounds | induction over the dimension; explicit schedule for the undefined access; sharpened in `T_Tight` |
| C41,C42 | `M_Tab*` generated tables | certified fixed point moments lifted to all polynomials by linearity |
| C43 | `M_Quadrature` tensorProduct, conicalProduct, factory | induction on topology, iterated integrals, Beta moments |
| C44 | `M_Composite` (compositequadraturerule.hh) | `P_KuhnInt`-`P_KuhnInt4`: the integral of a polynomial over the reference simplex is the sum of the integrals over the elements of the refinement (Kuhn coordinates, integrating out one coordinate, telescoping over the cells; symmetry of the integral). `P_Composite`: every element of the loop adds a copy of the rule with weights divided by n^dim. Exactness, weights and points follow. |
| C45 | `M_VertexOrder` (generalvertexorder.hh): the loops over abstract iterators, the vertex order object, its iterators with 64 bit positions | `P_VertexOrder`: the output is the list of ranks; ranks preserve and reflect the order and depend on the comparisons only; restriction to a subentity is composition with the numbering of C13. |
| C46-C53 | `M_Refine` (hcube.cc, simplex.cc, hcubetriangulation.cc, prismtriangulation.cc, pyramidtriangulation.cc) | `P_Refine1`-`P_Refine9`, `T_Refine`. Loops are `visits step atEnd begin N st` (`S_Refine`): the loop makes exactly N rounds through the states `st`, which are unique. Vertices: combinatorial number system (`pointIndex`, `incLoop`). Elements: the candidates (origin, permutation) skipped by increment() are those outside; inside candidates are counted by a bijection with words of length dim over n letters, so there are n^dim. Point sets: every element is an affine image of the reference simplex with determinant n^-dim; its hull and interior are characterised in Kuhn coordinates (cell of the point, order of the fractional parts). Hypercube: mixed radix digits. |
| C54 | `M_Virtual` (virtualrefinement.cc): heap of backends, iterators own pointers; histories of operations | `P_Virtual`: simulation with the semantics in which variables hold values (`S_Virtual`), both ways: undefined behaviour exactly for the illegal programs. Self assignment and a throwing clone() are separate theorems. |
| C55 | `M_Virtual`: the three builders, the conditions of the Traits specialisations | both depend on the ids without their lowest bit only; case analysis on those; `cube_sh1` for all dimensions. The case labels differ from dimension 1 on. |
| C56 | `M_RefTopo` subTopologyNumbering | induction over the topology: prism and pyramid faces by their intersection with base and top |
| C57 | `M_GaussNewton` (localfiniteelementgeometry.hh) over an abstract local basis | the Jacobian is the derivative of global (Coquelicot), affine maps, Newton inverse from C35 |
| C58 | volume loop of `M_GaussNewton`: orders 1,2,... until two neighbouring sums agree or maxIt is reached | induction over the remaining orders |
| C59 | `M_GolubWelsch` (jacobiNquadrature.hh:125-171), contract of the solver in `S_GolubWelsch` | `P_GW1` determinant and eigenvectors of a tridiagonal matrix by the three term recurrence, `P_GW2` Gauss quadrature from orthogonality, `P_GW3` the recurrence of the code is the one of the Jacobi polynomials (orthogonality by induction with closed forms at the ends), `P_GW4` exactness, positivity, range, uniqueness, `P_GW5` the roots are real and simple (interlacing, intermediate values), so a correct result of the solver exists. |
| C60 | `M_Container` (referenceelements.hh, referenceelement.hh, python/geometry/referenceelements.hh): arrays as lists, pointers as positions | invariant of the constructor's loop; `re_infos` totality from C12-C15; the Python checks against the preconditions of the C++ accessors |
| C61 | `M_TypeString` (type.hh operator<<, python/geometry/type.hh): strings as lists of characters, `std::lower_bound`, `stoul`, scanner with fuel | `P_TypeString`: decimal numbers read back, scanner steps; fuel = length of the string suffices; bisection over the sorted names; `T_TypeGrammar`: the accepted language as a grammar, by decomposing the string at the characters found; sharpened in `T_Tight` |
| C62 | `M_MultiLinear` (`mlg_volume`, `mlg_integrationElement`, `mlg_global`), integral `Iint` of `S_RefGeo` | `P_Volume`: rows of the transposed Jacobian of a cone over a quadrilateral depend on the projected base point only (Euler identity, induction on the height of the cone); rank-one update of determinants makes the determinant bilinear in it; the integral over the cone is volume times the value at (1/2,1/2). `P_DetInv`: inverse from non-zero determinant (mathcomp). Refuted for hexahedra, folded and curved quadrilaterals |
| C63 | `M_MultiLinear` (`ml_step`, `ml_newton`, `mlg_local`) | `P_Newton`: on a planar quadrilateral the error of a step is the product of the two components of the previous error, along a fixed direction; from the second iterate on a scalar recurrence s' = s^2/(1+2s) that stays on the side of the solution; the first iterate is on that side because the determinant is non-negative at the reflections of the target in the centre. `P_Newton2`: Cauchy-Schwarz, non-expansive projection, quadratic contraction of Gauss-Newton steps with zero residual, any dimension. Refuted: point outside (2-cycle), folded quadrilateral |
| C64 | `M_Float` (`checkInsideF`, `re_checkInside` over Flocq's `binary_float prec emax`) | `P_Float`: one subtraction of numbers below 2 errs by at most 2^-prec and cannot overflow; rounding is monotone and fixes 1 and the tolerance; induction over the dimension with the accumulated error of the running factor, in both directions against the exact test of C18; an infinite or NaN coordinate or an overflowing difference fails a comparison. Refuted for tolerances below the unit of rounding: the point (1/2-3/2^25, 1/2, 3/2^25) of the tetrahedron in float. |
| C65 | `M_Float` (`AACubeF`, `fac_global`, `fac_local`, `fac_corner`, `fac_center`, `fac_volume`) | `P_Float2`: relative error of sums (no underflow), relative plus absolute error of products and quotients, monotone rounding; one axis at a time: the rounded difference of the argument is at most the rounded extent, twice a floating point number is one, etc. `P_Float3`: the loops (as for C29) and the accumulated factor of the volume. Refuted: global(1)=1 on the interval [-16777215, 1/2] in float, volume of a square of edge 2^-100 is 0, centre of huge coordinates is infinite. |
| C66 | `M_FloatRefine` (coordinate functions of the refinements over `binary_float`; `he_geometryF`, `hv_coordsF` compute in double and convert) | Indices, permutations and lattice points are those of `M_Refine`. `P_FloatRef`: non-negative numbers are closed under the operations, so equal values are equal bit patterns (no -0); a corner of a simplex element is a function of its lattice point alone. `P_FloatRef2`: error of the rounded partial sums of referenceToKuhn; equal exact points have the same sequence of increments along any two permutations. `P_FloatRef3`: conversion, corners as lattice points, the exchange of the first two directions (square, pyramid). Refuted in single precision with three intervals: corner of a simplex element against its vertex, shared corners of the 3d cube and of the prism. `T_FloatRef2`: the corners pass checkInside (through `P_FloatNear`). |
| C67 | `M_FloatQuad` (the factory of `M_Quadrature` over `binary_float`; the conversion of literals and the LAPACK rules are parameters with the error bounds `litOk`, `lapackFOk`) | `P_FloatNear`: the test of the reference element accepts a neighbourhood of the hull (the tolerance has room for 128-dim units of rounding). `P_FloatQuad`: lists of pairs of computed and exact points; error of coordinates and total error of the weights under tensor and conical products, with underflow absorbed by the number of points (at most 64^dim). `P_FloatQuad2`, `P_FloatQuad3`: every table, the stored simplex rules and the factory, by induction on the dimension, in step with the proof of C43. `nearest` (T_FloatQuad) is an instance of `litOk` with K=1. Refuted: membership of the points in the exact hull (single precision, Gauss-Lobatto on the triangle). Not modelled: the LAPACK computation itself and number types that are constructed from strings. |
| C68 | `M_FloatGlobal` (`MultiLinearGeometry::global` and `affine`, `CachedMultiLinearGeometry::global`, `AffineGeometry` constructor from corners and `global` over `binary_float`) | `P_FloatGlobal`: the recursion equals the left-to-right rounded sum of weights times corners, weights as a list independent of the corners. `P_FloatGlobal2`: at a reference corner all intermediate numbers are 0 or 1 and exact, so one weight is 1 and the others 0. `P_FloatGlobal3`-`5`: total error of the weights by induction over the topology; with one cone the projection x/(1-h) is kept as the pair (df, rf) whose product is nearly one, points closer to the apex than the tolerance lose at most 33 u; simplices by a separate induction since there the cones compose with constants independent of the depth. `P_FloatGlobal6`: rounded summation. `P_FloatGlobal7`: AffineGeometry, and its bitwise agreement with CachedMultiLinearGeometry on simplices. Not claimed: an error bound for topologies of dimension at least 4 with two or more cones that are not simplices. Refuted: AffineGeometry and CachedMultiLinearGeometry returning their corners; the affinity test for small elements (its tolerance is absolute); images staying in the convex hull of the corners.; affine() in `T_FloatAffine` |
| C69 | `M_RefineInt` (the functions of `refinement/*.cc` on int with overflow as `None`, `hcube.cc` on unsigned with wrap-around, `size` of `referenceelementimplementation.cc` on unsigned, `refinementLevels`; `binomial`, `power` of dune-common as parameters plus the implementations known to us) | `P_RefineInt1`: a chain of products with positive factors overflows iff the final product does, so n!, falling factorials and powers are decided by their value; every intermediate int of the loops is bounded by (n+1)...(n+dim) (entries of vertices by n+1, corners in the inside test by n+dim, point indices by the number of vertices), hence the loops run through the same states as the exact model. `P_RefineInt2`: everything modulo 2^32; size(id,dim,codim) <= C(dim,codim) 2^codim by induction. | C69_* in `T_RefineInt` |
| C70 | `M_FloatLocal` (`DefaultMatrixHelper`, `MultiLinearGeometry::jacobianTransposed`, `local`, `integrationElement`, the barycentre of the reference element, `AffineGeometry` inverse and `local`, `gaussNewton` over `binary_float`; loops with fuel, out of fuel is a separate result) | `P_FloatLocal`: the recursions only read the first coordinates and never run out of corners, NaN and zero are absorbed by both triangular solves. `P_FloatLocal2`: the loop is a walk along `orbit`; a finite set of states closed under the step never ends (`newton_cycle`); gaussNewton is a chain of accepted line searches. `P_FloatLocal3`: sums of zeros and ones are exact. Counterexamples are computed with `vm_compute` on raw `spec_float` data with all uninitialised memory symbolic. | C70_* in `T_FloatLocal`; `T_FloatAffLocal`: error of `AffineGeometry::local` |
| C71 | `M_FloatLocal` (the matrix helper) | `S_FloatMat`: unit roundoff, underflow unit, error factors, triangular part. `P_FloatErr`: a finite result has finite operands and is the rounded exact result; subtraction loops backward, addition loops forward. `P_FloatMat1`, `P_FloatMat3`: every entry written by the in-place loops is one loop over final entries. `P_FloatMat2`: triangular solves and Cholesky (the root never underflows, the reciprocal of the pivot is normal). `P_FloatMat4`: products, determinants, inverses. `P_FloatMat5`: residuals of `spdInvAx` and of the normal equations. | C71_* in `T_FloatMat` |
| C72 | `M_RefTopo`, `M_RefGeo` | `S_Polytope`: containment, points of a subentity, position relative to a facet. `P_Polytope`: the face order of `S_Topo` is graded, has the diamond property, is a lattice, and every face is the intersection of its facets (induction over prism/pyramid). `P_Polytope2`: facet inequalities, corners off a facet are strictly inside, weights of a point on a hyperplane vanish off the facet; smallest face is the join of the corners with positive weight. `P_Polytope3`: transfer to the API. | C72_* in `T_Polytope` |
| C73 | `M_RefTopo`, `M_RefGeo`, `M_MultiLinear` | `S_Trace`: sub-geometry built from type and corners of a subentity. `P_Trace`: shape functions of the element at an embedded point are those of the face, for every face (induction over prism/pyramid), regular/smooth points restrict. `P_Trace2`: transfer to global and jacobianTransposed; ids differing in the lowest bit give the same geometry. | C73_* in `T_Trace` |
| C74 | `M_RefGeo`, `M_Matrix`, `M_MultiLinear` | `S_Normal`: mapped normal. `P_Normal`: det(E G E^T) = det G * N.G^-1 N for the facet embedding E and its normal N, from the cofactor identity of `P_RefDet`; kernel of E. `P_Normal2`: barycentres of facets are smooth points, facet geometries of affine geometries. | C74_* in `T_Normal` |
| C75 | `M_RefGeo`, `M_Matrix`, `M_MultiLinear` | `S_Gauss`: partial derivatives. `P_Gauss`: moments of monomials over faces, Euler's identity and the divergence theorem for monomials by induction over prisms and pyramids. `P_Gauss2`: algebra of polynomials, chain rule, composition with affine maps, vector fields, integrals over facets see only smooth points. | C75_* in `T_Gauss` |
| C76 | `M_PyRules`, `M_TypeString`, `M_Container`, `M_Quadrature` | `P_PyRules`: dictionaries with hash and ==, invariant of the rule cache (entries come from successful calls with integer orders, object numbers are distinct, the dictionary only grows). `P_PyRules2`: strided reads of the flat memory, rules are not empty. | C76_* in `T_PyRules`; sharpened in `T_Tight` |
| C77 | `M_RefGeo`, `M_Matrix`, `M_MultiLinear` | `P_Col1`, `P_Col2`: functions that are smooth in collapsed coordinates (`KD`: finite sums of products, so rational functions on pyramids are included), their algebra and integrals, divergence theorem for them by induction over prisms and pyramids. `P_Piola`: derivatives of determinants, Piola's identity. `P_ColMap`: the multilinear map with its first and second derivatives belongs to the class. `P_Orient`: continuity, sign of the determinant. | C77_* in `T_Div` |
| C78 | `M_PyClass` (classes as attribute tables, registry, constructor, quadpy.rule and rules) | invariant over histories: the class of a type after k registrations is a k-dependent iterate of its definitions; definitions are idempotent up to reachable overloads; cache invariants as in C76 | C78_* in `T_PyClass`, `T_Quadpy` |
| C79 | `M_MultiLinear`, `M_Quadrature`, `M_RefGeo` as they stand; statement vocabulary in `S_Disc` | the pulled back integrands are polynomials whose degree and coefficient sum are bounded along the constructions (`P_DiscPoly`); table facts on the positions of all points (`P_RulePts`), then C43 and C77 | C79_* in `T_Disc` |
| C80 | `M_LocalFE` (test/localfiniteelements.hh) | closed form of the loops; the corners of simplices and cubes from C16, derivatives with Coquelicot | C80_* in `T_LocalFE` |
| C81 | `M_LocalFE` (`GeoI`: a geometry as the record of its member functions; compareGeometries, ReferenceElementGeometry, LocalDerivativeGeometry) | every class is related to one normal form (`std_at` at a point, `aff_like` for affine maps; the pseudo inverse is unique); P1/Q1 against the multilinear recursion by uniqueness of the interpolant and of the derivative | C81_* in `T_Agree` |
| C82 | `M_CheckGeo` (test/checkgeometry.hh) | the loops over corners and points as conjunctions (`passes` in `S_CheckGeo`); the affine classes via the normal form of C81 and local() from C28, C33, C35, C36 | C82_* in `T_CheckGeo` |
| C83 | `M_QuadTest` (test/test-quadrature.cc) | moments of a single power from C43 (`P_QuadTest1`, `2`); relative errors of the products of rules, since the absolute bounds of C43 are too coarse for the conical products over the 33-point triangle rule (`P_QuadTest3`-`5`) | C83_* in `T_QuadTest` |
| C84 | `M_RefElemTest` (test/test-referenceelements.cc) | the loops are sums of error counts, zero iff every test holds (`P_RefElemTest`); acceptance of the library from C12, C13, C15; the counterexample replaces all numbers by 0 | C84_* in `T_RefElemTest` |
| C85 | `M_Refine` (refinement/*.cc); conformity in `S_Conform` | corners of an element are the lattice points near its points in Kuhn coordinates (`P_Conform`), a condition that on three corners does not depend on their order (`P_Conform2`); cube by coordinates; dimension four refuted by two explicit elements | C85_* in `T_Conform` |
| C86 | `M_Refine` (refinement/*.cc); edge determinant and sign of a permutation number in `S_Orientation` | geometry(): determinant of the affine map; vertexIndices(): induction over the factoradic transpositions of getPermutation, alternating determinant, reversal (`P_Orientation`) | C86_* in `T_Orientation` |
| C87 | `M_AffineTest` (test/test-affinegeometry.cc), `M_Affine`, `M_CheckGeo`; elements over simplices in `S_AffineTest` | which corners the constructor reads; rank of their differences by the construction of the reference element; checkGeometry on affine geometries from C81; Gram determinants under orthogonal maps (`P_AffineTest`) | C87_* in `T_AffineTest` |
| C88 | `M_RefineTest` (test/test-refinement.cc; a record for the interface of a refinement, filled from `M_Refine`), `M_Virtual`, `M_CheckGeo`; exit code of a list of tests, the refinements with their elements in `S_RefineTest` | a loop over an iterator as a map over the visited states; volumes and centres of the parts from C46-C48, checkGeometry on affine geometries from C81 and C87 (`P_RefineTest`) | C88_* in `T_RefineTest` |
| C89 | `M_CubeTest` (test/test-axisalignedcubegeometry.cc, for any constructor), `M_Affine`, `M_CheckGeo` | sets of axes as bits and Pascal's rule for their number; the loop as a fold over the sets tested; checkGeometry on axis aligned cubes from C88 | C89_* in `T_CubeTest` |
| C90 | `M_MultiLinear` (multilineargeometry.hh local, jacobianTransposed, global), `M_Matrix` (xTRightInvA), `M_FloatLocal` for the loop in IEEE arithmetic | spec `S_NewtonQuad` (bilinear map, determinant, convexity); as in C63 the error is a multiple of one fixed vector; its factor follows Heron's iteration towards the solution on whose side of the singular line the first iterate lies, for trapezoids it vanishes (`P_NewtonQuad`) | C90_* in `T_NewtonQuad` |
| C91 | `M_MLTest` (test-multilineargeometry.cc, whole program, the class under test a parameter), `M_AffineTest` (the shared map and row comparison), `M_CheckGeo`, `M_MultiLinear` | the verdict as a conjunction of conditions on the class (`P_MLTest`); the class through C82, the trapezoids through C90; wrong classes that pass | C91_* in `T_MLTest` |
| C92 | `M_LFETest` (test-localfiniteelementgeometry.cc, whole program, the four constructors parameters), `M_LocalFE`, `M_GaussNewton`, `M_CheckGeo`, `M_MultiLinear` | second differences of the matrix for the rank; integer determinants for the Gram matrices of the calls (`P_LFETest`); the classes through C80, C81, C82; a wrong constructor that passes | C92_* in `T_LFETest` |
| C93 | `M_MappedTest` (test-mappedgeometry.cc, whole program, the constructor of MappedGeometry a parameter), `M_LocalFE`, `M_GaussNewton`, `M_CheckGeo`, `M_MultiLinear` | one Gauss-Newton step from the values at two points, volume loop with constant integrand, checkGeometry for geometries that look affine with any flag (`P_MappedTest`); wrong classes that pass | C93_* in `T_MappedTest` |
| C94 | `M_TypeTest` (test-fromvertexcount.cc, test-nonetype.cc, test-geometrytype-id.cc, test-constexpr-geometrytype.cc, the tested functions parameters), `M_Type`, `M_TypeIndex`, `M_RefTopo` | induction over the recursion with the low bits of the id as invariant (`P_TypeTest`); two families of topologies with equally many corners; wrong functions that pass | C94_* in `T_TypeTest` |
| C95 | `M_Storage` (memory of corner vectors and geometry objects, the class a parameter; test-cornerstoragerefwrap.cc), `M_MultiLinear` | simulation between the two storages for programs that read only unchanged corners, an invariant of reachable memories (`P_Storage`); C30 and C32 for the moved corners | C95_* in `T_Storage` |
| C96 | `M_PyTest` (the three Python test programs over what they test), `M_TypeString`, `M_PyRules`, `M_Container` | verdicts by unfolding the control structures (`P_PyTest`); C61, C76 and the monomial integrals of `P_QuadTest1` for the library | C96_* in `T_PyTest` |
| C97 | `M_Benchmark` (benchmark-geometries.cc over the constructors it calls), `M_LFETest`, `M_LocalFE` | verdict by unfolding the loops; library via the common description of the affine classes (`P_Agree2`) and C92 | C97_* in `T_Benchmark` |
| C98 | `M_FloatLocal` (`MultiLinearGeometry::jacobianTransposed` over `binary_float`) | `P_FloatJac`: the rows are sums with explicit weights (induction over the levels); errors of weights of either sign as in C68; the exact weights are the differences of the weights at the two ends, so the sum is the derivative of a function affine along each axis. `P_FloatJac2`: on an edge all weights are exact, 0, 1 or -1 | C98_* in `T_FloatJac` |
| C99 | `M_FloatLocal` (`integrationElement`, `sqrtDetAAT` over `binary_float`) | C98 for the Jacobian, C71 for the determinant; no operation overflows (bounds on every intermediate result); products of nearby numbers; witness of the refutation computed in single precision |
| C100 | `M_FloatVolume` (`referenceVolume`, `volume` of both classes, `AffineGeometry` from corners) | C99 in the barycentre, which is exact for cubes (C70); subtraction commutes up to the sign; relative errors of differences, products and the determinant; witness of the refutation found by search and computed in single precision |
| C101 | `M_FloatRound` (`AffineGeometry::global` of the object with the stored inverse), `M_FloatLocal` | error of the accumulating loop started at the origin, C70_affine_local, exchange of sums; the residual from C71_inv22 and the error of the determinant; witness of the refutation found by search and computed in single precision |
| C102 | `M_FloatLFE` (`global`, `jacobian`, `integrationElement` of `LocalFiniteElementGeometry`, P1 and Q1 bases, both `volume` overloads) | loops coordinate by coordinate, C71's error of a dot product; at corners every operation is exact; induction over the points of a rule and over the orders; infinities and NaN by cases; shape functions of order one against the exact ones of C80 (masked products of factors in [0,1], partition of unity) |
| C103 | `M_FloatLFE`, `M_FloatGlobal` | triangle inequality between the errors of C102 and C68 against the same exact image (the shape functions of C68 are those of C80, induction over the topology); partial sums do not overflow; commutativity of the rounded product, multiplication by one, zero added first; Jacobians likewise against C98 and the exact derivative, in the plane operation by operation (multiplication by minus one, sums up to the sign of zero); induction over the Cholesky columns: factors that differ in signs of zeros have equal squares, so the pivots are equal |
| C104 | `M_FloatLocal`, `M_FloatGlobal`, `M_FloatVolume`, `M_FloatLFE`, `M_FloatCache` | relational: two executions with different junk and equal components in range stay related; induction over the dimension (rows from `dim` on are kept), the Cholesky columns, the substitutions in both directions and the iterations |
| C105 | `M_Float`, `M_FloatGlobal`, `M_FloatLFE` | the exact multilinear image of the corners of a box is lower + x (upper - lower) (partition of unity at x_j = 1); triangle inequality with the errors of C65, C68 and C103 |
| C106 | `M_FloatCache` | invariant of the mutable members: the inverse is either untouched or the result of rightInvA, the determinant belongs to the last setup; induction over the calls; determinants of spdInvA and spdDetA are equal; witnesses by evaluation |

## Trusted base

Coq's kernel (coqc 8.16.1, including the `vm_compute` machine), the statement of the
theorems in `T_*.v` with the vocabulary of `S_*.v`, and the correspondence of `M_*.v` with the
C++ text.  Axioms used by each theorem are printed by `Print Assumptions` in the `T_*.v`
files:

* theorems about integers, topology, caches and refinement bookkeeping are closed under the
  global context;
* theorems about real numbers use the standard library's
  `ClassicalDedekindReals.sig_forall_dec`, `ClassicalDedekindReals.sig_not_dec` and
  `FunctionalExtensionality.functional_extensionality_dep`;
* theorems with Coquelicot integrals or derivatives in addition `Classical_Prop.classic`,
  `ClassicalEpsilon.constructive_indefinite_description` and `Epsilon.epsilon_statement`
  (all of the standard library);
* the matrix theorems use mathcomp determinants; mathcomp itself has no axioms, but the checker
  lists its sealed modules.

No axiom is added by this development.
