{"id": "C01", "title": "GeometryType id round trip", "statement": "Converting a GeometryType to its integer GeometryType::Id and constructing a GeometryType from that integer returns the same dimension, none flag and topology id; distinct GeometryTypes have distinct Ids.", "quantifier": "every dimension 0..255, every 32-bit topology id, both values of the none flag", "why_tests_cant": "2^41 representable types; tests convert a handful of named types.", "anchors": ["dune/geometry/type.hh: GeometryType::operator Id, GeometryType(Id)"]}
{"id": "C02", "title": "GeometryType comparison is an order", "statement": "On geometry types, == is an equivalence relation, < is a strict weak order, and for types that are not none exactly one of a<b, a==b, b<a holds, so std::map/std::set/sort keyed by GeometryType behave.", "quantifier": "all pairs and triples of geometry types (any dimension, id)", "why_tests_cant": "ranges over all triples of 2^41 values; transitivity and trichotomy are universally quantified.", "anchors": ["dune/geometry/type.hh: GeometryType::operator==, operator!=, operator<"]}
{"id": "C03", "title": "none types and equality", "statement": "The documentation of GeometryType/none says two none types are equal iff they have the same dimension; moreover a==b should exclude a<b. The code violates this: none types of different dimension compare equal and are also ordered by <.", "quantifier": "all pairs of none types", "why_tests_cant": "existential over pairs of types; the tests never compare two none types of different dimension.", "anchors": ["dune/geometry/type.hh: GeometryType::operator==, operator<, GeometryTypes::none"]}
{"id": "C04", "title": "Type predicates classify every type", "statement": "isSimplex/isCube/isLine/isTriangle/isQuadrilateral/isTetrahedron/isPyramid/isPrism/isHexahedron give the same answer on == types, each factory constant satisfies exactly its own predicates, and in dimensions 2 and 3 every non-none valid type satisfies exactly one of the named predicates.", "quantifier": "all valid topology ids of every dimension (exhaustive classification in dims 2 and 3), all dims for simplex/cube", "why_tests_cant": "simplex(dim)/cube(dim) are statements for every dimension; tests check dims up to 3.", "anchors": ["dune/geometry/type.hh: GeometryType::isSimplex,isCube,isVertex,...; GeometryTypes::simplex,cube,prism,pyramid"]}
{"id": "C05", "title": "Prism and pyramid extensions are inverses of taking the base", "statement": "conicalExtension(t) is conical with base t, prismaticExtension(t) is prismatic with base t; every type of dimension d+1 >= 2 is == to exactly one of conicalExtension(base), prismaticExtension(base); hence all types are reached from the vertex by extensions.", "quantifier": "all valid (topology id, dim) with dim < 31", "why_tests_cant": "induction over dimension and id.", "anchors": ["dune/geometry/type.hh: GeometryTypes::conicalExtension, prismaticExtension, Impl::baseTopologyId, Impl::getBase, isConical, isPrismatic"]}
{"id": "C06", "title": "LocalGeometryTypeIndex is a dense bijection", "statement": "For fixed dim, index is a bijection between geometry types of that dimension modulo == (including none) and 0..size(dim)-1, and type(dim,index(t)) == t.", "quantifier": "every dim < 31 and every valid id, both none flags", "why_tests_cant": "all dims, all ids.", "anchors": ["dune/geometry/typeindex.hh: LocalGeometryTypeIndex::size,index,type"]}
{"id": "C07", "title": "GlobalGeometryTypeIndex is a dense bijection ordered by dimension", "statement": "Global indices of all types of dimension <= maxdim fill exactly 0..size(maxdim)-1 without collisions, and a type of smaller dimension always has a smaller index.", "quantifier": "every maxdim < 30, every pair of valid types", "why_tests_cant": "cross-dimension collisions can occur only for specific (dim,id) pairs; tests enumerate a few dims.", "anchors": ["dune/geometry/typeindex.hh: GlobalGeometryTypeIndex::offset,size,index"]}
{"id": "C08", "title": "Runtime to compile time type dispatch", "statement": "IfGeometryType applied to (topology id, dim) runs the operation for exactly the topology given; toGeometryTypeIdConstant calls its functor with a GeometryType == the argument for every non-none type of that dimension (and falls back to the type with local index 0 for none).", "quantifier": "all topology ids of every dim", "why_tests_cant": "recursion over the bits of the id.", "anchors": ["dune/geometry/type.hh: IfGeometryType", "dune/geometry/typeindex.hh: toGeometryTypeIdConstant"]}
{"id": "C09", "title": "Geometry type from vertex count", "statement": "geometryTypeFromVertexCount(dim,n), whenever it returns, returns a type of dimension dim whose reference element has exactly n vertices; it returns for every n that is the vertex count of some type of dim <= 3, otherwise throws.", "quantifier": "all dim and all vertex counts", "why_tests_cant": "range over all unsigned counts; tests use the listed ones only.", "anchors": ["dune/geometry/utility/typefromvertexcount.hh: geometryTypeFromVertexCount", "dune/geometry/referenceelementimplementation.cc: size"]}
{"id": "C10", "title": "Number of subentities", "statement": "size(c) of a reference element is C(dim+1, c) for simplices and C(dim,c)*2^c for cubes, always positive, and the alternating sum over codimensions satisfies the Euler relation sum_{c=0}^{dim} (-1)^{dim-c} size(c) = 1 for every topology.", "quantifier": "every dimension and every topology id", "why_tests_cant": "all 2^dim topologies of every dim.", "anchors": ["dune/geometry/referenceelementimplementation.cc: size", "dune/geometry/referenceelementimplementation.hh: ReferenceElementImplementation::size"]}
{"id": "C11", "title": "Subentity lookup table never overflows", "statement": "For every topology and codimension the number of subentities is at most the compile-time bound used for the bitset behind subEntities(i,c,cc).contains, so setting and testing bits for existing subentities is never out of range.", "quantifier": "every dim, topology id and codim", "why_tests_cant": "out-of-range bitset access is UB for one unlucky topology; needs the bound for all.", "anchors": ["dune/geometry/referenceelementimplementation.hh: SubEntityInfo::maxSubEntityCount, SubEntityInfo::initialize"]}
{"id": "C12", "title": "Subentity types are valid", "statement": "type(i,c) of every subentity is a valid geometry type of dimension dim-c, type(0,0) is the element's own type, all subentities of a simplex are simplices and all of a cube are cubes.", "quantifier": "every topology, codim, subentity index", "why_tests_cant": "universally quantified over topologies of all dimensions.", "anchors": ["dune/geometry/referenceelementimplementation.cc: subTopologyId", "dune/geometry/referenceelementimplementation.hh: type(int,int)"]}
{"id": "C13", "title": "Sub-subentity numbering is memory safe, in range and strictly increasing", "statement": "Filling the numbering table for (i,c,cc) writes exactly the size(i,c,cc) slots handed to it and nothing else, reads no slot before it is written, and the numbers subEntity(i,c,0..,cc) are strictly increasing and < size(cc) (hence pairwise distinct).", "quantifier": "every dim, topology, codim, subentity, subcodim", "why_tests_cant": "buffer arithmetic inside a recursion over all topologies.", "anchors": ["dune/geometry/referenceelementimplementation.cc: subTopologyNumbering", "dune/geometry/referenceelementimplementation.hh: subEntity, subEntities"]}
{"id": "C14", "title": "subEntity is transitive", "statement": "If S is the ii-th codim-(cc-c) subentity of E=(i,c) (numbered within E's own reference element) then numbering the subentities of S via E or directly via the element gives the same numbers in the same order; and the type of S seen from E equals the type seen from the element.", "quantifier": "every topology, every chain of codimensions c<=cc<=ccc, every index", "why_tests_cant": "triple nested quantification over all dims.", "anchors": ["dune/geometry/referenceelementimplementation.hh: subEntity, type", "dune/geometry/referenceelementimplementation.cc: subTopologyNumbering, subTopologyId"]}
{"id": "C15", "title": "contains agrees with subEntities", "statement": "subEntities(i,c,cc).contains(k) is true iff k occurs in the range subEntities(i,c,cc), for every k < size(cc); for cc<c the range is empty and contains is false.", "quantifier": "all (i,c,cc,k) of every topology", "why_tests_cant": "all topologies.", "anchors": ["dune/geometry/referenceelementimplementation.hh: SubEntityInfo::initialize, SubEntityRange::contains"]}
{"id": "C16", "title": "Reference corners", "statement": "Vertex positions of each reference element have coordinates in {0,1}, are pairwise distinct, number size(dim), lie inside (checkInside), vertex 0 is the origin; for cubes corner i is the binary expansion of i, for simplices the origin followed by the unit vectors.", "quantifier": "every topology of every dim", "why_tests_cant": "all dims.", "anchors": ["dune/geometry/referenceelementimplementation.hh: referenceCorners, position"]}
{"id": "C17", "title": "Embedding maps corners to corners", "statement": "geometry<c>(i) maps the k-th corner of the subentity's own reference element to the position of vertex subEntity(i,c,k,dim) of the element, for every subentity.", "quantifier": "every topology, codim, subentity, corner", "why_tests_cant": "tests check selected dims and types only.", "anchors": ["dune/geometry/referenceelementimplementation.hh: referenceEmbeddings, geometry<codim>, referenceCorners"]}
{"id": "C18", "title": "checkInside decides the convex hull of the corners", "statement": "With zero tolerance in the inequality (non-strict) version the accepted set is exactly the convex hull of the corners; the coded test with tolerance tol accepts every point of the hull, is monotone in tol, and every accepted point is within the hull enlarged by tol-proportional slack.", "quantifier": "every topology of every dim, every point, every tolerance > 0", "why_tests_cant": "continuum of points.", "anchors": ["dune/geometry/referenceelementimplementation.hh: checkInside"]}
{"id": "C19", "title": "position is the mean of the corners and lies inside", "statement": "position(i,c) is the arithmetic mean of the positions of the subentity's corners, lies inside the element and equals geometry<c>(i).global(position of the subentity's own reference element centre).", "quantifier": "every topology, codim, subentity", "why_tests_cant": "all dims.", "anchors": ["dune/geometry/referenceelementimplementation.hh: initialize, position"]}
{"id": "C20", "title": "position is documented as centre of gravity", "statement": "The documentation says position(i,c) is the centre of gravity of the subentity. This holds for simplices, cubes and prisms but is false for the pyramid, where the mean of the corners has height 1/5 and the centroid has height 1/4.", "quantifier": "all topologies; counterexample pyramid", "why_tests_cant": "the documented claim is quantified over all topologies; a witness settles it.", "anchors": ["dune/geometry/referenceelementimplementation.hh: position (doc), initialize"]}
{"id": "C21", "title": "Reference volume", "statement": "volume() equals the volume of the reference element: product with [0,1] keeps the volume, a cone over a base in dimension d divides it by d; 1 for cubes, 1/dim! for simplices - for every dimension where the intermediate value fits 32 bits; beyond that (simplex of dimension 14) the code truncates and the value is wrong.", "quantifier": "every topology of every dim", "why_tests_cant": "all dims; the truncation appears only at dim 14.", "anchors": ["dune/geometry/referenceelementimplementation.cc: referenceVolumeInverse", "dune/geometry/referenceelementimplementation.hh: referenceVolume, volume"]}
{"id": "C22", "title": "Integration outer normals are outward and orthogonal to their faces", "statement": "integrationOuterNormal(f) is orthogonal to every edge direction of face f and for every point x of the element (x - p_f) . n_f <= 0, with equality on the face's corners.", "quantifier": "every topology of dim >= 1, every face, every point", "why_tests_cant": "continuum of points and all topologies.", "anchors": ["dune/geometry/referenceelementimplementation.hh: referenceIntegrationOuterNormals, integrationOuterNormal"]}
{"id": "C23", "title": "Integration outer normals close up", "statement": "The integration outer normals weighted by the reference volume of their faces sum to zero (discrete divergence theorem), and the length of n_f equals the integration element of geometry<1>(f).", "quantifier": "every topology of dim >= 1", "why_tests_cant": "all topologies.", "anchors": ["dune/geometry/referenceelementimplementation.hh: referenceIntegrationOuterNormals, referenceOrigins, referenceVolume"]}
{"id": "C24", "title": "Cholesky factorisation", "statement": "For a symmetric positive definite matrix the computed L is lower triangular with positive diagonal and L L^T = A; with checkSingular the function reports failure rather than dividing by zero / taking roots of negatives whenever a pivot is not positive.", "quantifier": "all n and all real matrices", "why_tests_cant": "continuum of matrices and all sizes.", "anchors": ["dune/geometry/utility/defaultmatrixhelper.hh: cholesky_L"]}
{"id": "C25", "title": "Pseudo inverses", "statement": "rightInvA(A) returns a matrix X with A X = I whenever A has full row rank, equal to A^T (A A^T)^-1 (so Moore-Penrose); leftInvA likewise; the 2x2 special case agrees with the general algorithm.", "quantifier": "all m<=n and all full rank real matrices", "why_tests_cant": "continuum of matrices and all sizes.", "anchors": ["dune/geometry/utility/defaultmatrixhelper.hh: rightInvA, leftInvA, invL, LTL, AAT_L, ATA_L"]}
{"id": "C26", "title": "sqrtDetAAT is the square root of the Gram determinant", "statement": "sqrtDetAAT(A)^2 = det(A A^T) for every shape, in particular the coded special cases 1x1, 2x2, 3x3, 2x3 agree with the general Cholesky path; the value returned by rightInvA as integration element is the same number.", "quantifier": "all m<=n, all matrices of full row rank", "why_tests_cant": "continuum of matrices and all sizes.", "anchors": ["dune/geometry/utility/defaultmatrixhelper.hh: sqrtDetAAT, rightInvA, detL"]}
{"id": "C27", "title": "Affine geometry: global/local round trip", "statement": "For a non-degenerate AffineGeometry, local(global(x)) = x for all x; global(local(y)) = y for square geometries and is the orthogonal projection of y onto the image plane otherwise.", "quantifier": "all origins, all full rank Jacobians, all points, all mydim<=cdim", "why_tests_cant": "continuum.", "anchors": ["dune/geometry/affinegeometry.hh: AffineGeometry::global, local, jacobianTransposed, jacobianInverseTransposed"]}
{"id": "C28", "title": "Affine geometry corners and construction", "statement": "An AffineGeometry built from corner coordinates of a simplex maps reference corner i to coordinate i; corner(i) = global(reference corner i), center = global(reference centre); volume = integrationElement * reference volume.", "quantifier": "all coordinate vectors, all dims", "why_tests_cant": "continuum.", "anchors": ["dune/geometry/affinegeometry.hh: AffineGeometry ctors, corner, center, volume"]}
{"id": "C29", "title": "Axis aligned cube geometry", "statement": "AxisAlignedCubeGeometry maps the reference cube onto the box [lower,upper]: corner(i)=global(reference corner i), local(global(x))=x if extents are nonzero, volume = product of extents = integrationElement, jacobianTransposed is the derivative of global and jacobianInverseTransposed its (right) inverse - in all three variants (dim==coorddim, dim==0, axes bitset).", "quantifier": "all lower<upper, all axes bitsets with dim set bits, all points", "why_tests_cant": "continuum; bitset combinations exponential.", "anchors": ["dune/geometry/axisalignedcubegeometry.hh: AxisAlignedCubeGeometry"]}
{"id": "C30", "title": "Multilinear geometry interpolates its corners", "statement": "MultiLinearGeometry::global of reference corner i is exactly corner i; global is an affine combination of the corners with weights summing to one and nonnegative inside the reference element; hence it commutes with affine maps and stays in the convex hull of the corners.", "quantifier": "every topology of every dim, all corner positions, all points of the reference element", "why_tests_cant": "continuum and all topologies.", "anchors": ["dune/geometry/multilineargeometry.hh: MultiLinearGeometry::global, corner"]}
{"id": "C31", "title": "Multilinear Jacobian is the derivative of global", "statement": "jacobianTransposed(x)[i][j] is the partial derivative of global_j with respect to x_i at every x where the pyramid branch is not at its singular apex; at the apex the code's value is a one-sided limit.", "quantifier": "every topology, all corners, all points", "why_tests_cant": "continuum.", "anchors": ["dune/geometry/multilineargeometry.hh: MultiLinearGeometry::jacobianTransposed"]}
{"id": "C32", "title": "Multilinear geometry is affine exactly when it says so", "statement": "With exact comparison (tolerance 0 case of the test) affine() returns true iff global is an affine map; the Jacobian produced by affine() is then the constant Jacobian; every simplex topology is affine.", "quantifier": "every topology, all corners", "why_tests_cant": "continuum.", "anchors": ["dune/geometry/multilineargeometry.hh: MultiLinearGeometry::affine, CachedMultiLinearGeometry"]}
{"id": "C33", "title": "Cached multilinear geometry is observationally equal to the uncached one", "statement": "Any sequence of calls (global, local, jacobianTransposed, jacobianInverseTransposed, integrationElement, volume) on a CachedMultiLinearGeometry returns the same values as on a MultiLinearGeometry with the same corners, independent of call order and of the cached state.", "quantifier": "every finite history of calls with every argument", "why_tests_cant": "histories are unbounded; a stale cache shows up only for particular orders.", "anchors": ["dune/geometry/multilineargeometry.hh: CachedMultiLinearGeometry"]}
{"id": "C34", "title": "Newton iteration in local", "statement": "For an affine geometry the first Newton step is exact: local(global(x)) = x after a single iteration, from any start; for every geometry a finite returned value has last Newton update below tolerance.", "quantifier": "all affine corner configurations, all points", "why_tests_cant": "continuum.", "anchors": ["dune/geometry/multilineargeometry.hh: MultiLinearGeometry::local"]}
{"id": "C35", "title": "gaussNewton contract", "statement": "If gaussNewton returns OK (with positive iteration limits) the residual norm at the returned point is below the tolerance, and each accepted step strictly decreases the residual norm; otherwise the point returned has a residual not larger than at the start.", "quantifier": "all functions, Jacobian oracles, start points, tolerances and limits", "why_tests_cant": "quantifies over arbitrary functions.", "anchors": ["dune/geometry/utility/algorithms.hh: gaussNewton"]}
{"id": "C36", "title": "gaussNewton at an exact solution", "statement": "Started at a point that already solves the equation the documented outcome is OK. The code reports STAGNATION, so MappedGeometry::local(global(centre)) and LocalFiniteElementGeometry::local(global(centre)) throw.", "quantifier": "all functions with f(x0)=0", "why_tests_cant": "a universally quantified failure for exact starts; tests only use perturbed points.", "anchors": ["dune/geometry/utility/algorithms.hh: gaussNewton", "dune/geometry/mappedgeometry.hh: local", "dune/geometry/localfiniteelementgeometry.hh: local"]}
{"id": "C37", "title": "Mapped geometry composes", "statement": "MappedGeometry::global = mapping o geometry.global and its jacobian is the matrix product given by the chain rule: if the supplied derivative is the derivative of the mapping then jacobian is the derivative of global.", "quantifier": "all differentiable mappings and geometries", "why_tests_cant": "continuum of functions.", "anchors": ["dune/geometry/mappedgeometry.hh: MappedGeometry::global, jacobian"]}
{"id": "C38", "title": "Topology singleton factory creates once", "statement": "For every sequence of getObject/create calls, each (key, topology id) pair is created exactly once, the same object is returned on every request, and different pairs never share an object.", "quantifier": "every finite history of requests over all keys and ids", "why_tests_cant": "unbounded histories.", "anchors": ["dune/geometry/topologyfactory.hh: TopologySingletonFactory::getObject"]}
{"id": "C39", "title": "Quadrature rule cache is correct under every schedule", "statement": "For every interleaving of any number of threads calling QuadratureRules::rule with any arguments, each rule is constructed at most once, every call returns the rule for its own (type, order, quadrature type), no reader sees a partially built table, and the nested construction of sub-rules never re-enters its own once-flag (no self deadlock).", "quantifier": "every schedule of every finite set of concurrent calls", "why_tests_cant": "interleavings are unbounded.", "anchors": ["dune/geometry/quadraturerules.hh: QuadratureRules::_rule, rule", "dune/geometry/quadraturerules/tensorproductquadrature.hh", "dune/geometry/quadraturerules/jacobiNquadrature.hh"]}
{"id": "C40", "title": "Requested order is delivered or out of bounds", "statement": "For 0<=p<=maxOrder the rule returned satisfies order()>=p. For p > maxOrder the documented exception QuadratureOrderOutOfRange is not raised by rule(): the order table is indexed without a bounds check (undefined behaviour).", "quantifier": "every geometry type, quadrature type and order", "why_tests_cant": "all orders and types.", "anchors": ["dune/geometry/quadraturerules.hh: QuadratureRules::_rule, maxOrder, QuadratureRuleFactory"]}
{"id": "C41", "title": "1d quadrature tables integrate polynomials", "statement": "Every tabulated 1d rule (Gauss-Legendre, Gauss-Lobatto, Gauss-Radau left/right, Gauss-Jacobi 1 and 2) has positive weights, points in [0,1], and integrates every polynomial of degree <= delivered order against its weight function with error at most 1e-20 times the sum of absolute coefficients.", "quantifier": "all polynomials with real coefficients of degree <= order, all tabulated rules", "why_tests_cant": "continuum of polynomials.", "anchors": ["dune/geometry/quadraturerules/gaussquadrature.hh", "dune/geometry/quadraturerules/gausslobattoquadrature.hh", "dune/geometry/quadraturerules/gaussradauleftquadrature.hh", "dune/geometry/quadraturerules/gaussradaurightquadrature.hh", "dune/geometry/quadraturerules/jacobi1quadrature.hh", "dune/geometry/quadraturerules/jacobi2quadrature.hh"]}
{"id": "C42", "title": "Simplex and prism quadrature tables", "statement": "The tabulated triangle, tetrahedron and prism rules have all points in the reference element, weights summing to its volume, and integrate every polynomial up to the delivered order with an explicit tiny error bound. Weights are positive except for the order 3 triangle rule.", "quantifier": "all polynomials of total degree <= order", "why_tests_cant": "continuum of polynomials.", "anchors": ["dune/geometry/quadraturerules/simplexquadrature.hh", "dune/geometry/quadraturerules/prismquadrature.hh"]}
{"id": "C43", "title": "Tensor and conical product quadrature", "statement": "If the base rule is exact for degree p on the base element and the 1d rule is exact for the degree the code requests, the product rule for the prism/cone over the base is exact for every polynomial of degree <= p, its points lie inside and its weights sum to the reference volume - for arbitrary base topology and dimension.", "quantifier": "all topologies of dim >= 2, all base rules, all polynomials of degree <= p", "why_tests_cant": "continuum and all dims.", "anchors": ["dune/geometry/quadraturerules/tensorproductquadrature.hh: TensorProductQuadratureRule"]}
{"id": "C44", "title": "Composite quadrature rule", "statement": "The composite rule built from a simplex rule and n intervals has n^dim times as many points, all inside the simplex, weights summing to the same total, nonnegative if the base weights are, and remains exact for the polynomials the base rule integrates exactly.", "quantifier": "all base rules, n>=1, dims, polynomials", "why_tests_cant": "all n.", "anchors": ["dune/geometry/quadraturerules/compositequadraturerule.hh: CompositeQuadratureRule"]}
{"id": "C45", "title": "reduceOrder computes ranks", "statement": "reduceOrder maps an injective vertex id sequence to the permutation of 0..n-1 with the same relative order, is idempotent, and depends only on the order of the ids; GeneralVertexOrder's vertex order on each subentity is the restriction of that order.", "quantifier": "all finite sequences of ids", "why_tests_cant": "unbounded sequences.", "anchors": ["dune/geometry/generalvertexorder.hh: reduceOrder, GeneralVertexOrder"]}
{"id": "C46", "title": "Cube refinement indices", "statement": "For hypercube refinement, vertex and element iterators run through exactly nVertices=(n+1)^dim and nElements=n^dim items with consecutive indices from 0, vertexIndices of an element are in range, pairwise distinct, and the vertex with index vertexIndices()[j] sits at corner j of the element's geometry.", "quantifier": "all dims and all interval numbers n>=1", "why_tests_cant": "all n and dim.", "anchors": ["dune/geometry/refinement/hcube.cc: RefinementImp, SubEntityIterator::index, coords, vertexIndices, geometry"]}
{"id": "C47", "title": "Vertex iterator geometry", "statement": "The geometry() of a refinement vertex iterator should be located at its coords(). This is false: hypercube uses the wrong index base, simplex omits scaling and the Kuhn transformation, pyramid omits the coordinate transformation; it is true for the cube-to-simplex and prism triangulations.", "quantifier": "all refinements, all n, all vertices", "why_tests_cant": "claim is universal; witnesses settle it.", "anchors": ["dune/geometry/refinement/hcube.cc: geometry", "dune/geometry/refinement/simplex.cc: geometry", "dune/geometry/refinement/pyramidtriangulation.cc: geometry", "dune/geometry/refinement/prismtriangulation.cc", "dune/geometry/refinement/hcubetriangulation.cc"]}
{"id": "C48", "title": "Simplex refinement vertices", "statement": "The simplex vertex iterator visits exactly C(dim+n,dim) points, each lattice point of the refined simplex exactly once, and index() at the k-th position is k.", "quantifier": "all dims >= 1, all n >= 1", "why_tests_cant": "all n and dim.", "anchors": ["dune/geometry/refinement/simplex.cc: pointIndex, RefinementIteratorSpecial<dimension,CoordType,dimension>, nVertices"]}
{"id": "C49", "title": "Permutation enumeration", "statement": "getPermutation<n>(m) for m in 0..n!-1 enumerates every permutation of 0..n-1 exactly once, with m=0 the identity.", "quantifier": "all n, all m < n!", "why_tests_cant": "all n.", "anchors": ["dune/geometry/refinement/simplex.cc: getPermutation"]}
{"id": "C50", "title": "Kuhn coordinates are inverse", "statement": "kuhnToReference and referenceToKuhn are mutually inverse for every permutation, and map the reference simplex onto the Kuhn simplex 1>=x_{p0}>=...>=x_{p(n-1)}>=0.", "quantifier": "all dims, all permutations, all points", "why_tests_cant": "continuum and all permutations.", "anchors": ["dune/geometry/refinement/simplex.cc: referenceToKuhn, kuhnToReference"]}
{"id": "C51", "title": "Simplex refinement elements", "statement": "Incrementing the simplex element iterator terminates, never trips its assertion, visits exactly n^dim elements with consecutive indices, never visits the same subsimplex twice, and each element's vertexIndices are in range and are exactly the indices of the corners of its geometry.", "quantifier": "all dims >= 1, all n >= 1", "why_tests_cant": "the loop skips an input dependent number of candidates; termination and the count need a proof for all n, dim.", "anchors": ["dune/geometry/refinement/simplex.cc: RefinementIteratorSpecial<dimension,CoordType,0>::increment, vertexIndices, geometry, nElements"]}
{"id": "C52", "title": "Simplex refinement tiles the simplex", "statement": "The elements of the refined simplex all have volume 1/n^dim of the whole, lie in the reference simplex, cover it, and have disjoint interiors.", "quantifier": "all dims, all n, all points", "why_tests_cant": "continuum of points.", "anchors": ["dune/geometry/refinement/simplex.cc: RefinementIteratorSpecial<dimension,CoordType,0>::geometry, global"]}
{"id": "C53", "title": "Cube, prism and pyramid triangulations tile their element", "statement": "The triangulating refinements visit nVertices/nElements items with consecutive indices (dim!, 3 and 2 times the simplex counts); the subelements lie inside the reference cube/prism/pyramid, cover it, and their volumes sum to its volume.", "quantifier": "all n>=1, all dims for the cube", "why_tests_cant": "continuum and all n.", "anchors": ["dune/geometry/refinement/hcubetriangulation.cc", "dune/geometry/refinement/prismtriangulation.cc", "dune/geometry/refinement/pyramidtriangulation.cc"]}
{"id": "C54", "title": "VirtualRefinement iterator value semantics", "statement": "Copies of virtual refinement iterators are independent; comparing iterators of different refinements is false; every operation sequence without self assignment is free of use-after-free and leaks. Self assignment (it = it) deletes the backend before cloning it and is undefined behaviour.", "quantifier": "every finite sequence of construct/copy/assign/increment/destroy operations", "why_tests_cant": "unbounded histories; self assignment is never tested.", "anchors": ["dune/geometry/virtualrefinement.cc: SubEntityIterator::operator=, copy ctor, dtor, equals"]}
{"id": "C55", "title": "buildRefinement dispatch", "statement": "buildRefinement returns the implementation for the requested pair of types up to ==, for every dimension exactly for the supported pairs (simplex->simplex, cube->cube, cube->simplex, in 3d also prism->simplex, pyramid->simplex) and throws NotImplemented otherwise.", "quantifier": "all dims and pairs of topology ids", "why_tests_cant": "all pairs of ids.", "anchors": ["dune/geometry/virtualrefinement.cc: buildRefinement, RefinementBuilder"]}
{"id": "C56", "title": "Subentities are determined by their vertices", "statement": "subEntities(i,c,cc) contains k if and only if every vertex of subentity (k,cc) is a vertex of subentity (i,c); in particular two different subentities of the same codimension never have the same vertices.", "quantifier": "every topology of every dimension, all (i,c) and (k,cc)", "why_tests_cant": "quantifies over all topologies of all dimensions and all pairs of subentities.", "anchors": ["dune/geometry/referenceelementimplementation.hh: subEntities, subEntity", "dune/geometry/referenceelementimplementation.cc: subTopologyNumbering"]}
{"id": "C57", "title": "Local finite element geometry", "statement": "LocalFiniteElementGeometry::global is the combination of the stored vertices with the shape function values, jacobian is its derivative whenever the basis reports correct derivatives, the inverse/integration element belong to that Jacobian, local returns a point within tolerance or throws, and affine() gives the same answer on every call and recognises every affine map of full rank. (On degenerate maps affine() runs into the Cholesky assertion.)", "quantifier": "all finite elements, vertex lists, dimensions and tolerances", "why_tests_cant": "continuum of basis functions and vertex positions.", "anchors": ["dune/geometry/localfiniteelementgeometry.hh: LocalFiniteElementGeometry"]}
{"id": "C58", "title": "Numerical volume loop", "statement": "volume(ConvergenceOptions) of the mapped and finite element geometries returns a quadrature sum of one of the orders 1..max(1,maxIt-1): the first whose distance to the preceding sum is below the tolerance, or the last; no other order is requested.", "quantifier": "all integrands, rule families, limits and tolerances", "why_tests_cant": "all integrands and options.", "anchors": ["dune/geometry/mappedgeometry.hh: volume", "dune/geometry/localfiniteelementgeometry.hh: volume", "dune/geometry/utility/convergence.hh"]}
{"id": "C59", "title": "Golub-Welsch: the Gauss-Jacobi rules computed from an eigenvalue problem", "statement": "Whenever the eigenvalue solver returns the eigenvalues (with multiplicity) and unit eigenvectors of the matrix it is given, jacobiNodesWeights(degree, alpha) returns degree/2+1 nodes in the open unit interval, pairwise different, with positive weights that sum to 1/(alpha+1), and integrates every polynomial of degree at most 2(degree/2)+1 exactly against (1-x)^alpha; the result does not depend on the solver up to the order of the points; such a solver result exists for every degree and alpha.", "quantifier": "all degrees, all alpha, all eigenvalue solvers meeting the contract, all polynomials of the degree", "why_tests_cant": "degrees, alpha and polynomials are unbounded, and the code depends on LAPACK whose answer is only known up to order and signs.", "anchors": ["dune/geometry/quadraturerules/jacobiNquadrature.hh: jacobiNodesWeights"]}
{"id": "C60", "title": "Container of reference elements and the reference element value class", "statement": "For every dimension the container's constructor sets all 2^dim entries; general(t) returns, for every non-none type of the dimension, the reference element whose type has the same dimension and topology id, and is undefined for every other dimension or id; the range begin()..end() visits every topology once; simplex(), cube(), pyramid(), prism() return the element of that name; two elements are == exactly if they come from the same topology id and then have equal hashes; the range checks of the Python interface accept exactly the arguments for which the C++ functions are defined.", "quantifier": "all dimensions below 256, all types, all codimensions, indices and arguments of the Python functions", "why_tests_cant": "dimension, topology ids and (negative or large) Python indices are unbounded; undefined accesses do not show up reliably in tests.", "anchors": ["dune/geometry/referenceelements.hh: ReferenceElementContainer", "dune/geometry/referenceelement.hh: ReferenceElement", "dune/python/geometry/referenceelements.hh"]}
{"id": "C61", "title": "Text forms of geometry types and the Python parser", "statement": "Parsing the text of a type returns an equal type of the same dimension; types with equal text (to_string, and operator<<) are equal; the parser accepts only strings that start with one of the twelve constructor names followed by nothing or by an opening parenthesis that is closed; on every string it terminates without access outside of the string and without failing assertion, the only undefined results being shifts for cube dimensions from 31 and general dimensions from 32; __hash__ is compatible with == for types that are not none. The strings geometryTypeFromString accepts are exactly those of a grammar (a name, or a name with numbers separated by commas and spaces), each with the type the grammar gives it.", "quantifier": "all strings; all types of dimension below 31 (parser), below 256 (stream output)", "why_tests_cant": "strings are unbounded, and errors of the scanner (off by one at the end of the string, missing parenthesis) show only for particular strings.", "anchors": ["dune/geometry/type.hh: operator<<", "dune/python/geometry/type.hh: to_string, from_string"]}
{"id": "C62", "title": "Volume of multilinear geometries", "statement": "volume() of a MultiLinearGeometry equals the integral of integrationElement() over the reference element for affine geometries of any dimension and codimension, for planar quadrilaterals, and for pyramids (iterated cones) over quadrilaterals, provided the Jacobian determinant has one sign at the four base corners; for planar quadrilaterals volume() is half the cross product of the diagonals, the integration element is positive everywhere on the closed square if and only if the four corner determinants have one strict sign, and then global() is injective on it.", "quantifier": "all corner positions; all dimensions up to 13 (limit of referenceVolume); all tolerances below 1/2", "why_tests_cant": "the test program compares volume() with the exact value for a handful of affine or cube-shaped elements; the claim ranges over a continuum of non-affine shapes and needs an integral, not a sum over samples.", "anchors": ["dune/geometry/multilineargeometry.hh:350-366", "dune/geometry/multilineargeometry.hh:377-385"]}
{"id": "C63", "title": "Convergence of the inverse map of multilinear geometries", "statement": "For every planar quadrilateral whose Jacobian determinant has one sign at the corners, and every point of it at which the determinant does not vanish, local() started from the centre returns after finitely many iterations (with an explicit bound), and the returned local coordinate differs from the true one by at most tolerance * |grad det| / |det|; a finite result of local() on any non-affine planar quadrilateral is mapped by global() to the argument up to tolerance/2 times the length of c0-c1-c2+c3. For every geometry of every dimension and codimension, local() converges quadratically whenever the centre lies in a ball around a solution in which the Jacobians are bounded below and the first-order remainder is quadratic (for bilinear surfaces in any space: beta*twist*distance < 2/3).", "quantifier": "all corner positions, all target points, all tolerances > 0, all iteration counts", "why_tests_cant": "a test evaluates local(global(x)) for finitely many x of finitely many elements; convergence of the loop for every convex quadrilateral and the existence of non-terminating arguments are statements about unbounded iterations over a continuum of inputs.", "anchors": ["dune/geometry/multilineargeometry.hh:312-334"]}
{"id": "C64", "title": "Point-in-reference-element test in IEEE arithmetic", "statement": "In every binary floating point format with at least 7 digits and with round-to-nearest-even subtraction, ReferenceElement::checkInside (tolerance 64 epsilon) returns true for every vector of floating point numbers whose value lies in the convex hull of the corners, for every topology of dimension up to 127; whenever it returns true no coordinate is an infinity or a NaN, the exact test accepts the values with tolerance (128+dim) u (u = unit roundoff), and there is a point of the hull at distance at most dim (128+dim) u in every coordinate. The free function accepts every point of the hull as soon as the tolerance exceeds dim*u, and a larger tolerance accepts more.", "quantifier": "all topologies, dimensions, floating point vectors including subnormal, infinite and NaN entries, all precisions >= 7 and exponent ranges (float, double)", "why_tests_cant": "there are 2^64 doubles per coordinate; accumulated rounding of the running factor in every dimension cannot be enumerated, and a rejected point on a slanted face is a one-in-2^53 event.", "anchors": ["dune/geometry/referenceelementimplementation.hh:89-106", "dune/geometry/referenceelementimplementation.hh:528-532"]}
{"id": "C65", "title": "AxisAlignedCubeGeometry in IEEE arithmetic", "statement": "In every binary format, for every axis-aligned cube (any axes, dim and coorddim) with finite corners of positive extent away from overflow: local() maps every floating point vector of the box into the unit cube, monotonically, and every corner to exactly the corresponding unit corner, so that the reference element's checkInside accepts it; global() is monotone, never below the lower corner, exact at lower coordinates, within u|G| + (1+u)(((1+u)^2-1)w + eta) of the exact value G, and exact at all corners (mapping the unit cube into the box) when the extents are representable, e.g. when a lower coordinate is zero or the coordinates are within a factor of two; global(local(y)) returns y up to a bound that does not depend on the ratio of position and extent; center() lies in the box; volume() has relative error below (1+u)^(2 dim) - 1 unless a partial product leaves the normal range.", "quantifier": "all formats, dimensions, axes, corners, local and global floating point vectors", "why_tests_cant": "each statement ranges over all pairs of corners and all floating point vectors; that global(1) can lie beyond the upper corner needs operands whose difference is not representable, which tests with round numbers never meet.", "anchors": ["dune/geometry/axisalignedcubegeometry.hh:170-202", "dune/geometry/axisalignedcubegeometry.hh:249-308"]}
{"id": "C66", "title": "Refined elements have conforming corners in IEEE arithmetic", "statement": "Computed with rounding in any binary format: (cube) corner j of every refined cell equals, bit for bit, the coords() of the vertex vertexIndices()[j], although the two are computed by different expressions; the cells are boxes of positive extent inside [0,1] with accurate corners, and coords() of the cell lies in the box. (simplex) Two refined elements compute bitwise equal corners exactly when their exact corners are equal; corners lie in [0,1] and are accurate to 3 units of rounding, vertices are correctly rounded. (triangulations) All copies of a vertex have bitwise equal coords(); element corners are accurate; corners shared within a coarse Kuhn simplex, and all shared corners of the square and of the pyramid, agree bit for bit, and distinct corners stay distinct. For the three-dimensional cube and the prism corners shared between coarse simplices need not agree, and corners of the refined simplex need not equal the coords() of the vertex. Every computed corner passes the test of the reference element (simplex up to dimension 31, triangulations up to dimension 5).", "quantifier": "all formats, dimensions, numbers of intervals (bounded by the precision), elements, corners", "why_tests_cant": "tests compare coordinates with a tolerance and use few intervals, mostly powers of two, for which nothing is rounded; bitwise equality for every element pair, dimension and interval count is a statement about the order of roundings in different Kuhn permutations.", "anchors": ["dune/geometry/refinement/hcube.cc:200-211", "dune/geometry/refinement/hcube.cc:390-417", "dune/geometry/refinement/simplex.cc:510-518", "dune/geometry/refinement/simplex.cc:676-694", "dune/geometry/refinement/hcubetriangulation.cc:326-346", "dune/geometry/refinement/prismtriangulation.cc:48-57", "dune/geometry/refinement/pyramidtriangulation.cc:49-58"]}
{"id": "C67", "title": "Quadrature rules in IEEE arithmetic", "statement": "Let the literals of the tables be converted with an error of at most K roundings (K=1: to nearest) and let the products of the tensor and conical construction be rounded. For every valid request the floating point rule exists iff the exact rule does, with the same type, order and number of points in the same sequence. All coordinates are finite, lie in [0,1] and differ from the exact ones by at most (K+(dim-1-k)(K+2)) units of rounding; the weights differ in total by at most massBound^dim * dim(dim+3)(2K+3) units (massBound close to the mass of a one-dimensional rule). Hence all points pass ReferenceElement::checkInside (correctly rounded literals: every rule without LAPACK up to dimension 9, in float and in double), and polynomials up to the order of the rule are integrated up to an explicit error. The points need not lie in the reference element exactly: in single precision the Gauss-Lobatto rule of order 3 on the triangle has a point whose coordinates sum to more than one.", "quantifier": "all formats, all topologies, dimensions, orders and quadrature types, all literal conversions within the bound", "why_tests_cant": "tests check the sums and a few monomials in double with tolerances of 1e-8 and more, in dimension at most 3; a point outside of the reference element by one rounding, or an accumulation of roundings with the dimension, is below every tolerance used.", "anchors": ["dune/geometry/quadraturerules/numberfromstring.hh:12-27", "dune/geometry/quadraturerules/tensorproductquadrature.hh:39-156", "dune/geometry/quadraturerules/gausslobattoquadrature.hh:57-491", "dune/geometry/quadraturerules.hh:377-523", "dune/geometry/referenceelementimplementation.hh:528-532"]}
{"id": "C68", "title": "Multilinear and affine mappings in IEEE arithmetic", "statement": "In floating point arithmetic MultiLinearGeometry::global is, in each coordinate, the left-to-right rounded sum of weights times corners with weights that do not depend on the corners. For every topology of every dimension the corners of the reference element are mapped to the stored corners without any rounding error. For points of the reference element and all topologies with at most one cone and all simplices (hence all topologies up to dimension 3) all results are finite and differ from the exact multilinear map by at most (6N+28dim+66) units of rounding times the largest corner coordinate plus 3N units of underflow, N the number of corners; the points within the tolerance of an apex are included. AffineGeometry::global has an error of at most dim(4dim+7) units. On simplices CachedMultiLinearGeometry::global and AffineGeometry::global agree bit for bit. The corner property fails for AffineGeometry and for CachedMultiLinearGeometry; a folded quadrilateral of size 2^-11 is taken for affine in single precision; the image can leave the convex hull of the corners. The test affine() recognises every affine image of the reference element with finite corners in every format (equal differences round to equal numbers), and for corners with integer coordinates of at most prec-2 bits its answer and its matrix are exact. False for corners that are not finite: a NaN corner counts as affine.", "quantifier": "all binary formats with at least 7 (6 for the corners) digits, all topologies and dimensions in range, all finite corners, all points", "why_tests_cant": "tests use a handful of geometries in double with tolerances far above a unit of rounding; the recursion divides by 1-x_n, so the error near an apex depends on an interplay of the tolerance and the roundings that samples do not hit.", "anchors": ["dune/geometry/multilineargeometry.hh:61-61", "dune/geometry/multilineargeometry.hh:290-298", "dune/geometry/multilineargeometry.hh:746-788", "dune/geometry/multilineargeometry.hh:905-941", "dune/geometry/multilineargeometry.hh:550-590", "dune/geometry/affinegeometry.hh:108-159"]}
{"id": "C69", "title": "Refinements and entity counts with 32-bit integers", "statement": "With signed int arithmetic in which every overflow is undefined, the simplex refinement (counts, vertex and element loops, index(), vertexIndices()) is free of undefined behaviour and gives exactly the results of unbounded arithmetic whenever (n+1)(n+2)...(n+dim) <= INT_MAX; the triangulations of cube, prism and pyramid likewise if also their number of elements is an int. getPermutation is defined for dim <= 12 only. It is not enough that the number of vertices is an int (dim 3, 1289 intervals). The cube refinement uses unsigned arithmetic: its loops make (n+1)^dim mod 2^32 and n^dim mod 2^32 rounds, all coordinates are right, and vertexIndices() names vertices by their index() as long as (n+1)^dim < 2^32; both are the true numbers below 2^31. With 65535 intervals of the square the vertex loop is empty. The unsigned computation of the number of subentities equals the true number modulo 2^32 and is right up to dimension 21 for every topology; it is wrong for the cube of dimension 22. refinementLevels(l) is 2^l for 0 <= l <= 30, negative for 31 and undefined otherwise.", "quantifier": "all dimensions, all numbers of intervals, all states of the iterators, all topologies and codimensions", "why_tests_cant": "tests refine at most a few levels in dimension up to 3; the limits are reached with millions of elements.", "anchors": ["dune/geometry/refinement/simplex.cc:279-310", "dune/geometry/refinement/simplex.cc:394-421", "dune/geometry/refinement/simplex.cc:475-655", "dune/geometry/refinement/hcubetriangulation.cc:103-132", "dune/geometry/refinement/hcubetriangulation.cc:186-320", "dune/geometry/refinement/prismtriangulation.cc:103-133", "dune/geometry/refinement/hcube.cc:106-155", "dune/geometry/refinement/hcube.cc:235-386", "dune/geometry/referenceelementimplementation.cc:20-44", "dune/geometry/refinement/base.cc:117-120"]}
{"id": "C70", "title": "Inverse mappings in IEEE arithmetic", "statement": "With IEEE arithmetic, MultiLinearGeometry::local never reaches an undefined state (all coordinates, including infinities and NaN); an affine mapping needs one iteration; what is returned is the state after the first update whose computed squared norm is not above the tolerance, and max() exactly if a computed pivot on the way is not positive. A NaN in the coordinate or in a corner ends the iteration at once. The start of the iteration is the mean of the reference corners up to 3 ulp, and exactly for a power of two of corners. gaussNewton: all codes mean what they say in computed numbers, the computed residual never grows, an exact or NaN start is never accepted. local need not return: there are trapezoids in double and in single precision, and points of the reference square with exactly representable images, for which the iteration alternates between two states forever (gaussNewton returns on the same data). A mapping with exactly computed determinant 1 may be declared singular, and the inverse Jacobian of an AffineGeometry may stop at an assertion; the same happens for short edges by underflow.", "quantifier": "all topologies and dimensions, all corners and coordinates including NaN and infinities, all starts, all functions and options of gaussNewton, all contents of uninitialised memory, every precision and exponent range", "why_tests_cant": "the tests invert mappings of moderate size near the origin; the non-terminating inputs need a combination of distance and shape, and a hanging loop has no failing assertion.", "anchors": ["dune/geometry/multilineargeometry.hh:312-334", "dune/geometry/multilineargeometry.hh:791-901", "dune/geometry/utility/defaultmatrixhelper.hh:187-318", "dune/geometry/utility/defaultmatrixhelper.hh:334-452", "dune/geometry/utility/algorithms.hh:57-113", "dune/geometry/affinegeometry.hh:101-106", "dune/geometry/affinegeometry.hh:174-179", "dune/geometry/referenceelementimplementation.hh:113-144", "dune/geometry/referenceelementimplementation.hh:593-600"]}
{"id": "C71", "title": "Rounding errors of the matrix helper", "statement": "With IEEE arithmetic the routines of DefaultMatrixHelper are componentwise backward stable for matrices of every size: as long as the computed factor and result are finite, invLx, invLTx and cholesky_L solve their equations up to ((1+u)^k - 1) times the sum of the absolute values of the terms, with k at most the row number plus three, plus an explicit underflow term; spdInvAx and xTRightInvA (the step of local) have residuals bounded by the computed factor and the computed solution; mv, mtv, ATBT, AAT_L and LTL are dot products with one relative error per operation and LTL is exactly symmetric; invL satisfies L N = 1 and detL has one relative error per factor; the integration elements of 2x2 and 3x3 matrices are off by two, respectively five, relative errors of the sum of the absolute values of the terms of the determinant, and similarly for the square of that of a 2x3 matrix; the 2x2 inverse is the adjugate divided by the computed determinant up to two relative errors. There is no bound relative to the determinant itself: in single precision a matrix with determinant 1 has computed integration element 0 and an infinite inverse.", "quantifier": "all matrix sizes, all matrices and right-hand sides, all contents of uninitialised memory, every precision >= 2 and exponent range >= 4, overflow excluded only by finiteness of the result, gradual underflow included", "why_tests_cant": "the tests compare a few small matrices with a tolerance; the bounds hold for every size and every matrix, including subnormal entries.", "anchors": ["dune/geometry/utility/defaultmatrixhelper.hh:48-61", "dune/geometry/utility/defaultmatrixhelper.hh:86-100", "dune/geometry/utility/defaultmatrixhelper.hh:147-165", "dune/geometry/utility/defaultmatrixhelper.hh:187-318", "dune/geometry/utility/defaultmatrixhelper.hh:334-452"]}
{"id": "C72", "title": "Reference elements are convex polytopes with the reported face lattice", "statement": "A reference element is the convex polytope cut out by its facet hyperplanes (position(i,1), integrationOuterNormal(i)), and this is also what checkInside accepts for vanishing tolerance. A corner lies on the hyperplane of a facet exactly if subEntities lists it, and strictly inside otherwise. The subentities are exactly the faces of this polytope: (i,c) as a point set is the image of geometry<c>(i) and equals the part of the element on the hyperplanes of the facets containing it; containment reported by subEntity is inclusion of point sets; two subentities are disjoint or meet in a subentity and have a smallest common super-entity; every point has a smallest subentity containing it. The containment order is graded and has the diamond property: every subentity of codimension 2 lies in exactly two facets, every edge has exactly two corners, and generally exactly two subentities of codimension c+1 lie between (i,c) and a contained (k,c+2).", "quantifier": "all topology ids of every dimension, all subentities, all points", "why_tests_cant": "the tests check normals and counts of a few types in dimensions up to 4; here every dimension and every point, and the combinatorial and the geometric data are shown to describe the same polytope.", "anchors": ["dune/geometry/referenceelementimplementation.cc: subTopologyNumbering", "dune/geometry/referenceelementimplementation.hh: checkInside", "dune/geometry/referenceelementimplementation.hh: referenceCorners, position", "dune/geometry/referenceelementimplementation.hh: referenceEmbeddings, geometry<codim>, referenceCorners", "dune/geometry/referenceelementimplementation.hh: referenceIntegrationOuterNormals, integrationOuterNormal", "dune/geometry/referenceelementimplementation.hh: subEntities, subEntity"]}
{"id": "C73", "title": "Traces of multilinear geometries on subentities", "statement": "For every subentity (i,c) of a multilinear geometry, the geometry built from type(i,c) and the corners listed by subEntities(i,c,dim) is the trace: global composed with the embedding geometry<c>(i) is global of the sub-geometry (exactly away from the tolerance band below a pyramid apex, within twice the tolerance times the largest coordinate inside the reference element), and the transposed Jacobian of the sub-geometry is that of the embedding times that of the element. Consequently two multilinear geometries of any types and dimensions that list the same corners in the same order for a subentity of the same type agree on it pointwise (conformity), images of edges are straight segments between their corners parametrised with constant speed, and images of simplex subentities are the convex hulls of their corners.", "quantifier": "all topology ids of every dimension, all subentities of every codimension, all corner coordinates in every world dimension, all local points, all tolerances, all contents of uninitialised memory", "why_tests_cant": "the tests compare subentity data for a handful of types; agreement of two different recursions (element and subentity) at every point of every face needs the induction over the type.", "anchors": ["dune/geometry/multilineargeometry.hh: MultiLinearGeometry::global, corner", "dune/geometry/multilineargeometry.hh: MultiLinearGeometry::jacobianTransposed", "dune/geometry/multilineargeometry.hh:746-788", "dune/geometry/multilineargeometry.hh:791-901", "dune/geometry/referenceelementimplementation.cc: subTopologyNumbering", "dune/geometry/referenceelementimplementation.hh: checkInside", "dune/geometry/referenceelementimplementation.hh: referenceCorners, position", "dune/geometry/referenceelementimplementation.hh: referenceEmbeddings, geometry<codim>, referenceCorners", "dune/geometry/referenceelementimplementation.hh: referenceIntegrationOuterNormals, integrationOuterNormal", "dune/geometry/referenceelementimplementation.hh: subEntities, subEntity"]}
{"id": "C74", "title": "Outer normals of mapped elements", "statement": "Applying jacobianInverseTransposed of a multilinear geometry to integrationOuterNormal(i) gives the outer normal of the image of facet i: its scalar product with an image vector is that on the reference element, it is tangential to the element, orthogonal to the image of the facet (and up to a factor the only such vector), and points away from the element. Its length times the integration element of the element is the integration element of the facet geometry (Nanson's formula), so integrals over facets may be taken on either side. For affine geometries the image lies on the inner side of each facet, the volumes of the facets times their unit outer normals add up to zero, and the sum of facet volume times distance of the facet's plane from an arbitrary point is dim times the volume of the element.", "quantifier": "all topology ids of every dimension >= 1, all facets, all corner coordinates with independent Jacobian rows in every world dimension (surfaces and curves included), all points of the facet outside the tolerance band of an apex; the volume sums in dimension <= 14 (13), where the integer factorial of the reference volume does not overflow", "why_tests_cant": "the tests check the reference normals against the reference element's own embeddings only; the relation between normals, Jacobians and facet geometries of mapped elements is not tested.", "anchors": ["dune/geometry/multilineargeometry.hh: MultiLinearGeometry::global, corner", "dune/geometry/multilineargeometry.hh: MultiLinearGeometry::jacobianTransposed", "dune/geometry/multilineargeometry.hh:350-353", "dune/geometry/multilineargeometry.hh:736-743", "dune/geometry/multilineargeometry.hh:746-788", "dune/geometry/multilineargeometry.hh:791-901", "dune/geometry/referenceelementimplementation.cc: subTopologyNumbering", "dune/geometry/referenceelementimplementation.hh: checkInside", "dune/geometry/referenceelementimplementation.hh: referenceCorners, position", "dune/geometry/referenceelementimplementation.hh: referenceEmbeddings, geometry<codim>, referenceCorners", "dune/geometry/referenceelementimplementation.hh: referenceIntegrationOuterNormals, integrationOuterNormal", "dune/geometry/referenceelementimplementation.hh: referenceIntegrationOuterNormals, referenceOrigins, referenceVolume", "dune/geometry/referenceelementimplementation.hh: subEntities, subEntity"]}
{"id": "C75", "title": "Divergence theorem on reference and affine elements", "statement": "On every reference element the integral of a partial derivative of a polynomial equals the sum over the facets of the component of integrationOuterNormal(i) times the integral of the polynomial, pulled back by geometry(i,1), over the reference element of the facet. On every affine multilinear geometry the integral of the divergence of a polynomial field (local derivatives mapped with jacobianInverseTransposed and weighted with integrationElement, in any world dimension; or, in full dimension, a polynomial of the world coordinates evaluated at global()) equals the sum of its fluxes through the facets, formed with the unit mapped normals, the facet geometries' own global() and integrationElement().", "quantifier": "all topology ids of every dimension >= 1, all polynomials of every degree, all directions, all affine corner positions with independent Jacobian rows, all world dimensions >= the element's", "why_tests_cant": "a test integrates finitely many polynomials on finitely many elements with a quadrature rule; orientation, numbering and scaling of normals, embeddings and Jacobians must fit together for all polynomials, topologies and corner positions for every finite volume or DG scheme to be conservative.", "anchors": ["dune/geometry/multilineargeometry.hh: MultiLinearGeometry::global, corner", "dune/geometry/multilineargeometry.hh: MultiLinearGeometry::jacobianTransposed", "dune/geometry/multilineargeometry.hh:350-353", "dune/geometry/multilineargeometry.hh:736-743", "dune/geometry/multilineargeometry.hh:746-788", "dune/geometry/multilineargeometry.hh:791-901", "dune/geometry/referenceelementimplementation.cc: subTopologyNumbering", "dune/geometry/referenceelementimplementation.hh: checkInside", "dune/geometry/referenceelementimplementation.hh: referenceCorners, position", "dune/geometry/referenceelementimplementation.hh: referenceEmbeddings, geometry<codim>, referenceCorners", "dune/geometry/referenceelementimplementation.hh: referenceIntegrationOuterNormals, integrationOuterNormal", "dune/geometry/referenceelementimplementation.hh: referenceIntegrationOuterNormals, referenceOrigins, referenceVolume", "dune/geometry/referenceelementimplementation.hh: subEntities, subEntity"]}
{"id": "C76", "title": "The Python layer answers as the C++ calls, whatever has been asked before", "statement": "quadratureRule(geometryType, order) with an integer order and a type other than none gives, after every history of calls in any form, the rule, exception or undefined behaviour of QuadratureRules::rule; a rule once returned is returned as the same object for every equal type and order, different requests get different objects, exceptions are not cached; referenceElement() gives None for none types and an element of an equal type otherwise. get() yields arrays whose (r,c) element is coordinate r of point c, inside of the memory of the rule; integrate() is the weighted sum, exact for polynomials up to the order on entities with constant integration element. positions(), types(), corners and integrationOuterNormals have the right length and entries, and ValueError is raised exactly out of range. False: a float order behaves the same before and after the integer order has been asked for; integrate() works for entities without a geometry.", "quantifier": "all histories of calls, all hash functions of pairs and numbers, all geometry types, orders, dimensions; all rules and functions of the local coordinates", "why_tests_cant": "the tests ask for a few rules in one order; a cache key, hash or stride error shows only for particular sequences of requests or dimensions.", "anchors": ["python/dune/geometry/__init__.py:8-33", "python/dune/geometry/_referenceelements.py:16-40", "dune/python/geometry/quadraturerules.hh:26-52", "dune/python/geometry/referenceelements.hh:24-247", "dune/python/geometry/type.hh:216-218"]}
{"id": "C77", "title": "Divergence theorem on multilinear elements", "statement": "On every multilinear geometry of full dimension whose Jacobians are invertible inside the element (affine or not, pyramids included, where the map is rational), the integral of the divergence of a polynomial field of the world coordinates, evaluated at global() and weighted with integrationElement(), equals the sum of its fluxes through the facets, formed with the unit normals obtained by mapping integrationOuterNormal(i) with jacobianInverseTransposed at the point, and with the facet geometries' own global() and integrationElement(). Hence the unit normals integrate to zero over the boundary, and the volume is the boundary integral of a coordinate times the normal's component. The determinant of the Jacobian keeps its sign in the whole element.", "quantifier": "all topology ids of every dimension >= 1, all corner positions with invertible Jacobians at the inside points away from the apices, all polynomial fields of every degree", "why_tests_cant": "a test integrates finitely many fields on finitely many elements with a quadrature rule that is not exact for non-affine elements; that the second derivatives cancel between volume and boundary terms must hold for every element for schemes on curved meshes to be conservative.", "anchors": ["dune/geometry/multilineargeometry.hh: MultiLinearGeometry::global, corner", "dune/geometry/multilineargeometry.hh: MultiLinearGeometry::jacobianTransposed", "dune/geometry/multilineargeometry.hh:350-353", "dune/geometry/multilineargeometry.hh:736-743", "dune/geometry/multilineargeometry.hh:746-788", "dune/geometry/multilineargeometry.hh:791-901", "dune/geometry/referenceelementimplementation.cc: subTopologyNumbering", "dune/geometry/referenceelementimplementation.hh: checkInside", "dune/geometry/referenceelementimplementation.hh: referenceCorners, position", "dune/geometry/referenceelementimplementation.hh: referenceEmbeddings, geometry<codim>, referenceCorners", "dune/geometry/referenceelementimplementation.hh: referenceIntegrationOuterNormals, integrationOuterNormal", "dune/geometry/referenceelementimplementation.hh: referenceIntegrationOuterNormals, referenceOrigins, referenceVolume", "dune/geometry/referenceelementimplementation.hh: subEntities, subEntity"]}
{"id": "C78", "title": "Python classes over all histories of registrations; quadpy wrapper", "statement": "However often and in whichever order modules register them, every registered C++ type has exactly one Python class, and the classes of quadrature points, quadrature rules and reference elements offer exactly their documented members (all overloads reachable, members registered again without effect). The class of MultiLinearGeometry offers its members only from the second registration on (its test of insertClass().second is inverted): refuted for the first one, under either meaning of the flag one of the two uses is wrong. Its constructor does not compare the number of corners with the type: with too few corners the map is undefined everywhere, surplus corners are ignored. quadpy.rule returns one object per type and description in every history, for exactly lines, triangles, quadrilaterals, tetrahedra and hexahedra, with the corners of Dune's reference elements as vertices; the order of the description is ignored, and rules() turns the AttributeError of an unknown method into a KeyError.", "quantifier": "all sequences of registrations of all types and dimensions, all uses of the classes; all lists of corners; all sequences of calls of quadpy.rule with all types, descriptions, hash functions and sets of schemes", "why_tests_cant": "a test loads modules in one order in one process and never sees the members missing from the first registration; the statement quantifies over all histories and over all types and dimensions that users instantiate.", "anchors": ["dune/python/geometry/multilineargeometry.hh:28-113", "dune/python/geometry/quadraturerules.hh:55-115", "dune/python/geometry/referenceelements.hh:95-263", "python/dune/geometry/quadpy.py:19-110"]}
{"id": "C79", "title": "Quadrature on mapped elements: discrete divergence theorem", "statement": "Take any element of full dimension whose map is polynomial (all types in which every pyramid stands on a simplex, any corners; or affine corners on any type) with invertible Jacobians, any polynomial field of degree p and any quadrature rules that QuadratureRules::rule returns without weight function, of order (p-1)m+n(m-1) on the element and pm+(n-1)(m-1) on the facets (m the degree of the map). The sum a program forms over the points of the element rule, divergence at global() times integrationElement(), and the sum over the facets of field times mapped unit normal times facet integrationElement() differ by at most an explicit multiple of the rounding of the tables; for constant fields the facet sums cancel to that accuracy; integrals of polynomials at global() are computed to that accuracy. All values in the sums exist: the points of the rules stay away from the apices by more than the tolerance of the multilinear geometry. False for the order 3 rule on tetrahedra, which contains the apex with positive weight; there the statement holds for affine elements only.", "quantifier": "all topology ids of every dimension >= 1 up to the dimensions of the rules, all corners in a box, all polynomial fields, all orders up to maxOrder and all quadrature types without weight (with LAPACK results as a parameter), every tolerance up to 1/1024", "why_tests_cant": "a test compares finitely many elements and rules with a tolerance that hides wrong degrees; that the stated orders suffice for every element and every polynomial of that degree needs the degree of the pulled back integrands.", "anchors": ["dune/geometry/multilineargeometry.hh: MultiLinearGeometry::global, integrationElement, jacobianInverseTransposed", "dune/geometry/quadraturerules.hh: QuadratureRules::rule, QuadratureRuleFactory", "dune/geometry/referenceelementimplementation.hh: ReferenceElementImplementation::integrationOuterNormal", "dune/geometry/quadraturerules/tensorproductquadrature.hh: TensorProductQuadratureRule", "dune/geometry/quadraturerules/simplexquadrature.cc: SimplexQuadratureRule"]}
{"id": "C80", "title": "Local finite elements of order one and functions built on them", "statement": "The shape functions of P1LocalBasis and Q1LocalBasis add up to one everywhere, are 1 at their own corner of the reference simplex or cube and 0 at the others, are nonnegative inside, and evaluateJacobian returns their derivatives. Interpolation evaluates at the corners in the numbering of the reference element, the interpolant of an affine (P1) or multilinear (Q1) function is that function, and coefficients are recovered from the function they define. LocalFiniteElementFunction and its derivative() evaluate the sum of coefficients and shape functions and its derivative.", "quantifier": "all dimensions, all points, all functions and coefficient vectors of any number of components", "why_tests_cant": "the elements are used at fixed dimensions and points by the tests of the geometries, which only notice errors that exceed their tolerances at those points; the numbering of the corners must agree with the reference elements in every dimension.", "anchors": ["dune/geometry/test/localfiniteelements.hh: P1LocalBasis, Q1LocalBasis, P1LocalInterpolation, Q1LocalInterpolation, LocalFiniteElementFunction", "dune/geometry/localfiniteelementgeometry.hh: LocalFiniteElementGeometry(refElement, localFE, parametrization)"]}
{"id": "C81", "title": "The geometry classes agree with one another", "statement": "Two of AffineGeometry, MultiLinearGeometry, LocalFiniteElementGeometry, MappedGeometry and AxisAlignedCubeGeometry that represent the same affine map of rank mydim agree in type, corners, corner, center, volume, affine, global, jacobian, jacobianTransposed, jacobianInverse, jacobianInverseTransposed and integrationElement, so that compareGeometries accepts them with every tolerance >= 0. A LocalFiniteElementGeometry of order one agrees with the MultiLinearGeometry of the same corners in all of these but volume and affine for arbitrary corners, and with the MappedGeometry of the function of the same coefficients for every local basis. compareGeometries returns true exactly if all compared values exist and differ by at most the tolerance. False: agreement of affine() (different tolerances), of volume() (midpoint value against quadrature) and of global() closer to the apex of a simplex than the tolerance.", "quantifier": "all topology ids and dimensions below 256, all corner positions and affine maps, all world dimensions, all quadrature rules compared on, all tolerances", "why_tests_cant": "the tests compare the classes on a few elements at the points of one quadrature rule with a tolerance; agreement at every point of every element is what allows to exchange one class for another.", "anchors": ["dune/geometry/test/comparegeometries.hh: compareGeometries", "dune/geometry/test/referenceelementgeometry.hh: ReferenceElementGeometry, LocalDerivativeGeometry", "dune/geometry/localfiniteelementgeometry.hh: LocalFiniteElementGeometry", "dune/geometry/mappedgeometry.hh: MappedGeometry", "dune/geometry/multilineargeometry.hh: MultiLinearGeometry", "dune/geometry/affinegeometry.hh: AffineGeometry", "dune/geometry/axisalignedcubegeometry.hh: AxisAlignedCubeGeometry"]}
{"id": "C82", "title": "What checkGeometry accepts", "statement": "checkGeometry returns true exactly if all member functions it calls return, no corner of an element with several corners is within the tolerance of the centre or of the average of the corners, the volume is at least the tolerance, the corners and the centre are where global() puts the reference ones, and at every point of the rule local() inverts global(), both Jacobian products are the identity, the transposed versions are the transposes, the integration element is nonnegative and the root of the Gram determinant and, for an affine geometry, the volume is the reference volume times it. AffineGeometry, MultiLinearGeometry, LocalFiniteElementGeometry, MappedGeometry and AxisAlignedCubeGeometry of an affine map of full rank are accepted exactly if the element is not smaller than the tolerance. False: a rule containing the centre is accepted for the two classes that invert with gaussNewton (local() throws there), small correct elements are accepted (the tolerance is absolute), and wrong volumes of elements that are not affine are noticed.", "quantifier": "all geometries, all topology ids and dimensions below 256, all world dimensions, all quadrature rules, all tolerances", "why_tests_cant": "checkGeometry is itself the test; what it accepts and rejects decides what the test programs establish, and it is only run on geometries that pass.", "anchors": ["dune/geometry/test/checkgeometry.hh: toFieldMatrix, isIdentity, checkGeometry"]}
{"id": "C83", "title": "What the quadrature test program checks", "statement": "analyticalSolution is the integral of a power of a coordinate over the reference element for cubes and simplices of every dimension, prisms and pyramids, and throws otherwise. checkQuadrature accepts a rule exactly if, for every direction, the power given by the order of the rule is integrated up to the relative tolerance 2^n n eps; checkWeights exactly if the weights sum to the volume up to eps per point. Rules that are exact up to their order are accepted. With the epsilon of double every rule of the library without weight function for a named element of dimension at most 4 is accepted, and main succeeds for the default order and all others up to 58, and throws beyond. False: that acceptance implies exactness. The powers below the order are not compared, from order 47 on every list of points passes checkQuadrature, and at order 45 a rule passes that doubles the integral compared.", "quantifier": "all rules, all geometry types, all dimensions, all orders, all tolerances, all LAPACK answers of the accuracy of the tables", "why_tests_cant": "It is about the test itself: which wrong rules it lets through can not be seen by running it on the rules of the library.", "anchors": ["dune/geometry/test/test-quadrature.cc: analyticalSolution, checkQuadrature, checkWeights, check, main"]}
{"id": "C84", "title": "What the reference element test program checks", "statement": "checkSubEntities returns no error for exactly the tables in which, for every subentity (i,codim) and every codimension c, the range subEntities(i,codim,c) has size(i,codim,c) entries (none for c < codim, one for c = codim, at least two for c > codim), subEntity agrees with the range, all entries are subentity numbers and contains(k) holds exactly for the entries. Every reference element of the library passes, in every dimension and for every topology, and the program exits with 0 for the library. For the triangle and the quadrilateral whatever passes has the sizes and the numbering of the library. False for the other types: with all subentity numbers replaced by 0 every element still passes checkSubEntities, and the program exits with 0 with lines and three-dimensional elements numbered like that.", "quantifier": "all tables, all dimensions below 256, all topologies, all functions returning reference elements", "why_tests_cant": "It is about the test itself, in all dimensions; the program runs on seven elements of dimension at most three, and which wrong tables it lets through can not be seen by running it on the right ones.", "anchors": ["dune/geometry/test/test-referenceelements.cc: checkSubEntities, main"]}
{"id": "C85", "title": "Refinements are conforming meshes", "statement": "Whenever a point lies in two elements of a refinement, every corner that takes part in writing it as a convex combination of the corners of the first is a corner of the second; so two elements meet in the hull of common corners and there are no hanging nodes. This holds for the refined simplex and the refined cube in every dimension, for two conforming simplices of a grid with corners in arbitrary order that are refined separately and share at most three corners (a grid of triangles or tetrahedra), and for the refined triangulations of cube, prism and pyramid up to dimension three. It is false for the triangulated cube in dimension four with two intervals: two elements cross each other inside a common face of two simplices of the triangulation.", "quantifier": "all dimensions, all numbers of intervals, all pairs of elements, all points", "why_tests_cant": "The refinement test compares no two elements and runs in dimensions up to three; conformity is a statement about all points of all pairs of elements, and its failure only appears in dimension four.", "anchors": ["dune/geometry/refinement/simplex.cc: RefinementIteratorSpecial, referenceToKuhn, getPermutation", "dune/geometry/refinement/hcube.cc", "dune/geometry/refinement/hcubetriangulation.cc", "dune/geometry/refinement/prismtriangulation.cc", "dune/geometry/refinement/pyramidtriangulation.cc"]}
{"id": "C86", "title": "Orientation of refined elements", "statement": "The geometry of every element of a refined simplex, triangulated cube, prism or pyramid, or refined cube has the orientation of the reference element, and its edge determinant is n^-dim. The order of vertexIndices() is another one: its orientation is n^-dim times the sign of the permutation of the element times the sign of the reversal that is applied for odd permutation numbers. Up to dimension two this is positive for every element. From dimension three on with at least two intervals there are elements of either orientation, so the reversal does not orient the index lists.", "quantifier": "all dimensions, all numbers of intervals, all elements, all coarse shapes", "why_tests_cant": "The refinement test looks at coordinates and volumes only, and the volume is an absolute value; the sign of each of the n^dim elements for every n and dim is never computed.", "anchors": ["dune/geometry/refinement/simplex.cc: vertexIndices, geometry, getPermutation", "dune/geometry/refinement/hcube.cc: geometry", "dune/geometry/refinement/hcubetriangulation.cc", "dune/geometry/refinement/prismtriangulation.cc", "dune/geometry/refinement/pyramidtriangulation.cc"]}
{"id": "C87", "title": "Affine geometries from corners and their test program", "statement": "The corner constructor of AffineGeometry, given the images of the corners of a reference element under an affine map of full rank, returns that map exactly when the first dim-1 construction steps of the element are cones, i.e. for simplices, prisms over simplices and all elements of dimension at most two; for every other element it fails its assertion, whatever the map. It reads the first dim+1 corners only and puts those in place; so a quadrilateral that is no parallelogram is accepted and its last corner is moved. One test of test-affinegeometry.cc passes exactly when integration element and volume agree with |det A| within epsilon, the volume is not below the tolerance of checkGeometry and no corner is within the tolerance of the center; for an orthogonal B the first two always hold. The program therefore succeeds, and the tests commented out as failing fail in the construction. The assertion |det B| = 1 of the test is not enough: for such a B a right geometry is reported as wrong.", "quantifier": "all dimensions, all topologies, all maps, all corner lists, all tolerances, all quadrature rules", "why_tests_cant": "The program runs on two maps and on the elements that work; why the others fail, and for which elements of higher dimension, is a statement about all topologies and all maps.", "anchors": ["dune/geometry/affinegeometry.hh: AffineGeometry constructors", "dune/geometry/test/test-affinegeometry.cc", "dune/geometry/test/checkgeometry.hh: checkGeometry"]}
{"id": "C88", "title": "What the refinement test program checks", "statement": "The exit code of test-refinement.cc is 77 if no test ran, 1 if some element or vertex failed its test and 0 otherwise. For every number of intervals and every dimension, the element centers and the vertices of the library's refinements lie in the refined element and pass the test of the virtual refinements. The test of the geometries (dimension at most 13) passes exactly when the volume of a part is not below the tolerance of checkGeometry, so for every tolerance there is a number of intervals for which correct refinements fail. The program succeeds on the library. It also succeeds if buildRefinement has no entry for the hexahedron split into tetrahedra, if the refinements ignore the number of intervals, and if all refinements but that of the line are empty.", "quantifier": "all refinements with the iterator interface, all numbers of intervals, all dimensions, all tolerances, all quadrature rules with suitable points", "why_tests_cant": "It is a statement about the test itself: for which refinements it succeeds, for all numbers of intervals rather than the three it runs with.", "anchors": ["dune/geometry/test/test-refinement.cc", "dune/geometry/virtualrefinement.cc: buildRefinement", "dune/geometry/refinement/*.cc", "dune/geometry/test/checkgeometry.hh: checkGeometry"]}
{"id": "C89", "title": "What the test program of the axis aligned cubes checks", "statement": "testCodimNonZero<dim,coorddim> goes through all sets of dim axes except the set of all axes, so it constructs binomial(coorddim,dim) geometries for dim < coorddim and none for dim = coorddim. testCodimZero accepts the unit cube and testCodimNonZero every face of the cube from -1 to 3, for every dimension, exactly when the volume is not below the tolerance of checkGeometry. The program succeeds on the library for all tolerances below one half. It looks at cubes of full dimension only with lower corner 0 and upper corner 1, so an implementation that takes every such cube for the unit cube is accepted.", "quantifier": "all dimensions, all tolerances, all quadrature rules, all constructors", "why_tests_cant": "It is a statement about which geometries the test constructs, for all dimensions and implementations.", "anchors": ["dune/geometry/test/test-axisalignedcubegeometry.cc", "dune/geometry/axisalignedcubegeometry.hh: AxisAlignedCubeGeometry", "dune/geometry/test/checkgeometry.hh: checkGeometry"]}
{"id": "C90", "title": "Termination of local on quadrilaterals in the plane", "statement": "For a quadrilateral in the plane, convex or not, MultiLinearGeometry::local terminates for every global coordinate in the image of the plane, inside the quadrilateral or not. If the quadrilateral is convex, one number of iterations suffices for all coordinates in it and the returned point is within sqrt(tolerance) times the quotient of the Jacobian determinant at the centre and the smallest one at the corners. For trapezoids at most three iterations are made and the second gives the exact point. If affine() is true within the tolerance the error of the single step has an explicit bound proportional to sqrt(tolerance). For coordinates farther from the image of the plane than half the tolerance times the deviation from a parallelogram no point is ever returned; the call may then run forever, also in double and single precision.", "quantifier": "all quadrilaterals, all global coordinates, all tolerances, all contents of uninitialised storage", "why_tests_cant": "Termination is a statement about unbounded sequences of iterates for a continuum of start data; the cycling targets are isolated points.", "anchors": ["dune/geometry/multilineargeometry.hh: MultiLinearGeometry::local", "dune/geometry/utility/defaultmatrixhelper.hh: xTRightInvA"]}
{"id": "C91", "title": "What the test program of MultiLinearGeometry checks", "statement": "test-multilineargeometry.cc succeeds exactly if, for each of its calls and for both corner storages, affine() is true, the integration element, volume and centre are those of the map, local inverts global at the corners, the Jacobian at the corners and at the centre has the right rows and checkGeometry succeeds, and the checks on its three non affine or oblique elements succeed. For an affine map of full rank MultiLinearGeometry passes on every reference element, in every dimension, exactly if the integration element agrees with the determinant within the tolerance and the element is not too small; the whole program succeeds. It does not test all: a class whose affine() always answers true, and one whose local gives up after three Newton steps, pass, although a convex quadrilateral needs more.", "quantifier": "all classes under test, all reference elements and dimensions, all affine maps of full rank, all tolerances, all usable quadrature rules, all contents of uninitialised storage", "why_tests_cant": "The property is about the test itself: what it accepts among all implementations and all inputs it could be given.", "anchors": ["dune/geometry/test/test-multilineargeometry.cc: testMultiLinearGeometry, testNonLinearGeometry, testLocalMethod, testCheckInside, main", "dune/geometry/multilineargeometry.hh: MultiLinearGeometry", "dune/geometry/test/checkgeometry.hh: checkGeometry"]}
{"id": "C92", "title": "What the test program of LocalFiniteElementGeometry checks", "statement": "A call of test-localfiniteelementgeometry.cc succeeds exactly if the geometry built from coefficients and the one built by interpolation pass checkGeometry and the first agrees with the multilinear and the mapped geometry. The map of the test, with matrix 3-|i-j|, has full rank unless both dimensions are 7; for all other dimensions the classes of the library pass on simplices and cubes exactly if the element is not smaller than the tolerance, and the program succeeds. In dimension 7 it would fail, and so would the calls that are commented out: dimension 0, pyramids, prisms. The interpolated geometry is compared with nothing: a constructor that moves the whole element by any vector passes.", "quantifier": "all dimensions, all reference elements of simplices and cubes, all tolerances, all rules that do not contain the centre, all contents of uninitialised storage, all classes in the place of those of the library", "why_tests_cant": "The property is about the test itself: what it accepts, and for which dimensions it could accept anything.", "anchors": ["dune/geometry/test/test-localfiniteelementgeometry.cc: checkLocalFiniteElementGeometry, main", "dune/geometry/localfiniteelementgeometry.hh: LocalFiniteElementGeometry", "dune/geometry/test/comparegeometries.hh: compareGeometries", "dune/geometry/test/localfiniteelements.hh: LocalFiniteElementFunction"]}
{"id": "C93", "title": "What the test program of MappedGeometry checks", "statement": "MappedGeometry of an affine mapping over an affine geometry of any class of the library passes checkGeometry, whatever its flag, exactly if the composed map is not too small. A call of test-mappedgeometry.cc succeeds exactly if MappedGeometry passes checkGeometry over the multilinear geometry, the reference element's geometry, ReferenceElementGeometry and LocalDerivativeGeometry; for the class of the library this holds exactly if dim! times the reference volume is not below the tolerance and the corners keep their distance from the centre, so the program succeeds; its ten repetitions add nothing. A rule that contains the centre makes a call fail, which is why dimension 0 is commented out. The program lets through a class that calls every (or no) mapping affine, one with any volume where the flag is not set, and one that evaluates the derivative of the mapping at the origin only.", "quantifier": "all dimensions, all reference elements, all affine mappings of full rank and all affine geometries below them, both flags, all tolerances, all rules exact for constants, all contents of uninitialised storage, all classes in the place of MappedGeometry", "why_tests_cant": "The property is about the test itself: what it accepts, and which wrong classes it cannot tell from the right one.", "anchors": ["dune/geometry/test/test-mappedgeometry.cc: AffineMapping, testMappedGeometry, main", "dune/geometry/mappedgeometry.hh: MappedGeometry", "dune/geometry/test/referenceelementgeometry.hh: ReferenceElementGeometry, LocalDerivativeGeometry", "dune/geometry/test/checkgeometry.hh: checkGeometry"]}
{"id": "C94", "title": "The number of corners of a type, and the test programs of the types", "statement": "The recursion of test-fromvertexcount.cc lists every topology of a dimension with a given number of corners exactly once, and its guess succeeds exactly if all types with that many corners compare equal. Up to dimension 3 guess and library agree for every number of vertices. The number of corners determines the type up to and including dimension 4, so the remark in typefromvertexcount.hh is wrong for dimension 4; in every dimension dim >= 5 there are two types with dim + 5 corners. The program passes exactly if the tested function is right, up to equality, at eight arguments, so it accepts functions that never throw. test-nonetype.cc, test-geometrytype-id.cc and test-constexpr-geometrytype.cc pass for the library; the first does not look at the dimension, the test at run time of the second cannot fail, and an id that separates two types only would do.", "quantifier": "all dimensions, all numbers of vertices, all types, all functions in the place of those of the library", "why_tests_cant": "The tests look at eight configurations; that numbers of corners identify types is a statement about all topologies of all dimensions.", "anchors": ["dune/geometry/test/test-fromvertexcount.cc: guessTopologyId, testGuess, main", "dune/geometry/utility/typefromvertexcount.hh: geometryTypeFromVertexCount", "dune/geometry/test/test-nonetype.cc: main", "dune/geometry/test/test-geometrytype-id.cc: Foo, main", "dune/geometry/test/test-constexpr-geometrytype.cc: main"]}
{"id": "C95", "title": "Corners held by reference", "statement": "A program that reads a geometry only while the vector of corners it was made of is unchanged gets the same replies whether CornerStorage is a vector or a reference_wrapper, for every class. MultiLinearGeometry over a reference answers after every program like a geometry made now, so moving a corner moves every point by the weight of that corner there. An affine CachedMultiLinearGeometry follows corner 0 only: among affine geometries it stays right exactly under translations. test-cornerstoragerefwrap.cc passes for MultiLinearGeometry over a reference, fails for it over a copy and for the cached class over a reference, and lets through any class that is right in global().", "quantifier": "all dimensions, all sequences of creating, writing and freeing corners, making, copying and calling geometries, all classes, all tolerances, all contents of uninitialised storage", "why_tests_cant": "The test moves one corner of one triangle and looks at the centre; the statement is about all programs that share corners with geometries.", "anchors": ["dune/geometry/test/test-cornerstoragerefwrap.cc: kiteGeometry, expectCenter, main", "dune/geometry/multilineargeometry.hh: MultiLinearGeometryTraits::CornerStorage, MultiLinearGeometry, CachedMultiLinearGeometry"]}
{"id": "C96", "title": "Test programs of the Python layer", "statement": "geometrytype.py passes exactly if the texts of the named types and of the simplices, cubes and none types below a dimension are read back as equal types and the sixteen literal texts are read as the types given; the library passes for every bound up to 31 and is undefined from 32 on. refelement.py passes exactly if tuples and methods agree; all reference elements of all dimensions pass, from every state of the cache. test_quad.py passes exactly if the rules have points and give 17 of the 21 sums; its table has the exact integrals, the assertion about numpy arrays holds for all rules, and the library passes from every state of the cache. Let through: none types written without dimension, arbitrary texts of other types, elements with arbitrary positions and normals, one-point rules in a corner, any rules for pyramids and prisms of order 3 and 4.", "quantifier": "all functions under test, all bounds, all reference elements, all histories of calls, all rules", "why_tests_cant": "The statement is about what the tests accept and reject, over all implementations.", "anchors": ["dune/python/test/geometrytype.py", "dune/python/test/refelement.py", "dune/python/test/test_quad.py", "python/dune/geometry/_geometry.cc", "dune/python/geometry/type.hh", "dune/python/geometry/referenceelements.hh", "dune/python/geometry/quadraturerules.hh"]}
{"id": "C97", "title": "What the benchmark of the geometry classes checks", "statement": "benchmarkGeometry returns true exactly if affine() is defined and, unless the rule of order 8 is empty, consecutive corners differ, no corner is the centre, the volume is positive, and at the points of the rule all members are defined and the integration element is positive. A geometry with one corner never passes. Every class that represents an affine map of full rank passes; with the classes of the library all calls succeed, for every simplex and cube of dimension up to 13 but 7 in 7, and for every number of iterations. The verdict is the same for all positive numbers of iterations; for others only that the constructors succeed is left. The calls commented out cannot succeed. Let through: one fixed interval in place of all 66 geometries, and any map, derivatives, and positive volumes and integration elements in place of those of a geometry that passes.", "quantifier": "all geometry classes, rules, dimensions, numbers of iterations", "why_tests_cant": "The statement is about what the program accepts and rejects, over all implementations.", "anchors": ["dune/geometry/test/benchmark-geometries.cc", "dune/geometry/localfiniteelementgeometry.hh", "dune/geometry/multilineargeometry.hh", "dune/geometry/mappedgeometry.hh"]}
{"id": "C98", "title": "Jacobians of cubes in IEEE arithmetic", "statement": "For cubes MultiLinearGeometry::jacobianTransposed is defined for all floating point inputs. Each row is the sum of the corners with weights that depend neither on the corners, nor on the coordinate the row belongs to, nor on the memory the matrix is written to; it is rounded after each operation, in corner order. On an edge of the reference cube parallel to axis j, row j is the difference of the end points of the edge, rounded once. At points of the cube every entry is finite and within (6N+16dim)uB+3N*eta of the partial derivative of the exact mapping, for N corners bounded by B (96uB+24eta up to three dimensions). The Jacobian of a flat quadrilateral need not be flat: at height 1 the derivative of the height can be -2^-25 in single precision.", "quantifier": "all precisions of at least 7 bits and exponent ranges, all dimensions, all finite corners, all points of the cube", "why_tests_cant": "The bound covers all rounding errors of all inputs; a test compares one point with a tolerance.", "anchors": ["dune/geometry/multilineargeometry.hh"]}
{"id": "C99", "title": "Integration elements of quadrilaterals and hexahedra in IEEE arithmetic", "statement": "For a quadrilateral in the plane or a hexahedron in space with finite corners of modulus at most B and a point of the reference cube, MultiLinearGeometry::integrationElement is defined, finite and not negative and differs from the absolute value of the determinant of the partial derivatives of the exact mapping by a bound of first order in the unit roundoff times B^2 (B^3): 512 u B^2 for quadrilaterals away from underflow. It is positive if the determinant exceeds the bound. There is no bound relative to the determinant: in single precision a parallelogram with integer corners and determinant 1 has integration element 0.", "quantifier": "for all binary formats with at least 9 bits of precision, all corners below the overflow threshold, all points of the reference cube and all contents of uninitialised memory", "why_tests_cant": "the space of corner coordinates and points is astronomically large; the tests compare with a tolerance on a handful of geometries, and cancellation in the determinant shows only for thin elements", "anchors": ["dune/geometry/multilineargeometry.hh", "dune/geometry/utility/defaultmatrixhelper.hh"]}
{"id": "C100", "title": "Volumes in IEEE arithmetic", "statement": "The volume of the reference element is 1/n rounded once and exact if n is a power of two. MultiLinearGeometry::volume of a quadrilateral in the plane is defined, finite, not negative and within 512 u B^2 of half the cross product of the diagonals. AffineGeometry::volume of a triangle in the plane is half the determinant of the exact corner differences up to five relative errors on the two products, does not change a bit when the second and third corner are exchanged, and is 0 or not a number if two corners are equal. It is not 0 in general for corners on a line.", "quantifier": "for all binary formats with at least 9 bits of precision (order and degenerate triangles: for all formats and all floating point values), all corners and all contents of uninitialised memory", "why_tests_cant": "the tests compare volumes of a few fixed elements with a tolerance; the exact symmetry under exchange of corners and the error for all corners are out of reach of sampling", "anchors": ["dune/geometry/multilineargeometry.hh", "dune/geometry/affinegeometry.hh", "dune/geometry/referenceelementimplementation.hh"]}
{"id": "C101", "title": "AffineGeometry in IEEE arithmetic: local after global", "statement": "If the results are finite, global is the affine image of the stored rows up to dim+1 relative errors per term, and local(global(x)) differs from x by at most the residual of the stored inverse times |x| plus explicit multiples of the stored inverse, the stored rows and the origin. In the plane the residual times the integration element is bounded by two relative errors per product of entries of the Jacobian, and the integration element is positive whenever the inverse is finite. Without a bound on the condition number the round trip is not close: a corner of a triangle can get a local coordinate of 3/2 and be rejected by checkInside.", "quantifier": "for all binary formats, all dimensions, all origins, Jacobians, stored inverses and points (residual: for all 2x2 matrices)", "why_tests_cant": "the tests check the round trip with a tolerance on a few well conditioned elements; the bound holds for every element and the failure needs a specific thin triangle", "anchors": ["dune/geometry/affinegeometry.hh", "dune/geometry/utility/defaultmatrixhelper.hh"]}
{"id": "C102", "title": "LocalFiniteElementGeometry and the numerical volume in IEEE arithmetic", "statement": "For every basis, global and the entries of the Jacobian are the combinations of the vertices with the values of the shape functions up to one relative error more than there are shape functions, if finite. With the shape functions of order one on simplices and cubes the vertices are taken on without error at the corners. On the unit cube the shape functions of order one and their derivatives have twice as many relative errors as there are coordinates, on the reference simplex only the first shape function has an error, and the entries of the Jacobian on a simplex are differences of vertices rounded once. A quadrature sum is the sum of computed integration elements times weights up to one relative error more than there are points, and not negative if these are not. The volume loop returns the sum of the first order that passes the test, or of the last one, or fails at the first missing rule; if no sum is finite it asks for every order and fails if a rule is missing, also for finite corners.", "quantifier": "for all binary formats, bases, dimensions, vertices, rules, tolerances and iteration limits, including infinite and not-a-number values", "why_tests_cant": "the tests evaluate a few elements with a tolerance and never meet an overflow; exactness at all corners in all dimensions and the behaviour of the loop on non-finite sums need a proof", "anchors": ["dune/geometry/localfiniteelementgeometry.hh", "dune/geometry/mappedgeometry.hh", "dune/geometry/test/localfiniteelements.hh", "dune/geometry/utility/convergence.hh"]}
{"id": "C103", "title": "Geometry classes agree in IEEE arithmetic", "statement": "On cubes of any dimension LocalFiniteElementGeometry with the shape functions of order one and MultiLinearGeometry map a point of the reference cube to finite points whose distance is a few units in the last place of the largest vertex coordinate, and the entries of their Jacobians differ by a bound of the same kind; on simplices the images under LocalFiniteElementGeometry and AffineGeometry are likewise close. On lines and quadrilaterals the maps compute the same numbers for all arguments, up to the sign of zero, on hexahedra they do not. On lines and quadrilaterals in spaces of any dimension the integration elements are equal, since the volume of a parallelepiped depends neither on signs of zeros nor on uninitialised storage. On simplices the Jacobian is the transposed of the one AffineGeometry stores, and the integration elements are equal except for triangles and tetrahedra in space, where AffineGeometry takes another formula and loses accuracy already on corners of the unit cube.", "quantifier": "for all binary formats, dimensions with enough precision, vertices bounded so that no overflow occurs and points of the reference element; the equality for all arguments, including infinite ones and not-a-number", "why_tests_cant": "the tests compare a few elements with a tolerance that hides the actual difference; a bound for all vertices and points, and the exact equality in the plane, need a proof", "anchors": ["dune/geometry/localfiniteelementgeometry.hh", "dune/geometry/multilineargeometry.hh", "dune/geometry/affinegeometry.hh", "dune/geometry/test/localfiniteelements.hh", "dune/geometry/test/comparegeometries.hh"]}
{"id": "C104", "title": "No uninitialised storage is read in IEEE arithmetic", "statement": "MultiLinearGeometry::global, jacobianTransposed, affine, local and integrationElement, the constructor and local of AffineGeometry, gaussNewton, global, jacobian and integrationElement of LocalFiniteElementGeometry and the routines sqrtDetAAT, rightInvA and xTRightInvA of the matrix helper depend on nothing but the components of their arguments inside of the static sizes: executions that start with different contents of the uninitialised local vectors and matrices, and with different memory behind the end of the vectors, are either both undefined or give the same code and bitwise the same components. The same holds for CachedMultiLinearGeometry, whose inverse and determinant are uninitialised members, after any history of calls.", "quantifier": "for all binary formats, topologies, dimensions mydim <= cdim, corners, points (finite or not), numbers of iterations and all contents of uninitialised storage", "why_tests_cant": "a test runs with one content of the stack, usually zeros or the values of the previous call; the dependence on memory needs a relation between two executions for all contents", "anchors": ["dune/geometry/multilineargeometry.hh", "dune/geometry/affinegeometry.hh", "dune/geometry/localfiniteelementgeometry.hh", "dune/geometry/utility/defaultmatrixhelper.hh", "dune/geometry/utility/algorithms.hh"]}
{"id": "C105", "title": "AxisAlignedCubeGeometry agrees with the general geometry classes in IEEE arithmetic", "statement": "Let a box with finite corners of modulus at most B be given by AxisAlignedCubeGeometry, and build a MultiLinearGeometry and a LocalFiniteElementGeometry of order one from the corners it returns. For every point of the unit cube the three classes compute finite images that differ by an explicit small multiple of u B and of the smallest subnormal number. They are not equal bit by bit: the upper end of an interval can be mapped to another point by AxisAlignedCubeGeometry only.", "quantifier": "for all binary formats with at least 7 bits, dimensions with enough precision, boxes of any dimension in spaces of any dimension and all floating point vectors of the unit cube", "why_tests_cant": "a comparison of classes by tests uses a few boxes with integer corners, for which all roundings are exact", "anchors": ["dune/geometry/axisalignedcubegeometry.hh", "dune/geometry/multilineargeometry.hh", "dune/geometry/localfiniteelementgeometry.hh"]}
{"id": "C106", "title": "Answers of CachedMultiLinearGeometry in IEEE arithmetic as a function of the history of calls", "statement": "After any history of calls of integrationElement, volume and jacobianInverseTransposed, an object of CachedMultiLinearGeometry returns the Jacobian and the inverse a new object returns. integrationElement, volume and local depend on the history only through whether jacobianInverseTransposed has been called. integrationElement and volume are those of a new object unless the element is an affine triangle or tetrahedron in space. There the values can differ, and local can differ in the plane: on a thin triangle a new object returns a point that is no solution, because the report of a singular matrix is ignored. On simplices the inverse always has the bits of AffineGeometry, and after a call of jacobianInverseTransposed so do the integration element, the volume and local. detInv() of an inverse returned by CachedMultiLinearGeometry on an affine element is the integration element returned afterwards. For MultiLinearGeometry the two agree bit by bit except on surfaces and volumes in space.", "quantifier": "for all binary formats, element types, dimensions, corners (finite or not), contents of uninitialised storage and finite sequences of calls", "why_tests_cant": "tests call the methods in one order on well shaped elements; the difference shows only for other orders and for thin elements", "anchors": ["dune/geometry/multilineargeometry.hh", "dune/geometry/utility/defaultmatrixhelper.hh"]}
