# Formal model of Aleph: design

Subject: `/repo` (Pseudomanifold/Aleph at the pinned commit), header-only C++
under `include/aleph`. Nothing is built or run; the model is written from the
text of the headers. All paths below are relative to `/repo/include/aleph`.

## 1. Trusted base

* The kernel of Coq 8.16.1 (`coqc`).
* The hand translation of C++ into Gallina. Every definition cites the file and
  the lines it models. Simplifications are stated there and summarised in §4.
* Axioms: none of our own. Every `Properties*.v` ends with `Print Assumptions` for its
  theorems. All of them report "Closed under the global context", except for C106, C107, C108,
  C112, C116–C120, C125, C139, C140, C141, C146, C147, C149, C153, C154, C155, C157, C160, C172 and the Gaussian densities of C109, which use the real numbers of the standard library. These depend on the axioms of the
  standard library `ClassicalDedekindReals.sig_not_dec`,
  `ClassicalDedekindReals.sig_forall_dec`,
  `FunctionalExtensionality.functional_extensionality_dep`, and, for derivatives and
  logarithms, `Classical_Prop.classic`. Definitions that the standard library seals behind module
  types (`Coq.ssr.ssrunder.Under_rel.*`, `Coq.Reals.Rdefinitions.RbaseSymbolsImpl.*`,
  `RinvImpl.*`) may be listed next to them by a checker; they are defined, not assumed. Only the standard library of Coq is used.
* The specification files `Spec*.v`, which say what "subset", "closed", "rank",
  "shortest path", "clique", … mean. They do not use the helpers of the model.
  A few specifications that are only needed once are in the `Properties*.v` file
  itself, next to the theorem.

Kinds of files in `rocq/theories`: model files (table in §6), `Spec*.v`
(specifications), `*Facts.v` (proofs), `Properties*.v` (final theorems, examples
that show that the hypotheses are satisfiable and the result is not trivial, and
`Print Assumptions`).

## 2. Conventions of the model

* Vertices, indices and dimensions are `nat`; data (weights) are `Z` unless a
  file says otherwise (`Q` for piecewise linear functions, statistics and
  weighted curvature, `R` for the heat kernel and some
  descriptors). The programs use `unsigned`, `unsigned short` or
  `double`: the model is exact arithmetic without overflow. Where wrap-around or
  truncation is the point of a finding, it is modelled explicitly.
* Errors are explicit: `outcome A := Ok a | Throw e | UB | OutOfFuel`
  (`Base.v`), with the errors `OutOfRange`, `RuntimeError`, `LengthError`,
  `InvalidArgument` and `Terminated` (an exception that leaves a `noexcept`
  function). `vector::at` and `map::at` throw `OutOfRange`; reads outside of a
  container and dereferenced end iterators are `UB`; loops without a structural
  bound take fuel and return `OutOfFuel`, and the theorems show that this does
  not happen.
* Library calls are modelled by functions that meet their contract (insertion
  sort for `std::sort` and `std::stable_sort`, `unique`, merging for
  `set_symmetric_difference`, association lists for maps). Where the order is
  unspecified (hash containers, `nth_element`), the order or the function is a
  parameter and the theorems quantify over it.
* `boost::multi_index` container of `SimplicialComplex`: a record with the list
  in index order and the list in order of dimension (stable by insertion); the
  lexicographic index is determined by the stored simplices and is computed.
* "Reachable" complexes are those produced from the empty complex by any
  sequence of the eleven public mutators (`History.v`).
* External code (FLANN, Eigen, Miniball, boost graph algorithms, roots, `acos`)
  is a parameter of the functions that call it.

## 3. Properties: what is modelled, how it is proved

`_refuted` theorems give a witness for a statement that is false of the code.
Properties marked `partial` are those whose natural statement is false; the
theorems listed in `MANIFEST.json` say what is true instead. A property marked
`proved` may list `_refuted` theorems as well: they show that a hypothesis of the
property is needed.


| id | status | model files | theorems in | how it is proved, or why not |
|----|--------|-------------|-------------|------|
| C01 | proved | `Simplex` | `PropertiesSimplex` | **Simplices are canonical vertex sets.** Canonical form of strictly descending lists; laws of the lexicographic order. |
| C02 | proved | `Simplex` | `PropertiesSimplex` | **The boundary of a simplex is the set of its codimension-one faces.** Removing one position of a strictly descending list; counting for codimension two. |
| C03 | proved | `Complex`, `History` | `PropertiesComplex` | **A simplicial complex never stores a vertex set twice and its views stay consistent.** Invariant `kwf` (no vertex set twice, both views are permutations of each other, dimension view sorted) by induction on histories. |
| C04 | proved | `Complex` | `PropertiesComplex` | **createMissingFaces produces exactly the downward closure.** Loop invariant: the processed prefix is closed; measure: number of missing subsets. |
| C05 | partial | `Complex` | `PropertiesComplex` | **Faces added by createMissingFaces never outweigh their cofaces.** False: the first coface met determines the weight. `C05_constant_data` is what holds. |
| C06 | proved | `Complex` | `PropertiesComplex` | **Removing a simplex removes exactly its open star.** Repeat-until-stable sweep: removed simplices contain `s`; measure: size. |
| C07 | proved | `Complex` | `PropertiesComplex` | **Weight recalculation yields monotone weights given by the vertices.** Induction over the dimension for the sweep with `find` and `replace`. |
| C08 | proved | `Complex` | `PropertiesComplex` | **Sorting by the supplied filtrations yields filtration orders.** The functors are strict weak orders in which faces precede cofaces; stability of sorting. |
| C09 | proved | `Complex`, `Matrix` | `PropertiesComplex` | **The boundary matrix of a filtered complex is its boundary operator.** The index map is the position; C02 for the square of the boundary operator. |
| C10 | proved | `Matrix` | `PropertiesMatrix` | **Column representations are interchangeable.** Simulation relation between the three column representations over operation sequences with error handling. |
| C11 | proved | `Matrix` | `PropertiesMatrix` | **Standard reduction terminates with a reduced matrix of column-equivalent columns.** Invariant on the look-up table; the lowest index strictly decreases. |
| C12 | proved | `Matrix` | `PropertiesMatrix` | **Twist computes the same pairing as Standard.** low(j) is the minimum over the coset of column j modulo earlier columns, for each algorithm. |
| C13 | proved | `Matrix` | `PropertiesMatrix` | **Every simplex is accounted for exactly once in the pairing.** From the characterisation of C12, gradedness and the fact that paired creators are cycles. |
| C14 | proved | `Matrix` | `PropertiesMatrix` | **Dualizing twice gives the matrix back.** Anti-transposition is an involution on sorted columns. |
| C15 | proved | `Matrix` | `PropertiesMatrix` | **Dualization does not change the persistence pairing.** The characterisation of low (C12) turned around: a combination of columns with a given lowest row is one of rows of the anti-transpose. |
| C16 | proved | `Matrix` | `PropertiesHomology` | **Unpaired creators count Betti numbers.** Own linear algebra over the field with two elements (bases by distinct lowest entries, uniqueness of dimension). |
| C17 | proved | `Matrix` | `PropertiesHomology` | **The pairing computes persistent homology.** As C16, with the intersection of cycles and later boundaries. |
| C18 | proved | `Matrix` | `PropertiesMatrix` | **The pairing is independent of the way the matrix was reduced.** Corollary of the characterisation of C12. |
| C19 | proved | `Diagram` | `PropertiesDiagram` | **Persistence diagrams faithfully tabulate the pairing.** List reasoning over the map from dimensions to diagrams. |
| C20 | partial | `Function`, `Diagram` | `PropertiesFunction` | **Persistence diagrams of one-dimensional functions can be calculated from their boundary matrix.** False for every function with two values or more: the unpaired minimum leads to `functionValues.at( max )`. |
| C21 | proved | `UnionFind` | `PropertiesUnionFind` | **Union-find maintains the equivalence closure of the merges.** Forest invariant with a rank function; path compression keeps classes. |
| C22 | proved | `Components`, `UnionFind` | `PropertiesComponents` | **Connected components are those of the 1-skeleton.** C21 and walks in the 1-skeleton. |
| C23 | proved | `Components` | `PropertiesComponents` | **Zero-dimensional persistence by union-find agrees with matrix reduction.** Elder rule against the characterisation of low for edge columns. |
| C24 | proved | `Diagram` | `PropertiesDiagram` | **Persistence diagram operations act on the multiset of points.** Counting points. |
| C25 | proved | `Rips` | `PropertiesRips` | **Rips expansion yields exactly the cliques up to the given dimension.** Soundness and completeness of the recursion along descending vertices. |
| C26 | proved | `Rips` | `PropertiesRips` | **Maximum-weight assignment makes Rips weights monotone.** Induction over the dimension. |
| C27 | proved | `Rips` | `PropertiesRips` | **Maximum-data assignment uses the vertex values.** Induction over the dimension. |
| C28 | proved | `MaximalCliques` | `PropertiesCliques` | **Maximal clique enumeration is exact.** Invariants on R, P and X for every order of traversal. |
| C29 | proved | `FloydWarshall`, `SymmetricMatrix` | `PropertiesGraph` | **Floyd-Warshall computes shortest path lengths.** Shortest walks with restricted interior. |
| C30 | proved | `Quotient` | `PropertiesQuotient` | **Cone and suspension are complexes with the expected simplices.** Direct, on the list of constructed simplices. |
| C31 | proved | `Spine` | `PropertiesSpine` | **Spine calculation performs elementary collapses until none is left.** Invariant: stored pairs are free faces; each step is an elementary collapse; measure: size. |
| C32 | partial | `Euler` | `PropertiesSmall` | **The Euler characteristic is the alternating sum over all dimensions.** False: the loops stop before the largest dimension. `C32_omits_top_dimension` says what is calculated. |
| C33 | proved | `SymmetricMatrix` | `PropertiesSmall` | **Symmetric matrix storage is a faithful symmetric matrix.** Nonlinear arithmetic for the triangular index. |
| C34 | proved | `Munkres` | `PropertiesMunkres` | **The assignment solver returns an optimal assignment.** Steps 0-5 as a machine: dual feasibility, and a lexicographic measure for termination; optimality by complementary slackness. |
| C35 | proved | `Wasserstein`, `Munkres` | `PropertiesWasserstein` | **Wasserstein distance is the optimal matching cost.** Block structure of the cost matrix; correspondence of assignments and partial matchings. |
| C36 | proved | `Hausdorff` | `PropertiesHausdorff` | **Hausdorff distance is a pseudo-metric on diagrams.** Folds of minima and maxima; triangle inequality of the underlying distance. |
| C37 | partial | `Bottleneck` | `PropertiesBottleneck` | **Bottleneck distance is symmetric and defined for all diagrams.** False; witnesses for asymmetry, wrong values, dependence on the order and undefined behaviour; positive results for the cases that work. |
| C38 | proved | `StepFunction` | `PropertiesStep` | **The persistence indicator function counts active intervals.** Sweep invariant: value = number of intervals that contain the abscissa. |
| C39 | proved | `PiecewiseLinear` | `PropertiesLinear` | **Arithmetic on piecewise linear functions is pointwise.** Case analysis per segment; interpolation is linear. |
| C40 | proved | `LoadMatrix` | `PropertiesLoad` | **Loading a boundary matrix accepts exactly the documented format.** Induction over lines and tokens; acceptance is characterised both ways. |
| C41 | proved | `Function`, `Matrix` | `PropertiesFunction` | **Loading a function yields a filtered boundary matrix.** Stability of sorting: vertices before their edges. |
| C42 | proved | `Subcomplex` | `PropertiesComplex` | **Skeletons and filtered complexes are subcomplexes.** Filters keep the invariant and closure. |
| C43 | proved | `Perversity` | `PropertiesSmall` | **Perversities stay within their bounds.** Clamping. |
| C44 | proved | `Subcomplex` | `PropertiesComplex` | **Partitioning for phi-persistence is a stable split.** Stable split by filters. |
| C45 | proved | `TopDown` | `PropertiesTopDown` | **Subset enumeration visits every subset once.** Lexicographic order on position lists; successor function visits all subsets. |
| C46 | partial | `Envelope` | `PropertiesSmall` | **Envelope calculation stays inside its data.** False: the last abscissa makes the loop dereference `end()`. |
| C47 | proved | `Subcomplex` | `PropertiesComplex` | **The vertex set query reports all vertices.** List reasoning; needs closure. |
| C48 | proved | `TopDown`, `Rips` | `PropertiesTopDown` | **Top-down and bottom-up Rips expansion agree.** Both equal the set of cliques (C25, C45). |
| C49 | proved | `CliqueGraph` | `PropertiesCliqueGraph` | **Clique graphs connect k-simplices that share a facet.** Facet map; invariant over the loop. |
| C50 | proved | `Quantiles` | `PropertiesSmall` | **The median is the middle order statistic.** For every `nth_element` that meets the contract of the standard. |
| C51 | proved | `Subcomplex` | `PropertiesComplex` | **Vertex degrees count the simplices of positive dimension at a vertex.** Counting. |
| C52 | proved | `Subcomplex` | `PropertiesComplex` | **The n-degree counts top-dimensional cofaces.** Counting. |
| C53 | proved | `Matrix` | `PropertiesMatrix` | **Searching a persistence pairing.** Lookup in a list with unique keys. |
| C54 | proved | `Complex` | `PropertiesComplex` | **Equality of complexes is equality of filtrations as vertex sets.** Position-wise equality of lists. |
| C55 | proved | `Diagram`, `Matrix`, `Complex` | `PropertiesDiagram` | **Persistence diagrams of a filtered complex give the persistent homology of its sublevel sets.** C09, C17 and C19 together; sublevel sets are prefixes. |
| C56 | proved | `Function` | `PropertiesFunction` | **Functions converted to complexes are paths.** Direct construction. |
| C57 | proved | `TopDown` | `PropertiesTopDown` | **Top-down weights are maxima over faces of the skeleton.** Fold of maxima over faces. |
| C58 | proved | `Hausdorff` | `PropertiesHausdorff` | **Nearest neighbour distance averages the two one-sided sums.** Folds. |
| C59 | proved | `StepFunction` | `PropertiesStep` | **Step functions: insertion, evaluation, scalar operations and integral.** Invariants of the sorted set of intervals. |
| C60 | partial | `StepFunction` | `PropertiesStep` | **The sum of two step functions is pointwise.** False: `clean()` dereferences `end()` for every sum with an interval of positive length. |
| C61 | proved | `StepFunction` | `PropertiesStep` | **The integral of the persistence indicator function is the total persistence.** Integration of C38. |
| C62 | proved | `PiecewiseLinear` | `PropertiesLinear` | **Absolute value and integral of piecewise linear functions.** Zero crossings are inserted; integral by segments. |
| C63 | proved | `Wasserstein` | `PropertiesWassersteinMetric` | **The Wasserstein distance satisfies the triangle inequality.** Composition of optimal matchings through C35. |
| C64 | proved | `Combine` | `PropertiesCombine` | **for_each_combination visits every combination once.** Induction over the recursion of the rotations; the state of the function object is threaded. |
| C65 | proved | `Combine` | `PropertiesCombine` | **count_each_combination is the binomial coefficient or throws.** Divisibility of partial products; overflow check is exact. |
| C66 | proved | `Intersections` | `PropertiesIntersections` | **Intersections of a simplex with a complex.** Filtering by subset. |
| C67 | proved | `Intersections` | `PropertiesIntersections` | **The last lexicographical intersection.** Descending dimension loop, last match in lexicographic order. |
| C68 | proved | `Dowker` | `PropertiesDowker` | **Dowker source and sink complexes.** Admissible pairs; faces by C04. |
| C69 | proved | `Dowker` | `PropertiesDowker` | **The Dowker source complex of a matrix.** As C68 with distances from a parameter. |
| C70 | proved | `Dowker` | `PropertiesDowker` | **The Cech complex.** Combinations (C45) with early break; monotone radius. |
| C71 | proved | `VietorisRips`, `Rips` | `PropertiesVietorisRips` | **Vietoris-Rips complex of a point cloud.** C25 on the neighbourhood graph. |
| C72 | proved | `VietorisRips` | `PropertiesVietorisRips` | **Brute-force neighbour search.** Contract of `nth_element`. |
| C73 | proved | `Barycentric` | `PropertiesBarycentric` | **Barycentric subdivision.** Chains of simplices; invariant on the map from simplices to their subdivision. |
| C74 | proved | `VectorDistances` | `PropertiesVector` | **Distances of vectors and points.** Unrolled loops against sums; metric laws. |
| C75 | proved | `Norms` | `PropertiesNorms` | **Norms of persistence diagrams and extraction of persistence values.** Folds. |
| C76 | proved | `Statistics` | `PropertiesStatistics` | **Sample statistics.** Two-pass formulas against definitions over Q; covariance laws. |
| C77 | proved | `Mean`, `Munkres` | `PropertiesMean` | **Optimal pairings and the mean of persistence diagrams.** One round of the iteration: partners by C34, means of partners; the first diagram is a fixed point if all diagrams have the same points. |
| C78 | proved | `Curvature` | `PropertiesCurvature` | **Combinatorial curvature.** Counting with multiplicities; double counting of common faces and cofaces. |
| C79 | proved | `IntersectionHomology`, `Intersections`, `Perversity` | `PropertiesIntersectionHomology` | **Persistent intersection homology.** Twist on matrices that are not upper triangular (`TwistFacts.v`), pairing restricted to allowable columns (`AllowableFacts.v`), ranks of chains with allowable boundary. |
| C80 | proved | `Witness` | `PropertiesWitness` | **Witness complexes of landmarks.** Cliques and diameters of a weighted graph complex (`GraphComplexFacts.v`) applied to the relation of having a common witness. |
| C81 | proved | `Witness` | `PropertiesWitness` | **Max-min and random landmarks.** Invariant of the greedy selection; monotone radii; pigeonhole principle for the approximation and for distinctness. |
| C82 | proved | `PointSet`, `Hausdorff` | `PropertiesPointSet` | **Sum of minimum distances of persistence diagrams.** Kahan summation is exact; nearest points as for the Hausdorff distance. |
| C83 | proved | `Entropy` | `PropertiesEntropy` | **Entropies of persistence diagrams.** Finite sums of rational numbers with the logarithm as a parameter; integer division describes the cells; counting by induction. |
| C84 | proved | `StringUtilities`, `LoadMatrix` | `PropertiesString` | **String utilities.** Structural induction over strings; decimal representations from the standard library. |
| C85 | proved | `PointCloud`, `StringUtilities`, `LoadMatrix` | `PropertiesPointCloud` | **Point clouds.** The storage is the concatenation of rows of the same length; invariants of the loops over points and over lines; the round trip uses C84. |
| C86 | proved | `ReadMatrices`, `LoadMatrix`, `StringUtilities` | `PropertiesReadMatrix` | **Reading matrices as grids.** A relation between texts and lists of numbers; the loops as maps over cells; cliques of cells by cases on directions; orders by numbers of vertices. |
| C87 | proved | `ReadMatrices`, `LoadMatrix` | `PropertiesReadAdjacency` | **Reading adjacency matrices.** A lemma about complexes made of weighted graphs (`WeightedGraphFacts.v`); the loops as maps over pairs; totality for every text. |
| C88 | proved | `ReadMatrices`, `LoadMatrix` | `PropertiesReadAdjacency` | **Reading bipartite adjacency matrices.** As C87, with an invariant of the map from vertices to weights. |
| C89 | proved | `ReadEdges`, `LoadMatrix`, `StringUtilities` | `PropertiesReadEdges` | **Reading lists of edges.** Invariant of the loop over lines for the list of edges and the set of vertices; the labels are the first occurrences in the list of all labels; lexicographic order is a filtration. |
| C90 | proved | `Triangulations`, `ReadEdges`, `StringUtilities` | `PropertiesTriangulations` | **Reading lists of triangulations.** A grammar as an inductive relation between texts and lists; strong induction over the fuel, one character per iteration; a relation for lines that continue a block. Nontermination is proved for every amount of fuel. |
| C91 | proved | `ExtendedHierarchy`, `UnionFind` | `PropertiesExtendedHierarchy` | **Extended persistence hierarchies.** Specification over the list of vertices and edges (`ExtendedFacts.v`). Invariants: breadth-first search yields a tree of shortest paths (`SearchFacts.v`); tags (`ExtendedFacts.v`); union-find on interlevel sets (`InterlevelFacts.v`); adjacency lists (`PathFacts.v`); the walk back (`HierarchyFacts.v`); the main loop (`PropertiesExtendedHierarchy.v`). |
| C92 | proved | `CoverTree` | `PropertiesCoverTree` | **Cover trees.** Recursion over the tree; the three invariants are stated over all nodes reachable from the root (`CoverTreeFacts.v`). Raising the root: removing a leaf keeps the invariants and all points stay within twice the covering distance; the loop ends because the radius of the tree is bounded. The layers computed by the breadth-first checks are a permutation of all nodes. |
| C93 | proved | `CoverTree` | `PropertiesCoverTree` | **Harmonic points of cover trees.** The way down as an inductive relation; without duplicates at most one distance is zero, so the maximum is positive and the loop ends; the rebuilt tree by C92. |
| C94 | proved | `Mesh` | `PropertiesMesh` | **Meshes keep the faces they are given.** Invariant over the heap of half-edges: sources and targets are adjacent vertices of a face, the half-edges of a finished face form a cycle. All steps of `addFace` extend the mesh without changing half-edges of finished faces (`MeshFacts.v`). |
| C95 | proved | `Mesh` | `PropertiesMesh`, `PropertiesStar` | **Neighbours in meshes.** The same invariant. For the polygon: symbolic execution of all loops by invariants over the number of processed vertices (`PolygonFacts.v`). |
| C96 | proved | `Permute`, `Combine` | `PropertiesPermute` | **for_each_permutation visits every arrangement once.** Lists of calls are composed (`EnumerateFacts.v`): a function object that is itself an enumeration yields the concatenation of its calls. The algorithms commute with maps of the elements (`NaturalFacts.v`), so the calls for the positions 0, ..., n-1 determine those for every range (`TemplateFacts.v`). |
| C97 | proved | `Permute`, `Combine` | `PropertiesPermute` | **for_each_circular_permutation visits every circle once.** As C96; a rotation is determined by the position of the smallest element. |
| C98 | proved | `Permute`, `Combine` | `PropertiesPermute` | **for_each_reversible_permutation visits one of each arrangement and its reversal.** As C96; the calls are characterised by the positions of the first two elements (`ReversibleFacts.v`), which needs the calls of the combinations of two and three ranges (`Combine3Facts.v`). |
| C99 | proved | `Permute`, `Combine` | `PropertiesPermute` | **for_each_reversible_circular_permutation visits every necklace once.** From C98 for the elements after the smallest one. |
| C100 | proved | `Permute`, `Combine` | `PropertiesPermuteCount` | **The counting functions agree with the numbers of calls.** Partial products are monotone; the numbers of calls from the lists in the proofs of C96 to C99. |
| C101 | proved | `BetaSkeleton` | `PropertiesBeta` | **buildBetaSkeletonNaive connects the pairs with an empty lune.** Ball tests are compared with sums over coordinates; the list of edges by induction over rows and columns. |
| C102 | proved | `BetaSkeleton` | `PropertiesBeta` | **Beta-skeletons are nested, and connected below 2.** For Euclidean distances, membership in a lune is equivalent to two linear inequalities in the three squared distances; connectivity by induction over the squared distance of two points: a third point in the lune is nearer to both. |
| C103 | proved | `Bootstrap` | `PropertiesBootstrap` | **Bootstrap confidence intervals contain the demanded share of the replicates.** Counting in sorted lists; bounds for floor and ceiling; Kahan summation is exact over the rationals. |
| C104 | proved | `Laplacian` | `PropertiesLaplacian` | **The weighted Laplacian is that of the graph of edges.** The matrix after each simplex against the simplices so far, with all weighted sums over pairs; sums of squares vanish only if every edge has equal values at its ends. |
| C105 | proved | `Laplacian`, `Quantiles` | `PropertiesBisect` | **bisect returns two disjoint induced subcomplexes.** Stable partitions are filters; at most half of the values are smaller than the median. |
| C106 | proved | `HeatKernel`, `Laplacian` | `PropertiesHeat` | **The heat kernel solves the heat equation.** Orthonormal rows of a square matrix are orthonormal columns (left inverses are right inverses); derivatives of the exponential; the quadratic form of C104 bounds eigenvalues. |
| C107 | proved | `HeatKernel` | `PropertiesHeat` | **The sampling interval of the heat kernel is a geometric progression.** Logarithms and exponentials of the standard library. |
| C108 | proved | `RealDescriptors` | `PropertiesRealDescriptors` | **Eccentricities are power means and maxima of distances.** Roots and powers of the standard library; the Minkowski inequality by convexity of powers. |
| C109 | proved | `Descriptors`, `RealDescriptors` | `PropertiesDescriptors`, `PropertiesRealDescriptors` | **Density estimates.** The neighbours of C72 have the smallest sum; sums of exponentials. |
| C110 | proved | `Descriptors` | `PropertiesDescriptors` | **Lens depth counts lenses.** The counters after each triple against the triples so far. |
| C111 | proved | `Descriptors` | `PropertiesDescriptors` | **The correlation integral is the distribution function of the distances.** Counters in a sorted association list; prefix sums are cardinalities. |
| C112 | proved | `RealDescriptors` | `PropertiesRealDescriptors` | **The correlation dimension is the slope of the regression line.** The deviation from a line is a quadratic polynomial in both coefficients. |
| C113 | proved | `Descriptors` | `PropertiesMeanShift` | **Mean-shift smoothing forms weighted means.** Weighted means, by induction on the iterations. |
| C114 | proved | `Descriptors` | `PropertiesDimensionality` | **Nearest-neighbour estimates of the dimensionality.** Sums over the rationals; ascending distances bound the mean. |
| C115 | proved | `Descriptors` | `PropertiesDimensionality` | **Spectral-gap estimates of the dimensionality.** Invariant of the search for the largest gap. |
| C116 | proved | `RealDescriptors` | `PropertiesMLE` | **Maximum-likelihood estimates of the dimensionality.** Logarithms of ratios of ascending numbers are not negative. |
| C117 | proved | `Kernels` | `PropertiesKernels` | **The multi-scale kernel is positive semidefinite.** The Gaussian is positive semidefinite (power series of the exponential function, products of semidefinite kernels); mirror images are an isometry (`SemidefiniteFacts.v`). |
| C118 | proved | `Kernels` | `PropertiesKernels` | **Persistence-weighted Gaussian kernels.** Semidefiniteness as for C117; `atan` is monotonic. |
| C119 | proved | `MathReal` | `PropertiesMathReal` | **Kernel density estimates.** Sums over the samples; explicit antiderivative of the Epanechnikov kernel. |
| C120 | proved | `MathReal` | `PropertiesMathReal` | **Algebraic spheres.** Completing the square. |
| C121 | proved | `RandomGraph` | `PropertiesRandomGraph` | **Random graphs.** Invariants of the two nested loops; the pairs of vertices in the order of the trials. |
| C122 | proved | `MorseSmale`, `Mesh`, `UnionFind` | `PropertiesMorseSmale` | **Segments of the links of a mesh.** The loop performs a sequence of union-find operations whose merged pairs are the adjacent cyclic pairs; C21 and C95. |
| C123 | proved | `DiagramIO`, `StringUtilities` | `PropertiesRaw` | **Raw files of persistence diagrams.** Lines and words as in C84; the printed lines consist of two words. |
| C124 | proved | `DiagramIO`, `StringUtilities` | `PropertiesJSON` | **Persistence diagrams in JSON files.** Declarative grammar of JSON texts; the parser is shown to accept it by induction on the derivation; the output of `writeJSON` derives the expected object. |
| C125 | proved | `Sampling`, `PointCloud` | `PropertiesSampling` | **Samples of spheres and tori.** Trigonometric identities; invariant of the rejection loop: the angles belong to the accepted indices so far. |
| C126 | proved | `Filesystem`, `StringUtilities` | `PropertiesFilesystem` | **Parts of paths.** Decomposition of a list at the last occurrence of a character. |
| C127 | proved | `LinesAndPoints`, `Complex`, `DiagramIO` | `PropertiesLinesAndPoints` | **Complexes as lines and points.** Invariants of the two loops: the lines written so far, described by their words; induction for the exceptions. |
| C128 | proved | `FlexSpectrum`, `Simplex` | `PropertiesFlexSpectrum` | **Spectra as filtrations.** The comparison is a strict weak order; the sorted list is a permutation of the simplices of the path, and edges have smaller data than their vertices. |
| C129 | proved | `Pajek`, `StringUtilities`, `Complex` | `PropertiesPajek` | **Pajek files.** Regular expressions as languages with unique or longest decompositions; induction on the lines of the sections; sorted maps. |
| C130 | proved | `SparseAdjacency`, `Simplex`, `Complex` | `PropertiesSparseAdjacency` | **Graphs as sparse adjacency matrices.** First occurrences in the list of all vertices and edges determine the contents of the complexes; invariants of the two loops; the maps are positions in sorted lists. |
| C131 | proved | `Gml`, `StringUtilities`, `Complex` | `PropertiesGml` | **GML graphs.** The matching functions decide the languages of the expressions; induction on a grammar of files with an invariant of the parser; sorted sets of identifiers; the written lines are a file of the grammar. |
| C132 | proved | `Vtk`, `StringUtilities`, `Complex` | `PropertiesVtk` | **Structured grids in VTK files.** The matching functions decide the languages of the expressions; induction on the lines of the file; the nested loops yield one block of edges per point, and numbering the points is monotone. |
| C133 | proved | `Ply`, `Simplex`, `Complex` | `PropertiesPly` | **Triangulated surfaces in PLY files.** The lines of the header, the vertices and the faces are run by induction; the set of known edges corresponds to the edges among the simplices; the recalculated weights are maxima over vertices, hence monotone. |
| C134 | proved | `Hdf5`, `Simplex`, `Complex` | `PropertiesHdf5` | **Triangulated grids from HDF5 files.** The loops yield one block of cells per point; numbering points is injective, hence all cells are distinct; subsets of the corners of a cell are cells, and the cells are counted. |
| C135 | proved | `ComplexReader`, `Filesystem`, `Gml`, `Hdf5`, `Pajek`, `Ply`, `Vtk`, `ReadEdges` | `PropertiesComplexReader` | **Reading complexes of any format.** The extension of a path is determined by its ending after the last dot (C126); the cases of the selection are distinct; meshes by C133. |
| C136 | proved | `GraphMl`, `Gml`, `Pajek`, `StringUtilities`, `Complex` | `PropertiesGraphMl` | **Reading GraphML files.** Induction on the elements of the tree; dictionaries agree with the last data of each key; the sorted nodes are the unique ordered permutation, hence the index of an identifier is its position. |
| C137 | proved | `PointUtilities`, `StringUtilities` | `PropertiesPointUtilities` | **Points, checks of values, and formatted numbers.** Induction on the coordinates; the width lies between two powers of ten, decimal notations without leading zeros too; numerals of the same length are compared digit by digit. |
| C138 | proved | `Tikz`, `Simplex`, `Complex` | `PropertiesTikz` | **Complexes as TikZ pictures.** The text is that of a list of commands; the commands of the simplices are determined and found to be distinct; the set of vertices placed so far is carried along the list. |
| C139 | proved | `PrincipalComponents`, `SpecSvd` | `PropertiesPca` | **Principal component analysis.** The decomposition is specified by the product with orthonormal factors; norms of images follow from the orthogonality (Parseval, Bessel), extremal directions from the order of the singular values. |
| C140 | proved | `TangentSpace`, `SpecSvd`, `MathReal` | `PropertiesTangent` | **Tangent spaces and curvatures of point clouds.** Invariants of the loops; the least direction by the facts on decompositions; edges are processed in lexicographic order, hence the normal of the first point of an edge is final; the quadratic form of the normal equations is the weighted sum of squared polynomials. |
| C141 | proved | `StepNorm` | `PropertiesStepNorm` | **Step functions: absolute values, powers, norms and normalization.** All operations are shown to change the values of the stored list only; evaluation, sums of areas and the scaled values follow. |
| C142 | proved | `StepText`, `StepFunction` | `PropertiesStepText` | **Step functions are read as they are written.** Numbers are shown to be read back and to leave the rest of the line; induction over the lines. |
| C143 | proved | `Signatures`, `Diagram` | `PropertiesSignatures` | **Signatures and perversities of triangulations.** The vector of indices is a number in mixed radix, counted up by one; the numbers below (n+1)! correspond to the sequences. For the Euler characteristic, simplices of pairs cancel, and unpaired ones are counted by the Betti numbers. |
| C144 | proved | `StratifiedGraph` | `PropertiesStratified` | **Random stratified graphs and their filtrations.** The edges are described by induction over the strata; the lists of simplices are shown to be free of duplicates, hence the complex holds them in order. |
| C145 | proved | `StratifiedGraph` | `PropertiesStratifiedWeights` | **Weights of vertices and filtrations of stratified graphs.** Invariants of the loops over the edges and of the replacements; on the weights in question the comparisons agree with strict weak orderings. |
| C146 | proved | `StratifiedNormalization`, `RealDescriptors` | `PropertiesStratifiedNormalization` | **Normalization of the weights of a graph.** Extreme values by induction over the folds; sums over the edges for mean and variance; two different weights exclude divisions by zero. |
| C147 | proved | `DistanceMatrix` | `PropertiesDistanceMatrix` | **The matrix of pairwise distances.** The floor of the square root is characterised by triangular numbers, which yields row and column of the k-th pair; each iteration writes two entries that depend on its pair only, hence any order gives the same matrix. |
| C148 | proved | `DataSets` | `PropertiesDataSets` | **The assignment of files to data sets.** The regular expression is read from the end of the name; the map holds the first occurrences with their positions; induction over the files with the groups as filtered lists. |
| C149 | proved | `DiagramDistances`, `StepNorm`, `Wasserstein` | `PropertiesDiagramDistances` | **The choice and the calculation of distances between data sets.** Induction over the options; the sum over the dimensions, and injectivity of powers for the root. |
| C150 | proved | `Postprocess`, `Diagram`, `Filesystem` | `PropertiesPostprocess` | **Changes of diagrams before distances and statistics.** Induction over the points; the regular expression is that of C148 without the extension. |
| C151 | proved | `Functors`, `Components`, `UnionFind` | `PropertiesFunctors` | **Functors of zero-dimensional persistence, and relevant edges.** The loop is the fold of the calls over the list of events; invariant: the representatives are the first vertices of the components of the edges so far. Sizes are counted by the representatives. |
| C152 | proved | `CliqueCommunities`, `Functors`, `CliqueGraph` | `PropertiesCliqueCommunities` | **Clique communities.** The invariant of C151 with member lists; every vertex keeps the list of the events that count for it; induction over the dimensions. |
| C153 | proved | `StratifiedDiagrams` | `PropertiesStratifiedDiagrams` | **Diagrams of stratified graphs.** Folds yield the smallest absolute weight and the range of the data, which are unique; the maps are composed pointwise. |
| C154 | proved | `Glyph` | `PropertiesGlyph` | **Glyphs of persistence indicator functions.** Quotients of differences, and of differences of logarithms, are characterized by the ends of the bins; the histograms by an invariant over the points that have been processed; all points of evaluation are inside the range. |
| C155 | proved | `MakeSignature` | `PropertiesMakeSignature` | **Signatures of persistence diagrams.** The loops over pairs are the list of ordered pairs of positions; sorting yields the unique descending permutation; scaling commutes with differences, maxima and minima. |
| C156 | proved | `Diagram`, `Components` | `PropertiesLevels` | **Zero-dimensional diagrams count components.** Prefixes of the complex are complexes whose boundary matrices are prefixes; unpaired creators of a prefix are creators that are not destroyed in it; C23 applied to the prefix. |
| C157 | proved | `FunctionAnalysis`, `Function`, `Diagram` | `PropertiesFunctionAnalysis` | **Analysis of functions.** The complex is a path (C56); vertices are all creators, edges create nothing that is reported; C156 with intervals for components of paths. |
| C158 | proved | `SparseTool`, `Rips`, `FloydWarshall`, `Diagram` | `PropertiesSparseTool` | **Degree filtrations of graphs.** Degrees are reported for the vertices in ascending order (C51); data is a fold over the vertices of a simplex; C55 for the sorted complex; files are tabulated by dimension; C29 for centrality. |
| C159 | proved | `Diagram`, `Complex`, `Matrix` | `PropertiesDiagramDims` | **Dimensions of persistence diagrams.** The first simplex of dimension d+1 has a non-empty column that no column to its left can change in rows of dimension d, so that it destroys a feature of dimension d; creators of the largest dimension form a basis of cycles (C16). |
| C160 | proved | `ImagePatches` | `PropertiesImagePatches` | **Processing of image patches.** Finite sums over the grid, every pair of neighbours once horizontally and vertically; homogeneity of the norm; rank of the threshold in the sorted list; truncated sums are sums of integer parts. |
| C161 | proved | `BettiNumbers` | `PropertiesBettiNumbers` | **First Betti numbers of a sequence of graphs.** Maximal runs of characters for the expression; sorted association list for the map; C55 and C159 for the Betti number, the Euler characteristic of C143 and the components of C156 for the number of loops. |
| C162 | proved | `ConnectivityTools` | `PropertiesConnectivity` | **Diagrams of connectivity matrices.** C87 for the reader; components of C156 at the level of all simplices; one point per vertex because vertices are the creators of dimension 0; C124 for the document. |
| C163 | proved | `ConnectivityTools` | `PropertiesConnectivity` | **Ephemeral diagrams: both filtrations of a connectivity matrix.** Sublevel graphs of C156 at every level; the indexing assertion follows from C159; induction over files for the map of diagrams. |
| C164 | proved | `GraphTool` | `PropertiesGraphTool` | **Degree filtrations of graphs in graph_analysis.** Degrees are those of C51 and C158; C25 and C27 for expansion and weights; C55 for persistent ranks; the edge-list reader of C89 for the degrees of edge lists. |
| C165 | proved | `PointCloudTools`, `VietorisRips`, `Hausdorff` | `PropertiesPointCloudTools` | **Distributions of distances and degrees of point clouds.** Lexicographic enumeration of pairs by induction; C72 for neighbours; C58 for the sums; JSON grammar of C124. |
| C166 | proved | `PointCloudTools`, `VietorisRips`, `Diagram` | `PropertiesPointCloudTools` | **Diagrams of data descriptors of point clouds.** Affine maps over Q; C71 for the complex; C55 and C159 for the diagrams; destruction values are values of simplices or infinity; JSON grammar of C124. |
| C167 | proved | `InterlevelTool`, `ExtendedHierarchy`, `UnionFind`, `Diagram` | `PropertiesInterlevelTool` | **Output of interlevel set persistence hierarchies.** C91 for pairs and edges; every vertex is merged at most once or eldest (induction over the filtration); C19 for the diagram; C21 for the classes. |
| C168 | proved | `CommunitiesJSON`, `CliqueGraph`, `Components`, `UnionFind`, `Rips` | `PropertiesCommunitiesJSON` | **Clique communities in JSON documents.** C25, C26 for the complex; C49, C21, C22 for the classes of the clique graph, transferred to simplices by induction over chains; grammar derivations for the document (induction over levels). |
| C169 | proved | `IntersectionTool`, `IntersectionHomology`, `Barycentric`, `Intersections`, `Perversity`, `Diagram` | `PropertiesIntersectionTool` | **The tool for persistent intersection homology.** C79 (rank formula for intersection Betti numbers) instantiated with the strata of the tool; C73 and C07 for the subdivision; the filter that throws is reduced to the pure one where values suffice. |
| C170 | proved | `NetworkExample`, `CommunitiesJSON`, `Rips`, `Diagram` | `PropertiesNetworkExample` | **The example for the analysis of networks.** C25-C27 for the expansion and its weights; loops over replaced simplices as in C164, C168; C55 and C159 for the reports. |
| C171 | proved | `SpectralTool`, `FlexSpectrum`, `Components` | `PropertiesSpectralTool` | **The analysis of spectra.** C151 for the events of the calculation; on a path, two lines are linked iff all edges between them are present, so that the destroyer of a line is its highest pass. |
| C172 | proved | `MultiScale`, `BetaSkeleton`, `HeatKernel` | `PropertiesMultiScale` | **Multi-scale skeletons.** Loop invariant for degrees and sums; C101 and C102 for the skeleton, in which every point has its nearest point as a neighbour; C106 for the decrease in time. |
| C173 | proved | `IndicatorTool`, `StepFunction`, `StepText`, `Filesystem` | `PropertiesIndicatorTool` | **Files with persistence indicator functions.** Invariant of the files written so far; C38 for the functions, C126 for the names. For the mean: every sum with two points in its domain contains an interval of positive length, for which `clean()` leaves the container. |
| C174 | proved | `Spine`, `Complex`, `Matrix`, `SpecSimplicial` | `PropertiesSpineHomology` | **Spines have the homology of their complexes.** Chains are functions on vertex lists. A linear bijection relates them to the chains of the boundary matrix (C09), which yields existence and uniqueness (C16, C17) and the square of the boundary being zero. An elementary collapse of t in s leaves cycles and boundaries as they are except in the dimension of t, where both gain the boundary of s. Induction over the collapses of C31. |
| C175 | proved | `SpineTool`, `Tikz`, `Dowker`, `Spine` | `PropertiesSpineTool` | **The text of complexes and the tool for spines.** Texts: numbers end at characters which they do not contain, so equal texts are equal piece by piece. The tool: C70 for the complex, C31 and C174 for the spine, C138 for the pictures. |
| C176 | proved | `Quotient`, `Subcomplex`, `SpecSimplicial` | `PropertiesJoinHomology` | **The homology of cones, suspensions and skeletons.** Chains of a join with one or two new vertices split into a part without and parts with each new vertex; cycles and boundaries are computed part by part, with the augmentation in dimension zero. Dimensions follow from bases that are put together. Skeletons have the same chains up to dimension k, hence the same cycles up to k and the same boundaries below k. |
| C177 | proved | `WickedTool`, `Triangulations`, `Signatures`, `IntersectionHomology`, `Barycentric`, `Complex` | `PropertiesWickedTool` | **The tool for wicked triangulations.** C90 for the file; createMissingFaces and sorting keep reachability and generate the closure (ClosureFacts); C143 and C174 for the Betti numbers and the Euler characteristic; C143 for the perversities, C73 for the subdivision. The text: loops over numbered elements are lists of lines. |
| C178 | proved | `Diagram`, `Matrix`, `SpecSimplicial` | `PropertiesSublevel` | **Persistence diagrams describe the homology of all sublevel complexes, and nothing else.** Chains of an initial part of the filtration are those of the complex that vanish elsewhere, and the boundary is the same; this relates them to the boundary matrix (C174) and hence to the pairing (C17, C55). The multiplicity of a point is an alternating sum of four numbers of points that are alive, each of which is a rank and does not mention the order. |
| C179 | proved | `ImageTool`, `ReadMatrices`, `Diagram`, `DiagramIO` | `PropertiesImage` | **The example for images describes the components and holes of an image.** The data of a simplex are the maximum (minimum) over its cells (C86), so that parts of the image are sublevel (superlevel) complexes, and sorting gives a filtration. C159 gives the number of diagrams, C178 the ranks; in dimensions below that of the complex leaving out creators of the largest dimension changes nothing. |
| C180 | proved | `PlyTool`, `Ply`, `Diagram`, `DiagramIO` | `PropertiesPlyTool` | **The example for meshes describes the sublevel sets of a mesh.** C133 gives the complex: closed, sorted by the maximum over vertices, hence parts of the mesh are sublevel complexes; then as for C179. The refutation evaluates the program on the file of C133_hypotheses and compares with the Betti number of the edge that is the superlevel set. |
| C181 | proved | `VtkTool`, `Vtk`, `Diagram`, `DiagramIO` | `PropertiesVtkTool` | **The example for structured grids describes the components of a grid.** As C179, with the graph and the values from C132. |
| C182 | proved | `RipsTool`, `VietorisRips`, `Diagram`, `DiagramIO` | `PropertiesRipsTool` | **The example for Vietoris-Rips complexes describes the homology at all scales.** As C179, with the complex and the values from C71; homology of low dimensions is that of skeletons (as in C176); the divisor of the normalisation is a running maximum over all pairs. |
| C183 | proved | `WitnessTool`, `RipsTool`, `Witness`, `Diagram`, `DiagramIO` | `PropertiesWitnessTool` | **The example for witness complexes describes their homology at all scales.** As C182, with the complex and the values from C80 and the landmarks from C81. |
| C184 | proved | `EccentricityTool`, `RipsTool`, `VietorisRips`, `Complex`, `Diagram`, `DiagramIO` | `PropertiesEccentricityTool` | **The example for eccentricities describes sublevel and superlevel complexes.** As C182, with the complex and the values from C71, the recalculated weights from C07, the star filtrations from C08 and superlevel complexes from C178; the transformation by induction for the extrema and arithmetic of rational numbers. |
| C185 | proved | `ConfidenceBand`, `Bootstrap`, `PiecewiseLinear` | `PropertiesConfidenceBand` | **The confidence band of piecewise linear functions is the narrowest one that contains enough replicates.** Means by induction over the sums of C39; the supremum of the absolute difference from C39 and C62 bounds the difference at every point; the quantile from C103 counts replicates. |

## 4. Not modelled

* Floating point rounding, NaN and infinities (exact `Z` or `Q` instead, stated
  per theorem); overflow of indices; failure of memory allocation; the file
  system (texts are sequences of characters); template instantiation; parallel
  pragmas; log output.
* Code that depends on Eigen, FLANN, Miniball or boost graph, apart from the
  calls listed as parameters above.
* `topology/representations/Heap.hh`: its `const` member `getMaximumIndex` calls
  `std::pop_heap` on a const vector, so it cannot be instantiated.
* Headers that no row of the table in §6 names.


## 5. Findings

Each is proved of the model by the theorem named; the statement that fails is
the documented or the natural one.

* C05 (`C05_face_weights_refuted`): `createMissingFaces` gives a face the weight
  of the first coface it meets, which may be larger than that of another coface.
* C06 (`C06_not_closed_refuted`): `remove` leaves cofaces behind if the complex
  is not closed.
* C09 (`C09_missing_faces_refuted`): a face that is not stored enters the
  boundary matrix as simplex 0.
* C10, C11 (`C10_duplicates_refuted`, `C11_duplicates_diverge_refuted`): columns
  with repeated indices behave differently per representation, and `Standard`
  need not terminate on them.
* C20: `calculatePersistenceDiagram` always throws `out_of_range` for functions
  with at least two values.
* C22 (`C22_not_closed_refuted`): the program is terminated for complexes that are
  not closed, because a `noexcept` function throws.
* C26 (`C26_negative_refuted`): negative edge weights give simplices of weight 0.
* C27 (`C27_missing_values`): too few values are an out-of-bounds read.
* C28, C29: an edge without stored vertices raises `out_of_range`.
* C30: for complexes that are not closed, the cone vertex may be in use already.
* C31: for complexes that are not closed, `spine` raises `out_of_range`.
* C32: the Euler characteristic omits the largest dimension.
* C35 (`C35_integer_power_refuted`): for integral types and powers from 2 on the
  root is `pow(x,0)`, so that equal diagrams have distance 1.
* C37: the bottleneck distance is not symmetric, depends on the order of points,
  can be zero for different diagrams, too large, and undefined for empty diagrams.
* C38: a diagonal point at a negative smallest value terminates the program;
  points on both sides of the diagonal wrap an unsigned counter.
* C39: for functions with different domains the sum is not pointwise and equality
  is wrong; division by zero terminates the program (`noexcept`).
* C40: an indented comment raises `invalid_argument`; a line of dimension 0 with
  one index is accepted.
* C41 (`C41_reused_matrix_refuted`): loading into a used matrix can keep stale
  dimensions.
* C43: dimension 0 (and 1 for `PerversityGM`) is an out-of-bounds read where the
  documentation promises 0; the documented `p_2=0` is not established.
* C46: `Envelope` dereferences `end()` for every diagram that keeps a point.
* C47, C51: `vertices()` and `degrees()` do not agree with their documentation for
  complexes that are not closed and for isolated vertices.
* C50: the median of an empty range is an out-of-bounds read.
* C58: an empty diagram contributes `max()` per point of the other one.
* C59: the value of largest absolute value is not taken for negative values;
  division gives 0 for integral types; `IndicatorFunction::operator/=` calls itself
  for ever; an inverted interval terminates the program; overlapping intervals are
  ignored silently.
* C60: the sum of step functions dereferences `end()`.
* C61 (`C61_integer_refuted`): for integral types the persistence indicator function
  loses area.
* C62 (`C62_sum_refuted`, `C62_scalar_refuted`): absolute value and integral can be
  wrong after `f+g` and `f+c`.
* C66 (`C66_constrained_refuted`, `C66_empty`): `intersectWithConstrainedDimension`
  misses faces; the empty simplex terminates the program.
* C70: the early break needs a radius that is monotone.
* C71: the brute-force neighbourhood uses a strict comparison.
* C72 (`C72_too_many`): more neighbours than points are undefined behaviour.
* C73 (`C73_dimension_refuted`): the functor gets the number of vertices where the
  documentation says dimension; a missing face raises `runtime_error`.
* C74 (`C74_hamming_accum_refuted`, `C74_bound_refuted`): `Hamming::accum_dist` is the
  Manhattan distance; `Euclidean` ignores the bound.
* C76 (`C76_covariance_sizes_refuted`): ranges of different sizes are not rejected if
  one has fewer than two values.
* C77 (`C77_dimension_refuted`): `mean` always throws for diagrams of a dimension
  other than 0; equality of pairings compares costs only.
* C78 (`C78_self_refuted`, `C78_wrap_refuted`, `C78_not_closed_refuted`,
  `C78_absolute_refuted`): a simplex without coface is its own parallel neighbour;
  negative curvature wraps; `weightedCurvature` dereferences `end()` on complexes
  that are not closed and takes the absolute value of the sum.
* C79 (`C79_rejected`, `C79_too_few_strata`): an empty stratum is rejected because the
  check looks at the complex; missing strata are not noticed by the checks.
* C80 (`C80_nu`, `C80_missing_landmark`, `C80_threshold_refuted`): `nu` above the number
  of landmarks throws or is undefined (the default `nu = 2` throws for one landmark);
  landmarks are not checked; data is not the smallest threshold of an edge.
* C81 (`C81_none`, `C81_random`): `generateMaxMinLandmarks` returns one index for
  `n = 0`, outside of the container if it is empty; too many random landmarks are
  undefined.
* C82 (`C82_triangle_refuted`, `C82_integral_refuted`): the sum of minimum distances is
  not a metric; it is always zero for integral types.
* C83 (`C83_diagonal_refuted`, `C83_area`, `C83_single`, `C83_grid_constant_refuted`,
  `C83_grid_empty`, `C83_grid`): `persistentEntropy` is NaN for diagrams with a point on
  the diagonal or without partner; `nearestNeighbourAreaEntropy` is undefined for a
  single point; `gridEntropy` is undefined if all births are equal (dimension zero) and
  rotates the points twice, so that its grid is parallel to the axes again.
* C84 (`C84_overflow_refuted`, `C84_convert`): `convert` reports success for numbers that
  are too large, and for numbers that are followed by other text.

* **C85** `load` of a point cloud allocates one point per newline character, less the
  lines that are skipped. A last line that is not terminated is therefore one point
  too many: `set` throws `Invalid index`. If it is the only line, the cloud is empty
  and nothing is reported (`C85_last_line_refuted`).
* **C85** A line that starts with a separator such as `,` has an additional first
  coordinate `T()` (`C85_example`).
* **C86** The documentation of `MatrixReader` permits empty lines and says that lines
  starting with `#` are ignored. An empty line counts as a row with one token and is
  rejected unless the width is one (`C86_empty_line_refuted`); a comment is counted as a
  row, and no values are read after it (`C86_comment_refuted`). For an empty file the
  numbers of rows and columns minus one wrap around, and `at` throws.
* **C87** The same documentation for adjacency matrices: comments are skipped when rows
  are counted, but they end the reading of values. A file that starts with a comment
  leaves the complex unchanged without an error (`C87_comment_refuted`).
* **C87** "All simplicial complexes created by this class will be reported in filtration
  order" is false for `AssignGlobalMaximum`, for `AssignZero` with negative weights, and
  for the example of the documentation, a functor that negates weights, with the default
  strategy (`C87_order_refuted`).
* **C88** For bipartite adjacency matrices, all lines are counted. An empty line after
  the 2-by-3 matrix of the documentation makes it a 3-by-2 matrix, without an error
  (`C88_lines_refuted`). Zeros are edges, contrary to the documentation
  (`C88_zero_refuted`). With `setAssignMinimumAbsoluteVertexWeight` and negative
  weights, vertices come after their edges (`C88_absolute_refuted`).
* **C89** `EdgeListReader` keeps its labels between calls but counts from zero in every
  call. With a second file, a new label gets the number of an old one
  (`C89_second_file_refuted`).
* **C89** Only the first token of a line decides whether it has numbers or labels. A
  label after a number becomes vertex 0, and numbers and labels share vertices
  (`C89_mixed_refuted`). Without trimming, a leading space adds the vertex 0, and the
  first vertex becomes the second (`C89_untrimmed_refuted`).
* **C90** `LexicographicTriangulationReader` does not terminate for `a=[1,2,3]`, `x=5`,
  `m=[[1];[2]]`, and for every other text with a character between simplices that is no
  bracket, comma or white space (`C90_loop_refuted`, `C90_nontermination_refuted`).
* **C90** If the list begins in the line after its name, an empty complex is reported for
  every line (`C90_next_line_refuted`). A text such as `m=][[1]` dereferences the end of
  the block (`C90_end_refuted`). An unterminated last block is dropped.
* **C91** The pairing of the extended persistence hierarchy refers to indices of the
  one-skeleton: in a filled triangle followed by a vertex, the vertex is reported as 6,
  the index of the triangle (`C91_indices_refuted`). The edges of the hierarchy contain
  vertices, although they are documented as indices of the original complex
  (`C91_edges_refuted`).
* **C92** `points`, `getNodesByLevel` and `isValid` dereference a null pointer for an empty
  cover tree (`C92_empty_refuted`). A distance without the triangle inequality yields trees
  that violate the covering invariant (`C92_triangle_refuted`).
* **C93** `CoverTree::isHarmonic` does not terminate for a tree that contains the point
  twice at the top (`C93_duplicates_refuted`). In other trees with duplicates, points are
  lost (`C93_lost_refuted`). The query replaces the tree, even if its result is `true`
  (`C93_query_refuted`).
* **C94** `Mesh::faces` and `Mesh::numFaces` consider one face per vertex: of the eight
  triangles in the third test of the project, four are reported (`C94_count_refuted`).
  `numConnectedComponents` considers one edge per vertex and reports 2 for a connected
  mesh (`C94_components_refuted`). All of these functions dereference a null pointer if a
  vertex belongs to no face (`C94_isolated_refuted`). After a vertex with a given ID, a
  vertex without one gets the same ID, which throws (`C94_id_refuted`).
* **C95** `Mesh::link` and `Mesh::hasEdge` dereference a null pointer for the boundary of a
  tetrahedron, and for three triangles around a vertex (`C95_tetrahedron_refuted`,
  `C95_disk_refuted`): once the vertex is surrounded, the boundary is no longer linked.
  For two triangles that share a vertex, `hasEdge` misses edges (`C95_shared_refuted`).
  The stars of vertices on the boundary lack faces or are empty (`C95_star_refuted`).
* **C99** `for_each_reversible_circular_permutation` increments the start of an empty range
  for `k = 0` (`C99_empty_refuted`); the other algorithms make one call for the empty
  arrangement.
* **C102** `buildBetaSkeletonNaive` uses closed lunes. For `beta = 2`, the vertices of an
  equilateral triangle have no edges (`C102_triangle_refuted`). A point that occurs twice is
  separated from the others for `beta >= 1` (`C102_duplicate_refuted`), and three copies of a
  point are isolated for every `beta` (`C102_triple_refuted`).
* **C103** The confidence intervals of `Bootstrap` do not check `alpha`. For `alpha = 0`, or
  without samples or data, they throw `std::out_of_range` (`C103_throws`); for negative values,
  a conversion is undefined (`C103_conversion_refuted`).
* **C104** `pinvWeightedLaplacianMatrix` computes `1 / n` with integers, so that it inverts the
  singular Laplacian for `n >= 2` (`C104_pinv_refuted`).
* **C105** The first complex of `bisect` can be empty for a connected graph, since coefficients
  may be equal to the median (`C105_empty_refuted`).
* **C106** The product of `HeatKernel::determinant` starts at 0 (`C106_determinant_refuted`);
  `operator()( t )` adds matrices of different sizes (`C106_all_refuted`).
* **C107** `logarithmicSamplingInterval` is not finite for one sample (`C107_single_refuted`) and
  after `setSkip( true )` (`C107_skip_refuted`), and reads out of range for one vertex
  (`C107_vertex_refuted`).
* **C108** `eccentricities` dereferences the end of an empty vector for order 0 and one point
  (`C108_single_refuted`).
* **C109** `estimateDensityTruncatedGaussian` divides the squared distance by the bandwidth
  instead of its square: doubling all distances and the bandwidth changes the densities
  (`C109_scale_refuted`). Bandwidth 0 gives no finite density (`C109_bandwidth_refuted`). The
  documentation states that closer points are ignored. `estimateDensityDistanceToMeasure` is
  undefined for more neighbours than points (`C109_measure_refuted`).
* **C112** The correlation dimension of fewer than two samples is not finite
  (`C112_short_refuted`).
* **C113** `meanShiftSmoothing` sets the values beyond the number of points to 0
  (`C113_longer_refuted`). Neighbours at distances below 1 weigh more than the point itself
  (`C113_weight_refuted`).
* **C114** The nearest-neighbour estimator for a range ignores the last of the `kMax`
  neighbours (`C114_last_refuted`), and is not finite for `kMax <= kMin + 1`
  (`C114_narrow_refuted`); the other one is not finite for `k = 0` (`C114_zero_refuted`).
* **C115** `estimateLocalDimensionalityPCA` omits neighbourhoods with fewer than two singular
  values, so that the estimates do not belong to the points in order
  (`C115_missing_refuted`).
* **C116** The maximum-likelihood estimator counts the two missing estimates for `kMin = 1` in
  the denominator: estimates are too small by the factor `( kMax - 2 ) / kMax`
  (`C116_small_refuted`).
* **C117** The smoothing parameter of the multi-scale kernel is missing from the exponents: it
  only scales the kernel (`C117_sigma_refuted`).
* **C118** `pseudoMetric` of `KernelEmbedding.hh` evaluates the kernel at `( D, E )` three times
  and is 0 for all diagrams (`C118_metric_refuted`), so that `gaussianKernel` is always 1
  (`C118_gaussian_refuted`).
* **C119** A density estimate without samples divides by 0 (`C119_empty_refuted`).
* **C120** `AlgebraicSphere::centre` returns the centre with the wrong sign
  (`C120_centre_refuted`).
* **C121** `generateWeightedRandomGraph` does not terminate for probability 1
  (`C121_loop_refuted`).
* **C122** `MorseSmaleComplex` applies `std::next` to the end of an empty vector for strict local
  extrema, also in the test of the project (`C122_extremum_refuted`); regular vertices are
  reported as saddles (`C122_regular_refuted`).
* **C123** Raw files: words that are no numbers are read as 0 although errors should throw
  (`C123_garbage_refuted`), indented comments are read as points (`C123_comment_refuted`), lines of
  spaces throw (`C123_blank_refuted`).
* **C124** The output of `writeJSON` cannot be read by `readJSON` (`C124_alone_refuted`); strings
  are not escaped (`C124_quote_refuted`); a key `size` shadows the size (`C124_key_refuted`);
  strings that are no numbers are read as 0 (`C124_garbage_refuted`); missing members violate
  assertions of RapidJSON (`C124_assert_refuted`).
* **C125** For tori with `r > R`, the density of the angles leaves the range of the second draw
  (`C125_density_refuted`).
* **C128** Spectra: a single line is not normalised (`C128_single_refuted`), the maps keep values of longer
  files read before (`C128_reuse_refuted`), a negative sum yields no filtration
  (`C128_negative_refuted`).
* **C129** Pajek files: the labels of `SimplicialComplexReader` are not in the order of the vertices if
  there are ten or more, or if a label is empty (`C129_labels_refuted`); empty lines are undefined or
  throw (`C129_blank_refuted`); a graph without labels and edges has no vertices
  (`C129_isolated_refuted`); `1 2.5` is an edge from 1 to 2 (`C129_accepted_refuted`); negative
  weights and coordinates are rejected (`C129_rejected_refuted`).
* **C130** Graphs as sparse adjacency matrices: nodes without edges are missing
  (`C130_isolated_refuted`); with non-contiguous graph identifiers, graphs get labels of others
  (`C130_label_refuted`); reading without labels throws `std::out_of_range` (`C130_no_labels_refuted`);
  nodes without graph go to the first graph (`C130_foreign_refuted`).
* **C131** GML graphs: negative weights are read as 0 (`C131_negative_refuted`); data of vertices are
  written but not read (`C131_vertex_data_refuted`); labels cannot be written with a vertex 0
  (`C131_vertex_zero_refuted`); nested records such as `graphics` lead to undefined behaviour
  (`C131_nested_refuted`); distinct identifiers may yield one vertex (`C131_distinct_refuted`); labels
  follow the identifiers as text (`C131_label_order_refuted`); weighted edges to unknown identifiers are
  accepted (`C131_unknown_refuted`).
* **C132** VTK files: a blank line, even before the point data, is read as a value 0 and shifts all data
  (`C132_blank_line_refuted`); a declaration of scalars whose name has an underscore is read as values
  (`C132_name_refuted`), as is a number of point data followed by white space, such as a carriage return
  (`C132_carriage_return_refuted`); points of type `unsigned_int` are never read
  (`C132_unsigned_refuted`), and the size of unknown types is indeterminate
  (`C132_unknown_type_refuted`); with too few values, the data of edges are used for points and edges
  lead to vertices that do not exist (`C132_few_values_refuted`); the number of points is not compared
  with the dimensions (`C132_number_of_points_refuted`).
* **C133** PLY files: binary files lead to undefined behaviour because sizes of lists are not initialised
  (`C133_binary_refuted`); types with the number of bits in their names are mostly unknown
  (`C133_types_refuted`); faces declared before vertices shift the positions of properties
  (`C133_order_refuted`), and lines of other elements are not skipped (`C133_elements_refuted`); a
  truncated file is accepted if its last line has no end (`C133_truncated_refuted`); faces with repeated
  vertices lead to undefined behaviour and indices of vertices are not checked (`C133_face_refuted`);
  a negative number of vertices wraps around modulo 2^64 (`C133_negative_refuted`).
* **C134** HDF5 fields: the number of rows is used as the length of a row, so that fields that are not
  square are cut into wrong rows (`C134_rectangle_refuted`).
* **C135** `SimplicialComplexReader`: the functor is ignored for all formats but VTK
  (`C135_functor_refuted`); labels of a previous file remain (`C135_labels_refuted`), and the first label
  need not belong to the vertex 0 (`C135_index_refuted`); complexes of edge lists are neither monotone nor
  sorted, contrary to the documentation (`C135_sorted_refuted`); endings are compared literally
  (`C135_case_refuted`); a VTK file without the expected header is not reported (`C135_silent_refuted`).
* **C136** `GraphMLReader`: unless the weights of edges are switched off, the functor is never used
  (`C136_functor_refuted`), so that the edges of graphs with weighted nodes have weight zero
  (`C136_monotone_refuted`); files without XML declaration, missing files (`C136_declaration_refuted`) and
  data without text (`C136_empty_data_refuted`) lead to undefined behaviour; vertices follow the
  lexicographic order of the identifiers (`C136_order_refuted`); duplicate identifiers are accepted and
  mix up weights (`C136_duplicate_refuted`); edges at nodes without weight throw
  (`C136_missing_weight_refuted`); valid files are rejected (`C136_valid_refuted`); the names of attributes
  are identifiers of keys (`C136_names_refuted`).
* **C137** `Point::operator==` reads past the end of a second point of smaller dimension and accepts prefixes
  (`C137_symmetry_refuted`); `format` is undefined for the maximum zero and fills before the sign
  (`C137_format_refuted`).
* **C138** the TikZ writer draws lines at names that are never placed if a complex lacks its vertices
  (`C138_placed_refuted`), reads past the end of a container that is too short
  (`C138_container_refuted`), and by default does not distinguish a filled triangle from its boundary
  (`C138_triangle_refuted`).
* **C139** the principal component analysis divides by the number of columns instead of the number of rows,
  so that squared singular values are no variances (`C139_variance_refuted`; in the only test of the project
  the number of columns is the number of rows minus one, where both agree); rows that are shorter than the
  first one are read past their end (`C139_ragged_refuted`).
* **C140** the centroid of the neighbours is calculated with the number of all points, so that normals depend
  on the position of the origin and can be parallel to a line (`C140_normal_refuted`); orientations are not
  propagated consistently (`C140_orientation_refuted`); the sphere belongs to the first positive eigenvalue
  instead of the smallest one (`C140_choice_refuted`); the farthest neighbour has weight zero
  (`C140_farthest`).
* **C141** `StepFunction::integral_p` is the norm of the vector of areas, not of the function, unless the exponent
  is 1 (`C141_norm_refuted`); `normalize` leaves functions with one value unchanged (`C141_single_refuted`),
  and takes 0 for the minimum, such that negative values leave the range or throw
  (`C141_negative_refuted`).
* **C142** the reader of step functions gets out of step at a line between the two lines of an interval
  (`C142_comment_refuted`), and ends the program at an inverted interval (`C142_inverted_refuted`).
* **C143** (`C143_dimension_zero_refuted`): `getPerversities(0)` in wicked_triangulations.cc subtracts one from an unsigned zero and throws `std::out_of_range`, hence the tool ends for complexes without edges.
* **C144** random stratified graphs connect consecutive strata only (`C144_every_other_refuted`), lose vertices beyond
  65536 (`C144_many_vertices_refuted`); `makeUpperFiltration` discards the sorted complex (`C144_upper_refuted`); `merge`
  compares the dimension with that of the new diagram instead of the second one (`C144_merge_refuted`).
* **C145** the comparisons of the absolute filtration violate the requirements of `std::sort`
  (`C145_comparison_refuted`, `C145_absolute_weights_refuted`).
* **C146** `minmax` takes only the weights of edges to [-1,1], not those of vertices
  (`C146_range_refuted`); if all edges have the same weight, the tool stops for every strategy
  (`C146_equal_refuted`).
* **C147** the diagonal of a matrix of kernel values is zero, hence the matrix is not positive
  semidefinite (`C147_kernel_refuted`).
* **C148** files of a data set with the letters d and k, or with numbers that agree modulo 2^32,
  share a dimension, and all but the first are ignored (`C148_dimensions_refuted`).
* **C149** `-h` has no effect after `-b` (`C149_last_refuted`); after `-S` all distances are
  negated (`C149_kernel_refuted`); a root is taken of Wasserstein and bottleneck distances, which
  are no powers (`C149_root_refuted`); a missing diagram of positive dimension makes the
  Wasserstein distance throw (`C149_missing_refuted`).
* **C150** the normalization of diagrams computes the new coordinates and returns the old ones
  (`C150_normalize_refuted`); the factor for unpaired points puts them below the diagonal if
  coordinates are negative (`C150_negative_refuted`); the extension is removed twice from a name
  (`C150_names_refuted`).
* **C151** labels that do not cover all vertices end `relevant_edges` with an exception
  (`C151_labels_refuted`).
* **C152** without `--ignore-empty`, a maximum dimension above that of the largest clique
  suppresses the output of all dimensions (`C152_maximum_refuted`).
* **C153** the normalization of diagrams in `stratified_graph_analysis` does not yield
  coordinates in [0,1] if weights are negative (`C153_unit_refuted`).
* **C154** `persistence_indicator_function_glyph` converts a value that is not finite to an
  index if the domain starts at or below zero (`C154_zero_refuted`); the announced logarithmic
  bins are not those of the histogram (`C154_log_ends_refuted`); columns are exchanged with
  respect to the documentation (`C154_print_refuted`).
* **C155** `make_signature` ends with `std::length_error` if a diagram is empty, for example
  because all points have been filtered (`C155_empty_refuted`).
* **C157** `function_analysis` ends with an exception if a line has a single value
  (`C157_short_refuted`).
* **C158** `sparse_adjacency_matrices`: `--superlevel` sorts by `std::less`, so that an edge precedes one of
  its vertices and features are destroyed before they are created (`C158_superlevel_refuted`);
  `--dimension` has no effect, because the expanded complexes are discarded (`C158_dimension_refuted`);
  with `--sum`, unpaired points are written with a destruction value that may equal their creation value
  (`C158_sum_refuted`); a graph without edges ends the calculation (`C158_empty_refuted`), and isolated vertices
  are read out of bounds (`C158_isolated_refuted`).
* **C160** `process_image_patches`: the last loop runs over the indices of the original point cloud, so that the
  tool ends with an exception as soon as a patch has been filtered out (`C160_discard_refuted`), and it
  throws for fewer than five patches. The sum of `std::inner_product` starts with the `int` 0 and is truncated: for
  centred patches with values below one, all coordinates are divided by zero (`C160_sphere_refuted`). The contrast norm
  counts every difference twice and lacks the square root, so that patches do not have norm one afterwards
  (`C160_norm_refuted`). The logarithm of black pixels is taken to be that of intensity one
  (`C160_brightness_refuted`).
* **C161** `betti_numbers`: the identifier of a data set is the *first* number in the name of its file and is
  truncated to 32 bits; files with the same identifier overwrite each other (`C161_all_files_refuted`).
* **C162** `connectivity_matrix_analysis`: `K.sort()` sorts lexicographically, so the deaths belong to the
  lexicographic spanning forest and change when vertices are renumbered (`C162_numbering_refuted`); diagrams are
  written without commas between them (`C162_json_refuted`); `--dimension` and `-v` have no effect.
* **C163** `ephemeral`: the descending pass sorts with `std::less` although the vertices have the maximum weight;
  all edges precede their vertices and the result is not a superlevel set filtration
  (`C163_descending_refuted`). A file that is given twice is merged twice.
* **C164** `graph_analysis`: an edge list with a line `0 0` has a vertex without a degree; the vector of degrees is
  shorter than the vertex set, values are assigned to wrong vertices and the last one is read out of bounds
  (`C164_isolated_refuted`).
* **C165** `rips_distributions`: unweighted degrees include the point itself (`C165_degree_refuted`); a single point
  yields `{`, `,` … which is no JSON document (`C165_single_refuted`).
* **C166** `point_cloud_data_descriptors`: with the default `--epsilon` of zero there is never any diagram
  (`C166_default_epsilon`); an unknown `--descriptor` reads values out of bounds (`C166_unknown_refuted`).
* **C167** `interlevel_set_persistence_hierarchy`: components that take part in no edge of the hierarchy have no node in the
  output (`C167_isolated_refuted`); an empty complex is undefined behaviour (`C167_empty`).
* **C168** `clique_communities_to_json`: the threshold applies to vertices, too, whose weight is zero: a negative threshold
  leaves no simplices (`C168_threshold_refuted`).  The usage text announces `--label`, the option is `--labels`.
* **C169** `persistent_intersection_homology`: `Filter` is `noexcept`, hence a vertex without singularity value terminates
  the program (`C169_short`); without singular vertices, or without values for a complex whose dimension is not two, a
  `runtime_error` leaves `main` (`C169_no_singular`, `C169_dimension`).  If all vertices of a triangle are singular, or if the complex
  consists of points, `front` of an empty vector is used (`C169_front_refuted`, `C169_points_example`).  Files are numbered by
  position instead of dimension (`C169_file_refuted`).  With `--invert` the maximum of both values is compared, so that the
  second stratum contains edges without one of their vertices (`C169_inverted_refuted`).
* **C170** `network_analysis`: `--normalize` and `--invert-weights` skip vertices; with `--node-weights` edges then precede
  their vertices, and diagrams contain components that are destroyed before they are created (`C170_inverted_refuted`,
  `C170_normalized_refuted`), as for negative weights (`C170_negative_refuted`).  With `--infinity` the header states a Betti
  number of zero in all dimensions (last clause of `C170_reports`), `--infinity 0` is used although the usage text excludes it
  (`C170_example`), and the empty lines between two diagrams may be missing (`C170_separator_refuted`).  Too few weights of
  nodes, or a file that cannot be opened, are read out of bounds (`C170_short`); a graph without edges yields no output at all.
* **C171** `spectral_analysis`: an empty spectrum fails an assertion in the default mode (`C171_empty`); of two lines with the
  same position only one survives the transformation, possibly the one with the smaller prominence (`C171_repeated_refuted`);
  the highest line is paired with 0 even if there are negative intensities, contrary to the comment (`C171_minimum_refuted`).
* **C172** `multi_scale_skeleton`: the file for plotting reads the second coordinate of every point, also if there is only one
  (`C172_line_refuted`); three equal points have no edges, so that their scale is 0/0 (`C172_repeated_refuted`).
* **C173** `persistence_indicator_function`: inputs with the same name up to directory and extension overwrite each other
  (`C173_stem_refuted`); `--mean` never terminates normally if one of the diagrams has an interval (`C173_mean_refuted`); without
  files, `--mean` divides by zero and throws (`C173_none_refuted`), because the number of arguments is checked before options are read.
* **C175** `persistent_spines --tikz` throws an exception for points with one coordinate (`C175_line_refuted`); a negative radius is
  not rejected but acts like its absolute value (`C175_sign`). From reading: `-s` is declared without argument for `getopt_long`, and
  `method = optarg` then uses a null pointer.
* **C177** `wicked_triangulations` throws `std::out_of_range` for a triangulation without edges (`C177_points_refuted`) and
  `std::runtime_error` for an empty list (`C177_empty_refuted`), after it has written a part of its output, so that the output is not
  valid JSON.
* **C179** `image_analysis` prints nothing for an image with a single cell (`C179_single_cell_refuted`): the unpaired creator has the
  dimension of the complex and is left out by default.
* **C180** `ply --superlevel` calculates weights as minima but sorts the complex by ascending weights (`filtrations::Data<Simplex>` instead
  of `Data<Simplex, std::greater<DataType>>`), so that cofaces precede faces. The printed points are wrong: for two triangles with
  values 7, 5, 9 and 5 it prints a one-dimensional feature from 7 to 5, but no superlevel set has a hole (`C180_superlevels_refuted`).
* **C181** `vtk` prints nothing for a grid with a single point (`C181_single_point_refuted`), for the same reason as in C179.
* **C182** `vietoris_rips --normalize` divides by the square of the greatest distance: the functor for Euclidean distances returns
  squares, and the program does not convert them (`C182_normalise_refuted`). For two points at distance 2 the death at 2 is printed
  as 1/2, and the infinite one as 1.
* **C182** `vietoris_rips` prints nothing for points that are further apart than the threshold (`C182_isolated_refuted`), for the
  same reason as in C179; without a threshold, its behaviour is undefined (`C182_arguments`).
* **C183** `witness_complex` with its default options (10% of the points as landmarks, `nu = 2`) ends with an exception for every
  point cloud with less than 20 points, because there is only one landmark (`C183_small`).
* **C183** `witness_complex FILE` shows the usage, although the dimension is optional; `witness_complex FILE DIMENSION` ignores the
  dimension, because arguments are counted again after the file has been taken from them (`C183_dimension_refuted`).
* **C184** `vietoris_rips_eccentricity` divides by the difference of the greatest and the least eccentricity. If all eccentricities
  agree, every value is 0/0, which is not a number; for an empty point cloud, iterators at the end are dereferenced
  (`C184_constant_refuted`).
* **C185** `piecewise_linear_function_smoothing` does not check the significance level; for `--alpha 1` the index of the quantile
  wraps around, and the program ends with `std::out_of_range` (`C185_level_refuted`).

From reading only, not stated as theorems: `TangentSpace::fitSpheres`, which is never called,
multiplies the squared coordinates on the diagonal by the parameter `beta`; `readJSON` silently returns no diagrams if the
library is built without RapidJSON; `norms::Euclidean` returns the type of its argument
and does not compile for containers; `persistentEulerCharacteristic` does not
compile; the documentation of the lower and upper star filtrations is exchanged;
`PiecewiseLinearFunction::operator+=( Image )` is `const` and cannot compile;
`lambda / f` computes `f / lambda`;
`operator*` of `ContainerOperators.hh` casts the scalar to the element type, so that
`buildBetaSkeletonNaive` truncates `1 - beta/2` for integral containers.

## 6. Model files and the code they cover

| file | covers |
|------|--------|
| `Barycentric.v` | Model of `topology/BarycentricSubdivision.hh` |
| `Base.v` | Base: outcomes and standard-library algorithms used by the model |
| `BetaSkeleton.v` | Model of `geometry/BetaSkeleton.hh`, and of the operators of `utilities/ContainerOperators.hh` that it uses |
| `BettiNumbers.v` | Model of `src/tools/betti_numbers.cc` |
| `Bootstrap.v` | Model of `math/Bootstrap.hh` |
| `Bottleneck.v` | Model of `persistenceDiagrams/distances/Bottleneck.hh` |
| `CliqueCommunities.v` | Model of the tool `src/tools/clique_persistence_diagram.cc`, from the sorted, expanded complex on |
| `CliqueGraph.v` | Model of `topology/CliqueGraph.hh` |
| `Combine.v` | Model of `for_each_combination` and `count_each_combination` in `math/Combinations.hh` |
| `CommunitiesJSON.v` | Model of `src/tools/clique_communities_to_json.cc` |
| `Complex.v` | Model of `topology/SimplicialComplex.hh`, `topology/filtrations/*.hh` and `topology/Conversions.hh` |
| `ComplexReader.v` | Model of `topology/io/SimplicialComplexReader.hh` |
| `Components.v` | Model of `topology/ConnectedComponents.hh` and `persistentHomology/ConnectedComponents.hh` |
| `ConfidenceBand.v` | Model of `src/tools/piecewise_linear_function_smoothing.cc` |
| `ConnectivityTools.v` | Model of `src/tools/connectivity_matrix_analysis.cc` and `src/tools/ephemeral.cc` |
| `CoverTree.v` | Model of `geometry/CoverTree.hh` |
| `Curvature.v` | Model of `topology/CombinatorialCurvature.hh` |
| `DataSets.v` | Model of the assignment of files to data sets in `src/tools/topological_distance.cc` |
| `Descriptors.v` | Model of the rational parts of `containers/DataDescriptors.hh`, `containers/FractalDimension.hh`, `containers/MeanShift.hh` and `containers/DimensionalityEstimators.hh` |
| `Diagram.v` | Model of `persistenceDiagrams/PersistenceDiagram.hh`, `persistenceDiagrams/Calculation.hh` and `calculatePersistenceDiagram(s)` of `persistentHomology/Calculation.hh` |
| `DiagramDistances.v` | Model of the choice and the calculation of distances between data sets in `src/tools/topological_distance.cc` |
| `DiagramIO.v` | Model of `persistenceDiagrams/io/Raw.hh`, `persistenceDiagrams/io/JSON.hh` and the output operator of `PersistenceDiagram.hh` |
| `DistanceMatrix.v` | Model of the matrix of pairwise distances in `src/tools/topological_distance.cc` |
| `Dowker.v` | Model of `geometry/DowkerComplex.hh` and `geometry/CechComplex.hh` |
| `EccentricityTool.v` | Model of `examples/vietoris_rips_eccentricity.cc`, without FLANN |
| `Entropy.v` | Model of `persistenceDiagrams/Entropy.hh` |
| `Envelope.v` | Model of `persistenceDiagrams/Envelope.hh` |
| `Euler.v` | Model of `persistentHomology/EulerCharacteristic.hh`; numbers are `Z`, i.e. `long` does not overflow |
| `ExtendedHierarchy.v` | Model of `persistentHomology/ExtendedPersistenceHierarchy.hh` |
| `Filesystem.v` | Model of the functions for paths of `utilities/Filesystem.hh` |
| `FlexSpectrum.v` | Model of `topology/io/FlexSpectrum.hh` |
| `FloydWarshall.v` | Model of `topology/FloydWarshall.hh` |
| `Function.v` | Model of `topology/io/Function.hh` |
| `FunctionAnalysis.v` | Model of `src/tools/function_analysis.cc` |
| `Functors.v` | Functors of zero-dimensional persistent homology: model of `calculateZeroDimensionalPersistenceDiagram` with a functor and of the functor of the tool `relevant_edges` |
| `Glyph.v` | Model of `src/tools/persistence_indicator_function_glyph.cc`, from the functions and their domains on |
| `Gml.v` | Model of `topology/io/GML.hh`, and of the labels in `topology/io/SimplicialComplexReader.hh` |
| `GraphMl.v` | Model of `topology/io/GraphML.hh` |
| `GraphTool.v` | Model of `src/tools/graph_analysis.cc` |
| `Hausdorff.v` | Model of `geometry/distances/Infinity.hh`, `persistenceDiagrams/distances/Hausdorff.hh`, `persistenceDiagrams/distances/NearestNeighbour.hh` and `math/KahanSummation.hh` |
| `Hdf5.v` | Model of `topology/io/HDF5.hh`, with the library available |
| `HeatKernel.v` | Model of the class of `geometry/HeatKernel.hh` |
| `History.v` | Histories of public operations on a simplicial complex |
| `ImagePatches.v` | Model of `src/tools/process_image_patches.cc` |
| `ImageTool.v` | examples/image_analysis.cc |
| `IndicatorTool.v` | Model of `tools/persistence_indicator_function.cc` |
| `InterlevelTool.v` | Model of `src/tools/interlevel_set_persistence_hierarchy.cc` |
| `IntersectionHomology.v` | Model of `calculateIntersectionHomology` in `persistentHomology/PhiPersistence.hh` |
| `IntersectionTool.v` | Model of `src/tools/persistent_intersection_homology.cc` |
| `Intersections.v` | Model of `topology/Intersections.hh`, part 2: intersections with a complex (for part 1, intersections of two simplices, see `Spine.v`) |
| `Kernels.v` | Model of `persistenceDiagrams/kernels/MultiScaleKernel.hh` and `persistenceDiagrams/kernels/KernelEmbedding.hh` |
| `Laplacian.v` | Model of the matrix functions of `geometry/HeatKernel.hh` and of `topology/Partitions.hh` |
| `LinesAndPoints.v` | Model of `topology/io/LinesAndPoints.hh` |
| `LoadMatrix.v` | Model of `BoundaryMatrix::load`, BoundaryMatrix.hh 174-247 |
| `MakeSignature.v` | Model of `src/tools/make_signature.cc` |
| `MathReal.v` | Model of `math/KernelDensityEstimator.hh` and `math/AlgebraicSphere.hh` |
| `Matrix.v` | Model of `topology/BoundaryMatrix.hh`, `topology/representations/*.hh`, `persistentHomology/algorithms/*.hh`, `persistentHomology/PersistencePairing.hh` and `persistentHomology/Calculation.hh` |
| `MaximalCliques.v` | Model of `topology/MaximalCliques.hh`, `math/SparseMatrix.hh` and `utilities/UnorderedSetOperations.hh` |
| `Mean.v` | Model of `persistenceDiagrams/Mean.hh` |
| `Mesh.v` | Model of `topology/Mesh.hh` |
| `MorseSmale.v` | Model of `topology/MorseSmaleComplex.hh` |
| `MultiScale.v` | Model of `tools/multi_scale_skeleton.cc` |
| `Munkres.v` | Model of `persistenceDiagrams/distances/detail/Munkres.hh` |
| `NetworkExample.v` | Model of `examples/network_analysis.cc` |
| `Norms.v` | Model of `persistenceDiagrams/Norms.hh` and `persistenceDiagrams/Extraction.hh` |
| `Pajek.v` | Model of `topology/io/Pajek.hh` and of the labels in `topology/io/SimplicialComplexReader.hh` |
| `Permute.v` | Model of the permutation algorithms in `math/Combinations.hh` |
| `Perversity.v` | Model of the perversities in `persistentHomology/PhiPersistence.hh` |
| `PiecewiseLinear.v` | Model of `math/PiecewiseLinearFunction.hh` |
| `Ply.v` | Model of `topology/io/PLY.hh` |
| `PlyTool.v` | examples/ply.cc |
| `PointCloud.v` | Model of `containers/PointCloud.hh` |
| `PointCloudTools.v` | Model of `src/tools/rips_distributions.cc` and `src/tools/point_cloud_data_descriptors.cc` |
| `PointSet.v` | Model of `persistenceDiagrams/distances/PointSet.hh` |
| `PointUtilities.v` | Model of `geometry/Point.hh`, `geometry/distances/Wrapper.hh`, `utilities/Values.hh` and `utilities/Format.hh` |
| `Postprocess.v` | Model of the changes of diagrams in `src/tools/topological_distance.cc` and `src/tools/persistence_diagram_statistics.cc`, and of the names in the latter |
| `PrincipalComponents.v` | Model of `math/PrincipalComponentAnalysis.hh` |
| `Quantiles.v` | Model of `math/Quantiles.hh` |
| `Quotient.v` | Model of `topology/QuotientSpaces.hh` |
| `RandomGraph.v` | Model of `topology/RandomGraph.hh` |
| `ReadEdges.v` | Model of `topology/io/EdgeLists.hh` |
| `ReadMatrices.v` | Model of `topology/io/Matrix.hh`, `topology/io/AdjacencyMatrix.hh` and `topology/io/BipartiteAdjacencyMatrix.hh` |
| `RealDescriptors.v` | Model of the parts of `containers/DataDescriptors.hh`, `containers/FractalDimension.hh` and `containers/DimensionalityEstimators.hh` with powers, exponentials and logarithms |
| `Rips.v` | Model of `geometry/RipsExpander.hh` |
| `RipsTool.v` | Model of `examples/vietoris_rips.cc`, without FLANN |
| `Sampling.v` | Model of `geometry/SphereSampling.hh` and `geometry/TorusSampling.hh` |
| `Signatures.v` | Model of the functions of `src/tools/wicked_triangulations.cc` |
| `Simplex.v` | Model of `topology/Simplex.hh` |
| `SparseAdjacency.v` | Model of `topology/io/SparseAdjacencyMatrix.hh` |
| `SparseTool.v` | Model of `src/tools/sparse_adjacency_matrices.cc` |
| `Spine.v` | Model of `topology/Spine.hh` and of the intersection of two simplices in `topology/Intersections.hh` |
| `SpineTool.v` | Model of `src/tools/persistent_spines.cc` and of the text that simplices and complexes are written as |
| `Statistics.v` | Model of `math/Statistics.hh` |
| `StepFunction.v` | Model of `math/StepFunction.hh` and `persistenceDiagrams/PersistenceIndicatorFunction.hh` |
| `StepNorm.v` | Model of the parts of `math/StepFunction.hh` that need real numbers: powers, norms and the normalization |
| `StepText.v` | Model of the text form of step functions, `operator<<` and `operator>>` of `math/StepFunction.hh` |
| `StratifiedDiagrams.v` | Model of the changes of a persistence diagram in the main program of `src/tools/stratified_graph_analysis.cc` |
| `StratifiedGraph.v` | Model of `src/tools/random_stratified_graphs.cc` and `src/tools/stratified_graph_analysis.cc` |
| `StratifiedNormalization.v` | Model of `normalizeSimplicialComplex` in `src/tools/stratified_graph_analysis.cc` |
| `StringUtilities.v` | Model of `utilities/String.hh` |
| `Subcomplex.v` | Model of `topology/Skeleton.hh`, `topology/Filter.hh`, the partition of `persistentHomology/PhiPersistence.hh` and `topology/filtrations/Degree.hh` |
| `SymmetricMatrix.v` | Model of `math/SymmetricMatrix.hh` |
| `TangentSpace.v` | Model of `geometry/TangentSpace.hh` |
| `Tikz.v` | Model of `topology/io/TikZ.hh` |
| `TopDown.v` | Model of `geometry/RipsExpanderTopDown.hh` |
| `Triangulations.v` | Model of `topology/io/LexicographicTriangulation.hh` |
| `UnionFind.v` | Model of `topology/UnionFind.hh` |
| `VectorDistances.v` | Model of `geometry/distances/Manhattan.hh`, `Hamming.hh` and `Euclidean.hh` |
| `VietorisRips.v` | Model of `geometry/BruteForce.hh`, `geometry/RipsSkeleton.hh` and `geometry/VietorisRipsComplex.hh` |
| `Vtk.v` | Model of `topology/io/VTK.hh` |
| `VtkTool.v` | examples/vtk.cc |
| `Wasserstein.v` | Model of `persistenceDiagrams/distances/Wasserstein.hh` and `persistenceDiagrams/distances/detail/Orthogonal.hh` |
| `WickedTool.v` | Model of the main program of `src/tools/wicked_triangulations.cc` |
| `Witness.v` | Model of `geometry/WitnessComplex.hh` |
| `WitnessTool.v` | Model of `examples/witness_complex.cc` |
