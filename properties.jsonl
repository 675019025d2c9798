{"id": "C01", "title": "Simplices are canonical vertex sets", "statement": "A simplex built from any range of vertices depends only on the set of vertices in the range: two simplices compare equal exactly when the ranges contain the same vertices, whatever the order, the repetitions and the data; contains() answers membership in that set; size() is its cardinality; and operator< is a strict total order that is compatible with operator==.", "quantifier": "all finite ranges of vertices, all data values, all pairs and triples of simplices", "why_tests_cant": "the claim ranges over every vertex sequence with repetitions and over triples of simplices (transitivity); a test fixes finitely many", "anchors": ["include/aleph/topology/Simplex.hh: Simplex::Simplex(begin,end,data)", "include/aleph/topology/Simplex.hh: operator==", "include/aleph/topology/Simplex.hh: operator<", "include/aleph/topology/Simplex.hh: contains"]}
{"id": "C02", "title": "The boundary of a simplex is the set of its codimension-one faces", "statement": "Iterating over the boundary of a simplex with d+1>=2 vertices yields exactly d+1 pairwise distinct simplices, namely every subset obtained by dropping one vertex, each of dimension d-1 and in strictly ascending order; vertices and the empty simplex have an empty boundary; and every codimension-two face of a simplex with at least three vertices occurs in exactly two members of the boundary.", "quantifier": "all simplices of every dimension", "why_tests_cant": "needs every dimension and every vertex labelling; boundary-of-boundary cancellation is a counting statement over all pairs of dropped vertices", "anchors": ["include/aleph/topology/Simplex.hh: begin_boundary", "include/aleph/topology/Simplex.hh: end_boundary", "include/aleph/topology/Simplex.hh: boundary_iterator::dereference"]}
{"id": "C03", "title": "A simplicial complex never stores a vertex set twice and its views stay consistent", "statement": "After any sequence of insertions, replacements, removals, sorts and clears, the complex stores every vertex set at most once; contains(s), find(s) and index(s) agree; at(index(s)) equals s; size() is the number of stored simplices; range(d) enumerates exactly the stored simplices of dimension d; dimension() is the largest one; a rejected operation leaves the complex unchanged.", "quantifier": "all histories of public operations on a complex, all simplices queried", "why_tests_cant": "the invariant is over unbounded operation histories", "anchors": ["include/aleph/topology/SimplicialComplex.hh: push_back", "include/aleph/topology/SimplicialComplex.hh: insert", "include/aleph/topology/SimplicialComplex.hh: replace", "include/aleph/topology/SimplicialComplex.hh: remove_without_validation", "include/aleph/topology/SimplicialComplex.hh: find", "include/aleph/topology/SimplicialComplex.hh: index", "include/aleph/topology/SimplicialComplex.hh: range", "include/aleph/topology/SimplicialComplex.hh: sort"]}
{"id": "C04", "title": "createMissingFaces produces exactly the downward closure", "statement": "createMissingFaces() terminates, keeps every simplex already present together with its data and its position, and afterwards a vertex set is stored exactly when it is a non-empty subset of a vertex set stored before the call; every added face carries the data of some stored simplex that contains it.", "quantifier": "all simplicial complexes, closed or not, in any filtration order", "why_tests_cant": "closure is a statement about every subset of every stored simplex, and the loop extends the container it iterates over", "anchors": ["include/aleph/topology/SimplicialComplex.hh: createMissingFaces", "include/aleph/topology/SimplicialComplex.hh: checkAndRestoreValidity"]}
{"id": "C05", "title": "Faces added by createMissingFaces never outweigh their cofaces", "statement": "After createMissingFaces() the data of every coface is greater than or equal to the data of each of its faces (the guarantee stated in the source comment), provided this already held between the simplices that were stored before the call.", "quantifier": "all complexes with comparable data whose stored simplices are monotone", "why_tests_cant": "depends on the order in which cofaces are met and on all weights", "anchors": ["include/aleph/topology/SimplicialComplex.hh: checkAndRestoreValidity"]}
{"id": "C06", "title": "Removing a simplex removes exactly its open star", "statement": "For a complex closed under faces, remove(s) terminates and leaves exactly those simplices that do not contain s as a face (in their old relative order); the result is again closed under faces, and removing a simplex that is not stored changes nothing.", "quantifier": "all closed complexes and all simplices", "why_tests_cant": "the cascade of removals depends on the whole complex and on the order of simplices", "anchors": ["include/aleph/topology/SimplicialComplex.hh: remove", "include/aleph/topology/SimplicialComplex.hh: checkValidity"]}
{"id": "C07", "title": "Weight recalculation yields monotone weights given by the vertices", "statement": "For a closed complex, recalculateWeights(range) gives every simplex the maximum of the weights of its vertices; recalculateWeights(true) gives every simplex of positive dimension the maximum of the data of its vertices (and with useMaximum=false the minimum); vertex sets and filtration order are unchanged; the range version raises an error exactly when a stored vertex has no weight in the range.", "quantifier": "all closed complexes, all weight ranges", "why_tests_cant": "propagation works dimension by dimension through the whole complex", "anchors": ["include/aleph/topology/SimplicialComplex.hh: recalculateWeights"]}
{"id": "C08", "title": "Sorting by the supplied filtrations yields filtration orders", "statement": "sort() permutes the simplices. With filtrations::Data, and data that is monotone along faces, every face precedes its cofaces afterwards; with filtrations::LowerStar and filtrations::UpperStar and any vertex values, every face precedes its cofaces and the star values are ascending (descending). All three comparison functions are strict weak orderings.", "quantifier": "all complexes, all data values and all vertex functions", "why_tests_cant": "ordering correctness must hold for every weight pattern including ties", "anchors": ["include/aleph/topology/filtrations/Data.hh: Data::operator()", "include/aleph/topology/filtrations/LowerStar.hh: LowerStar::operator()", "include/aleph/topology/filtrations/UpperStar.hh: UpperStar::operator()", "include/aleph/topology/SimplicialComplex.hh: sort"]}
{"id": "C09", "title": "The boundary matrix of a filtered complex is its boundary operator", "statement": "For a closed complex in filtration order, column j of makeBoundaryMatrix(K) lists exactly the indices of the codimension-one faces of the j-th simplex, all smaller than j and without repetition, with the dimension of that simplex; and the matrix squares to zero modulo two.", "quantifier": "all closed complexes in filtration order", "why_tests_cant": "the squared-to-zero law quantifies over all columns and rows of all complexes", "anchors": ["include/aleph/topology/Conversions.hh: makeBoundaryMatrix", "include/aleph/topology/representations/Vector.hh: setColumn"]}
{"id": "C10", "title": "Column representations are interchangeable", "statement": "Driving the vector, list and set representations with the same sequence of operations, where every column handed over is free of repeated indices, gives the same answers to every query, errors included.", "quantifier": "all operation sequences on boundary matrices", "why_tests_cant": "equivalence of three implementations over all histories", "anchors": ["include/aleph/topology/representations/Vector.hh", "include/aleph/topology/representations/List.hh", "include/aleph/topology/representations/Set.hh"]}
{"id": "C11", "title": "Standard reduction terminates with a reduced matrix of column-equivalent columns", "statement": "On every matrix whose columns have no repeated index and whose row indices are smaller than the number of columns, Standard terminates without an out-of-range access; afterwards no two non-empty columns share their maximum index; and every column is the sum modulo two of the original column and some original columns to its left.", "quantifier": "all binary matrices with duplicate-free columns and in-range row indices", "why_tests_cant": "termination and reducedness for every binary matrix", "anchors": ["include/aleph/persistentHomology/algorithms/Standard.hh: Standard::operator()", "include/aleph/topology/representations/Vector.hh: addColumns"]}
{"id": "C12", "title": "Twist computes the same pairing as Standard", "statement": "For every graded boundary matrix that squares to zero (in particular every matrix made from a closed filtered complex), Twist and Standard give the same persistence pairing, for every setting of the flags.", "quantifier": "all valid boundary matrices, both flag values, all maximum indices", "why_tests_cant": "the clearing optimisation is sound only because of a global algebraic law", "anchors": ["include/aleph/persistentHomology/algorithms/Twist.hh: Twist::operator()", "include/aleph/persistentHomology/algorithms/Standard.hh: Standard::operator()", "include/aleph/persistentHomology/Calculation.hh: calculatePersistencePairing"]}
{"id": "C13", "title": "Every simplex is accounted for exactly once in the pairing", "statement": "With all unpaired creators included, every column index of a valid boundary matrix occurs exactly once in the pairing, either as creator, as destroyer or as unpaired creator; creators precede their destroyers; a destroyer has dimension one more than its creator; the pairs are reported in ascending order. Without the flag exactly the unpaired creators of top dimension are missing.", "quantifier": "all valid boundary matrices", "why_tests_cant": "a global bookkeeping statement over all reductions", "anchors": ["include/aleph/persistentHomology/Calculation.hh: calculatePersistencePairing", "include/aleph/persistentHomology/PersistencePairing.hh"]}
{"id": "C14", "title": "Dualizing twice gives the matrix back", "statement": "For every matrix whose row indices are in range and whose columns are duplicate-free, dualize() is the anti-transpose and M.dualize().dualize() == M up to the offset of dimensions (exactly, if some column has dimension zero).", "quantifier": "all square binary matrices", "why_tests_cant": "involution over all matrices", "anchors": ["include/aleph/topology/BoundaryMatrix.hh: dualize"]}
{"id": "C15", "title": "Dualization does not change the persistence pairing", "statement": "For every valid boundary matrix the pairing calculated from the dualized matrix equals the pairing calculated from the matrix itself.", "quantifier": "all valid boundary matrices, both reduction algorithms", "why_tests_cant": "persistent homology/cohomology duality is a theorem of linear algebra, not a finite check", "anchors": ["include/aleph/topology/BoundaryMatrix.hh: dualize", "include/aleph/persistentHomology/Calculation.hh: calculatePersistencePairing"]}
{"id": "C16", "title": "Unpaired creators count Betti numbers", "statement": "For every valid boundary matrix and every dimension d, the number of unpaired creators of dimension d (all creators included) equals the dimension of the kernel of the d-th boundary operator minus the rank of the (d+1)-st, over the field with two elements.", "quantifier": "all valid boundary matrices and dimensions", "why_tests_cant": "relates the program to ranks of arbitrary matrices", "anchors": ["include/aleph/persistentHomology/Calculation.hh: calculatePersistencePairing", "include/aleph/persistenceDiagrams/PersistenceDiagram.hh: betti"]}
{"id": "C17", "title": "The pairing computes persistent homology", "statement": "For all indices i<=j the number of creators among the first i simplices of a dimension that are not destroyed among the first j equals the rank of the map induced in homology by the inclusion of the first i into the first j simplices (cycles of the former modulo those that bound in the latter).", "quantifier": "all valid boundary matrices, all index pairs, all dimensions", "why_tests_cant": "the defining property of persistent homology, for every filtration", "anchors": ["include/aleph/persistentHomology/Calculation.hh: calculatePersistencePairing"]}
{"id": "C18", "title": "The pairing is independent of the way the matrix was reduced", "statement": "Any matrix obtained from M by adding columns to columns on their right, in any order, until the maximum indices of non-empty columns are distinct, leads to the same pairs of (maximum index, column).", "quantifier": "all binary matrices and all left-to-right reduction schedules", "why_tests_cant": "quantifies over all schedules", "anchors": ["include/aleph/persistentHomology/algorithms/Standard.hh", "include/aleph/persistentHomology/algorithms/Twist.hh", "include/aleph/persistentHomology/Calculation.hh: calculatePersistencePairing"]}
{"id": "C19", "title": "Persistence diagrams faithfully tabulate the pairing", "statement": "makePersistenceDiagrams reports every pair exactly once, in the diagram whose dimension is that of the creator, with the data of creator and destroyer as coordinates; unpaired creators become unpaired points; the diagrams come in strictly ascending order of dimension and none is empty.", "quantifier": "all complexes and pairings with valid creator indices", "why_tests_cant": "multiset equality over all inputs", "anchors": ["include/aleph/persistenceDiagrams/Calculation.hh: makePersistenceDiagrams", "include/aleph/persistenceDiagrams/PersistenceDiagram.hh: Point"]}
{"id": "C20", "title": "Persistence diagrams of one-dimensional functions can be calculated from their boundary matrix", "statement": "For every function with at least one value, calculatePersistenceDiagram(matrix, values) on the matrix and values produced by loadFunction returns a diagram rather than raising an error.", "quantifier": "all sequences of function values", "why_tests_cant": "must hold for every function", "anchors": ["include/aleph/persistenceDiagrams/Calculation.hh: makePersistenceDiagram", "include/aleph/persistentHomology/Calculation.hh: calculatePersistenceDiagram", "include/aleph/topology/io/Function.hh: loadFunction"]}
{"id": "C21", "title": "Union-find maintains the equivalence closure of the merges", "statement": "After any sequence of merges and finds of known vertices, find(u)==find(v) exactly when u and v are connected by merged pairs; find terminates, returns a member of the class that is its own parent and does not change any class; after merge(u,v) the class is represented by the former representative of v; roots() lists exactly one vertex per class; get(v) lists exactly the class of v.", "quantifier": "all vertex sets and all operation histories", "why_tests_cant": "path collapse is interleaved with merges in arbitrary histories", "anchors": ["include/aleph/topology/UnionFind.hh: merge", "include/aleph/topology/UnionFind.hh: find", "include/aleph/topology/UnionFind.hh: roots", "include/aleph/topology/UnionFind.hh: get"]}
{"id": "C22", "title": "Connected components are those of the 1-skeleton", "statement": "calculateConnectedComponents(K) of a closed complex puts two vertices in the same class exactly when they are joined by a path of edges of K.", "quantifier": "all closed complexes", "why_tests_cant": "path connectivity over all graphs", "anchors": ["include/aleph/topology/ConnectedComponents.hh: calculateConnectedComponents", "include/aleph/topology/UnionFind.hh"]}
{"id": "C23", "title": "Zero-dimensional persistence by union-find agrees with matrix reduction", "statement": "For every closed complex in filtration order, the pairs reported by calculateZeroDimensionalPersistenceDiagram with diagonal elements kept are exactly the pairs of creator dimension zero of the boundary matrix, and its unpaired points are one per connected component.", "quantifier": "all closed filtered complexes", "why_tests_cant": "equivalence of two different algorithms on all filtrations", "anchors": ["include/aleph/persistentHomology/ConnectedComponents.hh: calculateZeroDimensionalPersistenceDiagram"]}
{"id": "C24", "title": "Persistence diagram operations act on the multiset of points", "statement": "removeDiagonal, removeUnpaired, removeDuplicates, merge and betti delete, keep and count exactly the points their names describe: multiplicities of all other points are unchanged, duplicates are reduced to multiplicity one, betti() is the number of points removed by removeUnpaired().", "quantifier": "all diagrams", "why_tests_cant": "multiset statement over all diagrams", "anchors": ["include/aleph/persistenceDiagrams/PersistenceDiagram.hh"]}
{"id": "C25", "title": "Rips expansion yields exactly the cliques up to the given dimension", "statement": "RipsExpander(K,d) contains a vertex set exactly when it is a stored vertex, or a set of between two and d+1 vertices of which one is stored as a vertex at the top and every two are joined by an edge of K; each exactly once; for complexes whose edges join stored vertices it is the d-skeleton of the clique complex.", "quantifier": "all graphs and all dimensions", "why_tests_cant": "all graphs", "anchors": ["include/aleph/geometry/RipsExpander.hh: operator()", "include/aleph/geometry/RipsExpander.hh: addCofaces", "include/aleph/geometry/RipsExpander.hh: getLowerNeighbours"]}
{"id": "C26", "title": "Maximum-weight assignment makes Rips weights monotone", "statement": "assignMaximumWeight(K,b) keeps the simplices of K; simplices of dimension up to b keep their weight, and every simplex of dimension at least b receives the largest original weight among its faces of dimension at least b, so weights never decrease from such a face to a coface. For b=1 after an expansion with non-negative edge weights this is the largest weight of the edges.", "quantifier": "all closed complexes, all weights, all minimum dimensions; non-negative edge weights for the last sentence", "why_tests_cant": "propagation through all dimensions", "anchors": ["include/aleph/geometry/RipsExpander.hh: assignMaximumWeight"]}
{"id": "C27", "title": "Maximum-data assignment uses the vertex values", "statement": "assignMaximumData(K,values) keeps the simplices of K in their order and gives every simplex the maximum of the values of its vertices, the values being listed in ascending order of the vertices. With fewer values than vertices the container is read out of bounds.", "quantifier": "all closed complexes, all values including negative ones", "why_tests_cant": "all inputs including negative values", "anchors": ["include/aleph/geometry/RipsExpander.hh: assignMaximumData", "include/aleph/geometry/RipsExpander.hh: assignData"]}
{"id": "C28", "title": "Maximal clique enumeration is exact", "statement": "maximalCliquesBronKerbosch and maximalCliquesKoch return every maximal clique of the graph exactly once and nothing else, regardless of the order in which candidate sets are traversed.", "quantifier": "all non-empty graphs and all traversal orders of hash sets", "why_tests_cant": "all graphs; iteration order of hash sets is unspecified", "anchors": ["include/aleph/topology/MaximalCliques.hh: enumerateBronKerbosch", "include/aleph/topology/MaximalCliques.hh: enumerateKoch"]}
{"id": "C29", "title": "Floyd-Warshall computes shortest path lengths", "statement": "For non-negative edge weights (an edge of weight zero counts with the default weight) the matrix returned by floydWarshall for a closed complex holds, for every two vertices in their order of appearance, the smallest total weight of a path joining them (infinity if there is none), zero on the diagonal.", "quantifier": "all weighted graphs with non-negative weights", "why_tests_cant": "minimum over all paths", "anchors": ["include/aleph/topology/FloydWarshall.hh: floydWarshall", "include/aleph/math/SymmetricMatrix.hh"]}
{"id": "C30", "title": "Cone and suspension are complexes with the expected simplices", "statement": "cone(K) of a closed complex contains exactly the simplices of K, a new vertex and the join of that vertex with every simplex of K; suspension(K) does the same with two new vertices that are not joined; both are closed under faces; new vertices do not occur in K; alternating sums of simplex numbers are 1 for the cone and 2 minus that of K for the suspension.", "quantifier": "all closed complexes (vertex labels below the largest representable)", "why_tests_cant": "all complexes", "anchors": ["include/aleph/topology/QuotientSpaces.hh: cone", "include/aleph/topology/QuotientSpaces.hh: suspension"]}
{"id": "C31", "title": "Spine calculation performs elementary collapses until none is left", "statement": "spine(K) of a closed complex terminates and returns a closed subcomplex obtained from K by successive elementary collapses, with no free face left; it has the same alternating sum of simplex numbers as K, whatever order admissible simplices are chosen in.", "quantifier": "all closed complexes and all choices of the next admissible simplex", "why_tests_cant": "the hash map picks an unspecified admissible pair at each step", "anchors": ["include/aleph/topology/Spine.hh: spine", "include/aleph/topology/Spine.hh: getFreeFace", "include/aleph/topology/Spine.hh: getPrincipalFaces", "include/aleph/topology/Spine.hh: dumb::spine"]}
{"id": "C32", "title": "The Euler characteristic is the alternating sum over all dimensions", "statement": "eulerCharacteristic(K) equals the alternating sum of the numbers of simplices of K over all dimensions, and the overload for persistence diagrams equals the alternating sum of Betti numbers.", "quantifier": "all non-empty complexes / diagram lists", "why_tests_cant": "all complexes", "anchors": ["include/aleph/persistentHomology/EulerCharacteristic.hh: eulerCharacteristic"]}
{"id": "C33", "title": "Symmetric matrix storage is a faithful symmetric matrix", "statement": "For every size n and all i,j,k,l<n: M(i,j) and M(j,i) denote the same storage cell, different unordered index pairs denote different cells, all cells lie in the allocated array, and indices not below n raise an error.", "quantifier": "all sizes and index pairs (below arithmetic overflow)", "why_tests_cant": "injectivity of an index formula over all sizes", "anchors": ["include/aleph/math/SymmetricMatrix.hh: operator()"]}
{"id": "C34", "title": "The assignment solver returns an optimal assignment", "statement": "For every square cost matrix with exact arithmetic, the solver terminates and returns a permutation whose total cost is minimal among all permutations.", "quantifier": "all square matrices", "why_tests_cant": "optimality against factorially many assignments; termination of a state machine", "anchors": ["include/aleph/persistenceDiagrams/distances/detail/Munkres.hh: Munkres"]}
{"id": "C35", "title": "Wasserstein distance is the optimal matching cost", "statement": "For two diagrams of the same dimension whose distances to the diagonal add up to less than max(), wassersteinDistance(D1,D2) terminates and is the root of the smallest cost of a partial matching between the two diagrams in which unmatched points go to the diagonal; it is symmetric and zero for equal diagrams. Diagrams of different dimension raise std::runtime_error. (For integral data types and power>=2 the root is the constant 1.)", "quantifier": "all diagrams with finite points, all non-negative point distances", "why_tests_cant": "minimum over all partial matchings", "anchors": ["include/aleph/persistenceDiagrams/distances/Wasserstein.hh: wassersteinDistance", "include/aleph/persistenceDiagrams/distances/detail/Orthogonal.hh"]}
{"id": "C36", "title": "Hausdorff distance is a pseudo-metric on diagrams", "statement": "hausdorffDistance is non-negative, symmetric, zero exactly for diagrams with the same set of points and satisfies the triangle inequality for non-empty diagrams; it is the largest distance from a point of one diagram to the nearest point of the other.", "quantifier": "all diagrams with finite points (an empty and a non-empty diagram have the largest possible distance)", "why_tests_cant": "metric laws over all triples", "anchors": ["include/aleph/persistenceDiagrams/distances/Hausdorff.hh: hausdorffDistance", "include/aleph/geometry/distances/Infinity.hh"]}
{"id": "C37", "title": "Bottleneck distance is symmetric and defined for all diagrams", "statement": "bottleneckDistance(D1,D2)==bottleneckDistance(D2,D1), is zero for equal diagrams and equals the smallest threshold that admits a perfect matching in which unmatched points go to the diagonal.", "quantifier": "all diagrams with finite points", "why_tests_cant": "all diagrams; minimum over matchings", "anchors": ["include/aleph/persistenceDiagrams/distances/Bottleneck.hh: bottleneckDistance"]}
{"id": "C38", "title": "The persistence indicator function counts active intervals", "statement": "For a diagram whose points are all on one side of the diagonal persistenceIndicatorFunction(D)(x) is the number of points whose interval [a,b] contains x, for every x that is not both the start of an interval and the end of one; for those x it is the number of intervals with a<x<=b. This requires that no point on the diagonal has a negative value that is the smallest value of the diagram; such a point ends the program.", "quantifier": "all diagrams with fewer than 2^32 points all on one side of the diagonal (unpaired points included above it), all x", "why_tests_cant": "all diagrams and arguments, ties included", "anchors": ["include/aleph/persistenceDiagrams/PersistenceIndicatorFunction.hh: persistenceIndicatorFunction", "include/aleph/math/StepFunction.hh: operator()"]}
{"id": "C39", "title": "Arithmetic on piecewise linear functions is pointwise", "statement": "A piecewise linear function built from value pairs with distinct abscissae passes through all pairs, is linear between neighbouring pairs and zero outside; duplicate abscissae raise a runtime_error. For f and g with the same first and last breakpoint (or one of them empty), (f+g)(x)=f(x)+g(x) and (f-g)(x)=f(x)-g(x) for every x, and operator== holds exactly when the functions agree everywhere; scaling, negation and division by a scalar are pointwise, adding a scalar is pointwise between the first and last breakpoint; max() is the largest value. (With different end points the sum and the comparison are wrong, and operator/ terminates the program for 0.)", "quantifier": "all piecewise linear functions, all arguments between and beyond breakpoints", "why_tests_cant": "all real arguments", "anchors": ["include/aleph/math/PiecewiseLinearFunction.hh"]}
{"id": "C40", "title": "Loading a boundary matrix accepts exactly the documented format", "statement": "For every text whose lines are blank, comments starting with # in the first column, or a dimension followed by indices, BoundaryMatrix::load yields one column per line of the last kind with exactly the listed indices in ascending order and the given dimension; if the dimension of some line is not the number of its indices minus one (zero without indices) it raises a runtime_error. (Comments that are indented are counted as comments in the first pass but make the second pass fail; a line with dimension 0 and one index is accepted.)", "quantifier": "all input texts", "why_tests_cant": "all texts", "anchors": ["include/aleph/topology/BoundaryMatrix.hh: load"]}
{"id": "C41", "title": "Loading a function yields a filtered boundary matrix", "statement": "For every non-empty sequence of function values loadFunction, given a fresh matrix, terminates without error and yields the boundary matrix of the path complex in an order in which every edge comes after both of its vertices and values never decrease.", "quantifier": "all value sequences", "why_tests_cant": "tie handling must be right for all sequences", "anchors": ["include/aleph/topology/io/Function.hh: loadFunction"]}
{"id": "C42", "title": "Skeletons and filtered complexes are subcomplexes", "statement": "Skeleton(k,K) contains exactly the simplices of dimension at most k; it is closed if K is; for data monotone along faces the filtered complex at any threshold is closed.", "quantifier": "all complexes, dimensions and thresholds", "why_tests_cant": "all complexes", "anchors": ["include/aleph/topology/Skeleton.hh", "include/aleph/topology/Filter.hh"]}
{"id": "C43", "title": "Perversities stay within their bounds", "statement": "A Perversity constructed from any range answers queries in dimensions 1 to n with values in [-1,d-1], keeps values that are within these bounds and answers 0 for larger dimensions; a PerversityGM has consecutive values that are equal or increase by one, keeps ranges that satisfy this, and answers 0 for dimensions that are too large. Queries below dimension 1 (Perversity) or 2 (PerversityGM) are outside of this contract.", "quantifier": "all value ranges and query dimensions", "why_tests_cant": "all inputs including dimension zero", "anchors": ["include/aleph/persistentHomology/PhiPersistence.hh: Perversity"]}
{"id": "C44", "title": "Partitioning for phi-persistence is a stable split", "statement": "partition(K,phi) returns a permutation of K in which all simplices satisfying phi precede the others, the old order being kept on both sides, and the index at which the others start.", "quantifier": "all complexes and predicates", "why_tests_cant": "all inputs", "anchors": ["include/aleph/persistentHomology/PhiPersistence.hh: partition"]}
{"id": "C45", "title": "Subset enumeration visits every subset once", "statement": "Iterating next_combination from a strictly ascending range visits every k-element subset exactly once, each in ascending order, then stops and restores the range.", "quantifier": "all strictly ascending ranges and all k not larger than their length", "why_tests_cant": "all sizes", "anchors": ["include/aleph/geometry/RipsExpanderTopDown.hh: next_combination"]}
{"id": "C46", "title": "Envelope calculation stays inside its data", "statement": "Envelope()(D) never reads beyond the points of the diagram.", "quantifier": "all diagrams", "why_tests_cant": "memory safety on all inputs", "anchors": ["include/aleph/persistenceDiagrams/Envelope.hh: operator()"]}
{"id": "C47", "title": "The vertex set query reports all vertices", "statement": "For a complex closed under faces, vertices() reports in ascending order exactly the vertices that occur in at least one stored simplex. (The documentation promises this for every complex; without closure it fails.)", "quantifier": "all complexes", "why_tests_cant": "all complexes, closed or not", "anchors": ["include/aleph/topology/SimplicialComplex.hh: vertices"]}
{"id": "C48", "title": "Top-down and bottom-up Rips expansion agree", "statement": "For a graph whose edges have stored vertices, RipsExpanderTopDown(K,kMax,kMin) stores exactly the cliques of K with more than kMin and at most kMax+1 vertices, all with data 0; for kMin = 0 these are the simplices of RipsExpander(K,kMax).", "quantifier": "all graphs, dimensions and traversal orders", "why_tests_cant": "all graphs", "anchors": ["include/aleph/geometry/RipsExpanderTopDown.hh: operator()"]}
{"id": "C49", "title": "Clique graphs connect k-simplices that share a facet", "statement": "getCliqueGraph(K,k) has one vertex per k-simplex of K and an edge exactly between those k-simplices that share a (k-1)-face.", "quantifier": "all complexes with fewer k-simplices than vertex labels", "why_tests_cant": "all complexes", "anchors": ["include/aleph/topology/CliqueGraph.hh: getCliqueGraph"]}
{"id": "C50", "title": "The median is the middle order statistic", "statement": "median(range) is a middle order statistic of the range (the mean of both middle ones for even length) and leaves the range unchanged.", "quantifier": "all non-empty ranges", "why_tests_cant": "all orderings of all ranges", "anchors": ["include/aleph/math/Quantiles.hh: median"]}
{"id": "C51", "title": "Vertex degrees count the simplices of positive dimension at a vertex", "statement": "degrees(K) reports, for the vertices that lie in at least one simplex of positive dimension and in ascending order of these vertices, the number of stored simplices of positive dimension that contain the vertex. (The documentation promises the order of vertices(); with isolated vertices the two sequences do not even have the same length.)", "quantifier": "all complexes reachable by any history", "why_tests_cant": "a counting statement about every vertex of every complex; alignment with vertices() fails only with isolated vertices", "anchors": ["include/aleph/topology/filtrations/Degree.hh: degrees", "include/aleph/topology/SimplicialComplex.hh: vertices"]}
{"id": "C52", "title": "The n-degree counts top-dimensional cofaces", "statement": "n_degree(K,s) is the number of stored simplices of dimension dim(K) that contain every vertex of s.", "quantifier": "all non-empty complexes and all simplices, stored or not", "why_tests_cant": "ranges over all complexes and query simplices", "anchors": ["include/aleph/topology/filtrations/Degree.hh: n_degree"]}
{"id": "C53", "title": "Searching a persistence pairing", "statement": "find(creator,destroyer) returns the first position of that pair and contains tells whether it is present; in a pairing calculated from a filtered boundary matrix find(creator) returns the one pair with that creator.", "quantifier": "all pairings; all valid boundary matrices, algorithms and flags", "why_tests_cant": "uniqueness of the creator relies on the correctness of the reduction for every matrix", "anchors": ["include/aleph/persistentHomology/PersistencePairing.hh: find, contains"]}
{"id": "C54", "title": "Equality of complexes is equality of filtrations as vertex sets", "statement": "K == L holds iff both store the same vertex sets in the same order; data is ignored.", "quantifier": "all pairs of complexes", "why_tests_cant": "ranges over all pairs of complexes, including those of different size", "anchors": ["include/aleph/topology/SimplicialComplex.hh: operator=="]}
{"id": "C55", "title": "Persistence diagrams of a filtered complex give the persistent homology of its sublevel sets", "statement": "calculatePersistenceDiagrams(K) of a closed complex in filtration order does not depend on dualization, reduction algorithm or hash order; if data ascend along the filtration, the number of points of dimension d with x<=a and y>b is the rank of the map in d-dimensional homology (over Z/2) from the simplices with data at most a to those with data at most b; betti() of the d-dimensional diagram is the d-th Betti number (for d below the dimension of K, or for all d if all unpaired creators are included).", "quantifier": "all closed filtered complexes, all thresholds, all parameters", "why_tests_cant": "involves ranks of all induced maps of all complexes", "anchors": ["include/aleph/persistentHomology/Calculation.hh: calculatePersistenceDiagrams", "include/aleph/persistenceDiagrams/Calculation.hh: makePersistenceDiagrams", "include/aleph/persistenceDiagrams/PersistenceDiagram.hh: betti"]}
{"id": "C56", "title": "Functions converted to complexes are paths", "statement": "loadFunction(begin,end,f) yields the complex with the vertices 0..n-1 carrying the values, followed by the edges {k,k+1} carrying f of the values of their ends; it is closed, and data are monotone along faces if f is at least both of its arguments.", "quantifier": "all value sequences, all functors", "why_tests_cant": "all sequences and functors", "anchors": ["include/aleph/topology/io/Function.hh: loadFunction, loadFunctions"]}
{"id": "C57", "title": "Top-down weights are maxima over faces of the skeleton", "statement": "RipsExpanderTopDown::assignMaximumWeight(K,S,d) keeps the simplices of K and their order; those of dimension less than d keep their data, every other simplex gets the largest data of a d-simplex of S among its faces (the lowest number if there is none).", "quantifier": "all complexes K and S and all dimensions d", "why_tests_cant": "all pairs of complexes", "anchors": ["include/aleph/geometry/RipsExpanderTopDown.hh: assignMaximumWeight"]}
{"id": "C58", "title": "Nearest neighbour distance averages the two one-sided sums", "statement": "nearestNeighbourDistance(D1,D2) of two non-empty diagrams is half of the sum, over the points of both diagrams, of the distance to the nearest point of the other diagram; the Kahan summation used for it, sorted or not, adds nothing to and loses nothing from the sum when the arithmetic is exact.", "quantifier": "all non-empty diagrams with finite points; all sequences of summands", "why_tests_cant": "all diagrams", "anchors": ["include/aleph/persistenceDiagrams/distances/NearestNeighbour.hh: nearestNeighbourDistance", "include/aleph/math/KahanSummation.hh"]}
{"id": "C59", "title": "Step functions: insertion, evaluation, scalar operations and integral", "statement": "Adding an interval that meets the stored ones in end points only stores it, keeping the order; the function evaluates to the value of the only interval that contains the argument, to 0 if none does, and to the largest value at common end points of non-negative functions; scaling, negation, addition of a scalar and abs() keep the intervals and act on the values; integral() is the sum of value times length and commutes with scaling and negation; max() is the largest stored value.", "quantifier": "all step functions built from intervals of positive length, all arguments and scalars", "why_tests_cant": "all functions and arguments", "anchors": ["include/aleph/math/StepFunction.hh: StepFunction"]}
{"id": "C60", "title": "The sum of two step functions is pointwise", "statement": "(f+g)(x)=f(x)+g(x) and (f-g)(x)=f(x)-g(x) for every x in the interior of the intervals of f and g.", "quantifier": "all step functions, all arguments", "why_tests_cant": "all functions and arguments", "anchors": ["include/aleph/math/StepFunction.hh: operator+=, clean"]}
{"id": "C61", "title": "The integral of the persistence indicator function is the total persistence", "statement": "persistenceIndicatorFunction(D).integral() is the sum of the lengths of the intervals of D, provided that no value is both the start of one interval and the end of one.", "quantifier": "all diagrams with fewer than 2^32 points all on one side of the diagonal", "why_tests_cant": "all diagrams", "anchors": ["include/aleph/persistenceDiagrams/PersistenceIndicatorFunction.hh: persistenceIndicatorFunction", "include/aleph/math/StepFunction.hh: integral"]}
{"id": "C62", "title": "Absolute value and integral of piecewise linear functions", "statement": "abs() is the pointwise absolute value and integral() the area between the graph and the x-axis for every function built from value pairs and for every difference f-g of functions with the same first and last breakpoint. (For sums f+g and f+c this fails, since crossings of the axis are not inserted.)", "quantifier": "all piecewise linear functions", "why_tests_cant": "all functions and arguments; the defect for sums needs a change of sign inside a segment", "anchors": ["include/aleph/math/PiecewiseLinearFunction.hh: abs, integral, apply, insertIntersectionPoints"]}
{"id": "C63", "title": "The Wasserstein distance satisfies the triangle inequality", "statement": "With power 1, wassersteinDistance(D1,D3) is at most wassersteinDistance(D1,D2)+wassersteinDistance(D2,D3), for every symmetric point distance with a triangle inequality for which the distance to the diagonal changes at most by the distance of the points.", "quantifier": "all triples of diagrams of the same dimension", "why_tests_cant": "all triples of diagrams; compares three optimisation problems", "anchors": ["include/aleph/persistenceDiagrams/distances/Wasserstein.hh: wassersteinDistance"]}
{"id": "C64", "title": "for_each_combination visits every combination once", "statement": "for_each_combination(first, first+k, last, f) calls f once for each choice of k positions, in lexicographic order of the positions and with the elements in the order of their positions, until a call returns true; if none does, the range is left as it was.", "quantifier": "all ranges and k, all function objects with any state", "why_tests_cant": "all lengths; the in-place rotations depend on the lengths of both parts", "anchors": ["include/aleph/math/Combinations.hh: for_each_combination, detail::combine_discontinuous, detail::rotate_discontinuous"]}
{"id": "C65", "title": "count_each_combination is the binomial coefficient or throws", "statement": "count_each_combination(d1,d2) returns the binomial coefficient of d1+d2 over d1 if it is representable in the unsigned type and throws std::overflow_error otherwise, without any intermediate overflow; it is the number of calls made by for_each_combination.", "quantifier": "all unsigned types and all d1, d2", "why_tests_cant": "all arguments and word sizes", "anchors": ["include/aleph/math/Combinations.hh: count_each_combination, gcd"]}
{"id": "C66", "title": "Intersections of a simplex with a complex", "statement": "intersect(K,s) is {s} for a simplex of K; otherwise, for a closed K, it consists of exactly the simplices of K that are faces of s, which are all non-empty intersections of s with simplices of K. intersectWithConstrainedDimension(K,s) consists of the non-empty intersections with the simplices of the dimension of s; for a vertex of a closed K these are all intersections.", "quantifier": "all complexes reachable through the interface and all non-empty simplices", "why_tests_cant": "all complexes and simplices", "anchors": ["include/aleph/topology/Intersections.hh: intersect, intersectWithConstrainedDimension"]}
{"id": "C67", "title": "The last lexicographical intersection", "statement": "lastLexicographicalIntersection(K,s) is the stored face of s of the highest dimension, among these the last one in lexicographic order, or the empty simplex if no face of s is stored.", "quantifier": "all complexes reachable through the interface and all simplices", "why_tests_cant": "all complexes and simplices", "anchors": ["include/aleph/topology/Intersections.hh: lastLexicographicalIntersection"]}
{"id": "C68", "title": "Dowker source and sink complexes", "statement": "buildDowkerSinkSourceComplexes returns as source complex exactly the non-empty vertex sets (with at most dimension+1 vertices unless dimension is 0) whose members all have a pair with a common source; the data of a simplex is the smallest weight m such that one source has pairs of weight at most m to all its vertices. Sinks likewise. Both results are closed under faces, in filtration order with increasing data, and do not depend on the order of hash tables.", "quantifier": "all lists of weighted pairs, also with repeated pairs, and all dimension limits", "why_tests_cant": "all lists of pairs, all weights, all hash orders", "anchors": ["include/aleph/geometry/DowkerComplex.hh: buildDowkerSinkSourceComplexes"]}
{"id": "C69", "title": "The Dowker source complex of a matrix", "statement": "buildDowkerSourceComplex uses exactly the ordered pairs of vertices at a distance of at most epsilon (admissiblePairs) and returns the vertex sets that are within epsilon of a common source, each with the smallest radius for which that holds; it is closed under faces, monotone, and in filtration order with increasing data.", "quantifier": "all distance matrices, thresholds and dimension limits", "why_tests_cant": "all matrices", "anchors": ["include/aleph/geometry/DowkerComplex.hh: admissiblePairs, buildDowkerSourceComplex"]}
{"id": "C70", "title": "The Cech complex", "statement": "buildCechComplex returns all points and exactly the sets of at least two points whose smallest enclosing ball has a squared radius of at most r*r, with the diameter of the ball as data (0 for points). Stopping at the first size without simplices loses nothing. The result is closed under faces and in filtration order with increasing data.", "quantifier": "all point sets and radii; the squared radius is any function that is monotone under inclusion", "why_tests_cant": "all subsets of all point sets", "anchors": ["include/aleph/geometry/CechComplex.hh: buildCechComplex"]}
{"id": "C71", "title": "Vietoris-Rips complex of a point cloud", "statement": "buildVietorisRipsComplex, given a wrapper for n points, a threshold epsilon and a dimension, returns the complex whose simplices are exactly the non-empty sets of at most dimension+1 of the points 0..n-1 whose pairwise distances (first argument the smaller index) are strictly less than epsilon. Vertices have data 0, all other simplices have the largest pairwise distance of their points as data. The overload with a range of values gives each simplex the largest value of its points instead. The result is closed under faces, ordered by data, and every simplex is behind all of its faces. Precondition: non-negative distances; at least n values that are not less than the lowest value of the data type.", "quantifier": "all orders of the hash container, numbers of points, distances, thresholds, dimensions, values", "why_tests_cant": "The number of simplices is exponential in the number of points; the strict threshold only matters for ties", "anchors": ["include/aleph/geometry/VietorisRipsComplex.hh: buildVietorisRipsComplex", "include/aleph/geometry/RipsSkeleton.hh: RipsSkeleton::operator()", "include/aleph/geometry/RipsExpander.hh: RipsExpander", "include/aleph/geometry/BruteForce.hh: BruteForce"]}
{"id": "C72", "title": "Brute-force neighbour search", "statement": "BruteForce::radiusSearch returns, for each point i, exactly the points j with dist(i,j) < radius, in ascending order, and their distances. BruteForce::neighbourSearch with k at most the number of points returns, for each point, k different points sorted by distance such that no point left out is nearer than one returned, together with their distances. With k larger than the number of points the behaviour is undefined.", "quantifier": "all numbers of points, distances, radii, k", "why_tests_cant": "Ties and k larger than the number of points are rarely tested", "anchors": ["include/aleph/geometry/BruteForce.hh: BruteForce::radiusSearch", "include/aleph/geometry/BruteForce.hh: BruteForce::neighbourSearch"]}
{"id": "C73", "title": "Barycentric subdivision", "statement": "For a non-empty complex K that contains all faces of its simplices, BarycentricSubdivision returns the complex whose simplices are exactly the chains of simplices of K: the original vertices keep their number, every other simplex gets a new vertex (consecutive numbers after the largest vertex, by dimension, no two equal), and the simplex of a chain consists of the vertices of its members. Original vertices keep their data; a new vertex has the data of its simplex times functor(0); any other simplex has the data of the largest simplex of its chain times functor(number of its vertices). The result contains all faces; with the default functor, data that never decreases from faces to cofaces still does not. If K has a vertex but misses a face of one of its simplices, runtime_error is thrown.", "quantifier": "all complexes, functors, orders of the hash container", "why_tests_cant": "Number of chains is factorial in the dimension; the data of inner simplices is never inspected by tests", "anchors": ["include/aleph/topology/BarycentricSubdivision.hh: BarycentricSubdivision::operator()", "include/aleph/topology/BarycentricSubdivision.hh: BarycentricSubdivision::collectBoundaries"]}
{"id": "C74", "title": "Distances of vectors and points", "statement": "Manhattan, Hamming and Euclidean functors, called with two vectors of at least size entries and no bound (worstDistance <= 0), return the sum of the absolute differences, the number of differing positions, and the sum of the squared differences of the first size entries. With a positive bound, Manhattan and Hamming return the distance or a smaller number that is larger than the bound. Manhattan and Hamming distance are symmetric, zero exactly for equal entries, and satisfy the triangle inequality. accum_dist summed over all components is the distance for Manhattan and Euclidean. For points, Euclidean is the squared distance and InfinityDistance the maximum norm. Fewer entries than size: undefined behaviour.", "quantifier": "all vectors, sizes, bounds, points", "why_tests_cant": "The unrolled loop treats sizes modulo 4 differently", "anchors": ["include/aleph/geometry/distances/Manhattan.hh: Manhattan::operator()", "include/aleph/geometry/distances/Hamming.hh: Hamming::operator()", "include/aleph/geometry/distances/Euclidean.hh: Euclidean::operator()", "include/aleph/geometry/distances/Infinity.hh: InfinityDistance::operator()"]}
{"id": "C75", "title": "Norms of persistence diagrams and extraction of persistence values", "statement": "totalPersistence(D,k) is the sum of |persistence|^k over all points, with weights |x| if requested; it does not depend on the order of the points, adds up under merge, is non-negative and, without weights and for k > 0, is 0 exactly if all points are on the diagonal. pNorm throws runtime_error for p = 0 and otherwise takes the p-th root. infinityNorm is the largest |persistence|, 0 for the empty diagram; its k-th power is at most the total persistence, which is at most the number of points times that. persistence writes the persistence values in order, weightedPersistence one value per distinct point in lexicographic order: its multiplicity over the number of points times its persistence; these values add up to the mean persistence.", "quantifier": "all persistence diagrams and natural exponents", "why_tests_cant": "All multisets of points, in all orders", "anchors": ["include/aleph/persistenceDiagrams/Norms.hh: totalPersistence", "include/aleph/persistenceDiagrams/Norms.hh: pNorm", "include/aleph/persistenceDiagrams/Norms.hh: infinityNorm", "include/aleph/persistenceDiagrams/Extraction.hh: persistence", "include/aleph/persistenceDiagrams/Extraction.hh: weightedPersistence"]}
{"id": "C76", "title": "Sample statistics", "statement": "sampleMean is the arithmetic mean (NaN for an empty range) and lies between the smallest and the largest value. sampleVariance is NaN for fewer than two values and otherwise the sum of the squared deviations over n-1; it is non-negative, and zero exactly if all values are equal. Mean and variance transform as expected under x -> a*x+b. sampleCovariance is symmetric, equals the variance for equal ranges, and its square is at most the product of the variances; ranges of different sizes with at least two values each throw runtime_error, ranges with fewer than two values give NaN. sampleKurtosis is the fourth central moment over the square of the second one minus 3, at least -2, and NaN exactly if all values are equal; sampleSkewness likewise.", "quantifier": "all ranges of rational numbers", "why_tests_cant": "All ranges; inequalities over all of them", "anchors": ["include/aleph/math/Statistics.hh: sampleMean", "include/aleph/math/Statistics.hh: sampleCovariance", "include/aleph/math/Statistics.hh: sampleVariance", "include/aleph/math/Statistics.hh: sampleSkewness", "include/aleph/math/Statistics.hh: sampleKurtosis"]}
{"id": "C77", "title": "Optimal pairings and the mean of persistence diagrams", "statement": "detail::optimalPairing(D1,D2) lists one pair per row of the extended cost matrix, in the order of the first diagram; its pairs of proper points are a partial matching of smallest cost, and that cost is returned; different dimensions throw runtime_error. mean of an empty range throws out_of_range. In each round a point of the estimate is replaced by the arithmetic mean of its partners in all diagrams (the projection to the diagonal where it has none). For diagrams of dimension 0 the result, if the iteration ends, has no diagonal points and no more points than the diagram picked at first; diagrams with the same off-diagonal points in any order have that diagram as mean, after one round.", "quantifier": "all persistence diagrams of dimension 0, all random choices", "why_tests_cant": "All diagrams; the random choice of the start", "anchors": ["include/aleph/persistenceDiagrams/Mean.hh: detail::optimalPairing", "include/aleph/persistenceDiagrams/Mean.hh: mean"]}
{"id": "C78", "title": "Combinatorial curvature", "statement": "For a simplicial complex closed under faces, `curvature( K, out, p )` writes for every p-simplex with a coface Forman's combinatorial curvature (number of cofaces plus number of faces minus number of parallel neighbours, which are the other p-simplices sharing exactly one of a face and a coface), converted to the unsigned vertex type; for a p-simplex without a coface the value is one less if p >= 1 and one more if p = 0. `weightedCurvature` writes w(s) * ( sum w(s)/w(c) over cofaces + sum w(f)/w(s) over faces - | sum over siblings t and common cofaces of sqrt(w(s)w(t))/w(c) - sum over siblings and common faces of w(f)/sqrt(w(s)w(t)) | ); with unit weights this is Forman's combinatorial curvature of every simplex, including the maximal ones. `angleDefectCurvature` writes 2*pi - acos(1/n) * (number of n-simplices containing s) for every (n-2)-simplex of a complex of dimension n, nothing if n < 2, and throws a runtime_error for an empty complex.", "quantifier": "for all simplicial complexes produced by any sequence of operations, closed under faces; all dimensions p; all positive weights; all sizes of the vertex type", "why_tests_cant": "The test of the library looks at a few small graphs; agreement of the counting loops with the definition for all complexes, and of the weighted with the unweighted version, is a statement about infinitely many complexes.", "anchors": ["include/aleph/topology/CombinatorialCurvature.hh: curvature, parallelNeighbours, weightedCurvature, commonFaces, commonCofaces, angleDefectCurvature"]}
{"id": "C79", "title": "Persistent intersection homology", "statement": "For a simplicial complex K that is closed under faces and ordered as a filtration, a sequence X of simplicial complexes (strata) that passes the checks and has a complex for every codimension that is looked up, and a perversity p, `calculateIntersectionHomology( K, X, p )` succeeds; its result does not depend on the reduction algorithm, on dualization or on the order of the hash container. A simplex s is allowable if for every codimension k (from 1, or from 2 for a Goresky-MacPherson perversity) all simplices of X[d-k] contained in s have dimension at most dim s - k + p(k). For x and y below the value of unpaired points, the number of points of the diagram of dimension e that are born at or before x and die after y is the rank of the map of the e-th intersection homology (chains of allowable simplices with allowable boundary) from the sublevel set of x to that of y. An empty complex, fewer than three or differing strata for a Goresky-MacPherson perversity, an empty stratum, and strata whose largest dimension is not that of K lead to a runtime_error; too few strata lead to an out_of_range exception.", "quantifier": "for all simplicial complexes produced by any sequence of operations that are closed under faces and in filtration order, all sequences of strata, all perversities of both classes (and all functions), all reduction algorithms, with and without dualization, all orders of the hash container, all thresholds", "why_tests_cant": "The tests look at three triangulations and compare Betti numbers; that the partition of the columns, the reduction of a matrix that is not upper triangular and the filtered pairing together give intersection homology ranks is a statement about all complexes, strata and thresholds.", "anchors": ["include/aleph/persistentHomology/PhiPersistence.hh: calculateIntersectionHomology, partition, Perversity, PerversityGM", "include/aleph/persistentHomology/Calculation.hh: calculatePersistencePairing, makePersistenceDiagrams", "include/aleph/topology/Conversions.hh: makeBoundaryMatrix", "include/aleph/topology/Intersections.hh: lastLexicographicalIntersection"]}
{"id": "C80", "title": "Witness complexes of landmarks", "statement": "For a non-empty container, non-empty landmark indices inside of it, nu at most the number of landmarks and distances that are non-negative and below the largest number, `buildWitnessComplex` yields a complex on the landmark positions: a set of at most dimension+1 (by default, ambient dimension+2) positions is a simplex if and only if every pair u,v in it has a witness, that is, a point k whose distances to both landmarks are at most R plus the nu-th smallest distance of k to the landmarks (0 for nu=0). Vertices have data 0, an edge has the smallest value, over its witnesses, of the larger of the two distances, a larger simplex has the maximum over its edges; the complex is closed under faces and in filtration order. Empty input leads to an empty complex; nu one above the number of landmarks leads to an out_of_range exception; larger nu and landmarks outside of the container are undefined.", "quantifier": "for all containers (distance functions), sets of landmarks, parameters dimension, nu and R, all orders of the hash container and all implementations of nth_element that satisfy its contract", "why_tests_cant": "The tests build witness complexes of sampled spheres and tori and look at Betti numbers; which simplices belong to the complex and what happens at the limits of nu is not tested.", "anchors": ["include/aleph/geometry/WitnessComplex.hh: buildWitnessComplex", "include/aleph/geometry/RipsExpander.hh: RipsExpander"]}
{"id": "C81", "title": "Max-min and random landmarks", "statement": "For n at most the number of points and distances inside of the range of the type, `generateMaxMinLandmarks` returns max(1,n) indices: the first one is random, every other one is the smallest index whose distance to the nearest landmark before it is largest. For n at least 2 there is rho such that every point is within rho of one of the first n-1 landmarks and all landmarks are at least rho apart; for a metric, any choice of n-1 centres leaves some point at distance at least rho/2 from all of them. If only equal points have distance zero, the landmarks are distinct. Too large n leads to an out_of_range exception. `generateRandomLandmarks` returns k distinct valid indices if there are k, and is undefined otherwise.", "quantifier": "for all distance functions, numbers of points, numbers of landmarks and random choices", "why_tests_cant": "The tests do not call these functions on their own; the approximation guarantee quantifies over all sets of centres.", "anchors": ["include/aleph/geometry/WitnessComplex.hh: generateMaxMinLandmarks, generateRandomLandmarks"]}
{"id": "C82", "title": "Sum of minimum distances of persistence diagrams", "statement": "For two non-empty diagrams and a local distance that does not exceed the largest number, `sumOfMinimumDistances` is half of the sum of the distances of every point to the nearest point of the other diagram. Two empty diagrams have distance zero; an empty and a non-empty diagram have infinite (or the largest) distance. The result is symmetric if the local distance is; for a metric, it is zero for non-empty diagrams if and only if they have the same set of points.", "quantifier": "for all diagrams and all local distance functors (metrics, where required)", "why_tests_cant": "The tests evaluate the distance for a few diagrams; symmetry and the characterisation of zero are statements about all pairs of diagrams.", "anchors": ["include/aleph/persistenceDiagrams/distances/PointSet.hh: sumOfMinimumDistances", "include/aleph/math/KahanSummation.hh: accumulate_kahan_sorted"]}
{"id": "C83", "title": "Entropies of persistence diagrams", "statement": "`persistentEntropy` of a diagram without unpaired points whose points are strictly on the same side of the diagonal is minus the sum of s log s over the shares s of the points in the total persistence; it is not negative and depends neither on the order of the points nor on the unit of the filtration. `nearestNeighbourAreaEntropy` of at least two points is the entropy of the shares of the squared distances to the nearest other point, if one of them is not zero. `gridEntropy` for at least two subdivisions and non-constant births and deaths is the entropy of the number of points in the cells of the grid; every point belongs to a cell inside of the grid.", "quantifier": "for all diagrams, all (exact) functions log, all numbers of subdivisions", "why_tests_cant": "There are no tests of these functions; that no cell outside of the grid is accessed and that the sums have the required values holds for all diagrams.", "anchors": ["include/aleph/persistenceDiagrams/Entropy.hh: persistentEntropy, nearestNeighbourAreaEntropy, gridEntropy, RegularGrid, makePointCloud", "include/aleph/geometry/BruteForce.hh: neighbourSearch"]}
{"id": "C84", "title": "String utilities", "statement": "`trim` returns what remains of a string after removing whitespace from both ends: the string is whitespace, the result and whitespace, and the result neither starts nor ends with whitespace; this determines it. `split` with a class of separators returns exactly the tokens separated by non-empty runs of separators: the first one may be empty, all others are not, separators at the end are ignored, the empty string has one empty token. `splitByWhitespace` returns the non-empty tokens and `countTokens` their number. `convert` to an integral type yields a number in the range of the type for its decimal representation, preceded by whitespace and followed by anything but a digit, and reports success; a plus sign before a non-negative number is ignored; it yields zero and failure if there is no number. For types with special values, `inf`, `infinity` (with or without a plus sign), `-inf`, `-infinity` and `nan` in any mixture of upper and lower case yield these values and success, and no other string that is not a number does.", "quantifier": "for all strings, all classes of separators, all integers and all ranges of the integral type", "why_tests_cant": "The tests split a handful of strings; the characterisation covers all strings, including the limits (empty strings, separators at either end).", "anchors": ["include/aleph/utilities/String.hh: ltrim, rtrim, trim, split, splitByWhitespace, countTokens, convert"]}
{"id": "C85", "title": "Point clouds", "statement": "A point cloud made for `n` points of dimension `d` has `n` points with coordinates `T()`. `set` replaces exactly the point with the given index, `get` and `operator[]` return it; an index out of range and (for `set`) a number of coordinates different from the dimension are reported by an exception. `operator+` has the points of the first cloud followed by those of the second, and throws if their dimensions differ. Clouds are equal if and only if dimensions and points are. Loading a file whose lines are all terminated yields one point for each line that is neither blank nor a comment, in the order of the lines; if their numbers of coordinates differ, there is an exception. Loading what has been written for a non-empty cloud of positive dimension yields the same cloud.", "quantifier": "for all element types, all point clouds, all files and all representations of elements that can be read again", "why_tests_cant": "The tests load a few files and access some points; the theorems cover all files and all sequences of accesses.", "anchors": ["include/aleph/containers/PointCloud.hh: PointCloud, set, get, operator[], operator+, operator==, load, operator<<"]}
{"id": "C86", "title": "Reading matrices as grids", "statement": "Reading a file with one row of `w > 0` numbers per line (in the range of the data type, separated by white space) yields the triangulated grid: the vertices are the cells, numbered row by row, with the values of the matrix; the simplices are exactly the sets of pairwise neighbouring cells (right, below, below right) with at most three elements, or two if triangles are not requested. The data of an edge or triangle are those of the functor, and for the maximum they are the maximum over the vertices. The complex is closed under faces and in filtration order; its numbers of simplices are `h*w`, `h*(w-1) + (h-1)*w + (h-1)*(w-1)` and `2*(h-1)*(w-1)`. Rows with different numbers of values are reported by an exception.", "quantifier": "for all matrices of integers, all ways of writing them with white space, all functors", "why_tests_cant": "The tests read one matrix; the theorem covers all sizes (also those with a single row or column) and checks the shape of the grid.", "anchors": ["include/aleph/topology/io/Matrix.hh: MatrixReader::operator()"]}
{"id": "C87", "title": "Reading adjacency matrices", "statement": "Reading a file with a square matrix of integers (one row per line; empty lines are permitted) yields the complex whose vertices are the `n` rows and whose edges are the pairs `u < v` (without those of weight zero if these are to be ignored) with data `f(max, min, entry(u,v))`, where `max` and `min` are the extremes of all entries. The vertices have the data given by the strategy. The result is sorted by data, closed under faces, and in filtration order whenever the weight of the vertices is at most `f(max, min, z)` for all entries `z`, in particular by default. For every text, the complex is unchanged if no number can be read, and an exception is thrown if the number of values is not the square of the number of lines that are counted.", "quantifier": "for all square matrices of integers, all texts, all functors, flags and strategies", "why_tests_cant": "The tests read a few files; the theorems cover all matrices and all texts, and say which combinations of functor and strategy give a filtration.", "anchors": ["include/aleph/topology/io/AdjacencyMatrix.hh: AdjacencyMatrixReader::operator()"]}
{"id": "C88", "title": "Reading bipartite adjacency matrices", "statement": "Reading a file with an `h` by `w` matrix of integers, one row per line, yields the complex with vertices `0..h+w-1` and the edges `{y, h+x}` with the entries as data. Vertices get the least entry of the matrix, or, if requested, the least entry (least in absolute value) of their row or column. The result is sorted by data and closed; it is in filtration order unless the least absolute values are requested and there are negative entries. For every text with a number there is no division by zero, and an exception is thrown if and only if the number of values is not a multiple of the number of lines.", "quantifier": "for all matrices of integers, all texts and all flags", "why_tests_cant": "The tests read a few files; the theorems cover all matrices and all texts and state the weights of vertices.", "anchors": ["include/aleph/topology/io/BipartiteAdjacencyMatrix.hh: BipartiteAdjacencyMatrixReader::operator()"]}
{"id": "C89", "title": "Reading lists of edges", "statement": "Reading a file whose lines are comments, white space, or two vertices optionally followed by weights yields the complex of these edges: its simplices are exactly the sets {u}, {v} and {u, v} for the edges of the list (a loop contributes its vertex only), the vertices have data 0, and an edge has the weight of its first mention (0 without a weight, or if weights are not read). The complex is closed under faces and in filtration order. If vertices are numbers they are used as they are; if they are labels, they are numbered from 0 in the order in which they first occur (for a new reader). For every text, the reader either reports a line with fewer than two tokens by an exception or yields the complex of some list of edges.", "quantifier": "for all lists of edges, all ways of writing them with white space, all texts for the last statement", "why_tests_cant": "The tests read two files; the theorems cover all lists, duplicate edges in both orientations, loops, comments, and lines without terminator (which are processed twice).", "anchors": ["include/aleph/topology/io/EdgeLists.hh: EdgeListReader::operator()"]}
{"id": "C90", "title": "Reading lists of triangulations", "statement": "Reading a file in the format of lexicographic enumerations, i.e. blocks `name=[[1,2,3],[1,2,4],...]` that may span several lines, with white space around names, numbers and commas, and with blank lines and comments anywhere, yields one complex per block in the order of the file. The complex has exactly the simplices of the list, in the order of the list and without repetitions, with data 0. The parser terminates with at most one iteration per character.", "quantifier": "for all sequences of lists of non-empty sets of vertices, all ways of writing them, all ways of breaking lines", "why_tests_cant": "The tests read one file; the theorem covers all files of the format, and termination.", "anchors": ["include/aleph/topology/io/LexicographicTriangulation.hh: LexicographicTriangulationReader::operator()", "include/aleph/topology/io/LexicographicTriangulation.hh: LexicographicTriangulationReader::parseBlock"]}
{"id": "C91", "title": "Extended persistence hierarchies", "statement": "For a complex whose simplices are closed under faces, the functor terminates without undefined behaviour and reports the pairs of the elder rule for the filtration of its vertices and edges: one pair for each edge that joins two components, in the order of these edges, of the eldest vertex of the younger component and the edge, followed by the eldest vertices of the remaining components, in the order of the vertices. For each component that lasts (its data differ from those of the edge) there is exactly one edge of the hierarchy, in the same order: its child is the eldest vertex y of the component, its parent is the critical point of the older component (the last component that lasted and was merged into it, or its eldest vertex) if a shortest path between the critical points of both components, in the subgraph of vertices and edges whose data lie between those of the older critical point and those of the edge, carries exactly two different tags; otherwise, also if there is no such path, the parent is the eldest vertex of the older component. The tag of an edge is the vertex to which its older end leads along previous edges of no persistence. Every edge attaches a component to a vertex of the older component, so that the hierarchy is a forest.", "quantifier": "for all complexes built through the interface that are closed under faces, all orders of the hash set of roots", "why_tests_cant": "The test compares two functions on five points; the theorem covers all complexes, ties, and disconnected interlevel sets, and includes termination of the search for paths and of the walk back.", "anchors": ["include/aleph/persistentHomology/ExtendedPersistenceHierarchy.hh: ExtendedPersistenceHierarchy::operator()"]}
{"id": "C92", "title": "Cover trees", "statement": "Inserting a non-empty sequence of points (in any order, with duplicates) into an empty tree, with a symmetric distance that satisfies the triangle inequality and vanishes for equal points, terminates and yields a tree with exactly these points, as often as they occur, in which every child has a smaller level than its parent by one, lies within distance 2^level of its parent, and in which the children of a node of level l have pairwise distances larger than 2^(l-1); isValid returns true, and every point lies within distance 2^(level+1) of the root. For every tree, each of the three checks returns true if and only if its invariant holds, and isValid does if and only if all of them hold. getNodesByLevel reports each point once, together with its level, in ascending order of levels.", "quantifier": "for all point types, all distances with the stated properties, all sequences of points; for the checks and the levels: all trees", "why_tests_cant": "Tests insert seven numbers and a single data set; the theorem covers all metrics and all orders of insertion, in particular the loop that raises the root, for which the choice of the leaf matters and whose termination is not evident.", "anchors": ["include/aleph/geometry/CoverTree.hh: CoverTree::insert", "include/aleph/geometry/CoverTree.hh: CoverTree::checkLevelInvariant", "include/aleph/geometry/CoverTree.hh: CoverTree::checkCoveringInvariant", "include/aleph/geometry/CoverTree.hh: CoverTree::checkSeparatingInvariant", "include/aleph/geometry/CoverTree.hh: CoverTree::isValid", "include/aleph/geometry/CoverTree.hh: CoverTree::getNodesByLevel", "include/aleph/geometry/CoverTree.hh: CoverTree::points"]}
{"id": "C93", "title": "Harmonic points of cover trees", "statement": "For a cover tree of pairwise different points and a metric, isHarmonic terminates. Its result is true if and only if the distances between the point and those nodes that cover it, on the way from the root down (always to the first child that covers the point), strictly decrease. Afterwards the tree is a cover tree of the same points.", "quantifier": "for all point types, all metrics, all cover trees without duplicates, all points, all results of sorting the points by their distance", "why_tests_cant": "There is no test of this function; termination of the loop that looks for a level depends on the points being different.", "anchors": ["include/aleph/geometry/CoverTree.hh: CoverTree::isHarmonic"]}
{"id": "C94", "title": "Meshes keep the faces they are given", "statement": "Vertices that are added without IDs get the IDs 0, 1, 2, ... and keep their data. After any sequence of calls of addVertex and addFace that return, every face, traversed from its first edge, has the vertices with which it was added, in their order. If every vertex belongs to a face, then faces reports pairwise different faces among those that were added, at most one for each vertex, and numFaces their number.", "quantifier": "for all sequences of calls of addVertex and addFace with non-empty ranges, all orders of the hash containers", "why_tests_cant": "The test adds two triangles. The theorem covers all meshes, including those in which boundary edges are linked repeatedly while faces are added; that the half-edges of older faces are never relinked depends on all of these steps.", "anchors": ["include/aleph/topology/Mesh.hh: Mesh::addVertex", "include/aleph/topology/Mesh.hh: Mesh::addFace", "include/aleph/topology/Mesh.hh: Face::vertices", "include/aleph/topology/Mesh.hh: Mesh::faces", "include/aleph/topology/Mesh.hh: Mesh::numFaces"]}
{"id": "C95", "title": "Neighbours in meshes", "statement": "After any sequence of calls of addVertex and addFace that return: if link returns for a vertex, then all vertices it reports are next to the given vertex in one of the faces; getLowerNeighbours and getHigherNeighbours report those of them with smaller and larger data, in the same order; hasEdge returns whether a vertex is among them. If star returns, the result consists of the faces that getFaces reports for the vertex, which are faces of the mesh, and of their vertices with the same IDs, coordinates and data. If a polygon of at least three different vertices is added to a mesh without faces, then addFace returns, and the link of each of its vertices consists of the previous and the next vertex.", "quantifier": "for all sequences of calls of addVertex and addFace with non-empty ranges; for the polygon: all numbers of vertices; all orders of the hash map", "why_tests_cant": "The tests check the sizes of five links in one mesh. The theorem covers all meshes; the statement on polygons includes termination of the loop around the boundary for every number of vertices.", "anchors": ["include/aleph/topology/Mesh.hh: Mesh::link", "include/aleph/topology/Mesh.hh: Mesh::getLowerNeighbours", "include/aleph/topology/Mesh.hh: Mesh::getHigherNeighbours", "include/aleph/topology/Mesh.hh: Mesh::hasEdge", "include/aleph/topology/Mesh.hh: Mesh::star", "include/aleph/topology/Mesh.hh: Mesh::addFace"]}
{"id": "C96", "title": "for_each_permutation visits every arrangement once", "statement": "for_each_permutation calls the function object once for each arrangement of k of the n elements of a range, with the arranged elements: for the choices of k positions in lexicographic order, and for each choice in lexicographic order of the arrangements. It stops at the first call that returns true or throws, and returns true in the first case. Otherwise the range has its original contents at the end.", "quantifier": "for all ranges, also with equal elements, all k <= n, all function objects (with a state, returning true or throwing at any call)", "why_tests_cant": "The project has no test. Numbers of arrangements grow factorially, so that tests are restricted to very short ranges; the restoration of the range depends on all rotations and reversals of a recursion that treats ranges of up to three elements separately.", "anchors": ["include/aleph/math/Combinations.hh: for_each_permutation", "include/aleph/math/Combinations.hh: permute", "include/aleph/math/Combinations.hh: combine_discontinuous"]}
{"id": "C97", "title": "for_each_circular_permutation visits every circle once", "statement": "for_each_circular_permutation calls the function object for arrangements of k of the n elements such that every arrangement on a circle is met exactly once: for every arrangement there is exactly one among those of the calls that differs from it by a rotation. The calls are in the order of C96, and the range is restored.", "quantifier": "for all ranges, all k <= n, all function objects", "why_tests_cant": "The project has no test. The statement is about classes of arrangements under rotation for all lengths.", "anchors": ["include/aleph/math/Combinations.hh: for_each_circular_permutation", "include/aleph/math/Combinations.hh: permute"]}
{"id": "C98", "title": "for_each_reversible_permutation visits one of each arrangement and its reversal", "statement": "for_each_reversible_permutation calls the function object at most once for each arrangement of k of the n elements. For every arrangement, the arrangement or its reversal is among the calls; both are only if they are equal. The range is restored.", "quantifier": "for all ranges, all k <= n, all function objects", "why_tests_cant": "The project has no test. The algorithm moves the first element through the first half, and for odd lengths the second element through the first half while the first one is in the middle, with combinations of two and of three discontinuous ranges; five is the first length for which all of the branches run, and seven is the first for which the recursion for three ranges is entered.", "anchors": ["include/aleph/math/Combinations.hh: for_each_reversible_permutation", "include/aleph/math/Combinations.hh: reversible_permutation", "include/aleph/math/Combinations.hh: combine_discontinuous3", "include/aleph/math/Combinations.hh: rotate_discontinuous3"]}
{"id": "C99", "title": "for_each_reversible_circular_permutation visits every necklace once", "statement": "for_each_reversible_circular_permutation calls the function object for arrangements of k of the n elements of a non-empty range such that for every arrangement there is exactly one among those of the calls that differs from it by a rotation, or by a reversal and a rotation. The range is restored.", "quantifier": "for all non-empty ranges, all k <= n, all function objects", "why_tests_cant": "The project has no test. The statement is about classes of arrangements under the symmetries of a polygon for all lengths.", "anchors": ["include/aleph/math/Combinations.hh: for_each_reversible_circular_permutation", "include/aleph/math/Combinations.hh: reversible_permutation"]}
{"id": "C100", "title": "The counting functions agree with the numbers of calls", "statement": "count_each_permutation returns n (n-1) ... (n-k+1), where k = d1 and n = d1 + d2; count_each_circular_permutation returns this number divided by k (for k = 0: 1), count_each_reversible_permutation this number divided by 2 (for k <= 1: undivided), count_each_reversible_circular_permutation this number divided by 2 k (for k <= 2: as without reversal). Each function throws std::overflow_error if the number is not representable, and only then. The numbers are those of the calls in C96, C97, C98 and C99.", "quantifier": "for all d1 and d2, all unsigned types with a largest value of at least 1, d1 and d2", "why_tests_cant": "The project has no test. That intermediate products never exceed the largest value if the result does not is a statement about all numbers; a test for a type of 64 bits cannot count calls.", "anchors": ["include/aleph/math/Combinations.hh: count_each_permutation", "include/aleph/math/Combinations.hh: count_each_circular_permutation", "include/aleph/math/Combinations.hh: count_each_reversible_permutation", "include/aleph/math/Combinations.hh: count_each_reversible_circular_permutation"]}
{"id": "C101", "title": "buildBetaSkeletonNaive connects the pairs with an empty lune", "statement": "For points of a common dimension, buildBetaSkeletonNaive returns the complex of all vertices (data 0) followed by one edge for each pair i < j such that no third point is in both closed balls with radius beta/2 |pq| and centres p + beta/2 (q - p) and q + beta/2 (p - q). The edges are in lexicographic order, and their data are the distances.", "quantifier": "for all point clouds, also with duplicates, all beta, and all distance functors", "why_tests_cant": "Only small examples can be compared. The statement is about every third point for every pair.", "anchors": ["include/aleph/geometry/BetaSkeleton.hh: buildBetaSkeletonNaive", "include/aleph/utilities/ContainerOperators.hh: operator+", "include/aleph/utilities/ContainerOperators.hh: operator*"]}
{"id": "C102", "title": "Beta-skeletons are nested, and connected below 2", "statement": "With Euclidean distances and beta >= 0: a larger beta gives a subset of the edges. For beta = 1 the edges are those of the Gabriel graph, for beta = 2 those of the relative neighbourhood graph (both with closed regions). If all points are distinct and beta < 2, then the skeleton is connected; moreover, any two points are connected by a path of edges of which none is longer than their distance, so that the connected components at every scale are those of the Vietoris--Rips graph.", "quantifier": "for all point clouds and all beta (for connectivity: distinct points and 0 <= beta < 2)", "why_tests_cant": "Connectivity for all beta < 2 and all sets of points is a geometric theorem; a test only sees finitely many sets, and in general position the boundary cases (beta = 2, equal distances, duplicates) do not occur.", "anchors": ["include/aleph/geometry/BetaSkeleton.hh: buildBetaSkeletonNaive"]}
{"id": "C103", "title": "Bootstrap confidence intervals contain the demanded share of the replicates", "statement": "makeReplicates applies the functor to numSamples samples; each has the size of the data and consists of elements of the data at the drawn positions. For 0 < alpha <= 1, percentileConfidenceInterval returns the alpha/2- and (1-alpha/2)-quantiles of the replicates; more than (1-alpha) numSamples of the replicates are between them. basicConfidenceInterval reflects them at the value for the data. standardError is the root of the unbiased variance of the replicates, and 0 only if all of them are equal. For alpha = 0, without samples or without data, the intervals throw std::out_of_range.", "quantifier": "for all data, functors, sequences of random positions, numbers of samples, and alpha in the range", "why_tests_cant": "The functions are random; a test cannot enumerate the drawn positions, and off-by-one errors in the index of the quantile only change the interval by one replicate.", "anchors": ["include/aleph/math/Bootstrap.hh: makeReplicates", "include/aleph/math/Bootstrap.hh: percentileConfidenceInterval", "include/aleph/math/Bootstrap.hh: basicConfidenceInterval", "include/aleph/math/Bootstrap.hh: standardError", "include/aleph/math/Bootstrap.hh: index"]}
{"id": "C104", "title": "The weighted Laplacian is that of the graph of edges", "statement": "For a complex that contains the ends of its edges, weightedAdjacencyMatrix returns a square matrix whose rows and columns follow the ascending order of the vertices; an entry is the data of the edge between the two vertices, or 0. weightedLaplacianMatrix returns the symmetric matrix with the negative weights outside of the diagonal whose rows sum to zero. Its quadratic form is the sum of the weighted squared differences over the edges, so that it is positive semi-definite for non-negative weights; for positive weights, its kernel consists of the functions that are constant on connected components. If an edge has an end that is not in the complex, both functions throw std::out_of_range.", "quantifier": "for all complexes, weights, and functions on the vertices", "why_tests_cant": "The test of the project compares one matrix. Semi-definiteness and the kernel are statements about all vectors.", "anchors": ["include/aleph/geometry/HeatKernel.hh: weightedAdjacencyMatrix", "include/aleph/geometry/HeatKernel.hh: weightedLaplacianMatrix", "include/aleph/geometry/HeatKernel.hh: pinvWeightedLaplacianMatrix"]}
{"id": "C105", "title": "bisect returns two disjoint induced subcomplexes", "statement": "For a closed complex with at least two vertices, bisect returns two closed subcomplexes: those induced by the vertices whose coefficients in the second eigenvector are smaller than the median, and by the other vertices, with the filtration order of the complex. They share no vertices and contain all vertices; a simplex is in neither only if it has vertices in both. The first has at most as many vertices as the second. For a single vertex, std::runtime_error is thrown.", "quantifier": "for all complexes, all eigenvectors that the solver may return, all implementations of std::nth_element", "why_tests_cant": "The project has no test. The result depends on an eigenvector that is not unique if eigenvalues coincide; a test sees the choice of one solver only.", "anchors": ["include/aleph/topology/Partitions.hh: bisect", "include/aleph/math/Quantiles.hh: median"]}
{"id": "C106", "title": "The heat kernel solves the heat equation", "statement": "For a complex that contains the ends of its edges, and any orthonormal eigenbasis of the weighted Laplacian L, HeatKernel evaluated at vertices i and j and time t returns the entry of a family H(t) of symmetric matrices with H(0) the identity, derivative -L H(t), H(s) H(t) = H(s + t), rows that sum to 1, and positive diagonal. The evaluation at one vertex returns the diagonal, and trace its sum. For non-negative weights, the eigenvalues are non-negative, the first is 0, and the diagonal does not increase in t >= 0 and is at most 1.", "quantifier": "for all complexes, weights, times, and all orthonormal eigenbases that the solver may return", "why_tests_cant": "The project has no test with expected values. The heat equation and the semigroup law quantify over all times.", "anchors": ["include/aleph/geometry/HeatKernel.hh: HeatKernel"]}
{"id": "C107", "title": "The sampling interval of the heat kernel is a geometric progression", "statement": "For positive second and last eigenvalues and at least two samples, logarithmicSamplingInterval returns the required number of times, in geometric progression from 4 ln 10 divided by the last eigenvalue to 4 ln 10 divided by the second eigenvalue.", "quantifier": "for all heat kernels and numbers of samples", "why_tests_cant": "The project has no test of this function.", "anchors": ["include/aleph/geometry/HeatKernel.hh: logarithmicSamplingInterval"]}
{"id": "C108", "title": "Eccentricities are power means and maxima of distances", "statement": "For a distance that is not negative and 0 for a point and itself, eccentricities returns for a positive order p the non-negative number whose p-th power is the mean of the p-th powers of the distances to all points; for order 0 it returns the largest distance (for at least two points). For a metric, the eccentricities of two points differ by at most their distance, and no eccentricity exceeds a bound of the distances.", "quantifier": "for all numbers of points, distances and orders", "why_tests_cant": "The test of the project uses a single data set. The Lipschitz property is the Minkowski inequality, which no finite set of inputs shows.", "anchors": ["include/aleph/containers/DataDescriptors.hh: eccentricities"]}
{"id": "C109", "title": "Density estimates", "statement": "For k at most the number of points n, estimateDensityDistanceToMeasure returns at every point the negative sum of the distances to k points with the smallest sum, divided by n. For a positive bandwidth h, estimateDensityTruncatedGaussian returns the mean of exp( -d^2 / ( 2 h ) ) over all points, where points at distances d > h have weight 0; the density is at least 1 / n and at most 1 and does not decrease if h grows.", "quantifier": "for all numbers of points, distances, k and bandwidths", "why_tests_cant": "The tests of the project check only that the densities do not depend on the order of the points of one data set. Bounds and monotonicity quantify over all inputs.", "anchors": ["include/aleph/containers/DataDescriptors.hh: estimateDensityDistanceToMeasure", "include/aleph/containers/DataDescriptors.hh: estimateDensityTruncatedGaussian"]}
{"id": "C110", "title": "Lens depth counts lenses", "statement": "For a symmetric distance, estimateLensDataDepth returns for every point x the number of pairs { y, z } of other points such that the distances of x to y and to z are at most the distance of y and z.", "quantifier": "for all numbers of points and symmetric distances", "why_tests_cant": "The project has no test of this function.", "anchors": ["include/aleph/containers/DataDescriptors.hh: estimateLensDataDepth"]}
{"id": "C111", "title": "The correlation integral is the distribution function of the distances", "statement": "correlationDimensionIntegral returns the positive distances between points in ascending order without repetition, each with the share of the pairs of points that have at most this distance; the value at the largest distance is 1.", "quantifier": "for all numbers of points and distances", "why_tests_cant": "The test of the project checks only that the result is not empty.", "anchors": ["include/aleph/containers/FractalDimension.hh: correlationDimensionIntegral"]}
{"id": "C112", "title": "The correlation dimension is the slope of the regression line", "statement": "For sequences x and y of at least two positive numbers, correlationDimension returns the slope of a line that minimises the sum of the squared deviations of log y from a line in log x; there is no finite result if all x are equal. If y = c x^D for all samples and x is not constant, it returns D. Sequences of different lengths throw std::runtime_error.", "quantifier": "for all pairs of sequences", "why_tests_cant": "The test of the project checks that the dimension of one data set exceeds 1. Minimality quantifies over all lines.", "anchors": ["include/aleph/containers/FractalDimension.hh: correlationDimension", "include/aleph/math/Statistics.hh: sampleCovariance", "include/aleph/math/Statistics.hh: sampleVariance"]}
{"id": "C113", "title": "Mean-shift smoothing forms weighted means", "statement": "Without iterations, meanShiftSmoothing returns the values. Each iteration replaces the value of a point by the mean of the values of its neighbours after the iteration before, with the inverses of the distances as weights (1 for distance 0). All values stay within the bounds of the input, and smoothing commutes with affine transformations of the values.", "quantifier": "for all neighbour lists, values and numbers of iterations", "why_tests_cant": "The project has no test of this function. The claims are about every number of iterations.", "anchors": ["include/aleph/containers/MeanShift.hh: meanShiftSmoothing"]}
{"id": "C114", "title": "Nearest-neighbour estimates of the dimensionality", "statement": "For k >= 1 and ascending distances with sum s of the first k and next distance d, estimateLocalDimensionalityNearestNeighbours returns ( k + 1 ) s / ( k ( k d - s ) ), which is finite unless all the distances are equal. For a range of numbers of neighbours, it returns the quotient of the sums of ( r' - r ) r / k and ( r' - r )^2 over k = kMin, ..., kMax - 2, where r and r' are the means of the first k and k + 1 distances. The order of kMin and kMax is irrelevant, and 0 throws std::runtime_error.", "quantifier": "for all data sets and numbers of neighbours", "why_tests_cant": "The project has no test of this function. The claim quantifies over all data sets.", "anchors": ["include/aleph/containers/DimensionalityEstimators.hh: estimateLocalDimensionalityNearestNeighbours"]}
{"id": "C115", "title": "Spectral-gap estimates of the dimensionality", "statement": "estimateLocalDimensionalityPCA returns, for every neighbourhood with at least two singular values, the number of singular values before the first of the largest gaps.", "quantifier": "for all lists of singular values", "why_tests_cant": "The project has no test of this function. The claim quantifies over all data sets.", "anchors": ["include/aleph/containers/DimensionalityEstimators.hh: estimateLocalDimensionalityPCA"]}
{"id": "C116", "title": "Maximum-likelihood estimates of the dimensionality", "statement": "For 3 <= kMin <= kMax and points that differ from each other, estimateLocalDimensionalityNearestNeighboursMLE returns for every point the mean, over k = kMin - 1, ..., kMax - 1, of ( k - 1 ) divided by the sum of the logarithms of the ratios of the k-th distance and the distances before it (0 if they are all equal). The estimates are not negative, do not change if all distances are multiplied by a positive number, and do not depend on the order of kMin and kMax; 0 throws std::runtime_error.", "quantifier": "for all data sets and numbers of neighbours", "why_tests_cant": "The project has no test of this function. The claims quantify over all data sets.", "anchors": ["include/aleph/containers/DimensionalityEstimators.hh: estimateLocalDimensionalityNearestNeighboursMLE"]}
{"id": "C117", "title": "The multi-scale kernel is positive semidefinite", "statement": "For a positive sigma, 8 pi sigma times the result of multiScaleKernel is the sum, over the points p of the first and q of the second diagram, of exp( -|p - q|^2 / ( 8 pi ) ) - exp( -|p - q'|^2 / ( 8 pi ) ), where q' is the mirror image of q. The kernel is symmetric, additive with respect to the union of diagrams, not affected by points on the diagonal, and satisfies the Cauchy-Schwarz inequality; multiScalePseudoMetric is a pseudo-metric. The feature map of a diagram is the analogous sum for the diagram and itself with 4 instead of 8 and is not negative.", "quantifier": "for all persistence diagrams with finite points and positive sigma", "why_tests_cant": "The test of the project has two diagrams and compares with a tolerance. Cauchy-Schwarz and triangle inequality quantify over all diagrams.", "anchors": ["include/aleph/persistenceDiagrams/kernels/MultiScaleKernel.hh: multiScaleKernel", "include/aleph/persistenceDiagrams/kernels/MultiScaleKernel.hh: multiScaleFeatureMap", "include/aleph/persistenceDiagrams/kernels/MultiScaleKernel.hh: multiScalePseudoMetric"]}
{"id": "C118", "title": "Persistence-weighted Gaussian kernels", "statement": "For every weight function w and sigma other than 0, linearKernel with the default kernel returns the sum of w( p ) w( q ) exp( -|p - q|^2 / ( 2 sigma^2 ) ) over the points of both diagrams, is symmetric and satisfies the Cauchy-Schwarz inequality. For positive parameters and points with persistence >= 0, the default weight is in [ 0, pi / 2 ), grows with the persistence and is 0 exactly on the diagonal. pseudoMetric, however, is 0 for all pairs of diagrams, and gaussianKernel is 1.", "quantifier": "for all persistence diagrams with finite points, weight functions and parameters other than 0", "why_tests_cant": "The project has no test of this header. That the pseudo-metric is constant is a statement about all diagrams.", "anchors": ["include/aleph/persistenceDiagrams/kernels/KernelEmbedding.hh: linearKernel", "include/aleph/persistenceDiagrams/kernels/KernelEmbedding.hh: pseudoMetric", "include/aleph/persistenceDiagrams/kernels/KernelEmbedding.hh: gaussianKernel", "include/aleph/persistenceDiagrams/kernels/KernelEmbedding.hh: DefaultWeightFunction"]}
{"id": "C119", "title": "Kernel density estimates", "statement": "For a bandwidth h other than 0 and n >= 1 samples of dimension d, KernelDensityEstimator returns the value v with n h^d v equal to the sum of the kernel at norm( y, x ) / h over the samples y, in any order of the samples. A translation of the samples and x does not change it. For h > 0 and the Epanechnikov kernel or a Gaussian kernel it is not negative and at most the kernel at 0 divided by h^d. In dimension 1, the Epanechnikov estimate is the derivative of a function that is 0 up to the smallest sample - h and 1 from the largest sample + h, that is, it is a probability density.", "quantifier": "for all samples, bandwidths and points", "why_tests_cant": "The test of the project evaluates one Gaussian estimate at six points with a tolerance. That the density has integral 1 is a statement about all real numbers.", "anchors": ["include/aleph/math/KernelDensityEstimator.hh: KernelDensityEstimator", "include/aleph/math/KernelDensityEstimator.hh: Epanechnikov", "include/aleph/math/KernelDensityEstimator.hh: Gaussian"]}
{"id": "C120", "title": "Algebraic spheres", "statement": "For coefficients u0, ..., uk, s with s other than 0 and a real radius r, the zero set of the polynomial u0 + sum ui xi + s |x|^2 is the sphere of radius r around the negative of the point that centre() returns; for r > 0, the Gaussian curvature times r^2 and the mean curvature times r are 1. If s = 0, there is no finite radius and both curvatures are 0. The constructor throws std::runtime_error exactly for fewer than three coefficients.", "quantifier": "for all coefficients", "why_tests_cant": "The project has no test of this class. The description of the zero set quantifies over all points of the space.", "anchors": ["include/aleph/math/AlgebraicSphere.hh: AlgebraicSphere"]}
{"id": "C121", "title": "Random graphs", "statement": "For every sequence of results of the random number generator, generateErdosRenyiGraph returns n vertices followed by exactly the edges { u, v } of the successful trials, each pair of different vertices having one trial; all trials successful give n( n + 1 ) / 2 simplices, none gives n. generateWeightedRandomGraph returns n vertices and the pairs with at least one success before the first failure, with the number of these successes as weight, sorted by weight; it terminates if failures never stop to occur. Both results are valid simplicial complexes.", "quantifier": "for all numbers of vertices and sequences of random numbers", "why_tests_cant": "The tests of the project use the probabilities 0, 0.1, 0.5 and 1 for ten vertices and check only sizes.", "anchors": ["include/aleph/topology/RandomGraph.hh: generateErdosRenyiGraph", "include/aleph/topology/RandomGraph.hh: generateWeightedRandomGraph"]}
{"id": "C122", "title": "Segments of the links of a mesh", "statement": "For a mesh that was built by adding vertices and faces, a vertex whose link and the links of whose neighbours can be calculated, and whose lower and upper link (neighbours with values <= and >= its own, in the cyclic order of the link) are not empty, MorseSmaleComplex counts the segments correctly: the numbers are those of the classes of the relation 'follows cyclically in this part of the link and is adjacent'. It classifies the vertex as maximum exactly if no neighbour has a larger value, as minimum exactly if it is no maximum and no neighbour has a smaller value, and reports all vertices once.", "quantifier": "for all meshes, values and vertices", "why_tests_cant": "The only test of the project runs the algorithm for one mesh and checks no output.", "anchors": ["include/aleph/topology/MorseSmaleComplex.hh: MorseSmaleComplex::operator()", "include/aleph/topology/MorseSmaleComplex.hh: contiguousSegments"]}
{"id": "C123", "title": "Raw files of persistence diagrams", "statement": "load of Raw.hh ignores empty lines and lines starting with '#'. If every other line consists of exactly two words, the result is the diagram of dimension 0 with the converted words as points, in the order of the lines; otherwise std::runtime_error is thrown. For values whose printed text converts back to the value, for instance integers in the range of the type, reading the output of operator<< for a diagram yields its points in the same order.", "quantifier": "for all texts and diagrams", "why_tests_cant": "The project has no test of this header. Tests with single files do not cover all layouts of lines.", "anchors": ["include/aleph/persistenceDiagrams/io/Raw.hh: load", "include/aleph/persistenceDiagrams/PersistenceDiagram.hh: operator<<"]}
{"id": "C124", "title": "Persistence diagrams in JSON files", "statement": "writeJSON writes a JSON object with Betti number, dimension, the given key-value pairs, the name, the size and the points as pairs of strings, provided that no string contains a quotation mark, backslash or control character. readJSON reads an object whose member 'diagrams' is an array of such objects: it returns the diagrams in order, and throws std::runtime_error if a stored size or Betti number differs from that of the points, or if the member 'diagrams' is missing. Diagrams whose values can be printed and converted back, written one by one and put in such an array, are read back unchanged.", "quantifier": "for all diagrams, names, key-value pairs other than 'size' and 'diagram', and JSON texts with arbitrary space", "why_tests_cant": "The test of the project reads one file; writeJSON is not tested.", "anchors": ["include/aleph/persistenceDiagrams/io/JSON.hh: writeJSON", "include/aleph/persistenceDiagrams/io/JSON.hh: readJSON"]}
{"id": "C125", "title": "Samples of spheres and tori", "statement": "makeSphere and makeTorus return one point of dimension 3 per pair of angles, on the sphere of the given centre and radius, or on the torus with the given radii around the z-axis. For sphereSampling, the height of the point is an affine function of one of the uniform draws and the longitude is 2 pi times the other one. For every sequence of draws, torusRejectionSampling returns the first n accepted angles in order, an angle x being accepted if the second draw is smaller than ( 1 + r / R cos( x ) ) / ( 2 pi ), and it terminates if acceptable draws never stop to occur. If 0 <= r <= R, this density is proportional to the area and never larger than the bound 1 / pi of the second draw.", "quantifier": "for all angles, radii, centres and sequences of draws", "why_tests_cant": "The tests of the project use the samples as input of other algorithms and cannot check a random result exactly.", "anchors": ["include/aleph/geometry/SphereSampling.hh: sphereSampling", "include/aleph/geometry/SphereSampling.hh: makeSphere", "include/aleph/geometry/TorusSampling.hh: torusRejectionSampling", "include/aleph/geometry/TorusSampling.hh: makeTorus"]}
{"id": "C126", "title": "Parts of paths", "statement": "For a path that consists of a directory (empty, or ending with a slash), a non-empty name without slashes, and further slashes, basename returns the name; it returns the empty string for the empty path and '/' for a path of slashes only, and every path has one of these forms. stem and extension split the result of basename before its last dot if there is one and the name is neither '.' nor '..'; otherwise the extension is empty.", "quantifier": "for all paths without null characters", "why_tests_cant": "The test of the project checks a single path.", "anchors": ["include/aleph/utilities/Filesystem.hh: basename", "include/aleph/utilities/Filesystem.hh: stem", "include/aleph/utilities/Filesystem.hh: extension"]}
{"id": "C127", "title": "Complexes as lines and points", "statement": "If all vertices and edges of a simplicial complex refer to points with at least two coordinates, LinesAndPoints writes one line per vertex in the order of the complex with at most three coordinates and the optional label, two empty lines, and for every edge one line for each of its endpoints and an empty line. It throws std::runtime_error exactly if such a point has less than two coordinates.", "quantifier": "for all complexes without empty simplices, all points, and all formats of coordinates as non-empty texts without white space", "why_tests_cant": "The class is only used for the output of one test, which is not checked.", "anchors": ["include/aleph/topology/io/LinesAndPoints.hh: LinesAndPoints::operator()", "include/aleph/topology/io/LinesAndPoints.hh: LinesAndPoints::write"]}
{"id": "C128", "title": "Spectra as filtrations", "statement": "FlexSpectrumReader reads the lines that start with a digit. The complex is a path with one vertex per line, its data being the intensity, and edges between subsequent vertices with the minimum of their data. It is sorted such that data does not increase and faces precede cofaces. If normalisation is enabled and there are at least two lines whose intensities have a positive sum, the data of all vertices sums to one. A new reader reports the values and the (normalised) intensities of all lines.", "quantifier": "for all files and all conversions of a line to two numbers", "why_tests_cant": "The project has no test of this header.", "anchors": ["include/aleph/topology/io/FlexSpectrum.hh: FlexSpectrumReader::operator()", "include/aleph/topology/io/FlexSpectrum.hh: FlexSpectrumReader::getIndexToValueMap", "include/aleph/topology/io/FlexSpectrum.hh: FlexSpectrumReader::getIndexToIntensityMap"]}
{"id": "C129", "title": "Pajek files", "statement": "For a file that consists of comments, a section of vertices with different numbers and quoted labels, and a section of edges with optional weights, PajekReader creates the vertices in the order of the file, followed by the edges with their weights, and stores the labels in lexicographical order of the numbers. If no vertex is listed but there are edges, the vertices 1, ..., n are created. It throws std::runtime_error for lines of a wrong form, repeated numbers, and missing vertices. SimplicialComplexReader::labels() returns the labels in the order of the vertices if the numbers are sorted lexicographically and no label is empty.", "quantifier": "for all such files with arbitrary white space inside and around the lines", "why_tests_cant": "The tests of the project read the files Simple.net and Simple_with_labels.net.", "anchors": ["include/aleph/topology/io/Pajek.hh: PajekReader::operator()", "include/aleph/topology/io/Pajek.hh: PajekReader::getLabelMap", "include/aleph/topology/io/SimplicialComplexReader.hh: SimplicialComplexReader::labels", "include/aleph/topology/io/SimplicialComplexReader.hh: SimplicialComplexReader::getLabels"]}
{"id": "C130", "title": "Graphs as sparse adjacency matrices", "statement": "If every line of the matrix has two fields and every line of the indicator a number, if all endpoints of edges have a graph, no edge joins two graphs, and labels and selected attributes exist, SparseAdjacencyMatrixReader creates one complex for every graph identifier in increasing order. It contains each node of an edge and each edge of the graph once, with the data of the selected attribute, where the first of repeated edges counts, sorted by data. The labels are kept if there is one per graph; otherwise they are reduced to one label per graph. Matrix lines with another number of fields, indicator lines without number and edges between two graphs throw std::runtime_error.", "quantifier": "for all files of this form, all conversions of texts to numbers, and all orders of the hash set of vertices", "why_tests_cant": "The test of the project reads one pair of small graphs.", "anchors": ["include/aleph/topology/io/SparseAdjacencyMatrix.hh: SparseAdjacencyMatrixReader::operator()", "include/aleph/topology/io/SparseAdjacencyMatrix.hh: SparseAdjacencyMatrixReader::readVerticesAndEdges", "include/aleph/topology/io/SparseAdjacencyMatrix.hh: SparseAdjacencyMatrixReader::readGraphAndNodeIDs"]}
{"id": "C131", "title": "GML graphs", "statement": "If a file consists of one graph with nodes and edges, comments and attributes, the identifiers of nodes are distinct and the simplices they describe are distinct, GMLReader creates the vertices in the order of the nodes and then the edges in the order of the file. A vertex is the number at the beginning of the identifier, or its position in the sorted identifiers; data are the weight, else the value, else 0 for vertices and the functor of the endpoints for edges. Attributes are the last values in the file, and labels follow the order of identifiers. GMLWriter writes files of this form; reading them yields the vertices with data 0 and the edges with their data if these print as letters, digits and dots. Repeated identifiers, and attributes or empty lines before the graph, throw std::runtime_error.", "quantifier": "for all files of this form, all complexes with vertices below 2^32, all labels without quotes and line breaks, all functors and all conversions of numbers", "why_tests_cant": "The test of the project reads two small graphs.", "anchors": ["include/aleph/topology/io/GML.hh: GMLReader::operator()", "include/aleph/topology/io/GML.hh: GMLReader::getNodeAttribute", "include/aleph/topology/io/GML.hh: GMLReader::getEdgeAttribute", "include/aleph/topology/io/GML.hh: GMLReader::id_to_index", "include/aleph/topology/io/GML.hh: GMLWriter::operator()", "include/aleph/topology/io/SimplicialComplexReader.hh: getLabels"]}
{"id": "C132", "title": "Structured grids in VTK files", "statement": "If a file has the header of a structured grid in ASCII format with at least one point, the coordinates of the points in non-empty lines and then values and supported attributes with as many values as the product of the dimensions, VTKStructuredGridReader creates one vertex for each value, in the order of the file and with this value as data, and exactly the edges between neighbouring points of the grid with the data of the functor. The size of the type of the points and the last name and type of scalars can be queried. Without such a header the complex remains unchanged; other formats, another number of point data, several components and other lookup tables throw std::runtime_error.", "quantifier": "for all files of this form, all dimensions, all functors and all conversions of numbers", "why_tests_cant": "The test of the project reads two small grids.", "anchors": ["include/aleph/topology/io/VTK.hh: VTKStructuredGridReader::operator()", "include/aleph/topology/io/VTK.hh: VTKStructuredGridReader::parseHeader", "include/aleph/topology/io/VTK.hh: VTKStructuredGridReader::coordinatesToIndex", "include/aleph/topology/io/VTK.hh: VTKStructuredGridReader::neighbours", "include/aleph/topology/io/VTK.hh: VTKStructuredGridReader::scalarsName"]}
{"id": "C133", "title": "Triangulated surfaces in PLY files", "statement": "If an ASCII file declares vertices, with coordinates and other properties of known types, and then faces, and contains one line with a value per property for each vertex and one line for each triangle of distinct existing vertices, PLYReader creates exactly the vertices, the edges of the triangles and the triangles. The data of a vertex is the value of the chosen property, or 0; other simplices carry the maximum over their vertices. Simplices are sorted by data and dimension and form a filtration. Other magic numbers and formats and faces that are not triangles throw std::runtime_error, unknown types std::out_of_range, and files without all coordinates are never accepted.", "quantifier": "for all files of this form, all properties and all conversions of numbers", "why_tests_cant": "The project has no test of this reader.", "anchors": ["include/aleph/topology/io/PLY.hh: PLYReader::operator()", "include/aleph/topology/io/PLY.hh: PLYReader::setDataProperty", "include/aleph/topology/io/PLY.hh: PLYReader::parseASCII", "include/aleph/topology/io/PLY.hh: PLYReader::parseBinary"]}
{"id": "C134", "title": "Triangulated grids from HDF5 files", "statement": "For a two-dimensional field with the extents w and h, HDF5SimpleDataSpaceReader creates exactly the points, the edges to the right, upwards and along one diagonal, and the two triangles of every square of a grid whose rows have w points, each of them once, with the functor applied to the values of its vertices. The complex is closed under faces and has the Euler characteristic 1 if w and h are positive. With the maximum as functor, all data are the maximum over the vertices, and sorting by data yields a filtration. Fields of other dimensions leave the complex unchanged, and unknown types throw std::runtime_error.", "quantifier": "for all extents, all values and all functors", "why_tests_cant": "The test of the project counts the simplices of one square field.", "anchors": ["include/aleph/topology/io/HDF5.hh: HDF5SimpleDataSpaceReader::operator()", "include/aleph/topology/io/HDF5.hh: HDF5SimpleDataSpaceReader::read"]}
{"id": "C135", "title": "Reading complexes of any format", "statement": "SimplicialComplexReader selects the format by the part of the last component of the path from its last dot on: GML, HDF5, Pajek, PLY or VTK files, and edge lists with weights in all other cases. The complex is the one of the respective reader; PLY files use the data attribute that has been set, so that meshes carry its values, and only the functor of VTK files has an effect. GML files, with the label attribute, and Pajek files replace the labels; all other files leave them unchanged, and the attributes never change.", "quantifier": "for all paths, contents, functors and states of the reader", "why_tests_cant": "The tests of the project use it with single GML, Pajek and VTK files.", "anchors": ["include/aleph/topology/io/SimplicialComplexReader.hh: SimplicialComplexReader::operator()", "include/aleph/topology/io/SimplicialComplexReader.hh: SimplicialComplexReader::setDataAttribute", "include/aleph/topology/io/SimplicialComplexReader.hh: SimplicialComplexReader::labels", "include/aleph/topology/io/SimplicialComplexReader.hh: SimplicialComplexReader::getLabels"]}
{"id": "C136", "title": "Reading GraphML files", "statement": "GraphMLReader yields a vertex for each node of the first graph and an edge for each edge of it. The vertices are numbered from zero in the lexicographic order of the identifiers. The weight of a node or an edge is the number in its data for the key with the name of the weight attribute, and zero if there is no such key or no such data; if the weights of edges are not to be read, the functor yields them from the weights of the nodes. The names of attributes are the keys of the data. A file without a graph, keys of other elements, nodes or edges without the required attributes, and weights that are not numbers are errors; so are edges at unknown nodes.", "quantifier": "for all documents that are read by tinyxml2, functors, conversions and settings of the reader", "why_tests_cant": "The tests of the project read a single file with six nodes and seven edges, and count the weights.", "anchors": ["include/aleph/topology/io/GraphML.hh: GraphMLReader::operator()", "include/aleph/topology/io/GraphML.hh: GraphMLReader::id_to_index", "include/aleph/topology/io/GraphML.hh: GraphMLReader::getNodeAttributeNames", "include/aleph/topology/io/GraphML.hh: GraphMLReader::getEdgeAttributeNames", "include/aleph/topology/io/GraphML.hh: GraphMLReader::parseNode", "include/aleph/topology/io/GraphML.hh: GraphMLReader::parseEdge", "include/aleph/topology/io/GraphML.hh: GraphMLReader::parseData"]}
{"id": "C137", "title": "Points, checks of values, and formatted numbers", "statement": "Two points of the same dimension are equal if and only if all coordinates agree; operator< is the lexicographic order, a strict total order; the text of a point consists of its coordinates with single spaces between them. A wrapped metric compares corresponding elements of containers of the same size. ensureRange and ensureLarger throw if and only if the value is outside of the bounds. For a positive maximum N and 0 <= n <= N, format yields the decimal notation of n with as many digits as N; such texts are ordered as the numbers, and larger numbers are not cut.", "quantifier": "for all points, containers, metrics, values, bounds, maxima and characters that fill", "why_tests_cant": "The project has no test of these functions.", "anchors": ["include/aleph/geometry/Point.hh: Point::operator==", "include/aleph/geometry/Point.hh: Point::operator<", "include/aleph/geometry/Point.hh: operator<<", "include/aleph/geometry/distances/Wrapper.hh: Wrapper::operator()", "include/aleph/utilities/Values.hh: ensureRange", "include/aleph/utilities/Values.hh: ensureLarger", "include/aleph/utilities/Format.hh: format"]}
{"id": "C138", "title": "Complexes as TikZ pictures", "statement": "For a simplicial complex that is closed under faces and a container with at least two coordinates for each of its vertices, the writer yields a TikZ picture that contains exactly one coordinate and one dot for each vertex (and a ball, if balls are shown), exactly one line for each edge and, if triangles are shown, exactly one filled triangle for each triangle, and no other commands; the coordinates of a vertex are the first two of its point, and each vertex is placed before a command refers to it. If a point has fewer than two coordinates the writer throws; conversely it succeeds only if every vertex has two coordinates.", "quantifier": "for all simplicial complexes, containers, types of coordinates and settings", "why_tests_cant": "The project has no test of this writer; an order of the commands that refers to vertices before they are placed only shows when a picture is typeset.", "anchors": ["include/aleph/topology/io/TikZ.hh: TikZ::operator()", "include/aleph/topology/io/TikZ.hh: TikZ::writePoint", "include/aleph/topology/io/TikZ.hh: TikZ::writeEdge", "include/aleph/topology/io/TikZ.hh: TikZ::writeTriangle"]}
{"id": "C139", "title": "Principal component analysis", "statement": "Given a correct singular value decomposition, the analysis of n points with m coordinates yields min(n,m) orthonormal components of length m and min(n,m) non-negative singular values in descending order. The squared deviations from the mean, measured along component j, are m times the square of singular value j; no unit vector that is orthogonal to the previous components has larger ones, and if m <= n, no unit vector has smaller ones than the last component. All squared deviations sum up to m times the squares of the singular values. Moving all points by the same vector does not change the result, and there are no components of an empty set.", "quantifier": "for all tables of real numbers and all correct singular value decompositions", "why_tests_cant": "The only test of the project uses three points in the plane, for which the number of columns is the number of points minus one; in this case, the scaling by the number of columns cannot be told apart from the usual one.", "anchors": ["include/aleph/math/PrincipalComponentAnalysis.hh: PrincipalComponentAnalysis::operator()"]}
{"id": "C140", "title": "Tangent spaces and curvatures of point clouds", "statement": "TangentSpace assigns to each point its position, the largest distance of its neighbours, a unit normal, and tangents that are orthogonal to the normal and orthonormal (as far as there are neighbours). If all points are neighbours, or the neighbours are centred at the origin, the normal is that of a plane through the mean of the neighbours with the least squared distances. The normals of a point and of the last one of its adjacent predecessors do not point in opposite directions. The weights decrease from 1 at the point to 0 at its farthest neighbour. The curvature of a point is that of an algebraic sphere whose weighted squared errors for the neighbours are a positive eigenvalue times Pratt's norm, or 0 if there is no such eigenvalue.", "quantifier": "for all point clouds with at least one coordinate, all neighbourhoods of the same size, all correct decompositions", "why_tests_cant": "The tests of the project only check the number of curvatures. Wrong normals look plausible for data that are centred at the origin, such as the circle of the test.", "anchors": ["include/aleph/geometry/TangentSpace.hh: TangentSpace::operator()", "include/aleph/geometry/TangentSpace.hh: TangentSpace::localTangentSpaces", "include/aleph/geometry/TangentSpace.hh: TangentSpace::fitSpheresWithoutNormals", "include/aleph/geometry/TangentSpace.hh: TangentSpace::propagateOrientation"]}
{"id": "C141", "title": "Step functions: absolute values, powers, norms and normalization", "statement": "abs and pow keep the intervals of a step function and act pointwise wherever at most one interval contains the argument. f.abs().pow(p).integral() is the integral of |f|^p; it is non-negative, and zero for the zero function only. integral_p(1) is the integral of |f|. normalize(f,a,b) maps a non-negative function with at least two values to one with the same intervals and values in [a,b] in the same order, where 0 is mapped to a and the maximum to b.", "quantifier": "for all step functions with intervals of positive length, all positive exponents, all ranges", "why_tests_cant": "Exponents and ranges are real numbers; the test of the project normalizes one function only and tests neither powers nor norms.", "anchors": ["include/aleph/math/StepFunction.hh: StepFunction::integral_p", "include/aleph/math/StepFunction.hh: StepFunction::abs", "include/aleph/math/StepFunction.hh: StepFunction::pow", "include/aleph/math/StepFunction.hh: normalize"]}
{"id": "C142", "title": "Step functions are read as they are written", "statement": "Reading the text form of a step function into an empty function yields the same function; reading it into a function whose intervals it does not overlap yields the union of both. Whatever the text is, intervals that were held are kept, and each new interval is given by two subsequent lines with its end points and the same value; the program only ends if the end of an interval precedes its start.", "quantifier": "for all step functions and all texts", "why_tests_cant": "The project has no test that reads or writes step functions; the set of texts is infinite.", "anchors": ["include/aleph/math/StepFunction.hh: operator<<", "include/aleph/math/StepFunction.hh: operator>>"]}
{"id": "C143", "title": "Signatures and perversities of triangulations", "statement": "getPerversities(n) yields every sequence p_0,...,p_{n-1} with -1 <= p_k <= k exactly once, hence (n+1)! perversities. makeSignature(diagrams,D) yields the Betti numbers of the diagrams by dimension, zero where there is none; it throws if a diagram has a larger dimension than D. Signatures are ordered lexicographically. The signature of all diagrams of a complex in filtration order has the Euler characteristic of the complex as its Euler characteristic.", "quantifier": "for all positive dimensions, all families of diagrams with different dimensions, all non-empty closed complexes in filtration order with data below infinity", "why_tests_cant": "The number of perversities grows with the factorial of the dimension, and there are infinitely many complexes; the project does not test its tools.", "anchors": ["src/tools/wicked_triangulations.cc: getPerversities", "src/tools/wicked_triangulations.cc: makeSignature", "src/tools/wicked_triangulations.cc: Signature::eulerCharacteristic", "src/tools/wicked_triangulations.cc: Signature::operator<"]}
{"id": "C144", "title": "Random stratified graphs and their filtrations", "statement": "makeRandomStratifiedGraph(strata) yields a closed complex in filtration order: a vertex of weight zero for every number below the sum of the sizes, and one edge with a drawn weight for every pair of vertices in consecutive strata. makeFiltration keeps the vertices with weight zero and the other simplices whose weight has the required sign, in their order; the lower filtration of a graph is in filtration order by decreasing weights. merge joins the points of two diagrams of dimension zero.", "quantifier": "for all sizes of strata with a sum below 65536, all draws, all complexes, all diagrams", "why_tests_cant": "The graphs are random and of arbitrary size; the project does not test its tools.", "anchors": ["src/tools/random_stratified_graphs.cc: makeRandomStratifiedGraph", "src/tools/random_stratified_graphs.cc: makeFiltration", "src/tools/random_stratified_graphs.cc: makeLowerFiltration", "src/tools/random_stratified_graphs.cc: makeUpperFiltration", "src/tools/random_stratified_graphs.cc: merge"]}
{"id": "C145", "title": "Weights of vertices and filtrations of stratified graphs", "statement": "assignVertexWeights gives every vertex the extremal weight of all edges (strategy global) or the weight of its first edge (strategy local) and keeps all other simplices; it throws for isolated vertices and unknown strategies. With the standard filtration, sorting, assigning weights and sorting again makes any graph without isolated vertices a filtration by weights. The absolute filtration sorts by absolute weights if simplices with the same absolute weight have the same weight and dimension.", "quantifier": "for all complexes, both directions, both strategies, all weights within the limits of the type", "why_tests_cant": "The result depends on the order of all weights; the project does not test its tools.", "anchors": ["src/tools/stratified_graph_analysis.cc: applyFiltration", "src/tools/stratified_graph_analysis.cc: assignVertexWeights", "src/tools/stratified_graph_analysis.cc: getMinimumAbsoluteWeight"]}
{"id": "C146", "title": "Normalization of the weights of a graph", "statement": "normalizeSimplicialComplex keeps all simplices and their order. For graphs with at least two different weights of edges, abs divides by the largest absolute weight of an edge, minmax is the increasing affine map that takes the smallest weight of an edge to -1 and the largest to 1, and standardize is one after which the weights of the edges have mean 0 and sample variance 1; each changes all weights by one increasing function. Nothing changes without a strategy or without edges; an unknown strategy throws.", "quantifier": "for all complexes, all weights, all names of strategies", "why_tests_cant": "Weights are real numbers; the project does not test its tools.", "anchors": ["src/tools/stratified_graph_analysis.cc: normalizeSimplicialComplex"]}
{"id": "C147", "title": "The matrix of pairwise distances", "statement": "The loop over k computes the k-th pair of data sets in lexicographic order, so that all pairs are visited once. Whatever the order in which the parallel iterations take place, the matrix is symmetric, has a zero diagonal, and has the values for the pairs above it; for a symmetric distance that is zero for equal data sets it is the matrix of all distances. storeMatrix writes its entries row by row.", "quantifier": "for all numbers of data sets whose square is less than 2^62, all orders of iterations, all distances", "why_tests_cant": "The rows and columns are computed from square roots; all numbers of data sets and all interleavings cannot be tried.", "anchors": ["src/tools/topological_distance.cc: main", "src/tools/topological_distance.cc: storeMatrix"]}
{"id": "C148", "title": "The assignment of files to data sets", "statement": "A file name that ends in an underscore, one of the letters d and k, a number and .txt belongs to the data set named by what precedes, with this dimension; every other file is a data set of its own with dimension 0. The data sets are ordered by their first files, each has all its files in their order, and the range of dimensions is the smallest that contains all of them.", "quantifier": "for all sequences of file names, numbers below 2^64 (others throw)", "why_tests_cant": "The set of file names is infinite; the project does not test its tools.", "anchors": ["src/tools/topological_distance.cc: main"]}
{"id": "C149", "title": "The choice and the calculation of distances between data sets", "statement": "The last option for a distance decides, if it is not the Hausdorff distance or the bottleneck distance has not been asked for. persistenceDiagramDistance adds the values of the functor for the diagrams of every dimension in the range, where the first diagram of a dimension counts and an empty one stands for a missing one, and takes the root; with Hausdorff distances this is their p-norm, and the distance itself for one dimension.", "quantifier": "for all sequences of options, all data sets, all positive powers, all ranges of dimensions below 2^32-1", "why_tests_cant": "Powers are real numbers; the project does not test its tools.", "anchors": ["src/tools/topological_distance.cc: main", "src/tools/topological_distance.cc: persistenceDiagramDistance"]}
{"id": "C150", "title": "Changes of diagrams before distances and statistics", "statement": "postprocess with cleaning keeps exactly the paired points off the diagonal, in order; with a factor it moves unpaired points to the multiple of the largest finite coordinate and keeps all others; duplicates are removed after cleaning. The statistics tool removes exactly the points with an invalid coordinate and those on the diagonal, and gets the name and the dimension of a diagram from its file name.", "quantifier": "for all diagrams, all factors, all file names", "why_tests_cant": "All diagrams cannot be enumerated; the project does not test its tools.", "anchors": ["src/tools/topological_distance.cc: postprocess", "src/tools/topological_distance.cc: getMinimumAndMaximum", "src/tools/topological_distance.cc: getMaximum", "src/tools/persistence_diagram_statistics.cc: parseFilename", "src/tools/persistence_diagram_statistics.cc: main"]}
{"id": "C151", "title": "Functors of zero-dimensional persistence, and relevant edges", "statement": "calculateZeroDimensionalPersistenceDiagram initializes a functor for all vertices in ascending order; then calls it once for every edge that joins two components of the graph of the edges before it, in the order of the filtration, with the first vertices of the younger and the older component, creation, destruction and the vertices of the edge; then once for the first vertex of every component. The diagram does not depend on the functor, and an exception of it ends the calculation. With the functor of relevant_edges, relevance and strength are stored for exactly the joining edges: the quotient of the smaller and the larger number of vertices of the joined components, and their sum.", "quantifier": "for all complexes closed under faces, all functors, all orders of hash sets, all labels (none, or one for every vertex)", "why_tests_cant": "All graphs and all functors cannot be tried; the project does not test its tools.", "anchors": ["include/aleph/persistentHomology/ConnectedComponents.hh: calculateZeroDimensionalPersistenceDiagram", "src/tools/relevant_edges.cc: SizeFunctor", "src/tools/relevant_edges.cc: main"]}
{"id": "C152", "title": "Clique communities", "statement": "The tool processes the clique graphs of all dimensions from K down to 1, up to the first empty one unless empty graphs are ignored. The file of a dimension has one row for every pair of the zero-dimensional pairing of its graph: creation, destruction (twice the maximum weight for components that persist), and the number of cliques of the component just before its destruction. The final table lists for every vertex the number of communities with positive or infinite persistence, over all processed dimensions, that have a clique with this vertex, and the sum of their squared persistence.", "quantifier": "for all expanded complexes, all maximum dimensions, all orders of hash containers, all finite weights", "why_tests_cant": "All graphs cannot be enumerated; the project does not test its tools.", "anchors": ["src/tools/clique_persistence_diagram.cc: CliqueCommunityInformationFunctor", "src/tools/clique_persistence_diagram.cc: main"]}
{"id": "C153", "title": "Diagrams of stratified graphs", "statement": "In stratified_graph_analysis the diagram that is analysed is the last one without its diagonal points, in their order: points without destruction are destroyed at the smallest absolute weight of an edge; for the filtration by absolute weights both coordinates are replaced by their absolute values; normalization without a name then maps the smallest data to zero and the largest to one, and both coordinates affinely. If no data are negative, all coordinates are in [0,1] afterwards.", "quantifier": "for all weighted graphs with at least one edge, all diagrams, both filtrations, with and without normalization", "why_tests_cant": "All weights and diagrams cannot be tried; the project does not test its tools.", "anchors": ["src/tools/stratified_graph_analysis.cc: main", "src/tools/stratified_graph_analysis.cc: getMinimumAbsoluteWeight"]}
{"id": "C154", "title": "Glyphs of persistence indicator functions", "statement": "persistence_indicator_function_glyph writes, for every function and for linear and logarithmic bins, a table with one entry for every bin: the largest value of the function at the points of evaluation that lie in the bin, and zero if none is positive; no access leaves the histograms. The points of evaluation are the neighbours, inside the range, of the domain and of the midpoints between the announced ends of bins. Tables of zeros follow up to the requested number.", "quantifier": "for all numbers of bins from one to 2^32 - 1, all domains with positive smallest value, all functions, all requested numbers of tables", "why_tests_cant": "All domains and functions cannot be tried, and the last bins depend on exact comparisons; the project does not test its tools.", "anchors": ["src/tools/persistence_indicator_function_glyph.cc: main", "src/tools/persistence_indicator_function_glyph.cc: print"]}
{"id": "C155", "title": "Signatures of persistence diagrams", "statement": "make_signature writes for every diagram, after removing points of small persistence and after scaling the coordinates to [0,1] if requested, the values min(distance, persistence, persistence) of all pairs of points in descending order, cut or extended by zeros to the requested number. The signature has n(n-1)/2 entries, does not depend on the order of the points, and scaling divides it by the range of the coordinates, so that all entries are in [0,1].", "quantifier": "for all lists of diagrams that are not empty after filtering, all thresholds, with and without normalization, all requested numbers of entries", "why_tests_cant": "All diagrams and thresholds cannot be tried; infinite coordinates need exact case distinctions; the project does not test its tools.", "anchors": ["src/tools/make_signature.cc: filterDiagram, normalizeDiagram, makeSignature, main", "include/aleph/geometry/distances/Infinity.hh: operator()"]}
{"id": "C156", "title": "Zero-dimensional diagrams count components", "statement": "For levels x <= y, the number of points of the zero-dimensional diagram that are created at x or before and destroyed after y is the number of connected components of the complex at level y that contain a vertex of level x. The corresponding statement holds for complexes that are filtered by descending data.", "quantifier": "for all closed complexes in filtration order, all pairs of levels, all reduction algorithms, with and without dualization", "why_tests_cant": "All complexes and pairs of levels cannot be tried; the statement relates matrix reduction to paths in graphs.", "anchors": ["include/aleph/persistentHomology/Calculation.hh: calculatePersistenceDiagrams", "include/aleph/persistenceDiagrams/Calculation.hh: makePersistenceDiagrams"]}
{"id": "C157", "title": "Analysis of functions", "statement": "function_analysis calculates, for every line with at least two values, exactly one diagram with Betti number one. Every value of the function creates one point; all points are on the correct side of the diagonal and within the range of the values; for two levels, points that are created before the first and destroyed after the second are as many as maximal intervals of positions at the second level that reach the first. Normalization maps the range to [0,1]. The summary consists of smallest, largest and mean persistence and of the square root of the sum of squares.", "quantifier": "for all functions with at least two values, sublevel and superlevel sets, all pairs of levels, with and without normalization", "why_tests_cant": "All functions and pairs of levels cannot be tried; the project does not test its tools.", "anchors": ["src/tools/function_analysis.cc: readData, minmaxData, condensePersistenceDiagram, main", "include/aleph/topology/io/Function.hh: loadFunction"]}
{"id": "C158", "title": "Degree filtrations of graphs", "statement": "For graphs without isolated vertices, sparse_adjacency_matrices assigns to every simplex the largest degree of its vertices, or the sum of their degrees, and sorts simplices so that faces precede cofaces and values ascend. For every graph and every dimension that occurs in one of the graphs there is a file; for x <= y below the value that stands for infinity, the number of its lines that are created at x or before and destroyed after y is the rank of the map from the homology of the graph at x to that at y. Normalized degrees are degrees divided by the largest degree of the same graph; closeness centrality is the number of vertices divided by the sum of the lengths of shortest paths.", "quantifier": "for all lists of closed complexes without isolated vertices, all factors, all pairs of levels, all reduction algorithms, all orders of hash containers", "why_tests_cant": "All graphs and pairs of levels cannot be tried; the project does not test its tools.", "anchors": ["src/tools/sparse_adjacency_matrices.cc: closenessCentrality, main", "include/aleph/geometry/RipsExpander.hh: assignData, assignMaximumData", "include/aleph/topology/filtrations/Degree.hh: degrees"]}
{"id": "C159", "title": "Dimensions of persistence diagrams", "statement": "For a complex that is closed under faces and in the order of a filtration, calculatePersistenceDiagrams returns diagrams of the dimensions 0, 1, 2, ... without gaps, so that the diagram at position d is the one of dimension d, and none of them is empty. For a complex of dimension t their number is t without unpaired creators of the largest dimension; with them it is t+1 if there is a non-zero cycle of dimension t, and t otherwise. The empty complex has no diagrams.", "quantifier": "for all closed complexes in the order of a filtration, all reduction algorithms, both flags, all orders of hash containers", "why_tests_cant": "All complexes cannot be tried; callers access diagrams by position without a check.", "anchors": ["include/aleph/persistentHomology/Calculation.hh: calculatePersistenceDiagrams", "include/aleph/persistenceDiagrams/Calculation.hh: makePersistenceDiagrams", "src/tools/betti_numbers.cc: main"]}
{"id": "C160", "title": "Processing of image patches", "statement": "process_image_patches replaces intensities by logarithms, subtracts the mean and divides by the norm, which is twice the sum of the squared differences of neighbouring pixels; the result has mean zero and the inverse norm, and patches without black pixels that differ by a constant factor have the same result. The patches that reach the value at position ceil(4n/5) of the sorted norms are kept, which are at least n - ceil(4n/5); with fewer than five patches there is none and an exception is thrown. The tool has a result only if all patches are kept. In the last step, every centred patch is divided by the square root of the sum of its truncated squares.", "quantifier": "for all point clouds of non-negative intensities, all dimensions, all factors", "why_tests_cant": "All images cannot be tried; the project does not test its tools.", "anchors": ["src/tools/process_image_patches.cc: log, contrastNorm, main"]}
{"id": "C161", "title": "First Betti numbers of a sequence of graphs", "statement": "betti_numbers prints one line for every identifier that occurs, in ascending order. The identifier of a file is the first number in its name without directories, modulo 2^32; the value is the first Betti number of the complex of the last file with this identifier, which is the number of edges minus the number of vertices plus the number of connected components for a graph. A name without a number, or with an end of line after it, is reported by a runtime error, and a number from 2^64 on by an exception.", "quantifier": "for all lists of files with names and complexes", "why_tests_cant": "All names and graphs cannot be tried; the project does not test its tools.", "anchors": ["src/tools/betti_numbers.cc: main"]}
{"id": "C162", "title": "Diagrams of connectivity matrices", "statement": "For a file with a non-empty square matrix, connectivity_matrix_analysis determines diagrams of consecutive dimensions. The zero-dimensional one has one point per row, which is created at 0 and destroyed at the maximum entry minus an entry above the diagonal that is not zero, or never; as many points are never destroyed as the graph of those entries has connected components. With --infinity, exactly the infinite values are replaced. A document with one diagram is a JSON text whose member \"diagrams\" is an array with this diagram.", "quantifier": "for all matrices, numeric ranges and orders of hash containers", "why_tests_cant": "All matrices cannot be tried; the project does not test its tools.", "anchors": ["src/tools/connectivity_matrix_analysis.cc: main"]}
{"id": "C163", "title": "Ephemeral diagrams: both filtrations of a connectivity matrix", "statement": "ephemeral collects one list of diagrams per file name, whose points are those of the first pass followed by those of the second pass (only one pass with the distance option). In the first pass, every vertex has the minimum entry, one point per vertex is created there, and at every level the number of points that are alive is the number of connected components of the graph of the non-zero entries above the diagonal that are at most the level; with the distance option the same holds for one minus the entries and vertices of weight 0.", "quantifier": "for all matrices with dimension 0 of the expansion, all lists of different file names", "why_tests_cant": "All matrices cannot be tried; the project does not test its tools.", "anchors": ["src/tools/ephemeral.cc: processFilename, DiagramCollection, main"]}
{"id": "C164", "title": "Degree filtrations of graphs in graph_analysis", "statement": "For a graph in which every vertex occurs in some proper edge, graph_analysis gives every simplex (of the graph, or of its cliques up to the selected dimension) the largest degree of its vertices, or zero to vertices if selected, sorts a closed filtration and writes files of consecutive dimensions. The lines of each file count, for every pair of levels below the infinity value (the factor times the maximum degree modulo 2^32), the ranks of the persistent homology; the file of dimension 0 has no diagonal points. Edge lists whose vertices occur in proper edges give such graphs, and the degrees are the numbers of different neighbours.", "quantifier": "for all such graphs, dimensions, factors, orders of hash containers and reduction algorithms", "why_tests_cant": "All graphs cannot be tried; the project does not test its tools.", "anchors": ["src/tools/graph_analysis.cc: main"]}
{"id": "C165", "title": "Distributions of distances and degrees of point clouds", "statement": "rips_distributions determines the squared distances of all pairs of points i<j in lexicographic order, n(n-1)/2 in total. With a threshold that is not zero, the unweighted degree of a point is the number of points at a smaller distance, the point itself included, and its weighted degree is the sum of these distances; with threshold zero there are no degrees. For two or more points, the output is a JSON object with the members distances, unweighted_degrees and weighted_degrees; an unknown name of a distance gives an empty object.", "quantifier": "for all numbers of points, distances and thresholds", "why_tests_cant": "All point clouds cannot be tried; the project does not test its tools.", "anchors": ["src/tools/rips_distributions.cc: pairwiseDistances, calculateDegrees, containerAsJSON, main"]}
{"id": "C166", "title": "Diagrams of data descriptors of point clouds", "statement": "point_cloud_data_descriptors: normalisation maps values into [0,1] by an increasing affine map that attains both ends (values that are all equal are unchanged); inversion is decreasing, keeps differences and attains zero. The diagrams, of consecutive dimensions, are those of the Vietoris--Rips complex whose simplices have the largest value of their vertices; they have no diagonal points, and at all levels the points that are alive count the ranks of the persistent homology, less the classes that never die if unpaired points are removed. The output is one JSON document with all diagrams.", "quantifier": "for all point clouds, values, thresholds, dimensions and orders of hash containers", "why_tests_cant": "All point clouds cannot be tried; the project does not test its tools.", "anchors": ["src/tools/point_cloud_data_descriptors.cc: normalizeValues, invertValues, calculateDataDescriptor, main"]}
{"id": "C167", "title": "Output of interlevel set persistence hierarchies", "statement": "interlevel_set_persistence_hierarchy: for a non-empty complex of vertices and edges, the diagram has dimension zero and contains, in lexicographic order, the lifetime of every vertex whose component does not die at once; the numbered nodes are the vertices of the edges of the hierarchy in ascending order, each with its own lifetime, and the edges refer to these numbers. The number of unique diagrams is the number of different lists of points, and the file of classes contains every set of two or more indices of equal diagrams exactly once.", "quantifier": "for all complexes of dimension at most one that contain the faces of their simplices, all lists of diagrams and all orders of hash containers", "why_tests_cant": "All functions and families of functions cannot be tried; the project does not test its tools.", "anchors": ["src/tools/interlevel_set_persistence_hierarchy.cc: main"]}
{"id": "C168", "title": "Clique communities in JSON documents", "statement": "clique_communities_to_json: the complex consists of the sets of at most maxK+1 vertices of the graph that are joined pairwise by edges whose weight, or whose difference to the largest weight, does not exceed the threshold, provided that the vertices do not exceed it. For every k from 1 to maxK, the simplices with k+1 vertices are divided into communities: two simplices are in the same community if and only if a chain of simplices leads from one to the other in which consecutive simplices share k vertices; every community is sorted. The output is a JSON document with one member per level, its key being k+1 and its value the array of the communities, with vertices given by numbers or labels; a vertex without a label causes out_of_range.", "quantifier": "for all graphs, weights, thresholds, labels and levels, and all orders of hash containers", "why_tests_cant": "All graphs cannot be tried; the project does not test its tools.", "anchors": ["src/tools/clique_communities_to_json.cc: main, formatSimplex"]}
{"id": "C169", "title": "The tool for persistent intersection homology", "statement": "persistent_intersection_homology: with singularity values, the first stratum consists of the vertices whose value is below the threshold (above it with --invert), the second one additionally contains edges both of whose vertices are (with --invert: one of whose vertices is). For a two-dimensional complex with a singular vertex, the number of classes of the intersection homology diagrams alive at a value is the persistent intersection Betti number of the matrix in which triangles and simplices without singular vertices come first. Without values the complex is subdivided and its original vertices are singular. A vertex without a value terminates the program; if no vertex is singular, or if there are no values and the complex is not two-dimensional, a runtime_error is thrown.", "quantifier": "for all complexes, values, thresholds and orders of hash containers", "why_tests_cant": "All complexes and values cannot be tried; the project does not test its tools.", "anchors": ["src/tools/persistent_intersection_homology.cc: main, readData", "include/aleph/topology/Filter.hh"]}
{"id": "C170", "title": "The example for the analysis of networks", "statement": "network_analysis: without weights of nodes, and with vertices of weight zero, the complex consists of the cliques with at most k+1 vertices; the data of a clique is the largest weight of its edges, which are shifted and scaled to [0,1] with --normalize and subtracted from the largest weight with --invert-weights; simplices are in an order in which faces come first and data ascend. With weights of nodes (and none of these options) the data of a clique is the largest weight of its vertices. The reports are those of dimension 0, 1, ...; the number of points alive is the persistent Betti number; without --infinity, there are no points on the diagonal and the header contains the Betti number of the clique complex, with --infinity it is always zero. The last report is not followed by empty lines. Fewer weights than vertices are read out of bounds.", "quantifier": "for all graphs, weights, options and dimensions, and all orders of hash containers", "why_tests_cant": "All graphs cannot be tried; the project does not test its examples.", "anchors": ["examples/network_analysis.cc: main"]}
{"id": "C171", "title": "The analysis of spectra", "statement": "spectral_analysis: in the mode transformation every position of the spectrum is written once, in ascending order, with the prominence of its line: its intensity minus the highest pass to a higher line (the largest over all higher lines of the smallest intensity on the way), and the absolute intensity for the highest line. In the mode diagram there is one point for every line above its pass, and the highest line is paired with 0. In the mode identity the lines are written as they were read.", "quantifier": "for all spectra with integral intensities, all orders of hash containers, and all values of infinity that are no intensity", "why_tests_cant": "All spectra cannot be tried; the prominence of a line depends on lines at arbitrary distance.", "anchors": ["src/tools/spectral_analysis.cc: main", "include/aleph/topology/io/FlexSpectrum.hh: FlexSpectrumReader::operator()"]}
{"id": "C172", "title": "Multi-scale skeletons", "statement": "multi_scale_skeleton: for at least two distinct points with at least two coordinates the tool writes seven blocks, one for each of the times 0, 0.001, 0.01, 0.1, 0.5, 1, and 9, with one line for every point in the order of the input. The number in the line starts, at time 0, with the mean distance of the point to its neighbours in the Gabriel graph (the points for which the ball over the segment contains no other point), changes with the diagonal entry of the heat kernel of the skeleton for the point, is always positive, and never increases in time. The file for plotting contains the same numbers with the first two coordinates of the points.", "quantifier": "for all finite sets of distinct points with integral coordinates in any dimension, all ways of writing distances as fixed-point numbers, and all correct solvers for eigenvalues", "why_tests_cant": "All point clouds cannot be tried, and the numbers depend on all eigenvalues of the skeleton.", "anchors": ["src/tools/multi_scale_skeleton.cc: main, ScaleEstimationFunctor", "include/aleph/geometry/BetaSkeleton.hh: buildBetaSkeletonNaive", "include/aleph/geometry/HeatKernel.hh: HeatKernel::operator()"]}
{"id": "C173", "title": "Files with persistence indicator functions", "statement": "persistence_indicator_function without --mean writes one file for every name that it derives from its inputs, OUT/PRE + the name of the input without directory and extension + '.txt'. If several inputs lead to the same name, it contains the function of the last one. The text is that of a step function whose value at x is the number of finite intervals of the diagram that contain x (C38). If the mean is calculated it is zero.", "quantifier": "for all lists of input files with integral diagrams whose points are on one side of the diagonal, all directories and prefixes", "why_tests_cant": "All combinations of names and diagrams cannot be tried; collisions of names depend on the choice of files.", "anchors": ["src/tools/persistence_indicator_function.cc: main", "include/aleph/persistenceDiagrams/PersistenceIndicatorFunction.hh: persistenceIndicatorFunction", "include/aleph/utilities/Filesystem.hh: stem"]}
{"id": "C174", "title": "Spines have the homology of their complexes", "statement": "For every closed complex, spine() and dumb::spine() return a closed complex with the same Betti numbers in all dimensions, whatever the order of the hash containers. These Betti numbers are those of simplicial homology (dimension of cycles minus dimension of boundaries, for chains which are sets of simplices); they exist, are unique, do not depend on the order of the simplices, and equal those of the matrix made by makeBoundaryMatrix() and the numbers that betti() yields for the persistence diagrams. Hence the diagrams of a complex in filtration order and those of its spine have the same number of unpaired points in every dimension.", "quantifier": "for all complexes reachable through the public interface that contain the faces of their simplices, all orders of the containers, all dimensions, all algorithms and both dualities", "why_tests_cant": "Homology is defined by subspaces of vector spaces; tests can only compare numbers for some complexes and one order of the hash maps.", "anchors": ["include/aleph/topology/Spine.hh: spine, dumb::spine", "include/aleph/topology/Conversions.hh: makeBoundaryMatrix", "include/aleph/persistentHomology/Calculation.hh: calculatePersistenceDiagrams"]}
{"id": "C175", "title": "The text of complexes and the tool for spines", "statement": "operator<< for simplices and complexes is injective: the text of a simplex tells its vertices, its weight and where it ends, and the text of a complex tells its simplices in their order. persistent_spines writes the \u010cech complex of its points for the given radius and a spine of it: the spine results from collapses, has no free faces, and has the same Betti numbers as the complex; with --tikz it writes a document with a picture of each (C138), with balls around the points of the first only.", "quantifier": "for all simplices and all complexes reachable through the public interface (integral weights); for all point clouds, radii and names of methods, and all monotone radii of smallest balls", "why_tests_cant": "Texts of all complexes cannot be compared; the relation of both parts of the output is one of homology.", "anchors": ["include/aleph/topology/Simplex.hh: operator<<", "include/aleph/topology/SimplicialComplex.hh: operator<<", "src/tools/persistent_spines.cc: main"]}
{"id": "C176", "title": "The homology of cones, suspensions and skeletons", "statement": "The cone over a non-empty complex is connected and has no homology in higher dimensions. The suspension of a non-empty complex is connected; its Betti number in dimension one is that of the complex in dimension zero less one, and its Betti number in dimension d+1 is that of the complex in dimension d for every d > 0. In particular, two points suspended n times have the Betti numbers of the n-sphere. The k-skeleton has the Betti numbers of the complex in all dimensions below k, and this bound is sharp.", "quantifier": "for all complexes reachable through the public interface (closed under faces for cones and suspensions), all functors for weights, all k, d and n; homology with coefficients in Z/2", "why_tests_cant": "Tests compute the Betti numbers of a few cones and suspensions; the relation between a complex and its suspension holds in every dimension.", "anchors": ["include/aleph/topology/QuotientSpaces.hh: cone, suspension", "include/aleph/topology/Skeleton.hh: Skeleton::operator()"]}
{"id": "C177", "title": "The tool for wicked triangulations", "statement": "wicked_triangulations writes, for each triangulation of its file in their order, an object with the Betti numbers of the complex of all non-empty subsets of the listed sets, from dimension zero to the dimension of the complex, and the Euler characteristic, which is the alternating sum of the numbers of simplices and of the Betti numbers; then, for each triangulation, an object for each of its (d+1)! perversities, each of them once, with the numbers of points at infinity in the diagrams of calculateIntersectionHomology for its barycentric subdivision and its skeletons, by dimension up to d. The text is the one given line by line, with commas between the elements of lists and between objects and none after the last.", "quantifier": "for all files of triangulations in the format of C90 with non-empty lists of non-empty sets, all orders of hash containers and all algorithms", "why_tests_cant": "Every triangulation has its own numbers; the homology part is a statement about chains in all dimensions.", "anchors": ["src/tools/wicked_triangulations.cc: main", "src/tools/wicked_triangulations.cc: Signature, operator<<", "include/aleph/persistentHomology/PhiPersistence.hh: operator<< for Perversity"]}
{"id": "C178", "title": "Persistence diagrams describe the homology of all sublevel complexes, and nothing else", "statement": "For a complex whose simplices are in the order of a filtration with ascending data, the number of points of the diagram of dimension d that are born at s or before and die after t is the rank of the map which the inclusion of the simplices with data at most s in those with data at most t induces in homology; for s = t it is the Betti number of the sublevel complex. For descending data both hold for superlevel complexes, where a point is alive at t if it dies below t or never. Hence the points of the diagrams, with multiplicities and including those on the diagonal, do not depend on the order of simplices with equal data, on the reduction algorithm, on dualization or on the order of hash containers.", "quantifier": "for all complexes reachable through the public interface that are closed under faces, all dimensions and thresholds, all algorithms; homology with coefficients in Z/2", "why_tests_cant": "A statement about infinitely many thresholds and all orders of ties; ranks of induced maps do not occur in the program.", "anchors": ["include/aleph/persistentHomology/Calculation.hh: calculatePersistenceDiagrams", "include/aleph/persistenceDiagrams/Calculation.hh: makePersistenceDiagrams", "include/aleph/topology/filtrations/Data.hh: Data"]}
{"id": "C179", "title": "The example for images describes the components and holes of an image", "statement": "For an image with at least two rows and two columns, image_analysis prints two blocks of points, each followed by an empty line, without points on the diagonal. The image is triangulated: sets of cells that are neighbours to the right, below or diagonally below. For thresholds s <= t, the number of points of the first (second) block that are born at s or before and die after t is the rank of the map in homology of dimension 0 (1) from the part of the image with values at most s to the part with values at most t, and for s = t it is the Betti number of this part. With option -S the same holds for the parts with values at least s and t.", "quantifier": "for all files that denote a matrix, all thresholds below infinity, all algorithms and orders of hash containers", "why_tests_cant": "A statement about all images and all pairs of thresholds; the ranks do not occur in the program.", "anchors": ["examples/image_analysis.cc: main", "include/aleph/topology/io/Matrix.hh: MatrixReader", "include/aleph/persistenceDiagrams/PersistenceDiagram.hh: removeDiagonal, operator<<"]}
{"id": "C180", "title": "The example for meshes describes the sublevel sets of a mesh", "statement": "ply reads a mesh of triangles and prints, for each of the dimensions 0 and 1, a block of points that are not on the diagonal, followed by two ends of lines. For thresholds s <= t, the number of points of the block for dimension d that are born at s or before and die after t is the rank of the map in homology of dimension d from the part of the mesh whose vertices have values at most s to the part with values at most t; for s = t it is the Betti number of this part. The values are those of the given property, or the third coordinate. (The same for values at least s and t with the option for superlevel sets is refuted.)", "quantifier": "for all files in the ASCII format of C133 with at least one triangle, all thresholds below infinity, all algorithms and orders of hash containers", "why_tests_cant": "A statement about all meshes and all pairs of thresholds; for superlevel sets the program prints plausible numbers that are wrong.", "anchors": ["examples/ply.cc: main", "include/aleph/topology/io/PLY.hh: PLYReader", "include/aleph/topology/SimplicialComplex.hh: recalculateWeights"]}
{"id": "C181", "title": "The example for structured grids describes the components of a grid", "statement": "For a structured grid with at least two points, vtk prints one block of points that are not on the diagonal, followed by an empty line. For thresholds s <= t, the number of points born at s or before that die after t is the rank of the map in homology of dimension 0 from the graph of neighbouring points with values at most s to the one with values at most t, and for s = t it is the number of its components (the Betti number of dimension 0). With the option for superlevel sets the same holds for values at least s and t.", "quantifier": "for all files in the format of C132 with a value for each point, all thresholds below infinity, all algorithms and orders of hash containers", "why_tests_cant": "A statement about all grids and all pairs of thresholds.", "anchors": ["examples/vtk.cc: main", "include/aleph/topology/io/VTK.hh: VTKStructuredGridReader"]}
{"id": "C182", "title": "The example for Vietoris-Rips complexes describes the homology at all scales", "statement": "For a point cloud with at least one point, a threshold epsilon and a dimension, vietoris_rips prints one block for each dimension d below the largest dimension of a simplex of the Vietoris-Rips complex, in order (with the option for the tail only the last of them). Each block has a header with the name of the input, the dimension and the number of points. For scales 0 <= s <= t, the number of points born at s or before that die after t is the rank of the map in homology of dimension d from the complex of the simplices with pairwise distances at most s to the one with pairwise distances at most t; for s = t it is the Betti number. This even holds for the complexes whose dimension is bounded by a larger number, or not at all. Points on the diagonal are removed unless they are kept. With normalisation, finite coordinates are divided by the square of the greatest distance, and infinite ones become 1. Without arguments the exit status is -1; the third argument is the dimension, which by default is the one of the point cloud plus one.", "quantifier": "for all point clouds with non-negative distances, all thresholds, dimensions, options, algorithms and orders of hash containers", "why_tests_cant": "A statement about all point clouds and all pairs of scales; the normalisation by a squared distance looks right for clouds with a diameter of 1.", "anchors": ["examples/vietoris_rips.cc: main", "include/aleph/geometry/VietorisRipsComplex.hh: buildVietorisRipsComplex", "include/aleph/geometry/distances/Euclidean.hh: operator()"]}
{"id": "C183", "title": "The example for witness complexes describes their homology at all scales", "statement": "If landmarks have been selected and nu is at most their number, witness_complex prints one block for each dimension d below the largest dimension of a simplex of the witness complex (C80), in order, each with a header with the name of the input, the dimension and the number of points, none of which is on the diagonal. For scales 0 <= s <= t, the number of points born at s or before that die after t is the rank of the map in homology of dimension d from the complex of the simplices whose edges have values at most s to the one with values at most t; for s = t it is the Betti number. For fractions in the unit interval, the max-min strategy selects the integral part of the fraction of the points, but at least one. The dimension is read from the first argument after the input if there is another one.", "quantifier": "for all point clouds with non-negative distances, all selections of landmarks, radii, dimensions, algorithms and orders of hash containers", "why_tests_cant": "A statement about all point clouds and all pairs of scales; the failure for small point clouds needs the default options.", "anchors": ["examples/witness_complex.cc: main", "include/aleph/geometry/WitnessComplex.hh: buildWitnessComplex"]}
{"id": "C184", "title": "The example for eccentricities describes sublevel and superlevel complexes", "statement": "For a point cloud with at least one point and values for its points, vietoris_rips_eccentricity prints one block for each dimension d below the largest dimension of a simplex of the Vietoris-Rips complex for the threshold, in order, without points on the diagonal. Without a star filtration, or with the lower one, the number of points born at s or before that die after t is the rank of the map in homology of dimension d from the simplices whose vertices have values at most s to those with values at most t; with the upper star filtration, the same holds for values at least s and at least t, for t <= s. For s = t this is the Betti number. If two eccentricities differ, the values are in the unit interval, the greatest eccentricity becomes 0, the least one 1, and the order is reversed. The upper and lower star filtrations are selected by a single letter U or L of either case, with white space around it ignored.", "quantifier": "for all point clouds and distances, all values, thresholds, dimensions, filtrations, algorithms and orders of hash containers", "why_tests_cant": "A statement about all point clouds, all values and all pairs of thresholds.", "anchors": ["examples/vietoris_rips_eccentricity.cc: main", "include/aleph/geometry/VietorisRipsComplex.hh: buildVietorisRipsComplex", "include/aleph/topology/filtrations/UpperStar.hh", "include/aleph/topology/filtrations/LowerStar.hh"]}
{"id": "C185", "title": "The confidence band of piecewise linear functions is the narrowest one that contains enough replicates", "statement": "For at least one function, all on the same domain, and a significance level alpha with 0 <= alpha < 1, the tool for smoothing piecewise linear functions calculates the pointwise mean, and an upper and a lower limit that differ from it by the same number w >= 0 everywhere on the domain. As many replicates are drawn as requested, each of which is the pointwise mean of as many functions as there are, namely of the ones that have been drawn. At least the fraction 1 - alpha of the replicates remains between the limits on the whole domain; for every number smaller than w this is wrong. With less than two files, the exit status is -1; otherwise the mean, the upper limit and the lower limit are printed, in this order.", "quantifier": "for all piecewise linear functions on a common domain, all numbers of replicates, all levels and all random numbers", "why_tests_cant": "A statement about all functions, all points of their domain and all random numbers, including that no narrower band would do.", "anchors": ["src/tools/piecewise_linear_function_smoothing.cc: main, meanCalculation", "include/aleph/math/Bootstrap.hh: makeReplicates, index", "include/aleph/math/PiecewiseLinearFunction.hh: abs, sup, operator-, operator/"]}
