{"id": "C01", "title": "Permutation product is composition of maps", "statement": "For valid permutations p and x of the same n, p*x is a valid permutation of n with (p*x)(i)=p(x(i)); the product is associative and identity(n) is neutral on both sides; no array access is out of bounds.", "quantifier": "every n and every triple of permutations of n", "why_tests_cant": "there are n! permutations for every n; tests sample a handful", "anchors": ["combinatorial/Permutation.hpp:Permutation::operator*", "combinatorial/Permutation.hpp:Permutation::identity"]}
{"id": "C02", "title": "Permutation inverse is the group inverse", "statement": "For every valid permutation p, p.inv(), p.inverse() and !p agree, are valid, every cell of the result is initialised, and p*p.inv()=p.inv()*p=identity; inv(inv(p))=p; inv(p*q)=inv(q)*inv(p).", "quantifier": "every n, every permutation (pair) of n", "why_tests_cant": "unbounded in n", "anchors": ["combinatorial/Permutation.hpp:Permutation::operator!", "combinatorial/Permutation.hpp:Permutation::inverse", "combinatorial/Permutation.hpp:Permutation::inv"]}
{"id": "C03", "title": "check_valid decides bijectivity without touching foreign memory", "statement": "For an arbitrary integer array of any length, check_valid returns true exactly when the array lists each of 1..n once, and never reads or writes outside its own buffers.", "quantifier": "every n and every integer array of length n", "why_tests_cant": "the input space of integer arrays is infinite", "anchors": ["combinatorial/Permutation.hpp:Permutation::check_valid"]}
{"id": "C04", "title": "Compound assignment agrees with the product", "statement": "p*=x leaves in p the value p*x (what every C++ and Python user of operator*= assumes). The code computes x*p instead.", "quantifier": "every n, every pair of permutations of n", "why_tests_cant": "the law holds on all commuting pairs, so sampled tests (identity, disjoint cycles) can pass", "anchors": ["combinatorial/Permutation.hpp:Permutation::operator*=", "python/bindings/Snob2_bindings.cpp:__imul__"]}
{"id": "C05", "title": "Named constructors denote the transposition and the contiguous cycle", "statement": "transposition(n,i,j) swaps i and j and fixes the rest; contiguous_cycle(n,a,b) sends a->a+1->...->b->a for a<b, is the identity for a=b, and contiguous_cycle(n,b,a) is the inverse of contiguous_cycle(n,a,b); both are valid permutations; a contiguous cycle is the product of the adjacent transpositions (a,a+1)...(b-1,b).", "quantifier": "every n and all 1<=a,b,i,j<=n", "why_tests_cant": "unbounded parameter space", "anchors": ["combinatorial/Permutation.hpp:Permutation::transposition", "combinatorial/Permutation.hpp:Permutation::contiguous_cycle", "combinatorial/ContiguousCycle.hpp", "combinatorial/Transposition.hpp"]}
{"id": "C06", "title": "Constructors reject arrays that are not permutations", "statement": "A Permutation object built from user data is always a bijection of 1..n, so inverse and product are always defined. The code only prints a message (initializer_list) or checks nothing (vector), and inverse then writes outside its buffer.", "quantifier": "every integer array", "why_tests_cant": "needs all arrays and the absence of out-of-bounds writes, which a test run does not observe", "anchors": ["combinatorial/Permutation.hpp:Permutation::Permutation(initializer_list)", "combinatorial/Permutation.hpp:Permutation::Permutation(vector)", "combinatorial/Permutation.hpp:Permutation::inverse"]}
{"id": "C07", "title": "Sn elements and indices are in bijection", "statement": "For every n>=1: element(i) is a valid permutation of n for every 0<=i<n!, index(element(i))=i, and element(index(sigma))=sigma with 0<=index(sigma)<n! for every permutation sigma of n.", "quantifier": "every n>=1, every index below n!, every permutation of n", "why_tests_cant": "n! grows beyond exhaustive testing already at n=13", "anchors": ["Sn/SnObj.hpp:SnObj::element", "Sn/SnObj.hpp:SnObj::index", "Sn/Sn.hpp", "Sn/Sn_ElementHelper.hpp"]}
{"id": "C08", "title": "Sn enumeration is nested", "statement": "The first (n-1)! elements of Sn fix n and coincide with the enumeration of S(n-1); in general element(a*(n-1)!+r) is the r-th element of S(n-1) with n inserted a places from the right; element(0) is the identity.", "quantifier": "every n, every index", "why_tests_cant": "unbounded", "anchors": ["Sn/SnObj.hpp:SnObj::element", "Sn/SnObj.hpp:SnObj::index", "python/doc/source/Sn.rst"]}
{"id": "C09", "title": "Index arithmetic fits in int for n<=12, and only there", "statement": "For n<=12 every intermediate value of order, element and index fits in a 32-bit int; for n>=13 the group order does not.", "quantifier": "every n and every index/permutation", "why_tests_cant": "overflow at n=13 is never reached by feasible enumeration tests", "anchors": ["Sn/SnObj.hpp:SnObj::SnObj", "Sn/SnObj.hpp:SnObj::element", "Sn/SnObj.hpp:SnObj::index", "combinatorial/IntegerPartition.hpp:IntegerPartition::factorial"]}
{"id": "C10", "title": "Sn/Sm element and index round trip", "statement": "For 1<=m<=n: size()*m!=n!; for 0<=i<size(), element(i) is a valid permutation and index(element(i))=i; index(sigma) is in range for every permutation.", "quantifier": "every m<=n, every index, every permutation", "why_tests_cant": "unbounded", "anchors": ["Sn/SnOverSmObj.hpp:SnOverSmObj::element", "Sn/SnOverSmObj.hpp:SnOverSmObj::index", "Sn/SnOverSm.hpp"]}
{"id": "C11", "title": "Sn/Sm indices identify cosets", "statement": "index(sigma)=index(tau) exactly when sigma and tau lie in the same coset of S_m. The documentation says left cosets sigma*S_m; the code separates right cosets S_m*sigma.", "quantifier": "every m<=n, every pair of permutations", "why_tests_cant": "needs all pairs of permutations for all n,m", "anchors": ["Sn/SnOverSmObj.hpp:SnOverSmObj::index", "python/doc/source/Sn.rst"]}
{"id": "C12", "title": "IntegerPartitions(n) is complete, duplicate free and ordered", "statement": "For every n>=1 the list contains exactly the weakly decreasing positive sequences summing to n, each once, in decreasing lexicographic order ([n] first, [1,...,1] last).", "quantifier": "every n", "why_tests_cant": "tests can only compare small n to tables", "anchors": ["combinatorial/CombinatorialBankLevel.hpp:CombinatorialBankLevel::make_partitions", "combinatorial/IntegerPartitions.hpp"]}
{"id": "C13", "title": "Partition comparison is a strict total order compatible with equality", "statement": "On partitions of one n, operator< is irreflexive, transitive and total and incomparable elements are ==; it never aborts there. Comparing partitions of different n aborts the process.", "quantifier": "every n and all pairs/triples of partitions", "why_tests_cant": "order laws quantify over all triples; std::map is undefined otherwise", "anchors": ["combinatorial/IntegerPartition.hpp:IntegerPartition::operator<", "combinatorial/IntegerPartition.hpp:IntegerPartition::operator=="]}
{"id": "C14", "title": "Equal partitions have equal hashes", "statement": "If two partitions compare == then their std::hash values are equal (required by every unordered_map keyed by partitions). False for arrays with trailing zeros, true for positive parts.", "quantifier": "all pairs of partitions", "why_tests_cant": "hash inequality on equal keys shows only as rare duplicate cache entries", "anchors": ["combinatorial/IntegerPartition.hpp:hash<IntegerPartition>", "combinatorial/IntegerPartition.hpp:IntegerPartition::operator=="]}
{"id": "C15", "title": "Adding and removing boxes", "statement": "extendable(i) holds exactly when adding a box to row i gives a partition of n+1; shortenable(i) exactly when removing a box from row i gives a partition of n-1; remove(i) after add(i) restores the partition, and add(i) after remove(i) too; no out-of-bounds access for in-range rows.", "quantifier": "every partition and every row", "why_tests_cant": "unbounded", "anchors": ["combinatorial/IntegerPartition.hpp:IntegerPartition::extendable", "combinatorial/IntegerPartition.hpp:IntegerPartition::shortenable", "combinatorial/IntegerPartition.hpp:IntegerPartition::add", "combinatorial/IntegerPartition.hpp:IntegerPartition::remove"]}
{"id": "C16", "title": "Sub-partition traversal is exact", "statement": "for_each_sub/parents calls back with exactly the partitions of n-1 contained in lambda, each once, lowest removed row first, and this agrees with the parent order used to build tableaux.", "quantifier": "every partition of every n>=1", "why_tests_cant": "unbounded", "anchors": ["combinatorial/IntegerPartition.hpp:IntegerPartition::foreach_sub", "combinatorial/IntegerPartition.hpp:IntegerPartition::parents", "combinatorial/CombinatorialBankLevel.hpp:CombinatorialBankLevel::get_IntegerPartitionObj"]}
{"id": "C17", "title": "Content of the difference of two partitions", "statement": "If lambda is mu with one box added in row r, lambda.content_of_difference(mu) returns column minus row of that box; if the sizes do not differ by one, or lambda has fewer rows, it throws.", "quantifier": "every pair of partitions", "why_tests_cant": "unbounded", "anchors": ["combinatorial/IntegerPartition.hpp:IntegerPartition::content_of_difference"]}
{"id": "C18", "title": "hooklength counts standard Young tableaux", "statement": "For every partition lambda of n, hooklength() (n! divided successively, in integer arithmetic, by every hook length) equals the number of standard Young tableaux of shape lambda, which is the dimension of the irrep; the truncating divisions lose nothing in total.", "quantifier": "every partition of every n", "why_tests_cant": "a theorem (hook length formula); tests only sample shapes", "anchors": ["combinatorial/IntegerPartition.hpp:IntegerPartition::hooklength", "Sn/SnIrrep.hpp:get_dim"]}
{"id": "C19", "title": "StandardYoungTableaux(lambda) is complete and duplicate free", "statement": "For every partition lambda of n>=1 the list contains exactly the fillings of the shape by 1..n increasing along rows and columns, each once.", "quantifier": "every partition of every n", "why_tests_cant": "the number of tableaux explodes; no test enumerates them", "anchors": ["combinatorial/IntegerPartitionObj.hpp:IntegerPartitionObj::make_tableaux", "combinatorial/StandardYoungTableaux.hpp"]}
{"id": "C20", "title": "apply_transp swaps two entries and returns the axial distance", "statement": "On any filling by distinct integers containing i and j, apply_transp(i,j) exchanges exactly these two entries, never throws, is undone by itself, and returns content(j)-content(i); on a standard tableau with j=i+1 the result is standard exactly when the returned value is not +1 or -1, and the value is never 0.", "quantifier": "every tableau, every i,j", "why_tests_cant": "unbounded", "anchors": ["combinatorial/YoungTableau.hpp:YoungTableau::apply_transp", "combinatorial/YoungTableau.hpp:YoungTableau::index"]}
{"id": "C21", "title": "Tableau construction, lookup and shape agree", "statement": "The default tableau of a partition is standard and has that shape; index(at(r,c))=(r,c) on distinct fillings; at throws exactly outside the shape; lookup of an absent value returns the cell (0,0) (it is not reported).", "quantifier": "every partition / filling / position", "why_tests_cant": "unbounded", "anchors": ["combinatorial/YoungTableau.hpp:YoungTableau::YoungTableau(IntegerPartition)", "combinatorial/YoungTableau.hpp:YoungTableau::shape", "combinatorial/YoungTableau.hpp:YoungTableau::index", "combinatorial/YoungTableau.hpp:YoungTableau::at"]}
{"id": "C22", "title": "Tableau add and remove are inverse", "statement": "remove(r) undoes add(r,j) for r<=k; remove(r) removes the last entry of row r and nothing else. Fails for an interior row of length one, where the last row is dropped instead.", "quantifier": "every tableau and row", "why_tests_cant": "depends on the shape of all rows", "anchors": ["combinatorial/YoungTableau.hpp:YoungTableau::add", "combinatorial/YoungTableau.hpp:YoungTableau::remove"]}
{"id": "C23", "title": "Restriction-ordered partitions are a permutation of all partitions", "statement": "get_ROpartitions(n) lists every partition of n exactly once, the recursion terminates, and a partition all of whose parents are parents of an earlier-listed-by-lex partition is emitted before it.", "quantifier": "every n", "why_tests_cant": "recursion with shared mutable marks; all n", "anchors": ["combinatorial/CombinatorialBankLevel.hpp:CombinatorialBankLevel::make_ROpartitions", "combinatorial/CombinatorialBankLevel.hpp:CombinatorialBankLevel::proposeRO"]}
{"id": "C24", "title": "Combinatorial bank answers do not depend on the query history", "statement": "After any sequence of queries for partitions, tableaux and RO-partitions with n>=1, the next query returns the same list as on a fresh session, and repeated queries return the same stored objects.", "quantifier": "every finite history of queries", "why_tests_cant": "histories are unbounded; caches can be wrong only after particular orders", "anchors": ["combinatorial/CombinatorialBank.hpp:level", "combinatorial/CombinatorialBankLevel.hpp", "combinatorial/IntegerPartitionObj.hpp"]}
{"id": "C25", "title": "Group bank returns the right group after any history", "statement": "After any sequence of get_Sn calls, get_Sn(n) returns the object for n, the same object every time. get_Sn(0) truncates the cache to nothing (all groups handed out so far are forgotten and built again) and then reads before the array.", "quantifier": "every finite history of calls", "why_tests_cant": "needs all histories, including the bad one", "anchors": ["Sn/SnBank.hpp:get_Sn"]}
{"id": "C26", "title": "Irrep numbering is independent of the query history", "statement": "G.irreps[i] denotes the i-th partition of n in the listing order whatever was asked before. The code numbers irreps in the order of first request.", "quantifier": "every history of irrep requests", "why_tests_cant": "only visible after particular request orders", "anchors": ["Sn/Sn_IrrepHelper.hpp", "Sn/SnObj.hpp:SnObj::get_irrep", "Sn/Sn_CharacterHelper.hpp"]}
{"id": "C27", "title": "get_irrep returns one irrep object per partition", "statement": "After any history get_irrep(lambda) returns an irrep whose partition is lambda, the same one each time, distinct ones for distinct partitions; after get_all_irreps every partition of n has exactly one.", "quantifier": "every history of requests", "why_tests_cant": "histories are unbounded", "anchors": ["Sn/SnObj.hpp:SnObj::get_irrep", "Sn/SnObj.hpp:SnObj::make_all_irreps"]}
{"id": "C28", "title": "Conjugacy class numbering round trips", "statement": "index(cclass(i))=i for 0<=i<ncclasses and cclass(index(mu))=mu for every partition mu of n; after any history of lookups, including lookups of foreign partitions. ncclasses is the number of partitions of n.", "quantifier": "every n, index, partition and history", "why_tests_cant": "lookup by operator[] silently inserts; only histories show it", "anchors": ["Sn/SnObj.hpp:SnObj::cclass", "Sn/SnObj.hpp:SnObj::index(SnCClass)", "Sn/SnObj.hpp:SnObj::make_cclasses"]}
{"id": "C29", "title": "Class sizes", "statement": "class_size(mu) equals the number of permutations of n of cycle type mu.", "quantifier": "every partition of every n", "why_tests_cant": "counting over n! permutations", "anchors": ["Sn/Sn.hpp:class_size"]}
{"id": "C30", "title": "The three-way ordering helper sorts", "statement": "order(x,y,z) returns the same three values in increasing order. The code returns a permutation of them that is not always sorted.", "quantifier": "all triples", "why_tests_cant": "fails in one of six order patterns", "anchors": ["include/Snob2_base.hpp:order"]}
{"id": "C31", "title": "Young orthogonal generators satisfy the Coxeter relations", "statement": "For every partition lambda of n the actions of adjacent transpositions on the rows of a matrix are involutions, satisfy the braid relation for neighbours, and commute otherwise (exact real arithmetic).", "quantifier": "every partition, every generator, every matrix", "why_tests_cant": "algebraic identity over all shapes", "anchors": ["Sn/SnIrrepObj.hpp:SnIrrepObj::apply_left(tau)", "Sn/SnIrrepObj.hpp:SnIrrepObj::computeYOR"]}
{"id": "C32", "title": "Representation matrices form a representation", "statement": "rho(identity)=I, rho(sigma*tau)=rho(sigma)rho(tau) for all permutations of n, and applying sigma to a matrix equals multiplying it by rho(sigma) on the left.", "quantifier": "every partition, every pair of permutations, every matrix", "why_tests_cant": "(n!)^2 pairs for every shape", "anchors": ["Sn/SnIrrepObj.hpp:SnIrrepObj::operator()", "Sn/SnIrrepObj.hpp:SnIrrepObj::apply_left(sigma)"]}
{"id": "C33", "title": "Representation matrices are orthogonal", "statement": "rho(sigma) times its transpose is I, hence rho(sigma^-1) is the transpose of rho(sigma).", "quantifier": "every partition and permutation", "why_tests_cant": "all n", "anchors": ["Sn/SnIrrepObj.hpp:SnIrrepObj::operator()", "Sn/SnIrrepObj.hpp:SnIrrepObj::apply_left(tau)"]}
{"id": "C34", "title": "Cycle and transposition overloads agree with the permutation they name", "statement": "Applying ContiguousCycle(a,b) (either order), apply_left_inv, or Transposition(i,j) to a matrix equals applying the corresponding permutation.", "quantifier": "every shape, every a,b,i,j in 1..n, every matrix", "why_tests_cant": "several overloads, all parameters", "anchors": ["Sn/SnIrrepObj.hpp:SnIrrepObj::apply_left(ContiguousCycle)", "Sn/SnIrrepObj.hpp:SnIrrepObj::apply_left_inv", "Sn/SnIrrepObj.hpp:SnIrrepObj::apply_left(Transposition)"]}
{"id": "C35", "title": "SnIrrep.transp gives the transposition matrix", "statement": "rho.transp(i,j) is rho of the transposition (i j) in every irrep exactly when i<=j+1; for i>j it is rho of the cycle from i down to j, which from i=j+2 on is a different matrix in some irrep.", "quantifier": "every shape and all i,j", "why_tests_cant": "symmetric-argument bug", "anchors": ["Sn/SnIrrep.hpp:SnIrrep::transp", "Sn/SnIrrep.hpp:SnIrrep::operator()(Transposition)"]}
{"id": "C36", "title": "Jucys-Murphy elements are diagonal with the contents as eigenvalues", "statement": "JucysMurphy(k) is the vector whose entry for a tableau is the content of the box holding k; the off-diagonal part that the code drops is zero; repeated queries return the same.", "quantifier": "every shape, every k<=n", "why_tests_cant": "spectral statement for all shapes", "anchors": ["Sn/SnIrrepObj.hpp:SnIrrepObj::JucysMurphy"]}
{"id": "C37", "title": "Characters are class functions", "statement": "character(mu) equals the trace of rho(sigma) for every permutation sigma of cycle type mu, and character([1^n]) is the dimension.", "quantifier": "every shape and permutation", "why_tests_cant": "quantifies over whole conjugacy classes", "anchors": ["Sn/SnIrrepObj.hpp:SnIrrepObj::character", "Sn/SnCharacter.hpp"]}
{"id": "C38", "title": "Schur orthogonality of the representation matrices", "statement": "The sum over Sn of rho_lambda(sigma)[i,j]*rho_mu(sigma)[k,l] is n!/d if lambda=mu,i=k,j=l and 0 otherwise: the listed irreps are irreducible, pairwise inequivalent.", "quantifier": "every pair of shapes, all entries", "why_tests_cant": "sum over n! terms for all shapes", "anchors": ["Sn/SnIrrepObj.hpp:SnIrrepObj::operator()"]}
{"id": "C39", "title": "Restriction to S(n-1) is block diagonal in tableau order", "statement": "For sigma fixing n, rho_lambda(sigma) is block diagonal with blocks rho_mu(sigma) for the parents mu of lambda in for_each_sub order.", "quantifier": "every shape and every permutation fixing n", "why_tests_cant": "adapted-basis property the FFT relies on", "anchors": ["Sn/SnIrrepObj.hpp", "combinatorial/IntegerPartitionObj.hpp:IntegerPartitionObj::make_tableaux"]}
{"id": "C40", "title": "The batched (view) action equals the matrix action", "statement": "Acting on the middle index of a view is multiplication by the matrix, for every shape. Acting on the first index, through the precomputed index/coefficient tensors, is multiplication by the matrix of an adjacent transposition exactly when, in the list of tableaux, no exchanged pair ends before another starts; all shapes of at most 4 boxes are such. The slot numbering of the tensors leaves holes, so otherwise pairs of rows are skipped (first for (3,2)) or the slots lie outside the tensor (first for (3,2,1)).", "quantifier": "every shape and generator", "why_tests_cant": "first failure at n=5; repository tests use n=4", "anchors": ["Sn/SnIrrepObj.hpp:SnIrrepObj::computeYORtensors", "Sn/SnIrrepObj.hpp:SnIrrepObj::apply_left(Rtensor3_view)"]}
{"id": "C41", "title": "Block actions only touch their columns", "statement": "apply_left(A,tau,beg,end) acts on columns beg..end-1 as the full action and leaves all others unchanged; the strided version acts on every block.", "quantifier": "every shape, matrix, column range", "why_tests_cant": "frame property", "anchors": ["Sn/SnIrrepObj.hpp:SnIrrepObj::apply_left(beg,end)", "Sn/SnIrrepObj.hpp:SnIrrepObj::apply_left(stride)"]}
{"id": "C42", "title": "Translations of functions on Sn", "statement": "left_translate(t) gives g(s)=f(t^-1 s), right_translate(t) gives g(s)=f(s t^-1), inv gives g(s)=f(s^-1); left translation is a homomorphic action, left and right translations commute, inv is an involution; every cell of the result is written.", "quantifier": "every n, function and permutation", "why_tests_cant": "n! cells", "anchors": ["Sn/SnFunction.hpp:left_translate", "Sn/SnFunction.hpp:right_translate", "Sn/SnFunction.hpp:inv", "include/FunctionOnGroup.hpp"]}
{"id": "C43", "title": "Convolution is associative and compatible with representations", "statement": "convolve(f,g)(s)=sum_t f(s t^-1) g(t); convolution is associative and bilinear, the delta function at the identity is neutral.", "quantifier": "every n and functions f,g,h", "why_tests_cant": "n!^3 terms", "anchors": ["Sn/SnFunction.hpp:convolve"]}
{"id": "C44", "title": "FFT block layout", "statement": "At each level the transform template has one part for each partition, of multiplicity equal to the dimension (Sn case), and the row offset of the block for parent mu inside lambda equals the number of tableaux before those of mu in tableau order.", "quantifier": "every n", "why_tests_cant": "layout for all shapes", "anchors": ["Sn/ClausenFFTvecTmplt.hpp", "Sn/ClausenFFTpartTmplt.hpp", "Sn/ClausenFFTblockTmplt.hpp"]}
{"id": "C45", "title": "Forward FFT computes the Fourier transform", "statement": "With the row-by-row action, the recursive transform of f equals sum_sigma f(sigma) rho_lambda(sigma^-1) for every lambda.", "quantifier": "every n and f", "why_tests_cant": "n! terms for each shape", "anchors": ["Sn/ClausenFFTObj.hpp", "Sn/ClausenFFTvecTmplt.hpp:uptransform"]}
{"id": "C46", "title": "Inverse FFT undoes the forward FFT", "statement": "inv(FFT(f))=f for every function f on Sn in exact arithmetic (with the row-by-row action).", "quantifier": "every n and f", "why_tests_cant": "the documented guarantee, for all n and f", "anchors": ["Sn/ClausenFFTObj.hpp", "Sn/ClausenFFTvecTmplt.hpp:downtransform"]}
{"id": "C47", "title": "Fourier transform turns convolution and translation into products", "statement": "FFT(convolve(f,g)) is the partwise matrix product, and translation multiplies each part by a representation matrix.", "quantifier": "every n,f,g", "why_tests_cant": "all functions", "anchors": ["Sn/SnFunction.hpp:convolve", "Sn/ClausenFFTObj.hpp"]}
{"id": "C48", "title": "SnType is a finite multiset of partitions", "statement": "After any sequence of set/add/lookup operations on partitions of one n, the multiplicity read for lambda is what a total map with default 0 would give; add(SnType) adds multiplicities; order of insertion is irrelevant.", "quantifier": "every operation history", "why_tests_cant": "histories unbounded; lookups mutate", "anchors": ["Sn/SnType.hpp"]}
{"id": "C49", "title": "Induction and restriction of types", "statement": "The induced representation contains lambda with the sum of the multiplicities of its parents, its dimension is (n+1) times the old one, restriction (down) has the same dimension, and multiplicities satisfy Frobenius reciprocity.", "quantifier": "every type", "why_tests_cant": "unbounded", "anchors": ["Sn/SnRepresentationObj.hpp:make_induced", "Sn/SnType.hpp:down"]}
{"id": "C50", "title": "The representation bank serves any mixture of groups", "statement": "After any history of requests for representations of any groups, a further request succeeds. The code aborts when types of different n meet in its ordered map.", "quantifier": "every history", "why_tests_cant": "history dependent process abort", "anchors": ["Sn/SnRepresentationBank.hpp", "combinatorial/IntegerPartition.hpp:IntegerPartition::operator<"]}
{"id": "C51", "title": "Cyclic groups", "statement": "For n>=1 element(i)/index round trip; product and inverse stay in range and satisfy the group laws.", "quantifier": "every n and all elements", "why_tests_cant": "all n", "anchors": ["groups/CyclicGroup.hpp", "groups/CyclicGroupElement.hpp"]}
{"id": "C52", "title": "Dihedral groups", "statement": "For n>=1 element/index round trip on 0..2n-1; product and inverse satisfy the group laws.", "quantifier": "every n and all elements", "why_tests_cant": "all n", "anchors": ["groups/DihedralGroup.hpp", "groups/DihedralGroupElement.hpp"]}
{"id": "C53", "title": "Product groups", "statement": "element is a bijection from 0..size-1 to pairs when both factors are; componentwise product and inverse satisfy the group laws; size and irrep counts multiply.", "quantifier": "every pair of groups", "why_tests_cant": "parametric", "anchors": ["groups/ProductGroup.hpp", "groups/ProductGroupElement.hpp"]}
{"id": "C54", "title": "Cyclic irreps", "statement": "rho_k(x*y)=rho_k(x)rho_k(y), rho_k(identity)=1, and distinct k<n are orthogonal.", "quantifier": "every n, k, elements", "why_tests_cant": "all n", "anchors": ["groups/CyclicGroupIrrep.hpp"]}
{"id": "C55", "title": "Dihedral irreps", "statement": "For each k below n_irreps, operator() gives square matrices of size dim(), multiplicative on the group, and the squared dimensions sum to 2n. The code misses k=3 for even n.", "quantifier": "every n, k, elements", "why_tests_cant": "parity dependent", "anchors": ["groups/DihedralGroupIrrep.hpp", "groups/DihedralGroup.hpp:n_irreps"]}
{"id": "C56", "title": "Product group irreps are tensor products", "statement": "The matrix returned for (g1,g2) is rho1(g1) tensor rho2(g2). The code returns the zero matrix.", "quantifier": "all groups and elements", "why_tests_cant": "parametric", "anchors": ["groups/ProductGroupIrrep.hpp"]}
{"id": "C57", "title": "Fourier inversion on a finite group", "statement": "inverse(Fourier(f))=f for the generic group transform.", "quantifier": "all groups with a complete irrep list, all f", "why_tests_cant": "parametric", "anchors": ["groups/FourierOnGroup.hpp"]}
{"id": "C58", "title": "Clebsch-Gordan multiplicities are symmetric", "statement": "coeff(l1,l2,l3) does not depend on the order of its arguments nor on what was computed before.", "quantifier": "all triples and histories", "why_tests_cant": "cache keyed by a helper that does not sort", "anchors": ["Sn/SnCGbank.hpp:coeff", "include/Snob2_base.hpp:order"]}
{"id": "C59", "title": "Clebsch-Gordan products of types are bilinear and complete", "statement": "CGproduct(t1,t2) has the multiplicities sum m1*m2*coeff; pruning loses no irrep; dimensions multiply.", "quantifier": "all types", "why_tests_cant": "all shapes", "anchors": ["Sn/SnCGbank.hpp:CGproduct"]}
{"id": "C60", "title": "Sn::character(i) returns the i-th character", "statement": "character(i) of Sn is the character of the i-th irrep. The code ignores i.", "quantifier": "every n and i", "why_tests_cant": "holds for i=0, so a smoke test passes", "anchors": ["Sn/Sn.hpp:character(int)"]}
{"id": "C61", "title": "Copying is deep and assignment is total", "statement": "A copy of a permutation or partition is independent of the original, x=y makes x equal y for every pair including x=x. After any program of constructions, copies, moves, assignments, changes and destructions nothing leaks and nothing is freed twice. Self assignment of Permutation/IntegerPartition instead loses the entries: it frees them before copying.", "quantifier": "every pair of objects, including aliases", "why_tests_cant": "aliasing", "anchors": ["combinatorial/Permutation.hpp:operator=", "combinatorial/IntegerPartition.hpp:operator="]}
{"id": "C62", "title": "Irrep objects can be destroyed in any state", "statement": "Destroying an irrep object after any sequence of uses frees only memory it owns. The code frees two uninitialised pointers unless the tables were computed.", "quantifier": "every history of uses", "why_tests_cant": "undefined behaviour that often goes unnoticed", "anchors": ["Sn/SnIrrepObj.hpp:~SnIrrepObj", "Sn/SnIrrepObj.hpp:computeYOR"]}
{"id": "C63", "title": "Vector restriction and reassembly", "statement": "SnVec.down splits a part of an Sn-vector into the parts for the partitions one box smaller: the row of a tableau goes to the row of the tableau without n, and nothing is lost or made up. up reassembles it: restricting every part, concatenating and going up gives the vector back, and the other way round. cat puts the columns of equal partitions side by side, accumulate_up adds what up returns at the given column offsets, and down and up commute with the permutations that fix n.", "quantifier": "every n, every vector of every type, every permutation", "why_tests_cant": "all shapes", "anchors": ["Sn/SnVec.hpp:downB", "Sn/SnVec.hpp:up", "Sn/SnVec.hpp:cat", "Sn/SnVec.hpp:accumulate_up", "Sn/SnVec.hpp:get_type"]}
{"id": "C64", "title": "Quotient objects are cached per pair (n,m)", "statement": "After any history get_SnOverSm(n,m) returns the object with these n and m, the same one each time.", "quantifier": "every history of requests", "why_tests_cant": "histories are unbounded", "anchors": ["Sn/SnObj.hpp:get_SnOverSm", "Sn/SnBank.hpp:get_SnOverSm"]}
{"id": "C65", "title": "The transform as shipped is the Fourier transform", "statement": "FFT(f), as the code computes it with its batched action on the rows, is the Fourier transform of f, and inv undoes it, exactly for n<=4: on S5 it is wrong for some function, and from S6 on the transform of any function, and the inverse, write outside a table.", "quantifier": "every n and f", "why_tests_cant": "correct for n<=4, so small tests pass", "anchors": ["Sn/ClausenFFTvecTmplt.hpp:uptransform", "Sn/ClausenFFTvecTmplt.hpp:downtransform", "Sn/SnIrrepObj.hpp"]}
{"id": "C66", "title": "Fourier transform on Sn/Sm", "statement": "The transform of a function on the cosets Sn/Sm has one part for each partition with at least m boxes in the first row, with one column for each tableau that has 1..m in the first row; its entries are the corresponding columns of sum_e f(e) rho(s_e^-1), and the inverse recovers f (row-by-row action).", "quantifier": "every n, m<=n and f", "why_tests_cant": "all shapes and functions", "anchors": ["Sn/ClausenFFTObj.hpp", "Sn/ClausenFFTvecTmplt.hpp", "Sn/SnOverSmFunction.hpp"]}
{"id": "C67", "title": "The transform on Sn/Sn carries the trivial irrep of Sn", "statement": "For m=n the transform of a function on the single coset is one part that belongs to the irrep (n). The code returns a part labelled with the irrep (1) of S1.", "quantifier": "every n>=2 and every value", "why_tests_cant": "only the m=n corner", "anchors": ["Sn/ClausenFFTObj.hpp:operator()", "Sn/ClausenFFTvecTmplt.hpp"]}
{"id": "C68", "title": "inv on a quotient transform returns a function on Sn/Sm", "statement": "The inverse transform exposed to python under the name inv_snsm gives back a function on Sn/Sm. It is bound to inv, which labels the values as a function on S_(n-m+1).", "quantifier": "every n>m>=2 and f", "why_tests_cant": "the values are right, only the group they live on is not", "anchors": ["python/SnFFT_py.cpp:inv_snsm", "Sn/ClausenFFTObj.hpp:inv"]}
{"id": "C69", "title": "Transform objects are cached per pair (n,m)", "statement": "After any history the transform object obtained for n, or for n and m, is the one a fresh construction gives, and asking again returns the same one.", "quantifier": "every history of requests", "why_tests_cant": "histories are unbounded", "anchors": ["Sn/SnFFTbank.hpp:get_FFT"]}
{"id": "C70", "title": "Conjugacy classes are the cycle types", "statement": "The classes a group object numbers by the partitions of n are exactly its conjugacy classes: every permutation lies in exactly one, two permutations are conjugate exactly when they lie in the same one, and the values of class_size over all of them add up to the order of the group.", "quantifier": "every n, every permutation", "why_tests_cant": "all permutations of all degrees", "anchors": ["Sn/Sn.hpp:class_size", "Sn/Sn.hpp:cclass", "Sn/SnObj.hpp:cclass"]}
{"id": "C71", "title": "Character values do not depend on history, their numbering does", "statement": "After any history of character requests for any groups, a request that names a partition is answered by the character of that irrep (the trace of any permutation of each cycle type), and characters[i] numbers the characters of Sn, each once, with numbers that never change after the first characters[i] request. If no character of Sn was asked for before, number i is the i-th partition; otherwise it need not be.", "quantifier": "every history of requests", "why_tests_cant": "histories are unbounded", "anchors": ["Sn/SnCharBank.hpp", "Sn/SnCharacter.hpp", "Sn/Sn_CharacterHelper.hpp", "Sn/SnClassFunction.hpp"]}
{"id": "C72", "title": "Translations and inverse of functions on a group", "statement": "left_translate(t) moves the value at x to tx, right_translate(t) to xt and inv() to the inverse of x, for every group, every function and every t, with every cell of the result written. left(t), right(t) and inv() of a Fourier transform are the transforms of the translated and inverted functions.", "quantifier": "every finite group with its element numbering, every function on it, every element t, every set of unitary irreps", "why_tests_cant": "a test uses a few groups and functions; the claim is over all of them", "anchors": ["include/FunctionOnGroup.hpp:left_translate,right_translate,inv", "groups/FourierOnGroup.hpp:left,right,inv"]}
{"id": "C73", "title": "In-place product of permutations", "statement": "p*=q replaces p by the permutation i -> q(p(i)) for every pair including p*=p. The code reads entries of q it has already overwritten when q is p: [2 3 1]*=itself gives [3 1 3].", "quantifier": "every pair of permutation objects, the same object included", "why_tests_cant": "aliasing is not what unit tests exercise", "anchors": ["combinatorial/Permutation.hpp:operator*="]}
{"id": "C74", "title": "The group acts on vectors", "statement": "Applying a permutation to a vector multiplies each part by the matrix of the permutation and keeps the type. The identity does nothing, applying b and then a is applying ab, the action is additive, a contiguous cycle acts as the permutation it denotes and the inverse form undoes it. A permutation of the wrong size and a sum of vectors with different numbers of parts end the process.", "quantifier": "every n, every vector of every type, every permutation and cycle", "why_tests_cant": "all shapes and permutations", "anchors": ["Sn/SnVec.hpp:apply", "Sn/SnVec.hpp:apply_inplace", "Sn/SnVec.hpp:apply_inplace_inv", "Sn/SnVec.hpp:add"]}
{"id": "C75", "title": "Tensor product of two irreps", "statement": "rho0*rho1 acts by the Kronecker product of the matrices of rho0 and rho1: applying an adjacent transposition or a contiguous cycle (in either direction) to a view multiplies its middle index by that matrix. JucysMurphy(k) is the sum of the matrices of the transpositions (a k), a<k, is symmetric, commutes with every permutation that fixes k..n and with the other Jucys-Murphy matrices, and its trace is k-1 times the product of the two characters at a transposition.", "quantifier": "every n, every pair of irreps of Sn, every view, every generator, cycle and k", "why_tests_cant": "all pairs of shapes and all views", "anchors": ["Sn/SnProductRepresentation.hpp"]}
{"id": "C76", "title": "Restriction of a Clebsch-Gordan product", "statement": "Restricting the type CGproduct(s,t) from Sn to S(n-1) gives the same type, entry by entry, as CGproduct of the restrictions of s and t, and the same for the product of two irreps. The code relies on it when it builds the product of vectors level by level. It holds after every history of requests.", "quantifier": "every n>=2, every pair of types or irreps of Sn, every history", "why_tests_cant": "all types and histories", "anchors": ["Sn/SnCGbank.hpp:CGproduct", "Sn/SnType.hpp:down"]}
{"id": "C77", "title": "Induction of a Clebsch-Gordan product", "statement": "For a type s of Sn and a type t of S(n+1), the type induced from CGproduct(s, restriction of t) is CGproduct(type induced from s, t), after every history of requests.", "quantifier": "every n>=1, every type s of Sn, every type t of S(n+1), every history", "why_tests_cant": "all types and histories", "anchors": ["Sn/SnCGbank.hpp:CGproduct", "Sn/SnType.hpp:down", "Sn/SnRepresentation.hpp"]}
{"id": "C78", "title": "Clebsch-Gordan product of vectors", "statement": "CGproduct of two vectors whose parts have one column each is defined, has the product type, and is the same after every history of requests, whatever numbers are in the factors. CGproduct of two parts is the product of the one-part vectors. It is linear in each argument; with orthogonal factors it multiplies inner products, so no information is lost; and if the products for S(n-1) commute with S(n-1) then those for Sn commute with the permutations that fix n (for S2 they always do). Parts with several columns, which SnPart allows, have no product: the factors do not fit.", "quantifier": "every n, every pair of vectors, every table of factors, every history of requests", "why_tests_cant": "all shapes, vectors and histories; floating-point tests do not separate the structure from the numbers", "anchors": ["Sn/SnCGbank.hpp:CGproduct", "Sn/SnCGbank.hpp:add_CGprod", "Sn/SnCGbank.hpp:accumulate_CGprod", "Sn/SnCGbank.hpp:get_CGfactors"]}
{"id": "C79", "title": "Orthogonality of the character table", "statement": "The characters of Sn, read class by class together with class_size, satisfy both orthogonality relations: the sum over classes of size*x*y is n! for equal irreps and 0 otherwise, and class size times the sum over irreps of x*y is n! for equal classes and 0 otherwise. Every class function is a combination of characters with exactly the coefficients these relations give. The column of the identity holds the numbers of standard tableaux, whose squares add up to n!.", "quantifier": "every n>=1, every pair of irreps, every pair of classes, every class function", "why_tests_cant": "all tables of all degrees", "anchors": ["Sn/SnCharacter.hpp", "Sn/SnClassFunction.hpp", "Sn/Sn.hpp:class_size"]}
{"id": "C80", "title": "Class functions are read and written by class", "statement": "Setting the value of a class function at a class changes that value and no other, whether the class is named by its partition or by its number; the zero function is 0 at every class. A class of another group is not refused: it is looked up under its number in that group, which gives the value at some other class or reads outside the tensor.", "quantifier": "every n, every class function, every class, every value", "why_tests_cant": "all pairs of classes of all degrees", "anchors": ["Sn/SnClassFunction.hpp:operator()", "Sn/SnClassFunction.hpp:set_value"]}
{"id": "C81", "title": "Adjoints of the operations on functions", "statement": "With respect to the inner product of functions on Sn, left and right translation by t are adjoint to translation by the inverse of t, inv is its own adjoint, and convolution satisfies <f*g,h> = <f,h*inv(g)> = <g,inv(f)*h>; translations and inv keep inner products. These are the gradients a backward pass has to send. The formulas in the Python ConvolveFn.backward, h*g and h*f, are not these adjoints.", "quantifier": "every n, all functions f, g, h on Sn, every permutation t", "why_tests_cant": "all functions and permutations of all degrees", "anchors": ["Sn/SnFunction.hpp:left_translate,right_translate,inv,convolve", "python/src/snob/SnFunction.py:ConvolveFn,LeftTranslateFn,RightTranslateFn,InvFn"]}
{"id": "C82", "title": "Plancherel's formula for the transform", "statement": "The inner product of two functions on Sn is the sum over the parts of their transforms of d/n! times the sum of the products of corresponding entries, d the dimension of the irrep of the part.", "quantifier": "every n, every pair of functions on Sn", "why_tests_cant": "all functions of all degrees", "anchors": ["Sn/ClausenFFT.hpp:operator()", "Sn/SnFunction.hpp"]}
{"id": "C83", "title": "The irreps tell permutations apart", "statement": "Two permutations of n with equal matrices in every irrep of Sn are equal.", "quantifier": "every n>=1, every pair of permutations", "why_tests_cant": "all pairs of permutations of all degrees", "anchors": ["Sn/SnIrrepObj.hpp:operator()", "Sn/SnIrrep.hpp:operator()"]}
{"id": "C84", "title": "Batched vectors behave member by member", "statement": "The action of a permutation, cycle or transposition on a batch of vectors, its restriction to S(n-1), its type and the Clebsch-Gordan product of two batches are, for each member of the batch, what the same operation gives for the vectors at that place alone, after every history of requests. Batches of different sizes are refused. A batch without parts has no size, and its product stops the program although the product of vectors without parts exists. SnVecB::apply_inplace does to the batch what apply returns.", "quantifier": "every n, every batch size, every batch of vectors with single columns (any columns for action and restriction), every history of requests", "why_tests_cant": "all batches of all degrees and all histories of the bank; apply_inplace changes no batch at all, because it works on copies of the parts", "anchors": ["Sn/SnPartB.hpp", "Sn/SnVecB.hpp:apply,down,accumulate_up", "Sn/SnCGbank.hpp:CGproduct(SnVecB),CGproduct(SnPartB),accumulate_CGprod"]}
{"id": "C85", "title": "Learning the Clebsch-Gordan factors succeeds", "statement": "With an eigenvalue routine that makes no rounding errors, the factors of every pair of irreps of Sn are learned: no eigenvalue is ever missing, so the process is never ended by 'eigenvalue not found'. There is one factor for each irrep of S(n-1) in the product, square, of the size of its multiplicity, and orthogonal; it is the same after every history of requests. Hence products of vectors with learned factors multiply inner products: nothing is lost and nothing is scaled.", "quantifier": "every n>=2 up to 1234567 (the number learn uses as a mark), every pair of irreps, every exact eigenvalue routine, every history of requests", "why_tests_cant": "every n needs the factors of all smaller groups; eigenvalue routines choose bases freely", "anchors": ["Sn/SnCGbank.hpp:learn", "Sn/SnCGbank.hpp:get_CGfactors"]}
{"id": "C86", "title": "Learned products and the action of the group", "statement": "Products of vectors with learned factors commute with every permutation of n for n<=3, for n=4 with the permutations that fix 4, and for every n in the parts for irreps of dimension 1. They need not commute with all of S4: negating some eigenvectors, which every eigenvalue routine is free to do, changes whether they do, because learn leaves two blocks of an irrep unrelated when the matrix entry it divides by is 0.", "quantifier": "every exact eigenvalue routine; every pair of vectors with single columns; every permutation", "why_tests_cant": "whether a test passes depends on the signs the eigenvalue routine happens to choose", "anchors": ["Sn/SnCGbank.hpp:learn", "Sn/SnCGbank.hpp:CGproduct"]}
{"id": "C87", "title": "Weights mix the columns of the parts", "statement": "Weights made from two types x and y have, for each irrep of x, a matrix of x's by y's multiplicity filled as asked, and asking for another irrep ends the process. Multiplying a vector of type y gives a vector with the same irreps and x's multiplicities, each column the combination of the old columns that the matrix says; the product commutes with every permutation and is additive, identity matrices change nothing, and two products are one with the products of the matrices. A vector with an irrep the weights lack ends the process. Making weights from y inserts irreps of x into y although y is const; weights made from two vectors have tensors with one index and multiplying with them is undefined; destroying weights frees every matrix once, but destroying a copy and the original frees them twice.", "quantifier": "every n, every pair of types, every fill, every vector of type y, every permutation", "why_tests_cant": "all types, matrices and vectors", "anchors": ["Sn/SnWeights.hpp"]}
{"id": "C88", "title": "Characters take whole-number values", "statement": "Every value of every character, and so the trace of the matrix of every permutation in every irrep, is a whole number no larger in absolute value than the dimension, although the entries of the matrices are square roots. At the class of the cycles through all n points the character of a hook shape (a,1,...,1) is 1 or -1 by the parity of the number of ones, and that of every other shape is 0.", "quantifier": "every n>=1, every pair of partitions of n, every permutation", "why_tests_cant": "all groups, irreps and classes; a test sees only rounded values", "anchors": ["Sn/SnIrrepObj.hpp:character", "Sn/SnCharBank.hpp", "Sn/SnCharacter.hpp"]}
{"id": "C89", "title": "Loops visit every item once", "statement": "A C++ loop over the elements of Sn visits every permutation once, in the order of its index; a loop over the irreps or the characters of Sn visits each once, and a loop over the classes visits them in the order in which the partitions of n are listed, whatever was asked before the loop and whatever its body asks for. Loops over the partitions of n and over the standard tableaux of a shape visit the complete lists. IntegerPartitions(n)(first,last) gives the partitions first to last, last included, and with last at or above the number of partitions it leaves the array.", "quantifier": "every n>=1, every history of requests before the loop, every sequence of requests in its body", "why_tests_cant": "all histories; the caches the loop walks over are filled and extended by the body", "anchors": ["Sn/Sn_ElementHelper.hpp", "Sn/Sn_IrrepHelper.hpp", "Sn/Sn_CclassHelper.hpp", "Sn/Sn_CharacterHelper.hpp", "combinatorial/IntegerPartitions.hpp", "combinatorial/StandardYoungTableaux.hpp"]}
{"id": "C90", "title": "Python loops over the library's objects end after the last item", "statement": "In Python, looping over a group, over the partitions of n, over the standard tableaux of a shape or over the parts of a partition gives all the items and then stops, and looping over a permutation gives its values. (Refuted: the classes have __getitem__ without a check of the index and no __iter__, so after the last item the loop reads outside the array; over S1 it never ends; over a permutation its first read is before the array.)", "quantifier": "every n, every shape, every partition, every permutation, every number of steps", "why_tests_cant": "what a read outside an array does depends on the run", "anchors": ["python/bindings/Snob2_bindings.cpp", "python/bindings/SnClasses_py.cpp", "Sn/SnObj.hpp:element", "combinatorial/Permutation.hpp:operator()"]}
{"id": "C91", "title": "Rounding of matrices, characters and multiplicities", "statement": "With IEEE floats every entry of the matrix of a permutation is within n(n-1)/2^22 of the exact orthogonal matrix, and the value of a character is within d(8n+d)/2^23 of the whole number it stands for, d being the dimension, so that rounding to the nearest whole number recovers it while d(8n+d)<2^22. Up to S8 the multiplicity that coeff answers is exact or one short, and so are the multiplicities in CGproduct; they are never too large. Up to S6 they are exact. (From S7 on they are not, which a run refutes: the quotient is converted to int by dropping its fraction, and (5,2) times (2,2,2,1) comes out without (2,2,2,1).)", "quantifier": "every n with n(n-1)<=2^22, every partition, every permutation; for multiplicities every n<=8 and every triple of partitions, and n<=12 for irreps of small dimension", "why_tests_cant": "all matrices and classes; a test sees the rounding of a few values, not a bound for all", "anchors": ["Sn/SnIrrepObj.hpp:operator()", "Sn/SnIrrepObj.hpp:character", "Sn/SnCGbank.hpp:coeff", "Sn/SnCGbank.hpp:CGproduct"]}
{"id": "C92", "title": "The trivial irrep and the sign", "statement": "In the irrep (n) every permutation has the matrix 1, in the irrep (1,...,1) its sign, the parity of the number of its inversions; the characters are 1 and the parity of n minus the number of cycles. CGproduct of (n) with an irrep is that irrep once, whatever was asked before.", "quantifier": "every n>=1, every permutation, every class, every history of requests", "why_tests_cant": "all n and all permutations", "anchors": ["Sn/SnIrrepObj.hpp:operator()", "Sn/SnIrrepObj.hpp:character", "Sn/SnCGbank.hpp:CGproduct"]}
{"id": "C93", "title": "Transposed shapes", "statement": "The irrep of the transposed shape has the same dimension, and its matrix for a permutation is the sign times the matrix of the irrep, up to a fixed order and fixed signs of rows and columns; so its character is the sign times the character. CGproduct of (1,...,1) with an irrep is the transposed shape once, and transposing both factors of a product changes no multiplicity.", "quantifier": "every n>=1, every partition of n, every permutation, every history of requests", "why_tests_cant": "all shapes and permutations", "anchors": ["Sn/SnIrrepObj.hpp:operator()", "Sn/SnIrrepObj.hpp:character", "Sn/SnCGbank.hpp:CGproduct"]}
{"id": "C94", "title": "The transform on Sn/Sm agrees with the transform on Sn", "statement": "Take a function on Sn/Sm and the function on Sn with, at each permutation, the value at its coset. The parts of the quotient transform are the parts of the transform on Sn whose shape has m boxes in the first row; their columns are, divided by m!, the columns of the tableaux with 1..m in the first row. All other columns and parts of the transform on Sn are zero.", "quantifier": "every 1<=m<n, every function on Sn/Sm", "why_tests_cant": "all n, m and functions", "anchors": ["Sn/ClausenFFT.hpp:operator()", "Sn/ClausenFFT.hpp:ClausenFFT(int,int)", "Sn/SnOverSmObj.hpp:index", "Sn/SnOverSmFunction.hpp"]}
{"id": "C95", "title": "Plancherel's formula and the inverse transform on Sn/Sm", "statement": "The inner product of two functions on Sn/Sm is the sum over shapes of d m!/n! times the sum of the products of the entries of their coefficients. Every vector with the parts of a quotient transform is the transform of what inv_snsm returns on it, and the value of that at a coset is given by the inversion formula.", "quantifier": "every 1<=m<n, every pair of functions on Sn/Sm, every vector with parts of the right sizes", "why_tests_cant": "all n, m, functions and vectors", "anchors": ["Sn/ClausenFFT.hpp:operator()", "Sn/ClausenFFT.hpp:inv_snsm", "Sn/SnOverSmObj.hpp:element"]}
{"id": "C96", "title": "Printed forms tell objects apart", "statement": "The printed form of a permutation, partition, tableau, type, representation, cycle, transposition, class, irrep, group element, function or class function determines the object: two objects that print alike are equal (for functions: given a format of numbers that is injective and free of newlines); so do the values of a function on Sn/Sm. A group prints differently from other groups, and a vector of integers can always be printed.", "quantifier": "every pair of objects of each kind, every indentation", "why_tests_cant": "all objects and sizes; counter-examples for products of groups, for empty vectors, and for the sizes of quotients", "anchors": ["combinatorial/Permutation.hpp:str", "combinatorial/IntegerPartition.hpp:str", "combinatorial/YoungTableau.hpp:str", "Sn/SnType.hpp:str", "Sn/SnRepresentationObj.hpp:str", "Sn/SnFunction.hpp:str", "Sn/SnClassFunction.hpp:str", "Sn/SnOverSmFunction.hpp:str", "groups/CyclicGroup.hpp:str", "groups/DihedralGroup.hpp:str", "groups/ProductGroup.hpp:str", "include/Snob2_base.hpp:operator<<"]}
{"id": "C97", "title": "The result of Python's inv_snsm can be used", "statement": "What ClausenFFT.inv_snsm returns in Python on the transform of a function on Sn/Sm can be printed, and asked for its value at a permutation.", "quantifier": "every 1<=m<n, every function on Sn/Sm, every format of numbers, every permutation", "why_tests_cant": "all n, m and functions", "anchors": ["python/bindings/SnFFT_py.cpp:inv_snsm", "Sn/ClausenFFT.hpp:inv", "Sn/SnFunction.hpp:str", "Sn/SnFunction.hpp:operator()", "python/doc/source/SnFFT.rst"]}
{"id": "C98", "title": "Sessions set up the library", "statement": "After a Snob2_session was constructed the library can be used, whatever sessions, CombinatorialClasses and SnClasses objects are made, copied and destroyed before or after; the banks, with what they have computed, are those of the first session, and nothing is freed twice.", "quantifier": "every history of constructions, copies, destructions and uses", "why_tests_cant": "histories of any length; counter-examples for mixtures with the other classes and for copies", "anchors": ["include/Snob2_session.hpp:Snob2_session", "include/Snob2_base.cpp", "combinatorial/CombinatorialClasses.hpp", "Sn/SnClasses.hpp"]}
{"id": "C99", "title": "Class functions are the functions with scalar transforms", "statement": "The transform of a function that takes equal values on permutations of equal cycle type is, at every shape, a number times the identity, and that number is the sum of the function times the character divided by the dimension; conversely a function with such a transform is a class function. Convolution with a function commutes with every function exactly when it is a class function. The character of an irrep, as a function, transforms to n!/d times the identity at that irrep and to zero elsewhere, and two characters convolve to n!/d times the first or to zero.", "quantifier": "every n, every function on Sn, every pair of partitions of n (with the batched row turn the code uses: n up to 4)", "why_tests_cant": "all n and functions", "anchors": ["Sn/ClausenFFT.hpp:operator()", "Sn/SnFunction.hpp:convolve", "Sn/SnIrrepObj.hpp:character", "Sn/SnClassFunction.hpp"]}
{"id": "C100", "title": "The caches answer as maps do", "statement": "A cache keyed by partitions, by pairs or triples of partitions or by the sizes of a transform returns for a key what was last stored for it, finds nothing for a key under which nothing was stored, and holds as many entries as there were different keys; whatever the number of buckets is, whenever it changes, and whether or not hash codes are stored. It fails for arrays with trailing zeros, which are equal as partitions but not found.", "quantifier": "every history of assignments and changes of the number of buckets, every key", "why_tests_cant": "histories of any length, with any collisions; a counter-example for arrays with trailing zeros at every number of buckets", "anchors": ["combinatorial/IntegerPartition.hpp:hash", "combinatorial/CombinatorialBankLevel.hpp:ip_map", "Sn/ClausenFFTObj.hpp:hash", "Sn/SnFFTbank.hpp:ffts", "Sn/SnCGbank.hpp:coeffs,taus,factors", "Sn/SnWeights.hpp:weights"]}
{"id": "C101", "title": "Acting on some vectors of a batch", "statement": "SnMultiPart::apply_inplace and apply_inplace_inv with an offset o and a count s multiply vectors o to o+s-1 of the batch by the matrix of the permutation, cycle or inverse cycle and leave the other vectors as they are, so that after any sequence of such calls each vector is the matrix of the product of the permutations that moved it times what it was. SnMultiPart::apply returns the same on a copy.", "quantifier": "every shape, batch, multiplicity, history of permutations, cycles, offsets and counts", "why_tests_cant": "all sizes and histories; apply is right only at multiplicity 1, otherwise it moves the first columns of other vectors or reads outside the tensor", "anchors": ["Sn/SnMultiPart.hpp:apply", "Sn/SnMultiPart.hpp:apply_inplace", "Sn/SnMultiPart.hpp:apply_inplace_inv", "Sn/SnIrrepObj.hpp:apply_left"]}
{"id": "C102", "title": "New parts and vectors are filled as asked", "statement": "SnPart(lambda,m,fill) is a matrix with one row for each tableau and m columns with the entries of the pattern (zero, ones, identity); SnVec(type,fill) has one such part for each entry of the type, in order, and get_type returns the type. Applying a permutation to an identity part gives the matrix of the permutation. In Python SnPart.ones and SnVec.ones return parts and vectors of ones.", "quantifier": "every n, partition, multiplicity and type, every permutation", "why_tests_cant": "all sizes; Python's ones returns identities for every shape of dimension 2 or more", "anchors": ["Sn/SnPart.hpp:SnPart", "Sn/SnVec.hpp:SnVec", "Sn/SnVec.hpp:get_type", "python/bindings/SnFunctions_py.cpp:ones"]}
{"id": "C103", "title": "Random permutations", "statement": "Sn::random returns a permutation of 1..n whatever the state of the generator; if the integer distribution favours no number then random favours no permutation and misses none; in a series of calls each call makes one draw and the numbers of the permutations returned are the numbers drawn.", "quantifier": "every n, generator, state of the generator and length of the series", "why_tests_cant": "all generators and states; undefined for every n from 13 on, where n! does not fit an int", "anchors": ["Sn/SnObj.hpp:random", "Sn/Sn.hpp:random", "Sn/Sn_ElementHelper.hpp:random"]}
