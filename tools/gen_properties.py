#!/usr/bin/env python3
# Writes /verif/properties.jsonl, one property per line.
import json, os
P=[]
def p(title, statement, quantifier, why, anchors):
    P.append(dict(id="C%02d"%(len(P)+1), title=title, statement=statement, quantifier=quantifier,
                  why_tests_cant=why, anchors=anchors))
PERM="combinatorial/Permutation.hpp"
IP="combinatorial/IntegerPartition.hpp"
YT="combinatorial/YoungTableau.hpp"
CBL="combinatorial/CombinatorialBankLevel.hpp"
IPO="combinatorial/IntegerPartitionObj.hpp"
SNO="Sn/SnObj.hpp"
IRR="Sn/SnIrrepObj.hpp"
ALLN="for every n"
p("Permutation product is composition of maps",
  "For valid permutations p and x of the same n, p*x is a valid permutation of n with (p*x)(i)=p(x(i)); the product is associative and identity(n) is neutral on both sides; no array access is out of bounds.",
  "every n and every triple of permutations of n", "there are n! permutations for every n; tests sample a handful",
  [PERM+":Permutation::operator*", PERM+":Permutation::identity"])
p("Permutation inverse is the group inverse",
  "For every valid permutation p, p.inv(), p.inverse() and !p agree, are valid, every cell of the result is initialised, and p*p.inv()=p.inv()*p=identity; inv(inv(p))=p; inv(p*q)=inv(q)*inv(p).",
  "every n, every permutation (pair) of n", "unbounded in n",
  [PERM+":Permutation::operator!", PERM+":Permutation::inverse", PERM+":Permutation::inv"])
p("check_valid decides bijectivity without touching foreign memory",
  "For an arbitrary integer array of any length, check_valid returns true exactly when the array lists each of 1..n once, and never reads or writes outside its own buffers.",
  "every n and every integer array of length n", "the input space of integer arrays is infinite",
  [PERM+":Permutation::check_valid"])
p("Compound assignment agrees with the product",
  "p*=x leaves in p the value p*x (what every C++ and Python user of operator*= assumes). The code computes x*p instead.",
  "every n, every pair of permutations of n", "the law holds on all commuting pairs, so sampled tests (identity, disjoint cycles) can pass",
  [PERM+":Permutation::operator*=", "python/bindings/Snob2_bindings.cpp:__imul__"])
p("Named constructors denote the transposition and the contiguous cycle",
  "transposition(n,i,j) swaps i and j and fixes the rest; contiguous_cycle(n,a,b) sends a->a+1->...->b->a for a<b, is the identity for a=b, and contiguous_cycle(n,b,a) is the inverse of contiguous_cycle(n,a,b); both are valid permutations; a contiguous cycle is the product of the adjacent transpositions (a,a+1)...(b-1,b).",
  "every n and all 1<=a,b,i,j<=n", "unbounded parameter space",
  [PERM+":Permutation::transposition", PERM+":Permutation::contiguous_cycle", "combinatorial/ContiguousCycle.hpp", "combinatorial/Transposition.hpp"])
p("Constructors reject arrays that are not permutations",
  "A Permutation object built from user data is always a bijection of 1..n, so inverse and product are always defined. The code only prints a message (initializer_list) or checks nothing (vector), and inverse then writes outside its buffer.",
  "every integer array", "needs all arrays and the absence of out-of-bounds writes, which a test run does not observe",
  [PERM+":Permutation::Permutation(initializer_list)", PERM+":Permutation::Permutation(vector)", PERM+":Permutation::inverse"])
p("Sn elements and indices are in bijection",
  "For every n>=1: element(i) is a valid permutation of n for every 0<=i<n!, index(element(i))=i, and element(index(sigma))=sigma with 0<=index(sigma)<n! for every permutation sigma of n.",
  "every n>=1, every index below n!, every permutation of n", "n! grows beyond exhaustive testing already at n=13",
  [SNO+":SnObj::element", SNO+":SnObj::index", "Sn/Sn.hpp", "Sn/Sn_ElementHelper.hpp"])
p("Sn enumeration is nested",
  "The first (n-1)! elements of Sn fix n and coincide with the enumeration of S(n-1); in general element(a*(n-1)!+r) is the r-th element of S(n-1) with n inserted a places from the right; element(0) is the identity.",
  "every n, every index", "unbounded",
  [SNO+":SnObj::element", SNO+":SnObj::index", "python/doc/source/Sn.rst"])
p("Index arithmetic fits in int for n<=12, and only there",
  "For n<=12 every intermediate value of order, element and index fits in a 32-bit int; for n>=13 the group order does not.",
  "every n and every index/permutation", "overflow at n=13 is never reached by feasible enumeration tests",
  [SNO+":SnObj::SnObj", SNO+":SnObj::element", SNO+":SnObj::index", IP+":IntegerPartition::factorial"])
p("Sn/Sm element and index round trip",
  "For 1<=m<=n: size()*m!=n!; for 0<=i<size(), element(i) is a valid permutation and index(element(i))=i; index(sigma) is in range for every permutation.",
  "every m<=n, every index, every permutation", "unbounded",
  ["Sn/SnOverSmObj.hpp:SnOverSmObj::element", "Sn/SnOverSmObj.hpp:SnOverSmObj::index", "Sn/SnOverSm.hpp"])
p("Sn/Sm indices identify cosets",
  "index(sigma)=index(tau) exactly when sigma and tau lie in the same coset of S_m. The documentation says left cosets sigma*S_m; the code separates right cosets S_m*sigma.",
  "every m<=n, every pair of permutations", "needs all pairs of permutations for all n,m",
  ["Sn/SnOverSmObj.hpp:SnOverSmObj::index", "python/doc/source/Sn.rst"])
p("IntegerPartitions(n) is complete, duplicate free and ordered",
  "For every n>=1 the list contains exactly the weakly decreasing positive sequences summing to n, each once, in decreasing lexicographic order ([n] first, [1,...,1] last).",
  "every n", "tests can only compare small n to tables",
  [CBL+":CombinatorialBankLevel::make_partitions", "combinatorial/IntegerPartitions.hpp"])
p("Partition comparison is a strict total order compatible with equality",
  "On partitions of one n, operator< is irreflexive, transitive and total and incomparable elements are ==; it never aborts there. Comparing partitions of different n aborts the process.",
  "every n and all pairs/triples of partitions", "order laws quantify over all triples; std::map is undefined otherwise",
  [IP+":IntegerPartition::operator<", IP+":IntegerPartition::operator=="])
p("Equal partitions have equal hashes",
  "If two partitions compare == then their std::hash values are equal (required by every unordered_map keyed by partitions). False for arrays with trailing zeros, true for positive parts.",
  "all pairs of partitions", "hash inequality on equal keys shows only as rare duplicate cache entries",
  [IP+":hash<IntegerPartition>", IP+":IntegerPartition::operator=="])
p("Adding and removing boxes",
  "extendable(i) holds exactly when adding a box to row i gives a partition of n+1; shortenable(i) exactly when removing a box from row i gives a partition of n-1; remove(i) after add(i) restores the partition, and add(i) after remove(i) too; no out-of-bounds access for in-range rows.",
  "every partition and every row", "unbounded",
  [IP+":IntegerPartition::extendable", IP+":IntegerPartition::shortenable", IP+":IntegerPartition::add", IP+":IntegerPartition::remove"])
p("Sub-partition traversal is exact",
  "for_each_sub/parents calls back with exactly the partitions of n-1 contained in lambda, each once, lowest removed row first, and this agrees with the parent order used to build tableaux.",
  "every partition of every n>=1", "unbounded",
  [IP+":IntegerPartition::foreach_sub", IP+":IntegerPartition::parents", CBL+":CombinatorialBankLevel::get_IntegerPartitionObj"])
p("Content of the difference of two partitions",
  "If lambda is mu with one box added in row r, lambda.content_of_difference(mu) returns column minus row of that box; if the sizes do not differ by one, or lambda has fewer rows, it throws.",
  "every pair of partitions", "unbounded",
  [IP+":IntegerPartition::content_of_difference"])
p("hooklength counts standard Young tableaux",
  "For every partition lambda of n, hooklength() (n! divided successively, in integer arithmetic, by every hook length) equals the number of standard Young tableaux of shape lambda, which is the dimension of the irrep; the truncating divisions lose nothing in total.",
  "every partition of every n", "a theorem (hook length formula); tests only sample shapes",
  [IP+":IntegerPartition::hooklength", "Sn/SnIrrep.hpp:get_dim"])
p("StandardYoungTableaux(lambda) is complete and duplicate free",
  "For every partition lambda of n>=1 the list contains exactly the fillings of the shape by 1..n increasing along rows and columns, each once.",
  "every partition of every n", "the number of tableaux explodes; no test enumerates them",
  [IPO+":IntegerPartitionObj::make_tableaux", "combinatorial/StandardYoungTableaux.hpp"])
p("apply_transp swaps two entries and returns the axial distance",
  "On any filling by distinct integers containing i and j, apply_transp(i,j) exchanges exactly these two entries, never throws, is undone by itself, and returns content(j)-content(i); on a standard tableau with j=i+1 the result is standard exactly when the returned value is not +1 or -1, and the value is never 0.",
  "every tableau, every i,j", "unbounded",
  [YT+":YoungTableau::apply_transp", YT+":YoungTableau::index"])
p("Tableau construction, lookup and shape agree",
  "The default tableau of a partition is standard and has that shape; index(at(r,c))=(r,c) on distinct fillings; at throws exactly outside the shape; lookup of an absent value returns the cell (0,0) (it is not reported).",
  "every partition / filling / position", "unbounded",
  [YT+":YoungTableau::YoungTableau(IntegerPartition)", YT+":YoungTableau::shape", YT+":YoungTableau::index", YT+":YoungTableau::at"])
p("Tableau add and remove are inverse",
  "remove(r) undoes add(r,j) for r<=k; remove(r) removes the last entry of row r and nothing else. Fails for an interior row of length one, where the last row is dropped instead.",
  "every tableau and row", "depends on the shape of all rows",
  [YT+":YoungTableau::add", YT+":YoungTableau::remove"])
p("Restriction-ordered partitions are a permutation of all partitions",
  "get_ROpartitions(n) lists every partition of n exactly once, the recursion terminates, and a partition all of whose parents are parents of an earlier-listed-by-lex partition is emitted before it.",
  "every n", "recursion with shared mutable marks; all n",
  [CBL+":CombinatorialBankLevel::make_ROpartitions", CBL+":CombinatorialBankLevel::proposeRO"])
p("Combinatorial bank answers do not depend on the query history",
  "After any sequence of queries for partitions, tableaux and RO-partitions with n>=1, the next query returns the same list as on a fresh session, and repeated queries return the same stored objects.",
  "every finite history of queries", "histories are unbounded; caches can be wrong only after particular orders",
  ["combinatorial/CombinatorialBank.hpp:level", CBL, IPO])
p("Group bank returns the right group after any history",
  "After any sequence of get_Sn calls, get_Sn(n) returns the object for n, the same object every time. get_Sn(0) truncates the cache to nothing (all groups handed out so far are forgotten and built again) and then reads before the array.",
  "every finite history of calls", "needs all histories, including the bad one",
  ["Sn/SnBank.hpp:get_Sn"])
p("Irrep numbering is independent of the query history",
  "G.irreps[i] denotes the i-th partition of n in the listing order whatever was asked before. The code numbers irreps in the order of first request.",
  "every history of irrep requests", "only visible after particular request orders",
  ["Sn/Sn_IrrepHelper.hpp", SNO+":SnObj::get_irrep", "Sn/Sn_CharacterHelper.hpp"])
p("get_irrep returns one irrep object per partition",
  "After any history get_irrep(lambda) returns an irrep whose partition is lambda, the same one each time, distinct ones for distinct partitions; after get_all_irreps every partition of n has exactly one.",
  "every history of requests", "histories are unbounded",
  [SNO+":SnObj::get_irrep", SNO+":SnObj::make_all_irreps"])
p("Conjugacy class numbering round trips",
  "index(cclass(i))=i for 0<=i<ncclasses and cclass(index(mu))=mu for every partition mu of n; after any history of lookups, including lookups of foreign partitions. ncclasses is the number of partitions of n.",
  "every n, index, partition and history", "lookup by operator[] silently inserts; only histories show it",
  [SNO+":SnObj::cclass", SNO+":SnObj::index(SnCClass)", SNO+":SnObj::make_cclasses"])
p("Class sizes",
  "class_size(mu) equals the number of permutations of n of cycle type mu.",
  "every partition of every n", "counting over n! permutations",
  ["Sn/Sn.hpp:class_size"])
p("The three-way ordering helper sorts",
  "order(x,y,z) returns the same three values in increasing order. The code returns a permutation of them that is not always sorted.",
  "all triples", "fails in one of six order patterns",
  ["include/Snob2_base.hpp:order"])
p("Young orthogonal generators satisfy the Coxeter relations",
  "For every partition lambda of n the actions of adjacent transpositions on the rows of a matrix are involutions, satisfy the braid relation for neighbours, and commute otherwise (exact real arithmetic).",
  "every partition, every generator, every matrix", "algebraic identity over all shapes",
  [IRR+":SnIrrepObj::apply_left(tau)", IRR+":SnIrrepObj::computeYOR"])
p("Representation matrices form a representation",
  "rho(identity)=I, rho(sigma*tau)=rho(sigma)rho(tau) for all permutations of n, and applying sigma to a matrix equals multiplying it by rho(sigma) on the left.",
  "every partition, every pair of permutations, every matrix", "(n!)^2 pairs for every shape",
  [IRR+":SnIrrepObj::operator()", IRR+":SnIrrepObj::apply_left(sigma)"])
p("Representation matrices are orthogonal",
  "rho(sigma) times its transpose is I, hence rho(sigma^-1) is the transpose of rho(sigma).",
  "every partition and permutation", "all n",
  [IRR+":SnIrrepObj::operator()", IRR+":SnIrrepObj::apply_left(tau)"])
p("Cycle and transposition overloads agree with the permutation they name",
  "Applying ContiguousCycle(a,b) (either order), apply_left_inv, or Transposition(i,j) to a matrix equals applying the corresponding permutation.",
  "every shape, every a,b,i,j in 1..n, every matrix", "several overloads, all parameters",
  [IRR+":SnIrrepObj::apply_left(ContiguousCycle)", IRR+":SnIrrepObj::apply_left_inv", IRR+":SnIrrepObj::apply_left(Transposition)"])
p("SnIrrep.transp gives the transposition matrix",
  "rho.transp(i,j) is rho of the transposition (i j) in every irrep exactly when i<=j+1; for i>j it is rho of the cycle from i down to j, which from i=j+2 on is a different matrix in some irrep.",
  "every shape and all i,j", "symmetric-argument bug",
  ["Sn/SnIrrep.hpp:SnIrrep::transp", "Sn/SnIrrep.hpp:SnIrrep::operator()(Transposition)"])
p("Jucys-Murphy elements are diagonal with the contents as eigenvalues",
  "JucysMurphy(k) is the vector whose entry for a tableau is the content of the box holding k; the off-diagonal part that the code drops is zero; repeated queries return the same.",
  "every shape, every k<=n", "spectral statement for all shapes",
  [IRR+":SnIrrepObj::JucysMurphy"])
p("Characters are class functions",
  "character(mu) equals the trace of rho(sigma) for every permutation sigma of cycle type mu, and character([1^n]) is the dimension.",
  "every shape and permutation", "quantifies over whole conjugacy classes",
  [IRR+":SnIrrepObj::character", "Sn/SnCharacter.hpp"])
p("Schur orthogonality of the representation matrices",
  "The sum over Sn of rho_lambda(sigma)[i,j]*rho_mu(sigma)[k,l] is n!/d if lambda=mu,i=k,j=l and 0 otherwise: the listed irreps are irreducible, pairwise inequivalent.",
  "every pair of shapes, all entries", "sum over n! terms for all shapes",
  [IRR+":SnIrrepObj::operator()"])
p("Restriction to S(n-1) is block diagonal in tableau order",
  "For sigma fixing n, rho_lambda(sigma) is block diagonal with blocks rho_mu(sigma) for the parents mu of lambda in for_each_sub order.",
  "every shape and every permutation fixing n", "adapted-basis property the FFT relies on",
  [IRR, IPO+":IntegerPartitionObj::make_tableaux"])
p("The batched (view) action equals the matrix action",
  "Acting on the middle index of a view is multiplication by the matrix, for every shape. Acting on the first index, through the precomputed index/coefficient tensors, is multiplication by the matrix of an adjacent transposition exactly when, in the list of tableaux, no exchanged pair ends before another starts; all shapes of at most 4 boxes are such. The slot numbering of the tensors leaves holes, so otherwise pairs of rows are skipped (first for (3,2)) or the slots lie outside the tensor (first for (3,2,1)).",
  "every shape and generator", "first failure at n=5; repository tests use n=4",
  [IRR+":SnIrrepObj::computeYORtensors", IRR+":SnIrrepObj::apply_left(Rtensor3_view)"])
p("Block actions only touch their columns",
  "apply_left(A,tau,beg,end) acts on columns beg..end-1 as the full action and leaves all others unchanged; the strided version acts on every block.",
  "every shape, matrix, column range", "frame property",
  [IRR+":SnIrrepObj::apply_left(beg,end)", IRR+":SnIrrepObj::apply_left(stride)"])
p("Translations of functions on Sn",
  "left_translate(t) gives g(s)=f(t^-1 s), right_translate(t) gives g(s)=f(s t^-1), inv gives g(s)=f(s^-1); left translation is a homomorphic action, left and right translations commute, inv is an involution; every cell of the result is written.",
  "every n, function and permutation", "n! cells",
  ["Sn/SnFunction.hpp:left_translate", "Sn/SnFunction.hpp:right_translate", "Sn/SnFunction.hpp:inv", "include/FunctionOnGroup.hpp"])
p("Convolution is associative and compatible with representations",
  "convolve(f,g)(s)=sum_t f(s t^-1) g(t); convolution is associative and bilinear, the delta function at the identity is neutral.",
  "every n and functions f,g,h", "n!^3 terms",
  ["Sn/SnFunction.hpp:convolve"])
p("FFT block layout",
  "At each level the transform template has one part for each partition, of multiplicity equal to the dimension (Sn case), and the row offset of the block for parent mu inside lambda equals the number of tableaux before those of mu in tableau order.",
  "every n", "layout for all shapes",
  ["Sn/ClausenFFTvecTmplt.hpp", "Sn/ClausenFFTpartTmplt.hpp", "Sn/ClausenFFTblockTmplt.hpp"])
p("Forward FFT computes the Fourier transform",
  "With the row-by-row action, the recursive transform of f equals sum_sigma f(sigma) rho_lambda(sigma^-1) for every lambda.",
  "every n and f", "n! terms for each shape",
  ["Sn/ClausenFFTObj.hpp", "Sn/ClausenFFTvecTmplt.hpp:uptransform"])
p("Inverse FFT undoes the forward FFT",
  "inv(FFT(f))=f for every function f on Sn in exact arithmetic (with the row-by-row action).",
  "every n and f", "the documented guarantee, for all n and f",
  ["Sn/ClausenFFTObj.hpp", "Sn/ClausenFFTvecTmplt.hpp:downtransform"])
p("Fourier transform turns convolution and translation into products",
  "FFT(convolve(f,g)) is the partwise matrix product, and translation multiplies each part by a representation matrix.",
  "every n,f,g", "all functions",
  ["Sn/SnFunction.hpp:convolve", "Sn/ClausenFFTObj.hpp"])
p("SnType is a finite multiset of partitions",
  "After any sequence of set/add/lookup operations on partitions of one n, the multiplicity read for lambda is what a total map with default 0 would give; add(SnType) adds multiplicities; order of insertion is irrelevant.",
  "every operation history", "histories unbounded; lookups mutate",
  ["Sn/SnType.hpp"])
p("Induction and restriction of types",
  "The induced representation contains lambda with the sum of the multiplicities of its parents, its dimension is (n+1) times the old one, restriction (down) has the same dimension, and multiplicities satisfy Frobenius reciprocity.",
  "every type", "unbounded",
  ["Sn/SnRepresentationObj.hpp:make_induced", "Sn/SnType.hpp:down"])
p("The representation bank serves any mixture of groups",
  "After any history of requests for representations of any groups, a further request succeeds. The code aborts when types of different n meet in its ordered map.",
  "every history", "history dependent process abort",
  ["Sn/SnRepresentationBank.hpp", IP+":IntegerPartition::operator<"])
p("Cyclic groups",
  "For n>=1 element(i)/index round trip; product and inverse stay in range and satisfy the group laws.",
  "every n and all elements", "all n",
  ["groups/CyclicGroup.hpp", "groups/CyclicGroupElement.hpp"])
p("Dihedral groups",
  "For n>=1 element/index round trip on 0..2n-1; product and inverse satisfy the group laws.",
  "every n and all elements", "all n",
  ["groups/DihedralGroup.hpp", "groups/DihedralGroupElement.hpp"])
p("Product groups",
  "element is a bijection from 0..size-1 to pairs when both factors are; componentwise product and inverse satisfy the group laws; size and irrep counts multiply.",
  "every pair of groups", "parametric",
  ["groups/ProductGroup.hpp", "groups/ProductGroupElement.hpp"])
p("Cyclic irreps",
  "rho_k(x*y)=rho_k(x)rho_k(y), rho_k(identity)=1, and distinct k<n are orthogonal.",
  "every n, k, elements", "all n",
  ["groups/CyclicGroupIrrep.hpp"])
p("Dihedral irreps",
  "For each k below n_irreps, operator() gives square matrices of size dim(), multiplicative on the group, and the squared dimensions sum to 2n. The code misses k=3 for even n.",
  "every n, k, elements", "parity dependent",
  ["groups/DihedralGroupIrrep.hpp", "groups/DihedralGroup.hpp:n_irreps"])
p("Product group irreps are tensor products",
  "The matrix returned for (g1,g2) is rho1(g1) tensor rho2(g2). The code returns the zero matrix.",
  "all groups and elements", "parametric",
  ["groups/ProductGroupIrrep.hpp"])
p("Fourier inversion on a finite group",
  "inverse(Fourier(f))=f for the generic group transform.",
  "all groups with a complete irrep list, all f", "parametric",
  ["groups/FourierOnGroup.hpp"])
p("Clebsch-Gordan multiplicities are symmetric",
  "coeff(l1,l2,l3) does not depend on the order of its arguments nor on what was computed before.",
  "all triples and histories", "cache keyed by a helper that does not sort",
  ["Sn/SnCGbank.hpp:coeff", "include/Snob2_base.hpp:order"])
p("Clebsch-Gordan products of types are bilinear and complete",
  "CGproduct(t1,t2) has the multiplicities sum m1*m2*coeff; pruning loses no irrep; dimensions multiply.",
  "all types", "all shapes",
  ["Sn/SnCGbank.hpp:CGproduct"])
p("Sn::character(i) returns the i-th character",
  "character(i) of Sn is the character of the i-th irrep. The code ignores i.",
  "every n and i", "holds for i=0, so a smoke test passes",
  ["Sn/Sn.hpp:character(int)"])
p("Copying is deep and assignment is total",
  "A copy of a permutation or partition is independent of the original, x=y makes x equal y for every pair including x=x. After any program of constructions, copies, moves, assignments, changes and destructions nothing leaks and nothing is freed twice. Self assignment of Permutation/IntegerPartition instead loses the entries: it frees them before copying.",
  "every pair of objects, including aliases", "aliasing",
  [PERM+":operator=", IP+":operator="])
p("Irrep objects can be destroyed in any state",
  "Destroying an irrep object after any sequence of uses frees only memory it owns. The code frees two uninitialised pointers unless the tables were computed.",
  "every history of uses", "undefined behaviour that often goes unnoticed",
  [IRR+":~SnIrrepObj", IRR+":computeYOR"])
p("Vector restriction and reassembly",
  "SnVec.down splits a part of an Sn-vector into the parts for the partitions one box smaller: the row of a tableau goes to the row of the tableau without n, and nothing is lost or made up. up reassembles it: restricting every part, concatenating and going up gives the vector back, and the other way round. cat puts the columns of equal partitions side by side, accumulate_up adds what up returns at the given column offsets, and down and up commute with the permutations that fix n.",
  "every n, every vector of every type, every permutation", "all shapes",
  ["Sn/SnVec.hpp:downB", "Sn/SnVec.hpp:up", "Sn/SnVec.hpp:cat", "Sn/SnVec.hpp:accumulate_up", "Sn/SnVec.hpp:get_type"])
p("Quotient objects are cached per pair (n,m)",
  "After any history get_SnOverSm(n,m) returns the object with these n and m, the same one each time.",
  "every history of requests", "histories are unbounded",
  ["Sn/SnObj.hpp:get_SnOverSm", "Sn/SnBank.hpp:get_SnOverSm"])
p("The transform as shipped is the Fourier transform",
  "FFT(f), as the code computes it with its batched action on the rows, is the Fourier transform of f, and inv undoes it, exactly for n<=4: on S5 it is wrong for some function, and from S6 on the transform of any function, and the inverse, write outside a table.",
  "every n and f", "correct for n<=4, so small tests pass",
  ["Sn/ClausenFFTvecTmplt.hpp:uptransform", "Sn/ClausenFFTvecTmplt.hpp:downtransform", "Sn/SnIrrepObj.hpp"])
p("Fourier transform on Sn/Sm",
  "The transform of a function on the cosets Sn/Sm has one part for each partition with at least m boxes in the first row, with one column for each tableau that has 1..m in the first row; its entries are the corresponding columns of sum_e f(e) rho(s_e^-1), and the inverse recovers f (row-by-row action).",
  "every n, m<=n and f", "all shapes and functions",
  ["Sn/ClausenFFTObj.hpp", "Sn/ClausenFFTvecTmplt.hpp", "Sn/SnOverSmFunction.hpp"])
p("The transform on Sn/Sn carries the trivial irrep of Sn",
  "For m=n the transform of a function on the single coset is one part that belongs to the irrep (n). The code returns a part labelled with the irrep (1) of S1.",
  "every n>=2 and every value", "only the m=n corner",
  ["Sn/ClausenFFTObj.hpp:operator()", "Sn/ClausenFFTvecTmplt.hpp"])
p("inv on a quotient transform returns a function on Sn/Sm",
  "The inverse transform exposed to python under the name inv_snsm gives back a function on Sn/Sm. It is bound to inv, which labels the values as a function on S_(n-m+1).",
  "every n>m>=2 and f", "the values are right, only the group they live on is not",
  ["python/SnFFT_py.cpp:inv_snsm", "Sn/ClausenFFTObj.hpp:inv"])
p("Transform objects are cached per pair (n,m)",
  "After any history the transform object obtained for n, or for n and m, is the one a fresh construction gives, and asking again returns the same one.",
  "every history of requests", "histories are unbounded",
  ["Sn/SnFFTbank.hpp:get_FFT"])
p("Conjugacy classes are the cycle types",
  "The classes a group object numbers by the partitions of n are exactly its conjugacy classes: every permutation lies in exactly one, two permutations are conjugate exactly when they lie in the same one, and the values of class_size over all of them add up to the order of the group.",
  "every n, every permutation", "all permutations of all degrees",
  ["Sn/Sn.hpp:class_size", "Sn/Sn.hpp:cclass", "Sn/SnObj.hpp:cclass"])
p("Character values do not depend on history, their numbering does",
  "After any history of character requests for any groups, a request that names a partition is answered by the character of that irrep (the trace of any permutation of each cycle type), and characters[i] numbers the characters of Sn, each once, with numbers that never change after the first characters[i] request. If no character of Sn was asked for before, number i is the i-th partition; otherwise it need not be.",
  "every history of requests", "histories are unbounded",
  ["Sn/SnCharBank.hpp", "Sn/SnCharacter.hpp", "Sn/Sn_CharacterHelper.hpp", "Sn/SnClassFunction.hpp"])
p("Translations and inverse of functions on a group",
  "left_translate(t) moves the value at x to tx, right_translate(t) to xt and inv() to the inverse of x, for every group, every function and every t, with every cell of the result written. left(t), right(t) and inv() of a Fourier transform are the transforms of the translated and inverted functions.",
  "every finite group with its element numbering, every function on it, every element t, every set of unitary irreps",
  "a test uses a few groups and functions; the claim is over all of them",
  ["include/FunctionOnGroup.hpp:left_translate,right_translate,inv", "groups/FourierOnGroup.hpp:left,right,inv"])

p("In-place product of permutations",
  "p*=q replaces p by the permutation i -> q(p(i)) for every pair including p*=p. The code reads entries of q it has already overwritten when q is p: [2 3 1]*=itself gives [3 1 3].",
  "every pair of permutation objects, the same object included", "aliasing is not what unit tests exercise",
  ["combinatorial/Permutation.hpp:operator*="])

p("The group acts on vectors",
  "Applying a permutation to a vector multiplies each part by the matrix of the permutation and keeps the type. The identity does nothing, applying b and then a is applying ab, the action is additive, a contiguous cycle acts as the permutation it denotes and the inverse form undoes it. A permutation of the wrong size and a sum of vectors with different numbers of parts end the process.",
  "every n, every vector of every type, every permutation and cycle", "all shapes and permutations",
  ["Sn/SnVec.hpp:apply", "Sn/SnVec.hpp:apply_inplace", "Sn/SnVec.hpp:apply_inplace_inv", "Sn/SnVec.hpp:add"])

p("Tensor product of two irreps",
  "rho0*rho1 acts by the Kronecker product of the matrices of rho0 and rho1: applying an adjacent transposition or a contiguous cycle (in either direction) to a view multiplies its middle index by that matrix. JucysMurphy(k) is the sum of the matrices of the transpositions (a k), a<k, is symmetric, commutes with every permutation that fixes k..n and with the other Jucys-Murphy matrices, and its trace is k-1 times the product of the two characters at a transposition.",
  "every n, every pair of irreps of Sn, every view, every generator, cycle and k", "all pairs of shapes and all views",
  ["Sn/SnProductRepresentation.hpp"])

p("Restriction of a Clebsch-Gordan product",
  "Restricting the type CGproduct(s,t) from Sn to S(n-1) gives the same type, entry by entry, as CGproduct of the restrictions of s and t, and the same for the product of two irreps. The code relies on it when it builds the product of vectors level by level. It holds after every history of requests.",
  "every n>=2, every pair of types or irreps of Sn, every history", "all types and histories",
  ["Sn/SnCGbank.hpp:CGproduct", "Sn/SnType.hpp:down"])

p("Induction of a Clebsch-Gordan product",
  "For a type s of Sn and a type t of S(n+1), the type induced from CGproduct(s, restriction of t) is CGproduct(type induced from s, t), after every history of requests.",
  "every n>=1, every type s of Sn, every type t of S(n+1), every history", "all types and histories",
  ["Sn/SnCGbank.hpp:CGproduct", "Sn/SnType.hpp:down", "Sn/SnRepresentation.hpp"])

p("Clebsch-Gordan product of vectors",
  "CGproduct of two vectors whose parts have one column each is defined, has the product type, and is the same after every history of requests, whatever numbers are in the factors. CGproduct of two parts is the product of the one-part vectors. It is linear in each argument; with orthogonal factors it multiplies inner products, so no information is lost; and if the products for S(n-1) commute with S(n-1) then those for Sn commute with the permutations that fix n (for S2 they always do). Parts with several columns, which SnPart allows, have no product: the factors do not fit.",
  "every n, every pair of vectors, every table of factors, every history of requests", "all shapes, vectors and histories; floating-point tests do not separate the structure from the numbers",
  ["Sn/SnCGbank.hpp:CGproduct", "Sn/SnCGbank.hpp:add_CGprod", "Sn/SnCGbank.hpp:accumulate_CGprod", "Sn/SnCGbank.hpp:get_CGfactors"])

p("Orthogonality of the character table",
  "The characters of Sn, read class by class together with class_size, satisfy both orthogonality relations: the sum over classes of size*x*y is n! for equal irreps and 0 otherwise, and class size times the sum over irreps of x*y is n! for equal classes and 0 otherwise. Every class function is a combination of characters with exactly the coefficients these relations give. The column of the identity holds the numbers of standard tableaux, whose squares add up to n!.",
  "every n>=1, every pair of irreps, every pair of classes, every class function", "all tables of all degrees",
  ["Sn/SnCharacter.hpp", "Sn/SnClassFunction.hpp", "Sn/Sn.hpp:class_size"])

p("Class functions are read and written by class",
  "Setting the value of a class function at a class changes that value and no other, whether the class is named by its partition or by its number; the zero function is 0 at every class. A class of another group is not refused: it is looked up under its number in that group, which gives the value at some other class or reads outside the tensor.",
  "every n, every class function, every class, every value", "all pairs of classes of all degrees",
  ["Sn/SnClassFunction.hpp:operator()", "Sn/SnClassFunction.hpp:set_value"])

p("Adjoints of the operations on functions",
  "With respect to the inner product of functions on Sn, left and right translation by t are adjoint to translation by the inverse of t, inv is its own adjoint, and convolution satisfies <f*g,h> = <f,h*inv(g)> = <g,inv(f)*h>; translations and inv keep inner products. These are the gradients a backward pass has to send. The formulas in the Python ConvolveFn.backward, h*g and h*f, are not these adjoints.",
  "every n, all functions f, g, h on Sn, every permutation t", "all functions and permutations of all degrees",
  ["Sn/SnFunction.hpp:left_translate,right_translate,inv,convolve", "python/src/snob/SnFunction.py:ConvolveFn,LeftTranslateFn,RightTranslateFn,InvFn"])

p("Plancherel's formula for the transform",
  "The inner product of two functions on Sn is the sum over the parts of their transforms of d/n! times the sum of the products of corresponding entries, d the dimension of the irrep of the part.",
  "every n, every pair of functions on Sn", "all functions of all degrees",
  ["Sn/ClausenFFT.hpp:operator()", "Sn/SnFunction.hpp"])

p("The irreps tell permutations apart",
  "Two permutations of n with equal matrices in every irrep of Sn are equal.",
  "every n>=1, every pair of permutations", "all pairs of permutations of all degrees",
  ["Sn/SnIrrepObj.hpp:operator()", "Sn/SnIrrep.hpp:operator()"])

p("Batched vectors behave member by member",
  "The action of a permutation, cycle or transposition on a batch of vectors, its restriction to S(n-1), its type and the Clebsch-Gordan product of two batches are, for each member of the batch, what the same operation gives for the vectors at that place alone, after every history of requests. Batches of different sizes are refused. A batch without parts has no size, and its product stops the program although the product of vectors without parts exists. SnVecB::apply_inplace does to the batch what apply returns.",
  "every n, every batch size, every batch of vectors with single columns (any columns for action and restriction), every history of requests", "all batches of all degrees and all histories of the bank; apply_inplace changes no batch at all, because it works on copies of the parts",
  ["Sn/SnPartB.hpp", "Sn/SnVecB.hpp:apply,down,accumulate_up", "Sn/SnCGbank.hpp:CGproduct(SnVecB),CGproduct(SnPartB),accumulate_CGprod"])

p("Learning the Clebsch-Gordan factors succeeds",
  "With an eigenvalue routine that makes no rounding errors, the factors of every pair of irreps of Sn are learned: no eigenvalue is ever missing, so the process is never ended by 'eigenvalue not found'. There is one factor for each irrep of S(n-1) in the product, square, of the size of its multiplicity, and orthogonal; it is the same after every history of requests. Hence products of vectors with learned factors multiply inner products: nothing is lost and nothing is scaled.",
  "every n>=2 up to 1234567 (the number learn uses as a mark), every pair of irreps, every exact eigenvalue routine, every history of requests", "every n needs the factors of all smaller groups; eigenvalue routines choose bases freely",
  ["Sn/SnCGbank.hpp:learn", "Sn/SnCGbank.hpp:get_CGfactors"])

p("Learned products and the action of the group",
  "Products of vectors with learned factors commute with every permutation of n for n<=3, for n=4 with the permutations that fix 4, and for every n in the parts for irreps of dimension 1. They need not commute with all of S4: negating some eigenvectors, which every eigenvalue routine is free to do, changes whether they do, because learn leaves two blocks of an irrep unrelated when the matrix entry it divides by is 0.",
  "every exact eigenvalue routine; every pair of vectors with single columns; every permutation", "whether a test passes depends on the signs the eigenvalue routine happens to choose",
  ["Sn/SnCGbank.hpp:learn", "Sn/SnCGbank.hpp:CGproduct"])

p("Weights mix the columns of the parts",
  "Weights made from two types x and y have, for each irrep of x, a matrix of x's by y's multiplicity filled as asked, and asking for another irrep ends the process. Multiplying a vector of type y gives a vector with the same irreps and x's multiplicities, each column the combination of the old columns that the matrix says; the product commutes with every permutation and is additive, identity matrices change nothing, and two products are one with the products of the matrices. A vector with an irrep the weights lack ends the process. Making weights from y inserts irreps of x into y although y is const; weights made from two vectors have tensors with one index and multiplying with them is undefined; destroying weights frees every matrix once, but destroying a copy and the original frees them twice.",
  "every n, every pair of types, every fill, every vector of type y, every permutation", "all types, matrices and vectors",
  ["Sn/SnWeights.hpp"])

p("Characters take whole-number values",
  "Every value of every character, and so the trace of the matrix of every permutation in every irrep, is a whole number no larger in absolute value than the dimension, although the entries of the matrices are square roots. At the class of the cycles through all n points the character of a hook shape (a,1,...,1) is 1 or -1 by the parity of the number of ones, and that of every other shape is 0.",
  "every n>=1, every pair of partitions of n, every permutation", "all groups, irreps and classes; a test sees only rounded values",
  ["Sn/SnIrrepObj.hpp:character", "Sn/SnCharBank.hpp", "Sn/SnCharacter.hpp"])

p("Loops visit every item once",
  "A C++ loop over the elements of Sn visits every permutation once, in the order of its index; a loop over the irreps or the characters of Sn visits each once, and a loop over the classes visits them in the order in which the partitions of n are listed, whatever was asked before the loop and whatever its body asks for. Loops over the partitions of n and over the standard tableaux of a shape visit the complete lists. IntegerPartitions(n)(first,last) gives the partitions first to last, last included, and with last at or above the number of partitions it leaves the array.",
  "every n>=1, every history of requests before the loop, every sequence of requests in its body", "all histories; the caches the loop walks over are filled and extended by the body",
  ["Sn/Sn_ElementHelper.hpp", "Sn/Sn_IrrepHelper.hpp", "Sn/Sn_CclassHelper.hpp", "Sn/Sn_CharacterHelper.hpp", "combinatorial/IntegerPartitions.hpp", "combinatorial/StandardYoungTableaux.hpp"])

p("Python loops over the library's objects end after the last item",
  "In Python, looping over a group, over the partitions of n, over the standard tableaux of a shape or over the parts of a partition gives all the items and then stops, and looping over a permutation gives its values. (Refuted: the classes have __getitem__ without a check of the index and no __iter__, so after the last item the loop reads outside the array; over S1 it never ends; over a permutation its first read is before the array.)",
  "every n, every shape, every partition, every permutation, every number of steps", "what a read outside an array does depends on the run",
  ["python/bindings/Snob2_bindings.cpp", "python/bindings/SnClasses_py.cpp", "Sn/SnObj.hpp:element", "combinatorial/Permutation.hpp:operator()"])

p("Rounding of matrices, characters and multiplicities",
  "With IEEE floats every entry of the matrix of a permutation is within n(n-1)/2^22 of the exact orthogonal matrix, and the value of a character is within d(8n+d)/2^23 of the whole number it stands for, d being the dimension, so that rounding to the nearest whole number recovers it while d(8n+d)<2^22. Up to S8 the multiplicity that coeff answers is exact or one short, and so are the multiplicities in CGproduct; they are never too large. Up to S6 they are exact. (From S7 on they are not, which a run refutes: the quotient is converted to int by dropping its fraction, and (5,2) times (2,2,2,1) comes out without (2,2,2,1).)",
  "every n with n(n-1)<=2^22, every partition, every permutation; for multiplicities every n<=8 and every triple of partitions, and n<=12 for irreps of small dimension", "all matrices and classes; a test sees the rounding of a few values, not a bound for all",
  ["Sn/SnIrrepObj.hpp:operator()", "Sn/SnIrrepObj.hpp:character", "Sn/SnCGbank.hpp:coeff", "Sn/SnCGbank.hpp:CGproduct"])

p("The trivial irrep and the sign",
  "In the irrep (n) every permutation has the matrix 1, in the irrep (1,...,1) its sign, the parity of the number of its inversions; the characters are 1 and the parity of n minus the number of cycles. CGproduct of (n) with an irrep is that irrep once, whatever was asked before.",
  "every n>=1, every permutation, every class, every history of requests", "all n and all permutations",
  ["Sn/SnIrrepObj.hpp:operator()", "Sn/SnIrrepObj.hpp:character", "Sn/SnCGbank.hpp:CGproduct"])

p("Transposed shapes",
  "The irrep of the transposed shape has the same dimension, and its matrix for a permutation is the sign times the matrix of the irrep, up to a fixed order and fixed signs of rows and columns; so its character is the sign times the character. CGproduct of (1,...,1) with an irrep is the transposed shape once, and transposing both factors of a product changes no multiplicity.",
  "every n>=1, every partition of n, every permutation, every history of requests", "all shapes and permutations",
  ["Sn/SnIrrepObj.hpp:operator()", "Sn/SnIrrepObj.hpp:character", "Sn/SnCGbank.hpp:CGproduct"])

p("The transform on Sn/Sm agrees with the transform on Sn",
  "Take a function on Sn/Sm and the function on Sn with, at each permutation, the value at its coset. The parts of the quotient transform are the parts of the transform on Sn whose shape has m boxes in the first row; their columns are, divided by m!, the columns of the tableaux with 1..m in the first row. All other columns and parts of the transform on Sn are zero.",
  "every 1<=m<n, every function on Sn/Sm", "all n, m and functions",
  ["Sn/ClausenFFT.hpp:operator()", "Sn/ClausenFFT.hpp:ClausenFFT(int,int)", "Sn/SnOverSmObj.hpp:index", "Sn/SnOverSmFunction.hpp"])

p("Plancherel's formula and the inverse transform on Sn/Sm",
  "The inner product of two functions on Sn/Sm is the sum over shapes of d m!/n! times the sum of the products of the entries of their coefficients. Every vector with the parts of a quotient transform is the transform of what inv_snsm returns on it, and the value of that at a coset is given by the inversion formula.",
  "every 1<=m<n, every pair of functions on Sn/Sm, every vector with parts of the right sizes", "all n, m, functions and vectors",
  ["Sn/ClausenFFT.hpp:operator()", "Sn/ClausenFFT.hpp:inv_snsm", "Sn/SnOverSmObj.hpp:element"])

p("Printed forms tell objects apart",
  "The printed form of a permutation, partition, tableau, type, representation, cycle, transposition, class, irrep, group element, function or class function determines the object: two objects that print alike are equal (for functions: given a format of numbers that is injective and free of newlines); so do the values of a function on Sn/Sm. A group prints differently from other groups, and a vector of integers can always be printed.",
  "every pair of objects of each kind, every indentation", "all objects and sizes; counter-examples for products of groups, for empty vectors, and for the sizes of quotients",
  ["combinatorial/Permutation.hpp:str", "combinatorial/IntegerPartition.hpp:str", "combinatorial/YoungTableau.hpp:str", "Sn/SnType.hpp:str", "Sn/SnRepresentationObj.hpp:str", "Sn/SnFunction.hpp:str", "Sn/SnClassFunction.hpp:str", "Sn/SnOverSmFunction.hpp:str", "groups/CyclicGroup.hpp:str", "groups/DihedralGroup.hpp:str", "groups/ProductGroup.hpp:str", "include/Snob2_base.hpp:operator<<"])

p("The result of Python's inv_snsm can be used",
  "What ClausenFFT.inv_snsm returns in Python on the transform of a function on Sn/Sm can be printed, and asked for its value at a permutation.",
  "every 1<=m<n, every function on Sn/Sm, every format of numbers, every permutation", "all n, m and functions",
  ["python/bindings/SnFFT_py.cpp:inv_snsm", "Sn/ClausenFFT.hpp:inv", "Sn/SnFunction.hpp:str", "Sn/SnFunction.hpp:operator()", "python/doc/source/SnFFT.rst"])

p("Sessions set up the library",
  "After a Snob2_session was constructed the library can be used, whatever sessions, CombinatorialClasses and SnClasses objects are made, copied and destroyed before or after; the banks, with what they have computed, are those of the first session, and nothing is freed twice.",
  "every history of constructions, copies, destructions and uses", "histories of any length; counter-examples for mixtures with the other classes and for copies",
  ["include/Snob2_session.hpp:Snob2_session", "include/Snob2_base.cpp", "combinatorial/CombinatorialClasses.hpp", "Sn/SnClasses.hpp"])

p("Class functions are the functions with scalar transforms",
  "The transform of a function that takes equal values on permutations of equal cycle type is, at every shape, a number times the identity, and that number is the sum of the function times the character divided by the dimension; conversely a function with such a transform is a class function. Convolution with a function commutes with every function exactly when it is a class function. The character of an irrep, as a function, transforms to n!/d times the identity at that irrep and to zero elsewhere, and two characters convolve to n!/d times the first or to zero.",
  "every n, every function on Sn, every pair of partitions of n (with the batched row turn the code uses: n up to 4)", "all n and functions",
  ["Sn/ClausenFFT.hpp:operator()", "Sn/SnFunction.hpp:convolve", "Sn/SnIrrepObj.hpp:character", "Sn/SnClassFunction.hpp"])

p("The caches answer as maps do",
  "A cache keyed by partitions, by pairs or triples of partitions or by the sizes of a transform returns for a key what was last stored for it, finds nothing for a key under which nothing was stored, and holds as many entries as there were different keys; whatever the number of buckets is, whenever it changes, and whether or not hash codes are stored. It fails for arrays with trailing zeros, which are equal as partitions but not found.",
  "every history of assignments and changes of the number of buckets, every key", "histories of any length, with any collisions; a counter-example for arrays with trailing zeros at every number of buckets",
  ["combinatorial/IntegerPartition.hpp:hash", "combinatorial/CombinatorialBankLevel.hpp:ip_map", "Sn/ClausenFFTObj.hpp:hash", "Sn/SnFFTbank.hpp:ffts", "Sn/SnCGbank.hpp:coeffs,taus,factors", "Sn/SnWeights.hpp:weights"])

p("Acting on some vectors of a batch",
  "SnMultiPart::apply_inplace and apply_inplace_inv with an offset o and a count s multiply vectors o to o+s-1 of the batch by the matrix of the permutation, cycle or inverse cycle and leave the other vectors as they are, so that after any sequence of such calls each vector is the matrix of the product of the permutations that moved it times what it was. SnMultiPart::apply returns the same on a copy.",
  "every shape, batch, multiplicity, history of permutations, cycles, offsets and counts", "all sizes and histories; apply is right only at multiplicity 1, otherwise it moves the first columns of other vectors or reads outside the tensor",
  ["Sn/SnMultiPart.hpp:apply", "Sn/SnMultiPart.hpp:apply_inplace", "Sn/SnMultiPart.hpp:apply_inplace_inv", "Sn/SnIrrepObj.hpp:apply_left"])

p("New parts and vectors are filled as asked",
  "SnPart(lambda,m,fill) is a matrix with one row for each tableau and m columns with the entries of the pattern (zero, ones, identity); SnVec(type,fill) has one such part for each entry of the type, in order, and get_type returns the type. Applying a permutation to an identity part gives the matrix of the permutation. In Python SnPart.ones and SnVec.ones return parts and vectors of ones.",
  "every n, partition, multiplicity and type, every permutation", "all sizes; Python's ones returns identities for every shape of dimension 2 or more",
  ["Sn/SnPart.hpp:SnPart", "Sn/SnVec.hpp:SnVec", "Sn/SnVec.hpp:get_type", "python/bindings/SnFunctions_py.cpp:ones"])

p("Random permutations",
  "Sn::random returns a permutation of 1..n whatever the state of the generator; if the integer distribution favours no number then random favours no permutation and misses none; in a series of calls each call makes one draw and the numbers of the permutations returned are the numbers drawn.",
  "every n, generator, state of the generator and length of the series", "all generators and states; undefined for every n from 13 on, where n! does not fit an int",
  ["Sn/SnObj.hpp:random", "Sn/Sn.hpp:random", "Sn/Sn_ElementHelper.hpp:random"])

if __name__=="__main__":
    with open(os.path.join(os.path.dirname(__file__),"..","properties.jsonl"),"w") as f:
        for x in P: f.write(json.dumps(x)+"\n")
    print(len(P))
