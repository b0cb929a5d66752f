{
 "C01": {
  "note": "Full property over the model of Permutation."
 },
 "C02": {
  "note": "Full property."
 },
 "C03": {
  "note": "Full property."
 },
 "C04": {
  "note": "The property as a user expects it is false of the code: C04_mul_assign_refuted proves the negation with a witness, C04_mul_assign_is_opposite says what the operator computes instead, C04_mul_assign_partial gives the commuting case.",
  "status": "proved"
 },
 "C05": {
  "note": "Full property."
 },
 "C06": {
  "note": "The expected validation is absent: C06_constructor_validation_refuted proves that; the other two theorems say exactly when inverse is defined and what the initializer list constructor does.",
  "status": "proved"
 },
 "C07": {
  "note": "Full bijection for every n>=1, plus the behaviour for out-of-range indices (undefined, not rejected)."
 },
 "C08": {
  "note": "Full property."
 },
 "C09": {
  "note": "Stated against a copy of the arithmetic with every result checked against 32-bit int (Model_Sn32)."
 },
 "C10": {
  "note": "Full property."
 },
 "C100": {
  "note": "Proved for every number of buckets and both ways of storing hash codes, for all four kinds of key; refuted for arrays with trailing zeros.",
  "status": "proved"
 },
 "C101": {
  "note": "Proved for the actions in place, for every history. The copying version is proved right at multiplicity 1 and refuted otherwise.",
  "status": "proved"
 },
 "C102": {
  "note": "Parts and vectors have the sizes and entries asked for, get_type returns the type, and acting on an identity gives the representation matrix. Refuted: in Python SnPart.ones and SnVec.ones are bound to identity, so they are all ones only when every part is 1 x 1."
 },
 "C103": {
  "note": "the generator is a parameter; that it draws within range (and, for C103_uniform, each number from equally many states) is a hypothesis, met by C103_hypotheses; refuted from n = 13 on: C103_from_13_refuted",
  "status": "proved"
 },
 "C11": {
  "note": "True for right cosets; the documented left-coset reading is refuted with a witness."
 },
 "C12": {
  "note": "Full property, including the order under the library's own operator<."
 },
 "C13": {
  "note": "Full property."
 },
 "C14": {
  "note": "True for positive parts; refuted for arrays with trailing zeros."
 },
 "C15": {
  "note": "Full property."
 },
 "C16": {
  "note": "Full property."
 },
 "C17": {
  "note": "Full property; also shows that non-nested pairs of the right sizes are accepted."
 },
 "C18": {
  "note": "The hook length formula is proved (no axioms), and the successive truncating divisions are exact in total. With 32-bit int the factorial overflows for every partition of n >= 13 (refuted)."
 },
 "C19": {
  "note": "Full property, plus the order of the list."
 },
 "C20": {
  "note": "Full property."
 },
 "C21": {
  "note": "Full property, including the silent (0,0) answer for absent values."
 },
 "C22": {
  "note": "First half proved for every tableau with non-empty rows; the second half holds exactly for rows of length >=2 or the last row (_partial), and is refuted for interior rows of length one."
 },
 "C23": {
  "note": "Full property: the restriction-ordered list is a permutation of all partitions and respects the restriction condition; termination is part of the Ret.",
  "status": "proved"
 },
 "C24": {
  "note": "Full property over all finite histories of legal queries, with object identities and caches in the model.",
  "status": "proved"
 },
 "C25": {
  "note": "Full property over all finite histories of legal calls, with the objects on an explicit heap. get_Sn(0) is shown undefined, negative n throws.",
  "status": "proved"
 },
 "C26": {
  "note": "The property as stated is false of the code: C26_numbering_depends_on_history_refuted. Proved instead: the numbering is the listing order when no irrep of S_n was requested before, and always an enumeration that then stays fixed.",
  "status": "proved"
 },
 "C27": {
  "note": "Full property over histories of legal calls; Sn(n).irrep with a partition of another size poisons the cache (refuted).",
  "status": "proved"
 },
 "C28": {
  "note": "Full property; lookups of compositions that are no partitions insert 0 silently (refuted), foreign sizes abort.",
  "status": "proved"
 },
 "C29": {
  "note": "class_size in exact integers; C29_class_can_be_listed shows the class list exists; C29_int_up_to_12: the same count with 32-bit int up to n = 12; C29_int_from_13_refuted: from n = 13 on n! does not fit an int and every call is undefined, also for classes of one element; C29_partition_of_another_number_refuted: the partition is not checked against the group and the call then answers n! s / m!; C29_no_points_refuted: 0 is answered for the one permutation of no points"
 },
 "C30": {
  "note": "The claim that order sorts is refuted; proved instead that it returns a permutation of its arguments, and exactly when it sorts (integers and partitions of n)"
 },
 "C31": {
  "note": "generator formula in terms of tableaux and contents, and the three Coxeter relations for every matrix",
  "status": "proved"
 },
 "C32": {
  "note": "identity, homomorphism, apply = left multiplication; wrong size aborts",
  "status": "proved"
 },
 "C33": {
  "note": "both orthogonality relations and rho(inverse)=transpose",
  "status": "proved"
 },
 "C34": {
  "note": "cycle (either order), inverse cycle (a<=b) and transposition overloads; apply_left_inv ignores reversed cycles (recorded)",
  "status": "proved"
 },
 "C35": {
  "note": "transp(i,j) is the transposition's matrix for i<=j, a cycle's for i>j; it is right in every irrep exactly for i<=j+1.",
  "status": "proved"
 },
 "C36": {
  "note": "diagonal with contents, equals the sum of transpositions, any history of cached queries",
  "status": "proved"
 },
 "C37": {
  "note": "Trace over every permutation of cycle type mu, constancy on conjugates, and value at the identity. Reals stand for floats.",
  "status": "proved"
 },
 "C38": {
  "note": "Schur orthogonality of matrix elements and of characters, for every list of the elements of S_n; C38_the_group_is_a_list shows the group's own enumeration is one. Floats as exact reals.",
  "status": "proved"
 },
 "C39": {
  "note": "For sigma fixing n the matrix is block diagonal with the matrices of the irreps below lambda in the order of foreach_sub; permutations restricted by dropping the last image.",
  "status": "proved"
 },
 "C40": {
  "note": "Middle-index actions (permutation, cycle, transposition) proved for all shapes. First-index (batched) action: right exactly when exchanged pairs overlap (C40_first_index_exact), which holds for all shapes of at most 4 boxes; wrong for [3,2] and undefined for [3,2,1]. cnine's ScaleSomeSlices/GivensSomeSlices are not in the repository and are modelled after the commented-out loop in SnIrrepObj.hpp.",
  "status": "proved"
 },
 "C41": {
  "note": "generator, permutation, cycle, strided; block version ignores reversed cycles (recorded)",
  "status": "proved"
 },
 "C42": {
  "note": "every cell of the result is written: the model freezes the raw tensor and an unwritten cell would be UB, so sf_left_translate f t = Ret g includes it",
  "status": "proved"
 },
 "C43": {
  "note": "exact reals for float",
  "status": "proved"
 },
 "C44": {
  "note": "Levels, parts, blocks of the transform on Sn."
 },
 "C45": {
  "note": "Every n and f, with the row-by-row action kept as a comment in the code (rows_cycle). What the shipped code does with its batched action is C65."
 },
 "C46": {
  "note": "Every n and f, both directions and the inversion formula, with the row-by-row action. The shipped batched action is C65."
 },
 "C47": {
  "note": "Convolution, left and right translation and inversion, every n, f, g, t, with the row-by-row action."
 },
 "C48": {
  "note": "Histories of set/add/add-type/read on one n; the const read inserts a zero entry (C48_read_is_pure_refuted) and a partition of another n aborts."
 },
 "C49": {
  "note": "Restriction and induction with multiplicities, dimensions, Frobenius reciprocity and the sub-isotypic lists."
 },
 "C50": {
  "note": "The English claim is false of the code (C50_any_mixture_refuted): two non-empty types of different degrees abort. For one group the bank memoises correctly for every history."
 },
 "C51": {
  "note": "Group axioms, index round trip, the table modulo n, and the assertion when groups are mixed, for every n >= 1."
 },
 "C52": {
  "note": "Group axioms, both index functions, the faithful action on the n-gon and the relations of the generators, for every n >= 1. Refuted as documented API: r(n) is not an element and looks up as a reflection; s() is not an element for n = 1."
 },
 "C53": {
  "note": "For any two groups that satisfy the group axioms. ProductGroup and ProductGroupElement have no working index()."
 },
 "C54": {
  "note": "Unitary, orthogonal and complete for every n."
 },
 "C55": {
  "note": "Unitary and orthogonal for all n and k except k = 3 with n even, where the code has a duplicated test and returns 2 x 2 matrices for a one-dimensional irrep (refuted for every even n). Squared dimensions sum to 2n; complete for odd n."
 },
 "C56": {
  "note": "Refuted: the code returns the zero matrix for every pair of irreps, so it is never a representation."
 },
 "C57": {
  "note": "Proved for every group with complete unitary irreps, and from that for all cyclic groups and dihedral groups with n odd. Refuted for dihedral groups with n even (the transform aborts) and for product groups (every function comes back as zero)."
 },
 "C58": {
  "note": "Value, symmetry and history independence; mixed degrees abort. Multiplicity specified as the character average."
 },
 "C59": {
  "note": "Completeness (the first-row bound loses nothing), bilinearity, traces and dimensions. get_CGfactors is not modelled."
 },
 "C60": {
  "note": "character(i) always answers the character of (n): refuted for every i>=1."
 },
 "C61": {
  "note": "Value semantics proved for every program without self copy-assignment and v*=v, frame, ownership, no leak and destroyability for every program; the x=x half is refuted in every reachable state for objects with at least one entry (freed before copied).",
  "status": "proved"
 },
 "C62": {
  "note": "Characterised for every history of proper calls: the destructor is fine exactly when some call needed the tables of the matrix action; the unconditional claim is refuted (new object, identity, views only).",
  "status": "proved"
 },
 "C63": {
  "note": "down, up, cat, get_type, accumulate_up, both round trips, and commutation with S_(n-1), for SnVec. SnVecB/SnPartB rest on cnine views that are not in the repository and are not modelled."
 },
 "C64": {
  "note": "Full property.",
  "status": "proved"
 },
 "C65": {
  "note": "As run, the transform is the Fourier transform exactly for n<=4 (C65_forward_exact). On S5 a computed witness is wrong; from S6 on every forward transform is undefined and no inverse returns.",
  "status": "proved"
 },
 "C66": {
  "note": "Layout, forward values (m<n) and round trip (m<=n), with the row-by-row action."
 },
 "C67": {
  "note": "Refuted for every n>=2: the one part carries the irrep of S1."
 },
 "C68": {
  "note": "Refuted for every 2<=m<n<=4 with the batched action as shipped."
 },
 "C69": {
  "note": "Every history of legal requests (n alone, or 1<=m<=n)."
 },
 "C70": {
  "note": "cycle types are conjugacy classes; sizes add to n!"
 },
 "C71": {
  "note": "indexed_map (cnine) assumed to number entries in insertion order."
 },
 "C72": {
  "note": "Translations and inverse for any group; left, right and (for real f) inv of a transform. inv of a transform conjugates, so it is refuted for complex f."
 },
 "C73": {
  "note": "Proved for distinct objects after any program; the p*=p half is refuted.",
  "status": "proved"
 },
 "C74": {
  "note": "apply, apply_inplace (permutation and contiguous cycle), apply_inplace_inv and add. SnVec::apply(Transposition) is not modelled; the inverse of a reversed cycle does nothing (C34)."
 },
 "C75": {
  "note": "JucysMurphy(k) with k>n is not checked by the code and not covered. Products of products are not modelled.",
  "status": "proved"
 },
 "C76": {
  "note": "Both for types and for two irreps; equal as lists of entries, after any history of the bank."
 },
 "C77": {
  "note": "Projection formula, with the specification of the induced type of C49."
 },
 "C78": {
  "note": "Every table of factors F. The factors learn computes come from an eigenvalue routine that is not in the repository; that they are orthogonal and make the products commute with all of Sn is a hypothesis (orthogonal_factors, products_commute), shown satisfiable. Several columns: refuted."
 },
 "C79": {
  "note": "Both relations, the expansion of any class function, the identity column and the sum of squares, for all n.",
  "status": "proved"
 },
 "C80": {
  "note": "Reads and writes by class and by number. A class of another group is not refused (refuted).",
  "status": "proved"
 },
 "C81": {
  "note": "Adjoint relations for all n and all functions; the Python ConvolveFn.backward formula is refuted on S3.",
  "status": "proved"
 },
 "C82": {
  "note": "Row-by-row group action for all n; the batched action as shipped for n<=4 (C65 says why).",
  "status": "proved"
 },
 "C83": {
  "note": "From the inversion kernel: if all matrices agree, the kernel at (p,q) is the one at (q,q).",
  "status": "proved"
 },
 "C84": {
  "note": "Products for single columns, as in C78; every table of factors. apply_inplace of SnVecB is refuted: its loop variable is declared by value, so it changes copies and no batch ever changes (C84_inplace_leaves_all, C84_inplace_refuted). SnVecB::up is not modelled: it adds blocks whose sizes it does not state."
 },
 "C85": {
  "note": "The eigenvalue routine is a parameter and exact; arithmetic is in reals. n is at most 1234567: learn overwrites used eigenvalues with that number, which is itself an eigenvalue for larger n."
 },
 "C86": {
  "note": "Commutation with the whole group is proved for n<=3 and refuted for n=4 (C86_S4_refuted); for larger n only the parts of dimension 1 are proved. The refutation is about the code: it leaves signs of blocks to the eigenvalue routine."
 },
 "C87": {
  "note": "The refuted parts (const type changed, weights from vectors, copies) are stated as they are in the code."
 },
 "C88": {
  "note": "every value is an integer bounded by the dimension; entries of the character table; traces of all matrices; the value at the long cycle. In exact arithmetic.",
  "status": "proved"
 },
 "C89": {
  "note": "Loops over containers. cnine::GenericIterator is not in the repository; the iterator is taken to hold the container and a number."
 },
 "C90": {
  "note": "Refuted: a Python loop reads past the array after the last item, over S1 it does not end, over a permutation the first read is before the array."
 },
 "C91": {
  "note": "Matrix and character error bounds, multiplicities exact or one short up to S8, exact up to S6; exactness refuted on S7 by a run evaluated in Coq ((5,2) times (2,2,2,1)). IEEE arithmetic is Coq.Floats.SpecFloat; Flocq's theorems give the error of one operation."
 },
 "C92": {
  "note": "Matrices, characters and products of the two irreps of dimension 1."
 },
 "C93": {
  "note": "Matrices up to order and signs, characters, products with the sign."
 },
 "C94": {
  "note": "Proved for the group action row by row and, as the code runs it, for n<=4 (C65).",
  "status": "proved"
 },
 "C95": {
  "note": "Proved for the group action row by row (C65 says where the code as run agrees).",
  "status": "proved"
 },
 "C96": {
  "note": "Printed forms of all kinds are injective (permutations, partitions, tableaux, types, representations, cycles, classes, irreps, groups, group elements and products of them; functions and class functions given an injective newline-free number format). Refuted: a product of groups prints without its first factor; printing an empty vector of integers leaves it; functions on different quotients with the same values print alike."
 },
 "C97": {
  "note": "Refuted for every 2<=m<n: printing what Python's inv_snsm returns reads outside an array, and asking for the value at any permutation of n ends the process; for m=1 both work."
 },
 "C98": {
  "note": "Proved for all histories of Snob2_session objects, and for constructions of CombinatorialClasses and SnClasses objects alone. Refuted: use before the first session, a CombinatorialClasses or SnClasses object before or after a session, two such objects, copies of sessions."
 },
 "C99": {
  "note": "Proved for every n with rows turned one at a time, and for n up to 4 with the batched row turn of the code (C45 says why not beyond).",
  "status": "proved"
 }
}