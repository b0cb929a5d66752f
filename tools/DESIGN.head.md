# Formal model of Snob2 in Rocq (Coq 8.16.1)

## How to read this development

* `rocq/theories/Model_*.v`  — executable Gallina functions, one per C++ function, each with a comment citing
  the file and lines of `/repo` it models. No proofs.
* `rocq/theories/Spec_*.v`   — the small independent specification vocabulary (what a permutation, a partition, a
  standard tableau, a matrix product, a Fourier transform ... is), written without the model's helper functions.
* `rocq/theories/Proof_*.v`  — lemmas.
* `rocq/theories/Prop_*.v`   — only the property theorems, each closed by `exact`, with `Print Assumptions` below it
  and `Example`s showing that its hypotheses are met by a non-trivial case.
* `properties.jsonl` — the English properties; `MANIFEST.json` — property to theorem map with notes;
  `seeded/LOG.jsonl` — results of editing the model the way a bug would.
* `tools/` — the scripts that write `properties.jsonl`, `MANIFEST.json` and the table of assumptions below.

A theorem whose name ends in `_refuted` states that the English property, as a user would expect it, is false of the
code, with a witness; next to it stands what is true instead. `_partial` marks a theorem that covers only part of its
property; its comment says what is missing.

## Modelling conventions

* C++ `int` is `Z`, unbounded. Overflow is not modelled inside the functions; C09 states for which n the values of the
  index arithmetic fit in 32 bits, against a second copy of that arithmetic with every result checked
  (`Model_Sn32`). Division and remainder truncate as in C++ (`cdiv`, `cmod`).
* Every function that can misbehave returns an `outcome`: `Ret v` (normal), `Throw` (C++ exception:
  `std::vector::at`, `SNOB2_ASSRT`), `Abort` (`assert`, `SNOB2_ASSERT` which exits) and `UB` (out-of-bounds raw array
  access, read of uninitialised memory, dangling pointer, double delete). A theorem that a call returns `Ret` therefore
  also says that it has no undefined behaviour, does not throw, does not abort and terminates.
* `new int[n]` gives a buffer of uninitialised cells (`None`); results are read back only if all cells were written.
* Loops are folds over explicit integer ranges (`zfor lo hi` counts up, `zford hi lo` down, `zforb` can break);
  container loops are `foldM`.
* Mutation through pointers and references becomes a function returning the new value. The global caches ("banks")
  are explicit states threaded through a step function; histories are lists of operations of any length.
  Where object identity matters (C24-C28, C50, C61, C62, C64, C69, C73) objects live on an explicit heap.
* `float` and `double` are exact real numbers (Coq's `R`), complex numbers pairs of reals. Only `Model_Float` (C91) has
  rounded arithmetic, for the matrices, characters and multiplicities.
* The cnine library is not part of the repository. Its tensors are functions on index ranges, with `UB` outside; its
  kernels (`ScaleSomeSlicesFn`, `GivensSomeSlicesFn`, `block2`, `factorial`, ...) follow their names, arguments and the
  commented-out reference loops that the repository keeps next to the calls. Its associative containers are taken to
  number entries in order of insertion.

## Plan per property

| id | what is modelled, how it is proved |
|----|------------------------------------|
| C01-C06 | `Permutation.hpp` as arrays of Z with UB; loop invariants give a pure description; group laws from it; C04 and C06 refuted by witnesses, with the true statement next to it |
| C07-C09 | `SnObj::element`, `index` with array shifting loops; induction on n: shifting is insertion; bounds by factorial arithmetic |
| C10-C11 | `SnOverSmObj` likewise; the index depends only on the positions of values above m; cosets characterised; left-coset reading refuted |
| C12-C17 | `IntegerPartition`, `make_partitions`; induction on n |
| C18 | hook length formula: the count obeys the branching rule, the hook product obeys it too by a partial fractions identity over the rationals; no axioms |
| C19-C22 | `YoungTableau`, `make_tableaux`; induction on n by removing the box of n |
| C23 | `proposeRO` with marks as a depth-first search; invariant over marks |
| C24-C28, C64 | banks as state machines; invariants over operation lists; refutations for the history-dependent interfaces |
| C29, C70 | `class_size`, in exact integers and with 32-bit int; counting permutations of a cycle type by orbit and centraliser; cycle types are conjugacy classes |
| C30 | `order`: permutation proved, sortedness refuted |
| C31-C36 | `SnIrrepObj` over R. Row operations are related to operators on functions of tableaux; Coxeter relations from axial distances; word argument for the homomorphism property; Jucys-Murphy elements by induction |
| C37-C39 | characters as traces; Schur orthogonality through Jucys-Murphy eigenvalues and connectivity of tableaux; restriction to S_(n-1) by blocks |
| C40-C41 | actions on multi-index tensors; the batched kernel is right exactly for shapes whose exchanged pairs overlap; witnesses for a wrong result and for a write outside the tensor |
| C42-C43 | `SnFunction` as vectors indexed by `index`, using C07 |
| C44-C47 | Clausen's transform over R, parametric in the row action; layout of the blocks; inversion from completeness of the matrix elements |
| C48-C49 | `SnType` as association lists with inserting lookup; restriction and induction of types against the Young graph |
| C50 | representation bank as a state machine with an aborting comparison |
| C51-C53 | finite groups with truncated remainder |
| C54-C57, C72 | irreps of cyclic, dihedral and product groups; Fourier transform on any group with a complete set of unitary irreps |
| C58-C59 | Clebsch-Gordan multiplicities: cache keyed by `order`; character average; bilinearity |
| C60, C71 | character bank as a state machine |
| C61, C73 | `Permutation` and `IntegerPartition` as objects owning heap blocks; programs of constructions, copies, moves, assignments |
| C62 | owning pointers of `SnIrrepObj`; destruction after any history of calls |
| C63, C74 | `SnVec`: rows are named by tableaux; block offsets are shown to be the rows of the tableaux with the box of n removed |
| C75 | `SnProductRepresentation`: the two fused views give the two factors of the Kronecker matrix; loop invariant of JucysMurphy as in C36 |
| C76-C77 | restriction and induction of CG products: both sides have the same characters (branching of characters, orthogonality), and the entries agree because the multiplicities are non-negative |
| C78 | `SnCGbank` product of vectors, the recursion n to n-1 with the numbers of the factors as a parameter: a closed form by induction on n, from which bilinearity, the isometry and the action of S(n-1) follow; the mismatch of sizes for several columns by induction on n |
| C79 | character table: from Schur orthogonality of matrix entries, as many orthogonal class functions as classes |
| C80 | `SnClassFunction` access by class and by number; a class of another group refuted |
| C81 | inner products of functions on Sn: reindexing sums over the group by translation and inversion; the Python gradient of convolution refuted on S3 |
| C82 | Plancherel's formula for the transform (row-by-row action for all n, batched action for n<=4): the inversion kernel of C46 |
| C83 | equal matrices in all irreps imply equal permutations: the inversion kernel of C46 |
| C84 | `SnPartB`, `SnVecB` and the batched product of `SnCGbank`, function by function: a relation between a batch and one of its members that every step keeps, by induction on n |
| C85 | `SnCGbank::learn` with the eigenvalue routine as a parameter: the restricted product decomposes into irreps of S(n-1) (C39) and irreps of Sn, Jucys-Murphy eigenvalues are contents, so the eigenvalues learn looks for are there with the right multiplicities; loop invariants for the columns taken; induction on n |
| C86 | the columns of an irrep are compared with an orthonormal equivariant basis of the product; for n<=3 all blocks are aligned. For S4 a second exact routine with negated eigenvectors, which gives the same factors for n<=3, and a contradiction from both being equivariant |
| C87 | `SnWeights`: the map from irreps to matrices, the product and the ownership of the matrices; entrywise description of the product, from which equivariance, additivity and composition follow |
| C88 | values of characters: the product of the Jucys-Murphy elements is the sum of the long cycles, which gives the value at a long cycle; on a product of two groups a character is a combination, with natural multiplicities (traces of projections), of products of characters; induction over the cycle type |
| C89 | range loops as a counted loop over `size()` and `operator[]` with arbitrary legal requests in the body; the invariant of the group bank (C25-C28) and of the character bank (C71) |
| C90 | Python's loop over `__getitem__` until an exception: no exception comes, so the loop leaves the array |
| C91 | `Model_Float`: the loops for matrices, characters and multiplicities over any arithmetic; forward error bounds by loop invariants for every arithmetic whose operations have small relative errors; IEEE binary32 and binary64 (`Coq.Floats.SpecFloat`) are one, by the theorems of Flocq; runs of the code in Coq give exactness up to S6 (the dimensions add up) and the lost multiplicity on S7 |
| C92 | one standard tableau; every generator acts as 1 or -1; the parity of inversions changes with every generator |
| C93 | transposed tableaux have negated contents, so the generators act as before up to the sign of the tableau's reading word; induction over words |
| C94 | the sum over Sn splits by cosets and the level-by-level recursion of the transform; at the bottom the matrices of Sm add up to 0 except for the trivial irrep (orthogonality) |
| C95 | from C94 and Plancherel on Sn; the inversion formula on Sn applied to the vector filled up with zero columns gives a function constant on the cosets |
| C96 | `Model_Str`: the printing functions over strings; decimal forms are those the standard library reads back, and separators are no digits, so a printed form can be split from the left; the comma operator in `ProductGroup::str` and the unsigned loop bound for an empty vector are modelled |
| C97 | Python binds inv_snsm to inv (C68): the label of the result is smaller than n, so printing reads elements outside the group and evaluation fails an assertion |
| C98 | `Model_Session`: global pointers, heap blocks and objects; an invariant of histories with sessions only; witnesses for the others |
| C99 | averages over the group of conjugated matrix elements (Schur) give scalar coefficients; injectivity of the transform gives the converse, the centre and the idempotents |
| C100 | tables of buckets with any hash; invariant on placement and distinct keys, kept by assignment and rehashing; histories by induction |
| C101 | the block actions of C41 on the reshaped tensor; histories by induction with the homomorphism; the copying version, which keeps three dimensions, as an action on first columns |
| C102 | `Model_Fill`: the constructors with a fill pattern and the two Python bindings named `ones`, over the parts and vectors of `Model_Vec`; by induction on the type, with the round trip of `get_type` from C63; the pattern of a tensor that is not square has no identity (cnine is not in the repository) |
| C103 | `Model_Random`: `random` over a generator that is any state machine with draws in range; the bijection of C07 in 32-bit int (C09); uniformity as a count of states, series of calls by induction |
| C65, C68 | the transform with the batched kernel as shipped: equal to the row-by-row one exactly for n<=4, refuted on S5 by a computed entry, undefined from S6 on because the plan for (3,2,1) leaves its tensor |
| C66, C67 | the transform on Sn/Sm: layout, values, round trip; n = m refuted |
| C69 | transform bank as a state machine |
