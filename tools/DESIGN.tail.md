
## What is modelled

The comment above each definition gives file and lines. By file:

| model | source |
|-------|--------|
| `Model_Perm`, `Model_Mem` | `combinatorial/Permutation.hpp`, `Transposition.hpp`, `ContiguousCycle.hpp`, memory of `IntegerPartition.hpp` |
| `Model_Part`, `Model_Tab`, `Model_Comb`, `Model_CombBank` | `combinatorial/IntegerPartition.hpp`, `YoungTableau.hpp`, `IntegerPartitionObj.hpp`, `CombinatorialBank.hpp`, `CombinatorialBankLevel.hpp` |
| `Model_Sn`, `Model_Sn32`, `Model_SnBank`, `Model_Class`, `Model_Class32` | `Sn/SnObj.hpp`, `SnOverSmObj.hpp`, `SnBank.hpp`, `Sn.hpp`, `include/Snob2_base.hpp:order` |
| `Model_Random` | `random` of `Sn/SnObj.hpp`, `Sn.hpp`, `Sn_ElementHelper.hpp`; the generator and the distribution are parameters |
| `Model_Irrep`, `Model_Life` | `Sn/SnIrrepObj.hpp`, `SnIrrep.hpp` |
| `Model_Char`, `Model_CG` | `Sn/SnCharBank.hpp`, `SnCharacter.hpp`, `SnClassFunction.hpp`, `Sn_CharacterHelper.hpp`, `SnCGbank.hpp:coeff,CGproduct` |
| `Model_CGvec` | `Sn/SnCGbank.hpp:get_CGfactors` (sizes), `CGproduct` of vectors and of parts, `add_CGprod`, `accumulate_CGprod` |
| `Model_VecB`, `Model_VecBIn` | `Sn/SnPartB.hpp`, `SnVecB.hpp`, batched products of `SnCGbank.hpp` |
| `Model_Learn` | `Sn/SnCGbank.hpp:get_CGfactors,learn` |
| `Model_Weights` | `Sn/SnWeights.hpp`; `SnVec::apply(Transposition)`, `SnPart::apply(Transposition)` |
| `Model_Loop` | iterators of `Sn/Sn_*Helper.hpp`, `combinatorial/IntegerPartitions.hpp`, `StandardYoungTableaux.hpp`; Python loops over `__getitem__` |
| `Model_Float` | `Sn/SnIrrepObj.hpp`, `SnCharacter.hpp`, `SnCGbank.hpp:coeff,CGproduct` with IEEE arithmetic |
| `Model_Fun` | `Sn/SnFunction.hpp` |
| `Model_Type` | `Sn/SnType.hpp`, `SnIsotypicObj.hpp`, `SnRepresentationObj.hpp`, `SnRepresentationBank.hpp` |
| `Model_FFT` | `Sn/ClausenFFT*.hpp`, `SnMultiPart.hpp`, `SnMultiVec.hpp`, `SnOverSmFunction.hpp`, `SnFFTbank.hpp` |
| `Model_Multi` | `Sn/SnMultiPart.hpp:apply`, histories of `apply_inplace` |
| `Model_Fill` | constructors of `Sn/SnPart.hpp` and `SnVec.hpp` with a fill pattern, `ones` of `python/bindings/SnFunctions_py.cpp` |
| `Model_Vec` | `Sn/SnVec.hpp`, `SnPart.hpp` |
| `Model_Prod` | `Sn/SnProductRepresentation.hpp`, for two irreps |
| `Model_Group` | `groups/*.hpp`, `include/FunctionOnGroup.hpp` |
| `Model_Str` | `str` and `operator<<` of permutations, cycles, partitions, tableaux, types, representations, functions on Sn and Sn/Sm, groups and their elements, vectors of integers |
| `Model_Hash` | hashes and equality of `combinatorial/IntegerPartition.hpp`, `Sn/ClausenFFTObj.hpp`; `std::unordered_map` with an arbitrary number of buckets |
| `Model_Session` | `include/Snob2_session.hpp`, `Snob2_base.cpp`, `combinatorial/CombinatorialClasses.hpp`, `Sn/SnClasses.hpp` |

## What is not modelled

* CUDA code, Python bindings other than loops over `__getitem__` (C90) and the gradient of convolution (C81), inv_snsm (C97) and `ones` (C102), printing of tensors and numbers, random and gaussian fills, memory exhaustion. Floating point rounding
  outside `Model_Float` (which takes operations one by one, without fused multiply-add).
* The cnine library itself: what its views, containers and tensors do is written into the model where it is used, and what
  it does outside their bounds is undefined. Its eigenvalue routine is a parameter of `Model_Learn`, of which the theorems
  assume that it makes no rounding errors (`exact`).
* `SnVecB::up`, which adds blocks whose sizes it does not state. `CheckCG` and the prints of `learn`.
* Template drift: `FourierOnGroup` reads `f.G` as a reference while `FunctionOnGroup` stores a pointer; `ProductGroup`
  and `ProductGroupElement` have no working `index()`. The model follows the meaning of the calls.
* Files that nothing includes or that do not compile: `Sn/SnCGproduct.hpp`, `SnPartProduct.hpp`, `SnVecProduct.hpp`, `SnIrrepSet.hpp`, `ArithmeticExpr.hpp`,
  `GroupAlgebra.hpp`. Wrappers that only forward (`SnOverSm.hpp`, `SnRepresentation.hpp`, `ClausenFFT.hpp`) are modelled by what they forward to.
* Abandoned and backup directories, and `*.x.hpp`.

## Trusted base

* Coq's kernel (coqc; coqchk can recheck the compiled files).
* Fidelity of the hand-written model to the C++ source; every definition cites its source.
* The axioms below, all from Coq's standard library, as listed by `Print Assumptions` for each theorem. No axiom is
  added by this development, and no kernel check is switched off.

