# Formal model of `computablelabs/starks` — design

## 0. What is verified and how to read it

The Python sources in `/repo` are modelled by hand, function by function, as Gallina functions in
`rocq/theories/*Model.v` (no proofs there). Proofs live in `*Proofs.v`. The property theorems are in
`Properties_*.v`: theorem statements, closed by a lemma of `*Proofs.v` or a short derivation from such lemmas, small
specification predicates the statements need, concrete `Example`s showing that the hypotheses are inhabited, and
`Print Assumptions` under every theorem. `properties.jsonl` has the English statements, `MANIFEST.json` the theorem names per
property, `seeded/LOG.jsonl` the wrong programs the theorems were tested against.

Conventions of the model

* Python `int` is `Z`; Python floor `//`, `%`, `divmod` are `Z.div`, `Z.modulo` (same sign convention).
* Exceptions are values: `result A := Ok a | Err e` with one constructor per Python exception the code can raise
  (`TypeError`, `ZeroDivisionError`, `IndexError`, …) plus `Diverges` for an exhausted loop budget. The theorems prove
  `Diverges` is not returned where they claim termination.
* `bytes` is `list Byte.byte`.
* `while` loops are recursions on an explicit budget computed from the arguments; `for` loops are folds.
* Code that is generic over the coefficient field is modelled over an arbitrary MathComp `fieldType` (every field at once)
  as *list programs* (`seq F`). The specification side is MathComp's `{poly F}`, `\prod`, `\sum`, `irreducible_poly`, never a model helper.
* `IntegersModP(p)` and `FiniteField(p,m)` are modelled concretely on `Z` / lists, and then *proved* to be `fieldType`s
  with exactly the model's operations, so every generic theorem applies to them.
* Hash functions, random number generators, one-way functions, and `sympy.factorint` are universally quantified function arguments.

## 1. Plan per property

| id | modelled | how it is proved |
|---|---|---|
| C01, C02 | `euclidean.py` both functions over `Z`, swap recursion included | loop invariant (common divisors preserved, Bezout), log-size fuel proved sufficient |
| C03 | the same functions on model polynomials | invariant with `dvdp`, measure = size |
| C04 | `modp.py` constructor, `+ - * neg ==` on `Z` | `Z.modulo` algebra; ring/field structure built from the model |
| C05 | `inverse` via the modelled extended Euclid | Bezout + gcd = ±1 analysis |
| C06 | `DomainElement.__pow__` over any multiplication | binary-digit invariant |
| C07 | `to_bytes`, bytes constructor | big-endian codec lemmas |
| C08, C09 | `rationals_modp.py` | cross-multiplication algebra; witnesses by computation |
| C10–C15 | `polynomial.py` on `seq F` | equality with `polyseq` of the MathComp polynomial; Euclid uniqueness |
| C16 | `is_irreducible` | finite field theory: roots of X^(q^i)-X, minimal polynomials |
| C17 | `is_primitive` with `factorint` as oracle argument | order of X in the quotient |
| C18 | generators over an arbitrary stream of draws | induction on the draws |
| C19–C24 | `finitefield.py` | quotient construction; model operations shown to satisfy the axioms; bit-level integer encodings |
| C25, C26 | `memoize` as a state machine | induction on call histories |
| C27–C31 | `zpoly`, `multi_inv`, `lagrange_interp*`, `multi_interp_4` | against `\prod ('X - r%:P)` and uniqueness of interpolation |
| C32, C33 | `AffineSpace`, vanishing polynomial | enumeration = image of the coefficient vectors |
| C34–C37 | `_simple_ft`, `_fft`, `fft_1d`, `mul_polys` | recursion on halving, order arguments, root-of-unity sums |
| C38–C40 | `utils.py` | order of an element; arithmetic; hash oracle |
| C41–C45 | `multivariate_polynomial.py`, `poly_utils.py` multivariate helpers | evaluation homomorphism into any commutative ring |
| C46–C48 | `air.py` | induction on steps |
| C49–C52 | polynomial part of `stark.py` | interpolation + divisibility |
| C53–C57 | `merkle_tree.py`, any hash | heap-index induction; collision extraction |
| C58, C59 | `compression.py` | list parsing induction |
| C60–C62 | `misc/blockchain.py` as a state machine, any hash | history invariants |
| C63, C64, C68 | `misc/commitment.py`, `zkp_3_coloring.py` | list induction |
| C65, C66 | `misc/zero_knowledge.py` | edge-set algebra; explicit cheating strategy |
| C67 | `misc/primality.py` | Fermat + square roots of 1 modulo a prime |
| C69, C70 | `floatingpoint.py` `__eq__`, `__sub__` | direct, state-passing model |
| C71–C73 | `merkle_tree.py` verifier on arbitrary proofs, indices and sizes | explicit attacker witnesses for any hash; heap-index algebra for sizes that are not powers of two |
| C74, C75 | `utils.py` MiMC constants | Pocklington certificate for the modulus, `gcd(3, p-1) = 1` |
| C76 | `finitefield.py` `FiniteField(p, m, modulus)` | from C16 |
| C77 | `rationals_modp.py` bytes | codec lemmas |
| C78–C81 | `floatingpoint.py` `+ - * / **` as state-passing programs | exact rational value of the result; loop budget shown sufficient |
| C82 | `blockchain.py` proof and chain validation | witnesses for any hash |
| C83, C102–C104 | `zero_knowledge.py` simulator, rounds, transcripts, `random.shuffle` with the draws as arguments | bijection between draw sequences and permutations; counting of accepting challenge sequences |
| C84 | `blum_blum_shub.py` | modular arithmetic, generator as a stream |
| C85 | `primality.py` | witnesses form a proper subgroup: at most half of the bases lie |
| C86–C89 | `stark.py` linear combination, prover, verifier, spot checks; hash and Merkle functions as arguments | algebra; explicit proof of a false statement |
| C90 | `numbertype.py` `typecheck` and the operator dispatch of Python for int, IntegersModP, polynomial and other operands | case analysis on the dispatch |
| C91, C92 | `fft.py` additive FFT and Taylor expansion | evaluation identities for the sizes for which the code is right, witnesses for the others |
| C93–C96 | `apr.py`, `reedsolomon.py` | the returned polynomials as closed forms |
| C97–C101 | `multivariate_polynomial.py` parser, `repr` and division; sympy's answer is an argument | induction on the text |
| C119 | `StrToMulti`, `CheckforDiv` on arbitrary strings (ASCII digits and white space) | induction on the text |
| C105–C108 | `fri.py` `AffineSpaceFRI`; random values and draws are arguments | interpolation and vanishing polynomial theory; closed form of the verdict |
| C109, C110 | `poly_utils.py` `gauss`, `max`, `construct_affine_vanishing_polynomial_Moore` | elimination preserves the solution set; exactness of the divisions for constant pivots and triangular matrices; closed form for two rows |
| C111, C112 | `register_node`, `register_nodes`, `full_chain`, `consensus` and a network of such servers; `urlparse` and the iteration order of sets are arguments | invariant of the loop; invariants over histories of requests |
| C113, C114 | `apr.py` `construct_Phi_polynomials`, `ali.py`; sympy's answer is an argument | degree of the quotient; name and attribute lookup |
| C115, C116 | the objects of `misc/commitment.py` and the prover object of `zkp_3_coloring.py` as states, method calls as events | invariants over histories |
| C117 | `merkle_tree.py` on leaves that are extension field elements or polynomials | a node that is None stays below every sum that reads it |
| C118 | the memoized factories `FiniteField`, `IntegersModP` with argument binding and hashing of the cache key | refinement of the `memoize` of C25, C26 |
| C120 | `starks/test/Logistic_Regression.py`; list objects as addresses into a heap; `float`, `struct` are arguments | bits of the padded binary text; invariant of the heap |
| C121 | `finitefield.py` elements as a MathComp field (`FqField.v`) | transport along the quotient construction of C19; Fermat and Frobenius in a finite field |
| C122 | the texts that `__str__` and `__repr__` build, as lists of code points | texts are read off from the left: digits end at a non-digit, elements end at the class name |
| C123 | sets of draws (`n.-tuple` of residues, `k.-tuple` of rounds) counted with MathComp's cardinality, so randint is taken as uniform and independent | X^(p^n) - X is squarefree and is the product of the monic irreducible polynomials whose degree divides n; primitive ones are counted by their roots in the field with p^n elements |
| C124 | `euclidean.py` on values that are an int or an object of a class, with Python's operator dispatch | simulation by the model of C01–C03 that casts at once; remainders of reduced operands are already reduced |
| C125 | `primality.py` | Rabin's bound: four cosets of the residues whose common power is ±1 (three coprime factors, or two prime powers and a base that violates Fermat's test); prime powers by lifting congruences |
| C126 | `euclidean.py` | counting predicate for the divisions, Lamé by induction with floor-division signs, invariants on the coefficient matrix (alternating signs for ints, strictly growing degrees for polynomials) |
| C127 | `compression.py` | encoder as a function of first occurrences; inversion of each reader loop; fixed points of two-byte references |
| C72 at every integer | `merkle_tree.py` `mk_branch`, `verify_branch` | only the position modulo the number of leaves matters to the verifier; closed form of the nodes a branch consists of |
| C128 | `merkle_tree.py`, any hash, any multiple of four of leaves | uniqueness of the tree over its permuted leaves; top-down comparison of two trees with the same root |
| C129 | `utils.py`, `get_pseudorandom_indices` | duplicate-free enumerations of strings and of the words of a residue class |
| C130 | `stark.py`, verifier, committed columns of low degree | number of roots of the checked differences; openings bound by the root; the count of C129 |
| C131 | `multivariate_polynomial.py`, `__len__`, `degree` of results | total degree as degree in a further variable; Kronecker substitution |
| C132 | `multivariate_polynomial.py`, `__init__`, `factory` | case analysis on the type of the argument |
| C133 | `multivariate_polynomial.py`, `__call__` | Schwartz-Zippel by induction on the number of variables |
| C134 | `polynomial.py`, `__call__`; `poly_utils.py`, `lagrange_interp`; `reedsolomon.py`, the code of the docstring | number of roots of a difference; uniqueness of interpolation |

## 2. Trusted base

* Coq 8.16.1's kernel (`coqc`), including `vm_compute`. No native compiler, no plugins,
  no kernel check switched off.
* Libraries: Coq's standard library and MathComp 1.x (ssreflect, fingroup, algebra, solvable, field, zify). Nothing else.
* Axioms: **none**. `Print Assumptions` answers `Closed under the global context` for every theorem of every `Properties_*.v`;
  the development contains no `Axiom`, `Parameter`, `Admitted`, section-less `Variable`, functor, module type or `Declare Module`.
  Tools that scan the loaded MathComp libraries for opaque module fields list 38 names (`*.Exports`-style sealed definitions such as
  those of `finfun`, `bigop` and `tuple`): these are definitions sealed by MathComp's own module signatures, they have bodies and
  no theorem here depends on an unproved statement.
* The reading of the Python code. Nothing was executed (no dependencies in the sandbox); every definition cites the lines it models.
  As a check of the reading, `Tests_Algebra.v`, `Tests_Protocol.v` and `Tests_Misc.v` replay the repository's own unit tests on the
  model: see section 6.
* CPython semantics as written into `Base.v` and `TypecheckModel.v`: unbounded ints, floor division, negative list indices,
  operator dispatch with reflected methods, insertion-ordered dicts.

External behaviour that is a universally quantified argument, so that the theorems hold for every such function: the hash (blake2s, sha256, sha384),
`random.*`, `os.urandom`, `sympy.factorint` (C17 assumes it returns the prime factorisation), `sympy.div` (C100, C113),
one-way and hard-core functions of the commitment schemes, HTTP responses of other blockchain nodes.

## 3. What is modelled, file by file

| file | modelled | not modelled |
|---|---|---|
| `starks/euclidean.py` | all | – |
| `starks/modp.py` | all; there is no `__hash__`, elements are unhashable | – |
| `starks/numbertype.py` | `memoize`, `typecheck`, operators, `__pow__`, `powmod`, `__truediv__`, `__rtruediv__` | abstract methods; `__div__`, `__rdiv__` (Python 2 only, never called by Python 3) |
| `starks/polynomial.py` | constructor, arithmetic, division, call, bytes, comparison, `__repr__` | `Zero`, `factory` (aliases of the constructor), `__len__`, `__iter__` (list accessors) |
| `starks/rationals_modp.py` | all | – |
| `starks/finitefield.py` | irreducibility, primitivity, generators, the field, integer and byte conversions, `__abs__`, `__repr__` | – |
| `starks/floatingpoint.py` | all | printing |
| `starks/fft.py` | all | class constructors; `BinaryFFT` (lines 274–285, raises NotImplementedError) |
| `starks/poly_utils.py` | all | – |
| `starks/multivariate_polynomial.py` | all; sympy is an argument; exponents are natural numbers | – |
| `starks/utils.py` | all | `plus_one` (unused) |
| `starks/compression.py`, `starks/merkle_tree.py` | all | `evaluate_polynomials` (refers to an undefined name, raises NameError) |
| `starks/air.py` | all | printing |
| `starks/stark.py` | prover polynomials, linear combinations, spot checks, verifier without its FRI call | the FRI import (`from starks.fri import ... FRI`: no such class, so importing the module fails); timing and printing |
| `starks/reedsolomon.py` | `AffineSpace`, rate and code spaces as used by APR and FRI | `draw_random_sample` (raises NotImplementedError) |
| `starks/apr.py` | all; sympy is an argument | – |
| `starks/ali.py` | all: `generate_proof` reads the attribute `rs_f`, which is never assigned, and `generate_random_constraint` the undefined name `r` | – |
| `starks/fri.py` | lines 1–167 | `verify_proximity_proof` (raises NotImplementedError), the commented-out classes |
| `starks/test/Logistic_Regression.py` | reading the file and the start of the computation | the arithmetic that no call reaches |
| `misc/blockchain.py`, `misc/run_blockchain.py` | chain, proof of work, transactions, consensus, registration, the request handlers as state transitions, networks of servers | Flask, HTTP, `urlparse` (an argument); `run_blockchain.py` has no imports and does not run as it stands |
| `misc/blum_blum_shub.py`, `misc/primality.py` | all | – |
| `misc/commitment.py`, `misc/zkp_3_coloring.py`, `misc/zero_knowledge.py` | all classes, also as objects with a history of calls; prover and verifier; rounds and simulation | `accepts` called before `choose_edge` (AttributeError), `__main__`; `zkp_3_coloring.py` imports modules that do not exist |

Never modelled: time, memory limits other than those stated in a theorem, recursion depth other than where a theorem mentions `RecursionError`,
printing and logging, concurrency (the code has none apart from Flask's).

## 4. Where the code does not do what it says

A theorem with the suffix `_refuted` proves that the natural claim is false of the model of the unchanged code, by a concrete witness.
The property that carries it states what the code does instead, for all inputs, and is marked `proved`.

| theorem | deviation |
|---|---|
| `C06_pow_negative_is_inverse_refuted` | `x ** -n` is 1 or `x` (the loop sees no bits), not the power of the inverse |
| `C07_bytes_constructor_canonical_refuted`, `C07_bytes_equality_refuted` | `field(bytes)` is not reduced modulo p |
| `C14_powmod_always_reduced_refuted` | `powmod` with exponent 0 or 1 does not reduce |
| `C24_two_pow_refuted` | `two_pow` of the element with value 4 is not X^4 (exponents are added as 1..m instead of 2^i) |
| `C28_zero_to_zero_refuted` | `multi_inv` maps 0 to a nonzero value |
| `C31_repeated_points_refuted` | interpolation with repeated points returns a polynomial that misses the values |
| `C36_product_refuted` | `mul_polys` is n times the cyclic product |
| `C37_large_degree_refuted` | FFT of a polynomial with more coefficients than points |
| `C41_mixed_lengths_refuted` | products of monomials with different numbers of variables |
| `C133_identity_large_degree_refuted` | polynomials with equal values at all points of a finite field can be unequal (limits C133, no fault) |
| `C44_two_variables_refuted` | only the first coordinate is interpolated |
| `C50_empty_step_refuted`, `C51_zero_output_refuted` | a step polynomial without terms raises TypeError; an output value 0 raises IndexError |
| `C61_conservation_with_resolve_refuted`, `C62_longest_chain_wins_refuted` | adopting a neighbour's chain drops our transactions; the advertised length of a chain is trusted |
| `C111_failed_request_unchanged_refuted`, `C112_agreement_refuted` | a registration request that raises has registered some nodes; servers with different chains of equal length never agree without mining |
| `C64_bbs_binding_refuted` | the opening need not be a quadratic residue, so the Blum-Blum-Shub commitment is not binding |
| `C65_completeness_isolated_refuted`, `C66_soundness_refuted`, `C83_simulated_transcripts_accepted_refuted` | graph isomorphism: graphs with isolated vertices are rejected, injectivity of the answer is not checked, simulated transcripts contain the inverse map |
| `C68_soundness_refuted` | 3-colouring: every graph has an accepting prover (colour 3, one secret left out) |
| `C73_twelve_leaves_refuted`, `C73_not_power_of_two_refuted` | Merkle branches for a number of leaves that is no power of two |
| `C78_fp_add_value_refuted`, `C79_fp_mul_commutative_refuted` | floating point: the value of a sum is not the sum of the values; multiplication is not commutative |
| `C87_announced_combination_refuted`, `C88_soundness_refuted`, `C89_samples_refuted` | STARK: the degree adjustment is a constant, the opened value of the second tree is not checked, more than 80 samples raise IndexError |
| `C90_commutative_refuted`, `C90_eq_symmetric_refuted` | elements of different prime fields |
| `C91_taylor_expansion_large_refuted`, `C92_adfft_evaluates_refuted` | TypeError for n > 4; the additive FFT of the constant 1 contains 0 |
| `C93_per_register_refuted`, `C96_tilde_expansion_refuted` | APR: boundary polynomials ignore the register; the expansion is not the documented one |
| `C113_documented_constraints_refuted`, `C114_documented_sum_refuted` | APR: the constraints are the zero polynomial; ALI: the random combination raises NameError |
| `C115_secret_used_once_refuted` | two commitments of one object use the same secret |
| `C117_field_elements_refuted` | `merkelize` raises TypeError for extension field elements although it is annotated `List[FieldElement]` |
| `C118_irreducible_modulus_refuted` | the second modulus passed by keyword for the same p and m is ignored, reducible or not |
| `C97_repeated_monomial_refuted`, `C98_minus_refuted`, `C100_quotient_refuted` | parser: repeated monomials replace each other, minus is read as plus, so quotients lose signs |
| `C120_zero_flag_refuted` | the zero flag is set for 2.0 |
| `C122_equal_rationals_refuted`, `C122_equal_multivariate_refuted`, `C122_same_text_same_product_refuted` | equal objects with different texts; equal texts of elements of different fields |
| `C123_degree_many_refuted` | more than `degree` irreducibility tests are expected for every degree above 1 |
| `C108_completeness_refuted` | the FRI verifier rejects honest proofs |
| `C127_canonical_refuted` | a final delimiter may be missing from compressed branches |
| `C128_sizes_refuted` | two lists of four leaves of different sizes have the same root for every hash function |
| `C109_gauss_polynomial_refuted` | elimination over polynomials drops remainders |

## 5. Testing against wrong programs

`seeded/LOG.jsonl` has one line per edited model: definitions were edited by hand (ids M…, H…, J…, K…, L…, N…, O…, Q…, R…, S…, T…, U…, V…, W…, Y…) and by a program that changes one operator, bound,
index, branch, argument order or exception at a time (ids A…, B…, D…, E…, G…), and all files depending on the definition were rebuilt. `failed` lists the
theorems that no longer proved; `tightened` lists theorems added or strengthened because nothing failed although the claim was false of the edited
program, and `failed_after_tightening` what the same edit breaks now. Lines with the claim `none, …` are edits that do not change the behaviour.

## 6. The repository's unit tests and tutorials on the model

`Tests_*.v` evaluate the assertions of `starks/test/test_*.py` and `misc/test_*.py` with the definitions of the model. A wrong reading of
the code would show as a failing assertion. Outcome:

* All assertions of `test_euclidean`, `test_modpy`, `test_polynomial`, `test_finitefield`, `test_floatingpoint`, `test_utils`, `test_fft`,
  `test_poly_utils`, `test_reedsolomon`, `test_merkle_tree` (for every hash function), `test_multivariate`, `test_air` and `test_fri` hold of the model.
  Two tests use smaller sizes to keep the build short (stated there). The random modulus of `FiniteField(p, m)` is fixed to a possible value.
* `test_floatingpoint`: two expected values differ from the result in their attributes; the assertions pass because `__eq__` compares only zero flags.
* `test_apr`: the constructor of `AIR` raises AssertionError in both tests (it requires 511 steps), so they fail.
* `test_fri`: the verdict is True exactly because the challenge is not 0 (C108); with challenge 0 the same proof is rejected.
* `test_compression`, `test_stark` cannot be imported (no class `SmoothSubgroupFRI` or `FRI` in `fri.py`); `misc/test_*.py` import `starks.commitment`
  etc., which live in `misc/`. The calls of `test_zero_knowledge` are replayed for all 720 isomorphisms (`test_run_protocol` with ten values of the
  prover's permutation), those of `test_zero_knowledge_3_coloring` for one modulus.
* Not replayed: tests without assertion that only construct objects (`test_numbertype`, `test_plus_one`, `test_affine_space_construction` and similar),
  `test_gauss` and the Moore test (C109, C110 state what they compute), the division of multivariate polynomials (sympy is an argument, C99, C100),
  `test_messages_from_protocol` and `test_convince_beyond_doubt` (C103, C104), `test_commitment` (C63, C115).
* `Tests_Tutorials.v` replays the cells of `tutorials/*.ipynb` together with their stored outputs. These outputs were computed by the running code
  (with an older format of `__repr__`), among them a quotient in GF(2^64) with 64 coefficients; the model gives the same values.
