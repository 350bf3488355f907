{"id": "C01", "title": "Integer gcd is total and correct", "statement": "gcd(a,b) on Python ints terminates for every pair (including negatives and zero) and returns a common divisor that every common divisor divides (a gcd up to sign).", "quantifier": "all pairs of ints", "why_tests_cant": "holds for every input; the tests only try a handful of literals and no test covers termination for every sign combination", "anchors": ["starks/euclidean.py:gcd"]}
{"id": "C02", "title": "Extended Euclid returns Bezout coefficients", "statement": "extended_euclidean_algorithm(a,b) on ints terminates and returns (x,y,d) with a*x+b*y=d and d a gcd of a and b, also when |b|>|a| or an argument is zero.", "quantifier": "all pairs of ints", "why_tests_cant": "holds for every input; the tests only try a handful of literals", "anchors": ["starks/euclidean.py:extended_euclidean_algorithm"]}
{"id": "C03", "title": "Euclid on polynomials", "statement": "For polynomials over any field, gcd and extended_euclidean_algorithm terminate, return a greatest common divisor (up to a unit) and Bezout coefficients.", "quantifier": "all pairs of polynomials over every field", "why_tests_cant": "no test runs Euclid on polynomials; the claim ranges over all fields and degrees", "anchors": ["starks/euclidean.py:gcd", "starks/euclidean.py:extended_euclidean_algorithm", "starks/polynomial.py:Polynomial.__divmod__"]}
{"id": "C04", "title": "Z/p arithmetic is integer arithmetic modulo p", "statement": "For every p>0 the results of +,-,*,unary - and construction from an int are the canonical representative in [0,p) of the corresponding integer result, == decides congruence, and these make IntegersModP(p) a commutative ring, a field when p is prime.", "quantifier": "all moduli, all operands", "why_tests_cant": "holds for every input; the tests only try a handful of literals", "anchors": ["starks/modp.py:IntegersModP"]}
{"id": "C05", "title": "Modular inverse", "statement": "inverse() returns y with x*y=1 for every x coprime to p (hence all non-zero x for prime p) and raises for every x not coprime to p (in particular 0); it never returns a wrong value and always terminates.", "quantifier": "all moduli p>1 and all elements", "why_tests_cant": "the failing elements of a composite modulus and all large primes cannot be enumerated", "anchors": ["starks/modp.py:IntegerModP.inverse"]}
{"id": "C06", "title": "Square-and-multiply exponentiation", "statement": "x**n equals the n-fold product for every n>=0 in every monoid it is used in (Z/p, polynomials, multivariates). Deviation: for negative n it silently returns x (n odd) or 1 (n even) instead of a power of the inverse.", "quantifier": "all exponents, all elements, all rings", "why_tests_cant": "holds for every input; the tests only try a handful of literals", "anchors": ["starks/numbertype.py:DomainElement.__pow__"]}
{"id": "C07", "title": "Field element byte encoding", "statement": "to_bytes() of a Z/p element yields 32 big-endian bytes and constructing from them returns an equal element, when p<=2^256; elements >=2^256 raise. Deviation: construction from bytes does not reduce, so an element congruent to another can compare unequal.", "quantifier": "all elements, all 32-byte strings", "why_tests_cant": "holds for every input; the tests only try a handful of literals", "anchors": ["starks/modp.py:IntegerModP.__init__", "starks/modp.py:IntegerModP.to_bytes"]}
{"id": "C08", "title": "Rationals mod p agree with Z/p", "statement": "For prime p, with denominators non-zero mod p, RationalsModP +,-,*,neg,inverse and == compute the residue num/den in Z/p, never raise (except inverting 0) and keep denominators non-zero mod p.", "quantifier": "all primes, all representable rationals", "why_tests_cant": "holds for every input; the tests only try a handful of literals", "anchors": ["starks/rationals_modp.py:RationalsModP"]}
{"id": "C09", "title": "Degenerate rationals", "statement": "Deviation: RationalsModP accepts denominators congruent to 0; then == is not transitive, + can raise ZeroDivisionError, and != always raises NameError.", "quantifier": "existential witnesses / all operands for !=", "why_tests_cant": "tests never use != or zero denominators", "anchors": ["starks/rationals_modp.py:RationalModP.__init__", "starks/rationals_modp.py:RationalModP.__eq__", "starks/rationals_modp.py:RationalModP.__ne__", "starks/rationals_modp.py:RationalModP.__add__"]}
{"id": "C10", "title": "Polynomials are in normal form and == is polynomial equality", "statement": "Every polynomial built by the constructor or by an operation has no trailing zero coefficient, and == returns True exactly when the two denote the same polynomial (same coefficients at every exponent); degree() is the mathematical degree (-1 for zero).", "quantifier": "all coefficient lists over every field", "why_tests_cant": "holds for every input; the tests only try a handful of literals", "anchors": ["starks/polynomial.py:strip", "starks/polynomial.py:Polynomial.__init__", "starks/polynomial.py:Polynomial.__eq__"]}
{"id": "C11", "title": "Polynomial ring operations", "statement": "+,-,unary -,* compute exactly the coefficient lists of the mathematical sum, difference, negation, product.", "quantifier": "all polynomials over every ring/field", "why_tests_cant": "holds for every input; the tests only try a handful of literals", "anchors": ["starks/polynomial.py:Polynomial.__add__", "starks/polynomial.py:Polynomial.__mul__", "starks/polynomial.py:Polynomial.__neg__", "starks/polynomial.py:Polynomial.__sub__"]}
{"id": "C12", "title": "Polynomial division", "statement": "divmod(f,g) for g!=0 terminates and returns the unique (q,r) with f=q*g+r and deg r<deg g; / and % return its components; g=0 raises (ZeroDivisionError for / and %, IndexError for divmod).", "quantifier": "all pairs of polynomials over every field", "why_tests_cant": "termination of the division loop and the division identity range over all degrees", "anchors": ["starks/polynomial.py:Polynomial.__divmod__", "starks/polynomial.py:Polynomial.__truediv__", "starks/polynomial.py:Polynomial.__mod__"]}
{"id": "C13", "title": "Polynomial evaluation", "statement": "p(x) equals sum a_i x^i, hence evaluation commutes with + and *.", "quantifier": "all polynomials, all points", "why_tests_cant": "holds for every input; the tests only try a handful of literals", "anchors": ["starks/polynomial.py:Polynomial.__call__"]}
{"id": "C14", "title": "powmod", "statement": "powmod(f,n,g) for n>=0, g!=0 is congruent to f^n modulo g and is reduced for n>=2 (for n in {0,1} it returns the operand unreduced); g=0 raises when n>=2.", "quantifier": "all polynomials, exponents", "why_tests_cant": "holds for every input; the tests only try a handful of literals", "anchors": ["starks/numbertype.py:DomainElement.powmod"]}
{"id": "C15", "title": "Polynomial from bytes", "statement": "Constructing a polynomial from a byte string of length 32k reads the k big-endian coefficients in order (then strips); any other length raises ValueError. Concatenating coefficient encodings and reading back gives the same polynomial.", "quantifier": "all byte strings / all coefficient lists", "why_tests_cant": "holds for every input; the tests only try a handful of literals", "anchors": ["starks/polynomial.py:Polynomial.__init__"]}
{"id": "C16", "title": "is_irreducible decides irreducibility", "statement": "For prime p and every polynomial of degree >=1 over Z/p, is_irreducible returns True exactly when the polynomial is irreducible. Deviation: it returns True for constants and 0.", "quantifier": "all primes, all degrees, all polynomials", "why_tests_cant": "irreducibility quantifies over all factorisations; tests check seven literals", "anchors": ["starks/poly_utils.py:is_irreducible"]}
{"id": "C17", "title": "is_primitive decides primitivity", "statement": "For prime p, f irreducible-tested of degree m=degree and f not X, is_primitive returns True exactly when f is irreducible and X has multiplicative order p^m-1 modulo f, provided factorint lists exactly the prime divisors. Deviation: it accepts X itself for degree 1.", "quantifier": "all primes, degrees, polynomials", "why_tests_cant": "the test is commented out; order is a statement about all exponents", "anchors": ["starks/poly_utils.py:is_primitive"]}
{"id": "C18", "title": "Generated polynomials are valid", "statement": "Whatever random numbers are drawn, generate_irreducible_polynomial / generate_primitive_polynomial can only return monic polynomials of the requested degree that are irreducible (resp. also pass is_primitive).", "quantifier": "all random streams, primes, degrees", "why_tests_cant": "randomised; tests see one draw", "anchors": ["starks/poly_utils.py:generate_irreducible_polynomial", "starks/poly_utils.py:generate_primitive_polynomial"]}
{"id": "C19", "title": "FiniteField(p,m) is a field of p^m elements", "statement": "For prime p and an irreducible modulus of degree m>=2, elements are in bijection with polynomials of degree <m, there are p^m of them, and +,-,*,neg satisfy the field axioms and are arithmetic modulo the modulus.", "quantifier": "all p, m, moduli, elements", "why_tests_cant": "holds for every input; the tests only try a handful of literals", "anchors": ["starks/finitefield.py:FiniteField"]}
{"id": "C20", "title": "FiniteField inverse", "statement": "inverse() of every non-zero element returns its multiplicative inverse; inverse of 0 raises ZeroDivisionError; it never raises otherwise when the modulus is irreducible.", "quantifier": "all elements of all finite fields", "why_tests_cant": "holds for every input; the tests only try a handful of literals", "anchors": ["starks/finitefield.py:Fq.inverse"]}
{"id": "C21", "title": "FiniteField exponentiation", "statement": "x**n equals the n-fold product for n>=0; for every negative n the recursion never terminates normally.", "quantifier": "all elements and exponents", "why_tests_cant": "holds for every input; the tests only try a handful of literals", "anchors": ["starks/finitefield.py:Fq.__pow__"]}
{"id": "C22", "title": "LT compares binary field elements as integers", "statement": "For p=2, a.LT(b) returns 1 exactly when the integer with a's bits is <= the integer with b's bits, and 0 otherwise.", "quantifier": "all pairs of elements of every binary field", "why_tests_cant": "holds for every input; the tests only try a handful of literals", "anchors": ["starks/finitefield.py:Fq.LT"]}
{"id": "C23", "title": "Regular_Binary_Addition", "statement": "For p=2, a.Regular_Binary_Addition(b) is the field element whose bits are those of the integer sum (reduced by the modulus when the sum overflows m bits).", "quantifier": "all pairs of elements", "why_tests_cant": "holds for every input; the tests only try a handful of literals", "anchors": ["starks/finitefield.py:Fq.Regular_Binary_Addition", "starks/finitefield.py:add_binary_nums"]}
{"id": "C24", "title": "two_pow", "statement": "Deviation: two_pow of the element with bits b_i is X^(sum b_i*(i+1)), which equals 2^n (=X^n, n=sum b_i 2^i) only for n<4-style inputs; it is wrong for n=4.", "quantifier": "all elements", "why_tests_cant": "tests of floating point exponentiation only use exponents 0,1,2", "anchors": ["starks/finitefield.py:Fq.two_pow", "starks/finitefield.py:num_to_binary_list_pow"]}
{"id": "C25", "title": "memoize is transparent for positional calls", "statement": "Over any history of calls using positional arguments only, a memoized function returns the value the function returned for these arguments the first time, and calls it at most once per distinct argument tuple.", "quantifier": "all call histories", "why_tests_cant": "a history property; tests make isolated calls", "anchors": ["starks/numbertype.py:memoize"]}
{"id": "C26", "title": "memoize keyword collision", "statement": "Deviation: keyword values are not part of the cache key, so after FiniteField(2,4,polynomialModulus=A) the call FiniteField(2,4,polynomialModulus=B) returns the field built for A, for every A and B.", "quantifier": "all histories with two keyword calls", "why_tests_cant": "needs two calls in one process with different moduli", "anchors": ["starks/numbertype.py:memoize", "starks/finitefield.py:FiniteField"]}
{"id": "C27", "title": "zpoly", "statement": "zpoly(field, roots) is the monic polynomial prod (x-r), so it vanishes exactly on the given roots and has degree len(roots).", "quantifier": "all root lists over every field", "why_tests_cant": "holds for every input; the tests only try a handful of literals", "anchors": ["starks/poly_utils.py:zpoly"]}
{"id": "C28", "title": "multi_inv", "statement": "multi_inv returns, at each position, the inverse of each non-zero field element. Deviation: zero field elements map to 1 rather than 0 (element objects are always truthy).", "quantifier": "all lists", "why_tests_cant": "holds for every input; the tests only try a handful of literals; the test with a zero does not check the output", "anchors": ["starks/poly_utils.py:multi_inv"]}
{"id": "C29", "title": "Lagrange interpolation", "statement": "For pairwise distinct xs and len(xs)=len(ys), lagrange_interp returns the unique polynomial of degree < len(xs) through the points; with mismatching lengths it raises AssertionError.", "quantifier": "all point lists over every field", "why_tests_cant": "holds for every input; the tests only try a handful of literals", "anchors": ["starks/poly_utils.py:lagrange_interp"]}
{"id": "C30", "title": "Specialised interpolation", "statement": "lagrange_interp_2 / lagrange_interp_4 / multi_interp_4 return the same polynomial as lagrange_interp for 2 / 4 / batches of 4 distinct points; with repeated points interp_2/4 raise.", "quantifier": "all point sets over every field", "why_tests_cant": "holds for every input; the tests only try a handful of literals", "anchors": ["starks/poly_utils.py:lagrange_interp_2", "starks/poly_utils.py:lagrange_interp_4", "starks/poly_utils.py:multi_interp_4"]}
{"id": "C31", "title": "Interpolation with repeated points", "statement": "lagrange_interp never raises for lists of equal length. The result is sum_i y_i/w_i prod_{j!=i} (X - x_j) with w_i = prod_{j!=i} (x_i - x_j), replaced by 1 when it vanishes. Its value is y_i at a point that occurs once and 0 at every repeated point. Deviation: the given values are therefore interpolated exactly when every repeated point has the value 0, even if all values given for the same point agree.", "quantifier": "all fields, all points and values", "why_tests_cant": "tests only use distinct points", "anchors": ["starks/poly_utils.py:337-368"]}
{"id": "C32", "title": "Affine spaces", "statement": "Iterating AffineSpace(Z/p, basis, shift) yields exactly the elements shift+sum c_i b_i, p^len(basis) of them (= __len__), without repetition iff the basis is linearly independent.", "quantifier": "all bases and shifts", "why_tests_cant": "holds for every input; the tests only try a handful of literals", "anchors": ["starks/reedsolomon.py:AffineSpace"]}
{"id": "C33", "title": "Affine vanishing polynomial", "statement": "construct_affine_vanishing_polynomial vanishes exactly on the affine space and has degree equal to its number of enumerated elements.", "quantifier": "all affine spaces", "why_tests_cant": "holds for every input; the tests only try a handful of literals", "anchors": ["starks/poly_utils.py:construct_affine_vanishing_polynomial"]}
{"id": "C34", "title": "FFT is multi-point evaluation", "statement": "For a root of unity of order n=m*2^k (m<=4) and deg p<n, NonBinaryFFT.fft(p) = [p(1),p(w),...,p(w^(n-1))].", "quantifier": "all fields, orders, polynomials", "why_tests_cant": "holds for every input; the tests only try a handful of literals", "anchors": ["starks/fft.py:fft_1d", "starks/fft.py:_fft", "starks/fft.py:_simple_ft"]}
{"id": "C35", "title": "Inverse FFT", "statement": "inv_fft(fft(p))=p for deg p<n, and fft(inv_fft(v))=v for every list of n values, when n is invertible.", "quantifier": "all fields, orders, values", "why_tests_cant": "holds for every input; the tests only try a handful of literals", "anchors": ["starks/fft.py:fft_1d", "starks/fft.py:NonBinaryFFT.inv_fft"]}
{"id": "C36", "title": "mul_polys", "statement": "Deviation: mul_polys returns n times the cyclic product of its arguments (n=order of the root), not the product. Operands of at most four coefficients are cut to the first n; an order not of the form m*2^k (m<=4) raises IndexError, root 0 never terminates.", "quantifier": "all inputs", "why_tests_cant": "the test does not check the result", "anchors": ["starks/fft.py:mul_polys"]}
{"id": "C37", "title": "FFT with unsupported sizes", "statement": "Deviation: if the order of the root is odd and >4 (after halving), fft raises IndexError; if p has more coefficients N than the n points the result is not the evaluation vector: for N<=4 it is the evaluation of the first n coefficients, for 5<=N<=8 and n even those values followed by N-n zeros, for every N>4 a list of length N if anything, and IndexError for N>=10 and N>=2n+2; root 0 never terminates.", "quantifier": "all fields, orders and coefficient lists", "why_tests_cant": "tests only use orders 6, 8, 512", "anchors": ["starks/fft.py:_fft"]}
{"id": "C38", "title": "get_power_cycle", "statement": "get_power_cycle(r) returns [1,r,...,r^(k-1)] where k is the multiplicative order of r, all distinct, for every r of finite order; r=0 never terminates.", "quantifier": "all finite-order elements", "why_tests_cant": "holds for every input; the tests only try a handful of literals", "anchors": ["starks/utils.py:get_power_cycle"]}
{"id": "C39", "title": "Pseudorandom indices", "statement": "For every entropy string and hash function get_pseudorandom_indices returns count indices in [0,modulus), none a multiple of exclude_multiples_of (>=2) when given, and the map from samples to indices is a bijection onto the allowed indices.", "quantifier": "all entropy, moduli <2^24, counts, hash functions", "why_tests_cant": "holds for every input; the tests only try a handful of literals", "anchors": ["starks/utils.py:get_pseudorandom_indices"]}
{"id": "C40", "title": "is_a_power_of_2", "statement": "For x>=1 returns True iff x=2^k; for x<0 returns False; for x=0 never terminates.", "quantifier": "all ints", "why_tests_cant": "holds for every input; the tests only try a handful of literals", "anchors": ["starks/utils.py:is_a_power_of_2"]}
{"id": "C41", "title": "Multivariate ring operations", "statement": "Evaluating a+b, a-b, -a, a*b, a**n of multivariate polynomials at any point of any commutative extension ring equals the corresponding operation on the evaluations; results contain no zero coefficient and one entry per monomial; == is polynomial equality.", "quantifier": "all polynomials, points, rings", "why_tests_cant": "holds for every input; the tests only try a handful of literals", "anchors": ["starks/multivariate_polynomial.py:MultivariatePolynomial"]}
{"id": "C42", "title": "Multivariate evaluation", "statement": "p(vals) is the sum of coefficient times product of vals[i]**power, in the ring of vals, and raises AssertionError unless len(vals)=num_vars; X_i generators evaluate to the i-th coordinate.", "quantifier": "all polynomials and values", "why_tests_cant": "holds for every input; the tests only try a handful of literals", "anchors": ["starks/multivariate_polynomial.py:MultivariatePolynomial.__call__", "starks/utils.py:generate_Xi_s"]}
{"id": "C43", "title": "Dirac delta polynomial", "statement": "construct_multivariate_dirac_delta(F, y, n) evaluates to 1 at points agreeing with y on the first len(y) coordinates and to 0 at all other points, over every finite field; its degree is len(y)*(q-1). More than n values raise IndexError.", "quantifier": "all finite fields, n, y, points", "why_tests_cant": "tests use F_3 with n=3 and a few points", "anchors": ["starks/poly_utils.py:construct_multivariate_dirac_delta"]}
{"id": "C44", "title": "Function to polynomial", "statement": "Over Z/p with n=1 construct_multivariate_coefficients(f) evaluates to f at every point, has degree below p and is equal (==) to every polynomial of degree below p with these values; in general the degree is at most m(q-1). Deviation: for n>=2 only the first coordinate is consulted, so functions of several variables are not represented.", "quantifier": "all functions, primes, points", "why_tests_cant": "tests only use a function of the first coordinate", "anchors": ["starks/poly_utils.py:construct_multivariate_coefficients"]}
{"id": "C45", "title": "make_multivar / project_to_univariate", "statement": "make_multivar(p,i) evaluates to p(x_i); project_to_univariate(q,i) evaluated at x_i with coefficients evaluated at the others equals q.", "quantifier": "all polynomials", "why_tests_cant": "holds for every input; the tests only try a handful of literals", "anchors": ["starks/poly_utils.py:make_multivar", "starks/poly_utils.py:project_to_univariate"]}
{"id": "C46", "title": "Computational trace", "statement": "get_computational_trace returns max(1,steps) states starting with inp, each next state obtained by applying the step polynomials; output is the last state.", "quantifier": "all inputs, steps, step polynomials", "why_tests_cant": "holds for every input; the tests only try a handful of literals", "anchors": ["starks/air.py:get_computational_trace"]}
{"id": "C47", "title": "Monotone circuit accepts exactly valid traces", "statement": "generate_monotone_circuit returns True iff every consecutive pair of states satisfies next=step(current); it is True for every trace produced by get_computational_trace.", "quantifier": "all traces and step polynomials", "why_tests_cant": "holds for every input; the tests only try a handful of literals", "anchors": ["starks/air.py:AIR.generate_monotone_circuit", "starks/air.py:AIR.generate_constraint_polynomials"]}
{"id": "C48", "title": "AIR witness, boundary and admissible sizes", "statement": "generate_witness is the transpose of the trace; boundary constraints pin step 0 of each register to the input. Deviation: the constructor rejects every steps other than 511.", "quantifier": "all AIR instances", "why_tests_cant": "holds for every input; the tests only try a handful of literals", "anchors": ["starks/air.py:AIR"]}
{"id": "C49", "title": "STARK trace polynomials", "statement": "construct_trace_polynomials yields for each register a polynomial of degree < steps with P(G1^i)=witness[i].", "quantifier": "all witnesses", "why_tests_cant": "STARK tests are commented out", "anchors": ["starks/stark.py:construct_trace_polynomials"]}
{"id": "C50", "title": "STARK constraint quotient exists iff the trace is valid", "statement": "construct_remainder_polynomials returns (no assertion) exactly when every transition of the trace is valid, and then C = Z*D. Deviation: a step polynomial without terms and a zero register give TypeError.", "quantifier": "all witnesses, step polynomials", "why_tests_cant": "completeness and soundness over all witnesses", "anchors": ["starks/stark.py:construct_constraint_polynomials", "starks/stark.py:construct_remainder_polynomials"]}
{"id": "C51", "title": "STARK boundary quotient", "statement": "construct_boundary_polynomials returns B with B*Z2+I=P whenever the trace matches the boundary. Deviation: it raises IndexError whenever the output register value is 0; a wrong boundary value is not noticed by the prover but fails every check of the verifier.", "quantifier": "all witnesses", "why_tests_cant": "STARK tests are commented out", "anchors": ["starks/stark.py:construct_boundary_polynomials", "starks/poly_utils.py:lagrange_interp_2"]}
{"id": "C52", "title": "Spot checks of an honest proof pass", "statement": "For an honest witness the arithmetic checks of verify_proof_at_position hold at every point except the last of the trace, and the whole proof (without FRI) is produced and accepted for every hash function.", "quantifier": "all honest witnesses, positions", "why_tests_cant": "STARK tests are commented out", "anchors": ["starks/stark.py:STARK.verify_proof_at_position"]}
{"id": "C53", "title": "permute4 / get_index_in_permuted", "statement": "When 4 divides len, permute4 is a permutation and get_index_in_permuted(x,len) is the position of element x. Deviation: otherwise trailing elements are silently dropped (all of them for len<4).", "quantifier": "all lists and indices", "why_tests_cant": "holds for every input; the tests only try a handful of literals", "anchors": ["starks/merkle_tree.py:permute4", "starks/merkle_tree.py:get_index_in_permuted"]}
{"id": "C54", "title": "Merkle completeness", "statement": "For every hash function, every list of 2^k>=4 leaves and every index, verify_branch(root,i,mk_branch(tree,i)) succeeds and returns leaf i.", "quantifier": "all lists, indices, hash functions", "why_tests_cant": "tests check index 59 of one tree", "anchors": ["starks/merkle_tree.py:merkelize", "starks/merkle_tree.py:mk_branch", "starks/merkle_tree.py:verify_branch"]}
{"id": "C55", "title": "Merkle binding", "statement": "Two accepting proofs for the same root and index with equal element lengths open to the same leaf, or exhibit two different byte strings with the same hash.", "quantifier": "all proofs, adversarial", "why_tests_cant": "adversarial proofs cannot be enumerated", "anchors": ["starks/merkle_tree.py:verify_branch"]}
{"id": "C56", "title": "Merkle proofs are malleable", "statement": "Deviation: verify_branch checks no lengths, so moving a byte from the sibling to the leaf gives an accepted proof of a leaf that was never committed, for every hash function.", "quantifier": "all trees", "why_tests_cant": "adversarial", "anchors": ["starks/merkle_tree.py:verify_branch"]}
{"id": "C57", "title": "Merkle leaf packing", "statement": "unpack_merkle_leaf inverts the packing of merkelize_polynomial_evaluations for every dims and num_polys.", "quantifier": "all values", "why_tests_cant": "holds for every input; the tests only try a handful of literals", "anchors": ["starks/merkle_tree.py:unpack_merkle_leaf", "starks/merkle_tree.py:merkelize_polynomial_evaluations"]}
{"id": "C58", "title": "compress_branches round trip", "statement": "For branches whose elements are not 2 bytes long and not the delimiter, with fewer than 2^16 objects, compress_branches succeeds and decompress_branches returns the branches.", "quantifier": "all branch lists", "why_tests_cant": "holds for every input; the tests only try a handful of literals", "anchors": ["starks/compression.py:compress_branches", "starks/compression.py:decompress_branches"]}
{"id": "C59", "title": "compress_fri round trip", "statement": "For FRI proofs whose objects are not 2 bytes long and not a delimiter, with fewer than 2^16 objects, compress_fri succeeds and decompress_fri returns the proof.", "quantifier": "all FRI proofs", "why_tests_cant": "holds for every input; the tests only try a handful of literals", "anchors": ["starks/compression.py:compress_fri", "starks/compression.py:decompress_fri"]}
{"id": "C60", "title": "Blockchain: mined chains are valid", "statement": "Over every history of transactions and mining calls, for every hash function, valid_chain accepts the chain, block indices are 1..n and each block records the hash of its predecessor.", "quantifier": "all histories and hash functions", "why_tests_cant": "history property", "anchors": ["misc/blockchain.py:Blockchain"]}
{"id": "C61", "title": "Blockchain: transaction conservation", "statement": "Over every such history each submitted transaction appears exactly once, in order, in the block whose index new_transaction returned, or is still pending.", "quantifier": "all histories", "why_tests_cant": "history property", "anchors": ["misc/blockchain.py:Blockchain.new_transaction", "misc/blockchain.py:Blockchain.new_block"]}
{"id": "C62", "title": "Blockchain: conflict resolution", "statement": "resolve_conflicts replaces the chain only by a valid chain whose advertised length exceeds ours. Deviation: the advertised length is trusted, so a strictly shorter chain can replace ours.", "quantifier": "all neighbour responses", "why_tests_cant": "adversarial peers", "anchors": ["misc/blockchain.py:Blockchain.resolve_conflicts"]}
{"id": "C63", "title": "Bit and integer commitments are correct", "statement": "decode(reveal, commit(b))=b and verify accepts, for bits and for all integers 0<=x<2^numBits. Deviation: larger integers are silently truncated to their top bits.", "quantifier": "all secrets, values, one-way functions", "why_tests_cant": "holds for every input; the tests only try a handful of literals", "anchors": ["misc/commitment.py"]}
{"id": "C64", "title": "Commitment binding", "statement": "verify(secret, c) accepts iff f(secret)=c[0]; opening to two different bits needs two preimages of f. Deviation: the integer verifier accepts an empty opening of any commitment, and with the project's Blum-Blum-Shub function s and M-s open the same commitment to different bits whenever their parities differ.", "quantifier": "all openings", "why_tests_cant": "adversarial", "anchors": ["misc/commitment.py"]}
{"id": "C65", "title": "Graph isomorphism protocol completeness", "statement": "run_protocol accepts for every graph, permutation, random choice when G2 is the image of G1 and both have the same largest vertex (in particular without isolated vertices). Deviation: with isolated vertices honest runs can raise AssertionError.", "quantifier": "all graphs, permutations, choices", "why_tests_cant": "random choices", "anchors": ["misc/zero_knowledge.py"]}
{"id": "C66", "title": "Graph isomorphism protocol soundness", "statement": "Deviation: the verifier never checks that the revealed map is a bijection; for all graphs with equally many edges a cheating prover answers both challenges. If both answers are injective on the vertices of H the graphs are isomorphic.", "quantifier": "all graph pairs", "why_tests_cant": "adversarial", "anchors": ["misc/zero_knowledge.py:ZKVerifier.accepts"]}
{"id": "C67", "title": "Primality test has no false negatives", "statement": "probablyPrime returns True for every prime whatever random bases are drawn; False is always right; for odd numbers it computes the Miller-Rabin criterion; proper divisors are witnesses; decompose is the exact splitting into 2^s*r.", "quantifier": "all primes, all random draws", "why_tests_cant": "random draws, all primes", "anchors": ["misc/primality.py"]}
{"id": "C68", "title": "3-colouring protocol", "statement": "Completeness for every proper 3-colouring and every random choice. Deviation: colours are not range checked so 4-colourings are accepted on every edge, and partial openings let a cheating prover be accepted on every edge of every graph.", "quantifier": "all graphs, colourings, random choices", "why_tests_cant": "random, adversarial", "anchors": ["misc/zkp_3_coloring.py"]}
{"id": "C69", "title": "Floating point equality", "statement": "Deviation: Fp.__eq__ holds for any two numbers with equal z flag, regardless of significand, exponent and sign; over binary fields equal values therefore have different sums.", "quantifier": "all values", "why_tests_cant": "makes every equality assertion in the tests vacuous", "anchors": ["starks/floatingpoint.py:Fp.__eq__"]}
{"id": "C70", "title": "Floating point subtraction mutates its argument", "statement": "Deviation: a-b flips b's sign in place, so evaluating a-b twice gives b's sign back and results depend on history.", "quantifier": "all values", "why_tests_cant": "needs two operations on one object", "anchors": ["starks/floatingpoint.py:Fp.__sub__"]}
{"id": "C71", "title": "Merkle verification takes the depth from the proof", "statement": "Deviation: verify_branch has no notion of tree depth, so from every accepted proof one gets an accepted, one element shorter proof whose leaf is an inner node.", "quantifier": "all trees, proofs, hash functions", "why_tests_cant": "adversarial", "anchors": ["starks/merkle_tree.py:verify_branch"]}
{"id": "C72", "title": "Merkle indices are not range checked", "statement": "Deviation: every integer is an index. In a tree of 4q leaves the integer aq+r with 0 <= r < q stands for the index (a mod 4)q + (r + a // 4) mod q to verify_branch, for every proof; index i+4q in particular mostly for i+1. Honest branches of different leaves are accepted at no other integers unless the hash has a collision. mk_branch outside the range returns branches of other leaves, of inner nodes, or a single node; where it raises IndexError is given exactly.", "quantifier": "all proofs and indices", "why_tests_cant": "out-of-range indices are never tried", "anchors": ["starks/merkle_tree.py:verify_branch", "starks/merkle_tree.py:mk_branch", "starks/merkle_tree.py:get_index_in_permuted"]}
{"id": "C73", "title": "Merkle trees of non-power-of-two size", "statement": "Deviation: for every number of leaves that is a multiple of four (accepted by merkelize) but not a power of two, and all distinct leaves of one size, the honest branch of some leaf is rejected unless the hash collides; with 12 leaves it is leaf 6, unless it coincides with leaf 9.", "quantifier": "all numbers of leaves, all leaves, hash functions", "why_tests_cant": "tests use powers of two", "anchors": ["starks/merkle_tree.py:merkelize", "starks/merkle_tree.py:mk_branch", "starks/merkle_tree.py:verify_branch"]}
{"id": "C74", "title": "The modulus is prime", "statement": "2**256 - 2**32*351 + 1, the modulus of mimc and of the STARK tests, is prime, so IntegersModP of it is a field.", "quantifier": "one number", "why_tests_cant": "needs a primality certificate", "anchors": ["starks/utils.py:mimc"]}
{"id": "C75", "title": "MiMC is a permutation", "statement": "For every step count and every non-empty list of round constants mimc is a bijection of [0,p); steps<=1 returns the input; an empty constant list raises ZeroDivisionError.", "quantifier": "all inputs, step counts, constants", "why_tests_cant": "2^256 inputs", "anchors": ["starks/utils.py:mimc"]}
{"id": "C76", "title": "FiniteField modulus check", "statement": "FiniteField(p,m,g) with m!=1 accepts exactly the irreducible g of degree >=1 (ValueError otherwise). Deviation: the degree of g is not compared with m, so field_size is the number of elements only if deg g = m; a non-zero constant g is accepted and collapses every element to 0.", "quantifier": "all primes p, m, moduli", "why_tests_cant": "tests only use matching degrees", "anchors": ["starks/finitefield.py:FiniteField"]}
{"id": "C77", "title": "RationalsModP byte round trip", "statement": "For p <= 2^256 every RationalModP element in lowest terms serialises to 64 bytes and the bytes constructor restores it.", "quantifier": "all primes and elements", "why_tests_cant": "2^512 elements", "anchors": ["starks/rationals_modp.py:RationalModP.to_bytes", "starks/rationals_modp.py:RationalModP.__init__"]}
{"id": "C78", "title": "Floating point addition", "statement": "Over a binary field Fp addition never raises; with equal exponents it adds significands and picks the sign of the operand with the larger significand; significand, exponent and zero flag ignore the signs. In general, with D the field difference of the exponents: if the integer of D exceeds m the sum is the operand with the larger exponent, otherwise its significand is the larger one's times X^s plus the other's, with the smaller exponent, s the sum of i+1 over the coefficients 1 of D; the sign is that of the operand with the larger exponent. The value v*X^p is additive when s is the difference of the integer exponents. Deviation: in other cases it need not be (field subtraction of exponents, wrong two_pow).", "quantifier": "all binary fields, all Fp values", "why_tests_cant": "needs all fields and values", "anchors": ["starks/floatingpoint.py:Fp.__add__", "starks/floatingpoint.py:Fp.__sub__"]}
{"id": "C79", "title": "Floating point multiplication", "statement": "Fp multiplication multiplies significands, xors signs, ors zero flags and adds exponents plus a normalisation constant. Deviation: the constant uses the degree of the left significand twice, so x*y equals y*x exactly if both degrees give the same constant.", "quantifier": "all fields and values", "why_tests_cant": "existing tests multiply one pair", "anchors": ["starks/floatingpoint.py:Fp.__mul__"]}
{"id": "C80", "title": "Floating point exponentiation terminates", "statement": "x**y performs exactly n multiplications, n the integer with the bits of y.Float_to_Fix(), then inverts when y is negative; the counter loop terminates for every input. The significand is the n-th power and the exponent n*p plus one correction for each multiplication, computed from the degree of the power so far; a base flagged zero gives 1 for n = 0 and a flagged result otherwise.", "quantifier": "all binary fields and values", "why_tests_cant": "unbounded loop", "anchors": ["starks/floatingpoint.py:Fp.__pow__", "starks/floatingpoint.py:Fp.Float_to_Fix"]}
{"id": "C81", "title": "Floating point division", "statement": "Division raises ZeroDivisionError exactly when the divisor is flagged zero or has a zero significand; otherwise quotient significand times divisor significand is the dividend significand, and the exponent is the difference of the exponents plus the binary digits of deg(v) + deg(inverse of the divisor) - (m-1).", "quantifier": "all fields and values", "why_tests_cant": "needs all values", "anchors": ["starks/floatingpoint.py:Fp.__truediv__"]}
{"id": "C82", "title": "Blockchain: what proofs and chains do not bind", "statement": "Deviation: valid_proof depends only on the concatenation of the decimal proofs, so distinct pairs of proofs are interchangeable for every hash; valid_chain leaves index, timestamp and transactions of the last block unconstrained.", "quantifier": "all hash functions, encodings, chains", "why_tests_cant": "adversarial", "anchors": ["misc/blockchain.py:Blockchain.valid_proof", "misc/blockchain.py:Blockchain.valid_chain"]}
{"id": "C83", "title": "Graph isomorphism simulator", "statement": "A simulated transcript contains a map from the chosen graph to H. Deviation: the verifier expects the inverse direction, so a simulated transcript is accepted exactly when the permutation undoes itself on every vertex that lies on an edge of the chosen graph, and is rejected otherwise; returning the inverse would be accepted for every graph and permutation.", "quantifier": "all graphs, choices, permutations", "why_tests_cant": "random choices", "anchors": ["misc/zero_knowledge.py:simulate_protocol"]}
{"id": "C84", "title": "Blum-Blum-Shub", "statement": "For primes p,q = 3 mod 4 squaring modulo pq permutes the quadratic residues; on all integers x and M-x collide; the modulus is a product of two numbers = 3 mod 4 that passed the primality test; parity is the number of one bits modulo 2 and raises ValueError on negative numbers.", "quantifier": "all such primes, all integers", "why_tests_cant": "needs all moduli", "anchors": ["misc/blum_blum_shub.py"]}
{"id": "C85", "title": "Primality test error bound", "statement": "For every odd composite n > 3 at most half of the bases 2..n-2 fool the test and at most a 2^-k fraction of the k-tuples of bases.", "quantifier": "all odd composites, all k", "why_tests_cant": "probabilistic statement over all inputs", "anchors": ["misc/primality.py:probablyPrime"]}
{"id": "C86", "title": "STARK pseudorandom linear combination", "statement": "compute_pseudorandom_linear_combination returns sum_j (1+k_j*c)(D_j+(k1+k2*c)P_j+(k3+k4*c)B_j) with c=G2^(steps*(precision-1)) for 1..9 registers, and raises TypeError for 10 or more. On a domain of one point it raises UnboundLocalError.", "quantifier": "all polynomials, hash functions", "why_tests_cant": "STARK tests are commented out", "anchors": ["starks/stark.py:compute_pseudorandom_linear_combination", "starks/stark.py:get_pseudorandom_ks"]}
{"id": "C87", "title": "STARK degree adjustment is absent", "statement": "Deviation: the combination announced by the comments contains P*x^steps and B*x^steps; what the code returns has no such terms: its degree is at most that of P, B and D.", "quantifier": "all polynomials", "why_tests_cant": "needs the result as a polynomial identity", "anchors": ["starks/stark.py:compute_pseudorandom_linear_combination_1d"]}
{"id": "C88", "title": "STARK verifier is unsound", "statement": "Deviation: the verifier does not compare the second Merkle tree with the first, so for any register columns, any second tree and any witness (valid or not) there is a proof whose spot checks are all accepted.", "quantifier": "all witnesses, columns, hash functions", "why_tests_cant": "adversarial proofs cannot be enumerated", "anchors": ["starks/stark.py:STARK.verify_proof", "starks/stark.py:STARK.verify_proof_at_position"]}
{"id": "C89", "title": "STARK number of spot checks", "statement": "Deviation: the prover always opens 80 positions, so with spot_check_security_factor > 80 verification of an honest proof raises IndexError; with extension factor 1 the prover raises ZeroDivisionError. Over Z/2 the constructor raises NameError, for zero steps ZeroDivisionError; without registers the prover raises.", "quantifier": "all honest witnesses", "why_tests_cant": "STARK tests are commented out", "anchors": ["starks/stark.py:STARK.compute_merkle_spot_checks", "starks/stark.py:STARK.verify_proof"]}
{"id": "C90", "title": "Arithmetic between operands of different types", "statement": "An int and an element of Z/p combine (+,-,*,==) in either order as residues; an element and a polynomial over the same field combine in either order as with the constant polynomial; objects int() rejects raise TypeError, == included. Deviations: elements of different fields are not rejected but reinterpreted in the field of the left operand, so + is not commutative and == not symmetric; a polynomial and an element of another field raise TypeError; element / int raises AttributeError while int / element works.", "quantifier": "all primes, elements, ints, polynomials", "why_tests_cant": "infinitely many operand pairs; tests use one modulus", "anchors": ["starks/numbertype.py:typecheck", "starks/numbertype.py:DomainElement", "starks/numbertype.py:FieldElement", "starks/modp.py:IntegersModP", "starks/polynomial.py:polynomials_over"]}
{"id": "C91", "title": "Taylor expansion over binary fields", "statement": "int_to_bin_string(i) is the binary representation of i. Taylor_Expansion(f,n) returns f for n<=2; for n=3,4 it returns the unique g0,g1 of degree <=1 with f = g0+(x^2+x)*g1 (first four coefficients). Deviation: for every n>4 it raises TypeError, because it recurses with the float n/2.", "quantifier": "all fields of characteristic 2, polynomials, n", "why_tests_cant": "tests use n=3 only", "anchors": ["starks/fft.py:int_to_bin_string", "starks/fft.py:Additive_FFT.Taylor_Expansion"]}
{"id": "C92", "title": "Additive FFT and its inverse", "statement": "adfft(f,1,beta) starts with f(beta_1); the result for m=2 is given in closed form. Deviations: the value at 0 and all odd positions are 0 whatever f is, so the constant 1 is not evaluated correctly on any basis; m>=3 always raises TypeError; adfft_inverse on two different points always raises UnboundLocalError, and for m>=2 its result does not depend on the values to be interpolated.", "quantifier": "all fields of characteristic 2, polynomials, bases, points, values, m", "why_tests_cant": "the tests assert nothing about the results", "anchors": ["starks/fft.py:Additive_FFT.adfft", "starks/fft.py:Additive_FFT.adfft_inverse"]}
{"id": "C93", "title": "APR boundary polynomials ignore the register", "statement": "For every list of boundary constraints construct_Z_boundaries returns width copies of the product of X - point(i) over all constraints, and construct_Eps_boundaries returns width copies of the polynomial interpolating all constraints when the times are distinct. The per-register versions are refuted: Z_0 vanishes where only register 1 is constrained, and on the constraints of an AIR with two or more registers (all of time 0) the interpolant is (sum of inputs)*(X - point(0))^(w-1), which is 0 at point(0) instead of the input.", "quantifier": "forall fields, points gz, widths, boundary constraint lists and inputs", "why_tests_cant": "tests only build one AIR and never compare the boundary polynomials with the constraints", "anchors": ["starks/apr.py:202-239"]}
{"id": "C94", "title": "APR witness is zero for every computation", "statement": "For every AIR object that the AIR constructor accepts, the modelled part of the APR constructor succeeds; the witness is the zero polynomial for every register (so it does not depend on the trace), the rates are (2^(k+8) - w)/(p^m)^(k+16+log2 deg) and (1 + 2^(k+9+log2 deg))/(p^m)^(k+15+log2 deg), and there are 3w neighbours. A trace shorter than 2^t raises IndexError.", "quantifier": "forall fields, points, widths, inputs, step polynomials, k, p, m, zeta, g", "why_tests_cant": "a test would have to compare witnesses of different computations; the drawing of the interpolant is a stub", "anchors": ["starks/apr.py:46-100", "starks/apr.py:144-162", "starks/apr.py:254-276", "starks/poly_utils.py:57-60"]}
{"id": "C95", "title": "APR spaces, lengths and neighbours", "statement": "H consists exactly of the polynomials of degree below t, each once; H0 and H1 of those of degree below t-1 and the monic ones of degree t-1; over Z/2 H is their disjoint union. Every element of L has degree at least N = 1+k+5+t+d, so L and H are disjoint; L has p^(N+1) different elements; Lcmp is the part of L of degree exactly N. The length used for the rates equals the number of elements iff m = 1. The neighbours of each register are X, zeta + gX and gX in this order.", "quantifier": "forall primes p, k, t, d, m, polynomials, registers, zeta, g", "why_tests_cant": "the spaces have up to p^25 elements and cannot be enumerated by a test", "anchors": ["starks/apr.py:83-87", "starks/apr.py:132-162", "starks/apr.py:241-252", "starks/reedsolomon.py:18-46"]}
{"id": "C96", "title": "Tilde expansion is not the documented polynomial", "statement": "Refutation of the docstring of tilde_expansion: for one register, the boundary polynomials of the constraint (0,0,2) and the identity neighbour over Z/7 the component is, for none of the four variables X_v, equal to X_v * Z(N(X_loc)) + E(N(X_loc)) as a function; it is x0^2 x2 - x0 + 2.", "quantifier": "one concrete input, all variables and a distinguishing evaluation point for each", "why_tests_cant": "no test evaluates the expansion", "anchors": ["starks/apr.py:102-130"]}
{"id": "C97", "title": "StrToMulti reads sums of terms with distinct monomials", "statement": "For every sum of terms c*X_i**e*... (variables among X_1..X_s, each at most once per term, distinct monomials) whose last term ends in a variable to the power 1, StrToMulti(text, s) is the polynomial that the text denotes. If the last term is a constant or ends in an exponent (and some variable occurs) it raises IndexError. Constant texts give the constant. Refuted: repeated monomials are not added. A variable X_i with i > s >= 9 raises IndexError.", "quantifier": "forall fields, s, terms, coefficients, exponents, evaluation points in every commutative algebra", "why_tests_cant": "unbounded family of texts; the repository has no test of the parser on sums ending in a constant", "anchors": ["starks/multivariate_polynomial.py:206-274"]}
{"id": "C98", "title": "StrToMulti ignores signs", "statement": "The character between two terms is not looked at: for every list of separators other than the underscore the result is the same as with plus signs. Hence 'X_1 - X_2' is not parsed as the difference in any field where 2 is not 0.", "quantifier": "forall fields, terms, separator characters", "why_tests_cant": "needs all separators and all fields", "anchors": ["starks/multivariate_polynomial.py:206-274"]}
{"id": "C99", "title": "repr, StrToMulti and size_p", "statement": "For coefficients that print as numbers, StrToMulti(str(p), s) raises ValueError for every non-constant polynomial p and returns the constant for constants; size_p is 0 for constants and min(number of variables, 9) otherwise.", "quantifier": "forall fields, printing functions, numbers of variables, well-formed polynomials", "why_tests_cant": "round trip over all polynomials", "anchors": ["starks/multivariate_polynomial.py:98-109", "starks/multivariate_polynomial.py:196-274"]}
{"id": "C100", "title": "Division through sympy", "statement": "For at most 9 variables and operands that are not both constant, a / b is the polynomial denoted by the quotient text that sympy prints, for every sum-of-terms text; division() of a non-constant a by a multivariate b is the same operation; div_remainder satisfies a = y*z + r. Refuted: b * (a / b) = a for an exact division over Z/3, because sympy prints a minus sign.", "quantifier": "forall fields, polynomials, sympy results of the stated form", "why_tests_cant": "sympy output is an arbitrary input of the proof", "anchors": ["starks/multivariate_polynomial.py:170-194", "starks/multivariate_polynomial.py:276-298"]}
{"id": "C101", "title": "CheckforDiv and PolytoMulti", "statement": "CheckforDiv removes exactly the suffixes ' \u2208 F_{...}' of the coefficients; PolytoMulti of a univariate polynomial whose coefficients print as numbers succeeds exactly for constants, every other one raises ValueError.", "quantifier": "forall texts made of chunks without F and }, all coefficient lists", "why_tests_cant": "all texts and all polynomials", "anchors": ["starks/multivariate_polynomial.py:300-326", "starks/polynomial.py:63-70"]}
{"id": "C102", "title": "random_permutation is a uniform shuffle", "statement": "For every n and all values drawn by random.shuffle (draw j in 0..j for j = n-1..1) random_permutation(n) is a permutation of 0..n-1, and every permutation is the result of exactly one sequence of draws, so independent uniform draws give a uniform permutation.", "quantifier": "all n, all draws", "why_tests_cant": "n! permutations; randomness", "anchors": ["misc/zero_knowledge.py:8-12"]}
{"id": "C103", "title": "convince_beyond_doubt: number of rounds and outcome", "statement": "For every positive tolerance the loop runs the protocol exactly K times, K the least number with 2^-K <= tolerance, and stops at the first round that is rejected (AssertionError) or raises. An honest prover convinces for all draws, after 67 rounds with the default tolerance. A prover whose map is not an isomorphism convinces iff every one of the K challenges asks for G1, i.e. for exactly one of the 2^K sequences of challenges. With tolerance 0 there are 1075 rounds (underflow of the float), with a negative tolerance the loop never ends.", "quantifier": "all graphs, maps, tolerances (multiples of 2^-1074), sequences of draws", "why_tests_cant": "random draws, unbounded loop", "anchors": ["misc/zero_knowledge.py:140-160"]}
{"id": "C104", "title": "Transcripts and their simulation", "statement": "For an honest prover messages_from_protocol returns the permuted graph, the challenge and a map that the verifier accepts. The simulated transcript differs from it: for every challenge the draws of the protocol and those of the simulator correspond so that graph and challenge agree, and the map of the simulator is the inverse of the one the prover sends.", "quantifier": "all graphs, isomorphisms, challenges, draws", "why_tests_cant": "random draws; equality of distributions", "anchors": ["misc/zero_knowledge.py:163-185"]}
{"id": "C105", "title": "FRI challenges: HextoBin and select_random", "statement": "HextoBin writes the binary digits of the digest, most significant first, without leading zeros. select_random over the extension field with modulus g is (sum of bit_i X^i) mod g with the most significant bit as constant coefficient; digests N and 2N give the same element. Over a prime field it raises TypeError.", "quantifier": "all hash functions, inputs, primes, irreducible moduli", "why_tests_cant": "2^384 digests", "anchors": ["starks/fri.py:23-38"]}
{"id": "C106", "title": "FRI subspaces, vanishing polynomials and the next domain", "statement": "select_subspace returns the span of the first eta basis vectors without the shift; it is contained in the space iff the shift lies in the span. The vanishing polynomial of a space is monic of degree p^dim and zero exactly on the space; without shift it is additive and Z/p-homogeneous. eval_on_subspace lists the image space p^min(eta,dim) times over, and the image space has distinct elements if the original has.", "quantifier": "all fields of characteristic p, bases, shifts, eta", "why_tests_cant": "all spaces and all evaluation points", "anchors": ["starks/fri.py:40-53", "starks/poly_utils.py:62-70", "starks/reedsolomon.py:18-46"]}
{"id": "C107", "title": "FRI commit", "statement": "A rate that is not positive raises ValueError, a space of 2^63 or more elements OverflowError. Without rounds commit returns None. With one round and an integer rate it returns the coefficients of the polynomial interpolating the codeword on the whole space (the codeword itself if it is a polynomial of degree below |L|), for every random value. Deviations: a fractional rate raises TypeError, two or more rounds raise AttributeError.", "quantifier": "all fields, spaces, rates, codewords, random values, numbers of rounds", "why_tests_cant": "the test only prints", "anchors": ["starks/fri.py:55-101"]}
{"id": "C108", "title": "FRI query accepts what it should reject", "statement": "Deviation: without rounds every proof is accepted; with one round the verdict does not depend on the proof and is true exactly when both consistency checks f1(q(v)) = P_v(x0) fail, so an honest folded function is always rejected. For the codeword alone the appended function is 0 (the interpolation points are repeated) and the verdict is P_v(x0) != 0. The number 0 drawn by randint raises IndexError; two or more rounds raise AttributeError; the proof None raises TypeError.", "quantifier": "all fields, spaces, codewords, proofs, random values and draws", "why_tests_cant": "adversarial proofs; the test does not look at the verdict", "anchors": ["starks/fri.py:103-167"]}
{"id": "C109", "title": "gauss solves systems of constants", "statement": "For a matrix of constant polynomials over any field and any polynomial right hand side gauss returns the only solution of the linear system in polynomials, or raises ZeroDivisionError and the homogeneous system has a nonzero solution. For a triangular matrix of polynomials without zeros on the diagonal it always returns, each unknown being the quotient of its equation by the diagonal entry, and returns the solution in polynomials whenever there is one. Deviation: for polynomial entries the divisions drop remainders, so a system that has a polynomial solution can get a wrong answer ([[x,1|x^2+1],[1,x|0]] over Z/2 has the solution (x,1), the call returns (x,0)).", "quantifier": "all fields, sizes, constant matrices", "why_tests_cant": "one 3x3 system is tested", "anchors": ["starks/poly_utils.py:99-154"]}
{"id": "C110", "title": "The Moore construction does not give vanishing polynomials", "statement": "construct_affine_vanishing_polynomial_Moore returns at most as many coefficients as there are basis elements, so a nonzero result does not vanish on that many points. For one nonzero basis element it returns the constant polynomial with that value, for none the zero polynomial. For two basis elements over Z/2 it never returns: ZeroDivisionError if one is zero or they are equal, otherwise AssertionError (the check reads the matrix that gauss has changed).", "quantifier": "all fields, bases, conversions to the field", "why_tests_cant": "the test only constructs one case", "anchors": ["starks/poly_utils.py:72-97"]}
{"id": "C111", "title": "Registering nodes", "statement": "register_node adds exactly the network location of the address, or its path if there is none, keeps the set free of duplicates and raises exactly if both are empty or urlparse raises. Over any history of requests there is no empty name and every name comes from a request. Deviations: a request that fails at one address leaves the earlier ones registered; an address sent as a string instead of an array is registered character by character. A number or boolean there raises TypeError, an object registers its keys.", "quantifier": "all urlparse functions, JSON bodies, histories", "why_tests_cant": "adversarial bodies; all histories", "anchors": ["misc/blockchain.py:21-35", "misc/run_blockchain.py:65-80"]}
{"id": "C112", "title": "Networks: conflict resolution equalises lengths but not chains", "statement": "In a network of these servers, for every history of requests and every iteration order of the sets of neighbours, all chains are valid and never get shorter. Conflict resolution fails iff some registered name cannot be reached, otherwise it leaves a chain at least as long as those of all neighbours, and its own unless one was longer. One round on a completely registered network makes all chains as long as the longest. Deviations: a single unreachable registered name blocks conflict resolution; chains of equal length are never changed without mining, so two servers started at different times keep disagreeing.", "quantifier": "all networks, hash functions, encodings, histories, iteration orders", "why_tests_cant": "all histories of several servers", "anchors": ["misc/blockchain.py:68-100", "misc/run_blockchain.py:56-98"]}
{"id": "C113", "title": "The APR constraint polynomials are zero", "statement": "construct_Phi_polynomials returns two constraints for each polynomial of the computation. Deviation: the second is always the zero polynomial, because 1/Z_H0 is a polynomial division with quotient 0, and so is the first whenever sympy divides X_loc(X_loc-1) by Z_H0 with quotient 0 (it always does: no monomial contains the variable of Z_H0); then every constraint holds at every point, for every computation. The call returns if each register has boundary polynomials and elements print as numbers, and raises IndexError if one is missing. The documented formulas are refuted.", "quantifier": "all fields, computations, boundary polynomials, spaces H0, zeta, g, printing functions, sympy answers", "why_tests_cant": "needs all evaluation points; the test only constructs the object", "anchors": ["starks/apr.py:165-200"]}
{"id": "C114", "title": "The ALI prover never produces anything", "statement": "Deviation: generate_random_constraint raises NameError for every non-empty list of constraints (so exactly when the computation has a polynomial) and returns 0 for the empty one; generate_proof always raises AttributeError.", "quantifier": "all constraint lists, random coefficients, witnesses", "why_tests_cant": "the code has no test", "anchors": ["starks/ali.py:14-37"]}
{"id": "C115", "title": "Commitment objects reuse their secret", "statement": "Over any sequence of method calls without generateSecret a bit commitment object uses one secret: all commitments share the first component and the revealed secret opens each of them to its bit. Hence two commitments of one object, not opened, reveal whether the bits agree; two commitments of an int scheme reveal the exclusive or of the integers. Deviations: the comment 'used only once per commitment' is false; generateSecret of a bit scheme makes earlier commitments unopenable unless the one-way function collides, that of an int scheme never draws a new secret; refreshing a member scheme makes the int scheme reveal a stale secret that is rejected unless the one-way function collides. Member schemes are indexed as a list, from the end by negative numbers, IndexError beyond; the base class always raises TypeError.", "quantifier": "all one-way functions, hardcore predicates, draws, histories of calls", "why_tests_cant": "random secrets; all histories", "anchors": ["misc/commitment.py:4-42", "misc/commitment.py:65-90"]}
{"id": "C116", "title": "The colouring prover answers any number of queries", "statement": "After one commitment the prover object answers every sequence of edge queries, and the answers decode to the colours under one fixed permutation; so two queries can reveal that vertices that are not adjacent have the same colour. A query before the first commitment raises TypeError, a pair that is not an edge always raises Exception.", "quantifier": "all graphs, colourings, secrets, permutations, query sequences", "why_tests_cant": "random permutations; all histories", "anchors": ["misc/zkp_3_coloring.py:12-56"]}
{"id": "C117", "title": "Merkle trees over extension fields", "statement": "Deviation: merkelize raises TypeError as soon as an element of FiniteField(p,m) or a polynomial is among the first 4*(len//4) leaves, the zero element included, so a list of four or more such elements has no tree (a shorter one has the empty tree). Without such leaves the tree is that of the int, bytes and residue leaves. merkelize_polynomial_evaluations of extension field values raises TypeError unless there is no row or an empty row; byte strings there raise AttributeError, ints TypeError.", "quantifier": "all hash functions, leaf lists, evaluation tables", "why_tests_cant": "no test uses an extension field", "anchors": ["starks/merkle_tree.py:36-56", "starks/merkle_tree.py:94-119", "starks/finitefield.py:149-150", "starks/polynomial.py:166-167"]}
{"id": "C118", "title": "FiniteField and IntegersModP over call histories", "statement": "In every history of calls: FiniteField(p,m) generates a modulus once and returns that class ever after; the first FiniteField(p,m,polynomialModulus=g) returns the class with modulus g, or ValueError if g is reducible. Deviations: the cache key has only the names of keywords, so after one successful call every later FiniteField(p,m,polynomialModulus=h) returns the class with the first modulus, whatever h is (reducible, of another degree, None), and FiniteField(p=..,m=..), IntegersModP(p=..) ignore their arguments after the first call; a modulus passed by position always raises TypeError, because polynomials are unhashable. Calls with missing, surplus or unknown arguments raise TypeError unless the cache already has an answer for their key.", "quantifier": "all call histories, arguments, irreducibility tests, generators and random states", "why_tests_cant": "all histories of calls; every test uses one modulus per (p,m)", "anchors": ["starks/numbertype.py:7-22", "starks/finitefield.py:57-72", "starks/modp.py:25-27", "starks/polynomial.py:98-101"]}
{"id": "C119", "title": "StrToMulti and CheckforDiv on arbitrary strings", "statement": "On every string StrToMulti terminates and returns a polynomial in max(s, largest subscript digit) variables or raises ValueError or IndexError, nothing else. An underscore that ends the text raises IndexError, one followed by a non-digit ValueError, the first such one decides. A text without subscripts or with subscript 0 only is accepted exactly when it is a decimal numeral (single underscores between digits allowed, so 1_0 is 10) with optional sign between blanks, with that value; otherwise ValueError. A text with subscripts whose first character is not a digit, X, * or blank (a minus sign, a parenthesis) raises ValueError. CheckforDiv terminates, only leaves characters out, and raises at most IndexError.", "quantifier": "all strings, fields and numbers of variables", "why_tests_cant": "all strings; the tests parse a handful of quotients printed by sympy", "anchors": ["starks/multivariate_polynomial.py:206-274", "starks/multivariate_polynomial.py:308-326"]}
{"id": "C120", "title": "Logistic_Regression never returns", "statement": "As the module stands every call of Logistic_Regression raises: IndexError for a file without lines, the exception of float() for a bad first line, else NameError (struct is not imported). With struct imported, all 4*lines entries that Read_from_File returns are one and the same list object, which is empty, so the call raises IndexError for every file of numbers. Before the lists are emptied the loops collect bits 0-50 and 52-61 of the float, dropping the highest bit of significand and exponent, and the zero flag is set exactly when all of these are 0, hence also for 2.0.", "quantifier": "all files, float parsers, packings to 64 bits, field constructors", "why_tests_cant": "all files and floats; the script is never run by the tests", "anchors": ["starks/test/Logistic_Regression.py:9-84"]}
{"id": "C121", "title": "Powers and generic algorithms in FiniteField(p, m)", "statement": "For every irreducible modulus g the element objects of FiniteField(p, m), that is the normalised coefficient lists shorter than g, form a field under the operations of the class, so everything proved about the algorithms over an arbitrary field holds for them; in particular lagrange_interp through distinct elements returns a polynomial over the class that takes the given values. With q = p**m: x**q = x, x**(q-1) = 1 and x**(q-2) = x.inverse() for nonzero x, and (x + y)**p = x**p + y**p, for the ** of the class.", "quantifier": "all primes p, irreducible moduli, elements, point lists", "why_tests_cant": "all moduli and elements", "anchors": ["starks/finitefield.py:72-147", "starks/poly_utils.py:337-368"]}
{"id": "C122", "title": "What printed numbers and polynomials determine", "statement": "The text of a polynomial over IntegersModP(p) or over FiniteField(p,m) determines the polynomial; the text of an element of FiniteField(p,m) determines p, m and the coefficients; the text of a multivariate polynomial determines its terms and their order; repr of an element determines element and modulus. IntegersModP(p)(str(x)) is x, IntegersModP(p)(repr(x)) raises TypeError. Deviations: equal rationals, and equal multivariate polynomials, can have different texts; the modulus polynomial is not shown, so elements with equal texts can have products with different texts.", "quantifier": "all polynomials, elements, primes, numbers of variables", "why_tests_cant": "injectivity of a map on infinitely many values", "anchors": ["starks/polynomial.py:63-70", "starks/modp.py:84-88", "starks/rationals_modp.py:107-111", "starks/finitefield.py:127-129", "starks/finitefield.py:200", "starks/multivariate_polynomial.py:98-109"]}
{"id": "C123", "title": "How often the polynomial generators succeed", "statement": "Of the p**n coefficient lists that one round of generate_irreducible_polynomial(p, n) can draw, let N_n be the number it accepts. The sum of d*N_d over the divisors d of n is p**n, and n*N_n <= p**n <= 2*n*N_n: the expected number of tests is between n and 2n. After k rounds the loop is still running in at most a fraction (1-1/(2n))**k of the outcomes, and every monic irreducible polynomial of degree n is returned for equally many outcomes. is_primitive accepts phi(p**n-1)/n of the lists (one more, X, if n is 1), so generate_primitive_polynomial can return for every p and n. Deviation: the docstring promises n tests; for n > 1 the expected number is larger.", "quantifier": "all primes p, degrees n, numbers of rounds k", "why_tests_cant": "counts over all draws; tests see single random runs", "anchors": ["starks/poly_utils.py:156-179", "starks/poly_utils.py:181-211", "starks/poly_utils.py:217-240"]}
{"id": "C124", "title": "Euclid's algorithm on field elements", "statement": "gcd of two elements of IntegersModP(p) is the gcd of their representatives, and of FiniteField(p,m) that of the representing polynomials (so not 1 although nonzero elements of a field divide each other); the extended algorithm's coefficients satisfy a*x + b*y = gcd in the class. The int literals 0, 1 of the loop make no difference to the values, but the coefficients come out as ints instead of elements exactly when one argument divides the other. Deviation from the docstring: for an element and an int, gcd raises TypeError unless one of them is 0 or the int is not larger than the representative and its residue divides it.", "quantifier": "all moduli p, primes, irreducible moduli, fields, elements, polynomials, ints", "why_tests_cant": "all pairs of elements; mixed arguments are untested", "anchors": ["starks/euclidean.py:7-45", "starks/modp.py:66-82", "starks/finitefield.py:91-134", "starks/numbertype.py:26-65"]}
{"id": "C125", "title": "Rabin's bound for the primality test", "statement": "For every odd composite n > 3 at most (n-9)/4 of the n-3 values random.randint(2, n-2) can return make a round of probablyPrime accept n, so at most ((n-9)/4)**k of the (n-3)**k outcomes of k draws do: the error is at most 4**-k (C85 gives 2**-k).", "quantifier": "all odd composites, all numbers of rounds", "why_tests_cant": "a statement about the number of bad random draws for every composite number", "anchors": ["misc/primality.py:14-23", "misc/primality.py:26-39"]}
{"id": "C126", "title": "Cost of Euclid's algorithm and size of its coefficients", "statement": "On ints of any sign gcd and extended_euclidean_algorithm make at most k divisions when min(|a|,|b|) is less than the Fibonacci number F(k+2) (369 for 256-bit operands), and two consecutive Fibonacci numbers F(k+3), F(k+2) need k+1. When neither operand divides the other, the coefficients satisfy 2|x||g| <= |b|+|g| and 2|y||g| <= |a|+|g|, without the +|g| for operands of the same sign; when one divides the other they are 0 and 1. On polynomials over any field the number of divisions is at most the number of coefficients of the shorter operand, and deg x < deg b - deg g, deg y < deg a - deg g.", "quantifier": "all ints, all polynomials over all fields", "why_tests_cant": "bounds over all operands, with worst cases that random tests do not hit", "anchors": ["starks/euclidean.py:7-21", "starks/euclidean.py:24-45"]}
{"id": "C127", "title": "Exactly what compression writes, accepts and raises", "statement": "compress_branches and compress_fri write every object in full where it occurs first and afterwards the two-byte position of that place. compress_branches succeeds iff no branch contains ----, every two-byte object stands at the position its value denotes, and no repeated object first occurs at position 65536 or later; compress_fri iff the last two conditions hold, ++++ is in no branch, ==== does not start a branch, ---- does not start a yproof, and //// occurs neither as a root nor in a branch (other uses of the delimiters are accepted). OverflowError is raised exactly for an object repeated too late; the only other exceptions are IndexError and AssertionError. Reading arbitrary data terminates; decompress_branches fails, with IndexError, iff a two-byte object refers beyond the end. Deviation: compressed data is not unique.", "quantifier": "all lists of branches, all FRI proofs, all byte-string lists", "why_tests_cant": "characterises success and failure for every input, including sizes beyond 65536 objects", "anchors": ["starks/compression.py:1-32", "starks/compression.py:35-64", "starks/compression.py:67-83", "starks/compression.py:86-101"]}
{"id": "C128", "title": "What the root of a Merkle tree commits to", "statement": "For every hash function with 32-byte values and any two lists of the same multiple of four of leaves, with leaves of the same sizes, equal roots from merkelize mean equal leaves, or two different strings with the same hash occur at the same node of the two trees; without the condition on sizes the roots of different lists coincide for every hash. The tree depends only on the bytes of the leaves (an int and its 32 bytes are the same leaf; an object is what its to_bytes returns or raises). Up to three elements after the last multiple of four are ignored altogether, even if they could not be converted. For every list of 8q leaves there is a list of 4q leaves, all of them hashes, with the same root.", "quantifier": "all hash functions, all lists of leaves", "why_tests_cant": "Tests build one tree of honest leaves and never compare two lists, tails or node strings used as leaves.", "anchors": ["starks/merkle_tree.py:36-56", "starks/merkle_tree.py:8-33"]}
{"id": "C129", "title": "Distribution of the pseudorandom indices", "statement": "Over all entropy strings of at least 4*count bytes, whatever the hash, the number of strings for which get_pseudorandom_indices returns a given list of allowed indices is the product of the numbers of 4-byte words giving each index, times 256 to the number of unread bytes: the indices are independent. Each allowed index is given by floor(2^32/m) or one more of the words, m being the modulus, or modulus*(e-1)//e when multiples of e are excluded. The number of strings whose k samples all miss a given set of n indices is exactly (2^32 - sum of their words)^k, at most (2^32 - n*floor(2^32/m))^k, times the choices of unread bytes.", "quantifier": "all hash functions, all moduli below 2^24, all e = 0 or e >= 2, all lists of indices", "why_tests_cant": "Counting over all strings of 4*count bytes is out of reach of tests, which look at single seeds.", "anchors": ["starks/utils.py:60-90"]}
{"id": "C130", "title": "What acceptance by the STARK verifier means for low-degree columns", "statement": "Let the register, constraint and boundary polynomials behind the committed columns have degrees at most m, D-n+1 and D-2, with D at least m and the degree of the step polynomials times m (this is what the missing FRI check would have to ensure). If the arithmetic checks succeed at more than D points, the trace satisfies every step, starts with the boundary values and ends with the outputs. Hence for an invalid trace there is a set of at most D of the n*e-n positions, fixed by the columns, such that the spot checks of verify_proof succeed only if every sampled position lies in the set or the hash has a collision (branches having the shape of the tree, which the verifier does not check). For s <= 8 samples at most (2^32-(n*e-n-D)*floor(2^32/(n*e-n)))^s * 256^(32-4s) of the second roots of 32 bytes can pass them.", "quantifier": "all primes, hash functions, step polynomials, numbers of steps and registers, columns of low degree, proofs", "why_tests_cant": "adversarial proofs: all branches and roots, not only those of the prover", "anchors": ["starks/stark.py:283-317", "starks/stark.py:319-372"]}
{"id": "C131", "title": "Number of terms and degree of multivariate results", "statement": "For multivariate polynomials over any field len(p) is the number of power tuples with nonzero coefficient, 0 exactly if is_zero(). len(-a) = len(a), len(a+b) and len(a-b) are at most len(a)+len(b), len(a*b) is at most len(a)*len(b) and 0 only if a factor is zero. degree() of a product of nonzero polynomials is the sum of the degrees, of a**d it is d times the degree, of a sum or difference at most the larger degree, equal to it if the degrees differ. Calling p at multivariate or univariate polynomials of degree at most m gives degree at most m times that of p.", "quantifier": "all fields, numbers of variables, polynomials, exponents", "why_tests_cant": "terms can cancel in sums and products; tests look at single cases", "anchors": ["starks/multivariate_polynomial.py:93-97", "starks/multivariate_polynomial.py:111-129", "starks/multivariate_polynomial.py:146-168", "starks/numbertype.py:68-84", "starks/multivariate_polynomial.py:329-338"]}
{"id": "C132", "title": "What the multivariate constructor and factory accept", "statement": "The constructor returns an object of the same class unchanged, makes the constant polynomial of a ring element or int (without terms if it is zero), keeps exactly the nonzero entries of a dict, and raises ValueError for every other type. Deviations: the lengths of the power tuples of a dict are not checked, so the result is well-formed exactly when all with nonzero coefficient have length num_vars; factory with step_fn and no coefficients raises NameError for every function (the import is commented out), and fails in no other way than the constructor.", "quantifier": "all fields, casts of ints, numbers of variables, arguments, step functions", "why_tests_cant": "all arguments; factory has no test", "anchors": ["starks/multivariate_polynomial.py:69-91", "starks/multivariate_polynomial.py:24-31"]}
{"id": "C133", "title": "Zeros of multivariate polynomials", "statement": "For every nonzero polynomial p in n variables over any field and every finite set S of field elements, p(v) = 0 for at most degree() * |S|^(n-1) of the |S|^n points v with coordinates in S. Hence two polynomials that return equal values on S^n are equal (==) when |S| exceeds their degrees, or every single exponent in them; with |S| equal to an exponent this is false.", "quantifier": "all fields, numbers of variables, polynomials, finite sets of elements", "why_tests_cant": "a count over all points; the calls at a few points in the tests cannot show it", "anchors": ["starks/multivariate_polynomial.py:329-338", "starks/multivariate_polynomial.py:111-117", "starks/multivariate_polynomial.py:131-137"]}
{"id": "C134", "title": "Evaluations of polynomials as a Reed-Solomon code", "statement": "Let S be a list of distinct elements of any field. Two different polynomials of degree below k take equal values at fewer than k elements of S, and for 0 < k <= |S| some pair at exactly k-1. A word within e errors of a polynomial of degree below k on S, 2e <= |S|-k, determines the polynomial. lagrange_interp of the values at any k or more distinct points returns the polynomial; on a word with at least one and at most |S|-k errors it returns a polynomial of degree k or more, so the degree shows the errors.", "quantifier": "all fields, point sets, polynomials, received words, numbers of errors", "why_tests_cant": "all words and error patterns", "anchors": ["starks/reedsolomon.py:48-77", "starks/polynomial.py:158-164", "starks/poly_utils.py:337-368"]}
