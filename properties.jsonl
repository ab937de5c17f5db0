{"id": "C01", "title": "Base-field addition, subtraction, negation and scalings are exact", "statement": "For any two base-field elements, a+b, a-b, -a, a/2, 2a, 3a, 4a and 8a as returned by the API encode to the exact integer result modulo p, and the stored value is always the unique reduced representative.", "quantifier": "every pair of field elements (about 2^2586 pairs)", "why_tests_cant": "carry and borrow propagation across 21 limbs goes wrong only on rare limb patterns; 300 random vectors never hit them", "anchors": ["src/finitefield/fp_gen.rs: set_add, set_sub, set_neg, set_half, set_mul2, set_mul3, set_mul4, set_mul8", "src/finitefield/utils64.rs: addcarry_u64, subborrow_u64"]}
{"id": "C02", "title": "Base-field multiplication and squaring are exact", "statement": "For any two base-field elements, a*b and a.square() encode to the exact product modulo p, are fully reduced, and squaring agrees with multiplying an element by itself.", "quantifier": "every pair of field elements", "why_tests_cant": "Montgomery reduction and the final conditional subtraction have input regions of negligible probability", "anchors": ["src/finitefield/fp_gen.rs: set_mul, set_square, set_montyred, montyred", "src/finitefield/utils64.rs: umull_add, umull_add2, umull_x2, umull_x2_add"]}
{"id": "C03", "title": "Multiplication by a small signed integer is exact", "statement": "For any element a and any i32 k (including negative values, zero and i32::MIN), a.mul_small(k) is the exact product k*a modulo p, fully reduced.", "quantifier": "every field element and every 32-bit signed integer", "why_tests_cant": "the quotient estimate is an approximation with a correction step; wrong estimates occur on a tiny set of inputs", "anchors": ["src/finitefield/fp_gen.rs: set_mul_small, mul_small", "src/fields.rs: P1, P1DIV_M"]}
{"id": "C04", "title": "Integer conversions into the field are exact", "statement": "from_i32, from_i64, from_u32 and from_u64 return the residue class of the given integer for every value of the integer type, negative values included.", "quantifier": "every 32-bit and 64-bit integer", "why_tests_cant": "2^64 inputs", "anchors": ["src/finitefield/fp_gen.rs: from_i32, from_i64, from_u32, from_u64"]}
{"id": "C05", "title": "Field encoding is canonical and fixed length", "statement": "Encoding a base-field element yields exactly 162 bytes holding the unique integer in [0,p) little-endian; two elements have equal encodings exactly when they are the same field element, and exactly when the API's equality says so.", "quantifier": "every field element / pair of elements", "why_tests_cant": "injectivity is a statement about all pairs", "anchors": ["src/finitefield/fp_gen.rs: encode, set_from_montgomery/montyred, equals, hashcode"]}
{"id": "C06", "title": "Field decoding accepts exactly the canonical encodings", "statement": "Decoding succeeds (all-ones status) exactly for 162-byte strings whose little-endian value is below p, and then returns that value; every other byte string of any length yields zero with status 0. Decoding an encoding returns the original element.", "quantifier": "every byte string of every length", "why_tests_cant": "the set of byte strings is infinite, boundary values p-1, p, p+1 with every limb pattern matter", "anchors": ["src/finitefield/fp_gen.rs: decode, set_decode, encode"]}
{"id": "C07", "title": "Reducing decode is exact for strings of any length", "statement": "decode_reduce interprets a byte string of any length (including empty) as a little-endian integer and returns it modulo p.", "quantifier": "every byte string of every length", "why_tests_cant": "length is unbounded; the chunked Horner scheme must be right for every residue of the length", "anchors": ["src/finitefield/fp_gen.rs: decode_reduce, set_decode_reduce"]}
{"id": "C08", "title": "Equality, zero test and constant-time selection are exact masks", "statement": "iszero and equals return all-ones exactly when the tested relation holds and 0 otherwise; select, conditional copy, negate and swap return exactly one of their inputs for control 0 and the other for all-ones.", "quantifier": "every element or pair, and both control values", "why_tests_cant": "mask computation errors are value dependent", "anchors": ["src/finitefield/fp_gen.rs: iszero, equals, select, set_cond, set_condneg, condswap"]}
{"id": "C09", "title": "Fused sums and differences of products are exact", "statement": "sum_of_products(a1,b1,a2,b2) = a1*b1+a2*b2 and difference_of_products = a1*b1-a2*b2 modulo p, fully reduced, although the implementation drops a carry (its own TODO says this is not safe for all moduli).", "quantifier": "every 4-tuple of field elements", "why_tests_cant": "the dropped carry would only show on extreme operands", "anchors": ["src/finitefield/fp_gen.rs: sum_of_products, difference_of_products"]}
{"id": "C10", "title": "Field exponentiation computes the power", "statement": "Raising a base-field element to an exponent given as bytes, words, or an arbitrary-precision integer returns the exact power, for every exponent of every length, including zero exponent and zero base.", "quantifier": "every element and every exponent of unbounded length", "why_tests_cant": "unbounded exponent length", "anchors": ["src/finitefield/fp_gen.rs: set_pow_ext, pow, set_pow_u64..., pow_big"]}
{"id": "C11", "title": "Division is total and exact", "statement": "For every x and y with y nonzero, (x/y)*y = x; for y = 0 the quotient is zero. In particular inversion of a nonzero element gives its inverse.", "quantifier": "every pair of field elements", "why_tests_cant": "the binary-GCD uses fixed iteration counts and truncated approximations; an adversarial operand could need more iterations or break an approximation", "anchors": ["src/finitefield/fp_gen.rs: set_div, lindiv31abs, montylin, invert", "src/fields.rs: TFIXDIV_VAL"]}
{"id": "C12", "title": "Base-field square and fourth roots", "statement": "sqrt returns all-ones and a root whose canonical integer is even exactly when the input is a square, otherwise 0 status and zero; fourth_root likewise for fourth powers.", "quantifier": "every field element", "why_tests_cant": "half of a 2^1293 domain", "anchors": ["src/finitefield/fp_gen.rs: set_sqrt, sqrt, fourth_root, set_fourth_root", "src/fields.rs: SQRT_EH, SQRT_EL, FOURTH_ROOT_EH, FOURTH_ROOT_EL"]}
{"id": "C13", "title": "Legendre symbol is exact", "statement": "legendre returns 1, -1 or 0 exactly when the element is a nonzero square, a non-square, or zero.", "quantifier": "every field element", "why_tests_cant": "depends on symbol tracking through approximated binary GCD with fixed iteration count", "anchors": ["src/finitefield/fp_gen.rs: legendre"]}
{"id": "C14", "title": "Field parameters are what they claim to be", "statement": "The modulus is a prime congruent to 3 modulo 4 (indeed -1 modulo 2^634), of 1293 bits, and every Montgomery/root/division helper constant satisfies its defining equation.", "quantifier": "the primality claim ranges over every potential divisor", "why_tests_cant": "primality cannot be established by sampling divisors", "anchors": ["src/fields.rs: FpFESTA constants", "src/finitefield/fp_gen.rs: macro expectations"]}
{"id": "C15", "title": "Quadratic extension arithmetic is exact", "statement": "Addition, subtraction, negation, conjugation, multiplication (both shipped algorithms), squaring, small multiples and halving on the quadratic extension are the operations of GF(p)[i]/(i^2+1).", "quantifier": "every pair of extension elements", "why_tests_cant": "pairs of 2^2586 elements", "anchors": ["src/finitefield/fp2_gen.rs: set_add, set_sub, set_mul, set_mul_old/new, set_square, conjugate, mul_small"]}
{"id": "C16", "title": "Extension division and batch inversion are exact and total", "statement": "x/y times y is x for nonzero y and x/0 is 0; inverting a slice in batch replaces each element by its inverse and leaves zeros as zeros, for slices of every length.", "quantifier": "every pair of elements; every slice of every length with zeros anywhere", "why_tests_cant": "slice length and zero positions are unbounded (the code splits batches at 200)", "anchors": ["src/finitefield/fp2_gen.rs: set_invert, set_div, batch_invert"]}
{"id": "C17", "title": "Extension square root", "statement": "sqrt reports success exactly on squares and then the result squares to the input, with the documented sign convention; otherwise returns zero and status 0.", "quantifier": "every extension element", "why_tests_cant": "several algebraic special cases (zero imaginary part, non-square real part) are measure-zero sets", "anchors": ["src/finitefield/fp2_gen.rs: sqrt, set_sqrt"]}
{"id": "C18", "title": "Extension fourth root", "statement": "fourth_root reports success exactly on fourth powers and the result's fourth power is the input.", "quantifier": "every extension element", "why_tests_cant": "special cases are measure-zero sets", "anchors": ["src/finitefield/fp2_gen.rs: fourth_root, set_fourth_root"]}
{"id": "C19", "title": "Extension encoding is canonical and decoding strict", "statement": "Encoding is 324 bytes, injective; decode succeeds exactly on the concatenation of two canonical base encodings and inverts encode; otherwise returns zero with status 0.", "quantifier": "every extension element; every byte string of every length", "why_tests_cant": "unbounded byte strings", "anchors": ["src/finitefield/fp2_gen.rs: encode, decode, set_decode"]}
{"id": "C20", "title": "Extension quadratic character", "statement": "legendre on the extension is 1 on nonzero squares, -1 on non-squares and 0 on zero.", "quantifier": "every extension element", "why_tests_cant": "all elements", "anchors": ["src/finitefield/fp2_gen.rs: legendre"]}
{"id": "C21", "title": "Extension exponentiation computes the power", "statement": "pow_small, pow_u64 (with a bit length covering the exponent), pow_u64_vartime and pow_big return the exact power.", "quantifier": "every element and every exponent", "why_tests_cant": "unbounded exponents", "anchors": ["src/finitefield/fp2_gen.rs: pow_big, pow_small, pow_u64, pow_u64_vartime"]}
{"id": "C22", "title": "The built-in non-residue is a non-square", "statement": "NQR (and every element returned by rand_nonsquare's rule) is a non-square in the extension field.", "quantifier": "every potential square root", "why_tests_cant": "non-existence of a root", "anchors": ["src/fields.rs: NQR_RE", "src/finitefield/fp2_gen.rs: NQR, rand_nonsquare"]}
{"id": "C23", "title": "Modular inverse helper (extended gcd)", "statement": "xgcd_big(a,b) for b>0 returns r in [0,b) with a*r congruent to gcd(a,b) modulo b, hence the inverse when coprime; it terminates for every input and only b=0 makes it fail.", "quantifier": "all pairs of arbitrary-precision naturals", "why_tests_cant": "unbounded integers", "anchors": ["src/discrete_log.rs: xgcd_big"]}
{"id": "C24", "title": "CRT recombination", "statement": "compute_crt returns the unique x below the product of the moduli that has the given remainder modulo each prime power, for every list of pairwise coprime moduli.", "quantifier": "every list length, moduli and remainders", "why_tests_cant": "unbounded lists and integers", "anchors": ["src/discrete_log.rs: compute_crt"]}
{"id": "C25", "title": "Integer square root", "statement": "sqrt_floor(n) returns floor(sqrt(n)) for every 32-bit n; builds with overflow checks panic for n above 65535^2 although release builds do not.", "quantifier": "every u32", "why_tests_cant": "2^32 inputs with wraparound near the top", "anchors": ["src/discrete_log.rs: sqrt_floor"]}
{"id": "C26", "title": "Baby-step giant-step finds the logarithm", "statement": "bsgs(base, target, order) returns an exponent e with base^e = target whenever one exists below the order; it never returns a wrong exponent, and panics when none exists.", "quantifier": "every group element pair and every order bound", "why_tests_cant": "all orders, all elements", "anchors": ["src/discrete_log.rs: bsgs"]}
{"id": "C27", "title": "Pohlig-Hellman finds the logarithm", "statement": "ph_dlp_power and ph_dlp return the logarithm modulo l^e / modulo the smooth order, for every base of that exact order and every target in its subgroup, for every factorisation.", "quantifier": "every prime power, exponent and factor list", "why_tests_cant": "unbounded exponent e and factor list", "anchors": ["src/discrete_log.rs: ph_dlp_power, ph_dlp"]}
{"id": "C28", "title": "Two-dimensional discrete logarithm", "statement": "bidlp(R,P,Q) returns (a,b) with R=[a]P+[b]Q whenever P,Q is a basis of the D-torsion and R lies in it.", "quantifier": "every basis and every point", "why_tests_cant": "all points of a 2^1293-size group", "anchors": ["src/discrete_log.rs: bidlp"]}
{"id": "C29", "title": "Point addition is complete and implements the group law", "statement": "add on two points of a curve returns a point of the curve equal to their group sum, for all pairs including equal points, opposite points, 2-torsion points and infinity; subtraction adds the opposite.", "quantifier": "every pair of points on every valid curve", "why_tests_cant": "exceptional cases (P=Q, P=-Q, order-2 points, difference of order 2) are measure-zero", "anchors": ["src/eccore.rs: add_into, sub, neg"]}
{"id": "C30", "title": "Doubling is complete", "statement": "double and repeated doubling return the group double for every point of the curve, infinity and 2-torsion included.", "quantifier": "every point of every curve, every iteration count", "why_tests_cant": "exceptional points", "anchors": ["src/eccore.rs: double, double_self, double_iter"]}
{"id": "C31", "title": "Scalar multiplication is repeated addition", "statement": "mul, mul_small and mul_big return [n]P for every point of the curve and every scalar of every length, including n=0, P=infinity, points of order 2 and 4.", "quantifier": "every point, curve and scalar of unbounded length", "why_tests_cant": "ladder special cases appear only for torsion points", "anchors": ["src/eccore.rs: mul_into, mul_big, mul_small, xMUL ladder"]}
{"id": "C32", "title": "Cofactor clearing with a power-of-two part equals plain scalar multiplication", "statement": "clear_cofactor(P,k,e) equals [k]P for every point and every k divisible by 2^e.", "quantifier": "every point, k and e", "why_tests_cant": "unbounded scalars", "anchors": ["src/supersingular.rs: clear_cofactor"]}
{"id": "C33", "title": "Order test", "statement": "has_factored_order / point_has_factored_order return true exactly when the element has exactly the given factored order.", "quantifier": "every point or field element and every factored order", "why_tests_cant": "all points; a false positive needs an element whose order is a proper multiple", "anchors": ["src/supersingular.rs: point_has_factored_order, has_factored_order"]}
{"id": "C34", "title": "Batched cofactor multiplication", "statement": "The recursive batch cofactor routine leaves in slot i the input multiplied by all the listed factors except the i-th, for every list length.", "quantifier": "every list of factors of every length and split pattern", "why_tests_cant": "unbounded recursion", "anchors": ["src/supersingular.rs: batch_cofactor_mul, batch_cofactor_mul_generic"]}
{"id": "C35", "title": "Point decompression", "statement": "complete_pointX lifts an x-coordinate to a point on the curve with that x when it reports success, and reports failure exactly when no such point exists over the field.", "quantifier": "every curve and x-coordinate (X:Z)", "why_tests_cant": "all x", "anchors": ["src/eccore.rs: complete_pointX_into, complete_pointX"]}
{"id": "C36", "title": "Curve isomorphism maps points to points", "statement": "The isomorphism computed between two Montgomery curves with equal j-invariant maps every affine point of the first curve onto a point of the second.", "quantifier": "every pair of isomorphic curves and every point", "why_tests_cant": "degenerate coefficients", "anchors": ["src/eccore.rs: CurveIsomorphism"]}
{"id": "C37", "title": "Isogeny chains have one step per prime factor and are correctly linked", "statement": "The chain returned for a kernel point and factored order has exactly one step per prime factor (with multiplicity), in which each step's codomain is the next step's domain; the recursion terminates for all exponents.", "quantifier": "every factor list and exponent", "why_tests_cant": "unbounded exponents and lists", "anchors": ["src/isogeny.rs: recursive_sparse_isogeny, kummer_isogeny, factored_kummer_isogeny"]}
{"id": "C38", "title": "Chain evaluation composes the steps", "statement": "Evaluating a chain on points is the left-to-right composition of the steps, the empty chain is the identity, and the number and order of points is preserved.", "quantifier": "every chain length and number of points", "why_tests_cant": "unbounded length", "anchors": ["src/isogeny.rs: evaluate_isogeny_chain, evaluate_isogeny_chain_for_basis"]}
{"id": "C39", "title": "Hadamard transform and theta primitives", "statement": "Applying the Hadamard transform twice multiplies each coordinate by four; squared theta, precomputed constants, doubling and index evaluation follow the level-2 theta formulas.", "quantifier": "every 4-tuple of field elements", "why_tests_cant": "algebraic identity on all inputs", "anchors": ["src/theta.rs: to_hadamard, to_squared_theta, double_iter, chi_eval"]}
{"id": "C40", "title": "Strategy traversal of the (2,2)-isogeny chain is safe and lands on 8-torsion", "statement": "With a valid strategy for length n the chain computation never reads past the strategy, never underflows, performs exactly n steps, and at step k the points used as kernel have been doubled exactly n-1-k more times than pushed through; the shipped strategy is valid for the shipped length.", "quantifier": "every chain length and every valid strategy", "why_tests_cant": "unbounded n and the combinatorial space of strategies", "anchors": ["src/theta.rs: product_isogeny", "src/fields.rs: THETA_STRATEGY"]}
{"id": "C41", "title": "Secret key and ciphertext encodings have fixed length and round trip", "statement": "Encoding a trapdoor secret key, public key or output yields the documented byte length and decoding returns an equal object, for every object whose points are affine.", "quantifier": "every key / output", "why_tests_cant": "all keys, including those with points at infinity", "anchors": ["src/festa.rs: SecretKey::encode/decode, PublicKey, TrapdoorOutput"]}
{"id": "C42", "title": "FESTA parameter identities", "statement": "The shipped constants satisfy m1^2*T1+m2^2*T2=2^632 and the degree constants are the products of their factor lists and divide the group order.", "quantifier": "fixed constants (checked exactly, once for all runs)", "why_tests_cant": "test vectors do not check each constant", "anchors": ["src/fields.rs: M1, M2, D1, D2, DA1, DA2, BASIS_ORDER and their factored lists"]}
{"id": "C43", "title": "Masking matrix recovery is normalised", "statement": "The diagonal matrix recovered in inversion has entries inverse to each other modulo 2^634 with the first entry at most half the modulus, independent of the sign ambiguity of the pairing.", "quantifier": "every input", "why_tests_cant": "all 2^633 residues", "anchors": ["src/festa.rs: recover_diagB"]}
{"id": "C44", "title": "Point equality and affine normalisation", "statement": "Point equality holds exactly for projectively equal representations; to_xy returns the affine coordinates of the point and (0,0) for infinity, independent of the representation.", "quantifier": "every representation of every point", "why_tests_cant": "all scalings", "anchors": ["src/eccore.rs: equals, to_xy, isinfinity"]}
{"id": "C45", "title": "j-invariant", "statement": "j_invariant returns 256(A^2-3)^3/(A^2-4) for the Montgomery coefficient A, and curves with coefficient A and -A share it.", "quantifier": "every curve", "why_tests_cant": "all coefficients", "anchors": ["src/eccore.rs: j_invariant"]}
{"id": "C46", "title": "On-curve checks are exact", "statement": "set_xy / set_xyz / on_curve accept exactly the coordinates satisfying the curve equation and otherwise yield infinity with failure status; no API call turns on-curve inputs into off-curve outputs.", "quantifier": "every coordinates and curve", "why_tests_cant": "all coordinates", "anchors": ["src/eccore.rs: set_xy, set_xyz, on_curve"]}
{"id": "C47", "title": "64-bit helper primitives are exact", "statement": "addcarry, subborrow, wide multiply(-add), the branchless leading-zero count and sign-extraction return the mathematically exact results for every 64-bit operand.", "quantifier": "every tuple of 64-bit words", "why_tests_cant": "2^192 inputs", "anchors": ["src/finitefield/utils64.rs: addcarry_u64, subborrow_u64, umull, umull_add, umull_add2, umull_x2, umull_x2_add, sgnw, lzcnt"]}
{"id": "C48", "title": "Points of a curve form a commutative group under the API", "statement": "add is associative and commutative, infinity is neutral, neg gives inverses, double(P)=add(P,P), sub undoes add, and mul distributes: mul(a+b) = mul(a)+mul(b), mul(b*a) = mul(b) after mul(a), all as decided by Point::equals.", "quantifier": "every curve, points and unbounded scalars", "why_tests_cant": "associativity over all point triples and all representations cannot be enumerated", "anchors": ["src/eccore.rs: add, sub, double, mul_big, equals"]}
{"id": "C49", "title": "Point iterator returns the first liftable abscissa", "statement": "CurveIter::next returns a point of the curve whose abscissa is the first of x, x+1, x+2, ... that lifts to the curve and leaves the iterator just behind it; it returns None exactly if none of the next 1000 abscissas lifts.", "quantifier": "every curve coefficient and iterator state", "why_tests_cant": "unbounded states", "anchors": ["src/eccore.rs: CurveIter::next, iter"]}
{"id": "C50", "title": "Random points lie on the curve", "statement": "Every point returned by rand_point is an affine point of the curve, whatever bytes the random generator delivers.", "quantifier": "every curve and generator output", "why_tests_cant": "all generator outputs", "anchors": ["src/eccore.rs: rand_point"]}
{"id": "C51", "title": "Products of curves act componentwise", "statement": "EllipticProduct add, double and double_iter are the group operations of the two component curves, applied component by component.", "quantifier": "every pair of curves and couples of points, every iteration count", "why_tests_cant": "all points, unbounded counts", "anchors": ["src/eccore.rs: EllipticProduct::add, double, double_iter"]}
{"id": "C52", "title": "The published constants P0 and Q0 are points of E0 only when read as plain integers", "statement": "The four public constants P0x, P0y, Q0x, Q0y, documented as a torsion basis of E0 : y^2 = x^3 + 6x^2 + x, are reduced limb vectors. Read as integers modulo p they are the coordinates of two points of E0. As the field elements the code defines with Fp::new, which stores its argument as a Montgomery representation, neither pair satisfies the equation of E0, so the checked point constructors reject both.", "quantifier": "both published points, every element with the given limbs or the given residue", "why_tests_cant": "no function of the library uses the constants, so no test reaches them; the difference between limbs and residue is invisible in the source", "anchors": ["src/fields.rs:293-384", "src/finitefield/fp_gen.rs:116-118 Fp::new", "src/eccore.rs:318-327 point_xy_vartime"]}
{"id": "C53", "title": "Sampled torsion points", "statement": "generate_point_order_factored_D and its random variant return either the point at infinity or a point T=[c]R of the curve, c the cofactor (p+1)/D, such that [D/l]T is not the identity for any listed prime l; if [p+1]R is the identity the order of T is exactly D.", "quantifier": "every curve, factored order, random stream and number of retries", "why_tests_cant": "the search loops until a sample passes; all samples and all orders", "anchors": ["src/supersingular.rs: generate_random_point_order_factored_D, generate_point_order_factored_D, clear_cofactor"]}
{"id": "C54", "title": "Torsion bases", "statement": "torsion_basis returns either two points at infinity or (P,Q) with P different from Q, Q of order exactly D and a Weil pairing whose (D/l)-th power is not 1 for any prime l of D.", "quantifier": "every curve and factored order", "why_tests_cant": "every path through the search loop must establish it", "anchors": ["src/supersingular.rs: torsion_basis"]}
{"id": "C55", "title": "The Weil pairing is bilinear", "statement": "For a basis (P,Q) of n-torsion weil_pairing(P,Q,n) returns without a panic an n-th root of unity w; exchanging the points inverts it, and weil_pairing([a]P+[b]Q,Q,n)=w^a for every point of exact order n with a not 0 mod n. For two points of exact order n with coordinates (a,b) and (c,d), n not dividing ad-bc, weil_pairing returns w^(ad-bc).", "quantifier": "every curve, every n above 3, every basis, every a and b", "why_tests_cant": "the Miller loop follows the bits of an arbitrary n; bilinearity ranges over all points", "anchors": ["src/pairing.rs: weil_pairing, tate_pairing, eval_line"]}
{"id": "C56", "title": "Canonical kernel scalars are recovered", "statement": "compute_canonical_kernel applied to two points [a1]P+[s a1]Q and [a2]P+[s a2]Q that together generate the group of P+[s]Q returns s modulo the order.", "quantifier": "every curve, every odd or even smooth order, every s, every pair of generators", "why_tests_cant": "the scalar is assembled by CRT from one branch per prime factor; the branches depend on which coordinates vanish modulo which prime", "anchors": ["src/supersingular.rs: compute_canonical_kernel"]}
{"id": "C57", "title": "The entangled torsion basis is a basis", "statement": "entangled_torsion_basis(E, cofactor) returns two points on E that form a basis of the 2^e-torsion of E, where the group of E is killed by 2^e * cofactor and the 2^e-torsion is full.", "quantifier": "every nonsingular curve in the stated class on which the bounded search succeeds, every e and odd cofactor", "why_tests_cant": "independence modulo doubling rests on quadratic-residue identities between the two abscissae; a test can only sample curves, and the bad square-root branch is hit with negligible probability", "anchors": ["src/supersingular.rs:242-316 entangled_torsion_basis", "src/fp2.rs sqrt via norm"]}
{"id": "C58", "title": "The set-up integers of FESTACrypto::new are the ones the protocol needs", "statement": "clear_d1, clear_d2 and clear_lb act as 1 on one torsion part and 0 on the other, inv_scalar inverts d1*d1*d2*m1 modulo 2^634, and g2 makes d1+d2*dA*g2^2 vanish modulo 2^632 so that the kernel handed to the theta isogeny is isotropic.", "quantifier": "the object returned by FESTACrypto::new on every execution", "why_tests_cant": "a wrong scalar only shows as a failing inversion; tests print the result and do not compare it", "anchors": ["src/festa.rs: FESTACrypto::new"]}
{"id": "C59", "title": "A single isogeny has the requested kernel and respects addition", "statement": "EllipticIsogeny::new(E, K, l) for a point K of exact odd order l returns an isogeny whose codomain is a nonsingular curve; evaluate_isogeny sends every point of E to a point of the codomain, sends exactly the multiples of K to infinity, and is additive and commutes with scalar multiplication up to the sign of the images.", "quantifier": "every Montgomery curve with rational 2-torsion and a rational 4-torsion point above (0,0), every kernel point of odd order below 2^64, every evaluation point, both build modes", "why_tests_cant": "the formulas multiply (l-1)/2 factors; tests evaluate a few points and compare nothing but panics, and additivity quantifies over all pairs of points", "anchors": ["src/isogeny.rs:28-44 new", "src/isogeny.rs:53-99 compute_codomain_constants", "src/isogeny.rs:103-122 evaluate_isogeny"]}
{"id": "C60", "title": "An isogeny chain quotients by exactly the group of its kernel point", "statement": "factored_kummer_isogeny(E, K, factors) for K of exact order the product of the factors never panics; the chain ends on a nonsingular curve, evaluation along it kills exactly the multiples of K, is additive up to sign, keeps the order of points of coprime order, and maps bases of coprime torsion to bases.", "quantifier": "every curve in the class of C59, every list of powers of pairwise coprime odd numbers below 2^64, every kernel point of that exact order, both build modes", "why_tests_cant": "the kernel of each step is an image of multiples of K along a recursively built strategy; a wrong cofactor or split still yields a chain of the right length on the tested input", "anchors": ["src/isogeny.rs:147-161", "src/isogeny.rs:192-266 factored_kummer_isogeny"]}
{"id": "C61", "title": "The starting curve has the expected group and set-up computes a genuine basis of its 2^634-torsion", "statement": "p + 1 kills every point of y^2 = x^3 + 6x^2 + x over the field of p^2 elements, its 2^634-torsion is free of rank two, entangled_torsion_basis on it with cofactor (p+1)/2^634 returns without panic two curve points that are a basis of that torsion, and every FESTACrypto returned by new() stores that curve, such a basis, and d1-torsion points of exact order d1 (or infinity).", "quantifier": "every point of the curve over the quadratic extension; every run of new(), any iteration bound, both build modes", "why_tests_cant": "the group has about 2^2586 points; a test can multiply a few points by p+1, it cannot show the group exponent nor independence of two points of order 2^634", "anchors": ["src/festa.rs:255-270 FESTACrypto::new", "src/supersingular.rs entangled_torsion_basis", "src/supersingular.rs torsion_basis"]}
{"id": "C62", "title": "The independence test of torsion_basis for odd orders accepts only bases and pairs where P is a multiple of Q, and it does accept (P, -P)", "statement": "Let D be odd. When torsion_basis returns points (P, Q) on a curve whose points are killed by p+1 and P is not infinity, both points lie on the curve and have order exactly D, and either they are a basis of the D-torsion or P is a multiple of Q. The second case is real: the Weil value of P and -P is -1, which passes the order test, so the search loop returns (P, -P) whenever the next cleared point is -P.", "quantifier": "every curve, every odd order given by its prime factors, every iteration bound, both build modes", "why_tests_cant": "whether two points of a 600-bit order are independent cannot be decided by sampling, and the failing pair appears with probability about 1/D", "anchors": ["src/supersingular.rs torsion_basis", "src/pairing.rs weil_pairing", "src/festa.rs:255-270 FESTACrypto::new"]}
{"id": "C63", "title": "isogeny_from_scalar and random_isogeny compute the isogenies they are named after", "statement": "For a torsion basis (P, Q) of order D, isogeny_from_scalar_x_only(E, D, m, Some(P,Q)) returns a chain with one step per prime factor of D whose evaluation is defined on all of E, lands on the returned curve, is multiplicative up to sign, and sends to infinity exactly the multiples of P + mQ; two scalars give the same kernel exactly when they agree modulo D. random_isogeny_x_only(E, D, n) either met a curve where all samples failed, or is a walk of n steps each dividing by a point of exact order D. The four degree lists of the library meet the hypotheses.", "quantifier": "every curve with the library's coefficient conditions, every odd smooth degree list, every scalar m >= 0, every walk length and random stream, both build modes", "why_tests_cant": "a test checks one scalar on one curve; which points are killed by a composition of hundreds of isogenies, and that different scalars never collide, is a statement about all points and all scalars", "anchors": ["src/supersingular.rs isogeny_from_scalar_x_only", "src/supersingular.rs random_isogeny_x_only", "src/isogeny.rs"]}
{"id": "C64", "title": "trapdoor_eval and keygen output masked images of torsion bases", "statement": "When the public points generate the 2^634-torsion of the public curve and the torsion bases computed inside are bases, trapdoor_eval returns without panic, and (R1,S1), (R2,S2) are, up to sign, the images of the stored basis / the public points under the isogenies with kernel <P + s1 Q>, <P + s2 Q>, multiplied by the odd entries of B; each pair again generates the 2^634-torsion of its curve. A key pair returned by keygen whose two random walks are walks has an odd diagonal secret matrix and public points that are, up to sign, the secret multiples of the images of the stored basis under the composed walk, and they generate the 2^634-torsion of the public curve.", "quantifier": "every set-up value returned by new(), every public key as described, every message (s1, s2, B) with odd B, every key-generation run, both build modes", "why_tests_cant": "a round-trip test passes or fails for one key and message; that the ciphertext points always carry a full torsion basis, for all messages, cannot be sampled", "anchors": ["src/festa.rs:291-390 keygen", "src/festa.rs:397-418 trapdoor_eval", "src/isogeny.rs evaluate_isogeny_chain_for_basis"]}
{"id": "C66", "title": "recover_si_and_B returns exactly the message", "statement": "Let the secret key hold a basis (P,Q) of order 2^634*d1 and a basis (P2,Q2) of order d2 of EA', with pairings of full order in orders d1 and d2. If the two points L1, L2 handed over by the dimension-two isogeny satisfy l*d2*L_i in <Pd + s1*Qd>, l*d1*L_i in <P2 + s2*Q2> (together generating the two groups, each alone more than the square root of it, no zero coordinate) and d1*d2*L1 = +-(d1*d1*d2*m1*b)*Pb with b odd and at most 2^633, then recover_si_and_B does not panic and returns s1 mod d1, s2 mod d2 and the matrix (b, 1/b mod 2^634). Every message 0<s1<d1, 0<s2<d2, b odd, is returned for some such pair of points.", "quantifier": "every set-up value returned by new(), every curve and bases as described, all s1, s2, b, both build modes", "why_tests_cant": "a test decrypts a few sampled messages; that the clearing factors, the two logarithms, the quotient by CRT and the sign normalisation of the matrix recover every message needs a proof", "anchors": ["src/festa.rs:421-500 recover_diagB, recover_si_and_B", "src/supersingular.rs:321-362 compute_canonical_kernel", "src/discrete_log.rs:167-190 bidlp"]}
{"id": "C67", "title": "trapdoor_inverse hands the right kernel and points to the dimension-two isogeny and returns the message", "statement": "For a ciphertext whose points R1,S1 generate the 2^634-torsion of E1 and R2 = A11*U, S2 = A22*W with (U,W) a basis of the 2^634-torsion of E2: trapdoor_inverse unmasks R2,S2 to U,W, and if the isogeny with kernel <(R1,g2*U),(S1,g2*W)> sends (P1+R1,P2) and (Q1+S1,Q2) to points that, on the factor isomorphic to EA', carry the message (s1,s2,b) in the sense of C66, then exactly (s1 mod d1, s2 mod d2, (b,1/b)) is returned; debug builds require in addition that the pairings of the two sides cancel. The factor is chosen by its j-invariant and the points are carried to EA' by an injective group homomorphism; a codomain without EA' is rejected in debug builds and accepted in release builds. Messages compare equal iff all four integers are equal.", "quantifier": "every set-up value, every secret key with the bases described, every such ciphertext, all messages, both build modes", "why_tests_cant": "decryption of sampled ciphertexts takes a fixed path (one factor, one sign); which factor contains EA' and whether the isomorphism is needed depends on the key and message", "anchors": ["src/festa.rs:505-586 trapdoor_inverse", "src/eccore.rs:796-822 CurveIsomorphism", "src/festa.rs:221-228 TrapdoorInput::eq"]}
{"id": "C65", "title": "The gluing isogeny really starts from the product of the two curves", "statement": "Let P8=(P1,P2), Q8=(Q1,Q2) be couple points on E1 x E2 whose components have order 8 and whose multiples of order two differ on both curves. get_base_submatrix of a point T of order four is the matrix of translation by 2T on abscissas, an involution under which T is an eigenvector. In the theta coordinates computed from (2*P8, 2*Q8), translation by 4*P8 changes the signs of the odd coordinates and translation by 4*Q8 those of the last two; two couple points get the same theta point iff their components agree up to sign, and no couple point gets the zero vector, unless the base change is identically zero. gluing_isogeny returns a codomain whose dual null coordinates A vanish exactly at index 3 with A_j^2 proportional to the squared dual coordinates of the neutral couple, and the image of R is the theta point with dual coordinates y where A_j*y_j are the squared dual coordinates of R and A_j*y_(j xor 1) those of R+2*P8; R, -R, R+4*P8 and R+4*Q8 have the same image.", "quantifier": "all pairs of valid curves, all such couple points of order 8, all lists of couple points to push (points where both squared dual coordinates 0 and 1 vanish excepted in the image formula)", "why_tests_cant": "a test runs one kernel; a wrong entry of the 4x4 base change or a missing correction of (0:0) still yields a theta structure, and only the relation to every point of both curves shows it is the right one", "anchors": ["src/theta.rs:249-355 get_base_submatrix, get_base_matrix", "src/theta.rs:360-396 apply_base_change, base_change_couple_point", "src/theta.rs:402-590 gluing_codomain, gluing_image, gluing_isogeny"]}
{"id": "C68", "title": "The chain of (2,2)-isogenies works on Kummer surfaces, and the strategy does not change its result", "statement": "Call a theta null point generic if none of its coordinates and none of its ten even level-(2,2) constants is zero; its Kummer surface is the quartic invariant under the theta group that is singular at it. theta_double keeps points on the surface of its null point and depends on the projective point only. two_isogeny with a kernel above the dual null point has a generic codomain, sends points of the surface to points of the codomain's surface, and commutes with any number of doublings. Hence, if the images of the kernel couples under the gluing step lie on its codomain's surface and commute with their doublings there, and every step of the chain has such a kernel, product_isogeny with any valid strategy returns the same two curves as product_isogeny_no_strategy, panics exactly if that one does, and returns, in the same order, the same image couples up to sign on each factor.", "quantifier": "all null points, points on their surfaces, lists of points, chain lengths, strategies and image lists", "why_tests_cant": "a test compares one strategy on one kernel; that doubling and isogeny commute holds only on the quartic surface, not for arbitrary coordinates, so neither fuzzing of coordinates nor a sampled chain shows it for all kernels and strategies", "anchors": ["src/theta.rs:150-177 double, double_iter", "src/theta.rs:607-721 two_isogeny, two_isogeny_to_product", "src/theta.rs:1079-1266 product_isogeny, product_isogeny_no_strategy"]}
{"id": "C69", "title": "Key generation writes a usable secret key, and decryption returns the encrypted message", "statement": "Let the secret walk E0 -> EA' -> EA have odd degree and let the bases found on E0, EA' and EA be bases of the d1-, d2- and d2-torsion, all four coordinates of the basis of EA in the image of the basis of EA' being nonzero. Then keygen does not panic; the secret key holds EA', A with odd entries, the images on EA' of the stored bases of E0 (order 2^634*d1) and a basis of the d2-torsion of EA' that phi2 carries to multiples t*P, t*Q of the basis that an encryption uses, with one common unit t. For every message with s1<d1, s2<d2, b odd, 0<b<=2^633 and its inverse, trapdoor_eval with the public key succeeds, its points are A11 and A22 times the images U, W of the stored basis masked by the message alone, and trapdoor_inverse returns exactly the message whenever the pairing of order d1 on EA' has full order and the isogeny with kernel <(R1,g2*U),(S1,g2*W)> gives on the factor EA' the images that C66 describes (debug builds: and the pairings cancel). In particular the messages drawn by gen_random_trapdoor_input meet the bounds, and the benchmark in main.rs, which draws a key and a message, encrypts and decrypts, ends with the message it drew.", "quantifier": "all set-up values, random tapes, walks, messages and both build modes, under the stated conditions", "why_tests_cant": "a round trip on sampled keys follows one key, one sign and one unit t; the reference pairing passed to the logarithms is that of the wrong basis, and only an argument over all keys shows that this is harmless", "anchors": ["src/festa.rs:291-390 keygen", "src/festa.rs:392-470 trapdoor_eval", "src/festa.rs:505-586 trapdoor_inverse", "src/main.rs:10-46 gen_random_trapdoor_input, bench_case"]}
{"id": "C70", "title": "A chain of (2,2)-isogenies ends in a product at a predictable location and is split into two valid curves", "statement": "Let a chain of (2,2)-isogenies start at a generic null point with images on its Kummer surface, let every step's kernel be above its dual null point, and let the dual null point before the last step have coordinate c equal to zero. Then no other coordinate of it is zero, the last codomain has exactly one vanishing even theta constant, at (c,0), the code finds it, and it also vanishes at the image of every point of the surface. For c = 1, 2, 3 the splitting map chosen by the code makes the null point and all images product points, is injective and leaves no zero theta constant; the code then returns two valid Montgomery curves and one couple for each given one without a panic, whatever the strategy. A product point is exactly the product of the two pairs the code reads off it, if its second coordinate is not zero. Refuted: for c = 0 the map is singular and the null point does not split; a product point with second coordinate zero loses its first component. If no coordinate of the dual null point is zero the codomain is not a product and the code does not notice.", "quantifier": "all generic null points over the library's field, kernel points, image points, chain lengths, strategies and locations c", "why_tests_cant": "the location of the zero constant depends on the whole kernel; a test run follows one location of four, and the hard-coded table of ten maps has entries that sampled chains never use", "anchors": ["src/theta.rs:607-721", "src/theta.rs:771-1042", "src/theta.rs:1079-1266"]}
{"id": "C71", "title": "The pairings used as bases of logarithms have full order", "statement": "If P and Q are a basis of the 2^e-torsion of a curve, e at least 2, weil_pairing(P,Q,2^e) returns w with w^(2^(e-1)) = -1, so w has order exactly 2^e and logarithms to the base w are unique modulo 2^e. If torsion_basis returns a pair that is a basis, the pairing of this pair, in any projective representation, has order exactly D. The entangled basis of the starting curve is an instance with 2^634.", "quantifier": "all valid curves over the library's field, all e >= 2, all bases, all lists of prime powers with product above 3", "why_tests_cant": "non-degeneracy is a statement about every basis of every curve; a test samples a few pairings and sees no failure", "anchors": ["src/pairing.rs: weil_pairing", "src/supersingular.rs:210-239", "src/discrete_log.rs:167-190"]}
{"id": "C72", "title": "Printed values can be read back", "statement": "Display prints a field element of Fp as the decimal numeral, without leading zeros, of its value in [0,p), and an element of Fp2 as 'i*b + a' with the numerals of its two coordinates. Two elements, curves (by coefficient), points, couples or theta points are printed alike exactly when their coordinates are equal, and two messages exactly when they compare equal. The numbers in the text, from left to right, are the parts of the value in order (X, Y, Z, T; s1, s2, the matrix; the part of i before the real part; the two curves of an isogeny, by coefficient or by j-invariant; printing an isogeny panics exactly when its codomain is missing). Refuted: two representations of one point, equal for Point::equals, are printed differently.", "quantifier": "all field elements, points, curves, couples, theta points and messages", "why_tests_cant": "a format that merges two values is only seen on the values that collide", "anchors": ["src/finitefield/fp_gen.rs:1577-1584", "src/finitefield/fp2_gen.rs:816-828", "src/eccore.rs:121-129", "src/eccore.rs:754-758", "src/eccore.rs:849-853", "src/theta.rs:122-126", "src/festa.rs:230-238", "src/isogeny.rs:125-143"]}
{"id": "C73", "title": "Equality and hashing of field elements agree", "statement": "Two elements of Fp2 compare equal (==) exactly when they stand for the same value, and exactly then Hash feeds the same words to the hasher; the same holds for Fp with equals. hashcode of an Fp element is the low 64 bits of its Montgomery representative v*2^1344 mod p, and hashcode of x0+i*x1 has bit 0 of the representative of x1 as bit 0 and bits 0..62 of that of x0 above it. Refuted: different elements may have the same hashcode.", "quantifier": "all pairs of field elements", "why_tests_cant": "a second representation of one value, or a value hashed by something that equality ignores, is not met by sampling", "anchors": ["src/finitefield/fp_gen.rs:168-174", "src/finitefield/fp_gen.rs:1419-1423", "src/finitefield/fp_gen.rs:1840-1844", "src/finitefield/fp2_gen.rs:772-778", "src/finitefield/fp2_gen.rs:1084-1101"]}
{"id": "C74", "title": "Random field elements and curve points are spread evenly", "statement": "Fp::rand reduces a block of ENCODED_LENGTH + 16 = 178 bytes. For every value r in [0,p) the number c of blocks that give r is positive and c/256^178 is 1/p up to a factor within 1 +- 2^-130; for blocks of any length n, |c*p - 256^n| < p. Fp2::rand meets every element with probability 1/p^2 up to a factor within 1 +- 2^-128, and the first accepted draw of rand_nonsquare meets every non-square with probability 2/p^2 up to the same factor. Each attempt of Curve::rand_point meets every affine point (x,y) of the curve with y <> 0 with probability 1/(2 p^2), and every point with y = 0 with probability 1/p^2, up to a factor within 1 +- 2^-128; the point at infinity is never returned, and an attempt that meets no point leaves the generator at the next block.", "quantifier": "all values of the field; all affine points of all curves; all blocks", "why_tests_cant": "a bias of this size, or one missing value, cannot be seen by drawing samples", "anchors": ["src/finitefield/fp_gen.rs:1362-1389", "src/finitefield/fp_gen.rs:1403-1417", "src/finitefield/fp2_gen.rs:645-659", "src/finitefield/fp2_gen.rs:661-684", "src/eccore.rs:694-720"]}
{"id": "C75", "title": "Random messages and secret matrices are exactly uniform", "statement": "Over the draws s1 < d1, s2 < d2, r < 2^633 the benchmark's random message is uniform on the messages that the trapdoor can recover: every triple (s1, s2, diag(b, b^-1 mod 2^634)) with b odd and below 2^633 comes from exactly two draws, and nothing else is produced. The diagonal matrix in the secret key is uniform on the pairs of odd entries below 2^634: each comes from exactly four of the 2^1268 draws, and keygen depends on its two random numbers only through their upper 633 bits.", "quantifier": "all messages, all diagonal matrices, all draws, all streams of the other randomness", "why_tests_cant": "the space has more than 2^1000 elements; a missing or over-represented message cannot be seen by sampling", "anchors": ["src/main.rs:10-24", "src/festa.rs:291-304", "src/discrete_log.rs:11-36"]}
{"id": "C76", "title": "Stored keys and transmitted ciphertexts still decrypt", "statement": "A secret key produced by keygen can always be encoded (3080 bytes) and a ciphertext produced by trapdoor_eval can always be encoded (3240 bytes); decoding succeeds on both, and trapdoor_inverse applied to the decoded ciphertext and the decoded key returns the encrypted message, although the decoded points have other projective coordinates than the originals. More generally every copy of the key with the same curve, affine points and matrix decrypts every copy of the ciphertext with the same curves and affine points.", "quantifier": "all keys of keygen, all messages in range, debug and release builds of the decoder; under the premises of C69", "why_tests_cant": "the round trip through bytes composed with the whole scheme would have to be run for every key and message", "anchors": ["src/festa.rs:75-126", "src/festa.rs:156-198", "src/festa.rs:291-390", "src/festa.rs:397-418", "src/festa.rs:503-580"]}
{"id": "C77", "title": "Sampled torsion points are evenly spread", "statement": "Let k be the cofactor (divisible by 2^ep, ep >= 1) by which generate_random_point_order_factored_D multiplies a random point. Every point T other than infinity that is a k-th multiple is the k-th multiple of the same number n of points of the curve, and one attempt of rand_point followed by clear_cofactor gives T with probability n/(2 p^2) up to a factor within 1 +- 2^-128. The same holds for the point returned by generate_random_point_order_factored_D in its first round, for every T that passes its order test. So no kernel generator is preferred, although points of order two are drawn twice as often as others.", "quantifier": "all valid curves, all cofactors, all points in the image", "why_tests_cant": "a bias between two of more than 2^300 kernels cannot be seen by sampling", "anchors": ["src/supersingular.rs:147-177", "src/eccore.rs:694-720"]}
