# Formal model of festa_rs in Rocq (Coq 8.16.1)

Status legend used below: **P** proved, **p** partial, **R** refuted (the unchanged code
violates the statement, a witness is proved), **–** planned / not yet started.
MANIFEST.json is the authoritative list of theorem names.

## Trusted base

* Coq's kernel (8.16.1) and its VM for `vm_compute` casts (coqchk re-checks them without the VM).
* What `Print Assumptions` lists.  Theorems are closed under the global context, except those that use
  the primality of p, which is established by a certificate evaluated with `Bignums.BigN`; those list the
  standard library's `PrimInt63`/`Uint63` primitives and their specification axioms and nothing else.
* The correspondence between the Rust text in /repo and the Gallina definitions: made by reading.  Every
  definition cites file and lines.
* Rust semantics taken for granted: u64/u32/i32/i64/u8 wrap-around and shift semantics, slice bounds panics,
  num-bigint's BigUint/BigInt as exact integers, `Vec` as list.

## Modelling conventions

* Machine words are `Z` in `[0, 2^w)`; wrap-around is written as `mod 2^w`.
* `[u64; 21]` is a `list Z`; a `for i in 0..N` loop in lockstep over arrays is recursion on the lists.
* `&mut self` becomes a returned value.  Panics become `None`/explicit error values.
* The field type's private-field invariant (limbs form the reduced representative) is a boolean predicate
  `canon`; every public operation is shown to establish it.

* Layers above the quadratic extension are written once over a record of field operations (`fops`, M_Field.v).
  `raw_ops` instantiates it with the limb-level functions; `fq_ops` with the same functions on well-formed elements
  (a subset type).  Theorems are stated for `fq_ops`; `fq_erases` (P_Curve.v) proves each operation of `fq_ops` is the
  limb-level one, and `C29_limbs`, `C30_limbs`, `C31_limbs` carry this to point addition, doubling and multiplication.

## Layers

1. `M_*` files: model only (no proofs). 2. `L_*` files: lemmas. 3. `P_*` files: property theorems, each closed
by `exact`, with `Print Assumptions` and a non-vacuity `Example`.

## Properties

| id | what is modelled | how proved |
|----|------------------|-----------|
| C01 | limb loops of set_add/sub/neg/half/mul2/3/4/8 | limb-list evaluation, carry invariants by list induction |
| C02 | set_mul, set_montyred, set_square | Montgomery loop invariant, induction over limbs |
| C03 | set_mul_small | Granlund-Montgomery quotient bound |
| C04 | from_i32/i64/u32/u64 | corollary of C02, C08 |
| C05-C07 | encode, decode, decode_reduce | byte/limb regrouping lemmas, induction on the chunk count |
| C08 | iszero, equals, select, set_cond, set_condneg, condswap | mask lemmas |
| C09 | sum_of_products, difference_of_products | loop invariant u < 2p with the dropped carry shown to be 0 |
| C10 | set_pow_ext, pow, pow_big | induction on bit length |
| C11 | set_div with lindiv31abs, montylin and the packed inner loop | binary-GCD length potential with approximation error bound |
| C12 | set_sqrt, set_fourth_root | window exponentiation = power; Euler criterion |
| C13 | legendre | Jacobi symbol tracking; needs quadratic reciprocity |
| C14 | constants of fields.rs | computation; primality by a Morrison-type N+1 certificate |
| C15 | fp2_gen.rs add/sub/neg/conj/mul/mul_old/square/mul2..8/mul_small/half, equals, select, swaps | transfer to the field Zp[i] (Zp is a sealed Leibniz-equality field built on the residues), ring |
| C16 | set_div, set_invert, batch_invert (200-element chunks, zero replacement) | norm identity; prefix-product invariant over chunks |
| C17, C18 | set_sqrt, set_fourth_root incl. special branches | square iff norm square; case algebra in an abstract field |
| C19 | encode, decode | from C05/C06 |
| C20 | legendre | base-field symbol of the norm |
| C21 | pow_ext, pow_small, pow_big, pow_u64 (both overflow modes), pow_u64_vartime | induction on the bit count; `C21_pow_u64_overlong_refuted`: declared bit length 65 panics (debug) or returns a wrong power (release) |
| C22 | NQR, rand_nonsquare over an arbitrary byte stream | legendre of the norm |
| C23 | xgcd_big | loop invariant m = s1*a mod b; halving bound for the fuel |
| C24 | compute_crt | per-entry contribution lemma, induction over the list; uniqueness by Gauss |
| C25 | sqrt_floor in both overflow modes | bisection invariant; `C25_sqrt_floor_checked_panics` is the exact panic set |
| C26 | bsgs | exact characterisation (least exponent below m^2, reduced mod order); `C26_bsgs_any_base_refuted`: without base^order = 1 a wrong exponent can be returned |
| C27 | ph_dlp_power, ph_dlp in both modes | digit-by-digit invariant x = k mod l^i, CRT uniqueness; exponent 0 panics with checks (`C27_zero_exponent`) |
| C28 | bidlp on top of weil_pairing and ph_dlp | `C28_bidlp_partial` (any order n > 3 of the listed factors, R of exact order n, both coordinates nonzero, with or without a precomputed base e(P,Q) = w^t); `C28_bidlp_pow2_partial` (n = 2^e, R of exact order, coordinates may be zero: the case used by FESTA); `C28_bidlp_odd` (P_Bidlp.v, odd n, R of any order m with n < m^2: by L_Weil3.v the pairing is linear on every point, and the Miller loop meets infinity only at its end; `C28_ex5`: a basis of the 5-torsion of y^2 = x^3 + x with explicit coordinates). For smaller orders m that divide a binary prefix of n the loop runs through infinity and a debug build panics. Missing: R of smaller order and, in odd order, R dependent on a basis point. Both are false: `C28_bidlp_refuted` (n = 4, R = 2P: panic in every build), `C28_bidlp_odd_panics` (odd n: bidlp of P or of Q itself panics, since e(P,-P) is computed as -1). For n = 2^e the exact order of e(P,Q) is proved (C71); for other n it is a hypothesis (non-degeneracy in odd order is not proved) |
| C55 | tate_pairing (Miller loop), weil_pairing | `C55_weil`: for every basis of n-torsion, n > 3, the pairing is computed without a panic, is an n-th root of unity, alternating and linear in the first argument. L_Weil.v proves Weil reciprocity for the chord-and-tangent functions by field algebra, with bilinearity by induction; L_Weil2.v the even orders and dependent points of two-power order. `C55_determinant` (L_WeilDet.v, P_WeilDet.v): the pairing of two combinations of the basis is that of the basis to the power of the determinant, by reducing the matrix with shears and a rotation. `C55_ex`/`C28_ex` exhibit a basis of the 4-torsion with pairing i |
| C29 | Curve::new, add, sub, neg, infinity (eccore.rs) | the chord-and-tangent law of S_Curve.v is a group (associativity proved from scratch in L_Group.v); the complete projective formulas compute it |
| C30 | double, double_iter | same, induction on the count |
| C31 | Montgomery ladder with y-recovery, mul, mul_big, mul_small; `mul` panic set | ladder invariant (kP, (k+1)P) with the differential-addition identities of L_Kummer.v; `C31_zero_length_refuted`: with nbitlen = 0 and a point of order two the first scalar byte still decides |
| C32 | clear_cofactor | doublings then a ladder; general k loses its low bits (`C32_general`) |
| C33 | point_has_factored_order, has_factored_order (points and field elements share one definition, as their text does) | exact meaning of the answer; `C33_point_order_partial` adds [D]P = O, without which `C33_point_order_refuted`/`C33_element_order_refuted` give wrong positives; `C33_panics` |
| C34 | batch_cofactor_mul, batch_cofactor_mul_generic | induction on the recursion depth over any list length; `others` is the product of the other entries of the range |
| C52 | constants P0x, P0y, Q0x, Q0y (M_Consts.v), point_xy_vartime, on_curve (M_Curve.v) | P_BasisConsts.v: evaluation of the curve equation on the integers and on the values of the Montgomery representations, linked to the checked constructors by C46. `C52_canonical`, `C52_residues`, **`C52_on_curve_refuted`** (the documented claim fails for the elements the code defines). |
| C53 | generate_point_order_factored_D and the random variant | every sample passes the tests; termination is not claimed (fuel; `None` includes a search that is still running) |
| C54 | torsion_basis | induction over the search loop |
| C35 | complete_pointX | square test of the curve equation |
| C36 | CurveIsomorphism | `C36_isomorphism_partial` (missing: equal squares of the coefficients, a zero coefficient, u a non-square); `C36_equal_coefficients_refuted`: for dom = cod the constructor returns a map that leaves the curve even with debug assertions on; `C36_opposite_refuted`: the same for every pair of curves with opposite coefficients (decryption, festa.rs:568-581, guards only against equal coefficients); `C36_homomorphism` (P_Iso.v): in the good case an injective homomorphism on affine points, infinity going to a point of order 2 |
| C44-C46 | equals, isinfinity, to_xy, to_xy_vartime, j_invariant, set_xy, set_xyz, on_curve | affine normal form; on-curve closure of every operation |
| C48 | all group axioms through the API | from C29-C31 and L_Group.v |
| C49, C50 | CurveIter, rand_point over an arbitrary byte stream | Legendre and square root laws |
| C51 | EllipticProduct | from C29, C30 |
| C37 | KummerLineIsogeny::new, compute_codomain_constants, sparse_isogeny_prime_power, factored_kummer_isogeny (M_Isogeny.v), for every field implementation | `C37_chain` by induction over the recursion and the factor list; `C37_terminates`: the depth is bounded by the exponent; `C37_exponent_zero_refuted`; `C37_recompute_refuted`: the public compute_codomain_constants is not idempotent. The example runs over the integers modulo 179 (L_Toy.v), only to have a chain computed by the kernel |
| C38 | evaluate_isogeny, evaluate_isogeny_chain, evaluate_isogeny_chain_for_basis | induction over the chain; `C38_sign_lost`: P and -P have the same image |
| C39 | all of theta.rs (M_Theta.v; its Display in M_Display.v, batch inversion written element-wise, justified by C16): Hadamard and squared theta transforms, precomputation, doubling, chi_eval, level (2,2) constants, gluing codomain and images, both (2,2)-isogeny functions, splitting maps, conversion to Montgomery curves | specification S_Theta.v is written with index arithmetic; L_Theta.v proves the model equal to it by field algebra for every field implementation, P_Theta.v instantiates. `C39_splitting` covers nine of the ten splitting maps; `C39_splitting_refuted`: MAPS[9] (theta.rs:892-897, even constant (0,0)) is a singular matrix (rows 0 and 3 equal), with a null point it does not split. The base-change matrix of the gluing step (get_base_matrix) is modelled but only its use is covered. Not proved: that images lie on the codomain's Kummer surface |
| C40 | descend/theta_loop (generic in points), product_isogeny, product_isogeny_no_strategy | S_Strategy.v: strategies are binary trees; stack invariant by induction over the tree and the step count. `C40_counts`: n steps, kernel points doubled exactly as often as steps remain; `C40_total`: no panic in the traversal for any field and input; `C40_shipped`: a verified checker on THETA_STRATEGY; `C40_independent`: the strategy does not change the result, for any step that commutes with doubling up to an equivalence; `C40_test_length_refuted`: the length L_POWER used in theta.rs's own test panics with the shipped strategy |
| C41 | SecretKey and TrapdoorOutput encode/decode (M_Festa.v; the public key has no encoder in the code), debug and release builds | `C41_secret_key`, `C41_output`: fixed lengths 3080 and 3240, decoding returns the same curve, affine points and integers; `C41_strict`, `C41_output_strict`: with debug assertions the decoders accept only encodings; `C41_overflow`: entries beyond 82 bytes panic; `C41_infinity_refuted`: infinity comes back as (0,0); `C41_release_trailing`, `C41_release_refuted`: without debug assertions trailing bytes are ignored and malformed field elements are read as 0 |
| C42 | fields.rs constants | computation, verified primality checks |
| C43 | recover_diagB | `C43_normalised`, `C43_sign`, `C43_value` for every residue; `C43_recover` from points through C28; `C43_even_refuted`: an even logarithm is not rejected |
| C56 | compute_canonical_kernel (M_Super2.v) | `C56_scalar` (extended Euclid and CRT); `C56_kernel_partial` through C28 for images of exact order with nonzero coordinates; `C56_kernel_odd` for odd n and images of any orders m with n < m^2 (`C56_ex5`); `C56_own_basis` for the call without a basis: the basis is the accepted result of torsion_basis and the pairing hypothesis is then proved by C71 (a concrete run of torsion_basis is not evaluated in Coq) |
| C58 | FESTACrypto::new | the integers satisfy the congruences they are used for, including d1 + d2*dA*g2^2 = 0 mod 2^632, which makes the kernel of the product isogeny isotropic |
| C59 | isogeny_new, compute_codomain_constants, evaluate_isogeny (M_Isogeny.v) | `C59_step`. The abscissa map x·∏((xt−1)/(x−t))² is shown additive up to sign over an abstract field (L_Poly.v polynomials and root counting, L_Velu.v), then tied to the code's products and codomain formula (L_Isog.v). Hypotheses: rational 2-torsion and A+2 a square; both hold for E0 and are inherited by the codomain. `C59_ex`: a point of order 3 |
| C60 | recursive_sparse_isogeny, factored_kummer_isogeny, evaluate_isogeny_chain (M_Isogeny.v) | `C60_chain`, `C60_evaluate`, `C60_torsion`, `C60_E0_good`: induction over the splitting strategy and over the factor list, composing relations that are isogenies up to sign (`sgiso`, L_Isog.v) |
| C57 | entangled_torsion_basis (M_Super2.v) | `C57_points` (what the search returns), `C57_independent` (2-descent: no odd combination is a double), `C57_basis` (basis of the 2^e-torsion), `C57_E0_points` (the search run on the starting curve A = 6); `C57_on_curve_refuted`: on the curve A = -(25+55i)/198 the value whose root is taken is a non-square of the prime field, the inline root is 0 and both returned points are off the curve |
| C61 | festa_new, entangled_torsion_basis, torsion_basis (M_Festa.v, M_Super2.v, M_Super.v) | `C61_group`: exact point count of the curve and its quadratic twist over the prime field by a character-sum involution (L_Count.v: the sum of chi(x^3+6x^2+x) vanishes), Lagrange for finite abelian groups given as duplicate-free lists (L_FinGrp.v), then 2P = (P + conj P) + (P - conj P) and a halving argument to get p+1 instead of 2(p+1) (L_E0.v); `C61_torsion`: the 2-torsion has rank two and each doubling tower has full height; `C61_divisible`; `C61_basis`: C57_basis instantiated, so its hypotheses are met with no assumption; `C61_new`: what every run of the set-up stores |
| C62 | torsion_basis, weil_pairing (M_Super.v, M_Pairing.v) | L_Weil3.v: for a point Q of exact odd order n and a point P killed by n, let m be the order of P modulo the multiples of Q; the Weil value raised to m is 1 unless m is 1 (additivity and antisymmetry on pairs of different orders; for m = 3 additivity fails only where t - t' = +-2 and 3(t + t') = 0 mod n, and the remaining relations still force the cube to be 1). `C62_accepted`: for every odd D an accepted pair is a basis or P = kQ (order three by hand, `accepted3`). `C62_opposite`, `C62_loop_opposite`: the Miller loop never divides by zero on points of exact order n (totality lemmas in L_Pairing.v) and gives -1 on (P, -P), so the loop returns it. **`C62_basis_refuted`**: on y^2 = x^3 - (863/256)x^2 + x with D = 3 the loop returns (P, -P). `C62_torsion_basis`, `C62_new`: the same for torsion_basis and for the d1-basis stored by the set-up. L_Five.v: a curve with a point of order 5, for the example. |
| C63 | isogeny_from_scalar_x_only, random_isogeny_x_only (M_Super2.v) | P_Scalar.v: `C63_kernel` from C60_chain (the sparse strategy divides by the group of its kernel point) with K = P + mQ, whose order is D by independence; `C63_injective`: kernels of two scalars agree iff m = m' mod D, stated through evaluate_isogeny_chain; `C63_default`: with the basis computed inside, under C62; `C63_random`: induction over the steps with the inductive relation `walk`; `C63_degrees`: the four degree lists meet the hypotheses (primality from C42). Example `C63_ex` (P_ScalarEx.v, L_Three.v): a curve with two independent points of order 3 over the field. |
| C64 | trapdoor_eval, keygen (M_Festa.v) | P_Trapdoor.v: `C64_eval`: C63_kernel for the isogeny, tr_basis (C59/C60) to carry the 2^634-basis through an isogeny of odd degree, C38_basis for the sign choice, C31_mul_big for the masking; `C64_keygen`: induction over walks (`walk_keeps`), then the sum trick T + P with the clearing factor c = 1 mod 2^634, c = 0 mod d (C58) recovers the image of T. That the odd-order bases are bases is a hypothesis, as in the statement (C62 shows the code does not ensure it); the second half of the secret key (the d2-images obtained by bidlp) is C69. |
| C65 | get_base_submatrix, get_base_matrix, base_change_couple_point, gluing_isogeny (M_Theta.v) | L_Gluing.v (generic field), P_Gluing.v, P_GluingEx.v. A point (t+e, b) over (t,0) gives the matrix g = -1/e*[[t,1],[2t^2+2At+1,-t]]: translation by (t,0) on (X:Z), g^2 = 1; matrices of distinct points of order two anticommute, so the four bilinear forms built by the base change are eigenforms (`C65_submatrix`, `C65_base_change`); they equal c*(f f' +- ...) for the linear forms f vanishing at the points of order four, whence faithfulness and the vanishing of the last squared dual coordinate (`C65_faithful`, `C65_zero`); the squares are products of quadratic forms U0,U1,U2 on each curve permuted by translation by points of order four and proportional on points of order eight, which gives the hypotheses of C39_gluing_codomain and C39_gluing_image (`C65_gluing`); `C65_kernel` from the scaling behaviour of gluing_image. Hypothesis `some_coord`: the row of the base change chosen by the code is not identically zero (the code does not check) |
| C66 | recover_si_and_B, recover_diagB (M_Festa.v) | P_Recover.v: `C56_images` restates the canonical kernel by the kernel point P + s*Q (order of a multiple a*(P+sQ) is n/gcd(a,n), `kp_order`); `C66_matrix`: the power-of-two logarithm of +-alpha*P, then C43_value; `C66_recover`: the clearing factors of C58 split the basis of order 2^634*d1 (`basis_clear`, `basis_part`), then the three recoveries; `C66_reachable` builds, for every message, points meeting the hypotheses. Full order of the two pairings of odd order is a hypothesis (`full_pairing`); that of the pairing of order 2^634 follows from C71. |
| C67 | trapdoor_inverse, select_factor, ti_eqb (M_Festa.v), iso_new/iso_eval (M_Curve.v) | L_Iso.v, P_Iso.v: `C36_homomorphism` ((x,y) -> (ux+v, wy) respects chords and tangents because b*u = 3v+a, u^2 = 3v^2+2av+1, w^2 = u^3); `C67_select` (+ `_rejects`, `_release`); `C67_inverse`: unmasking by the inverse of the odd secret entries, totality of every step (C31, C55), then C66. The output of product_isogeny is a hypothesis quantified over all representatives of its inputs; its theta-level steps are C39. |
| C68 | theta_double, two_isogeny, two_isogeny_to_product, theta_loop, product_isogeny, product_finish (M_Theta.v) | S_KummerSurf.v (quartic singular at the null point, generic null points), L_KummerSurf.v and L_KummerFun.v (generic field: the Hadamard transform carries the quartic of a to that of its dual, squaring followed by division by A carries the surface of a to that of A; the image of the double is the double of the image, coefficient by coefficient modulo the quartic), L_ThetaStep.v (one step and the loop, for every strategy stack), L_ThetaProd.v (base change, splitting and completion depend on points projectively). `C68_double`, `C68_projective`, `C68_null`, `C68_isogeny`, `C68_raw_isogeny`, `C68_strategy`, `C68_finish`, `C68_product_isogeny`. Kernels are above A, the dual null point up to a factor e (e need not be a square). Examples: `C68_isogeny_ex` over the library's field; P_KummerEx.v: a whole chain of length four over the field with 12289 elements (L_ToyField.v, an instance of `flaws`), all hypotheses checked by evaluation. |
| C69 | keygen, trapdoor_eval, trapdoor_inverse (M_Festa.v) | P_Keygen.v: `C69_second_half`: the code takes the logarithms of EA's basis (P,Q) in the images of EA' basis, but passes the pairing e(P,Q) as the reference instead of the pairing of the images; by `C55_determinant` e(P,Q) is a unit power of the right one, so both logarithms come out multiplied by one common unit t, and the subgroups <P'+sQ'> are unchanged. `C69_keygen`: the whole function is total and writes a key satisfying `secret_ok` (chains carry bases, C60/C64; sum of coprime bases; logarithms). `C69_roundtrip`: C64_eval, unmasking (`unmask_side`), C67_inverse. Hypotheses: the odd-order bases are bases (not ensured by the code, C62), the pairing of order d1 on the secret curve has full order (those of order 2^634 and d2 have it by C71), the coordinates found by bidlp are nonzero (else it panics, C28_bidlp_odd_panics), and the images of the dimension-two isogeny (as in C67). Example in order 5: `C69_second_half_ex`; `C69_message_ex`. M_Main.v/P_Main.v: `C69_random_message` (the message sampler of main.rs:10-24 meets the message bounds) and `C69_bench` (the benchmark loop body, main.rs:30-46, returns the drawn message; timing and printing are not modelled). |
| C70 | two_isogeny, two_isogeny_to_product, identify_even_index, compute_splitting_matrix, splitting_isomorphism, split_theta_point, split_to_product, product_isogeny (M_Theta.v) | L_ThetaEnd.v (generic field: if the dual of a generic null point has coordinate c equal to zero, the quartic of the surface becomes a weighted sum of four squares, which says that the constant (c,0) vanishes at the image of every point; no other even constant of the codomain vanishes), L_ThetaSplit.v (the three splitting maps for (1,0), (2,0), (3,0), the step before the last in dual coordinates, the chain by induction), P_ThetaEnd.v: `C70_raw`, `C70_last`, `C70_splitting`, `C70_components`, `C70_chain`, `C70_finish`, `C70_product_isogeny`. `C70_zero_refuted` is an explicit last step at (0,0) with entries in i, sqrt 3 and sqrt 10; `C70_components_refuted` two product points read as the same pairs. L_ThetaEndEx.v and P_ThetaEndEx.v: last steps over the library's field at (0,0) and (1,0), and a whole chain over the field with 12289 elements that ends at (2,0). |
| C71 | weil_pairing (M_Pairing.v), torsion_basis (M_Super.v) | L_WeilTwo.v (generic field: the Miller loop at a point (a,0) of order two has value -1 against any point of order 2^e independent of it, because the doubling formula makes u(2S) a square and the tangent at S meets it; with the linearity of C55 the 2^(e-1)-th power of e(P,Q) is -1). `C71_two_power` (P_Pairing.v); `C71_accepted`, `C71_found` (P_Keygen.v): the order test of torsion_basis on e(P,Q) and e(P,Q)^D = 1 give the exact order D; `C71_start`: the entangled basis of the starting curve; `C71_ex`: order 5. Used to remove the full-order hypotheses from C28 (n = 2^e), C43, C66, C67 and C69. Not proved: non-degeneracy for bases of odd order that were not tested by the code |
| C72 | the Display implementations (M_Display.v; a printed text is a list of characters, the digits of a number are found by division by ten) | P_Display.v: `C72_decimal` (induction on the number of digits; the specification is a reading function), `C72_fp`, `C72_fp2`, then a number ends at the first character that is not a digit, so every format can be read back: `C72_fq`, `C72_point`, `C72_curve`, `C72_couple`, `C72_theta`, `C72_input`. `C72_order` (added after a wrong program with two coordinates exchanged survived): the numbers standing in the text, from left to right, are the parts of the value in their documented order. `C72_isogeny`: both forms of an isogeny's text, and that printing panics exactly when the codomain was not computed. `C72_point_refuted`: equal points in different coordinates are printed differently |
| C73 | Hash for Fp and Fp2 (M_Display.v: the words fed to the hasher), PartialEq for Fp2, hashcode (M_Fp.v, M_Fp2.v) | P_Display.v: `C73_fp`, `C73_fp2` from C08, C15 and the uniqueness of reduced limbs; the value of hashcode from the Montgomery representative. `C73_hashcode_refuted`: two different elements have the same hash code |
| C74 | set_rand of Fp and Fp2, rand_nonsquare (M_Fp.v decode_reduce, M_Fp2.v f2_rand, f2_rand_nonsquare), Curve::rand_point (M_Curve.v) | P_Uniform.v: the byte strings of length n are the integers below 256^n (C05-C07), so the strings with a given residue are an arithmetic progression, listed without repetition and counted: `C74_reduce` (any length), `C74_fp`, `C74_fp2`, `C74_nonsquare` (a quotient of two non-squares has two roots). P_UniformPoint.v: `C74_point` counts the draws of the first attempt of rand_point that give each affine point (128 of the 256 sign bytes, all 256 when y = 0: a point of order two is twice as likely as another), `C74_point_retry`: an attempt fails exactly when no point has the drawn abscissa, and the next one starts afresh |
| C75 | gen_random_trapdoor_input (M_Main.v), keygen (M_Festa.v) | P_UniformMsg.v: an odd number has exactly two preimages under set_bit(0, true), and the inverse modulo 2^634 is unique: `C75_message` (each message covered by C69 comes from exactly 2 draws), `C75_keygen`, `C75_matrix`, `C75_secret` (each diagonal secret matrix comes from exactly 4 draws; keygen depends on the draws through r/2 only) |
| C76 | sk_encode, sk_decode, to_encode, to_decode, keygen, trapdoor_eval, trapdoor_inverse (M_Festa.v) | P_Keygen.v `C76_copies`: the premises of C67_inverse speak of a key and a ciphertext through their curves, affine points and matrix only, so any copy of the key decrypts any copy of the ciphertext; P_Stored.v `C76_stored`: the key of keygen and the output of trapdoor_eval meet the conditions of C41 (no point at infinity, entries below 2^656), so both can be written, read back and used. Same premise about the dimension-two isogeny as C69_roundtrip (`isogeny_carries`, here for the received ciphertext) |
| C77 | rand_point (M_Curve.v), clear_cofactor, try_point, generate_random_point (M_Super.v), i.e. generate_random_point_order_factored_D | P_UniformTors.v `C77_torsion`: the fibres of the multiplication by the cofactor are translates of each other, a point of order two is killed by the even cofactor, and C74_point counts the draws for each point of a fibre. `C77_generate` adds the infinity and order tests and the loop of the code: a point passing the order test (C33) is returned by the first round on exactly those draws, whatever the fuel and the rest of the stream; `C77_reject`: a rejected round leaves no trace, so later rounds behave the same |
| C47 | utils64.rs | word lemmas |

## Coverage

Modelled, function by function (the comment before each definition gives file and lines):

| Source | Model | Contents |
|---|---|---|
| src/finitefield/utils64.rs | M_Utils64.v | every function |
| src/finitefield/fp_gen.rs | M_Fp.v | arithmetic, inversion and division (binary GCD), Legendre, square and fourth roots, powers, selection, encoders and decoders, hash code, random elements |
| src/finitefield/fp2_gen.rs | M_Fp2.v | arithmetic (all multiplication variants), roots, powers, selection, encoders and decoders, hash code, random elements |
| src/fields.rs | M_Consts.v | every constant, transcribed by a script |
| src/eccore.rs | M_Curve.v, M_Field.v | points, x-only points, curves, addition, doubling, multiplication, ladders, point completion, random points, isomorphisms, couples |
| src/discrete_log.rs | M_Dlog.v, M_Pairing.v | every function |
| src/pairing.rs | M_Pairing.v | every function |
| src/isogeny.rs | M_Isogeny.v | every function |
| src/supersingular.rs | M_Super.v, M_Super2.v | every function |
| src/theta.rs | M_Theta.v | every function |
| src/festa.rs | M_Festa.v | keys, encoders, set-up, key generation, trapdoor evaluation and inversion |
| every `fmt::Display`, `Hash` | M_Display.v | the printed text of field elements, points, curves, couples, theta points, isogenies and messages; the words fed to a hasher |
| src/main.rs | M_Main.v | message sampling, one round of the benchmark |

Not modelled:

* derived `Debug` output, `println!` and timing.
* The `#[cfg(test)]` modules (but C40_test_length_refuted treats the call made by theta.rs's own test).
* Operator overloads (`Add`, `AddAssign`, ... by value and by reference): each calls the `set_*` function that is modelled.
  Likewise the in-place (`set_x`, `x_into`, `x_self`) and value-returning (`x`) forms of one function share one definition.
* Running time, in particular whether the code is constant-time: the model gives results, not traces.
* The random generator: a parameter, the stream of blocks it returns.
* precompute/*.sage and precompute/temp.py (their output, src/fields.rs, is modelled).
* The loops that search for points until one is found have a fuel argument; exhausted fuel is `None`, like a panic, so no theorem
  claims that a search ends unless it says so.
