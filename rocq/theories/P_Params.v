(** C14, C42: the shipped constants. *)
From Coq Require Import ZArith Znumtheory List Lia Bool.
From Verif Require Import S_Fp S_Params M_Utils64 M_Consts M_Fp L_Words L_Bits L_Fp L_FpOps L_FpRoots L_Prime L_Params.
Import ListNotations.
Open Scope Z_scope.
#[local] Transparent P WN MODULUS R2_VAL TDEC_VAL TFIXDIV_VAL R_VAL DR_VAL TR_VAL QR_VAL MINUS_R_VAL HALF_MODULUS.

Theorem C14_modulus_prime : prime P.
Proof. exact P_prime. Qed.
Print Assumptions C14_modulus_prime.
(** the limbs shipped in the code denote that prime, it has the announced size and shape *)
Theorem C14_modulus_shape :
  eval MODULUS = P /\ bitlength P = BITLEN /\ length MODULUS = NLIMBS /\ P mod 2 ^ 634 = 2 ^ 634 - 1 /\ P mod 2 ^ 635 <> 2 ^ 635 - 1 /\ P mod 4 = 3.
Proof. vm_compute. repeat split. discriminate. Qed.
Print Assumptions C14_modulus_shape.
(** every helper constant satisfies its defining equation (fields.rs:1-255) *)
Theorem C14_montgomery_constants :
  2 * eval HALF_MODULUS = P + 1 /\
  eval R_VAL = 2 ^ 1344 mod P /\ eval MINUS_R_VAL = P - eval R_VAL /\
  eval DR_VAL = 2 * 2 ^ 1344 mod P /\ eval TR_VAL = 3 * 2 ^ 1344 mod P /\ eval QR_VAL = 4 * 2 ^ 1344 mod P /\
  eval R2_VAL = 2 ^ 2688 mod P /\ (P0I * P) mod 2 ^ 64 = 2 ^ 64 - 1 /\ eval TDEC_VAL = 2 ^ 2624 mod P.
Proof. vm_compute. repeat split. Qed.
Print Assumptions C14_montgomery_constants.
(** The constants driving the root, small-multiple and division routines: the window digits denote (p+1)/4 and
    (p+1)/8; P1 is the top 32 bits of p; P1DIV_M is the 2^64-scaled reciprocal used for quotient estimation. *)
Theorem C14_algorithm_constants :
  4 * (dig32 SQRT_EH * 32 ^ 126) = P + 1 /\ 8 * (dig32 FOURTH_ROOT_EH * 32 ^ 126) = P + 1 /\
  P1 = P / 2 ^ (BITLEN - 32) /\
  P1DIV_M = 1 + ((2 ^ 32 - P1) * 2 ^ 64) / P1 /\
  eval TFIXDIV_VAL = 2 ^ (33 * Z.of_nat NUM1 + 64 - Z.of_nat NUM2 + 2 * 1344) mod P.
Proof. vm_compute. repeat split. Qed.
Print Assumptions C14_algorithm_constants.

(** The identity behind the (2,2)-isogeny of key recovery (Kani's criterion): the two degrees sum to a power of two. *)
Theorem C42_kani_identity :
  big32 M1 ^ 2 * (big32 D1 * big32 DA1) + big32 M2 ^ 2 * (big32 D2 * big32 DA2) = 2 ^ THETA_ISOGENY_LENGTH.
Proof. vm_compute. reflexivity. Qed.
Theorem C42_group_order : big32 BASIS_ORDER = P + 1 /\ big32 BIGUINT_MODULUS = P /\ (2 ^ L_POWER | P + 1) /\ ~ (2 ^ (L_POWER + 1) | P + 1).
Proof.
  split; [vm_compute; reflexivity|]. split; [vm_compute; reflexivity|]. split.
  - exists ((P + 1) / 2 ^ L_POWER). vm_compute. reflexivity.
  - intros H. apply Zdivide_mod in H. vm_compute in H. discriminate.
Qed.
(** Every entry of a factor list is prime, d1 and d2 are the products of their lists, are odd, coprime and divide p+1;
    dA1, dA2 are the SQUARES of the products of their lists (the isogenies of those degrees are computed in two rounds). *)
Theorem C42_factor_lists_prime :
  Forall (fun q => prime (fst q)) (D1_FACTORED ++ D2_FACTORED ++ DA1_FACTORED ++ DA2_FACTORED ++ DA_FACTORED).
Proof. apply primes_sound. vm_compute. reflexivity. Qed.
Theorem C42_degree_products :
  unfactor D1_FACTORED = big32 D1 /\ unfactor D2_FACTORED = big32 D2 /\ unfactor DA_FACTORED = big32 DA /\
  unfactor DA1_FACTORED ^ 2 = big32 DA1 /\ unfactor DA2_FACTORED ^ 2 = big32 DA2 /\ big32 DA1 * big32 DA2 = big32 DA.
Proof. vm_compute. repeat split. Qed.
Theorem C42_degrees_divide :
  (2 ^ L_POWER * big32 D1 * big32 D2 * unfactor DA1_FACTORED * unfactor DA2_FACTORED | P + 1) /\
  Z.gcd (2 ^ L_POWER) (big32 D1) = 1 /\ Z.gcd (2 ^ L_POWER) (big32 D2) = 1 /\ Z.gcd (big32 D1) (big32 D2) = 1 /\
  Z.gcd (big32 D1 * big32 DA1 * big32 M1) (big32 D2 * big32 DA2 * big32 M2) = 1.
Proof.
  split; [|vm_compute; repeat split].
  exists ((P + 1) / (2 ^ L_POWER * big32 D1 * big32 D2 * unfactor DA1_FACTORED * unfactor DA2_FACTORED)). vm_compute. reflexivity.
Qed.
(** The claim as first listed (all degree constants are the products of their lists and divide p+1) fails for DA, DA1, DA2. *)
Theorem C42_degree_constants_refuted :
  exists D Dfac, In (D, Dfac) [(D1, D1_FACTORED); (D2, D2_FACTORED); (DA, DA_FACTORED); (DA1, DA1_FACTORED); (DA2, DA2_FACTORED)] /\
   unfactor Dfac <> big32 D /\ ~ (big32 D | P + 1).
Proof.
  exists DA1, DA1_FACTORED. split; [right; right; right; left; reflexivity|]. split; [vm_compute; discriminate|].
  intros H. apply Zdivide_mod in H. vm_compute in H. discriminate.
Qed.
Print Assumptions C42_kani_identity.
Print Assumptions C42_group_order.
Print Assumptions C42_factor_lists_prime.
Print Assumptions C42_degree_products.
Print Assumptions C42_degrees_divide.
Print Assumptions C42_degree_constants_refuted.
