(** Specification side of the parameter checks: integers denoted by the constant arrays. *)
From Coq Require Import ZArith List.
Import ListNotations.
Open Scope Z_scope.

(** BigUint::from_slice: little-endian base 2^32. *)
Fixpoint big32 (l : list Z) : Z := match l with [] => 0 | d :: l' => d + 4294967296 * big32 l' end.
(** The integer with a given factorisation [(prime, exponent)]. *)
Fixpoint unfactor (l : list (Z * Z)) : Z := match l with [] => 1 | (q, e) :: l' => q ^ e * unfactor l' end.
(** Trial division: no divisor in [2, n). *)
Definition primeb (n : Z) : bool :=
  (2 <=? n) && forallb (fun k => negb (n mod (Z.of_nat k + 2) =? 0)) (seq 0 (Z.to_nat (Z.sqrt n) - 1)).
