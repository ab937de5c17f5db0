(** Specification of the Kummer surface with a given null point, over any field: the quartic of the shape fixed by the theta group that is singular at the null point. *)
From Coq Require Import Arith.
From Verif Require Import S_Theta.
Section Spec.
Context {K : Type} (k0 k1 : K) (kadd kmul ksub : K -> K -> K) (kopp : K -> K) (kdiv : K -> K -> K).
Local Infix "+" := kadd. Local Infix "*" := kmul. Local Infix "-" := ksub.
(* sum of fourth powers + 2 E x0 x1 x2 x3 - F1 (x0^2 x1^2 + x2^2 x3^2) - F2 (x0^2 x2^2 + x1^2 x3^2) - F3 (x0^2 x3^2 + x1^2 x2^2) *)
Definition pow4 (x : K) : K := x * x * (x * x).
Definition quartic (E F1 F2 F3 : K) (x : nat -> K) : K :=
  sum4 kadd (fun i => pow4 (x i)) + (k1 + k1) * E * (x 0 * x 1 * x 2 * x 3)
  - F1 * (x 0 * x 0 * (x 1 * x 1) + x 2 * x 2 * (x 3 * x 3)) - F2 * (x 0 * x 0 * (x 2 * x 2) + x 1 * x 1 * (x 3 * x 3)) - F3 * (x 0 * x 0 * (x 3 * x 3) + x 1 * x 1 * (x 2 * x 2)).
(* half of the i-th partial derivative *)
Definition half_partial (E F1 F2 F3 : K) (x : nat -> K) (i : nat) : K :=
  let sq j := x (Nat.lxor i j) * x (Nat.lxor i j) in
  (k1 + k1) * (x i * (x i * x i)) + E * (x (Nat.lxor i 1) * x (Nat.lxor i 2) * x (Nat.lxor i 3)) - x i * (F1 * sq 1 + F2 * sq 2 + F3 * sq 3).
Definition on_kummer (a x : nat -> K) : Prop :=
  exists E F1 F2 F3, (forall i, i < 4 -> half_partial E F1 F2 F3 a i = k0) /\ quartic E F1 F2 F3 x = k0.
(* null points of Jacobians with all ten even constants different from zero *)
Definition generic_null (a : nat -> K) : Prop :=
  (forall i, i < 4 -> a i <> k0) /\ forall chi i, even_index chi i -> level22 kadd kmul kopp a chi i <> k0.
(* the same projective point, up to a factor different from zero *)
Definition same_point (x y : nat -> K) : Prop := exists c, c <> k0 /\ forall i, i < 4 -> x i = c * y i.
End Spec.
