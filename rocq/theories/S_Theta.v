(** Specification of level-2 theta coordinates in dimension two, over any field, written with indices 0..3 read as pairs of bits. *)
From Coq Require Import Arith Bool.
Section Spec.
Context {K : Type} (k0 k1 : K) (kadd kmul ksub : K -> K -> K) (kopp : K -> K) (kdiv : K -> K -> K).
(* the dot product of two indices modulo 2 *)
Definition dot (i j : nat) : bool := xorb (Nat.odd i && Nat.odd j) (Nat.odd (Nat.div i 2) && Nat.odd (Nat.div j 2)).
Definition sgn (b : bool) (x : K) : K := if b then kopp x else x.
Definition sum4 (f : nat -> K) : K := kadd (kadd (kadd (f 0) (f 1)) (f 2)) (f 3).
(* Hadamard transform, squared theta transform *)
Definition dual (x : nat -> K) (chi : nat) : K := sum4 (fun i => sgn (dot chi i) (x i)).
Definition sqdual (x : nat -> K) : nat -> K := dual (fun i => kmul (x i) (x i)).
(* doubling on the Kummer surface with null point a *)
Definition theta_dbl (a x : nat -> K) (i : nat) : K := kdiv (dual (fun chi => kdiv (kmul (sqdual x chi) (sqdual x chi)) (sqdual a chi)) i) (a i).
(* image under the (2,2)-isogeny whose codomain has dual null point A *)
Definition theta_image (A x : nat -> K) : nat -> K := dual (fun chi => kdiv (sqdual x chi) (A chi)).
(* squares of the level (2,2) constants; the even ones are those with dot chi i = 0 *)
Definition level22 (a : nat -> K) (chi i : nat) : K := sum4 (fun t => sgn (dot chi t) (kmul (a t) (a (Nat.lxor i t)))).
Definition even_index (chi i : nat) : Prop := chi < 4 /\ i < 4 /\ dot chi i = false.
(* the point is a product of two one-dimensional points *)
Definition splits (x : nat -> K) : Prop := kmul (x 0) (x 3) = kmul (x 1) (x 2).
End Spec.
