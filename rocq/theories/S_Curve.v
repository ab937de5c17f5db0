(** Specification of Montgomery curves y^2 = x^3 + A x^2 + x over a field: affine points, the textbook chord-and-tangent law,
    multiples.  Independent of the model: only field operations and a decidable equality are used. *)
From Coq Require Import ZArith List.

Section Spec.
Context {K : Type} (k0 k1 : K) (kadd kmul ksub : K -> K -> K) (kopp : K -> K) (kdiv : K -> K -> K) (keq : K -> K -> bool).

(** [None] is the point at infinity *)
Definition pt : Type := option (K * K).
Variable A : K.
Definition on (p : pt) : Prop :=
  match p with None => True | Some (x, y) => kmul y y = kadd (kadd (kmul x (kmul x x)) (kmul A (kmul x x))) x end.
Definition popp (p : pt) : pt := match p with None => None | Some (x, y) => Some (x, kopp y) end.
(** the third point on the line of slope m through (x1,y1) and a point with abscissa x2, reflected *)
Definition chord (m x1 y1 x2 : K) : pt :=
  let x3 := ksub (ksub (ksub (kmul m m) A) x1) x2 in Some (x3, ksub (kmul m (ksub x1 x3)) y1).
Definition padd (p q : pt) : pt :=
  match p, q with
  | None, _ => q
  | _, None => p
  | Some (x1, y1), Some (x2, y2) =>
      if keq x1 x2 then
        if keq y1 (kopp y2) then None
        else chord (kdiv (kadd (kadd (kmul (kadd (kadd k1 k1) k1) (kmul x1 x1)) (kmul (kadd k1 k1) (kmul A x1))) k1) (kmul (kadd k1 k1) y1)) x1 y1 x2
      else chord (kdiv (ksub y2 y1) (ksub x2 x1)) x1 y1 x2
  end.
(** [n]P *)
Fixpoint pmul_nat (n : nat) (p : pt) : pt := match n with O => None | S n' => padd (pmul_nat n' p) p end.
Definition pmul (n : Z) (p : pt) : pt := match n with Zneg m => popp (pmul_nat (Pos.to_nat m) p) | _ => pmul_nat (Z.to_nat n) p end.
End Spec.
Arguments pt K : clear implicits.
