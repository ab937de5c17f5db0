(** Specification of the quadratic extension GF(P)[i], i^2 = -1: Gaussian integers (pairs of integers) modulo [P]. *)
From Coq Require Import ZArith List.
From Verif Require Import S_Fp.
Open Scope Z_scope.

(** A well-formed element and the pair of residues it stands for. *)
Definition canon2 (x : list Z * list Z) : Prop := canon (fst x) /\ canon (snd x).
Definition val2 (x : list Z * list Z) : Z * Z := (val (fst x), val (snd x)).

Definition gred (x : Z * Z) : Z * Z := (fst x mod P, snd x mod P).
Definition gadd (x y : Z * Z) : Z * Z := gred (fst x + fst y, snd x + snd y).
Definition gsub (x y : Z * Z) : Z * Z := gred (fst x - fst y, snd x - snd y).
Definition gopp (x : Z * Z) : Z * Z := gred (- fst x, - snd x).
Definition gconj (x : Z * Z) : Z * Z := gred (fst x, - snd x).
Definition gmul (x y : Z * Z) : Z * Z := gred (fst x * fst y - snd x * snd y, fst x * snd y + snd x * fst y).
Definition gscale (k : Z) (x : Z * Z) : Z * Z := gred (k * fst x, k * snd x).
Definition gpow (x : Z * Z) (e : Z) : Z * Z := Nat.iter (Z.to_nat e) (gmul x) (1, 0).
Definition g_square (x : Z * Z) : Prop := exists z, gmul z z = gred x.
Definition g_fourth (x : Z * Z) : Prop := exists z, gmul (gmul z z) (gmul z z) = gred x.

(** The documented sign of a root: the real part is even, or it is zero and the imaginary part is even. *)
Definition g_sign_ok (x : Z * Z) : Prop := if fst x =? 0 then Z.even (snd x) = true else Z.even (fst x) = true.
