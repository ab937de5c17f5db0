(** Specifications for the integer helpers and discrete logarithms (C23-C27), independent of the model. *)
From Coq Require Import ZArith List.
From Verif Require Import S_Fp2.
Import ListNotations.
Open Scope Z_scope.

(** the product of the listed prime powers *)
Fixpoint fprod (fs : list (Z * Z)) : Z := match fs with [] => 1 | (l, e) :: r => l ^ e * fprod r end.
(** entries at different positions are coprime *)
Fixpoint fcoprime (fs : list (Z * Z)) : Prop :=
  match fs with [] => True | (l, e) :: r => Forall (fun f => Z.gcd (l ^ e) (fst f ^ snd f) = 1) r /\ fcoprime r end.
(** x has remainder r_i modulo l_i^e_i for every i *)
Fixpoint cong_all (x : Z) (rs : list Z) (fs : list (Z * Z)) {struct fs} : Prop :=
  match fs, rs with
  | [], _ => True
  | (l, e) :: fs', r :: rs' => (l ^ e | x - r) /\ cong_all x rs' fs'
  | _ :: _, [] => False
  end.
(** a has multiplicative order exactly n *)
Definition g_order (a : Z * Z) (n : Z) : Prop := 0 < n /\ gpow a n = (1, 0) /\ (forall k, 0 < k < n -> gpow a k <> (1, 0)).
