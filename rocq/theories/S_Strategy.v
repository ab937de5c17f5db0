(** Specification: strategies for isogeny chains.  A strategy for n leaves is a binary tree, listed in the order in which a traversal meets its inner
    nodes; each inner node holds the number of leaves of its right subtree, which is the number of doublings on the edge to its left subtree. *)
From Coq Require Import List Arith Lia.
Import ListNotations.
Inductive strat : nat -> list nat -> Prop :=
| strat_leaf : strat 1 []
| strat_node a b sa sb : strat a sa -> strat b sb -> strat (a + b) (b :: sa ++ sb).
(** The chain without a strategy: with m steps left the kernel points are doubled m - 1 times.  [cod] and [img] give one step. *)
Section Chain.
Context {D T : Type} (dbl : D -> T -> nat -> T) (cod : nat -> D -> T -> T -> D) (img : nat -> D -> T -> T -> T -> T).
Fixpoint chain (m : nat) (d : D) (K1 K2 : T) (imgs : list T) : D * list T :=
  match m with
  | O => (d, imgs)
  | S m' => let T1 := dbl d K1 m' in let T2 := dbl d K2 m' in let f := img m' d T1 T2 in chain m' (cod m' d T1 T2) (f K1) (f K2) (map f imgs)
  end.
End Chain.
