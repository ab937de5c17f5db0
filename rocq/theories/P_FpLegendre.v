(** C13: the Legendre symbol.  Squares are stated over the integers modulo [P] (see P_FpRoots.v). *)
From Coq Require Import ZArith Znumtheory List Lia Bool.
From Verif Require Import S_Fp M_Utils64 M_Consts M_Fp L_Words L_Bits L_Fp L_FpOps L_FpRoots L_Jacobi L_Legendre P_FpRoots.
Import ListNotations.
Open Scope Z_scope.

Lemma legendre_square x : canon x -> val x <> 0 -> is_square (val x) -> legendre x = 1.
Proof.
  intros Hx N H. apply is_square_cg in H. apply (gauss_square x Hx N) in H. rewrite legendre_ok, H by auto.
  destruct (Z.eqb_spec (val x) 0); [contradiction|reflexivity].
Qed.
Lemma zero_square x : val x = 0 -> is_square (val x). Proof. intros ->. exists 0. reflexivity. Qed.
Lemma legendre_nonsquare x : canon x -> ~ is_square (val x) -> legendre x = -1.
Proof.
  intros Hx H. assert (N : val x <> 0) by (intros E; apply H, zero_square, E). rewrite legendre_ok by auto.
  destruct (Z.eqb_spec (val x) 0); [contradiction|]. destruct (gauss (eval x) P) eqn:E; auto.
  exfalso. apply H, is_square_cg, (gauss_square x Hx N), E.
Qed.
Lemma legendre_zero x : canon x -> val x = 0 -> legendre x = 0.
Proof. intros Hx E. rewrite legendre_ok, E by auto. reflexivity. Qed.

Theorem C13_legendre_square : forall x, canon x -> val x <> 0 -> is_square (val x) -> legendre x = 1.
Proof. exact legendre_square. Qed.
Theorem C13_legendre_nonsquare : forall x, canon x -> ~ is_square (val x) -> legendre x = -1.
Proof. exact legendre_nonsquare. Qed.
Theorem C13_legendre_zero : forall x, canon x -> val x = 0 -> legendre x = 0.
Proof. exact legendre_zero. Qed.
(** The converse: the three answers are exclusive, so the symbol decides the class of its argument. *)
Lemma legendre_decides x : canon x ->
  (legendre x = 1 <-> val x <> 0 /\ is_square (val x)) /\ (legendre x = -1 <-> ~ is_square (val x)) /\ (legendre x = 0 <-> val x = 0).
Proof.
  intros Hx. pose proof (legendre_square x Hx) as L1. pose proof (legendre_nonsquare x Hx) as L2. pose proof (legendre_zero x Hx) as L3. pose proof (zero_square x) as Z0.
  assert (D : is_square (val x) \/ ~ is_square (val x)).
  { destruct (Z.eq_dec (val x) 0) as [E|E]; [left; auto|]. destruct (gauss (eval x) P) eqn:G.
    - right. intros S. apply is_square_cg, (gauss_square x Hx E) in S. congruence.
    - left. apply is_square_cg, (gauss_square x Hx E). exact G. }
  destruct (Z.eq_dec (val x) 0) as [E|E].
  - rewrite (L3 E). repeat split; intros; try lia; tauto.
  - destruct D as [D|D]; [rewrite (L1 E D)|rewrite (L2 D)]; repeat split; intros; try lia; tauto.
Qed.
Theorem C13_legendre_decides : forall x, canon x ->
  (legendre x = 1 <-> val x <> 0 /\ is_square (val x)) /\ (legendre x = -1 <-> ~ is_square (val x)) /\ (legendre x = 0 <-> val x = 0).
Proof. exact legendre_decides. Qed.
(** All three classes occur. *)
Example C13_ex : legendre fp_four = 1 /\ legendre fp_minus_one = -1 /\ legendre fp_zero = 0.
Proof.
  split; [|split].
  - apply legendre_square; [apply canon_four|rewrite val_four; lia|apply C12_ex_square].
  - apply legendre_nonsquare; [apply canon_minus_one|apply C12_ex_nonsquare].
  - apply legendre_zero; [apply canon_zero|apply val_zero].
Qed.

Print Assumptions C13_legendre_square.
Print Assumptions C13_legendre_nonsquare.
Print Assumptions C13_legendre_zero.
Print Assumptions C13_legendre_decides.
