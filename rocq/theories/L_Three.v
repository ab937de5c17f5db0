(** Two independent points of order three: y^2 = x^3 - (78/v) x^2 + x with v^2 = -3087, abscissas 147/v and -49/v, over any field with such a v. Used by the examples. *)
From Coq Require Import Arith ZArith List Bool Ring Field Lia.
From Verif Require Import S_Curve L_Group.
Import ListNotations.

Section N3.
Context {K : Type} {k0 k1 : K} {kadd kmul ksub : K -> K -> K} {kopp : K -> K} {kdiv : K -> K -> K} {kinv : K -> K} {keq : K -> K -> bool}.
Context (FT : field_theory k0 k1 kadd kmul ksub kopp kdiv kinv (@eq K)) (keq_ok : forall x y, keq x y = true <-> x = y).
Add Field K3field : FT.
Local Notation "0" := k0. Local Notation "1" := k1.
Local Notation "2" := (kadd k1 k1). Local Notation "3" := (kadd (kadd k1 k1) k1).
Local Infix "+" := kadd. Local Infix "*" := kmul. Local Infix "-" := ksub. Local Infix "/" := kdiv. Local Notation "- x" := (kopp x).
Local Notation on := (on kadd kmul).
Local Notation padd := (padd k1 kadd kmul ksub kopp kdiv keq).
Local Notation popp := (popp kopp).
Local Notation "4" := (2 * 2). Local Notation "7" := (2 * 2 + 3). Local Notation "13" := (2 * 2 * 3 + 1).
Context (n2 : 2 <> 0).
Lemma m3_nz x y : x <> 0 -> y <> 0 -> x * y <> 0. Proof. exact (mulr_nz FT keq_ok x y). Qed.

Ltac sc := repeat split; repeat apply m3_nz; try assumption.
(** a root of the 3-division polynomial *)
Lemma three A x y : on A (Some (x, y)) -> y <> 0 -> 3 * (x * x * x * x) + 4 * A * (x * x * x) + 2 * 3 * (x * x) = 1 -> padd A (Some (x, y)) (Some (x, y)) = popp (Some (x, y)).
Proof.
  intros H N R. cbn [S_Curve.on] in H. cbn [S_Curve.padd S_Curve.popp]. assert (Nd : y <> - y) by (intros E; apply (mulr_nz FT keq_ok 2 y n2 N); transitivity (y + y); [ring|]; rewrite E at 1; ring).
  rewrite (proj2 (keq_ok x x) eq_refl), (keq_false keq_ok _ _ Nd). unfold chord. set (l := (3 * (x * x) + 2 * (A * x) + 1) / (2 * y)).
  assert (L : l * l = A + 3 * x).
  { unfold l. assert (Q : (3 * (x * x) + 2 * (A * x) + 1) * (3 * (x * x) + 2 * (A * x) + 1) = 4 * (y * y) * (A + 3 * x)) by (rewrite H; transitivity (4 * (x * x * x + A * (x * x) + x) * (A + 3 * x) - (3 * (x * x * x * x) + 4 * A * (x * x * x) + 2 * 3 * (x * x) - 1)); [ring|rewrite R; ring]).
    transitivity ((3 * (x * x) + 2 * (A * x) + 1) * (3 * (x * x) + 2 * (A * x) + 1) / (4 * (y * y))); [field; sc|]. rewrite Q. field. sc. }
  clearbody l. assert (X : l * l - A - x - x = x) by (rewrite L; ring). rewrite X. do 2 f_equal. ring.
Qed.
Context (n3 : 3 <> 0) (v : K) (Hv : v * v = - (3 * 3 * 7 * 7 * 7)) (nv : v <> 0).
Definition w3A : K := - (2 * 3 * 13) / v.
Lemma w3_P y : y * y = - (4 * 4 * 3 * 7) / v -> on w3A (Some (3 * 7 * 7 / v, y)).
Proof. intros H. cbn [S_Curve.on]. rewrite H. unfold w3A. field [Hv]. exact nv. Qed.
Lemma n9 : 1 + 2 * 4 <> 0. Proof. intros E. apply (m3_nz 3 3 n3 n3). rewrite <- E. ring. Qed.
Lemma n3' : 1 + 2 <> 0. Proof. intros E. apply n3. rewrite <- E. ring. Qed.
Lemma w3_Q z : z * z = 4 * 4 * 4 * 7 / v -> on w3A (Some (- (7 * 7) / v, z / 3)).
Proof. intros H. pose proof n9. pose proof n3'. cbn [S_Curve.on]. transitivity (z * z / (3 * 3)); [field; sc|]. rewrite H. unfold w3A. field [Hv]. sc. Qed.
Lemma w3_P3 : let x := 3 * 7 * 7 / v in 3 * (x * x * x * x) + 4 * w3A * (x * x * x) + 2 * 3 * (x * x) = 1.
Proof. intros x. unfold x, w3A. field [Hv]. exact nv. Qed.
Lemma w3_Q3 : let x := - (7 * 7) / v in 3 * (x * x * x * x) + 4 * w3A * (x * x * x) + 2 * 3 * (x * x) = 1.
Proof. intros x. unfold x, w3A. field [Hv]. exact nv. Qed.
End N3.
