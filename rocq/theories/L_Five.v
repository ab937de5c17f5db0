(** A point of order five: y^2 = x^3 + 25/(4 t^2) x^2 + x with t^4 = -32 (the curve y^2 = x^3 + (25/4) x^2 - 32 x and its point (16, 72), rescaled), over any field with such a t. Used by the examples. *)
From Coq Require Import Arith ZArith List Bool Ring Field Lia.
From Verif Require Import S_Curve L_Group.
Import ListNotations.

Section N5.
Context {K : Type} {k0 k1 : K} {kadd kmul ksub : K -> K -> K} {kopp : K -> K} {kdiv : K -> K -> K} {kinv : K -> K} {keq : K -> K -> bool}.
Context (FT : field_theory k0 k1 kadd kmul ksub kopp kdiv kinv (@eq K)) (keq_ok : forall x y, keq x y = true <-> x = y).
Add Field K5field : FT.
Local Notation "0" := k0. Local Notation "1" := k1.
Local Notation "2" := (kadd k1 k1). Local Notation "3" := (kadd (kadd k1 k1) k1).
Local Infix "+" := kadd. Local Infix "*" := kmul. Local Infix "-" := ksub. Local Infix "/" := kdiv. Local Notation "- x" := (kopp x).
Local Notation on := (on kadd kmul).
Local Notation padd := (padd k1 kadd kmul ksub kopp kdiv keq).
Local Notation popp := (popp kopp).
Local Notation pmul_nat := (pmul_nat k1 kadd kmul ksub kopp kdiv keq).
Local Notation "4" := (2 * 2). Local Notation "5" := (2 + 3). Local Notation "16" := (4 * 4). Local Notation "72" := (4 * (2 * 3 * 3)). Local Notation "6" := (2 * 3).
Context (n2 : 2 <> 0) (n3 : 3 <> 0) (t : K) (Ht : t * t * (t * t) = - (16 * 2)).
Definition v5A : K := 5 * 5 / (4 * (t * t)).
Definition v5x : K := 16 / (t * t).
Definition v5y : K := 72 / (t * t * t).
Definition v5P : pt K := Some (v5x, v5y).
Definition v5Q : pt K := Some (4 / (t * t), 6 / (t * t * t)).
Local Notation A := v5A.
Lemma m_nz x y : x <> 0 -> y <> 0 -> x * y <> 0. Proof. exact (mulr_nz FT keq_ok x y). Qed.
Lemma t_nz : t <> 0.
Proof. intros E. apply (m_nz _ _ (m_nz _ _ (m_nz _ _ n2 n2) (m_nz _ _ n2 n2)) n2). transitivity (- (t * t * (t * t))); [rewrite Ht; ring|rewrite E; ring]. Qed.
Ltac sc := repeat split; repeat apply m_nz; first [exact t_nz | exact n2 | exact n3].
Ltac ff := unfold v5A, v5x, v5y; field [Ht]; sc.
Lemma v5_onP : on A v5P. Proof. cbn [S_Curve.on v5P]. ff. Qed.
Lemma v5_onQ : on A v5Q. Proof. cbn [S_Curve.on v5Q]. ff. Qed.
(** A^2 - 4 = (625 + 16 * 4 * 32) / (16 * t^4) = 2673 / (16 t^4) = 3^5 * 11 / (16 t^4) *)
Lemma v5_smooth : 3 * 3 + 2 <> 0 -> A * A <> 2 + 2.
Proof.
  intros n11 E. apply (m_nz (3 * 3 * 3 * 3 * 3) (3 * 3 + 2)); [sc|exact n11|]. transitivity ((A * A - (2 + 2)) * (16 * (t * t * (t * t)))); [|rewrite E; ring]. unfold v5A.
  transitivity (5 * 5 * (5 * 5) - 4 * (16 * (t * t * (t * t)))); [rewrite Ht; ring|]. field. sc.
Qed.
Lemma y_nz a : a <> 0 -> a / (t * t * t) <> 0.
Proof. intros N E. apply N. transitivity (a / (t * t * t) * (t * t * t)); [field; sc|rewrite E; ring]. Qed.
Lemma k5_t x : keq x x = true. Proof. apply keq_ok. reflexivity. Qed.
Lemma k5_f x y : x <> y -> keq x y = false. Proof. exact (keq_false keq_ok x y). Qed.
Lemma dbl5 y : y <> 0 -> y <> - y. Proof. intros N E. apply (m_nz 2 y n2 N). transitivity (y + y); [ring|]. rewrite E at 1. ring. Qed.
Lemma div5 a b c : b <> 0 -> a = c * b -> a / b = c. Proof. intros N ->. field. exact N. Qed.
Lemma v5_2P : padd A v5P v5P = v5Q.
Proof.
  unfold v5P, v5Q. cbn [S_Curve.padd]. assert (N : v5y <> 0) by (apply y_nz; sc). rewrite k5_t, (k5_f _ _ (dbl5 _ N)). unfold chord.
  assert (M : (3 * (v5x * v5x) + 2 * (A * v5x) + 1) / (2 * v5y) = (3 * 3 + 4) / (2 * t)) by (apply div5; [apply m_nz; [exact n2|exact N]|ff]). rewrite M.
  apply f_equal. apply f_equal2; [ff|]. ff.
Qed.
Lemma v5_2Q : padd A v5Q v5Q = popp v5P.
Proof.
  unfold v5P, v5Q. cbn [S_Curve.padd S_Curve.popp]. set (x := 4 / (t * t)). set (y := 6 / (t * t * t)). assert (N : y <> 0) by (apply y_nz; sc). rewrite k5_t, (k5_f _ _ (dbl5 _ N)). unfold chord.
  assert (M : (3 * (x * x) + 2 * (A * x) + 1) / (2 * y) = (3 * 3 + 2) / (2 * t)) by (apply div5; [apply m_nz; [exact n2|exact N]|unfold x, y; ff]). rewrite M.
  apply f_equal. apply f_equal2; unfold x, y; ff.
Qed.
Lemma v5_x : 16 / (t * t) <> 4 / (t * t).
Proof. intros E. apply (m_nz 4 3); [sc|sc|]. transitivity ((16 / (t * t) - 4 / (t * t)) * (t * t)); [field; sc|rewrite E; ring]. Qed.
Lemma v5_order : 3 * 3 + 2 <> 0 -> pmul_nat A 5 v5P = None /\ forall k, (0 < k < 5)%nat -> pmul_nat A k v5P <> None.
Proof.
  intros n11. pose proof (v5_smooth n11) as SM. assert (M1 : pmul_nat A 1 v5P = v5P) by reflexivity. assert (M2 : pmul_nat A 2 v5P = v5Q) by (cbn [S_Curve.pmul_nat]; rewrite padd_0_l; exact v5_2P).
  assert (M4 : pmul_nat A 4 v5P = popp v5P) by (change 4%nat with (2 + 2)%nat; rewrite (pmul_nat_add FT keq_ok n2 SM) by exact v5_onP; rewrite M2; exact v5_2Q).
  assert (M5 : pmul_nat A 5 v5P = None).
  { change 5%nat with (1 + 4)%nat. rewrite (pmul_nat_add FT keq_ok n2 SM) by exact v5_onP. rewrite M1, M4. apply (padd_opp_r FT keq_ok). exact v5_onP. }
  split; [exact M5|]. intros k Hk. assert (C : k = 1%nat \/ k = 2%nat \/ k = 3%nat \/ k = 4%nat) by lia. destruct C as [->|[->|[->| ->]]]; [discriminate|rewrite M2; discriminate| |rewrite M4; discriminate].
  change 3%nat with (1 + 2)%nat. rewrite (pmul_nat_add FT keq_ok n2 SM) by exact v5_onP. rewrite M1, M2. unfold v5P, v5Q, v5x. cbn [S_Curve.padd]. rewrite (k5_f _ _ v5_x). discriminate.
Qed.
End N5.
