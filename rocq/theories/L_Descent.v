(** Divisibility by two on Montgomery curves over an abstract field: a double has square abscissa differences with the 2-torsion points,
    and the differences are multiplicative modulo squares. *)
From Coq Require Import Arith ZArith List Bool Ring Field Lia.
From Verif Require Import S_Curve L_Group L_Kummer L_Weil L_Field.

Section Descent.
Context {K : Type} {k0 k1 : K} {kadd kmul ksub : K -> K -> K} {kopp : K -> K} {kdiv : K -> K -> K} {kinv : K -> K} {keq : K -> K -> bool}.
Context (FT : field_theory k0 k1 kadd kmul ksub kopp kdiv kinv (@eq K)).
Context (keq_ok : forall x y, keq x y = true <-> x = y).
Context (two_nz : kadd k1 k1 <> k0).
Context {A : K}.
Context (smooth : kmul A A <> kadd (kadd k1 k1) (kadd k1 k1)).
Add Field Kfield : FT.
Local Notation "0" := k0. Local Notation "1" := k1.
Local Notation "2" := (kadd k1 k1). Local Notation "3" := (kadd (kadd k1 k1) k1). Local Notation "4" := (kadd (kadd k1 k1) (kadd k1 k1)).
Local Infix "+" := kadd. Local Infix "*" := kmul. Local Infix "-" := ksub. Local Infix "/" := kdiv. Local Notation "- x" := (kopp x).
Local Notation on := (on kadd kmul A).
Local Notation padd := (padd k1 kadd kmul ksub kopp kdiv keq A).
Local Notation popp := (popp kopp).
Local Notation sq := (ksq kmul).

(** e is the abscissa of a point of order two *)
Definition root2 (e : K) : Prop := e * (e * e) + A * (e * e) + e = 0.
Lemma root2_0 : root2 0. Proof. unfold root2. ring. Qed.
Lemma root2_a a : a * a + A * a + 1 = 0 -> root2 a.
Proof. intros H. unfold root2. transitivity (a * (a * a + A * a + 1)); [ring|rewrite H; ring]. Qed.
Lemma root2_inv e : root2 e -> e = 0 \/ e * e + A * e + 1 = 0.
Proof. unfold root2. intros H. apply (mul0 FT keq_ok). rewrite <- H. ring. Qed.
Lemma root2_on e : root2 e <-> on (Some (e, 0)).
Proof. unfold root2. cbn. split; intros H; [rewrite H; ring|rewrite <- H; ring]. Qed.
(** the difference with e of the abscissa of a double is a square *)
Lemma dbl_sq e x y x3 y3 : root2 e -> on (Some (x, y)) -> padd (Some (x, y)) (Some (x, y)) = Some (x3, y3) -> sq (x3 - e).
Proof.
  intros R H D. destruct (keq_dec keq_ok y 0) as [Y|Y]; [rewrite (dbl_inf FT keq_ok x y H Y) in D; discriminate|].
  rewrite (dbl_fin FT keq_ok two_nz x y H Y) in D. injection D as <- _. cbn in H.
  assert (N4 : 4 <> 0) by exact (four_nz FT keq_ok two_nz).
  assert (N : 2 * y <> 0) by (apply (mulr_nz FT keq_ok); auto). assert (N22 : 2 * 2 <> 0) by (apply (mulr_nz FT keq_ok); auto).
  destruct (root2_inv e R) as [->|Q].
  - exists ((x * x - 1) / (2 * y)). field. repeat split; auto.
  - assert (QA : A * e = - (e * e) - 1) by (transitivity (e * e + A * e + 1 - (e * e) - 1); [ring|rewrite Q; ring]).
    exists ((x * x - 2 * e * x + 1) / (2 * y)).
    transitivity (((x * x - 1) * (x * x - 1) - 4 * (y * y) * e) / (4 * (y * y))); [|field; repeat split; auto].
    transitivity ((x * x - 2 * e * x + 1) * (x * x - 2 * e * x + 1) / (4 * (y * y))); [field; auto|]. f_equal. rewrite H.
    transitivity ((x * x - 1) * (x * x - 1) - 4 * (x * (x * x) * e + A * e * (x * x) + x * e)); [rewrite QA; ring|ring].
Qed.
(** the differences with e are multiplicative modulo squares *)
Lemma sum_sq e x1 y1 x2 y2 x3 y3 : root2 e -> on (Some (x1, y1)) -> on (Some (x2, y2)) -> padd (Some (x1, y1)) (Some (x2, y2)) = Some (x3, y3) -> sq ((x1 - e) * (x2 - e) * (x3 - e)).
Proof.
  intros R H1 H2 D. destruct (keq_dec keq_ok x1 x2) as [Ex|Nx].
  - destruct (same_x FT keq_ok x1 y1 y2 H1 ltac:(rewrite Ex; exact H2)) as [Ey|Ey].
    + subst x2 y2. destruct (dbl_sq e _ _ _ _ R H1 D) as [w Hw]. exists ((x1 - e) * w). rewrite <- Hw. ring.
    + exfalso. cbn in D. rewrite (proj2 (keq_ok _ _) Ex), (proj2 (keq_ok _ _) Ey) in D. discriminate.
  - assert (NO : ~ (x1 = x2 /\ y1 = - y2)) by tauto.
    destruct (padd_slope FT keq_ok two_nz x1 y1 x2 y2 H1 H2 NO) as (m & S & E). rewrite E in D. unfold chord in D. injection D as D _.
    pose proof (vieta FT x1 y1 x2 y2 m x3 e 0 H1 H2 S (eq_sym D) (proj1 (root2_on e) R)) as V.
    exists (y1 + m * (e - x1)). transitivity ((0 - y1 - m * (e - x1)) * (- 0 - y1 - m * (e - x1))); [ring|]. rewrite V. ring.
Qed.
(** the three roots *)
Lemma root2_split a b x : a * b = 1 -> a + b = - A -> x * (x * x) + A * (x * x) + x = x * (x - a) * (x - b).
Proof. intros H1 H2. transitivity (x * (x * x - (a + b) * x + a * b)); [rewrite H1, H2; ring|ring]. Qed.
Lemma root2_pair a : a * a + A * a + 1 = 0 -> exists b, a * b = 1 /\ a + b = - A /\ a <> 0 /\ b <> 0 /\ a <> b /\ b * b + A * b + 1 = 0.
Proof.
  intros H. assert (P1 : a * (- A - a) = 1) by (transitivity (1 - (a * a + A * a + 1)); [ring|rewrite H; ring]).
  assert (Na : a <> 0) by (intros Z; apply (F_1_neq_0 FT); rewrite <- P1, Z; ring).
  assert (Nb : - A - a <> 0) by (intros Z; apply (F_1_neq_0 FT); rewrite <- P1, Z; ring).
  exists (- A - a). repeat split; auto; [ring| |transitivity (a * a + A * a + 1); [ring|exact H]].
  intros E. apply smooth. assert (EA : A = - (a + a)) by (transitivity (- ((- A - a) + a) ); [ring|rewrite <- E; ring]).
  rewrite <- E in P1. rewrite EA. transitivity (4 * (a * a)); [ring|rewrite P1; ring].
Qed.
(** halving: if the three differences are squares the point is a double *)
Lemma halve a b x y s t u : a * b = 1 -> a + b = - A -> a <> 0 -> b <> 0 -> a <> b -> s * s = x -> t * t = x - a -> u * u = x - b -> on (Some (x, y)) ->
  exists r, on r /\ padd r r = Some (x, y).
Proof.
  intros H1 H2 Na Nb Nab Hs Ht Hu H.
  assert (M : forall s, s * s = x -> s * t * u = y -> exists r, on r /\ padd r r = Some (x, y)).
  { clear s Hs. intros s Hs Hy.
    assert (N1 : s + t <> 0). { intros Z. apply Na. transitivity (x - t * t); [rewrite Ht; ring|]. rewrite <- Hs. transitivity ((s + t) * (s - t)); [ring|rewrite Z; ring]. }
    assert (N2 : s + u <> 0). { intros Z. apply Nb. transitivity (x - u * u); [rewrite Hu; ring|]. rewrite <- Hs. transitivity ((s + u) * (s - u)); [ring|rewrite Z; ring]. }
    assert (N3 : t + u <> 0). { intros Z. apply Nab. transitivity (x - t * t); [rewrite Ht; ring|]. transitivity (x - u * u); [|rewrite Hu; ring]. f_equal. transitivity (u * u + (t + u) * (t - u)); [ring|rewrite Z; ring]. }
    assert (Ny : (s + t) * (s + u) * (t + u) <> 0) by (apply (mulr_nz FT keq_ok); [apply (mulr_nz FT keq_ok)|]; assumption).
    assert (EA : A = - (x - t * t + (x - u * u))) by (transitivity (- (a + b)); [rewrite H2; ring|f_equal; f_equal; [rewrite Ht|rewrite Hu]; ring]).
    assert (E1 : (x - t * t) * (x - u * u) = 1) by (rewrite <- H1; f_equal; [rewrite Ht|rewrite Hu]; ring).
    set (X := x + s * t + s * u + t * u). set (Y := (s + t) * (s + u) * (t + u)).
    assert (OR : on (Some (X, Y))).
    { cbn. transitivity (X * (X - (x - t * t)) * (X - (x - u * u))); [unfold X, Y; rewrite <- Hs; ring|]. symmetry. apply root2_split; [exact E1|rewrite EA; ring]. }
    exists (Some (X, Y)). split; [exact OR|].
    assert (SL : slope (k1 := k1) (kadd := kadd) (kmul := kmul) (ksub := ksub) (A := A) X Y X Y (s + t + u)).
    { split; [ring|]. transitivity (X * (X - (x - t * t)) + (X - (x - t * t)) * (X - (x - u * u)) + X * (X - (x - u * u))); [unfold X, Y; rewrite <- Hs; ring|].
      transitivity (3 * (X * X) - 2 * ((x - t * t) + (x - u * u)) * X + (x - t * t) * (x - u * u)); [ring|]. rewrite E1, EA. ring. }
    rewrite (padd_finite FT keq_ok two_nz X Y X Y (s + t + u) OR OR) ; [| |exact SL].
    - unfold chord. assert (EX : (s + t + u) * (s + t + u) - A - X - X = x) by (rewrite EA; unfold X; rewrite <- Hs; ring).
      rewrite EX. f_equal. f_equal. unfold X, Y. rewrite <- Hy. ring.
    - intros [_ E]. apply Ny. apply (double_0 FT two_nz). exact E. }
  assert (Q : (s * t * u - y) * (s * t * u + y) = 0).
  { transitivity ((s * s) * (t * t) * (u * u) - y * y); [ring|]. rewrite Hs, Ht, Hu. cbn in H. rewrite H, (root2_split a b x H1 H2). ring. }
  destruct (mul0 FT keq_ok _ _ Q) as [Z|Z].
  - apply (M s Hs). exact (sub_eq FT _ _ Z).
  - apply (M (- s)); [rewrite <- Hs; ring|]. transitivity (y - (s * t * u + y)); [ring|rewrite Z; ring].
Qed.
End Descent.
