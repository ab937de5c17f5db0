(** The pairing of L_Weil under a change of basis: it is raised to the determinant. *)
From Coq Require Import ZArith Znumtheory List Bool Ring Field Lia Arith.
From Verif Require Import S_Curve L_Group L_Kummer L_Weil L_Weil2.

Section Weil.
Context {K : Type} {k0 k1 : K} {kadd kmul ksub : K -> K -> K} {kopp : K -> K} {kdiv : K -> K -> K} {kinv : K -> K} {keq : K -> K -> bool}.
Context (FT : field_theory k0 k1 kadd kmul ksub kopp kdiv kinv (@eq K)).
Context (keq_ok : forall x y, keq x y = true <-> x = y).
Context (two_nz : kadd k1 k1 <> k0).
Context {A : K}.
Context (smooth : kmul A A <> kadd (kadd k1 k1) (kadd k1 k1)).
Add Field Kfield : FT.
Local Notation on := (on kadd kmul A).
Local Notation padd := (padd k1 kadd kmul ksub kopp kdiv keq A).
Local Notation pmul_nat := (pmul_nat k1 kadd kmul ksub kopp kdiv keq A).
Local Notation wp := (wp (k1 := k1) (kadd := kadd) (kmul := kmul) (ksub := ksub) (kopp := kopp) (kdiv := kdiv) (keq := keq) (A := A)).
Local Notation ee_ := (ee (k1 := k1) (kadd := kadd) (kmul := kmul) (ksub := ksub) (kopp := kopp) (kdiv := kdiv) (keq := keq) (A := A)).
Local Notation pz_ := (pz (k1 := k1) (kadd := kadd) (kmul := kmul) (ksub := ksub) (kopp := kopp) (kdiv := kdiv) (keq := keq) (A := A)).
Local Notation pw := (pw (k1 := k1) (kmul := kmul)).
Context (P Q : pt K) (HP : on P) (HQ : on Q) (n : Z) (Hn : (3 < n)%Z).
Context (OP : pmul_nat (Z.to_nat n) P = None) (OQ : pmul_nat (Z.to_nat n) Q = None).
Context (indep : forall i j : nat, padd (pmul_nat i P) (pmul_nat j Q) = None -> (n | Z.of_nat i)%Z /\ (n | Z.of_nat j)%Z).
Local Open Scope Z_scope.
Local Notation pz := (pz_ P Q n). Local Notation ee := (ee_ P Q n).
Local Notation Pz_mul := (pz_mul FT keq_ok two_nz smooth P Q HP HQ n Hn OP OQ indep).
Local Notation Pz_add := (pz_add FT keq_ok two_nz smooth P Q HP HQ n Hn OP OQ).
Local Notation Pz_None := (pz_None P Q n Hn indep).
Local Notation Pz_order := (pz_order FT keq_ok two_nz smooth P Q HP HQ n Hn OP OQ indep).

Definition det1 (i j k l : Z) : Prop := (n | dt i j k l - 1).
Lemma det1_nd i j k l : det1 i j k l -> ~ (n | dt i j k l).
Proof. intros [c Hc] [d Hd]. assert (X : (n | 1)) by (exists (d - c); lia). apply Z.divide_pos_le in X; lia. Qed.
Lemma det1_unim i j k l : det1 i j k l -> unim n k l.
Proof. intros [c Hc]. exists (- j), i, c. unfold dt in Hc. lia. Qed.
Lemma ee_eq i j k l i' j' k' l' : (n | i - i') -> (n | j - j') -> (n | k - k') -> (n | l - l') -> ee i j k l = ee i' j' k' l'.
Proof. intros A1 A2 A3 A4. unfold L_Weil.ee. rewrite (pz_mod P Q n i j i' j' A1 A2), (pz_mod P Q n k l k' l' A3 A4). reflexivity. Qed.
Section Sub.
Context (i j k l : Z) (D : det1 i j k l).
Lemma sub_pz a b : pz_ (pz i j) (pz k l) n a b = pz (a * i + b * k) (a * j + b * l).
Proof.
  unfold L_Weil.pz at 1. rewrite !Pz_mul, Pz_add. rewrite !Z2Nat.id by (apply Z.mod_pos_bound; lia). pose proof (Z.div_mod a n ltac:(lia)) as Ea. pose proof (Z.div_mod b n ltac:(lia)) as Eb.
  apply (pz_mod P Q n); [exists (- (a / n) * i - (b / n) * k)|exists (- (a / n) * j - (b / n) * l)]; rewrite Ea at 2; rewrite Eb at 2; ring.
Qed.
Lemma sub_indep : forall u v : nat, padd (pmul_nat u (pz i j)) (pmul_nat v (pz k l)) = None -> (n | Z.of_nat u) /\ (n | Z.of_nat v).
Proof.
  intros u v H. rewrite !Pz_mul, Pz_add in H. apply Pz_None in H. destruct H as [[s Hs] [t Ht]]. destruct D as [c Hc]. unfold dt in Hc. set (a := Z.of_nat u) in *. set (b := Z.of_nat v) in *. split.
  - exists (s * l - t * k - a * c). assert (X : a * (i * l - j * k) = (s * l - t * k) * n) by (transitivity ((a * i + b * k) * l - (a * j + b * l) * k); [ring|rewrite Hs, Ht; ring]). replace (i * l - j * k) with (1 + c * n) in X by lia. lia.
  - exists (t * i - s * j - b * c). assert (X : b * (i * l - j * k) = (t * i - s * j) * n) by (transitivity ((a * j + b * l) * i - (a * i + b * k) * j); [ring|rewrite Hs, Ht; ring]). replace (i * l - j * k) with (1 + c * n) in X by lia. lia.
Qed.
Lemma sub_pow (a b : nat) : (0 < a)%nat -> Z.of_nat a < n -> ee (Z.of_nat a * i + Z.of_nat b * k) (Z.of_nat a * j + Z.of_nat b * l) k l = pw (ee i j k l) a.
Proof.
  intros Ha Han.
  pose proof (ee_bilin_all FT keq_ok two_nz smooth (pz i j) (pz k l) (pz_on FT keq_ok two_nz P Q HP HQ n i j) (pz_on FT keq_ok two_nz P Q HP HQ n k l) n Hn (Pz_order i j) (Pz_order k l) sub_indep a b Ha Han) as B.
  unfold L_Weil.ee in B. rewrite !sub_pz in B. replace (0 * i + 1 * k) with k in B by ring. replace (0 * j + 1 * l) with l in B by ring. replace (1 * i + 0 * k) with i in B by ring. replace (1 * j + 0 * l) with j in B by ring. exact B.
Qed.
Lemma row1 b : ee (i + b * k) (j + b * l) k l = ee i j k l.
Proof.
  pose proof (sub_pow 1 (Z.to_nat (b mod n)) ltac:(lia) ltac:(lia)) as B. rewrite Z2Nat.id in B by (apply Z.mod_pos_bound; lia). cbn [L_Weil.pw] in B.
  transitivity (kmul k1 (ee i j k l)); [|ring]. transitivity (kmul (ee i j k l) k1); [|ring]. transitivity (pw (ee i j k l) 1); [|cbn [L_Weil.pw]; ring]. rewrite <- (sub_pow 1 (Z.to_nat (b mod n)) ltac:(lia) ltac:(lia)). rewrite Z2Nat.id by (apply Z.mod_pos_bound; lia).
  pose proof (Z.div_mod b n ltac:(lia)) as Eb. apply ee_eq; try (exists 0; ring); [exists ((b / n) * k)|exists ((b / n) * l)]; change (Z.of_nat 1) with 1; rewrite Eb at 1; ring.
Qed.
Lemma rot : ee k l (- i) (- j) = ee i j k l.
Proof.
  pose proof (det1_nd _ _ _ _ D) as N. pose proof (det1_unim _ _ _ _ D) as U.
  pose proof (ee_inv FT keq_ok two_nz smooth P Q HP HQ n Hn OP OQ indep i j k l U N) as I1.
  assert (N2 : ~ (n | dt (- i) (- j) k l)) by (replace (dt (- i) (- j) k l) with (- dt i j k l) by (unfold dt; ring); apply (nodiv_opp n); exact N).
  destruct (ee_anti FT keq_ok two_nz smooth P Q HP HQ n Hn OP OQ indep (- i) (- j) k l U N2) as (I2 & X0 & _).
  set (x := ee (- i) (- j) k l) in *. apply (cancel FT x); [exact X0|]. transitivity k1; [exact I2|]. transitivity (kmul (ee i j k l) x); [symmetry; exact I1|ring].
Qed.
End Sub.
Lemma det1_row1 i j k l b : det1 i j k l -> det1 (i + b * k) (j + b * l) k l.
Proof. unfold det1. replace (dt (i + b * k) (j + b * l) k l) with (dt i j k l) by (unfold dt; ring). auto. Qed.
Lemma det1_rot i j k l : det1 i j k l -> det1 k l (- i) (- j).
Proof. unfold det1. replace (dt k l (- i) (- j)) with (dt i j k l) by (unfold dt; ring). auto. Qed.
Lemma row2 i j k l b : det1 i j k l -> ee i j (k + b * i) (l + b * j) = ee i j k l /\ det1 i j (k + b * i) (l + b * j).
Proof.
  intros D. assert (D2 : det1 i j (k + b * i) (l + b * j)) by (unfold det1 in *; replace (dt i j (k + b * i) (l + b * j)) with (dt i j k l) by (unfold dt; ring); exact D). split; [|exact D2].
  rewrite <- (rot _ _ _ _ D2), <- (rot _ _ _ _ D). rewrite <- (row1 _ _ _ _ (det1_rot _ _ _ _ D) (- b)). f_equal; ring.
Qed.
Lemma ee_sl0 i j l : det1 i j 0 l -> ee i j 0 l = ee 1 0 0 1.
Proof.
  intros D. pose proof D as [c Hc]. unfold dt in Hc. destruct (row2 i j 0 l l D) as [E1 D1]. rewrite <- E1. set (y := l + l * j) in *.
  assert (E2 : ee i j (0 + l * i) y = ee i j 1 y) by (apply ee_eq; try (exists 0; ring); exists c; lia). rewrite E2.
  assert (D3 : det1 i j 1 y). { destruct D1 as [e He]. exists (e + c * j). unfold dt in *. replace (0 + l * i) with (1 + c * n) in He by lia. lia. }
  rewrite <- (row1 _ _ _ _ D3 (1 - i)). pose proof (det1_row1 _ _ _ _ (1 - i) D3) as D4. set (x := j + (1 - i) * y) in *. replace (i + (1 - i) * 1) with 1 in * by ring.
  destruct (row2 _ _ _ _ (-1) D4) as [E5 D5]. rewrite <- E5. replace (1 + -1 * 1) with 0 in * by ring. set (z := y + -1 * x) in *. pose proof D5 as [e He]. unfold dt in He.
  assert (E6 : ee 1 x 0 z = ee 1 x 0 1) by (apply ee_eq; try (exists 0; ring); exists e; lia). rewrite E6. assert (D6 : det1 1 x 0 1) by (exists 0; unfold dt; ring). rewrite <- (row1 _ _ _ _ D6 (- x)). f_equal; ring.
Qed.
Lemma ee_sl : forall i j k l, det1 i j k l -> ee i j k l = ee 1 0 0 1.
Proof.
  assert (G : forall m : nat, forall i j k l, (Z.abs_nat k < m)%nat -> det1 i j k l -> ee i j k l = ee 1 0 0 1); [|intros i j k l; apply (G (S (Z.abs_nat k))); lia].
  induction m as [|m IH]; [lia|]. intros i j k l Hm D. destruct (Z.eq_dec k 0) as [->|K0]; [apply ee_sl0; exact D|].
  rewrite <- (row1 _ _ _ _ D (- (i / k))). pose proof (det1_row1 _ _ _ _ (- (i / k)) D) as D1. rewrite <- (rot _ _ _ _ D1). apply IH; [|apply det1_rot; exact D1].
  replace (i + - (i / k) * k) with (i mod k) by (pose proof (Z.div_mod i k K0); lia). pose proof (Z.mod_bound_or i k K0). lia.
Qed.
Theorem ee_det i j k l : unim n k l -> ~ (n | dt i j k l) -> ee i j k l = pw (ee 1 0 0 1) (Z.to_nat (dt i j k l mod n)).
Proof.
  intros (a & b & c & U) N. set (d := dt i j k l) in *. pose proof (Z.mod_pos_bound d n ltac:(lia)) as B. assert (B0 : 0 < d mod n) by (destruct (Z.eq_dec (d mod n) 0) as [X|X]; [exfalso; apply N, Z.mod_divide; lia|lia]).
  assert (D : det1 b (- a) k l) by (exists c; unfold dt; lia). rewrite <- (ee_sl _ _ _ _ D). set (e := a * i + b * j).
  rewrite <- (sub_pow b (- a) k l D (Z.to_nat (d mod n)) (Z.to_nat (e mod n))) by lia. rewrite !Z2Nat.id by (try apply Z.mod_pos_bound; lia).
  pose proof (Z.div_mod d n ltac:(lia)) as Ed. pose proof (Z.div_mod e n ltac:(lia)) as Ee.
  assert (E1 : d * b + e * k = i * (1 + c * n)) by (rewrite <- U; unfold d, e, dt; ring). assert (E2 : d * - a + e * l = j * (1 + c * n)) by (rewrite <- U; unfold d, e, dt; ring).
  apply ee_eq; try (exists 0; ring); [exists ((d / n) * b + (e / n) * k - i * c)|exists ((d / n) * - a + (e / n) * l - j * c)].
  - replace (d mod n) with (d - n * (d / n)) by lia. replace (e mod n) with (e - n * (e / n)) by lia. lia.
  - replace (d mod n) with (d - n * (d / n)) by lia. replace (e mod n) with (e - n * (e / n)) by lia. lia.
Qed.
End Weil.
