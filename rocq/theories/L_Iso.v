(** The isomorphism of Montgomery curves computed by eccore.rs:796-822 is a group homomorphism; generic over fields. *)
From Coq Require Import ZArith List Bool Ring Field Lia.
From Verif Require Import M_Field M_Curve S_Curve L_Group L_Kummer L_Field L_Curve.
Section Iso.
Context {F : Type} {o : fops F}.
Context {K : Type} {k0 k1 : K} {kadd kmul ksub : K -> K -> K} {kopp : K -> K} {kdiv : K -> K -> K} {kinv : K -> K} {keq : K -> K -> bool} {v : F -> K}.
Context (L : flaws o k0 k1 kadd kmul ksub kopp kdiv kinv keq v).
Let FT := l_ft _ _ _ _ _ _ _ _ _ _ _ L.
Let keq_ok := l_keq _ _ _ _ _ _ _ _ _ _ _ L.
Let two_nz := l_two_nz _ _ _ _ _ _ _ _ _ _ _ L.
Add Field Kfield : FT.
Local Notation "0" := k0. Local Notation "1" := k1.
Local Notation "2" := (kadd k1 k1). Local Notation "3" := (kadd (kadd k1 k1) k1). Local Notation "4" := (kadd (kadd k1 k1) (kadd k1 k1)).
Local Infix "+" := kadd. Local Infix "*" := kmul. Local Infix "-" := ksub. Local Infix "/" := kdiv. Local Notation "- x" := (kopp x).
Local Notation on := (on kadd kmul).
Local Notation padd := (padd k1 kadd kmul ksub kopp kdiv keq).
Local Notation popp := (popp kopp).
Local Notation pmul_nat := (pmul_nat k1 kadd kmul ksub kopp kdiv keq).
Let nzm := mulr_nz FT keq_ok.
Local Notation jinv := (jinv (k1 := k1) (kadd := kadd) (kmul := kmul) (ksub := ksub) (kdiv := kdiv)).
Lemma iso_facts a b : a * a <> 4 -> b * b <> 4 -> jinv a = jinv b -> a * a <> b * b -> a <> 0 -> b <> 0 ->
  let vv := (a * a + 2 * (b * b) - 3 * 3) / (a * (3 - b * b)) in let u := (3 * vv + a) / b in
  vv * vv + a * vv + 1 = 0 /\ b * u = 3 * vv + a /\ u * u = 3 * (vv * vv) + 2 * a * vv + 1 /\ u <> 0.
Proof.
  intros Na Nb J D A0 B0 vv u. pose proof (iso_relation L a b Na Nb J D) as R. cbv zeta in R. set (s := a * a - 3) in *. set (t := b * b - 3) in *.
  assert (T : t <> 0). { intros T. rewrite T in R. apply D. assert (s * s = 0) by (transitivity (s * s + s * 0 + 0 * 0); [ring|rewrite <- R; ring]).
    destruct (mul0 FT keq_ok _ _ H) as [Hs|Hs]; (transitivity (s + 3); [unfold s; ring|]; rewrite Hs; rewrite <- T; unfold t; ring). }
  assert (T' : 3 - b * b <> 0). { intros C. apply T. unfold t. transitivity (- (3 - b * b)); [ring|rewrite C; ring]. }
  assert (AV : a * vv * t = - (s + 2 * t)). { replace t with (- (3 - b * b)) at 1 by (unfold t; ring). unfold vv. set (d := 3 - b * b) in *. transitivity (- (a * a + 2 * (b * b) - 3 * 3)); [field; auto|unfold s, t; ring]. }
  assert (V1 : vv * vv + a * vv + 1 = 0).
  { apply (cancel FT (a * a * (t * t))); [auto using nzm|]. transitivity ((a * vv * t) * (a * vv * t) + a * a * t * (a * vv * t) + a * a * (t * t)); [ring|]. rewrite AV.
    transitivity (s * s + s * t + t * t - s * t * (s + t)); [unfold s, t; ring|]. rewrite R. ring. }
  assert (BU : b * u = 3 * vv + a) by (unfold u; field; auto).
  assert (U2 : u * u = 3 * (vv * vv) + 2 * a * vv + 1).
  { apply (cancel FT (b * b * t)); [auto using nzm|]. transitivity ((b * u) * (b * u) * t); [ring|]. rewrite BU.
    transitivity ((t + 3) * (3 * (vv * vv + a * vv + 1) * t - (a * vv * t) - 2 * t)); [|unfold t; ring]. rewrite V1, AV.
    transitivity (3 * 3 * (vv * vv + a * vv + 1) * t - 3 * (a * vv * t) + (a * a - 3 * 3) * t); [ring|]. rewrite V1, AV. unfold s. ring. }
  split; [exact V1|]. split; [exact BU|]. split; [exact U2|]. clearbody u vv. intros U0. apply Na. rewrite U0 in U2.
  (* v (2 v + a) = 0 with v <> 0 gives a = - 2 v and v^2 = 1 *)
  assert (P0 : vv * (2 * vv + a) = 0) by (transitivity (0 * 0 - (vv * vv + a * vv + 1)); [rewrite U2; ring|rewrite V1; ring]).
  destruct (mul0 FT keq_ok _ _ P0) as [V0|V0].
  - exfalso. apply (F_1_neq_0 FT). rewrite V0 in V1. rewrite <- V1. ring.
  - assert (Ea : a = - (2 * vv)) by (transitivity (2 * vv + a - 2 * vv); [ring|rewrite V0; ring]). subst a. assert (vv * vv = 1) as V2 by (transitivity (1 - (vv * vv + - (2 * vv) * vv + 1)); [ring|rewrite V1; ring]).
    transitivity (4 * (vv * vv)); [ring|rewrite V2; ring].
Qed.

Lemma iso_opp a : a <> 0 -> 3 - a * a <> 0 -> a * (((- a) * (- a) + 2 * (a * a) - 3 * 3) / ((- a) * (3 - a * a))) = 3.
Proof.
  intros A0 D3. set (d := 3 - a * a) in *. replace ((- a) * (- a) + 2 * (a * a) - 3 * 3) with (- (3 * d)) by (unfold d; ring). generalize dependent d. intros d D3. assert (M0 : - a <> 0) by (intros X; apply A0; transitivity (- - a); [ring|rewrite X; ring]).
  rewrite (div_eq FT _ _ (3 / a)); [field; exact A0|auto using nzm|field; exact A0].
Qed.
(** the map (x,y) -> (u x + v, w y) *)
Section Map.
Context (a b u vv w : K) (V1 : vv * vv + a * vv + 1 = 0) (BU : b * u = 3 * vv + a) (U2 : u * u = 3 * (vv * vv) + 2 * a * vv + 1) (U0 : u <> 0) (W2 : w * w = u * (u * u)).
Definition im (p : pt K) : pt K := match p with None => None | Some (x, y) => Some (u * x + vv, w * y) end.
Lemma w_nz : w <> 0.
Proof. intros W0. apply (nzm u (u * u) U0 (nzm u u U0 U0)). rewrite <- W2, W0. ring. Qed.
Lemma im_on p : on b p -> on a (im p).
Proof.
  destruct p as [[x y]|]; [|intros _; exact I]. unfold S_Curve.on. cbn [im]. intros H.
  transitivity (w * w * (y * y)); [ring|]. rewrite W2, H. symmetry.
  transitivity (u * (u * u) * (x * (x * x)) + u * u * (3 * vv + a) * (x * x) + u * (3 * (vv * vv) + 2 * a * vv + 1) * x + vv * (vv * vv + a * vv + 1)); [ring|].
  rewrite <- BU, <- U2, V1. ring.
Qed.
Lemma im_None p : im p = None -> p = None. Proof. destruct p as [[x y]|]; [discriminate|reflexivity]. Qed.
Lemma im_inj p q : im p = im q -> p = q.
Proof.
  destruct p as [[x y]|], q as [[x' y']|]; try discriminate; [|reflexivity]. intros H. injection H as H1 H2. f_equal. f_equal.
  - apply (cancel FT u); [exact U0|]. transitivity (u * x + vv - vv); [ring|rewrite H1; ring].
  - apply (cancel FT w); [exact w_nz|exact H2].
Qed.
Lemma im_opp p : im (popp p) = popp (im p).
Proof. destruct p as [[x y]|]; [|reflexivity]. cbn [im S_Curve.popp]. f_equal. f_equal. ring. Qed.
Lemma keq_f x y : keq x y = true <-> x = y. Proof. apply keq_ok. Qed.
Lemma im_eqx x x' : keq (u * x + vv) (u * x' + vv) = keq x x'.
Proof.
  destruct (keq x x') eqn:E; [apply keq_f in E; rewrite E; apply keq_f; reflexivity|]. destruct (keq (u * x + vv) _) eqn:E2; [|reflexivity]. apply keq_f in E2.
  assert (X : x = x') by (apply (cancel FT u); [exact U0|]; transitivity (u * x + vv - vv); [ring|rewrite E2; ring]). apply keq_f in X. congruence.
Qed.
Lemma im_eqy y y' : keq (w * y) (- (w * y')) = keq y (- y').
Proof.
  destruct (keq y (- y')) eqn:E; [apply keq_f in E; subst y; apply keq_f; ring|]. destruct (keq (w * y) _) eqn:E2; [|reflexivity]. apply keq_f in E2.
  assert (X : y = - y') by (apply (cancel FT w); [exact w_nz|]; rewrite E2; ring). apply keq_f in X. congruence.
Qed.
Lemma im_chord m m' x1 y1 x2 : m' * u = w * m -> chord kmul ksub a m' (u * x1 + vv) (w * y1) (u * x2 + vv) = im (chord kmul ksub b m x1 y1 x2).
Proof.
  intros M. unfold chord. cbn [im]. assert (M2 : m' * m' = u * (m * m)).
  { apply (cancel FT (u * u)); [auto using nzm|]. transitivity ((m' * u) * (m' * u)); [ring|]. rewrite M. transitivity (w * w * (m * m)); [ring|]. rewrite W2. ring. }
  assert (X : m' * m' - a - (u * x1 + vv) - (u * x2 + vv) = u * (m * m - b - x1 - x2) + vv).
  { rewrite M2. transitivity (u * (m * m) - u * x1 - u * x2 - (3 * vv + a) + vv); [ring|]. rewrite <- BU. ring. }
  rewrite X. f_equal. f_equal. transitivity (m' * u * (x1 - (m * m - b - x1 - x2)) - w * y1); [ring|]. rewrite M. ring.
Qed.
Lemma im_add p q : on b p -> on b q -> im (padd b p q) = padd a (im p) (im q).
Proof.
  destruct p as [[x1 y1]|], q as [[x2 y2]|]; try reflexivity. intros H1 H2. unfold S_Curve.padd. cbn [im]. rewrite im_eqx, im_eqy. destruct (keq x1 x2) eqn:EX.
  - apply keq_f in EX. subst x2. destruct (keq y1 (- y2)) eqn:EY; [reflexivity|]. symmetry. apply im_chord.
    assert (Y0 : 2 * y1 <> 0). { intros Y. assert (y1 = 0) by (destruct (mul0 FT keq_ok _ _ Y) as [Z|Z]; [elim two_nz; exact Z|exact Z]). subst y1. unfold S_Curve.on in H1, H2. assert (Z : y2 * y2 = 0) by (rewrite H2, <- H1; ring).
      assert (y2 = 0) by (destruct (mul0 FT keq_ok _ _ Z) as [Q|Q]; exact Q). subst y2. assert (X : keq 0 (- 0) = true) by (apply keq_f; ring). congruence. }
    assert (W0 := w_nz). assert (N : 3 * ((u * x1 + vv) * (u * x1 + vv)) + 2 * (a * (u * x1 + vv)) + 1 = u * u * (3 * (x1 * x1) + 2 * (b * x1) + 1)).
    { transitivity (3 * (u * u) * (x1 * x1) + 2 * u * (3 * vv + a) * x1 + (3 * (vv * vv) + 2 * a * vv + 1)); [ring|]. rewrite <- BU, <- U2. ring. }
    rewrite N. set (n := 3 * (x1 * x1) + _ + 1). apply (cancel FT (2 * (w * y1))). { intros C. apply (nzm w (2 * y1) W0 Y0). rewrite <- C. ring. }
    assert (Y1 : y1 <> 0) by (intros ->; apply Y0; ring). transitivity (u * (u * u) * n); [field; split; [exact Y1|]; split; assumption|]. rewrite <- W2. field. split; assumption.
  - symmetry. apply im_chord. assert (X0 : x2 - x1 <> 0). { intros C. assert (x1 = x2) by (transitivity (x2 - (x2 - x1)); [ring|rewrite C; ring]). apply keq_f in H. congruence. }
    assert (X1 : u * x2 + vv - (u * x1 + vv) = u * (x2 - x1)) by ring. rewrite X1. set (d := x2 - x1) in *. field. split; assumption.
Qed.
Lemma im_mul n p : on b p -> im (pmul_nat b n p) = pmul_nat a n (im p).
Proof.
  intros H. induction n as [|n IH]; [reflexivity|]. cbn [S_Curve.pmul_nat]. rewrite im_add; [rewrite IH; reflexivity| |exact H]. apply (pmul_nat_on FT keq_ok two_nz). exact H.
Qed.
End Map.
End Iso.
