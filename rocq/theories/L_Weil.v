(** Miller functions on a Montgomery curve over any field: the line quotients h_{p,q}, their cocycle identity and Weil reciprocity,
    leading to bilinearity of the pairing (-1)^n f_{n,P}(Q) / f_{n,Q}(P) on independent points. *)
From Coq Require Import ZArith Znumtheory List Bool Ring Field Lia Arith.
From Verif Require Import S_Curve L_Group L_Kummer.

Section Weil.
Context {K : Type} {k0 k1 : K} {kadd kmul ksub : K -> K -> K} {kopp : K -> K} {kdiv : K -> K -> K} {kinv : K -> K} {keq : K -> K -> bool}.
Context (FT : field_theory k0 k1 kadd kmul ksub kopp kdiv kinv (@eq K)).
Context (keq_ok : forall x y, keq x y = true <-> x = y).
Context (two_nz : kadd k1 k1 <> k0).
Context {A : K}.
Context (smooth : kmul A A <> kadd (kadd k1 k1) (kadd k1 k1)).
Add Field Kfield : FT.
Local Notation "0" := k0. Local Notation "1" := k1.
Local Notation "2" := (kadd k1 k1). Local Notation "3" := (kadd (kadd k1 k1) k1). Local Notation "4" := (kadd (kadd k1 k1) (kadd k1 k1)).
Local Infix "+" := kadd. Local Infix "*" := kmul. Local Infix "-" := ksub. Local Infix "/" := kdiv. Local Notation "- x" := (kopp x).
Local Notation on := (on kadd kmul A).
Local Notation padd := (padd k1 kadd kmul ksub kopp kdiv keq A).
Local Notation popp := (popp kopp).
Local Notation chord := (chord kmul ksub A).
Local Notation slope := (slope (k1 := k1) (kadd := kadd) (kmul := kmul) (ksub := ksub) (A := A)).
Local Notation pmul_nat := (pmul_nat k1 kadd kmul ksub kopp kdiv keq A).

(** the line through p and q (tangent if equal, vertical if opposite) evaluated at (x, y); p and q are finite *)
Definition line (p q : K * K) (x y : K) : K :=
  let '(x1, y1) := p in let '(x2, y2) := q in
  if keq x1 x2 then
    if keq y1 (- y2) then x - x1
    else y - y1 - (3 * (x1 * x1) + 2 * (A * x1) + 1) / (2 * y1) * (x - x1)
  else y - y1 - (y2 - y1) / (x2 - x1) * (x - x1).
(** line divided by the vertical through p + q, at a point of the curve; 1 by convention when a point is at infinity *)
Definition hh (p q : pt K) (x y : K) : K :=
  match p, q with
  | Some p', Some q' => line p' q' x y / (match padd p q with None => 1 | Some (xs, _) => x - xs end)
  | _, _ => 1
  end.
Definition hv (p q T : pt K) : K := match T with None => 1 | Some (x, y) => hh p q x y end.
Definition xdis (p T : pt K) : Prop := match p, T with Some (a, _), Some (x, _) => x <> a | _, _ => True end.

Lemma keq_t x : keq x x = true. Proof. apply keq_ok. reflexivity. Qed.
Lemma keq_f x y : x <> y -> keq x y = false. Proof. exact (keq_false keq_ok x y). Qed.
Lemma nsub x y : x <> y -> x - y <> 0. Proof. exact (sub_nz FT x y). Qed.
Lemma sub0 x y : x - y = 0 -> x = y. Proof. exact (sub_eq FT x y). Qed.
Lemma nmul x y : x <> 0 -> y <> 0 -> x * y <> 0. Proof. exact (mulr_nz FT keq_ok x y). Qed.
Lemma opp_pt x1 y1 x2 y2 : on (Some (x1, y1)) -> on (Some (x2, y2)) -> {x1 = x2 /\ y1 = - y2} + {~ (x1 = x2 /\ y1 = - y2)}.
Proof. intros _ _. destruct (kdec keq_ok x1 x2) as [E|N], (kdec keq_ok y1 (- y2)) as [E'|N']; try (left; split; assumption); right; tauto. Qed.
Lemma line_slope x1 y1 x2 y2 m x y : on (Some (x1, y1)) -> on (Some (x2, y2)) -> ~ (x1 = x2 /\ y1 = - y2) -> slope x1 y1 x2 y2 m -> line (x1, y1) (x2, y2) x y = y - y1 - m * (x - x1).
Proof.
  intros H1 H2 N S. unfold line. destruct (kdec keq_ok x1 x2) as [E|Nx].
  - subst x2. rewrite keq_t. assert (Ny : y1 <> - y2) by auto. rewrite (keq_f _ _ Ny). destruct (same_x FT keq_ok _ _ _ H1 H2) as [<-|E]; [|contradiction].
    assert (Y : y1 <> 0) by (intros Z; apply Ny; rewrite Z; ring). destruct S as [_ S]. do 2 f_equal. apply (div_eq FT); [exact (nmul _ _ two_nz Y)|]. transitivity (x1 * x1 + x1 * x1 + x1 * x1 + A * (x1 + x1) + 1); [ring|]. rewrite <- S. ring.
  - rewrite (keq_f _ _ Nx). destruct S as [S _]. do 2 f_equal. apply (div_eq FT); [apply nsub; auto|]. transitivity (- (y1 - y2)); [ring|]. rewrite S. ring.
Qed.
Lemma hh_opp x1 y1 x y : hh (Some (x1, y1)) (Some (x1, - y1)) x y = x - x1.
Proof.
  unfold hh, S_Curve.padd, line. rewrite keq_t. replace (- - y1) with y1 by ring. rewrite keq_t. field. exact (F_1_neq_0 FT).
Qed.
Lemma hh_opp' x1 y1 x y : hh (Some (x1, - y1)) (Some (x1, y1)) x y = x - x1.
Proof. rewrite <- (hh_opp x1 (- y1) x y). replace (- - y1) with y1 by ring. reflexivity. Qed.
Lemma padd_opp' x1 y1 : on (Some (x1, y1)) -> padd (Some (x1, - y1)) (Some (x1, y1)) = None.
Proof. intros _. cbn. rewrite !keq_t. reflexivity. Qed.
Lemma hh_fin x1 y1 x2 y2 m xs ys x y : on (Some (x1, y1)) -> on (Some (x2, y2)) -> ~ (x1 = x2 /\ y1 = - y2) -> slope x1 y1 x2 y2 m -> xs = m * m - A - x1 - x2 -> ys = m * (x1 - xs) - y1 ->
  hh (Some (x1, y1)) (Some (x2, y2)) x y = (y + ys - m * (x - xs)) / (x - xs) /\ padd (Some (x1, y1)) (Some (x2, y2)) = Some (xs, ys).
Proof.
  intros H1 H2 N S Exs Eys. assert (E : padd (Some (x1, y1)) (Some (x2, y2)) = Some (xs, ys)) by (rewrite (padd_finite FT keq_ok two_nz _ _ _ _ m H1 H2 N S); unfold S_Curve.chord; cbv zeta; rewrite Eys, Exs; reflexivity).
  split; [|exact E]. unfold hh. rewrite E, (line_slope _ _ _ _ m _ _ H1 H2 N S). f_equal. rewrite Eys. ring.
Qed.
(** a finite sum with all its data *)
Lemma fin_sum x1 y1 x2 y2 : on (Some (x1, y1)) -> on (Some (x2, y2)) -> ~ (x1 = x2 /\ y1 = - y2) ->
  exists m xs ys, slope x1 y1 x2 y2 m /\ xs = m * m - A - x1 - x2 /\ ys = m * (x1 - xs) - y1 /\ padd (Some (x1, y1)) (Some (x2, y2)) = Some (xs, ys) /\ on (Some (xs, ys)).
Proof.
  intros H1 H2 N. destruct (padd_slope FT keq_ok two_nz _ _ _ _ H1 H2 N) as (m & S & E). unfold S_Curve.chord in E. cbv zeta in E. eexists m, _, _. split; [exact S|]. split; [reflexivity|]. split; [reflexivity|]. split; [exact E|].
  rewrite <- E. apply (padd_on FT keq_ok two_nz); assumption.
Qed.
Lemma hh_comm p q x y : on p -> on q -> hh p q x y = hh q p x y.
Proof.
  destruct p as [[x1 y1]|], q as [[x2 y2]|]; try reflexivity. intros H1 H2. destruct (opp_pt _ _ _ _ H1 H2) as [[E1 E2]|N].
  - subst. rewrite hh_opp, hh_opp'. reflexivity.
  - destruct (fin_sum _ _ _ _ H1 H2 N) as (m & xs & ys & S & Ex & Ey & E & _). rewrite (proj1 (hh_fin _ _ _ _ m xs ys x y H1 H2 N S Ex Ey)).
    assert (N' : ~ (x2 = x1 /\ y2 = - y1)) by (intros [-> ->]; apply N; split; [reflexivity|ring]). destruct S as [S1 S2].
    rewrite (proj1 (hh_fin x2 y2 x1 y1 m xs ys x y H2 H1 N' (slope_sym FT _ _ _ _ _ (conj S1 S2)) ltac:(rewrite Ex; ring) ltac:(rewrite Ey; transitivity (m * (x1 - xs) - y1 + (y1 - y2 - m * (x1 - x2))); [rewrite S1; ring|ring]))). reflexivity.
Qed.
(** points of the curve against a line *)
Lemma vieta x1 y1 x2 y2 m xs x y : on (Some (x1, y1)) -> on (Some (x2, y2)) -> slope x1 y1 x2 y2 m -> xs = m * m - A - x1 - x2 -> on (Some (x, y)) ->
  (y - y1 - m * (x - x1)) * (- y - y1 - m * (x - x1)) = - ((x - x1) * (x - x2) * (x - xs)).
Proof.
  intros H1 H2 [S1 S2] Exs H. cbn in H, H1. assert (M : m * m = xs + A + x1 + x2) by (rewrite Exs; ring).
  assert (Q : m * (y1 + y1) = x1 * x1 + x1 * x2 + x2 * x2 + A * (x1 + x2) + 1 + m * m * (x1 - x2)).
  { transitivity (m * (y1 + y2) + m * (y1 - y2)); [ring|]. rewrite S2, S1. ring. }
  transitivity (- (y * y) + y1 * y1 + m * (y1 + y1) * (x - x1) + m * m * ((x - x1) * (x - x1))); [ring|]. rewrite H, H1, Q, M. ring.
Qed.
Lemma vieta' x1 y1 x2 y2 m xs ys x y : on (Some (x1, y1)) -> on (Some (x2, y2)) -> slope x1 y1 x2 y2 m -> xs = m * m - A - x1 - x2 -> ys = m * (x1 - xs) - y1 -> on (Some (x, y)) ->
  (y + ys - m * (x - xs)) * (- y + ys - m * (x - xs)) = - ((x - x1) * (x - x2) * (x - xs)).
Proof. intros H1 H2 S Ex Ey H. rewrite <- (vieta _ _ _ _ m xs x y H1 H2 S Ex H), Ey. ring. Qed.
Lemma hv_nz p q T : on p -> on q -> on T -> xdis p T -> xdis q T -> xdis (padd p q) T -> hv p q T <> 0.
Proof.
  destruct T as [[x y]|]; [|intros; exact (F_1_neq_0 FT)]. destruct p as [[x1 y1]|], q as [[x2 y2]|]; try (intros; exact (F_1_neq_0 FT)).
  intros H1 H2 HT D1 D2 D3. cbn [hv xdis] in *. destruct (opp_pt _ _ _ _ H1 H2) as [[E1 E2]|N].
  - subst. rewrite hh_opp'. apply nsub. exact D1.
  - destruct (fin_sum _ _ _ _ H1 H2 N) as (m & xs & ys & S & Ex & Ey & E & _). rewrite E in D3. cbn in D3. rewrite (proj1 (hh_fin _ _ _ _ m xs ys x y H1 H2 N S Ex Ey)).
    intros Z. assert (Z' : y + ys - m * (x - xs) = 0) by (transitivity ((y + ys - m * (x - xs)) / (x - xs) * (x - xs)); [field; apply nsub; exact D3|rewrite Z; ring]).
    pose proof (vieta' _ _ _ _ m xs ys x y H1 H2 S Ex Ey HT) as V. rewrite Z' in V. apply (nmul _ _ (nmul _ _ (nsub _ _ D1) (nsub _ _ D2)) (nsub _ _ D3)). transitivity (- (0 * (- y + ys - m * (x - xs)))); [rewrite V; ring|ring].
Qed.
(** ** The cocycle identity *)
Lemma slope_sum x1 y1 x2 y2 x3 y3 l m n r :
  on (Some (x1, y1)) -> on (Some (x2, y2)) -> on (Some (x3, y3)) -> slope x1 y1 x2 y2 l -> slope x2 y2 x3 y3 m ->
  let xs := l * l - A - x1 - x2 in let ys := l * (x1 - xs) - y1 in
  let xt := m * m - A - x2 - x3 in let yt := m * (x2 - xt) - y2 in
  ~ (x1 = x2 /\ y1 = - y2) -> ~ (x2 = x3 /\ y2 = - y3) -> ~ (xs = x3 /\ ys = - y3) -> ~ (x1 = xt /\ y1 = - yt) ->
  slope xs ys x3 y3 n -> slope x1 y1 xt yt r -> (x1 <> x3 \/ y1 <> y3) ->
  l + n = m + r /\ xs + l * n = xt + m * r.
Proof.
  intros H1 H2 H3 L M xs ys xt yt N12 N23 NS NT Sn Sr D.
  assert (K1 : (l - m) * (n + l) = x1 - x3) by (apply (key_slope FT keq_ok two_nz smooth x1 y1 x2 y2 x3 y3 l m n); auto).
  assert (Yt : m * (x3 - xt) - y3 = yt).
  { destruct M as [M1 _]. unfold yt. replace y2 with (y3 + m * (x2 - x3)) by (rewrite <- M1; ring). ring. }
  assert (Xt : m * m - A - x3 - x2 = xt) by (unfold xt; ring).
  assert (K2 : (m - l) * (r + m) = x3 - x1).
  { apply (key_slope FT keq_ok two_nz smooth x3 y3 x2 y2 x1 y1 m l r); auto using (slope_sym FT).
    - intros [E1 E2]. apply N12. split; auto. rewrite E2. ring.
    - rewrite Xt, Yt. intros [E1 E2]. apply NT. split; auto. rewrite E2. ring.
    - rewrite Xt, Yt. apply (slope_sym FT). auto. }
  assert (NL : l - m <> 0).
  { intros E. rewrite E in K1. assert (E13 : x1 = x3) by (apply sub0; rewrite <- K1; ring). destruct D as [D|D]; [contradiction|]. apply D. destruct L as [L1 _], M as [M1 _].
    replace y1 with (y2 + l * (x1 - x2)) by (rewrite <- L1; ring). replace y3 with (y2 - m * (x2 - x3)) by (rewrite <- M1; ring). rewrite (sub0 _ _ E), E13. ring. }
  assert (G : r = n + l - m). { apply (cancel FT (l - m)); auto. replace ((l - m) * r) with (- ((m - l) * (r + m)) - (l - m) * m) by ring. rewrite K2. replace ((l - m) * (n + l - m)) with ((l - m) * (n + l) - (l - m) * m) by ring. rewrite K1. ring. }
  split; [rewrite G; ring|]. rewrite G. apply sub0. transitivity ((l - m) * (n + l) - (x1 - x3)); [unfold xs, xt; ring|rewrite K1; ring].
Qed.
Lemma line3 x1 y1 x2 y2 m xs ys : on (Some (x1, y1)) -> slope x1 y1 x2 y2 m -> xs = m * m - A - x1 - x2 -> ys = m * (x1 - xs) - y1 ->
  y1 + ys = m * (x1 - xs) /\ m * (y1 - ys) = x1 * x1 + x1 * xs + xs * xs + A * (x1 + xs) + 1.
Proof.
  intros H1 [S1 S2] Ex Ey. split; [rewrite Ey; ring|].
  assert (Q : m * (y1 + y1) = x1 * x1 + x1 * x2 + x2 * x2 + A * (x1 + x2) + 1 + m * m * (x1 - x2)).
  { transitivity (m * (y1 + y2) + m * (y1 - y2)); [ring|]. rewrite S2, S1. ring. }
  assert (M : m * m = xs + A + x1 + x2) by (rewrite Ex; ring).
  rewrite Ey. transitivity (m * (y1 + y1) - m * m * (x1 - xs)); [ring|]. rewrite Q, M. ring.
Qed.
Lemma cocycle_fin x1 y1 x2 y2 x3 y3 l m n r xs ys xt yt x y :
  on (Some (x1, y1)) -> on (Some (x2, y2)) -> on (Some (x3, y3)) -> slope x1 y1 x2 y2 l -> slope x2 y2 x3 y3 m ->
  xs = l * l - A - x1 - x2 -> ys = l * (x1 - xs) - y1 -> xt = m * m - A - x2 - x3 -> yt = m * (x2 - xt) - y2 ->
  ~ (x1 = x2 /\ y1 = - y2) -> ~ (x2 = x3 /\ y2 = - y3) -> ~ (xs = x3 /\ ys = - y3) -> ~ (x1 = xt /\ y1 = - yt) ->
  slope xs ys x3 y3 n -> slope x1 y1 xt yt r -> (x1 <> x3 \/ y1 <> y3) -> on (Some (xs, ys)) -> on (Some (xt, yt)) -> on (Some (x, y)) ->
  x <> xs -> x <> xt -> (y + ys - l * (x - xs)) / (x - xs) * (y - ys - n * (x - xs)) = (y + yt - m * (x - xt)) / (x - xt) * (y - yt - r * (x - xt)).
Proof.
  intros H1 H2 H3 L M Exs Eys Ext Eyt N12 N23 NS NT Sn Sr D Hs Ht H Ds Dt.
  destruct (slope_sum x1 y1 x2 y2 x3 y3 l m n r H1 H2 H3 L M) as [G1 G2]; try (rewrite <- ?Exs, <- ?Eys, <- ?Ext, <- ?Eyt; assumption). rewrite <- Exs, <- Ext in G2.
  destruct (line3 _ _ _ _ _ _ _ H1 L Exs Eys) as [A1 A2]. destruct Sr as [R1 R2].
  assert (F : forall a b u v, on (Some (u, v)) -> x <> u -> (y + v - a * (x - u)) / (x - u) * (y - v - b * (x - u)) = x * x + x * u + u * u + A * (x + u) + 1 - a * (y - v) - b * (y + v) + a * b * (x - u)).
  { intros a b u v Huv Du. apply (cancel FT (x - u)); [apply nsub; exact Du|]. transitivity ((y + v - a * (x - u)) * (y - v - b * (x - u))); [field; apply nsub; exact Du|].
    cbn in Huv, H. transitivity (y * y - v * v - a * (x - u) * (y - v) - b * (x - u) * (y + v) + a * b * ((x - u) * (x - u))); [ring|]. rewrite H, Huv. ring. }
  rewrite (F l n xs ys Hs Ds), (F m r xt yt Ht Dt).
  assert (P1 : x1 * x1 + x1 * xs + xs * xs + A * (x1 + xs) + 1 - l * (y1 - ys) - n * (y1 + ys) + l * n * (x1 - xs) = 0) by (rewrite A2, A1; ring).
  assert (P2 : x1 * x1 + x1 * xt + xt * xt + A * (x1 + xt) + 1 - m * (y1 - yt) - r * (y1 + yt) + m * r * (x1 - xt) = 0) by (rewrite R2, R1; ring).
  apply sub0. transitivity ((x - x1) * (xs + l * n - (xt + m * r)) - (y - y1) * (l + n - (m + r)) + (x1 * x1 + x1 * xs + xs * xs + A * (x1 + xs) + 1 - l * (y1 - ys) - n * (y1 + ys) + l * n * (x1 - xs)) - (x1 * x1 + x1 * xt + xt * xt + A * (x1 + xt) + 1 - m * (y1 - yt) - r * (y1 + yt) + m * r * (x1 - xt))); [ring|].
  rewrite P1, P2, G1, G2. ring.
Qed.
Local Notation Padd_on := (padd_on FT keq_ok two_nz).
Local Notation Padd_comm := (padd_comm FT keq_ok two_nz).
Local Notation Padd_assoc := (padd_assoc FT keq_ok two_nz smooth).
Lemma popp_fin (p : pt K) x y : popp p = Some (x, y) -> p = Some (x, - y).
Proof. destruct p as [[a b]|]; cbn; [|discriminate]. intros [= -> <-]. do 2 f_equal. ring. Qed.
(** h_{-p, s+p} h_{p, s} is the vertical through p *)
Lemma hh_cancel p s x y : on p -> on s -> on (Some (x, y)) -> s <> None -> xdis s (Some (x, y)) -> xdis (padd s p) (Some (x, y)) ->
  hh p (popp p) x y = hh (popp p) (padd s p) x y * hh p s x y.
Proof.
  destruct p as [[x1 y1]|]; [|destruct s as [[x2 y2]|]; intros; cbn; ring]. destruct s as [[x2 y2]|]; [|contradiction]. intros Hp Hs H _ D1 D2. cbn [xdis] in D1. cbn [S_Curve.popp].
  destruct (opp_pt _ _ _ _ Hs Hp) as [[-> ->]|N].
  { replace (padd (Some (x1, - y1)) (Some (x1, y1))) with (@None (K * K)); [|symmetry; replace (Some (x1, y1)) with (popp (Some (x1, - y1))) by (cbn; do 2 f_equal; ring); apply (padd_opp_r FT keq_ok); exact Hs]. cbn [hh]. ring. }
  destruct (fin_sum _ _ _ _ Hs Hp N) as (m & xr & yr & S & Ex & Ey & E & Hr). rewrite E in D2 |- *. cbn [xdis] in D2.
  assert (N' : ~ (x1 = x2 /\ y1 = - y2)) by (intros [-> ->]; apply N; split; [reflexivity|ring]).
  assert (Ey' : yr = m * (x1 - xr) - y1) by (destruct S as [S1 _]; rewrite Ey; transitivity (m * (x2 - xr) - y2 + (y2 - y1 - m * (x2 - x1))); [rewrite S1; ring|ring]).
  destruct (hh_fin x1 y1 x2 y2 m xr yr x y Hp Hs N' (slope_sym FT _ _ _ _ _ S) ltac:(rewrite Ex; ring) Ey') as [Hps _]. rewrite Hps.
  assert (Ho : on (Some (x1, - y1))) by (apply (on_opp FT (Some (x1, y1))); exact Hp).
  assert (Es : padd (Some (x1, - y1)) (Some (xr, yr)) = Some (x2, y2)).
  { rewrite Padd_comm by assumption. rewrite <- E. apply (add_sub FT keq_ok two_nz smooth (Some (x2, y2)) (Some (x1, y1))); assumption. }
  assert (N2 : ~ (x1 = xr /\ - y1 = - yr)).
  { intros [E1 E2]. assert (E3 : y1 = yr) by (replace y1 with (- - y1) by ring; rewrite E2; ring). rewrite <- E1, <- E3 in Es. pose proof (padd_opp_r FT keq_ok (Some (x1, - y1)) Ho) as Z. cbn [S_Curve.popp] in Z. replace (- - y1) with y1 in Z by ring. rewrite Es in Z. discriminate. }
  assert (Sl : slope x1 (- y1) xr yr (- m)).
  { destruct (line3 x1 y1 x2 y2 m xr yr Hp (slope_sym FT _ _ _ _ _ S) ltac:(rewrite Ex; ring) Ey') as [B1 B2]. split; [transitivity (- (y1 + yr)); [ring|rewrite B1; ring]|transitivity (m * (y1 - yr)); [ring|rewrite B2; ring]]. }
  destruct (hh_fin x1 (- y1) xr yr (- m) x2 y2 x y Ho Hr N2 Sl ltac:(rewrite Ex; ring)) as [Hq _].
  { destruct S as [S1 _]. transitivity (y2 - y1 + y1); [ring|]. rewrite S1. ring. }
  rewrite Hq, hh_opp. pose proof (vieta' x1 y1 x2 y2 m xr yr x y Hp Hs (slope_sym FT _ _ _ _ _ S) ltac:(rewrite Ex; ring) Ey' H) as V.
  assert (W : y + y2 - - m * (x - x2) = - (- y + yr - m * (x - xr))).
  { transitivity (y + y2 + m * (x - x2)); [ring|]. rewrite Ey. ring. }
  rewrite W. apply (cancel FT ((x - x2) * (x - xr))); [apply nmul; apply nsub; assumption|].
  transitivity (- ((y + yr - m * (x - xr)) * (- y + yr - m * (x - xr)))); [rewrite V; ring|]. field. split; apply nsub; assumption.
Qed.
Theorem cocycle p q r x y : on p -> on q -> on r -> on (Some (x, y)) -> xdis (padd p q) (Some (x, y)) -> xdis (padd q r) (Some (x, y)) -> xdis (padd (padd p q) r) (Some (x, y)) ->
  hh p q x y * hh (padd p q) r x y = hh q r x y * hh p (padd q r) x y.
Proof.
  intros Hp Hq Hr H D1 D2 D3.
  assert (Dn : forall o : pt K, {o = None} + {o <> None}) by (intros []; [right; discriminate|left; auto]).
  destruct (Dn p) as [->|Np]; [cbn [hh]; rewrite (padd_0_l); ring|].
  destruct (Dn q) as [->|Nq]; [rewrite padd_0_r, padd_0_l; destruct p as [[]|], r as [[]|]; cbn [hh]; ring|].
  destruct (Dn r) as [->|Nr]; [rewrite padd_0_r; destruct q as [[]|], (padd p _) as [[]|]; cbn [hh]; ring|].
  destruct (Dn (padd p q)) as [E|N1].
  { pose proof (padd_None FT keq_ok two_nz p q Hp Hq E) as Eq. assert (Hs : on (padd q r)) by (apply Padd_on; assumption).
    rewrite E in D3 |- *. rewrite padd_0_l in D3. assert (Er : padd (padd q r) p = r).
    { rewrite Padd_comm by assumption. rewrite <- Padd_assoc by assumption. rewrite E. reflexivity. }
    replace (hh None r x y) with 1 by reflexivity. destruct (Dn (padd q r)) as [Es|Ns].
    - rewrite Es. replace (hh p None x y) with 1 by (destruct p as [[]|]; reflexivity). pose proof (padd_None FT keq_ok two_nz q r Hq Hr Es) as Er'. rewrite Er', Eq, (popp_invol FT). rewrite (hh_comm p (popp p)) by (try apply (on_opp FT); assumption). ring.
    - pose proof (hh_cancel p (padd q r) x y Hp Hs H Ns D2) as C. rewrite Er in C. rewrite <- Eq in C. rewrite (C D3). ring. }
  destruct (Dn (padd q r)) as [E|N2].
  { pose proof (padd_None FT keq_ok two_nz q r Hq Hr E) as Eq. assert (Hs : on (padd p q)) by (apply Padd_on; assumption). rewrite E. replace (hh p None x y) with 1 by (destruct p as [[]|]; reflexivity).
    assert (Ep : padd (padd p q) r = p). { rewrite Padd_assoc by assumption. rewrite E. apply padd_0_r. }
    assert (Eq' : q = popp r) by (rewrite Eq, (popp_invol FT); reflexivity). pose proof (hh_cancel r (padd p q) x y Hr Hs H N1 D1 D3) as C. rewrite <- Eq', Ep in C.
    rewrite (hh_comm q r) by assumption. rewrite C, (hh_comm (padd p q) r), (hh_comm p q) by assumption. ring. }
  destruct (Dn (padd (padd p q) r)) as [E|N3].
  { assert (Hs : on (padd p q)) by (apply Padd_on; assumption). assert (Ht : on (padd q r)) by (apply Padd_on; assumption). pose proof (padd_None FT keq_ok two_nz _ r Hs Hr E) as Er.
    assert (E' := E). rewrite Padd_assoc in E' by assumption. pose proof (padd_None FT keq_ok two_nz _ _ Hp Ht E') as Et.
    destruct p as [[x1 y1]|]; [|contradiction]. destruct q as [[x2 y2]|]; [|contradiction]. rewrite Et, Er. assert (N12 : ~ (x1 = x2 /\ y1 = - y2)) by (intros [-> ->]; apply N1; cbn; rewrite !keq_t; reflexivity).
    destruct (fin_sum _ _ _ _ Hp Hq N12) as (m & xs & ys & S & Ex & Ey & E1 & _). rewrite E1 in *. cbn [S_Curve.popp] in Er. subst r. rewrite Et in D2. cbn in D1, D2. cbn [S_Curve.popp]. rewrite !hh_opp.
    destruct (hh_fin _ _ _ _ m xs ys x y Hp Hq N12 S Ex Ey) as [-> _].
    assert (N23 : ~ (x2 = xs /\ y2 = - - ys)) by (intros [Ea Eb]; apply N2; rewrite Ea, Eb; cbn; rewrite !keq_t; reflexivity).
    destruct S as [S1 S2]. assert (Ey2 : ys = m * (x2 - xs) - y2) by (rewrite Ey; transitivity (m * (x1 - xs) - y1 + (y1 - y2 - m * (x1 - x2))); [rewrite S1; ring|ring]).
    destruct (line3 x2 y2 x1 y1 m xs ys Hq (slope_sym FT _ _ _ _ _ (conj S1 S2)) ltac:(rewrite Ex; ring) Ey2) as [B1 B2].
    assert (Sl : slope x2 y2 xs (- ys) m) by (split; [transitivity (y2 + ys); [ring|rewrite B1; ring]|transitivity (m * (y2 - ys)); [ring|rewrite B2; ring]]).
    rewrite (proj1 (hh_fin x2 y2 xs (- ys) m x1 (- y1) x y Hq Hr N23 Sl ltac:(rewrite Ex; ring) ltac:(transitivity (- (y1 - y2) - y2); [ring|rewrite S1; ring]))).
    transitivity (y + ys - m * (x - xs)); [field; apply nsub; assumption|]. rewrite Ey. field. apply nsub. assumption. }
  destruct p as [[x1 y1]|], q as [[x2 y2]|], r as [[x3 y3]|]; try contradiction.
  destruct (kdec keq_ok x1 x3) as [E13|N13]; [destruct (kdec keq_ok y1 y3) as [F13|G13]|].
  { subst. rewrite (Padd_comm (Some (x2, y2))) by assumption. rewrite (hh_comm (Some (x2, y2))) by assumption. rewrite (hh_comm (padd _ _)) by (try apply Padd_on; assumption). reflexivity. }
  all: assert (D : x1 <> x3 \/ y1 <> y3) by tauto.
  all: assert (F12 : ~ (x1 = x2 /\ y1 = - y2)) by (intros [-> ->]; apply N1; cbn; rewrite !keq_t; reflexivity).
  all: assert (F23 : ~ (x2 = x3 /\ y2 = - y3)) by (intros [-> ->]; apply N2; cbn; rewrite !keq_t; reflexivity).
  all: pose proof (Padd_assoc _ _ _ Hp Hq Hr) as As.
  all: destruct (fin_sum _ _ _ _ Hp Hq F12) as (l & xs & ys & L & Exs & Eys & E1 & Hs), (fin_sum _ _ _ _ Hq Hr F23) as (m & xt & yt & M & Ext & Eyt & E2 & Ht).
  all: rewrite E1, E2 in *.
  all: assert (Fs3 : ~ (xs = x3 /\ ys = - y3)) by (intros [-> ->]; apply N3; cbn; rewrite !keq_t; reflexivity).
  all: assert (F1t : ~ (x1 = xt /\ y1 = - yt)) by (intros [Ea Eb]; apply N3; rewrite As, Ea, Eb; cbn; rewrite !keq_t; reflexivity).
  all: destruct (fin_sum _ _ _ _ Hs Hr Fs3) as (n & xu & yu & Sn & Exu & Eyu & E3 & Hu), (fin_sum _ _ _ _ Hp Ht F1t) as (k & xu' & yu' & Sk & Exu' & Eyu' & E4 & _).
  all: rewrite E3, E4 in As; injection As as Ea Eb; subst xu' yu'; rewrite E3 in D3; cbn [xdis] in D1, D2, D3.
  all: rewrite (proj1 (hh_fin _ _ _ _ l xs ys x y Hp Hq F12 L Exs Eys)), (proj1 (hh_fin _ _ _ _ m xt yt x y Hq Hr F23 M Ext Eyt)), (proj1 (hh_fin _ _ _ _ n xu yu x y Hs Hr Fs3 Sn Exu Eyu)), (proj1 (hh_fin _ _ _ _ k xu yu x y Hp Ht F1t Sk Exu' Eyu')).
  all: pose proof (cocycle_fin x1 y1 x2 y2 x3 y3 l m n k xs ys xt yt x y Hp Hq Hr L M Exs Eys Ext Eyt F12 F23 Fs3 F1t Sn Sk D Hs Ht H D1 D2) as C.
  all: replace (y + yu - n * (x - xu)) with (y - ys - n * (x - xs)) by (rewrite Eyu; ring).
  all: replace (y + yu - k * (x - xu)) with (y - yt - k * (x - xt)) by (destruct Sk as [Sk1 _]; rewrite Eyu'; transitivity (y + (k * (x1 - xu) - y1 + (y1 - yt - k * (x1 - xt))) - k * (x - xu)); [ring|rewrite Sk1; ring]).
  all: match goal with |- ?a * (?b / ?d) = ?a' * (?b' / ?d') => transitivity (a * b / d); [rewrite !(Fdiv_def FT); ring|]; transitivity (a' * b' / d'); [rewrite C; reflexivity|rewrite !(Fdiv_def FT); ring] end.
Qed.
(** ** Weil reciprocity for two lines *)
Lemma sigmas x1 y1 x2 y2 m xs : on (Some (x1, y1)) -> slope x1 y1 x2 y2 m -> xs = m * m - A - x1 - x2 ->
  x1 + x2 + xs = m * m - A /\ x1 * x2 + x1 * xs + x2 * xs = 1 - 2 * (m * (y1 - m * x1)) /\ x1 * x2 * xs = (y1 - m * x1) * (y1 - m * x1).
Proof.
  intros H [S1 S2] Ex. cbn in H. assert (Q : m * (y1 + y1) = x1 * x1 + x1 * x2 + x2 * x2 + A * (x1 + x2) + 1 + m * m * (x1 - x2)).
  { transitivity (m * (y1 + y2) + m * (y1 - y2)); [ring|]. rewrite S2, S1. ring. }
  split; [|split].
  - rewrite Ex. ring.
  - rewrite Ex. transitivity (1 - (m * (y1 + y1) - 2 * (m * m * x1))); [rewrite Q|]; ring.
  - transitivity (y1 * y1 - m * (y1 + y1) * x1 + m * m * (x1 * x1)); [rewrite Q, H, Ex|]; ring.
Qed.
Lemma prod3 d e a b c s1 s2 s3 : a + b + c = s1 -> a * b + a * c + b * c = s2 -> a * b * c = s3 -> (d * a + e) * (d * b + e) * (d * c + e) = e * e * e + e * e * (d * s1) + e * (d * d) * s2 + d * d * d * s3.
Proof. intros <- <- <-. ring. Qed.
Definition fin (p : pt K) : bool := match p with None => false | Some _ => true end.
Definition sg (b : bool) : K := if b then kopp k1 else 1.
Lemma quot_mul x y z : y <> 0 -> x / y * z = x * z / y. Proof. intros N. field. exact N. Qed.
Lemma hv_N1 q T : hv None q T = 1. Proof. destruct T as [[]|]; reflexivity. Qed.
Lemma hv_N2 p T : hv p None T = 1. Proof. destruct T as [[]|], p as [[]|]; reflexivity. Qed.
Lemma recip_vv : forall a b m xs ys u v, on (Some a) -> on (Some b) -> slope (fst a) (snd a) (fst b) (snd b) m -> xs = m * m - A - fst a - fst b -> ys = m * (fst a - xs) - snd a -> on (Some (u, v)) -> u <> fst a -> u <> fst b -> u <> xs ->
    (v + ys - m * (u - xs)) / (u - xs) * ((- v + ys - m * (u - xs)) / (u - xs)) = - ((u - fst a) * (u - fst b) / (u - xs)) /\ - v + ys - m * (u - xs) <> 0.
Proof.
  intros [a1 a2] [b1 b2] m xs ys u v Ha Hb S Ex Ey Huv N1 N2 N3. cbn [fst snd] in *. pose proof (vieta' _ _ _ _ m xs ys u v Ha Hb S Ex Ey Huv) as V. split.
    - transitivity ((v + ys - m * (u - xs)) * (- v + ys - m * (u - xs)) / ((u - xs) * (u - xs))); [field; apply nsub; exact N3|]. rewrite V. field. apply nsub. exact N3.
    - intros Z. rewrite Z in V. apply (nmul _ _ (nmul _ _ (nsub _ _ N1) (nsub _ _ N2)) (nsub _ _ N3)). transitivity (- - ((u - a1) * (u - b1) * (u - xs))); [ring|]. rewrite <- V. ring.
Qed.
(** the generic case needs only the two sums apart from the other points *)
Lemma recip_fin x1 y1 x2 y2 x3 y3 x4 y4 (X := Some (x1, y1)) (Y := Some (x2, y2)) (T := Some (x3, y3)) (U := Some (x4, y4)) : on X -> on Y -> on T -> on U -> ~ (x1 = x2 /\ y1 = - y2) -> ~ (x3 = x4 /\ y3 = - y4) ->
  xdis X (padd T U) /\ xdis Y (padd T U) /\ xdis (padd X Y) T /\ xdis (padd X Y) U /\ xdis (padd X Y) (padd T U) ->
  hv X Y T * hv X Y U * hv T U (padd X Y) = kopp k1 * (hv T U X * hv T U Y * hv X Y (padd T U)).
Proof.
  unfold X, Y, T, U. intros HX HY HT HU N1 N2 FF. destruct (fin_sum _ _ _ _ HX HY N1) as (m & xs & ys & S & Ex & Ey & E & Hs). destruct (fin_sum _ _ _ _ HT HU N2) as (n & xw & yw & S' & Ex' & Ey' & E' & Hw).
    rewrite E, E' in *. cbn [hv].
    destruct FF as (F1 & F2 & F3 & F4 & D5). cbn [xdis] in F1, F2, F3, F4, D5.
    destruct (recip_vv (x3, y3) (x4, y4) n xw yw xs ys HT HU S' Ex' Ey' Hs ltac:(cbn; auto) ltac:(cbn; auto) ltac:(auto)) as [_ Z1]. cbn [fst snd] in Z1.
    destruct (recip_vv (x1, y1) (x2, y2) m xs ys xw yw HX HY S Ex Ey Hw ltac:(cbn; auto) ltac:(cbn; auto) ltac:(auto)) as [_ Z2]. cbn [fst snd] in Z2.
    pose proof (vieta' _ _ _ _ n xw yw xs ys HT HU S' Ex' Ey' Hs) as W1. pose proof (vieta' _ _ _ _ m xs ys xw yw HX HY S Ex Ey Hw) as W2.
    rewrite (proj1 (hh_fin _ _ _ _ m xs ys x3 y3 HX HY N1 S Ex Ey)), (proj1 (hh_fin _ _ _ _ m xs ys x4 y4 HX HY N1 S Ex Ey)), (proj1 (hh_fin _ _ _ _ m xs ys xw yw HX HY N1 S Ex Ey)).
    rewrite (proj1 (hh_fin _ _ _ _ n xw yw x1 y1 HT HU N2 S' Ex' Ey')), (proj1 (hh_fin _ _ _ _ n xw yw x2 y2 HT HU N2 S' Ex' Ey')), (proj1 (hh_fin _ _ _ _ n xw yw xs ys HT HU N2 S' Ex' Ey')).
    destruct (sigmas _ _ _ _ _ _ HX S Ex) as (A1 & A2 & A3). destruct (sigmas _ _ _ _ _ _ HT S' Ex') as (B1 & B2 & B3).
    assert (C1 : ys = - (m * xs + (y1 - m * x1))) by (rewrite Ey; ring). assert (C2 : yw = - (n * xw + (y3 - n * x3))) by (rewrite Ey'; ring).
    assert (Y2 : y2 = m * x2 + (y1 - m * x1)) by (destruct S as [S1 _]; transitivity (y1 - (y1 - y2)); [ring|rewrite S1; ring]).
    assert (Y4 : y4 = n * x4 + (y3 - n * x3)) by (destruct S' as [S1 _]; transitivity (y3 - (y3 - y4)); [ring|rewrite S1; ring]).
    pose proof (prod3 (n - m) (y3 - n * x3 - (y1 - m * x1)) _ _ _ _ _ _ A1 A2 A3) as P1. pose proof (prod3 (n - m) (y3 - n * x3 - (y1 - m * x1)) _ _ _ _ _ _ B1 B2 B3) as P2.
    assert (PP : (y3 + ys - m * (x3 - xs)) * (y4 + ys - m * (x4 - xs)) * (- yw + ys - m * (xw - xs)) = - ((y1 + yw - n * (x1 - xw)) * (y2 + yw - n * (x2 - xw)) * (- ys + yw - n * (xs - xw)))).
    { set (c1 := y1 - m * x1) in *. set (c2 := y3 - n * x3) in *.
      assert (Y1 : y1 = m * x1 + c1) by (unfold c1; ring). assert (Y3 : y3 = n * x3 + c2) by (unfold c2; ring). clearbody c1 c2.
      transitivity (((n - m) * x3 + (c2 - c1)) * ((n - m) * x4 + (c2 - c1)) * ((n - m) * xw + (c2 - c1))).
      - rewrite Y3, Y4, C1, C2. ring.
      - transitivity (((n - m) * x1 + (c2 - c1)) * ((n - m) * x2 + (c2 - c1)) * ((n - m) * xs + (c2 - c1))); [rewrite P1, P2; ring|]. rewrite Y1, Y2, C1, C2. ring. }
    set (a := y3 + ys - m * (x3 - xs)) in *. set (b := y4 + ys - m * (x4 - xs)) in *. set (c := - yw + ys - m * (xw - xs)) in *. set (c' := yw + ys - m * (xw - xs)) in *.
    set (a' := y1 + yw - n * (x1 - xw)) in *. set (b' := y2 + yw - n * (x2 - xw)) in *. set (g := - ys + yw - n * (xs - xw)) in *. set (g' := ys + yw - n * (xs - xw)) in *. clearbody a b c c' a' b' g g'.
    apply (cancel FT (g * c)); [apply nmul; assumption|].
    transitivity (a * b * c * (g' * g) / ((x3 - xs) * (x4 - xs) * (xs - xw))); [field; repeat split; apply nsub; auto|]. rewrite W1, PP.
    transitivity (kopp k1 * (a' * b' * g) * (c' * c) / ((x1 - xw) * (x2 - xw) * (xw - xs))); [rewrite W2|]; field; repeat split; apply nsub; auto.
Qed.
Lemma recip X Y T U : on X -> on Y -> on T -> on U ->
  (forall p q, In p (X :: Y :: padd X Y :: nil) -> In q (T :: U :: padd T U :: nil) -> xdis p q) ->
  hv X Y T * hv X Y U * hv T U (padd X Y) = sg (fin X && fin Y && fin (padd X Y) && (fin T && fin U && fin (padd T U))) * (hv T U X * hv T U Y * hv X Y (padd T U)).
Proof.
  intros HX HY HT HU D. destruct X as [[x1 y1]|]; [|rewrite padd_0_l, !hv_N1; cbn [fin andb sg]; change (hv T U None) with 1; ring].
  destruct Y as [[x2 y2]|]; [|rewrite padd_0_r, !hv_N2; cbn [fin andb sg]; change (hv T U None) with 1; ring].
  destruct T as [[x3 y3]|]; [|rewrite padd_0_l, !hv_N1; cbn [fin andb]; rewrite andb_false_r; cbn [sg]; change (hv (Some (x1, y1)) (Some (x2, y2)) None) with 1; ring].
  destruct U as [[x4 y4]|]; [|rewrite padd_0_r, !hv_N2; cbn [fin andb]; rewrite andb_false_r; cbn [sg]; change (hv (Some (x1, y1)) (Some (x2, y2)) None) with 1; ring].
  assert (D13 : x3 <> x1) by (apply (D (Some (x1, y1)) (Some (x3, y3))); cbn; auto). assert (D14 : x4 <> x1) by (apply (D (Some (x1, y1)) (Some (x4, y4))); cbn; auto).
  assert (D23 : x3 <> x2) by (apply (D (Some (x2, y2)) (Some (x3, y3))); cbn; auto). assert (D24 : x4 <> x2) by (apply (D (Some (x2, y2)) (Some (x4, y4))); cbn; auto).
  assert (D3 : forall p q, In p (Some (x1, y1) :: Some (x2, y2) :: nil) -> q = padd (Some (x3, y3)) (Some (x4, y4)) -> xdis p q) by (intros p q I ->; apply D; cbn in *; tauto).
  assert (D4 : forall p q, p = padd (Some (x1, y1)) (Some (x2, y2)) -> In q (Some (x3, y3) :: Some (x4, y4) :: nil) -> xdis p q) by (intros p q -> I; apply D; cbn in *; tauto).
  assert (D5 : xdis (padd (Some (x1, y1)) (Some (x2, y2))) (padd (Some (x3, y3)) (Some (x4, y4)))) by (apply D; cbn; tauto). clear D.
  destruct (opp_pt _ _ _ _ HX HY) as [[Ea Eb]|N1]; destruct (opp_pt _ _ _ _ HT HU) as [[Ec Ed]|N2].
  - subst. rewrite !padd_opp' by assumption. cbn [fin andb sg hv]. rewrite !hh_opp'. ring.
  - subst. rewrite (padd_opp' x2 y2) by assumption. destruct (fin_sum _ _ _ _ HT HU N2) as (m & xw & yw & S & Ex & Ey & E & Hw). rewrite E in *. cbn [fin andb sg hv]. rewrite !hh_opp'. specialize (D3 (Some (x2, y2)) _ ltac:(cbn; tauto) eq_refl). cbn [xdis] in D3.
    destruct (recip_vv (x3, y3) (x4, y4) m xw yw x2 y2 HT HU S Ex Ey HY ltac:(cbn; auto) ltac:(cbn; auto) ltac:(auto)) as [V _]. cbn [fst snd] in V.
    rewrite (proj1 (hh_fin _ _ _ _ m xw yw x2 y2 HT HU N2 S Ex Ey)), (proj1 (hh_fin _ _ _ _ m xw yw x2 (- y2) HT HU N2 S Ex Ey)).
    transitivity (1 * ((y2 + yw - m * (x2 - xw)) / (x2 - xw) * ((- y2 + yw - m * (x2 - xw)) / (x2 - xw)) * (xw - x2))); [|ring]. rewrite V. field. apply nsub. auto.
  - subst. rewrite (padd_opp' x4 y4) by assumption. destruct (fin_sum _ _ _ _ HX HY N1) as (m & xw & yw & S & Ex & Ey & E & Hw). rewrite E in *. cbn [fin andb sg hv]. rewrite !hh_opp'. specialize (D4 _ (Some (x4, y4)) eq_refl ltac:(cbn; tauto)). cbn [xdis] in D4.
    destruct (recip_vv (x1, y1) (x2, y2) m xw yw x4 y4 HX HY S Ex Ey HU ltac:(cbn; auto) ltac:(cbn; auto) ltac:(auto)) as [V _]. cbn [fst snd] in V.
    rewrite (proj1 (hh_fin _ _ _ _ m xw yw x4 y4 HX HY N1 S Ex Ey)), (proj1 (hh_fin _ _ _ _ m xw yw x4 (- y4) HX HY N1 S Ex Ey)).
    transitivity ((y4 + yw - m * (x4 - xw)) / (x4 - xw) * ((- y4 + yw - m * (x4 - xw)) / (x4 - xw)) * (xw - x4)); [ring|]. rewrite V. field. apply nsub. auto.
  - destruct (fin_sum _ _ _ _ HX HY N1) as (m & xs & ys & S & Ex & Ey & E & Hs). destruct (fin_sum _ _ _ _ HT HU N2) as (n & xw & yw & S' & Ex' & Ey' & E' & Hw).
    replace (fin (padd (Some (x1, y1)) (Some (x2, y2)))) with true by (rewrite E; reflexivity). replace (fin (padd (Some (x3, y3)) (Some (x4, y4)))) with true by (rewrite E'; reflexivity). cbn [fin andb sg].
    apply recip_fin; try assumption. split; [|split; [|split; [|split]]]; try exact D5; [apply D3|apply D3|apply D4|apply D4]; cbn; auto.
Qed.
(** ** Miller functions *)
Fixpoint fm (P T : pt K) (n : nat) : K := match n with O => 1 | S m => fm P T m * hv (pmul_nat m P) P T end.
Fixpoint pw (x : K) (n : nat) : K := match n with O => 1 | S m => pw x m * x end.
Lemma cocycle_v p q r T : on p -> on q -> on r -> on T -> xdis (padd p q) T -> xdis (padd q r) T -> xdis (padd (padd p q) r) T -> hv p q T * hv (padd p q) r T = hv q r T * hv p (padd q r) T.
Proof. destruct T as [[x y]|]; [apply cocycle|intros; cbn; ring]. Qed.
Lemma hv_comm p q T : on p -> on q -> hv p q T = hv q p T.
Proof. destruct T as [[x y]|]; [apply hh_comm|reflexivity]. Qed.
Local Notation Mon := (pmul_nat_on FT keq_ok two_nz).
Lemma fm_add P T a b : on P -> on T -> (forall k, xdis (pmul_nat k P) T) -> fm P T (a + b) = fm P T a * fm P T b * hv (pmul_nat a P) (pmul_nat b P) T.
Proof.
  intros HP HT D. induction b.
  - rewrite Nat.add_0_r. cbn [fm S_Curve.pmul_nat]. rewrite hv_N2. ring.
  - rewrite Nat.add_succ_r. cbn [fm]. rewrite IHb, (pmul_nat_add FT keq_ok two_nz smooth) by assumption. rewrite pmul_nat_S.
    pose proof (cocycle_v (pmul_nat a P) (pmul_nat b P) P T (Mon _ _ HP) (Mon _ _ HP) HP HT) as C.
    rewrite <- (pmul_nat_add FT keq_ok two_nz smooth), <- !pmul_nat_S in C by assumption. specialize (C (D _) (D _) (D _)). rewrite (pmul_nat_add FT keq_ok two_nz smooth), !pmul_nat_S in C by assumption.
    transitivity (fm P T a * fm P T b * (hv (pmul_nat a P) (pmul_nat b P) T * hv (padd (pmul_nat a P) (pmul_nat b P)) P T)); [ring|]. rewrite C. ring.
Qed.
Lemma fm_nz P T n : on P -> on T -> (forall k, xdis (pmul_nat k P) T) -> fm P T n <> 0.
Proof.
  intros HP HT D. induction n; [exact (F_1_neq_0 FT)|]. cbn [fm]. apply nmul; [exact IHn|]. apply hv_nz; auto using (pmul_nat_on FT keq_ok two_nz n P).
  - apply (D 1%nat). - apply (D (S n)).
Qed.
Lemma four_1 X Y X' Y' T : on X -> on Y -> on X' -> on Y' -> on T -> xdis (padd X Y) T -> xdis (padd X' Y') T -> xdis (padd X X') T -> xdis (padd Y Y') T -> xdis (padd (padd X Y) (padd X' Y')) T -> xdis (padd (padd X Y) X') T ->
  hv X Y T * hv X' Y' T * hv (padd X Y) (padd X' Y') T = hv X X' T * hv Y Y' T * hv (padd X X') (padd Y Y') T.
Proof.
  intros HX HY HX' HY' HT D1 D2 D3 D4 D5 D6.
  assert (E1 : padd Y (padd X X') = padd (padd X Y) X') by (rewrite <- Padd_assoc by assumption; f_equal; apply Padd_comm; assumption).
  assert (E2 : padd (padd X X') Y = padd (padd X Y) X') by (rewrite <- E1; apply Padd_comm; try assumption; apply Padd_on; assumption).
  assert (E3 : padd (padd (padd X Y) X') Y' = padd (padd X Y) (padd X' Y')) by (apply Padd_assoc; try assumption; apply Padd_on; assumption).
  assert (E4 : padd (padd X X') (padd Y Y') = padd (padd X Y) (padd X' Y')) by (rewrite <- E3, <- E2; symmetry; apply Padd_assoc; try assumption; apply Padd_on; assumption).
  pose proof (cocycle_v (padd X Y) X' Y' T (Padd_on _ _ HX HY) HX' HY' HT D6 D2) as C1. rewrite E3 in C1. specialize (C1 D5).
  pose proof (cocycle_v Y X X' T HY HX HX' HT) as C2. rewrite (Padd_comm Y X) in C2 by assumption. specialize (C2 D1 D3 D6).
  pose proof (cocycle_v (padd X X') Y Y' T (Padd_on _ _ HX HX') HY HY' HT) as C3. rewrite E2 in C3. specialize (C3 D6 D4). rewrite E3 in C3. specialize (C3 D5).
  transitivity (hv X Y T * (hv X' Y' T * hv (padd X Y) (padd X' Y') T)); [ring|]. rewrite <- C1, (hv_comm X Y) by assumption.
  transitivity (hv Y X T * hv (padd X Y) X' T * hv (padd (padd X Y) X') Y' T); [ring|]. rewrite C2, (hv_comm Y (padd X X')) by (try apply Padd_on; assumption).
  transitivity (hv X X' T * (hv (padd X X') Y T * hv (padd (padd X Y) X') Y' T)); [ring|]. rewrite C3. ring.
Qed.
Lemma four X Y X' Y' T : on X -> on Y -> on X' -> on Y' -> on T -> xdis (padd X Y) T -> xdis (padd X' Y') T -> xdis (padd X X') T -> xdis (padd Y Y') T -> xdis (padd (padd X Y) (padd X' Y')) T ->
  xdis (padd (padd X Y) X') T \/ xdis (padd (padd X Y) Y') T \/ xdis (padd (padd X' Y') X) T \/ xdis (padd (padd X' Y') Y) T ->
  hv X Y T * hv X' Y' T * hv (padd X Y) (padd X' Y') T = hv X X' T * hv Y Y' T * hv (padd X X') (padd Y Y') T.
Proof.
  intros HX HY HX' HY' HT D1 D2 D3 D4 D5 [D6|[D6|[D6|D6]]].
  - apply four_1; assumption.
  - rewrite (hv_comm X Y), (hv_comm X' Y'), (Padd_comm X Y), (Padd_comm X' Y'), (hv_comm (padd X X')) by (try apply Padd_on; assumption). rewrite (Padd_comm X Y) in * by assumption. rewrite (Padd_comm X' Y') in * by assumption. rewrite four_1 by assumption. ring.
  - rewrite (hv_comm X X'), (hv_comm Y Y'), (Padd_comm X X'), (Padd_comm Y Y'), (hv_comm (padd X Y)) by (try apply Padd_on; assumption). rewrite (Padd_comm X X') in * by assumption. rewrite (Padd_comm Y Y') in * by assumption.
    rewrite (Padd_comm (padd X Y)) in D5 by (apply Padd_on; assumption). rewrite <- four_1 by assumption. ring.
  - rewrite (hv_comm X X'), (hv_comm Y Y'), (Padd_comm X X'), (Padd_comm Y Y'), (hv_comm (padd X Y)), (hv_comm (padd X' X)) by (try apply Padd_on; assumption). rewrite (Padd_comm X X') in * by assumption. rewrite (Padd_comm Y Y') in * by assumption.
    rewrite (Padd_comm (padd X Y)) in D5 by (apply Padd_on; assumption). rewrite (hv_comm X Y), (hv_comm X' Y'), (Padd_comm X Y), (Padd_comm X' Y') by assumption. rewrite (Padd_comm X Y) in * by assumption. rewrite (Padd_comm X' Y') in * by assumption.
    transitivity (hv Y' X' T * hv Y X T * hv (padd Y' X') (padd Y X) T); [ring|]. rewrite four_1 by assumption. ring.
Qed.
(** f_{n,Q} f_{n,Q'} against f_{n,Q+Q'} *)
Lemma fm_sum Q Q' T n : on Q -> on Q' -> on T ->
  (forall k, xdis (pmul_nat k Q) T) -> (forall k, xdis (pmul_nat k Q') T) -> (forall k, xdis (pmul_nat k (padd Q Q')) T) ->
  (forall a, xdis (padd (pmul_nat (S a) Q) (pmul_nat a Q')) T \/ xdis (padd (pmul_nat (S a) Q) Q') T \/ xdis (padd (pmul_nat (S a) Q') (pmul_nat a Q)) T \/ xdis (padd (pmul_nat (S a) Q') Q) T) ->
  fm Q T n * fm Q' T n * hv (pmul_nat n Q) (pmul_nat n Q') T = pw (hv Q Q' T) n * fm (padd Q Q') T n.
Proof.
  intros HQ HQ' HT D1 D2 D3 D4. induction n; [cbn; destruct T as [[]|]; cbn; ring|]. cbn [fm pw]. rewrite !pmul_nat_S.
  assert (A1 := Mon n _ HQ). assert (A2 := Mon n _ HQ'). assert (Dn := pmul_nat_dist FT keq_ok two_nz smooth n Q Q' HQ HQ').
  transitivity (fm Q T n * fm Q' T n * (hv (pmul_nat n Q) Q T * hv (pmul_nat n Q') Q' T * hv (padd (pmul_nat n Q) Q) (padd (pmul_nat n Q') Q') T)); [ring|].
  assert (F : hv (pmul_nat n Q) Q T * hv (pmul_nat n Q') Q' T * hv (padd (pmul_nat n Q) Q) (padd (pmul_nat n Q') Q') T = hv (pmul_nat n Q) (pmul_nat n Q') T * hv Q Q' T * hv (padd (pmul_nat n Q) (pmul_nat n Q')) (padd Q Q') T).
  { apply four; try assumption.
    - rewrite <- pmul_nat_S. apply D1. - rewrite <- pmul_nat_S. apply D2. - rewrite <- Dn. apply D3. - apply (D3 1%nat).
    - rewrite <- !pmul_nat_S, <- (pmul_nat_dist FT keq_ok two_nz smooth) by assumption. apply D3.
    - rewrite <- !pmul_nat_S. apply D4. }
  rewrite F. rewrite <- Dn.
  transitivity (fm Q T n * fm Q' T n * hv (pmul_nat n Q) (pmul_nat n Q') T * (hv Q Q' T * hv (pmul_nat n (padd Q Q')) (padd Q Q') T)); [ring|]. rewrite IHn. ring.
Qed.
(** f_{n,P}(T) f_{n,P}(U) against f_{n,P}(T+U) *)
Lemma fm_recip P T U n : on P -> on T -> on U -> (1 < n)%nat -> pmul_nat n P = None -> (forall k, (0 < k < n)%nat -> pmul_nat k P <> None) ->
  (forall k, xdis (pmul_nat k P) T) -> (forall k, xdis (pmul_nat k P) U) -> (forall k, xdis (pmul_nat k P) (padd T U)) ->
  fm P T n * fm P U n = pw (sg (fin T && fin U && fin (padd T U))) n * (pw (hv T U P) n * fm P (padd T U) n).
Proof.
  intros HP HT HU Hn On Ex D1 D2 D3. set (d := fin T && fin U && fin (padd T U)).
  assert (R : forall a, fm P T (S a) * fm P U (S a) * hv T U (pmul_nat (S a) P) = fm P T a * fm P U a * (sg (fin (pmul_nat a P) && fin P && fin (pmul_nat (S a) P) && d) * (hv T U (pmul_nat a P) * hv T U P * hv (pmul_nat a P) P (padd T U)))).
  { intros a. cbn [fm]. transitivity (fm P T a * fm P U a * (hv (pmul_nat a P) P T * hv (pmul_nat a P) P U * hv T U (pmul_nat (S a) P))); [ring|]. f_equal. rewrite pmul_nat_S. apply recip; auto using (pmul_nat_on FT keq_ok two_nz a P).
    intros p q Hp Hq. rewrite <- pmul_nat_S in Hp. assert (Ek : exists k, p = pmul_nat k P) by (destruct Hp as [<-|[<-|[<-|[]]]]; eauto; exists 1%nat; reflexivity). destruct Ek as [k ->]. destruct Hq as [<-|[<-|[<-|[]]]]; auto. }
  assert (F1 : forall k, (0 < k < n)%nat -> fin (pmul_nat k P) = true) by (intros k Hk; specialize (Ex k Hk); destruct (pmul_nat k P); [reflexivity|contradiction]).
  assert (Fp : fin P = true) by (apply (F1 1%nat); lia).
  assert (FW : forall a, fm P (padd T U) (S a) = fm P (padd T U) a * hv (pmul_nat a P) P (padd T U)) by reflexivity.
  assert (PW : forall x a, pw x (S a) = pw x a * x) by reflexivity.
  assert (I : forall a, (S a < n)%nat -> fm P T (S a) * fm P U (S a) * hv T U (pmul_nat (S a) P) = pw (sg d) a * (pw (hv T U P) (S a) * fm P (padd T U) (S a))).
  { induction a; intros Ha.
    - cbn [fm pw]. cbn [S_Curve.pmul_nat]. rewrite !hv_N1, padd_0_l. ring.
    - rewrite R. rewrite (F1 (S a)), (F1 (S (S a))), Fp by lia. cbn [andb]. specialize (IHa ltac:(lia)). rewrite (FW (S a)), (PW _ (S a)), (PW _ a).
      transitivity (fm P T (S a) * fm P U (S a) * hv T U (pmul_nat (S a) P) * (sg d * (hv T U P * hv (pmul_nat (S a) P) P (padd T U)))); [ring|]. rewrite IHa. ring. }
  destruct n as [|[|n]]; [lia|lia|]. specialize (I n ltac:(lia)). pose proof (R (S n)) as R1. rewrite On in R1. change (hv T U None) with 1 in R1. cbn [fin] in R1. rewrite andb_false_r in R1. cbn [andb sg] in R1.
  transitivity (fm P T (S (S n)) * fm P U (S (S n)) * 1); [ring|]. rewrite R1, (FW (S n)), !(PW _ (S n)), (PW (sg d) n).
  transitivity (fm P T (S n) * fm P U (S n) * hv T U (pmul_nat (S n) P) * (hv T U P * hv (pmul_nat (S n) P) P (padd T U))); [ring|]. rewrite I.
  assert (S2 : sg d * sg d = 1) by (destruct d; cbn; ring).
  transitivity (pw (sg d) n * (sg d * sg d) * (pw (hv T U P) (S n) * hv T U P * (fm P (padd T U) (S n) * hv (pmul_nat (S n) P) P (padd T U)))); [rewrite S2|]; ring.
Qed.
(** the pairing of the specification *)
Definition wp (n : nat) (p q : pt K) : K := sg (Nat.odd n) * fm p q n / fm q p n.
Lemma sg_odd n : pw (sg true) n = sg (Nat.odd n).
Proof. induction n; [reflexivity|]. cbn [pw]. rewrite IHn, Nat.odd_succ, <- Nat.negb_odd. destruct (Nat.odd n); cbn; ring. Qed.
Lemma sg_one n : pw (sg false) n = 1. Proof. induction n; [reflexivity|]. cbn [pw]. rewrite IHn. cbn. ring. Qed.
Lemma sg_sq b : sg b * sg b = 1. Proof. destruct b; cbn; ring. Qed.
Lemma sg_nz b : sg b <> 0. Proof. intros Z. apply (F_1_neq_0 FT). rewrite <- (sg_sq b), Z. ring. Qed.
Lemma pw_nz x n : x <> 0 -> pw x n <> 0. Proof. intros N. induction n; [exact (F_1_neq_0 FT)|]. cbn. apply nmul; assumption. Qed.
Lemma wp_anti n p q : on p -> on q -> (forall k, xdis (pmul_nat k p) q) -> (forall k, xdis (pmul_nat k q) p) -> wp n p q * wp n q p = 1 /\ wp n p q <> 0.
Proof.
  intros Hp Hq D1 D2. pose proof (fm_nz p q n Hp Hq D1) as N1. pose proof (fm_nz q p n Hq Hp D2) as N2. assert (Z : wp n p q * wp n q p = 1).
  { unfold wp. transitivity (sg (Nat.odd n) * sg (Nat.odd n)); [field; auto|]. apply sg_sq. }
  split; [exact Z|]. intros E. rewrite E in Z. apply (F_1_neq_0 FT). rewrite <- Z. ring.
Qed.
Lemma wp_add n X X' Y : on X -> on X' -> on Y -> (1 < n)%nat -> pmul_nat n Y = None -> pmul_nat n X = None -> (forall k, (0 < k < n)%nat -> pmul_nat k Y <> None) ->
  (forall k, xdis (pmul_nat k X) Y) -> (forall k, xdis (pmul_nat k X') Y) -> (forall k, xdis (pmul_nat k (padd X X')) Y) ->
  (forall k, xdis (pmul_nat k Y) X) -> (forall k, xdis (pmul_nat k Y) X') -> (forall k, xdis (pmul_nat k Y) (padd X X')) ->
  (forall a, xdis (padd (pmul_nat (S a) X) (pmul_nat a X')) Y \/ xdis (padd (pmul_nat (S a) X) X') Y \/ xdis (padd (pmul_nat (S a) X') (pmul_nat a X)) Y \/ xdis (padd (pmul_nat (S a) X') X) Y) ->
  fin X = true -> fin X' = true -> wp n X Y * wp n X' Y = if fin (padd X X') then wp n (padd X X') Y else 1.
Proof.
  intros HX HX' HY Hn OY OX EY D1 D2 D3 D4 D5 D6 N F F'.
  pose proof (fm_sum X X' Y n HX HX' HY D1 D2 D3 N) as A1. rewrite OX, hv_N1 in A1. pose proof (fm_recip Y X X' n HY HX HX' Hn OY EY D4 D5 D6) as A2. rewrite F, F' in A2. cbn [andb] in A2.
  pose proof (Padd_on _ _ HX HX') as HW.
  pose proof (fm_nz Y X n HY HX D4) as N1. pose proof (fm_nz Y X' n HY HX' D5) as N2. pose proof (fm_nz Y _ n HY HW D6) as N3.
  assert (Gz : hv X X' Y <> 0) by (apply hv_nz; try assumption; [apply (D1 1%nat)|apply (D2 1%nat)|apply (D3 1%nat)]). pose proof (pw_nz _ n Gz) as Gn.
  unfold wp. transitivity (fm X Y n * fm X' Y n * 1 / (fm Y X n * fm Y X' n)).
  { transitivity (sg (Nat.odd n) * sg (Nat.odd n) * (fm X Y n * fm X' Y n * 1 / (fm Y X n * fm Y X' n))); [field; auto|]. rewrite sg_sq. ring. }
  rewrite A1, A2. destruct (fin (padd X X')) eqn:Fw.
  - rewrite sg_odd. pose proof (sg_sq (Nat.odd n)) as S2. pose proof (sg_nz (Nat.odd n)) as S0. apply (cancel FT (sg (Nat.odd n))); [exact S0|]. transitivity (fm (padd X X') Y n / fm Y (padd X X') n); [field; auto|]. transitivity (sg (Nat.odd n) * sg (Nat.odd n) * (fm (padd X X') Y n / fm Y (padd X X') n)); [rewrite S2; ring|]. field. exact N3.
  - rewrite sg_one. destruct (padd X X') as [w|] eqn:Ew; [discriminate|].
    assert (L1 : forall T m, fm None T m = 1) by (intros T m; induction m; [reflexivity|cbn [fm]; rewrite IHm, hv_N2; ring]).
    assert (L2 : forall p m, fm p None m = 1) by (intros p m; induction m; [reflexivity|cbn [fm hv]; rewrite IHm; ring]). rewrite L1, L2. field. exact Gn.
Qed.
(** ** Bilinearity on a basis of the n-torsion *)
Lemma xdis_ne p q : on p -> on q -> p <> q -> p <> popp q -> xdis p q.
Proof.
  destruct p as [[a b]|], q as [[c d]|]; cbn [xdis]; auto. intros Hp Hq N1 N2 E. subst c. destruct (same_x FT keq_ok _ _ _ Hp Hq) as [E|E]; subst; [apply N1|apply N2]; reflexivity.
Qed.
Section Basis.
Context (P Q : pt K) (HP : on P) (HQ : on Q) (n : Z) (Hn : (3 < n)%Z).
Context (OP : pmul_nat (Z.to_nat n) P = None) (OQ : pmul_nat (Z.to_nat n) Q = None).
Context (indep : forall i j : nat, padd (pmul_nat i P) (pmul_nat j Q) = None -> (n | Z.of_nat i)%Z /\ (n | Z.of_nat j)%Z).
Local Open Scope Z_scope.
Local Notation ix i := (Z.to_nat (Z.modulo i n)).
Definition pz (i j : Z) : pt K := padd (pmul_nat (ix i) P) (pmul_nat (ix j) Q).
Lemma pz_on i j : on (pz i j). Proof. apply Padd_on; apply Mon; assumption. Qed.
Lemma mul_mod R k : on R -> pmul_nat (Z.to_nat n) R = None -> (0 <= k)%Z -> pmul_nat (Z.to_nat k) R = pmul_nat (ix k) R.
Proof.
  intros HR O Hk. rewrite (Z.div_mod k n) at 1 by lia. assert (0 <= k / n)%Z by (apply Z.div_pos; lia). assert (0 <= k mod n < n)%Z by (apply Z.mod_pos_bound; lia).
  rewrite Z2Nat.inj_add by nia. rewrite (pmul_nat_add FT keq_ok two_nz smooth) by assumption. rewrite Z.mul_comm, Z2Nat.inj_mul by lia. rewrite (pmul_nat_mul FT keq_ok two_nz smooth) by assumption. rewrite O, pmul_nat_None. reflexivity.
Qed.
Lemma mul_add R i j : on R -> pmul_nat (Z.to_nat n) R = None -> pmul_nat (ix (i + j)) R = padd (pmul_nat (ix i) R) (pmul_nat (ix j) R).
Proof.
  intros HR O. assert (0 <= i mod n < n)%Z by (apply Z.mod_pos_bound; lia). assert (0 <= j mod n < n)%Z by (apply Z.mod_pos_bound; lia).
  rewrite <- (pmul_nat_add FT keq_ok two_nz smooth) by assumption. rewrite <- Z2Nat.inj_add by lia. rewrite (mul_mod R (i mod n + j mod n)) by (try assumption; lia). rewrite <- Zplus_mod. reflexivity.
Qed.
Lemma pz_add i j i' j' : padd (pz i j) (pz i' j') = pz (i + i') (j + j').
Proof.
  unfold pz. rewrite !mul_add by assumption. set (a := pmul_nat (ix i) P). set (b := pmul_nat (ix j) Q). set (c := pmul_nat (ix i') P). set (d := pmul_nat (ix j') Q).
  assert (Ha : on a) by (apply Mon; assumption). assert (Hb : on b) by (apply Mon; assumption). assert (Hc : on c) by (apply Mon; assumption). assert (Hd : on d) by (apply Mon; assumption).
  rewrite !Padd_assoc by (try apply Padd_on; assumption). f_equal. rewrite <- !Padd_assoc by assumption. f_equal. apply Padd_comm; assumption.
Qed.
Lemma pz_mod i j i' j' : (n | i - i') -> (n | j - j') -> pz i j = pz i' j'.
Proof.
  intros D1 D2. assert (M : forall a b, (n | a - b) -> a mod n = b mod n).
  { intros a b [c Hc]. replace a with (b + c * n) by lia. apply Z_mod_plus_full. }
  unfold pz. rewrite (M _ _ D1), (M _ _ D2). reflexivity.
Qed.
Lemma pz_None i j : pz i j = None <-> (n | i) /\ (n | j).
Proof.
  split.
  - intros E. apply indep in E. rewrite !Z2Nat.id in E by (apply Z.mod_pos_bound; lia). destruct E as [E1 E2]. split; apply Z.mod_divide; try lia; [destruct E1 as [c Hc]|destruct E2 as [c Hc]].
    + pose proof (Z.mod_pos_bound i n ltac:(lia)). assert (c = 0) by nia. subst c. lia. + pose proof (Z.mod_pos_bound j n ltac:(lia)). assert (c = 0) by nia. subst c. lia.
  - intros [D1 D2]. rewrite (pz_mod i j 0 0) by (rewrite Z.sub_0_r; assumption). unfold pz. rewrite Z.mod_0_l by lia. reflexivity.
Qed.
Lemma pz_opp i j : popp (pz i j) = pz (- i) (- j).
Proof.
  assert (E : padd (pz i j) (pz (- i) (- j)) = None) by (rewrite pz_add, !Z.add_opp_diag_r; apply pz_None; split; apply Z.divide_0_r).
  symmetry. exact (padd_None FT keq_ok two_nz _ _ (pz_on _ _) (pz_on _ _) E).
Qed.
Lemma pz_mul k i j : pmul_nat k (pz i j) = pz (Z.of_nat k * i) (Z.of_nat k * j).
Proof.
  induction k; [symmetry; apply pz_None; split; apply Z.divide_0_r|]. rewrite pmul_nat_S, IHk, pz_add. apply pz_mod; apply Z.divide_0_r + idtac.
  - replace (_ - _) with 0 by lia. apply Z.divide_0_r. - replace (_ - _) with 0 by lia. apply Z.divide_0_r.
Qed.
Lemma pz_eq i j i' j' : pz i j = pz i' j' -> (n | i - i') /\ (n | j - j').
Proof.
  intros E. apply pz_None. replace (i - i') with (i + - i') by lia. replace (j - j') with (j + - j') by lia. rewrite <- pz_add, E, <- pz_opp. apply (padd_opp_r FT keq_ok). apply pz_on.
Qed.
Lemma pz_xdis i j k l : ~ ((n | i - k) /\ (n | j - l)) -> ~ ((n | i + k) /\ (n | j + l)) -> xdis (pz i j) (pz k l).
Proof.
  intros N1 N2. apply xdis_ne; auto using pz_on.
  - intros E. apply N1, pz_eq, E.
  - rewrite pz_opp. intros E. apply N2. apply pz_eq in E. replace (i + k) with (i - - k) by lia. replace (j + l) with (j - - l) by lia. exact E.
Qed.
Definition dt (i j k l : Z) := i * l - j * k.
Definition unim (k l : Z) := exists a b c, a * k + b * l = 1 + c * n.
(* N = (i,j) with a nonzero determinant against Y is not +-Y *)
Lemma xdis_dt i j k l : ~ (n | dt i j k l) -> xdis (pz i j) (pz k l).
Proof.
  intros N. apply pz_xdis; intros [[a Ha] [b Hb]]; apply N; unfold dt.
  - exists (a * l - b * k). nia. - exists (a * l - b * k). nia.
Qed.
Lemma xdis_mul i j k l m : unim k l -> ~ (n | dt i j k l) -> xdis (pmul_nat m (pz i j)) (pz k l).
Proof.
  intros (u & v & w & U) N. rewrite pz_mul. set (a := Z.of_nat m). clearbody a.
  assert (C : forall e, (e = 1 \/ e = -1) -> (n | a * i - e * k) -> (n | a * j - e * l) -> False).
  { intros e He [s Hs] [t Ht]. apply N. unfold dt. (* a (u i + v j) = e (1 + w n) + ..., a d = n(..) *)
    assert (E1 : a * (u * i + v * j) = e * (1 + w * n) + (u * s + v * t) * n) by (rewrite <- U; nia).
    assert (E2 : a * (i * l - j * k) = (s * l - t * k) * n) by nia.
    assert (E3 : e * (i * l - j * k) = (u * i + v * j) * ((s * l - t * k) * n) - (i * l - j * k) * (e * w + (u * s + v * t)) * n) by (rewrite <- E2; transitivity ((i * l - j * k) * (a * (u * i + v * j)) - (i * l - j * k) * (e * w + (u * s + v * t)) * n); [rewrite E1; ring|ring]).
    exists (e * ((u * i + v * j) * (s * l - t * k) - (i * l - j * k) * (e * w + (u * s + v * t)))). destruct He; subst e; lia. }
  apply pz_xdis; intros [A1 A2].
  - apply (C 1); auto; rewrite Z.mul_1_l; assumption.
  - apply (C (-1)); auto; [replace (a * i - -1 * k) with (a * i + k) by lia|replace (a * j - -1 * l) with (a * j + l) by lia]; assumption.
Qed.
Lemma xdis_mul' i j k l m : ~ (n | dt i j k l) -> xdis (pmul_nat m (pz k l)) (pz i j).
Proof.
  intros N. rewrite pz_mul. set (a := Z.of_nat m). clearbody a. apply pz_xdis; intros [[s Hs] [t Ht]]; apply N; unfold dt.
  - exists (t * k - s * l). nia. - exists (s * l - t * k). nia.
Qed.
Lemma pz_order i j : pmul_nat (Z.to_nat n) (pz i j) = None.
Proof. rewrite pz_mul, Z2Nat.id by lia. apply pz_None. split; apply Z.divide_factor_l. Qed.
Lemma unim_exact k l m : unim k l -> (0 < m < Z.to_nat n)%nat -> pmul_nat m (pz k l) <> None.
Proof.
  intros (u & v & w & U) Hm E. rewrite pz_mul in E. apply pz_None in E. destruct E as [[s Hs] [t Ht]]. set (a := Z.of_nat m) in *.
  assert (Da : (n | a)) by (exists (u * s + v * t - a * w); transitivity (a * (u * k + v * l) - a * w * n); [rewrite U; ring|]; transitivity (u * (a * k) + v * (a * l) - a * w * n); [ring|]; rewrite Hs, Ht; ring). apply Z.divide_pos_le in Da; lia.
Qed.
Definition ee (i j k l : Z) : K := wp (Z.to_nat n) (pz i j) (pz k l).
Lemma ee_mod i j i' j' k l : (n | i - i') -> (n | j - j') -> ee i j k l = ee i' j' k l.
Proof. intros A1 A2. unfold ee. rewrite (pz_mod _ _ _ _ A1 A2). reflexivity. Qed.
Local Infix "**" := kmul (at level 40, left associativity).
Lemma ee_anti i j k l : unim k l -> ~ (n | dt i j k l) -> ee i j k l ** ee k l i j = k1 /\ ee i j k l <> k0 /\ ee k l i j <> k0.
Proof.
  intros U N. assert (D1 : forall m, xdis (pmul_nat m (pz i j)) (pz k l)) by (intros m; apply xdis_mul; assumption). assert (D2 : forall m, xdis (pmul_nat m (pz k l)) (pz i j)) by (intros m; apply xdis_mul'; assumption).
  destruct (wp_anti (Z.to_nat n) (pz i j) (pz k l) (pz_on _ _) (pz_on _ _) D1 D2) as [A1 A2]. destruct (wp_anti (Z.to_nat n) (pz k l) (pz i j) (pz_on _ _) (pz_on _ _) D2 D1) as [_ A3]. unfold ee. auto.
Qed.
Lemma fin_dt i j k l : ~ (n | dt i j k l) -> fin (pz i j) = true.
Proof.
  intros N. destruct (pz i j) eqn:E; [reflexivity|]. exfalso. apply N. apply pz_None in E. destruct E as [[s ->] [t ->]]. unfold dt. exists (s * l - t * k). ring.
Qed.
Lemma ee_add i j i' j' k l : unim k l -> ~ (n | dt i j k l) -> ~ (n | dt i' j' k l) -> ~ (n | dt (i + i') (j + j') k l) -> ~ ((n | dt i j k l - dt i' j' k l) /\ (n | 3 * dt i j k l)) ->
  ee (i + i') (j + j') k l = ee i j k l ** ee i' j' k l.
Proof.
  intros U N1 N2 N3 N4. unfold ee. rewrite <- pz_add. rewrite wp_add; auto using pz_on, pz_order, xdis_mul, xdis_mul'.
  - rewrite pz_add, (fin_dt _ _ _ _ N3). reflexivity.
  - lia.
  - intros m. apply unim_exact. exact U.
  - intros m. rewrite pz_add. apply xdis_mul; assumption.
  - intros m. rewrite pz_add. apply xdis_mul'; assumption.
  - intros a. rewrite !pz_mul, !pz_add. set (b := Z.of_nat (S a)). assert (Eb : Z.of_nat a = b - 1) by lia. rewrite Eb. clearbody b.
    destruct (Zdivide_dec n (dt (b * i + (b - 1) * i') (b * j + (b - 1) * j') k l)) as [D1|D1]; [|left; apply xdis_dt; exact D1].
    destruct (Zdivide_dec n (dt (b * i + i') (b * j + j') k l)) as [D2|D2]; [|right; left; apply xdis_dt; exact D2].
    destruct (Zdivide_dec n (dt (b * i' + (b - 1) * i) (b * j' + (b - 1) * j) k l)) as [D3|D3]; [|right; right; left; apply xdis_dt; exact D3].
    exfalso. apply N4. unfold dt in *. set (d := i * l - j * k) in *. set (d' := i' * l - j' * k) in *.
    assert (E1 : (n | b * d + (b - 1) * d')) by (replace (b * d + (b - 1) * d') with ((b * i + (b - 1) * i') * l - (b * j + (b - 1) * j') * k) by (unfold d, d'; ring); exact D1).
    assert (E2 : (n | b * d + d')) by (replace (b * d + d') with ((b * i + i') * l - (b * j + j') * k) by (unfold d, d'; ring); exact D2).
    assert (E3 : (n | b * d' + (b - 1) * d)) by (replace (b * d' + (b - 1) * d) with ((b * i' + (b - 1) * i) * l - (b * j' + (b - 1) * j) * k) by (unfold d, d'; ring); exact D3).
    assert (E4 : (n | d - d')) by (replace (d - d') with (b * d + (b - 1) * d' - (b * d' + (b - 1) * d)) by ring; apply Z.divide_sub_r; assumption). split; [exact E4|].
    replace (3 * d) with (2 * (b * d + d' + (d - d')) - (b * d + (b - 1) * d' + (b - 1) * (d - d'))) by ring.
    apply Z.divide_sub_r; [apply Z.divide_mul_r, Z.divide_add_r; assumption|]. apply Z.divide_add_r; [assumption|]. apply Z.divide_mul_r. assumption.
  - exact (fin_dt _ _ _ _ N1).
  - exact (fin_dt _ _ _ _ N2).
Qed.
Lemma ee_inv i j k l : unim k l -> ~ (n | dt i j k l) -> ee i j k l ** ee (- i) (- j) k l = k1.
Proof.
  intros U N1. assert (N2 : ~ (n | dt (- i) (- j) k l)) by (intros D; apply N1; replace (dt i j k l) with (- dt (- i) (- j) k l) by (unfold dt; ring); apply Z.divide_opp_r; exact D).
  assert (E : padd (pz i j) (pz (- i) (- j)) = None) by (rewrite pz_add, !Z.add_opp_diag_r; apply pz_None; split; apply Z.divide_0_r).
  unfold ee. rewrite wp_add; auto using pz_on, pz_order, xdis_mul, xdis_mul'.
  - rewrite E. reflexivity.
  - lia.
  - intros m. apply unim_exact. exact U.
  - intros m. rewrite E, pmul_nat_None. exact I.
  - intros m. rewrite E. destruct (pmul_nat m (pz k l)) as [[]|]; exact I.
  - intros a. left. rewrite !pz_mul, !pz_add. apply xdis_dt. replace (dt _ _ k l) with (dt i j k l); [exact N1|]. unfold dt. rewrite Nat2Z.inj_succ. ring.
  - apply (fin_dt _ _ k l). exact N1.
  - apply (fin_dt _ _ k l). exact N2.
Qed.
Lemma nodiv a : 0 < a < n -> ~ (n | a). Proof. intros H D. apply Z.divide_pos_le in D; lia. Qed.
Lemma nodiv_opp a : ~ (n | a) -> ~ (n | - a). Proof. intros H D. apply H. apply Z.divide_opp_r. exact D. Qed.
(** powers along multiples of X, when det (X, Y) = +-1 *)
Lemma nodiv_e e a : (e = 1 \/ e = -1) -> ~ (n | a) -> ~ (n | e * a).
Proof. intros [->| ->] H; [rewrite Z.mul_1_l; exact H|]. replace (-1 * a) with (- a) by ring. apply nodiv_opp. exact H. Qed.
Lemma ee_lin i j k l e m : unim k l -> dt i j k l = e -> (e = 1 \/ e = -1) -> (0 < m)%nat -> Z.of_nat m < n -> ee (Z.of_nat m * i) (Z.of_nat m * j) k l = pw (ee i j k l) m.
Proof.
  intros U D He. induction m; [lia|]. intros _ Hm. destruct m as [|m].
  - cbn [pw]. rewrite !Z.mul_1_l. ring.
  - specialize (IHm ltac:(lia) ltac:(lia)). set (a := S m) in *. cbn [pw]. rewrite <- IHm. replace (Z.of_nat (S a) * i) with (Z.of_nat a * i + i) by lia. replace (Z.of_nat (S a) * j) with (Z.of_nat a * j + j) by lia.
    assert (Da : dt (Z.of_nat a * i) (Z.of_nat a * j) k l = e * Z.of_nat a) by (rewrite <- D; unfold dt; ring). assert (Db : dt (Z.of_nat a * i + i) (Z.of_nat a * j + j) k l = e * Z.of_nat (S a)) by (rewrite Nat2Z.inj_succ, <- D; unfold dt; ring).
    apply ee_add; [exact U| | | |]; rewrite ?Da, ?Db, ?D.
    + apply nodiv_e; [exact He|]. apply nodiv. unfold a in *. lia.
    + rewrite <- (Z.mul_1_r e). apply nodiv_e; [exact He|]. apply nodiv. lia.
    + apply nodiv_e; [exact He|]. apply nodiv. unfold a in *. lia.
    + intros [D1 D2]. replace (e * Z.of_nat a - e) with (e * (Z.of_nat a - 1)) in D1 by ring. replace (3 * (e * Z.of_nat a)) with (e * (3 * Z.of_nat a)) in D2 by ring.
      assert (Z.of_nat a = 1 \/ 0 < Z.of_nat a - 1 < n) as [E1|E1] by lia.
      * rewrite E1 in D2. revert D2. apply nodiv_e; [exact He|]. apply nodiv. lia.
      * revert D1. apply nodiv_e; [exact He|]. apply nodiv. lia.
Qed.
(** E(i X + j Y, Y) = u^i c^j with u = E(X, Y), c = E(X + Y, Y) / u *)
Lemma ee_cross i j k l e : unim k l -> dt i j k l = e -> (e = 1 \/ e = -1) -> forall b m, (0 < m)%nat -> Z.of_nat m < n ->
  ee (Z.of_nat m * i + Z.of_nat b * k) (Z.of_nat m * j + Z.of_nat b * l) k l = pw (ee i j k l) m ** pw (kdiv (ee (i + k) (j + l) k l) (ee i j k l)) b.
Proof.
  intros U D He. set (u := ee i j k l). assert (Du : ~ (n | e)) by (rewrite <- (Z.mul_1_r e); apply nodiv_e; [exact He|apply nodiv; lia]).
  assert (Hu : u <> k0) by (apply (ee_anti i j k l); [exact U|rewrite D; exact Du]).
  assert (Dt : forall m b, dt (m * i + b * k) (m * j + b * l) k l = e * m) by (intros; rewrite <- D; unfold dt; ring).
  (* mixed sums *)
  assert (Mx : forall m b b', (0 < m)%nat -> Z.of_nat (S m) < n -> ee (Z.of_nat (S m) * i + (b + b') * k) (Z.of_nat (S m) * j + (b + b') * l) k l = ee (Z.of_nat m * i + b * k) (Z.of_nat m * j + b * l) k l ** ee (1 * i + b' * k) (1 * j + b' * l) k l).
  { intros m b b' Hm Hmn. rewrite <- ee_add; [f_equal; lia|exact U| | | |].
    - rewrite Dt. apply nodiv_e; [exact He|apply nodiv; lia].
    - rewrite Dt. apply nodiv_e; [exact He|apply nodiv; lia].
    - replace (Z.of_nat m * i + b * k + (1 * i + b' * k)) with (Z.of_nat (S m) * i + (b + b') * k) by lia. replace (Z.of_nat m * j + b * l + (1 * j + b' * l)) with (Z.of_nat (S m) * j + (b + b') * l) by lia. rewrite Dt. apply nodiv_e; [exact He|apply nodiv; lia].
    - rewrite !Dt. intros [D1 D2]. replace (e * Z.of_nat m - e * 1) with (e * (Z.of_nat m - 1)) in D1 by ring. replace (3 * (e * Z.of_nat m)) with (e * (3 * Z.of_nat m)) in D2 by ring.
      assert (Z.of_nat m = 1 \/ 0 < Z.of_nat m - 1 < n) as [E1|E1] by lia.
      + rewrite E1 in D2. revert D2. apply nodiv_e; [exact He|]. apply nodiv. lia.
      + revert D1. apply nodiv_e; [exact He|]. apply nodiv. lia. }
  assert (B1 : forall b, ee (1 * i + Z.of_nat b * k) (1 * j + Z.of_nat b * l) k l = u ** pw (kdiv (ee (i + k) (j + l) k l) u) b).
  { induction b.
    - replace (1 * i + Z.of_nat 0 * k) with i by lia. replace (1 * j + Z.of_nat 0 * l) with j by lia. cbn [pw]. fold u. ring.
    - pose proof (Mx 1%nat (Z.of_nat b) 1 ltac:(lia) ltac:(lia)) as M1. pose proof (Mx 1%nat (Z.of_nat (S b)) 0 ltac:(lia) ltac:(lia)) as M2.
      replace (Z.of_nat b + 1) with (Z.of_nat (S b) + 0) in M1 by lia. rewrite M2 in M1. change (Z.of_nat 1) with 1 in M1. rewrite IHb in M1.
      replace (1 * i + 0 * k) with i in M1 by lia. replace (1 * j + 0 * l) with j in M1 by lia. replace (1 * i + 1 * k) with (i + k) in M1 by lia. replace (1 * j + 1 * l) with (j + l) in M1 by lia. fold u in M1.
      apply (cancel FT u); [exact Hu|]. transitivity (ee (1 * i + Z.of_nat (S b) * k) (1 * j + Z.of_nat (S b) * l) k l ** u); [ring|]. rewrite M1. cbn [pw]. field. exact Hu. }
  intros b m Hm Hmn. destruct m as [|[|m]]; [lia| |].
  - change (Z.of_nat 1) with 1. rewrite B1. cbn [pw]. ring.
  - pose proof (Mx (S m) 0 (Z.of_nat b) ltac:(lia) Hmn) as M1. replace (0 + Z.of_nat b) with (Z.of_nat b) in M1 by lia. rewrite M1, B1. replace (Z.of_nat (S m) * i + 0 * k) with (Z.of_nat (S m) * i) by lia. replace (Z.of_nat (S m) * j + 0 * l) with (Z.of_nat (S m) * j) by lia.
    rewrite (ee_lin i j k l e (S m)) by (try assumption; lia). fold u. cbn [pw]. ring.
Qed.
Lemma unim_0 : unim 0 1. Proof. exists 0, 1, 0. ring. Qed.
Lemma unim_1 l : unim 1 l. Proof. exists 1, 0, 0. ring. Qed.
Lemma pw_1 m : pw k1 m = k1. Proof. induction m; [reflexivity|cbn; rewrite IHm; ring]. Qed.
Lemma pw_mul x a b : pw x (a * b) = pw (pw x a) b.
Proof.
  assert (Ad : forall c d, pw x (c + d) = pw x c ** pw x d) by (intros c d; induction d; [rewrite Nat.add_0_r; cbn; ring|rewrite Nat.add_succ_r; cbn [pw]; rewrite IHd; ring]).
  induction b; [rewrite Nat.mul_0_r; reflexivity|]. rewrite Nat.mul_succ_r, Ad, IHb. reflexivity.
Qed.
Theorem ee_bilin a b : Z.odd n = true -> (0 < a)%nat -> Z.of_nat a < n -> ee (Z.of_nat a) (Z.of_nat b) 0 1 = pw (ee 1 0 0 1) a.
Proof.
  intros Od Ha Han. set (u := ee 1 0 0 1).
  pose proof (ee_cross 1 0 0 1 1 unim_0 eq_refl (or_introl eq_refl)) as CP. change (1 + 0) with 1 in CP. change (0 + 1) with 1 in CP. fold u in CP.
  pose proof (ee_cross 0 1 1 0 (-1) (unim_1 0) eq_refl (or_intror eq_refl)) as CQ. change (1 + 0) with 1 in CQ. change (0 + 1) with 1 in CQ.
  assert (F : forall x, dt 1 0 x 1 = 1) by (intros; unfold dt; ring).
  assert (N1 : ~ (n | 1)) by (apply nodiv; lia). assert (N1' : ~ (n | -1)) by (apply (nodiv_opp 1); exact N1).
  destruct (ee_anti 0 1 1 0 (unim_1 0) N1') as (A1 & A2 & A3). fold u in A1, A3.
  destruct (ee_anti 1 1 0 1 unim_0 N1) as (_ & A4 & _). destruct (ee_anti 1 1 1 0 (unim_1 0) N1') as (_ & A5 & _).
  set (c := kdiv (ee 1 1 0 1) u) in *. set (d := kdiv (ee 1 1 1 0) (ee 0 1 1 0)) in *.
  assert (Ed : ee 1 1 1 0 = kdiv d u). { unfold d. apply (cancel FT (ee 0 1 1 0 ** u)); [apply nmul; assumption|]. rewrite A1 at 1. field. split; assumption. }
  assert (Ec : ee 1 1 0 1 = u ** c) by (unfold c; field; exact A3).
  assert (Hc : c <> k0) by (intros Z; apply A4; rewrite Ec, Z; ring). assert (Hd : d <> k0) by (intros Z; apply A5; rewrite Ed, Z; field; exact A3).
  assert (E01 : ee 0 1 1 0 = kdiv k1 u) by (apply (cancel FT u); [exact A3|]; transitivity (ee 0 1 1 0 ** u); [ring|]; rewrite A1; field; exact A3).
  (* the two evaluations of E(P + kQ, P + Q) *)
  assert (KK : forall k, (1 < k)%nat -> Z.of_nat k < n -> (k <= 3)%nat -> d ** d ** (pw c k ** pw c k) = k1).
  { intros k Hk Hkn Hk3.
    assert (X1 : ee 1 (Z.of_nat k) 1 1 = ee 1 0 1 1 ** ee 0 (Z.of_nat k) 1 1).
    { rewrite <- ee_add; [f_equal; lia|exact (unim_1 1)| | | |]; unfold dt.
      - apply nodiv. lia. - replace (0 * 1 - Z.of_nat k * 1) with (- Z.of_nat k) by ring. apply nodiv_opp, nodiv. lia.
      - replace ((1 + 0) * 1 - (0 + Z.of_nat k) * 1) with (- (Z.of_nat k - 1)) by ring. apply nodiv_opp, nodiv. lia.
      - intros [_ D]. revert D. apply nodiv. lia. }
    assert (X2 : ee 1 1 1 (Z.of_nat k) = ee 1 0 1 (Z.of_nat k) ** ee 0 1 1 (Z.of_nat k)).
    { rewrite <- ee_add; [f_equal; lia|exact (unim_1 _)| | | |]; unfold dt.
      - apply nodiv. lia. - apply (nodiv_opp 1). exact N1.
      - replace ((1 + 0) * Z.of_nat k - (0 + 1) * 1) with (Z.of_nat k - 1) by ring. apply nodiv. lia.
      - intros [D1 D2]. replace (1 * Z.of_nat k - 0 * 1 - (0 * Z.of_nat k - 1 * 1)) with (Z.of_nat k + 1) in D1 by ring. destruct (Z.eq_dec (Z.of_nat k + 1) n) as [En|En]; [|revert D1; apply nodiv; lia].
        assert (k = 3%nat) by lia. subst k. replace (3 * (1 * Z.of_nat 3 - 0 * 1)) with (9) in D2 by reflexivity. rewrite <- En in D2. change (Z.of_nat 3 + 1) with 4 in D2. destruct D2 as [q Hq]. lia. }
    assert (Y1 : ee 1 0 1 1 ** kdiv d u = k1). { rewrite <- Ed. apply (ee_anti 1 0 1 1 (unim_1 1)). exact N1. }
    assert (Y2 : ee 0 (Z.of_nat k) 1 1 = pw (ee 0 1 1 1) k). { pose proof (ee_lin 0 1 1 1 (-1) k (unim_1 1) eq_refl (or_intror eq_refl) ltac:(lia) Hkn) as L. rewrite Z.mul_0_r, Z.mul_1_r in L. exact L. }
    assert (Y3 : ee 0 1 1 1 ** (u ** c) = k1). { rewrite <- Ec. apply (ee_anti 0 1 1 1 (unim_1 1)). exact N1'. }
    assert (Y4 : ee 1 0 1 (Z.of_nat k) ** (pw (kdiv k1 u) k ** d) = k1).
    { pose proof (CQ 1%nat k ltac:(lia) Hkn) as C. replace (Z.of_nat k * 0 + Z.of_nat 1 * 1) with 1 in C by lia. replace (Z.of_nat k * 1 + Z.of_nat 1 * 0) with (Z.of_nat k) in C by lia. cbn [pw] in C. rewrite E01 in C.
      replace (pw (kdiv k1 u) k ** d) with (ee 1 (Z.of_nat k) 1 0) by (rewrite C; ring). apply (ee_anti 1 0 1 (Z.of_nat k) (unim_1 _)). unfold dt. replace (1 * Z.of_nat k - 0 * 1) with (Z.of_nat k) by ring. apply nodiv. lia. }
    assert (Y5 : ee 0 1 1 (Z.of_nat k) ** (u ** pw c k) = k1).
    { pose proof (CP k 1%nat ltac:(lia) ltac:(lia)) as C. replace (Z.of_nat 1 * 1 + Z.of_nat k * 0) with 1 in C by lia. replace (Z.of_nat 1 * 0 + Z.of_nat k * 1) with (Z.of_nat k) in C by lia. cbn [pw] in C.
      replace (u ** pw c k) with (ee 1 (Z.of_nat k) 0 1) by (rewrite C; ring). apply (ee_anti 0 1 1 (Z.of_nat k) (unim_1 _)). unfold dt. exact N1'. }
    assert (Y6 : ee 1 (Z.of_nat k) 1 1 ** ee 1 1 1 (Z.of_nat k) = k1). { apply (ee_anti 1 (Z.of_nat k) 1 1 (unim_1 1)). unfold dt. replace (1 * 1 - Z.of_nat k * 1) with (- (Z.of_nat k - 1)) by ring. apply nodiv_opp, nodiv. lia. }
    rewrite X1, X2, Y2 in Y6.
    assert (Pm : forall x y, x ** y = k1 -> pw x k ** pw y k = k1).
    { intros x y E. assert (G : forall m, pw x m ** pw y m = k1) by (induction m; [cbn; ring|]; cbn [pw]; transitivity (pw x m ** pw y m ** (x ** y)); [ring|]; rewrite IHm, E; ring). apply G. }
    pose proof (Pm _ _ Y3) as Y3'. assert (Pd : forall x y m, pw (x ** y) m = pw x m ** pw y m) by (intros x y m; induction m; [cbn; ring|cbn [pw]; rewrite IHm; ring]). rewrite Pd in Y3'.
    assert (Yu : pw u k ** pw (kdiv k1 u) k = k1) by (apply Pm; field; exact A3).
    set (a1 := ee 1 0 1 1) in *. set (a2 := pw (ee 0 1 1 1) k) in *. set (a3 := ee 1 0 1 (Z.of_nat k)) in *. set (a4 := ee 0 1 1 (Z.of_nat k)) in *. set (uk := pw u k) in *. set (ui := pw (kdiv k1 u) k) in *. set (ck := pw c k) in *.
    transitivity (a1 ** a2 ** (a3 ** a4) ** (d ** d ** (ck ** ck))); [rewrite Y6; ring|].
    transitivity ((a1 ** kdiv d u) ** (a2 ** (uk ** ck)) ** (a3 ** (ui ** d)) ** (a4 ** (u ** ck)) ** (uk ** ui) ** (kdiv k1 (uk ** ui) ** kdiv k1 (uk ** ui))).
    - assert (Huk : uk <> k0) by (apply pw_nz; exact A3). assert (Hui : ui <> k0) by (intros Z; apply (F_1_neq_0 FT); rewrite <- Yu, Z; ring). field. repeat split; assumption.
    - rewrite Y1, Y3', Y4, Y5, Yu. field. exact (F_1_neq_0 FT). }
  assert (C2 : c ** c = k1).
  { pose proof (KK 2%nat ltac:(lia) ltac:(lia) ltac:(lia)) as K2. pose proof (KK 3%nat ltac:(lia) ltac:(lia) ltac:(lia)) as K3. cbn [pw] in K2, K3.
    transitivity (d ** d ** (k1 ** c ** c ** (k1 ** c ** c)) ** (c ** c)); [rewrite K2; ring|]. transitivity (d ** d ** (k1 ** c ** c ** c ** (k1 ** c ** c ** c))); [ring|exact K3]. }
  assert (C1 : c = k1).
  { pose proof (CP (Z.to_nat n) 1%nat ltac:(lia) ltac:(lia)) as C. rewrite Z2Nat.id in C by lia. rewrite (ee_mod (Z.of_nat 1 * 1 + n * 0) (Z.of_nat 1 * 0 + n * 1) 1 0 0 1) in C.
    2: { replace (Z.of_nat 1 * 1 + n * 0 - 1) with 0 by lia. apply Z.divide_0_r. } 2: { exists 1. lia. }
    fold u in C. cbn [pw] in C. assert (Cn : pw c (Z.to_nat n) = k1) by (apply (cancel FT u); [exact A3|]; rewrite C at 2; ring).
    apply Z.odd_spec in Od. destruct Od as [h Eh]. replace (Z.to_nat n) with (S (2 * Z.to_nat h)) in Cn by lia. cbn [pw] in Cn. rewrite pw_mul in Cn. replace (pw c 2) with (c ** c) in Cn by (cbn; ring). rewrite C2, pw_1 in Cn. rewrite <- Cn. ring. }
  pose proof (CP b a Ha Han) as C. replace (Z.of_nat a * 1 + Z.of_nat b * 0) with (Z.of_nat a) in C by lia. replace (Z.of_nat a * 0 + Z.of_nat b * 1) with (Z.of_nat b) in C by lia. rewrite C, C1, pw_1. ring.
Qed.
Theorem ee_root : pw (ee 1 0 0 1) (Z.to_nat n) = k1.
Proof.
  assert (N1 : ~ (n | dt 1 0 0 1)) by (apply nodiv; unfold dt; lia). pose proof (ee_inv 1 0 0 1 unim_0 N1) as I1. pose proof (ee_lin 1 0 0 1 1 (Z.to_nat (n - 1)) unim_0 eq_refl (or_introl eq_refl) ltac:(lia) ltac:(lia)) as L.
  rewrite (ee_mod _ _ (- (1)) (- 0) 0 1) in L; [|exists 1; lia|exists 0; lia]. rewrite L in I1. replace (Z.to_nat n) with (S (Z.to_nat (n - 1))) by lia. cbn [pw]. rewrite <- I1. ring.
Qed.
End Basis.
(** E(aP + bQ, -P) = E(P, Q)^b, from the basis (Q, -P) *)
Section Basis2.
Context (P Q : pt K) (HP : on P) (HQ : on Q) (n : Z) (Hn : (3 < n)%Z).
Context (OP : pmul_nat (Z.to_nat n) P = None) (OQ : pmul_nat (Z.to_nat n) Q = None).
Context (indep : forall i j : nat, padd (pmul_nat i P) (pmul_nat j Q) = None -> (n | Z.of_nat i)%Z /\ (n | Z.of_nat j)%Z).
Local Open Scope Z_scope.
Lemma opp_on : on (popp P). Proof. apply (on_opp FT). exact HP. Qed.
Lemma opp_order : pmul_nat (Z.to_nat n) (popp P) = None.
Proof. rewrite (pmul_nat_opp FT keq_ok two_nz) by exact HP. rewrite OP. reflexivity. Qed.
Lemma pz_1_0 : pz P Q n 1 0 = P.
Proof. unfold pz. rewrite Z.mod_1_l, Z.mod_0_l by lia. change (Z.to_nat 1) with 1%nat. change (Z.to_nat 0) with 0%nat. cbn [S_Curve.pmul_nat]. destruct P as [[]|]; reflexivity. Qed.
Lemma pz_0_1 : pz P Q n 0 1 = Q.
Proof. unfold pz. rewrite Z.mod_1_l, Z.mod_0_l by lia. reflexivity. Qed.
Lemma pz_nat (i j : nat) : pz P Q n (Z.of_nat i) (Z.of_nat j) = padd (pmul_nat i P) (pmul_nat j Q).
Proof.
  unfold pz. rewrite <- !(mul_mod n Hn) by (try assumption; lia). rewrite !Nat2Z.id. reflexivity.
Qed.
Lemma pz_swap i j : pz Q (popp P) n i j = pz P Q n (- j) i.
Proof.
  assert (O1 := opp_on). assert (O2 := opp_order). assert (I : forall a, on (pmul_nat a P)) by (intros; apply Mon; exact HP). assert (J : forall a, on (pmul_nat a Q)) by (intros; apply Mon; exact HQ).
  unfold pz. rewrite (pmul_nat_opp FT keq_ok two_nz) by exact HP. rewrite Padd_comm by (try apply (on_opp FT); auto). f_equal.
  symmetry. apply (padd_None (A := A) FT keq_ok two_nz); auto. rewrite <- (mul_add n Hn) by assumption. rewrite Z.add_opp_diag_r, Z.mod_0_l by lia. reflexivity.
Qed.
Lemma indep_swap : forall i j : nat, padd (pmul_nat i Q) (pmul_nat j (popp P)) = None -> (n | Z.of_nat i) /\ (n | Z.of_nat j).
Proof.
  intros i j. rewrite (pmul_nat_opp FT keq_ok two_nz) by exact HP. intros E. assert (I : on (pmul_nat j P)) by (apply Mon; exact HP). assert (J : on (pmul_nat i Q)) by (apply Mon; exact HQ).
  pose proof (padd_None FT keq_ok two_nz _ _ J ltac:(apply (on_opp FT); exact I) E) as E'.
  assert (E2 : pmul_nat i Q = pmul_nat j P). { rewrite <- (popp_invol FT (pmul_nat i Q)), <- (popp_invol FT (pmul_nat j P)). rewrite E'. reflexivity. }
  (* j P + (n-1) i Q = n i Q = O *)
  assert (E3 : padd (pmul_nat j P) (pmul_nat (Z.to_nat (n - 1) * i) Q) = None).
  { rewrite <- E2, <- (pmul_nat_add FT keq_ok two_nz smooth) by exact HQ. replace (i + Z.to_nat (n - 1) * i)%nat with (i * Z.to_nat n)%nat by nia. rewrite (pmul_nat_mul FT keq_ok two_nz smooth) by exact HQ. rewrite OQ. apply pmul_nat_None. }
  apply indep in E3. destruct E3 as [D1 D2]. split; [|exact D1]. rewrite Nat2Z.inj_mul, Z2Nat.id in D2 by lia. replace (Z.of_nat i) with (n * Z.of_nat i - (n - 1) * Z.of_nat i) by ring. apply Z.divide_sub_r; [apply Z.divide_factor_l|exact D2].
Qed.
End Basis2.
End Weil.
