(** The chord-and-tangent law on a smooth Montgomery curve is an abelian group: associativity via slopes.
    Everything here is over an abstract field. *)
From Coq Require Import Arith ZArith List Bool Ring Field Lia.
From Verif Require Import S_Curve.

Section Group.
Context {K : Type} {k0 k1 : K} {kadd kmul ksub : K -> K -> K} {kopp : K -> K} {kdiv : K -> K -> K} {kinv : K -> K} {keq : K -> K -> bool}.
Context (FT : field_theory k0 k1 kadd kmul ksub kopp kdiv kinv (@eq K)).
Context (keq_ok : forall x y, keq x y = true <-> x = y).
Context (two_nz : kadd k1 k1 <> k0).
Context {A : K}.
Context (smooth : kmul A A <> kadd (kadd k1 k1) (kadd k1 k1)).
Add Field Kfield : FT.
Local Notation "0" := k0. Local Notation "1" := k1.
Local Notation "2" := (kadd k1 k1). Local Notation "3" := (kadd (kadd k1 k1) k1).
Local Infix "+" := kadd. Local Infix "*" := kmul. Local Infix "-" := ksub. Local Infix "/" := kdiv. Local Notation "- x" := (kopp x).
Local Notation on := (on kadd kmul A).
Local Notation chord := (chord kmul ksub A).
Local Notation padd := (padd k1 kadd kmul ksub kopp kdiv keq A).
Local Notation popp := (popp kopp).
Local Notation pmul_nat := (pmul_nat k1 kadd kmul ksub kopp kdiv keq A).

Lemma keq_dec (x y : K) : {x = y} + {x <> y}.
Proof. destruct (keq x y) eqn:E; [left; apply keq_ok; auto|right; intros H; apply keq_ok in H; congruence]. Qed.
Lemma keq_refl x : keq x x = true. Proof. apply keq_ok. reflexivity. Qed.
Lemma keq_false x y : x <> y -> keq x y = false. Proof. intros H. destruct (keq x y) eqn:E; auto. apply keq_ok in E. contradiction. Qed.
Lemma one_nz : 1 <> 0. Proof. exact (F_1_neq_0 FT). Qed.
Lemma mul0 x y : x * y = 0 -> x = 0 \/ y = 0.
Proof. intros H. destruct (keq_dec x 0) as [|N]; [auto|]. right. replace y with ((x * y) / x) by (field; auto). rewrite H. field. auto. Qed.
Lemma mulr_nz x y : x <> 0 -> y <> 0 -> x * y <> 0. Proof. intros A1 B1 H. destruct (mul0 _ _ H); contradiction. Qed.
Lemma cancel x y z : x <> 0 -> x * y = x * z -> y = z.
Proof. intros N H. replace y with ((x * y) / x) by (field; auto). rewrite H. field. auto. Qed.
Lemma sub_eq x y : x - y = 0 -> x = y. Proof. intros H. replace x with ((x - y) + y) by ring. rewrite H. ring. Qed.
Lemma sub_nz x y : x <> y -> x - y <> 0. Proof. intros N H. apply N, sub_eq, H. Qed.
Lemma double_0 y : y = - y -> y = 0.
Proof. intros H. apply (cancel 2); [exact two_nz|]. replace (2 * y) with (y - - y) by ring. rewrite <- H. ring. Qed.
Lemma opp_inj x y : - x = - y -> x = y. Proof. intros H. replace x with (- - x) by ring. rewrite H. ring. Qed.

(** m is the slope of the line through (x1,y1) and (x2,y2): chord or tangent *)
Definition slope (x1 y1 x2 y2 m : K) : Prop :=
  y1 - y2 = m * (x1 - x2) /\ m * (y1 + y2) = x1 * x1 + x1 * x2 + x2 * x2 + A * (x1 + x2) + 1.
Lemma slope_sym x1 y1 x2 y2 m : slope x1 y1 x2 y2 m -> slope x2 y2 x1 y1 m.
Proof. intros [H1 H2]. split; [replace (y2 - y1) with (- (y1 - y2)) by ring; rewrite H1; ring|replace (y2 + y1) with (y1 + y2) by ring; rewrite H2; ring]. Qed.
Lemma on_diff x1 y1 x2 y2 : on (Some (x1, y1)) -> on (Some (x2, y2)) ->
  (y1 - y2) * (y1 + y2) = (x1 - x2) * (x1 * x1 + x1 * x2 + x2 * x2 + A * (x1 + x2) + 1).
Proof. intros H1 H2. cbn in H1, H2. replace ((y1 - y2) * (y1 + y2)) with (y1 * y1 - y2 * y2) by ring. rewrite H1, H2. ring. Qed.
Lemma same_x x y1 y2 : on (Some (x, y1)) -> on (Some (x, y2)) -> y1 = y2 \/ y1 = - y2.
Proof.
  intros H1 H2. pose proof (on_diff _ _ _ _ H1 H2) as D. replace ((y1 - y2) * (y1 + y2)) with ((y1 - y2) * (y1 - - y2)) in D by ring.
  assert (D' : (y1 - y2) * (y1 - - y2) = 0) by (rewrite D; ring). destruct (mul0 _ _ D') as [E|E]; [left|right]; apply sub_eq; auto.
Qed.
Lemma slope_unique x1 y1 x2 y2 m n : slope x1 y1 x2 y2 m -> slope x1 y1 x2 y2 n -> (x1 <> x2 \/ y1 + y2 <> 0) -> m = n.
Proof.
  intros [A1 B1] [A2 B2] [N|N].
  - apply (cancel (x1 - x2)); [apply sub_nz; auto|]. replace ((x1 - x2) * m) with (m * (x1 - x2)) by ring. rewrite <- A1, A2. ring.
  - apply (cancel (y1 + y2)); auto. replace ((y1 + y2) * m) with (m * (y1 + y2)) by ring. rewrite B1, <- B2. ring.
Qed.
(** finite sums are given by the slope *)
Lemma padd_slope x1 y1 x2 y2 : on (Some (x1, y1)) -> on (Some (x2, y2)) -> ~ (x1 = x2 /\ y1 = - y2) ->
  exists m, slope x1 y1 x2 y2 m /\ padd (Some (x1, y1)) (Some (x2, y2)) = chord m x1 y1 x2.
Proof.
  intros H1 H2 N. unfold S_Curve.padd. destruct (keq_dec x1 x2) as [Ex|Nx].
  - subst x2. rewrite keq_refl. assert (Ny : y1 <> - y2) by auto. rewrite (keq_false _ _ Ny). destruct (same_x _ _ _ H1 H2) as [Ey|Ey]; [|contradiction]. subst y2.
    assert (Y : y1 <> 0) by (intros E; apply Ny; rewrite E; ring).
    eexists. split; [|reflexivity]. split; [field; auto|]. field. split; auto.
  - rewrite (keq_false _ _ Nx). eexists. split; [|reflexivity]. assert (D : x2 - x1 <> 0) by (apply sub_nz; auto). split; [field; auto|].
    apply (cancel (x1 - x2)); [apply sub_nz; auto|]. rewrite <- (on_diff _ _ _ _ H1 H2). field. auto.
Qed.
Lemma padd_finite x1 y1 x2 y2 m : on (Some (x1, y1)) -> on (Some (x2, y2)) -> ~ (x1 = x2 /\ y1 = - y2) -> slope x1 y1 x2 y2 m ->
  padd (Some (x1, y1)) (Some (x2, y2)) = chord m x1 y1 x2.
Proof.
  intros H1 H2 N S. destruct (padd_slope _ _ _ _ H1 H2 N) as (n & Sn & E). rewrite E. f_equal. eapply slope_unique; eauto.
  destruct (keq_dec x1 x2) as [->|]; [right|left; auto]. intros K0. apply N. split; auto. apply sub_eq. rewrite <- K0. ring.
Qed.
Lemma padd_opp_r p : on p -> padd p (popp p) = None.
Proof.
  destruct p as [[x y]|]; [|reflexivity]. intros _. unfold S_Curve.padd, S_Curve.popp. rewrite keq_refl. replace (- - y) with y by ring. rewrite keq_refl. reflexivity.
Qed.
Lemma padd_None p q : on p -> on q -> padd p q = None -> q = popp p.
Proof.
  destruct p as [[x1 y1]|], q as [[x2 y2]|]; try discriminate; auto. intros H1 H2 E.
  destruct (keq_dec x1 x2) as [->|Nx]; [destruct (keq_dec y1 (- y2)) as [->|Ny]|].
  - cbn. f_equal. f_equal. ring.
  - destruct (padd_slope _ _ _ _ H1 H2) as (m & _ & E'); [tauto|]. rewrite E' in E. discriminate.
  - destruct (padd_slope _ _ _ _ H1 H2) as (m & _ & E'); [tauto|]. rewrite E' in E. discriminate.
Qed.
Lemma popp_invol p : popp (popp p) = p.
Proof. destruct p as [[x y]|]; cbn; auto. replace (- - y) with y by ring. reflexivity. Qed.
Lemma on_opp p : on p -> on (popp p).
Proof. destruct p as [[x y]|]; cbn; auto. intros <-. ring. Qed.
Lemma padd_0_l p : padd None p = p. Proof. reflexivity. Qed.
Lemma padd_0_r p : padd p None = p. Proof. destruct p as [[]|]; reflexivity. Qed.
Lemma padd_comm p q : on p -> on q -> padd p q = padd q p.
Proof.
  destruct p as [[x1 y1]|], q as [[x2 y2]|]; auto. intros H1 H2.
  destruct (keq_dec x1 x2) as [Ex|Nx]; [destruct (keq_dec y1 (- y2)) as [Ey|Ny]|].
  - subst. cbn. rewrite !keq_refl. replace (- - y2) with y2 by ring. rewrite keq_refl. reflexivity.
  - destruct (padd_slope _ _ _ _ H1 H2) as (m & S & E); [tauto|]. rewrite E. rewrite (padd_finite _ _ _ _ m H2 H1); [|intros [_ K0]; apply Ny; rewrite K0; ring|apply slope_sym; auto].
    unfold S_Curve.chord. destruct S as [S _]. replace y1 with (y2 + m * (x1 - x2)) by (rewrite <- S; ring). f_equal. f_equal; ring.
  - destruct (padd_slope _ _ _ _ H1 H2) as (m & S & E); [tauto|]. rewrite E. rewrite (padd_finite _ _ _ _ m H2 H1); [|intros [K0 _]; auto|apply slope_sym; auto].
    unfold S_Curve.chord. destruct S as [S _]. replace y1 with (y2 + m * (x1 - x2)) by (rewrite <- S; ring). f_equal. f_equal; ring.
Qed.
(** the line meets the curve in the third point *)
Lemma chord_on x1 y1 x2 y2 m : on (Some (x1, y1)) -> slope x1 y1 x2 y2 m -> on (chord m x1 y1 x2).
Proof.
  intros H1 [S1 S2]. cbn in *. set (x3 := m * m - A - x1 - x2). 
  assert (E : m * (y1 + y1) = x1 * x1 + x1 * x2 + x2 * x2 + A * (x1 + x2) + 1 + m * m * (x1 - x2)).
  { rewrite <- S2. replace (m * m * (x1 - x2)) with (m * (m * (x1 - x2))) by ring. rewrite <- S1. ring. }
  assert (M : m * m = x1 + x2 + x3 + A) by (unfold x3; ring). rewrite M in E.
  replace ((m * (x1 - x3) - y1) * (m * (x1 - x3) - y1)) with (m * m * ((x1 - x3) * (x1 - x3)) - (m * (y1 + y1)) * (x1 - x3) + y1 * y1) by ring.
  rewrite M, E, H1. ring.
Qed.
Lemma padd_on p q : on p -> on q -> on (padd p q).
Proof.
  destruct p as [[x1 y1]|], q as [[x2 y2]|]; auto. intros H1 H2.
  destruct (keq_dec x1 x2) as [Ex|Nx]; [destruct (keq_dec y1 (- y2)) as [Ey|Ny]|].
  - subst. cbn. rewrite !keq_refl. exact I.
  - destruct (padd_slope _ _ _ _ H1 H2) as (m & S & E); [tauto|]. rewrite E. eapply chord_on; eauto.
  - destruct (padd_slope _ _ _ _ H1 H2) as (m & S & E); [tauto|]. rewrite E. eapply chord_on; eauto.
Qed.
Lemma popp_add p q : on p -> on q -> popp (padd p q) = padd (popp p) (popp q).
Proof.
  destruct p as [[x1 y1]|], q as [[x2 y2]|]; auto. intros H1 H2.
  assert (G : ~ (x1 = x2 /\ y1 = - y2) -> popp (padd (Some (x1, y1)) (Some (x2, y2))) = padd (popp (Some (x1, y1))) (popp (Some (x2, y2)))).
  { intros N. destruct (padd_slope _ _ _ _ H1 H2 N) as (m & [S1 S2] & E). rewrite E. cbn [S_Curve.popp]. rewrite (padd_finite _ _ _ _ (- m)).
    - unfold S_Curve.chord, S_Curve.popp. cbv zeta. f_equal. f_equal; ring.
    - apply (on_opp _ H1). - apply (on_opp _ H2).
    - intros [K0 K1]. apply N. split; auto. apply opp_inj. rewrite K1. ring.
    - split; [replace (- y1 - - y2) with (- (y1 - y2)) by ring; rewrite S1; ring|rewrite <- S2; ring]. }
  destruct (keq_dec x1 x2) as [Ex|Nx]; [destruct (keq_dec y1 (- y2)) as [Ey|Ny]|]; try (apply G; tauto).
  subst. cbn. rewrite !keq_refl. reflexivity.
Qed.

(** slope facts about the sum *)
Lemma slope_third x1 y1 x2 y2 m : on (Some (x1, y1)) -> slope x1 y1 x2 y2 m ->
  let x3 := m * m - A - x1 - x2 in let y3 := m * (x1 - x3) - y1 in slope x3 (- y3) x2 y2 m.
Proof.
  intros H1 [S1 S2] x3 y3. assert (M : m * m = x1 + x2 + x3 + A) by (unfold x3; ring). assert (Y : y2 = y1 - m * (x1 - x2)) by (rewrite <- S1; ring). split.
  - unfold y3. rewrite Y. ring.
  - unfold y3. replace (m * (- (m * (x1 - x3) - y1) + y2)) with (m * (y1 + y2) - m * m * (x1 - x3)) by ring. rewrite S2, M. ring.
Qed.
Lemma smooth_pt x : x * x * x + A * (x * x) + x = 0 -> 3 * (x * x) + 2 * (A * x) + 1 = 0 -> False.
Proof.
  intros H1 H2. assert (Nx : x <> 0) by (intros ->; apply one_nz; rewrite <- H2; ring).
  assert (Q : x * x + A * x + 1 = 0). { apply (cancel x); auto. replace (x * (x * x + A * x + 1)) with (x * x * x + A * (x * x) + x) by ring. rewrite H1. ring. }
  assert (B : 2 * x + A = 0). { apply (cancel x); auto. replace (x * (2 * x + A)) with ((3 * (x * x) + 2 * (A * x) + 1) - (x * x + A * x + 1)) by ring. rewrite H2, Q. ring. }
  apply smooth. assert (EA : A = - (2 * x)) by (replace A with ((2 * x + A) - 2 * x) by ring; rewrite B; ring).
  assert (XX : x * x = 1). { replace (x * x) with (1 - (x * x + A * x + 1) + 1 * 0 + (2 * x + A) * x) by ring. rewrite Q, B. ring. }
  rewrite EA. replace (- (2 * x) * - (2 * x)) with ((2 + 2) * (x * x)) by ring. rewrite XX. ring.
Qed.
(** law B *)
Lemma add_sub r p : on r -> on p -> padd (padd r p) (popp p) = r.
Proof.
  intros Hr Hp. destruct p as [[xp yp]|]; [|rewrite padd_0_r; apply padd_0_r]. destruct r as [[xr yr]|].
  2:{ rewrite padd_0_l. apply padd_opp_r; auto. }
  destruct (keq_dec xr xp) as [Ex|Nx]; [destruct (keq_dec yr (- yp)) as [Ey|Ny]|].
  - subst. unfold S_Curve.padd at 2. rewrite !keq_refl. reflexivity.
  - assert (N : ~ (xr = xp /\ yr = - yp)) by tauto. revert N. clear Ex Ny. intros N. destruct (padd_slope _ _ _ _ Hr Hp N) as (m & S & E).
    rewrite E. pose proof (chord_on _ _ _ _ _ Hr S) as Hc. pose proof (slope_third _ _ _ _ _ Hr S) as T. cbv zeta in T. unfold S_Curve.chord in *. cbv zeta in *. cbn [S_Curve.popp].
    set (xs := m * m - A - xr - xp) in *. set (ys := m * (xr - xs) - yr) in *.
    assert (T' : slope xs ys xp (- yp) (- m)). { destruct T as [T1 T2]. split; [replace (ys - - yp) with (- (- ys - yp)) by ring; rewrite T1; ring|rewrite <- T2; ring]. }
    assert (NN : ~ (xs = xp /\ ys = - - yp)).
    { intros [K0 K1]. destruct T as [T1 T2]. rewrite K0, K1 in T1, T2. assert (Y0 : yp = 0). { apply double_0. transitivity (- (- - - yp - yp) - yp); [ring|]. rewrite T1. ring. }
      rewrite Y0 in *. apply (smooth_pt xp). + cbn in Hp. replace (xp * xp * xp + A * (xp * xp) + xp) with (0 * 0) by (rewrite Hp; ring). ring. + replace 0 with (m * (- - - 0 + 0)) by ring. rewrite T2. ring. }
    rewrite (padd_finite _ _ _ _ (- m) Hc (on_opp _ Hp) NN T'). unfold S_Curve.chord. cbv zeta. f_equal. unfold ys, xs. f_equal; ring.
  - assert (N : ~ (xr = xp /\ yr = - yp)) by tauto. revert N. clear Nx. intros N. destruct (padd_slope _ _ _ _ Hr Hp N) as (m & S & E).
    rewrite E. pose proof (chord_on _ _ _ _ _ Hr S) as Hc. pose proof (slope_third _ _ _ _ _ Hr S) as T. cbv zeta in T. unfold S_Curve.chord in *. cbv zeta in *. cbn [S_Curve.popp].
    set (xs := m * m - A - xr - xp) in *. set (ys := m * (xr - xs) - yr) in *.
    assert (T' : slope xs ys xp (- yp) (- m)). { destruct T as [T1 T2]. split; [replace (ys - - yp) with (- (- ys - yp)) by ring; rewrite T1; ring|rewrite <- T2; ring]. }
    assert (NN : ~ (xs = xp /\ ys = - - yp)).
    { intros [K0 K1]. destruct T as [T1 T2]. rewrite K0, K1 in T1, T2. assert (Y0 : yp = 0). { apply double_0. transitivity (- (- - - yp - yp) - yp); [ring|]. rewrite T1. ring. }
      rewrite Y0 in *. apply (smooth_pt xp). + cbn in Hp. replace (xp * xp * xp + A * (xp * xp) + xp) with (0 * 0) by (rewrite Hp; ring). ring. + replace 0 with (m * (- - - 0 + 0)) by ring. rewrite T2. ring. }
    rewrite (padd_finite _ _ _ _ (- m) Hc (on_opp _ Hp) NN T'). unfold S_Curve.chord. cbv zeta. f_equal. unfold ys, xs. f_equal; ring.
Qed.
(** the key identity: with l the slope through P1,P2, m through P2,P3 and n through P1+P2,P3 *)
Lemma key_slope x1 y1 x2 y2 x3 y3 l m n :
  on (Some (x1, y1)) -> on (Some (x2, y2)) -> on (Some (x3, y3)) -> slope x1 y1 x2 y2 l -> slope x2 y2 x3 y3 m ->
  let xs := l * l - A - x1 - x2 in let ys := l * (x1 - xs) - y1 in
  ~ (x2 = x3 /\ y2 = - y3) -> ~ (xs = x3 /\ ys = - y3) -> slope xs ys x3 y3 n -> (l - m) * (n + l) = x1 - x3.
Proof.
  intros H1 H2 H3 [L1 L2] [M1 M2] xs ys N23 NS [S1 S2].
  assert (Y1 : y1 = y2 + l * (x1 - x2)) by (rewrite <- L1; ring). assert (Y3 : y3 = y2 - m * (x2 - x3)) by (rewrite <- M1; ring).
  assert (LL : l * l = xs + A + x1 + x2) by (unfold xs; ring).
  assert (Q1 : l * (y2 + y2) = x1 * x1 + x1 * x2 + x2 * x2 + A * (x1 + x2) + 1 - l * l * (x1 - x2)) by (rewrite <- L2, Y1; ring).
  assert (Q3 : m * (y2 + y2) = x2 * x2 + x2 * x3 + x3 * x3 + A * (x2 + x3) + 1 + m * m * (x2 - x3)) by (rewrite <- M2, Y3; ring).
  destruct (keq_dec xs x3) as [Ex|Nx].
  - (* P1+P2 and P3 share the abscissa, hence are equal: n is the tangent slope at P3 *)
    assert (Hs : on (Some (xs, ys))) by (apply (chord_on x1 y1 x2 y2 l H1); split; auto).
    assert (Ey : ys = y3) by (rewrite Ex in Hs; destruct (same_x _ _ _ Hs H3); [auto|exfalso; apply NS; auto]).
    destruct (keq_dec x2 x3) as [E23|N2].
    + (* then P2 = P3 too, and P1+P2 = P2 is impossible *)
      exfalso. assert (E2 : y2 = y3) by (rewrite E23 in H2; destruct (same_x _ _ _ H2 H3); [auto|exfalso; apply N23; auto]).
      assert (T := slope_third x1 y1 x2 y2 l H1 (conj L1 L2)). cbv zeta in T. fold xs in T. fold ys in T. rewrite Ex, Ey, E23, E2 in T. destruct T as [T1 T2].
      assert (Y0 : y3 = 0). { apply double_0. transitivity (- (- y3 - y3) - y3); [ring|]. rewrite T1. ring. }
      apply (smooth_pt x3). { cbn in H3. replace (x3 * x3 * x3 + A * (x3 * x3) + x3) with (y3 * y3) by (rewrite H3; ring). rewrite Y0. ring. }
      replace (3 * (x3 * x3) + 2 * (A * x3) + 1) with (x3 * x3 + x3 * x3 + x3 * x3 + A * (x3 + x3) + 1) by ring. rewrite <- T2, Y0. ring.
    + apply (cancel (x2 - x3)); [apply sub_nz; auto|].
      assert (E1 : (l - m) * (x2 - x3) = y3 + y3).
      { assert (T := slope_third x1 y1 x2 y2 l H1 (conj L1 L2)). cbv zeta in T. fold xs in T. fold ys in T. rewrite Ex, Ey in T. destruct T as [T1 T2].
        replace ((l - m) * (x2 - x3)) with (- (l * (x3 - x2)) - m * (x2 - x3)) by ring. rewrite <- T1, <- M1. ring. }
      rewrite Ex, Ey in S2. replace ((x2 - x3) * ((l - m) * (n + l))) with ((l - m) * (x2 - x3) * (n + l)) by ring. rewrite E1.
      replace ((y3 + y3) * (n + l)) with (n * (y3 + y3) + l * (y3 + y3)) by ring. rewrite S2.
      assert (Y : l * (y3 + y3) = - (x2 * x2 + x2 * x3 + x3 * x3 + A * (x2 + x3) + 1) - l * l * (x3 - x2)).
      { assert (T := slope_third x1 y1 x2 y2 l H1 (conj L1 L2)). cbv zeta in T. fold xs in T. fold ys in T. rewrite Ex, Ey in T. destruct T as [T1 T2].
        replace (l * (y3 + y3)) with (- (l * (- y3 + y2)) - l * (- y3 - y2)) by ring. rewrite T1, T2. ring. }
      rewrite Y, LL, Ex. ring.
  - apply (cancel (xs - x3)); [apply sub_nz; auto|].
    replace ((xs - x3) * ((l - m) * (n + l))) with ((l - m) * (n * (xs - x3) + l * (xs - x3))) by ring. rewrite <- S1. unfold ys.
    replace ((l - m) * (l * (x1 - xs) - y1 - y3 + l * (xs - x3))) with (- (l * (y2 + y2)) + m * (y2 + y2) + (l - m) * (l * (x1 - x3) - (y1 - y2) - (y3 - y2))) by ring.
    replace (y1 - y2) with (l * (x1 - x2)) by (rewrite Y1; ring). replace (y3 - y2) with (- (m * (x2 - x3))) by (rewrite Y3; ring). rewrite Q1, Q3.
    transitivity (((xs + A + x1 + x2) - A - x1 - x2 - x3) * (x1 - x3)); [rewrite <- LL; ring|ring].
Qed.
Lemma assoc_fin x1 y1 x2 y2 x3 y3 l m n r :
  on (Some (x1, y1)) -> on (Some (x2, y2)) -> on (Some (x3, y3)) -> slope x1 y1 x2 y2 l -> slope x2 y2 x3 y3 m ->
  let xs := l * l - A - x1 - x2 in let ys := l * (x1 - xs) - y1 in
  let xt := m * m - A - x2 - x3 in let yt := m * (x2 - xt) - y2 in
  ~ (x1 = x2 /\ y1 = - y2) -> ~ (x2 = x3 /\ y2 = - y3) -> ~ (xs = x3 /\ ys = - y3) -> ~ (x1 = xt /\ y1 = - yt) ->
  slope xs ys x3 y3 n -> slope x1 y1 xt yt r -> (x1 <> x3 \/ y1 <> y3) ->
  chord n xs ys x3 = chord r x1 y1 xt.
Proof.
  intros H1 H2 H3 L M xs ys xt yt N12 N23 NS NT Sn Sr D.
  assert (K1 : (l - m) * (n + l) = x1 - x3) by (apply (key_slope x1 y1 x2 y2 x3 y3 l m n); auto).
  assert (K2 : (m - l) * (r + m) = x3 - x1).
  { apply (key_slope x3 y3 x2 y2 x1 y1 m l r); auto using slope_sym.
    - intros [E1 E2]. apply N12. split; auto. rewrite E2. ring.
    - replace (m * m - A - x3 - x2) with xt by (unfold xt; ring). intros [E1 E2]. apply NT. split; auto. rewrite <- (popp_invol (Some (x1, y1))) in H1.
      replace (m * (x3 - xt) - y3) with yt in E2. + rewrite E2. ring. + destruct M as [M1 _]. unfold yt. replace y2 with (y3 + m * (x2 - x3)) by (rewrite <- M1; ring). ring.
    - replace (m * m - A - x3 - x2) with xt by (unfold xt; ring). replace (m * (x3 - xt) - y3) with yt; [apply slope_sym; auto|]. destruct M as [M1 _]. unfold yt. replace y2 with (y3 + m * (x2 - x3)) by (rewrite <- M1; ring). ring. }
  assert (NL : l - m <> 0).
  { intros E. rewrite E in K1. assert (E13 : x1 = x3) by (apply sub_eq; rewrite <- K1; ring). destruct D as [D|D]; [contradiction|]. apply D. destruct L as [L1 _], M as [M1 _].
    replace y1 with (y2 + l * (x1 - x2)) by (rewrite <- L1; ring). replace y3 with (y2 - m * (x2 - x3)) by (rewrite <- M1; ring). rewrite (sub_eq _ _ E), E13. ring. }
  assert (G : r = n + l - m). { apply (cancel (l - m)); auto. replace ((l - m) * r) with (- ((m - l) * (r + m)) - (l - m) * m) by ring. rewrite K2. replace ((l - m) * (n + l - m)) with ((l - m) * (n + l) - (l - m) * m) by ring. rewrite K1. ring. }
  destruct L as [L1 L2], M as [M1 M2]. assert (Y1 : y2 = y1 - l * (x1 - x2)) by (rewrite <- L1; ring).
  assert (Y3 : y3 = y2 - m * (x2 - x3)) by (rewrite <- M1; ring).
  assert (Q1 : l * (y1 + y1) = x1 * x1 + x1 * x2 + x2 * x2 + A * (x1 + x2) + 1 + l * l * (x1 - x2)) by (rewrite <- L2, Y1; ring).
  assert (Q3 : m * (y1 + y1) = x2 * x2 + x2 * x3 + x3 * x3 + A * (x2 + x3) + 1 + m * m * (x2 - x3) + 2 * (m * l * (x1 - x2))) by (rewrite <- M2, Y3, Y1; ring).
  set (X := n * n - A - xs - x3). assert (EX : r * r - A - x1 - xt = X).
  { unfold X, xs, xt. rewrite G. transitivity (n * n - l * l + x1 + x2 - x3 + (2 * ((l - m) * (n + l)) - 2 * (x1 - x3))); [ring|rewrite K1; ring]. }
  assert (SX : (l - m) * (l - m) * (x1 - X) = (l - m) * (l - m) * (x3 - x2) - (x1 - x3) * ((x1 - x3) - 2 * (l * (l - m)))).
  { unfold X, xs. rewrite <- K1. ring. }
  assert (YY : y1 + y1 = (n + l) * (x1 - xs) + (l - m) * (x1 - X)).
  { apply (cancel (l - m)); auto. replace ((l - m) * (y1 + y1)) with (l * (y1 + y1) - m * (y1 + y1)) by ring. rewrite Q1, Q3.
    replace ((l - m) * ((n + l) * (x1 - xs) + (l - m) * (x1 - X))) with ((l - m) * (n + l) * (x1 - xs) + (l - m) * (l - m) * (x1 - X)) by ring. rewrite SX, K1. unfold xs. ring. }
  unfold S_Curve.chord. cbv zeta. fold X. rewrite EX. f_equal. f_equal. unfold ys. rewrite G.
  transitivity (n * (xs - X) - l * (x1 - xs) + (y1 + y1) - y1); [ring|]. rewrite YY. ring.
Qed.
Theorem padd_assoc p q r : on p -> on q -> on r -> padd (padd p q) r = padd p (padd q r).
Proof.
  intros Hp Hq Hr.
  assert (Dn : forall o : pt K, {o = None} + {o <> None}) by (intros []; [right; discriminate|left; auto]).
  destruct (Dn p) as [->|Np]; [reflexivity|].
  destruct (Dn q) as [->|Nq]; [rewrite padd_0_r; reflexivity|].
  destruct (Dn r) as [->|Nr]; [rewrite !padd_0_r; reflexivity|].
  destruct (Dn (padd p q)) as [E|N1].
  { apply padd_None in E; auto. subst q. rewrite padd_opp_r by auto. rewrite padd_0_l. rewrite (padd_comm p) by auto using padd_on, on_opp.
    rewrite (padd_comm (popp p)) by auto using on_opp. rewrite <- (popp_invol p) at 2. symmetry. apply add_sub; auto using on_opp. }
  destruct (Dn (padd q r)) as [E|N2].
  { apply padd_None in E; auto. subst r. rewrite (padd_opp_r q) by auto. rewrite padd_0_r. apply add_sub; auto. }
  destruct (Dn (padd (padd p q) r)) as [E|N3].
  { apply padd_None in E; auto using padd_on. rewrite E. rewrite (padd_opp_r (padd p q)) by auto using padd_on. rewrite popp_add by auto. rewrite (padd_comm q) by auto using padd_on, on_opp.
    rewrite <- (popp_invol q) at 2. rewrite add_sub by auto using on_opp. symmetry. apply padd_opp_r; auto. }
  destruct (Dn (padd p (padd q r))) as [E|N4].
  { rewrite E. apply padd_None in E; auto using padd_on. assert (Ep : p = popp (padd q r)) by (rewrite E, popp_invol; auto). rewrite Ep. rewrite popp_add by auto. rewrite (padd_comm (popp q)) by auto using on_opp.
    rewrite <- (popp_invol q) at 2. rewrite add_sub by auto using on_opp. rewrite (padd_comm (popp r)) by auto using on_opp. apply padd_opp_r; auto. }
  destruct p as [[x1 y1]|], q as [[x2 y2]|], r as [[x3 y3]|]; try contradiction.
  destruct (keq_dec x1 x3) as [E13|N13]; [destruct (keq_dec y1 y3) as [F13|G13]|].
  { subst. rewrite (padd_comm (Some (x3, y3)) (Some (x2, y2))) by auto. apply padd_comm; auto using padd_on. }
  all: assert (D : x1 <> x3 \/ y1 <> y3) by tauto; clear - smooth two_nz keq_ok FT D Hp Hq Hr N1 N2 N3 N4.
  all: assert (F12 : ~ (x1 = x2 /\ y1 = - y2)) by (intros [-> ->]; apply N1; cbn; rewrite !keq_refl; reflexivity).
  all: assert (F23 : ~ (x2 = x3 /\ y2 = - y3)) by (intros [-> ->]; apply N2; cbn; rewrite !keq_refl; reflexivity).
  all: destruct (padd_slope _ _ _ _ Hp Hq F12) as (l & L & E1), (padd_slope _ _ _ _ Hq Hr F23) as (m & M & E2).
  all: pose proof (chord_on _ _ _ _ _ Hp L) as Hs; pose proof (chord_on _ _ _ _ _ Hq M) as Ht.
  all: rewrite E1, E2 in *; unfold S_Curve.chord in N3, N4, Hs, Ht |- *; cbv zeta in *.
  all: match type of Hs with on (Some (?a, ?b)) => assert (FS : ~ (a = x3 /\ b = - y3)) by (intros [K0 K1]; apply N3; rewrite K1, K0; cbn; rewrite !keq_refl; reflexivity) end.
  all: match type of Ht with on (Some (?a, ?b)) => assert (FT' : ~ (x1 = a /\ y1 = - b)) by (intros [K0 K1]; apply N4; rewrite K1, K0; cbn; rewrite !keq_refl; reflexivity) end.
  all: destruct (padd_slope _ _ _ _ Hs Hr FS) as (n & Sn & E3), (padd_slope _ _ _ _ Hp Ht FT') as (r & Sr & E4); rewrite E3, E4.
  all: apply (assoc_fin x1 y1 x2 y2 x3 y3 l m n r); auto.
Qed.

(** ** Multiples *)
Lemma pmul_nat_S n p : pmul_nat (S n) p = padd (pmul_nat n p) p. Proof. reflexivity. Qed.
Lemma pmul_nat_on n p : on p -> on (pmul_nat n p).
Proof. intros H. induction n; [exact I|]. rewrite pmul_nat_S. apply padd_on; auto. Qed.
Lemma pmul_nat_None n : pmul_nat n None = None. Proof. induction n; auto. rewrite pmul_nat_S, IHn. reflexivity. Qed.
Lemma pmul_nat_1 p : pmul_nat 1 p = p. Proof. reflexivity. Qed.
Lemma pmul_nat_2 p : pmul_nat 2 p = padd p p. Proof. reflexivity. Qed.
Lemma pmul_nat_add m n p : on p -> pmul_nat (m + n) p = padd (pmul_nat m p) (pmul_nat n p).
Proof.
  intros H. induction n.
  - rewrite Nat.add_0_r. cbn [S_Curve.pmul_nat]. rewrite padd_0_r. reflexivity.
  - rewrite Nat.add_succ_r, !pmul_nat_S, IHn. apply padd_assoc; auto using pmul_nat_on.
Qed.
Lemma pmul_nat_mul m n p : on p -> pmul_nat (m * n) p = pmul_nat m (pmul_nat n p).
Proof.
  intros H. induction m; [reflexivity|]. rewrite pmul_nat_S. cbn [Nat.mul]. rewrite Nat.add_comm, pmul_nat_add by auto. rewrite IHm. reflexivity.
Qed.
Lemma pmul_nat_opp n p : on p -> pmul_nat n (popp p) = popp (pmul_nat n p).
Proof. intros H. induction n; [reflexivity|]. rewrite !pmul_nat_S, IHn. symmetry. apply popp_add; auto using pmul_nat_on. Qed.
Lemma pmul_nat_dist n p q : on p -> on q -> pmul_nat n (padd p q) = padd (pmul_nat n p) (pmul_nat n q).
Proof.
  intros Hp Hq. induction n; [reflexivity|]. rewrite !pmul_nat_S, IHn.
  assert (A1 := pmul_nat_on n _ Hp). assert (A2 := pmul_nat_on n _ Hq).
  rewrite !padd_assoc by auto using padd_on. f_equal. rewrite <- !padd_assoc by auto using padd_on. f_equal. apply padd_comm; auto.
Qed.
Lemma padd_cancel_r p q r : on p -> on q -> on r -> padd p r = padd q r -> p = q.
Proof. intros Hp Hq Hr H. rewrite <- (add_sub p r), H by auto. apply add_sub; auto. Qed.
End Group.
