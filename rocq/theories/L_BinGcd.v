(** The approximated binary GCD used by division and the Legendre symbol, over the integers.
    [gs] is one step: the decisions are taken on the approximations [gxa, gxb]; the true values [ga, gb] and the
    update coefficients follow.  Main result: 31 steps shrink the total length of the true values by 31 bits, even
    though the decisions can be wrong. *)
From Coq Require Import ZArith Znumtheory Lia Bool.
From Verif Require Import S_Fp L_Lzcnt.
Open Scope Z_scope.

Record gst := G { gxa : Z; gxb : Z; ga : Z; gb : Z; gf0 : Z; gg0 : Z; gf1 : Z; gg1 : Z }.
Definition gs (s : gst) : gst :=
  let '(G xa xb a b f0 g0 f1 g1) := s in
  if Z.odd xa then
    if xa <? xb then G ((xb - xa) / 2) xa ((b - a) / 2) a (f1 - f0) (g1 - g0) (2 * f0) (2 * g0)
    else G ((xa - xb) / 2) xb ((a - b) / 2) b (f0 - f1) (g0 - g1) (2 * f1) (2 * g1)
  else G (xa / 2) xb (a / 2) b f0 g0 (2 * f1) (2 * g1).

(** ** Lengths *)
Lemma bl_nonneg x : 0 <= bitlength x.
Proof. unfold bitlength. destruct (x =? 0); [lia|]. pose proof (Z.log2_nonneg x). lia. Qed.
Lemma bl_lt x k : 0 <= x -> 0 <= k -> bitlength x <= k <-> x < 2 ^ k.
Proof.
  intros Hx Hk. unfold bitlength. destruct (Z.eqb_spec x 0) as [->|Hn].
  - split; intros; [apply Z.pow_pos_nonneg; lia|lia].
  - rewrite Z.log2_lt_pow2 by lia. lia.
Qed.
Lemma bl_le x y : 0 <= x <= y -> bitlength x <= bitlength y.
Proof. intros H. apply bl_lt; [lia|apply bl_nonneg|]. enough (y < 2 ^ bitlength y) by lia. apply bl_lt; [lia|apply bl_nonneg|lia]. Qed.
Lemma bl_self x : 0 <= x -> x < 2 ^ bitlength x.
Proof. intros H. apply bl_lt; [lia|apply bl_nonneg|lia]. Qed.
Lemma bl_pos x : 0 < x -> 1 <= bitlength x.
Proof. intros H. unfold bitlength. destruct (Z.eqb_spec x 0); [lia|]. pose proof (Z.log2_nonneg x). lia. Qed.
Lemma bl_ge x k : 0 < k -> 2 ^ (k - 1) <= x -> k <= bitlength x.
Proof.
  intros Hk H. assert (0 < 2 ^ (k - 1)) by (apply Z.pow_pos_nonneg; lia).
  destruct (Z_le_gt_dec k (bitlength x)); auto.
  assert (x < 2 ^ (k - 1)) by (apply bl_lt; lia). lia.
Qed.
Lemma bl_half x y : 0 <= x -> 0 < y -> 2 * x <= y -> bitlength x <= bitlength y - 1.
Proof.
  intros Hx Hy H. pose proof (bl_pos y Hy). apply bl_lt; [lia|lia|].
  pose proof (bl_self y ltac:(lia)) as E. replace (bitlength y) with (Z.succ (bitlength y - 1)) in E by lia.
  rewrite Z.pow_succ_r in E by lia. lia.
Qed.
Lemma pow2_pos k : 0 <= k -> 0 < 2 ^ k. Proof. intros; apply Z.pow_pos_nonneg; lia. Qed.
Lemma pow2_S k : 0 <= k -> 2 ^ (k + 1) = 2 * 2 ^ k.
Proof. intros. rewrite Z.pow_add_r by lia. lia. Qed.

Lemma odd_mod x : Z.odd x = true <-> x mod 2 = 1.
Proof. rewrite Zmod_odd. destruct (Z.odd x); split; congruence. Qed.
Lemma even_mod x : Z.odd x = false <-> x mod 2 = 0.
Proof. rewrite Zmod_odd. destruct (Z.odd x); split; congruence. Qed.

Ltac dm := Z.div_mod_to_equations.

Section Run.
Variables A B J : Z.

(** ** The invariant independent of approximation quality *)
Record core (j : Z) (s : gst) : Prop := Core {
  c_a : (2 ^ (J - j) | ga s - gxa s); c_b : (2 ^ (J - j) | gb s - gxb s);
  c_xa : 0 <= gxa s; c_xb : 0 <= gxb s; c_odd : gb s mod 2 = 1;
  c_la : 2 ^ j * ga s = gf0 s * A + gg0 s * B;
  c_lb : 2 ^ j * gb s = gf1 s * A + gg1 s * B;
  c_n0 : Z.abs (gf0 s) + Z.abs (gg0 s) <= 2 ^ j; c_n1 : Z.abs (gf1 s) + Z.abs (gg1 s) <= 2 ^ j;
  c_l0 : - 2 ^ j < gf0 s /\ - 2 ^ j < gg0 s; c_l1 : - 2 ^ j < gf1 s /\ - 2 ^ j < gg1 s;
  c_det : Z.abs (gf0 s * gg1 s - gf1 s * gg0 s) = 2 ^ j }.

(** Parity of the true values is the parity of the approximations. *)
Lemma core_parity j s : core j s -> 0 <= j < J -> ga s mod 2 = gxa s mod 2 /\ gxb s mod 2 = 1.
Proof.
  intros [[qa Ha] [qb Hb] _ _ Ho _ _ _ _ _ _ _] Hj.
  replace (J - j) with (J - 1 - j + 1) in * by lia. rewrite pow2_S in * by lia.
  set (w := 2 ^ (J - 1 - j)) in *. clearbody w. set (u := qa * w). set (v := qb * w).
  assert (ga s - gxa s = 2 * u) by (unfold u; lia). assert (gb s - gxb s = 2 * v) by (unfold v; lia).
  clearbody u v. dm; lia.
Qed.

Lemma div_half w x : 0 <= w -> (2 ^ (w + 1) | x) -> (2 ^ w | x / 2).
Proof. intros Hw [q Hq]. rewrite pow2_S in Hq by lia. exists q. set (v := 2 ^ w) in *. rewrite Hq. replace (q * (2 * v)) with (q * v * 2) by ring. apply Z.div_mul. lia. Qed.
Lemma half_diff x y : x mod 2 = y mod 2 -> x / 2 - y / 2 = (x - y) / 2.
Proof. intros. dm; lia. Qed.

Lemma abs_sub_le x y : Z.abs (x - y) <= Z.abs x + Z.abs y. Proof. lia. Qed.
Lemma det_case f0 g0 f1 g1 p : Z.abs (f0 * g1 - f1 * g0) = p ->
  Z.abs (f0 * (2 * g1) - 2 * f1 * g0) = 2 * p /\
  Z.abs ((f0 - f1) * (2 * g1) - 2 * f1 * (g0 - g1)) = 2 * p /\
  Z.abs ((f1 - f0) * (2 * g0) - 2 * f0 * (g1 - g0)) = 2 * p.
Proof.
  intros H. replace (f0 * (2 * g1) - 2 * f1 * g0) with (2 * (f0 * g1 - f1 * g0)) by ring.
  replace ((f0 - f1) * (2 * g1) - 2 * f1 * (g0 - g1)) with (2 * (f0 * g1 - f1 * g0)) by ring.
  replace ((f1 - f0) * (2 * g0) - 2 * f0 * (g1 - g0)) with (- (2 * (f0 * g1 - f1 * g0))) by ring.
  rewrite Z.abs_opp, Z.abs_mul, H. auto.
Qed.

Lemma odd_sub x y : x mod 2 = 1 -> y mod 2 = 1 -> (x - y) mod 2 = 0.
Proof. intros. dm; lia. Qed.
Lemma even_half x : x mod 2 = 0 -> 2 * (x / 2) = x.
Proof. intros. dm; lia. Qed.
Lemma half_nonneg x : 0 <= x -> 0 <= x / 2.
Proof. intros. dm; lia. Qed.
Lemma norm_case f0 g0 f1 g1 p :
  Z.abs f0 + Z.abs g0 <= p -> Z.abs f1 + Z.abs g1 <= p -> - p < f0 /\ - p < g0 -> - p < f1 /\ - p < g1 ->
  Z.abs (f0 - f1) + Z.abs (g0 - g1) <= 2 * p /\ Z.abs (2 * f1) + Z.abs (2 * g1) <= 2 * p /\
  (- (2 * p) < f0 - f1 /\ - (2 * p) < g0 - g1) /\ (- (2 * p) < 2 * f1 /\ - (2 * p) < 2 * g1).
Proof. intros. repeat split; lia. Qed.
Lemma norm_case0 f0 g0 p : 0 < p -> Z.abs f0 + Z.abs g0 <= p -> - p < f0 /\ - p < g0 ->
  Z.abs f0 + Z.abs g0 <= 2 * p /\ - (2 * p) < f0 /\ - (2 * p) < g0.
Proof. intros. repeat split; lia. Qed.

Lemma core_step j s : core j s -> 0 <= j < J -> core (j + 1) (gs s).
Proof.
  intros C Hj. pose proof (core_parity j s C Hj) as [Pa Pb]. destruct s as [xa xb a b f0 g0 f1 g1].
  destruct C as [Ca Cb Cxa Cxb Co Cla Clb Cn0 Cn1 Cl0 Cl1 Cd].
  cbn [gxa gxb ga gb gf0 gg0 gf1 gg1 gs] in *.
  replace (J - j) with (J - (j + 1) + 1) in Ca, Cb by lia.
  assert (Hw : 0 <= J - (j + 1)) by lia.
  destruct (det_case _ _ _ _ _ Cd) as (D1 & D2 & D3).
  pose proof (pow2_S j ltac:(lia)) as PS. pose proof (pow2_pos j ltac:(lia)) as PP.
  assert (WB : forall x, (2 ^ (J - (j + 1) + 1) | x) -> (2 ^ (J - (j + 1)) | x)).
  { intros x [q Hq]. exists (q * 2). rewrite pow2_S in Hq by lia. lia. }
  assert (DS : (2 ^ (J - (j + 1) + 1) | (a - b) - (xa - xb))).
  { replace ((a - b) - (xa - xb)) with ((a - xa) - (b - xb)) by ring. apply Z.divide_sub_r; auto. }
  assert (DS' : (2 ^ (J - (j + 1) + 1) | (b - a) - (xb - xa))).
  { replace ((b - a) - (xb - xa)) with ((b - xb) - (a - xa)) by ring. apply Z.divide_sub_r; auto. }
  destruct (norm_case f0 g0 f1 g1 _ Cn0 Cn1 Cl0 Cl1) as (N1 & N2 & N3 & N4).
  destruct (norm_case f1 g1 f0 g0 _ Cn1 Cn0 Cl1 Cl0) as (M1 & M2 & M3 & M4).
  destruct (norm_case0 f0 g0 _ PP Cn0 Cl0) as (N5 & N6).
  destruct (Z.odd xa) eqn:Eo.
  - apply odd_mod in Eo. rewrite Eo in Pa. destruct (Z.ltb_spec xa xb) as [Hlt|Hge];
    (constructor; cbn [gxa gxb ga gb gf0 gg0 gf1 gg1]; rewrite ?PS;
     [ rewrite half_diff by (rewrite !odd_sub by auto; reflexivity); apply div_half; auto
     | auto | apply half_nonneg; apply Z.le_0_sub; auto using Z.lt_le_incl | auto | auto
     | | | assumption | assumption | assumption | assumption | auto ]).
    + assert (E : 2 * ((b - a) / 2) = b - a) by (apply even_half, odd_sub; auto). rewrite <- Z.mul_assoc, (Z.mul_comm (2 ^ j)), Z.mul_assoc, E.
      replace ((f1 - f0) * A + (g1 - g0) * B) with ((f1 * A + g1 * B) - (f0 * A + g0 * B)) by ring. rewrite <- Cla, <- Clb. ring.
    + replace (2 * 2 ^ j * a) with (2 * (2 ^ j * a)) by ring. rewrite Cla. ring.
    + assert (E : 2 * ((a - b) / 2) = a - b) by (apply even_half, odd_sub; auto). rewrite <- Z.mul_assoc, (Z.mul_comm (2 ^ j)), Z.mul_assoc, E.
      replace ((f0 - f1) * A + (g0 - g1) * B) with ((f0 * A + g0 * B) - (f1 * A + g1 * B)) by ring. rewrite <- Cla, <- Clb. ring.
    + replace (2 * 2 ^ j * b) with (2 * (2 ^ j * b)) by ring. rewrite Clb. ring.
  - apply even_mod in Eo. rewrite Eo in Pa.
    constructor; cbn [gxa gxb ga gb gf0 gg0 gf1 gg1]; rewrite ?PS; auto.
    + rewrite half_diff by (rewrite Pa, Eo; reflexivity); apply div_half; auto.
    + apply half_nonneg; auto.
    + assert (E : 2 * (a / 2) = a) by (apply even_half; auto). rewrite <- Z.mul_assoc, (Z.mul_comm (2 ^ j)), Z.mul_assoc, E, <- Cla. ring.
    + replace (2 * 2 ^ j * b) with (2 * (2 ^ j * b)) by ring. rewrite Clb. ring.
Qed.
End Run.

(** Tracking error of the approximations for a scale [tau]. *)
Definition err (tau E : Z) (s : gst) : Prop := Z.abs (ga s - tau * gxa s) <= E /\ Z.abs (gb s - tau * gxb s) <= E.
Lemma half_abs x y t u v E : x mod 2 = 0 -> y mod 2 = 0 -> Z.abs (x - t * y) <= u + v -> u <= E -> v <= E ->
  Z.abs (x / 2 - t * (y / 2)) <= E.
Proof.
  intros Hx Hy H Hu Hv. apply even_half in Hx, Hy. set (x2 := x / 2) in *. set (y2 := y / 2) in *. clearbody x2 y2. subst.
  replace (2 * x2 - t * (2 * y2)) with (2 * (x2 - t * y2)) in H by ring. lia.
Qed.
Lemma err_step A B J j s tau E : core A B J j s -> 0 <= j < J -> err tau E s -> err tau E (gs s).
Proof.
  intros C Hj [H1 H2]. pose proof (core_parity A B J j s C Hj) as [Pa Pb]. pose proof (c_odd A B J j s C) as Co.
  destruct s as [xa xb a b f0 g0 f1 g1]. cbn [gxa gxb ga gb gf0 gg0 gf1 gg1 gs] in *. unfold err.
  destruct (Z.odd xa) eqn:Eo.
  - apply odd_mod in Eo. rewrite Eo in Pa. destruct (xa <? xb); cbn [gxa gxb ga gb]; split; auto.
    + apply (half_abs _ _ _ (Z.abs (b - tau * xb)) (Z.abs (a - tau * xa))); try apply odd_sub; auto.
      replace (b - a - tau * (xb - xa)) with ((b - tau * xb) - (a - tau * xa)) by ring. apply abs_sub_le.
    + apply (half_abs _ _ _ (Z.abs (a - tau * xa)) (Z.abs (b - tau * xb))); try apply odd_sub; auto.
      replace (a - b - tau * (xa - xb)) with ((a - tau * xa) - (b - tau * xb)) by ring. apply abs_sub_le.
  - apply even_mod in Eo. rewrite Eo in Pa. cbn [gxa gxb ga gb]. split; auto.
    apply (half_abs _ _ _ (Z.abs (a - tau * xa)) 0); auto; lia.
Qed.

(** ** The exact phase: decisions agree with the true values *)
Definition mx (A B : Z) := Z.max A B.
Definition mn (A B : Z) := Z.min A B.
Definition sumlen (A B : Z) := bitlength A + bitlength B.
Definition right_decision (s : gst) : Prop := gxa s < gxb s <-> ga s < gb s.
Record exact (A B j : Z) (s : gst) : Prop := Exact {
  e_a : 0 <= ga s; e_b : 0 <= gb s;
  e_len : ga s = 0 \/ bitlength (ga s) + bitlength (gb s) <= sumlen A B - j;
  e_big : (mx A B <= 2 ^ j * (ga s + mn A B) /\ gb s <= mn A B) \/ (mx A B <= 2 ^ j * (gb s + mn A B) /\ ga s <= mn A B) }.

Lemma exact_step A B J j s : 0 <= A -> 0 <= B -> core A B J j s -> 0 <= j < J -> exact A B j s ->
  (Z.odd (gxa s) = true -> right_decision s) -> exact A B (j + 1) (gs s).
Proof.
  intros HA HB C Hj X RD. pose proof (core_parity A B J j s C Hj) as [Pa Pb]. pose proof (c_odd A B J j s C) as Co.
  assert (Hmn : 0 <= mn A B) by (unfold mn; lia). destruct X as [Xa Xb Xl Xg]. unfold right_decision in RD.
  destruct s as [xa xb a b f0 g0 f1 g1]. cbn [gxa gxb ga gb gf0 gg0 gf1 gg1 gs] in *.
  pose proof (pow2_S j ltac:(lia)) as PS. pose proof (pow2_pos j ltac:(lia)) as PP.
  clear HA HB. set (MX := mx A B) in *. set (MN := mn A B) in *. set (L := sumlen A B) in *.
  assert (Hb : 0 < b) by (clear - Co Xb; dm; lia).
  destruct (Z.odd xa) eqn:Eo.
  - apply odd_mod in Eo. rewrite Eo in Pa. specialize (RD eq_refl).
    assert (Ha : 0 < a) by (clear - Pa Xa; dm; lia).
    assert (Xl' : bitlength a + bitlength b <= L - j) by (clear - Xl Ha; lia). clear Xl.
    destruct (Z.ltb_spec xa xb) as [Hlt|Hge]; constructor; cbn [ga gb]; auto; fold MX MN L; clearbody MX MN L.
    + apply half_nonneg. clear - RD Hlt. lia.
    + right. assert (E := even_half _ (odd_sub b a Co Pa)).
      pose proof (bl_half ((b - a) / 2) b ltac:(apply half_nonneg; lia) Hb ltac:(lia)). clear - H Xl'; lia.
    + assert (E := even_half _ (odd_sub b a Co Pa)). set (h := (b - a) / 2) in *. clearbody h. rewrite PS.
      destruct Xg as [[X1 X2]|[X1 X2]]; [right|left]; split; try (clear - X2 E RD Hlt Ha; lia).
      * apply Z.le_trans with (1 := X1). apply Z.mul_le_mono_nonneg_r; lia.
      * replace (2 * 2 ^ j * (h + MN)) with (2 ^ j * (b - a + 2 * MN)) by (rewrite <- E; ring).
        apply Z.le_trans with (1 := X1). apply Z.mul_le_mono_nonneg_l; lia.
    + apply half_nonneg. clear - RD Hge. lia.
    + assert (E := even_half _ (odd_sub a b Pa Co)).
      destruct (Z.eq_dec ((a - b) / 2) 0); [left; auto|right].
      pose proof (bl_half ((a - b) / 2) a ltac:(apply half_nonneg; lia) Ha ltac:(lia)). clear - H Xl'; lia.
    + assert (E := even_half _ (odd_sub a b Pa Co)). set (h := (a - b) / 2) in *. clearbody h. rewrite PS.
      destruct Xg as [[X1 X2]|[X1 X2]]; [left|right]; split; try (clear - X2 E RD Hge Hb; lia).
      * replace (2 * 2 ^ j * (h + MN)) with (2 ^ j * (a - b + 2 * MN)) by (rewrite <- E; ring).
        apply Z.le_trans with (1 := X1). apply Z.mul_le_mono_nonneg_l; lia.
      * apply Z.le_trans with (1 := X1). apply Z.mul_le_mono_nonneg_r; lia.
  - apply even_mod in Eo. rewrite Eo in Pa. assert (E := even_half _ Pa).
    constructor; cbn [ga gb]; auto; fold MX MN L; clearbody MX MN L.
    + apply half_nonneg; auto.
    + destruct (Z.eq_dec a 0) as [->|Hn]; [left; reflexivity|right].
      pose proof (bl_half (a / 2) a ltac:(apply half_nonneg; lia) ltac:(lia) ltac:(lia)). clear - H Xl Hn; lia.
    + rewrite PS. set (h := a / 2) in *. clearbody h.
      destruct Xg as [[X1 X2]|[X1 X2]]; [left|right]; split; lia.
Qed.

(** ** After a wrong decision *)
Lemma bl_dbl x y : 0 <= x -> 0 <= y <= 2 * x -> bitlength y <= bitlength x + 1.
Proof.
  intros Hx Hy. pose proof (bl_nonneg x). apply bl_lt; [lia|lia|]. rewrite pow2_S by lia. pose proof (bl_self x Hx). lia.
Qed.
Lemma pow2_split a b : 0 <= a <= b -> 2 ^ b = 2 ^ a * 2 ^ (b - a).
Proof. intros H. rewrite <- Z.pow_add_r by lia. f_equal. lia. Qed.
Lemma abs_half x : x mod 2 = 0 -> 2 * Z.abs (x / 2) = Z.abs x.
Proof. intros H. apply even_half in H. lia. Qed.

Definition phase1 (n k M : Z) (s : gst) : Prop :=
  2 ^ k * Z.abs (ga s) < 2 ^ (n - 33) /\ 2 ^ k * gxa s < 2 ^ 31 /\ Z.abs (gb s) = M /\ 2 ^ 31 <= gxb s.
Definition phase2 (n k k0 M : Z) (s : gst) : Prop :=
  0 <= k0 < k /\ Z.abs (gb s) < 2 ^ (n - 33 - k0) /\ gxb s < 2 ^ 31 /\
  2 ^ (k - k0) * (Z.abs (ga s) - 2 ^ (n - 33 - k0)) <= M.
Definition phase3 (n : Z) (s : gst) : Prop :=
  Z.abs (ga s) < 2 ^ (n - 32) /\ Z.abs (gb s) < 2 ^ (n - 32) /\ gxa s < 2 ^ 31 /\ gxb s < 2 ^ 31.
Record wrong (n L j : Z) (s : gst) : Prop := Wrong {
  w_L : 2 * n - 32 <= L;
  w_ph : exists j0 M, 0 <= j0 < j /\ 0 < M /\ (bitlength M <= n - 31 \/ 2 * bitlength M <= L - j0 + 1) /\
   (phase1 n (j - j0 - 1) M s \/ (exists k0, phase2 n (j - j0 - 1) k0 M s) \/ phase3 n s) }.

Definition tau (n : Z) := 2 ^ (n - 64).
Definition eps (n : Z) := 2 ^ (n - 33) - 1.

Lemma tau_T n : 64 < n -> 2 ^ (n - 33) = 2 ^ 31 * tau n /\ 2 ^ (n - 32) = 2 * (2 ^ 31 * tau n) /\ 0 < tau n.
Proof.
  intros H. unfold tau. replace (n - 33) with (31 + (n - 64)) by lia. replace (n - 32) with (1 + (31 + (n - 64))) by lia.
  rewrite !Z.pow_add_r by lia. repeat split; try lia.
Qed.

(** a comparison decided wrongly *)
Lemma wrong_bounds t a b xa xb E : 0 < t -> E < 2 ^ 31 * t -> Z.abs (a - t * xa) <= E -> Z.abs (b - t * xb) <= E -> a <= b -> xb <= xa ->
  b - a < 2 * (2 ^ 31 * t) /\ xa - xb < 2 ^ 32.
Proof.
  intros Ht HE H1 H2 H H0. split.
  - assert (t * xb <= t * xa) by (apply Z.mul_le_mono_nonneg_l; lia). lia.
  - assert (t * xa - t * xb < 2 * (2 ^ 31 * t)) by lia. replace (t * xa - t * xb) with (t * (xa - xb)) in H3 by ring.
    replace (2 * (2 ^ 31 * t)) with (t * 2 ^ 32) in H3 by (change (2 ^ 32) with (2 * 2 ^ 31); ring). apply Z.mul_lt_mono_pos_l in H3; auto.
Qed.
Lemma small_abs t x xv E T : 0 < t -> 0 <= xv < 2 ^ 31 -> T = 2 ^ 31 * t -> E < T -> Z.abs (x - t * xv) <= E -> Z.abs x < 2 * T.
Proof.
  intros Ht Hx -> HE H. assert (t * xv <= t * 2 ^ 31) by (apply Z.mul_le_mono_nonneg_l; lia). 
  assert (0 <= t * xv) by (apply Z.mul_nonneg_nonneg; lia). lia.
Qed.

(* entering: common part of both kinds of wrong decisions; [a <= b] are the true values, [M = b] survives *)
Lemma wrong_enter A B n j lo hi xlo xhi :
  64 < n -> 0 <= A -> 0 <= B -> 2 ^ (n - 1) <= mx A B -> mx A B < 2 ^ n -> 0 <= j <= 30 ->
  0 < lo <= hi -> bitlength lo + bitlength hi <= sumlen A B - j ->
  mx A B <= 2 ^ j * (hi + mn A B) /\ lo <= mn A B \/ mx A B <= 2 ^ j * (lo + mn A B) /\ hi <= mn A B ->
  hi - lo < 2 ^ (n - 32) -> xhi <= xlo ->
  2 * n - 32 <= sumlen A B /\ (bitlength hi <= n - 31 \/ 2 * bitlength hi <= sumlen A B - j + 1).
Proof.
  intros Hn HA HB HM HM' Hj Hlo Hlen Hbig Hd Hx.
  assert (Hmm : sumlen A B = bitlength (mx A B) + bitlength (mn A B)).
  { unfold sumlen, mx, mn. destruct (Z.max_spec A B) as [[? ->]|[? ->]], (Z.min_spec A B) as [[? ->]|[? ->]]; try lia. }
  assert (Hmx : n <= bitlength (mx A B)) by (apply bl_ge; lia).
  assert (Hm0 : 0 <= mn A B) by (unfold mn; lia).
  set (MX := mx A B) in *. set (MN := mn A B) in *. set (L := sumlen A B) in *. clearbody MX MN L. clear A B HA HB.
  split.
  - assert (E1 : 2 ^ (n - 1) = 2 ^ 30 * (2 * 2 ^ (n - 32))).
    { replace (n - 1) with (30 + (1 + (n - 32))) by lia. rewrite !Z.pow_add_r by lia. ring. }
    assert (E2 : 2 ^ (n - 32) = 2 * 2 ^ (n - 33)) by (replace (n - 32) with (n - 33 + 1) by lia; apply pow2_S; lia).
    pose proof (pow2_pos (n - 33) ltac:(lia)).
    assert (HH : MX <= 2 ^ j * (2 * MN + 2 ^ (n - 32))).
    { destruct Hbig as [[H1 H2]|[H1 H2]]; apply Z.le_trans with (1 := H1); apply Z.mul_le_mono_nonneg_l; try lia. }
    assert (HH2 : 2 ^ j * (2 * MN + 2 ^ (n - 32)) <= 2 ^ 30 * (2 * MN + 2 ^ (n - 32))).
    { apply Z.mul_le_mono_nonneg_r; [lia|]. apply Z.pow_le_mono_r; lia. }
    assert (2 ^ 30 * (2 * 2 ^ (n - 32)) <= 2 ^ 30 * (2 * MN + 2 ^ (n - 32))) by lia.
    apply Z.mul_le_mono_pos_l in H0; [|lia].
    assert (n - 32 <= bitlength MN) by (apply bl_ge; [lia|]; replace (n - 32 - 1) with (n - 33) by lia; lia). lia.
  - destruct (Z_le_gt_dec (bitlength hi) (n - 31)) as [|G]; [left; auto|right].
    assert (G' : 2 ^ (n - 31) <= hi).
    { destruct (Z_lt_ge_dec hi (2 ^ (n - 31))) as [G'|]; [|lia]. apply bl_lt in G'; lia. }
    replace (n - 31) with (n - 32 + 1) in G' by lia. rewrite pow2_S in G' by lia.
    pose proof (bl_dbl lo hi ltac:(lia) ltac:(lia)). lia.
Qed.
Lemma exact_pos a L j : a mod 2 = 1 -> (a = 0 \/ L <= j) -> L <= j.
Proof. intros H [->|]; [discriminate|auto]. Qed.

Lemma exact_wrong A B n j s :
  64 < n -> 0 <= A -> 0 <= B -> 2 ^ (n - 1) <= mx A B -> mx A B < 2 ^ n -> 0 <= j < 31 ->
  core A B 31 j s -> err (tau n) (eps n) s -> exact A B j s -> Z.odd (gxa s) = true -> ~ right_decision s ->
  wrong n (sumlen A B) (j + 1) (gs s).
Proof.
  intros Hn HA HB HM HM' Hj C [E1 E2] X Ho RD. pose proof (core_parity A B 31 j s C Hj) as [Pa Pb]. pose proof (c_odd A B 31 j s C) as Co.
  pose proof (c_xa A B 31 j s C) as Cxa. pose proof (c_xb A B 31 j s C) as Cxb.
  destruct X as [Xa Xb Xl Xg]. unfold right_decision in RD. destruct (tau_T n Hn) as (T1 & T2 & T3).
  assert (HE : eps n < 2 ^ 31 * tau n) by (unfold eps; lia).
  destruct s as [xa xb a b f0 g0 f1 g1]. cbn [gxa gxb ga gb gf0 gg0 gf1 gg1 gs] in *. clear C.
  rewrite Ho. apply odd_mod in Ho. rewrite Ho in Pa. apply (exact_pos a) in Xl; auto.
  assert (0 < a) by (clear - Pa Xa; dm; lia). assert (0 < b) by (clear - Co Xb; dm; lia).
  destruct (Z.ltb_spec xa xb) as [Hlt|Hge].
  - assert (Hba : b <= a) by (clear - RD Hlt; lia).
    destruct (wrong_bounds _ _ _ _ _ _ T3 HE E2 E1 Hba ltac:(lia)) as [B1 B2].
    destruct (wrong_enter A B n j b a xb xa Hn HA HB HM HM' ltac:(lia) ltac:(lia) ltac:(lia)) as [W1 W2]; try lia.
    constructor; auto. exists j, a. split; [lia|]. split; [lia|]. split; auto. replace (j + 1 - j - 1) with 0 by lia.
    pose proof (abs_half _ (odd_sub b a Co Pa)) as AH. pose proof (even_half _ (odd_sub xb xa Pb Ho)) as XH.
    destruct (Z_lt_ge_dec xa (2 ^ 31)) as [Q|Q].
    + right; right. unfold phase3. cbn [gxa gxb ga gb].
      assert (Z.abs a < 2 * (2 ^ 31 * tau n)) by (apply (small_abs (tau n) a xa (eps n)); auto; lia). lia.
    + left. unfold phase1. cbn [gxa gxb ga gb]. lia.
  - assert (Hba : a <= b) by (clear - RD Hge; lia).
    destruct (wrong_bounds _ _ _ _ _ _ T3 HE E1 E2 Hba ltac:(lia)) as [B1 B2].
    destruct (wrong_enter A B n j a b xa xb Hn HA HB HM HM' ltac:(lia) ltac:(lia) ltac:(lia)) as [W1 W2]; try lia.
    constructor; auto. exists j, b. split; [lia|]. split; [lia|]. split; auto. replace (j + 1 - j - 1) with 0 by lia.
    pose proof (abs_half _ (odd_sub a b Pa Co)) as AH. pose proof (even_half _ (odd_sub xa xb Ho Pb)) as XH.
    destruct (Z_lt_ge_dec xb (2 ^ 31)) as [Q|Q].
    + right; right. unfold phase3. cbn [gxa gxb ga gb].
      assert (Z.abs b < 2 * (2 ^ 31 * tau n)) by (apply (small_abs (tau n) b xb (eps n)); auto; lia). lia.
    + left. unfold phase1. cbn [gxa gxb ga gb]. lia.
Qed.

Lemma scale_half k x y T : 0 <= k -> 2 * y = x -> 2 ^ k * x < T -> 2 ^ (k + 1) * y < T.
Proof. intros Hk E H. rewrite pow2_S by lia. replace (2 * 2 ^ k * y) with (2 ^ k * (2 * y)) by ring. rewrite E. auto. Qed.
Lemma scale_half_le k x y b M : 0 <= k -> 2 * y <= x + b -> 2 ^ k * (x - b) <= M -> 2 ^ (k + 1) * (y - b) <= M.
Proof.
  intros Hk E H. rewrite pow2_S by lia. replace (2 * 2 ^ k * (y - b)) with (2 ^ k * (2 * y - 2 * b)) by ring.
  apply Z.le_trans with (2 := H). apply Z.mul_le_mono_nonneg_l; [pose proof (pow2_pos k Hk)|]; lia.
Qed.
Lemma scale_div k n x : 0 <= k <= n -> 2 ^ k * x < 2 ^ n -> x < 2 ^ (n - k).
Proof. intros Hk H. rewrite (pow2_split k n) in H by lia. apply Z.mul_lt_mono_pos_l in H; auto. apply pow2_pos; lia. Qed.
Lemma abs_half_sub x y : x mod 2 = 1 -> y mod 2 = 1 -> 2 * Z.abs ((x - y) / 2) <= Z.abs x + Z.abs y.
Proof. intros Hx Hy. rewrite abs_half by (apply odd_sub; auto). lia. Qed.

Lemma wrong_step A B n j s :
  64 < n -> 0 <= j < 31 -> core A B 31 j s -> err (tau n) (eps n) s -> wrong n (sumlen A B) j s ->
  wrong n (sumlen A B) (j + 1) (gs s).
Proof.
  intros Hn Hj C [E1 E2] X. pose proof (core_parity A B 31 j s C Hj) as [Pa Pb]. pose proof (c_odd A B 31 j s C) as Co.
  pose proof (c_xa A B 31 j s C) as Cxa. pose proof (c_xb A B 31 j s C) as Cxb.
  destruct X as [WL (j0 & M & Hj0 & HM & Hl & Ph)]. constructor; auto.
  exists j0, M. split; [lia|]. split; auto. split; auto.
  replace (j + 1 - j0 - 1) with (j - j0 - 1 + 1) by lia. set (k := j - j0 - 1) in *. assert (Hk : 0 <= k <= 29) by lia. clearbody k.
  clear C Hl Hj0 Hj WL j j0.
  destruct (tau_T n Hn) as (T1 & T2 & T3). assert (HE : eps n < 2 ^ 31 * tau n) by (unfold eps; lia).
  destruct s as [xa xb a b f0 g0 f1 g1]. unfold phase1, phase2, phase3 in *. cbn [gxa gxb ga gb gf0 gg0 gf1 gg1 gs] in *.
  assert (LK : 1 <= 2 ^ k) by (pose proof (pow2_pos k ltac:(lia)); lia).
  destruct (Z.odd xa) eqn:Ho; [apply odd_mod in Ho|apply even_mod in Ho]; rewrite Ho in Pa.
  - pose proof (abs_half_sub b a Co Pa) as AH1. pose proof (abs_half_sub a b Pa Co) as AH2.
    pose proof (even_half _ (odd_sub xb xa Pb Ho)) as XH1. pose proof (even_half _ (odd_sub xa xb Ho Pb)) as XH2.
    destruct Ph as [(Q1 & Q2 & Q3 & Q4)|[(k0 & Q0 & Q1 & Q2 & Q3)|(Q1 & Q2 & Q3 & Q4)]].
    + assert (Hlt : xa < 2 ^ 31) by (clear - Q2 Cxa LK; nia). destruct (Z.ltb_spec xa xb) as [_|Hge]; [|exfalso; clear - Hge Hlt Q4; lia]. cbn [gxa gxb ga gb].
      apply scale_div in Q1; [|lia]. right; left. exists k. replace (k + 1 - k) with 1 by lia.
      split; [lia|]. split; auto. split; auto. change (2 ^ 1) with 2. clear - AH1 Q1 Q3. lia.
    + destruct (Z.ltb_spec xa xb) as [Hlt|Hge]; cbn [gxa gxb ga gb].
      * right; right.
        assert (Z.abs a < 2 * (2 ^ 31 * tau n)) by (apply (small_abs (tau n) a xa (eps n)); auto; lia).
        assert (2 ^ (n - 33 - k0) <= 2 ^ (n - 33)) by (apply Z.pow_le_mono_r; lia).
        clear - H H0 AH1 Q1 Q2 Hlt XH1 T1 T2 T3 Cxa. lia.
      * right; left. exists k0. split; [lia|]. split; auto. split; auto. replace (k + 1 - k0) with (k - k0 + 1) by lia.
        apply scale_half_le with (x := Z.abs a); [lia|clear - AH2 Q1; lia|auto].
    + right; right. destruct (Z.ltb_spec xa xb) as [Hlt|Hge]; cbn [gxa gxb ga gb]; clear - AH1 AH2 Q1 Q2 Q3 Q4 XH1 XH2 Cxa Cxb; lia.
  - pose proof (abs_half _ Pa) as AH. pose proof (even_half _ Ho) as XH. cbn [gxa gxb ga gb].
    destruct Ph as [(Q1 & Q2 & Q3 & Q4)|[(k0 & Q0 & Q1 & Q2 & Q3)|(Q1 & Q2 & Q3 & Q4)]].
    + left. split; [apply scale_half with (x := Z.abs a); auto; lia|]. split; [apply scale_half with (x := xa); auto; lia|]. auto.
    + right; left. exists k0. split; [lia|]. split; auto. split; auto. replace (k + 1 - k0) with (k - k0 + 1) by lia.
      apply scale_half_le with (x := Z.abs a); [lia|clear - AH Q1; lia|auto].
    + right; right. clear - AH Q1 Q2 Q3 Q4 XH Cxa. lia.
Qed.

Lemma div_bl M k x c e : 0 < M -> 0 <= k -> 0 <= c -> 0 <= x -> bitlength M <= k + e -> c <= e -> 2 ^ k * (x - 2 ^ c) <= M -> x < 2 ^ (e + 1).
Proof.
  intros HM Hk Hc Hx Hl He H. rewrite pow2_S by lia.
  assert (HM2 : M < 2 ^ (k + e)) by (apply bl_lt; lia). rewrite Z.pow_add_r in HM2 by lia.
  assert (H2 : 2 ^ k * (x - 2 ^ c) < 2 ^ k * 2 ^ e) by lia. apply Z.mul_lt_mono_pos_l in H2; [|apply pow2_pos; lia].
  assert (2 ^ c <= 2 ^ e) by (apply Z.pow_le_mono_r; lia). lia.
Qed.

Lemma wrong_final n L s : 64 < n -> wrong n L 31 s -> bitlength (Z.abs (ga s)) + bitlength (Z.abs (gb s)) <= L - 31.
Proof.
  intros Hn [WL (j0 & M & Hj0 & HM & Hl & Ph)]. replace (31 - j0 - 1) with (30 - j0) in Ph by lia.
  destruct Ph as [(Q1 & Q2 & Q3 & Q4)|[(k0 & Q0 & Q1 & Q2 & Q3)|(Q1 & Q2 & Q3 & Q4)]].
  - apply scale_div in Q1; [|lia]. apply bl_lt in Q1; [|lia|lia]. rewrite Q3. lia.
  - apply bl_lt in Q1; [|lia|lia].
    set (e := Z.max (n - 33 - k0) (bitlength M - (30 - j0 - k0))).
    assert (H : Z.abs (ga s) < 2 ^ (e + 1)).
    { apply (div_bl M (30 - j0 - k0) _ (n - 33 - k0)); auto; unfold e; lia. }
    apply bl_lt in H; [|lia|unfold e; lia]. unfold e in H. lia.
  - apply bl_lt in Q1, Q2; lia.
Qed.

(** ** The whole run *)
Fixpoint grun (k : nat) (s : gst) : gst := match k with O => s | S k' => gs (grun k' s) end.
Definition ginit (xa xb A B : Z) : gst := G xa xb A B 1 0 0 1.

Lemma core_init J A B xa xb : 0 <= J -> 0 <= xa -> 0 <= xb -> B mod 2 = 1 -> (2 ^ J | A - xa) -> (2 ^ J | B - xb) ->
  core A B J 0 (ginit xa xb A B).
Proof. intros. constructor; cbn; rewrite ?Z.sub_0_r; auto; try lia. Qed.

Lemma core_run J A B xa xb k : 0 <= xa -> 0 <= xb -> B mod 2 = 1 -> (2 ^ J | A - xa) -> (2 ^ J | B - xb) -> Z.of_nat k <= J ->
  core A B J (Z.of_nat k) (grun k (ginit xa xb A B)).
Proof.
  intros H1 H2 H3 H4 H5. induction k as [|k IH]; intros Hk; [apply core_init; auto; lia|].
  rewrite Nat2Z.inj_succ in *. cbn [grun]. apply core_step; [apply IH|]; lia.
Qed.
Lemma err_run J A B xa xb k t E : 0 <= xa -> 0 <= xb -> B mod 2 = 1 -> (2 ^ J | A - xa) -> (2 ^ J | B - xb) -> Z.of_nat k <= J ->
  Z.abs (A - t * xa) <= E -> Z.abs (B - t * xb) <= E -> err t E (grun k (ginit xa xb A B)).
Proof.
  intros H1 H2 H3 H4 H5 Hk H6 H7. induction k as [|k IH]; [split; cbn; auto|].
  rewrite Nat2Z.inj_succ in *. cbn [grun]. eapply err_step; [apply core_run; eauto; lia| |apply IH]; lia.
Qed.
Lemma exact_init A B xa xb : 0 <= A -> 0 <= B -> exact A B 0 (ginit xa xb A B).
Proof.
  intros. constructor; cbn [ga gb ginit]; auto; unfold sumlen, mx, mn; lia.
Qed.

(** exact decisions: the approximations are the values themselves *)
Lemma exact_run A B k : 0 <= A -> 0 <= B -> B mod 2 = 1 -> exact A B (Z.of_nat k) (grun k (ginit A B A B)).
Proof.
  intros HA HB Hb.
  assert (forall J, Z.of_nat k <= J -> exact A B (Z.of_nat k) (grun k (ginit A B A B))) as H; [|eapply H; reflexivity].
  intros J. induction k as [|k IH]; intros HJ; [apply exact_init; auto|].
  rewrite Nat2Z.inj_succ in *. cbn [grun].
  assert (D : forall x, (2 ^ J | x - x)) by (intros x; rewrite Z.sub_diag; apply Z.divide_0_r).
  apply exact_step with (J := J); auto; try lia.
  - apply core_run; auto; lia.
  - apply IH. lia.
  - intros _. destruct (err_run J A B A B k 1 0 HA HB Hb (D A) (D B)) as [E1 E2]; try lia. unfold right_decision. lia.
Qed.

(** approximated decisions *)
Lemma approx_run A B xa xb n k : 64 < n -> 0 <= A -> 0 <= B -> B mod 2 = 1 -> 2 ^ (n - 1) <= mx A B -> mx A B < 2 ^ n ->
  0 <= xa -> 0 <= xb -> (2 ^ 31 | A - xa) -> (2 ^ 31 | B - xb) ->
  Z.abs (A - tau n * xa) <= eps n -> Z.abs (B - tau n * xb) <= eps n -> Z.of_nat k <= 31 ->
  let s := grun k (ginit xa xb A B) in exact A B (Z.of_nat k) s \/ wrong n (sumlen A B) (Z.of_nat k) s.
Proof.
  intros Hn HA HB Hb HM HM' Hxa Hxb Da Db Ea Eb Hk. cbv zeta.
  induction k as [|k IH]; [left; apply exact_init; auto|].
  rewrite Nat2Z.inj_succ in *. cbn [grun]. set (s := grun k (ginit xa xb A B)) in *.
  assert (C : core A B 31 (Z.of_nat k) s) by (apply core_run; auto; lia).
  assert (E : err (tau n) (eps n) s) by (apply err_run with (J := 31); auto; lia).
  destruct (IH ltac:(lia)) as [X|X].
  - destruct (Z.odd (gxa s)) eqn:Ho.
    + assert (Hd : right_decision s \/ ~ right_decision s) by (unfold right_decision; lia).
      destruct Hd as [Hd|Hd].
      * left. apply exact_step with (J := 31); auto; lia.
      * right. apply exact_wrong; auto; lia.
    + left. apply exact_step with (J := 31); auto; try lia. rewrite Ho. discriminate.
  - right. apply wrong_step; auto; lia.
Qed.

Theorem approx_shrinks A B xa xb n : 64 < n -> 0 <= A -> 0 <= B -> B mod 2 = 1 -> 2 ^ (n - 1) <= mx A B -> mx A B < 2 ^ n ->
  0 <= xa -> 0 <= xb -> (2 ^ 31 | A - xa) -> (2 ^ 31 | B - xb) ->
  Z.abs (A - tau n * xa) <= eps n -> Z.abs (B - tau n * xb) <= eps n ->
  let s := grun 31 (ginit xa xb A B) in ga s = 0 \/ bitlength (Z.abs (ga s)) + bitlength (Z.abs (gb s)) <= sumlen A B - 31.
Proof.
  intros Hn HA HB Hb HM HM' Hxa Hxb Da Db Ea Eb. cbv zeta.
  destruct (approx_run A B xa xb n 31) as [X|X]; auto; try lia.
  - destruct X as [Xa Xb Xl _]. rewrite !Z.abs_eq by auto. auto.
  - right. apply wrong_final in X; auto.
Qed.
Theorem exact_shrinks A B k : 0 <= A -> 0 <= B -> B mod 2 = 1 ->
  let s := grun k (ginit A B A B) in
  0 <= ga s /\ 0 <= gb s /\ (ga s = 0 \/ bitlength (ga s) + bitlength (gb s) <= sumlen A B - Z.of_nat k).
Proof. intros HA HB Hb. destruct (exact_run A B k HA HB Hb) as [Xa Xb Xl _]. auto. Qed.

(** common divisors are preserved *)
Lemma run_gcd J A B xa xb k : 0 <= xa -> 0 <= xb -> B mod 2 = 1 -> (2 ^ J | A - xa) -> (2 ^ J | B - xb) -> Z.of_nat k <= J ->
  let s := grun k (ginit xa xb A B) in
  Z.gcd A B = 1 -> Z.gcd (ga s) (gb s) = 1.
Proof.
  intros H1 H2 H3 H4 H5 Hk s Hg. pose proof (core_run J A B xa xb k H1 H2 H3 H4 H5 Hk) as C. fold s in C. clearbody s.
  destruct C as [_ _ _ _ Co Ca Cb _ _ _ _ Cd]. set (p := 2 ^ Z.of_nat k) in *. clear - Hg Co Ca Cb Cd.
  destruct s as [xa' xb' a b f0 g0 f1 g1]. cbn [gxa gxb ga gb gf0 gg0 gf1 gg1] in *.
  set (d := Z.gcd a b). assert (Da : (d | a)) by apply Z.gcd_divide_l. assert (Db : (d | b)) by apply Z.gcd_divide_r.
  assert (Hp : 0 < p) by (apply pow2_pos; lia).
  assert (D1 : (d | A)).
  { assert (E : p * (g1 * a - g0 * b) = (f0 * g1 - f1 * g0) * A) by (rewrite Z.mul_sub_distr_l; transitivity (g1 * (p * a) - g0 * (p * b)); [ring|rewrite Ca, Cb; ring]).
    assert (E' : A = g1 * a - g0 * b \/ A = - (g1 * a - g0 * b)).
    { destruct (Z.abs_eq_or_opp (f0 * g1 - f1 * g0)) as [Q|Q]; rewrite Cd in Q.
      - left. rewrite <- Q in E. apply Z.mul_reg_l in E; lia.
      - right. replace (f0 * g1 - f1 * g0) with (- p) in E by lia. assert (p * (g1 * a - g0 * b) = p * - A) by lia. apply Z.mul_reg_l in H; lia. }
    destruct E' as [-> | ->]; [|apply Z.divide_opp_r]; apply Z.divide_sub_r; apply Z.divide_mul_r; auto. }
  assert (D2 : (d | B)).
  { assert (E : p * (f0 * b - f1 * a) = (f0 * g1 - f1 * g0) * B) by (rewrite Z.mul_sub_distr_l; transitivity (f0 * (p * b) - f1 * (p * a)); [ring|rewrite Ca, Cb; ring]).
    assert (E' : B = f0 * b - f1 * a \/ B = - (f0 * b - f1 * a)).
    { destruct (Z.abs_eq_or_opp (f0 * g1 - f1 * g0)) as [Q|Q]; rewrite Cd in Q.
      - left. rewrite <- Q in E. apply Z.mul_reg_l in E; lia.
      - right. replace (f0 * g1 - f1 * g0) with (- p) in E by lia. assert (p * (f0 * b - f1 * a) = p * - B) by lia. apply Z.mul_reg_l in H; lia. }
    destruct E' as [-> | ->]; [|apply Z.divide_opp_r]; apply Z.divide_sub_r; apply Z.divide_mul_r; auto. }
  pose proof (Z.gcd_greatest _ _ _ D1 D2) as D3. rewrite Hg in D3. apply Z.divide_1_r_nonneg in D3; auto. apply Z.gcd_nonneg.
Qed.

(** the true values never grow *)
Lemma run_bound J A B xa xb k : 0 <= A -> 0 <= B -> 0 <= xa -> 0 <= xb -> B mod 2 = 1 -> (2 ^ J | A - xa) -> (2 ^ J | B - xb) -> Z.of_nat k <= J ->
  let s := grun k (ginit xa xb A B) in Z.abs (ga s) <= mx A B /\ Z.abs (gb s) <= mx A B.
Proof.
  intros HA HB H1 H2 H3 H4 H5 Hk s. pose proof (core_run J A B xa xb k H1 H2 H3 H4 H5 Hk) as C. fold s in C. clearbody s.
  destruct C as [_ _ _ _ _ Ca Cb N0 N1 _ _ _]. pose proof (pow2_pos (Z.of_nat k) ltac:(lia)) as Hp. set (p := 2 ^ Z.of_nat k) in *. clearbody p.
  assert (G : forall x f g, p * x = f * A + g * B -> Z.abs f + Z.abs g <= p -> Z.abs x <= mx A B).
  { intros x f g E Hn. apply (Z.mul_le_mono_pos_l _ _ p Hp). rewrite <- (Z.abs_eq p) at 1 by lia. rewrite <- Z.abs_mul, E.
    assert (Z.abs (f * A + g * B) <= Z.abs f * mx A B + Z.abs g * mx A B).
    { eapply Z.le_trans; [apply Z.abs_triangle|]. rewrite !Z.abs_mul. 
      apply Z.add_le_mono; apply Z.mul_le_mono_nonneg_l; unfold mx; lia. }
    assert ((Z.abs f + Z.abs g) * mx A B <= p * mx A B) by (apply Z.mul_le_mono_nonneg_r; unfold mx; lia). lia. }
  split; eapply G; eauto.
Qed.
