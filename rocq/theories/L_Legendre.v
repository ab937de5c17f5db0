(** Correctness of the Legendre symbol: the symbol bit follows the binary GCD of L_BinGcd.v. *)
From Coq Require Import ZArith Znumtheory List Lia Bool.
From Verif Require Import S_Fp M_Utils64 M_Consts M_Fp L_Words L_Bits L_Lzcnt L_Fp L_FpOps L_BinGcd L_DivWords L_Prime L_Fermat L_Jacobi L_FpRoots L_FpDiv.
Import ListNotations.
Open Scope Z_scope.

(** symbol of [a] modulo the odd number [|b|]; [true] is -1 *)
Definition jac (a b : Z) : bool := gauss a (Z.abs b).

Lemma odd_testbit x i : 0 <= i -> Z.testbit x i = Z.odd (x / 2 ^ i).
Proof. intros. rewrite Z.testbit_odd, Z.shiftr_div_pow2 by lia. reflexivity. Qed.
Lemma odd_eq x y : x mod 2 = y mod 2 -> Z.odd x = Z.odd y.
Proof. rewrite !Zmod_odd. destruct (Z.odd x), (Z.odd y); cbn; congruence. Qed.
Lemma odd_neq x y : x mod 2 <> y mod 2 -> Z.odd x = negb (Z.odd y).
Proof. rewrite !Zmod_odd. destruct (Z.odd x), (Z.odd y); cbn; congruence. Qed.
Lemma abs_odd b : b mod 2 = 1 -> 0 < Z.abs b /\ Z.abs b mod 2 = 1.
Proof. intros. dm; lia. Qed.

Lemma jac_cong a a' b : b mod 2 = 1 -> (b | a - a') -> jac a b = jac a' b.
Proof. intros Hb D. destruct (abs_odd b Hb). apply gauss_mod; auto. apply Z.divide_abs_l. auto. Qed.

Lemma two_bit b : b mod 2 = 1 -> gauss 2 (Z.abs b) = Z.testbit (b + 2) 2.
Proof.
  intros Hb. destruct (abs_odd b Hb) as [H1 H2]. rewrite gauss_2, odd_testbit by (auto; lia). change (2 ^ 2) with 4. apply odd_eq.
  destruct (Z.abs_eq_or_opp b) as [E|E]; rewrite E in *; clear E; clear - Hb H1; dm; lia.
Qed.
Lemma gcd_half a b : b mod 2 = 1 -> Z.gcd (2 * a) (Z.abs b) = 1 -> Z.gcd a (Z.abs b) = 1 /\ Z.gcd 2 (Z.abs b) = 1.
Proof.
  intros Hb H. split.
  - apply Zgcd_1_rel_prime. apply Zgcd_1_rel_prime in H. apply rel_prime_sym in H. apply rel_prime_sym.
    apply rel_prime_sym. apply rel_prime_div with (2 * a); [apply rel_prime_sym; auto|apply Z.divide_factor_r].
  - apply Zgcd_1_rel_prime. apply Zgcd_1_rel_prime in H. apply rel_prime_div with (2 * a); [auto|apply Z.divide_factor_l].
Qed.
Lemma jac_half a b : b mod 2 = 1 -> a mod 2 = 0 -> Z.gcd a b = 1 -> jac a b = xorb (Z.testbit (b + 2) 2) (jac (a / 2) b).
Proof.
  intros Hb Ha Hg. apply even_half in Ha. rewrite <- Ha in Hg |- * at 1. unfold jac. rewrite <- Z.gcd_abs_r in Hg.
  destruct (gcd_half _ _ Hb Hg) as [G1 G2]. destruct (abs_odd b Hb). rewrite gauss_mul, two_bit by auto. reflexivity.
Qed.
Lemma jac_opp a b : b mod 2 = 1 -> Z.gcd a b = 1 -> jac (- a) b = xorb (Z.odd (Z.abs b / 2)) (jac a b).
Proof.
  intros Hb Hg. unfold jac. rewrite <- Z.gcd_abs_r in Hg. destruct (abs_odd b Hb). replace (- a) with (-1 * a) by ring.
  rewrite gauss_mul, gauss_opp1; auto. rewrite <- Z.gcd_opp_l. apply Z.gcd_1_l.
Qed.
Lemma bit1 x : Z.testbit x 1 = Z.odd (x / 2). Proof. rewrite odd_testbit by lia. reflexivity. Qed.
Lemma bit1_opp x : x mod 2 = 1 -> Z.odd (- x / 2) = negb (Z.odd (x / 2)).
Proof. intros. apply odd_neq. dm; lia. Qed.
Lemma jac_swap a b : a mod 2 = 1 -> b mod 2 = 1 -> Z.gcd a b = 1 -> (a < 0 -> 0 < b) ->
  jac a b = xorb (Z.testbit a 1 && Z.testbit b 1) (jac b a).
Proof.
  intros Ha Hb Hg Hs. rewrite !bit1. 
  destruct (abs_odd a Ha) as [A1 A2]. destruct (abs_odd b Hb) as [B1 B2].
  assert (G : Z.gcd (Z.abs a) (Z.abs b) = 1) by (rewrite Z.gcd_abs_l, Z.gcd_abs_r; auto).
  pose proof (gauss_reciprocity _ _ A1 B1 A2 B2 G) as R.
  assert (Hg' : Z.gcd b a = 1) by (rewrite Z.gcd_comm; auto).
  destruct (Z_lt_ge_dec a 0) as [Na|Na].
  - specialize (Hs Na). rewrite (Z.abs_eq b) in * by lia. rewrite (Z.abs_neq a) in * by lia. 
    assert (E : jac a b = xorb (Z.odd (b / 2)) (jac (- a) b)).
    { rewrite <- (Z.opp_involutive a) at 1. rewrite jac_opp by (auto; rewrite Z.gcd_opp_l; auto). rewrite (Z.abs_eq b) by lia. reflexivity. }
    rewrite E. unfold jac. rewrite (Z.abs_eq b), (Z.abs_neq a) by lia.
    assert (E2 : Z.odd (a / 2) = negb (Z.odd (- a / 2))) by (rewrite <- (Z.opp_involutive a) at 1; apply bit1_opp; auto). rewrite E2.
    destruct (gauss (- a) b), (gauss b (- a)), (Z.odd (- a / 2)), (Z.odd (b / 2)); cbn in *; congruence.
  - rewrite (Z.abs_eq a) in * by lia. destruct (Z_lt_ge_dec b 0) as [Nb|Nb].
    + rewrite (Z.abs_neq b) in * by lia.
      assert (E : jac b a = xorb (Z.odd (a / 2)) (jac (- b) a)).
      { rewrite <- (Z.opp_involutive b) at 1. rewrite jac_opp by (auto; rewrite Z.gcd_opp_l; auto). rewrite (Z.abs_eq a) by lia. reflexivity. }
      rewrite E. unfold jac. rewrite (Z.abs_eq a), (Z.abs_neq b) by lia.
      assert (E2 : Z.odd (b / 2) = negb (Z.odd (- b / 2))) by (rewrite <- (Z.opp_involutive b) at 1; apply bit1_opp; auto). rewrite E2.
      destruct (gauss a (- b)), (gauss (- b) a), (Z.odd (- b / 2)), (Z.odd (a / 2)); cbn in *; congruence.
    + rewrite (Z.abs_eq b) in * by lia. unfold jac. rewrite (Z.abs_eq a), (Z.abs_eq b) by lia.
      destruct (gauss a b), (gauss b a), (Z.odd (a / 2)), (Z.odd (b / 2)); cbn in *; congruence.
Qed.

(** the change of the symbol in one step, computed from low bits *)
Definition flip (o lt : bool) (a b : Z) : bool :=
  xorb (o && lt && (Z.testbit a 1 && Z.testbit b 1)) (Z.testbit ((if o && lt then a else b) + 2) 2).
Definition signs_ok (s : gst) : Prop := ga s < 0 -> 0 < gb s.

Lemma jac_step A B J j s : core A B J j s -> 0 <= j < J -> Z.gcd (ga s) (gb s) = 1 -> signs_ok s ->
  signs_ok (gs s) /\ jac (ga s) (gb s) = xorb (flip (Z.odd (gxa s)) (gxa s <? gxb s) (ga s) (gb s)) (jac (ga (gs s)) (gb (gs s))).
Proof.
  intros C Hj Hg Hs. pose proof (core_parity A B J j s C Hj) as [Pa Pb]. pose proof (c_odd A B J j s C) as Co. clear C.
  destruct s as [xa xb a b f0 g0 f1 g1]. unfold signs_ok, flip in *. cbn [gxa gxb ga gb gf0 gg0 gf1 gg1 gs] in *.
  destruct (Z.odd xa) eqn:Eo; [apply odd_mod in Eo|apply even_mod in Eo]; rewrite Eo in Pa; cbn [andb].
  - destruct (Z.ltb_spec xa xb) as [L|L]; cbn [ga gb].
    + assert (E := odd_sub b a Co Pa). split.
      * intros H. apply even_half in E. clear - H E Hs Pa Co. dm; lia.
      * rewrite jac_swap by auto. cbn [andb]. rewrite xorb_assoc. f_equal. rewrite (jac_cong b (b - a) a); auto.
        -- apply jac_half; auto. rewrite Z.gcd_comm, Z.gcd_sub_diag_r. auto.
        -- exists 1. lia.
    + assert (E := odd_sub a b Pa Co). split.
      * intros H. apply even_half in E. clear - H E Hs Pa Co. dm; lia.
      * cbn [andb]. rewrite xorb_false_l. rewrite (jac_cong a (a - b) b); auto.
        -- apply jac_half; auto. rewrite Z.gcd_comm, Z.gcd_sub_diag_r, Z.gcd_comm. auto.
        -- exists 1. lia.
  - cbn [ga gb]. rewrite xorb_false_l. split.
    + intros H. apply even_half in Pa. lia.
    + apply jac_half; auto.
Qed.

(** ** Low bits *)
Lemma bits_cong m x y i : (2 ^ m | x - y) -> 0 <= i < m -> Z.testbit x i = Z.testbit y i.
Proof.
  intros [q Hq] Hi. replace x with (y + q * 2 ^ m) by lia. rewrite <- (Z.mod_pow2_bits_low _ m) by lia.
  rewrite Z.mod_add by (pose proof (pow2_pos m); lia). apply Z.mod_pow2_bits_low. lia.
Qed.
Lemma flip_cong m o lt a b a' b' : 3 <= m -> (2 ^ m | a - a') -> (2 ^ m | b - b') -> flip o lt a b = flip o lt a' b'.
Proof.
  intros Hm Ha Hb. unfold flip. rewrite (bits_cong m a a' 1), (bits_cong m b b' 1) by (auto; lia). f_equal.
  destruct (o && lt).
  - apply (bits_cong m); [|lia]. replace (a + 2 - (a' + 2)) with (a - a') by ring. auto.
  - apply (bits_cong m); [|lia]. replace (b + 2 - (b' + 2)) with (b - b') by ring. auto.
Qed.
Lemma odd_lxor x y : Z.odd (Z.lxor x y) = xorb (Z.odd x) (Z.odd y).
Proof. rewrite <- !Z.bit0_odd. apply Z.lxor_spec. Qed.
Lemma odd_land x y : Z.odd (Z.land x y) = Z.odd x && Z.odd y.
Proof. rewrite <- !Z.bit0_odd. apply Z.land_spec. Qed.
Lemma odd_shiftr x k : 0 <= k -> Z.odd (Z.shiftr x k) = Z.testbit x k.
Proof. intros. rewrite <- Z.bit0_odd, Z.shiftr_spec by lia. f_equal. Qed.
Lemma wadd_bit x c i : 0 <= i < 64 -> Z.testbit (wadd x c) i = Z.testbit (x + c) i.
Proof. intros. unfold wadd. rewrite lo64_mod. change W64 with (2 ^ 64). apply Z.mod_pow2_bits_low. lia. Qed.

Lemma flip_word (o lt : bool) x y ls (x' := if o && lt then y else x) (y' := if o && lt then x else y) :
  Z.odd (Z.lxor (Z.lxor ls (Z.land (Z.land (if o then W64 - 1 else 0) (wneg (if lt then 1 else 0))) (Z.shiftr (Z.land x y) 1))) (Z.shiftr (wadd y' 2) 2))
  = xorb (Z.odd ls) (flip o lt x y).
Proof.
  unfold flip. fold y'. rewrite !odd_lxor, !odd_land, !odd_shiftr, Z.land_spec, wadd_bit, xorb_assoc by lia. do 3 f_equal.
  destruct o, lt; reflexivity.
Qed.

Lemma leg_step1_ok s ls : xwords s ->
  exists ls', leg_step1 (packed s, ls) = (packed (gs s), ls') /\
  Z.odd ls' = xorb (Z.odd ls) (flip (Z.odd (gxa s)) (gxa s <? gxb s) (gxa s) (gxb s)).
Proof.
  intros H. pose proof (inner_step_gs s H) as E. destruct H as [Ha Hb]. destruct s as [xa xb a b f0 g0 f1 g1]. unfold packed in *.
  cbn [gxa gxb gf0 gg0 gf1 gg1] in *. rewrite <- E. clear E. unfold leg_step1, inner_step.
  destruct (borrow_ltb xa xb Ha Hb) as [d ->]. eexists. split; [reflexivity|].
  rewrite odd_mask. set (lt := xa <? xb).
  assert (Y : Z.lxor xb (Z.land (Z.land (if Z.odd xa then W64 - 1 else 0) (wneg (if lt then 1 else 0))) (Z.lxor xa xb)) = if Z.odd xa && lt then xa else xb).
  { destruct (Z.odd xa), lt; cbn [andb].
    - change (Z.land (W64 - 1) (wneg 1)) with (W64 - 1). apply xor_swap_r; auto.
    - change (Z.land (W64 - 1) (wneg 0)) with 0. rewrite Z.land_0_l, Z.lxor_0_r. reflexivity.
    - rewrite !Z.land_0_l, Z.lxor_0_r. reflexivity.
    - rewrite !Z.land_0_l, Z.lxor_0_r. reflexivity. }
  rewrite Y. apply flip_word.
Qed.

Lemma xor_shift l f j : xorb l (xorb f j) = xorb (xorb l f) j. Proof. symmetry. apply xorb_assoc. Qed.

Lemma leg_run1 A B xa xb J ls k : word xa -> word xb -> 0 <= A -> 0 <= B -> B mod 2 = 1 -> Z.gcd A B = 1 -> (2 ^ J | A - xa) -> (2 ^ J | B - xb) ->
  Z.of_nat k + 2 <= J ->
  exists ls', iter k leg_step1 (packed (ginit xa xb A B), ls) = (packed (grun k (ginit xa xb A B)), ls') /\
  signs_ok (grun k (ginit xa xb A B)) /\
  xorb (Z.odd ls) (jac A B) = xorb (Z.odd ls') (jac (ga (grun k (ginit xa xb A B))) (gb (grun k (ginit xa xb A B)))).
Proof.
  intros Wa Wb HA HB Ho Hg Da Db. induction k as [|k IH]; intros HJ.
  - exists ls. split; [reflexivity|]. split; [|reflexivity]. unfold signs_ok. cbn [grun ginit ga gb]. lia.
  - destruct IH as (l1 & E & S & R); [lia|]. rewrite iter_end, E. 
    pose proof (core_run J A B xa xb k (proj1 Wa) (proj1 Wb) Ho Da Db ltac:(lia)) as C.
    pose proof (run_gcd J A B xa xb k (proj1 Wa) (proj1 Wb) Ho Da Db ltac:(lia) Hg) as GC. cbv zeta in GC.
    pose proof (xwords_run k (ginit xa xb A B) (conj Wa Wb)) as X. cbn [grun].
    set (s := grun k (ginit xa xb A B)) in *. clearbody s.
    destruct (leg_step1_ok s l1 X) as (l2 & E2 & O2). exists l2. split; auto.
    destruct (jac_step A B J (Z.of_nat k) s C ltac:(lia) GC S) as [S' R']. split; auto.
    rewrite R, R', O2, xor_shift. do 2 f_equal.
    apply (flip_cong (J - Z.of_nat k)); [lia|apply (c_a _ _ _ _ _ C)|apply (c_b _ _ _ _ _ C)].
Qed.

Lemma rep_half_cong m x y : 1 <= m <= 64 -> (2 ^ m | x - y) -> x mod 2 = 0 -> (2 ^ (m - 1) | x / 2 - Z.shiftr (rep y) 1).
Proof.
  intros Hm D Hx. rewrite Z.shiftr_div_pow2 by lia. change (2 ^ 1) with 2. unfold rep. rewrite Z.mod_eq by discriminate. 
  assert (D2 : (2 ^ m | x - (y - W64 * (y / W64)))).
  { replace (x - (y - W64 * (y / W64))) with (x - y + W64 * (y / W64)) by ring. apply Z.divide_add_r; auto. apply Z.divide_mul_l.
    exists (2 ^ (64 - m)). rewrite <- Z.pow_add_r by lia. change W64 with (2 ^ 64). f_equal. lia. }
  set (z := y - W64 * (y / W64)) in *. clearbody z. replace m with (m - 1 + 1) in D2 by lia. 
  rewrite half_diff; [apply div_half; auto; lia|]. destruct D2 as [q Hq]. rewrite pow2_S in Hq by lia.
  set (w := 2 ^ (m - 1)) in *. clearbody w. set (v := q * w). assert (x - z = 2 * v) by (unfold v; lia). clearbody v. clear - H Hx. dm. lia.
Qed.

Lemma leg_step2_ok s m a0 b0 ls : xwords s -> word a0 -> word b0 -> 3 <= m <= 64 -> (2 ^ m | ga s - a0) -> (2 ^ m | gb s - b0) ->
  ga s mod 2 = gxa s mod 2 -> gb s mod 2 = 1 ->
  exists a1 b1 ls', leg_step2 (packed s, a0, b0, ls) = (packed (gs s), a1, b1, ls') /\
  word a1 /\ word b1 /\ (2 ^ (m - 1) | ga (gs s) - a1) /\ (2 ^ (m - 1) | gb (gs s) - b1) /\
  Z.odd ls' = xorb (Z.odd ls) (flip (Z.odd (gxa s)) (gxa s <? gxb s) (ga s) (gb s)).
Proof.
  intros H Wa Wb Hm Da Db Pa Pb. pose proof (inner_step_gs s H) as E. destruct H as [Ha Hb]. destruct s as [xa xb a b f0 g0 f1 g1]. unfold packed in *.
  cbn [gxa gxb ga gb gf0 gg0 gf1 gg1] in *. rewrite <- E. clear E. rewrite (flip_cong m _ _ a b a0 b0) by (auto; lia). unfold leg_step2, inner_step.
  destruct (borrow_ltb xa xb Ha Hb) as [d ->]. rewrite odd_mask. set (lt := xa <? xb).
  assert (DW : forall x, (2 ^ m | x) -> (2 ^ (m - 1) | x)).
  { intros x [q Hq]. exists (q * 2). replace m with (m - 1 + 1) in Hq by lia. rewrite pow2_S in Hq by lia. lia. }
  assert (SH : forall x, word x -> word (Z.shiftr x 1)).
  { intros x [X1 X2]. rewrite Z.shiftr_div_pow2 by lia. change (2 ^ 1) with 2. split; [apply Z.div_pos; lia|]. apply Z.div_lt_upper_bound; lia. }
  eexists (Z.shiftr (wsub (Z.lxor a0 (Z.land (Z.land (if Z.odd xa then W64 - 1 else 0) (wneg (if lt then 1 else 0))) (Z.lxor a0 b0))) (Z.land (if Z.odd xa then W64 - 1 else 0) (Z.lxor b0 (Z.land (Z.land (if Z.odd xa then W64 - 1 else 0) (wneg (if lt then 1 else 0))) (Z.lxor a0 b0))))) 1),
    (Z.lxor b0 (Z.land (Z.land (if Z.odd xa then W64 - 1 else 0) (wneg (if lt then 1 else 0))) (Z.lxor a0 b0))), _.
  split; [reflexivity|].
  assert (Y : Z.lxor b0 (Z.land (Z.land (if Z.odd xa then W64 - 1 else 0) (wneg (if lt then 1 else 0))) (Z.lxor a0 b0)) = if Z.odd xa && lt then a0 else b0).
  { destruct (Z.odd xa), lt; cbn [andb].
    - change (Z.land (W64 - 1) (wneg 1)) with (W64 - 1). apply xor_swap_r; auto.
    - change (Z.land (W64 - 1) (wneg 0)) with 0. rewrite Z.land_0_l, Z.lxor_0_r. reflexivity.
    - rewrite !Z.land_0_l, Z.lxor_0_r. reflexivity.
    - rewrite !Z.land_0_l, Z.lxor_0_r. reflexivity. }
  assert (X : Z.lxor a0 (Z.land (Z.land (if Z.odd xa then W64 - 1 else 0) (wneg (if lt then 1 else 0))) (Z.lxor a0 b0)) = if Z.odd xa && lt then b0 else a0).
  { destruct (Z.odd xa), lt; cbn [andb].
    - change (Z.land (W64 - 1) (wneg 1)) with (W64 - 1). apply xor_swap_l; auto.
    - change (Z.land (W64 - 1) (wneg 0)) with 0. rewrite Z.land_0_l, Z.lxor_0_r. reflexivity.
    - rewrite !Z.land_0_l, Z.lxor_0_r. reflexivity.
    - rewrite !Z.land_0_l, Z.lxor_0_r. reflexivity. }
  rewrite X, Y. clear X Y.
  assert (R : forall x, word x -> rep x = x) by (intros; unfold rep; apply Z.mod_small; auto).
  split; [|split; [destruct (Z.odd xa), lt; auto|split; [|split; [|apply flip_word]]]].
  - apply SH. unfold wsub. rewrite lo64_mod. apply word_rep.
  - cbn [gs]. destruct (Z.odd xa) eqn:Eo; [apply odd_mod in Eo|apply even_mod in Eo]; rewrite Eo in Pa; cbn [andb].
    + fold lt. rewrite land_ones_l by (destruct lt; auto). destruct lt; cbn [ga].
      * unfold wsub. rewrite lo64_mod. change ((b0 - a0) mod W64) with (rep (b0 - a0)). apply rep_half_cong; [lia| |apply odd_sub; auto].
        replace (b - a - (b0 - a0)) with ((b - b0) - (a - a0)) by ring. apply Z.divide_sub_r; auto.
      * unfold wsub. rewrite lo64_mod. change ((a0 - b0) mod W64) with (rep (a0 - b0)). apply rep_half_cong; [lia| |apply odd_sub; auto].
        replace (a - b - (a0 - b0)) with ((a - a0) - (b - b0)) by ring. apply Z.divide_sub_r; auto.
    + cbn [ga]. rewrite Z.land_0_l, wsub_0 by auto. rewrite <- (R a0) by auto. apply rep_half_cong; auto. lia.
  - cbn [gs]. fold lt. destruct (Z.odd xa), lt; cbn [andb gb]; auto.
Qed.

Lemma a0_ok A f g B w : 2 ^ 29 * w = f * A + g * B -> Z.shiftr (wadd (wmul (A mod W64) (rep f)) (wmul (B mod W64) (rep g))) 29 = w mod 2 ^ 35.
Proof.
  intros E. unfold wadd, wmul, rep. rewrite !lo64_mod, <- !Z.mul_mod, <- Z.add_mod by discriminate.
  replace (A * f + B * g) with (w * 2 ^ 29) by lia. rewrite Z.shiftr_div_pow2 by lia. change W64 with (2 ^ 35 * 2 ^ 29).
  rewrite Z.mul_mod_distr_r by discriminate. apply Z.div_mul. discriminate.
Qed.

(** the state between outer iterations *)
Record lstate (a b : fp) : Prop := Lst {
  l_wa : words a; l_la : length a = NLIMBS; l_wb : words b; l_lb : length b = NLIMBS;
  l_a : eval a <= P; l_b : eval b <= P; l_odd : eval b mod 2 = 1; l_gcd : Z.gcd (eval a) (eval b) = 1 }.

Lemma leg_outer_ok a b ls : lstate a b ->
  exists a' b' ls', leg_outer (a, b, ls) = (a', b', ls') /\ lstate a' b' /\
  bitlength (eval a') + bitlength (eval b') <= Z.max (bitlength (eval a) + bitlength (eval b) - 31) 1 /\
  xorb (Z.odd ls) (jac (eval a) (eval b)) = xorb (Z.odd ls') (jac (eval a') (eval b')).
Proof.
  intros [Wa La Wb Lb Ba Bb Ho Hg]. unfold leg_outer.
  destruct (approx a b) as [xa xb] eqn:EA. apply approx_ok in EA as (Wxa & Wxb & GA); auto; [|congruence|intros ->; discriminate La].
  pose proof (eval_bound a Wa) as [Pa _]. pose proof (eval_bound b Wb) as [Pb _].
  destruct (limb0_mod a Wa) as [Ea Wa0]; [intros ->; discriminate La|]. destruct (limb0_mod b Wb) as [Eb Wb0]; [intros ->; discriminate Lb|].
  destruct (good_div _ _ _ _ GA) as [Da Db]. 
  destruct (leg_run1 (eval a) (eval b) xa xb 31 ls 29 Wxa Wxb Pa Pb Ho Hg Da Db ltac:(lia)) as (l1 & E1 & S1 & R1).
  change (xa, xb, 1, wshl 1 32, ls) with (packed (ginit xa xb (eval a) (eval b)), ls). rewrite E1.
  set (st := ginit xa xb (eval a) (eval b)) in *.
  assert (CR : forall k, (k <= 31)%nat -> core (eval a) (eval b) 31 (Z.of_nat k) (grun k st)).
  { intros k Hk. apply core_run; auto; try apply Wxa; try apply Wxb. lia. }
  assert (GCk : forall k, (k <= 31)%nat -> Z.gcd (ga (grun k st)) (gb (grun k st)) = 1).
  { intros k Hk. apply (run_gcd 31); auto; try apply Wxa; try apply Wxb. lia. }
  assert (XW : forall k, xwords (grun k st)) by (intros; apply xwords_run; split; auto).
  pose proof (good_shrinks (eval a) (eval b) xa xb Pa Pb Ho (proj1 Wxa) (proj1 Wxb) GA) as SH.
  pose proof (run_bound 31 (eval a) (eval b) xa xb 31 Pa Pb (proj1 Wxa) (proj1 Wxb) Ho Da Db ltac:(lia)) as BD. cbv zeta in SH, BD. fold st in SH, BD.
  pose proof (CR 29%nat ltac:(lia)) as C29. pose proof (CR 30%nat ltac:(lia)) as C30. pose proof (CR 31%nat ltac:(lia)) as C31.
  pose proof (GCk 29%nat ltac:(lia)) as G29. pose proof (GCk 30%nat ltac:(lia)) as G30. pose proof (GCk 31%nat ltac:(lia)) as G31.
  pose proof (XW 29%nat) as X29. pose proof (XW 30%nat) as X30. clear CR GCk XW E1.
  change (grun 31 st) with (gs (gs (grun 29 st))) in *. change (grun 30 st) with (gs (grun 29 st)) in *.
  change (Z.of_nat 29) with 29 in *. change (Z.of_nat 30) with 30 in *. change (Z.of_nat 31) with 31 in *.
  set (s := grun 29 st) in *. clearbody s. clear st GA Da Db. unfold packed at 1.
  pose proof (c_la _ _ _ _ _ C29) as La29. pose proof (c_lb _ _ _ _ _ C29) as Lb29.
  assert (U0 : unpack (lane (gf0 s) (gg0 s)) = (rep (gf0 s), rep (gg0 s))).
  { destruct C29 as [_ _ _ _ _ _ _ N0 N1 L0 L1 _]. change (2 ^ 29) with 536870912 in *. apply unpack_lane; clear - N0 L0; lia. }
  assert (U1 : unpack (lane (gf1 s) (gg1 s)) = (rep (gf1 s), rep (gg1 s))).
  { destruct C29 as [_ _ _ _ _ _ _ N0 N1 L0 L1 _]. change (2 ^ 29) with 536870912 in *. apply unpack_lane; clear - N1 L1; lia. }
  rewrite U0, U1, Ea, Eb, (a0_ok _ _ _ _ _ La29), (a0_ok _ _ _ _ _ Lb29). clear U0 U1.
  assert (M35 : forall x, (2 ^ 35 | x - x mod 2 ^ 35) /\ word (x mod 2 ^ 35)).
  { intros x. split; [exists (x / 2 ^ 35); rewrite Z.mod_eq by discriminate; ring|]. pose proof (Z.mod_pos_bound x (2 ^ 35) eq_refl). split; [lia|]. apply Z.lt_trans with (2 ^ 35); [lia|reflexivity]. }
  destruct (M35 (ga s)) as [DA WA]. destruct (M35 (gb s)) as [DB WB]. clear M35.
  destruct (core_parity _ _ _ _ _ C29 ltac:(lia)) as [Q29 _]. destruct (core_parity _ _ _ _ _ C30 ltac:(lia)) as [Q30 _].
  destruct (leg_step2_ok s 35 _ _ l1 X29 WA WB ltac:(lia) DA DB Q29 (c_odd _ _ _ _ _ C29)) as (a1 & b1 & l2 & E2 & Wa1 & Wb1 & Da1 & Db1 & O2).
  destruct (leg_step2_ok (gs s) (35 - 1) _ _ l2 X30 Wa1 Wb1 ltac:(lia) Da1 Db1 Q30 (c_odd _ _ _ _ _ C30)) as (a2 & b2 & l3 & E3 & _ & _ & _ & _ & O3).
  change (gxa s, gxb s, lane (gf0 s) (gg0 s), lane (gf1 s) (gg1 s)) with (packed s). cbn [iter]. rewrite E2, E3. unfold packed. clear E2 E3.
  destruct (jac_step _ _ _ _ _ C29 ltac:(lia) G29 S1) as [S2 R2]. destruct (jac_step _ _ _ _ _ C30 ltac:(lia) G30 S2) as [S3 R3].
  rewrite R1, R2, R3, xor_shift, <- O2, xor_shift, <- O3.
  clear - C31 G31 SH BD Wa La Wb Lb Ba Bb Pa Pb Ho. set (t := gs (gs s)) in *. clearbody t.
  destruct C31 as [_ _ _ _ Co Cla Clb Cn0 Cn1 Cl0 Cl1 _]. change (2 ^ 31) with 2147483648 in *.
  rewrite !unpack_lane by lia. pose proof P_WN as PW.
  destruct (lindiv31abs_ok a b (gf0 t) (gg0 t) Wa Wb La Lb Cn0) as (ra & E1 & W1 & L1 & V1); try lia.
  { exists (ga t). lia. }
  destruct (lindiv31abs_ok a b (gf1 t) (gg1 t) Wa Wb La Lb Cn1) as (rb & E2 & W2 & L2 & V2); try lia.
  { exists (gb t). lia. }
  rewrite E1, E2. rewrite <- Cla, (Z.mul_comm 2147483648), Z.div_mul in V1 by discriminate. rewrite <- Clb, (Z.mul_comm 2147483648), Z.div_mul in V2 by discriminate.
  rewrite <- Cla, (Z.mul_comm 2147483648), Z.div_mul by discriminate.
  assert (HM : mx (eval a) (eval b) <= P) by (unfold mx; lia). clear E1 E2.
  eexists ra, rb, _. split; [reflexivity|]. split; [|split].
  - constructor; auto; try (rewrite ?V1, ?V2; clear - HM BD; lia).
    + rewrite V2. apply abs_odd. auto.
    + rewrite V1, V2, Z.gcd_abs_l, Z.gcd_abs_r. auto.
  - rewrite V1, V2. unfold sumlen in SH. destruct SH as [Z0|SH]; [|clear - SH; lia].
    rewrite Z0 in G31. rewrite Z.gcd_0_l in G31. rewrite Z0, G31. change (bitlength (Z.abs 0) + bitlength 1) with 1. clear. lia.
  - rewrite odd_lxor, odd_land, odd_shiftr by lia. destruct (limb0_mod rb W2) as [Eb _]; [intros ->; discriminate L2|]. rewrite Eb.
    change W64 with (2 ^ 64). rewrite Z.mod_pow2_bits_low, bit1, V1, V2 by lia.
    unfold jac at 2. rewrite Z.abs_involutive. fold (jac (Z.abs (ga t)) (gb t)). rewrite xorb_assoc. f_equal.
    destruct (Z.ltb_spec (ga t) 0) as [N|N]; unfold msk.
    + change (Z.odd (W64 - 1)) with true. cbn [andb]. rewrite (Z.abs_neq (ga t)) by (clear - N; lia).
      rewrite <- jac_opp by (auto; rewrite Z.gcd_opp_l; auto). rewrite Z.opp_involutive. reflexivity.
    + change (Z.odd 0) with false. cbn [andb]. rewrite xorb_false_l, Z.abs_eq by auto. reflexivity.
Qed.

Lemma leg_outer_run k : forall a b ls, lstate a b ->
  exists a' b' ls', iter k leg_outer (a, b, ls) = (a', b', ls') /\ lstate a' b' /\
  bitlength (eval a') + bitlength (eval b') <= Z.max (bitlength (eval a) + bitlength (eval b) - 31 * Z.of_nat k) 1 /\
  xorb (Z.odd ls) (jac (eval a) (eval b)) = xorb (Z.odd ls') (jac (eval a') (eval b')).
Proof.
  induction k as [|k IH]; intros a b ls H.
  - exists a, b, ls. split; [reflexivity|]. split; auto. split; [lia|reflexivity].
  - destruct (IH a b ls H) as (a1 & b1 & l1 & E1 & S1 & B1 & R1). rewrite iter_end, E1.
    destruct (leg_outer_ok a1 b1 l1 S1) as (a2 & b2 & l2 & E2 & S2 & B2 & R2). exists a2, b2, l2. split; auto. split; auto. split; [|congruence].
    clear - B1 B2. lia.
Qed.

(** the last loop *)
Definition pair3 (s : gst) : Z * Z := (gxa s, gxb s).
Lemma leg_final_ok s ls : xwords s -> exists ls', leg_final (pair3 s, ls) = (pair3 (gs s), ls') /\
  Z.odd ls' = xorb (Z.odd ls) (flip (Z.odd (gxa s)) (gxa s <? gxb s) (gxa s) (gxb s)).
Proof.
  intros H. destruct (leg_step1_ok s ls H) as (ls' & E & O). pose proof (inner_step_gs s H) as E0. exists ls'. split; auto.
  destruct s as [xa xb a b f0 g0 f1 g1]. unfold packed, pair3, leg_step1, leg_final in *. cbn [gxa gxb gf0 gg0 gf1 gg1] in *.
  destruct (subborrow_u64 xa xb 0) as [d cc]. injection E as -> -> _ _ <-. reflexivity.
Qed.
Lemma leg_final_run A B ls k : word A -> word B -> B mod 2 = 1 -> Z.gcd A B = 1 ->
  exists ls', iter k leg_final (A, B, ls) = (pair3 (grun k (ginit A B A B)), ls') /\
  signs_ok (grun k (ginit A B A B)) /\
  xorb (Z.odd ls) (jac A B) = xorb (Z.odd ls') (jac (ga (grun k (ginit A B A B))) (gb (grun k (ginit A B A B)))).
Proof.
  intros Wa Wb Ho Hg. assert (D : forall x J, (2 ^ J | x - x)) by (intros; rewrite Z.sub_diag; apply Z.divide_0_r). induction k as [|k IH].
  - exists ls. split; [reflexivity|]. split; [|reflexivity]. unfold signs_ok. cbn [grun ginit ga gb]. destruct Wa. lia.
  - destruct IH as (l1 & E & S & R). rewrite iter_end, E. set (J := Z.of_nat k + 3).
    pose proof (core_run J A B A B k (proj1 Wa) (proj1 Wb) Ho (D _ _) (D _ _) ltac:(lia)) as C.
    pose proof (run_gcd J A B A B k (proj1 Wa) (proj1 Wb) Ho (D _ _) (D _ _) ltac:(lia) Hg) as GC. cbv zeta in GC.
    pose proof (xwords_run k (ginit A B A B) (conj Wa Wb)) as X. cbn [grun].
    set (s := grun k (ginit A B A B)) in *. clearbody s.
    destruct (leg_final_ok s l1 X) as (l2 & E2 & O2). exists l2. split; auto.
    destruct (jac_step A B J (Z.of_nat k) s C ltac:(lia) GC S) as [S' R']. split; auto.
    rewrite R, R', O2, xor_shift. do 2 f_equal.
    apply (flip_cong (J - Z.of_nat k)); [lia|apply (c_a _ _ _ _ _ C)|apply (c_b _ _ _ _ _ C)].
Qed.
Lemma leg_final_done A B ls : word A -> word B -> B mod 2 = 1 -> Z.gcd A B = 1 -> bitlength A + bitlength B <= 44 ->
  exists q ls', iter NUM2 leg_final (A, B, ls) = (q, ls') /\ Z.odd ls' = xorb (Z.odd ls) (jac A B).
Proof.
  intros Wa Wb Ho Hg HL. destruct (leg_final_run A B ls NUM2 Wa Wb Ho Hg) as (l & E & _ & R). exists (pair3 (grun NUM2 (ginit A B A B))), l. split; auto.
  rewrite R. replace (gb (grun NUM2 (ginit A B A B))) with 1; [unfold jac; change (Z.abs 1) with 1; change (gauss (ga (grun NUM2 (ginit A B A B))) 1) with false; rewrite xorb_false_r; reflexivity|].
  symmetry. assert (D : forall x J, (2 ^ J | x - x)) by (intros; rewrite Z.sub_diag; apply Z.divide_0_r).
  change NUM2 with 42%nat.
  pose proof (core_run 42 A B A B 42 (proj1 Wa) (proj1 Wb) Ho (D _ _) (D _ _) ltac:(lia)) as C.
  destruct (exact_shrinks A B 42 (proj1 Wa) (proj1 Wb) Ho) as (X1 & X2 & X3).
  pose proof (run_gcd 42 A B A B 42 (proj1 Wa) (proj1 Wb) Ho (D _ _) (D _ _) ltac:(lia) Hg) as GC. cbv zeta in *.
  set (t := grun 42 (ginit A B A B)) in *. clearbody t. pose proof (c_odd _ _ _ _ _ C) as Co. change (Z.of_nat 42) with 42 in *.
  unfold sumlen in X3. clear - GC X1 X2 X3 Co HL.
  assert (Z0 : ga t = 0 -> gb t = 1).
  { intros Z0. rewrite Z0, Z.gcd_0_l, Z.abs_eq in GC by auto. exact GC. }
  destruct X3 as [X3|X3]; auto.
  destruct (Z.eq_dec (ga t) 0) as [|N]; auto.
  pose proof (bl_pos (ga t) ltac:(lia)). assert (0 < gb t) by (clear - Co X2; Z.div_mod_to_equations; lia).
  assert (B1 : bitlength (gb t) <= 1) by lia. apply bl_lt in B1; lia.
Qed.

Lemma leg_result l : lo32 (1 - wshl (Z.land (lo32 l) 1) 1) = if Z.odd l then 4294967295 else 1.
Proof.
  assert (E : Z.land (lo32 l) 1 = if Z.odd l then 1 else 0).
  { change 1 with (Z.ones 1) at 1. rewrite Z.land_ones by lia. unfold lo32. change 4294967295 with (Z.ones 32). rewrite Z.land_ones by lia.
    change (2 ^ 1) with 2. rewrite <- Zmod_div_mod; [|reflexivity|reflexivity|exists (2 ^ 31); reflexivity]. rewrite Zmod_odd. reflexivity. }
  rewrite E. destruct (Z.odd l); reflexivity.
Qed.
Lemma legendre_ok x : canon x -> legendre x = if val x =? 0 then 0 else if gauss (eval x) P then -1 else 1.
Proof.
  intros Hx. destruct (canon_inv x Hx) as (Lx & Wx & Bx). pose proof P_odd as PO. unfold legendre. rewrite iszero_canon by auto.
  match goal with |- context [iter NUM1 leg_outer ?z] => destruct (iter NUM1 leg_outer z) as [[a b] l] eqn:E1 end.
  destruct (iter NUM2 leg_final (limb a 0, limb b 0, l)) as [[q1 q2] l2] eqn:E2. cbv zeta. rewrite leg_result.
  destruct (Z.eqb_spec (val x) 0) as [Z0|N0].
  - change (wnot32 (mask32 true)) with 0. rewrite Z.land_0_r. reflexivity.
  - change (wnot32 (mask32 false)) with 4294967295.
    assert (Ny : eval x <> 0). { intros E0. apply N0. unfold val. rewrite E0. reflexivity. }
    assert (HG : Z.gcd (eval x) (eval MODULUS) = 1).
    { rewrite eval_MODULUS. rewrite Z.gcd_comm. apply Zgcd_1_rel_prime. apply rel_prime_sym. apply rel_prime_le_prime; [apply P_prime|lia]. }
    assert (S : lstate x MODULUS).
    { constructor; auto; rewrite ?eval_MODULUS; try lia. apply words_MODULUS. }
    destruct (leg_outer_run NUM1 x MODULUS 0 S) as (a' & b' & l' & E1' & [Wa La Wb Lb Ba Bb Ho Hg] & BL & R).
    rewrite E1 in E1'. injection E1' as <- <- <-. rewrite eval_MODULUS, bl_P, NUM1_eq in BL.
    assert (By2 : bitlength (eval x) <= 1293) by (rewrite <- bl_P; apply bl_le; lia).
    assert (G3 : bitlength (eval a) + bitlength (eval b) <= 44) by (clear - BL By2; lia).
    pose proof (eval_bound a Wa) as [Pa _]. pose proof (eval_bound b Wb) as [Pb _].
    pose proof (bl_nonneg (eval a)) as Na. pose proof (bl_nonneg (eval b)) as Nb.
    assert (Sm : forall w, 0 <= w -> bitlength w <= 44 -> w < W64).
    { intros w Hw Hw'. apply bl_lt in Hw'; [|auto|lia]. apply Z.lt_trans with (1 := Hw'). reflexivity. }
    assert (Ha : eval a < W64) by (apply Sm; clear - G3 Na Nb Pa; lia). assert (Hb : eval b < W64) by (apply Sm; clear - G3 Na Nb Pb; lia).
    assert (Na' : a <> []) by (clear - La; intros ->; discriminate La). assert (Nb' : b <> []) by (clear - Lb; intros ->; discriminate Lb).
    rewrite (words_small_eval a Wa Na' Ha), (words_small_eval b Wb Nb' Hb) in E2.
    destruct (leg_final_done (eval a) (eval b) l (conj Pa Ha) (conj Pb Hb) Ho Hg G3) as (q & l3 & E3 & R3).
    rewrite E3 in E2. injection E2 as _ <-. rewrite R3, <- R. change (Z.odd 0) with false. rewrite xorb_false_l. unfold jac.
    rewrite eval_MODULUS, Z.abs_eq by lia. destruct (gauss (eval x) P); reflexivity.
Qed.

Lemma half_P : P / 2 = HP.
Proof. pose proof HP_ok. replace P with (1 + HP * 2) by lia. rewrite Z.div_add by lia. reflexivity. Qed.
Lemma sqrt_WN : WN = 2 ^ 672 * 2 ^ 672. Proof. rewrite WN_RR. reflexivity. Qed.
Lemma WN_nz : ~ cg WN 0.
Proof.
  rewrite WN_RR. intros H. apply cg_1_m1. apply (cg_pow2_cancel 1344); [lia|]. change (2 ^ 1344) with RR || idtac.
  transitivity 0; [rewrite Z.mul_1_r; exact H|]. symmetry. replace (2 ^ 1344 * -1) with (- 2 ^ 1344) by ring. rewrite H. reflexivity.
Qed.
Lemma gauss_square x : canon x -> val x <> 0 -> gauss (eval x) P = false <-> exists z, cg (z * z) (val x).
Proof.
  intros Hx N. destruct (canon_inv x Hx) as (Lx & Wx & Bx). pose proof P_odd as PO.
  assert (Ny : eval x <> 0). { intros E0. apply N. unfold val. rewrite E0. reflexivity. }
  assert (Nc : ~ cg (eval x) 0).
  { intros [q Hq]. clear - Hq Bx Ny. set (p := P) in *. clearbody p. set (e := eval x) in *. clearbody e. assert (q = 0 \/ q <= -1 \/ 1 <= q) as [->|[K|K]] by lia; nia. }
  assert (HG : Z.gcd (eval x) P = 1).
  { rewrite Z.gcd_comm. apply Zgcd_1_rel_prime. apply rel_prime_sym. apply rel_prime_le_prime; [apply P_prime|lia]. }
  assert (E : cg (eval x ^ HP) (if gauss (eval x) P then -1 else 1)).
  { rewrite <- half_P. apply (gauss_euler _ _ P_prime PO HG). }
  assert (S : gauss (eval x) P = false <-> exists z, cg (z * z) (eval x)).
  { split.
    - intros F. rewrite F in E. eexists. apply root_of_euler. exact E.
    - intros [z Hz]. pose proof (cg_euler_square _ _ Nc Hz) as E'. destruct (gauss (eval x) P); auto. exfalso. apply cg_1_m1. rewrite <- E', <- E. reflexivity. }
  rewrite S. pose proof (val_cg x) as V. split; intros [z Hz].
  - pose proof WN_nz as NW. exists (z * (2 ^ 672) ^ (P - 2)).
    pose proof sqrt_WN as SW. set (w := 2 ^ 672) in *. clearbody w.
    assert (Nw : ~ cg w 0). { intros Hw. apply NW. rewrite SW, Hw. reflexivity. }
    pose proof (cg_fermat w Nw) as F. replace (P - 1) with (1 + (P - 2)) in F by lia. pose proof HP_ok. pose proof HP_pos. rewrite Z.pow_add_r, Z.pow_1_r in F by lia.
    set (i := w ^ (P - 2)) in *. clearbody i. apply (cg_cancel _ _ (w * w)).
    { intros H1. apply cg_mul_0 in H1. tauto. }
    replace (w * w * (z * i * (z * i))) with ((w * i) * (w * i) * (z * z)) by ring. rewrite F, Hz, <- V, SW. exists 0. ring.
  - exists (z * 2 ^ 672). replace (z * 2 ^ 672 * (z * 2 ^ 672)) with (z * z * (2 ^ 672 * 2 ^ 672)) by ring. rewrite <- sqrt_WN, Hz. exact V.
Qed.
