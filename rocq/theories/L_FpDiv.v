(** Correctness of division and inversion in the base field. *)
From Coq Require Import ZArith Znumtheory List Lia Bool.
From Verif Require Import S_Fp M_Utils64 M_Consts M_Fp L_Words L_Bits L_Lzcnt L_Fp L_FpOps L_BinGcd L_DivWords L_Prime L_FpRoots.
Import ListNotations.
Open Scope Z_scope.

(** what one outer iteration computes, over the integers *)
Record ostate (X Y s : Z) (a b u v : fp) : Prop := Ost {
  o_wa : words a; o_la : length a = NLIMBS; o_wb : words b; o_lb : length b = NLIMBS;
  o_a : eval a <= P; o_b : eval b <= P; o_odd : eval b mod 2 = 1; o_u : canon u; o_v : canon v;
  o_ra : cg (eval a * X) (eval u * Y * s); o_rb : cg (eval b * X) (eval v * Y * s) }.

Lemma good_div A B xa xb : good_approx A B xa xb -> (2 ^ 31 | A - xa) /\ (2 ^ 31 | B - xb).
Proof.
  intros [[-> ->]|(n & _ & _ & _ & H1 & H2 & _)]; auto. rewrite !Z.sub_diag. split; apply Z.divide_0_r.
Qed.
Lemma good_shrinks A B xa xb : 0 <= A -> 0 <= B -> B mod 2 = 1 -> 0 <= xa -> 0 <= xb -> good_approx A B xa xb ->
  let s := grun 31 (ginit xa xb A B) in ga s = 0 \/ bitlength (Z.abs (ga s)) + bitlength (Z.abs (gb s)) <= sumlen A B - 31.
Proof.
  intros HA HB Hb Hxa Hxb [[-> ->]|(n & H1 & H2 & H3 & H4 & H5 & H6 & H7)].
  - destruct (exact_shrinks A B 31 HA HB Hb) as (E1 & E2 & E3). cbv zeta. rewrite !Z.abs_eq by auto. exact E3.
  - apply (approx_shrinks A B xa xb n); auto.
Qed.

Lemma cg_pow2_cancel k : 0 <= k -> forall x y, cg (2 ^ k * x) (2 ^ k * y) -> cg x y.
Proof.
  intros Hk. pattern k. apply natlike_ind; auto.
  - intros x y H. rewrite Z.pow_0_r, !Z.mul_1_l in H. exact H.
  - intros z Hz IH x y H. apply IH. apply cg_2_inv. rewrite Z.pow_succ_r in H by lia. rewrite !Z.mul_assoc. exact H.
Qed.

Lemma sgn_scale (neg : bool) q : neg = (q <? 0) -> Z.abs q = sg neg * q.
Proof. intros ->. unfold sg. destruct (Z.ltb_spec q 0); lia. Qed.

(* one of the two new rows *)
Lemma row_update X Y s a b u v f g : ostate X Y s a b u v -> Z.abs f + Z.abs g <= 2147483648 ->
  forall w, 2147483648 * w = f * eval a + g * eval b ->
  exists r, lindiv31abs a b (rep f) (rep g) = (r, msk (w <? 0)) /\ words r /\ length r = NLIMBS /\ eval r = Z.abs w /\
  let nf := wsub (Z.lxor (rep f) (msk (w <? 0))) (msk (w <? 0)) in let ng := wsub (Z.lxor (rep g) (msk (w <? 0))) (msk (w <? 0)) in
  canon (set_montylin u v nf ng) /\ cg (eval r * X) (eval (set_montylin u v nf ng) * Y * (s * 2 ^ 33)).
Proof.
  intros [Wa La Wb Lb Ba Bb Ho Cu Cv Ra Rb] Hfg w Hw. pose proof P_WN as PW.
  pose proof (eval_bound a Wa) as Pa. pose proof (eval_bound b Wb) as Pb.
  destruct (lindiv31abs_ok a b f g Wa Wb La Lb Hfg) as (r & E & Wr & Lr & Er); try lia.
  { exists w. lia. }
  rewrite <- Hw in E, Er. rewrite (Z.mul_comm 2147483648), Z.div_mul in E, Er by lia.
  exists r. split; auto. split; auto. split; auto. split; auto. cbv zeta. 
  pose proof (cneg_rep f (w <? 0)) as C1. pose proof (cneg_rep g (w <? 0)) as C2. cbv zeta in C1, C2. fold (msk (w <? 0)) in C1, C2. rewrite C1, C2.
  set (f' := if w <? 0 then - f else f). set (g' := if w <? 0 then - g else g).
  destruct (set_montylin_ok u v f' g' Cu Cv) as [M1 M2].
  { unfold f', g'. destruct (w <? 0); lia. }
  split; auto. set (r' := set_montylin u v (rep f') (rep g')) in *.
  apply (cg_pow2_cancel 31); [lia|].
  assert (Ew : 2 ^ 31 * eval r = f' * eval a + g' * eval b).
  { rewrite Er. change (2 ^ 31) with 2147483648. unfold f', g'. destruct (Z.ltb_spec w 0); lia. }
  replace (2 ^ 31 * (eval r * X)) with ((2 ^ 31 * eval r) * X) by ring. rewrite Ew.
  replace (2 ^ 31 * (eval r' * Y * (s * 2 ^ 33))) with (W64 * eval r' * Y * s) by (change W64 with (2 ^ 31 * 2 ^ 33); ring).
  rewrite M2. replace ((f' * eval a + g' * eval b) * X) with (f' * (eval a * X) + g' * (eval b * X)) by ring.
  rewrite Ra, Rb. replace (f' * (eval u * Y * s) + g' * (eval v * Y * s)) with ((f' * eval u + g' * eval v) * Y * s) by ring. reflexivity.
Qed.

Lemma outer_step_ok X Y s a b u v : ostate X Y s a b u v ->
  exists a' b' u' v', outer_step (a, b, u, v) = (a', b', u', v') /\ ostate X Y (s * 2 ^ 33) a' b' u' v' /\
  (Z.gcd (eval a) (eval b) = 1 -> Z.gcd (eval a') (eval b') = 1 /\
     bitlength (eval a') + bitlength (eval b') <= Z.max (bitlength (eval a) + bitlength (eval b) - 31) 1).
Proof.
  intros O. pose proof O as [Wa La Wb Lb Ba Bb Ho Cu Cv Ra Rb]. unfold outer_step.
  destruct (approx a b) as [xa xb] eqn:EA. apply approx_ok in EA as (Wxa & Wxb & GA); auto; [|congruence|intros ->; discriminate La].
  pose proof (eval_bound a Wa) as [Pa _]. pose proof (eval_bound b Wb) as [Pb _].
  set (st := ginit xa xb (eval a) (eval b)).
  change (xa, xb, 1, wshl 1 32) with (packed st). rewrite inner_run by (split; auto).
  destruct (good_div _ _ _ _ GA) as [Da Db].
  pose proof (core_run 31 (eval a) (eval b) xa xb 31 (proj1 Wxa) (proj1 Wxb) Ho Da Db ltac:(lia)) as C.
  pose proof (good_shrinks (eval a) (eval b) xa xb Pa Pb Ho (proj1 Wxa) (proj1 Wxb) GA) as SH.
  pose proof (run_gcd 31 (eval a) (eval b) xa xb 31 (proj1 Wxa) (proj1 Wxb) Ho Da Db ltac:(lia)) as GC.
  pose proof (run_bound 31 (eval a) (eval b) xa xb 31 Pa Pb (proj1 Wxa) (proj1 Wxb) Ho Da Db ltac:(lia)) as BD.
  cbv zeta in SH, GC, BD. fold st in C, SH, GC, BD. change (Z.of_nat 31) with 31 in C.
  set (t := grun 31 st) in *. clearbody t. unfold packed.
  destruct C as [_ _ _ _ Co Cla Clb Cn0 Cn1 Cl0 Cl1 _]. change (2 ^ 31) with 2147483648 in *.
  rewrite !unpack_lane by lia.
  destruct (row_update X Y s a b u v (gf0 t) (gg0 t) O Cn0 (ga t) Cla) as (ra & E1 & W1 & L1 & V1 & M1 & R1).
  destruct (row_update X Y s a b u v (gf1 t) (gg1 t) O Cn1 (gb t) Clb) as (rb & E2 & W2 & L2 & V2 & M2 & R2).
  rewrite E1, E2. cbv zeta in *. do 4 eexists. split; [reflexivity|].
  assert (HM : mx (eval a) (eval b) <= P) by (unfold mx; lia).
  split.
  - constructor; auto; lia.
  - intros Hg. rewrite V1, V2. specialize (GC Hg). rewrite Z.gcd_abs_l, Z.gcd_abs_r. split; auto.
    unfold sumlen in SH. destruct SH as [Z0|SH]; [|lia].
    rewrite Z0 in GC. rewrite Z.gcd_0_l in GC. rewrite Z0, GC. change (bitlength (Z.abs 0) + bitlength 1) with 1. lia.
Qed.

Lemma outer_run_ok X Y k : forall s a b u v, ostate X Y s a b u v ->
  exists a' b' u' v', iter k outer_step (a, b, u, v) = (a', b', u', v') /\ ostate X Y (s * 2 ^ (33 * Z.of_nat k)) a' b' u' v' /\
  (Z.gcd (eval a) (eval b) = 1 -> Z.gcd (eval a') (eval b') = 1 /\
     bitlength (eval a') + bitlength (eval b') <= Z.max (bitlength (eval a) + bitlength (eval b) - 31 * Z.of_nat k) 1).
Proof.
  induction k as [|k IH]; intros s a b u v O.
  - exists a, b, u, v. split; [reflexivity|]. change (2 ^ (33 * Z.of_nat 0)) with 1. rewrite Z.mul_1_r. split; auto. intros H; split; auto. lia.
  - rewrite iter_end. destruct (IH s a b u v O) as (a1 & b1 & u1 & v1 & E1 & O1 & G1). rewrite E1.
    destruct (outer_step_ok X Y _ _ _ _ _ O1) as (a2 & b2 & u2 & v2 & E2 & O2 & G2). exists a2, b2, u2, v2. split; auto. split.
    + replace (33 * Z.of_nat (S k)) with (33 * Z.of_nat k + 33) by lia. rewrite Z.pow_add_r by lia. rewrite Z.mul_assoc. exact O2.
    + intros H. destruct (G1 H) as [H1 H2]. destruct (G2 H1) as [H3 H4]. split; auto. lia.
Qed.

(** the last loop, on single words *)
Lemma final_loop_ok xa xb : word xa -> word xb -> xb mod 2 = 1 ->
  exists z f1 g1, (exists q, iter NUM2 final_step (xa, xb, 1, 0, 0, 1) = (q, rep f1, rep g1) ) /\ Z.abs f1 + Z.abs g1 <= 2 ^ 42 /\
  2 ^ 42 * z = f1 * xa + g1 * xb /\ (Z.gcd xa xb = 1 -> bitlength xa + bitlength xb <= 44 -> z = 1).
Proof.
  intros Wa Wb Ho. set (st := ginit xa xb xa xb).
  change (xa, xb, 1, 0, 0, 1) with (split6 st). rewrite final_run by (split; auto).
  assert (D : forall x J, (2 ^ J | x - x)) by (intros; rewrite Z.sub_diag; apply Z.divide_0_r).
  change NUM2 with 42%nat.
  pose proof (core_run 42 xa xb xa xb 42 (proj1 Wa) (proj1 Wb) Ho (D _ _) (D _ _) ltac:(lia)) as C.
  destruct (exact_shrinks xa xb 42 (proj1 Wa) (proj1 Wb) Ho) as (X1 & X2 & X3).
  pose proof (run_gcd 42 xa xb xa xb 42 (proj1 Wa) (proj1 Wb) Ho (D _ _) (D _ _) ltac:(lia)) as GC. cbv zeta in *.
  fold st in C, X1, X2, X3, GC. set (t := grun 42 st) in *. clearbody t. unfold split6.
  destruct C as [_ _ _ _ Co Cla Clb Cn0 Cn1 Cl0 Cl1 _]. change (Z.of_nat 42) with 42 in *.
  exists (gb t), (gf1 t), (gg1 t). split; [eexists; reflexivity|]. split; auto. split; auto.
  intros Hg HL. specialize (GC Hg). unfold sumlen in X3.
  assert (Z0 : ga t = 0 -> gb t = 1).
  { intros Z0. rewrite Z0, Z.gcd_0_l, Z.abs_eq in GC by auto. exact GC. }
  destruct X3 as [X3|X3]; auto.
  destruct (Z.eq_dec (ga t) 0) as [|N]; auto.
  pose proof (bl_pos (ga t) ltac:(lia)). assert (0 < gb t) by (clear - Co X2; Z.div_mod_to_equations; lia).
  assert (B1 : bitlength (gb t) <= 1) by lia. apply bl_lt in B1; lia.
Qed.

Lemma fix_div : cg (eval TFIXDIV_VAL * 2 ^ 42) (W64 * 2 ^ (33 * Z.of_nat NUM1) * WN * WN).
Proof. apply cg_mod. vm_compute. reflexivity. Qed.

Lemma NUM1_eq : NUM1 = 82%nat. Proof. reflexivity. Qed.
Lemma bl_P : bitlength P = 1293. Proof. vm_compute. reflexivity. Qed.
Lemma words_small_eval l : words l -> l <> [] -> eval l < W64 -> limb l 0 = eval l.
Proof. intros H Hn HL. destruct (limb0_mod l H Hn) as [E _]. rewrite E. apply Z.mod_small. pose proof (eval_bound l H). lia. Qed.

Lemma set_div_ok x y : canon x -> canon y ->
  canon (set_div x y) /\ (val y = 0 -> val (set_div x y) = 0) /\ (val y <> 0 -> (val (set_div x y) * val y) mod P = val x).
Proof.
  intros Hx Hy. destruct (canon_inv y Hy) as (Ly & Wy & By). pose proof P_odd as PO.
  assert (O : ostate (eval x) (eval y) 1 y MODULUS x fp_zero).
  { constructor; auto; rewrite ?eval_MODULUS; try lia.
    - apply words_MODULUS.
    - rewrite Z.mul_1_r. rewrite (Z.mul_comm (eval y)). reflexivity.
    - exists (eval x). unfold fp_zero. rewrite eval_repeat0. ring. }
  unfold set_div. destruct (outer_run_ok (eval x) (eval y) NUM1 1 y MODULUS x fp_zero O) as (a & b & u & v & E & O' & G).
  rewrite E. destruct O' as [Wa La Wb Lb Ba Bb Ho Cu Cv Ra Rb].
  destruct (limb0_mod a Wa) as [Ea Wa0]; [intros ->; discriminate La|]. destruct (limb0_mod b Wb) as [Eb Wb0]; [intros ->; discriminate Lb|].
  assert (Hb0 : limb b 0 mod 2 = 1).
  { rewrite Eb. clear - Ho. revert Ho. generalize (eval b). unfold W64. intros z Hz. Z.div_mod_to_equations. lia. }
  destruct (final_loop_ok (limb a 0) (limb b 0) Wa0 Wb0 Hb0) as (z & f1 & g1 & ([[[q1 q2] q3] q4] & EF) & NF & LF & GF). rewrite EF.
  destruct (set_montylin_ok u v f1 g1 Cu Cv ltac:(lia)) as [CM RM]. set (r := set_montylin u v (rep f1) (rep g1)) in *. clearbody r.
  rewrite iszero_canon by auto.
  assert (Ew : Z.lor (wshl (wnot32 (mask32 (val y =? 0))) 32) (wnot32 (mask32 (val y =? 0))) = if val y =? 0 then 0 else W64 - 1) by (destruct (val y =? 0); reflexivity).
  rewrite Ew. destruct (Z.eqb_spec (val y) 0) as [Z0|N0].
  - destruct (canon_inv r CM) as (Lr & _). rewrite masked_zero, Lr. change (repeat 0 NLIMBS) with fp_zero.
    assert (val (set_mul fp_zero TFIXDIV_VAL) = 0) by (rewrite val_mul by (try apply canon_zero; try apply canon_TFIXDIV); rewrite val_zero; reflexivity).
    split; [apply canon_mul; [apply canon_zero|apply canon_TFIXDIV]|]. split; intros; [assumption|contradiction].
  - destruct (canon_inv r CM) as (Lr & Wr & _). rewrite masked_ones by auto. split; [apply canon_mul; auto; apply canon_TFIXDIV|].
    split; [intros; contradiction|]. intros _.
    assert (Ny : eval y <> 0).
    { intros E0. apply N0. unfold val. rewrite E0. reflexivity. }
    assert (HG : Z.gcd (eval y) (eval MODULUS) = 1).
    { rewrite eval_MODULUS. rewrite Z.gcd_comm. apply Zgcd_1_rel_prime. apply rel_prime_sym. apply rel_prime_le_prime; [apply P_prime|lia]. }
    destruct (G HG) as [G1 G2]. rewrite eval_MODULUS, bl_P, NUM1_eq in G2.
    assert (By2 : bitlength (eval y) <= 1293) by (rewrite <- bl_P; apply bl_le; lia).
    assert (G3 : bitlength (eval a) + bitlength (eval b) <= 44) by (clear - G2 By2; lia).
    pose proof (eval_bound a Wa) as [Pa _]. pose proof (eval_bound b Wb) as [Pb _].
    assert (Sm : forall w, 0 <= w -> bitlength w <= 44 -> w < W64).
    { intros w Hw Hw'. apply bl_lt in Hw'; [|auto|lia]. apply Z.lt_trans with (1 := Hw'). reflexivity. }
    pose proof (bl_nonneg (eval a)) as Na. pose proof (bl_nonneg (eval b)) as Nb.
    assert (Ha44 : bitlength (eval a) <= 44) by (clear - G3 Nb; lia). assert (Hb44 : bitlength (eval b) <= 44) by (clear - G3 Na; lia).
    assert (Ea' : limb a 0 = eval a) by (rewrite Ea; apply Z.mod_small; split; [exact Pa|exact (Sm _ Pa Ha44)]).
    assert (Eb' : limb b 0 = eval b) by (rewrite Eb; apply Z.mod_small; split; [exact Pb|exact (Sm _ Pb Hb44)]).
    rewrite Ea', Eb' in *. specialize (GF G1 G3). rewrite GF, Z.mul_1_r in LF.
    destruct (set_mul_canon r TFIXDIV_VAL CM canon_TFIXDIV) as [_ RT]. set (res := set_mul r TFIXDIV_VAL) in *. clearbody res.
    assert (K : cg (eval res * eval y) (eval x * WN)).
    { rewrite Z.mul_1_l in Ra, Rb. set (s := 2 ^ (33 * Z.of_nat NUM1)) in *.
      assert (K1 : cg (W64 * eval r * eval y * s) (2 ^ 42 * eval x)).
      { rewrite RM, LF. replace ((f1 * eval u + g1 * eval v) * eval y * s) with (f1 * (eval u * eval y * s) + g1 * (eval v * eval y * s)) by ring.
        rewrite <- Ra, <- Rb. replace ((f1 * eval a + g1 * eval b) * eval x) with (f1 * (eval a * eval x) + g1 * (eval b * eval x)) by ring. reflexivity. }
      assert (K2 : cg (2 ^ (64 + 33 * Z.of_nat NUM1 + 1344) * (eval res * eval y)) (2 ^ (64 + 33 * Z.of_nat NUM1 + 1344) * (eval x * WN))).
      { assert (Hn : 0 <= 33 * Z.of_nat NUM1) by (clear; rewrite NUM1_eq; discriminate). rewrite !(Z.pow_add_r 2) by (clear - Hn; set (nn := Z.of_nat NUM1) in *; clearbody nn; lia). fold s. change (2 ^ 64) with W64. replace (2 ^ 1344) with WN by (rewrite WN_RR; reflexivity).
        replace (W64 * s * WN * (eval res * eval y)) with ((eval res * WN) * (W64 * s * eval y)) by ring. rewrite RT.
        replace (eval r * eval TFIXDIV_VAL * (W64 * s * eval y)) with ((W64 * eval r * eval y * s) * eval TFIXDIV_VAL) by ring. rewrite K1.
        replace (2 ^ 42 * eval x * eval TFIXDIV_VAL) with (eval x * (eval TFIXDIV_VAL * 2 ^ 42)) by ring. rewrite fix_div.
        fold s. replace (eval x * (W64 * s * WN * WN)) with (W64 * s * WN * (eval x * WN)) by ring. reflexivity. }
      apply cg_pow2_cancel in K2; auto. clear. rewrite NUM1_eq. lia. }
    pose proof (val_range x) as Vx. apply cg_small; try (apply Z.mod_pos_bound; apply P_pos); auto.
    rewrite cg_mod_l.
    apply (cg_pow2_cancel 1344); [lia|]. apply (cg_pow2_cancel 1344); [lia|]. replace (2 ^ 1344) with WN by (rewrite WN_RR; reflexivity).
    replace (WN * (WN * (val res * val y))) with ((val res * WN) * (val y * WN)) by ring. rewrite !val_cg, K.
    replace (WN * (WN * val x)) with ((val x * WN) * WN) by ring. rewrite val_cg. reflexivity.
Qed.
