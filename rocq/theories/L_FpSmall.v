(** Multiplication by a small integer and the fused products. *)
From Coq Require Import ZArith List Lia Bool Setoid Morphisms.
From Verif Require Import S_Fp M_Utils64 M_Consts M_Fp L_Words L_Bits L_Fp L_FpOps.
Import ListNotations.
Open Scope Z_scope.
Ltac Zify.zify_post_hook ::= Z.div_mod_to_equations.

(** ** mul_small *)
Lemma small_prod_ok a ak : words a -> word ak -> a <> [] ->
  forall d e, small_prod a ak = (d, e) ->
  eval d + Wn (length a) * e = eval a * ak /\ words d /\ length d = length a /\ word e.
Proof.
  intros Ha Hk Hn d e E. destruct a as [|a0 a]; [congruence|]. apply words_cons in Ha as [Ha0 Ha].
  unfold small_prod in E. destruct (umull a0 ak) as [d0 h0] eqn:E0. apply umull_spec in E0; auto.
  destruct E0 as (E0 & Hd0 & Hh0).
  destruct (row_first ak a h0) as [ds co] eqn:E1. apply row_first_spec in E1; auto.
  destruct E1 as (E1 & Hds & Hl & Hco). injection E as <- <-.
  split; [|split; [apply words_cons; auto|split; [cbn [length]; congruence|auto]]].
  cbn [length]. rewrite Wn_S, !eval_cons. unfold W64 in *. nia.
Qed.

(** Granlund-Montgomery division of a 64-bit word by P1. *)
Lemma gm_div x1 : 0 <= x1 < 9223372036854775808 ->
  let '(_, t) := umull x1 P1DIV_M in
  Z.shiftr (wadd (Z.shiftr (wsub x1 t) 1) t) 31 = x1 / P1.
Proof.
  intros Hx. unfold umull. rewrite shiftr64. rewrite !Z.shiftr_div_pow2 by lia.
  unfold wadd, wsub. rewrite !lo64_mod. change (2 ^ 1) with 2. change (2 ^ 31) with 2147483648.
  unfold P1, P1DIV_M, W64. lia.
Qed.

Lemma submul_loop_ok b a : forall m c1 c2, word b -> words a -> words m -> length a = length m -> word c1 -> bit c2 ->
  forall d e1 e2, submul_loop b a m c1 c2 = (d, e1, e2) ->
  eval d - Wn (length a) * (e1 + e2) = eval a - b * eval m - c1 - c2 /\ words d /\ length d = length a /\ word e1 /\ bit e2.
Proof.
  induction a as [|x a IH]; intros [|y m] c1 c2 Hb Ha Hm Hl Hc1 Hc2 d e1 e2 E; cbn [length] in Hl; try discriminate.
  - cbn in E. injection E as <- <- <-. cbn [eval length Wn]. split; [lia|auto].
  - cbn [submul_loop] in E. apply words_cons in Ha as [Hx Ha]. apply words_cons in Hm as [Hy Hm]. injection Hl as Hl.
    destruct (umull_add b y c1) as [d0 h0] eqn:E0. apply umull_add_spec in E0; auto. destruct E0 as (E0 & Hd0 & Hh0).
    destruct (subborrow_u64 x d0 c2) as [d1 h1] eqn:E1. apply subborrow_spec in E1; auto. destruct E1 as (E1 & Hd1 & Hh1).
    destruct (submul_loop b a m h0 h1) as [[ds q1] q2] eqn:E2. injection E as <- <- <-.
    destruct (IH m h0 h1 Hb Ha Hm Hl Hh0 Hh1 _ _ _ E2) as (K1 & K2 & K3 & K4 & K5).
    split; [|split; [apply words_cons; auto|split; [cbn [length]; congruence|auto]]].
    cbn [length]. rewrite Wn_S, !eval_cons. unfold W64 in *. nia.
Qed.

Lemma addback_zero x : words x -> length x = NLIMBS -> addback (x, 0) = (x, 0).
Proof.
  intros Hx Hl. unfold addback. change (sgnw 0) with 0. rewrite masked_zero, len_MODULUS.
  destruct (add_loop x (repeat 0 NLIMBS) 0) as [d e] eqn:E.
  apply add_loop_spec in E; auto; [|unfold bit; lia].
  destruct E as (E & Hd & Hld & He). rewrite eval_repeat0 in E.
  pose proof (eval_bound x Hx). pose proof (eval_bound d Hd). rewrite Hld in *.
  assert (e = 0) by (bitcase He; lia). subst e.
  assert (d = x) by (apply eval_inj; auto; lia). subst d. reflexivity.
Qed.

Lemma addback_neg x y : words x -> length x = NLIMBS -> eval x - WN = y -> - P <= y < 0 ->
  exists x', addback (x, W64 - 1) = (x', 0) /\ words x' /\ length x' = NLIMBS /\ eval x' = y + P.
Proof.
  intros Hx Hl Hy Hr. unfold addback. change (sgnw (W64 - 1)) with (W64 - 1).
  rewrite masked_ones by apply words_MODULUS.
  destruct (add_loop x MODULUS 0) as [d e] eqn:E.
  apply add_loop_spec in E; auto; [|apply words_MODULUS|unfold bit; lia].
  destruct E as (E & Hd & Hld & He). rewrite eval_MODULUS, Hl, WN_eq in *.
  pose proof (eval_bound_N d Hd Hld). pose proof P_WN.
  assert (e = 1) by (bitcase He; lia). subst e.
  exists d. split; [reflexivity|]. repeat split; auto. lia.
Qed.

#[local] Transparent P.
Lemma P_top : exists p0, P = P1 * 2 ^ 1261 + p0 /\ 0 <= p0 < 2 ^ 1261.
Proof. exists (P mod 2 ^ 1261). vm_compute. intuition congruence. Qed.
#[local] Opaque P.

Lemma pow2_split : 2 ^ 1280 = 2 ^ 19 * 2 ^ 1261 /\ 2 ^ 1261 = 2 ^ 45 * 2 ^ 1216 /\ Wn 20 = 2 ^ 1280 /\ Wn 19 = 2 ^ 1216.
Proof. vm_compute. auto. Qed.

(** The top word extracted from the 21 limbs of x < 2^1324 is floor(x / 2^1261). *)
Lemma top_word_ok x : words x -> length x = NLIMBS -> eval x < 2 ^ 44 * 2 ^ 1280 ->
  top_word x 0 = eval x / 2 ^ 1261.
Proof.
  intros Hx Hl Hb.
  assert (Esplit : exists lo w19 w20, x = lo ++ [w19; w20] /\ length lo = 19%nat).
  { rewrite <- (firstn_skipn 19 x). 
    assert (L : length (skipn 19 x) = 2%nat) by (rewrite skipn_length, Hl; reflexivity).
    destruct (list_cons_len _ _ L) as (u & r & Eu & Hr). destruct (list_cons_len _ _ Hr) as (v & r' & Ev & Hr').
    destruct r'; [|discriminate]. exists (firstn 19 x), u, v. split; [congruence|].
    rewrite firstn_length, Hl. reflexivity. }
  destruct Esplit as (lo & u & v & -> & Hlo).
  apply words_app in Hx as [Hw Huv]. apply words_cons in Huv as [Hu Hv]. apply words_cons in Hv as [Hv _].
  unfold top_word, limb. change (Z.land BITLEN 63) with 13. cbn [Z.eqb Z.ltb Z.compare Pos.compare Pos.compare_cont].
  rewrite !app_nth2 by (rewrite Hlo; cbn; lia). rewrite Hlo.
  change (NLIMBS - 1 - 19)%nat with 1%nat. change (NLIMBS - 2 - 19)%nat with 0%nat. cbn [nth].
  rewrite eval_app in *. rewrite Hlo in *. cbn [eval] in *.
  pose proof (eval_bound lo Hw) as Bl. rewrite Hlo in Bl.
  destruct pow2_split as (S1 & S2 & S3 & S4).
  set (E0 := eval lo) in *. rewrite S4 in *. set (Q := 2 ^ 1216) in *.
  assert (HQ : 0 < Q) by (unfold Q; apply Z.pow_pos_nonneg; lia).
  change (Wn 20) with (W64 * Wn 19) in S3. rewrite S4 in S3.
  assert (Hv44 : v < 2 ^ 44).
  { rewrite <- S3 in Hb. unfold word in Hu, Hv. assert (0 <= Q * u) by (apply Z.mul_nonneg_nonneg; lia).
    assert (S : W64 * Q * v < W64 * Q * 2 ^ 44) by (unfold W64 in *; lia).
    apply Z.mul_lt_mono_pos_l in S; [auto|unfold W64; lia]. }
  change (32 - 13) with 19. change (32 + 13) with 45.
  unfold wshl. rewrite lo64_mod, Z.shiftl_mul_pow2, Z.shiftr_div_pow2 by lia.
  rewrite Z.mod_small by (unfold word in Hv; unfold W64; change (2^19) with 524288; change (2^44) with 17592186044416 in Hv44; lia).
  unfold word in Hu, Hv.
  rewrite lor_shift_add; [|lia|change (2^45) with 35184372088832; change (2^19) with 524288; lia].
  rewrite S2. rewrite (Z.mul_comm (2 ^ 45)), <- Z.div_div by (try lia; reflexivity).
  replace (E0 + Q * (u + 18446744073709551616 * (v + 18446744073709551616 * 0)))
    with (E0 + (u + 18446744073709551616 * v) * Q) by ring.
  rewrite Z.div_add, (Z.div_small E0 Q) by lia.
  change (2^45) with 35184372088832; change (2^19) with 524288. lia.
Qed.

Lemma set_mul_small_abs a k : canon a -> -2147483648 <= k < 2147483648 ->
  exists r, canon r /\ cg (eval r) (eval a * Z.abs k) /\ set_mul_small a k = (if k <? 0 then set_neg r else r).
Proof.
  intros Ha Hk. apply canon_inv in Ha as (Hl & Hw & Hb).
  unfold set_mul_small. destruct (sign_mask32 k Hk) as [E1 E2]. rewrite E1, E2.
  assert (Hak : 0 <= Z.abs k <= 2147483648) by lia. set (ak := Z.abs k) in *.
  destruct (small_prod a ak) as [x hi] eqn:E3.
  apply small_prod_ok in E3; auto; [|unfold word; lia|intros ->; discriminate].
  destruct E3 as (E3 & Hx & Hlx & Hhi). rewrite Hl, WN_eq in *.
  pose proof (eval_bound_N x Hx Hlx) as Bx. pose proof P_bits_hi as Bp. pose proof P_pos.
  assert (Bprod : 0 <= eval a * ak <= P * 2147483648 - 2147483648) by nia.
  destruct pow2_split as (S1 & S2 & S3 & S4).
  assert (EW : WN = W64 * 2 ^ 1280) by (rewrite <- S3; reflexivity).
  assert (E1293 : 2 ^ 1293 = 8192 * 2 ^ 1280) by reflexivity. rewrite E1293 in Bp.
  assert (HQ : 0 < 2 ^ 1261) by (apply Z.pow_pos_nonneg; lia).
  change (2 ^ 19) with 524288 in S1.
  destruct P_top as (p0 & EP & Hp0).
  pose proof (top_word_ok x Hx Hlx) as TW. change (2 ^ 44) with 17592186044416 in TW.
  clear S2 S3 S4 E1293.
  set (QQ := 2 ^ 1280) in *. set (M := 2 ^ 1261) in *. clearbody QQ M.
  assert (Hhi0 : hi = 0).
  { unfold word in Hhi. unfold W64 in EW. nia. }
  subst hi. rewrite Z.mul_0_r, Z.add_0_r in E3.
  rewrite TW by (rewrite E3; lia). clear TW. set (X := eval x) in *. set (x1 := X / M).
  assert (Hx1 : X = x1 * M + X mod M /\ 0 <= X mod M < M) by (unfold x1; pose proof (Z_div_mod_eq_full X M); pose proof (Z.mod_pos_bound X M HQ); lia).
  destruct Hx1 as [EX Hx0]. set (x0 := X mod M) in *.
  assert (Hx1b : 0 <= x1 < 9223372036854775808).
  { unfold P1 in EP. nia. }
  pose proof (gm_div x1 Hx1b) as GM. destruct (umull x1 P1DIV_M) as [junk t]. rewrite GM.
  set (b := x1 / P1).
  assert (Hb1 : b * P1 <= x1 < (b + 1) * P1) by (unfold b, P1; lia).
  assert (Hb2 : 0 <= b <= 2147483649).
  { split; [unfold b, P1; lia|].
    assert (x1 * M < 2147483648 * ((P1 + 1) * M)) by nia.
    assert (x1 < 2147483648 * (P1 + 1)) by nia. unfold P1 in *. nia. }
  assert (Eb : lo64 (b + Z.shiftr (wsub P1 b) 63) = b).
  { rewrite lo64_mod, shiftr63. unfold wsub. rewrite lo64_mod. unfold P1, W64. lia. }
  rewrite Eb. clear Eb GM.
  assert (Hy : - P <= X - b * P < P).
  { split.
    - (* b*P <= b*(P1+1)*M <= x1*M + b*M *)
      assert (b * P <= b * ((P1 + 1) * M)) by (apply Z.mul_le_mono_nonneg_l; nia).
      assert (b * P1 * M <= x1 * M) by (apply Z.mul_le_mono_nonneg_r; lia).
      assert (b * M <= 2147483649 * M) by (apply Z.mul_le_mono_nonneg_r; lia).
      assert (2147483649 * M <= P1 * M) by (apply Z.mul_le_mono_nonneg_r; [lia|unfold P1; lia]). lia.
    - assert ((x1 + 1) * M <= (b + 1) * P1 * M) by (apply Z.mul_le_mono_nonneg_r; lia).
      assert ((b + 1) * (P1 * M) <= (b + 1) * P) by (apply Z.mul_le_mono_nonneg_l; lia).
      lia. }
  destruct (submul_loop b x MODULUS 0 0) as [[x2 c1] c2] eqn:E4.
  apply submul_loop_ok in E4; auto; try apply words_MODULUS; [|unfold word; lia|unfold bit; lia].
  destruct E4 as (E4 & Hx2 & Hl2 & Hc1 & Hc2). rewrite eval_MODULUS, Hlx, WN_eq in *.
  pose proof (eval_bound_N x2 Hx2 Hl2). pose proof P_WN.
  destruct (subborrow_u64 0 c1 c2) as [hi bo] eqn:E5. apply subborrow_spec in E5; auto. destruct E5 as (E5 & Hhi' & Hbo).
  assert (Hs : 0 <= c1 + c2 <= 1).
  { unfold word, bit in *. nia. }
  assert (R : exists r, canon r /\ cg (eval r) (eval a * ak) /\ exists h, iter 2 addback (x2, hi) = (r, h)).
  { cbn [iter]. destruct (Z.eq_dec (c1 + c2) 0) as [Z0|Z1].
    - assert (hi = 0) by (unfold word, bit, W64 in *; lia). subst hi. rewrite Z0 in E4.
      rewrite !addback_zero by auto. exists x2. 
      split; [repeat split; auto; lia|]. split; [|eauto].
      rewrite <- E3. fold X. exists (- b). lia.
    - assert (hi = W64 - 1) by (unfold word, bit, W64 in *; lia). subst hi.
      assert (Ec : c1 + c2 = 1) by lia. rewrite Ec in E4.
      destruct (addback_neg x2 (X - b * P) Hx2 Hl2) as (x3 & -> & Hx3 & Hl3 & E6).
      { fold X in E4. lia. }
      { fold X in E4. lia. }
      rewrite addback_zero by auto. exists x3.
      split; [repeat split; auto|].
      { rewrite E6. fold X in E4. lia. }
      split; [|eauto]. rewrite E6, <- E3. fold X. exists (1 - b). ring. }
  destruct R as (r & Hr & Hcg & h & ->). exists r. split; auto. split; auto.
  apply set_condneg_mask. auto.
Qed.

Lemma set_mul_small_ok a k : canon a -> -2147483648 <= k < 2147483648 ->
  canon (set_mul_small a k) /\ val (set_mul_small a k) = (val a * k) mod P.
Proof.
  intros Ha Hk. destruct (set_mul_small_abs a k Ha Hk) as (r & Hr & Hcg & ->).
  assert (Ev : val r = (val a * Z.abs k) mod P).
  { apply val_from_cg. rewrite Hcg, <- (val_cg a). exists 0. lia. }
  destruct (Z.ltb_spec k 0); split; auto.
  - rewrite val_neg, Ev by auto. apply cg_mod. rewrite cg_mod_l. exists 0. nia.
  - rewrite Ev. f_equal. nia.
Qed.

(** ** Fused products *)
Lemma row_acc_ok f b u : word f -> words b -> words u -> length b = length u -> b <> [] ->
  forall d e, row_acc f b u = (d, e) ->
  eval d + Wn (length b) * e = f * eval b + eval u /\ words d /\ length d = length b /\ word e.
Proof.
  intros Hf Hb Hu Hl Hn d e E. destruct b as [|b0 b]; [congruence|]. destruct u as [|u0 u]; [discriminate|].
  apply words_cons in Hb as [Hb0 Hb]. apply words_cons in Hu as [Hu0 Hu]. injection Hl as Hl.
  unfold row_acc in E. destruct (umull_add f b0 u0) as [d0 c0] eqn:E0. apply umull_add_spec in E0; auto.
  destruct E0 as (E0 & Hd0 & Hc0).
  destruct (row_add2 f b u c0) as [ds co] eqn:E1. apply row_add2_spec in E1; auto.
  destruct E1 as (E1 & Hds & Hlds & Hco). injection E as <- <-.
  split; [|split; [apply words_cons; auto|split; [cbn [length]; congruence|auto]]].
  cbn [length]. rewrite Wn_S, !eval_cons. unfold W64 in *. nia.
Qed.

Lemma sop_step_ok b1 b2 u x y : words b1 -> words b2 -> words u -> word x -> word y ->
  length b1 = NLIMBS -> length b2 = NLIMBS -> length u = NLIMBS ->
  eval b1 <= P -> eval b2 <= P -> eval u <= 3 * P ->
  words (sop_step b1 b2 u x y) /\ length (sop_step b1 b2 u x y) = NLIMBS /\
  eval (sop_step b1 b2 u x y) <= 3 * P /\
  exists k, 0 <= k < W64 /\ W64 * eval (sop_step b1 b2 u x y) = eval u + x * eval b1 + y * eval b2 + k * P.
Proof.
  intros Hb1 Hb2 Hu Hx Hy L1 L2 Lu B1 B2 Bu. unfold sop_step.
  destruct (row_acc x b1 u) as [u1 c1] eqn:E1. apply row_acc_ok in E1; auto; [|congruence|intros ->; discriminate].
  destruct E1 as (E1 & Hu1 & Lu1 & Hc1). rewrite L1 in *.
  destruct (row_acc y b2 u1) as [u2 c2] eqn:E2. apply row_acc_ok in E2; auto; [|congruence|intros ->; discriminate].
  destruct E2 as (E2 & Hu2 & Lu2 & Hc2). rewrite L2, WN_eq in *.
  destruct (list_cons_len u2 20 Lu2) as (u0 & us & -> & Lus). apply words_cons in Hu2 as [Hu0 Hus].
  destruct MODULUS_split as (m0 & ms & EM & Hlms & Hm0 & Hms & EP & Ehd). rewrite EM.
  set (q := wmul u0 P0I). assert (Hq : word q) by apply word_wmul.
  destruct (umull_add q m0 u0) as [z cc] eqn:E3. apply umull_add_spec in E3; auto. destruct E3 as (E3 & Hz & Hcc).
  destruct (row_add2 q ms us cc) as [ds hi] eqn:E4. apply row_add2_spec in E4; auto; [|congruence].
  destruct E4 as (E4 & Hds & Lds & Hhi). rewrite Hlms in *.
  assert (Hz0 : z = 0).
  { destruct (P0I_cancel u0) as [k Hk]. rewrite Ehd in Hk. fold q in Hk. unfold word in Hz. unfold W64 in *. lia. }
  subst z.
  pose proof (eval_bound ds Hds) as Bds. pose proof P_pos. pose proof (eval_bound_N u Hu Lu).
  pose proof (eval_bound_N b1 Hb1 L1). pose proof (eval_bound_N b2 Hb2 L2).
  assert (EQ : W64 * (eval ds + Wn 20 * (c1 + c2 + hi)) = eval u + x * eval b1 + y * eval b2 + q * P).
  { rewrite EP. rewrite eval_cons in E2. rewrite WN_20 in *. 
    transitivity (W64 * (q * eval ms + eval us + cc) + W64 * Wn 20 * (c1 + c2)); [rewrite <- E4; ring|].
    transitivity (u0 + W64 * eval us + q * (m0 + W64 * eval ms) + W64 * Wn 20 * (c1 + c2)); [|lia].
    replace (W64 * (q * eval ms + eval us + cc)) with (W64 * cc + W64 * (q * eval ms + eval us)) by ring.
    rewrite Z.add_0_l in E3. rewrite E3. ring. }
  assert (BR : eval u + x * eval b1 + y * eval b2 + q * P <= W64 * (3 * P)).
  { assert (x * eval b1 <= (W64 - 1) * P) by (unfold word, W64 in *; nia).
    assert (y * eval b2 <= (W64 - 1) * P) by (unfold word, W64 in *; nia).
    assert (q * P <= (W64 - 1) * P) by (unfold word, W64 in *; nia). lia. }
  rewrite <- EQ in BR. apply Z.mul_le_mono_pos_l in BR; [|reflexivity].
  assert (PW : 3 * P < WN).
  { pose proof P_bits_hi. rewrite WN_RR. unfold RR.
    assert (2 ^ 1344 = 2 ^ 51 * 2 ^ 1293) by reflexivity. change (2 ^ 51) with 2251799813685248 in *. lia. }
  assert (Hc : 0 <= c1 + c2 + hi < W64).
  { rewrite WN_20 in PW. pose proof (Wn_pos 20). unfold word in *. nia. }
  assert (Ee : wadd (wadd (wadd 0 c1) c2) hi = c1 + c2 + hi).
  { unfold wadd. rewrite !lo64_mod. unfold W64, word in *. lia. }
  rewrite Ee.
  assert (Er : eval (ds ++ [c1 + c2 + hi]) = eval ds + Wn 20 * (c1 + c2 + hi)).
  { rewrite eval_app, Lds. cbn [eval]. ring. }
  rewrite Er. repeat split; auto.
  - apply words_app; split; auto. apply words_cons; split; auto.
  - rewrite app_length. cbn [length]. rewrite Lds. reflexivity.
  - exists q. split; auto.
Qed.

Lemma sop_loop_ok b1 b2 : words b1 -> words b2 -> length b1 = NLIMBS -> length b2 = NLIMBS ->
  eval b1 <= P -> eval b2 <= P ->
  forall a1 a2 u, words a1 -> words a2 -> length a1 = length a2 ->
  words u -> length u = NLIMBS -> eval u <= 3 * P ->
  words (sop_loop a1 a2 b1 b2 u) /\ length (sop_loop a1 a2 b1 b2 u) = NLIMBS /\
  exists k, 0 <= k < Wn (length a1) /\
   Wn (length a1) * eval (sop_loop a1 a2 b1 b2 u) = eval u + eval a1 * eval b1 + eval a2 * eval b2 + k * P.
Proof.
  intros Hb1 Hb2 L1 L2 B1 B2. induction a1 as [|x a1 IH]; intros [|y a2] u H1 H2 Hl Hu Lu Bu;
    cbn [length] in Hl; try discriminate.
  - cbn [sop_loop]. repeat split; auto. exists 0. cbn [length Wn eval]. lia.
  - apply words_cons in H1 as [Hx H1]. apply words_cons in H2 as [Hy H2]. injection Hl as Hl.
    cbn [sop_loop].
    destruct (sop_step_ok b1 b2 u x y) as (K1 & K2 & K3 & k & Hk & K4); auto.
    destruct (IH a2 _ H1 H2 Hl K1 K2 K3) as (M1 & M2 & k' & Hk' & M3).
    repeat split; auto. exists (k + W64 * k'). cbn [length]. rewrite Wn_S, !eval_cons.
    split; [unfold W64 in *; lia|]. rewrite <- Z.mul_assoc, M3.
    rewrite !Z.mul_add_distr_l, K4. ring.
Qed.

Lemma sop_final_ok a1 b1 a2 b2 : canon a1 -> canon a2 ->
  words b1 -> words b2 -> length b1 = NLIMBS -> length b2 = NLIMBS ->
  eval b1 <= P -> eval b2 <= P ->
  let u := sop_loop a1 a2 b1 b2 fp_zero in
  let '(u', borrow) := sub_loop u MODULUS 0 in
  canon (addmask_loop u' (wneg borrow)) /\
  cg (eval (addmask_loop u' (wneg borrow)) * WN) (eval a1 * eval b1 + eval a2 * eval b2).
Proof.
  intros Ha1 Ha2 Hb1 Hb2 L1 L2 B1 B2 u.
  apply canon_inv in Ha1 as (La1 & Ha1 & Ba1). apply canon_inv in Ha2 as (La2 & Ha2 & Ba2).
  pose proof P_pos as PP.
  destruct (sop_loop_ok b1 b2 Hb1 Hb2 L1 L2 B1 B2 a1 a2 fp_zero) as (K1 & K2 & k & Hk & K3); auto.
  { congruence. } { apply words_repeat0. } { unfold fp_zero. rewrite eval_repeat0. lia. }
  fold u in K1, K2, K3. rewrite La1, WN_eq in *. unfold fp_zero in K3. rewrite eval_repeat0 in K3.
  pose proof (eval_bound_N u K1 K2). pose proof P_WN.
  pose proof (eval_bound_N b1 Hb1 L1). pose proof (eval_bound_N b2 Hb2 L2).
  assert (eval u < 2 * P).
  { assert (eval a1 * eval b1 <= P * P) by nia. assert (eval a2 * eval b2 <= P * P) by nia.
    assert (k * P <= (WN - 1) * P) by (apply Z.mul_le_mono_nonneg_r; lia).
    assert (2 * (P * P) < WN * P) by nia.
    assert (S : WN * eval u < WN * (2 * P)) by lia. apply Z.mul_lt_mono_pos_l in S; [auto|apply WN_pos]. }
  destruct (sub_loop u MODULUS 0) as [u' bo] eqn:E.
  rewrite wneg_wsub.
  destruct (reduce_once_cg u 0 K1 K2 ltac:(unfold bit; lia) ltac:(lia) u' bo E) as [R1 R2].
  split; auto. rewrite R2. exists k. lia.
Qed.

Lemma sum_of_products_ok a1 b1 a2 b2 : canon a1 -> canon b1 -> canon a2 -> canon b2 ->
  canon (sum_of_products a1 b1 a2 b2) /\
  val (sum_of_products a1 b1 a2 b2) = (val a1 * val b1 + val a2 * val b2) mod P.
Proof.
  intros H1 H2 H3 H4. pose proof (canon_inv _ H2) as (L2 & W2 & B2). pose proof (canon_inv _ H4) as (L4 & W4 & B4).
  pose proof (sop_final_ok a1 b1 a2 b2 H1 H3 W2 W4 L2 L4 ltac:(lia) ltac:(lia)) as F. cbv zeta in F.
  unfold sum_of_products. destruct (sub_loop _ MODULUS 0) as [u' bo]. destruct F as [F1 F2].
  split; auto. apply val_from_cg. apply cg_cancel_WN. rewrite F2.
  rewrite <- (val_cg a1), <- (val_cg b1), <- (val_cg a2), <- (val_cg b2). exists 0. lia.
Qed.

Lemma difference_of_products_ok a1 b1 a2 b2 : canon a1 -> canon b1 -> canon a2 -> canon b2 ->
  canon (difference_of_products a1 b1 a2 b2) /\
  val (difference_of_products a1 b1 a2 b2) = (val a1 * val b1 - val a2 * val b2) mod P.
Proof.
  intros H1 H2 H3 H4. pose proof (canon_inv _ H2) as (L2 & W2 & B2). pose proof (canon_inv _ H4) as (L4 & W4 & B4).
  unfold difference_of_products. destruct (sub_loop MODULUS b2 0) as [b2m c] eqn:E.
  apply sub_loop_spec in E; auto; try apply words_MODULUS; [|unfold bit; lia].
  destruct E as (E & Hm & Lm & Hc). rewrite eval_MODULUS, len_MODULUS, WN_eq in *.
  pose proof (eval_bound_N _ Hm Lm). pose proof P_WN.
  assert (c = 0) by (bitcase Hc; lia). subst c.
  pose proof (sop_final_ok a1 b1 a2 b2m H1 H3 W2 Hm L2 Lm ltac:(lia) ltac:(lia)) as F. cbv zeta in F.
  destruct (sub_loop _ MODULUS 0) as [u' bo]. destruct F as [F1 F2].
  split; auto. apply val_from_cg. apply cg_cancel_WN. rewrite F2.
  assert (Eb : cg (eval b2m) (- eval b2)) by (exists 1; lia). rewrite Eb.
  rewrite <- (val_cg a1), <- (val_cg b1), <- (val_cg a2), <- (val_cg b2). exists 0. lia.
Qed.
