(** Word-level facts about the division and Legendre loops of M_Fp.v: the packed inner loop follows [gs], the
    approximations have the quality the analysis in L_BinGcd.v needs, and the exact updates are exact. *)
From Coq Require Import ZArith List Lia Bool.
From Verif Require Import S_Fp M_Utils64 M_Consts M_Fp L_Words L_Bits L_Lzcnt L_Fp L_FpOps L_BinGcd.
Import ListNotations.
Open Scope Z_scope.
Ltac Zify.zify_post_hook ::= Z.div_mod_to_equations.

(** two's complement representation *)
Definition rep (f : Z) : Z := f mod W64.
Lemma word_rep f : word (rep f). Proof. apply Z.mod_pos_bound. reflexivity. Qed.
#[global] Hint Resolve word_rep : core.
Definition lane (f g : Z) : Z := (f + 4294967296 * g) mod W64.
Lemma word_lane f g : word (lane f g). Proof. apply Z.mod_pos_bound. reflexivity. Qed.
#[global] Hint Resolve word_lane : core.

Lemma wsub_mod x y : wsub (x mod W64) (y mod W64) = (x - y) mod W64.
Proof. unfold wsub. rewrite lo64_mod. symmetry. apply Zminus_mod. Qed.
Lemma wshl1_mod x : wshl (x mod W64) 1 = (2 * x) mod W64.
Proof. unfold wshl. rewrite lo64_mod, Z.shiftl_mul_pow2 by lia. rewrite Zmult_mod_idemp_l. f_equal. lia. Qed.
Lemma wsub_lane a b c d : wsub (lane a b) (lane c d) = lane (a - c) (b - d).
Proof. unfold lane. rewrite wsub_mod. f_equal. ring. Qed.
Lemma wshl_lane a b : wshl (lane a b) 1 = lane (2 * a) (2 * b).
Proof. unfold lane. rewrite wshl1_mod. f_equal. ring. Qed.
Lemma wsub_rep a b : wsub (rep a) (rep b) = rep (a - b). Proof. apply wsub_mod. Qed.
Lemma wshl_rep a : wshl (rep a) 1 = rep (2 * a). Proof. apply wshl1_mod. Qed.

(** the three masks of a step *)
Lemma borrow_ltb x y : word x -> word y -> exists d, subborrow_u64 x y 0 = (d, if x <? y then 1 else 0).
Proof.
  intros Hx Hy. destruct (subborrow_u64 x y 0) as [d e] eqn:E.
  apply subborrow_spec in E as (E & Hd & He); auto; [|unfold bit; lia].
  exists d. f_equal. unfold word, W64 in *. apply bit_cases in He. destruct (Z.ltb_spec x y); lia.
Qed.
Lemma odd_mask x : wneg (Z.land x 1) = if Z.odd x then W64 - 1 else 0.
Proof. rewrite land1_mod, wneg_bit by (unfold bit; lia). rewrite Zmod_odd. destruct (Z.odd x); reflexivity. Qed.
Lemma land_ones_l x : word x -> Z.land (W64 - 1) x = x. Proof. apply land_mask_ones. Qed.
Lemma xor_swap_l a b : word a -> word b -> Z.lxor a (Z.land (W64 - 1) (Z.lxor a b)) = b. Proof. apply sel_ones. Qed.
Lemma xor_swap_r a b : word a -> word b -> Z.lxor b (Z.land (W64 - 1) (Z.lxor a b)) = a.
Proof. intros. rewrite Z.lxor_comm with (a := a). apply sel_ones; auto. Qed.
Lemma wsub_small x y : word x -> word y -> y <= x -> wsub x y = x - y.
Proof. unfold word, wsub. intros. rewrite lo64_mod. apply Z.mod_small. unfold W64. lia. Qed.
Lemma wsub_0 x : word x -> wsub x 0 = x. Proof. intros. unfold wsub. rewrite Z.sub_0_r. apply lo64_small; auto. Qed.

Lemma inner_step_eq xa xb fg0 fg1 : word xa -> word xb -> word fg0 -> word fg1 ->
  inner_step (xa, xb, fg0, fg1) =
  if Z.odd xa then if xa <? xb then ((xb - xa) / 2, xa, wsub fg1 fg0, wshl fg0 1) else ((xa - xb) / 2, xb, wsub fg0 fg1, wshl fg1 1)
  else (xa / 2, xb, fg0, wshl fg1 1).
Proof.
  intros Ha Hb H0 H1. unfold inner_step. destruct (borrow_ltb xa xb Ha Hb) as [d ->]. cbv beta iota zeta.
  rewrite odd_mask, wneg_bit by (destruct (xa <? xb); unfold bit; lia).
  destruct (Z.odd xa); [destruct (Z.ltb_spec xa xb) as [L|L]|].
  - change (1 =? 1) with true. cbv iota. change (Z.land (W64 - 1) (W64 - 1)) with (W64 - 1).
    rewrite !xor_swap_l, !xor_swap_r, !land_ones_l, shiftr1, wsub_small by (auto; lia). reflexivity.
  - change (0 =? 1) with false. cbv iota. change (Z.land (W64 - 1) 0) with 0.
    rewrite !Z.land_0_l, !Z.lxor_0_r, !land_ones_l, shiftr1, wsub_small by (auto; lia). reflexivity.
  - rewrite !Z.land_0_l, !Z.lxor_0_r, ?Z.land_0_l, !wsub_0, shiftr1 by auto. reflexivity.
Qed.
Lemma final_step_eq xa xb f0 g0 f1 g1 : word xa -> word xb -> word f0 -> word g0 -> word f1 -> word g1 ->
  final_step (xa, xb, f0, g0, f1, g1) =
  if Z.odd xa then if xa <? xb then ((xb - xa) / 2, xa, wsub f1 f0, wsub g1 g0, wshl f0 1, wshl g0 1)
                   else ((xa - xb) / 2, xb, wsub f0 f1, wsub g0 g1, wshl f1 1, wshl g1 1)
  else (xa / 2, xb, f0, g0, wshl f1 1, wshl g1 1).
Proof.
  intros Ha Hb H0 H1 H2 H3. unfold final_step. destruct (borrow_ltb xa xb Ha Hb) as [d ->]. cbv beta iota zeta.
  rewrite odd_mask, wneg_bit by (destruct (xa <? xb); unfold bit; lia).
  destruct (Z.odd xa); [destruct (Z.ltb_spec xa xb) as [L|L]|].
  - change (1 =? 1) with true. cbv iota. change (Z.land (W64 - 1) (W64 - 1)) with (W64 - 1).
    rewrite !xor_swap_l, !xor_swap_r, !land_ones_l, shiftr1, wsub_small by (auto; lia). reflexivity.
  - change (0 =? 1) with false. cbv iota. change (Z.land (W64 - 1) 0) with 0.
    rewrite !Z.land_0_l, !Z.lxor_0_r, !land_ones_l, shiftr1, wsub_small by (auto; lia). reflexivity.
  - rewrite !Z.land_0_l, !Z.lxor_0_r, ?Z.land_0_l, !wsub_0, shiftr1 by auto. reflexivity.
Qed.

Definition packed (s : gst) : Z * Z * Z * Z := (gxa s, gxb s, lane (gf0 s) (gg0 s), lane (gf1 s) (gg1 s)).
Definition split6 (s : gst) : Z * Z * Z * Z * Z * Z := (gxa s, gxb s, rep (gf0 s), rep (gg0 s), rep (gf1 s), rep (gg1 s)).
Definition xwords (s : gst) : Prop := word (gxa s) /\ word (gxb s).
Lemma xwords_gs s : xwords s -> xwords (gs s).
Proof.
  destruct s as [xa xb a b f0 g0 f1 g1]. unfold xwords, word. cbn [gs gxa gxb]. intros [Ha Hb].
  destruct (Z.odd xa); [destruct (Z.ltb_spec xa xb)|]; cbn [gxa gxb]; lia.
Qed.
Lemma inner_step_gs s : xwords s -> inner_step (packed s) = packed (gs s).
Proof.
  intros [Ha Hb]. unfold packed. rewrite inner_step_eq by auto. destruct s as [xa xb a b f0 g0 f1 g1].
  cbn [gs gxa gxb gf0 gg0 gf1 gg1]. destruct (Z.odd xa); [destruct (xa <? xb)|]; cbn [gxa gxb gf0 gg0 gf1 gg1];
  rewrite ?wsub_lane, wshl_lane; reflexivity.
Qed.
Lemma final_step_gs s : xwords s -> final_step (split6 s) = split6 (gs s).
Proof.
  intros [Ha Hb]. unfold split6. rewrite final_step_eq by auto. destruct s as [xa xb a b f0 g0 f1 g1].
  cbn [gs gxa gxb gf0 gg0 gf1 gg1]. destruct (Z.odd xa); [destruct (xa <? xb)|]; cbn [gxa gxb gf0 gg0 gf1 gg1];
  rewrite ?wsub_rep, !wshl_rep; reflexivity.
Qed.
Lemma xwords_run k s : xwords s -> xwords (grun k s).
Proof. intros H. induction k; cbn [grun]; auto using xwords_gs. Qed.
Lemma iter_end {A} n (f : A -> A) x : iter (S n) f x = f (iter n f x).
Proof. revert x. induction n as [|n IH]; intros x; [reflexivity|]. change (iter (S (S n)) f x) with (iter (S n) f (f x)). rewrite IH. reflexivity. Qed.
Lemma inner_run k s : xwords s -> iter k inner_step (packed s) = packed (grun k s).
Proof. intros H. induction k as [|k IH]; [reflexivity|]. rewrite iter_end, IH, inner_step_gs by (apply xwords_run; auto). reflexivity. Qed.
Lemma final_run k s : xwords s -> iter k final_step (split6 s) = split6 (grun k s).
Proof. intros H. induction k as [|k IH]; [reflexivity|]. rewrite iter_end, IH, final_step_gs by (apply xwords_run; auto). reflexivity. Qed.

Lemma unpack_lane f g : -2147483648 < f <= 2147483648 -> -2147483648 < g <= 2147483648 -> unpack (lane f g) = (rep f, rep g).
Proof.
  intros Hf Hg. unfold unpack. assert (E : wadd (lane f g) LANES = (f + 2147483647) + 4294967296 * (g + 2147483647)).
  { unfold wadd, lane. rewrite lo64_mod, Zplus_mod_idemp_l.
    replace (f + 4294967296 * g + LANES) with ((f + 2147483647) + 4294967296 * (g + 2147483647)) by (unfold LANES; lia).
    apply Z.mod_small. unfold W64. lia. }
  rewrite E. change 4294967295 with (Z.ones 32). rewrite Z.land_ones, Z.shiftr_div_pow2 by lia. change (2 ^ 32) with 4294967296.
  replace ((f + 2147483647 + 4294967296 * (g + 2147483647)) mod 4294967296) with (f + 2147483647) by lia.
  replace ((f + 2147483647 + 4294967296 * (g + 2147483647)) / 4294967296) with (g + 2147483647) by lia.
  unfold wsub, rep. rewrite !lo64_mod. f_equal; f_equal; lia.
Qed.

(** ** Signs *)
Lemma sgnw_rep f : Z.abs f < 9223372036854775808 -> sgnw (rep f) = if f <? 0 then W64 - 1 else 0.
Proof.
  intros Hf. rewrite sgnw_spec by auto. unfold rep, W64. destruct (Z.ltb_spec f 0); destruct (Z.ltb_spec (f mod 18446744073709551616) 9223372036854775808); auto; lia.
Qed.
Lemma xor_sign x (b : bool) : word x -> Z.lxor x (if b then W64 - 1 else 0) = if b then W64 - 1 - x else x.
Proof. intros. destruct b; [apply lxor_ones; auto|apply Z.lxor_0_r]. Qed.
Lemma cneg_rep f (b : bool) : let m := if b then W64 - 1 else 0 in wsub (Z.lxor (rep f) m) m = rep (if b then - f else f).
Proof.
  cbv zeta. rewrite xor_sign by auto. destruct b.
  - unfold wsub, rep. rewrite lo64_mod. replace (W64 - 1 - f mod W64 - (W64 - 1)) with (0 - f mod W64) by lia.
    rewrite Zminus_mod_idemp_r. f_equal.
  - apply wsub_0; auto.
Qed.
Lemma abs_rep f : Z.abs f < 9223372036854775808 -> wsub (Z.lxor (rep f) (sgnw (rep f))) (sgnw (rep f)) = Z.abs f.
Proof.
  intros Hf. rewrite sgnw_rep by auto. pose proof (cneg_rep f (f <? 0)) as H. cbv zeta in H. rewrite H.
  unfold rep. rewrite Z.mod_small; [|unfold W64]; destruct (Z.ltb_spec f 0); lia.
Qed.

(** ** Exact linear combination divided by 2^31 *)
Definition sg (b : bool) : Z := if b then -1 else 1.
Definition msk (b : bool) : Z := if b then W64 - 1 else 0.
Lemma cneg_word x b c : word x -> bit c -> forall d e, subborrow_u64 (Z.lxor x (msk b)) (msk b) c = (d, e) ->
  d - W64 * e = sg b * x - c /\ word d /\ bit e.
Proof.
  intros Hx Hc d e E. unfold msk, sg in *. rewrite xor_sign in E by auto.
  apply subborrow_spec in E as (E & Hd & He); auto.
  - split; [|auto]. destruct b; lia.
  - destruct b; unfold word, W64 in *; lia.
  - destruct b; unfold word, W64; lia.
Qed.

Lemma lin_loop_ok f g bf bg a : forall b c1 c2 c3, words a -> words b -> length a = length b -> bit c1 -> bit c2 -> word c3 ->
  0 <= f -> 0 <= g -> f + g <= 9223372036854775808 ->
  forall t e1 e2 e3, lin_loop a b f g (msk bf) (msk bg) c1 c2 c3 = (t, e1, e2, e3) ->
  words t /\ length t = length a /\ bit e1 /\ bit e2 /\ word e3 /\
  eval t + Wn (length a) * (e3 - f * e1 - g * e2) = f * (sg bf * eval a - c1) + g * (sg bg * eval b - c2) + c3.
Proof.
  induction a as [|x a IH]; intros [|y b] c1 c2 c3 Ha Hb Hl H1 H2 H3 Hf Hg Hfg t e1 e2 e3 E; cbn [length] in Hl; try discriminate.
  - injection E as <- <- <- <-. cbn [eval length Wn]. repeat split; auto; try apply H1; try apply H2; try apply H3; lia.
  - cbn [lin_loop] in E. apply words_cons in Ha as [Hx Ha]. apply words_cons in Hb as [Hy Hb].
    destruct (subborrow_u64 (Z.lxor x (msk bf)) (msk bf) c1) as [d1 k1] eqn:E1.
    destruct (subborrow_u64 (Z.lxor y (msk bg)) (msk bg) c2) as [d2 k2] eqn:E2.
    destruct (umull_x2_add d1 f d2 g c3) as [d3 k3] eqn:E3.
    destruct (lin_loop a b f g (msk bf) (msk bg) k1 k2 k3) as [[[ts r1] r2] r3] eqn:E4.
    injection E as <- <- <- <-.
    apply cneg_word in E1 as (E1 & D1 & K1); auto. apply cneg_word in E2 as (E2 & D2 & K2); auto.
    apply umull_x2_add_spec in E3 as (E3 & D3 & K3); auto; try (unfold word, W64 in *; lia).
    2:{ unfold word, W64, W128 in *. assert (d1 * f <= 18446744073709551615 * f) by (apply Z.mul_le_mono_nonneg_r; lia).
        assert (d2 * g <= 18446744073709551615 * g) by (apply Z.mul_le_mono_nonneg_r; lia). lia. }
    injection Hl as Hl.
    apply IH in E4 as (T1 & T2 & T3 & T4 & T5 & T6); auto.
    split; [apply words_cons; auto|]. split; [cbn; auto|]. split; auto. split; auto. split; auto.
    cbn [eval length Wn]. change 18446744073709551616 with W64. 
    set (Q := Wn (length a)) in *. set (A := eval a) in *. set (B := eval b) in *. set (S := eval ts) in *.
    transitivity (d3 + W64 * (S + Q * (r3 - f * r1 - g * r2))); [ring|]. rewrite T6.
    replace d3 with (d1 * f + d2 * g + c3 - W64 * k3) by lia. replace d1 with (sg bf * x - c1 + W64 * k1) by lia.
    replace d2 with (sg bg * y - c2 + W64 * k2) by lia. ring.
Qed.

Lemma shr31_word x y : word x -> word y -> Z.lor (Z.shiftr x 31) (wshl y 33) = x / 2147483648 + 8589934592 * (y mod 2147483648)
  /\ word (Z.lor (Z.shiftr x 31) (wshl y 33)).
Proof.
  intros Hx Hy. unfold wshl. rewrite lo64_mod, Z.shiftl_mul_pow2, Z.shiftr_div_pow2 by lia. change (2 ^ 31) with 2147483648.
  replace ((y * 2 ^ 33) mod W64) with (y mod 2147483648 * 2 ^ 33) by (change (2 ^ 33) with 8589934592; unfold W64, word in *; lia).
  rewrite Z.lor_comm, lor_shift_add; [|lia|change (2 ^ 33) with 8589934592; unfold word in *; lia].
  change (2 ^ 33) with 8589934592. split; [lia|]. unfold word in *. lia.
Qed.
Lemma shr31_loop_ok t : forall up, words t -> word up -> t <> [] ->
  words (shr31_loop t up) /\ length (shr31_loop t up) = length t /\
  2147483648 * eval (shr31_loop t up) = eval t - hd 0 t mod 2147483648 + Wn (length t) * (up mod 2147483648).
Proof.
  induction t as [|x t IH]; intros up Ht Hup Hn; [congruence|]. apply words_cons in Ht as [Hx Ht].
  destruct t as [|y t].
  - cbn [shr31_loop]. destruct (shr31_word x up Hx Hup) as [E W]. split; [apply words_cons; auto|]. split; [reflexivity|].
    cbn [eval length Wn hd]. rewrite E. unfold W64. clear. lia.
  - specialize (IH up Ht Hup ltac:(congruence)) as (I1 & I2 & I3). apply words_cons in Ht as [Hy Ht].
    change (shr31_loop (x :: y :: t) up) with (Z.lor (Z.shiftr x 31) (wshl y 33) :: shr31_loop (y :: t) up).
    destruct (shr31_word x y Hx Hy) as [E W]. split; [apply words_cons; auto|]. split; [cbn [length] in *; auto|].
    rewrite eval_cons. rewrite Z.mul_add_distr_l. replace (2147483648 * (W64 * eval (shr31_loop (y :: t) up))) with (W64 * (2147483648 * eval (shr31_loop (y :: t) up))) by ring.
    rewrite I3, E. cbn [hd]. rewrite (eval_cons x). change (Wn (length (x :: y :: t))) with (W64 * Wn (length (y :: t))).
    set (R := eval (y :: t)). set (V := Wn (length (y :: t)) * (up mod 2147483648)).
    replace (W64 * Wn (length (y :: t)) * (up mod 2147483648)) with (W64 * V) by (unfold V; ring).
    clearbody R V. unfold W64. clear. lia.
Qed.
Lemma condneg_loop_ok t b : forall c, words t -> bit c -> exists e, bit e /\ words (condneg_loop t (msk b) c) /\
  length (condneg_loop t (msk b) c) = length t /\ eval (condneg_loop t (msk b) c) - Wn (length t) * e = sg b * eval t - c.
Proof.
  induction t as [|x t IH]; intros c Ht Hc.
  - exists c. cbn [condneg_loop length eval Wn]. repeat split; auto; try apply Hc. unfold sg. destruct b; lia.
  - apply words_cons in Ht as [Hx Ht]. cbn [condneg_loop].
    destruct (subborrow_u64 (Z.lxor x (msk b)) (msk b) c) as [d e] eqn:E. apply cneg_word in E as (E & Hd & He); auto.
    destruct (IH e Ht He) as (e' & H1 & H2 & H3 & H4). exists e'. split; auto. split; [apply words_cons; auto|]. split; [cbn; auto|].
    cbn [eval length Wn]. change 18446744073709551616 with W64.
    transitivity (d + W64 * (eval (condneg_loop t (msk b) e) - Wn (length t) * e')); [ring|]. rewrite H4. 
    replace d with (sg b * x - c + W64 * e) by lia. ring.
Qed.

Lemma lindiv31abs_ok a b f g : words a -> words b -> length a = NLIMBS -> length b = NLIMBS ->
  Z.abs f + Z.abs g <= 2147483648 -> (2147483648 | f * eval a + g * eval b) ->
  2 * eval a < WN -> 2 * eval b < WN ->
  let q := (f * eval a + g * eval b) / 2147483648 in
  exists r, lindiv31abs a b (rep f) (rep g) = (r, msk (q <? 0)) /\ words r /\ length r = NLIMBS /\ eval r = Z.abs q.
Proof.
  intros Ha Hb La Lb Hfg Hdiv HA HB q. unfold lindiv31abs.
  rewrite !abs_rep, !sgnw_rep by lia. fold (msk (f <? 0)) (msk (g <? 0)).
  destruct (lin_loop a b (Z.abs f) (Z.abs g) (msk (f <? 0)) (msk (g <? 0)) 0 0 0) as [[[t c1] c2] c3] eqn:E.
  apply lin_loop_ok in E as (T1 & T2 & T3 & T4 & T5 & T6); auto; try (unfold bit; lia); try lia; try congruence.
  assert (SF : forall z, Z.abs z * sg (z <? 0) = z) by (intros z; unfold sg; destruct (Z.ltb_spec z 0); lia).
  replace (Z.abs f * (sg (f <? 0) * eval a - 0) + Z.abs g * (sg (g <? 0) * eval b - 0) + 0) with (f * eval a + g * eval b) in T6
    by (rewrite !Z.sub_0_r, !Z.mul_assoc, !SF; ring).
  rewrite La, WN_eq in T6. rewrite La in T2.
  pose proof (eval_bound_N t T1 T2) as Bt. pose proof (eval_bound a Ha) as Ba. pose proof (eval_bound b Hb) as Bb.
  set (N := f * eval a + g * eval b) in *. set (U := c3 - Z.abs f * c1 - Z.abs g * c2) in *.
  assert (HN : 2 * Z.abs N <= 2147483648 * WN).
  { assert (Z.abs (f * eval a) <= Z.abs f * eval a) by (rewrite Z.abs_mul; apply Z.mul_le_mono_nonneg_l; lia).
    assert (Z.abs (g * eval b) <= Z.abs g * eval b) by (rewrite Z.abs_mul; apply Z.mul_le_mono_nonneg_l; lia).
    assert (Z.abs f * (2 * eval a) <= Z.abs f * WN) by (apply Z.mul_le_mono_nonneg_l; lia).
    assert (Z.abs g * (2 * eval b) <= Z.abs g * WN) by (apply Z.mul_le_mono_nonneg_l; lia).
    assert ((Z.abs f + Z.abs g) * WN <= 2147483648 * WN) by (apply Z.mul_le_mono_nonneg_r; pose proof WN_pos; lia).
    unfold N. lia. }
  assert (HU : -2147483648 <= U <= 2147483648).
  { pose proof WN_pos. clearbody N U. clear - T6 HN Bt H. split.
    - apply Z.mul_le_mono_pos_l with (p := WN); lia.
    - apply Z.mul_le_mono_pos_l with (p := WN); lia. }
  assert (Eup : wsub (wsub c3 (Z.land (wneg c1) (Z.abs f))) (Z.land (wneg c2) (Z.abs g)) = rep U).
  { assert (G : forall c f, bit c -> 0 <= f < W64 -> Z.land (wneg c) f = f * c).
    { intros c h Hc Hh. rewrite wneg_bit by auto. apply bit_cases in Hc. destruct Hc as [-> | ->].
      - change (0 =? 1) with false. cbv iota. rewrite Z.land_0_l. lia.
      - change (1 =? 1) with true. cbv iota. rewrite land_mask_ones; [lia|exact Hh]. }
    rewrite !G by (auto; unfold W64; lia). unfold wsub, rep. rewrite !lo64_mod, Zminus_mod_idemp_l. reflexivity. }
  rewrite Eup. assert (Hs : sgnw (rep U) = msk (q <? 0)).
  { rewrite sgnw_rep by lia. unfold msk. replace (q <? 0) with (U <? 0); auto.
    destruct Hdiv as [k Hk]. unfold q. fold N in Hk. rewrite Hk, Z.div_mul by lia.
    pose proof WN_pos. clearbody U. destruct (Z.ltb_spec U 0), (Z.ltb_spec k 0); auto; exfalso.
    - assert (WN * U <= WN * -1) by (apply Z.mul_le_mono_nonneg_l; lia). lia.
    - assert (0 <= WN * U) by (apply Z.mul_nonneg_nonneg; lia). lia. }
  rewrite Hs.
  destruct (shr31_loop_ok t (rep U) T1 ltac:(auto)) as (S1 & S2 & S3); [intros ->; discriminate T2|].
  rewrite T2, WN_eq in S3. rewrite T2 in S2.
  set (r := shr31_loop t (rep U)) in *. pose proof (eval_bound_N r S1 S2) as Br.
  assert (Eq : eval r = q + (if q <? 0 then WN else 0)).
  { (* everything is determined modulo WN *)
    destruct Hdiv as [k Hk]. fold N in Hk. assert (Hq : q = k) by (unfold q; rewrite Hk; apply Z.div_mul; lia). rewrite Hq in *. clear Hq q.
    assert (H0 : hd 0 t mod 2147483648 = 0).
    { assert (G : exists z, WN = 2147483648 * z) by (exists (WN / 2147483648); vm_compute; reflexivity). destruct G as [z Hz].
      destruct t as [|t0 t']; [reflexivity|]. cbn [hd]. cbn [eval] in T6. 
      assert (t0 = 2147483648 * (k - z * U - 8589934592 * eval t')) by (rewrite Hz in T6; lia).
      rewrite H. rewrite Z.mul_comm. apply Z.mod_mul. lia. }
    rewrite H0 in S3.
    assert (Hm : exists z, rep U mod 2147483648 = U + 2147483648 * z).
    { unfold rep, W64. exists (- (U mod 18446744073709551616 / 2147483648) - 8589934592 * (U / 18446744073709551616)). clear. lia. }
    destruct Hm as [z Hz]. rewrite Hz in S3.
    assert (E : eval r = k + WN * z) by lia.
    pose proof WN_pos. clear - E Br HN Hk H.
    assert (-WN <= 2 * k <= WN) by lia.
    destruct (Z.ltb_spec k 0); rewrite E.
    - assert (z = 1); [|subst; ring]. assert (0 < z) by (apply Z.mul_lt_mono_pos_l with (p := WN); lia).
      assert (z < 2) by (apply Z.mul_lt_mono_pos_l with (p := WN); lia). lia.
    - assert (z = 0); [|subst; ring]. assert (-1 < z) by (apply Z.mul_lt_mono_pos_l with (p := WN); lia).
      assert (z < 1) by (apply Z.mul_lt_mono_pos_l with (p := WN); lia). lia. }
  destruct (condneg_loop_ok r (q <? 0) 0 S1) as (e & He & C1 & C2 & C3); [unfold bit; lia|].
  exists (condneg_loop r (msk (q <? 0)) 0). split; auto. split; auto. split; [congruence|].
  pose proof (eval_bound_N _ C1 ltac:(congruence)) as Bc. rewrite S2, WN_eq in C3.
  assert (Hq2 : 2 * Z.abs q <= WN).
  { destruct Hdiv as [k Hk]. fold N in Hk. assert (Hq : q = k) by (unfold q; rewrite Hk; apply Z.div_mul; lia). rewrite Hq. clear - HN Hk. lia. }
  pose proof WN_pos as HW. clearbody q. clear - C3 Bc Br Eq He Hq2 HW. unfold sg in C3. destruct (Z.ltb_spec q 0).
  - apply bit_cases in He. destruct He as [-> | ->]; lia.
  - apply bit_cases in He. destruct He as [-> | ->]; lia.
Qed.

(** ** Linear combination in the field, divided by 2^64 *)
Lemma row_x2_ok f g u : forall v c, words u -> words v -> length u = length v -> word c ->
  0 <= f -> 0 <= g -> f + g <= 9223372036854775808 ->
  forall d e, row_x2 f g u v c = (d, e) ->
  words d /\ length d = length u /\ word e /\ eval d + Wn (length u) * e = f * eval u + g * eval v + c.
Proof.
  induction u as [|x u IH]; intros [|y v] c Hu Hv Hl Hc Hf Hg Hfg d e E; cbn [length] in Hl; try discriminate.
  - injection E as <- <-. cbn [eval length Wn]. repeat split; auto; try apply Hc. lia.
  - cbn [row_x2] in E. apply words_cons in Hu as [Hx Hu]. apply words_cons in Hv as [Hy Hv].
    destruct (umull_x2_add x f y g c) as [d3 k3] eqn:E3. destruct (row_x2 f g u v k3) as [ds co] eqn:E4. injection E as <- <-.
    apply umull_x2_add_spec in E3 as (E3 & D3 & K3); auto; try (unfold word, W64 in *; lia).
    2:{ unfold word, W64, W128 in *. assert (x * f <= 18446744073709551615 * f) by (apply Z.mul_le_mono_nonneg_r; lia).
        assert (y * g <= 18446744073709551615 * g) by (apply Z.mul_le_mono_nonneg_r; lia). lia. }
    injection Hl as Hl. apply IH in E4 as (T1 & T2 & T3 & T4); auto.
    split; [apply words_cons; auto|]. split; [cbn; auto|]. split; auto.
    cbn [eval length Wn]. change 18446744073709551616 with W64.
    transitivity (d3 + W64 * (eval ds + Wn (length u) * co)); [ring|]. rewrite T4. replace d3 with (x * f + y * g + c - W64 * k3) by lia. ring.
Qed.

Lemma select_sign u f : canon u -> Z.abs f < 9223372036854775808 ->
  let t := select u (set_neg u) (lo32 (sgnw (rep f))) in canon t /\ cg (Z.abs f * eval t) (f * eval u).
Proof.
  intros Hu Hf. cbv zeta. rewrite sgnw_rep by auto. replace (lo32 (if f <? 0 then W64 - 1 else 0)) with (mask32 (f <? 0)) by (destruct (f <? 0); reflexivity).
  destruct (set_neg_ok u Hu) as [H1 [k H2]]. rewrite select_mask by auto. destruct (Z.ltb_spec f 0).
  - split; auto. exists (- f * k). rewrite H2. replace (Z.abs f) with (- f) by lia. ring.
  - split; auto. replace (Z.abs f) with f by lia. exists 0. ring.
Qed.

Lemma set_montylin_ok u v f g : canon u -> canon v -> Z.abs f + Z.abs g <= 4611686018427387904 ->
  canon (set_montylin u v (rep f) (rep g)) /\ cg (W64 * eval (set_montylin u v (rep f) (rep g))) (f * eval u + g * eval v).
Proof.
  intros Hu Hv Hfg. unfold set_montylin. rewrite !abs_rep by lia.
  destruct (select_sign u f Hu ltac:(lia)) as [Cu Gu]. destruct (select_sign v g Hv ltac:(lia)) as [Cv Gv]. cbv zeta.
  set (tu := select u (set_neg u) (lo32 (sgnw (rep f)))) in *. set (tv := select v (set_neg v) (lo32 (sgnw (rep g)))) in *.
  clearbody tu tv. rewrite <- Gu, <- Gv. clear Gu Gv.
  set (F := Z.abs f) in *. set (H := Z.abs g) in *. assert (HF : 0 <= F) by lia. assert (HH : 0 <= H) by lia. clearbody F H.
  clear u v f g Hu Hv.
  destruct (canon_inv tu Cu) as (Lu & Wu & Bu). destruct (canon_inv tv Cv) as (Lv & Wv & Bv). clear Cu Cv.
  destruct (list_cons_len tu 20 Lu) as (u0 & us & -> & Lus). destruct (list_cons_len tv 20 Lv) as (v0 & vs & -> & Lvs).
  apply words_cons in Wu as [Wu0 Wus]. apply words_cons in Wv as [Wv0 Wvs].
  destruct MODULUS_split as (m0 & ms & EM & Hlms & Hm0 & Hms & EP & Ehd).
  assert (WF : word F /\ word H) by (unfold word; lia). destruct WF as [WF WH].
  destruct (umull_x2 u0 F v0 H) as [d cc] eqn:E1. apply umull_x2_spec in E1 as (E1 & Wd & Wcc); auto.
  2:{ unfold word, W128 in *. assert (u0 * F <= 18446744073709551615 * F) by (apply Z.mul_le_mono_nonneg_r; lia).
      assert (v0 * H <= 18446744073709551615 * H) by (apply Z.mul_le_mono_nonneg_r; lia). lia. }
  destruct (row_x2 F H us vs cc) as [ds up] eqn:E2. apply row_x2_ok in E2 as (Wds & Lds & Wup & E2); auto; [|congruence|lia].
  rewrite EM. cbv beta iota zeta. rewrite <- EM.
  set (k := wmul d P0I). assert (Hk : word k) by apply word_wmul.
  destruct (umull_add k m0 d) as [z c2] eqn:E3. apply umull_add_spec in E3 as (E3 & Wz & Wc2); auto.
  destruct (row_add2 k ms ds c2) as [ts c3] eqn:E4. apply row_add2_spec in E4 as (E4 & Wts & Lts & Wc3); auto; [|congruence].
  destruct (addcarry_u64 up c3 0) as [d' c4] eqn:E5. apply addcarry_spec in E5 as (E5 & Wd' & Bc4); auto; [|unfold bit; lia].
  assert (Hz0 : z = 0).
  { destruct (P0I_cancel d) as [q Hq]. rewrite Ehd in Hq. fold k in Hq. unfold word in Wz. unfold W64 in *. lia. }
  rewrite Hz0 in E3. rewrite Lus in *. rewrite Hlms in *.
  assert (EV : eval (ts ++ [d']) = eval ts + Wn 20 * d').
  { rewrite eval_app, Lts. cbn [eval]. rewrite Z.mul_0_r, Z.add_0_r. reflexivity. }
  assert (EQ : W64 * (eval (ts ++ [d']) + WN * c4) = F * eval (u0 :: us) + H * eval (v0 :: vs) + k * P).
  { rewrite EV, EP, WN_20, !eval_cons. clear - E1 E2 E3 E4 E5. set (T := eval ts) in *. set (D := eval ds) in *.
    transitivity (W64 * (T + Wn 20 * (d' + W64 * c4))); [ring|]. rewrite E5.
    transitivity (W64 * (T + Wn 20 * c3) + W64 * Wn 20 * up); [ring|]. rewrite E4.
    transitivity (W64 * (k * eval ms) + W64 * (D + Wn 20 * up) + W64 * c2); [ring|]. rewrite E2.
    replace (W64 * c2) with (k * m0 + d) by lia. replace d with (u0 * F + v0 * H - W64 * cc) by lia. ring. }
  assert (Lt : length (ts ++ [d']) = NLIMBS) by (rewrite app_length, Lts; reflexivity).
  assert (Wt : words (ts ++ [d'])) by (apply words_app; split; auto; apply words_cons; auto).
  assert (Hlt : eval (ts ++ [d']) + WN * c4 < 2 * P).
  { set (X := eval (ts ++ [d']) + WN * c4) in *. set (U := eval (u0 :: us)) in *. set (V := eval (v0 :: vs)) in *.
    assert (F * U <= F * P) by (apply Z.mul_le_mono_nonneg_l; lia). assert (H * V <= H * P) by (apply Z.mul_le_mono_nonneg_l; lia).
    assert (k * P <= 18446744073709551615 * P) by (apply Z.mul_le_mono_nonneg_r; unfold word in Hk; lia).
    assert ((F + H) * P <= 4611686018427387904 * P) by (apply Z.mul_le_mono_nonneg_r; lia).
    pose proof P_pos. clear - EQ H0 H1 H2 H3 H4. clearbody X U V. unfold W64 in EQ. lia. }
  destruct (sub_loop (ts ++ [d']) MODULUS 0) as [t' c'] eqn:E6.
  destruct (reduce_once_cg (ts ++ [d']) c4 Wt Lt Bc4 Hlt t' c' E6) as [R1 [q R2]].
  split; auto. exists (k + W64 * q). rewrite R2. 
  transitivity (W64 * (eval (ts ++ [d']) + WN * c4) + W64 * q * P); [ring|]. rewrite EQ. ring.
Qed.

(** ** Approximations *)
Definition apx_inv (a b : list Z) (s : apx) : Prop :=
  (eval a = 0 /\ eval b = 0 /\ s = Apx (W64 - 1) (W64 - 1) 0 0 0 0) \/
  (exists x y, eval a = x /\ eval b = y /\ word x /\ word y /\ Z.lor x y <> 0 /\ s = Apx 0 (W64 - 1) x x y y) \/
  (exists i ra rb ah al bh bl, 0 <= ra < Wn i /\ 0 <= rb < Wn i /\ word ah /\ word al /\ word bh /\ word bl /\ Z.lor ah bh <> 0 /\
     eval a = ra + Wn i * (al + W64 * ah) /\ eval b = rb + Wn i * (bl + W64 * bh) /\ s = Apx 0 0 ah al bh bl).

Lemma sel_ones' a b : word a -> word b -> Z.lxor a (Z.land (Z.lxor a b) (W64 - 1)) = b.
Proof. intros. rewrite Z.land_comm. apply sel_ones; auto. Qed.
Lemma sel_zero' a b : Z.lxor a (Z.land (Z.lxor a b) 0) = a.
Proof. rewrite Z.land_0_r. apply Z.lxor_0_r. Qed.
Lemma nz_mask m : word m -> wsub (Z.shiftr (Z.lor m (wneg m)) 63) 1 = if m =? 0 then W64 - 1 else 0.
Proof. intros. rewrite nz_top by auto. destruct (m =? 0); reflexivity. Qed.

Lemma apx_inv_ok a : forall b, words a -> words b -> length a = length b ->
  apx_inv a b (fold_left apx_step (rev (combine a b)) apx_init).
Proof.
  induction a as [|x a IH]; intros [|y b] Ha Hb Hl; cbn [length] in Hl; try discriminate.
  - left. repeat split; reflexivity.
  - cbn [combine rev]. rewrite fold_left_app. cbn [fold_left].
    apply words_cons in Ha as [Hx Ha]. apply words_cons in Hb as [Hy Hb]. injection Hl as Hl.
    specialize (IH b Ha Hb Hl). set (s := fold_left apx_step (rev (combine a b)) apx_init) in *. clearbody s.
    unfold apx_inv. rewrite !eval_cons.
    destruct IH as [(A0 & B0 & ->)|[(p & q & A0 & B0 & Wp & Wq & Hn & ->)|(i & ra & rb & ah & al & bh & bl & Hra & Hrb & W1 & W2 & W3 & W4 & Hn & A0 & B0 & ->)]];
    unfold apx_step; cbn [c_hi c_lo a_hi a_lo b_hi b_lo]; cbv zeta; rewrite A0, B0.
    + rewrite !sel_ones', nz_mask by (auto using word_lor). destruct (Z.eqb_spec (Z.lor x y) 0) as [E|E].
      * left. apply Z.lor_eq_0_iff in E as [-> ->]. repeat split; try lia. 
      * right; left. exists x, y. repeat split; try lia; auto; apply Hx || apply Hy || idtac.
    + right; right. rewrite !sel_zero', !sel_ones' by auto. rewrite Z.land_0_l.
      exists 0%nat, 0, 0, p, x, q, y. cbn [Wn]. split; [lia|]. split; [lia|]. do 4 (split; auto). split; auto. repeat split; ring.
    + right; right. rewrite !sel_zero', Z.land_0_l. exists (S i), (x + W64 * ra), (y + W64 * rb), ah, al, bh, bl.
      cbn [Wn]. unfold word in Hx, Hy. split; [unfold W64; lia|]. split; [unfold W64; lia|]. do 4 (split; auto). split; auto. repeat split; ring.
Qed.

Lemma bl_lor x y : 0 <= x -> 0 <= y -> bitlength (Z.lor x y) = bitlength (Z.max x y).
Proof.
  intros Hx Hy. unfold bitlength. destruct (Z.eqb_spec x 0) as [->|Nx]; [rewrite Z.lor_0_l, Z.max_r by lia; reflexivity|].
  destruct (Z.eqb_spec (Z.lor x y) 0) as [E|E]; [apply Z.lor_eq_0_iff in E; lia|]. destruct (Z.eqb_spec (Z.max x y) 0); [lia|].
  f_equal. rewrite Z.log2_lor by auto. destruct (Z.max_spec x y) as [[? ->]|[? ->]].
  - apply Z.max_r. apply Z.log2_le_mono. lia.
  - apply Z.max_l. apply Z.log2_le_mono. lia.
Qed.

(** the 64 leading bits taken from two words *)
Lemma top_bits h l sh : word h -> word l -> 0 <= sh <= 63 -> h < 2 ^ (64 - sh) ->
  let x := Z.lor (wshl h sh) (Z.shiftr (Z.shiftr l 1) (63 - sh)) in word x /\ x = (l + W64 * h) / 2 ^ (64 - sh).
Proof.
  intros Hh Hl Hs Hb. cbv zeta. unfold word in *.
  assert (Ep : 2 ^ sh * 2 ^ (64 - sh) = W64) by (rewrite <- Z.pow_add_r by lia; replace (sh + (64 - sh)) with 64 by lia; reflexivity).
  assert (P1 : 0 < 2 ^ sh) by (apply Z.pow_pos_nonneg; lia). assert (P2 : 0 < 2 ^ (64 - sh)) by (apply Z.pow_pos_nonneg; lia).
  assert (Hhs : 0 <= h * 2 ^ sh <= W64 - 2 ^ sh).
  { split; [apply Z.mul_nonneg_nonneg; lia|]. assert (h * 2 ^ sh <= (2 ^ (64 - sh) - 1) * 2 ^ sh) by (apply Z.mul_le_mono_nonneg_r; lia). lia. }
  assert (E1 : wshl h sh = h * 2 ^ sh).
  { unfold wshl. rewrite lo64_mod, Z.shiftl_mul_pow2 by lia. apply Z.mod_small. lia. }
  assert (E2 : Z.shiftr (Z.shiftr l 1) (63 - sh) = l / 2 ^ (64 - sh)).
  { rewrite Z.shiftr_shiftr by lia. rewrite Z.shiftr_div_pow2 by lia. f_equal. f_equal. lia. }
  assert (B : 0 <= l / 2 ^ (64 - sh) < 2 ^ sh).
  { split; [apply Z.div_pos; lia|]. apply Z.div_lt_upper_bound; auto. rewrite Z.mul_comm, Ep. unfold W64. lia. }
  rewrite E1, E2, lor_shift_add by lia. split.
  - unfold W64 in *. lia.
  - symmetry. replace (l + W64 * h) with (l + h * 2 ^ sh * 2 ^ (64 - sh)) by (rewrite <- Ep; ring). rewrite Z.div_add by lia. lia.
Qed.

Lemma hi33 x a0 : word x -> word a0 -> Z.lor (Z.land x HI33) (Z.land a0 LO31) = x - x mod 2147483648 + a0 mod 2147483648.
Proof.
  intros Hx Ha. change LO31 with (Z.ones 31). rewrite Z.land_ones by lia. change (2 ^ 31) with 2147483648.
  assert (E : Z.land x HI33 = x / 2147483648 * 2 ^ 31).
  { change HI33 with (Z.shiftl (Z.ones 33) 31). rewrite <- Z.shiftl_mul_pow2 by lia. change 2147483648 with (2 ^ 31). rewrite <- Z.shiftr_div_pow2 by lia.
    apply Z.bits_inj'. intros i Hi. rewrite Z.land_spec, !Z.shiftl_spec by lia.
    destruct (Z_lt_ge_dec i 31) as [L|L].
    - rewrite (Z.testbit_neg_r _ (i - 31)), (Z.testbit_neg_r (Z.shiftr x 31)) by lia. apply andb_false_r.
    - rewrite Z.shiftr_spec by lia. replace (i - 31 + 31) with i by lia.
      destruct (Z_lt_ge_dec i 64).
      + rewrite Z.ones_spec_low by lia. apply andb_true_r.
      + apply word_bits in Hx as [_ Hx]. rewrite Hx by lia. reflexivity. }
  rewrite E, lor_shift_add by (change (2 ^ 31) with 2147483648; lia). change (2 ^ 31) with 2147483648. lia.
Qed.

Lemma limb0_mod l : words l -> l <> [] -> limb l 0 = eval l mod W64 /\ word (limb l 0).
Proof.
  intros H Hn. destruct l as [|x l]; [congruence|]. apply words_cons in H as [Hx H]. change (limb (x :: l) 0) with x. rewrite eval_cons. split; auto.
  rewrite Z.mul_comm, Z.mod_add by (unfold W64; lia). symmetry. apply Z.mod_small. exact Hx.
Qed.

Definition good_approx (A B xa xb : Z) : Prop :=
  (xa = A /\ xb = B) \/
  exists n, 64 < n /\ 2 ^ (n - 1) <= mx A B /\ mx A B < 2 ^ n /\ (2 ^ 31 | A - xa) /\ (2 ^ 31 | B - xb) /\
    Z.abs (A - tau n * xa) <= eps n /\ Z.abs (B - tau n * xb) <= eps n.

Lemma one_approx A t xa : 0 < t -> 0 <= A ->
  let x := A / t in xa = x - x mod 2147483648 + A mod 2147483648 ->
  (2 ^ 31 | A - xa) /\ Z.abs (A - t * xa) <= 2 ^ 31 * t - 1.
Proof.
  intros Ht HA x ->. change (2 ^ 31) with 2147483648. split.
  - exists (A / 2147483648 - x / 2147483648). clearbody x. lia.
  - pose proof (Z.div_mod A t ltac:(lia)) as E. fold x in E. pose proof (Z.mod_pos_bound A t Ht) as Br.
    set (r := A mod t) in *. pose proof (Z.mod_pos_bound x 2147483648 eq_refl) as Bx. pose proof (Z.mod_pos_bound A 2147483648 eq_refl) as BA.
    set (m := x mod 2147483648) in *. set (n := A mod 2147483648) in *. clearbody x r m n.
    replace (A - t * (x - m + n)) with (r + t * (m - n)) by lia.
    assert (t * (m - n) <= t * 2147483647) by (apply Z.mul_le_mono_nonneg_l; lia).
    assert (t * (-2147483647) <= t * (m - n)) by (apply Z.mul_le_mono_nonneg_l; lia). lia.
Qed.
Lemma mod31_mod64 A : (A mod W64) mod 2147483648 = A mod 2147483648.
Proof. unfold W64. lia. Qed.

Lemma scale_eqs i h : 1 <= h -> let n := 64 * (Z.of_nat i + 1) + h in
  64 < n /\ tau n = Wn i * 2 ^ h /\ 2 ^ (n - 1) = Wn i * (W64 * 2 ^ (h - 1)) /\ 2 ^ n = Wn i * (W64 * 2 ^ h).
Proof.
  intros Hh n.
  assert (HW : Wn i = 2 ^ (64 * Z.of_nat i)) by (rewrite Wn_pow; change W64 with (2 ^ 64); rewrite <- Z.pow_mul_r by lia; reflexivity).
  rewrite HW. change W64 with (2 ^ 64). rewrite <- !Z.pow_add_r by lia. unfold tau, n. repeat split; try lia; f_equal; lia.
Qed.
Lemma top_div i h r l hh : 0 <= h -> 0 <= r < Wn i -> (r + Wn i * (l + W64 * hh)) / (Wn i * 2 ^ h) = (l + W64 * hh) / 2 ^ h.
Proof.
  intros Hh Hr. assert (0 < 2 ^ h) by (apply Z.pow_pos_nonneg; lia). rewrite <- Z.div_div by lia. f_equal. 
  rewrite Z.mul_comm, Z.div_add by lia. rewrite Z.div_small by lia. lia.
Qed.
Lemma top_range i r l hh : 0 <= r < Wn i -> word l -> 0 <= hh ->
  Wn i * (W64 * hh) <= r + Wn i * (l + W64 * hh) < Wn i * (W64 * (hh + 1)).
Proof.
  intros Hr Hl Hhh. unfold word in Hl. rewrite Z.mul_add_distr_l.
  assert (Wn i * (l + W64 * hh + 1) <= Wn i * (W64 * (hh + 1))) by (apply Z.mul_le_mono_nonneg_l; unfold W64; lia).
  assert (0 <= Wn i * l) by (apply Z.mul_nonneg_nonneg; lia). lia.
Qed.
Lemma max_lor_pos x y : 0 <= x -> 0 <= y -> Z.lor x y <> 0 -> 0 < Z.max x y.
Proof.
  intros Hx Hy H. destruct (Z.eq_dec (Z.max x y) 0) as [E|E]; [|lia]. exfalso. apply H.
  assert (x = 0) by lia. assert (y = 0) by lia. subst. reflexivity.
Qed.
Lemma approx_num i ra rb ah al bh bl h xa xb : 0 <= ra < Wn i -> 0 <= rb < Wn i -> word al -> word bl -> 0 <= ah -> 0 <= bh ->
  1 <= h -> 2 ^ (h - 1) <= Z.max ah bh -> Z.max ah bh < 2 ^ h ->
  let A := ra + Wn i * (al + W64 * ah) in let B := rb + Wn i * (bl + W64 * bh) in
  let va := (al + W64 * ah) / 2 ^ h in let vb := (bl + W64 * bh) / 2 ^ h in
  xa = va - va mod 2147483648 + A mod 2147483648 -> xb = vb - vb mod 2147483648 + B mod 2147483648 ->
  good_approx A B xa xb.
Proof.
  intros Hra Hrb Wal Wbl Hah Hbh Hh H1 H2 A B va vb Exa Exb. right. exists (64 * (Z.of_nat i + 1) + h).
  destruct (scale_eqs i h Hh) as (Hn & Ht & En1 & En). cbv zeta in *. set (n := 64 * (Z.of_nat i + 1) + h) in *. clearbody n.
  pose proof (Wn_pos i) as WP. assert (P2 : 0 < 2 ^ h) by (apply Z.pow_pos_nonneg; lia).
  destruct (tau_T n Hn) as (T1 & T2 & Tpos).
  destruct (top_range i ra al ah Hra Wal Hah) as [LA1 LA2]. destruct (top_range i rb bl bh Hrb Wbl Hbh) as [LB1 LB2]. fold A in LA1, LA2. fold B in LB1, LB2.
  assert (HA : 0 <= A) by (unfold word, W64 in *; apply Z.le_trans with (2 := LA1); apply Z.mul_nonneg_nonneg; lia).
  assert (HB : 0 <= B) by (unfold word, W64 in *; apply Z.le_trans with (2 := LB1); apply Z.mul_nonneg_nonneg; lia).
  assert (Hva : A / tau n = va) by (unfold A, va; rewrite Ht; apply top_div; auto; lia).
  assert (Hvb : B / tau n = vb) by (unfold B, vb; rewrite Ht; apply top_div; auto; lia).
  rewrite <- Hva in Exa. rewrite <- Hvb in Exb. clear Hva Hvb. clearbody A B. clear va vb.
  assert (MUL : forall u v, u <= v -> Wn i * (W64 * u) <= Wn i * (W64 * v)).
  { intros u v Huv. apply Z.mul_le_mono_nonneg_l; [lia|]. apply Z.mul_le_mono_nonneg_l; [unfold W64|]; lia. }
  destruct (one_approx A (tau n) xa Tpos HA Exa) as [O1 O2]. destruct (one_approx B (tau n) xb Tpos HB Exb) as [O3 O4].
  unfold eps. rewrite T1. split; auto. split; [|split; [|auto]].
  - rewrite En1. apply Z.le_trans with (1 := MUL _ _ H1). unfold mx. clear - LA1 LB1.
    destruct (Z.max_spec ah bh) as [[? ->]|[? ->]]; lia.
  - rewrite En. unfold mx. pose proof (MUL (ah + 1) (2 ^ h) ltac:(lia)). pose proof (MUL (bh + 1) (2 ^ h) ltac:(lia)). clear - LA2 LB2 H H0. lia.
Qed.

Lemma approx_ok a b xa xb : words a -> words b -> length a = length b -> a <> [] -> approx a b = (xa, xb) ->
  word xa /\ word xb /\ good_approx (eval a) (eval b) xa xb.
Proof.
  intros Ha Hb Hl Hn E. unfold approx in E. pose proof (apx_inv_ok a b Ha Hb Hl) as I.
  set (s := fold_left apx_step (rev (combine a b)) apx_init) in *. clearbody s. cbv zeta in E.
  assert (Hn' : b <> []) by (intros ->; destruct a; [congruence|discriminate]).
  destruct (limb0_mod a Ha Hn) as [La Wa]. destruct (limb0_mod b Hb Hn') as [Lb Wb].
  set (a0 := limb a 0) in *. set (b0 := limb b 0) in *. clearbody a0 b0.
  assert (HI : forall x, word x -> word (Z.land x HI33)) by (intros; apply word_land; auto; unfold word, HI33; lia).
  assert (LO : forall x, word x -> word (Z.land x LO31)) by (intros; apply word_land; auto; unfold word, LO31; lia).
  assert (Ea : 0 <= eval a) by (pose proof (eval_bound a Ha); lia). assert (Eb : 0 <= eval b) by (pose proof (eval_bound b Hb); lia).
  destruct I as [(A0 & B0 & ->)|[(p & q & A0 & B0 & Wp & Wq & Hnz & ->)|(i & ra & rb & ah & al & bh & bl & Hra & Hrb & W1 & W2 & W3 & W4 & Hnz & A0 & B0 & ->)]];
  cbn [c_hi c_lo a_hi a_lo b_hi b_lo] in E.
  - change (Z.lor 0 0) with 0 in E. change (lzcnt 0) with 64 in E. change (wshl 0 64) with 0 in E. change (Z.shiftr 0 1) with 0 in E.
    change (Z.shiftr 0 (63 - 64)) with 0 in E. change (Z.lor 0 0) with 0 in E. change (Z.land 0 HI33) with 0 in E. rewrite !Z.lor_0_l in E.
    rewrite !sel_ones in E by auto. injection E as <- <-. rewrite A0, B0 in *. split; auto. split; auto. left. auto.
  - assert (forall z u v, word z -> Z.lxor u (Z.land (W64 - 1) (Z.lxor u z)) = z -> v = z -> Z.lxor u (Z.land (W64 - 1) (Z.lxor u z)) = v) as _ by congruence.
    assert (Wl : word (Z.lor p q)) by (apply word_lor; auto).
    pose proof (lzcnt_ok _ Wl) as Hs. set (sh := lzcnt (Z.lor p q)) in *. clearbody sh.
    rewrite !sel_ones in E; auto.
    2,3: apply word_lor; auto; apply HI; apply word_lor; auto; apply word_shiftr; [|apply word_shiftr; auto; lia]; rewrite Hs.
    2,3: pose proof (bl_pos (Z.lor p q)) as HP; assert (0 < Z.lor p q) by (unfold word in Wl; lia); specialize (HP H); lia.
    injection E as <- <-. rewrite A0, B0 in *. split; auto. split; auto. left.
    rewrite La, Lb. split; apply Z.mod_small; [exact Wp|exact Wq].
  - assert (Wl : word (Z.lor ah bh)) by (apply word_lor; auto).
    pose proof (lzcnt_ok _ Wl) as Hs. set (sh := lzcnt (Z.lor ah bh)) in *. clearbody sh.
    assert (Pl : 0 < Z.lor ah bh) by (unfold word in Wl; lia). pose proof (bl_pos _ Pl) as HP.
    assert (HP2 : bitlength (Z.lor ah bh) <= 64) by (apply bl_lt; unfold word in Wl; lia).
    pose proof (proj1 W1) as PA. pose proof (proj1 W3) as PB. pose proof (bl_lor ah bh PA PB) as Hmax.
    set (h := bitlength (Z.lor ah bh)) in *.
    assert (Hp : 0 < Z.max ah bh) by (apply max_lor_pos; auto).
    assert (Hh : 2 ^ (h - 1) <= Z.max ah bh < 2 ^ h) by (rewrite Hmax; apply bitlength_spec; auto).
    clearbody h. assert (Hhs : 64 - sh = h) by lia. assert (Hsh : 0 <= sh <= 63) by lia.
    destruct (top_bits ah al sh) as [T1 T2]; auto; [rewrite Hhs; clear - Hh; lia|].
    destruct (top_bits bh bl sh) as [T3 T4]; auto; [rewrite Hhs; clear - Hh; lia|].
    set (va := Z.lor (wshl ah sh) (Z.shiftr (Z.shiftr al 1) (63 - sh))) in *. set (vb := Z.lor (wshl bh sh) (Z.shiftr (Z.shiftr bl 1) (63 - sh))) in *.
    clearbody va vb. rewrite !sel_zero in E. injection E as Ea' Eb'. rewrite Hhs in *.
    split; [rewrite <- Ea'; apply word_lor; auto|]. split; [rewrite <- Eb'; apply word_lor; auto|].
    rewrite !hi33 in * by auto. rewrite La, mod31_mod64, A0 in Ea'. rewrite Lb, mod31_mod64, B0 in Eb'. rewrite T2 in Ea'. rewrite T4 in Eb'.
    rewrite A0, B0. apply (approx_num i ra rb ah al bh bl h); auto; clear - Hh HP; lia.
Qed.
