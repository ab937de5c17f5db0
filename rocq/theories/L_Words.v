(** Contracts of the 64-bit helpers and of the elementary limb loops. *)
From Coq Require Import ZArith List Lia Bool.
From Verif Require Import S_Fp M_Utils64 M_Consts M_Fp.
Import ListNotations.
Open Scope Z_scope.
Ltac Zify.zify_post_hook ::= Z.div_mod_to_equations.

Definition bit (x : Z) : Prop := 0 <= x <= 1.

Fixpoint Wn (n : nat) : Z := match n with O => 1 | S n' => W64 * Wn n' end.

Lemma eval_cons x l : eval (x :: l) = x + W64 * eval l. Proof. reflexivity. Qed.

Lemma lo64_mod x : lo64 x = x mod W64.
Proof. unfold lo64, W64. change 18446744073709551615 with (Z.ones 64). rewrite Z.land_ones by lia. reflexivity. Qed.
Lemma lo32_mod x : lo32 x = x mod W32.
Proof. unfold lo32, W32. change 4294967295 with (Z.ones 32). rewrite Z.land_ones by lia. reflexivity. Qed.
Lemma lo128_mod x : lo128 x = x mod W128.
Proof. unfold lo128, W128. change 340282366920938463463374607431768211455 with (Z.ones 128).
  rewrite Z.land_ones by lia. reflexivity. Qed.
Lemma land1_mod x : Z.land x 1 = x mod 2.
Proof. change 1 with (Z.ones 1). rewrite Z.land_ones by lia. reflexivity. Qed.

Lemma lo64_small x : word x -> lo64 x = x.
Proof. intros; rewrite lo64_mod; apply Z.mod_small; auto. Qed.

Lemma shiftr64 z : Z.shiftr z 64 = z / W64.
Proof. rewrite Z.shiftr_div_pow2 by lia. reflexivity. Qed.

Lemma Wn_pos n : 0 < Wn n.
Proof. induction n; cbn [Wn]; unfold W64 in *; lia. Qed.
Lemma Wn_pow n : Wn n = W64 ^ Z.of_nat n.
Proof. induction n; [reflexivity|]. cbn [Wn]. rewrite Nat2Z.inj_succ, Z.pow_succ_r by lia. lia. Qed.
Lemma Wn_add a b : Wn (a + b) = Wn a * Wn b.
Proof. induction a; cbn [Wn plus]; lia. Qed.

Lemma word_0 : word 0. Proof. unfold word, W64; lia. Qed.
Lemma word_bit x : bit x -> word x. Proof. unfold word, bit, W64; lia. Qed.
#[global] Hint Resolve word_0 word_bit : core.

Lemma words_cons x l : words (x :: l) <-> word x /\ words l.
Proof. split; [intros H; inversion H; auto | intros []; constructor; auto]. Qed.
Lemma words_app a b : words (a ++ b) <-> words a /\ words b.
Proof. apply Forall_app. Qed.
Lemma words_nil : words []. Proof. constructor. Qed.
#[global] Hint Resolve words_nil : core.
Lemma words_repeat0 n : words (repeat 0 n).
Proof. induction n; cbn; [constructor | constructor; auto]. Qed.
#[global] Hint Resolve words_repeat0 : core.
Lemma eval_repeat0 n : eval (repeat 0 n) = 0.
Proof. induction n; cbn [repeat eval]; lia. Qed.
Lemma eval_app a b : eval (a ++ b) = eval a + Wn (length a) * eval b.
Proof. induction a; cbn [app eval length Wn]; [lia|]. rewrite IHa. unfold W64. lia. Qed.

Lemma eval_bound l : words l -> 0 <= eval l < Wn (length l).
Proof.
  induction l as [|x l IH]; intros H; cbn [eval length Wn]; [lia|].
  apply words_cons in H as [Hx Hl]. specialize (IH Hl). unfold word, W64 in *. nia.
Qed.

Lemma eval_inj a : forall b, words a -> words b -> length a = length b -> eval a = eval b -> a = b.
Proof.
  induction a as [|x a IH]; intros [|y b] Ha Hb Hl He; cbn [length eval] in *; try discriminate; auto.
  apply words_cons in Ha as [Hx Ha]. apply words_cons in Hb as [Hy Hb].
  injection Hl as Hl. unfold word, W64 in *.
  assert (x = y) by lia. subst. f_equal. apply IH; auto. lia.
Qed.

(** ** Helpers *)
Lemma addcarry_spec x y c : word x -> word y -> bit c ->
  forall d e, addcarry_u64 x y c = (d, e) -> d + W64 * e = x + y + c /\ word d /\ bit e.
Proof.
  unfold word, bit, addcarry_u64. intros Hx Hy Hc d e.
  rewrite lo64_mod, shiftr64, lo128_mod. intros [= <- <-].
  rewrite (Z.mod_small (x+y+c)) by (unfold W64, W128 in *; lia).
  unfold W64 in *. lia.
Qed.

Lemma subborrow_spec x y c : word x -> word y -> bit c ->
  forall d e, subborrow_u64 x y c = (d, e) -> d - W64 * e = x - y - c /\ word d /\ bit e.
Proof.
  unfold word, bit, subborrow_u64. intros Hx Hy Hc d e.
  rewrite lo64_mod, Z.shiftr_div_pow2, !lo128_mod by lia. intros [= <- <-].
  change (2 ^ 127) with 170141183460469231731687303715884105728.
  rewrite Zminus_mod_idemp_l.
  unfold W64, W128 in *. lia.
Qed.

Lemma umull_spec x y : word x -> word y ->
  forall d e, umull x y = (d, e) -> d + W64 * e = x * y /\ word d /\ word e.
Proof.
  unfold word, umull. intros Hx Hy d e. rewrite lo64_mod, shiftr64. intros [= <- <-].
  assert (0 <= x * y <= (W64-1)*(W64-1)) by (unfold W64; nia).
  generalize dependent (x * y). intros m Hm. unfold W64 in *. lia.
Qed.

Lemma umull_add_spec x y z : word x -> word y -> word z ->
  forall d e, umull_add x y z = (d, e) -> d + W64 * e = x * y + z /\ word d /\ word e.
Proof.
  unfold word, umull_add. intros Hx Hy Hz d e. rewrite lo64_mod, shiftr64, lo128_mod. intros [= <- <-].
  assert (0 <= x * y <= (W64-1)*(W64-1)) by (unfold W64; nia).
  generalize dependent (x * y). intros m Hm.
  rewrite (Z.mod_small (m+z)) by (unfold W64, W128 in *; lia).
  unfold W64, W128 in *. lia.
Qed.

Lemma umull_add2_spec x y z1 z2 : word x -> word y -> word z1 -> word z2 ->
  forall d e, umull_add2 x y z1 z2 = (d, e) -> d + W64 * e = x * y + z1 + z2 /\ word d /\ word e.
Proof.
  unfold word, umull_add2. intros Hx Hy Hz Hz2 d e. rewrite lo64_mod, shiftr64, !lo128_mod. intros [= <- <-].
  assert (0 <= x * y <= (W64-1)*(W64-1)) by (unfold W64; nia).
  generalize dependent (x * y). intros m Hm.
  rewrite (Z.mod_small (m+z1)) by (unfold W64, W128 in *; lia).
  rewrite (Z.mod_small (m+z1+z2)) by (unfold W64, W128 in *; lia).
  unfold W64, W128 in *. lia.
Qed.

(** x1*y1 + x2*y2 + z3 when it does not overflow 128 bits *)
Lemma umull_x2_add_spec x1 y1 x2 y2 z : word x1 -> word y1 -> word x2 -> word y2 -> word z ->
  x1 * y1 + x2 * y2 + z < W128 ->
  forall d e, umull_x2_add x1 y1 x2 y2 z = (d, e) -> d + W64 * e = x1 * y1 + x2 * y2 + z /\ word d /\ word e.
Proof.
  unfold word, umull_x2_add. intros H1 H2 H3 H4 Hz Hb d e. rewrite !lo64_mod, shiftr64, !lo128_mod. intros [= <- <-].
  assert (0 <= x1 * y1 <= (W64-1)*(W64-1)) by (unfold W64; nia).
  assert (0 <= x2 * y2 <= (W64-1)*(W64-1)) by (unfold W64; nia).
  generalize dependent (x1 * y1). intros m Hm ?. generalize dependent (x2 * y2). intros m2 Hm2 ?.
  rewrite (Z.mod_small (m+m2)) by (unfold W64, W128 in *; lia).
  rewrite (Z.mod_small (m+m2+z)) by (unfold W64, W128 in *; lia).
  unfold W64, W128 in *. lia.
Qed.
Lemma umull_x2_spec x1 y1 x2 y2 : word x1 -> word y1 -> word x2 -> word y2 ->
  x1 * y1 + x2 * y2 < W128 ->
  forall d e, umull_x2 x1 y1 x2 y2 = (d, e) -> d + W64 * e = x1 * y1 + x2 * y2 /\ word d /\ word e.
Proof.
  intros H1 H2 H3 H4 Hb d e. intros E.
  assert (E2: umull_x2_add x1 y1 x2 y2 0 = (d, e)).
  { rewrite <- E. unfold umull_x2, umull_x2_add. rewrite Z.add_0_r. rewrite !lo128_mod.
    rewrite Zmod_mod. reflexivity. }
  destruct (umull_x2_add_spec x1 y1 x2 y2 0 H1 H2 H3 H4 word_0 ltac:(lia) _ _ E2) as (? & ? & ?).
  split; [lia|auto].
Qed.

Lemma sgnw_spec x : word x -> sgnw x = if x <? 9223372036854775808 then 0 else W64 - 1.
Proof.
  unfold word, sgnw, to_i64. intros Hx. rewrite lo64_mod, Z.shiftr_div_pow2 by lia.
  change (2 ^ 63) with 9223372036854775808. unfold W64 in *.
  destruct (Z.ltb_spec x 9223372036854775808); lia.
Qed.

Lemma wneg_bit e : bit e -> wneg e = if e =? 1 then W64 - 1 else 0.
Proof. unfold bit, wneg. rewrite lo64_mod. intros. destruct (Z.eqb_spec e 1); unfold W64; lia. Qed.

Lemma land_mask_ones x : word x -> Z.land (W64 - 1) x = x.
Proof. intros. rewrite Z.land_comm. change (W64 - 1) with (Z.ones 64). rewrite Z.land_ones by lia.
  apply Z.mod_small. exact H. Qed.

Lemma masked_ones l : words l -> masked (W64 - 1) l = l.
Proof. induction l; intros H; [reflexivity|]. apply words_cons in H as [? ?].
  unfold masked in *. cbn [map]. rewrite land_mask_ones, IHl; auto. Qed.
Lemma masked_zero l : masked 0 l = repeat 0 (length l).
Proof. induction l; [reflexivity|]. unfold masked in *. cbn [map repeat length]. rewrite IHl.
  rewrite Z.land_0_l. reflexivity. Qed.

(** ** Carry loops *)
Lemma add_loop_spec a : forall b c, words a -> words b -> length a = length b -> bit c ->
  forall d e, add_loop a b c = (d, e) ->
  eval d + Wn (length a) * e = eval a + eval b + c /\ words d /\ length d = length a /\ bit e.
Proof.
  induction a as [|x a IH]; intros [|y b] c Ha Hb Hl Hc d e E; cbn [length] in Hl; try discriminate.
  - cbn in E. injection E as <- <-. cbn [eval length Wn]. split; [lia|auto].
  - cbn [add_loop] in E.
    apply words_cons in Ha as [Hx Ha]. apply words_cons in Hb as [Hy Hb]. injection Hl as Hl.
    destruct (addcarry_u64 x y c) as [d0 e0] eqn:E0.
    apply addcarry_spec in E0; auto. destruct E0 as (E0 & Hd0 & He0).
    destruct (add_loop a b e0) as [ds co] eqn:E1.
    injection E as <- <-.
    destruct (IH b e0 Ha Hb Hl He0 _ _ E1) as (E2 & Hds & Hlen & Hco).
    cbn [eval length Wn].
    repeat split; auto; [|apply words_cons; auto|apply Hco|apply Hco].
    unfold W64 in *. lia.
Qed.

Lemma sub_loop_spec a : forall b c, words a -> words b -> length a = length b -> bit c ->
  forall d e, sub_loop a b c = (d, e) ->
  eval d - Wn (length a) * e = eval a - eval b - c /\ words d /\ length d = length a /\ bit e.
Proof.
  induction a as [|x a IH]; intros [|y b] c Ha Hb Hl Hc d e E; cbn [length] in Hl; try discriminate.
  - cbn in E. injection E as <- <-. cbn [eval length Wn]. split; [lia|auto].
  - cbn [sub_loop] in E.
    apply words_cons in Ha as [Hx Ha]. apply words_cons in Hb as [Hy Hb]. injection Hl as Hl.
    destruct (subborrow_u64 x y c) as [d0 e0] eqn:E0.
    apply subborrow_spec in E0; auto. destruct E0 as (E0 & Hd0 & He0).
    destruct (sub_loop a b e0) as [ds co] eqn:E1.
    injection E as <- <-.
    destruct (IH b e0 Ha Hb Hl He0 _ _ E1) as (E2 & Hds & Hlen & Hco).
    cbn [eval length Wn].
    repeat split; auto; [|apply words_cons; auto|apply Hco|apply Hco].
    unfold W64 in *. lia.
Qed.

Lemma row_add2_spec f m : forall t c, word f -> words m -> words t -> length m = length t -> word c ->
  forall d e, row_add2 f m t c = (d, e) ->
  eval d + Wn (length m) * e = f * eval m + eval t + c /\ words d /\ length d = length m /\ word e.
Proof.
  induction m as [|x m IH]; intros [|y t] c Hf Hm Ht Hl Hc d e E; cbn [length] in Hl; try discriminate.
  - cbn in E. injection E as <- <-. cbn [eval length Wn]. split; [lia|auto].
  - cbn [row_add2] in E.
    apply words_cons in Hm as [Hx Hm]. apply words_cons in Ht as [Hy Ht]. injection Hl as Hl.
    destruct (umull_add2 f x y c) as [d0 e0] eqn:E0.
    apply umull_add2_spec in E0; auto. destruct E0 as (E0 & Hd0 & He0).
    destruct (row_add2 f m t e0) as [ds co] eqn:E1.
    injection E as <- <-.
    destruct (IH t e0 Hf Hm Ht Hl He0 _ _ E1) as (E2 & Hds & Hlen & Hco).
    cbn [eval length Wn].
    repeat split; auto; [|apply words_cons; auto|apply Hco|apply Hco].
    unfold W64 in *. lia.
Qed.

Lemma row_first_spec f m : forall c, word f -> words m -> word c ->
  forall d e, row_first f m c = (d, e) ->
  eval d + Wn (length m) * e = f * eval m + c /\ words d /\ length d = length m /\ word e.
Proof.
  induction m as [|x m IH]; intros c Hf Hm Hc d e E.
  - cbn in E. injection E as <- <-. cbn [eval length Wn]. split; [lia|auto].
  - cbn [row_first] in E.
    apply words_cons in Hm as [Hx Hm].
    destruct (umull_add f x c) as [d0 e0] eqn:E0.
    apply umull_add_spec in E0; auto. destruct E0 as (E0 & Hd0 & He0).
    destruct (row_first f m e0) as [ds co] eqn:E1.
    injection E as <- <-.
    destruct (IH e0 Hf Hm He0 _ _ E1) as (E2 & Hds & Hlen & Hco).
    cbn [eval length Wn].
    repeat split; auto; [|apply words_cons; auto|apply Hco|apply Hco].
    unfold W64 in *. lia.
Qed.

Lemma mul_row_spec f g a : forall m t c1 c2, word f -> word g -> words a -> words m -> words t ->
  length a = length m -> length a = length t -> word c1 -> word c2 ->
  forall d e1 e2, mul_row f g a m t c1 c2 = (d, e1, e2) ->
  eval d + Wn (length a) * (e1 + e2) = f * eval a + g * eval m + eval t + c1 + c2
  /\ words d /\ length d = length a /\ word e1 /\ word e2.
Proof.
  induction a as [|x a IH]; intros [|y m] [|z t] c1 c2 Hf Hg Ha Hm Ht Hl1 Hl2 Hc1 Hc2 d e1 e2 E;
    cbn [length] in Hl1, Hl2; try discriminate.
  - cbn in E. injection E as <- <- <-. cbn [eval length Wn]. split; [lia|auto].
  - cbn [mul_row] in E.
    apply words_cons in Ha as [Hx Ha]. apply words_cons in Hm as [Hy Hm]. apply words_cons in Ht as [Hz Ht].
    injection Hl1 as Hl1. injection Hl2 as Hl2.
    destruct (umull_add2 f x z c1) as [d0 h1] eqn:E0.
    apply umull_add2_spec in E0; auto. destruct E0 as (E0 & Hd0 & Hh1).
    destruct (umull_add2 g y d0 c2) as [d1 h2] eqn:E1.
    apply umull_add2_spec in E1; auto. destruct E1 as (E1 & Hd1 & Hh2).
    destruct (mul_row f g a m t h1 h2) as [[ds q1] q2] eqn:E2.
    injection E as <- <- <-.
    destruct (IH m t h1 h2 Hf Hg Ha Hm Ht Hl1 Hl2 Hh1 Hh2 _ _ _ E2) as (E3 & Hds & Hlen & Hq1 & Hq2).
    cbn [eval length Wn].
    repeat split; auto; [|apply words_cons; auto|apply Hq1|apply Hq1|apply Hq2|apply Hq2].
    unfold W64 in *. lia.
Qed.
