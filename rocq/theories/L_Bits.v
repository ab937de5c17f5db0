(** Bit-level facts about words: masks, selection, shifts joined by [or]. *)
From Coq Require Import ZArith List Lia Bool.
From Verif Require Import S_Fp M_Utils64 M_Fp L_Words.
Import ListNotations.
Open Scope Z_scope.
Ltac Zify.zify_post_hook ::= Z.div_mod_to_equations.

Lemma land_shift_small a b k : 0 <= k -> 0 <= b < 2 ^ k -> Z.land (a * 2 ^ k) b = 0.
Proof.
  intros Hk Hb. apply Z.bits_inj'. intros i Hi. rewrite Z.land_spec, Z.bits_0.
  destruct (Z.ltb_spec i k).
  - rewrite Z.mul_pow2_bits_low by lia. reflexivity.
  - rewrite <- (Z.mod_small b (2 ^ k)) by lia. rewrite Z.mod_pow2_bits_high by lia. apply andb_false_r.
Qed.

Lemma lor_shift_add a b k : 0 <= k -> 0 <= b < 2 ^ k -> Z.lor (a * 2 ^ k) b = a * 2 ^ k + b.
Proof.
  intros Hk Hb. pose proof (land_shift_small a b k Hk Hb) as H.
  rewrite Z.add_nocarry_lxor by auto. symmetry. apply Z.lxor_lor. auto.
Qed.

Lemma word_bits x : word x <-> 0 <= x /\ forall i, 64 <= i -> Z.testbit x i = false.
Proof.
  unfold word. change 18446744073709551616 with (2 ^ 64). split.
  - intros H. split; [lia|]. intros i Hi. rewrite <- (Z.mod_small x (2 ^ 64)) by lia.
    apply Z.mod_pow2_bits_high. lia.
  - intros [H0 H]. split; [auto|].
    assert (x = x mod 2 ^ 64) as ->.
    { apply Z.bits_inj'. intros i Hi. destruct (Z.ltb_spec i 64).
      - rewrite Z.mod_pow2_bits_low by lia. auto.
      - rewrite Z.mod_pow2_bits_high by lia. apply H. lia. }
    apply Z.mod_pos_bound. reflexivity.
Qed.

Lemma word_lor a b : word a -> word b -> word (Z.lor a b).
Proof.
  rewrite !word_bits. intros [Ha Ha'] [Hb Hb']. split; [apply Z.lor_nonneg; auto|].
  intros i Hi. rewrite Z.lor_spec, Ha', Hb' by auto. reflexivity.
Qed.
Lemma word_lxor a b : word a -> word b -> word (Z.lxor a b).
Proof.
  rewrite !word_bits. intros [Ha Ha'] [Hb Hb']. split; [apply Z.lxor_nonneg; tauto|].
  intros i Hi. rewrite Z.lxor_spec, Ha', Hb' by auto. reflexivity.
Qed.
Lemma word_land a b : word a -> word b -> word (Z.land a b).
Proof.
  rewrite !word_bits. intros [Ha Ha'] [Hb Hb']. split; [apply Z.land_nonneg; auto|].
  intros i Hi. rewrite Z.land_spec, Ha', Hb' by auto. reflexivity.
Qed.
Lemma word_shiftr a k : 0 <= k -> word a -> word (Z.shiftr a k).
Proof.
  intros Hk. rewrite !word_bits. intros [Ha Ha']. split; [apply Z.shiftr_nonneg; auto|].
  intros i Hi. rewrite Z.shiftr_spec by lia. apply Ha'. lia.
Qed.
#[global] Hint Resolve word_lor word_lxor word_land : core.

(** Selection: [wa ^ (c & (wa ^ wb))] with c all-ones or zero. *)
Lemma sel_ones a b : word a -> word b -> Z.lxor a (Z.land (W64 - 1) (Z.lxor a b)) = b.
Proof.
  intros Ha Hb. rewrite land_mask_ones by (apply word_lxor; auto).
  rewrite <- Z.lxor_assoc, Z.lxor_nilpotent. apply Z.lxor_0_l.
Qed.
Lemma sel_zero a b : Z.lxor a (Z.land 0 (Z.lxor a b)) = a.
Proof. rewrite Z.land_0_l. apply Z.lxor_0_r. Qed.

(** xor with an all-ones word is the complement *)
Lemma lxor_ones a : word a -> Z.lxor a (W64 - 1) = W64 - 1 - a.
Proof.
  intros Ha. change (W64 - 1) with (Z.ones 64).
  assert (H : Z.land (Z.lxor a (Z.ones 64)) a = 0).
  { apply Z.bits_inj'. intros i Hi. rewrite Z.land_spec, Z.lxor_spec, Z.bits_0.
    apply word_bits in Ha as [Ha Ha'].
    destruct (Z.ltb_spec i 64).
    - rewrite Z.ones_spec_low by lia. destruct (Z.testbit a i); reflexivity.
    - rewrite Ha' by lia. apply andb_false_r. }
  apply Z.add_nocarry_lxor in H.
  rewrite Z.lxor_assoc, (Z.lxor_comm _ a), <- Z.lxor_assoc, Z.lxor_nilpotent, Z.lxor_0_l in H. lia.
Qed.

Lemma shiftr63 w : Z.shiftr w 63 = w / 9223372036854775808.
Proof. rewrite Z.shiftr_div_pow2 by lia. reflexivity. Qed.
Lemma shiftr1 w : Z.shiftr w 1 = w / 2.
Proof. rewrite Z.shiftr_div_pow2 by lia. reflexivity. Qed.

Lemma bit_shiftr63 w : word w -> bit (Z.shiftr w 63).
Proof. rewrite shiftr63. unfold word, bit, W64. lia. Qed.

(** doubling one word with carry in *)
Lemma dbl_word w c : word w -> bit c ->
  Z.lor (wshl w 1) c + W64 * Z.shiftr w 63 = 2 * w + c /\ word (Z.lor (wshl w 1) c).
Proof.
  intros Hw Hc. unfold wshl. rewrite lo64_mod, Z.shiftl_mul_pow2 by lia. change (2 ^ 1) with 2.
  assert (E : (w * 2) mod W64 = (w mod 9223372036854775808) * 2 ^ 1) by (unfold W64; lia).
  rewrite E, lor_shift_add by (unfold bit in Hc; lia). rewrite shiftr63.
  unfold word, bit, W64 in *. lia.
Qed.

(** funnel shift right by one *)
Lemma shr1_word x y : word x -> word y ->
  Z.lor (Z.shiftr x 1) (wshl y 63) = x / 2 + 9223372036854775808 * (y mod 2)
  /\ word (Z.lor (Z.shiftr x 1) (wshl y 63)).
Proof.
  intros Hx Hy. unfold wshl. rewrite lo64_mod, Z.shiftl_mul_pow2, shiftr1 by lia.
  change (2 ^ 63) with 9223372036854775808.
  assert (E : (y * 9223372036854775808) mod W64 = (y mod 2) * 2 ^ 63) by (unfold W64; change (2^63) with 9223372036854775808; lia).
  rewrite E, Z.lor_comm, lor_shift_add by (change (2^63) with 9223372036854775808; unfold word in *; lia).
  change (2 ^ 63) with 9223372036854775808. unfold word in *. lia.
Qed.

(** x | -x has its top bit set iff x <> 0 *)
Lemma nz_top x : word x -> Z.shiftr (Z.lor x (wneg x)) 63 = if x =? 0 then 0 else 1.
Proof.
  intros Hx. rewrite Z.shiftr_lor, !shiftr63. unfold wneg. rewrite lo64_mod.
  destruct (Z.eqb_spec x 0) as [->|Hn]; [reflexivity|].
  assert (H1 : x / 9223372036854775808 = 0 \/ x / 9223372036854775808 = 1) by (unfold word in *; lia).
  assert (H2 : (- x) mod W64 / 9223372036854775808 = 0 \/ (- x) mod W64 / 9223372036854775808 = 1) by (unfold word, W64 in *; lia).
  destruct H1 as [H1|H1], H2 as [H2|H2]; rewrite H1, H2; try reflexivity.
  exfalso. unfold word, W64 in *. lia.
Qed.

Lemma word_wneg' x : word (wneg x). Proof. unfold wneg. rewrite lo64_mod. apply Z.mod_pos_bound. reflexivity. Qed.

Lemma nz_sgnw x : word x -> sgnw (Z.lor x (wneg x)) = if x =? 0 then 0 else W64 - 1.
Proof.
  intros Hx. assert (Hw : word (Z.lor x (wneg x))) by (apply word_lor; auto; apply word_wneg').
  pose proof (nz_top x Hx) as H. rewrite shiftr63 in H. rewrite sgnw_spec by auto.
  unfold word in Hw. destruct (x =? 0).
  - destruct (Z.ltb_spec (Z.lor x (wneg x)) 9223372036854775808); lia.
  - destruct (Z.ltb_spec (Z.lor x (wneg x)) 9223372036854775808); lia.
Qed.

Lemma lor_eq_0 a b : Z.lor a b = 0 <-> a = 0 /\ b = 0.
Proof. apply Z.lor_eq_0_iff. Qed.

(** ** Masks made of control words *)
Lemma ctl64_mask b : ctl64 (mask32 b) = if b then W64 - 1 else 0.
Proof. destruct b; reflexivity. Qed.

Lemma select_loop_ones a : forall b, words a -> words b -> length a = length b -> select_loop (W64 - 1) a b = b.
Proof.
  induction a as [|x a IH]; intros [|y b] Ha Hb Hl; cbn [length] in Hl; try discriminate; [reflexivity|].
  apply words_cons in Ha as [Hx Ha]. apply words_cons in Hb as [Hy Hb]. cbn [select_loop].
  rewrite sel_ones, IH; auto.
Qed.
Lemma select_loop_zero a : forall b, length a = length b -> select_loop 0 a b = a.
Proof.
  induction a as [|x a IH]; intros [|y b] Hl; cbn [length] in Hl; try discriminate; [reflexivity|].
  cbn [select_loop]. rewrite sel_zero, IH; auto.
Qed.

Lemma select_loop_mask m a b : words a -> words b -> length a = length b ->
  select_loop (ctl64 (mask32 m)) a b = if m then b else a.
Proof. intros. rewrite ctl64_mask. destruct m; [apply select_loop_ones|apply select_loop_zero]; auto. Qed.

Lemma condswap_loop_mask m a : forall b, words a -> words b -> length a = length b ->
  condswap_loop (ctl64 (mask32 m)) a b = if m then (b, a) else (a, b).
Proof.
  rewrite ctl64_mask.
  induction a as [|x a IH]; intros [|y b] Ha Hb Hl; cbn [length] in Hl; try discriminate; [destruct m; reflexivity|].
  apply words_cons in Ha as [Hx Ha]. apply words_cons in Hb as [Hy Hb]. cbn [condswap_loop].
  rewrite IH by auto. destruct m.
  - rewrite sel_ones, (Z.lxor_comm x y), sel_ones; auto.
  - rewrite sel_zero. rewrite Z.land_0_l, Z.lxor_0_r. reflexivity.
Qed.

Lemma xor_or_spec a : forall b r, words a -> words b -> word r -> length a = length b ->
  word (xor_or a b r) /\ (xor_or a b r = 0 <-> r = 0 /\ a = b).
Proof.
  induction a as [|x a IH]; intros [|y b] r Ha Hb Hr Hl; cbn [length] in Hl; try discriminate; cbn [xor_or].
  - intuition.
  - apply words_cons in Ha as [Hx Ha]. apply words_cons in Hb as [Hy Hb].
    destruct (IH b (Z.lor r (Z.lxor x y)) Ha Hb ltac:(auto) ltac:(auto)) as [H1 H2].
    split; auto. rewrite H2, lor_eq_0, Z.lxor_eq_0_iff. intuition congruence.
Qed.

Lemma equals_spec a b : words a -> words b -> length a = length b ->
  equals a b = mask32 (if list_eq_dec Z.eq_dec a b then true else false).
Proof.
  intros Ha Hb Hl. unfold equals. destruct (xor_or_spec a b 0 Ha Hb word_0 Hl) as [Hw Hz].
  rewrite nz_top by auto. destruct (list_eq_dec Z.eq_dec a b) as [E|E].
  - assert (xor_or a b 0 = 0) as -> by (apply Hz; auto). reflexivity.
  - destruct (Z.eqb_spec (xor_or a b 0) 0) as [H|H]; [apply Hz in H; tauto|reflexivity].
Qed.

Lemma fold_lor_spec l : forall r, words l -> word r ->
  word (fold_left Z.lor l r) /\ (fold_left Z.lor l r = 0 <-> r = 0 /\ eval l = 0).
Proof.
  induction l as [|x l IH]; intros r Hl Hr; cbn [fold_left eval]; [intuition|].
  apply words_cons in Hl as [Hx Hl]. destruct (IH (Z.lor r x) Hl ltac:(auto)) as [H1 H2].
  split; auto. rewrite H2, lor_eq_0. pose proof (eval_bound l Hl). unfold word in *.
  split; [intros [[-> ->] ->]; lia|]. intros [-> HE]. assert (x = 0) by lia. assert (eval l = 0) by lia. auto.
Qed.

Lemma iszero_spec a : words a -> a <> [] -> iszero a = mask32 (eval a =? 0).
Proof.
  intros Ha Hn. destruct a as [|x a]; [congruence|]. unfold iszero.
  apply words_cons in Ha as [Hx Ha].
  destruct (fold_lor_spec a x Ha Hx) as [Hw Hz]. rewrite nz_sgnw by auto. cbn [eval].
  pose proof (eval_bound a Ha). unfold word in Hx.
  destruct (Z.eqb_spec (fold_left Z.lor a x) 0) as [E|E].
  - apply Hz in E as [-> ->]. reflexivity.
  - destruct (Z.eqb_spec (x + 18446744073709551616 * eval a) 0) as [E'|E']; [|reflexivity].
    exfalso. apply E. apply Hz. lia.
Qed.
