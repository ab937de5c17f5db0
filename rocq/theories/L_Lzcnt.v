(** The branchless leading-zero count. *)
From Coq Require Import ZArith List Lia Bool.
From Verif Require Import S_Fp M_Utils64 L_Words L_Bits.
Open Scope Z_scope.
Ltac Zify.zify_post_hook ::= Z.div_mod_to_equations.

Lemma bitlength_spec x : 0 < x -> 2 ^ (bitlength x - 1) <= x < 2 ^ bitlength x.
Proof.
  intros H. unfold bitlength. destruct (Z.eqb_spec x 0); [lia|]. pose proof (Z.log2_spec x H).
  replace (Z.log2 x + 1 - 1) with (Z.log2 x) by lia. exact H0.
Qed.

Lemma bitlength_shift x k : 0 <= k -> 2 ^ k <= x -> bitlength (Z.shiftr x k) = bitlength x - k.
Proof.
  intros Hk Hx. assert (0 < 2 ^ k) by (apply Z.pow_pos_nonneg; lia). unfold bitlength.
  assert (Z.shiftr x k <> 0).
  { rewrite Z.shiftr_div_pow2 by auto. assert (1 <= x / 2 ^ k) by (apply Z.div_le_lower_bound; lia). lia. }
  destruct (Z.eqb_spec x 0); [lia|]. destruct (Z.eqb_spec (Z.shiftr x k) 0); [lia|].
  rewrite Z.log2_shiftr by lia. apply Z.log2_le_pow2 in Hx; lia.
Qed.

Lemma lz_stage_ok k s x : In k (2 :: 4 :: 8 :: 16 :: 32 :: nil) -> (exists q, s = q * (2 * k)) -> 0 <= x < 2 ^ (2 * k) ->
  exists s' x', lz_stage k s x = (s', x') /\ (exists q, s' = q * k) /\ 0 <= x' < 2 ^ k /\
    s' + (k - bitlength x') = s + (2 * k - bitlength x).
Proof.
  intros Hk Hs Hx. assert (K : 0 < k <= 32) by (cbn in Hk; intuition lia).
  assert (Kp : exists j, 0 <= j /\ k = 2 ^ j /\ word k).
  { cbn in Hk. destruct Hk as [<-|[<-|[<-|[<-|[<-|[]]]]]]; [exists 1|exists 2|exists 3|exists 4|exists 5]; unfold word; (split; [lia|]); (split; [reflexivity|lia]). }
  destruct Kp as (j & Hj & Kj & Kw).
  assert (Wx : word x). { unfold word. change 18446744073709551616 with (2 ^ 64).
    assert (2 ^ (2 * k) <= 2 ^ 64) by (apply Z.pow_le_mono_r; lia). lia. }
  unfold lz_stage. assert (Wsh : word (Z.shiftr x k)) by (apply word_shiftr; auto; lia).
  assert (P2 : 0 < 2 ^ k) by (apply Z.pow_pos_nonneg; lia).
  assert (M : sgnw (wsub (Z.shiftr x k) 1) = if x <? 2 ^ k then W64 - 1 else 0).
  { assert (Esh : Z.shiftr x k = x / 2 ^ k) by (apply Z.shiftr_div_pow2; lia).
    destruct (Z.ltb_spec x (2 ^ k)).
    - rewrite Esh, Z.div_small by lia. reflexivity.
    - assert (1 <= Z.shiftr x k) by (rewrite Esh; apply Z.div_le_lower_bound; lia).
      assert (Z.shiftr x k < 2 ^ 32).
      { rewrite Esh. apply Z.div_lt_upper_bound; auto. rewrite <- Z.pow_add_r by lia.
        assert (2 ^ (2 * k) <= 2 ^ (k + 32)) by (apply Z.pow_le_mono_r; lia). lia. }
      unfold wsub. rewrite lo64_small by (unfold word in *; lia).
      rewrite sgnw_spec by (unfold word in *; lia).
      destruct (Z.ltb_spec (Z.shiftr x k - 1) 9223372036854775808); [reflexivity|lia]. }
  rewrite M. destruct Hs as [q Hs]. destruct (Z.ltb_spec x (2 ^ k)).
  - do 2 eexists. split; [reflexivity|]. rewrite land_mask_ones by auto.
    rewrite (Z.lxor_comm x), sel_ones by auto.
    replace s with (q * 2 ^ (j + 1)) by (rewrite Hs, Z.pow_add_r, Kj by lia; lia).
    rewrite lor_shift_add; [|lia|rewrite Z.pow_add_r by lia; lia].
    replace (q * 2 ^ (j + 1)) with s by (rewrite Hs, Z.pow_add_r, Kj by lia; lia).
    split; [exists (2 * q + 1); lia|]. split; lia.
  - do 2 eexists. split; [reflexivity|]. rewrite Z.land_0_l, Z.lor_0_r, (Z.lxor_comm x), sel_zero.
    split; [exists (2 * q); lia|]. split.
    + rewrite Z.shiftr_div_pow2 by lia. split; [apply Z.div_pos; lia|]. apply Z.div_lt_upper_bound; auto.
      rewrite <- Z.pow_add_r by lia. replace (k + k) with (2 * k) by lia. lia.
    + rewrite bitlength_shift by lia. lia.
Qed.

Lemma lzcnt_ok x : word x -> lzcnt x = 64 - bitlength x.
Proof.
  intros Hx. unfold lzcnt.
  destruct (lz_stage_ok 32 0 x) as (s1 & x1 & -> & S1 & X1 & E1); [cbn; tauto|exists 0; lia|exact Hx|].
  destruct (lz_stage_ok 16 s1 x1) as (s2 & x2 & -> & S2 & X2 & E2); [cbn; tauto|destruct S1 as [q ->]; exists q; lia|exact X1|].
  destruct (lz_stage_ok 8 s2 x2) as (s3 & x3 & -> & S3 & X3 & E3); [cbn; tauto|destruct S2 as [q ->]; exists q; lia|exact X2|].
  destruct (lz_stage_ok 4 s3 x3) as (s4 & x4 & -> & S4 & X4 & E4); [cbn; tauto|destruct S3 as [q ->]; exists q; lia|exact X3|].
  destruct (lz_stage_ok 2 s4 x4) as (s5 & x5 & -> & S5 & X5 & E5); [cbn; tauto|destruct S4 as [q ->]; exists q; lia|exact X4|].
  assert (B : 0 <= bitlength x <= 64).
  { unfold bitlength. destruct (Z.eqb_spec x 0); [lia|]. unfold word in Hx.
    assert (Z.log2 x < 64) by (apply Z.log2_lt_pow2; lia). pose proof (Z.log2_nonneg x). lia. }
  change (2 ^ 2) with 4 in X5.
  assert (F : Z.land (wsub 2 x5) (Z.shiftr (wsub x5 3) 2) = 2 - bitlength x5).
  { assert (x5 = 0 \/ x5 = 1 \/ x5 = 2 \/ x5 = 3) as [->|[->|[->| ->]]] by lia; reflexivity. }
  rewrite F. unfold wadd. rewrite lo64_small, lo32_mod by (unfold word; lia). rewrite Z.mod_small by (unfold W32; lia). lia.
Qed.
