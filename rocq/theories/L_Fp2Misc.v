(** Powers, batch inversion, encoding and the built-in non-square of the quadratic extension. *)
From Coq Require Import ZArith List Lia Bool Ring Field.
From Verif Require Import S_Fp S_Fp2 M_Utils64 M_Consts M_Fp M_Fp2 L_Words L_Bits L_Fp L_FpOps L_FpSmall L_FpCodec L_FpRoots L_Zp L_Zp2 L_Fp2.
Import ListNotations.
Open Scope Z_scope.

#[global] Opaque f2_mul f2_square f2_set_cond f2_iszero f2_div f2_invert.
Lemma cn2_mul x y : canon2 x -> canon2 y -> canon2 (f2_mul x y). Proof. apply f2_mul_ok. Qed.
Lemma cn2_square x : canon2 x -> canon2 (f2_square x). Proof. apply f2_square_ok. Qed.
Lemma cn2_div x y : canon2 x -> canon2 y -> canon2 (f2_div x y). Proof. apply f2_div_ok. Qed.
Lemma cn2_invert x : canon2 x -> canon2 (f2_invert x). Proof. apply f2_invert_ok. Qed.
Lemma fv2_mul x y : canon2 x -> canon2 y -> fv2 (f2_mul x y) = qmul (fv2 x) (fv2 y). Proof. apply f2_mul_ok. Qed.
Lemma fv2_square x : canon2 x -> fv2 (f2_square x) = qmul (fv2 x) (fv2 x). Proof. apply f2_square_ok. Qed.
Lemma fv2_div x y : canon2 x -> canon2 y -> fv2 (f2_div x y) = qdiv (fv2 x) (fv2 y). Proof. apply f2_div_ok. Qed.
Lemma fv2_invert x : canon2 x -> fv2 (f2_invert x) = qinv (fv2 x). Proof. apply f2_invert_ok. Qed.
#[global] Hint Resolve cn2_mul cn2_square cn2_div cn2_invert canon2_zero canon2_one : cn.

(** ** Powers *)
Definition qpow (x : Zq) (e : Z) : Zq := Nat.iter (Z.to_nat e) (qmul x) q1.
Lemma qmul_1_l x : qmul q1 x = x. Proof. qring. Qed.
Lemma qmul_1_r x : qmul x q1 = x. Proof. qring. Qed.
Lemma qmul_assoc x y z : qmul x (qmul y z) = qmul (qmul x y) z. Proof. qring. Qed.
Lemma qmul_comm x y : qmul x y = qmul y x. Proof. qring. Qed.
Lemma qpow_0 x : qpow x 0 = q1. Proof. reflexivity. Qed.
Lemma qpow_succ x e : 0 <= e -> qpow x (e + 1) = qmul x (qpow x e).
Proof. intros He. unfold qpow. rewrite Z2Nat.inj_add by lia. rewrite Nat.add_comm. reflexivity. Qed.
Lemma qpow_1 x : qpow x 1 = x. Proof. apply qmul_1_r. Qed.
Lemma qpow_add x a b : 0 <= a -> 0 <= b -> qpow x (a + b) = qmul (qpow x a) (qpow x b).
Proof.
  intros Ha Hb. revert a Ha. apply natlike_ind; [rewrite qpow_0, qmul_1_l; reflexivity|]. intros a Ha IH.
  replace (Z.succ a + b) with (a + b + 1) by lia. replace (Z.succ a) with (a + 1) by lia. rewrite !qpow_succ, IH by lia. apply qmul_assoc.
Qed.
Lemma qpow_dbl x a : 0 <= a -> qmul (qpow x a) (qpow x a) = qpow x (2 * a).
Proof. intros. replace (2 * a) with (a + a) by ring. rewrite qpow_add by auto. reflexivity. Qed.
Lemma qpow_S x a : 0 <= a -> qmul (qpow x a) x = qpow x (a + 1).
Proof. intros. rewrite qpow_succ by auto. apply qmul_comm. Qed.
Lemma b2z_nn b : 0 <= Z.b2z b. Proof. destruct b; cbn; lia. Qed.
Lemma qpow_bit x k b : 0 <= k -> (if b : bool then qmul (qpow x k) x else qpow x k) = qpow x (k + Z.b2z b).
Proof. intros. destruct b; cbn [Z.b2z]; [apply qpow_S; auto|rewrite Z.add_0_r; reflexivity]. Qed.

Lemma f2_pow_loop_ok x e : canon2 x -> bytes e -> forall eoff n acc k, canon2 acc -> 0 <= k -> fv2 acc = qpow (fv2 x) k -> (eoff + S n <= 8 * length e)%nat ->
  exists r, f2_pow_loop x e eoff (S n) acc = Some r /\ canon2 r /\
   fv2 r = qpow (fv2 x) (k * 2 ^ Z.of_nat n + (le_value e / 2 ^ Z.of_nat eoff) mod 2 ^ Z.of_nat (S n)).
Proof.
  intros Hx He eoff. induction n as [|n IH]; intros acc k Ha Hk Fa Hl.
  - cbn [f2_pow_loop]. destruct (nth_bit e He (eoff + 0)) as (b & -> & Hb); [lia|]. rewrite Hb, lo32_negbit.
    rewrite f2_set_cond_mask by cn. eexists. split; [reflexivity|].
    change (Z.of_nat 1) with (0 + 1). rewrite mod_pow2_succ by lia. change (2 ^ 0) with 1. rewrite Z.mod_1_r.
    rewrite Nat.add_0_r, <- Z.shiftr_div_pow2, Z.shiftr_spec, !Z.add_0_l, Z.mul_1_l by lia.
    change (2 ^ Z.of_nat 0) with 1. rewrite Z.mul_1_r. rewrite <- qpow_bit, <- Fa by auto.
    destruct (Z.testbit (le_value e) (Z.of_nat eoff)); (split; [cn|]); rewrite ?fv2_mul by cn; reflexivity.
  - change (f2_pow_loop x e eoff (S (S n)) acc) with
      (match nth_error e (Nat.div (eoff + S n) 8) with
      | None => None
      | Some byte =>
          let y := f2_mul acc x in
          let ctl := lo32 (- (Z.land (Z.shiftr byte (Z.of_nat (Nat.modulo (eoff + S n) 8))) 1)) in
          let acc := f2_set_cond acc y ctl in
          f2_pow_loop x e eoff (S n) (f2_square acc)
      end).
    destruct (nth_bit e He (eoff + S n)) as (b & -> & Hb); [lia|]. cbv zeta. rewrite Hb, lo32_negbit.
    rewrite f2_set_cond_mask by cn. set (bb := Z.testbit (le_value e) (Z.of_nat (eoff + S n))).
    set (acc' := if bb then f2_mul acc x else acc). pose proof (b2z_nn bb).
    assert (Ha' : canon2 acc') by (unfold acc'; destruct bb; cn).
    assert (Va' : fv2 acc' = qpow (fv2 x) (k + Z.b2z bb)).
    { rewrite <- qpow_bit, <- Fa by auto. unfold acc'. destruct bb; rewrite ?fv2_mul by cn; reflexivity. }
    destruct (IH (f2_square acc') (2 * (k + Z.b2z bb))) as (r & -> & Hr & Vr); [cn|lia|rewrite fv2_square, Va' by cn; apply qpow_dbl; lia|lia|].
    exists r. split; auto. split; auto. rewrite Vr. f_equal.
    replace (Z.of_nat (S (S n))) with (Z.of_nat (S n) + 1) by lia. rewrite (mod_pow2_succ _ (Z.of_nat (S n))) by lia.
    rewrite <- (Z.shiftr_div_pow2 _ (Z.of_nat eoff)), Z.shiftr_spec by lia.
    replace (Z.of_nat (S n) + Z.of_nat eoff) with (Z.of_nat (eoff + S n)) by lia. fold bb.
    replace (2 ^ Z.of_nat (S n)) with (2 * 2 ^ Z.of_nat n) by (rewrite Nat2Z.inj_succ, Z.pow_succ_r by lia; ring). ring.
Qed.
Lemma f2_pow_loop_oob x e : forall eoff n acc, (8 * length e < eoff + S n)%nat -> f2_pow_loop x e eoff (S n) acc = None.
Proof.
  intros eoff n acc H. cbn [f2_pow_loop].
  assert (E : nth_error e (Nat.div (eoff + n) 8) = None).
  { apply nth_error_None. apply Nat.div_le_lower_bound; lia. }
  rewrite E. reflexivity.
Qed.
Lemma f2_pow_ext_ok x e eoff n : canon2 x -> bytes e -> (n = 0%nat \/ (eoff + n <= 8 * length e)%nat) ->
  exists r, f2_pow_ext x e eoff n = Some r /\ canon2 r /\ fv2 r = qpow (fv2 x) ((le_value e / 2 ^ Z.of_nat eoff) mod 2 ^ Z.of_nat n).
Proof.
  intros Hx He Hn. unfold f2_pow_ext. destruct n as [|n].
  - exists f2_one. split; [reflexivity|]. split; [cn|]. rewrite fv2_one. change (2 ^ Z.of_nat 0) with 1. rewrite Z.mod_1_r. reflexivity.
  - destruct (f2_pow_loop_ok x e Hx He eoff n f2_one 0) as (r & -> & Hr & Vr); [cn|lia|exact fv2_one|lia|].
    exists r. split; auto.
Qed.
Lemma f2_pow_ok x e n : canon2 x -> bytes e -> (n <= 8 * length e)%nat -> le_value e < 2 ^ Z.of_nat n ->
  exists r, f2_pow x e n = Some r /\ canon2 r /\ fv2 r = qpow (fv2 x) (le_value e).
Proof.
  intros Hx He Hn Hb. destruct (f2_pow_ext_ok x e 0 n Hx He) as (r & E & Hr & Vr); [lia|]. exists r. unfold f2_pow. split; auto. split; auto. rewrite Vr. f_equal.
  change (2 ^ Z.of_nat 0) with 1. rewrite Z.div_1_r. apply Z.mod_small. pose proof (le_value_bound e He). lia.
Qed.
Lemma big_bytes_ok e : 0 <= e -> bytes (big_to_bytes_le e) /\ le_value (big_to_bytes_le e) = e /\ (big_bits e <= 8 * length (big_to_bytes_le e))%nat.
Proof.
  intros He. unfold big_to_bytes_le. pose proof (big_bits_spec e He) as Hb. destruct (Z.eqb_spec e 0) as [->|Hn].
  - split; [repeat constructor; unfold byte; lia|]. split; [reflexivity|cbn; lia].
  - set (k := Nat.div (big_bits e + 7) 8). assert (Hk : (big_bits e <= 8 * k)%nat).
    { unfold k. pose proof (Nat.div_mod_eq (big_bits e + 7) 8). pose proof (Nat.mod_upper_bound (big_bits e + 7) 8 ltac:(lia)). lia. }
    destruct (le_bytes_ok k e He) as (H1 & H2 & H3). split; auto. rewrite H2. split; auto.
    apply H3. rewrite Bn_pow. eapply Z.lt_le_trans; [exact Hb|]. apply Z.pow_le_mono_r; lia.
Qed.
Lemma f2_pow_big_ok x e : canon2 x -> 0 <= e -> exists r, f2_pow_big x e = Some r /\ canon2 r /\ fv2 r = qpow (fv2 x) e.
Proof.
  intros Hx He. destruct (big_bytes_ok e He) as (H1 & H2 & H3). pose proof (big_bits_spec e He) as Hb. unfold f2_pow_big.
  destruct (f2_pow_ok x _ (big_bits e) Hx H1 H3) as (r & E & Hr & Vr); [rewrite H2; auto|]. exists r. rewrite H2 in Vr. auto.
Qed.
Lemma big_bits_le e k : 0 <= e < 2 ^ Z.of_nat k -> (big_bits e <= k)%nat.
Proof.
  intros [H0 H1]. unfold big_bits. destruct (Z.eqb_spec e 0); [lia|].
  assert (Z.log2 e < Z.of_nat k) by (apply Z.log2_lt_pow2; lia). pose proof (Z.log2_nonneg e). lia.
Qed.
Lemma f2_pow_small_ok x e : canon2 x -> 0 <= e < 4294967296 -> exists r, f2_pow_small x e = Some r /\ canon2 r /\ fv2 r = qpow (fv2 x) e.
Proof.
  intros Hx He. destruct (le_bytes_ok 4 e ltac:(lia)) as (H1 & H2 & H3). rewrite Bn_pow in H3. specialize (H3 ltac:(apply He)).
  pose proof (big_bits_spec e ltac:(lia)) as Hb. pose proof (big_bits_le e 32 He).
  unfold f2_pow_small. destruct (f2_pow_ok x _ (big_bits e) Hx H1) as (r & E & Hr & Vr); [lia|lia|]. exists r. rewrite H3 in Vr. auto.
Qed.

Lemma lo32_bit e i : 0 <= e -> Z.land (lo32 (Z.shiftr e i)) 1 = Z.b2z (Z.testbit e i) \/ i < 0.
Proof.
  intros He. destruct (Z.ltb_spec i 0); auto. left. unfold lo32. rewrite land1_mod.
  rewrite Z.testbit_spec' by auto. rewrite Z.shiftr_div_pow2 by auto.
  change 4294967295 with (Z.ones 32). rewrite Z.land_ones by lia. symmetry. apply Znumtheory.Zmod_div_mod; try lia. exists 2147483648. reflexivity.
Qed.
Lemma lo32_bit' e i : 0 <= e -> Z.land (lo32 (Z.shiftr e (Z.of_nat i))) 1 = Z.b2z (Z.testbit e (Z.of_nat i)).
Proof. intros He. destruct (lo32_bit e (Z.of_nat i) He); auto. lia. Qed.
Lemma lo32_bit_m1 b : lo32 (Z.b2z b - 1) = mask32 (negb b). Proof. destruct b; reflexivity. Qed.
Lemma shr64_small c e i : (i < 64)%nat -> shr64 c e i = Some (Z.shiftr e (Z.of_nat i)).
Proof. intros H. unfold shr64. apply Nat.ltb_lt in H. rewrite H. reflexivity. Qed.
Lemma f2_pow_u64_loop_ok c x e : canon2 x -> 0 <= e -> forall n acc k, canon2 acc -> 0 <= k -> fv2 acc = qpow (fv2 x) k -> (n <= 64)%nat ->
  exists r, f2_pow_u64_loop c x e n acc = Some r /\ canon2 r /\ fv2 r = qpow (fv2 x) (k * 2 ^ Z.of_nat n + e mod 2 ^ Z.of_nat n).
Proof.
  intros Hx He. induction n as [|n IH]; intros acc k Ha Hk Fa Hn.
  - cbn [f2_pow_u64_loop]. exists acc. split; auto. split; auto. change (2 ^ Z.of_nat 0) with 1. rewrite Z.mod_1_r, Z.mul_1_r, Z.add_0_r. auto.
  - cbn [f2_pow_u64_loop]. rewrite shr64_small by lia. rewrite lo32_bit', lo32_negbit by auto. rewrite f2_set_cond_mask by cn.
    set (b := Z.testbit e (Z.of_nat n)). pose proof (b2z_nn b).
    set (acc' := if b then _ else _). assert (Ca : canon2 acc') by (unfold acc'; destruct b; cn).
    destruct (IH acc' (2 * k + Z.b2z b)) as (r & -> & Hr & Vr); [auto|lia| |lia|].
    { rewrite <- qpow_bit, <- qpow_dbl, <- Fa by lia. unfold acc'. destruct b; rewrite ?fv2_mul, fv2_square by cn; reflexivity. }
    exists r. split; auto. split; auto. rewrite Vr. f_equal.
    replace (Z.of_nat (S n)) with (Z.of_nat n + 1) by lia. rewrite mod_pow2_succ by lia. fold b. rewrite Z.pow_add_r by lia. ring.
Qed.
Lemma f2_pow_u64_ok c x e n : canon2 x -> 0 <= e -> (n <= 64)%nat ->
  exists r, f2_pow_u64 c x e n = Some r /\ canon2 r /\ fv2 r = qpow (fv2 x) (e mod 2 ^ Z.of_nat n).
Proof.
  intros Hx He Hn. destruct n as [|[|n]].
  - exists f2_one. split; [reflexivity|]. split; [cn|]. change (2 ^ Z.of_nat 0) with 1. rewrite Z.mod_1_r. apply fv2_one.
  - unfold f2_pow_u64. pose proof (lo32_bit' e 0 He) as B. cbn [Z.of_nat] in B. change (Z.shiftr e 0) with e in B. rewrite B, lo32_bit_m1, f2_set_cond_mask by cn.
    eexists. split; [reflexivity|]. change (2 ^ Z.of_nat 1) with 2. rewrite <- Z.bit0_mod. destruct (Z.testbit e 0); cbn [negb Z.b2z]; (split; [cn|]).
    + rewrite qpow_1. reflexivity.
    + apply fv2_one.
  - unfold f2_pow_u64. rewrite shr64_small by lia. rewrite lo32_bit', lo32_bit_m1, f2_set_cond_mask by cn.
    set (b := Z.testbit e (Z.of_nat (S n))). pose proof (b2z_nn b). set (acc := if negb b then _ else _). assert (Ca : canon2 acc) by (unfold acc; destruct b; cn).
    destruct (f2_pow_u64_loop_ok c x e Hx He (S n) acc (Z.b2z b)) as (r & -> & Hr & Vr); [auto|lia| |lia|].
    { unfold acc. destruct b; cbn [negb Z.b2z]; rewrite ?qpow_1; [reflexivity|apply fv2_one]. }
    exists r. split; auto. split; auto. rewrite Vr. f_equal. replace (Z.of_nat (S (S n))) with (Z.of_nat (S n) + 1) by lia. rewrite (mod_pow2_succ _ (Z.of_nat (S n))) by lia. fold b. ring.
Qed.

Lemma vt_tab x : canon2 x -> forall d, 1 <= d <= 3 -> exists t, nth (Z.to_nat d - 1) [x; f2_square x; f2_mul (f2_square x) x] f2_zero = t /\ canon2 t /\ fv2 t = qpow (fv2 x) d.
Proof.
  intros Hx d Hd. eexists. split; [reflexivity|]. assert (D : d = 1 \/ d = 2 \/ d = 3) by lia.
  assert (E2 : fv2 (f2_square x) = qpow (fv2 x) 2). { rewrite fv2_square by cn. rewrite <- (qpow_1 (fv2 x)) at 1 2. rewrite qpow_dbl by lia. reflexivity. }
  destruct D as [->|[->| ->]].
  - change (Z.to_nat 1 - 1)%nat with 0%nat. cbn [nth]. split; [cn|]. rewrite qpow_1. reflexivity.
  - change (Z.to_nat 2 - 1)%nat with 1%nat. cbn [nth]. split; [cn|auto].
  - change (Z.to_nat 3 - 1)%nat with 2%nat. cbn [nth]. split; [cn|]. rewrite fv2_mul, E2 by cn. rewrite qpow_S by lia. reflexivity.
Qed.
Lemma vt_loop_ok x e : canon2 x -> 0 <= e -> forall n acc k, canon2 acc -> 0 <= k -> fv2 acc = qpow (fv2 x) k ->
  let r := f2_pow_vt_loop x (f2_square x) (f2_mul (f2_square x) x) e n acc in
  canon2 r /\ fv2 r = qpow (fv2 x) (k * 2 ^ (2 * Z.of_nat n) + e mod 2 ^ (2 * Z.of_nat n)).
Proof.
  intros Hx He. induction n as [|n IH]; intros acc k Ha Hk Fa; cbn [f2_pow_vt_loop]; cbv zeta.
  - change (2 ^ (2 * Z.of_nat 0)) with 1. rewrite Z.mod_1_r, Z.mul_1_r, Z.add_0_r. auto.
  - set (d := Z.land (Z.shiftr e (2 * Z.of_nat n)) 3).
    assert (Ed : d = (e / 2 ^ (2 * Z.of_nat n)) mod 4). { unfold d. change 3 with (Z.ones 2). rewrite Z.land_ones, Z.shiftr_div_pow2 by lia. reflexivity. }
    assert (Hd : 0 <= d < 4) by (rewrite Ed; apply Z.mod_pos_bound; lia).
    set (a2 := f2_square (f2_square acc)). assert (C2 : canon2 a2) by (unfold a2; cn).
    assert (F2 : fv2 a2 = qpow (fv2 x) (4 * k)).
    { unfold a2. rewrite !fv2_square, Fa, !qpow_dbl by first [lia | cn]. f_equal. ring. }
    set (acc' := if d =? 0 then a2 else _). assert (A : canon2 acc' /\ fv2 acc' = qpow (fv2 x) (4 * k + d)).
    { unfold acc'. destruct (Z.eqb_spec d 0) as [->|Nd]; [rewrite Z.add_0_r; auto|].
      destruct (vt_tab x Hx d ltac:(lia)) as (t & -> & Ct & Ft). split; [cn|]. rewrite fv2_mul, F2, Ft by cn. symmetry. apply qpow_add; lia. }
    destruct A as [A1 A2]. destruct (IH acc' (4 * k + d) A1 ltac:(lia) A2) as [B1 B2]. split; auto. rewrite B2. f_equal.
    replace (2 * Z.of_nat (S n)) with (2 * Z.of_nat n + 2) by lia. rewrite Z.pow_add_r by lia. change (2 ^ 2) with 4.
    rewrite Z.rem_mul_r by (try lia; apply Z.pow_nonzero; lia). rewrite <- Ed. ring.
Qed.
Lemma f2_pow_vt_ok x e : canon2 x -> 0 <= e -> canon2 (f2_pow_u64_vartime x e) /\ fv2 (f2_pow_u64_vartime x e) = qpow (fv2 x) e.
Proof.
  intros Hx He. unfold f2_pow_u64_vartime.
  assert (E2 : fv2 (f2_square x) = qpow (fv2 x) 2). { rewrite fv2_square by cn. rewrite <- (qpow_1 (fv2 x)) at 1 2. rewrite qpow_dbl by lia. reflexivity. }
  destruct (Z.eqb_spec e 0) as [->|N0]; [split; [cn|apply fv2_one]|].
  destruct (Z.eqb_spec e 1) as [->|N1]; [split; [cn|symmetry; apply qpow_1]|].
  destruct (Z.eqb_spec e 2) as [->|N2]; [split; [cn|auto]|].
  destruct (Z.eqb_spec e 3) as [->|N3]; [split; [cn|]|].
  { rewrite fv2_mul, E2 by cn. rewrite qmul_comm, qpow_S by lia. reflexivity. }
  destruct (Z.eqb_spec e 4) as [->|N4]; [split; [cn|]|].
  { rewrite (fv2_square (f2_square x)), E2, qpow_dbl by (try cn; lia). reflexivity. }
  cbv zeta. set (h := Nat.div (big_bits e - 1) 2). set (d := Z.shiftr e (2 * Z.of_nat h)).
  assert (Hh : Z.of_nat h = Z.log2 e / 2).
  { unfold h, big_bits. destruct (Z.eqb_spec e 0); [lia|]. pose proof (Z.log2_nonneg e). rewrite Nat2Z.inj_div. f_equal. lia. }
  assert (Ed : d = e / 2 ^ (2 * Z.of_nat h)) by (unfold d; rewrite Z.shiftr_div_pow2 by lia; reflexivity).
  assert (Hd : 1 <= d <= 3).
  { pose proof (Z.log2_spec e ltac:(lia)) as [L1 L2]. pose proof (Z.log2_nonneg e).
    assert (Z.log2 e = 2 * Z.of_nat h \/ Z.log2 e = 2 * Z.of_nat h + 1) as HL by (rewrite Hh; Z.div_mod_to_equations; lia).
    set (H2 := 2 * Z.of_nat h) in *. assert (0 <= H2) by lia. assert (0 < 2 ^ H2) by (apply Z.pow_pos_nonneg; lia).
    rewrite Ed. split.
    - apply Z.div_le_lower_bound; auto. rewrite Z.mul_1_r. eapply Z.le_trans; [|exact L1]. apply Z.pow_le_mono_r; lia.
    - assert (e / 2 ^ H2 < 4); [|lia]. apply Z.div_lt_upper_bound; auto. eapply Z.lt_le_trans; [exact L2|]. change 4 with (2 ^ 2). rewrite <- Z.pow_add_r by lia. apply Z.pow_le_mono_r; lia. }
  destruct (vt_tab x Hx d Hd) as (t & E & Ct & Ft). rewrite E.
  destruct (vt_loop_ok x e Hx He h t d Ct ltac:(lia) Ft) as [A B]. split; auto. rewrite B. f_equal. rewrite Ed, Z.mul_comm. symmetry. apply Z.div_mod. apply Z.pow_nonzero; lia.
Qed.

(** ** Batch inversion *)
Definition qnz (x : Zq) : Zq := if qeqb x q0 then q1 else x.
Lemma qnz_nz x : qnz x <> q0.
Proof. unfold qnz. destruct (qeqb x q0) eqn:E; [exact q1_nz|apply qeqb_false, E]. Qed.
Lemma f2_nz_ok x : canon2 x -> canon2 (f2_nz x) /\ fv2 (f2_nz x) = qnz (fv2 x).
Proof. intros Hx. unfold f2_nz. rewrite f2_iszero_ok, f2_set_cond_mask by cn. unfold qnz. destruct (qeqb (fv2 x) q0); (split; [cn|]); first [reflexivity | apply fv2_one]. Qed.
Lemma qinv_r x : x <> q0 -> qmul x (qinv x) = q1. Proof. intros. rewrite qmul_comm. apply qinv_l; auto. Qed.
Lemma qmul_nz a b : a <> q0 -> b <> q0 -> qmul a b <> q0.
Proof.
  intros Ha Hb E. apply q1_nz. rewrite <- (qinv_l a Ha). rewrite <- (qmul_1_r (qinv a)), <- (qinv_r b Hb).
  replace (qmul (qmul (qinv a) (qmul b (qinv b))) a) with (qmul (qmul (qinv a) (qinv b)) (qmul a b)) by (generalize (qinv a) (qinv b); intros; qring).
  rewrite E. generalize (qinv a) (qinv b). intros. qring.
Qed.
Lemma qinv_unique a b : a <> q0 -> qmul a b = q1 -> b = qinv a.
Proof. intros Ha E. rewrite <- (qmul_1_l b), <- (qinv_l a Ha), <- qmul_assoc, E. apply qmul_1_r. Qed.
Lemma qinv_mul_l x t : x <> q0 -> t <> q0 -> qmul (qinv (qmul x t)) t = qinv x.
Proof.
  intros Hx Ht. apply qinv_unique; auto. replace (qmul x (qmul (qinv (qmul x t)) t)) with (qmul (qinv (qmul x t)) (qmul x t)) by (generalize (qinv (qmul x t)); intros; qring).
  apply qinv_l, qmul_nz; auto.
Qed.
Lemma qinv_mul_r x t : x <> q0 -> t <> q0 -> qmul (qinv (qmul x t)) x = qinv t.
Proof. intros. rewrite (qmul_comm x t). apply qinv_mul_l; auto. Qed.

Lemma batch_fwd_snoc x : forall xs prev, batch_fwd prev (xs ++ [x]) = batch_fwd prev xs ++ [f2_mul (f2_nz x) (last (prev :: batch_fwd prev xs) f2_zero)].
Proof.
  induction xs as [|y xs IH]; intros prev; [reflexivity|]. cbn [app batch_fwd]. rewrite IH. reflexivity.
Qed.
Lemma batch_fwd_length xs : forall prev, length (batch_fwd prev xs) = length xs.
Proof. induction xs; intros; cbn [batch_fwd length]; auto. Qed.
Lemma combine_snoc {A B} (xs : list A) x : forall (tt : list B) t d, length tt = S (length xs) -> combine (xs ++ [x]) (tt ++ [t]) = combine xs tt ++ [(x, last tt d)].
Proof.
  induction xs as [|y xs IH]; intros tt t d H.
  - destruct tt as [|a [|]]; try discriminate. reflexivity.
  - destruct tt as [|a tt]; [discriminate|]. cbn [app combine]. rewrite (IH tt t d) by (cbn in *; lia). destruct tt; [discriminate|]. reflexivity.
Qed.
Lemma batch_fwd_last : forall xs t0, Forall canon2 xs -> canon2 t0 -> fv2 t0 <> q0 ->
  canon2 (last (t0 :: batch_fwd t0 xs) f2_zero) /\ fv2 (last (t0 :: batch_fwd t0 xs) f2_zero) <> q0.
Proof.
  induction xs as [|x xs IH]; intros t0 Hx Ht Nt; [auto|]. inversion Hx; subst. destruct (f2_nz_ok x) as [A B]; auto.
  cbn [batch_fwd]. change (last (t0 :: ?t :: ?l) f2_zero) with (last (t :: l) f2_zero). apply IH; auto; [cn|].
  rewrite fv2_mul, B by cn. apply qmul_nz; auto. apply qnz_nz.
Qed.
Lemma batch_set x k t : canon2 x -> canon2 k -> canon2 t -> fv2 t <> q0 -> fv2 k = qinv (qmul (qnz (fv2 x)) (fv2 t)) ->
  f2_set_cond x (f2_mul k t) (wnot32 (f2_iszero x)) = f2_invert x.
Proof.
  intros Hx Hk Ht Nt Fk. rewrite f2_iszero_ok, mask_not, f2_set_cond_mask by cn. apply fv2_inj; [destruct (negb (qeqb (fv2 x) q0)); cn|cn|].
  rewrite fv2_invert by cn. unfold qnz in Fk. destruct (qeqb (fv2 x) q0) eqn:E; cbn [negb].
  - apply qeqb_true in E. rewrite E, qinv_0. reflexivity.
  - apply qeqb_false in E. rewrite fv2_mul, Fk by cn. apply qinv_mul_l; auto.
Qed.
Lemma batch_bwd_ok xs : forall t0 k, Forall canon2 xs -> canon2 t0 -> fv2 t0 <> q0 -> canon2 k -> fv2 k = qinv (fv2 (last (t0 :: batch_fwd t0 xs) f2_zero)) ->
  exists k0, batch_bwd (rev (combine xs (t0 :: batch_fwd t0 xs))) k = (rev (map f2_invert xs), k0) /\ canon2 k0 /\ fv2 k0 = qinv (fv2 t0).
Proof.
  induction xs as [|x xs IH] using rev_ind; intros t0 k Hx Ht Nt Hk Fk.
  - exists k. split; [reflexivity|]. auto.
  - apply Forall_app in Hx as [Hxs Hx]. inversion Hx; subst. rewrite batch_fwd_snoc in *. set (tl := last (t0 :: batch_fwd t0 xs) f2_zero) in *.
    destruct (batch_fwd_last xs t0 Hxs Ht Nt) as [Ct Nl]. fold tl in Ct, Nl. destruct (f2_nz_ok x) as [A B]; auto.
    rewrite app_comm_cons in *. rewrite last_app1 in Fk. rewrite fv2_mul, B in Fk by cn.
    rewrite (combine_snoc xs x (t0 :: batch_fwd t0 xs) _ f2_zero) by (cbn [length]; rewrite batch_fwd_length; reflexivity). fold tl.
    rewrite rev_app_distr, map_app, rev_app_distr. cbn [rev app map batch_bwd].
    rewrite (batch_set x k tl) by auto. change (f2_set_cond x f2_one (f2_iszero x)) with (f2_nz x).
    destruct (IH t0 (f2_mul k (f2_nz x))) as (k0 & -> & C0 & F0); auto; [cn| |].
    { fold tl. rewrite fv2_mul, B, Fk by cn. apply qinv_mul_r; auto. apply qnz_nz. }
    exists k0. split; auto.
Qed.
Lemma batch_chunk_ok xs : Forall canon2 xs -> batch_chunk xs = map f2_invert xs.
Proof.
  intros H. destruct xs as [|x0 xs]; [reflexivity|]. inversion H; subst. unfold batch_chunk. destruct (f2_nz_ok x0) as [A B]; auto.
  assert (N0 : fv2 (f2_nz x0) <> q0) by (rewrite B; apply qnz_nz).
  destruct (batch_fwd_last xs (f2_nz x0)) as [Ct Nl]; auto.
  destruct (batch_bwd_ok xs (f2_nz x0) (f2_div f2_one (last (f2_nz x0 :: batch_fwd (f2_nz x0) xs) f2_zero))) as (k0 & -> & C0 & F0); auto; [cn| |].
  { rewrite fv2_div, fv2_one by cn. unfold qdiv. apply qmul_1_l. }
  rewrite rev_involutive. cbn [map]. f_equal. rewrite f2_iszero_ok, mask_not, f2_set_cond_mask by cn.
  apply fv2_inj; [destruct (negb (qeqb (fv2 x0) q0)); cn|cn|]. rewrite fv2_invert by cn. rewrite B in F0. unfold qnz in F0.
  destruct (qeqb (fv2 x0) q0) eqn:E; cbn [negb]; auto. apply qeqb_true in E. rewrite E, qinv_0. reflexivity.
Qed.
Lemma batch_loop_ok : forall fuel xs, (length xs <= fuel)%nat -> Forall canon2 xs -> batch_loop fuel xs = map f2_invert xs.
Proof.
  induction fuel as [|fuel IH]; intros xs Hl H.
  - destruct xs; [reflexivity|cbn in Hl; lia].
  - destruct xs as [|x xs]; [reflexivity|]. cbn [batch_loop]. remember (x :: xs) as l eqn:El. rewrite <- (firstn_skipn 200 l) in H. apply Forall_app in H as [H1 H2].
    rewrite batch_chunk_ok, IH by (auto; rewrite skipn_length; subst l; cbn [length] in *; lia).
    rewrite <- map_app, firstn_skipn. reflexivity.
Qed.
Lemma f2_batch_invert_ok xs : Forall canon2 xs -> f2_batch_invert xs = map f2_invert xs.
Proof. intros. apply batch_loop_ok; auto. Qed.

(** ** Encoding *)
Lemma f2_encode_ok x : canon2 x -> bytes (f2_encode x) /\ length (f2_encode x) = 324%nat /\
  le_value (firstn 162 (f2_encode x)) = fst (val2 x) /\ le_value (skipn 162 (f2_encode x)) = snd (val2 x).
Proof.
  intros [H0 H1]. destruct (encode_ok _ H0) as (A0 & B0 & C0). destruct (encode_ok _ H1) as (A1 & B1 & C1). unfold f2_encode. split; [apply bytes_app; auto|].
  split; [rewrite app_length, B0, B1; reflexivity|]. rewrite <- B0 at 1 2. rewrite firstn_app, firstn_all, Nat.sub_diag, skipn_app, skipn_all, Nat.sub_diag. cbn [firstn skipn app]. rewrite app_nil_r. auto.
Qed.
Lemma f2_decode_len buf : length buf <> 324%nat -> f2_decode buf = (f2_zero, 0).
Proof. intros H. unfold f2_decode. change F2_ENCODED_LENGTH with 324%nat. apply Nat.eqb_neq in H. rewrite H. reflexivity. Qed.
Lemma f2_decode_ok buf : bytes buf -> length buf = 324%nat ->
  let a := le_value (firstn 162 buf) in let b := le_value (skipn 162 buf) in
  (a < P -> b < P -> exists r, f2_decode buf = (r, TRUE32) /\ canon2 r /\ val2 r = (a, b)) /\
  (P <= a \/ P <= b -> f2_decode buf = (f2_zero, 0)).
Proof.
  intros Hb Hl a b. unfold f2_decode. change F2_ENCODED_LENGTH with 324%nat. rewrite Hl. change (Nat.eqb 324 324) with true. cbv iota. change ENCODED_LENGTH with 162%nat.
  assert (L0 : length (firstn 162 buf) = 162%nat) by (rewrite firstn_length; lia). assert (L1 : length (skipn 162 buf) = 162%nat) by (rewrite skipn_length; lia).
  destruct (decode_ok _ (bytes_firstn 162 buf Hb) L0) as [A0 R0]. destruct (decode_ok _ (bytes_skipn 162 buf Hb) L1) as [A1 R1]. fold a in A0, R0. fold b in A1, R1.
  assert (MT : TRUE32 = mask32 true) by reflexivity. assert (MF : 0 = mask32 false) by reflexivity.
  split.
  - intros Ha Hb'. destruct (A0 Ha) as (r0 & -> & C0 & V0). destruct (A1 Hb') as (r1 & -> & C1 & V1). cbv iota beta. rewrite MT, mask_and, mask_not. cbn [andb negb].
    rewrite !set_cond_mask by cn. eexists. split; [reflexivity|]. split; [split; auto|]. unfold val2. cbn [fst snd]. congruence.
  - intros H. assert (K : exists r0 c0 r1 c1, decode (firstn 162 buf) = (r0, mask32 c0) /\ canon r0 /\ decode (skipn 162 buf) = (r1, mask32 c1) /\ canon r1 /\ c0 && c1 = false).
    { destruct (Z.lt_ge_cases a P) as [Ha|Ha].
      - destruct (A0 Ha) as (r0 & E0 & C0 & V0). exists r0, true. assert (P <= b) by lia. exists fp_zero, false. rewrite (R1 ltac:(auto)). split; [exact E0|]. split; [cn|]. split; [reflexivity|]. split; [cn|reflexivity].
      - exists fp_zero, false. rewrite (R0 Ha). destruct (Z.lt_ge_cases b P) as [Hb'|Hb'].
        + destruct (A1 Hb') as (r1 & E1 & C1 & V1). exists r1, true. split; [reflexivity|]. split; [cn|]. split; [exact E1|]. split; [cn|reflexivity].
        + exists fp_zero, false. rewrite (R1 Hb'). split; [reflexivity|]. split; [cn|]. split; [reflexivity|]. split; [cn|reflexivity]. }
    destruct K as (r0 & c0 & r1 & c1 & -> & C0 & -> & C1 & Hc). cbv iota beta. rewrite mask_and, Hc, mask_not, !set_cond_mask by cn. reflexivity.
Qed.
Definition nqr_n : Z := 85465444760251647043200531866806010650062133800213355539661279306662159607482839822797016326449523391157281075635273844674191359071133685155700846387699170613650104702674156795192157899572172047762839680755868163962182535324002607335291349888456998316966489870101875450398478630791194418187748054771361557839179399131298384607996061381589340053230664436497825675736947269395087017982574567.
Definition nqr_w : Z := 32528524976594478247222025722229743860774175790412994156346363575876095500290089792297208062225240744820537131030364939775580471385443521634080289718511689223402093106019234848962107739819291519252576155169798060850263873487740021495447584561704144695513439952742157551664273197015159007893327459368301765361341195947325705937107425325098500349043411006388982447599511828041009254357725490.
Definition nqr_k : Z := 66999610067731876420839932208746010424584826037030093244511310103202211263797442700309662361232912160616134520604443299626255204190473786307325683081780343633589645148053106822292341449326504919448213182796731898732375619816099478843398740054331695819706471966916557147791321222052160832787582898096800715006166734627925440191641271956258828447098250465143258896287175312111953491071422410.
Definition nqr_j : Z := 262932103986325409108161760285189559302953807726218566901330799420633891676295816976508098962648601766265886808599489466844464324656949951406218261170418270902887282880140856272950960228510489000927052907662717117592431131890843014230108272283548280071191329200549130661792951426612097558407039074981245848399175018042655787571838422604848544739872809977715290536952258965768755230476938501006451370444877.

(** ** The built-in non-square *)
Lemma nqr_check : ((eval NQR_RE + nqr_j * P =? nqr_n * WN) && (nqr_w * nqr_w + nqr_n * nqr_n + 1 =? nqr_k * P))%bool = true.
Proof. vm_compute. reflexivity. Qed.
Lemma canon_nqr : canon2 f2_nqr.
Proof. split; [apply canon_by_check; vm_compute; reflexivity|exact canon_one]. Qed.
#[global] Opaque nqr_n nqr_w nqr_k nqr_j.
Lemma fv2_nqr : fv2 f2_nqr = (mk nqr_n, 1%zp).
Proof.
  unfold fv2, f2_nqr. cbn [fst snd]. rewrite fv_one. apply (f_equal2 (@pair Zp Zp)); [|reflexivity]. apply fv_val. apply val_from_cg.
  pose proof nqr_check as H. apply andb_true_iff in H as [H _]. apply Z.eqb_eq in H. exists (- nqr_j). rewrite <- H. ring.
Qed.
Lemma nqr_nonsquare : ~ qsquare (fv2 f2_nqr).
Proof.
  rewrite qsquare_norm, fv2_nqr. unfold qnorm. cbn [fst snd]. intros S.
  pose proof nqr_check as H. apply andb_true_iff in H as [_ H]. apply Z.eqb_eq in H.
  assert (E : (mk nqr_w * mk nqr_w)%zp = (- (mk nqr_n * mk nqr_n + 1 * 1))%zp).
  { rewrite zp1_eq, <- !mk_mul, <- mk_add, <- mk_opp. apply mk_eq. exists nqr_k. lia. }
  assert (Z : (mk nqr_n * mk nqr_n + 1 * 1)%zp = 0%zp) by (apply zsquare_both; auto; rewrite <- E; eexists; reflexivity).
  apply norm_0 in Z. apply one_neq_zero, Z.
Qed.
Lemma nonsquare_mul z x : z <> q0 -> ~ qsquare x -> ~ qsquare (qmul (qmul z z) x).
Proof.
  intros Nz Nx [w Hw]. apply Nx. exists (qmul w (qinv z)).
  transitivity (qmul (qmul w w) (qmul (qinv z) (qinv z))); [generalize (qinv z); intros; qring|]. rewrite Hw.
  transitivity (qmul x (qmul (qmul (qinv z) z) (qmul (qinv z) z))); [generalize (qinv z); intros; qring|]. rewrite qinv_l by auto. qring.
Qed.
Lemma f2_rand_nonsquare_ok : forall rng x rest, Forall bytes rng -> f2_rand_nonsquare rng = Some (x, rest) -> canon2 x /\ ~ qsquare (fv2 x).
Proof.
  fix IH 1. intros [|b0 [|b1 rng]] x rest Hr H; cbn [f2_rand_nonsquare] in H; try discriminate.
  inversion Hr as [|? ? B0 Hr1]; subst. inversion Hr1 as [|? ? B1 Hr2]; subst.
  assert (C : canon2 (decode_reduce b0, decode_reduce b1)) by (split; apply decode_reduce_ok; auto).
  set (y := (decode_reduce b0, decode_reduce b1)) in *. clearbody y. rewrite f2_iszero_ok in H by auto. destruct (qeqb (fv2 y) q0) eqn:E.
  - exact (IH rng x rest Hr2 H).
  - change (mask32 false =? 0) with true in H. cbv iota in H. injection H as <- <-. pose proof canon_nqr. split; [cn|].
    rewrite fv2_mul, fv2_square by cn. apply nonsquare_mul; [apply qeqb_false, E|apply nqr_nonsquare].
Qed.
