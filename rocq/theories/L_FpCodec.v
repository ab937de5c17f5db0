(** Byte encodings and exponentiation. *)
From Coq Require Import ZArith List Lia Bool Setoid Morphisms.
From Verif Require Import S_Fp M_Utils64 M_Consts M_Fp L_Words L_Bits L_Fp L_FpOps.
Import ListNotations.
Open Scope Z_scope.
Ltac Zify.zify_post_hook ::= Z.div_mod_to_equations.

Fixpoint Bn (n : nat) : Z := match n with O => 1 | S n' => 256 * Bn n' end.
Lemma Bn_pos n : 0 < Bn n. Proof. induction n; cbn [Bn]; lia. Qed.
Lemma Bn_S n : Bn (S n) = 256 * Bn n. Proof. reflexivity. Qed.
Lemma Bn_add a b : Bn (a + b) = Bn a * Bn b.
Proof. induction a; cbn [plus]; rewrite ?Bn_S; [cbn [Bn]; lia|]. rewrite IHa. lia. Qed.
Lemma Bn_pow n : Bn n = 2 ^ (8 * Z.of_nat n).
Proof. induction n; [reflexivity|]. rewrite Bn_S, IHn, Nat2Z.inj_succ.
  replace (8 * Z.succ (Z.of_nat n)) with (8 + 8 * Z.of_nat n) by lia. rewrite Z.pow_add_r by lia. reflexivity. Qed.

Lemma bytes_cons x l : bytes (x :: l) <-> byte x /\ bytes l.
Proof. split; [intros H; inversion H; auto | intros []; constructor; auto]. Qed.
Lemma bytes_app a b : bytes (a ++ b) <-> bytes a /\ bytes b.
Proof. apply Forall_app. Qed.
Lemma bytes_repeat0 n : bytes (repeat 0 n).
Proof. induction n; cbn [repeat]; [constructor|]. apply bytes_cons. split; auto. unfold byte; lia. Qed.
Lemma le_value_repeat0 n : le_value (repeat 0 n) = 0.
Proof. induction n; cbn [repeat le_value]; lia. Qed.
Lemma le_value_app a b : le_value (a ++ b) = le_value a + Bn (length a) * le_value b.
Proof. induction a; cbn [app le_value length]; rewrite ?Bn_S; [cbn [Bn]; lia|]. rewrite IHa. lia. Qed.
Lemma le_value_bound l : bytes l -> 0 <= le_value l < Bn (length l).
Proof. induction l; intros H; cbn [le_value length]; rewrite ?Bn_S; [cbn; lia|].
  apply bytes_cons in H as [? ?]. specialize (IHl H0). unfold byte in *. lia. Qed.
Lemma le_value_inj a : forall b, bytes a -> bytes b -> length a = length b -> le_value a = le_value b -> a = b.
Proof.
  induction a as [|x a IH]; intros [|y b] Ha Hb Hl He; cbn [length le_value] in *; try discriminate; auto.
  apply bytes_cons in Ha as [Hx Ha]. apply bytes_cons in Hb as [Hy Hb]. injection Hl as Hl. unfold byte in *.
  assert (x = y) by lia. subst. f_equal. apply IH; auto. lia.
Qed.
Lemma skipn_skipn' {A} (l : list A) : forall a b, skipn a (skipn b l) = skipn (b + a) l.
Proof.
  induction l as [|x l IH]; intros a b.
  - rewrite !skipn_nil. reflexivity.
  - destruct b; [reflexivity|]. cbn [skipn plus]. apply IH.
Qed.
Lemma bytes_firstn n l : bytes l -> bytes (firstn n l).
Proof. intros H. rewrite <- (firstn_skipn n l) in H. apply bytes_app in H. tauto. Qed.
Lemma bytes_skipn n l : bytes l -> bytes (skipn n l).
Proof. intros H. rewrite <- (firstn_skipn n l) in H. apply bytes_app in H. tauto. Qed.

Lemma le_bytes_ok n : forall x, 0 <= x -> bytes (le_bytes n x) /\ length (le_bytes n x) = n /\
  (x < Bn n -> le_value (le_bytes n x) = x).
Proof.
  induction n as [|n IH]; intros x Hx; cbn [le_bytes].
  - split; [constructor|]. split; [reflexivity|]. cbn [Bn le_value]. lia.
  - assert (E : Z.land x 255 = x mod 256) by (change 255 with (Z.ones 8); rewrite Z.land_ones by lia; reflexivity).
    assert (E' : Z.shiftr x 8 = x / 256) by (rewrite Z.shiftr_div_pow2 by lia; reflexivity).
    rewrite E, E'. destruct (IH (x / 256)) as (H1 & H2 & H3); [lia|].
    split; [apply bytes_cons; split; auto; unfold byte; lia|]. split; [cbn [length]; congruence|].
    intros Hb. cbn [le_value]. rewrite Bn_S in Hb. rewrite H3 by lia. lia.
Qed.

Lemma of_le_bytes_ok l : bytes l -> of_le_bytes l = le_value l.
Proof.
  induction l as [|b l IH]; intros H; [reflexivity|]. apply bytes_cons in H as [Hb Hl].
  cbn [of_le_bytes le_value]. rewrite IH by auto. rewrite Z.shiftl_mul_pow2, Z.lor_comm, lor_shift_add by (unfold byte in Hb; lia).
  change (2 ^ 8) with 256. lia.
Qed.

Lemma Bn_8 : Bn 8 = W64. Proof. reflexivity. Qed.

Lemma enc_limbs_ok r lastn : words r -> r <> [] -> last r 0 < Bn lastn ->
  bytes (enc_limbs r lastn) /\ length (enc_limbs r lastn) = (8 * (length r - 1) + lastn)%nat /\
  le_value (enc_limbs r lastn) = eval r.
Proof.
  intros Hr Hn. induction r as [|x r IH]; [congruence|]. intros Hl.
  apply words_cons in Hr as [Hx Hr]. destruct r as [|y r'].
  - cbn [enc_limbs]. cbn [last] in Hl. unfold word in Hx.
    destruct (le_bytes_ok lastn x ltac:(lia)) as (H1 & H2 & H3).
    split; auto. split; [cbn [length]; lia|]. rewrite H3 by auto. cbn [eval]. lia.
  - set (r := y :: r') in *.
    change (enc_limbs (x :: r) lastn) with (le_bytes 8 x ++ enc_limbs r lastn).
    change (last (x :: r) 0) with (last r 0) in Hl.
    destruct (IH Hr ltac:(discriminate) Hl) as (H1 & H2 & H3).
    unfold word in Hx. destruct (le_bytes_ok 8 x ltac:(lia)) as (K1 & K2 & K3).
    split; [apply bytes_app; auto|]. split.
    + rewrite app_length, K2, H2. unfold r. cbn [length]. lia.
    + rewrite le_value_app, K2, Bn_8, H3, K3, eval_cons by (rewrite Bn_8; exact (proj2 Hx)). reflexivity.
Qed.

Lemma last_app1 {A} (l : list A) x d : last (l ++ [x]) d = x.
Proof. apply last_last. Qed.

Lemma split_last (l : list Z) n : length l = S n -> exists l' x, l = l' ++ [x] /\ length l' = n.
Proof.
  intros H. assert (l <> []) by (intros ->; discriminate).
  destruct (exists_last H0) as (l' & x & E). exists l', x. split; auto.
  rewrite E, app_length in H. cbn [length] in H. lia.
Qed.

Lemma encode_ok a : canon a ->
  bytes (encode a) /\ length (encode a) = 162%nat /\ le_value (encode a) = val a.
Proof.
  intros Ha. destruct (set_montyred_val a Ha) as [H1 H2]. unfold encode.
  apply canon_inv in H1 as (L & W & B). set (r := set_montyred a) in *.
  destruct (enc_limbs_ok r (ENCODED_LENGTH - (NLIMBS - 1) * 8)) as (K1 & K2 & K3); auto.
  - intros E. rewrite E in L. discriminate.
  - destruct (split_last r 20 L) as (r' & x & Er & Lr'). rewrite Er, last_last. rewrite Er in B, W.
    apply words_app in W as [W1 W2]. apply words_cons in W2 as [Wx _].
    rewrite eval_app, Lr' in B. cbn [eval] in B. pose proof (eval_bound r' W1). rewrite Lr' in H.
    pose proof P_bits_hi as PH. assert (E1293 : 2 ^ 1293 = 8192 * Wn 20) by (vm_compute; reflexivity).
    change (Bn (ENCODED_LENGTH - (NLIMBS - 1) * 8)) with 65536.
    assert (S : Wn 20 * x < Wn 20 * 8192) by lia. apply Z.mul_lt_mono_pos_l in S; [lia|apply Wn_pos].
  - rewrite L in K2. split; auto. split; auto. rewrite K3. auto.
Qed.

(** ** Decoding *)
Lemma dec_limbs_ok n : forall buf, bytes buf -> (8 * n <= length buf <= 8 * n + 8)%nat ->
  words (dec_limbs n buf) /\ length (dec_limbs n buf) = S n /\ eval (dec_limbs n buf) = le_value buf.
Proof.
  induction n as [|n IH]; intros buf Hb Hl; cbn [dec_limbs].
  - rewrite of_le_bytes_ok by auto. pose proof (le_value_bound buf Hb).
    assert (Bn (length buf) <= Bn 8).
    { replace 8%nat with (length buf + (8 - length buf))%nat by lia. rewrite Bn_add.
      pose proof (Bn_pos (length buf)). pose proof (Bn_pos (8 - length buf)). nia. }
    rewrite Bn_8 in H0. split; [apply words_cons; split; auto; unfold word; unfold W64 in *; lia|].
    split; [reflexivity|]. cbn [eval]. lia.
  - assert (Lf : length (firstn 8 buf) = 8%nat) by (rewrite firstn_length; lia).
    destruct (IH (skipn 8 buf)) as (H1 & H2 & H3).
    { apply bytes_skipn; auto. } { rewrite skipn_length. lia. }
    rewrite of_le_bytes_ok by (apply bytes_firstn; auto).
    pose proof (le_value_bound (firstn 8 buf) (bytes_firstn 8 buf Hb)) as Bf. rewrite Lf, Bn_8 in Bf.
    split; [apply words_cons; split; auto|]. split; [cbn [length]; congruence|].
    rewrite eval_cons, H3. rewrite <- (firstn_skipn 8 buf) at 3. rewrite le_value_app, Lf, Bn_8. reflexivity.
Qed.

Lemma decode_nocheck_ok buf : bytes buf -> length buf = 162%nat ->
  words (decode_nocheck buf) /\ length (decode_nocheck buf) = NLIMBS /\ eval (decode_nocheck buf) = le_value buf.
Proof. intros Hb Hl. apply (dec_limbs_ok 20 buf Hb). lia. Qed.

Lemma decode_wrong_length buf : length buf <> 162%nat -> decode buf = (fp_zero, 0).
Proof. intros H. unfold decode. apply Nat.eqb_neq in H. change ENCODED_LENGTH with 162%nat. rewrite H. reflexivity. Qed.

Lemma set_mul_zero_R2 : set_mul fp_zero R2_VAL = fp_zero.
Proof.
  apply val_inj; [auto|auto|]. rewrite val_mul, val_zero by auto. reflexivity.
Qed.

Lemma decode_ok buf : bytes buf -> length buf = 162%nat ->
  (le_value buf < P -> exists r, decode buf = (r, TRUE32) /\ canon r /\ val r = le_value buf) /\
  (P <= le_value buf -> decode buf = (fp_zero, 0)).
Proof.
  intros Hb Hl. unfold decode. rewrite Hl. change (negb (Nat.eqb 162 ENCODED_LENGTH)) with false. cbv iota.
  destruct (decode_nocheck_ok buf Hb Hl) as (H1 & H2 & H3). set (r := decode_nocheck buf) in *.
  destruct (sub_loop r MODULUS 0) as [d c] eqn:E.
  apply sub_loop_spec in E; auto; [|apply words_MODULUS|unfold bit; lia].
  destruct E as (E & Hd & Ld & Hc). rewrite H2, WN_eq, eval_MODULUS, H3 in *.
  pose proof (eval_bound_N d Hd Ld). pose proof (eval_bound_N r H1 H2). pose proof P_WN. rewrite wneg_bit by auto.
  split; intros Hlt.
  - assert (c = 1) by (bitcase Hc; lia). subst c. change (1 =? 1) with true. cbv iota. rewrite masked_ones by auto.
    assert (Hcan : canon r) by (repeat split; auto; lia).
    eexists. split; [reflexivity|]. split; auto. rewrite set_mul_R2 by auto. auto.
  - assert (c = 0) by (bitcase Hc; lia). subst c. change (0 =? 1) with false. cbv iota. rewrite masked_zero, H2.
    change (repeat 0 NLIMBS) with fp_zero. rewrite set_mul_zero_R2. reflexivity.
Qed.

(** ** decode_reduce *)
Definition chunkbuf (tmp : list Z) : Prop := bytes tmp /\ exists lo, tmp = lo ++ [0; 0] /\ length lo = 160%nat.

Lemma overwrite_chunk src tmp : bytes src -> chunkbuf tmp -> (length src <= 160)%nat ->
  chunkbuf (overwrite src tmp).
Proof.
  intros Hs (Hb & lo & -> & Hlo) Hl. unfold overwrite, chunkbuf.
  apply bytes_app in Hb as [Hb1 Hb2].
  rewrite skipn_app. replace (length src - length lo)%nat with 0%nat by lia. cbn [skipn].
  split. { apply bytes_app. split; auto. apply bytes_app. split; auto. apply bytes_skipn. auto. }
  exists (src ++ skipn (length src) lo). split; [rewrite app_assoc; reflexivity|].
  rewrite app_length, skipn_length. lia.
Qed.

Lemma chunk_value_full src tmp : bytes src -> chunkbuf tmp -> length src = 160%nat ->
  canon (decode_nocheck (overwrite src tmp)) /\ eval (decode_nocheck (overwrite src tmp)) = le_value src.
Proof.
  intros Hs Ht Hl. pose proof (overwrite_chunk src tmp Hs Ht ltac:(lia)) as (Hb & lo & Elo & Hlo).
  assert (L : length (overwrite src tmp) = 162%nat) by (rewrite Elo, app_length, Hlo; reflexivity).
  destruct (decode_nocheck_ok _ Hb L) as (H1 & H2 & H3).
  assert (Ev : le_value (overwrite src tmp) = le_value src).
  { destruct Ht as (_ & lo' & -> & Hlo'). unfold overwrite. rewrite skipn_app, Hl, <- Hlo', skipn_all, Nat.sub_diag. cbn [app skipn]. rewrite le_value_app. cbn [le_value]. lia. }
  rewrite Ev in H3. split; auto. repeat split; auto. rewrite H3.
  pose proof (le_value_bound src Hs) as B. rewrite Hl, Bn_pow in B. pose proof P_bits_lo.
  change (8 * Z.of_nat 160) with 1280 in B.
  assert (2 ^ 1280 < 2 ^ 1292) by (apply Z.pow_lt_mono_r; lia). lia.
Qed.

Lemma chunk_value_first src : bytes src -> (length src <= 160)%nat ->
  let tmp := overwrite src (repeat 0 ENCODED_LENGTH) in
  chunkbuf tmp /\ canon (decode_nocheck tmp) /\ eval (decode_nocheck tmp) = le_value src.
Proof.
  intros Hs Hl tmp.
  assert (C0 : chunkbuf (repeat 0 ENCODED_LENGTH)).
  { split; [apply bytes_repeat0|]. exists (repeat 0 160). split; reflexivity. }
  pose proof (overwrite_chunk src _ Hs C0 Hl) as C. fold tmp in C. split; auto.
  destruct C as (Hb & lo & Elo & Hlo).
  assert (L : length tmp = 162%nat) by (rewrite Elo, app_length, Hlo; reflexivity).
  destruct (decode_nocheck_ok _ Hb L) as (H1 & H2 & H3).
  assert (Ev : le_value tmp = le_value src).
  { unfold tmp, overwrite. rewrite le_value_app.
    assert (Ez : le_value (skipn (length src) (repeat 0 ENCODED_LENGTH)) = 0).
    { generalize (length src) as k. generalize ENCODED_LENGTH as m. induction m; intros [|k]; cbn [repeat skipn]; auto.
      apply (le_value_repeat0 (S m)). }
    rewrite Ez. lia. }
  rewrite Ev in H3. split; auto. repeat split; auto. rewrite H3.
  pose proof (le_value_bound src Hs) as B. pose proof P_bits_lo.
  assert (Bn (length src) <= Bn 160).
  { replace 160%nat with (length src + (160 - length src))%nat by lia. rewrite Bn_add.
    pose proof (Bn_pos (length src)). pose proof (Bn_pos (160 - length src)). nia. }
  rewrite (Bn_pow 160) in H0. change (8 * Z.of_nat 160) with 1280 in H0.
  assert (2 ^ 1280 < 2 ^ 1292) by (apply Z.pow_lt_mono_r; lia). lia.
Qed.

#[local] Opaque set_add set_mul decode_nocheck overwrite.
Lemma decred_loop_S k buf tmp x : decred_loop (S k) buf tmp x =
  decred_loop k buf (overwrite (firstn CLEN (skipn (k * CLEN) buf)) tmp)
    (set_add (set_mul x TDEC_VAL) (decode_nocheck (overwrite (firstn CLEN (skipn (k * CLEN) buf)) tmp))).
Proof. unfold decred_loop at 1. fold decred_loop. cbv zeta. reflexivity. Qed.
Lemma CLEN_160 : CLEN = 160%nat. Proof. reflexivity. Qed.

Lemma decred_loop_ok buf : bytes buf -> forall k tmp x, (k * 160 <= length buf)%nat -> chunkbuf tmp -> canon x ->
  cg (eval x) (le_value (skipn (k * 160) buf)) ->
  canon (decred_loop k buf tmp x) /\ cg (eval (decred_loop k buf tmp x)) (le_value buf).
Proof.
  intros Hb. induction k as [|k IH]; intros tmp x Hk Ht Hx Hv.
  - split; auto.
  - rewrite decred_loop_S, CLEN_160.
    set (src := firstn 160 (skipn (k * 160) buf)).
    assert (Ls : length src = 160%nat) by (unfold src; rewrite firstn_length, skipn_length; lia).
    assert (Bs : bytes src) by (apply bytes_firstn, bytes_skipn; auto).
    destruct (chunk_value_full src tmp Bs Ht Ls) as [C1 C2].
    apply IH; auto; [lia|apply overwrite_chunk; auto; lia|].
    destruct (set_mul_canon x TDEC_VAL Hx canon_TDEC) as [M1 M2].
    destruct (set_add_ok _ _ M1 C1) as [_ ->]. rewrite C2.
    set (T := 2 ^ 1280). assert (ET : cg (val TDEC_VAL) T) by (rewrite val_TDEC; apply cg_mod_l).
    assert (EB : Bn 160 = T) by (rewrite Bn_pow; reflexivity). clearbody T.
    assert (EM : cg (eval (set_mul x TDEC_VAL)) (eval x * T)).
    { apply cg_cancel_WN. rewrite M2. rewrite <- (val_cg TDEC_VAL), ET. exists 0. ring. }
    rewrite EM, Hv.
    assert (Es : le_value (skipn (k * 160) buf) = le_value src + T * le_value (skipn (S k * 160) buf)).
    { rewrite <- (firstn_skipn 160 (skipn (k * 160) buf)). rewrite le_value_app. fold src. rewrite Ls, EB.
      rewrite skipn_skipn'. do 4 f_equal. lia. }
    rewrite Es. exists 0. ring.
Qed.

Lemma decode_reduce_ok buf : bytes buf -> canon (decode_reduce buf) /\ val (decode_reduce buf) = le_value buf mod P.
Proof.
  intros Hb. unfold decode_reduce. destruct (Nat.eqb_spec (length buf) 0) as [E|E].
  - split; auto. rewrite val_zero. destruct buf; [|discriminate]. reflexivity.
  - rewrite CLEN_160.
    set (nn := let r := Nat.modulo (length buf) 160 in if Nat.eqb r 0 then 160%nat else r).
    assert (Hnn : exists k, (length buf = k * 160 + nn /\ 1 <= nn <= 160)%nat).
    { unfold nn. pose proof (Nat.div_mod_eq (length buf) 160) as D. pose proof (Nat.mod_upper_bound (length buf) 160 ltac:(lia)) as U.
      destruct (Nat.eqb_spec (Nat.modulo (length buf) 160) 0) as [Z0|Z0].
      - exists (Nat.div (length buf) 160 - 1)%nat.
        assert (Nat.div (length buf) 160 <> 0)%nat by (intros Hd; rewrite Hd, Z0 in D; lia). lia.
      - exists (Nat.div (length buf) 160). lia. }
    destruct Hnn as (k & Hk & Hnn).
    replace (length buf - nn)%nat with (k * 160)%nat by lia.
    rewrite Nat.div_mul by lia.
    assert (Ls : length (skipn (k * 160) buf) = nn) by (rewrite skipn_length; lia).
    destruct (chunk_value_first (skipn (k * 160) buf)) as (C0 & C1 & C2).
    { apply bytes_skipn; auto. } { lia. }
    set (tmp := overwrite _ _) in *.
    destruct (decred_loop_ok buf Hb k tmp (decode_nocheck tmp)) as [D1 D2]; auto; [lia|rewrite C2; reflexivity|].
    split; auto. rewrite set_mul_R2 by auto.
    rewrite <- (Z.mod_small (eval _) P) by (apply canon_bound; auto). apply cg_mod. auto.
Qed.

(** ** Exponentiation *)
Lemma nth_bit e : bytes e -> forall i, (i < 8 * length e)%nat ->
  exists b, nth_error e (Nat.div i 8) = Some b /\
  Z.land (Z.shiftr b (Z.of_nat (Nat.modulo i 8))) 1 = Z.b2z (Z.testbit (le_value e) (Z.of_nat i)).
Proof.
  intros He i Hi.
  assert (Hd : (Nat.div i 8 < length e)%nat) by (apply Nat.div_lt_upper_bound; lia).
  destruct (nth_error e (Nat.div i 8)) as [b|] eqn:E; [|apply nth_error_None in E; lia].
  exists b. split; auto. rewrite land1_mod.
  apply nth_error_split in E. destruct E as (l1 & l2 & -> & Hl1).
  apply bytes_app in He as [H1 H2]. apply bytes_cons in H2 as [Hb H2].
  rewrite le_value_app. cbn [le_value]. rewrite Hl1.
  set (q := Nat.div i 8) in *. set (m := Nat.modulo i 8).
  assert (Ei : i = (8 * q + m)%nat) by (apply Nat.div_mod_eq).
  assert (Hm : (m < 8)%nat) by (apply Nat.mod_upper_bound; lia).
  rewrite Ei, Bn_pow.
  assert (B1 := le_value_bound l1 H1). rewrite Hl1, Bn_pow in B1.
  replace (Z.of_nat (8 * q + m)) with (Z.of_nat m + 8 * Z.of_nat q) by lia.
  set (Q := 8 * Z.of_nat q) in *.
  rewrite <- Z.shiftr_spec by lia. rewrite (Z.shiftr_div_pow2 _ Q) by lia.
  rewrite (Z.mul_comm (2 ^ Q)), Z.div_add, Z.div_small, Z.add_0_l by (auto; apply Z.pow_nonzero; lia).
  rewrite Z.testbit_spec' by lia. rewrite Z.shiftr_div_pow2 by lia.
  (* bits of b + 256*l2 below 8 are those of b *)
  replace (b + 256 * le_value l2) with (b + (2 ^ (8 - Z.of_nat m) * le_value l2) * 2 ^ Z.of_nat m).
  - rewrite Z.div_add by (apply Z.pow_nonzero; lia).
    replace (2 ^ (8 - Z.of_nat m) * le_value l2) with ((2 ^ (7 - Z.of_nat m) * le_value l2) * 2).
    + rewrite Z_mod_plus_full. reflexivity.
    + replace (8 - Z.of_nat m) with (Z.succ (7 - Z.of_nat m)) by lia. rewrite Z.pow_succ_r by lia. ring.
  - replace 256 with (2 ^ (8 - Z.of_nat m) * 2 ^ Z.of_nat m) by (rewrite <- Z.pow_add_r by lia; replace (8 - Z.of_nat m + Z.of_nat m) with 8 by lia; reflexivity). ring.
Qed.

Lemma mod_pow2_succ E n : 0 <= n -> E mod 2 ^ (n + 1) = E mod 2 ^ n + 2 ^ n * Z.b2z (Z.testbit E n).
Proof.
  intros Hn. rewrite Z.testbit_spec' by auto. rewrite Z.pow_add_r by lia. change (2 ^ 1) with 2.
  rewrite Z.rem_mul_r by (try (apply Z.pow_nonzero; lia); lia). ring.
Qed.

Lemma lo32_negbit b : lo32 (- Z.b2z b) = mask32 b.
Proof. destruct b; reflexivity. Qed.

Lemma cg_pow a b m : 0 <= m -> cg a b -> cg (a ^ m) (b ^ m).
Proof.
  intros Hm Hc. revert m Hm. apply natlike_ind.
  - reflexivity.
  - intros m Hm IH. rewrite !Z.pow_succ_r by auto. rewrite IH, Hc. reflexivity.
Qed.

Lemma pow_loop_ok x e : canon x -> bytes e -> forall eoff n acc, canon acc -> (eoff + S n <= 8 * length e)%nat ->
  exists r, pow_loop x e eoff (S n) acc = Some r /\ canon r /\
   val r = (val acc ^ (2 ^ Z.of_nat n) * val x ^ ((le_value e / 2 ^ Z.of_nat eoff) mod 2 ^ Z.of_nat (S n))) mod P.
Proof.
  intros Hx He eoff. induction n as [|n IH]; intros acc Ha Hl.
  - cbn [pow_loop]. destruct (nth_bit e He (eoff + 0)) as (b & -> & Hb); [lia|]. rewrite Hb, lo32_negbit.
    rewrite set_cond_mask by auto. eexists. split; [reflexivity|].
    change (Z.of_nat 1) with (0 + 1). rewrite mod_pow2_succ by lia.
    change (2 ^ 0) with 1. rewrite Z.mod_1_r.
    rewrite Nat.add_0_r, <- Z.shiftr_div_pow2, Z.shiftr_spec, !Z.add_0_l by lia.
    change (2 ^ Z.of_nat 0) with 1. rewrite Z.mul_1_l, Z.pow_1_r.
    cbn [Nat.add Z.of_nat] in *. rewrite ?Nat.add_0_r, ?Z.add_0_l in *. destruct (Z.testbit (le_value e) (Z.of_nat eoff)); cbn [Z.b2z].
    + split; auto. rewrite ?Z.add_0_l, ?Z.mul_1_l, ?Z.pow_1_r. apply val_mul; auto.
    + split; auto. rewrite ?Z.add_0_l, ?Z.mul_1_l, ?Z.pow_0_r, ?Z.mul_1_r. symmetry. apply Z.mod_small, val_range.
  - change (pow_loop x e eoff (S (S n)) acc) with
      (match nth_error e (Nat.div (eoff + S n) 8) with
      | None => None
      | Some byte =>
          let y := set_mul acc x in
          let ctl := lo32 (- (Z.land (Z.shiftr byte (Z.of_nat (Nat.modulo (eoff + S n) 8))) 1)) in
          let acc := set_cond acc y ctl in
          pow_loop x e eoff (S n) (set_square acc)
      end).
    destruct (nth_bit e He (eoff + S n)) as (b & -> & Hb); [lia|]. cbv zeta. rewrite Hb, lo32_negbit.
    rewrite set_cond_mask by auto. set (bb := Z.testbit (le_value e) (Z.of_nat (eoff + S n))).
    set (acc' := if bb then set_mul acc x else acc).
    assert (Ha' : canon acc') by (unfold acc'; destruct bb; auto).
    assert (Va' : cg (val acc') (val acc * val x ^ Z.b2z bb)).
    { unfold acc'. destruct bb; cbn [Z.b2z].
      - rewrite val_mul, Z.pow_1_r by auto. apply cg_mod_l.
      - rewrite Z.pow_0_r, Z.mul_1_r. reflexivity. }
    destruct (IH (set_square acc') ltac:(auto) ltac:(lia)) as (r & -> & Hr & Vr).
    exists r. split; auto. split; auto. rewrite Vr. apply cg_mod.
    assert (Es : cg (val (set_square acc')) ((val acc * val x ^ Z.b2z bb) ^ 2)).
    { rewrite val_square, cg_mod_l by auto. rewrite Z.pow_2_r, Va'. reflexivity. }
    transitivity (((val acc * val x ^ Z.b2z bb) ^ 2) ^ (2 ^ Z.of_nat n) *
       val x ^ ((le_value e / 2 ^ Z.of_nat eoff) mod 2 ^ Z.of_nat (S n))).
    { apply cg_mul; [|reflexivity]. apply cg_pow; [apply Z.pow_nonneg; lia|exact Es]. }
    replace (Z.of_nat (S (S n))) with (Z.of_nat (S n) + 1) by lia.
    rewrite (mod_pow2_succ _ (Z.of_nat (S n))) by lia.
    rewrite <- (Z.shiftr_div_pow2 _ (Z.of_nat eoff)), Z.shiftr_spec by lia.
    replace (Z.of_nat (S n) + Z.of_nat eoff) with (Z.of_nat (eoff + S n)) by lia. fold bb.
    assert (Hnn : 0 <= Z.b2z bb) by (destruct bb; cbn; lia).
    rewrite (Z.pow_add_r (val x)); [|apply Z.mod_pos_bound; apply Z.pow_pos_nonneg; lia|apply Z.mul_nonneg_nonneg; [apply Z.pow_nonneg; lia|auto]].
    rewrite <- (Z.pow_mul_r _ 2) by (first [apply Z.pow_nonneg; clear; lia | clear; lia]).
    replace (2 * 2 ^ Z.of_nat n) with (2 ^ Z.of_nat (S n)) by (rewrite Nat2Z.inj_succ, Z.pow_succ_r by lia; ring).
    rewrite Z.pow_mul_l, <- Z.pow_mul_r by (auto; apply Z.pow_nonneg; lia).
    rewrite (Z.mul_comm (Z.b2z bb)). exists 0. ring.
Qed.

Lemma pow_loop_oob x e : forall eoff n acc, (8 * length e < eoff + S n)%nat -> pow_loop x e eoff (S n) acc = None.
Proof.
  intros eoff n acc H. cbn [pow_loop].
  assert (E : nth_error e (Nat.div (eoff + n) 8) = None).
  { apply nth_error_None. apply Nat.div_le_lower_bound; lia. }
  rewrite E. reflexivity.
Qed.

Lemma set_pow_ext_ok x e eoff n : canon x -> bytes e ->
  (n = 0%nat \/ (eoff + n <= 8 * length e)%nat) ->
  exists r, set_pow_ext x e eoff n = Some r /\ canon r /\
   val r = (val x ^ ((le_value e / 2 ^ Z.of_nat eoff) mod 2 ^ Z.of_nat n)) mod P.
Proof.
  intros Hx He Hn. unfold set_pow_ext. destruct n as [|n].
  - exists fp_one. split; [reflexivity|]. split; [exact canon_one|]. rewrite val_one. change (2 ^ Z.of_nat 0) with 1.
    rewrite Z.mod_1_r, Z.pow_0_r. symmetry. apply Z.mod_small. pose proof one_lt_P. lia.
  - destruct (pow_loop_ok x e Hx He eoff n fp_one) as (r & -> & Hr & Vr); auto; [lia|].
    exists r. split; auto. split; auto. rewrite Vr, val_one, Z.pow_1_l, Z.mul_1_l by (apply Z.pow_nonneg; lia). reflexivity.
Qed.

Lemma big_bits_spec e : 0 <= e -> e < 2 ^ Z.of_nat (big_bits e).
Proof.
  intros He. unfold big_bits. destruct (Z.eqb_spec e 0) as [->|Hn]; [reflexivity|].
  pose proof (Z.log2_nonneg e). rewrite Z2Nat.id by lia. apply Z.log2_spec. lia.
Qed.

Lemma pow_big_ok x e : canon x -> 0 <= e ->
  exists r, pow_big x e = Some r /\ canon r /\ val r = (val x ^ e) mod P.
Proof.
  intros Hx He. unfold pow_big, pow. pose proof (big_bits_spec e He) as Hb.
  assert (HB : bytes (big_to_bytes_le e) /\ le_value (big_to_bytes_le e) = e /\ (big_bits e <= 8 * length (big_to_bytes_le e))%nat).
  { unfold big_to_bytes_le. destruct (Z.eqb_spec e 0) as [->|Hn].
    - split; [repeat constructor; unfold byte; lia|]. split; [reflexivity|cbn; lia].
    - set (k := Nat.div (big_bits e + 7) 8). assert (Hk : (big_bits e <= 8 * k)%nat).
      { unfold k. pose proof (Nat.div_mod_eq (big_bits e + 7) 8). pose proof (Nat.mod_upper_bound (big_bits e + 7) 8 ltac:(lia)). lia. }
      destruct (le_bytes_ok k e He) as (H1 & H2 & H3). split; auto. rewrite H2. split; auto.
      apply H3. rewrite Bn_pow. eapply Z.lt_le_trans; [exact Hb|]. apply Z.pow_le_mono_r; lia. }
  destruct HB as (H1 & H2 & H3).
  destruct (set_pow_ext_ok x _ 0 (big_bits e) Hx H1) as (r & -> & Hr & Vr); [lia|].
  exists r. split; auto. split; auto. rewrite Vr, H2. change (2 ^ Z.of_nat 0) with 1. rewrite Z.div_1_r, (Z.mod_small e _ (conj He Hb)). reflexivity.
Qed.
