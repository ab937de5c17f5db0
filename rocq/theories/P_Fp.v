(** C01-C10: base-field arithmetic, conversions, encodings and powers.  [canon] says that an element is the
    reduced representative (21 words, value below p); [val] is the residue in [0, p) it stands for (S_Fp.v). *)
From Coq Require Import ZArith List Lia.
From Verif Require Import S_Fp M_Utils64 M_Consts M_Fp L_Words L_Bits L_Fp L_FpOps L_FpSmall L_FpCodec.
Import ListNotations.
Open Scope Z_scope.

(** Two concrete elements used in the examples: a random one and one close to p. *)
Definition exA : list Z := [2944178084258130417; 14704766632229440374; 2559807011305430600; 11389988611466225948; 2337188326695551102; 32740364466686328; 16074580356940634297; 3863788292157486002; 3974925960130215083; 18122470847234630591; 16093082754760413529; 5336738470790347276; 17736138445988525242; 9946917303728367912; 12503765274145150094; 3777515321107143329; 17357943438020040301; 12740095210054440500; 17829964394069928507; 16486624023045770902; 3139].
Definition exB : list Z := [18048843888214577678; 18446744073709551569; 18446744073709551615; 18446744073709551615; 18446744073709551615; 18446744073709551615; 18446744073709551615; 18446744073709551615; 18446744073709551615; 4899916394579099647; 11151797081155036851; 2438660541754219387; 10311456707414287721; 9520589028425980694; 186790880191172762; 103909495548516660; 13626895689248615445; 17776780061320638718; 14900295520861294379; 1283266294351741039; 5996].
Example exA_canon : canon exA. Proof. apply canon_by_check. vm_compute. reflexivity. Qed.
Example exB_canon : canon exB. Proof. apply canon_by_check. vm_compute. reflexivity. Qed.

(** Elements are determined by their residue: the stored value is the unique reduced representative. *)
Theorem C01_unique_representative : forall a b, canon a -> canon b -> val a = val b -> a = b.
Proof. exact (fun a b Ha Hb => val_inj a b Ha Hb). Qed.
Theorem C01_residue_range : forall a, 0 <= val a < P.
Proof. exact val_range. Qed.
Print Assumptions C01_unique_representative.

Theorem C01_add : forall a b, canon a -> canon b -> canon (set_add a b) /\ val (set_add a b) = (val a + val b) mod P.
Proof. exact (fun a b Ha Hb => conj (canon_add a b Ha Hb) (val_add a b Ha Hb)). Qed.
Theorem C01_sub : forall a b, canon a -> canon b -> canon (set_sub a b) /\ val (set_sub a b) = (val a - val b) mod P.
Proof. exact (fun a b Ha Hb => conj (canon_sub a b Ha Hb) (val_sub a b Ha Hb)). Qed.
Theorem C01_neg : forall a, canon a -> canon (set_neg a) /\ val (set_neg a) = (- val a) mod P.
Proof. exact (fun a Ha => conj (canon_neg a Ha) (val_neg a Ha)). Qed.
(** a/2 is the residue whose double is a. *)
Theorem C01_half : forall a, canon a -> canon (set_half a) /\ (2 * val (set_half a)) mod P = val a.
Proof. exact (fun a Ha => conj (canon_half a Ha) (val_half a Ha)). Qed.
Theorem C01_mul2 : forall a, canon a -> canon (set_mul2 a) /\ val (set_mul2 a) = (2 * val a) mod P.
Proof. exact (fun a Ha => conj (canon_mul2 a Ha) (val_mul2 a Ha)). Qed.
Theorem C01_mul3 : forall a, canon a -> canon (set_mul3 a) /\ val (set_mul3 a) = (3 * val a) mod P.
Proof. exact (fun a Ha => conj (canon_mul3 a Ha) (val_mul3 a Ha)). Qed.
Theorem C01_mul4 : forall a, canon a -> canon (set_mul4 a) /\ val (set_mul4 a) = (4 * val a) mod P.
Proof. exact (fun a Ha => conj (canon_mul4 a Ha) (val_mul4 a Ha)). Qed.
Theorem C01_mul8 : forall a, canon a -> canon (set_mul8 a) /\ val (set_mul8 a) = (8 * val a) mod P.
Proof. exact (fun a Ha => conj (canon_mul8 a Ha) (val_mul8 a Ha)). Qed.
Example C01_ex : eval (set_add exB exB) = 2 * eval exB - P /\ eval (set_sub exA exB) = eval exA - eval exB + P
  /\ 2 * eval (set_half exA) = eval exA + P /\ eval (set_mul8 exA) = 8 * eval exA - 4 * P.
Proof. vm_compute. repeat split. Qed.
Print Assumptions C01_add.
Print Assumptions C01_sub.
Print Assumptions C01_neg.
Print Assumptions C01_half.
Print Assumptions C01_mul2.
Print Assumptions C01_mul3.
Print Assumptions C01_mul4.
Print Assumptions C01_mul8.

(** The named constants. *)
Theorem C01_constants :
  (canon fp_zero /\ val fp_zero = 0) /\ (canon fp_one /\ val fp_one = 1) /\ (canon fp_two /\ val fp_two = 2) /\
  (canon fp_three /\ val fp_three = 3) /\ (canon fp_four /\ val fp_four = 4) /\ (canon fp_minus_one /\ val fp_minus_one = P - 1).
Proof. exact (conj (conj canon_zero val_zero) (conj (conj canon_one val_one) (conj (conj canon_two val_two)
  (conj (conj canon_three val_three) (conj (conj canon_four val_four) (conj canon_minus_one val_minus_one)))))). Qed.
Print Assumptions C01_constants.

Theorem C02_mul : forall a b, canon a -> canon b -> canon (set_mul a b) /\ val (set_mul a b) = (val a * val b) mod P.
Proof. exact (fun a b Ha Hb => conj (canon_mul a b Ha Hb) (val_mul a b Ha Hb)). Qed.
Theorem C02_square : forall a, canon a -> canon (set_square a) /\ val (set_square a) = (val a * val a) mod P.
Proof. exact (fun a Ha => conj (canon_square a Ha) (val_square a Ha)). Qed.
Theorem C02_square_is_mul : forall a, canon a -> set_square a = set_mul a a.
Proof. exact set_square_mul. Qed.
Example C02_ex : set_mul exA fp_four = set_mul4 exA /\ set_square fp_minus_one = fp_one. Proof. vm_compute. split; reflexivity. Qed.
Print Assumptions C02_mul.
Print Assumptions C02_square.
Print Assumptions C02_square_is_mul.

Theorem C03_mul_small : forall a k, canon a -> - 2 ^ 31 <= k < 2 ^ 31 ->
  canon (set_mul_small a k) /\ val (set_mul_small a k) = (val a * k) mod P.
Proof. exact set_mul_small_ok. Qed.
Example C03_ex : set_mul_small exB (- 3) = set_neg (set_mul3 exB) /\
  eval (set_mul_small fp_minus_one (- 2 ^ 31)) = 2 ^ 31 * eval fp_one mod P. Proof. vm_compute. split; reflexivity. Qed.
Print Assumptions C03_mul_small.

Theorem C04_from_u64 : forall x, 0 <= x < 2 ^ 64 -> canon (from_u64 x) /\ val (from_u64 x) = x.
Proof. exact from_u64_ok. Qed.
Theorem C04_from_u32 : forall x, 0 <= x < 2 ^ 32 -> canon (from_u32 x) /\ val (from_u32 x) = x.
Proof. intros x Hx. apply from_u64_ok. unfold word. lia. Qed.
Theorem C04_from_i32 : forall x, - 2 ^ 31 <= x < 2 ^ 31 -> canon (from_i32 x) /\ val (from_i32 x) = x mod P.
Proof. exact from_i32_ok. Qed.
Theorem C04_from_i64 : forall x, - 2 ^ 63 <= x < 2 ^ 63 -> canon (from_i64 x) /\ val (from_i64 x) = x mod P.
Proof. exact from_i64_ok. Qed.
Example C04_ex : from_i64 (- 4) = set_neg fp_four. Proof. vm_compute. reflexivity. Qed.
Print Assumptions C04_from_u64.
Print Assumptions C04_from_u32.
Print Assumptions C04_from_i32.
Print Assumptions C04_from_i64.

Theorem C05_encode : forall a, canon a -> bytes (encode a) /\ length (encode a) = 162%nat /\ le_value (encode a) = val a.
Proof. exact encode_ok. Qed.
Theorem C05_encode_injective : forall a b, canon a -> canon b ->
  (encode a = encode b <-> a = b) /\ (a = b <-> equals a b = TRUE32) /\ (a <> b <-> equals a b = 0).
Proof.
  intros a b Ha Hb. destruct (encode_ok a Ha) as (_ & _ & Ea). destruct (encode_ok b Hb) as (_ & _ & Eb).
  rewrite (equals_canon a b Ha Hb). split; [|split].
  - split; intros E; [|congruence]. apply val_inj; auto. congruence.
  - split; intros E; [subst; rewrite Z.eqb_refl; reflexivity|].
    destruct (Z.eqb_spec (val a) (val b)); [apply val_inj; auto|discriminate].
  - split; intros E.
    + destruct (Z.eqb_spec (val a) (val b)) as [E'|]; [elim E; apply val_inj; auto|reflexivity].
    + intros ->. rewrite Z.eqb_refl in E. discriminate.
Qed.
Example C05_ex : encode fp_minus_one = le_bytes 162 (P - 1). Proof. vm_compute. reflexivity. Qed.
Print Assumptions C05_encode.
Print Assumptions C05_encode_injective.

Theorem C06_decode_accepts : forall buf, bytes buf -> length buf = 162%nat -> le_value buf < P ->
  exists r, decode buf = (r, TRUE32) /\ canon r /\ val r = le_value buf.
Proof. exact (fun buf Hb Hl => proj1 (decode_ok buf Hb Hl)). Qed.
Theorem C06_decode_rejects : forall buf, bytes buf -> length buf <> 162%nat \/ P <= le_value buf -> decode buf = (fp_zero, 0).
Proof.
  intros buf Hb H. destruct (Nat.eq_dec (length buf) 162) as [E|E]; [|exact (decode_wrong_length buf E)].
  destruct H as [H|H]; [contradiction|exact (proj2 (decode_ok buf Hb E) H)].
Qed.
Theorem C06_roundtrip : forall a, canon a -> decode (encode a) = (a, TRUE32).
Proof.
  intros a Ha. destruct (encode_ok a Ha) as (H1 & H2 & H3).
  destruct (proj1 (decode_ok _ H1 H2)) as (r & -> & Hr & Vr); [rewrite H3; apply val_range|].
  f_equal. apply val_inj; auto. congruence.
Qed.
Example C06_ex : let p_bytes := le_bytes 162 P in bytes p_bytes /\ length p_bytes = 162%nat /\ snd (decode p_bytes) = 0
   /\ snd (decode (le_bytes 162 (P - 1))) = TRUE32.
Proof. split; [apply le_bytes_ok; vm_compute; discriminate|]. vm_compute. repeat split. Qed.
Print Assumptions C06_decode_accepts.
Print Assumptions C06_decode_rejects.
Print Assumptions C06_roundtrip.

Theorem C07_decode_reduce : forall buf, bytes buf -> canon (decode_reduce buf) /\ val (decode_reduce buf) = le_value buf mod P.
Proof. exact decode_reduce_ok. Qed.
Example C07_ex : decode_reduce (3 :: repeat 0 161) = fp_three /\ decode_reduce [] = fp_zero.
Proof. vm_compute. split; reflexivity. Qed.
Print Assumptions C07_decode_reduce.

Theorem C08_iszero : forall a, canon a -> iszero a = mask32 (val a =? 0).
Proof. exact iszero_canon. Qed.
Theorem C08_equals : forall a b, canon a -> canon b -> equals a b = mask32 (val a =? val b).
Proof. exact equals_canon. Qed.
Theorem C08_select : forall a b, canon a -> canon b -> select a b 0 = a /\ select a b TRUE32 = b.
Proof. exact (fun a b Ha Hb => conj (select_mask a b false Ha Hb) (select_mask a b true Ha Hb)). Qed.
Theorem C08_set_cond : forall a b, canon a -> canon b -> set_cond a b 0 = a /\ set_cond a b TRUE32 = b.
Proof. exact (fun a b Ha Hb => conj (set_cond_mask a b false Ha Hb) (set_cond_mask a b true Ha Hb)). Qed.
Theorem C08_condswap : forall a b, canon a -> canon b -> condswap a b 0 = (a, b) /\ condswap a b TRUE32 = (b, a).
Proof. exact (fun a b Ha Hb => conj (condswap_mask a b false Ha Hb) (condswap_mask a b true Ha Hb)). Qed.
Theorem C08_set_condneg : forall a, canon a -> set_condneg a 0 = a /\
  canon (set_condneg a TRUE32) /\ val (set_condneg a TRUE32) = (- val a) mod P.
Proof.
  intros a Ha. split; [exact (set_condneg_mask a false Ha)|]. change TRUE32 with (mask32 true).
  rewrite (set_condneg_mask a true Ha). exact (C01_neg a Ha).
Qed.
Example C08_ex : iszero fp_zero = TRUE32 /\ iszero exA = 0 /\ equals exA exB = 0 /\ select exA exB TRUE32 = exB
  /\ condswap exA exB TRUE32 = (exB, exA).
Proof. vm_compute. repeat split. Qed.
Print Assumptions C08_iszero.
Print Assumptions C08_equals.
Print Assumptions C08_select.
Print Assumptions C08_set_cond.
Print Assumptions C08_condswap.
Print Assumptions C08_set_condneg.

Theorem C09_sum_of_products : forall a1 b1 a2 b2, canon a1 -> canon b1 -> canon a2 -> canon b2 ->
  canon (sum_of_products a1 b1 a2 b2) /\ val (sum_of_products a1 b1 a2 b2) = (val a1 * val b1 + val a2 * val b2) mod P.
Proof. exact sum_of_products_ok. Qed.
Theorem C09_difference_of_products : forall a1 b1 a2 b2, canon a1 -> canon b1 -> canon a2 -> canon b2 ->
  canon (difference_of_products a1 b1 a2 b2) /\ val (difference_of_products a1 b1 a2 b2) = (val a1 * val b1 - val a2 * val b2) mod P.
Proof. exact difference_of_products_ok. Qed.
Example C09_ex : sum_of_products exB fp_two exA fp_one = set_add (set_mul2 exB) exA
  /\ difference_of_products exB fp_one exA fp_zero = exB.
Proof. vm_compute. split; reflexivity. Qed.
Print Assumptions C09_sum_of_products.
Print Assumptions C09_difference_of_products.

(** The exponent is the integer held in bits [eoff .. eoff+ebitlen) of the byte string; reading past the end panics. *)
Theorem C10_pow_ext : forall x e eoff ebitlen, canon x -> bytes e -> ebitlen = 0%nat \/ (eoff + ebitlen <= 8 * length e)%nat ->
  exists r, set_pow_ext x e eoff ebitlen = Some r /\ canon r /\
    val r = (val x ^ ((le_value e / 2 ^ Z.of_nat eoff) mod 2 ^ Z.of_nat ebitlen)) mod P.
Proof. exact set_pow_ext_ok. Qed.
Theorem C10_pow_ext_out_of_range : forall x e eoff ebitlen, (0 < ebitlen)%nat -> (8 * length e < eoff + ebitlen)%nat ->
  set_pow_ext x e eoff ebitlen = None.
Proof. intros x e eoff [|n] H1 H2; [lia|exact (pow_loop_oob x e eoff n fp_one H2)]. Qed.
Theorem C10_pow_big : forall x e, canon x -> 0 <= e -> exists r, pow_big x e = Some r /\ canon r /\ val r = (val x ^ e) mod P.
Proof. exact pow_big_ok. Qed.
Example C10_ex : pow_big fp_two 3 = Some (set_mul8 fp_one) /\ pow_big fp_zero 0 = Some fp_one
  /\ set_pow_ext fp_two [128; 1] 7 2 = Some (set_mul8 fp_one).
Proof. vm_compute. repeat split. Qed.
Print Assumptions C10_pow_ext.
Print Assumptions C10_pow_ext_out_of_range.
Print Assumptions C10_pow_big.
Print Assumptions C01_residue_range.
