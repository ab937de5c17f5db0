(** C76: a secret key and a ciphertext that were written to bytes and read back still decrypt. *)
From Coq Require Import Arith ZArith List Bool Lia.
From Verif Require Import M_Isogeny P_Velu P_Isogeny M_Super2 M_Theta M_Festa M_Main L_Ints P_Festa P_E0 P_Basis L_E0 L_Entangled P_Entangled S_Fp S_Fp2 S_Curve S_Dlog S_Params M_Fp M_Fp2 M_Field M_Curve M_Consts M_Dlog M_Pairing M_Super L_Zp L_Zp2 L_Fp L_FpCodec L_Fp2 L_Group L_Kummer L_Field L_Curve L_QNum L_Isog L_Weil L_Fp2Misc L_Dlog L_Fp2Misc P_Fp2 S_Fp2 P_Entangled P_Params P_Curve P_Pairing P_PairEx L_Ex5 P_BidlpEx P_Super P_Scalar P_Trapdoor P_Bidlp P_Recover P_Iso P_WeilDet P_Keygen P_Main.
Import ListNotations.
Open Scope Z_scope.
Ltac Zify.zify_post_hook ::= idtac.
Add Field Zq_fst : Zq_field.
Local Notation "k *[ E ] p" := (pmul_q (coeff E) k (affine p)) (at level 35, p at level 30).

(** the members of a basis of order above 1 are not the point at infinity *)
Lemma basis_finite A n p q : 1 < n -> n_basis A n p q -> p <> None /\ q <> None.
Proof.
  intros Hn (Z1 & Z2 & I). assert (D : ~ (n | 1)) by (intros D; apply Z.divide_pos_le in D; lia). split; intros ->; apply D.
  - apply (proj1 (I 1 0 ltac:(lia) ltac:(lia) eq_refl)).
  - apply (proj2 (I 0 1 ltac:(lia) ltac:(lia) eq_refl)).
Qed.
Lemma sizes : 1 < 2 ^ 634 /\ 1 < 2 ^ 634 * ed1 /\ 1 < ed2 /\ 2 ^ 634 <= 2 ^ 656. Proof. repeat split; vm_compute; reflexivity || discriminate. Qed.

Theorem C76_stored : forall fuel checks ck self r11 r22 rng phi1 EA' phi2 EA P' Q' P Q a1 b1 a2 b2 pk sk m,
  festa_new fq_ops root_fq fuel checks = Some self -> 0 <= r11 < 2 ^ 634 -> 0 <= r22 < 2 ^ 634 -> walks_ok fuel checks rng phi1 EA' phi2 EA ->
  n_basis (coeff E0) ed1 (affine (fst (fe_d1b self))) (affine (snd (fe_d1b self))) ->
  found_basis fuel checks EA' D2_FACTORED ed2 P' Q' -> found_basis fuel checks EA D2_FACTORED ed2 P Q -> image_coords phi2 EA P' Q' P Q a1 b1 a2 b2 ->
  keygen fq_ops (dlp_fq checks) fuel checks self r11 r22 rng = Some (pk, sk) ->
  full_pairing checks EA' ed1 (2 ^ 634 *[EA'] fst (sk_bd1 sk)) (2 ^ 634 *[EA'] snd (sk_bd1 sk)) -> message_ok m ->
  exists c U W kbuf sk' c', trapdoor_eval fq_ops fuel checks self pk m = Some c /\
    sk_encode fq_ops sk = Some kbuf /\ length kbuf = 3080%nat /\ sk_decode fq_ops ck kbuf = Some sk' /\
    length (to_encode fq_ops c) = 3240%nat /\ to_decode fq_ops ck (to_encode fq_ops c) = Some c' /\
    forall P1 Q1 P2 Q2, torsion_basis fq_ops fuel checks (to_E1 c') D1_FACTORED 634 = Some (P1, Q1) -> torsion_basis fq_ops fuel checks (to_E2 c') D2_FACTORED 634 = Some (P2, Q2) -> on_E (to_E1 c') P1 -> on_E (to_E1 c') Q1 ->
      (checks = true -> pairings_cancel checks (to_E1 c') (to_E2 c') (affine (to_R1 c')) (affine (to_S1 c')) (fe_g2 self *[to_E2 c'] U) (fe_g2 self *[to_E2 c'] W)) ->
      isogeny_carries checks self sk c' U W P1 Q1 P2 Q2 (ti_s1 m) (ti_s2 m) (fst (ti_B m)) ->
      trapdoor_inverse fq_ops (dlp_fq checks) fuel checks self c' sk' = Some m.
Proof.
  intros fuel checks ck self r11 r22 rng phi1 EA' phi2 EA P' Q' P Q a1 b1 a2 b2 pk sk m HN Hr1 Hr2 WO BD FB' FB IC HK FP1 MO. destruct sizes as (Z1 & Z2 & Z3 & Z4).
  destruct (C69_keygen fuel checks self r11 r22 rng phi1 EA' phi2 EA P' Q' P Q a1 b1 a2 b2 HN (proj1 Hr1) (proj1 Hr2) WO BD FB' FB IC) as (pk' & sk0 & HK' & _ & _ & EAk & SO). rewrite HK in HK'. apply some_inj in HK'. apply pair_equal_spec in HK'. destruct HK' as [<- <-].
  destruct (C76_copies fuel checks self r11 r22 rng phi1 EA' phi2 EA P' Q' P Q a1 b1 a2 b2 pk sk m HN (proj1 Hr1) (proj1 Hr2) WO BD FB' FB IC HK FP1 MO) as (c & U & W & EC & _ & _ & (V1 & V2 & B1 & B2) & _ & R).
  destruct (basis_finite _ _ _ _ Z2 (so_b1 _ _ _ _ _ _ _ _ _ _ SO)) as [N1 N2]. destruct (basis_finite _ _ _ _ Z3 (so_b2 _ _ _ _ _ _ _ _ _ _ SO)) as [N3 N4]. destruct (basis_finite _ _ _ _ Z1 B1) as [N5 N6]. destruct (basis_finite _ _ _ _ Z1 B2) as [N7 N8].
  assert (HA : 0 <= fst (sk_A sk) < 2 ^ 656 /\ 0 <= snd (sk_A sk) < 2 ^ 656).
  { rewrite EAk. cbn [fst snd]. change (Z.lor r11 1) with (set_bit0 r11). change (Z.lor r22 1) with (set_bit0 r22). pose proof (set_bit0_bound r11 634 ltac:(lia) Hr1) as X1. pose proof (set_bit0_bound r22 634 ltac:(lia) Hr2) as X2. clear - X1 X2 Z4. lia. }
  destruct HA as [HA1 HA2]. destruct (C41_secret_key ck sk (proj1 (so_good _ _ _ _ _ _ _ _ _ _ SO)) N1 N2 N3 N4 HA1 HA2) as (kbuf & sk' & K1 & _ & K3 & K4 & K5).
  destruct (C41_output ck c V1 V2 N5 N6 N7 N8) as (_ & O2 & c' & O3 & O4). exists c, U, W, kbuf, sk', c'. split; [exact EC|]. split; [exact K1|]. split; [exact K3|]. split; [exact K4|]. split; [exact O2|]. split; [exact O3|]. exact (R c' sk' O4 K5).
Qed.
Print Assumptions C76_stored.
(** the copies may differ from the originals: a key whose first point is written with other projective coordinates; the reloaded key has Z = 1 *)
Definition twice (P : point fq) : point fq := mkPoint (fmul fq_ops (ftwo fq_ops) (pX P)) (fmul fq_ops (ftwo fq_ops) (pY P)) (fmul fq_ops (ftwo fq_ops) (pZ P)).
Example C76_ex : exists sk kbuf sk', sk_encode fq_ops sk = Some kbuf /\ sk_decode fq_ops true kbuf = Some sk' /\ same_key sk sk' /\ sk <> sk'.
Proof.
  set (sk := mkSK exE (twice exP, exT) (exT, exP) (1, 3)). assert (T2 : fqv (ftwo fq_ops) <> q0) by (rewrite (l_two _ _ _ _ _ _ _ _ _ _ _ fq_laws); exact q2_nz).
  destruct (C44_scaling exP (ftwo fq_ops) T2) as [ET _]. assert (ET' : affine (twice exP) = affine exP) by exact ET.
  destruct (sk_enc_dec true sk exE_valid) as (buf & E & _ & _ & D); [split; reflexivity || discriminate|split; reflexivity || discriminate|]. exists sk, buf. eexists. split; [exact E|]. split; [exact D|]. split.
  - unfold same_key, sk. cbn [sk_EA sk_bd1 sk_d2 sk_A fst snd]. rewrite !norm_pt_ok by (rewrite ?ET', ?exP_affine, ?exT_affine; discriminate). do 5 (split; [reflexivity|]). reflexivity.
  - intros H. apply (f_equal (fun k => fqv (pZ (fst (sk_bd1 k))))) in H. unfold sk in H. cbn [sk_EA sk_bd1 sk_d2 sk_A fst snd twice pZ] in H. rewrite (l_mul _ _ _ _ _ _ _ _ _ _ _ fq_laws) in H. revert H.
    unfold exP, norm_pt, new_xy. cbn [pZ]. change (fqv (fone fq_ops)) with (fv2 f2_one). rewrite fv2_one, (l_two _ _ _ _ _ _ _ _ _ _ _ fq_laws). intros H. apply q1_nz.
    transitivity (qsub (qmul (qadd q1 q1) q1) q1); [ring|rewrite H; ring].
Qed.
