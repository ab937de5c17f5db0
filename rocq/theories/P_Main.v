(** C69: the random messages of src/main.rs and one round of that program. *)
From Coq Require Import Arith ZArith List Bool Lia Ring Field Znumtheory.
From Verif Require Import M_Isogeny P_Velu P_Isogeny M_Super2 M_Theta M_Festa M_Main L_Ints P_Festa P_E0 P_Basis L_E0 L_Entangled P_Entangled S_Fp S_Fp2 S_Curve S_Dlog S_Params M_Fp M_Fp2 M_Field M_Curve M_Consts M_Dlog M_Pairing M_Super L_Zp L_Zp2 L_Fp L_Fp2 L_Group L_Kummer L_Field L_Curve L_QNum L_Isog L_Weil L_Fp2Misc L_Dlog L_Fp2Misc P_Fp2 S_Fp2 P_Entangled P_Params P_Curve P_Pairing P_PairEx L_Ex5 P_BidlpEx P_Super P_Scalar P_Trapdoor P_Bidlp P_Recover P_Iso P_WeilDet P_Keygen.
Import ListNotations.
Open Scope Z_scope.

Lemma set_bit0_odd r : Z.odd (set_bit0 r) = true.
Proof. unfold set_bit0. rewrite <- Z.bit0_odd, Z.lor_spec. apply orb_true_r. Qed.
Lemma set_bit0_bound r n : 0 < n -> 0 <= r < 2 ^ n -> 0 < set_bit0 r < 2 ^ n.
Proof.
  intros Hn Hr. unfold set_bit0. assert (H0 : 0 <= Z.lor r 1) by (apply Z.lor_nonneg; lia). assert (N0 : Z.lor r 1 <> 0) by (intros E; apply Z.lor_eq_0_iff in E; lia). split; [lia|].
  apply Z.log2_lt_pow2; [lia|]. rewrite Z.log2_lor by lia. change (Z.log2 1) with 0. rewrite Z.max_l by apply Z.log2_nonneg. destruct (Z.eq_dec r 0) as [->|Nr]; [exact Hn|]. apply Z.log2_lt_pow2; lia.
Qed.
(** every message the program draws is within the range of C69_roundtrip *)
Theorem C69_random_message : forall s1 s2 r, 0 <= s1 < ed1 -> 0 <= s2 < ed2 -> 0 <= r < 2 ^ 633 ->
  exists m, gen_random_trapdoor_input s1 s2 r = Some m /\ message_ok m /\ ti_s1 m = s1 /\ ti_s2 m = s2 /\ fst (ti_B m) = 2 * (r / 2) + 1.
Proof.
  intros s1 s2 r H1 H2 Hr. unfold gen_random_trapdoor_input. change (Z.shiftl 1 L_POWER) with (2 ^ 634). assert (P0 : 0 < 2 ^ 634) by reflexivity.
  pose proof (set_bit0_bound r 633 ltac:(reflexivity) Hr) as Bb. pose proof (set_bit0_odd r) as Ob. assert (Eb : set_bit0 r = 2 * (r / 2) + 1).
  { rewrite (Zdiv2_odd_eqn (set_bit0 r)), Ob. unfold set_bit0. rewrite <- (Z.div2_div r). f_equal. f_equal. rewrite !Z.div2_spec, Z.shiftr_lor. change (Z.shiftr 1 1) with 0. apply Z.lor_0_r. }
  destruct (xgcd_big_ok (set_bit0 r) (2 ^ 634) ltac:(clear - Bb; lia) P0) as (y & Ey & By & Dy). rewrite (odd_gcd _ Ob) in Dy. cbv zeta. rewrite Ey. cbn [obind]. rewrite (Z.mod_small y (2 ^ 634) By). eexists. split; [reflexivity|].
  assert (Ny : 0 < y). { destruct (Z.eq_dec y 0) as [->|N]; [|clear - By N; lia]. exfalso. rewrite Z.mul_0_r in Dy. apply Z.divide_opp_r in Dy. apply Z.divide_pos_le in Dy; [|reflexivity]. revert Dy. vm_compute. intros D. apply D. reflexivity. }
  split; [|split; [reflexivity|split; [reflexivity|exact Eb]]]. split; cbn [ti_s1 ti_s2 ti_B fst snd]; try assumption; [clear - Bb; lia|clear - Ny By; lia].
Qed.
(** a round of the program ends without a panic, in particular the message comes back, under the conditions of C69_roundtrip *)
Theorem C69_bench : forall fuel checks self r11 r22 rng phi1 EA' phi2 EA P' Q' P Q a1 b1 a2 b2 pk sk s1 s2 r,
  festa_new fq_ops root_fq fuel checks = Some self -> 0 <= r11 -> 0 <= r22 -> walks_ok fuel checks rng phi1 EA' phi2 EA ->
  n_basis (coeff E0) ed1 (affine (fst (fe_d1b self))) (affine (snd (fe_d1b self))) ->
  found_basis fuel checks EA' D2_FACTORED ed2 P' Q' -> found_basis fuel checks EA D2_FACTORED ed2 P Q -> image_coords phi2 EA P' Q' P Q a1 b1 a2 b2 ->
  keygen fq_ops (dlp_fq checks) fuel checks self r11 r22 rng = Some (pk, sk) ->
  full_pairing checks EA' ed1 (pmul_q (coeff EA') (2 ^ 634) (affine (fst (sk_bd1 sk)))) (pmul_q (coeff EA') (2 ^ 634) (affine (snd (sk_bd1 sk)))) ->
  0 <= s1 < ed1 -> 0 <= s2 < ed2 -> 0 <= r < 2 ^ 633 ->
  exists m c U W, gen_random_trapdoor_input s1 s2 r = Some m /\ trapdoor_eval fq_ops fuel checks self pk m = Some c /\
    forall P1 Q1 P2 Q2, torsion_basis fq_ops fuel checks (to_E1 c) D1_FACTORED 634 = Some (P1, Q1) -> torsion_basis fq_ops fuel checks (to_E2 c) D2_FACTORED 634 = Some (P2, Q2) -> on_E (to_E1 c) P1 -> on_E (to_E1 c) Q1 ->
      (checks = true -> pairings_cancel checks (to_E1 c) (to_E2 c) (affine (to_R1 c)) (affine (to_S1 c)) (pmul_q (coeff (to_E2 c)) (fe_g2 self) (affine U)) (pmul_q (coeff (to_E2 c)) (fe_g2 self) (affine W))) ->
      isogeny_carries checks self sk c U W P1 Q1 P2 Q2 (ti_s1 m) (ti_s2 m) (fst (ti_B m)) ->
      bench_case fq_ops (dlp_fq checks) fuel checks self r11 r22 rng s1 s2 r = Some tt.
Proof.
  intros fuel checks self r11 r22 rng phi1 EA' phi2 EA P' Q' P Q a1 b1 a2 b2 pk sk s1 s2 r HN Hr1 Hr2 WO BD FB' FB IC HK FP1 H1 H2 Hr.
  destruct (C69_random_message s1 s2 r H1 H2 Hr) as (m & Em & MO & _).
  destruct (C69_roundtrip fuel checks self r11 r22 rng phi1 EA' phi2 EA P' Q' P Q a1 b1 a2 b2 pk sk m HN Hr1 Hr2 WO BD FB' FB IC HK FP1 MO) as (c & U & W & EC & _ & _ & _ & R).
  exists m, c, U, W. split; [exact Em|]. split; [exact EC|]. intros P1 Q1 P2 Q2 T1 T2 O1 O2 PC HX. pose proof (R P1 Q1 P2 Q2 T1 T2 O1 O2 PC HX) as RT. unfold bench_case. rewrite HK. cbn [obind fst snd]. rewrite Em. cbn [obind]. rewrite EC. cbn [obind]. rewrite RT. cbn [obind].
  rewrite (proj2 (C67_equality m m) eq_refl). reflexivity.
Qed.
Example C69_random_message_ex : exists m, gen_random_trapdoor_input 5 7 2 = Some m /\ fst (ti_B m) = 3 /\ message_ok m.
Proof. destruct (C69_random_message 5 7 2) as (m & E & M & _ & _ & B); [split; vm_compute; [discriminate|reflexivity]..|]. exists m. split; [exact E|]. split; [exact B|exact M]. Qed.
Print Assumptions C69_random_message. Print Assumptions C69_bench.
