(** C23-C27: integer helpers and discrete logarithms. *)
From Coq Require Import ZArith List Lia Bool Ring.
From Verif Require Import S_Fp S_Fp2 S_Dlog M_Utils64 M_Fp M_Fp2 M_Dlog L_Fp L_FpOps L_FpSmall L_FpCodec L_Zp L_Zp2 L_Fp2 L_Fp2Misc P_Fp2 L_Ints L_Dlog.
Import ListNotations.
Open Scope Z_scope.

(** ** C23 *)
Theorem C23_xgcd : forall a b, 0 <= a -> 0 < b -> exists r, xgcd_big a b = Some r /\ 0 <= r < b /\ (b | a * r - Z.gcd a b).
Proof. exact xgcd_big_ok. Qed.
Theorem C23_xgcd_inverse : forall a b, 0 <= a -> 1 < b -> Z.gcd a b = 1 -> exists r, xgcd_big a b = Some r /\ 0 <= r < b /\ (a * r) mod b = 1.
Proof.
  intros a b Ha Hb G. destruct (xgcd_big_ok a b Ha ltac:(lia)) as (r & E & B & k & D). exists r. split; auto. split; auto. rewrite G in D.
  replace (a * r) with (1 + k * b) by lia. rewrite Z.mod_add, Z.mod_small by lia. reflexivity.
Qed.
Theorem C23_xgcd_zero_modulus : forall a, 0 <= a -> xgcd_big a 0 = None.
Proof. exact xgcd_big_0. Qed.
Example C23_ex : Z.gcd 512 1241 = 1 /\ exists r, xgcd_big 512 1241 = Some r /\ (512 * r) mod 1241 = 1.
Proof. split; [reflexivity|]. eexists. split; [vm_compute; reflexivity|]. reflexivity. Qed.
Print Assumptions C23_xgcd.
Print Assumptions C23_xgcd_inverse.
Print Assumptions C23_xgcd_zero_modulus.

(** ** C24 *)
Theorem C24_crt : forall rs fs, Forall (fun f => 0 < fst f ^ snd f) fs -> fcoprime fs -> (length fs <= length rs)%nat ->
  exists x, compute_crt rs fs = Some x /\ 0 <= x < fprod fs /\ cong_all x rs fs /\ (forall y, 0 <= y < fprod fs -> cong_all y rs fs -> y = x).
Proof.
  intros rs fs Hp Hc Hl. destruct (compute_crt_ok rs fs Hp Hc Hl) as (x & E & B & C). exists x. repeat split; auto; try lia. intros y By Cy. exact (crt_unique rs fs y x Hp Hc Hl By B Cy C).
Qed.
(** the unit test's input; remainders need not be reduced *)
Example C24_ex : fcoprime [(3, 2); (5, 1); (7, 3)] /\ exists x, compute_crt [5; 3; 23] [(3, 2); (5, 1); (7, 3)] = Some x /\ x mod 9 = 5 /\ x mod 5 = 3 /\ x mod 343 = 23.
Proof. split; [repeat split; repeat constructor|]. eexists. split; [vm_compute; reflexivity|]. repeat split. Qed.
Print Assumptions C24_crt.

(** ** C25 *)
Theorem C25_sqrt_floor_release : forall n, 0 <= n < 2 ^ 32 -> exists r, sqrt_floor false n = Some r /\ 0 <= r /\ r * r <= n < (r + 1) * (r + 1).
Proof. intros n Hn. exists (Z.sqrt n). rewrite sqrt_floor_ok by exact Hn. split; [reflexivity|]. split; [apply Z.sqrt_nonneg|]. pose proof (Z.sqrt_spec n ltac:(lia)). cbv zeta in *. lia. Qed.
Theorem C25_sqrt_floor_checked : forall n, 0 <= n <= 65535 * 65535 -> exists r, sqrt_floor true n = Some r /\ 0 <= r /\ r * r <= n < (r + 1) * (r + 1).
Proof.
  intros n Hn. exists (Z.sqrt n). rewrite sqrt_floor_ok by lia. replace (4294836225 <? n) with false by (symmetry; apply Z.ltb_ge; lia). split; [reflexivity|]. split; [apply Z.sqrt_nonneg|]. pose proof (Z.sqrt_spec n ltac:(lia)). cbv zeta in *. lia.
Qed.
Theorem C25_sqrt_floor_checked_panics : forall n, 65535 * 65535 < n < 2 ^ 32 -> sqrt_floor true n = None.
Proof. intros n Hn. rewrite sqrt_floor_ok by lia. replace (4294836225 <? n) with true by (symmetry; apply Z.ltb_lt; lia). reflexivity. Qed.
Example C25_ex : sqrt_floor true 1000003 = Some 1000 /\ sqrt_floor false 4294967295 = Some 65535 /\ sqrt_floor true 4294967295 = None.
Proof. repeat split; vm_compute; reflexivity. Qed.
Print Assumptions C25_sqrt_floor_release.
Print Assumptions C25_sqrt_floor_checked.
Print Assumptions C25_sqrt_floor_checked_panics.

(** ** C26: [order] is the exponent bound handed to bsgs; builds with checks additionally need order <= 65535^2 (C25) *)
Lemma gpow_q x e r : gpow (val2 x) e = val2 r <-> qpow (fv2 x) e = fv2 r.
Proof. rewrite <- !zval2_fv2, <- zval2_qpow. split; [apply zval2_inj|congruence]. Qed.
Theorem C26_bsgs_finds : forall checks alpha beta order e, canon2 alpha -> canon2 beta -> 0 < order < 2 ^ 32 -> (checks = true -> order <= 65535 * 65535) ->
  0 <= e < order -> gpow (val2 alpha) e = val2 beta ->
  exists d, bsgs checks beta alpha order = Some d /\ 0 <= d < order /\ gpow (val2 alpha) d = val2 beta /\ (forall k, 0 <= k < d -> gpow (val2 alpha) k <> val2 beta).
Proof.
  intros c alpha beta order e Ha Hb Ho Hc He E. apply gpow_q in E. destruct (bsgs_finds c alpha beta order e Ha Hb Ho Hc He E) as (d & A & B & C & D).
  exists d. split; auto. split; auto. split; [apply gpow_q; auto|]. intros k Hk K. apply (D k Hk), gpow_q, K.
Qed.
Theorem C26_bsgs_sound : forall checks alpha beta order d, canon2 alpha -> canon2 beta -> 0 < order < 2 ^ 32 -> gpow (val2 alpha) order = (1, 0) ->
  bsgs checks beta alpha order = Some d -> 0 <= d < order /\ gpow (val2 alpha) d = val2 beta.
Proof.
  intros c alpha beta order d Ha Hb Ho H1 E. rewrite gpow_q. apply (bsgs_sound c); auto. apply zval2_inj. rewrite zval2_qpow, zval2_fv2, zval2_1. auto.
Qed.
Theorem C26_bsgs_panics : forall checks alpha beta order, canon2 alpha -> canon2 beta -> 0 < order < 2 ^ 32 -> gpow (val2 alpha) order = (1, 0) ->
  (forall e, 0 <= e < order -> gpow (val2 alpha) e <> val2 beta) -> bsgs checks beta alpha order = None.
Proof.
  intros c alpha beta order Ha Hb Ho H1 N. destruct (bsgs c beta alpha order) as [d|] eqn:E; auto. destruct (C26_bsgs_sound c alpha beta order d Ha Hb Ho H1 E) as [B F]. exfalso. exact (N d B F).
Qed.
Lemma zeta_pows : gpow (val2 f2_zeta) 1 = (0, 1) /\ gpow (val2 f2_zeta) 2 = (P - 1, 0) /\ gpow (val2 f2_zeta) 3 = (0, P - 1) /\ gpow (val2 f2_zeta) 4 = (1, 0).
Proof. rewrite val2_zeta. repeat split; vm_compute; reflexivity. Qed.
Lemma canon2_mzeta : canon2 f2_minus_zeta. Proof. split; [exact canon_zero|exact canon_minus_one]. Qed.
Lemma val2_mzeta : val2 f2_minus_zeta = (0, P - 1). Proof. unfold val2, f2_minus_zeta. cbn [fst snd]. rewrite val_zero, val_minus_one. reflexivity. Qed.
(** i^3 = -i is found from base i *)
Example C26_ex : exists d, bsgs true f2_minus_zeta f2_zeta 4 = Some d /\ gpow (val2 f2_zeta) d = val2 f2_minus_zeta.
Proof.
  destruct (C26_bsgs_finds true f2_zeta f2_minus_zeta 4 3 canon2_zeta canon2_mzeta) as (d & A & _ & C & _); try lia; [|eauto].
  rewrite val2_mzeta. apply zeta_pows.
Qed.
(** when the base does not satisfy base^order = 1 a wrong exponent can be returned: order 2, base i, target -i = i^3 gives 3 mod 2 *)
Theorem C26_bsgs_any_base_refuted : exists alpha beta order d, canon2 alpha /\ canon2 beta /\ 0 < order < 2 ^ 32 /\ bsgs true beta alpha order = Some d /\ gpow (val2 alpha) d <> val2 beta.
Proof.
  destruct zeta_pows as (Z1 & Z2 & Z3 & Z4). exists f2_zeta, f2_minus_zeta, 2.
  assert (Nz : fv2 f2_zeta <> q0) by (intros K; apply val2_0 in K; [rewrite val2_zeta in K; discriminate|apply canon2_zeta]).
  pose proof (bsgs_exact true f2_zeta f2_minus_zeta 2 canon2_zeta canon2_mzeta Nz ltac:(lia) ltac:(lia)) as H. change ((Z.sqrt 2 + 1) * (Z.sqrt 2 + 1)) with 4 in H.
  destruct (bsgs true f2_minus_zeta f2_zeta 2) as [d|].
  - exists d. destruct H as (v & B & E & M & D). assert (v = 3).
    { apply gpow_q in E. rewrite val2_mzeta in E. assert (C : v = 0 \/ v = 1 \/ v = 2 \/ v = 3) by lia. destruct C as [->|[->|[->| ->]]]; auto; exfalso.
      - discriminate E. - rewrite Z1 in E. discriminate E. - rewrite Z2 in E. discriminate E. }
    subst v. change (3 mod 2) with 1 in D. subst d. split; [exact canon2_zeta|]. split; [exact canon2_mzeta|]. split; [lia|]. split; [reflexivity|]. rewrite Z1, val2_mzeta. discriminate.
  - exfalso. apply (H 3); [lia|]. apply gpow_q. rewrite Z3, val2_mzeta. reflexivity.
Qed.
Print Assumptions C26_bsgs_finds.
Print Assumptions C26_bsgs_sound.
Print Assumptions C26_bsgs_panics.
Print Assumptions C26_bsgs_any_base_refuted.

(** ** C27 *)
Theorem C27_ph_dlp_power : forall checks beta alpha l e k, canon2 alpha -> canon2 beta -> 2 <= l < 2 ^ 32 -> (checks = true -> l <= 65535 * 65535) -> 1 <= e < 2 ^ 32 ->
  g_order (val2 alpha) (l ^ e) -> 0 <= k < l ^ e -> gpow (val2 alpha) k = val2 beta -> ph_dlp_power checks beta alpha l e = Some k.
Proof.
  intros c beta alpha l e k Ha Hb Hl Hc He O Hk E. apply ph_dlp_power_ok; auto; [apply g_order_q; auto|apply gpow_q; auto].
Qed.
Theorem C27_ph_dlp : forall checks beta alpha fs k, canon2 alpha -> canon2 beta ->
  Forall (fun f => 2 <= fst f < 2 ^ 32 /\ 1 <= snd f < 2 ^ 32 /\ (checks = true -> fst f <= 65535 * 65535)) fs -> fcoprime fs ->
  g_order (val2 alpha) (fprod fs) -> 0 <= k < fprod fs -> gpow (val2 alpha) k = val2 beta -> ph_dlp checks beta alpha fs = Some k.
Proof.
  intros c beta alpha fs k Ha Hb Hf Hc O Hk E. apply ph_dlp_ok; auto; [apply g_order_q; auto|apply gpow_q; auto].
Qed.
(** whatever the inputs, a returned value is a logarithm once alpha^D = 1; so targets outside the subgroup make the function panic *)
Theorem C27_ph_dlp_sound : forall checks beta alpha fs r, canon2 alpha -> canon2 beta -> val2 beta <> (0, 0) -> fs <> [] ->
  Forall (fun f => 2 <= fst f < 2 ^ 32 /\ 1 <= snd f < 2 ^ 32 /\ (checks = true -> fst f <= 65535 * 65535)) fs -> fcoprime fs ->
  gpow (val2 alpha) (fprod fs) = (1, 0) -> ph_dlp checks beta alpha fs = Some r -> 0 <= r < fprod fs /\ gpow (val2 alpha) r = val2 beta.
Proof.
  intros c beta alpha fs r Ha Hb Nb Ne Hf Hc O E. destruct (ph_dlp_sound c beta alpha fs r Ha Hb Ne Hf Hc) as [B S]; [|exact E|split; [exact B|]].
  - apply zval2_inj. rewrite zval2_qpow, zval2_fv2, zval2_1. exact O.
  - apply gpow_q, S. intros Z0. apply Nb. apply val2_0 in Z0; auto.
Qed.
(** an exponent 0 in the factorisation: e - 1 underflows (panic with checks; in release 2^32 - 1 harmless powerings and the right answer 0) *)
Theorem C27_zero_exponent : forall beta alpha l, canon2 alpha -> 0 <= l < 2 ^ 32 -> ph_dlp_power true beta alpha l 0 = None /\ ph_dlp_power false beta alpha l 0 = Some 0.
Proof.
  intros beta alpha l Ha Hl. split; [reflexivity|]. unfold ph_dlp_power. change (u32_op false (0 - 1)) with (Some 4294967295). cbv iota beta.
  destruct (pow_small_iter_ok l 4294967295 alpha Ha Hl ltac:(lia)) as (h & E & Ch & _). rewrite E. destruct (f2_pow_small_ok h l Ch Hl) as (r & Er & _). rewrite Er. reflexivity.
Qed.
Lemma zeta_order : g_order (val2 f2_zeta) (2 ^ 2).
Proof.
  destruct zeta_pows as (Z1 & Z2 & Z3 & Z4). split; [lia|]. split; [exact Z4|]. intros k Hk. change (2 ^ 2) with 4 in Hk. assert (C : k = 1 \/ k = 2 \/ k = 3) by lia.
  destruct C as [->|[->| ->]]; [rewrite Z1|rewrite Z2|rewrite Z3]; discriminate.
Qed.
(** log of -i to base i in the group of order 2^2 *)
Example C27_ex : ph_dlp true f2_minus_zeta f2_zeta [(2, 2)] = Some 3.
Proof.
  apply C27_ph_dlp; [apply canon2_zeta|apply canon2_mzeta|..].
  - repeat constructor; cbn; lia.
  - split; [constructor|exact I].
  - exact zeta_order.
  - cbn; lia.
  - rewrite val2_mzeta. apply zeta_pows.
Qed.
(** -1 = i^2 is a logarithm target for i but not conversely: i is no power of -1 *)
Example C27_ex_sound : forall r, ph_dlp true f2_zeta f2_minus_zeta [(2, 2)] = Some r -> gpow (val2 f2_minus_zeta) r = (0, 1).
Proof.
  intros r H. rewrite <- val2_zeta. refine (proj2 (C27_ph_dlp_sound true f2_zeta f2_minus_zeta [(2, 2)] r canon2_mzeta canon2_zeta _ _ _ _ _ H)).
  - rewrite val2_zeta. discriminate.
  - discriminate.
  - repeat constructor; cbn; lia.
  - split; [constructor|exact I].
  - rewrite val2_mzeta. vm_compute. reflexivity.
Qed.
Print Assumptions C27_ph_dlp_power.
Print Assumptions C27_ph_dlp.
Print Assumptions C27_ph_dlp_sound.
Print Assumptions C27_zero_exponent.
