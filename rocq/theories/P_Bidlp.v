(** C28, C56: the two-dimensional logarithm and the canonical kernel for points R of any order m with n < m^2 (src/discrete_log.rs:167-190, src/supersingular.rs:321-362). *)
From Coq Require Import Arith ZArith List Bool Lia Ring Field Znumtheory.
From Verif Require Import M_Super2 M_Festa P_Festa S_Fp S_Fp2 S_Dlog S_Curve S_Params M_Fp M_Fp2 M_Field M_Curve M_Consts M_Dlog M_Pairing M_Super L_Words L_FpCodec L_Zp L_Zp2 L_Fp L_Fp2 L_Fp2Roots L_Fp2Misc L_Group L_Kummer L_Field L_QNum L_Curve L_Ints L_Dlog L_Super L_Weil L_Weil2 L_Weil3 L_PairEx L_Pairing P_Fp2 P_Params P_Curve P_Dlog P_Super P_Pairing P_PairEx L_Festa.
Import ListNotations.
Open Scope Z_scope.

Lemma order_divides E (V : valid E) p m k : on_q (coeff E) p -> exact_order (coeff E) m p -> 0 < m -> 0 <= k -> pmul_q (coeff E) k p = None -> (m | k).
Proof.
  intros Hp [Zm Xm] Hm Hk Zk. pose proof (Z.mod_pos_bound k m Hm) as B. destruct (Z.eq_dec (k mod m) 0) as [D|D]; [apply Z.mod_divide; lia|]. exfalso. apply (Xm (k mod m) ltac:(lia)).
  assert (K0 : 0 <= k / m) by (apply Z.div_pos; lia). rewrite (Z.div_mod k m) in Zk by lia. rewrite (pm_add V) in Zk by (try assumption; nia). rewrite (pm_zero_mul V p m (k / m)) in Zk by (try assumption; lia). exact Zk.
Qed.
Section Odd.
Context (checks : bool) (E : curve fq) (V : valid E) (n : Z) (Hn : 3 < n) (On : Z.odd n = true).
Notation A := (coeff E).
Notation pn m := (S_Curve.pmul_nat q1 qadd qmul qsub qopp qdiv qeqb A m).
(** points of order m with n < m^2: the loop meets infinity only at its end *)
Lemma big_prefix p m : on_q A p -> exact_order A m p -> 0 < m -> (m | n) -> n < m * m -> prefix_ok (k1 := q1) (kadd := qadd) (kmul := qmul) (ksub := qsub) (kopp := qopp) (kdiv := qdiv) (keq := qeqb) A n p.
Proof.
  intros Hp XO M0 Dm Hb.
  assert (NP : p <> None). { intros ->. assert (1 < m) by nia. apply (proj2 XO 1); [lia|]. apply pm_O. lia. }
  split; [exact NP|].
  assert (M : forall t : nat, 0 < Z.shiftr n (Z.of_nat (S t)) -> ~ (m | Z.shiftr n (Z.of_nat (S t)))).
  { intros t Ht [j Hj]. rewrite Z.shiftr_div_pow2 in * by lia. set (w := 2 ^ Z.of_nat (S t)) in *. assert (W0 : 0 < w) by (apply Z.pow_pos_nonneg; lia). pose proof (Z.div_mod n w ltac:(lia)) as DM. pose proof (Z.mod_pos_bound n w W0) as MB. set (k := n / w) in *. set (r := n mod w) in *.
    destruct Dm as [c Hc]. assert (R : r = m * (c - j * w)) by nia. destruct (Z.eq_dec r 0) as [R0|R0].
    - assert (Ev : Z.odd n = false). { rewrite DM, R0, Z.add_0_r. unfold w. rewrite Nat2Z.inj_succ, Z.pow_succ_r by lia. rewrite <- Z.mul_assoc, Z.odd_mul. reflexivity. } congruence.
    - clear - R R0 MB DM Hj Ht M0 Hb W0. set (d := c - j * w) in *. assert (D0 : 0 < d) by nia. assert (R1 : m <= r) by (clear - R D0 M0; nia). assert (J0 : 0 < j) by (clear - Ht Hj M0; nia). assert (K1 : m <= k) by (clear - Hj J0 M0; nia). clear - K1 R1 DM MB Hb M0 W0. nia. }
  intros t Ht. assert (K0 : 0 <= Z.shiftr n (Z.of_nat (S t))) by lia. split.
  - intros Z0. apply (M t Ht). apply (order_divides E V p); try assumption. rewrite pm_n by lia. exact Z0.
  - intros _ Z0. apply (M t Ht). assert (D2 : (m | 2 * Z.shiftr n (Z.of_nat (S t)))) by (apply (order_divides E V p); try assumption; [lia|rewrite pm_n by lia; exact Z0]).
    apply (Gauss m 2); [exact D2|]. apply rel_prime_sym. apply prime_rel_prime; [exact prime_2|]. intros [c Hc]. destruct Dm as [d Hd]. rewrite Hd, Hc, !Z.odd_mul in On. rewrite !andb_false_r in On. discriminate.
Qed.
Context (P Q : point fq) (HP : on_E E P) (HQ : on_E E Q) (B : n_basis A n (affine P) (affine Q)).
Notation pz := (pzq A (affine P) (affine Q) n).
Let SM := valid_smooth E V.
Let OP := b_OP E n Hn P Q B. Let OQ := b_OQ E n Hn P Q B. Let IN := b_in E n P Q B.
Lemma weil_first R a b m : on_E E R -> affine R = pz a b -> exact_order A m (affine R) -> 0 < m -> (m | n) -> n < m * m -> 0 < a < n -> 0 <= b ->
  exists w, weil_pairing fq_ops checks E R Q n = Some w /\ fqv w = qpow (eeq A (affine P) (affine Q) n 1 0 0 1) a.
Proof.
  intros OR ER X M0 Dm Hm Ha Hb.
  assert (D1 : (1 < n)) by (clear - Hn; lia). assert (ND : ~ (n | a)) by (clear - Ha; intros D; apply Z.divide_pos_le in D; lia).
  pose proof (rel_pow Zq_field qeqb_true q2_nz SM (affine P) (affine Q) HP HQ n n Hn D1 (Z.divide_refl n) OP OQ IN ltac:(lia) On a b Hn Ha Hb) as RP.
  pose proof (q_xdis Zq_field qeqb_true q2_nz SM (affine P) (affine Q) HP HQ n n Hn D1 (Z.divide_refl n) OP OQ IN 0 a b ND) as X1.
  pose proof (q_xdis' Zq_field qeqb_true q2_nz SM (affine P) (affine Q) HP HQ n n Hn D1 (Z.divide_refl n) OP OQ IN 0 a b ND) as X2.
  replace (a + 0 * b) with a in X1, X2 by ring. replace (0 + 0 * 1) with 0 in X1, X2 by ring.
  pose proof (big_prefix (affine R) m OR X M0 Dm Hm) as PR.
  assert (EQ : affine Q = pz 0 1) by (apply aQ; exact Hn).
  assert (PQ : prefix_ok (k1 := q1) (kadd := qadd) (kmul := qmul) (ksub := qsub) (kopp := qopp) (kdiv := qdiv) (keq := qeqb) A n (affine Q)).
  { assert (XQ : exact_order A n (affine Q)) by (rewrite EQ; exact (unim_ord E V n Hn P Q HP HQ B 0 1 (unim_0 n))). apply exact_prefix; [exact D1|]. exact (exact_nat E n Hn _ XQ). }
  pose proof (proj1 PR) as F1. pose proof (proj1 PQ) as F2.
  assert (SX : forall p : pt Zq, p <> None -> exists x y, p = Some (x, y)) by (intros [[x y]|] Hp; [exists x, y; reflexivity|exfalso; apply Hp; reflexivity]).
  destruct (SX _ F1) as (x1 & y1 & AR). destruct (SX _ F2) as (x2 & y2 & AS). clear SX F1 F2.
  change (affine R) with (aff (k0 := q0) (kdiv := qdiv) (keq := qeqb) (v := fqv) R) in AR. change (affine Q) with (aff (k0 := q0) (kdiv := qdiv) (keq := qeqb) (v := fqv) Q) in AS.
  destruct (weil_prefix fq_laws checks E R Q n x1 y1 x2 y2 (valid_wfc E V) OR HQ AR AS D1) as (w & Ew & Vw).
  - exact PR.
  - exact PQ.
  - change (pn (Z.to_nat n) (affine R) = None). rewrite ER. exact (pz_order Zq_field qeqb_true q2_nz SM (affine P) _ HP HQ n Hn OP OQ IN a b).
  - change (pn (Z.to_nat n) (affine Q) = None). rewrite EQ. exact (pz_order Zq_field qeqb_true q2_nz SM (affine P) _ HP HQ n Hn OP OQ IN 0 1).
  - intros k. change (xdis (pn k (affine R)) (affine Q)). rewrite EQ, ER. exact (X1 k).
  - intros k. change (xdis (pn k (affine Q)) (affine R)). rewrite EQ, ER. exact (X2 k).
  - exists w. split; [exact Ew|]. rewrite pw_q, Z2Nat.id in RP by (clear - Ha; lia). rewrite Vw. transitivity (wpq A (Z.to_nat n) (affine R) (affine Q)); [reflexivity|]. transitivity (wpq A (Z.to_nat n) (pz a b) (pz 0 1)); [f_equal; [exact ER|exact EQ]|exact RP].
Qed.
End Odd.

(** ** C28, odd orders: any R of an order m with n < m^2 *)
Theorem C28_bidlp_odd : forall checks E P Q R fs a b m ePQ w t, let n := fprod fs in
  valid E -> 3 < n -> Z.odd n = true -> log_entries checks fs -> fcoprime fs ->
  on_E E P -> on_E E Q -> on_E E R -> n_basis (coeff E) n (affine P) (affine Q) ->
  affine R = padd_q (coeff E) (pmul_q (coeff E) a (affine P)) (pmul_q (coeff E) b (affine Q)) -> 0 < a < n -> 0 < b < n ->
  exact_order (coeff E) m (affine R) -> 0 < m -> n < m * m ->
  (ePQ = Some w \/ ePQ = None /\ weil_pairing fq_ops checks E P Q n = Some w) -> unit_order (fqv w) n ->
  0 <= t -> (forall v, weil_pairing fq_ops checks E P Q n = Some v -> fqv v = qpow (fqv w) t) ->
  bidlp fq_ops (dlp_fq checks) checks E R P Q fs ePQ = Some ((a * t) mod n, (b * t) mod n).
Proof.
  intros c E P Q R fs a b m ePQ w t n V Hn On HF HC HP HQ HR B ER Ha Hb X M0 Hm He Ow Ht Hw. rewrite (comb_pz E V n Hn P Q HP HQ B) in ER by (clear - Ha Hb; lia).
  assert (SM := valid_smooth E V). pose proof (b_OP E n Hn P Q B) as OP. pose proof (b_OQ E n Hn P Q B) as OQ. pose proof (b_in E n P Q B) as IN.
  assert (N0 : 0 <= n) by (clear - Hn; lia).
  assert (Dm : (m | n)). { apply (order_divides E V (affine R)); try assumption. rewrite (pm_n E) by exact N0. rewrite ER. exact (pz_order Zq_field qeqb_true q2_nz SM (affine P) (affine Q) HP HQ n Hn OP OQ IN a b). }
  destruct (weil_PQ c E V n Hn P Q HP HQ B) as (w0 & Ew0 & Vw0). specialize (Hw w0 Ew0).
  destruct (weil_first c E V n Hn On P Q HP HQ B R a b m HR ER X M0 Dm Hm Ha ltac:(clear - Hb; lia)) as (wa & Ewa & Vwa).
  assert (ON : on_E E (p_neg fq_ops P)) by (apply (neg_on fq_laws), HP). pose proof (basis_swap E n P Q V Hn HP HQ B) as B1.
  assert (ER' : affine R = pzq (coeff E) (affine Q) (affine (p_neg fq_ops P)) n b (n - a)).
  { rewrite C29_neg. etransitivity; [exact ER|]. etransitivity; [|symmetry; apply (pz_swap Zq_field qeqb_true q2_nz SM (affine P) (affine Q) HP HQ n Hn OP)]. apply (pz_mod (affine P) (affine Q) n); [exists 1; ring|exists 0; ring]. }
  destruct (weil_first c E V n Hn On Q (p_neg fq_ops P) HQ ON B1 R b (n - a) m HR ER' X M0 Dm Hm Hb ltac:(clear - Ha; lia)) as (wb & Ewb & Vwb).
  assert (EE : eeq (coeff E) (affine Q) (affine (p_neg fq_ops P)) n 1 0 0 1 = fqv w0).
  { destruct (weil_PQ c E V n Hn Q (p_neg fq_ops P) HQ ON B1) as (u & Eu & Vu). destruct (weil_RnP c E V n Hn P Q HP HQ B Q 0 1 HQ (aQ E n Hn P Q)) as (u' & Eu' & Vu').
    - rewrite (aQ E n Hn P Q). apply (unim_ord E V n Hn P Q HP HQ B). apply unim_0.
    - clear; lia.
    - clear - Hn; lia.
    - rewrite Eu in Eu'. apply some_inj in Eu'. subst u'. rewrite <- Vu, Vu', Vw0, qpow_1. reflexivity. }
  rewrite EE in Vwb. rewrite <- Vw0 in Vwa.
  unfold bidlp. replace (fold_left (fun r le => r * bpow le) fs 1) with n.
  2: { unfold n. assert (G : forall fs s, fold_left (fun r le => r * bpow le) fs s = s * fprod fs) by (clear; induction fs as [|[l e] fs IH]; intros s; cbn [fold_left fprod]; [ring|rewrite IH; unfold bpow; cbn [fst snd]; ring]). rewrite G. ring. }
  replace (match ePQ with Some x => Some x | None => weil_pairing fq_ops c E P Q n end) with (Some w) by (destruct He as [->|[-> He]]; [reflexivity|symmetry; exact He]).
  rewrite Ewa, Ewb. rewrite Hw in Vwa, Vwb. unfold dlp_fq.
  assert (DL : forall x k, 0 <= k -> fqv x = qpow (qpow (fqv w) t) k -> ph_dlp c (proj1_sig x) (proj1_sig w) fs = Some ((k * t) mod n)).
  { intros x k Hk Vx. apply ph_dlp_ok; [apply canon2b_ok, (proj2_sig w)|apply canon2b_ok, (proj2_sig x)|exact HF|exact HC|exact Ow|apply Z.mod_pos_bound; clear - Hn; lia|].
    change (qpow (fqv w) ((k * t) mod n) = fqv x). rewrite Vx. destruct Ow as (_ & O1 & _). rewrite <- qpow_mod by (try assumption; clear - Hk Ht Hn; nia). rewrite <- qpow_mul by assumption. f_equal. ring. }
  rewrite (DL wa a) by (try assumption; clear - Ha; lia). rewrite (DL wb b) by (try assumption; clear - Hb; lia). reflexivity.
Qed.

(** ** C56: the canonical kernel, images of any orders m1, m2 with n < m_i^2 *)
Theorem C56_kernel_odd : forall fuel checks E imP imQ P Q fs a1 b1 m1 a2 b2 m2 s w, let n := fprod fs in
  valid E -> 3 < n -> Z.odd n = true -> log_entries checks fs -> fcoprime fs -> Forall (fun f => prime (fst f) /\ (~ (fst f | a1) \/ ~ (fst f | a2))) fs ->
  on_E E P -> on_E E Q -> on_E E imP -> on_E E imQ -> n_basis (coeff E) n (affine P) (affine Q) ->
  affine imP = padd_q (coeff E) (pmul_q (coeff E) a1 (affine P)) (pmul_q (coeff E) b1 (affine Q)) -> 0 < a1 < n -> 0 < b1 < n -> exact_order (coeff E) m1 (affine imP) -> 0 < m1 -> n < m1 * m1 ->
  affine imQ = padd_q (coeff E) (pmul_q (coeff E) a2 (affine P)) (pmul_q (coeff E) b2 (affine Q)) -> 0 < a2 < n -> 0 < b2 < n -> exact_order (coeff E) m2 (affine imQ) -> 0 < m2 -> n < m2 * m2 ->
  (n | b1 - s * a1) -> (n | b2 - s * a2) ->
  weil_pairing fq_ops checks E P Q n = Some w -> unit_order (fqv w) n ->
  compute_canonical_kernel fq_ops (dlp_fq checks) fuel checks E imP imQ fs (Some (P, Q)) = Some (s mod n).
Proof.
  intros fuel c E imP imQ P Q fs a1 b1 m1 a2 b2 m2 s w n V Hn On HL HC HF HP HQ H1 H2 B E1 A1 B1 X1 M1 N1 E2 A2 B2 X2 M2 N2 D1 D2 Ew Ow. unfold compute_canonical_kernel. cbn [obind]. rewrite unfactored_ok. fold n. rewrite Ew. cbn [obind].
  assert (T : forall v, weil_pairing fq_ops c E P Q n = Some v -> fqv v = qpow (fqv w) 1) by (intros v Ev; rewrite Ew in Ev; apply some_inj in Ev; subst v; rewrite qpow_1; reflexivity).
  assert (H01 : 0 <= 1) by (clear; lia).
  rewrite (C28_bidlp_odd c E P Q imP fs a1 b1 m1 (Some w) w 1 V Hn On HL HC HP HQ H1 B E1 A1 B1 X1 M1 N1 (or_introl eq_refl) Ow H01 T). fold n. rewrite !Z.mul_1_r, !Z.mod_small by (clear - A1 B1; lia). cbn [obind].
  rewrite (C28_bidlp_odd c E P Q imQ fs a2 b2 m2 (Some w) w 1 V Hn On HL HC HP HQ H2 B E2 A2 B2 X2 M2 N2 (or_introl eq_refl) Ow H01 T). fold n. rewrite !Z.mul_1_r, !Z.mod_small by (clear - A2 B2; lia). cbn [obind fst snd].
  apply C56_scalar; [clear - A1; lia|clear - A2; lia| |exact HC|exact D1|exact D2]. unfold log_entries in HL. rewrite Forall_forall in *. intros f Hf. destruct (HF f Hf) as [F1 F2]. destruct (HL f Hf) as (_ & F3 & _). split; [exact F1|]. split; [apply F3|exact F2].
Qed.
Print Assumptions C28_bidlp_odd. Print Assumptions C56_kernel_odd.
