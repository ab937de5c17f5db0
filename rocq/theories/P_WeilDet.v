(** C55: the Weil pairing of two points given by their coordinates in a basis is the pairing of the basis raised to the determinant (src/pairing.rs). *)
From Coq Require Import Arith ZArith List Bool Lia Ring Field Znumtheory.
From Verif Require Import S_Fp S_Fp2 S_Dlog S_Curve S_Params M_Fp M_Fp2 M_Field M_Curve M_Consts M_Dlog M_Pairing L_Zp L_Zp2 L_Fp L_Fp2 L_Fp2Misc L_Group L_Kummer L_Field L_QNum L_Curve L_Dlog L_Weil L_Weil2 L_WeilDet L_PairEx L_Pairing P_Fp2 P_Params P_Curve P_Dlog P_Pairing P_PairEx P_Super.
Import ListNotations.
Open Scope Z_scope.

Section Det.
Context (E : curve fq) (V : valid E) (n : Z) (Hn : 3 < n) (P Q : point fq) (HP : on_E E P) (HQ : on_E E Q) (B : n_basis (coeff E) n (affine P) (affine Q)).
Notation pz := (pzq (coeff E) (affine P) (affine Q) n).
(** coordinates of a point of exact order *)
Lemma exact_unim k l : exact_order (coeff E) n (pz k l) -> unim n k l.
Proof.
  intros [_ X]. set (g := Z.gcd (Z.gcd k l) n). assert (G0 : 0 < g). { pose proof (Z.gcd_nonneg (Z.gcd k l) n). destruct (Z.eq_dec g 0) as [G|G]; [|unfold g in *; lia]. apply Z.gcd_eq_0_r in G. lia. }
  destruct (Z.gcd_divide_r (Z.gcd k l) n) as [u Hu]. fold g in Hu. destruct (Z.gcd_divide_l (Z.gcd k l) n) as [v Hv]. fold g in Hv. destruct (Z.gcd_divide_l k l) as [v1 Hv1]. destruct (Z.gcd_divide_r k l) as [v2 Hv2]. rewrite Hv in Hv1, Hv2.
  assert (g = 1).
  { destruct (Z.eq_dec g 1) as [G|G]; [exact G|]. exfalso. assert (U0 : 0 < u) by nia. assert (U1 : u < n) by nia. apply (X u); [lia|]. rewrite (pm_n E) by lia.
    rewrite (pz_mul Zq_field qeqb_true q2_nz (valid_smooth E V) (affine P) (affine Q) HP HQ n Hn (b_OP E n Hn P Q B) (b_OQ E n Hn P Q B) (b_in E n P Q B)). rewrite Z2Nat.id by lia.
    apply (pz_None (affine P) (affine Q) n Hn (b_in E n P Q B)). split; [exists (v1 * v)|exists (v2 * v)]; rewrite Hu; [rewrite Hv1|rewrite Hv2]; ring. }
  destruct (Zis_gcd_bezout _ _ _ (Zgcd_is_gcd (Z.gcd k l) n)) as [x y Hxy]. destruct (Zis_gcd_bezout _ _ _ (Zgcd_is_gcd k l)) as [x' y' Hxy']. fold g in Hxy. exists (x * x'), (x * y'), (- y). nia.
Qed.
End Det.
Theorem C55_determinant : forall checks E n P Q R S a b c d, valid E -> 3 < n -> on_E E P -> on_E E Q -> n_basis (coeff E) n (affine P) (affine Q) ->
  0 <= a -> 0 <= b -> 0 <= c -> 0 <= d -> on_E E R -> on_E E S ->
  affine R = padd_q (coeff E) (pmul_q (coeff E) a (affine P)) (pmul_q (coeff E) b (affine Q)) -> affine S = padd_q (coeff E) (pmul_q (coeff E) c (affine P)) (pmul_q (coeff E) d (affine Q)) ->
  exact_order (coeff E) n (affine R) -> exact_order (coeff E) n (affine S) -> ~ (n | a * d - b * c) ->
  exists w r, weil_pairing fq_ops checks E P Q n = Some w /\ weil_pairing fq_ops checks E R S n = Some r /\ fqv r = qpow (fqv w) ((a * d - b * c) mod n).
Proof.
  intros ck E n P Q R S a b c d V Hn HP HQ B Ha Hb Hc Hd OR OS ER ES XR XS ND. rewrite (comb_pz E V n Hn P Q HP HQ B) in ER, ES by assumption.
  destruct (weil_PQ ck E V n Hn P Q HP HQ B) as (w & Ew & Vw). rewrite ER in XR. rewrite ES in XS. pose proof (exact_unim E V n Hn P Q HP HQ B c d XS) as U.
  destruct (weil_pz ck E V n Hn P Q HP HQ B R S a b c d OR OS ER ES XR U ND) as (r & Er & Vr). exists w, r. split; [exact Ew|]. split; [exact Er|]. rewrite Vr, Vw.
  pose proof (ee_det Zq_field qeqb_true q2_nz (valid_smooth E V) (affine P) (affine Q) HP HQ n Hn (b_OP E n Hn P Q B) (b_OQ E n Hn P Q B) (b_in E n P Q B) a b c d U ND) as L. rewrite pw_q, Z2Nat.id in L by (apply Z.mod_pos_bound; lia). exact L.
Qed.
(** the basis of C55_ex; P + 2Q and P + Q have determinant -1, and their pairing is i^3 *)
Example C55_determinant_ex : exists E P Q R S, valid E /\ on_E E P /\ on_E E Q /\ on_E E R /\ on_E E S /\ n_basis (coeff E) 4 (affine P) (affine Q) /\ exact_order (coeff E) 4 (affine R) /\ exact_order (coeff E) 4 (affine S) /\
  affine R = padd_q (coeff E) (pmul_q (coeff E) 1 (affine P)) (pmul_q (coeff E) 2 (affine Q)) /\ affine S = padd_q (coeff E) (pmul_q (coeff E) 1 (affine P)) (pmul_q (coeff E) 1 (affine Q)) /\
  ~ (4 | 1 * 1 - 2 * 1) /\ forall checks, exists r, weil_pairing fq_ops checks E R S 4 = Some r /\ fqv r = qpow qim 3.
Proof.
  destruct ex4_some as (s & E & P & Q & X). pose proof X as [Hs V EA AP AQ OP OQ]. pose proof (ex4_basis s E P Q X) as B. assert (Hn : 3 < 4) by lia.
  destruct (C30_double E Q V OQ) as [OD AD]. destruct (C29_add E P _ V OP OD) as [OR AR]. destruct (C29_add E P Q V OP OQ) as [OS AS]. exists E, P, Q, (add_pts fq_ops E P (double_pt fq_ops E Q)), (add_pts fq_ops E P Q).
  assert (ER : affine (add_pts fq_ops E P (double_pt fq_ops E Q)) = padd_q (coeff E) (pmul_q (coeff E) 1 (affine P)) (pmul_q (coeff E) 2 (affine Q))).
  { rewrite AR, AD. rewrite (pmA _ 2) by lia. change (Z.to_nat 2) with 2%nat. rewrite pmul_nat_2. reflexivity. }
  assert (ES : affine (add_pts fq_ops E P Q) = padd_q (coeff E) (pmul_q (coeff E) 1 (affine P)) (pmul_q (coeff E) 1 (affine Q))) by exact AS.
  assert (XR : exact_order (coeff E) 4 (affine (add_pts fq_ops E P (double_pt fq_ops E Q)))) by (rewrite ER, (comb_pz E V 4 Hn P Q OP OQ B) by lia; apply (unim_ord E V 4 Hn P Q OP OQ B); apply unim_1).
  assert (XS : exact_order (coeff E) 4 (affine (add_pts fq_ops E P Q))) by (rewrite ES, (comb_pz E V 4 Hn P Q OP OQ B) by lia; apply (unim_ord E V 4 Hn P Q OP OQ B); apply unim_1).
  assert (ND : ~ (4 | 1 * 1 - 2 * 1)) by (intros [z Hz]; lia).
  do 9 (split; [assumption|]). split; [exact ES|]. split; [exact ND|]. intros ck.
  destruct (C55_determinant ck E 4 P Q _ _ 1 2 1 1 V Hn OP OQ B ltac:(lia) ltac:(lia) ltac:(lia) ltac:(lia) OR OS ER ES XR XS ND) as (w & r & Ew & Er & Vr). exists r. split; [exact Er|].
  destruct (ex4_weil s E P Q X ck) as (w' & Ew' & Vw'). rewrite Ew in Ew'. injection Ew' as <-. rewrite Vr, Vw'. reflexivity.
Qed.
Print Assumptions C55_determinant.

(** ** Orders of powers of a root of unity *)
Lemma order_div w n k : unit_order w n -> 0 <= k -> qpow w k = q1 -> (n | k).
Proof.
  intros (H0 & H1 & H2) Hk E1. pose proof (Z.mod_pos_bound k n H0) as M. destruct (Z.eq_dec (k mod n) 0) as [D|D]; [apply Z.mod_divide; lia|]. exfalso. apply (H2 (k mod n)); [lia|]. rewrite <- qpow_mod by assumption. exact E1.
Qed.
Lemma unit_pow w n d : unit_order w n -> 0 <= d -> Z.gcd d n = 1 -> unit_order (qpow w d) n.
Proof.
  intros U Hd G. pose proof U as (H0 & H1 & H2). split; [exact H0|]. split.
  - rewrite <- qpow_mul by lia. rewrite Z.mul_comm, qpow_mul by lia. rewrite H1. apply qpow_q1.
  - intros k Hk E1. rewrite <- qpow_mul in E1 by lia. apply (order_div w n) in E1; [|exact U|nia]. assert (D : (n | k)) by (apply (Z.gauss n d k); [exact E1|rewrite Z.gcd_comm; exact G]). apply Z.divide_pos_le in D; lia.
Qed.
(** if v^n = 1 and v^d has order n, then v is a power of v^d *)
Lemma unit_root v n d : 0 < n -> 0 <= d -> qpow v n = q1 -> unit_order (qpow v d) n -> Z.gcd d n = 1 /\ exists t, 0 <= t /\ Z.gcd t n = 1 /\ (n | d * t - 1) /\ v = qpow (qpow v d) t.
Proof.
  intros Hn Hd Vn (_ & _ & U). assert (G : Z.gcd d n = 1).
  { set (g := Z.gcd d n). assert (G0 : 0 < g). { pose proof (Z.gcd_nonneg d n). destruct (Z.eq_dec g 0) as [G|G]; [|unfold g in *; lia]. apply Z.gcd_eq_0_r in G. lia. }
    destruct (Z.gcd_divide_l d n) as [u Hu]. destruct (Z.gcd_divide_r d n) as [m Hm]. fold g in Hu, Hm. destruct (Z.eq_dec g 1) as [G|G]; [exact G|]. exfalso. assert (M : 0 < m < n) by nia. apply (U m M). rewrite <- qpow_mul by lia.
    replace (d * m) with (n * u) by (rewrite Hu, Hm; ring). rewrite qpow_mul by nia. rewrite Vn. apply qpow_q1. }
  split; [exact G|]. destruct (Zis_gcd_bezout _ _ _ (Zgcd_is_gcd d n)) as [x y Hxy]. rewrite G in Hxy. exists (x mod n). pose proof (Z.mod_pos_bound x n Hn) as M. pose proof (Z.div_mod x n ltac:(lia)) as DM.
  assert (D : (n | d * (x mod n) - 1)) by (exists (- y - d * (x / n)); nia). split; [lia|]. split; [|split; [exact D|]].
  - apply Z.bezout_1_gcd. destruct D as [z Hz]. exists d, (- z). nia.
  - rewrite <- qpow_mul by lia. rewrite (qpow_mod v n) by (try assumption; nia). destruct D as [z Hz]. replace (d * (x mod n)) with (1 + z * n) by lia. rewrite Z.mod_add by lia. destruct (Z.eq_dec n 1) as [->|N1]; [rewrite Z.mod_1_r; rewrite qpow_1 in Vn; rewrite Vn; reflexivity|]. rewrite Z.mod_small by lia. symmetry. apply qpow_1.
Qed.
