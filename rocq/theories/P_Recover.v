(** C66: what the holder of the trapdoor reads off the images computed by the dimension-two isogeny (src/festa.rs:450-500). *)
From Coq Require Import Arith ZArith List Bool Lia Znumtheory.
From Verif Require Import P_Velu P_Isogeny M_Isogeny M_Super2 M_Festa P_Festa P_E0 P_Basis L_Entangled P_Entangled L_E0 S_Fp S_Fp2 S_Curve S_Dlog S_Params M_Fp M_Fp2 M_Field M_Curve M_Consts M_Dlog M_Pairing M_Super L_Zp L_Zp2 L_Fp L_Fp2 L_Group L_Kummer L_Field L_Curve L_QNum L_Isog P_Params P_Curve P_Pairing P_PairEx P_Super P_Scalar P_Trapdoor P_Bidlp P_BidlpEx L_Params.
Import ListNotations.
Open Scope Z_scope.

(** ** Specification *)
(** the point p + s*q *)
Definition kernel_point (A : Zq) (p q : pt Zq) (s : Z) : pt Zq := padd_q A p (pmul_q A s q).
(** r1 and r2 are multiples a1, a2 of p + s*q; together they generate the subgroup of p + s*q, each alone generates a subgroup of more than sqrt n elements, and neither has a zero coordinate *)
Definition kernel_images (A : Zq) (fs : list (Z * Z)) (p q : pt Zq) (s : Z) (r1 r2 : pt Zq) : Prop :=
  exists a1 a2, 0 <= a1 /\ 0 <= a2 /\ r1 = pmul_q A a1 (kernel_point A p q s) /\ r2 = pmul_q A a2 (kernel_point A p q s) /\
    Forall (fun f => ~ (fst f | a1) \/ ~ (fst f | a2)) fs /\
    Z.gcd a1 (fprod fs) * Z.gcd a1 (fprod fs) < fprod fs /\ Z.gcd a2 (fprod fs) * Z.gcd a2 (fprod fs) < fprod fs /\
    ~ (fprod fs | a1 * s) /\ ~ (fprod fs | a2 * s).
(** the pairing of two points with these affine coordinates has full order n *)
Definition full_pairing (checks : bool) (E : curve fq) (n : Z) (p q : pt Zq) : Prop :=
  forall P Q, on_E E P -> on_E E Q -> affine P = p -> affine Q = q -> exists w, weil_pairing fq_ops checks E P Q n = Some w /\ unit_order (fqv w) n.

(** ** Orders of the multiples of p + s*q *)
Section Orders.
Context {E : curve fq} (V : valid E).
Notation A := (coeff E).
Lemma comb_mul a s p q : 0 <= a -> 0 <= s -> on_q A p -> on_q A q -> pmul_q A a (kernel_point A p q s) = padd_q A (pmul_q A a p) (pmul_q A (a * s) q).
Proof. intros Ha Hs Hp Hq. unfold kernel_point. rewrite (pm_dist V) by (try apply (pm_on (E := E)); assumption). rewrite (pm_mul V) by assumption. reflexivity. Qed.
Lemma pm_mod n k p : 0 < n -> 0 <= k -> on_q A p -> pmul_q A n p = None -> pmul_q A k p = pmul_q A (k mod n) p.
Proof.
  intros Hn Hk Hp Hz. assert (M := Z.mod_pos_bound k n Hn). assert (D : 0 <= k / n) by (apply Z.div_pos; lia). rewrite (Z.div_mod k n) at 1 by lia. rewrite (pm_add V) by (try assumption; nia).
  rewrite (pm_zero_mul V) by (try assumption; lia). destruct (pmul_q A (k mod n) p) as [[]|]; reflexivity.
Qed.
Lemma kp_order n a s p q : 0 < n -> 0 <= a -> 0 <= s -> on_q A p -> on_q A q -> n_basis A n p q -> exact_order A (n / Z.gcd a n) (pmul_q A a (kernel_point A p q s)).
Proof.
  intros Hn Ha Hs Hp Hq (ZP & ZQ & IN). set (g := Z.gcd a n). assert (G0 : 0 < g). { pose proof (Z.gcd_nonneg a n). destruct (Z.eq_dec g 0) as [G|G]; [|unfold g in *; lia]. apply Z.gcd_eq_0_r in G. lia. }
  destruct (Z.gcd_divide_l a n) as [u Hu]. destruct (Z.gcd_divide_r a n) as [v Hv]. fold g in Hu, Hv. assert (EV : n / g = v) by (rewrite Hv; apply Z.div_mul; lia). rewrite EV.
  assert (Hu0 : 0 <= u) by nia. assert (Hv0 : 0 < v) by nia. assert (CP : Z.gcd v u = 1). { assert (X : Z.gcd a n = Z.gcd u v * g) by (rewrite Hu at 1; rewrite Hv at 1; rewrite Z.gcd_mul_mono_r_nonneg by lia; reflexivity). fold g in X. rewrite Z.gcd_comm. nia. }
  rewrite comb_mul by assumption. assert (Has : 0 <= a * s) by nia. assert (O1 := pm_on (E := E) a p Hp Ha). assert (O2 := pm_on (E := E) (a * s) q Hq Has). split.
  - rewrite (pm_dist V) by (assumption || lia). rewrite !(pm_mul V) by (assumption || lia). replace (v * a) with (n * u) by nia. replace (v * (a * s)) with (n * (u * s)) by nia.
    rewrite !(pm_zero_mul V) by (assumption || nia). reflexivity.
  - intros k Hk Z0. rewrite (pm_dist V) in Z0 by (assumption || lia). rewrite !(pm_mul V) in Z0 by (assumption || lia). apply IN in Z0; [|nia|nia]. destruct Z0 as [D _].
    assert (D2 : (v | k)). { apply (Z.gauss v u k); [|exact CP]. destruct D as [c Hc]. exists c. assert (k * (u * g) = c * (v * g)) by (rewrite <- Hu, <- Hv; exact Hc). nia. }
    apply Z.divide_pos_le in D2; lia.
Qed.
End Orders.

(** ** C56 in terms of the kernel point *)
Theorem C56_images : forall fuel checks E imP imQ P Q fs s, let n := fprod fs in
  valid E -> 3 < n -> Z.odd n = true -> log_entries checks fs -> fcoprime fs -> Forall (fun f => prime (fst f)) fs ->
  on_E E P -> on_E E Q -> on_E E imP -> on_E E imQ -> n_basis (coeff E) n (affine P) (affine Q) -> full_pairing checks E n (affine P) (affine Q) ->
  0 <= s -> kernel_images (coeff E) fs (affine P) (affine Q) s (affine imP) (affine imQ) ->
  compute_canonical_kernel fq_ops (dlp_fq checks) fuel checks E imP imQ fs (Some (P, Q)) = Some (s mod n).
Proof.
  intros fuel c E imP imQ P Q fs s n V Hn On HL HC HF HP HQ H1 H2 B FP Hs (a1 & a2 & A1 & A2 & E1 & E2 & NB & G1 & G2 & N1 & N2). fold n in G1, G2, N1, N2.
  destruct (FP P Q HP HQ eq_refl eq_refl) as (w & Ew & Ow). pose proof B as (ZP & ZQ & _). assert (Hn0 : 0 < n) by (clear - Hn; lia).
  assert (K : forall a im, 0 <= a -> affine im = pmul_q (coeff E) a (kernel_point (coeff E) (affine P) (affine Q) s) -> Z.gcd a n * Z.gcd a n < n -> ~ (n | a * s) ->
    affine im = padd_q (coeff E) (pmul_q (coeff E) (a mod n) (affine P)) (pmul_q (coeff E) (a * s mod n) (affine Q)) /\ 0 < a mod n < n /\ 0 < a * s mod n < n /\
    exact_order (coeff E) (n / Z.gcd a n) (affine im) /\ 0 < n / Z.gcd a n /\ n < (n / Z.gcd a n) * (n / Z.gcd a n) /\ (n | a * s mod n - s * (a mod n))).
  { intros a im Ha Ei G N. assert (Has : 0 <= a * s) by (clear - Ha Hs; nia). split; [rewrite Ei, (comb_mul V) by assumption; rewrite (pm_mod V n a (affine P)), (pm_mod V n (a * s) (affine Q)) by assumption; reflexivity|].
    pose proof (Z.mod_pos_bound a n Hn0) as M1. pose proof (Z.mod_pos_bound (a * s) n Hn0) as M2.
    assert (Nz : forall x, ~ (n | x) -> 0 <= x mod n -> 0 < x mod n). { intros x Hx Hx0. destruct (Z.eq_dec (x mod n) 0) as [Z0|Z0]; [|clear - Hx0 Z0; lia]. elim Hx. apply Z.mod_divide; [clear - Hn0; lia|exact Z0]. }
    assert (Na : ~ (n | a)) by (intros D; apply N; apply Z.divide_mul_l; exact D).
    split; [split; [apply Nz; [exact Na|apply M1]|apply M1]|]. split; [split; [apply Nz; [exact N|apply M2]|apply M2]|]. split; [rewrite Ei; apply (kp_order V); assumption|].
    pose proof (Z.gcd_nonneg a n) as Gn. destruct (Z.gcd_divide_r a n) as [v Hv]. assert (Gp : 0 < Z.gcd a n) by (destruct (Z.eq_dec (Z.gcd a n) 0) as [G0|G0]; [apply Z.gcd_eq_0_r in G0|]; [clear - G0 Hn0|clear - G0 Gn]; lia). assert (Ev : n / Z.gcd a n = v) by (rewrite Hv at 1; apply Z.div_mul; clear - Gp; lia). rewrite Ev. set (g := Z.gcd a n) in *.
    assert (v0 : 0 < v) by (clear - Hv Gp Hn0; nia). split; [exact v0|]. split; [clear - Hv Gp v0 G; assert (g < v) by nia; nia|].
    exists (s * (a / n) - a * s / n). rewrite !Z.mod_eq by (clear - Hn0; lia). ring. }
  destruct (K a1 imP A1 E1 G1 N1) as (I1 & I2 & I3 & I4 & I5 & I6 & I7). destruct (K a2 imQ A2 E2 G2 N2) as (J1 & J2 & J3 & J4 & J5 & J6 & J7).
  refine (C56_kernel_odd fuel c E imP imQ P Q fs _ _ _ _ _ _ s w V Hn On HL HC _ HP HQ H1 H2 B I1 I2 I3 I4 I5 I6 J1 J2 J3 J4 J5 J6 I7 J7 Ew Ow).
  rewrite Forall_forall in HF, NB |- *. intros f Hf. split; [exact (HF f Hf)|].
  assert (Dn : (fst f | n)). { unfold n, log_entries in *. rewrite Forall_forall in HL. clear - Hf HL. revert Hf HL. induction fs as [|[l e] fs IH]; [intros []|]. intros [<-|Hf] HL; cbn [fprod fst].
    - apply Z.divide_mul_l. destruct (HL (l, e) (or_introl eq_refl)) as (_ & He & _). cbn [snd] in He. replace e with (1 + (e - 1)) by lia. rewrite Z.pow_add_r, Z.pow_1_r by lia. apply Z.divide_factor_l.
    - apply Z.divide_mul_r. apply IH; [exact Hf|]. intros g Hg. apply HL. right. exact Hg. }
  assert (M : forall a, ~ (fst f | a) -> ~ (fst f | a mod n)). { intros a Na D. apply Na. rewrite (Z.div_mod a n) by (clear - Hn0; lia). apply Z.divide_add_r; [apply Z.divide_mul_l; exact Dn|exact D]. }
  destruct (NB f Hf) as [X|X]; [left|right]; apply M; exact X.
Qed.
(** order 5: from P + 3*Q and its double *)
Example C56_images_ex : exists E P Q, valid E /\ n_basis (coeff E) 5 (affine P) (affine Q) /\ forall fuel checks, full_pairing checks E 5 (affine P) (affine Q) /\
  forall R1 R2, on_E E R1 -> on_E E R2 -> affine R1 = kernel_point (coeff E) (affine P) (affine Q) 3 -> affine R2 = pmul_q (coeff E) 2 (affine R1) ->
  kernel_images (coeff E) [(5, 1)] (affine P) (affine Q) 3 (affine R1) (affine R2) /\ compute_canonical_kernel fq_ops (dlp_fq checks) fuel checks E R1 R2 [(5, 1)] (Some (P, Q)) = Some 3.
Proof.
  destruct ex5_some as (E & P & Q & X). exists E, P, Q. pose proof X as [V EA AP AQ OP OQ]. pose proof (ex5_basis E P Q X) as B. split; [exact V|]. split; [exact B|]. intros fuel c.
  assert (FP : full_pairing c E 5 (affine P) (affine Q)). { intros P' Q' OP' OQ' EP EQ. refine (ex5_weil E P' Q' _ c). rewrite AP in EP. rewrite AQ in EQ. constructor; assumption. }
  split; [exact FP|]. intros R1 R2 O1 O2 E1 E2.
  assert (K : kernel_images (coeff E) [(5, 1)] (affine P) (affine Q) 3 (affine R1) (affine R2)).
  { exists 1, 2. split; [lia|]. split; [lia|]. split; [exact E1|]. split; [rewrite E2, E1; reflexivity|]. split; [constructor; [left; intros [k K]; cbn [fst] in K; lia|constructor]|]. split; [reflexivity|]. split; [reflexivity|]. change (fprod [(5, 1)]) with 5. split; intros [k K]; lia. }
  split; [exact K|]. change (Some 3) with (Some (3 mod fprod [(5, 1)])). apply C56_images; try assumption; try reflexivity; [exact (ex5_log c)|exact ex5_cop| |lia].
  apply primes_sound; vm_compute; reflexivity.
Qed.
Print Assumptions C56_images. Print Assumptions C56_images_ex.

(** ** The two odd degrees of the scheme *)
Definition entries_okb (fs : list (Z * Z)) : bool := forallb (fun f => (2 <=? fst f) && (fst f <=? 65535 * 65535) && (1 <=? snd f) && (snd f <? 2 ^ 32)) fs.
Fixpoint fcoprimeb (fs : list (Z * Z)) : bool := match fs with [] => true | f :: r => forallb (fun g => Z.gcd (fst f ^ snd f) (fst g ^ snd g) =? 1) r && fcoprimeb r end.
Lemma entries_ok c fs : entries_okb fs = true -> log_entries c fs.
Proof.
  unfold entries_okb, log_entries. rewrite forallb_forall, Forall_forall. intros H f Hf. specialize (H f Hf). rewrite !andb_true_iff, !Z.leb_le, Z.ltb_lt in H. destruct H as (((H1 & H2) & H3) & H4). split; [clear - H1 H2; lia|]. split; [split; assumption|]. intros _. exact H2.
Qed.
Lemma fcoprime_ok fs : fcoprimeb fs = true -> fcoprime fs.
Proof.
  induction fs as [|[l e] fs IH]; [intros _; exact I|]. cbn [fcoprimeb fcoprime fst snd]. rewrite andb_true_iff. intros [H1 H2]. split; [|exact (IH H2)]. rewrite forallb_forall in H1. rewrite Forall_forall. intros f Hf. apply Z.eqb_eq. exact (H1 f Hf).
Qed.
Lemma D1_entries c : log_entries c D1_FACTORED /\ fcoprime D1_FACTORED /\ Forall (fun f => prime (fst f)) D1_FACTORED /\ fprod D1_FACTORED = ed1 /\ 3 < ed1.
Proof. split; [apply entries_ok; vm_compute; reflexivity|]. split; [apply fcoprime_ok; vm_compute; reflexivity|]. split; [apply lists_prime; left; reflexivity|]. split; vm_compute; reflexivity. Qed.
Lemma D2_entries c : log_entries c D2_FACTORED /\ fcoprime D2_FACTORED /\ Forall (fun f => prime (fst f)) D2_FACTORED /\ fprod D2_FACTORED = ed2 /\ 3 < ed2.
Proof. split; [apply entries_ok; vm_compute; reflexivity|]. split; [apply fcoprime_ok; vm_compute; reflexivity|]. split; [apply lists_prime; right; left; reflexivity|]. split; vm_compute; reflexivity. Qed.

(** ** The two parts of a basis of order n*d *)
Section Parts.
Context {E : curve fq} (V : valid E).
Notation A := (coeff E).
Lemma basis_clear n d c p q : 0 < n -> 0 < d -> 0 <= c -> (n | c - 1) -> (d | c) -> on_q A p -> on_q A q -> n_basis A (n * d) p q -> n_basis A n (pmul_q A c p) (pmul_q A c q).
Proof.
  intros Hn Hd Hc D1 [u Hu] Hp Hq (ZP & ZQ & IN). assert (Hu0 : 0 <= u) by nia.
  split; [rewrite (pm_mul V) by (assumption || lia); replace (n * c) with (n * d * u) by nia; apply (pm_zero_mul V); try assumption; nia|].
  split; [rewrite (pm_mul V) by (assumption || lia); replace (n * c) with (n * d * u) by nia; apply (pm_zero_mul V); try assumption; nia|].
  intros i j Hi Hj S. rewrite !(pm_mul V) in S by assumption. apply IN in S; [|nia|nia]. destruct S as [S1 S2].
  assert (G : Z.gcd n c = 1). { apply Zgcd_1_rel_prime. destruct D1 as [w Hw]. apply bezout_rel_prime. apply (Bezout_intro n c 1 (- w) 1). lia. }
  split; apply (Z.gauss n c); try exact G; rewrite Z.mul_comm; eapply Z.divide_trans; [|exact S1| |exact S2]; apply Z.divide_factor_l.
Qed.
Lemma basis_part n d p q : 0 < n -> 0 < d -> on_q A p -> on_q A q -> n_basis A (n * d) p q -> n_basis A d (pmul_q A n p) (pmul_q A n q).
Proof.
  intros Hn Hd Hp Hq (ZP & ZQ & IN). rewrite Z.mul_comm in ZP, ZQ. split; [rewrite (pm_mul V) by (assumption || lia); exact ZP|]. split; [rewrite (pm_mul V) by (assumption || lia); exact ZQ|].
  intros i j Hi Hj S. rewrite !(pm_mul V) in S by (assumption || lia). apply IN in S; [|nia|nia]. destruct S as [[a Ha] [b Hb]]. split; [exists a|exists b]; nia.
Qed.
Lemma pm_opp_mod n k p : 0 < n -> 0 <= k -> on_q A p -> pmul_q A n p = None -> popp_q (pmul_q A k p) = pmul_q A ((- k) mod n) p.
Proof.
  intros Hn Hk Hp Hz. assert (X : popp_q (pmul_q A k p) = pmul_q A ((n - 1) * k) p).
  { rewrite !pmul_n by nia. unfold popp_q. rewrite Z2Nat.inj_mul, Z2Nat.inj_sub by lia. apply (o_opp fq_laws (valid_smooth E V)); [lia|exact Hp|]. rewrite <- pmul_n by lia. exact Hz. }
  rewrite X. rewrite (pm_mod V n) by (assumption || nia). f_equal. replace ((n - 1) * k) with (- k + k * n) by ring. apply Z.mod_add. lia.
Qed.
End Parts.
Lemma mul2_total E PQ k : valid E -> on_E E (fst PQ) -> on_E E (snd PQ) -> 0 <= k -> exists RS, mul2 fq_ops E PQ k = Some RS /\ on_E E (fst RS) /\ on_E E (snd RS) /\ affine (fst RS) = pmul_q (coeff E) k (affine (fst PQ)) /\ affine (snd RS) = pmul_q (coeff E) k (affine (snd PQ)).
Proof.
  intros V O1 O2 Hk. destruct (C31_mul_big E _ k V O1 Hk) as (X & EX & OX & AX). destruct (C31_mul_big E _ k V O2 Hk) as (Y & EY & OY & AY). exists (X, Y). split; [unfold mul2; rewrite EX; cbn [obind]; rewrite EY; reflexivity|]. cbn [fst snd]. split; [exact OX|]. split; [exact OY|]. split; [exact AX|exact AY].
Qed.

(** ** C66: the matrix *)
(** the first diagonal entry b of B (odd, at most half the modulus) is recovered with its inverse from a point equal, up to sign, to (d1*(d1*d2)*m1*b)*P *)
Theorem C66_matrix : forall checks self E P Q R b, let n := 2 ^ 634 in
  fe_l self = n -> (n | fe_inv self * (ed1 * (ed1 * ed2) * em1) - 1) -> valid E -> on_E E P -> on_E E Q -> on_E E R -> n_basis (coeff E) n (affine P) (affine Q) ->
  0 < b <= 2 ^ 633 -> Z.odd b = true -> same_up_to_sign (affine R) (pmul_q (coeff E) (ed1 * (ed1 * ed2) * em1 * b) (affine P)) ->
  exists y, recover_diagB fq_ops (dlp_fq checks) checks self E R P Q = Some (b, y) /\ 0 < y < n /\ (n | b * y - 1).
Proof.
  intros c self E P Q R b n Hl Hi V HP HQ HR B Hb Ob SR. pose proof B as (ZP & ZQ & _). assert (Hn0 : 0 < n) by reflexivity.
  assert (Os : Z.odd (ed1 * (ed1 * ed2) * em1 * b) = true) by (rewrite Z.odd_mul, Ob, andb_true_r; rewrite Z.mul_comm in Hi; exact (inv_odd _ _ Hi)).
  assert (Hs0 : 0 <= ed1 * (ed1 * ed2) * em1 * b). { pose proof e_pos as (Q1 & Q2 & Q3 & _). clear - Q1 Q2 Q3 Hb. revert Q1 Q2 Q3. generalize ed1, ed2, em1. intros x y z Q1 Q2 Q3. repeat apply Z.mul_nonneg_nonneg; lia. }
  assert (exists a, affine R = pmul_q (coeff E) a (affine P) /\ 0 <= a < n /\ ((n | a - ed1 * (ed1 * ed2) * em1 * b) \/ (n | a + ed1 * (ed1 * ed2) * em1 * b))) as (a & Ea & Ba & Da).
  { revert SR Hs0. generalize (ed1 * (ed1 * ed2) * em1 * b). intros s SR Hs0. clear - SR Hs0 V HP ZP Hn0. destruct SR as [SR|SR].
    - exists (s mod n). split; [rewrite SR; apply (pm_mod V); assumption|]. split; [apply Z.mod_pos_bound; exact Hn0|]. left. exists (- (s / n)). rewrite Z.mod_eq by (clear - Hn0; lia). ring.
    - exists ((- s) mod n). split; [rewrite SR; apply (pm_opp_mod V); assumption|]. split; [apply Z.mod_pos_bound; exact Hn0|]. right. exists (- (- s / n)). rewrite Z.mod_eq by (clear - Hn0; lia). ring. }
  assert (Oa : Z.odd a = true).
  { assert (En : n = 2 * 2 ^ 633) by reflexivity. revert Da Os. generalize (ed1 * (ed1 * ed2) * em1 * b). intros s Da Os. clear - En Da Os. destruct Da as [[k K]|[k K]]; rewrite En in K; [replace a with (s + 2 * (k * 2 ^ 633)) by lia|replace a with (2 * (k * 2 ^ 633) - s) by lia].
    - rewrite Z.odd_add, Os, Z.odd_mul. reflexivity.
    - rewrite Z.odd_sub, Os, Z.odd_mul. reflexivity. }
  assert (Z0 : forall p, kernel_point (coeff E) p (affine Q) 0 = p) by (intros [[]|]; reflexivity).
  assert (X : exact_order (coeff E) n (affine R)).
  { pose proof (kp_order V n a 0 (affine P) (affine Q) Hn0 (proj1 Ba) ltac:(clear; lia) HP HQ B) as X. rewrite Z0, <- Ea in X. unfold n in X. rewrite (odd_gcd a Oa), Z.div_1_r in X. exact X. }
  assert (ER : affine R = padd_q (coeff E) (pmul_q (coeff E) a (affine P)) (pmul_q (coeff E) 0 (affine Q))) by (rewrite Ea; destruct (pmul_q (coeff E) a (affine P)) as [[]|]; reflexivity).
  unfold recover_diagB. change L_POWER with 634. rewrite (C28_bidlp_pow2_partial c E P Q R 634 a 0 V ltac:(split; [discriminate|reflexivity]) HP HQ HR B ER X Ba ltac:(split; [discriminate|exact Hn0])). cbn [obind fst].
  exact (C43_value fq self a b Hl Hi Hb Ob Da).
Qed.

Lemma recover_intro F (o : fops F) dlp fuel checks self E L1 L2 bd1 d2b I iP I1 I2 Pb Pd s1 s2 B :
  mul2 o E (L1, L2) (fe_l self) = Some I -> mul_big o E L1 (fe_d1d2 self) = Some iP -> mul2 o E I (fe_d2 self) = Some I1 -> mul2 o E I (fe_d1 self) = Some I2 -> mul2 o E bd1 (fe_clear_d1 self) = Some Pb -> mul2 o E bd1 (fe_l self) = Some Pd ->
  compute_canonical_kernel o dlp fuel checks E (fst I1) (snd I1) D1_FACTORED (Some (fst Pd, snd Pd)) = Some s1 -> compute_canonical_kernel o dlp fuel checks E (fst I2) (snd I2) D2_FACTORED (Some d2b) = Some s2 ->
  recover_diagB o dlp checks self E iP (fst Pb) (snd Pb) = Some B -> recover_si_and_B o dlp fuel checks self E L1 L2 bd1 d2b = Some (mkTI s1 s2 B).
Proof. intros H1 H2 H3 H4 H5 H6 H7 H8 H9. destruct Pd as [U W]. cbn [fst snd] in H7. unfold recover_si_and_B. rewrite H1. cbn [obind]. rewrite H2. cbn [obind]. rewrite H3. cbn [obind]. rewrite H4. cbn [obind]. rewrite H5. cbn [obind]. rewrite H6. cbn [obind]. rewrite H7. cbn [obind]. rewrite H8. cbn [obind]. rewrite H9. reflexivity. Qed.

(** ** C66: the whole message *)
Local Notation "k *[ E ] p" := (pmul_q (coeff E) k (affine p)) (at level 35, p at level 30).
Theorem C66_recover : forall root fuel0 fuel checks self E L1 L2 P Q P2 Q2 s1 s2 b,
  festa_new fq_ops root fuel0 checks = Some self -> valid E -> on_E E L1 -> on_E E L2 -> on_E E P -> on_E E Q -> on_E E P2 -> on_E E Q2 ->
  n_basis (coeff E) (2 ^ 634 * ed1) (affine P) (affine Q) -> n_basis (coeff E) ed2 (affine P2) (affine Q2) ->
  full_pairing checks E ed1 (2 ^ 634 *[E] P) (2 ^ 634 *[E] Q) -> full_pairing checks E ed2 (affine P2) (affine Q2) ->
  0 <= s1 -> kernel_images (coeff E) D1_FACTORED (2 ^ 634 *[E] P) (2 ^ 634 *[E] Q) s1 ((2 ^ 634 * ed2) *[E] L1) ((2 ^ 634 * ed2) *[E] L2) ->
  0 <= s2 -> kernel_images (coeff E) D2_FACTORED (affine P2) (affine Q2) s2 ((2 ^ 634 * ed1) *[E] L1) ((2 ^ 634 * ed1) *[E] L2) ->
  0 < b <= 2 ^ 633 -> Z.odd b = true -> same_up_to_sign ((ed1 * ed2) *[E] L1) (pmul_q (coeff E) (ed1 * (ed1 * ed2) * em1 * b) ((fe_clear_d1 self) *[E] P)) ->
  exists y, recover_si_and_B fq_ops (dlp_fq checks) fuel checks self E L1 L2 (P, Q) (P2, Q2) = Some (mkTI (s1 mod ed1) (s2 mod ed2) (b, y)) /\ 0 < y < 2 ^ 634 /\ (2 ^ 634 | b * y - 1).
Proof.
  intros root fuel0 fuel c self E L1 L2 P Q P2 Q2 s1 s2 b HN V O1 O2 OP OQ OP2 OQ2 B1 B2 F1 F2 Hs1 K1 Hs2 K2 Hb Ob SR.
  destruct (C58_new _ _ _ _ _ _ HN) as (EL & ED1 & ED2 & ED & _ & SS). destruct (s_pos _ _ _ _ _ _ _ _ _ _ _ SS) as (Pc & _). destruct (s_cd1 _ _ _ _ _ _ _ _ _ _ _ SS) as (C1 & C2). pose proof (s_inv _ _ _ _ _ _ _ _ _ _ _ SS) as SI. clear SS HN.
  destruct (D1_entries c) as (L11 & L12 & L13 & L14 & L15). destruct (D2_entries c) as (L21 & L22 & L23 & L24 & L25). pose proof e_odd as (X1 & X2 & _). assert (Hl : 0 < (2 ^ 634)) by reflexivity. assert (Hl0 : 0 <= (2 ^ 634)) by discriminate.
  assert (P1 : 0 <= ed1) by (clear - L15; lia). assert (P1' : 0 <= ed2) by (clear - L25; lia). assert (P12 : 0 <= ed1 * ed2) by (apply Z.mul_nonneg_nonneg; assumption).
  destruct (mul2_total E (L1, L2) (2 ^ 634) V O1 O2 Hl0) as (I & EI & OI1 & OI2 & AI1 & AI2). cbn [fst snd] in AI1, AI2.
  destruct (C31_mul_big E L1 (ed1 * ed2) V O1 P12) as (iP & EiP & OiP & AiP).
  destruct (mul2_total E I ed2 V OI1 OI2 P1') as (I1 & EI1 & OJ1 & OJ2 & AJ1 & AJ2). destruct (mul2_total E I ed1 V OI1 OI2 P1) as (I2 & EI2 & OK1 & OK2 & AK1 & AK2).
  destruct (mul2_total E (P, Q) (fe_clear_d1 self) V OP OQ Pc) as (Pb & EPb & OB1 & OB2 & AB1 & AB2). destruct (mul2_total E (P, Q) (2 ^ 634) V OP OQ Hl0) as (Pd & EPd & OD1 & OD2 & AD1 & AD2). cbn [fst snd] in AB1, AB2, AD1, AD2.
  rewrite <- EL in EI, EPd. rewrite <- ED in EiP. rewrite <- ED2 in EI1. rewrite <- ED1 in EI2.
  assert (BB : n_basis (coeff E) (2 ^ 634) (affine (fst Pb)) (affine (snd Pb))) by (rewrite AB1, AB2; refine (basis_clear V (2 ^ 634) ed1 _ _ _ Hl _ Pc C1 C2 OP OQ B1); clear - L15; lia).
  assert (BD : n_basis (coeff E) ed1 (affine (fst Pd)) (affine (snd Pd))) by (rewrite AD1, AD2; refine (basis_part V (2 ^ 634) ed1 _ _ Hl _ OP OQ B1); clear - L15; lia).
  assert (KI1 : kernel_images (coeff E) D1_FACTORED (affine (fst Pd)) (affine (snd Pd)) s1 (affine (fst I1)) (affine (snd I1))).
  { rewrite AD1, AD2, AJ1, AJ2, AI1, AI2, !(pm_mul V) by assumption. rewrite (Z.mul_comm ed2 (2 ^ 634)). exact K1. }
  assert (KI2 : kernel_images (coeff E) D2_FACTORED (affine P2) (affine Q2) s2 (affine (fst I2)) (affine (snd I2))).
  { rewrite AK1, AK2, AI1, AI2, !(pm_mul V) by assumption. rewrite (Z.mul_comm ed1 (2 ^ 634)). exact K2. }
  rewrite <- L14 in BD, L15, X1, F1. rewrite <- L24 in B2, L25, X2, F2. assert (F1' : full_pairing c E (fprod D1_FACTORED) (affine (fst Pd)) (affine (snd Pd))) by (rewrite AD1, AD2; exact F1).
  pose proof (C56_images fuel c E (fst I1) (snd I1) (fst Pd) (snd Pd) D1_FACTORED s1 V L15 X1 L11 L12 L13 OD1 OD2 OJ1 OJ2 BD F1' Hs1 KI1) as S1. 
  pose proof (C56_images fuel c E (fst I2) (snd I2) P2 Q2 D2_FACTORED s2 V L25 X2 L21 L22 L23 OP2 OQ2 OK1 OK2 B2 F2 Hs2 KI2) as S2.
  assert (SR' : same_up_to_sign (affine iP) (pmul_q (coeff E) (ed1 * (ed1 * ed2) * em1 * b) (affine (fst Pb)))) by (rewrite AB1, AiP; exact SR).
  destruct (C66_matrix c self E (fst Pb) (snd Pb) iP b EL SI V OB1 OB2 OiP BB Hb Ob SR') as (y & EY & By & Dy). rewrite L14 in S1. rewrite L24 in S2. exists y. split; [|split; [exact By|exact Dy]].
  exact (recover_intro _ _ _ _ _ _ _ _ _ _ _ _ _ _ _ _ _ _ _ _ EI EiP EI1 EI2 EPb EPd S1 S2 EY).
Qed.
Print Assumptions C66_matrix. Print Assumptions C66_recover.

(** ** Every message with non-zero scalars is reached *)
Lemma mul_point E P k : valid E -> on_E E P -> 0 <= k -> exists R, on_E E R /\ affine R = k *[E] P.
Proof. intros V H Hk. destruct (C31_mul_big E P k V H Hk) as (R & _ & OR & AR). exists R. split; assumption. Qed.
Lemma add_point E P Q : valid E -> on_E E P -> on_E E Q -> exists R, on_E E R /\ affine R = padd_q (coeff E) (affine P) (affine Q).
Proof. intros V H1 H2. destruct (C29_add E P Q V H1 H2) as [OR AR]. exists (add_pts fq_ops E P Q). split; assumption. Qed.
Lemma kp_killed E n s P Q R : valid E -> 0 < n -> 0 <= s -> on_E E P -> on_E E Q -> n_basis (coeff E) n (affine P) (affine Q) -> affine R = kernel_point (coeff E) (affine P) (affine Q) s -> n *[E] R = None.
Proof. intros V Hn Hs OP OQ (ZP & ZQ & _) ->. assert (Hn' : 0 <= n) by lia. rewrite (comb_mul V) by assumption. rewrite ZP, (pm_zero_mul V) by (assumption || lia). reflexivity. Qed.
Lemma kill_mul E n k P : valid E -> 0 <= n -> 0 <= k -> on_E E P -> n *[E] P = None -> (k * n) *[E] P = None.
Proof. intros V Hn Hk OP Z0. rewrite Z.mul_comm. apply (pm_zero_mul V); assumption. Qed.
Lemma padd_0_r A p : padd_q A p None = p. Proof. destruct p as [[]|]; reflexivity. Qed.
Lemma padd_0_l A p : padd_q A None p = p. Proof. destruct p as [[]|]; reflexivity. Qed.
Lemma reach_gen E l d1 d2 t s1 s2 Pd Qd P2 Q2 Pb : valid E -> 0 < l -> 0 < d1 -> 0 < d2 -> 0 <= t -> 0 <= s1 -> 0 <= s2 -> on_E E Pd -> on_E E Qd -> on_E E P2 -> on_E E Q2 -> on_E E Pb ->
  n_basis (coeff E) d1 (affine Pd) (affine Qd) -> n_basis (coeff E) d2 (affine P2) (affine Q2) -> l *[E] Pb = None ->
  exists L, on_E E L /\ (l * d2) *[E] L = pmul_q (coeff E) (l * d2) (kernel_point (coeff E) (affine Pd) (affine Qd) s1) /\ (l * d1) *[E] L = pmul_q (coeff E) (l * d1) (kernel_point (coeff E) (affine P2) (affine Q2) s2) /\
    (d1 * d2) *[E] L = pmul_q (coeff E) (d1 * d2 * t) (affine Pb).
Proof.
  intros V Hl H1 H2 Ht Hs1 Hs2 OPd OQd OP2 OQ2 OPb B1 B2 Zb.
  destruct (mul_point E Qd s1 V OQd Hs1) as (sQ & O1 & A1). destruct (add_point E Pd sQ V OPd O1) as (U & OU & AU). rewrite A1 in AU. change (affine U = kernel_point (coeff E) (affine Pd) (affine Qd) s1) in AU.
  destruct (mul_point E Q2 s2 V OQ2 Hs2) as (sQ' & O2 & A2). destruct (add_point E P2 sQ' V OP2 O2) as (W & OW & AW). rewrite A2 in AW. change (affine W = kernel_point (coeff E) (affine P2) (affine Q2) s2) in AW.
  destruct (mul_point E Pb t V OPb Ht) as (T & OT & AT). destruct (add_point E U W V OU OW) as (UW & OUW & AUW). destruct (add_point E UW T V OUW OT) as (L & OL & AL).
  pose proof (kp_killed E d1 s1 Pd Qd U V H1 Hs1 OPd OQd B1 AU) as ZU. pose proof (kp_killed E d2 s2 P2 Q2 W V H2 Hs2 OP2 OQ2 B2 AW) as ZW.
  assert (ZT : l *[E] T = None). { assert (l0 : 0 <= l) by lia. rewrite AT, (pm_mul V), Z.mul_comm by assumption. rewrite Z.mul_comm. apply (pm_zero_mul V); assumption. }
  exists L. split; [exact OL|]. rewrite <- AU, <- AW.
  assert (D : forall k, 0 <= k -> k *[E] L = padd_q (coeff E) (padd_q (coeff E) (k *[E] U) (k *[E] W)) (k *[E] T)) by (intros k Hk; rewrite AL, (pm_dist V) by assumption; rewrite AUW, (pm_dist V) by assumption; reflexivity).
  assert (N1 : 0 <= l) by lia. assert (N2 : 0 <= d1) by lia. assert (N3 : 0 <= d2) by lia.
  rewrite !D by (apply Z.mul_nonneg_nonneg; assumption). split; [|split].
  - rewrite (kill_mul E d2 l W) by assumption. rewrite (Z.mul_comm l d2), (kill_mul E l d2 T) by assumption. rewrite !padd_0_r. reflexivity.
  - rewrite (kill_mul E d1 l U) by assumption. rewrite (Z.mul_comm l d1), (kill_mul E l d1 T) by assumption. rewrite padd_0_r, padd_0_l. reflexivity.
  - rewrite (kill_mul E d2 d1 W) by assumption. rewrite padd_0_r. replace ((d1 * d2) *[E] U) with (@None (Zq * Zq)) by (symmetry; rewrite Z.mul_comm; apply kill_mul; assumption). rewrite padd_0_l, AT.
    apply (pm_mul V); [exact OPb|apply Z.mul_nonneg_nonneg; assumption|exact Ht].
Qed.
Lemma images_ok A fs p q s r1 r2 a : 0 <= a -> Z.gcd a (fprod fs) = 1 -> 3 < fprod fs -> log_entries true fs -> Forall (fun f => prime (fst f)) fs -> ~ (fprod fs | s) -> r1 = pmul_q A a (kernel_point A p q s) -> r2 = pmul_q A a (kernel_point A p q s) -> kernel_images A fs p q s r1 r2.
Proof.
  intros Ha G Hn HL HF Ns E1 E2. exists a, a. rewrite G. assert (N : ~ (fprod fs | a * s)) by (intros D; apply Ns; apply (Z.gauss _ a); [exact D|rewrite Z.gcd_comm; exact G]).
  assert (NB : Forall (fun f => ~ (fst f | a) \/ ~ (fst f | a)) fs).
  { rewrite Forall_forall in *. intros f Hf. left. intros D. specialize (HF f Hf). cbn beta in HF. assert (Dn : (fst f | fprod fs)).
    { unfold log_entries in HL. rewrite Forall_forall in HL. clear - Hf HL. revert Hf HL. induction fs as [|[l e] fs IH]; [intros []|]. intros [<-|Hf] HL; cbn [fprod fst].
      - apply Z.divide_mul_l. destruct (HL (l, e) (or_introl eq_refl)) as (_ & He & _). cbn [snd] in He. replace e with (1 + (e - 1)) by lia. rewrite Z.pow_add_r, Z.pow_1_r by lia. apply Z.divide_factor_l.
      - apply Z.divide_mul_r. apply IH; [exact Hf|]. intros g Hg. apply HL. right. exact Hg. }
    pose proof (Z.gcd_greatest a (fprod fs) (fst f) D Dn) as D1. rewrite G in D1. apply Z.divide_1_r in D1. destruct HF as [HF _]. clear - D1 HF. lia. }
  split; [exact Ha|]. split; [exact Ha|]. split; [exact E1|]. split; [exact E2|]. split; [exact NB|]. split; [clear - Hn; lia|]. split; [clear - Hn; lia|]. split; exact N.
Qed.
Theorem C66_reachable : forall root fuel0 checks self E P Q P2 Q2 s1 s2 b,
  festa_new fq_ops root fuel0 checks = Some self -> valid E -> on_E E P -> on_E E Q -> on_E E P2 -> on_E E Q2 ->
  n_basis (coeff E) (2 ^ 634 * ed1) (affine P) (affine Q) -> n_basis (coeff E) ed2 (affine P2) (affine Q2) ->
  full_pairing checks E ed1 (2 ^ 634 *[E] P) (2 ^ 634 *[E] Q) -> full_pairing checks E ed2 (affine P2) (affine Q2) ->
  0 < s1 < ed1 -> 0 < s2 < ed2 -> 0 < b <= 2 ^ 633 -> Z.odd b = true ->
  exists L1 L2, on_E E L1 /\ on_E E L2 /\ forall fuel, exists y, recover_si_and_B fq_ops (dlp_fq checks) fuel checks self E L1 L2 (P, Q) (P2, Q2) = Some (mkTI s1 s2 (b, y)) /\ 0 < y < 2 ^ 634 /\ (2 ^ 634 | b * y - 1).
Proof.
  intros root fuel0 c self E P Q P2 Q2 s1 s2 b HN V OP OQ OP2 OQ2 B1 B2 F1 F2 Hs1 Hs2 Hb Ob.
  destruct (C58_new _ _ _ _ _ _ HN) as (_ & _ & _ & _ & _ & SS). destruct (s_pos _ _ _ _ _ _ _ _ _ _ _ SS) as (Pc & _). destruct (s_cd1 _ _ _ _ _ _ _ _ _ _ _ SS) as (C1 & C2). clear SS.
  destruct (D1_entries true) as (L11 & L12 & L13 & L14 & L15). destruct (D2_entries true) as (L21 & L22 & L23 & L24 & L25). pose proof e_odd as (X1 & X2 & X3 & _). pose proof e_pos as (Y1 & Y2 & Y3 & _). assert (Hl : 0 < 2 ^ 634) by reflexivity. assert (Hl0 : 0 <= 2 ^ 634) by discriminate.
  destruct (mul_point E P (fe_clear_d1 self) V OP Pc) as (Pb & OPb & APb). destruct (mul_point E Q (fe_clear_d1 self) V OQ Pc) as (Qb & OQb & AQb). destruct (mul_point E P (2 ^ 634) V OP Hl0) as (Pd & OPd & APd). destruct (mul_point E Q (2 ^ 634) V OQ Hl0) as (Qd & OQd & AQd).
  assert (BB : n_basis (coeff E) (2 ^ 634) (affine Pb) (affine Qb)) by (rewrite APb, AQb; exact (basis_clear V (2 ^ 634) ed1 _ _ _ Hl Y1 Pc C1 C2 OP OQ B1)).
  assert (BD : n_basis (coeff E) ed1 (affine Pd) (affine Qd)) by (rewrite APd, AQd; exact (basis_part V (2 ^ 634) ed1 _ _ Hl Y1 OP OQ B1)).
  assert (Ht : 0 <= ed1 * em1 * b) by (clear - Y1 Y3 Hb; revert Y1 Y3; generalize ed1, em1; intros; repeat apply Z.mul_nonneg_nonneg; lia). assert (S1 : 0 <= s1) by (clear - Hs1; lia). assert (S2 : 0 <= s2) by (clear - Hs2; lia).
  destruct (reach_gen E (2 ^ 634) ed1 ed2 (ed1 * em1 * b) s1 s2 Pd Qd P2 Q2 Pb V Hl Y1 Y2 Ht S1 S2 OPd OQd OP2 OQ2 OPb BD B2 (proj1 BB)) as (L & OL & K1 & K2 & K3).
  exists L, L. split; [exact OL|]. split; [exact OL|]. intros fuel.
  assert (G12 : Z.gcd ed1 ed2 = 1) by exact (proj1 (proj2 (proj2 (proj2 C42_degrees_divide)))).
  assert (G1 : Z.gcd (2 ^ 634 * ed2) (fprod D1_FACTORED) = 1). { rewrite L14. apply Zgcd_1_rel_prime, rel_prime_sym, rel_prime_mult; apply rel_prime_sym, Zgcd_1_rel_prime; [rewrite Z.gcd_comm; apply odd_gcd; exact X1|rewrite Z.gcd_comm; exact G12]. }
  assert (G2 : Z.gcd (2 ^ 634 * ed1) (fprod D2_FACTORED) = 1). { rewrite L24. apply Zgcd_1_rel_prime, rel_prime_sym, rel_prime_mult; apply rel_prime_sym, Zgcd_1_rel_prime; [rewrite Z.gcd_comm; apply odd_gcd; exact X2|exact G12]. }
  assert (ND : forall s d, 0 < s < d -> ~ (d | s)) by (clear; intros s d H D; apply Z.divide_pos_le in D; lia).
  assert (I1 : kernel_images (coeff E) D1_FACTORED (2 ^ 634 *[E] P) (2 ^ 634 *[E] Q) s1 ((2 ^ 634 * ed2) *[E] L) ((2 ^ 634 * ed2) *[E] L)).
  { rewrite <- APd, <- AQd. apply (images_ok _ _ _ _ _ _ _ (2 ^ 634 * ed2)); [apply Z.mul_nonneg_nonneg; [exact Hl0|clear - Y2; lia]|exact G1|rewrite L14; exact L15|exact L11|exact L13|rewrite L14; apply ND; exact Hs1|exact K1|exact K1]. }
  assert (I2 : kernel_images (coeff E) D2_FACTORED (affine P2) (affine Q2) s2 ((2 ^ 634 * ed1) *[E] L) ((2 ^ 634 * ed1) *[E] L)).
  { apply (images_ok _ _ _ _ _ _ _ (2 ^ 634 * ed1)); [apply Z.mul_nonneg_nonneg; [exact Hl0|clear - Y1; lia]|exact G2|rewrite L24; exact L25|exact L21|exact L23|rewrite L24; apply ND; exact Hs2|exact K2|exact K2]. }
  assert (SR : same_up_to_sign ((ed1 * ed2) *[E] L) (pmul_q (coeff E) (ed1 * (ed1 * ed2) * em1 * b) ((fe_clear_d1 self) *[E] P))).
  { left. rewrite K3, APb. f_equal. ring. }
  destruct (C66_recover root fuel0 fuel c self E L L P Q P2 Q2 s1 s2 b HN V OL OL OP OQ OP2 OQ2 B1 B2 F1 F2 S1 I1 S2 I2 Hb Ob SR) as (y & EY & By & Dy).
  exists y. rewrite !Z.mod_small in EY by assumption || (clear - Hs1 Hs2; lia). split; [exact EY|]. split; [exact By|exact Dy].
Qed.
Print Assumptions C66_reachable.
