(** C64: the points published by the key generation and by the evaluation of the trapdoor function (src/festa.rs:291-418) are bases of the 2^634-torsion. *)
From Coq Require Import Arith ZArith List Bool Lia Ring Field Znumtheory Zpow_facts.
From Verif Require Import P_Velu P_Isogeny M_Isogeny M_Super2 M_Festa P_Festa P_E0 P_Basis L_Entangled P_Entangled L_E0 S_Fp S_Fp2 S_Curve S_Params M_Fp M_Fp2 M_Field M_Curve M_Consts M_Dlog M_Pairing M_Super L_Zp L_Zp2 L_Fp L_Fp2 L_Group L_Kummer L_Field L_Curve L_QNum L_Isog P_Params P_Curve P_Pairing P_PairEx P_Super P_Scalar.
Import ListNotations.
Open Scope Z_scope.

(** ** Bases *)
Section Bases.
Context {E : curve fq} (V : valid E).
Notation A := (coeff E).
Lemma basis_neg n p q : 0 < n -> on_q A p -> on_q A q -> n_basis A n p q -> n_basis A n p (popp_q q).
Proof.
  intros Hn Hp Hq (ZP & ZQ & IN). assert (EM : forall j, 0 <= j -> pmul_q A j (popp_q q) = pmul_q A ((n - 1) * j) q).
  { intros j Hj. rewrite !pmul_n by nia. unfold popp_q. rewrite (pmul_nat_opp Zq_field qeqb_true q2_nz) by exact Hq. rewrite Z2Nat.inj_mul, Z2Nat.inj_sub by lia. apply (o_opp fq_laws (valid_smooth E V)); [lia|exact Hq|]. rewrite <- pmul_n by lia. exact ZQ. }
  split; [exact ZP|]. split; [rewrite EM by lia; rewrite Z.mul_comm; apply (pm_zero_mul V); [exact Hq|lia|lia|exact ZQ]|].
  intros i j Hi Hj S. rewrite EM in S by exact Hj. apply IN in S; [|exact Hi|nia]. destruct S as [D1 D2]. split; [exact D1|]. destruct D2 as [c Hc]. exists (j - c). nia.
Qed.
Lemma basis_mul n a b p q : 0 < n -> 0 <= a -> 0 <= b -> Z.gcd a n = 1 -> Z.gcd b n = 1 -> on_q A p -> on_q A q -> n_basis A n p q -> n_basis A n (pmul_q A a p) (pmul_q A b q).
Proof.
  intros Hn Ha Hb Ga Gb Hp Hq (ZP & ZQ & IN). split; [rewrite (pm_mul V), (pm_zero_mul V) by (try assumption; lia); reflexivity|]. split; [rewrite (pm_mul V), (pm_zero_mul V) by (try assumption; lia); reflexivity|].
  intros i j Hi Hj S. rewrite !(pm_mul V) in S by assumption. apply IN in S; [|nia|nia]. destruct S as [D1 D2]. split.
  - apply (Z.gauss n a i); [rewrite Z.mul_comm; exact D1|rewrite Z.gcd_comm; exact Ga].
  - apply (Z.gauss n b j); [rewrite Z.mul_comm; exact D2|rewrite Z.gcd_comm; exact Gb].
Qed.
End Bases.
Lemma sign_mul E n p q : valid E -> 0 <= n -> on_E E q -> same_up_to_sign p (affine q) -> same_up_to_sign (pmul_q (coeff E) n p) (pmul_q (coeff E) n (affine q)).
Proof. intros V Hn Hq [EQ|EQ]; rewrite EQ; [left; reflexivity|right]. rewrite !pmul_n by exact Hn. unfold popp_q. apply (pmul_nat_opp Zq_field qeqb_true q2_nz). exact Hq. Qed.
Lemma neg_on_E E P : on_E E P -> on_E E (p_neg fq_ops P).
Proof. intros H. unfold on_E. rewrite C29_neg. apply (on_opp Zq_field). exact H. Qed.
(** ** Two points through a chain *)
Lemma chain_pair checks E C ch P Q n d R S : valid E -> valid C -> linked E ch C -> 3 < n -> on_E E P -> on_E E Q -> on_E C R -> on_E C S -> eval_points fq_ops ch P = Some R -> eval_points fq_ops ch Q = Some S ->
  n_basis (coeff E) n (affine P) (affine Q) -> n_basis (coeff C) n (affine R) (affine S) ->
  exists S', evaluate_isogeny_chain_for_basis fq_ops checks E P Q ch n d = Some (C, (R, S')) /\ on_E C S' /\ same_up_to_sign (affine S') (affine S) /\ n_basis (coeff C) n (affine R) (affine S').
Proof.
  intros VE VC HL Hn HP HQ HR HS ER ES B BC. destruct (C55_weil checks E n P Q VE Hn HP HQ B) as (w & Ew & _). destruct (C55_weil checks C n R S VC Hn HR HS BC) as (w' & Ew' & _).
  unfold evaluate_isogeny_chain_for_basis. rewrite !(eval_chain_linked fq_ops _ _ _ _ HL), ER, ES, Ew, Ew'. destruct (negb (feqb fq_ops (fpow fq_ops w d) w')).
  - exists (p_neg fq_ops S). split; [reflexivity|]. split; [apply neg_on_E; exact HS|]. rewrite C29_neg. split; [right; reflexivity|]. apply (basis_neg VC); [lia|exact HR|exact HS|exact BC].
  - exists S. split; [reflexivity|]. split; [exact HS|]. split; [left; reflexivity|exact BC].
Qed.

(** ** C64: evaluation *)
(** (R, S) is b1 * f(P) and, up to sign, b2 * f(Q), f an isogeny from E to C with the given kernel; they generate the 2^634-torsion of C *)
Definition masked_images (E C : curve fq) (ker : pt Zq -> Prop) (P Q R S : point fq) (B : Z * Z) : Prop :=
  good_curve C /\ on_E C R /\ on_E C S /\ n_basis (coeff C) (2 ^ 634) (affine R) (affine S) /\
  exists f X Y, x_isogeny E C f ker /\ f P = Some X /\ f Q = Some Y /\ affine R = pmul_q (coeff C) (fst B) (affine X) /\ same_up_to_sign (affine S) (pmul_q (coeff C) (snd B) (affine Y)).
Lemma odd_gcd b : Z.odd b = true -> Z.gcd b (2 ^ 634) = 1.
Proof.
  intros O. assert (R : rel_prime b 2). { apply rel_prime_sym, prime_rel_prime; [exact prime_2|]. intros [c Hc]. rewrite Hc, Z.odd_mul in O. rewrite andb_false_r in O. discriminate. }
  apply Zgcd_1_rel_prime. apply rel_prime_Zpower_r; [lia|exact R].
Qed.
(** one of the two halves *)
Lemma half fuel checks E D m P Q Pb Qb B d : good_curve E -> library_degree D -> on_E E P -> on_E E Q -> n_basis (coeff E) (order_of D) (affine P) (affine Q) -> 0 <= m ->
  on_E E Pb -> on_E E Qb -> n_basis (coeff E) (2 ^ 634) (affine Pb) (affine Qb) -> 0 <= fst B -> 0 <= snd B -> Z.odd (fst B) = true -> Z.odd (snd B) = true -> torsion_basis fq_ops fuel checks E D 634 = Some (P, Q) ->
  exists phi C X Y R S, isogeny_from_scalar_x_only fq_ops fuel checks E D m None = Some (phi, C) /\ chain_basis fq_ops checks E (Pb, Qb) phi (2 ^ 634) d = Some (X, Y) /\
    mul_big fq_ops C X (fst B) = Some R /\ mul_big fq_ops C Y (snd B) = Some S /\ masked_images E C (scalar_kernel E P Q m) Pb Qb R S B.
Proof.
  intros gE LD OP OQ BPQ Hm OPb OQb Bb B1 B2 O1 O2 ET. pose proof (proj1 gE) as V. pose proof LD as (DL & PE & OD & DV & _). pose proof (degree_pos D DL) as DP.
  destruct (C63_kernel fuel checks E D m P Q gE DL OP OQ BPQ Hm) as (ch & C & EI & HL & gC & _ & X). pose proof (proj1 gC) as VC.
  destruct (C31_mul_big E Q m V OQ Hm) as (mQ & _ & OmQ & AmQ). destruct (C29_add E P mQ V OP OmQ) as [OK AK]. rewrite AmQ in AK. set (K := add_pts fq_ops E P mQ) in *.
  assert (XK : x_isogeny E C (eval_points fq_ops ch) (multiple_of E K)) by (apply (xi_ker_eq _ _ _ _ _ X); intros p; symmetry; exact (kernel_multiple V OP OQ m K Hm AK p)).
  pose proof (kernel_order V OP OQ DP BPQ m K Hm AK) as [ZK _]. destruct (xi_total _ _ _ _ X Pb OPb) as (X1 & EX & OX). destruct (xi_total _ _ _ _ X Qb OQb) as (Y1 & EY & OY).
  assert (G : Z.gcd (2 ^ 634) (order_of D) = 1) by (rewrite Z.gcd_comm; apply odd_gcd; exact OD). assert (P2 : 3 < 2 ^ 634) by reflexivity. assert (P0 : 0 < 2 ^ 634) by reflexivity.
  assert (BC : n_basis (coeff C) (2 ^ 634) (affine X1) (affine Y1)) by (apply (tr_basis V OK DP ZK XK Pb Qb X1 Y1 (2 ^ 634)); try assumption).
  destruct (chain_pair checks E C ch Pb Qb (2 ^ 634) d X1 Y1 V VC HL P2 OPb OQb OX OY EX EY Bb BC) as (S' & EC & OS & SS & BS).
  destruct (C31_mul_big C X1 (fst B) VC OX B1) as (R & ER & OR & AR). destruct (C31_mul_big C S' (snd B) VC OS B2) as (S & ES & OSS & AS).
  exists ch, C, X1, S', R, S. split; [|split; [|split; [exact ER|split; [exact ES|]]]].
  - unfold isogeny_from_scalar_x_only in EI |- *. change (Z.to_nat L_POWER) with 634%nat. rewrite ET. exact EI.
  - unfold chain_basis. cbn [fst snd]. rewrite EC. reflexivity.
  - split; [exact gC|]. split; [exact OR|]. split; [exact OSS|]. split.
    + rewrite AR, AS. apply (basis_mul VC); try assumption; [apply odd_gcd; exact O1|apply odd_gcd; exact O2].
    + exists (eval_points fq_ops ch), X1, Y1. split; [exact X|]. split; [exact EX|]. split; [exact EY|]. split; [exact AR|]. rewrite AS. apply sign_mul; assumption.
Qed.
Lemma D1_lib : library_degree D1_FACTORED. Proof. pose proof C63_degrees as H. rewrite Forall_forall in H. apply H. left. reflexivity. Qed.
Lemma D2_lib : library_degree D2_FACTORED. Proof. pose proof C63_degrees as H. rewrite Forall_forall in H. apply H. right. left. reflexivity. Qed.
Lemma eval_gen fuel checks (self : festa fq) D D' pk m P1 Q1 P2 Q2 : let E0 := fe_E0 self in let EA := pk_EA pk in fe_l self = 2 ^ 634 -> library_degree D -> library_degree D' -> 
  good_curve E0 -> on_E E0 (fst (fe_lb self)) -> on_E E0 (snd (fe_lb self)) -> n_basis (coeff E0) (2 ^ 634) (affine (fst (fe_lb self))) (affine (snd (fe_lb self))) ->
  good_curve EA -> on_E EA (pk_RA pk) -> on_E EA (pk_SA pk) -> n_basis (coeff EA) (2 ^ 634) (affine (pk_RA pk)) (affine (pk_SA pk)) ->
  torsion_basis fq_ops fuel checks E0 D 634 = Some (P1, Q1) -> on_E E0 P1 -> on_E E0 Q1 -> n_basis (coeff E0) (order_of D) (affine P1) (affine Q1) ->
  torsion_basis fq_ops fuel checks EA D' 634 = Some (P2, Q2) -> on_E EA P2 -> on_E EA Q2 -> n_basis (coeff EA) (order_of D') (affine P2) (affine Q2) ->
  0 <= ti_s1 m -> 0 <= ti_s2 m -> 0 <= fst (ti_B m) -> 0 <= snd (ti_B m) -> Z.odd (fst (ti_B m)) = true -> Z.odd (snd (ti_B m)) = true ->
  exists c, (obind (isogeny_from_scalar_x_only fq_ops fuel checks E0 D (ti_s1 m) None) (fun f1 =>
  let (phi1, E1) := f1 in
  obind (chain_basis fq_ops checks E0 (fe_lb self) phi1 (fe_l self) (fe_d1 self)) (fun imb =>
  obind (isogeny_from_scalar_x_only fq_ops fuel checks (pk_EA pk) D' (ti_s2 m) None) (fun f2 =>
  let (phi2, E2) := f2 in
  obind (chain_basis fq_ops checks (pk_EA pk) (pk_RA pk, pk_SA pk) phi2 (fe_l self) (fe_d2 self)) (fun imRS =>
  obind (mul_big fq_ops E1 (fst imb) (fst (ti_B m))) (fun R1 =>
  obind (mul_big fq_ops E1 (snd imb) (snd (ti_B m))) (fun S1 =>
  obind (mul_big fq_ops E2 (fst imRS) (fst (ti_B m))) (fun R2 =>
  obind (mul_big fq_ops E2 (snd imRS) (snd (ti_B m))) (fun S2 =>
  Some (mkTO E1 R1 S1 E2 R2 S2)))))))))) = Some c /\
    masked_images E0 (to_E1 c) (scalar_kernel E0 P1 Q1 (ti_s1 m)) (fst (fe_lb self)) (snd (fe_lb self)) (to_R1 c) (to_S1 c) (ti_B m) /\
    masked_images EA (to_E2 c) (scalar_kernel EA P2 Q2 (ti_s2 m)) (pk_RA pk) (pk_SA pk) (to_R2 c) (to_S2 c) (ti_B m).
Proof.
  intros E0 EA Hl LD LD' gE OPb OQb Bb gA ORA OSA BA T1 OP1 OQ1 B1 T2 OP2 OQ2 B2 Hs1 Hs2 Hb1 Hb2 Ob1 Ob2. rewrite Hl.
  destruct (half fuel checks E0 D (ti_s1 m) P1 Q1 _ _ (ti_B m) (fe_d1 self) gE LD OP1 OQ1 B1 Hs1 OPb OQb Bb Hb1 Hb2 Ob1 Ob2 T1) as (phi1 & C1 & X1 & Y1 & R1 & S1 & F1 & G1 & M1 & N1 & MI1).
  destruct (half fuel checks EA D' (ti_s2 m) P2 Q2 _ _ (ti_B m) (fe_d2 self) gA LD' OP2 OQ2 B2 Hs2 ORA OSA BA Hb1 Hb2 Ob1 Ob2 T2) as (phi2 & C2 & X2 & Y2 & R2 & S2 & F2 & G2 & M2 & N2 & MI2).
  exists (mkTO C1 R1 S1 C2 R2 S2). fold EA. rewrite F1. cbn [obind]. rewrite (surjective_pairing (fe_lb self)), G1. cbn [obind]. rewrite F2. cbn [obind]. rewrite G2. cbn [obind fst snd]. rewrite M1. cbn [obind]. rewrite N1. cbn [obind]. rewrite M2. cbn [obind]. rewrite N2.
  split; [reflexivity|]. cbn [to_E1 to_R1 to_S1 to_E2 to_R2 to_S2]. split; assumption.
Qed.
(** evaluation of the trapdoor function on a public key whose points generate the 2^634-torsion, when the two torsion bases it computes are bases: no panic, and the output is as in the paper *)
Theorem C64_eval : forall fuel checks self pk m P1 Q1 P2 Q2, let EA := pk_EA pk in
  festa_new fq_ops root_fq fuel checks = Some self ->
  good_curve EA -> on_E EA (pk_RA pk) -> on_E EA (pk_SA pk) -> n_basis (coeff EA) (2 ^ 634) (affine (pk_RA pk)) (affine (pk_SA pk)) ->
  torsion_basis fq_ops fuel checks E0 D1_FACTORED 634 = Some (P1, Q1) -> on_E E0 P1 -> on_E E0 Q1 -> n_basis (coeff E0) (order_of D1_FACTORED) (affine P1) (affine Q1) ->
  torsion_basis fq_ops fuel checks EA D2_FACTORED 634 = Some (P2, Q2) -> on_E EA P2 -> on_E EA Q2 -> n_basis (coeff EA) (order_of D2_FACTORED) (affine P2) (affine Q2) ->
  0 <= ti_s1 m -> 0 <= ti_s2 m -> 0 <= fst (ti_B m) -> 0 <= snd (ti_B m) -> Z.odd (fst (ti_B m)) = true -> Z.odd (snd (ti_B m)) = true ->
  exists c, trapdoor_eval fq_ops fuel checks self pk m = Some c /\
    masked_images E0 (to_E1 c) (scalar_kernel E0 P1 Q1 (ti_s1 m)) (fst (fe_lb self)) (snd (fe_lb self)) (to_R1 c) (to_S1 c) (ti_B m) /\
    masked_images EA (to_E2 c) (scalar_kernel EA P2 Q2 (ti_s2 m)) (pk_RA pk) (pk_SA pk) (to_R2 c) (to_S2 c) (ti_B m).
Proof.
  intros fuel checks self pk m P1 Q1 P2 Q2 EA HN. destruct (C61_new _ _ _ HN) as (HE & OPb & OQb & Bb & _). destruct (C58_new _ _ _ _ _ _ HN) as (Hl & _). clear HN. rewrite <- HE in *. intros gA ORA OSA BA T1 OP1 OQ1 B1 T2 OP2 OQ2 B2 Hs1 Hs2 Hb1 Hb2 Ob1 Ob2.
  assert (gE : good_curve (fe_E0 self)) by (rewrite HE; exact C60_E0_good).
  exact (eval_gen fuel checks self D1_FACTORED D2_FACTORED pk m P1 Q1 P2 Q2 Hl D1_lib D2_lib gE OPb OQb Bb gA ORA OSA BA T1 OP1 OQ1 B1 T2 OP2 OQ2 B2 Hs1 Hs2 Hb1 Hb2 Ob1 Ob2).
Qed.
Print Assumptions C64_eval.

(** ** C64: key generation *)
(** f maps points of E to points of C, respecting signs and multiples, and keeps bases of order n *)
Record keeps (E C : curve fq) (f : point fq -> option (point fq)) (n : Z) : Prop := {
  k_total : forall P, on_E E P -> exists R, f P = Some R /\ on_E C R;
  k_sign : forall P P' R R', on_E E P -> on_E E P' -> same_up_to_sign (affine P) (affine P') -> f P = Some R -> f P' = Some R' -> same_up_to_sign (affine R) (affine R');
  k_mul : forall P Q k RP RQ, on_E E P -> 0 <= k -> affine Q = pmul_q (coeff E) k (affine P) -> f P = Some RP -> f Q = Some RQ -> same_up_to_sign (affine RQ) (pmul_q (coeff C) k (affine RP));
  k_basis : forall P Q R S, on_E E P -> on_E E Q -> f P = Some R -> f Q = Some S -> n_basis (coeff E) n (affine P) (affine Q) -> n_basis (coeff C) n (affine R) (affine S) }.
Lemma sign_sym p q : same_up_to_sign p q -> same_up_to_sign q p.
Proof. intros [-> | ->]; [left; reflexivity|right]. unfold popp_q. rewrite (popp_invol Zq_field). reflexivity. Qed.
Lemma sign_trans p q r : same_up_to_sign p q -> same_up_to_sign q r -> same_up_to_sign p r.
Proof. intros [-> | ->] [-> | ->]; try (left; reflexivity); try (right; reflexivity). left. unfold popp_q. apply (popp_invol Zq_field). Qed.
Lemma eval_app ch ch' P : eval_points fq_ops (ch ++ ch') P = obind (eval_points fq_ops ch P) (eval_points fq_ops ch').
Proof. revert P. induction ch as [|phi ch IH]; intros P; [reflexivity|]. cbn [app eval_points]. destruct (evaluate_isogeny fq_ops phi P); [apply IH|reflexivity]. Qed.
Lemma walk_keeps D E k ch C n : degree_list D -> 0 < n -> Z.gcd n (order_of D) = 1 -> good_curve E -> walk D E k ch C -> good_curve C /\ keeps E C (eval_points fq_ops ch) n.
Proof.
  intros DL Hn G gE W. induction W as [E|E K phi E1 k rest C OK XK HL gE1 X W IH].
  - split; [exact gE|]. cbn [eval_points]. split.
    + intros P HP. exists P. split; [reflexivity|exact HP].
    + intros P P' R R' _ _ SS H1 H2. injection H1 as <-. injection H2 as <-. exact SS.
    + intros P Q j RP RQ _ _ EQ H1 H2. injection H1 as <-. injection H2 as <-. left. exact EQ.
    + intros P Q R S _ _ H1 H2 B. injection H1 as <-. injection H2 as <-. exact B.
  - destruct (IH gE1) as [gC [T1 T2 T3 T4]]. split; [exact gC|]. pose proof (proj1 gE) as V. pose proof (proj1 gE1) as V1. destruct XK as [ZK _].
    assert (IN : forall P R, eval_points fq_ops (phi ++ rest) P = Some R -> exists R1, eval_points fq_ops phi P = Some R1 /\ eval_points fq_ops rest R1 = Some R) by (intros P R H; rewrite eval_app in H; apply obind_inv in H; exact H).
    assert (OI : forall P R, on_E E P -> eval_points fq_ops phi P = Some R -> on_E E1 R) by (intros P R HP HR; destruct (xi_total _ _ _ _ X P HP) as (R' & HR' & OR); rewrite HR in HR'; injection HR' as <-; exact OR).
    split.
    + intros P HP. destruct (xi_total _ _ _ _ X P HP) as (R1 & E1' & O1). destruct (T1 R1 O1) as (R & ER & OR). exists R. rewrite eval_app, E1'. split; [exact ER|exact OR].
    + intros P P' R R' HP HP' SS H1 H2. destruct (IN _ _ H1) as (U & HU & HU'). destruct (IN _ _ H2) as (U2 & HW & HW'). apply (T2 U U2 R R'); eauto. exact (xi_sign _ _ _ _ X P P' U U2 HP HP' SS HU HW).
    + intros P Q j RP RQ HP Hj EQ H1 H2. destruct (IN _ _ H1) as (U & HU & HU'). destruct (IN _ _ H2) as (U2 & HW & HW'). pose proof (xi_mul _ _ _ _ X P Q j U U2 HP Hj EQ HU HW) as S1. pose proof (OI _ _ HP HU) as OU.
      destruct (C31_mul_big E1 U j V1 OU Hj) as (T & _ & OT & AT). destruct (T1 T OT) as (RT & ERT & _). rewrite <- AT in S1.
      assert (HQ : on_E E Q) by (unfold on_E; rewrite EQ; apply (pm_on (E := E)); assumption).
      eapply sign_trans; [exact (T2 U2 T RQ RT (OI _ _ HQ HW) OT S1 HW' ERT)|]. exact (T3 U T j RP RT OU Hj AT HU' ERT).
    + intros P Q R S HP HQ H1 H2 B. destruct (IN _ _ H1) as (U & HU & HU'). destruct (IN _ _ H2) as (U2 & HW & HW'). apply (T4 U U2 R S); eauto. exact (tr_basis V OK (degree_pos D DL) ZK X P Q U U2 n Hn G HP HQ HU HW B).
Qed.
(** points returned by torsion_basis are killed by the order *)
Lemma basis_killed fuel checks E D P Q : valid E -> library_degree D -> killed E -> torsion_basis fq_ops fuel checks E D 634 = Some (P, Q) ->
  (on_E E P /\ pmul_q (coeff E) (order_of D) (affine P) = None) /\ (on_E E Q /\ pmul_q (coeff E) (order_of D) (affine Q) = None).
Proof.
  intros V (DL & PE & _ & DV & DV2) HK ET. pose proof (degree_pos D DL) as DP. assert (I0 : on_E E (infinity fq_ops) /\ pmul_q (coeff E) (order_of D) (affine (infinity fq_ops)) = None).
  { unfold on_E. rewrite C29_infinity. split; [exact I|]. apply (pm_O (E := E)). clear -DP; lia. }
  destruct (C54_torsion_basis _ _ _ _ _ _ _ V PE ET) as [E1|[HP HQ]]; [injection E1 as -> ->; split; exact I0|]. split.
  - destruct HP as [-> | HS]; [exact I0|]. split; [exact (proj1 HS)|]. destruct (C53_order E D 634 P V PE DV DV2 HS) as (R & OR & _ & EQ & _). rewrite EQ. exact (HK _ OR).
  - destruct HQ as (_ & _ & OQ & HO & _). split; [exact OQ|]. apply HO; [clear -DP; lia|apply Z.divide_refl].
Qed.
(** clearing the second summand *)
Lemma clear_sum E c n d T P U : valid E -> 0 < n -> 0 < d -> 0 <= c -> (n | c - 1) -> (d | c) -> on_E E T -> on_E E P -> pmul_q (coeff E) n (affine T) = None -> pmul_q (coeff E) d (affine P) = None -> affine U = padd_q (coeff E) (affine T) (affine P) ->
  pmul_q (coeff E) c (affine U) = affine T.
Proof.
  intros V Hn Hd Hc D1 D2 OT OP ZT ZP EU. rewrite EU, (pm_dist V) by (try assumption; lia). destruct D2 as [u Hu]. assert (Hu0 : 0 <= u) by (clear - Hu Hc Hd; nia). replace c with (d * u) at 2 by lia. rewrite (pm_zero_mul V) by (try assumption; lia).
  transitivity (pmul_q (coeff E) c (affine T)); [destruct (pmul_q (coeff E) c (affine T)) as [[]|]; reflexivity|]. destruct D1 as [w Hw]. destruct (Z.eq_dec c 0) as [C0|C0].
  - assert (n = 1) as -> by (clear - Hw C0 Hn; assert (X : (n | 1)) by (exists (- w); lia); apply Z.divide_pos_le in X; lia). change (pmul_q (coeff E) 1 (affine T)) with (affine T) in ZT. rewrite ZT. apply (pm_O (E := E)). exact Hc.
  - assert (Hw0 : 0 <= w) by (clear - Hw C0 Hc Hn; nia). replace c with (1 + n * w) by lia. rewrite (pm_add V) by (try assumption; nia). rewrite (pm_zero_mul V (affine T) n w) by (try assumption; lia). change (pmul_q (coeff E) 1 (affine T)) with (affine T). destruct (affine T) as [[]|]; reflexivity.
Qed.
(** one stage: the images of T + P and U + Q, cleared of the images of P and Q, generate the n-torsion *)
Lemma stage checks E C ch n d N dd c (TU PQ RS : point fq * point fq) : valid E -> valid C -> linked E ch C -> keeps E C (eval_points fq_ops ch) n -> 0 < n -> 0 < d -> 0 <= c -> (n | c - 1) -> (d | c) ->
  on_E E (fst TU) -> on_E E (snd TU) -> n_basis (coeff E) n (affine (fst TU)) (affine (snd TU)) -> on_E E (fst PQ) -> on_E E (snd PQ) -> pmul_q (coeff E) d (affine (fst PQ)) = None -> pmul_q (coeff E) d (affine (snd PQ)) = None ->
  chain_basis fq_ops checks E (add2 fq_ops E TU PQ) ch N dd = Some RS ->
  on_E C (fst RS) /\ on_E C (snd RS) /\ n_basis (coeff C) n (pmul_q (coeff C) c (affine (fst RS))) (pmul_q (coeff C) c (affine (snd RS))) /\
  exists fT fU, eval_points fq_ops ch (fst TU) = Some fT /\ eval_points fq_ops ch (snd TU) = Some fU /\ on_E C fT /\ on_E C fU /\ same_up_to_sign (pmul_q (coeff C) c (affine (fst RS))) (affine fT) /\ same_up_to_sign (pmul_q (coeff C) c (affine (snd RS))) (affine fU).
Proof.
  intros V VC HL KP Hn Hd Hc D1 D2 OT OU B OP OQ ZP ZQ H. unfold chain_basis in H. apply obind_inv in H. destruct H as ([C' [R S]] & H & HR). cbn [snd] in HR. injection HR as <-. cbn [fst snd].
  destruct (C38_basis _ _ _ _ _ _ _ _ _ _ _ _ H) as (ER & S0 & ES & SS). rewrite (eval_chain_linked fq_ops _ _ _ _ HL) in ER. rewrite (eval_chain_linked fq_ops _ _ _ _ HL) in ES. unfold add2 in ER, ES. cbn [fst snd] in ER, ES.
  destruct (C29_add E _ _ V OT OP) as [O1 A1]. destruct (C29_add E _ _ V OU OQ) as [O2 A2]. destruct TU as [T U], PQ as [P Q]. cbn [fst snd] in *. set (X := add_pts fq_ops E T P) in *. set (Y := add_pts fq_ops E U Q) in *.
  destruct (eval_points fq_ops ch X) as [R'|] eqn:EX; [|discriminate]. injection ER as _ ->. destruct (eval_points fq_ops ch Y) as [S'|] eqn:EY; [|discriminate]. injection ES as _ ->.
  destruct (k_total _ _ _ _ KP X O1) as (R1 & HR1 & OR). rewrite EX in HR1. injection HR1 as <-. destruct (k_total _ _ _ _ KP Y O2) as (S1 & HS1 & OS). rewrite EY in HS1. injection HS1 as <-.
  assert (OS' : on_E C S) by (destruct SS as [-> | ->]; [exact OS|apply neg_on_E; exact OS]). split; [exact OR|]. split; [exact OS'|].
  destruct (k_total _ _ _ _ KP T OT) as (fT & HT & OfT). destruct (k_total _ _ _ _ KP U OU) as (fU & HU & OfU). pose proof (k_basis _ _ _ _ KP T U fT fU OT OU HT HU B) as BC. pose proof B as (ZT & ZU & _).
  assert (ST : same_up_to_sign (pmul_q (coeff C) c (affine R)) (affine fT)) by (apply sign_sym; apply (k_mul _ _ _ _ KP X T c R fT O1 Hc); [symmetry; apply (clear_sum E c n d T P X); assumption|exact EX|exact HT]).
  assert (SU : same_up_to_sign (pmul_q (coeff C) c (affine S)) (affine fU)).
  { assert (SU0 : same_up_to_sign (pmul_q (coeff C) c (affine S0)) (affine fU)) by (apply sign_sym; apply (k_mul _ _ _ _ KP Y U c S0 fU O2 Hc); [symmetry; apply (clear_sum E c n d U Q Y); assumption|exact EY|exact HU]).
    eapply sign_trans; [|exact SU0]. apply sign_mul; [exact VC|exact Hc|exact OS|]. destruct SS as [-> | ->]; [left; reflexivity|right; apply C29_neg]. }
  assert (NL : forall p q, on_q (coeff C) p -> on_q (coeff C) q -> n_basis (coeff C) n p q -> n_basis (coeff C) n (popp_q p) q).
  { intros p q Hp Hq (Z1 & Z2 & IN). assert (BS : n_basis (coeff C) n q p).
    { split; [exact Z2|]. split; [exact Z1|]. intros i j Hi Hj S2. assert (X2 : (n | j) /\ (n | i)); [|tauto]. apply IN; [exact Hj|exact Hi|]. rewrite <- S2. apply (padd_comm Zq_field qeqb_true q2_nz); apply (pm_on (E := C)); assumption. }
    pose proof (basis_neg VC n q p Hn Hq Hp BS) as (Z3 & Z4 & IN2). split; [exact Z4|]. split; [exact Z3|]. intros i j Hi Hj S2. assert (X2 : (n | j) /\ (n | i)); [|tauto]. apply IN2; [exact Hj|exact Hi|]. rewrite <- S2.
    apply (padd_comm Zq_field qeqb_true q2_nz); apply (pm_on (E := C)); try assumption. apply (on_opp Zq_field). exact Hp. }
  split; [|exists fT, fU; do 4 (split; [assumption|]); split; assumption].
  destruct ST as [-> | ->], SU as [-> | ->]; [exact BC|apply (basis_neg VC); assumption|apply NL; assumption|]. apply NL; [exact OfT|apply (on_opp Zq_field); exact OfU|]. apply (basis_neg VC); assumption.
Qed.

Lemma gcd_pow2_degree D : library_degree D -> Z.gcd (2 ^ 634) (order_of D) = 1.
Proof. intros (_ & _ & OD & _). rewrite Z.gcd_comm. apply odd_gcd. exact OD. Qed.
Lemma lor1_odd r : 0 <= r -> 0 <= Z.lor r 1 /\ Z.odd (Z.lor r 1) = true.
Proof. intros H. split; [apply Z.lor_nonneg; lia|]. rewrite <- Z.bit0_odd, Z.lor_spec. apply orb_true_r. Qed.
Lemma mul2_ok E PQ k RS : valid E -> on_E E (fst PQ) -> on_E E (snd PQ) -> 0 <= k -> mul2 fq_ops E PQ k = Some RS -> on_E E (fst RS) /\ on_E E (snd RS) /\ affine (fst RS) = pmul_q (coeff E) k (affine (fst PQ)) /\ affine (snd RS) = pmul_q (coeff E) k (affine (snd PQ)).
Proof.
  intros V O1 O2 Hk H. unfold mul2 in H. apply obind_inv in H. destruct H as (X & HX & H). apply obind_inv in H. destruct H as (Y & HY & H). apply some_inj in H. subst RS. cbn [fst snd].
  destruct (C31_mul_big E _ k V O1 Hk) as (X' & EX & OX & AX). rewrite HX in EX. apply some_inj in EX. subst X'. destruct (C31_mul_big E _ k V O2 Hk) as (Y' & EY & OY & AY). rewrite HY in EY. apply some_inj in EY. subst Y'. tauto.
Qed.
Lemma keygen_inv F (o : fops F) dlp fuel checks self r11 r22 rng pk sk : keygen o dlp fuel checks self r11 r22 rng = Some (pk, sk) ->
  exists phi1 EA' rng1 phi2 EA rng2 PQ' im1 imb1 im2 imb2, random_isogeny_x_only o fuel checks (fe_E0 self) DA1_FACTORED 2 rng = Some (phi1, EA', rng1) /\
    random_isogeny_x_only o fuel checks EA' DA2_FACTORED 2 rng1 = Some (phi2, EA, rng2) /\ torsion_basis o fuel checks EA' D2_FACTORED 634 = Some PQ' /\
    chain_basis o checks (fe_E0 self) (add2 o (fe_E0 self) (fe_lb self) (fe_d1b self)) phi1 (fe_l self * fe_d1 self) (big32 DA1) = Some im1 /\ mul2 o EA' im1 (fe_clear_d1 self) = Some imb1 /\
    chain_basis o checks EA' (add2 o EA' imb1 PQ') phi2 (fe_l self * fe_d2 self) (big32 DA2) = Some im2 /\ mul2 o EA im2 (fe_clear_d2 self) = Some imb2 /\
    pk_EA pk = EA /\ mul_big o EA (fst imb2) (Z.lor r11 1) = Some (pk_RA pk) /\ mul_big o EA (snd imb2) (Z.lor r22 1) = Some (pk_SA pk) /\
    sk_EA sk = EA' /\ sk_A sk = (Z.lor r11 1, Z.lor r22 1).
Proof.
  intros H. unfold keygen, set_bit0 in H. change (Z.to_nat L_POWER) with 634%nat in H. cbv zeta in H. apply obind_inv in H. destruct H as ([[phi1 EA'] rng1] & H1 & H). apply obind_inv in H. destruct H as ([[phi2 EA] rng2] & H2 & H).
  apply obind_inv in H. destruct H as (PQ' & H3 & H). apply obind_inv in H. destruct H as (im1 & H4 & H). apply obind_inv in H. destruct H as (imb1 & H5 & H). apply obind_inv in H. destruct H as (im2 & H6 & H). apply obind_inv in H. destruct H as (imb2 & H7 & H).
  do 7 (apply obind_inv in H; destruct H as (? & _ & H)). apply obind_inv in H. destruct H as (R & HR & H). apply obind_inv in H. destruct H as (S & HS & H). do 2 (apply obind_inv in H; destruct H as (? & _ & H)). apply some_inj in H. injection H as <- <-.
  exists phi1, EA', rng1, phi2, EA, rng2, PQ', im1, imb1, im2, imb2. cbn [pk_EA pk_RA pk_SA sk_EA sk_A]. repeat split; assumption.
Qed.
(** the two masked images of a pair of points under f : E -> C *)
Definition masked (E C : curve fq) (f : point fq -> option (point fq)) (P Q R S : point fq) (a : Z * Z) : Prop :=
  exists U V, f P = Some U /\ f Q = Some V /\ on_E C U /\ on_E C V /\ same_up_to_sign (affine R) (pmul_q (coeff C) (fst a) (affine U)) /\ same_up_to_sign (affine S) (pmul_q (coeff C) (snd a) (affine V)).
Lemma keygen_gen checks E0 EA' EA phi1 phi2 n d1 d2 c1 c2 a11 a22 (lb d1b PQ' im1 imb1 im2 imb2 : point fq * point fq) N1 M1 N2 M2 R S :
  valid E0 -> good_curve EA' -> good_curve EA -> linked E0 phi1 EA' -> linked EA' phi2 EA -> keeps E0 EA' (eval_points fq_ops phi1) n -> keeps EA' EA (eval_points fq_ops phi2) n ->
  0 < n -> 0 < d1 -> 0 < d2 -> 0 <= c1 -> 0 <= c2 -> (n | c1 - 1) -> (d1 | c1) -> (n | c2 - 1) -> (d2 | c2) -> 0 <= a11 -> 0 <= a22 -> Z.gcd a11 n = 1 -> Z.gcd a22 n = 1 ->
  on_E E0 (fst lb) -> on_E E0 (snd lb) -> n_basis (coeff E0) n (affine (fst lb)) (affine (snd lb)) ->
  on_E E0 (fst d1b) -> on_E E0 (snd d1b) -> pmul_q (coeff E0) d1 (affine (fst d1b)) = None -> pmul_q (coeff E0) d1 (affine (snd d1b)) = None ->
  on_E EA' (fst PQ') -> on_E EA' (snd PQ') -> pmul_q (coeff EA') d2 (affine (fst PQ')) = None -> pmul_q (coeff EA') d2 (affine (snd PQ')) = None ->
  chain_basis fq_ops checks E0 (add2 fq_ops E0 lb d1b) phi1 N1 M1 = Some im1 -> mul2 fq_ops EA' im1 c1 = Some imb1 -> chain_basis fq_ops checks EA' (add2 fq_ops EA' imb1 PQ') phi2 N2 M2 = Some im2 -> mul2 fq_ops EA im2 c2 = Some imb2 ->
  mul_big fq_ops EA (fst imb2) a11 = Some R -> mul_big fq_ops EA (snd imb2) a22 = Some S ->
  on_E EA R /\ on_E EA S /\ n_basis (coeff EA) n (affine R) (affine S) /\ masked E0 EA (eval_points fq_ops (phi1 ++ phi2)) (fst lb) (snd lb) R S (a11, a22).
Proof.
  intros V g' g L1 L2 K1 K2 Hn Hd1 Hd2 Hc1 Hc2 D1 D1' D2 D2' Ha1 Ha2 G1 G2 OL1 OL2 BL OD1 OD2 ZD1 ZD2 OQ1 OQ2 ZQ1 ZQ2 EC1 EM1 EC2 EM2 ER ES.
  pose proof (proj1 g') as V'. pose proof (proj1 g) as VA.
  destruct (stage checks E0 EA' phi1 n d1 N1 M1 c1 lb d1b im1 V V' L1 K1 Hn Hd1 Hc1 D1 D1' OL1 OL2 BL OD1 OD2 ZD1 ZD2 EC1) as (O1 & O2 & B1 & f1 & f2 & F1 & F2 & Of1 & Of2 & S1 & S2).
  destruct (mul2_ok EA' im1 c1 imb1 V' O1 O2 Hc1 EM1) as (O3 & O4 & A3 & A4). rewrite <- A3, <- A4 in B1. rewrite <- A3 in S1. rewrite <- A4 in S2.
  destruct (stage checks EA' EA phi2 n d2 N2 M2 c2 imb1 PQ' im2 V' VA L2 K2 Hn Hd2 Hc2 D2 D2' O3 O4 B1 OQ1 OQ2 ZQ1 ZQ2 EC2) as (O5 & O6 & B2 & g1 & g2 & H1 & H2 & Og1 & Og2 & S3 & S4).
  destruct (mul2_ok EA im2 c2 imb2 VA O5 O6 Hc2 EM2) as (O7 & O8 & A7 & A8). rewrite <- A7, <- A8 in B2. rewrite <- A7 in S3. rewrite <- A8 in S4.
  destruct (C31_mul_big EA _ a11 VA O7 Ha1) as (R' & ER' & OR & AR). rewrite ER in ER'. apply some_inj in ER'. subst R'. destruct (C31_mul_big EA _ a22 VA O8 Ha2) as (S' & ES' & OS & AS). rewrite ES in ES'. apply some_inj in ES'. subst S'.
  split; [exact OR|]. split; [exact OS|]. split; [rewrite AR, AS; apply (basis_mul VA); assumption|].
  destruct (k_total _ _ _ _ K2 f1 Of1) as (h1 & HH1 & Oh1). destruct (k_total _ _ _ _ K2 f2 Of2) as (h2 & HH2 & Oh2). exists h1, h2. rewrite !eval_app, F1, F2. cbn [obind fst snd]. split; [exact HH1|]. split; [exact HH2|]. split; [exact Oh1|]. split; [exact Oh2|].
  rewrite AR, AS. split; (apply sign_mul; [exact VA|assumption|assumption|]); (eapply sign_trans; [eassumption|]).
  - exact (k_sign _ _ _ _ K2 _ f1 g1 h1 O3 Of1 S1 H1 HH1).
  - exact (k_sign _ _ _ _ K2 _ f2 g2 h2 O4 Of2 S2 H2 HH2).
Qed.

Lemma DA_lib : library_degree DA1_FACTORED /\ library_degree DA2_FACTORED.
Proof. pose proof C63_degrees as H. rewrite Forall_forall in H. split; apply H; cbn [In]; tauto. Qed.
Lemma order_D1 : order_of D1_FACTORED = ed1. Proof. vm_compute. reflexivity. Qed.
Lemma order_D2 : order_of D2_FACTORED = ed2. Proof. vm_compute. reflexivity. Qed.
(** key generation, once its two random walks are walks (C63_random) and the basis it computes on EA' consists of points killed by the degree: the public points are the secret multiples of
    the images of the stored basis and generate the 2^634-torsion of the public curve *)
Theorem C64_keygen : forall dlp fuel checks self r11 r22 rng pk sk phi1 EA' rng1 phi2 EA rng2 P' Q', festa_new fq_ops root_fq fuel checks = Some self -> 0 <= r11 -> 0 <= r22 ->
  keygen fq_ops dlp fuel checks self r11 r22 rng = Some (pk, sk) ->
  random_isogeny_x_only fq_ops fuel checks E0 DA1_FACTORED 2 rng = Some (phi1, EA', rng1) -> walk DA1_FACTORED E0 2 phi1 EA' ->
  random_isogeny_x_only fq_ops fuel checks EA' DA2_FACTORED 2 rng1 = Some (phi2, EA, rng2) -> walk DA2_FACTORED EA' 2 phi2 EA ->
  torsion_basis fq_ops fuel checks EA' D2_FACTORED 634 = Some (P', Q') -> on_E EA' P' -> on_E EA' Q' -> pmul_q (coeff EA') (order_of D2_FACTORED) (affine P') = None -> pmul_q (coeff EA') (order_of D2_FACTORED) (affine Q') = None ->
  pk_EA pk = EA /\ sk_EA sk = EA' /\ good_curve EA /\ on_E EA (pk_RA pk) /\ on_E EA (pk_SA pk) /\ n_basis (coeff EA) (2 ^ 634) (affine (pk_RA pk)) (affine (pk_SA pk)) /\
  Z.odd (fst (sk_A sk)) = true /\ Z.odd (snd (sk_A sk)) = true /\ masked E0 EA (eval_points fq_ops (phi1 ++ phi2)) (fst (fe_lb self)) (snd (fe_lb self)) (pk_RA pk) (pk_SA pk) (sk_A sk).
Proof.
  intros dlp fuel checks self r11 r22 rng pk sk phi1 EA' rng1 phi2 EA rng2 P' Q' HN Hr1 Hr2 H W1 WK1 W2 WK2 HT OP OQ ZP ZQ. apply keygen_inv in H. destruct H as (ph1 & C1 & rg1 & ph2 & C2 & rg2 & PQ' & im1 & imb1 & im2 & imb2 & X1 & X2 & X3 & X4 & X5 & X6 & X7 & E1 & ER & ES & E2 & EAA).
  destruct (C61_new _ _ _ HN) as (F0 & OL1 & OL2 & BL & _). destruct (C58_new _ _ _ _ _ _ HN) as (HL & _ & _ & _ & _ & SP). pose proof (new_inv _ _ _ _ _ _ HN) as (_ & _ & HD). rewrite F0 in *.
  rewrite W1 in X1. apply some_inj in X1. assert (Y1 : phi1 = ph1 /\ EA' = C1 /\ rng1 = rg1) by (injection X1; auto). destruct Y1 as (<- & <- & <-). clear X1.
  rewrite W2 in X2. apply some_inj in X2. assert (Y2 : phi2 = ph2 /\ EA = C2) by (injection X2; auto). destruct Y2 as (<- & <-). clear X2. rewrite HT in X3. apply some_inj in X3. subst PQ'.
  destruct DA_lib as [LA1 LA2]. pose proof D1_lib as L1. pose proof D2_lib as L2. assert (P0 : 0 < 2 ^ 634) by reflexivity.
  destruct (walk_keeps _ _ _ _ _ (2 ^ 634) (proj1 LA1) P0 (gcd_pow2_degree _ LA1) C60_E0_good WK1) as [g' K1]. destruct (walk_keeps _ _ _ _ _ (2 ^ 634) (proj1 LA2) P0 (gcd_pow2_degree _ LA2) g' WK2) as [g K2].
  destruct (fe_d1b self) as [D1P D1Q] eqn:ED. destruct (basis_killed _ _ _ _ _ _ E0_valid L1 C61_group HD) as [[OD1 ZD1] [OD2 ZD2]]. destruct (lor1_odd _ Hr1) as [N1 O1]. destruct (lor1_odd _ Hr2) as [N2 O2].
  pose proof (s_pos _ _ _ _ _ _ _ _ _ _ _ SP) as (C1 & C2 & _). pose proof (s_cd1 _ _ _ _ _ _ _ _ _ _ _ SP) as [V1 V1']. pose proof (s_cd2 _ _ _ _ _ _ _ _ _ _ _ SP) as [V2 V2']. rewrite <- order_D1 in V1'. rewrite <- order_D2 in V2'. clear SP.
  rewrite E1, E2, EAA. cbn [fst snd]. split; [reflexivity|]. split; [reflexivity|]. split; [exact g|].
  destruct (keygen_gen checks E0 EA' EA phi1 phi2 (2 ^ 634) (order_of D1_FACTORED) (order_of D2_FACTORED) _ _ (Z.lor r11 1) (Z.lor r22 1) (fe_lb self) (D1P, D1Q) (P', Q') im1 imb1 im2 imb2 _ _ _ _ (pk_RA pk) (pk_SA pk)
    E0_valid g' g (walk_linked _ _ _ _ _ WK1) (walk_linked _ _ _ _ _ WK2) K1 K2 P0 (degree_pos _ (proj1 L1)) (degree_pos _ (proj1 L2)) C1 C2 V1 V1' V2 V2' N1 N2 (odd_gcd _ O1) (odd_gcd _ O2) OL1 OL2 BL OD1 OD2 ZD1 ZD2 OP OQ ZP ZQ X4 X5 X6 X7 ER ES) as (R1 & R2 & R3 & R4).
  split; [exact R1|]. split; [exact R2|]. split; [exact R3|]. split; [exact O1|]. split; [exact O2|exact R4].
Qed.
Print Assumptions C64_keygen.
(** the stored basis of the starting curve is a public key as asked for by C64_eval, and 1, 3 are masking scalars *)
Example C64_ex : exists pk, pk_EA pk = E0 /\ good_curve (pk_EA pk) /\ on_E (pk_EA pk) (pk_RA pk) /\ on_E (pk_EA pk) (pk_SA pk) /\ n_basis (coeff (pk_EA pk)) (2 ^ 634) (affine (pk_RA pk)) (affine (pk_SA pk)) /\ Z.odd 1 = true /\ Z.odd 3 = true.
Proof. destruct C61_basis as (R & S & _ & O1 & O2 & B). exists (mkPK E0 R S). cbn [pk_EA pk_RA pk_SA]. split; [reflexivity|]. split; [exact C60_E0_good|]. split; [exact O1|]. split; [exact O2|]. split; [exact B|]. split; reflexivity. Qed.
(** a basis computed by torsion_basis on a curve whose points are killed by p + 1 is as asked for by C64_keygen *)
Example C64_ex_basis : forall fuel checks P' Q', torsion_basis fq_ops fuel checks E0 D2_FACTORED 634 = Some (P', Q') -> on_E E0 P' /\ on_E E0 Q' /\ pmul_q (coeff E0) (order_of D2_FACTORED) (affine P') = None /\ pmul_q (coeff E0) (order_of D2_FACTORED) (affine Q') = None.
Proof. intros fuel checks P' Q' H. destruct (basis_killed _ _ _ _ _ _ E0_valid D2_lib C61_group H) as [[A1 A2] [A3 A4]]. split; [exact A1|]. split; [exact A3|]. split; [exact A2|exact A4]. Qed.
