(** A basis of the 4-torsion of y^2 = x^3 - (34/15) x^2 + x over any field with square roots of -1 and 15, used by the pairing examples. *)
From Coq Require Import Arith ZArith List Bool Ring Field Lia.
From Verif Require Import S_Curve L_Group L_Weil L_Weil2.
Import ListNotations.

Section N4.
Context {K : Type} {k0 k1 : K} {kadd kmul ksub : K -> K -> K} {kopp : K -> K} {kdiv : K -> K -> K} {kinv : K -> K} {keq : K -> K -> bool}.
Context (FT : field_theory k0 k1 kadd kmul ksub kopp kdiv kinv (@eq K)) (keq_ok : forall x y, keq x y = true <-> x = y).
Add Field Kfield : FT.
Local Notation "0" := k0. Local Notation "1" := k1.
Local Notation "2" := (kadd k1 k1). Local Notation "3" := (kadd (kadd k1 k1) k1).
Local Infix "+" := kadd. Local Infix "*" := kmul. Local Infix "-" := ksub. Local Infix "/" := kdiv. Local Notation "- x" := (kopp x).
Lemma opp1_nz : - k1 <> 0. Proof. intros E. apply (F_1_neq_0 FT). transitivity (- - k1); [ring|rewrite E; ring]. Qed.
Lemma opp1_sq : - k1 * - k1 = 1. Proof. ring. Qed.
Local Notation on := (on kadd kmul).
Local Notation padd := (padd k1 kadd kmul ksub kopp kdiv keq).
Local Notation popp := (popp kopp).
Local Notation pmul_nat := (pmul_nat k1 kadd kmul ksub kopp kdiv keq).
Local Notation "5" := (2 + 3).
Context (n2 : 2 <> 0) (n3 : 3 <> 0) (n5 : 5 <> 0) (im s : K) (Hi : im * im = - k1) (Hs : s * s = 3 * 5).
Definition x4A : K := - ((5 * (2 * 3) + 2 * 2) / (3 * 5)).
Definition x4y1 : K := 2 * im * s / (3 * 5).
Definition x4y2 : K := 2 * 2 * s / 5.
Definition x4P : pt K := Some (1, x4y1).
Definition x4Q : pt K := Some (3, x4y2).
Local Notation A := x4A. Local Notation P := x4P. Local Notation Q := x4Q.
Lemma n_mul x y : x <> 0 -> y <> 0 -> x * y <> 0. Proof. exact (mulr_nz FT keq_ok x y). Qed.
Fixpoint kp (x : K) (n : nat) : K := match n with O => 1 | S m => x * kp x m end.
Lemma kp_nz x n : x <> 0 -> kp x n <> 0. Proof. intros N. induction n; cbn; [exact (F_1_neq_0 FT)|apply n_mul; assumption]. Qed.
Lemma n_abc a b c d : d = kp 2 a * (kp 3 b * kp 5 c) -> d <> 0. Proof. intros ->. apply n_mul; [|apply n_mul]; apply kp_nz; assumption. Qed.
(** side conditions: numbers whose only prime factors are 2, 3 and 5 *)
Ltac tryabc a b c := apply (n_abc a b c); cbn [kp]; ring.
Ltac nz1 := first [assumption | tryabc 0%nat 0%nat 0%nat | tryabc 0%nat 1%nat 1%nat | tryabc 1%nat 0%nat 0%nat | tryabc 0%nat 1%nat 0%nat | tryabc 0%nat 0%nat 1%nat | tryabc 2%nat 0%nat 0%nat | tryabc 1%nat 1%nat 0%nat | tryabc 0%nat 2%nat 0%nat
  | tryabc 1%nat 0%nat 1%nat | tryabc 2%nat 1%nat 0%nat | tryabc 1%nat 2%nat 0%nat | tryabc 2%nat 0%nat 1%nat | tryabc 1%nat 1%nat 1%nat | tryabc 2%nat 1%nat 1%nat | tryabc 3%nat 0%nat 0%nat | tryabc 3%nat 1%nat 0%nat | tryabc 0%nat 2%nat 1%nat | tryabc 2%nat 2%nat 0%nat | tryabc 0%nat 3%nat 0%nat | tryabc 1%nat 2%nat 1%nat | tryabc 2%nat 2%nat 1%nat | tryabc 0%nat 0%nat 2%nat | tryabc 0%nat 2%nat 2%nat | tryabc 6%nat 0%nat 0%nat].
Ltac nz := repeat split; nz1.
Ltac ff := unfold x4A, x4y1, x4y2; field [Hi Hs]; nz.
Lemma x4_onP : on A P. Proof. cbn [S_Curve.on x4P]. ff. Qed.
Lemma x4_onQ : on A Q. Proof. cbn [S_Curve.on x4Q]. ff. Qed.
Lemma x4_smooth : A * A <> 2 + 2.
Proof. intros E. assert (Z : 2 * 2 * (2 * 2) * (2 * 2) * (2 * 2) <> 0) by (apply (n_abc 8 0 0); cbn [kp]; ring). apply Z. transitivity ((A * A - (2 + 2)) * (3 * 5 * (3 * 5))); [unfold x4A; field; nz|rewrite E; ring]. Qed.
Lemma s_nz : s <> 0. Proof. intros E. apply (n_abc 0 1 1 (3 * 5)); [cbn [kp]; ring|]. rewrite <- Hs, E. ring. Qed.
Lemma i_nz : im <> 0. Proof. intros E. apply (F_1_neq_0 FT). transitivity (- (im * im)); [rewrite Hi|rewrite E]; ring. Qed.
Lemma y1_nz : x4y1 <> 0.
Proof. intros E. apply (n_mul (2 * im) s); [apply n_mul; [exact n2|exact i_nz]|exact s_nz|]. transitivity (x4y1 * (3 * 5)); [unfold x4y1; field; nz|rewrite E; ring]. Qed.
Lemma y2_nz : x4y2 <> 0.
Proof. intros E. apply (n_mul (2 * 2) s); [nz1|exact s_nz|]. transitivity (x4y2 * 5); [unfold x4y2; field; nz|rewrite E; ring]. Qed.
Lemma k_t x : keq x x = true. Proof. apply keq_ok. reflexivity. Qed.
Lemma k_f x y : x <> y -> keq x y = false. Proof. exact (keq_false keq_ok x y). Qed.
Lemma dbl_nz y : y <> 0 -> y <> - y. Proof. intros N E. apply (n_mul 2 y n2 N). transitivity (y + y); [ring|]. rewrite E at 1. ring. Qed.
Lemma div_eq' a b c : b <> 0 -> a = c * b -> a / b = c. Proof. intros N ->. field. exact N. Qed.
Lemma tan_P : (3 * (1 * 1) + 2 * (A * 1) + 1) / (2 * x4y1) = x4y1.
Proof. apply div_eq'; [apply n_mul; [exact n2|exact y1_nz]|]. ff. Qed.
Lemma tan_Q : (3 * (3 * 3) + 2 * (A * 3) + 1) / (2 * x4y2) = 3 / (2 * 2) * x4y2.
Proof. apply div_eq'; [apply n_mul; [exact n2|exact y2_nz]|]. ff. Qed.
Lemma x4_2P : padd A P P = Some (0, 0).
Proof.
  unfold x4P. cbn [S_Curve.padd]. rewrite k_t, (k_f _ _ (dbl_nz _ y1_nz)), tan_P. unfold chord.
  assert (E : x4y1 * x4y1 - A - 1 - 1 = 0) by ff. rewrite E. do 2 f_equal. ring.
Qed.
Lemma x4_2Q : padd A Q Q = Some (5 / 3, 0).
Proof.
  unfold x4Q. cbn [S_Curve.padd]. rewrite k_t, (k_f _ _ (dbl_nz _ y2_nz)), tan_Q. unfold chord.
  assert (E : 3 / (2 * 2) * x4y2 * (3 / (2 * 2) * x4y2) - A - 3 - 3 = 5 / 3) by ff. rewrite E. do 2 f_equal. field. nz.
Qed.
Lemma n31 : 3 <> 1. Proof. intros E. apply n2. transitivity (3 - 1); [ring|rewrite E; ring]. Qed.
Lemma n30 : 3 <> 0. Proof. exact n3. Qed.
Lemma n53_1 : 5 / 3 <> 1. Proof. intros E. apply n2. transitivity (5 / 3 * 3 - 3); [field; nz|rewrite E; ring]. Qed.
Lemma n53_0 : 5 / 3 <> 0. Proof. intros E. apply n5. transitivity (5 / 3 * 3); [field; nz|rewrite E; ring]. Qed.
Lemma n53_3 : 5 / 3 <> 3. Proof. intros E. apply (n_abc 2 0 0 (2 * 2)); [cbn [kp]; ring|]. transitivity (3 * 3 - 5 / 3 * 3); [field; nz|rewrite E; ring]. Qed.
Lemma x4_3P : padd A (Some (0, 0)) P = popp P.
Proof.
  unfold x4P. cbn [S_Curve.padd S_Curve.popp]. rewrite k_f by (intros E; exact (F_1_neq_0 FT (eq_sym E))). unfold chord. assert (M : (x4y1 - 0) / (1 - 0) = x4y1) by (field; try (apply (n_abc 0 0 0); cbn [kp]; ring); nz). rewrite M.
  assert (E : x4y1 * x4y1 - A - 0 - 1 = 1) by ff. rewrite E. do 2 f_equal. ring.
Qed.
Lemma x4_3Q : padd A (Some (5 / 3, 0)) Q = popp Q.
Proof.
  unfold x4Q. cbn [S_Curve.padd S_Curve.popp]. rewrite k_f by exact n53_3. unfold chord. assert (M : (x4y2 - 0) / (3 - 5 / 3) = 3 / (2 * 2) * x4y2) by (apply div_eq'; [intros Z; apply n53_3; transitivity (3 - (3 - 5 / 3)); [ring|rewrite Z; ring]|field; nz]). rewrite M.
  assert (E : 3 / (2 * 2) * x4y2 * (3 / (2 * 2) * x4y2) - A - 5 / 3 - 3 = 3) by ff. rewrite E. do 2 f_equal. field. nz.
Qed.
Lemma x4_opp R : on A R -> padd A (popp R) R = None. Proof. intros H. rewrite <- (popp_invol FT R) at 2. apply (padd_opp_r FT keq_ok). apply (on_opp FT). exact H. Qed.
Lemma x4_mP i : pmul_nat A i P = match (i mod 4)%nat with 1%nat => P | 2%nat => Some (0, 0) | 3%nat => popp P | _ => None end.
Proof.
  rewrite (Nat.div_mod_eq i 4) at 1. rewrite (pmul_nat_add FT keq_ok n2 x4_smooth) by exact x4_onP.
  assert (Z : pmul_nat A 4 P = None) by (cbn [S_Curve.pmul_nat]; rewrite padd_0_l, x4_2P, x4_3P; apply x4_opp, x4_onP).
  rewrite Nat.mul_comm. rewrite (pmul_nat_mul FT keq_ok n2 x4_smooth) by exact x4_onP. rewrite Z, (pmul_nat_None). rewrite padd_0_l. pose proof (Nat.mod_upper_bound i 4 ltac:(lia)) as B. destruct (i mod 4)%nat as [|[|[|[|?]]]]; cbn [S_Curve.pmul_nat]; rewrite ?padd_0_l, ?x4_2P, ?x4_3P; try reflexivity. lia.
Qed.
Lemma x4_mQ i : pmul_nat A i Q = match (i mod 4)%nat with 1%nat => Q | 2%nat => Some (5 / 3, 0) | 3%nat => popp Q | _ => None end.
Proof.
  rewrite (Nat.div_mod_eq i 4) at 1. rewrite (pmul_nat_add FT keq_ok n2 x4_smooth) by exact x4_onQ.
  assert (Z : pmul_nat A 4 Q = None) by (cbn [S_Curve.pmul_nat]; rewrite padd_0_l, x4_2Q, x4_3Q; apply x4_opp, x4_onQ).
  rewrite Nat.mul_comm. rewrite (pmul_nat_mul FT keq_ok n2 x4_smooth) by exact x4_onQ. rewrite Z, (pmul_nat_None). rewrite padd_0_l. pose proof (Nat.mod_upper_bound i 4 ltac:(lia)) as B. destruct (i mod 4)%nat as [|[|[|[|?]]]]; cbn [S_Curve.pmul_nat]; rewrite ?padd_0_l, ?x4_2Q, ?x4_3Q; try reflexivity. lia.
Qed.
Lemma x4_indep i j : padd A (pmul_nat A i P) (pmul_nat A j Q) = None -> (i mod 4 = 0)%nat /\ (j mod 4 = 0)%nat.
Proof.
  intros E. pose proof (padd_None FT keq_ok n2 _ _ (pmul_nat_on FT keq_ok n2 i P x4_onP) (pmul_nat_on FT keq_ok n2 j Q x4_onQ) E) as E'. rewrite x4_mP, x4_mQ in E'.
  pose proof (Nat.mod_upper_bound i 4 ltac:(lia)) as B1. pose proof (Nat.mod_upper_bound j 4 ltac:(lia)) as B2.
  assert (X : forall a b c d : K, Some (a, b) = Some (c, d) -> a = c) by (intros a b c d H; injection H; auto).
  destruct (i mod 4)%nat as [|[|[|[|?]]]], (j mod 4)%nat as [|[|[|[|?]]]]; try lia; auto; exfalso; unfold x4P, x4Q in E'; cbn [S_Curve.popp] in E'; try discriminate; apply X in E'; revert E';
  first [exact n31 | exact n53_1 | exact n53_0 | exact n30 | intros E'; symmetry in E'; revert E'; first [exact n31 | exact n53_1 | exact n53_0 | exact n30] ].
Qed.
Local Notation fm := (L_Weil.fm (k1 := k1) (kadd := kadd) (kmul := kmul) (ksub := ksub) (kopp := kopp) (kdiv := kdiv) (keq := keq) (A := x4A)).
Local Notation wp := (L_Weil.wp (k1 := k1) (kadd := kadd) (kmul := kmul) (ksub := ksub) (kopp := kopp) (kdiv := kdiv) (keq := keq) (A := x4A)).
Lemma x4_xPQ k : xdis (pmul_nat A k P) Q.
Proof. rewrite x4_mP. destruct (k mod 4)%nat as [|[|[|[|?]]]]; cbn; auto using n31, n30. Qed.
Lemma x4_xQP k : xdis (pmul_nat A k Q) P.
Proof. rewrite x4_mQ. destruct (k mod 4)%nat as [|[|[|[|?]]]]; cbn; auto; intros E; symmetry in E; revert E; auto using n31, n53_1. Qed.
Lemma zz0 : 0 = - (0). Proof. ring. Qed.
Lemma x4_fPQ : fm P Q 4 = (x4y2 - 3 * x4y1) * (x4y2 - 3 * x4y1) / 3.
Proof.
  change 4%nat with (2 + 2)%nat. rewrite (fm_add FT keq_ok n2 x4_smooth) by first [exact x4_xPQ | exact x4_onP | exact x4_onQ]. rewrite pmul_nat_2, x4_2P. cbn [L_Weil.fm S_Curve.pmul_nat]. rewrite padd_0_l. unfold hv, hh, x4Q. fold x4P. rewrite x4_2P. unfold x4P, line.
  rewrite !k_t, (k_f _ _ (dbl_nz _ y1_nz)), tan_P. unfold S_Curve.padd. rewrite (proj2 (keq_ok 0 (- (0))) zz0), !k_t. field. nz.
Qed.
Lemma x4_fQP : fm Q P 4 = - (3 / 2 * ((x4y1 + x4y2 / 2) * (x4y1 + x4y2 / 2))).
Proof.
  change 4%nat with (2 + 2)%nat. rewrite (fm_add FT keq_ok n2 x4_smooth) by first [exact x4_xQP | exact x4_onP | exact x4_onQ]. rewrite pmul_nat_2, x4_2Q. cbn [L_Weil.fm S_Curve.pmul_nat]. rewrite padd_0_l. unfold hv, hh, x4P. fold x4Q. rewrite x4_2Q. unfold x4Q, line.
  rewrite !k_t, (k_f _ _ (dbl_nz _ y2_nz)), tan_Q. unfold S_Curve.padd. rewrite (proj2 (keq_ok 0 (- (0))) zz0), !k_t. field. repeat split; try nz1. intros E. apply n2. transitivity (- - (2)); [ring|rewrite E; ring].
Qed.
Lemma x4_weil : wp 4 P Q = im.
Proof.
  assert (NF : fm Q P 4 <> 0) by (apply (fm_nz FT keq_ok n2); [exact x4_onQ|exact x4_onP|exact x4_xQP]).
  unfold L_Weil.wp. change (Nat.odd 4) with false. unfold sg. apply div_eq'; [exact NF|]. rewrite x4_fPQ, x4_fQP. ff.
Qed.
Lemma x4_xQ2P k : xdis (pmul_nat A k Q) (Some (0, 0)).
Proof. rewrite x4_mQ. destruct (k mod 4)%nat as [|[|[|[|?]]]]; cbn; auto; intros E; symmetry in E; revert E; auto using n30, n53_0. Qed.
Lemma x4_on2P : on A (Some (0, 0)). Proof. cbn. ring. Qed.
Lemma x4_fQ2P : fm Q (Some (0, 0)) 4 = - (3 * 3).
Proof.
  change 4%nat with (2 + 2)%nat. rewrite (fm_add FT keq_ok n2 x4_smooth) by first [exact x4_xQ2P | exact x4_on2P | exact x4_onQ]. rewrite pmul_nat_2, x4_2Q. cbn [L_Weil.fm S_Curve.pmul_nat]. rewrite padd_0_l. unfold hv, hh. fold x4Q. rewrite x4_2Q. unfold x4Q, line.
  rewrite !k_t, (k_f _ _ (dbl_nz _ y2_nz)), tan_Q. unfold S_Curve.padd. rewrite (proj2 (keq_ok 0 (- (0))) zz0), !k_t. unfold x4y2. field [Hs]. repeat split; try nz1. intros E. apply n5. transitivity (- - (1 + 2 * 2)); [ring|rewrite E; ring].
Qed.
Lemma x4_m3_4 : let m3 := (3 - 0) * (3 - 0) * 3 / - (3 * 3) in m3 <> 0 /\ m3 * m3 * (m3 * m3) <> 1.
Proof.
  intros m3. assert (N9 : - (3 * 3) <> 0) by (intros E; apply (n_abc 0 2 0 (3 * 3)); [cbn [kp]; ring|]; transitivity (- - (3 * 3)); [ring|rewrite E; ring]).
  assert (M : m3 = - (3)) by (unfold m3; apply div_eq'; [exact N9|ring]). rewrite M. split.
  - intros E. apply n3. transitivity (- - (3)); [ring|rewrite E; ring].
  - intros E. apply (n_abc 4 0 1 (2 * 2 * (2 * 2) * 5)); [cbn [kp]; ring|]. transitivity (- (3) * - (3) * (- (3) * - (3)) - 1); [ring|rewrite E; ring].
Qed.
End N4.
