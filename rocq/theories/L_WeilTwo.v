(** The pairing of L_Weil on the 2^e-torsion: a basis has a pairing of order exactly 2^e. *)
From Coq Require Import ZArith Znumtheory List Bool Ring Field Lia Arith.
From Verif Require Import S_Curve L_Group L_Kummer L_Weil L_Weil2.

Section Weil.
Context {K : Type} {k0 k1 : K} {kadd kmul ksub : K -> K -> K} {kopp : K -> K} {kdiv : K -> K -> K} {kinv : K -> K} {keq : K -> K -> bool}.
Context (FT : field_theory k0 k1 kadd kmul ksub kopp kdiv kinv (@eq K)).
Context (keq_ok : forall x y, keq x y = true <-> x = y).
Context (two_nz : kadd k1 k1 <> k0).
Context {A : K}.
Context (smooth : kmul A A <> kadd (kadd k1 k1) (kadd k1 k1)).
Add Field Kfield : FT.
Local Notation "0" := k0. Local Notation "1" := k1.
Local Notation "2" := (kadd k1 k1). Local Notation "3" := (kadd (kadd k1 k1) k1).
Local Infix "+" := kadd. Local Infix "*" := kmul. Local Infix "-" := ksub. Local Infix "/" := kdiv. Local Notation "- x" := (kopp x).
Local Notation on := (on kadd kmul A).
Local Notation padd := (padd k1 kadd kmul ksub kopp kdiv keq A).
Local Notation popp := (popp kopp).
Local Notation slope := (slope (k1 := k1) (kadd := kadd) (kmul := kmul) (ksub := ksub) (A := A)).
Local Notation pmul_nat := (pmul_nat k1 kadd kmul ksub kopp kdiv keq A).
Local Notation hv := (hv (k1 := k1) (kadd := kadd) (kmul := kmul) (ksub := ksub) (kopp := kopp) (kdiv := kdiv) (keq := keq) (A := A)).
Local Notation fm := (fm (k1 := k1) (kadd := kadd) (kmul := kmul) (ksub := ksub) (kopp := kopp) (kdiv := kdiv) (keq := keq) (A := A)).
Local Notation wp := (wp (k1 := k1) (kadd := kadd) (kmul := kmul) (ksub := ksub) (kopp := kopp) (kdiv := kdiv) (keq := keq) (A := A)).
Local Notation ee := (ee (k1 := k1) (kadd := kadd) (kmul := kmul) (ksub := ksub) (kopp := kopp) (kdiv := kdiv) (keq := keq) (A := A)).
Local Notation pz := (pz (k1 := k1) (kadd := kadd) (kmul := kmul) (ksub := ksub) (kopp := kopp) (kdiv := kdiv) (keq := keq) (A := A)).
Local Notation pw := (pw (k1 := k1) (kmul := kmul)).
Local Notation sg := (sg (k1 := k1) (kopp := kopp)).
Local Notation nsub := (nsub FT).
Local Notation nmul := (nmul FT keq_ok).
Local Notation Padd_on := (padd_on FT keq_ok two_nz).
Local Notation Mon := (pmul_nat_on FT keq_ok two_nz).
Lemma opp_0 : - 0 = 0. Proof. ring. Qed.
Lemma self_opp y : y = - y -> y = 0.
Proof. intros H. assert (Z : 2 * y = 0) by (transitivity (y - - y); [ring|rewrite <- H; ring]). apply (mul0 FT keq_ok) in Z. destruct Z; [contradiction|assumption]. Qed.
Lemma pw_add x i j : pw x (i + j) = pw x i * pw x j. Proof. induction j; [rewrite Nat.add_0_r; cbn; ring|rewrite Nat.add_succ_r; cbn [L_Weil.pw]; rewrite IHj; ring]. Qed.
(** the tangent at a point evaluated at a point of order two *)
Lemma tangent_two x y a x' y' : on (Some (x, y)) -> on (Some (a, 0)) -> x <> a -> padd (Some (x, y)) (Some (x, y)) = Some (x', y') -> x' <> a ->
  exists s, s * s = x' - a /\ s <> 0 /\ hv (Some (x, y)) (Some (x, y)) (Some (a, 0)) * s = - (x - a).
Proof.
  intros HS HT N E N'. assert (NO : ~ (x = x /\ y = - y)).
  { intros [_ C]. rewrite C in E at 2. rewrite (L_Group.padd_opp_r FT keq_ok (Some (x, y)) HS : padd (Some (x, y)) (Some (x, - y)) = None) in E. discriminate E. }
  destruct (fin_sum FT keq_ok two_nz _ _ _ _ HS HS NO) as (m & xs & ys & SL & Exs & Eys & E' & _). rewrite E in E'. injection E' as <- <-.
  destruct (hh_fin FT keq_ok two_nz _ _ _ _ m x' y' a 0 HS HS NO SL Exs Eys) as [HH _]. unfold L_Weil.hv. rewrite HH. clear HH.
  assert (U : x - a <> 0) by (apply nsub; exact N). assert (U' : x' - a <> 0) by (apply nsub; exact N').
  assert (M : 2 * y * m = 3 * (x * x) + 2 * (A * x) + 1) by (destruct SL as [_ SL]; transitivity (m * (y + y)); [ring|rewrite SL; ring]).
  assert (HS' : y * y = x * (x * x) + A * (x * x) + x) by exact HS. assert (HT' : a * (a * a) + A * (a * a) + a = 0) by (symmetry; transitivity (0 * 0); [ring|exact HT]).
  assert (Q : (m * (x - a) - y) * (m * (x - a) - y) = (x - a) * (x - a) * (x' - a)).
  { assert (Z : (m * (x - a) - y) * (m * (x - a) - y) - (x - a) * (x - a) * (x' - a) = a * (a * a) + A * (a * a) + a).
    { rewrite Exs. transitivity (y * y - (x - a) * (2 * y * m) + (x - a) * (x - a) * (A + x + x + a)); [ring|]. rewrite M, HS'. ring. }
    rewrite HT' in Z. exact (sub_eq FT _ _ Z). }
  set (s := (m * (x - a) - y) / (x - a)). assert (SS : s * s = x' - a). { unfold s. transitivity ((m * (x - a) - y) * (m * (x - a) - y) / ((x - a) * (x - a))); [field; exact U|]. rewrite Q. field. exact U. }
  exists s. split; [exact SS|]. split; [intros C; apply U'; rewrite <- SS, C; ring|].
  assert (U2 : a - x' <> 0) by (intros C; apply U'; transitivity (- (a - x')); [ring|rewrite C; ring]).
  rewrite Eys. transitivity ((m * (x - a) - y) * (m * (x - a) - y) / ((a - x') * (x - a))); [unfold s; field; split; [exact U|exact U2]|]. rewrite Q. field. split; [exact U|exact U2].
Qed.
(** Miller function of a point of order two *)
Lemma fm_two a Q k : on (Some (a, 0)) -> pmul_nat (2 * k) (Some (a, 0)) = None /\ fm (Some (a, 0)) Q (2 * k) = pw (match Q with None => 1 | Some (x, _) => x - a end) k.
Proof.
  intros HT. assert (DT : padd (Some (a, 0)) (Some (a, 0)) = None) by (rewrite <- opp_0 at 2; exact (L_Group.padd_opp_r FT keq_ok (Some (a, 0)) HT)).
  assert (HD : hv (Some (a, 0)) (Some (a, 0)) Q = match Q with None => 1 | Some (x, _) => x - a end).
  { destruct Q as [[x y]|]; [|reflexivity]. cbn [L_Weil.hv]. rewrite <- opp_0 at 2. apply (hh_opp FT keq_ok). }
  induction k as [|k [IH1 IH2]]; [split; reflexivity|]. replace (2 * S k)%nat with (S (S (2 * k))) by lia. rewrite !pmul_nat_S, IH1. split; [exact DT|]. cbn [L_Weil.fm L_Weil.pw]. rewrite pmul_nat_S, IH1, IH2. cbn [S_Curve.padd]. rewrite HD, (hv_N1 (k1 := k1)). ring.
Qed.
(** a point Q of order exactly 2^e, e > 1, and a point (a, 0) of order two outside its multiples *)
Section Two.
Context (a : K) (HT : on (Some (a, 0))) (Q : pt K) (HQ : on Q) (e : nat).
Context (OQ : pmul_nat (2 ^ S e) Q = None) (XQ : forall k, (0 < k < 2 ^ S e)%nat -> pmul_nat k Q <> None) (D : forall k, xdis (pmul_nat k Q) (Some (a, 0))).
Local Notation T := (Some (a, 0)).
Local Notation u0 := (match Q with None => 1 | Some (x, _) => x - a end).
Lemma pow2_dbl i : (2 ^ S i = 2 ^ i + 2 ^ i)%nat. Proof. cbn [Nat.pow]. lia. Qed.
Lemma pow2_pos i : (0 < 2 ^ i)%nat. Proof. induction i; cbn [Nat.pow]; lia. Qed.
Lemma pow2_lt i j : (i < j)%nat -> (2 ^ i < 2 ^ j)%nat. Proof. intros H. apply Nat.pow_lt_mono_r; lia. Qed.
Lemma fm_step i : fm Q T (2 ^ S i) = fm Q T (2 ^ i) * fm Q T (2 ^ i) * hv (pmul_nat (2 ^ i) Q) (pmul_nat (2 ^ i) Q) T.
Proof. rewrite pow2_dbl. apply (fm_add FT keq_ok two_nz smooth); [exact HQ|exact HT|exact D]. Qed.
Lemma fm_inv i : (S i <= e)%nat -> exists s x y, pmul_nat (2 ^ S i) Q = Some (x, y) /\ s * s = x - a /\ fm Q T (2 ^ S i) * s = - pw u0 (2 ^ i).
Proof.
  intros Hi. assert (ST : forall j, (j <= e)%nat -> exists x y, pmul_nat (2 ^ j) Q = Some (x, y) /\ on (Some (x, y)) /\ x <> a).
  { intros j Hj. pose proof (XQ (2 ^ j) (conj (pow2_pos j) (pow2_lt j (S e) ltac:(lia)))) as NN. pose proof (Mon (2 ^ j) Q HQ) as ON. pose proof (D (2 ^ j)) as DD. destruct (pmul_nat (2 ^ j) Q) as [[x y]|]; [|congruence]. exists x, y. split; [reflexivity|]. split; [exact ON|]. intros C. apply DD. symmetry. exact C. }
  assert (DB : forall j, (S j <= e)%nat -> exists s x y x' y', pmul_nat (2 ^ j) Q = Some (x, y) /\ pmul_nat (2 ^ S j) Q = Some (x', y') /\ s * s = x' - a /\ s <> 0 /\ hv (pmul_nat (2 ^ j) Q) (pmul_nat (2 ^ j) Q) T * s = - (x - a)).
  { intros j Hj. destruct (ST j ltac:(lia)) as (x & y & E & O & N). destruct (ST (S j) Hj) as (x' & y' & E' & O' & N'). pose proof E' as E2. rewrite pow2_dbl, (pmul_nat_add FT keq_ok two_nz smooth), E in E2 by exact HQ.
    destruct (tangent_two x y a x' y' O HT N E2 N') as (s & S1 & S2 & S3). exists s, x, y, x', y'. rewrite E. auto. }
  induction i as [|i IH].
  - destruct (DB 0%nat Hi) as (s & x & y & x' & y' & E & E' & S1 & S2 & S3). exists s, x', y'. split; [exact E'|]. split; [exact S1|]. rewrite fm_step.
    assert (EQ : Q = Some (x, y)) by exact E. assert (F1 : fm Q T (2 ^ 0) = 1) by (change (2 ^ 0)%nat with 1%nat; cbn [L_Weil.fm S_Curve.pmul_nat]; rewrite hv_N1; ring).
    rewrite F1. transitivity (hv (pmul_nat (2 ^ 0) Q) (pmul_nat (2 ^ 0) Q) T * s); [ring|]. rewrite S3, EQ. change (2 ^ 0)%nat with 1%nat. cbn [L_Weil.pw]. ring.
  - destruct (IH ltac:(lia)) as (s & x & y & E & S1 & F). destruct (DB (S i) Hi) as (s' & x1 & y1 & x' & y' & E1 & E' & S1' & S2' & S3'). exists s', x', y'. split; [exact E'|]. split; [exact S1'|].
    rewrite E in E1. injection E1 as <- _. rewrite fm_step. transitivity (fm Q T (2 ^ S i) * fm Q T (2 ^ S i) * (hv (pmul_nat (2 ^ S i) Q) (pmul_nat (2 ^ S i) Q) T * s')); [ring|]. rewrite S3', <- S1.
    transitivity (- ((fm Q T (2 ^ S i) * s) * (fm Q T (2 ^ S i) * s))); [ring|]. rewrite F, pow2_dbl, pw_add. ring.
Qed.
Lemma two_value : (0 < e)%nat -> wp (2 ^ S e) T Q = - (1).
Proof.
  intros He. assert (EI : exists i, e = S i) by (exists (pred e); lia). destruct EI as [i Ei]. destruct (fm_inv i ltac:(lia)) as (s & x & y & E & S1 & F).
  assert (L : fm Q T (2 ^ S e) = - pw u0 (2 ^ e)).
  { rewrite fm_step. replace (2 ^ e)%nat with (2 ^ S i)%nat by (rewrite Ei; reflexivity). rewrite E. assert (OS : on (Some (x, y))) by (rewrite <- E; apply Mon, HQ).
    assert (DS : padd (Some (x, y)) (Some (x, y)) = None) by (rewrite <- E, <- (pmul_nat_add FT keq_ok two_nz smooth), <- pow2_dbl by exact HQ; replace (2 ^ S (S i))%nat with (2 ^ S e)%nat by (rewrite Ei; reflexivity); exact OQ).
    assert (Y0 : y = 0).
    { destruct (keq y (- y)) eqn:Ky; [apply self_opp, keq_ok, Ky|]. assert (NO : ~ (x = x /\ y = - y)) by (intros [_ C]; apply keq_ok in C; congruence). destruct (fin_sum FT keq_ok two_nz _ _ _ _ OS OS NO) as (m & xs & ys & _ & _ & _ & C & _). rewrite DS in C. discriminate C. }
    subst y. assert (HV : hv (Some (x, 0)) (Some (x, 0)) T = a - x) by (cbn [L_Weil.hv]; rewrite <- opp_0 at 2; apply (hh_opp FT keq_ok)). rewrite HV. transitivity (- (fm Q T (2 ^ S i) * fm Q T (2 ^ S i) * (x - a))); [ring|]. rewrite <- S1.
    transitivity (- ((fm Q T (2 ^ S i) * s) * (fm Q T (2 ^ S i) * s))); [ring|]. rewrite F, pow2_dbl, pw_add. ring. }
  assert (NQ : u0 <> 0).
  { pose proof (D 1%nat) as D1. rewrite pmul_nat_1 in D1. assert (NN : Q <> None) by (pose proof (XQ 1%nat) as X1; rewrite pmul_nat_1 in X1; apply X1; pose proof (pow2_lt 0 (S e) ltac:(lia)) as B; change (2 ^ 0)%nat with 1%nat in B; lia). destruct Q as [[x0 y0]|]; [|congruence]. apply nsub. intros C. apply D1. symmetry. exact C. }
  unfold L_Weil.wp. rewrite L. replace (2 ^ S e)%nat with (2 * 2 ^ e)%nat by (cbn [Nat.pow]; lia). rewrite (proj2 (fm_two a Q (2 ^ e) HT)). replace (Nat.odd (2 * 2 ^ e)) with false by (rewrite Nat.odd_mul; reflexivity). cbn [L_Weil.sg].
  pose proof (pw_nz FT keq_ok u0 (2 ^ e) NQ) as NZ. revert NZ. generalize (pw u0 (2 ^ e)). intros z NZ. assert (NZ' : - z <> 0) by (intros C; apply NZ; transitivity (- - z); [ring|rewrite C; ring]). field. exact NZ'.
Qed.
End Two.
(** ** A basis of the 2^e-torsion *)
Section Basis2.
Context (P Q : pt K) (HP : on P) (HQ : on Q) (e : nat) (He : (0 < e)%nat).
Local Notation n := (2 ^ Z.of_nat (S e))%Z.
Context (OP : pmul_nat (Z.to_nat n) P = None) (OQ : pmul_nat (Z.to_nat n) Q = None).
Context (indep : forall i j : nat, padd (pmul_nat i P) (pmul_nat j Q) = None -> (n | Z.of_nat i)%Z /\ (n | Z.of_nat j)%Z).
Local Open Scope Z_scope.
Lemma n_nat : Z.to_nat n = (2 ^ S e)%nat. Proof. rewrite <- (Nat2Z.id (2 ^ S e)). f_equal. rewrite Nat2Z.inj_pow. reflexivity. Qed.
Lemma n_big : 3 < n. Proof. replace (Z.of_nat (S e)) with (2 + Z.of_nat (e - 1)) by lia. rewrite Z.pow_add_r by lia. pose proof (Z.pow_pos_nonneg 2 (Z.of_nat (e - 1)) ltac:(lia) ltac:(lia)). change (2 ^ 2) with 4. lia. Qed.
Local Notation h := (2 ^ e)%nat.
Lemma h_lt : Z.of_nat h < n. Proof. rewrite Nat2Z.inj_pow. apply Z.pow_lt_mono_r; lia. Qed.
Lemma h_pos : (0 < h)%nat. Proof. apply pow2_pos. Qed.
Theorem basis_two : pw (wp (Z.to_nat n) P Q) h = kopp k1.
Proof.
  pose proof n_big as Hn. pose proof h_lt as Hh. pose proof h_pos as Hp.
  assert (T0 : ee P Q n (Z.of_nat h * 1) (Z.of_nat h * 0) 0 1 = pw (ee P Q n 1 0 0 1) h) by (apply (ee_lin FT keq_ok two_nz smooth P Q HP HQ n Hn OP OQ indep 1 0 0 1 1 h); [apply (unim_0 n)|reflexivity|left; reflexivity|exact Hp|exact Hh]).
  assert (P01 : pz P Q n 0 1 = Q) by (apply pz_0_1; assumption). assert (P10 : pz P Q n 1 0 = P) by (apply pz_1_0; assumption). assert (E10 : ee P Q n 1 0 0 1 = wp (Z.to_nat n) P Q) by (unfold L_Weil.ee; rewrite P10, P01; reflexivity).
  assert (PH : pz P Q n (Z.of_nat h * 1) (Z.of_nat h * 0) = pmul_nat h P).
  { replace (Z.of_nat h * 0) with (Z.of_nat 0) by lia. rewrite Z.mul_1_r, (pz_nat FT keq_ok two_nz smooth P Q HP HQ n Hn OP OQ). cbn [S_Curve.pmul_nat]. destruct (pmul_nat h P) as [[]|]; reflexivity. }
  assert (EH : ee P Q n (Z.of_nat h * 1) (Z.of_nat h * 0) 0 1 = wp (Z.to_nat n) (pmul_nat h P) Q) by (unfold L_Weil.ee; rewrite PH, P01; reflexivity).
  rewrite <- E10, <- T0, EH. assert (OT : on (pmul_nat h P)) by (apply Mon, HP).
  assert (D : forall k, xdis (pmul_nat k Q) (pmul_nat h P)).
  { intros k. rewrite <- P01 at 1. rewrite <- PH. apply (xdis_mul' FT keq_ok two_nz smooth P Q HP HQ n Hn OP OQ indep). unfold L_Weil.dt. intros C. apply Z.divide_pos_le in C; lia. }
  assert (DT : padd (pmul_nat h P) (pmul_nat h P) = None) by (rewrite <- (pmul_nat_add FT keq_ok two_nz smooth), <- pow2_dbl, <- n_nat by exact HP; exact OP).
  assert (NT : pmul_nat h P <> None). { intros C. destruct (indep h 0) as [Dv _]; [rewrite C; reflexivity|]. apply Z.divide_pos_le in Dv; lia. }
  destruct (pmul_nat h P) as [[a b]|]; [|congruence].
  assert (B0 : b = k0).
  { destruct (keq b (kopp b)) eqn:Ky; [apply self_opp, keq_ok, Ky|]. assert (NO : ~ (a = a /\ b = kopp b)) by (intros [_ C]; apply keq_ok in C; congruence). destruct (fin_sum FT keq_ok two_nz _ _ _ _ OT OT NO) as (m & xs & ys & _ & _ & _ & C & _). rewrite DT in C. discriminate C. }
  subst b. rewrite n_nat. apply two_value; try assumption; [rewrite <- n_nat; exact OQ|]. intros k Hk C. destruct (indep 0%nat k) as [_ Dv]; [exact C|]. apply Z.divide_pos_le in Dv; [|lia]. assert (Z.of_nat k < n); [|lia]. destruct Hk as [_ Hk]. apply Nat2Z.inj_lt in Hk. rewrite Nat2Z.inj_pow in Hk. exact Hk.
Qed.
End Basis2.

End Weil.
