(** The Kummer surface of S_KummerSurf.v: it is kept by the (2,2)-isogeny, the Hadamard transform and doubling, and doubling commutes with them. *)
From Coq Require Import Arith Ring Field Lia.
From Verif Require Import S_Theta S_KummerSurf L_KummerSurf.
Section K.
Context {K : Type} {k0 k1 : K} {kadd kmul ksub : K -> K -> K} {kopp : K -> K} {kdiv : K -> K -> K} {kinv : K -> K}.
Context (FT : field_theory k0 k1 kadd kmul ksub kopp kdiv kinv (@eq K)) (two_nz : kadd k1 k1 <> k0).
Add Field Kf : FT.
Local Notation "0" := k0. Local Notation "1" := k1.
Local Infix "+" := kadd. Local Infix "*" := kmul. Local Infix "-" := ksub. Local Infix "/" := kdiv. Local Notation "- x" := (kopp x).
Local Notation "2" := (1+1). Local Notation "4" := (2+2).
Local Notation dual := (dual kadd kopp). Local Notation sqdual := (sqdual kadd kmul kopp). Local Notation theta_dbl := (theta_dbl kadd kmul kopp kdiv).
Local Notation on_kummer := (on_kummer k0 k1 kadd kmul ksub). Local Notation generic_null := (generic_null k0 kadd kmul kopp). Local Notation same_point := (same_point k0 kmul). Local Notation level22 := (level22 kadd kmul kopp).
Local Notation gen := (@gen K k0 kadd kmul ksub). Local Notation qr := (@qr K kadd kmul ksub kdiv).
Local Notation hd0 := (@hd0 K kadd). Local Notation hd1 := (@hd1 K kadd ksub). Local Notation hd2 := (@hd2 K kadd ksub). Local Notation hd3 := (@hd3 K kadd ksub).
Local Notation Fk := (@Fk K kadd kmul ksub kdiv). Local Notation Gk := (@Gk K kadd kmul ksub kdiv).
Ltac four i H := destruct i as [|[|[|[|i]]]]; [| | | |exfalso; lia]; clear H.
Lemma dual_hd x : dual x 0%nat = hd0 (x 0%nat) (x 1%nat) (x 2%nat) (x 3%nat) /\ dual x 1%nat = hd1 (x 0%nat) (x 1%nat) (x 2%nat) (x 3%nat) /\
  dual x 2%nat = hd2 (x 0%nat) (x 1%nat) (x 2%nat) (x 3%nat) /\ dual x 3%nat = hd3 (x 0%nat) (x 1%nat) (x 2%nat) (x 3%nat).
Proof. unfold S_Theta.dual, sum4, sgn, L_KummerSurf.hd0, L_KummerSurf.hd1, L_KummerSurf.hd2, L_KummerSurf.hd3. cbn. repeat split; ring. Qed.
Lemma sqdual_hd x : let s i := x i * x i in sqdual x 0%nat = hd0 (s 0%nat) (s 1%nat) (s 2%nat) (s 3%nat) /\ sqdual x 1%nat = hd1 (s 0%nat) (s 1%nat) (s 2%nat) (s 3%nat) /\
  sqdual x 2%nat = hd2 (s 0%nat) (s 1%nat) (s 2%nat) (s 3%nat) /\ sqdual x 3%nat = hd3 (s 0%nat) (s 1%nat) (s 2%nat) (s 3%nat).
Proof. intros s. exact (dual_hd s). Qed.
Lemma nz_of x y : x = y -> x <> 0 -> y <> 0. Proof. intros ->. auto. Qed.
Lemma nz2 x y : x = 2 * y -> x <> 0 -> y <> 0. Proof. intros -> H. exact (mul_nz_r FT _ _ H). Qed.
Lemma nz2' x y : x = 2 * y -> y <> 0 -> x <> 0. Proof. intros -> H. exact (mul_nz FT _ _ two_nz H). Qed.
Lemma generic_gen a : generic_null a <-> gen (a 0%nat) (a 1%nat) (a 2%nat) (a 3%nat).
Proof.
  destruct (sqdual_hd a) as (Q0 & Q1 & Q2 & Q3). cbv zeta in *.
  assert (V0 : forall chi, level22 a chi 0 = sqdual a chi) by (intros chi; unfold S_Theta.level22, S_Theta.sqdual, S_Theta.dual, sum4; cbn; reflexivity).
  assert (V1 : level22 a 0 1 = 2 * (a 0%nat * a 1%nat + a 2%nat * a 3%nat)) by (unfold S_Theta.level22, sum4, sgn; cbn; ring).
  assert (V2 : level22 a 0 2 = 2 * (a 0%nat * a 2%nat + a 1%nat * a 3%nat)) by (unfold S_Theta.level22, sum4, sgn; cbn; ring).
  assert (V3 : level22 a 0 3 = 2 * (a 0%nat * a 3%nat + a 1%nat * a 2%nat)) by (unfold S_Theta.level22, sum4, sgn; cbn; ring).
  assert (V4 : level22 a 2 1 = 2 * (a 0%nat * a 1%nat - a 2%nat * a 3%nat)) by (unfold S_Theta.level22, sum4, sgn; cbn; ring).
  assert (V5 : level22 a 1 2 = 2 * (a 0%nat * a 2%nat - a 1%nat * a 3%nat)) by (unfold S_Theta.level22, sum4, sgn; cbn; ring).
  assert (V6 : level22 a 3 3 = 2 * (a 0%nat * a 3%nat - a 1%nat * a 2%nat)) by (unfold S_Theta.level22, sum4, sgn; cbn; ring).
  split.
  - intros [N H]. assert (HE : forall chi i, (chi < 4)%nat -> (i < 4)%nat -> dot chi i = false -> level22 a chi i <> 0) by (intros chi i H1 H2 H3; apply H; repeat split; assumption).
    split; [repeat split; apply N; lia|]. split; [|split].
    + split; [|split; [|split]]; [apply (nz_of _ _ Q0)|apply (nz_of _ _ Q1)|apply (nz_of _ _ Q2)|apply (nz_of _ _ Q3)]; rewrite <- V0; apply HE; reflexivity || lia.
    + split; [|split]; [apply (nz2 _ _ V1)|apply (nz2 _ _ V2)|apply (nz2 _ _ V3)]; apply HE; reflexivity || lia.
    + split; [|split]; [apply (nz2 _ _ V4)|apply (nz2 _ _ V5)|apply (nz2 _ _ V6)]; apply HE; reflexivity || lia.
  - intros ((N0 & N1 & N2 & N3) & (U0 & U1 & U2 & U3) & (P1 & P2 & P3) & M1 & M2 & M3). split.
    + intros i Hi. four i Hi; assumption.
    + intros chi i (H1 & H2 & H3). rewrite <- Q0 in U0. rewrite <- Q1 in U1. rewrite <- Q2 in U2. rewrite <- Q3 in U3. rewrite <- V0 in U0, U1, U2, U3.
      four chi H1; four i H2; try discriminate H3; first [assumption|apply (nz2' _ _ V1); assumption|apply (nz2' _ _ V2); assumption|apply (nz2' _ _ V3); assumption|apply (nz2' _ _ V4); assumption|apply (nz2' _ _ V5); assumption|apply (nz2' _ _ V6); assumption].
Qed.
Lemma div_eq x y z : y <> 0 -> x * y = z -> x = z / y. Proof. intros Hy H. rewrite <- H. field. exact Hy. Qed.
Lemma half x y : 2 * x = 2 * y -> x = y. Proof. intros H. transitivity (2 * x / 2); [field; exact two_nz|rewrite H; field; exact two_nz]. Qed.
Lemma onk_qr a x : gen (a 0%nat) (a 1%nat) (a 2%nat) (a 3%nat) -> (on_kummer a x <-> qr (a 0%nat) (a 1%nat) (a 2%nat) (a 3%nat) (x 0%nat) (x 1%nat) (x 2%nat) (x 3%nat) = 0).
Proof.
  intros G. pose proof (gen_dist FT _ _ _ _ G) as (D1 & D2 & D3). destruct G as ((Na & Nb & Nc & Nd) & _).
  unfold S_KummerSurf.on_kummer, quartic, half_partial, pow4, sum4.
  set (p := a 0%nat) in *. set (q := a 1%nat) in *. set (r := a 2%nat) in *. set (s := a 3%nat) in *. split.
  - intros (E & F1 & F2 & F3 & HP & HQ). pose proof (HP 0%nat ltac:(lia)) as H0. pose proof (HP 1%nat ltac:(lia)) as H1. pose proof (HP 2%nat ltac:(lia)) as H2. pose proof (HP 3%nat ltac:(lia)) as H3. clear HP.
    cbn in H0, H1, H2, H3. fold p q r s in H0, H1, H2, H3. clearbody p q r s.
    set (z0 := 2 * (p * (p * p)) + _ - _) in H0. set (z1 := 2 * (q * (q * q)) + _ - _) in H1. set (z2 := 2 * (r * (r * r)) + _ - _) in H2. set (z3 := 2 * (s * (s * s)) + _ - _) in H3.
    assert (E1 : F1 = Fk (p*p) (q*q) (r*r) (s*s)).
    { unfold L_KummerSurf.Fk. apply div_eq; [exact D1|]. apply half. transitivity (2 * (p*p*(p*p)+q*q*(q*q)-r*r*(r*r)-s*s*(s*s)) - (p*z0+q*z1-r*z2-s*z3)); [unfold z0, z1, z2, z3; ring|rewrite H0, H1, H2, H3; ring]. }
    assert (E2 : F2 = Fk (p*p) (r*r) (q*q) (s*s)).
    { unfold L_KummerSurf.Fk. apply div_eq; [exact D2|]. apply half. transitivity (2 * (p*p*(p*p)+r*r*(r*r)-q*q*(q*q)-s*s*(s*s)) - (p*z0+r*z2-q*z1-s*z3)); [unfold z0, z1, z2, z3; ring|rewrite H0, H1, H2, H3; ring]. }
    assert (E3 : F3 = Fk (p*p) (s*s) (q*q) (r*r)).
    { unfold L_KummerSurf.Fk. apply div_eq; [exact D3|]. apply half. transitivity (2 * (p*p*(p*p)+s*s*(s*s)-q*q*(q*q)-r*r*(r*r)) - (p*z0+s*z3-q*z1-r*z2)); [unfold z0, z1, z2, z3; ring|rewrite H0, H1, H2, H3; ring]. }
    assert (EE : 2 * E = Gk (p*p) (q*q) (r*r) (s*s) / (p*q*r*s)).
    { apply div_eq; [repeat apply (mul_nz FT); assumption|]. unfold L_KummerSurf.Gk. rewrite <- E1, <- E2, <- E3. unfold s4. apply half. transitivity (p*z0+q*z1+r*z2+s*z3 + 2*(F1*(p*p*(q*q)+r*r*(s*s))+F2*(p*p*(r*r)+q*q*(s*s))+F3*(p*p*(s*s)+q*q*(r*r))-(p*p*(p*p)+q*q*(q*q)+r*r*(r*r)+s*s*(s*s)))); [unfold z0, z1, z2, z3; ring|rewrite H0, H1, H2, H3; ring]. }
    clear z0 z1 z2 z3 H0 H1 H2 H3. unfold L_KummerSurf.qr, Qk, s4. rewrite <- E1, <- E2, <- E3.
    replace (Gk (p*p) (q*q) (r*r) (s*s) * (x 0%nat * x 1%nat * x 2%nat * x 3%nat) / (p*q*r*s)) with (Gk (p*p) (q*q) (r*r) (s*s) / (p*q*r*s) * (x 0%nat * x 1%nat * x 2%nat * x 3%nat)) by (generalize (Gk (p*p) (q*q) (r*r) (s*s)); intros; field; repeat split; assumption).
    rewrite <- EE, <- HQ. ring.
  - intros H. exists (Gk (p*p) (q*q) (r*r) (s*s) / (p*q*r*s) / 2), (Fk (p*p) (q*q) (r*r) (s*s)), (Fk (p*p) (r*r) (q*q) (s*s)), (Fk (p*p) (s*s) (q*q) (r*r)). split.
    + intros i Hi. four i Hi; cbn; fold p q r s; clearbody p q r s; clear - FT two_nz D1 D2 D3 Na Nb Nc Nd; unfold L_KummerSurf.Gk, L_KummerSurf.Fk, s4; field; repeat split; assumption.
    + rewrite <- H. unfold L_KummerSurf.qr, Qk, s4. clearbody p q r s. generalize (Gk (p*p) (q*q) (r*r) (s*s)) (Fk (p*p) (q*q) (r*r) (s*s)) (Fk (p*p) (r*r) (q*q) (s*s)) (Fk (p*p) (s*s) (q*q) (r*r)). clear - FT two_nz Na Nb Nc Nd. intros. field. repeat split; assumption.
Qed.
(** scaling *)
Lemma same_refl x : same_point x x. Proof. exists 1. split; [exact (F_1_neq_0 FT)|intros; ring]. Qed.
Lemma same_sym x y : same_point x y -> same_point y x.
Proof. intros (c & Hc & H). exists (1 / c). split; [intros E; apply (F_1_neq_0 FT); transitivity (1 / c * c); [field; exact Hc|rewrite E; ring]|]. intros i Hi. rewrite H by auto. field. exact Hc. Qed.
Lemma same_trans x y z : same_point x y -> same_point y z -> same_point x z.
Proof. intros (c & Hc & H) (c' & Hc' & H'). exists (c * c'). split; [apply (mul_nz FT); assumption|]. intros i Hi. rewrite H, H' by auto. ring. Qed.
Lemma lxor_lt i j : (i < 4)%nat -> (j < 4)%nat -> (Nat.lxor i j < 4)%nat. Proof. intros Hi Hj. four i Hi; four j Hj; cbn; lia. Qed.
Lemma onk_same a a' x x' : same_point a' a -> same_point x' x -> on_kummer a x -> on_kummer a' x'.
Proof.
  intros (c & Hc & Ha) (c' & Hc' & Hx) (E & F1 & F2 & F3 & HP & HQ). exists E, F1, F2, F3. split.
  - intros i Hi. transitivity (c * (c * c) * half_partial k1 kadd kmul ksub E F1 F2 F3 a i); [|rewrite HP by auto; ring]. unfold half_partial. rewrite !Ha by (try apply lxor_lt; lia). ring.
  - transitivity (c' * c' * (c' * c') * quartic k1 kadd kmul ksub E F1 F2 F3 x); [|rewrite HQ; ring]. unfold quartic, pow4, sum4. rewrite !Hx by lia. ring.
Qed.
Lemma dual_ext x y i : (forall j, (j < 4)%nat -> x j = y j) -> dual x i = dual y i.
Proof. intros H. unfold S_Theta.dual, sum4. rewrite !H by lia. reflexivity. Qed.
Lemma dual_scale c x i : dual (fun j => c * x j) i = c * dual x i.
Proof. unfold S_Theta.dual, sum4, sgn. destruct (dot i 0), (dot i 1), (dot i 2), (dot i 3); ring. Qed.
Lemma gen_same a a' : same_point a' a -> generic_null a -> generic_null a'.
Proof.
  intros (c & Hc & Ha) [N H]. split; [intros i Hi; rewrite Ha by auto; apply (mul_nz FT); auto|].
  intros chi i (H1 & H2 & H3). replace (level22 a' chi i) with (c * c * level22 a chi i); [apply (mul_nz FT); [apply (mul_nz FT); assumption|apply H; repeat split; assumption]|].
  unfold S_Theta.level22, sum4. rewrite !Ha by (try apply lxor_lt; lia). unfold sgn. destruct (dot chi 0), (dot chi 1), (dot chi 2), (dot chi 3); ring.
Qed.
(** the isogeny in dual coordinates, the Hadamard transform and doubling *)
Lemma square_generic e a A : generic_null a -> (forall i, (i < 4)%nat -> sqdual a i = e * (A i * A i)) -> generic_null A.
Proof.
  intros G H. apply generic_gen. apply generic_gen in G. destruct (sqdual_hd a) as (Q0 & Q1 & Q2 & Q3). cbv zeta in *. rewrite H in Q0, Q1, Q2, Q3 by lia.
  exact (gen_sq FT two_nz _ _ _ _ _ _ _ _ _ G (eq_sym Q0) (eq_sym Q1) (eq_sym Q2) (eq_sym Q3)).
Qed.
Lemma dual_generic A : generic_null A -> (forall i, (i < 4)%nat -> dual A i <> 0) -> generic_null (dual A).
Proof.
  intros G H. apply generic_gen. apply generic_gen in G. destruct (dual_hd A) as (Q0 & Q1 & Q2 & Q3).
  pose proof (H 0%nat ltac:(lia)) as N0. pose proof (H 1%nat ltac:(lia)) as N1. pose proof (H 2%nat ltac:(lia)) as N2. pose proof (H 3%nat ltac:(lia)) as N3. rewrite Q0, Q1, Q2, Q3 in *.
  apply (gen_had FT two_nz); [exact G|]. repeat split; assumption.
Qed.
Lemma square_kummer e a A x : generic_null a -> (forall i, (i < 4)%nat -> sqdual a i = e * (A i * A i)) -> on_kummer a x -> on_kummer A (fun i => sqdual x i / A i).
Proof.
  intros G H HK. pose proof (proj1 (generic_gen _) (square_generic e a A G H)) as GA. apply generic_gen in G. apply (onk_qr _ _ G) in HK. apply (onk_qr _ _ GA).
  destruct (sqdual_hd a) as (Q0 & Q1 & Q2 & Q3). destruct (sqdual_hd x) as (X0 & X1 & X2 & X3). cbv zeta in *. rewrite H in Q0, Q1, Q2, Q3 by lia. rewrite X0, X1, X2, X3.
  exact (qr_image FT two_nz _ _ _ _ _ _ _ _ _ _ _ _ _ G (eq_sym Q0) (eq_sym Q1) (eq_sym Q2) (eq_sym Q3) HK).
Qed.
Lemma dual_kummer A s : generic_null A -> (forall i, (i < 4)%nat -> dual A i <> 0) -> on_kummer A s -> on_kummer (dual A) (dual s).
Proof.
  intros G N HK. pose proof (proj1 (generic_gen _) (dual_generic A G N)) as GA. apply generic_gen in G. apply (onk_qr _ _ G) in HK. apply (onk_qr _ _ GA).
  destruct (dual_hd A) as (Q0 & Q1 & Q2 & Q3). destruct (dual_hd s) as (X0 & X1 & X2 & X3). pose proof (gen_dist FT _ _ _ _ G) as D1. pose proof (gen_dist FT _ _ _ _ GA) as D2. destruct GA as (NA & _), G as (Na & _).
  rewrite X0, X1, X2, X3. rewrite Q0, Q1, Q2, Q3 in *. exact (qr_had FT _ _ _ _ _ _ _ _ Na NA D1 D2 HK).
Qed.
Lemma double_kummer a x : generic_null a -> on_kummer a x -> on_kummer a (theta_dbl a x).
Proof.
  intros G HK. apply generic_gen in G. apply (onk_qr _ _ G) in HK. apply (onk_qr _ _ G). pose proof (qr_double FT two_nz _ _ _ _ _ _ _ _ G HK) as H. cbv zeta in H.
  unfold S_Theta.theta_dbl. destruct (sqdual_hd a) as (Q0 & Q1 & Q2 & Q3). destruct (sqdual_hd x) as (X0 & X1 & X2 & X3). cbv zeta in *. rewrite <- Q0, <- Q1, <- Q2, <- Q3, <- X0, <- X1, <- X2, <- X3 in H.
  destruct (dual_hd (fun chi => sqdual x chi * sqdual x chi / sqdual a chi)) as (W0 & W1 & W2 & W3). rewrite W0, W1, W2, W3. exact H.
Qed.
Lemma dual_double A s i : generic_null A -> (forall i, (i < 4)%nat -> dual A i <> 0) -> on_kummer A s -> (i < 4)%nat -> dual (theta_dbl A s) i = theta_dbl (dual A) (dual s) i.
Proof.
  intros G N HK Hi. apply generic_gen in G. apply (onk_qr _ _ G) in HK. pose proof (gen_dist FT _ _ _ _ G) as D1. destruct G as (Na & Nu & (P1 & P2 & P3) & _).
  destruct (dual_hd A) as (Q0 & Q1 & Q2 & Q3). assert (NA : nz4 (k0 := k0) (hd0 (A 0%nat) (A 1%nat) (A 2%nat) (A 3%nat)) (hd1 (A 0%nat) (A 1%nat) (A 2%nat) (A 3%nat)) (hd2 (A 0%nat) (A 1%nat) (A 2%nat) (A 3%nat)) (hd3 (A 0%nat) (A 1%nat) (A 2%nat) (A 3%nat))).
  { rewrite <- Q0, <- Q1, <- Q2, <- Q3. repeat split; apply N; lia. }
  pose proof (comm_coef FT _ _ _ _ _ _ _ _ Na NA Nu P1 P2 P3 D1 HK) as (C0 & C1 & C2 & C3). clear D1 HK.
  destruct (sqdual_hd A) as (U0 & U1 & U2 & U3). destruct (sqdual_hd s) as (X0 & X1 & X2 & X3). cbv zeta in *. rewrite <- U0, <- U1, <- U2, <- U3, <- X0, <- X1, <- X2, <- X3 in *. rewrite <- Q0 in C0. rewrite <- Q1 in C1. rewrite <- Q2 in C2. rewrite <- Q3 in C3.
  destruct (dual_hd (fun chi => sqdual s chi * sqdual s chi / sqdual A chi)) as (W0 & W1 & W2 & W3). rewrite <- W0, <- W1, <- W2, <- W3 in *.
  set (a := A 0%nat) in *. set (b := A 1%nat) in *. set (c := A 2%nat) in *. set (d := A 3%nat) in *. set (x := s 0%nat) in *. set (y := s 1%nat) in *. set (z := s 2%nat) in *. set (t := s 3%nat) in *.
  set (DD := dual (fun chi => sqdual s chi * sqdual s chi / sqdual A chi)) in *.
  assert (SS : forall v, sqdual (dual v) 0%nat = 4 * sqdual v 0%nat /\ sqdual (dual v) 1%nat = 2 * (4 * (v 0%nat * v 1%nat + v 2%nat * v 3%nat)) /\ sqdual (dual v) 2%nat = 2 * (4 * (v 0%nat * v 2%nat + v 1%nat * v 3%nat)) /\ sqdual (dual v) 3%nat = 2 * (4 * (v 0%nat * v 3%nat + v 1%nat * v 2%nat))).
  { intros v. unfold S_Theta.sqdual, S_Theta.dual, sum4, sgn. cbn. repeat split; ring. }
  destruct (SS A) as (SA0 & SA1 & SA2 & SA3). destruct (SS s) as (SX0 & SX1 & SX2 & SX3). fold a b c d in SA1, SA2, SA3. fold x y z t in SX1, SX2, SX3.
  destruct Nu as (V0 & V1 & V2 & V3). destruct Na as (Na & Nb & Nc & Nd). 
  assert (L : forall i, (i < 4)%nat -> theta_dbl A s i = DD i / A i) by reflexivity.
  set (E0 := sqdual (dual s) 0%nat * sqdual (dual s) 0%nat / sqdual (dual A) 0%nat). set (E1 := sqdual (dual s) 1%nat * sqdual (dual s) 1%nat / sqdual (dual A) 1%nat). set (E2 := sqdual (dual s) 2%nat * sqdual (dual s) 2%nat / sqdual (dual A) 2%nat). set (E3 := sqdual (dual s) 3%nat * sqdual (dual s) 3%nat / sqdual (dual A) 3%nat).
  pose proof (four_nz FT two_nz) as N4.
  assert (Z0 : E0 = 4 * (sqdual s 0%nat * sqdual s 0%nat / sqdual A 0%nat)).
  { unfold E0. rewrite SA0, SX0. set (q := 4) in *. clearbody q. field. split; assumption. }
  assert (Z1 : E1 = 4 * (2 * ((x*y+z*t)*(x*y+z*t)/(a*b+c*d)))).
  { unfold E1. rewrite SA1, SX1. set (q := 4) in *. set (w := 2) in *. clearbody q w. field. repeat split; assumption. }
  assert (Z2 : E2 = 4 * (2 * ((x*z+y*t)*(x*z+y*t)/(a*c+b*d)))).
  { unfold E2. rewrite SA2, SX2. set (q := 4) in *. set (w := 2) in *. clearbody q w. field. repeat split; assumption. }
  assert (Z3 : E3 = 4 * (2 * ((x*t+y*z)*(x*t+y*z)/(a*d+b*c)))).
  { unfold E3. rewrite SA3, SX3. set (q := 4) in *. set (w := 2) in *. clearbody q w. field. repeat split; assumption. }
  destruct (dual_hd (theta_dbl A s)) as (R0 & R1 & R2 & R3). destruct (dual_hd (fun chi => sqdual (dual s) chi * sqdual (dual s) chi / sqdual (dual A) chi)) as (T0 & T1 & T2 & T3). cbv beta in T0, T1, T2, T3. fold E0 E1 E2 E3 in T0, T1, T2, T3.
  rewrite !L in R0, R1, R2, R3 by lia. fold a b c d in R0, R1, R2, R3. rewrite Z0, Z1, Z2, Z3 in *. clear Z0 Z1 Z2 Z3 E0 E1 E2 E3 SA0 SA1 SA2 SA3 SX0 SX1 SX2 SX3 SS.
  four i Hi; [rewrite R0|rewrite R1|rewrite R2|rewrite R3]; unfold S_Theta.theta_dbl at 1; [rewrite T0|rewrite T1|rewrite T2|rewrite T3].
  - etransitivity; [|etransitivity; [exact C0|]]; [reflexivity|]. unfold L_KummerSurf.hd0. f_equal. ring.
  - etransitivity; [|etransitivity; [exact C1|]]; [reflexivity|]. unfold L_KummerSurf.hd1. f_equal. ring.
  - etransitivity; [|etransitivity; [exact C2|]]; [reflexivity|]. unfold L_KummerSurf.hd2. f_equal. ring.
  - etransitivity; [|etransitivity; [exact C3|]]; [reflexivity|]. unfold L_KummerSurf.hd3. f_equal. ring.
Qed.
Lemma dual_dual x i : (i < 4)%nat -> dual (dual x) i = 4 * x i.
Proof. intros H. four i H; unfold S_Theta.dual, sum4, sgn, dot; cbn; ring. Qed.
Lemma phi_double e a A x j : e <> 0 -> (forall i, (i < 4)%nat -> a i <> 0) -> (forall i, (i < 4)%nat -> A i <> 0 /\ sqdual a i = e * (A i * A i)) -> (j < 4)%nat ->
  sqdual (theta_dbl a x) j / A j = 4 / (e * e * e) * theta_dbl A (fun i => sqdual x i / A i) j.
Proof.
  intros Ne Na HA Hj. pose proof (four_nz FT two_nz) as N4. unfold S_Theta.theta_dbl.
  assert (EA : forall i, (i < 4)%nat -> sqdual A i = 4 / e * (a i * a i)).
  { intros i Hi. unfold S_Theta.sqdual at 1. rewrite (dual_ext _ (fun k => 1 / e * sqdual a k)) by (intros k Hk; rewrite (proj2 (HA k Hk)); field; exact Ne). rewrite dual_scale. unfold S_Theta.sqdual. rewrite (dual_dual (fun i => a i * a i)) by exact Hi. set (q := 4) in *. clearbody q. field. exact Ne. }
  set (D := dual (fun chi => sqdual x chi * sqdual x chi / sqdual a chi)).
  assert (ED : forall i, (i < 4)%nat -> sqdual (fun i => sqdual x i / A i) i = e * D i).
  { intros i Hi. unfold S_Theta.sqdual at 1. unfold D. rewrite <- dual_scale. apply dual_ext. intros k Hk. destruct (HA k Hk) as [NAk ->]. field. split; assumption. }
  change (sqdual (fun i => D i / a i) j / A j = 4 / (e * e * e) * (dual (fun chi => sqdual (fun i => sqdual x i / A i) chi * sqdual (fun i => sqdual x i / A i) chi / sqdual A chi) j / A j)).
  unfold S_Theta.sqdual at 1. rewrite (dual_ext _ (fun chi => 4 / (e * e * e) * (sqdual (fun i => sqdual x i / A i) chi * sqdual (fun i => sqdual x i / A i) chi / sqdual A chi))).
  - rewrite dual_scale. destruct (HA j Hj) as [NAj _]. set (q := 4 / (e * e * e)) in *. clearbody q. field. exact NAj.
  - intros k Hk. rewrite ED, EA by exact Hk. pose proof (Na k Hk). set (q := 4) in *. clearbody q. field. repeat split; assumption.
Qed.
Lemma sqdual_scale c x y i : (forall j, (j < 4)%nat -> y j = c * x j) -> sqdual y i = c * c * sqdual x i.
Proof. intros H. unfold S_Theta.sqdual. rewrite <- dual_scale. apply dual_ext. intros j Hj. rewrite H by exact Hj. ring. Qed.
Lemma dbl_same a a' x x' : generic_null a -> same_point a' a -> same_point x' x -> same_point (theta_dbl a' x') (theta_dbl a x).
Proof.
  intros G (c & Hc & Ha) (c' & Hc' & Hx). pose proof (mul_nz FT) as MN. exists (c' * c' * (c' * c') / (c * c * c)). split.
  { intros E. apply (MN _ _ (MN _ _ Hc' Hc') (MN _ _ Hc' Hc')). transitivity (c' * c' * (c' * c') / (c * c * c) * (c * c * c)); [field; exact Hc|rewrite E; ring]. }
  intros i Hi. unfold S_Theta.theta_dbl. assert (NS : forall j, (j < 4)%nat -> sqdual a j <> 0).
  { intros j Hj. destruct G as [_ G]. assert (E : sqdual a j = level22 a j 0) by (unfold S_Theta.level22, S_Theta.sqdual, S_Theta.dual, sum4; cbn; reflexivity). rewrite E. apply G. repeat split; [exact Hj|lia|four j Hj; reflexivity]. }
  rewrite (dual_ext _ (fun chi => c' * c' * (c' * c') / (c * c) * (sqdual x chi * sqdual x chi / sqdual a chi))).
  - rewrite dual_scale, Ha by exact Hi. destruct G as [Na _]. pose proof (Na i Hi). field. split; assumption.
  - intros j Hj. rewrite (sqdual_scale c' x x') by exact Hx. rewrite (sqdual_scale c a a') by exact Ha. pose proof (NS j Hj). field. split; assumption.
Qed.
Lemma null_kummer a : generic_null a -> on_kummer a a.
Proof.
  intros G. apply generic_gen in G. apply (onk_qr _ _ G). destruct G as ((? & ? & ? & ?) & _). unfold L_KummerSurf.qr, Qk. unfold L_KummerSurf.Gk.
  generalize (Fk (a 0%nat * a 0%nat) (a 1%nat * a 1%nat) (a 2%nat * a 2%nat) (a 3%nat * a 3%nat)) (Fk (a 0%nat * a 0%nat) (a 2%nat * a 2%nat) (a 1%nat * a 1%nat) (a 3%nat * a 3%nat)) (Fk (a 0%nat * a 0%nat) (a 3%nat * a 3%nat) (a 1%nat * a 1%nat) (a 2%nat * a 2%nat)). intros. unfold s4. field. repeat split; assumption.
Qed.
End K.
