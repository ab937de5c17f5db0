(** The end of the (2,2)-isogeny chain: from a Kummer surface whose dual null point has a zero coordinate the isogeny goes to a product. *)
From Coq Require Import Arith Ring Field Lia.
From Verif Require Import S_Theta S_KummerSurf L_KummerSurf L_KummerFun.
Section K.
Context {K : Type} {k0 k1 : K} {kadd kmul ksub : K -> K -> K} {kopp : K -> K} {kdiv : K -> K -> K} {kinv : K -> K}.
Context (FT : field_theory k0 k1 kadd kmul ksub kopp kdiv kinv (@eq K)) (two_nz : kadd k1 k1 <> k0).
Add Field Kf : FT.
Local Notation "0" := k0. Local Notation "1" := k1.
Local Infix "+" := kadd. Local Infix "*" := kmul. Local Infix "-" := ksub. Local Infix "/" := kdiv. Local Notation "- x" := (kopp x).
Local Notation "2" := (1+1). Local Notation "4" := (2+2).
Local Notation dual := (dual kadd kopp). Local Notation sqdual := (sqdual kadd kmul kopp).
Local Notation on_kummer := (on_kummer k0 k1 kadd kmul ksub). Local Notation generic_null := (generic_null k0 kadd kmul kopp). Local Notation same_point := (same_point k0 kmul). Local Notation level22 := (level22 kadd kmul kopp).
Local Notation gen := (@gen K k0 kadd kmul ksub). Local Notation qr := (@qr K kadd kmul ksub kdiv).
Local Notation hd0 := (@hd0 K kadd). Local Notation hd1 := (@hd1 K kadd ksub). Local Notation hd2 := (@hd2 K kadd ksub). Local Notation hd3 := (@hd3 K kadd ksub).
Local Notation Fk := (@Fk K kadd kmul ksub kdiv). Local Notation Gk := (@Gk K kadd kmul ksub kdiv). Local Notation dist := (@dist K k0 kmul ksub). Local Notation nz4 := (@nz4 K k0).
Ltac four i H := destruct i as [|[|[|[|i]]]]; [| | | |exfalso; lia]; clear H.
Lemma div_of x y z : y <> 0 -> x = z * y -> x / y = z. Proof. intros Hy ->. field. exact Hy. Qed.
(* the coefficients of the quartic when a + b + c + d = 0 *)
Lemma end_F a b c d : a + b + c + d = 0 -> a*b+c*d <> 0 -> a*a*(b*b)-c*c*(d*d) <> 0 -> Fk (a*a) (b*b) (c*c) (d*d) = - (2 + 2 * (a*a+b*b+c*c+d*d) / (a*b+c*d)).
Proof.
  intros H N D. assert (d = - (a + b + c)) as -> by (transitivity (a+b+c+d-(a+b+c)); [ring|rewrite H; ring]). clear H. unfold L_KummerSurf.Fk. apply div_of; [exact D|]. field. exact N.
Qed.
Lemma end_G a b c d : a + b + c + d = 0 -> nz4 a b c d -> a*b+c*d <> 0 -> a*c+b*d <> 0 -> a*d+b*c <> 0 -> dist (a*a) (b*b) (c*c) (d*d) ->
  Gk (a*a) (b*b) (c*c) (d*d) / (a*b*c*d) = 4 * (a*a+b*b+c*c+d*d) * (1/(a*b+c*d) + 1/(a*c+b*d) + 1/(a*d+b*c)).
Proof.
  intros H (Na & Nb & Nc & Nd) N1 N2 N3 D. rewrite (Gk_closed FT) by exact D. destruct D as (D1 & D2 & D3). assert (d = - (a + b + c)) as -> by (transitivity (a+b+c+d-(a+b+c)); [ring|rewrite H; ring]). clear H.
  field. repeat split; assumption.
Qed.
Lemma end_form a b c d x y z t : a + b + c + d = 0 -> nz4 a b c d -> a*a+b*b+c*c+d*d <> 0 -> a*b+c*d <> 0 -> a*c+b*d <> 0 -> a*d+b*c <> 0 -> dist (a*a) (b*b) (c*c) (d*d) -> qr a b c d x y z t = 0 ->
  (x*x+y*y+z*z+t*t)*(x*x+y*y+z*z+t*t)/(a*a+b*b+c*c+d*d) + 2*((x*y+z*t)*(x*y+z*t)/(a*b+c*d)) + 2*((x*z+y*t)*(x*z+y*t)/(a*c+b*d)) + 2*((x*t+y*z)*(x*t+y*z)/(a*d+b*c)) = 0.
Proof.
  intros H N N0 N1 N2 N3 D Q. pose proof (end_G a b c d H N N1 N2 N3 D) as G. destruct D as (D1 & D2 & D3).
  assert (F1 := end_F a b c d H N1 D1). assert (F2 : Fk (a*a) (c*c) (b*b) (d*d) = - (2 + 2 * (a*a+b*b+c*c+d*d) / (a*c+b*d))).
  { rewrite (end_F a c b d); [field; exact N2|rewrite <- H; ring|exact N2|exact D2]. }
  assert (F3 : Fk (a*a) (d*d) (b*b) (c*c) = - (2 + 2 * (a*a+b*b+c*c+d*d) / (a*d+b*c))).
  { rewrite (end_F a d b c); [field; exact N3|rewrite <- H; ring|exact N3|exact D3]. }
  destruct N as (Na & Nb & Nc & Nd).
  assert (E : Gk (a*a) (b*b) (c*c) (d*d) * (x*y*z*t)/(a*b*c*d) = Gk (a*a) (b*b) (c*c) (d*d) / (a*b*c*d) * (x*y*z*t)).
  { generalize (Gk (a*a) (b*b) (c*c) (d*d)). intros g. field. repeat split; assumption. }
  unfold L_KummerSurf.qr, Qk, s4 in Q. rewrite E, G, F1, F2, F3 in Q. clear E G F1 F2 F3 H D1 D2 D3 Na Nb Nc Nd.
  generalize dependent (a*b+c*d). generalize dependent (a*c+b*d). generalize dependent (a*d+b*c). generalize dependent (a*a+b*b+c*c+d*d). intros s Ns p3 N3 p2 N2 p1 N1 Q.
  match type of Q with ?q = 0 => transitivity (q / s); [field; repeat split; assumption|rewrite Q; field; exact Ns] end.
Qed.
(* with signs: p, q = 1 or -1 *)
Lemma end_form_signs p q a b c d x y z t : p * p = 1 -> q * q = 1 -> a + p * b + q * c + p * q * d = 0 -> nz4 a b c d -> a*a+b*b+c*c+d*d <> 0 -> a*b+c*d <> 0 -> a*c+b*d <> 0 -> a*d+b*c <> 0 -> dist (a*a) (b*b) (c*c) (d*d) -> qr a b c d x y z t = 0 ->
  (x*x+y*y+z*z+t*t)*(x*x+y*y+z*z+t*t)/(a*a+b*b+c*c+d*d) + p*(2*((x*y+z*t)*(x*y+z*t)/(a*b+c*d))) + q*(2*((x*z+y*t)*(x*z+y*t)/(a*c+b*d))) + p*q*(2*((x*t+y*z)*(x*t+y*z)/(a*d+b*c))) = 0.
Proof.
  intros Hp Hq H (Na & Nb & Nc & Nd) N0 N1 N2 N3 D Q.
  assert (Np : p <> 0) by (intros ->; apply (F_1_neq_0 FT); rewrite <- Hp; ring). assert (Nq : q <> 0) by (intros ->; apply (F_1_neq_0 FT); rewrite <- Hq; ring).
  assert (Sb : forall u, p * u * (p * u) = u * u) by (intros u; ring [Hp]). assert (Sc : forall u, q * u * (q * u) = u * u) by (intros u; ring [Hq]). assert (Sd : forall u, p * q * u * (p * q * u) = u * u) by (intros u; ring [Hp Hq]).
  assert (P1 : forall u b c d, u*(p*b)+q*c*(p*q*d) = p*(u*b+c*d)) by (intros; ring [Hq]). assert (P2 : forall u b c d, u*(q*c)+p*b*(p*q*d) = q*(u*c+b*d)) by (intros; ring [Hp]). assert (P3 : forall u b c d, u*(p*q*d)+p*b*(q*c) = p*q*(u*d+b*c)) by (intros; ring).
  pose proof (end_form a (p * b) (q * c) (p * q * d) x (p * y) (q * z) (p * q * t)) as E. rewrite !Sb, !Sc, !Sd, !P1, !P2, !P3 in E. pose proof (mul_nz FT) as MN.
  assert (Q' : qr a (p * b) (q * c) (p * q * d) x (p * y) (q * z) (p * q * t) = 0).
  { rewrite <- Q. unfold L_KummerSurf.qr, Qk. rewrite !Sb, !Sc, !Sd. f_equal. generalize (Gk (a*a) (b*b) (c*c) (d*d)). intros g. field. repeat split; assumption. }
  assert (Q2 : forall u w, w <> 0 -> p * u * (p * u) / (p * w) = p * (u * u / w)) by (intros u w Nw; field; split; assumption).
  assert (Q3 : forall u w, w <> 0 -> q * u * (q * u) / (q * w) = q * (u * u / w)) by (intros u w Nw; field; split; assumption).
  assert (Q4 : forall u w, w <> 0 -> p * q * u * (p * q * u) / (p * q * w) = p * q * (u * u / w)) by (intros u w Nw; field; repeat split; assumption).
  rewrite Sb, Sc, Sd in E. assert (R : forall u w, w <> 0 -> u * u / (p * w) = p * (u * u / w)).
  { intros u w Nw. rewrite <- Q2 by exact Nw. rewrite Sb. reflexivity. }
  assert (R' : forall u w, w <> 0 -> u * u / (q * w) = q * (u * u / w)).
  { intros u w Nw. rewrite <- Q3 by exact Nw. rewrite Sc. reflexivity. }
  assert (R'' : forall u w, w <> 0 -> u * u / (p * q * w) = p * q * (u * u / w)).
  { intros u w Nw. rewrite <- Q4 by exact Nw. rewrite Sd. reflexivity. }
  rewrite R, R', R'' in E by assumption. transitivity ((x*x+y*y+z*z+t*t)*(x*x+y*y+z*z+t*t)/(a*a+b*b+c*c+d*d) + 2*(p*((x*y+z*t)*(x*y+z*t)/(a*b+c*d))) + 2*(q*((x*z+y*t)*(x*z+y*t)/(a*c+b*d))) + 2*(p*q*((x*t+y*z)*(x*t+y*z)/(a*d+b*c)))); [ring|].
  apply E; try assumption; try (repeat apply MN; assumption). repeat split; try assumption; repeat apply MN; assumption.
Qed.
Lemma half0 x : 2 * x = 0 -> x = 0. Proof. intros E. transitivity (2 * x / 2); [field; exact two_nz|rewrite E; field; exact two_nz]. Qed.
Lemma prod0 x y : x * y = 0 -> x <> 0 -> y = 0. Proof. intros H N. transitivity (x * y / x); [field; exact N|rewrite H; field; exact N]. Qed.
Lemma sub_eq x y : x - y = 0 -> x = y. Proof. intros E. transitivity (x - y + y); [ring|rewrite E; ring]. Qed.
(* two zero coordinates of the dual are impossible on a generic surface *)
Lemma dual_one_zero_lt a c c' : generic_null a -> (c < c' < 4)%nat -> dual a c = 0 -> dual a c' <> 0.
Proof.
  intros G Hc H H'. apply (generic_gen FT two_nz) in G. destruct (dual_hd FT a) as (Q0 & Q1 & Q2 & Q3). destruct G as (_ & _ & _ & M1 & M2 & M3).
  unfold L_KummerSurf.hd0, L_KummerSurf.hd1, L_KummerSurf.hd2, L_KummerSurf.hd3 in *. set (p := a 0%nat) in *. set (b := a 1%nat) in *. set (c0 := a 2%nat) in *. set (d := a 3%nat) in *.
  assert (X : forall u w x y, dual a c = u -> dual a c' = w -> 2 * x = u + w -> 2 * y = u - w -> x = 0 /\ y = 0).
  { intros u w x y <- <- E1 E2. rewrite H, H' in E1, E2. split; apply half0; [rewrite E1|rewrite E2]; ring. }
  assert (W : forall e x y u w, e <> 0 -> x = 0 -> y = 0 -> e = u * x + w * y -> False) by (intros e x y u w N -> -> E; apply N; rewrite E; ring).
  assert (C : (c = 0 /\ c' = 1 \/ c = 0 /\ c' = 2 \/ c = 0 /\ c' = 3 \/ c = 1 /\ c' = 2 \/ c = 1 /\ c' = 3 \/ c = 2 /\ c' = 3)%nat) by lia. clear Hc.
  destruct C as [[-> ->]|[[-> ->]|[[-> ->]|[[-> ->]|[[-> ->]|[-> ->]]]]]].
  - destruct (X _ _ (p + c0) (b + d) Q0 Q1 ltac:(ring) ltac:(ring)) as [E1 E2]. apply (W _ _ _ b (- c0) M1 E1 E2). ring.
  - destruct (X _ _ (p + b) (c0 + d) Q0 Q2 ltac:(ring) ltac:(ring)) as [E1 E2]. apply (W _ _ _ c0 (- b) M2 E1 E2). ring.
  - destruct (X _ _ (p + d) (b + c0) Q0 Q3 ltac:(ring) ltac:(ring)) as [E1 E2]. apply (W _ _ _ b (- d) M1 E1 E2). ring.
  - destruct (X _ _ (p - d) (c0 - b) Q1 Q2 ltac:(ring) ltac:(ring)) as [E1 E2]. apply (W _ _ _ b (- d) M1 E1 E2). ring.
  - destruct (X _ _ (p - b) (c0 - d) Q1 Q3 ltac:(ring) ltac:(ring)) as [E1 E2]. apply (W _ _ _ c0 b M2 E1 E2). ring.
  - destruct (X _ _ (p - c0) (b - d) Q2 Q3 ltac:(ring) ltac:(ring)) as [E1 E2]. apply (W _ _ _ b c0 M1 E1 E2). ring.
Qed.
Lemma dual_one_zero a c c' : generic_null a -> (c < 4)%nat -> (c' < 4)%nat -> c <> c' -> dual a c = 0 -> dual a c' <> 0.
Proof.
  intros G Hc Hc' Hn H H'. destruct (Nat.lt_ge_cases c c') as [Hl|Hl]; [exact (dual_one_zero_lt a c c' G (conj Hl Hc') H H')|].
  refine (dual_one_zero_lt a c' c G _ H' H). lia.
Qed.
(* the squared dual coordinates of a dual vector *)
Lemma sq_dual2 a : sqdual (dual a) 0%nat = 4 * (a 0%nat * a 0%nat + a 1%nat * a 1%nat + a 2%nat * a 2%nat + a 3%nat * a 3%nat) /\
  sqdual (dual a) 1%nat = 2 * 4 * (a 0%nat * a 1%nat + a 2%nat * a 3%nat) /\ sqdual (dual a) 2%nat = 2 * 4 * (a 0%nat * a 2%nat + a 1%nat * a 3%nat) /\ sqdual (dual a) 3%nat = 2 * 4 * (a 0%nat * a 3%nat + a 1%nat * a 2%nat).
Proof.
  destruct (sqdual_hd FT (dual a)) as (-> & -> & -> & ->). destruct (dual_hd FT a) as (-> & -> & -> & ->). unfold L_KummerSurf.hd0, L_KummerSurf.hd1, L_KummerSurf.hd2, L_KummerSurf.hd3. repeat split; ring.
Qed.
Definition above (e : K) (n A : nat -> K) : Prop := e <> 0 /\ forall i, (i < 4)%nat -> A i <> 0 /\ sqdual n i = e * (A i * A i).
(* a point of the surface goes to a point of the product *)
Lemma end_zero e a y A c : generic_null a -> on_kummer a y -> (c < 4)%nat -> dual a c = 0 -> above e (dual a) A -> level22 (fun i => sqdual (dual y) i / A i) c 0 = 0.
Proof.
  intros G HY Hc HZ [Ne HA]. apply (generic_gen FT two_nz) in G. apply (onk_qr FT two_nz _ _ G) in HY. pose proof (gen_dist FT _ _ _ _ G) as D. destruct G as (N & _ & (P1 & P2 & P3) & _).
  destruct (sq_dual2 a) as (S0 & S1 & S2 & S3). destruct (sq_dual2 y) as (s0 & s1 & s2 & s3). destruct (HA 0%nat ltac:(lia)) as [A0 E0]. destruct (HA 1%nat ltac:(lia)) as [A1 E1]. destruct (HA 2%nat ltac:(lia)) as [A2 E2]. destruct (HA 3%nat ltac:(lia)) as [A3 E3].
  rewrite E0 in S0. rewrite E1 in S1. rewrite E2 in S2. rewrite E3 in S3. clear E0 E1 E2 E3 HA.
  assert (P0 : a 0%nat * a 0%nat + a 1%nat * a 1%nat + a 2%nat * a 2%nat + a 3%nat * a 3%nat <> 0) by (intros E; rewrite E in S0; apply (mul_nz FT e _ Ne (mul_nz FT _ _ A0 A0)); rewrite S0; ring).
  pose proof (four_nz FT two_nz) as N4.
  assert (V : forall A s k n m, A <> 0 -> k <> 0 -> e * (A * A) = k * n -> s = k * m -> n <> 0 -> s / A * (s / A) = k * e * (m * m / n)).
  { intros A' s k n m NA Nk EA -> Nn. transitivity (k * e * (k * (m * m) / (e * (A' * A')))); [field; split; assumption|rewrite EA; field; split; assumption]. }
  pose proof (mul_nz FT _ _ two_nz N4) as N8.
  pose proof (V _ _ _ _ _ A0 N4 S0 s0 P0) as V0. pose proof (V _ _ _ _ _ A1 N8 S1 s1 P1) as V1. pose proof (V _ _ _ _ _ A2 N8 S2 s2 P2) as V2. pose proof (V _ _ _ _ _ A3 N8 S3 s3 P3) as V3. clear V S0 S1 S2 S3 s0 s1 s2 s3.
  assert (W : exists p q, p * p = 1 /\ q * q = 1 /\ dual a c = a 0%nat + p * a 1%nat + q * a 2%nat + p * q * a 3%nat /\ forall u, dual u c = u 0%nat + p * u 1%nat + q * u 2%nat + p * q * u 3%nat).
  { four c Hc; [exists 1, 1|exists (- (1)), 1|exists 1, (- (1))|exists (- (1)), (- (1))]; (split; [ring|split; [ring|split; [|intros u]]]); unfold S_Theta.dual, sum4, sgn; cbn; ring. }
  destruct W as (p & q & Hp & Hq & Ha & Hu). rewrite Ha in HZ. pose proof (end_form_signs p q _ _ _ _ _ _ _ _ Hp Hq HZ N P0 P1 P2 P3 D HY) as E.
  transitivity (dual (fun i => sqdual (dual y) i / A i * (sqdual (dual y) i / A i)) c); [unfold S_Theta.level22, S_Theta.dual, sum4; cbn; reflexivity|].
  rewrite Hu, V0, V1, V2, V3.
  match type of E with ?x = 0 => transitivity (4 * e * x); [|rewrite E; ring] end.
  match goal with |- _ * (?a / ?b) + _ * (_ * (?c' / ?d)) + _ * (_ * (?g / ?h)) + _ * (_ * (?k / ?l)) = _ => generalize (a / b) (c' / d) (g / h) (k / l); intros; ring | |- _ => idtac end.
Qed.
Lemma level0 a c : level22 a c 0 = sqdual a c.
Proof. unfold S_Theta.level22, S_Theta.sqdual, S_Theta.dual, sum4. cbn. reflexivity. Qed.
(* the constants (c,0) of the codomain are the coordinates of the dual null point; the other ones are products of them *)
Lemma end_level0 e n A c : above e n A -> (c < 4)%nat -> e * level22 A c 0 = 4 * (n c * n c).
Proof.
  intros [Ne HA] Hc. rewrite level0. change (sqdual A c) with (dual (fun j => A j * A j) c). rewrite <- (dual_scale FT e). rewrite (dual_ext _ (sqdual n)) by (intros j Hj; symmetry; apply HA; exact Hj).
  change (dual (dual (fun j => n j * n j)) c = 4 * (n c * n c)). unfold S_Theta.dual, sum4, sgn. four c Hc; cbn; ring.
Qed.
Lemma end_only e a A c : generic_null a -> (c < 4)%nat -> dual a c = 0 -> above e (dual a) A -> forall chi i, even_index chi i -> (level22 A chi i = 0 <-> (chi, i) = (c, 0%nat)).
Proof.
  intros G Hc HZ AB chi i (Hchi & Hi & HE). pose proof (dual_one_zero a c) as ONE. set (n := dual a) in *.
  assert (NZ : forall j, (j < 4)%nat -> j <> c -> n j <> 0) by (intros j Hj Hjc; apply ONE; auto). clear ONE. pose proof (mul_nz FT) as MN. pose proof (four_nz FT two_nz) as N4.
  destruct (Nat.eq_dec i 0) as [->|Ni].
  - pose proof (end_level0 e n A chi AB Hchi) as E. split.
    + intros Z. rewrite Z in E. f_equal. destruct (Nat.eq_dec chi c) as [->|Nc]; [reflexivity|]. exfalso. apply (MN _ _ N4 (MN _ _ (NZ chi Hchi Nc) (NZ chi Hchi Nc))). rewrite <- E. ring.
    + intros Z. injection Z as ->. rewrite HZ in E. apply (prod0 e); [rewrite E; ring|exact (proj1 AB)].
  - split; [|intros Z; exfalso; apply Ni; injection Z; auto]. intros Z. exfalso. destruct AB as [Ne HA]. destruct (HA 0%nat ltac:(lia)) as [_ E0]. destruct (HA 1%nat ltac:(lia)) as [_ E1]. destruct (HA 2%nat ltac:(lia)) as [_ E2]. destruct (HA 3%nat ltac:(lia)) as [_ E3]. clear HA.
    destruct (sqdual_hd FT n) as (Q0 & Q1 & Q2 & Q3). cbv zeta in *. rewrite E0 in Q0. rewrite E1 in Q1. rewrite E2 in Q2. rewrite E3 in Q3. clear E0 E1 E2 E3. unfold L_KummerSurf.hd0, L_KummerSurf.hd1, L_KummerSurf.hd2, L_KummerSurf.hd3 in *.
    assert (SQ : forall x y, x = y \/ x = - y -> e * e * (x * x) = e * e * (y * y)) by (intros x y [-> | ->]; ring).
    assert (NE : forall x y x' y', (x < 4)%nat -> (y < 4)%nat -> (x' < 4)%nat -> (y' < 4)%nat -> (x = c \/ y = c) /\ x' <> c /\ y' <> c \/ (x' = c \/ y' = c) /\ x <> c /\ y <> c -> 4 * ((n x * n y) * (n x * n y)) = 4 * ((n x' * n y') * (n x' * n y')) -> False).
    { intros x y x' y' Hx Hy Hx' Hy' [(C & D1 & D2)|(C & D1 & D2)] E.
      - pose proof (MN _ _ (NZ _ Hx' D1) (NZ _ Hy' D2)) as M. apply (MN _ _ N4 (MN _ _ M M)). rewrite <- E. destruct C as [-> | ->]; rewrite HZ; ring.
      - pose proof (MN _ _ (NZ _ Hx D1) (NZ _ Hy D2)) as M. apply (MN _ _ N4 (MN _ _ M M)). rewrite E. destruct C as [-> | ->]; rewrite HZ; ring. }
    assert (OP : forall x y, 2 * (x + y) = 0 -> x = - y) by (intros x y E; apply half0 in E; transitivity (x + y - y); [ring|rewrite E; ring]). assert (OM : forall x y, 2 * (x - y) = 0 -> x = y) by (intros x y E; apply half0, sub_eq in E; exact E).
    assert (R1 : A 0%nat * A 1%nat = A 2%nat * A 3%nat \/ A 0%nat * A 1%nat = - (A 2%nat * A 3%nat) -> False).
    { intros E. apply SQ in E. apply (NE 0 2 1 3)%nat; try lia. apply sub_eq. transitivity (e*(A 0%nat*A 0%nat)*(e*(A 1%nat*A 1%nat)) - e*(A 2%nat*A 2%nat)*(e*(A 3%nat*A 3%nat))); [rewrite Q0, Q1, Q2, Q3; ring|].
      transitivity (e * e * (A 0%nat * A 1%nat * (A 0%nat * A 1%nat)) - e * e * (A 2%nat * A 3%nat * (A 2%nat * A 3%nat))); [ring|rewrite E; ring]. }
    assert (R2 : A 0%nat * A 2%nat = A 1%nat * A 3%nat \/ A 0%nat * A 2%nat = - (A 1%nat * A 3%nat) -> False).
    { intros E. apply SQ in E. apply (NE 0 1 2 3)%nat; try lia. apply sub_eq. transitivity (e*(A 0%nat*A 0%nat)*(e*(A 2%nat*A 2%nat)) - e*(A 1%nat*A 1%nat)*(e*(A 3%nat*A 3%nat))); [rewrite Q0, Q1, Q2, Q3; ring|].
      transitivity (e * e * (A 0%nat * A 2%nat * (A 0%nat * A 2%nat)) - e * e * (A 1%nat * A 3%nat * (A 1%nat * A 3%nat))); [ring|rewrite E; ring]. }
    assert (R3 : A 0%nat * A 3%nat = A 1%nat * A 2%nat \/ A 0%nat * A 3%nat = - (A 1%nat * A 2%nat) -> False).
    { intros E. apply SQ in E. apply (NE 0 3 1 2)%nat; try lia. apply sub_eq. transitivity (e*(A 0%nat*A 0%nat)*(e*(A 3%nat*A 3%nat)) - e*(A 1%nat*A 1%nat)*(e*(A 2%nat*A 2%nat))); [rewrite Q0, Q1, Q2, Q3; ring|].
      transitivity (e * e * (A 0%nat * A 3%nat * (A 0%nat * A 3%nat)) - e * e * (A 1%nat * A 2%nat * (A 1%nat * A 2%nat))); [ring|rewrite E; ring]. }
    clear NE SQ Q0 Q1 Q2 Q3 NZ HZ. revert Z. unfold S_Theta.level22, sum4, sgn. four i Hi; [exfalso; apply Ni; reflexivity| | |]; four chi Hchi; try discriminate HE; cbn; intros Z;
      first [apply R1; left; apply OM; rewrite <- Z; ring|apply R1; right; apply OP; rewrite <- Z; ring|apply R2; left; apply OM; rewrite <- Z; ring|apply R2; right; apply OP; rewrite <- Z; ring|apply R3; left; apply OM; rewrite <- Z; ring|apply R3; right; apply OP; rewrite <- Z; ring].
Qed.
Lemma end_generic e a A : generic_null a -> (forall i, (i < 4)%nat -> dual a i <> 0) -> above e (dual a) A -> generic_null A.
Proof. intros G N [_ H]. apply (square_generic FT two_nz e (dual a)); [apply (dual_generic FT two_nz); assumption|]. intros i Hi. apply H. exact Hi. Qed.
Lemma above_scale e c n n' A A' : c <> 0 -> (forall i, (i < 4)%nat -> n' i = c * n i) -> (forall i, (i < 4)%nat -> A' i = A i) -> above e n A -> above (c * c * e) n' A'.
Proof.
  intros Nc Hn HA [Ne H]. split; [repeat apply (mul_nz FT); assumption|]. intros i Hi. rewrite HA by exact Hi. destruct (H i Hi) as [H1 H2]. split; [exact H1|]. rewrite (sqdual_scale FT c n n') by exact Hn. rewrite H2. ring.
Qed.
End K.
