(** The pairing of L_Weil between two points of odd order n that do not generate a full n-torsion: its order divides the relative order. *)
From Coq Require Import ZArith Znumtheory List Bool Ring Field Lia Arith.
From Verif Require Import S_Curve L_Group L_Kummer L_Weil L_Weil2.

Section Weil.
Context {K : Type} {k0 k1 : K} {kadd kmul ksub : K -> K -> K} {kopp : K -> K} {kdiv : K -> K -> K} {kinv : K -> K} {keq : K -> K -> bool}.
Context (FT : field_theory k0 k1 kadd kmul ksub kopp kdiv kinv (@eq K)).
Context (keq_ok : forall x y, keq x y = true <-> x = y).
Context (two_nz : kadd k1 k1 <> k0).
Context {A : K}.
Context (smooth : kmul A A <> kadd (kadd k1 k1) (kadd k1 k1)).
Add Field Kfield : FT.
Local Notation "0" := k0. Local Notation "1" := k1.
Local Notation "2" := (kadd k1 k1).
Local Infix "+" := kadd. Local Infix "*" := kmul. Local Infix "-" := ksub. Local Infix "/" := kdiv. Local Notation "- x" := (kopp x).
Local Notation on := (on kadd kmul A).
Local Notation padd := (padd k1 kadd kmul ksub kopp kdiv keq A).
Local Notation popp := (popp kopp).
Local Notation slope := (slope (k1 := k1) (kadd := kadd) (kmul := kmul) (ksub := ksub) (A := A)).
Local Notation pmul_nat := (pmul_nat k1 kadd kmul ksub kopp kdiv keq A).
Local Notation hv := (hv (k1 := k1) (kadd := kadd) (kmul := kmul) (ksub := ksub) (kopp := kopp) (kdiv := kdiv) (keq := keq) (A := A)).
Local Notation fm := (fm (k1 := k1) (kadd := kadd) (kmul := kmul) (ksub := ksub) (kopp := kopp) (kdiv := kdiv) (keq := keq) (A := A)).
Local Notation wp := (wp (k1 := k1) (kadd := kadd) (kmul := kmul) (ksub := ksub) (kopp := kopp) (kdiv := kdiv) (keq := keq) (A := A)).
Local Notation ee := (ee (k1 := k1) (kadd := kadd) (kmul := kmul) (ksub := ksub) (kopp := kopp) (kdiv := kdiv) (keq := keq) (A := A)).
Local Notation pz := (pz (k1 := k1) (kadd := kadd) (kmul := kmul) (ksub := ksub) (kopp := kopp) (kdiv := kdiv) (keq := keq) (A := A)).
Local Notation pw := (pw (k1 := k1) (kmul := kmul)).
Local Notation sg := (sg (k1 := k1) (kopp := kopp)).
Local Notation nsub := (nsub FT).
Local Notation nmul := (nmul FT keq_ok).
Local Notation Padd_on := (padd_on FT keq_ok two_nz).
Local Notation Padd_comm := (padd_comm FT keq_ok two_nz).

(** The pairing of L_Weil between two points of odd order n that do not generate a full n-torsion: its order divides the relative order. *)
Local Notation Mon := (pmul_nat_on FT keq_ok two_nz).
Lemma padd_N_r p : padd p None = p. Proof. destruct p as [[]|]; reflexivity. Qed.
Section Rel.
Context (X Y : pt K) (HX : on X) (HY : on Y) (n m : Z) (Hn : (3 < n)%Z) (Hm : (1 < m)%Z) (Dm : (m | n)%Z).
Context (OX : pmul_nat (Z.to_nat m) X = None) (OY : pmul_nat (Z.to_nat n) Y = None).
Context (indep : forall i j : nat, padd (pmul_nat i X) (pmul_nat j Y) = None -> (m | Z.of_nat i)%Z /\ (n | Z.of_nat j)%Z).
Local Open Scope Z_scope.
Local Infix "**" := kmul (at level 40, left associativity).
Local Notation pp := (pz X Y n).
Local Notation N := (Z.to_nat n).
Lemma X_mult i : 0 <= i -> (m | i) -> pmul_nat (Z.to_nat i) X = None.
Proof. intros Hi [c ->]. assert (0 <= c) by nia. rewrite Z2Nat.inj_mul by lia. rewrite (pmul_nat_mul FT keq_ok two_nz smooth) by exact HX. rewrite OX. apply pmul_nat_None. Qed.
Lemma OXn : pmul_nat N X = None. Proof. apply X_mult; [lia|exact Dm]. Qed.
Lemma r_add i j i' j' : padd (pp i j) (pp i' j') = pp (i + i') (j + j').
Proof. apply (pz_add FT keq_ok two_nz smooth X Y HX HY n Hn OXn OY). Qed.
Lemma r_on i j : on (pp i j). Proof. apply (pz_on FT keq_ok two_nz X Y HX HY). Qed.
Lemma r_None i j : pp i j = None <-> (m | i) /\ (n | j).
Proof.
  pose proof (Z.mod_pos_bound i n ltac:(lia)) as B1. pose proof (Z.mod_pos_bound j n ltac:(lia)) as B2. unfold L_Weil.pz. split.
  - intros E. apply indep in E. rewrite !Z2Nat.id in E by lia. destruct E as [E1 E2]. split.
    + rewrite (Z.div_mod i n) by lia. apply Z.divide_add_r; [apply Z.divide_mul_l; exact Dm|exact E1].
    + rewrite (Z.div_mod j n) by lia. apply Z.divide_add_r; [apply Z.divide_factor_l|exact E2].
  - intros [D1 D2]. rewrite X_mult; [|lia|].
    + rewrite (proj2 (Z.mod_divide j n ltac:(lia)) D2). reflexivity.
    + rewrite Z.mod_eq by lia. apply Z.divide_sub_r; [exact D1|]. apply Z.divide_mul_l. exact Dm.
Qed.
Lemma r_mod i j i' j' : (m | i - i') -> (n | j - j') -> pp i j = pp i' j'.
Proof. intros D1 D2. replace i with (i' + (i - i')) by lia. replace j with (j' + (j - j')) by lia. rewrite <- r_add. rewrite (proj2 (r_None (i - i') (j - j')) (conj D1 D2)). apply padd_N_r. Qed.
Lemma r_opp i j : popp (pp i j) = pp (- i) (- j).
Proof.
  assert (E : padd (pp i j) (pp (- i) (- j)) = None) by (rewrite r_add, !Z.add_opp_diag_r; apply r_None; split; apply Z.divide_0_r).
  symmetry. exact (padd_None FT keq_ok two_nz _ _ (r_on _ _) (r_on _ _) E).
Qed.
Lemma r_mul k i j : pmul_nat k (pp i j) = pp (Z.of_nat k * i) (Z.of_nat k * j).
Proof.
  induction k; [symmetry; apply r_None; split; apply Z.divide_0_r|]. rewrite pmul_nat_S, IHk, r_add. f_equal; lia.
Qed.
Lemma r_eq i j i' j' : pp i j = pp i' j' -> (m | i - i') /\ (n | j - j').
Proof.
  intros E. apply r_None. replace (i - i') with (i + - i') by lia. replace (j - j') with (j + - j') by lia. rewrite <- r_add, E, <- r_opp. apply (padd_opp_r FT keq_ok). apply r_on.
Qed.
Lemma r_xdis i j k l : ~ ((m | i - k) /\ (n | j - l)) -> ~ ((m | i + k) /\ (n | j + l)) -> xdis (pp i j) (pp k l).
Proof.
  intros N1 N2. apply (xdis_ne (A := A) FT keq_ok); auto using r_on.
  - intros E. apply N1, r_eq, E.
  - rewrite r_opp. intros E. apply N2. apply r_eq in E. replace (i + k) with (i - - k) by lia. replace (j + l) with (j - - l) by lia. exact E.
Qed.
(** coordinates a X + t (b X + Y) *)
Local Notation q b a t := (pp (a + b * t) t).
Lemma q_eq b a t a' t' : q b a t = q b a' t' -> (m | a - a') /\ (n | t - t').
Proof.
  intros E. apply r_eq in E. destruct E as [E1 E2]. split; [|exact E2]. replace (a - a') with (a + b * t - (a' + b * t') - b * (t - t')) by ring. apply Z.divide_sub_r; [exact E1|]. apply Z.divide_mul_r. apply (Z.divide_trans _ n); assumption.
Qed.
Lemma q_None b a t : q b a t = None -> (m | a) /\ (n | t).
Proof. intros E. replace a with (a - 0) by lia. replace t with (t - 0) by lia. apply (q_eq b). rewrite E. symmetry. apply r_None. split; [exists 0; ring|exists 0; ring]. Qed.
Lemma q_add b a t a' t' : padd (q b a t) (q b a' t') = q b (a + a') (t + t').
Proof. rewrite r_add. f_equal. ring. Qed.
Lemma q_mul b k a t : pmul_nat k (q b a t) = q b (Z.of_nat k * a) (Z.of_nat k * t).
Proof. rewrite r_mul. f_equal. ring. Qed.
Lemma q_opp b a t : popp (q b a t) = q b (- a) (- t). Proof. rewrite r_opp. f_equal. ring. Qed.
Lemma q_mod b a t a' t' : (m | a - a') -> (n | t - t') -> q b a t = q b a' t'.
Proof. intros D1 D2. apply r_mod; [|exact D2]. replace (a + b * t - (a' + b * t')) with (a - a' + b * (t - t')) by ring. apply Z.divide_add_r; [exact D1|]. apply Z.divide_mul_r. apply (Z.divide_trans _ n); assumption. Qed.
Lemma q_xdis b a t : ~ (m | a) -> forall k, xdis (pmul_nat k (q b a t)) (q b 0 1).
Proof.
  intros ND k. rewrite q_mul. set (z := Z.of_nat k). clearbody z.
  assert (C : forall e, (e = 1 \/ e = -1) -> (m | z * a) -> (n | z * t - e) -> False).
  { intros e He D1 D2. apply ND. apply (Z.gauss m z); [exact D1|]. apply Zgcd_1_rel_prime. apply bezout_rel_prime. assert (D3 : (m | z * t - e)) by (apply (Z.divide_trans _ n); assumption). destruct D3 as [c Hc]. apply (Bezout_intro _ _ _ (- (e * c)) (e * t)). destruct He; subst e; lia. }
  apply (xdis_ne (A := A) FT keq_ok); auto using r_on.
  - intros E. apply q_eq in E. destruct E as [E1 E2]. apply (C 1); auto. replace (z * a) with (z * a - 0) by lia. exact E1.
  - rewrite q_opp. intros E. apply q_eq in E. destruct E as [E1 E2]. apply (C (-1)); auto. replace (z * a) with (z * a - - 0) by lia. exact E1.
Qed.
Lemma q_xdis' b a t : ~ (m | a) -> forall k, xdis (pmul_nat k (q b 0 1)) (q b a t).
Proof.
  intros ND k. rewrite q_mul. apply (xdis_ne (A := A) FT keq_ok); auto using r_on.
  - intros E. apply q_eq in E. destruct E as [E1 _]. apply ND. apply Z.divide_opp_r. replace (- a) with (Z.of_nat k * 0 - a) by lia. exact E1.
  - rewrite q_opp. intros E. apply q_eq in E. destruct E as [E1 _]. apply ND. replace a with (Z.of_nat k * 0 - - a) by lia. exact E1.
Qed.
Lemma q_xd b a t : ~ (m | a) -> xdis (q b a t) (q b 0 1).
Proof. intros ND. pose proof (q_xdis b a t ND 1%nat) as D. exact D. Qed.
Lemma q_fin b a t : ~ (m | a) -> fin (q b a t) = true.
Proof. intros ND. destruct (q b a t) eqn:E; [reflexivity|]. apply q_None in E. tauto. Qed.
Lemma q_exact b k : (0 < k < N)%nat -> pmul_nat k (q b 0 1) <> None.
Proof. intros Hk E. rewrite q_mul in E. apply q_None in E. destruct E as [_ E]. rewrite Z.mul_1_r in E. apply Z.divide_pos_le in E; lia. Qed.
Lemma q_ord b a t : pmul_nat N (q b a t) = None.
Proof. rewrite r_mul, Z2Nat.id by lia. apply r_None. split; [apply Z.divide_mul_l; exact Dm|apply Z.divide_factor_l]. Qed.
Definition G (b a t : Z) : K := wp N (q b a t) (q b 0 1).
Lemma G_mod b a t a' t' : (m | a - a') -> (n | t - t') -> G b a t = G b a' t'.
Proof. intros D1 D2. unfold G. rewrite (q_mod b a t a' t' D1 D2). reflexivity. Qed.
Lemma G_nz b a t : ~ (m | a) -> G b a t <> k0.
Proof. intros ND. apply (wp_anti FT keq_ok two_nz N _ _ (r_on _ _) (r_on _ _) (q_xdis b a t ND) (q_xdis' b a t ND)). Qed.
(* the four points of wp_add in coordinates: a multiple of m and t = 1 or -1 *)
Definition hit (a t : Z) : Prop := (m | a) /\ ((n | t - 1) \/ (n | t + 1)).
Lemma q_xd2 b a t : ~ hit a t -> xdis (q b a t) (q b 0 1).
Proof.
  intros NH. apply (xdis_ne (A := A) FT keq_ok); auto using r_on.
  - intros E. apply q_eq in E. destruct E as [E1 E2]. apply NH. split; [|left; exact E2]. rewrite Z.sub_0_r in E1. exact E1.
  - rewrite q_opp. intros E. apply q_eq in E. destruct E as [E1 E2]. apply NH. split; [|right; replace (t + 1) with (t - - (1)) by lia; exact E2]. replace a with (a - - 0) by lia. exact E1.
Qed.
Lemma hit_dec a t : {hit a t} + {~ hit a t}.
Proof. unfold hit. destruct (Zdivide_dec m a); [|right; tauto]. destruct (Zdivide_dec n (t - 1)); [left; tauto|]. destruct (Zdivide_dec n (t + 1)); [left; tauto|right; tauto]. Qed.
Lemma G_add_hit b a t a' t' : ~ (m | a) -> ~ (m | a') -> ~ (m | a + a') -> (forall z, 0 < z -> hit (z * a + (z - 1) * a') (z * t + (z - 1) * t') -> hit (z * a + a') (z * t + t') -> hit (z * a' + (z - 1) * a) (z * t' + (z - 1) * t) -> hit (z * a' + a) (z * t' + t) -> False) ->
  G b (a + a') (t + t') = G b a t ** G b a' t'.
Proof.
  intros N1 N2 N3 N4. unfold G. rewrite (wp_add FT keq_ok two_nz smooth); auto using r_on, q_ord, q_xdis, q_xdis', q_fin, q_exact.
  - rewrite q_add, (q_fin b _ _ N3). reflexivity.
  - lia.
  - intros k. rewrite q_add. apply q_xdis. exact N3.
  - intros k. rewrite q_add. apply q_xdis'. exact N3.
  - intros k. rewrite !q_mul, !q_add. set (z := Z.of_nat (S k)). assert (Eb : Z.of_nat k = z - 1) by lia. rewrite Eb. assert (Pz : 0 < z) by lia. clearbody z.
    destruct (hit_dec (z * a + (z - 1) * a') (z * t + (z - 1) * t')) as [D1|D1]; [|left; apply q_xd2; exact D1].
    destruct (hit_dec (z * a + a') (z * t + t')) as [D2|D2]; [|right; left; apply q_xd2; exact D2].
    destruct (hit_dec (z * a' + (z - 1) * a) (z * t' + (z - 1) * t)) as [D3|D3]; [|right; right; left; apply q_xd2; exact D3].
    destruct (hit_dec (z * a' + a) (z * t' + t)) as [D4|D4]; [|right; right; right; apply q_xd2; exact D4].
    exfalso. exact (N4 z Pz D1 D2 D3 D4).
Qed.
Lemma G_add b a t a' t' : ~ (m | a) -> ~ (m | a') -> ~ (m | a + a') -> ~ ((m | a - a') /\ (m | 3 * a)) -> G b (a + a') (t + t') = G b a t ** G b a' t'.
Proof.
  intros N1 N2 N3 N4. apply G_add_hit; auto. intros z _ [D1 _] [D2 _] [D3 _] _.
  apply N4. assert (E4 : (m | a - a')) by (replace (a - a') with (z * a + (z - 1) * a' - (z * a' + (z - 1) * a)) by ring; apply Z.divide_sub_r; assumption). split; [exact E4|].
  replace (3 * a) with (2 * (z * a + a' + (a - a')) - (z * a + (z - 1) * a' + (z - 1) * (a - a'))) by ring.
  apply Z.divide_sub_r; [apply Z.divide_mul_r, Z.divide_add_r; assumption|]. apply Z.divide_add_r; [assumption|]. apply Z.divide_mul_r. assumption.
Qed.
Lemma G_inv b a t : ~ (m | a) -> G b a t ** G b (- a) (- t) = k1.
Proof.
  intros N1. assert (N2 : ~ (m | - a)) by (intros D; apply N1, Z.divide_opp_r; exact D).
  assert (E : padd (q b a t) (q b (- a) (- t)) = None) by (rewrite q_add, !Z.add_opp_diag_r; apply r_None; split; [exists 0; ring|apply Z.divide_0_r]).
  unfold G. rewrite (wp_add FT keq_ok two_nz smooth); auto using r_on, q_ord, q_xdis, q_xdis', q_fin, q_exact.
  - rewrite E. reflexivity.
  - lia.
  - intros k. rewrite E, pmul_nat_None. exact I.
  - intros k. rewrite E. destruct (pmul_nat k _) as [[]|]; exact I.
  - intros k. left. rewrite !q_mul, q_add. apply q_xd. replace (Z.of_nat (S k) * a + Z.of_nat k * - a) with a by lia. exact N1.
Qed.
Lemma nd a : 0 < a < m -> ~ (m | a). Proof. intros H D. apply Z.divide_pos_le in D; lia. Qed.
Context (Hm2 : 2 < m) (Od : Z.odd n = true).
(** a X + t W pairs with W = b X + Y as u^a c^t *)
Definition u b := G b 1 0.
Definition c b := kdiv (G b 1 1) (u b).
Lemma u_nz b : u b <> k0. Proof. apply G_nz, nd. lia. Qed.
Lemma c_nz b : c b <> k0. Proof. unfold c. intros Z. apply (G_nz b 1 1 ltac:(apply nd; lia)). transitivity (kdiv (G b 1 1) (u b) ** u b); [field; apply u_nz|rewrite Z; ring]. Qed.
Lemma n_half e : (n | 2 * e) -> (n | e).
Proof. intros D. apply (Z.gauss n 2 e D). apply Zgcd_1_rel_prime. apply Z.odd_spec in Od. destruct Od as [h Eh]. apply bezout_rel_prime. apply (Bezout_intro _ _ _ 1 (- h)). lia. Qed.
Lemma n_small e : 0 < e < n -> ~ (n | e). Proof. intros H D. apply Z.divide_pos_le in D; lia. Qed.
(* for m = 3 the sum of X + tW and X + t'W is covered unless t - t' = 2 or -2 and 3(t + t') = 0 *)
Definition badp t t' : Prop := ((n | t - t' - 2) \/ (n | t - t' + 2)) /\ (n | 3 * (t + t')).
Lemma Mx3 b t t' : m = 3 -> ~ badp t t' -> G b (1 + 1) (t + t') = G b 1 t ** G b 1 t'.
Proof.
  intros E3 NB. apply G_add_hit; try (apply nd; lia). intros z Pz [M1 H1] [M2 H2] [_ H3] [_ H4]. rewrite E3 in M1, M2. assert (D3 : (3 | n)) by (rewrite <- E3; exact Dm).
  assert (No : forall e, (3 | e) -> (n | e - 1) \/ (n | e + 1) -> False).
  { intros e [c Hc] [D|D]; apply (Z.divide_trans 3) in D; try exact D3; destruct D as [c' Hc']; lia. }
  assert (Z1 : (3 | z - 2)) by (destruct M2 as [c Hc]; exists (c - 1); lia). assert (Z2 : (3 | 2 * z - 1)) by (destruct M1 as [c Hc]; exists c; lia).
  assert (E13 : (n | t - t') \/ ((n | t - t' - 2) \/ (n | t - t' + 2)) /\ (n | (2 * z - 1) * (t + t'))).
  { assert (S0 : z * t + (z - 1) * t' + (z * t' + (z - 1) * t) = (2 * z - 1) * (t + t')) by ring. assert (S1 : z * t + (z - 1) * t' - (z * t' + (z - 1) * t) = t - t') by ring. rewrite <- S0, <- S1. clear - H1 H3. generalize dependent (z * t + (z - 1) * t'). generalize dependent (z * t' + (z - 1) * t). intros x Hx y Hy.
    destruct Hy as [[c Hc]|[c Hc]], Hx as [[d Hd]|[d Hd]].
    - left. exists (c - d). lia.
    - right. split; [left; exists (c - d); lia|exists (c + d); lia].
    - right. split; [right; exists (c - d); lia|exists (c + d); lia].
    - left. exists (c - d). lia. }
  destruct E13 as [E13|[E13 S13]].
  { (* t = t' *) destruct E13 as [c Hc]. apply (No ((2 * z - 1) * t)); [apply Z.divide_mul_l; exact Z2|]. assert (E : z * t + (z - 1) * t' = (2 * z - 1) * t - (z - 1) * c * n) by (replace t' with (t - c * n) by lia; ring). rewrite E in H1.
    destruct H1 as [[d Hd]|[d Hd]]; [left|right]; exists (d + (z - 1) * c); lia. }
  apply NB. split; [exact E13|].
  (* z = 2 *)
  assert (E24 : (n | (z - 1) * (t - t')) \/ (n | (z - 1) * (t - t') - 2) \/ (n | (z - 1) * (t - t') + 2)).
  { replace ((z - 1) * (t - t')) with (z * t + t' - (z * t' + t)) by ring. clear - H2 H4. generalize dependent (z * t + t'). generalize dependent (z * t' + t). intros x Hx y Hy. destruct Hy as [[c Hc]|[c Hc]], Hx as [[d Hd]|[d Hd]]; [left|right; left|right; right|left]; exists (c - d); lia. }
  assert (EZ : (n | z - 1) \/ (n | z - 2) \/ (n | z)).
  { destruct E13 as [[c Hc]|[c Hc]]; [assert (ET : t - t' = 2 + c * n) by lia|assert (ET : t - t' = - (2) + c * n) by lia]; rewrite ET in E24; destruct E24 as [[d Hd]|[[d Hd]|[d Hd]]].
    - left. apply n_half. exists (d - c * (z - 1)). lia.
    - right. left. apply n_half. exists (d - c * (z - 1)). lia.
    - right. right. apply n_half. exists (d - c * (z - 1)). lia.
    - left. apply n_half. exists (- (d - c * (z - 1))). lia.
    - right. right. apply n_half. exists (- (d - c * (z - 1))). lia.
    - right. left. apply n_half. exists (- (d - c * (z - 1))). lia. }
  assert (EZ2 : (n | z - 2)).
  { destruct EZ as [D|[D|D]]; [|exact D|]; exfalso; apply (Z.divide_trans 3) in D; try exact D3; destruct D as [c Hc], Z1 as [d Hd]; lia. }
  destruct EZ2 as [c Hc], S13 as [d Hd]. exists (d - 2 * c * (t + t')). replace z with (2 + c * n) in Hd by lia. lia.
Qed.
Lemma Mx b a t t' : 0 < a -> a + 1 < m -> (m = 3 -> ~ badp t t') -> G b (a + 1) (t + t') = G b a t ** G b 1 t'.
Proof.
  intros H1 H2 HB. destruct (Z.eq_dec m 3) as [E3|N3]; [assert (a = 1) as -> by lia; apply Mx3; auto|].
  apply G_add; try (apply nd; lia). intros [D1 D2]. assert (a = 1 \/ 0 < a - 1 < m) as [->|E] by lia; [revert D2; apply nd; lia|revert D1; apply nd; exact E].
Qed.
Lemma three_n : m = 3 -> n <> 5. Proof. intros E3 E5. pose proof Dm as [c Hc]. lia. Qed.
Lemma bad0 t : ~ badp t 0.
Proof.
  intros [[[c Hc]|[c Hc]] [d Hd]].
  - apply (n_small 3 ltac:(lia)). apply n_half. exists (d - 3 * c). lia.
  - apply (n_small 3 ltac:(lia)). apply n_half. exists (3 * c - d). lia.
Qed.
Lemma bad1 t : 0 <= t -> t + 1 < n -> ~ badp t 1.
Proof.
  intros Ht Hn1 [[[c Hc]|[c Hc]] [d Hd]].
  - apply (n_small 3 ltac:(lia)). apply n_half. apply n_half. exists (d - 3 * c). lia.
  - apply (n_small (t + 1) ltac:(lia)). exists c. lia.
Qed.
Lemma G1a b k : Z.of_nat k < n -> G b 1 (Z.of_nat k) = u b ** pw (c b) k.
Proof.
  induction k; intros Hk; [cbn; unfold u; ring|]. pose proof (Mx b 1 (Z.of_nat k) 1 ltac:(lia) ltac:(lia) (fun _ => bad1 (Z.of_nat k) ltac:(lia) ltac:(lia))) as M1. pose proof (Mx b 1 (Z.of_nat (S k)) 0 ltac:(lia) ltac:(lia) (fun _ => bad0 _)) as M2.
  replace (Z.of_nat k + 1) with (Z.of_nat (S k) + 0) in M1 by lia. rewrite M2, IHk in M1 by lia. fold (u b) in M1. pose proof (u_nz b) as U.
  apply (cancel FT (u b)); [exact U|]. transitivity (G b 1 (Z.of_nat (S k)) ** u b); [ring|]. rewrite M1. cbn [L_Weil.pw]. unfold c. field. exact U.
Qed.
Lemma pw_p x i j : pw x (i + j) = pw x i ** pw x j. Proof. induction j; [rewrite Nat.add_0_r; cbn; ring|rewrite Nat.add_succ_r; cbn [L_Weil.pw]; rewrite IHj; ring]. Qed.
Lemma c_n b : pw (c b) N = k1.
Proof.
  assert (B1 : m = 3 -> ~ badp (n - 1) 2).
  { intros E3 [[[c Hc]|[c Hc]] _]; [|apply (n_small 1 ltac:(lia)); exists (1 - c); lia]. pose proof (three_n E3) as N5. assert (D5 : (n | 5)) by (exists (1 - c); lia). apply Z.divide_pos_le in D5 as L5; [|lia]. destruct D5 as [d Hd]. assert (n = 4 \/ n = 5) as [->| ->] by lia; [discriminate Od|congruence]. }
  pose proof (Mx b 1 (n - 1) 2 ltac:(lia) ltac:(lia) B1) as M1. pose proof (Mx b 1 1 0 ltac:(lia) ltac:(lia) (fun _ => bad0 _)) as M2. rewrite (G_mod b (1 + 1) (n - 1 + 2) (1 + 1) (1 + 0)) in M1; [|exists 0; lia|exists 1; lia]. rewrite M2 in M1.
  pose proof (G1a b (Z.to_nat (n - 1)) ltac:(lia)) as E1. pose proof (G1a b 2 ltac:(lia)) as E2. pose proof (G1a b 1 ltac:(lia)) as E3. pose proof (G1a b 0 ltac:(lia)) as E4. rewrite Z2Nat.id in E1 by lia. change (Z.of_nat 2) with 2 in E2. change (Z.of_nat 1) with 1 in E3. change (Z.of_nat 0) with 0 in E4. rewrite E1, E2, E3, E4 in M1.
  replace N with (Z.to_nat (n - 1) + 1)%nat by lia. rewrite pw_p. cbn [L_Weil.pw] in *. pose proof (u_nz b) as U. pose proof (c_nz b) as C.
  apply (cancel FT (u b ** u b ** c b)); [repeat apply nmul; assumption|]. transitivity (u b ** pw (c b) (Z.to_nat (n - 1)) ** (u b ** (k1 ** c b ** c b))); [ring|]. rewrite <- M1. ring.
Qed.
Lemma G1 b k : G b 1 (Z.of_nat k) = u b ** pw (c b) k.
Proof.
  pose proof (Z.mod_pos_bound (Z.of_nat k) n ltac:(lia)) as B. set (r := Z.to_nat (Z.of_nat k mod n)). set (d := Z.to_nat (Z.of_nat k / n)). assert (Hd : 0 <= Z.of_nat k / n) by (apply Z.div_pos; lia).
  assert (Ek : k = (N * d + r)%nat) by (unfold r, d; pose proof (Z.div_mod (Z.of_nat k) n ltac:(lia)); nia). rewrite (G_mod b 1 (Z.of_nat k) 1 (Z.of_nat r)); [|exists 0; lia|exists (Z.of_nat d); rewrite Ek at 1; lia].
  rewrite G1a by lia. rewrite Ek, pw_p. rewrite (pw_mul FT), c_n, (pw_1 FT). ring.
Qed.
Lemma Gat b k a : (0 < a)%nat -> Z.of_nat a < m -> G b (Z.of_nat a) (Z.of_nat k) = pw (u b) a ** pw (c b) k.
Proof.
  intros Ha. destruct a as [|a]; [lia|]. clear Ha. revert k. induction a; intros k Hk.
  - change (Z.of_nat 1) with 1. rewrite G1. cbn [L_Weil.pw]. ring.
  - pose proof (Mx b (Z.of_nat (S a)) (Z.of_nat k) 0 ltac:(lia) ltac:(lia) (fun _ => bad0 _)) as M1. replace (Z.of_nat (S a) + 1) with (Z.of_nat (S (S a))) in M1 by lia. rewrite Z.add_0_r in M1. rewrite M1, IHa by lia. fold (u b).
    change (pw (u b) (S (S a))) with (pw (u b) (S a) ** u b). ring.
Qed.
Lemma u_m b : pw (u b) (Z.to_nat m) = k1.
Proof.
  pose proof (G_inv b 1 0 ltac:(apply nd; lia)) as I1. rewrite (G_mod b (- (1)) (- 0) (Z.of_nat (Z.to_nat (m - 1))) (Z.of_nat 0)) in I1; [|exists (-1); lia|exists 0; lia]. rewrite Gat in I1 by lia. fold (u b) in I1.
  replace (Z.to_nat m) with (S (Z.to_nat (m - 1))) by lia. cbn [L_Weil.pw] in *. etransitivity; [|exact I1]. ring.
Qed.
(** the second argument moved from b to b + d *)
Lemma shift b d : (0 < d)%nat -> Z.of_nat d < m -> pw (u b) d ** (c b ** c (b + Z.of_nat d)) = pw (u (b + Z.of_nat d)) d.
Proof.
  intros Hd Hdm. set (b' := b + Z.of_nat d). assert (E1 : q b (Z.of_nat d) 1 = q b' 0 1) by (f_equal; unfold b'; lia). assert (E2 : q b' (- Z.of_nat d) 1 = q b 0 1) by (f_equal; unfold b'; lia).
  assert (ND : ~ (m | Z.of_nat d)) by (apply nd; lia). pose proof (proj1 (wp_anti FT keq_ok two_nz N _ _ (r_on _ _) (r_on _ _) (q_xdis b (Z.of_nat d) 1 ND) (q_xdis' b (Z.of_nat d) 1 ND))) as AN.
  rewrite E1 in AN. rewrite <- E1 in AN at 1. rewrite <- E2 in AN at 2. change (G b (Z.of_nat d) 1 ** G b' (- Z.of_nat d) 1 = k1) in AN.
  change 1 with (Z.of_nat 1) in AN. rewrite Gat in AN by lia. rewrite (G_mod b' (- Z.of_nat d) (Z.of_nat 1) (Z.of_nat (Z.to_nat m - d)) (Z.of_nat 1)) in AN; [|exists (-1); lia|exists 0; lia]. rewrite Gat in AN by lia.
  assert (Pa : forall x i j, pw x (i + j) = pw x i ** pw x j) by (intros x i j; induction j; [rewrite Nat.add_0_r; cbn; ring|rewrite Nat.add_succ_r; cbn [L_Weil.pw]; rewrite IHj; ring]).
  pose proof (u_m b') as U. replace (Z.to_nat m) with (Z.to_nat m - d + d)%nat in U by lia. rewrite Pa in U. cbn [L_Weil.pw] in AN. set (v := pw (u b') (Z.to_nat m - d)) in *.
  transitivity (pw (u b) d ** (c b ** c b') ** (v ** pw (u b') d)); [rewrite U; ring|]. transitivity (pw (u b) d ** (k1 ** c b) ** (v ** (k1 ** c b')) ** pw (u b') d); [ring|]. rewrite AN. ring.
Qed.
Lemma root_odd x : pw x N = k1 -> x ** x = k1 -> x = k1.
Proof.
  intros E S2. apply Z.odd_spec in Od. destruct Od as [h Eh]. replace N with (S (2 * Z.to_nat h)) in E by lia. cbn [L_Weil.pw] in E. rewrite (pw_mul FT) in E. replace (pw x 2) with (x ** x) in E by (cbn; ring). rewrite S2, (pw_1 FT) in E. rewrite <- E. ring.
Qed.
Lemma pw_m x y k : pw (x ** y) k = pw x k ** pw y k. Proof. induction k; [cbn; ring|cbn [L_Weil.pw]; rewrite IHk; ring]. Qed.
Lemma c_pair b : 3 < m -> c (b + 1) ** c (b + 2) = k1.
Proof.
  intros Hm3.
  pose proof (shift b 1 ltac:(lia) ltac:(lia)) as S01. pose proof (shift (b + 1) 1 ltac:(lia) ltac:(lia)) as S12. pose proof (shift (b + 2) 1 ltac:(lia) ltac:(lia)) as S23.
  pose proof (shift b 2 ltac:(lia) ltac:(lia)) as S02. pose proof (shift (b + 1) 2 ltac:(lia) ltac:(lia)) as S13. pose proof (shift b 3 ltac:(lia) ltac:(lia)) as S03.
  change (Z.of_nat 1) with 1 in *. change (Z.of_nat 2) with 2 in *. change (Z.of_nat 3) with 3 in *. replace (b + 1 + 1) with (b + 2) in * by lia. replace (b + 2 + 1) with (b + 3) in * by lia. replace (b + 1 + 2) with (b + 3) in * by lia.
  cbn [L_Weil.pw] in *. pose proof (u_nz b) as U0. pose proof (c_nz b) as C0. pose proof (c_nz (b + 1)) as C1. pose proof (c_nz (b + 2)) as C2. pose proof (c_nz (b + 3)) as C3. pose proof (c_n (b + 1)) as R1. pose proof (c_n (b + 2)) as R2.
  set (u0 := u b) in *. set (u1 := u (b + 1)) in *. set (u2 := u (b + 2)) in *. set (u3 := u (b + 3)) in *. set (c0 := c b) in *. set (c1 := c (b + 1)) in *. set (c2 := c (b + 2)) in *. set (c3 := c (b + 3)) in *. clearbody u0 u1 u2 u3 c0 c1 c2 c3.
  assert (E1 : u1 = u0 ** (c0 ** c1)) by (transitivity (k1 ** u1); [ring|rewrite <- S01; ring]). assert (E2 : u2 = u1 ** (c1 ** c2)) by (transitivity (k1 ** u2); [ring|rewrite <- S12; ring]). assert (E3 : u3 = u2 ** (c2 ** c3)) by (transitivity (k1 ** u3); [ring|rewrite <- S23; ring]).
  assert (U1 : u1 <> k0) by (rewrite E1; repeat apply nmul; assumption).
  assert (A1 : c0 ** c2 ** (c1 ** c1 ** c1 ** c1) = k1).
  { apply (cancel FT (u0 ** u0 ** (c0 ** c2))); [repeat apply nmul; assumption|]. transitivity (k1 ** u0 ** u0 ** (c0 ** c2)); [|ring]. rewrite S02, E2, E1. ring. }
  assert (A2 : c1 ** c3 ** (c2 ** c2 ** c2 ** c2) = k1).
  { apply (cancel FT (u1 ** u1 ** (c1 ** c3))); [repeat apply nmul; assumption|]. transitivity (k1 ** u1 ** u1 ** (c1 ** c3)); [|ring]. rewrite S13, E3, E2. ring. }
  assert (A3 : c0 ** c0 ** (c3 ** c3) ** (c1 ** c1 ** c1 ** c1 ** c1 ** c1) ** (c2 ** c2 ** c2 ** c2 ** c2 ** c2) = k1).
  { apply (cancel FT (u0 ** u0 ** u0 ** (c0 ** c3))); [repeat apply nmul; assumption|]. transitivity (k1 ** u0 ** u0 ** u0 ** (c0 ** c3)); [|ring]. rewrite S03, E3, E2, E1. ring. }
  assert (A4 : (c1 ** c2) ** (c1 ** c2) ** ((c1 ** c2) ** (c1 ** c2)) = k1).
  { transitivity (c0 ** c2 ** (c1 ** c1 ** c1 ** c1) ** (c0 ** c2 ** (c1 ** c1 ** c1 ** c1)) ** (c1 ** c3 ** (c2 ** c2 ** c2 ** c2) ** (c1 ** c3 ** (c2 ** c2 ** c2 ** c2)))); [|rewrite A1, A2; ring].
    transitivity ((c1 ** c2) ** (c1 ** c2) ** ((c1 ** c2) ** (c1 ** c2)) ** (c0 ** c0 ** (c3 ** c3) ** (c1 ** c1 ** c1 ** c1 ** c1 ** c1) ** (c2 ** c2 ** c2 ** c2 ** c2 ** c2))); [rewrite A3; ring|ring]. }
  assert (R : pw (c1 ** c2) N = k1) by (rewrite pw_m, R1, R2; ring). apply root_odd; [exact R|]. apply root_odd; [rewrite pw_m, R; ring|exact A4].
Qed.
Lemma c_one b : 3 < m -> c b = k1.
Proof.
  intros Hm3. pose proof (c_pair (b - 2) Hm3) as P1. pose proof (c_pair (b - 1) Hm3) as P2. replace (b - 2 + 1) with (b - 1) in P1 by lia. replace (b - 2 + 2) with b in P1 by lia. replace (b - 1 + 1) with b in P2 by lia. replace (b - 1 + 2) with (b + 1) in P2 by lia.
  pose proof (shift (b - 1) 1 ltac:(lia) ltac:(lia)) as S01. pose proof (shift b 1 ltac:(lia) ltac:(lia)) as S12. pose proof (shift (b - 1) 2 ltac:(lia) ltac:(lia)) as S02.
  change (Z.of_nat 1) with 1 in *. change (Z.of_nat 2) with 2 in *. replace (b - 1 + 1) with b in * by lia. replace (b - 1 + 2) with (b + 1) in * by lia. rewrite P1 in S01. rewrite P2 in S12. cbn [L_Weil.pw] in *.
  pose proof (u_nz (b - 1)) as U0. pose proof (c_nz b) as C1. pose proof (c_n b) as R1. set (u0 := u (b - 1)) in *. set (u1 := u b) in *. set (u2 := u (b + 1)) in *. set (c0 := c (b - 1)) in *. set (c1 := c b) in *. set (c2 := c (b + 1)) in *. clearbody u0 u1 u2 c0 c1 c2.
  assert (E : u2 = u0) by (transitivity (k1 ** u2); [ring|rewrite <- S12; transitivity (k1 ** u1); [ring|rewrite <- S01; ring]]). subst u2.
  assert (A1 : c0 ** c2 = k1) by (apply (cancel FT (u0 ** u0)); [apply nmul; assumption|]; transitivity (k1 ** u0 ** u0 ** (c0 ** c2)); [ring|rewrite S02; ring]).
  apply root_odd; [exact R1|]. transitivity (c0 ** c1 ** (c1 ** c2)); [|rewrite P1, P2; ring]. transitivity (c1 ** c1 ** (c0 ** c2)); [rewrite A1|]; ring.
Qed.
(** the pairing with Y is multiplicative on a X + s Y *)
Lemma rel_pow a s : 3 < m -> 0 < a < m -> 0 <= s -> wp N (pp a s) (pp 0 1) = pw (wp N (pp 1 0) (pp 0 1)) (Z.to_nat a).
Proof.
  intros Hm3 Ha Hs. pose proof (Gat 0 (Z.to_nat s) (Z.to_nat a) ltac:(lia) ltac:(lia)) as E. rewrite !Z2Nat.id in E by lia. rewrite (c_one 0 Hm3), (pw_1 FT) in E. unfold u, G in E. replace (a + 0 * s) with a in E by lia. replace (0 + 0 * 1) with 0 in E by lia. replace (1 + 0 * 0) with 1 in E by lia. rewrite E. ring.
Qed.
(** the pairing of X + s Y with Y is killed by m *)
Lemma cube_one b : m = 3 -> pw (c b) 3 = k1.
Proof.
  intros E3. pose proof (shift (b - 1) 1 ltac:(lia) ltac:(lia)) as S01. pose proof (shift b 1 ltac:(lia) ltac:(lia)) as S12. pose proof (shift (b - 1) 2 ltac:(lia) ltac:(lia)) as S02.
  pose proof (u_m (b - 1)) as V0. pose proof (u_m b) as V1. pose proof (u_m (b + 1)) as V2. rewrite E3 in V0, V1, V2. change (Z.to_nat 3) with 3%nat in *.
  change (Z.of_nat 1) with 1 in *. change (Z.of_nat 2) with 2 in *. replace (b - 1 + 1) with b in * by lia. replace (b - 1 + 2) with (b + 1) in * by lia. pose proof (c_n b) as R1.
  pose proof (u_nz (b - 1)) as U0. pose proof (c_nz (b - 1)) as C0. pose proof (c_nz b) as C1. pose proof (c_nz (b + 1)) as C2. set (u0 := u (b - 1)) in *. set (u1 := u b) in *. set (u2 := u (b + 1)) in *. set (c0 := c (b - 1)) in *. set (c1 := c b) in *. set (c2 := c (b + 1)) in *. clearbody u0 u1 u2 c0 c1 c2.
  apply root_odd; [rewrite <- (pw_mul FT), Nat.mul_comm, (pw_mul FT), R1; apply (pw_1 FT)|]. cbn [L_Weil.pw] in *.
  assert (E1 : u1 = u0 ** (c0 ** c1)) by (transitivity (k1 ** u1); [ring|rewrite <- S01; ring]). assert (E2 : u2 = u1 ** (c1 ** c2)) by (transitivity (k1 ** u2); [ring|rewrite <- S12; ring]).
  assert (A1 : c0 ** c2 ** (c1 ** c1 ** c1 ** c1) = k1).
  { apply (cancel FT (u0 ** u0 ** (c0 ** c2))); [repeat apply nmul; assumption|]. transitivity (k1 ** u0 ** u0 ** (c0 ** c2)); [|ring]. rewrite S02, E2, E1. ring. }
  assert (A2 : (c0 ** c1) ** (c0 ** c1) ** (c0 ** c1) = k1) by (transitivity (k1 ** u1 ** u1 ** u1); [rewrite E1|exact V1]; transitivity ((k1 ** u0 ** u0 ** u0) ** ((c0 ** c1) ** (c0 ** c1) ** (c0 ** c1))); [rewrite V0; ring|ring]).
  assert (A3 : (c1 ** c2) ** (c1 ** c2) ** (c1 ** c2) = k1) by (transitivity (k1 ** u2 ** u2 ** u2); [rewrite E2|exact V2]; transitivity ((k1 ** u1 ** u1 ** u1) ** ((c1 ** c2) ** (c1 ** c2) ** (c1 ** c2))); [rewrite V1; ring|ring]).
  transitivity ((c0 ** c2 ** (c1 ** c1 ** c1 ** c1)) ** (c0 ** c2 ** (c1 ** c1 ** c1 ** c1)) ** (c0 ** c2 ** (c1 ** c1 ** c1 ** c1))); [|rewrite A1; ring].
  transitivity (((c0 ** c1) ** (c0 ** c1) ** (c0 ** c1)) ** ((c1 ** c2) ** (c1 ** c2) ** (c1 ** c2)) ** (k1 ** c1 ** c1 ** c1 ** (k1 ** c1 ** c1 ** c1))); [rewrite A2, A3; ring|ring].
Qed.
Lemma rel_root s : 0 <= s -> pw (wp N (pp 1 s) (pp 0 1)) (Z.to_nat m) = k1.
Proof.
  intros Hs. pose proof (G1 0 (Z.to_nat s)) as E. rewrite Z2Nat.id in E by lia. unfold G in E. replace (1 + 0 * s) with 1 in E by lia. replace (0 + 0 * 1) with 0 in E by lia. rewrite E, pw_m, u_m, <- (pw_mul FT), Nat.mul_comm, (pw_mul FT).
  destruct (Z.eq_dec m 3) as [E3|N3].
  - pose proof (cube_one 0 E3) as C3. rewrite E3. change (Z.to_nat 3) with 3%nat. rewrite C3, (pw_1 FT). ring.
  - rewrite c_one, !(pw_1 FT) by lia. ring.
Qed.
End Rel.
Lemma least (f : nat -> bool) n : (0 < n)%nat -> f n = true -> exists m, (0 < m <= n)%nat /\ f m = true /\ forall k, (0 < k < m)%nat -> f k = false.
Proof.
  induction n as [n IH] using (well_founded_induction lt_wf). intros Hn Fn. destruct (existsb f (seq 1 (n - 1))) eqn:E.
  - apply existsb_exists in E. destruct E as (k & Ik & Fk). apply in_seq in Ik. destruct (IH k) as (m & B & R); [lia|lia|exact Fk|]. exists m. split; [lia|exact R].
  - exists n. split; [lia|]. split; [exact Fn|]. intros k Hk. destruct (f k) eqn:Fk; [|reflexivity]. exfalso. assert (T : existsb f (seq 1 (n - 1)) = true) by (apply existsb_exists; exists k; split; [apply in_seq; lia|exact Fk]). congruence.
Qed.
(** ** Relative order of P modulo the multiples of Q *)
Section Order.
Context (P Q : pt K) (HP : on P) (HQ : on Q) (n : Z) (Hn : (3 < n)%Z).
Context (OP : pmul_nat (Z.to_nat n) P = None) (OQ : pmul_nat (Z.to_nat n) Q = None) (EQ : forall k : nat, pmul_nat k Q = None -> (n | Z.of_nat k)%Z).
Local Open Scope Z_scope.
Local Notation pp := (pz P Q n).
Lemma o_add i j i' j' : padd (pp i j) (pp i' j') = pp (i + i') (j + j').
Proof. apply (pz_add FT keq_ok two_nz smooth P Q HP HQ n Hn OP OQ). Qed.
Lemma o_0 : pp 0 0 = None. Proof. unfold L_Weil.pz. rewrite Z.mod_0_l by lia. reflexivity. Qed.
Lemma o_mul k i j : pmul_nat k (pp i j) = pp (Z.of_nat k * i) (Z.of_nat k * j).
Proof. induction k; [symmetry; exact o_0|]. rewrite pmul_nat_S, IHk, o_add. f_equal; lia. Qed.
Lemma o_mulZ k i j : 0 <= k -> pp i j = None -> pp (k * i) (k * j) = None.
Proof. intros Hk E. pose proof (o_mul (Z.to_nat k) i j) as M. rewrite Z2Nat.id, E, pmul_nat_None in M by lia. symmetry. exact M. Qed.
Lemma o_opp i j : pp i j = None -> pp (- i) (- j) = None.
Proof. intros E. rewrite (pz_mod P Q n (- i) (- j) ((n - 1) * i) ((n - 1) * j)); [apply o_mulZ; [lia|exact E]|exists (- i); ring|exists (- j); ring]. Qed.
Lemma o_sub i j i' j' k : 0 <= k -> pp i j = None -> pp i' j' = None -> pp (i - k * i') (j - k * j') = None.
Proof. intros Hk E1 E2. replace (i - k * i') with (i + - (k * i')) by lia. replace (j - k * j') with (j + - (k * j')) by lia. rewrite <- o_add, E1, o_opp by (apply o_mulZ; assumption). reflexivity. Qed.
Lemma o_P : pp 1 0 = P. Proof. unfold L_Weil.pz. rewrite Z.mod_1_l, Z.mod_0_l by lia. change (Z.to_nat 1) with 1%nat. change (Z.to_nat 0) with 0%nat. cbn [S_Curve.pmul_nat]. destruct P as [[]|]; reflexivity. Qed.
Lemma o_Q0 j : pp 0 j = None -> (n | j).
Proof.
  unfold L_Weil.pz. rewrite Z.mod_0_l by lia. cbn [Z.to_nat S_Curve.pmul_nat]. intros E. pose proof (Z.mod_pos_bound j n ltac:(lia)). assert (E' : pmul_nat (Z.to_nat (j mod n)) Q = None) by (destruct (pmul_nat (Z.to_nat (j mod n)) Q) as [[]|]; [discriminate E|reflexivity]).
  apply EQ in E'. rewrite Z2Nat.id in E' by lia. rewrite (Z.div_mod j n) by lia. apply Z.divide_add_r; [apply Z.divide_factor_l|exact E'].
Qed.
Definition dep (i : nat) : bool := existsb (fun j => match pp (Z.of_nat i) (Z.of_nat j) with None => true | _ => false end) (seq 0 (Z.to_nat n)).
Lemma dep_ok i : dep i = true <-> exists j, pp (Z.of_nat i) j = None.
Proof.
  unfold dep. rewrite existsb_exists. split.
  - intros (j & _ & E). exists (Z.of_nat j). destruct (pp _ _); [discriminate|reflexivity].
  - intros [j E]. pose proof (Z.mod_pos_bound j n ltac:(lia)) as B. exists (Z.to_nat (j mod n)). split; [apply in_seq; lia|]. rewrite Z2Nat.id by lia.
    rewrite (pz_mod P Q n (Z.of_nat i) (j mod n) (Z.of_nat i) j); [rewrite E; reflexivity|exists 0; lia|]. exists (- (j / n)). rewrite Z.mod_eq by lia. ring.
Qed.
Theorem rel_pair : Z.odd n = true -> exists m, 0 < m /\ (m | n) /\ (exists s, 0 <= s < n /\ pp m (m * s) = None) /\ (forall i j, pp i j = None -> (m | i)) /\
  (m = 1 \/ pw (wp (Z.to_nat n) P Q) (Z.to_nat m) = k1).
Proof.
  intros Od. assert (Tn : dep (Z.to_nat n) = true).
  { apply dep_ok. exists 0. rewrite Z2Nat.id by lia. rewrite (pz_mod P Q n n 0 0 0); [exact o_0|exists 1; lia|exists 0; lia]. }
  destruct (least dep (Z.to_nat n) ltac:(lia) Tn) as (mm & Bm & Tm & Mn). set (m := Z.of_nat mm). assert (Pm : 0 < m) by (unfold m; lia).
  assert (Dv : forall i j, pp i j = None -> (m | i)).
  { intros i j E. apply dep_ok in Tm. destruct Tm as [k Ek]. fold m in Ek. pose proof (Z.mod_pos_bound i m Pm) as B. apply Z.mod_divide; [lia|]. destruct (Z.eq_dec (i mod m) 0) as [Z0|NZ]; [exact Z0|exfalso].
    assert (F : dep (Z.to_nat (i mod m)) = true).
    { apply dep_ok. rewrite Z2Nat.id by lia. rewrite Z.mod_eq by lia. rewrite (Z.mul_comm m). destruct (Z.le_gt_cases 0 (i / m)) as [C|C].
      - exists (j - i / m * k). apply o_sub; assumption.
      - exists (j - - (i / m) * - k). replace (i - i / m * m) with (i - - (i / m) * - m) by ring. apply o_sub; [lia|exact E|apply o_opp; exact Ek]. }
    rewrite (Mn (Z.to_nat (i mod m))) in F by (unfold m in *; lia). discriminate. }
  assert (Dn : (m | n)) by (apply (Dv n 0); rewrite (pz_mod P Q n n 0 0 0); [exact o_0|exists 1; lia|exists 0; lia]).
  apply dep_ok in Tm. destruct Tm as [k0' Ek0]. fold m in Ek0. set (k := k0' mod n). pose proof (Z.mod_pos_bound k0' n ltac:(lia)) as Bk. fold k in Bk.
  assert (Ek : pp m k = None) by (rewrite (pz_mod P Q n m k m k0'); [exact Ek0|exists 0; lia|]; unfold k; exists (- (k0' / n)); rewrite Z.mod_eq by lia; ring). clearbody k. clear Ek0 k0'.
  (* k is a multiple of m *)
  pose proof Dn as [d Hd]. assert (Pd : 0 < d) by nia. assert (Dk : (m | k)).
  { pose proof (o_mulZ d m k ltac:(lia) Ek) as E. rewrite <- Hd in E. rewrite (pz_mod P Q n n (d * k) 0 (d * k)) in E; [|exists 1; lia|exists 0; lia]. apply o_Q0 in E. destruct E as [t Ht]. exists t. nia. }
  destruct Dk as [k' Hk']. assert (Bk' : 0 <= k' < n) by nia.
  exists m. split; [exact Pm|]. split; [exact Dn|]. split; [exists k'; split; [exact Bk'|]; rewrite <- Ek; f_equal; lia|]. split; [exact Dv|].
  destruct (Z.eq_dec m 1) as [->|N1]; [left; reflexivity|]. right.
  assert (N2 : m <> 2). { intros E. rewrite E in Dn. destruct Dn as [d' Hd']. apply Z.odd_spec in Od. destruct Od as [h Hh]. lia. }
  set (X := pp 1 k'). assert (HX : on X) by (apply (pz_on FT keq_ok two_nz P Q HP HQ)).
  assert (MX : forall i, pmul_nat i X = pp (Z.of_nat i) (Z.of_nat i * k')) by (intros i; unfold X; rewrite o_mul, Z.mul_1_r; reflexivity).
  assert (MQ : forall j, pmul_nat j Q = pp 0 (Z.of_nat j)).
  { assert (Q1 : pp 0 1 = Q) by (unfold L_Weil.pz; rewrite Z.mod_1_l, Z.mod_0_l by lia; reflexivity). intros j. rewrite <- Q1 at 1. rewrite o_mul. f_equal; lia. }
  assert (OX : pmul_nat (Z.to_nat m) X = None) by (rewrite MX, Z2Nat.id by lia; rewrite <- Ek; f_equal; lia).
  assert (IN : forall i j : nat, padd (pmul_nat i X) (pmul_nat j Q) = None -> (m | Z.of_nat i) /\ (n | Z.of_nat j)).
  { intros i j E. pose proof E as E'. rewrite MX, MQ, o_add in E'. rewrite Z.add_0_r in E'. apply Dv in E'. split; [exact E'|]. destruct E' as [c Hc]. assert (0 <= c) by nia.
    assert (Z0 : pmul_nat i X = None) by (rewrite <- (Nat2Z.id i), Hc, Z2Nat.inj_mul by lia; rewrite (pmul_nat_mul FT keq_ok two_nz smooth) by exact HX; rewrite OX; apply pmul_nat_None).
    rewrite Z0 in E. apply EQ. destruct (pmul_nat j Q) as [[]|]; [discriminate E|reflexivity]. }
  pose proof (rel_root X Q HX HQ n m Hn ltac:(lia) ltac:(exists d; exact Hd) OX OQ IN ltac:(lia) Od (n - k') ltac:(lia)) as R.
  assert (PX : pz X Q n 1 (n - k') = P).
  { unfold L_Weil.pz at 1. rewrite Z.mod_1_l by lia. change (pmul_nat (Z.to_nat 1) X) with X. rewrite <- (mul_mod FT keq_ok two_nz smooth n Hn Q (n - k') HQ OQ) by lia. rewrite MQ, Z2Nat.id by lia. unfold X. rewrite o_add. replace (k' + (n - k')) with n by lia.
    rewrite (pz_mod P Q n (1 + 0) n 1 0); [exact o_P|exists 0; lia|exists 1; lia]. }
  assert (QX : pz X Q n 0 1 = Q) by (unfold L_Weil.pz; rewrite Z.mod_1_l, Z.mod_0_l by lia; reflexivity). rewrite PX, QX in R. exact R.
Qed.
Lemma rel_xdis m s : 1 < m -> pp m (m * s) = None -> (m | n) -> (forall i j, pp i j = None -> (m | i)) -> (forall k, xdis (pmul_nat k P) Q) /\ (forall k, xdis (pmul_nat k Q) P).
Proof.
  intros Hm Es Dn Dv. assert (Q1 : pp 0 1 = Q) by (unfold L_Weil.pz; rewrite Z.mod_1_l, Z.mod_0_l by lia; reflexivity).
  assert (MP : forall k, pmul_nat k P = pp (Z.of_nat k) 0) by (intros k; rewrite <- o_P at 1; rewrite o_mul; f_equal; lia). assert (MQ : forall k, pmul_nat k Q = pp 0 (Z.of_nat k)) by (intros k; rewrite <- Q1 at 1; rewrite o_mul; f_equal; lia).
  assert (On : forall i j, on (pp i j)) by (intros; apply (pz_on FT keq_ok two_nz P Q HP HQ)).
  assert (Op : forall i j, popp (pp i j) = pp (- i) (- j)) by (intros i j; symmetry; apply (padd_None (A := A) FT keq_ok two_nz); auto; rewrite o_add, !Z.add_opp_diag_r; exact o_0).
  assert (Sb : forall i j i' j', pp i j = pp i' j' -> pp (i - i') (j - j') = None) by (intros i j i' j' E; replace (i - i') with (i + - i') by lia; replace (j - j') with (j + - j') by lia; rewrite <- o_add, E, <- Op; apply (padd_opp_r FT keq_ok); auto).
  assert (N1 : ~ (m | 1)) by (intros D; apply Z.divide_pos_le in D; lia).
  assert (C : forall z e, (e = 1 \/ e = -1) -> pp z e = None -> False).
  { intros z e He E. pose proof (Dv _ _ E) as [t Ht]. assert (E2 : pp 0 (e - t * (m * s)) = None).
    { destruct (Z.le_gt_cases 0 t) as [Ct|Ct].
      - replace 0 with (z - t * m) by lia. apply o_sub; assumption.
      - pose proof (o_sub z e (- m) (- (m * s)) (- t) ltac:(lia) E (o_opp _ _ Es)) as S1. replace (z - - t * - m) with 0 in S1 by lia. replace (e - - t * - (m * s)) with (e - t * (m * s)) in S1 by ring. exact S1. }
    apply o_Q0 in E2. apply (Z.divide_trans m) in E2; [|exact Dn]. apply N1. destruct E2 as [r Hr]. exists (e * (r + t * s)). destruct He; subst e; nia. }
  split; intros k.
  - rewrite MP. cut (xdis (pp (Z.of_nat k) 0) (pp 0 1)); [rewrite Q1; auto|]. apply (xdis_ne (A := A) FT keq_ok); auto.
    + intros E. apply Sb in E. rewrite Z.sub_0_l in E. apply (C (Z.of_nat k - 0) (-1)); auto.
    + rewrite Op. intros E. apply Sb in E. apply (C (Z.of_nat k - - 0) 1); auto.
  - rewrite MQ. cut (xdis (pp 0 (Z.of_nat k)) (pp 1 0)); [rewrite o_P; auto|]. apply (xdis_ne (A := A) FT keq_ok); auto.
    + intros E. apply Sb, Dv in E. apply N1. apply Z.divide_opp_r. exact E.
    + rewrite Op. intros E. apply Sb, Dv in E. apply N1. exact E.
Qed.
End Order.
End Weil.
