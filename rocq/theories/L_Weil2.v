(** Bilinearity of the pairing of L_Weil on a basis of even order, and the two bilinearity statements for every order above 3. *)
From Coq Require Import ZArith Znumtheory List Bool Ring Field Lia Arith.
From Verif Require Import S_Curve L_Group L_Kummer L_Weil.

Section Weil.
Context {K : Type} {k0 k1 : K} {kadd kmul ksub : K -> K -> K} {kopp : K -> K} {kdiv : K -> K -> K} {kinv : K -> K} {keq : K -> K -> bool}.
Context (FT : field_theory k0 k1 kadd kmul ksub kopp kdiv kinv (@eq K)).
Context (keq_ok : forall x y, keq x y = true <-> x = y).
Context (two_nz : kadd k1 k1 <> k0).
Context {A : K}.
Context (smooth : kmul A A <> kadd (kadd k1 k1) (kadd k1 k1)).
Add Field Kfield : FT.
Local Notation "0" := k0. Local Notation "1" := k1.
Local Notation "2" := (kadd k1 k1).
Local Infix "+" := kadd. Local Infix "*" := kmul. Local Infix "-" := ksub. Local Infix "/" := kdiv. Local Notation "- x" := (kopp x).
Local Notation on := (on kadd kmul A).
Local Notation padd := (padd k1 kadd kmul ksub kopp kdiv keq A).
Local Notation popp := (popp kopp).
Local Notation slope := (slope (k1 := k1) (kadd := kadd) (kmul := kmul) (ksub := ksub) (A := A)).
Local Notation pmul_nat := (pmul_nat k1 kadd kmul ksub kopp kdiv keq A).
Local Notation hv := (hv (k1 := k1) (kadd := kadd) (kmul := kmul) (ksub := ksub) (kopp := kopp) (kdiv := kdiv) (keq := keq) (A := A)).
Local Notation fm := (fm (k1 := k1) (kadd := kadd) (kmul := kmul) (ksub := ksub) (kopp := kopp) (kdiv := kdiv) (keq := keq) (A := A)).
Local Notation wp := (wp (k1 := k1) (kadd := kadd) (kmul := kmul) (ksub := ksub) (kopp := kopp) (kdiv := kdiv) (keq := keq) (A := A)).
Local Notation ee := (ee (k1 := k1) (kadd := kadd) (kmul := kmul) (ksub := ksub) (kopp := kopp) (kdiv := kdiv) (keq := keq) (A := A)).
Local Notation pz := (pz (k1 := k1) (kadd := kadd) (kmul := kmul) (ksub := ksub) (kopp := kopp) (kdiv := kdiv) (keq := keq) (A := A)).
Local Notation pw := (pw (k1 := k1) (kmul := kmul)).
Local Notation sg := (sg (k1 := k1) (kopp := kopp)).
Local Notation nsub := (nsub FT).
Local Notation nmul := (nmul FT keq_ok).
Local Notation Padd_on := (padd_on FT keq_ok two_nz).
Local Notation Padd_comm := (padd_comm FT keq_ok two_nz).

(** the vertical through X at T *)
Definition vx (X T : pt K) : K := match X, T with Some (a, _), Some (x, _) => x - a | _, _ => 1 end.
Lemma vx_nz X T : xdis X T -> vx X T <> 0.
Proof. destruct X as [[]|], T as [[]|]; cbn; intros H; try exact (F_1_neq_0 FT). apply nsub. exact H. Qed.
Lemma vx_swap X T : fin X = true -> fin T = true -> vx X T = - vx T X.
Proof. destruct X as [[]|], T as [[]|]; cbn; intros H H'; try discriminate. ring. Qed.
Lemma vx_opp X T : vx X (popp T) = vx X T. Proof. destruct X as [[]|], T as [[]|]; reflexivity. Qed.
Lemma vx_opp_l X T : vx (popp X) T = vx X T. Proof. destruct X as [[]|], T as [[]|]; reflexivity. Qed.
Lemma hv_opp_pt X Y : forall T, on X -> padd X Y = None -> Y = popp X -> hv X Y T = vx X T.
Proof.
  intros T HX E ->. destruct X as [[x1 y1]|]; [|destruct T as [[]|]; reflexivity]. destruct T as [[x y]|]; [|reflexivity]. cbn [S_Curve.popp L_Weil.hv vx]. apply (hh_opp FT keq_ok).
Qed.
(** a line at T and at -T *)
Lemma hvneg X Y T : on X -> on Y -> on T -> fin T = true -> xdis (padd X Y) T ->
  hv X Y T * hv X Y (popp T) * vx (padd X Y) T = sg (fin X && fin Y && fin (padd X Y)) * (vx X T * vx Y T).
Proof.
  intros HX HY HT F D. destruct T as [[x y]|]; [|discriminate]. cbn [S_Curve.popp].
  destruct X as [[x1 y1]|]; [|destruct Y as [[x2 y2]|]; cbn; ring]. destruct Y as [[x2 y2]|]; [|cbn; ring].
  destruct (opp_pt (kopp := kopp) keq_ok _ _ _ _ HX HY) as [[Ea Eb]|N].
  - subst. rewrite (padd_opp' keq_ok) by assumption. cbn [L_Weil.hv fin andb sg vx]. rewrite !(hh_opp' FT keq_ok). cbn [sg]. ring.
  - destruct (fin_sum FT keq_ok two_nz _ _ _ _ HX HY N) as (m & xs & ys & S & Ex & Ey & E & Hs). rewrite E in *. cbn [fin andb sg L_Weil.hv vx xdis] in *.
    rewrite (proj1 (hh_fin FT keq_ok two_nz _ _ _ _ m xs ys x y HX HY N S Ex Ey)), (proj1 (hh_fin FT keq_ok two_nz _ _ _ _ m xs ys x (- y) HX HY N S Ex Ey)).
    pose proof (vieta' FT _ _ _ _ m xs ys x y HX HY S Ex Ey HT) as V.
    transitivity ((y + ys - m * (x - xs)) * (- y + ys - m * (x - xs)) / (x - xs)); [field; apply nsub; exact D|]. rewrite V. field. apply nsub. exact D.
Qed.
(** opposite lines at opposite points *)
Lemma hvopp X Y T : on X -> on Y -> fin T = true -> xdis (padd X Y) T -> hv (popp X) (popp Y) (popp T) = sg (fin X && fin Y && fin (padd X Y)) * hv X Y T.
Proof.
  intros HX HY F D. destruct T as [[x y]|]; [|discriminate]. destruct X as [[x1 y1]|]; [|cbn; ring]. destruct Y as [[x2 y2]|]; [|cbn; ring].
  assert (HX' := on_opp FT _ HX). assert (HY' := on_opp FT _ HY).
  destruct (opp_pt (kopp := kopp) keq_ok _ _ _ _ HX HY) as [[Ea Eb]|N].
  - subst. rewrite (padd_opp' keq_ok) by assumption. cbn [S_Curve.popp L_Weil.hv fin andb sg]. rewrite !(hh_opp' FT keq_ok). cbn. ring.
  - destruct (fin_sum FT keq_ok two_nz _ _ _ _ HX HY N) as (m & xs & ys & S & Ex & Ey & E & Hs). rewrite E in *. cbn [S_Curve.popp fin andb sg L_Weil.hv xdis] in *.
    assert (N' : ~ (x1 = x2 /\ - y1 = - - y2)) by (intros [Q1 Q2]; apply N; split; [exact Q1|]; transitivity (- - y1); [ring|]; rewrite Q2; ring).
    assert (S' : slope x1 (- y1) x2 (- y2) (- m)) by (destruct S as [S1 S2]; split; [transitivity (- (y1 - y2)); [ring|rewrite S1; ring]|transitivity (m * (y1 + y2)); [ring|rewrite S2; ring]]).
    assert (Ex' : xs = - m * - m - A - x1 - x2) by (rewrite Ex; ring). assert (Ey' : - ys = - m * (x1 - xs) - - y1) by (rewrite Ey; ring).
    rewrite (proj1 (hh_fin FT keq_ok two_nz _ _ _ _ m xs ys x y HX HY N S Ex Ey)), (proj1 (hh_fin FT keq_ok two_nz _ _ _ _ (- m) xs (- ys) x (- y) HX' HY' N' S' Ex' Ey')). cbn. field. apply nsub. exact D.
Qed.
(** the line through Q and X at -Q *)
Lemma hv_at xq yq X : on (Some (xq, yq)) -> on X -> fin X = true -> padd X (Some (xq, yq)) <> None -> xdis (padd X (Some (xq, yq))) (Some (xq, yq)) ->
  hv X (Some (xq, yq)) (Some (xq, - yq)) * vx (padd X (Some (xq, yq))) (Some (xq, yq)) = - (yq + yq).
Proof.
  intros HQ HX F NS D. destruct X as [[x1 y1]|]; [|discriminate]. rewrite (hv_comm FT keq_ok two_nz) by assumption. rewrite Padd_comm in * by assumption.
  destruct (opp_pt (kopp := kopp) keq_ok _ _ _ _ HQ HX) as [[Ea Eb]|N].
  - exfalso. apply NS. subst. apply (padd_opp' keq_ok). assumption.
  - destruct (fin_sum FT keq_ok two_nz _ _ _ _ HQ HX N) as (m & xs & ys & S & Ex & Ey & E & Hs). rewrite E in *. cbn [L_Weil.hv vx xdis] in *.
    rewrite (proj1 (hh_fin FT keq_ok two_nz _ _ _ _ m xs ys xq (- yq) HQ HX N S Ex Ey)). rewrite Ey at 1. field. apply nsub. exact D.
Qed.
(** the tangent: the last two steps of a Miller product of a point of exact order *)
Lemma tang X T : on X -> on T -> fin X = true -> fin T = true -> padd X X <> None -> xdis X T -> xdis (padd X X) T ->
  hv (popp (padd X X)) X T * hv (popp X) X T = hv X X T * vx (padd X X) T.
Proof.
  intros HX HT FX FT' NS D D2. assert (HO := on_opp FT _ HX). assert (HS := Padd_on _ _ HX HX). assert (HT' := on_opp FT _ HT).
  assert (ES : padd (popp X) (popp X) = popp (padd X X)) by (symmetry; apply (popp_add FT keq_ok two_nz); assumption).
  assert (E0 : padd (popp X) X = None) by (rewrite Padd_comm by assumption; apply (padd_opp_r FT keq_ok); assumption).
  assert (F2 : fin (padd X X) = true) by (destruct (padd X X); [reflexivity|contradiction]).
  assert (FT2 : fin (popp T) = true) by (destruct T as [[]|]; [reflexivity|discriminate]).
  assert (DX : xdis (popp (padd X X)) T) by (destruct (padd X X) as [[]|], T as [[]|]; auto).
  assert (DT : xdis (padd X X) (popp T)) by (destruct (padd X X) as [[]|], T as [[]|]; auto).
  assert (DT1 : xdis X (popp T)) by (destruct X as [[]|], T as [[]|]; auto).
  assert (EA : padd (popp (padd X X)) X = popp X) by (rewrite <- ES, (padd_assoc FT keq_ok two_nz smooth) by assumption; rewrite E0; apply (padd_0_r)).
  assert (DO : xdis (popp X) T) by (destruct X as [[]|], T as [[]|]; auto).
  pose proof (cocycle_v FT keq_ok two_nz smooth (popp X) (popp X) X T HO HO HX HT) as C. rewrite ES, EA, E0, hv_N2 in C. specialize (C DX I DO).
  assert (V : hv (popp X) X T = vx X T) by (rewrite <- (vx_opp_l X T); apply hv_opp_pt; auto; symmetry; apply (popp_invol FT)).
  rewrite V in *.
  assert (O1 : hv (popp X) (popp X) T = kopp k1 * hv X X (popp T)) by (rewrite <- (popp_invol FT T) at 1; rewrite hvopp by assumption; rewrite FX, F2; reflexivity).
  pose proof (hvneg X X T HX HX HT FT' D2) as O2. rewrite FX, F2 in O2. cbn [andb] in O2. change (sg true) with (kopp k1) in O2.
  assert (NZ : hv X X (popp T) <> 0) by (apply (hv_nz FT keq_ok two_nz); assumption).
  apply (cancel FT (hv X X (popp T))); [exact NZ|]. rewrite O1 in C.
  transitivity (kopp k1 * (kopp k1 * hv X X (popp T) * hv (popp (padd X X)) X T) * vx X T); [ring|]. rewrite C.
  transitivity (kopp k1 * (vx X T * vx X T)); [ring|]. rewrite <- O2. ring.
Qed.
(** ** The pairing on a basis *)
Section Basis.
Context (P Q : pt K) (HP : on P) (HQ : on Q) (n : Z) (Hn : (3 < n)%Z).
Context (OP : pmul_nat (Z.to_nat n) P = None) (OQ : pmul_nat (Z.to_nat n) Q = None).
Context (indep : forall i j : nat, padd (pmul_nat i P) (pmul_nat j Q) = None -> (n | Z.of_nat i)%Z /\ (n | Z.of_nat j)%Z).
Local Open Scope Z_scope.
Local Infix "**" := kmul (at level 40, left associativity).
Local Notation pp := (pz P Q n).
Local Notation e := (ee P Q n).
Local Notation p_on i j := (pz_on FT keq_ok two_nz P Q HP HQ n i j).
Definition nz (z : Z) : Prop := - n < z < n /\ z <> 0.
Lemma nz_nd z : nz z -> ~ (n | z).
Proof. intros [B N] [q Hq]. assert (q = 0 \/ 1 <= q \/ q <= -1) as [C|[C|C]] by lia; [subst; lia|nia|nia]. Qed.
Lemma xd i j k l : (nz (i - k) \/ nz (j - l)) -> (nz (i + k) \/ nz (j + l)) -> xdis (pp i j) (pp k l).
Proof. intros N1 N2. apply (pz_xdis FT keq_ok two_nz smooth P Q HP HQ n Hn OP OQ indep); intros [D1 D2]; [destruct N1 as [N|N]|destruct N2 as [N|N]]; apply nz_nd in N; contradiction. Qed.
Lemma pza i j i' j' a b : i + i' = a -> j + j' = b -> padd (pp i j) (pp i' j') = pp a b.
Proof. intros <- <-. apply (pz_add FT keq_ok two_nz smooth P Q HP HQ n Hn OP OQ). Qed.
Lemma pzm k i j a b : Z.of_nat k * i = a -> Z.of_nat k * j = b -> pmul_nat k (pp i j) = pp a b.
Proof. intros <- <-. apply (pz_mul FT keq_ok two_nz smooth P Q HP HQ n Hn OP OQ indep). Qed.
Lemma fz i j : nz i \/ nz j -> fin (pp i j) = true.
Proof.
  intros N. destruct (pp i j) eqn:E; [reflexivity|]. apply (pz_None P Q n Hn indep) in E. destruct E as [D1 D2]. destruct N as [N|N]; apply nz_nd in N; contradiction.
Qed.
Lemma nN i j : nz i \/ nz j -> pp i j <> None. Proof. intros N E. apply fz in N. rewrite E in N. discriminate. Qed.
Lemma pzo i j a b : - i = a -> - j = b -> popp (pp i j) = pp a b.
Proof. intros <- <-. apply (pz_opp FT keq_ok two_nz smooth P Q HP HQ n Hn OP OQ indep). Qed.
Lemma pzn i j a b : a = i \/ a = i + n \/ a = i - n -> b = j \/ b = j + n \/ b = j - n -> pp a b = pp i j.
Proof. intros Ha Hb. apply pz_mod; [destruct Ha as [->|[->| ->]]; [exists 0|exists 1|exists (-1)]; lia|destruct Hb as [->|[->| ->]]; [exists 0|exists 1|exists (-1)]; lia]. Qed.
Context (m : nat) (Em : n = Z.of_nat m + 2) (Ev : Nat.odd m = false).
Local Ltac xds := apply xd; unfold nz; lia.
Local Ltac fzs := apply fz; unfold nz; lia.
Local Notation T := (pp 0 (-1)).
(** the product over the multiples of P, of Q and of P + Q, two steps short, at -Q *)
Lemma evA k : (0 < k <= m)%nat -> fm (pp 1 0) T k ** fm (pp 0 1) T k ** hv (pp (Z.of_nat k) 0) (pp 0 (Z.of_nat k)) T = pw (hv (pp 1 0) (pp 0 1) T) k ** fm (pp 1 1) T k.
Proof.
  induction k; intros Hk; [lia|]. destruct k as [|k].
  - cbn [L_Weil.fm S_Curve.pmul_nat L_Weil.pw]. rewrite !hv_N1. change (Z.of_nat 1) with 1. ring.
  - set (a := S k) in *. assert (Ga : (1 <= a)%nat) by (unfold a; lia). specialize (IHk ltac:(lia)). cbn [L_Weil.fm L_Weil.pw]. rewrite (pzm a 1 0 (Z.of_nat a) 0), (pzm a 0 1 0 (Z.of_nat a)), (pzm a 1 1 (Z.of_nat a) (Z.of_nat a)) by lia.
    assert (F := four FT keq_ok two_nz smooth (pp (Z.of_nat a) 0) (pp 1 0) (pp 0 (Z.of_nat a)) (pp 0 1) T (p_on _ _) (p_on _ _) (p_on _ _) (p_on _ _) (p_on _ _)).
    rewrite (pza _ _ _ _ (Z.of_nat (S a)) 0), (pza 0 (Z.of_nat a) 0 1 0 (Z.of_nat (S a))), (pza (Z.of_nat a) 0 0 (Z.of_nat a) (Z.of_nat a) (Z.of_nat a)), (pza 1 0 0 1 1 1) in F by lia.
    rewrite (pza (Z.of_nat (S a)) 0 0 (Z.of_nat (S a)) (Z.of_nat (S a)) (Z.of_nat (S a))), (pza (Z.of_nat (S a)) 0 0 (Z.of_nat a) (Z.of_nat (S a)) (Z.of_nat a)) in F by lia.
    specialize (F ltac:(xds) ltac:(xds) ltac:(xds) ltac:(xds) ltac:(xds) (or_introl (xd (Z.of_nat (S a)) (Z.of_nat a) 0%Z (-1) ltac:(unfold nz; lia) ltac:(unfold nz; lia)))).
    transitivity (fm (pp 1 0) T a ** fm (pp 0 1) T a ** (hv (pp (Z.of_nat a) 0) (pp 1 0) T ** hv (pp 0 (Z.of_nat a)) (pp 0 1) T ** hv (pp (Z.of_nat (S a)) 0) (pp 0 (Z.of_nat (S a))) T)); [ring|]. rewrite F.
    transitivity (fm (pp 1 0) T a ** fm (pp 0 1) T a ** hv (pp (Z.of_nat a) 0) (pp 0 (Z.of_nat a)) T ** (hv (pp 1 0) (pp 0 1) T ** hv (pp (Z.of_nat a) (Z.of_nat a)) (pp 1 1) T)); [ring|]. rewrite IHk. ring.
Qed.
(** reciprocity with the line through P + Q and -Q *)
Lemma recB k : (0 < k)%nat -> (k < m)%nat ->
  hv (pp 0 (Z.of_nat k)) (pp 0 1) (pp 1 1) ** hv (pp 0 (Z.of_nat k)) (pp 0 1) T ** hv (pp 1 1) T (pp 0 (Z.of_nat (S k))) = kopp k1 ** (hv (pp 1 1) T (pp 0 (Z.of_nat k)) ** hv (pp 1 1) T (pp 0 1) ** hv (pp 0 (Z.of_nat k)) (pp 0 1) (pp 1 0)).
Proof.
  intros H1 H2. pose proof (pza 0 (Z.of_nat k) 0 1 0 (Z.of_nat (S k)) ltac:(lia) ltac:(lia)) as E1. pose proof (pza 1 1 0 (-1) 1 0 ltac:(lia) ltac:(lia)) as E2.
  assert (N1 := nN 0 (Z.of_nat (S k)) ltac:(unfold nz; lia)). assert (N2 := nN 1 0 ltac:(unfold nz; lia)).
  assert (D : xdis (pp 0 (Z.of_nat k)) (pp 1 0) /\ xdis (pp 0 1) (pp 1 0) /\ xdis (pp 0 (Z.of_nat (S k))) (pp 1 1) /\ xdis (pp 0 (Z.of_nat (S k))) T /\ xdis (pp 0 (Z.of_nat (S k))) (pp 1 0)) by (split; [|split; [|split; [|split]]]; xds).
  rewrite <- E1, <- E2 in *. pose proof (p_on 0 (Z.of_nat k)) as O1. pose proof (p_on 0 1) as O2. pose proof (p_on 1 1) as O3. pose proof (p_on 0 (-1)) as O4.
  assert (F1 : fin (pp 0 (Z.of_nat k)) = true) by fzs. assert (F2 : fin (pp 0 1) = true) by fzs. assert (F3 : fin (pp 1 1) = true) by fzs. assert (F4 : fin T = true) by fzs.
  set (X := pp 0 (Z.of_nat k)) in *. set (Y := pp 0 1) in *. set (Z := pp 1 1) in *. set (W := pp 0 (-1)) in *. clearbody X Y Z W.
  destruct X as [[x1 y1]|]; [|discriminate]. destruct Y as [[x2 y2]|]; [|discriminate]. destruct Z as [[x3 y3]|]; [|discriminate]. destruct W as [[x4 y4]|]; [|discriminate].
  apply (recip_fin FT keq_ok two_nz); auto.
  - intros [-> ->]. apply N1. apply (padd_opp' keq_ok). assumption.
  - intros [-> ->]. apply N2. apply (padd_opp' keq_ok). assumption.
Qed.
Lemma evB k : (k < m)%nat -> fm (pp 0 1) (pp 1 1) (S k) ** fm (pp 0 1) T (S k) ** hv (pp 1 1) T (pp 0 (Z.of_nat (S k))) = sg (Nat.odd k) ** (pw (hv (pp 1 1) T (pp 0 1)) (S k) ** fm (pp 0 1) (pp 1 0) (S k)).
Proof.
  induction k; intros Hk.
  - cbn [L_Weil.fm S_Curve.pmul_nat L_Weil.pw]. rewrite !hv_N1. change (Z.of_nat 1) with 1. cbn. ring.
  - set (a := S k) in *. assert (Ga : (1 <= a)%nat) by (unfold a; lia). specialize (IHk ltac:(lia)).
    change (fm (pp 0 1) ?Y (S a)) with (fm (pp 0 1) Y a ** hv (pmul_nat a (pp 0 1)) (pp 0 1) Y). change (pw ?y (S a)) with (pw y a ** y). rewrite (pzm a 0 1 0 (Z.of_nat a)) by lia.
    pose proof (recB a ltac:(lia) ltac:(lia)) as F.
    change (fm (pp 0 1) (pp 1 1) (S a)) with (fm (pp 0 1) (pp 1 1) a ** hv (pmul_nat a (pp 0 1)) (pp 0 1) (pp 1 1)).
    transitivity (fm (pp 0 1) (pp 1 1) a ** fm (pp 0 1) T a ** (hv (pp 0 (Z.of_nat a)) (pp 0 1) (pp 1 1) ** hv (pp 0 (Z.of_nat a)) (pp 0 1) T ** hv (pp 1 1) T (pp 0 (Z.of_nat (S a))))); [ring|]. rewrite F.
    transitivity (fm (pp 0 1) (pp 1 1) a ** fm (pp 0 1) T a ** hv (pp 1 1) T (pp 0 (Z.of_nat a)) ** (kopp k1 ** (hv (pp 1 1) T (pp 0 1) ** hv (pp 0 (Z.of_nat a)) (pp 0 1) (pp 1 0)))); [ring|]. rewrite IHk.
    assert (Sa : sg (Nat.odd a) = kopp k1 ** sg (Nat.odd k)) by (unfold a; rewrite Nat.odd_succ, <- Nat.negb_odd; destruct (Nat.odd k); cbn; ring). rewrite Sa. ring.
Qed.
(** a Miller product at Q and at -Q *)
Lemma TQ : popp (pp 0 1) = T. Proof. apply pzo; reflexivity. Qed.
Lemma evD0 j k : (k <= m)%nat -> fm (pp 1 j) (pp 0 1) (S k) ** fm (pp 1 j) T (S k) ** vx (pp (Z.of_nat (S k)) (Z.of_nat (S k) * j)) (pp 0 1) = sg (Nat.odd k) ** pw (vx (pp 1 j) (pp 0 1)) (S k).
Proof.
  assert (FQ : fin (pp 0 1) = true) by fzs. assert (F1 : fin (pp 1 j) = true) by fzs.
  induction k; intros Hk.
  - cbn [L_Weil.fm S_Curve.pmul_nat L_Weil.pw]. rewrite !hv_N1. change (Z.of_nat 1) with 1. replace (1 * j) with j by lia. cbn. ring.
  - set (a := S k) in *. assert (Ga : (1 <= a)%nat) by (unfold a; lia). specialize (IHk ltac:(lia)).
    change (fm (pp 1 j) (pp 0 1) (S a)) with (fm (pp 1 j) (pp 0 1) a ** hv (pmul_nat a (pp 1 j)) (pp 1 j) (pp 0 1)). change (fm (pp 1 j) T (S a)) with (fm (pp 1 j) T a ** hv (pmul_nat a (pp 1 j)) (pp 1 j) T). change (pw ?y (S a)) with (pw y a ** y).
    rewrite (pzm a 1 j (Z.of_nat a) (Z.of_nat a * j)) by lia.
    pose proof (hvneg (pp (Z.of_nat a) (Z.of_nat a * j)) (pp 1 j) (pp 0 1) (p_on _ _) (p_on _ _) (p_on _ _) FQ) as N. rewrite (pza _ _ 1 j (Z.of_nat (S a)) (Z.of_nat (S a) * j)), TQ in N by lia. specialize (N ltac:(xds)).
    rewrite F1, (fz (Z.of_nat a)), (fz (Z.of_nat (S a))) in N by (unfold nz; lia). cbn [andb] in N.
    transitivity (fm (pp 1 j) (pp 0 1) a ** fm (pp 1 j) T a ** (hv (pp (Z.of_nat a) (Z.of_nat a * j)) (pp 1 j) (pp 0 1) ** hv (pp (Z.of_nat a) (Z.of_nat a * j)) (pp 1 j) T ** vx (pp (Z.of_nat (S a)) (Z.of_nat (S a) * j)) (pp 0 1))); [ring|]. rewrite N.
    transitivity (fm (pp 1 j) (pp 0 1) a ** fm (pp 1 j) T a ** vx (pp (Z.of_nat a) (Z.of_nat a * j)) (pp 0 1) ** (kopp k1 ** vx (pp 1 j) (pp 0 1))); [change (sg true) with (kopp k1); ring|]. rewrite IHk.
    assert (Sa : sg (Nat.odd a) = kopp k1 ** sg (Nat.odd k)) by (unfold a; rewrite Nat.odd_succ, <- Nat.negb_odd; destruct (Nat.odd k); cbn; ring). rewrite Sa. ring.
Qed.
Lemma evD j : fm (pp 1 j) (pp 0 1) (S (S m)) ** fm (pp 1 j) T (S (S m)) = pw (vx (pp 1 j) (pp 0 1)) (S (S m)).
Proof.
  assert (FQ : fin (pp 0 1) = true) by fzs. pose proof (evD0 j m ltac:(lia)) as I0. rewrite Ev in I0. set (a := S m) in *.
  change (fm (pp 1 j) (pp 0 1) (S a)) with (fm (pp 1 j) (pp 0 1) a ** hv (pmul_nat a (pp 1 j)) (pp 1 j) (pp 0 1)). change (fm (pp 1 j) T (S a)) with (fm (pp 1 j) T a ** hv (pmul_nat a (pp 1 j)) (pp 1 j) T). change (pw ?y (S a)) with (pw y a ** y).
  rewrite (pzm a 1 j (Z.of_nat a) (Z.of_nat a * j)) by lia.
  assert (Z : padd (pp (Z.of_nat a) (Z.of_nat a * j)) (pp 1 j) = None).
  { rewrite (pza _ _ _ _ n (n * j)) by (unfold a; lia). apply (pz_None P Q n Hn indep). split; [exists 1; lia|apply Z.divide_factor_l]. }
  pose proof (hvneg (pp (Z.of_nat a) (Z.of_nat a * j)) (pp 1 j) (pp 0 1) (p_on _ _) (p_on _ _) (p_on _ _) FQ) as N. rewrite Z, TQ in N. specialize (N I). cbn [fin] in N. rewrite andb_false_r in N. cbn [vx] in N. cbn [L_Weil.sg] in N, I0.
  transitivity (fm (pp 1 j) (pp 0 1) a ** fm (pp 1 j) T a ** (hv (pp (Z.of_nat a) (Z.of_nat a * j)) (pp 1 j) (pp 0 1) ** hv (pp (Z.of_nat a) (Z.of_nat a * j)) (pp 1 j) T ** k1)); [ring|]. rewrite N.
  transitivity (fm (pp 1 j) (pp 0 1) a ** fm (pp 1 j) T a ** vx (pp (Z.of_nat a) (Z.of_nat a * j)) (pp 0 1) ** vx (pp 1 j) (pp 0 1)); [ring|]. rewrite I0. ring.
Qed.
Lemma mX2 i j : pmul_nat m (pp i j) = popp (padd (pp i j) (pp i j)).
Proof. rewrite (pzm m i j (Z.of_nat m * i) (Z.of_nat m * j)), (pza i j i j (i + i) (j + j)), (pzo (i + i) (j + j) (- (i + i)) (- (j + j))) by lia. apply pz_mod; [exists i|exists j]; lia. Qed.
Lemma mX1 i j : pmul_nat (S m) (pp i j) = popp (pp i j).
Proof. rewrite (pzm (S m) i j (Z.of_nat (S m) * i) (Z.of_nat (S m) * j)), (pzo i j (- i) (- j)) by lia. apply pz_mod; [exists i|exists j]; lia. Qed.
Lemma fm_tau i j k l : (nz i \/ nz j) -> (nz (2 * i) \/ nz (2 * j)) -> (nz k \/ nz l) -> xdis (pp i j) (pp k l) -> xdis (pp (2 * i) (2 * j)) (pp k l) ->
  fm (pp i j) (pp k l) (S (S m)) = fm (pp i j) (pp k l) m ** (hv (pp i j) (pp i j) (pp k l) ** vx (pp (2 * i) (2 * j)) (pp k l)).
Proof.
  intros N1 N2 N3 D1 D2. cbn [L_Weil.fm]. rewrite mX2, mX1.
  assert (E : padd (pp i j) (pp i j) = pp (2 * i) (2 * j)) by (apply pza; lia).
  rewrite <- E, <- (tang (pp i j) (pp k l)); auto using fz; try (apply (pz_on FT keq_ok two_nz P Q HP HQ)).
  - ring.
  - rewrite E. apply nN. exact N2.
  - rewrite E. exact D2.
Qed.
Lemma pw_sq x k : Nat.odd k = false -> pw (kopp x) k = pw x k.
Proof.
  assert (G : forall k, pw (kopp x) k = sg (Nat.odd k) ** pw x k).
  { clear k. induction k; [cbn; ring|]. cbn [L_Weil.pw]. rewrite IHk, Nat.odd_succ, <- Nat.negb_odd. destruct (Nat.odd k); cbn; ring. }
  intros O. rewrite G, O. cbn. ring.
Qed.
Lemma pw_prod x y k : pw (x ** y) k = pw x k ** pw y k. Proof. induction k; [cbn; ring|cbn [L_Weil.pw]; rewrite IHk; ring]. Qed.
(** lines through Q and a multiple at -Q *)
Lemma at_Q : exists y2, y2 <> k0 /\ (forall i j, (nz i \/ nz j) -> nz i \/ nz (j + 1) -> nz i \/ nz j -> nz i \/ nz (j + 2) -> hv (pp i j) (pp 0 1) T ** vx (pp i (j + 1)) (pp 0 1) = kopp y2) /\
  (forall i j, (nz i \/ nz j) -> nz i \/ nz (j - 1) -> nz i \/ nz j -> nz i \/ nz (j - 2) -> hv (pp i j) T (pp 0 1) ** vx (pp i (j - 1)) (pp 0 1) = y2).
Proof.
  pose proof (p_on 0 1) as HQ'. pose proof TQ as ET. assert (N0 := nN 0 1 ltac:(unfold nz; lia)). assert (N2 := nN 0 2 ltac:(unfold nz; lia)). rewrite <- (pza 0 1 0 1 0 2) in N2 by lia.
  assert (HT := p_on 0 (-1)).
  destruct (pp 0 1) as [[x y]|] eqn:EQ; [|contradiction]. exists (kadd y y). cbn [S_Curve.popp] in ET.
  split; [|split].
  - intros Z. apply N2. assert (y = k0). { apply (cancel FT (kadd k1 k1)); [exact two_nz|]. transitivity (kadd y y); [ring|]. rewrite Z. ring. } subst y. replace (x, k0) with (x, kopp k0) at 1 by (f_equal; ring). apply (padd_opp' keq_ok). exact HQ'.
  - intros i j A1 A2 A3 A4. rewrite <- ET. rewrite <- (pza i j 0 1 i (j + 1)), EQ by lia. apply hv_at; auto using fz.
    + apply (pz_on FT keq_ok two_nz P Q HP HQ).
    + rewrite <- EQ, (pza i j 0 1 i (j + 1)) by lia. apply nN. exact A2.
    + rewrite <- EQ, (pza i j 0 1 i (j + 1)) by lia. apply xd; [replace (j + 1 - 1) with j by lia; replace (i - 0) with i by lia; exact A3|replace (j + 1 + 1) with (j + 2) by lia; replace (i + 0) with i by lia; exact A4].
  - intros i j A1 A2 A3 A4.
    replace (vx (pp i (j - 1)) (Some (x, y))) with (vx (pp i (j - 1)) T) by (rewrite <- ET; destruct (pp i (j - 1)) as [[]|]; reflexivity).
    rewrite <- (pza i j 0 (-1) i (j - 1)) by lia. assert (D : padd (pp i j) T <> None) by (rewrite (pza i j 0 (-1) i (j - 1)) by lia; apply nN; exact A2).
    assert (D' : xdis (padd (pp i j) T) T) by (rewrite (pza i j 0 (-1) i (j - 1)) by lia; apply xd; [replace (j - 1 - -1) with j by lia; replace (i - 0) with i by lia; exact A3|replace (j - 1 + -1) with (j - 2) by lia; replace (i + 0) with i by lia; exact A4]).
    rewrite <- ET in *. replace (Some (x, y)) with (Some (x, kopp (kopp y))) by (do 2 f_equal; ring). rewrite hv_at; auto using fz; [ring|apply (pz_on FT keq_ok two_nz P Q HP HQ)].
Qed.
Lemma aQ_nz k : (k <= m)%nat -> fm (pp 0 1) T k <> k0.
Proof.
  destruct at_Q as (y2 & Hy & Y1 & _). induction k; intros Hk; [exact (F_1_neq_0 FT)|]. cbn [L_Weil.fm]. apply nmul; [apply IHk; lia|]. destruct k as [|k]; [cbn [S_Curve.pmul_nat]; rewrite hv_N1; exact (F_1_neq_0 FT)|].
  rewrite (pzm (S k) 0 1 0 (Z.of_nat (S k))) by lia. intros Z. specialize (Y1 0 (Z.of_nat (S k))). rewrite Z in Y1. apply Hy. transitivity (kopp (kopp y2)); [ring|]. rewrite <- Y1 by (unfold nz; lia). ring.
Qed.
Theorem ee_even : e 1 1 0 1 = e 1 0 0 1.
Proof.
  destruct at_Q as (y2 & Hy & Y1 & Y3).
  pose proof (Y1 1 0 ltac:(unfold nz; lia) ltac:(unfold nz; lia) ltac:(unfold nz; lia) ltac:(unfold nz; lia)) as Yh.
  pose proof (Y1 0 1 ltac:(unfold nz; lia) ltac:(unfold nz; lia) ltac:(unfold nz; lia) ltac:(unfold nz; lia)) as Yq.
  pose proof (Y3 1 1 ltac:(unfold nz; lia) ltac:(unfold nz; lia) ltac:(unfold nz; lia) ltac:(unfold nz; lia)) as Yg. clear Y1 Y3.
  change (0 + 1)%Z with 1 in Yh. change (1 + 1)%Z with 2 in Yq. change (1 - 1)%Z with 0%Z in Yg.
  (* the pieces *)
  assert (vT : forall i j, vx (pp i j) T = vx (pp i j) (pp 0 1)) by (intros i j; rewrite <- TQ; apply vx_opp).
  pose proof (evA m ltac:(lia)) as EA. replace (pp (Z.of_nat m) 0) with (pp (-2) 0) in EA by (symmetry; apply pzn; lia). replace (pp 0 (Z.of_nat m)) with (pp 0 (-2)) in EA by (symmetry; apply pzn; lia).
  pose proof (evB (Nat.pred m) ltac:(lia)) as EB. replace (S (Nat.pred m)) with m in EB by lia. replace (pp 0 (Z.of_nat m)) with (pp 0 (-2)) in EB by (symmetry; apply pzn; lia).
  replace (Nat.odd (Nat.pred m)) with true in EB by (destruct m as [|m']; [lia|]; cbn [Nat.pred]; rewrite Nat.odd_succ, <- Nat.negb_odd in Ev; destruct (Nat.odd m'); [reflexivity|discriminate]). change (sg true) with (kopp k1) in EB.
  pose proof (evD 0) as DP. pose proof (evD 1) as DR.
  rewrite (fm_tau 1 0 0 (-1)) in DP by (unfold nz; first [lia|xds]). rewrite (fm_tau 1 1 0 (-1)) in DR by (unfold nz; first [lia|xds]).
  change (2 * 1)%Z with 2%Z in *. change (2 * 0)%Z with 0%Z in *. rewrite vT in DP, DR.
  (* four at -Q *)
  assert (F4 := four FT keq_ok two_nz smooth (pp 1 0) (pp 1 0) (pp 0 1) (pp 0 1) T (p_on _ _) (p_on _ _) (p_on _ _) (p_on _ _) (p_on _ _)).
  rewrite (pza 1 0 1 0 2 0), (pza 0 1 0 1 0 2), (pza 1 0 0 1 1 1), (pza 2 0 0 2 2 2), (pza 2 0 0 1 2 1), (pza 0 2 1 0 1 2) in F4 by lia.
  specialize (F4 ltac:(xds) ltac:(xds) ltac:(xds) ltac:(xds) ltac:(xds) (or_introl (xd 2 1 0%Z (-1) ltac:(unfold nz; lia) ltac:(unfold nz; lia)))).
  (* the opposite line *)
  assert (FQ : fin (pp 0 1) = true) by fzs.
  assert (HH : hv (pp (-2) 0) (pp 0 (-2)) T ** hv (pp 2 0) (pp 0 2) T ** vx (pp 2 2) (pp 0 1) = vx (pp 2 0) (pp 0 1) ** vx (pp 0 2) (pp 0 1)).
  { pose proof (hvopp (pp 2 0) (pp 0 2) (pp 0 1) (p_on _ _) (p_on _ _) FQ) as O1. pose proof (hvneg (pp 2 0) (pp 0 2) (pp 0 1) (p_on _ _) (p_on _ _) (p_on _ _) FQ) as O2.
    rewrite (pza 2 0 0 2 2 2) in O1, O2 by lia. specialize (O1 ltac:(xds)). specialize (O2 ltac:(xds)). rewrite TQ, (pzo 2 0 (-2) 0), (pzo 0 2 0 (-2)) in O1 by lia. rewrite TQ in O2.
    rewrite (fz 2 0), (fz 0 2), (fz 2 2) in O1, O2 by (unfold nz; lia). cbn [andb] in O1, O2. change (sg true) with (kopp k1) in O1, O2.
    rewrite O1. transitivity (kopp k1 ** (hv (pp 2 0) (pp 0 2) (pp 0 1) ** hv (pp 2 0) (pp 0 2) T ** vx (pp 2 2) (pp 0 1))); [ring|]. rewrite O2. ring. }
  (* the line through R and -Q at 2Q and -2Q *)
  assert (GG : hv (pp 1 1) T (pp 0 2) ** hv (pp 1 1) T (pp 0 (-2)) ** vx (pp 0 2) (pp 1 0) = vx (pp 0 2) (pp 1 1) ** vx (pp 0 2) (pp 0 1)).
  { assert (F2 : fin (pp 0 2) = true) by fzs. pose proof (hvneg (pp 1 1) T (pp 0 2) (p_on _ _) (p_on _ _) (p_on _ _) F2) as O. rewrite (pza 1 1 0 (-1) 1 0), (pzo 0 2 0 (-2)) in O by lia. specialize (O ltac:(xds)).
    rewrite (fz 1 1), (fz 0 (-1)), (fz 1 0) in O by (unfold nz; lia). cbn [andb] in O. change (sg true) with (kopp k1) in O.
    rewrite (vx_swap (pp 0 2) (pp 1 0)), (vx_swap (pp 0 2) (pp 1 1)) by fzs. rewrite <- vT, (vx_swap (pp 0 2) T) by fzs.
    transitivity (kopp k1 ** (hv (pp 1 1) T (pp 0 2) ** hv (pp 1 1) T (pp 0 (-2)) ** vx (pp 1 0) (pp 0 2))); [ring|]. rewrite O. ring. }
  pose proof (recB 1 ltac:(lia) ltac:(lia)) as RB. change (Z.of_nat 1) with 1 in RB. change (Z.of_nat 2) with 2 in RB.
  (* the pairing *)
  assert (E2 : Z.to_nat n = S (S m)) by lia. unfold L_Weil.ee, L_Weil.wp. rewrite E2. replace (Nat.odd (S (S m))) with false by (rewrite Nat.odd_succ, Nat.even_succ; symmetry; exact Ev). change (sg false) with k1.
  rewrite (fm_tau 0 1 1 0), (fm_tau 0 1 1 1) by (unfold nz; first [lia|xds]). change (2 * 1)%Z with 2%Z. change (2 * 0)%Z with 0%Z.
  (* nonzero factors *)
  assert (U1 : forall l, unim n 1 l) by apply unim_1. assert (N1 : ~ (n | 1)) by (apply (nodiv n); lia). assert (N1' : ~ (n | -1)) by (apply (nodiv_opp n 1), (nodiv n); lia).
  assert (UT : unim n 0 (-1)) by (exists 0, (-1), 0; reflexivity).
  assert (zaP : fm (pp 1 0) T m <> k0) by (apply (fm_nz FT keq_ok two_nz); auto using (pz_on FT keq_ok two_nz P Q HP HQ); intros a; apply (xdis_mul FT keq_ok two_nz smooth P Q HP HQ n Hn OP OQ indep); [exact UT|unfold dt; exact N1']).
  assert (zaR : fm (pp 1 1) T m <> k0) by (apply (fm_nz FT keq_ok two_nz); auto using (pz_on FT keq_ok two_nz P Q HP HQ); intros a; apply (xdis_mul FT keq_ok two_nz smooth P Q HP HQ n Hn OP OQ indep); [exact UT|unfold dt; exact N1']).
  assert (zbP : fm (pp 0 1) (pp 1 0) m <> k0) by (apply (fm_nz FT keq_ok two_nz); auto using (pz_on FT keq_ok two_nz P Q HP HQ); intros a; apply (xdis_mul FT keq_ok two_nz smooth P Q HP HQ n Hn OP OQ indep); [apply U1|unfold dt; exact N1']).
  assert (zbR : fm (pp 0 1) (pp 1 1) m <> k0) by (apply (fm_nz FT keq_ok two_nz); auto using (pz_on FT keq_ok two_nz P Q HP HQ); intros a; apply (xdis_mul FT keq_ok two_nz smooth P Q HP HQ n Hn OP OQ indep); [apply U1|unfold dt; exact N1']).
  pose proof (aQ_nz m ltac:(lia)) as zaQ.
  assert (HN : forall i j k l a b, xdis (pp i j) (pp a b) -> xdis (pp k l) (pp a b) -> xdis (pp (i + k) (j + l)) (pp a b) -> hv (pp i j) (pp k l) (pp a b) <> k0).
  { intros i j k l a b D1 D2 D3. apply (hv_nz FT keq_ok two_nz); auto using (pz_on FT keq_ok two_nz P Q HP HQ). rewrite (pza i j k l (i + k) (j + l)) by reflexivity. exact D3. }
  assert (zpp : hv (pp 1 0) (pp 1 0) T <> k0) by (apply HN; xds). assert (zrr : hv (pp 1 1) (pp 1 1) T <> k0) by (apply HN; xds).
  assert (zk : hv (pp 2 0) (pp 0 2) T <> k0) by (apply HN; xds). assert (zH : hv (pp (-2) 0) (pp 0 (-2)) T <> k0) by (apply HN; xds).
  assert (zsP : hv (pp 0 1) (pp 0 1) (pp 1 0) <> k0) by (apply HN; xds). assert (zsR : hv (pp 0 1) (pp 0 1) (pp 1 1) <> k0) by (apply HN; xds).
  assert (zgg : hv (pp 1 1) T (pp 0 2) <> k0) by (apply HN; xds). assert (zg2 : hv (pp 1 1) T (pp 0 (-2)) <> k0) by (apply HN; xds).
  assert (zvP : vx (pp 1 0) (pp 0 1) <> k0) by (apply vx_nz; xds). assert (zvR : vx (pp 1 1) (pp 0 1) <> k0) by (apply vx_nz; xds).
  assert (zwP : vx (pp 0 2) (pp 1 0) <> k0) by (apply vx_nz; xds). assert (zwR : vx (pp 0 2) (pp 1 1) <> k0) by (apply vx_nz; xds).
  assert (z2P : vx (pp 2 0) (pp 0 1) <> k0) by (apply vx_nz; xds). assert (z2R : vx (pp 2 2) (pp 0 1) <> k0) by (apply vx_nz; xds). assert (z2Q : vx (pp 0 2) (pp 0 1) <> k0) by (apply vx_nz; xds).
  clear HN UT U1 N1 N1' vT. cbn [L_Weil.pw] in DP, DR.
  assert (PQ : pw (hv (pp 1 0) (pp 0 1) T) m ** pw (vx (pp 1 1) (pp 0 1)) m = pw (hv (pp 1 1) T (pp 0 1)) m ** pw (vx (pp 1 0) (pp 0 1)) m) by (rewrite <- !pw_prod, Yh, Yg; apply pw_sq; exact Ev).
  assert (zqq : hv (pp 0 1) (pp 0 1) T <> k0) by (intros Z; rewrite Z in Yq; apply Hy; transitivity (kopp (kopp y2)); [ring|]; rewrite <- Yq; ring).
  assert (zpR : pw (vx (pp 1 1) (pp 0 1)) m <> k0) by (apply (pw_nz FT keq_ok); exact zvR).
  assert (zg1 : pw (hv (pp 1 1) T (pp 0 1)) m <> k0) by (apply (pw_nz FT keq_ok); intros Z; apply Hy; rewrite <- Yg, Z; ring).
  assert (zpP : pw (vx (pp 1 0) (pp 0 1)) m <> k0) by (apply (pw_nz FT keq_ok); exact zvP).
  set (FR := fm (pp 1 1) (pp 0 1) (S (S m))) in *. set (FP := fm (pp 1 0) (pp 0 1) (S (S m))) in *. set (aP := fm (pp 1 0) T m) in *. set (aR := fm (pp 1 1) T m) in *. set (aQ := fm (pp 0 1) T m) in *. set (bP := fm (pp 0 1) (pp 1 0) m) in *. set (bR := fm (pp 0 1) (pp 1 1) m) in *.
  set (h := hv (pp 1 0) (pp 0 1) T) in *. set (g1 := hv (pp 1 1) T (pp 0 1)) in *. set (H := hv (pp (-2) 0) (pp 0 (-2)) T) in *. set (g2 := hv (pp 1 1) T (pp 0 (-2))) in *. set (gg := hv (pp 1 1) T (pp 0 2)) in *.
  set (qq := hv (pp 0 1) (pp 0 1) T) in *. set (pq := hv (pp 1 0) (pp 1 0) T) in *. set (rr := hv (pp 1 1) (pp 1 1) T) in *. set (kk := hv (pp 2 0) (pp 0 2) T) in *. set (sP := hv (pp 0 1) (pp 0 1) (pp 1 0)) in *. set (sR := hv (pp 0 1) (pp 0 1) (pp 1 1)) in *.
  set (vP := vx (pp 1 0) (pp 0 1)) in *. set (vR := vx (pp 1 1) (pp 0 1)) in *. set (v2P := vx (pp 2 0) (pp 0 1)) in *. set (v2R := vx (pp 2 2) (pp 0 1)) in *. set (v2Q := vx (pp 0 2) (pp 0 1)) in *. set (wP := vx (pp 0 2) (pp 1 0)) in *. set (wR := vx (pp 0 2) (pp 1 1)) in *.
  set (hm := pw h m) in *. set (gm := pw g1 m) in *. set (um := pw vR m) in *. set (tm := pw vP m) in *.
  clearbody FR FP aP aR aQ bP bR h g1 H g2 gg qq pq rr kk sP sR vP vR v2P v2R v2Q wP wR hm gm um tm.
  (* the local identity *)
  assert (L : vR ** vR ** (pq ** v2P) ** (sP ** wP) ** g2 = kopp k1 ** (vP ** vP ** (rr ** v2R) ** (sR ** wR) ** H)).
  { apply (cancel FT (kk ** qq ** gg)); [repeat apply nmul; assumption|].
    transitivity (vR ** vR ** (pq ** qq ** kk) ** v2P ** sP ** (gg ** g2 ** wP)); [ring|]. rewrite F4, GG.
    transitivity ((h ** vR) ** (h ** vR) ** rr ** v2P ** v2Q ** sP ** wR); [ring|]. rewrite Yh.
    transitivity (kopp k1 ** (vP ** vP) ** rr ** (H ** kk ** v2R) ** wR ** (sR ** qq ** gg)); [|ring]. rewrite HH, RB.
    transitivity ((g1 ** vP) ** (g1 ** vP) ** rr ** v2P ** v2Q ** sP ** wR); [rewrite Yg|]; ring. }
  assert (FIN : FR ** (bP ** (sP ** wP)) = FP ** (bR ** (sR ** wR))).
  { apply (cancel FT (aR ** (rr ** v2R) ** (aP ** (pq ** v2P)) ** aQ ** H ** g2)); [repeat apply nmul; assumption|].
    transitivity ((FR ** (aR ** (rr ** v2R))) ** (aP ** aQ ** H) ** (pq ** v2P) ** bP ** (sP ** wP) ** g2); [ring|]. rewrite DR, EA.
    transitivity ((hm ** um) ** aR ** bP ** (vR ** vR ** (pq ** v2P) ** (sP ** wP) ** g2)); [ring|]. rewrite L, PQ.
    transitivity ((FP ** (aP ** (pq ** v2P))) ** (bR ** aQ ** g2) ** aR ** (rr ** v2R) ** (sR ** wR) ** H); [|ring]. rewrite DP, EB. ring. }
  transitivity (kdiv FR (bR ** (sR ** wR))); [field; repeat split; assumption|]. transitivity (kdiv FP (bP ** (sP ** wP))); [|field; repeat split; assumption].
  transitivity (kdiv (FR ** (bP ** (sP ** wP))) (bP ** (sP ** wP) ** (bR ** (sR ** wR)))); [field; repeat split; assumption|]. rewrite FIN. field. repeat split; assumption.
Qed.
End Basis.
(** E(aP + bQ, Q) = E(P, Q)^a for every order above 3 *)
Section All.
Context (P Q : pt K) (HP : on P) (HQ : on Q) (n : Z) (Hn : (3 < n)%Z).
Context (OP : pmul_nat (Z.to_nat n) P = None) (OQ : pmul_nat (Z.to_nat n) Q = None).
Context (indep : forall i j : nat, padd (pmul_nat i P) (pmul_nat j Q) = None -> (n | Z.of_nat i)%Z /\ (n | Z.of_nat j)%Z).
Local Open Scope Z_scope.
Theorem ee_bilin_all a b : (0 < a)%nat -> Z.of_nat a < n -> ee P Q n (Z.of_nat a) (Z.of_nat b) 0 1 = pw (ee P Q n 1 0 0 1) a.
Proof.
  intros Ha Han. destruct (Z.odd n) eqn:Od; [apply (ee_bilin FT keq_ok two_nz smooth P Q HP HQ n Hn OP OQ indep a b Od Ha Han)|].
  assert (N1 : ~ (n | dt 1 0 0 1)) by (apply (nodiv n); unfold dt; lia).
  assert (U : ee P Q n 1 0 0 1 <> k0) by (apply (ee_anti FT keq_ok two_nz smooth P Q HP HQ n Hn OP OQ indep 1 0 0 1 (unim_0 n) N1)).
  assert (E : ee P Q n (1 + 0) (0 + 1) 0 1 = ee P Q n 1 0 0 1).
  { apply (ee_even P Q HP HQ n Hn OP OQ indep (Z.to_nat (n - 2))); [lia|]. apply Bool.not_true_iff_false. intros O. apply Nat.odd_spec in O. destruct O as [h Eh].
    assert (Z.odd n = true) by (apply Z.odd_spec; exists (Z.of_nat h + 1); lia). congruence. }
  pose proof (ee_cross FT keq_ok two_nz smooth P Q HP HQ n Hn OP OQ indep 1 0 0 1 1 (unim_0 n) eq_refl (or_introl eq_refl) b a Ha Han) as C. rewrite E in C.
  replace (Z.of_nat a * 1 + Z.of_nat b * 0) with (Z.of_nat a) in C by lia. replace (Z.of_nat a * 0 + Z.of_nat b * 1) with (Z.of_nat b) in C by lia. rewrite C.
  replace (kdiv (ee P Q n 1 0 0 1) (ee P Q n 1 0 0 1)) with k1 by (field; exact U). rewrite (pw_1 FT). ring.
Qed.
End All.
Section All2.
Context (P Q : pt K) (HP : on P) (HQ : on Q) (n : Z) (Hn : (3 < n)%Z).
Context (OP : pmul_nat (Z.to_nat n) P = None) (OQ : pmul_nat (Z.to_nat n) Q = None).
Context (indep : forall i j : nat, padd (pmul_nat i P) (pmul_nat j Q) = None -> (n | Z.of_nat i)%Z /\ (n | Z.of_nat j)%Z).
Local Open Scope Z_scope.
Theorem ee_bilin2_all a b : (0 < b)%nat -> Z.of_nat b < n -> ee P Q n (Z.of_nat a) (Z.of_nat b) (-1) 0 = pw (ee P Q n 1 0 0 1) b.
Proof.
  intros Hb Hbn. pose proof (ee_bilin_all Q (popp P) HQ (opp_on FT P HP) n Hn OQ (opp_order FT keq_ok two_nz P HP n OP) (indep_swap FT keq_ok two_nz smooth P Q HP HQ n Hn OQ indep) b (Z.to_nat ((- Z.of_nat a) mod n)) Hb Hbn) as B. unfold L_Weil.ee in B. rewrite !(pz_swap FT keq_ok two_nz smooth P Q HP HQ n Hn OP) in B. fold (ee P Q n) in B.
  assert (N1 : ~ (n | dt 1 0 0 1)) by (apply (nodiv n); unfold dt; lia).
  pose proof (ee_inv FT keq_ok two_nz smooth P Q HP HQ n Hn OP OQ indep 1 0 0 1 (unim_0 n) N1) as I1.
  assert (N2 : ~ (n | dt (- (1)) (- 0) 0 1)) by (unfold dt; apply (nodiv_opp n 1), (nodiv n); lia).
  pose proof (proj1 (ee_anti FT keq_ok two_nz smooth P Q HP HQ n Hn OP OQ indep (- (1)) (- 0) 0 1 (unim_0 n) N2)) as I2.
  assert (U : ee P Q n 0 1 (- (1)) (- 0) = ee P Q n 1 0 0 1).
  { set (x := ee P Q n (- (1)) (- 0) 0 1) in *. apply (cancel FT x); [intros Z; apply (F_1_neq_0 FT); transitivity (kmul x (ee P Q n 0 1 (- (1)) (- 0))); [symmetry; exact I2|rewrite Z; ring]|]. transitivity k1; [exact I2|]. transitivity (kmul (ee P Q n 1 0 0 1) x); [symmetry; exact I1|ring]. }
  replace (pz P Q n (- (0)) 1) with (pz P Q n 0 1) in B by (f_equal; lia). rewrite Z2Nat.id in B by (apply Z.mod_pos_bound; lia).
  transitivity (wp (Z.to_nat n) (pz P Q n (- ((- Z.of_nat a) mod n)) (Z.of_nat b)) (pz P Q n (-1) 0)).
  - unfold L_Weil.ee. f_equal. apply (pz_mod P Q n).
    + exists (- ((- Z.of_nat a) / n)). pose proof (Z.div_mod (- Z.of_nat a) n ltac:(lia)). lia.
    + rewrite Z.sub_diag. apply Z.divide_0_r.
  - change (-1) with (- (1)). rewrite B. f_equal. unfold L_Weil.ee in U. change (- 0) with 0 in U. exact U.
Qed.
End All2.
(** ** Orders that are powers of two: the loop only doubles, and dependent points pair to 1 *)
Fixpoint fd (X T : pt K) (k : nat) : K := match k with O => 1 | S i => fd X T i * fd X T i * hv (pmul_nat (2 ^ i) X) (pmul_nat (2 ^ i) X) T end.
Lemma p2S i : (2 ^ S i = 2 ^ i + 2 ^ i)%nat. Proof. cbn [Nat.pow]. lia. Qed.
Lemma dbl i X : on X -> padd (pmul_nat (2 ^ i) X) (pmul_nat (2 ^ i) X) = pmul_nat (2 ^ S i) X.
Proof. intros H. rewrite p2S, (pmul_nat_add FT keq_ok two_nz smooth) by exact H. reflexivity. Qed.
Lemma fd_fm X T k : on X -> on T -> (forall a, xdis (pmul_nat a X) T) -> fd X T k = fm X T (2 ^ k).
Proof.
  intros HX HT D. induction k.
  - cbn [fd Nat.pow L_Weil.fm S_Curve.pmul_nat]. rewrite hv_N1. ring.
  - cbn [fd]. rewrite p2S, (fm_add FT keq_ok two_nz smooth) by assumption. rewrite IHk. reflexivity.
Qed.
Local Notation Mon := (pmul_nat_on FT keq_ok two_nz).
Lemma pw_2 x i : pw x (2 ^ S i) = pw x (2 ^ i) * pw x (2 ^ i).
Proof. rewrite p2S. generalize (2 ^ i)%nat as a. intros a. generalize a at 2 4 as b. intros b. induction b; [rewrite Nat.add_0_r; cbn; ring|]. rewrite Nat.add_succ_r. cbn [L_Weil.pw]. rewrite IHb. ring. Qed.
Lemma fd_sum X X' T k : on X -> on X' -> on T -> xdis (padd X X') T ->
  (forall i, xdis (pmul_nat (2 ^ S i) X) T) -> (forall i, xdis (pmul_nat (2 ^ S i) X') T) -> (forall i, xdis (pmul_nat (2 ^ S i) (padd X X')) T) -> (forall i, xdis (padd (pmul_nat (2 ^ S i) X) (pmul_nat (2 ^ i) X')) T) ->
  fd X T k * fd X' T k * hv (pmul_nat (2 ^ k) X) (pmul_nat (2 ^ k) X') T = pw (hv X X' T) (2 ^ k) * fd (padd X X') T k.
Proof.
  intros HX HX' HT D0 D1 D2 D3 D4. induction k.
  - cbn [fd Nat.pow S_Curve.pmul_nat L_Weil.pw]. rewrite !padd_0_l. ring.
  - assert (Dn : forall a, pmul_nat a (padd X X') = padd (pmul_nat a X) (pmul_nat a X')) by (intros a; apply (pmul_nat_dist FT keq_ok two_nz smooth); assumption).
    assert (F := four FT keq_ok two_nz smooth (pmul_nat (2 ^ k) X) (pmul_nat (2 ^ k) X) (pmul_nat (2 ^ k) X') (pmul_nat (2 ^ k) X') T (Mon _ _ HX) (Mon _ _ HX) (Mon _ _ HX') (Mon _ _ HX') HT).
    rewrite !dbl in F by assumption. rewrite <- !Dn in F.
    assert (Dk : xdis (pmul_nat (2 ^ k) (padd X X')) T) by (destruct k; [cbn [Nat.pow S_Curve.pmul_nat]; rewrite padd_0_l; exact D0|apply D3]).
    specialize (F (D1 _) (D2 _) Dk Dk (D3 _) (or_introl (D4 k))).
    cbn [fd]. rewrite pw_2.
    transitivity ((fd X T k * fd X' T k) * (fd X T k * fd X' T k) * (hv (pmul_nat (2 ^ k) X) (pmul_nat (2 ^ k) X) T * hv (pmul_nat (2 ^ k) X') (pmul_nat (2 ^ k) X') T * hv (pmul_nat (2 ^ S k) X) (pmul_nat (2 ^ S k) X') T)); [ring|]. rewrite F.
    transitivity ((fd X T k * fd X' T k * hv (pmul_nat (2 ^ k) X) (pmul_nat (2 ^ k) X') T) * (fd X T k * fd X' T k * hv (pmul_nat (2 ^ k) X) (pmul_nat (2 ^ k) X') T) * hv (pmul_nat (2 ^ k) (padd X X')) (pmul_nat (2 ^ k) (padd X X')) T); [ring|].
    rewrite IHk. ring.
Qed.
Lemma recip_gen X T U : on X -> on T -> on U -> fin X = true -> fin T = true -> fin U = true -> padd X X <> None -> padd T U <> None ->
  xdis X (padd T U) -> xdis (padd X X) T -> xdis (padd X X) U -> xdis (padd X X) (padd T U) ->
  hv X X T * hv X X U * hv T U (padd X X) = kopp k1 * (hv T U X * hv T U X * hv X X (padd T U)).
Proof.
  intros O1 O2 O3 F1 F2 F3 N1 N2 D1 D2 D3 D4. destruct X as [[x1 y1]|]; [|discriminate]. destruct T as [[x3 y3]|]; [|discriminate]. destruct U as [[x4 y4]|]; [|discriminate].
  apply (recip_fin FT keq_ok two_nz); auto.
  - intros [_ E]. apply N1. rewrite E at 1. apply (padd_opp' keq_ok). assumption.
  - intros [-> ->]. apply N2. apply (padd_opp' keq_ok). assumption.
Qed.
Section Pow2.
Context (P Q : pt K) (HP : on P) (HQ : on Q) (n : Z) (Hn : (3 < n)%Z).
Context (OP : pmul_nat (Z.to_nat n) P = None) (OQ : pmul_nat (Z.to_nat n) Q = None).
Context (indep : forall i j : nat, padd (pmul_nat i P) (pmul_nat j Q) = None -> (n | Z.of_nat i)%Z /\ (n | Z.of_nat j)%Z).
Local Open Scope Z_scope.
Local Infix "**" := kmul (at level 40, left associativity).
Context (k : nat) (En : n = 2 ^ Z.of_nat k).
Local Notation pp := (pz P Q n).
Local Notation p_on i j := (pz_on FT keq_ok two_nz P Q HP HQ n i j).
Local Notation pza := (pza P Q HP HQ n Hn OP OQ).
Local Notation pzm := (pzm P Q HP HQ n Hn OP OQ indep).
Local Notation T := (pp (-1) 0).
Lemma n_even : Z.even n = true. Proof. rewrite En. destruct k as [|k']; [change (2 ^ Z.of_nat 0) with 1 in En; lia|]. rewrite Nat2Z.inj_succ, Z.pow_succ_r by lia. apply Z.even_mul. Qed.
Lemma nd_odd z : Z.odd z = true -> ~ (n | z).
Proof. intros O [q Hq]. rewrite Hq, <- Z.negb_even, Z.even_mul, n_even, orb_true_r in O. discriminate. Qed.
Lemma xpar i j a b : Z.odd (i - a) = true -> xdis (pp i j) (pp a b).
Proof.
  intros O. assert (O' : Z.odd (i + a) = true) by (rewrite <- O, Z.odd_add, Z.odd_sub; reflexivity).
  apply (pz_xdis FT keq_ok two_nz smooth P Q HP HQ n Hn OP OQ indep); intros [D _]; revert D; apply nd_odd; assumption.
Qed.
Lemma xpar2 i j a b : Z.odd (j - b) = true -> xdis (pp i j) (pp a b).
Proof.
  intros O. assert (O' : Z.odd (j + b) = true) by (rewrite <- O, Z.odd_add, Z.odd_sub; reflexivity).
  apply (pz_xdis FT keq_ok two_nz smooth P Q HP HQ n Hn OP OQ indep); intros [_ D]; revert D; apply nd_odd; assumption.
Qed.
Lemma fodd i j : Z.odd i = true \/ Z.odd j = true -> fin (pp i j) = true.
Proof.
  intros O. destruct (pp i j) eqn:E; [reflexivity|]. apply (pz_None P Q n Hn indep) in E. destruct E as [D1 D2]. destruct O as [O|O]; apply nd_odd in O; contradiction.
Qed.
Lemma pow2_even i : Z.odd (Z.of_nat (2 ^ S i)) = false. Proof. rewrite p2S, Nat2Z.inj_add, Z.odd_add. apply xorb_nilpotent. Qed.
Lemma m2 i a b : pmul_nat (2 ^ i) (pp a b) = pp (Z.of_nat (2 ^ i) * a) (Z.of_nat (2 ^ i) * b). Proof. apply pzm; reflexivity. Qed.
Lemma pow2Z i : Z.of_nat (2 ^ i) = 2 ^ Z.of_nat i. Proof. rewrite Nat2Z.inj_pow. reflexivity. Qed.
Lemma e_fd i j a b : unim n a b -> ~ (n | dt i j a b) -> fd (pp i j) (pp a b) k <> k0 /\ fd (pp a b) (pp i j) k <> k0 /\ ee P Q n i j a b ** fd (pp a b) (pp i j) k = fd (pp i j) (pp a b) k.
Proof.
  intros U N. assert (D1 : forall m, xdis (pmul_nat m (pp i j)) (pp a b)) by (intros; apply (xdis_mul FT keq_ok two_nz smooth P Q HP HQ n Hn OP OQ indep); assumption).
  assert (D2 : forall m, xdis (pmul_nat m (pp a b)) (pp i j)) by (intros; apply (xdis_mul' FT keq_ok two_nz smooth P Q HP HQ n Hn OP OQ indep); assumption).
  rewrite !fd_fm by (try apply (pz_on FT keq_ok two_nz P Q HP HQ); assumption).
  assert (Ek : Z.to_nat n = (2 ^ k)%nat) by (rewrite En, <- pow2Z; apply Nat2Z.id).
  assert (Oe : Nat.odd (2 ^ k) = false) by (destruct k as [|k']; [change (2 ^ Z.of_nat 0) with 1 in En; lia|]; rewrite p2S, Nat.odd_add; apply xorb_nilpotent).
  pose proof (fm_nz FT keq_ok two_nz (pp i j) (pp a b) (2 ^ k) (p_on i j) (p_on a b) D1) as Z1. pose proof (fm_nz FT keq_ok two_nz (pp a b) (pp i j) (2 ^ k) (p_on a b) (p_on i j) D2) as Z2.
  split; [exact Z1|]. split; [exact Z2|]. unfold L_Weil.ee, L_Weil.wp. rewrite Ek, Oe. cbn [L_Weil.sg]. field. exact Z2.
Qed.
Context (al : Z) (Oal : Z.odd al = true) (Nal : ~ (n | al + 1)).
Lemma odd_even_sub i : Z.odd (Z.of_nat (2 ^ S i) * al - -1) = true. Proof. rewrite Z.odd_sub, Z.odd_mul, pow2_even. reflexivity. Qed.
Lemma xT i a b : xdis (pmul_nat (2 ^ S i) (pp a b)) T.
Proof. rewrite m2. apply xpar. rewrite Z.odd_sub, Z.odd_mul, pow2_even. reflexivity. Qed.
Lemma xa : xdis (padd (pp al 0) (pp 0 1)) T.
Proof. rewrite (pza al 0 0 1 al 1) by lia. apply xpar2. reflexivity. Qed.
Lemma p2_sum : fd (pp al 0) T k ** fd (pp 0 1) T k = pw (hv (pp al 0) (pp 0 1) T) (2 ^ k) ** fd (pp al 1) T k.
Proof.
  pose proof (fd_sum (pp al 0) (pp 0 1) T k (p_on _ _) (p_on _ _) (p_on _ _) xa (fun i => xT i _ _) (fun i => xT i _ _)) as S0. rewrite (pza al 0 0 1 al 1) in S0 by lia. specialize (S0 (fun i => xT i _ _)).
  assert (Z0 : pmul_nat (2 ^ k) (pp al 0) = None) by (rewrite m2; apply (pz_None P Q n Hn indep); rewrite pow2Z, <- En; split; apply Z.divide_factor_l).
  rewrite Z0, hv_N1 in S0. rewrite <- S0; [ring|].
  intros i. rewrite !m2, (pza _ _ _ _ (Z.of_nat (2 ^ S i) * al) (Z.of_nat (2 ^ i))) by lia. apply xpar. apply odd_even_sub.
Qed.
Lemma fin2 i : (i < k)%nat -> forall a, Z.odd a = true -> pmul_nat (2 ^ i) (pp a 0) <> None.
Proof.
  intros Hi a Oa. rewrite m2. intros E. apply (pz_None P Q n Hn indep) in E. destruct E as [[q Hq] _]. rewrite pow2Z, En in Hq. replace (Z.of_nat k) with (Z.of_nat i + Z.of_nat (k - i)) in Hq by lia. rewrite Z.pow_add_r in Hq by lia.
  assert (P0 : 0 < 2 ^ Z.of_nat i) by (apply Z.pow_pos_nonneg; lia). assert (Ea : a = q * 2 ^ Z.of_nat (k - i)) by nia. replace (Z.of_nat (k - i)) with (Z.succ (Z.of_nat (k - i - 1))) in Ea by lia. rewrite Z.pow_succ_r in Ea by lia.
  rewrite Ea, !Z.odd_mul in Oa. change (Z.odd 2) with false in Oa. cbn [andb] in Oa. rewrite andb_false_r in Oa. discriminate.
Qed.
Lemma p2_rec i : (i < k)%nat -> fd T (pp al 0) i ** fd T (pp 0 1) i ** hv (pp al 0) (pp 0 1) (pmul_nat (2 ^ i) T) = (if Nat.eqb i 0 then k1 else kopp k1) ** (pw (hv (pp al 0) (pp 0 1) T) (2 ^ i) ** fd T (pp al 1) i).
Proof.
  assert (E2 : padd (pp al 0) (pp 0 1) = pp al 1) by (apply pza; lia).
  assert (FX : fin (pp al 0) = true) by (apply fodd; auto). assert (FX' : fin (pp 0 1) = true) by (apply fodd; auto).
  induction i; intros Hi.
  - cbn [Nat.eqb fd Nat.pow S_Curve.pmul_nat L_Weil.pw]. rewrite padd_0_l. ring.
  - specialize (IHi ltac:(lia)). cbn [Nat.eqb]. cbn [fd]. rewrite pw_2. rewrite <- dbl by apply (pz_on FT keq_ok two_nz P Q HP HQ).
    assert (R : hv (pmul_nat (2 ^ i) T) (pmul_nat (2 ^ i) T) (pp al 0) ** hv (pmul_nat (2 ^ i) T) (pmul_nat (2 ^ i) T) (pp 0 1) ** hv (pp al 0) (pp 0 1) (padd (pmul_nat (2 ^ i) T) (pmul_nat (2 ^ i) T)) = kopp k1 ** (hv (pp al 0) (pp 0 1) (pmul_nat (2 ^ i) T) ** hv (pp al 0) (pp 0 1) (pmul_nat (2 ^ i) T) ** hv (pmul_nat (2 ^ i) T) (pmul_nat (2 ^ i) T) (pp al 1))).
    { assert (Fi := fin2 i ltac:(lia) (-1) eq_refl). assert (FSi := fin2 (S i) Hi (-1) eq_refl). rewrite <- E2. apply recip_gen; try apply (pz_on FT keq_ok two_nz P Q HP HQ); try assumption.
      - apply Mon, (pz_on FT keq_ok two_nz P Q HP HQ).
      - destruct (pmul_nat (2 ^ i) T); [reflexivity|contradiction].
      - rewrite dbl by apply (pz_on FT keq_ok two_nz P Q HP HQ). exact FSi.
      - rewrite E2. intros E. assert (F : fin (pp al 1) = true) by (apply fodd; auto). rewrite E in F. discriminate.
      - rewrite E2, m2. apply xpar2. replace (Z.of_nat (2 ^ i) * 0 - 1) with (-1) by lia. reflexivity.
      - rewrite dbl by apply (pz_on FT keq_ok two_nz P Q HP HQ). rewrite m2. apply xpar. rewrite Z.odd_sub, Z.odd_mul, pow2_even, Oal. reflexivity.
      - rewrite dbl by apply (pz_on FT keq_ok two_nz P Q HP HQ). rewrite m2. apply xpar2. replace (Z.of_nat (2 ^ S i) * 0 - 1) with (-1) by lia. reflexivity.
      - rewrite E2, dbl by apply (pz_on FT keq_ok two_nz P Q HP HQ). rewrite m2. apply xpar2. replace (Z.of_nat (2 ^ S i) * 0 - 1) with (-1) by lia. reflexivity. }
    set (s := if Nat.eqb i 0 then k1 else kopp k1) in *. assert (S2 : s ** s = k1) by (unfold s; destruct (Nat.eqb i 0); ring).
    transitivity ((fd T (pp al 0) i ** fd T (pp 0 1) i) ** (fd T (pp al 0) i ** fd T (pp 0 1) i) ** (hv (pmul_nat (2 ^ i) T) (pmul_nat (2 ^ i) T) (pp al 0) ** hv (pmul_nat (2 ^ i) T) (pmul_nat (2 ^ i) T) (pp 0 1) ** hv (pp al 0) (pp 0 1) (padd (pmul_nat (2 ^ i) T) (pmul_nat (2 ^ i) T)))); [ring|]. rewrite R.
    transitivity ((fd T (pp al 0) i ** fd T (pp 0 1) i ** hv (pp al 0) (pp 0 1) (pmul_nat (2 ^ i) T)) ** (fd T (pp al 0) i ** fd T (pp 0 1) i ** hv (pp al 0) (pp 0 1) (pmul_nat (2 ^ i) T)) ** (kopp k1 ** hv (pmul_nat (2 ^ i) T) (pmul_nat (2 ^ i) T) (pp al 1))); [ring|]. rewrite IHi.
    set (w := pw (hv (pp al 0) (pp 0 1) T) (2 ^ i)). set (f := fd T (pp al 1) i). set (q := hv (pmul_nat (2 ^ i) T) (pmul_nat (2 ^ i) T) (pp al 1)).
    transitivity (s ** s ** (kopp k1 ** (w ** w ** (f ** f ** q)))); [ring|]. rewrite S2. ring.
Qed.
Lemma p2_rec_last : fd T (pp al 0) k ** fd T (pp 0 1) k = pw (hv (pp al 0) (pp 0 1) T) (2 ^ k) ** fd T (pp al 1) k.
Proof.
  assert (E2 : padd (pp al 0) (pp 0 1) = pp al 1) by (apply pza; lia).
  destruct k as [|[|k']] eqn:Ek; [change (2 ^ Z.of_nat 0) with 1 in En; lia|change (2 ^ Z.of_nat 1) with 2 in En; lia|]. rewrite <- Ek in *. set (i := S k') in *. assert (Eki : k = S i) by (unfold i; exact Ek). 
  pose proof (p2_rec i ltac:(lia)) as I. cbn [Nat.eqb] in I. change (Nat.eqb i 0) with false in I. cbv iota in I.
  rewrite Eki. cbn [fd]. rewrite pw_2.
  assert (Z0 : pmul_nat (2 ^ S i) T = None) by (rewrite m2; apply (pz_None P Q n Hn indep); rewrite pow2Z, <- Eki, <- En; split; apply Z.divide_factor_l).
  assert (R : hv (pmul_nat (2 ^ i) T) (pmul_nat (2 ^ i) T) (pp al 0) ** hv (pmul_nat (2 ^ i) T) (pmul_nat (2 ^ i) T) (pp 0 1) = hv (pp al 0) (pp 0 1) (pmul_nat (2 ^ i) T) ** hv (pp al 0) (pp 0 1) (pmul_nat (2 ^ i) T) ** hv (pmul_nat (2 ^ i) T) (pmul_nat (2 ^ i) T) (pp al 1)).
  { assert (EV : padd (pmul_nat (2 ^ i) T) (pmul_nat (2 ^ i) T) = None) by (rewrite dbl by apply (pz_on FT keq_ok two_nz P Q HP HQ); exact Z0).
    pose proof (recip FT keq_ok two_nz (pmul_nat (2 ^ i) T) (pmul_nat (2 ^ i) T) (pp al 0) (pp 0 1) (Mon _ _ (p_on _ _)) (Mon _ _ (p_on _ _)) (p_on _ _) (p_on _ _)) as R. rewrite EV, E2 in R. cbn [fin] in R. rewrite andb_false_r in R. cbn [andb L_Weil.sg L_Weil.hv] in R.
    transitivity (hv (pmul_nat (2 ^ i) T) (pmul_nat (2 ^ i) T) (pp al 0) ** hv (pmul_nat (2 ^ i) T) (pmul_nat (2 ^ i) T) (pp 0 1) ** k1); [ring|]. rewrite R; [ring|].
    assert (V1 : forall j, Z.odd j = true -> forall a, xdis (pmul_nat (2 ^ i) T) (pp a j)) by (intros j Hj a; rewrite m2; apply xpar2; replace (Z.of_nat (2 ^ i) * 0 - j) with (- j) by lia; rewrite Z.odd_opp; exact Hj).
    assert (V2 : xdis (pmul_nat (2 ^ i) T) (pp al 0)) by (rewrite m2; apply xpar; rewrite Z.odd_sub, Z.odd_mul, Oal; unfold i; rewrite pow2_even; reflexivity).
    intros p q Hp Hq. cbn [In] in Hp, Hq. destruct Hp as [<-|[<-|[<-|[]]]]; destruct Hq as [<-|[<-|[<-|[]]]]; auto; exact Logic.I. }
  set (w := pw (hv (pp al 0) (pp 0 1) T) (2 ^ i)) in *. set (f := fd T (pp al 1) i) in *. set (q := hv (pmul_nat (2 ^ i) T) (pmul_nat (2 ^ i) T) (pp al 1)) in *. set (h := hv (pp al 0) (pp 0 1) (pmul_nat (2 ^ i) T)) in *.
  transitivity ((fd T (pp al 0) i ** fd T (pp 0 1) i) ** (fd T (pp al 0) i ** fd T (pp 0 1) i) ** (hv (pmul_nat (2 ^ i) T) (pmul_nat (2 ^ i) T) (pp al 0) ** hv (pmul_nat (2 ^ i) T) (pmul_nat (2 ^ i) T) (pp 0 1))); [ring|]. rewrite R.
  transitivity ((fd T (pp al 0) i ** fd T (pp 0 1) i ** h) ** (fd T (pp al 0) i ** fd T (pp 0 1) i ** h) ** q); [ring|]. rewrite I. ring.
Qed.
(** e(alpha P, -P) = 1 before any zero is replaced, and no zero is *)
Lemma hv_self X U : on X -> on U -> forall Y, on Y -> fin Y = true -> fin X = true -> fin U = true -> padd Y X <> None -> padd X X <> None -> xdis (padd Y X) U -> (xdis X U /\ xdis Y U) \/ U = popp X -> hv Y X U <> k0.
Proof.
  intros HX HU Y HY FY FX FU NS N2 D [[D1 D2]|E]; [apply (hv_nz FT keq_ok two_nz); assumption|].
  subst U. destruct X as [[x y]|]; [|discriminate]. cbn [S_Curve.popp] in *. intros Z. pose proof (hv_at x y Y HX HY FY NS) as A1.
  assert (D' : xdis (padd Y (Some (x, y))) (Some (x, y))) by (destruct (padd Y (Some (x, y))) as [[]|]; exact D). specialize (A1 D'). rewrite Z in A1.
  apply N2. assert (Y0 : y = k0). { apply (cancel FT (kadd k1 k1)); [exact two_nz|]. transitivity (kopp (kopp (kadd y y))); [ring|]. rewrite <- A1. ring. }
  subst y. replace (x, k0) with (x, kopp k0) at 1 by (f_equal; ring). apply (padd_opp' keq_ok). exact HX.
Qed.
Lemma al_cases : xdis (pp al 0) T \/ T = popp (pp al 0).
Proof.
  destruct (Zdivide_dec n (al - 1)) as [D|D].
  - right. rewrite (pz_opp FT keq_ok two_nz smooth P Q HP HQ n Hn OP OQ indep). apply pz_mod; [|exists 0; lia]. destruct D as [c Hc]. exists c. lia.
  - left. apply (pz_xdis FT keq_ok two_nz smooth P Q HP HQ n Hn OP OQ indep); intros [D1 _]; [apply Nal; replace (al + 1) with (al - -1) by lia; exact D1|apply D; replace (al - 1) with (al + -1) by lia; exact D1].
Qed.
Lemma xdis_sym (X Y : pt K) : xdis X Y -> xdis Y X. Proof. destruct X as [[]|], Y as [[]|]; cbn; auto. Qed.
Lemma k_2 : (2 <= k)%nat. Proof. destruct k as [|[|k']]; [change (2 ^ Z.of_nat 0) with 1 in En; lia|change (2 ^ Z.of_nat 1) with 2 in En; lia|lia]. Qed.
Lemma dbl_ne a : Z.odd a = true -> padd (pp a 0) (pp a 0) <> None.
Proof.
  intros Oa. pose proof k_2 as K2. pose proof (fin2 1 ltac:(lia) a Oa) as F. cbn [Nat.pow Nat.mul Nat.add S_Curve.pmul_nat] in F. rewrite padd_0_l in F. exact F.
Qed.
Lemma fd_nz1 j : fd (pp al 0) T j <> k0.
Proof.
  assert (FX : fin (pp al 0) = true) by (apply fodd; auto). assert (FT' : fin T = true) by (apply fodd; auto).
  induction j; [exact (F_1_neq_0 FT)|]. cbn [fd]. apply nmul; [apply nmul; assumption|]. destruct j as [|j].
  - cbn [Nat.pow S_Curve.pmul_nat]. rewrite padd_0_l. apply hv_self; auto; try apply (pz_on FT keq_ok two_nz P Q HP HQ); try (apply dbl_ne; exact Oal).
    + rewrite (pza al 0 al 0 (al + al) 0) by lia. apply xpar. rewrite Z.odd_sub, Z.odd_add, xorb_nilpotent. reflexivity.
    + destruct al_cases; auto.
  - apply (hv_nz FT keq_ok two_nz); try apply Mon; try apply (pz_on FT keq_ok two_nz P Q HP HQ); try apply xT. rewrite dbl by apply (pz_on FT keq_ok two_nz P Q HP HQ). apply xT.
Qed.
Lemma fd_nz2 j : fd T (pp al 0) j <> k0.
Proof.
  assert (FX : fin (pp al 0) = true) by (apply fodd; auto). assert (FT' : fin T = true) by (apply fodd; auto).
  assert (XX : forall i, xdis (pmul_nat (2 ^ S i) T) (pp al 0)) by (intros i; rewrite m2; apply xpar; rewrite Z.odd_sub, Z.odd_mul, pow2_even, Oal; reflexivity).
  induction j; [exact (F_1_neq_0 FT)|]. cbn [fd]. apply nmul; [apply nmul; assumption|]. destruct j as [|j].
  - cbn [Nat.pow S_Curve.pmul_nat]. rewrite padd_0_l. apply hv_self; auto; try apply (pz_on FT keq_ok two_nz P Q HP HQ); try (apply dbl_ne; reflexivity).
    + rewrite (pza (-1) 0 (-1) 0 (-2) 0) by lia. apply xpar. rewrite Z.odd_sub, Oal. reflexivity.
    + destruct al_cases as [D|E]; [left; split; apply xdis_sym; exact D|right; rewrite E; symmetry; apply (popp_invol FT)].
  - apply (hv_nz FT keq_ok two_nz); try apply Mon; try apply (pz_on FT keq_ok two_nz P Q HP HQ); try apply XX. rewrite dbl by apply (pz_on FT keq_ok two_nz P Q HP HQ). apply XX.
Qed.
Theorem p2_dep : fd (pp al 0) T k = fd T (pp al 0) k.
Proof.
  pose proof p2_sum as S1. pose proof p2_rec_last as S2.
  assert (UT : unim n (-1) 0) by (exists (-1), 0, 0; reflexivity). assert (N1 : ~ (n | dt 0 1 (-1) 0)) by (apply (nodiv n); unfold dt; lia). assert (N2 : ~ (n | dt al 1 (-1) 0)) by (unfold dt; replace (al * 0 - 1 * -1) with 1 by lia; apply (nodiv n); lia).
  destruct (e_fd 0 1 (-1) 0 UT N1) as (A1 & A2 & A3). destruct (e_fd al 1 (-1) 0 UT N2) as (B1 & B2 & B3).
  assert (EE : ee P Q n al 1 (-1) 0 = ee P Q n 0 1 (-1) 0).
  { pose proof (ee_bilin2_all P Q HP HQ n Hn OP OQ indep 0 1 ltac:(lia) ltac:(lia)) as C0. pose proof (ee_bilin2_all P Q HP HQ n Hn OP OQ indep (Z.to_nat (al mod n)) 1 ltac:(lia) ltac:(lia)) as C1.
    rewrite Z2Nat.id in C1 by (apply Z.mod_pos_bound; lia). change (Z.of_nat 0) with 0%Z in C0. change (Z.of_nat 1) with 1%Z in C0, C1. rewrite C0, <- C1. apply (ee_mod P Q n); [|exists 0; lia]. exists (al / n). pose proof (Z.div_mod al n ltac:(lia)). lia. }
  rewrite EE in B3. set (w := ee P Q n 0 1 (-1) 0) in *. set (hn := pw (hv (pp al 0) (pp 0 1) T) (2 ^ k)) in *. set (a := fd (pp al 0) T k) in *. set (b := fd T (pp al 0) k) in *. set (c := fd (pp 0 1) T k) in *. set (d := fd T (pp 0 1) k) in *. set (x := fd (pp al 1) T k) in *. set (y := fd T (pp al 1) k) in *.
  assert (Hb : b <> k0) by apply fd_nz2. clearbody w hn a b c d x y.
  apply (cancel FT c); [exact A1|]. transitivity (hn ** x); [rewrite <- S1; ring|]. rewrite <- B3, <- A3. transitivity (w ** (hn ** y)); [ring|]. rewrite <- S2. ring.
Qed.
End Pow2.
 End Weil.
