(** Isogenies of odd degree between Montgomery curves: the abscissa map x * prod ((x t - 1) / (x - t))^2, over an abstract field. *)
From Coq Require Import Arith ZArith List Bool Permutation Ring Field Lia.
From Verif Require Import S_Curve L_Group L_Kummer L_Poly.
Import ListNotations.

Section Base.
Context {K : Type} {k0 k1 : K} {kadd kmul ksub : K -> K -> K} {kopp : K -> K} {kdiv : K -> K -> K} {kinv : K -> K} {keq : K -> K -> bool}.
Context (FT : field_theory k0 k1 kadd kmul ksub kopp kdiv kinv (@eq K)).
Context (keq_ok : forall x y, keq x y = true <-> x = y).
Context (A : K).
Add Field Kfield0 : FT.
Local Notation "0" := k0. Local Notation "1" := k1.
Local Notation "2" := (kadd k1 k1). Local Notation "4" := (kadd (kadd k1 k1) (kadd k1 k1)).
Local Infix "+" := kadd. Local Infix "*" := kmul. Local Infix "-" := ksub. Local Infix "/" := kdiv. Local Notation "- x" := (kopp x).
Local Notation on := (on kadd kmul A).
Local Notation padd := (padd k1 kadd kmul ksub kopp kdiv keq A).
Local Notation popp := (popp kopp).
(** the abscissa of a finite point *)
Definition xof0 (p : pt K) : K := match p with Some (x, _) => x | None => 0 end.
Lemma xof0_opp p : xof0 (popp p) = xof0 p. Proof. destruct p as [[]|]; reflexivity. Qed.
Lemma xof0_eq p q : on p -> on q -> p <> None -> q <> None -> xof0 p = xof0 q -> p = q \/ p = popp q.
Proof.
  destruct p as [[x y]|]; [|congruence]. destruct q as [[x' y']|]; [|congruence]. cbn [xof0]. intros Hp Hq _ _ <-. cbn [S_Curve.popp].
  destruct (same_x FT keq_ok x y y' Hp Hq) as [->| ->]; auto.
Qed.
(** both abscissae of p + q and p - q at once *)
Definition Bq0 (t X z : K) : K := (z - t) * (z - t) * (X * X) + - (2 * ((z + t) * (z * t + 1) + 2 * A * z * t)) * X + (z * t - 1) * (z * t - 1).
Lemma Bq0_sym t X z : Bq0 t X z = Bq0 t z X. Proof. unfold Bq0. ring. Qed.
Lemma sum_diff0 x y t s X : on (Some (x, y)) -> on (Some (t, s)) -> x <> t ->
  (X - xof0 (padd (Some (x, y)) (Some (t, s)))) * (X - xof0 (padd (Some (x, y)) (Some (t, - s)))) * ((x - t) * (x - t)) = Bq0 t X x.
Proof.
  intros Hp Hq N. assert (Hq' : on (Some (t, - s))) by exact ((on_opp FT) (Some (t, s)) Hq).
  assert (F : forall s', exists x2 y2, padd (Some (x, y)) (Some (t, s')) = Some (x2, y2)). { intros s'. unfold S_Curve.padd. rewrite (keq_false keq_ok) by exact N. unfold chord. eexists. eexists. reflexivity. }
  destruct (F s) as (x2 & y2 & E2), (F (- s)) as (x3 & y3 & E3). pose proof (sum_x FT keq_ok _ _ _ _ _ _ Hp Hq E2) as S2. pose proof (sum_x FT keq_ok _ _ _ _ _ _ Hp Hq' E3) as S3. rewrite E2, E3. cbn [xof0].
  assert (NW : (t - x) * (t - x) <> 0) by (apply (mulr_nz FT keq_ok); apply (sub_nz FT); congruence). apply (cancel FT _ _ _ NW).
  transitivity ((X * ((t - x) * (t - x)) - x2 * ((t - x) * (t - x))) * (X * ((t - x) * (t - x)) - x3 * ((t - x) * (t - x)))); [ring|]. rewrite S2, S3. cbn in Hp, Hq.
  transitivity ((X * ((t - x) * (t - x)) - ((x * t + 1) * (x + t) + 2 * A * (x * t))) * (X * ((t - x) * (t - x)) - ((x * t + 1) * (x + t) + 2 * A * (x * t))) - 4 * (y * y) * (s * s)); [ring|].
  rewrite Hp, Hq. unfold Bq0. ring.
Qed.

Lemma Bq0_root e t x : e * e + A * e + 1 = 0 -> Bq0 t x e = (x * (e - t) + (e * t - 1)) * (x * (e - t) + (e * t - 1)).
Proof.
  intros H. assert (E : A * e = - (e * e) - 1) by (transitivity (e * e + A * e + 1 - e * e - 1); [ring|rewrite H; ring]). unfold Bq0.
  transitivity ((e - t) * (e - t) * (x * x) + - (2 * ((e + t) * (e * t + 1) + 2 * (A * e) * t)) * x + (e * t - 1) * (e * t - 1)); [ring|]. rewrite E. ring.
Qed.
End Base.

Section Velu.
Context {K : Type} {k0 k1 : K} {kadd kmul ksub : K -> K -> K} {kopp : K -> K} {kdiv : K -> K -> K} {kinv : K -> K} {keq : K -> K -> bool}.
Context (FT : field_theory k0 k1 kadd kmul ksub kopp kdiv kinv (@eq K)).
Context (keq_ok : forall x y, keq x y = true <-> x = y).
Context (two_nz : kadd k1 k1 <> k0).
Context {A : K}.
Context (smooth : kmul A A <> kadd (kadd k1 k1) (kadd k1 k1)).
Add Field Kfield : FT.
Local Notation "0" := k0. Local Notation "1" := k1.
Local Notation "2" := (kadd k1 k1). Local Notation "4" := (kadd (kadd k1 k1) (kadd k1 k1)).
Local Infix "+" := kadd. Local Infix "*" := kmul. Local Infix "-" := ksub. Local Infix "/" := kdiv. Local Notation "- x" := (kopp x).
Local Notation on := (on kadd kmul A).
Local Notation padd := (padd k1 kadd kmul ksub kopp kdiv keq A).
Local Notation popp := (popp kopp).
Local Notation pmul_nat := (pmul_nat k1 kadd kmul ksub kopp kdiv keq A).
Local Notation kpow := (kpow (k1 := k1) (kmul := kmul)).
Local Notation prodf := (prodf (k1 := k1) (kmul := kmul)).
Local Notation deglt := (deglt (k0 := k0) (kadd := kadd) (kmul := kmul)).
Local Notation lead := (lead (k0 := k0) (k1 := k1) (kadd := kadd) (kmul := kmul) (ksub := ksub)).
Let nzm := mulr_nz FT keq_ok.

(** group law *)
Lemma v_on p q : on p -> on q -> on (padd p q). Proof. exact (padd_on FT keq_ok two_nz p q). Qed.
Lemma v_assoc p q r : on p -> on q -> on r -> padd (padd p q) r = padd p (padd q r). Proof. exact (padd_assoc FT keq_ok two_nz smooth p q r). Qed.
Lemma v_comm p q : on p -> on q -> padd p q = padd q p. Proof. exact (padd_comm FT keq_ok two_nz p q). Qed.
Lemma v_0r p : padd p None = p. Proof. destruct p as [[]|]; reflexivity. Qed.
Lemma v_oppr p : on p -> padd p (popp p) = None. Proof. exact (padd_opp_r FT keq_ok p). Qed.
Lemma v_onopp p : on p -> on (popp p). Proof. exact (on_opp FT p). Qed.
Lemma v_mon n p : on p -> on (pmul_nat n p). Proof. exact (pmul_nat_on FT keq_ok two_nz n p). Qed.
Lemma v_cancel p q r : on p -> on q -> on r -> padd p r = padd q r -> p = q. Proof. exact (padd_cancel_r FT keq_ok two_nz smooth p q r). Qed.
Lemma v_addsub p q : on p -> on q -> padd (padd p q) (popp q) = p.
Proof. intros Hp Hq. rewrite v_assoc, v_oppr, v_0r; auto using v_onopp. Qed.
Lemma v_subadd p q : on p -> on q -> padd (padd p (popp q)) q = p.
Proof. intros Hp Hq. rewrite v_assoc, (v_comm (popp q) q), v_oppr, v_0r; auto using v_onopp. Qed.
Lemma v_oppu p q : on p -> on q -> padd p q = None -> q = popp p.
Proof. intros Hp Hq H. apply (v_cancel q (popp p) p); auto using v_onopp. rewrite (v_comm q p), (v_comm (popp p) p), v_oppr; auto using v_onopp. Qed.
Lemma v_swap p q r : on p -> on q -> on r -> padd (padd p q) r = padd (padd p r) q.
Proof. intros Hp Hq Hr. rewrite !v_assoc, (v_comm q r); auto. Qed.
Lemma v_oppadd p q : on p -> on q -> popp (padd p q) = padd (popp p) (popp q). Proof. exact (popp_add FT keq_ok two_nz p q). Qed.
Lemma v_invol p : popp (popp p) = p. Proof. exact (popp_invol FT p). Qed.

(** the abscissa of a finite point; both abscissae of p + q and p - q at once *)
Local Notation xof := (xof0 (k0 := k0)).
Local Notation Bq := (Bq0 (k1 := k1) (kadd := kadd) (kmul := kmul) (ksub := ksub) (kopp := kopp) A).
Lemma xof_opp p : xof (popp p) = xof p. Proof. exact (xof0_opp p). Qed.
Lemma xof_eq p q : on p -> on q -> p <> None -> q <> None -> xof p = xof q -> p = q \/ p = popp q. Proof. exact (xof0_eq FT keq_ok A p q). Qed.
Lemma Bq_sym t X z : Bq t X z = Bq t z X. Proof. exact (Bq0_sym FT A t X z). Qed.
Lemma sum_diff x y t s X : on (Some (x, y)) -> on (Some (t, s)) -> x <> t ->
  (X - xof (padd (Some (x, y)) (Some (t, s)))) * (X - xof (padd (Some (x, y)) (Some (t, - s)))) * ((x - t) * (x - t)) = Bq t X x.
Proof. exact (sum_diff0 FT keq_ok A x y t s X). Qed.
(** ** The kernel *)
Context {Kp : pt K} {d : nat}.
Context (onK : on Kp).
Notation ell := (S (d + d)).
Context (KO : pmul_nat ell Kp = None).
Context (KN : forall j, (0 < j < ell)%nat -> pmul_nat j Kp <> None).
Definition G (j : nat) : pt K := pmul_nat j Kp.
Definition inG (p : pt K) : Prop := exists j, p = G j.
Lemma G_on j : on (G j). Proof. apply v_mon, onK. Qed.
Hint Resolve G_on v_on v_onopp onK : core.
Lemma G_add i j : padd (G i) (G j) = G (i + j). Proof. symmetry. exact (pmul_nat_add FT keq_ok two_nz smooth i j Kp onK). Qed.
Lemma G_0 : G 0 = None. Proof. reflexivity. Qed.
Lemma G_ell q : G (ell * q) = None.
Proof. induction q; [rewrite Nat.mul_0_r; reflexivity|]. rewrite Nat.mul_succ_r, <- G_add, IHq. exact KO. Qed.
Lemma G_mod n : G n = G (n mod ell).
Proof. rewrite (Nat.div_mod n ell) at 1 by lia. rewrite <- G_add, G_ell. reflexivity. Qed.
Lemma G_None n : G n = None <-> (n mod ell = 0)%nat.
Proof.
  rewrite G_mod. split; [|intros ->; reflexivity]. intros H. destruct (Nat.eq_dec (n mod ell) 0) as [Z|Z]; [exact Z|]. exfalso. apply (KN (n mod ell)); [|exact H].
  pose proof (Nat.mod_upper_bound n ell). lia.
Qed.
Lemma G_opp j : popp (G j) = G ((d + d) * j).
Proof. symmetry. apply v_oppu; auto. rewrite G_add. replace (j + (d + d) * j)%nat with (ell * j)%nat by lia. apply G_ell. Qed.
Lemma G_opp_le j : (j <= ell)%nat -> popp (G j) = G (ell - j).
Proof. intros H. symmetry. apply v_oppu; auto. rewrite G_add. replace (j + (ell - j))%nat with ell by lia. exact KO. Qed.
Lemma G_inj i j : (i < ell)%nat -> (j < ell)%nat -> G i = G j -> i = j.
Proof.
  intros Hi Hj H. assert (M : forall i j, (i <= j < ell)%nat -> G i = G j -> i = j).
  { clear i j Hi Hj H. intros i j Hj H. destruct (Nat.eq_dec i j) as [E|E]; [exact E|]. exfalso. apply (KN (j - i)); [lia|]. apply (v_cancel _ _ (G i)); [apply G_on|exact Logic.I|apply G_on|].
    change (padd (G (j - i)) (G i) = padd (G 0) (G i)). rewrite !G_add. replace (j - i + i)%nat with j by lia. symmetry. exact H. }
  destruct (Nat.le_ge_cases i j) as [L|L]; [apply M; [lia|exact H]|]. symmetry. apply M; [lia|symmetry; exact H].
Qed.
Lemma inG_on p : inG p -> on p. Proof. intros [j ->]. auto. Qed.
Lemma inG_0 : inG None. Proof. exists O. reflexivity. Qed.
Lemma inG_G j : inG (G j). Proof. exists j. reflexivity. Qed.
Lemma inG_add p q : inG p -> inG q -> inG (padd p q). Proof. intros [i ->] [j ->]. exists (i + j)%nat. apply G_add. Qed.
Lemma inG_opp p : inG p -> inG (popp p). Proof. intros [i ->]. exists ((d + d) * i)%nat. apply G_opp. Qed.
Lemma inG_opp_iff p : inG (popp p) <-> inG p. Proof. split; intros H; [rewrite <- (v_invol p)|]; apply inG_opp; exact H. Qed.
Lemma inG_add_iff p q : on p -> inG q -> inG (padd p q) <-> inG p.
Proof. intros Hp Hq. split; intros H; [|apply inG_add; auto]. rewrite <- (v_addsub p q Hp (inG_on _ Hq)). apply inG_add; [exact H|apply inG_opp, Hq]. Qed.
Lemma inG_dec p : on p -> {inG p} + {~ inG p}.
Proof.
  intros Hp. assert (Q : forall q : pt K, {p = q} + {p <> q}).
  { assert (C : forall q r : pt K, {q = r} + {q <> r}) by (repeat decide equality; apply (kdec keq_ok)). apply C. }
  assert (L : forall n, {exists j, (j < n)%nat /\ p = G j} + {~ exists j, (j < n)%nat /\ p = G j}).
  { induction n as [|n [H|H]]; [right; intros (j & Hj & _); lia|left; destruct H as (j & Hj & E); exists j; split; [lia|exact E]|].
    destruct (Q (G n)) as [E|E]; [left; exists n; split; [lia|exact E]|right]. intros (j & Hj & Ej). destruct (Nat.eq_dec j n) as [->|Nj]; [contradiction|]. apply H. exists j. split; [lia|exact Ej]. }
  destruct (L ell) as [H|H]; [left; destruct H as (j & _ & E); exists j; exact E|right]. intros [j E]. apply H. exists (j mod ell)%nat. split; [apply Nat.mod_upper_bound; lia|]. rewrite <- G_mod. exact E.
Qed.
Lemma odd_div m j : (j <= d)%nat -> (0 < j)%nat -> (m = 2 \/ m = 4)%nat -> ((m * j) mod ell <> 0)%nat.
Proof.
  intros H1 H2 Hm Z. apply Nat.mod_divide in Z; [|lia]. destruct Z as [c Hc]. destruct Hm as [-> | ->].
  - destruct c as [|[|c]]; nia.
  - destruct c as [|[|[|[|c]]]]; nia.
Qed.
(** no point of the kernel has order two or four *)
Lemma G_fin j : (0 < j <= d)%nat -> exists x y, G j = Some (x, y) /\ y <> 0 /\ x <> 0 /\ x * x <> 1 /\ x * x + A * x + 1 <> 0.
Proof.
  intros Hj. destruct (G j) as [[x y]|] eqn:E; [|exfalso; apply (KN j); [lia|exact E]]. pose proof (G_on j) as O. rewrite E in O. exists x, y. split; [reflexivity|].
  assert (Y : y <> 0). { intros Z. apply (odd_div 2 j); [lia|lia|auto|]. apply G_None. replace (2 * j)%nat with (j + j)%nat by lia. rewrite <- G_add, E. exact (dbl_inf FT keq_ok x y O Z). }
  assert (YY : x * (x * x + A * x + 1) <> 0). { intros Z. apply (nzm y y Y Y). cbn in O. rewrite O, <- Z. ring. }
  repeat split.
  - exact Y.
  - intros Z. apply YY. rewrite Z. ring.
  - intros Z. apply (odd_div 4 j); [lia|lia|auto|]. apply G_None. replace (4 * j)%nat with ((j + j) + (j + j))%nat by lia. rewrite <- !G_add, E, (dbl_fin FT keq_ok two_nz x y O Y).
    match goal with |- padd (Some (?X, ?YY)) _ = _ => assert (EX : X = 0); [|assert (EY : YY = 0)] end.
    + rewrite Z. field. split; auto using (four_nz FT keq_ok two_nz).
    + rewrite Z. field. split; auto using (four_nz FT keq_ok two_nz).
    + rewrite EX, EY. apply (dbl_inf FT keq_ok); [cbn; ring|reflexivity].
  - intros Z. apply YY. rewrite Z. ring.
Qed.

(** products over a coset *)
Definition pr (h : pt K -> K) (P : pt K) : K := h P * prodf (fun i => h (padd P (G i))) (seq 1 d) * prodf (fun i => h (padd P (popp (G i)))) (seq 1 d).
Lemma pr_shift1 h P : on P -> pr h (padd P (G 1)) = pr h P.
Proof.
  intros HP. unfold pr. set (u := fun i => h (padd P (G i))). set (v := fun i => h (padd P (popp (G i)))).
  assert (E1 : prodf (fun i => h (padd (padd P (G 1)) (G i))) (seq 1 d) = prodf (fun i => u (S i)) (seq 1 d)). { apply prodf_ext. intros i _. unfold u. rewrite v_assoc, G_add; auto. }
  assert (E2 : prodf (fun i => h (padd (padd P (G 1)) (popp (G i)))) (seq 1 d) = prodf v (seq 0 d)).
  { rewrite <- (seq_shift d 0), prodf_map. apply prodf_ext. intros i _. unfold v. f_equal. replace (S i) with (1 + i)%nat by lia. rewrite <- G_add, v_oppadd, <- v_assoc, v_addsub; auto. }
  assert (E3 : prodf v (seq 1 d) = prodf (fun i => v (S i)) (seq 0 d)) by (rewrite <- (seq_shift d 0), prodf_map; reflexivity).
  rewrite E1, E2, E3. pose proof (prodf_shift FT u 1 d) as T1. pose proof (prodf_shift FT v 0 d) as T2. cbn [Nat.add] in T1, T2.
  assert (E4 : u (S d) = v d) by (unfold u, v; rewrite G_opp_le by lia; do 3 f_equal; lia). assert (E5 : h P = v 0%nat) by (unfold v; cbn; rewrite v_0r; reflexivity).
  change (h (padd P (G 1))) with (u 1%nat). rewrite T1, E4, E5. transitivity (prodf u (seq 1 d) * (prodf v (seq 0 d) * v d)); [ring|]. rewrite <- T2. ring.
Qed.
Lemma pr_shift h P j : on P -> pr h (padd P (G j)) = pr h P.
Proof. intros HP. induction j; [rewrite G_0, v_0r; reflexivity|]. replace (S j) with (j + 1)%nat by lia. rewrite <- G_add, <- v_assoc, pr_shift1; auto. Qed.
Lemma pr_mul h g P : pr (fun R => h R * g R) P = pr h P * pr g P.
Proof. unfold pr. rewrite !(prodf_mul FT). ring. Qed.
Lemma pr_const c P : pr (fun _ => c) P = kpow c ell.
Proof. unfold pr. rewrite !(prodf_const FT), !seq_length. cbn [L_Poly.kpow]. rewrite (kpow_add FT). ring. Qed.
Lemma pr_ext h g P : on P -> (forall R, (exists j, R = padd P (G j)) -> h R = g R) -> pr h P = pr g P.
Proof.
  intros HP H. unfold pr. f_equal; [f_equal|].
  - apply H. exists O. rewrite G_0, v_0r. reflexivity.
  - apply prodf_ext. intros i _. apply H. exists i. reflexivity.
  - apply prodf_ext. intros i _. apply H. exists ((d + d) * i)%nat. rewrite G_opp. reflexivity.
Qed.
Lemma pr_trans h P Q : on P -> on Q -> pr h (padd P Q) = pr (fun R => h (padd R Q)) P.
Proof.
  intros HP HQ. unfold pr. f_equal; [f_equal|]; apply prodf_ext; intros i _; f_equal; apply v_swap; auto.
Qed.

(** ** The abscissa map *)
Definition ts : list K := map (fun i => xof (G i)) (seq 1 d).
Definition D (x : K) : K := prodf (fun t => (x - t) * (x - t)) ts.
Definition N (x : K) : K := x * prodf (fun t => (x * t - 1) * (x * t - 1)) ts.
Definition P2 : K := prodf (fun t => t * t) ts.
Definition Psi (X z : K) : K := (X - z) * prodf (fun t => Bq t X z) ts.
Lemma ts_ok t : In t ts -> exists j y, (0 < j <= d)%nat /\ G j = Some (t, y) /\ y <> 0 /\ t <> 0 /\ t * t <> 1 /\ t * t + A * t + 1 <> 0.
Proof.
  unfold ts. intros H. apply in_map_iff in H. destruct H as (j & <- & Hj). apply in_seq in Hj. destruct (G_fin j ltac:(lia)) as (x & y & E & Q). exists j, y. rewrite E. cbn [xof0]. split; [lia|]. split; [reflexivity|exact Q].
Qed.
Lemma D_zero P : on P -> P <> None -> (D (xof P) = 0 <-> inG P).
Proof.
  intros HP NP. split.
  - intros H. apply (prodf_0_inv FT keq_ok) in H. destruct H as (t & It & Z). apply (sq0 FT keq_ok), (sub_eq FT) in Z. destruct (ts_ok t It) as (j & y & _ & E & _).
    destruct (xof_eq P (G j) HP (G_on j) NP) as [Q|Q]; [rewrite E; discriminate|rewrite Z, E; reflexivity|exists j; exact Q|]. rewrite Q. apply inG_opp, inG_G.
  - intros [j E]. assert (Ej : P = G (j mod ell)) by (rewrite <- G_mod; exact E). pose proof (Nat.mod_upper_bound j ell ltac:(lia)) as B. set (r := (j mod ell)%nat) in *. clearbody r.
    assert (R0 : r <> 0%nat) by (intros ->; apply NP; exact Ej). assert (exists i, (1 <= i <= d)%nat /\ xof P = xof (G i)) as (i & Hi & Ei).
    { destruct (Nat.le_gt_cases r d); [exists r; split; [lia|rewrite Ej; reflexivity]|]. exists (ell - r)%nat. split; [lia|]. rewrite <- G_opp_le, xof_opp by lia. rewrite Ej. reflexivity. }
    apply (prodf_0 FT _ _ (xof (G i))); [apply in_map_iff; exists i; split; [reflexivity|apply in_seq; lia]|]. rewrite Ei. ring.
Qed.
Lemma pr_Psi P X : on P -> ~ inG P -> pr (fun R => X - xof R) P * D (xof P) = Psi X (xof P).
Proof.
  intros HP NG. destruct P as [[x y]|] eqn:EP; [|exfalso; apply NG, inG_0]. rewrite <- EP in *. unfold pr, Psi, D, ts. rewrite !prodf_map.
  transitivity ((X - xof P) * prodf (fun i => (X - xof (padd P (G i))) * (X - xof (padd P (popp (G i)))) * ((xof P - xof (G i)) * (xof P - xof (G i)))) (seq 1 d)); [rewrite !(prodf_mul FT); ring|].
  f_equal. apply prodf_ext. intros i Hi. apply in_seq in Hi. destruct (G_fin i ltac:(lia)) as (t & s & E & _). rewrite E, EP. cbn [S_Curve.popp xof0]. rewrite EP in HP, NG. pose proof (G_on i) as Hi'. rewrite E in Hi'.
  apply (sum_diff x y t s X HP Hi'). intros ->. apply NG. destruct (same_x FT keq_ok t y s HP Hi') as [->| ->]; [exists i; symmetry; exact E|]. change (Some (t, - s)) with (popp (Some (t, s))). rewrite <- E. apply inG_opp, inG_G.
Qed.
(** the value of the abscissa map at a point outside the kernel *)
Definition fP (P : pt K) : K := - pr (fun R => 0 - xof R) P.
Lemma Psi_0 z : Psi 0 z = - N z. Proof. unfold Psi, N. rewrite (prodf_ext (fun t => Bq t 0 z) (fun t => (z * t - 1) * (z * t - 1))) by (intros; unfold Bq0; ring). ring. Qed.
Lemma fP_N P : on P -> ~ inG P -> N (xof P) = fP P * D (xof P).
Proof. intros HP NG. unfold fP. transitivity (- (pr (fun R => 0 - xof R) P * D (xof P))); [|ring]. rewrite pr_Psi, Psi_0 by auto. ring. Qed.
Lemma fP_shift P j : on P -> fP (padd P (G j)) = fP P. Proof. intros HP. unfold fP. rewrite pr_shift by auto. reflexivity. Qed.

(** degrees *)
Lemma len_ts : length ts = d. Proof. unfold ts. rewrite map_length, seq_length. reflexivity. Qed.
Lemma lead_quad a b c : lead 2 a (fun x => a * (x * x) + b * x + c).
Proof. apply (deglt_ext 2 (fun x => b * x + c)); [intros x; cbn [L_Poly.kpow]; ring|]. exact (lead_lt FT 1 b _ (lead_lin FT b c)). Qed.
Lemma lead_D : lead (d + d) 1 D.
Proof.
  pose proof (lead_prod FT 2 (fun _ => 1) (fun t x => (x - t) * (x - t)) ts) as H. rewrite len_ts in H. replace (d + d)%nat with (2 * d)%nat by lia.
  eapply lead_ext; [| |apply H].
  - intros x. reflexivity.
  - rewrite (prodf_const FT), (kpow_1 FT). reflexivity.
  - intros t _. eapply lead_ext; [| |exact (lead_quad 1 (- (t + t)) (t * t))]; [intros x; cbv beta; ring|reflexivity].
Qed.
Lemma lead_N : lead ell P2 N.
Proof.
  pose proof (lead_prod FT 2 (fun t => t * t) (fun t x => (x * t - 1) * (x * t - 1)) ts) as H. rewrite len_ts in H.
  assert (Q : forall t, In t ts -> lead 2 (t * t) (fun x => (x * t - 1) * (x * t - 1))). { intros t _. eapply lead_ext; [| |exact (lead_quad (t * t) (- (t + t)) 1)]; [intros x; cbv beta; ring|reflexivity]. }
  replace ell with (1 + 2 * d)%nat by lia. eapply lead_ext; [| |exact (lead_mul FT 1 (2 * d) 1 _ _ _ (lead_lin FT 1 0) (H Q))].
  - intros x. unfold N. ring.
  - unfold P2. ring.
Qed.
Lemma lead_Psi z : lead ell (D z) (fun X => Psi X z).
Proof.
  pose proof (lead_prod FT 2 (fun t => (z - t) * (z - t)) (fun t X => Bq t X z) ts) as H. rewrite len_ts in H.
  assert (Q : forall t, In t ts -> lead 2 ((z - t) * (z - t)) (fun X => Bq t X z)) by (intros t _; unfold Bq0; apply lead_quad).
  replace ell with (1 + 2 * d)%nat by lia. eapply lead_ext; [| |exact (lead_mul FT 1 (2 * d) 1 _ _ _ (lead_lin FT 1 (- z)) (H Q))].
  - intros x. unfold Psi. ring.
  - unfold D. ring.
Qed.
Definition defect (X z : K) : K := P2 * Psi X z - (N X * D z - N z * D X).
Lemma defect_deg z : deglt ell (fun X => defect X z).
Proof.
  apply (lead_0 FT). eapply lead_ext; [| |exact (lead_sub FT ell _ _ _ _ (lead_scale FT ell _ P2 _ (lead_Psi z)) (lead_sub FT ell _ _ _ _ (lead_scale FT ell _ (D z) _ lead_N) (lead_scale FT ell _ (N z) _ (lead_up FT _ _ _ lead_D))))].
  - intros x. unfold defect. ring.
  - ring.
Qed.
Lemma Psi_anti X z : Psi X z = - Psi z X.
Proof. unfold Psi. rewrite (prodf_ext (fun t => Bq t X z) (fun t => Bq t z X)) by (intros; apply Bq_sym). ring. Qed.
Lemma defect_anti X z : defect X z = - defect z X. Proof. unfold defect. rewrite (Psi_anti X z). ring. Qed.

(** ** The two-variable identity, from one point whose double is outside the kernel *)
Context {S0 : pt K}.
Context (onS : on S0).
Context (S2 : ~ inG (padd S0 S0)).
Lemma S_notG j : ~ inG (padd S0 (G j)).
Proof. intros H. apply (inG_add_iff S0 (G j) onS (inG_G j)) in H. apply S2, inG_add; exact H. Qed.
Lemma roots_nodup : NoDup (map (fun j => xof (padd S0 (G j))) (seq 0 ell)).
Proof.
  assert (I : forall i j, (i < ell)%nat -> (j < ell)%nat -> xof (padd S0 (G i)) = xof (padd S0 (G j)) -> i = j).
  { intros i j Hi Hj E. assert (NN : forall j, padd S0 (G j) <> None) by (intros k H; apply (S_notG k); rewrite H; exact inG_0).
    destruct (xof_eq _ _ (v_on _ _ onS (G_on i)) (v_on _ _ onS (G_on j)) (NN i) (NN j) E) as [Q|Q].
    - apply G_inj; auto. rewrite (v_comm S0), (v_comm S0 (G j)) in Q by auto. exact (v_cancel _ _ _ (G_on i) (G_on j) onS Q).
    - exfalso. apply S2. assert (Z : padd (padd S0 (G i)) (padd S0 (G j)) = None). { rewrite Q at 1. rewrite v_comm, v_oppr; auto. }
      assert (Z2 : padd (padd S0 S0) (G (i + j)) = None). { rewrite <- G_add. rewrite <- Z. rewrite <- !v_assoc by auto. f_equal. rewrite v_swap; auto. }
      apply v_oppu in Z2; auto. rewrite <- (v_invol (padd S0 S0)), <- Z2. apply inG_opp, inG_G. }
  generalize (fun i (H : In i (seq 0 ell)) => proj2 (proj1 (in_seq ell 0 i) H)). pose proof (seq_NoDup ell 0) as ND. revert ND. generalize (seq 0 ell). intros l. cbn [Nat.add].
  induction l as [|a l IH]; intros ND B; cbn [map]; constructor.
  - intros H. apply in_map_iff in H. destruct H as (j & E & Hj). inversion ND; subst. apply I in E; [subst; contradiction|apply B; right; exact Hj|apply B; left; reflexivity].
  - apply IH; [inversion ND; assumption|intros i Hi; apply B; right; exact Hi].
Qed.
Lemma defect_S j X : defect X (xof (padd S0 (G j))) = 0.
Proof.
  set (P := padd S0 (G j)). assert (HP : on P) by (unfold P; auto). assert (NP : ~ inG P) by apply S_notG.
  revert X. apply (roots_bound FT keq_ok (map (fun j => xof (padd S0 (G j))) (seq 0 ell))).
  - rewrite map_length, seq_length. apply defect_deg.
  - exact roots_nodup.
  - intros a H. apply in_map_iff in H. destruct H as (i & <- & _). set (Q := padd S0 (G i)). assert (HQ : on Q) by (unfold Q; auto). assert (NQ : ~ inG Q) by apply S_notG.
    assert (EQ : pr (fun R => xof Q - xof R) P = 0). { unfold P. rewrite pr_shift by auto. rewrite <- (pr_shift _ S0 i onS). fold Q. unfold pr. ring. }
    unfold defect. rewrite <- (pr_Psi P _ HP NP), EQ, (fP_N P HP NP), (fP_N Q HQ NQ). unfold P, Q. rewrite !fP_shift by auto. ring.
Qed.
Theorem key X z : P2 * Psi X z = N X * D z - N z * D X.
Proof.
  apply (sub_eq FT). change (defect X z = 0). revert X. apply (roots_bound FT keq_ok (map (fun j => xof (padd S0 (G j))) (seq 0 ell))).
  - rewrite map_length, seq_length. apply defect_deg.
  - exact roots_nodup.
  - intros a H. apply in_map_iff in H. destruct H as (i & <- & _). rewrite defect_anti, defect_S. ring.
Qed.

(** ** The codomain *)
Context {a : K}.
Context (Ra : a * a + A * a + 1 = 0).
Definition b : K := - A - a.
Lemma ab1 : a * b = 1. Proof. unfold b. transitivity (1 - (a * a + A * a + 1)); [ring|rewrite Ra; ring]. Qed.
Lemma Rb : b * b + A * b + 1 = 0. Proof. unfold b. rewrite <- Ra. ring. Qed.
Lemma a_nz : a <> 0. Proof. intros Z. apply (F_1_neq_0 FT). rewrite <- ab1, Z. ring. Qed.
Lemma a_sq : a * a <> 1.
Proof.
  intros Z. apply smooth. apply (cancel FT (a * a)); [rewrite Z; exact (F_1_neq_0 FT)|]. transitivity ((a * a + A * a + 1 - (a * a) - 1) * (a * a + A * a + 1 - (a * a) - 1)); [ring|]. rewrite Ra. transitivity ((a * a + 1) * (a * a + 1)); [ring|]. rewrite Z. ring.
Qed.
Lemma ts_a t : In t ts -> t <> a /\ t <> b /\ t <> 0 /\ t <> 1 /\ t <> - (1).
Proof.
  intros H. destruct (ts_ok t H) as (_ & _ & _ & _ & _ & T0 & T1 & T2). split; [intros ->; exact (T2 Ra)|]. split; [intros ->; exact (T2 Rb)|]. split; [exact T0|]. split; intros ->; apply T1; ring.
Qed.
Lemma P2_nz : P2 <> 0. Proof. apply (prodf_nz FT keq_ok). intros t H. destruct (ts_a t H) as (_ & _ & Q & _). apply nzm; exact Q. Qed.
Lemma D_nz e : (forall t, In t ts -> t <> e) -> D e <> 0.
Proof. intros H. apply (prodf_nz FT keq_ok). intros t Ht. pose proof (H t Ht). apply nzm; apply (sub_nz FT); congruence. Qed.
Lemma Da : D a <> 0. Proof. apply D_nz. intros t H. apply (ts_a t H). Qed.
Lemma Db : D b <> 0. Proof. apply D_nz. intros t H. apply (ts_a t H). Qed.
Lemma D_0 : D 0 = P2. Proof. unfold D, P2. apply prodf_ext. intros; ring. Qed.
Lemma N_0 : N 0 = 0. Proof. unfold N. ring. Qed.
(** inversion of the abscissa: translation by (0,0) *)
Lemma inv_ND q r : q * r = 1 -> kpow q ell * N r = D q /\ kpow q ell * D r = N q.
Proof.
  intros H. assert (PW : forall h : K -> K, kpow q d * kpow q d * prodf (fun t => h t * h t) ts = prodf (fun t => (q * h t) * (q * h t)) ts).
  { intros h. rewrite <- len_ts at 1 2. rewrite <- !(prodf_const FT), <- !(prodf_mul FT). apply prodf_ext. intros. ring. }
  cbn [L_Poly.kpow]. rewrite (kpow_add FT). unfold N, D. split.
  - transitivity ((q * r) * (kpow q d * kpow q d * prodf (fun t => (r * t - 1) * (r * t - 1)) ts)); [ring|]. rewrite (PW (fun t => r * t - 1)), H.
    transitivity (prodf (fun t => q * (r * t - 1) * (q * (r * t - 1))) ts); [ring|]. apply prodf_ext. intros t _. replace (q * (r * t - 1)) with (q * r * t - q) by ring. rewrite H. ring.
  - transitivity (q * (kpow q d * kpow q d * prodf (fun t => (r - t) * (r - t)) ts)); [ring|]. rewrite (PW (fun t => r - t)). f_equal. apply prodf_ext. intros t _. replace (q * (r - t)) with (q * r - q * t) by ring. rewrite H. ring.
Qed.
Lemma Na : N a <> 0. Proof. rewrite <- (proj2 (inv_ND a b ab1)). apply nzm; [apply (kpow_nz FT keq_ok), a_nz|exact Db]. Qed.
Lemma NNab : N a * N b = D a * D b.
Proof. destruct (inv_ND a b ab1) as [E1 E2]. rewrite <- E1, <- E2. ring. Qed.
(** differences with a point of order two *)
Lemma Bq_root e t x : e * e + A * e + 1 = 0 -> Bq t x e = (x * (e - t) + (e * t - 1)) * (x * (e - t) + (e * t - 1)). Proof. exact (Bq0_root FT A e t x). Qed.
Definition U (e x : K) : K := prodf (fun t => x * (e - t) + (e * t - 1)) ts.
Lemma key_root e x : e * e + A * e + 1 = 0 -> P2 * ((x - e) * (U e x * U e x)) = N x * D e - N e * D x.
Proof. intros H. rewrite <- (key x e). unfold Psi, U. rewrite <- (prodf_mul FT). rewrite (prodf_ext (fun t => Bq t x e) (fun t => (x * (e - t) + (e * t - 1)) * (x * (e - t) + (e * t - 1)))) by (intros; apply Bq_root, H). ring. Qed.
Definition PM : K := prodf (fun t => t - 1) ts.
Definition PP : K := prodf (fun t => t + 1) ts.
Lemma PM_nz : PM <> 0. Proof. apply (prodf_nz FT keq_ok). intros t H Z. destruct (ts_a t H) as (_ & _ & _ & Q & _). apply Q, (sub_eq FT), Z. Qed.
Lemma PP_nz : PP <> 0. Proof. apply (prodf_nz FT keq_ok). intros t H Z. destruct (ts_a t H) as (_ & _ & _ & _ & Q). apply Q. transitivity (t + 1 - 1); [ring|rewrite Z; ring]. Qed.
Lemma D_1 : D 1 = PM * PM. Proof. unfold D, PM. rewrite <- (prodf_mul FT). apply prodf_ext. intros; ring. Qed.
Lemma N_1 : N 1 = PM * PM. Proof. unfold N, PM. rewrite <- (prodf_mul FT). transitivity (prodf (fun t => (1 * t - 1) * (1 * t - 1)) ts); [ring|]. apply prodf_ext. intros; ring. Qed.
Lemma D_m1 : D (- (1)) = PP * PP. Proof. unfold D, PP. rewrite <- (prodf_mul FT). apply prodf_ext. intros; ring. Qed.
Lemma N_m1 : N (- (1)) = - (PP * PP). Proof. unfold N, PP. rewrite <- (prodf_mul FT). transitivity (- prodf (fun t => (- (1) * t - 1) * (- (1) * t - 1)) ts); [ring|]. f_equal. apply prodf_ext. intros; ring. Qed.
Lemma cod_minus : PM * PM * (D a - N a) = P2 * ((1 - a) * ((kpow (a - 1) d * PP) * (kpow (a - 1) d * PP))).
Proof.
  assert (E : U a 1 = kpow (a - 1) d * PP). { unfold U, PP. rewrite <- len_ts at 1. rewrite <- (prodf_const FT), <- (prodf_mul FT). apply prodf_ext. intros; ring. }
  rewrite <- E, (key_root a 1 Ra), D_1, N_1. ring.
Qed.
Lemma cod_plus : PP * PP * (D a + N a) = P2 * ((1 + a) * ((kpow (a + 1) d * PM) * (kpow (a + 1) d * PM))).
Proof.
  assert (E : U a (- (1)) = kpow (a + 1) d * PM). { unfold U, PM. rewrite <- len_ts at 1. rewrite <- (prodf_const FT), <- (prodf_mul FT). apply prodf_ext. intros; ring. }
  rewrite <- E. transitivity (- (P2 * ((- (1) - a) * (U a (- (1)) * U a (- (1)))))); [rewrite (key_root a (- (1)) Ra), D_m1, N_m1|]; ring.
Qed.
Definition p8 (x : K) : K := let x2 := x * x in let x4 := x2 * x2 in x4 * x4.
Definition av : K := kpow (A + 2) ell * p8 PP.
Definition bv : K := kpow (A - 2) ell * p8 PM.
Lemma aA2 : a * (A + 2) = - ((1 - a) * (1 - a)). Proof. transitivity (a * a + A * a + 1 - (1 - a) * (1 - a)); [ring|rewrite Ra; ring]. Qed.
Lemma aAm2 : a * (A - 2) = - ((1 + a) * (1 + a)). Proof. transitivity (a * a + A * a + 1 - (1 + a) * (1 + a)); [ring|rewrite Ra; ring]. Qed.
Lemma cod_vals : exists c, c <> 0 /\ av = c * ((D a - N a) * (D a - N a)) /\ bv = c * ((D a + N a) * (D a + N a)).
Proof.
  assert (NL : kpow a ell <> 0) by (apply (kpow_nz FT keq_ok), a_nz).
  assert (NC : PM * PM * (PP * PP) <> 0) by (pose proof PM_nz; pose proof PP_nz; auto). assert (N2 : P2 * P2 * kpow a ell <> 0) by (pose proof P2_nz; auto).
  assert (E1 : P2 * P2 * kpow a ell * av = - ((PM * PM * (D a - N a)) * (PM * PM * (D a - N a)) * (PP * PP * (PP * PP)))).
  { rewrite cod_minus. unfold av. transitivity (P2 * P2 * kpow (a * (A + 2)) ell * p8 PP); [rewrite (kpow_mul FT); ring|]. rewrite aA2. cbn [L_Poly.kpow]. rewrite (kpow_add FT).
    assert (W : forall w, kpow (- (w * w)) d * kpow (- (w * w)) d = kpow w d * kpow w d * (kpow w d * kpow w d)) by (intros w; rewrite <- !(kpow_mul FT); f_equal; ring).
    replace (- ((1 - a) * (1 - a))) with (- ((a - 1) * (a - 1))) by ring. rewrite W. unfold p8. ring. }
  assert (E2 : P2 * P2 * kpow a ell * bv = - ((PP * PP * (D a + N a)) * (PP * PP * (D a + N a)) * (PM * PM * (PM * PM)))).
  { rewrite cod_plus. unfold bv. transitivity (P2 * P2 * kpow (a * (A - 2)) ell * p8 PM); [rewrite (kpow_mul FT); ring|]. rewrite aAm2. cbn [L_Poly.kpow]. rewrite (kpow_add FT).
    assert (W : forall w, kpow (- (w * w)) d * kpow (- (w * w)) d = kpow w d * kpow w d * (kpow w d * kpow w d)) by (intros w; rewrite <- !(kpow_mul FT); f_equal; ring).
    replace (- ((1 + a) * (1 + a))) with (- ((a + 1) * (a + 1))) by ring. rewrite W. unfold p8. ring. }
  exists (- (PM * PM * (PP * PP) * (PM * PM * (PP * PP))) / (P2 * P2 * kpow a ell)). pose proof P2_nz as NP2. repeat split.
  - intros Z. apply (nzm _ _ NC NC). transitivity (- ((- (PM * PM * (PP * PP) * (PM * PM * (PP * PP))) / (P2 * P2 * kpow a ell)) * (P2 * P2 * kpow a ell))); [field; auto|rewrite Z; ring].
  - apply (cancel FT _ _ _ N2). rewrite E1. field. auto.
  - apply (cancel FT _ _ _ N2). rewrite E2. field. auto.
Qed.
Lemma DmN : D a - N a <> 0.
Proof.
  intros Z. assert (Q : P2 * ((1 - a) * ((kpow (a - 1) d * PP) * (kpow (a - 1) d * PP))) <> 0).
  { assert (a - 1 <> 0) by (intros E; apply a_sq; transitivity (1 + (a - 1) * (a + 1)); [ring|rewrite E; ring]). assert (1 - a <> 0) by (intros E; apply a_sq; transitivity (1 - (1 - a) * (a + 1)); [ring|rewrite E; ring]).
    pose proof PP_nz. pose proof P2_nz. assert (kpow (a - 1) d <> 0) by (apply (kpow_nz FT keq_ok); auto). auto 8. }
  apply Q. rewrite <- cod_minus, Z. ring.
Qed.
Lemma DpN : D a + N a <> 0.
Proof.
  intros Z. assert (Q : P2 * ((1 + a) * ((kpow (a + 1) d * PM) * (kpow (a + 1) d * PM))) <> 0).
  { assert (a + 1 <> 0) by (intros E; apply a_sq; transitivity (1 + (a - 1) * (a + 1)); [ring|rewrite E; ring]). assert (1 + a <> 0) by (intros E; apply a_sq; transitivity (1 - (1 - a) * (1 + a)); [ring|rewrite E; ring]).
    pose proof PM_nz. pose proof P2_nz. assert (kpow (a + 1) d <> 0) by (apply (kpow_nz FT keq_ok); auto). auto 8. }
  apply Q. rewrite <- cod_plus, Z. ring.
Qed.
Lemma ab_nz : av - bv <> 0.
Proof.
  destruct cod_vals as (c & Nc & -> & ->). intros Z. apply (nzm _ _ (nzm _ _ (four_nz FT keq_ok two_nz) Nc) (nzm _ _ Da Na)).
  transitivity (- (c * ((D a - N a) * (D a - N a)) - c * ((D a + N a) * (D a + N a)))); [ring|rewrite Z; ring].
Qed.
Definition A' : K := (av + bv + (av + bv)) / (av - bv).
Definition fx (x : K) : K := N x / D x.
Lemma A'_sum : A' = - (fx a + fx b).
Proof.
  unfold A', fx. assert (E : N b / D b = D a / N a). { pose proof Da. pose proof Db. pose proof Na. apply (cancel FT (D b * N a)); auto. transitivity (N a * N b); [field; auto|]. rewrite NNab. field; auto. }
  rewrite E. pose proof ab_nz as NZ. destruct cod_vals as (c & Nc & E1 & E2). rewrite E1, E2 in *. pose proof Da. pose proof Na. pose proof (four_nz FT keq_ok two_nz).
  apply (cancel FT _ _ _ NZ). transitivity (4 * c * (D a * D a + N a * N a)); [field; exact NZ|]. field. auto.
Qed.
Lemma fab : fx a * fx b = 1. Proof. unfold fx. transitivity (N a * N b / (D a * D b)); [field; split; [exact Db|exact Da]|]. rewrite NNab. field. split; [exact Db|exact Da]. Qed.
Lemma Ra' : fx a * fx a + A' * fx a + 1 = 0. Proof. rewrite A'_sum. transitivity (1 - fx a * fx b); [ring|rewrite fab; ring]. Qed.
Lemma fa_nz : fx a <> 0. Proof. intros Z. apply (F_1_neq_0 FT). rewrite <- fab, Z. ring. Qed.
Lemma smooth' : A' * A' <> 4.
Proof.
  intros Z. assert (E : (fx a - fx b) * (fx a - fx b) = 0). { transitivity (A' * A' - 4 * (fx a * fx b)); [rewrite A'_sum; ring|rewrite Z, fab; ring]. }
  apply (sq0 FT keq_ok) in E. apply (sub_eq FT) in E. pose proof fab as F. rewrite <- E in F. assert (Q : (fx a - 1) * (fx a + 1) = 0) by (transitivity (fx a * fx a - 1); [ring|rewrite F; ring]).
  pose proof Da as Nd. destruct (mul0 FT keq_ok _ _ Q) as [Q1|Q1].
  - apply DmN. transitivity (- ((fx a - 1) * D a)); [unfold fx; field; exact Nd|rewrite Q1; ring].
  - apply DpN. transitivity ((fx a + 1) * D a); [unfold fx; field; exact Nd|rewrite Q1; ring].
Qed.
(** the cubic of the codomain at an image *)
Lemma cubic' X : X * (X * X) + A' * (X * X) + X = X * (X - fx a) * (X - fx b).
Proof. rewrite A'_sum. transitivity (X * (X * X) - (fx a + fx b) * (X * X) + X * (fx a * fx b)); [rewrite fab; ring|ring]. Qed.
Lemma cubic_ab x : x * (x * x) + A * (x * x) + x = x * (x - a) * (x - b).
Proof. transitivity (x * (x * x) + A * (x * x) + x * (a * b)); [rewrite ab1; ring|unfold b; ring]. Qed.
Lemma image_on x y : on (Some (x, y)) -> D x <> 0 -> exists Y, Y * Y = fx x * (fx x * fx x) + A' * (fx x * fx x) + fx x.
Proof.
  intros H Nx. rewrite cubic'. assert (Ea : fx x - fx a = P2 * ((x - a) * (U a x * U a x)) / (D x * D a)) by (rewrite (key_root a x Ra); unfold fx; field; split; [exact Da|exact Nx]).
  assert (Eb : fx x - fx b = P2 * ((x - b) * (U b x * U b x)) / (D x * D b)) by (rewrite (key_root b x Rb); unfold fx; field; split; [exact Db|exact Nx]). rewrite Ea, Eb.
  set (rN := prodf (fun t => x * t - 1) ts). set (rD := fun e => prodf (fun t => e - t) ts).
  assert (EN : N x = x * (rN * rN)) by (unfold N, rN; rewrite <- (prodf_mul FT); reflexivity). assert (ED : forall e, D e = rD e * rD e) by (intros e; unfold D, rD; rewrite <- (prodf_mul FT); reflexivity).
  pose proof Da as N1. pose proof Db as N2. unfold fx. rewrite EN. rewrite !ED in *. assert (M : forall e, rD e * rD e <> 0 -> rD e <> 0) by (intros e Q Z; apply Q; rewrite Z; ring). pose proof (M _ Nx). pose proof (M _ N1). pose proof (M _ N2). clearbody rN rD.
  exists (y * (rN * P2 * U a x * U b x) / (rD x * rD x * rD x * rD a * rD b)). cbn in H. rewrite cubic_ab in H.
  transitivity (y * y * ((rN * P2 * U a x * U b x) * (rN * P2 * U a x * U b x)) / ((rD x * rD x * rD x * rD a * rD b) * (rD x * rD x * rD x * rD a * rD b))); [field; auto 8|]. rewrite H. field. auto 8.
Qed.

(** ** The map respects the group laws *)
Local Notation on' := (S_Curve.on kadd kmul A').
Local Notation padd' := (S_Curve.padd k1 kadd kmul ksub kopp kdiv keq A').
Lemma m1_ell : kpow (- (1)) ell = - (1).
Proof. cbn [L_Poly.kpow]. rewrite (kpow_add FT), <- (kpow_mul FT). replace (- (1) * - (1)) with 1 by ring. rewrite (kpow_1 FT). ring. Qed.
Lemma pr_opp h P : pr (fun R => - h R) P = - pr h P.
Proof. transitivity (pr (fun R => - (1) * h R) P); [unfold pr; rewrite !(prodf_ext (fun i => - h _) (fun i => - (1) * h _)) by (intros; ring)|rewrite (pr_mul (fun _ => - (1)) h), pr_const, m1_ell]; ring. Qed.
Lemma D_P P : on P -> ~ inG P -> D (xof P) <> 0.
Proof. intros HP NG Z. apply NG. apply (D_zero P HP); [|exact Z]. intros ->. apply NG, inG_0. Qed.
Lemma fP_fx P : on P -> ~ inG P -> fP P = fx (xof P).
Proof. intros HP NG. unfold fx. rewrite (fP_N P HP NG). field. apply D_P; auto. Qed.
Lemma prkey P X : on P -> ~ inG P -> P2 * pr (fun R => X - xof R) P = N X - fP P * D X.
Proof. intros HP NG. apply (cancel FT (D (xof P))); [apply D_P; auto|]. transitivity (P2 * (pr (fun R => X - xof R) P * D (xof P))); [ring|]. rewrite pr_Psi, key, (fP_N P) by auto. ring. Qed.
Lemma hom_ND u w v : u * w = v -> kpow u ell * N w = v * prodf (fun t => (v * t - u) * (v * t - u)) ts /\ kpow u ell * D w = u * prodf (fun t => (v - u * t) * (v - u * t)) ts.
Proof.
  intros H. assert (PW : forall h : K -> K, kpow u d * kpow u d * prodf (fun t => h t * h t) ts = prodf (fun t => (u * h t) * (u * h t)) ts).
  { intros h. rewrite <- len_ts at 1 2. rewrite <- !(prodf_const FT), <- !(prodf_mul FT). apply prodf_ext. intros. ring. }
  cbn [L_Poly.kpow]. rewrite (kpow_add FT). unfold N, D. split.
  - transitivity ((u * w) * (kpow u d * kpow u d * prodf (fun t => (w * t - 1) * (w * t - 1)) ts)); [ring|]. rewrite (PW (fun t => w * t - 1)), H. f_equal. apply prodf_ext. intros t _. replace (u * (w * t - 1)) with (u * w * t - u) by ring. rewrite H. ring.
  - transitivity (u * (kpow u d * kpow u d * prodf (fun t => (w - t) * (w - t)) ts)); [ring|]. rewrite (PW (fun t => w - t)). f_equal. apply prodf_ext. intros t _. replace (u * (w - t)) with (u * w - u * t) by ring. rewrite H. ring.
Qed.
Lemma pr_scale c h P : pr (fun R => c * h R) P = kpow c ell * pr h P. Proof. rewrite (pr_mul (fun _ => c) h), pr_const. reflexivity. Qed.
Lemma prq0 P q : on P -> ~ inG P -> P2 * pr (fun R => xof R * q - 1) P = fP P * N q - D q.
Proof.
  intros HP NG. destruct (kdec keq_ok q 0) as [->|Nq].
  - rewrite (pr_ext _ (fun _ => - (1)) P HP) by (intros; ring). rewrite pr_const, m1_ell, N_0, D_0. ring.
  - rewrite (pr_ext _ (fun R => - (q * (1 / q - xof R))) P HP) by (intros; field; exact Nq). rewrite (pr_opp (fun R => q * (1 / q - xof R))), (pr_scale q (fun R => 1 / q - xof R)).
    transitivity (- (kpow q ell * (P2 * pr (fun R => 1 / q - xof R) P))); [ring|]. rewrite prkey by auto. destruct (inv_ND q (1 / q)) as [E1 E2]; [field; exact Nq|]. rewrite <- E1, <- E2. ring.
Qed.
Lemma prqa P q : on P -> ~ inG P -> P2 * P2 * pr (fun R => xof R * (a - q) + (a * q - 1)) P = N q * N a - D a * D q + fP P * (N a * D q - N q * D a).
Proof.
  intros HP NG. destruct (kdec keq_ok a q) as [<-|Nq].
  - rewrite (pr_ext _ (fun _ => a * a - 1) P HP) by (intros; ring). rewrite pr_const. pose proof PM_nz as N1. pose proof PP_nz as N2. apply (cancel FT (PM * PM * (PP * PP))); [auto 6|].
    transitivity (- ((PM * PM * (D a - N a)) * (PP * PP * (D a + N a)))); [|ring]. rewrite cod_minus, cod_plus. cbn [L_Poly.kpow]. rewrite (kpow_add FT). replace (a * a - 1) with ((a - 1) * (a + 1)) by ring. rewrite (kpow_mul FT). ring.
  - assert (Nu : a - q <> 0) by (apply (sub_nz FT); exact Nq). set (w := (1 - a * q) / (a - q)). assert (Ew : (a - q) * w = 1 - a * q) by (unfold w; field; exact Nu).
    rewrite (pr_ext _ (fun R => - ((a - q) * (w - xof R))) P HP) by (intros; unfold w; field; exact Nu). rewrite (pr_opp (fun R => (a - q) * (w - xof R))), (pr_scale (a - q) (fun R => w - xof R)).
    transitivity (- (P2 * (kpow (a - q) ell * (P2 * pr (fun R => w - xof R) P)))); [ring|]. rewrite prkey by auto. destruct (hom_ND (a - q) w (1 - a * q) Ew) as [E1 E2].
    assert (F2 : prodf (fun t => ((1 - a * q) - (a - q) * t) * ((1 - a * q) - (a - q) * t)) ts = U a q * U a q). { unfold U. rewrite <- (prodf_mul FT). apply prodf_ext. intros; ring. }
    assert (F1 : prodf (fun t => ((1 - a * q) * t - (a - q)) * ((1 - a * q) * t - (a - q))) ts = kpow a d * kpow a d * (U b q * U b q)).
    { unfold U. rewrite <- len_ts at 1 2. rewrite <- !(prodf_const FT), <- !(prodf_mul FT). apply prodf_ext. intros t _. assert (Q : (1 - a * q) * t - (a - q) = a * (q * (b - t) + (b * t - 1))); [|rewrite Q; ring]. transitivity (q * (a * b) - a * q * t + a * b * t - a); [rewrite ab1; ring|ring]. }
    rewrite F1 in E1. rewrite F2 in E2. pose proof (key_root a q Ra) as K1. pose proof (key_root b q Rb) as K2. destruct (inv_ND a b ab1) as [I1 I2].
    transitivity (- (P2 * (kpow (a - q) ell * N w)) + fP P * (P2 * (kpow (a - q) ell * D w))); [ring|]. rewrite E1, E2.
    transitivity (kpow a ell * (P2 * ((q - b) * (U b q * U b q))) - fP P * (P2 * ((q - a) * (U a q * U a q)))).
    + cbn [L_Poly.kpow]. rewrite (kpow_add FT). transitivity (- (P2 * ((a * b - a * q) * (kpow a d * kpow a d * (U b q * U b q)))) + fP P * (P2 * ((a - q) * (U a q * U a q)))); [rewrite ab1; ring|ring].
    + rewrite K1, K2. transitivity (N q * (kpow a ell * D b) - (kpow a ell * N b) * D q - fP P * (N q * D a - N a * D q)); [ring|]. rewrite I1, I2. ring.
Qed.
Lemma pr_nz h P : on P -> (forall R, (exists j, R = padd P (G j)) -> h R <> 0) -> pr h P <> 0.
Proof.
  intros HP H. unfold pr. apply nzm; [apply nzm|].
  - apply H. exists O. rewrite G_0, v_0r. reflexivity.
  - apply (prodf_nz FT keq_ok). intros i _. apply H. exists i. reflexivity.
  - apply (prodf_nz FT keq_ok). intros i _. apply H. exists ((d + d) * i)%nat. rewrite G_opp. reflexivity.
Qed.

(** R is an image of P: infinity for the kernel, otherwise a point of the codomain with the mapped abscissa *)
Definition image (P R : pt K) : Prop := (inG P /\ R = None) \/ (~ inG P /\ on' R /\ exists Y, R = Some (fP P, Y)).
Lemma image_on' P R : image P R -> on' R. Proof. intros [[_ ->]|(_ & H & _)]; [exact Logic.I|exact H]. Qed.
Lemma image_ex P : on P -> exists R, image P R.
Proof.
  intros HP. destruct (inG_dec P HP) as [H|H]; [exists None; left; auto|]. destruct P as [[x y]|] eqn:E; [|destruct (H inG_0)]. rewrite <- E in *.
  destruct (image_on x y ltac:(rewrite <- E; exact HP)) as [Y HY]; [rewrite <- (f_equal xof E : xof P = x); apply D_P; auto|]. exists (Some (fP P, Y)). right. split; [exact H|]. split; [|eauto]. cbn. rewrite (fP_fx P HP H), E. exact HY.
Qed.
Lemma image_opp P R : image P R -> image P (popp R).
Proof. intros [[H ->]|(H & O & Y & ->)]; [left; auto|right]. split; [exact H|]. split; [exact (on_opp FT _ O)|exists (- Y); reflexivity]. Qed.
Lemma image_uniq P R R' : image P R -> image P R' -> R = R' \/ R = popp R'.
Proof.
  intros [[H ->]|(H & O & Y & ->)] [[H' ->]|(H' & O' & Y' & ->)]; try contradiction; [left; reflexivity|]. cbn [S_Curve.popp]. destruct (same_x FT keq_ok _ _ _ O O') as [->| ->]; auto.
Qed.
Lemma image_x P R : on P -> ~ inG P -> on' R -> R <> None -> xof R = fP P -> image P R.
Proof. intros HP NG O NR E. right. split; [exact NG|]. split; [exact O|]. destruct R as [[X Y]|]; [|contradiction]. cbn [xof0] in E. subst X. eauto. Qed.
(** images depend on the class modulo the kernel, up to sign *)
Lemma image_shift P j R : on P -> image P R -> image (padd P (G j)) R.
Proof.
  intros HP [[H ->]|(H & O & Y & ->)]; [left; split; [apply inG_add; [exact H|apply inG_G]|reflexivity]|right].
  split; [intros Q; apply H; apply (inG_add_iff P (G j) HP (inG_G j)); exact Q|]. split; [exact O|]. exists Y. rewrite fP_shift; auto.
Qed.
Lemma fP_opp P : on P -> ~ inG P -> fP (popp P) = fP P.
Proof. intros HP NG. rewrite (fP_fx (popp P)), xof_opp, <- (fP_fx P); auto. intros H. apply NG, inG_opp_iff, H. Qed.
Lemma image_popp P R : on P -> image P R -> image (popp P) R.
Proof.
  intros HP [[H ->]|(H & O & Y & ->)]; [left; split; [apply inG_opp, H|reflexivity]|right]. split; [intros Q; apply H, inG_opp_iff, Q|]. split; [exact O|]. exists Y. rewrite fP_opp; auto.
Qed.
(** the general position *)
Lemma image_generic P Q R1 R2 : on P -> on Q -> ~ inG P -> ~ inG Q -> ~ inG (padd P Q) -> ~ inG (padd P (popp Q)) -> image P R1 -> image Q R2 ->
  (image (padd P Q) (padd' R1 R2) /\ image (padd P (popp Q)) (padd' R1 (popp R2))) \/ (image (padd P Q) (padd' R1 (popp R2)) /\ image (padd P (popp Q)) (padd' R1 R2)).
Proof.
  intros HP HQ NP NQ Np Nm I1 I2. destruct I1 as [[H _]|(_ & O1 & Y1 & E1)]; [contradiction|]. destruct I2 as [[H _]|(_ & O2 & Y2 & E2)]; [contradiction|].
  set (q := xof Q) in *. set (f1 := fP P) in *. set (f2 := fP Q) in *. set (fp := fP (padd P Q)). set (fm := fP (padd P (popp Q))).
  assert (Eq : N q = f2 * D q) by (unfold q, f2; apply fP_N; auto). assert (Dq : D q <> 0) by (apply D_P; auto).
  assert (exists q' s', Q = Some (q', s')) as (q' & s' & EQ) by (clear - NQ; destruct Q as [[q' s']|]; [eauto|destruct (NQ inG_0)]). assert (Eq' : q = q') by (unfold q; rewrite EQ; reflexivity).
  assert (SEP : forall R, (exists j, R = padd P (G j)) -> exists x y, R = Some (x, y) /\ on (Some (x, y)) /\ x <> q).
  { intros R (j & ER). assert (HR : on R) by (rewrite ER; auto). assert (NR : ~ inG R) by (rewrite ER; intros H; apply NP, (inG_add_iff P (G j) HP (inG_G j)), H). destruct R as [[x y]|] eqn:E; [|destruct (NR inG_0)]. exists x, y. split; [reflexivity|]. split; [exact HR|].
    intros Ex. assert (NN : Q <> None) by (rewrite EQ; discriminate). destruct (xof_eq (Some (x, y)) Q HR HQ ltac:(discriminate) NN Ex) as [Z|Z].
    - apply Nm. rewrite <- Z, ER, v_oppadd, <- v_assoc, v_oppr by auto. change (inG (popp (G j))). apply inG_opp, inG_G.
    - apply Np. rewrite <- (v_invol Q), <- Z, ER, v_oppadd, <- v_assoc, v_oppr by auto. change (inG (popp (G j))). apply inG_opp, inG_G. }
  assert (NZ : N q - f1 * D q <> 0).
  { unfold f1. rewrite <- (prkey P q HP NP). apply nzm; [exact P2_nz|]. apply pr_nz; [exact HP|]. intros R HR. destruct (SEP R HR) as (x & y & -> & _ & N1). cbn [xof0]. apply (sub_nz FT). congruence. }
  assert (N12 : f2 - f1 <> 0) by (intros Z; apply NZ; rewrite Eq; transitivity ((f2 - f1) * D q); [ring|rewrite Z; ring]).
  assert (BASE : forall e, pr (fun R => e - xof R) (padd P Q) * pr (fun R => e - xof R) (padd P (popp Q)) * (pr (fun R => q - xof R) P * pr (fun R => q - xof R) P) = pr (fun R => Bq q e (xof R)) P).
  { intros e. rewrite !pr_trans by auto. rewrite <- !pr_mul. apply pr_ext; [exact HP|]. intros R HR. destruct (SEP R HR) as (x & y & -> & OR & N1). rewrite EQ, Eq'. cbn [S_Curve.popp]. change (xof (Some (x, y))) with x. rewrite <- (sum_diff x y q' s' e OR); [ring|rewrite <- EQ; exact HQ|congruence]. }
  pose proof P2_nz as NP2. pose proof (prkey P q HP NP) as KQ. fold f1 in KQ.
  assert (V0 : fp * fm * ((f1 - f2) * (f1 - f2)) = (f1 * f2 - 1) * (f1 * f2 - 1)).
  { pose proof (BASE 0) as B0. rewrite (pr_ext (fun R => Bq q 0 (xof R)) (fun R => (xof R * q - 1) * (xof R * q - 1)) P HP) in B0 by (intros; unfold Bq0; ring). rewrite pr_mul in B0.
    pose proof (prkey (padd P Q) 0 (v_on _ _ HP HQ) Np) as K1. pose proof (prkey (padd P (popp Q)) 0 (v_on _ _ HP (v_onopp _ HQ)) Nm) as K2. fold fp in K1. fold fm in K2. rewrite N_0, D_0 in K1, K2.
    assert (K1' : pr (fun R => 0 - xof R) (padd P Q) = - fp) by (apply (cancel FT _ _ _ NP2); rewrite K1; ring). assert (K2' : pr (fun R => 0 - xof R) (padd P (popp Q)) = - fm) by (apply (cancel FT _ _ _ NP2); rewrite K2; ring).
    rewrite K1', K2' in B0. pose proof (prq0 P q HP NP) as KZ. fold f1 in KZ. rewrite Eq in KQ, KZ. apply (cancel FT (D q * D q)); [auto|].
    transitivity (- fp * - fm * ((P2 * pr (fun R => q - xof R) P) * (P2 * pr (fun R => q - xof R) P))); [rewrite KQ; ring|]. transitivity (P2 * P2 * (- fp * - fm * (pr (fun R => q - xof R) P * pr (fun R => q - xof R) P))); [ring|]. rewrite B0.
    transitivity ((P2 * pr (fun R => xof R * q - 1) P) * (P2 * pr (fun R => xof R * q - 1) P)); [ring|]. rewrite KZ. ring. }
  pose proof Da as NDa. assert (Efa : N a = fx a * D a) by (unfold fx; field; exact NDa).
  assert (V1 : (fx a - fp) * (fx a - fm) * ((f1 - f2) * (f1 - f2)) = (f1 * (fx a - f2) + (fx a * f2 - 1)) * (f1 * (fx a - f2) + (fx a * f2 - 1))).
  { pose proof (BASE a) as B0. rewrite (pr_ext (fun R => Bq q a (xof R)) (fun R => (xof R * (a - q) + (a * q - 1)) * (xof R * (a - q) + (a * q - 1))) P HP) in B0 by (intros; rewrite Bq_sym; apply Bq_root, Ra). rewrite pr_mul in B0.
    pose proof (prkey (padd P Q) a (v_on _ _ HP HQ) Np) as K1. pose proof (prkey (padd P (popp Q)) a (v_on _ _ HP (v_onopp _ HQ)) Nm) as K2. fold fp in K1. fold fm in K2.
    pose proof (prqa P q HP NP) as KZ. fold f1 in KZ. rewrite Eq, Efa in KZ. rewrite Efa in K1, K2. rewrite Eq in KQ. apply (cancel FT (D a * D a * (D q * D q))); [auto 6|].
    transitivity ((fx a * D a - fp * D a) * (fx a * D a - fm * D a) * ((f2 * D q - f1 * D q) * (f2 * D q - f1 * D q))); [ring|]. rewrite <- K1, <- K2, <- KQ.
    transitivity (P2 * P2 * (P2 * P2) * (pr (fun R => a - xof R) (padd P Q) * pr (fun R => a - xof R) (padd P (popp Q)) * (pr (fun R => q - xof R) P * pr (fun R => q - xof R) P))); [ring|]. rewrite B0.
    transitivity ((P2 * P2 * pr (fun R => xof R * (a - q) + (a * q - 1)) P) * (P2 * P2 * pr (fun R => xof R * (a - q) + (a * q - 1)) P)); [ring|]. rewrite KZ. ring. }
  subst R1 R2. assert (N12' : f1 <> f2) by (intros Z; apply N12; rewrite Z; ring).
  pose proof (fun X => sum_diff0 FT keq_ok A' f1 Y1 f2 Y2 X O1 O2 N12') as SD.
  assert (W : (f1 - f2) * (f1 - f2) <> 0) by (apply nzm; apply (sub_nz FT); exact N12').
  assert (ALL : forall X, (X - fp) * (X - fm) * ((f1 - f2) * (f1 - f2)) = Bq0 (k1 := k1) (kadd := kadd) (kmul := kmul) (ksub := ksub) (kopp := kopp) A' f2 X f1).
  { intros X. assert (B1 : Bq0 (k1 := k1) (kadd := kadd) (kmul := kmul) (ksub := ksub) (kopp := kopp) A' f2 (fx a) f1 = (f1 * (fx a - f2) + (fx a * f2 - 1)) * (f1 * (fx a - f2) + (fx a * f2 - 1))) by (rewrite (Bq0_sym FT); apply (Bq0_root FT), Ra').
    rewrite <- V1 in B1. unfold Bq0 in *. pose proof fa_nz as NA.
    assert (LIN : (fp + fm) * ((f1 - f2) * (f1 - f2)) = 2 * ((f1 + f2) * (f1 * f2 + 1) + 2 * A' * f1 * f2)).
    { apply (cancel FT _ _ _ NA). transitivity (fx a * fx a * ((f1 - f2) * (f1 - f2)) + fp * fm * ((f1 - f2) * (f1 - f2)) - (fx a - fp) * (fx a - fm) * ((f1 - f2) * (f1 - f2))); [ring|]. rewrite <- B1, V0. ring. }
    transitivity (X * X * ((f1 - f2) * (f1 - f2)) - X * ((fp + fm) * ((f1 - f2) * (f1 - f2))) + fp * fm * ((f1 - f2) * (f1 - f2))); [ring|]. rewrite LIN, V0. ring. }
  set (Rp := padd' (Some (f1, Y1)) (Some (f2, Y2))) in *. assert (Em : padd' (Some (f1, Y1)) (popp (Some (f2, Y2))) = padd' (Some (f1, Y1)) (Some (f2, - Y2))) by reflexivity. rewrite Em. set (Rm := padd' (Some (f1, Y1)) (Some (f2, - Y2))) in *.
  assert (QD : forall X, (X - xof Rp) * (X - xof Rm) = (X - fp) * (X - fm)) by (intros X; apply (cancel FT _ _ _ W); transitivity ((X - xof Rp) * (X - xof Rm) * ((f1 - f2) * (f1 - f2))); [ring|]; rewrite SD, <- ALL; ring).
  assert (OP : on' Rp) by (apply (padd_on FT keq_ok two_nz); assumption). assert (OM : on' Rm) by (apply (padd_on FT keq_ok two_nz); [assumption|exact (on_opp FT _ O2)]).
  assert (FIN : forall Z, padd' (Some (f1, Y1)) (Some (f2, Z)) <> None) by (intros Z; unfold S_Curve.padd; rewrite (keq_false keq_ok) by exact N12'; discriminate).
  assert (OTH : forall u v w, (forall X, (X - u) * (X - v) = (X - u) * (X - w)) -> v = w). { intros u v w H. specialize (H (u + 1)). transitivity (u + 1 - ((u + 1 - u) * (u + 1 - v))); [ring|rewrite H; ring]. }
  assert (Z : (fp - xof Rp) * (fp - xof Rm) = 0) by (rewrite QD; ring). destruct (mul0 FT keq_ok _ _ Z) as [Z1|Z1]; apply (sub_eq FT) in Z1; [left|right].
  - assert (Z2 : fm = xof Rm) by (apply (OTH fp); intros X; rewrite <- QD, <- Z1; ring). split; apply image_x; auto; apply FIN.
  - assert (Z2 : fm = xof Rp) by (apply (OTH fp); intros X; rewrite <- QD, <- Z1; ring). split; apply image_x; auto; apply FIN.
Qed.

(** ** Doubling, with the help of the point (1, s) of order four *)
Context {s : K}.
Context (ES : S0 = Some (1, s)).
Local Notation popp' := popp.
Lemma w_assoc p q r : on' p -> on' q -> on' r -> padd' (padd' p q) r = padd' p (padd' q r). Proof. exact (padd_assoc FT keq_ok two_nz smooth' p q r). Qed.
Lemma w_comm p q : on' p -> on' q -> padd' p q = padd' q p. Proof. exact (padd_comm FT keq_ok two_nz p q). Qed.
Lemma w_on p q : on' p -> on' q -> on' (padd' p q). Proof. exact (padd_on FT keq_ok two_nz p q). Qed.
Lemma w_onopp p : on' p -> on' (popp p). Proof. exact (on_opp FT p). Qed.
Lemma w_oppr p : on' p -> padd' p (popp p) = None. Proof. exact (padd_opp_r FT keq_ok p). Qed.
Lemma w_0r p : padd' p None = p. Proof. destruct p as [[]|]; reflexivity. Qed.
Lemma w_oppadd p q : on' p -> on' q -> popp (padd' p q) = padd' (popp p) (popp q). Proof. exact (popp_add FT keq_ok two_nz p q). Qed.
Hint Resolve w_on w_onopp : core.
Lemma A2_nz : A + 2 <> 0. Proof. intros Z. apply smooth. transitivity (4 + (A + 2) * (A - 2)); [ring|rewrite Z; ring]. Qed.
Lemma dbl_1 B y : B * B <> 4 -> S_Curve.on kadd kmul B (Some (1, y)) -> S_Curve.padd k1 kadd kmul ksub kopp kdiv keq B (Some (1, y)) (Some (1, y)) = Some (0, 0).
Proof.
  intros SB H. pose proof (four_nz FT keq_ok two_nz) as N4. assert (Y : y <> 0). { intros Z. apply SB. cbn in H. rewrite Z in H. assert (E : B + 2 = 0) by (transitivity (1 * (1 * 1) + B * (1 * 1) + 1); [ring|rewrite <- H; ring]). transitivity (4 + (B + 2) * (B - 2)); [ring|rewrite E; ring]. }
  rewrite (dbl_fin FT keq_ok two_nz 1 y H Y). f_equal. f_equal; field; auto.
Qed.
Lemma SS : padd S0 S0 = Some (0, 0). Proof. rewrite ES. apply dbl_1; [exact smooth|]. rewrite <- ES. exact onS. Qed.
Lemma NS : ~ inG S0. Proof. pose proof (S_notG 0) as H. rewrite G_0, v_0r in H. exact H. Qed.
Lemma D1_nz : D 1 <> 0. Proof. rewrite D_1. pose proof PM_nz. auto. Qed.
Lemma fS : fP S0 = 1. Proof. rewrite (fP_fx S0 onS NS), ES. cbn [xof0]. pose proof D1_nz as H. unfold fx. rewrite N_1, D_1 in *. field. intros Z. apply H. rewrite Z. ring. Qed.
Lemma on00 : on (Some (0, 0)). Proof. cbn. ring. Qed.
Lemma N00 : ~ inG (Some (0, 0)). Proof. rewrite <- SS. exact S2. Qed.
Lemma f00 : fP (Some (0, 0)) = 0. Proof. rewrite (fP_fx _ on00 N00). cbn [xof0]. unfold fx. rewrite N_0, D_0. field. exact P2_nz. Qed.
Lemma image_00 R : image (Some (0, 0)) R <-> R = Some (0, 0).
Proof.
  split.
  - intros [[H _]|(_ & O & Y & ->)]; [destruct (N00 H)|]. rewrite f00 in *. f_equal. f_equal. cbn in O. apply (sq0 FT keq_ok). rewrite O. ring.
  - intros ->. right. split; [exact N00|]. split; [cbn; ring|]. exists 0. rewrite f00. reflexivity.
Qed.
(** two-torsion modulo the kernel *)
Lemma image_dbl_G P R : on P -> ~ inG P -> inG (padd P P) -> image P R -> padd' R R = None.
Proof.
  intros HP NG [j Ej] [[H _]|(_ & O & Y & ->)]; [contradiction|]. set (h := G (j * S d)). set (T := padd P (popp h)). assert (Hh : on h) by apply G_on. assert (HT : on T) by (unfold T; auto).
  assert (EP : P = padd T h) by (unfold T; rewrite v_subadd; auto). assert (TT : padd T T = None).
  { assert (E2 : padd h h = G j). { unfold h. rewrite G_add. rewrite (G_mod (j * S d + j * S d)), (G_mod j). f_equal. replace (j * S d + j * S d)%nat with (j + j * ell)%nat by lia. apply Nat.mod_add. lia. }
    unfold T. rewrite <- v_assoc, (v_swap P (popp h) P) by auto. rewrite Ej, v_assoc, <- v_oppadd, E2, v_oppr; auto. }
  assert (NT : ~ inG T) by (intros Q; apply NG; rewrite EP; apply inG_add; [exact Q|apply inG_G]). destruct T as [[x y]|] eqn:ET; [|destruct (NT inG_0)]. clear ET.
  assert (Y0 : y = 0). { destruct (kdec keq_ok y 0) as [Z|Z]; [exact Z|]. rewrite (dbl_fin FT keq_ok two_nz x y HT Z) in TT. discriminate. }
  assert (RX : x = 0 \/ x = a \/ x = b). { cbn in HT. rewrite cubic_ab, Y0 in HT. assert (Q : x * (x - a) * (x - b) = 0) by (rewrite <- HT; ring). destruct (mul0 FT keq_ok _ _ Q) as [Q1|Q1]; [destruct (mul0 FT keq_ok _ _ Q1) as [Q2|Q2]|]; auto; right; [left|right]; apply (sub_eq FT); assumption. }
  assert (EF : fP P = fx x) by (rewrite EP; unfold h; rewrite fP_shift, (fP_fx _ HT NT) by auto; reflexivity). rewrite EF in *. apply (dbl_inf FT keq_ok); [exact O|]. cbn in O. rewrite cubic' in O. apply (sq0 FT keq_ok). rewrite O.
  destruct RX as [->|[->| ->]]; [|ring|ring]. assert (E0 : fx 0 = 0) by (unfold fx; rewrite N_0, D_0; field; exact P2_nz). rewrite E0. ring.
Qed.
Lemma image_dbl P R : on P -> image P R -> image (padd P P) (padd' R R).
Proof.
  intros HP I1. pose proof (image_on' _ _ I1) as OR. destruct (inG_dec P HP) as [H|NG].
  { destruct I1 as [[_ ->]|(Q & _)]; [|contradiction]. left. split; [apply inG_add; exact H|reflexivity]. }
  destruct (inG_dec (padd P P) (v_on _ _ HP HP)) as [H|N2]; [left; split; [exact H|exact (image_dbl_G P R HP NG H I1)]|].
  assert (NEAR : forall T, on T -> ~ inG T -> fP T = 1 -> padd T T = Some (0, 0) -> inG (padd P T) \/ inG (padd P (popp T)) -> image (padd P P) (padd' R R)).
  { intros T HT NT FT' TT Q. assert (M : forall T, on T -> ~ inG T -> fP T = 1 -> padd T T = Some (0, 0) -> inG (padd P (popp T)) -> image (padd P P) (padd' R R)).
    { clear T HT NT FT' TT Q. intros T HT NT FT' TT [j Ej]. assert (EP : P = padd T (G j)) by (rewrite <- Ej, (v_comm T), v_subadd; auto).
      destruct I1 as [[Q _]|(_ & O & Y & ->)]; [contradiction|]. assert (E1 : fP P = 1) by (rewrite EP, fP_shift; auto). rewrite E1 in *. rewrite (dbl_1 A' Y smooth' O).
      replace (padd P P) with (padd (Some (0, 0)) (G (j + j))); [apply image_shift; [exact on00|apply image_00; reflexivity]|]. rewrite EP, <- TT, <- G_add, <- !v_assoc by auto. f_equal. apply v_swap; auto. }
    destruct Q as [Q|Q]; [|apply (M T); auto]. apply (M (popp T)); auto; [intros Z; apply NT, inG_opp_iff, Z|rewrite fP_opp; auto|rewrite <- v_oppadd, TT by auto; cbn; f_equal; f_equal; ring|rewrite v_invol; exact Q]. }
  destruct (inG_dec (padd P S0) ltac:(auto)) as [Q|Np]; [apply (NEAR S0); auto using NS, fS, SS|]. destruct (inG_dec (padd P (popp S0)) ltac:(auto)) as [Q|Nm]; [apply (NEAR S0); auto using NS, fS, SS|]. clear NEAR.
  destruct (image_ex S0 onS) as [RS IS]. pose proof (image_on' _ _ IS) as OS. assert (RSS : padd' RS RS = Some (0, 0)). { destruct IS as [[Q _]|(_ & O & Y & ->)]; [destruct (NS Q)|]. rewrite fS in *. apply dbl_1; [exact smooth'|exact O]. }
  assert (E2P : padd (padd P S0) (padd P (popp S0)) = padd P P). { rewrite <- v_assoc, (v_swap P S0 P), v_addsub; auto. }
  assert (E2S : padd (padd P S0) (popp (padd P (popp S0))) = padd S0 S0). { rewrite v_oppadd, v_invol, <- v_assoc, (v_swap P S0), v_oppr; auto. }
  assert (K2 : forall Rp Rm, image (padd P S0) Rp -> image (padd P (popp S0)) Rm -> padd' Rp Rm = padd' R R -> padd' Rp (popp Rm) = padd' RS RS \/ padd' Rp (popp Rm) = popp (padd' RS RS) -> image (padd P P) (padd' R R)).
  { intros Rp Rm Ip Im Es Ed. pose proof (image_generic (padd P S0) (padd P (popp S0)) Rp Rm ltac:(auto) ltac:(auto) Np Nm ltac:(rewrite E2P; exact N2) ltac:(rewrite E2S; exact S2) Ip Im) as H.
    rewrite E2P, E2S, Es, SS in H. destruct H as [[H _]|[H1 H2]]; [exact H|]. apply image_00 in H2. rewrite H2. assert (E : padd' Rp (popp Rm) = Some (0, 0)); [|rewrite E in H1; exact H1]. rewrite RSS in Ed. destruct Ed as [Z|Z]; rewrite Z; [reflexivity|]. cbn. f_equal. f_equal. ring. }
  destruct (image_generic P S0 R RS HP onS NG NS Np Nm I1 IS) as [[Ip Im]|[Ip Im]].
  - apply (K2 _ _ Ip Im).
    + rewrite <- w_assoc, (w_assoc R RS R), (w_comm RS R), <- w_assoc, (w_assoc (padd' R R)), w_oppr, w_0r; auto.
    + left. rewrite w_oppadd, (popp_invol FT), <- w_assoc, (w_assoc R RS), (w_comm RS), <- (w_assoc R), w_oppr; auto.
  - apply (K2 _ _ Ip Im).
    + rewrite <- w_assoc, (w_assoc R (popp RS) R), (w_comm (popp RS) R), <- w_assoc, (w_assoc (padd' R R)), (w_comm (popp RS)), w_oppr, w_0r; auto.
    + right. rewrite !w_oppadd by auto. rewrite <- w_assoc, (w_assoc R (popp RS)), (w_comm (popp RS)), <- (w_assoc R), w_oppr; auto.
Qed.
Theorem image_hom P Q R1 R2 : on P -> on Q -> image P R1 -> image Q R2 ->
  (image (padd P Q) (padd' R1 R2) /\ image (padd P (popp Q)) (padd' R1 (popp R2))) \/ (image (padd P Q) (padd' R1 (popp R2)) /\ image (padd P (popp Q)) (padd' R1 R2)).
Proof.
  intros HP HQ I1 I2. pose proof (image_on' _ _ I1) as O1. pose proof (image_on' _ _ I2) as O2.
  destruct (inG_dec P HP) as [[j H]|NP].
  { destruct I1 as [[_ ->]|(Z & _)]; [|destruct Z; exists j; exact H]. left. subst P. rewrite !(v_comm (G j)) by auto. split; apply image_shift; auto. cbn [S_Curve.padd]. apply image_popp; [exact HQ|apply image_opp, I2]. }
  destruct (inG_dec Q HQ) as [[j H]|NQ].
  { destruct I2 as [[_ ->]|(Z & _)]; [|destruct Z; exists j; exact H]. left. subst Q. cbn [S_Curve.popp]. rewrite w_0r, G_opp. split; apply image_shift; auto. }
  assert (NEAR : forall Q R2, on Q -> image Q R2 -> inG (padd P (popp Q)) -> (image (padd P Q) (padd' R1 R2) /\ image (padd P (popp Q)) (padd' R1 (popp R2))) \/ (image (padd P Q) (padd' R1 (popp R2)) /\ image (padd P (popp Q)) (padd' R1 R2))).
  { clear Q R2 HQ I2 O2 NQ. intros Q R2 HQ I2 [j Ej]. pose proof (image_on' _ _ I2) as O2. assert (EP : P = padd Q (G j)) by (rewrite <- Ej, (v_comm Q), v_subadd; auto).
    assert (I1' : image P R2) by (rewrite EP; apply image_shift; auto). assert (EPQ : padd P Q = padd (padd P P) (popp (G j))). { rewrite EP at 3. rewrite <- v_assoc, v_addsub; auto. }
    assert (ID : image (padd P Q) (padd' R1 R1)) by (rewrite EPQ, G_opp; apply image_shift; auto; apply image_dbl; auto).
    assert (IN : image (padd P (popp Q)) None) by (left; split; [exists j; exact Ej|reflexivity]).
    destruct (image_uniq _ _ _ I1 I1') as [->| ->]; [left|right]; rewrite ?w_oppr, ?(popp_invol FT) by auto; [split; auto|]. split; [exact ID|]. rewrite (w_comm (popp R2)), w_oppr; auto. }
  destruct (inG_dec (padd P (popp Q)) ltac:(auto)) as [H|Nm]; [apply NEAR; auto|]. destruct (inG_dec (padd P Q) ltac:(auto)) as [H|Np].
  { destruct (NEAR (popp Q) R2 ltac:(auto) (image_popp _ _ HQ I2) ltac:(rewrite v_invol; exact H)) as [[H1 H2]|[H1 H2]]; rewrite v_invol in H2; [right|left]; split; assumption. }
  apply image_generic; assumption.
Qed.
(** multiples *)
Local Notation pmul' := (S_Curve.pmul_nat k1 kadd kmul ksub kopp kdiv keq A').
Lemma image_mul P R n : on P -> image P R -> image (pmul_nat n P) (pmul' n R).
Proof.
  intros HP HI. pose proof (image_on' _ _ HI) as OR. assert (OM : forall n, on' (pmul' n R)) by (intros k; apply (pmul_nat_on FT keq_ok two_nz); exact OR). assert (PM0 : forall n, on (pmul_nat n P)) by (intros k; apply v_mon, HP).
  enough (H : forall n, image (pmul_nat n P) (pmul' n R) /\ image (pmul_nat (S n) P) (pmul' (S n) R)) by apply H. clear n. induction n as [|n [IH1 IH2]]; [split; [left; split; [exact inG_0|reflexivity]|exact HI]|]. split; [exact IH2|].
  assert (EM : padd (pmul_nat (S n) P) (popp P) = pmul_nat n P) by (cbn [S_Curve.pmul_nat]; apply v_addsub; auto).
  assert (EM' : padd' (pmul' (S n) R) (popp R) = pmul' n R) by (cbn [S_Curve.pmul_nat]; rewrite w_assoc, w_oppr, w_0r; auto).
  destruct (image_hom (pmul_nat (S n) P) P (pmul' (S n) R) R (PM0 _) HP IH2 HI) as [[H _]|[H1 H2]]; [exact H|]. rewrite EM in H2. rewrite EM' in H1.
  change (padd (pmul_nat (S n) P) P) with (pmul_nat (S (S n)) P) in H1. change (padd' (pmul' (S n) R) R) with (pmul' (S (S n)) R) in H2.
  destruct (image_uniq _ _ _ IH1 H2) as [E|E]; rewrite E in H1; [exact H1|]. apply image_opp in H1. rewrite (popp_invol FT) in H1. exact H1.
Qed.
Lemma image_None P : on P -> image P None <-> inG P.
Proof. intros HP. split; [intros [[H _]|(_ & _ & Y & E)]; [exact H|discriminate]|intros H; left; auto]. Qed.
(** the codomain has again a rational point of order four over (0,0) *)
Lemma cod_four : exists s', s' * s' = A' + 2.
Proof. destruct (image_ex S0 onS) as [R [[H _]|(_ & O & Y & ->)]]; [destruct (NS H)|]. rewrite fS in O. exists Y. cbn in O. rewrite O. ring. Qed.
End Velu.
