(** The isogenies of M_Isogeny.v are isogenies up to sign, for every field implementation satisfying [flaws]. *)
From Coq Require Import Arith ZArith List Bool Ring Field Lia Znumtheory.
From Verif Require Import S_Fp M_Fp M_Field M_Curve M_Pairing M_Isogeny S_Curve L_Words L_FpCodec L_Group L_Kummer L_Field L_Curve L_Poly L_Velu P_Isogeny.
Import ListNotations.

Section Isog.
Context {F : Type} {o : fops F}.
Context {K : Type} {k0 k1 : K} {kadd kmul ksub : K -> K -> K} {kopp : K -> K} {kdiv : K -> K -> K} {kinv : K -> K} {keq : K -> K -> bool} {v : F -> K}.
Context (L : flaws o k0 k1 kadd kmul ksub kopp kdiv kinv keq v).
Let FT := l_ft _ _ _ _ _ _ _ _ _ _ _ L.
Let keq_ok := l_keq _ _ _ _ _ _ _ _ _ _ _ L.
Let two_nz := l_two_nz _ _ _ _ _ _ _ _ _ _ _ L.
Add Field Kfield : FT.
Local Notation "0" := k0. Local Notation "1" := k1.
Local Notation "2" := (kadd k1 k1). Local Notation "4" := (kadd (kadd k1 k1) (kadd k1 k1)).
Local Infix "+" := kadd. Local Infix "*" := kmul. Local Infix "-" := ksub. Local Infix "/" := kdiv. Local Notation "- x" := (kopp x).
Local Notation on := (on kadd kmul).
Local Notation padd := (padd k1 kadd kmul ksub kopp kdiv keq).
Local Notation popp := (popp kopp).
Local Notation pmul_nat := (pmul_nat k1 kadd kmul ksub kopp kdiv keq).
Local Notation pmul := (pmul k1 kadd kmul ksub kopp kdiv keq).
Local Notation AA E := (v (cA E)).
Local Notation aff := (aff (k0 := k0) (kdiv := kdiv) (keq := keq) (v := v)).
Local Notation onc := (onc (k0 := k0) (kadd := kadd) (kmul := kmul) (kdiv := kdiv) (keq := keq) (v := v)).
Local Notation wfc := (wfc (k1 := k1) (kadd := kadd) (kmul := kmul) (kdiv := kdiv) (v := v)).
Local Notation kpow := (L_Poly.kpow (k1 := k1) (kmul := kmul)).
Local Notation prodf := (prodf (k1 := k1) (kmul := kmul)).
Local Notation xof := (xof0 (k0 := k0)).
Let nzm := mulr_nz FT keq_ok.
Ltac vs := repeat first
  [ rewrite (l_add _ _ _ _ _ _ _ _ _ _ _ L) | rewrite (l_sub _ _ _ _ _ _ _ _ _ _ _ L) | rewrite (l_mul _ _ _ _ _ _ _ _ _ _ _ L)
  | rewrite (l_div _ _ _ _ _ _ _ _ _ _ _ L) | rewrite (l_one _ _ _ _ _ _ _ _ _ _ _ L) ].

(** ** Relations between two curves that behave like an isogeny given up to the sign of the image *)
Record sgiso (A B : K) (im : pt K -> pt K -> Prop) (ker : pt K -> Prop) : Prop := {
  sg_on : forall p r, im p r -> on B r;
  sg_ex : forall p, on A p -> exists r, im p r;
  sg_opp : forall p r, im p r -> im p (popp r);
  sg_popp : forall p r, on A p -> im p r -> im (popp p) r;
  sg_uniq : forall p r r', im p r -> im p r' -> r = r' \/ r = popp r';
  sg_hom : forall p q r s, on A p -> on A q -> im p r -> im q s ->
    (im (padd A p q) (padd B r s) /\ im (padd A p (popp q)) (padd B r (popp s))) \/ (im (padd A p q) (padd B r (popp s)) /\ im (padd A p (popp q)) (padd B r s));
  sg_mul : forall p r n, on A p -> im p r -> im (pmul_nat A n p) (pmul_nat B n r);
  sg_ker : forall p, on A p -> (im p None <-> ker p) }.

Lemma sg_id A : A * A <> 4 -> sgiso A A (fun p r => on A p /\ (r = p \/ r = popp p)) (fun p => p = None).
Proof.
  intros S. assert (OO := on_opp FT (A := A)). split.
  - intros p r [Hp [-> | ->]]; auto.
  - intros p Hp. exists p. auto.
  - intros p r [Hp [-> | ->]]; rewrite ?(popp_invol FT); auto.
  - intros p r Hp [_ [-> | ->]]; rewrite ?(popp_invol FT); auto.
  - intros p r r' [_ [-> | ->]] [_ [-> | ->]]; rewrite ?(popp_invol FT); auto.
  - intros p q r s Hp Hq [_ Hr] [_ Hs]. assert (PO := padd_on FT keq_ok two_nz (A := A)). assert (PA := popp_add FT keq_ok two_nz (A := A)).
    destruct Hr as [-> | ->], Hs as [-> | ->]; rewrite ?(popp_invol FT); [left|right|right|left].
    + auto 6.
    + auto 6.
    + split; (split; [auto|]); right; rewrite PA, ?(popp_invol FT); auto.
    + split; (split; [auto|]); right; rewrite PA, ?(popp_invol FT); auto.
  - intros p r n Hp [_ Hr]. split; [apply (pmul_nat_on FT keq_ok two_nz); exact Hp|]. destruct Hr as [-> | ->]; [auto|right].
    induction n as [|n IH]; [reflexivity|]. cbn [S_Curve.pmul_nat]. rewrite IH, (popp_add FT keq_ok two_nz); auto. apply (pmul_nat_on FT keq_ok two_nz). exact Hp.
  - intros p Hp. split; [|intros ->; auto]. intros [_ [<- | E]]; [reflexivity|]. destruct p as [[]|]; [discriminate|reflexivity].
Qed.
Lemma sg_comp A B C im1 ker1 im2 ker2 : sgiso A B im1 ker1 -> sgiso B C im2 ker2 ->
  sgiso A C (fun p t => exists r, im1 p r /\ im2 r t) (fun p => exists r, im1 p r /\ ker2 r).
Proof.
  intros H1 H2. split.
  - intros p t (r & I1 & I2). exact (sg_on _ _ _ _ H2 _ _ I2).
  - intros p Hp. destruct (sg_ex _ _ _ _ H1 p Hp) as [r I1]. destruct (sg_ex _ _ _ _ H2 r (sg_on _ _ _ _ H1 _ _ I1)) as [t I2]. eauto.
  - intros p t (r & I1 & I2). exists r. split; [exact I1|]. exact (sg_opp _ _ _ _ H2 _ _ I2).
  - intros p t Hp (r & I1 & I2). exists r. split; [|exact I2]. exact (sg_popp _ _ _ _ H1 _ _ Hp I1).
  - intros p t t' (r & I1 & I2) (r' & I1' & I2'). pose proof (sg_on _ _ _ _ H1 _ _ I1') as O'. destruct (sg_uniq _ _ _ _ H1 _ _ _ I1 I1') as [-> | ->].
    + exact (sg_uniq _ _ _ _ H2 _ _ _ I2 I2').
    + apply (sg_uniq _ _ _ _ H2 (popp r')); [exact I2|]. apply (sg_popp _ _ _ _ H2); assumption.
  - intros p q t u Hp Hq (r & Ir & It) (s & Is & Iu). pose proof (sg_on _ _ _ _ H1 _ _ Ir) as Or. pose proof (sg_on _ _ _ _ H1 _ _ Is) as Os.
    destruct (sg_hom _ _ _ _ H1 p q r s Hp Hq Ir Is) as [[M1 M2]|[M1 M2]], (sg_hom _ _ _ _ H2 r s t u Or Os It Iu) as [[N1 N2]|[N1 N2]]; eauto 10.
  - intros p t n Hp (r & I1 & I2). exists (pmul_nat B n r). split; [apply (sg_mul _ _ _ _ H1); assumption|]. apply (sg_mul _ _ _ _ H2); [exact (sg_on _ _ _ _ H1 _ _ I1)|exact I2].
  - intros p Hp. split; intros (r & I1 & I2); exists r; (split; [exact I1|]); apply (sg_ker _ _ _ _ H2); auto; exact (sg_on _ _ _ _ H1 _ _ I1).
Qed.
Lemma sg_ker_ext A B im ker ker' : sgiso A B im ker -> (forall p, on A p -> (ker p <-> ker' p)) -> sgiso A B im ker'.
Proof. intros [H1 H2 H3 H4 H5 H6 H7 H8] E. split; auto. intros p Hp. rewrite <- (E p Hp). apply H8, Hp. Qed.

(** ** Multiples of a point and its order *)
Definition mult (A : K) (q p : pt K) : Prop := exists j, p = pmul_nat A j q.
Definition ord (A : K) (n : nat) (p : pt K) : Prop := forall k, pmul_nat A k p = None <-> Nat.divide n k.
Section Ord.
Context {A : K} (sm : A * A <> 4).
Lemma o_add a b p : on A p -> pmul_nat A (a + b) p = padd A (pmul_nat A a p) (pmul_nat A b p). Proof. intros H. exact (pmul_nat_add FT keq_ok two_nz sm a b p H). Qed.
Lemma o_on a p : on A p -> on A (pmul_nat A a p). Proof. intros H. exact (pmul_nat_on FT keq_ok two_nz a p H). Qed.
Lemma o_mul a b p : on A p -> pmul_nat A (a * b) p = pmul_nat A a (pmul_nat A b p). Proof. intros H. exact (pmul_nat_mul FT keq_ok two_nz sm a b p H). Qed.
Lemma o_inj n p a b : on A p -> ord A n p -> (a <= b)%nat -> pmul_nat A a p = pmul_nat A b p <-> Nat.divide n (b - a).
Proof.
  intros Hp Ho Hab. rewrite <- (Ho (b - a)%nat). replace b with ((b - a) + a)%nat at 1 by lia. rewrite o_add by auto. pose proof (o_on a p Hp) as Oa. pose proof (o_on (b - a) p Hp) as Ob.
  split; [|intros ->; reflexivity]. intros E. apply (padd_cancel_r FT keq_ok two_nz sm _ _ (pmul_nat A a p)); [exact Ob|exact Logic.I|exact Oa|]. symmetry. exact E.
Qed.
Lemma o_opp n p j : (0 < n)%nat -> on A p -> pmul_nat A n p = None -> popp (pmul_nat A j p) = pmul_nat A ((n - 1) * j) p.
Proof.
  intros Hn Hp Ho. pose proof (o_on j p Hp) as Oj. apply (padd_cancel_r FT keq_ok two_nz sm _ _ (pmul_nat A j p)); auto using (on_opp FT (A := A)), o_on.
  rewrite (padd_comm FT keq_ok two_nz (popp _)), (padd_opp_r FT keq_ok) by auto using (on_opp FT (A := A)). rewrite <- o_add by auto. replace ((n - 1) * j + j)%nat with (j * n)%nat by nia. rewrite o_mul, Ho by auto.
  symmetry. apply pmul_nat_None.
Qed.
Lemma mult_opp n q p : (0 < n)%nat -> on A q -> pmul_nat A n q = None -> mult A q p -> mult A q (popp p).
Proof. intros Hn Hq Ho [j ->]. exists ((n - 1) * j)%nat. apply o_opp; auto. Qed.
Lemma mult_add q p r : on A q -> mult A q p -> mult A q r -> mult A q (padd A p r).
Proof. intros Hq [i ->] [j ->]. exists (i + j)%nat. rewrite o_add; auto. Qed.
Lemma mult_sub m q p : on A q -> mult A (pmul_nat A m q) p -> mult A q p.
Proof. intros Hq [j ->]. exists (j * m)%nat. rewrite o_mul; auto. Qed.
End Ord.
(** kernel of a composition and order of an image *)
Lemma ker_comp A B im m p n : A * A <> 4 -> on A p -> (0 < n)%nat -> pmul_nat A n p = None -> sgiso A B im (mult A (pmul_nat A m p)) -> forall r, im p r ->
  forall q, on A q -> (exists t, im q t /\ mult B r t) <-> mult A p q.
Proof.
  intros sm Hp Hn Ho S r Ir q Hq. assert (OO := on_opp FT (A := A)). split.
  - intros (t & It & j & ->). pose proof (o_on j p Hp) as Oj. pose proof (sg_mul _ _ _ _ S p r j Hp Ir) as Ij. pose proof (sg_on _ _ _ _ S _ _ Ij) as Oi.
    assert (X : mult A p (padd A q (pmul_nat A j p)) \/ mult A p (padd A q (popp (pmul_nat A j p)))).
    { destruct (sg_hom _ _ _ _ S _ _ _ _ Hq Oj It Ij) as [[_ H]|[H _]]; rewrite (padd_opp_r FT keq_ok) in H by exact Oi; apply (sg_ker _ _ _ _ S) in H;
        try (apply (padd_on FT keq_ok two_nz); auto); apply (mult_sub sm m) in H; auto. }
    assert (Mj : mult A p (pmul_nat A j p)) by (exists j; reflexivity). destruct X as [X|X].
    + replace q with (padd A (padd A q (pmul_nat A j p)) (popp (pmul_nat A j p))). { apply (mult_add sm); auto. apply (mult_opp sm n); auto. }
      rewrite (padd_assoc FT keq_ok two_nz sm), (padd_opp_r FT keq_ok) by auto. destruct q as [[]|]; reflexivity.
    + replace q with (padd A (padd A q (popp (pmul_nat A j p))) (pmul_nat A j p)). { apply (mult_add sm); auto. }
      rewrite (padd_assoc FT keq_ok two_nz sm), (padd_comm FT keq_ok two_nz (popp _)), (padd_opp_r FT keq_ok) by auto. destruct q as [[]|]; reflexivity.
  - intros [j ->]. exists (pmul_nat B j r). split; [apply (sg_mul _ _ _ _ S); assumption|exists j; reflexivity].
Qed.
Lemma divide_Z a b : Nat.divide a b <-> (Z.of_nat a | Z.of_nat b)%Z.
Proof.
  split; intros [c E].
  - exists (Z.of_nat c). rewrite E. lia.
  - destruct (Nat.eq_dec a 0) as [->|Na]. { exists O. lia. } exists (Z.to_nat c). apply Nat2Z.inj. rewrite Nat2Z.inj_mul, Z2Nat.id; [exact E|]. nia.
Qed.
Lemma ord_img A B im m p n r : A * A <> 4 -> on A p -> (0 < n)%nat -> ord A n p -> sgiso A B im (mult A (pmul_nat A m p)) -> im p r -> ord B (Nat.gcd n m) r.
Proof.
  intros sm Hp Hn Ho S Ir k. pose proof (sg_mul _ _ _ _ S p r k Hp Ir) as Ik. pose proof (o_on k p Hp) as Ok.
  assert (E : pmul_nat B k r = None <-> im (pmul_nat A k p) None).
  { split; [intros <-; exact Ik|]. intros H. destruct (sg_uniq _ _ _ _ S _ _ _ Ik H) as [-> | ->]; reflexivity. }
  rewrite E, (sg_ker _ _ _ _ S _ Ok). split.
  - intros [j H]. rewrite <- (o_mul sm) in H by auto. assert (D : Nat.divide (Nat.gcd n m) (j * m)) by (apply Nat.divide_mul_r, Nat.gcd_divide_r). assert (D2 := Nat.gcd_divide_l n m).
    destruct (Nat.le_ge_cases k (j * m)) as [H1|H1].
    + apply (o_inj sm n p) in H; auto. replace k with (j * m - (j * m - k))%nat by lia. apply Nat.divide_sub_r; [exact D|]. eapply Nat.divide_trans; eauto.
    + symmetry in H. apply (o_inj sm n p) in H; auto. replace k with (j * m + (k - j * m))%nat by lia. apply Nat.divide_add_r; [exact D|]. eapply Nat.divide_trans; eauto.
  - intros [c E2]. destruct (Nat.eq_dec m 0) as [->|Nm].
    { exists O. cbn. rewrite Nat.gcd_0_r in E2. apply Ho. exists c. exact E2. }
    (* n a = m b + gcd, so k = c (n a - m b), and k + (b c n - b c) m is c n (a + b m - b) *)
    destruct (Nat.gcd_bezout_pos n m Hn) as (a & b & Eb). exists (c * b * (n - 1))%nat. rewrite <- (o_mul sm) by auto.
    assert (Q : (k + c * b * m = c * a * n)%nat) by nia. assert (Q2 : (c * b * (n - 1) * m + c * b * m = n * (c * b * m))%nat) by nia.
    assert (E3 : padd A (pmul_nat A k p) (pmul_nat A (c * b * m) p) = padd A (pmul_nat A (c * b * (n - 1) * m) p) (pmul_nat A (c * b * m) p)).
    { rewrite <- !(o_add sm), Q, Q2 by auto. transitivity (None : pt K); [|symmetry]; apply Ho; [exists (c * a)%nat; reflexivity|exists (c * b * m)%nat; lia]. }
    apply (padd_cancel_r FT keq_ok two_nz sm) in E3; auto using o_on.
Qed.

(** ** One step *)
Lemma kpow_iter x n : Nat.iter n (kmul x) 1 = kpow x n. Proof. induction n as [|n IH]; [reflexivity|]. exact (f_equal (kmul x) IH). Qed.
Lemma v_pow x n : v (fpow o x (Z.of_nat n)) = kpow (v x) n.
Proof. rewrite (l_pow _ _ _ _ _ _ _ _ _ _ _ L) by lia. unfold L_Field.kpow. rewrite Nat2Z.id. apply kpow_iter. Qed.
(** what the stored multiples are *)
Definition stored (t : K) (e : F * F) : Prop := exists z, z <> 0 /\ v (fst e) = (t - 1) * z /\ v (snd e) = (t + 1) * z.
Lemma mult_stored E Kp : wfc E -> onc E Kp -> forall d n P, onc E P -> aff P = pmul_nat (AA E) n (aff Kp) -> (forall j, (n < j <= n + d)%nat -> pmul_nat (AA E) j (aff Kp) <> None) ->
  Forall2 stored (map (fun i => xof (pmul_nat (AA E) i (aff Kp))) (seq (S n) d)) (edwards_multiples o E Kp P d).
Proof.
  intros W HK. induction d as [|d IH]; intros n P HP AP Nz; cbn [edwards_multiples seq map to_xz]; [constructor|].
  pose proof (add_ok L E P Kp HP HK) as EA. pose proof (add_on L E P Kp W HP HK) as OA. set (Q := add_pts o E P Kp) in *. clearbody Q.
  assert (EQ : aff Q = pmul_nat (AA E) (S n) (aff Kp)) by (rewrite EA, AP; reflexivity). unfold to_xz. constructor.
  - rewrite <- EQ. specialize (Nz (S n) ltac:(lia)). rewrite <- EQ in Nz. unfold L_Curve.aff, affk in *. destruct (keq (v (pZ Q)) 0) eqn:EZ; [contradiction|].
    assert (NZ : v (pZ Q) <> 0) by (intros Z; apply keq_ok in Z; congruence). exists (v (pZ Q)). cbn [xof0 fst snd]. vs. split; [exact NZ|]. split; field; exact NZ.
  - apply IH; auto. intros j Hj. apply Nz. lia.
Qed.
Lemma fold_cod ts mult : Forall2 stored ts mult -> exists W, W <> 0 /\ forall p, let r := fold_left (fun p e => (fmul o (fst p) (fst e), fmul o (snd p) (snd e))) mult p in
  v (fst r) = v (fst p) * (W * prodf (fun t => t - 1) ts) /\ v (snd r) = v (snd p) * (W * prodf (fun t => t + 1) ts).
Proof.
  induction 1 as [|t e ts mult (z & Nz & E1 & E2) H (W & NW & IH)].
  - exists 1. split; [exact (F_1_neq_0 FT)|]. intros p. cbn. split; ring.
  - exists (z * W). split; [auto|]. intros p. cbn [fold_left]. cbv zeta. destruct (IH (fmul o (fst p) (fst e), fmul o (snd p) (snd e))) as [-> ->]. cbn [fst snd]. vs. rewrite E1, E2. cbn [L_Poly.prodf fold_right].
    change (fold_right (fun t r : K => (t - 1) * r) 1 ts) with (prodf (fun t => t - 1) ts). change (fold_right (fun t r : K => (t + 1) * r) 1 ts) with (prodf (fun t => t + 1) ts). split; ring.
Qed.
Lemma fold_eval ts mult (X Z x : K) (ps pd : F) : Z <> 0 -> v ps = (x + 1) * Z -> v pd = (x - 1) * Z -> Forall2 stored ts mult -> exists W, W <> 0 /\ forall p,
  let r := fold_left (fun r e => let diff_ez := fmul o pd (snd e) in let sum_ey := fmul o (fst e) ps in (fmul o (fst r) (fadd o diff_ez sum_ey), fmul o (snd r) (fsub o diff_ez sum_ey))) mult p in
  v (fst r) = v (fst p) * (W * prodf (fun t => x * t - 1) ts) /\ v (snd r) = v (snd p) * (W * prodf (fun t => x - t) ts).
Proof.
  intros NZ Es Ed. induction 1 as [|t e ts mult (z & Nz & E1 & E2) H (W & NW & IH)].
  - exists 1. split; [exact (F_1_neq_0 FT)|]. intros p. cbn. split; ring.
  - exists (2 * Z * z * W). split; [repeat apply nzm; auto|]. intros p. cbn [fold_left]. cbv zeta in IH |- *.
    destruct (IH (fmul o (fst p) (fadd o (fmul o pd (snd e)) (fmul o (fst e) ps)), fmul o (snd p) (fsub o (fmul o pd (snd e)) (fmul o (fst e) ps)))) as [-> ->]. cbn [fst snd]. vs. rewrite E1, E2, Es, Ed. cbn [L_Poly.prodf fold_right].
    change (fold_right (fun t r : K => (x * t - 1) * r) 1 ts) with (prodf (fun t => x * t - 1) ts). change (fold_right (fun t r : K => (x - t) * r) 1 ts) with (prodf (fun t => x - t) ts). split; ring.
Qed.

(** curves with all points of order two rational and a rational point of order four above (0, 0) *)
Definition good (E : curve F) : Prop := curve_new o (cA E) = Some E /\ (exists a, a * a + AA E * a + 1 = 0) /\ exists s, s * s = AA E + 2.
Lemma good_wfc E : good E -> wfc E.
Proof. intros [H _]. destruct (curve_new_ok L (cA E)) as [G1 G2]. destruct (kdec keq_ok (AA E * AA E) 4) as [Q|Q]; [rewrite (G2 Q) in H; discriminate|]. destruct (G1 Q) as (E' & H' & _ & W). rewrite H in H'. injection H' as <-. exact W. Qed.
Definition realises (E C : curve F) (f : point F -> option (point F)) (im : pt K -> pt K -> Prop) : Prop :=
  forall P, onc E P -> exists R, f P = Some R /\ im (aff P) (aff R).

Section Step.
Context {E : curve F} {Kp : point F} {d : nat}.
Context (gE : good E) (oK : onc E Kp) (KO : ord (AA E) (S (d + d)) (aff Kp)).
Notation A := (AA E).
Let sm : A * A <> 4 := proj2 (good_wfc E gE).
Lemma st_KO : pmul_nat A (S (d + d)) (aff Kp) = None. Proof. apply KO. exists 1%nat. lia. Qed.
Lemma st_KN : forall j, (0 < j < S (d + d))%nat -> pmul_nat A j (aff Kp) <> None.
Proof. intros j Hj Z. apply KO in Z. apply Nat.divide_pos_le in Z; lia. Qed.
Context {a : K} (Ra : a * a + A * a + 1 = 0) {s : K} (Rs : s * s = A + 2).
Lemma st_onS : on A (Some (1, s)). Proof. cbn. rewrite Rs. ring. Qed.
Lemma st_s : s <> 0. Proof. intros Z. apply sm. assert (Q : A = - (2)) by (transitivity (A + 2 - 2); [ring|rewrite <- Rs, Z; ring]). rewrite Q. ring. Qed.
Lemma st_S2 : ~ inG (k1 := k1) (kadd := kadd) (kmul := kmul) (ksub := ksub) (kopp := kopp) (kdiv := kdiv) (keq := keq) (A := A) (Kp := aff Kp) (padd A (Some (1, s)) (Some (1, s))).
Proof.
  rewrite (dbl_fin FT keq_ok two_nz 1 s st_onS st_s). intros [j Ej]. match type of Ej with Some (?X, ?Y) = _ => assert (EX : X = 0) by (field; repeat split; auto using st_s, (four_nz FT keq_ok two_nz)) end.
  rewrite EX in Ej. unfold G in Ej. pose proof (o_on j (aff Kp) oK) as Oj. rewrite <- Ej in Oj.
  match type of Ej with Some (_, ?Y) = _ => assert (EY : Y = 0) by (apply (sq0 FT keq_ok); cbn in Oj; rewrite Oj; ring) end. rewrite EY in Ej.
  assert (D : pmul_nat A (j + j) (aff Kp) = None). { rewrite (o_add sm) by exact oK. rewrite <- Ej. apply (dbl_inf FT keq_ok); [cbn; ring|reflexivity]. }
  apply KO in D. assert (D2 : Nat.divide (S (d + d)) j). { apply (Nat.gauss _ 2); [replace (2 * j)%nat with (j + j)%nat by lia; exact D|]. rewrite Nat.gcd_comm. replace (S (d + d)) with (1 + d * 2)%nat by lia. rewrite Nat.gcd_add_mult_diag_r. reflexivity. }
  apply KO in D2. rewrite D2 in Ej. discriminate.
Qed.
Local Notation im := (image (k0 := k0) (k1 := k1) (kadd := kadd) (kmul := kmul) (ksub := ksub) (kopp := kopp) (kdiv := kdiv) (keq := keq) (A := A) (Kp := aff Kp) (d := d)).
Local Notation B := (A' (k0 := k0) (k1 := k1) (kadd := kadd) (kmul := kmul) (ksub := ksub) (kopp := kopp) (kdiv := kdiv) (keq := keq) (A := A) (Kp := aff Kp) (d := d)).
Local Notation tl := (ts (k0 := k0) (k1 := k1) (kadd := kadd) (kmul := kmul) (ksub := ksub) (kopp := kopp) (kdiv := kdiv) (keq := keq) (A := A) (Kp := aff Kp) (d := d)).
Lemma st_sg : sgiso A B im (mult A (aff Kp)).
Proof.
  split.
  - intros p r H. exact (image_on' p r H).
  - intros p Hp. exact (image_ex FT keq_ok two_nz sm oK st_KO st_KN st_onS st_S2 Ra p Hp).
  - intros p r H. exact (image_opp FT p r H).
  - intros p r Hp H. exact (image_popp FT keq_ok two_nz sm oK st_KO st_KN p r Hp H).
  - intros p r r' H H'. exact (image_uniq FT keq_ok p r r' H H').
  - intros p q r t Hp Hq Ip Iq. exact (image_hom FT keq_ok two_nz sm oK st_KO st_KN st_onS st_S2 Ra eq_refl p q r t Hp Hq Ip Iq).
  - intros p r n Hp Ip. exact (image_mul FT keq_ok two_nz sm oK st_KO st_KN st_onS st_S2 Ra eq_refl p r n Hp Ip).
  - intros p Hp. exact (image_None p Hp).
Qed.
Lemma st_root : exists a', a' * a' + B * a' + 1 = 0. Proof. eexists. exact (Ra' FT keq_ok two_nz sm oK st_KO st_KN st_onS st_S2 Ra). Qed.
Lemma st_four : exists s', s' * s' = B + 2. Proof. exact (cod_four FT keq_ok two_nz sm oK st_KO st_KN st_onS st_S2 Ra eq_refl). Qed.
Lemma st_smooth : (0 < d)%nat -> B * B <> 4. Proof. intros Hd. exact (smooth' FT keq_ok two_nz sm oK st_KO st_KN st_onS st_S2 Ra). Qed.
Lemma st_new checks : (0 < d)%nat -> (Z.of_nat (S (d + d)) < 2 ^ 64)%Z ->
  exists phi C, isogeny_new o checks E Kp (Z.of_nat (S (d + d))) = Some phi /\ i_dom phi = E /\ i_cod phi = Some C /\ good C /\ AA C = B /\ Forall2 stored tl (i_mult phi).
Proof.
  intros Hd Hl. pose proof (good_wfc E gE) as W.
  assert (R : exists phi C, compute_codomain_constants o (mkIsogeny E None Kp (Z.of_nat (S (d + d))) []) = Some phi /\ i_dom phi = E /\ i_cod phi = Some C /\ good C /\ AA C = B /\ Forall2 stored tl (i_mult phi)).
  { unfold compute_codomain_constants. cbn [i_dom i_deg i_ker i_mult app]. replace (Z.of_nat (S (d + d)) =? 0)%Z with false by (symmetry; apply Z.eqb_neq; lia).
    replace ((Z.of_nat (S (d + d)) - 1) / 2)%Z with (Z.of_nat d) by (replace (Z.of_nat (S (d + d)) - 1)%Z with (Z.of_nat d * 2)%Z by lia; symmetry; apply Z.div_mul; lia). rewrite Nat2Z.id.
    assert (ST : Forall2 stored tl (edwards_multiples o E Kp (infinity o) d)).
    { apply (mult_stored E Kp W oK d 0 (infinity o)); [unfold L_Curve.onc; rewrite (aff_infinity L); exact Logic.I|apply (aff_infinity L)|]. intros j Hj. apply st_KN. lia. }
    destruct (fold_cod _ _ ST) as (W0 & NW & HF). specialize (HF (fone o, fone o)). cbv zeta in HF. set (ml := edwards_multiples o E Kp (infinity o) d) in *. clearbody ml.
    destruct (fold_left _ ml (fone o, fone o)) as [py pz]. cbn [fst snd] in HF. destruct HF as [Hy Hz]. rewrite (l_one _ _ _ _ _ _ _ _ _ _ _ L) in Hy, Hz.
    match goal with |- context [curve_new o ?c] => set (c0 := c); assert (Ec : v c0 = B) end.
    { unfold c0. vs. rewrite !v_pow. vs. rewrite Hy, Hz. pose proof (ab_nz FT keq_ok two_nz sm oK st_KO st_KN st_onS st_S2 Ra) as NAB. unfold A'.
      unfold av, bv, p8, PM, PP in *. cbv zeta in *.
      set (u := prodf (fun t : K => t - 1) tl) in *. set (w := prodf (fun t : K => t + 1) tl) in *. clearbody u w. set (ka := kpow (A + 2) (S (d + d))) in *. set (kb := kpow (A - 2) (S (d + d))) in *. clearbody ka kb.
      field. split; [exact NAB|]. intros Z. apply (nzm _ _ NAB (nzm _ _ NW (nzm _ _ NW (nzm _ _ NW (nzm _ _ NW (nzm _ _ NW (nzm _ _ NW (nzm _ _ NW NW)))))))). rewrite <- Z. ring. }
    clearbody c0. destruct (curve_new_ok L c0) as [G1 _]. destruct G1 as (C & HC & EC & WC). { rewrite Ec. apply st_smooth, Hd. }
    rewrite HC. eexists _, C. split; [reflexivity|]. cbn [i_dom i_cod i_mult]. split; [reflexivity|]. split; [reflexivity|]. split; [|split; [rewrite EC; exact Ec|exact ST]].
    unfold good. rewrite EC, Ec. split; [exact HC|]. split; [exact st_root|exact st_four]. }
  unfold isogeny_new. destruct checks; [|exact R].
  destruct (isinfinity o Kp) eqn:EI. { exfalso. apply (isinfinity_ok L) in EI. apply (st_KN 1); [lia|]. cbn. rewrite EI. reflexivity. }
  destruct (mul_small_ok L E Kp (Z.of_nat (S (d + d))) W oK ltac:(lia)) as (M & EM & AM & _). rewrite EM. rewrite pmul_of_nat, st_KO in AM. apply (isinfinity_ok L) in AM. rewrite AM. exact R.
Qed.
Lemma st_eval phi C : i_cod phi = Some C -> good C -> AA C = B -> Forall2 stored tl (i_mult phi) -> realises E C (evaluate_isogeny o phi) im.
Proof.
  intros HC gC EC ST P HP. unfold evaluate_isogeny, to_xz. rewrite HC.
  destruct (keqP L (v (pZ P)) 0) as [Z0|NZ].
  - destruct (fold_left _ (i_mult phi) _) as [xn zn]. eexists. split; [reflexivity|]. match goal with |- context [complete_pointX o C ?X] => pose proof (complete_ok L C X) as H; assert (XZ0 : v (xZ X) = 0) end.
    { cbn [xZ]. vs. rewrite Z0. ring. } destruct (complete_pointX o C _) as [R ok]. destruct H as [_ H]. destruct (H XZ0) as [_ AR]. cbn [fst]. rewrite AR.
    left. split; [|reflexivity]. replace (aff P) with (None : pt K); [exact inG_0|]. symmetry. apply (affk_0 L). exact Z0.
  - set (x := v (pX P) / v (pZ P)). assert (EX : v (pX P) = x * v (pZ P)) by (unfold x; field; exact NZ).
    assert (EP : aff P = Some (x, v (pY P) / v (pZ P))). { apply (affk_S L); [exact NZ|exact EX|field; exact NZ]. } clearbody x.
    destruct (fold_eval tl (i_mult phi) (v (pX P)) (v (pZ P)) x (fadd o (pX P) (pZ P)) (fsub o (pX P) (pZ P)) NZ) as (W & NW & HF); [vs; rewrite EX; ring|vs; rewrite EX; ring|exact ST|].
    specialize (HF (fone o, fone o)). cbv zeta in HF. cbv zeta. destruct (fold_left _ (i_mult phi) (fone o, fone o)) as [xn zn]. cbn [fst snd] in HF. destruct HF as [Hx Hz]. rewrite (l_one _ _ _ _ _ _ _ _ _ _ _ L) in Hx, Hz.
    eexists. split; [reflexivity|]. set (X := mkPointX _ _). pose proof (complete_ok L C X) as H.
    assert (HX : v (xX X) = W * W * v (pZ P) * N (k0 := k0) (k1 := k1) (kadd := kadd) (kmul := kmul) (ksub := ksub) (kopp := kopp) (kdiv := kdiv) (keq := keq) (A := A) (Kp := aff Kp) (d := d) x).
    { unfold X. cbn [xX]. vs. rewrite Hx, EX. unfold N. rewrite (prodf_mul FT). ring. }
    assert (HZ : v (xZ X) = W * W * v (pZ P) * D (k0 := k0) (k1 := k1) (kadd := kadd) (kmul := kmul) (ksub := ksub) (kopp := kopp) (kdiv := kdiv) (keq := keq) (A := A) (Kp := aff Kp) (d := d) x).
    { unfold X. cbn [xZ]. vs. rewrite Hz. unfold D. rewrite (prodf_mul FT). change (prodf (ksub x) tl) with (prodf (fun t => x - t) tl). ring. }
    clearbody X. destruct (complete_pointX o C X) as [R ok]. cbn [fst]. destruct H as [H1 H2].
    assert (NP : aff P <> None) by (rewrite EP; discriminate). pose proof (D_zero FT keq_ok two_nz sm oK st_KO st_KN (aff P) HP NP) as DZ. rewrite EP in DZ at 1. cbn [xof0] in DZ.
    destruct (inG_dec FT keq_ok two_nz sm oK st_KO (aff P) HP) as [I|I].
    + left. split; [exact I|]. apply H2. rewrite HZ, (proj2 DZ I). ring.
    + right. split; [exact I|]. assert (ND : v (xZ X) <> 0). { rewrite HZ. apply nzm; [apply nzm; [apply nzm; exact NW|exact NZ]|]. intros Z. apply I, DZ, Z. }
      destruct (H1 ND) as (O1 & O2 & _). assert (EF : v (xX X) / v (xZ X) = fP (k0 := k0) (k1 := k1) (kadd := kadd) (kmul := kmul) (ksub := ksub) (kopp := kopp) (kdiv := kdiv) (keq := keq) (A := A) (Kp := aff Kp) (d := d) (aff P)).
      { rewrite (fP_fx FT keq_ok two_nz sm oK st_KO st_KN (aff P) HP I), EP. cbn [xof0]. unfold fx. rewrite HX, HZ. field. split; [|split; [exact NZ|exact NW]]. intros Z. apply I, DZ, Z. }
      rewrite EF, EC in *. destruct (sg_ex _ _ _ _ st_sg (aff P) HP) as [r [[I' _]|(_ & Or & Y & ->)]]; [contradiction|].
      destruct (O2 (proj2 O1 (ex_intro _ Y Or))) as (y & Ay & Oy). split; [|exists y; exact Ay]. unfold L_Curve.onc in Oy. rewrite EC in Oy. exact Oy.
Qed.
End Step.

(** ** Chains *)
Definition chain_iso (E : curve F) (ch : list (isogeny F)) (C : curve F) (ker : pt K -> Prop) : Prop :=
  linked E ch C /\ good C /\ exists im, sgiso (AA E) (AA C) im ker /\ realises E C (eval_points o ch) im.
Lemma ci_nil E P : good E -> aff P = None -> chain_iso E [] E (mult (AA E) (aff P)).
Proof.
  intros gE EP. split; [constructor|]. split; [exact gE|]. eexists. split; [apply (sg_ker_ext _ _ _ (fun p => p = None)); [apply sg_id; exact (proj2 (good_wfc E gE))|]|].
  - intros p _. rewrite EP. split; [intros ->; exists O; reflexivity|]. intros [j ->]. apply pmul_nat_None.
  - intros Q HQ. exists Q. split; [reflexivity|]. split; [exact HQ|left; reflexivity].
Qed.
Lemma ci_step checks E Kp d : good E -> onc E Kp -> ord (AA E) (S (d + d)) (aff Kp) -> (0 < d)%nat -> (Z.of_nat (S (d + d)) < 2 ^ 64)%Z ->
  exists phi C, isogeny_new o checks E Kp (Z.of_nat (S (d + d))) = Some phi /\ chain_iso E [phi] C (mult (AA E) (aff Kp)).
Proof.
  intros gE oK KO Hd Hl. pose proof gE as (_ & (a & Ra) & (s & Rs)). destruct (st_new gE oK KO Ra Rs checks Hd Hl) as (phi & C & EN & ED & EC & gC & AC & ST). exists phi, C. split; [exact EN|].
  split. { rewrite <- ED. econstructor; [exact EC|constructor]. } split; [exact gC|]. eexists. rewrite AC. split; [exact (st_sg gE oK KO Ra Rs)|].
  intros P HP. cbn [eval_points]. destruct (st_eval gE oK KO Ra Rs phi C EC gC AC ST P HP) as (R & ER & IR). rewrite ER. exists R. split; [reflexivity|exact IR].
Qed.
Lemma ci_eval E ch C ker P : chain_iso E ch C ker -> onc E P -> exists R, evaluate_isogeny_chain o E P ch = Some (C, R) /\ onc C R.
Proof. intros (HL & gC & im & S & RE) HP. destruct (RE P HP) as (R & ER & IR). exists R. rewrite (eval_chain_linked o _ _ _ P HL), ER. split; [reflexivity|]. exact (sg_on _ _ _ _ S _ _ IR). Qed.
Lemma ci_seq E ch C m n P R ch2 C2 : good E -> onc E P -> (0 < n)%nat -> pmul_nat (AA E) n (aff P) = None -> chain_iso E ch C (mult (AA E) (pmul_nat (AA E) m (aff P))) ->
  evaluate_isogeny_chain o E P ch = Some (C, R) -> chain_iso C ch2 C2 (mult (AA C) (aff R)) -> chain_iso E (ch ++ ch2) C2 (mult (AA E) (aff P)).
Proof.
  intros gE HP Hn Ho (HL & gC & im & S & RE) EV (HL2 & gC2 & im2 & S2 & RE2). split; [eapply linked_app; eauto|]. split; [exact gC2|]. eexists. split.
  - eapply sg_ker_ext; [apply (sg_comp _ _ _ _ _ _ _ S S2)|]. cbv beta. apply (ker_comp _ _ im m _ n); auto; [exact (proj2 (good_wfc E gE))|].
    destruct (RE P HP) as (R' & ER & IR). rewrite (eval_chain_linked o _ _ _ P HL), ER in EV. injection EV as <-. exact IR.
  - intros Q HQ. rewrite eval_points_app. destruct (RE Q HQ) as (R1 & ER & IR). rewrite ER. destruct (RE2 R1 (sg_on _ _ _ _ S _ _ IR)) as (R2 & ER2 & IR2). exists R2. split; [exact ER2|]. exists (aff R1). auto.
Qed.
Lemma ci_ord E ch C m n P R : good E -> onc E P -> (0 < n)%nat -> ord (AA E) n (aff P) -> chain_iso E ch C (mult (AA E) (pmul_nat (AA E) m (aff P))) ->
  evaluate_isogeny_chain o E P ch = Some (C, R) -> ord (AA C) (Nat.gcd n m) (aff R).
Proof.
  intros gE HP Hn Ho (HL & gC & im & S & RE) EV. destruct (RE P HP) as (R' & ER & IR). rewrite (eval_chain_linked o _ _ _ P HL), ER in EV. injection EV as <-.
  exact (ord_img _ _ im m _ n _ (proj2 (good_wfc E gE)) HP Hn Ho S IR).
Qed.
Lemma mul_iter_ok E l : wfc E -> (Z.of_nat l < 2 ^ 64)%Z -> forall n Q, onc E Q -> exists R, mul_iter o E Q (Z.of_nat l) n = Some R /\ onc E R /\ aff R = pmul_nat (AA E) (l ^ n) (aff Q).
Proof.
  intros W Hl. induction n as [|n IH]; intros Q HQ; cbn [mul_iter]. { exists Q. split; [reflexivity|]. split; [exact HQ|]. cbn. reflexivity. }
  destruct (mul_small_ok L E Q (Z.of_nat l) W HQ ltac:(lia)) as (R1 & -> & A1 & O1). destruct (IH R1 O1) as (R & ER & OR & AR). exists R. split; [exact ER|]. split; [exact OR|].
  rewrite AR, A1, pmul_of_nat, <- (o_mul (proj2 W)) by exact HQ. f_equal. cbn [Nat.pow]. lia.
Qed.
Lemma ord_scale A a b p : A * A <> 4 -> on A p -> (0 < a)%nat -> ord A (a * b) p -> ord A b (pmul_nat A a p).
Proof. intros sm Hp Ha Ho k. rewrite <- (o_mul sm) by exact Hp. rewrite (Ho (k * a)%nat). rewrite (Nat.mul_comm k a). apply Nat.mul_divide_cancel_l. lia. Qed.
Lemma ord_coprime A a c p : A * A <> 4 -> on A p -> Nat.gcd a c = 1%nat -> ord A a p -> ord A a (pmul_nat A c p).
Proof. intros sm Hp Hc Ho k. rewrite <- (o_mul sm) by exact Hp. rewrite (Ho (k * c)%nat). split; [|intros H; apply Nat.divide_mul_l, H]. rewrite Nat.mul_comm. intros H. exact (Nat.gauss _ _ _ H Hc). Qed.
Lemma rsi_iso checks d : (0 < d)%nat -> (Z.of_nat (S (d + d)) < 2 ^ 64)%Z -> forall k fuel E Q, (k <= fuel)%nat -> (1 <= k)%nat -> good E -> onc E Q -> ord (AA E) (S (d + d) ^ k) (aff Q) ->
  exists ch C, recursive_sparse_isogeny o checks fuel E Q (Z.of_nat (S (d + d))) k = Some ch /\ chain_iso E ch C (mult (AA E) (aff Q)).
Proof.
  intros Hd Hl. set (l := S (d + d)) in *. assert (Pl : forall n, (0 < l ^ n)%nat) by (intros n; apply Nat.neq_0_lt_0, Nat.pow_nonzero; unfold l; lia).
  induction k as [k IH] using lt_wf_ind. intros fuel E Q Hf Hk gE HQ Ho. destruct fuel as [|fuel]; [lia|]. cbn [recursive_sparse_isogeny]. pose proof (good_wfc E gE) as W.
  replace (Nat.eqb k 0) with false by (symmetry; apply Nat.eqb_neq; lia). destruct (Nat.eqb k 1) eqn:E1.
  - apply Nat.eqb_eq in E1. subst k. rewrite Nat.pow_1_r in Ho. destruct (ci_step checks E Q d gE HQ Ho Hd Hl) as (phi & C & EN & CI). unfold l in *. rewrite EN. exists [phi], C. split; [reflexivity|exact CI].
  - apply Nat.eqb_neq in E1. pose proof (split_k_bounds k ltac:(lia)) as B. set (k1' := split_k k) in *. clearbody k1'. destruct (mul_iter_ok E l W Hl k1' Q HQ) as (Q1 & -> & OQ1 & AQ1).
    assert (EK : (l ^ k = l ^ k1' * l ^ (k - k1'))%nat) by (rewrite <- Nat.pow_add_r; f_equal; lia).
    assert (Ho1 : ord (AA E) (l ^ (k - k1')) (aff Q1)). { rewrite AQ1. apply ord_scale; auto; [exact (proj2 W)|]. rewrite <- EK. exact Ho. }
    destruct (IH (k - k1')%nat ltac:(lia) fuel E Q1 ltac:(lia) ltac:(lia) gE OQ1 Ho1) as (L1 & C1 & -> & CI1). destruct (ci_eval _ _ _ _ Q CI1 HQ) as (Q2 & EV & OQ2). rewrite EV.
    rewrite AQ1 in CI1. pose proof (ci_ord _ _ _ _ _ _ _ gE HQ (Pl k) Ho CI1 EV) as Ho2.
    assert (EG : Nat.gcd (l ^ k) (l ^ k1') = (l ^ k1')%nat). { rewrite Nat.gcd_comm. apply Nat.divide_gcd_iff; [lia|]. rewrite EK. apply Nat.divide_factor_l. } rewrite EG in Ho2.
    destruct (IH k1' ltac:(lia) fuel C1 Q2 ltac:(lia) ltac:(lia) (proj1 (proj2 CI1)) OQ2 Ho2) as (L2 & C2 & -> & CI2). exists (L1 ++ L2), C2. split; [reflexivity|].
    apply (ci_seq E L1 C1 (l ^ k1') (l ^ k) Q Q2 L2 C2 gE HQ (Pl k)); auto. apply Ho. apply Nat.divide_refl.
Qed.

(** a factorisation into powers of pairwise coprime odd numbers *)
Definition factor_ok (le : Z * Z) : Prop := (1 < fst le < 2 ^ 64)%Z /\ Z.odd (fst le) = true /\ (1 <= snd le)%Z.
Definition npow (le : Z * Z) : nat := (Z.to_nat (fst le) ^ Z.to_nat (snd le))%nat.
Definition nprod (l : list (Z * Z)) : nat := fold_right (fun le r => (npow le * r)%nat) 1%nat l.
Definition coprime2 (a b : Z * Z) : Prop := Z.gcd (fst a) (fst b) = 1%Z.
Lemma npow_pos le : factor_ok le -> (0 < npow le)%nat. Proof. intros (H & _). apply Nat.neq_0_lt_0, Nat.pow_nonzero. lia. Qed.
Lemma nprod_pos l : Forall factor_ok l -> (0 < nprod l)%nat.
Proof. induction 1 as [|x l H _ IH]; cbn [nprod fold_right]; [lia|]. fold (nprod l). pose proof (npow_pos x H). nia. Qed.
Lemma gcd_mul_1 a b c : Nat.gcd a b = 1%nat -> Nat.gcd a c = 1%nat -> Nat.gcd a (b * c) = 1%nat.
Proof. intros H1 H2. pose proof (Nat.gcd_divide_l a (b * c)) as D1. pose proof (Nat.gcd_divide_r a (b * c)) as D2. set (g := Nat.gcd a (b * c)) in *.
  assert (G1 : Nat.gcd g b = 1%nat). { apply Nat.divide_1_r. rewrite <- H1. apply Nat.gcd_greatest; [eapply Nat.divide_trans; [apply Nat.gcd_divide_l|exact D1]|apply Nat.gcd_divide_r]. }
  pose proof (Nat.gauss _ _ _ D2 G1) as D3. apply Nat.divide_1_r. rewrite <- H2. apply Nat.gcd_greatest; assumption.
Qed.
Lemma gcd_pow_1 a b n : Nat.gcd a b = 1%nat -> Nat.gcd a (b ^ n) = 1%nat.
Proof. intros H. induction n; cbn [Nat.pow]; [apply Nat.gcd_1_r|]. apply gcd_mul_1; auto. Qed.
Lemma gcd_npow a b : (0 <= fst a)%Z -> (0 <= fst b)%Z -> coprime2 a b -> Nat.gcd (npow a) (npow b) = 1%nat.
Proof.
  unfold coprime2, npow. intros Ha Hb H. apply gcd_pow_1. rewrite Nat.gcd_comm. apply gcd_pow_1. rewrite Nat.gcd_comm. apply Nat2Z.inj.
  assert (D : (Z.of_nat (Nat.gcd (Z.to_nat (fst a)) (Z.to_nat (fst b))) | 1)%Z). { pose proof (Nat.gcd_divide_l (Z.to_nat (fst a)) (Z.to_nat (fst b))) as D1. pose proof (Nat.gcd_divide_r (Z.to_nat (fst a)) (Z.to_nat (fst b))) as D2. apply divide_Z in D1, D2. rewrite Z2Nat.id in D1, D2 by lia. rewrite <- H. apply Z.gcd_greatest; assumption. }
  apply Z.divide_1_r_nonneg in D; [exact D|lia].
Qed.
Lemma other_ok E l : good E -> forall whole Q, Forall (fun le => factor_ok le /\ fst le <> l) whole -> onc E Q -> exists R, other_factors o E Q l whole = Some R /\ onc E R /\ aff R = pmul_nat (AA E) (nprod whole) (aff Q).
Proof.
  intros gE. pose proof (good_wfc E gE) as W. induction whole as [|[l1 e1] whole IH]; intros Q H HQ; cbn [other_factors]. { exists Q. auto. }
  inversion H as [|? ? [H1 N1] H2]; subst. cbn [fst] in N1. replace (l =? l1)%Z with false by (symmetry; apply Z.eqb_neq; congruence). destruct H1 as (B1 & _ & B2). cbn [fst snd] in *.
  destruct (mul_iter_ok E (Z.to_nat l1) W ltac:(lia) (Z.to_nat e1) Q HQ) as (R1 & E1 & O1 & A1). rewrite Z2Nat.id in E1 by lia. rewrite E1. destruct (IH R1 H2 O1) as (R & ER & OR & AR). exists R. split; [exact ER|]. split; [exact OR|].
  rewrite AR, A1, <- (o_mul (proj2 W)) by exact HQ. f_equal. apply Nat.mul_comm.
Qed.
Lemma other_app E Q l a b : other_factors o E Q l (a ++ b) = match other_factors o E Q l a with None => None | Some R => other_factors o E R l b end.
Proof. revert Q. induction a as [|[l1 e1] a IH]; intros Q; [reflexivity|]. cbn [app other_factors]. destruct (if (l =? l1)%Z then _ else _); [apply IH|reflexivity]. Qed.
Lemma loop_iso checks : forall order pre E P, Forall factor_ok (pre ++ order) -> ForallOrdPairs coprime2 (pre ++ order) -> good E -> onc E P -> ord (AA E) (nprod order) (aff P) ->
  exists ch C, kummer_loop o checks (pre ++ order) order E P = Some ch /\ chain_iso E ch C (mult (AA E) (aff P)).
Proof.
  induction order as [|[l e] order IH]; intros pre E P HF HC gE HP Ho; cbn [kummer_loop].
  { exists [], E. split; [reflexivity|]. apply ci_nil; [exact gE|]. specialize (Ho 1%nat). cbn in Ho. apply Ho. apply Nat.divide_refl. }
  pose proof (good_wfc E gE) as W. pose proof (proj2 W) as sm.
  assert (F1 : Forall factor_ok pre /\ factor_ok (l, e) /\ Forall factor_ok order). { apply Forall_app in HF. destruct HF as [Fa Fb]. inversion Fb; subst. auto. } destruct F1 as (Fp & Fl & Fo).
  assert (CP : forall x, In x pre -> coprime2 x (l, e)). { clear -HC. induction pre as [|y pre IH]; [intros x []|]. cbn [app] in HC. inversion HC as [|? ? H1 H2]; subst. intros x [<-|Hx]; [|apply IH; auto]. rewrite Forall_forall in H1. apply H1. apply in_app_iff. right. left. reflexivity. }
  assert (CO : forall x, In x order -> coprime2 (l, e) x). { clear -HC. induction pre as [|y pre IH]; cbn [app] in HC; inversion HC as [|? ? H1 H2]; subst; [|apply IH; exact H2]. rewrite Forall_forall in H1. exact H1. }
  assert (Nl : forall x : Z * Z, Z.gcd (fst x) l = 1%Z -> fst x <> l). { intros x H Q. rewrite Q, Z.gcd_diag in H. destruct Fl as [Fl _]. cbn in Fl. lia. }
  rewrite other_app. destruct (other_ok E l gE pre P) as (R1 & -> & O1 & A1); [|exact HP|].
  { rewrite Forall_forall in Fp |- *. intros x Hx. split; [apply Fp, Hx|]. apply Nl. exact (CP x Hx). }
  cbn [other_factors]. rewrite Z.eqb_refl. destruct (other_ok E l gE order R1) as (Q & -> & OQ & AQ); [|exact O1|].
  { rewrite Forall_forall in Fo |- *. intros x Hx. split; [apply Fo, Hx|]. apply Nl. rewrite Z.gcd_comm. exact (CO x Hx). }
  rewrite A1, <- (o_mul sm) in AQ by exact HP. set (m := (nprod order * nprod pre)%nat) in *.
  assert (PN : (0 < nprod ((l, e) :: order))%nat) by (apply nprod_pos; constructor; assumption). pose proof (nprod_pos order Fo) as Po. pose proof (npow_pos _ Fl) as Pl.
  assert (GP : Nat.gcd (npow (l, e)) (nprod pre) = 1%nat).
  { assert (GG : forall pre, Forall factor_ok pre -> (forall x, In x pre -> coprime2 x (l, e)) -> Nat.gcd (npow (l, e)) (nprod pre) = 1%nat); [|apply GG; assumption]. clear dependent pre. induction pre as [|x pre IHp]; intros Fp CP; [apply Nat.gcd_1_r|].
    change (nprod (x :: pre)) with (npow x * nprod pre)%nat. inversion Fp as [|? ? H1 H2]; subst. apply gcd_mul_1; [|apply IHp; auto; intros y Hy; apply CP; right; exact Hy].
    destruct H1 as [H1 _]. destruct Fl as [Fl _]. rewrite Nat.gcd_comm. apply gcd_npow; [lia|lia|]. apply CP. left. reflexivity. }
  assert (HoQ : ord (AA E) (npow (l, e)) (aff Q)).
  { rewrite AQ. unfold m. rewrite Nat.mul_comm, (o_mul sm) by exact HP. apply ord_coprime; [exact sm|apply o_on; exact HP|exact GP|]. apply ord_scale; [exact sm|exact HP|exact Po|]. rewrite Nat.mul_comm. exact Ho. }
  destruct Fl as (Bl & Ol & Be). cbn [fst snd] in *. assert (El : exists d, (0 < d)%nat /\ l = Z.of_nat (S (d + d))). { apply Z.odd_spec in Ol. destruct Ol as [c Ec]. exists (Z.to_nat c). lia. } destruct El as (d & Hd & El).
  unfold npow in HoQ. cbn [fst snd] in HoQ. rewrite El, Nat2Z.id in HoQ. unfold sparse_isogeny_prime_power. rewrite El.
  destruct (rsi_iso checks d Hd ltac:(lia) (Z.to_nat e) (Z.to_nat e) E Q ltac:(lia) ltac:(lia) gE OQ HoQ) as (psi & C & -> & CI). destruct (ci_eval _ _ _ _ P CI HP) as (P' & EV & OP'). rewrite EV. rewrite AQ in CI.
  pose proof (ci_ord _ _ _ _ _ _ _ gE HP PN Ho CI EV) as Ho2.
  assert (EG : Nat.gcd (nprod ((l, e) :: order)) m = nprod order). { change (nprod ((l, e) :: order)) with (npow (l, e) * nprod order)%nat. unfold m. rewrite (Nat.mul_comm (npow (l, e))), Nat.gcd_mul_mono_l, GP. apply Nat.mul_1_r. } rewrite EG in Ho2.
  specialize (IH (pre ++ [(l, e)]) C P'). rewrite <- app_assoc in IH. cbn [app] in IH. destruct (IH HF HC (proj1 (proj2 CI)) OP' Ho2) as (phi & C2 & EK & CI2). rewrite <- El, EK. exists (psi ++ phi), C2. split; [reflexivity|].
  apply (ci_seq E psi C m (nprod ((l, e) :: order)) P P' phi C2 gE HP PN); auto. apply Ho, Nat.divide_refl.
Qed.
End Isog.
