(** Lemmas for src/pairing.rs over any lawful field implementation: lines evaluated at affine points. *)
From Coq Require Import ZArith List Bool Ring Field Lia.
From Verif Require Import S_Curve M_Fp M_Field M_Curve M_Pairing L_Group L_Kummer L_Weil L_Weil2 L_Field L_Curve.
Import ListNotations.

Section Pairing.
Context {F : Type} {o : fops F}.
Context {K : Type} {k0 k1 : K} {kadd kmul ksub : K -> K -> K} {kopp : K -> K} {kdiv : K -> K -> K} {kinv : K -> K} {keq : K -> K -> bool} {v : F -> K}.
Context (L : flaws o k0 k1 kadd kmul ksub kopp kdiv kinv keq v).
Let FT := l_ft _ _ _ _ _ _ _ _ _ _ _ L.
Let keq_ok := l_keq _ _ _ _ _ _ _ _ _ _ _ L.
Let two_nz := l_two_nz _ _ _ _ _ _ _ _ _ _ _ L.
Add Field Kfield : FT.
Local Notation "0" := k0. Local Notation "1" := k1.
Local Notation "2" := (kadd k1 k1). Local Notation "3" := (kadd (kadd k1 k1) k1). Local Notation "4" := (kadd (kadd k1 k1) (kadd k1 k1)).
Local Infix "+" := kadd. Local Infix "*" := kmul. Local Infix "-" := ksub. Local Infix "/" := kdiv. Local Notation "- x" := (kopp x).
Local Notation on := (on kadd kmul).
Local Notation padd := (padd k1 kadd kmul ksub kopp kdiv keq).
Local Notation popp := (popp kopp).
Local Notation aff := (aff (k0 := k0) (kdiv := kdiv) (keq := keq) (v := v)).
Local Notation onc := (onc (k0 := k0) (kadd := kadd) (kmul := kmul) (kdiv := kdiv) (keq := keq) (v := v)).
Local Notation AA E := (v (cA E)).

Ltac vs := repeat first
  [ rewrite (l_add _ _ _ _ _ _ _ _ _ _ _ L) | rewrite (l_sub _ _ _ _ _ _ _ _ _ _ _ L) | rewrite (l_mul _ _ _ _ _ _ _ _ _ _ _ L)
  | rewrite (l_sq _ _ _ _ _ _ _ _ _ _ _ L) | rewrite (l_neg _ _ _ _ _ _ _ _ _ _ _ L) | rewrite (l_half _ _ _ _ _ _ _ _ _ _ _ L)
  | rewrite (l_mul2 _ _ _ _ _ _ _ _ _ _ _ L) | rewrite (l_mul3 _ _ _ _ _ _ _ _ _ _ _ L) | rewrite (l_mul4 _ _ _ _ _ _ _ _ _ _ _ L)
  | rewrite (l_mul8 _ _ _ _ _ _ _ _ _ _ _ L) | rewrite (l_inv _ _ _ _ _ _ _ _ _ _ _ L) | rewrite (l_div _ _ _ _ _ _ _ _ _ _ _ L)
  | rewrite (l_zero _ _ _ _ _ _ _ _ _ _ _ L) | rewrite (l_one _ _ _ _ _ _ _ _ _ _ _ L) | rewrite (l_two _ _ _ _ _ _ _ _ _ _ _ L)
  | rewrite (l_three _ _ _ _ _ _ _ _ _ _ _ L) | rewrite (l_four _ _ _ _ _ _ _ _ _ _ _ L)
  | rewrite (l_is0 _ _ _ _ _ _ _ _ _ _ _ L) | rewrite (l_eqb _ _ _ _ _ _ _ _ _ _ _ L)
  | rewrite (l_cond _ _ _ _ _ _ _ _ _ _ _ L) | rewrite (l_cneg _ _ _ _ _ _ _ _ _ _ _ L) ].


Local Notation line A := (L_Weil.line (k1 := k1) (kadd := kadd) (kmul := kmul) (ksub := ksub) (kopp := kopp) (kdiv := kdiv) (keq := keq) (A := A)).
Local Notation hh A := (L_Weil.hh (k1 := k1) (kadd := kadd) (kmul := kmul) (ksub := ksub) (kopp := kopp) (kdiv := kdiv) (keq := keq) (A := A)).
Local Notation hv A := (L_Weil.hv (k1 := k1) (kadd := kadd) (kmul := kmul) (ksub := ksub) (kopp := kopp) (kdiv := kdiv) (keq := keq) (A := A)).
Local Notation fm A := (L_Weil.fm (k1 := k1) (kadd := kadd) (kmul := kmul) (ksub := ksub) (kopp := kopp) (kdiv := kdiv) (keq := keq) (A := A)).
Local Notation wp A := (L_Weil.wp (k1 := k1) (kadd := kadd) (kmul := kmul) (ksub := ksub) (kopp := kopp) (kdiv := kdiv) (keq := keq) (A := A)).
Local Notation wfc := (wfc (k1 := k1) (kadd := kadd) (kmul := kmul) (kdiv := kdiv) (v := v)).
Local Notation pmul_nat := (pmul_nat k1 kadd kmul ksub kopp kdiv keq).
Lemma eval_line_ok checks E P Q R p q x y : onc E P -> onc E Q -> aff P = Some p -> aff Q = Some q -> aff R = Some (x, y) ->
  exists z, eval_line o checks E P Q R = Some z /\ v z = v (pZ R) * line (AA E) p q x y.
Proof.
  destruct p as [x1 y1], q as [x2 y2]. intros OP OQ EP EQ ER. unfold eval_line.
  pose proof (to_xy_ok L P) as TP. pose proof (to_xy_ok L Q) as TQ. rewrite EP in TP. rewrite EQ in TQ. destruct (to_xy o P) as [Px Py], (to_xy o Q) as [Qx Qy]. cbn [fst snd] in *. destruct TP as [VPx VPy], TQ as [VQx VQy].
  unfold to_xyz. pose proof (affk_inv L _ _ _ _ _ ER) as (ZR & XR & YR).
  assert (IP : isinfinity o P = false) by (destruct (isinfinity o P) eqn:I; [apply (isinfinity_ok L) in I; congruence|reflexivity]).
  assert (IQ : isinfinity o Q = false) by (destruct (isinfinity o Q) eqn:I; [apply (isinfinity_ok L) in I; congruence|reflexivity]).
  rewrite IP, IQ. cbn [negb andb]. rewrite andb_false_r.
  unfold L_Curve.onc in OP, OQ. rewrite EP in OP. rewrite EQ in OQ. unfold L_Weil.line.
  destruct (p_equals o P Q) eqn:EE.
  - apply (p_equals_ok L) in EE. rewrite EP, EQ in EE. injection EE as <- <-. rewrite (kt L).
    rewrite (l_is0 _ _ _ _ _ _ _ _ _ _ _ L), VPy. destruct (keqP L y1 0) as [Y0|NY].
    + eexists. split; [reflexivity|]. destruct (keqP L y1 (- y1)) as [_|N]; [|exfalso; apply N; rewrite Y0; ring]. vs. rewrite VPx, XR. ring.
    + eexists. split; [reflexivity|]. destruct (keqP L y1 (- y1)) as [N|_]; [exfalso; apply NY, (double_0 FT two_nz), N|]. vs. rewrite VPx, VPy, XR, YR. field. split; assumption.
  - assert (NE : ~ (x1 = x2 /\ y1 = y2)) by (intros [-> ->]; rewrite (proj2 (p_equals_ok L P Q)) in EE; [discriminate|congruence]).
    destruct (p_equals o P (p_neg o Q)) eqn:EN.
    + apply (p_equals_ok L) in EN. rewrite (aff_neg L), EP, EQ in EN. injection EN as <- ->. rewrite !(kt L). eexists. split; [reflexivity|]. vs. rewrite VPx, XR. ring.
    + assert (NN : ~ (x1 = x2 /\ y1 = - y2)) by (intros [-> Y]; rewrite (proj2 (p_equals_ok L P (p_neg o Q))) in EN; [discriminate|rewrite (aff_neg L), EP, EQ, Y; reflexivity]).
      destruct (keqP L x1 x2) as [Ex|Nx].
      * exfalso. rewrite <- Ex in OQ, NE, NN. destruct (same_x FT keq_ok _ _ _ OP OQ) as [Y|Y]; [apply NE|apply NN]; auto.
      * eexists. split; [reflexivity|]. vs. rewrite VPx, VPy, VQx, VQy, XR, YR. field. apply (sub_nz FT). auto.
Qed.
(** ** Miller loop *)
Lemma miller_factor_ok checks E f V W S Q p q x y : onc E V -> onc E W -> onc E S -> aff V = Some p -> aff W = Some q -> aff Q = Some (x, y) -> aff S = padd (AA E) (Some p) (Some q) -> xdis (aff S) (Some (x, y)) ->
  exists z, miller_factor o checks E f V W S Q = Some z /\ v z = v f * hh (AA E) (Some p) (Some q) x y.
Proof.
  intros OV OW OS EV EW EQ ES D. unfold miller_factor. destruct (eval_line_ok checks E V W Q p q x y OV OW EV EW EQ) as (l & -> & Vl). pose proof (affk_inv L _ _ _ _ _ EQ) as (ZQ & _ & _).
  unfold L_Weil.hh. rewrite <- ES. destruct (aff S) as [[xs ys]|] eqn:AS.
  - assert (IS : isinfinity o S = false) by (destruct (isinfinity o S) eqn:I; [apply (isinfinity_ok L) in I; congruence|reflexivity]). rewrite IS. cbn [negb].
    assert (AN : aff (p_neg o S) = Some (xs, - ys)) by (rewrite (aff_neg L), AS; reflexivity).
    destruct (eval_line_ok checks E S (p_neg o S) Q _ _ x y OS (neg_on L E S OS) AS AN EQ) as (d & -> & Vd). eexists. split; [reflexivity|]. vs. rewrite Vl, Vd.
    replace (line (AA E) (xs, ys) (xs, - ys) x y) with (x - xs) by (unfold L_Weil.line; rewrite (kt L); replace (- - ys) with ys by ring; rewrite (kt L); reflexivity).
    cbn [xdis] in D. field. split; [apply (sub_nz FT); exact D|exact ZQ].
  - rewrite (proj2 (isinfinity_ok L S) AS). cbn [negb]. eexists. split; [reflexivity|]. vs. rewrite Vl. field. split; [exact (F_1_neq_0 FT)|exact ZQ].
Qed.
Lemma shiftr_bit n t : (0 <= n)%Z -> (Z.shiftr n (Z.of_nat t) = 2 * Z.shiftr n (Z.of_nat (S t)) + Z.b2z (Z.testbit n (Z.of_nat t)))%Z.
Proof using.
  intros Hn. clear - Hn. rewrite Nat2Z.inj_succ, <- Z.add_1_r, <- Z.shiftr_shiftr by lia. rewrite (Z.div2_odd (Z.shiftr n (Z.of_nat t))) at 1. rewrite Z.div2_spec. f_equal. rewrite <- Z.bit0_odd, Z.shiftr_spec by lia. rewrite Z.add_0_l. reflexivity.
Qed.
Lemma shiftr_le n t : (0 <= n)%Z -> (0 <= Z.shiftr n (Z.of_nat t) <= n)%Z.
Proof using. intros Hn. clear - Hn. rewrite Z.shiftr_div_pow2 by lia. assert (0 < 2 ^ Z.of_nat t)%Z by (apply Z.pow_pos_nonneg; lia). split; [apply Z.div_pos; lia|]. apply Z.div_le_upper_bound; nia. Qed.
(** none of the multiples of p met before the end of the loop is infinity *)
Definition prefix_ok (A : K) (n : Z) (p : pt K) : Prop := p <> None /\ forall t : nat, (0 < Z.shiftr n (Z.of_nat (S t)))%Z ->
  pmul_nat A (Z.to_nat (Z.shiftr n (Z.of_nat (S t)))) p <> None /\ (Z.testbit n (Z.of_nat t) = true -> pmul_nat A (Z.to_nat (2 * Z.shiftr n (Z.of_nat (S t)))) p <> None).
Lemma exact_prefix A n p : (1 < n)%Z -> (forall k, (0 < k < Z.to_nat n)%nat -> pmul_nat A k p <> None) -> prefix_ok A n p.
Proof using.
  intros Hn ex. clear FT keq_ok two_nz L kinv. split; [apply (ex 1%nat); lia|]. intros t Ht. pose proof (shiftr_bit n t ltac:(lia)) as B. pose proof (shiftr_le n t ltac:(lia)) as Lt. assert (b01 : (0 <= Z.b2z (Z.testbit n (Z.of_nat t)) <= 1)%Z) by (destruct (Z.testbit n (Z.of_nat t)); cbn; lia).
  split; [apply ex; lia|]. intros Bt. rewrite Bt in B. cbn [Z.b2z] in B. apply ex. lia.
Qed.
Section Loop.
Context (checks : bool) (E : curve F) (W : wfc E) (P Q : point F) (OP : onc E P) (n : Z).
Context (x y : K) (EQ : aff Q = Some (x, y)) (HQ : on (AA E) (Some (x, y))).
Local Notation A := (AA E).
Context (ex : prefix_ok A n (aff P)) (D : forall k, xdis (pmul_nat A k (aff P)) (Some (x, y))).
Let SM : A * A <> 4 := proj2 W.
Lemma miller_loop_ok t : (0 <= n)%Z -> (0 < Z.shiftr n (Z.of_nat t))%Z -> forall f V, onc E V -> aff V = pmul_nat A (Z.to_nat (Z.shiftr n (Z.of_nat t))) (aff P) -> v f = fm A (aff P) (Some (x, y)) (Z.to_nat (Z.shiftr n (Z.of_nat t))) ->
  exists f' V', miller_loop o checks E P Q n t f V = Some (f', V') /\ onc E V' /\ aff V' = pmul_nat A (Z.to_nat n) (aff P) /\ v f' = fm A (aff P) (Some (x, y)) (Z.to_nat n).
Proof.
  intros Hn. induction t as [|t IH]; intros Ht f V OV AV Vf.
  - cbn [miller_loop]. change (Z.of_nat 0) with 0%Z in *. rewrite Z.shiftr_0_r in *. exists f, V. auto.
  - cbn [miller_loop]. set (m := Z.shiftr n (Z.of_nat (S t))) in *. pose proof (shiftr_bit n t Hn) as B. fold m in B. pose proof (shiftr_le n t Hn) as Lt.
    assert (b01 : (0 <= Z.b2z (Z.testbit n (Z.of_nat t)) <= 1)%Z) by (destruct (Z.testbit n (Z.of_nat t)); cbn; lia).
    assert (EM : pmul_nat A (Z.to_nat (2 * m)) (aff P) = padd A (aff V) (aff V)) by (rewrite AV; replace (Z.to_nat (2 * m)) with (Z.to_nat m + Z.to_nat m)%nat by lia; apply (pmul_nat_add FT keq_ok two_nz SM); exact OP).
    assert (AD : aff (double_pt o E V) = pmul_nat A (Z.to_nat (2 * m)) (aff P)) by (rewrite EM; apply (double_ok L); exact OV).
    assert (OD : onc E (double_pt o E V)) by (apply (double_on L); assumption).
    assert (NV : aff V <> None) by (rewrite AV; apply (proj2 ex t); exact Ht). destruct (aff V) as [p|] eqn:AV'; [|contradiction].
    destruct (miller_factor_ok checks E (fsq o f) V V (double_pt o E V) Q p p x y OV OV OD AV' AV' EQ) as (f1 & -> & V1); [rewrite AD; exact EM|rewrite AD; apply D|].
    assert (F1 : v f1 = fm A (aff P) (Some (x, y)) (Z.to_nat (2 * m))).
    { rewrite V1. replace (Z.to_nat (2 * m)) with (Z.to_nat m + Z.to_nat m)%nat by lia. rewrite (fm_add FT keq_ok two_nz SM) by (try exact D; assumption). rewrite <- AV. vs. rewrite Vf. reflexivity. }
    destruct (Z.testbit n (Z.of_nat t)) eqn:Bt; cbn [Z.b2z] in B.
    + assert (OA : onc E (add_pts o E (double_pt o E V) P)) by (apply (add_on L); assumption).
      assert (NP : aff P <> None) by exact (proj1 ex). assert (ND : aff (double_pt o E V) <> None) by (rewrite AD; apply (proj2 ex t); [exact Ht|exact Bt]). clear ex.
      destruct (aff P) as [q|] eqn:AP; [|contradiction]. destruct (aff (double_pt o E V)) as [d|] eqn:AD'; [|contradiction].
      assert (AA1 : aff (add_pts o E (double_pt o E V) P) = padd A (Some d) (Some q)) by (rewrite (add_ok L) by assumption; rewrite AD', AP; reflexivity).
      assert (AA2 : aff (add_pts o E (double_pt o E V) P) = pmul_nat A (S (Z.to_nat (2 * m))) (Some q)) by (rewrite AA1, pmul_nat_S, <- AD; reflexivity).
      destruct (miller_factor_ok checks E f1 (double_pt o E V) P (add_pts o E (double_pt o E V) P) Q d q x y OD OP OA AD' AP EQ AA1) as (f2 & -> & V2); [rewrite AA2; apply D|].
      replace (Z.to_nat (Z.shiftr n (Z.of_nat t))) with (S (Z.to_nat (2 * m))) in * by lia.
      apply IH; [lia|exact OA|exact AA2|]. rewrite V2, F1. cbn [L_Weil.fm]. rewrite <- AD. reflexivity.
    + replace (Z.to_nat (Z.shiftr n (Z.of_nat t))) with (Z.to_nat (2 * m)) in * by lia. apply IH; [lia|exact OD|exact AD|exact F1].
Qed.
Lemma tate_ok : (1 < n)%Z -> pmul_nat A (Z.to_nat n) (aff P) = None -> exists f, tate_pairing o checks E P Q n = Some f /\ v f = fm A (aff P) (Some (x, y)) (Z.to_nat n).
Proof.
  intros Hn O. unfold tate_pairing. replace (n =? 0)%Z with false by (symmetry; apply Z.eqb_neq; lia). cbn [andb].
  assert (B1 : Z.shiftr n (Z.of_nat (Nat.pred (big_bits n))) = 1%Z).
  { unfold big_bits. replace (n =? 0)%Z with false by (symmetry; apply Z.eqb_neq; lia). pose proof (Z.log2_nonneg n) as L0. replace (Z.of_nat (Nat.pred (Z.to_nat (Z.log2 n + 1)))) with (Z.log2 n) by lia.
    rewrite Z.shiftr_div_pow2 by exact L0. pose proof (Z.log2_spec n ltac:(lia)) as [S1 S2]. rewrite Z.pow_succ_r in S2 by exact L0. symmetry. apply (Z.div_unique n _ 1 (n - 2 ^ Z.log2 n)); lia. }
  destruct (miller_loop_ok (Nat.pred (big_bits n)) ltac:(lia) ltac:(lia) (fone o) P OP) as (f & V & -> & OV & AV & Vf).
  - rewrite B1. reflexivity.
  - rewrite B1. change (Z.to_nat 1) with 1%nat. cbn [L_Weil.fm S_Curve.pmul_nat L_Weil.hv L_Weil.hh]. rewrite (l_one _ _ _ _ _ _ _ _ _ _ _ L). ring.
  - cbv iota beta. rewrite O in AV. rewrite (proj2 (isinfinity_ok L V) AV). cbn [negb]. rewrite andb_false_r. rewrite (l_is0 _ _ _ _ _ _ _ _ _ _ _ L), Vf.
    pose proof (fm_nz FT keq_ok two_nz (aff P) (Some (x, y)) (Z.to_nat n) OP HQ D) as NZ. destruct (keqP L (fm A (aff P) (Some (x, y)) (Z.to_nat n)) 0) as [Z0|_]; [contradiction|]. exists f. auto.
Qed.
End Loop.
Lemma weil_prefix checks E P Q n x1 y1 x2 y2 : wfc E -> onc E P -> onc E Q -> aff P = Some (x1, y1) -> aff Q = Some (x2, y2) -> (1 < n)%Z -> prefix_ok (AA E) n (aff P) -> prefix_ok (AA E) n (aff Q) ->
  pmul_nat (AA E) (Z.to_nat n) (aff P) = None -> pmul_nat (AA E) (Z.to_nat n) (aff Q) = None ->
  (forall k, xdis (pmul_nat (AA E) k (aff P)) (aff Q)) -> (forall k, xdis (pmul_nat (AA E) k (aff Q)) (aff P)) ->
  exists w, weil_pairing o checks E P Q n = Some w /\ v w = wp (AA E) (Z.to_nat n) (aff P) (aff Q).
Proof.
  intros W OP OQ EP EQ Hn X1 X2 N1 N2 D1 D2. assert (HP : on (AA E) (Some (x1, y1))) by (rewrite <- EP; exact OP). assert (HQ : on (AA E) (Some (x2, y2))) by (rewrite <- EQ; exact OQ).
  rewrite EQ in D1. rewrite EP in D2.
  destruct (tate_ok checks E W P Q OP n x2 y2 EQ HQ X1 D1 Hn N1) as (f & Ef & Vf). destruct (tate_ok checks E W Q P OQ n x1 y1 EP HP X2 D2 Hn N2) as (g & Eg & Vg).
  pose proof (fm_nz FT keq_ok two_nz (aff Q) (Some (x1, y1)) (Z.to_nat n) OQ HP D2) as NZ.
  unfold weil_pairing. rewrite Ef, Eg. eexists. split; [reflexivity|]. unfold L_Weil.wp. rewrite EP, EQ in *. rewrite Z.bit0_odd.
  assert (Od : Nat.odd (Z.to_nat n) = Z.odd n). { rewrite <- (Z2Nat.id n) at 2 by lia. generalize (Z.to_nat n). clear. induction n; [reflexivity|]. rewrite Nat2Z.inj_succ, Z.odd_succ, Nat.odd_succ, <- Z.negb_odd, <- Nat.negb_odd, IHn. reflexivity. }
  rewrite Od. destruct (Z.odd n); cbn [sg]; vs; rewrite Vf, Vg; field; exact NZ.
Qed.
Lemma weil_ok checks E P Q n x1 y1 x2 y2 : wfc E -> onc E P -> onc E Q -> aff P = Some (x1, y1) -> aff Q = Some (x2, y2) -> (1 < n)%Z ->
  (forall k, (0 < k < Z.to_nat n)%nat -> pmul_nat (AA E) k (aff P) <> None) -> (forall k, (0 < k < Z.to_nat n)%nat -> pmul_nat (AA E) k (aff Q) <> None) ->
  pmul_nat (AA E) (Z.to_nat n) (aff P) = None -> pmul_nat (AA E) (Z.to_nat n) (aff Q) = None ->
  (forall k, xdis (pmul_nat (AA E) k (aff P)) (aff Q)) -> (forall k, xdis (pmul_nat (AA E) k (aff Q)) (aff P)) ->
  exists w, weil_pairing o checks E P Q n = Some w /\ v w = wp (AA E) (Z.to_nat n) (aff P) (aff Q).
Proof. intros W OP OQ EP EQ Hn X1 X2. apply (weil_prefix checks E P Q n x1 y1 x2 y2 W OP OQ EP EQ Hn); apply exact_prefix; assumption. Qed.
(** orders that are powers of two: only doublings, so fewer points have to be avoided *)
Local Notation fd A := (L_Weil2.fd (k1 := k1) (kadd := kadd) (kmul := kmul) (ksub := ksub) (kopp := kopp) (kdiv := kdiv) (keq := keq) (A := A)).
Section Loop2.
Context (checks : bool) (E : curve F) (W : wfc E) (P Q : point F) (OP : onc E P) (k : nat).
Context (x y : K) (EQ : aff Q = Some (x, y)) (HQ : on (AA E) (Some (x, y))).
Local Notation A := (AA E).
Context (ex : forall i, (i < k)%nat -> pmul_nat A (2 ^ i) (aff P) <> None) (D : forall i, (i < k)%nat -> xdis (pmul_nat A (2 ^ S i) (aff P)) (Some (x, y))).
Let SM : A * A <> 4 := proj2 W.
Lemma miller2_ok t : (t <= k)%nat -> forall f V, onc E V -> aff V = pmul_nat A (2 ^ (k - t)) (aff P) -> v f = fd A (aff P) (Some (x, y)) (k - t) ->
  exists f' V', miller_loop o checks E P Q (2 ^ Z.of_nat k) t f V = Some (f', V') /\ onc E V' /\ aff V' = pmul_nat A (2 ^ k) (aff P) /\ v f' = fd A (aff P) (Some (x, y)) k.
Proof.
  induction t as [|t IH]; intros Ht f V OV AV Vf.
  - cbn [miller_loop]. rewrite Nat.sub_0_r in *. exists f, V. auto.
  - cbn [miller_loop]. set (i := (k - S t)%nat) in *. assert (Ei : (k - t)%nat = S i) by (unfold i; lia). rewrite Ei in IH.
    rewrite Z.pow2_bits_false by lia.
    assert (AD : aff (double_pt o E V) = pmul_nat A (2 ^ S i) (aff P)) by (rewrite (double_ok L) by exact OV; rewrite AV; apply (dbl FT keq_ok two_nz SM); exact OP).
    assert (OD : onc E (double_pt o E V)) by (apply (double_on L); assumption).
    assert (NV : aff V <> None) by (rewrite AV; apply ex; unfold i; lia). destruct (aff V) as [p|] eqn:AV'; [|contradiction].
    destruct (miller_factor_ok checks E (fsq o f) V V (double_pt o E V) Q p p x y OV OV OD AV' AV' EQ) as (f1 & -> & V1).
    + rewrite (double_ok L) by exact OV. rewrite AV'. reflexivity.
    + rewrite AD. apply D. unfold i. lia.
    + apply IH; [lia|exact OD|exact AD|]. rewrite V1. cbn [L_Weil2.fd]. vs. rewrite Vf, <- AV. reflexivity.
Qed.
Lemma tate2_ok : (0 < k)%nat -> pmul_nat A (2 ^ k) (aff P) = None -> exists f, tate_pairing o checks E P Q (2 ^ Z.of_nat k) = Some f /\ v f = (let z := fd A (aff P) (Some (x, y)) k in if keq z 0 then 1 else z).
Proof.
  intros Hk O. assert (P0 : (0 < 2 ^ Z.of_nat k)%Z) by (apply Z.pow_pos_nonneg; lia). unfold tate_pairing, big_bits. replace (2 ^ Z.of_nat k =? 0)%Z with false by (symmetry; apply Z.eqb_neq; lia). cbn [andb].
  rewrite Z.log2_pow2 by lia. replace (Nat.pred (Z.to_nat (Z.of_nat k + 1))) with k by lia.
  destruct (miller2_ok k (le_n k) (fone o) P OP) as (f & V & -> & OV & AV & Vf).
  - rewrite Nat.sub_diag. change (2 ^ 0)%nat with 1%nat. cbn [S_Curve.pmul_nat]. rewrite padd_0_l. reflexivity.
  - rewrite Nat.sub_diag. cbn [L_Weil2.fd]. apply (l_one _ _ _ _ _ _ _ _ _ _ _ L).
  - cbv iota beta zeta. rewrite O in AV. rewrite (proj2 (isinfinity_ok L V) AV). cbn [negb]. rewrite andb_false_r. rewrite (l_is0 _ _ _ _ _ _ _ _ _ _ _ L), Vf.
    destruct (keqP L (fd A (aff P) (Some (x, y)) k) 0) as [Z0|_]; eexists; (split; [reflexivity|]); [apply (l_one _ _ _ _ _ _ _ _ _ _ _ L)|exact Vf].
Qed.
End Loop2.
(** two points of order 2^k that pair to 1 *)
Lemma weil2_one checks E P Q k x1 y1 x2 y2 : wfc E -> onc E P -> onc E Q -> aff P = Some (x1, y1) -> aff Q = Some (x2, y2) -> (0 < k)%nat ->
  (forall i, (i < k)%nat -> pmul_nat (AA E) (2 ^ i) (aff P) <> None) -> (forall i, (i < k)%nat -> pmul_nat (AA E) (2 ^ i) (aff Q) <> None) ->
  pmul_nat (AA E) (2 ^ k) (aff P) = None -> pmul_nat (AA E) (2 ^ k) (aff Q) = None ->
  (forall i, (i < k)%nat -> xdis (pmul_nat (AA E) (2 ^ S i) (aff P)) (aff Q)) -> (forall i, (i < k)%nat -> xdis (pmul_nat (AA E) (2 ^ S i) (aff Q)) (aff P)) ->
  fd (AA E) (aff P) (aff Q) k = fd (AA E) (aff Q) (aff P) k ->
  exists w, weil_pairing o checks E P Q (2 ^ Z.of_nat k) = Some w /\ v w = 1.
Proof.
  intros W OP OQ EP EQ Hk X1 X2 N1 N2 D1 D2 FE. assert (HP : on (AA E) (Some (x1, y1))) by (rewrite <- EP; exact OP). assert (HQ : on (AA E) (Some (x2, y2))) by (rewrite <- EQ; exact OQ).
  rewrite EQ in D1. rewrite EP in D2.
  destruct (tate2_ok checks E W P Q OP k x2 y2 EQ X1 D1 Hk N1) as (f & Ef & Vf). destruct (tate2_ok checks E W Q P OQ k x1 y1 EP X2 D2 Hk N2) as (g & Eg & Vg).
  cbv zeta in Vf, Vg. rewrite EP, EQ in *. rewrite <- FE in Vg. set (z := fd (AA E) (Some (x1, y1)) (Some (x2, y2)) k) in *.
  assert (NZ : (if keq z 0 then 1 else z) <> 0) by (destruct (keqP L z 0); [exact (F_1_neq_0 FT)|assumption]).
  unfold weil_pairing. rewrite Ef, Eg. eexists. split; [reflexivity|]. rewrite Z.pow2_bits_false by lia. vs. rewrite Vf, Vg. field. exact NZ.
Qed.
(** ** Odd order, second argument the opposite of the first: the last vertical vanishes and the value is replaced by one *)
Section Opp.
Context (checks : bool) (E : curve F) (W : wfc E) (P T : point F) (OP : onc E P) (n : Z) (Hn : (1 < n)%Z) (On : Z.odd n = true).
Local Notation A := (AA E).
Context (x y y' : K) (EP : aff P = Some (x, y)) (ET : aff T = Some (x, y')) (ord : pmul_nat A (Z.to_nat n) (aff P) = None).
Let SM : A * A <> 4 := proj2 W.
Lemma miller_opp t : (0 < Z.shiftr n (Z.of_nat (S t)))%Z -> forall f V f' V', onc E V -> aff V = pmul_nat A (Z.to_nat (Z.shiftr n (Z.of_nat (S t)))) (aff P) ->
  miller_loop o checks E P T n (S t) f V = Some (f', V') -> v f' = 0.
Proof.
  induction t as [|t IH]; intros Ht f V f' V' OV AV; cbn [miller_loop].
  - change (Z.testbit n (Z.of_nat 0)) with (Z.testbit n 0). rewrite Z.bit0_odd, On. destruct (miller_factor o checks E (fsq o f) V V (double_pt o E V) T) as [f1|] eqn:E1; [|discriminate]. clear E1.
    pose proof (shiftr_bit n 0 ltac:(lia)) as B. change (Z.of_nat 0) with 0%Z in B. rewrite Z.shiftr_0_r, Z.bit0_odd, On in B. cbn [Z.b2z] in B. set (m := Z.shiftr n (Z.of_nat 1)) in *.
    assert (OD : onc E (double_pt o E V)) by (apply (double_on L); assumption).
    assert (AD : aff (double_pt o E V) = pmul_nat A (Z.to_nat (n - 1)) (aff P)).
    { rewrite (double_ok L) by exact OV. rewrite AV. replace (Z.to_nat (n - 1)) with (Z.to_nat m + Z.to_nat m)%nat by lia. symmetry. apply (pmul_nat_add FT keq_ok two_nz SM). exact OP. }
    assert (AN : aff (double_pt o E V) = Some (x, - y)).
    { rewrite AD. assert (S1 : padd A (pmul_nat A (Z.to_nat (n - 1)) (aff P)) (aff P) = None) by (rewrite <- pmul_nat_S; replace (S (Z.to_nat (n - 1))) with (Z.to_nat n) by lia; exact ord).
      pose proof (padd_None FT keq_ok two_nz _ _ (pmul_nat_on FT keq_ok two_nz _ _ OP) OP S1) as S2. rewrite <- (popp_invol FT (pmul_nat A _ _)), <- S2, EP. reflexivity. }
    unfold miller_factor. destruct (eval_line_ok checks E (double_pt o E V) P T _ _ _ _ OD OP AN EP ET) as (l & -> & Vl).
    unfold L_Weil.line in Vl. rewrite !(kt L) in Vl. assert (L0 : v l = 0) by (rewrite Vl; ring).
    assert (Z0 : forall d, v (fdiv o (fmul o f1 l) d) = 0) by (intros d; vs; rewrite L0, (Fdiv_def FT); ring).
    destruct (negb _); [destruct (eval_line o checks E _ _ T) as [d|]; [|discriminate]|]; intros H; injection H as <- <-; apply Z0.
  - pose proof (shiftr_bit n (S t) ltac:(lia)) as B. set (m := Z.shiftr n (Z.of_nat (S (S t)))) in *.
    assert (OD : onc E (double_pt o E V)) by (apply (double_on L); assumption).
    assert (AD : aff (double_pt o E V) = pmul_nat A (Z.to_nat (2 * m)) (aff P)).
    { rewrite (double_ok L) by exact OV. rewrite AV. replace (Z.to_nat (2 * m)) with (Z.to_nat m + Z.to_nat m)%nat by lia. symmetry. apply (pmul_nat_add FT keq_ok two_nz SM). exact OP. }
    destruct (miller_factor o checks E (fsq o f) V V (double_pt o E V) T) as [f1|]; [|discriminate]. destruct (Z.testbit n (Z.of_nat (S t))) eqn:Bt; cbn [Z.b2z] in B.
    + destruct (miller_factor o checks E f1 _ P _ T) as [f2|]; [|discriminate]. apply IH; [lia|apply (add_on L); assumption|].
      rewrite (add_ok L) by assumption. rewrite AD, <- pmul_nat_S. f_equal. lia.
    + apply IH; [lia|exact OD|]. rewrite AD. f_equal. lia.
Qed.
Lemma bits_top m : (0 < m)%Z -> (2 ^ Z.of_nat (Nat.pred (big_bits m)) <= m < 2 * 2 ^ Z.of_nat (Nat.pred (big_bits m)))%Z.
Proof.
  intros Hm. unfold big_bits. destruct (Z.eqb_spec m 0); [lia|]. pose proof (Z.log2_spec m Hm) as [B1 B2]. pose proof (Z.log2_nonneg m). replace (Z.of_nat (Nat.pred (Z.to_nat (Z.log2 m + 1)))) with (Z.log2 m) by lia. rewrite Z.pow_succ_r in B2 by lia. lia.
Qed.
Lemma tate_opp r : tate_pairing o checks E P T n = Some r -> v r = 1.
Proof.
  unfold tate_pairing. destruct (Z.eqb_spec n 0); [lia|]. cbn [andb]. destruct (miller_loop o checks E P T n (Nat.pred (big_bits n)) (fone o) P) as [[f V]|] eqn:EM; [|discriminate].
  assert (Z0 : v f = 0).
  { pose proof (bits_top n ltac:(lia)) as [B1 B2]. destruct (Nat.pred (big_bits n)) as [|t] eqn:Ep; [exfalso; cbn in B2; lia|].
    apply (miller_opp t) in EM; auto.
    - rewrite Z.shiftr_div_pow2 by lia. apply Z.div_str_pos. split; [apply Z.pow_pos_nonneg; lia|exact B1].
    - replace (Z.shiftr n (Z.of_nat (S t))) with 1%Z; [rewrite EP; reflexivity|]. rewrite Z.shiftr_div_pow2 by lia. apply (Z.div_unique _ _ 1 (n - 2 ^ Z.of_nat (S t))); [left; lia|lia]. }
  destruct (_ && _); [discriminate|]. vs. rewrite Z0, (kt L). intros H. injection H as <-. vs. reflexivity.
Qed.
End Opp.
Lemma weil_opp checks E P T n x y y' w : wfc E -> onc E P -> onc E T -> (1 < n)%Z -> Z.odd n = true -> aff P = Some (x, y) -> aff T = Some (x, y') -> pmul_nat (AA E) (Z.to_nat n) (aff P) = None -> pmul_nat (AA E) (Z.to_nat n) (aff T) = None ->
  weil_pairing o checks E P T n = Some w -> v w = - k1.
Proof.
  intros W OP OT Hn On EP ET O1 O2. unfold weil_pairing. destruct (tate_pairing o checks E P T n) as [a|] eqn:Ea; [|discriminate]. destruct (tate_pairing o checks E T P n) as [b|] eqn:Eb; [|discriminate].
  apply (tate_opp checks E W P T OP n Hn On x y y' EP ET O1) in Ea. apply (tate_opp checks E W T P OT n Hn On x y' y ET EP O2) in Eb.
  rewrite Z.bit0_odd, On. intros H. injection H as <-. vs. rewrite Ea, Eb. field. exact (F_1_neq_0 FT).
Qed.
(** ** A point of order 2 paired as if it had order 4: the loop runs into the point at infinity *)
Lemma tate4_checks E P Q x : wfc E -> onc E P -> aff P = Some (x, 0) -> tate_pairing o true E P Q 4 = None.
Proof.
  intros W OP EP. unfold tate_pairing. change (4 =? 0)%Z with false. cbn [andb]. change (Nat.pred (big_bits 4)) with 2%nat. cbn [miller_loop]. change (Z.testbit 4 (Z.of_nat 1)) with false. change (Z.testbit 4 (Z.of_nat 0)) with false. cbv iota.
  destruct (miller_factor o true E (fsq o (fone o)) P P (double_pt o E P) Q) as [f|]; [|reflexivity].
  assert (D0 : aff (double_pt o E P) = None) by (rewrite (double_ok L) by exact OP; rewrite EP; cbn [S_Curve.padd]; rewrite (kt L); destruct (keqP L 0 (- (0))) as [_|N]; [reflexivity|exfalso; apply N; ring]).
  apply (isinfinity_ok L) in D0. unfold miller_factor, eval_line. destruct (to_xy o (double_pt o E P)) as [a b]. destruct (to_xyz Q) as [[c d] e]. rewrite D0. reflexivity.
Qed.
Lemma tate4_release E P Q x a b : wfc E -> onc E P -> aff P = Some (x, 0) -> aff Q = Some (a, b) -> a <> x -> a <> 0 -> exists f, tate_pairing o false E P Q 4 = Some f /\ v f = (a - x) * (a - x) * a.
Proof.
  intros W OP EP EQ N N0. unfold tate_pairing. change (4 =? 0)%Z with false. cbn [andb]. change (Nat.pred (big_bits 4)) with 2%nat. cbn [miller_loop]. change (Z.testbit 4 (Z.of_nat 1)) with false. change (Z.testbit 4 (Z.of_nat 0)) with false. cbv iota.
  pose proof (affk_inv L _ _ _ _ _ EQ) as (ZQ & XQ & YQ).
  assert (D0 : aff (double_pt o E P) = None) by (rewrite (double_ok L) by exact OP; rewrite EP; cbn [S_Curve.padd]; rewrite (kt L); destruct (keqP L 0 (- (0))) as [_|NN]; [reflexivity|exfalso; apply NN; ring]).
  assert (OD : onc E (double_pt o E P)) by (apply (double_on L); assumption).
  assert (D1 : aff (double_pt o E (double_pt o E P)) = None) by (rewrite (double_ok L) by exact OD; rewrite D0; reflexivity).
  destruct (miller_factor_ok false E (fsq o (fone o)) P P (double_pt o E P) Q _ _ a b OP OP OD EP EP EQ) as (f1 & -> & V1); [rewrite (double_ok L) by exact OP; rewrite EP; reflexivity|rewrite D0; exact I|].
  assert (F1 : v f1 = a - x). { rewrite V1. unfold L_Weil.hh. rewrite <- EP, <- (double_ok L), D0 by exact OP. unfold L_Weil.line. rewrite (kt L). destruct (keqP L 0 (- (0))) as [_|NN]; [|exfalso; apply NN; ring]. vs. field. exact (F_1_neq_0 FT). }
  unfold miller_factor at 1, eval_line at 1. pose proof (to_xy_ok L (double_pt o E P)) as T. rewrite D0 in T. destruct (to_xy o (double_pt o E P)) as [c d]. cbn [fst snd] in T. destruct T as [Tc Td]. unfold to_xyz. cbn [andb].
  rewrite (proj2 (p_equals_ok L _ _) eq_refl). rewrite (l_is0 _ _ _ _ _ _ _ _ _ _ _ L), Td, (kt L). rewrite (proj2 (isinfinity_ok L _) D1). cbn [negb]. cbv iota beta.
  assert (VF : v (fdiv o (fmul o (fsq o f1) (fadd o (pX Q) (fmul o (fneg o c) (pZ Q)))) (pZ Q)) = (a - x) * (a - x) * a) by (vs; rewrite F1, Tc, XQ; field; exact ZQ).
  rewrite (l_is0 _ _ _ _ _ _ _ _ _ _ _ L), VF. destruct (keqP L ((a - x) * (a - x) * a) 0) as [Z0|_]; [|eexists; split; [reflexivity|exact VF]].
  exfalso. revert Z0. apply (mulr_nz FT keq_ok); [apply (mulr_nz FT keq_ok); apply (sub_nz FT); exact N|exact N0].
Qed.
(** ** The loop never panics on a first point of exact order n, whatever the second point *)
Lemma eval_line_total checks E P Q R : aff P <> None -> aff Q <> None -> exists l, eval_line o checks E P Q R = Some l.
Proof.
  intros N1 N2. unfold eval_line. destruct (to_xy o P) as [Px Py]. destruct (to_xy o Q) as [Qx Qy]. destruct (to_xyz R) as [[Rx Ry] Rz].
  assert (I1 : isinfinity o P = false) by (destruct (isinfinity o P) eqn:I1; [apply (isinfinity_ok L) in I1; contradiction|reflexivity]). assert (I2 : isinfinity o Q = false) by (destruct (isinfinity o Q) eqn:I2; [apply (isinfinity_ok L) in I2; contradiction|reflexivity]).
  rewrite I1, I2. cbn [negb andb]. rewrite andb_false_r. destruct (p_equals o P Q); [destruct (fis0 o Py)|destruct (p_equals o P (p_neg o Q))]; eexists; reflexivity.
Qed.
Lemma miller_factor_total checks E f V W S Q : aff V <> None -> aff W <> None -> exists g, miller_factor o checks E f V W S Q = Some g.
Proof.
  intros N1 N2. unfold miller_factor. destruct (eval_line_total checks E V W Q N1 N2) as [l ->]. destruct (isinfinity o S) eqn:IS; cbn [negb]; [eexists; reflexivity|].
  assert (NS : aff S <> None) by (intros E0; apply (isinfinity_ok L) in E0; congruence). assert (NO : aff (p_neg o S) <> None) by (rewrite (aff_neg L); destruct (aff S) as [[]|]; [discriminate|contradiction]).
  destruct (eval_line_total checks E S (p_neg o S) Q NS NO) as [d ->]. eexists; reflexivity.
Qed.
Section Total.
Context (checks : bool) (E : curve F) (W : wfc E) (P Q : point F) (OP : onc E P) (n : Z).
Local Notation A := (AA E).
Context (ex : forall k, (0 < k < Z.to_nat n)%nat -> pmul_nat A k (aff P) <> None).
Let SM : A * A <> 4 := proj2 W.
Lemma miller_total t : (0 <= n)%Z -> (0 < Z.shiftr n (Z.of_nat t))%Z -> forall f V, onc E V -> aff V = pmul_nat A (Z.to_nat (Z.shiftr n (Z.of_nat t))) (aff P) ->
  exists f' V', miller_loop o checks E P Q n t f V = Some (f', V') /\ aff V' = pmul_nat A (Z.to_nat n) (aff P).
Proof.
  intros Hn. induction t as [|t IH]; intros Ht f V OV AV.
  - cbn [miller_loop]. change (Z.of_nat 0) with 0%Z in *. rewrite Z.shiftr_0_r in *. exists f, V. auto.
  - cbn [miller_loop]. set (m := Z.shiftr n (Z.of_nat (S t))) in *. pose proof (shiftr_bit n t Hn) as B. fold m in B. pose proof (shiftr_le n t Hn) as Lt.
    assert (b01 : (0 <= Z.b2z (Z.testbit n (Z.of_nat t)) <= 1)%Z) by (destruct (Z.testbit n (Z.of_nat t)); cbn; lia).
    assert (AD : aff (double_pt o E V) = pmul_nat A (Z.to_nat (2 * m)) (aff P)).
    { rewrite (double_ok L) by exact OV. rewrite AV. replace (Z.to_nat (2 * m)) with (Z.to_nat m + Z.to_nat m)%nat by lia. symmetry. apply (pmul_nat_add FT keq_ok two_nz SM). exact OP. }
    assert (OD : onc E (double_pt o E V)) by (apply (double_on L); assumption). assert (NV : aff V <> None) by (rewrite AV; apply ex; lia).
    destruct (miller_factor_total checks E (fsq o f) V V (double_pt o E V) Q NV NV) as [f1 ->]. destruct (Z.testbit n (Z.of_nat t)) eqn:Bt; cbn [Z.b2z] in B.
    + assert (NP : aff P <> None) by (apply (ex 1%nat); lia). assert (ND : aff (double_pt o E V) <> None) by (rewrite AD; apply ex; lia).
      destruct (miller_factor_total checks E f1 (double_pt o E V) P (add_pts o E (double_pt o E V) P) Q ND NP) as [f2 ->]. apply IH; [lia|apply (add_on L); assumption|].
      rewrite (add_ok L) by assumption. rewrite AD, <- pmul_nat_S. f_equal. lia.
    + apply IH; [lia|exact OD|]. rewrite AD. f_equal. lia.
Qed.
Lemma tate_total : (1 < n)%Z -> pmul_nat A (Z.to_nat n) (aff P) = None -> exists f, tate_pairing o checks E P Q n = Some f.
Proof.
  intros Hn O. unfold tate_pairing. replace (n =? 0)%Z with false by (symmetry; apply Z.eqb_neq; lia). cbn [andb].
  assert (B1 : Z.shiftr n (Z.of_nat (Nat.pred (big_bits n))) = 1%Z).
  { unfold big_bits. replace (n =? 0)%Z with false by (symmetry; apply Z.eqb_neq; lia). pose proof (Z.log2_nonneg n) as L0. replace (Z.of_nat (Nat.pred (Z.to_nat (Z.log2 n + 1)))) with (Z.log2 n) by lia.
    rewrite Z.shiftr_div_pow2 by exact L0. pose proof (Z.log2_spec n ltac:(lia)) as [S1 S2]. rewrite Z.pow_succ_r in S2 by exact L0. symmetry. apply (Z.div_unique n _ 1 (n - 2 ^ Z.log2 n)); lia. }
  destruct (miller_total (Nat.pred (big_bits n)) ltac:(lia) ltac:(lia) (fone o) P OP) as (f & V & -> & AV); [rewrite B1; reflexivity|]. cbv iota beta. rewrite O in AV. rewrite (proj2 (isinfinity_ok L V) AV). cbn [negb]. rewrite andb_false_r. destruct (fis0 o f); eexists; reflexivity.
Qed.
End Total.
Lemma weil_total checks E P Q n : wfc E -> onc E P -> onc E Q -> (1 < n)%Z ->
  (forall k, (0 < k < Z.to_nat n)%nat -> pmul_nat (AA E) k (aff P) <> None) -> (forall k, (0 < k < Z.to_nat n)%nat -> pmul_nat (AA E) k (aff Q) <> None) ->
  pmul_nat (AA E) (Z.to_nat n) (aff P) = None -> pmul_nat (AA E) (Z.to_nat n) (aff Q) = None -> exists w, weil_pairing o checks E P Q n = Some w.
Proof.
  intros W OP OQ Hn X1 X2 N1 N2. unfold weil_pairing. destruct (tate_total checks E W P Q OP n X1 Hn N1) as [a ->]. destruct (tate_total checks E W Q P OQ n X2 Hn N2) as [b ->]. eexists. reflexivity.
Qed.
End Pairing.
