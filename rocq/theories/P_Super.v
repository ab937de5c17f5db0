(** C32-C34, C53, C54: cofactors, order tests, torsion points and bases (src/supersingular.rs:16-239). *)
From Coq Require Import Arith ZArith List Bool Lia Ring Field Znumtheory.
From Verif Require Import S_Fp S_Fp2 S_Curve S_Params M_Fp M_Fp2 M_Field M_Curve M_Consts M_Dlog M_Pairing M_Super L_Words L_FpCodec L_Zp L_Zp2 L_Fp L_Fp2 L_Fp2Roots L_Fp2Misc L_Group L_Kummer L_Field L_QNum L_Curve L_Dlog L_Super L_Weil L_Pairing P_Fp2 P_Params P_Curve.
Import ListNotations.
Open Scope Z_scope.

(** ** Multiples of points of a curve *)
Section Mult.
Context {E : curve fq} (V : valid E).
Notation A := (coeff E).
Lemma pm_on n p : on_q A p -> 0 <= n -> on_q A (pmul_q A n p).
Proof. intros H Hn. unfold pmul_q. rewrite pmul_to_nat by lia. apply (pmul_nat_on Zq_field qeqb_true q2_nz). exact H. Qed.
Lemma pm_1 p : pmul_q A 1 p = p. Proof. reflexivity. Qed.
Lemma pm_O n : 0 <= n -> pmul_q A n None = None.
Proof. intros Hn. unfold pmul_q. rewrite pmul_to_nat by lia. apply pmul_nat_None. Qed.
Lemma pm_mul a b p : on_q A p -> 0 <= a -> 0 <= b -> pmul_q A a (pmul_q A b p) = pmul_q A (a * b) p.
Proof. intros H Ha Hb. unfold pmul_q. rewrite !pmul_to_nat, Z2Nat.inj_mul by lia. symmetry. apply (pmul_nat_mul Zq_field qeqb_true q2_nz (valid_smooth E V)). exact H. Qed.
Lemma pm_add a b p : on_q A p -> 0 <= a -> 0 <= b -> pmul_q A (a + b) p = padd_q A (pmul_q A a p) (pmul_q A b p).
Proof. intros H Ha Hb. unfold pmul_q. rewrite !pmul_to_nat, Z2Nat.inj_add by lia. apply (pmul_nat_add Zq_field qeqb_true q2_nz (valid_smooth E V)). exact H. Qed.
Lemma pm_zero_mul p a b : on_q A p -> 0 <= a -> 0 <= b -> pmul_q A a p = None -> pmul_q A (a * b) p = None.
Proof. intros H Ha Hb Z0. rewrite Z.mul_comm, <- pm_mul by auto. rewrite Z0. apply pm_O, Hb. Qed.
Lemma pm_zero_gcd p a b : on_q A p -> 0 <= a -> 0 <= b -> pmul_q A a p = None -> pmul_q A b p = None -> pmul_q A (Z.gcd a b) p = None.
Proof.
  intros H. apply (gcd_closed (fun k => pmul_q A k p = None)). intros c q r Hc Hq Hr Zc Zs. rewrite pm_add in Zs by (auto; nia). rewrite (pm_zero_mul p c q) in Zs by auto. exact Zs.
Qed.
End Mult.
Lemma cof_div fs i l e : Forall (fun le => 0 < fst le /\ 1 <= snd le <= 2 ^ 32) fs -> nth_error fs i = Some (l, e) -> cof fs i = zprod (map bpow fs) / l.
Proof.
  intros H E. rewrite <- (cof_eq fs i l e); [rewrite Z.div_mul; [reflexivity|]|eapply Forall_impl; [|exact H]; cbn; tauto|exact E].
  apply nth_error_In in E. rewrite Forall_forall in H. apply H in E. cbn in E. lia.
Qed.
(** the order with the given factorisation *)
Definition order_of (fs : list (Z * Z)) : Z := fold_right Z.mul 1 (map (fun le => fst le ^ snd le) fs).
Definition entries (fs : list (Z * Z)) : Prop := fs <> [] /\ Forall (fun le => 0 < fst le /\ 1 <= snd le <= 2 ^ 32) fs.
Definition prime_entries (fs : list (Z * Z)) : Prop := fs <> [] /\ Forall (fun le => prime (fst le) /\ 1 <= snd le <= 2 ^ 32) fs.
Lemma prime_entries_ok fs : prime_entries fs -> entries fs.
Proof. intros [N H]. split; [exact N|]. eapply Forall_impl; [|exact H]. cbn. intros [l e] [[A _] B]. cbn in *. lia. Qed.
Lemma order_unf fs : unfactored fs = order_of fs. Proof. exact (unfactored_zprod fs). Qed.
Lemma order_pos fs : entries fs -> 0 < order_of fs.
Proof. intros [_ H]. apply zprod_pos. rewrite Forall_map. eapply Forall_impl; [|exact H]. intros [l e] [A B]. cbn [fst snd] in *. apply Z.pow_pos_nonneg; lia. Qed.

Lemma pe1 l : prime l -> prime_entries [(l, 1)].
Proof. intros H. split; [discriminate|]. constructor; [|constructor]. cbn [fst snd]. split; [exact H|lia]. Qed.

(** ** C32 *)
Theorem C32_clear_cofactor : forall E P k e, valid E -> on_E E P -> 0 <= k -> (2 ^ Z.of_nat e | k) ->
  exists R, clear_cofactor fq_ops E P k e = Some R /\ on_E E R /\ affine R = pmul_q (coeff E) k (affine P).
Proof.
  intros E P k e V HP Hk [c Ec]. unfold clear_cofactor. destruct (C30_double_iter E P e V HP) as [HO HA].
  assert (H2 : 0 < 2 ^ Z.of_nat e) by (apply Z.pow_pos_nonneg; lia). rewrite Z.shiftr_div_pow2 by lia. rewrite Ec, Z.div_mul by lia.
  assert (Hc : 0 <= c) by nia. destruct (C31_mul_big E _ c V HO Hc) as (R & ER & OR & AR). exists R. split; [exact ER|]. split; [exact OR|]. rewrite AR, HA. apply (pm_mul V); auto; lia.
Qed.
(** without the divisibility the low bits of k are dropped *)
Theorem C32_general : forall E P k e, valid E -> on_E E P -> 0 <= k ->
  exists R, clear_cofactor fq_ops E P k e = Some R /\ on_E E R /\ affine R = pmul_q (coeff E) (k - k mod 2 ^ Z.of_nat e) (affine P).
Proof.
  intros E P k e V HP Hk. assert (H2 : 0 < 2 ^ Z.of_nat e) by (apply Z.pow_pos_nonneg; lia). pose proof (Z.div_mod k (2 ^ Z.of_nat e) ltac:(lia)) as DM. pose proof (Z.mod_pos_bound k _ H2).
  assert (Hd : 0 <= k / 2 ^ Z.of_nat e) by (apply Z.div_pos; lia).
  destruct (C32_clear_cofactor E P (k - k mod 2 ^ Z.of_nat e) e V HP) as (R & ER & OR & AR); [nia|exists (k / 2 ^ Z.of_nat e); lia|].
  exists R. split; [|split; [exact OR|exact AR]]. rewrite <- ER. unfold clear_cofactor. f_equal. rewrite !Z.shiftr_div_pow2 by lia.
  replace (k - k mod 2 ^ Z.of_nat e) with (k / 2 ^ Z.of_nat e * 2 ^ Z.of_nat e) by lia. rewrite Z.div_mul by lia. reflexivity.
Qed.
Example C32_ex : exists R, clear_cofactor fq_ops exE exP 12 2 = Some R /\ affine R = pmul_q (coeff exE) 12 (Some (q2, q4)).
Proof. destruct (C32_clear_cofactor exE exP 12 2 exE_valid exP_on ltac:(lia) ltac:(exists 3; reflexivity)) as (R & E & _ & A). exists R. rewrite exP_affine in A. auto. Qed.
Print Assumptions C32_clear_cofactor.
Print Assumptions C32_general.

(** ** C34 *)
Theorem C34_points : forall E ps G lower upper P, valid E -> Forall (fun p => 0 <= p) ps -> (lower < upper <= length G)%nat -> (upper <= length ps)%nat -> nth_error G lower = Some P -> on_E E P ->
  forall fuel, (upper - lower <= fuel)%nat -> exists G', batch_cofactor_mul (mul_big fq_ops E) fuel G ps lower upper = Some G' /\ length G' = length G /\
    (forall i, (lower <= i < upper)%nat -> exists R, nth_error G' i = Some R /\ on_E E R /\ affine R = pmul_q (coeff E) (others ps lower upper i) (affine P)) /\
    (forall i, (i < lower \/ upper <= i)%nat -> nth_error G' i = nth_error G i).
Proof.
  intros E ps G lo up P V Hps Hb Hl EG HP fuel Hf.
  destruct (batch_ok (mul_big fq_ops E) (on_E E) affine (pmul_q (coeff E))) with (ps := ps) (fuel := fuel) (G := G) (lo := lo) (up := up) (g := P) as (G' & E1 & L & A & B); auto.
  - intros t n Ht Hn. apply (C31_mul_big E t n V Ht Hn).
  - intros t a b Ht Ha Hb'. apply (pm_mul V); auto.
  - exists G'. split; [exact E1|]. split; [exact L|]. split; [|exact B]. intros i Hi. destruct (A i Hi) as (R & ER & OR & AR). exists R. rewrite others_rp by auto. auto.
Qed.
Theorem C34_elements : forall ps G lower upper x, Forall (fun p => 0 <= p) ps -> (lower < upper <= length G)%nat -> (upper <= length ps)%nat -> nth_error G lower = Some x ->
  forall fuel, (upper - lower <= fuel)%nat -> exists G', batch_cofactor_mul (fun v n => Some (fpow fq_ops v n)) fuel G ps lower upper = Some G' /\ length G' = length G /\
    (forall i, (lower <= i < upper)%nat -> exists r, nth_error G' i = Some r /\ fqv r = qpow (fqv x) (others ps lower upper i)) /\
    (forall i, (i < lower \/ upper <= i)%nat -> nth_error G' i = nth_error G i).
Proof.
  intros ps G lo up x Hps Hb Hl EG fuel Hf.
  destruct (batch_ok (fun v n => Some (fpow fq_ops v n)) (fun _ => True) fqv (fun k z => qpow z k)) with (ps := ps) (fuel := fuel) (G := G) (lo := lo) (up := up) (g := x) as (G' & E1 & L & A & B); auto.
  - intros t n _ Hn. eexists. split; [reflexivity|]. split; [exact I|]. rewrite qpow_kpow. apply (l_pow _ _ _ _ _ _ _ _ _ _ _ fq_laws), Hn.
  - intros t _. apply qpow_1.
  - intros t a b _ Ha Hb'. rewrite <- qpow_mul by auto. f_equal. apply Z.mul_comm.
  - exists G'. split; [exact E1|]. split; [exact L|]. split; [|exact B]. intros i Hi. destruct (A i Hi) as (R & ER & _ & AR). exists R. rewrite others_rp by auto. auto.
Qed.
Example C34_ex : exists G', batch_cofactor_mul (mul_big fq_ops exE) 3 [exP; exT; exT] [2; 3; 5] 0 3 = Some G' /\ exists R, nth_error G' 1 = Some R /\ affine R = pmul_q (coeff exE) 10 (Some (q2, q4)).
Proof.
  destruct (C34_points exE [2; 3; 5] [exP; exT; exT] 0 3 exP exE_valid ltac:(repeat constructor; lia) ltac:(cbn; lia) ltac:(cbn; lia) eq_refl exP_on 3%nat ltac:(lia)) as (G' & E & _ & A & _).
  exists G'. split; [exact E|]. destruct (A 1%nat ltac:(lia)) as (R & ER & _ & AR). exists R. split; [exact ER|]. rewrite AR, exP_affine. reflexivity.
Qed.
Print Assumptions C34_points.
Print Assumptions C34_elements.

(** ** C33 *)
Lemma In_cof fs (Pr : Z -> Prop) : entries fs -> (forall l e, In (l, e) fs -> Pr (order_of fs / l)) <-> (forall i, (i < length fs)%nat -> Pr (cof fs i)).
Proof.
  intros [N H]. split.
  - intros A i Hi. destruct (nth_error fs i) as [[l e]|] eqn:Ei; [|apply nth_error_None in Ei; lia]. rewrite (cof_div fs i l e H Ei). apply (A l e), nth_error_In with i. exact Ei.
  - intros A l e I. apply In_nth_error in I as [i Ei]. change (order_of fs) with (zprod (map bpow fs)). rewrite <- (cof_div fs i l e H Ei). apply A, nth_error_Some. congruence.
Qed.
Theorem C33_point_test : forall checks E P fs, valid E -> on_E E P -> entries fs ->
  exists b, point_has_factored_order fq_ops checks E P fs = Some b /\ (b = true <-> forall l e, In (l, e) fs -> pmul_q (coeff E) (order_of fs / l) (affine P) <> None).
Proof.
  intros c E P fs V HP HE. destruct (order_test_ok (mul_big fq_ops E) (on_E E) affine (pmul_q (coeff E))) with (unit := infinity fq_ops) (triv0 := fun G => p_equals fq_ops G (infinity fq_ops)) (triv := isinfinity fq_ops)
    (zero := fun p : pt Zq => p = None) (checks := c) (P := P) (fs := fs) as (b & Eb & Hb); try apply HE; auto.
  - intros t n Ht Hn. apply (C31_mul_big E t n V Ht Hn).
  - intros t a b Ht Ha Hb'. apply (pm_mul V); auto.
  - intros t Ht. rewrite C44_equals, C29_infinity. reflexivity.
  - intros t Ht. apply C44_isinfinity.
  - intros t n Ht Hn ->. apply pm_O, Hn.
  - exists b. split; [exact Eb|]. rewrite Hb. symmetry. apply (In_cof fs (fun k => pmul_q (coeff E) k (affine P) <> None) HE).
Qed.
Theorem C33_element_test : forall checks x fs, entries fs ->
  exists b, has_factored_order fq_ops checks x fs = Some b /\ (b = true <-> forall l e, In (l, e) fs -> qpow (fqv x) (order_of fs / l) <> q1).
Proof.
  intros c x fs HE. destruct (order_test_ok (fun v n => Some (fpow fq_ops v n)) (fun _ => True) fqv (fun k z => qpow z k)) with (unit := fone fq_ops) (triv0 := fun G => feqb fq_ops G (fone fq_ops)) (triv := fun G => feqb fq_ops G (fone fq_ops))
    (zero := fun z => z = q1) (checks := c) (P := x) (fs := fs) as (b & Eb & Hb); try apply HE; auto.
  - intros t n _ Hn. eexists. split; [reflexivity|]. split; [exact I|]. rewrite qpow_kpow. apply (l_pow _ _ _ _ _ _ _ _ _ _ _ fq_laws), Hn.
  - intros t _. apply qpow_1.
  - intros t a b _ Ha Hb'. rewrite <- qpow_mul by auto. f_equal. apply Z.mul_comm.
  - intros t _. rewrite (l_eqb _ _ _ _ _ _ _ _ _ _ _ fq_laws), (l_one _ _ _ _ _ _ _ _ _ _ _ fq_laws). apply qeqb_true.
  - intros t _. rewrite (l_eqb _ _ _ _ _ _ _ _ _ _ _ fq_laws), (l_one _ _ _ _ _ _ _ _ _ _ _ fq_laws). apply qeqb_true.
  - intros t n _ Hn ->. apply qpow_q1.
  - exists b. split; [exact Eb|]. rewrite Hb. symmetry. apply (In_cof fs (fun k => qpow (fqv x) k <> q1) HE).
Qed.
Lemma div_proper fs l e : prime_entries fs -> In (l, e) fs -> 0 <= order_of fs / l /\ ~ (order_of fs | order_of fs / l).
Proof.
  intros HP I. pose proof (prime_entries_ok fs HP) as HE. pose proof (order_pos fs HE) as Hp. apply In_nth_error in I as [i Ei]. destruct HE as [_ HE]. destruct HP as [_ HP].
  assert (C : cof fs i * l = order_of fs) by (apply (cof_eq fs i l e); [eapply Forall_impl; [|exact HE]; cbn; tauto|exact Ei]).
  replace (order_of fs / l) with (cof fs i) by exact (cof_div fs i l e HE Ei).
  apply nth_error_In in Ei. rewrite Forall_forall in HP. apply HP in Ei. cbn in Ei. destruct Ei as [[L _] _]. assert (0 < cof fs i) by nia. split; [lia|]. intros D. apply Z.divide_pos_le in D; [|lia]. nia.
Qed.
(** under [order]P = O, the test decides whether P has exactly the given order *)
Theorem C33_point_order_partial : forall checks E P fs, valid E -> on_E E P -> prime_entries fs -> pmul_q (coeff E) (order_of fs) (affine P) = None ->
  exists b, point_has_factored_order fq_ops checks E P fs = Some b /\ (b = true <-> forall k, 0 <= k -> (pmul_q (coeff E) k (affine P) = None <-> (order_of fs | k))).
Proof.
  intros c E P fs V HP HF HD. destruct (C33_point_test c E P fs V HP (prime_entries_ok fs HF)) as (b & Eb & Hb). exists b. split; [exact Eb|]. rewrite Hb. split.
  - intros A. apply (exact_order (pmul_q (coeff E)) (fun p => p = None) (affine P) fs (proj2 HF)); auto.
    + intros x y Hx Hy. apply (pm_zero_mul V); auto.
    + intros x y Hx Hy. apply (pm_zero_gcd V); auto.
    + apply (In_cof fs (fun k => pmul_q (coeff E) k (affine P) <> None) (prime_entries_ok fs HF)). exact A.
  - intros A l e I Z0. destruct (div_proper fs l e HF I) as [P0 ND]. apply ND, A; auto.
Qed.
Theorem C33_element_order_partial : forall checks x fs, prime_entries fs -> qpow (fqv x) (order_of fs) = q1 ->
  exists b, has_factored_order fq_ops checks x fs = Some b /\ (b = true <-> forall k, 0 <= k -> (qpow (fqv x) k = q1 <-> (order_of fs | k))).
Proof.
  intros c x fs HF HD. destruct (C33_element_test c x fs (prime_entries_ok fs HF)) as (b & Eb & Hb). exists b. split; [exact Eb|]. rewrite Hb.
  assert (M : forall a b, 0 <= a -> 0 <= b -> qpow (fqv x) a = q1 -> qpow (fqv x) (a * b) = q1) by (intros a d Ha Hd Z0; rewrite qpow_mul, Z0 by auto; apply qpow_q1). split.
  - intros A. apply (exact_order (fun k z => qpow z k) (fun p => p = q1) (fqv x) fs (proj2 HF)); auto.
    + intros a d Ha Hd. apply (gcd_closed (fun k => qpow (fqv x) k = q1)); auto. intros u q r Hu Hq Hr Zu Zs. rewrite qpow_add in Zs by nia. rewrite (M u q) in Zs by auto. rewrite qmul_1_l in Zs. exact Zs.
    + apply (In_cof fs (fun k => qpow (fqv x) k <> q1) (prime_entries_ok fs HF)). exact A.
  - intros A l e I Z0. destruct (div_proper fs l e HF I) as [P0 ND]. apply ND, A; auto.
Qed.
(** without that condition a true answer does not mean anything about the order: (0, 0) has order 2 and passes the test for 3 *)
Theorem C33_point_order_refuted : forall checks, exists E P fs, valid E /\ on_E E P /\ prime_entries fs /\ point_has_factored_order fq_ops checks E P fs = Some true /\ pmul_q (coeff E) (order_of fs) (affine P) <> None.
Proof.
  intros c. exists exE, exT, [(3, 1)]. assert (HE : prime_entries [(3, 1)]) by (apply pe1; exact prime_3).
  split; [exact exE_valid|]. split; [apply exT_on|]. split; [exact HE|].
  assert (X : forall n, 0 <= n -> Z.even n = false -> pmul_q (coeff exE) n (affine exT) <> None).
  { intros n Hn Ev. destruct (C31_mul_big exE exT n exE_valid (exT_on _) Hn) as (R & ER & _ & AR). destruct (exT_odd n Hn Ev) as (R' & ER' & AR'). rewrite ER in ER'. injection ER' as <-. rewrite <- AR, AR'. discriminate. }
  split; [|apply X; [cbn; lia|reflexivity]]. destruct (C33_point_test c exE exT [(3, 1)] exE_valid (exT_on _) (prime_entries_ok _ HE)) as (b & Eb & Hb). rewrite Eb. f_equal. apply Hb. intros l e [I|[]]. injection I as <- <-. apply X; [cbn; lia|reflexivity].
Qed.
Theorem C33_element_order_refuted : forall checks, exists x fs, prime_entries fs /\ has_factored_order fq_ops checks x fs = Some true /\ qpow (fqv x) (order_of fs) <> q1.
Proof.
  intros c. exists (fneg fq_ops (fone fq_ops)), [(3, 1)]. assert (HE : prime_entries [(3, 1)]) by (apply pe1; exact prime_3).
  assert (Vx : fqv (fneg fq_ops (fone fq_ops)) = qopp q1) by (rewrite (l_neg _ _ _ _ _ _ _ _ _ _ _ fq_laws), (l_one _ _ _ _ _ _ _ _ _ _ _ fq_laws); reflexivity).
  assert (N : qopp q1 <> q1) by (intros H; apply q2_nz; rewrite <- H at 1; qring).
  split; [exact HE|]. destruct (C33_element_test c (fneg fq_ops (fone fq_ops)) [(3, 1)] (prime_entries_ok _ HE)) as (b & Eb & Hb). split.
  - rewrite Eb. f_equal. apply Hb. intros l e [I|[]]. injection I as <- <-. rewrite Vx. change (order_of [(3, 1)] / 3) with 1. rewrite qpow_1. exact N.
  - rewrite Vx. change (order_of [(3, 1)]) with 3. replace (qpow (qopp q1) 3) with (qopp q1); [exact N|]. change (qpow (qopp q1) 3) with (qmul (qopp q1) (qmul (qopp q1) (qmul (qopp q1) q1))). qring.
Qed.
(** an empty factorisation panics (unless the point is the identity, for which the answer is false), a zero exponent panics when overflow checks are on *)
Theorem C33_panics : forall E P, valid E -> on_E E P ->
  (forall checks, point_has_factored_order fq_ops checks E P [] = if isinfinity fq_ops P then Some false else None) /\
  (forall l fs, point_has_factored_order fq_ops true E P ((l, 0) :: fs) = None).
Proof.
  intros E P V HP. split; [|reflexivity]. intros c. unfold point_has_factored_order, order_test. cbn [d_top obind]. destruct (C31_mul_big E P 1 V HP ltac:(lia)) as (R & -> & _ & AR). cbn [obind].
  rewrite pm_1 in AR. destruct (isinfinity fq_ops P) eqn:EI.
  - apply C44_isinfinity in EI. rewrite (proj2 (C44_equals R (infinity fq_ops))); [reflexivity|]. rewrite AR, EI, C29_infinity. reflexivity.
  - destruct (p_equals fq_ops R (infinity fq_ops)) eqn:EQ; [|reflexivity]. apply C44_equals in EQ. rewrite C29_infinity, AR in EQ. apply C44_isinfinity in EQ. congruence.
Qed.
Example C33_ex : exists b, point_has_factored_order fq_ops true exE exT [(2, 1)] = Some b /\ b = true.
Proof.
  assert (HE : prime_entries [(2, 1)]) by (apply pe1; exact prime_2).
  destruct (C33_point_test true exE exT [(2, 1)] exE_valid (exT_on _) (prime_entries_ok _ HE)) as (b & Eb & Hb). exists b. split; [exact Eb|]. apply Hb. intros l e [I|[]]. injection I as <- <-. change (order_of [(2, 1)] / 2) with 1. rewrite pm_1, exT_affine. discriminate.
Qed.
Print Assumptions C33_point_test.
Print Assumptions C33_element_test.
Print Assumptions C33_point_order_partial.
Print Assumptions C33_element_order_partial.
Print Assumptions C33_point_order_refuted.
Print Assumptions C33_element_order_refuted.
Print Assumptions C33_panics.

(** ** C53: sampled torsion points *)
(** the multiplier actually applied: (p + 1) / D with its [ep] low bits cleared *)
Definition multiplier (c : Z) (ep : nat) : Z := c - c mod 2 ^ Z.of_nat ep.
Definition sampled (E : curve fq) (fs : list (Z * Z)) (c : Z) (ep : nat) (P : point fq) : Prop :=
  on_E E P /\ affine P <> None /\ (exists R, on_E E R /\ affine R <> None /\ affine P = pmul_q (coeff E) (multiplier c ep) (affine R)) /\
  (forall l e, In (l, e) fs -> pmul_q (coeff E) (order_of fs / l) (affine P) <> None).
Lemma try_point_ok c E fs k ep R : valid E -> on_E E R -> affine R <> None -> entries fs -> 0 <= k ->
  exists res, try_point fq_ops c E fs k ep R = Some res /\ match res with Some T => sampled E fs k ep T | None => True end.
Proof.
  intros V HR NR HE Hk. unfold try_point. destruct (C32_general E R k ep V HR Hk) as (T & -> & HT & AT). cbn [obind]. destruct (isinfinity fq_ops T) eqn:EI; [exists None; auto|].
  destruct (C33_point_test c E T fs V HT HE) as (b & -> & Hb). cbn [obind]. destruct b; [exists (Some T)|exists None; auto]. split; [reflexivity|]. split; [exact HT|].
  split; [intros C; apply C44_isinfinity in C; congruence|]. split; [exists R; auto|]. apply Hb. reflexivity.
Qed.
Lemma iter_on E x : match iter_next fq_ops (cA E) x with Some (R, _) => on_E E R /\ affine R <> None | None => True end.
Proof. pose proof (C49_iterator (cA E) x) as H. destruct (iter_next fq_ops (cA E) x) as [[R x']|]; [|exact I]. destruct H as (k & y & _ & ER & OR & _). split; [exact OR|rewrite ER; discriminate]. Qed.
Lemma order_loop_ok c E fs k ep : valid E -> entries fs -> 0 <= k -> forall fuel x T, order_loop fq_ops fuel c E fs k ep x = Some T -> T = infinity fq_ops \/ sampled E fs k ep T.
Proof.
  intros V HE Hk. induction fuel as [|f IH]; intros x T; [discriminate|]. cbn [order_loop]. pose proof (iter_on E x) as HI. destruct (iter_next fq_ops (cA E) x) as [[R x']|]; [|intros H; injection H as <-; left; reflexivity].
  destruct HI as [OR NR]. destruct (try_point_ok c E fs k ep R V OR NR HE Hk) as (res & -> & Hres). cbn [obind]. destruct res as [T'|]; [intros H; injection H as <-; right; exact Hres|apply IH].
Qed.
Lemma random_loop_ok c E fs k ep fuel : valid E -> entries fs -> 0 <= k -> forall n rng T rng', random_order_loop fq_ops n fuel c E fs k ep rng = Some (T, rng') -> T = infinity fq_ops \/ sampled E fs k ep T.
Proof.
  intros V HE Hk. induction n as [|n IH]; intros rng T rng'; [intros H; injection H as <- _; left; reflexivity|]. cbn [random_order_loop].
  destruct (rand_point fq_ops fuel E rng) as [[R r]|] eqn:ER; [|discriminate]. cbn [obind fst snd]. destruct (C50_rand_point _ _ _ _ _ ER) as [OR NR].
  destruct (try_point_ok c E fs k ep R V OR NR HE Hk) as (res & -> & Hres). cbn [obind]. destruct res as [T'|]; [intros H; injection H as <- _; right; exact Hres|apply IH].
Qed.
Lemma cofactor_eq fs : entries fs -> cofactor_of fs = Some ((S_Fp.P + 1) / order_of fs).
Proof. intros HE. unfold cofactor_of. rewrite order_unf. pose proof (order_pos fs HE). destruct (Z.eqb_spec (order_of fs) 0); [lia|]. rewrite (proj1 C42_group_order). reflexivity. Qed.
Lemma cofactor_nonneg fs : entries fs -> 0 <= (S_Fp.P + 1) / order_of fs. Proof. intros HE. pose proof (order_pos fs HE). apply Z.div_pos; [discriminate|lia]. Qed.
Theorem C53_generate_point : forall fuel checks E fs ep T, valid E -> entries fs -> generate_point fq_ops fuel checks E fs ep = Some T -> T = infinity fq_ops \/ sampled E fs ((S_Fp.P + 1) / order_of fs) ep T.
Proof. intros fuel c E fs ep T V HE. unfold generate_point. rewrite cofactor_eq by auto. cbn [obind]. apply order_loop_ok; auto. apply cofactor_nonneg, HE. Qed.
Theorem C53_generate_random_point : forall fuel checks E fs ep rng T rng', valid E -> entries fs -> generate_random_point fq_ops fuel checks E fs ep rng = Some (T, rng') -> T = infinity fq_ops \/ sampled E fs ((S_Fp.P + 1) / order_of fs) ep T.
Proof. intros fuel c E fs ep rng T rng' V HE. unfold generate_random_point. rewrite cofactor_eq by auto. cbn [obind]. intros H. eapply random_loop_ok; [exact V|exact HE|apply cofactor_nonneg, HE|exact H]. Qed.
(** when D divides p + 1 and 2^ep divides the cofactor, [D]T = [p + 1]R; when this is the identity, T has exactly the order D *)
Theorem C53_order : forall E fs ep T, valid E -> prime_entries fs -> (order_of fs | S_Fp.P + 1) -> (2 ^ Z.of_nat ep | (S_Fp.P + 1) / order_of fs) -> sampled E fs ((S_Fp.P + 1) / order_of fs) ep T ->
  exists R, on_E E R /\ affine R <> None /\ pmul_q (coeff E) (order_of fs) (affine T) = pmul_q (coeff E) (S_Fp.P + 1) (affine R) /\
  (pmul_q (coeff E) (S_Fp.P + 1) (affine R) = None -> forall k, 0 <= k -> (pmul_q (coeff E) k (affine T) = None <-> (order_of fs | k))).
Proof.
  intros E fs ep T V HF [m Em] HD (OT & NT & (R & OR & NR & AT) & HL). pose proof (order_pos fs (prime_entries_ok fs HF)) as Dp. exists R. split; [exact OR|]. split; [exact NR|].
  assert (Ec : (S_Fp.P + 1) / order_of fs = m) by (rewrite Em; apply Z.div_mul; lia).
  assert (Hm : 0 <= m) by (rewrite <- Ec; apply cofactor_nonneg, prime_entries_ok, HF).
  assert (EM : multiplier ((S_Fp.P + 1) / order_of fs) ep = m).
  { unfold multiplier. apply Z.mod_divide in HD; [|pose proof (Z.pow_pos_nonneg 2 (Z.of_nat ep)); lia]. rewrite HD, Z.sub_0_r. exact Ec. }
  assert (K : pmul_q (coeff E) (order_of fs) (affine T) = pmul_q (coeff E) (S_Fp.P + 1) (affine R)).
  { rewrite AT, EM, (pm_mul V) by (auto; lia). f_equal. rewrite Em. apply Z.mul_comm. }
  split; [exact K|]. rewrite <- K. intros Z0. destruct (C33_point_order_partial true E T fs V OT HF Z0) as (b & Eb & Hb).
  destruct (C33_point_test true E T fs V OT (prime_entries_ok fs HF)) as (b' & Eb' & Hb'). rewrite Eb in Eb'. injection Eb' as <-. apply Hb, Hb', HL.
Qed.

(** ** C54: torsion bases *)
Definition independent_pair (checks : bool) (E : curve fq) (fs : list (Z * Z)) (P Q : point fq) : Prop :=
  affine P <> affine Q /\ affine Q <> None /\ on_E E Q /\
  (forall k, 0 <= k -> (pmul_q (coeff E) k (affine Q) = None <-> (order_of fs | k))) /\
  exists w, weil_pairing fq_ops checks E P Q (order_of fs) = Some w /\ forall l e, In (l, e) fs -> qpow (fqv w) (order_of fs / l) <> q1.
Theorem C54_basis_loop : forall checks E fs k ep P, valid E -> prime_entries fs -> 0 <= k -> forall fuel x R, basis_loop fq_ops fuel checks E fs k ep P x = Some R ->
  R = (infinity fq_ops, infinity fq_ops) \/ fst R = P /\ independent_pair checks E fs P (snd R).
Proof.
  intros c E fs k ep P V HF Hk. induction fuel as [|f IH]; intros x RR; [discriminate|]. cbn [basis_loop]. pose proof (iter_on E x) as HI. destruct (iter_next fq_ops (cA E) x) as [[R x']|]; [|intros H; injection H as <-; left; reflexivity].
  destruct HI as [OR NR]. destruct (C32_general E R k ep V OR Hk) as (Q & -> & OQ & AQ). cbn [obind].
  destruct (p_equals fq_ops P Q) eqn:EQ; [apply IH|]. destruct (isinfinity fq_ops Q) eqn:EI; [apply IH|]. cbn [orb]. rewrite order_unf.
  pose proof (order_pos fs (prime_entries_ok fs HF)) as Dp. destruct (C31_mul_big E Q (order_of fs) V OQ ltac:(lia)) as (DQ & -> & _ & AD). cbn [obind].
  destruct (isinfinity fq_ops DQ) eqn:ED; cbn [negb]; [|apply IH]. apply C44_isinfinity in ED. rewrite AD in ED.
  destruct (C33_point_order_partial c E Q fs V OQ HF ED) as (b & -> & Hb). cbn [obind]. destruct b; cbn [negb]; [|apply IH].
  destruct (weil_pairing fq_ops c E P Q (order_of fs)) as [w|] eqn:EW; [|discriminate]. cbn [obind].
  destruct (C33_element_test c w fs (prime_entries_ok fs HF)) as (b & -> & Hw). cbn [obind]. destruct b; cbn [negb]; [|apply IH]. intros H. injection H as <-. right. cbn [fst snd]. split; [reflexivity|].
  split; [intros C; apply C44_equals in C; congruence|]. split; [intros C; apply C44_isinfinity in C; congruence|]. split; [exact OQ|]. split; [apply Hb; reflexivity|]. exists w. split; [exact EW|]. apply Hw. reflexivity.
Qed.
Theorem C54_torsion_basis : forall fuel checks E fs ep P Q, valid E -> prime_entries fs -> torsion_basis fq_ops fuel checks E fs ep = Some (P, Q) ->
  (P, Q) = (infinity fq_ops, infinity fq_ops) \/ (P = infinity fq_ops \/ sampled E fs ((S_Fp.P + 1) / order_of fs) ep P) /\ independent_pair checks E fs P Q.
Proof.
  intros fuel c E fs ep P Q V HF. unfold torsion_basis. rewrite cofactor_eq by (apply prime_entries_ok, HF). cbn [obind]. destruct (generate_point fq_ops fuel c E fs ep) as [P'|] eqn:EG; [|discriminate]. cbn [obind].
  intros H. apply C54_basis_loop in H; auto; [|apply cofactor_nonneg, prime_entries_ok, HF]. destruct H as [H|[H1 H2]]; [left; exact H|]. cbn [fst snd] in *. subst P'. right. split; [|exact H2].
  apply (C53_generate_point fuel c); auto. apply prime_entries_ok, HF.
Qed.

(** a run: the curve with coefficient -5/2 has the 2-torsion points (0,0), (2,0), (1/2,0) *)
Definition exB : curve fq := mkE (fneg fq_ops (ffr 5 2)).
Lemma exB_v : coeff exB = qfr (-5) 2.
Proof. unfold coeff. change (cA exB) with (fneg fq_ops (ffr 5 2)). rewrite (l_neg _ _ _ _ _ _ _ _ _ _ _ fq_laws), ffr_v. unfold qfr. change (-5)%Z with (- (5))%Z. rewrite (qz_opp 5). unfold qdiv. generalize (qz 5), (qinv (qz 2)). intros. qring. Qed.
Lemma exB_valid : valid exB.
Proof. apply mkE_valid. change (fqv (fneg fq_ops (ffr 5 2))) with (coeff exB). rewrite exB_v, q4_fr. qfrs. apply qfr_neq; [qnz|qnz|split; reflexivity]. Qed.
Lemma q0_fr : q0 = qfr 0 1. Proof. rewrite <- qfr_z. symmetry. exact qz_0. Qed.
Lemma exB_on2 : on_q (coeff exB) (Some (q2, q0)).
Proof. unfold on_q, on. rewrite exB_v, q2_fr, q0_fr. qfrs. apply qfr_eq; [qnz|qnz|reflexivity]. Qed.
Lemma exB_iter : exists R x', iter_next fq_ops (cA exB) (ftwo fq_ops) = Some (R, x') /\ affine R = Some (q2, q0) /\ on_E exB R.
Proof.
  assert (V2 : fqv (ftwo fq_ops) = q2) by exact (l_two _ _ _ _ _ _ _ _ _ _ _ fq_laws).
  pose proof (C49_iterator (cA exB) (ftwo fq_ops)) as H. rewrite V2 in H. destruct (iter_next fq_ops (cA exB) (ftwo fq_ops)) as [[R x']|].
  - destruct H as (k & y & _ & ER & OR & _ & HN). destruct k as [|k]; [|exfalso; apply (HN 0%nat ltac:(lia) q0), exB_on2]. change (nth_x q2 0) with q2 in ER. exists R, x'. split; [reflexivity|]. split; [|exact OR].
    rewrite ER in OR |- *. do 2 f_equal. apply (sq0 Zq_field qeqb_true). pose proof exB_on2 as O2. unfold on_q, on in OR, O2. change (fqv (cA exB)) with (coeff exB) in OR. rewrite OR, <- O2. qring.
  - exfalso. apply (H 0%nat ltac:(lia) q0), exB_on2.
Qed.
Lemma order2_pair c E P Q x1 x2 : valid E -> on_E E P -> on_E E Q -> affine P = Some (x1, q0) -> affine Q = Some (x2, q0) -> x1 <> x2 -> exists w, weil_pairing fq_ops c E P Q 2 = Some w /\ fqv w = qopp q1.
Proof.
  intros V OP OQ AP AQ N.
  assert (T : forall P Q x1 x2, on_E E P -> on_E E Q -> affine P = Some (x1, q0) -> affine Q = Some (x2, q0) -> x1 <> x2 -> exists f, tate_pairing fq_ops c E P Q 2 = Some f /\ fqv f = qsub x2 x1).
  { clear P Q x1 x2 OP OQ AP AQ N. intros P Q x1 x2 OP OQ AP AQ N. unfold tate_pairing. change (2 =? 0) with false. cbn [andb]. change (Nat.pred (big_bits 2)) with 1%nat. cbn [miller_loop]. change (Z.testbit 2 (Z.of_nat 0)) with false. cbv iota.
    unfold miller_factor. destruct (eval_line_ok fq_laws c E P P Q _ _ _ _ OP OP AP AP AQ) as (l & -> & Vl).
    destruct (C30_double E P V OP) as [OD AD]. assert (D0 : affine (double_pt fq_ops E P) = None) by (rewrite AD, AP; unfold padd_q; cbn; rewrite (proj2 (qeqb_true x1 x1) eq_refl), (proj2 (qeqb_true q0 (qopp q0))) by qring; reflexivity).
    rewrite (proj2 (C44_isinfinity _) D0). cbn [negb]. cbv iota beta. rewrite (proj2 (C44_isinfinity _) D0). cbn [negb]. rewrite andb_false_r.
    pose proof (affk_inv fq_laws _ _ _ _ _ AQ) as (NZ & XQ & _).
    assert (VF : fqv (fdiv fq_ops (fmul fq_ops (fsq fq_ops (fone fq_ops)) l) (pZ Q)) = qsub x2 x1).
    { rewrite (l_div _ _ _ _ _ _ _ _ _ _ _ fq_laws), (l_mul _ _ _ _ _ _ _ _ _ _ _ fq_laws), (l_sq _ _ _ _ _ _ _ _ _ _ _ fq_laws), (l_one _ _ _ _ _ _ _ _ _ _ _ fq_laws), Vl. unfold L_Weil.line.
      rewrite (proj2 (qeqb_true x1 x1) eq_refl), (proj2 (qeqb_true q0 (qopp q0))) by qring. revert NZ. generalize (fqv (pZ Q)). intros z NZ. field. exact NZ. }
    rewrite (l_is0 _ _ _ _ _ _ _ _ _ _ _ fq_laws), VF. destruct (qeqb (qsub x2 x1) q0) eqn:E0; [|eexists; split; [reflexivity|exact VF]].
    exfalso. apply N. symmetry. apply (sub_eq Zq_field). apply qeqb_true. exact E0. }
  destruct (T P Q x1 x2 OP OQ AP AQ N) as (f & Ef & Vf). destruct (T Q P x2 x1 OQ OP AQ AP ltac:(auto)) as (g & Eg & Vg).
  unfold weil_pairing. rewrite Ef, Eg. change (Z.testbit 2 0) with false. cbv iota. eexists. split; [reflexivity|]. rewrite (l_div _ _ _ _ _ _ _ _ _ _ _ fq_laws), Vf, Vg. field. apply (sub_nz Zq_field). auto.
Qed.
Lemma neg1_neq : qopp q1 <> q1. Proof. intros H; apply q2_nz; rewrite <- H at 1; qring. Qed.
Lemma pm_2tor E x : on_q (coeff E) (Some (x, q0)) -> pmul_q (coeff E) 2 (Some (x, q0)) = None.
Proof. intros H. unfold pmul_q. rewrite pmul_to_nat by lia. change (Z.to_nat 2) with 2%nat. rewrite (pmul_order2 Zq_field qeqb_true x 2 H). reflexivity. Qed.
Example C53_ex : exists T, order_loop fq_ops 1 true exB [(2, 1)] 1 0 (ftwo fq_ops) = Some T /\ affine T = Some (q2, q0).
Proof.
  destruct exB_iter as (R & x' & Ei & AR & OR). cbn [order_loop]. rewrite Ei. unfold try_point. destruct (C32_general exB R 1 0 exB_valid OR ltac:(lia)) as (T & -> & OT & AT). cbn [obind].
  change (1 - 1 mod 2 ^ Z.of_nat 0) with 1 in AT. rewrite pm_1, AR in AT. assert (NT : isinfinity fq_ops T = false) by (destruct (isinfinity fq_ops T) eqn:I; [apply C44_isinfinity in I; congruence|reflexivity]). rewrite NT.
  destruct (C33_point_test true exB T [(2, 1)] exB_valid OT (prime_entries_ok _ (pe1 2 prime_2))) as (b & -> & Hb). cbn [obind]. assert (Eb : b = true).
  { apply Hb. intros l e [I|[]]. injection I as <- <-. change (order_of [(2, 1)] / 2) with 1. rewrite pm_1, AT. discriminate. }
  rewrite Eb. exists T. split; [reflexivity|exact AT].
Qed.
Example C54_ex : exists Q, basis_loop fq_ops 1 true exB [(2, 1)] 1 0 exT (ftwo fq_ops) = Some (exT, Q) /\ affine Q = Some (q2, q0).
Proof.
  destruct exB_iter as (R & x' & Ei & AR & OR). cbn [basis_loop]. rewrite Ei. destruct (C32_general exB R 1 0 exB_valid OR ltac:(lia)) as (T & -> & OT & AT). cbn [obind].
  change (1 - 1 mod 2 ^ Z.of_nat 0) with 1 in AT. rewrite pm_1, AR in AT. assert (NT : isinfinity fq_ops T = false) by (destruct (isinfinity fq_ops T) eqn:I; [apply C44_isinfinity in I; congruence|reflexivity]). rewrite NT.
  assert (NE : p_equals fq_ops exT T = false). { destruct (p_equals fq_ops exT T) eqn:I; [|reflexivity]. apply C44_equals in I. rewrite exT_affine, AT in I. exfalso. apply q2_nz. injection I as I. symmetry. apply (f_equal2 (@pair Zp Zp)); assumption. }
  rewrite NE. cbn [orb]. change (unfactored [(2, 1)]) with 2. destruct (C31_mul_big exB T 2 exB_valid OT ltac:(lia)) as (D & -> & _ & AD). cbn [obind].
  unfold on_E in OT. rewrite AT in OT. rewrite AT, (pm_2tor exB q2 OT) in AD. rewrite (proj2 (C44_isinfinity D) AD). cbn [negb].
  assert (OT' : on_E exB T) by (unfold on_E; rewrite AT; exact OT).
  destruct (C33_point_test true exB T [(2, 1)] exB_valid OT' (prime_entries_ok _ (pe1 2 prime_2))) as (b & -> & Hb). cbn [obind]. assert (Eb : b = true).
  { apply Hb. intros l e [I|[]]. injection I as <- <-. change (order_of [(2, 1)] / 2) with 1. rewrite pm_1, AT. discriminate. }
  rewrite Eb. cbn [negb]. destruct (order2_pair true exB exT T q0 q2 exB_valid (exT_on _) OT' exT_affine AT) as (w & -> & Vw); [intros C; apply q2_nz; symmetry; exact C|]. cbn [obind].
  destruct (C33_element_test true w [(2, 1)] (prime_entries_ok _ (pe1 2 prime_2))) as (b' & -> & Hw). cbn [obind]. assert (Eb' : b' = true).
  { apply Hw. intros l e [I|[]]. injection I as <- <-. change (order_of [(2, 1)] / 2) with 1. rewrite qpow_1, Vw. exact neg1_neq. }
  rewrite Eb'. cbn [negb]. exists T. split; [reflexivity|exact AT].
Qed.
Print Assumptions C53_generate_point.
Print Assumptions C53_generate_random_point.
Print Assumptions C53_order.
Print Assumptions C54_basis_loop.
Print Assumptions C54_torsion_basis.
