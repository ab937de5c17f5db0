(** C62: what the Weil test of torsion_basis (src/supersingular.rs, the loop of C54) guarantees for odd orders, and the pairs it lets through. *)
From Coq Require Import Arith ZArith List Bool Lia Ring Field Znumtheory Zpow_facts.
From Verif Require Import P_Velu M_Super2 M_Festa P_Festa P_E0 L_Chi L_Entangled L_E0 L_Five P_Entangled S_Fp S_Fp2 S_Dlog S_Curve S_Params M_Fp M_Fp2 M_Field M_Curve M_Consts M_Dlog M_Pairing M_Super L_Words L_FpCodec L_Zp L_Zp2 L_Fp L_Fp2 L_Fp2Roots L_Fp2Misc L_Group L_Kummer L_Field L_QNum L_Curve L_Ints L_Dlog L_Super L_Weil L_Weil2 L_Weil3 L_PairEx L_Pairing P_Fp2 P_Params P_Curve P_Dlog P_Super P_Pairing P_PairEx.
Import ListNotations.
Open Scope Z_scope.

(** ** Prime divisors of the order *)
Lemma order_prime fs l : prime_entries fs -> prime l -> (l | order_of fs) -> exists e, In (l, e) fs.
Proof.
  intros [_ HF] Pl. induction HF as [|[l' e'] fs [Pl' He'] HF IH].
  - intros [d Hd]. change (order_of []) with 1 in Hd. exfalso. destruct Pl as [Hl _]. assert (l = 1 \/ l = -1) by (apply Z.divide_1_r; exists d; lia). lia.
  - change (order_of ((l', e') :: fs)) with (l' ^ e' * order_of fs). cbn [fst snd] in *. intros D. apply prime_mult in D; [|exact Pl]. destruct D as [D|D].
    + exists e'. left. apply prime_power_prime in D; [congruence|lia|exact Pl|exact Pl'].
    + destruct (IH D) as [e He]. exists e. right. exact He.
Qed.
Lemma order_big fs : prime_entries fs -> Z.odd (order_of fs) = true -> 3 <= order_of fs.
Proof.
  intros HF Od. pose proof (order_pos fs (prime_entries_ok fs HF)) as DP. destruct HF as [N HF]. destruct fs as [|[l e] fs]; [congruence|]. inversion_clear HF as [|? ? [Pl He] HF']. cbn [fst snd] in *.
  destruct Pl as [Hl _]. assert (ER : order_of ((l, e) :: fs) = l ^ e * order_of fs) by reflexivity. rewrite ER in *. clear ER. generalize dependent (order_of fs). intros r Or DP. assert (L : 1 < l ^ e) by (apply Z.pow_gt_1; lia).
  generalize dependent (l ^ e). intros q Oq Dq L. clear - Oq Dq L. assert (N2 : q * r <> 2) by (intros C; rewrite C in Oq; discriminate). assert (1 <= r) by nia. assert (2 <= q * r) by nia. lia.
Qed.
Lemma qpow_root w m k : 0 <= m -> qpow w m = q1 -> (m | k) -> 0 <= k -> qpow w k = q1.
Proof.
  intros Hm E [d Hd] Hk. destruct (Z.eq_dec m 0) as [Z0|NZ]; [subst; replace (d * 0) with 0 by lia; exact E|]. assert (Hd' : 0 <= d) by nia. clear Hk. subst k. revert d Hd'. apply natlike_ind; [reflexivity|]. intros d Hd IH.
  replace (Z.succ d * m) with (d * m + m) by lia. rewrite qpow_add by nia. rewrite IH, E. apply qmul_1_l.
Qed.
Lemma qpt_dec (p q : option (Zq * Zq)) : p = q \/ p <> q.
Proof.
  destruct p as [[x y]|], q as [[x' y']|]; try (right; discriminate); [|left; reflexivity]. destruct (qeqb x x') eqn:Ex; [|right; intros C; injection C as -> ->; rewrite (proj2 (qeqb_true x' x') eq_refl) in Ex; discriminate].
  destruct (qeqb y y') eqn:Ey; [|right; intros C; injection C as -> ->; rewrite (proj2 (qeqb_true y' y') eq_refl) in Ey; discriminate]. apply qeqb_true in Ex, Ey. subst. left. reflexivity.
Qed.
(** ** Accepted pairs *)
Section Accepted.
Context (checks : bool) (E : curve fq) (V : valid E) (fs : list (Z * Z)) (HF : prime_entries fs) (Od : Z.odd (order_of fs) = true) (P Q : point fq) (HP : on_E E P).
Context (XP : exact_order (coeff E) (order_of fs) (affine P)) (I : independent_pair checks E fs P Q).
Notation A := (coeff E).
Notation n := (order_of fs).
Notation pn m := (S_Curve.pmul_nat q1 qadd qmul qsub qopp qdiv qeqb A m).
(* order three: P and Q are independent unless P is a multiple of Q *)
Lemma accepted3 : n = 3 -> on_E E Q -> exact_order A n (affine Q) -> n_basis A n (affine P) (affine Q) \/ exists k, 0 <= k /\ affine P = pmul_q A k (affine Q).
Proof.
  intros E3 OQ XQ. rewrite E3 in *. destruct XP as [P3 _], XQ as [Q3 XQ].
  assert (MQ : forall j, 0 <= j -> pmul_q A j (affine Q) = pmul_q A (j mod 3) (affine Q)).
  { intros j Hj. pose proof (Z.mod_pos_bound j 3 ltac:(lia)). assert (0 <= j / 3) by (apply Z.div_pos; lia). rewrite (Z.div_mod j 3) at 1 by lia. rewrite (pm_add V) by (try exact OQ; lia). rewrite (pm_zero_mul V (affine Q) 3 (j / 3)) by (try exact OQ; try exact Q3; lia). reflexivity. }
  assert (MP : forall j, 0 <= j -> pmul_q A j (affine P) = pmul_q A (j mod 3) (affine P)).
  { intros j Hj. pose proof (Z.mod_pos_bound j 3 ltac:(lia)). assert (0 <= j / 3) by (apply Z.div_pos; lia). rewrite (Z.div_mod j 3) at 1 by lia. rewrite (pm_add V) by (try exact HP; lia). rewrite (pm_zero_mul V (affine P) 3 (j / 3)) by (try exact HP; try exact P3; lia). reflexivity. }
  assert (CA : forall i j, 0 <= i -> 0 <= j -> padd_q A (pmul_q A i (affine P)) (pmul_q A j (affine Q)) = None -> (3 | i) /\ (3 | j) \/ exists k, 0 <= k /\ affine P = pmul_q A k (affine Q)).
  { intros i j Hi Hj Z. rewrite MP, MQ in Z by assumption. pose proof (Z.mod_pos_bound i 3 ltac:(lia)) as Bi. pose proof (Z.mod_pos_bound j 3 ltac:(lia)) as Bj.
    assert (Oi : on_q A (pmul_q A (i mod 3) (affine P))) by (apply pm_on; [exact HP|lia]). assert (Oj : on_q A (pmul_q A (j mod 3) (affine Q))) by (apply pm_on; [exact OQ|lia]).
    destruct (Z.eq_dec (i mod 3) 0) as [I0|I0].
    - left. split; [apply Z.mod_divide; [lia|exact I0]|]. rewrite I0 in Z. replace (pmul_q A 0 (affine P)) with (@None (Zq * Zq)) in Z by (rewrite pmA by lia; reflexivity). apply Z.mod_divide; [lia|]. destruct (Z.eq_dec (j mod 3) 0) as [|NJ]; [assumption|exfalso]. apply (XQ (j mod 3) ltac:(lia)). exact Z.
    - right. assert (C : forall k, 0 <= k -> pmul_q A 3 (affine Q) = padd_q A (pmul_q A k (affine Q)) (pmul_q A (3 - k) (affine Q)) \/ 3 < k) by (intros k Hk; destruct (Z.le_gt_cases k 3); [left; rewrite <- (pm_add V) by (try exact OQ; lia); f_equal; lia|right; lia]).
      destruct (Z.eq_dec (i mod 3) 1) as [I1|I1].
      + exists (3 - j mod 3). split; [lia|]. rewrite I1, pm_1 in Z. destruct (C (3 - j mod 3) ltac:(lia)) as [K|K]; [|lia]. rewrite Q3 in K. replace (3 - (3 - j mod 3)) with (j mod 3) in K by lia. rewrite K in Z. refine (padd_cancel_r Zq_field qeqb_true q2_nz (valid_smooth E V) _ _ _ _ _ _ Z); [exact HP|apply pm_on; [exact OQ|lia]|exact Oj].
      + exists (j mod 3). split; [lia|]. assert (I2 : i mod 3 = 2) by lia. rewrite I2 in Z. assert (K : padd_q A (pmul_q A 2 (affine P)) (affine P) = None) by (rewrite <- P3; change 3 with (2 + 1); rewrite (pm_add V) by (try exact HP; lia); rewrite pm_1; reflexivity).
        assert (O2 : on_q A (pmul_q A 2 (affine P))) by (apply pm_on; [exact HP|lia]). pose proof (eq_trans (padd_comm Zq_field qeqb_true q2_nz _ _ Oj O2) (eq_trans Z (eq_sym (eq_trans (padd_comm Zq_field qeqb_true q2_nz _ _ HP O2) K)))) as Z2. symmetry. exact (padd_cancel_r Zq_field qeqb_true q2_nz (valid_smooth E V) _ _ _ Oj HP O2 Z2). }
  assert (DP : (exists k, 0 <= k /\ affine P = pmul_q A k (affine Q)) \/ forall k, 0 <= k -> affine P <> pmul_q A k (affine Q)).
  { destruct (qpt_dec (affine P) (pmul_q A 0 (affine Q))) as [D0|D0]; [left; exists 0; split; [lia|exact D0]|]. destruct (qpt_dec (affine P) (pmul_q A 1 (affine Q))) as [D1|D1]; [left; exists 1; split; [lia|exact D1]|]. destruct (qpt_dec (affine P) (pmul_q A 2 (affine Q))) as [D2|D2]; [left; exists 2; split; [lia|exact D2]|].
    right. intros k Hk C. rewrite MQ in C by exact Hk. pose proof (Z.mod_pos_bound k 3 ltac:(lia)). assert (K : k mod 3 = 0 \/ k mod 3 = 1 \/ k mod 3 = 2) by lia. destruct K as [K|[K|K]]; rewrite K in C; contradiction. }
  destruct DP as [DP|DP]; [right; exact DP|left]. split; [exact P3|]. split; [exact Q3|]. intros i j Hi Hj Z. destruct (CA i j Hi Hj Z) as [R|(k & Hk & R)]; [exact R|exfalso; exact (DP k Hk R)].
Qed.
Lemma accepted : n_basis A n (affine P) (affine Q) \/ exists k, 0 <= k /\ affine P = pmul_q A k (affine Q).
Proof.
  pose proof (order_big fs HF Od) as B3. destruct XP as [OP0 XP0]. destruct I as (NE & NQ & OQ & HQ & w & Ew & Hw). assert (SM := valid_smooth E V).
  destruct (Z.eq_dec n 3) as [E3|N3]; [apply (accepted3 E3 OQ); split; [apply HQ; [lia|apply Z.divide_refl]|]; intros k Hk C; apply HQ in C; [|lia]; apply Z.divide_pos_le in C; lia|]. assert (Hn : 3 < n) by lia.
  assert (OP : pn (Z.to_nat n) (affine P) = None) by (rewrite <- pmA by lia; exact OP0).
  assert (QQ : pn (Z.to_nat n) (affine Q) = None) by (rewrite <- pmA by lia; apply HQ; [lia|apply Z.divide_refl]).
  assert (EQ : forall k : nat, pn k (affine Q) = None -> (n | Z.of_nat k)) by (intros k Ek; apply HQ; [lia|]; rewrite pmA, Nat2Z.id by lia; exact Ek).
  destruct (rel_pair Zq_field qeqb_true q2_nz SM (affine P) (affine Q) HP OQ n Hn OP QQ EQ Od) as (m & Pm & Dm & (s & Hs & Es) & Dv & R).
  set (pz := pzq A (affine P) (affine Q) n) in *.
  assert (PZ : forall i j, 0 <= i -> 0 <= j -> padd_q A (pmul_q A i (affine P)) (pmul_q A j (affine Q)) = pz i j).
  { intros i j Hi Hj. rewrite !pmA by assumption. rewrite <- (Z2Nat.id i Hi) at 2. rewrite <- (Z2Nat.id j Hj) at 2. symmetry. exact (pz_nat Zq_field qeqb_true q2_nz SM (affine P) (affine Q) HP OQ n Hn OP QQ (Z.to_nat i) (Z.to_nat j)). }
  destruct (Z.eq_dec m n) as [Emn|Nmn].
  { left. split; [exact OP0|]. split; [apply HQ; [lia|apply Z.divide_refl]|]. intros i j Hi Hj Z. pose proof Z as Z'. rewrite PZ in Z' by assumption. apply Dv in Z'. rewrite Emn in Z'. split; [exact Z'|].
    assert (Z0 : pmul_q A i (affine P) = None).
    { destruct Z' as [c Hc]. assert (0 <= c) by nia. rewrite pmA by exact Hi. rewrite Hc, Z2Nat.inj_mul by lia. rewrite (pmul_nat_mul Zq_field qeqb_true q2_nz SM) by exact HP. rewrite OP. apply pmul_nat_None. }
    rewrite Z0 in Z. apply HQ; [exact Hj|]. destruct (pmul_q A j (affine Q)) as [[]|]; [discriminate Z|reflexivity]. }
  assert (M1 : m = 1).
  { destruct (Z.eq_dec m 1) as [|N1]; [assumption|]. destruct R as [C|R]; [exact C|exfalso]. fold pz in Es, Dv.
    destruct (rel_xdis Zq_field qeqb_true q2_nz SM (affine P) (affine Q) HP OQ n Hn OP QQ EQ m s ltac:(lia) Es Dm Dv) as [X1 X2].
    assert (NP : affine P <> None) by (specialize (XP0 1 ltac:(lia)); rewrite pm_1 in XP0; exact XP0).
    assert (VW : fqv w = wpq A (Z.to_nat n) (affine P) (affine Q)).
    { destruct (affine P) as [[x1 y1]|] eqn:AP; [|congruence]. destruct (affine Q) as [[x2 y2]|] eqn:AQ; [|congruence].
      change (affine P) with (aff (k0 := q0) (kdiv := qdiv) (keq := qeqb) (v := fqv) P) in AP. change (affine Q) with (aff (k0 := q0) (kdiv := qdiv) (keq := qeqb) (v := fqv) Q) in AQ.
      destruct (weil_ok fq_laws checks E P Q n x1 y1 x2 y2 (valid_wfc E V) HP OQ AP AQ ltac:(lia)) as (w' & Ew' & Vw'); rewrite ?AP, ?AQ; auto.
      - intros k Hk. rewrite <- (Nat2Z.id k), <- pmA by lia. apply XP0. lia.
      - intros k Hk C. apply EQ in C. apply Z.divide_pos_le in C; lia.
      - rewrite Ew in Ew'. apply some_inj in Ew'. subst w'. rewrite Vw', AP, AQ. reflexivity. }
    rewrite pw_q, Z2Nat.id, <- VW in R by lia. destruct Dm as [c Hc]. assert (Hc1 : 1 < c). { destruct (Z.eq_dec c 1) as [->|]; [exfalso; apply Nmn; lia|]. assert (0 < c) by (clear - Hc Hn Pm; nia). lia. } destruct (prime_divisor c Hc1) as (l & Pl & [d Hd]). assert (Pl' := Pl). destruct Pl' as [Hl _].
    destruct (order_prime fs l HF Pl) as [e He]; [rewrite Hc, Hd; exists (d * m); ring|]. apply (Hw l e He). assert (ED : n / l = d * m) by (rewrite Hc, Hd; replace (d * l * m) with (d * m * l) by ring; apply Z.div_mul; lia).
    rewrite ED. apply (qpow_root _ m); [lia|exact R|exists d; ring|]. assert (0 < d) by (clear - Hd Hc1 Hl; nia). clear - H Pm; nia. }
  right. assert (HM : 0 <= m * s) by nia. exists (m * s * (n - 1)). split; [nia|]. transitivity (pmul_q A m (affine P)); [rewrite M1, pm_1; reflexivity|]. fold pz in Es. rewrite <- PZ in Es by lia.
  assert (K : padd_q A (pmul_q A (m * s * (n - 1)) (affine Q)) (pmul_q A (m * s) (affine Q)) = None).
  { rewrite <- (pm_add V) by (try exact OQ; nia). replace (m * s * (n - 1) + m * s) with (n * (m * s)) by ring. apply (pm_zero_mul V); [exact OQ|lia|lia|]. apply HQ; [lia|apply Z.divide_refl]. }
  rewrite <- K in Es. refine (padd_cancel_r Zq_field qeqb_true q2_nz SM _ _ _ _ _ _ Es); apply pm_on; try assumption; nia.
Qed.
End Accepted.

(** ** The opposite point passes the test *)
Lemma qpow_m1 k : 0 <= k -> Z.odd k = true -> qpow (qopp q1) k = qopp q1.
Proof.
  intros Hk Ok. apply Z.odd_spec in Ok. destruct Ok as [h ->]. rewrite qpow_add, qpow_1 by lia. rewrite (qpow_root _ 2); [apply qmul_1_l|lia| |exists h; lia|lia].
  change 2 with (1 + 1). rewrite qpow_succ by lia. rewrite qpow_1. exact (opp1_sq Zq_field).
Qed.
Lemma opp_mul E k p (V : valid E) (A := coeff E) : on_q A p -> 0 <= k -> pmul_q A k (popp_q p) = popp_q (pmul_q A k p).
Proof. intros O Hk. rewrite !pmA by exact Hk. apply (pmul_nat_opp Zq_field qeqb_true q2_nz). exact O. Qed.
Lemma opp_None p : popp_q p = None <-> p = None. Proof. destruct p as [[]|]; cbn; split; intros; (discriminate || reflexivity). Qed.
Section Opposite.
Context (checks : bool) (E : curve fq) (V : valid E) (fs : list (Z * Z)) (HF : prime_entries fs) (Od : Z.odd (order_of fs) = true) (P Q : point fq) (HP : on_E E P).
Context (XP : exact_order (coeff E) (order_of fs) (affine P)) (HQ : on_E E Q) (QP : affine Q = popp_q (affine P)).
Notation A := (coeff E).
Notation n := (order_of fs).
Lemma opp_exact : exact_order A n (affine Q).
Proof. pose proof (order_pos fs (prime_entries_ok fs HF)). destruct XP as [O0 X0]. rewrite QP. split; [rewrite (opp_mul E _ _ V HP) by lia; rewrite O0; reflexivity|]. intros k Hk C. rewrite (opp_mul E _ _ V HP) in C by lia. apply (X0 k Hk). apply opp_None. exact C. Qed.
Lemma odd_div l e : In (l, e) fs -> Z.odd (n / l) = true.
Proof.
  intros Hl. pose proof (order_pos fs (prime_entries_ok fs HF)). assert (D : (l | n)).
  { clear - Hl HF. destruct HF as [_ F]. clear HF. induction fs as [|[l' e'] r IH]; [contradiction|]. inversion_clear F as [|? ? [Pl He] F']. change (order_of ((l', e') :: r)) with (l' ^ e' * order_of r). cbn [fst snd] in *. destruct Hl as [C|Hl].
    - injection C as -> ->. apply Z.divide_mul_l. replace e with (Z.succ (e - 1)) by lia. rewrite Z.pow_succ_r by lia. apply Z.divide_factor_l.
    - apply Z.divide_mul_r. apply IH; assumption. }
  destruct D as [d Hd]. assert (l <> 0) by (intros ->; lia). rewrite Hd in Od |- *. rewrite Z.div_mul by assumption. rewrite Z.odd_mul in Od. apply andb_true_iff in Od. tauto.
Qed.
Lemma opposite : independent_pair checks E fs P Q.
Proof.
  pose proof (order_big fs HF Od) as B3. pose proof opp_exact as XQ. destruct XP as [OP XP0]. destruct XQ as [OQ XQ0].
  assert (NP : affine P <> None) by (specialize (XP0 1 ltac:(lia)); rewrite pm_1 in XP0; exact XP0).
  assert (NE : affine P <> affine Q).
  { intros C. apply (XP0 2 ltac:(lia)). change 2 with (1 + 1). rewrite (pm_add V) by (try exact HP; lia). rewrite pm_1. rewrite C at 2. rewrite QP. apply (padd_opp_r Zq_field qeqb_true). exact HP. }
  split; [exact NE|]. split; [rewrite QP; intros C; apply NP, opp_None, C|]. split; [exact HQ|]. split.
  - intros k Hk. split; [|intros [c Hc]; rewrite Hc, Z.mul_comm; apply (pm_zero_mul V); [exact HQ|lia|nia|exact OQ]].
    intros Z. apply Z.mod_divide; [lia|]. pose proof (Z.mod_pos_bound k n ltac:(lia)) as Bm. destruct (Z.eq_dec (k mod n) 0) as [|NZ]; [assumption|exfalso]. apply (XQ0 (k mod n) ltac:(lia)).
    assert (Hq : 0 <= k / n) by (apply Z.div_pos; lia). rewrite (Z.div_mod k n) in Z by lia. rewrite (pm_add V) in Z by (try exact HQ; nia). rewrite (pm_zero_mul V (affine Q) n (k / n)) in Z by (try exact HQ; try exact OQ; lia). exact Z.
  - assert (T : exists w, weil_pairing fq_ops checks E P Q n = Some w).
    { apply (weil_total fq_laws checks E P Q n (valid_wfc E V) HP HQ ltac:(lia)).
      - intros k Hk. rewrite <- (Nat2Z.id k). change (S_Curve.pmul_nat q1 qadd qmul qsub qopp qdiv qeqb A (Z.to_nat (Z.of_nat k)) (affine P) <> None). rewrite <- pmA by lia. apply XP0. lia.
      - intros k Hk. rewrite <- (Nat2Z.id k). change (S_Curve.pmul_nat q1 qadd qmul qsub qopp qdiv qeqb A (Z.to_nat (Z.of_nat k)) (affine Q) <> None). rewrite <- pmA by lia. apply XQ0. lia.
      - rewrite <- OP. symmetry. apply pmA. lia.
      - rewrite <- OQ. symmetry. apply pmA. lia. }
    destruct T as [w Ew]. exists w. split; [exact Ew|]. destruct (affine P) as [[x y]|] eqn:AP; [|congruence]. cbn [popp_q popp] in QP.
    change (affine P) with (aff (k0 := q0) (kdiv := qdiv) (keq := qeqb) (v := fqv) P) in AP. change (affine Q) with (aff (k0 := q0) (kdiv := qdiv) (keq := qeqb) (v := fqv) Q) in QP. 
    apply (weil_opp fq_laws checks E P Q n x y _ w (valid_wfc E V) HP HQ ltac:(lia) Od AP QP) in Ew.
    + intros l e Hl. rewrite Ew. rewrite qpow_m1; [exact neg1_neq| |exact (odd_div l e Hl)]. pose proof (odd_div l e Hl). apply Z.div_pos; [lia|]. destruct HF as [_ F]. rewrite Forall_forall in F. destruct (F _ Hl) as [[Pl _] _]. cbn [fst] in Pl. lia.
    + rewrite AP, <- OP. symmetry. apply pmA. lia.
    + etransitivity; [|exact OQ]. symmetry. apply pmA. lia.
Qed.
End Opposite.

(** ** C62 *)
(** the accepted pairs of any odd order n: a basis of (Z/n)^2, or P is a multiple of Q *)
Theorem C62_accepted : forall checks E fs P Q, valid E -> prime_entries fs -> Z.odd (order_of fs) = true -> on_E E P -> exact_order (coeff E) (order_of fs) (affine P) -> independent_pair checks E fs P Q ->
  n_basis (coeff E) (order_of fs) (affine P) (affine Q) \/ exists k, 0 <= k /\ affine P = pmul_q (coeff E) k (affine Q).
Proof. intros checks E fs P Q V HF Od HP XP I. exact (accepted checks E V fs HF Od P Q HP XP I). Qed.
(** the second alternative occurs: the opposite point passes every test *)
Theorem C62_opposite : forall checks E fs P Q, valid E -> prime_entries fs -> Z.odd (order_of fs) = true -> on_E E P -> exact_order (coeff E) (order_of fs) (affine P) -> on_E E Q -> affine Q = popp_q (affine P) -> independent_pair checks E fs P Q.
Proof. intros. apply opposite; assumption. Qed.
(** and the loop returns it when the next sampled point is cleared to -P *)
Theorem C62_loop_opposite : forall checks E fs k ep P x R x' fuel, valid E -> prime_entries fs -> Z.odd (order_of fs) = true -> 0 <= k -> on_E E P -> exact_order (coeff E) (order_of fs) (affine P) ->
  iter_next fq_ops (cA E) x = Some (R, x') -> pmul_q (coeff E) (multiplier k ep) (affine R) = popp_q (affine P) ->
  exists Q, basis_loop fq_ops (S fuel) checks E fs k ep P x = Some (P, Q) /\ on_E E Q /\ affine Q = popp_q (affine P).
Proof.
  intros c E fs k ep P x R x' fuel V HF Od Hk HP XP Ei AR. pose proof (iter_on E x) as HI. rewrite Ei in HI. destruct HI as [OR _]. cbn [basis_loop]. rewrite Ei. destruct (C32_general E R k ep V OR Hk) as (Q & -> & OQ & AQ). cbn [obind]. fold (multiplier k ep) in AQ. rewrite AR in AQ.
  destruct (opposite c E V fs HF Od P Q HP XP OQ AQ) as (NE & NQ & _ & HO & w & Ew & Hw). pose proof (order_pos fs (prime_entries_ok fs HF)) as DP.
  assert (E1 : p_equals fq_ops P Q = false). { destruct (p_equals fq_ops P Q) eqn:X; [|reflexivity]. apply C44_equals in X. contradiction. } rewrite E1.
  assert (E2 : isinfinity fq_ops Q = false). { destruct (isinfinity fq_ops Q) eqn:X; [|reflexivity]. apply C44_isinfinity in X. contradiction. } rewrite E2. cbn [orb]. rewrite order_unf.
  destruct (C31_mul_big E Q (order_of fs) V OQ ltac:(lia)) as (D & -> & _ & AD). cbn [obind]. assert (DQ : pmul_q (coeff E) (order_of fs) (affine Q) = None) by (apply HO; [lia|apply Z.divide_refl]). rewrite DQ in AD. rewrite (proj2 (C44_isinfinity D) AD). cbn [negb].
  destruct (C33_point_test c E Q fs V OQ (prime_entries_ok fs HF)) as (b & -> & Hb). cbn [obind]. assert (Eb : b = true).
  { apply Hb. intros l e Hl C. pose proof (odd_div fs HF Od l e Hl) as O1. assert (L1 : 1 < l) by (destruct HF as [_ F]; rewrite Forall_forall in F; destruct (F _ Hl) as [[Pl _] _]; exact Pl).
    assert (B : 0 <= order_of fs / l) by (apply Z.div_pos; lia). apply HO in C; [|exact B]. apply Z.divide_pos_le in C; [pose proof (Z.div_lt (order_of fs) l DP L1); lia|]. destruct (Z.eq_dec (order_of fs / l) 0) as [Z0|]; [rewrite Z0 in O1; discriminate|lia]. }
  rewrite Eb. cbn [negb]. rewrite Ew. cbn [obind]. destruct (C33_element_test c w fs (prime_entries_ok fs HF)) as (b' & -> & Hb'). cbn [obind]. rewrite (proj2 Hb' Hw). cbn [negb]. exists Q. auto.
Qed.
(** torsion_basis on a curve whose points are killed by p + 1 *)
Theorem C62_torsion_basis : forall fuel checks E fs ep P Q, valid E -> prime_entries fs -> Z.odd (order_of fs) = true -> (order_of fs | S_Fp.P + 1) -> (2 ^ Z.of_nat ep | (S_Fp.P + 1) / order_of fs) ->
  (forall R, on_q (coeff E) R -> pmul_q (coeff E) (S_Fp.P + 1) R = None) -> torsion_basis fq_ops fuel checks E fs ep = Some (P, Q) ->
  P = infinity fq_ops \/ on_E E P /\ on_E E Q /\ exact_order (coeff E) (order_of fs) (affine P) /\ exact_order (coeff E) (order_of fs) (affine Q) /\
  (n_basis (coeff E) (order_of fs) (affine P) (affine Q) \/ exists k, 0 <= k /\ affine P = pmul_q (coeff E) k (affine Q)).
Proof.
  intros fuel c E fs ep P Q V HF Od D1 D2 HG H. destruct (C54_torsion_basis _ _ _ _ _ _ _ V HF H) as [C|[[C|HS] HI]]; [left; injection C as -> _; reflexivity|left; exact C|right].
  pose proof (order_pos fs (prime_entries_ok fs HF)) as DP. destruct (C53_order E fs ep P V HF D1 D2 HS) as (R & OR & _ & _ & HO). specialize (HO (HG _ OR)).
  assert (XP : exact_order (coeff E) (order_of fs) (affine P)) by (split; [apply HO; [lia|apply Z.divide_refl]|intros k Hk C; apply HO in C; [|lia]; apply Z.divide_pos_le in C; lia]).
  split; [exact (proj1 HS)|]. pose proof HI as (_ & _ & OQ & HQ & _). split; [exact OQ|]. split; [exact XP|]. split; [split; [apply HQ; [lia|apply Z.divide_refl]|intros k Hk C; apply HQ in C; [|lia]; apply Z.divide_pos_le in C; lia]|].
  apply (C62_accepted c E fs P Q V HF Od (proj1 HS) XP HI).
Qed.
(** the second basis stored by the set-up, of order d1 = 3^6 * 19^2 * ... on the starting curve *)
Theorem C62_new : forall fuel checks self, festa_new fq_ops root_fq fuel checks = Some self -> fst (fe_d1b self) = infinity fq_ops \/
  on_E E0 (fst (fe_d1b self)) /\ on_E E0 (snd (fe_d1b self)) /\ exact_order (coeff E0) (order_of D1_FACTORED) (affine (fst (fe_d1b self))) /\ exact_order (coeff E0) (order_of D1_FACTORED) (affine (snd (fe_d1b self))) /\
  (n_basis (coeff E0) (order_of D1_FACTORED) (affine (fst (fe_d1b self))) (affine (snd (fe_d1b self))) \/
   exists k, 0 <= k /\ affine (fst (fe_d1b self)) = pmul_q (coeff E0) k (affine (snd (fe_d1b self)))).
Proof.
  intros fuel checks self H. apply new_inv in H. destruct H as (HE & _ & HD). rewrite E0_new in HE. apply some_inj in HE. generalize dependent (fe_d1b self). generalize dependent (fe_E0 self). intros E <- d HD.
  assert (Od : Z.odd (order_of D1_FACTORED) = true) by (vm_compute; reflexivity). revert HD Od. generalize D1_entries D1_divides. generalize D1_FACTORED. intros fs FE [V1 V2] HD Od. destruct d as [D1P D1Q]. cbn [fst snd].
  destruct (C62_torsion_basis _ _ _ _ _ _ _ E0_valid FE Od V1 V2 C61_group HD) as [C|(O1 & O2 & X1 & X2 & R)]; [left; exact C|right]. repeat (split; [assumption|]).
  exact R.
Qed.
(** ** Concrete cases *)
(** the point (4, 15/4) of order three of e3 : y^2 = x^3 - (863/256) x^2 + x; the loop started at x = 4 pairs it with its opposite *)
Lemma e3_iter : exists R x', iter_next fq_ops (cA e3) (ffr 4 1) = Some (R, x') /\ on_E e3 R /\ (affine R = affine k3 \/ affine R = popp_q (affine k3)).
Proof.
  assert (V4 : fqv (ffr 4 1) = qfr 4 1) by apply ffr_v. pose proof k3_on as O3. unfold on_E in O3. pose proof k3_v as K3. rewrite K3 in O3.
  pose proof (C49_iterator (cA e3) (ffr 4 1)) as H. rewrite V4 in H. destruct (iter_next fq_ops (cA e3) (ffr 4 1)) as [[R x']|].
  - destruct H as (k & y & _ & ER & OR & _ & HN). destruct k as [|k]; [|exfalso; apply (HN 0%nat ltac:(lia) (qfr 15 4)); exact O3]. change (nth_x (qfr 4 1) 0) with (qfr 4 1) in ER. exists R, x'. split; [reflexivity|]. split; [exact OR|].
    change (fqv (cA e3)) with (coeff e3) in OR. rewrite ER in OR |- *. rewrite K3. cbn [popp_q popp]. assert (SQ : qmul y y = qmul (qfr 15 4) (qfr 15 4)) by (unfold on_q, on in OR, O3; rewrite OR, <- O3; reflexivity).
    assert (Z : qmul (qsub y (qfr 15 4)) (qadd y (qfr 15 4)) = q0) by (revert SQ; generalize (qfr 15 4); intros a SQ; transitivity (qsub (qmul y y) (qmul a a)); [qring|rewrite SQ; qring]).
    apply (mul0 Zq_field qeqb_true) in Z. destruct Z as [Z|Z]; [left|right]; do 2 f_equal; revert Z; generalize (qfr 15 4); intros a Z.
    + apply (sub_eq Zq_field). exact Z.
    + apply (sub_eq Zq_field). rewrite <- Z. qring.
  - exfalso. apply (H 0%nat ltac:(lia) (qfr 15 4)). exact O3.
Qed.
(** so a pair returned by the loop need not be a basis *)
Theorem C62_basis_refuted : forall checks, exists E fs P Q x, valid E /\ prime_entries fs /\ Z.odd (order_of fs) = true /\ on_E E P /\ exact_order (coeff E) (order_of fs) (affine P) /\ basis_loop fq_ops 1 checks E fs 1 0 P x = Some (P, Q) /\
  exact_order (coeff E) (order_of fs) (affine Q) /\ ~ n_basis (coeff E) (order_of fs) (affine P) (affine Q).
Proof.
  intros checks. pose proof (proj1 e3_good) as V. assert (HF : prime_entries [(3, 1)]) by (apply pe1; exact prime_3). assert (Od : Z.odd (order_of [(3, 1)]) = true) by reflexivity.
  assert (X3 : exact_order (coeff e3) (order_of [(3, 1)]) (affine k3)) by exact k3_order. assert (ON : on_E e3 (p_neg fq_ops k3)) by (apply (neg_on fq_laws), k3_on). pose proof (C29_neg k3) as AN.
  pose proof (opp_exact e3 V [(3, 1)] HF k3 (p_neg fq_ops k3) k3_on X3 AN) as XN.
  assert (K : exists P R x', on_E e3 P /\ exact_order (coeff e3) (order_of [(3, 1)]) (affine P) /\ iter_next fq_ops (cA e3) (ffr 4 1) = Some (R, x') /\ affine R = popp_q (affine P)).
  { destruct e3_iter as (R & x' & Ei & OR & [AR|AR]).
    - exists (p_neg fq_ops k3), R, x'. repeat (split; [assumption|]). rewrite AR, AN. symmetry. apply (popp_invol Zq_field).
    - exists k3, R, x'. split; [exact k3_on|]. auto. }
  destruct K as (P & R & x' & OP & XP & Ei & AR). destruct (C62_loop_opposite checks e3 [(3, 1)] 1 0 P (ffr 4 1) R x' 0%nat V HF Od ltac:(lia) OP XP Ei) as (Q & EQ & OQ & AQ).
  { change (multiplier 1 0) with 1. rewrite pm_1. exact AR. }
  exists e3, [(3, 1)], P, Q, (ffr 4 1). split; [exact V|]. split; [exact HF|]. split; [exact Od|]. split; [exact OP|]. split; [exact XP|]. split; [exact EQ|]. split; [exact (opp_exact e3 V [(3, 1)] HF P Q OP XP AQ)|].
  intros (_ & _ & B). destruct (B 1 1) as [D _]; [lia|lia| |apply Z.divide_pos_le in D; [change (order_of [(3, 1)]) with 3 in D; lia|lia]]. rewrite !pm_1, AQ. apply (padd_opp_r Zq_field qeqb_true). exact OP.
Qed.
Lemma prime_5 : prime 5.
Proof. apply prime_intro; [lia|]. intros n Hn. apply Zgcd_1_rel_prime. assert (C : n = 1 \/ n = 2 \/ n = 3 \/ n = 4) by lia. destruct C as [->|[->|[->| ->]]]; reflexivity. Qed.
(** an order prime to three: a curve with a point of order five *)
Lemma t32 : exists t, qmul (qmul t t) (qmul t t) = qopp (qmul (qmul (qmul q2 q2) (qmul q2 q2)) q2).
Proof.
  destruct root_two as (r & Hr & _ & _). set (s := (zp0, (2 * 2 * r)%zp) : Zq). assert (S : qsquare s) by (apply qsquare_norm; exists (2 * 2 * r)%zp; unfold qnorm, s; cbn [fst snd]; ring).
  destruct S as [t Et]. exists t. rewrite Et. unfold s, qmul, qopp, q2, qadd, q1. cbn [fst snd]. apply (f_equal2 (@pair Zp Zp)); ring [Hr].
Qed.
Lemma ex5 : exists E P, valid E /\ on_E E P /\ exact_order (coeff E) (order_of [(5, 1)]) (affine P).
Proof.
  destruct t32 as [t Ht]. set (A := v5A (k1 := q1) (kadd := qadd) (kmul := qmul) (kdiv := qdiv) t). destruct (fq_surj A) as [a Va].
  destruct (fq_surj (v5x (k1 := q1) (kadd := qadd) (kmul := qmul) (kdiv := qdiv) t)) as [x Vx]. destruct (fq_surj (v5y (k1 := q1) (kadd := qadd) (kmul := qmul) (kdiv := qdiv) t)) as [y Vy].
  assert (N11 : qadd (qmul q3 q3) q2 <> q0) by (rewrite q3_fr, q2_fr, <- !qfr_z, <- qz_mul, <- qz_add; qnz).
  assert (EA : coeff (mkE a) = A) by exact Va. exists (mkE a), (new_xy fq_ops x y). assert (AP : affine (new_xy fq_ops x y) = v5P (k1 := q1) (kadd := qadd) (kmul := qmul) (kdiv := qdiv) t) by (rewrite affine_xy, Vx, Vy; reflexivity).
  split; [apply mkE_valid; rewrite Va; exact (v5_smooth Zq_field qeqb_true q2_nz q3_nz t Ht N11)|]. unfold on_E, exact_order. rewrite AP, EA. split; [exact (v5_onP Zq_field qeqb_true q2_nz t Ht)|].
  destruct (v5_order Zq_field qeqb_true q2_nz q3_nz t Ht N11) as [O5 X5]. change (order_of [(5, 1)]) with 5. split; [rewrite pmA by lia; exact O5|]. intros k Hk. rewrite pmA by lia. apply X5. lia.
Qed.
Example C62_ex : forall checks, exists E P, valid E /\ prime_entries [(5, 1)] /\ Z.odd (order_of [(5, 1)]) = true /\  on_E E P /\ exact_order (coeff E) (order_of [(5, 1)]) (affine P) /\ independent_pair checks E [(5, 1)] P (p_neg fq_ops P).
Proof.
  intros checks. destruct ex5 as (E & P & V & OP & XP). exists E, P. assert (HF : prime_entries [(5, 1)]) by (apply pe1; exact prime_5). split; [exact V|]. split; [exact HF|]. split; [reflexivity|].
  split; [exact OP|]. split; [exact XP|]. apply C62_opposite; auto; [apply (neg_on fq_laws), OP|apply C29_neg].
Qed.
Print Assumptions C62_accepted. Print Assumptions C62_loop_opposite. Print Assumptions C62_basis_refuted. Print Assumptions C62_torsion_basis. Print Assumptions C62_new.
Print Assumptions C62_opposite.
