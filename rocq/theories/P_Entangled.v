(** C57: the entangled basis (src/supersingular.rs:242-316) over the quadratic extension. *)
From Coq Require Import Arith ZArith List Bool Lia Ring Field Znumtheory.
From Verif Require Import S_Fp S_Fp2 S_Curve M_Consts M_Fp M_Fp2 M_Field M_Curve M_Pairing M_Super M_Super2 L_Words L_FpCodec L_Zp L_Zp2 L_Fp L_Fp2 L_Fp2Roots L_Fp2Misc L_Group L_Kummer L_Field L_QNum L_Curve L_Jacobi L_Chi L_Descent L_Entangled P_Curve P_Super P_Pairing P_PairEx.
Import ListNotations.
Open Scope Z_scope.

(** ** Specification *)
(** x^3 + A x^2 + x *)
Definition cubic (A x : Zq) : Zq := qadd (qadd (qmul x (qmul x x)) (qmul A (qmul x x))) x.
(** a non-square of the prime field *)
Definition real_nonsquare (t : Zq) : Prop := snd t = zp0 /\ ~ zsquare (fst t).
(** p is twice a point *)
Definition halvable (A : Zq) (p : pt Zq) : Prop := exists r, on_q A r /\ padd_q A r r = p.

Lemma zeta_q : qmul (fqv (fzeta fq_ops)) (fqv (fzeta fq_ops)) = qopp q1. Proof. exact (l_zeta _ _ _ _ _ _ _ _ _ _ _ fq_laws). Qed.
Lemma zeta_v : fqv (fzeta fq_ops) = qg 0 1.
Proof. unfold qg. rewrite <- zp0_eq, <- zp1_eq. exact (f_equal2 (@pair Zp Zp) fv_zero fv_one). Qed.
Lemma leg_cases x : (fqv x = q0 -> fleg fq_ops x = 0) /\ (fqv x <> q0 -> qsquare (fqv x) -> fleg fq_ops x = 1) /\ (~ qsquare (fqv x) -> fleg fq_ops x = -1).
Proof. exact (l_leg _ _ _ _ _ _ _ _ _ _ _ fq_laws x). Qed.
Lemma leg_1 x : fleg fq_ops x = 1 -> fqv x <> q0 /\ qsquare (fqv x).
Proof. generalize (leg_cases x). generalize (fleg fq_ops x), (fqv x). intros l z (L0 & L1 & L2) ->. split; [intros Z; discriminate (L0 Z)|]. destruct (qsq_dec z) as [Q|Q]; [exact Q|discriminate (L2 Q)]. Qed.
Lemma leg_m1 x : fleg fq_ops x = -1 -> ~ qsquare (fqv x).
Proof. generalize (leg_cases x). generalize (fleg fq_ops x), (fqv x). intros l z (L0 & L1 & L2) -> Q. destruct (q_dec0 z) as [Z|Z]; [discriminate (L0 Z)|discriminate (L1 Z Q)]. Qed.
Lemma leg_n1 x : fqv x <> q0 -> fleg fq_ops x <> 1 -> ~ qsquare (fqv x).
Proof. generalize (leg_cases x). generalize (fleg fq_ops x), (fqv x). intros l z (L0 & L1 & L2) N H Q. apply H, L1; assumption. Qed.

(** ** The tables *)
Definition entry (k : Z) (e : fq * fq) : Prop := fqv (fst e) = qz k /\ qmul (qadd q1 (qmul (qmul (fqv (fzeta fq_ops)) (qadd q1 q1)) (qmul (qz k) (qz k)))) (fqv (snd e)) = q1 /\ fqv (snd e) <> q0.
Lemma den_nz k : 0 < k < 2 ^ 64 -> qadd q1 (qmul (qmul (fqv (fzeta fq_ops)) (qadd q1 q1)) (qmul (qz k) (qz k))) <> q0.
Proof.
  intros Hk H. assert (E : qadd q1 (qmul (qmul (fqv (fzeta fq_ops)) (qadd q1 q1)) (qmul (qz k) (qz k))) = qg 1 (2 * (k * k))).
  { rewrite <- qz_mul, <- qz_1, <- qz_add. change (1 + 1) with 2. rewrite zeta_v. assert (Q : forall n, qz n = qg n 0) by (intros n; unfold qg; rewrite <- zp0_eq; reflexivity). rewrite !Q, !qg_mul, qg_add. f_equal; ring. }
  rewrite E in H. unfold qg, q0 in H. apply (f_equal fst) in H. cbn [fst] in H. rewrite <- zp1_eq in H. exact (one_neq_zero H).
Qed.
Add Field Zq_fp : Zq_field.
Lemma tables_ok n : forall k r, 0 < k -> k + Z.of_nat n <= 2 ^ 64 -> fqv r = qz k -> let (T1, T2) := elligator_tables fq_ops n r in
  (forall e, In e T1 -> exists j, k <= j < k + Z.of_nat n /\ entry j e /\ ~ qsquare (fqv (snd e))) /\ (forall e, In e T2 -> exists j, k <= j < k + Z.of_nat n /\ entry j e /\ qsquare (fqv (snd e))).
Proof.
  induction n as [|n IH]; intros k r Hk Hb Er; [cbn [elligator_tables]; split; intros e []|]. cbn [elligator_tables].
  assert (Er' : fqv (fadd fq_ops r (fone fq_ops)) = qz (k + 1)) by (rewrite (l_add _ _ _ _ _ _ _ _ _ _ _ fq_laws), (l_one _ _ _ _ _ _ _ _ _ _ _ fq_laws), Er, qz_add, qz_1; reflexivity).
  specialize (IH (k + 1) _ ltac:(lia) ltac:(lia) Er'). destruct (elligator_tables fq_ops n (fadd fq_ops r (fone fq_ops))) as [T1 T2]. destruct IH as [I1 I2].
  set (v := finv fq_ops (fadd fq_ops (fone fq_ops) (fmul fq_ops (ent_u fq_ops) (fsq fq_ops r)))).
  assert (Ev : fqv v = qinv (qadd q1 (qmul (qmul (fqv (fzeta fq_ops)) (qadd q1 q1)) (qmul (qz k) (qz k))))).
  { unfold v, ent_u. rewrite (l_inv _ _ _ _ _ _ _ _ _ _ _ fq_laws), (l_add _ _ _ _ _ _ _ _ _ _ _ fq_laws), (l_one _ _ _ _ _ _ _ _ _ _ _ fq_laws), !(l_mul _ _ _ _ _ _ _ _ _ _ _ fq_laws), (l_sq _ _ _ _ _ _ _ _ _ _ _ fq_laws), (l_two _ _ _ _ _ _ _ _ _ _ _ fq_laws), Er. reflexivity. }
  pose proof (den_nz k ltac:(lia)) as N. assert (En : entry k (r, v)).
  { unfold entry. cbn [fst snd]. split; [exact Er|]. rewrite Ev. revert N. generalize (qadd q1 (qmul (qmul (fqv (fzeta fq_ops)) (qadd q1 q1)) (qmul (qz k) (qz k)))). intros d N. split; [field; exact N|].
    intros Z. apply (F_1_neq_0 Zq_field). transitivity (qmul d (qinv d)); [field; exact N|rewrite Z; ring]. }
  clearbody v.
  assert (J1 : forall e, In e T1 -> exists j, k <= j < k + Z.of_nat (S n) /\ entry j e /\ ~ qsquare (fqv (snd e))) by (intros e H; destruct (I1 e H) as (j & Hj & R); exists j; split; [lia|exact R]).
  assert (J2 : forall e, In e T2 -> exists j, k <= j < k + Z.of_nat (S n) /\ entry j e /\ qsquare (fqv (snd e))) by (intros e H; destruct (I2 e H) as (j & Hj & R); exists j; split; [lia|exact R]).
  destruct (fleg fq_ops v =? 1) eqn:El.
  - apply Z.eqb_eq in El. split; [exact J1|]. intros e [<-|H]; [|exact (J2 e H)]. exists k. split; [lia|]. split; [exact En|]. exact (proj2 (leg_1 v El)).
  - apply Z.eqb_neq in El. split; [|exact J2]. intros e [<-|H]; [|exact (J1 e H)]. exists k. split; [lia|]. split; [exact En|]. apply leg_n1; [exact (proj2 (proj2 En))|exact El].
Qed.
Lemma search_ok A T : forall r x y, ent_search fq_ops root_fq A T = Some (r, x, y) -> exists v, In (r, v) T /\ x = fmul fq_ops (fneg fq_ops A) v /\ root_fq (ent_t fq_ops A x) = (y, true).
Proof.
  induction T as [|[r0 v0] T IH]; intros r x y H; cbn [ent_search] in H; [discriminate|].
  destruct (root_fq (ent_t fq_ops A (fmul fq_ops (fneg fq_ops A) v0))) as [y0 b] eqn:Er. destruct b.
  - injection H as <- <- <-. exists v0. split; [left; reflexivity|]. split; [reflexivity|exact Er].
  - destruct (IH _ _ _ H) as (v & I & R). exists v. split; [right; exact I|exact R].
Qed.
Lemma affine_xy x y : affine (new_xy fq_ops x y) = Some (fqv x, fqv y). Proof. exact (aff_new_xy fq_laws x y). Qed.
Lemma ent_t_v A x : fqv (ent_t fq_ops A x) = cubic (fqv A) (fqv x).
Proof. unfold ent_t, cubic. rewrite (l_mul _ _ _ _ _ _ _ _ _ _ _ fq_laws), !(l_add _ _ _ _ _ _ _ _ _ _ _ fq_laws), (l_mul _ _ _ _ _ _ _ _ _ _ _ fq_laws), (l_sq _ _ _ _ _ _ _ _ _ _ _ fq_laws), (l_one _ _ _ _ _ _ _ _ _ _ _ fq_laws). generalize (fqv A), (fqv x). intros a b. ring. Qed.
Lemma obind_some {X Y} (a : option X) (f : X -> option Y) y : obind a f = Some y -> exists x, a = Some x /\ f x = Some y.
Proof. destruct a; cbn; [eauto|discriminate]. Qed.
(** what a run of the search establishes *)
Record found (A x1 y1 x2 y2 w : Zq) : Prop := {
  f_sum : qadd x1 x2 = qopp A; f_ratio : x2 = qmul (qmul w w) x1; f_w : w <> q0; f_ne : x1 <> x2; f_ns1 : ~ qsquare x1; f_ns2 : ~ qsquare x2;
  f_cubic1 : cubic A x1 = qmul x1 (qsub q1 (qmul x1 x2)); f_cubic2 : cubic A x2 = qmul (qmul w w) (cubic A x1); f_sq : qsquare (cubic A x1); f_y2 : y2 = qmul w y1;
  f_y1 : qmul y1 y1 = cubic A x1 /\ ~ real_nonsquare (cubic A x1) \/ real_nonsquare (cubic A x1) /\ y1 = q0 }.
Lemma q0_square : qsquare q0. Proof. exists q0. ring. Qed.
Lemma points_found E S1 S2 : entangled_points fq_ops root_fq E = Some (S1, S2) ->
  exists x1 y1 x2 y2 w, affine S1 = Some (x1, y1) /\ affine S2 = Some (x2, y2) /\ found (coeff E) x1 y1 x2 y2 w.
Proof.
  unfold entangled_points, coeff. pose proof (tables_ok 30 1 (fone fq_ops) ltac:(lia) ltac:(lia) (eq_trans (l_one _ _ _ _ _ _ _ _ _ _ _ fq_laws) (eq_sym qz_1))) as TT.
  destruct (elligator_tables fq_ops 30 (fone fq_ops)) as [T1 T2]. destruct TT as [H1 H2]. intros H. apply obind_some in H. destruct H as (T & HT & H).
  apply obind_some in H. destruct H as ([[r x] y] & HS & H). apply some_inj in H. injection H as <- <-. destruct (search_ok _ _ _ _ _ HS) as (v & I & Ex & Rt).
  assert (Q : (exists j, 1 <= j < 31 /\ entry j (r, v)) /\ ~ qsquare (fqv x)).
  { assert (EX : fqv x = qopp (qmul (fqv (cA E)) (fqv v))) by (rewrite Ex, (l_mul _ _ _ _ _ _ _ _ _ _ _ fq_laws), (l_neg _ _ _ _ _ _ _ _ _ _ _ fq_laws); ring).
    rewrite EX. clear Ex Rt HS EX. revert HT. destruct (fleg fq_ops (cA E) =? 1) eqn:L1.
    - intros HT. apply some_inj in HT. subst T. apply Z.eqb_eq in L1. destruct (leg_1 _ L1) as [NA QA]. destruct (H1 _ I) as (j & Hj & En & NS). split; [exists j; split; [lia|exact En]|].
      rewrite qsq_opp. intros Q. apply NS. exact (qsq_cancel _ _ NA QA Q).
    - destruct (fleg fq_ops (cA E) =? -1) eqn:L2; intros HT; [|discriminate]. apply some_inj in HT. subst T. apply Z.eqb_eq in L2. pose proof (leg_m1 _ L2) as NA. destruct (H2 _ I) as (j & Hj & En & QS). split; [exists j; split; [lia|exact En]|].
      rewrite qsq_opp. intros Q. apply NA. replace (qmul (fqv (cA E)) (fqv v)) with (qmul (fqv v) (fqv (cA E))) in Q by ring. exact (qsq_cancel _ _ (proj2 (proj2 En)) QS Q). }
  destruct Q as [(j & Hj & Er & Ev & _) NS]. cbn [fst snd] in Er, Ev.
  exists (fqv x), (fqv y), (fqv (fmul fq_ops (fmul fq_ops (ent_u fq_ops) (fsq fq_ops r)) x)), (fqv (fmul fq_ops (fmul fq_ops (ent_u0 fq_ops) r) y)), (qmul (qadd q1 (fqv (fzeta fq_ops))) (qz j)).
  split; [apply affine_xy|]. split; [apply affine_xy|].
  assert (X2 : fqv (fmul fq_ops (fmul fq_ops (ent_u fq_ops) (fsq fq_ops r)) x) = qmul (qmul (qmul (fqv (fzeta fq_ops)) (qadd q1 q1)) (qmul (qz j) (qz j))) (fqv x)).
  { unfold ent_u. rewrite !(l_mul _ _ _ _ _ _ _ _ _ _ _ fq_laws), (l_sq _ _ _ _ _ _ _ _ _ _ _ fq_laws), (l_two _ _ _ _ _ _ _ _ _ _ _ fq_laws), Er. reflexivity. }
  assert (Y2 : fqv (fmul fq_ops (fmul fq_ops (ent_u0 fq_ops) r) y) = qmul (qmul (qadd q1 (fqv (fzeta fq_ops))) (qz j)) (fqv y)).
  { unfold ent_u0. rewrite !(l_mul _ _ _ _ _ _ _ _ _ _ _ fq_laws), (l_add _ _ _ _ _ _ _ _ _ _ _ fq_laws), (l_one _ _ _ _ _ _ _ _ _ _ _ fq_laws), Er. reflexivity. }
  rewrite X2, Y2. pose proof (root_fq_ok (ent_t fq_ops (cA E) x)) as RO. rewrite Rt in RO. cbn [fst snd] in RO. rewrite ent_t_v in RO. destruct RO as [R1 R2].
  assert (EX : fqv x = qmul (qopp (fqv (cA E))) (fqv v)) by (rewrite Ex, (l_mul _ _ _ _ _ _ _ _ _ _ _ fq_laws), (l_neg _ _ _ _ _ _ _ _ _ _ _ fq_laws); reflexivity).
  pose proof (qz_nz j ltac:(split; [lia|apply Z.lt_trans with (2 ^ 64); [lia|exact P_big]])) as NJ. pose proof zeta_q as ZQ.
  assert (NW : qmul (qadd q1 (fqv (fzeta fq_ops))) (qz j) <> q0).
  { apply (mulr_nz Zq_field qeqb_true); [|exact NJ]. intros Z. apply q2_nz. assert (EZ : fqv (fzeta fq_ops) = qopp q1) by (transitivity (qsub (qadd q1 (fqv (fzeta fq_ops))) q1); [ring|rewrite Z; ring]).
    rewrite EZ in ZQ. transitivity (qsub (qmul (qopp q1) (qopp q1)) (qopp q1)); [ring|rewrite ZQ; ring]. }
  assert (NE : qmul (qmul (fqv (fzeta fq_ops)) (qadd q1 q1)) (qmul (qz j) (qz j)) <> q1).
  { rewrite <- qz_mul, <- qz_1, <- qz_add. change (1 + 1) with 2. rewrite zeta_v. assert (Q : forall n, qz n = qg n 0) by (intros n; unfold qg; rewrite <- zp0_eq; reflexivity). rewrite !Q, !qg_mul. intros Z. apply (f_equal fst) in Z. unfold qg in Z. cbn [fst] in Z.
    apply one_neq_zero. rewrite zp1_eq, <- Z, zp0_eq. f_equal; ring. }
  clear X2 Y2 HS I Rt HT H1 H2 Ex Hj Er. revert NE EX Ev R1 R2 NJ NW ZQ NS. generalize (fqv x), (fqv y), (fqv (cA E)), (fqv v), (qz j), (fqv (fzeta fq_ops)). clear. intros x y A v r z NE EX Ev R1 R2 NJ NW ZQ NS.
  destruct (ent_alg Zq_field z r A v ZQ Ev) as (A1 & A2 & A3 & A4). rewrite <- EX in *.
  constructor.
  - exact A1. - exact A2. - exact NW.
  - intros Z. apply NE. assert (NX : x <> q0) by (intros ->; apply NS; exact q0_square). apply (cancel Zq_field x); [exact NX|]. transitivity (qmul (qmul (qmul z (qadd q1 q1)) (qmul r r)) x); [ring|rewrite <- Z; ring].
  - exact NS.
  - rewrite A2. intros Q. apply NS. apply (qsq_cancel (qmul (qmul (qadd q1 z) r) (qmul (qadd q1 z) r))); [apply (mulr_nz Zq_field qeqb_true); exact NW|exists (qmul (qadd q1 z) r); reflexivity|exact Q].
  - exact A4. - exact A3. - apply R1. reflexivity. - reflexivity.
  - destruct (R2 eq_refl) as [H|(H1 & H2 & H3)]; [left; destruct H as [H H']; split; [exact H|intros [H1 H2]; exact (H2 (H' H1))]|right; repeat split; assumption].
Qed.

(** ** Group law on coordinates *)
Section Grp.
Context {A : Zq} (sm : qmul A A <> q4).
Notation On := (on_q A). Notation "p ++ q" := (padd_q A p q). Notation mul := (pmul_q A).
Lemma g_on p q : On p -> On q -> On (p ++ q). Proof. apply (padd_on Zq_field qeqb_true q2_nz). Qed.
Lemma g_assoc p q r : On p -> On q -> On r -> (p ++ q) ++ r = p ++ (q ++ r). Proof. apply (padd_assoc Zq_field qeqb_true q2_nz sm). Qed.
Lemma g_comm p q : On p -> On q -> p ++ q = q ++ p. Proof. apply (padd_comm Zq_field qeqb_true q2_nz). Qed.
Lemma g_0r p : p ++ None = p. Proof. apply padd_0_r. Qed.
Lemma g_oppr p : On p -> p ++ popp_q p = None. Proof. apply (padd_opp_r Zq_field qeqb_true). Qed.
Lemma g_onopp p : On p -> On (popp_q p). Proof. apply (on_opp Zq_field). Qed.
Lemma g_mid a b c d : On a -> On b -> On c -> On d -> (a ++ b) ++ (c ++ d) = (a ++ c) ++ (b ++ d).
Proof. intros. rewrite !g_assoc by auto using g_on. f_equal. rewrite <- !g_assoc by auto. f_equal. apply g_comm; auto. Qed.
Lemma g_mul_on n p : 0 <= n -> On p -> On (mul n p).
Proof. intros Hn H. unfold pmul_q. rewrite pmul_to_nat by lia. apply (pmul_nat_on Zq_field qeqb_true q2_nz). exact H. Qed.
Lemma g_mul_mul a b p : On p -> 0 <= a -> 0 <= b -> mul a (mul b p) = mul (a * b) p.
Proof. intros H Ha Hb. unfold pmul_q. rewrite !pmul_to_nat, Z2Nat.inj_mul by lia. symmetry. apply (pmul_nat_mul Zq_field qeqb_true q2_nz sm). exact H. Qed.
Lemma g_mul_add a b p : On p -> 0 <= a -> 0 <= b -> mul (a + b) p = mul a p ++ mul b p.
Proof. intros H Ha Hb. unfold pmul_q. rewrite !pmul_to_nat, Z2Nat.inj_add by lia. apply (pmul_nat_add Zq_field qeqb_true q2_nz sm). exact H. Qed.
Lemma g_mul_dist n p q : On p -> On q -> 0 <= n -> mul n (p ++ q) = mul n p ++ mul n q.
Proof. intros Hp Hq Hn. unfold pmul_q. rewrite !pmul_to_nat by lia. apply (pmul_nat_dist Zq_field qeqb_true q2_nz sm); assumption. Qed.
Lemma g_mul_O n : 0 <= n -> mul n None = None. Proof. intros Hn. unfold pmul_q. rewrite pmul_to_nat by lia. apply pmul_nat_None. Qed.
Lemma g_mul_2 p : mul 2 p = p ++ p. Proof. reflexivity. Qed.
Lemma g_mul_opp n p : On p -> 0 <= n -> mul n (popp_q p) = popp_q (mul n p).
Proof. intros H Hn. unfold pmul_q. rewrite !pmul_to_nat by lia. apply (pmul_nat_opp Zq_field qeqb_true q2_nz). exact H. Qed.
Lemma g_cancel p q r : On p -> On q -> On r -> p ++ r = q ++ r -> p = q. Proof. apply (padd_cancel_r Zq_field qeqb_true q2_nz sm). Qed.

Lemma halv_add p q : halvable A p -> halvable A q -> halvable A (p ++ q).
Proof. intros (r & Hr & <-) (s & Hs & <-). exists (r ++ s). split; [apply g_on; assumption|]. apply g_mid; assumption. Qed.
Lemma halv_opp p : halvable A p -> halvable A (popp_q p).
Proof. intros (r & Hr & <-). exists (popp_q r). split; [apply g_onopp; exact Hr|]. symmetry. apply (popp_add Zq_field qeqb_true q2_nz); exact Hr. Qed.
Lemma halv_2 n p : On p -> 0 <= n -> halvable A (mul (2 * n) p).
Proof. intros H Hn. exists (mul n p). split; [apply g_mul_on; assumption|]. rewrite <- g_mul_2, g_mul_mul by (auto; lia). reflexivity. Qed.
Lemma halv_sub p q : On p -> On q -> halvable A (p ++ q) -> halvable A q -> halvable A p.
Proof.
  intros Hp Hq H1 H2. replace p with ((p ++ q) ++ popp_q q); [apply halv_add; [exact H1|apply halv_opp; exact H2]|]. rewrite g_assoc by auto using g_onopp. rewrite g_oppr by exact Hq. apply g_0r.
Qed.
(** it is enough to look at coefficients 0 and 1 *)
Lemma halv_par s1 s2 : On s1 -> On s2 -> ~ halvable A s1 -> ~ halvable A s2 -> ~ halvable A (s1 ++ s2) ->
  forall i j, 0 <= i -> 0 <= j -> halvable A (mul i s1 ++ mul j s2) -> (2 | i) /\ (2 | j).
Proof.
  intros H1 H2 N1 N2 N3 i j Hi Hj H.
  assert (R : forall i s, 0 <= i -> On s -> exists t, mul i s = t ++ (if Z.odd i then s else None) /\ On t /\ halvable A t).
  { intros k s Hk Hs. exists (mul (2 * (k / 2)) s). assert (0 <= k / 2) by (apply Z.div_pos; lia). split; [|split; [apply g_mul_on; [lia|exact Hs]|apply halv_2; assumption]].
    pose proof (Z.div_mod k 2 ltac:(lia)) as E. rewrite Zmod_odd in E. destruct (Z.odd k).
    - rewrite E at 1. rewrite g_mul_add by (auto; lia). reflexivity. - rewrite Z.add_0_r in E. rewrite <- E, g_0r. reflexivity. }
  destruct (R i s1 Hi H1) as (t1 & E1 & O1 & V1). destruct (R j s2 Hj H2) as (t2 & E2 & O2 & V2). rewrite E1, E2 in H.
  assert (OO : forall b s, On s -> On (if b : bool then s else None)) by (intros [] s Hs; [exact Hs|exact I]).
  rewrite g_mid in H by auto. rewrite g_comm in H by auto using g_on. pose proof (fun a b => halv_sub _ _ a b H (halv_add _ _ V1 V2)) as H'. specialize (H' ltac:(auto using g_on) ltac:(auto using g_on)). clear H. rename H' into H.
  assert (EV : forall k, Z.odd k = false -> (2 | k)) by (intros k Hk; apply Z.mod_divide; [lia|rewrite Zmod_odd, Hk; reflexivity]).
  destruct (Z.odd i) eqn:Oi, (Z.odd j) eqn:Oj; cbn [padd_q] in H.
  - contradiction. - exfalso. apply N1. rewrite g_0r in H. exact H. - exfalso. apply N2. exact H. - split; apply EV; assumption.
Qed.
(** from independence modulo doubles to a basis of the 2^e-torsion *)
Lemma basis_core e h s1 s2 : 1 <= e -> 0 < h -> Z.odd h = true -> On s1 -> On s2 ->
  (forall p, On p -> mul (2 ^ e * h) p = None) -> (forall p, On p -> mul (2 ^ (e - 1)) p = None -> halvable A p) ->
  (forall i j, 0 <= i -> 0 <= j -> halvable A (mul i s1 ++ mul j s2) -> (2 | i) /\ (2 | j)) -> n_basis A (2 ^ e) (mul h s1) (mul h s2).
Proof.
  intros He Hh Oh H1 H2 KK DD IN. pose proof (Z.pow_pos_nonneg 2 e ltac:(lia) ltac:(lia)) as PE.
  split; [rewrite g_mul_mul by (auto; lia); apply KK; exact H1|]. split; [rewrite g_mul_mul by (auto; lia); apply KK; exact H2|].
  intros i j Hi Hj REL.
  assert (ST : forall k, Z.of_nat k <= e -> (2 ^ Z.of_nat k | i) /\ (2 ^ Z.of_nat k | j)).
  { induction k as [|k IH]; intros Hk; [split; apply Z.divide_1_l|]. destruct (IH ltac:(lia)) as [[a Ea] [b Eb]]. set (m := 2 ^ Z.of_nat k) in *. assert (PM : 0 < m) by (apply Z.pow_pos_nonneg; lia).
    assert (Ha : 0 <= a) by nia. assert (Hb : 0 <= b) by nia.
    assert (W : mul m (mul (a * h) s1 ++ mul (b * h) s2) = None).
    { rewrite g_mul_dist by (try apply g_mul_on; auto; nia). rewrite !g_mul_mul by (auto; nia). rewrite Ea, Eb in REL. rewrite !g_mul_mul in REL by (auto; nia). replace (m * (a * h)) with (a * m * h) by ring. replace (m * (b * h)) with (b * m * h) by ring. exact REL. }
    assert (OW : On (mul (a * h) s1 ++ mul (b * h) s2)) by (apply g_on; apply g_mul_on; auto; nia).
    assert (W' : mul (2 ^ (e - 1)) (mul (a * h) s1 ++ mul (b * h) s2) = None).
    { replace (2 ^ (e - 1)) with (2 ^ (e - 1 - Z.of_nat k) * m) by (unfold m; rewrite <- Z.pow_add_r by lia; f_equal; lia). rewrite <- g_mul_mul by (auto; try apply Z.pow_nonneg; lia). rewrite W. apply g_mul_O. apply Z.pow_nonneg. lia. }
    destruct (IN (a * h) (b * h) ltac:(nia) ltac:(nia) (DD _ OW W')) as [D1 D2].
    assert (OD : forall a, (2 | a * h) -> (2 | a)) by (intros c D; apply prime_mult in D; [destruct D as [D|D]; [exact D|exfalso; apply Zdivide_mod in D; rewrite Zmod_odd, Oh in D; discriminate]|exact prime_2]).
    apply OD in D1, D2. destruct D1 as [a' ->], D2 as [b' ->]. rewrite Nat2Z.inj_succ, Z.pow_succ_r by lia. fold m. split; [exists a'|exists b']; lia. }
  specialize (ST (Z.to_nat e) ltac:(lia)). rewrite Z2Nat.id in ST by lia. exact ST.
Qed.
(** the points of order two *)
Lemma two_tor p : On p -> p ++ p = None -> p = None \/ exists a, p = Some (a, q0) /\ root2 (k0 := q0) (kadd := qadd) (kmul := qmul) (A := A) a.
Proof.
  intros H T. destruct p as [[x y]|]; [right|left; reflexivity]. pose proof (padd_None Zq_field qeqb_true q2_nz _ _ H H T) as E. cbn in E. injection E as E.
  assert (Y : y = q0) by (apply (double_0 Zq_field q2_nz); exact E). subst y. exists x. split; [reflexivity|]. apply (root2_on Zq_field). exact H.
Qed.
Lemma three_roots a b c x : root2 (k0 := q0) (kadd := qadd) (kmul := qmul) (A := A) a -> root2 (k0 := q0) (kadd := qadd) (kmul := qmul) (A := A) b -> root2 (k0 := q0) (kadd := qadd) (kmul := qmul) (A := A) c ->
  root2 (k0 := q0) (kadd := qadd) (kmul := qmul) (A := A) x -> a <> b -> a <> c -> b <> c -> x = a \/ x = b \/ x = c.
Proof.
  unfold root2. intros Ra Rb Rc Rx N1 N2 N3.
  assert (D : forall u v, qadd (qadd (qmul u (qmul u u)) (qmul A (qmul u u))) u = q0 -> qadd (qadd (qmul v (qmul v v)) (qmul A (qmul v v))) v = q0 -> u <> v ->
    qadd (qadd (qadd (qmul u u) (qmul u v)) (qmul v v)) (qadd (qmul A (qadd u v)) q1) = q0).
  { intros u v Hu Hv N. apply (cancel Zq_field (qsub u v)); [exact (sub_nz Zq_field _ _ N)|]. transitivity (qsub (qadd (qadd (qmul u (qmul u u)) (qmul A (qmul u u))) u) (qadd (qadd (qmul v (qmul v v)) (qmul A (qmul v v))) v)); [ring|rewrite Hu, Hv; ring]. }
  destruct (q_dec x a) as [|Na]; [left; assumption|]. destruct (q_dec x b) as [|Nb]; [right; left; assumption|]. right. right.
  pose proof (D x a Rx Ra Na) as D1. pose proof (D b a Rb Ra ltac:(congruence)) as D2. pose proof (D c a Rc Ra ltac:(congruence)) as D3.
  assert (S1 : qadd (qadd (qadd x b) a) A = q0) by (apply (cancel Zq_field (qsub x b)); [exact (sub_nz Zq_field _ _ Nb)|]; transitivity (qsub q0 q0); [rewrite <- D1 at 1; rewrite <- D2; ring|ring]).
  assert (S2 : qadd (qadd (qadd c b) a) A = q0) by (apply (cancel Zq_field (qsub c b)); [apply (sub_nz Zq_field); congruence|]; transitivity (qsub q0 q0); [rewrite <- D3 at 1; rewrite <- D2; ring|ring]).
  transitivity (qadd (qsub (qadd (qadd (qadd x b) a) A) (qadd (qadd (qadd c b) a) A)) c); [ring|rewrite S1, S2; ring].
Qed.
(** full rational 2^e-torsion: the points killed by 2^(e-1) are doubles, and there is an abscissa of order two besides 0 *)
Lemma full_div e p0 q0' : 1 <= e -> On p0 -> On q0' -> n_basis A (2 ^ e) p0 q0' ->
  (forall p, On p -> mul (2 ^ (e - 1)) p = None -> halvable A p) /\ exists a, qadd (qadd (qmul a a) (qmul A a)) q1 = q0.
Proof.
  intros He H0 H1 (K0 & K1 & IN). set (n := 2 ^ e) in *. set (m := 2 ^ (e - 1)). assert (EN : n = 2 * m) by (unfold n, m; rewrite <- Z.pow_succ_r by lia; f_equal; lia). assert (PM : 0 < m) by (apply Z.pow_pos_nonneg; lia).
  assert (ND : ~ (n | m)) by (intros D; apply Z.divide_pos_le in D; lia).
  assert (T0 : mul m p0 ++ mul m p0 = None) by (rewrite <- g_mul_add by (auto; lia); replace (m + m) with n by lia; exact K0).
  assert (T1 : mul m q0' ++ mul m q0' = None) by (rewrite <- g_mul_add by (auto; lia); replace (m + m) with n by lia; exact K1).
  assert (O0 : On (mul m p0)) by (apply g_mul_on; [lia|exact H0]). assert (O1 : On (mul m q0')) by (apply g_mul_on; [lia|exact H1]).
  assert (T2 : (mul m p0 ++ mul m q0') ++ (mul m p0 ++ mul m q0') = None) by (rewrite g_mid, T0, T1 by auto; reflexivity).
  assert (O2 : On (mul m p0 ++ mul m q0')) by (apply g_on; auto).
  destruct (two_tor _ O0 T0) as [Z|(a & Ea & Ra)]; [exfalso; apply ND; refine (proj1 (IN m 0 ltac:(lia) ltac:(lia) _)); rewrite Z; reflexivity|].
  destruct (two_tor _ O1 T1) as [Z|(b & Eb & Rb)]; [exfalso; apply ND; refine (proj2 (IN 0 m ltac:(lia) ltac:(lia) _)); rewrite Z; reflexivity|].
  destruct (two_tor _ O2 T2) as [Z|(c & Ec & Rc)]; [exfalso; apply ND; exact (proj1 (IN m m ltac:(lia) ltac:(lia) Z))|].
  assert (Nab : a <> b) by (intros Z; subst b; rewrite Ea, <- Eb, T1 in Ec; discriminate).
  assert (Nac : a <> c). { intros Z. subst c. rewrite <- Ea in Ec. assert (X : mul m q0' = None). { apply (g_cancel _ _ (mul m p0)); auto; [exact I|]. rewrite g_comm by auto. rewrite Ec. reflexivity. } rewrite X in Eb. discriminate. }
  assert (Nbc : b <> c). { intros Z. subst c. rewrite <- Eb in Ec. assert (X : mul m p0 = None). { apply (g_cancel _ _ (mul m q0')); auto; exact I. } rewrite X in Ea. discriminate. }
  split.
  2:{ destruct (q_dec a q0) as [Za|Za]; [destruct (root2_inv Zq_field qeqb_true b Rb) as [Zb|Zb]; [congruence|exists b; exact Zb]|]. destruct (root2_inv Zq_field qeqb_true a Ra) as [Zb|Zb]; [congruence|exists a; exact Zb]. }
  assert (CL : forall t, On t -> t ++ t = None -> exists i j, 0 <= i /\ 0 <= j /\ (m | i) /\ (m | j) /\ t = mul i p0 ++ mul j q0').
  { intros t Ht Tt. destruct (two_tor t Ht Tt) as [->|(x & -> & Rx)]; [exists 0, 0; repeat split; try lia; apply Z.divide_0_r|].
    destruct (three_roots a b c x Ra Rb Rc Rx Nab Nac Nbc) as [->|[->| ->]].
    - exists m, 0. repeat split; try lia; try apply Z.divide_0_r; try apply Z.divide_refl. rewrite Ea. reflexivity.
    - exists 0, m. repeat split; try lia; try apply Z.divide_0_r; try apply Z.divide_refl. rewrite Eb. reflexivity.
    - exists m, m. repeat split; try lia; try apply Z.divide_refl. rewrite Ec. reflexivity. }
  assert (IND : forall k, Z.of_nat k <= e -> forall p, On p -> mul (2 ^ Z.of_nat k) p = None -> exists i j, 0 <= i /\ 0 <= j /\ (2 ^ (e - Z.of_nat k) | i) /\ (2 ^ (e - Z.of_nat k) | j) /\ p = mul i p0 ++ mul j q0').
  { induction k as [|k IH]; intros Hk p Hp Kp; [exists 0, 0; repeat split; try lia; try apply Z.divide_0_r; exact Kp|].
    rewrite Nat2Z.inj_succ, Z.pow_succ_r, Z.mul_comm in Kp by lia. rewrite <- g_mul_mul in Kp by (auto; try apply Z.pow_nonneg; lia).
    destruct (IH ltac:(lia) (mul 2 p) ltac:(apply g_mul_on; [lia|exact Hp]) Kp) as (i & j & Hi & Hj & Di & Dj & E).
    assert (EQ : 2 ^ (e - Z.of_nat k) = 2 * 2 ^ (e - Z.of_nat (S k))) by (rewrite <- Z.pow_succ_r by lia; f_equal; lia). set (d := 2 ^ (e - Z.of_nat (S k))) in *. assert (PD : 0 < d) by (apply Z.pow_pos_nonneg; lia).
    rewrite EQ in Di, Dj. destruct Di as [u Eu], Dj as [v Ev]. assert (Hu : 0 <= u) by nia. assert (Hv : 0 <= v) by nia.
    assert (Eu' : i = 2 * (u * d)) by (rewrite Eu; ring). assert (Ev' : j = 2 * (v * d)) by (rewrite Ev; ring). set (s := mul (u * d) p0 ++ mul (v * d) q0').
    assert (Os : On s) by (apply g_on; apply g_mul_on; auto; nia).
    assert (E2 : p ++ p = s ++ s). { rewrite <- !g_mul_2, E. unfold s. rewrite g_mul_dist by (try apply g_mul_on; auto; nia). rewrite !g_mul_mul by (auto; nia). rewrite Eu', Ev'. reflexivity. }
    set (t := p ++ popp_q s). assert (Ot : On t) by (apply g_on; auto using g_onopp).
    assert (Tt : t ++ t = None). { unfold t. rewrite g_mid by auto using g_onopp. rewrite E2. rewrite <- g_mid by auto using g_onopp. rewrite g_oppr by auto. reflexivity. }
    destruct (CL t Ot Tt) as (i1 & j1 & Hi1 & Hj1 & [x1 D1] & [y1 D2] & Et).
    assert (DM : (d | m)) by (exists (2 ^ Z.of_nat k); unfold d, m; rewrite <- Z.pow_add_r by lia; f_equal; lia). destruct DM as [g Eg].
    exists (i1 + u * d), (j1 + v * d). split; [nia|]. split; [nia|]. split; [exists (x1 * g + u); rewrite D1, Eg; ring|]. split; [exists (y1 * g + v); rewrite D2, Eg; ring|].
    rewrite !g_mul_add by (auto; nia). rewrite <- g_mid by (try apply g_mul_on; auto; nia). fold s. rewrite <- Et. unfold t. rewrite g_assoc by auto using g_onopp. rewrite (g_comm (popp_q s) s) by auto using g_onopp. rewrite g_oppr by auto. symmetry. apply g_0r. }
  intros p Hp Kp. unfold m in Kp. destruct (IND (Z.to_nat (e - 1)) ltac:(lia) p Hp) as (i & j & Hi & Hj & Di & Dj & E); [rewrite Z2Nat.id by lia; exact Kp|].
  rewrite Z2Nat.id in Di, Dj by lia. replace (e - (e - 1)) with 1 in Di, Dj by lia. destruct Di as [u Eu], Dj as [v Ev]. change (2 ^ 1) with 2 in *. rewrite E. replace i with (2 * u) by lia. replace j with (2 * v) by lia. apply halv_add; apply halv_2; auto; lia.
Qed.
End Grp.

(** ** Theorems *)
(** whenever the search succeeds: both abscissas are non-squares, their sum is -A, both cubic values are squares; and both points are on the curve
    unless the cubic value at the first abscissa is a non-square of the prime field (then both ordinates are 0) *)
Theorem C57_points : forall E S1 S2, entangled_points fq_ops root_fq E = Some (S1, S2) ->
  exists x1 y1 x2 y2, affine S1 = Some (x1, y1) /\ affine S2 = Some (x2, y2) /\ x1 <> x2 /\ qadd x1 x2 = qopp (coeff E) /\ ~ qsquare x1 /\ ~ qsquare x2 /\
    qsquare (cubic (coeff E) x1) /\ qsquare (cubic (coeff E) x2) /\ (~ real_nonsquare (cubic (coeff E) x1) -> on_E E S1 /\ on_E E S2) /\ (real_nonsquare (cubic (coeff E) x1) -> y1 = q0 /\ y2 = q0).
Proof.
  intros E S1 S2 H. destruct (points_found E S1 S2 H) as (x1 & y1 & x2 & y2 & w & E1 & E2 & F). exists x1, y1, x2, y2. unfold on_E. rewrite E1, E2. revert F. generalize (coeff E). intros A F. destruct F as [Fsum Frat Fw Fne Fn1 Fn2 Fc1 Fc2 Fsq Fy2 Fy1].
  do 2 (split; [reflexivity|]). do 5 (split; [assumption|]). split; [rewrite Fc2; destruct Fsq as [z <-]; exists (qmul w z); ring|]. split.
  - intros N. destruct Fy1 as [[Y _]|[Y _]]; [|contradiction]. cbn. split; [exact Y|]. change (qmul y2 y2 = cubic A x2). rewrite Fc2, <- Y, Fy2. ring.
  - intros R. destruct Fy1 as [[_ N]|[_ Y]]; [contradiction|]. split; [exact Y|]. rewrite Fy2, Y. ring.
Qed.
Print Assumptions C57_points.
(** neither point, nor their sum, is a double: S1 and S2 are independent modulo 2E *)
Lemma ent_indep A x1 y1 x2 y2 w a : qmul A A <> q4 -> found A x1 y1 x2 y2 w -> on_q A (Some (x1, y1)) -> on_q A (Some (x2, y2)) -> y1 <> q0 -> qadd (qadd (qmul a a) (qmul A a)) q1 = q0 ->
  ~ halvable A (Some (x1, y1)) /\ ~ halvable A (Some (x2, y2)) /\ ~ halvable A (padd_q A (Some (x1, y1)) (Some (x2, y2))).
Proof.
  intros SM F O1 O2 NY Ra. destruct F as [Fsum Frat Fw Fne Fn1 Fn2 Fc1 Fc2 Fsq Fy2 Fy1].
  assert (DB : forall x y, ~ qsquare x -> ~ halvable A (Some (x, y))).
  { intros x y N ([[rx ry]|] & Hr & D); [|discriminate]. apply N. replace x with (qsub x q0) by ring. exact (dbl_sq Zq_field qeqb_true q2_nz q0 rx ry x y (root2_0 Zq_field) Hr D). }
  split; [apply DB; assumption|]. split; [apply DB; assumption|]. intros (r & Hr & D).
  destruct (padd_q A (Some (x1, y1)) (Some (x2, y2))) as [[x3 y3]|] eqn:E3.
  - destruct r as [[rx ry]|]; [|discriminate].
    assert (NS : ~ qsquare (qsub q1 (qmul x1 x2))).
    { intros Q. apply Fn1. cbn in O1. change (qmul y1 y1 = cubic A x1) in O1. rewrite Fc1 in O1. apply (qsq_cancel (qsub q1 (qmul x1 x2))); [|exact Q|exists y1; rewrite O1; ring].
      intros Z. rewrite Z in O1. destruct (mul0 Zq_field qeqb_true y1 y1) as [X|X]; [rewrite O1; ring|contradiction|contradiction]. }
    assert (RT : forall b, qadd (qadd (qmul b b) (qmul A b)) q1 = q0 -> x3 = b).
    { intros b Rb. pose proof (root2_a Zq_field b Rb) as R2. pose proof (dbl_sq Zq_field qeqb_true q2_nz b rx ry x3 y3 R2 Hr D) as Q3. pose proof (sum_sq Zq_field qeqb_true q2_nz b x1 y1 x2 y2 x3 y3 R2 O1 O2 E3) as Q.
      apply (sub_eq Zq_field). destruct (q_dec0 (qsub x3 b)) as [Z|N]; [exact Z|exfalso]. apply NS. apply qsq_opp. apply (qsq_cancel (qsub x3 b)); [exact N|exact Q3|].
      replace (qmul (qsub x3 b) (qopp (qsub q1 (qmul x1 x2)))) with (qmul (qmul (qsub x1 b) (qsub x2 b)) (qsub x3 b)); [exact Q|].
      transitivity (qmul (qsub x3 b) (qadd (qsub (qmul x1 x2) (qmul b (qadd x1 x2))) (qmul b b))); [ring|]. rewrite Fsum. transitivity (qmul (qsub x3 b) (qadd (qsub (qmul x1 x2) q1) (qadd (qadd (qmul b b) (qmul A b)) q1))); [ring|]. rewrite Rb. ring. }
    destruct (root2_pair Zq_field SM a Ra) as (b & _ & _ & _ & _ & Nab & Rb). apply Nab. rewrite <- (RT a Ra). exact (RT b Rb).
  - pose proof (padd_None Zq_field qeqb_true q2_nz _ _ O1 O2 E3) as E. cbn in E. injection E as E _. congruence.
Qed.
Theorem C57_independent : forall E S1 S2 x1 y1 a, valid E -> entangled_points fq_ops root_fq E = Some (S1, S2) -> on_E E S1 -> affine S1 = Some (x1, y1) -> y1 <> q0 -> cubic (coeff E) a = q0 -> a <> q0 ->
  forall i j, 0 <= i -> 0 <= j -> halvable (coeff E) (padd_q (coeff E) (pmul_q (coeff E) i (affine S1)) (pmul_q (coeff E) j (affine S2))) -> (2 | i) /\ (2 | j).
Proof.
  intros E S1 S2 x1 y1 a V H O1 E1 NY Ca Na. pose proof (valid_smooth E V) as SM. destruct (points_found E S1 S2 H) as (x1' & y1' & x2 & y2 & w & E1' & E2 & F).
  assert (Ra : qadd (qadd (qmul a a) (qmul (coeff E) a)) q1 = q0) by (destruct (root2_inv Zq_field qeqb_true a Ca) as [Z|Z]; [contradiction|exact Z]).
  rewrite E1 in E1'. injection E1' as <- <-. unfold on_E in O1. rewrite E1 in O1. rewrite E1, E2.
  assert (O2 : on_q (coeff E) (Some (x2, y2))). { revert F O1. generalize (coeff E). intros A F O1. destruct F as [Fsum Frat Fw Fne Fn1 Fn2 Fc1 Fc2 Fsq Fy2 Fy1]. change (qmul y2 y2 = cubic A x2). change (qmul y1 y1 = cubic A x1) in O1. rewrite Fc2, <- O1, Fy2. ring. }
  destruct (ent_indep _ _ _ _ _ _ a SM F O1 O2 NY Ra) as (N1 & N2 & N3). apply (halv_par SM); assumption.
Qed.
Print Assumptions C57_independent.
(** the 2-part: on a curve whose points are killed by 2^e h with h odd and which has a basis of its 2^e-torsion, the function returns such a basis *)
Lemma ent_basis E e h S1 S2 : valid E -> 2 <= e -> 0 < h -> Z.odd h = true -> (forall p, on_q (coeff E) p -> pmul_q (coeff E) (2 ^ e * h) p = None) ->
  (forall p, on_q (coeff E) p -> pmul_q (coeff E) (2 ^ (e - 1)) p = None -> halvable (coeff E) p) -> (exists a, qadd (qadd (qmul a a) (qmul (coeff E) a)) q1 = q0) ->
  entangled_points fq_ops root_fq E = Some (S1, S2) -> on_E E S1 -> exists P Q, entangled_torsion_basis fq_ops root_fq E h = Some (P, Q) /\ on_E E P /\ on_E E Q /\ n_basis (coeff E) (2 ^ e) (affine P) (affine Q).
Proof.
  intros V He Hh Oh KK DD (a & Ra) H O1. pose proof (valid_smooth E V) as SM. destruct (points_found E S1 S2 H) as (x1 & y1 & x2 & y2 & w & E1 & E2 & F).
  assert (O1' : on_q (coeff E) (Some (x1, y1))) by (rewrite <- E1; exact O1).
  assert (O2' : on_q (coeff E) (Some (x2, y2))). { revert F O1'. generalize (coeff E). intros A F O. destruct F as [Fsum Frat Fw Fne Fn1 Fn2 Fc1 Fc2 Fsq Fy2 Fy1]. change (qmul y2 y2 = cubic A x2). change (qmul y1 y1 = cubic A x1) in O. rewrite Fc2, <- O, Fy2. ring. }
  assert (O2 : on_E E S2) by (unfold on_E; rewrite E2; exact O2').
  assert (NY : y1 <> q0).
  { intros Z. subst y1. destruct (DD _ O1') as ([[rx ry]|] & Hr & D); [|apply (f_ns1 _ _ _ _ _ _ F); replace x1 with (qsub x1 q0) by ring; exact (dbl_sq Zq_field qeqb_true q2_nz q0 rx ry x1 q0 (root2_0 Zq_field) Hr D)|discriminate].
    replace (2 ^ (e - 1)) with (2 ^ (e - 2) * 2) by (replace (e - 1) with (Z.succ (e - 2)) by lia; rewrite Z.pow_succ_r by lia; ring). rewrite <- (g_mul_mul SM) by (auto; try apply Z.pow_nonneg; lia).
    rewrite g_mul_2. unfold padd_q. rewrite (dbl_inf Zq_field qeqb_true x1 q0 O1' eq_refl). apply g_mul_O. apply Z.pow_nonneg. lia. }
  destruct (ent_indep _ _ _ _ _ _ a SM F O1' O2' NY Ra) as (N1 & N2 & N3).
  destruct (C31_mul_big E S1 h V O1 ltac:(lia)) as (P & EP & OP & AP). destruct (C31_mul_big E S2 h V O2 ltac:(lia)) as (Q & EQ & OQ & AQ).
  exists P, Q. split; [unfold entangled_torsion_basis; rewrite H; cbn [obind fst snd]; rewrite EP; cbn [obind]; rewrite EQ; reflexivity|]. split; [exact OP|]. split; [exact OQ|].
  rewrite AP, AQ, E1, E2. apply (basis_core SM); try assumption; [lia|]. apply (halv_par SM); assumption.
Qed.
Theorem C57_basis : forall E e h S1 S2 p0 q0', valid E -> 2 <= e -> 0 < h -> Z.odd h = true -> (forall p, on_q (coeff E) p -> pmul_q (coeff E) (2 ^ e * h) p = None) ->
  on_q (coeff E) p0 -> on_q (coeff E) q0' -> n_basis (coeff E) (2 ^ e) p0 q0' -> entangled_points fq_ops root_fq E = Some (S1, S2) -> on_E E S1 ->
  exists P Q, entangled_torsion_basis fq_ops root_fq E h = Some (P, Q) /\ on_E E P /\ on_E E Q /\ n_basis (coeff E) (2 ^ e) (affine P) (affine Q).
Proof.
  intros E e h S1 S2 p0 q0' V He Hh Oh KK H0 H1 B H O1. pose proof (valid_smooth E V) as SM. destruct (full_div SM e p0 q0' ltac:(lia) H0 H1 B) as [DD RA]. exact (ent_basis E e h S1 S2 V He Hh Oh KK DD RA H O1).
Qed.
Print Assumptions C57_basis.

(** ** Following the search on concrete curves *)
Lemma qz_g n : qz n = qg n 0. Proof. unfold qg. rewrite <- zp0_eq. reflexivity. Qed.
Lemma den_g k : qadd q1 (qmul (qmul (fqv (fzeta fq_ops)) (qadd q1 q1)) (qmul (qz k) (qz k))) = qg 1 (2 * (k * k)).
Proof. rewrite <- qz_mul, <- qz_1, <- qz_add. change (1 + 1) with 2. rewrite zeta_v, !qz_g, !qg_mul, qg_add. f_equal; ring. Qed.
Lemma tab_step n k r : 0 < k < 2 ^ 64 -> fqv r = qz k -> exists r' v, fqv r' = qz (k + 1) /\ qmul (qg 1 (2 * (k * k))) (fqv v) = q1 /\
  (qsquare (qg 1 (2 * (k * k))) -> fst (elligator_tables fq_ops (S n) r) = fst (elligator_tables fq_ops n r') /\ snd (elligator_tables fq_ops (S n) r) = (r, v) :: snd (elligator_tables fq_ops n r')) /\
  (~ qsquare (qg 1 (2 * (k * k))) -> fst (elligator_tables fq_ops (S n) r) = (r, v) :: fst (elligator_tables fq_ops n r') /\ snd (elligator_tables fq_ops (S n) r) = snd (elligator_tables fq_ops n r')).
Proof.
  intros Hk Er. cbn [elligator_tables]. exists (fadd fq_ops r (fone fq_ops)). set (v := finv fq_ops (fadd fq_ops (fone fq_ops) (fmul fq_ops (ent_u fq_ops) (fsq fq_ops r)))). exists v.
  assert (Ev : fqv v = qinv (qg 1 (2 * (k * k)))).
  { unfold v, ent_u. rewrite (l_inv _ _ _ _ _ _ _ _ _ _ _ fq_laws), (l_add _ _ _ _ _ _ _ _ _ _ _ fq_laws), (l_one _ _ _ _ _ _ _ _ _ _ _ fq_laws), !(l_mul _ _ _ _ _ _ _ _ _ _ _ fq_laws), (l_sq _ _ _ _ _ _ _ _ _ _ _ fq_laws), (l_two _ _ _ _ _ _ _ _ _ _ _ fq_laws), Er, <- den_g. reflexivity. }
  split; [rewrite (l_add _ _ _ _ _ _ _ _ _ _ _ fq_laws), (l_one _ _ _ _ _ _ _ _ _ _ _ fq_laws), Er, qz_add, qz_1; reflexivity|].
  pose proof (den_nz k Hk) as N. rewrite den_g in N. destruct (elligator_tables fq_ops n (fadd fq_ops r (fone fq_ops))) as [T1 T2]. clearbody v.
  split; [rewrite Ev; revert N; generalize (qg 1 (2 * (k * k))); intros d N; field; exact N|]. pose proof (leg_cases v) as LC. rewrite Ev, qsq_inv in LC. revert N LC. generalize (qg 1 (2 * (k * k))), (fleg fq_ops v). intros d l N (L0 & L1 & L2).
  assert (NI : qinv d <> q0) by (intros Z; apply (F_1_neq_0 Zq_field); transitivity (qmul d (qinv d)); [field; exact N|rewrite Z; ring]).
  split; intros Q; [rewrite (L1 NI Q)|rewrite (L2 Q)]; split; reflexivity.
Qed.
(** E0 (A = 6): the entries 1..6 are skipped, the seventh is used, and both points are on the curve *)
Definition E0 : curve fq := mkE (fadd fq_ops (ftwo fq_ops) (ffour fq_ops)).
Lemma E0_coeff : coeff E0 = qz 6.
Proof.
  change (fqv (fadd fq_ops (ftwo fq_ops) (ffour fq_ops)) = qz 6). rewrite (l_add _ _ _ _ _ _ _ _ _ _ _ fq_laws), (l_two _ _ _ _ _ _ _ _ _ _ _ fq_laws), (l_four _ _ _ _ _ _ _ _ _ _ _ fq_laws), <- qz_1, <- !qz_add. reflexivity.
Qed.
Lemma small_P n : 0 < n -> n < 2 ^ 64 -> 0 < n < P. Proof. intros H1 H2. split; [exact H1|]. apply Z.lt_trans with (2 ^ 64); [exact H2|exact P_big]. Qed.
Lemma E0_valid : valid E0.
Proof. apply mkE_valid. change (qmul (coeff E0) (coeff E0) <> q4). rewrite E0_coeff, <- qz_mul. unfold q4, q2. rewrite <- qz_1, <- !qz_add. apply qz_neq. apply small_P; reflexivity. Qed.
Lemma E0_new : curve_new fq_ops (fadd fq_ops (ftwo fq_ops) (ffour fq_ops)) = Some E0. Proof. exact E0_valid. Qed.
Section Fol.
Add Field Zq_f2 : Zq_field.
Lemma t_alg d s : s <> q0 -> qmul d s = q1 -> forall a, qmul (cubic a (qmul (qopp a) s)) (qmul (qmul d d) (qmul d d)) = qmul (qopp a) (qmul d (qadd (qsub (qmul a a) (qmul (qmul a a) d)) (qmul d d))).
Proof.
  intros N H a. unfold cubic. assert (Es : s = qinv d) by (assert (Nd : d <> q0) by (intros ->; apply (F_1_neq_0 Zq_field); rewrite <- H; ring); transitivity (qmul (qinv d) (qmul d s)); [field; exact Nd|rewrite H; ring]).
  assert (Nd : d <> q0) by (intros ->; apply (F_1_neq_0 Zq_field); rewrite <- H; ring). rewrite Es. field. exact Nd.
Qed.
End Fol.
Lemma root_hit t : qsquare (fqv t) -> ~ real_nonsquare (fqv t) -> exists y, root_fq t = (y, true) /\ qmul (fqv y) (fqv y) = fqv t.
Proof.
  intros Q N. destruct (root_fq_ok t) as [H1 H2]. exists (fst (root_fq t)). rewrite (surjective_pairing (root_fq t)), (proj2 H1 Q). split; [reflexivity|]. cbn [fst]. destruct (H2 (proj2 H1 Q)) as [[H _]|(A1 & A2 & _)]; [exact H|]. exfalso. apply N. split; assumption.
Qed.
Lemma qz_leg x n : fqv x = qz n -> 0 < n -> n < 2 ^ 64 -> fleg fq_ops x = 1.
Proof. intros E H1 H2. destruct (leg_cases x) as (_ & L & _). apply L; rewrite E; [apply qz_nz, small_P; assumption|apply qz_square]. Qed.
Lemma sq_by a b l : forallb smallb l = true -> zprod l = a * a + b * b -> chil l = false -> qsquare (qg a b). Proof. intros H1 H2. exact (proj1 (qg_square a b l H1 H2)). Qed.
Lemma ns_by a b l : forallb smallb l = true -> zprod l = a * a + b * b -> chil l = true -> ~ qsquare (qg a b). Proof. intros H1 H2. exact (proj2 (qg_square a b l H1 H2)). Qed.
Lemma E0_tables : exists r v T, fst (elligator_tables fq_ops 30 (fone fq_ops)) = (r, v) :: T /\ fqv r = qz 7 /\ qmul (qg 1 98) (fqv v) = q1.
Proof.
  destruct (tab_step 29 1 (fone fq_ops) ltac:(lia) (eq_trans (l_one _ _ _ _ _ _ _ _ _ _ _ fq_laws) (eq_sym qz_1))) as (r1 & v1 & R1 & _ & S1 & _). rewrite (proj1 (S1 (sq_by 1 2 [5] eq_refl eq_refl eq_refl))). clear S1.
  destruct (tab_step 28 2 r1 ltac:(lia) R1) as (r2 & v2 & R2 & _ & S2 & _). rewrite (proj1 (S2 (sq_by 1 8 [5; 13] eq_refl eq_refl eq_refl))). clear S2.
  destruct (tab_step 27 3 r2 ltac:(lia) R2) as (r3 & v3 & R3 & _ & S3 & _). rewrite (proj1 (S3 (sq_by 1 18 [5; 5; 13] eq_refl eq_refl eq_refl))). clear S3.
  destruct (tab_step 26 4 r3 ltac:(lia) R3) as (r4 & v4 & R4 & _ & S4 & _). rewrite (proj1 (S4 (sq_by 1 32 [5; 5; 41] eq_refl eq_refl eq_refl))). clear S4.
  destruct (tab_step 25 5 r4 ltac:(lia) R4) as (r5 & v5 & R5 & _ & S5 & _). rewrite (proj1 (S5 (sq_by 1 50 [41; 61] eq_refl eq_refl eq_refl))). clear S5.
  destruct (tab_step 24 6 r5 ltac:(lia) R5) as (r6 & v6 & R6 & _ & S6 & _). rewrite (proj1 (S6 (sq_by 1 72 [5; 17; 61] eq_refl eq_refl eq_refl))). clear S6.
  destruct (tab_step 23 7 r6 ltac:(lia) R6) as (r7 & v7 & R7 & V7 & _ & N7). rewrite (proj1 (N7 (ns_by 1 98 [5; 17; 113] eq_refl eq_refl eq_refl))). exists r6, v7, (fst (elligator_tables fq_ops 23 r7)). split; [reflexivity|]. split; [exact R6|exact V7].
Qed.
Lemma E0_value s : qmul (qg 1 98) s = q1 -> qsquare (cubic (qz 6) (qmul (qopp (qz 6)) s)) /\ ~ real_nonsquare (cubic (qz 6) (qmul (qopp (qz 6)) s)).
Proof.
  intros H. assert (N : s <> q0) by (intros ->; apply (F_1_neq_0 Zq_field); rewrite <- H; ring).
  pose proof (t_alg (qg 1 98) s N H (qz 6)) as T. set (t := cubic (qz 6) (qmul (qopp (qz 6)) s)) in *. clearbody t.
  assert (R : qmul (qopp (qz 6)) (qmul (qg 1 98) (qadd (qsub (qmul (qz 6) (qz 6)) (qmul (qmul (qz 6) (qz 6)) (qg 1 98))) (qmul (qg 1 98) (qg 1 98)))) = qmul (qz (-6)) (qg 316933 (-944426))).
  { rewrite <- qz_opp, <- !qz_mul. replace (qsub (qz (6 * 6)) (qmul (qz (6 * 6)) (qg 1 98))) with (qadd (qz (6 * 6)) (qmul (qz (-36)) (qg 1 98))) by (change (-36) with (- (6 * 6)); rewrite qz_opp; ring). rewrite !qz_g, !qg_mul, !qg_add, !qg_mul. reflexivity. }
  rewrite R in T. clear R.
  assert (ND : qg 1 98 <> q0) by (intros Z; rewrite Z in H; apply (F_1_neq_0 Zq_field); rewrite <- H; ring).
  split.
  - apply (qsq_cancel (qmul (qmul (qg 1 98) (qg 1 98)) (qmul (qg 1 98) (qg 1 98)))); [repeat apply (mulr_nz Zq_field qeqb_true); exact ND|exists (qmul (qg 1 98) (qg 1 98)); reflexivity|].
    replace (qmul (qmul (qmul (qg 1 98) (qg 1 98)) (qmul (qg 1 98) (qg 1 98))) t) with (qmul t (qmul (qmul (qg 1 98) (qg 1 98)) (qmul (qg 1 98) (qg 1 98)))) by ring. rewrite T.
    apply qsq_mul; [apply qz_square|]. exact (sq_by 316933 (-944426) [5; 17; 113; 89; 241; 4817] eq_refl eq_refl eq_refl).
  - intros [Z _]. assert (T2 : qmul t (qg 886119120125 0) = qg (-20470465014) 53636671452).
    { apply (cancel Zq_field (qg 1 98)); [exact ND|]. transitivity (qmul (qmul t (qmul (qmul (qg 1 98) (qg 1 98)) (qmul (qg 1 98) (qg 1 98)))) (qmul (qg 1 (-98)) (qmul (qg 1 (-98)) (qg 1 (-98))))); [|rewrite T, !qz_g, !qg_mul; reflexivity].
      transitivity (qmul t (qmul (qmul (qmul (qg 1 98) (qg 1 98)) (qmul (qg 1 98) (qg 1 98))) (qmul (qg 1 (-98)) (qmul (qg 1 (-98)) (qg 1 (-98)))))); [|ring]. rewrite !qg_mul. transitivity (qmul t (qmul (qg 1 98) (qg 886119120125 0))); [ring|]. rewrite qg_mul. reflexivity. }
    apply (f_equal snd) in T2. unfold qmul, qg in T2. cbn [snd fst] in T2. rewrite Z in T2. refine (mk_small 53636671452 (small_P 53636671452 eq_refl eq_refl) _). rewrite <- T2, <- zp0_eq. ring.
Qed.
Theorem C57_E0_points : exists S1 S2, entangled_points fq_ops root_fq E0 = Some (S1, S2) /\ on_E E0 S1 /\ on_E E0 S2.
Proof.
  assert (H : exists S1 S2, entangled_points fq_ops root_fq E0 = Some (S1, S2) /\ on_E E0 S1).
  { unfold entangled_points. destruct E0_tables as (r & v & T & ET & Er & Ev). destruct (elligator_tables fq_ops 30 (fone fq_ops)) as [T1 T2]. cbn [fst] in ET. subst T1.
    rewrite (qz_leg (cA E0) 6 E0_coeff eq_refl eq_refl). cbn [Z.eqb Pos.eqb obind ent_search].
    set (x := fmul fq_ops (fneg fq_ops (cA E0)) v). assert (VX : fqv x = qmul (qopp (qz 6)) (fqv v)) by (unfold x; rewrite (l_mul _ _ _ _ _ _ _ _ _ _ _ fq_laws), (l_neg _ _ _ _ _ _ _ _ _ _ _ fq_laws); rewrite <- E0_coeff; reflexivity).
    assert (VT : fqv (ent_t fq_ops (cA E0) x) = cubic (qz 6) (qmul (qopp (qz 6)) (fqv v))) by (rewrite ent_t_v, VX, <- E0_coeff; reflexivity).
    destruct (E0_value (fqv v) Ev) as [Q NR]. rewrite <- VT in Q, NR. destruct (root_hit _ Q NR) as (y & Ry & Vy). rewrite Ry. cbn [obind].
    eexists. eexists. split; [reflexivity|]. unfold on_E. rewrite affine_xy. change (qmul (fqv y) (fqv y) = cubic (coeff E0) (fqv x)). rewrite Vy, ent_t_v. reflexivity. }
  destruct H as (S1 & S2 & H & O1). exists S1, S2. split; [exact H|]. split; [exact O1|].
  destruct (C57_points E0 S1 S2 H) as (x1 & y1 & x2 & y2 & A1 & A2 & _ & _ & N1 & _ & _ & _ & C1 & C2).
  destruct (zsquare_dec (fst (cubic (coeff E0) x1))) as [Q|Q]; [apply C1; intros [_ N]; contradiction|]. destruct (zp_dec (snd (cubic (coeff E0) x1)) zp0) as [Z|Z]; [|apply C1; intros [N _]; contradiction].
  exfalso. destruct (C2 (conj Z Q)) as [-> _]. unfold on_E in O1. rewrite A1 in O1. change (qmul q0 q0 = cubic (coeff E0) x1) in O1. apply Q. rewrite <- O1. exists zp0. unfold qmul, q0. cbn [fst snd]. ring.
Qed.

(** a curve on which the cubic value is a non-square of the prime field: the points returned are not on the curve *)
Definition wA : Zq := qdiv (qg (-25) (-55)) (qz 198).
Lemma n198 : qz 198 <> q0. Proof. apply qz_nz, small_P; reflexivity. Qed.
Lemma wA_smooth : qmul wA wA <> q4.
Proof.
  intros H. assert (E : qmul (qg (-25) (-55)) (qg (-25) (-55)) = qmul (qmul q4 (qz 198)) (qz 198)).
  { rewrite <- H. unfold wA. generalize (qg (-25) (-55)) n198. intros g N. field. exact N. }
  unfold q4, q2 in E. rewrite <- qz_1, <- !qz_add, <- !qz_mul, qg_mul, qz_g in E. apply (f_equal snd) in E. unfold qg in E. cbn [snd] in E. refine (mk_small 2750 (small_P 2750 eq_refl eq_refl) _). rewrite zp0_eq. exact E.
Qed.
Lemma wA_ns : ~ qsquare wA.
Proof.
  intros Q. apply (ns_by (-25) (-55) [2; 5; 5; 73] eq_refl eq_refl eq_refl). replace (qg (-25) (-55)) with (qmul (qz 198) wA) by (unfold wA; generalize (qg (-25) (-55)) n198; intros g N; field; exact N).
  apply qsq_mul; [apply qz_square|exact Q].
Qed.
Lemma w_value s : qmul (qg 1 2) s = q1 -> cubic wA (qmul (qopp wA) s) = qdiv (qz 1062880) (qz 7762392).
Proof.
  intros H. assert (X : qmul (qopp wA) s = qdiv (qg 27 1) (qz 198)).
  { apply (cancel Zq_field (qg 1 2)); [intros Z; apply (F_1_neq_0 Zq_field); rewrite <- H, Z; ring|]. transitivity (qmul (qopp wA) (qmul (qg 1 2) s)); [ring|]. rewrite H.
    transitivity (qdiv (qmul (qg 1 2) (qg 27 1)) (qz 198)); [|generalize (qg 1 2) (qg 27 1) n198; intros g1 g2 N; field; exact N]. rewrite qg_mul. unfold wA. change (qg (1 * 27 - 2 * 1) (1 * 1 + 2 * 27)) with (qg (- (-25)) (- (-55))).
    assert (O : forall a b, qg (- a) (- b) = qopp (qg a b)) by (intros; unfold qg, qopp; cbn [fst snd]; rewrite !mk_opp; reflexivity). rewrite O. generalize (qg (-25) (-55)) n198. intros g N. field. exact N. }
  rewrite X. assert (N2 : qz 7762392 <> q0) by (apply qz_nz, small_P; reflexivity). assert (E3 : qz 7762392 = qmul (qmul (qz 198) (qz 198)) (qz 198)) by (rewrite <- !qz_mul; reflexivity).
  assert (V : qadd (qadd (qmul (qg 27 1) (qmul (qg 27 1) (qg 27 1))) (qmul (qg (-25) (-55)) (qmul (qg 27 1) (qg 27 1)))) (qmul (qmul (qz 198) (qz 198)) (qg 27 1)) = qz 1062880) by (rewrite <- qz_mul, !qz_g, !qg_mul, !qg_add; reflexivity).
  rewrite <- V, E3. unfold cubic, wA. generalize (qg 27 1) (qg (-25) (-55)) n198. intros g1 g2 N. field. exact N.
Qed.
Lemma w_real : real_nonsquare (qdiv (qz 1062880) (qz 7762392)).
Proof.
  assert (N2 : qz 7762392 <> q0) by (apply qz_nz, small_P; reflexivity). assert (Nz : mk 7762392 <> zp0) by (apply mk_small, small_P; reflexivity).
  assert (E : qdiv (qz 1062880) (qz 7762392) = ((mk 1062880 / mk 7762392)%zp, zp0)).
  { apply (cancel Zq_field (qz 7762392)); [exact N2|]. transitivity (qz 1062880); [revert N2; generalize (qz 1062880) (qz 7762392); intros g1 g2 N; field; exact N|]. unfold qz, qmul. cbn [fst snd]. revert Nz. generalize (mk 1062880) (mk 7762392). intros a b N. apply (f_equal2 (@pair Zp Zp)); field; exact N. }
  rewrite E. split; [reflexivity|]. cbn [fst]. intros [z Hz].
  apply (proj2 (zsq_prod [2; 2; 2; 2; 2; 5; 7; 13; 73; 2; 3; 3; 11; 2; 3; 3; 11; 2; 3; 3; 11] eq_refl) eq_refl). change (zprod [2; 2; 2; 2; 2; 5; 7; 13; 73; 2; 3; 3; 11; 2; 3; 3; 11; 2; 3; 3; 11]) with (1062880 * 7762392). rewrite mk_mul.
  exists (z * mk 7762392)%zp. transitivity (z * z * (mk 7762392 * mk 7762392))%zp; [ring|]. rewrite Hz. revert Nz. generalize (mk 1062880) (mk 7762392). intros a b N. field. exact N.
Qed.
Theorem C57_on_curve_refuted : exists E S1 S2, valid E /\ entangled_points fq_ops root_fq E = Some (S1, S2) /\ ~ on_E E S1 /\ ~ on_E E S2.
Proof.
  destruct (fq_surj wA) as [a Va]. exists (mkE a).
  assert (NA : fleg fq_ops a = -1) by (apply (leg_cases a); rewrite Va; exact wA_ns).
  assert (H : exists S1 S2, entangled_points fq_ops root_fq (mkE a) = Some (S1, S2) /\ exists y, affine S1 = Some (y, q0) /\ real_nonsquare (cubic wA y)).
  { unfold entangled_points. destruct (tab_step 29 1 (fone fq_ops) ltac:(lia) (eq_trans (l_one _ _ _ _ _ _ _ _ _ _ _ fq_laws) (eq_sym qz_1))) as (r1 & v & R1 & V1 & S1 & _). pose proof (proj2 (S1 (sq_by 1 2 [5] eq_refl eq_refl eq_refl))) as ET. clear S1.
    destruct (elligator_tables fq_ops 30 (fone fq_ops)) as [T1 T2]. cbn [snd] in ET. subst T2. change (cA (mkE a)) with a. rewrite NA. cbn [Z.eqb Pos.eqb obind ent_search].
    set (x := fmul fq_ops (fneg fq_ops a) v). assert (VX : fqv x = qmul (qopp wA) (fqv v)) by (unfold x; rewrite (l_mul _ _ _ _ _ _ _ _ _ _ _ fq_laws), (l_neg _ _ _ _ _ _ _ _ _ _ _ fq_laws), Va; reflexivity).
    assert (VT : fqv (ent_t fq_ops a x) = cubic wA (fqv x)) by (rewrite ent_t_v, Va; reflexivity). assert (RN : real_nonsquare (cubic wA (fqv x))) by (rewrite VX, (w_value _ V1); exact w_real).
    destruct (root_fq_ok (ent_t fq_ops a x)) as [F1 F2]. rewrite VT in F1, F2.
    assert (Q : qsquare (cubic wA (fqv x))) by (rewrite VX, (w_value _ V1); apply (qfr_square 1062880 7762392); apply qz_nz, small_P; reflexivity).
    pose proof (proj2 F1 Q) as FT. specialize (F2 FT). destruct (root_fq (ent_t fq_ops a x)) as [y b]. cbn [fst snd] in *. subst b. cbn [obind]. eexists. eexists. split; [reflexivity|].
    exists (fqv x). rewrite affine_xy. split; [|exact RN]. destruct F2 as [[_ N]|(_ & _ & ->)]; [|reflexivity]. exfalso. exact (proj2 RN (N (proj1 RN))). }
  destruct H as (S1 & S2 & H & x & A1 & RN). exists S1, S2. assert (V : valid (mkE a)) by (apply mkE_valid; rewrite Va; exact wA_smooth). split; [exact V|]. split; [exact H|].
  assert (CE : coeff (mkE a) = wA) by exact Va. destruct (points_found _ S1 S2 H) as (x1 & y1 & x2 & y2 & w & B1 & B2 & F). rewrite A1 in B1. injection B1 as <- <-. rewrite CE in F.
  assert (NZ : cubic wA x <> q0) by (intros Z; apply (proj2 RN); rewrite Z; exists zp0; unfold q0; cbn [fst]; ring).
  destruct F as [Fsum Frat Fw Fne Fn1 Fn2 Fc1 Fc2 Fsq Fy2 Fy1]. split; unfold on_E; rewrite CE.
  - rewrite A1. intros O. change (qmul q0 q0 = cubic wA x) in O. apply NZ. rewrite <- O. ring.
  - rewrite B2. intros O. change (qmul y2 y2 = cubic wA x2) in O. rewrite Fy2, Fc2 in O. apply (mulr_nz Zq_field qeqb_true _ _ (mulr_nz Zq_field qeqb_true _ _ Fw Fw) NZ). rewrite <- O. ring.
Qed.
Print Assumptions C57_E0_points.
Print Assumptions C57_on_curve_refuted.
