(** Concrete cases for C65: the curves with coefficients -(5/4 + 4/5) and -(13/12 + 12/13), points of order eight on them. *)
From Coq Require Import Arith ZArith List Bool Lia Ring Field.
From Verif Require Import S_Fp S_Fp2 S_Curve S_Theta M_Fp M_Fp2 M_Field M_Curve M_Theta L_Zp L_Zp2 L_Fp L_Fp2 L_Group L_Kummer L_Field L_QNum L_Curve L_Theta L_Gluing P_Fp2 P_Params P_Curve P_Pairing P_PairEx P_Super P_Theta P_Gluing.
Import ListNotations.
Open Scope nat_scope.
Add Field Zq_f9 : Zq_field.

Lemma pt_some x y : exists P, affine P = Some (x, y).
Proof.
  destruct (fq_surj x) as [a Va]. destruct (fq_surj y) as [b Vb]. exists (new_xy fq_ops a b). change (affine ?R) with (aff (k0 := q0) (kdiv := qdiv) (keq := qeqb) (v := fqv) R). rewrite (aff_new_xy fq_laws), Va, Vb. reflexivity.
Qed.
Lemma exact8 E p : valid E -> on_q (coeff E) p -> pmul_q (coeff E) 8 p = None -> pmul_q (coeff E) 4 p <> None -> exact_order (coeff E) 8 p.
Proof.
  intros V H H8 H4. split; [exact H8|]. intros k Hk Z. apply H4. pose proof (pm_zero_gcd V p k 8 H ltac:(lia) ltac:(lia) Z H8) as G.
  assert (D : exists m, (0 <= m /\ Z.gcd k 8 * m = 4)%Z). { assert (C : (k = 1 \/ k = 2 \/ k = 3 \/ k = 4 \/ k = 5 \/ k = 6 \/ k = 7)%Z) by lia. destruct C as [->|[->|[->|[->|[->|[->| ->]]]]]]; [exists 4%Z|exists 2%Z|exists 4%Z|exists 1%Z|exists 4%Z|exists 2%Z|exists 4%Z]; split; try lia; reflexivity. }
  destruct D as (m & Hm & <-). apply (pm_zero_mul V); auto using Z.gcd_nonneg.
Qed.
(** one of the two curves *)
Record exg (t e : Zq) (E : curve fq) (P Q : point fq) : Prop := {
  xg_v : valid E; xg_P : on_E E P; xg_Q : on_E E Q; xg_8P : exact_order (coeff E) 8 (affine P); xg_8Q : exact_order (coeff E) 8 (affine Q);
  xg_2P : exists b, padd_q (coeff E) (affine P) (affine P) = Some (q1, b); xg_2Q : exists c, padd_q (coeff E) (affine Q) (affine Q) = Some (qadd t e, c);
  xg_4P : pmul_q (coeff E) 4 (affine P) = Some (q0, q0); xg_4Q : pmul_q (coeff E) 4 (affine Q) = Some (t, q0);
  xg_A : qmul t (coeff E) = qopp (qadd (qmul t t) q1) }.
Lemma exg_some t u e r2 r3 s1 s2 s3 : qmul t u = q1 -> t <> u -> qmul e e = qsub (qmul t t) q1 -> qsub q1 t = qmul r2 r2 -> qsub q1 u = qmul r3 r3 -> qadd t e = qmul s1 s1 -> e = qmul s2 s2 -> qsub (qadd t e) u = qmul s3 s3 ->
  qsub q1 t <> q0 -> qsub q1 u <> q0 -> qadd t e <> q0 -> e <> q0 -> qsub (qadd t e) u <> q0 -> exists E P Q, exg t e E P Q.
Proof.
  intros TU TN EE R2 R3 S1 S2 S3 N2 N3 M1 M2 M3. destruct (fq_surj (qopp (qadd t u))) as [a Va].
  assert (V : valid (mkE a)). { apply mkE_valid. rewrite Va. exact (pts_smooth fq_laws t u TU TN). }
  assert (CA : coeff (mkE a) = qopp (qadd t u)) by exact Va.
  assert (R1 : q1 = qmul q1 q1) by ring. assert (S2' : qsub (qadd t e) t = qmul s2 s2) by (rewrite <- S2; ring).
  destruct (pts_half fq_laws t u TU TN q1 q1 r2 r3 R1 R2 R3) as [OP DP]. destruct (pts_half fq_laws t u TU TN _ s1 s2 s3 S1 S2' S3) as [OQ DQ]. cbv zeta in *.
  set (p := Some (qmul (qadd q1 r2) (qadd q1 r3), qmul (qmul (qadd q1 r2) (qadd q1 r3)) (qadd r2 r3))) in *. set (q := Some (qmul (qadd s1 s2) (qadd s1 s3), qmul (qmul (qadd s1 s2) (qadd s1 s3)) (qadd s2 s3))) in *.
  assert (nz : forall x y : Zq, x <> q0 -> y <> q0 -> qmul x y <> q0) by exact (mulr_nz Zq_field qeqb_true).
  assert (rt : forall x y, x <> q0 -> x = qmul y y -> y <> q0). { intros x y N E C. apply N. rewrite E, C. ring. }
  pose proof (padd_on Zq_field qeqb_true q2_nz p p OP OP) as OP2. pose proof (padd_on Zq_field qeqb_true q2_nz q q OQ OQ) as OQ2. rewrite DP in OP2. rewrite DQ in OQ2.
  assert (B : qmul (qmul q1 r2) r3 <> q0) by (apply nz; [apply nz; [exact (F_1_neq_0 Zq_field)|exact (rt _ _ N2 R2)]|exact (rt _ _ N3 R3)]). assert (C : qmul (qmul s1 s2) s3 <> q0) by (apply nz; [apply nz; [exact (rt _ _ M1 S1)|exact (rt _ _ M2 S2)]|exact (rt _ _ M3 S3)]).
  pose proof (pts_P fq_laws t u _ B OP2) as DP2. pose proof (pts_Q fq_laws t u TU e _ EE C OQ2) as DQ2.
  destruct (pt_some (qmul (qadd q1 r2) (qadd q1 r3)) (qmul (qmul (qadd q1 r2) (qadd q1 r3)) (qadd r2 r3))) as [P AP]. destruct (pt_some (qmul (qadd s1 s2) (qadd s1 s3)) (qmul (qmul (qadd s1 s2) (qadd s1 s3)) (qadd s2 s3))) as [Q AQ]. fold p in AP. fold q in AQ.
  exists (mkE a), P, Q.
  assert (OPE : on_E (mkE a) P) by (unfold on_E; rewrite AP, CA; exact OP). assert (OQE : on_E (mkE a) Q) by (unfold on_E; rewrite AQ, CA; exact OQ).
  assert (F2P : padd_q (coeff (mkE a)) (affine P) (affine P) = Some (q1, qmul (qmul q1 r2) r3)) by (rewrite AP, CA; exact DP). assert (F2Q : padd_q (coeff (mkE a)) (affine Q) (affine Q) = Some (qadd t e, qmul (qmul s1 s2) s3)) by (rewrite AQ, CA; exact DQ).
  assert (F4P : pmul_q (coeff (mkE a)) 4 (affine P) = Some (q0, q0)) by (rewrite (pm4 _ V) by exact OPE; rewrite F2P, CA; exact DP2).
  assert (F4Q : pmul_q (coeff (mkE a)) 4 (affine Q) = Some (t, q0)) by (rewrite (pm4 _ V) by exact OQE; rewrite F2Q, CA; exact DQ2).
  assert (T8 : forall R x, on_E (mkE a) R -> pmul_q (coeff (mkE a)) 4 (affine R) = Some (x, q0) -> exact_order (coeff (mkE a)) 8 (affine R)).
  { intros R x OR E. apply exact8; auto; [|rewrite E; discriminate]. change 8%Z with (2 * 4)%Z. rewrite <- (pm_mul V) by (auto; lia). rewrite pm2, E. rewrite <- E. pose proof (pm_on (E := mkE a) 4 (affine R) OR ltac:(lia)) as O4. rewrite E in *. exact (dbl_inf Zq_field qeqb_true x q0 O4 eq_refl). }
  constructor; try assumption.
  - exact (T8 _ _ OPE F4P). - exact (T8 _ _ OQE F4Q). - eexists; exact F2P. - eexists; exact F2Q.
  - rewrite CA. transitivity (qopp (qadd (qmul t t) (qmul t u))); [ring|]. rewrite TU. reflexivity.
Qed.
Ltac qe := rewrite ?q1_fr, ?q0_fr; qfrs; apply qfr_eq; [qnz|qnz|reflexivity].
Ltac qn := rewrite ?q1_fr, ?q0_fr; qfrs; apply qfr_neq; [qnz|qnz|split; reflexivity].
Ltac qn' := let H := fresh in intros H; symmetry in H; revert H; qn.
Lemma ex_g1 : exists E P Q, exg (qfr 5 4) (qfr 3 4) E P Q.
Proof.
  destruct (qfr_square (-1) 4 ltac:(qnz)) as [r2 R2]. destruct (qfr_square 1 5 ltac:(qnz)) as [r3 R3]. destruct (qfr_square 2 1 ltac:(qnz)) as [s1 S1]. destruct (qfr_square 3 4 ltac:(qnz)) as [s2 S2]. destruct (qfr_square 6 5 ltac:(qnz)) as [s3 S3].
  apply (exg_some (qfr 5 4) (qfr 4 5) (qfr 3 4) r2 r3 s1 s2 s3); try rewrite R2; try rewrite R3; try rewrite S1; try rewrite S2; try rewrite S3; try qe; try qn; try qn'.
Qed.
Lemma ex_g2 : exists E P Q, exg (qfr 13 12) (qfr 5 12) E P Q.
Proof.
  destruct (qfr_square (-1) 12 ltac:(qnz)) as [r2 R2]. destruct (qfr_square 1 13 ltac:(qnz)) as [r3 R3]. destruct (qfr_square 3 2 ltac:(qnz)) as [s1 S1]. destruct (qfr_square 5 12 ltac:(qnz)) as [s2 S2]. destruct (qfr_square 15 26 ltac:(qnz)) as [s3 S3].
  apply (exg_some (qfr 13 12) (qfr 12 13) (qfr 5 12) r2 r3 s1 s2 s3); try rewrite R2; try rewrite R3; try rewrite S1; try rewrite S2; try rewrite S3; try qe; try qn; try qn'.
Qed.
(** ** C65: the hypotheses of all its theorems are met *)
Lemma ex_null EE P8 Q8 t e t' e' : exg t e (e1 EE) (c1 P8) (c1 Q8) -> exg t' e' (e2 EE) (c2 P8) (c2 Q8) -> t <> q0 -> t' <> q0 -> qmul e e = qsub (qmul t t) q1 -> qmul e' e' = qsub (qmul t' t') q1 -> e <> q0 -> e' <> q0 ->
  independent EE 4 P8 Q8 /\ let P4 := prod_double fq_ops EE P8 in let Q4 := prod_double fq_ops EE Q8 in coords EE P4 Q4 couple0 0 = qadd q1 (qdiv (qadd (qmul t t') q1) (qmul e e')).
Proof.
  intros [V HP HQ O8P O8Q [b D2P] [c D2Q] D4P D4Q CA] [V' HP' HQ' O8P' O8Q' [b' D2P'] [c' D2Q'] D4P' D4Q' CA'] Nt Nt' Ee Ee' Ne Ne'.
  assert (I : independent EE 4 P8 Q8). { split; auto; try (split; assumption). - rewrite D4P, D4Q. intros X. apply some_inj in X. injection X as X. apply Nt. rewrite <- X. reflexivity. - rewrite D4P', D4Q'. intros X. apply some_inj in X. injection X as X. apply Nt'. rewrite <- X. reflexivity. }
  split; [exact I|]. intros P4 Q4.
  destruct (C51_product EE P8 P8 0 V V' HP HP' HP HP') as (_ & (A1 & A2) & _). destruct (C51_product EE Q8 Q8 0 V V' HQ HQ' HQ HQ') as (_ & (A3 & A4) & _). fold P4 in A1, A2. fold Q4 in A3, A4.
  assert (ON : forall E p, valid E -> on_q (coeff E) p -> on_q (coeff E) (padd_q (coeff E) p p)) by (intros E p _ H; exact (dbl_on E p H)).
  pose proof (ON _ _ V HP) as W1. pose proof (ON _ _ V' HP') as W2. pose proof (ON _ _ V HQ) as W3. pose proof (ON _ _ V' HQ') as W4.
  rewrite (pm4 _ V) in D4P, D4Q by assumption. rewrite (pm4 _ V') in D4P', D4Q' by assumption.
  assert (Z1 : qadd q0 q1 = q1) by ring.
  assert (F : four EE P4 Q4 q0 q1 b t e c q0 q1 b' t' e' c').
  { rewrite D2P in A1, W1, D4P. rewrite D2P' in A2, W2, D4P'. rewrite D2Q in A3, W3, D4Q. rewrite D2Q' in A4, W4, D4Q'. constructor; rewrite ?Z1; assumption. }
  rewrite (coords_ok _ _ _ _ _ _ _ _ _ _ _ _ _ _ _ couple0 0 F ltac:(lia)). cbn [couple0 c1 c2]. rewrite row_inf. unfold th, th0, act, gmat, mm. cbn [fst snd]. change (S_Curve.pt Zq) with (pt Zq).
  set (A := coeff (e1 EE)) in *. set (A' := coeff (e2 EE)) in *. clearbody A A'. clear - Nt Nt' Ee Ee' Ne Ne' CA CA'.
  assert (M : qadd (qadd (qmul q2 (qmul t t)) (qmul q2 (qmul A t))) q1 = qopp q1) by (transitivity (qadd (qadd (qmul q2 (qmul t t)) (qmul q2 (qmul t A))) q1); [ring|rewrite CA; unfold q2; ring]).
  assert (M' : qadd (qadd (qmul q2 (qmul t' t')) (qmul q2 (qmul A' t'))) q1 = qopp q1) by (transitivity (qadd (qadd (qmul q2 (qmul t' t')) (qmul q2 (qmul t' A'))) q1); [ring|rewrite CA'; unfold q2; ring]).
  change (qadd q1 q1) with q2. rewrite M, M'. field. repeat split; auto; exact (F_1_neq_0 Zq_field).
Qed.
Example C65_ex : exists EE P8 Q8, independent EE 4 P8 Q8 /\ let P4 := prod_double fq_ops EE P8 in let Q4 := prod_double fq_ops EE Q8 in
  independent EE 2 P4 Q4 /\ some_coord (coords EE P4 Q4 couple0) /\ on_EE EE P8 /\ regular EE P4 Q4 P8 /\ affine (c1 P8) <> None /\ affine (c2 P8) <> None.
Proof.
  destruct ex_g1 as (E1 & P1 & Q1 & G1). destruct ex_g2 as (E2 & P2 & Q2 & G2).
  assert (N1 : qfr 5 4 <> q0) by qn. assert (N2 : qfr 13 12 <> q0) by qn. assert (N3 : qfr 3 4 <> q0) by qn. assert (N4 : qfr 5 12 <> q0) by qn.
  assert (S1 : qmul (qfr 3 4) (qfr 3 4) = qsub (qmul (qfr 5 4) (qfr 5 4)) q1) by qe. assert (S2 : qmul (qfr 5 12) (qfr 5 12) = qsub (qmul (qfr 13 12) (qfr 13 12)) q1) by qe.
  exists (mkEprod E1 E2), (mkCouple P1 P2), (mkCouple Q1 Q2).
  destruct (ex_null (mkEprod E1 E2) (mkCouple P1 P2) (mkCouple Q1 Q2) _ _ _ _ G1 G2 N1 N2 S1 S2 N3 N4) as (I & C). split; [exact I|]. cbv zeta in *.
  assert (SC : some_coord (coords (mkEprod E1 E2) (prod_double fq_ops (mkEprod E1 E2) (mkCouple P1 P2)) (prod_double fq_ops (mkEprod E1 E2) (mkCouple Q1 Q2)) couple0)). { exists 0. split; [lia|]. rewrite C. qn. }
  split; [exact (double_indep _ _ _ I)|]. split; [exact SC|]. split; [exact (in_P _ _ _ _ I)|]. split; [|split].
  - destruct (C65_gluing _ _ _ I SC) as (A & GZ & _ & AG & _). destruct GZ as (_ & _ & GN). destruct AG as (x0 & x1 & z0 & z1 & X0 & _ & _ & _ & AG). left. rewrite (proj1 (AG 0 ltac:(lia))). cbn [Nat.odd Nat.even Nat.div Nat.divmod fst negb].
    apply (mulr_nz Zq_field qeqb_true); [exact X0|exact (GN 0 ltac:(lia) ltac:(lia))].
  - intros E. pose proof (xg_4P _ _ _ _ _ G1) as F. cbn [c1] in E. rewrite E in F. discriminate.
  - intros E. pose proof (xg_4P _ _ _ _ _ G2) as F. cbn [c2] in E. rewrite E in F. discriminate.
Qed.
Print Assumptions C65_submatrix.
Print Assumptions C65_base_change.
Print Assumptions C65_faithful.
Print Assumptions C65_zero.
Print Assumptions C65_gluing.
Print Assumptions C65_kernel.
