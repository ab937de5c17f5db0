(** C36, C67: the isomorphism of curves is an isomorphism of groups except at infinity (src/eccore.rs:796-822); the choice of the factor of the codomain and the whole decryption (src/festa.rs:505-586). *)
From Coq Require Import Arith ZArith List Bool Lia Ring Field Znumtheory.
From Verif Require Import L_Iso M_Isogeny P_Velu P_Isogeny M_Super2 M_Theta M_Festa P_Festa P_E0 S_Fp S_Fp2 S_Curve S_Dlog S_Params M_Fp M_Fp2 M_Field M_Curve M_Consts M_Dlog M_Pairing M_Super L_Zp L_Zp2 L_Fp L_Fp2 L_Group L_Kummer L_Field L_Curve L_QNum L_Isog P_Params P_Curve P_Pairing P_PairEx P_Super P_Scalar P_Trapdoor P_Recover L_Ints.
Import ListNotations.
Open Scope Z_scope.
Add Field Zq_f7 : Zq_field.

(** ** C36: the isomorphism as a map of groups *)
Record group_embedding (A B : Zq) (i : pt Zq -> pt Zq) : Prop := {
  ge_on : forall p, on_q A p -> on_q B (i p);
  ge_0 : i None = None;
  ge_inj : forall p q, i p = i q -> p = q;
  ge_add : forall p q, on_q A p -> on_q A q -> i (padd_q A p q) = padd_q B (i p) (i q);
  ge_opp : forall p, i (popp_q p) = popp_q (i p) }.
Theorem C36_homomorphism : forall debug D C f, valid D -> valid C -> jinv_q (coeff D) = jinv_q (coeff C) -> qmul (coeff D) (coeff D) <> qmul (coeff C) (coeff C) -> coeff D <> q0 -> coeff C <> q0 ->
  iso_new fq_ops debug D C = Some f -> (exists z, qmul z z = fqv (iu f)) ->
  exists i, group_embedding (coeff D) (coeff C) i /\ (forall P, affine P <> None -> affine (iso_eval fq_ops f P) = i (affine P)) /\
    (forall P, affine P = None -> affine (iso_eval fq_ops f P) = Some (fqv (iv f), q0) /\ on_E C (iso_eval fq_ops f P)).
Proof.
  intros dbg D C f VD VC J N A0 C0 Ef Sq. destruct (iso_shape fq_laws dbg D C f Ef) as (Ev & Eu & W2 & SH). specialize (W2 Sq).
  destruct (iso_facts fq_laws (coeff C) (coeff D) (valid_smooth C VC) (valid_smooth D VD) (eq_sym J) (not_eq_sym N) C0 A0) as (V1 & BU & U2 & U0). unfold coeff in V1, BU, U2, U0. rewrite <- Ev in V1, BU, U2, U0. rewrite <- Eu in BU, U2, U0.
  exists (im (kadd := qadd) (kmul := qmul) (fqv (iu f)) (fqv (iv f)) (fqv (iw f))). split; [|split].
  - constructor.
    + intros p Hp. exact (im_on fq_laws _ _ _ _ _ V1 BU U2 W2 p Hp).
    + reflexivity.
    + intros p q H. exact (im_inj fq_laws _ _ _ U0 W2 p q H).
    + intros p q Hp Hq. exact (im_add fq_laws _ _ _ _ _ BU U2 U0 W2 p q Hp Hq).
    + intros p. exact (im_opp fq_laws _ _ _ p).
  - intros P HP. destruct (affine P) as [[x y]|] eqn:EP; [|contradiction]. exact (SH P x y EP).
  - intros P HP. assert (E1 : affine (iso_eval fq_ops f P) = Some (fqv (iv f), q0)).
    { unfold iso_eval. pose proof (to_xy_ok fq_laws P) as T. change (match affine P with Some (x, y) => fqv (fst (to_xy fq_ops P)) = x /\ fqv (snd (to_xy fq_ops P)) = y | None => fqv (fst (to_xy fq_ops P)) = q0 /\ fqv (snd (to_xy fq_ops P)) = q0 end) in T. rewrite HP in T. destruct (to_xy fq_ops P) as [px py]. cbn [fst snd] in T. destruct T as [T1 T2]. etransitivity; [exact (aff_new_xy fq_laws _ _)|].
      rewrite !(l_add _ _ _ _ _ _ _ _ _ _ _ fq_laws), !(l_mul _ _ _ _ _ _ _ _ _ _ _ fq_laws), T1, T2. apply f_equal, f_equal2; ring. }
    split; [exact E1|]. unfold on_E. rewrite E1. unfold on_q, S_Curve.on. unfold coeff. clear - V1. revert V1. generalize (fqv (iv f)). intros vv V1.
    symmetry. transitivity (qmul vv (qadd (qadd (qmul vv vv) (qmul (fqv (cA C)) vv)) q1)); [ring|]. rewrite V1. ring.
Qed.
(** the curves of C36_ex: coefficients 34/15 and -41/20 *)
Example C36_homomorphism_ex : exists f i, iso_new fq_ops true exD exC = Some f /\ group_embedding (coeff exD) (coeff exC) i /\ (forall P, affine P <> None -> affine (iso_eval fq_ops f P) = i (affine P)) /\
  on_E exC (iso_eval fq_ops f (infinity fq_ops)) /\ affine (iso_eval fq_ops f (infinity fq_ops)) <> None.
Proof.
  destruct C36_ex as (V1 & V2 & J & N & A0 & C0 & f & Ef & _ & Sq). destruct (C36_homomorphism true exD exC f V1 V2 J N A0 C0 Ef Sq) as (i & G & H1 & H2). exists f, i. split; [exact Ef|]. split; [exact G|]. split; [exact H1|].
  destruct (H2 (infinity fq_ops) C29_infinity) as [H3 H4]. split; [exact H4|]. rewrite H3. discriminate.
Qed.
Print Assumptions C36_homomorphism. Print Assumptions C36_homomorphism_ex.

(** ** C67: the factor of the codomain *)
Lemma feqb_fq x y : feqb fq_ops x y = qeqb (fqv x) (fqv y). Proof. exact (l_eqb _ _ _ _ _ _ _ _ _ _ _ fq_laws x y). Qed.
Lemma feqb_j D C : feqb fq_ops (j_invariant fq_ops D) (j_invariant fq_ops C) = qeqb (jinv_q (coeff D)) (jinv_q (coeff C)).
Proof. rewrite feqb_fq, !C45_j. reflexivity. Qed.
Lemma qeqb_refl x : qeqb x x = true. Proof. apply qeqb_true. reflexivity. Qed.
Lemma qeqb_neq x y : x <> y -> qeqb x y = false. Proof. intros N. destruct (qeqb x y) eqn:E; [|reflexivity]. apply qeqb_true in E. contradiction. Qed.
(** opposite coefficients: the j-invariants agree, the curves are isomorphic by (x,y) -> (-x, iy), but the computed map takes (0,0) off the curve *)
Theorem C36_opposite_refuted : forall debug D C, valid D -> valid C -> coeff C = qopp (coeff D) -> coeff D <> q0 -> qmul (coeff D) (coeff D) <> q3 -> qmul q2 (qmul (coeff D) (coeff D)) <> qmul q3 q3 ->
  exists f P, iso_new fq_ops debug D C = Some f /\ on_E D P /\ affine P <> None /\ ~ on_E C (iso_eval fq_ops f P).
Proof.
  intros dbg D C VD VC EC A0 A3 A9. assert (exists f, iso_new fq_ops dbg D C = Some f) as (f & Ef). { unfold iso_new. rewrite feqb_j. replace (jinv_q (coeff D)) with (jinv_q (coeff C)); [rewrite qeqb_refl, andb_false_r; eexists; reflexivity|]. rewrite EC. unfold jinv_q. cbv zeta. replace (qmul (qopp (coeff D)) (qopp (coeff D))) with (qmul (coeff D) (coeff D)) by ring. reflexivity. }
  exists f, exT. split; [exact Ef|]. split; [apply exT_on|]. split; [rewrite exT_affine; discriminate|]. unfold on_E. rewrite (proj1 (C36_shape dbg D C f Ef exT q0 q0 exT_affine)).
  destruct (iso_shape fq_laws dbg D C f Ef) as (Ev & _). change (fqv (cA D)) with (coeff D) in Ev. change (fqv (cA C)) with (coeff C) in Ev. rewrite EC in *. clear - A0 A3 A9 Ev. revert A0 A3 A9 Ev. generalize (coeff D), (fqv (iv f)), (fqv (iu f)), (fqv (iw f)). intros a v u w A0 A3 A9 Ev H.
  assert (D3 : qsub q3 (qmul a a) <> q0) by (intros X; apply A3; transitivity (qsub q3 (qsub q3 (qmul a a))); [ring|rewrite X; ring]).
  assert (AV : qmul a v = q3). { rewrite Ev. exact (iso_opp fq_laws a A0 D3). }
  unfold on_q, S_Curve.on in H. assert (K : qmul v (qadd (qadd (qmul v v) (qmul (qopp a) v)) q1) = q0) by (transitivity (qmul (qmul w q0) (qmul w q0)); [rewrite H; ring|ring]).
  apply A9. destruct (mul0 Zq_field qeqb_true _ _ K) as [V0|V0].
  - exfalso. rewrite V0 in AV. apply q3_nz. change (q3 = q0). rewrite <- AV. ring.
  - assert (VV : qmul v v = q2) by (transitivity (qadd (qadd (qadd (qmul v v) (qmul (qopp a) v)) q1) (qsub (qmul a v) q1)); [ring|rewrite V0, AV; unfold q3, q2; ring]).
    rewrite <- AV. rewrite <- VV. ring.
Qed.
(** E0 (coefficient 6) and the curve with coefficient -6 *)
Example C36_opposite_ex : exists D C, valid D /\ valid C /\ coeff C = qopp (coeff D) /\ coeff D <> q0 /\ qmul (coeff D) (coeff D) <> q3 /\ qmul q2 (qmul (coeff D) (coeff D)) <> qmul q3 q3.
Proof.
  destruct (fq_surj (qfr 6 1)) as [a Ea]. destruct (fq_surj (qopp (qfr 6 1))) as [b Eb]. exists (mkE a), (mkE b).
  assert (C1 : coeff (mkE a) = qfr 6 1) by exact Ea. assert (C2 : coeff (mkE b) = qopp (qfr 6 1)) by exact Eb.
  assert (V1 : qmul (fqv a) (fqv a) <> q4) by (rewrite Ea, q4_fr; qfrs; apply qfr_neq; [qnz|qnz|split; reflexivity]).
  split; [apply mkE_valid; exact V1|]. split; [apply mkE_valid; rewrite Eb; intros X; apply V1; rewrite Ea, <- X; ring|]. split; [rewrite C1; exact C2|]. rewrite C1. split; [rewrite <- qfr_z; qnz|]. split; [rewrite q3_fr; qfrs; apply qfr_neq; [qnz|qnz|split; reflexivity]|].
  rewrite q2_fr, q3_fr; qfrs; apply qfr_neq; [qnz|qnz|split; reflexivity].
Qed.
Print Assumptions C36_opposite_refuted. Print Assumptions C36_opposite_ex.
(** the chosen factor: the first one if its j-invariant is right *)
Definition first_factor (EE : eprod fq) (E : curve fq) : bool := qeqb (jinv_q (coeff (e1 EE))) (jinv_q (coeff E)).
Definition factor (EE : eprod fq) (E : curve fq) : curve fq := if first_factor EE E then e1 EE else e2 EE.
Definition component (EE : eprod fq) (E : curve fq) (I : couple fq) : point fq := if first_factor EE E then c1 I else c2 I.
(** the curves for which the code's isomorphism is right *)
Definition isomorphic_to (checks : bool) (D E : curve fq) : Prop :=
  coeff D = coeff E \/ (jinv_q (coeff D) = jinv_q (coeff E) /\ qmul (coeff D) (coeff D) <> qmul (coeff E) (coeff E) /\ coeff D <> q0 /\ coeff E <> q0 /\ forall f, iso_new fq_ops checks D E = Some f -> exists z, qmul z z = fqv (iu f)).
Lemma id_embedding A : group_embedding A A (fun p => p).
Proof. constructor; auto. Qed.
Lemma transport_ok checks D E P Q : valid D -> valid E -> isomorphic_to checks D E -> on_E D P -> on_E D Q -> affine P <> None -> affine Q <> None ->
  exists i L1 L2, group_embedding (coeff D) (coeff E) i /\ on_E E L1 /\ on_E E L2 /\ affine L1 = i (affine P) /\ affine L2 = i (affine Q) /\
    (if qeqb (coeff D) (coeff E) then Some (P, Q) else obind (iso_new fq_ops checks D E) (fun f => Some (iso_eval fq_ops f P, iso_eval fq_ops f Q))) = Some (L1, L2).
Proof.
  intros VD VE H OP OQ NP NQ. destruct H as [H|(J & N & D0 & E0 & Sq)].
  - exists (fun p => p), P, Q. rewrite H, qeqb_refl. split; [apply id_embedding|]. unfold on_E in *. rewrite H in OP, OQ. repeat split; assumption.
  - destruct (C36_isomorphism_partial checks D E VD VE J N D0 E0) as (f & Ef & _). destruct (C36_homomorphism checks D E f VD VE J N D0 E0 Ef (Sq f Ef)) as (i & G & HI & _).
    exists i, (iso_eval fq_ops f P), (iso_eval fq_ops f Q). rewrite qeqb_neq by (intros X; apply N; rewrite X; reflexivity). split; [exact G|]. unfold on_E. rewrite !HI by assumption.
    split; [apply (ge_on _ _ _ G); exact OP|]. split; [apply (ge_on _ _ _ G); exact OQ|]. split; [reflexivity|]. split; [reflexivity|]. rewrite Ef. reflexivity.
Qed.
Theorem C67_select : forall checks EE I0 I1 rest E, let D := factor EE E in let p := component EE E in
  valid D -> valid E -> isomorphic_to checks D E -> on_E D (p I0) -> on_E D (p I1) -> affine (p I0) <> None -> affine (p I1) <> None ->
  exists i L1 L2, group_embedding (coeff D) (coeff E) i /\ on_E E L1 /\ on_E E L2 /\ affine L1 = i (affine (p I0)) /\ affine L2 = i (affine (p I1)) /\
    select_factor fq_ops checks EE (I0 :: I1 :: rest) E = Some (L1, L2).
Proof.
  intros checks EE I0 I1 rest E D p VD VE H O0 O1 N0 N1. destruct (transport_ok checks D E (p I0) (p I1) VD VE H O0 O1 N0 N1) as (i & L1 & L2 & G & OL1 & OL2 & A1 & A2 & ES).
  exists i, L1, L2. repeat (split; [assumption|]). rewrite <- ES. unfold select_factor. cbv zeta. rewrite !feqb_j, !feqb_fq.
  assert (J : jinv_q (coeff D) = jinv_q (coeff E)) by (destruct H as [H|(H & _)]; [rewrite H; reflexivity|exact H]). revert J. unfold D, p, factor, component, first_factor. destruct (qeqb (jinv_q (coeff (e1 EE))) (jinv_q (coeff E))); [reflexivity|].
  intros J. rewrite J, qeqb_refl, andb_false_r. reflexivity.
Qed.
(** in debug builds a codomain without the right curve is rejected; in release builds any codomain is accepted *)
Theorem C67_select_rejects : forall EE imgs E, jinv_q (coeff (e1 EE)) <> jinv_q (coeff E) -> jinv_q (coeff (e2 EE)) <> jinv_q (coeff E) -> select_factor fq_ops true EE imgs E = None.
Proof.
  intros EE imgs E N1 N2. unfold select_factor. cbv zeta. rewrite !feqb_j, !qeqb_neq by (try assumption; intros X; apply N2; symmetry; exact X). destruct imgs as [|I0 [|I1 r]]; reflexivity.
Qed.
Theorem C67_select_release : forall EE I0 I1 rest E, exists L, select_factor fq_ops false EE (I0 :: I1 :: rest) E = Some L.
Proof.
  intros EE I0 I1 rest E. unfold select_factor, iso_new. cbv zeta. cbn [andb]. destruct (feqb fq_ops (j_invariant fq_ops (e1 EE)) _); [destruct (feqb fq_ops (cA (e1 EE)) _)|destruct (feqb fq_ops (cA (e2 EE)) _)]; cbn [obind]; eexists; reflexivity.
Qed.
(** the curves of C36_ex, points (0,0) *)
Example C67_select_ex : exists P L, on_E exD P /\ affine P = Some (q0, q0) /\ on_E exC L /\ affine L <> None /\ select_factor fq_ops true (mkEprod exD exE) [mkCouple P P; mkCouple P P] exC = Some (L, L).
Proof.
  destruct C36_ex as (V1 & V2 & J & N & A0 & C0 & f & Ef & _ & Sq). set (P := exT). exists P. set (EE := mkEprod exD exE).
  assert (FF : first_factor EE exC = true) by (unfold first_factor; apply qeqb_true; exact J).
  assert (FD : factor EE exC = exD) by (unfold factor; rewrite FF; reflexivity). assert (FP : component EE exC (mkCouple P P) = P) by (unfold component; rewrite FF; reflexivity).
  assert (AP : affine P = Some (q0, q0)) by exact exT_affine. assert (OP : on_E exD P) by (unfold on_E; rewrite AP; unfold on_q, S_Curve.on; ring).
  assert (IS : isomorphic_to true exD exC). { right. split; [exact J|]. split; [exact N|]. split; [exact A0|]. split; [exact C0|]. intros g Eg. rewrite Ef in Eg. apply some_inj in Eg. subst g. exact Sq. }
  pose proof (C67_select true EE (mkCouple P P) (mkCouple P P) [] exC) as T. cbv zeta in T. rewrite FD, FP in T. assert (NP : affine P <> None) by (rewrite AP; discriminate).
  destruct (T V1 V2 IS OP OP NP NP) as (i & L1 & L2 & G & O1 & O2 & E1 & E2 & ES). exists L1. split; [exact OP|]. split; [exact AP|]. split; [exact O1|]. split.
  - rewrite E1. intros X. rewrite <- (ge_0 _ _ _ G) in X. apply (ge_inj _ _ _ G) in X. exact (NP X).
  - assert (EL : L1 = L2); [|rewrite ES, EL; reflexivity]. revert ES. unfold select_factor. cbv zeta. change (e1 EE) with exD. rewrite feqb_j, J, qeqb_refl. destruct (feqb fq_ops (cA exD) (cA exC)); [intros ES; apply some_inj in ES; injection ES; intros; congruence|]. rewrite Ef. cbn [obind]. intros ES. apply some_inj in ES. injection ES. intros X Y. rewrite <- X, <- Y. reflexivity.
Qed.
Print Assumptions C67_select. Print Assumptions C67_select_rejects. Print Assumptions C67_select_release. Print Assumptions C67_select_ex.

(** ** C67: the whole inversion *)
Local Notation "k *[ E ] p" := (pmul_q (coeff E) k (affine p)) (at level 35, p at level 30).
(** what the holder of the secret key must have *)
Record key_ok (checks : bool) (sk : secret_key fq) : Prop := {
  k_E : valid (sk_EA sk);
  k_on : on_E (sk_EA sk) (fst (sk_bd1 sk)) /\ on_E (sk_EA sk) (snd (sk_bd1 sk)) /\ on_E (sk_EA sk) (fst (sk_d2 sk)) /\ on_E (sk_EA sk) (snd (sk_d2 sk));
  k_b1 : n_basis (coeff (sk_EA sk)) (2 ^ 634 * ed1) (affine (fst (sk_bd1 sk))) (affine (snd (sk_bd1 sk)));
  k_b2 : n_basis (coeff (sk_EA sk)) ed2 (affine (fst (sk_d2 sk))) (affine (snd (sk_d2 sk)));
  k_w1 : full_pairing checks (sk_EA sk) ed1 (2 ^ 634 *[sk_EA sk] fst (sk_bd1 sk)) (2 ^ 634 *[sk_EA sk] snd (sk_bd1 sk));
  k_w2 : full_pairing checks (sk_EA sk) ed2 (affine (fst (sk_d2 sk))) (affine (snd (sk_d2 sk)));
  k_A : 0 <= fst (sk_A sk) /\ 0 <= snd (sk_A sk) /\ Z.odd (fst (sk_A sk)) = true /\ Z.odd (snd (sk_A sk)) = true }.
(** L1 and L2 carry the message (s1, s2, b) *)
Definition carries (self : festa fq) (sk : secret_key fq) (s1 s2 b : Z) (L1 L2 : point fq) : Prop := let E := sk_EA sk in
  on_E E L1 /\ on_E E L2 /\
  kernel_images (coeff E) D1_FACTORED (2 ^ 634 *[E] fst (sk_bd1 sk)) (2 ^ 634 *[E] snd (sk_bd1 sk)) s1 ((2 ^ 634 * ed2) *[E] L1) ((2 ^ 634 * ed2) *[E] L2) /\
  kernel_images (coeff E) D2_FACTORED (affine (fst (sk_d2 sk))) (affine (snd (sk_d2 sk))) s2 ((2 ^ 634 * ed1) *[E] L1) ((2 ^ 634 * ed1) *[E] L2) /\
  same_up_to_sign ((ed1 * ed2) *[E] L1) (pmul_q (coeff E) (ed1 * (ed1 * ed2) * em1 * b) (fe_clear_d1 self *[E] fst (sk_bd1 sk))).
(** the pairings of the points multiplied by 4 cancel *)
Definition pairings_cancel (checks : bool) (E1 E2 : curve fq) (p1 q1' p2 q2' : pt Zq) : Prop :=
  forall P1 Q1 P2 Q2 w1 w2, on_E E1 P1 -> on_E E1 Q1 -> on_E E2 P2 -> on_E E2 Q2 ->
    affine P1 = pmul_q (coeff E1) 4 p1 -> affine Q1 = pmul_q (coeff E1) 4 q1' -> affine P2 = pmul_q (coeff E2) 4 p2 -> affine Q2 = pmul_q (coeff E2) 4 q2' ->
    weil_pairing fq_ops checks E1 P1 Q1 (2 ^ 632) = Some w1 -> weil_pairing fq_ops checks E2 P2 Q2 (2 ^ 632) = Some w2 -> qmul (fqv w1) (fqv w2) = q1.

Lemma inverse_intro F (o : fops F) dlp fuel checks self c sk i11 i22 R2 S2 PQ1 PQ2 gP2 gQ2 w1 w2 res L ti : let E1 := to_E1 c in let E2 := to_E2 c in
  xgcd_big (fst (sk_A sk)) (fe_l self) = Some i11 -> xgcd_big (snd (sk_A sk)) (fe_l self) = Some i22 -> mul_big o E2 (to_R2 c) i11 = Some R2 -> mul_big o E2 (to_S2 c) i22 = Some S2 ->
  torsion_basis o fuel checks E1 D1_FACTORED 634 = Some PQ1 -> torsion_basis o fuel checks E2 D2_FACTORED 634 = Some PQ2 -> mul_big o E2 R2 (fe_g2 self) = Some gP2 -> mul_big o E2 S2 (fe_g2 self) = Some gQ2 ->
  weil_pairing o checks E1 (double_iter o E1 (to_R1 c) 2) (double_iter o E1 (to_S1 c) 2) (2 ^ 632) = Some w1 -> weil_pairing o checks E2 (double_iter o E2 gP2 2) (double_iter o E2 gQ2 2) (2 ^ 632) = Some w2 ->
  (checks = true -> feqb o (fmul o w1 w2) (fone o) = true) ->
  product_isogeny o (mkEprod E1 E2) (mkCouple (to_R1 c) gP2) (mkCouple (to_S1 c) gQ2) [mkCouple (add_pts o E1 (fst PQ1) (to_R1 c)) (fst PQ2); mkCouple (add_pts o E1 (snd PQ1) (to_S1 c)) (snd PQ2)] 632 THETA_STRATEGY = Some res ->
  select_factor o checks (fst res) (snd res) (sk_EA sk) = Some L -> recover_si_and_B o dlp fuel checks self (sk_EA sk) (fst L) (snd L) (sk_bd1 sk) (sk_d2 sk) = Some ti ->
  trapdoor_inverse o dlp fuel checks self c sk = Some ti.
Proof.
  intros E1 E2 H1 H2 H3 H4 H5 H6 H7 H8 H9 H10 HC H11 H12 H13. unfold trapdoor_inverse. change (Z.to_nat L_POWER) with 634%nat. change THETA_ISOGENY_LENGTH with 632. change (Z.to_nat 632) with 632%nat. cbv zeta. fold E1 E2.
  rewrite H1. cbn [obind]. rewrite H2. cbn [obind]. rewrite H3. cbn [obind]. rewrite H4. cbn [obind]. rewrite H5. cbn [obind]. rewrite H6. cbn [obind]. rewrite H7. cbn [obind]. rewrite H8. cbn [obind]. rewrite H9. cbn [obind]. rewrite H10. cbn [obind].
  replace (checks && negb (feqb o (fmul o w1 w2) (fone o))) with false by (destruct checks; [rewrite HC by reflexivity|]; reflexivity). rewrite H11. cbn [obind]. rewrite H12. cbn [obind]. exact H13.
Qed.
Lemma unmask E a R U : valid E -> on_E E R -> on_E E U -> 0 <= a -> Z.odd a = true -> pmul_q (coeff E) (2 ^ 634) (affine U) = None -> affine R = a *[E] U ->
  exists i R', xgcd_big a (2 ^ 634) = Some i /\ mul_big fq_ops E R i = Some R' /\ on_E E R' /\ affine R' = affine U.
Proof.
  intros V OR OU Ha Oa ZU ER. assert (Hl : 0 < 2 ^ 634) by reflexivity. destruct (xgcd_big_ok a (2 ^ 634) Ha Hl) as (i & Ei & [Bi _] & Di). rewrite (odd_gcd a Oa) in Di.
  destruct (C31_mul_big E R i V OR Bi) as (R' & ER' & OR' & AR'). exists i, R'. split; [exact Ei|]. split; [exact ER'|]. split; [exact OR'|]. rewrite AR', ER, (pm_mul V) by assumption.
  assert (N0 : 0 <= i * a) by (apply Z.mul_nonneg_nonneg; assumption). rewrite (P_Recover.pm_mod V (2 ^ 634) (i * a) (affine U) Hl N0 OU ZU). replace ((i * a) mod 2 ^ 634) with 1; [reflexivity|].
  destruct Di as [k Hk]. replace (i * a) with (1 + k * 2 ^ 634) by (clear - Hk; lia). rewrite Z.mod_add by discriminate. reflexivity.
Qed.
Lemma quarter_weil checks E P Q : valid E -> on_E E P -> on_E E Q -> n_basis (coeff E) (2 ^ 634) (affine P) (affine Q) ->
  exists w, weil_pairing fq_ops checks E (double_iter fq_ops E P 2) (double_iter fq_ops E Q 2) (2 ^ 632) = Some w.
Proof.
  intros V OP OQ B. destruct (C30_double_iter E P 2 V OP) as [O1 A1]. destruct (C30_double_iter E Q 2 V OQ) as [O2 A2]. change (2 ^ Z.of_nat 2) with 4 in A1, A2.
  change (2 ^ 634) with (4 * 2 ^ 632) in B. assert (B4 := basis_part V 4 (2 ^ 632) _ _ ltac:(reflexivity) ltac:(reflexivity) OP OQ B). rewrite <- A1, <- A2 in B4.
  destruct (C55_weil checks E (2 ^ 632) _ _ V ltac:(reflexivity) O1 O2 B4) as (w & Ew & _). exists w. exact Ew.
Qed.
(** decryption: R1, S1 of the ciphertext generate the 2^634-torsion of E1; R2 = A11*U, S2 = A22*W with (U,W) a basis of the 2^634-torsion of E2, the pairings of the two sides cancel (asserted by debug builds only);
    if the isogeny of E1 x E2 with kernel generated by (R1, g2*U) and (S1, g2*W) sends (P1 + R1, P2) and (Q1 + S1, Q2) to points which, on the factor EA', carry the message, the message is returned *)
Theorem C67_inverse : forall root fuel0 fuel checks self sk c U W P1 Q1 P2 Q2 s1 s2 b, let E1 := to_E1 c in let E2 := to_E2 c in
  festa_new fq_ops root fuel0 checks = Some self -> key_ok checks sk ->
  valid E1 -> on_E E1 (to_R1 c) -> on_E E1 (to_S1 c) -> n_basis (coeff E1) (2 ^ 634) (affine (to_R1 c)) (affine (to_S1 c)) ->
  valid E2 -> on_E E2 (to_R2 c) -> on_E E2 (to_S2 c) -> on_E E2 U -> on_E E2 W -> n_basis (coeff E2) (2 ^ 634) (affine U) (affine W) ->
  affine (to_R2 c) = fst (sk_A sk) *[E2] U -> affine (to_S2 c) = snd (sk_A sk) *[E2] W ->
  torsion_basis fq_ops fuel checks E1 D1_FACTORED 634 = Some (P1, Q1) -> torsion_basis fq_ops fuel checks E2 D2_FACTORED 634 = Some (P2, Q2) -> on_E E1 P1 -> on_E E1 Q1 ->
  (checks = true -> pairings_cancel checks E1 E2 (affine (to_R1 c)) (affine (to_S1 c)) (fe_g2 self *[E2] U) (fe_g2 self *[E2] W)) ->
  (forall gP2 gQ2 T1 T2, on_E E2 gP2 -> on_E E2 gQ2 -> affine gP2 = fe_g2 self *[E2] U -> affine gQ2 = fe_g2 self *[E2] W ->
     on_E E1 T1 -> on_E E1 T2 -> affine T1 = padd_q (coeff E1) (affine P1) (affine (to_R1 c)) -> affine T2 = padd_q (coeff E1) (affine Q1) (affine (to_S1 c)) ->
     exists EE imgs L1 L2, product_isogeny fq_ops (mkEprod E1 E2) (mkCouple (to_R1 c) gP2) (mkCouple (to_S1 c) gQ2) [mkCouple T1 P2; mkCouple T2 Q2] 632 THETA_STRATEGY = Some (EE, imgs) /\
       select_factor fq_ops checks EE imgs (sk_EA sk) = Some (L1, L2) /\ carries self sk s1 s2 b L1 L2) ->
  0 <= s1 -> 0 <= s2 -> 0 < b <= 2 ^ 633 -> Z.odd b = true ->
  exists y, trapdoor_inverse fq_ops (dlp_fq checks) fuel checks self c sk = Some (mkTI (s1 mod ed1) (s2 mod ed2) (b, y)) /\ 0 < y < 2 ^ 634 /\ (2 ^ 634 | b * y - 1).
Proof.
  intros root fuel0 fuel checks self sk c U W P1 Q1 P2 Q2 s1 s2 b E1 E2 HN K V1 OR1 OS1 B1 V2 OR2 OS2 OU OW B2 AR2 AS2 T1 T2 OP1 OQ1 PC HX Hs1 Hs2 Hb Ob.
  destruct (C58_new _ _ _ _ _ _ HN) as (EL & _ & _ & _ & _ & SS). destruct (s_pos _ _ _ _ _ _ _ _ _ _ _ SS) as (_ & _ & _ & _ & Hg).
  assert (Og : Z.gcd (fe_g2 self) (2 ^ 634) = 1). { apply odd_gcd. pose proof (s_g2 _ _ _ _ _ _ _ _ _ _ _ SS) as D. pose proof e_odd as (X1 & _ & X3 & _). clear - D X1 X3. assert (O : Z.odd (em1 * ed1) = true) by (rewrite Z.odd_mul, X1, X3; reflexivity).
    revert D O. generalize (em1 * ed1), (em2 * eda2 * ed2). intros x y [k Hk] O. change (2 ^ 634) with (2 * 2 ^ 633) in Hk. assert (E : Z.odd (fe_g2 self * y) = true) by (replace (fe_g2 self * y) with (x + 2 * (k * 2 ^ 633)) by lia; rewrite Z.odd_add, O, Z.odd_mul; reflexivity).
    rewrite Z.odd_mul in E. apply andb_prop in E. apply E. } clear SS.
  destruct (k_A _ _ K) as (A1 & A2 & A3 & A4). pose proof B2 as (ZU & ZW & _).
  destruct (unmask E2 _ (to_R2 c) U V2 OR2 OU A1 A3 ZU AR2) as (i11 & R' & EI1 & EM1 & OR' & AR'). destruct (unmask E2 _ (to_S2 c) W V2 OS2 OW A2 A4 ZW AS2) as (i22 & S' & EI2 & EM2 & OS' & AS').
  destruct (C31_mul_big E2 R' (fe_g2 self) V2 OR' Hg) as (gP & EgP & OgP & AgP). destruct (C31_mul_big E2 S' (fe_g2 self) V2 OS' Hg) as (gQ & EgQ & OgQ & AgQ). rewrite AR' in AgP. rewrite AS' in AgQ.
  assert (Bg : n_basis (coeff E2) (2 ^ 634) (affine gP) (affine gQ)) by (rewrite AgP, AgQ; apply (basis_mul V2); try assumption; reflexivity).
  destruct (quarter_weil checks E1 _ _ V1 OR1 OS1 B1) as (w1 & Ew1). destruct (quarter_weil checks E2 _ _ V2 OgP OgQ Bg) as (w2 & Ew2).
  destruct (C29_add E1 P1 (to_R1 c) V1 OP1 OR1) as [OT1 AT1]. destruct (C29_add E1 Q1 (to_S1 c) V1 OQ1 OS1) as [OT2 AT2].
  destruct (HX gP gQ _ _ OgP OgQ AgP AgQ OT1 OT2 AT1 AT2) as (EE & imgs & L1 & L2 & EP & ES & (OL1 & OL2 & KI1 & KI2 & SR)).
  assert (HC : checks = true -> feqb fq_ops (fmul fq_ops w1 w2) (fone fq_ops) = true).
  { intros HT. rewrite feqb_fq. rewrite (l_mul _ _ _ _ _ _ _ _ _ _ _ fq_laws), (l_one _ _ _ _ _ _ _ _ _ _ _ fq_laws). apply qeqb_true.
    destruct (C30_double_iter E1 (to_R1 c) 2 V1 OR1) as [D1 F1]. destruct (C30_double_iter E1 (to_S1 c) 2 V1 OS1) as [D2 F2]. destruct (C30_double_iter E2 gP 2 V2 OgP) as [D3 F3]. destruct (C30_double_iter E2 gQ 2 V2 OgQ) as [D4 F4].
    change (2 ^ Z.of_nat 2) with 4 in F1, F2, F3, F4. rewrite AgP in F3. rewrite AgQ in F4. exact (PC HT _ _ _ _ w1 w2 D1 D2 D3 D4 F1 F2 F3 F4 Ew1 Ew2). }
  destruct (k_on _ _ K) as (O1 & O2 & O3 & O4).
  pose proof (C66_recover root fuel0 fuel checks self (sk_EA sk) L1 L2 (fst (sk_bd1 sk)) (snd (sk_bd1 sk)) (fst (sk_d2 sk)) (snd (sk_d2 sk)) s1 s2 b HN (k_E _ _ K) OL1 OL2 O1 O2 O3 O4 (k_b1 _ _ K) (k_b2 _ _ K) (k_w1 _ _ K) (k_w2 _ _ K) Hs1 KI1 Hs2 KI2 Hb Ob SR) as RC.
  rewrite <- !surjective_pairing in RC. destruct RC as (y & EY & By & Dy). exists y. split; [|split; [exact By|exact Dy]]. rewrite <- EL in EI1, EI2.
  exact (inverse_intro _ _ _ _ _ _ _ _ _ _ _ _ _ _ _ _ _ _ _ (L1, L2) _ EI1 EI2 EM1 EM2 T1 T2 EgP EgQ Ew1 Ew2 HC EP ES EY).
Qed.
Print Assumptions C67_inverse.
(** equality of messages is equality of all four integers *)
Theorem C67_equality : forall a b, ti_eqb a b = true <-> a = b.
Proof.
  intros [s1 s2 [x y]] [t1 t2 [z w]]. unfold ti_eqb. cbn [ti_s1 ti_s2 ti_B fst snd]. rewrite !andb_true_iff, !Z.eqb_eq. split; [intros [[[-> ->] ->] ->]; reflexivity|]. intros H. injection H as -> -> -> ->. repeat split.
Qed.
Example C67_equality_ex : ti_eqb (mkTI 1 2 (3, 4)) (mkTI 1 2 (3, 4)) = true /\ ti_eqb (mkTI 1 2 (3, 4)) (mkTI 1 2 (3, 5)) = false. Proof. split; reflexivity. Qed.
Print Assumptions C67_equality.
