(** Concrete cases and refutations for C28 and C55 (src/pairing.rs, src/discrete_log.rs:167-190). *)
From Coq Require Import Arith ZArith List Bool Lia Ring Field Znumtheory.
From Verif Require Import S_Fp S_Fp2 S_Dlog S_Curve S_Params M_Fp M_Fp2 M_Field M_Curve M_Consts M_Dlog M_Pairing M_Super L_Words L_FpCodec L_Zp L_Zp2 L_Fp L_Fp2 L_Fp2Roots L_Fp2Misc L_Group L_Kummer L_Field L_QNum L_Curve L_Ints L_Dlog L_Super L_Weil L_Weil2 L_PairEx L_Pairing P_Fp2 P_Params P_Curve P_Dlog P_Super P_Pairing.
Import ListNotations.
Open Scope Z_scope.

Lemma some_inj {T} (a b : T) : Some a = Some b -> a = b. Proof. intros H. injection H as ->. reflexivity. Qed.
Lemma fq_surj q : exists x : fq, fqv x = q.
Proof. destruct (fv2_surj q) as (x & C & V). exists (mkq x C). exact V. Qed.
Definition qim : Zq := (zp0, zp1).
Lemma qim_sq : qmul qim qim = qopp q1. Proof. unfold qmul, qim, qopp, q1. cbn [fst snd]. apply (f_equal2 (@pair Zp Zp)); ring. Qed.
Definition q5 : Zq := qadd q2 q3.
Lemma q5_fr : q5 = qz 5. Proof. unfold q5. rewrite q2_fr, q3_fr, <- !qfr_z, <- qz_add. reflexivity. Qed.
Lemma q5_nz : q5 <> q0. Proof. rewrite q5_fr. qnz. Qed.
Lemma q15 : exists s, qmul s s = qmul q3 q5.
Proof. destruct (qz_square 15) as [s Hs]. exists s. rewrite Hs. rewrite q5_fr, q3_fr, <- qfr_z, <- qz_mul. reflexivity. Qed.
Notation x4A := (L_PairEx.x4A (k1 := q1) (kadd := qadd) (kmul := qmul) (kopp := qopp) (kdiv := qdiv)).
Notation x4P := (L_PairEx.x4P (k1 := q1) (kadd := qadd) (kmul := qmul) (kdiv := qdiv)).
Notation x4Q := (L_PairEx.x4Q (k1 := q1) (kadd := qadd) (kmul := qmul) (kdiv := qdiv)).
(** y^2 = x^3 - (34/15) x^2 + x with a basis of its 4-torsion *)
Record ex4 (s : Zq) (E : curve fq) (P Q : point fq) : Prop := { e4_s : qmul s s = qmul q3 q5; e4_v : valid E; e4_A : coeff E = x4A; e4_P : affine P = x4P qim s; e4_Q : affine Q = x4Q s; e4_oP : on_E E P; e4_oQ : on_E E Q }.
Lemma ex4_some : exists s E P Q, ex4 s E P Q.
Proof.
  destruct q15 as [s Hs]. destruct (fq_surj x4A) as [a Va]. destruct (fq_surj (x4y1 (k1 := q1) (kadd := qadd) (kmul := qmul) (kdiv := qdiv) qim s)) as [y1 V1]. destruct (fq_surj (x4y2 (k1 := q1) (kadd := qadd) (kmul := qmul) (kdiv := qdiv) s)) as [y2 V2].
  exists s, (mkE a), (new_xy fq_ops (fone fq_ops) y1), (new_xy fq_ops (fthree fq_ops) y2).
  assert (AP : affine (new_xy fq_ops (fone fq_ops) y1) = x4P qim s). { change (affine ?R) with (aff (k0 := q0) (kdiv := qdiv) (keq := qeqb) (v := fqv) R). rewrite (aff_new_xy fq_laws), (l_one _ _ _ _ _ _ _ _ _ _ _ fq_laws), V1. reflexivity. }
  assert (AQ : affine (new_xy fq_ops (fthree fq_ops) y2) = x4Q s). { change (affine ?R) with (aff (k0 := q0) (kdiv := qdiv) (keq := qeqb) (v := fqv) R). rewrite (aff_new_xy fq_laws), (l_three _ _ _ _ _ _ _ _ _ _ _ fq_laws), V2. reflexivity. }
  assert (EA : coeff (mkE a) = x4A) by exact Va.
  constructor; auto.
  - apply mkE_valid. rewrite Va. exact (x4_smooth Zq_field qeqb_true q2_nz q3_nz q5_nz).
  - unfold on_E. rewrite AP, EA. exact (x4_onP Zq_field qeqb_true q2_nz q3_nz q5_nz qim s qim_sq Hs).
  - unfold on_E. rewrite AQ, EA. exact (x4_onQ Zq_field qeqb_true q2_nz q3_nz q5_nz qim s qim_sq Hs).
Qed.
Lemma pmA A k p : 0 <= k -> pmul_q A k p = S_Curve.pmul_nat q1 qadd qmul qsub qopp qdiv qeqb A (Z.to_nat k) p. Proof. intros. unfold pmul_q. apply pmul_to_nat. exact H. Qed.
Section Ex4.
Context (s : Zq) (E : curve fq) (P Q : point fq) (X : ex4 s E P Q).
Lemma mod4 i : (i mod 4 = 0)%nat -> (4 | Z.of_nat i).
Proof. intros H. exists (Z.of_nat (i / 4)). rewrite (Nat.div_mod_eq i 4) at 1. lia. Qed.
Lemma ex4_basis : n_basis (coeff E) 4 (affine P) (affine Q).
Proof.
  destruct X as [Hs V EA AP AQ OP OQ]. rewrite EA, AP, AQ. split; [|split].
  - rewrite pmA by lia. exact (x4_mP Zq_field qeqb_true q2_nz q3_nz q5_nz qim s qim_sq Hs 4).
  - rewrite pmA by lia. exact (x4_mQ Zq_field qeqb_true q2_nz q3_nz q5_nz qim s qim_sq Hs 4).
  - intros i j Hi Hj Z. rewrite (pmA _ i), (pmA _ j) in Z by assumption. destruct (x4_indep Zq_field qeqb_true q2_nz q3_nz q5_nz qim s qim_sq Hs _ _ Z) as [A B]. apply mod4 in A, B. rewrite Z2Nat.id in A, B by assumption. auto.
Qed.
Lemma qim_order : unit_order qim 4.
Proof.
  assert (P2 : qpow qim 2 = qopp q1) by (change 2 with (1 + 1); rewrite qpow_succ by lia; rewrite qpow_1; exact qim_sq).
  assert (P4 : qpow qim 4 = q1) by (change 4 with (2 + 2); rewrite qpow_add by lia; rewrite P2; exact (opp1_sq Zq_field)).
  split; [lia|]. split; [exact P4|]. intros k Hk E1. apply neg1_neq. rewrite <- P2. assert (C : k = 1 \/ k = 2 \/ k = 3) by lia. destruct C as [->|[->| ->]]; [|exact E1|].
  - rewrite qpow_1 in E1. rewrite E1. change 2 with (1 + 1). rewrite qpow_succ by lia. rewrite qpow_1. apply qmul_1_l.
  - assert (E4 : qim = q1) by (transitivity (qmul qim (qpow qim 3)); [rewrite E1; symmetry; apply qmul_1_r|rewrite <- (qpow_succ qim 3) by lia; exact P4]).
    rewrite E4. change 2 with (1 + 1). rewrite qpow_succ by lia. rewrite qpow_1. apply qmul_1_l.
Qed.
Lemma ex4_weil c : exists w, weil_pairing fq_ops c E P Q 4 = Some w /\ fqv w = qim.
Proof.
  destruct (weil_PQ c E (e4_v _ _ _ _ X) 4 ltac:(lia) P Q (e4_oP _ _ _ _ X) (e4_oQ _ _ _ _ X) ex4_basis) as (w & Ew & Vw). exists w. split; [exact Ew|]. rewrite Vw. unfold L_Weil.ee.
  rewrite <- (aP E 4 ltac:(lia) P Q (e4_oP _ _ _ _ X) ex4_basis), <- (aQ E 4 ltac:(lia) P Q). rewrite (e4_A _ _ _ _ X), (e4_P _ _ _ _ X), (e4_Q _ _ _ _ X).
  exact (x4_weil Zq_field qeqb_true q2_nz q3_nz q5_nz qim s qim_sq (e4_s _ _ _ _ X)).
Qed.
Definition ex4_R := add_pts fq_ops E P (double_pt fq_ops E Q).
Lemma ex4_exact R : on_E E R -> pmul_q (coeff E) 4 (affine R) = None -> pmul_q (coeff E) 2 (affine R) <> None -> exact_order (coeff E) 4 (affine R).
Proof.
  intros HR O4 O2. assert (SM := valid_smooth E (e4_v _ _ _ _ X)). split; [exact O4|]. intros k Hk Z. apply O2. rewrite pmA in * by lia. change (Z.to_nat 2) with (1 + 1)%nat. assert (C : k = 1 \/ k = 2 \/ k = 3) by lia. destruct C as [->|[->| ->]]; [|exact Z|].
  - rewrite (pmul_nat_add Zq_field qeqb_true q2_nz SM) by exact HR. change (Z.to_nat 1) with 1%nat in Z. rewrite Z. reflexivity.
  - change (Z.to_nat 3) with (2 + 1)%nat in Z. change (Z.to_nat 4) with (3 + 1)%nat in O4. rewrite (pmul_nat_add Zq_field qeqb_true q2_nz SM) in O4 by exact HR. change 3%nat with (2 + 1)%nat in O4. rewrite Z in O4. rewrite (pmul_nat_add Zq_field qeqb_true q2_nz SM) by exact HR. rewrite padd_0_l in O4. rewrite O4. reflexivity.
Qed.
End Ex4.

(** ** C55: the hypotheses are met, and the pairing of the basis is the primitive fourth root of unity i *)
Example C55_ex : exists E P Q, valid E /\ on_E E P /\ on_E E Q /\ n_basis (coeff E) 4 (affine P) (affine Q) /\ forall checks, exists w, weil_pairing fq_ops checks E P Q 4 = Some w /\ fqv w = qim /\ unit_order (fqv w) 4.
Proof.
  destruct ex4_some as (s & E & P & Q & X). exists E, P, Q. pose proof X as [Hs V EA AP AQ OP OQ]. split; [exact V|]. split; [exact OP|]. split; [exact OQ|]. split; [exact (ex4_basis s E P Q X)|].
  intros c. destruct (ex4_weil s E P Q X c) as (w & Ew & Vw). exists w. rewrite Vw. split; [exact Ew|]. split; [reflexivity|exact qim_order].
Qed.
(** ** C28: coordinates (1,2), and the dependent points P (coordinates (1,0)) and 3Q *)
Example C28_ex : exists E P Q, valid E /\ on_E E P /\ on_E E Q /\ n_basis (coeff E) 4 (affine P) (affine Q) /\ forall checks,
  bidlp fq_ops (dlp_fq checks) checks E (add_pts fq_ops E P (double_pt fq_ops E Q)) P Q [(2, 2)] None = Some (1, 2) /\
  bidlp fq_ops (dlp_fq checks) checks E P P Q [(2, 2)] None = Some (1, 0) /\
  bidlp fq_ops (dlp_fq checks) checks E (p_neg fq_ops Q) P Q [(2, 2)] None = Some (0, 3).
Proof.
  destruct ex4_some as (s & E & P & Q & X). exists E, P, Q. pose proof X as [Hs V EA AP AQ OP OQ]. pose proof (ex4_basis s E P Q X) as B. assert (SM := valid_smooth E V).
  split; [exact V|]. split; [exact OP|]. split; [exact OQ|]. split; [exact B|]. intros c.
  assert (G : forall R a b, on_E E R -> 0 <= a < 4 -> 0 <= b < 4 -> Z.odd a = true \/ Z.odd b = true -> affine R = padd_q (coeff E) (pmul_q (coeff E) a (affine P)) (pmul_q (coeff E) b (affine Q)) -> bidlp fq_ops (dlp_fq c) c E R P Q [(2, 2)] None = Some (a, b)).
  { intros R a b OR Ha Hb Od ER. apply (C28_bidlp_pow2_partial c E P Q R 2 a b); auto; try lia; try exact Ha; try exact Hb. change (2 ^ 2) with 4.
    pose proof (b_OP E 4 ltac:(lia) P Q B) as O1. pose proof (b_OQ E 4 ltac:(lia) P Q B) as O2. pose proof (b_in E 4 P Q B) as IN.
    rewrite (comb_pz E V 4 ltac:(lia) P Q OP OQ B) in ER by lia. apply (ex4_exact s E P Q X R OR); rewrite ER, pmA by lia; rewrite (pz_mul Zq_field qeqb_true q2_nz SM (affine P) (affine Q) OP OQ 4 ltac:(lia) O1 O2 IN); [apply (pz_None (affine P) (affine Q) 4 ltac:(lia) IN); split; [exists a|exists b]; lia|].
    intros N. apply (pz_None (affine P) (affine Q) 4 ltac:(lia) IN) in N. destruct N as [[u Hu] [v Hv]]. change (Z.of_nat (Z.to_nat 2)) with 2 in *.
    destruct Od as [Od|Od]; [replace a with (2 * u) in Od by lia|replace b with (2 * v) in Od by lia]; rewrite Z.odd_mul in Od; discriminate. }
  split; [|split].
  - destruct (C30_double E Q V OQ) as [OD AD]. destruct (C29_add E P (double_pt fq_ops E Q) V OP OD) as [OR AR]. apply G; auto; try lia; auto. rewrite AR, AD. rewrite !pmA by lia. change (Z.to_nat 1) with 1%nat. change (Z.to_nat 2) with 2%nat. rewrite pmul_nat_1, pmul_nat_2. reflexivity.
  - apply G; auto; try lia; auto. rewrite !pmA by lia. change (Z.to_nat 1) with 1%nat. change (Z.to_nat 0) with 0%nat. rewrite pmul_nat_1. cbn [S_Curve.pmul_nat]. unfold padd_q. rewrite padd_0_r. reflexivity.
  - assert (ON : on_E E (p_neg fq_ops Q)) by (apply (neg_on fq_laws), OQ). apply G; auto; try lia; auto. rewrite !pmA by lia. change (Z.to_nat 0) with 0%nat. change (S_Curve.pmul_nat q1 qadd qmul qsub qopp qdiv qeqb (coeff E) 0 (affine P)) with (@None (Zq * Zq)). unfold padd_q. rewrite padd_0_l.
    rewrite C29_neg, AQ, EA. change (Z.to_nat 3) with 3%nat. rewrite (x4_mQ Zq_field qeqb_true q2_nz q3_nz q5_nz qim s qim_sq Hs 3). reflexivity.
Qed.
(** The full statement is false: R = 2P lies in the group spanned by the basis, and bidlp panics on it in every build. *)
Theorem C28_bidlp_refuted : exists E P Q R, valid E /\ on_E E P /\ on_E E Q /\ on_E E R /\ n_basis (coeff E) 4 (affine P) (affine Q) /\
  affine R = pmul_q (coeff E) 2 (affine P) /\
  forall checks, (exists w, weil_pairing fq_ops checks E P Q 4 = Some w /\ unit_order (fqv w) 4) /\ bidlp fq_ops (dlp_fq checks) checks E R P Q [(2, 2)] None = None.
Proof.
  destruct ex4_some as (s & E & P & Q & X). exists E, P, Q, (double_pt fq_ops E P). pose proof X as [Hs V EA AP AQ OP OQ]. pose proof (ex4_basis s E P Q X) as B.
  destruct (C30_double E P V OP) as [OD AD]. split; [exact V|]. split; [exact OP|]. split; [exact OQ|]. split; [exact OD|]. split; [exact B|].
  split; [rewrite AD, pmA by lia; change (Z.to_nat 2) with 2%nat; rewrite pmul_nat_2; reflexivity|].
  assert (A2 : affine (double_pt fq_ops E P) = Some (q0, q0)) by (rewrite AD, EA, AP; exact (x4_2P Zq_field qeqb_true q2_nz q3_nz q5_nz qim s qim_sq Hs)).
  intros c. destruct (ex4_weil s E P Q X c) as (w & Ew & Vw). split; [exists w; rewrite Vw; split; [exact Ew|exact qim_order]|].
  unfold bidlp. change (fold_left (fun r le => r * bpow le) [(2, 2)] 1) with 4. rewrite Ew. destruct c.
  - unfold weil_pairing. rewrite (tate4_checks fq_laws E _ Q q0 (valid_wfc E V) OD A2). reflexivity.
  - destruct (weil_pairing fq_ops false E (double_pt fq_ops E P) Q 4) as [pa|] eqn:Ea; [|reflexivity]. destruct (weil_pairing fq_ops false E (double_pt fq_ops E P) (p_neg fq_ops P) 4) as [pb|]; [|reflexivity].
    destruct (dlp_fq false pa w [(2, 2)]) as [r|] eqn:Er; [|reflexivity]. exfalso.
    assert (Va : fqv pa = qdiv (qmul (qmul (qsub q3 q0) (qsub q3 q0)) q3) (qopp (qmul q3 q3))).
    { revert Ea. unfold weil_pairing. change (affine Q) with (aff (k0 := q0) (kdiv := qdiv) (keq := qeqb) (v := fqv) Q) in AQ. change (affine (double_pt fq_ops E P)) with (aff (k0 := q0) (kdiv := qdiv) (keq := qeqb) (v := fqv) (double_pt fq_ops E P)) in A2.
      destruct (tate4_release fq_laws E _ Q q0 _ _ (valid_wfc E V) OD A2 AQ q3_nz q3_nz) as (f & -> & Vf).
      pose proof (x4_xQ2P Zq_field qeqb_true q2_nz q3_nz q5_nz qim s qim_sq Hs) as XD. pose proof (x4_mQ Zq_field qeqb_true q2_nz q3_nz q5_nz qim s qim_sq Hs) as MQ. pose proof (x4_fQ2P Zq_field qeqb_true q2_nz q3_nz q5_nz qim s qim_sq Hs) as FV.
      destruct (tate_ok fq_laws false E (valid_wfc E V) Q (double_pt fq_ops E P) OQ 4 q0 q0 A2) as (g & -> & Vg).
      - change (fqv (cA E)) with (coeff E). rewrite EA. exact (x4_on2P Zq_field).
      - change (fqv (cA E)) with (coeff E). rewrite EA, AQ. fold (x4Q s). apply exact_prefix; [lia|]. intros k Hk. change (Z.to_nat 4) with 4%nat in Hk. rewrite MQ. rewrite Nat.mod_small by lia. destruct k as [|[|[|[|k]]]]; try lia; discriminate.
      - change (fqv (cA E)) with (coeff E). rewrite EA, AQ. exact XD.
      - lia.
      - change (fqv (cA E)) with (coeff E). rewrite EA, AQ. exact (MQ 4%nat).
      - change (fqv (cA E)) with (coeff E) in Vg. rewrite EA, AQ in Vg. change (Z.testbit 4 0) with false. cbv iota. intros H. apply some_inj in H. rewrite <- H. rewrite (l_div _ _ _ _ _ _ _ _ _ _ _ fq_laws), Vf, Vg. f_equal. exact FV. }
    destruct (x4_m3_4 Zq_field qeqb_true q2_nz q3_nz q5_nz) as [M1 M2]. cbv zeta in M1, M2. change (qadd (qadd q1 q1) q1) with q3 in M1, M2. rewrite <- Va in M1, M2.
    destruct qim_order as (_ & O4 & _). unfold dlp_fq in Er. apply ph_dlp_sound in Er; [|apply canon2b_ok, (proj2_sig w)|apply canon2b_ok, (proj2_sig pa)|discriminate| | |].
    + destruct Er as [Hr Er]. change (fv2 (proj1_sig pa)) with (fqv pa) in Er. change (fv2 (proj1_sig w)) with (fqv w) in Er. specialize (Er M1). apply M2. rewrite <- Er, Vw. rewrite <- !qpow_add by lia. replace (r + r + (r + r)) with (4 * r) by ring. rewrite qpow_mul by lia. rewrite O4. apply qpow_q1.
    + constructor; [unfold fentry; cbn [fst snd]; split; [lia|split; [lia|intros _; lia]]|constructor].
    + cbn [fcoprime]. auto using Forall_nil.
    + change (fprod [(2, 2)]) with 4. change (fv2 (proj1_sig w)) with (fqv w). rewrite Vw. exact O4.
Qed.
(** In odd order the basis points themselves defeat bidlp: e(P,-P) and e(Q,Q) come out as -1, which is no power of e(P,Q). *)
Lemma no_log c x w fs : Z.odd (fprod fs) = true -> log_entries c fs -> fcoprime fs -> fs <> [] -> qpow (fqv w) (fprod fs) = q1 -> fqv x = qopp q1 -> dlp_fq c x w fs = None.
Proof.
  intros On HF HC Ne Ow Vx. destruct (dlp_fq c x w fs) as [r|] eqn:Er; [|reflexivity]. exfalso. unfold dlp_fq in Er.
  pose proof (ph_dlp_sound c _ _ fs r (proj1 (canon2b_ok _) (proj2_sig w)) (proj1 (canon2b_ok _) (proj2_sig x)) Ne HF HC Ow Er) as [Hr S]. change (fv2 (proj1_sig x)) with (fqv x) in S. change (fv2 (proj1_sig w)) with (fqv w) in S. rewrite Vx in S.
  assert (N1 : qopp q1 <> q0) by exact (opp1_nz Zq_field). specialize (S N1). set (n := fprod fs) in *.
  apply neg1_neq. assert (Podd : qpow (qopp q1) n = qopp q1).
  { assert (En : n = 1 + 2 * (n / 2)) by (pose proof (Z.div2_odd n) as D; rewrite On, Z.div2_div in D; cbn [Z.b2z] in D; lia). rewrite En, Z.add_comm, qpow_succ by (apply Z.mul_nonneg_nonneg; [lia|apply Z.div_pos; lia]). rewrite qpow_mul by (try apply Z.div_pos; lia).
    replace (qpow (qopp q1) 2) with q1 by (change 2 with (1 + 1); rewrite qpow_succ by lia; rewrite qpow_1; symmetry; exact (opp1_sq Zq_field)). rewrite qpow_q1. apply qmul_1_r. }
  rewrite <- Podd, <- S, <- qpow_mul by lia. rewrite Z.mul_comm, qpow_mul by lia. rewrite Ow. apply qpow_q1.
Qed.
Theorem C28_bidlp_odd_panics : forall checks E P Q fs w, let n := fprod fs in
  valid E -> 1 < n -> Z.odd n = true -> log_entries checks fs -> fcoprime fs -> on_E E P -> on_E E Q -> affine P <> None -> affine Q <> None -> pmul_q (coeff E) n (affine P) = None -> pmul_q (coeff E) n (affine Q) = None ->
  weil_pairing fq_ops checks E P Q n = Some w -> qpow (fqv w) n = q1 ->
  bidlp fq_ops (dlp_fq checks) checks E P P Q fs None = None /\ bidlp fq_ops (dlp_fq checks) checks E Q P Q fs None = None.
Proof.
  intros c E P Q fs w n V Hn On HF HC OP OQ NP NQ ZP ZQ Ew Ow. rewrite pmA in ZP, ZQ by lia. unfold bidlp. replace (fold_left (fun r le => r * bpow le) fs 1) with n.
  2: { unfold n. assert (G : forall fs s, fold_left (fun r le => r * bpow le) fs s = s * fprod fs) by (clear; induction fs as [|[l e] fs IH]; intros s; cbn [fold_left fprod]; [ring|rewrite IH; unfold bpow; cbn [fst snd]; ring]). rewrite G. ring. }
  assert (Ne : fs <> []) by (intros ->; unfold n in Hn; cbn in Hn; lia). rewrite Ew.
  change (affine P) with (aff (k0 := q0) (kdiv := qdiv) (keq := qeqb) (v := fqv) P) in *. change (affine Q) with (aff (k0 := q0) (kdiv := qdiv) (keq := qeqb) (v := fqv) Q) in *.
  destruct (aff P) as [[x1 y1]|] eqn:AP; [|congruence]. destruct (aff Q) as [[x2 y2]|] eqn:AQ; [|congruence].
  assert (ON : on_E E (p_neg fq_ops P)) by (apply (neg_on fq_laws), OP). assert (AN : aff (k0 := q0) (kdiv := qdiv) (keq := qeqb) (v := fqv) (p_neg fq_ops P) = Some (x1, qopp y1)) by (rewrite (aff_neg fq_laws), AP; reflexivity).
  split.
  - destruct (weil_pairing fq_ops c E P (p_neg fq_ops P) n) as [pb|] eqn:Eb; [|reflexivity].
    apply (weil_opp fq_laws c E P _ n x1 y1 _ pb (valid_wfc E V) OP ON Hn On AP AN) in Eb; [rewrite (no_log c pb w fs On HF HC Ne Ow Eb); destruct (dlp_fq c w w fs); reflexivity|rewrite AP; exact ZP|].
    change (fqv (cA E)) with (coeff E). rewrite AN. change (Some (x1, qopp y1)) with (popp_q (Some (x1, y1))). rewrite (pmul_nat_opp Zq_field qeqb_true q2_nz) by (unfold on_E in OP; change (affine P) with (aff (k0 := q0) (kdiv := qdiv) (keq := qeqb) (v := fqv) P) in OP; rewrite AP in OP; exact OP). rewrite ZP. reflexivity.
  - destruct (weil_pairing fq_ops c E Q Q n) as [pa|] eqn:Ea; [|reflexivity].
    apply (weil_opp fq_laws c E Q Q n x2 y2 y2 pa (valid_wfc E V) OQ OQ Hn On AQ AQ) in Ea; [rewrite (no_log c pa w fs On HF HC Ne Ow Ea); destruct (weil_pairing fq_ops c E Q (p_neg fq_ops P) n); reflexivity|rewrite AQ; exact ZQ|rewrite AQ; exact ZQ].
Qed.
Print Assumptions C28_bidlp_odd_panics.
Print Assumptions C55_weil. Print Assumptions C71_two_power.
Print Assumptions C28_bidlp_partial.
Print Assumptions C28_bidlp_none_partial.
Print Assumptions C28_bidlp_pow2_partial.
Print Assumptions C28_bidlp_refuted.
