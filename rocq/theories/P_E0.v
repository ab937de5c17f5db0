(** C61: the starting curve of FESTACrypto::new (src/festa.rs:255-270): its group, and the torsion basis computed on it. *)
From Coq Require Import Arith ZArith List Bool Lia Ring Field Znumtheory.
From Verif Require Import S_Fp S_Fp2 S_Curve S_Params M_Consts M_Fp M_Fp2 M_Field M_Curve M_Dlog M_Pairing M_Super M_Super2 M_Festa L_Zp L_Zp2 L_Fp L_Fp2 L_Group L_Kummer L_Field L_Curve L_QNum L_Entangled L_Count L_FinGrp P_Params P_Curve P_Super P_Pairing P_PairEx P_Festa P_Entangled L_E0.
Import ListNotations.
Open Scope Z_scope.

Lemma E0_A6 : coeff E0 = A6. Proof. rewrite E0_coeff. exact qz6. Qed.
(** y^2 = x^3 + 6x^2 + x over the field of p^2 elements: p + 1 kills every point *)
Theorem C61_group : forall p, on_q (coeff E0) p -> pmul_q (coeff E0) (P + 1) p = None.
Proof. rewrite E0_A6. exact E0_kills. Qed.
(** its 2^634-torsion is generated by two independent points of that order *)
Theorem C61_torsion : exists g1 g2, on_q (coeff E0) g1 /\ on_q (coeff E0) g2 /\ n_basis (coeff E0) (2 ^ 634) g1 g2.
Proof. rewrite E0_A6. exact E0_basis. Qed.
(** and every point killed by 2^633 is twice a point *)
Theorem C61_divisible : forall p, on_q (coeff E0) p -> pmul_q (coeff E0) (2 ^ 633) p = None -> halvable (coeff E0) p.
Proof. destruct C61_torsion as (g1 & g2 & O1 & O2 & B). apply (full_div (valid_smooth E0 E0_valid) 634 g1 g2 ltac:(lia) O1 O2 B). Qed.
(** the entangled basis with the cofactor used by the set-up: no panic, both points on the curve, a basis of the 2^634-torsion *)
Theorem C61_basis : exists P1 Q1, entangled_torsion_basis fq_ops root_fq E0 ((P + 1) / 2 ^ 634) = Some (P1, Q1) /\ on_E E0 P1 /\ on_E E0 Q1 /\ n_basis (coeff E0) (2 ^ 634) (affine P1) (affine Q1).
Proof.
  destruct C61_torsion as (g1 & g2 & O1 & O2 & B). destruct C57_E0_points as (S1 & S2 & HS & OS & _). destruct h634_ok as (EP & Od & Ph). fold h634.
  refine (C57_basis E0 634 h634 S1 S2 g1 g2 E0_valid _ Ph Od _ O1 O2 B HS OS); [clear; lia|]. intros p Hp. rewrite <- EP. exact (C61_group p Hp).
Qed.
Print Assumptions C61_group. Print Assumptions C61_basis.

Lemma D1_entries : prime_entries D1_FACTORED.
Proof.
  split; [discriminate|]. apply Forall_forall. intros [l e] H. cbn [fst snd]. split.
  - pose proof C42_factor_lists_prime as PR. rewrite Forall_forall in PR. apply (PR (l, e)). apply in_or_app. left. exact H.
  - assert (C : forallb (fun le => (1 <=? snd le) && (snd le <=? 2 ^ 32)) D1_FACTORED = true) by (vm_compute; reflexivity). rewrite forallb_forall in C. specialize (C _ H). cbn [snd] in C. apply andb_true_iff in C. rewrite !Z.leb_le in C. exact C.
Qed.
Lemma D1_divides : (order_of D1_FACTORED | P + 1) /\ (2 ^ Z.of_nat 634 | (P + 1) / order_of D1_FACTORED).
Proof. split; (apply Z.mod_divide; [vm_compute; discriminate|vm_compute; reflexivity]). Qed.
Lemma exact_div A n p : 0 < n -> (forall k, 0 <= k -> (pmul_q A k p = None <-> (n | k))) -> exact_order A n p.
Proof. intros Hn H. split; [apply H; [lia|apply Z.divide_refl]|]. intros k Hk Z0. apply H in Z0; [|lia]. apply Z.divide_pos_le in Z0; lia. Qed.
Lemma new_inv F (o : fops F) root fuel checks self : festa_new o root fuel checks = Some self -> curve_new o (fadd o (ftwo o) (ffour o)) = Some (fe_E0 self) /\
  entangled_torsion_basis o root (fe_E0 self) ((P + 1) / 2 ^ 634) = Some (fe_lb self) /\ torsion_basis o fuel checks (fe_E0 self) D1_FACTORED 634 = Some (fe_d1b self).
Proof.
  intros H. unfold festa_new in H. apply obind_inv in H. destruct H as (E & HE & H). apply obind_inv in H. destruct H as (s & _ & H). destruct s as [[[[c1 c2] cl] i] g].
  rewrite (proj1 C42_group_order) in H. apply obind_inv in H. destruct H as (lb & HL & H). apply obind_inv in H. destruct H as (db & HD & H). apply some_inj in H. subst self. cbn [fe_E0 fe_lb fe_d1b].
  split; [exact HE|]. split; [exact HL|exact HD].
Qed.
(** two points at infinity, or each point is infinity or has order exactly d1 *)
Definition d1_result (d : point fq * point fq) : Prop := d = (infinity fq_ops, infinity fq_ops) \/ (forall R, R = fst d \/ R = snd d -> R = infinity fq_ops \/ on_E E0 R /\ exact_order (coeff E0) (order_of D1_FACTORED) (affine R)).
Lemma d1_ok fuel checks d : torsion_basis fq_ops fuel checks E0 D1_FACTORED 634 = Some d -> d1_result d.
Proof.
  generalize D1_entries D1_divides. unfold d1_result. generalize D1_FACTORED. intros fs FE [V1 V2] HD. destruct d as [D1P D1Q]. pose proof (order_pos _ (prime_entries_ok _ FE)) as DP. cbn [fst snd].
  destruct (C54_torsion_basis _ _ _ _ _ _ _ E0_valid FE HD) as [E|[HP HQ]]; [left; exact E|right]. intros R [->| ->].
  - destruct HP as [HP|HP]; [left; exact HP|right]. split; [exact (proj1 HP)|]. destruct (C53_order E0 fs 634 D1P E0_valid FE V1 V2 HP) as (R & OR & _ & _ & HO). apply exact_div; [exact DP|]. intros k Hk. apply HO; [exact (C61_group _ OR)|exact Hk].
  - right. destruct HQ as (_ & _ & OQ & HO & _). split; [exact OQ|]. apply exact_div; [exact DP|]. intros k Hk. apply HO; exact Hk.
Qed.
(** what the set-up stores, for every run that returns *)
Theorem C61_new : forall fuel checks self, festa_new fq_ops root_fq fuel checks = Some self -> fe_E0 self = E0 /\ on_E E0 (fst (fe_lb self)) /\ on_E E0 (snd (fe_lb self)) /\
  n_basis (coeff E0) (2 ^ 634) (affine (fst (fe_lb self))) (affine (snd (fe_lb self))) /\ d1_result (fe_d1b self).
Proof.
  intros fuel checks self H. apply new_inv in H. destruct H as (HE & HL & HD). rewrite E0_new in HE. apply some_inj in HE. destruct C61_basis as (P1 & Q1 & EB & O1 & O2 & B).
  generalize dependent (fe_lb self). generalize dependent (fe_d1b self). generalize dependent (fe_E0 self). intros E <- d HD lb HL. rewrite EB in HL. apply some_inj in HL. subst lb. cbn [fst snd].
  split; [reflexivity|]. split; [exact O1|]. split; [exact O2|]. split; [exact B|]. exact (d1_ok _ _ _ HD).
Qed.
Print Assumptions C61_new.

(** the point (-1, 2) of E0 has order four *)
Example C61_ex : on_q (coeff E0) (Some (qopp q1, q2)) /\ pmul_q (coeff E0) 2 (Some (qopp q1, q2)) = Some (q0, q0) /\ pmul_q (coeff E0) (P + 1) (Some (qopp q1, q2)) = None.
Proof.
  assert (O : on_q (coeff E0) (Some (qopp q1, q2))) by (rewrite E0_coeff; unfold on_q, on, q2; rewrite <- qz_1, <- qz_opp, <- qz_add, <- !qz_mul, <- !qz_add; reflexivity).
  split; [exact O|]. split; [|exact (C61_group _ O)]. change (padd_q (coeff E0) (Some (qopp q1, q2)) (Some (qopp q1, q2)) = Some (q0, q0)).
  unfold padd_q. rewrite (dbl_fin Zq_field qeqb_true q2_nz _ _ O q2_nz). f_equal. assert (Z : qsub (qmul (qopp q1) (qopp q1)) q1 = q0) by qring. rewrite Z. apply (f_equal2 (@pair Zq Zq)); unfold qdiv; qring.
Qed.
Print Assumptions C61_torsion.
Print Assumptions C61_divisible.
