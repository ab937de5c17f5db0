(** The concrete case for C63: two independent points of order three on a curve with a rational 2-torsion. *)
From Coq Require Import Arith ZArith List Bool Lia Ring Field Znumtheory.
From Verif Require Import P_Velu P_Isogeny M_Isogeny M_Super2 M_Festa P_Festa P_E0 P_Basis P_Entangled L_Chi L_E0 S_Fp S_Fp2 S_Curve S_Params M_Fp M_Fp2 M_Field M_Curve M_Consts M_Dlog M_Pairing M_Super L_Zp L_Zp2 L_Fp L_Fp2 L_Group L_Kummer L_Field L_Curve L_QNum L_Isog L_Super L_Three P_Params P_Curve P_Pairing P_PairEx P_Super P_Scalar.
Import ListNotations.
Open Scope Z_scope.

(** points of order three with different abscissas are independent *)
Lemma three_basis E x y x' y' : valid E -> on_q (coeff E) (Some (x, y)) -> on_q (coeff E) (Some (x', y')) -> x <> x' ->
  padd_q (coeff E) (Some (x, y)) (Some (x, y)) = popp_q (Some (x, y)) -> padd_q (coeff E) (Some (x', y')) (Some (x', y')) = popp_q (Some (x', y')) -> n_basis (coeff E) 3 (Some (x, y)) (Some (x', y')).
Proof.
  intros V H H' N D D'. assert (T3 : forall p, on_q (coeff E) p -> padd_q (coeff E) p p = popp_q p -> pmul_q (coeff E) 3 p = None /\ pmul_q (coeff E) 2 p = popp_q p).
  { intros p Hp Dp. assert (M2 : pmul_q (coeff E) 2 p = popp_q p). { change 2 with (1 + 1). rewrite (pm_add V) by (try exact Hp; lia). exact Dp. } split; [|exact M2]. change 3 with (1 + 2). rewrite (pm_add V) by (try exact Hp; lia). rewrite M2. apply (padd_opp_r Zq_field qeqb_true). exact Hp. }
  destruct (T3 _ H D) as [Z3 Z2]. destruct (T3 _ H' D') as [Z3' Z2']. split; [exact Z3|]. split; [exact Z3'|]. intros i j Hi Hj S.
  rewrite (pm_mod V 3 i), (pm_mod V 3 j) in S by (try assumption; lia). pose proof (Z.mod_pos_bound i 3 ltac:(lia)) as Bi. pose proof (Z.mod_pos_bound j 3 ltac:(lia)) as Bj.
  enough (i mod 3 = 0 /\ j mod 3 = 0) as [? ?] by (split; apply Z.mod_divide; lia).
  assert (V3 : forall p k, on_q (coeff E) p -> pmul_q (coeff E) 2 p = popp_q p -> 0 <= k < 3 -> pmul_q (coeff E) k p = None /\ k = 0 \/ pmul_q (coeff E) k p = p \/ pmul_q (coeff E) k p = popp_q p).
  { intros p k Hp M2 Hk. assert (C : k = 0 \/ k = 1 \/ k = 2) by lia. destruct C as [->|[->| ->]]; [left; split; reflexivity|right; left; reflexivity|right; right; exact M2]. }
  assert (NX : forall a b s t, padd_q (coeff E) (Some (a, s)) (Some (b, t)) = None -> a = b).
  { intros a b s t. unfold padd_q. cbn [padd]. destruct (qeqb a b) eqn:Q; [intros _; apply qeqb_true; exact Q|discriminate]. }
  destruct (V3 _ (i mod 3) H Z2 Bi) as [[Ei ->]|Ei], (V3 _ (j mod 3) H' Z2' Bj) as [[Ej ->]|Ej]; [split; reflexivity| | |]; exfalso.
  - rewrite Ei in S. destruct Ej as [Ej|Ej]; rewrite Ej in S; discriminate S.
  - rewrite Ej in S. destruct Ei as [Ei|Ei]; rewrite Ei in S; discriminate S.
  - apply N. destruct Ei as [Ei|Ei], Ej as [Ej|Ej]; rewrite Ei, Ej in S; cbn [popp_q popp] in S; apply NX in S; exact S.
Qed.
Section Inst.
Add Field Zq_f3 : Zq_field.
Notation q3 := (qadd (qadd q1 q1) q1). Notation q7 := (qadd (qmul q2 q2) q3).
Lemma q3_nz : q3 <> q0. Proof. replace q3 with (qz 3) by (change 3 with (1 + 1 + 1); rewrite !qz_add, qz_1; reflexivity). apply qz_nz, small_P; reflexivity. Qed.
Lemma im_add a b : qadd (im a) (im b) = im (zadd a b). Proof. unfold im, qadd. cbn [fst snd]. f_equal; ring. Qed.
Lemma re_im a b : qmul (re a) (im b) = im (zmul a b). Proof. unfold re, im, qmul. cbn [fst snd]. f_equal; ring. Qed.
Lemma im_square a : qsquare (im a). Proof. apply qsquare_norm. unfold qnorm, im. cbn [fst snd]. exists a. ring. Qed.
Lemma qz_re n : qz n = re (mk n). Proof. reflexivity. Qed.
Lemma q3_nz' : qadd q1 q2 <> q0. Proof. intros E. apply q3_nz. rewrite <- E. unfold q2. ring. Qed.
Lemma q_nz_of n : 0 < n -> n < 2 ^ 64 -> qz n <> q0. Proof. intros H1 H2. apply qz_nz, small_P; assumption. Qed.
Lemma ex33 : exists E P Q, good_curve E /\ on_E E P /\ on_E E Q /\ n_basis (coeff E) 3 (affine P) (affine Q).
Proof.
  destruct (proj1 (zsq_prod [3; 3; 7; 7; 7] eq_refl) eq_refl) as [c Hc']. assert (Hc : zmul c c = mk 3087) by exact Hc'. clear Hc'. assert (Nz : forall n, 0 < n -> n < 2 ^ 64 -> mk n <> zp0) by (intros n H1 H2 Z0; apply (qz_nz n (small_P n H1 H2)); unfold qz; rewrite Z0; reflexivity).
  assert (Nc : c <> zp0) by (intros Z0; apply (Nz 3087 ltac:(reflexivity) ltac:(reflexivity)); rewrite <- Hc, Z0; ring).
  set (k := zdiv zp1 c). assert (Hk : zmul k c = zp1) by (unfold k; field; exact Nc). clearbody k. set (v := im c).
  assert (nv : v <> q0) by (intros Z0; apply Nc; exact (f_equal snd Z0)).
  assert (Dv : forall x, qdiv x v = qmul x (im (zopp k))).
  { intros x. assert (I1 : qmul v (im (zopp k)) = q1). { unfold v. rewrite im_mul, re_1. f_equal. transitivity (zmul k c); [ring|exact Hk]. } transitivity (qdiv (qmul x q1) v); [field; exact nv|]. rewrite <- I1. field. exact nv. }
  assert (Z1 : q1 = qz 1) by (symmetry; exact qz_1).
  assert (Hv : qmul v v = qopp (qmul (qmul (qmul (qmul q3 q3) q7) q7) q7)).
  { unfold v. rewrite im_mul, Hc. unfold q2. rewrite !Z1, <- !qz_add, <- !qz_mul, <- !qz_add, <- !qz_mul, <- qz_opp, qz_re, <- mk_opp. reflexivity. }
  assert (SP : exists y, qmul y y = qdiv (qopp (qmul (qmul (qmul (qmul q2 q2) (qmul q2 q2)) q3) q7)) v).
  { rewrite Dv. unfold q2. rewrite !Z1, <- !qz_add, <- !qz_mul, <- !qz_add, <- !qz_mul, <- qz_opp, qz_re, re_im. apply im_square. }
  assert (SQ : exists y, qmul y y = qdiv (qmul (qmul (qmul (qmul q2 q2) (qmul q2 q2)) (qmul q2 q2)) q7) v).
  { rewrite Dv. unfold q2. rewrite !Z1, <- !qz_add, <- !qz_mul, <- !qz_add, <- !qz_mul, qz_re, re_im. apply im_square. }
  destruct SP as [yp Hyp]. destruct SQ as [yq Hyq]. pose proof (w3_P Zq_field v Hv nv yp Hyp) as OP. pose proof (w3_Q Zq_field qeqb_true q3_nz v Hv nv yq Hyq) as OQ.
  pose proof (w3_P3 Zq_field v Hv nv) as P3. pose proof (w3_Q3 Zq_field v Hv nv) as Q3. cbv zeta in P3, Q3.
  assert (EA : w3A (k1 := q1) (kadd := qadd) (kmul := qmul) (kopp := qopp) (kdiv := qdiv) v = im (zmul (mk 78) k)).
  { unfold w3A. rewrite Dv. rewrite !Z1, <- !qz_add, <- !qz_mul, <- !qz_add, <- !qz_mul, <- qz_opp, qz_re, re_im, mk_opp. f_equal. change (1 + 1) with 2. cbn -[mk zmul zopp]. ring. }
  assert (NP : yp <> q0).
  { intros Z0. rewrite Z0 in Hyp. apply (q_nz_of 336); [reflexivity|reflexivity|]. transitivity (qopp (qmul (qdiv (qopp (qmul (qmul (qmul (qmul q2 q2) (qmul q2 q2)) q3) q7)) v) v)); [|rewrite <- Hyp; ring].
    transitivity (qmul (qmul (qmul (qmul q2 q2) (qmul q2 q2)) q3) q7); [unfold q2; rewrite !Z1, <- !qz_add, <- !qz_mul, <- !qz_add, <- !qz_mul; reflexivity|]. field. exact nv. }
  assert (NQ : yq <> q0).
  { intros Z0. rewrite Z0 in Hyq. apply (q_nz_of 448); [reflexivity|reflexivity|]. transitivity (qmul (qdiv (qmul (qmul (qmul (qmul q2 q2) (qmul q2 q2)) (qmul q2 q2)) q7) v) v); [|rewrite <- Hyq; ring].
    transitivity (qmul (qmul (qmul (qmul q2 q2) (qmul q2 q2)) (qmul q2 q2)) q7); [unfold q2; rewrite !Z1, <- !qz_add, <- !qz_mul, <- !qz_add, <- !qz_mul; reflexivity|]. field. exact nv. }
  assert (NQ3 : qdiv yq q3 <> q0) by (intros Z0; apply NQ; transitivity (qmul (qdiv yq q3) q3); [field; exact q3_nz'|rewrite Z0; ring]).
  pose proof (three Zq_field qeqb_true q2_nz _ _ _ OP NP P3) as TP. pose proof (three Zq_field qeqb_true q2_nz _ _ _ OQ NQ3 Q3) as TQ.
  set (A := w3A (k1 := q1) (kadd := qadd) (kmul := qmul) (kopp := qopp) (kdiv := qdiv) v) in *. clearbody A. 
  destruct (fq_surj A) as [a Ha]. 
  set (x := qdiv (qmul (qmul q3 q7) q7) v) in *. set (x' := qdiv (qopp (qmul q7 q7)) v) in *.
  assert (NX : x <> x').
  { intros E. apply (q_nz_of 196); [reflexivity|reflexivity|]. transitivity (qmul (qsub x x') v); [|rewrite E; ring]. unfold x, x'. transitivity (qadd (qmul (qmul q3 q7) q7) (qmul q7 q7)); [unfold q2; rewrite !Z1, <- !qz_add, <- !qz_mul, <- !qz_add, <- !qz_mul, <- !qz_add; reflexivity|field; exact nv]. }
  destruct (fq_surj x) as [fx Hx]. destruct (fq_surj x') as [fx' Hx']. destruct (fq_surj yp) as [fy Hy]. destruct (fq_surj (qdiv yq q3)) as [fy' Hy'].
  assert (KK : zmul (zmul k k) (mk 3087) = zp1) by (rewrite <- Hc; transitivity (zmul (zmul k c) (zmul k c)); [ring|rewrite Hk; ring]).
  assert (VE : valid (mkE a)).
  { apply mkE_valid. rewrite Ha, EA, im_mul. intros E. apply (q_nz_of 18432); [reflexivity|reflexivity|]. rewrite qz_re, re_0. f_equal. apply (f_equal fst) in E. cbn [re fst] in E.
    replace (fst q4) with (mk 4) in E by (unfold q4, q2; rewrite Z1, <- !qz_add; reflexivity).
    transitivity (zadd (zmul (mk 4) (mk 3087)) (zmul (zmul (mk 78) (mk 78)) zp1)); [rewrite <- !mk_mul, zp1_eq, <- mk_mul, <- mk_add; reflexivity|]. rewrite <- KK, <- E. ring. }
  assert (CA : coeff (mkE a) = A) by exact Ha.
  exists (mkE a), (new_xy fq_ops fx fy), (new_xy fq_ops fx' fy'). unfold on_E, good_curve. rewrite !affine_xy, Hx, Hx', Hy, Hy', CA. split; [split; [exact VE|split]|].
  - destruct (re_square (zsub (zopp (zmul (zmul (mk 78) k) (zmul (mk 78) k))) (mk 4))) as [z Hz]. exists (qdiv (qsub (qopp A) z) q2).
    assert (EZ : qmul z z = qsub (qmul (qopp A) (qopp A)) q4). { rewrite Hz, EA. transitivity (qsub (qmul (im (zmul (mk 78) k)) (im (zmul (mk 78) k))) q4); [|ring]. rewrite im_mul. replace q4 with (re (mk 4)) by (unfold q4, q2; rewrite Z1, <- !qz_add; reflexivity). rewrite re_sub. reflexivity. }
    pose proof (half_root Zq_field qeqb_true q2_nz _ _ EZ) as HR. cbv zeta in HR. fold q2 in HR. revert HR. generalize (qdiv (qsub (qopp A) z) q2). intros t HR. rewrite <- HR. ring.
  - apply qsquare_norm. rewrite EA. unfold q2. rewrite Z1, <- qz_add, qz_re. unfold qnorm, re, im, qadd. cbn [fst snd].
    destruct (proj1 (zsq_prod [2; 2; 2; 2; 2; 2; 2; 2; 2; 2; 2; 3; 3] eq_refl) eq_refl) as [d Hd']. assert (Hd : zmul d d = mk 18432) by exact Hd'. exists (zmul d k). transitivity (zmul (zmul d d) (zmul k k)); [ring|]. rewrite Hd.
    transitivity (zadd (zmul (mk 4) (zmul (zmul k k) (mk 3087))) (zmul (mk 6084) (zmul k k))); [replace (mk 18432) with (zadd (zmul (mk 4) (mk 3087)) (mk 6084)) by (rewrite <- mk_mul, <- mk_add; reflexivity); ring|]. rewrite KK.
    replace (mk 4) with (zmul (mk 2) (mk 2)) by (rewrite <- mk_mul; reflexivity). replace (mk 6084) with (zmul (mk 78) (mk 78)) by (rewrite <- mk_mul; reflexivity). change (1 + 1) with 2. ring.
  - split; [exact OP|]. split; [exact OQ|]. rewrite <- CA. apply three_basis; rewrite ?CA; try assumption.
Qed.
End Inst.
Example C63_ex : exists E P Q, good_curve E /\ degree_list [(3, 1)] /\ on_E E P /\ on_E E Q /\ n_basis (coeff E) (order_of [(3, 1)]) (affine P) (affine Q) /\
  forall fuel checks m, 0 <= m -> exists chain C R, isogeny_from_scalar_x_only fq_ops fuel checks E [(3, 1)] m (Some (P, Q)) = Some (chain, C) /\ evaluate_isogeny_chain fq_ops E Q chain = Some (C, R) /\ on_E C R /\ exact_order (coeff C) 3 (affine R).
Proof.
  destruct ex33 as (E & P & Q & gE & OP & OQ & B). exists E, P, Q. split; [exact gE|]. assert (DL : degree_list [(3, 1)]) by (split; [discriminate|split; [constructor; [split; [cbn; lia|split; [reflexivity|cbn; lia]]|constructor]|constructor; constructor]]).
  split; [exact DL|]. split; [exact OP|]. split; [exact OQ|]. split; [exact B|]. intros fuel checks m Hm. pose proof (proj1 gE) as V. pose proof B as (ZP & ZQ & IN).
  destruct (C63_kernel fuel checks E [(3, 1)] m P Q gE DL OP OQ B Hm) as (ch & C & EI & HL & gC & _ & X). destruct (xi_total _ _ _ _ X Q OQ) as (R & ER & OR). exists ch, C, R. split; [exact EI|]. split; [rewrite (eval_chain_linked fq_ops _ _ _ Q HL), ER; reflexivity|]. split; [exact OR|].
  (* kQ is in the kernel only when 3 divides k *)
  assert (KQ : forall k, 0 <= k -> scalar_kernel E P Q m (pmul_q (coeff E) k (affine Q)) <-> (3 | k)).
  { intros k Hk. split.
    - intros (j & Hj & EJ). assert (EJ' : padd_q (coeff E) (pmul_q (coeff E) 0 (affine P)) (pmul_q (coeff E) k (affine Q)) = padd_q (coeff E) (pmul_q (coeff E) j (affine P)) (pmul_q (coeff E) (j * m) (affine Q))) by exact EJ.
      apply (basis_eq V 3) in EJ'; try assumption; try nia. destruct EJ' as [[u Hu] [w Hw]]. exists (w - u * m). nia.
    - intros [d Hd]. exists 0. split; [lia|]. rewrite Hd, Z.mul_comm, (pm_zero_mul V) by (try assumption; lia). reflexivity. }
  assert (RK : forall k, 0 <= k -> pmul_q (coeff C) k (affine R) = None <-> (3 | k)).
  { intros k Hk. rewrite <- (KQ k Hk). destruct (C31_mul_big E Q k V OQ Hk) as (T & _ & OT & AT). destruct (xi_total _ _ _ _ X T OT) as (RT & ERT & ORT). pose proof (xi_ker _ _ _ _ X T RT OT ERT) as KK. rewrite AT in KK. rewrite <- KK.
    pose proof (xi_mul _ _ _ _ X Q T k R RT OQ Hk AT ER ERT) as [EQ|EQ]; rewrite EQ; [reflexivity|]. destruct (pmul_q (coeff C) k (affine R)) as [[]|]; cbn; split; congruence. }
  split; [apply RK; [lia|apply Z.divide_refl]|]. intros k Hk Z0. apply RK in Z0; [|lia]. apply Z.divide_pos_le in Z0; lia.
Qed.
