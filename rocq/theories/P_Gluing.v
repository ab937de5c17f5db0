(** C65: the gluing isogeny (src/theta.rs:249-590) from a product of two Montgomery curves: the base change built from points of order four and the images it produces. *)
From Coq Require Import Arith ZArith List Bool Lia Ring Field.
From Verif Require Import S_Fp S_Fp2 S_Curve S_Theta M_Fp M_Fp2 M_Field M_Curve M_Theta L_Zp L_Zp2 L_Fp L_Fp2 L_Group L_Kummer L_Field L_QNum L_Curve L_Theta L_Gluing P_Fp2 P_Params P_Curve P_Pairing P_Super P_Theta.
Import ListNotations.
Open Scope nat_scope.
Add Field Zq_f8 : Zq_field.

(** ** Specification *)
(** (X : Z) is the abscissa of p *)
Definition abscissa (X Z : Zq) (p : pt Zq) : Prop := match p with None => X <> q0 /\ Z = q0 | Some (x, _) => Z <> q0 /\ X = qmul x Z end.
(** the same theta point *)
Definition same_theta (x y : nat -> Zq) : Prop := exists l, l <> q0 /\ forall i, i < 4 -> x i = qmul l (y i).
Definition same_abscissa (p q : pt Zq) : Prop := p = q \/ p = popp_q q.
Definition on_EE (EE : eprod fq) (R : couple fq) : Prop := on_E (e1 EE) (c1 R) /\ on_E (e2 EE) (c2 R).
(** both components of P and Q have order 2^k, and their multiples of order two differ on both curves *)
Record independent (EE : eprod fq) (n : Z) (P Q : couple fq) : Prop := {
  in_v1 : valid (e1 EE); in_v2 : valid (e2 EE); in_P : on_EE EE P; in_Q : on_EE EE Q;
  in_P1 : exact_order (coeff (e1 EE)) (2 * n) (affine (c1 P)); in_P2 : exact_order (coeff (e2 EE)) (2 * n) (affine (c2 P));
  in_Q1 : exact_order (coeff (e1 EE)) (2 * n) (affine (c1 Q)); in_Q2 : exact_order (coeff (e2 EE)) (2 * n) (affine (c2 Q));
  in_1 : pmul_q (coeff (e1 EE)) n (affine (c1 P)) <> pmul_q (coeff (e1 EE)) n (affine (c1 Q)); in_2 : pmul_q (coeff (e2 EE)) n (affine (c2 P)) <> pmul_q (coeff (e2 EE)) n (affine (c2 Q)) }.
Definition couple0 : couple fq := mkCouple (infinity fq_ops) (infinity fq_ops).
(** theta coordinates of the couple point R in the base computed from P and Q of order four *)
Definition coords (EE : eprod fq) (P Q R : couple fq) : nat -> Zq := cv (base_change_couple_point fq_ops R (get_base_matrix fq_ops EE P Q)).
Definition flip (odd : bool) (x : Zq) : Zq := if odd then qopp x else x.

(** ** Orders *)
Section Orders.
Context (E : curve fq) (V : valid E).
Notation A := (coeff E).
Lemma pm2 p : pmul_q A 2 p = padd_q A p p. Proof. reflexivity. Qed.
Lemma pm4 p : on_q A p -> pmul_q A 4 p = padd_q A (padd_q A p p) (padd_q A p p).
Proof. intros H. change (pmul_q A 4 p) with (S_Curve.pmul_nat q1 qadd qmul qsub qopp qdiv qeqb A (2 + 2) p). rewrite (pmul_nat_add Zq_field qeqb_true q2_nz (valid_smooth E V)) by exact H. reflexivity. Qed.
Lemma pm8 p : on_q A p -> pmul_q A 8 p = pmul_q A 4 (padd_q A p p).
Proof. intros H. change (pmul_q A 8 p) with (S_Curve.pmul_nat q1 qadd qmul qsub qopp qdiv qeqb A (4 * 2) p). rewrite (pmul_nat_mul Zq_field qeqb_true q2_nz (valid_smooth E V)) by exact H. reflexivity. Qed.
Lemma dbl_on p : on_q A p -> on_q A (padd_q A p p). Proof. intros H. exact (padd_on Zq_field qeqb_true q2_nz p p H H). Qed.
Lemma data4 p : on_q A p -> pmul_q A 4 p = None -> pmul_q A 2 p <> None -> exists t e b, p = Some (qadd t e, b) /\ padd_q A p p = Some (t, q0).
Proof. intros H H4 H2. rewrite pm4 in H4 by exact H. exact (order4_data fq_laws A p H H2 H4). Qed.
End Orders.
(** what [independent] gives for points of order four *)
Record four (EE : eprod fq) (P Q : couple fq) (t e b s f c t' e' b' s' f' c' : Zq) : Prop := {
  fo_P : affine (c1 P) = Some (qadd t e, b); fo_P' : affine (c2 P) = Some (qadd t' e', b'); fo_Q : affine (c1 Q) = Some (qadd s f, c); fo_Q' : affine (c2 Q) = Some (qadd s' f', c');
  fo_OP : on_q (coeff (e1 EE)) (Some (qadd t e, b)); fo_OP' : on_q (coeff (e2 EE)) (Some (qadd t' e', b')); fo_OQ : on_q (coeff (e1 EE)) (Some (qadd s f, c)); fo_OQ' : on_q (coeff (e2 EE)) (Some (qadd s' f', c'));
  fo_D : padd_q (coeff (e1 EE)) (Some (qadd t e, b)) (Some (qadd t e, b)) = Some (t, q0); fo_D' : padd_q (coeff (e2 EE)) (Some (qadd t' e', b')) (Some (qadd t' e', b')) = Some (t', q0);
  fo_F : padd_q (coeff (e1 EE)) (Some (qadd s f, c)) (Some (qadd s f, c)) = Some (s, q0); fo_F' : padd_q (coeff (e2 EE)) (Some (qadd s' f', c')) (Some (qadd s' f', c')) = Some (s', q0);
  fo_N : s <> t; fo_N' : s' <> t'; fo_V : valid (e1 EE); fo_V' : valid (e2 EE) }.
Lemma four_ok EE P Q : independent EE 2 P Q -> exists t e b s f c t' e' b' s' f' c', four EE P Q t e b s f c t' e' b' s' f' c'.
Proof.
  intros [V1 V2 [HP HP'] [HQ HQ'] [O1 O1'] [O2 O2'] [O3 O3'] [O4 O4'] N N']. unfold on_E in *.
  destruct (data4 (e1 EE) V1 _ HP O1 (O1' 2%Z ltac:(lia))) as (t & e & b & E1 & D1). destruct (data4 (e2 EE) V2 _ HP' O2 (O2' 2%Z ltac:(lia))) as (t' & e' & b' & E2 & D2).
  destruct (data4 (e1 EE) V1 _ HQ O3 (O3' 2%Z ltac:(lia))) as (s & f & c & E3 & D3). destruct (data4 (e2 EE) V2 _ HQ' O4 (O4' 2%Z ltac:(lia))) as (s' & f' & c' & E4 & D4).
  rewrite !pm2 in N, N'. rewrite D1, D3 in N. rewrite D2, D4 in N'. rewrite E1 in D1, HP. rewrite E2 in D2, HP'. rewrite E3 in D3, HQ. rewrite E4 in D4, HQ'.
  exists t, e, b, s, f, c, t', e', b', s', f', c'. constructor; try assumption.
  - intros C. apply N. rewrite C. reflexivity. - intros C. apply N'. rewrite C. reflexivity.
Qed.
Notation gm A := (gmat (k1 := q1) (kadd := qadd) (kmul := qmul) (kopp := qopp) (kdiv := qdiv) A).
Notation thq := (th (kadd := qadd) (kmul := qmul)).
Notation rowq := (rowf (o := fq_ops) (v := fqv)).
Lemma coords_ok EE P Q t e b s f c t' e' b' s' f' c' R i : four EE P Q t e b s f c t' e' b' s' f' c' -> i < 4 ->
  coords EE P Q R i = thq (gm (coeff (e1 EE)) t e) (gm (coeff (e1 EE)) s f) (gm (coeff (e2 EE)) t' e') (gm (coeff (e2 EE)) s' f') (rowq (c1 R)) (rowq (c2 R)) i.
Proof.
  intros [] Hi. etransitivity; [exact (base_change_ok fq_laws EE P Q R i Hi)|].
  rewrite (sub_ok fq_laws (e1 EE) (c1 P) t e b (valid_wfc _ fo_V0) fo_P0 fo_OP0 fo_D0), (sub_ok fq_laws (e1 EE) (c1 Q) s f c (valid_wfc _ fo_V0) fo_Q0 fo_OQ0 fo_F0), (sub_ok fq_laws (e2 EE) (c2 P) t' e' b' (valid_wfc _ fo_V'0) fo_P'0 fo_OP'0 fo_D'0), (sub_ok fq_laws (e2 EE) (c2 Q) s' f' c' (valid_wfc _ fo_V'0) fo_Q'0 fo_OQ'0 fo_F'0). reflexivity.
Qed.
Lemma row_ok P : abscissa (fst (rowq P)) (snd (rowq P)) (affine P). Proof. exact (rowf_ok fq_laws P). Qed.
Lemma row_inf : rowq (infinity fq_ops) = (q1, q0).
Proof.
  unfold rowf, fix_xz, to_xz, infinity. cbn [pX pZ fst snd]. rewrite !(l_is0 _ _ _ _ _ _ _ _ _ _ _ fq_laws), !(l_cond _ _ _ _ _ _ _ _ _ _ _ fq_laws), (l_zero _ _ _ _ _ _ _ _ _ _ _ fq_laws), (l_one _ _ _ _ _ _ _ _ _ _ _ fq_laws).
  rewrite (proj2 (qeqb_true q0 q0) eq_refl). reflexivity.
Qed.

(** ** C65: the matrix of a point of order four is the translation by its double *)
Definition mact (m : fq * fq * fq * fq) (x : Zq * Zq) : Zq * Zq := let '(a, b, c, d) := m in (qadd (qmul (fst x) (fqv a)) (qmul (snd x) (fqv c)), qadd (qmul (fst x) (fqv b)) (qmul (snd x) (fqv d))).
Lemma mact_act m x : mact m x = act (kadd := qadd) (kmul := qmul) x (mv (v := fqv) m). Proof. destruct m as [[[a b] c] d]. reflexivity. Qed.
Theorem C65_submatrix : forall E P, valid E -> on_E E P -> exact_order (coeff E) 4 (affine P) -> let T := mact (get_base_submatrix fq_ops E P) in
  (forall R X Z, on_q (coeff E) R -> abscissa X Z R -> abscissa (fst (T (X, Z))) (snd (T (X, Z))) (padd_q (coeff E) R (pmul_q (coeff E) 2 (affine P)))) /\
  (forall x, T (T x) = x) /\
  (forall X Z, abscissa X Z (affine P) -> T (X, Z) = (qopp X, qopp Z)).
Proof.
  intros E P V HP [O4 O4']. destruct (data4 E V _ HP O4 (O4' 2%Z ltac:(lia))) as (t & e & b & E1 & D1). unfold on_E in HP. rewrite pm2, D1. rewrite E1 in D1, HP |- *. cbv zeta.
  pose proof (sub_ok fq_laws E P t e b (valid_wfc _ V) E1 HP D1) as M. split; [|split].
  - intros R X Z HR HX. rewrite mact_act, M. exact (gmat_trans fq_laws (coeff E) (valid_smooth E V) t e b HP D1 R (X, Z) HR HX).
  - intros x. rewrite !mact_act, M. exact (gmat_inv fq_laws (coeff E) (valid_smooth E V) t e b HP D1 x).
  - intros X Z HX. rewrite mact_act, M. exact (gmat_fix fq_laws (coeff E) (valid_smooth E V) t e b HP D1 X Z HX).
Qed.

(** ** C65: the base change turns translations by P' = 2P and Q' = 2Q into sign changes, and is faithful on pairs of abscissas *)
Definition shifted (EE : eprod fq) (R D R' : couple fq) (n : Z) : Prop :=
  affine (c1 R') = padd_q (coeff (e1 EE)) (affine (c1 R)) (pmul_q (coeff (e1 EE)) n (affine (c1 D))) /\ affine (c2 R') = padd_q (coeff (e2 EE)) (affine (c2 R)) (pmul_q (coeff (e2 EE)) n (affine (c2 D))).
Lemma flip_mul c x : flip c x = qmul (if c then qopp q1 else q1) x. Proof. destruct c; unfold flip; ring. Qed.
Theorem C65_base_change : forall EE P Q R R', independent EE 2 P Q -> on_EE EE R ->
  (shifted EE R P R' 2 -> same_theta (coords EE P Q R') (fun i => flip (Nat.odd i) (coords EE P Q R i))) /\
  (shifted EE R Q R' 2 -> same_theta (coords EE P Q R') (fun i => flip (Nat.odd (Nat.div i 2)) (coords EE P Q R i))).
Proof.
  intros EE P Q R R' H [O O']. destruct (four_ok _ _ _ H) as (t & e & b & s & f & c & t' & e' & b' & s' & f' & c' & W). pose proof (fun R i => coords_ok EE P Q t e b s f c t' e' b' s' f' c' R i W) as C. destruct W.
  split; intros [S1 S2].
  - rewrite pm2, fo_P0, fo_D0 in S1. rewrite pm2, fo_P'0, fo_D'0 in S2. pose proof (row_ok (c1 R')) as X1. pose proof (row_ok (c2 R')) as X2. rewrite S1 in X1. rewrite S2 in X2.
    destruct (th_shift_g fq_laws (coeff (e1 EE)) (coeff (e2 EE)) (valid_smooth _ fo_V0) (valid_smooth _ fo_V'0) t e b s f c fo_OP0 fo_D0 fo_OQ0 fo_F0 fo_N0 t' e' b' s' f' c' fo_OP'0 fo_D'0 fo_OQ'0 fo_F'0 fo_N'0 _ _ _ _ _ _ O O' (row_ok (c1 R)) (row_ok (c2 R)) X1 X2) as (l & Nl & Hl).
    exists l. split; [exact Nl|]. intros i Hi. rewrite flip_mul, !C by exact Hi. exact (Hl i Hi).
  - rewrite pm2, fo_Q0, fo_F0 in S1. rewrite pm2, fo_Q'0, fo_F'0 in S2. pose proof (row_ok (c1 R')) as X1. pose proof (row_ok (c2 R')) as X2. rewrite S1 in X1. rewrite S2 in X2.
    destruct (th_shift_h fq_laws (coeff (e1 EE)) (coeff (e2 EE)) (valid_smooth _ fo_V0) (valid_smooth _ fo_V'0) t e b s f c fo_OP0 fo_D0 fo_OQ0 fo_F0 fo_N0 t' e' b' s' f' c' fo_OP'0 fo_D'0 fo_OQ'0 fo_F'0 fo_N'0 _ _ _ _ _ _ O O' (row_ok (c1 R)) (row_ok (c2 R)) X1 X2) as (l & Nl & Hl).
    exists l. split; [exact Nl|]. intros i Hi. rewrite flip_mul, !C by exact Hi. exact (Hl i Hi).
Qed.
Definition some_coord (x : nat -> Zq) : Prop := exists i, i < 4 /\ x i <> q0.
Lemma null_ok EE P Q t e b s f c t' e' b' s' f' c' : four EE P Q t e b s f c t' e' b' s' f' c' -> some_coord (coords EE P Q couple0) ->
  exists i, thq (gm (coeff (e1 EE)) t e) (gm (coeff (e1 EE)) s f) (gm (coeff (e2 EE)) t' e') (gm (coeff (e2 EE)) s' f') (q1, q0) (q1, q0) i <> q0.
Proof. intros W (i & Hi & N). exists i. rewrite (coords_ok _ _ _ _ _ _ _ _ _ _ _ _ _ _ _ couple0 i W Hi) in N. cbn [couple0 c1 c2] in N. rewrite row_inf in N. exact N. Qed.
Lemma same_ab A p q : on_q A p -> on_q A q -> match p, q with None, None => True | Some (a, _), Some (c, _) => a = c | _, _ => False end -> same_abscissa p q.
Proof.
  intros Hp Hq H. destruct p as [[a b]|], q as [[c d]|]; try contradiction.
  - subst c. cbn in Hp, Hq. assert (E : qmul (qsub b d) (qadd b d) = q0) by (transitivity (qsub (qmul b b) (qmul d d)); [ring|rewrite Hp, Hq; ring]).
    destruct (mul0 Zq_field qeqb_true _ _ E) as [D|D]; [left|right].
    + replace b with d; [reflexivity|]. transitivity (qsub b (qsub b d)); [ring|rewrite D; ring].
    + cbn. replace b with (qopp d); [reflexivity|]. transitivity (qsub b (qadd b d)); [ring|rewrite D; ring].
  - left. reflexivity.
Qed.
Theorem C65_faithful : forall EE P Q, independent EE 2 P Q -> some_coord (coords EE P Q couple0) ->
  (forall R, on_EE EE R -> some_coord (coords EE P Q R)) /\
  (forall R R', on_EE EE R -> on_EE EE R' -> same_theta (coords EE P Q R) (coords EE P Q R') <-> same_abscissa (affine (c1 R)) (affine (c1 R')) /\ same_abscissa (affine (c2 R)) (affine (c2 R'))).
Proof.
  intros EE P Q H N. destruct (four_ok _ _ _ H) as (t & e & b & s & f & c & t' & e' & b' & s' & f' & c' & W). pose proof (null_ok _ _ _ _ _ _ _ _ _ _ _ _ _ _ _ W N) as NO. clear N. pose proof (fun R i => coords_ok EE P Q t e b s f c t' e' b' s' f' c' R i W) as C. destruct W. split.
  - intros R [O O'].
    destruct (th_zero fq_laws (coeff (e1 EE)) (coeff (e2 EE)) (valid_smooth _ fo_V0) (valid_smooth _ fo_V'0) t e b s f c fo_OP0 fo_D0 fo_OQ0 fo_F0 fo_N0 t' e' b' s' f' c' fo_OP'0 fo_D'0 fo_OQ'0 fo_F'0 fo_N'0 _ _ _ _ NO (row_ok (c1 R)) (row_ok (c2 R))) as (i & Hi & Ni).
    exists i. split; [exact Hi|]. rewrite C by exact Hi. exact Ni.
  - intros R R' [O O'] [U U']. split.
    + intros (l & Nl & Hl).
      destruct (th_faithful fq_laws (coeff (e1 EE)) (coeff (e2 EE)) (valid_smooth _ fo_V0) (valid_smooth _ fo_V'0) t e b s f c fo_OP0 fo_D0 fo_OQ0 fo_F0 fo_N0 t' e' b' s' f' c' fo_OP'0 fo_D'0 fo_OQ'0 fo_F'0 fo_N'0 _ _ _ _ _ _ _ _ l NO (row_ok (c1 R)) (row_ok (c2 R)) (row_ok (c1 R')) (row_ok (c2 R')) Nl) as [E1 E2].
      { intros i Hi. rewrite <- !C by exact Hi. exact (Hl i Hi). }
      split; eapply same_ab; eauto; [exact (xrep_cross fq_laws _ _ _ _ (row_ok (c1 R)) (row_ok (c1 R')) E1)|exact (xrep_cross fq_laws _ _ _ _ (row_ok (c2 R)) (row_ok (c2 R')) E2)].
    + intros [A1 A2]. assert (G : forall p q x, same_abscissa (affine p) (affine q) -> abscissa (fst x) (snd x) (affine q) -> abscissa (fst x) (snd x) (affine p)).
      { intros p q x [->| ->] G; [exact G|]. destruct (affine q) as [[? ?]|]; exact G. }
      destruct (th_same fq_laws (coeff (e1 EE)) (coeff (e2 EE)) t e s f t' e' s' f' _ _ _ _ _ _ (row_ok (c1 R)) (row_ok (c2 R)) (G _ _ _ A1 (row_ok (c1 R'))) (G _ _ _ A2 (row_ok (c2 R')))) as (l & Nl & Hl).
      exists l. split; [exact Nl|]. intros i Hi. rewrite !C by exact Hi. exact (Hl i Hi).
Qed.

(** ** C65: the isogeny *)
Lemma dbl_order E n p : valid E -> on_q (coeff E) p -> (0 < n)%Z -> exact_order (coeff E) (2 * n) p -> exact_order (coeff E) n (padd_q (coeff E) p p).
Proof.
  intros V H Hn [O O']. rewrite <- pm2. split.
  - rewrite (pm_mul V) by (auto; lia). rewrite Z.mul_comm. exact O.
  - intros k Hk. rewrite (pm_mul V) by (auto; lia). apply O'. lia.
Qed.
Lemma double_indep EE P8 Q8 : independent EE 4 P8 Q8 -> independent EE 2 (prod_double fq_ops EE P8) (prod_double fq_ops EE Q8).
Proof.
  intros [V1 V2 [HP HP'] [HQ HQ'] O1 O2 O3 O4 N N']. 
  destruct (C51_product EE P8 P8 0 V1 V2 HP HP' HP HP') as (_ & (D1 & D2) & _). destruct (C51_product EE Q8 Q8 0 V1 V2 HQ HQ' HQ HQ') as (_ & (D3 & D4) & _).
  split; auto.
  - split; unfold on_E; [rewrite D1|rewrite D2]; apply dbl_on; assumption.
  - split; unfold on_E; [rewrite D3|rewrite D4]; apply dbl_on; assumption.
  - rewrite D1. apply (dbl_order _ 4); auto; lia. - rewrite D2. apply (dbl_order _ 4); auto; lia. - rewrite D3. apply (dbl_order _ 4); auto; lia. - rewrite D4. apply (dbl_order _ 4); auto; lia.
  - rewrite D1, D3. rewrite !pm4 in N by assumption. exact N.
  - rewrite D2, D4. rewrite !pm4 in N' by assumption. exact N'.
Qed.
(** y: dual coordinates of the image of R under the isogeny whose codomain has dual null point A; the coordinate at the zero of A is read off R + P4 *)
Definition glued (EE : eprod fq) (P4 Q4 : couple fq) (A : nat -> Zq) (R : couple fq) (y : nat -> Zq) : Prop :=
  (forall j, j < 4 -> sqdualq (coords EE P4 Q4 R) j = qmul (A j) (y j)) /\
  forall S, shifted EE R P4 S 1 -> exists mu, mu <> q0 /\ forall j, j < 4 -> sqdualq (coords EE P4 Q4 S) j = qmul mu (qmul (A j) (y (Nat.lxor j 1))).
Definition regular (EE : eprod fq) (P4 Q4 R : couple fq) : Prop := sqdualq (coords EE P4 Q4 R) 0 <> q0 \/ sqdualq (coords EE P4 Q4 R) 1 <> q0.
Lemma sq_ext x y j : (forall i, i < 4 -> x i = y i) -> sqdualq x j = sqdualq y j.
Proof. intros H. unfold sqdual, dual, sum4. rewrite !H by lia. reflexivity. Qed.
Theorem C65_gluing : forall EE P8 Q8, independent EE 4 P8 Q8 -> let P4 := prod_double fq_ops EE P8 in let Q4 := prod_double fq_ops EE Q8 in some_coord (coords EE P4 Q4 couple0) ->
  exists A, zero_only_at A 3 /\ (exists k, k <> q0 /\ forall j, j < 4 -> sqdualq (coords EE P4 Q4 couple0) j = qmul k (qmul (A j) (A j))) /\ above_glue A (sqdualq (coords EE P4 Q4 P8)) (sqdualq (coords EE P4 Q4 Q8)) /\
  forall pts, let '(cod, imgs) := gluing_isogeny fq_ops EE P8 Q8 pts in
  cod = ts_new fq_ops (ts_null cod) /\ same_theta (cv (ts_null cod)) (dualq A) /\
  Forall2 (fun R T => on_EE EE R -> regular EE P4 Q4 R -> exists y, glued EE P4 Q4 A R y /\ same_theta (cv T) (dualq y)) pts imgs.
Proof.
  intros EE P8 Q8 H P4 Q4 N. pose proof (double_indep _ _ _ H) as H4. fold P4 Q4 in H4. destruct (four_ok _ _ _ H4) as (t & e & b & s & f & c & t' & e' & b' & s' & f' & c' & W).
  pose proof (null_ok _ _ _ _ _ _ _ _ _ _ _ _ _ _ _ W N) as NO. clear N. pose proof (fun R i => coords_ok EE P4 Q4 t e b s f c t' e' b' s' f' c' R i W) as C.
  assert (CS : forall R j, sqdualq (coords EE P4 Q4 R) j = sqdualq (thq (gm (coeff (e1 EE)) t e) (gm (coeff (e1 EE)) s f) (gm (coeff (e2 EE)) t' e') (gm (coeff (e2 EE)) s' f') (rowq (c1 R)) (rowq (c2 R))) j) by (intros R j; apply sq_ext; apply C).
  destruct H as [V1 V2 [HP HP'] [HQ HQ'] _ _ _ _ _ _]. destruct (C51_product EE P8 P8 0 V1 V2 HP HP' HP HP') as (_ & (D1 & D2) & _). destruct (C51_product EE Q8 Q8 0 V1 V2 HQ HQ' HQ HQ') as (_ & (D3 & D4) & _).
  fold P4 in D1, D2. fold Q4 in D3, D4. destruct W. rewrite fo_P0 in D1. rewrite fo_P'0 in D2. rewrite fo_Q0 in D3. rewrite fo_Q'0 in D4. symmetry in D1, D2, D3, D4.
  destruct (glue_all fq_laws (coeff (e1 EE)) (coeff (e2 EE)) (valid_smooth _ fo_V0) (valid_smooth _ fo_V'0) t e b s f c fo_OP0 fo_D0 fo_OQ0 fo_F0 fo_N0 t' e' b' s' f' c' fo_OP'0 fo_D'0 fo_OQ'0 fo_F'0 fo_N'0
    _ _ _ _ (rowq (c1 P8)) (rowq (c2 P8)) (rowq (c1 Q8)) (rowq (c2 Q8)) HP HQ HP' HQ' D1 D3 D2 D4 (row_ok (c1 P8)) (row_ok (c1 Q8)) (row_ok (c2 P8)) (row_ok (c2 Q8)) NO) as (GZ & GK & (k & Nk & GN) & _ & GI).
  set (A := codual _ _) in *. clearbody A. exists A. split; [exact GZ|]. split.
  { exists k. split; [exact Nk|]. intros j Hj. rewrite CS. cbn [couple0 c1 c2]. rewrite row_inf. exact (GN j Hj). }
  assert (AG : above_glue A (sqdualq (cv (base_change_couple_point fq_ops P8 (get_base_matrix fq_ops EE P4 Q4)))) (sqdualq (cv (base_change_couple_point fq_ops Q8 (get_base_matrix fq_ops EE P4 Q4))))).
  { destruct GK as (x0 & x1 & z0 & z1 & n0 & n1 & n2 & n3 & GK). exists x0, x1, z0, z1. repeat (split; [assumption|]). intros j Hj. destruct (GK j Hj) as [G1 G2]. split; [rewrite <- G1; exact (CS P8 j)|rewrite <- G2; exact (CS Q8 j)]. }
  split; [exact AG|].
  intros pts. unfold gluing_isogeny. fold P4 Q4.
  pose proof (C39_gluing_codomain (base_change_couple_point fq_ops P8 (get_base_matrix fq_ops EE P4 Q4)) (base_change_couple_point fq_ops Q8 (get_base_matrix fq_ops EE P4 Q4)) A 3 GZ) as CC.
  specialize (CC AG). destruct (gluing_codomain fq_ops _ _) as [[cod [ai bi]] zi]. destruct CC as (-> & EC & EN & Ea & Eb). split; [exact EC|].
  destruct GZ as (_ & GZ3 & GZN). change (Nat.lxor 3 3) with 0 in *. pose proof (GZN 0 ltac:(lia) ltac:(lia)) as A0. split.
  { exists (qdiv q1 (A 0)). split; [intros D; apply (F_1_neq_0 Zq_field); transitivity (qmul (A 0) (qdiv q1 (A 0))); [field; exact A0|rewrite D; ring]|]. intros i Hi. rewrite EN by exact Hi. field. exact A0. }
  induction pts as [|R pts IH]; [constructor|]. cbn [map]. constructor; [|exact IH]. clear IH. intros [O O'] HR. unfold regular in HR. rewrite !CS in HR.
  assert (OP : on_EE EE P4) by exact (in_P _ _ _ _ H4). destruct OP as [OP OP']. destruct (C51_product EE R P4 0 fo_V0 fo_V'0 O O' OP OP') as ((S1 & S2) & _ & _). rewrite fo_P0 in S1. rewrite fo_P'0 in S2.
  pose proof (row_ok (c1 (prod_add fq_ops EE R P4))) as X1. pose proof (row_ok (c2 (prod_add fq_ops EE R P4))) as X2. rewrite S1 in X1. rewrite S2 in X2.
  destruct (GI _ _ _ _ _ _ O O' (row_ok (c1 R)) (row_ok (c2 R)) X1 X2 HR) as (y & mu & Nmu & Gy & Gs & Ny). exists y. split; [split|].
  - intros j Hj. rewrite CS. exact (Gy j Hj).
  - intros S [T1 T2]. change (pmul_q (coeff (e1 EE)) 1 (affine (c1 P4))) with (affine (c1 P4)) in T1. change (pmul_q (coeff (e2 EE)) 1 (affine (c2 P4))) with (affine (c2 P4)) in T2. rewrite fo_P0 in T1. rewrite fo_P'0 in T2.
    pose proof (row_ok (c1 S)) as Y1. pose proof (row_ok (c2 S)) as Y2. rewrite T1 in Y1. rewrite T2 in Y2.
    destruct (th_same fq_laws (coeff (e1 EE)) (coeff (e2 EE)) t e s f t' e' s' f' _ _ _ _ _ _ Y1 Y2 X1 X2) as (l & Nl & Hl).
    exists (qmul (qmul l l) mu). split; [apply (mulr_nz Zq_field qeqb_true); [apply (mulr_nz Zq_field qeqb_true)|]; assumption|]. intros j Hj. rewrite CS.
    transitivity (qmul (qmul l l) (qmul mu (qmul (A j) (y (Nat.lxor j 1))))); [|ring]. rewrite <- (Gs j Hj). apply (sqdual_scale fq_laws _ _ l (fun _ => false)). intros i Hi. rewrite (Hl i Hi). ring.
  - exists (A 0). split; [exact A0|]. refine (C39_gluing_image _ _ A y mu 3 ai bi _ _ _ Nmu Ny Ea Eb).
    + split; [lia|]. split; [exact GZ3|exact GZN].
    + intros j Hj. change (sqdualq (coords EE P4 Q4 R) j = qmul (A j) (y j)). rewrite CS. exact (Gy j Hj).
    + intros j Hj. change (sqdualq (coords EE P4 Q4 (prod_add fq_ops EE R P4)) j = qmul mu (qmul (A j) (y (Nat.lxor j 1)))). rewrite CS. exact (Gs j Hj).
Qed.

(** ** C65: the kernel *)
Lemma C65_zero_gen EE P Q R : independent EE 2 P Q -> sqdualq (coords EE P Q R) 3 = q0.
Proof.
  intros H. destruct (four_ok _ _ _ H) as (t & e & b & s & f & c & t' & e' & b' & s' & f' & c' & W). pose proof (fun i => coords_ok EE P Q t e b s f c t' e' b' s' f' c' R i W) as C. destruct W.
  rewrite (sq_ext _ _ 3 C). destruct (two_form fq_laws (coeff (e1 EE)) (coeff (e2 EE)) (valid_smooth _ fo_V0) (valid_smooth _ fo_V'0) t e b s f c fo_OP0 fo_D0 fo_OQ0 fo_F0 fo_N0 t' e' b' s' f' c' fo_OP'0 fo_D'0 fo_OQ'0 fo_F'0 fo_N'0) as (k & _ & T).
  exact (proj2 (proj2 (proj2 (T (rowq (c1 R)) (rowq (c2 R)))))).
Qed.
(** one of the ten squared constants of a product is zero: the last one, for every point *)
Theorem C65_zero : forall EE P Q R, independent EE 2 P Q -> sqdualq (coords EE P Q R) 3 = q0. Proof. exact C65_zero_gen. Qed.

Definition opposite (R R' : couple fq) : Prop := affine (c1 R') = popp_q (affine (c1 R)) /\ affine (c2 R') = popp_q (affine (c2 R)).
(** equal up to a factor and signs *)
Definition almost (x y : nat -> Zq) : Prop := exists l sg, l <> q0 /\ forall i, i < 4 -> x i = qmul l (qmul (if sg i : bool then qopp q1 else q1) (y i)).
Lemma almost_flip x y sg : same_theta x (fun i => flip (sg i) (y i)) -> almost x y.
Proof. intros (l & Nl & H). exists l, sg. split; [exact Nl|]. intros i Hi. rewrite (H i Hi), flip_mul. reflexivity. Qed.
Lemma almost_sq x y : almost x y -> exists k, k <> q0 /\ forall j, sqdualq x j = qmul k (sqdualq y j).
Proof. intros (l & sg & Nl & H). exists (qmul l l). split; [apply (mulr_nz Zq_field qeqb_true); exact Nl|]. exact (sqdual_scale fq_laws x y l sg H). Qed.
Lemma coords_same EE P Q R R' : independent EE 2 P Q -> same_abscissa (affine (c1 R')) (affine (c1 R)) -> same_abscissa (affine (c2 R')) (affine (c2 R)) -> same_theta (coords EE P Q R') (coords EE P Q R).
Proof.
  intros H A1 A2. destruct (four_ok _ _ _ H) as (t & e & b & s & f & c & t' & e' & b' & s' & f' & c' & W). pose proof (fun R i => coords_ok EE P Q t e b s f c t' e' b' s' f' c' R i W) as C.
  assert (G : forall p q x, same_abscissa (affine p) (affine q) -> abscissa (fst x) (snd x) (affine q) -> abscissa (fst x) (snd x) (affine p)).
  { intros p q x [->| ->] G; [exact G|]. destruct (affine q) as [[? ?]|]; exact G. }
  destruct (th_same fq_laws (coeff (e1 EE)) (coeff (e2 EE)) t e s f t' e' s' f' _ _ _ _ _ _ (row_ok (c1 R')) (row_ok (c2 R')) (G _ _ _ A1 (row_ok (c1 R))) (G _ _ _ A2 (row_ok (c2 R)))) as (l & Nl & Hl).
  exists l. split; [exact Nl|]. intros i Hi. rewrite !C by exact Hi. exact (Hl i Hi).
Qed.
Lemma almost_same x y : same_theta x y -> almost x y.
Proof. intros H. apply (almost_flip x y (fun _ => false)). exact H. Qed.
Lemma swap_add E p q d : valid E -> on_q (coeff E) p -> on_q (coeff E) q -> on_q (coeff E) d -> padd_q (coeff E) (padd_q (coeff E) p d) q = padd_q (coeff E) (padd_q (coeff E) p q) d.
Proof.
  intros V Hp Hq Hd. pose proof (padd_assoc Zq_field qeqb_true q2_nz (valid_smooth E V)) as A.
  etransitivity; [apply A; assumption|]. etransitivity; [|symmetry; apply A; assumption]. f_equal. exact (padd_comm Zq_field qeqb_true q2_nz d q Hd Hq).
Qed.
Lemma opp_add2 E p q : valid E -> on_q (coeff E) p -> on_q (coeff E) q -> pmul_q (coeff E) 4 q = None -> padd_q (coeff E) (popp_q p) q = popp_q (padd_q (coeff E) (padd_q (coeff E) p q) (pmul_q (coeff E) 2 q)).
Proof.
  intros V Hp Hq H4. pose proof (padd_assoc Zq_field qeqb_true q2_nz (valid_smooth E V)) as A. pose proof (dbl_on E _ Hq) as Hd.
  rewrite pm4 in H4 by assumption. rewrite pm2. assert (T : padd_q (coeff E) q (padd_q (coeff E) q q) = popp_q q).
  { refine (padd_None Zq_field qeqb_true q2_nz q _ Hq (padd_on Zq_field qeqb_true q2_nz _ _ Hq Hd) _). etransitivity; [symmetry; apply A; assumption|exact H4]. }
  assert (T' : padd_q (coeff E) (padd_q (coeff E) p q) (padd_q (coeff E) q q) = padd_q (coeff E) p (popp_q q)). { etransitivity; [apply A; assumption|]. rewrite <- T. reflexivity. }
  rewrite T'. assert (Ho : on_q (coeff E) (popp_q q)) by exact (on_opp Zq_field q Hq).
  etransitivity; [|symmetry; exact (popp_add Zq_field qeqb_true q2_nz p (popp_q q) Hp Ho)]. exact (f_equal (padd_q (coeff E) (popp_q p)) (eq_sym (popp_invol Zq_field q))).
Qed.
Lemma zero_index_lt (l : list fq) : length l = 4 -> zero_index fq_ops l < 4.
Proof. intros H. destruct l as [|a [|b [|c [|d [|]]]]]; try discriminate. unfold zero_index, zero_index_from. destruct (fis0 fq_ops a), (fis0 fq_ops b), (fis0 fq_ops c), (fis0 fq_ops d); cbv; lia. Qed.
Theorem C65_kernel : forall EE P8 Q8 R R', independent EE 4 P8 Q8 -> let P4 := prod_double fq_ops EE P8 in let Q4 := prod_double fq_ops EE Q8 in on_EE EE R -> on_EE EE R' ->
  shifted EE R P4 R' 2 \/ shifted EE R Q4 R' 2 \/ opposite R R' ->
  let '(_, imgs) := gluing_isogeny fq_ops EE P8 Q8 [R; R'] in exists T T', imgs = [T; T'] /\ same_theta (cv T') (cv T).
Proof.
  intros EE P8 Q8 R R' H P4 Q4 HR HR' K. pose proof (double_indep _ _ _ H) as H4. fold P4 Q4 in H4.
  assert (D : almost (coords EE P4 Q4 R') (coords EE P4 Q4 R) /\ almost (coords EE P4 Q4 (prod_add fq_ops EE R' P4)) (coords EE P4 Q4 (prod_add fq_ops EE R P4))).
  { destruct HR as [O O']. destruct HR' as [U U']. pose proof H4 as [V1 V2 [HP HP'] [HQ HQ'] [O1 _] [O2 _] _ _ _ _]. 
    destruct (C51_product EE R P4 0 V1 V2 O O' HP HP') as ((S1 & S2) & _ & _). destruct (C51_product EE R' P4 0 V1 V2 U U' HP HP') as ((S3 & S4) & _ & _).
    assert (OS : on_EE EE (prod_add fq_ops EE R P4)) by (split; unfold on_E; [rewrite S1; exact (padd_on Zq_field qeqb_true q2_nz _ _ O HP)|rewrite S2; exact (padd_on Zq_field qeqb_true q2_nz _ _ O' HP')]).
    destruct K as [K|[K|K]].
    - split; [exact (almost_flip _ _ _ (proj1 (C65_base_change EE P4 Q4 R R' H4 (conj O O')) K))|]. apply (almost_flip _ _ Nat.odd), (proj1 (C65_base_change EE P4 Q4 _ _ H4 OS)).
      destruct K as [K1 K2]. split; [rewrite S1, S3, K1|rewrite S2, S4, K2]; apply swap_add; auto; rewrite pm2; apply dbl_on; assumption.
    - split; [exact (almost_flip _ _ _ (proj2 (C65_base_change EE P4 Q4 R R' H4 (conj O O')) K))|]. apply (almost_flip _ _ (fun i => Nat.odd (Nat.div i 2))), (proj2 (C65_base_change EE P4 Q4 _ _ H4 OS)).
      destruct K as [K1 K2]. split; [rewrite S1, S3, K1|rewrite S2, S4, K2]; apply swap_add; auto; rewrite pm2; apply dbl_on; assumption.
    - destruct K as [K1 K2]. split; [apply almost_same, coords_same; [exact H4|right; exact K1|right; exact K2]|].
      destruct (C51_product EE (prod_add fq_ops EE R P4) (prod_double fq_ops EE P4) 0 V1 V2 (proj1 OS) (proj2 OS)) as ((S5 & S6) & _ & _).
      { destruct (C51_product EE P4 P4 0 V1 V2 HP HP' HP HP') as (_ & (D1 & _) & _). unfold on_E. rewrite D1. apply dbl_on. exact HP. } { destruct (C51_product EE P4 P4 0 V1 V2 HP HP' HP HP') as (_ & (_ & D1) & _). unfold on_E. rewrite D1. apply dbl_on. exact HP'. }
      destruct (C51_product EE P4 P4 0 V1 V2 HP HP' HP HP') as (_ & (D1 & D2) & _). rewrite D1, <- pm2, S1 in S5. rewrite D2, <- pm2, S2 in S6.
      assert (B : same_theta (coords EE P4 Q4 (prod_add fq_ops EE R' P4)) (coords EE P4 Q4 (prod_add fq_ops EE (prod_add fq_ops EE R P4) (prod_double fq_ops EE P4)))).
      { apply coords_same; [exact H4|right; rewrite S3, S5, K1|right; rewrite S4, S6, K2]; apply opp_add2; assumption. }
      pose proof (proj1 (C65_base_change EE P4 Q4 (prod_add fq_ops EE R P4) (prod_add fq_ops EE (prod_add fq_ops EE R P4) (prod_double fq_ops EE P4)) H4 OS)) as B'.
      destruct B' as (l' & Nl' & Hl'). { split; [rewrite S5, S1|rewrite S6, S2]; reflexivity. } destruct B as (l & Nl & Hl).
      apply (almost_flip _ _ Nat.odd). exists (qmul l l'). split; [apply (mulr_nz Zq_field qeqb_true); assumption|]. intros i Hi. rewrite (Hl i Hi), (Hl' i Hi). ring. }
  destruct D as [D1 D2]. destruct (almost_sq _ _ D1) as (k & Nk & E1). destruct (almost_sq _ _ D2) as (m & Nm & E2).
  unfold gluing_isogeny. fold P4 Q4. cbn [map]. destruct (gluing_codomain fq_ops _ _) as [[cod [ai bi]] zi] eqn:EG.
  assert (Hz : zi < 4). { unfold gluing_codomain in EG. injection EG as _ _ _ <-. apply zero_index_lt. reflexivity. }
  eexists _, _. split; [reflexivity|]. exists k. split; [exact Nk|].
  exact (gluing_image_scale fq_laws _ _ _ _ k m ai bi zi Hz Nk Nm (fun j _ => E1 j) (fun j _ => E2 j)).
Qed.
