(** The quadratic extension: every operation of M_Fp2.v against the field Zp[i]. *)
From Coq Require Import ZArith Znumtheory List Lia Bool Ring Field.
From Verif Require Import S_Fp S_Fp2 M_Utils64 M_Consts M_Fp M_Fp2 L_Words L_Bits L_Fp L_FpOps L_FpSmall L_FpCodec L_FpRoots L_FpDiv L_Zp L_Zp2.
Import ListNotations.
Open Scope Z_scope.

#[global] Opaque set_add set_sub set_neg set_mul set_square sqrt fourth_root select set_cond set_condneg condswap iszero equals encode decode.
Create HintDb cn discriminated.
#[global] Hint Constants Opaque : cn.
#[global] Hint Resolve canon_add canon_sub canon_neg canon_mul canon_square canon_half canon_mul2 canon_mul3 canon_mul4 canon_mul8
  canon_sop canon_dop canon_div canon_invert canon_zero canon_one : cn.

Definition fv2 (x : fp2) : Zq := (fv (fst x), fv (snd x)).
Definition zval2 (x : Zq) : Z * Z := (zval (fst x), zval (snd x)).
Definition mk2 (x : Z * Z) : Zq := (mk (fst x), mk (snd x)).

Lemma fv2_inj a b : canon2 a -> canon2 b -> fv2 a = fv2 b -> a = b.
Proof. destruct a, b. intros [? ?] [? ?] E. injection E as E1 E2. cbn in *. f_equal; apply fv_inj; auto. Qed.
Lemma zval2_fv2 x : zval2 (fv2 x) = val2 x. Proof. unfold zval2, fv2, val2. cbn [fst snd]. rewrite !zval_fv. reflexivity. Qed.
Lemma zval2_inj a b : zval2 a = zval2 b -> a = b.
Proof. destruct a, b. unfold zval2. cbn. intros E. injection E as E1 E2. f_equal; apply zval_inj; auto. Qed.
Lemma mk2_zval2 a : mk2 (zval2 a) = a. Proof. destruct a. unfold mk2, zval2. cbn. rewrite !mk_zval. reflexivity. Qed.
Lemma zval2_mk2 a : zval2 (mk2 a) = gred a. Proof. destruct a. unfold mk2, zval2, gred. cbn [fst snd]. rewrite !zval_mk. reflexivity. Qed.
Lemma mk2_gred a : mk2 (gred a) = mk2 a. Proof. destruct a. unfold mk2, gred. cbn [fst snd]. rewrite !mk_mod. reflexivity. Qed.
Lemma mk2_gadd a b : mk2 (gadd a b) = qadd (mk2 a) (mk2 b).
Proof. unfold gadd. rewrite mk2_gred. unfold mk2, qadd. cbn [fst snd]. rewrite !mk_add. reflexivity. Qed.
Lemma mk2_gsub a b : mk2 (gsub a b) = qsub (mk2 a) (mk2 b).
Proof. unfold gsub. rewrite mk2_gred. unfold mk2, qsub. cbn [fst snd]. rewrite !mk_sub. reflexivity. Qed.
Lemma mk2_gopp a : mk2 (gopp a) = qopp (mk2 a).
Proof. unfold gopp. rewrite mk2_gred. unfold mk2, qopp. cbn [fst snd]. rewrite !mk_opp. reflexivity. Qed.
Lemma mk2_gconj a : mk2 (gconj a) = qconj (mk2 a).
Proof. unfold gconj. rewrite mk2_gred. unfold mk2, qconj. cbn [fst snd]. rewrite !mk_opp. reflexivity. Qed.
Lemma mk2_gmul a b : mk2 (gmul a b) = qmul (mk2 a) (mk2 b).
Proof. unfold gmul. rewrite mk2_gred. unfold mk2, qmul. cbn [fst snd]. rewrite mk_sub, mk_add, !mk_mul. reflexivity. Qed.
(** transfer: an element whose image is that of a reduced pair has that pair as value *)
Lemma val2_of r g : fv2 r = mk2 g -> val2 r = gred g.
Proof. intros E. rewrite <- zval2_fv2, E. apply zval2_mk2. Qed.
Lemma fv2_mk2 x : fv2 x = mk2 (val2 x). Proof. reflexivity. Qed.
Lemma gred_idem a : gred (gred a) = gred a. Proof. unfold gred. cbn [fst snd]. rewrite !Zmod_mod. reflexivity. Qed.
Lemma gred_val2 x : gred (val2 x) = val2 x. Proof. unfold gred, val2. cbn [fst snd]. rewrite !Z.mod_small by apply val_range. reflexivity. Qed.
Lemma gred_gmul a b : gred (gmul a b) = gmul a b. Proof. apply gred_idem. Qed.
Lemma g_square_q x : g_square x <-> qsquare (mk2 x).
Proof.
  split.
  - intros [z H]. exists (mk2 z). rewrite <- mk2_gmul, H. apply mk2_gred.
  - intros [z H]. exists (zval2 z). rewrite <- gred_gmul, <- !zval2_mk2. f_equal. rewrite mk2_gmul, !mk2_zval2. exact H.
Qed.
Lemma g_fourth_q x : g_fourth x <-> qfourth (mk2 x).
Proof.
  split.
  - intros [z H]. exists (mk2 z). unfold q4. rewrite <- !mk2_gmul, H. apply mk2_gred.
  - intros [z H]. exists (zval2 z). rewrite <- gred_gmul, <- !zval2_mk2. f_equal. rewrite !mk2_gmul, !mk2_zval2. exact H.
Qed.

(** ** Ring operations *)
Ltac c2 := repeat match goal with H : canon2 _ |- _ => destruct H end; cbn [fst snd] in *.
Ltac cn := auto 12 with cn nocore.
Lemma f2_add_ok x y : canon2 x -> canon2 y -> canon2 (f2_add x y) /\ fv2 (f2_add x y) = qadd (fv2 x) (fv2 y).
Proof. intros. c2. unfold f2_add, canon2, fv2, qadd. cbn [fst snd]. rewrite !fv_add by cn. split; [split; cn|reflexivity]. Qed.
Lemma f2_sub_ok x y : canon2 x -> canon2 y -> canon2 (f2_sub x y) /\ fv2 (f2_sub x y) = qsub (fv2 x) (fv2 y).
Proof. intros. c2. unfold f2_sub, canon2, fv2, qsub. cbn [fst snd]. rewrite !fv_sub by cn. split; [split; cn|reflexivity]. Qed.
Lemma f2_neg_ok x : canon2 x -> canon2 (f2_neg x) /\ fv2 (f2_neg x) = qopp (fv2 x).
Proof. intros. c2. unfold f2_neg, canon2, fv2, qopp. cbn [fst snd]. rewrite !fv_neg by cn. split; [split; cn|reflexivity]. Qed.
Lemma f2_conj_ok x : canon2 x -> canon2 (f2_conj x) /\ fv2 (f2_conj x) = qconj (fv2 x).
Proof. intros. c2. unfold f2_conj, canon2, fv2, qconj. cbn [fst snd]. rewrite !fv_neg by cn. split; [split; cn|reflexivity]. Qed.
Lemma f2_mul_ok x y : canon2 x -> canon2 y -> canon2 (f2_mul x y) /\ fv2 (f2_mul x y) = qmul (fv2 x) (fv2 y).
Proof. intros. c2. unfold f2_mul, canon2, fv2, qmul. cbn [fst snd]. rewrite fv_dop, fv_sop by cn. split; [split; cn|reflexivity]. Qed.
Lemma f2_mul_old_ok x y : canon2 x -> canon2 y -> canon2 (f2_mul_old x y) /\ fv2 (f2_mul_old x y) = qmul (fv2 x) (fv2 y).
Proof.
  intros. c2. unfold f2_mul_old, canon2, fv2, qmul. cbn [fst snd]. rewrite !fv_sub, !fv_mul, !fv_add by cn. split; [split; cn|f_equal; ring].
Qed.
Lemma f2_square_ok x : canon2 x -> canon2 (f2_square x) /\ fv2 (f2_square x) = qmul (fv2 x) (fv2 x).
Proof.
  intros. c2. unfold f2_square, canon2, fv2, qmul. cbn [fst snd]. rewrite fv_mul2, !fv_mul, fv_add, fv_sub by cn. split; [split; cn|f_equal; ring].
Qed.
Lemma f2_half_ok x : canon2 x -> canon2 (f2_half x) /\ qadd (fv2 (f2_half x)) (fv2 (f2_half x)) = fv2 x.
Proof.
  intros. c2. unfold f2_half, canon2, fv2, qadd. cbn [fst snd]. rewrite !fv_half by cn. split; [split; cn|].
  rewrite !(a_half_twice _ _ _ _ _ _ _ _ _ Zp_field two_nz). reflexivity.
Qed.
Definition qscale (k : Zp) (x : Zq) : Zq := (k * fst x, k * snd x)%zp.
Lemma f2_mul2_ok x : canon2 x -> canon2 (f2_mul2 x) /\ fv2 (f2_mul2 x) = qscale 2%zp (fv2 x).
Proof. intros. c2. unfold f2_mul2, canon2, fv2, qscale. cbn [fst snd]. rewrite !fv_mul2 by cn. split; [split; cn|reflexivity]. Qed.
Lemma f2_mul3_ok x : canon2 x -> canon2 (f2_mul3 x) /\ fv2 (f2_mul3 x) = qscale (1+2)%zp (fv2 x).
Proof. intros. c2. unfold f2_mul3, canon2, fv2, qscale. cbn [fst snd]. rewrite !fv_mul3 by cn. split; [split; cn|reflexivity]. Qed.
Lemma f2_mul4_ok x : canon2 x -> canon2 (f2_mul4 x) /\ fv2 (f2_mul4 x) = qscale (2*2)%zp (fv2 x).
Proof. intros. c2. unfold f2_mul4, canon2, fv2, qscale. cbn [fst snd]. rewrite !fv_mul4 by cn. split; [split; cn|reflexivity]. Qed.
Lemma f2_mul8_ok x : canon2 x -> canon2 (f2_mul8 x) /\ fv2 (f2_mul8 x) = qscale (2*2*2)%zp (fv2 x).
Proof. intros. c2. unfold f2_mul8, canon2, fv2, qscale. cbn [fst snd]. rewrite !fv_mul8 by cn. split; [split; cn|reflexivity]. Qed.

Lemma canon2_zero : canon2 f2_zero. Proof. split; exact canon_zero. Qed.
Lemma canon2_one : canon2 f2_one. Proof. split; [exact canon_one|exact canon_zero]. Qed.
Lemma fv2_zero : fv2 f2_zero = q0. Proof. unfold fv2, f2_zero. cbn [fst snd]. rewrite fv_zero. reflexivity. Qed.
Lemma fv2_one : fv2 f2_one = q1. Proof. unfold fv2, f2_one. cbn [fst snd]. rewrite fv_zero, fv_one. reflexivity. Qed.

(** ** Predicates and selection *)
Definition qeqb (x y : Zq) : bool := if q_dec x y then true else false.
Lemma qeqb_true x y : qeqb x y = true <-> x = y.
Proof. unfold qeqb. destruct (q_dec x y); split; congruence. Qed.
Lemma qeqb_false x y : qeqb x y = false <-> x <> y.
Proof. unfold qeqb. destruct (q_dec x y); split; congruence. Qed.
Lemma qeqb_pair (a b c d : Zp) : qeqb (a, b) (c, d) = zeqb a c && zeqb b d.
Proof.
  unfold zeqb, qeqb. destruct (zp_dec a c) as [E1|E1], (zp_dec b d) as [E2|E2], (q_dec (a, b) (c, d)) as [E|E]; auto; exfalso;
    first [injection E as ? ?; contradiction | apply E; subst; reflexivity].
Qed.
Lemma f2_equals_ok x y : canon2 x -> canon2 y -> f2_equals x y = mask32 (qeqb (fv2 x) (fv2 y)).
Proof.
  intros. c2. unfold f2_equals. rewrite !equals_fv, mask_and by auto. f_equal. symmetry. apply qeqb_pair.
Qed.
Lemma f2_iszero_ok x : canon2 x -> f2_iszero x = mask32 (qeqb (fv2 x) q0).
Proof.
  intros. c2. unfold f2_iszero. rewrite !iszero_fv, mask_and by auto. f_equal. symmetry. apply (qeqb_pair _ _ 0%zp 0%zp).
Qed.
Lemma f2_set_cond_mask x y b : canon2 x -> canon2 y -> f2_set_cond x y (mask32 b) = if b then y else x.
Proof. intros. destruct x, y. c2. unfold f2_set_cond. cbn [fst snd]. rewrite !set_cond_mask by auto. destruct b; reflexivity. Qed.
Lemma f2_select_mask x y b : canon2 x -> canon2 y -> f2_select x y (mask32 b) = if b then y else x.
Proof. intros. destruct x, y. c2. unfold f2_select. cbn [fst snd]. rewrite !select_mask by auto. destruct b; reflexivity. Qed.
Lemma f2_set_condneg_mask x b : canon2 x -> f2_set_condneg x (mask32 b) = if b then f2_neg x else x.
Proof. intros. destruct x. c2. unfold f2_set_condneg. cbn [fst snd]. rewrite !set_cond_mask by cn. destruct b; reflexivity. Qed.
Lemma f2_condswap_mask x y b : canon2 x -> canon2 y -> f2_condswap x y (mask32 b) = if b then (y, x) else (x, y).
Proof. intros. destruct x, y. c2. unfold f2_condswap. cbn [fst snd]. rewrite !condswap_mask by auto. destruct b; reflexivity. Qed.

(** ** Norm, division *)
Lemma f2_norm_ok x : canon2 x -> canon (f2_norm x) /\ fv (f2_norm x) = qnorm (fv2 x).
Proof. intros. c2. unfold f2_norm, qnorm, fv2. cbn [fst snd]. rewrite fv_add, !fv_square by cn. split; [cn|reflexivity]. Qed.
Lemma zdiv_mul a b : (a * (1 / b) = a / b)%zp.
Proof. unfold zdiv. ring. Qed.
Lemma f2_invert_ok x : canon2 x -> canon2 (f2_invert x) /\ fv2 (f2_invert x) = qinv (fv2 x).
Proof.
  intros H. destruct (f2_norm_ok x H) as [Cn Fn]. c2. unfold f2_invert. set (n := f2_norm x) in *. clearbody n.
  unfold canon2. cbn [fst snd]. split; [split; cn|]. unfold fv2, qinv. cbn [fst snd].
  rewrite fv_neg, !fv_mul, fv_invert by cn. rewrite Fn. unfold fv2. f_equal; unfold zdiv; ring.
Qed.
Lemma f2_div_ok x y : canon2 x -> canon2 y -> canon2 (f2_div x y) /\ fv2 (f2_div x y) = qdiv (fv2 x) (fv2 y).
Proof.
  intros Hx H. destruct (f2_norm_ok y H) as [Cn Fn]. pose proof H as H'. c2. unfold f2_div. cbv zeta. set (n := f2_norm y) in *. clearbody n.
  destruct (f2_mul_ok x (set_mul (fst y) (invert n), set_mul (set_neg (snd y)) (invert n))) as [A B]; [split; auto|split; cbn [fst snd]; cn|].
  split; auto. etransitivity; [exact B|]. unfold qdiv. f_equal. unfold fv2, qinv. cbn [fst snd].
  rewrite !fv_mul, fv_neg, fv_invert by cn. rewrite Fn. apply (f_equal2 (@pair Zp Zp)); unfold zdiv; fold (fv2 y); generalize (qnorm (fv2 y)); intros; ring.
Qed.

(** ** Quadratic character *)
Lemma qsquare_dec x : {qsquare x} + {~ qsquare x}.
Proof. destruct (zsquare_dec (qnorm x)) as [S|S]; [left|right]; rewrite qsquare_norm; auto. Qed.
Definition leg2_spec (x : Zq) : Z := if q_dec x q0 then 0 else if qsquare_dec x then 1 else -1.
Lemma f2_legendre_ok x : canon2 x -> f2_legendre x = leg2_spec (fv2 x).
Proof.
  intros H. destruct (f2_norm_ok x H) as [Cn Fn]. unfold f2_legendre. rewrite legendre_fv by auto. rewrite Fn. unfold leg_spec, leg2_spec.
  destruct (q_dec (fv2 x) q0) as [E|E].
  - rewrite E. destruct (zp_dec (qnorm q0) 0%zp) as [|N]; auto. exfalso. apply N. unfold qnorm, q0. cbn [fst snd]. ring.
  - apply qnorm_nz in E. destruct (zp_dec (qnorm (fv2 x)) 0%zp); [contradiction|].
    destruct (zsquare_dec (qnorm (fv2 x))) as [S|S], (qsquare_dec (fv2 x)) as [S'|S']; auto; rewrite qsquare_norm in S'; contradiction.
Qed.
Definition nsq (a : Zp) : bool := if zsquare_dec a then false else true.
Lemma nqr_mask_ok a : canon a -> nqr_mask (legendre a) = mask32 (nsq (fv a)).
Proof.
  intros H. rewrite legendre_fv by auto. unfold leg_spec, nsq. destruct (zp_dec (fv a) 0%zp) as [E|E], (zsquare_dec (fv a)) as [S|S]; try reflexivity.
  exfalso. apply S. rewrite E. apply zsquare_0.
Qed.

(** ** Signs *)
Definition sign_ok (z : Zq) : Prop := if zeq0 (fst z) then even_z (snd z) = true else even_z (fst z) = true.
Lemma zval_opp a : a <> 0%zp -> zval (- a)%zp = P - zval a.
Proof.
  intros N. rewrite zopp_eq, zval_mk. pose proof (zval_range a). assert (zval a <> 0) by (intros E; apply N, zval_0, E).
  symmetry. apply (Z.mod_unique _ _ (-1)); lia.
Qed.
Lemma P_even : Z.even P = false. Proof. reflexivity. Qed.
Lemma even_opp a : a <> 0%zp -> even_z (- a)%zp = negb (even_z a).
Proof. intros N. unfold even_z. rewrite zval_opp by auto. rewrite Z.even_sub, P_even. destruct (Z.even (zval a)); reflexivity. Qed.
Lemma even_0 : even_z 0%zp = true. Proof. unfold even_z. replace (zval 0%zp) with 0; auto. symmetry. apply zval_0. reflexivity. Qed.
Lemma even_unique a b : even_z a = true -> even_z b = true -> (a * a)%zp = (b * b)%zp -> a = b.
Proof.
  intros Ha Hb E. destruct (zsq_eq a b E) as [|E']; auto. destruct (zp_dec b 0%zp) as [->|N]; [rewrite E'; ring|].
  rewrite E', even_opp, Hb in Ha by auto. discriminate.
Qed.
Lemma parity_mask a : canon a -> lo32 (- Z.land (nth 0 (encode a) 0) 1) = mask32 (negb (even_z (fv a))).
Proof.
  intros Ha. rewrite encode_parity by auto. unfold even_z. rewrite zval_fv, Zeven_mod. pose proof (Z.mod_pos_bound (val a) 2 ltac:(lia)).
  destruct (Zeq_bool (val a mod 2) 0) eqn:E.
  - apply Zeq_bool_eq in E. rewrite E. reflexivity.
  - apply Zeq_bool_neq in E. replace (val a mod 2) with 1 by lia. reflexivity.
Qed.
Lemma f2_root_finish_ok y0 y1 b : canon y0 -> canon y1 -> canon2 (f2_root_finish y0 y1 (mask32 b)) /\
  (b = false -> f2_root_finish y0 y1 (mask32 b) = f2_zero) /\
  (b = true -> sign_ok (fv2 (f2_root_finish y0 y1 (mask32 b))) /\
     (fv2 (f2_root_finish y0 y1 (mask32 b)) = (fv y0, fv y1) \/ fv2 (f2_root_finish y0 y1 (mask32 b)) = qopp (fv y0, fv y1))).
Proof.
  intros H0 H1. unfold f2_root_finish. cbv zeta. rewrite !select_mask by cn.
  set (x0 := if b then y0 else fp_zero). set (x1 := if b then y1 else fp_zero).
  assert (C0 : canon x0) by (unfold x0; destruct b; cn). assert (C1 : canon x1) by (unfold x1; destruct b; cn).
  rewrite iszero_fv, !parity_mask, mask_and, mask_or by auto. rewrite f2_set_condneg_mask by (split; auto).
  destruct (f2_neg_ok (x0, x1)) as [Cg Fg]; [split; auto|].
  set (s := negb (even_z (fv x0)) || zeq0 (fv x0) && negb (even_z (fv x1))).
  split; [destruct s; [exact Cg|split; auto]|]. split.
  - intros ->. unfold s, x0, x1. rewrite !fv_zero, even_0, andb_false_r. reflexivity.
  - intros Hb. assert (E : fv2 (if s then f2_neg (x0, x1) else (x0, x1)) = (if s then qopp (fv2 (x0, x1)) else fv2 (x0, x1))) by (destruct s; auto).
    rewrite E. subst s. unfold fv2. cbn [fst snd]. clear - Hb. replace x0 with y0 in * by (unfold x0; rewrite Hb; reflexivity). replace x1 with y1 in * by (unfold x1; rewrite Hb; reflexivity).
    clear. generalize (fv y0) (fv y1). intros a c. split; [|match goal with |- context [if ?b then _ else _] => destruct b end; auto].
    unfold sign_ok, zeq0. destruct (zp_dec a 0%zp) as [->|N].
    + rewrite even_0. cbn [negb orb andb]. assert (Z0 : (- 0)%zp = 0%zp) by ring. destruct (even_z c) eqn:Ec; cbn [negb fst snd qopp]; rewrite ?Z0;
        (destruct (zp_dec 0%zp 0%zp); [|contradiction]); auto. rewrite even_opp, Ec; auto. intros ->. rewrite even_0 in Ec. discriminate.
    + rewrite andb_false_l, orb_false_r. destruct (even_z a) eqn:Ea; cbn [negb fst snd qopp].
      * destruct (zp_dec a 0%zp); [contradiction|auto].
      * destruct (zp_dec (- a)%zp 0%zp) as [E|E]; [exfalso; apply N; rewrite <- (zopp_invol a), E; ring|]. rewrite even_opp, Ea; auto.
Qed.
