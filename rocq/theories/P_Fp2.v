(** C15-C22: the quadratic extension GF(P)[i].  Statements are about the pair of integer residues [val2 x]. *)
From Coq Require Import ZArith List Lia Bool Ring.
From Verif Require Import S_Fp S_Fp2 M_Utils64 M_Consts M_Fp M_Fp2 L_Fp L_FpOps L_FpSmall L_FpCodec L_Zp L_Zp2 L_Fp2 L_Fp2Roots L_Fp2Misc.
Import ListNotations.
Open Scope Z_scope.

(** ** transfer from the field Zp[i] to pairs of residues *)
Lemma val2_q r g : fv2 r = mk2 g -> val2 r = gred g. Proof. exact (val2_of r g). Qed.
Lemma val2_add r x y : fv2 r = qadd (fv2 x) (fv2 y) -> val2 r = gadd (val2 x) (val2 y).
Proof. rewrite (fv2_mk2 x), (fv2_mk2 y), <- mk2_gadd. intros E. rewrite (val2_of _ _ E). apply gred_idem. Qed.
Lemma val2_sub r x y : fv2 r = qsub (fv2 x) (fv2 y) -> val2 r = gsub (val2 x) (val2 y).
Proof. rewrite (fv2_mk2 x), (fv2_mk2 y), <- mk2_gsub. intros E. rewrite (val2_of _ _ E). apply gred_idem. Qed.
Lemma val2_mul r x y : fv2 r = qmul (fv2 x) (fv2 y) -> val2 r = gmul (val2 x) (val2 y).
Proof. rewrite (fv2_mk2 x), (fv2_mk2 y), <- mk2_gmul. intros E. rewrite (val2_of _ _ E). apply gred_idem. Qed.
Lemma val2_opp r x : fv2 r = qopp (fv2 x) -> val2 r = gopp (val2 x).
Proof. rewrite (fv2_mk2 x), <- mk2_gopp. intros E. rewrite (val2_of _ _ E). apply gred_idem. Qed.
Lemma val2_conj r x : fv2 r = qconj (fv2 x) -> val2 r = gconj (val2 x).
Proof. rewrite (fv2_mk2 x), <- mk2_gconj. intros E. rewrite (val2_of _ _ E). apply gred_idem. Qed.
Lemma val2_scale r x k : fv2 r = qscale (mk k) (fv2 x) -> val2 r = gscale k (val2 x).
Proof. unfold qscale. intros E. apply val2_of. rewrite E. unfold mk2, fv2, fv, val2. cbn [fst snd]. rewrite !mk_mul. reflexivity. Qed.
Lemma zval2_gred a : gred (zval2 a) = zval2 a. Proof. rewrite <- zval2_mk2, mk2_zval2. reflexivity. Qed.
Lemma gmul_val2 r x y : gmul (val2 x) (val2 y) = val2 r <-> qmul (fv2 x) (fv2 y) = fv2 r.
Proof.
  rewrite (fv2_mk2 x), (fv2_mk2 y), (fv2_mk2 r), <- mk2_gmul. split; [congruence|]. intros E. apply (f_equal zval2) in E. rewrite !zval2_mk2, gred_gmul, gred_val2 in E. exact E.
Qed.
Lemma zval2_qmul a b : zval2 (qmul a b) = gmul (zval2 a) (zval2 b).
Proof. rewrite <- (mk2_zval2 a) at 1. rewrite <- (mk2_zval2 b) at 1. rewrite <- mk2_gmul, zval2_mk2. apply gred_gmul. Qed.
Lemma zval2_1 : zval2 q1 = (1, 0).
Proof. rewrite <- fv2_one, zval2_fv2. unfold val2, f2_one. cbn [fst snd]. rewrite val_one, val_zero. reflexivity. Qed.
Lemma zval2_qpow x e : zval2 (qpow x e) = gpow (zval2 x) e.
Proof.
  unfold qpow, gpow. induction (Z.to_nat e) as [|n IH]; [exact zval2_1|]. change (Nat.iter (S n) (qmul x) q1) with (qmul x (Nat.iter n (qmul x) q1)). rewrite zval2_qmul, IH. reflexivity.
Qed.
Lemma val2_pow r x e : fv2 r = qpow (fv2 x) e -> val2 r = gpow (val2 x) e.
Proof. intros E. rewrite <- !zval2_fv2, E. apply zval2_qpow. Qed.
Lemma val2_0 x : canon2 x -> (val2 x = (0, 0) <-> fv2 x = q0).
Proof.
  intros Hx. rewrite <- zval2_fv2, <- fv2_zero. split; intros E; [apply zval2_inj; rewrite E|rewrite E]; rewrite zval2_fv2; unfold val2, f2_zero; cbn [fst snd]; rewrite val_zero; reflexivity.
Qed.
Lemma sign_ok_g x : sign_ok (fv2 x) -> g_sign_ok (val2 x).
Proof.
  unfold sign_ok, g_sign_ok, fv2, val2, even_z. cbn [fst snd]. rewrite !zval_fv. unfold zeq0.
  destruct (zp_dec (fv (fst x)) 0%zp) as [E|E], (Z.eqb_spec (val (fst x)) 0) as [E'|E']; auto; exfalso.
  - apply fv_0 in E. contradiction.
  - apply E, fv_0, E'.
Qed.
(** every pair of residues is the value of an element *)
Lemma fp_surj n : exists a, canon a /\ fv a = mk n.
Proof.
  destruct (le_bytes_ok 162 (n mod P)) as (H1 & H2 & H3); [apply Z.mod_pos_bound, P_pos|].
  destruct (decode_reduce_ok _ H1) as [C V]. exists (decode_reduce (le_bytes 162 (n mod P))). split; auto. rewrite (fv_val _ _ V). rewrite H3, mk_mod; auto.
  rewrite Bn_pow. eapply Z.lt_trans; [apply Z.mod_pos_bound, P_pos|]. vm_compute. reflexivity.
Qed.
Lemma fv2_surj q : exists x, canon2 x /\ fv2 x = q.
Proof.
  destruct q as [a b]. destruct (fp_surj (zval a)) as (x & Cx & Fx). destruct (fp_surj (zval b)) as (y & Cy & Fy). rewrite mk_zval in *.
  exists (x, y). split; [split; auto|]. unfold fv2. cbn [fst snd]. congruence.
Qed.

(** ** C15 *)
Theorem C15_add : forall x y, canon2 x -> canon2 y -> canon2 (f2_add x y) /\ val2 (f2_add x y) = gadd (val2 x) (val2 y).
Proof. intros x y Hx Hy. destruct (f2_add_ok x y Hx Hy) as [A B]. exact (conj A (val2_add _ x y B)). Qed.
Theorem C15_sub : forall x y, canon2 x -> canon2 y -> canon2 (f2_sub x y) /\ val2 (f2_sub x y) = gsub (val2 x) (val2 y).
Proof. intros x y Hx Hy. destruct (f2_sub_ok x y Hx Hy) as [A B]. exact (conj A (val2_sub _ x y B)). Qed.
Theorem C15_neg : forall x, canon2 x -> canon2 (f2_neg x) /\ val2 (f2_neg x) = gopp (val2 x).
Proof. intros x Hx. destruct (f2_neg_ok x Hx) as [A B]. exact (conj A (val2_opp _ x B)). Qed.
Theorem C15_conj : forall x, canon2 x -> canon2 (f2_conj x) /\ val2 (f2_conj x) = gconj (val2 x).
Proof. intros x Hx. destruct (f2_conj_ok x Hx) as [A B]. exact (conj A (val2_conj _ x B)). Qed.
Theorem C15_mul : forall x y, canon2 x -> canon2 y -> canon2 (f2_mul x y) /\ val2 (f2_mul x y) = gmul (val2 x) (val2 y).
Proof. intros x y Hx Hy. destruct (f2_mul_ok x y Hx Hy) as [A B]. exact (conj A (val2_mul _ x y B)). Qed.
Theorem C15_mul_old_same : forall x y, canon2 x -> canon2 y -> f2_mul_old x y = f2_mul x y.
Proof.
  intros x y Hx Hy. destruct (f2_mul_ok x y Hx Hy) as [A B], (f2_mul_old_ok x y Hx Hy) as [A' B']. exact (fv2_inj _ _ A' A (eq_trans B' (eq_sym B))).
Qed.
Theorem C15_square : forall x, canon2 x -> f2_square x = f2_mul x x.
Proof. intros x Hx. destruct (f2_mul_ok x x Hx Hx) as [A B], (f2_square_ok x Hx) as [A' B']. exact (fv2_inj _ _ A' A (eq_trans B' (eq_sym B))). Qed.
Lemma mk2s : mk 2 = 2%zp. Proof. change 2 with (1 + 1). rewrite mk_add, zp1_eq. reflexivity. Qed.
Lemma C15_multiples_aux x : canon2 x ->
  (canon2 (f2_mul2 x) /\ val2 (f2_mul2 x) = gscale 2 (val2 x)) /\ (canon2 (f2_mul3 x) /\ val2 (f2_mul3 x) = gscale 3 (val2 x)) /\
  (canon2 (f2_mul4 x) /\ val2 (f2_mul4 x) = gscale 4 (val2 x)) /\ (canon2 (f2_mul8 x) /\ val2 (f2_mul8 x) = gscale 8 (val2 x)).
Proof.
  intros Hx. destruct (f2_mul2_ok x Hx) as [A2 B2], (f2_mul3_ok x Hx) as [A3 B3], (f2_mul4_ok x Hx) as [A4 B4], (f2_mul8_ok x Hx) as [A8 B8].
  split; [|split; [|split]]; (split; [assumption|]); apply val2_scale.
  - rewrite mk2s. exact B2.
  - change 3 with (1 + 2). rewrite mk_add, mk2s, <- zp1_eq. exact B3.
  - change 4 with (2 * 2). rewrite mk_mul, mk2s. exact B4.
  - change 8 with (2 * 2 * 2). rewrite !mk_mul, mk2s. exact B8.
Qed.
Theorem C15_multiples : forall x, canon2 x ->
  (canon2 (f2_mul2 x) /\ val2 (f2_mul2 x) = gscale 2 (val2 x)) /\ (canon2 (f2_mul3 x) /\ val2 (f2_mul3 x) = gscale 3 (val2 x)) /\
  (canon2 (f2_mul4 x) /\ val2 (f2_mul4 x) = gscale 4 (val2 x)) /\ (canon2 (f2_mul8 x) /\ val2 (f2_mul8 x) = gscale 8 (val2 x)).
Proof. exact C15_multiples_aux. Qed.
Theorem C15_mul_small : forall x k, canon2 x -> - 2 ^ 31 <= k < 2 ^ 31 ->
  canon2 (f2_mul_small x k) /\ val2 (f2_mul_small x k) = gscale k (val2 x).
Proof.
  intros x k [H0 H1] Hk. destruct (set_mul_small_ok _ k H0 Hk) as [A0 B0], (set_mul_small_ok _ k H1 Hk) as [A1 B1]. unfold f2_mul_small.
  split; [split; auto|]. unfold val2, gscale, gred. cbn [fst snd]. rewrite B0, B1, !(Z.mul_comm k). reflexivity.
Qed.
Theorem C15_half : forall x, canon2 x -> canon2 (f2_half x) /\ gadd (val2 (f2_half x)) (val2 (f2_half x)) = val2 x.
Proof. intros x Hx. destruct (f2_half_ok x Hx) as [A B]. exact (conj A (eq_sym (val2_add x _ _ (eq_sym B)))). Qed.
Theorem C15_equals : forall x y, canon2 x -> canon2 y -> (f2_equals x y = TRUE32 <-> val2 x = val2 y) /\ (f2_equals x y = 0 <-> val2 x <> val2 y) /\
  (val2 x = val2 y -> x = y).
Proof.
  intros x y Hx Hy. rewrite f2_equals_ok by auto. rewrite <- !zval2_fv2. destruct (qeqb (fv2 x) (fv2 y)) eqn:E.
  - apply qeqb_true in E. rewrite E. split; [|split].
    + split; auto.
    + split; [discriminate|congruence].
    + intros _. apply fv2_inj; auto.
  - apply qeqb_false in E. assert (N : zval2 (fv2 x) <> zval2 (fv2 y)) by (intros K; apply E, zval2_inj, K). split; [|split].
    + split; [discriminate|contradiction].
    + split; auto.
    + contradiction.
Qed.
Theorem C15_selection : forall x y b, canon2 x -> canon2 y ->
  f2_select x y (mask32 b) = (if b then y else x) /\ f2_set_cond x y (mask32 b) = (if b then y else x) /\
  f2_set_condneg x (mask32 b) = (if b then f2_neg x else x) /\ f2_condswap x y (mask32 b) = (if b then (y, x) else (x, y)).
Proof.
  exact (fun x y b Hx Hy => conj (f2_select_mask x y b Hx Hy) (conj (f2_set_cond_mask x y b Hx Hy) (conj (f2_set_condneg_mask x b Hx) (f2_condswap_mask x y b Hx Hy)))).
Qed.
(** i * i = -1, and non-trivial operands *)
Lemma canon2_zeta : canon2 f2_zeta. Proof. split; [exact canon_zero|exact canon_one]. Qed.
Lemma val2_zeta : val2 f2_zeta = (0, 1). Proof. unfold val2, f2_zeta. cbn [fst snd]. rewrite val_zero, val_one. reflexivity. Qed.
Example C15_ex : val2 (f2_mul f2_zeta f2_zeta) = gopp (1, 0).
Proof. rewrite (proj2 (C15_mul _ _ canon2_zeta canon2_zeta)), val2_zeta. reflexivity. Qed.
Print Assumptions C15_add.
Print Assumptions C15_sub.
Print Assumptions C15_neg.
Print Assumptions C15_conj.
Print Assumptions C15_mul.
Print Assumptions C15_mul_old_same.
Print Assumptions C15_square.
Print Assumptions C15_multiples.
Print Assumptions C15_mul_small.
Print Assumptions C15_half.
Print Assumptions C15_equals.
Print Assumptions C15_selection.

(** ** C16 *)
Lemma C16_div_aux x y : canon2 x -> canon2 y -> val2 y <> (0, 0) -> canon2 (f2_div x y) /\ gmul (val2 (f2_div x y)) (val2 y) = val2 x.
Proof.
  intros Hx Hy N. destruct (f2_div_ok x y Hx Hy) as [A B]. split; auto. apply gmul_val2. rewrite B. rewrite val2_0 in N by auto.
  unfold qdiv. rewrite <- qmul_assoc, qinv_l by auto. apply qmul_1_r.
Qed.
Lemma C16_div0_aux x y : canon2 x -> canon2 y -> val2 y = (0, 0) -> f2_div x y = f2_zero.
Proof. intros Hx Hy N. destruct (f2_div_ok x y Hx Hy) as [A B]. apply fv2_inj; auto; [apply canon2_zero|]. rewrite B, fv2_zero. apply val2_0 in N; auto. rewrite N. apply qdiv_0. Qed.
Lemma C16_inv_aux x : canon2 x -> f2_invert x = f2_div f2_one x.
Proof.
  intros Hx. destruct (f2_invert_ok x Hx) as [A B]. destruct (f2_div_ok f2_one x canon2_one Hx) as [A' B']. apply fv2_inj; auto. rewrite B, B', fv2_one. symmetry. apply qmul_1_l.
Qed.
Theorem C16_div_exact : forall x y, canon2 x -> canon2 y -> val2 y <> (0, 0) -> canon2 (f2_div x y) /\ gmul (val2 (f2_div x y)) (val2 y) = val2 x.
Proof. exact C16_div_aux. Qed.
Theorem C16_div_by_zero : forall x y, canon2 x -> canon2 y -> val2 y = (0, 0) -> f2_div x y = f2_zero.
Proof. exact C16_div0_aux. Qed.
Theorem C16_invert : forall x, canon2 x -> canon2 (f2_invert x) /\ (val2 x <> (0, 0) -> gmul (val2 (f2_invert x)) (val2 x) = (1, 0)) /\ (val2 x = (0, 0) -> f2_invert x = f2_zero).
Proof.
  intros x Hx. rewrite (C16_inv_aux x Hx). split; [apply f2_div_ok; auto; apply canon2_one|]. split.
  - intros N. rewrite (proj2 (C16_div_aux f2_one x canon2_one Hx N)). rewrite <- zval2_fv2, fv2_one. exact zval2_1.
  - exact (C16_div0_aux f2_one x canon2_one Hx).
Qed.
Theorem C16_batch_invert : forall xs, Forall canon2 xs -> f2_batch_invert xs = map f2_invert xs.
Proof. exact f2_batch_invert_ok. Qed.
(** a slice of three elements with a zero in the middle: the outer ones come back inverted *)
Example C16_ex : exists a b, f2_batch_invert [f2_zeta; f2_zero; f2_two] = [a; f2_zero; b] /\ gmul (val2 a) (val2 f2_zeta) = (1, 0) /\ gmul (val2 b) (val2 f2_two) = (1, 0).
Proof.
  assert (C2 : canon2 f2_two) by (split; [exact canon_two|exact canon_zero]). pose proof canon2_zero as C0. pose proof canon2_zeta as Cz.
  exists (f2_invert f2_zeta), (f2_invert f2_two). rewrite C16_batch_invert by (apply Forall_cons; [exact Cz|apply Forall_cons; [exact C0|apply Forall_cons; [exact C2|apply Forall_nil]]]). cbn [map].
  assert (E0 : f2_invert f2_zero = f2_zero) by (apply (C16_invert f2_zero C0), val2_0; [apply C0|apply fv2_zero]).
  rewrite E0. split; [reflexivity|]. split; apply C16_invert; auto.
  - rewrite val2_zeta. discriminate.
  - unfold val2, f2_two. cbn [fst snd]. rewrite val_two. discriminate.
Qed.
Print Assumptions C16_div_exact.
Print Assumptions C16_div_by_zero.
Print Assumptions C16_invert.
Print Assumptions C16_batch_invert.

(** ** C17, C18 *)
Lemma C17_aux x : canon2 x ->
  (g_square (val2 x) -> exists r, f2_sqrt x = (r, TRUE32) /\ canon2 r /\ gmul (val2 r) (val2 r) = val2 x /\ g_sign_ok (val2 r)) /\
  (~ g_square (val2 x) -> f2_sqrt x = (f2_zero, 0)).
Proof.
  intros Hx. destruct (f2_sqrt_ok x Hx) as (r & b & E & Cr & Hb & H1 & H2). rewrite g_square_q, <- fv2_mk2, E. split.
  - intros H. apply Hb in H. subst b. destruct (H1 eq_refl) as [A B]. exists r. split; [reflexivity|]. split; auto. split; [apply gmul_val2; auto|apply sign_ok_g; auto].
  - intros H. destruct b; [exfalso; apply H, Hb; reflexivity|]. rewrite H2 by reflexivity. reflexivity.
Qed.
Theorem C17_sqrt_square : forall x, canon2 x -> g_square (val2 x) ->
  exists r, f2_sqrt x = (r, TRUE32) /\ canon2 r /\ gmul (val2 r) (val2 r) = val2 x /\ g_sign_ok (val2 r).
Proof. exact (fun x Hx => proj1 (C17_aux x Hx)). Qed.
Theorem C17_sqrt_nonsquare : forall x, canon2 x -> ~ g_square (val2 x) -> f2_sqrt x = (f2_zero, 0).
Proof. exact (fun x Hx => proj2 (C17_aux x Hx)). Qed.
(** -1 is a square of the extension (not of the base field); NQR is not *)
Example C17_ex_square : canon2 f2_minus_one /\ g_square (val2 f2_minus_one).
Proof.
  split; [split; [exact canon_minus_one|exact canon_zero]|]. exists (0, 1). unfold val2, f2_minus_one. cbn [fst snd]. rewrite val_minus_one, val_zero. vm_compute. reflexivity.
Qed.
Example C17_ex_nonsquare : canon2 f2_nqr /\ ~ g_square (val2 f2_nqr).
Proof. split; [exact canon_nqr|]. rewrite g_square_q, <- fv2_mk2. exact nqr_nonsquare. Qed.
Print Assumptions C17_sqrt_square.
Print Assumptions C17_sqrt_nonsquare.

Lemma C18_aux x : canon2 x ->
  (g_fourth (val2 x) -> exists r, f2_fourth_root x = (r, TRUE32) /\ canon2 r /\ gmul (gmul (val2 r) (val2 r)) (gmul (val2 r) (val2 r)) = val2 x /\ g_sign_ok (val2 r)) /\
  (~ g_fourth (val2 x) -> f2_fourth_root x = (f2_zero, 0)).
Proof.
  intros Hx. destruct (f2_fourth_root_ok x Hx) as (r & b & E & Cr & Hb & H1 & H2). rewrite g_fourth_q, <- fv2_mk2, E. split.
  - intros H. apply Hb in H. subst b. destruct (H1 eq_refl) as [A B]. exists r. split; [reflexivity|]. split; auto. split; [|apply sign_ok_g; auto].
    rewrite <- !zval2_fv2. unfold q4 in A. rewrite <- A, !zval2_qmul. reflexivity.
  - intros H. destruct b; [exfalso; apply H, Hb; reflexivity|]. rewrite H2 by reflexivity. reflexivity.
Qed.
Theorem C18_fourth_root_power : forall x, canon2 x -> g_fourth (val2 x) ->
  exists r, f2_fourth_root x = (r, TRUE32) /\ canon2 r /\ gmul (gmul (val2 r) (val2 r)) (gmul (val2 r) (val2 r)) = val2 x /\ g_sign_ok (val2 r).
Proof. exact (fun x Hx => proj1 (C18_aux x Hx)). Qed.
Theorem C18_fourth_root_nonpower : forall x, canon2 x -> ~ g_fourth (val2 x) -> f2_fourth_root x = (f2_zero, 0).
Proof. exact (fun x Hx => proj2 (C18_aux x Hx)). Qed.
(** (1 + i)^4 = -4 is a fourth power, in the special case with zero imaginary part and zero discriminant; NQR is not *)
Example C18_ex_power : exists x, canon2 x /\ val2 x = gred (-4, 0) /\ g_fourth (val2 x).
Proof. exists (set_neg fp_four, fp_zero).
  assert (E : val2 (set_neg fp_four, fp_zero) = gred (-4, 0)). { unfold val2. cbn [fst snd]. rewrite val_neg, val_four, val_zero by exact canon_four. reflexivity. }
  split; [split; [apply canon_neg, canon_four|exact canon_zero]|]. split; auto. rewrite E. exists (1, 1). vm_compute. reflexivity. Qed.
Example C18_ex_nonpower : canon2 f2_nqr /\ ~ g_fourth (val2 f2_nqr).
Proof. split; [exact canon_nqr|]. rewrite g_fourth_q, <- fv2_mk2. intros [z H]. apply nqr_nonsquare. exists (qmul z z). exact H. Qed.
Print Assumptions C18_fourth_root_power.
Print Assumptions C18_fourth_root_nonpower.

(** ** C19 *)
Theorem C19_encode : forall x, canon2 x -> bytes (f2_encode x) /\ length (f2_encode x) = 324%nat /\
  (le_value (firstn 162 (f2_encode x)), le_value (skipn 162 (f2_encode x))) = val2 x.
Proof. intros x Hx. destruct (f2_encode_ok x Hx) as (A & B & C & D). rewrite C, D. exact (conj A (conj B (eq_sym (surjective_pairing _)))). Qed.
Theorem C19_encode_injective : forall x y, canon2 x -> canon2 y -> f2_encode x = f2_encode y -> x = y.
Proof.
  intros x y Hx Hy E. destruct (C19_encode x Hx) as (_ & _ & A), (C19_encode y Hy) as (_ & _ & B). rewrite E in A. apply (C15_equals x y Hx Hy). congruence.
Qed.
Theorem C19_decode_accepts : forall buf, bytes buf -> length buf = 324%nat -> le_value (firstn 162 buf) < P -> le_value (skipn 162 buf) < P ->
  exists x, f2_decode buf = (x, TRUE32) /\ canon2 x /\ f2_encode x = buf.
Proof.
  intros buf Hb Hl H0 H1. destruct (proj1 (f2_decode_ok buf Hb Hl) H0 H1) as (x & E & Cx & V). exists x. split; auto. split; auto.
  destruct (f2_encode_ok x Cx) as (A & B & C & D). rewrite V in C, D. cbn [fst snd] in C, D.
  rewrite <- (firstn_skipn 162 (f2_encode x)), <- (firstn_skipn 162 buf). f_equal; apply le_value_inj; auto using bytes_firstn, bytes_skipn; rewrite ?firstn_length, ?skipn_length; congruence.
Qed.
Theorem C19_decode_rejects : forall buf, bytes buf -> length buf <> 324%nat \/ P <= le_value (firstn 162 buf) \/ P <= le_value (skipn 162 buf) ->
  f2_decode buf = (f2_zero, 0).
Proof.
  intros buf Hb H. destruct (Nat.eq_dec (length buf) 324) as [E|E]; [|exact (f2_decode_len buf E)]. destruct H as [H|H]; [contradiction|]. exact (proj2 (f2_decode_ok buf Hb E) H).
Qed.
Theorem C19_roundtrip : forall x, canon2 x -> f2_decode (f2_encode x) = (x, TRUE32).
Proof.
  intros x Hx. destruct (f2_encode_ok x Hx) as (A & B & C & D). destruct (proj1 (f2_decode_ok _ A B)) as (r & E & Cr & V); [rewrite C; apply val_range|rewrite D; apply val_range|].
  rewrite E. f_equal. apply (C15_equals r x Cr Hx). rewrite V, C, D. reflexivity.
Qed.
(** a 324-byte string whose second half is exactly the modulus is refused *)
Example C19_ex : let buf := repeat 0 162 ++ le_bytes 162 P in length buf = 324%nat /\ f2_decode buf = (f2_zero, 0).
Proof.
  cbv zeta. destruct (le_bytes_ok 162 P) as (A & B & C); [pose proof P_pos; lia|].
  assert (V : le_value (le_bytes 162 P) = P) by (apply C; vm_compute; reflexivity).
  split; [rewrite app_length, B; reflexivity|]. apply C19_decode_rejects.
  - apply bytes_app. split; [apply bytes_repeat0|exact A].
  - right. right. change (skipn 162 (repeat 0 162 ++ le_bytes 162 P)) with (le_bytes 162 P). rewrite V. apply Z.le_refl.
Qed.
Print Assumptions C19_encode.
Print Assumptions C19_encode_injective.
Print Assumptions C19_decode_accepts.
Print Assumptions C19_decode_rejects.
Print Assumptions C19_roundtrip.

(** ** C20 *)
Lemma C20_aux x : canon2 x -> (val2 x = (0, 0) -> f2_legendre x = 0) /\ (val2 x <> (0, 0) -> g_square (val2 x) -> f2_legendre x = 1) /\ (~ g_square (val2 x) -> f2_legendre x = -1).
Proof.
  intros Hx. rewrite f2_legendre_ok, g_square_q, <- fv2_mk2, val2_0 by auto. unfold leg2_spec. destruct (q_dec (fv2 x) q0) as [E|E].
  - split; auto. split; [contradiction|]. intros N. exfalso. apply N. rewrite E. exists q0. qring.
  - destruct (qsquare_dec (fv2 x)); split; try contradiction; split; auto; contradiction.
Qed.
Theorem C20_legendre_zero : forall x, canon2 x -> val2 x = (0, 0) -> f2_legendre x = 0.
Proof. exact (fun x Hx => proj1 (C20_aux x Hx)). Qed.
Theorem C20_legendre_square : forall x, canon2 x -> val2 x <> (0, 0) -> g_square (val2 x) -> f2_legendre x = 1.
Proof. exact (fun x Hx => proj1 (proj2 (C20_aux x Hx))). Qed.
Theorem C20_legendre_nonsquare : forall x, canon2 x -> ~ g_square (val2 x) -> f2_legendre x = -1.
Proof. exact (fun x Hx => proj2 (proj2 (C20_aux x Hx))). Qed.
Example C20_ex : f2_legendre f2_nqr = -1 /\ f2_legendre f2_minus_one = 1.
Proof.
  split.
  - apply C20_legendre_nonsquare; apply C17_ex_nonsquare.
  - apply C20_legendre_square; [apply C17_ex_square| |apply C17_ex_square]. unfold val2, f2_minus_one. cbn [fst snd]. rewrite val_minus_one. discriminate.
Qed.
Print Assumptions C20_legendre_zero.
Print Assumptions C20_legendre_square.
Print Assumptions C20_legendre_nonsquare.

(** ** C21 *)
Lemma pow_wrap {x e} {o : option fp2} : (exists r, o = Some r /\ canon2 r /\ fv2 r = qpow (fv2 x) e) -> exists r, o = Some r /\ canon2 r /\ val2 r = gpow (val2 x) e.
Proof. intros (r & A & B & C). exists r. split; auto. split; auto. apply val2_pow; auto. Qed.
Theorem C21_pow_big : forall x e, canon2 x -> 0 <= e -> exists r, f2_pow_big x e = Some r /\ canon2 r /\ val2 r = gpow (val2 x) e.
Proof. exact (fun x e Hx He => pow_wrap (f2_pow_big_ok x e Hx He)). Qed.
Theorem C21_pow_small : forall x e, canon2 x -> 0 <= e < 2 ^ 32 -> exists r, f2_pow_small x e = Some r /\ canon2 r /\ val2 r = gpow (val2 x) e.
Proof. exact (fun x e Hx He => pow_wrap (f2_pow_small_ok x e Hx He)). Qed.
Theorem C21_pow_ext : forall x e eoff n, canon2 x -> bytes e -> n = 0%nat \/ (eoff + n <= 8 * length e)%nat ->
  exists r, f2_pow_ext x e eoff n = Some r /\ canon2 r /\ val2 r = gpow (val2 x) ((le_value e / 2 ^ Z.of_nat eoff) mod 2 ^ Z.of_nat n).
Proof. exact (fun x e eoff n Hx He Hn => pow_wrap (f2_pow_ext_ok x e eoff n Hx He Hn)). Qed.
Theorem C21_pow_u64 : forall checks x e n, canon2 x -> (n <= 64)%nat -> 0 <= e < 2 ^ Z.of_nat n ->
  exists r, f2_pow_u64 checks x e n = Some r /\ canon2 r /\ val2 r = gpow (val2 x) e.
Proof.
  intros c x e n Hx Hn He. apply pow_wrap. destruct (f2_pow_u64_ok c x e n Hx (proj1 He) Hn) as (r & A & B & C). rewrite Z.mod_small in C by auto. exact (ex_intro _ r (conj A (conj B C))).
Qed.
Theorem C21_pow_u64_vartime : forall x e, canon2 x -> 0 <= e < 2 ^ 64 -> canon2 (f2_pow_u64_vartime x e) /\ val2 (f2_pow_u64_vartime x e) = gpow (val2 x) e.
Proof. intros x e Hx He. destruct (f2_pow_vt_ok x e Hx (proj1 He)) as [A B]. exact (conj A (val2_pow _ _ _ B)). Qed.

Lemma qpow_q1 e : qpow q1 e = q1. Proof. unfold qpow. induction (Z.to_nat e) as [|n IH]; [reflexivity|]. change (Nat.iter (S n) (qmul q1) q1) with (qmul q1 (Nat.iter n (qmul q1) q1)). rewrite IH. apply qmul_1_l. Qed.
Lemma qpow_mul x a b : 0 <= a -> 0 <= b -> qpow x (a * b) = qpow (qpow x a) b.
Proof.
  intros Ha. revert b. apply (natlike_ind (fun b => qpow x (a * b) = qpow (qpow x a) b)); [rewrite Z.mul_0_r; reflexivity|]. intros b Hb IH.
  replace (a * Z.succ b) with (a + a * b) by lia. replace (Z.succ b) with (b + 1) by lia. rewrite qpow_add, qpow_succ, IH by nia. reflexivity.
Qed.
(** a primitive cube root of unity exists in the extension *)
Lemma cube_root : exists w, qadd (qadd (qmul w w) w) q1 = q0 /\ w <> q0 /\ w <> q1.
Proof.
  assert (S : qsquare ((- (1 + 2))%zp, 0%zp)) by (rewrite qsquare_norm; unfold qnorm; cbn [fst snd]; exists (1 + 2)%zp; ring).
  destruct S as [z Hz]. pose proof two_nz as T. set (h := ((1 / 2)%zp, 0%zp)). assert (Hh : qadd h h = q1).
  { unfold h, qadd, q1. cbn [fst snd]. rewrite (a_half_twice _ _ _ _ _ _ _ _ _ Zp_field two_nz). f_equal. ring. }
  clearbody h. exists (qmul h (qsub z q1)).
  assert (K : qadd (qadd (qmul (qmul h (qsub z q1)) (qmul h (qsub z q1))) (qmul h (qsub z q1))) q1 = q0).
  { transitivity (qadd (qadd (qmul (qmul h h) (qadd (qmul z z) (qsub q1 (qadd z z)))) (qmul h (qsub z q1))) (qadd h h)); [rewrite Hh; clear; qring|]. rewrite Hz.
    transitivity (qadd (qadd (qmul (qmul (qadd h h) h) (qsub (qopp q1) z)) (qmul h (qsub z q1))) (qadd h h)); [clear; qring|]. rewrite Hh. transitivity (qsub q1 (qadd h h)); [clear; qring|]. rewrite Hh. clear. qring. }
  split; auto. split; intros E; rewrite E in K.
  - apply q1_nz. rewrite <- K. qring.
  - assert (K3 : ((1 + 2)%zp = 0%zp)). { apply (f_equal fst) in K. unfold qadd, qmul, q1, q0 in K. cbn [fst snd] in K. rewrite <- K. ring. }
    rewrite <- mk2s, zp1_eq, <- mk_add in K3. rewrite mk_0 in K3. apply cg_small in K3; [discriminate|..]; vm_compute; split; congruence.
Qed.
(** With a bit length above 64 the exponent is covered but the code panics (overflow checks on) or returns another power (off). *)
Theorem C21_pow_u64_overlong_refuted : exists x e n, canon2 x /\ 0 <= e < 2 ^ Z.of_nat n /\ f2_pow_u64 true x e n = None /\
  exists r, f2_pow_u64 false x e n = Some r /\ val2 r <> gpow (val2 x) e.
Proof.
  destruct cube_root as (w & Hw & N0 & N1). destruct (fv2_surj w) as (x & Cx & Fx). exists x, 1, 65%nat. split; auto. split; [split; [lia|reflexivity]|]. split; [reflexivity|].
  assert (E : f2_pow_u64 false x 1 65 = f2_pow_u64_loop false x 1 64 (f2_set_cond x f2_one (mask32 false))) by reflexivity.
  rewrite E, f2_set_cond_mask by (auto; apply canon2_one). cbv iota. clear E.
  destruct (f2_pow_u64_loop_ok false x 1 Cx ltac:(lia) 64 x 1 Cx ltac:(lia) ltac:(rewrite qpow_1; reflexivity) ltac:(lia)) as (r & E & Cr & Fr). rewrite E. exists r. split; auto.
  replace (gpow (val2 x) 1) with (val2 x) by (symmetry; rewrite <- zval2_fv2, <- zval2_qpow, qpow_1; reflexivity).
  rewrite <- !zval2_fv2. intros K. apply zval2_inj in K. rewrite Fr, Fx in K.
  assert (W3 : qpow w 3 = q1).
  { change 3 with (1 + 1 + 1). rewrite !qpow_add, !qpow_1 by lia. transitivity (qadd (qmul (qadd (qadd (qmul w w) w) q1) (qsub w q1)) q1); [clear; qring|]. rewrite Hw. clear. qring. }
  replace (1 * 2 ^ Z.of_nat 64 + 1 mod 2 ^ Z.of_nat 64) with (3 * 6148914691236517205 + 2) in K by reflexivity.
  rewrite qpow_add, qpow_mul, W3, qpow_q1, qmul_1_l in K by lia.
  assert (W2 : qmul w w = w). { rewrite <- K at 3. change 2 with (1 + 1). rewrite qpow_add, !qpow_1 by lia. reflexivity. }
  apply N1. rewrite <- (qmul_1_l w), <- (qinv_l w N0), <- qmul_assoc, W2. reflexivity.
Qed.
Example C21_ex : f2_pow_big f2_zeta 2 = Some (f2_minus_one) /\ f2_pow_u64 true f2_zeta 3 2 = Some f2_minus_zeta /\ f2_pow_u64_vartime f2_zeta 6 = f2_minus_one.
Proof. vm_compute. repeat split. Qed.
Print Assumptions C21_pow_big.
Print Assumptions C21_pow_small.
Print Assumptions C21_pow_ext.
Print Assumptions C21_pow_u64.
Print Assumptions C21_pow_u64_vartime.
Print Assumptions C21_pow_u64_overlong_refuted.

(** ** C22 *)
Theorem C22_nqr_nonsquare : canon2 f2_nqr /\ ~ g_square (val2 f2_nqr).
Proof. exact C17_ex_nonsquare. Qed.
Theorem C22_rand_nonsquare : forall rng x rest, Forall bytes rng -> f2_rand_nonsquare rng = Some (x, rest) -> canon2 x /\ ~ g_square (val2 x).
Proof.
  intros rng x rest Hr H. destruct (f2_rand_nonsquare_ok rng x rest Hr H) as [A B]. split; auto. rewrite g_square_q, <- fv2_mk2. exact B.
Qed.
(** a stream whose first draw is zero and whose second is (3, 0) does produce a value *)
Example C22_ex : exists x, f2_rand_nonsquare [[]; []; [3]; []; [7]] = Some (x, [[7]]).
Proof. eexists. vm_compute. reflexivity. Qed.
Print Assumptions C22_nqr_nonsquare.
Print Assumptions C22_rand_nonsquare.
