(** C74, continued: how evenly [Curve::rand_point] (eccore.rs:694-720) spreads the points. *)
From Coq Require Import ZArith List Bool Lia Ring Field.
From Verif Require Import S_Fp S_Fp2 S_Curve M_Fp M_Fp2 M_Field M_Curve L_Fp L_FpCodec L_Zp L_Zp2 L_Fp2 L_Fp2Misc L_Field L_Curve L_Entangled P_Fp P_Fp2 P_Curve P_Uniform.
Import ListNotations.
Open Scope Z_scope.
Ltac Zify.zify_post_hook ::= idtac.
Add Field Zq_fup : Zq_field.

(** the draws (b0, b1, b) on which the first attempt gives the point T, whatever the fuel and the rest of the stream *)
Definition gives (E : curve fq) (T : pt Zq) (t : (list Z * list Z) * list Z) : Prop :=
  block RAND_LENGTH (fst (fst t)) /\ block RAND_LENGTH (snd (fst t)) /\ block 1 (snd t) /\
  forall fuel rng, exists R, rand_point fq_ops (S fuel) E (fst (fst t) :: snd (fst t) :: snd t :: rng) = Some (R, rng) /\ affine R = T.

Lemma counts_prod {S T : Type} (A : S -> Prop) (B : T -> Prop) a b : counts A a -> counts B b -> counts (fun t => A (fst t) /\ B (snd t)) (a * b).
Proof.
  intros (L & NL & IL & <-) (K & NK & IK & <-). exists (list_prod L K). split; [apply nodup_prod; assumption|]. split; [|rewrite prod_length, Nat2Z.inj_mul; reflexivity].
  intros [s t]. rewrite in_prod_iff, IL, IK. reflexivity.
Qed.
Lemma counts_ext {T : Type} (A B : T -> Prop) a : counts A a -> (forall t, B t <-> A t) -> counts B a.
Proof. intros (L & NL & IL & EL) H. exists L. split; [exact NL|]. split; [intros t; rewrite IL, H; reflexivity|exact EL]. Qed.
Lemma near_scale k a den m : 0 < k -> near 128 a den m -> near 128 (a * k) den (k * m).
Proof.
  unfold near. intros K. generalize (2 ^ 128). intros t H. replace (a * k * den - k * m) with (k * (a * den - m)) by ring. rewrite Z.abs_mul, (Z.abs_eq k), <- Z.mul_assoc by lia. apply Z.mul_lt_mono_pos_l; assumption.
Qed.
(** the bytes by their lowest bit *)
Lemma byte_counts (s : bool) : counts (fun b => block 1 b /\ Z.odd (hd 0 b) = s) 128.
Proof.
  apply (counts_ext (fun b => block 1 b /\ le_value b mod 2 = if s then 1 else 0)).
  - destruct s; [exact (block_counts 1 2 1 eq_refl ltac:(lia))|exact (block_counts 1 2 0 eq_refl ltac:(lia))].
  - intros b. split; intros [[B L] H]; (split; [split; assumption|]); destruct b as [|w [|? ?]]; try discriminate; cbn [hd le_value] in *; revert H; replace (w + 256 * 0) with w by ring; rewrite Zmod_odd; destruct s, (Z.odd w); congruence || lia.
Qed.
Lemma byte_all : counts (block 1) 256.
Proof.
  apply (counts_ext (fun b => block 1 b /\ le_value b mod 1 = 0)); [exact (block_counts 1 1 0 eq_refl ltac:(lia))|].
  intros b. split; [intros H; split; [exact H|apply Z.mod_1_r]|intros [H _]; exact H].
Qed.
Lemma affine_one x y : affine (mkPoint x y (fone fq_ops)) = Some (fqv x, fqv y).
Proof.
  unfold affine. cbn [pX pY pZ]. change (fqv (fone fq_ops)) with (fv2 f2_one). rewrite fv2_one. assert (E : qeqb q1 q0 = false) by (apply qeqb_false; exact q1_nz). rewrite E. f_equal. f_equal; field; exact q1_nz.
Qed.
Lemma fqv_inj' (x y : fq) : fqv x = fqv y -> x = y. Proof. intros E. apply fq_eq, fv2_inj; auto using fq_c. Qed.

Lemma some_fst {S T : Type} (a c : S) (b d : T) : Some (a, b) = Some (c, d) -> a = c. Proof. intros [= H _]. exact H. Qed.
Lemma some_pair {S T : Type} (a c : S) (b d : T) : Some (a, b) = Some (c, d) -> a = c /\ b = d. Proof. intros [= H H']. split; assumption. Qed.

Theorem C74_point : forall E x y, on_q (coeff E) (Some (x, y)) -> exists c,
  counts (gives E (Some (x, y))) c /\ 0 < c /\ near 128 c (P * P) ((if qeqb y q0 then 256 else 128) * (MB * MB)).
Proof.
  intros E x y On. destruct (zval2_range x) as [R0 R1]. destruct (C74_fp2 _ _ R0 R1) as (a & CA & PA & NA).
  destruct (fv2_surj x) as (x0 & Cx0 & Vx0). set (fx := mkq x0 Cx0). assert (Vx : fqv fx = x) by exact Vx0.
  set (r := rhs fq_ops (cA E) fx). set (y0 := fqv (fst (fsqrt fq_ops r))).
  assert (Er : fqv r = qmul y y). { unfold r. rewrite (rhs_v fq_laws), Vx. unfold on_q, on in On. fold (coeff E). symmetry. exact On. }
  assert (Lg : (0 <=? fleg fq_ops r) = true).
  { destruct (l_leg _ _ _ _ _ _ _ _ _ _ _ fq_laws r) as (H1 & H2 & _). destruct (q_dec (fqv r) q0) as [Z|Z]; [rewrite (H1 Z); reflexivity|rewrite (H2 Z); [reflexivity|exists y; symmetry; exact Er]]. }
  assert (Y0 : qmul y0 y0 = qmul y y) by (rewrite <- Er; exact (legendre_sq fq_laws r Lg)).
  assert (Sg : y = y0 \/ y = qopp y0).
  { destruct (q_dec y y0) as [Y|Y]; [left; exact Y|right]. assert (Y' : qsub y y0 <> q0) by (intros E2; apply Y; transitivity (qadd (qsub y y0) y0); [ring|rewrite E2; ring]).
    assert (E' : qmul (qsub y y0) (qadd y y0) = q0) by (transitivity (qsub (qmul y y) (qmul y0 y0)); [ring|rewrite Y0; ring]). apply (mul_zero_l _ Y') in E'. transitivity (qsub (qadd y y0) y0); [ring|rewrite E'; ring]. }
  set (A := fun bb : list Z * list Z => block RAND_LENGTH (fst bb) /\ block RAND_LENGTH (snd bb) /\ fv2 (decode_reduce (fst bb), decode_reduce (snd bb)) = x).
  assert (CA' : counts A a).
  { apply (counts_ext _ _ _ CA). intros [b0 b1]. unfold A. cbn [fst snd f2_rand]. split.
    - intros (B0 & B1 & H). split; [exact B0|]. split; [exact B1|]. intros rng. eexists. split; [reflexivity|]. split; [split; [exact (proj1 (C07_decode_reduce b0 (proj1 B0)))|exact (proj1 (C07_decode_reduce b1 (proj1 B1)))]|]. rewrite <- H, zval2_fv2. destruct (val2 _); reflexivity.
    - intros (B0 & B1 & H). split; [exact B0|]. split; [exact B1|]. destruct (H []) as (z & Z & _ & V). injection Z as <-. apply zval2_inj. rewrite zval2_fv2, V. destruct (zval2 x); reflexivity. }
  assert (G : forall t, gives E (Some (x, y)) t <-> A (fst t) /\ block 1 (snd t) /\ (if Z.odd (hd 0 (snd t)) then qopp y0 else y0) = y).
  { intros [[b0 b1] b]. unfold gives, A. cbn [fst snd].
    assert (Cl : block RAND_LENGTH b0 -> block RAND_LENGTH b1 -> fqv (clamp (decode_reduce b0, decode_reduce b1)) = fv2 (decode_reduce b0, decode_reduce b1)).
    { intros B0 B1. unfold fqv. rewrite clamp_ok; [reflexivity|]. split; [exact (proj1 (C07_decode_reduce b0 (proj1 B0)))|exact (proj1 (C07_decode_reduce b1 (proj1 B1)))]. }
    assert (St : forall fuel rng, rand_point fq_ops (S fuel) E (b0 :: b1 :: b :: rng) =
      (let X := clamp (decode_reduce b0, decode_reduce b1) in if (0 <=? fleg fq_ops (rhs fq_ops (cA E) X))%Z then
         match b with w :: _ => Some (mkPoint X (fcneg fq_ops (fst (fsqrt fq_ops (rhs fq_ops (cA E) X))) (Z.testbit w 0)) (fone fq_ops), rng) | [] => None end
       else rand_point fq_ops fuel E (b :: rng))) by (intros; reflexivity).
    split.
    - intros (B0 & B1 & B & H). destruct (H O []) as (R & HR & HA). rewrite St in HR. cbv zeta in HR. specialize (Cl B0 B1). set (X := clamp (decode_reduce b0, decode_reduce b1)) in *.
      destruct (0 <=? fleg fq_ops (rhs fq_ops (cA E) X)) eqn:EL; [|discriminate]. destruct b as [|w b]; [discriminate|]. apply some_fst in HR. rewrite <- HR, affine_one in HA. apply some_pair in HA. destruct HA as [HX HY]. rewrite (l_cneg _ _ _ _ _ _ _ _ _ _ _ fq_laws) in HY.
      assert (EX : X = fx) by (apply fqv_inj'; rewrite HX, Vx; reflexivity). split; [split; [exact B0|split; [exact B1|rewrite <- Cl; exact HX]]|]. split; [exact B|]. rewrite EX in HY. exact HY.
    - intros ((B0 & B1 & HX) & B & HY). split; [exact B0|]. split; [exact B1|]. split; [exact B|]. intros fuel rng. rewrite St. cbv zeta. specialize (Cl B0 B1). rewrite HX in Cl.
      assert (EX : clamp (decode_reduce b0, decode_reduce b1) = fx) by (apply fqv_inj'; rewrite Cl, Vx; reflexivity). rewrite EX. fold r. rewrite Lg. destruct b as [|w b]; [destruct B; discriminate|]. cbn [hd] in HY. eexists. split; [reflexivity|].
      rewrite affine_one, (l_cneg _ _ _ _ _ _ _ _ _ _ _ fq_laws), Vx. f_equal. f_equal. exact HY. }
  destruct (qeqb y q0) eqn:Ey.
  - apply qeqb_true in Ey. exists (a * 256). split; [|split; [lia|apply near_scale; [lia|exact NA]]]. apply (counts_ext _ _ _ (counts_prod _ _ _ _ CA' byte_all)). intros t. rewrite G.
    assert (Z0 : y0 = q0) by (destruct Sg as [<- | S']; [exact Ey|transitivity (qopp (qopp y0)); [ring|rewrite <- S', Ey; ring]]).
    split; [intros (H1 & H2 & _); split; assumption|intros [H1 H2]; split; [exact H1|split; [exact H2|]]]. rewrite Z0, Ey. destruct (Z.odd _); ring.
  - apply qeqb_false in Ey. exists (a * 128). split; [|split; [lia|apply near_scale; [lia|exact NA]]].
    assert (D : y0 <> qopp y0). { intros H. assert (Z0 : y0 = q0) by (apply (qmul_cancel2 y0); rewrite H at 1; ring). apply Ey. destruct Sg as [-> | ->]; rewrite Z0; ring. }
    assert (Sb : exists s : bool, y = if s then qopp y0 else y0) by (destruct Sg as [H|H]; [exists false|exists true]; exact H). destruct Sb as [s Hs].
    apply (counts_ext _ _ _ (counts_prod _ _ _ _ CA' (byte_counts s))). intros t. rewrite G. split.
    + intros (H1 & H2 & H3). split; [exact H1|]. split; [exact H2|]. rewrite Hs in H3. destruct s, (Z.odd _); try reflexivity; exfalso; apply D; [exact H3|symmetry; exact H3].
    + intros (H1 & H2 & H3). split; [exact H1|]. split; [exact H2|]. rewrite H3. symmetry. exact Hs.
Qed.
Print Assumptions C74_point.
(** an attempt fails exactly when no point has the drawn abscissa; then two blocks are spent and the next attempt starts afresh on the rest of the stream *)
Theorem C74_point_retry : forall E b0 b1, bytes b0 -> bytes b1 -> (forall y, ~ on_q (coeff E) (Some (fv2 (decode_reduce b0, decode_reduce b1), y))) ->
  forall fuel rng, rand_point fq_ops (S fuel) E (b0 :: b1 :: rng) = rand_point fq_ops fuel E rng.
Proof.
  intros E b0 b1 B0 B1 No fuel rng. set (X := clamp (decode_reduce b0, decode_reduce b1)).
  assert (VX : fqv X = fv2 (decode_reduce b0, decode_reduce b1)) by (unfold fqv, X; rewrite clamp_ok; [reflexivity|]; split; [exact (proj1 (C07_decode_reduce b0 B0))|exact (proj1 (C07_decode_reduce b1 B1))]).
  assert (Lg : (0 <=? fleg fq_ops (rhs fq_ops (cA E) X)) = false).
  { destruct (l_leg _ _ _ _ _ _ _ _ _ _ _ fq_laws (rhs fq_ops (cA E) X)) as (_ & _ & H). rewrite H; [reflexivity|]. intros [y Hy]. apply (No y). rewrite (rhs_v fq_laws), VX in Hy. exact Hy. }
  assert (St : rand_point fq_ops (S fuel) E (b0 :: b1 :: rng) =
    (if (0 <=? fleg fq_ops (rhs fq_ops (cA E) X))%Z then
       match rng with (w :: _) :: rng => Some (mkPoint X (fcneg fq_ops (fst (fsqrt fq_ops (rhs fq_ops (cA E) X))) (Z.testbit w 0)) (fone fq_ops), rng) | _ => None end
     else rand_point fq_ops fuel E rng)) by reflexivity.
  rewrite St, Lg. reflexivity.
Qed.
Print Assumptions C74_point_retry.
(** both kinds of points occur: exP, whose ordinate is not 0, and (0,0), which has order two *)
Example C74_point_ex : on_q (coeff exE) (affine exP) /\ affine exP <> None /\ on_q (coeff exE) (Some (q0, q0)).
Proof. split; [exact exP_on|]. split; [rewrite exP_affine; discriminate|]. unfold on_q, on. ring. Qed.
(** a draw that is rejected: on the curve with A = n - 2 for the non-square n, no point has abscissa 1 *)
Definition exR : curve fq := mkCurve (fsub fq_ops (mkq f2_nqr canon_nqr) (ftwo fq_ops)) (fone fq_ops).
Example C74_retry_ex : bytes [1] /\ bytes [0] /\ forall y, ~ on_q (coeff exR) (Some (fv2 (decode_reduce [1], decode_reduce [0]), y)).
Proof.
  assert (B1 : bytes [1]) by (repeat constructor; unfold byte; lia). assert (B0 : bytes [0]) by (repeat constructor; unfold byte; lia). split; [exact B1|]. split; [exact B0|]. intros y H.
  assert (E1 : fv2 (decode_reduce [1], decode_reduce [0]) = q1).
  { rewrite <- fv2_one. apply zval2_inj. rewrite !zval2_fv2. unfold val2. cbn [fst snd]. rewrite (proj2 (C07_decode_reduce [1] B1)), (proj2 (C07_decode_reduce [0] B0)). vm_compute. reflexivity. }
  rewrite E1 in H. apply nqr_nonsquare. exists y. unfold on_q, on in H. rewrite H. unfold coeff, exR. cbn [cA]. rewrite (l_sub _ _ _ _ _ _ _ _ _ _ _ fq_laws), (l_two _ _ _ _ _ _ _ _ _ _ _ fq_laws). change (fqv (mkq f2_nqr canon_nqr)) with (fv2 f2_nqr). ring.
Qed.
