(** C29-C31, C35, C36, C44-C46, C48-C51: elliptic-curve operations (src/eccore.rs) over the quadratic extension.
    Points have coordinates in [fq], the well-formed elements (L_Field.v); [fq_erases] ties them to the limb-level functions. *)
From Coq Require Import Arith ZArith List Bool Lia Ring Field.
From Verif Require Import S_Fp S_Fp2 S_Curve M_Fp M_Fp2 M_Field M_Curve L_Words L_FpCodec L_Zp L_Zp2 L_Fp L_Fp2 L_Fp2Roots L_Fp2Misc L_Group L_Kummer L_Field L_QNum L_Curve.
Import ListNotations.

(** ** Specification side: GF(P)[i], affine points, the chord-and-tangent law *)
Definition on_q (A : Zq) (p : pt Zq) : Prop := on qadd qmul A p.
Definition padd_q (A : Zq) (p q : pt Zq) : pt Zq := padd q1 qadd qmul qsub qopp qdiv qeqb A p q.
Definition popp_q (p : pt Zq) : pt Zq := popp qopp p.
Definition pmul_q (A : Zq) (n : Z) (p : pt Zq) : pt Zq := pmul q1 qadd qmul qsub qopp qdiv qeqb A n p.
Definition q2 : Zq := qadd q1 q1.
Definition q3 : Zq := qadd q2 q1.
Definition q4 : Zq := qadd q2 q2.
(** the point denoted by projective coordinates (X : Y : Z) *)
Definition affine (P : point fq) : pt Zq :=
  if qeqb (fqv (pZ P)) q0 then None else Some (qdiv (fqv (pX P)) (fqv (pZ P)), qdiv (fqv (pY P)) (fqv (pZ P))).
Definition coeff (E : curve fq) : Zq := fqv (cA E).
Definition on_E (E : curve fq) (P : point fq) : Prop := on_q (coeff E) (affine P).
(** the curves that [Curve::new] returns *)
Definition valid (E : curve fq) : Prop := curve_new fq_ops (cA E) = Some E.

(** ** The operations on [fq] are the limb-level operations *)
Record erases {F G} (o : fops F) (o' : fops G) (h : F -> G) : Prop := {
  h_zero : h (fzero o) = fzero o'; h_one : h (fone o) = fone o'; h_two : h (ftwo o) = ftwo o'; h_three : h (fthree o) = fthree o'; h_four : h (ffour o) = ffour o'; h_zeta : h (fzeta o) = fzeta o';
  h_add : forall x y, h (fadd o x y) = fadd o' (h x) (h y); h_sub : forall x y, h (fsub o x y) = fsub o' (h x) (h y); h_neg : forall x, h (fneg o x) = fneg o' (h x);
  h_mul : forall x y, h (fmul o x y) = fmul o' (h x) (h y); h_sq : forall x, h (fsq o x) = fsq o' (h x); h_half : forall x, h (fhalf o x) = fhalf o' (h x);
  h_mul2 : forall x, h (fmul2 o x) = fmul2 o' (h x); h_mul3 : forall x, h (fmul3 o x) = fmul3 o' (h x); h_mul4 : forall x, h (fmul4 o x) = fmul4 o' (h x); h_mul8 : forall x, h (fmul8 o x) = fmul8 o' (h x);
  h_inv : forall x, h (finv o x) = finv o' (h x); h_div : forall x y, h (fdiv o x y) = fdiv o' (h x) (h y);
  h_is0 : forall x, fis0 o x = fis0 o' (h x); h_eqb : forall x y, feqb o x y = feqb o' (h x) (h y);
  h_cond : forall x y b, h (fcond o x y b) = fcond o' (h x) (h y) b; h_cneg : forall x b, h (fcneg o x b) = fcneg o' (h x) b;
  h_swap : forall x y b, (h (fst (fswap o x y b)), h (snd (fswap o x y b))) = fswap o' (h x) (h y) b;
  h_sqrt : forall x, (h (fst (fsqrt o x)), snd (fsqrt o x)) = fsqrt o' (h x); h_leg : forall x, fleg o x = fleg o' (h x);
  h_pow : forall x e, (0 <= e)%Z -> h (fpow o x e) = fpow o' (h x) e; h_pow_small : forall x e, (0 <= e < 2 ^ 32)%Z -> h (fpow_small o x e) = fpow_small o' (h x) e;
  h_enc : forall x, fenc o x = fenc o' (h x) }.
Theorem fq_erases : erases fq_ops raw_ops (@proj1_sig _ _).
Proof.
  constructor; try reflexivity.
  - intros x y b. cbn [fswap fq_ops raw_ops fst snd l2 mkq proj1_sig]. symmetry. apply surjective_pairing.
  - intros x e He. cbn [fpow fq_ops raw_ops]. destruct (f2_pow_big_ok _ e (fq_c x) He) as (r & E & Cr & _). rewrite E. apply clamp_ok, Cr.
  - intros x e He. cbn [fpow_small fq_ops raw_ops]. destruct (f2_pow_small_ok _ e (fq_c x) He) as (r & E & Cr & _). rewrite E. apply clamp_ok, Cr.
Qed.
Print Assumptions fq_erases.
(** consequently the point operations are the limb-level ones *)
Section Erase.
Context {F G} {o : fops F} {o' : fops G} {h : F -> G} (H : erases o o' h).
Definition hP (P : point F) : point G := mkPoint (h (pX P)) (h (pY P)) (h (pZ P)).
Definition hE (E : curve F) : curve G := mkCurve (h (cA E)) (h (cA24 E)).
Ltac hs := repeat first [ rewrite (h_add _ _ _ H) | rewrite (h_sub _ _ _ H) | rewrite (h_mul _ _ _ H) | rewrite (h_sq _ _ _ H) | rewrite (h_mul2 _ _ _ H) | rewrite (h_mul3 _ _ _ H) | rewrite (h_neg _ _ _ H)
  | rewrite (h_cond _ _ _ H) | rewrite (h_cneg _ _ _ H) | rewrite (h_is0 _ _ _ H) | rewrite (h_eqb _ _ _ H) | rewrite (h_zero _ _ _ H) | rewrite (h_one _ _ _ H) | rewrite (h_div _ _ _ H) ].
Lemma add_erases E P Q : hP (add_pts o E P Q) = add_pts o' (hE E) (hP P) (hP Q).
Proof. unfold add_pts, p_set_cond, hP, hE. cbn [pX pY pZ cA cA24]. hs. reflexivity. Qed.
Lemma double_erases E P : hP (double_pt o E P) = double_pt o' (hE E) (hP P).
Proof. unfold double_pt, double_from_coords, hP, hE. cbn [pX pY pZ cA cA24]. hs. reflexivity. Qed.
Definition hS (s : lstate (F := F)) : lstate (F := G) := let '(a, b, c, d, cc) := s in (h a, h b, h c, h d, cc).
Lemma step_erases E d d' ctl s : (forall a b x y, d' (h a) (h b) (h x) (h y) = (h (fst (d a b x y)), h (snd (d a b x y)))) ->
  hS (ladder_step o E d ctl s) = ladder_step o' (hE E) d' ctl (hS s).
Proof.
  intros D. destruct s as [[[[X0 W0] X1] W1] cc]. unfold ladder_step, hS. rewrite <- !(h_swap _ _ _ H). destruct (fswap o X0 X1 (xorb ctl cc)) as [Y0 Y1], (fswap o W0 W1 (xorb ctl cc)) as [V0 V1].
  cbn [fst snd]. rewrite D. destruct (d Y0 V0 Y1 V1) as [a b]. cbn [fst snd]. unfold xdbl, hE. cbn [cA24]. hs. reflexivity.
Qed.
Lemma ladder_erases E d d' n : (forall a b x y, d' (h a) (h b) (h x) (h y) = (h (fst (d a b x y)), h (snd (d a b x y)))) ->
  forall m s, option_map hS (ladder o E d n m s) = ladder o' (hE E) d' n m (hS s).
Proof.
  intros D. induction m as [|m IH]; intros s; [reflexivity|]. cbn [ladder]. destruct (nth_error n (Nat.div m 8)); [|reflexivity]. rewrite IH, (step_erases E d d' _ s D). reflexivity.
Qed.
Lemma mul_erases E P n m : option_map hP (mul_pt o E P n m) = mul_pt o' (hE E) (hP P) n m.
Proof.
  assert (FIN : forall b s, option_map hP (match s with None => None | Some (X0, W0, X1, W1, cc) => let '(X0, X1) := fswap o X0 X1 cc in let '(W0, W1) := fswap o W0 W1 cc in
      match b with None => None | Some b => Some (ladder_finish o E P (Z.testbit b 0) X0 W0 X1 W1) end end) =
    match option_map hS s with None => None | Some (X0, W0, X1, W1, cc) => let '(X0, X1) := fswap o' X0 X1 cc in let '(W0, W1) := fswap o' W0 W1 cc in
      match b with None => None | Some b => Some (ladder_finish o' (hE E) (hP P) (Z.testbit b 0) X0 W0 X1 W1) end end).
  { intros b [[[[[X0 W0] X1] W1] cc]|]; [|reflexivity]. cbn [option_map hS]. rewrite <- !(h_swap _ _ _ H). destruct (fswap o X0 X1 cc) as [Y0 Y1], (fswap o W0 W1 cc) as [V0 V1]. cbn [fst snd].
    destruct b as [b|]; [|reflexivity]. cbn [option_map]. f_equal. unfold ladder_finish. rewrite <- (double_erases E P). unfold p_set_cond, p_condneg, hP, hE. cbn [pX pY pZ cA cA24]. hs. reflexivity. }
  unfold mul_pt. destruct (Nat.ltb 21 m).
  - rewrite FIN. rewrite (ladder_erases E _ (xadd_aff o' (fdiv o' (pX (hP P)) (pZ (hP P))))); [cbn [hS pX pY pZ hP]; hs; reflexivity|].
    intros a b x y. unfold xadd_aff, hP. cbn [fst snd pX pZ]. hs. reflexivity.
  - rewrite FIN. rewrite (ladder_erases E _ (xadd o' (pX (hP P)) (pZ (hP P)))); [cbn [hS pX pY pZ hP]; hs; reflexivity|].
    intros a b x y. unfold xadd, hP. cbn [fst snd pX pZ]. hs. reflexivity.
Qed.
End Erase.
Definition limbs_P : point fq -> point fp2 := hP (h := @proj1_sig _ _).
Definition limbs_E : curve fq -> curve fp2 := hE (h := @proj1_sig _ _).
Theorem C29_limbs : forall E P Q, limbs_P (add_pts fq_ops E P Q) = add_pts raw_ops (limbs_E E) (limbs_P P) (limbs_P Q).
Proof. exact (add_erases fq_erases). Qed.
Theorem C30_limbs : forall E P, limbs_P (double_pt fq_ops E P) = double_pt raw_ops (limbs_E E) (limbs_P P).
Proof. exact (double_erases fq_erases). Qed.
Theorem C31_limbs : forall E P n m, option_map limbs_P (mul_pt fq_ops E P n m) = mul_pt raw_ops (limbs_E E) (limbs_P P) n m.
Proof. exact (mul_erases fq_erases). Qed.
Print Assumptions C29_limbs.
Print Assumptions C30_limbs.
Print Assumptions C31_limbs.

(** ** Bridges to the lemma files *)
Lemma valid_wfc E : valid E -> wfc (k1 := q1) (kadd := qadd) (kmul := qmul) (kdiv := qdiv) (v := fqv) E.
Proof.
  unfold valid. intros H. destruct (curve_new_ok fq_laws (cA E)) as [H1 H2].
  destruct (q_dec (qmul (fqv (cA E)) (fqv (cA E))) (qadd (qadd q1 q1) (qadd q1 q1))) as [Eq|N]; [rewrite (H2 Eq) in H; discriminate|].
  destruct (H1 N) as (E' & E1 & _ & W). rewrite E1 in H. injection H as <-. exact W.
Qed.
Lemma valid_smooth E : valid E -> qmul (coeff E) (coeff E) <> q4. Proof. intros V. exact (proj2 (valid_wfc E V)). Qed.
Lemma on_E_onc E P : on_E E P <-> onc (kadd := qadd) (kmul := qmul) (v := fqv) (k0 := q0) (kdiv := qdiv) (keq := qeqb) E P. Proof. reflexivity. Qed.

(** a concrete curve and point used in the examples: y^2 = x^3 + (3/2) x^2 + x and (2, 4) *)
Lemma q7_nz : qadd q4 q3 <> q0.
Proof. intros H. apply (f_equal fst) in H. cbn in H. rewrite zp1_eq, <- !mk_add in H. revert H. apply mk_small. split; reflexivity. Qed.
Definition exA : fq := fhalf fq_ops (fthree fq_ops).
Definition exE : curve fq := mkCurve exA (fhalf fq_ops (fhalf fq_ops (fadd fq_ops exA (ftwo fq_ops)))).
Definition exP : point fq := new_xy fq_ops (ftwo fq_ops) (ffour fq_ops).
Section ExField.
Context {K : Type} {k0 k1 : K} {kadd kmul ksub : K -> K -> K} {kopp : K -> K} {kdiv : K -> K -> K} {kinv : K -> K}.
Context (FT : field_theory k0 k1 kadd kmul ksub kopp kdiv kinv (@eq K)) (N2 : kadd k1 k1 <> k0).
Add Field Kf : FT.
Let k2 := kadd k1 k1. Let k3 := kadd k2 k1. Let k4 := kadd k2 k2.
Lemma ex_on_k : on kadd kmul (kdiv k3 k2) (Some (k2, k4)).
Proof. unfold on, k4, k3, k2. field. exact N2. Qed.
Lemma ex_sm_k : kadd k4 k3 <> k0 -> kmul (kdiv k3 k2) (kdiv k3 k2) <> k4.
Proof.
  intros N7 E. apply N7. assert (X : kmul (kmul k2 k2) (kmul (kdiv k3 k2) (kdiv k3 k2)) = kmul (kmul k2 k2) k4) by (f_equal; exact E).
  assert (Y : kmul k3 k3 = kmul (kmul k2 k2) k4) by (rewrite <- X; unfold k3, k2; field; exact N2).
  transitivity (ksub (kmul (kmul k2 k2) k4) (kmul k3 k3)); [unfold k4, k3, k2; ring|rewrite Y; ring].
Qed.
Context {keq : K -> K -> bool} (keq_ok : forall x y, keq x y = true <-> x = y).
Lemma ex_off_k : ~ on kadd kmul (kdiv k3 k2) (Some (k2, k0)).
Proof.
  assert (N4 : k4 <> k0) by exact (four_nz FT keq_ok N2).
  unfold on. intros H. apply (nz_mul FT keq_ok k4 k4 N4 N4). transitivity (kmul k0 k0); [rewrite H|ring]. unfold k4, k3, k2. field. exact N2.
Qed.
Context (N3 : kadd k2 k1 <> k0).
Lemma ex_iso_k u w : let a := kdiv k3 k2 in let vv := kdiv (ksub (kadd (kmul a a) (kmul k2 (kmul a a))) (kmul k3 k3)) (kmul a (ksub k3 (kmul a a))) in
  ~ on kadd kmul a (Some (kadd (kmul u k0) vv, kmul w k0)).
Proof.
  intros a vv. assert (N4 : k4 <> k0) by exact (four_nz FT keq_ok N2).
  assert (Ev : vv = kopp k2).
  { unfold vv. assert (Ea : ksub k3 (kmul a a) = kdiv k3 k4) by (unfold a; replace k4 with (kmul k2 k2) by (unfold k4, k2; ring); unfold k3, k2; field; split; [exact (nz_mul FT keq_ok _ _ N2 N2)|exact N2]).
    rewrite Ea. apply (div_eq FT); [unfold a; intros E; apply (nz_mul FT keq_ok k3 k3 N3 N3); transitivity (kmul (kmul k2 k4) (kmul (kdiv k3 k2) (kdiv k3 k4))); [field; auto|rewrite E; ring]|].
    unfold a. replace k4 with (kmul k2 k2) by (unfold k4, k2; ring). unfold k3, k2. field. split; [exact (nz_mul FT keq_ok _ _ N2 N2)|exact N2]. }
  rewrite Ev. unfold on. intros H. apply N4. transitivity (ksub k0 (kmul (kmul w k0) (kmul w k0))); [|ring]. rewrite H. unfold a, k4, k3, k2. field. exact N2.
Qed.
Lemma ex_j_k : kadd k4 k3 <> k0 -> let A := kdiv k3 k2 in let c := ksub (kmul A A) k3 in kdiv (kmul (kmul (kmul k4 k4) (kmul k4 k4)) (kmul (kmul c c) c)) (ksub (kmul A A) k4) <> k0.
Proof.
  intros N7 A c E. assert (N4 : k4 <> k0) by exact (four_nz FT keq_ok N2). assert (Nd : ksub (kmul A A) k4 <> k0) by (apply (sub_nz FT), ex_sm_k; exact N7).
  assert (Nc : c <> k0). { intros Ec. apply N3. transitivity (kmul (kopp k4) c); [unfold c, A, k4, k3, k2; field; exact N2|rewrite Ec; ring]. }
  apply (nz_mul FT keq_ok (kmul (kmul k4 k4) (kmul k4 k4)) (kmul (kmul c c) c)); [auto using (nz_mul FT keq_ok)|auto using (nz_mul FT keq_ok)|].
  transitivity (kmul (kdiv (kmul (kmul (kmul k4 k4) (kmul k4 k4)) (kmul (kmul c c) c)) (ksub (kmul A A) k4)) (ksub (kmul A A) k4)); [set (d := ksub (kmul A A) k4) in *; field; exact Nd|rewrite E; ring].
Qed.
End ExField.
Lemma exA_v : fqv exA = qdiv q3 q2. Proof. unfold exA. rewrite (l_half _ _ _ _ _ _ _ _ _ _ _ fq_laws), (l_three _ _ _ _ _ _ _ _ _ _ _ fq_laws). reflexivity. Qed.
Lemma exE_valid : valid exE.
Proof.
  unfold valid. destruct (curve_new_ok fq_laws exA) as [H _]. destruct H as (E & E1 & _ & _).
  - rewrite exA_v. exact (ex_sm_k Zq_field q2_nz q7_nz).
  - change (cA exE) with exA. rewrite E1. unfold curve_new in E1. destruct (feqb fq_ops exA (ftwo fq_ops)); [discriminate|]. destruct (fis0 fq_ops (fadd fq_ops exA (ftwo fq_ops))); [discriminate|]. injection E1 as <-. reflexivity.
Qed.
Lemma exP_affine : affine exP = Some (q2, q4).
Proof.
  change (affine exP) with (aff (k0 := q0) (kdiv := qdiv) (keq := qeqb) (v := fqv) exP). unfold exP. rewrite (aff_new_xy fq_laws), (l_two _ _ _ _ _ _ _ _ _ _ _ fq_laws), (l_four _ _ _ _ _ _ _ _ _ _ _ fq_laws). reflexivity.
Qed.
Lemma exP_on : on_E exE exP.
Proof. unfold on_E. rewrite exP_affine. unfold coeff. change (cA exE) with exA. rewrite exA_v. exact (ex_on_k Zq_field q2_nz). Qed.
(** the point (0, 0) of order two *)
Definition exT : point fq := new_xy fq_ops (fzero fq_ops) (fzero fq_ops).
Lemma exT_affine : affine exT = Some (q0, q0).
Proof. change (affine exT) with (aff (k0 := q0) (kdiv := qdiv) (keq := qeqb) (v := fqv) exT). unfold exT. rewrite (aff_new_xy fq_laws), (l_zero _ _ _ _ _ _ _ _ _ _ _ fq_laws). reflexivity. Qed.
Lemma exT_on E : on_E E exT.
Proof. unfold on_E. rewrite exT_affine. cbn. generalize (coeff E). intros a. qring. Qed.

(** ** C29 *)
Theorem C29_add : forall E P Q, valid E -> on_E E P -> on_E E Q ->
  on_E E (add_pts fq_ops E P Q) /\ affine (add_pts fq_ops E P Q) = padd_q (coeff E) (affine P) (affine Q).
Proof. intros E P Q V HP HQ. split; [apply (add_on fq_laws); auto; apply valid_wfc, V|apply (add_ok fq_laws); auto]. Qed.
Theorem C29_sub : forall E P Q, valid E -> on_E E P -> on_E E Q ->
  on_E E (sub_pts fq_ops E P Q) /\ affine (sub_pts fq_ops E P Q) = padd_q (coeff E) (affine P) (popp_q (affine Q)).
Proof.
  intros E P Q V HP HQ. split; [|apply (sub_ok fq_laws); auto]. unfold sub_pts. apply (add_on fq_laws); auto; [apply valid_wfc, V|apply (neg_on fq_laws); auto].
Qed.
Theorem C29_neg : forall P, affine (p_neg fq_ops P) = popp_q (affine P).
Proof. intros P. apply (aff_neg fq_laws). Qed.
Theorem C29_infinity : affine (infinity fq_ops) = None.
Proof. apply (aff_infinity fq_laws). Qed.
Theorem C29_curve_new : forall A, (curve_new fq_ops A = None <-> qmul (fqv A) (fqv A) = q4) /\ (forall E, curve_new fq_ops A = Some E -> cA E = A /\ valid E).
Proof.
  intros A. destruct (curve_new_ok fq_laws A) as [H1 H2]. split.
  - split; [|apply H2]. intros N. destruct (q_dec (qmul (fqv A) (fqv A)) q4) as [Eq|Ne]; [exact Eq|]. destruct (H1 Ne) as (E & E1 & _). congruence.
  - intros E HE. destruct (q_dec (qmul (fqv A) (fqv A)) q4) as [Eq|Ne]; [rewrite (H2 Eq) in HE; discriminate|]. destruct (H1 Ne) as (E' & E1 & EA & _). rewrite HE in E1. injection E1 as <-. split; auto. unfold valid. rewrite EA. exact HE.
Qed.
Example C29_ex : valid exE /\ on_E exE exP /\ on_E exE exT /\ affine exP = Some (q2, q4) /\ affine (add_pts fq_ops exE exP exT) = padd_q (coeff exE) (Some (q2, q4)) (Some (q0, q0)) /\ affine (sub_pts fq_ops exE exP exP) = None.
Proof.
  split; [exact exE_valid|]. split; [exact exP_on|]. split; [apply exT_on|]. split; [exact exP_affine|]. split.
  - rewrite (proj2 (C29_add exE exP exT exE_valid exP_on (exT_on _))), exP_affine, exT_affine. reflexivity.
  - rewrite (proj2 (C29_sub exE exP exP exE_valid exP_on exP_on)). apply (padd_opp_r Zq_field qeqb_true). exact exP_on.
Qed.
Print Assumptions C29_add.
Print Assumptions C29_sub.
Print Assumptions C29_neg.
Print Assumptions C29_infinity.
Print Assumptions C29_curve_new.

(** ** C30 *)
Theorem C30_double : forall E P, valid E -> on_E E P -> on_E E (double_pt fq_ops E P) /\ affine (double_pt fq_ops E P) = padd_q (coeff E) (affine P) (affine P).
Proof. intros E P V HP. split; [apply (double_on fq_laws); auto; apply valid_wfc, V|apply (double_ok fq_laws); auto]. Qed.
Theorem C30_double_iter : forall E P n, valid E -> on_E E P ->
  on_E E (double_iter fq_ops E P n) /\ affine (double_iter fq_ops E P n) = pmul_q (coeff E) (2 ^ Z.of_nat n) (affine P).
Proof. intros E P n V HP. apply (double_iter_ok fq_laws); auto. apply valid_wfc, V. Qed.
Example C30_ex : valid exE /\ on_E exE exP /\ affine (double_iter fq_ops exE exP 3) = pmul_q (coeff exE) 8 (Some (q2, q4)) /\ affine (double_pt fq_ops exE exT) = None.
Proof.
  split; [exact exE_valid|]. split; [exact exP_on|]. split.
  - rewrite (proj2 (C30_double_iter exE exP 3 exE_valid exP_on)), exP_affine. reflexivity.
  - rewrite (proj2 (C30_double exE exT exE_valid (exT_on _))), exT_affine. pose proof (exT_on exE) as H. unfold on_E in H. rewrite exT_affine in H. apply (dbl_inf Zq_field qeqb_true); auto.
Qed.
Print Assumptions C30_double.
Print Assumptions C30_double_iter.

(** ** C31 *)
Theorem C31_mul : forall E P n nbitlen, valid E -> on_E E P -> bytes n -> n <> [] -> (nbitlen <= 8 * length n)%nat -> (0 < nbitlen)%nat ->
  exists R, mul_pt fq_ops E P n nbitlen = Some R /\ on_E E R /\ affine R = pmul_q (coeff E) (le_value n mod 2 ^ Z.of_nat nbitlen) (affine P).
Proof.
  intros E P n m V HP Hn Nn Hm Hm0. destruct (mul_ok fq_laws E P n m (valid_wfc E V) HP Hn Nn Hm) as (R & E1 & E2 & E3); [auto|]. exists R. auto.
Qed.
Theorem C31_mul_panics : forall E P n nbitlen, mul_pt fq_ops E P n nbitlen = None <-> n = [] \/ (8 * length n < nbitlen)%nat.
Proof. intros. apply (mul_panics fq_laws). Qed.
Theorem C31_mul_big : forall E P n, valid E -> on_E E P -> (0 <= n)%Z -> exists R, mul_big fq_ops E P n = Some R /\ on_E E R /\ affine R = pmul_q (coeff E) n (affine P).
Proof. intros E P n V HP Hn. destruct (mul_big_ok fq_laws E P n (valid_wfc E V) HP Hn) as (R & E1 & E2 & E3). exists R. auto. Qed.
Theorem C31_mul_small : forall E P n, valid E -> on_E E P -> (0 <= n < 2 ^ 64)%Z -> exists R, mul_small fq_ops E P n = Some R /\ on_E E R /\ affine R = pmul_q (coeff E) n (affine P).
Proof. intros E P n V HP Hn. destruct (mul_small_ok fq_laws E P n (valid_wfc E V) HP Hn) as (R & E1 & E2 & E3). exists R. auto. Qed.
(** a zero bit length is read as the scalar 0 except for points of order two, where the first byte still decides *)
Theorem C31_zero_length_refuted : exists E P n R, valid E /\ on_E E P /\ bytes n /\ n <> [] /\ mul_pt fq_ops E P n 0 = Some R /\ affine R <> pmul_q (coeff E) (le_value n mod 2 ^ Z.of_nat 0) (affine P).
Proof.
  exists exE, exT, [1%Z].
  destruct (mul_general fq_laws exE exT [1%Z] 0 (valid_wfc _ exE_valid) (exT_on exE)) as (R & E1 & _ & E2); [repeat constructor; lia|discriminate|cbn; lia|].
  exists R. split; [exact exE_valid|]. split; [apply exT_on|]. split; [repeat constructor; lia|]. split; [discriminate|]. split; [exact E1|].
  assert (O2 : order2 (k0 := q0) (kdiv := qdiv) (keq := qeqb) (v := fqv) exT) by (exists q0; exact exT_affine). change (affine R) with (aff (k0 := q0) (kdiv := qdiv) (keq := qeqb) (v := fqv) R). rewrite (E2 O2).
  change (aff exT) with (affine exT). rewrite exT_affine. cbn. discriminate.
Qed.
Theorem C31_zero_length_otherwise : forall E P n, valid E -> on_E E P -> bytes n -> n <> [] -> (forall x, affine P <> Some (x, q0)) ->
  exists R, mul_pt fq_ops E P n 0 = Some R /\ affine R = None.
Proof.
  intros E P n V HP Hn Nn N2. destruct (mul_general fq_laws E P n 0 (valid_wfc _ V) HP Hn Nn) as (R & E1 & E2 & _); [lia|]. exists R. split; auto.
  change (affine R) with (aff (k0 := q0) (kdiv := qdiv) (keq := qeqb) (v := fqv) R). rewrite E2; [change (2 ^ Z.of_nat 0)%Z with 1%Z; rewrite Z.mod_1_r; reflexivity|]. intros (x & C). exact (N2 x C).
Qed.
Lemma exT_odd n : (0 <= n)%Z -> Z.even n = false -> exists R, mul_big fq_ops exE exT n = Some R /\ affine R = Some (q0, q0).
Proof.
  intros Hn Ho. destruct (C31_mul_big exE exT n exE_valid (exT_on _) Hn) as (R & E1 & _ & E3). exists R. split; [exact E1|]. rewrite E3, exT_affine.
  pose proof (exT_on exE) as HT. unfold on_E in HT. rewrite exT_affine in HT. unfold pmul_q. rewrite pmul_to_nat by exact Hn. rewrite (pmul_order2 Zq_field qeqb_true) by exact HT.
  rewrite <- even_of_nat, Z2Nat.id, Ho by exact Hn. reflexivity.
Qed.
Example C31_ex : valid exE /\ on_E exE exP /\ (exists R, mul_small fq_ops exE exP 1000003 = Some R /\ affine R = pmul_q (coeff exE) 1000003 (Some (q2, q4))) /\
  exists R, mul_big fq_ops exE exT (2 ^ 633 + 1) = Some R /\ affine R = Some (q0, q0).
Proof.
  split; [exact exE_valid|]. split; [exact exP_on|]. split.
  - destruct (C31_mul_small exE exP 1000003 exE_valid exP_on ltac:(lia)) as (R & E1 & _ & E3). exists R. rewrite exP_affine in E3. split; [exact E1|exact E3].
  - apply exT_odd; [discriminate|reflexivity].
Qed.
Print Assumptions C31_mul.
Print Assumptions C31_mul_panics.
Print Assumptions C31_mul_big.
Print Assumptions C31_mul_small.
Print Assumptions C31_zero_length_refuted.
Print Assumptions C31_zero_length_otherwise.

(** ** C35 *)
Theorem C35_complete : forall E X, fqv (xZ X) <> q0 -> let x := qdiv (fqv (xX X)) (fqv (xZ X)) in let '(R, ok) := complete_pointX fq_ops E X in
  (ok = true <-> exists y, on_q (coeff E) (Some (x, y))) /\ (ok = true -> on_E E R /\ exists y, affine R = Some (x, y)) /\ (ok = false -> affine R = None).
Proof.
  intros E X N x. pose proof (complete_ok fq_laws E X) as H. destruct (complete_pointX fq_ops E X) as [R ok]. destruct H as [H _]. destruct (H N) as (H1 & H2 & H3).
  split; [exact H1|]. split; [|exact H3]. intros Ok. destruct (H2 Ok) as (y & Hy & Ho). split; [exact Ho|]. exists y. exact Hy.
Qed.
Theorem C35_complete_infinity : forall E X, fqv (xZ X) = q0 -> let '(R, ok) := complete_pointX fq_ops E X in ok = true /\ affine R = None.
Proof. intros E X N. pose proof (complete_ok fq_laws E X) as H. destruct (complete_pointX fq_ops E X) as [R ok]. apply (proj2 H N). Qed.
Example C35_ex : fqv (xZ (mkPointX (ftwo fq_ops) (fone fq_ops))) <> q0 /\ let '(R, ok) := complete_pointX fq_ops exE (mkPointX (ftwo fq_ops) (fone fq_ops)) in ok = true /\ on_E exE R /\ affine R <> None.
Proof.
  assert (N : fqv (xZ (mkPointX (ftwo fq_ops) (fone fq_ops))) <> q0). { cbn [xZ]. rewrite (l_one _ _ _ _ _ _ _ _ _ _ _ fq_laws). apply (one_nz Zq_field). }
  split; [exact N|]. pose proof (C35_complete exE _ N) as H. destruct (complete_pointX fq_ops exE _) as [R ok]. destruct H as (H1 & H2 & _).
  assert (Ok : ok = true). { apply H1. cbn [xX xZ]. rewrite (l_one _ _ _ _ _ _ _ _ _ _ _ fq_laws), (l_two _ _ _ _ _ _ _ _ _ _ _ fq_laws). exists q4.
    replace (qdiv (qadd q1 q1) q1) with q2. - pose proof exP_on as O. unfold on_E in O. rewrite exP_affine in O. exact O. - symmetry. apply (div_eq Zq_field); [apply (one_nz Zq_field)|]. unfold q2. qring. }
  split; [exact Ok|]. destruct (H2 Ok) as [Ho (y & Hy)]. split; [exact Ho|]. rewrite Hy. discriminate.
Qed.
Print Assumptions C35_complete.
Print Assumptions C35_complete_infinity.

(** ** C36 *)
(** The map is right when the two coefficients have different squares and are non-zero, and [u] is a square. Missing from C36 as stated:
    the three excluded cases, in which the returned map is wrong ([C36_equal_coefficients_refuted]). *)
Definition jinv_q (A : Zq) : Zq := let c := qsub (qmul A A) q3 in qdiv (qmul (qmul (qmul q4 q4) (qmul q4 q4)) (qmul (qmul c c) c)) (qsub (qmul A A) q4).
Theorem C36_isomorphism_partial : forall debug D C, valid D -> valid C -> jinv_q (coeff D) = jinv_q (coeff C) -> qmul (coeff D) (coeff D) <> qmul (coeff C) (coeff C) -> coeff D <> q0 -> coeff C <> q0 ->
  exists f, iso_new fq_ops debug D C = Some f /\
    ((exists z, qmul z z = fqv (iu f)) -> forall P, on_E D P -> affine P <> None -> on_E C (iso_eval fq_ops f P) /\ affine (iso_eval fq_ops f P) <> None).
Proof.
  intros dbg D C VD VC J N A0 C0. destruct (iso_ok fq_laws dbg D C (valid_wfc D VD) (valid_wfc C VC) J N A0 C0) as (f & Ef & H). exists f. split; [exact Ef|].
  intros Sq P HP NP. destruct (H Sq P HP NP) as [H1 H2]. split; [exact H2|exact H1].
Qed.
(** it is a homomorphism up to the choice of sign: its x-coordinate map is the affine map x -> u x + v, its y-coordinate map y -> w y with w^2 = u^3 *)
Theorem C36_shape : forall debug D C f, iso_new fq_ops debug D C = Some f -> forall P x y, affine P = Some (x, y) ->
  affine (iso_eval fq_ops f P) = Some (qadd (qmul (fqv (iu f)) x) (fqv (iv f)), qmul (fqv (iw f)) y) /\
  ((exists z, qmul z z = fqv (iu f)) -> qmul (fqv (iw f)) (fqv (iw f)) = qmul (fqv (iu f)) (qmul (fqv (iu f)) (fqv (iu f)))).
Proof.
  intros dbg D C f Ef P x y EP. destruct (iso_shape fq_laws dbg D C f Ef) as (_ & _ & H1 & H2). split; [exact (H2 P x y EP)|exact H1].
Qed.
(** with equal coefficients the constructor accepts (the j-invariants agree) but the map leaves the curve *)
Theorem C36_equal_coefficients_refuted : exists E f P, valid E /\ iso_new fq_ops true E E = Some f /\ on_E E P /\ affine P <> None /\ ~ on_E E (iso_eval fq_ops f P).
Proof.
  destruct (iso_same fq_laws true exE) as (f & Ef). exists exE, f, exT. split; [exact exE_valid|]. split; [exact Ef|]. split; [apply exT_on|]. split; [rewrite exT_affine; discriminate|].
  unfold on_E. rewrite (proj1 (C36_shape true exE exE f Ef exT q0 q0 exT_affine)).
  pose proof (proj1 (iso_shape fq_laws true exE exE f Ef)) as Ev. unfold coeff. change (cA exE) with exA in *. rewrite exA_v in *.
  pose proof (ex_iso_k Zq_field q2_nz qeqb_true q3_nz (fqv (iu f)) (fqv (iw f))) as X. cbv zeta in X. rewrite Ev. exact X.
Qed.
(** curves with rational coefficients, for the examples *)
Definition mkE (A : fq) : curve fq := mkCurve A (fhalf fq_ops (fhalf fq_ops (fadd fq_ops A (ftwo fq_ops)))).
Lemma mkE_valid A : qmul (fqv A) (fqv A) <> q4 -> valid (mkE A).
Proof.
  intros N. unfold valid. destruct (curve_new_ok fq_laws A) as [H _]. destruct (H N) as (E & E1 & _ & _). change (cA (mkE A)) with A. rewrite E1.
  unfold curve_new in E1. destruct (feqb fq_ops A (ftwo fq_ops)); [discriminate|]. destruct (fis0 fq_ops (fadd fq_ops A (ftwo fq_ops))); [discriminate|]. injection E1 as <-. reflexivity.
Qed.
Ltac qnz := apply qz_nz; split; reflexivity.
Ltac qfrs := repeat first [ rewrite qfr_mul by qnz | rewrite qfr_add by qnz | rewrite qfr_sub by qnz | rewrite qfr_div by qnz ].
Lemma q1_fr : q1 = qfr 1 1. Proof. rewrite <- qfr_z. symmetry. exact qz_1. Qed.
Lemma q2_fr : q2 = qfr 2 1. Proof. rewrite <- qfr_z. unfold q2. rewrite <- qz_1, <- qz_add. reflexivity. Qed.
Lemma q3_fr : q3 = qfr 3 1. Proof. rewrite <- qfr_z. unfold q3, q2. rewrite <- qz_1, <- !qz_add. reflexivity. Qed.
Lemma q4_fr : q4 = qfr 4 1. Proof. rewrite <- qfr_z. unfold q4, q2. rewrite <- qz_1, <- !qz_add. reflexivity. Qed.
(** the hypotheses of the partial theorem are met by the coefficients 34/15 and -41/20, with u = 3/4 *)
Definition exD : curve fq := mkE (ffr 34 15).
Definition exC : curve fq := mkE (fneg fq_ops (ffr 41 20)).
Lemma exC_v : coeff exC = qfr (-41) 20.
Proof. unfold coeff. change (cA exC) with (fneg fq_ops (ffr 41 20)). rewrite (l_neg _ _ _ _ _ _ _ _ _ _ _ fq_laws), ffr_v. unfold qfr. change (-41)%Z with (- (41))%Z. rewrite (qz_opp 41). unfold qdiv. generalize (qz 41), (qinv (qz 20)). intros. qring. Qed.
Lemma exD_v : coeff exD = qfr 34 15. Proof. exact (ffr_v 34 15). Qed.
Example C36_ex : valid exD /\ valid exC /\ jinv_q (coeff exD) = jinv_q (coeff exC) /\ qmul (coeff exD) (coeff exD) <> qmul (coeff exC) (coeff exC) /\ coeff exD <> q0 /\ coeff exC <> q0 /\
  exists f, iso_new fq_ops true exD exC = Some f /\ fqv (iu f) = qfr 3 4 /\ exists z, qmul z z = fqv (iu f).
Proof.
  assert (V1 : valid exD) by (apply mkE_valid; change (fqv (ffr 34 15)) with (coeff exD); rewrite exD_v, q4_fr; qfrs; apply qfr_neq; [qnz|qnz|split; reflexivity]).
  assert (V2 : valid exC) by (apply mkE_valid; change (fqv (fneg fq_ops (ffr 41 20))) with (coeff exC); rewrite exC_v, q4_fr; qfrs; apply qfr_neq; [qnz|qnz|split; reflexivity]).
  assert (J : jinv_q (coeff exD) = jinv_q (coeff exC)) by (rewrite exD_v, exC_v; unfold jinv_q; rewrite q4_fr, q3_fr; qfrs; apply qfr_eq; [qnz|qnz|reflexivity]).
  assert (N : qmul (coeff exD) (coeff exD) <> qmul (coeff exC) (coeff exC)) by (rewrite exD_v, exC_v; qfrs; apply qfr_neq; [qnz|qnz|split; reflexivity]).
  assert (Z0 : q0 = qfr 0 1) by (rewrite <- qfr_z; symmetry; exact qz_0).
  assert (N1 : coeff exD <> q0) by (rewrite exD_v, Z0; apply qfr_neq; [qnz|qnz|split; reflexivity]).
  assert (N2 : coeff exC <> q0) by (rewrite exC_v, Z0; intros E; symmetry in E; revert E; apply qfr_neq; [qnz|qnz|split; reflexivity]).
  split; [exact V1|]. split; [exact V2|]. split; [exact J|]. split; [exact N|]. split; [exact N1|]. split; [exact N2|].
  destruct (C36_isomorphism_partial true exD exC V1 V2 J N N1 N2) as (f & Ef & _). exists f. split; [exact Ef|].
  destruct (iso_shape fq_laws true exD exC f Ef) as (Hv & Hu & _). change (fqv (cA exD)) with (coeff exD) in *. change (fqv (cA exC)) with (coeff exC) in *. change (qadd (qadd q1 q1) q1) with q3 in *. change (qadd q1 q1) with q2 in *.
  rewrite exD_v, exC_v, q2_fr, q3_fr in Hv. rewrite exD_v, exC_v, q3_fr in Hu. revert Hv. qfrs. intros Hv.
  assert (Hv' : fqv (iv f) = qfr 5 4).
  { rewrite Hv. apply qfr_eq; [qnz|qnz|reflexivity]. }
  assert (Hu' : fqv (iu f) = qfr 3 4) by (rewrite Hu, Hv'; qfrs; apply qfr_eq; [qnz|qnz|reflexivity]).
  split; [exact Hu'|]. rewrite Hu'. apply qfr_square. qnz.
Qed.
Print Assumptions C36_isomorphism_partial.
Print Assumptions C36_shape.
Print Assumptions C36_equal_coefficients_refuted.

(** ** C44 *)
Theorem C44_equals : forall P Q, p_equals fq_ops P Q = true <-> affine P = affine Q.
Proof. intros. apply (p_equals_ok fq_laws). Qed.
Theorem C44_isinfinity : forall P, isinfinity fq_ops P = true <-> affine P = None.
Proof. intros. apply (isinfinity_ok fq_laws). Qed.
Theorem C44_to_xy : forall P, (fqv (fst (to_xy fq_ops P)), fqv (snd (to_xy fq_ops P))) = match affine P with Some xy => xy | None => (q0, q0) end.
Proof. intros P. pose proof (to_xy_ok fq_laws P) as H. change (aff P) with (affine P) in H. destruct (affine P) as [[x y]|]; destruct H as [-> ->]; reflexivity. Qed.
Theorem C44_to_xy_vartime : forall P, option_map (fun xy => (fqv (fst xy), fqv (snd xy))) (to_xy_vartime fq_ops P) = affine P.
Proof. intros P. pose proof (to_xy_vartime_ok fq_laws P) as H. change (aff P) with (affine P) in H. destruct (to_xy_vartime fq_ops P) as [[x y]|]; rewrite H; reflexivity. Qed.
(** representations (X : Y : Z) and (cX : cY : cZ) denote the same point and are equal *)
Theorem C44_scaling : forall P c, fqv c <> q0 -> let Q := mkPoint (fmul fq_ops c (pX P)) (fmul fq_ops c (pY P)) (fmul fq_ops c (pZ P)) in
  affine Q = affine P /\ p_equals fq_ops Q P = true.
Proof.
  intros P c Nc Q. assert (EQ : affine Q = affine P).
  { change (affine Q) with (affk (k0 := q0) (kdiv := qdiv) (keq := qeqb) (fqv (pX Q)) (fqv (pY Q)) (fqv (pZ Q))). unfold Q. cbn [pX pY pZ]. rewrite !(l_mul _ _ _ _ _ _ _ _ _ _ _ fq_laws).
    destruct (affine P) as [[x y]|] eqn:EP.
    - apply (affk_inv fq_laws) in EP as (Z & X & Y). apply (affk_S fq_laws); [apply (nzm fq_laws); auto|rewrite X; generalize (fqv c), x, (fqv (pZ P)); intros; qring|rewrite Y; generalize (fqv c), y, (fqv (pZ P)); intros; qring].
    - apply (affk_inv0 fq_laws) in EP. apply (affk_0 fq_laws). rewrite EP. generalize (fqv c). intros. qring. }
  split; [exact EQ|]. apply C44_equals. exact EQ.
Qed.
Example C44_ex : fqv (fthree fq_ops) <> q0 /\ p_equals fq_ops exP exT = false /\ (fqv (fst (to_xy fq_ops exP)), fqv (snd (to_xy fq_ops exP))) = (q2, q4).
Proof.
  split; [rewrite (l_three _ _ _ _ _ _ _ _ _ _ _ fq_laws); exact q3_nz|]. split.
  - destruct (p_equals fq_ops exP exT) eqn:E; [|reflexivity]. apply C44_equals in E. rewrite exP_affine, exT_affine in E. apply (f_equal (fun o => match o with Some (x, _) => x | None => q0 end)) in E. exfalso. exact (q2_nz E).
  - rewrite C44_to_xy, exP_affine. reflexivity.
Qed.
Print Assumptions C44_equals.
Print Assumptions C44_isinfinity.
Print Assumptions C44_to_xy.
Print Assumptions C44_to_xy_vartime.
Print Assumptions C44_scaling.

(** ** C45 *)
Theorem C45_j : forall E, fqv (j_invariant fq_ops E) = jinv_q (coeff E).
Proof. intros E. apply (j_ok fq_laws). Qed.
Theorem C45_j_opposite : forall E E', coeff E' = qopp (coeff E) -> fqv (j_invariant fq_ops E') = fqv (j_invariant fq_ops E).
Proof. intros E E' H. rewrite !C45_j, H. unfold jinv_q. replace (qmul (qopp (coeff E)) (qopp (coeff E))) with (qmul (coeff E) (coeff E)); [reflexivity|]. generalize (coeff E). intros a. qring. Qed.
Example C45_ex : valid exE /\ jinv_q (coeff exE) <> q0.
Proof. split; [exact exE_valid|]. unfold coeff. change (cA exE) with exA. rewrite exA_v. exact (ex_j_k Zq_field q2_nz qeqb_true q3_nz q7_nz). Qed.
Print Assumptions C45_j.
Print Assumptions C45_j_opposite.

(** ** C46 *)
Theorem C46_set_xy : forall E x y, let '(R, ok) := set_xy fq_ops E x y in
  (ok = true <-> on_q (coeff E) (Some (fqv x, fqv y))) /\ affine R = if ok then Some (fqv x, fqv y) else None.
Proof. intros E x y. pose proof (set_xy_ok fq_laws E x y) as H. destruct (set_xy fq_ops E x y) as [R ok]. exact H. Qed.
Theorem C46_set_xyz : forall E x y z, let '(R, ok) := set_xyz fq_ops E x y z in
  (ok = true <-> on_q (coeff E) (affine (mkPoint x y z))) /\ affine R = if ok then affine (mkPoint x y z) else None.
Proof. intros E x y z. pose proof (set_xyz_ok fq_laws E x y z) as H. destruct (set_xyz fq_ops E x y z) as [R ok]. exact H. Qed.
Theorem C46_on_curve : forall E P, on_curve fq_ops E P = true <-> on_E E P.
Proof. intros. apply (on_curve_ok fq_laws). Qed.
(** every operation keeps points on the curve, as the code itself would check *)
Theorem C46_closed : forall E P Q n m b e, valid E -> on_curve fq_ops E P = true -> on_curve fq_ops E Q = true -> bytes b -> b <> [] -> (0 < m <= 8 * length b)%nat -> (0 <= n)%Z -> (0 <= e < 2 ^ 64)%Z ->
  on_curve fq_ops E (infinity fq_ops) = true /\ on_curve fq_ops E (p_neg fq_ops P) = true /\ on_curve fq_ops E (add_pts fq_ops E P Q) = true /\ on_curve fq_ops E (sub_pts fq_ops E P Q) = true /\
  on_curve fq_ops E (double_pt fq_ops E P) = true /\ on_curve fq_ops E (double_iter fq_ops E P m) = true /\
  (exists R, mul_pt fq_ops E P b m = Some R /\ on_curve fq_ops E R = true) /\ (exists R, mul_big fq_ops E P n = Some R /\ on_curve fq_ops E R = true) /\ (exists R, mul_small fq_ops E P e = Some R /\ on_curve fq_ops E R = true).
Proof.
  intros E P Q n m b e V HP HQ Hb Nb Hm Hn He. apply C46_on_curve in HP, HQ.
  split; [apply C46_on_curve; unfold on_E; rewrite C29_infinity; exact I|].
  split; [apply C46_on_curve, (neg_on fq_laws), HP|].
  split; [apply C46_on_curve, C29_add; auto|]. split; [apply C46_on_curve, C29_sub; auto|]. split; [apply C46_on_curve, C30_double; auto|]. split; [apply C46_on_curve, C30_double_iter; auto|].
  split; [destruct (C31_mul E P b m V HP Hb Nb (proj2 Hm) (proj1 Hm)) as (R & E1 & E2 & _); exists R; split; [exact E1|apply C46_on_curve; exact E2]|].
  split; [destruct (C31_mul_big E P n V HP Hn) as (R & E1 & E2 & _); exists R; split; [exact E1|apply C46_on_curve; exact E2]|].
  destruct (C31_mul_small E P e V HP He) as (R & E1 & E2 & _); exists R; split; [exact E1|apply C46_on_curve; exact E2].
Qed.
Example C46_ex : valid exE /\ on_curve fq_ops exE exP = true /\ on_curve fq_ops exE (new_xy fq_ops (ftwo fq_ops) (fzero fq_ops)) = false.
Proof.
  split; [exact exE_valid|]. split; [apply C46_on_curve, exP_on|]. destruct (on_curve fq_ops exE _) eqn:H; [|reflexivity]. exfalso. apply C46_on_curve in H. unfold on_E in H.
  match type of H with on_q _ (affine ?R) => change (affine R) with (aff (k0 := q0) (kdiv := qdiv) (keq := qeqb) (v := fqv) R) in H end.
  rewrite (aff_new_xy fq_laws), (l_two _ _ _ _ _ _ _ _ _ _ _ fq_laws), (l_zero _ _ _ _ _ _ _ _ _ _ _ fq_laws) in H. unfold coeff in H. change (cA exE) with exA in H. rewrite exA_v in H. revert H. exact (ex_off_k Zq_field q2_nz qeqb_true).
Qed.
Print Assumptions C46_set_xy.
Print Assumptions C46_set_xyz.
Print Assumptions C46_on_curve.
Print Assumptions C46_closed.

(** ** C48: the points of a curve form a commutative group under the API *)
Theorem C48_group : forall E P Q R, valid E -> on_E E P -> on_E E Q -> on_E E R ->
  p_equals fq_ops (add_pts fq_ops E (add_pts fq_ops E P Q) R) (add_pts fq_ops E P (add_pts fq_ops E Q R)) = true /\
  p_equals fq_ops (add_pts fq_ops E P Q) (add_pts fq_ops E Q P) = true /\
  p_equals fq_ops (add_pts fq_ops E P (infinity fq_ops)) P = true /\
  p_equals fq_ops (add_pts fq_ops E P (p_neg fq_ops P)) (infinity fq_ops) = true /\
  p_equals fq_ops (double_pt fq_ops E P) (add_pts fq_ops E P P) = true /\
  p_equals fq_ops (sub_pts fq_ops E (add_pts fq_ops E P Q) Q) P = true.
Proof.
  intros E P Q R V HP HQ HR. pose proof (valid_smooth E V) as SM.
  destruct (C29_add E P Q V HP HQ) as [OPQ APQ]. destruct (C29_add E Q R V HQ HR) as [OQR AQR].
  assert (OI : on_E E (infinity fq_ops)) by (unfold on_E; rewrite C29_infinity; exact I).
  assert (ON : on_E E (p_neg fq_ops P)) by (apply (neg_on fq_laws), HP).
  repeat split; apply C44_equals.
  - rewrite (proj2 (C29_add E _ R V OPQ HR)), (proj2 (C29_add E P _ V HP OQR)), APQ, AQR. apply (padd_assoc Zq_field qeqb_true q2_nz SM); [exact HP|exact HQ|exact HR].
  - rewrite APQ, (proj2 (C29_add E Q P V HQ HP)). apply (padd_comm Zq_field qeqb_true q2_nz); [exact HP|exact HQ].
  - rewrite (proj2 (C29_add E P _ V HP OI)), C29_infinity. apply padd_0_r.
  - rewrite (proj2 (C29_add E P _ V HP ON)), C29_neg, C29_infinity. apply (padd_opp_r Zq_field qeqb_true). exact HP.
  - rewrite (proj2 (C30_double E P V HP)), (proj2 (C29_add E P P V HP HP)). reflexivity.
  - rewrite (proj2 (C29_sub E _ Q V OPQ HQ)), APQ. apply (add_sub Zq_field qeqb_true q2_nz SM); [exact HP|exact HQ].
Qed.
Theorem C48_scalars : forall E P a b, valid E -> on_E E P -> (0 <= a)%Z -> (0 <= b)%Z -> exists aP bP sP mP baP, mul_big fq_ops E P a = Some aP /\ mul_big fq_ops E P b = Some bP /\
  mul_big fq_ops E P (a + b) = Some sP /\ mul_big fq_ops E P (b * a) = Some mP /\ mul_big fq_ops E aP b = Some baP /\
  p_equals fq_ops sP (add_pts fq_ops E aP bP) = true /\ p_equals fq_ops mP baP = true.
Proof.
  intros E P a b V HP Ha Hb. pose proof (valid_smooth E V) as SM.
  destruct (C31_mul_big E P a V HP Ha) as (aP & E1 & O1 & A1). destruct (C31_mul_big E P b V HP Hb) as (bP & E2 & O2 & A2).
  destruct (C31_mul_big E P (a + b) V HP ltac:(lia)) as (sP & E3 & O3 & A3). destruct (C31_mul_big E P (b * a) V HP ltac:(lia)) as (mP & E4 & O4 & A4).
  destruct (C31_mul_big E aP b V O1 Hb) as (baP & E5 & O5 & A5). exists aP, bP, sP, mP, baP.
  split; [exact E1|]. split; [exact E2|]. split; [exact E3|]. split; [exact E4|]. split; [exact E5|]. unfold pmul_q in *. rewrite pmul_to_nat in A1, A2, A3, A4, A5 by lia. split; apply C44_equals.
  - rewrite (proj2 (C29_add E aP bP V O1 O2)), A3, A1, A2, Z2Nat.inj_add by lia. apply (pmul_nat_add Zq_field qeqb_true q2_nz SM). exact HP.
  - rewrite A4, A5, A1, Z2Nat.inj_mul by lia. apply (pmul_nat_mul Zq_field qeqb_true q2_nz SM). exact HP.
Qed.
Example C48_ex : valid exE /\ on_E exE exP /\ on_E exE exT /\ affine (add_pts fq_ops exE exP exT) <> affine exP.
Proof.
  split; [exact exE_valid|]. split; [exact exP_on|]. split; [apply exT_on|]. intros H. destruct (C48_group exE exT exP exP exE_valid (exT_on _) exP_on exP_on) as (_ & C & _ & _ & _ & S).
  apply C44_equals in S, C. destruct (C29_add exE exT exP exE_valid (exT_on _) exP_on) as [OS AS].
  rewrite (proj2 (C29_sub exE _ exP exE_valid OS exP_on)), C, H in S. unfold padd_q, popp_q in S.
  rewrite (padd_opp_r Zq_field qeqb_true) in S by exact exP_on. rewrite exT_affine in S. discriminate.
Qed.
Print Assumptions C48_group.
Print Assumptions C48_scalars.

(** ** C49: the point iterator *)
Definition nth_x (x : Zq) (j : nat) : Zq := Nat.iter j (fun z => qadd z q1) x.
Theorem C49_iterator : forall A x, match iter_next fq_ops A x with
  | Some (R, x') => exists k y, (k < 1000)%nat /\ affine R = Some (nth_x (fqv x) k, y) /\ on_q (fqv A) (affine R) /\ fqv x' = nth_x (fqv x) (S k) /\ forall j, (j < k)%nat -> forall y, ~ on_q (fqv A) (Some (nth_x (fqv x) j, y))
  | None => forall j, (j < 1000)%nat -> forall y, ~ on_q (fqv A) (Some (nth_x (fqv x) j, y)) end.
Proof.
  intros A x. unfold iter_next. generalize 1000%nat. intros t. pose proof (iter_loop_ok fq_laws A t x) as H. destruct (iter_loop fq_ops t A x) as [[R x']|]; [|exact H].
  destruct H as (k & x0 & Hk & E0 & E1 & (y & Ey & Oy) & HN). exists k, y. split; [exact Hk|]. split; [transitivity (Some (fqv x0, y)); [exact Ey|exact (f_equal (fun z => Some (z, y)) E0)]|]. split; [exact Oy|]. split; [transitivity (qadd (fqv x0) q1); [exact E1|exact (f_equal (fun z => qadd z q1) E0)]|exact HN].
Qed.
(** the iterator starts at 1 + i *)
Theorem C49_start : fqv (iter_start fq_ops) = qadd q1 (fqv (fzeta fq_ops)) /\ qmul (fqv (fzeta fq_ops)) (fqv (fzeta fq_ops)) = qopp q1.
Proof. unfold iter_start. rewrite (l_add _ _ _ _ _ _ _ _ _ _ _ fq_laws), (l_one _ _ _ _ _ _ _ _ _ _ _ fq_laws). split; [reflexivity|]. exact (l_zeta _ _ _ _ _ _ _ _ _ _ _ fq_laws). Qed.
Example C49_ex : exists R x', iter_next fq_ops exA (ftwo fq_ops) = Some (R, x') /\ affine R <> None.
Proof.
  pose proof (C49_iterator exA (ftwo fq_ops)) as H. destruct (iter_next fq_ops exA (ftwo fq_ops)) as [[R x']|].
  - destruct H as (k & y & _ & E & _). exists R, x'. split; [reflexivity|]. rewrite E. discriminate.
  - exfalso. apply (H 0%nat ltac:(lia) q4). unfold nth_x. cbn [Nat.iter nat_rect]. rewrite (l_two _ _ _ _ _ _ _ _ _ _ _ fq_laws), exA_v. exact (ex_on_k Zq_field q2_nz).
Qed.
Print Assumptions C49_iterator.
Print Assumptions C49_start.

(** ** C50: random points are affine points of the curve *)
Theorem C50_rand_point : forall fuel E rng R rng', rand_point fq_ops fuel E rng = Some (R, rng') -> on_E E R /\ affine R <> None.
Proof. intros fuel E rng R rng'. apply (rand_point_ok fq_laws). Qed.
Example C50_ex : exists R, rand_point fq_ops 5 exE [[]; []; [1%Z]; [7%Z]] = Some (R, [[7%Z]]) /\ affine R <> None.
Proof.
  assert (F0 : exists x, frand fq_ops [[]; []; [1%Z]; [7%Z]] = Some (x, [[1%Z]; [7%Z]]) /\ fqv x = q0).
  { exists (clamp f2_zero). split; [assert (R0 : f2_rand [[]; []; [1%Z]; [7%Z]] = Some (f2_zero, [[1%Z]; [7%Z]])) by (vm_compute; reflexivity); unfold fq_ops; cbn [frand]; rewrite R0; reflexivity|]. unfold fqv. rewrite clamp_ok by exact canon2_zero. exact (l_zero _ _ _ _ _ _ _ _ _ _ _ fq_laws). }
  destruct F0 as (x & Ex & Vx).
  assert (H : exists R, rand_point fq_ops 5 exE [[]; []; [1%Z]; [7%Z]] = Some (R, [[7%Z]])).
  { cbn [rand_point]. rewrite Ex.
  assert (R0 : fqv (rhs fq_ops (cA exE) x) = q0) by (rewrite (rhs_v fq_laws), Vx; generalize (fqv (cA exE)); intros a; qring).
  destruct (l_leg _ _ _ _ _ _ _ _ _ _ _ fq_laws (rhs fq_ops (cA exE) x)) as (L0 & _). rewrite (L0 R0). cbn [Z.leb Z.compare]. eexists. reflexivity. }
  destruct H as (R & ER). exists R. split; [exact ER|]. exact (proj2 (C50_rand_point _ _ _ _ _ ER)).
Qed.
Print Assumptions C50_rand_point.

(** ** C51: products of curves act componentwise *)
Theorem C51_product : forall EE C D n, valid (e1 EE) -> valid (e2 EE) -> on_E (e1 EE) (c1 C) -> on_E (e2 EE) (c2 C) -> on_E (e1 EE) (c1 D) -> on_E (e2 EE) (c2 D) ->
  (affine (c1 (prod_add fq_ops EE C D)) = padd_q (coeff (e1 EE)) (affine (c1 C)) (affine (c1 D)) /\ affine (c2 (prod_add fq_ops EE C D)) = padd_q (coeff (e2 EE)) (affine (c2 C)) (affine (c2 D))) /\
  (affine (c1 (prod_double fq_ops EE C)) = padd_q (coeff (e1 EE)) (affine (c1 C)) (affine (c1 C)) /\ affine (c2 (prod_double fq_ops EE C)) = padd_q (coeff (e2 EE)) (affine (c2 C)) (affine (c2 C))) /\
  (affine (c1 (prod_double_iter fq_ops EE C n)) = pmul_q (coeff (e1 EE)) (2 ^ Z.of_nat n) (affine (c1 C)) /\ affine (c2 (prod_double_iter fq_ops EE C n)) = pmul_q (coeff (e2 EE)) (2 ^ Z.of_nat n) (affine (c2 C))).
Proof.
  intros EE C D n V1 V2 H1 H2 H3 H4. cbn [prod_add prod_double prod_double_iter c1 c2].
  split; [split; apply C29_add; auto|]. split; [split; apply C30_double; auto|]. split; apply C30_double_iter; auto.
Qed.
Example C51_ex : let EE := mkEprod exE exE in let C := mkCouple exP exT in valid (e1 EE) /\ on_E (e1 EE) (c1 C) /\ on_E (e2 EE) (c2 C) /\ affine (c2 (prod_double fq_ops EE C)) = None.
Proof. cbn [e1 e2 c1 c2 prod_double]. split; [exact exE_valid|]. split; [exact exP_on|]. split; [apply exT_on|]. apply C30_ex. Qed.
Print Assumptions C51_product.
