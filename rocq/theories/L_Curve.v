(** The curve operations of M_Curve.v compute the group law of S_Curve.v, for every field implementation satisfying [flaws]. *)
From Coq Require Import Arith ZArith List Bool Ring Field Lia.
From Verif Require Import S_Fp M_Fp M_Field M_Curve S_Curve L_Words L_FpCodec L_Fp2Misc L_Group L_Kummer L_Field.
Import ListNotations.

Lemma testbit_nth e : bytes e -> forall i, (i < 8 * length e)%nat ->
  exists b, nth_error e (Nat.div i 8) = Some b /\ Z.testbit b (Z.of_nat (Nat.modulo i 8)) = Z.testbit (le_value e) (Z.of_nat i).
Proof.
  intros He i Hi. destruct (nth_bit e He i Hi) as (b & Hb & E). exists b. split; auto. apply Z.b2z_inj. rewrite <- E.
  rewrite Z.testbit_spec' by lia. rewrite <- Z.shiftr_div_pow2 by lia. change 1%Z with (Z.ones 1). rewrite Z.land_ones by lia. reflexivity.
Qed.
Lemma even_of_nat n : Z.even (Z.of_nat n) = Nat.even n.
Proof. induction n; [reflexivity|]. rewrite Nat2Z.inj_succ, Z.even_succ, Nat.even_succ, <- Z.negb_even, <- Nat.negb_even, IHn. reflexivity. Qed.

Section Curve.
Context {F : Type} {o : fops F}.
Context {K : Type} {k0 k1 : K} {kadd kmul ksub : K -> K -> K} {kopp : K -> K} {kdiv : K -> K -> K} {kinv : K -> K} {keq : K -> K -> bool} {v : F -> K}.
Context (L : flaws o k0 k1 kadd kmul ksub kopp kdiv kinv keq v).
Let FT := l_ft _ _ _ _ _ _ _ _ _ _ _ L.
Let keq_ok := l_keq _ _ _ _ _ _ _ _ _ _ _ L.
Let two_nz := l_two_nz _ _ _ _ _ _ _ _ _ _ _ L.
Add Field Kfield : FT.
Local Notation "0" := k0. Local Notation "1" := k1.
Local Notation "2" := (kadd k1 k1). Local Notation "3" := (kadd (kadd k1 k1) k1). Local Notation "4" := (kadd (kadd k1 k1) (kadd k1 k1)).
Local Infix "+" := kadd. Local Infix "*" := kmul. Local Infix "-" := ksub. Local Infix "/" := kdiv. Local Notation "- x" := (kopp x).
Local Notation on := (on kadd kmul).
Local Notation padd := (padd k1 kadd kmul ksub kopp kdiv keq).
Local Notation popp := (popp kopp).
Local Notation pmul_nat := (pmul_nat k1 kadd kmul ksub kopp kdiv keq).
Local Notation pmul := (pmul k1 kadd kmul ksub kopp kdiv keq).

Ltac vs := repeat first
  [ rewrite (l_add _ _ _ _ _ _ _ _ _ _ _ L) | rewrite (l_sub _ _ _ _ _ _ _ _ _ _ _ L) | rewrite (l_mul _ _ _ _ _ _ _ _ _ _ _ L)
  | rewrite (l_sq _ _ _ _ _ _ _ _ _ _ _ L) | rewrite (l_neg _ _ _ _ _ _ _ _ _ _ _ L) | rewrite (l_half _ _ _ _ _ _ _ _ _ _ _ L)
  | rewrite (l_mul2 _ _ _ _ _ _ _ _ _ _ _ L) | rewrite (l_mul3 _ _ _ _ _ _ _ _ _ _ _ L) | rewrite (l_mul4 _ _ _ _ _ _ _ _ _ _ _ L)
  | rewrite (l_mul8 _ _ _ _ _ _ _ _ _ _ _ L) | rewrite (l_inv _ _ _ _ _ _ _ _ _ _ _ L) | rewrite (l_div _ _ _ _ _ _ _ _ _ _ _ L)
  | rewrite (l_zero _ _ _ _ _ _ _ _ _ _ _ L) | rewrite (l_one _ _ _ _ _ _ _ _ _ _ _ L) | rewrite (l_two _ _ _ _ _ _ _ _ _ _ _ L)
  | rewrite (l_three _ _ _ _ _ _ _ _ _ _ _ L) | rewrite (l_four _ _ _ _ _ _ _ _ _ _ _ L)
  | rewrite (l_is0 _ _ _ _ _ _ _ _ _ _ _ L) | rewrite (l_eqb _ _ _ _ _ _ _ _ _ _ _ L)
  | rewrite (l_cond _ _ _ _ _ _ _ _ _ _ _ L) | rewrite (l_cneg _ _ _ _ _ _ _ _ _ _ _ L) ].

Lemma kt x : keq x x = true. Proof. apply keq_ok. reflexivity. Qed.
Lemma kf x y : x <> y -> keq x y = false. Proof. apply (keq_false keq_ok). Qed.
Lemma nzm x y : x <> 0 -> y <> 0 -> x * y <> 0. Proof. exact (mulr_nz FT keq_ok x y). Qed.
Lemma keqP x y : reflect (x = y) (keq x y). Proof. destruct (keq x y) eqn:E; constructor; [apply keq_ok; auto|intros H; apply keq_ok in H; congruence]. Qed.
Lemma kinv0 : kinv 0 = 0. Proof. exact (l_inv0 _ _ _ _ _ _ _ _ _ _ _ L). Qed.
Lemma div_def x y : x / y = x * kinv y. Proof. exact (Fdiv_def FT x y). Qed.

(** the affine point denoted by projective coordinates *)
Definition affk (X Y Z : K) : pt K := if keq Z 0 then None else Some (X / Z, Y / Z).
Definition aff (P : point F) : pt K := affk (v (pX P)) (v (pY P)) (v (pZ P)).
Lemma affk_0 X Y Z : Z = 0 -> affk X Y Z = None. Proof. intros ->. unfold affk. rewrite kt. reflexivity. Qed.
Lemma affk_S X Y Z x y : Z <> 0 -> X = x * Z -> Y = y * Z -> affk X Y Z = Some (x, y).
Proof. intros N -> ->. unfold affk. rewrite kf by auto. f_equal. f_equal; field; auto. Qed.
Lemma affk_inv X Y Z x y : affk X Y Z = Some (x, y) -> Z <> 0 /\ X = x * Z /\ Y = y * Z.
Proof. unfold affk. destruct (keqP Z 0) as [|N]; [discriminate|]. intros [= <- <-]. repeat split; auto; field; auto. Qed.
Lemma affk_inv0 X Y Z : affk X Y Z = None -> Z = 0.
Proof. unfold affk. destruct (keqP Z 0); [auto|discriminate]. Qed.
Lemma affk_neg X Y Z : affk X (- Y) Z = popp (affk X Y Z).
Proof. unfold affk. destruct (keqP Z 0); [reflexivity|]. cbn. f_equal. f_equal. field. auto. Qed.

(** a curve as built by [curve_new] *)
Definition wfc (E : curve F) : Prop := v (cA24 E) = (v (cA E) + 2) / 4 /\ v (cA E) * v (cA E) <> 4.
Definition onc (E : curve F) (P : point F) : Prop := on (v (cA E)) (aff P).
Local Notation AA E := (v (cA E)).

Lemma curve_new_ok A : (v A * v A <> 4 -> exists E, curve_new o A = Some E /\ cA E = A /\ wfc E) /\ (v A * v A = 4 -> curve_new o A = None).
Proof.
  unfold curve_new. vs. split.
  - intros S. rewrite kf by (intros E; apply S; rewrite E; ring). rewrite kf by (intros E; apply S; replace (v A) with (v A + 2 - 2) by ring; rewrite E; ring).
    eexists. split; [reflexivity|]. split; [reflexivity|]. split; [|exact S]. cbn. vs. field. auto using nzm.
  - intros S. destruct (keqP (v A) 2) as [E|N]; [reflexivity|]. destruct (keqP (v A + 2) 0) as [E|N']; [reflexivity|]. exfalso.
    assert (D : (v A - 2) * (v A + 2) = 0) by (transitivity (v A * v A - 4); [ring|rewrite S; ring]).
    destruct (mul0 FT keq_ok _ _ D) as [E|E]; [|auto]. apply N, (sub_eq FT), E.
Qed.

(** ** Points *)
Lemma aff_infinity : aff (infinity o) = None.
Proof. apply affk_0. cbn. vs. reflexivity. Qed.
Lemma aff_new_xy x y : aff (new_xy o x y) = Some (v x, v y).
Proof. apply affk_S; cbn; vs; [apply (one_nz FT)|ring|ring]. Qed.
Lemma aff_neg P : aff (p_neg o P) = popp (aff P).
Proof. unfold aff, p_neg. cbn. vs. apply affk_neg. Qed.
Lemma aff_condneg P b : aff (p_condneg o P b) = if b : bool then popp (aff P) else aff P.
Proof. unfold aff, p_condneg. cbn [pX pY pZ]. vs. destruct b; [apply affk_neg|reflexivity]. Qed.
Lemma aff_set_cond P Q b : aff (p_set_cond o P Q b) = if b : bool then aff Q else aff P.
Proof. unfold aff, p_set_cond. cbn [pX pY pZ]. vs. destruct b; reflexivity. Qed.
Lemma isinfinity_ok P : isinfinity o P = true <-> aff P = None.
Proof. unfold isinfinity. vs. unfold aff, affk. destruct (keq (v (pZ P)) 0); split; auto; discriminate. Qed.
Lemma to_xy_ok P : match aff P with Some (x, y) => v (fst (to_xy o P)) = x /\ v (snd (to_xy o P)) = y | None => v (fst (to_xy o P)) = 0 /\ v (snd (to_xy o P)) = 0 end.
Proof.
  unfold to_xy, aff, affk. cbn. vs. destruct (keqP (v (pZ P)) 0) as [->|N].
  - rewrite kinv0. split; ring.
  - split; field; auto.
Qed.
Lemma to_xy_vartime_ok P : match to_xy_vartime o P with Some (x, y) => aff P = Some (v x, v y) | None => aff P = None end.
Proof.
  unfold to_xy_vartime. vs. unfold aff, affk. destruct (keqP (v (pZ P)) 0); [reflexivity|]. vs. f_equal. f_equal; field; auto.
Qed.
Lemma p_equals_ok P Q : p_equals o P Q = true <-> aff P = aff Q.
Proof.
  unfold p_equals. vs. unfold aff, affk. destruct (keqP (v (pZ P)) 0) as [Z1|Z1], (keqP (v (pZ Q)) 0) as [Z2|Z2]; cbn [andb orb negb]; try (split; [reflexivity||discriminate|reflexivity||discriminate]).
  rewrite andb_true_iff, !keq_ok. split.
  - intros [EX EY]. f_equal. f_equal.
    + apply (cancel FT (v (pZ P) * v (pZ Q))); [auto using nzm|]. transitivity (v (pX P) * v (pZ Q)); [field; auto|rewrite EX; field; auto].
    + apply (cancel FT (v (pZ P) * v (pZ Q))); [auto using nzm|]. transitivity (v (pY P) * v (pZ Q)); [field; auto|rewrite EY; field; auto].
  - intros [= EX EY]. split.
    + transitivity (v (pX P) / v (pZ P) * (v (pZ P) * v (pZ Q))); [field; auto|rewrite EX; field; auto].
    + transitivity (v (pY P) / v (pZ P) * (v (pZ P) * v (pZ Q))); [field; auto|rewrite EY; field; auto].
Qed.

(** ** Addition and doubling *)
Lemma chord_k A l t z x1 y1 x2 : t <> 0 -> z <> 0 ->
  let u := l * l * z - (x1 * z + x2 * z + A * z) * (t * t) in
  affk (u * t) (l * (x1 * z * (t * t) - u) - y1 * z * (t * (t * t))) (z * (t * (t * t))) = chord kmul ksub A (l / t) x1 y1 x2.
Proof. intros Nt Nz u. unfold chord. cbv zeta. apply affk_S; [auto using nzm|unfold u; field; auto|unfold u; field; auto]. Qed.
Lemma add_k A x1 y1 z1 x2 y2 z2 : on A (Some (x1, y1)) -> on A (Some (x2, y2)) -> z1 <> 0 -> z2 <> 0 ->
  let d := keq ((x2 - x1) * (z1 * z2)) 0 && keq ((y2 - y1) * (z1 * z2)) 0 in
  let t := if d then 2 * y1 * (z1 * z1) else (x2 - x1) * (z1 * z2) in
  let l := if d then (3 * (x1 * x1) + 2 * (A * x1) + 1) * (z1 * z1) else (y2 - y1) * (z1 * z2) in
  let z := z1 * z2 in
  let u := l * l * z - (x1 * z + x2 * z + A * z) * (t * t) in
  affk (u * t) (l * (x1 * z * (t * t) - u) - y1 * z * (t * (t * t))) (z * (t * (t * t))) = padd A (Some (x1, y1)) (Some (x2, y2)).
Proof.
  intros H1 H2 Z1 Z2. assert (ZZ : z1 * z2 <> 0) by auto using nzm. intros d t l z u.
  destruct (keq_dec keq_ok x1 x2) as [->|Nx].
  - destruct (keq_dec keq_ok y1 y2) as [->|Ny].
    + assert (D : d = true). { unfold d. replace ((x2 - x2) * (z1 * z2)) with 0 by ring. replace ((y2 - y2) * (z1 * z2)) with 0 by ring. rewrite kt. reflexivity. }
      unfold u, t, l, z. clear u t l z. rewrite D. destruct (keq_dec keq_ok y2 0) as [Y|Y].
      * rewrite (dbl_inf FT keq_ok x2 y2 H2 Y). apply affk_0. rewrite Y. ring.
      * unfold S_Curve.padd. rewrite kt, kf by (intros E; apply Y, (double_0 FT two_nz), E).
        rewrite chord_k by auto 6 using nzm. f_equal. field. auto.
    + assert (D : d = false). { unfold d. rewrite (kf ((y2 - y1) * (z1 * z2))) by (apply nzm; auto; apply (sub_nz FT); auto). apply andb_false_r. }
      unfold u, t, l, z. clear u t l z. rewrite D. destruct (same_x FT keq_ok _ _ _ H1 H2) as [->| ->]; [contradiction|]. cbn. rewrite !kt. apply affk_0. ring.
  - assert (T : (x2 - x1) * (z1 * z2) <> 0) by (apply nzm; auto; apply (sub_nz FT); auto).
    assert (D : d = false). { unfold d. rewrite (kf _ 0 T). reflexivity. }
    unfold u, t, l, z. clear u t l z. rewrite D. unfold S_Curve.padd. rewrite kf by auto. rewrite chord_k by auto. f_equal. field. repeat split; auto. apply (sub_nz FT); auto.
Qed.
Lemma add_ok E P Q : onc E P -> onc E Q -> aff (add_pts o E P Q) = padd (AA E) (aff P) (aff Q).
Proof.
  unfold onc. intros HP HQ. unfold add_pts. rewrite !aff_set_cond. rewrite !(l_is0 _ _ _ _ _ _ _ _ _ _ _ L).
  destruct (keqP (v (pZ Q)) 0) as [Z2|Z2].
  { replace (aff Q) with (@None (K * K)) by (symmetry; apply affk_0; auto). symmetry. apply (padd_0_r (aff P)). }
  destruct (keqP (v (pZ P)) 0) as [Z1|Z1].
  { replace (aff P) with (@None (K * K)) by (symmetry; apply affk_0; auto). reflexivity. }
  destruct (aff P) as [[x1 y1]|] eqn:EP; [|exfalso; apply Z1, (affk_inv0 _ _ _ EP)].
  destruct (aff Q) as [[x2 y2]|] eqn:EQ; [|exfalso; apply Z2, (affk_inv0 _ _ _ EQ)].
  apply affk_inv in EP as (_ & X1 & Y1). apply affk_inv in EQ as (_ & X2 & Y2).
  rewrite <- (add_k _ _ _ (v (pZ P)) _ _ (v (pZ Q)) HP HQ Z1 Z2). cbv zeta. unfold aff. cbn [pX pY pZ]. vs. rewrite X1, X2, Y1, Y2.
  replace (x2 * v (pZ Q) * v (pZ P) - x1 * v (pZ P) * v (pZ Q)) with ((x2 - x1) * (v (pZ P) * v (pZ Q))) by ring.
  replace (y2 * v (pZ Q) * v (pZ P) - y1 * v (pZ P) * v (pZ Q)) with ((y2 - y1) * (v (pZ P) * v (pZ Q))) by ring.
  destruct (_ && _); f_equal; ring.
Qed.
Lemma neg_on E P : onc E P -> onc E (p_neg o P).
Proof. unfold onc. rewrite aff_neg. apply (on_opp FT). Qed.
Lemma add_on E P Q : wfc E -> onc E P -> onc E Q -> onc E (add_pts o E P Q).
Proof. intros W HP HQ. unfold onc. rewrite add_ok by auto. apply (padd_on FT keq_ok two_nz); auto. Qed.
Lemma sub_ok E P Q : onc E P -> onc E Q -> aff (sub_pts o E P Q) = padd (AA E) (aff P) (popp (aff Q)).
Proof. intros HP HQ. unfold sub_pts. rewrite add_ok, aff_neg; auto using neg_on. Qed.
Lemma double_ok E P : onc E P -> aff (double_pt o E P) = padd (AA E) (aff P) (aff P).
Proof.
  unfold onc. intros HP. destruct (aff P) as [[x y]|] eqn:EP.
  - apply affk_inv in EP as (Z & X & Y). unfold aff, double_pt, double_from_coords. cbn [pX pY pZ]. vs. rewrite X, Y. set (z := v (pZ P)) in *. set (A := AA E) in *.
    destruct (keq_dec keq_ok y 0) as [Y0|Y0].
    + rewrite (dbl_inf FT keq_ok x y HP Y0). apply affk_0. rewrite Y0. ring.
    + rewrite (dbl_fin FT keq_ok two_nz x y HP Y0). apply affk_S; [auto 10 using nzm|field; auto using nzm|field; auto using nzm].
  - apply affk_inv0 in EP. apply affk_0. unfold double_pt, double_from_coords. cbn [pZ]. vs. rewrite EP. ring.
Qed.
Lemma double_on E P : wfc E -> onc E P -> onc E (double_pt o E P).
Proof. intros W HP. unfold onc. rewrite double_ok by auto. apply (padd_on FT keq_ok two_nz); auto. Qed.
Lemma double_iter_ok E P n : wfc E -> onc E P -> onc E (double_iter o E P n) /\ aff (double_iter o E P n) = pmul (AA E) (2 ^ Z.of_nat n)%Z (aff P).
Proof.
  intros W HP. unfold double_iter. induction n as [|n [IH1 IH2]].
  - split; [exact HP|]. change (pmul (AA E) (2 ^ Z.of_nat 0)%Z (aff P)) with (aff P). reflexivity.
  - change (Nat.iter (S n) (double_pt o E) P) with (double_pt o E (Nat.iter n (double_pt o E) P)). split; [apply double_on; auto|].
    rewrite double_ok, IH2 by auto. rewrite Nat2Z.inj_succ, Z.pow_succ_r by lia.
    unfold S_Curve.pmul. assert (0 < 2 ^ Z.of_nat n)%Z by lia. destruct (2 ^ Z.of_nat n)%Z as [|q|q] eqn:Eq; try lia.
    change (2 * Zpos q)%Z with (Zpos (xO q)). cbn iota. rewrite !Z2Nat.inj_pos, Pos2Nat.inj_xO.
    replace (2 * Pos.to_nat q)%nat with (Pos.to_nat q + Pos.to_nat q)%nat by lia. symmetry. apply (pmul_nat_add FT keq_ok two_nz (proj2 W)); auto.
Qed.

(** ** The Montgomery ladder *)
Section Ladder.
Context (E : curve F) (W : wfc E).
Local Notation A := (v (cA E)).
Context (x y : K) (Hp : on A (Some (x, y))) (Nx : x <> 0).
Local Notation p := (Some (x, y)).
Local Notation mulp k := (pmul_nat A k p).
Local Notation xr X W q := (xrep (k0 := k0) (kmul := kmul) (v X) (v W) q).

Lemma xdbl_v X Z q : on A q -> xr X Z q -> xr (fst (xdbl o E X Z)) (snd (xdbl o E X Z)) (padd A q q).
Proof.
  intros Hq R. pose proof (xdbl_ok FT keq_ok two_nz (proj2 W) _ _ _ Hq R) as D. unfold xdbl. cbn [fst snd]. vs. rewrite (proj1 W). exact D.
Qed.
Definition dadd_spec (dadd : F -> F -> F -> F -> F * F) : Prop := forall X0 W0 X1 W1, exists c, c <> 0 /\
  v (fst (dadd X0 W0 X1 W1)) = c * ((v X0 * v X1 - v W0 * v W1) * (v X0 * v X1 - v W0 * v W1)) /\
  v (snd (dadd X0 W0 X1 W1)) = c * x * ((v X0 * v W1 - v W0 * v X1) * (v X0 * v W1 - v W0 * v X1)).
Lemma xadd_spec Xp Zp : v Zp <> 0 -> v Xp = x * v Zp -> dadd_spec (xadd o Xp Zp).
Proof. intros N H X0 W0 X1 W1. exists (4 * v Zp). split; [apply nzm; auto; apply (four_nz FT keq_ok two_nz)|]. unfold xadd. cbn [fst snd]. vs. rewrite H. split; ring. Qed.
Lemma xadd_aff_spec Xp : v Xp = x -> dadd_spec (xadd_aff o Xp).
Proof. intros H X0 W0 X1 W1. exists 4. split; [apply (four_nz FT keq_ok two_nz)|]. unfold xadd_aff. cbn [fst snd]. vs. rewrite H. split; ring. Qed.

Definition linv (k : nat) (s : lstate (F := F)) : Prop :=
  let '(X0, W0, X1, W1, cc) := s in
  if cc : bool then xr X1 W1 (mulp k) /\ xr X0 W0 (mulp (S k)) else xr X0 W0 (mulp k) /\ xr X1 W1 (mulp (S k)).
Lemma mulp_on k : on A (mulp k). Proof. apply (pmul_nat_on FT keq_ok two_nz). exact Hp. Qed.
Lemma mulp_add a b : mulp (a + b) = padd A (mulp a) (mulp b).
Proof. apply (pmul_nat_add FT keq_ok two_nz (proj2 W)). exact Hp. Qed.
Lemma mulp_diff k : padd A (mulp (S k)) (popp (mulp k)) = p.
Proof.
  rewrite pmul_nat_S, (padd_comm FT keq_ok two_nz (mulp k) p) by (auto using mulp_on). apply (add_sub FT keq_ok two_nz (proj2 W)); auto using mulp_on.
Qed.
Lemma mulp_diff' k : padd A (mulp k) (popp (mulp (S k))) = Some (x, - y).
Proof.
  change (Some (x, - y)) with (popp p). pose proof (f_equal popp (mulp_diff k)) as D. rewrite (popp_add FT keq_ok two_nz), (popp_invol FT) in D by auto using mulp_on, (on_opp FT).
  rewrite <- D. apply (padd_comm FT keq_ok two_nz); auto using mulp_on, (on_opp FT).
Qed.
Lemma ladder_step_ok dadd ctl k s : dadd_spec dadd -> linv k s -> linv (2 * k + Nat.b2n ctl) (ladder_step o E dadd ctl s).
Proof.
  intros HD. destruct s as [[[[X0 W0] X1] W1] cc]. intros I. unfold ladder_step. rewrite !(l_swap _ _ _ _ _ _ _ _ _ _ _ L).
  assert (I2 : let '(Y0, Y1) := if xorb ctl cc then (X1, X0) else (X0, X1) in let '(V0, V1) := if xorb ctl cc then (W1, W0) else (W0, W1) in
    if ctl then xr Y1 V1 (mulp k) /\ xr Y0 V0 (mulp (S k)) else xr Y0 V0 (mulp k) /\ xr Y1 V1 (mulp (S k))).
  { destruct ctl, cc; cbn [xorb]; exact I. }
  destruct (if xorb ctl cc then (X1, X0) else (X0, X1)) as [Y0 Y1]. destruct (if xorb ctl cc then (W1, W0) else (W0, W1)) as [V0 V1].
  pose proof (HD Y0 V0 Y1 V1) as (c & Nc & D1 & D2). destruct (dadd Y0 V0 Y1 V1) as [X1' W1'] eqn:ED. cbn [fst snd] in D1, D2.
  pose proof (fun q => xdbl_v Y0 V0 q) as DB. destruct (xdbl o E Y0 V0) as [X0' W0'] eqn:EX. cbn [fst snd] in DB.
  unfold linv. destruct ctl; cbn [Nat.b2n] in *; destruct I2 as [Ia Ib].
  - split.
    + rewrite D1, D2. replace (2 * k + 1)%nat with (S k + k)%nat by lia. rewrite mulp_add.
      apply (xadd_ok FT keq_ok two_nz _ _ _ _ _ _ x y); auto using mulp_on. left. apply mulp_diff.
    + replace (S (2 * k + 1)) with (S k + S k)%nat by lia. rewrite mulp_add. apply DB; auto using mulp_on.
  - split.
    + replace (2 * k + 0)%nat with (k + k)%nat by lia. rewrite mulp_add. apply DB; auto using mulp_on.
    + rewrite D1, D2. replace (S (2 * k + 0)) with (k + S k)%nat by lia. rewrite mulp_add.
      apply (xadd_ok FT keq_ok two_nz _ _ _ _ _ _ x y); auto using mulp_on. right. apply mulp_diff'.
Qed.
Lemma ladder_ok dadd n : dadd_spec dadd -> bytes n -> forall m s k, (m <= 8 * length n)%nat -> linv k s ->
  exists s', ladder o E dadd n m s = Some s' /\ linv (k * 2 ^ m + Z.to_nat (le_value n mod 2 ^ Z.of_nat m)) s'.
Proof.
  intros HD Hn. induction m as [|m IH]; intros s k Hm I.
  - exists s. split; [reflexivity|]. change (2 ^ Z.of_nat 0)%Z with 1%Z. rewrite Z.mod_1_r. cbn [Z.to_nat Nat.pow]. replace (k * 1 + 0)%nat with k by lia. exact I.
  - cbn [ladder]. destruct (testbit_nth n Hn m) as (b & -> & ->); [lia|].
    destruct (IH _ _ ltac:(lia) (ladder_step_ok dadd (Z.testbit (le_value n) (Z.of_nat m)) k s HD I)) as (s' & -> & I'). exists s'. split; [reflexivity|].
    replace (k * 2 ^ S m + Z.to_nat (le_value n mod 2 ^ Z.of_nat (S m)))%nat with ((2 * k + Nat.b2n (Z.testbit (le_value n) (Z.of_nat m))) * 2 ^ m + Z.to_nat (le_value n mod 2 ^ Z.of_nat m))%nat; [exact I'|].
    rewrite Nat2Z.inj_succ. rewrite <- Z.add_1_r, mod_pow2_succ by lia. pose proof (Z.mod_pos_bound (le_value n) (2 ^ Z.of_nat m) ltac:(lia)).
    rewrite Z2Nat.inj_add by (try apply Z.mul_nonneg_nonneg; try apply b2z_nn; lia). rewrite Z2Nat.inj_mul by (try apply b2z_nn; lia).
    replace (Z.to_nat (2 ^ Z.of_nat m)) with (2 ^ m)%nat by (apply Nat2Z.inj; rewrite Z2Nat.id by lia; rewrite Nat2Z.inj_pow; reflexivity).
    rewrite Nat.pow_succ_r'. destruct (Z.testbit (le_value n) (Z.of_nat m)); cbn [Nat.b2n Z.b2z Z.to_nat]; change (Pos.to_nat 1) with 1%nat; lia.
Qed.
Lemma finish_ok P n_odd k X0 W0 X1 W1 : aff P = p -> y <> 0 -> linv k (X0, W0, X1, W1, false) -> aff (ladder_finish o E P n_odd X0 W0 X1 W1) = mulp k.
Proof.
  intros EP Y [R0 R1]. pose proof (mulp_on k) as H0. assert (HP : onc E P) by (unfold onc; rewrite EP; exact Hp). pose proof (double_ok E P HP) as ED. rewrite EP in ED.
  destruct (affk_inv _ _ _ _ _ EP) as (Zp & EX & EY).
  assert (Ny : v (pY P) <> 0) by (rewrite EY; auto using nzm).
  unfold ladder_finish. rewrite aff_condneg, !aff_set_cond. rewrite EP, ED. unfold aff. cbn [pX pY pZ]. vs.
  rewrite (kf _ _ Zp), (kf _ _ Ny). cbn [negb andb orb]. rewrite !orb_false_r.
  rewrite pmul_nat_S in R1. destruct (mulp k) as [[x0 y0]|] eqn:EK.
  2:{ destruct R0 as [_ R0]. rewrite R0, kt. cbn [negb andb orb]. apply affk_0. reflexivity. }
  destruct R0 as [N0 R0]. rewrite (kf _ _ N0). cbn [negb andb orb].
  destruct (padd A (Some (x0, y0)) p) as [[x1 y1]|] eqn:E1.
  2:{ destruct R1 as [_ R1]. rewrite R1, kt. cbn [negb andb orb]. apply (padd_None FT keq_ok two_nz) in E1; auto. cbn [S_Curve.popp] in E1 |- *. injection E1 as -> ->. f_equal. f_equal. ring. }
  destruct R1 as [N1 R1]. rewrite (kf _ _ N1). cbn [negb andb orb].
  assert (H1 : on A (Some (x1, y1))) by (rewrite <- E1; apply (padd_on FT keq_ok two_nz); auto).
  replace (v X1 * v (pZ P)) with (x1 * (v W1 * v (pZ P))) by (rewrite R1; ring). replace (v (pX P) * v W1) with (x * (v W1 * v (pZ P))) by (rewrite EX; ring).
  destruct (keqP (x1 * (v W1 * v (pZ P))) (x * (v W1 * v (pZ P)))) as [C|C].
  - assert (x1 = x) as ->. { apply (cancel FT (v W1 * v (pZ P))); [auto using nzm|]. transitivity (x1 * (v W1 * v (pZ P))); [ring|rewrite C; ring]. }
    pose proof (add_sub FT keq_ok two_nz (proj2 W) (Some (x0, y0)) p H0 Hp) as AS. rewrite E1 in AS.
    destruct (same_x FT keq_ok _ _ _ H1 Hp) as [->| ->].
    + rewrite (padd_opp_r FT keq_ok p) in AS; auto; discriminate.
    + rewrite <- AS. change (Some (x, - y)) with (popp p). rewrite <- (popp_add FT keq_ok two_nz) by auto. reflexivity.
  - pose proof (recover_y FT keq_ok _ _ _ _ _ _ H0 Hp E1) as RY. rewrite R0, R1, EX, EY.
    apply affk_S; [rewrite EY in Ny; auto 10 using nzm|ring|].
    transitivity ((v (pZ P) * v W0) * (v (pZ P) * v W0) * v W1 * ((x * x0 + 1) * (x + x0 + 2 * A) - 2 * A - (x - x0) * (x - x0) * x1)); [ring|]. rewrite RY. ring.
Qed.
End Ladder.

Lemma pmul_of_nat A k q : pmul A (Z.of_nat k) q = pmul_nat A k q.
Proof. destruct k; [reflexivity|]. unfold S_Curve.pmul. cbn [Z.of_nat]. rewrite Z2Nat.inj_pos, SuccNat2Pos.id_succ. reflexivity. Qed.
Lemma pmul_to_nat A k q : (0 <= k)%Z -> pmul A k q = pmul_nat A (Z.to_nat k) q.
Proof. intros H. rewrite <- (Z2Nat.id k H) at 1. apply pmul_of_nat. Qed.
(** [dadd] for the source point exists in both branches *)
Lemma ladder_some E dadd n : forall m s, (m <= 8 * length n)%nat -> exists s', ladder o E dadd n m s = Some s'.
Proof.
  induction m as [|m IH]; intros s Hm; [exists s; reflexivity|]. cbn [ladder]. destruct (nth_error n (Nat.div m 8)) eqn:En; [apply IH; lia|].
  exfalso. apply nth_error_None in En. pose proof (Nat.div_lt_upper_bound m 8 (length n) ltac:(lia) ltac:(lia)). lia.
Qed.
Lemma ladder_none E dadd n m s : (8 * length n < m)%nat -> ladder o E dadd n m s = None.
Proof.
  destruct m as [|m]; [lia|]. intros H. cbn [ladder]. assert (En : nth_error n (Nat.div m 8) = None) by (apply nth_error_None, Nat.div_le_lower_bound; lia). rewrite En. reflexivity.
Qed.
Lemma mul_panics E P n m : mul_pt o E P n m = None <-> n = [] \/ (8 * length n < m)%nat.
Proof.
  unfold mul_pt. split.
  - intros H. destruct n as [|b n]; [auto|]. right. destruct (le_lt_dec m (8 * length (b :: n))) as [Hm|]; [|auto]. exfalso.
    destruct (Nat.ltb 21 m).
    + destruct (ladder_some E (xadd_aff o (fdiv o (pX P) (pZ P))) (b :: n) m (fone o, fzero o, pX P, pZ P, false) Hm) as ([[[[X0 W0] X1] W1] cc] & Es). rewrite Es in H.
      destruct (fswap o X0 X1 cc), (fswap o W0 W1 cc). discriminate.
    + destruct (ladder_some E (xadd o (pX P) (pZ P)) (b :: n) m (fone o, fzero o, pX P, pZ P, false) Hm) as ([[[[X0 W0] X1] W1] cc] & Es). rewrite Es in H.
      destruct (fswap o X0 X1 cc), (fswap o W0 W1 cc). discriminate.
  - intros H. destruct (le_lt_dec m (8 * length n)) as [Hm|Hm].
    + destruct H as [->|H]; [|lia]. cbn [length Nat.mul] in Hm. assert (m = 0%nat) as -> by lia. cbn. rewrite !(l_swap _ _ _ _ _ _ _ _ _ _ _ L). reflexivity.
    + destruct (Nat.ltb 21 m); rewrite ladder_none by auto; reflexivity.
Qed.
Lemma finish_order1 E P n_odd X0 W0 X1 W1 : aff P = None -> aff (ladder_finish o E P n_odd X0 W0 X1 W1) = None.
Proof.
  intros EP. apply affk_inv0 in EP. unfold ladder_finish. rewrite aff_condneg, !aff_set_cond. vs. rewrite EP, kt. cbn [negb andb orb]. apply affk_0. cbn [pZ]. vs. reflexivity.
Qed.
Lemma finish_order2 E P n_odd X0 W0 X1 W1 x : aff P = Some (x, 0) -> aff (ladder_finish o E P n_odd X0 W0 X1 W1) = if n_odd : bool then aff P else None.
Proof.
  intros EP. destruct (affk_inv _ _ _ _ _ EP) as (Zp & EX & EY). assert (Y0 : v (pY P) = 0) by (rewrite EY; ring).
  unfold ladder_finish. rewrite aff_condneg, !aff_set_cond. vs. rewrite Y0, kt, (kf _ _ Zp). cbn [negb andb orb]. destruct n_odd; cbn [negb andb orb]; [reflexivity|]. apply affk_0. cbn [pZ]. vs. reflexivity.
Qed.
Definition order2 (P : point F) : Prop := exists x, aff P = Some (x, 0).
Lemma mul_general E P n m : wfc E -> onc E P -> bytes n -> n <> [] -> (m <= 8 * length n)%nat ->
  exists R, mul_pt o E P n m = Some R /\
    (~ order2 P -> aff R = pmul (AA E) (le_value n mod 2 ^ Z.of_nat m) (aff P)) /\
    (order2 P -> aff R = pmul (AA E) (le_value n mod 2) (aff P)).
Proof.
  intros W HP Hn Nn Hm. destruct n as [|b n]; [contradiction|]. set (l := b :: n) in *.
  assert (Hv : (0 <= le_value l mod 2 ^ Z.of_nat m)%Z) by (apply Z.mod_pos_bound; lia).
  unfold mul_pt. change (nth_error l 0) with (Some b).
  assert (Eb : Z.testbit b 0 = Z.testbit (le_value l) 0).
  { destruct (testbit_nth l Hn 0) as (b' & Hb & Eb); [cbn [length l]; lia|]. cbn in Hb. injection Hb as <-. exact Eb. }
  destruct (aff P) as [[x y]|] eqn:EP.
  2:{ assert (HS : exists R, mul_pt o E P l m = Some R) by (destruct (mul_pt o E P l m) eqn:Em; [eauto|apply mul_panics in Em; destruct Em; [discriminate|lia]]).
      destruct HS as (R & HR). unfold mul_pt in HR. change (nth_error l 0) with (Some b) in HR. exists R. split; [exact HR|].
      assert (AR : aff R = None). { destruct (if Nat.ltb 21 m then _ else _) as [[[[[X0 W0] X1] W1] cc]|]; [|discriminate]. destruct (fswap o X0 X1 cc), (fswap o W0 W1 cc). injection HR as <-. apply finish_order1, EP. }
      rewrite AR. split; intros _; rewrite pmul_to_nat by (try apply Z.mod_pos_bound; lia); symmetry; apply pmul_nat_None. }
  destruct (keq_dec keq_ok y 0) as [->|Y].
  - assert (HS : exists R, mul_pt o E P l m = Some R) by (destruct (mul_pt o E P l m) eqn:Em; [eauto|apply mul_panics in Em; destruct Em; [discriminate|lia]]).
    destruct HS as (R & HR). unfold mul_pt in HR. change (nth_error l 0) with (Some b) in HR. exists R. split; [exact HR|].
    split; [intros NO; exfalso; apply NO; exists x; exact EP|]. intros _.
    assert (AR : aff R = if Z.testbit b 0 then aff P else None).
    { destruct (if Nat.ltb 21 m then _ else _) as [[[[[X0 W0] X1] W1] cc]|]; [|discriminate]. destruct (fswap o X0 X1 cc), (fswap o W0 W1 cc). injection HR as <-. apply (finish_order2 E P _ _ _ _ _ x), EP. }
    rewrite AR, Eb, <- Z.bit0_mod, EP. destruct (Z.testbit (le_value l) 0); cbn [Z.b2z]; [|reflexivity]. reflexivity.
  - assert (Nx : x <> 0). { intros Ex. apply Y, (x0_y0 FT keq_ok (A := AA E) x y); [unfold onc in HP; rewrite EP in HP; exact HP|exact Ex]. }
    assert (Hp : on (AA E) (Some (x, y))) by (unfold onc in HP; rewrite EP in HP; exact HP).
    destruct (affk_inv _ _ _ _ _ EP) as (Zp & EX & EY).
    assert (I0 : linv E x y 0 (fone o, fzero o, pX P, pZ P, false)).
    { cbn [linv]. split; cbn; vs; [split; [apply (one_nz FT)|reflexivity]|split; auto]. }
    assert (G : exists s, (if Nat.ltb 21 m then ladder o E (xadd_aff o (fdiv o (pX P) (pZ P))) l m (fone o, fzero o, pX P, pZ P, false) else ladder o E (xadd o (pX P) (pZ P)) l m (fone o, fzero o, pX P, pZ P, false)) = Some s /\
      linv E x y (Z.to_nat (le_value l mod 2 ^ Z.of_nat m)) s).
    { destruct (Nat.ltb 21 m).
      - destruct (ladder_ok E W x y Hp Nx (xadd_aff o (fdiv o (pX P) (pZ P))) l) with (m := m) (k := 0%nat) (s := (fone o, fzero o, pX P, pZ P, false)) as (s & Es & Is); auto.
        + apply xadd_aff_spec. vs. rewrite EX. field. exact Zp.
        + exists s. split; auto.
      - destruct (ladder_ok E W x y Hp Nx (xadd o (pX P) (pZ P)) l) with (m := m) (k := 0%nat) (s := (fone o, fzero o, pX P, pZ P, false)) as (s & Es & Is); auto.
        + apply xadd_spec; auto.
        + exists s. split; auto. }
    destruct G as ([[[[X0 W0] X1] W1] cc] & -> & Is). rewrite !(l_swap _ _ _ _ _ _ _ _ _ _ _ L).
    assert (Is' : linv E x y (Z.to_nat (le_value l mod 2 ^ Z.of_nat m)) (if cc then X1 else X0, if cc then W1 else W0, if cc then X0 else X1, if cc then W0 else W1, false)) by (destruct cc; exact Is).
    rewrite (pmul_to_nat _ _ _ Hv).
    destruct cc; eexists; (split; [reflexivity|]); (split; [intros _; apply (finish_ok E W x y Hp Nx P _ _ _ _ _ _ EP Y Is')|]); intros (x' & Hx'); exfalso; rewrite EP in Hx'; injection Hx' as _ E0; auto.
Qed.
Lemma mul_ok E P n m : wfc E -> onc E P -> bytes n -> n <> [] -> (m <= 8 * length n)%nat -> (order2 P -> (0 < m)%nat \/ le_value n mod 2 = 0)%Z ->
  exists R, mul_pt o E P n m = Some R /\ aff R = pmul (AA E) (le_value n mod 2 ^ Z.of_nat m) (aff P) /\ onc E R.
Proof.
  intros W HP Hn Nn Hm Hz. destruct (mul_general E P n m W HP Hn Nn Hm) as (R & ER & H1 & H2). exists R. split; auto.
  assert (Hv : (0 <= le_value n mod 2 ^ Z.of_nat m)%Z) by (apply Z.mod_pos_bound; lia).
  assert (AR : aff R = pmul (AA E) (le_value n mod 2 ^ Z.of_nat m) (aff P)).
  { destruct (aff P) as [[x y]|] eqn:EP.
    2:{ apply H1. intros (x & C). congruence. }
    destruct (keq_dec keq_ok y 0) as [->|Y]; [|apply H1; intros (x' & C); rewrite EP in C; injection C; auto].
    assert (O2 : order2 P) by (exists x; exact EP). rewrite (H2 O2). unfold onc in HP. rewrite EP in HP.
    assert (Hv2 : (0 <= le_value n mod 2)%Z) by (apply Z.mod_pos_bound; lia).
    rewrite !pmul_to_nat, !(pmul_order2 FT keq_ok) by auto.
    assert (Ev : forall z, (0 <= z)%Z -> Nat.even (Z.to_nat z) = Z.even z). { intros z Hz'. rewrite <- (Z2Nat.id z Hz') at 2. symmetry. apply even_of_nat. }
    rewrite !Ev by auto. replace (Z.even (le_value n mod 2)) with (Z.even (le_value n mod 2 ^ Z.of_nat m)); [reflexivity|].
    destruct (Hz O2) as [Hm0|H0].
    - rewrite !Zeven_mod. f_equal. rewrite Z.mod_mod by lia. replace (2 ^ Z.of_nat m)%Z with (2 * 2 ^ Z.of_nat (m - 1))%Z by (rewrite <- Z.pow_succ_r by lia; f_equal; lia).
      rewrite Z.rem_mul_r by lia. rewrite Z.mul_comm, Z_mod_plus_full, Z.mod_mod by lia. reflexivity.
    - rewrite H0. destruct m as [|m]; [change (2 ^ Z.of_nat 0)%Z with 1%Z; rewrite Z.mod_1_r; reflexivity|].
      rewrite Zeven_mod. replace (2 ^ Z.of_nat (S m))%Z with (2 * 2 ^ Z.of_nat m)%Z by (rewrite <- Z.pow_succ_r by lia; f_equal; lia). rewrite Z.rem_mul_r by lia. rewrite Z.mul_comm, Z_mod_plus_full, Z.mod_mod, H0 by lia. reflexivity. }
  split; auto. unfold onc. rewrite AR, pmul_to_nat by auto. apply (pmul_nat_on FT keq_ok two_nz). exact HP.
Qed.
Lemma mul_big_ok E P n : wfc E -> onc E P -> (0 <= n)%Z -> exists R, mul_big o E P n = Some R /\ aff R = pmul (AA E) n (aff P) /\ onc E R.
Proof.
  intros W HP Hn. unfold mul_big. destruct (big_bytes_ok n Hn) as (H1 & H2 & H3). pose proof (big_bits_spec n Hn) as Hb.
  destruct (mul_ok E P (big_to_bytes_le n) (big_bits n)) as (R & ER & AR & OR); auto.
  - unfold big_to_bytes_le in *. destruct (Z.eqb_spec n 0); [discriminate|]. intros C. rewrite C in H2. cbn in H2. congruence.
  - intros _. destruct (Z.eq_dec n 0) as [->|N]; [right; reflexivity|]. left. unfold big_bits. rewrite (proj2 (Z.eqb_neq n 0) N). pose proof (Z.log2_nonneg n). lia.
  - exists R. rewrite H2, Z.mod_small in AR by auto. auto.
Qed.
Lemma mul_small_ok E P n : wfc E -> onc E P -> (0 <= n < 2 ^ 64)%Z -> exists R, mul_small o E P n = Some R /\ aff R = pmul (AA E) n (aff P) /\ onc E R.
Proof.
  intros W HP Hn. unfold mul_small.
  destruct (Z.eqb_spec n 0) as [->|N0]. { exists (infinity o). split; [reflexivity|]. unfold onc. rewrite aff_infinity. split; [reflexivity|exact I]. }
  destruct (Z.eqb_spec n 1) as [->|N1]. { exists P. split; [reflexivity|]. split; [reflexivity|exact HP]. }
  destruct (Z.eqb_spec n 2) as [->|N2]. { exists (double_pt o E P). split; [reflexivity|]. split; [rewrite double_ok by auto; reflexivity|apply double_on; auto]. }
  destruct (Z.eqb_spec n 3) as [->|N3].
  { exists (add_pts o E (double_pt o E P) P). split; [reflexivity|]. split; [rewrite add_ok, double_ok by auto using double_on; reflexivity|auto using add_on, double_on]. }
  destruct (le_bytes_ok 8 n ltac:(lia)) as (H1 & H2 & H3). rewrite Bn_pow in H3. specialize (H3 (proj2 Hn)).
  pose proof (big_bits_spec n ltac:(lia)) as Hb. pose proof (big_bits_le n 64 Hn) as Hl.
  assert (Hl8 : (big_bits n <= 8 * length (le_bytes 8 n))%nat) by (rewrite H2; exact Hl).
  assert (Nl : le_bytes 8 n <> []) by (intros C; rewrite C in H2; discriminate).
  destruct (mul_ok E P (le_bytes 8 n) (big_bits n)) as (R & ER & AR & OR); auto.
  - intros _. left. unfold big_bits. rewrite (proj2 (Z.eqb_neq n 0) N0). pose proof (Z.log2_nonneg n). lia.
  - exists R. rewrite H3, Z.mod_small in AR by lia. auto.
Qed.

(** ** Membership checks and decompression *)
Lemma on_curve_ok E P : on_curve o E P = true <-> onc E P.
Proof.
  unfold on_curve, onc. pose proof (to_xy_ok P) as T. pose proof (isinfinity_ok P) as I0. destruct (isinfinity o P).
  - rewrite (proj1 I0 eq_refl). split; [intros _; exact I|reflexivity].
  - destruct (to_xy o P) as [x y]. cbn [fst snd] in T. destruct (aff P) as [[x' y']|]; [|destruct I0; discriminate (H0 eq_refl)]. destruct T as [<- <-].
    vs. rewrite keq_ok. unfold S_Curve.on. split; intros ->; ring.
Qed.
Lemma set_xy_ok E x y : (snd (set_xy o E x y) = true <-> on (AA E) (Some (v x, v y))) /\
  aff (fst (set_xy o E x y)) = if snd (set_xy o E x y) then Some (v x, v y) else None.
Proof.
  unfold set_xy. cbn [fst snd]. unfold aff. cbn [pX pY pZ]. vs. split.
  - rewrite keq_ok. unfold S_Curve.on. split; intros ->; ring.
  - destruct (keq _ _); cbn [negb]; [apply affk_S; [apply (one_nz FT)|ring|ring]|apply affk_0; reflexivity].
Qed.
Lemma set_xyz_ok E x y z : (snd (set_xyz o E x y z) = true <-> on (AA E) (affk (v x) (v y) (v z))) /\
  aff (fst (set_xyz o E x y z)) = if snd (set_xyz o E x y z) then affk (v x) (v y) (v z) else None.
Proof.
  unfold set_xyz. cbn [fst snd]. unfold aff. cbn [pX pY pZ]. vs. split.
  - rewrite orb_true_iff, !keq_ok. destruct (keqP (v z) 0) as [Z|Z]; [rewrite (affk_0 _ _ _ Z); split; [intros _; exact I|auto]|].
    set (Z' := affk _ _ _). assert (EZ : Z' = Some (v x / v z, v y / v z)) by (unfold Z', affk; rewrite kf by auto; reflexivity). rewrite EZ. unfold S_Curve.on. split.
    + intros [H|H]; [|contradiction]. apply (cancel FT (v z * (v z * v z))); [auto using nzm|].
      transitivity (v y * v y * v z); [field; auto|]. rewrite <- H. field. auto.
    + intros H. left. transitivity ((v z * (v z * v z)) * (v x / v z * (v x / v z * (v x / v z)) + AA E * (v x / v z * (v x / v z)) + v x / v z)); [field; auto|]. rewrite <- H. field. auto.
  - destruct (_ || _); cbn [negb]; [reflexivity|apply affk_0; reflexivity].
Qed.
Lemma complete_ok E P : let '(R, ok) := complete_pointX o E P in
  (v (xZ P) <> 0 -> (ok = true <-> exists y, on (AA E) (Some (v (xX P) / v (xZ P), y))) /\
     (ok = true -> exists y, aff R = Some (v (xX P) / v (xZ P), y) /\ onc E R) /\ (ok = false -> aff R = None)) /\
  (v (xZ P) = 0 -> ok = true /\ aff R = None).
Proof.
  unfold complete_pointX. set (arg := fmul o _ _). pose proof (l_sqrt _ _ _ _ _ _ _ _ _ _ _ L arg) as (S1 & S2 & S3). destruct (fsqrt o arg) as [y ok]. cbn [fst snd] in *.
  set (X := v (xX P)). set (Z := v (xZ P)). assert (Ea : v arg = (X * X + AA E * (X * Z) + Z * Z) * (X * Z)) by (unfold arg, X, Z; vs; ring).
  split; intros HZ.
  - assert (EQ : forall w, on (AA E) (Some (X / Z, w)) <-> (w * (Z * Z)) * (w * (Z * Z)) = v arg).
    { intros w. rewrite Ea. unfold S_Curve.on. split; intros H.
      - transitivity ((Z * Z * (Z * Z)) * (w * w)); [ring|]. rewrite H. field. auto.
      - apply (cancel FT (Z * Z * (Z * Z))); [auto using nzm|]. transitivity (w * (Z * Z) * (w * (Z * Z))); [ring|]. rewrite H. field. auto. }
    split; [|split].
    + rewrite S1. split.
      * intros [w Hw]. exists (w / (Z * Z)). apply EQ. rewrite <- Hw. field. auto.
      * intros [w Hw]. apply EQ in Hw. eexists. exact Hw.
    + intros Ok. specialize (S2 Ok). exists (v y / (Z * Z)).
      assert (ER : aff (mkPoint (fmul o (xX P) (xZ P)) y (fcond o (fsq o (xZ P)) (fzero o) (negb ok))) = Some (X / Z, v y / (Z * Z))).
      { unfold aff. cbn [pX pY pZ]. vs. rewrite Ok. cbn [negb]. fold X Z. apply affk_S; [auto using nzm|field; auto|field; auto]. }
      split; [exact ER|]. unfold onc. rewrite ER. apply EQ. rewrite <- S2. field. auto.
    + intros Ok. apply affk_0. cbn [pZ]. vs. rewrite Ok. reflexivity.
  - assert (Ok : ok = true). { apply S1. exists 0. rewrite Ea, HZ. ring. }
    split; [exact Ok|]. apply affk_0. cbn [pZ]. vs. rewrite Ok. cbn [negb]. fold Z. rewrite HZ. ring.
Qed.

(** ** j-invariant *)
Definition jinv (a : K) : K := let c := a * a - 3 in (4 * 4) * (4 * 4) * (c * c * c) / (a * a - 4).
Lemma j_ok E : v (j_invariant o E) = jinv (AA E).
Proof.
  unfold j_invariant, jinv. vs. rewrite !(l_pow_small _ _ _ _ _ _ _ _ _ _ _ L) by lia. vs. unfold kpow.
  change (Z.to_nat 8) with 8%nat. change (Z.to_nat 3) with 3%nat. unfold Nat.iter, nat_rect.
  rewrite !div_def. f_equal. ring.
Qed.
(** ** Isomorphisms *)
Lemma iso_relation a b : a * a <> 4 -> b * b <> 4 -> jinv a = jinv b -> a * a <> b * b ->
  let s := a * a - 3 in let t := b * b - 3 in s * t * (s + t) = s * s + s * t + t * t.
Proof.
  intros Na Nb J D s t. assert (Da : a * a - 4 <> 0) by (apply (sub_nz FT); auto). assert (Db : b * b - 4 <> 0) by (apply (sub_nz FT); auto).
  assert (N4 : 4 <> 0) by (apply (four_nz FT keq_ok two_nz)).
  assert (X : s * s * s * (b * b - 4) = t * t * t * (a * a - 4)).
  { apply (cancel FT ((4 * 4) * (4 * 4))); [auto using nzm|].
    assert (JJ : forall z, z * z - 4 <> 0 -> jinv z * (z * z - 4) = (4 * 4) * (4 * 4) * ((z * z - 3) * (z * z - 3) * (z * z - 3))).
    { intros z Nz. unfold jinv. cbv zeta. set (d := z * z - 4) in *. field. exact Nz. }
    transitivity (jinv a * (a * a - 4) * (b * b - 4)); [rewrite (JJ a Da); unfold s; ring|].
    rewrite J. transitivity (jinv b * (b * b - 4) * (a * a - 4)); [ring|]. rewrite (JJ b Db). unfold t. ring. }
  apply (cancel FT (s - t)). { unfold s, t. intros C. apply D. apply (sub_eq FT). rewrite <- C. ring. }
  assert (Y : s * s * s * (t - 1) = t * t * t * (s - 1)). { transitivity (s * s * s * (b * b - 4)); [unfold t; ring|rewrite X; unfold s; ring]. }
  apply (sub_eq FT). transitivity (s * s * s * (t - 1) - t * t * t * (s - 1)); [ring|]. rewrite Y. ring.
Qed.
(** with distinct squared coefficients, both non-zero, the affine map x -> u x + w sends the cubic of E onto u^3 times the cubic of E' *)
Lemma iso_cubic a b : a * a <> 4 -> b * b <> 4 -> jinv a = jinv b -> a * a <> b * b -> a <> 0 -> b <> 0 ->
  let vv := (a * a + 2 * (b * b) - 3 * 3) / (a * (3 - b * b)) in let u := (3 * vv + a) / b in
  forall x, let X := u * x + vv in X * (X * X) + a * (X * X) + X = u * (u * u) * (x * (x * x) + b * (x * x) + x).
Proof.
  intros Na Nb J D A0 B0 vv u x X. pose proof (iso_relation a b Na Nb J D) as R. cbv zeta in R. set (s := a * a - 3) in *. set (t := b * b - 3) in *.
  assert (T : t <> 0). { intros T. rewrite T in R. apply D. assert (s * s = 0) by (transitivity (s * s + s * 0 + 0 * 0); [ring|rewrite <- R; ring]).
    destruct (mul0 FT keq_ok _ _ H) as [Hs|Hs]; (transitivity (s + 3); [unfold s; ring|]; rewrite Hs; rewrite <- T; unfold t; ring). }
  assert (T' : 3 - b * b <> 0). { intros C. apply T. unfold t. transitivity (- (3 - b * b)); [ring|rewrite C; ring]. }
  assert (AV : a * vv * t = - (s + 2 * t)). { replace t with (- (3 - b * b)) at 1 by (unfold t; ring). unfold vv. set (d := 3 - b * b) in *. transitivity (- (a * a + 2 * (b * b) - 3 * 3)); [field; auto|unfold s, t; ring]. }
  assert (V1 : vv * vv + a * vv + 1 = 0).
  { apply (cancel FT (a * a * (t * t))); [auto using nzm|]. transitivity ((a * vv * t) * (a * vv * t) + a * a * t * (a * vv * t) + a * a * (t * t)); [ring|]. rewrite AV.
    transitivity (s * s + s * t + t * t - s * t * (s + t)); [unfold s, t; ring|]. rewrite R. ring. }
  assert (BU : b * u = 3 * vv + a) by (unfold u; field; auto).
  assert (U2 : u * u = 3 * (vv * vv) + 2 * a * vv + 1).
  { apply (cancel FT (b * b * t)); [auto using nzm|]. transitivity ((b * u) * (b * u) * t); [ring|]. rewrite BU.
    transitivity ((t + 3) * (3 * (vv * vv + a * vv + 1) * t - (a * vv * t) - 2 * t)); [|unfold t; ring]. rewrite V1, AV.
    transitivity (3 * 3 * (vv * vv + a * vv + 1) * t - 3 * (a * vv * t) + (a * a - 3 * 3) * t); [ring|]. rewrite V1, AV. unfold s. ring. }
  unfold X. transitivity (u * (u * u) * (x * (x * x)) + u * u * (3 * vv + a) * (x * x) + u * (3 * (vv * vv) + 2 * a * vv + 1) * x + vv * (vv * vv + a * vv + 1)); [ring|].
  rewrite <- BU, <- U2, V1. ring.
Qed.
Lemma iso_ok dbg D C : wfc D -> wfc C -> jinv (AA D) = jinv (AA C) -> AA D * AA D <> AA C * AA C -> AA D <> 0 -> AA C <> 0 ->
  exists f, iso_new o dbg D C = Some f /\
    (ksq kmul (v (iu f)) -> forall P, onc D P -> aff P <> None -> aff (iso_eval o f P) <> None /\ onc C (iso_eval o f P)).
Proof.
  intros WD WC J N A0 C0. unfold iso_new. rewrite (l_eqb _ _ _ _ _ _ _ _ _ _ _ L), !j_ok, J, kt, andb_false_r. cbv zeta. eexists. split; [reflexivity|]. cbn [iu].
  intros Sq P HP NP. unfold iso_eval. cbn [iu iv iw].
  pose proof (iso_cubic (AA C) (AA D) (proj2 WC) (proj2 WD) (eq_sym J) (not_eq_sym N) C0 A0) as IC. cbv zeta in IC.
  set (fv := fdiv o (fsub o _ _) _) in *. set (fu := fdiv o (fadd o _ _) _) in *. assert (Vv : v fv = (AA C * AA C + 2 * (AA D * AA D) - 3 * 3) / (AA C * (3 - AA D * AA D))) by (unfold fv; vs; reflexivity).
  assert (Vu : v fu = (3 * v fv + AA C) / AA D) by (unfold fu; vs; reflexivity). rewrite <- Vv, <- Vu in IC.
  pose proof (l_sqrt _ _ _ _ _ _ _ _ _ _ _ L (fmul o fu (fsq o fu))) as (S1 & S2 & _). set (w := fst (fsqrt o (fmul o fu (fsq o fu)))) in *.
  assert (S : v w * v w = v fu * (v fu * v fu)).
  { rewrite S2; [vs; reflexivity|]. apply S1. destruct Sq as [z Hz]. exists (z * z * z). vs. rewrite <- Hz. ring. }
  pose proof (to_xy_ok P) as T. destruct (to_xy o P) as [px py]. cbn [fst snd] in T. unfold onc in HP. destruct (aff P) as [[x y]|] eqn:EP; [|contradiction]. destruct T as [<- <-].
  unfold onc. rewrite aff_new_xy. split; [discriminate|]. unfold S_Curve.on in *. vs. rewrite IC, <- HP, <- S. ring.
Qed.

Lemma iso_shape dbg D C f : iso_new o dbg D C = Some f ->
  v (iv f) = (AA C * AA C + 2 * (AA D * AA D) - 3 * 3) / (AA C * (3 - AA D * AA D)) /\ v (iu f) = (3 * v (iv f) + AA C) / AA D /\
  (ksq kmul (v (iu f)) -> v (iw f) * v (iw f) = v (iu f) * (v (iu f) * v (iu f))) /\
  (forall P x y, aff P = Some (x, y) -> aff (iso_eval o f P) = Some (v (iu f) * x + v (iv f), v (iw f) * y)).
Proof.
  intros Ef. split; [|split; [|split]].
  - unfold iso_new in Ef. destruct (dbg && _); [discriminate|]. cbv zeta in Ef. injection Ef as <-. cbn [iv]. vs. reflexivity.
  - unfold iso_new in Ef. destruct (dbg && _); [discriminate|]. cbv zeta in Ef. injection Ef as <-. cbn [iu iv]. set (fv := fdiv o (fsub o _ _) _). vs. reflexivity.
  - unfold iso_new in Ef. destruct (dbg && _); [discriminate|]. cbv zeta in Ef. injection Ef as <-. cbn [iu iw]. set (fu := fdiv o (fadd o _ _) _). intros [z Hz].
    pose proof (l_sqrt _ _ _ _ _ _ _ _ _ _ _ L (fmul o fu (fsq o fu))) as (S1 & S2 & _). rewrite S2; [vs; reflexivity|]. apply S1. exists (z * z * z). vs. rewrite <- Hz. ring.
  - intros P x y EP. unfold iso_eval. pose proof (to_xy_ok P) as T. rewrite EP in T. destruct (to_xy o P) as [px py]. cbn [fst snd] in T. destruct T as [<- <-]. rewrite aff_new_xy. vs. reflexivity.
Qed.
Lemma iso_same dbg D : exists f, iso_new o dbg D D = Some f.
Proof. unfold iso_new. rewrite (l_eqb _ _ _ _ _ _ _ _ _ _ _ L), kt, andb_false_r. eexists. reflexivity. Qed.

(** ** Sampling *)
Lemma rhs_v A x : v (rhs o A x) = v x * (v x * v x) + v A * (v x * v x) + v x. Proof. unfold rhs. vs. ring. Qed.
Lemma legendre_sq x : (0 <=? fleg o x)%Z = true -> v (fst (fsqrt o x)) * v (fst (fsqrt o x)) = v x.
Proof.
  intros H. destruct (l_leg _ _ _ _ _ _ _ _ _ _ _ L x) as (_ & _ & H3). destruct (l_sqrt _ _ _ _ _ _ _ _ _ _ _ L x) as (S1 & S2 & _). apply S2, S1.
  destruct (l_ksq_dec _ _ _ _ _ _ _ _ _ _ _ L (v x)) as [Y|N]; [exact Y|]. rewrite (H3 N) in H. discriminate.
Qed.
Lemma rand_point_ok E : forall fuel rng R rng', rand_point o fuel E rng = Some (R, rng') -> onc E R /\ aff R <> None.
Proof.
  induction fuel as [|f IH]; intros rng R rng' H; [discriminate|]. cbn [rand_point] in H. destruct (frand o rng) as [[x r]|]; [|discriminate].
  destruct (0 <=? fleg o (rhs o (cA E) x))%Z eqn:EL; [|apply (IH _ _ _ H)]. destruct r as [|[|b r0] r]; try discriminate. injection H as <- _.
  pose proof (legendre_sq _ EL) as S. rewrite rhs_v in S.
  assert (EA : forall y b, aff (mkPoint x (fcneg o y b) (fone o)) = Some (v x, if b : bool then - v y else v y)) by (intros y c; apply affk_S; cbn [pX pY pZ]; vs; [apply (one_nz FT)|ring|ring]).
  unfold onc. rewrite EA. split; [|discriminate]. unfold S_Curve.on. rewrite <- S. destruct (Z.odd b); ring.
Qed.
(** the iterator returns the point with the first abscissa x, x+1, ... that lifts, and stops after 1000 abscissas *)
Lemma iter_loop_ok A : forall t x, match iter_loop o t A x with
  | Some (R, x') => exists k x0, (k < t)%nat /\ v x0 = Nat.iter k (fun z => z + 1) (v x) /\ v x' = v x0 + 1 /\ (exists y, aff R = Some (v x0, y) /\ on (v A) (aff R)) /\
      forall j, (j < k)%nat -> forall y, ~ on (v A) (Some (Nat.iter j (fun z => z + 1) (v x), y))
  | None => forall j, (j < t)%nat -> forall y, ~ on (v A) (Some (Nat.iter j (fun z => z + 1) (v x), y)) end.
Proof.
  induction t as [|t IH]; intros x; [intros j Hj; lia|]. cbn [iter_loop].
  assert (NS : (0 <=? fleg o (rhs o A x))%Z = false -> forall y, ~ on (v A) (Some (v x, y))).
  { intros EL y H. destruct (l_leg _ _ _ _ _ _ _ _ _ _ _ L (rhs o A x)) as (H1 & H2 & _). destruct (keq_dec keq_ok (v (rhs o A x)) 0) as [Z|Z]; [rewrite (H1 Z) in EL; discriminate|].
    rewrite (H2 Z) in EL; [discriminate|]. exists y. rewrite rhs_v. exact H. }
  destruct (0 <=? fleg o (rhs o A x))%Z eqn:EL.
  - pose proof (legendre_sq _ EL) as S. rewrite rhs_v in S. exists 0%nat, x. split; [lia|]. split; [reflexivity|]. split; [vs; reflexivity|]. split; [|intros; lia].
    exists (v (fst (fsqrt o (rhs o A x)))). assert (EA : aff (mkPoint x (fst (fsqrt o (rhs o A x))) (fone o)) = Some (v x, v (fst (fsqrt o (rhs o A x))))) by (apply affk_S; cbn [pX pY pZ]; vs; [apply (one_nz FT)|ring|ring]).
    rewrite EA. split; [reflexivity|exact S].
  - specialize (IH (fadd o x (fone o))). specialize (NS eq_refl).
    assert (Sh : forall j, Nat.iter j (fun z => z + 1) (v (fadd o x (fone o))) = Nat.iter (S j) (fun z => z + 1) (v x)).
    { induction j as [|j IHj]; [vs; reflexivity|]. change (Nat.iter (S j) (fun z => z + 1) (v (fadd o x (fone o)))) with (Nat.iter j (fun z => z + 1) (v (fadd o x (fone o))) + 1). rewrite IHj. reflexivity. }
    destruct (iter_loop o t A (fadd o x (fone o))) as [[R x']|].
    + destruct IH as (k & x0 & Hk & E0 & E1 & HR & HN). exists (S k), x0. split; [lia|]. split; [rewrite E0; apply Sh|]. split; [exact E1|]. split; [exact HR|].
      intros [|j] Hj; [exact NS|]. rewrite <- Sh. apply HN. lia.
    + intros [|j] Hj; [exact NS|]. rewrite <- Sh. apply IH. lia.
Qed.
End Curve.
