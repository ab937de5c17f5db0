(** The theta coordinate functions of M_Theta.v against S_Theta.v, for every field implementation satisfying [flaws]. *)
From Coq Require Import Arith ZArith List Bool Ring Field Lia.
From Verif Require Import M_Fp M_Field M_Curve M_Theta S_Curve S_Theta L_Group L_Field L_Curve.
Import ListNotations.
Definition crd {F} (P : tpoint F) (i : nat) : F := match i with 0 => tX P | 1 => tY P | 2 => tZ P | _ => tT P end%nat.

Section Theta.
Context {F : Type} {o : fops F}.
Context {K : Type} {k0 k1 : K} {kadd kmul ksub : K -> K -> K} {kopp : K -> K} {kdiv : K -> K -> K} {kinv : K -> K} {keq : K -> K -> bool} {v : F -> K}.
Context (L : flaws o k0 k1 kadd kmul ksub kopp kdiv kinv keq v).
Let FT := l_ft _ _ _ _ _ _ _ _ _ _ _ L.
Let keq_ok := l_keq _ _ _ _ _ _ _ _ _ _ _ L.
Let two_nz := l_two_nz _ _ _ _ _ _ _ _ _ _ _ L.
Add Field Kfield : FT.
Local Notation "0" := k0. Local Notation "1" := k1.
Local Notation "2" := (kadd k1 k1). Local Notation "4" := (kadd (kadd k1 k1) (kadd k1 k1)).
Local Infix "+" := kadd. Local Infix "*" := kmul. Local Infix "-" := ksub. Local Infix "/" := kdiv. Local Notation "- x" := (kopp x).
Local Notation dual := (dual kadd kopp). Local Notation sqdual := (sqdual kadd kmul kopp). Local Notation theta_dbl := (theta_dbl kadd kmul kopp kdiv).
Local Notation theta_image := (theta_image kadd kmul kopp kdiv). Local Notation level22 := (level22 kadd kmul kopp). Local Notation splits := (splits kmul).

Ltac vs := repeat first
  [ rewrite (l_add _ _ _ _ _ _ _ _ _ _ _ L) | rewrite (l_sub _ _ _ _ _ _ _ _ _ _ _ L) | rewrite (l_mul _ _ _ _ _ _ _ _ _ _ _ L)
  | rewrite (l_sq _ _ _ _ _ _ _ _ _ _ _ L) | rewrite (l_neg _ _ _ _ _ _ _ _ _ _ _ L) | rewrite (l_inv _ _ _ _ _ _ _ _ _ _ _ L) | rewrite (l_div _ _ _ _ _ _ _ _ _ _ _ L)
  | rewrite (l_zero _ _ _ _ _ _ _ _ _ _ _ L) | rewrite (l_one _ _ _ _ _ _ _ _ _ _ _ L) | rewrite (l_two _ _ _ _ _ _ _ _ _ _ _ L)
  | rewrite (l_is0 _ _ _ _ _ _ _ _ _ _ _ L) | rewrite (l_eqb _ _ _ _ _ _ _ _ _ _ _ L)
  | rewrite (l_cond _ _ _ _ _ _ _ _ _ _ _ L) | rewrite (l_cneg _ _ _ _ _ _ _ _ _ _ _ L) ].
Definition tv (P : tpoint F) (i : nat) : K := v (crd P i).
Ltac four i H := destruct i as [|[|[|[|i]]]]; [| | | |exfalso; lia]; clear H.
Ltac calc := cbn [Nat.div Nat.divmod fst snd Nat.odd Nat.even negb andb xorb].

Lemma had_ok P i : (i < 4)%nat -> tv (to_hadamard o P) i = dual (tv P) i.
Proof. intros H. four i H; unfold tv, S_Theta.dual, sum4, sgn, dot; cbn; vs; ring. Qed.
Lemma sq_ok P i : (i < 4)%nat -> tv (to_squared_theta o P) i = sqdual (tv P) i.
Proof. intros H. unfold to_squared_theta. rewrite had_ok by auto. four i H; unfold tv, S_Theta.sqdual, S_Theta.dual, sum4, sgn, dot; cbn; vs; ring. Qed.
Lemma dual_dual x i : (i < 4)%nat -> dual (dual x) i = 4 * x i.
Proof. intros H. four i H; unfold S_Theta.dual, sum4, sgn, dot; cbn; ring. Qed.
Lemma dual_ext x y i : (forall j, (j < 4)%nat -> x j = y j) -> dual x i = dual y i.
Proof. intros H. unfold S_Theta.dual, sum4. rewrite !H by lia. reflexivity. Qed.
Lemma dual_scale c x i : dual (fun j => c * x j) i = c * dual x i.
Proof. unfold S_Theta.dual, sum4, sgn. destruct (dot i 0), (dot i 1), (dot i 2), (dot i 3); ring. Qed.
Lemma had_twice P i : (i < 4)%nat -> tv (to_hadamard o (to_hadamard o P)) i = 4 * tv P i.
Proof. intros H. rewrite had_ok by auto. rewrite <- (dual_dual (tv P) i H). apply dual_ext. intros j Hj. apply had_ok; auto. Qed.

(** precomputed constants and doubling *)
Definition pre (T : tstruct F) (i : nat) : K := match i with O => k1 | S O => v (ts_y0 T) | S (S O) => v (ts_z0 T) | _ => v (ts_t0 T) end.
Definition preD (T : tstruct F) (i : nat) : K := match i with O => k1 | S O => v (ts_Y0 T) | S (S O) => v (ts_Z0 T) | _ => v (ts_T0 T) end.
Lemma pre_ok O0 i : (1 <= i < 4)%nat -> pre (ts_new o O0) i = tv O0 0 * kinv (tv O0 i) /\ preD (ts_new o O0) i = sqdual (tv O0) 0 * kinv (sqdual (tv O0) i).
Proof.
  intros H. rewrite <- !sq_ok by lia. destruct i as [|[|[|[|i]]]]; try lia; clear H; split; unfold pre, preD, ts_new, precomputation, tv; cbn [ts_y0 ts_z0 ts_t0 ts_Y0 ts_Z0 ts_T0 crd]; vs; reflexivity.
Qed.
Lemma inv_0 : kinv 0 = 0. Proof. exact (l_inv0 _ _ _ _ _ _ _ _ _ _ _ L). Qed.
Lemma div_def x y : x / y = x * kinv y. Proof. exact (Fdiv_def FT x y). Qed.
Definition wf_null (a : nat -> K) : Prop := (forall i, (i < 4)%nat -> a i <> 0) /\ (forall i, (i < 4)%nat -> sqdual a i <> 0).
Lemma double_ok O0 P i : wf_null (tv O0) -> (i < 4)%nat -> tv (theta_double o (ts_new o O0) P) i = tv O0 0 * sqdual (tv O0) 0 * theta_dbl (tv O0) (tv P) i.
Proof.
  intros [N1 N2] H. set (S := ts_new o O0). set (a := tv O0) in *.
  assert (Hp : forall j, (j < 4)%nat -> pre S j = a 0%nat / a j). { intros j Hj. destruct j; [cbn [pre]; field; apply N1; lia|]. rewrite div_def. apply pre_ok. lia. }
  assert (HD : forall j, (j < 4)%nat -> preD S j = sqdual a 0%nat / sqdual a j). { intros j Hj. destruct j; [cbn [preD]; field; apply N2; lia|]. rewrite div_def. apply pre_ok. lia. }
  assert (E : tv (theta_double o S P) i = pre S i * dual (fun j => preD S j * (sqdual (tv P) j * sqdual (tv P) j)) i).
  { unfold theta_double. set (Q := to_squared_theta o P). set (Hm := to_hadamard o _).
    assert (EH : forall j, (j < 4)%nat -> tv Hm j = dual (fun j => preD S j * (sqdual (tv P) j * sqdual (tv P) j)) j).
    { intros j Hj. unfold Hm. rewrite had_ok by auto. apply dual_ext. intros k Hk. rewrite <- sq_ok by auto. fold Q. four k Hk; unfold tv; cbn [crd tX tY tZ tT preD]; vs; ring. }
    rewrite <- EH by auto. four i H; unfold tv; cbn [crd tX tY tZ tT pre]; vs; ring. }
  rewrite E, Hp by auto. unfold S_Theta.theta_dbl. rewrite !div_def.
  rewrite (dual_ext _ (fun j => sqdual a 0%nat * (sqdual (tv P) j * sqdual (tv P) j / sqdual a j))).
  - rewrite dual_scale. ring. - intros j Hj. rewrite HD by auto. field. apply N2. exact Hj.
Qed.

(** level (2,2) constants *)
Lemma chi_ok x y : (x < 4)%nat -> (y < 4)%nat -> chi_eval x y = dot x y.
Proof. intros Hx Hy. four x Hx; four y Hy; reflexivity. Qed.
Lemma level22_ok N chi i : (chi < 4)%nat -> (i < 4)%nat -> v (level_22_constants_sqr o N chi i) = level22 (tv N) chi i.
Proof.
  intros Hc Hi. unfold level_22_constants_sqr. cbn [fold_left]. vs. unfold S_Theta.level22, sum4, sgn. rewrite !chi_ok by lia.
  four i Hi; four chi Hc; unfold dot, tv; cbn; vs; ring.
Qed.

Lemma is0P x : reflect (v x = 0) (fis0 o x).
Proof. rewrite (l_is0 _ _ _ _ _ _ _ _ _ _ _ L). destruct (keq (v x) 0) eqn:E; constructor; [apply keq_ok; auto|intros H; apply keq_ok in H; congruence]. Qed.
(* exactly one even constant vanishes *)
Definition one_zero (a : nat -> K) (c0 i0 : nat) : Prop :=
  even_index c0 i0 /\ forall chi i, even_index chi i -> (level22 a chi i = 0 <-> (chi, i) = (c0, i0)).
Lemma even_in chi i : even_index chi i <-> In (chi, i) even_indices.
Proof.
  split.
  - intros (H1 & H2 & H3). four chi H1; four i H2; cbn in H3; try discriminate; cbn; auto 20.
  - unfold even_indices. intros H. cbn in H. repeat destruct H as [H|H]; try contradiction; inversion H; subst; repeat split; lia.
Qed.
Lemma even_index_ok N c0 i0 : one_zero (tv N) c0 i0 -> identify_even_index o N = (c0, i0).
Proof.
  intros [HE H]. unfold identify_even_index.
  assert (HB : forall chi i, In (chi, i) even_indices -> fis0 o (level_22_constants_sqr o N chi i) = (Nat.eqb chi c0 && Nat.eqb i i0)).
  { intros chi i Hin. apply even_in in Hin. pose proof (H chi i Hin) as Hz. destruct Hin as (B1 & B2 & B3). destruct (is0P (level_22_constants_sqr o N chi i)) as [Hv|Hv]; rewrite level22_ok in Hv by lia.
    - apply Hz in Hv. injection Hv as -> ->. rewrite !Nat.eqb_refl. reflexivity.
    - symmetry. apply andb_false_iff. destruct (Nat.eqb_spec chi c0); [|auto]. destruct (Nat.eqb_spec i i0); [|auto]. subst. exfalso. apply Hv, Hz. reflexivity. }
  assert (G : forall l r, (forall ci, In ci l -> In ci even_indices) ->
    fold_left (fun r ci => if fis0 o (level_22_constants_sqr o N (fst ci) (snd ci)) then (Nat.lor (fst r) (fst ci), Nat.lor (snd r) (snd ci)) else r) l r =
    if existsb (fun ci => Nat.eqb (fst ci) c0 && Nat.eqb (snd ci) i0) l then (Nat.lor (fst r) c0, Nat.lor (snd r) i0) else r).
  { induction l as [|[chi i] l IH]; intros r Hl; [reflexivity|]. cbn [fold_left existsb fst snd]. rewrite (HB chi i) by (apply Hl; left; reflexivity).
    destruct (Nat.eqb chi c0 && Nat.eqb i i0) eqn:E; cbn [orb]; rewrite IH by (intros ci Hci; apply Hl; right; exact Hci); [|reflexivity].
    apply andb_true_iff in E. destruct E as [E1 E2]. apply Nat.eqb_eq in E1, E2. subst chi i. cbn [fst snd]. destruct (existsb _ l); [|reflexivity]. rewrite <- !Nat.lor_assoc, !Nat.lor_diag. reflexivity. }
  rewrite G by auto. apply even_in in HE. replace (existsb _ even_indices) with true; [cbn [fst snd]; rewrite !Nat.lor_0_l; reflexivity|]. symmetry. apply existsb_exists. exists (c0, i0). split; [exact HE|]. cbn [fst snd]. rewrite !Nat.eqb_refl. reflexivity.
Qed.
Lemma map_crd P M i : (i < 4)%nat -> tv (apply_base_change o P M) i =
  v (nth (4 * i) M (fzero o)) * tv P 0 + v (nth (4 * i + 1) M (fzero o)) * tv P 1 + v (nth (4 * i + 2) M (fzero o)) * tv P 2 + v (nth (4 * i + 3) M (fzero o)) * tv P 3.
Proof. intros H. unfold apply_base_change, tv. four i H; cbn [crd tX tY tZ tT Nat.mul Nat.add]; vs; reflexivity. Qed.
Lemma half0 x : 2 * x = 0 -> x = 0. Proof. intros H. destruct (mul0 FT keq_ok _ _ H); auto. contradiction. Qed.
Lemma split_eq x y : 2 * (x - y) = 0 -> x = y. Proof. intros H. apply half0 in H. apply (sub_eq FT). exact H. Qed.
Ltac mults U H := first [transitivity U; [ring|exact H] | transitivity (- U); [ring|rewrite H; ring] | transitivity (2 * U); [ring|rewrite H; ring] | transitivity (- (2 * U)); [ring|rewrite H; ring]
  | transitivity (4 * U); [ring|rewrite H; ring] | transitivity (- (4 * U)); [ring|rewrite H; ring]].
Ltac vsin H := repeat first [rewrite (l_neg _ _ _ _ _ _ _ _ _ _ _ L) in H | rewrite (l_one _ _ _ _ _ _ _ _ _ _ _ L) in H | rewrite (l_zero _ _ _ _ _ _ _ _ _ _ _ L) in H].
Ltac comb s0 s1 s2 s3 A0 A1 A2 A3 := first [
    transitivity (k0 + s0  + s1  + s2  + s3); [ring|rewrite ?A0, ?A1, ?A2, ?A3; ring]
  | transitivity (k0 + s0  + s1  + s2  - s3); [ring|rewrite ?A0, ?A1, ?A2, ?A3; ring]
  | transitivity (k0 + s0  + s1  - s2  + s3); [ring|rewrite ?A0, ?A1, ?A2, ?A3; ring]
  | transitivity (k0 + s0  + s1  - s2  - s3); [ring|rewrite ?A0, ?A1, ?A2, ?A3; ring]
  | transitivity (k0 + s0  - s1  + s2  + s3); [ring|rewrite ?A0, ?A1, ?A2, ?A3; ring]
  | transitivity (k0 + s0  - s1  + s2  - s3); [ring|rewrite ?A0, ?A1, ?A2, ?A3; ring]
  | transitivity (k0 + s0  - s1  - s2  + s3); [ring|rewrite ?A0, ?A1, ?A2, ?A3; ring]
  | transitivity (k0 + s0  - s1  - s2  - s3); [ring|rewrite ?A0, ?A1, ?A2, ?A3; ring]
  | transitivity (k0 - s0  + s1  + s2  + s3); [ring|rewrite ?A0, ?A1, ?A2, ?A3; ring]
  | transitivity (k0 - s0  + s1  + s2  - s3); [ring|rewrite ?A0, ?A1, ?A2, ?A3; ring]
  | transitivity (k0 - s0  + s1  - s2  + s3); [ring|rewrite ?A0, ?A1, ?A2, ?A3; ring]
  | transitivity (k0 - s0  + s1  - s2  - s3); [ring|rewrite ?A0, ?A1, ?A2, ?A3; ring]
  | transitivity (k0 - s0  - s1  + s2  + s3); [ring|rewrite ?A0, ?A1, ?A2, ?A3; ring]
  | transitivity (k0 - s0  - s1  + s2  - s3); [ring|rewrite ?A0, ?A1, ?A2, ?A3; ring]
  | transitivity (k0 - s0  - s1  - s2  + s3); [ring|rewrite ?A0, ?A1, ?A2, ?A3; ring]
  | transitivity (k0 - s0  - s1  - s2  - s3); [ring|rewrite ?A0, ?A1, ?A2, ?A3; ring]
  | transitivity (4 * s0); [ring|rewrite ?A0, ?A1, ?A2, ?A3; ring]
  | transitivity (- (4 * s0)); [ring|rewrite ?A0, ?A1, ?A2, ?A3; ring]
  | transitivity (4 * s1); [ring|rewrite ?A0, ?A1, ?A2, ?A3; ring]
  | transitivity (- (4 * s1)); [ring|rewrite ?A0, ?A1, ?A2, ?A3; ring]
  | transitivity (4 * s2); [ring|rewrite ?A0, ?A1, ?A2, ?A3; ring]
  | transitivity (- (4 * s2)); [ring|rewrite ?A0, ?A1, ?A2, ?A3; ring]
  | transitivity (4 * s3); [ring|rewrite ?A0, ?A1, ?A2, ?A3; ring]
  | transitivity (- (4 * s3)); [ring|rewrite ?A0, ?A1, ?A2, ?A3; ring] ].
Lemma splitting_ok N c0 i0 : one_zero (tv N) c0 i0 -> (c0, i0) <> (0, 0)%nat ->
  exists M, compute_splitting_matrix o N = Some M /\ splits (tv (apply_base_change o N M)) /\
    (forall P, (forall i, (i < 4)%nat -> tv (apply_base_change o P M) i = 0) -> forall i, (i < 4)%nat -> tv P i = 0).
Proof.
  intros H1 Hn. unfold compute_splitting_matrix. rewrite (even_index_ok _ _ _ H1). destruct H1 as [HE H]. pose proof (proj2 (H c0 i0 HE) eq_refl) as HU. clear H.
  apply even_in in HE. cbn in HE. repeat destruct HE as [HE|HE]; try contradiction; injection HE as <- <-; try (exfalso; apply Hn; reflexivity); clear Hn; cbn [splitting_location];
    (eexists; split; [reflexivity|split]).
  all: try (unfold S_Theta.splits; rewrite !map_crd by lia; cbn [splitting_map Nat.mul Nat.add nth]; vs; unfold S_Theta.level22, sum4, sgn, dot in HU; cbn in HU;
     generalize dependent (tv N 0%nat); generalize dependent (tv N 1%nat); generalize dependent (tv N 2%nat); generalize dependent (tv N 3%nat); intros d c b a HU; apply split_eq; match type of HU with ?U = _ => mults U HU end).
  all: intros P HP; pose proof (HP 0%nat ltac:(lia)) as A0; pose proof (HP 1%nat ltac:(lia)) as A1; pose proof (HP 2%nat ltac:(lia)) as A2; pose proof (HP 3%nat ltac:(lia)) as A3; clear HP HU;
    rewrite map_crd in A0, A1, A2, A3 by lia; cbn [splitting_map Nat.mul Nat.add nth] in A0, A1, A2, A3;
    vsin A0; vsin A1; vsin A2; vsin A3;
    match type of A0 with ?s0 = _ => match type of A1 with ?s1 = _ => match type of A2 with ?s2 = _ => match type of A3 with ?s3 = _ =>
    intros i Hi; four i Hi; apply half0, half0; comb s0 s1 s2 s3 A0 A1 A2 A3 end end end end.
Qed.

(** (2,2)-isogenies.  [A]: dual null point of the domain up to signs, so that A^2 = sqdual a; the squared theta coordinates of the two 8-torsion
    points are (x A0, x A1, ..) and (z A0, t A1, z A2, t A3) *)
Definition kernel8 (A : nat -> K) (s1 s2 : nat -> K) : Prop :=
  exists x z t, x <> 0 /\ z <> 0 /\ t <> 0 /\ s1 0%nat = x * A 0%nat /\ s1 1%nat = x * A 1%nat /\ s2 0%nat = z * A 0%nat /\ s2 1%nat = t * A 1%nat /\ s2 2%nat = z * A 2%nat /\ s2 3%nat = t * A 3%nat.
Lemma finv_nz x : v x <> 0 -> v (finv o x) = 1 / v x. Proof. intros H. vs. field. exact H. Qed.
Lemma kernel8_BCD A s1 s2 : (forall i, (i < 4)%nat -> A i <> 0) -> kernel8 A (tv s1) (tv s2) ->
  v (fmul o (tY s1) (finv o (tX s1))) = A 1%nat / A 0%nat /\ v (fmul o (tZ s2) (finv o (tX s2))) = A 2%nat / A 0%nat /\
  v (fmul o (fmul o (tT s2) (finv o (tY s2))) (fmul o (tY s1) (finv o (tX s1)))) = A 3%nat / A 0%nat /\
  v (fmul o (tX s1) (finv o (tY s1))) = A 0%nat / A 1%nat /\ v (fmul o (tX s2) (finv o (tZ s2))) = A 0%nat / A 2%nat /\
  v (fmul o (fmul o (tY s2) (finv o (tT s2))) (fmul o (tX s1) (finv o (tY s1)))) = A 0%nat / A 3%nat.
Proof.
  intros N (x & z & t & Nx & Nz & Nt & E1 & E2 & E3 & E4 & E5 & E6). unfold tv in *. cbn [crd] in *.
  pose proof (N 0%nat ltac:(lia)) as N0. pose proof (N 1%nat ltac:(lia)) as N1. pose proof (N 2%nat ltac:(lia)) as N2. pose proof (N 3%nat ltac:(lia)) as N3.
  vs. rewrite E1, E2, E3, E4, E5, E6. repeat split; field; repeat split; assumption.
Qed.
Lemma two_isogeny_ok O0 T1 T2 pts A e : e <> 0 -> wf_null (tv O0) -> (forall i, (i < 4)%nat -> A i <> 0) -> (forall i, (i < 4)%nat -> sqdual (tv O0) i = e * (A i * A i)) ->
  kernel8 A (sqdual (tv T1)) (sqdual (tv T2)) -> forall i, (i < 4)%nat ->
  let '(dom, imgs) := two_isogeny o (ts_new o O0) T1 T2 pts false true in
  dom = ts_new o (ts_null dom) /\ tv (ts_null dom) i = dual A i / A 0%nat /\
  length imgs = length pts /\ forall k P, nth_error pts k = Some P -> exists Q, nth_error imgs k = Some Q /\ tv Q i = A 0%nat * theta_image A (tv P) i.
Proof.
  intros Ne W N HA HK i Hi. unfold two_isogeny. set (s1 := to_squared_theta o T1). set (s2 := to_squared_theta o T2).
  assert (HK' : kernel8 A (tv s1) (tv s2)). { destruct HK as (x & z & t & Nx & Nz & Nt & E1 & E2 & E3 & E4 & E5 & E6). exists x, z, t. unfold s1, s2. rewrite !sq_ok by lia. tauto. }
  destruct (kernel8_BCD A s1 s2 N HK') as (EB & EC & ED & _). set (B := fmul o (tY s1) _) in *. set (C := fmul o (tZ s2) _) in *. set (Dd := fmul o (fmul o (tT s2) _) B) in *.
  destruct (pre_ok O0 1 ltac:(lia)) as [_ P1]. destruct (pre_ok O0 2 ltac:(lia)) as [_ P2]. destruct (pre_ok O0 3 ltac:(lia)) as [_ P3]. cbn [preD] in P1, P2, P3.
  rewrite !HA in P1, P2, P3 by lia. pose proof (N 0%nat ltac:(lia)) as N0. pose proof (N 1%nat ltac:(lia)) as N1. pose proof (N 2%nat ltac:(lia)) as N2. pose proof (N 3%nat ltac:(lia)) as N3.
  split; [reflexivity|]. split; [|split; [apply map_length|]].
  - change (tv (to_hadamard o (mkT (fone o) B C Dd)) i = dual A i / A 0%nat). rewrite had_ok by auto. rewrite div_def, (dual_ext _ (fun j => kinv (A 0%nat) * A j)).
    + rewrite dual_scale. ring. + intros j Hj. four j Hj; unfold tv; cbn [crd tX tY tZ tT]; [rewrite (l_one _ _ _ _ _ _ _ _ _ _ _ L)|rewrite EB|rewrite EC|rewrite ED]; field; assumption.
  - intros k P HP. rewrite nth_error_map, HP. cbn [option_map]. eexists. split; [reflexivity|]. rewrite had_ok by auto. unfold S_Theta.theta_image. rewrite <- dual_scale. apply dual_ext. intros j Hj.
    rewrite <- sq_ok by auto. four j Hj; unfold tv; cbn [crd tX tY tZ tT]; vs; [field; auto|rewrite P1, EB|rewrite P2, EC|rewrite P3, ED]; field; auto.
Qed.
(* doubling is the isogeny followed by its dual *)
Lemma double_via_image A a x i : (forall j, (j < 4)%nat -> A j <> 0 /\ sqdual a j = A j * A j) -> a i <> 0 -> (i < 4)%nat ->
  4 * (4 * theta_dbl a x i) * a i = dual (fun chi => dual (theta_image A x) chi * dual (theta_image A x) chi) i.
Proof.
  intros HA Na Hi. unfold S_Theta.theta_dbl. rewrite div_def. rewrite (dual_ext (fun chi => dual (theta_image A x) chi * dual (theta_image A x) chi) (fun chi => 4 * 4 * (sqdual x chi * sqdual x chi / sqdual a chi))).
  - rewrite dual_scale. transitivity (4 * 4 * dual (fun chi => sqdual x chi * sqdual x chi / sqdual a chi) i * (kinv (a i) * a i)); [ring|]. replace (kinv (a i) * a i) with k1; [ring|]. field. exact Na.
  - intros j Hj. unfold S_Theta.theta_image. rewrite dual_dual by auto. destruct (HA j Hj) as [N E]. rewrite E. field. exact N.
Qed.
(* the last step: no final transform, kernel given after a Hadamard transform *)
Lemma to_product_ok T1 T2 pts A : (forall i, (i < 4)%nat -> A i <> 0) -> kernel8 A (sqdual (dual (tv T1))) (sqdual (dual (tv T2))) -> forall i, (i < 4)%nat ->
  let '(dom, imgs) := two_isogeny_to_product o T1 T2 pts in
  dom = ts_new o (ts_null dom) /\ tv (ts_null dom) i = A i / A 0%nat /\
  length imgs = length pts /\ forall k P, nth_error pts k = Some P -> exists Q, nth_error imgs k = Some Q /\ tv Q i = A 0%nat * (sqdual (dual (tv P)) i / A i).
Proof.
  intros N HK i Hi. unfold two_isogeny_to_product. set (s1 := to_squared_theta o (to_hadamard o T1)). set (s2 := to_squared_theta o (to_hadamard o T2)).
  assert (HS : forall P j, (j < 4)%nat -> tv (to_squared_theta o (to_hadamard o P)) j = sqdual (dual (tv P)) j).
  { intros P j Hj. rewrite sq_ok by auto. unfold S_Theta.sqdual. apply dual_ext. intros k Hk. rewrite had_ok by auto. reflexivity. }
  assert (HK' : kernel8 A (tv s1) (tv s2)). { destruct HK as (x & z & t & Nx & Nz & Nt & E1 & E2 & E3 & E4 & E5 & E6). exists x, z, t. unfold s1, s2. rewrite !HS by lia. tauto. }
  destruct (kernel8_BCD A s1 s2 N HK') as (EB & EC & ED & FB & FC & FD).
  pose proof (N 0%nat ltac:(lia)) as N0. pose proof (N 1%nat ltac:(lia)) as N1. pose proof (N 2%nat ltac:(lia)) as N2. pose proof (N 3%nat ltac:(lia)) as N3.
  split; [reflexivity|]. split; [|split; [apply map_length|]].
  - four i Hi; unfold tv; cbn [crd ts_null ts_new precomputation tX tY tZ tT]; [rewrite (l_one _ _ _ _ _ _ _ _ _ _ _ L); field; auto|exact EB|exact EC|exact ED].
  - intros k P HP. rewrite nth_error_map, HP. cbn [option_map]. eexists. split; [reflexivity|]. rewrite <- HS by auto. unfold tv.
    four i Hi; cbn [crd tX tY tZ tT]; [field; auto| | |]; rewrite (l_mul _ _ _ _ _ _ _ _ _ _ _ L); [rewrite FB|rewrite FC|rewrite FD]; field; auto.
Qed.

(** dimension one: from theta coordinates to the Montgomery model *)
Definition dbl1 (a b U V : K) : K * K :=
  let P := (U * U + V * V) * (U * U + V * V) / (a * a + b * b) in let M := (U * U - V * V) * (U * U - V * V) / (a * a - b * b) in
  ((P + M) / a, (P - M) / b).
Lemma montgomery_ok a b : v a <> 0 -> v b <> 0 -> v a * v a + v b * v b <> 0 -> v a * v a - v b * v b <> 0 ->
  exists E, null_point_to_montgomery_curve o (a, b) = Some E /\ v (xZ (theta_point_to_montgomery_point o (a, b) (a, b))) = 0 /\
  forall U V U2 V2 c, v U2 = c * fst (dbl1 (v a) (v b) (v U) (v V)) -> v V2 = c * snd (dbl1 (v a) (v b) (v U) (v V)) ->
    let P := theta_point_to_montgomery_point o (a, b) (U, V) in let Q := theta_point_to_montgomery_point o (a, b) (U2, V2) in
    let '(X, Z) := xdbl o E (xX P) (xZ P) in v (xX Q) * v Z = v X * v (xZ Q).
Proof.
  intros Na Nb N1 N2. unfold null_point_to_montgomery_curve. set (A := fdiv o _ _).
  assert (EA : v A = - ((v a * v a + v b * v b) * (v a * v a + v b * v b) + (v a * v a - v b * v b) * (v a * v a - v b * v b)) / ((v a * v a + v b * v b) * (v a * v a - v b * v b))) by (unfold A; vs; reflexivity).
  assert (E2 : v A + 2 = - (4 * (v b * v b * (v b * v b))) / ((v a * v a + v b * v b) * (v a * v a - v b * v b))) by (rewrite EA; field; auto).
  assert (E3 : v A - 2 = - (4 * (v a * v a * (v a * v a))) / ((v a * v a + v b * v b) * (v a * v a - v b * v b))) by (rewrite EA; field; auto).
  assert (NN : forall x y, x <> 0 -> y <> 0 -> x * y <> 0) by (intros; apply (mulr_nz FT keq_ok); auto).
  assert (N4 : 4 <> 0). { replace 4 with (2 * 2) by ring. apply NN; exact two_nz. }
  assert (NQ : forall x y, x <> 0 -> y <> 0 -> - (4 * (x * x * (x * x))) / y <> 0).
  { intros x y Hx Hy E. apply (NN 4 (x * x * (x * x))); auto. transitivity (- (- (4 * (x * x * (x * x))) / y) * y); [field; exact Hy|rewrite E; ring]. }
  destruct (curve_new_ok L A) as [H _]. destruct H as (E & HE & EC & E24 & _).
  { intros E. assert (D : (v A - 2) * (v A + 2) = 0) by (transitivity (v A * v A - 4); [ring|rewrite E; ring]).
    destruct (mul0 FT keq_ok _ _ D) as [D1|D1]; [rewrite E3 in D1; exact (NQ (v a) _ Na (NN _ _ N1 N2) D1)|rewrite E2 in D1; exact (NQ (v b) _ Nb (NN _ _ N1 N2) D1)]. }
  exists E. split; [exact HE|]. split; [cbn [theta_point_to_montgomery_point xZ]; vs; ring|]. intros U V U2 V2 c HU HV. unfold dbl1 in HU, HV. cbn [fst snd] in HU, HV.
  unfold theta_point_to_montgomery_point, xdbl. cbn [xX xZ]. vs. rewrite HU, HV. rewrite E24, EC, EA. field. repeat split; auto.
Qed.

(* products of one-dimensional points: the low bit of the index belongs to the first factor, as in split_theta_point *)
Definition prod2 (p q : K * K) (i : nat) : K := (if Nat.odd i then snd p else fst p) * (if Nat.odd (Nat.div i 2) then snd q else fst q).
Lemma dbl_prod a b c d P Q i : (i < 4)%nat -> a <> 0 -> b <> 0 -> c <> 0 -> d <> 0 -> a * a + b * b <> 0 -> a * a - b * b <> 0 -> c * c + d * d <> 0 -> c * c - d * d <> 0 ->
  theta_dbl (prod2 (a, b) (c, d)) (prod2 P Q) i = prod2 (dbl1 a b (fst P) (snd P)) (dbl1 c d (fst Q) (snd Q)) i.
Proof.
  intros Hi N1 N2 N3 N4 N5 N6 N7 N8. destruct P as [U V], Q as [W X].
  assert (S0 : sqdual (prod2 (a, b) (c, d)) 0%nat = (a * a + b * b) * (c * c + d * d)) by (unfold S_Theta.sqdual, S_Theta.dual, sum4, sgn, dot, prod2; cbn; ring).
  assert (S1 : sqdual (prod2 (a, b) (c, d)) 1%nat = (a * a - b * b) * (c * c + d * d)) by (unfold S_Theta.sqdual, S_Theta.dual, sum4, sgn, dot, prod2; cbn; ring).
  assert (S2 : sqdual (prod2 (a, b) (c, d)) 2%nat = (a * a + b * b) * (c * c - d * d)) by (unfold S_Theta.sqdual, S_Theta.dual, sum4, sgn, dot, prod2; cbn; ring).
  assert (S3 : sqdual (prod2 (a, b) (c, d)) 3%nat = (a * a - b * b) * (c * c - d * d)) by (unfold S_Theta.sqdual, S_Theta.dual, sum4, sgn, dot, prod2; cbn; ring).
  assert (R0 : sqdual (prod2 (U, V) (W, X)) 0%nat = (U * U + V * V) * (W * W + X * X)) by (unfold S_Theta.sqdual, S_Theta.dual, sum4, sgn, dot, prod2; cbn; ring).
  assert (R1 : sqdual (prod2 (U, V) (W, X)) 1%nat = (U * U - V * V) * (W * W + X * X)) by (unfold S_Theta.sqdual, S_Theta.dual, sum4, sgn, dot, prod2; cbn; ring).
  assert (R2 : sqdual (prod2 (U, V) (W, X)) 2%nat = (U * U + V * V) * (W * W - X * X)) by (unfold S_Theta.sqdual, S_Theta.dual, sum4, sgn, dot, prod2; cbn; ring).
  assert (R3 : sqdual (prod2 (U, V) (W, X)) 3%nat = (U * U - V * V) * (W * W - X * X)) by (unfold S_Theta.sqdual, S_Theta.dual, sum4, sgn, dot, prod2; cbn; ring).
  unfold S_Theta.theta_dbl. set (f := sqdual (prod2 (a, b) (c, d))) in *. set (g := sqdual (prod2 (U, V) (W, X))) in *. unfold S_Theta.dual, sum4. rewrite S0, S1, S2, S3, R0, R1, R2, R3. unfold sgn, dot, prod2, dbl1.
  four i Hi; cbn; field; repeat split; auto.
Qed.

Lemma rank1 x : splits x -> exists r s, forall i, (i < 4)%nat -> x i = prod2 r s i.
Proof.
  unfold S_Theta.splits. intros H. destruct (keq (x 0%nat) 0) eqn:E0.
  - apply keq_ok in E0. rewrite E0 in H. assert (H' : x 1%nat * x 2%nat = 0) by (rewrite <- H; ring). destruct (mul0 FT keq_ok _ _ H') as [E1|E1].
    + exists (x 2%nat, x 3%nat), (0, 1). intros i Hi. four i Hi; unfold prod2; cbn [Nat.odd Nat.even negb Nat.div Nat.divmod fst snd]; rewrite ?E0, ?E1; ring.
    + exists (0, 1), (x 1%nat, x 3%nat). intros i Hi. four i Hi; unfold prod2; cbn [Nat.odd Nat.even negb Nat.div Nat.divmod fst snd]; rewrite ?E0, ?E1; ring.
  - assert (N : x 0%nat <> 0) by (intros E; apply keq_ok in E; congruence). exists (1, x 1%nat / x 0%nat), (x 0%nat, x 2%nat).
    intros i Hi. four i Hi; unfold prod2; cbn [Nat.odd Nat.even negb Nat.div Nat.divmod fst snd]; [ring|field; auto|ring|]. transitivity (x 0%nat * x 3%nat / x 0%nat); [field; auto|rewrite H; field; auto].
Qed.
Lemma sqdual_prod2 a b c d : sqdual (prod2 (a, b) (c, d)) 0%nat = (a * a + b * b) * (c * c + d * d) /\ sqdual (prod2 (a, b) (c, d)) 3%nat = (a * a - b * b) * (c * c - d * d).
Proof. split; unfold S_Theta.sqdual, S_Theta.dual, sum4, sgn, dot, prod2; cbn; ring. Qed.
Lemma sqdual_ext x y i : (forall j, (j < 4)%nat -> x j = y j) -> sqdual x i = sqdual y i.
Proof. intros H. unfold S_Theta.sqdual. apply dual_ext. intros j Hj. rewrite H by auto. reflexivity. Qed.
Lemma theta_dbl_ext a b x y i : (i < 4)%nat -> (forall j, (j < 4)%nat -> a j = b j) -> (forall j, (j < 4)%nat -> x j = y j) -> theta_dbl a x i = theta_dbl b y i.
Proof. intros Hi H1 H2. unfold S_Theta.theta_dbl. rewrite H1 by auto. f_equal. apply dual_ext. intros j Hj. rewrite (sqdual_ext _ _ j H1), (sqdual_ext _ _ j H2). reflexivity. Qed.
Lemma nzl x y : x * y <> 0 -> x <> 0. Proof. intros H E. apply H. rewrite E. ring. Qed.
Lemma nzr x y : x * y <> 0 -> y <> 0. Proof. intros H E. apply H. rewrite E. ring. Qed.
Lemma split_double_ok N P : wf_null (tv N) -> splits (tv N) -> splits (tv P) ->
  let D := theta_double o (ts_new o N) P in
  let '(O1, O2) := split_theta_point N in let '(P1, P2) := split_theta_point P in let '(D1, D2) := split_theta_point D in
  exists E3 E4, null_point_to_montgomery_curve o O1 = Some E3 /\ null_point_to_montgomery_curve o O2 = Some E4 /\ splits (tv D) /\
    (let '(X, Z) := xdbl o E3 (xX (theta_point_to_montgomery_point o O1 P1)) (xZ (theta_point_to_montgomery_point o O1 P1)) in
     v (xX (theta_point_to_montgomery_point o O1 D1)) * v Z = v X * v (xZ (theta_point_to_montgomery_point o O1 D1))) /\
    (let '(X, Z) := xdbl o E4 (xX (theta_point_to_montgomery_point o O2 P2)) (xZ (theta_point_to_montgomery_point o O2 P2)) in
     v (xX (theta_point_to_montgomery_point o O2 D2)) * v Z = v X * v (xZ (theta_point_to_montgomery_point o O2 D2))).
Proof.
  intros W SN SP D. cbn [split_theta_point]. destruct (rank1 _ SN) as ([a b] & [c d] & HN). destruct (rank1 _ SP) as ([U V] & [Q X] & HP).
  pose proof (fun i Hi => double_ok N P i W Hi) as HD. fold D in HD. destruct W as [W1 W2].
  destruct (sqdual_prod2 a b c d) as [S0 S3]. pose proof (W2 0%nat ltac:(lia)) as M0. pose proof (W2 3%nat ltac:(lia)) as M3. rewrite (sqdual_ext _ _ _ HN), S0 in M0. rewrite (sqdual_ext _ _ _ HN), S3 in M3.
  pose proof (nzl _ _ M0) as Np. pose proof (nzr _ _ M0) as Nq. pose proof (nzl _ _ M3) as Np'. pose proof (nzr _ _ M3) as Nq'. clear M0 M3 S0 S3.
  pose proof (W1 0%nat ltac:(lia)) as A0. pose proof (W1 3%nat ltac:(lia)) as A3. rewrite HN in A0, A3 by lia. unfold prod2 in A0, A3. cbn [Nat.odd Nat.even negb Nat.div Nat.divmod fst snd] in A0, A3.
  pose proof (nzl _ _ A0) as Na. pose proof (nzr _ _ A0) as Nc. pose proof (nzl _ _ A3) as Nb. pose proof (nzr _ _ A3) as Nd. clear A0 A3.
  assert (HD' : forall i, (i < 4)%nat -> tv D i = tv N 0%nat * sqdual (tv N) 0%nat * prod2 (dbl1 a b U V) (dbl1 c d Q X) i).
  { intros i Hi. rewrite HD, (theta_dbl_ext _ _ _ _ _ Hi HN HP), dbl_prod by auto. reflexivity. }
  clear HD. set (k := tv N 0%nat * sqdual (tv N) 0%nat) in *.
  assert (NN : forall x y, x <> 0 -> y <> 0 -> x * y <> 0) by (intros; apply (mulr_nz FT keq_ok); auto).
  assert (EX : v (tX N) = c * a) by (etransitivity; [exact (HN 0%nat ltac:(lia))|unfold prod2; cbn; ring]). assert (EY : v (tY N) = c * b) by (etransitivity; [exact (HN 1%nat ltac:(lia))|unfold prod2; cbn; ring]).
  assert (EY2 : v (tY N) = b * c) by (etransitivity; [exact (HN 1%nat ltac:(lia))|unfold prod2; cbn; ring]). assert (ET : v (tT N) = b * d) by (etransitivity; [exact (HN 3%nat ltac:(lia))|unfold prod2; cbn; ring]).
  assert (PX : v (tX P) = Q * U) by (etransitivity; [exact (HP 0%nat ltac:(lia))|unfold prod2; cbn; ring]). assert (PY : v (tY P) = Q * V) by (etransitivity; [exact (HP 1%nat ltac:(lia))|unfold prod2; cbn; ring]).
  assert (PY2 : v (tY P) = V * Q) by (etransitivity; [exact (HP 1%nat ltac:(lia))|unfold prod2; cbn; ring]). assert (PT : v (tT P) = V * X) by (etransitivity; [exact (HP 3%nat ltac:(lia))|unfold prod2; cbn; ring]).
  assert (NS : forall e x y, e <> 0 -> x * x + y * y <> 0 -> e * x * (e * x) + e * y * (e * y) <> 0). { intros e x y H1 H2. replace (e * x * (e * x) + e * y * (e * y)) with (e * e * (x * x + y * y)) by ring. auto. }
  assert (NT : forall e x y, e <> 0 -> x * x - y * y <> 0 -> e * x * (e * x) - e * y * (e * y) <> 0). { intros e x y H1 H2. replace (e * x * (e * x) - e * y * (e * y)) with (e * e * (x * x - y * y)) by ring. auto. }
  destruct (montgomery_ok (tX N) (tY N)) as (E3 & HE3 & _ & H3). { rewrite EX; auto. } { rewrite EY; auto. } { rewrite EX, EY. auto. } { rewrite EX, EY. auto. }
  destruct (montgomery_ok (tY N) (tT N)) as (E4 & HE4 & _ & H4). { rewrite EY2; auto. } { rewrite ET; auto. } { rewrite EY2, ET. auto. } { rewrite EY2, ET. auto. }
  exists E3, E4. split; [exact HE3|]. split; [exact HE4|].
  assert (SC : forall e f x y z w, e <> 0 -> x <> 0 -> y <> 0 -> x * x + y * y <> 0 -> x * x - y * y <> 0 -> f <> 0 -> forall g,
     g * fst (dbl1 x y z w) = g * (e * e * e / (f * f * (f * f))) * fst (dbl1 (e * x) (e * y) (f * z) (f * w)) /\ g * snd (dbl1 x y z w) = g * (e * e * e / (f * f * (f * f))) * snd (dbl1 (e * x) (e * y) (f * z) (f * w))).
  { intros e f x y z w He Hx Hy Hp Hm Hf g. pose proof (NS e x y He Hp). pose proof (NT e x y He Hm). unfold dbl1. cbn [fst snd]. split; field; repeat split; auto. }
  assert (Z0 : forall E O R, v (fst R) = 0 -> v (snd R) = 0 -> let '(X, Z) := xdbl o E (xX (theta_point_to_montgomery_point o O R)) (xZ (theta_point_to_montgomery_point o O R)) in v X = 0 /\ v Z = 0).
  { intros E [Oa Ob] [Ra Rb] Ea Eb. cbn [fst snd] in Ea, Eb. unfold theta_point_to_montgomery_point, xdbl. cbn [xX xZ]. vs. rewrite Ea, Eb. split; ring. }
  split; [|split].
  - unfold S_Theta.splits. rewrite !HD' by lia. unfold prod2. cbn [Nat.odd Nat.even negb Nat.div Nat.divmod fst snd]. ring.
  - destruct (keq Q 0) eqn:EQ.
    + apply keq_ok in EQ. pose proof (Z0 E3 (tX N, tY N) (tX P, tY P)) as H. cbn [fst snd] in H. rewrite PX, PY, EQ in H. specialize (H ltac:(ring) ltac:(ring)).
      destruct (xdbl o E3 _ _) as [XX ZZ]. destruct H as [-> ->]. ring.
    + assert (NQ : Q <> 0) by (intros E; apply keq_ok in E; congruence). destruct (SC c Q a b U V Nc Na Nb Np Np' NQ (k * fst (dbl1 c d Q X))) as [F1 F2]. rewrite <- EX, <- EY, <- PX, <- PY in F1, F2.
      apply (H3 (tX P) (tY P) (tX D) (tY D) (k * fst (dbl1 c d Q X) * (c * c * c / (Q * Q * (Q * Q))))).
      * etransitivity; [exact (HD' 0%nat ltac:(lia))|]. etransitivity; [|exact F1]. unfold prod2. cbn [Nat.odd Nat.even negb Nat.div Nat.divmod fst snd]. ring.
      * etransitivity; [exact (HD' 1%nat ltac:(lia))|]. etransitivity; [|exact F2]. unfold prod2. cbn [Nat.odd Nat.even negb Nat.div Nat.divmod fst snd]. ring.
  - destruct (keq V 0) eqn:EQ.
    + apply keq_ok in EQ. pose proof (Z0 E4 (tY N, tT N) (tY P, tT P)) as H. cbn [fst snd] in H. rewrite PY2, PT, EQ in H. specialize (H ltac:(ring) ltac:(ring)).
      destruct (xdbl o E4 _ _) as [XX ZZ]. destruct H as [-> ->]. ring.
    + assert (NQ : V <> 0) by (intros E; apply keq_ok in E; congruence). destruct (SC b V c d Q X Nb Nc Nd Nq Nq' NQ (k * snd (dbl1 a b U V))) as [F1 F2]. rewrite <- EY2, <- ET, <- PY2, <- PT in F1, F2.
      apply (H4 (tY P) (tT P) (tY D) (tT D) (k * snd (dbl1 a b U V) * (b * b * b / (V * V * (V * V))))).
      * etransitivity; [exact (HD' 1%nat ltac:(lia))|]. etransitivity; [|exact F1]. unfold prod2. cbn [Nat.odd Nat.even negb Nat.div Nat.divmod fst snd]. ring.
      * etransitivity; [exact (HD' 3%nat ltac:(lia))|]. etransitivity; [|exact F2]. unfold prod2. cbn [Nat.odd Nat.even negb Nat.div Nat.divmod fst snd]. ring.
Qed.

(** the gluing isogeny: one dual coordinate is zero *)
Definition kernel8_glue (A : nat -> K) (s1 s2 : nat -> K) : Prop :=
  exists x0 x1 z0 z1, x0 <> 0 /\ x1 <> 0 /\ z0 <> 0 /\ z1 <> 0 /\ forall j, (j < 4)%nat -> s1 j = (if Nat.odd (Nat.div j 2) then x1 else x0) * A j /\ s2 j = (if Nat.odd j then z1 else z0) * A j.
Definition zero_at (A : nat -> K) (z : nat) : Prop := (z < 4)%nat /\ A z = 0 /\ forall j, (j < 4)%nat -> j <> z -> A j <> 0.
Lemma zero_index_ok l A z : length l = 4%nat -> zero_at A z -> (forall j, (j < 4)%nat -> v (nth j l (fzero o)) = 0 <-> A j = 0) -> zero_index o l = z.
Proof.
  intros Hl (Hz & Z0 & ZN) H. destruct l as [|a [|b [|c [|d [|]]]]]; try discriminate. clear Hl.
  assert (G : forall j, (j < 4)%nat -> fis0 o (nth j [a; b; c; d] (fzero o)) = Nat.eqb j z).
  { intros j Hj. destruct (is0P (nth j [a; b; c; d] (fzero o))) as [Hv|Hv]; rewrite (H j Hj) in Hv; symmetry.
    - apply Nat.eqb_eq. destruct (Nat.eq_dec j z); auto. exfalso. apply (ZN j); auto. - apply Nat.eqb_neq. intros ->. contradiction. }
  pose proof (G 0%nat ltac:(lia)) as G0. pose proof (G 1%nat ltac:(lia)) as G1. pose proof (G 2%nat ltac:(lia)) as G2. pose proof (G 3%nat ltac:(lia)) as G3. cbn [nth] in G0, G1, G2, G3.
  unfold zero_index, zero_index_from. rewrite G0, G1, G2, G3. clear - Hz. four z Hz; reflexivity.
Qed.
Lemma xnth_t P i z : (i < 4)%nat -> (z < 4)%nat -> v (xnth o (t_list P) i z) = tv P (Nat.lxor i z).
Proof. intros Hi Hz. four i Hi; four z Hz; reflexivity. Qed.
Lemma xarr_ok x y z t zi i : (i < 4)%nat -> (zi < 4)%nat -> crd (xarr o x y z t zi) i = nth (Nat.lxor i zi) [x; y; z; t] (fzero o).
Proof. intros Hi Hz. four i Hi; four zi Hz; reflexivity. Qed.
Lemma gluing_codomain_ok T1 T2 A z : zero_at A z -> kernel8_glue A (sqdual (tv T1)) (sqdual (tv T2)) ->
  let '(cod, (ai, bi), zi) := gluing_codomain o T1 T2 in
  zi = z /\ cod = ts_new o (ts_null cod) /\ (forall i, (i < 4)%nat -> tv (ts_null cod) i = dual A i / A (Nat.lxor 3 z)) /\
  v ai = A (Nat.lxor 3 z) / A (Nat.lxor 1 z) /\ v bi = A (Nat.lxor 3 z) / A (Nat.lxor 2 z).
Proof.
  intros HZ (x0 & x1 & z0 & z1 & Nx0 & Nx1 & Nz0 & Nz1 & HS). unfold gluing_codomain. set (s1 := to_squared_theta o T1). set (s2 := to_squared_theta o T2).
  assert (H1 : forall j, (j < 4)%nat -> tv s1 j = (if Nat.odd (Nat.div j 2) then x1 else x0) * A j) by (intros j Hj; unfold s1; rewrite sq_ok by auto; apply HS; auto).
  assert (H2 : forall j, (j < 4)%nat -> tv s2 j = (if Nat.odd j then z1 else z0) * A j) by (intros j Hj; unfold s2; rewrite sq_ok by auto; apply HS; auto).
  assert (EZ : zero_index o (t_list s1) = z).
  { apply (zero_index_ok _ A); auto. intros j Hj. change (nth j (t_list s1) (fzero o)) with (xnth o (t_list s1) j 0) || idtac.
    assert (E : v (nth j (t_list s1) (fzero o)) = tv s1 j) by (four j Hj; reflexivity). rewrite E, H1 by auto. split.
    - intros E0. destruct (mul0 FT keq_ok _ _ E0) as [E1|E1]; auto. destruct (Nat.odd _); contradiction. - intros ->. ring. }
  rewrite EZ. destruct HZ as (Hz & Z0 & ZN).
  assert (L3 : (Nat.lxor 3 z < 4 /\ Nat.lxor 2 z < 4 /\ Nat.lxor 1 z < 4)%nat) by (four z Hz; cbn; lia). destruct L3 as (L3 & L2 & L1).
  assert (D3 : Nat.lxor 3 z <> z /\ Nat.lxor 2 z <> z /\ Nat.lxor 1 z <> z) by (four z Hz; cbn; lia). destruct D3 as (D3 & D2 & D1).
  pose proof (ZN _ L3 D3) as N3. pose proof (ZN _ L2 D2) as N2. pose proof (ZN _ L1 D1) as N1.
  assert (P13 : Nat.odd (Nat.lxor 1 z) = Nat.odd (Nat.lxor 3 z)) by (four z Hz; reflexivity). assert (P23 : Nat.odd (Nat.div (Nat.lxor 2 z) 2) = Nat.odd (Nat.div (Nat.lxor 3 z) 2)) by (four z Hz; reflexivity).
  set (sz := if Nat.odd (Nat.lxor 3 z) then z1 else z0). set (sx := if Nat.odd (Nat.div (Nat.lxor 3 z) 2) then x1 else x0).
  assert (Nsz : sz <> 0) by (unfold sz; clear -Nz0 Nz1; destruct (Nat.odd (Nat.lxor 3 z)); assumption). assert (Nsx : sx <> 0) by (unfold sx; clear -Nx0 Nx1; destruct (Nat.odd (Nat.div (Nat.lxor 3 z) 2)); assumption).
  assert (E1 : v (xnth o (t_list s2) 1 z) = sz * A (Nat.lxor 1 z)) by (rewrite xnth_t by lia; rewrite H2, P13 by auto; reflexivity).
  assert (E3 : v (xnth o (t_list s2) 3 z) = sz * A (Nat.lxor 3 z)) by (rewrite xnth_t by lia; rewrite H2 by auto; reflexivity).
  assert (E2 : v (xnth o (t_list s1) 2 z) = sx * A (Nat.lxor 2 z)) by (rewrite xnth_t by lia; rewrite H1, P23 by auto; reflexivity).
  assert (E4 : v (xnth o (t_list s1) 3 z) = sx * A (Nat.lxor 3 z)) by (rewrite xnth_t by lia; rewrite H1 by auto; reflexivity).
  split; [reflexivity|]. split; [reflexivity|]. split; [|split; vs; rewrite ?E1, ?E2, ?E3, ?E4; field; auto].
  intros i Hi. match goal with |- tv (ts_null (ts_new o ?X)) i = _ => change (tv X i = dual A i / A (Nat.lxor 3 z)) end. rewrite had_ok by auto.
  rewrite div_def, (dual_ext _ (fun j => kinv (A (Nat.lxor 3 z)) * A j)). { rewrite dual_scale. ring. }
  intros j Hj. unfold tv. rewrite xarr_ok by auto.
  assert (XJ : (Nat.lxor j z < 4)%nat) by (four j Hj; four z Hz; cbn; lia). assert (XX : j = Nat.lxor (Nat.lxor j z) z) by (rewrite Nat.lxor_assoc, Nat.lxor_nilpotent, Nat.lxor_0_r; reflexivity).
  rewrite XX at 2. generalize dependent (Nat.lxor j z). intros k Hk _. four k Hk; cbn [nth].
  - rewrite Nat.lxor_0_l, Z0. vs. ring. - vs. rewrite E1, E3. field. auto. - vs. rewrite E2, E4. field. auto. - vs. field. auto.
Qed.
(* y: the dual coordinates of the image; the shifted point has them permuted *)
Lemma gluing_image_ok P S A y mu z ai bi : zero_at A z -> (forall j, (j < 4)%nat -> sqdual (tv P) j = A j * y j) -> (forall j, (j < 4)%nat -> sqdual (tv S) j = mu * (A j * y (Nat.lxor j 1))) -> mu <> 0 ->
  y (Nat.lxor 2 z) <> 0 \/ y (Nat.lxor 3 z) <> 0 -> v ai = A (Nat.lxor 3 z) / A (Nat.lxor 1 z) -> v bi = A (Nat.lxor 3 z) / A (Nat.lxor 2 z) ->
  forall i, (i < 4)%nat -> tv (gluing_image o P S ai bi z) i = A (Nat.lxor 3 z) * dual y i.
Proof.
  intros (Hz & Z0 & ZN) HP HS Nm Hy Ea Eb i Hi. unfold gluing_image. set (sp := to_squared_theta o P). set (ss := to_squared_theta o S).
  assert (L3 : (Nat.lxor 3 z < 4 /\ Nat.lxor 2 z < 4 /\ Nat.lxor 1 z < 4)%nat) by (four z Hz; cbn; lia). destruct L3 as (L3 & L2 & L1).
  assert (D3 : Nat.lxor 3 z <> z /\ Nat.lxor 2 z <> z /\ Nat.lxor 1 z <> z) by (four z Hz; cbn; lia). destruct D3 as (D3 & D2 & D1).
  pose proof (ZN _ L3 D3) as N3. pose proof (ZN _ L2 D2) as N2. pose proof (ZN _ L1 D1) as N1.
  assert (X3 : Nat.lxor (Nat.lxor 3 z) 1 = Nat.lxor 2 z) by (four z Hz; reflexivity). assert (X2 : Nat.lxor (Nat.lxor 2 z) 1 = Nat.lxor 3 z) by (four z Hz; reflexivity). assert (X1 : Nat.lxor (Nat.lxor 1 z) 1 = z) by (four z Hz; reflexivity).
  assert (EP : forall k, (k < 4)%nat -> (Nat.lxor k z < 4)%nat -> v (xnth o (t_list sp) k z) = A (Nat.lxor k z) * y (Nat.lxor k z)) by (intros k Hk Hl; rewrite xnth_t by auto; unfold sp; rewrite sq_ok by auto; auto).
  assert (ES : forall k, (k < 4)%nat -> (Nat.lxor k z < 4)%nat -> v (xnth o (t_list ss) k z) = mu * (A (Nat.lxor k z) * y (Nat.lxor (Nat.lxor k z) 1))) by (intros k Hk Hl; rewrite xnth_t by auto; unfold ss; rewrite sq_ok by auto; auto).
  set (A3 := A (Nat.lxor 3 z)) in *.
  assert (Ey : v (fmul o (xnth o (t_list sp) 1 z) ai) = A3 * y (Nat.lxor 1 z)) by (vs; rewrite EP, Ea by (auto; lia); field; auto).
  assert (Ezz : v (fmul o (xnth o (t_list sp) 2 z) bi) = A3 * y (Nat.lxor 2 z)) by (vs; rewrite EP, Eb by (auto; lia); field; auto).
  assert (Et : v (xnth o (t_list sp) 3 z) = A3 * y (Nat.lxor 3 z)) by (apply EP; auto; lia).
  assert (Exb : v (fmul o (xnth o (t_list ss) 1 z) ai) = mu * (A3 * y z)) by (vs; rewrite ES, Ea, X1 by (auto; lia); field; auto).
  assert (Ezb : v (xnth o (t_list ss) 3 z) = mu * (A3 * y (Nat.lxor 2 z))) by (rewrite ES, X3 by (auto; lia); reflexivity).
  assert (Etb : v (fmul o (xnth o (t_list ss) 2 z) bi) = mu * (A3 * y (Nat.lxor 3 z))) by (vs; rewrite ES, Eb, X2 by (auto; lia); field; auto).
  set (fy := fmul o (xnth o (t_list sp) 1 z) ai) in *. set (fz := fmul o (xnth o (t_list sp) 2 z) bi) in *. set (ft := xnth o (t_list sp) 3 z) in *. set (fxb := fmul o (xnth o (t_list ss) 1 z) ai) in *.
  set (fzb := xnth o (t_list ss) 3 z) in *. set (ftb := fmul o (xnth o (t_list ss) 2 z) bi) in *. set (fx := fmul o fxb _).
  assert (Ex : v fx = A3 * y z).
  { unfold fx. rewrite (l_mul _ _ _ _ _ _ _ _ _ _ _ L), Exb, (l_cond _ _ _ _ _ _ _ _ _ _ _ L). destruct (is0P fz) as [Z|Z]; rewrite Ezz in Z.
    - assert (Y2 : y (Nat.lxor 2 z) = 0) by (destruct (mul0 FT keq_ok _ _ Z); [contradiction|auto]). destruct Hy as [Hy|Hy]; [contradiction|]. vs. rewrite Et, Etb. field. auto.
    - assert (Y2 : y (Nat.lxor 2 z) <> 0) by (intros E; apply Z; rewrite E; ring). vs. rewrite Ezz, Ezb. field. auto. }
  rewrite had_ok, <- dual_scale by auto. apply dual_ext. intros j Hj. unfold tv. rewrite xarr_ok by auto.
  assert (XJ : (Nat.lxor j z < 4)%nat) by (four j Hj; four z Hz; cbn; lia). assert (XX : j = Nat.lxor (Nat.lxor j z) z) by (rewrite Nat.lxor_assoc, Nat.lxor_nilpotent, Nat.lxor_0_r; reflexivity).
  rewrite XX at 2. generalize dependent (Nat.lxor j z). intros k Hk _. four k Hk; cbn [nth]; [rewrite Nat.lxor_0_l; exact Ex|exact Ey|exact Ezz|exact Et].
Qed.

(** the tenth entry of MAPS, used when only the constant (0,0) is zero: rows 0 and 3 are equal *)
Lemma map9_bad (N : tpoint F) : let z := v (fzeta o) in 2 * 2 + 1 <> 0 -> 2 * (2 * (2 + 1)) + 1 <> 0 ->
  v (tX N) = 1 -> v (tY N) = 2 -> v (tZ N) = 2 -> v (tT N) = (2 + 1) * z ->
  one_zero (tv N) 0 0 /\ exists M, compute_splitting_matrix o N = Some M /\ ~ splits (tv (apply_base_change o N M)) /\
  exists P, v (tX P) = 1 /\ forall i, (i < 4)%nat -> tv (apply_base_change o P M) i = 0.
Proof.
  intros z N5 N13 HX HY HZ HT. pose proof (l_zeta _ _ _ _ _ _ _ _ _ _ _ L) as Hz. fold z in Hz.
  assert (NN : forall x y, x <> 0 -> y <> 0 -> x * y <> 0) by (intros; apply (mulr_nz FT keq_ok); auto).
  assert (NM : forall x y, x * x + y * y <> 0 -> x + y * z <> 0).
  { intros x y H E. apply H. transitivity ((x + y * z) * (x - y * z)); [|rewrite E; ring]. transitivity (x * x - y * y * (z * z)); [rewrite Hz|]; ring. }
  assert (H1 : one_zero (tv N) 0 0).
  { split. { split; [lia|]. split; [lia|reflexivity]. } intros chi i HE. apply even_in in HE. cbn in HE.
    repeat destruct HE as [HE|HE]; try contradiction; injection HE as <- <-; (split; intros E; [|try discriminate]).
    { reflexivity. } { unfold S_Theta.level22, sum4, sgn, dot, tv; cbn; rewrite HX, HY, HZ, HT. ring [Hz]. }
    all: exfalso; revert E; unfold S_Theta.level22, sum4, sgn, dot, tv; cbn; rewrite HX, HY, HZ, HT.
    - replace (1 * 2 + 2 * 1 + 2 * ((2 + 1) * z) + (2 + 1) * z * 2) with (2 * (2 + 2 * (2 + 1) * z)) by ring. apply NN; [exact two_nz|apply NM].
      replace (2 * 2 + 2 * (2 + 1) * (2 * (2 + 1))) with (2 * (2 * (2 * (2 * 2 + 1)))) by ring. repeat apply NN; auto.
    - replace (1 * 2 + 2 * ((2 + 1) * z) + 2 * 1 + (2 + 1) * z * 2) with (2 * (2 + 2 * (2 + 1) * z)) by ring. apply NN; [exact two_nz|apply NM].
      replace (2 * 2 + 2 * (2 + 1) * (2 * (2 + 1))) with (2 * (2 * (2 * (2 * 2 + 1)))) by ring. repeat apply NN; auto.
    - replace (1 * ((2 + 1) * z) + 2 * 2 + 2 * 2 + (2 + 1) * z * 1) with (2 * (2 * 2 + (2 + 1) * z)) by ring. apply NN; [exact two_nz|apply NM].
      replace (2 * 2 * (2 * 2) + (2 + 1) * (2 + 1)) with ((2 * 2 + 1) * (2 * 2 + 1)) by ring. repeat apply NN; auto.
    - replace (1 * 1 + - (2 * 2) + 2 * 2 + - ((2 + 1) * z * ((2 + 1) * z))) with (1 - (2 + 1) * (2 + 1) * (z * z)) by ring. rewrite Hz.
      replace (1 - (2 + 1) * (2 + 1) * - (1)) with (2 * (2 * 2 + 1)) by ring. repeat apply NN; auto.
    - replace (1 * 2 + - (2 * ((2 + 1) * z)) + 2 * 1 + - ((2 + 1) * z * 2)) with (2 * (2 + - (2 * (2 + 1)) * z)) by ring. apply NN; [exact two_nz|apply NM].
      replace (2 * 2 + - (2 * (2 + 1)) * - (2 * (2 + 1))) with (2 * (2 * (2 * (2 * 2 + 1)))) by ring. repeat apply NN; auto.
    - replace (1 * 1 + 2 * 2 + - (2 * 2) + - ((2 + 1) * z * ((2 + 1) * z))) with (1 - (2 + 1) * (2 + 1) * (z * z)) by ring. rewrite Hz.
      replace (1 - (2 + 1) * (2 + 1) * - (1)) with (2 * (2 * 2 + 1)) by ring. repeat apply NN; auto.
    - replace (1 * 2 + 2 * 1 + - (2 * ((2 + 1) * z)) + - ((2 + 1) * z * 2)) with (2 * (2 + - (2 * (2 + 1)) * z)) by ring. apply NN; [exact two_nz|apply NM].
      replace (2 * 2 + - (2 * (2 + 1)) * - (2 * (2 + 1))) with (2 * (2 * (2 * (2 * 2 + 1)))) by ring. repeat apply NN; auto.
    - replace (1 * 1 + - (2 * 2) + - (2 * 2) + (2 + 1) * z * ((2 + 1) * z)) with (1 - 2 * 2 * 2 + (2 + 1) * (2 + 1) * (z * z)) by ring. rewrite Hz. intros E.
      apply (NN (2 * 2) (2 * 2)); [apply NN; auto|apply NN; auto|]. transitivity (- (1 - 2 * 2 * 2 + (2 + 1) * (2 + 1) * - (1))); [ring|rewrite E; ring].
    - replace (1 * ((2 + 1) * z) + - (2 * 2) + - (2 * 2) + (2 + 1) * z * 1) with (2 * (- (2 * 2) + (2 + 1) * z)) by ring. apply NN; [exact two_nz|apply NM].
      replace (- (2 * 2) * - (2 * 2) + (2 + 1) * (2 + 1)) with ((2 * 2 + 1) * (2 * 2 + 1)) by ring. repeat apply NN; auto. }
  split; [exact H1|]. unfold compute_splitting_matrix. rewrite (even_index_ok _ _ _ H1). cbn [splitting_location]. eexists. split; [reflexivity|]. split.
  - unfold S_Theta.splits. rewrite !map_crd by lia. cbn [splitting_map Nat.mul Nat.add nth]. vs. fold z. unfold tv. cbn [crd]. rewrite HX, HY, HZ, HT. intros E.
    assert (E2 : - (2 * 2 * 2) + 2 * 2 * (2 + 1) * z = 0).
    { match type of E with ?a = ?b => transitivity (a - b); [|rewrite E; ring] end. ring [Hz]. }
    revert E2. apply NM. replace (- (2 * 2 * 2) * - (2 * 2 * 2) + 2 * 2 * (2 + 1) * (2 * 2 * (2 + 1))) with (2 * 2 * (2 * 2) * (2 * (2 * (2 + 1)) + 1)) by ring. repeat apply NN; auto.
  - exists (mkT (fone o) (fzero o) (fneg o (fone o)) (fzero o)). split; [cbn [tX]; vs; reflexivity|]. intros i Hi. rewrite map_crd by auto. unfold tv. cbn [crd tX tY tZ tT]. four i Hi; cbn [splitting_map Nat.mul Nat.add nth]; vs; ring.
Qed.
End Theta.
