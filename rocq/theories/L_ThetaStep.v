(** One step of the (2,2)-isogeny chain (M_Theta.v, theta_push) on the Kummer surface of S_KummerSurf.v, and the chain with and without a strategy. *)
From Coq Require Import Arith ZArith List Bool Ring Field Lia.
From Verif Require Import M_Fp M_Field M_Curve M_Theta S_Curve S_Theta S_KummerSurf S_Strategy L_Group L_Field L_Curve L_Theta L_KummerSurf L_KummerFun L_Strategy.
Import ListNotations.
Section Step.
Context {F : Type} {o : fops F}.
Context {K : Type} {k0 k1 : K} {kadd kmul ksub : K -> K -> K} {kopp : K -> K} {kdiv : K -> K -> K} {kinv : K -> K} {keq : K -> K -> bool} {v : F -> K}.
Context (L : flaws o k0 k1 kadd kmul ksub kopp kdiv kinv keq v) (v_inj : forall x y, v x = v y -> x = y).
Let FT := l_ft _ _ _ _ _ _ _ _ _ _ _ L.
Let keq_ok := l_keq _ _ _ _ _ _ _ _ _ _ _ L.
Let two_nz := l_two_nz _ _ _ _ _ _ _ _ _ _ _ L.
Add Field Kfs : FT.
Local Notation "0" := k0. Local Notation "1" := k1.
Local Notation "2" := (kadd k1 k1). Local Notation "4" := (kadd (kadd k1 k1) (kadd k1 k1)).
Local Infix "+" := kadd. Local Infix "*" := kmul. Local Infix "-" := ksub. Local Infix "/" := kdiv. Local Notation "- x" := (kopp x).
Local Notation dual := (dual kadd kopp). Local Notation sqdual := (sqdual kadd kmul kopp). Local Notation theta_dbl := (theta_dbl kadd kmul kopp kdiv).
Local Notation theta_image := (theta_image kadd kmul kopp kdiv). Local Notation level22 := (level22 kadd kmul kopp). Local Notation splits := (splits kmul).
Local Notation on_kummer := (on_kummer k0 k1 kadd kmul ksub). Local Notation generic_null := (generic_null k0 kadd kmul kopp). Local Notation same_point := (same_point k0 kmul).
Local Notation tv := (@tv F K v). Local Notation kernel8 := (@kernel8 K k0 kmul). Local Notation wf_null := (@wf_null K k0 kadd kmul kopp).
Ltac vs := repeat first
  [ rewrite (l_add _ _ _ _ _ _ _ _ _ _ _ L) | rewrite (l_sub _ _ _ _ _ _ _ _ _ _ _ L) | rewrite (l_mul _ _ _ _ _ _ _ _ _ _ _ L)
  | rewrite (l_sq _ _ _ _ _ _ _ _ _ _ _ L) | rewrite (l_neg _ _ _ _ _ _ _ _ _ _ _ L) | rewrite (l_inv _ _ _ _ _ _ _ _ _ _ _ L) | rewrite (l_div _ _ _ _ _ _ _ _ _ _ _ L)
  | rewrite (l_zero _ _ _ _ _ _ _ _ _ _ _ L) | rewrite (l_one _ _ _ _ _ _ _ _ _ _ _ L) ].
Ltac four i H := destruct i as [|[|[|[|i]]]]; [| | | |exfalso; lia]; clear H.
(* the step before the last: no Hadamard transform on either side *)
Lemma raw_isogeny_ok O0 T1 T2 pts A e : e <> 0 -> wf_null (tv O0) -> (forall i, (i < 4)%nat -> A i <> 0) -> (forall i, (i < 4)%nat -> sqdual (tv O0) i = e * (A i * A i)) ->
  kernel8 A (sqdual (tv T1)) (sqdual (tv T2)) -> forall i, (i < 4)%nat ->
  let '(dom, imgs) := two_isogeny o (ts_new o O0) T1 T2 pts false false in
  dom = ts_new o (ts_null dom) /\ tv (ts_null dom) i = A i / A 0%nat /\
  length imgs = length pts /\ forall k P, nth_error pts k = Some P -> exists Q, nth_error imgs k = Some Q /\ tv Q i = A 0%nat * (sqdual (tv P) i / A i).
Proof.
  intros Ne W N HA HK i Hi. unfold two_isogeny. set (s1 := to_squared_theta o T1). set (s2 := to_squared_theta o T2).
  assert (HK' : kernel8 A (tv s1) (tv s2)). { destruct HK as (x & z & t & Nx & Nz & Nt & E1 & E2 & E3 & E4 & E5 & E6). exists x, z, t. unfold s1, s2. rewrite !(sq_ok L) by lia. tauto. }
  destruct (kernel8_BCD L A s1 s2 N HK') as (EB & EC & ED & _). set (B := fmul o (tY s1) _) in *. set (C := fmul o (tZ s2) _) in *. set (Dd := fmul o (fmul o (tT s2) _) B) in *.
  destruct (pre_ok L O0 1 ltac:(lia)) as [_ P1]. destruct (pre_ok L O0 2 ltac:(lia)) as [_ P2]. destruct (pre_ok L O0 3 ltac:(lia)) as [_ P3]. cbn [preD] in P1, P2, P3.
  rewrite !HA in P1, P2, P3 by lia. pose proof (N 0%nat ltac:(lia)) as N0. pose proof (N 1%nat ltac:(lia)) as N1. pose proof (N 2%nat ltac:(lia)) as N2. pose proof (N 3%nat ltac:(lia)) as N3.
  split; [reflexivity|]. split; [|split; [apply map_length|]].
  - four i Hi; unfold L_Theta.tv; cbn [crd ts_null ts_new precomputation tX tY tZ tT]; [rewrite (l_one _ _ _ _ _ _ _ _ _ _ _ L); field; auto|exact EB|exact EC|exact ED].
  - intros k P HP. rewrite nth_error_map, HP. cbn [option_map]. eexists. split; [reflexivity|]. rewrite <- (sq_ok L) by auto.
    four i Hi; unfold L_Theta.tv; cbn [crd tX tY tZ tT]; vs; [field; auto|rewrite P1, EB|rewrite P2, EC|rewrite P3, ED]; field; auto.
Qed.

(** one step: the codomain's null point and the images *)
Definition stage0 (m : nat) (x : nat -> K) : nat -> K := if Nat.eqb m 0 then dual x else x.
Definition stage1 (m : nat) (x : nat -> K) : nat -> K := if Nat.leb 2 m then dual x else x.
Definition step_map (m : nat) (A x : nat -> K) : nat -> K := stage1 m (fun i => sqdual (stage0 m x) i / A i).
Definition step_hyp (m : nat) (N T1 T2 : tpoint F) (A : nat -> K) : Prop :=
  (forall i, (i < 4)%nat -> A i <> 0 /\ ((2 <= m)%nat -> dual A i <> 0)) /\ (m <> 0%nat -> exists e, e <> 0 /\ forall i, (i < 4)%nat -> sqdual (tv N) i = e * (A i * A i)) /\ kernel8 A (sqdual (stage0 m (tv T1))) (sqdual (stage0 m (tv T2))).
Lemma generic_wf a : generic_null a -> wf_null a.
Proof.
  intros [N H]. split; [exact N|]. intros j Hj. assert (E : sqdual a j = level22 a j 0) by (unfold S_Theta.level22, S_Theta.sqdual, S_Theta.dual, sum4; cbn; reflexivity).
  rewrite E. apply H. repeat split; [exact Hj|lia|four j Hj; reflexivity].
Qed.
Lemma step_value m N T1 T2 A : (m <> 0%nat -> wf_null (tv N)) -> step_hyp m N T1 T2 A ->
  (exists N', step_cod o m (ts_new o N) T1 T2 = ts_new o N' /\ forall i, (i < 4)%nat -> tv N' i = stage1 m A i / A 0%nat) /\
  forall P i, (i < 4)%nat -> tv (step_img o m (ts_new o N) T1 T2 P) i = A 0%nat * step_map m A (tv P) i.
Proof.
  intros W (HA & HE & HK). unfold step_cod, step_img, theta_push, step_map, stage0, stage1 in *.
  destruct m as [|[|m]]; cbn [Nat.eqb Nat.leb] in *.
  - split.
    + eexists. split; [reflexivity|]. intros i Hi. pose proof (to_product_ok L T1 T2 [] A (fun j Hj => proj1 (HA j Hj)) HK i Hi) as H. exact (proj1 (proj2 H)).
    + intros P i Hi. pose proof (to_product_ok L T1 T2 [P] A (fun j Hj => proj1 (HA j Hj)) HK i Hi) as (_ & _ & _ & H). destruct (H 0%nat P eq_refl) as (Q & EQ & HQ). cbn [nth_error] in EQ. injection EQ as EQ. rewrite <- HQ, <- EQ. reflexivity.
  - destruct (HE ltac:(discriminate)) as (e & Ne & Hsq). split.
    + eexists. split; [reflexivity|]. intros i Hi. pose proof (raw_isogeny_ok N T1 T2 [] A e Ne (W ltac:(discriminate)) (fun j Hj => proj1 (HA j Hj)) Hsq HK i Hi) as H. exact (proj1 (proj2 H)).
    + intros P i Hi. pose proof (raw_isogeny_ok N T1 T2 [P] A e Ne (W ltac:(discriminate)) (fun j Hj => proj1 (HA j Hj)) Hsq HK i Hi) as (_ & _ & _ & H). destruct (H 0%nat P eq_refl) as (Q & EQ & HQ). cbn [nth_error] in EQ. injection EQ as EQ. rewrite <- HQ, <- EQ. reflexivity.
  - destruct (HE ltac:(discriminate)) as (e & Ne & Hsq). split.
    + eexists. split; [reflexivity|]. intros i Hi. pose proof (two_isogeny_ok L N T1 T2 [] A e Ne (W ltac:(discriminate)) (fun j Hj => proj1 (HA j Hj)) Hsq HK i Hi) as H. exact (proj1 (proj2 H)).
    + intros P i Hi. pose proof (two_isogeny_ok L N T1 T2 [P] A e Ne (W ltac:(discriminate)) (fun j Hj => proj1 (HA j Hj)) Hsq HK i Hi) as (_ & _ & _ & H). destruct (H 0%nat P eq_refl) as (Q & EQ & HQ). cbn [nth_error] in EQ. injection EQ as EQ. rewrite <- EQ in HQ. exact HQ.
Qed.
Lemma point_ext (P Q : tpoint F) : (forall i, (i < 4)%nat -> tv P i = tv Q i) -> P = Q.
Proof.
  intros H. destruct P as [a b c d], Q as [a' b' c' d']. pose proof (v_inj _ _ (H 0%nat ltac:(lia))) as E0. pose proof (v_inj _ _ (H 1%nat ltac:(lia))) as E1. pose proof (v_inj _ _ (H 2%nat ltac:(lia))) as E2. pose proof (v_inj _ _ (H 3%nat ltac:(lia))) as E3.
  cbn [crd tX tY tZ tT] in *. subst. reflexivity.
Qed.
Lemma stage0_scale m c x y i : (forall j, (j < 4)%nat -> y j = c * x j) -> (i < 4)%nat -> stage0 m y i = c * stage0 m x i.
Proof. intros H Hi. unfold stage0. destruct (Nat.eqb m 0); [|apply H; exact Hi]. rewrite <- (L_Theta.dual_scale L). apply (L_Theta.dual_ext L). exact H. Qed.
Lemma step_map_scale m A c x y i : (forall i, (i < 4)%nat -> A i <> 0) -> (forall j, (j < 4)%nat -> y j = c * x j) -> (i < 4)%nat -> step_map m A y i = c * c * step_map m A x i.
Proof.
  intros N H Hi. assert (G : forall j, (j < 4)%nat -> sqdual (stage0 m y) j / A j = c * c * (sqdual (stage0 m x) j / A j)).
  { intros j Hj. rewrite (sqdual_scale FT c (stage0 m x)) by (intros k Hk; apply stage0_scale; assumption). pose proof (N j Hj). field. assumption. }
  unfold step_map, stage1. destruct (Nat.leb 2 m); [|exact (G i Hi)]. rewrite <- (L_Theta.dual_scale L). apply (L_Theta.dual_ext L). exact G.
Qed.
Lemma hyp_same m N T1 T2 U1 U2 A : same_point (tv U1) (tv T1) -> same_point (tv U2) (tv T2) -> step_hyp m N T1 T2 A -> step_hyp m N U1 U2 A.
Proof.
  intros (c & Hc & H1) (d & Hd & H2) (HA & HE & x & z & t & Nx & Nz & Nt & E1 & E2 & E3 & E4 & E5 & E6). split; [exact HA|]. split; [exact HE|].
  exists (c * c * x), (d * d * z), (d * d * t). pose proof (mul_nz FT) as MN. split; [auto|]. split; [auto|]. split; [auto|].
  rewrite !(sqdual_scale FT c (stage0 m (tv T1)) (stage0 m (tv U1))) by (intros k Hk; apply stage0_scale; assumption). rewrite !(sqdual_scale FT d (stage0 m (tv T2)) (stage0 m (tv U2))) by (intros k Hk; apply stage0_scale; assumption).
  rewrite E1, E2, E3, E4, E5, E6. repeat split; ring.
Qed.
(* a step depends on its kernel points only projectively *)
Lemma step_same m N T1 T2 U1 U2 A : (m <> 0%nat -> wf_null (tv N)) -> same_point (tv U1) (tv T1) -> same_point (tv U2) (tv T2) -> step_hyp m N T1 T2 A ->
  step_cod o m (ts_new o N) U1 U2 = step_cod o m (ts_new o N) T1 T2 /\
  forall P Q, same_point (tv P) (tv Q) -> same_point (tv (step_img o m (ts_new o N) U1 U2 P)) (tv (step_img o m (ts_new o N) T1 T2 Q)).
Proof.
  intros W S1 S2 H. pose proof (hyp_same _ _ _ _ _ _ _ S1 S2 H) as H'. destruct (step_value m N T1 T2 A W H) as [(N1 & E1 & V1) I1]. destruct (step_value m N U1 U2 A W H') as [(N2 & E2 & V2) I2].
  split; [rewrite E1, E2; f_equal; apply point_ext; intros i Hi; rewrite V1, V2 by exact Hi; reflexivity|].
  intros P Q (c & Hc & HPQ). exists (c * c). split; [apply (mul_nz FT); exact Hc|]. intros i Hi. rewrite I1, I2 by exact Hi. destruct H as [HA _]. rewrite (step_map_scale m A c (tv Q) (tv P)) by (auto; intros j Hj; apply (HA j Hj)). ring.
Qed.

(** doubling *)
Lemma dbl_value N P : generic_null (tv N) -> same_point (tv (theta_double o (ts_new o N) P)) (theta_dbl (tv N) (tv P)).
Proof.
  intros G. pose proof (generic_wf _ G) as W. exists (tv N 0%nat * sqdual (tv N) 0%nat). split; [apply (mul_nz FT); [apply (proj1 W)|apply (proj2 W)]; lia|].
  intros i Hi. apply (double_ok L); assumption.
Qed.
Lemma dbl_onk N P : generic_null (tv N) -> on_kummer (tv N) (tv P) -> on_kummer (tv N) (tv (theta_double o (ts_new o N) P)).
Proof. intros G H. apply (onk_same FT (tv N) _ (theta_dbl (tv N) (tv P))); [apply (same_refl FT)|apply dbl_value; exact G|]. apply (double_kummer FT two_nz); assumption. Qed.
Lemma iter_onk N P n : generic_null (tv N) -> on_kummer (tv N) (tv P) -> on_kummer (tv N) (tv (theta_double_iter o (ts_new o N) P n)).
Proof. intros G H. unfold theta_double_iter. induction n as [|n IH]; [exact H|]. cbn [Nat.iter nat_rect]. apply dbl_onk; assumption. Qed.
Lemma double_same N P Q : generic_null (tv N) -> same_point (tv P) (tv Q) -> same_point (tv (theta_double o (ts_new o N) P)) (tv (theta_double o (ts_new o N) Q)).
Proof.
  intros G H. apply (same_trans FT _ (theta_dbl (tv N) (tv P))); [apply dbl_value; exact G|]. apply (same_trans FT _ (theta_dbl (tv N) (tv Q))); [|apply (same_sym FT), dbl_value; exact G].
  apply (dbl_same FT); [exact G|apply (same_refl FT)|exact H].
Qed.
Lemma iter_same N P Q n : generic_null (tv N) -> same_point (tv P) (tv Q) -> same_point (tv (theta_double_iter o (ts_new o N) P n)) (tv (theta_double_iter o (ts_new o N) Q n)).
Proof. intros G H. unfold theta_double_iter. induction n as [|n IH]; [exact H|]. cbn [Nat.iter nat_rect]. apply double_same; assumption. Qed.
Lemma iter_add (N : tpoint F) (P : tpoint F) a b : theta_double_iter o (ts_new o N) (theta_double_iter o (ts_new o N) P a) b = theta_double_iter o (ts_new o N) P (a + b)%nat.
Proof. unfold theta_double_iter. rewrite Nat.add_comm. induction b as [|b IH]; [reflexivity|]. cbn [Nat.iter nat_rect Nat.add]. f_equal. exact IH. Qed.

(** a step with the Hadamard transform at the end: the codomain is generic again, images are on its surface, and doubling commutes with it *)
Lemma step_kummer m N T1 T2 A N' : (2 <= m)%nat -> generic_null (tv N) -> step_hyp m N T1 T2 A -> step_cod o m (ts_new o N) T1 T2 = ts_new o N' ->
  generic_null (tv N') /\ forall P, on_kummer (tv N) (tv P) -> on_kummer (tv N') (tv (step_img o m (ts_new o N) T1 T2 P)) /\
    same_point (tv (step_img o m (ts_new o N) T1 T2 (theta_double o (ts_new o N) P))) (tv (theta_double o (ts_new o N') (step_img o m (ts_new o N) T1 T2 P))).
Proof.
  intros Hm G H EN. pose proof (generic_wf _ G) as W. destruct (step_value m N T1 T2 A (fun _ => W) H) as [(N1 & E1 & V1) I1]. rewrite E1 in EN. assert (N1 = N') as -> by (apply (f_equal ts_null) in EN; exact EN). clear EN E1.
  destruct H as (HA & HE & _). destruct (HE ltac:(lia)) as (e & Ne & Hsq). assert (HN : forall i, (i < 4)%nat -> A i <> 0) by (intros i Hi; apply (HA i Hi)). assert (HD : forall i, (i < 4)%nat -> dual A i <> 0) by (intros i Hi; apply (HA i Hi); exact Hm).
  pose proof (square_generic FT two_nz e _ _ G Hsq) as GA. pose proof (dual_generic FT two_nz _ GA HD) as GD. pose proof (HN 0%nat ltac:(lia)) as N0.
  assert (SN : same_point (tv N') (dual A)).
  { exists (1 / A 0%nat). split; [intros E; apply (F_1_neq_0 FT); transitivity (1 / A 0%nat * A 0%nat); [field; exact N0|rewrite E; ring]|]. intros i Hi. rewrite V1 by exact Hi. unfold stage1. rewrite (proj2 (Nat.leb_le _ _) Hm). field. exact N0. }
  assert (E0 : forall x, stage0 m x = x) by (intros x; unfold stage0; destruct m; [lia|reflexivity]).
  assert (E1 : forall x, step_map m A x = dual (fun i => sqdual x i / A i)) by (intros x; unfold step_map, stage1; rewrite (proj2 (Nat.leb_le _ _) Hm), E0; reflexivity).
  assert (SI : forall P, same_point (tv (step_img o m (ts_new o N) T1 T2 P)) (dual (fun i => sqdual (tv P) i / A i))).
  { intros P. exists (A 0%nat). split; [exact N0|]. intros i Hi. rewrite I1, E1 by exact Hi. reflexivity. }
  assert (GN : generic_null (tv N')) by (apply (gen_same FT (dual A)); assumption).
  split; [exact GN|]. intros P HP. set (s := fun i => sqdual (tv P) i / A i). assert (HS : on_kummer A s) by (apply (square_kummer FT two_nz e (tv N)); assumption).
  split; [apply (onk_same FT (dual A) _ (dual s)); [exact SN|apply SI|apply (dual_kummer FT two_nz); assumption]|].
  apply (same_trans FT _ (theta_dbl (dual A) (dual s))).
  - apply (same_trans FT _ (dual (fun i => sqdual (tv (theta_double o (ts_new o N) P)) i / A i))); [apply SI|]. destruct (dbl_value N P G) as (c & Hc & HV).
    pose proof (four_nz FT two_nz) as N4. exists (c * c * (4 / (e * e * e))). split; [apply (mul_nz FT); [apply (mul_nz FT); exact Hc|intros E; apply N4; transitivity (4 / (e * e * e) * (e * e * e)); [set (q := 4); clearbody q; field; exact Ne|rewrite E; ring]]|]. intros i Hi.
    rewrite <- (dual_double FT two_nz A s i GA HD HS Hi). rewrite <- (L_Theta.dual_scale L). apply (L_Theta.dual_ext L). intros j Hj. rewrite (sqdual_scale FT c (theta_dbl (tv N) (tv P))) by exact HV.
    transitivity (c * c * (sqdual (theta_dbl (tv N) (tv P)) j / A j)); [field; apply HN; exact Hj|]. rewrite (phi_double FT two_nz e (tv N) A (tv P) j Ne (proj1 G) (fun i Hi => conj (HN i Hi) (Hsq i Hi)) Hj). fold s. ring.
  - apply (same_sym FT). apply (same_trans FT _ (theta_dbl (tv N') (tv (step_img o m (ts_new o N) T1 T2 P)))); [apply dbl_value; exact GN|]. apply (dbl_same FT); [exact GD|exact SN|apply SI].
Qed.
Lemma step_iter m N T1 T2 A N' P n : (2 <= m)%nat -> generic_null (tv N) -> step_hyp m N T1 T2 A -> step_cod o m (ts_new o N) T1 T2 = ts_new o N' -> on_kummer (tv N) (tv P) ->
  same_point (tv (step_img o m (ts_new o N) T1 T2 (theta_double_iter o (ts_new o N) P n))) (tv (theta_double_iter o (ts_new o N') (step_img o m (ts_new o N) T1 T2 P) n)).
Proof.
  intros Hm G H EN HP. destruct (step_kummer m N T1 T2 A N' Hm G H EN) as [GN HK]. induction n as [|n IH]; [apply (same_refl FT)|].
  change (theta_double_iter o (ts_new o N) P (S n)) with (theta_double o (ts_new o N) (theta_double_iter o (ts_new o N) P n)).
  eapply (same_trans FT); [apply HK; apply iter_onk; assumption|]. apply (double_same N' _ (theta_double_iter o (ts_new o N') (step_img o m (ts_new o N) T1 T2 P) n)); assumption.
Qed.

(** the whole chain.  Every step of the chain without a strategy has its kernel above a dual null point A *)
Fixpoint kernel_ok (m : nat) (N x y : tpoint F) : Prop :=
  match m with
  | O => True
  | S m' => let d := ts_new o N in let u := theta_double_iter o d x m' in let w := theta_double_iter o d y m' in
      (exists A, step_hyp m' N u w A) /\ kernel_ok m' (ts_null (step_cod o m' d u w)) (step_img o m' d u w x) (step_img o m' d u w y)
  end.
Lemma loop_kummer n fs l N x y pts i : list_sum fs = n -> (2 <= n -> generic_null (tv N) /\ on_kummer (tv N) (tv x) /\ on_kummer (tv N) (tv y))%nat -> kernel_ok n N x y ->
  stack (fun c p q => c < n -> same_point (tv p) (tv (theta_double_iter o (ts_new o N) x c)) /\ same_point (tv q) (tv (theta_double_iter o (ts_new o N) y c)))%nat (fun l => Forall2 (fun p q => same_point (tv p) (tv q)) l i) fs l pts ->
  let R := chain (theta_double_iter o) (step_cod o) (step_img o) n (ts_new o N) x y i in
  exists pts', theta_loop (theta_double_iter o) (theta_push o) n (ts_new o N) l (levels fs) pts = Some (fst R, pts') /\ Forall2 (fun p q => same_point (tv p) (tv q)) pts' (snd R).
Proof.
  intros HL HG HK HS R.
  pose (Iv := fun m d (g : tpoint F * tpoint F * list (tpoint F)) => let '(x, y, i) := g in exists N, d = ts_new o N /\ (2 <= m -> generic_null (tv N) /\ on_kummer (tv N) (tv x) /\ on_kummer (tv N) (tv y))%nat /\ kernel_ok m N x y /\ chain (theta_double_iter o) (step_cod o) (step_img o) m d x y i = R).
  pose (Qv := fun (m : nat) d (g : tpoint F * tpoint F * list (tpoint F)) c p q => let '(x, y, i) := g in (c < m)%nat -> same_point (tv p) (tv (theta_double_iter o d x c)) /\ same_point (tv q) (tv (theta_double_iter o d y c))).
  pose (Bv := fun (m : nat) (d : tstruct F) (g : tpoint F * tpoint F * list (tpoint F)) l => let '(x, y, i) := g in Forall2 (fun p q => same_point (tv p) (tv q)) l i).
  destruct (loop_ok (theta_double_iter o) (theta_push o) (step_cod o) (step_img o) (theta_push_map o) Iv Qv Bv) with (m := n) (d := ts_new o N) (g := (x, y, i)) (fs := fs) (l := l) (pts := pts) as (d' & [[x' y'] i'] & pts' & EL & (N' & -> & _ & _ & HR) & HB').
  - intros m d [[x0 y0] i0] c s p q (N0 & -> & HG0 & _) HQ Hc. destruct (HQ ltac:(lia)) as [H1 H2]. destruct s as [|s].
    + rewrite Nat.add_0_r. split; assumption.
    + destruct (HG0 ltac:(lia)) as (G & _). rewrite <- !iter_add. split; apply iter_same; assumption.
  - intros m d [[x0 y0] i0] p q (N0 & -> & HG0 & [(A & HA) HK0] & HR0) HQ. destruct (HQ ltac:(lia)) as [H1 H2]. set (u := theta_double_iter o (ts_new o N0) x0 m) in *. set (w := theta_double_iter o (ts_new o N0) y0 m) in *.
    assert (W : m <> 0%nat -> wf_null (tv N0)) by (intros Hm; apply generic_wf, HG0; lia).
    destruct (step_same m N0 u w p q A W H1 H2 HA) as [EC HI]. destruct (step_value m N0 u w A W HA) as [(N1 & E1 & V1) _]. set (f := step_img o m (ts_new o N0) u w) in *.
    exists (f x0, f y0, map f i0). rewrite EC, E1. split; [|split].
    + exists N1. split; [reflexivity|]. split; [|split].
      * intros Hm. destruct (HG0 ltac:(lia)) as (G & Hx & Hy). destruct (step_kummer m N0 u w A N1 Hm G HA E1) as [GN HKu]. split; [exact GN|]. split; apply HKu; assumption.
      * rewrite E1 in HK0. exact HK0.
      * rewrite <- HR0, <- E1. reflexivity.
    + intros c p' q' HQ' Hc. destruct (HQ' ltac:(lia)) as [H3 H4]. destruct c as [|c]; [split; apply HI; assumption|]. destruct (HG0 ltac:(lia)) as (G & Hx & Hy).
      split; (eapply (same_trans FT); [apply HI; eassumption|]; apply (step_iter m N0 u w A N1); [lia|assumption|assumption|assumption|assumption]).
    + intros l0 Hl. change (Forall2 (fun p q => same_point (tv p) (tv q)) (map (step_img o m (ts_new o N0) p q) l0) (map f i0)). change (Forall2 (fun p q => same_point (tv p) (tv q)) l0 i0) in Hl. clear - Hl HI. induction Hl as [|a b l1 l2 Hab Hl IH]; cbn [map]; constructor; [apply HI; exact Hab|exact IH].
  - exists N. auto.
  - exact HS.
  - exact HL.
  - exists pts'. cbn [chain] in HR. fold R. rewrite <- HR. cbn [fst snd]. split; [exact EL|exact HB'].
Qed.
End Step.
