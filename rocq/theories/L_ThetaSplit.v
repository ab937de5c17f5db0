(** The splitting at the end of the chain (M_Theta.v, compute_splitting_matrix and product_finish) where the vanishing constant is (c,0). *)
From Coq Require Import Arith ZArith List Bool Ring Field Lia.
From Verif Require Import M_Fp M_Field M_Curve M_Theta S_Curve S_Theta S_KummerSurf S_Strategy L_Group L_Field L_Curve L_Theta L_KummerSurf L_KummerFun L_Strategy L_ThetaStep L_ThetaEnd.
Import ListNotations.
Section Split.
Context {F : Type} {o : fops F}.
Context {K : Type} {k0 k1 : K} {kadd kmul ksub : K -> K -> K} {kopp : K -> K} {kdiv : K -> K -> K} {kinv : K -> K} {keq : K -> K -> bool} {v : F -> K}.
Context (L : flaws o k0 k1 kadd kmul ksub kopp kdiv kinv keq v) (v_inj : forall x y, v x = v y -> x = y).
Let FT := l_ft _ _ _ _ _ _ _ _ _ _ _ L.
Let keq_ok := l_keq _ _ _ _ _ _ _ _ _ _ _ L.
Let two_nz := l_two_nz _ _ _ _ _ _ _ _ _ _ _ L.
Add Field Kfs : FT.
Local Notation "0" := k0. Local Notation "1" := k1.
Local Notation "2" := (kadd k1 k1). Local Notation "4" := (kadd (kadd k1 k1) (kadd k1 k1)).
Local Infix "+" := kadd. Local Infix "*" := kmul. Local Infix "-" := ksub. Local Infix "/" := kdiv. Local Notation "- x" := (kopp x).
Local Notation dual := (dual kadd kopp). Local Notation sqdual := (sqdual kadd kmul kopp).
Local Notation level22 := (level22 kadd kmul kopp). Local Notation splits := (splits kmul).
Local Notation on_kummer := (on_kummer k0 k1 kadd kmul ksub). Local Notation generic_null := (generic_null k0 kadd kmul kopp). Local Notation same_point := (same_point k0 kmul).
Local Notation tv := (@tv F K v). Local Notation kernel8 := (@kernel8 K k0 kmul). Local Notation wf_null := (@wf_null K k0 kadd kmul kopp). Local Notation one_zero := (@one_zero K k0 kadd kmul kopp). Local Notation above := (@above K k0 kadd kmul kopp).
Ltac vs := repeat first [rewrite (l_neg _ _ _ _ _ _ _ _ _ _ _ L) | rewrite (l_one _ _ _ _ _ _ _ _ _ _ _ L) | rewrite (l_zero _ _ _ _ _ _ _ _ _ _ _ L)].
Ltac four i H := destruct i as [|[|[|[|i]]]]; [| | | |exfalso; lia]; clear H.
(* the three maps for the locations (1,0), (2,0), (3,0) in coordinates *)
Definition mat (c : nat) (a b d e : K) (i : nat) : K :=
  match c, i with
  | 1%nat, 0%nat => a+b+d+e | 1%nat, 1%nat => a-b-d+e | 1%nat, 2%nat => a+b-d-e | 1%nat, _ => b+e-a-d
  | 2%nat, 0%nat => a+b+d+e | 2%nat, 1%nat => a-b+d-e | 2%nat, 2%nat => a-b-d+e | 2%nat, _ => d+e-a-b
  | _, 0%nat => a+b+d+e | _, 1%nat => a-b+d-e | _, 2%nat => a+b-d-e | _, _ => b+d-a-e
  end.
Definition locm (c : nat) : nat := match c with 1%nat => 8%nat | 2%nat => 6%nat | _ => 7%nat end.
Lemma mat_ok c P i : (0 < c < 4)%nat -> (i < 4)%nat -> tv (apply_base_change o P (splitting_map o (locm c))) i = mat c (tv P 0%nat) (tv P 1%nat) (tv P 2%nat) (tv P 3%nat) i.
Proof.
  intros Hc Hi. rewrite (map_crd L) by exact Hi. destruct c as [|[|[|[|c]]]]; try lia; clear Hc; four i Hi; cbn [locm splitting_map Nat.mul Nat.add nth mat]; vs; ring.
Qed.
Ltac lev := unfold S_Theta.level22, S_Theta.sqdual, S_Theta.dual, sum4, sgn, dot; cbn [Nat.lxor Nat.odd Nat.even Nat.div Nat.divmod Pos.lxor fst snd negb xorb andb].
Lemma mat_splits c (x : nat -> K) : (0 < c < 4)%nat -> level22 x c 0 = 0 -> splits (mat c (x 0%nat) (x 1%nat) (x 2%nat) (x 3%nat)).
Proof.
  intros Hc H. unfold S_Theta.splits. apply (L_ThetaEnd.sub_eq FT). destruct c as [|[|[|[|c]]]]; try lia; clear Hc; revert H; unfold S_Theta.level22, sum4, sgn; cbn; intros H;
    match type of H with ?u = 0 => first [transitivity (2 * u); [ring|rewrite H; ring]|transitivity (- (2 * u)); [ring|rewrite H; ring]] end.
Qed.
Lemma nzk k x y : k <> 0 -> y = k * x -> x <> 0 -> y <> 0. Proof. intros Nk -> Nx. apply (mul_nz FT); assumption. Qed.
Lemma mat_wf c (x : nat -> K) : (0 < c < 4)%nat -> one_zero x c 0 -> wf_null (mat c (x 0%nat) (x 1%nat) (x 2%nat) (x 3%nat)).
Proof.
  intros Hc [_ H]. pose proof (mat_splits c x Hc) as HS. assert (E0 : level22 x c 0 = 0) by (apply H; [repeat split; [lia|lia|destruct c as [|[|[|[|c]]]]; try lia; reflexivity]|reflexivity]). specialize (HS E0). clear E0.
  assert (NZ : forall chi i, even_index chi i -> (chi, i) <> (c, 0%nat) -> level22 x chi i <> 0) by (intros chi i HE Hn E; apply Hn; apply H; assumption). clear H.
  pose proof (four_nz FT two_nz) as N4. assert (N4' : - (4) <> 0) by (apply (opp_nz FT); exact N4). assert (N2' : - (2) <> 0) by (apply (opp_nz FT); exact two_nz).
  set (n := mat c _ _ _ _) in *.
  assert (G : (forall i, (i < 4)%nat -> sqdual n i <> 0) /\ level22 n 0 1 <> 0 /\ level22 n 0 2 <> 0).
  { subst n. clear HS. destruct c as [|[|[|[|c]]]]; try lia; clear Hc; cbn [mat] in *.
    all: split; [intros i Hi; four i Hi|split].
    all: let tr k chi i := (apply (nzk k (level22 x chi i)); [assumption|unfold S_Theta.level22, S_Theta.sqdual, S_Theta.dual, sum4, sgn; cbn; ring|apply NZ; [repeat split; lia|discriminate]]) in
         let tk chi i := first [tr 4 chi i|tr (- (4)) chi i|tr 2 chi i|tr (- (2)) chi i] in
         first [tk 0%nat 0%nat|tk 1%nat 0%nat|tk 2%nat 0%nat|tk 3%nat 0%nat|tk 0%nat 1%nat|tk 2%nat 1%nat|tk 0%nat 2%nat|tk 1%nat 2%nat|tk 0%nat 3%nat|tk 3%nat 3%nat]. }
  destruct G as (G0 & G1 & G2). split; [|exact G0]. clearbody n. unfold S_Theta.splits in HS. assert (V1 : level22 n 0 1 = 2 * (n 0%nat * n 1%nat + n 2%nat * n 3%nat)) by (unfold S_Theta.level22, sum4, sgn; cbn; ring).
  assert (V2 : level22 n 0 2 = 2 * (n 0%nat * n 2%nat + n 1%nat * n 3%nat)) by (unfold S_Theta.level22, sum4, sgn; cbn; ring). rewrite V1 in G1. rewrite V2 in G2. clear V1 V2 G0.
  intros i Hi E. four i Hi; rewrite E in *;
    [assert (Z : n 1%nat * n 2%nat = 0) by (rewrite <- HS; ring)|assert (Z : n 0%nat * n 3%nat = 0) by (rewrite HS; ring)|assert (Z : n 0%nat * n 3%nat = 0) by (rewrite HS; ring)|assert (Z : n 1%nat * n 2%nat = 0) by (rewrite <- HS; ring)];
    destruct (mul0 FT keq_ok _ _ Z) as [D|D]; rewrite D in *; first [apply G1; ring|apply G2; ring].
Qed.
(** the whole splitting *)
Lemma split_at c N : (0 < c < 4)%nat -> one_zero (tv N) c 0 -> exists M, compute_splitting_matrix o N = Some M /\ wf_null (tv (apply_base_change o N M)) /\ splits (tv (apply_base_change o N M)) /\
  (forall P, level22 (tv P) c 0 = 0 -> splits (tv (apply_base_change o P M))) /\ (forall P, (forall i, (i < 4)%nat -> tv (apply_base_change o P M) i = 0) -> forall i, (i < 4)%nat -> tv P i = 0).
Proof.
  intros Hc H. pose proof (splitting_ok L N c 0 H) as HI. assert (EM : compute_splitting_matrix o N = Some (splitting_map o (locm c))).
  { unfold compute_splitting_matrix. rewrite (even_index_ok L _ _ _ H). destruct c as [|[|[|[|c]]]]; try lia; reflexivity. }
  destruct HI as (M' & EM' & HS & HI). { intros E. injection E as E. lia. } rewrite EM in EM'. assert (M' = splitting_map o (locm c)) as -> by (injection EM'; auto).
  exists (splitting_map o (locm c)). split; [exact EM|]. assert (SP : forall P, level22 (tv P) c 0 = 0 -> splits (tv (apply_base_change o P (splitting_map o (locm c))))).
  { intros P HP. pose proof (mat_splits c (tv P) Hc HP) as Q. unfold S_Theta.splits in *. rewrite !mat_ok by (exact Hc || lia). exact Q. }
  split; [|split; [exact HS|split; [exact SP|exact HI]]]. destruct (mat_wf c (tv N) Hc H) as [W1 W2]. split; intros i Hi.
  - rewrite mat_ok by assumption. apply W1. exact Hi.
  - rewrite (sqdual_ext L _ (mat c (tv N 0%nat) (tv N 1%nat) (tv N 2%nat) (tv N 3%nat))) by (intros j Hj; apply mat_ok; assumption). apply W2. exact Hi.
Qed.

(** ** The last steps *)
Local Notation step_hyp := (step_hyp (k0 := k0) (kadd := kadd) (kmul := kmul) (kopp := kopp) (v := v)).
Lemma level22_scale c x y chi i : (i < 4)%nat -> (forall j, (j < 4)%nat -> y j = c * x j) -> level22 y chi i = c * c * level22 x chi i.
Proof.
  intros Hi H. unfold S_Theta.level22, sum4. rewrite !H by (try apply lxor_lt; lia). unfold sgn. destruct (dot chi 0), (dot chi 1), (dot chi 2), (dot chi 3); ring.
Qed.
(* the step before the last: its codomain, in dual coordinates, is generic and images are on its surface *)
Lemma raw_step N T1 T2 A N' : generic_null (tv N) -> step_hyp 1 N T1 T2 A -> step_cod o 1 (ts_new o N) T1 T2 = ts_new o N' ->
  generic_null (tv N') /\ forall P, on_kummer (tv N) (tv P) -> on_kummer (tv N') (tv (step_img o 1 (ts_new o N) T1 T2 P)).
Proof.
  intros G H EN. destruct (step_value L v_inj 1 N T1 T2 A (fun _ => generic_wf L _ G) H) as [(N1 & E1 & V1) I1]. rewrite E1 in EN. assert (N1 = N') as -> by (apply (f_equal ts_null) in EN; exact EN). clear EN E1.
  destruct H as (HA & HE & _). destruct (HE ltac:(discriminate)) as (e & Ne & Hsq). pose proof (square_generic FT two_nz e _ _ G Hsq) as GA. pose proof (proj1 (HA 0%nat ltac:(lia))) as N0.
  assert (SN : same_point (tv N') A). { exists (1 / A 0%nat). split; [intros E; apply (F_1_neq_0 FT); transitivity (1 / A 0%nat * A 0%nat); [field; exact N0|rewrite E; ring]|]. intros i Hi. rewrite V1 by exact Hi. unfold stage1. cbn [Nat.leb]. field. exact N0. }
  split; [apply (gen_same FT A); assumption|]. intros P HP. apply (onk_same FT A _ (fun i => sqdual (tv P) i / A i)); [exact SN| |apply (square_kummer FT two_nz e (tv N)); assumption].
  exists (A 0%nat). split; [exact N0|]. intros i Hi. rewrite I1 by exact Hi. reflexivity.
Qed.
(* the last step, where the dual null point has a zero coordinate *)
Lemma last_step N T1 T2 A c e N' : generic_null (tv N) -> step_hyp 0 N T1 T2 A -> above e (dual (tv N)) A -> (c < 4)%nat -> dual (tv N) c = 0 -> step_cod o 0 (ts_new o N) T1 T2 = ts_new o N' ->
  one_zero (tv N') c 0 /\ forall P, on_kummer (tv N) (tv P) -> level22 (tv (step_img o 0 (ts_new o N) T1 T2 P)) c 0 = 0.
Proof.
  intros G H AB Hc HZ EN. destruct (step_value L v_inj 0 N T1 T2 A (fun n => match n eq_refl with end) H) as [(N1 & E1 & V1) I1]. rewrite E1 in EN. assert (N1 = N') as -> by (apply (f_equal ts_null) in EN; exact EN). clear EN E1.
  pose proof (proj1 (proj1 H 0%nat ltac:(lia))) as N0. assert (NI : 1 / A 0%nat <> 0) by (intros E; apply (F_1_neq_0 FT); transitivity (1 / A 0%nat * A 0%nat); [field; exact N0|rewrite E; ring]). split.
  - split; [repeat split; [exact Hc|lia|four c Hc; reflexivity]|]. intros chi i HE. rewrite (level22_scale (1 / A 0%nat) A) by (try apply HE; intros j Hj; rewrite V1 by exact Hj; unfold stage1; cbn [Nat.leb]; field; exact N0).
    rewrite <- (end_only FT two_nz e (tv N) A c G Hc HZ AB chi i HE). split; [intros E|intros ->; ring]. apply (prod0 FT _ _ E). apply (mul_nz FT); exact NI.
  - intros P HP. rewrite (level22_scale (A 0%nat) (fun i => sqdual (dual (tv P)) i / A i)) by (try lia; intros j Hj; rewrite I1 by exact Hj; reflexivity).
    rewrite (end_zero FT two_nz e (tv N) (tv P) A c G HP Hc HZ AB). ring.
Qed.
(* without a zero coordinate the codomain is no product *)
Lemma last_generic N T1 T2 A e N' : generic_null (tv N) -> step_hyp 0 N T1 T2 A -> above e (dual (tv N)) A -> (forall i, (i < 4)%nat -> dual (tv N) i <> 0) -> step_cod o 0 (ts_new o N) T1 T2 = ts_new o N' -> generic_null (tv N').
Proof.
  intros G H AB HZ EN. destruct (step_value L v_inj 0 N T1 T2 A (fun n => match n eq_refl with end) H) as [(N1 & E1 & V1) I1]. rewrite E1 in EN. assert (N1 = N') as -> by (apply (f_equal ts_null) in EN; exact EN). clear EN E1.
  pose proof (proj1 (proj1 H 0%nat ltac:(lia))) as N0. apply (gen_same FT A); [|exact (end_generic FT two_nz e _ A G HZ AB)].
  exists (1 / A 0%nat). split; [intros E; apply (F_1_neq_0 FT); transitivity (1 / A 0%nat * A 0%nat); [field; exact N0|rewrite E; ring]|]. intros i Hi. rewrite V1 by exact Hi. unfold stage1. cbn [Nat.leb]. field. exact N0.
Qed.
(** the kernels of a chain to a product *)
Fixpoint ends_ok (c m : nat) (N x y : tpoint F) : Prop :=
  match m with
  | O => True
  | S m' => let d := ts_new o N in let u := theta_double_iter o d x m' in let w := theta_double_iter o d y m' in
      (exists A, step_hyp m' N u w A /\ (m' = 0%nat -> dual (tv N) c = 0 /\ exists e, above e (dual (tv N)) A)) /\ ends_ok c m' (ts_null (step_cod o m' d u w)) (step_img o m' d u w x) (step_img o m' d u w y)
  end.
Lemma ends_kernel c m : forall N x y, ends_ok c m N x y -> kernel_ok (o := o) (k0 := k0) (kadd := kadd) (kmul := kmul) (kopp := kopp) (v := v) m N x y.
Proof. induction m as [|m IH]; intros N x y H; [exact I|]. destruct H as [(A & HA & _) HK]. split; [exists A; exact HA|]. apply IH. exact HK. Qed.
Lemma chain_end c m : (c < 4)%nat -> forall N x y imgs, generic_null (tv N) -> Forall (fun P => on_kummer (tv N) (tv P)) imgs -> ends_ok c (S m) N x y ->
  let R := chain (theta_double_iter o) (step_cod o) (step_img o) (S m) (ts_new o N) x y imgs in
  exists N', fst R = ts_new o N' /\ one_zero (tv N') c 0 /\ Forall (fun P => level22 (tv P) c 0 = 0) (snd R).
Proof.
  intros Hc. induction m as [|m IH]; intros N x y imgs G HI [(A & HA & HL) HK]; change (chain (theta_double_iter o) (step_cod o) (step_img o) (S ?k) (ts_new o N) x y imgs) with
    (chain (theta_double_iter o) (step_cod o) (step_img o) k (step_cod o k (ts_new o N) (theta_double_iter o (ts_new o N) x k) (theta_double_iter o (ts_new o N) y k)) (step_img o k (ts_new o N) (theta_double_iter o (ts_new o N) x k) (theta_double_iter o (ts_new o N) y k) x)
      (step_img o k (ts_new o N) (theta_double_iter o (ts_new o N) x k) (theta_double_iter o (ts_new o N) y k) y) (map (step_img o k (ts_new o N) (theta_double_iter o (ts_new o N) x k) (theta_double_iter o (ts_new o N) y k)) imgs)).
  - destruct (HL eq_refl) as (HZ & e & AB). cbn [chain fst snd]. set (u := theta_double_iter o (ts_new o N) x 0) in *. set (w := theta_double_iter o (ts_new o N) y 0) in *.
    destruct (step_value L v_inj 0 N u w A (fun n => match n eq_refl with end) HA) as [(N1 & E1 & _) _]. destruct (last_step N u w A c e N1 G HA AB Hc HZ E1) as [H1 H2].
    exists N1. split; [exact E1|]. split; [exact H1|]. apply Forall_forall. intros Q HQ. apply in_map_iff in HQ. destruct HQ as (P & <- & HP). apply H2. rewrite Forall_forall in HI. exact (HI P HP).
  - set (u := theta_double_iter o (ts_new o N) x (S m)) in *. set (w := theta_double_iter o (ts_new o N) y (S m)) in *.
    destruct (step_value L v_inj (S m) N u w A (fun _ => generic_wf L _ G) HA) as [(N1 & E1 & _) _]. change (ends_ok c (S m) (ts_null (step_cod o (S m) (ts_new o N) u w)) (step_img o (S m) (ts_new o N) u w x) (step_img o (S m) (ts_new o N) u w y)) in HK. rewrite E1 in *. change (ts_null (ts_new o N1)) with N1 in HK.
    assert (Q : generic_null (tv N1) /\ forall P, on_kummer (tv N) (tv P) -> on_kummer (tv N1) (tv (step_img o (S m) (ts_new o N) u w P))).
    { destruct m as [|m]; [exact (raw_step N u w A N1 G HA E1)|]. destruct (step_kummer L v_inj (S (S m)) N u w A N1 ltac:(lia) G HA E1) as [Q1 Q2]. split; [exact Q1|]. intros P HP. exact (proj1 (Q2 P HP)). }
    apply IH; [exact (proj1 Q)| |exact HK]. apply Forall_forall. intros R HR. apply in_map_iff in HR. destruct HR as (P & <- & HP). apply (proj2 Q). rewrite Forall_forall in HI. exact (HI P HP).
Qed.
End Split.
