(** The end of a product isogeny (M_Theta.v, product_finish) depends on theta points only projectively, and product isogenies do not depend on the strategy. *)
From Coq Require Import Arith ZArith List Bool Ring Field Lia.
From Verif Require Import M_Fp M_Field M_Curve M_Theta S_Curve S_Theta S_KummerSurf S_Strategy L_Group L_Field L_Curve L_Theta L_KummerSurf L_KummerFun L_Strategy L_ThetaStep P_Strategy.
Import ListNotations.
Lemma Forall2_rev {A B} (R : A -> B -> Prop) l l' : Forall2 R l l' -> Forall2 R (rev l) (rev l').
Proof. induction 1; [constructor|]. cbn [rev]. apply Forall2_app; [assumption|]. constructor; [assumption|constructor]. Qed.
Lemma Forall2_len {A B} (R : A -> B -> Prop) l l' : Forall2 R l l' -> length l = length l'.
Proof. induction 1; cbn [length]; congruence. Qed.
Section Prod.
Context {F : Type} {o : fops F}.
Context {K : Type} {k0 k1 : K} {kadd kmul ksub : K -> K -> K} {kopp : K -> K} {kdiv : K -> K -> K} {kinv : K -> K} {keq : K -> K -> bool} {v : F -> K}.
Context (L : flaws o k0 k1 kadd kmul ksub kopp kdiv kinv keq v) (v_inj : forall x y, v x = v y -> x = y).
Let FT := l_ft _ _ _ _ _ _ _ _ _ _ _ L.
Let keq_ok := l_keq _ _ _ _ _ _ _ _ _ _ _ L.
Let two_nz := l_two_nz _ _ _ _ _ _ _ _ _ _ _ L.
Add Field Kfp : FT.
Local Notation "0" := k0. Local Notation "1" := k1.
Local Notation "2" := (kadd k1 k1). Local Notation "4" := (kadd (kadd k1 k1) (kadd k1 k1)).
Local Infix "+" := kadd. Local Infix "*" := kmul. Local Infix "-" := ksub. Local Infix "/" := kdiv. Local Notation "- x" := (kopp x).
Local Notation dual := (dual kadd kopp). Local Notation sqdual := (sqdual kadd kmul kopp). Local Notation theta_dbl := (theta_dbl kadd kmul kopp kdiv).
Local Notation theta_image := (theta_image kadd kmul kopp kdiv). Local Notation level22 := (level22 kadd kmul kopp). Local Notation splits := (splits kmul).
Local Notation on_kummer := (on_kummer k0 k1 kadd kmul ksub). Local Notation generic_null := (generic_null k0 kadd kmul kopp). Local Notation same_point := (same_point k0 kmul).
Local Notation tv := (@tv F K v). Local Notation kernel8 := (@kernel8 K k0 kmul). Local Notation wf_null := (@wf_null K k0 kadd kmul kopp).
Ltac vs := repeat first
  [ rewrite (l_add _ _ _ _ _ _ _ _ _ _ _ L) | rewrite (l_sub _ _ _ _ _ _ _ _ _ _ _ L) | rewrite (l_mul _ _ _ _ _ _ _ _ _ _ _ L)
  | rewrite (l_sq _ _ _ _ _ _ _ _ _ _ _ L) | rewrite (l_neg _ _ _ _ _ _ _ _ _ _ _ L) | rewrite (l_inv _ _ _ _ _ _ _ _ _ _ _ L) | rewrite (l_div _ _ _ _ _ _ _ _ _ _ _ L)
  | rewrite (l_zero _ _ _ _ _ _ _ _ _ _ _ L) | rewrite (l_one _ _ _ _ _ _ _ _ _ _ _ L) ].
Ltac four i H := destruct i as [|[|[|[|i]]]]; [| | | |exfalso; lia]; clear H.
Local Notation aff := (@aff F K k0 kdiv keq v). Local Notation popp := (popp kopp). Local Notation on := (on kadd kmul).
Local Notation loop_kummer := (loop_kummer L v_inj). Local Notation kernel_ok := (kernel_ok (o := o) (k0 := k0) (kadd := kadd) (kmul := kmul) (kopp := kopp) (v := v)).
Definition same_abs (p q : pt K) : Prop := p = q \/ p = popp q.
Definition same_cpl (R R' : couple F) : Prop := same_abs (aff (c1 R)) (aff (c1 R')) /\ same_abs (aff (c2 R)) (aff (c2 R')).
Definition same_res (r r' : option (eprod F * list (couple F))) : Prop :=
  match r, r' with None, None => True | Some (EE, l), Some (EE', l') => EE = EE' /\ Forall2 same_cpl l l' | _, _ => False end.
Lemma abs_eq A x y y' : on A (Some (x, y)) -> on A (Some (x, y')) -> same_abs (Some (x, y)) (Some (x, y')).
Proof.
  intros H H'. cbn in H, H'. assert (E : (y - y') * (y + y') = 0) by (transitivity (y * y - y' * y'); [ring|rewrite H, H'; ring]).
  destruct (mul0 FT keq_ok _ _ E) as [D|D]; [left|right].
  - replace y with y'; [reflexivity|]. transitivity (y - (y - y')); [ring|rewrite D; ring].
  - cbn. replace y with (- y'); [reflexivity|]. transitivity (y - (y + y')); [ring|rewrite D; ring].
Qed.
Lemma change_same P Q M : same_point (tv P) (tv Q) -> same_point (tv (apply_base_change o P M)) (tv (apply_base_change o Q M)).
Proof.
  intros (c & Hc & H). exists c. split; [exact Hc|]. intros i Hi. rewrite !(map_crd L) by exact Hi. rewrite !H by lia. ring.
Qed.
Lemma complete_same E X X' c : c <> 0 -> v (xX X) = c * v (xX X') -> v (xZ X) = c * v (xZ X') -> same_abs (aff (fst (complete_pointX o E X))) (aff (fst (complete_pointX o E X'))).
Proof.
  intros Hc EX EZ. pose proof (complete_ok L E X) as H1. pose proof (complete_ok L E X') as H2.
  destruct (complete_pointX o E X) as [R ok]. destruct (complete_pointX o E X') as [R' ok']. cbn [fst]. destruct H1 as [H1 I1], H2 as [H2 I2].
  destruct (keqP L (v (xZ X')) 0) as [Z|Z].
  - rewrite Z in EZ. assert (Z' : v (xZ X) = 0) by (rewrite EZ; ring). rewrite (proj2 (I1 Z')), (proj2 (I2 Z)). left. reflexivity.
  - assert (Z2 : v (xZ X) <> 0) by (rewrite EZ; apply (mul_nz FT); assumption).
    specialize (H1 Z2). specialize (H2 Z). assert (Ex : v (xX X) / v (xZ X) = v (xX X') / v (xZ X')) by (rewrite EX, EZ; field; split; assumption). rewrite Ex in H1.
    destruct H1 as (A1 & B1 & C1), H2 as (A2 & B2 & C2). destruct ok, ok'.
    + destruct (B1 eq_refl) as (y1 & Y1 & O1). destruct (B2 eq_refl) as (y2 & Y2 & O2). unfold onc in O1, O2. rewrite Y1 in O1 |- *. rewrite Y2 in O2 |- *. exact (abs_eq _ _ _ _ O1 O2).
    + pose proof (proj2 A2 (proj1 A1 eq_refl)). discriminate.
    + pose proof (proj2 A1 (proj1 A2 eq_refl)). discriminate.
    + rewrite (C1 eq_refl), (C2 eq_refl). left. reflexivity.
Qed.
Lemma montgomery_same a b U V U' V' c : v U = c * v U' -> v V = c * v V' -> let X := theta_point_to_montgomery_point o (a, b) (U, V) in let X' := theta_point_to_montgomery_point o (a, b) (U', V') in
  v (xX X) = c * v (xX X') /\ v (xZ X) = c * v (xZ X').
Proof. intros HU HV. unfold theta_point_to_montgomery_point. cbn [xX xZ]. vs. rewrite HU, HV. split; ring. Qed.
Lemma finish_same dom pts pts' num : Forall2 (fun P Q => same_point (tv P) (tv Q)) (firstn num pts) (firstn num pts') -> same_res (product_finish o dom pts num) (product_finish o dom pts' num).
Proof.
  intros H. unfold product_finish, splitting_isomorphism. destruct (compute_splitting_matrix o (ts_null dom)) as [M|]; [|exact I].
  unfold split_to_product. change (ts_null (ts_new o (apply_base_change o (ts_null dom) M))) with (apply_base_change o (ts_null dom) M).
  destruct (apply_base_change o (ts_null dom) M) as [n0 n1 n2 n3]. change (split_theta_point (mkT n0 n1 n2 n3)) with ((n0, n1), (n1, n3)). cbv beta iota.
  destruct (null_point_to_montgomery_curve o (n0, n1)) as [E3|]; [|exact I]. destruct (null_point_to_montgomery_curve o (n1, n3)) as [E4|]; [|exact I].
  split; [reflexivity|]. rewrite !firstn_map. set (l := firstn num pts) in *. set (l' := firstn num pts') in *. clearbody l l'. clear pts pts'.
  induction H as [|P Q l l' HPQ H IH]; cbn [map]; constructor; [|exact IH]. apply (change_same _ _ M) in HPQ. destruct HPQ as (c & Hc & HPQ).
  set (P' := apply_base_change o P M) in *. set (Q' := apply_base_change o Q M) in *. clearbody P' Q'. pose proof (HPQ 0%nat ltac:(lia)) as H0. pose proof (HPQ 1%nat ltac:(lia)) as H1. pose proof (HPQ 3%nat ltac:(lia)) as H3. clear HPQ.
  destruct P' as [p0 p1 p2 p3], Q' as [r0 r1 r2 r3]. unfold L_Theta.tv, crd in H0, H1, H3. cbn [tX tY tZ tT] in *. unfold split_theta_point. cbn [tX tY tZ tT]. split; cbn [c1 c2].
  - destruct (montgomery_same n0 n1 p0 p1 r0 r1 c H0 H1) as [HX HZ]. exact (complete_same E3 _ _ c Hc HX HZ).
  - destruct (montgomery_same n1 n3 p1 p3 r1 r3 c H1 H3) as [HX HZ]. exact (complete_same E4 _ _ c Hc HX HZ).
Qed.
Definition glue_dom (EE : eprod F) (P Q : couple F) (n : nat) : tpoint F := ts_null (fst (gluing_isogeny o EE (prod_double_iter o EE P n) (prod_double_iter o EE Q n) [])).
Definition glue_img (EE : eprod F) (P Q : couple F) (n : nat) (R : couple F) : tpoint F :=
  hd (mkT (fzero o) (fzero o) (fzero o) (fzero o)) (snd (gluing_isogeny o EE (prod_double_iter o EE P n) (prod_double_iter o EE Q n) [R])).
Lemma product_same EE P Q imgs n s : strat (S n) s -> let N := glue_dom EE P Q n in let g := glue_img EE P Q n in
  generic_null (tv N) -> (forall R, In R [P; Q] -> on_kummer (tv N) (tv (g R)) /\ forall c, (c < n)%nat -> same_point (tv (g (prod_double_iter o EE R c))) (tv (theta_double_iter o (ts_new o N) (g R) c))) ->
  kernel_ok n N (g P) (g Q) -> same_res (product_isogeny o EE P Q imgs (S n) s) (product_isogeny_no_strategy o EE P Q imgs (S n)).
Proof.
  intros Hs N g G HG HK.
  assert (EN : fst (gluing_isogeny o EE (prod_double_iter o EE P n) (prod_double_iter o EE Q n) []) = ts_new o N).
  { unfold N, glue_dom, gluing_isogeny, gluing_codomain. reflexivity. }
  destruct (HG P (or_introl eq_refl)) as [OP DP]. destruct (HG Q (or_intror (or_introl eq_refl))) as [OQ DQ]. clear HG.
  destruct (glue_stack o EE P Q imgs n s Hs) as (fs & l & cpts & E & HS & HL).
  destruct (loop_kummer n fs l N (g P) (g Q) (map g cpts) (rev (map g imgs)) HL (fun _ => conj G (conj OP OQ)) HK) as (pts & EL & HF).
  { refine (stack_map2 _ _ _ _ g _ _ _ _ _ HS).
    - intros c u w [-> ->] Hc. split; [apply DP|apply DQ]; exact Hc.
    - intros l0 ->. rewrite map_rev. generalize (rev (map g imgs)). intros l1. induction l1 as [|p l1 IH]; constructor; [exact (same_refl FT _)|exact IH]. }
  unfold product_isogeny. rewrite E. cbn [tl]. rewrite gluing_map, EN. fold (glue_img EE P Q n). fold g. rewrite map_rev, rev_involutive. change (tl (fs ++ [0%nat])) with (tl (levels (1%nat :: fs))). rewrite tl_levels, EL.
  unfold product_isogeny_no_strategy. rewrite gluing_map, EN. fold (glue_img EE P Q n). fold g. rewrite map_app. cbn [map].
  destruct (naive_ok o n (ts_new o N) (g P) (g Q) (map g imgs)) as (pts0 & E0 & H0). rewrite map_length in E0, H0. rewrite E0.
  assert (CH : forall m d x y i, chain (theta_double_iter o) (step_cod o) (step_img o) m d x y (rev i) = (fst (chain (theta_double_iter o) (step_cod o) (step_img o) m d x y i), rev (snd (chain (theta_double_iter o) (step_cod o) (step_img o) m d x y i)))).
  { clear. induction m as [|m IH]; intros d x y i; [reflexivity|]. cbn [chain]. rewrite map_rev, IH. reflexivity. }
  rewrite CH in HF |- *. cbn [fst snd] in HF |- *. apply finish_same. rewrite H0.
  assert (LE : length (snd (chain (theta_double_iter o) (step_cod o) (step_img o) n (ts_new o N) (g P) (g Q) (map g imgs))) = length imgs).
  { assert (CL : forall m d x y i, length (snd (chain (theta_double_iter o) (step_cod o) (step_img o) m d x y i)) = length i) by (clear; induction m as [|m IH]; intros d x y i; [reflexivity|]; cbn [chain]; rewrite IH, map_length; reflexivity). rewrite CL, map_length. reflexivity. }
  set (R := snd _) in *. clearbody R. rewrite firstn_all2.
  - clear - HF. rewrite <- (rev_involutive R). apply Forall2_rev. exact HF.
  - assert (LL := Forall2_len _ _ _ HF). rewrite rev_length in *. lia.
Qed.
End Prod.
