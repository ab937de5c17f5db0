(** C70: the end of a chain of (2,2)-isogenies (src/theta.rs:607-721, 771-1042): where the codomain of the last step is a product, which splitting map is taken, and what it does. *)
From Coq Require Import Arith ZArith List Bool Lia Ring Field.
From Verif Require Import S_Fp S_Fp2 S_Curve S_Theta S_KummerSurf S_Strategy M_Fp M_Fp2 M_Field M_Curve M_Theta L_Zp L_Zp2 L_Fp L_Fp2 L_Group L_Kummer L_Field L_QNum L_Curve L_Theta L_KummerSurf L_KummerFun L_Strategy L_ThetaStep L_ThetaProd L_ThetaEnd L_ThetaSplit L_ThetaEndEx P_Fp2 P_Params P_Curve P_Theta P_Festa P_Gluing P_Strategy P_KummerSurf.
Import ListNotations.
Open Scope nat_scope.
Add Field Zq_f70 : Zq_field.

(** ** Specification *)
(** A is the null point of the last step's codomain, N the null point before it, in dual coordinates, e a factor *)
Definition last_kernel (N T1 T2 : tpoint fq) (A : nat -> Zq) (e : Zq) : Prop :=
  e <> q0 /\ (forall i, i < 4 -> A i <> q0 /\ sqdualq (dualq (cv N)) i = qmul e (qmul (A i) (A i))) /\ above_kernel A (sqdualq (dualq (cv T1))) (sqdualq (dualq (cv T2))).
(** a chain to a product: its last step starts where coordinate c of the dual null point is zero *)
Fixpoint product_kernel (c m : nat) (N x y : tpoint fq) : Prop :=
  match m with
  | O => True
  | S m' => let d := ts_new fq_ops N in let u := theta_double_iter fq_ops d x m' in let w := theta_double_iter fq_ops d y m' in
      (if Nat.eqb m' 0 then dualq (cv N) c = q0 /\ exists A e, last_kernel N u w A e else exists A, step_kernel m' N u w A) /\
      product_kernel c m' (ts_null (step_cod fq_ops m' d u w)) (step_img fq_ops m' d u w x) (step_img fq_ops m' d u w y)
  end.
(** two coordinates for each factor; the product of two such pairs *)
Definition tensor (p q : Zq * Zq) (i : nat) : Zq := match i with 0 => qmul (fst p) (fst q) | 1 => qmul (snd p) (fst q) | 2 => qmul (fst p) (snd q) | _ => qmul (snd p) (snd q) end.
Definition pv (p : fq * fq) : Zq * Zq := (fqv (fst p), fqv (snd p)).

Lemma last_step_kernel N T1 T2 A e : last_kernel N T1 T2 A e -> step_kernel 0 N T1 T2 A /\ above (k0 := q0) (kadd := qadd) (kmul := qmul) (kopp := qopp) e (dualq (cv N)) A.
Proof. intros (He & HA & HK). split; [split; [intros i Hi; split; [apply (HA i Hi)|lia]|split; [intros H; contradiction H; reflexivity|exact HK]]|split; [exact He|exact HA]]. Qed.

(** ** The last two steps *)
(** the step before the last leaves its codomain in dual coordinates: it is generic again and images are on its surface *)
Theorem C70_raw : forall N T1 T2 pts A, generic_nullq (cv N) -> step_kernel 1 N T1 T2 A ->
  let '(cod, imgs) := two_isogeny fq_ops (ts_new fq_ops N) T1 T2 pts false false in
  generic_nullq (cv (ts_null cod)) /\ forall k P Q, nth_error pts k = Some P -> nth_error imgs k = Some Q -> on_kummerq (cv N) (cv P) -> on_kummerq (cv (ts_null cod)) (cv Q).
Proof.
  intros N T1 T2 pts A G H. pose proof (theta_push_map fq_ops 1 (ts_new fq_ops N) T1 T2 pts) as E. change (theta_push fq_ops 1 (ts_new fq_ops N) T1 T2 pts) with (two_isogeny fq_ops (ts_new fq_ops N) T1 T2 pts false false) in E. rewrite E. clear E.
  destruct (step_value fq_laws fqv_inj 1 N T1 T2 A (fun _ => generic_wf fq_laws _ G) H) as [(N' & EN & _) _]. destruct (raw_step fq_laws fqv_inj N T1 T2 A N' G H EN) as [GN HI]. rewrite EN. change (ts_null (ts_new fq_ops N')) with N'.
  split; [exact GN|]. intros k P Q HP HQ OP. rewrite nth_error_map, HP in HQ. cbn [option_map] in HQ. apply (f_equal (fun o => match o with Some x => x | None => Q end)) in HQ. cbn beta iota in HQ. rewrite <- HQ. exact (HI P OP).
Qed.
(** at most one coordinate of the dual null point is zero; if coordinate c is, then (c,0) is the only vanishing constant of the codomain, the code finds it, and it vanishes at every image; if none is, the codomain is not a product *)
Theorem C70_last : forall N T1 T2 pts A e, generic_nullq (cv N) -> last_kernel N T1 T2 A e ->
  let '(cod, imgs) := two_isogeny_to_product fq_ops T1 T2 pts in
  (forall c, c < 4 -> dualq (cv N) c = q0 -> (forall c', c' < 4 -> c' <> c -> dualq (cv N) c' <> q0) /\ only_zero (cv (ts_null cod)) c 0 /\ identify_even_index fq_ops (ts_null cod) = (c, 0) /\
    forall k P Q, nth_error pts k = Some P -> nth_error imgs k = Some Q -> on_kummerq (cv N) (cv P) -> level22q (cv Q) c 0 = q0) /\
  ((forall c, c < 4 -> dualq (cv N) c <> q0) -> generic_nullq (cv (ts_null cod))).
Proof.
  intros N T1 T2 pts A e G HL. destruct (last_step_kernel _ _ _ _ _ HL) as [H AB].
  pose proof (theta_push_map fq_ops 0 (ts_new fq_ops N) T1 T2 pts) as E. change (theta_push fq_ops 0 (ts_new fq_ops N) T1 T2 pts) with (two_isogeny_to_product fq_ops T1 T2 pts) in E. rewrite E. clear E.
  destruct (step_value fq_laws fqv_inj 0 N T1 T2 A (fun n => match n eq_refl with end) H) as [(N' & EN & _) _]. rewrite EN. change (ts_null (ts_new fq_ops N')) with N'. split.
  - intros c Hc HZ. destruct (last_step fq_laws fqv_inj N T1 T2 A c e N' G H AB Hc HZ EN) as [H1 H2]. split; [|split; [exact H1|split; [exact (C39_even_index N' c 0 H1)|]]].
    + intros c' Hc' Hn. exact (dual_one_zero Zq_field q2_nz (cv N) c c' G Hc Hc' (not_eq_sym Hn) HZ).
    + intros k P Q HP HQ OP. rewrite nth_error_map, HP in HQ. cbn [option_map] in HQ. apply (f_equal (fun o => match o with Some x => x | None => Q end)) in HQ. cbn beta iota in HQ. rewrite <- HQ. exact (H2 P OP).
  - intros HZ. exact (last_generic fq_laws fqv_inj N T1 T2 A e N' G H AB HZ EN).
Qed.

(** ** The splitting map for (c,0), c = 1, 2, 3 *)
Theorem C70_splitting : forall N c, 0 < c < 4 -> only_zero (cv N) c 0 -> exists M, compute_splitting_matrix fq_ops N = Some M /\
  good_null (cv (apply_base_change fq_ops N M)) /\ splitsq (cv (apply_base_change fq_ops N M)) /\
  (forall P, level22q (cv P) c 0 = q0 -> splitsq (cv (apply_base_change fq_ops P M))) /\
  (forall P, (forall i, i < 4 -> cv (apply_base_change fq_ops P M) i = q0) -> forall i, i < 4 -> cv P i = q0).
Proof. intros N c Hc H. exact (split_at fq_laws c N Hc H). Qed.
(** a product point is the product of the two pairs read off it exactly if its second coordinate is not zero *)
Theorem C70_components : forall P, splitsq (cv P) -> let '(p, q) := split_theta_point P in
  (forall i, i < 4 -> tensor (pv p) (pv q) i = qmul (cv P 1) (cv P i)) /\ (same_pointq (tensor (pv p) (pv q)) (cv P) <-> cv P 1 <> q0 \/ forall i, i < 4 -> cv P i = q0).
Proof.
  intros P HS. cbn [split_theta_point]. unfold splits in HS.
  assert (T : forall i, i < 4 -> tensor (pv (tX P, tY P)) (pv (tY P, tT P)) i = qmul (cv P 1) (cv P i)).
  { intros i Hi. unfold pv. cbn [fst snd]. change (fqv (tX P)) with (cv P 0). change (fqv (tY P)) with (cv P 1). change (fqv (tT P)) with (cv P 3). four_ i Hi; cbn [tensor fst snd]; [ring|ring|rewrite HS; ring|ring]. }
  split; [exact T|]. split.
  - intros (c & Hc & H). destruct (qeqb (cv P 1) q0) eqn:E; [right|left; intros D; apply qeqb_true in D; congruence]. apply qeqb_true in E. intros i Hi. specialize (H i Hi). rewrite T, E in H by exact Hi.
    destruct (mul0 Zq_field qeqb_true c (cv P i)) as [D|D]; [rewrite <- H; ring|contradiction|exact D].
  - intros [N|Z]; [exists (cv P 1); split; [exact N|exact T]|]. exists q1. split; [exact (F_1_neq_0 Zq_field)|]. intros i Hi. rewrite T, !Z by lia. ring.
Qed.

(** ** The whole chain *)
Lemma ends_conv c m : forall N x y, product_kernel c m N x y -> ends_ok (o := fq_ops) (k0 := q0) (kadd := qadd) (kmul := qmul) (kopp := qopp) (v := fqv) c m N x y.
Proof.
  induction m as [|m IH]; intros N x y H; [exact I|]. destruct H as [HA HK]. split; [|apply IH; exact HK]. destruct (Nat.eqb_spec m 0) as [->|Hm].
  - destruct HA as (HZ & A & e & HL). destruct (last_step_kernel _ _ _ _ _ HL) as [H1 H2]. exists A. split; [exact H1|]. intros _. split; [exact HZ|exists e; exact H2].
  - destruct HA as [A HA]. exists A. split; [exact HA|]. intros E. contradiction.
Qed.
(** the chain ends in a product structure with vanishing constant (c,0), which also vanishes at the images of points of the surface *)
Theorem C70_chain : forall c n N x y imgs, c < 4 -> generic_nullq (cv N) -> Forall (fun P => on_kummerq (cv N) (cv P)) imgs -> product_kernel c (S n) N x y ->
  let R := chain (theta_double_iter fq_ops) (step_cod fq_ops) (step_img fq_ops) (S n) (ts_new fq_ops N) x y imgs in
  exists N', fst R = ts_new fq_ops N' /\ only_zero (cv N') c 0 /\ identify_even_index fq_ops N' = (c, 0) /\ Forall (fun P => level22q (cv P) c 0 = q0) (snd R).
Proof.
  intros c n N x y imgs Hc G HI HK R. destruct (chain_end fq_laws fqv_inj c n Hc N x y imgs G HI (ends_conv _ _ _ _ _ HK)) as (N' & E & H1 & H2). exists N'. split; [exact E|]. split; [exact H1|]. split; [exact (C39_even_index N' c 0 H1)|exact H2].
Qed.
(** the final splitting does not panic and gives two valid curves *)
Lemma mont_valid a b E : null_point_to_montgomery_curve fq_ops (a, b) = Some E -> valid E.
Proof. unfold null_point_to_montgomery_curve. intros H. exact (proj2 (proj2 (C29_curve_new _) E H)). Qed.
Theorem C70_finish : forall c N pts num, 0 < c < 4 -> only_zero (cv N) c 0 -> exists M E3 E4, compute_splitting_matrix fq_ops N = Some M /\
  let N' := apply_base_change fq_ops N M in good_null (cv N') /\ splitsq (cv N') /\ null_point_to_montgomery_curve fq_ops (tX N', tY N') = Some E3 /\ null_point_to_montgomery_curve fq_ops (tY N', tT N') = Some E4 /\ valid E3 /\ valid E4 /\
  exists l, product_finish fq_ops (ts_new fq_ops N) pts num = Some (mkEprod E3 E4, l) /\ length l = Nat.min num (length pts) /\
    forall k P R, k < num -> nth_error pts k = Some P -> nth_error l k = Some R -> level22q (cv P) c 0 = q0 ->
      let P' := apply_base_change fq_ops P M in splitsq (cv P') /\
      R = mkCouple (fst (complete_pointX fq_ops E3 (theta_point_to_montgomery_point fq_ops (tX N', tY N') (tX P', tY P')))) (fst (complete_pointX fq_ops E4 (theta_point_to_montgomery_point fq_ops (tY N', tT N') (tY P', tT P')))).
Proof.
  intros c N pts num Hc H. destruct (C70_splitting N c Hc H) as (M & EM & GN & SN & SP & _). exists M. set (N' := apply_base_change fq_ops N M) in *.
  pose proof (C39_split_double N' N' GN SN SN) as HD. cbn [split_theta_point] in HD. destruct HD as (E3 & E4 & H3 & H4 & _). exists E3, E4. split; [exact EM|]. cbv zeta. split; [exact GN|]. split; [exact SN|]. split; [exact H3|]. split; [exact H4|].
  split; [exact (mont_valid _ _ _ H3)|]. split; [exact (mont_valid _ _ _ H4)|].
  unfold product_finish, splitting_isomorphism. change (ts_null (ts_new fq_ops N)) with N. rewrite EM. fold N'. unfold split_to_product. change (ts_null (ts_new fq_ops N')) with N'. cbn [split_theta_point]. rewrite H3, H4.
  eexists. split; [reflexivity|]. split; [rewrite map_length, firstn_length, map_length; reflexivity|]. intros k P R Hk HP HR HZ. split; [exact (SP P HZ)|].
  rewrite nth_error_map in HR. replace (nth_error (firstn num (map (fun P => apply_base_change fq_ops P M) pts)) k) with (Some (apply_base_change fq_ops P M)) in HR.
  - cbn [option_map split_theta_point] in HR. apply (f_equal (fun o => match o with Some x => x | None => R end)) in HR. cbn beta iota in HR. rewrite <- HR. reflexivity.
  - assert (NF : forall {T} n j (l : list T), j < n -> nth_error (firstn n l) j = nth_error l j) by (clear; intros T n; induction n as [|n IH]; intros j l Hj; [lia|]; destruct l as [|x l], j as [|j]; try reflexivity; cbn [firstn nth_error]; apply IH; lia).
    rewrite NF by exact Hk. rewrite nth_error_map, HP. reflexivity.
Qed.
(** a product isogeny over such a chain ends without a panic, with two valid curves and one couple for each given one, whatever the strategy *)
Theorem C70_product_isogeny : forall EE P Q imgs n s c, 0 < c < 4 -> strat (S (S n)) s -> glues EE P Q (S n) -> product_kernel c (S n) (glue_dom EE P Q (S n)) (glue_img EE P Q (S n) P) (glue_img EE P Q (S n) Q) ->
  exists E3 E4 l, product_isogeny fq_ops EE P Q imgs (S (S n)) s = Some (mkEprod E3 E4, l) /\ length l = length imgs /\ valid E3 /\ valid E4.
Proof.
  intros EE P Q imgs n s c Hc Hs HG HK. set (N := glue_dom EE P Q (S n)) in *. set (g := glue_img EE P Q (S n)) in *.
  assert (HK' : chain_kernel (S n) N (g P) (g Q)).
  { clear - HK. revert HK. generalize (S n) N (g P) (g Q). clear. induction n as [|m IH]; intros N x y H; [exact I|]. destruct H as [HA HK]. split; [|exact (IH _ _ _ HK)]. destruct (Nat.eqb_spec m 0) as [->|Hm]; [|exact HA]. destruct HA as (_ & A & e & HL). exists A. exact (proj1 (last_step_kernel _ _ _ _ _ HL)). }
  pose proof (C68_product_isogeny EE P Q imgs (S n) s Hs HG HK') as HR. destruct HG as [G _]. fold N in G.
  destruct (chain_end fq_laws fqv_inj c n (proj2 Hc) N (g P) (g Q) [] G (Forall_nil _) (ends_conv _ _ _ _ _ HK)) as (N' & EN & H1 & _).
  assert (CH : forall m d x y i j, fst (chain (theta_double_iter fq_ops) (step_cod fq_ops) (step_img fq_ops) m d x y i) = fst (chain (theta_double_iter fq_ops) (step_cod fq_ops) (step_img fq_ops) m d x y j)) by (clear; induction m as [|m IH]; intros d x y i j; [reflexivity|]; cbn [chain]; apply IH).
  assert (CL : forall m d x y i, length (snd (chain (theta_double_iter fq_ops) (step_cod fq_ops) (step_img fq_ops) m d x y i)) = length i) by (clear; induction m as [|m IH]; intros d x y i; [reflexivity|]; cbn [chain]; rewrite IH, map_length; reflexivity).
  assert (E0 : exists E3 E4 l, product_isogeny_no_strategy fq_ops EE P Q imgs (S (S n)) = Some (mkEprod E3 E4, l) /\ length l = length imgs /\ valid E3 /\ valid E4).
  { unfold product_isogeny_no_strategy. rewrite gluing_map. change (fst (gluing_isogeny fq_ops EE (prod_double_iter fq_ops EE P (S n)) (prod_double_iter fq_ops EE Q (S n)) [])) with (ts_new fq_ops N). fold (glue_img EE P Q (S n)). fold g. rewrite map_app. cbn [map].
    destruct (naive_ok fq_ops (S n) (ts_new fq_ops N) (g P) (g Q) (map g imgs)) as (pts & EL & HF). rewrite map_length in EL, HF. rewrite EL, (CH _ _ _ _ _ []), EN.
    destruct (C70_finish c N' pts (length imgs) Hc H1) as (M & E3 & E4 & _ & _ & _ & _ & _ & V3 & V4 & l & El & Ll & _). exists E3, E4, l. split; [exact El|]. split; [|split; assumption].
    rewrite Ll. apply (f_equal (@length _)) in HF. rewrite CL, map_length, firstn_length in HF. exact HF. }
  destruct E0 as (E3 & E4 & l & E & Ll & V). rewrite E in HR. destruct (product_isogeny fq_ops EE P Q imgs (S (S n)) s) as [[EE' l']|]; [|contradiction HR]. destruct HR as [-> HF]. exists E3, E4, l'. split; [reflexivity|]. split; [rewrite (Forall2_len _ _ _ HF); exact Ll|exact V].
Qed.

(** ** Two last steps over the library's field: locations (0,0) and (1,0) *)
Lemma pt_of (x : nat -> Zq) : exists P, forall i, i < 4 -> cv P i = x i.
Proof.
  assert (S : forall q, exists y : fq, fqv y = q) by (intros q; destruct (fv2_surj q) as (y & C & V); exists (mkq y C); exact V).
  destruct (S (x 0)) as [a Ha], (S (x 1)) as [b Hb], (S (x 2)) as [c Hc], (S (x 3)) as [d Hd]. exists (mkT a b c d). intros i Hi. four_ i Hi; assumption.
Qed.
Lemma had_last D S1 S2 A e x z t : e <> q0 -> (forall i, i < 4 -> A i <> q0 /\ sqdualq (cv D) i = qmul e (qmul (A i) (A i))) -> x <> q0 -> z <> q0 -> t <> q0 -> sqdualq (cv S1) 0 = qmul x (A 0) -> sqdualq (cv S1) 1 = qmul x (A 1) ->
  sqdualq (cv S2) 0 = qmul z (A 0) -> sqdualq (cv S2) 1 = qmul t (A 1) -> sqdualq (cv S2) 2 = qmul z (A 2) -> sqdualq (cv S2) 3 = qmul t (A 3) ->
  last_kernel (to_hadamard fq_ops D) (to_hadamard fq_ops S1) (to_hadamard fq_ops S2) A (qmul (qmul q4 q4) e).
Proof.
  intros He HA Hx Hz Ht E1 E2 E3 E4 E5 E6.
  assert (G : forall S i, i < 4 -> sqdualq (dualq (cv (to_hadamard fq_ops S))) i = qmul (qmul q4 q4) (sqdualq (cv S) i)).
  { intros S i Hi. unfold sqdual. rewrite <- (L_Theta.dual_scale fq_laws). apply (L_Theta.dual_ext fq_laws). intros j Hj. rewrite <- (proj1 (C39_hadamard _ j Hj)), (proj2 (C39_hadamard S j Hj)). ring. }
  assert (N16 : qmul q4 q4 <> q0) by (replace (qmul q4 q4) with (qz 16); [znz|unfold q4, q2; rewrite <- qz_1, <- !qz_add, <- qz_mul; reflexivity]).
  assert (MN : forall y, y <> q0 -> qmul (qmul q4 q4) y <> q0) by (intros y Hy; exact (mul_nz Zq_field _ _ N16 Hy)).
  split; [apply MN; exact He|]. split; [intros i Hi; destruct (HA i Hi) as [N E]; split; [exact N|rewrite G, E by exact Hi; ring]|].
  exists (qmul (qmul q4 q4) x), (qmul (qmul q4 q4) z), (qmul (qmul q4 q4) t). rewrite !G by lia. rewrite E1, E2, E3, E4, E5, E6. repeat (split; [first [apply MN; assumption|ring]|]). ring.
Qed.
Definition im1 : Zq := fqv (fzeta fq_ops).
Lemma im1_sq : qmul im1 im1 = qopp q1. Proof. exact (l_zeta _ _ _ _ _ _ _ _ _ _ _ fq_laws). Qed.
Lemma roots : exists r h, qmul r r = qmul q2 (qadd q4 q1) /\ qmul h h = qadd q2 q1.
Proof.
  destruct (qz_square 10) as [r Hr]. destruct (qz_square 3) as [h Hh]. exists r, h. rewrite Hr, Hh. unfold q4, q2. split; rewrite <- qz_1; repeat first [rewrite <- qz_add|rewrite <- qz_mul]; reflexivity.
Qed.
Ltac nq n := match goal with |- ?e <> q0 => replace e with (qz n); [znz|unfold q4, q2; rewrite <- qz_1; repeat first [rewrite <- qz_add|rewrite <- qz_mul]; reflexivity] end.
Lemma n3_nz : qadd (qadd q1 q1) q1 <> q0. Proof. nq 3%Z. Qed.
Lemma n5_nz : qadd (qadd (qadd q1 q1) (qadd q1 q1)) q1 <> q0. Proof. nq 5%Z. Qed.
Lemma n7_nz : qadd (qadd (qadd q1 q1) (qadd q1 q1)) (qadd (qadd q1 q1) q1) <> q0. Proof. nq 7%Z. Qed.
Lemma n4_nz : qadd (qadd q1 q1) (qadd q1 q1) <> q0. Proof. nq 4%Z. Qed.
Lemma sq_ext x y i : (forall j, j < 4 -> x j = y j) -> sqdualq x i = sqdualq y i.
Proof. intros H. unfold sqdual. apply (L_Theta.dual_ext fq_laws). intros j Hj. rewrite H by exact Hj. reflexivity. Qed.
Lemma gen_had D x : (forall j, j < 4 -> cv D j = x j) -> generic_nullq (dualq x) -> generic_nullq (cv (to_hadamard fq_ops D)).
Proof.
  intros E. apply (gen_same Zq_field). exists q1. split; [exact (F_1_neq_0 Zq_field)|]. intros i Hi. rewrite (proj1 (C39_hadamard D i Hi)), (L_Theta.dual_ext fq_laws (cv D) x i E). ring.
Qed.
Lemma zero_had D c : c < 4 -> cv D c = q0 -> dualq (cv (to_hadamard fq_ops D)) c = q0.
Proof. intros Hc E. rewrite <- (proj1 (C39_hadamard _ c Hc)), (proj2 (C39_hadamard D c Hc)), E. ring. Qed.
Lemma case_zero : exists N T1 T2 A e, generic_nullq (cv N) /\ last_kernel N T1 T2 A e /\ dualq (cv N) 0 = q0 /\ A = A0 (k1 := q1) (kadd := qadd) (kmul := qmul) im1.
Proof.
  destruct roots as (r & h & Hr & Hh). pose proof im1_sq as Hi.
  destruct (pt_of (D0 (k0 := q0) (k1 := q1) (kadd := qadd) (kmul := qmul) im1 r)) as [D ED]. destruct (pt_of (S01 (k0 := q0) (k1 := q1) (kadd := qadd) (kmul := qmul) im1)) as [S1 E1]. destruct (pt_of (S02 (k1 := q1) (kadd := qadd) (kmul := qmul) (ksub := qsub) im1 h)) as [S2 E2].
  destruct (case0 Zq_field im1 r h Hi Hr Hh q2_nz n3_nz) as (HA & HZ & K1 & K2 & K3 & K4 & K5 & K6). destruct (facs Zq_field im1 Hi q2_nz n3_nz n5_nz) as (F1 & F2 & F3 & _).
  exists (to_hadamard fq_ops D), (to_hadamard fq_ops S1), (to_hadamard fq_ops S2). exists (A0 (k1 := q1) (kadd := qadd) (kmul := qmul) im1). eexists. split; [apply (gen_had _ _ ED); exact (gen0 Zq_field im1 r h Hi Hr Hh q2_nz n3_nz n5_nz n7_nz)|]. split; [|split; [apply zero_had; [lia|]; rewrite ED by lia; exact HZ|reflexivity]].
  eapply had_last; [exact n4_nz| |exact F1|exact F2|exact F3|..]; try (rewrite (sq_ext _ _ _ E1); assumption); try (rewrite (sq_ext _ _ _ E2); assumption).
  intros i Hi'. rewrite (sq_ext _ _ _ ED). exact (HA i Hi').
Qed.
Lemma case_one : exists N T1 T2 A e, generic_nullq (cv N) /\ last_kernel N T1 T2 A e /\ dualq (cv N) 1 = q0.
Proof.
  destruct roots as (r & h & Hr & Hh). pose proof im1_sq as Hi.
  destruct (pt_of (D1 (k0 := q0) (k1 := q1) (kadd := qadd) (kmul := qmul) im1 r)) as [D ED]. destruct (pt_of (S11 (k0 := q0) (k1 := q1) (kadd := qadd) (kmul := qmul) im1 r)) as [S1 E1]. destruct (pt_of (S12 (k1 := q1) (kadd := qadd) (kmul := qmul) (ksub := qsub) im1 h)) as [S2 E2].
  destruct (case1 Zq_field im1 r h Hi Hr Hh q2_nz n3_nz) as (HA & HZ & K1 & K2 & K3 & K4 & K5 & K6). destruct (facs Zq_field im1 Hi q2_nz n3_nz n5_nz) as (_ & _ & _ & F1 & F2 & F3).
  exists (to_hadamard fq_ops D), (to_hadamard fq_ops S1), (to_hadamard fq_ops S2). exists (A1 (k1 := q1) (kadd := qadd) (kmul := qmul) im1). eexists. split; [apply (gen_had _ _ ED); exact (gen1 Zq_field im1 r h Hi Hr Hh q2_nz n3_nz n5_nz n7_nz)|]. split; [|apply zero_had; [lia|]; rewrite ED by lia; exact HZ].
  eapply had_last; [exact n4_nz| |exact F1|exact F2|exact F3|..]; try (rewrite (sq_ext _ _ _ E1); assumption); try (rewrite (sq_ext _ _ _ E2); assumption).
  intros i Hi'. rewrite (sq_ext _ _ _ ED). exact (HA i Hi').
Qed.
(** a last step whose codomain is a product with location (0,0): the code takes the singular splitting map, which does not split the codomain's null point *)
Theorem C70_zero_refuted : exists N T1 T2 A e M P, generic_nullq (cv N) /\ last_kernel N T1 T2 A e /\ dualq (cv N) 0 = q0 /\
  let N' := ts_null (fst (two_isogeny_to_product fq_ops T1 T2 [])) in only_zero (cv N') 0 0 /\ compute_splitting_matrix fq_ops N' = Some M /\ ~ splitsq (cv (apply_base_change fq_ops N' M)) /\
  cv P 0 <> q0 /\ forall i, i < 4 -> cv (apply_base_change fq_ops P M) i = q0.
Proof.
  destruct case_zero as (N & T1 & T2 & A & e & G & HL & HZ & EA). destruct (last_step_kernel _ _ _ _ _ HL) as [H _].
  destruct (step_value fq_laws fqv_inj 0 N T1 T2 A (fun n => match n eq_refl with end) H) as [(N' & EN & V) _]. change (step_cod fq_ops 0 (ts_new fq_ops N) T1 T2) with (fst (two_isogeny_to_product fq_ops T1 T2 [])) in EN.
  assert (V' : forall i, i < 4 -> cv N' i = A0 (k1 := q1) (kadd := qadd) (kmul := qmul) im1 i). { intros i Hi. rewrite V by exact Hi. rewrite EA. unfold stage1. cbn [Nat.leb]. unfold A0. four_ i Hi; cbn [vec]; field; exact (F_1_neq_0 Zq_field). }
  destruct (map9_bad fq_laws N') as (O & M & HM & HS & P & HP & HK).
  - nq 5%Z.
  - nq 13%Z.
  - exact (V' 0 ltac:(lia)).
  - exact (V' 1 ltac:(lia)).
  - exact (V' 2 ltac:(lia)).
  - exact (V' 3 ltac:(lia)).
  - exists N, T1, T2, A, e, M, P. split; [exact G|]. split; [exact HL|]. split; [exact HZ|]. rewrite EN. change (ts_null (ts_new fq_ops N')) with N'. cbv zeta. split; [exact O|]. split; [exact HM|]. split; [exact HS|]. split; [|exact HK]. change (cv P 0) with (fqv (tX P)). rewrite HP. exact (F_1_neq_0 Zq_field).
Qed.
(** a product point with second coordinate zero: different points are read as the same two pairs *)
Theorem C70_components_refuted : exists P Q, splitsq (cv P) /\ splitsq (cv Q) /\ ~ same_pointq (cv P) (cv Q) /\ fst (split_theta_point P) = fst (split_theta_point Q) /\ pv (fst (split_theta_point P)) = (q0, q0) /\
  exists u, u <> q0 /\ fqv (fst (snd (split_theta_point P))) = qmul u (fqv (fst (snd (split_theta_point Q)))) /\ fqv (snd (snd (split_theta_point P))) = qmul u (fqv (snd (snd (split_theta_point Q)))).
Proof.
  exists (tz 0 0 1 2), (tz 0 0 2 2). split; [unfold splits; rewrite !tz_v by lia; rewrite <- !qz_mul; reflexivity|]. split; [unfold splits; rewrite !tz_v by lia; rewrite <- !qz_mul; reflexivity|].
  split; [|split; [reflexivity|split; [unfold pv; cbn [split_theta_point tz fst snd tX tY fz]; rewrite (l_zero _ _ _ _ _ _ _ _ _ _ _ fq_laws); reflexivity|]]].
  - intros (c & Hc & H). pose proof (H 2 ltac:(lia)) as H2. pose proof (H 3 ltac:(lia)) as H3. rewrite !tz_v in H2, H3 by lia. cbn [v4] in H2, H3. apply (qz_neq 2 1); [split; reflexivity|]. rewrite H3. symmetry. exact H2.
  - exists q1. split; [exact (F_1_neq_0 Zq_field)|]. cbn [split_theta_point tz fst snd tX tY tT fz]. split; ring.
Qed.

(** ** Concrete cases *)
Example C70_last_ex : exists N T1 T2 A e, generic_nullq (cv N) /\ last_kernel N T1 T2 A e /\ dualq (cv N) 1 = q0 /\ identify_even_index fq_ops (ts_null (fst (two_isogeny_to_product fq_ops T1 T2 []))) = (1, 0).
Proof.
  destruct case_one as (N & T1 & T2 & A & e & G & HL & HZ). exists N, T1, T2, A, e. split; [exact G|]. split; [exact HL|]. split; [exact HZ|].
  pose proof (C70_last N T1 T2 [] A e G HL) as H. destruct (two_isogeny_to_product fq_ops T1 T2 []) as [cod imgs]. exact (proj1 (proj2 (proj2 (proj1 H 1 ltac:(lia) HZ)))).
Qed.
(* the last step alone is a chain of length one; the splitting after it *)
Example C70_chain_ex : exists N T1 T2, generic_nullq (cv N) /\ product_kernel 1 1 N T1 T2.
Proof.
  destruct case_one as (N & T1 & T2 & A & e & G & HL & HZ). exists N, T1, T2. split; [exact G|]. split; [|exact I]. cbn [Nat.eqb]. split; [exact HZ|]. exists A, e. exact HL.
Qed.
Example C70_splitting_ex : only_zero (cv (tz 1 4 8 7)) 1 0 /\ level22q (cv (tz 1 8 4 (-7))) 1 0 <> q0 /\ level22q (cv (tz 2 7 9 6)) 1 0 = q0.
Proof.
  split; [|split; [rewrite (qz_level22 _ _ _ _ (tz_v 1 8 4 (-7))) by lia; znz|rewrite (qz_level22 _ _ _ _ (tz_v 2 7 9 6)) by lia; exact qz_0]].
  split; [split; [lia|split; [lia|reflexivity]]|]. intros chi i HE. destruct HE as (H1 & H2 & H3). rewrite (qz_level22 _ _ _ _ (tz_v 1 4 8 7)) by auto.
  four_ chi H1; four_ i H2; try discriminate H3; clear H3; (split; [intros E; try reflexivity; exfalso; revert E; znz|intros E; try discriminate E; exact qz_0]).
Qed.
Example C70_components_ex : splitsq (cv (tz 1 2 3 6)) /\ cv (tz 1 2 3 6) 1 <> q0.
Proof. split; [unfold splits; rewrite !tz_v by lia; rewrite <- !qz_mul; reflexivity|rewrite tz_v by lia; znz]. Qed.
Print Assumptions C70_raw.
Print Assumptions C70_last.
Print Assumptions C70_splitting.
Print Assumptions C70_components.
Print Assumptions C70_chain.
Print Assumptions C70_finish.
Print Assumptions C70_product_isogeny.
Print Assumptions C70_zero_refuted.
Print Assumptions C70_components_refuted.
