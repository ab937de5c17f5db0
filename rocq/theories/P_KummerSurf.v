(** C68: the (2,2)-isogeny chain (src/theta.rs:150-177, 607-721, 1079-1266) on Kummer surfaces: doublings and images stay on the surface given by the null point,
    images commute with doubling, and the strategy does not change the result. *)
From Coq Require Import Arith ZArith List Bool Lia Ring Field.
From Verif Require Import S_Fp S_Fp2 S_Curve S_Theta S_KummerSurf S_Strategy M_Fp M_Fp2 M_Field M_Curve M_Theta L_Zp L_Zp2 L_Fp L_Fp2 L_Group L_Kummer L_Field L_QNum L_Curve L_Theta L_KummerSurf L_KummerFun L_Strategy L_ThetaStep L_ThetaProd P_Fp2 P_Params P_Curve P_Theta P_Festa P_Gluing P_Strategy.
Import ListNotations.
Open Scope nat_scope.
Add Field Zq_f9 : Zq_field.

(** ** Specification *)
Notation on_kummerq := (on_kummer q0 q1 qadd qmul qsub). Notation generic_nullq := (generic_null q0 qadd qmul qopp). Notation same_pointq := (same_point q0 qmul).
(** the kernel of the step with m steps after it is above A, the dual null point up to a factor; the last step takes its kernel after a Hadamard transform *)
Definition step_kernel (m : nat) (N T1 T2 : tpoint fq) (A : nat -> Zq) : Prop :=
  (forall i, i < 4 -> A i <> q0 /\ (2 <= m -> dualq A i <> q0)) /\ (m <> 0 -> exists e, e <> q0 /\ forall i, i < 4 -> sqdualq (cv N) i = qmul e (qmul (A i) (A i))) /\
  above_kernel A (sqdualq (if Nat.eqb m 0 then dualq (cv T1) else cv T1)) (sqdualq (if Nat.eqb m 0 then dualq (cv T2) else cv T2)).
(** x and y are kernel points of a chain of m steps: so it is for the chain without a strategy *)
Fixpoint chain_kernel (m : nat) (N x y : tpoint fq) : Prop :=
  match m with
  | O => True
  | S m' => let d := ts_new fq_ops N in let u := theta_double_iter fq_ops d x m' in let w := theta_double_iter fq_ops d y m' in
      (exists A, step_kernel m' N u w A) /\ chain_kernel m' (ts_null (step_cod fq_ops m' d u w)) (step_img fq_ops m' d u w x) (step_img fq_ops m' d u w y)
  end.
(** results of a product isogeny: the same two curves, and images equal up to sign on each factor *)
Definition same_couple (R R' : couple fq) : Prop := same_abscissa (affine (c1 R)) (affine (c1 R')) /\ same_abscissa (affine (c2 R)) (affine (c2 R')).
Definition same_result (r r' : option (eprod fq * list (couple fq))) : Prop :=
  match r, r' with None, None => True | Some (EE, l), Some (EE', l') => EE = EE' /\ Forall2 same_couple l l' | _, _ => False end.

(** ** Doubling *)
Theorem C68_double : forall N P n, generic_nullq (cv N) -> on_kummerq (cv N) (cv P) -> on_kummerq (cv N) (cv (theta_double_iter fq_ops (ts_new fq_ops N) P n)).
Proof. intros N P n G H. exact (iter_onk fq_laws N P n G H). Qed.
Theorem C68_projective : forall N P Q n, generic_nullq (cv N) -> same_pointq (cv P) (cv Q) ->
  same_pointq (cv (theta_double_iter fq_ops (ts_new fq_ops N) P n)) (cv (theta_double_iter fq_ops (ts_new fq_ops N) Q n)) /\ (on_kummerq (cv N) (cv Q) -> on_kummerq (cv N) (cv P)).
Proof. intros N P Q n G H. split; [exact (iter_same fq_laws N P Q n G H)|]. exact (onk_same Zq_field _ _ _ _ (same_refl Zq_field (cv N)) H). Qed.
Theorem C68_null : forall N, generic_nullq (cv N) -> on_kummerq (cv N) (cv N).
Proof. intros N G. exact (null_kummer Zq_field q2_nz (cv N) G). Qed.

(** ** One step *)
Theorem C68_isogeny : forall N T1 T2 pts A e, generic_nullq (cv N) -> e <> q0 ->
  (forall i, i < 4 -> A i <> q0 /\ sqdualq (cv N) i = qmul e (qmul (A i) (A i)) /\ dualq A i <> q0) -> above_kernel A (sqdualq (cv T1)) (sqdualq (cv T2)) ->
  let '(cod, imgs) := two_isogeny fq_ops (ts_new fq_ops N) T1 T2 pts false true in
  generic_nullq (cv (ts_null cod)) /\
  forall k P Q, nth_error pts k = Some P -> nth_error imgs k = Some Q -> on_kummerq (cv N) (cv P) -> on_kummerq (cv (ts_null cod)) (cv Q) /\
    forall n j P' Q', nth_error pts j = Some P' -> nth_error imgs j = Some Q' -> same_pointq (cv P') (cv (theta_double_iter fq_ops (ts_new fq_ops N) P n)) ->
      same_pointq (cv Q') (cv (theta_double_iter fq_ops cod Q n)).
Proof.
  intros N T1 T2 pts A e G He HA HK. assert (H : step_kernel 2 N T1 T2 A). { split; [|split; [|exact HK]]; [|intros _; exists e; split; [exact He|]]; intros i Hi; destruct (HA i Hi) as (H1 & H2 & H3); auto. }
  pose proof (theta_push_map fq_ops 2 (ts_new fq_ops N) T1 T2 pts) as E. change (theta_push fq_ops 2 (ts_new fq_ops N) T1 T2 pts) with (two_isogeny fq_ops (ts_new fq_ops N) T1 T2 pts false true) in E. rewrite E. clear E.
  destruct (step_value fq_laws fqv_inj 2 N T1 T2 A (fun _ => generic_wf fq_laws _ G) H) as [(N' & EN & _) _]. rewrite EN. change (ts_null (ts_new fq_ops N')) with N'.
  destruct (step_kummer fq_laws fqv_inj 2 N T1 T2 A N' (le_n 2) G H EN) as [GN HI]. split; [exact GN|]. intros k P Q HP HQ OP.
  rewrite nth_error_map, HP in HQ. cbn [option_map] in HQ. apply (f_equal (fun o => match o with Some x => x | None => Q end)) in HQ. cbn beta iota in HQ. rewrite <- HQ. split; [apply (proj1 (HI P OP))|].
  intros n j P' Q' HP' HQ' S. rewrite nth_error_map, HP' in HQ'. cbn [option_map] in HQ'. apply (f_equal (fun o => match o with Some x => x | None => Q end)) in HQ'. cbn beta iota in HQ'. rewrite <- HQ'.
  refine (same_trans Zq_field _ _ _ _ (step_iter fq_laws fqv_inj 2 N T1 T2 A N' P n (le_n 2) G H EN OP)).
  exact (proj2 (step_same fq_laws fqv_inj 2 N T1 T2 T1 T2 A (fun _ => generic_wf fq_laws _ G) (same_refl Zq_field _) (same_refl Zq_field _) H) _ _ S).
Qed.
(** the step before the last, without transforms *)
Theorem C68_raw_isogeny : forall N T1 T2 pts A e, good_null (cv N) -> e <> q0 -> (forall i, i < 4 -> A i <> q0 /\ sqdualq (cv N) i = qmul e (qmul (A i) (A i))) ->
  above_kernel A (sqdualq (cv T1)) (sqdualq (cv T2)) -> forall i, i < 4 ->
  let '(cod, imgs) := two_isogeny fq_ops (ts_new fq_ops N) T1 T2 pts false false in
  cod = ts_new fq_ops (ts_null cod) /\ cv (ts_null cod) i = qdiv (A i) (A 0) /\ length imgs = length pts /\
  forall k P, nth_error pts k = Some P -> exists Q, nth_error imgs k = Some Q /\ cv Q i = qmul (A 0) (qdiv (sqdualq (cv P) i) (A i)).
Proof. intros N T1 T2 pts A e W He HA HK i Hi. exact (raw_isogeny_ok fq_laws fqv_inj N T1 T2 pts A e He W (fun j Hj => proj1 (HA j Hj)) (fun j Hj => proj2 (HA j Hj)) HK i Hi). Qed.

(** ** The chain *)
Lemma kernel_conv m : forall N x y, chain_kernel m N x y -> kernel_ok (o := fq_ops) (k0 := q0) (kadd := qadd) (kmul := qmul) (kopp := qopp) (v := fqv) m N x y.
Proof. induction m as [|m IH]; intros N x y H; [exact I|]. destruct H as [HA HK]. split; [exact HA|]. apply IH. exact HK. Qed.
Theorem C68_strategy : forall n s N x y imgs, strat n s -> generic_nullq (cv N) -> on_kummerq (cv N) (cv x) -> on_kummerq (cv N) (cv y) -> chain_kernel n N x y ->
  let d := ts_new fq_ops N in let R := chain (theta_double_iter fq_ops) (step_cod fq_ops) (step_img fq_ops) n d x y imgs in
  exists pts, theta_loop (theta_double_iter fq_ops) (theta_push fq_ops) n d s [0] (y :: x :: imgs) = Some (fst R, pts) /\ Forall2 (fun P Q => same_pointq (cv P) (cv Q)) pts (snd R).
Proof.
  intros n s N x y imgs Hs G Hx Hy HK d R.
  refine (loop_kummer fq_laws fqv_inj n [n] s N x y (y :: x :: imgs) imgs _ _ (kernel_conv n N x y HK) _).
  - cbn. lia.
  - auto.
  - rewrite <- (app_nil_r s). constructor; [exact Hs| |constructor].
    + intros _. split; exact (same_refl Zq_field _).
    + clear. induction imgs as [|p l IH]; constructor; [exact (same_refl Zq_field _)|exact IH].
Qed.

(** ** The final splitting depends on the points only projectively *)
Theorem C68_finish : forall dom pts pts' num, Forall2 (fun P Q => same_pointq (cv P) (cv Q)) pts pts' -> same_result (product_finish fq_ops dom pts num) (product_finish fq_ops dom pts' num).
Proof. intros dom pts pts' num H. apply (finish_same fq_laws fqv_inj). revert num. induction H as [|P Q l l' HP H IH]; intros num; destruct num; cbn [firstn]; constructor; [exact HP|apply IH]. Qed.

(** ** Product isogenies: any strategy gives the curves and, up to sign, the images of the chain without a strategy *)
Definition glue_dom (EE : eprod fq) (P Q : couple fq) (n : nat) : tpoint fq := ts_null (fst (gluing_isogeny fq_ops EE (prod_double_iter fq_ops EE P n) (prod_double_iter fq_ops EE Q n) [])).
Definition glue_img (EE : eprod fq) (P Q : couple fq) (n : nat) (R : couple fq) : tpoint fq :=
  hd (mkT (fzero fq_ops) (fzero fq_ops) (fzero fq_ops) (fzero fq_ops)) (snd (gluing_isogeny fq_ops EE (prod_double_iter fq_ops EE P n) (prod_double_iter fq_ops EE Q n) [R])).
(** the gluing step sends P and Q to the surface of its codomain and commutes with their doublings *)
Definition glues (EE : eprod fq) (P Q : couple fq) (n : nat) : Prop := let N := glue_dom EE P Q n in let g := glue_img EE P Q n in
  generic_nullq (cv N) /\ forall R, In R [P; Q] -> on_kummerq (cv N) (cv (g R)) /\ forall c, c < n -> same_pointq (cv (g (prod_double_iter fq_ops EE R c))) (cv (theta_double_iter fq_ops (ts_new fq_ops N) (g R) c)).
Theorem C68_product_isogeny : forall EE P Q imgs n s, strat (S n) s -> glues EE P Q n -> chain_kernel n (glue_dom EE P Q n) (glue_img EE P Q n P) (glue_img EE P Q n Q) ->
  same_result (product_isogeny fq_ops EE P Q imgs (S n) s) (product_isogeny_no_strategy fq_ops EE P Q imgs (S n)).
Proof. intros EE P Q imgs n s Hs [G HG] HK. exact (product_same fq_laws fqv_inj EE P Q imgs n s Hs G HG (kernel_conv _ _ _ _ HK)). Qed.

(** ** Concrete cases *)
Lemma generic_of_squares x s : (forall i, i < 4 -> qmul q4 (qmul (x i) (x i)) = qz (s i)) -> (forall i, i < 4 -> qz (s i) <> q0) -> (forall i, i < 4 -> sqdualq x i <> q0) ->
  qz (s 0 * s 1 - s 2 * s 3) <> q0 -> qz (s 0 * s 2 - s 1 * s 3) <> q0 -> qz (s 0 * s 3 - s 1 * s 2) <> q0 -> generic_nullq x.
Proof.
  intros H Hs Hd H1 H2 H3.
  assert (G : forall a b c d, a < 4 -> b < 4 -> c < 4 -> d < 4 -> qmul (x a) (x b) = qmul (x c) (x d) \/ qmul (x a) (x b) = qopp (qmul (x c) (x d)) -> qz (s a * s b - s c * s d) = q0).
  { intros a b c d Ha Hb Hc Hd' E. replace (s a * s b - s c * s d)%Z with (s a * s b + - (s c * s d))%Z by lia. rewrite qz_add, qz_opp, !qz_mul, <- !H by assumption.
    assert (E2 : qmul (qmul (x a) (x b)) (qmul (x a) (x b)) = qmul (qmul (x c) (x d)) (qmul (x c) (x d))) by (destruct E as [E|E]; rewrite E; [reflexivity|generalize (qmul (x c) (x d)); intros; ring]).
    transitivity (qmul (qmul q4 q4) (qsub (qmul (qmul (x a) (x b)) (qmul (x a) (x b))) (qmul (qmul (x c) (x d)) (qmul (x c) (x d))))); [generalize q4; intros; ring|rewrite E2; generalize q4; intros; ring]. }
  assert (N2 : forall u w z, z = qmul (qadd q1 q1) (qadd u w) -> z = q0 -> u = qopp w).
  { intros u w z Ez E. rewrite E in Ez. destruct (mul0 Zq_field qeqb_true _ _ (eq_sym Ez)) as [D|D]; [destruct (q2_nz D)|]. transitivity (qsub (qadd u w) w); [ring|rewrite D; ring]. }
  assert (N3 : forall u w z, z = qmul (qadd q1 q1) (qsub u w) -> z = q0 -> u = w).
  { intros u w z Ez E. rewrite E in Ez. destruct (mul0 Zq_field qeqb_true _ _ (eq_sym Ez)) as [D|D]; [destruct (q2_nz D)|]. transitivity (qadd (qsub u w) w); [ring|rewrite D; ring]. }
  assert (X : forall chi i, level22 qadd qmul qopp x chi i = sum4 qadd (fun t => sgn qopp (dot chi t) (qmul (x t) (x (Nat.lxor i t))))) by reflexivity.
  split.
  - intros i Hi E. apply (Hs i Hi). rewrite <- (H i Hi), E. generalize q4. intros. ring.
  - intros chi i (Hc & Hi & HE) E. destruct i as [|[|[|[|i]]]]; [exact (Hd chi Hc E)| | | |exfalso; lia]; clear Hi; [apply H1; apply (G 0 1 2 3)|apply H2; apply (G 0 2 1 3)|apply H3; apply (G 0 3 1 2)]; try lia;
      four_ chi Hc; try discriminate HE; clear HE; ((right; refine (N2 _ _ _ _ E); rewrite X; unfold sum4; cbn -[qadd qmul qopp q0 q1 sgn]; unfold sgn; ring) || (left; refine (N3 _ _ _ _ E); rewrite X; unfold sum4; cbn -[qadd qmul qopp q0 q1 sgn]; unfold sgn; ring)).
Qed.
Example C68_isogeny_ex : exists N T1 T2 A e, generic_nullq (cv N) /\ e <> q0 /\ (forall i, i < 4 -> A i <> q0 /\ sqdualq (cv N) i = qmul e (qmul (A i) (A i)) /\ dualq A i <> q0) /\
  above_kernel A (sqdualq (cv T1)) (sqdualq (cv T2)) /\ on_kummerq (cv N) (cv N).
Proof.
  destruct (sq_exists (v4 2 8 18 50)) as [N HN]. destruct (sq_exists (v4 1 2 9 15)) as [T1 H1]. destruct (sq_exists (v4 1 4 3 10)) as [T2 H2]. exists N, T1, T2, (fun i => qz (v4 1 2 3 5 i)), (qz 2).
  assert (G : generic_nullq (cv N)).
  { apply (generic_of_squares (cv N) (zdual (v4 2 8 18 50))); [exact (fun i Hi => proj2 (HN i Hi))| | | | |]; try (intros i Hi; rewrite ?(proj1 (HN i Hi)); four_ i Hi); znz. }
  split; [exact G|]. split; [znz|]. split; [|split; [|exact (C68_null N G)]].
  - intros i Hi. split; [four_ i Hi; znz|]. split; [rewrite (proj1 (HN i Hi)), <- !qz_mul; four_ i Hi; reflexivity|]. rewrite qz_dual. four_ i Hi; znz.
  - exists (qz 1), (qz 1), (qz 2). pose proof (fun i Hi => proj1 (H1 i Hi)) as G1. pose proof (fun i Hi => proj1 (H2 i Hi)) as G2. rewrite !G1, !G2 by lia. rewrite <- !qz_mul. repeat (split; [first [znz|reflexivity]|]). reflexivity.
Qed.
Print Assumptions C68_double. Print Assumptions C68_projective. Print Assumptions C68_null. Print Assumptions C68_isogeny. Print Assumptions C68_raw_isogeny. Print Assumptions C68_strategy. Print Assumptions C68_finish. Print Assumptions C68_product_isogeny.
