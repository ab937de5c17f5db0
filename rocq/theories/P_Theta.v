(** C39: theta coordinates in dimension two (src/theta.rs) over the quadratic extension.  The specification is S_Theta.v; index i of a theta
    point is X, Y, Z, T for i = 0..3. *)
From Coq Require Import Arith ZArith List Bool Lia Ring Field.
From Verif Require Import S_Fp S_Fp2 S_Curve S_Theta M_Fp M_Fp2 M_Field M_Curve M_Theta L_Words L_FpCodec L_Zp L_Zp2 L_Fp L_Fp2 L_Fp2Roots L_Fp2Misc L_Group L_Kummer L_Field L_QNum L_Curve L_Theta L_PairEx P_Fp2 P_Params P_Curve.
Import ListNotations.
Open Scope nat_scope.

Notation dualq := (dual qadd qopp). Notation sqdualq := (sqdual qadd qmul qopp). Notation theta_dblq := (theta_dbl qadd qmul qopp qdiv).
Notation theta_imageq := (theta_image qadd qmul qopp qdiv). Notation level22q := (level22 qadd qmul qopp). Notation splitsq := (splits qmul).
(** the value of coordinate i *)
Definition cv (P : tpoint fq) (i : nat) : Zq := fqv (match i with 0 => tX P | 1 => tY P | 2 => tZ P | _ => tT P end%nat).
(** null points of theta structures: no coordinate and no squared dual coordinate is zero *)
Definition good_null (a : nat -> Zq) : Prop := (forall i, i < 4 -> a i <> q0) /\ (forall i, i < 4 -> sqdualq a i <> q0).
(** exactly one of the ten even level (2,2) constants is zero *)
Definition only_zero (a : nat -> Zq) (c0 i0 : nat) : Prop := even_index c0 i0 /\ forall chi i, even_index chi i -> (level22q a chi i = q0 <-> (chi, i) = (c0, i0)).
(** squared dual coordinates of two 8-torsion points above the kernel, A the dual null point *)
Definition above_kernel (A s1 s2 : nat -> Zq) : Prop :=
  exists x z t, x <> q0 /\ z <> q0 /\ t <> q0 /\ s1 0%nat = qmul x (A 0%nat) /\ s1 1%nat = qmul x (A 1%nat) /\
    s2 0%nat = qmul z (A 0%nat) /\ s2 1%nat = qmul t (A 1%nat) /\ s2 2%nat = qmul z (A 2%nat) /\ s2 3%nat = qmul t (A 3%nat).

Theorem C39_hadamard : forall P i, i < 4 -> cv (to_hadamard fq_ops P) i = dualq (cv P) i /\ cv (to_hadamard fq_ops (to_hadamard fq_ops P)) i = qmul q4 (cv P i).
Proof. intros P i Hi. split; [exact (had_ok fq_laws P i Hi)|exact (had_twice fq_laws P i Hi)]. Qed.
Theorem C39_squared_theta : forall P i, i < 4 -> cv (to_squared_theta fq_ops P) i = sqdualq (cv P) i.
Proof. intros P i Hi. exact (sq_ok fq_laws P i Hi). Qed.
(* inverses of zero are zero, so a zero coordinate of the null point gives a zero constant and no panic *)
Theorem C39_precomputation : forall N, let S := ts_new fq_ops N in ts_null S = N /\
  fqv (ts_y0 S) = qmul (cv N 0) (qinv (cv N 1)) /\ fqv (ts_z0 S) = qmul (cv N 0) (qinv (cv N 2)) /\ fqv (ts_t0 S) = qmul (cv N 0) (qinv (cv N 3)) /\
  fqv (ts_Y0 S) = qmul (sqdualq (cv N) 0) (qinv (sqdualq (cv N) 1)) /\ fqv (ts_Z0 S) = qmul (sqdualq (cv N) 0) (qinv (sqdualq (cv N) 2)) /\ fqv (ts_T0 S) = qmul (sqdualq (cv N) 0) (qinv (sqdualq (cv N) 3)).
Proof.
  intros N S. destruct (pre_ok fq_laws N 1 ltac:(lia)) as [A1 B1]. destruct (pre_ok fq_laws N 2 ltac:(lia)) as [A2 B2]. destruct (pre_ok fq_laws N 3 ltac:(lia)) as [A3 B3].
  split; [reflexivity|]. split; [exact A1|]. split; [exact A2|]. split; [exact A3|]. split; [exact B1|]. split; [exact B2|exact B3].
Qed.
(** doubling gives the specified projective point, with the factor shown *)
Theorem C39_double : forall N P i, good_null (cv N) -> i < 4 ->
  cv (theta_double fq_ops (ts_new fq_ops N) P) i = qmul (qmul (cv N 0) (sqdualq (cv N) 0)) (theta_dblq (cv N) (cv P) i).
Proof. intros N P i W Hi. exact (double_ok fq_laws N P i W Hi). Qed.
Theorem C39_double_iter : forall N P n, theta_double_iter fq_ops (ts_new fq_ops N) P (S n) = theta_double fq_ops (ts_new fq_ops N) (theta_double_iter fq_ops (ts_new fq_ops N) P n) /\
  forall m, theta_double_iter fq_ops (ts_new fq_ops N) P (n + m) = theta_double_iter fq_ops (ts_new fq_ops N) (theta_double_iter fq_ops (ts_new fq_ops N) P m) n.
Proof. intros N P n. split; [reflexivity|]. intros m. unfold theta_double_iter. induction n as [|n IH]; [reflexivity|]. cbn [Nat.iter Nat.add nat_rect]. f_equal. exact IH. Qed.
Theorem C39_chi : forall x y, x < 4 -> y < 4 -> chi_eval x y = dot x y.
Proof. exact (chi_ok fq_laws). Qed.
Theorem C39_level22 : forall N chi i, chi < 4 -> i < 4 -> fqv (level_22_constants_sqr fq_ops N chi i) = level22q (cv N) chi i.
Proof. intros N chi i H1 H2. exact (level22_ok fq_laws N chi i H1 H2). Qed.
Theorem C39_even_indices : forall chi i, even_index chi i <-> In (chi, i) even_indices.
Proof. exact (even_in fq_laws). Qed.
Theorem C39_even_index : forall N c0 i0, only_zero (cv N) c0 i0 -> identify_even_index fq_ops N = (c0, i0).
Proof. intros N c0 i0 H. exact (even_index_ok fq_laws N c0 i0 H). Qed.
(** nine of the ten splitting maps: the null point becomes a product and the map is injective *)
Theorem C39_splitting : forall N c0 i0, only_zero (cv N) c0 i0 -> (c0, i0) <> (0, 0) ->
  exists M, compute_splitting_matrix fq_ops N = Some M /\ splitsq (cv (apply_base_change fq_ops N M)) /\
    forall P, (forall i, i < 4 -> cv (apply_base_change fq_ops P M) i = q0) -> forall i, i < 4 -> cv P i = q0.
Proof. intros N c0 i0 H Hn. exact (splitting_ok fq_laws N c0 i0 H Hn). Qed.
(** the tenth map, for the constant (0,0), is singular and does not split the null point *)
Theorem C39_splitting_refuted : exists N M P, only_zero (cv N) 0 0 /\ compute_splitting_matrix fq_ops N = Some M /\ ~ splitsq (cv (apply_base_change fq_ops N M)) /\
  cv P 0 <> q0 /\ forall i, i < 4 -> cv (apply_base_change fq_ops P M) i = q0.
Proof.
  pose (N := mkT (fnum 1) (fnum 2) (fnum 2) (fmul fq_ops (fnum 3) (fzeta fq_ops))). exists N.
  assert (E2 : qz 2 = qadd q1 q1) by (rewrite <- qz_1, <- qz_add; reflexivity). assert (E3 : qz 3 = qadd (qadd q1 q1) q1) by (rewrite <- qz_1, <- !qz_add; reflexivity).
  destruct (map9_bad fq_laws N) as (H1 & M & HM & HS & P & HP & HZ).
  - replace (qadd (qmul (qadd q1 q1) (qadd q1 q1)) q1) with (qz 5); [qnz|]. rewrite <- qz_1, <- !qz_add, <- qz_mul, <- qz_add. reflexivity.
  - replace (qadd (qmul (qadd q1 q1) (qmul (qadd q1 q1) (qadd (qadd q1 q1) q1))) q1) with (qz 13); [qnz|]. rewrite <- qz_1, <- !qz_add, <- !qz_mul, <- qz_add. reflexivity.
  - cbn [tX N]. rewrite fnum_v. exact qz_1.
  - cbn [tY N]. rewrite fnum_v. exact E2.
  - cbn [tZ N]. rewrite fnum_v. exact E2.
  - cbn [tT N]. rewrite (l_mul _ _ _ _ _ _ _ _ _ _ _ fq_laws), fnum_v, E3. reflexivity.
  - exists M, P. split; [exact H1|]. split; [exact HM|]. split; [exact HS|]. split; [|exact HZ]. change (cv P 0) with (fqv (tX P)). rewrite HP. exact (F_1_neq_0 Zq_field).
Qed.
(** a (2,2)-isogeny, where A is the dual null point up to a factor: the codomain's null point is the dual of A up to the factor 1/A0, images are the specified ones up to the factor A0, and their number and order is kept *)
Theorem C39_two_isogeny : forall N T1 T2 pts A e, good_null (cv N) -> e <> q0 -> (forall i, i < 4 -> A i <> q0 /\ sqdualq (cv N) i = qmul e (qmul (A i) (A i))) ->
  above_kernel A (sqdualq (cv T1)) (sqdualq (cv T2)) -> forall i, i < 4 ->
  let '(cod, imgs) := two_isogeny fq_ops (ts_new fq_ops N) T1 T2 pts false true in
  cod = ts_new fq_ops (ts_null cod) /\ cv (ts_null cod) i = qdiv (dualq A i) (A 0) /\ length imgs = length pts /\
  forall k P, nth_error pts k = Some P -> exists Q, nth_error imgs k = Some Q /\ cv Q i = qmul (A 0) (theta_imageq A (cv P) i).
Proof. intros N T1 T2 pts A e W He HA HK i Hi. exact (two_isogeny_ok fq_laws N T1 T2 pts A e He W (fun j Hj => proj1 (HA j Hj)) (fun j Hj => proj2 (HA j Hj)) HK i Hi). Qed.
(** doubling is that isogeny followed by the dual one *)
Theorem C39_double_factors : forall A a x i, (forall j, j < 4 -> A j <> q0 /\ sqdualq a j = qmul (A j) (A j)) -> a i <> q0 -> i < 4 ->
  qmul (qmul q4 (qmul q4 (theta_dblq a x i))) (a i) = dualq (fun chi => qmul (dualq (theta_imageq A x) chi) (dualq (theta_imageq A x) chi)) i.
Proof. intros A a x i HA Na Hi. exact (double_via_image fq_laws A a x i HA Na Hi). Qed.
(** the last step of a chain, where both ends are in dual coordinates *)
Theorem C39_to_product : forall T1 T2 pts A, (forall i, i < 4 -> A i <> q0) -> above_kernel A (sqdualq (dualq (cv T1))) (sqdualq (dualq (cv T2))) -> forall i, i < 4 ->
  let '(cod, imgs) := two_isogeny_to_product fq_ops T1 T2 pts in
  cod = ts_new fq_ops (ts_null cod) /\ cv (ts_null cod) i = qdiv (A i) (A 0) /\ length imgs = length pts /\
  forall k P, nth_error pts k = Some P -> exists Q, nth_error imgs k = Some Q /\ cv Q i = qmul (A 0) (qdiv (sqdualq (dualq (cv P)) i) (A i)).
Proof. intros T1 T2 pts A HA HK i Hi. exact (to_product_ok fq_laws T1 T2 pts A HA HK i Hi). Qed.
(** from a product theta structure to two Montgomery curves: no panic, and doubling commutes with the conversion of both factors *)
Theorem C39_split_double : forall N P, good_null (cv N) -> splitsq (cv N) -> splitsq (cv P) ->
  let D := theta_double fq_ops (ts_new fq_ops N) P in
  let '(O1, O2) := split_theta_point N in let '(P1, P2) := split_theta_point P in let '(D1, D2) := split_theta_point D in
  exists E3 E4, null_point_to_montgomery_curve fq_ops O1 = Some E3 /\ null_point_to_montgomery_curve fq_ops O2 = Some E4 /\ splitsq (cv D) /\
    (let '(X, Z) := xdbl fq_ops E3 (xX (theta_point_to_montgomery_point fq_ops O1 P1)) (xZ (theta_point_to_montgomery_point fq_ops O1 P1)) in
     qmul (fqv (xX (theta_point_to_montgomery_point fq_ops O1 D1))) (fqv Z) = qmul (fqv X) (fqv (xZ (theta_point_to_montgomery_point fq_ops O1 D1)))) /\
    (let '(X, Z) := xdbl fq_ops E4 (xX (theta_point_to_montgomery_point fq_ops O2 P2)) (xZ (theta_point_to_montgomery_point fq_ops O2 P2)) in
     qmul (fqv (xX (theta_point_to_montgomery_point fq_ops O2 D2))) (fqv Z) = qmul (fqv X) (fqv (xZ (theta_point_to_montgomery_point fq_ops O2 D2)))).
Proof. intros N P W SN SP. exact (split_double_ok fq_laws N P W SN SP). Qed.
(** the gluing step.  One dual coordinate A_z is zero *)
Definition zero_only_at (A : nat -> Zq) (z : nat) : Prop := z < 4 /\ A z = q0 /\ forall j, j < 4 -> j <> z -> A j <> q0.
Definition above_glue (A s1 s2 : nat -> Zq) : Prop := exists x0 x1 z0 z1, x0 <> q0 /\ x1 <> q0 /\ z0 <> q0 /\ z1 <> q0 /\
  forall j, j < 4 -> s1 j = qmul (if Nat.odd (Nat.div j 2) then x1 else x0) (A j) /\ s2 j = qmul (if Nat.odd j then z1 else z0) (A j).
Theorem C39_gluing_codomain : forall T1 T2 A z, zero_only_at A z -> above_glue A (sqdualq (cv T1)) (sqdualq (cv T2)) ->
  let '(cod, (ai, bi), zi) := gluing_codomain fq_ops T1 T2 in
  zi = z /\ cod = ts_new fq_ops (ts_null cod) /\ (forall i, i < 4 -> cv (ts_null cod) i = qdiv (dualq A i) (A (Nat.lxor 3 z))) /\
  fqv ai = qdiv (A (Nat.lxor 3 z)) (A (Nat.lxor 1 z)) /\ fqv bi = qdiv (A (Nat.lxor 3 z)) (A (Nat.lxor 2 z)).
Proof. intros T1 T2 A z H1 H2. exact (gluing_codomain_ok fq_laws T1 T2 A z H1 H2). Qed.
(** y: dual coordinates of the image of P; those of the shifted point are y with indices flipped, up to a factor *)
Theorem C39_gluing_image : forall P S A y mu z ai bi, zero_only_at A z -> (forall j, j < 4 -> sqdualq (cv P) j = qmul (A j) (y j)) ->
  (forall j, j < 4 -> sqdualq (cv S) j = qmul mu (qmul (A j) (y (Nat.lxor j 1)))) -> mu <> q0 -> y (Nat.lxor 2 z) <> q0 \/ y (Nat.lxor 3 z) <> q0 ->
  fqv ai = qdiv (A (Nat.lxor 3 z)) (A (Nat.lxor 1 z)) -> fqv bi = qdiv (A (Nat.lxor 3 z)) (A (Nat.lxor 2 z)) ->
  forall i, i < 4 -> cv (gluing_image fq_ops P S ai bi z) i = qmul (A (Nat.lxor 3 z)) (dualq y i).
Proof. intros P S A y mu z ai bi H1 H2 H3 H4 H5 H6 H7 i Hi. exact (gluing_image_ok fq_laws P S A y mu z ai bi H1 H2 H3 H4 H5 H6 H7 i Hi). Qed.

(** ** Concrete cases *)
Definition zdual (s : nat -> Z) (i : nat) : Z := dual Z.add Z.opp s i.
Lemma qz_dual s i : dualq (fun j => qz (s j)) i = qz (zdual s i).
Proof. unfold zdual, dual, sum4. rewrite !qz_add. f_equal; [f_equal; [f_equal|]|]; unfold sgn; destruct (dot i _); rewrite ?qz_opp; reflexivity. Qed.
Lemma qz_sqdual x s i : (forall j, j < 4 -> x j = qz (s j)) -> sqdualq x i = qz (zdual (fun j => s j * s j)%Z i).
Proof. intros H. rewrite <- qz_dual. unfold sqdual. apply (dual_ext fq_laws). intros j Hj. rewrite H, qz_mul by auto. reflexivity. Qed.
Lemma qz_nz' n : (0 < n < P)%Z \/ (0 < - n < P)%Z -> qz n <> q0.
Proof. intros [H|H]; [apply qz_nz; exact H|]. intros E. apply (qz_nz _ H). rewrite qz_opp, E. unfold qopp, q0; cbn [fst snd]; apply (f_equal2 (@pair Zp Zp)); ring. Qed.
Ltac znz := apply qz_nz'; first [left; split; reflexivity | right; split; reflexivity].
Definition fz (n : Z) : fq := match n with Z0 => fzero fq_ops | Zpos p => fnum p | Zneg p => fneg fq_ops (fnum p) end.
Lemma fz_v n : fqv (fz n) = qz n.
Proof. destruct n; cbn [fz]; [rewrite (l_zero _ _ _ _ _ _ _ _ _ _ _ fq_laws), qz_0; reflexivity|apply fnum_v|rewrite (l_neg _ _ _ _ _ _ _ _ _ _ _ fq_laws), fnum_v, <- qz_opp; reflexivity]. Qed.
Definition v4 (a b c d : Z) (i : nat) : Z := match i with 0 => a | 1 => b | 2 => c | _ => d end.
Definition tz (a b c d : Z) : tpoint fq := mkT (fz a) (fz b) (fz c) (fz d).
Lemma tz_v a b c d i : i < 4 -> cv (tz a b c d) i = qz (v4 a b c d i).
Proof. intros H. destruct i as [|[|[|[|i]]]]; [| | | |lia]; apply fz_v. Qed.
Ltac four_ i H := destruct i as [|[|[|[|i]]]]; [| | | |exfalso; lia]; clear H.
Example C39_good_null_ex : good_null (cv (tz 1 2 3 5)).
Proof. split; intros i Hi; [rewrite tz_v by auto|rewrite (qz_sqdual _ _ _ (tz_v 1 2 3 5))]; four_ i Hi; znz. Qed.
Lemma qz_level22 x s chi i : (forall j, j < 4 -> x j = qz (s j)) -> i < 4 -> level22q x chi i = qz (sum4 Z.add (fun t => sgn Z.opp (dot chi t) (s t * s (Nat.lxor i t))%Z)).
Proof.
  intros H Hi. assert (LX : forall t, t < 4 -> Nat.lxor i t < 4) by (intros t Ht; four_ i Hi; four_ t Ht; cbn; lia).
  unfold level22, sum4. rewrite !qz_add. rewrite !H by (try apply LX; lia). unfold sgn. f_equal; [f_equal; [f_equal|]|]; destruct (dot chi _); rewrite ?qz_opp, qz_mul; reflexivity.
Qed.
Example C39_splitting_ex : only_zero (cv (tz 1 2 3 (-6))) 0 3.
Proof.
  split; [split; [lia|split; [lia|reflexivity]]|]. intros chi i HE. destruct HE as (H1 & H2 & H3). rewrite (qz_level22 _ _ _ _ (tz_v 1 2 3 (-6))) by auto.
  four_ chi H1; four_ i H2; try discriminate H3; clear H3; (split; [intros E; try reflexivity; exfalso; revert E; znz|intros E; try discriminate E; exact qz_0]).
Qed.
Example C39_split_double_ex : good_null (cv (tz 1 2 3 6)) /\ splitsq (cv (tz 1 2 3 6)) /\ splitsq (cv (tz 1 5 2 10)).
Proof.
  split; [|split; unfold splits; rewrite !tz_v by lia; rewrite <- !qz_mul; reflexivity].
  split; intros i Hi; [rewrite tz_v by auto|rewrite (qz_sqdual _ _ _ (tz_v 1 2 3 6))]; four_ i Hi; znz.
Qed.
(* theta points with given squared dual coordinates in the integers *)
Lemma sq_exists s : exists T, forall i, i < 4 -> sqdualq (cv T) i = qz (s i) /\ qmul q4 (qmul (cv T i) (cv T i)) = qz (zdual s i).
Proof.
  assert (N4 : qz 4 <> q0) by znz. assert (E4 : q4 = qz 4) by (unfold q4, q2; rewrite <- qz_1, <- !qz_add; reflexivity).
  assert (R : forall i, exists x : fq, qmul q4 (qmul (fqv x) (fqv x)) = qz (zdual s i)).
  { intros i. destruct (qfr_square (zdual s i) 4 N4) as [z Hz]. destruct (fv2_surj z) as (x & C & V). exists (mkq x C). change (fqv (mkq x C)) with (fv2 x). rewrite V, Hz, E4. unfold qfr. field. exact N4. }
  destruct (R 0) as [x0 H0]. destruct (R 1) as [x1 H1]. destruct (R 2) as [x2 H2]. destruct (R 3) as [x3 H3]. exists (mkT x0 x1 x2 x3). intros i Hi.
  assert (HA : forall j, j < 4 -> qmul q4 (qmul (cv (mkT x0 x1 x2 x3) j) (cv (mkT x0 x1 x2 x3) j)) = qz (zdual s j)) by (intros j Hj; four_ j Hj; assumption).
  split; [|apply HA; auto]. assert (N4' : q4 <> q0) by (rewrite E4; exact N4).
  assert (G : qmul q4 (sqdualq (cv (mkT x0 x1 x2 x3)) i) = qmul q4 (qz (s i))).
  { unfold sqdual. rewrite <- (dual_scale fq_laws). rewrite (dual_ext fq_laws _ (fun j => qz (zdual s j)) i HA). rewrite <- (dual_ext fq_laws _ (fun j => qz (zdual s j)) i (fun j _ => qz_dual s j)). exact (dual_dual fq_laws _ i Hi). }
  transitivity (qdiv (qmul q4 (sqdualq (cv (mkT x0 x1 x2 x3)) i)) q4); [field; exact N4'|]. rewrite G. field. exact N4'.
Qed.
Example C39_two_isogeny_ex : exists N T1 T2 A e, good_null (cv N) /\ e <> q0 /\ (forall i, i < 4 -> A i <> q0 /\ sqdualq (cv N) i = qmul e (qmul (A i) (A i))) /\ above_kernel A (sqdualq (cv T1)) (sqdualq (cv T2)) /\
  e = qz 2 /\ (forall i, i < 4 -> A i = qz (v4 1 2 3 5 i)).
Proof.
  destruct (sq_exists (v4 2 8 18 50)) as [N HN]. destruct (sq_exists (v4 1 2 9 15)) as [T1 H1]. destruct (sq_exists (v4 1 4 3 10)) as [T2 H2]. exists N, T1, T2, (fun i => qz (v4 1 2 3 5 i)), (qz 2).
  split; [split|split; [znz|split; [|split; [|split; reflexivity]]]].
  - intros i Hi E. destruct (HN i Hi) as [_ H]. rewrite E in H. replace (qmul q4 (qmul q0 q0)) with q0 in H by (generalize q4; intros; qring). symmetry in H. revert H. four_ i Hi; znz.
  - intros i Hi. rewrite (proj1 (HN i Hi)). four_ i Hi; znz.
  - intros i Hi. rewrite (proj1 (HN i Hi)), <- !qz_mul. four_ i Hi; (split; [znz|reflexivity]).
  - exists (qz 1), (qz 1), (qz 2). pose proof (fun i Hi => proj1 (H1 i Hi)) as G1. pose proof (fun i Hi => proj1 (H2 i Hi)) as G2. rewrite !G1, !G2 by lia. rewrite <- !qz_mul. repeat (split; [first [znz|reflexivity]|]). reflexivity.
Qed.
Example C39_to_product_ex : exists T1 T2 A, (forall i, i < 4 -> A i <> q0) /\ above_kernel A (sqdualq (dualq (cv T1))) (sqdualq (dualq (cv T2))).
Proof.
  destruct (sq_exists (v4 1 2 9 15)) as [S1 H1]. destruct (sq_exists (v4 1 4 3 10)) as [S2 H2]. exists (to_hadamard fq_ops S1), (to_hadamard fq_ops S2), (fun i => qz (v4 1 2 3 5 i)).
  assert (G : forall S i, i < 4 -> sqdualq (dualq (cv (to_hadamard fq_ops S))) i = qmul (qmul q4 q4) (sqdualq (cv S) i)).
  { intros S i Hi. unfold sqdual. rewrite <- (dual_scale fq_laws). apply (dual_ext fq_laws). intros j Hj. rewrite <- (proj1 (C39_hadamard _ j Hj)), (proj2 (C39_hadamard S j Hj)). qring. }
  assert (E4 : qmul q4 q4 = qz 16) by (unfold q4, q2; rewrite <- qz_1, <- !qz_add, <- qz_mul; reflexivity).
  split; [intros i Hi; four_ i Hi; znz|]. exists (qz 16), (qz 16), (qz 32). rewrite !G by lia. pose proof (fun i Hi => proj1 (H1 i Hi)) as G1. pose proof (fun i Hi => proj1 (H2 i Hi)) as G2. rewrite !G1, !G2 by lia. rewrite E4, <- !qz_mul. repeat (split; [first [znz|reflexivity]|]). reflexivity.
Qed.
Example C39_gluing_ex : exists T1 T2 P S A y mu (ai bi : fq), zero_only_at A 0 /\ above_glue A (sqdualq (cv T1)) (sqdualq (cv T2)) /\ (forall j, j < 4 -> sqdualq (cv P) j = qmul (A j) (y j)) /\
  (forall j, j < 4 -> sqdualq (cv S) j = qmul mu (qmul (A j) (y (Nat.lxor j 1)))) /\ mu <> q0 /\ y 2 <> q0 /\ fqv ai = qdiv (A 3) (A 1) /\ fqv bi = qdiv (A 3) (A 2).
Proof.
  destruct (sq_exists (v4 0 2 9 15)) as [T1 H1]. destruct (sq_exists (v4 0 4 3 10)) as [T2 H2]. destruct (sq_exists (v4 0 4 9 20)) as [P HP]. destruct (sq_exists (v4 0 6 36 45)) as [S HS].
  pose (A := fun i => qz (v4 0 2 3 5 i)). pose (y := fun i => qz (v4 1 2 3 4 i)).
  exists T1, T2, P, S, A, y, (qz 3), (ffr 5 2), (ffr 5 3). unfold A, y. split; [|split; [|split; [|split; [|split; [znz|split; [znz|split; apply ffr_v]]]]]].
  - split; [lia|]. split; [exact qz_0|]. intros j Hj Nj. four_ j Hj; [contradiction|znz|znz|znz].
  - exists (qz 1), (qz 3), (qz 1), (qz 2). split; [znz|]. split; [znz|]. split; [znz|]. split; [znz|]. intros j Hj. rewrite (proj1 (H1 j Hj)), (proj1 (H2 j Hj)). four_ j Hj; cbn [Nat.odd Nat.even negb Nat.div Nat.divmod fst snd]; rewrite <- !qz_mul; split; reflexivity.
  - intros j Hj. rewrite (proj1 (HP j Hj)), <- qz_mul. four_ j Hj; reflexivity.
  - intros j Hj. rewrite (proj1 (HS j Hj)), <- !qz_mul. four_ j Hj; reflexivity.
Qed.
Print Assumptions C39_hadamard.
Print Assumptions C39_squared_theta.
Print Assumptions C39_precomputation.
Print Assumptions C39_double.
Print Assumptions C39_double_iter.
Print Assumptions C39_chi.
Print Assumptions C39_level22.
Print Assumptions C39_even_indices.
Print Assumptions C39_even_index.
Print Assumptions C39_splitting.
Print Assumptions C39_splitting_refuted.
Print Assumptions C39_two_isogeny.
Print Assumptions C39_double_factors.
Print Assumptions C39_to_product.
Print Assumptions C39_split_double.
Print Assumptions C39_gluing_codomain.
Print Assumptions C39_gluing_image.
