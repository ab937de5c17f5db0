(** C28, C55: the Weil pairing (src/pairing.rs) and the two-dimensional discrete logarithm (src/discrete_log.rs:167-190). *)
From Coq Require Import Arith ZArith List Bool Lia Ring Field Znumtheory.
From Verif Require Import S_Fp S_Fp2 S_Dlog S_Curve S_Params M_Fp M_Fp2 M_Field M_Curve M_Consts M_Dlog M_Pairing M_Super L_Words L_FpCodec L_Zp L_Zp2 L_Fp L_Fp2 L_Fp2Roots L_Fp2Misc L_Group L_Kummer L_Field L_QNum L_Curve L_Ints L_Dlog L_Super L_Weil L_Weil2 L_WeilTwo L_Pairing P_Fp2 P_Params P_Curve P_Dlog P_Super.
Import ListNotations.
Open Scope Z_scope.

(** ** Specification *)
(** p and q generate a group of type (Z/n)^2: they are killed by n and have no other relations *)
Definition n_basis (A : Zq) (n : Z) (p q : pt Zq) : Prop :=
  pmul_q A n p = None /\ pmul_q A n q = None /\
  (forall i j, 0 <= i -> 0 <= j -> padd_q A (pmul_q A i p) (pmul_q A j q) = None -> (n | i) /\ (n | j)).
Definition exact_order (A : Zq) (n : Z) (p : pt Zq) : Prop := pmul_q A n p = None /\ (forall k, 0 < k < n -> pmul_q A k p <> None).

(** ** The pairing on coordinates *)
Notation wpq A := (L_Weil.wp (k1 := q1) (kadd := qadd) (kmul := qmul) (ksub := qsub) (kopp := qopp) (kdiv := qdiv) (keq := qeqb) (A := A)).
Notation eeq A := (L_Weil.ee (k1 := q1) (kadd := qadd) (kmul := qmul) (ksub := qsub) (kopp := qopp) (kdiv := qdiv) (keq := qeqb) (A := A)).
Notation pzq A := (L_Weil.pz (k1 := q1) (kadd := qadd) (kmul := qmul) (ksub := qsub) (kopp := qopp) (kdiv := qdiv) (keq := qeqb) (A := A)).
Notation pwq := (L_Weil.pw (k1 := q1) (kmul := qmul)).
Lemma pw_q x m : pwq x m = qpow x (Z.of_nat m).
Proof. induction m; [reflexivity|]. cbn [L_Weil.pw]. rewrite IHm, Nat2Z.inj_succ. unfold Z.succ. rewrite qpow_succ by lia. apply qmul_comm. Qed.
Section Basis.
Context (checks : bool) (E : curve fq) (V : valid E) (n : Z) (Hn : 3 < n) (P Q : point fq) (HP : on_E E P) (HQ : on_E E Q) (B : n_basis (coeff E) n (affine P) (affine Q)).
Notation A := (coeff E).
Notation pn m := (S_Curve.pmul_nat q1 qadd qmul qsub qopp qdiv qeqb A m).
Let SM := valid_smooth E V.
Lemma b_OP : pn (Z.to_nat n) (affine P) = None. Proof. destruct B as (B1 & _ & _). unfold pmul_q in B1. rewrite pmul_to_nat in B1 by lia. exact B1. Qed.
Lemma b_OQ : pn (Z.to_nat n) (affine Q) = None. Proof. destruct B as (_ & B1 & _). unfold pmul_q in B1. rewrite pmul_to_nat in B1 by lia. exact B1. Qed.
Lemma b_in : forall i j : nat, padd_q A (pn i (affine P)) (pn j (affine Q)) = None -> (n | Z.of_nat i) /\ (n | Z.of_nat j).
Proof. intros i j H. destruct B as (_ & _ & B1). apply B1; try lia. unfold pmul_q. rewrite !pmul_to_nat, !Nat2Z.id by lia. exact H. Qed.
Notation ee := (eeq A (affine P) (affine Q) n).
Notation pz := (pzq A (affine P) (affine Q) n).
Lemma exact_nat p : exact_order A n p -> forall k, (0 < k < Z.to_nat n)%nat -> pn k p <> None.
Proof. intros [_ X] k Hk. specialize (X (Z.of_nat k) ltac:(lia)). unfold pmul_q in X. rewrite pmul_to_nat, Nat2Z.id in X by lia. exact X. Qed.
Lemma weil_pz R S i j k l : on_E E R -> on_E E S -> affine R = pz i j -> affine S = pz k l -> exact_order A n (pz i j) -> unim n k l -> ~ (n | dt i j k l) ->
  exists w, weil_pairing fq_ops checks E R S n = Some w /\ fqv w = ee i j k l.
Proof.
  intros OR OS ER ES X U D. pose proof b_OP as OP. pose proof b_OQ as OQ. pose proof b_in as IN.
  assert (X2 : forall m, (0 < m < Z.to_nat n)%nat -> pn m (pz k l) <> None) by (intros m Hm; exact (unim_exact Zq_field qeqb_true q2_nz SM (affine P) (affine Q) HP HQ n Hn OP OQ IN k l m U Hm)).
  pose proof (exact_nat _ X) as X1.
  assert (F1 : pz i j <> None) by (pose proof (X1 1%nat ltac:(lia)) as K; cbn in K; exact K).
  assert (F2 : pz k l <> None) by (pose proof (X2 1%nat ltac:(lia)) as K; cbn in K; exact K).
  destruct (affine R) as [[x1 y1]|] eqn:AR; [|congruence]. destruct (affine S) as [[x2 y2]|] eqn:AS; [|congruence].
  change (affine R) with (aff (k0 := q0) (kdiv := qdiv) (keq := qeqb) (v := fqv) R) in AR. change (affine S) with (aff (k0 := q0) (kdiv := qdiv) (keq := qeqb) (v := fqv) S) in AS.
  destruct (weil_ok fq_laws checks E R S n x1 y1 x2 y2 (valid_wfc E V) OR OS AR AS ltac:(lia)) as (w & Ew & Vw); rewrite ?AR, ?AS, ?ER, ?ES; auto.
  - exact (pz_order Zq_field qeqb_true q2_nz SM (affine P) (affine Q) HP HQ n Hn OP OQ IN i j).
  - exact (pz_order Zq_field qeqb_true q2_nz SM (affine P) (affine Q) HP HQ n Hn OP OQ IN k l).
  - intros m. exact (xdis_mul Zq_field qeqb_true q2_nz SM (affine P) (affine Q) HP HQ n Hn OP OQ IN i j k l m U D).
  - intros m. exact (xdis_mul' Zq_field qeqb_true q2_nz SM (affine P) (affine Q) HP HQ n Hn OP OQ IN i j k l m D).
  - exists w. split; [exact Ew|]. rewrite Vw, AR, AS, ER, ES. reflexivity.
Qed.
End Basis.
Section Theorems.
Context (checks : bool) (E : curve fq) (V : valid E) (n : Z) (Hn : 3 < n) (P Q : point fq) (HP : on_E E P) (HQ : on_E E Q) (B : n_basis (coeff E) n (affine P) (affine Q)).
Notation A := (coeff E).
Notation pn m := (S_Curve.pmul_nat q1 qadd qmul qsub qopp qdiv qeqb A m).
Notation ee := (eeq A (affine P) (affine Q) n).
Notation pz := (pzq A (affine P) (affine Q) n).
Let SM := valid_smooth E V.
Let OP := b_OP E n Hn P Q B. Let OQ := b_OQ E n Hn P Q B. Let IN := b_in E n P Q B.
Lemma pm_n k p : 0 <= k -> pmul_q A k p = pn (Z.to_nat k) p. Proof. intros. unfold pmul_q. apply pmul_to_nat. exact H. Qed.
Lemma comb_pz a b : 0 <= a -> 0 <= b -> padd_q A (pmul_q A a (affine P)) (pmul_q A b (affine Q)) = pz a b.
Proof.
  intros Ha Hb. rewrite !pm_n by assumption. rewrite <- (Z2Nat.id a Ha) at 2. rewrite <- (Z2Nat.id b Hb) at 2. symmetry. exact (pz_nat Zq_field qeqb_true q2_nz SM (affine P) (affine Q) HP HQ n Hn OP OQ (Z.to_nat a) (Z.to_nat b)).
Qed.
Lemma nd1 : ~ (n | dt 1 0 0 1). Proof. apply (nodiv n). unfold dt. lia. Qed.
Lemma unim_ord i j : unim n i j -> exact_order A n (pz i j).
Proof.
  intros U. split.
  - rewrite pm_n by lia. exact (pz_order Zq_field qeqb_true q2_nz SM (affine P) (affine Q) HP HQ n Hn OP OQ IN i j).
  - intros k Hk. rewrite pm_n by lia. apply (unim_exact Zq_field qeqb_true q2_nz SM (affine P) (affine Q) HP HQ n Hn OP OQ IN i j); [exact U|lia].
Qed.
Lemma aP : affine P = pz 1 0. Proof. symmetry. exact (pz_1_0 (affine P) (affine Q) HP n Hn OP IN). Qed.
Lemma aQ : affine Q = pz 0 1. Proof. symmetry. exact (pz_0_1 (affine P) (affine Q) n Hn). Qed.
Lemma aNP : affine (p_neg fq_ops P) = pz (-1) 0.
Proof. rewrite C29_neg. transitivity (popp_q (pz 1 0)); [f_equal; exact aP|]. exact (pz_opp Zq_field qeqb_true q2_nz SM (affine P) (affine Q) HP HQ n Hn OP OQ IN 1 0). Qed.
Lemma weil_PQ : exists w, weil_pairing fq_ops checks E P Q n = Some w /\ fqv w = ee 1 0 0 1.
Proof. apply (weil_pz checks E V n Hn P Q HP HQ B P Q 1 0 0 1 HP HQ aP aQ); [apply unim_ord, unim_1|apply unim_0|apply nd1]. Qed.
Lemma weil_RQ R a b : on_E E R -> affine R = pz a b -> exact_order A n (affine R) -> 0 < a < n -> 0 <= b -> exists w, weil_pairing fq_ops checks E R Q n = Some w /\ fqv w = qpow (ee 1 0 0 1) a.
Proof.
  intros OR ER X Ha Hb. rewrite ER in X. destruct (weil_pz checks E V n Hn P Q HP HQ B R Q a b 0 1 OR HQ ER aQ X (unim_0 n)) as (w & Ew & Vw).
  - unfold dt. apply (nodiv n). lia.
  - exists w. split; [exact Ew|]. rewrite Vw. pose proof (ee_bilin_all Zq_field qeqb_true q2_nz SM (affine P) (affine Q) HP HQ n Hn OP OQ IN (Z.to_nat a) (Z.to_nat b) ltac:(lia) ltac:(lia)) as L. rewrite pw_q, !Z2Nat.id in L by lia. exact L.
Qed.
Lemma weil_RnP R a b : on_E E R -> affine R = pz a b -> exact_order A n (affine R) -> 0 <= a -> 0 < b < n -> exists w, weil_pairing fq_ops checks E R (p_neg fq_ops P) n = Some w /\ fqv w = qpow (ee 1 0 0 1) b.
Proof.
  intros OR ER X Ha Hb. rewrite ER in X. assert (ON : on_E E (p_neg fq_ops P)) by (apply (neg_on fq_laws), HP).
  destruct (weil_pz checks E V n Hn P Q HP HQ B R (p_neg fq_ops P) a b (-1) 0 OR ON ER aNP X) as (w & Ew & Vw).
  - exists (-1), 0, 0. reflexivity.
  - unfold dt. replace (a * 0 - b * -1) with b by ring. apply (nodiv n). lia.
  - exists w. split; [exact Ew|]. rewrite Vw. pose proof (ee_bilin2_all Zq_field qeqb_true q2_nz SM (affine P) (affine Q) HP HQ n Hn OP OQ IN (Z.to_nat a) (Z.to_nat b) ltac:(lia) ltac:(lia)) as L. rewrite pw_q, !Z2Nat.id in L by lia. exact L.
Qed.
End Theorems.

(** q and -p form a basis as well *)
Lemma basis_swap E n P Q : valid E -> 3 < n -> on_E E P -> on_E E Q -> n_basis (coeff E) n (affine P) (affine Q) -> n_basis (coeff E) n (affine Q) (affine (p_neg fq_ops P)).
Proof.
  intros V Hn HP HQ B. assert (SM := valid_smooth E V). rewrite C29_neg. pose proof (b_OP E n Hn P Q B) as OP. pose proof (b_OQ E n Hn P Q B) as OQ. pose proof (b_in E n P Q B) as IN.
  split; [rewrite pm_n by lia; exact OQ|]. split.
  - rewrite pm_n by lia. exact (opp_order Zq_field qeqb_true q2_nz (affine P) HP n OP).
  - intros i j Hi Hj Z. rewrite !pm_n in Z by assumption. destruct (indep_swap Zq_field qeqb_true q2_nz SM (affine P) (affine Q) HP HQ n Hn OQ IN (Z.to_nat i) (Z.to_nat j) Z) as [D1 D2]. rewrite Z2Nat.id in D1, D2 by assumption. auto.
Qed.
(** dependent points of order 2^k pair to 1 *)
Lemma weil_dep c E n k P Q R S al : valid E -> 3 < n -> n = 2 ^ Z.of_nat k -> on_E E P -> on_E E Q -> n_basis (coeff E) n (affine P) (affine Q) -> on_E E R -> on_E E S -> Z.odd al = true ->
  affine R = pzq (coeff E) (affine P) (affine Q) n al 0 -> affine S = pzq (coeff E) (affine P) (affine Q) n (-1) 0 -> exists w, weil_pairing fq_ops c E R S n = Some w /\ fqv w = q1.
Proof.
  intros V Hn En HP HQ B HR HS Oa ER ES. assert (SM := valid_smooth E V). pose proof (b_OP E n Hn P Q B) as OP. pose proof (b_OQ E n Hn P Q B) as OQ. pose proof (b_in E n P Q B) as IN.
  assert (X : forall a, Z.odd a = true -> forall i, (i < k)%nat -> S_Curve.pmul_nat q1 qadd qmul qsub qopp qdiv qeqb (coeff E) (2 ^ i) (pzq (coeff E) (affine P) (affine Q) n a 0) <> None)
    by (intros a Ha i Hi; exact (fin2 Zq_field qeqb_true q2_nz SM (affine P) (affine Q) HP HQ n Hn OP OQ IN k En i Hi a Ha)).
  assert (Z0 : forall a, S_Curve.pmul_nat q1 qadd qmul qsub qopp qdiv qeqb (coeff E) (2 ^ k) (pzq (coeff E) (affine P) (affine Q) n a 0) = None).
  { intros a. replace (2 ^ k)%nat with (Z.to_nat n) by (rewrite En, <- (pow2Z k); apply Nat2Z.id). exact (pz_order Zq_field qeqb_true q2_nz SM (affine P) (affine Q) HP HQ n Hn OP OQ IN a 0). }
  assert (XD : forall a b, Z.odd a = true -> Z.odd b = true -> forall i, (i < k)%nat -> xdis (S_Curve.pmul_nat q1 qadd qmul qsub qopp qdiv qeqb (coeff E) (2 ^ Datatypes.S i) (pzq (coeff E) (affine P) (affine Q) n a 0)) (pzq (coeff E) (affine P) (affine Q) n b 0)).
  { intros a b Ha Hb i Hi. rewrite (m2 Zq_field qeqb_true q2_nz SM (affine P) (affine Q) HP HQ n Hn OP OQ IN). apply (xpar Zq_field qeqb_true q2_nz SM (affine P) (affine Q) HP HQ n Hn OP OQ IN k En).
    rewrite Z.odd_sub, Z.odd_mul, pow2_even, Hb. reflexivity. }
  assert (K2 := k_2 n Hn k En). pose proof (X al Oa 0%nat ltac:(lia)) as FR. pose proof (X (-1) eq_refl 0%nat ltac:(lia)) as FS. change (2 ^ 0)%nat with 1%nat in FR, FS. cbn [S_Curve.pmul_nat] in FR, FS. rewrite padd_0_l in FR, FS. rewrite <- ER in FR. rewrite <- ES in FS.
  destruct (affine R) as [[x1 y1]|] eqn:AR; [|contradiction]. destruct (affine S) as [[x2 y2]|] eqn:AS; [|contradiction].
  change (affine R) with (aff (k0 := q0) (kdiv := qdiv) (keq := qeqb) (v := fqv) R) in AR. change (affine S) with (aff (k0 := q0) (kdiv := qdiv) (keq := qeqb) (v := fqv) S) in AS.
  rewrite En. apply (weil2_one fq_laws c E R S k x1 y1 x2 y2 (valid_wfc E V) HR HS AR AS ltac:(lia)); rewrite ?AR, ?AS, ?ER, ?ES; auto.
  destruct (Zdivide_dec n (al + 1)) as [D|D].
  - replace (pzq (coeff E) (affine P) (affine Q) n al 0) with (pzq (coeff E) (affine P) (affine Q) n (-1) 0); [reflexivity|]. apply (pz_mod (affine P) (affine Q) n); [destruct D as [q Hq]; exists (- q); lia|exists 0; lia].
  - exact (p2_dep Zq_field qeqb_true q2_nz SM (affine P) (affine Q) HP HQ n Hn OP OQ IN k En al Oa D).
Qed.

(** ** C55 *)
Theorem C55_weil : forall checks E n P Q, valid E -> 3 < n -> on_E E P -> on_E E Q -> n_basis (coeff E) n (affine P) (affine Q) ->
  exists w, weil_pairing fq_ops checks E P Q n = Some w /\ qpow (fqv w) n = q1 /\
    (exists w', weil_pairing fq_ops checks E Q P n = Some w' /\ qmul (fqv w) (fqv w') = q1) /\
    (forall R a b, on_E E R -> 0 < a < n -> 0 <= b -> affine R = padd_q (coeff E) (pmul_q (coeff E) a (affine P)) (pmul_q (coeff E) b (affine Q)) -> exact_order (coeff E) n (affine R) ->
       exists r, weil_pairing fq_ops checks E R Q n = Some r /\ fqv r = qpow (fqv w) a).
Proof.
  intros c E n P Q V Hn HP HQ B. destruct (weil_PQ c E V n Hn P Q HP HQ B) as (w & Ew & Vw). exists w. split; [exact Ew|]. rewrite Vw. split; [|split].
  - pose proof (ee_root Zq_field qeqb_true q2_nz (valid_smooth E V) (affine P) (affine Q) HP HQ n Hn (b_OP E n Hn P Q B) (b_OQ E n Hn P Q B) (b_in E n P Q B)) as L. rewrite pw_q, Z2Nat.id in L by lia. exact L.
  - destruct (weil_pz c E V n Hn P Q HP HQ B Q P 0 1 1 0 HQ HP) as (w' & Ew' & Vw').
    + apply aQ; assumption.
    + apply aP; assumption.
    + apply unim_ord; auto. apply unim_0.
    + apply unim_1.
    + unfold dt. change (0 * 0 - 1 * 1) with (- (1)). apply (nodiv_opp n 1), (nodiv n). lia.
    + exists w'. split; [exact Ew'|]. rewrite Vw'.
      exact (proj1 (ee_anti Zq_field qeqb_true q2_nz (valid_smooth E V) (affine P) (affine Q) HP HQ n Hn (b_OP E n Hn P Q B) (b_OQ E n Hn P Q B) (b_in E n P Q B) 1 0 0 1 (unim_0 n) (nd1 n Hn))).
  - intros R a b OR Ha Hb ER X. rewrite (comb_pz E V n Hn P Q HP HQ B) in ER by lia. apply (weil_RQ c E V n Hn P Q HP HQ B R a b); auto.
Qed.

(** ** C28 *)
Definition dlp_fq (checks : bool) (b a : fq) (fs : list (Z * Z)) : option Z := ph_dlp checks (proj1_sig b) (proj1_sig a) fs.
Definition log_entries (checks : bool) (fs : list (Z * Z)) : Prop := Forall (fun f => 2 <= fst f < 2 ^ 32 /\ 1 <= snd f < 2 ^ 32 /\ (checks = true -> fst f <= 65535 * 65535)) fs.
Definition unit_order (w : Zq) (n : Z) : Prop := 0 < n /\ qpow w n = q1 /\ forall k, 0 < k < n -> qpow w k <> q1.
(** [w] is the base handed to the logarithms and e(P,Q) = w^t *)
Theorem C28_bidlp_partial : forall checks E P Q R fs a b ePQ w t, let n := fprod fs in
  valid E -> 3 < n -> log_entries checks fs -> fcoprime fs ->
  on_E E P -> on_E E Q -> on_E E R -> n_basis (coeff E) n (affine P) (affine Q) ->
  affine R = padd_q (coeff E) (pmul_q (coeff E) a (affine P)) (pmul_q (coeff E) b (affine Q)) -> exact_order (coeff E) n (affine R) -> 0 < a < n -> 0 < b < n ->
  (ePQ = Some w \/ ePQ = None /\ weil_pairing fq_ops checks E P Q n = Some w) -> unit_order (fqv w) n ->
  0 <= t -> (forall v, weil_pairing fq_ops checks E P Q n = Some v -> fqv v = qpow (fqv w) t) ->
  bidlp fq_ops (dlp_fq checks) checks E R P Q fs ePQ = Some ((a * t) mod n, (b * t) mod n).
Proof.
  intros c E P Q R fs a b ePQ w t n V Hn HF HC HP HQ HR B ER X Ha Hb He Ow Ht Hw. rewrite (comb_pz E V n Hn P Q HP HQ B) in ER by lia.
  destruct (weil_PQ c E V n Hn P Q HP HQ B) as (w0 & Ew0 & Vw0). specialize (Hw w0 Ew0).
  destruct (weil_RQ c E V n Hn P Q HP HQ B R a b HR ER X Ha ltac:(lia)) as (wa & Ewa & Vwa). destruct (weil_RnP c E V n Hn P Q HP HQ B R a b HR ER X ltac:(lia) Hb) as (wb & Ewb & Vwb).
  unfold bidlp. replace (fold_left (fun r le => r * bpow le) fs 1) with n.
  2: { unfold n. assert (G : forall fs s, fold_left (fun r le => r * bpow le) fs s = s * fprod fs) by (clear; induction fs as [|[l e] fs IH]; intros s; cbn [fold_left fprod]; [ring|rewrite IH; unfold bpow; cbn [fst snd]; ring]). rewrite G. ring. }
  replace (match ePQ with Some x => Some x | None => weil_pairing fq_ops c E P Q n end) with (Some w) by (destruct He as [->|[-> He]]; [reflexivity|symmetry; exact He]).
  rewrite Ewa, Ewb. rewrite <- Vw0, Hw in Vwa, Vwb. unfold dlp_fq.
  assert (DL : forall x k, 0 <= k -> fqv x = qpow (qpow (fqv w) t) k -> ph_dlp c (proj1_sig x) (proj1_sig w) fs = Some ((k * t) mod n)).
  { intros x k Hk Vx. apply ph_dlp_ok; [apply canon2b_ok, (proj2_sig w)|apply canon2b_ok, (proj2_sig x)|exact HF|exact HC|exact Ow|apply Z.mod_pos_bound; lia|].
    change (qpow (fqv w) ((k * t) mod n) = fqv x). rewrite Vx. destruct Ow as (_ & O1 & _). rewrite <- qpow_mod by (try assumption; nia). rewrite <- qpow_mul by lia. f_equal. ring. }
  rewrite (DL wa a) by (try assumption; lia). rewrite (DL wb b) by (try assumption; lia). reflexivity.
Qed.
(** without a precomputed pairing the coordinates themselves come out *)
Theorem C28_bidlp_none_partial : forall checks E P Q R fs a b w, let n := fprod fs in
  valid E -> 3 < n -> log_entries checks fs -> fcoprime fs ->
  on_E E P -> on_E E Q -> on_E E R -> n_basis (coeff E) n (affine P) (affine Q) ->
  affine R = padd_q (coeff E) (pmul_q (coeff E) a (affine P)) (pmul_q (coeff E) b (affine Q)) -> exact_order (coeff E) n (affine R) -> 0 < a < n -> 0 < b < n ->
  weil_pairing fq_ops checks E P Q n = Some w -> unit_order (fqv w) n ->
  bidlp fq_ops (dlp_fq checks) checks E R P Q fs None = Some (a, b).
Proof.
  intros c E P Q R fs a b w n V Hn HF HC HP HQ HR B ER X Ha Hb Ew Ow. rewrite (C28_bidlp_partial c E P Q R fs a b None w 1); auto; try lia.
  - fold n. rewrite !Z.mul_1_r, !Z.mod_small by lia. reflexivity.
  - intros v Ev. fold n in Ev. rewrite Ew in Ev. injection Ev as <-. rewrite qpow_1. reflexivity.
Qed.
(** orders 2^e: every point of exact order, dependent or not *)
Lemma exact_odd E n k P Q a b : valid E -> 3 < n -> n = 2 ^ Z.of_nat k -> on_E E P -> on_E E Q -> n_basis (coeff E) n (affine P) (affine Q) -> exact_order (coeff E) n (pzq (coeff E) (affine P) (affine Q) n a b) -> Z.odd a = true \/ Z.odd b = true.
Proof.
  intros V Hn En HP HQ B [_ X]. assert (SM := valid_smooth E V). pose proof (b_OP E n Hn P Q B) as OP. pose proof (b_OQ E n Hn P Q B) as OQ. pose proof (b_in E n P Q B) as IN.
  destruct (Z.odd a) eqn:Oa; [auto|]. destruct (Z.odd b) eqn:Ob; [auto|]. exfalso. assert (K2 := k_2 n Hn k En).
  assert (Nh : n = 2 * 2 ^ Z.of_nat (k - 1)) by (rewrite En; replace (Z.of_nat k) with (Z.succ (Z.of_nat (k - 1))) by lia; apply Z.pow_succ_r; lia). set (h := 2 ^ Z.of_nat (k - 1)) in *.
  apply (X h); [lia|]. rewrite pm_n by lia. rewrite (pz_mul Zq_field qeqb_true q2_nz SM (affine P) (affine Q) HP HQ n Hn OP OQ IN), Z2Nat.id by lia. apply (pz_None (affine P) (affine Q) n Hn IN).
  rewrite <- Z.negb_even in Oa, Ob. apply negb_false_iff in Oa, Ob. apply Z.even_spec in Oa. apply Z.even_spec in Ob. destruct Oa as [u Hu], Ob as [v Hv]. split; [exists u|exists v]; subst; rewrite Nh; ring.
Qed.
(** the pairing of a basis of the 2^e-torsion is a primitive root of unity: it is not degenerate *)
Lemma two_order_nat : forall (e : nat) w, qpow w (2 ^ Z.of_nat e) = qopp q1 -> forall k, 0 < k < 2 ^ Z.of_nat (S e) -> qpow w k <> q1.
Proof.
  assert (N1 : qopp q1 <> q1) by (intros C; apply q2_nz; rewrite <- C at 1; ring). assert (S1 : qpow (qopp q1) 2 = q1) by (change 2 with (1 + 1); rewrite qpow_succ, qpow_1 by lia; ring).
  assert (O : forall e w, qpow w (2 ^ Z.of_nat e) = qopp q1 -> forall u, 0 <= u -> qpow w (2 * u + 1) <> q1).
  { intros e w H u Hu K. assert (Hp : 0 < 2 ^ Z.of_nat e) by (apply Z.pow_pos_nonneg; lia). apply N1. transitivity (qpow (qpow w (2 * u + 1)) (2 ^ Z.of_nat e)); [|rewrite K; apply qpow_q1].
    rewrite <- qpow_mul, (Z.mul_comm (2 * u + 1)), qpow_mul, H by lia. rewrite qpow_succ, qpow_mul, S1, qpow_q1 by lia. ring. }
  induction e; intros w H k Hk K; destruct (Z.Even_or_Odd k) as [[u ->]|[u ->]].
  - change (2 ^ Z.of_nat 1) with 2 in Hk. lia.
  - exact (O _ w H u ltac:(lia) K).
  - rewrite Nat2Z.inj_succ, Z.pow_succ_r in Hk by lia. rewrite qpow_mul in K by lia. revert K. apply (IHe (qpow w 2)); [|lia]. rewrite <- qpow_mul by (try apply Z.pow_nonneg; lia). rewrite <- Z.pow_succ_r, <- Nat2Z.inj_succ by lia. exact H.
  - exact (O _ w H u ltac:(lia) K).
Qed.
Lemma qpow_two_order w e : 0 < e -> qpow w (2 ^ (e - 1)) = qopp q1 -> unit_order w (2 ^ e).
Proof.
  intros He H. assert (Hp : 0 < 2 ^ (e - 1)) by (apply Z.pow_pos_nonneg; lia). assert (E2 : 2 ^ e = 2 ^ (e - 1) * 2) by (rewrite Z.mul_comm, <- Z.pow_succ_r by lia; f_equal; lia).
  assert (Hn : qpow w (2 ^ e) = q1). { rewrite E2, qpow_mul by lia. rewrite H. change 2 with (1 + 1). rewrite qpow_succ, qpow_1 by lia. ring. }
  split; [lia|]. split; [exact Hn|]. intros k Hk. apply (two_order_nat (Z.to_nat (e - 1))).
  - rewrite Z2Nat.id by lia. exact H.
  - rewrite Nat2Z.inj_succ, Z2Nat.id by lia. replace (Z.succ (e - 1)) with e by lia. exact Hk.
Qed.
Theorem C71_two_power : forall checks E P Q e, valid E -> 2 <= e -> on_E E P -> on_E E Q -> n_basis (coeff E) (2 ^ e) (affine P) (affine Q) ->
  exists w, weil_pairing fq_ops checks E P Q (2 ^ e) = Some w /\ qpow (fqv w) (2 ^ (e - 1)) = qopp q1 /\ unit_order (fqv w) (2 ^ e).
Proof.
  intros c E P Q e V He HP HQ B. assert (Hn : 3 < 2 ^ e) by (assert (2 ^ 2 <= 2 ^ e) by (apply Z.pow_le_mono_r; lia); lia).
  destruct (weil_PQ c E V (2 ^ e) Hn P Q HP HQ B) as (w & Ew & Vw). exists w. split; [exact Ew|].
  assert (H : qpow (fqv w) (2 ^ (e - 1)) = qopp q1); [|split; [exact H|apply qpow_two_order; [lia|exact H]]].
  set (h := Z.to_nat (e - 1)). assert (Eh : Z.of_nat h = e - 1) by (apply Z2Nat.id; lia). assert (En : 2 ^ e = 2 ^ Z.of_nat (S h)) by (f_equal; lia).
  pose proof (b_OP E _ Hn P Q B) as OP. pose proof (b_OQ E _ Hn P Q B) as OQ. pose proof (b_in E _ P Q B) as IN. pose proof (aP E _ Hn P Q HP B) as AP. pose proof (aQ E _ Hn P Q) as AQ.
  rewrite Vw. unfold L_Weil.ee. rewrite <- AP, <- AQ. rewrite En in OP, OQ, IN |- *.
  pose proof (basis_two Zq_field qeqb_true q2_nz (valid_smooth E V) (affine P) (affine Q) HP HQ h ltac:(lia) OP OQ IN) as T. rewrite pw_q, Nat2Z.inj_pow, Eh in T. exact T.
Qed.
Theorem C28_bidlp_pow2_partial : forall checks E P Q R e a b, let n := 2 ^ e in
  valid E -> 2 <= e < 2 ^ 32 -> on_E E P -> on_E E Q -> on_E E R -> n_basis (coeff E) n (affine P) (affine Q) ->
  affine R = padd_q (coeff E) (pmul_q (coeff E) a (affine P)) (pmul_q (coeff E) b (affine Q)) -> exact_order (coeff E) n (affine R) -> 0 <= a < n -> 0 <= b < n ->
  bidlp fq_ops (dlp_fq checks) checks E R P Q [(2, e)] None = Some (a, b).
Proof.
  intros c E P Q R e a b n V He HP HQ HR B ER X Ha Hb. destruct (C71_two_power c E P Q e V ltac:(lia) HP HQ B) as (w & Ew & _ & Ow).
  assert (Hn : 3 < n) by (unfold n; assert (2 ^ 2 <= 2 ^ e) by (apply Z.pow_le_mono_r; lia); lia). assert (En : n = 2 ^ Z.of_nat (Z.to_nat e)) by (rewrite Z2Nat.id by lia; reflexivity).
  rewrite (comb_pz E V n Hn P Q HP HQ B) in ER by lia. assert (SM := valid_smooth E V). pose proof (b_OP E n Hn P Q B) as OP. pose proof (b_OQ E n Hn P Q B) as OQ. pose proof (b_in E n P Q B) as IN.
  pose proof X as X'. rewrite ER in X'. pose proof (exact_odd E n _ P Q a b V Hn En HP HQ B X') as Od.
  destruct (weil_PQ c E V n Hn P Q HP HQ B) as (w0 & Ew0 & Vw0). fold n in Ew. rewrite Ew in Ew0. injection Ew0 as <-.
  assert (ON : on_E E (p_neg fq_ops P)) by (apply (neg_on fq_laws), HP).
  assert (WA : exists r, weil_pairing fq_ops c E R Q n = Some r /\ fqv r = qpow (fqv w) a).
  { destruct (Z.eq_dec a 0) as [->|Na]; [|rewrite Vw0; apply (weil_RQ c E V n Hn P Q HP HQ B R a b); auto; lia]. rewrite qpow_0. destruct Od as [Od|Od]; [discriminate|].
    pose proof (basis_swap E n P Q V Hn HP HQ B) as B1. pose proof (basis_swap E n _ _ V Hn HQ ON B1) as B2. assert (ONQ : on_E E (p_neg fq_ops Q)) by (apply (neg_on fq_laws), HQ).
    pose proof (basis_swap E n _ _ V Hn ON ONQ B2) as B3. assert (ONN : on_E E (p_neg fq_ops (p_neg fq_ops P))) by (apply (neg_on fq_laws), ON).
    assert (PP : affine (p_neg fq_ops (p_neg fq_ops P)) = affine P) by (rewrite !C29_neg; apply (popp_invol Zq_field)).
    assert (PZ : forall i j, pzq (coeff E) (affine (p_neg fq_ops Q)) (affine (p_neg fq_ops (p_neg fq_ops P))) n i j = pzq (coeff E) (affine P) (affine Q) n j (- i)).
    { intros i j. rewrite PP.
      pose proof (pz_swap Zq_field qeqb_true q2_nz SM (affine P) (affine Q) HP HQ n Hn OP) as S1.
      pose proof (b_OP E n Hn _ _ B1) as OP1. pose proof (pz_swap Zq_field qeqb_true q2_nz SM (affine Q) (affine (p_neg fq_ops P)) HQ ON n Hn OP1) as S2.
      pose proof (b_OP E n Hn _ _ B2) as OP2. pose proof (pz_swap Zq_field qeqb_true q2_nz SM (affine (p_neg fq_ops P)) (affine (p_neg fq_ops Q)) ON ONQ n Hn OP2) as S3.
      rewrite <- PP at 1. transitivity (pzq (coeff E) (affine (p_neg fq_ops Q)) (popp_q (affine (p_neg fq_ops P))) n i j); [rewrite (C29_neg (p_neg fq_ops P)); reflexivity|]. etransitivity; [apply S3|].
      transitivity (pzq (coeff E) (affine (p_neg fq_ops P)) (popp_q (affine Q)) n (- j) i); [rewrite (C29_neg Q); reflexivity|]. etransitivity; [apply S2|].
      transitivity (pzq (coeff E) (affine Q) (popp_q (affine P)) n (- i) (- j)); [rewrite (C29_neg P); reflexivity|]. etransitivity; [apply S1|]. rewrite Z.opp_involutive. reflexivity. }
    apply (weil_dep c E n _ (p_neg fq_ops Q) (p_neg fq_ops (p_neg fq_ops P)) R Q (- b) V Hn En ONQ ONN B3 HR HQ).
    - rewrite Z.odd_opp. exact Od.
    - rewrite PZ, ER, Z.opp_involutive. reflexivity.
    - rewrite PZ. apply aQ; assumption. }
  assert (WB : exists r, weil_pairing fq_ops c E R (p_neg fq_ops P) n = Some r /\ fqv r = qpow (fqv w) b).
  { destruct (Z.eq_dec b 0) as [->|Nb]; [|rewrite Vw0; apply (weil_RnP c E V n Hn P Q HP HQ B R a b); auto; lia]. rewrite qpow_0. destruct Od as [Od|Od]; [|discriminate].
    apply (weil_dep c E n _ P Q R (p_neg fq_ops P) a V Hn En HP HQ B HR ON Od ER). apply aNP; assumption. }
  destruct WA as (wa & Ewa & Vwa), WB as (wb & Ewb & Vwb). unfold bidlp. cbn [fold_left]. unfold bpow. cbn [fst snd]. rewrite Z.mul_1_l. fold n. rewrite Ew, Ewa, Ewb. unfold dlp_fq.
  assert (FP : fprod [(2, e)] = n) by (cbn [fprod]; unfold n; apply Z.mul_1_r).
  assert (DL : forall x k, 0 <= k < n -> fqv x = qpow (fqv w) k -> ph_dlp c (proj1_sig x) (proj1_sig w) [(2, e)] = Some k).
  { intros x k Hk Vx. apply ph_dlp_ok; [apply canon2b_ok, (proj2_sig w)|apply canon2b_ok, (proj2_sig x)| | | | |].
    - constructor; [unfold fentry; cbn [fst snd]; split; [clear; lia|split; [clear - He; lia|intros _; clear; lia]]|constructor].
    - cbn [fcoprime]. auto using Forall_nil.
    - rewrite FP. exact Ow.
    - rewrite FP. exact Hk.
    - symmetry. exact Vx. }
  rewrite (DL wa a), (DL wb b) by assumption. reflexivity.
Qed.
