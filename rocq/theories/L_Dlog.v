(** Lemmas for baby-step giant-step and Pohlig-Hellman. *)
From Coq Require Import ZArith List Lia Bool Znumtheory Ring.
From Verif Require Import S_Fp S_Fp2 S_Dlog M_Utils64 M_Fp M_Fp2 M_Dlog L_Fp L_Zp L_Zp2 L_Fp2 L_Fp2Misc P_Fp2 L_Ints.
Import ListNotations.
Open Scope Z_scope.
Add Ring Zq_R : Zq_ring.

(** ** powers and orders in Zp[i] *)
Lemma qpow_0 x : qpow x 0 = q1. Proof. reflexivity. Qed.
Lemma qpow_nz x e : x <> q0 -> qpow x e <> q0.
Proof.
  intros N. unfold qpow. induction (Z.to_nat e) as [|n IH]; [exact q1_nz|]. change (Nat.iter (S n) (qmul x) q1) with (qmul x (Nat.iter n (qmul x) q1)).
  generalize dependent (Nat.iter n (qmul x) q1). intros y IH K. apply IH. rewrite <- (qmul_1_l y), <- (qinv_l x N), <- qmul_assoc, K. ring.
Qed.
Lemma qmul_cancel x y z : x <> q0 -> qmul x y = qmul x z -> y = z.
Proof. intros N E. rewrite <- (qmul_1_l y), <- (qmul_1_l z), <- (qinv_l x N), <- !qmul_assoc, E. reflexivity. Qed.
Lemma qmul_comm x y : qmul x y = qmul y x. Proof. ring. Qed.
Lemma qpow_q0 e : 0 < e -> qpow q0 e = q0.
Proof. intros H. replace e with ((e - 1) + 1) by lia. rewrite qpow_add, qpow_1 by lia. ring. Qed.
Definition qorder (a : Zq) (n : Z) : Prop := 0 < n /\ qpow a n = q1 /\ (forall k, 0 < k < n -> qpow a k <> q1).
Lemma g_order_q x n : g_order (val2 x) n <-> qorder (fv2 x) n.
Proof.
  unfold g_order, qorder. assert (K : forall e, gpow (val2 x) e = (1, 0) <-> qpow (fv2 x) e = q1).
  { intros e. rewrite <- zval2_fv2, <- zval2_qpow, <- zval2_1. split; [apply zval2_inj|congruence]. }
  rewrite K. split; intros (A & B & C); repeat split; auto; intros k Hk E; apply (C k Hk), K, E.
Qed.
Lemma qorder_nz a n : qorder a n -> a <> q0.
Proof. intros (H & E & _) K. subst. rewrite qpow_q0 in E by auto. apply q1_nz. auto. Qed.
Lemma qpow_mod a n k : 0 < n -> qpow a n = q1 -> 0 <= k -> qpow a k = qpow a (k mod n).
Proof.
  intros Hn E Hk. pose proof (Z.div_mod k n ltac:(lia)) as D. pose proof (Z.mod_pos_bound k n Hn). assert (0 <= k / n) by (apply Z.div_pos; lia).
  rewrite D at 1. rewrite qpow_add, qpow_mul, E, qpow_q1 by nia. apply qmul_1_l.
Qed.
Lemma qorder_div a n k : qorder a n -> 0 <= k -> qpow a k = q1 -> (n | k).
Proof.
  intros (Hn & E & H) Hk K. apply Z.mod_divide; [lia|]. pose proof (Z.mod_pos_bound k n Hn). destruct (Z.eq_dec (k mod n) 0); auto. exfalso. apply (H (k mod n)); [lia|]. rewrite <- qpow_mod; auto.
Qed.
Lemma qorder_eq' a n k j : qorder a n -> 0 <= k <= j -> qpow a k = qpow a j -> (n | j - k).
Proof.
  intros O H E. apply (qorder_div a); auto; [lia|]. apply (qmul_cancel (qpow a k)); [apply qpow_nz, (qorder_nz a n O)|]. rewrite <- qpow_add by lia. replace (k + (j - k)) with j by lia. rewrite <- E. ring.
Qed.
Lemma qorder_eq a n k j : qorder a n -> 0 <= k -> 0 <= j -> qpow a k = qpow a j -> (n | j - k).
Proof.
  intros O Hk Hj E. destruct (Z.le_ge_cases k j); [apply (qorder_eq' a); auto|]. replace (j - k) with (- (k - j)) by ring. apply Z.divide_opp_r, (qorder_eq' a); auto.
Qed.
Lemma qorder_pow a n m : qorder a (n * m) -> 0 < m -> qorder (qpow a m) n.
Proof.
  intros (H & E & Hk) Hm. assert (0 < n) by nia. split; auto. split.
  - rewrite <- qpow_mul by lia. rewrite Z.mul_comm. auto.
  - intros k B. rewrite <- qpow_mul by lia. apply Hk. nia.
Qed.

(** ** bsgs *)
Lemma feq_ok x y : canon2 x -> canon2 y -> (f2_equals x y =? 0) = negb (qeqb (fv2 x) (fv2 y)).
Proof. intros. rewrite f2_equals_ok by auto. destruct (qeqb _ _); reflexivity. Qed.
Lemma bsgs_table_ok alpha (Ha : canon2 alpha) : forall n i g, canon2 g -> exists t g', bsgs_table alpha n i g = (t, g') /\ canon2 g' /\
  fv2 g' = qmul (fv2 g) (qpow (fv2 alpha) (Z.of_nat n)) /\
  forall target, canon2 target ->
    match find (fun jv => negb (f2_equals (snd jv) target =? 0)) t with
    | Some (j, _) => i <= j < i + Z.of_nat n /\ fv2 target = qmul (fv2 g) (qpow (fv2 alpha) (j - i)) /\ (forall k, i <= k < j -> fv2 target <> qmul (fv2 g) (qpow (fv2 alpha) (k - i)))
    | None => forall k, i <= k < i + Z.of_nat n -> fv2 target <> qmul (fv2 g) (qpow (fv2 alpha) (k - i))
    end.
Proof.
  induction n as [|n IH]; intros i g Hg.
  - exists [], g. split; auto. split; auto. split; [rewrite qpow_0; ring|]. intros target Ht. cbn [find]. lia.
  - cbn [bsgs_table]. destruct (f2_mul_ok g alpha Hg Ha) as [C1 F1]. destruct (IH (i + 1) _ C1) as (t & g' & E & Cg & Fg & Hf). rewrite E.
    exists ((i, g) :: t), g'. split; auto. split; auto. split.
    + rewrite Fg, F1, Nat2Z.inj_succ. replace (Z.succ (Z.of_nat n)) with (1 + Z.of_nat n) by lia. rewrite qpow_add, qpow_1 by lia. apply eq_sym, qmul_assoc.
    + intros target Ht. cbn [find snd]. rewrite feq_ok, negb_involutive by auto. rewrite F1 in Hf.
      assert (Sh : forall k, i + 1 <= k -> qmul (qmul (fv2 g) (fv2 alpha)) (qpow (fv2 alpha) (k - (i + 1))) = qmul (fv2 g) (qpow (fv2 alpha) (k - i))).
      { intros k Hk. rewrite <- qmul_assoc. f_equal. replace (k - i) with (1 + (k - (i + 1))) by lia. rewrite qpow_add, qpow_1 by lia. reflexivity. }
      destruct (qeqb (fv2 g) (fv2 target)) eqn:Q.
      * apply qeqb_true in Q. split; [lia|]. split; [rewrite Z.sub_diag, qpow_0, <- Q; ring|lia].
      * apply qeqb_false in Q. assert (Q' : fv2 target <> qmul (fv2 g) (qpow (fv2 alpha) (i - i))) by (rewrite Z.sub_diag, qpow_0; intros K; apply Q; rewrite K; ring).
        specialize (Hf target Ht). destruct (find _ t) as [[j v]|].
        -- destruct Hf as (B & F & M). split; [lia|]. split; [rewrite <- Sh by lia; auto|]. intros k Hk. destruct (Z.eq_dec k i) as [->|]; auto. rewrite <- Sh by lia. apply M; lia.
        -- intros k Hk. destruct (Z.eq_dec k i) as [->|]; auto. rewrite <- Sh by lia. apply Hf; lia.
Qed.
Lemma bsgs_search_ok c alpha beta m order t minv : canon2 alpha -> canon2 beta -> fv2 alpha <> q0 -> 0 < m <= 65536 -> 0 < order -> canon2 minv ->
  qmul (fv2 minv) (qpow (fv2 alpha) m) = q1 ->
  (forall target, canon2 target ->
    match find (fun jv => negb (f2_equals (snd jv) target =? 0)) t with
    | Some (j, _) => 0 <= j < m /\ fv2 target = qpow (fv2 alpha) j /\ (forall k, 0 <= k < j -> fv2 target <> qpow (fv2 alpha) k)
    | None => forall k, 0 <= k < m -> fv2 target <> qpow (fv2 alpha) k
    end) ->
  forall n i target, canon2 target -> 0 <= i -> i + Z.of_nat n = m -> qmul (fv2 target) (qpow (fv2 alpha) (i * m)) = fv2 beta ->
    (forall v, 0 <= v < i * m -> qpow (fv2 alpha) v <> fv2 beta) ->
    match bsgs_search c t minv m order n i target with
    | Some d => exists v, 0 <= v < m * m /\ qpow (fv2 alpha) v = fv2 beta /\ (forall w, 0 <= w < v -> qpow (fv2 alpha) w <> fv2 beta) /\ d = v mod order
    | None => forall v, 0 <= v < m * m -> qpow (fv2 alpha) v <> fv2 beta
    end.
Proof.
  intros Ha Hb Nz Hm Ho Cm Hinv Ht. induction n as [|n IH]; intros i target Hta Hi Hn Htar Hmin.
  - cbn [bsgs_search]. intros v Hv. apply Hmin. nia.
  - assert (Mv : forall w, 0 <= w < m -> qpow (fv2 alpha) (i * m + w) = fv2 beta -> fv2 target = qpow (fv2 alpha) w).
    { intros w Hw E. apply (qmul_cancel (qpow (fv2 alpha) (i * m))); [apply qpow_nz; auto|]. rewrite <- qpow_add by nia. rewrite E, <- Htar. apply qmul_comm. }
    cbn [bsgs_search]. pose proof (Ht target Hta) as Hf. destruct (find _ t) as [[j v]|].
    + destruct Hf as (B & F & M). rewrite u32_op_in by nia. rewrite u32_op_in by nia. destruct (Z.eqb_spec order 0); [lia|].
      exists (i * m + j). split; [nia|]. split; [|split]; auto.
      * rewrite qpow_add by nia. rewrite <- F, <- Htar. apply qmul_comm.
      * intros w Hw. destruct (Z.lt_ge_cases w (i * m)); [apply Hmin; lia|]. intros E. apply (M (w - i * m)); [lia|]. apply Mv; [lia|]. replace (i * m + (w - i * m)) with w by lia. auto.
    + destruct (f2_mul_ok target minv Hta Cm) as [C1 F1]. apply IH; auto; try lia.
      * rewrite F1. replace ((i + 1) * m) with (m + i * m) by ring. rewrite qpow_add by nia. rewrite <- Htar.
        transitivity (qmul (qmul (qmul (fv2 minv) (qpow (fv2 alpha) m)) (fv2 target)) (qpow (fv2 alpha) (i * m))); [ring|]. rewrite Hinv, qmul_1_l. reflexivity.
      * intros v Hv. destruct (Z.lt_ge_cases v (i * m)); [apply Hmin; lia|]. intros E. apply (Hf (v - i * m)); [lia|]. apply Mv; [lia|]. replace (i * m + (v - i * m)) with v by lia. auto.
Qed.
(** the exact behaviour of bsgs: the least exponent below m^2, reduced modulo [order] *)
Lemma bsgs_exact c alpha beta order : canon2 alpha -> canon2 beta -> fv2 alpha <> q0 -> 0 < order < 4294967296 -> (c = true -> order <= 4294836225) ->
  match bsgs c beta alpha order with
  | Some d => exists v, 0 <= v < (Z.sqrt order + 1) * (Z.sqrt order + 1) /\ qpow (fv2 alpha) v = fv2 beta /\ (forall w, 0 <= w < v -> qpow (fv2 alpha) w <> fv2 beta) /\ d = v mod order
  | None => forall v, 0 <= v < (Z.sqrt order + 1) * (Z.sqrt order + 1) -> qpow (fv2 alpha) v <> fv2 beta
  end.
Proof.
  intros Ha Hb Nz Ho Hc. unfold bsgs. rewrite sqrt_floor_ok by lia.
  assert (E : (c && (4294836225 <? order))%bool = false) by (destruct c; auto; cbn [andb]; apply Z.ltb_ge; auto). rewrite E.
  pose proof (Z.sqrt_spec order ltac:(lia)) as S. cbv zeta in S. pose proof (Z.sqrt_nonneg order). set (s := Z.sqrt order) in *. clearbody s. assert (s <= 65535) by nia.
  rewrite u32_op_in by lia. destruct (bsgs_table_ok alpha Ha (Z.to_nat (s + 1)) 0 f2_one canon2_one) as (t & g & Et & Cg & Fg & Hf). rewrite Et.
  rewrite Z2Nat.id in * by lia. rewrite fv2_one, qmul_1_l in Fg. destruct (f2_invert_ok g Cg) as [Ci Fi].
  apply (bsgs_search_ok c alpha beta); auto; try lia.
  - rewrite Fi, Fg. apply qinv_l, qpow_nz; auto.
  - intros target Hta. specialize (Hf target Hta). destruct (find _ t) as [[j v]|].
    + destruct Hf as (A & B & C). rewrite fv2_one, Z.sub_0_r, qmul_1_l in B. split; [lia|]. split; auto. intros k Hk. specialize (C k Hk). rewrite fv2_one, Z.sub_0_r, qmul_1_l in C. auto.
    + intros k Hk. specialize (Hf k Hk). rewrite fv2_one, Z.sub_0_r, qmul_1_l in Hf. auto.
  - rewrite Z.mul_0_l, qpow_0. ring.
Qed.
Lemma sqrt_sq order : 0 < order -> order < (Z.sqrt order + 1) * (Z.sqrt order + 1).
Proof. intros. pose proof (Z.sqrt_spec order ltac:(lia)). cbv zeta in *. lia. Qed.
Lemma bsgs_zero_base c alpha beta order e : canon2 alpha -> canon2 beta -> fv2 alpha = q0 -> 0 < order < 4294967296 -> (c = true -> order <= 4294836225) ->
  0 <= e < order -> qpow (fv2 alpha) e = fv2 beta -> bsgs c beta alpha order = Some (Z.min e 1).
Proof.
  intros Ha Hb Z0 Ho Hc He E. unfold bsgs. rewrite sqrt_floor_ok by lia.
  assert (E' : (c && (4294836225 <? order))%bool = false) by (destruct c; auto; cbn [andb]; apply Z.ltb_ge; auto). rewrite E'.
  pose proof (Z.sqrt_spec order ltac:(lia)) as S. cbv zeta in S. pose proof (Z.sqrt_nonneg order). set (s := Z.sqrt order) in *. clearbody s. assert (1 <= s <= 65535) by nia.
  rewrite u32_op_in by lia. destruct (bsgs_table_ok alpha Ha (Z.to_nat (s + 1)) 0 f2_one canon2_one) as (t & g & Et & Cg & Fg & Hf). rewrite Et.
  rewrite Z2Nat.id in * by lia. specialize (Hf beta Hb). destruct (Z.to_nat (s + 1)) as [|n] eqn:En; [lia|]. cbn [bsgs_search].
  rewrite Z0 in *. destruct (find _ t) as [[j v]|].
  - destruct Hf as (A & B & C). rewrite fv2_one, Z.sub_0_r, qmul_1_l in B.
    assert (J : j = Z.min e 1).
    { destruct (Z.eq_dec e 0) as [->|Ne].
      - rewrite Z.min_l by lia. destruct (Z.eq_dec j 0); auto. exfalso. apply (C 0); [lia|]. rewrite fv2_one, <- E. change (0 - 0) with 0. ring.
      - rewrite Z.min_r by lia. rewrite qpow_q0 in E by lia. destruct (Z.lt_trichotomy j 1) as [L|[L|L]]; auto; exfalso.
        + replace j with 0 in B by lia. rewrite qpow_0, <- E in B. apply q1_nz. auto.
        + apply (C 1); [lia|]. rewrite fv2_one, <- E. change (1 - 0) with 1. rewrite qpow_1. ring. }
    subst j. rewrite !u32_op_in by lia. destruct (Z.eqb_spec order 0); [lia|]. rewrite Z.mul_0_l, Z.add_0_l. f_equal. apply Z.mod_small. lia.
  - exfalso. apply (Hf (Z.min e 1)); [lia|]. rewrite fv2_one, Z.sub_0_r, qmul_1_l, <- E. destruct (Z.eq_dec e 0) as [->|Ne]; [reflexivity|]. rewrite Z.min_r, !qpow_q0 by lia. reflexivity.
Qed.
Lemma bsgs_finds c alpha beta order e : canon2 alpha -> canon2 beta -> 0 < order < 4294967296 -> (c = true -> order <= 4294836225) ->
  0 <= e < order -> qpow (fv2 alpha) e = fv2 beta ->
  exists d, bsgs c beta alpha order = Some d /\ 0 <= d < order /\ qpow (fv2 alpha) d = fv2 beta /\ (forall k, 0 <= k < d -> qpow (fv2 alpha) k <> fv2 beta).
Proof.
  intros Ha Hb Ho Hc He E. destruct (q_dec (fv2 alpha) q0) as [Z0|Nz].
  - exists (Z.min e 1). split; [apply bsgs_zero_base; auto|]. split; [lia|]. rewrite Z0 in *. destruct (Z.eq_dec e 0) as [->|Ne].
    + split; auto. lia.
    + rewrite Z.min_r by lia. rewrite qpow_q0 in E by lia. rewrite qpow_1. split; auto. intros k Hk. replace k with 0 by lia. rewrite qpow_0, <- E. apply q1_nz.
  - pose proof (bsgs_exact c alpha beta order Ha Hb Nz Ho Hc) as H. pose proof (sqrt_sq order ltac:(lia)). destruct (bsgs c beta alpha order) as [d|].
    + destruct H as (v & Bv & Ev & Mv & ->). assert (v <= e). { destruct (Z.le_gt_cases v e); auto. exfalso. apply (Mv e); auto. lia. }
      rewrite Z.mod_small by lia. exists v. split; auto. split; [lia|]. auto.
    + exfalso. apply (H e); auto. lia.
Qed.
Lemma bsgs_sound c alpha beta order d : canon2 alpha -> canon2 beta -> 0 < order < 4294967296 -> qpow (fv2 alpha) order = q1 ->
  bsgs c beta alpha order = Some d -> 0 <= d < order /\ qpow (fv2 alpha) d = fv2 beta.
Proof.
  intros Ha Hb Ho H1 E. assert (Nz : fv2 alpha <> q0) by (intros K; rewrite K, qpow_q0 in H1 by lia; apply q1_nz; auto).
  assert (Hc : c = true -> order <= 4294836225).
  { intros ->. destruct (Z.le_gt_cases order 4294836225); auto. exfalso. unfold bsgs in E. rewrite sqrt_floor_ok in E by lia. replace (4294836225 <? order) with true in E by (symmetry; apply Z.ltb_lt; lia). discriminate. }
  pose proof (bsgs_exact c alpha beta order Ha Hb Nz Ho Hc) as H. rewrite E in H. destruct H as (v & Bv & Ev & Mv & ->).
  split; [apply Z.mod_pos_bound; lia|]. rewrite <- qpow_mod by (auto; lia). auto.
Qed.

(** ** Pohlig-Hellman *)
Lemma pow_small_iter_ok l n g : canon2 g -> 0 <= l < 2 ^ 32 -> 0 <= n -> exists h, pow_small_iter l n g = Some h /\ canon2 h /\ fv2 h = qpow (fv2 g) (l ^ n).
Proof.
  intros Hg Hl Hn. unfold pow_small_iter. rewrite iter_nat_of_Z by auto. pattern n at 2. rewrite <- (Z2Nat.id n Hn) at 1. rewrite <- Zabs2Nat.abs_nat_nonneg by auto.
  induction (Z.abs_nat n) as [|k IH].
  - exists g. split; auto. split; auto. change (l ^ Z.of_nat 0) with 1. rewrite qpow_1. auto.
  - destruct IH as (h & E & Ch & Fh). change (iter_nat (S k) ?A ?f ?x) with (f (iter_nat k A f x)). cbv beta. rewrite E.
    destruct (f2_pow_small_ok h l Ch Hl) as (r & Er & Cr & Fr). rewrite Er. exists r. split; auto. split; auto. rewrite Fr, Fh, <- qpow_mul by (try apply Z.pow_nonneg; lia).
    rewrite Nat2Z.inj_succ, Z.pow_succ_r by lia. rewrite Z.mul_comm. reflexivity.
Qed.
Lemma is_one_ok x : canon2 x -> is_one x = qeqb (fv2 x) q1.
Proof. intros H. unfold is_one. rewrite feq_ok by (auto; apply canon2_one). rewrite negb_involutive, fv2_one. reflexivity. Qed.
Lemma qeqb_refl x : qeqb x x = true. Proof. destruct (qeqb x x) eqn:E; auto. apply qeqb_false in E. contradiction. Qed.
Lemma ph_loop_ok c beta alpha gamma l e k : canon2 alpha -> canon2 beta -> canon2 gamma -> 2 <= l < 2 ^ 32 -> (c = true -> l <= 4294836225) -> 1 <= e ->
  qorder (fv2 alpha) (l ^ e) -> fv2 gamma = qpow (fv2 alpha) (l ^ (e - 1)) -> 0 <= k < l ^ e -> qpow (fv2 alpha) k = fv2 beta ->
  forall n x, Z.of_nat n <= e -> x = k mod l ^ (e - Z.of_nat n) ->
  ph_loop c beta alpha gamma l n x (l ^ (e - Z.of_nat n)) = Some k.
Proof.
  intros Ha Hb Hg Hl Hc He Ord Fg Hk Ek. pose proof (qorder_nz _ _ Ord) as Nz. induction n as [|n IH]; intros x Hn Hx.
  - cbn [ph_loop]. change (Z.of_nat 0) with 0 in Hx. rewrite Z.sub_0_r in Hx. rewrite Z.mod_small in Hx by auto. congruence.
  - cbn [ph_loop]. set (i := e - Z.of_nat (S n)) in *. assert (Hi : 0 <= i) by (unfold i; lia). assert (Pi : 0 < l ^ i) by (apply Z.pow_pos_nonneg; lia).
    pose proof (Z.mod_pos_bound k _ Pi) as Bx. rewrite <- Hx in Bx. set (q := k / l ^ i). assert (Dk : k = x + l ^ i * q) by (rewrite Hx; pose proof (Z.div_mod k (l ^ i)); unfold q; lia).
    assert (Hq : 0 <= q) by (apply Z.div_pos; lia).
    destruct (f2_pow_big_ok alpha x Ha ltac:(lia)) as (ax & Eax & Cax & Fax). rewrite Eax. destruct (f2_invert_ok ax Cax) as [Ci Fi]. destruct (f2_mul_ok beta _ Hb Ci) as [Cm Fm].
    destruct (pow_small_iter_ok l (Z.of_nat n) _ Cm ltac:(lia) ltac:(lia)) as (h & Eh & Ch & Fh). rewrite Eh.
    assert (Fh' : fv2 h = qpow (fv2 gamma) q).
    { rewrite Fh, Fm, Fi, Fax, Fg. assert (P1 : 0 <= l ^ Z.of_nat n) by (apply Z.pow_nonneg; lia). assert (P2 : 0 <= l ^ (e - 1)) by (apply Z.pow_nonneg; lia).
      replace (qmul (fv2 beta) (qinv (qpow (fv2 alpha) x))) with (qpow (fv2 alpha) (l ^ i * q)).
      - rewrite <- !qpow_mul by (try apply Z.mul_nonneg_nonneg; lia). f_equal. replace (e - 1) with (i + Z.of_nat n) by (unfold i; lia). rewrite Z.pow_add_r by lia. ring.
      - rewrite <- Ek, Dk, qpow_add by nia. rewrite <- (qmul_1_l (qpow (fv2 alpha) (l ^ i * q))) at 1. rewrite <- (qinv_l (qpow (fv2 alpha) x)) by (apply qpow_nz; auto). ring. }
    assert (Og : qorder (fv2 gamma) l).
    { rewrite Fg. apply qorder_pow; [|apply Z.pow_pos_nonneg; lia]. rewrite <- Z.pow_succ_r by lia. replace (Z.succ (e - 1)) with e by lia. auto. }
    destruct (f2_pow_small_ok h l Ch ltac:(lia)) as (hl & Ehl & Chl & Fhl). rewrite Ehl.
    assert (One : is_one hl = true).
    { rewrite is_one_ok by auto. replace (fv2 hl) with q1; [apply qeqb_refl|]. rewrite Fhl, Fh', <- qpow_mul by lia. rewrite Z.mul_comm, qpow_mul by lia. destruct Og as (_ & E1 & _). rewrite E1, qpow_q1. reflexivity. }
    rewrite One. cbn [negb]. rewrite andb_false_r.
    assert (Hm : fv2 h = qpow (fv2 gamma) (q mod l)) by (rewrite Fh'; destruct Og as (_ & E1 & _); apply qpow_mod; auto; lia).
    pose proof (Z.mod_pos_bound q l ltac:(lia)).
    destruct (bsgs_finds c gamma h l (q mod l) Hg Ch ltac:(lia) Hc ltac:(lia) (eq_sym Hm)) as (d & Ed & Bd & Fd & _). rewrite Ed.
    assert (d = q mod l).
    { assert (D : (l | q mod l - d)) by (apply (qorder_eq (fv2 gamma)); auto; try lia; congruence). destruct D as [z Hz]. assert (z = 0) by (clear - Hz H Bd Hl; nia). subst z. lia. }
    destruct (f2_pow_small_ok gamma d Hg ltac:(lia)) as (gd & Egd & Cgd & Fgd). rewrite Egd. rewrite feq_ok by auto. rewrite Fgd, Fd, qeqb_refl. cbn [negb]. rewrite andb_false_r.
    replace (l ^ i * l) with (l ^ (e - Z.of_nat n)). 2:{ replace (e - Z.of_nat n) with (Z.succ i) by (unfold i; lia). rewrite Z.pow_succ_r by lia. ring. }
    apply IH; [lia|]. replace (e - Z.of_nat n) with (Z.succ i) by (unfold i; lia). rewrite Z.pow_succ_r by lia. rewrite (Z.mul_comm l), Z.rem_mul_r by lia. subst d. fold q. rewrite <- Hx. reflexivity.
Qed.
Lemma ph_dlp_power_ok c beta alpha l e k : canon2 alpha -> canon2 beta -> 2 <= l < 2 ^ 32 -> (c = true -> l <= 4294836225) -> 1 <= e < 2 ^ 32 ->
  qorder (fv2 alpha) (l ^ e) -> 0 <= k < l ^ e -> qpow (fv2 alpha) k = fv2 beta -> ph_dlp_power c beta alpha l e = Some k.
Proof.
  intros Ha Hb Hl Hc He Ord Hk Ek. unfold ph_dlp_power. rewrite u32_op_in by lia. destruct (pow_small_iter_ok l (e - 1) alpha Ha ltac:(lia) ltac:(lia)) as (g & Eg & Cg & Fg). rewrite Eg.
  destruct (f2_pow_small_ok g l Cg ltac:(lia)) as (gl & Egl & Cgl & Fgl). rewrite Egl.
  assert (P1 : 0 < l ^ (e - 1)) by (apply Z.pow_pos_nonneg; lia). assert (PS : l ^ e = l * l ^ (e - 1)) by (rewrite <- Z.pow_succ_r by lia; f_equal; lia).
  assert (O1 : is_one gl = true).
  { rewrite is_one_ok by auto. replace (fv2 gl) with q1; [apply qeqb_refl|]. rewrite Fgl, Fg, <- qpow_mul by lia. rewrite Z.mul_comm, <- PS. symmetry. apply Ord. }
  assert (O2 : is_one g = false).
  { rewrite is_one_ok by auto. destruct (qeqb _ _) eqn:E; auto. apply qeqb_true in E. exfalso. rewrite Fg in E. destruct Ord as (_ & _ & M). apply (M (l ^ (e - 1))); auto. nia. }
  rewrite O1, O2. cbn [negb andb]. rewrite andb_false_r.
  pose proof (ph_loop_ok c beta alpha g l e k Ha Hb Cg Hl Hc ltac:(lia) Ord Fg Hk Ek (Z.to_nat e) 0) as H. rewrite Z2Nat.id in H by lia. rewrite Z.sub_diag in H. change (l ^ 0) with 1 in H. apply H; [lia|]. rewrite Z.mod_1_r. reflexivity.
Qed.

Definition fentry (c : bool) (f : Z * Z) : Prop := 2 <= fst f < 2 ^ 32 /\ 1 <= snd f < 2 ^ 32 /\ (c = true -> fst f <= 4294836225).
Lemma fentry_pos c fs : Forall (fentry c) fs -> fpos fs.
Proof. intros H. apply Forall_forall. intros f Hf. eapply Forall_forall in H; eauto. destruct H as (A & B & _). apply Z.pow_pos_nonneg; lia. Qed.
Lemma ph_clear_ok c l : forall fs g, Forall (fentry c) fs -> canon2 g -> exists h, ph_clear l fs g = Some h /\ canon2 h /\ fv2 h = qpow (fv2 g) (fprod (filter (fun le => negb (fst le =? l)) fs)).
Proof.
  induction fs as [|[l1 e1] fs IH]; intros g Hf Hg; cbn [ph_clear filter fst].
  - exists g. split; auto. split; auto. cbn [fprod]. rewrite qpow_1. auto.
  - inversion Hf as [|? ? (A & B & _) Hf']; subst. cbn [fst snd] in A, B. destruct (Z.eqb_spec l1 l); cbn [negb]; [apply IH; auto|].
    destruct (pow_small_iter_ok l1 e1 g Hg ltac:(lia) ltac:(lia)) as (h & E & Ch & Fh). rewrite E. destruct (IH h Hf' Ch) as (r & Er & Cr & Fr). exists r. split; auto. split; auto.
    rewrite Fr, Fh. cbn [fprod]. rewrite qpow_mul; auto. { apply Z.pow_nonneg; lia. }
    apply Z.lt_le_incl, fprod_pos. apply Forall_forall. intros f Hi. apply filter_In in Hi. eapply Forall_forall in Hf'; [|apply Hi]. destruct Hf' as (A' & B' & _). apply Z.pow_pos_nonneg; lia.
Qed.
Lemma filter_all {A} (p : A -> bool) l : Forall (fun x => p x = true) l -> filter p l = l.
Proof. induction 1 as [|x l H _ IH]; cbn; [reflexivity|]. rewrite H, IH. reflexivity. Qed.
Lemma pow_ge2 l e : 2 <= l -> 1 <= e -> 2 <= l ^ e.
Proof. intros. replace e with (Z.succ (e - 1)) by lia. rewrite Z.pow_succ_r by lia. assert (0 < l ^ (e - 1)) by (apply Z.pow_pos_nonneg; lia). nia. Qed.
Lemma fcop_filter c fs1 l e fs2 : Forall (fentry c) (fs1 ++ (l, e) :: fs2) -> fcoprime (fs1 ++ (l, e) :: fs2) ->
  filter (fun le => negb (fst le =? l)) (fs1 ++ (l, e) :: fs2) = fs1 ++ fs2.
Proof.
  intros Hf Hc. rewrite filter_app. cbn [filter fst]. rewrite Z.eqb_refl. cbn [negb]. rewrite <- filter_app. apply filter_all. apply Forall_forall. intros f Hi.
  apply negb_true_iff, Z.eqb_neq. intros El. pose proof (fcop_app _ _ _ _ Hc) as Hg. eapply Forall_forall in Hg; [|exact Hi].
  assert (H1 : fentry c (l, e)) by (eapply Forall_forall in Hf; [exact Hf|apply in_or_app; right; left; reflexivity]).
  assert (H2 : fentry c f) by (eapply Forall_forall in Hf; [exact Hf|apply in_app_iff in Hi; apply in_or_app; cbn; tauto]).
  destruct H1 as (A & B & _), H2 as (A' & B' & _). cbn [fst snd] in *. rewrite El in *. pose proof (pow_ge2 l e ltac:(lia) ltac:(lia)). pose proof (pow_ge2 l (snd f) ltac:(lia) ltac:(lia)).
  destruct (pow_self_gcd l e (snd f)) as [K|K]; auto; lia.
Qed.
Lemma ph_parts_ok c beta alpha fs k : canon2 alpha -> canon2 beta -> Forall (fentry c) fs -> fcoprime fs -> qorder (fv2 alpha) (fprod fs) -> 0 <= k -> qpow (fv2 alpha) k = fv2 beta ->
  forall todo done, fs = done ++ todo -> ph_parts c beta alpha todo fs = Some (map (fun f => k mod (fst f ^ snd f)) todo).
Proof.
  intros Ha Hb Hf Hc Ord Hk Ek. induction todo as [|[l e] todo IH]; intros done Efs; cbn [ph_parts]; [reflexivity|].
  destruct (ph_clear_ok c l fs alpha Hf Ha) as (a & Eca & Ca & Fa). destruct (ph_clear_ok c l fs beta Hf Hb) as (b & Ecb & Cb & Fb). rewrite Eca, Ecb.
  assert (Fi : filter (fun le => negb (fst le =? l)) fs = done ++ todo) by (rewrite Efs in Hf, Hc |- *; eapply fcop_filter; eauto).
  rewrite Fi in Fa, Fb. assert (Hp : fpos (done ++ todo)).
  { apply (fentry_pos c). apply Forall_forall. intros f Hi. eapply Forall_forall in Hf; [exact Hf|]. rewrite Efs. apply in_app_iff in Hi. apply in_or_app. cbn. tauto. }
  pose proof (fprod_pos _ Hp) as Hpp.
  assert (EN : fprod fs = l ^ e * fprod (done ++ todo)) by (rewrite Efs, !fprod_app; cbn [fprod]; ring).
  assert (He : fentry c (l, e)) by (eapply Forall_forall in Hf; [exact Hf|rewrite Efs; apply in_or_app; right; left; reflexivity]). destruct He as (A & B & C). cbn [fst snd] in *.
  assert (Ple : 0 < l ^ e) by (apply Z.pow_pos_nonneg; lia).
  assert (Oa : qorder (fv2 a) (l ^ e)) by (rewrite Fa; apply qorder_pow; auto; rewrite <- EN; auto).
  rewrite (ph_dlp_power_ok c b a l e (k mod l ^ e)); auto; try lia.
  - rewrite (IH (done ++ [(l, e)])) by (rewrite <- app_assoc; exact Efs). reflexivity.
  - destruct Oa as (_ & O1 & _). rewrite <- qpow_mod by auto. rewrite Fa, Fb, <- Ek, <- !qpow_mul by lia. f_equal. ring.
Qed.
Lemma ph_dlp_ok c beta alpha fs k : canon2 alpha -> canon2 beta -> Forall (fentry c) fs -> fcoprime fs -> qorder (fv2 alpha) (fprod fs) -> 0 <= k < fprod fs -> qpow (fv2 alpha) k = fv2 beta ->
  ph_dlp c beta alpha fs = Some k.
Proof.
  intros Ha Hb Hf Hc Ord Hk Ek. unfold ph_dlp. rewrite (ph_parts_ok c beta alpha fs k Ha Hb Hf Hc Ord ltac:(lia) Ek fs []) by reflexivity.
  destruct (compute_crt_ok (map (fun f => k mod (fst f ^ snd f)) fs) fs) as (x & E & Bx & Cx); auto; [eapply fentry_pos; eauto|rewrite map_length; auto|].
  rewrite E. f_equal. eapply crt_unique; eauto; [eapply fentry_pos; eauto|rewrite map_length; auto|].
  pose proof (fentry_pos c fs Hf) as Hp. clear - Hp. induction fs as [|[l e] fs IH]; cbn [cong_all map fst snd]; auto. inversion Hp; subst. cbn [fst snd] in *. split; auto.
  exists (k / l ^ e). pose proof (Z.div_mod k (l ^ e) ltac:(lia)). lia.
Qed.

(** ** Soundness: a returned value is a logarithm *)
Lemma ph_loop_sound c beta alpha gamma l e : canon2 alpha -> canon2 beta -> canon2 gamma -> 2 <= l < 2 ^ 32 -> 1 <= e -> qpow (fv2 alpha) (l ^ e) = q1 -> fv2 gamma = qpow (fv2 alpha) (l ^ (e - 1)) ->
  forall n x r, (0 < n)%nat -> Z.of_nat n <= e -> 0 <= x -> ph_loop c beta alpha gamma l n x (l ^ (e - Z.of_nat n)) = Some r -> 0 <= r /\ qpow (fv2 alpha) r = fv2 beta.
Proof.
  intros Ha Hb Hg Hl He Ord Fg. assert (Pe : 0 < l ^ e) by (apply Z.pow_pos_nonneg; lia).
  assert (Nz : fv2 alpha <> q0) by (intros K; rewrite K, qpow_q0 in Ord by lia; apply q1_nz; auto).
  assert (P1 : 0 < l ^ (e - 1)) by (apply Z.pow_pos_nonneg; lia). assert (PS : l ^ e = l ^ (e - 1) * l) by (rewrite Z.mul_comm, <- Z.pow_succ_r by lia; f_equal; lia).
  assert (Gl : qpow (fv2 gamma) l = q1) by (rewrite Fg, <- qpow_mul by lia; rewrite <- PS; exact Ord).
  induction n as [|n IH]; intros x r Hn0 Hn Hx; [lia|]. cbn [ph_loop]. set (i := e - Z.of_nat (S n)) in *. assert (Hi : 0 <= i) by (unfold i; lia). assert (Pi : 0 < l ^ i) by (apply Z.pow_pos_nonneg; lia).
  destruct (f2_pow_big_ok alpha x Ha ltac:(lia)) as (ax & Eax & Cax & Fax). rewrite Eax. destruct (f2_invert_ok ax Cax) as [Ci Fi]. destruct (f2_mul_ok beta _ Hb Ci) as [Cm Fm].
  destruct (pow_small_iter_ok l (Z.of_nat n) _ Cm ltac:(lia) ltac:(lia)) as (h & Eh & Ch & Fh). rewrite Eh.
  destruct (f2_pow_small_ok h l Ch ltac:(lia)) as (hl & Ehl & Chl & Fhl). rewrite Ehl. destruct (c && _)%bool; [discriminate|].
  destruct (bsgs c h gamma l) as [d|] eqn:Ed; [|discriminate]. apply bsgs_sound in Ed; auto; [|lia]. destruct Ed as [Bd Fd].
  destruct (f2_pow_small_ok gamma d Hg ltac:(lia)) as (gd & Egd & Cgd & Fgd). rewrite Egd. destruct (c && _)%bool; [discriminate|].
  replace (l ^ i * l) with (l ^ (e - Z.of_nat n)). 2:{ replace (e - Z.of_nat n) with (Z.succ i) by (unfold i; lia). rewrite Z.pow_succ_r by lia. ring. }
  destruct n as [|n]; [|apply IH; [lia|lia|nia]]. cbn [ph_loop]. intros H. injection H as <-. split; [nia|].
  change (l ^ Z.of_nat 0) with 1 in Fh. rewrite qpow_1, Fm, Fi, Fax in Fh. rewrite qpow_add by nia. replace (qpow (fv2 alpha) (l ^ i * d)) with (qpow (fv2 gamma) d).
  - rewrite Fd, Fh. transitivity (qmul (fv2 beta) (qmul (qinv (qpow (fv2 alpha) x)) (qpow (fv2 alpha) x))); [ring|]. rewrite qinv_l by (apply qpow_nz; exact Nz). ring.
  - rewrite Fg, <- qpow_mul by lia. reflexivity.
Qed.
Lemma ph_dlp_power_sound c beta alpha l e r : canon2 alpha -> canon2 beta -> 2 <= l < 2 ^ 32 -> 1 <= e < 2 ^ 32 -> qpow (fv2 alpha) (l ^ e) = q1 ->
  ph_dlp_power c beta alpha l e = Some r -> 0 <= r /\ qpow (fv2 alpha) r = fv2 beta.
Proof.
  intros Ha Hb Hl He Ord. unfold ph_dlp_power. rewrite u32_op_in by lia. destruct (pow_small_iter_ok l (e - 1) alpha Ha ltac:(lia) ltac:(lia)) as (g & Eg & Cg & Fg). rewrite Eg.
  destruct (f2_pow_small_ok g l Cg ltac:(lia)) as (gl & Egl & Cgl & Fgl). rewrite Egl. destruct (c && _)%bool; [discriminate|].
  pose proof (ph_loop_sound c beta alpha g l e Ha Hb Cg Hl ltac:(lia) Ord Fg (Z.to_nat e) 0 r) as H. rewrite Z2Nat.id in H by lia. rewrite Z.sub_diag in H. change (l ^ 0) with 1 in H. apply H; lia.
Qed.
Lemma ph_parts_sound c beta alpha fs : canon2 alpha -> canon2 beta -> Forall (fentry c) fs -> fcoprime fs -> qpow (fv2 alpha) (fprod fs) = q1 ->
  forall todo done xs, fs = done ++ todo -> ph_parts c beta alpha todo fs = Some xs ->
  length xs = length todo /\ forall x, 0 <= x -> cong_all x xs todo -> forall d1 l e d2, todo = d1 ++ (l, e) :: d2 -> qpow (qpow (fv2 alpha) x) (fprod (done ++ d1 ++ d2)) = qpow (fv2 beta) (fprod (done ++ d1 ++ d2)).
Proof.
  intros Ha Hb Hf Hc Ord. induction todo as [|[l e] todo IH]; intros done xs Efs; cbn [ph_parts].
  - intros H. injection H as <-. split; [reflexivity|]. intros x _ _ d1 l e d2 K. destruct d1; discriminate.
  - destruct (ph_clear_ok c l fs alpha Hf Ha) as (a & Eca & Ca & Fa). destruct (ph_clear_ok c l fs beta Hf Hb) as (b & Ecb & Cb & Fb). rewrite Eca, Ecb.
    assert (Fi : filter (fun le => negb (fst le =? l)) fs = done ++ todo) by (rewrite Efs in Hf, Hc |- *; eapply fcop_filter; eauto).
    rewrite Fi in Fa, Fb. assert (Hp : fpos (done ++ todo)).
    { apply (fentry_pos c). apply Forall_forall. intros f Hi. eapply Forall_forall in Hf; [exact Hf|]. rewrite Efs. apply in_app_iff in Hi. apply in_or_app. cbn. tauto. }
    pose proof (fprod_pos _ Hp) as Hpp.
    assert (EN : fprod fs = l ^ e * fprod (done ++ todo)) by (rewrite Efs, !fprod_app; cbn [fprod]; ring).
    assert (He : fentry c (l, e)) by (eapply Forall_forall in Hf; [exact Hf|rewrite Efs; apply in_or_app; right; left; reflexivity]). destruct He as (A & B & C). cbn [fst snd] in *.
    assert (Ple : 0 < l ^ e) by (apply Z.pow_pos_nonneg; lia).
    assert (Oa : qpow (fv2 a) (l ^ e) = q1) by (rewrite Fa, <- qpow_mul by lia; rewrite Z.mul_comm, <- EN; exact Ord).
    destruct (ph_dlp_power c b a l e) as [r|] eqn:Er; [|discriminate]. apply ph_dlp_power_sound in Er; auto. destruct Er as [Br Er].
    destruct (ph_parts c beta alpha todo fs) as [xs'|] eqn:Ex; [|discriminate]. destruct (IH (done ++ [(l, e)]) xs' ltac:(rewrite <- app_assoc; exact Efs) eq_refl) as [Len Rest].
    intros H. injection H as <-. split; [cbn; rewrite Len; reflexivity|]. intros x Hx [Cx Cr] d1 l' e' d2 K. destruct d1 as [|f d1].
    + cbn [app] in *. injection K as <- <- <-. rewrite <- Fb, <- Er.
      transitivity (qpow (fv2 a) x); [rewrite Fa, <- !qpow_mul by lia; f_equal; ring|]. rewrite (qpow_mod (fv2 a) (l ^ e) x) by (auto; lia). rewrite (qpow_mod (fv2 a) (l ^ e) r) by (auto; lia). f_equal.
      destruct Cx as [z Hz]. replace x with (r + z * l ^ e) by lia. apply Z.mod_add. lia.
    + cbn [app] in K. injection K as <- K. specialize (Rest x Hx Cr d1 l' e' d2 K). rewrite <- app_assoc in Rest. exact Rest.
Qed.
Lemma qpow_gcd x a b : 0 <= a -> 0 <= b -> x <> q0 -> qpow x a = q1 -> qpow x b = q1 -> qpow x (Z.gcd a b) = q1.
Proof.
  intros Ha Hb Nz. revert a b Ha Hb. assert (G : forall n a b, 0 <= a < Z.of_nat n -> 0 <= b -> qpow x a = q1 -> qpow x b = q1 -> qpow x (Z.gcd a b) = q1).
  { induction n; intros a b Ha Hb A B; [lia|]. destruct (Z.eq_dec a 0) as [->|Na]; [rewrite Z.gcd_0_l, Z.abs_eq by lia; exact B|].
    pose proof (Z.mod_pos_bound b a ltac:(lia)). rewrite <- (Z.gcd_mod b a) by lia. apply IHn; [lia|lia| |exact A]. rewrite <- qpow_mod by (auto; lia). exact B. }
  intros a b Ha Hb. apply (G (S (Z.to_nat a))); lia.
Qed.
Lemma ph_dlp_sound c beta alpha fs r : canon2 alpha -> canon2 beta -> fs <> [] -> Forall (fentry c) fs -> fcoprime fs -> qpow (fv2 alpha) (fprod fs) = q1 -> ph_dlp c beta alpha fs = Some r ->
  0 <= r < fprod fs /\ (fv2 beta <> q0 -> qpow (fv2 alpha) r = fv2 beta).
Proof.
  intros Ha Hb Ne Hf Hc Ord. unfold ph_dlp. destruct (ph_parts c beta alpha fs fs) as [xs|] eqn:Ex; [|discriminate]. destruct (ph_parts_sound c beta alpha fs Ha Hb Hf Hc Ord fs [] xs eq_refl Ex) as [Len Pr].
  pose proof (fentry_pos c fs Hf) as Hp. destruct (compute_crt_ok xs fs Hp Hc ltac:(lia)) as (x & E & Bx & Cx). rewrite E. intros H. injection H as <-. split; [exact Bx|]. intros Nb.
  assert (Na : fv2 alpha <> q0) by (intros K; rewrite K, qpow_q0 in Ord by lia; apply q1_nz; auto).
  specialize (Pr x ltac:(lia) Cx). cbn [app] in Pr. set (t := qmul (qpow (fv2 alpha) x) (qinv (fv2 beta))).
  assert (Nt : t <> q0) by (intros K; apply (qpow_nz (fv2 alpha) x Na); rewrite <- (qmul_1_r (qpow (fv2 alpha) x)), <- (qinv_l (fv2 beta) Nb), qmul_assoc; fold t; rewrite K; ring).
  assert (Pq : forall k, 0 <= k -> qpow (qpow (fv2 alpha) x) k = qpow (fv2 beta) k -> qpow t k = q1).
  { intros k Hk K. unfold t. assert (M : forall a b, qpow (qmul a b) k = qmul (qpow a k) (qpow b k)).
    { intros a b. revert k Hk K. intros k Hk _. revert k Hk. apply natlike_ind; [rewrite !qpow_0; ring|]. intros k Hk IH. replace (Z.succ k) with (k + 1) by lia. rewrite !qpow_succ, IH by lia. ring. }
    rewrite M, K, <- M, qinv_r by exact Nb. apply qpow_q1. }
  (* the cofactors have no common divisor *)
  assert (G : forall todo done, fs = done ++ todo -> fpos todo -> fpos done -> (forall d1 l e d2, todo = d1 ++ (l, e) :: d2 -> qpow t (fprod (done ++ d1 ++ d2)) = q1) -> todo <> [] -> qpow t (fprod done) = q1).
  { clear Pr. induction todo as [|[l e] todo IH]; intros done Efs Hpt Hpd Q Nt0; [congruence|]. inversion Hpt as [|? ? Hle Hpt']; subst. cbn [fst snd] in Hle. pose proof (fprod_pos _ Hpd) as Pd. pose proof (fprod_pos _ Hpt') as Pt.
    pose proof (Q [] l e todo eq_refl) as Q0. cbn [app] in Q0. destruct todo as [|f todo]; [rewrite app_nil_r in Q0; exact Q0|].
    assert (Q1 : qpow t (fprod (done ++ [(l, e)])) = q1).
    { apply IH; [rewrite <- app_assoc; reflexivity|exact Hpt'|apply Forall_app; split; [exact Hpd|constructor; [exact Hle|constructor]]| |discriminate].
      intros d1 l' e' d2 K. rewrite <- app_assoc. cbn [app]. apply (Q ((l, e) :: d1) l' e' d2). rewrite K. reflexivity. }
    rewrite fprod_app in Q0, Q1. cbn [fprod] in Q1. rewrite Z.mul_1_r in Q1. assert (G1 : 0 <= fprod done * fprod (f :: todo)) by (apply Z.mul_nonneg_nonneg; lia). assert (G2 : 0 <= fprod done * l ^ e) by (apply Z.mul_nonneg_nonneg; lia). pose proof (qpow_gcd t _ _ G1 G2 Nt Q0 Q1) as QG. rewrite Z.gcd_mul_mono_l in QG. rewrite Z.abs_eq in QG by lia.
    replace (Z.gcd (fprod (f :: todo)) (l ^ e)) with 1 in QG; [rewrite Z.mul_1_r in QG; exact QG|]. symmetry.
    assert (Cp : Forall (fun f => Z.gcd (l ^ e) (fst f ^ snd f) = 1) (f :: todo)) by (clear - Hc; induction done as [|[] done IHd]; [exact (proj1 Hc)|apply IHd; exact (proj2 Hc)]).
    clear - Cp. revert Cp. generalize (f :: todo). intros L Cp. rewrite Z.gcd_comm. induction L as [|[l1 e1] L IHL]; [apply Z.gcd_1_r|]. inversion Cp; subst. cbn [fprod fst snd] in *. apply Zgcd_1_rel_prime, rel_prime_mult; apply Zgcd_1_rel_prime; auto. }
  specialize (G fs [] eq_refl Hp (Forall_nil _)). cbn [app fprod] in G. rewrite qpow_1 in G. assert (T1 : t = q1) by (apply G; [intros d1 l e d2 K; apply Pq; [|apply (Pr d1 l e d2 K)]|exact Ne]; [rewrite K in Hp; apply Z.lt_le_incl, fprod_pos; unfold fpos in *; rewrite Forall_app in *; destruct Hp as [H1 H2]; inversion H2; auto]).
  rewrite <- (qmul_1_l (fv2 beta)), <- T1. unfold t. rewrite <- qmul_assoc, qinv_l, qmul_1_r by exact Nb. reflexivity.
Qed.
