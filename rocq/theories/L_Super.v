(** Lemmas for src/supersingular.rs: the batched cofactor multiplication and the order test over an abstract action. *)
From Coq Require Import ZArith List Bool Lia Arith Znumtheory.
From Verif Require Import M_Dlog M_Super L_Ints.
Import ListNotations.
Open Scope Z_scope.

Definition zprod (l : list Z) : Z := fold_right Z.mul 1 l.
Lemma zprod_app a b : zprod (a ++ b) = zprod a * zprod b.
Proof. induction a as [|x a IH]; cbn [app zprod fold_right]; [unfold zprod; ring|]. fold (zprod (a ++ b)) (zprod a). rewrite IH. ring. Qed.
Lemma zprod_nonneg l : Forall (fun x => 0 <= x) l -> 0 <= zprod l.
Proof. induction 1; cbn [zprod fold_right]; [lia|]. fold (zprod l). nia. Qed.
(** the product of the entries with index in [a, b) *)
Definition rp (ps : list Z) (a b : nat) : Z := zprod (firstn (b - a) (skipn a ps)).
Lemma skipn_S {A} (l : list A) n x : nth_error l n = Some x -> skipn n l = x :: skipn (S n) l.
Proof. revert n. induction l as [|y l IH]; intros [|n] H; try discriminate; cbn in *; [congruence|]. apply IH, H. Qed.
Lemma skipn_skipn {A} n m (l : list A) : skipn n (skipn m l) = skipn (n + m) l.
Proof. revert l. induction m as [|m IH]; intros l; [rewrite Nat.add_0_r; reflexivity|]. destruct l as [|x l]; [rewrite !skipn_nil; reflexivity|]. rewrite Nat.add_succ_r. cbn [skipn]. apply IH. Qed.
Lemma prime_divisor : forall c, 1 < c -> exists l, prime l /\ (l | c).
Proof.
  intros c Hc. revert Hc. pattern c. apply (well_founded_ind (Z.lt_wf 0)). clear c. intros c IH Hc. destruct (prime_dec c) as [P|N]; [exists c; split; [exact P|apply Z.divide_refl]|].
  destruct (not_prime_divide c Hc N) as (n & Hn & Dn). destruct (IH n) as (l & Pl & Dl); [lia|lia|]. exists l. split; [exact Pl|]. eapply Z.divide_trans; eassumption.
Qed.
Lemma prime_not_1 l : prime l -> ~ (l | 1).
Proof. intros [H _] D. apply Z.divide_1_r_nonneg in D; lia. Qed.
Lemma prime_pow_div l l1 e : prime l -> prime l1 -> 0 <= e -> (l | l1 ^ e) -> l = l1.
Proof.
  intros Pl P1 He. revert e He. apply (natlike_ind (fun e => (l | l1 ^ e) -> l = l1)).
  - intros D. apply prime_not_1 in D; [contradiction|exact Pl].
  - intros e He IH D. rewrite Z.pow_succ_r in D by lia. apply prime_mult in D as [D|D]; [|auto|exact Pl]. apply prime_div_prime; assumption.
Qed.
Lemma rp_split ps a m b : (a <= m <= b)%nat -> rp ps a b = rp ps a m * rp ps m b.
Proof.
  intros H. unfold rp. rewrite <- zprod_app. f_equal. replace (b - a)%nat with ((m - a) + (b - m))%nat by lia. generalize (b - m)%nat. intros k.
  rewrite <- (firstn_skipn (m - a) (skipn a ps)) at 1. rewrite firstn_app, firstn_firstn, skipn_skipn.
  replace (Nat.min (m - a + k) (m - a)) with (m - a)%nat by lia. f_equal.
  replace (m - a + a)%nat with m by lia.
  destruct (le_lt_dec (length (skipn a ps)) (m - a)) as [L|L].
  - rewrite skipn_length in L. rewrite (@skipn_all2 Z m ps) by lia. rewrite !firstn_nil. reflexivity.
  - rewrite firstn_length_le by lia. f_equal. lia.
Qed.
Lemma rp_empty ps a : rp ps a a = 1. Proof. unfold rp. rewrite Nat.sub_diag. reflexivity. Qed.
Lemma rp_one ps a x : nth_error ps a = Some x -> rp ps a (S a) = x.
Proof. intros H. unfold rp. replace (S a - a)%nat with 1%nat by lia. rewrite (skipn_S _ _ _ H). cbn. ring. Qed.
Lemma rp_nonneg ps a b : Forall (fun x => 0 <= x) ps -> 0 <= rp ps a b.
Proof. intros H. apply zprod_nonneg. rewrite Forall_forall in *. intros x Hx. apply H. rewrite <- (firstn_skipn a ps). apply in_or_app. right. rewrite <- (firstn_skipn (b - a) (skipn a ps)). apply in_or_app. left. exact Hx. Qed.
Lemma prod_range_ok ps : forall n lo acc, (lo + n <= length ps)%nat -> prod_range ps lo n acc = Some (acc * rp ps lo (lo + n)).
Proof.
  induction n as [|n IH]; intros lo acc H; cbn [prod_range].
  - rewrite Nat.add_0_r, rp_empty. f_equal. ring.
  - destruct (nth_error ps lo) as [p|] eqn:E; [|apply nth_error_None in E; lia]. cbn [obind]. rewrite IH by lia. f_equal.
    rewrite (rp_split ps lo (S lo) (lo + S n)) by lia. rewrite (rp_one _ _ _ E). replace (S lo + n)%nat with (lo + S n)%nat by lia. ring.
Qed.

Section Upd.
Context {T : Type}.
Lemma upd_ok (G : list T) i x : (i < length G)%nat -> exists G', upd G i x = Some G' /\ length G' = length G /\ nth_error G' i = Some x /\ forall j, j <> i -> nth_error G' j = nth_error G j.
Proof.
  intros H. unfold upd. destruct (Nat.ltb_spec i (length G)) as [_|]; [|lia]. eexists. split; [reflexivity|].
  assert (L : length (firstn i G) = i) by (rewrite firstn_length; lia).
  split; [rewrite app_length; cbn [length]; rewrite L, skipn_length; lia|]. split.
  - rewrite nth_error_app2 by lia. rewrite L, Nat.sub_diag. reflexivity.
  - intros j N. destruct (lt_dec j i) as [Hj|Hj].
    + rewrite nth_error_app1 by lia. rewrite <- (firstn_skipn i G) at 2. rewrite nth_error_app1 by lia. reflexivity.
    + rewrite nth_error_app2 by lia. rewrite L. replace (j - i)%nat with (S (j - S i)) by lia. cbn [nth_error].
      rewrite <- (firstn_skipn (S i) G) at 2. rewrite nth_error_app2 by (rewrite firstn_length; lia). rewrite firstn_length. f_equal. lia.
Qed.
End Upd.

Section Action.
Context {T S : Type} (smul : T -> Z -> option T) (good : T -> Prop) (v : T -> S) (act : Z -> S -> S).
Context (smul_ok : forall t n, good t -> 0 <= n -> exists t', smul t n = Some t' /\ good t' /\ v t' = act n (v t)).
Context (act_1 : forall t, good t -> act 1 (v t) = v t).
Context (act_mul : forall t a b, good t -> 0 <= a -> 0 <= b -> act a (act b (v t)) = act (a * b) (v t)).

Lemma batch_ok ps : Forall (fun x => 0 <= x) ps -> forall fuel G lo up g, (lo < up <= length G)%nat -> (up <= length ps)%nat -> (up - lo <= fuel)%nat -> nth_error G lo = Some g -> good g ->
  exists G', batch_cofactor_mul smul fuel G ps lo up = Some G' /\ length G' = length G /\
    (forall i, (lo <= i < up)%nat -> exists t, nth_error G' i = Some t /\ good t /\ v t = act (rp ps lo i * rp ps (Datatypes.S i) up) (v g)) /\
    (forall i, (i < lo \/ up <= i)%nat -> nth_error G' i = nth_error G i).
Proof.
  intros Hps. induction fuel as [|f IH]; intros G lo up g Hlu Hps' Hf Eg Gg; [lia|]. cbn [batch_cofactor_mul].
  destruct (Nat.ltb_spec up lo) as [|_]; [lia|]. destruct (Nat.eqb_spec (up - lo) 1) as [E1|N1].
  - exists G. split; [reflexivity|]. split; [reflexivity|]. split; [|auto]. intros i Hi. assert (i = lo) by lia. subst i. exists g. split; [exact Eg|]. split; [exact Gg|].
    replace up with (Datatypes.S lo) by lia. rewrite !rp_empty. rewrite Z.mul_1_l. symmetry. apply act_1, Gg.
  - cbv zeta. set (mid := (lo + (up - lo + 1) / 2)%nat).
    assert (Hm : (lo < mid < up)%nat). { unfold mid. pose proof (Nat.div_mod_eq (up - lo + 1) 2). pose proof (Nat.mod_upper_bound (up - lo + 1) 2 ltac:(lia)). lia. }
    rewrite !prod_range_ok by lia. cbn [obind]. replace (lo + (mid - lo))%nat with mid by lia. replace (mid + (up - mid))%nat with up by lia. rewrite !Z.mul_1_l.
    rewrite Eg. cbn [obind]. destruct (smul_ok g (rp ps lo mid) Gg (rp_nonneg _ _ _ Hps)) as (gm & -> & Ggm & Vgm). cbn [obind].
    destruct (upd_ok G mid gm ltac:(lia)) as (G1 & -> & L1 & M1 & O1). cbn [obind]. rewrite O1, Eg by lia. cbn [obind].
    destruct (smul_ok g (rp ps mid up) Gg (rp_nonneg _ _ _ Hps)) as (gl & -> & Ggl & Vgl). cbn [obind].
    destruct (upd_ok G1 lo gl ltac:(lia)) as (G2 & -> & L2 & M2 & O2). cbn [obind].
    destruct (IH G2 lo mid gl ltac:(lia) ltac:(lia) ltac:(lia) M2 Ggl) as (G3 & -> & L3 & A3 & B3). cbn [obind].
    assert (M3 : nth_error G3 mid = Some gm) by (rewrite B3, O2, M1 by lia; reflexivity).
    destruct (IH G3 mid up gm ltac:(lia) ltac:(lia) ltac:(lia) M3 Ggm) as (G4 & -> & L4 & A4 & B4).
    exists G4. split; [reflexivity|]. split; [congruence|]. split.
    + intros i Hi. destruct (le_lt_dec mid i) as [Hi'|Hi'].
      * destruct (A4 i ltac:(lia)) as (t & Et & Gt & Vt). exists t. split; [exact Et|]. split; [exact Gt|]. rewrite Vt, Vgm, act_mul; [|exact Gg|apply Z.mul_nonneg_nonneg; apply rp_nonneg, Hps|apply rp_nonneg, Hps].
        f_equal. rewrite (rp_split ps lo mid i) by lia. ring.
      * destruct (A3 i ltac:(lia)) as (t & Et & Gt & Vt). exists t. rewrite B4 by lia. split; [exact Et|]. split; [exact Gt|]. rewrite Vt, Vgl, act_mul; [|exact Gg|apply Z.mul_nonneg_nonneg; apply rp_nonneg, Hps|apply rp_nonneg, Hps].
        f_equal. rewrite (rp_split ps (Datatypes.S i) mid up) by lia. ring.
    + intros i Hi. rewrite B4, B3, O2, O1 by lia. reflexivity.
Qed.

(** ** The order test *)
Lemma d_top_ok checks : forall fs D, Forall (fun le => 1 <= snd le <= 2 ^ 32) fs -> d_top checks fs D = Some (D * zprod (map (fun le => fst le ^ (snd le - 1)) fs)).
Proof.
  induction fs as [|[l e] fs IH]; intros D H; cbn [d_top map zprod fold_right]; [f_equal; ring|]. inversion H as [|? ? H1 H2]; subst. cbn [fst snd] in *.
  unfold pow_pred, u32_op. cbn [fst snd]. destruct (Z.leb_spec 0 (e - 1)); [|lia]. destruct (Z.ltb_spec (e - 1) 4294967296); [|lia]. cbn [andb obind]. rewrite IH by auto. f_equal. fold (zprod (map (fun le => fst le ^ (snd le - 1)) fs)). ring.
Qed.
Lemma zprod_pow fs : Forall (fun le => 1 <= snd le <= 2 ^ 32) fs -> zprod (map (fun le => fst le ^ (snd le - 1)) fs) * zprod (map fst fs) = zprod (map bpow fs).
Proof.
  induction 1 as [|[l e] fs H1 _ IH]; [reflexivity|]. cbn [map zprod fold_right fst snd]. fold (zprod (map (fun le => fst le ^ (snd le - 1)) fs)) (zprod (map fst fs)) (zprod (map bpow fs)). rewrite <- IH. unfold bpow. cbn [fst snd] in *.
  replace (l ^ e) with (l ^ (e - 1) * l); [ring|]. replace e with (e - 1 + 1) at 2 by lia. rewrite Z.pow_add_r by lia. ring.
Qed.
Lemma fold_and {X} (f : X -> bool) l : forall s, fold_left (fun s x => s && f x) l s = s && forallb f l.
Proof. induction l as [|x l IH]; intros s; cbn; [rewrite andb_true_r; reflexivity|]. rewrite IH, andb_assoc. reflexivity. Qed.
Lemma zprod_pos l : Forall (fun x => 0 < x) l -> 0 < zprod l. Proof. induction 1; cbn [zprod fold_right]; [lia|]. fold (zprod l). nia. Qed.
(** D / l for the i-th factor *)
Definition cof (fs : list (Z * Z)) (i : nat) : Z := zprod (map (fun le => fst le ^ (snd le - 1)) fs) * (zprod (firstn i (map fst fs)) * zprod (skipn (Datatypes.S i) (map fst fs))).
Lemma cof_eq fs i l e : Forall (fun le => 1 <= snd le <= 2 ^ 32) fs -> nth_error fs i = Some (l, e) -> cof fs i * l = zprod (map bpow fs).
Proof.
  intros H E. rewrite <- zprod_pow by auto. unfold cof. assert (E' : nth_error (map fst fs) i = Some l) by (apply (map_nth_error fst) in E; exact E).
  rewrite <- (firstn_skipn i (map fst fs)) at 3. rewrite (skipn_S _ _ _ E'), zprod_app. cbn [zprod fold_right]. fold (zprod (skipn (Datatypes.S i) (map fst fs))). ring.
Qed.
Lemma rp_full ps i : (i < length ps)%nat -> rp ps 0 i * rp ps (Datatypes.S i) (length ps) = zprod (firstn i ps) * zprod (skipn (Datatypes.S i) ps).
Proof. intros H. unfold rp. rewrite Nat.sub_0_r, skipn_O. f_equal. rewrite firstn_all2; [reflexivity|]. rewrite skipn_length. lia. Qed.
Context (unit : T) (triv0 triv : T -> bool) (zero : S -> Prop).
Context (triv0_ok : forall t, good t -> (triv0 t = true <-> zero (v t))) (triv_ok : forall t, good t -> (triv t = true <-> zero (v t))) (act_zero : forall t n, good t -> 0 <= n -> zero (v t) -> zero (act n (v t))).
Lemma order_test_ok checks P fs : fs <> [] -> Forall (fun le => 0 < fst le /\ 1 <= snd le <= 2 ^ 32) fs -> good P ->
  exists b, order_test smul unit triv0 triv checks P fs = Some b /\ (b = true <-> forall i, (i < length fs)%nat -> ~ zero (act (cof fs i) (v P))).
Proof.
  intros NE H HP. assert (He : Forall (fun le => 1 <= snd le <= 2 ^ 32) fs) by (eapply Forall_impl; [|exact H]; cbn; tauto).
  assert (Hl : Forall (fun x => 0 < x) (map fst fs)) by (rewrite Forall_map; eapply Forall_impl; [|exact H]; cbn; tauto).
  assert (Hl0 : Forall (fun x => 0 <= x) (map fst fs)) by (eapply Forall_impl; [|exact Hl]; cbn; intros; lia).
  set (Dt := zprod (map (fun le => fst le ^ (snd le - 1)) fs)).
  assert (HD : 0 <= Dt). { apply zprod_nonneg. rewrite Forall_map. eapply Forall_impl; [|exact H]. intros [l e] [A B]. cbn [fst snd] in *. apply Z.pow_nonneg. lia. }
  assert (Hc : forall i, 0 <= zprod (firstn i (map fst fs)) * zprod (skipn (Datatypes.S i) (map fst fs))).
  { intros i. apply Z.mul_nonneg_nonneg; apply zprod_nonneg.
    - rewrite <- (firstn_skipn i (map fst fs)) in Hl0. apply Forall_app in Hl0. tauto.
    - rewrite <- (firstn_skipn (Datatypes.S i) (map fst fs)) in Hl0. apply Forall_app in Hl0. tauto. }
  assert (Ec : forall i, cof fs i = (zprod (firstn i (map fst fs)) * zprod (skipn (Datatypes.S i) (map fst fs))) * Dt) by (intros i; unfold cof; fold Dt; ring).
  unfold order_test. rewrite d_top_ok by auto. cbn [obind]. rewrite Z.mul_1_l. fold Dt. destruct (smul_ok P Dt HP HD) as (G & -> & GG & VG). cbn [obind].
  assert (L0 : (0 < length (pis fs))%nat) by (destruct fs; [congruence|cbn; lia]). assert (Lp : length (pis fs) = length fs) by (unfold pis; apply map_length).
  destruct (triv0 G) eqn:ET.
  - exists false. split; [reflexivity|]. split; [discriminate|]. intros C. exfalso. apply triv0_ok in ET; [|exact GG]. apply (C 0%nat); [lia|]. rewrite Ec. rewrite <- act_mul by auto. rewrite <- VG. apply act_zero; auto.
  - destruct (upd_ok (repeat unit (length (pis fs))) 0 G ltac:(rewrite repeat_length; lia)) as (Gs & -> & LG & M0 & _). cbn [obind]. rewrite repeat_length in LG.
    assert (NT : ~ zero (v G)) by (intros C; apply triv0_ok in C; [congruence|exact GG]).
    destruct (Nat.ltb_spec 1 (length (pis fs))) as [L1|L1].
    + destruct (batch_ok (pis fs) Hl0 (length (pis fs)) Gs 0 (length (pis fs)) G ltac:(lia) ltac:(lia) ltac:(lia) M0 GG) as (G' & -> & L' & A' & _). cbn [obind].
      eexists. split; [reflexivity|]. rewrite fold_and, andb_true_l, forallb_forall. split.
      * intros Hb i Hi C. destruct (A' i ltac:(lia)) as (t & Et & Gt & Vt). apply nth_error_In in Et. specialize (Hb _ Et). rewrite (proj2 (triv_ok t Gt)) in Hb; [discriminate|].
        rewrite Vt, VG, act_mul; auto; [|rewrite rp_full by lia; apply Hc]. rewrite rp_full by lia. unfold pis. rewrite <- Ec. exact C.
      * intros Hn t Ht. apply In_nth_error in Ht as [i Ei]. assert (Hi : (i < length fs)%nat) by (rewrite <- Lp, <- LG, <- L'; apply nth_error_Some; congruence).
        destruct (A' i ltac:(lia)) as (t' & Et & Gt & Vt). assert (t' = t) by congruence. subst t'. destruct (triv t) eqn:Et'; [|reflexivity]. exfalso. apply (Hn i Hi). apply triv_ok in Et'; [|exact Gt].
        rewrite Vt, VG, act_mul in Et'; auto; [|rewrite rp_full by lia; apply Hc]. rewrite rp_full in Et' by lia. unfold pis in Et'. rewrite <- Ec in Et'. exact Et'.
    + exists true. split; [reflexivity|]. split; [|reflexivity]. intros _ i Hi C. assert (i = 0)%nat by lia. subst i. apply NT. rewrite VG. rewrite Ec in C.
      destruct fs as [|le [|? ?]]; [congruence| |cbn in L1; lia]. cbn [map firstn skipn zprod fold_right] in C. rewrite !Z.mul_1_l in C. exact C.
Qed.
End Action.
Lemma unfactored_zprod fs : unfactored fs = zprod (map bpow fs).
Proof.
  unfold unfactored. rewrite <- (Z.mul_1_l (zprod _)). generalize 1. induction fs as [|le fs IH]; intros a; cbn [fold_left map zprod fold_right]; [ring|]. rewrite IH. fold (zprod (map bpow fs)). ring.
Qed.
(** order of an element of a group action: k kills iff D divides k *)
Lemma exact_order {S} (act : Z -> S -> S) (zero : S -> Prop) (s : S) fs :
  Forall (fun le => prime (fst le) /\ 1 <= snd le <= 2 ^ 32) fs ->
  (forall a b, 0 <= a -> 0 <= b -> zero (act a s) -> zero (act (a * b) s)) ->
  (forall a b, 0 <= a -> 0 <= b -> zero (act a s) -> zero (act b s) -> zero (act (Z.gcd a b) s)) ->
  zero (act (zprod (map bpow fs)) s) ->
  (forall i, (i < length fs)%nat -> ~ zero (act (cof fs i) s)) ->
  forall k, 0 <= k -> (zero (act k s) <-> (zprod (map bpow fs) | k)).
Proof.
  intros H Hm Hg HD HN k Hk. set (D := zprod (map bpow fs)) in *.
  assert (He : Forall (fun le => 1 <= snd le <= 2 ^ 32) fs) by (eapply Forall_impl; [|exact H]; cbn; tauto).
  assert (DP : 0 < D). { apply zprod_pos. rewrite Forall_map. eapply Forall_impl; [|exact H]. intros [l e] [A B]. cbn [fst snd bpow] in *. unfold bpow. cbn [fst snd]. apply Z.pow_pos_nonneg; [destruct A; lia|lia]. }
  split.
  - intros Z0. set (g := Z.gcd D k). assert (Zg : zero (act g s)) by (apply Hg; auto; lia). assert (Gd : (g | D)) by apply Z.gcd_divide_l.
    assert (Gp : 0 <= g) by apply Z.gcd_nonneg.
    destruct (Z.eq_dec g D) as [E|N]; [rewrite <- E; apply Z.gcd_divide_r|exfalso].
    destruct Gd as [c Ec]. assert (Hc : 1 < c). { assert (0 < g) by (destruct (Z.eq_dec g 0); [rewrite e in Ec; lia|lia]). assert (c <> 1) by (intros ->; lia). nia. }
    destruct (prime_divisor c Hc) as (l & Pl & [m Em]).
    assert (Dl : (l | D)) by (exists (m * g); rewrite Ec, Em; ring).
    assert (Li : exists i e, nth_error fs i = Some (l, e)).
    { clear - H Dl Pl. unfold D in Dl. induction fs as [|[l1 e1] fs IH]; [cbn in Dl; apply (prime_not_1 l Pl) in Dl; contradiction|]. inversion H as [|? ? [P1 E1] H2]; subst. cbn [map zprod fold_right] in Dl. fold (zprod (map bpow fs)) in Dl.
      destruct (prime_mult l Pl _ _ Dl) as [D1|D1].
      - unfold bpow in D1. cbn [fst snd] in *. assert (l = l1) by (apply (prime_pow_div l l1 e1); auto; lia). subst. exists 0%nat, e1. reflexivity.
      - destruct (IH H2 D1) as (i & e & Ei). exists (Datatypes.S i), e. exact Ei. }
    destruct Li as (i & e & Ei). apply (HN i); [apply nth_error_Some; congruence|].
    assert (Ecf : cof fs i = g * m). { pose proof (cof_eq fs i l e He Ei) as C. fold D in C. apply (Z.mul_reg_r _ _ l); [destruct Pl; lia|]. rewrite C, Ec, Em. ring. }
    rewrite Ecf. apply Hm; auto. destruct Pl. assert (0 < c) by lia. nia.
  - intros [m Em]. rewrite Em, Z.mul_comm. apply Hm; auto; [lia|]. nia.
Qed.
(** Euclid: a set of numbers closed under remainders contains gcds *)
Lemma gcd_closed (Zs : Z -> Prop) : (forall b q r, 0 <= b -> 0 <= q -> 0 <= r -> Zs b -> Zs (b * q + r) -> Zs r) -> forall a b, 0 <= a -> 0 <= b -> Zs a -> Zs b -> Zs (Z.gcd a b).
Proof.
  intros H a b Ha Hb. revert a Ha Hb. pattern b. apply (well_founded_ind (Z.lt_wf 0)). clear b. intros b IH a Ha Hb Za Zb. destruct (Z.eq_dec b 0) as [->|N].
  - rewrite Z.gcd_0_r, Z.abs_eq by lia. exact Za.
  - pose proof (Z.mod_pos_bound a b ltac:(lia)). rewrite Z.gcd_comm, <- Z.gcd_mod, Z.gcd_comm by lia. apply IH; [lia|lia|lia|exact Zb|].
    apply (H b (a / b)); [lia|apply Z.div_pos; lia|lia|exact Zb|]. rewrite <- Z.div_mod by lia. exact Za.
Qed.
(** the product of the entries with index in [lo, up) other than i *)
Definition others (ps : list Z) (lo up i : nat) : Z := fold_right Z.mul 1 (map (fun j => nth j ps 1) (filter (fun j => negb (Nat.eqb j i)) (seq lo (up - lo)))).
Lemma rp_seq ps : forall n a, (a + n <= length ps)%nat -> zprod (map (fun j => nth j ps 1) (seq a n)) = rp ps a (a + n).
Proof.
  induction n as [|n IH]; intros a H; [rewrite Nat.add_0_r, rp_empty; reflexivity|]. cbn [seq map zprod fold_right]. fold (zprod (map (fun j => nth j ps 1) (seq (S a) n))). rewrite IH by lia.
  rewrite (rp_split ps a (S a) (a + S n)) by lia. rewrite (rp_one ps a (nth a ps 1)) by (apply nth_error_nth'; lia). f_equal. f_equal. lia.
Qed.
Lemma filter_all {A} (f : A -> bool) l : (forall x, In x l -> f x = true) -> filter f l = l.
Proof. induction l as [|x l IH]; intros H; [reflexivity|]. cbn [filter]. rewrite (H x) by (left; reflexivity). f_equal. apply IH. intros y Hy. apply H. right. exact Hy. Qed.
Lemma others_rp ps lo up i : (lo <= i < up)%nat -> (up <= length ps)%nat -> others ps lo up i = rp ps lo i * rp ps (S i) up.
Proof.
  intros H L. unfold others. replace (up - lo)%nat with ((i - lo) + S (up - S i))%nat by lia. rewrite seq_app. replace (lo + (i - lo))%nat with i by lia. cbn [seq].
  rewrite filter_app. cbn [filter]. rewrite Nat.eqb_refl. cbn [negb]. rewrite !filter_all.
  - rewrite map_app. fold (zprod (map (fun j => nth j ps 1) (seq lo (i - lo)) ++ map (fun j => nth j ps 1) (seq (S i) (up - S i)))). rewrite zprod_app, !rp_seq by lia. f_equal; f_equal; lia.
  - intros x Hx. apply in_seq in Hx. apply negb_true_iff, Nat.eqb_neq. lia.
  - intros x Hx. apply in_seq in Hx. apply negb_true_iff, Nat.eqb_neq. lia.
Qed.
