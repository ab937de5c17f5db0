(** Squares modulo [P]; the windowed exponentiation and the square- and fourth-root routines. *)
From Coq Require Import ZArith Znumtheory List Lia Bool Setoid Morphisms.
From Verif Require Import S_Fp M_Utils64 M_Consts M_Fp L_Words L_Bits L_Fp L_FpOps L_FpCodec L_Prime L_Fermat.
Import ListNotations.
Open Scope Z_scope.

(** ** Euler's criterion modulo [P] *)
Definition HP : Z := (P - 1) / 2.
Lemma HP_ok : P - 1 = HP * 2. Proof. apply (h_ok P P_odd). Qed.
Lemma HP_pos : 0 < HP. Proof. apply (h_pos P P_prime P_odd). Qed.
Lemma HP_odd : HP mod 2 = 1. Proof. vm_compute. reflexivity. Qed.
Lemma SQ_exp : (P + 1) / 4 * 2 = HP + 1. Proof. vm_compute. reflexivity. Qed.
Lemma FR_exp : (P + 1) / 8 * 4 = HP + 1. Proof. vm_compute. reflexivity. Qed.
Lemma SQ_pos : 0 <= (P + 1) / 4. Proof. vm_compute. discriminate. Qed.
Lemma FR_pos : 0 <= (P + 1) / 8. Proof. vm_compute. discriminate. Qed.
#[global] Opaque P HP.

Lemma cg_mul_0 a b : cg (a * b) 0 -> cg a 0 \/ cg b 0.
Proof. apply (eqm_mul_0 P P_prime). Qed.
Lemma cg_cancel a b c : ~ cg c 0 -> cg (c * a) (c * b) -> cg a b.
Proof. apply (eqm_cancel P P_prime). Qed.
Lemma cg_fermat a : ~ cg a 0 -> cg (a ^ (P - 1)) 1.
Proof. apply (fermat P P_prime). Qed.
Lemma cg_euler a : ~ cg a 0 -> cg (a ^ HP) 1 \/ cg (a ^ HP) (-1).
Proof. apply (euler_cases P P_prime P_odd). Qed.
Lemma cg_euler_square a z : ~ cg a 0 -> cg (z * z) a -> cg (a ^ HP) 1.
Proof. apply (euler_square P P_prime P_odd). Qed.
Lemma cg_1_m1 : ~ cg 1 (-1).
Proof. apply (one_neq_minus_one P P_prime P_odd). Qed.
Lemma cg_pow_0 a n : 0 < n -> cg a 0 -> cg (a ^ n) 0.
Proof. intros Hn H. rewrite (cg_pow _ _ n ltac:(lia) H), Z.pow_0_l by lia. reflexivity. Qed.
Lemma cg_dec a b : {cg a b} + {~ cg a b}.
Proof. destruct (Z.eq_dec (a mod P) (b mod P)) as [E|E]; [left|right]; rewrite cg_mod; auto. Qed.

Lemma opp_pow_odd a n : 0 <= n -> n mod 2 = 1 -> (- a) ^ n = - a ^ n.
Proof. intros. apply Z.pow_opp_odd. rewrite Zodd_ex_iff || idtac. exists (n / 2). pose proof (Z.div_mod n 2 ltac:(lia)). lia. Qed.

(** [-1] is not a square. *)
Lemma minus_one_nonsquare z : ~ cg (z * z) (-1).
Proof.
  intros H. assert (N : ~ cg (-1) 0).
  { intros E. apply cg_1_m1. rewrite E. symmetry. rewrite <- (Z.opp_involutive 1), E. reflexivity. }
  pose proof (cg_euler_square _ _ N H) as E. rewrite (opp_pow_odd 1), Z.pow_1_l in E; pose proof HP_pos; try lia.
  - apply cg_1_m1. symmetry. exact E.
  - exact HP_odd.
Qed.

(** Of [a] and [-a] exactly one is a nonzero square. *)
Lemma root_of_euler a : cg (a ^ HP) 1 -> cg (a ^ ((P + 1) / 4) * a ^ ((P + 1) / 4)) a.
Proof.
  intros H. pose proof SQ_pos. pose proof HP_pos.
  rewrite <- Z.pow_2_r, <- Z.pow_mul_r, SQ_exp, Z.pow_add_r, Z.pow_1_r, H by lia. exists 0. lia.
Qed.
Lemma square_or_opp a : (exists z, cg (z * z) a) \/ (exists z, cg (z * z) (- a)).
Proof.
  destruct (cg_dec a 0) as [E|E].
  - left. exists 0. symmetry. exact E.
  - destruct (cg_euler a E) as [H|H].
    + left. eexists. apply root_of_euler. exact H.
    + right. eexists. apply root_of_euler. pose proof HP_pos.
      rewrite opp_pow_odd by (try apply HP_odd; lia). rewrite H. reflexivity.
Qed.

(** The two root candidates. *)
Lemma sqrt_candidate a : let s := a ^ ((P + 1) / 4) in
  cg (s * s) a <-> exists z, cg (z * z) a.
Proof.
  cbv zeta. split; [intros H; eexists; exact H|]. intros [z Hz].
  destruct (cg_dec a 0) as [E|E].
  - assert (0 < (P + 1) / 4). { pose proof SQ_exp. pose proof HP_pos. lia. }
    rewrite (cg_pow_0 _ _ H E), E. reflexivity.
  - apply root_of_euler. eapply cg_euler_square; eauto.
Qed.
Lemma fourth_candidate a : let s := a ^ ((P + 1) / 8) in
  (cg (s * s * (s * s)) a <-> exists z, cg (z * z) a) /\ ((exists z, cg (z * z) a) <-> exists z, cg (z * z * (z * z)) a).
Proof.
  cbv zeta. assert (H1 : (exists z, cg (z * z) a) -> cg (a ^ ((P + 1) / 8) * a ^ ((P + 1) / 8) * (a ^ ((P + 1) / 8) * a ^ ((P + 1) / 8))) a).
  { intros [z Hz]. destruct (cg_dec a 0) as [E|E].
    - assert (0 < (P + 1) / 8). { pose proof FR_exp. pose proof HP_pos. lia. }
      rewrite (cg_pow_0 _ _ H E), E. reflexivity.
    - pose proof FR_pos. pose proof HP_pos.
      pose proof (cg_euler_square _ _ E Hz) as HE.
      replace (a ^ ((P + 1) / 8) * a ^ ((P + 1) / 8) * (a ^ ((P + 1) / 8) * a ^ ((P + 1) / 8))) with (a ^ ((P + 1) / 8 * 4))
        by (rewrite Z.pow_mul_r by lia; ring).
      rewrite FR_exp, Z.pow_add_r, Z.pow_1_r, HE by lia. exists 0. lia. }
  split; split; intros H; auto.
  - exists (a ^ ((P + 1) / 8) * a ^ ((P + 1) / 8)). exact H.
  - exists (a ^ ((P + 1) / 8)). auto.
  - destruct H as [z H]. exists (z * z). exact H.
Qed.

(** ** Windowed exponentiation *)
Lemma iter_S {A} n (f : A -> A) x : iter (S n) f x = iter n f (f x).
Proof. reflexivity. Qed.
#[global] Opaque set_square set_mul set_add set_sub set_neg.
Lemma iter_square n : forall a, canon a ->
  canon (iter n set_square a) /\ cg (val (iter n set_square a)) (val a ^ (2 ^ Z.of_nat n)).
Proof.
  induction n as [|n IH]; intros a Ha; [cbn [iter]|rewrite iter_S].
  - split; auto. change (2 ^ Z.of_nat 0) with 1. rewrite Z.pow_1_r. reflexivity.
  - destruct (IH (set_square a)) as [H1 H2]; auto. split; auto. etransitivity; [exact H2|].
    etransitivity; [apply cg_pow; [apply Z.pow_nonneg; lia|]; rewrite val_square by auto; apply cg_mod_l|].
    rewrite Nat2Z.inj_succ, Z.pow_succ_r, Z.pow_mul_r, Z.pow_2_r by (try apply Z.pow_nonneg; lia). reflexivity.
Qed.

Definition wininv (x : fp) (w : list fp) : Prop :=
  forall i, (i < length w)%nat -> canon (nth i w fp_zero) /\ cg (val (nth i w fp_zero)) (val x ^ Z.of_nat (S i)).
Lemma mk_window_ok x : forall n w, canon x -> (1 <= length w)%nat -> wininv x w ->
  wininv x (mk_window n w) /\ length (mk_window n w) = (length w + n)%nat.
Proof.
  induction n as [|n IH]; intros w Hx Hl Hw; cbn [mk_window].
  - split; auto.
  - set (next := if Nat.even (length w + 1) then _ else _).
    assert (Hn : canon next /\ cg (val next) (val x ^ Z.of_nat (S (length w)))).
    { unfold next. destruct (Nat.even (length w + 1)) eqn:Ev.
      - apply Nat.even_spec in Ev as [k Hk].
        assert (Ed : Nat.div (length w) 2 = (k - 1)%nat).
        { replace (length w) with (1 + (k - 1) * 2)%nat by lia. rewrite Nat.div_add by lia. reflexivity. }
        rewrite Ed. destruct (Hw (k - 1)%nat ltac:(lia)) as [H1 H2]. split; auto.
        rewrite val_square by auto. rewrite cg_mod_l, H2.
        rewrite <- Z.pow_add_r by lia. replace (Z.of_nat (S (k - 1)) + Z.of_nat (S (k - 1))) with (Z.of_nat (S (length w))) by lia.
        reflexivity.
      - destruct (Hw 0%nat ltac:(lia)) as [H1 H2]. destruct (Hw (length w - 1)%nat ltac:(lia)) as [H3 H4].
        split; auto. rewrite val_mul by auto. rewrite cg_mod_l, H2, H4, <- Z.pow_add_r by lia.
        replace (Z.of_nat 1 + Z.of_nat (S (length w - 1))) with (Z.of_nat (S (length w))) by lia. reflexivity. }
    destruct (IH (w ++ [next])) as [H1 H2]; auto.
    + rewrite app_length. lia.
    + intros i Hi. rewrite app_length in Hi. cbn [length] in Hi.
      destruct (Nat.eq_dec i (length w)) as [->|Hne].
      * rewrite app_nth2, Nat.sub_diag by lia. exact Hn.
      * rewrite app_nth1 by lia. apply Hw. lia.
    + split; auto. rewrite H2, app_length. cbn [length]. lia.
Qed.

(** Value of a little-endian list of base-32 digits. *)
Fixpoint dig32 (l : list Z) : Z := match l with [] => 0 | d :: l' => d + 32 * dig32 l' end.
Lemma dig32_app a b : dig32 (a ++ b) = dig32 a + 32 ^ Z.of_nat (length a) * dig32 b.
Proof.
  induction a as [|x a IH]; cbn [app dig32 length].
  - change (32 ^ Z.of_nat 0) with 1. lia.
  - rewrite IH, Nat2Z.inj_succ, Z.pow_succ_r by lia. ring.
Qed.

Definition digit32 (d : Z) : Prop := 0 <= d < 32.
Lemma dig32_nonneg l : Forall digit32 l -> 0 <= dig32 l.
Proof. induction 1; cbn [dig32]; unfold digit32 in *; lia. Qed.

Lemma win_digit_ok x ww acc e d : canon x -> wininv x ww -> length ww = 31%nat -> digit32 d -> 0 <= e ->
  canon acc -> cg (val acc) (val x ^ e) ->
  canon (win_digit ww acc d) /\ cg (val (win_digit ww acc d)) (val x ^ (32 * e + d)).
Proof.
  intros Hx Hw Hl Hd He Ha Hv. unfold win_digit.
  destruct (iter_square WIN_LEN acc Ha) as [H1 H2]. set (a1 := iter WIN_LEN set_square acc) in *.
  assert (H3 : cg (val a1) (val x ^ (32 * e))).
  { etransitivity; [exact H2|]. change (2 ^ Z.of_nat WIN_LEN) with 32.
    etransitivity; [apply cg_pow; [lia|exact Hv]|]. rewrite <- Z.pow_mul_r by lia. rewrite (Z.mul_comm e). reflexivity. }
  unfold digit32 in Hd. destruct (Z.eqb_spec d 0) as [->|Hne].
  - rewrite Z.add_0_r. auto.
  - destruct (Hw (Z.to_nat d - 1)%nat ltac:(lia)) as [H4 H5]. split; auto.
    rewrite val_mul by auto. rewrite cg_mod_l, H3, H5, <- Z.pow_add_r by lia.
    replace (32 * e + Z.of_nat (S (Z.to_nat d - 1))) with (32 * e + d) by lia. reflexivity.
Qed.

Lemma win_fold_ok x ww : canon x -> wininv x ww -> length ww = 31%nat -> forall l acc e,
  Forall digit32 l -> 0 <= e -> canon acc -> cg (val acc) (val x ^ e) ->
  canon (fold_left (win_digit ww) (rev l) acc) /\
  cg (val (fold_left (win_digit ww) (rev l) acc)) (val x ^ (32 ^ Z.of_nat (length l) * e + dig32 l)).
Proof.
  intros Hx Hw Hl. induction l as [|d l IH]; intros acc e Hd He Ha Hv; cbn [rev fold_left dig32 length].
  - change (32 ^ Z.of_nat 0) with 1. rewrite Z.mul_1_l, Z.add_0_r. auto.
  - rewrite fold_left_app. cbn [fold_left]. inversion Hd as [|? ? Hd1 Hd2]; subst.
    destruct (IH acc e) as [H1 H2]; auto.
    assert (0 <= 32 ^ Z.of_nat (length l) * e + dig32 l).
    { apply Z.add_nonneg_nonneg; [|apply dig32_nonneg; auto]. apply Z.mul_nonneg_nonneg; auto. apply Z.pow_nonneg. lia. }
    destruct (win_digit_ok x ww _ _ d Hx Hw Hl Hd1 H H1 H2) as [H3 H4]. split; auto.
    rewrite Nat2Z.inj_succ, Z.pow_succ_r by lia.
    replace (32 * 32 ^ Z.of_nat (length l) * e + (d + 32 * dig32 l)) with (32 * (32 ^ Z.of_nat (length l) * e + dig32 l) + d) by ring.
    exact H4.
Qed.

Lemma win_pow_ok eh top el x : canon x -> Forall digit32 (eh ++ [top]) -> 0 < top ->
  canon (win_pow (eh ++ [top]) el x) /\
  cg (val (win_pow (eh ++ [top]) el x)) (val x ^ (dig32 (eh ++ [top]) * 2 ^ Z.of_nat (5 * el))).
Proof.
  intros Hx Hd Ht. unfold win_pow. apply Forall_app in Hd as [Hd Htop]. inversion Htop as [|? ? Htop1 _]; subst.
  assert (W1 : wininv x [x]).
  { intros i Hi. cbn [length] in Hi. assert (i = 0%nat) by lia. subst i. cbn [nth]. split; auto.
    change (Z.of_nat 1) with 1. rewrite Z.pow_1_r. reflexivity. }
  destruct (mk_window_ok x (Nat.pow 2 WIN_LEN - 2) [x] Hx ltac:(cbn [length]; lia) W1) as [HW HL].
  change (length [x] + (Nat.pow 2 WIN_LEN - 2))%nat with 31%nat in HL.
  set (ww := mk_window _ _) in *. rewrite rev_app_distr. cbn [rev app].
  unfold digit32 in Htop1. destruct (HW (Z.to_nat top - 1)%nat ltac:(lia)) as [H1 H2].
  replace (Z.of_nat (S (Z.to_nat top - 1))) with top in H2 by lia.
  destruct (win_fold_ok x ww Hx HW HL eh _ top Hd ltac:(lia) H1 H2) as [H3 H4].
  destruct (iter_square (WIN_LEN * el) _ H3) as [H5 H6]. split; [exact H5|].
  etransitivity; [exact H6|]. etransitivity; [apply cg_pow; [apply Z.pow_nonneg; lia|exact H4]|].
  assert (0 <= 32 ^ Z.of_nat (length eh) * top + dig32 eh).
  { apply Z.add_nonneg_nonneg; [|apply dig32_nonneg; auto]. apply Z.mul_nonneg_nonneg; [apply Z.pow_nonneg|]; lia. }
  rewrite <- Z.pow_mul_r by (auto; apply Z.pow_nonneg; lia).
  rewrite dig32_app. cbn [dig32]. change WIN_LEN with 5%nat.
  replace (32 ^ Z.of_nat (length eh) * top + dig32 eh) with (dig32 eh + 32 ^ Z.of_nat (length eh) * (top + 32 * 0)) by ring.
  reflexivity.
Qed.

Lemma digits_check l : forallb (fun d => (0 <=? d) && (d <? 32)) l = true -> Forall digit32 l.
Proof.
  rewrite forallb_forall. intros H. apply Forall_forall. intros d Hd. specialize (H d Hd).
  apply andb_true_iff in H as [H1 H2]. apply Z.leb_le in H1. apply Z.ltb_lt in H2. split; auto.
Qed.
Lemma win_pow_ok' eh el x e : canon x ->
  (forallb (fun d => (0 <=? d) && (d <? 32)) eh && (0 <? last eh 0) && (dig32 eh * 2 ^ Z.of_nat (5 * el) =? e))%bool = true ->
  canon (win_pow eh el x) /\ cg (val (win_pow eh el x)) (val x ^ e).
Proof.
  intros Hx H. apply andb_true_iff in H as [H H3]. apply andb_true_iff in H as [H1 H2].
  apply Z.eqb_eq in H3. rewrite <- H3. apply Z.ltb_lt in H2. apply digits_check in H1.
  assert (eh <> []) by (intros ->; cbn in H2; lia).
  destruct (exists_last H) as (l & t & ->). rewrite last_last in H2. apply win_pow_ok; auto.
Qed.
Lemma sqrt_pow x : canon x -> canon (win_pow SQRT_EH SQRT_EL x) /\ cg (val (win_pow SQRT_EH SQRT_EL x)) (val x ^ ((P + 1) / 4)).
Proof. intros Hx. apply win_pow_ok'; [exact Hx|vm_compute; reflexivity]. Qed.
Lemma fourth_pow x : canon x -> canon (win_pow FOURTH_ROOT_EH FOURTH_ROOT_EL x) /\
  cg (val (win_pow FOURTH_ROOT_EH FOURTH_ROOT_EL x)) (val x ^ ((P + 1) / 8)).
Proof. intros Hx. apply win_pow_ok'; [exact Hx|vm_compute; reflexivity]. Qed.

(** ** Sign normalisation *)
Lemma ctl64_mask b : ctl64 (mask32 b) = if b then W64 - 1 else 0.
Proof. destruct b; reflexivity. Qed.
Lemma masked_ones l : words l -> masked (W64 - 1) l = l.
Proof.
  induction l as [|x l IH]; intros H; [reflexivity|]. apply words_cons in H as [Hx H]. unfold masked in *. cbn [map]. f_equal; auto.
  rewrite Z.land_comm. change (W64 - 1) with (Z.ones 64). rewrite Z.land_ones by lia. apply Z.mod_small. exact Hx.
Qed.
Lemma masked_zero l : masked 0 l = repeat 0 (length l).
Proof. induction l; cbn; f_equal; auto. Qed.
Lemma masked_canon b l : canon l -> masked (ctl64 (mask32 b)) l = if b then l else fp_zero.
Proof.
  intros H. apply canon_inv in H as (L & W & _). rewrite ctl64_mask. destruct b.
  - apply masked_ones; auto.
  - rewrite masked_zero, L. reflexivity.
Qed.

Lemma encode_parity a : canon a -> Z.land (nth 0 (encode a) 0) 1 = val a mod 2.
Proof.
  intros Ha. destruct (encode_ok a Ha) as (H1 & H2 & H3). rewrite <- H3.
  destruct (encode a) as [|b l]; [discriminate|]. cbn [nth le_value].
  change 1 with (Z.ones 1). rewrite Z.land_ones by lia. change (2 ^ 1) with 2.
  rewrite Z.add_mod by lia. replace (256 * le_value l) with ((128 * le_value l) * 2) by ring. rewrite Z.mod_mul by lia.
  rewrite Z.add_0_r, Z.mod_mod by lia. reflexivity.
Qed.
Lemma val_neg_nz a : canon a -> val a <> 0 -> val (set_neg a) = P - val a.
Proof.
  intros Ha Hn. rewrite val_neg by auto. pose proof (val_range a). symmetry. apply (Z.mod_unique _ _ (-1)); lia.
Qed.
Lemma root_finish_ok s b : canon s -> canon (root_finish s (mask32 b)) /\
  (b = false -> root_finish s (mask32 b) = fp_zero) /\
  (b = true -> val (root_finish s (mask32 b)) mod 2 = 0 /\
     (root_finish s (mask32 b) = s \/ root_finish s (mask32 b) = set_neg s)).
Proof.
  intros Hs. unfold root_finish. rewrite masked_canon by auto.
  assert (Hz : canon (if b then s else fp_zero)) by (destruct b; auto). set (z := if b then s else fp_zero) in *.
  rewrite encode_parity by auto.
  assert (E : lo32 (- (val z mod 2)) = mask32 (val z mod 2 =? 1)).
  { pose proof (Z.mod_pos_bound (val z) 2 ltac:(lia)). destruct (Z.eqb_spec (val z mod 2) 1) as [->|Hn]; [reflexivity|].
    replace (val z mod 2) with 0 by lia. reflexivity. }
  rewrite E, set_condneg_mask by auto. split; [destruct (val z mod 2 =? 1); auto|]. split.
  - intros ->. unfold z. rewrite val_zero. reflexivity.
  - intros ->. unfold z. destruct (Z.eqb_spec (val s mod 2) 1) as [H1|H1].
    + split; auto. rewrite val_neg_nz; auto; [|intros E0; rewrite E0 in H1; discriminate].
      rewrite Zminus_mod, H1, P_odd. reflexivity.
    + split; auto. pose proof (Z.mod_pos_bound (val s) 2 ltac:(lia)). lia.
Qed.

Lemma val_ltP a : 0 <= val a < P. Proof. apply val_range. Qed.
Lemma cg_val_eqb a b : canon a -> canon b -> (val a =? val b) = true <-> cg (val a) (val b).
Proof.
  intros Ha Hb. split.
  - intros H. apply Z.eqb_eq in H. rewrite H. reflexivity.
  - intros H. apply Z.eqb_eq. apply cg_small; auto; apply val_range.
Qed.
Lemma val_square_cg a : canon a -> cg (val (set_square a)) (val a * val a).
Proof. intros. rewrite val_square by auto. apply cg_mod_l. Qed.
Lemma val_neg_cg a : canon a -> cg (val (set_neg a)) (- val a).
Proof. intros. rewrite val_neg by auto. apply cg_mod_l. Qed.

(** Result of [sqrt] in one statement. *)
Lemma sqrt_ok a : canon a ->
  exists r b, sqrt a = (r, mask32 b) /\ canon r /\
   (b = true <-> exists z, cg (z * z) (val a)) /\
   (b = true -> cg (val r * val r) (val a) /\ val r mod 2 = 0) /\ (b = false -> r = fp_zero).
Proof.
  intros Ha. unfold sqrt. destruct (sqrt_pow a Ha) as [H1 H2]. set (s := win_pow SQRT_EH SQRT_EL a) in *. clearbody s.
  rewrite (equals_canon (set_square s) a) by auto. set (b := val (set_square s) =? val a).
  destruct (root_finish_ok s b H1) as (F1 & F2 & F3).
  assert (Hb : b = true <-> cg (val s * val s) (val a)).
  { unfold b. rewrite cg_val_eqb, val_square_cg by auto. reflexivity. }
  exists (root_finish s (mask32 b)), b. split; [reflexivity|]. split; [auto|]. split; [|split; auto].
  - rewrite Hb, <- sqrt_candidate. rewrite H2. reflexivity.
  - intros E. destruct (F3 E) as [G1 G2]. split; auto. rewrite Hb in E.
    destruct G2 as [->| ->]; auto. rewrite val_neg_cg, Z.mul_opp_opp by auto. exact E.
Qed.
Lemma fourth_root_ok a : canon a ->
  exists r b, fourth_root a = (r, mask32 b) /\ canon r /\
   (b = true <-> exists z, cg (z * z * (z * z)) (val a)) /\ (b = true <-> exists z, cg (z * z) (val a)) /\
   (b = true -> cg (val r * val r * (val r * val r)) (val a) /\ val r mod 2 = 0) /\ (b = false -> r = fp_zero).
Proof.
  intros Ha. unfold fourth_root. destruct (fourth_pow a Ha) as [H1 H2]. set (s := win_pow FOURTH_ROOT_EH FOURTH_ROOT_EL a) in *. clearbody s.
  rewrite (equals_canon (set_square (set_square s)) a) by auto. set (b := val (set_square (set_square s)) =? val a).
  destruct (root_finish_ok s b H1) as (F1 & F2 & F3).
  assert (Hb : b = true <-> cg (val s * val s * (val s * val s)) (val a)).
  { unfold b. rewrite cg_val_eqb, !val_square_cg by auto. reflexivity. }
  destruct (fourth_candidate (val a)) as [C1 C2].
  assert (Hb2 : b = true <-> exists z, cg (z * z) (val a)).
  { rewrite Hb, <- C1, H2. reflexivity. }
  exists (root_finish s (mask32 b)), b. split; [reflexivity|]. split; [auto|]. split; [|split; [|split]]; auto.
  - rewrite Hb2. exact C2.
  - intros E. destruct (F3 E) as [G1 G2]. split; auto. rewrite Hb in E.
    destruct G2 as [->| ->]; auto. rewrite val_neg_cg, !Z.mul_opp_opp by auto. exact E.
Qed.
