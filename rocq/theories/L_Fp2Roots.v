(** Square and fourth roots in the quadratic extension. *)
From Coq Require Import ZArith List Lia Bool Ring Field.
From Verif Require Import S_Fp S_Fp2 M_Utils64 M_Consts M_Fp M_Fp2 L_Fp L_FpOps L_FpRoots L_FpDiv L_Zp L_Zp2 L_Fp2.
Import ListNotations.
Open Scope zp_scope.

#[global] Opaque f2_root_finish f2_norm nqr_mask wnot32 Z.land.
Lemma nsq_true a : nsq a = true <-> ~ zsquare a. Proof. unfold nsq. destruct (zsquare_dec a); split; auto; try tauto; discriminate. Qed.
Lemma nsq_false a : nsq a = false <-> zsquare a. Proof. unfold nsq. destruct (zsquare_dec a); split; auto; try tauto; discriminate. Qed.
Lemma zeq0_true a : zeq0 a = true <-> a = 0. Proof. unfold zeq0. destruct (zp_dec a 0); split; auto; try tauto; discriminate. Qed.
Lemma zeq0_false a : zeq0 a = false <-> a <> 0. Proof. unfold zeq0. destruct (zp_dec a 0); split; auto; try tauto; discriminate. Qed.
Lemma qmul_opp z : qmul (qopp z) (qopp z) = qmul z z. Proof. qring. Qed.
Lemma q4_opp z : q4 (qopp z) = q4 z. Proof. unfold q4. rewrite qmul_opp. reflexivity. Qed.
Lemma zdiv_0_l a : 0 / a = 0. Proof. unfold zdiv. ring. Qed.

(** the common tail of both root routines *)
Lemma finish_square y0 y1 b x : canon y0 -> canon y1 -> (b = true <-> qsquare x) -> (b = true -> qmul (fv y0, fv y1) (fv y0, fv y1) = x) ->
  canon2 (f2_root_finish y0 y1 (mask32 b)) /\ (b = true <-> qsquare x) /\
  (b = true -> qmul (fv2 (f2_root_finish y0 y1 (mask32 b))) (fv2 (f2_root_finish y0 y1 (mask32 b))) = x /\ sign_ok (fv2 (f2_root_finish y0 y1 (mask32 b)))) /\
  (b = false -> f2_root_finish y0 y1 (mask32 b) = f2_zero).
Proof.
  intros H0 H1 Hb Hx. destruct (f2_root_finish_ok y0 y1 b H0 H1) as (A & B & C). split; auto. split; auto. split; auto.
  intros Eb. destruct (C Eb) as [S [E|E]]; (split; [|exact S]); rewrite E; [|rewrite qmul_opp]; auto.
Qed.
Lemma finish_fourth y0 y1 b x : canon y0 -> canon y1 -> (b = true <-> qfourth x) -> (b = true -> q4 (fv y0, fv y1) = x) ->
  canon2 (f2_root_finish y0 y1 (mask32 b)) /\ (b = true <-> qfourth x) /\
  (b = true -> q4 (fv2 (f2_root_finish y0 y1 (mask32 b))) = x /\ sign_ok (fv2 (f2_root_finish y0 y1 (mask32 b)))) /\
  (b = false -> f2_root_finish y0 y1 (mask32 b) = f2_zero).
Proof.
  intros H0 H1 Hb Hx. destruct (f2_root_finish_ok y0 y1 b H0 H1) as (A & B & C). split; auto. split; auto. split; auto.
  intros Eb. destruct (C Eb) as [S [E|E]]; (split; [|exact S]); rewrite E; [|rewrite q4_opp]; auto.
Qed.

Lemma f2_sqrt_ok x : canon2 x -> exists r b, f2_sqrt x = (r, mask32 b) /\ canon2 r /\ (b = true <-> qsquare (fv2 x)) /\
  (b = true -> qmul (fv2 r) (fv2 r) = fv2 x /\ sign_ok (fv2 r)) /\ (b = false -> r = f2_zero).
Proof.
  intros Hx. destruct (f2_norm_ok x Hx) as [Cn Fn]. destruct Hx as [H0 H1]. destruct x as [x0 x1]. cbn [fst snd] in *.
  unfold f2_sqrt. cbn [fst snd]. destruct (sqrt_fv (f2_norm (x0, x1)) Cn) as (d & b1 & E1 & Cd & Hb1 & Hd & _). rewrite E1, Fn in *. clear E1 Fn Cn.
  rewrite <- qsquare_norm in Hb1. cbv zeta. rewrite iszero_fv by auto. rewrite set_cond_mask by cn.
  unfold fv2 in *. cbn [fst snd] in *. unfold qnorm in Hd. cbn [fst snd] in Hd.
  destruct (zeq0 (fv x1)) eqn:Z1.
  - apply zeq0_true in Z1. rewrite nqr_mask_ok by auto. destruct (nsq (fv x0)) eqn:N0.
    + rewrite mask_not, !mask_and. cbn [andb negb]. rewrite set_condneg_mask, set_cond_mask by cn.
      destruct (sqrt_fv (set_neg x0)) as (y & b2 & E2 & Cy & Hb2 & Hy & _); [cn|]. rewrite E2. rewrite !mask_and. cbn [andb negb].
      assert (Eb2 : b2 = true). { apply Hb2. rewrite fv_neg by auto. apply zsquare_opp, nsq_true, N0. }
      rewrite condswap_mask by cn. eexists _, _. split; [reflexivity|]. rewrite Eb2, andb_true_r.
      destruct (Hy Eb2) as [Hy1 _]. apply finish_square; cn. intros _. rewrite fv_div by cn. rewrite Z1, zdiv_0_l. unfold qmul. cbn [fst snd].
      apply (f_equal2 (@pair Zp Zp)); [|ring]. rewrite Hy1, fv_neg by auto. ring.
    + rewrite mask_not, !mask_and. cbn [andb negb]. rewrite set_condneg_mask, set_cond_mask by cn.
      destruct (sqrt_fv x0) as (y & b2 & E2 & Cy & Hb2 & Hy & _); [cn|]. rewrite E2. rewrite !mask_and. cbn [andb negb].
      assert (Eb2 : b2 = true) by (apply Hb2, nsq_false, N0).
      rewrite condswap_mask by cn. eexists _, _. split; [reflexivity|]. rewrite Eb2, andb_true_r.
      destruct (Hy Eb2) as [Hy1 _]. apply finish_square; cn. intros _. rewrite fv_div by cn. rewrite Z1, zdiv_0_l. unfold qmul. cbn [fst snd].
      apply (f_equal2 (@pair Zp Zp)); [|ring]. rewrite Hy1. ring.
  - apply zeq0_false in Z1. rewrite nqr_mask_ok by cn. rewrite fv_half, fv_add by cn.
    rewrite mask_not, !mask_and. cbn [andb negb]. rewrite andb_false_r, andb_true_r. rewrite set_condneg_mask, set_cond_mask by cn.
    set (y0sq := if nsq ((fv x0 + fv d) / 2) then _ else _). assert (C0 : canon y0sq) by (unfold y0sq; destruct (nsq ((fv x0 + fv d) / 2)); cn).
    destruct (sqrt_fv y0sq) as (y & b2 & E2 & Cy & Hb2 & Hy & _); [auto|]. rewrite E2, !mask_and. clear E2. rewrite ?andb_false_r. rewrite condswap_mask by cn.
    eexists _, _. split; [reflexivity|].
    assert (K : b1 = true -> exists e, e * e = fv x0 * fv x0 + fv x1 * fv x1 /\ fv y0sq = (fv x0 + e) / 2 /\ b2 = true).
    { intros Eb1. destruct (Hd Eb1) as [Hd1 _]. unfold y0sq in *. destruct (nsq ((fv x0 + fv d) / 2)) eqn:N0.
      - exists (- fv d). split; [rewrite <- Hd1; ring|]. rewrite Hb2. rewrite fv_sub, fv_half, fv_add by cn.
        split; [apply (a_half_sub _ _ _ _ _ _ _ _ _ Zp_field two_nz)|]. apply (sqrt_sides _ _ _ Hd1 Z1). apply nsq_true, N0.
      - exists (fv d). split; [exact Hd1|]. rewrite Hb2. rewrite fv_half, fv_add by cn. split; auto. apply nsq_false, N0. }
    apply finish_square; cn.
    + split; intros H.
      * apply andb_true_iff in H as [Hb _]. apply Hb1, Hb.
      * apply Hb1 in H. destruct (K H) as (e & _ & _ & ->). rewrite H. reflexivity.
    + intros H. apply andb_true_iff in H as [Eb1 Eb2]. destruct (K Eb1) as (e & He & Ey & _). destruct (Hy Eb2) as [Hy1 _]. rewrite fv_div, fv_mul2 by cn.
      apply (qsqrt_alg (fv x0) (fv x1) e (fv y)); auto. rewrite Hy1. exact Ey.
Qed.

(** ** Fourth root *)
Lemma double_nz a : a <> 0 -> a / 2 <> 0.
Proof. intros N E. apply N. rewrite <- (a_half_twice _ _ _ _ _ _ _ _ _ Zp_field two_nz a), E. ring. Qed.
Lemma fourth_sound x0 x1 n s m y0 : n * n * (n * n) = x0 * x0 + x1 * x1 -> s * s = (n * n + x0) / 2 -> m * m = n * n ->
  y0 * y0 = (if zeq0 ((s + m) / 2) then m else (s + m) / 2) ->
  q4 (y0, if zeq0 x1 && zeq0 ((n * n + x0) / 2) then y0 else x1 / (y0 * (2 * 2 * s))) = (x0, x1).
Proof.
  intros Hn Hs Hm Hy. rewrite <- Hm in *. clear Hm n. pose proof two_nz as T.
  destruct (zp_dec s 0) as [->|Ns].
  - assert (D : (m * m + x0) / 2 = 0) by (rewrite <- Hs; ring). replace (zeq0 ((m * m + x0) / 2)) with true by (symmetry; apply zeq0_true, D).
    rewrite andb_true_r.
    assert (Hy' : y0 * y0 = m / 2).
    { replace (0 + m) with m in Hy by ring. destruct (zeq0 (m / 2)) eqn:E; auto. apply zeq0_true in E.
      assert (m = 0) by (destruct (zp_dec m 0) as [|N]; auto; exfalso; apply (double_nz m N E)). rewrite Hy, E. assumption. }
    destruct (fourth_alg_s0 _ _ _ _ _ _ _ _ _ Zp_field two_nz zp_dec x0 x1 m y0 Hn D Hy') as (-> & A & B).
    replace (zeq0 0) with true by (symmetry; apply zeq0_true; reflexivity).
    unfold q4, qmul. cbn [fst snd]. rewrite A, B. reflexivity.
  - assert (D : zeq0 ((m * m + x0) / 2) = false) by (apply zeq0_false; rewrite <- Hs; apply zmul_nz; auto).
    rewrite D, andb_false_r. destruct (zeq0 ((s + m) / 2)) eqn:E.
    + apply zeq0_true in E. destruct (fourth_alg_y0 _ _ _ _ _ _ _ _ _ Zp_field two_nz zp_dec x0 x1 m s Hn Hs E) as [-> ->].
      rewrite zdiv_0_l. unfold q4, qmul. cbn [fst snd]. apply (f_equal2 (@pair Zp Zp)); [|ring]. rewrite <- Hy. ring.
    + apply zeq0_false in E. assert (Ny : y0 <> 0) by (intros ->; apply E; rewrite <- Hy; ring).
      destruct (fourth_alg _ _ _ _ _ _ _ _ _ Zp_field two_nz zp_dec x0 x1 m s y0 Hn Hs Hy Ns Ny) as [A B].
      unfold q4, qmul. cbn [fst snd]. rewrite A, B. reflexivity.
Qed.
Lemma opp_nz a : a <> 0 -> - a <> 0. Proof. intros N E. apply N. rewrite <- (zopp_invol a), E. ring. Qed.
Lemma nsq_opp_sq a : nsq (- (a * a)) = negb (zeq0 a).
Proof.
  destruct (zp_dec a 0) as [->|N].
  - replace (zeq0 0) with true by (symmetry; apply zeq0_true; reflexivity). apply nsq_false. exists 0. ring.
  - replace (zeq0 a) with false by (symmetry; apply zeq0_false; auto). apply nsq_true. intros S. apply N, zsq_0, zsquare_both; [eexists; reflexivity|exact S].
Qed.
Lemma nsq_sq a : nsq (a * a) = false. Proof. apply nsq_false. eexists. reflexivity. Qed.
Lemma zsquare_sq a : zsquare (a * a). Proof. eexists. reflexivity. Qed.
Lemma sq_if_zero w m : zsquare m -> zsquare w -> zsquare (if zeq0 w then m else w). Proof. destruct (zeq0 w); auto. Qed.
(** completeness: for (a + ib)^4 the routine's candidate is a square *)
Lemma fourth_complete a b n s : let N := a * a + b * b in let x := q4 (a, b) in
  n * n * (n * n) = N * N * (N * N) -> even_z n = true ->
  (n * n + fst x) / 2 = (a * a - b * b) * (a * a - b * b) /\
  (s * s = (a * a - b * b) * (a * a - b * b) -> even_z s = true ->
   let k := nsq ((s + n) / 2) in let m := if k then - n else n in zsquare (if zeq0 ((s + m) / 2) then m else (s + m) / 2)).
Proof.
  intros N x Hn En.
  assert (Hnn : n * n = N * N).
  { destruct (zsq_eq (n * n) (N * N) Hn) as [|E]; auto. rewrite E.
    assert (Z : N * N = 0) by (apply zsquare_both; [apply zsquare_sq|rewrite <- E; apply zsquare_sq]). rewrite Z. ring. }
  split.
  - rewrite Hnn. exact (fourth_cand _ _ _ _ _ _ _ _ _ Zp_field two_nz a b).
  - intros Hs Es. destruct (zsq_eq _ _ Hnn) as [E1|E1]; destruct (zsq_eq _ _ Hs) as [E2|E2]; rewrite E1, E2 in *; unfold N in *; cbv zeta.
    + rewrite (cand_pp _ _ _ _ _ _ _ _ _ Zp_field two_nz a b), nsq_sq, (cand_pp _ _ _ _ _ _ _ _ _ Zp_field two_nz a b).
      destruct (zeq0 (a * a)) eqn:Z; [|apply zsquare_sq]. apply zeq0_true in Z. exists b. rewrite Z. ring.
    + rewrite (cand_mp _ _ _ _ _ _ _ _ _ Zp_field two_nz a b), nsq_sq, (cand_mp _ _ _ _ _ _ _ _ _ Zp_field two_nz a b).
      destruct (zeq0 (b * b)) eqn:Z; [|apply zsquare_sq]. apply zeq0_true in Z. exists a. rewrite Z. ring.
    + rewrite (cand_pm _ _ _ _ _ _ _ _ _ Zp_field two_nz a b), nsq_opp_sq. destruct (zeq0 b) eqn:Z; cbn [negb].
      * (* b = 0: the roots agree in parity, so both are the even root of a^4 *)
        apply zeq0_true in Z. subst b. rewrite (cand_pm _ _ _ _ _ _ _ _ _ Zp_field two_nz a 0).
        assert (Ea : a * a - 0 * 0 = - (a * a + 0 * 0)) by (apply even_unique; auto; ring).
        assert (Za : a * a = 0).
        { apply double_eq0. replace (2 * (a * a)) with ((a * a - 0 * 0) - - (a * a + 0 * 0)) by ring. rewrite Ea. ring. }
        rewrite Za. apply sq_if_zero; [exists 0|exists 0]; ring.
      * rewrite zopp_invol, (cand_pp _ _ _ _ _ _ _ _ _ Zp_field two_nz a b).
        destruct (zeq0 (a * a)) eqn:Z'; [|apply zsquare_sq]. apply zeq0_true in Z'. exists b. rewrite Z'. ring.
    + rewrite (cand_mm _ _ _ _ _ _ _ _ _ Zp_field two_nz a b), nsq_opp_sq. destruct (zeq0 a) eqn:Z; cbn [negb].
      * apply zeq0_true in Z. subst a. rewrite (cand_mm _ _ _ _ _ _ _ _ _ Zp_field two_nz 0 b).
        assert (Ea : - (0 * 0 - b * b) = - (0 * 0 + b * b)) by (apply even_unique; auto; ring).
        assert (Za : b * b = 0).
        { apply double_eq0. replace (2 * (b * b)) with (- (0 * 0 - b * b) - - (0 * 0 + b * b)) by ring. rewrite Ea. ring. }
        rewrite Za. apply sq_if_zero; [exists 0|exists 0]; ring.
      * rewrite zopp_invol, (cand_mp _ _ _ _ _ _ _ _ _ Zp_field two_nz a b).
        destruct (zeq0 (b * b)) eqn:Z'; [|apply zsquare_sq]. apply zeq0_true in Z'. exists a. rewrite Z'. ring.
Qed.
Lemma qnorm_q4 z : qnorm (q4 z) = qnorm z * qnorm z * (qnorm z * qnorm z). Proof. unfold q4. rewrite !qnorm_mul. ring. Qed.

Lemma f2_fourth_root_ok x : canon2 x -> exists r b, f2_fourth_root x = (r, mask32 b) /\ canon2 r /\ (b = true <-> qfourth (fv2 x)) /\
  (b = true -> q4 (fv2 r) = fv2 x /\ sign_ok (fv2 r)) /\ (b = false -> r = f2_zero).
Proof.
  intros Hx. destruct (f2_norm_ok x Hx) as [Cn Fn]. destruct Hx as [H0 H1]. destruct x as [x0 x1]. cbn [fst snd] in *.
  unfold f2_fourth_root. cbn [fst snd]. destruct (fourth_root_fv (f2_norm (x0, x1)) Cn) as (n & b1 & E1 & Cn' & Hb1 & Hn & _). rewrite E1, Fn in *. clear E1 Fn Cn.
  rewrite <- qsquare_norm in Hb1. cbv zeta. unfold fv2 in *. cbn [fst snd] in *.
  set (disc := set_half (set_add (set_square n) x0)). assert (Cdi : canon disc) by (unfold disc; cn).
  assert (Fdi : fv disc = (fv n * fv n + fv x0) / 2) by (unfold disc; rewrite fv_half, fv_add, fv_square by cn; reflexivity). clearbody disc.
  destruct (sqrt_fv disc) as (s & b2 & E2 & Cs & Hb2 & Hs & _); [auto|]. rewrite E2. clear E2.
  rewrite nqr_mask_ok, fv_half, fv_add by cn. set (k := nsq ((fv s + fv n) / 2)) in *.
  rewrite set_cond_mask, set_condneg_mask by cn. set (m := if k then set_neg n else n). set (y02 := if k then set_sub (set_half (set_add s n)) n else _).
  assert (Cm : canon m) by (unfold m; destruct k; cn). assert (C02 : canon y02) by (unfold y02; destruct k; cn).
  assert (Fm : fv m = if k then - fv n else fv n) by (unfold m; destruct k; rewrite ?fv_neg by cn; reflexivity).
  assert (F02 : fv y02 = (fv s + fv m) / 2).
  { rewrite Fm. unfold y02. destruct k; rewrite ?fv_sub, fv_half, fv_add by cn; [apply (a_half_sub _ _ _ _ _ _ _ _ _ Zp_field two_nz)|reflexivity]. }
  clearbody y02. rewrite (iszero_fv y02), set_cond_mask by cn. set (w := if zeq0 (fv y02) then m else y02).
  assert (Cw : canon w) by (unfold w; destruct (zeq0 (fv y02)); cn).
  assert (Fw : fv w = if zeq0 ((fv s + fv m) / 2) then fv m else (fv s + fv m) / 2) by (unfold w; rewrite <- F02; destruct (zeq0 (fv y02)); reflexivity).
  clearbody w. destruct (sqrt_fv w) as (y0 & b3 & E3 & Cy & Hb3 & Hy & _); [auto|]. rewrite E3. clear E3.
  rewrite !iszero_fv, !mask_and by cn. rewrite set_cond_mask by cn. eexists _, _. split; [reflexivity|].
  assert (Mm : fv m * fv m = fv n * fv n) by (rewrite Fm; destruct k; ring).
  apply finish_fourth; cn.
  - destruct (zeq0 (fv x1) && zeq0 (fv disc)); cn.
  - split.
    + intros H. apply andb_true_iff in H as [H Eb3]. apply andb_true_iff in H as [Eb1 Eb2].
      destruct (Hn Eb1) as [Hn1 _]. destruct (Hs Eb2) as [Hs1 _]. destruct (Hy Eb3) as [Hy1 _]. rewrite Fdi in Hs1. rewrite Fw in Hy1.
      unfold qnorm in Hn1. cbn [fst snd] in Hn1. eexists. exact (fourth_sound _ _ _ _ _ _ Hn1 Hs1 Mm Hy1).
    + intros [[a b] Hz].
      assert (Eb1 : b1 = true). { apply Hb1. rewrite <- Hz. eexists. reflexivity. }
      destruct (Hn Eb1) as [Hn1 En]. rewrite <- Hz, qnorm_q4 in Hn1. replace (fv x0) with (fst (q4 (a, b))) in * by (rewrite Hz; reflexivity).
      unfold qnorm in Hn1. cbn [fst snd] in Hn1.
      destruct (fourth_complete a b (fv n) (fv s) Hn1 En) as [A B]. rewrite Fdi, A in *.
      assert (Eb2 : b2 = true) by (apply Hb2, zsquare_sq). destruct (Hs Eb2) as [Hs1 Es]. specialize (B Hs1 Es). cbv zeta in B. fold k in B. rewrite <- Fm, <- Fw in B.
      rewrite Eb1, Eb2. apply Hb3, B.
  - intros H. apply andb_true_iff in H as [H Eb3]. apply andb_true_iff in H as [Eb1 Eb2].
    destruct (Hn Eb1) as [Hn1 _]. destruct (Hs Eb2) as [Hs1 _]. destruct (Hy Eb3) as [Hy1 _]. rewrite Fdi in *. rewrite Fw in Hy1.
    unfold qnorm in Hn1. cbn [fst snd] in Hn1. rewrite <- (fourth_sound _ _ _ _ _ _ Hn1 Hs1 Mm Hy1). f_equal. apply (f_equal2 (@pair Zp Zp)); [reflexivity|].
    destruct (zeq0 (fv x1) && zeq0 ((fv n * fv n + fv x0) / 2)); [reflexivity|]. rewrite fv_div, fv_mul, fv_mul4 by cn. reflexivity.
Qed.
