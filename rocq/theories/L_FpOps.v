(** Squaring, halving, doubling, small multiples, fused products, selection and integer conversions. *)
From Coq Require Import ZArith List Lia Bool Setoid Morphisms.
From Verif Require Import S_Fp M_Utils64 M_Consts M_Fp L_Words L_Bits L_Fp.
Import ListNotations.
Open Scope Z_scope.
Ltac Zify.zify_post_hook ::= Z.div_mod_to_equations.

(** ** Squaring *)
Fixpoint offw (a : list Z) : Z :=
  match a with [] => 0 | f :: r => f * eval r + W64 * W64 * offw r end.
Fixpoint sqsum (a : list Z) : Z :=
  match a with [] => 0 | f :: r => f * f + W64 * W64 * sqsum r end.

Lemma square_split a : eval a * eval a = sqsum a + W64 * 2 * offw a.
Proof.
  induction a as [|f a IH]; [reflexivity|]. cbn [eval offw sqsum].
  change 18446744073709551616 with W64.
  transitivity (f * f + 2 * W64 * (f * eval a) + W64 * W64 * (eval a * eval a)); [ring|rewrite IH; ring].
Qed.

Lemma offw_bound a : words a -> a <> [] ->
  0 <= offw a <= Wn (2 * length a - 2) - Wn (length a - 1).
Proof.
  induction a as [|f a IH]; intros Ha Hn; [congruence|].
  apply words_cons in Ha as [Hf Ha]. destruct a as [|x a'].
  - cbn. lia.
  - specialize (IH Ha ltac:(discriminate)). set (a := x :: a') in *.
    assert (Hl : exists n, length a = S n) by (exists (length a'); reflexivity).
    destruct Hl as [n Hl]. cbn [offw length]. pose proof (eval_bound a Ha) as Hb. rewrite Hl in *.
    replace (2 * S (S n) - 2)%nat with (S (S (2 * S n - 2)))%nat by lia.
    replace (S (S n) - 1)%nat with (S n) by lia.
    replace (S n - 1)%nat with n in IH by lia.
    rewrite !Wn_S in *. pose proof (Wn_pos n). pose proof (Wn_pos (2 * S n - 2)).
    set (A := Wn (2 * S n - 2)) in *. set (B := Wn n) in *.
    assert (0 <= f * eval a <= (W64 - 1) * (W64 * B - 1)).
    { unfold word in Hf. unfold W64 in *. nia. }
    unfold W64 in *. lia.
Qed.

Lemma row_add2_app f m : forall t tl c, length m = length t -> row_add2 f m (t ++ tl) c = row_add2 f m t c.
Proof.
  induction m as [|x m IH]; intros [|y t] tl c Hl; cbn [length] in Hl; try discriminate.
  - destruct tl; reflexivity.
  - injection Hl as Hl. cbn [app row_add2]. destruct (umull_add2 f x y c). rewrite (IH t tl _ Hl). reflexivity.
Qed.

Definition sq_next (rest t' : list Z) : list Z :=
  match t' with
  | u0 :: u1 :: us => u0 :: u1 :: sq_rows rest us
  | _ => t'
  end.
Lemma sq_rows_unfold f x rest' t0 ts :
  sq_rows (f :: x :: rest') (t0 :: ts) =
  let '(d, cc) := umull_add f x t0 in
  let '(ds, co) := row_add2 f rest' ts cc in
  sq_next (x :: rest') (d :: ds ++ co :: skipn (S (length rest')) ts).
Proof. reflexivity. Qed.

Lemma sq_rows_ok a : forall lo, words a -> words lo -> a <> [] -> length lo = (length a - 1)%nat ->
  let t := lo ++ repeat 0 (length a) in
  words (sq_rows a t) /\ length (sq_rows a t) = length t /\ eval (sq_rows a t) = eval lo + offw a.
Proof.
  induction a as [|f rest IH]; intros lo Ha Hlo Hn Hl; [congruence|].
  destruct rest as [|x rest'].
  - cbn [length] in *. destruct lo; [|discriminate]. split; [apply words_cons; auto|]. split; [reflexivity|].

    cbn [sq_rows app repeat eval offw]. lia.
  - intros t.
    assert (Hlr : length (x :: rest') = S (length rest')) by reflexivity.
    apply words_cons in Ha as [Hf Hrest].
    cbn [length] in Hl. replace (S (S (length rest')) - 1)%nat with (S (length rest')) in Hl by lia.
    destruct (list_cons_len lo (length rest') Hl) as (t0 & lo' & -> & Hlo').
    apply words_cons in Hlo as [Ht0 Hlo'w].
    set (ts := lo' ++ repeat 0 (S (S (length rest')))).
    assert (Et : t = t0 :: ts) by reflexivity. rewrite Et.
    destruct (words_cons x rest') as [Hxr _]. specialize (Hxr Hrest). destruct Hxr as [Hx Hrest'].
    assert (Esk : skipn (S (length rest')) ts = repeat 0 (S (length rest'))).
    { unfold ts. rewrite <- Hlo'. cbn [repeat].
      replace (lo' ++ 0 :: 0 :: repeat 0 (length lo')) with ((lo' ++ [0]) ++ 0 :: repeat 0 (length lo')) by (rewrite <- app_assoc; reflexivity).
      replace (S (length lo')) with (length (lo' ++ [0])) at 1 by (rewrite app_length; cbn; lia).
      rewrite skipn_app, Nat.sub_diag, skipn_all. reflexivity. }
    rewrite sq_rows_unfold.
    destruct (umull_add f x t0) as [d cc] eqn:E1. apply umull_add_spec in E1; auto.
    destruct E1 as (E1 & Hd & Hcc).
    destruct (row_add2 f rest' ts cc) as [ds co] eqn:E2. unfold ts in E2. rewrite row_add2_app in E2 by auto.
    apply row_add2_spec in E2; auto. destruct E2 as (E2 & Hds & Hlds & Hco).
    rewrite Esk.
    (* the row's output *)
    assert (Eu : exists u0 u1 lo2, d :: ds ++ co :: repeat 0 (S (length rest')) = u0 :: u1 :: lo2 ++ repeat 0 (S (length rest'))
      /\ length lo2 = length rest' /\ words lo2 /\ word u0 /\ word u1
      /\ u0 + W64 * u1 + W64 * W64 * eval lo2 = t0 + W64 * eval lo' + f * eval (x :: rest')).
    { assert (Ev : eval (d :: ds ++ [co]) = t0 + W64 * eval lo' + f * eval (x :: rest')).
      { cbn [eval]. rewrite eval_app. cbn [eval]. rewrite Hlds. unfold W64 in *. nia. }
      destruct ds as [|d1 ds'].
      - exists d, co, []. cbn [app]. destruct rest'; [|discriminate]. cbn [eval app] in Ev.
        repeat split; auto; try apply Hd; try apply Hco. cbn [eval] in *. unfold W64 in *. lia.
      - exists d, d1, (ds' ++ [co]). cbn [app].
        apply words_cons in Hds as [Hd1 Hds'].
        repeat split; auto; try apply Hd; try apply Hd1.
        + rewrite <- app_assoc. reflexivity.
        + rewrite app_length. cbn [length] in *. lia.
        + apply words_app; split; auto. apply words_cons; auto.
        + rewrite <- Ev. cbn [app eval]. unfold W64. ring. }
    destruct Eu as (u0 & u1 & lo2 & -> & Hl2 & Hw2 & Hu0 & Hu1 & Ev). unfold sq_next.
    destruct (IH lo2 Hrest Hw2 ltac:(discriminate) ltac:(cbn [length]; lia)) as (K1 & K2 & K3).
    cbv zeta in K1, K2, K3. rewrite Hlr in K1, K2, K3.
    split; [apply words_cons; split; auto; apply words_cons; auto|].
    split.
    + cbn [length]. rewrite K2. unfold ts. rewrite !app_length, !repeat_length. lia.
    + rewrite !eval_cons, K3. change (offw (f :: x :: rest')) with (f * eval (x :: rest') + W64 * W64 * offw (x :: rest')).
      unfold W64 in *. lia.
Qed.

Lemma dbl_loop_ok t : forall c, words t -> bit c -> forall d e, dbl_loop t c = (d, e) ->
  eval d + Wn (length t) * e = 2 * eval t + c /\ words d /\ length d = length t /\ bit e.
Proof.
  induction t as [|w t IH]; intros c Ht Hc d e E; cbn [dbl_loop] in E.
  - injection E as <- <-. cbn [eval length Wn]. split; [lia|auto].
  - apply words_cons in Ht as [Hw Ht]. destruct (dbl_loop t (Z.shiftr w 63)) as [ds co] eqn:E1.
    injection E as <- <-. destruct (dbl_word w c Hw Hc) as [D1 D2].
    destruct (IH _ Ht (bit_shiftr63 w Hw) _ _ E1) as (K1 & K2 & K3 & K4).
    split; [|split; [apply words_cons; auto|split; [cbn [length]; congruence|auto]]].
    cbn [eval length]. rewrite Wn_S. unfold W64 in *. lia.
Qed.

Lemma addsq_loop_ok a : forall t c, words a -> words t -> length t = (2 * length a)%nat -> bit c ->
  words (addsq_loop a t c) /\ length (addsq_loop a t c) = length t /\
  exists co, bit co /\ eval (addsq_loop a t c) + Wn (length t) * co = sqsum a + eval t + c.
Proof.
  induction a as [|x a IH]; intros t c Ha Ht Hl Hc.
  - destruct t; [|discriminate]. cbn [addsq_loop]. split; auto. split; auto. exists c. split; auto.
    cbn [length Wn eval sqsum]. lia.
  - destruct t as [|t0 [|t1 t]]; cbn [length] in Hl; try lia.
    apply words_cons in Ha as [Hx Ha]. apply words_cons in Ht as [Ht0 Ht]. apply words_cons in Ht as [Ht1 Ht].
    cbn [addsq_loop]. destruct (umull x x) as [lo hi] eqn:E0. apply umull_spec in E0; auto.
    destruct E0 as (E0 & Hlo & Hhi).
    destruct (addcarry_u64 lo t0 c) as [d0 e0] eqn:E1. apply addcarry_spec in E1; auto. destruct E1 as (E1 & Hd0 & He0).
    destruct (addcarry_u64 hi t1 e0) as [d1 e1] eqn:E2. apply addcarry_spec in E2; auto. destruct E2 as (E2 & Hd1 & He1).
    destruct (IH t e1 Ha Ht ltac:(lia) He1) as (K1 & K2 & co & Hco & K3).
    split; [apply words_cons; split; auto; apply words_cons; auto|].
    split; [cbn [length]; congruence|]. exists co. split; auto.
    cbn [length]. rewrite !Wn_S, !eval_cons. cbn [sqsum]. unfold W64 in *. lia.
Qed.

Lemma wide_square_ok a : words a -> length a = NLIMBS ->
  words (wide_square a) /\ length (wide_square a) = 42%nat /\ eval (wide_square a) = eval a * eval a.
Proof.
  intros Ha Hl. pose proof Ha as Ha'.
  destruct (list_cons_len a 20 Hl) as (f & a1 & -> & Hl1).
  destruct (list_cons_len a1 19 Hl1) as (x1 & a2 & -> & Hl2).
  apply words_cons in Ha' as [Hf Ha1]. pose proof Ha1 as Ha1'. apply words_cons in Ha1' as [Hx1 Ha2].
  unfold wide_square.
  destruct (umull f x1) as [d cc] eqn:E0. apply umull_spec in E0; auto. destruct E0 as (E0 & Hd & Hcc).
  destruct (row_first f a2 cc) as [ds co] eqn:E1. apply row_first_spec in E1; auto. destruct E1 as (E1 & Hds & Hlds & Hco).
  rewrite Hl2 in *. destruct (list_cons_len ds 18 Hlds) as (d1 & ds' & -> & Hlds').
  apply words_cons in Hds as [Hd1 Hds'].
  assert (Elo : (d1 :: ds') ++ co :: repeat 0 (NLIMBS - 1) = d1 :: (ds' ++ [co]) ++ repeat 0 (length (x1 :: a2))).
  { cbn [app length]. rewrite <- app_assoc, Hl2. reflexivity. }
  rewrite Elo. clear Elo.
  destruct (sq_rows_ok (x1 :: a2) (ds' ++ [co]) Ha1) as (K1 & K2 & K3).
  { apply words_app; split; auto. apply words_cons; auto. }
  { discriminate. }
  { rewrite app_length. cbn [length]. lia. }
  cbv zeta in K1, K2, K3. set (S := sq_rows _ _) in *.
  assert (HlS : length S = 39%nat).
  { rewrite K2, !app_length, repeat_length. cbn [length]. lia. }
  set (t := d :: d1 :: S).
  assert (Ht : words t) by (unfold t; apply words_cons; split; auto; apply words_cons; auto).
  assert (Hlt : length t = 41%nat) by (unfold t; cbn [length]; lia).
  assert (Et : eval t = offw (f :: x1 :: a2)).
  { unfold t. rewrite !eval_cons, K3, eval_app, Hlds'. cbn [eval].
    change (offw (f :: x1 :: a2)) with (f * eval (x1 :: a2) + W64 * W64 * offw (x1 :: a2)).
    rewrite !eval_cons in *. change (Wn 19) with (W64 * Wn 18) in E1. unfold W64 in *. nia. }
  pose proof (offw_bound (f :: x1 :: a2) Ha ltac:(discriminate)) as Hob. rewrite Hl in Hob.
  change (2 * NLIMBS - 2)%nat with 40%nat in *. rewrite <- Et in Hob.
  pose proof (Wn_pos (NLIMBS - 1)).
  set (tl := skipn 40 t). set (th := firstn 40 t).
  assert (Esp : t = th ++ tl) by (symmetry; apply firstn_skipn).
  assert (Hlth : length th = 40%nat) by (unfold th; rewrite firstn_length; lia).
  assert (Hltl : length tl = 1%nat) by (unfold tl; rewrite skipn_length; lia).
  destruct (list_cons_len tl 0 Hltl) as (w & nil' & Etl & Hnil). destruct nil'; [|discriminate].
  rewrite Esp in Ht. apply words_app in Ht as [Hth Htl].
  assert (Eth : eval th = offw (f :: x1 :: a2)).
  { rewrite <- Et, Esp, eval_app, Etl, Hlth. cbn [eval].
    rewrite Esp, eval_app, Etl, Hlth in Hob. cbn [eval] in Hob.
    rewrite Etl in Htl. apply words_cons in Htl as [Hw _]. unfold word in Hw.
    pose proof (eval_bound th Hth). pose proof (Wn_pos 40). assert (w = 0) by nia. lia. }
  destruct (dbl_loop th 0) as [dd dc] eqn:E2.
  apply dbl_loop_ok in E2; auto; [|unfold bit; lia]. destruct E2 as (E2 & Hdd & Hldd & Hdc).
  rewrite Hlth in *.
  set (T := 0 :: dd ++ [dc]).
  assert (HT : words T) by (unfold T; apply words_cons; split; auto; apply words_app; split; auto; apply words_cons; auto).
  assert (HlT : length T = 42%nat) by (unfold T; cbn [length]; rewrite app_length; cbn [length]; lia).
  assert (ET : eval T = W64 * 2 * offw (f :: x1 :: a2)).
  { unfold T. rewrite eval_cons, eval_app, Hldd. cbn [eval]. rewrite <- Eth. unfold W64. nia. }
  destruct (addsq_loop_ok (f :: x1 :: a2) T 0 Ha HT) as (L1 & L2 & c & Hc & L3).
  { rewrite HlT, Hl. reflexivity. }
  { unfold bit; lia. }
  split; auto. split; [congruence|].
  rewrite ET in L3. pose proof (square_split (f :: x1 :: a2)) as SS.
  pose proof (eval_bound _ L1) as B1. rewrite L2, HlT in B1. rewrite HlT in L3.
  pose proof (eval_bound _ Ha) as B2. rewrite Hl in B2.
  change 42%nat with (NLIMBS + NLIMBS)%nat in *. rewrite Wn_add in *.
  assert (eval (f :: x1 :: a2) * eval (f :: x1 :: a2) < Wn NLIMBS * Wn NLIMBS) by nia.
  bitcase Hc; lia.
Qed.

Lemma firstn_words n l : words l -> words (firstn n l).
Proof. intros H. rewrite <- (firstn_skipn n l) in H. apply words_app in H. tauto. Qed.
Lemma skipn_words n l : words l -> words (skipn n l).
Proof. intros H. rewrite <- (firstn_skipn n l) in H. apply words_app in H. tauto. Qed.

Lemma set_square_ok a : canon a -> canon (set_square a) /\ cg (eval (set_square a) * WN) (eval a * eval a).
Proof.
  intros Ha. apply canon_inv in Ha as (Hl & Hw & Hb). unfold set_square.
  destruct (wide_square_ok a Hw Hl) as (H1 & H2 & H3). set (t := wide_square a) in *.
  assert (L1 : length (firstn NLIMBS t) = NLIMBS) by (rewrite firstn_length, H2; reflexivity).
  assert (L2 : length (skipn NLIMBS t) = NLIMBS) by (rewrite skipn_length, H2; reflexivity).
  pose proof (firstn_words NLIMBS t H1) as W1. pose proof (skipn_words NLIMBS t H1) as W2.
  destruct (set_montyred_ok _ W1 L1) as (M1 & M2 & M3 & _ & M4).
  assert (Es : eval a * eval a = eval (firstn NLIMBS t) + WN * eval (skipn NLIMBS t)).
  { rewrite <- H3. rewrite <- (firstn_skipn NLIMBS t) at 1. rewrite eval_app, L1, WN_eq. reflexivity. }
  pose proof (eval_bound_N _ W1 L1). pose proof (eval_bound_N _ W2 L2). pose proof P_WN. pose proof P_pos.
  assert (eval (skipn NLIMBS t) < P).
  { assert (S : WN * eval (skipn NLIMBS t) < WN * P) by nia.
    apply Z.mul_lt_mono_pos_l in S; [auto|apply WN_pos]. }
  destruct (set_add_gen _ _ M1 W2 M2 L2 ltac:(lia)) as [S1 S2].
  split; auto. rewrite S2, Z.mul_add_distr_r, M4, Es. exists 0. lia.
Qed.

Lemma set_square_mul a : canon a -> set_square a = set_mul a a.
Proof.
  intros Ha. destruct (set_square_ok a Ha) as [H1 H2]. destruct (set_mul_canon a a Ha Ha) as [H3 H4].
  apply canon_eval_inj; auto. apply cg_small; try apply canon_bound; auto.
  apply cg_cancel_WN. rewrite H2, H4. reflexivity.
Qed.

(** ** A more general form of the final correction *)
Lemma reduce_core t c c' x : words t -> length t = NLIMBS -> bit c -> bit c' -> 0 <= x < 2 * P ->
  eval t + WN * (c - c') = x - P ->
  canon (addmask_loop t (wsub c c')) /\ cg (eval (addmask_loop t (wsub c c'))) x.
Proof.
  intros Ht Hl Hc Hc' Hx E.
  pose proof (eval_bound_N t Ht Hl). pose proof P_WN. pose proof P_pos.
  assert (Hcc : c <= c') by (bitcase Hc; bitcase Hc'; lia).
  rewrite wsub_bits by auto. destruct (Z.eqb_spec c c') as [->|Hne].
  - rewrite addmask_zero by auto. split; [repeat split; auto; lia|]. exists (-1). lia.
  - assert (c = 0) by (unfold bit in *; lia). assert (c' = 1) by (unfold bit in *; lia). subst.
    destruct (addmask_ones t Ht Hl) as (e & He & Ee & Hr & Hlr).
    set (r := addmask_loop t (W64 - 1)) in *.
    pose proof (eval_bound_N r Hr Hlr).
    assert (Er : eval r = x) by (bitcase He; lia).
    split; [repeat split; auto; lia|rewrite Er; reflexivity].
Qed.

(** ** Halving *)
Lemma words_HALF : words HALF_MODULUS. Proof. apply words_by_check. reflexivity. Qed.
Lemma len_HALF : length HALF_MODULUS = NLIMBS. Proof. reflexivity. Qed.
Lemma eval_HALF : 2 * eval HALF_MODULUS = P + 1. Proof. vm_compute. reflexivity. Qed.
#[local] Opaque HALF_MODULUS.

Lemma masked_words m l : word m -> words l -> words (masked m l).
Proof. intros Hm H. induction l; [constructor|]. apply words_cons in H as [? ?].
  unfold masked in *. cbn [map]. apply words_cons. auto. Qed.
Lemma masked_length m l : length (masked m l) = length l.
Proof. apply map_length. Qed.

Lemma half_loop_ok a : forall h mm c, words a -> words h -> word mm -> length a = length h -> a <> [] -> bit c ->
  words (half_loop a h mm c) /\ length (half_loop a h mm c) = length a /\
  exists co, bit co /\ eval (half_loop a h mm c) + Wn (length a) * co = eval a / 2 + eval (masked mm h) + c.
Proof.
  induction a as [|x a IH]; intros h mm c Ha Hh Hmm Hl Hn Hc; [congruence|].
  destruct h as [|z h]; [discriminate|]. cbn [length] in Hl. injection Hl as Hl.
  apply words_cons in Ha as [Hx Ha]. apply words_cons in Hh as [Hz Hh].
  destruct a as [|y a'].
  - destruct h; [|discriminate]. cbn [half_loop].
    destruct (addcarry_u64 (Z.shiftr x 1) (Z.land mm z) c) as [d e] eqn:E.
    apply addcarry_spec in E; auto; [|apply word_shiftr; auto; lia].
    destruct E as (E & Hd & He). rewrite shiftr1 in E.
    split; [apply words_cons; auto|]. split; [reflexivity|]. exists e. split; auto.
    cbn [length Wn eval masked map]. rewrite !Z.mul_0_r, !Z.add_0_r. unfold W64 in *. lia.
  - pose proof (proj1 (words_cons _ _) Ha) as [Hy Ha'].
    set (a := y :: a') in *.
    change (half_loop (x :: a) (z :: h) mm c) with
      (let '(d, ee) := addcarry_u64 (Z.lor (Z.shiftr x 1) (wshl y 63)) (Z.land mm z) c in d :: half_loop a h mm ee).
    destruct (shr1_word x y Hx Hy) as [S1 S2].
    destruct (addcarry_u64 (Z.lor (Z.shiftr x 1) (wshl y 63)) (Z.land mm z) c) as [d e] eqn:E.
    apply addcarry_spec in E; auto. destruct E as (E & Hd & He). rewrite S1 in E.
    destruct (IH h mm e Ha Hh Hmm Hl ltac:(discriminate) He) as (K1 & K2 & co & Hco & K3).
    split; [apply words_cons; auto|]. split; [cbn [length]; congruence|]. exists co. split; auto.
    cbn [length]. rewrite Wn_S, !eval_cons.
    change (masked mm (z :: h)) with (Z.land mm z :: masked mm h). rewrite eval_cons.
    assert (Ey : eval a mod 2 = y mod 2).
    { unfold a. rewrite eval_cons. unfold W64. lia. }
    rewrite <- Ey in E. clear Ey. generalize dependent (eval a). intros A. intros.
    unfold W64 in *. lia.
Qed.

Lemma set_half_ok a : canon a -> canon (set_half a) /\ cg (2 * eval (set_half a)) (eval a).
Proof.
  intros Ha. apply canon_inv in Ha as (Hl & Hw & Hb). unfold set_half.
  pose proof (eval_HALF) as EH. pose proof P_pos. pose proof P_WN.
  assert (Hodd : Z.land (limb a 0) 1 = eval a mod 2).
  { rewrite land1_mod. destruct (list_cons_len a 20 Hl) as (x & a' & -> & _). cbn [limb nth eval]. lia. }
  rewrite Hodd.
  assert (Hbit : bit (eval a mod 2)) by (unfold bit; lia).
  destruct (half_loop_ok a HALF_MODULUS (wneg (eval a mod 2)) 0 Hw words_HALF ltac:(auto)) as (K1 & K2 & co & Hco & K3).
  { rewrite Hl, len_HALF. reflexivity. }
  { intros ->. discriminate. }
  { unfold bit; lia. }
  rewrite wneg_bit in * by auto. rewrite Hl, WN_eq in K3.
  set (r := half_loop _ _ _ _) in *. rewrite Hl in K2. pose proof (eval_bound_N r K1 K2).
  destruct (Z.eqb_spec (eval a mod 2) 1) as [Eo|Eo].
  - rewrite masked_ones in K3 by apply words_HALF.
    assert (EE : 2 * (eval r + WN * co) = eval a + P) by lia.
    assert (co = 0) by (bitcase Hco; lia). subst co.
    split; [repeat split; auto; lia|]. exists 1. lia.
  - rewrite masked_zero, eval_repeat0 in K3.
    assert (EE : 2 * (eval r + WN * co) = eval a) by lia.
    assert (co = 0) by (bitcase Hco; lia). subst co.
    split; [repeat split; auto; lia|]. exists 0. lia.
Qed.

(** ** Doubling *)
Lemma mul2_loop_ok a : forall m tb cc, words a -> words m -> length a = length m -> bit tb -> bit cc ->
  forall d tb' cc', mul2_loop a m tb cc = (d, tb', cc') ->
  eval d + Wn (length a) * (tb' - cc') = 2 * eval a - eval m + tb - cc
  /\ words d /\ length d = length a /\ bit tb' /\ bit cc'.
Proof.
  induction a as [|w a IH]; intros [|y m] tb cc Ha Hm Hl Htb Hcc d tb' cc' E; cbn [length] in Hl; try discriminate.
  - cbn in E. injection E as <- <- <-. cbn [eval length Wn]. split; [lia|auto].
  - cbn [mul2_loop] in E. apply words_cons in Ha as [Hw Ha]. apply words_cons in Hm as [Hy Hm]. injection Hl as Hl.
    destruct (dbl_word w tb Hw Htb) as [D1 D2].
    destruct (subborrow_u64 (Z.lor (wshl w 1) tb) y cc) as [d0 e0] eqn:E0.
    apply subborrow_spec in E0; auto. destruct E0 as (E0 & Hd0 & He0).
    destruct (mul2_loop a m (Z.shiftr w 63) e0) as [[ds t1] c1] eqn:E1.
    injection E as <- <- <-.
    destruct (IH m _ e0 Ha Hm Hl (bit_shiftr63 w Hw) He0 _ _ _ E1) as (K1 & K2 & K3 & K4 & K5).
    split; [|split; [apply words_cons; auto|split; [cbn [length]; congruence|auto]]].
    cbn [length]. rewrite Wn_S, !eval_cons. unfold W64 in *. lia.
Qed.

Lemma set_mul2_ok a : canon a -> canon (set_mul2 a) /\ cg (eval (set_mul2 a)) (2 * eval a).
Proof.
  intros Ha. apply canon_inv in Ha as (Hl & Hw & Hb). unfold set_mul2.
  destruct (mul2_loop a MODULUS 0 0) as [[t tb] cc] eqn:E.
  apply mul2_loop_ok in E; auto; try apply words_MODULUS; try (unfold bit; lia).
  destruct E as (E & Ht & Hlt & Htb & Hcc). rewrite Hl, WN_eq, eval_MODULUS in E. rewrite Hl in Hlt.
  apply reduce_core; auto; lia.
Qed.

(** ** Selection on canonical elements *)
Lemma set_cond_mask a b m : canon a -> canon b -> set_cond a b (mask32 m) = if m then b else a.
Proof. intros (Hla & Ha & _) (Hlb & Hb & _). apply select_loop_mask; auto. congruence. Qed.
Lemma select_mask a b m : canon a -> canon b -> select a b (mask32 m) = if m then b else a.
Proof. apply set_cond_mask. Qed.
Lemma condswap_mask a b m : canon a -> canon b -> condswap a b (mask32 m) = if m then (b, a) else (a, b).
Proof. intros (Hla & Ha & _) (Hlb & Hb & _). apply condswap_loop_mask; auto. congruence. Qed.
Lemma set_condneg_mask a m : canon a -> set_condneg a (mask32 m) = if m then set_neg a else a.
Proof. intros Ha. unfold set_condneg. apply set_cond_mask; auto. apply set_neg_ok; auto. Qed.

Lemma equals_canon a b : canon a -> canon b -> equals a b = mask32 (val a =? val b).
Proof.
  intros Ha Hb. rewrite equals_spec; [|apply Ha|apply Hb|destruct Ha, Hb; congruence].
  f_equal. destruct (list_eq_dec Z.eq_dec a b) as [->|Hn]; [symmetry; apply Z.eqb_refl|].
  symmetry. apply Z.eqb_neq. intros H. apply Hn. apply val_inj; auto.
Qed.
Lemma eval_0_val a : canon a -> (eval a =? 0) = (val a =? 0).
Proof.
  intros Ha. destruct (Z.eqb_spec (eval a) 0) as [E|E].
  - unfold val. rewrite E. reflexivity.
  - symmetry. apply Z.eqb_neq. intros H. apply E. apply cg_small; [apply canon_bound; auto|pose proof P_pos; lia|].
    rewrite <- val_cg, H. reflexivity.
Qed.
Lemma iszero_canon a : canon a -> iszero a = mask32 (val a =? 0).
Proof.
  intros Ha. rewrite <- eval_0_val by auto. apply iszero_spec; [apply Ha|].
  destruct Ha as [Hl _]. intros ->. discriminate.
Qed.

(** ** Residue-level statements *)
Lemma val_add a b : canon a -> canon b -> val (set_add a b) = (val a + val b) mod P.
Proof. intros. apply val_from_cg. destruct (set_add_ok a b) as [_ ->]; auto. rewrite Z.mul_add_distr_r, !val_cg. reflexivity. Qed.
Lemma val_sub a b : canon a -> canon b -> val (set_sub a b) = (val a - val b) mod P.
Proof. intros. apply val_from_cg. destruct (set_sub_ok a b) as [_ ->]; auto. rewrite Z.mul_sub_distr_r, !val_cg. reflexivity. Qed.
Lemma val_neg a : canon a -> val (set_neg a) = (- val a) mod P.
Proof. intros. apply val_from_cg. destruct (set_neg_ok a) as [_ ->]; auto. rewrite Z.mul_opp_l, !val_cg. reflexivity. Qed.
Lemma val_mul_gen a b r : cg (eval r * WN) (eval a * eval b) -> val r = (val a * val b) mod P.
Proof.
  intros H. apply val_from_cg. apply cg_cancel_WN. rewrite H, <- (val_cg a), <- (val_cg b). exists 0. lia.
Qed.
Lemma val_mul a b : canon a -> canon b -> val (set_mul a b) = (val a * val b) mod P.
Proof. intros. apply val_mul_gen. apply set_mul_canon; auto. Qed.
Lemma val_square a : canon a -> val (set_square a) = (val a * val a) mod P.
Proof. intros. apply val_mul_gen. apply set_square_ok; auto. Qed.
Lemma val_mul2 a : canon a -> val (set_mul2 a) = (2 * val a) mod P.
Proof. intros. apply val_from_cg. destruct (set_mul2_ok a) as [_ ->]; auto. rewrite <- Z.mul_assoc, val_cg. reflexivity. Qed.

Lemma cg_2_inv a b : cg (2 * a) (2 * b) -> cg a b.
Proof.
  intros [k H]. pose proof eval_HALF as E.
  assert (Hk : exists k', k = 2 * k').
  { exists (k / 2). assert (k * P = k * (2 * eval HALF_MODULUS) - k) by (rewrite E; ring).
    assert (k mod 2 = 0); [|lia]. 
    assert (k = 2 * (k * eval HALF_MODULUS - (a - b))) by lia. lia. }
  destruct Hk as [k' ->]. exists k'. lia.
Qed.

Lemma val_half a : canon a -> (2 * val (set_half a)) mod P = val a.
Proof.
  intros Ha. destruct (set_half_ok a Ha) as [_ H]. rewrite <- (Z.mod_small (val a) P) by apply val_range.
  apply cg_mod. apply cg_cancel_WN. rewrite val_cg, <- Z.mul_assoc, val_cg. exact H.
Qed.

Lemma canon_add a b : canon a -> canon b -> canon (set_add a b). Proof. intros; apply set_add_ok; auto. Qed.
Lemma canon_sub a b : canon a -> canon b -> canon (set_sub a b). Proof. intros; apply set_sub_ok; auto. Qed.
Lemma canon_neg a : canon a -> canon (set_neg a). Proof. intros; apply set_neg_ok; auto. Qed.
Lemma canon_mul a b : canon a -> canon b -> canon (set_mul a b). Proof. intros; apply set_mul_canon; auto. Qed.
Lemma canon_square a : canon a -> canon (set_square a). Proof. intros; apply set_square_ok; auto. Qed.
Lemma canon_half a : canon a -> canon (set_half a). Proof. intros; apply set_half_ok; auto. Qed.
Lemma canon_mul2 a : canon a -> canon (set_mul2 a). Proof. intros; apply set_mul2_ok; auto. Qed.
#[global] Hint Resolve canon_zero canon_add canon_sub canon_neg canon_mul canon_square canon_half canon_mul2 : core.

Lemma canon_mul3 a : canon a -> canon (set_mul3 a). Proof. unfold set_mul3; auto. Qed.
Lemma canon_mul4 a : canon a -> canon (set_mul4 a). Proof. unfold set_mul4; auto. Qed.
Lemma canon_mul8 a : canon a -> canon (set_mul8 a). Proof. unfold set_mul8; auto. Qed.
#[global] Hint Resolve canon_mul3 canon_mul4 canon_mul8 : core.
Lemma val_mul3 a : canon a -> val (set_mul3 a) = (3 * val a) mod P.
Proof. intros. unfold set_mul3. rewrite val_add, val_mul2, Z.add_mod_idemp_r by (auto; pose proof P_pos; lia). f_equal. ring. Qed.
Lemma val_mul4 a : canon a -> val (set_mul4 a) = (4 * val a) mod P.
Proof. intros. unfold set_mul4. rewrite !val_mul2, Z.mul_mod_idemp_r by (auto; pose proof P_pos; lia). f_equal. ring. Qed.
Lemma val_mul8 a : canon a -> val (set_mul8 a) = (8 * val a) mod P.
Proof. intros. unfold set_mul8. rewrite !val_mul2 by auto. apply cg_mod. rewrite !cg_mod_l. exists 0. lia. Qed.

(** ** The constants *)
Lemma val_by_check a x : (eval a =? (x * WN) mod P) = true -> val a = x mod P.
Proof. intros H. apply Z.eqb_eq in H. apply val_from_cg. rewrite H. apply cg_mod_l. Qed.
Lemma canon_by_check a :
  (Nat.eqb (length a) 21 && forallb (fun x => (0 <=? x) && (x <? W64)) a && (eval a <? P))%bool = true -> canon a.
Proof.
  intros H. apply andb_true_iff in H as [H H3]. apply andb_true_iff in H as [H1 H2].
  apply Nat.eqb_eq in H1. apply words_by_check in H2. apply Z.ltb_lt in H3. repeat split; auto.
Qed.
#[local] Transparent P WN.
Lemma one_lt_P : 8 < P. Proof. reflexivity. Qed.
Lemma canon_one : canon fp_one. Proof. apply canon_by_check. vm_compute. reflexivity. Qed.
Lemma canon_two : canon fp_two. Proof. apply canon_by_check. vm_compute. reflexivity. Qed.
Lemma canon_three : canon fp_three. Proof. apply canon_by_check. vm_compute. reflexivity. Qed.
Lemma canon_four : canon fp_four. Proof. apply canon_by_check. vm_compute. reflexivity. Qed.
Lemma canon_minus_one : canon fp_minus_one. Proof. apply canon_by_check. vm_compute. reflexivity. Qed.
Lemma canon_R2 : canon R2_VAL. Proof. apply canon_by_check. vm_compute. reflexivity. Qed.
Lemma canon_TDEC : canon TDEC_VAL. Proof. apply canon_by_check. vm_compute. reflexivity. Qed.
Lemma canon_TFIXDIV : canon TFIXDIV_VAL. Proof. apply canon_by_check. vm_compute. reflexivity. Qed.
Lemma eval_one : cg (eval fp_one) WN. Proof. apply cg_mod. vm_compute. reflexivity. Qed.
Lemma val_one : val fp_one = 1. Proof. vm_compute. reflexivity. Qed.
Lemma val_two : val fp_two = 2. Proof. vm_compute. reflexivity. Qed.
Lemma val_three : val fp_three = 3. Proof. vm_compute. reflexivity. Qed.
Lemma val_four : val fp_four = 4. Proof. vm_compute. reflexivity. Qed.
Lemma val_minus_one : val fp_minus_one = P - 1. Proof. vm_compute. reflexivity. Qed.
Lemma val_R2 : val R2_VAL = WN mod P. Proof. vm_compute. reflexivity. Qed.
Lemma val_TDEC : val TDEC_VAL = 2 ^ 1280 mod P. Proof. vm_compute. reflexivity. Qed.
#[local] Opaque P WN.
#[global] Hint Resolve canon_one canon_two canon_three canon_four canon_minus_one canon_R2 canon_TDEC canon_TFIXDIV : core.
#[global] Opaque R2_VAL TDEC_VAL TFIXDIV_VAL R_VAL DR_VAL TR_VAL QR_VAL MINUS_R_VAL.

Lemma set_mul_R2 a : canon a -> val (set_mul a R2_VAL) = eval a.
Proof.
  intros Ha. rewrite val_mul, val_R2, Z.mul_mod_idemp_r by (auto; pose proof P_pos; lia).
  rewrite <- (Z.mod_small (eval a) P) by (apply canon_bound; auto).
  apply cg_mod. rewrite val_cg. reflexivity.
Qed.

(** ** Conversions from integers *)
Lemma single_canon x : word x -> canon (x :: tl fp_zero) /\ eval (x :: tl fp_zero) = x.
Proof.
  intros Hx. assert (E : eval (x :: tl fp_zero) = x).
  { rewrite eval_cons. change (tl fp_zero) with (repeat 0 20). rewrite eval_repeat0. lia. }
  split; auto. split; [reflexivity|]. split.
  - apply words_cons. split; auto. change (tl fp_zero) with (repeat 0 20). auto.
  - rewrite E. unfold word in Hx. pose proof P_bits_lo.
    assert (18446744073709551616 < 2 ^ 1292) by (apply (Z.pow_lt_mono_r 2 64 1292); lia). lia.
Qed.
Lemma from_u64_ok x : word x -> canon (from_u64 x) /\ val (from_u64 x) = x.
Proof.
  intros Hx. destruct (single_canon x Hx) as [H1 H2]. unfold from_u64. split; auto.
  rewrite set_mul_R2 by auto. auto.
Qed.

Lemma sign_mask32 k : -2147483648 <= k < 2147483648 ->
  lo32 (Z.shiftr k 31) = mask32 (k <? 0) /\ lo32 (Z.lxor (lo32 k) (mask32 (k <? 0)) - mask32 (k <? 0)) = Z.abs k.
Proof.
  intros Hk. rewrite Z.shiftr_div_pow2, !lo32_mod by lia. change (2 ^ 31) with 2147483648.
  destruct (Z.ltb_spec k 0); cbn [mask32].
  - split; [unfold W32, TRUE32; lia|].
    assert (X : Z.lxor (k mod W32) TRUE32 = W32 - 1 - k mod W32).
    { change TRUE32 with (Z.ones 32).
      assert (H0 : Z.land (Z.lxor (k mod W32) (Z.ones 32)) (k mod W32) = 0).
      { apply Z.bits_inj'. intros i Hi. rewrite Z.land_spec, Z.lxor_spec, Z.bits_0.
        change W32 with (2 ^ 32).
        destruct (Z.ltb_spec i 32).
        - rewrite Z.ones_spec_low by lia. destruct (Z.testbit (k mod 2 ^ 32) i); reflexivity.
        - rewrite Z.mod_pow2_bits_high by lia. apply andb_false_r. }
      apply Z.add_nocarry_lxor in H0.
      rewrite Z.lxor_assoc, (Z.lxor_comm _ (k mod W32)), <- Z.lxor_assoc, Z.lxor_nilpotent, Z.lxor_0_l in H0.
      change (Z.ones 32) with (W32 - 1) in *. lia. }
    rewrite X. unfold W32, TRUE32. lia.
  - split; [unfold W32; lia|]. rewrite Z.lxor_0_r. unfold W32. lia.
Qed.

Lemma from_i32_ok x : -2147483648 <= x < 2147483648 -> canon (from_i32 x) /\ val (from_i32 x) = x mod P.
Proof.
  intros Hx. unfold from_i32. destruct (sign_mask32 x Hx) as [E1 E2]. rewrite E1, E2.
  destruct (from_u64_ok (Z.abs x)) as [H1 H2]; [unfold word; lia|].
  rewrite set_condneg_mask by auto. pose proof one_lt_P. pose proof P_bits_lo.
  assert (4294967296 < 2 ^ 1292) by (apply (Z.pow_lt_mono_r 2 32 1292); lia).
  destruct (Z.ltb_spec x 0); split; auto.
  - rewrite val_neg, H2 by auto. f_equal. lia.
  - rewrite H2. rewrite Z.mod_small by lia. lia.
Qed.

Lemma sign_mask64 k : -9223372036854775808 <= k < 9223372036854775808 ->
  lo64 (Z.shiftr k 63) = (if k <? 0 then W64 - 1 else 0) /\
  lo64 (Z.lxor (lo64 k) (if k <? 0 then W64 - 1 else 0) - (if k <? 0 then W64 - 1 else 0)) = Z.abs k.
Proof.
  intros Hk. rewrite Z.shiftr_div_pow2, !lo64_mod by lia. change (2 ^ 63) with 9223372036854775808.
  destruct (Z.ltb_spec k 0).
  - split; [unfold W64; lia|]. rewrite lxor_ones by (apply Z.mod_pos_bound; reflexivity).
    unfold W64. lia.
  - split; [unfold W64; lia|]. rewrite Z.lxor_0_r. unfold W64. lia.
Qed.

Lemma from_i64_ok x : -9223372036854775808 <= x < 9223372036854775808 -> canon (from_i64 x) /\ val (from_i64 x) = x mod P.
Proof.
  intros Hx. unfold from_i64. destruct (sign_mask64 x Hx) as [E1 E2]. rewrite E1, E2.
  destruct (from_u64_ok (Z.abs x)) as [H1 H2]; [unfold word; lia|].
  assert (EM : lo32 (if x <? 0 then W64 - 1 else 0) = mask32 (x <? 0)) by (destruct (x <? 0); reflexivity).
  rewrite EM, set_condneg_mask by auto. pose proof P_bits_lo.
  assert (18446744073709551616 < 2 ^ 1292) by (apply (Z.pow_lt_mono_r 2 64 1292); lia).
  destruct (Z.ltb_spec x 0); split; auto.
  - rewrite val_neg, H2 by auto. f_equal. lia.
  - rewrite H2. rewrite Z.mod_small by lia. lia.
Qed.
