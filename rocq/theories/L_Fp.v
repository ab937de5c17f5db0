(** Correctness of the limb-level ring operations of fp_gen.rs. *)
From Coq Require Import ZArith List Lia Bool Setoid Morphisms.
From Verif Require Import S_Fp M_Utils64 M_Consts M_Fp L_Words.
Import ListNotations.
Open Scope Z_scope.
Ltac Zify.zify_post_hook ::= Z.div_mod_to_equations.

Lemma bit_cases e : bit e -> e = 0 \/ e = 1. Proof. unfold bit; lia. Qed.
Ltac bitcase H := let H' := fresh in pose proof (bit_cases _ H) as H'; destruct H' as [-> | ->].

(** ** Facts about the constants *)
Lemma eval_MODULUS : eval MODULUS = P. Proof. vm_compute. reflexivity. Qed.
Lemma len_MODULUS : length MODULUS = NLIMBS. Proof. reflexivity. Qed.
Lemma words_by_check l : forallb (fun x => (0 <=? x) && (x <? W64)) l = true -> words l.
Proof.
  intros H. apply Forall_forall. intros x Hx. rewrite forallb_forall in H. specialize (H x Hx).
  apply andb_true_iff in H as [H1 H2]. apply Z.leb_le in H1. apply Z.ltb_lt in H2. split; auto.
Qed.
Lemma words_MODULUS : words MODULUS. Proof. apply words_by_check. reflexivity. Qed.
Definition WN : Z := Wn 21.
Lemma WN_eq : Wn NLIMBS = WN. Proof. reflexivity. Qed.
Lemma WN_RR : WN = RR. Proof. vm_compute. reflexivity. Qed.
Lemma P_pos : 0 < P. Proof. reflexivity. Qed.
Lemma P_WN : 2 * P < WN. Proof. vm_compute. reflexivity. Qed.
Lemma P_bits_lo : 2 ^ 1292 < P. Proof. vm_compute. reflexivity. Qed.
Lemma P_bits_hi : P < 2 ^ 1293. Proof. vm_compute. reflexivity. Qed.
Lemma RINV_ok : (RINV * WN) mod P = 1. Proof. vm_compute. reflexivity. Qed.
Lemma P0I_ok : word P0I /\ (P0I * hd 0 MODULUS + 1) mod W64 = 0. Proof. vm_compute. intuition congruence. Qed.
#[global] Opaque P WN MODULUS.

Lemma WN_pos : 0 < WN. Proof. rewrite <- WN_eq. apply Wn_pos. Qed.

(** ** Congruence modulo P *)
Definition cg (a b : Z) : Prop := exists k, a = b + k * P.

#[global] Instance cg_equiv : Equivalence cg.
Proof.
  split.
  - intros a. exists 0. lia.
  - intros a b [k H]. exists (-k). lia.
  - intros a b c [k H] [l H']. exists (k + l). lia.
Qed.
#[global] Instance cg_add : Proper (cg ==> cg ==> cg) Z.add.
Proof. intros a b [k H] c d [l H']. exists (k + l). lia. Qed.
#[global] Instance cg_sub : Proper (cg ==> cg ==> cg) Z.sub.
Proof. intros a b [k H] c d [l H']. exists (k - l). lia. Qed.
#[global] Instance cg_opp : Proper (cg ==> cg) Z.opp.
Proof. intros a b [k H]. exists (- k). lia. Qed.
#[global] Instance cg_mul : Proper (cg ==> cg ==> cg) Z.mul.
Proof. intros a b [k H] c d [l H']. subst. exists (b * l + k * d + k * l * P). ring. Qed.

Lemma cg_mod a b : cg a b <-> a mod P = b mod P.
Proof.
  pose proof P_pos. split.
  - intros [k ->]. apply Z_mod_plus_full.
  - intros E. exists (a / P - b / P). pose proof (Z_div_mod_eq_full a P). pose proof (Z_div_mod_eq_full b P). nia.
Qed.
Lemma cg_mod_l a : cg (a mod P) a.
Proof. apply cg_mod. apply Zmod_mod. Qed.
Lemma cg_small a b : 0 <= a < P -> 0 <= b < P -> cg a b -> a = b.
Proof. intros Ha Hb H. apply cg_mod in H. rewrite !Z.mod_small in H; auto. Qed.
Lemma cg_P : cg P 0. Proof. exists 1. lia. Qed.
Lemma cg_kP k : cg (k * P) 0. Proof. exists k. lia. Qed.
Lemma cg_RINV : cg (RINV * WN) 1.
Proof. apply cg_mod. rewrite RINV_ok. symmetry. apply Z.mod_small. pose proof P_bits_lo. lia. Qed.

Lemma cg_cancel_WN a b : cg (a * WN) (b * WN) -> cg a b.
Proof.
  intros H. assert (E : cg (a * WN * RINV) (b * WN * RINV)) by (rewrite H; reflexivity).
  rewrite <- !Z.mul_assoc, (Z.mul_comm WN), cg_RINV, !Z.mul_1_r in E. exact E.
Qed.

Lemma val_range a : 0 <= val a < P.
Proof. unfold val. apply Z.mod_pos_bound. apply P_pos. Qed.
Lemma val_cg a : cg (val a * WN) (eval a).
Proof. unfold val. rewrite cg_mod_l, <- Z.mul_assoc, cg_RINV, Z.mul_1_r. reflexivity. Qed.
Lemma val_from_cg a x : cg (eval a) (x * WN) -> val a = x mod P.
Proof.
  intros H. unfold val. apply cg_mod. rewrite H, <- Z.mul_assoc, (Z.mul_comm WN), cg_RINV, Z.mul_1_r. reflexivity.
Qed.

Lemma canon_bound a : canon a -> 0 <= eval a < P.
Proof. intros (Hl & Hw & Hb). pose proof (eval_bound a Hw). lia. Qed.
Lemma eval_bound_N a : words a -> length a = NLIMBS -> 0 <= eval a < WN.
Proof. intros H Hl. pose proof (eval_bound a H). rewrite Hl, WN_eq in H0. auto. Qed.

Lemma canon_eval_inj a b : canon a -> canon b -> eval a = eval b -> a = b.
Proof. intros (Hl & Hw & _) (Hl' & Hw' & _) H. apply eval_inj; auto. congruence. Qed.

Lemma canon_inv a : canon a -> length a = NLIMBS /\ words a /\ 0 <= eval a < P.
Proof. intros H. pose proof (canon_bound a H). destruct H as (? & ? & ?). auto. Qed.

(** Two canonical elements standing for the same residue are the same limbs. *)
Lemma val_inj a b : canon a -> canon b -> val a = val b -> a = b.
Proof.
  intros Ha Hb H. apply canon_eval_inj; auto.
  apply cg_small; try apply canon_bound; auto. rewrite <- !val_cg, H. reflexivity.
Qed.

Lemma canon_zero : canon fp_zero.
Proof. split; [reflexivity|]. split; [apply words_repeat0|]. unfold fp_zero. rewrite eval_repeat0. apply P_pos. Qed.
Lemma val_zero : val fp_zero = 0.
Proof. unfold val, fp_zero. rewrite eval_repeat0. reflexivity. Qed.

(** ** Conditional addition of the modulus, and the final subtraction *)
Lemma addmask_zero t : words t -> length t = NLIMBS ->
  addmask_loop t 0 = t.
Proof.
  intros Ht Hl. unfold addmask_loop. rewrite masked_zero, len_MODULUS, <- Hl.
  destruct (add_loop t (repeat 0 (length t)) 0) as [d e] eqn:E. cbn [fst].
  apply add_loop_spec in E; auto; [|rewrite repeat_length; auto|unfold bit; lia].
  destruct E as (E & Hd & Hld & He). rewrite eval_repeat0 in E.
  apply eval_inj; auto. pose proof (eval_bound t Ht). pose proof (eval_bound d Hd). rewrite Hld in *.
  bitcase He; lia.
Qed.

Lemma addmask_ones t : words t -> length t = NLIMBS ->
  exists e, bit e /\ eval (addmask_loop t (W64 - 1)) + WN * e = eval t + P
  /\ words (addmask_loop t (W64 - 1)) /\ length (addmask_loop t (W64 - 1)) = NLIMBS.
Proof.
  intros Ht Hl. unfold addmask_loop. rewrite masked_ones by apply words_MODULUS.
  destruct (add_loop t MODULUS 0) as [d e] eqn:E. cbn [fst].
  apply add_loop_spec in E; auto; [|apply words_MODULUS|unfold bit; lia].
  destruct E as (E & Hd & Hld & He). exists e. rewrite eval_MODULUS, Hl, WN_eq in E.
  repeat split; auto; try apply He; try lia.
Qed.

Lemma wsub_bits c1 c2 : bit c1 -> bit c2 -> c1 <= c2 -> wsub c1 c2 = if c1 =? c2 then 0 else W64 - 1.
Proof. unfold bit, wsub. rewrite lo64_mod. intros. destruct (Z.eqb_spec c1 c2); unfold W64; lia. Qed.

Lemma reduce_once t c : words t -> length t = NLIMBS -> bit c -> eval t + WN * c < 2 * P ->
  forall t' c', sub_loop t MODULUS 0 = (t', c') ->
  let r := addmask_loop t' (wsub c c') in
  canon r /\ eval r = (if eval t + WN * c <? P then eval t + WN * c else eval t + WN * c - P).
Proof.
  intros Ht Hl Hc Hb t' c' E r.
  apply sub_loop_spec in E; auto; [|apply words_MODULUS|unfold bit; lia].
  destruct E as (E & Ht' & Hl' & Hc'). rewrite eval_MODULUS, Hl, WN_eq in E. rewrite Hl in Hl'.
  pose proof (eval_bound_N t Ht Hl). pose proof (eval_bound_N t' Ht' Hl'). pose proof P_WN.
  assert (Hcc : c <= c') by (bitcase Hc; bitcase Hc'; lia).
  subst r. rewrite wsub_bits by auto. destruct (Z.eqb_spec c c') as [->|Hne].
  - rewrite addmask_zero by auto. destruct (Z.ltb_spec (eval t + WN * c') P); [bitcase Hc'; lia|].
    assert (eval t' = eval t + WN * c' - P) by lia.
    split; auto. repeat split; auto; lia.
  - assert (c = 0) by (unfold bit in *; lia). assert (c' = 1) by (unfold bit in *; lia). subst.
    destruct (addmask_ones t' Ht' Hl') as (e & He & Ee & Hr & Hlr).
    set (r := addmask_loop t' (W64 - 1)) in *.
    pose proof (eval_bound_N r Hr Hlr).
    assert (Er : eval r = eval t) by (bitcase He; lia).
    destruct (Z.ltb_spec (eval t + WN * 0) P); [|lia].
    split; [repeat split; auto; lia|lia].
Qed.

Lemma reduce_once_cg t c : words t -> length t = NLIMBS -> bit c -> eval t + WN * c < 2 * P ->
  forall t' c', sub_loop t MODULUS 0 = (t', c') ->
  canon (addmask_loop t' (wsub c c')) /\ cg (eval (addmask_loop t' (wsub c c'))) (eval t + WN * c).
Proof.
  intros Ht Hl Hc Hb t' c' E. pose proof (reduce_once t c Ht Hl Hc Hb t' c' E) as [H1 H2]. cbv zeta in *.
  split; auto. rewrite H2. destruct (_ <? _); [reflexivity|]. exists (-1). lia.
Qed.

Lemma wneg_wsub c : wneg c = wsub 0 c.
Proof. reflexivity. Qed.

Lemma reduce_borrow t c : words t -> length t = NLIMBS -> bit c ->
  - P <= eval t - WN * c < P ->
  let r := addmask_loop t (wneg c) in
  canon r /\ eval r = eval t - WN * c + (if c =? 0 then 0 else P).
Proof.
  intros Ht Hl Hc Hb r. pose proof (eval_bound_N t Ht Hl). pose proof P_WN.
  subst r. rewrite wneg_bit by auto. assert (C: c = 0 \/ c = 1) by (unfold bit in *; lia).
  destruct C as [-> | ->]; cbn [Z.eqb Pos.eqb].
  - rewrite addmask_zero by auto. split; [repeat split; auto; lia|lia].
  - destruct (addmask_ones t Ht Hl) as (e & He & Ee & Hr & Hlr).
    set (r := addmask_loop t (W64 - 1)) in *.
    pose proof (eval_bound_N r Hr Hlr).
    assert (Er : eval r = eval t - WN + P) by (bitcase He; lia).
    split; [repeat split; auto; lia|lia].
Qed.

(** ** Addition, subtraction, negation *)
Lemma set_add_gen a b : words a -> words b -> length a = NLIMBS -> length b = NLIMBS ->
  eval a + eval b < 2 * P ->
  canon (set_add a b) /\ cg (eval (set_add a b)) (eval a + eval b).
Proof.
  intros Ha Hb Hla Hlb Hs. unfold set_add.
  destruct (add_loop a b 0) as [t c1] eqn:E1. destruct (sub_loop t MODULUS 0) as [t' c2] eqn:E2.
  apply add_loop_spec in E1; auto; [|congruence|unfold bit; lia].
  destruct E1 as (E1 & Ht & Hlt & Hc1). rewrite Hla, WN_eq in E1. rewrite Hla in Hlt.
  destruct (reduce_once_cg t c1 Ht Hlt Hc1 ltac:(lia) t' c2 E2) as [H1 H2].
  split; auto. rewrite H2. rewrite E1. exists 0. lia.
Qed.

Lemma set_add_ok a b : canon a -> canon b ->
  canon (set_add a b) /\ cg (eval (set_add a b)) (eval a + eval b).
Proof.
  intros Ha Hb. pose proof (canon_bound a Ha). pose proof (canon_bound b Hb).
  apply set_add_gen; try apply Ha; try apply Hb. lia.
Qed.

Lemma set_sub_ok a b : canon a -> canon b ->
  canon (set_sub a b) /\ cg (eval (set_sub a b)) (eval a - eval b).
Proof.
  intros Ha Hb. pose proof (canon_bound a Ha). pose proof (canon_bound b Hb).
  apply canon_inv in Ha as (Hla & Ha & _). apply canon_inv in Hb as (Hlb & Hb & _).
  unfold set_sub. destruct (sub_loop a b 0) as [t c] eqn:E.
  apply sub_loop_spec in E; auto; [|congruence|unfold bit; lia].
  destruct E as (E & Ht & Hlt & Hc). rewrite Hla in *. rewrite WN_eq in E.
  destruct (reduce_borrow t c Ht Hlt Hc ltac:(lia)) as [H1 H2]. cbv zeta in *.
  split; auto. rewrite H2. destruct (c =? 0); [exists 0|exists 1]; lia.
Qed.

Lemma set_neg_eq a : set_neg a = set_sub fp_zero a.
Proof. reflexivity. Qed.
Lemma set_neg_ok a : canon a -> canon (set_neg a) /\ cg (eval (set_neg a)) (- eval a).
Proof.
  intros Ha. rewrite set_neg_eq. destruct (set_sub_ok fp_zero a canon_zero Ha) as [H1 H2].
  split; auto.
Qed.

(** ** Montgomery multiplication *)
Lemma P0I_cancel x : exists k, x + wmul x P0I * hd 0 MODULUS = W64 * k.
Proof.
  destruct P0I_ok as [_ H]. apply Z.mod_divide in H; [|unfold W64; lia]. destruct H as [q Hq].
  unfold wmul. rewrite lo64_mod. exists (x * q - (x * P0I / W64) * hd 0 MODULUS).
  pose proof (Z_div_mod_eq_full (x * P0I) W64) as E.
  replace ((x * P0I) mod W64) with (x * P0I - W64 * (x * P0I / W64)) by lia.
  replace (W64 * (x * q - x * P0I / W64 * hd 0 MODULUS)) with (x * (q * W64) - W64 * (x * P0I / W64) * hd 0 MODULUS) by ring.
  rewrite <- Hq. ring.
Qed.

Lemma word_lo64 x : word (lo64 x).
Proof. rewrite lo64_mod. apply Z.mod_pos_bound. reflexivity. Qed.
Lemma word_wmul x y : word (wmul x y). Proof. apply word_lo64. Qed.
Lemma word_wadd x y : word (wadd x y). Proof. apply word_lo64. Qed.
Lemma word_wsub x y : word (wsub x y). Proof. apply word_lo64. Qed.
Lemma word_wneg x : word (wneg x). Proof. apply word_lo64. Qed.
Lemma word_wshl x y : word (wshl x y). Proof. apply word_lo64. Qed.
#[global] Hint Resolve word_lo64 word_wmul word_wadd word_wsub word_wneg word_wshl : core.

(** Splitting of a nonempty list of known length. *)
Lemma list_cons_len {A} (l : list A) n : length l = S n -> exists x l', l = x :: l' /\ length l' = n.
Proof. destruct l; [discriminate|]. intros [= H]. eauto. Qed.

Lemma MODULUS_split : exists m0 ms, MODULUS = m0 :: ms /\ length ms = 20%nat /\ word m0 /\ words ms
  /\ P = m0 + W64 * eval ms /\ hd 0 MODULUS = m0.
Proof.
  destruct (list_cons_len MODULUS 20 len_MODULUS) as (m0 & ms & E & Hl).
  exists m0, ms. pose proof words_MODULUS as H. pose proof eval_MODULUS as Ev. rewrite E in *. apply words_cons in H as [H1 H2].
  repeat split; auto; apply H1.
Qed.

Lemma Wn_S n : Wn (S n) = W64 * Wn n. Proof. reflexivity. Qed.
Lemma WN_20 : WN = W64 * Wn 20. Proof. reflexivity. Qed.

Lemma mul_step_ok a t c f : canon a -> words t -> length t = NLIMBS -> bit c -> word f ->
  eval t + WN * c < eval a + P ->
  forall t' c', mul_step a (t, c) f = (t', c') ->
  words t' /\ length t' = NLIMBS /\ bit c' /\ eval t' + WN * c' < eval a + P /\
  exists k, W64 * (eval t' + WN * c') = eval t + WN * c + eval a * f + k * P.
Proof.
  intros Ha Ht Hlt Hc Hf Hb t' c' E. pose proof (canon_bound a Ha) as Hba.
  destruct Ha as (Hla & Ha & _).
  destruct (list_cons_len a 20 Hla) as (a0 & as' & -> & Hlas).
  destruct (list_cons_len t 20 Hlt) as (t0 & ts & -> & Hlts).
  apply words_cons in Ha as [Ha0 Has]. apply words_cons in Ht as [Ht0 Hts].
  destruct MODULUS_split as (m0 & ms & EM & Hlms & Hm0 & Hms & EP & Ehd).
  unfold mul_step in E. rewrite EM in E.
  destruct (umull_add f a0 t0) as [lo cc1] eqn:E1. apply umull_add_spec in E1; auto.
  destruct E1 as (E1 & Hlo & Hcc1).
  set (g := wmul lo P0I) in *.
  assert (Hg : word g) by apply word_wmul.
  destruct (umull_add g m0 lo) as [z cc2] eqn:E2. apply umull_add_spec in E2; auto.
  destruct E2 as (E2 & Hz & Hcc2).
  destruct (mul_row f g as' ms ts cc1 cc2) as [[ds q1] q2] eqn:E3.
  apply mul_row_spec in E3; auto; try congruence.
  destruct E3 as (E3 & Hds & Hlds & Hq1 & Hq2).
  destruct (addcarry_u64 q1 q2 c) as [d ee] eqn:E4. apply addcarry_spec in E4; auto.
  destruct E4 as (E4 & Hd & Hee). injection E as <- <-.
  assert (Hz0 : z = 0).
  { destruct (P0I_cancel lo) as [k Hk]. rewrite Ehd in Hk. fold g in Hk.
    unfold word in Hz. unfold W64 in *. lia. }
  rewrite Hz0 in E2.
  rewrite eval_app, Hlds, Hlas. cbn [eval]. rewrite !eval_cons in *. rewrite Hlas in E3.
  assert (EQ : W64 * (eval ds + Wn 20 * (d + 18446744073709551616 * 0) + WN * ee)
      = t0 + W64 * eval ts + WN * c + (a0 + W64 * eval as') * f + g * P).
  { rewrite EP. rewrite WN_20. unfold W64 in *. nia. }
  assert (0 <= eval ds) by (pose proof (eval_bound ds Hds); lia).
  repeat split; auto.
  - apply words_app; split; auto. apply words_cons; auto.
  - rewrite app_length; cbn [length]; rewrite Hlds, Hlas. reflexivity.
  - apply Hee.
  - apply Hee.
  - change (0) with (18446744073709551616 * 0) in EQ at 1. unfold word in *. pose proof P_pos. unfold W64 in *. nia.
  - exists g. exact EQ.
Qed.

Lemma mul_loop_ok a b : canon a -> words b -> forall t c, words t -> length t = NLIMBS -> bit c ->
  eval t + WN * c < eval a + P ->
  forall t' c', fold_left (mul_step a) b (t, c) = (t', c') ->
  words t' /\ length t' = NLIMBS /\ bit c' /\ eval t' + WN * c' < eval a + P /\
  exists k, Wn (length b) * (eval t' + WN * c') = eval t + WN * c + eval a * eval b + k * P.
Proof.
  intros Ha. induction b as [|f b IH]; intros Hwb t c Ht Hl Hc Hb t' c' E.
  - cbn [fold_left] in E. injection E as <- <-. repeat split; auto; try apply Hc.
    exists 0. cbn [length Wn eval]. lia.
  - cbn [fold_left] in E. apply words_cons in Hwb as [Hf Hwb].
    destruct (mul_step a (t, c) f) as [t1 c1] eqn:E1.
    destruct (mul_step_ok a t c f Ha Ht Hl Hc Hf Hb _ _ E1) as (Ht1 & Hl1 & Hc1 & Hb1 & k1 & K1).
    destruct (IH Hwb t1 c1 Ht1 Hl1 Hc1 Hb1 _ _ E) as (Ht2 & Hl2 & Hc2 & Hb2 & k2 & K2).
    repeat split; auto; try apply Hc2.
    exists (k1 + W64 * k2). cbn [length Wn]. rewrite eval_cons.
    rewrite <- Z.mul_assoc, K2.
    replace (W64 * (eval t1 + WN * c1 + eval a * eval b + k2 * P)) with
      (W64 * (eval t1 + WN * c1) + W64 * (eval a * eval b + k2 * P)) by ring.
    rewrite K1. ring.
Qed.

Lemma set_mul_ok a b : canon a -> words b -> length b = NLIMBS ->
  canon (set_mul a b) /\ cg (eval (set_mul a b) * WN) (eval a * eval b).
Proof.
  intros Ha Hb Hlb. unfold set_mul. pose proof (canon_bound a Ha). pose proof P_pos.
  destruct (fold_left (mul_step a) b (fp_zero, 0)) as [t c] eqn:E.
  destruct (sub_loop t MODULUS 0) as [t' c'] eqn:E'.
  apply mul_loop_ok in E; auto; try apply canon_zero; [|unfold bit; lia|unfold fp_zero; rewrite eval_repeat0; lia].
  destruct E as (Ht & Hl & Hc & Hbt & k & K).
  destruct (reduce_once_cg t c Ht Hl Hc ltac:(lia) t' c' E') as [H1 H2].
  split; auto. rewrite H2, Z.mul_comm. rewrite Hlb, WN_eq in K. rewrite K.
  unfold fp_zero. rewrite eval_repeat0. exists k. lia.
Qed.

Lemma set_mul_canon a b : canon a -> canon b -> canon (set_mul a b) /\ cg (eval (set_mul a b) * WN) (eval a * eval b).
Proof. intros Ha Hb. apply set_mul_ok; auto; apply Hb. Qed.

(** ** Montgomery reduction *)
Lemma monty_step_ok t : words t -> length t = NLIMBS ->
  words (monty_step t) /\ length (monty_step t) = NLIMBS /\
  exists k, 0 <= k < W64 /\ W64 * eval (monty_step t) = eval t + k * P.
Proof.
  intros Ht Hl. destruct (list_cons_len t 20 Hl) as (t0 & ts & -> & Hlts).
  apply words_cons in Ht as [Ht0 Hts].
  destruct MODULUS_split as (m0 & ms & EM & Hlms & Hm0 & Hms & EP & Ehd).
  unfold monty_step. rewrite EM. set (f := wmul t0 P0I).
  assert (Hf : word f) by apply word_wmul.
  destruct (umull_add f m0 t0) as [z cc] eqn:E1. apply umull_add_spec in E1; auto.
  destruct E1 as (E1 & Hz & Hcc).
  destruct (row_add2 f ms ts cc) as [ds hi] eqn:E2. apply row_add2_spec in E2; auto; [|congruence].
  destruct E2 as (E2 & Hds & Hlds & Hhi).
  assert (Hz0 : z = 0).
  { destruct (P0I_cancel t0) as [k Hk]. rewrite Ehd in Hk. fold f in Hk. unfold word in Hz. unfold W64 in *. lia. }
  subst z. repeat split.
  - apply words_app; split; auto. apply words_cons; auto.
  - rewrite app_length; cbn [length]. rewrite Hlds, Hlms. reflexivity.
  - exists f. split; [exact Hf|]. rewrite eval_app, Hlds, Hlms. cbn [eval]. rewrite Hlms in E2.
    rewrite EP. unfold W64 in *. nia.
Qed.

Lemma monty_iter_ok n : forall t, words t -> length t = NLIMBS ->
  words (iter n monty_step t) /\ length (iter n monty_step t) = NLIMBS /\
  exists k, 0 <= k < Wn n /\ Wn n * eval (iter n monty_step t) = eval t + k * P.
Proof.
  induction n; intros t Ht Hl; cbn [iter Wn].
  - repeat split; auto. exists 0. lia.
  - destruct (monty_step_ok t Ht Hl) as (H1 & H2 & k & Hk & E).
    destruct (IHn _ H1 H2) as (H3 & H4 & k' & Hk' & E').
    repeat split; auto. exists (k + W64 * k'). pose proof (Wn_pos n). split; [nia|].
    rewrite <- Z.mul_assoc, E'.
    replace (W64 * (eval (monty_step t) + k' * P)) with (W64 * eval (monty_step t) + W64 * (k' * P)) by ring.
    rewrite E. ring.
Qed.

Lemma set_montyred_ok t : words t -> length t = NLIMBS ->
  words (set_montyred t) /\ length (set_montyred t) = NLIMBS /\ eval (set_montyred t) <= P /\
  (eval t < P -> eval (set_montyred t) < P) /\
  cg (eval (set_montyred t) * WN) (eval t).
Proof.
  intros Ht Hl. unfold set_montyred.
  destruct (monty_iter_ok NLIMBS t Ht Hl) as (Hw & Hlen & k & Hk & E).
  rewrite WN_eq in *. pose proof (eval_bound_N t Ht Hl). pose proof (eval_bound_N _ Hw Hlen). pose proof P_WN.
  set (x := eval (iter NLIMBS monty_step t)) in *.
  pose proof P_pos. assert (K : k * P <= (WN - 1) * P) by (apply Z.mul_le_mono_nonneg_r; lia).
  repeat split; auto.
  - assert (WN * x < WN * (P + 1)) by lia. apply Z.mul_lt_mono_pos_l in H3; [lia|apply WN_pos].
  - intros. assert (L : WN * x < WN * P) by lia. apply Z.mul_lt_mono_pos_l in L; [lia|apply WN_pos].
  - exists k. lia.
Qed.

Lemma set_montyred_val a : canon a -> canon (set_montyred a) /\ eval (set_montyred a) = val a.
Proof.
  intros Ha. pose proof (canon_bound a Ha). destruct Ha as (Hl & Ha & Hb).
  destruct (set_montyred_ok a Ha Hl) as (H1 & H2 & _ & H3 & H4).
  split; [repeat split; auto|]. pose proof (eval_bound _ H1).
  apply cg_small; [lia|apply val_range|]. apply cg_cancel_WN. rewrite H4, val_cg. reflexivity.
Qed.
