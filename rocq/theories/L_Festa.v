(** Lemmas for festa.rs and canonical kernels: normalisation of the recovered matrix, padding of integers, canonical scalars. *)
From Coq Require Import Arith ZArith List Bool Lia Znumtheory.
From Verif Require Import S_Fp S_Dlog M_Fp M_Fp2 M_Field M_Curve M_Dlog M_Super M_Super2 M_Festa L_Words L_FpCodec L_Ints L_Dlog.
Import ListNotations.
Open Scope Z_scope.

(** ** Powers and coprimality *)
Lemma gcd_pow_1 a l e : 0 <= e -> Z.gcd a l = 1 -> Z.gcd a (l ^ e) = 1.
Proof.
  intros He G. revert e He. apply natlike_ind; [apply Z.gcd_1_r|]. intros e He IH. rewrite Z.pow_succ_r by lia. apply Zgcd_1_rel_prime, rel_prime_mult; apply Zgcd_1_rel_prime; auto.
Qed.
Lemma odd_gcd_pow2 a e : 0 <= e -> Z.odd a = true -> Z.gcd a (2 ^ e) = 1.
Proof.
  intros He Ho. apply gcd_pow_1; auto. apply Z.odd_spec in Ho. destruct Ho as [k ->]. rewrite Z.gcd_comm, Z.add_comm, Z.mul_comm, Z.gcd_add_mult_diag_r. reflexivity.
Qed.
Lemma odd_mod_pow2 a e : 1 <= e -> Z.odd (a mod 2 ^ e) = Z.odd a.
Proof.
  intros He. rewrite (Z.div_mod a (2 ^ e)) at 2 by (apply Z.pow_nonzero; lia). rewrite Z.odd_add, Z.odd_mul.
  replace (Z.odd (2 ^ e)) with false; [cbn; destruct (Z.odd (a mod 2 ^ e)); reflexivity|]. replace e with (Z.succ (e - 1)) by lia. rewrite Z.pow_succ_r by lia. rewrite Z.odd_mul. reflexivity.
Qed.

(** ** normalise_diagB *)
Section Diag.
Context {F : Type} (self : festa F) (e : Z) (He : 1 <= e) (Hl : fe_l self = 2 ^ e).
Lemma half_l : 2 ^ e = 2 * 2 ^ (e - 1) /\ 0 < 2 ^ (e - 1).
Proof. split; [|apply Z.pow_pos_nonneg; lia]. replace e with (Z.succ (e - 1)) at 1 by lia. apply Z.pow_succ_r. lia. Qed.
Lemma norm_ok alpha : Z.odd (fe_inv self * alpha) = true ->
  exists x y, normalise_diagB self alpha = Some (x, y) /\ 0 < x <= 2 ^ (e - 1) /\ 0 < y < 2 ^ e /\ (2 ^ e | x * y - 1) /\
    ((2 ^ e | x - fe_inv self * alpha) \/ (2 ^ e | x + fe_inv self * alpha)).
Proof.
  intros Ho. destruct half_l as [E2 Hp]. set (l := 2 ^ e) in *. set (h := 2 ^ (e - 1)) in *.
  unfold normalise_diagB. rewrite Hl. fold l. replace (l =? 0) with false by (symmetry; apply Z.eqb_neq; lia). cbv zeta.
  set (a := (fe_inv self * alpha) mod l). assert (Ba : 0 <= a < l) by (apply Z.mod_pos_bound; lia).
  assert (Oa : Z.odd a = true) by (unfold a, l; rewrite odd_mod_pow2 by lia; exact Ho).
  assert (Da : (l | a - fe_inv self * alpha)) by (exists (- (fe_inv self * alpha / l)); unfold a; rewrite Z.mod_eq by lia; ring).
  assert (Na : a <> 0) by (intros C; rewrite C in Oa; discriminate).
  destruct (xgcd_big_ok a l ltac:(lia) ltac:(lia)) as (r & Er & Br & k & Dr). unfold l in Dr. rewrite odd_gcd_pow2 in Dr by (auto; lia). fold l in Dr. rewrite Er. cbn [obind]. rewrite Z.mod_small by lia.
  assert (Nr : r <> 0) by (intros ->; assert (l * -k = 1) by lia; assert (h * (2 * - k) = 1) by lia; destruct (Z.mul_eq_1 _ _ H0); lia).
  assert (Sh : Z.shiftr l 1 = h) by (rewrite Z.shiftr_div_pow2 by lia; change (2 ^ 1) with 2; rewrite E2, Z.mul_comm, Z.div_mul by lia; reflexivity). rewrite Sh.
  destruct (Z.ltb_spec h a).
  - exists (l - a), (l - r). split; [reflexivity|]. split; [lia|]. split; [lia|]. split.
    + exists (l - a - r + k). replace ((l - a) * (l - r) - 1) with (l * (l - a - r) + (a * r - 1)) by ring. rewrite Dr. ring.
    + right. destruct Da as [d Da]. exists (1 - d). lia.
  - exists a, r. split; [reflexivity|]. split; [lia|]. split; [lia|]. split; [exists k; lia|left; exact Da].
Qed.
(** the pair is determined by inv * alpha up to sign *)
Lemma inv_unique l a r r' : 0 < l -> (l | a * r - 1) -> (l | a * r' - 1) -> 0 <= r < l -> 0 <= r' < l -> r = r'.
Proof.
  intros Hp [k Hk] [k' Hk'] B B'. assert (D : (l | r - r')). { exists (k * (r - r') * -1 + r * (k - k')). nia. }
  destruct D as [d Hd]. assert (d = 0) by nia. lia.
Qed.
Lemma norm_sign alpha alpha' : Z.odd (fe_inv self * alpha) = true -> ((2 ^ e | alpha - alpha') \/ (2 ^ e | alpha + alpha')) -> normalise_diagB self alpha' = normalise_diagB self alpha.
Proof.
  intros Ho Hs. destruct half_l as [E2 Hp]. assert (Oa : Z.odd (fe_inv self * alpha') = true).
  { revert Ho. rewrite !Z.odd_mul. destruct (Z.odd (fe_inv self)); [cbn|discriminate]. intros O.
    destruct Hs as [[d D]|[d D]]; [replace alpha' with (alpha - 2 * (d * 2 ^ (e - 1))) by lia|replace alpha' with (2 * (d * 2 ^ (e - 1)) - alpha) by lia]; rewrite Z.odd_sub, Z.odd_mul, O; reflexivity. }
  destruct (norm_ok alpha Ho) as (x & y & -> & Bx & By & Dxy & Sx). destruct (norm_ok alpha' Oa) as (x' & y' & -> & Bx' & By' & Dxy' & Sx').
  set (l := 2 ^ e) in *. set (h := 2 ^ (e - 1)) in *. assert (X : x = x').
  { assert (S2 : (l | x - x') \/ (l | x + x')).
    { assert (Hi : (l | fe_inv self * alpha - fe_inv self * alpha') \/ (l | fe_inv self * alpha + fe_inv self * alpha')) by (destruct Hs as [Hs|Hs]; [left; rewrite <- Z.mul_sub_distr_l|right; rewrite <- Z.mul_add_distr_l]; apply Z.divide_mul_r; exact Hs).
      revert Sx Sx' Hi. generalize (fe_inv self * alpha), (fe_inv self * alpha'). clear. intros p q Sx Sx' Hi.
      destruct Hi as [[d D]|[d D]], Sx as [[u U]|[u U]], Sx' as [[w W]|[w W]];
      first [left; exists (u - w + d); lia|left; exists (u - w - d); lia|right; exists (u + w + d); lia|right; exists (u + w - d); lia]. }
    destruct S2 as [[d D]|[d D]]; [assert (d = 0) by (clear - D Bx Bx' E2; nia); lia|]. assert (x + x' <= l) by lia. assert (0 < x + x') by lia. assert (d = 1) by (clear - D H H0; nia). lia. }
  subst x'. f_equal. f_equal. apply (inv_unique l x); auto; lia.
Qed.
End Diag.

(** ** Little-endian integers, padded *)
Lemma Bn_pow' n : Bn n = 2 ^ (8 * Z.of_nat n).
Proof. induction n; [reflexivity|]. rewrite Bn_S, IHn, Nat2Z.inj_succ. replace (8 * Z.succ (Z.of_nat n)) with (8 + 8 * Z.of_nat n) by lia. rewrite Z.pow_add_r by lia. reflexivity. Qed.
Lemma to_bytes_ok n : 0 <= n -> bytes (to_bytes_le n) /\ le_value (to_bytes_le n) = n /\ (forall k, (0 < k)%nat -> n < Bn k -> (length (to_bytes_le n) <= k)%nat) /\ (forall k, Bn k <= n -> (k < length (to_bytes_le n))%nat).
Proof.
  intros Hn. unfold to_bytes_le. destruct (Z.eqb_spec n 0) as [->|N].
  - split; [repeat constructor; unfold byte; lia|]. split; [reflexivity|]. split; [intros k Hk _; cbn; lia|]. intros k Hk. exfalso. rewrite Bn_pow' in Hk. assert (0 < 2 ^ (8 * Z.of_nat k)) by (apply Z.pow_pos_nonneg; lia). lia.
  - pose proof (Z.log2_spec n ltac:(lia)) as [L1 L2]. pose proof (Z.log2_nonneg n) as L0. set (m := (Z.log2 n + 8) / 8). assert (Bm : 8 * m <= Z.log2 n + 8 < 8 * m + 8) by (unfold m; pose proof (Z.div_mod (Z.log2 n + 8) 8); pose proof (Z.mod_pos_bound (Z.log2 n + 8) 8); lia).
    destruct (le_bytes_ok (Z.to_nat m) n Hn) as (A & B & C). split; [exact A|]. split; [apply C; rewrite Bn_pow', Z2Nat.id by lia; apply Z.lt_le_trans with (1 := L2), Z.pow_le_mono_r; lia|]. rewrite B. split.
    + intros k _ Hk. rewrite Bn_pow' in Hk. assert (Z.log2 n < 8 * Z.of_nat k) by (apply (Z.pow_lt_mono_r_iff 2); lia). lia.
    + intros k Hk. rewrite Bn_pow' in Hk. assert (8 * Z.of_nat k < Z.succ (Z.log2 n)) by (apply (Z.pow_lt_mono_r_iff 2); lia). lia.
Qed.
Lemma pad82_ok n : 0 <= n < 2 ^ 656 -> exists b, pad82 n = Some b /\ bytes b /\ length b = 82%nat /\ le_value b = n.
Proof.
  intros Hn. destruct (to_bytes_ok n ltac:(lia)) as (A & B & C & _). pose proof (C 82%nat ltac:(lia) ltac:(rewrite Bn_pow'; apply Hn)) as L. unfold pad82. replace (Nat.ltb 82 (length (to_bytes_le n))) with false by (symmetry; apply Nat.ltb_ge; exact L).
  eexists. split; [reflexivity|]. split; [apply bytes_app; split; [exact A|]; clear; induction (82 - length (to_bytes_le n))%nat; cbn [repeat]; constructor; auto; unfold byte; lia|].
  split; [rewrite app_length, repeat_length; lia|]. rewrite le_value_app, le_value_repeat0, B. ring.
Qed.
Lemma pad82_big n : 2 ^ 656 <= n -> pad82 n = None.
Proof.
  intros Hn. destruct (to_bytes_ok n) as (_ & _ & _ & D); [apply Z.le_trans with (2 := Hn), Z.pow_nonneg; lia|]. specialize (D 82%nat ltac:(rewrite Bn_pow'; exact Hn)). unfold pad82. apply Nat.ltb_lt in D. rewrite D. reflexivity.
Qed.

(** ** Canonical scalars *)
Lemma unfactored_ok fs : unfactored fs = fprod fs.
Proof. unfold unfactored. rewrite crt_modulus_ok'. ring. Qed.
Definition coeff_ok (a1 a2 : Z) (fs : list (Z * Z)) : Prop := Forall (fun f => prime (fst f) /\ 1 <= snd f /\ (~ (fst f | a1) \/ ~ (fst f | a2))) fs.
Lemma prime_gcd l a : prime l -> ~ (l | a) -> Z.gcd a l = 1.
Proof. intros Hp N. apply Zgcd_1_rel_prime, rel_prime_sym, prime_rel_prime; auto. Qed.
Lemma coeffs_ok a1 a2 fs : 0 <= a1 -> 0 <= a2 -> coeff_ok a1 a2 fs -> exists t1 t2, canonical_coeffs a1 a2 fs = Some (t1, t2) /\ length t1 = length fs /\ length t2 = length fs /\
  forall x y, cong_all x t1 fs -> cong_all y t2 fs -> Forall (fun f => (fst f ^ snd f | x * a1 + y * a2 - 1)) fs.
Proof.
  intros H1 H2. induction fs as [|[l e] fs IH]; intros C.
  - exists [], []. repeat split; auto.
  - inversion C as [|? ? (Pl & He & Hd) C']; subst. cbn [fst snd] in *. destruct (IH C') as (t1 & t2 & E & L1 & L2 & G). pose proof (prime_ge_2 _ Pl) as L2'.
    assert (Hp : 0 < l ^ e) by (apply Z.pow_pos_nonneg; lia).
    cbn [canonical_coeffs fst]. replace (l =? 0) with false by (symmetry; apply Z.eqb_neq; lia). unfold bpow. cbn [fst snd].
    destruct (Z.eqb_spec (a1 mod l) 0) as [D1|D1].
    + assert (N2 : ~ (l | a2)) by (destruct Hd as [Hd|Hd]; [exfalso; apply Hd, Z.mod_divide; auto; lia|exact Hd]).
      destruct (xgcd_big_ok a2 (l ^ e) H2 Hp) as (r & Er & Br & Dr). rewrite (gcd_pow_1 a2 l e) in Dr by (try lia; apply prime_gcd; auto). rewrite Er. cbn [obind]. rewrite E. cbn [obind fst snd].
      exists (0 :: t1), (r :: t2). split; [reflexivity|]. split; [cbn; lia|]. split; [cbn; lia|]. intros x y [X1 X2] [Y1 Y2]. constructor; [cbn [fst snd]|apply G; auto].
      destruct X1 as [u U], Y1 as [w W], Dr as [k K]. exists (u * a1 + w * a2 + k). replace x with (u * l ^ e) by lia. replace y with (r + w * l ^ e) by lia. replace (u * l ^ e * a1 + (r + w * l ^ e) * a2 - 1) with (a2 * r - 1 + (u * a1 + w * a2) * l ^ e) by ring. rewrite K. ring.
    + assert (N1 : ~ (l | a1)) by (intros D; apply D1, Z.mod_divide; auto; lia).
      destruct (xgcd_big_ok a1 (l ^ e) H1 Hp) as (r & Er & Br & Dr). rewrite (gcd_pow_1 a1 l e) in Dr by (try lia; apply prime_gcd; auto). rewrite Er. cbn [obind]. rewrite E. cbn [obind fst snd].
      exists (r :: t1), (0 :: t2). split; [reflexivity|]. split; [cbn; lia|]. split; [cbn; lia|]. intros x y [X1 X2] [Y1 Y2]. constructor; [cbn [fst snd]|apply G; auto].
      destruct X1 as [u U], Y1 as [w W], Dr as [k K]. exists (u * a1 + w * a2 + k). replace y with (w * l ^ e) by lia. replace x with (r + u * l ^ e) by lia. replace ((r + u * l ^ e) * a1 + w * l ^ e * a2 - 1) with (a1 * r - 1 + (u * a1 + w * a2) * l ^ e) by ring. rewrite K. ring.
Qed.
Lemma canonical_ok a1 b1 a2 b2 s fs : 0 <= a1 -> 0 <= a2 -> coeff_ok a1 a2 fs -> fcoprime fs -> (fprod fs | b1 - s * a1) -> (fprod fs | b2 - s * a2) ->
  canonical_scalar a1 b1 a2 b2 fs = Some (s mod fprod fs).
Proof.
  intros H1 H2 C Co D1 D2. assert (Fp : fpos fs). { eapply Forall_impl; [|exact C]. intros [l e] (Pl & He & _). cbn [fst snd] in *. pose proof (prime_ge_2 _ Pl). apply Z.pow_pos_nonneg; lia. }
  destruct (coeffs_ok a1 a2 fs H1 H2 C) as (t1 & t2 & E & L1 & L2 & G). unfold canonical_scalar. rewrite E. cbn [obind fst snd].
  destruct (compute_crt_ok t1 fs Fp Co ltac:(lia)) as (x & Ex & _ & Cx). destruct (compute_crt_ok t2 fs Fp Co ltac:(lia)) as (y & Ey & _ & Cy). rewrite Ex, Ey. cbn [obind].
  pose proof (fprod_pos fs Fp) as Hn. rewrite unfactored_ok. replace (fprod fs =? 0) with false by (symmetry; apply Z.eqb_neq; lia).
  pose proof (fprod_divide fs (x * a1 + y * a2 - 1) Fp Co (G x y Cx Cy)) as [k K]. destruct D1 as [u U], D2 as [w W]. f_equal. replace (x * b1 + y * b2) with (s + (s * k + x * u + y * w) * fprod fs); [apply Z.mod_add; lia|].
  replace b1 with (s * a1 + u * fprod fs) by lia. replace b2 with (s * a2 + w * fprod fs) by lia. replace (x * (s * a1 + u * fprod fs) + y * (s * a2 + w * fprod fs)) with (s * (x * a1 + y * a2 - 1) + s + (x * u + y * w) * fprod fs) by ring. rewrite K. ring.
Qed.
