(** The laws a field implementation must satisfy with respect to a field [K] through a valuation [v]; the well-formed elements of the
    quadratic extension ([fq]) with the limb-level functions of M_Fp2.v satisfy them with [K] = GF(P)[i]. *)
From Coq Require Import ZArith List Bool Ring Field Lia.
From Verif Require Import S_Fp S_Fp2 M_Utils64 M_Consts M_Fp M_Fp2 M_Field L_Words L_Fp L_FpOps L_FpSmall L_Zp L_Zp2 L_FpCodec L_FpRoots L_FpDiv L_Fp2 L_Fp2Roots L_Fp2Misc.
Import ListNotations.

Definition ksq {K} (kmul : K -> K -> K) (x : K) : Prop := exists z, kmul z z = x.
Definition kpow {K} (k1 : K) (kmul : K -> K -> K) (x : K) (e : Z) : K := Nat.iter (Z.to_nat e) (kmul x) k1.

Record flaws {F} (o : fops F) {K} (k0 k1 : K) (kadd kmul ksub : K -> K -> K) (kopp : K -> K) (kdiv : K -> K -> K) (kinv : K -> K) (keq : K -> K -> bool)
  (v : F -> K) : Prop := {
  l_ft : field_theory k0 k1 kadd kmul ksub kopp kdiv kinv (@eq K);
  l_keq : forall x y, keq x y = true <-> x = y;
  l_two_nz : kadd k1 k1 <> k0;
  l_three_nz : kadd (kadd k1 k1) k1 <> k0;
  l_inv0 : kinv k0 = k0;
  l_zero : v (fzero o) = k0;
  l_one : v (fone o) = k1;
  l_two : v (ftwo o) = kadd k1 k1;
  l_three : v (fthree o) = kadd (kadd k1 k1) k1;
  l_four : v (ffour o) = kadd (kadd k1 k1) (kadd k1 k1);
  l_zeta : kmul (v (fzeta o)) (v (fzeta o)) = kopp k1;
  l_add : forall x y, v (fadd o x y) = kadd (v x) (v y);
  l_sub : forall x y, v (fsub o x y) = ksub (v x) (v y);
  l_neg : forall x, v (fneg o x) = kopp (v x);
  l_mul : forall x y, v (fmul o x y) = kmul (v x) (v y);
  l_sq : forall x, v (fsq o x) = kmul (v x) (v x);
  l_half : forall x, v (fhalf o x) = kdiv (v x) (kadd k1 k1);
  l_mul2 : forall x, v (fmul2 o x) = kmul (kadd k1 k1) (v x);
  l_mul3 : forall x, v (fmul3 o x) = kmul (kadd (kadd k1 k1) k1) (v x);
  l_mul4 : forall x, v (fmul4 o x) = kmul (kadd (kadd k1 k1) (kadd k1 k1)) (v x);
  l_mul8 : forall x, v (fmul8 o x) = kmul (kmul (kadd k1 k1) (kadd (kadd k1 k1) (kadd k1 k1))) (v x);
  l_inv : forall x, v (finv o x) = kinv (v x);
  l_div : forall x y, v (fdiv o x y) = kdiv (v x) (v y);
  l_is0 : forall x, fis0 o x = keq (v x) k0;
  l_eqb : forall x y, feqb o x y = keq (v x) (v y);
  l_cond : forall x y b, v (fcond o x y b) = if b : bool then v y else v x;
  l_cneg : forall x b, v (fcneg o x b) = if b : bool then kopp (v x) else v x;
  l_swap : forall x y b, fswap o x y b = if b : bool then (y, x) else (x, y);
  l_sqrt : forall x, (snd (fsqrt o x) = true <-> ksq kmul (v x)) /\ (snd (fsqrt o x) = true -> kmul (v (fst (fsqrt o x))) (v (fst (fsqrt o x))) = v x) /\
    (snd (fsqrt o x) = false -> v (fst (fsqrt o x)) = k0);
  l_leg : forall x, (v x = k0 -> fleg o x = 0%Z) /\ (v x <> k0 -> ksq kmul (v x) -> fleg o x = 1%Z) /\ (~ ksq kmul (v x) -> fleg o x = (-1)%Z);
  l_ksq_dec : forall x, ksq kmul x \/ ~ ksq kmul x;
  l_pow : forall x e, (0 <= e)%Z -> v (fpow o x e) = kpow k1 kmul (v x) e;
  l_pow_small : forall x e, (0 <= e < 2 ^ 32)%Z -> v (fpow_small o x e) = kpow k1 kmul (v x) e }.

(** ** The instance *)
Open Scope Z_scope.
Definition canonb (a : list Z) : bool := (Nat.eqb (length a) 21) && forallb (fun x => (0 <=? x) && (x <? 18446744073709551616)) a && (eval a <? P).
Lemma canonb_ok a : canonb a = true <-> canon a.
Proof.
  unfold canonb, canon. rewrite !andb_true_iff, Nat.eqb_eq, Z.ltb_lt, forallb_forall. unfold words, word. rewrite Forall_forall.
  split; [intros [[A B] C]|intros (A & B & C)]; repeat split; auto; try (intros x Hx; specialize (B x Hx)); try apply andb_true_iff in B; try apply andb_true_iff; rewrite ?Z.leb_le, ?Z.ltb_lt in *; auto.
  all: apply B in H; apply andb_true_iff in H; rewrite Z.leb_le, Z.ltb_lt in H; apply H.
Qed.
Definition canon2b (x : fp2) : bool := canonb (fst x) && canonb (snd x).
Lemma canon2b_ok x : canon2b x = true <-> canon2 x.
Proof. unfold canon2b, canon2. rewrite andb_true_iff, !canonb_ok. reflexivity. Qed.

(** well-formed elements; equality of elements is equality of their limbs *)
Definition fq : Type := { x : fp2 | canon2b x = true }.
Definition fq_c (x : fq) : canon2 (proj1_sig x) := proj1 (canon2b_ok _) (proj2_sig x).
Definition mkq (x : fp2) (H : canon2 x) : fq := exist _ x (proj2 (canon2b_ok x) H).
Lemma fq_eq (x y : fq) : proj1_sig x = proj1_sig y -> x = y.
Proof. destruct x as [x Hx], y as [y Hy]. cbn. intros ->. f_equal. apply Eqdep_dec.UIP_dec. decide equality. Qed.
(** for functions that are only used on arguments for which the result is well formed (see [clamp_ok]) *)
Definition clamp (x : fp2) : fq :=
  match bool_dec (canon2b x) true with left H => exist _ x H | right _ => mkq f2_zero canon2_zero end.
Lemma clamp_ok x : canon2 x -> proj1_sig (clamp x) = x.
Proof. intros H. unfold clamp. destruct (bool_dec (canon2b x) true) as [E|N]; [reflexivity|]. exfalso. apply N, canon2b_ok, H. Qed.
Definition l1 (f : fp2 -> fp2) (H : forall x, canon2 x -> canon2 (f x)) (x : fq) : fq := mkq (f (proj1_sig x)) (H _ (fq_c x)).
Definition l2 (f : fp2 -> fp2 -> fp2) (H : forall x y, canon2 x -> canon2 y -> canon2 (f x y)) (x y : fq) : fq := mkq (f (proj1_sig x) (proj1_sig y)) (H _ _ (fq_c x) (fq_c y)).
Lemma cq_add x y : canon2 x -> canon2 y -> canon2 (f2_add x y). Proof. apply f2_add_ok. Qed.
Lemma cq_sub x y : canon2 x -> canon2 y -> canon2 (f2_sub x y). Proof. apply f2_sub_ok. Qed.
Lemma cq_neg x : canon2 x -> canon2 (f2_neg x). Proof. apply f2_neg_ok. Qed.
Lemma cq_half x : canon2 x -> canon2 (f2_half x). Proof. apply f2_half_ok. Qed.
Lemma cq_mul2 x : canon2 x -> canon2 (f2_mul2 x). Proof. apply f2_mul2_ok. Qed.
Lemma cq_mul3 x : canon2 x -> canon2 (f2_mul3 x). Proof. apply f2_mul3_ok. Qed.
Lemma cq_mul4 x : canon2 x -> canon2 (f2_mul4 x). Proof. apply f2_mul4_ok. Qed.
Lemma cq_mul8 x : canon2 x -> canon2 (f2_mul8 x). Proof. apply f2_mul8_ok. Qed.
Lemma cq_cond b x y : canon2 x -> canon2 y -> canon2 (f2_set_cond x y (mask32 b)).
Proof. intros. rewrite f2_set_cond_mask by auto. destruct b; auto. Qed.
Lemma cq_cneg b x : canon2 x -> canon2 (f2_set_condneg x (mask32 b)).
Proof. intros. rewrite f2_set_condneg_mask by auto. destruct b; auto using cq_neg. Qed.
Lemma cq_swap1 b x y : canon2 x -> canon2 y -> canon2 (fst (f2_condswap x y (mask32 b))).
Proof. intros. rewrite f2_condswap_mask by auto. destruct b; auto. Qed.
Lemma cq_swap2 b x y : canon2 x -> canon2 y -> canon2 (snd (f2_condswap x y (mask32 b))).
Proof. intros. rewrite f2_condswap_mask by auto. destruct b; auto. Qed.
Lemma cq_sqrt x : canon2 x -> canon2 (fst (f2_sqrt x)).
Proof. intros H. destruct (f2_sqrt_ok x H) as (r & b & E & Cr & _). rewrite E. exact Cr. Qed.
Lemma cq_two : canon2 f2_two. Proof. split; [exact canon_two|exact canon_zero]. Qed.
Lemma cq_three : canon2 f2_three. Proof. split; [exact canon_three|exact canon_zero]. Qed.
Lemma cq_four : canon2 f2_four. Proof. split; [exact canon_four|exact canon_zero]. Qed.
Lemma cq_zeta : canon2 f2_zeta. Proof. split; [exact canon_zero|exact canon_one]. Qed.

Definition fq_ops : fops fq := {|
  fzero := mkq f2_zero canon2_zero; fone := mkq f2_one canon2_one; ftwo := mkq f2_two cq_two; fthree := mkq f2_three cq_three; ffour := mkq f2_four cq_four; fzeta := mkq f2_zeta cq_zeta;
  fadd := l2 f2_add cq_add; fsub := l2 f2_sub cq_sub; fneg := l1 f2_neg cq_neg; fmul := l2 f2_mul cn2_mul; fsq := l1 f2_square cn2_square;
  fhalf := l1 f2_half cq_half; fmul2 := l1 f2_mul2 cq_mul2; fmul3 := l1 f2_mul3 cq_mul3; fmul4 := l1 f2_mul4 cq_mul4; fmul8 := l1 f2_mul8 cq_mul8;
  finv := l1 f2_invert cn2_invert; fdiv := l2 f2_div cn2_div;
  fis0 := fun x => fis0 raw_ops (proj1_sig x); feqb := fun x y => feqb raw_ops (proj1_sig x) (proj1_sig y);
  fcond := fun x y b => l2 (fun x y => f2_set_cond x y (mask32 b)) (cq_cond b) x y; fcneg := fun x b => l1 (fun x => f2_set_condneg x (mask32 b)) (cq_cneg b) x;
  fswap := fun x y b => (l2 (fun x y => fst (f2_condswap x y (mask32 b))) (cq_swap1 b) x y, l2 (fun x y => snd (f2_condswap x y (mask32 b))) (cq_swap2 b) x y);
  fsqrt := fun x => (l1 (fun x => fst (f2_sqrt x)) cq_sqrt x, negb (snd (f2_sqrt (proj1_sig x)) =? 0)); fleg := fun x => f2_legendre (proj1_sig x);
  fpow := fun x e => clamp (fpow raw_ops (proj1_sig x) e); fpow_small := fun x e => clamp (fpow_small raw_ops (proj1_sig x) e);
  frand := fun rng => match f2_rand rng with Some (x, rng') => Some (clamp x, rng') | None => None end;
  fenc := fun x => f2_encode (proj1_sig x); fdec := fun buf => (clamp (fst (f2_decode buf)), negb (snd (f2_decode buf) =? 0)) |}.
Definition fqv (x : fq) : Zq := fv2 (proj1_sig x).

Lemma mask_nz b : negb (mask32 b =? 0) = b. Proof. destruct b; reflexivity. Qed.
Lemma qpow_kpow x e : qpow x e = kpow q1 qmul x e. Proof. reflexivity. Qed.
Lemma fv_num n a : val a = n -> fv a = mk n. Proof. intros <-. reflexivity. Qed.
Lemma q2_nz : qadd q1 q1 <> q0.
Proof. intros H. apply (f_equal fst) in H. cbn in H. exact (two_nz H). Qed.
Lemma mk_small n : 0 < n < P -> mk n <> 0%zp.
Proof. intros H E. apply zval_0 in E. rewrite zval_mk, Z.mod_small in E by lia. lia. Qed.
Lemma q3_nz : qadd (qadd q1 q1) q1 <> q0.
Proof.
  intros H. apply (f_equal fst) in H. cbn in H. rewrite zp1_eq, <- !mk_add in H. revert H. apply mk_small. split; reflexivity.
Qed.
Lemma q_half x y : qadd x x = y -> x = qdiv y (qadd q1 q1).
Proof.
  intros <-. transitivity (qmul x (qmul (qadd q1 q1) (qinv (qadd q1 q1)))).
  - rewrite qinv_r by exact q2_nz. rewrite qmul_1_r. reflexivity.
  - unfold qdiv. generalize (qinv (qadd q1 q1)). intros i. qring.
Qed.
Lemma qscale_mul a x : qscale a x = qmul (a, 0%zp) x. Proof. unfold qscale, qmul. cbn [fst snd]. apply (f_equal2 (@pair Zp Zp)); ring. Qed.
Lemma qv_two : fv2 f2_two = qadd q1 q1.
Proof. unfold fv2, f2_two. cbn [fst snd]. rewrite (fv_num 2 fp_two val_two), fv_zero. unfold qadd, q1. cbn [fst snd]. apply (f_equal2 (@pair Zp Zp)); [|ring]. change 2 with (1 + 1). rewrite mk_add, <- zp1_eq. reflexivity. Qed.
Lemma qv_three : fv2 f2_three = qadd (qadd q1 q1) q1.
Proof. unfold fv2, f2_three. cbn [fst snd]. rewrite (fv_num 3 fp_three val_three), fv_zero. unfold qadd, q1. cbn [fst snd]. apply (f_equal2 (@pair Zp Zp)); [|ring]. change 3 with (1 + 1 + 1). rewrite !mk_add, <- zp1_eq. reflexivity. Qed.
Lemma qv_four : fv2 f2_four = qadd (qadd q1 q1) (qadd q1 q1).
Proof. unfold fv2, f2_four. cbn [fst snd]. rewrite (fv_num 4 fp_four val_four), fv_zero. unfold qadd, q1. cbn [fst snd]. apply (f_equal2 (@pair Zp Zp)); [|ring]. change 4 with ((1 + 1) + (1 + 1)). rewrite !mk_add, <- zp1_eq. reflexivity. Qed.

Lemma f2_sqrt_split x : canon2 x -> (negb (snd (f2_sqrt x) =? 0) = true <-> qsquare (fv2 x)) /\
  (negb (snd (f2_sqrt x) =? 0) = true -> qmul (fv2 (fst (f2_sqrt x))) (fv2 (fst (f2_sqrt x))) = fv2 x) /\ (negb (snd (f2_sqrt x) =? 0) = false -> fv2 (fst (f2_sqrt x)) = q0).
Proof.
  intros Hx. destruct (f2_sqrt_ok x Hx) as (r & b & E & Cr & H1 & H2 & H3). rewrite E. cbn [fst snd]. rewrite mask_nz.
  split; [exact H1|]. split; [intros Hb; apply (H2 Hb)|]. intros Hb. rewrite (H3 Hb). exact fv2_zero.
Qed.
#[global] Opaque f2_sqrt f2_pow_big f2_pow_small f2_legendre.
Lemma fq_laws : flaws fq_ops q0 q1 qadd qmul qsub qopp qdiv qinv qeqb fqv.
Proof.
  constructor.
  - exact Zq_field.
  - exact qeqb_true.
  - exact q2_nz.
  - exact q3_nz.
  - exact qinv_0.
  - exact fv2_zero.
  - exact fv2_one.
  - exact qv_two.
  - exact qv_three.
  - exact qv_four.
  - unfold fqv. cbn [fzeta fq_ops mkq proj1_sig]. unfold fv2, f2_zeta. cbn [fst snd]. rewrite fv_zero, fv_one. unfold qmul, qopp, q1. cbn [fst snd]. apply (f_equal2 (@pair Zp Zp)); ring.
  - intros x y. apply (proj2 (f2_add_ok _ _ (fq_c x) (fq_c y))).
  - intros x y. apply (proj2 (f2_sub_ok _ _ (fq_c x) (fq_c y))).
  - intros x. apply (proj2 (f2_neg_ok _ (fq_c x))).
  - intros x y. apply (fv2_mul _ _ (fq_c x) (fq_c y)).
  - intros x. apply (fv2_square _ (fq_c x)).
  - intros x. apply q_half. apply (proj2 (f2_half_ok _ (fq_c x))).
  - intros x. unfold fqv. cbn [fmul2 fq_ops l1 mkq proj1_sig]. rewrite (proj2 (f2_mul2_ok _ (fq_c x))), qscale_mul. f_equal. unfold qadd, q1. cbn [fst snd]. apply (f_equal2 (@pair Zp Zp)); ring.
  - intros x. unfold fqv. cbn [fmul3 fq_ops l1 mkq proj1_sig]. rewrite (proj2 (f2_mul3_ok _ (fq_c x))), qscale_mul. f_equal. unfold qadd, q1. cbn [fst snd]. apply (f_equal2 (@pair Zp Zp)); ring.
  - intros x. unfold fqv. cbn [fmul4 fq_ops l1 mkq proj1_sig]. rewrite (proj2 (f2_mul4_ok _ (fq_c x))), qscale_mul. f_equal. unfold qadd, q1. cbn [fst snd]. apply (f_equal2 (@pair Zp Zp)); ring.
  - intros x. unfold fqv. cbn [fmul8 fq_ops l1 mkq proj1_sig]. rewrite (proj2 (f2_mul8_ok _ (fq_c x))), qscale_mul. f_equal. unfold qmul, qadd, q1. cbn [fst snd]. apply (f_equal2 (@pair Zp Zp)); ring.
  - intros x. apply (fv2_invert _ (fq_c x)).
  - intros x y. apply (fv2_div _ _ (fq_c x) (fq_c y)).
  - intros x. cbn [fis0 fq_ops raw_ops]. rewrite (f2_iszero_ok _ (fq_c x)), mask_nz. reflexivity.
  - intros x y. cbn [feqb fq_ops raw_ops]. rewrite (f2_equals_ok _ _ (fq_c x) (fq_c y)), mask_nz. reflexivity.
  - intros x y b. unfold fqv. cbn [fcond fq_ops l2 mkq proj1_sig]. rewrite (f2_set_cond_mask _ _ b (fq_c x) (fq_c y)). destruct b; reflexivity.
  - intros x b. unfold fqv. cbn [fcneg fq_ops l1 mkq proj1_sig]. rewrite (f2_set_condneg_mask _ b (fq_c x)). destruct b; [apply (proj2 (f2_neg_ok _ (fq_c x)))|reflexivity].
  - intros x y b. cbn [fswap fq_ops]. transitivity (if b then y else x, if b then x else y); [|destruct b; reflexivity].
    apply (f_equal2 (@pair fq fq)); apply fq_eq; cbn [l2 mkq proj1_sig]; rewrite (f2_condswap_mask _ _ b (fq_c x) (fq_c y)); destruct b; reflexivity.
  - intros x. exact (f2_sqrt_split _ (fq_c x)).
  - intros x. cbn [fleg fq_ops]. rewrite (f2_legendre_ok _ (fq_c x)). unfold leg2_spec. fold (fqv x). change (ksq qmul (fqv x)) with (qsquare (fqv x)).
    destruct (q_dec (fqv x) q0) as [E|N]; [|destruct (qsquare_dec (fqv x))]; repeat split; auto; try tauto.
    intros C. exfalso. apply C. exists q0. rewrite E. qring.
  - intros x. destruct (qsquare_dec x); auto.
  - intros x e He. unfold fqv. cbn [fpow fq_ops raw_ops]. destruct (f2_pow_big_ok _ e (fq_c x) He) as (r & E & Cr & V). rewrite E, clamp_ok by auto. exact V.
  - intros x e He. unfold fqv. cbn [fpow_small fq_ops raw_ops]. destruct (f2_pow_small_ok _ e (fq_c x) He) as (r & E & Cr & V). rewrite E, clamp_ok by auto. exact V.
Qed.
