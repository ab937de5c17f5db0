(** C74: how evenly the random field elements are spread.  The generator delivers blocks of ENCODED_LENGTH + 16 bytes (fp_gen.rs:1405-1409); the
    theorems count the blocks that lead to each value. *)
From Coq Require Import ZArith List Bool Lia Ring Field.
From Verif Require Import S_Fp S_Fp2 M_Fp M_Fp2 L_Fp L_FpCodec L_Zp L_Zp2 L_Fp2 L_Fp2Misc L_Field L_Curve L_Entangled P_Fp P_Fp2.
Import ListNotations.
Open Scope Z_scope.
Ltac Zify.zify_post_hook ::= idtac.

(** ** Specification: L lists, once each, the elements that satisfy A, and there are c of them *)
Definition counts {T : Type} (A : T -> Prop) (c : Z) : Prop := exists L : list T, NoDup L /\ (forall t, In t L <-> A t) /\ Z.of_nat (length L) = c.
Definition block (n : nat) (b : list Z) : Prop := bytes b /\ length b = n.

Lemma nodup_map {S T : Type} (f : S -> T) l : (forall x y, In x l -> In y l -> f x = f y -> x = y) -> NoDup l -> NoDup (map f l).
Proof.
  induction l as [|x l IH]; intros H N; [constructor|]. inversion N as [|? ? N1 N2]; subst. cbn [map]. constructor.
  - intros C. apply in_map_iff in C. destruct C as (y & E & Hy). apply N1. rewrite (H x y (or_introl eq_refl) (or_intror Hy) (eq_sym E)). exact Hy.
  - apply IH; [|exact N2]. intros a b Ha Hb. apply H; right; assumption.
Qed.
Lemma NoDup_app' {S : Type} (a b : list S) : NoDup a -> NoDup b -> (forall x, In x a -> ~ In x b) -> NoDup (a ++ b).
Proof.
  induction 1 as [|x a N _ IH]; intros Hb D; [exact Hb|]. cbn [app]. constructor; [|apply IH; [exact Hb|intros y Hy; apply D; right; exact Hy]].
  rewrite in_app_iff. intros [C|C]; [exact (N C)|exact (D x (or_introl eq_refl) C)].
Qed.
Lemma nodup_prod {S T : Type} (a : list S) (b : list T) : NoDup a -> NoDup b -> NoDup (list_prod a b).
Proof.
  intros Ha Hb. induction Ha as [|x a N _ IH]; [constructor|]. cbn [list_prod]. apply NoDup_app'; [apply nodup_map; [intros y z _ _ [= ->]; reflexivity|exact Hb]|exact IH|].
  intros [s t] H1 H2. apply in_map_iff in H1. destruct H1 as (y & [= -> <-] & _). apply in_prod_iff in H2. apply N. exact (proj1 H2).
Qed.
(** c0*c1*p^2 against m^2, when c0*p and c1*p are within p of m *)
Lemma prod_near c0 c1 p m t : 0 < p -> 1 < t -> p * (4 * t) < m -> Z.abs (c0 * p - m) < p -> Z.abs (c1 * p - m) < p -> Z.abs (c0 * c1 * (p * p) - m * m) * t < m * m.
Proof.
  intros Hp Ht H H0 H1. replace (c0 * c1 * (p * p) - m * m) with (m * ((c0 * p - m) + (c1 * p - m)) + (c0 * p - m) * (c1 * p - m)) by ring. set (e := c0 * p - m) in *. set (f := c1 * p - m) in *.
  assert (A1 : Z.abs (m * (e + f) + e * f) <= m * (Z.abs e + Z.abs f) + Z.abs e * Z.abs f).
  { eapply Z.le_trans; [apply Z.abs_triangle|]. rewrite !Z.abs_mul, (Z.abs_eq m) by nia. pose proof (Z.abs_triangle e f). nia. }
  assert (Pm : p < m) by (assert (p * 1 < p * (4 * t)) by (apply Z.mul_lt_mono_pos_l; lia); lia). pose proof (Z.abs_nonneg e) as Ne. pose proof (Z.abs_nonneg f) as Nf.
  assert (B1 : Z.abs e * Z.abs f <= m * p) by (apply Z.mul_le_mono_nonneg; lia). assert (B2 : m * (Z.abs e + Z.abs f) <= m * (p + p)) by (apply Z.mul_le_mono_nonneg_l; lia).
  assert (A2 : m * (Z.abs e + Z.abs f) + Z.abs e * Z.abs f <= 3 * (m * p)) by lia.
  assert (A3 : Z.abs (m * (e + f) + e * f) * t <= 3 * (m * p) * t) by (apply Z.mul_le_mono_nonneg_r; lia). assert (Q0 : 0 < m) by lia. assert (Q1 : m * (p * (4 * t)) < m * m) by (apply Z.mul_lt_mono_pos_l; assumption). assert (Q2 : 0 < m * p * t) by (repeat apply Z.mul_pos_pos; lia). lia.
Qed.
Section Count.
Variables (n : nat) (p r : Z).
Hypothesis Hp : 0 < p.
Hypothesis Hr : 0 <= r < p.
Let M := Bn n.
Definition hits : Z := (M - 1 - r) / p + 1.
Lemma M_pos : 0 < M. Proof. exact (Bn_pos n). Qed.
Lemma hits_nonneg : 0 <= hits.
Proof. unfold hits. pose proof M_pos. assert (-1 <= (M - 1 - r) / p) by (apply Z.div_le_lower_bound; lia). lia. Qed.
Lemma hits_lt k : 0 <= k -> (k < hits <-> r + k * p < M).
Proof.
  intros Hk. unfold hits. split; intros H.
  - assert (p * ((M - 1 - r) / p) <= M - 1 - r) by (apply Z.mul_div_le; lia). nia.
  - assert (k <= (M - 1 - r) / p) by (apply Z.div_le_lower_bound; lia). lia.
Qed.
Lemma block_counts : counts (fun b => block n b /\ le_value b mod p = r) hits.
Proof.
  exists (map (fun k => le_bytes n (r + Z.of_nat k * p)) (seq 0 (Z.to_nat hits))). pose proof hits_nonneg as H0.
  assert (V : forall k, In k (seq 0 (Z.to_nat hits)) -> block n (le_bytes n (r + Z.of_nat k * p)) /\ le_value (le_bytes n (r + Z.of_nat k * p)) = r + Z.of_nat k * p).
  { intros k Hk. apply in_seq in Hk. assert (L : Z.of_nat k < hits) by lia. apply hits_lt in L; [|lia]. destruct (le_bytes_ok n (r + Z.of_nat k * p) ltac:(nia)) as (A & B & C). split; [split; assumption|]. apply C. exact L. }
  split; [|split].
  - apply nodup_map; [|apply seq_NoDup]. intros x y Hx Hy E. apply (f_equal le_value) in E. rewrite (proj2 (V x Hx)), (proj2 (V y Hy)) in E. nia.
  - intros b. rewrite in_map_iff. split.
    + intros (k & <- & Hk). destruct (V k Hk) as [A B]. split; [exact A|]. rewrite B, Z.mod_add by lia. apply Z.mod_small. exact Hr.
    + intros [[A B] C]. pose proof (le_value_bound b A) as D. rewrite B in D. pose proof (Z.div_mod (le_value b) p ltac:(lia)) as E. pose proof (Z.div_pos (le_value b) p ltac:(lia) ltac:(lia)) as F. rewrite C in E.
      set (k := le_value b / p) in *. assert (Ek : r + Z.of_nat (Z.to_nat k) * p = le_value b) by (rewrite Z2Nat.id by exact F; lia).
      assert (Ik : In (Z.to_nat k) (seq 0 (Z.to_nat hits))) by (apply in_seq; assert (k < hits) by (apply hits_lt; [exact F|]; unfold M; lia); lia).
      exists (Z.to_nat k). split; [|exact Ik]. destruct (V _ Ik) as [[A' B'] C']. apply le_value_inj; [assumption|assumption|congruence|]. rewrite C', Ek. reflexivity.
  - rewrite map_length, seq_length. apply Z2Nat.id. exact H0.
Qed.
Lemma hits_even : Z.abs (hits * p - M) < p.
Proof.
  unfold hits. pose proof (Z.div_mod (M - 1 - r) p ltac:(lia)) as E. pose proof (Z.mod_pos_bound (M - 1 - r) p Hp) as B. set (q := (M - 1 - r) / p) in *. set (s := (M - 1 - r) mod p) in *.
  replace ((q + 1) * p - M) with (p - 1 - r - s) by lia. lia.
Qed.
End Count.

(** ** C74: elements of Fp.  Of the 256^n blocks of n bytes, c lead to the value r, where c*p differs from 256^n by less than p *)
Theorem C74_reduce : forall n r, 0 <= r < P -> exists c, counts (fun b => block n b /\ val (decode_reduce b) = r) c /\ Z.abs (c * P - 256 ^ Z.of_nat n) < P.
Proof.
  intros n r Hr. exists (hits n P r). split.
  - destruct (block_counts n P r P_pos Hr) as (L & A & B & C). exists L. split; [exact A|]. split; [|exact C]. intros b. rewrite B. split; intros [[D D'] E]; (split; [split; assumption|]); [rewrite (proj2 (C07_decode_reduce b D)); exact E|rewrite <- (proj2 (C07_decode_reduce b D)); exact E].
  - pose proof (hits_even n P r P_pos Hr) as H. change 256 with (2 ^ 8). rewrite <- Z.pow_mul_r, <- Bn_pow by lia. exact H.
Qed.
(** fp_gen.rs:1406: the blocks that Fp::rand asks for; every value is met, and its probability is 1/p up to a factor of 1 +- 2^-130 *)
Definition RAND_LENGTH : nat := ENCODED_LENGTH + 16.
Definition MB : Z := 2 ^ 1424.
Lemma MB_eq : 256 ^ Z.of_nat RAND_LENGTH = MB. Proof. change 256 with (2 ^ 8). rewrite <- Z.pow_mul_r by (vm_compute; discriminate). reflexivity. Qed.
Lemma MB_P : P * 2 ^ 130 < MB. Proof. vm_compute. reflexivity. Qed.
Definition near (e : Z) (num den m : Z) : Prop := Z.abs (num * den - m) * 2 ^ e < m.
Theorem C74_fp : forall r, 0 <= r < P -> exists c, counts (fun b => block RAND_LENGTH b /\ val (decode_reduce b) = r) c /\ 0 < c /\ near 130 c P MB.
Proof.
  intros r Hr. destruct (C74_reduce RAND_LENGTH r Hr) as (c & A & B). rewrite MB_eq in B. exists c. pose proof MB_P as H. pose proof P_pos as HP. unfold near. generalize dependent MB. intros m B H.
  assert (H130 : 1 < 2 ^ 130) by reflexivity. generalize dependent (2 ^ 130). intros t H H130. split; [exact A|]. split; nia.
Qed.
(** ** C74: elements of Fp2: two blocks are drawn *)
Theorem C74_fp2 : forall r0 r1, 0 <= r0 < P -> 0 <= r1 < P -> exists c,
  counts (fun bb => block RAND_LENGTH (fst bb) /\ block RAND_LENGTH (snd bb) /\ forall rng, exists x, f2_rand (fst bb :: snd bb :: rng) = Some (x, rng) /\ canon2 x /\ val2 x = (r0, r1)) c /\
  0 < c /\ near 128 c (P * P) (MB * MB).
Proof.
  intros r0 r1 H0 H1. destruct (C74_reduce RAND_LENGTH r0 H0) as (c0 & (L0 & A0 & B0 & C0) & D0), (C74_reduce RAND_LENGTH r1 H1) as (c1 & (L1 & A1 & B1 & C1) & D1). exists (c0 * c1). rewrite MB_eq in D0, D1. split; [|split].
  - exists (list_prod L0 L1). split; [apply nodup_prod; assumption|]. split; [|rewrite prod_length, Nat2Z.inj_mul, C0, C1; reflexivity].
    intros [b0 b1]. rewrite in_prod_iff, B0, B1. cbn [fst snd f2_rand]. split.
    + intros [[E0 V0] [E1 V1]]. split; [exact E0|]. split; [exact E1|]. intros rng. eexists. split; [reflexivity|]. split; [split; [exact (proj1 (C07_decode_reduce b0 (proj1 E0)))|exact (proj1 (C07_decode_reduce b1 (proj1 E1)))]|]. unfold val2. cbn [fst snd]. rewrite V0, V1. reflexivity.
    + intros (E0 & E1 & E). destruct (E []) as (x & X & _ & V). injection X as <-. unfold val2 in V. cbn [fst snd] in V. apply pair_equal_spec in V. destruct V. auto.
  - pose proof MB_P as H. pose proof P_pos as HP. generalize dependent MB. intros m D0 D1 H. assert (H130 : 1 < 2 ^ 130) by reflexivity. generalize dependent (2 ^ 130). intros t H H130. assert (0 < c0) by nia. assert (0 < c1) by nia. nia.
  - pose proof MB_P as H. pose proof P_pos as HP. unfold near. change (2 ^ 130) with (4 * 2 ^ 128) in H. exact (prod_near c0 c1 P MB (2 ^ 128) HP eq_refl H D0 D1).
Qed.
(** ** C74: random non-squares: every non-square is met by twice as many draws, its two quotients' roots *)
Add Field Zq_fu : Zq_field.
Lemma counts_or {T : Type} (A B C : T -> Prop) a b : counts A a -> counts B b -> (forall t, A t -> B t -> False) -> (forall t, C t <-> A t \/ B t) -> counts C (a + b).
Proof.
  intros (L & NL & IL & <-) (K & NK & IK & <-) D E. exists (L ++ K). split; [apply NoDup_app'; [exact NL|exact NK|intros t H1 H2; apply IL in H1; apply IK in H2; exact (D t H1 H2)]|].
  split; [intros t; rewrite in_app_iff, IL, IK, E; reflexivity|rewrite app_length, Nat2Z.inj_add; reflexivity].
Qed.
Lemma zval2_range z : 0 <= fst (zval2 z) < P /\ 0 <= snd (zval2 z) < P.
Proof. destruct (fv2_surj z) as (x & _ & <-). rewrite zval2_fv2. split; apply val_range. Qed.
Lemma near_add a b den m : near 128 a den m -> near 128 b den m -> near 128 (a + b) den (2 * m).
Proof.
  unfold near. assert (T : 0 <= 2 ^ 128) by (apply Z.pow_nonneg; lia). revert T. generalize (2 ^ 128). intros t T A B.
  replace ((a + b) * den - 2 * m) with ((a * den - m) + (b * den - m)) by ring. pose proof (Z.abs_triangle (a * den - m) (b * den - m)) as H. apply (Z.mul_le_mono_nonneg_r _ _ t T) in H. lia.
Qed.
Lemma mul_zero_l a (N : a <> q0) b : qmul a b = q0 -> b = q0.
Proof. intros H. transitivity (qmul (qmul (qinv a) a) b); [rewrite (qinv_l a N); ring|]. transitivity (qmul (qinv a) (qmul a b)); [ring|rewrite H; ring]. Qed.
Lemma qmul_cancel2 z : qadd z z = q0 -> z = q0.
Proof. intros H. apply (mul_zero_l _ q2_nz). rewrite <- H. ring. Qed.
Theorem C74_nonsquare : forall s, gred s = s -> ~ g_square s -> exists c,
  counts (fun bb => block RAND_LENGTH (fst bb) /\ block RAND_LENGTH (snd bb) /\ forall rng, exists x, f2_rand_nonsquare (fst bb :: snd bb :: rng) = Some (x, rng) /\ val2 x = s) c /\
  0 < c /\ near 128 c (P * P) (2 * (MB * MB)).
Proof.
  intros s Gs Hs. rewrite g_square_q in Hs. set (q := mk2 s) in *. set (n := fv2 f2_nqr). assert (Ns : ~ qsquare n) by exact nqr_nonsquare. assert (N0 : n <> q0) by (intros E; apply Ns; rewrite E; exists q0; ring). assert (Q0 : q <> q0) by (intros E; apply Hs; rewrite E; exists q0; ring).
  destruct (qns_mul q n Hs Ns) as [w Hw]. set (z := qmul w (qinv n)). assert (Hz : qmul (qmul z z) n = q).
  { unfold z. transitivity (qmul (qmul w w) (qmul (qinv n) (qmul (qinv n) n))); [ring|]. rewrite Hw, (qinv_l n N0). transitivity (qmul q (qmul (qinv n) n)); [ring|]. rewrite (qinv_l n N0). ring. }
  assert (Z0 : z <> q0) by (intros E; apply Q0; rewrite <- Hz, E; ring).
  assert (Opp : z <> qopp z). { intros E. apply Z0. apply (qmul_cancel2 z). rewrite E at 1. ring. }
  destruct (zval2_range z) as [R0 R1], (zval2_range (qopp z)) as [R2 R3].
  destruct (C74_fp2 _ _ R0 R1) as (a & CA & PA & NA), (C74_fp2 _ _ R2 R3) as (b & CB & PB & NB). exists (a + b). split; [|split; [lia|apply near_add; assumption]].
  assert (W : forall bb u, block RAND_LENGTH (fst bb) -> block RAND_LENGTH (snd bb) -> (forall rng : list (list Z), exists x, f2_rand (fst bb :: snd bb :: rng) = Some (x, rng) /\ canon2 x /\ val2 x = (fst (zval2 u), snd (zval2 u))) <-> fv2 (decode_reduce (fst bb), decode_reduce (snd bb)) = u).
  { intros [b0 b1] u B0 B1. cbn [fst snd f2_rand] in *. split.
    - intros H. destruct (H []) as (x & X & _ & V). injection X as <-. apply zval2_inj. rewrite zval2_fv2, V. destruct (zval2 u); reflexivity.
    - intros E rng. eexists. split; [reflexivity|]. split; [split; [exact (proj1 (C07_decode_reduce b0 (proj1 B0)))|exact (proj1 (C07_decode_reduce b1 (proj1 B1)))]|]. rewrite <- E, zval2_fv2. destruct (val2 _); reflexivity. }
  apply (counts_or _ _ _ a b CA CB).
  - intros bb (B0 & B1 & H1) (_ & _ & H2). apply W in H1; [|exact B0|exact B1]. apply W in H2; [|exact B0|exact B1]. apply Opp. exact (eq_trans (eq_sym H1) H2).
  - intros bb. assert (D : block RAND_LENGTH (fst bb) -> block RAND_LENGTH (snd bb) -> ((forall rng, exists x, f2_rand_nonsquare (fst bb :: snd bb :: rng) = Some (x, rng) /\ val2 x = s) <-> fv2 (decode_reduce (fst bb), decode_reduce (snd bb)) = z \/ fv2 (decode_reduce (fst bb), decode_reduce (snd bb)) = qopp z)).
    { destruct bb as [b0 b1]. cbn [fst snd]. intros B0 B1. assert (C : canon2 (decode_reduce b0, decode_reduce b1)) by (split; apply C07_decode_reduce; [exact (proj1 B0)|exact (proj1 B1)]). cbn [f2_rand_nonsquare]. cbv zeta.
      set (y := (decode_reduce b0, decode_reduce b1)) in *. clearbody y. rewrite f2_iszero_ok by exact C. pose proof canon_nqr as CN.
      assert (CS : canon2 (f2_square y)) by (apply f2_square_ok; exact C). assert (V : fv2 (f2_mul (f2_square y) f2_nqr) = qmul (qmul (fv2 y) (fv2 y)) n) by (rewrite fv2_mul, fv2_square by assumption; reflexivity).
      destruct (qeqb (fv2 y) q0) eqn:E0; cbn [mask32].
      - apply qeqb_true in E0. change (TRUE32 =? 0) with false. cbv iota. split; [intros H; destruct (H []) as (x & X & _); discriminate|]. rewrite E0. intros [H|H]; exfalso; apply Z0; [symmetry; exact H|]. transitivity (qopp (qopp z)); [ring|rewrite <- H; ring].
      - change (0 =? 0) with true. cbv iota. split.
        + intros H. destruct (H []) as (x & X & Vx). injection X as <-. assert (E : qmul (qmul (fv2 y) (fv2 y)) n = q). { rewrite <- V, fv2_mk2, Vx. reflexivity. }
          assert (E' : qmul n (qmul (qsub (fv2 y) z) (qadd (fv2 y) z)) = q0) by (transitivity (qsub (qmul (qmul (fv2 y) (fv2 y)) n) (qmul (qmul z z) n)); [ring|rewrite E, Hz; ring]).
          apply (mul_zero_l n N0) in E'. destruct (q_dec (fv2 y) z) as [Y|Y]; [left; exact Y|right]. assert (Y' : qsub (fv2 y) z <> q0) by (intros E2; apply Y; transitivity (qadd (qsub (fv2 y) z) z); [ring|rewrite E2; ring]).
          apply (mul_zero_l _ Y') in E'. transitivity (qsub (qadd (fv2 y) z) z); [ring|rewrite E'; ring].
        + intros H rng. eexists. split; [reflexivity|]. rewrite <- zval2_fv2, V. assert (E : qmul (qmul (fv2 y) (fv2 y)) n = q) by (rewrite <- Hz; destruct H as [-> | ->]; ring). rewrite E. unfold q. rewrite zval2_mk2. exact Gs. }
    split; [intros (B0 & B1 & H); apply (D B0 B1) in H; destruct H as [H|H]; [left|right]; (split; [exact B0|split; [exact B1|]]); apply W; assumption|].
    intros [(B0 & B1 & H)|(B0 & B1 & H)]; (split; [exact B0|split; [exact B1|]]); apply (D B0 B1); apply W in H; auto.
Qed.
Print Assumptions C74_nonsquare.
Print Assumptions C74_reduce. Print Assumptions C74_fp. Print Assumptions C74_fp2.
(** The count is not exactly the same for all values: modulo 100, of the 256 blocks of one byte three are 7 and two are 77. *)
Example C74_ex : counts (fun b => block 1 b /\ le_value b mod 100 = 7) 3 /\ counts (fun b => block 1 b /\ le_value b mod 100 = 77) 2 /\ block RAND_LENGTH (repeat 1 178).
Proof. split; [exact (block_counts 1 100 7 eq_refl ltac:(lia))|]. split; [exact (block_counts 1 100 77 eq_refl ltac:(lia))|]. split; [apply Forall_forall; intros x H; apply repeat_spec in H; subst; unfold byte; lia|reflexivity]. Qed.
Example C74_ex2 : gred (val2 f2_nqr) = val2 f2_nqr /\ ~ g_square (val2 f2_nqr).
Proof. split; [apply gred_val2|exact (proj2 C22_nqr_nonsquare)]. Qed.
