(** Primality of p, by an N+1 certificate: an element of norm 1 in Z[i]/p whose order is the divisor
    2^634 * 41161 of p+1.  For a prime divisor q of p the powers of the element stay distinct modulo q, and
    there are at most 2q elements of norm 1 modulo q, so q >= 2^633 * 41161 > sqrt p. *)
From Coq Require Import ZArith Znumtheory List Lia Bool.
From Bignums Require Import BigN.
From Verif Require Import S_Fp.
Import ListNotations.
Open Scope Z_scope.

(** ** Gaussian integers *)
Definition gi : Type := (Z * Z)%type.
Definition gone : gi := (1, 0).
Definition gm (u v : gi) : gi := (fst u * fst v - snd u * snd v, fst u * snd v + snd u * fst v).
Definition geq (p : Z) (u v : gi) : Prop := (p | fst u - fst v) /\ (p | snd u - snd v).
Fixpoint gpow (u : gi) (n : nat) : gi := match n with O => gone | S n => gm u (gpow u n) end.

Lemma geq_refl p u : geq p u u.
Proof. split; rewrite Z.sub_diag; apply Z.divide_0_r. Qed.
Lemma geq_sym p u v : geq p u v -> geq p v u.
Proof. intros [[a Ha] [b Hb]]. split; [exists (-a)|exists (-b)]; lia. Qed.
Lemma geq_trans p u v w : geq p u v -> geq p v w -> geq p u w.
Proof. intros [[a Ha] [b Hb]] [[c Hc] [d Hd]]. split; [exists (a+c)|exists (b+d)]; lia. Qed.
Lemma geq_gm p u v u' v' : geq p u u' -> geq p v v' -> geq p (gm u v) (gm u' v').
Proof.
  destruct u as [u1 u2], v as [v1 v2], u' as [x1 x2], v' as [y1 y2]. unfold geq, gm. cbn [fst snd].
  intros [[a Ha] [b Hb]] [[c Hc] [d Hd]].
  assert (u1 = x1 + a * p) by lia. assert (u2 = x2 + b * p) by lia.
  assert (v1 = y1 + c * p) by lia. assert (v2 = y2 + d * p) by lia. subst.
  split; [exists (a * y1 + c * x1 + a * c * p - b * y2 - d * x2 - b * d * p) | exists (a * y2 + d * x1 + a * d * p + b * y1 + c * x2 + b * c * p)]; ring.
Qed.
Lemma gm_assoc u v w : gm u (gm v w) = gm (gm u v) w.
Proof. unfold gm. cbn [fst snd]. f_equal; ring. Qed.
Lemma gm_comm u v : gm u v = gm v u.
Proof. unfold gm. cbn [fst snd]. f_equal; ring. Qed.
Lemma gm_1_l u : gm gone u = u.
Proof. destruct u. unfold gm, gone. cbn [fst snd]. f_equal; ring. Qed.
Lemma gpow_add u a b : gpow u (a + b) = gm (gpow u a) (gpow u b).
Proof. induction a; cbn [plus gpow]; [rewrite gm_1_l; reflexivity|]. rewrite IHa. apply gm_assoc. Qed.
Lemma gpow_mul u a b : gpow u (a * b) = gpow (gpow u b) a.
Proof. induction a; cbn [mult gpow]; [reflexivity|]. rewrite gpow_add, IHa. reflexivity. Qed.
Lemma gpow_geq p u v n : geq p u v -> geq p (gpow u n) (gpow v n).
Proof. intros H. induction n; cbn [gpow]; [apply geq_refl|]. apply geq_gm; auto. Qed.
Lemma gpow_one n : gpow gone n = gone.
Proof. induction n; cbn [gpow]; [reflexivity|]. rewrite IHn. apply gm_1_l. Qed.

Definition gnorm (u : gi) : Z := fst u * fst u + snd u * snd u.
Lemma gnorm_gm u v : gnorm (gm u v) = gnorm u * gnorm v.
Proof. unfold gnorm, gm. cbn [fst snd]. ring. Qed.
Definition gconj (u : gi) : gi := (fst u, - snd u).
Lemma gm_conj u : gm u (gconj u) = (gnorm u, 0).
Proof. unfold gm, gconj, gnorm. cbn [fst snd]. f_equal; ring. Qed.
Lemma norm1_pow p u n : (p | gnorm u - 1) -> (p | gnorm (gpow u n) - 1).
Proof.
  intros [k H]. induction n as [|n [l IH]]; cbn [gpow]; [exists 0; reflexivity|].
  rewrite gnorm_gm. replace (gnorm u) with (1 + k * p) by lia. exists (k * gnorm (gpow u n) + l). lia.
Qed.
(* a norm-1 element can be cancelled *)
Lemma norm1_cancel p w u v : (p | gnorm w - 1) -> geq p (gm w u) (gm w v) -> geq p u v.
Proof.
  intros [k H] E.
  assert (F : forall x, geq p x (gm (gconj w) (gm w x))).
  { intros x. rewrite gm_assoc, (gm_comm (gconj w)), gm_conj. destruct x as [x1 x2]. unfold geq, gm. cbn [fst snd].
    replace (gnorm w) with (1 + k * p) by lia. split; [exists (- k * x1)|exists (- k * x2)]; ring. }
  eapply geq_trans; [apply F|]. eapply geq_trans; [|apply geq_sym, F]. apply geq_gm; auto. apply geq_refl.
Qed.

(** ** Counting *)
Lemma inj_bound (f : nat -> Z) (p : Z) (n : nat) : 0 <= p ->
  (forall k, (k < n)%nat -> 0 <= f k < p) -> (forall j k, (j < k)%nat -> (k < n)%nat -> f j <> f k) -> Z.of_nat n <= p.
Proof.
  intros Hp Hr Hi.
  assert (ND : NoDup (map f (seq 0 n))).
  { apply NoDup_nth_error. intros i j Hl He. rewrite map_length, seq_length in Hl.
    assert (G : forall k, (k < n)%nat -> nth_error (map f (seq 0 n)) k = Some (f k)).
    { intros k Hk. rewrite (map_nth_error f k (seq 0 n) (d := k)); auto.
      rewrite (nth_error_nth' (seq 0 n) O) by (rewrite seq_length; auto). rewrite seq_nth by auto. reflexivity. }
    rewrite G in He by auto. destruct (Nat.lt_ge_cases j n) as [Hj|Hj].
    - rewrite G in He by auto. injection He as He. destruct (Nat.lt_trichotomy i j) as [L|[L|L]]; auto.
      + elim (Hi i j L Hj He).
      + elim (Hi j i L Hl (eq_sym He)).
    - assert (nth_error (map f (seq 0 n)) j = None) by (apply nth_error_None; rewrite map_length, seq_length; auto). congruence. }
  assert (IN : incl (map f (seq 0 n)) (map Z.of_nat (seq 0 (Z.to_nat p)))).
  { intros x Hx. apply in_map_iff in Hx as (k & <- & Hk). apply in_seq in Hk. specialize (Hr k ltac:(lia)).
    apply in_map_iff. exists (Z.to_nat (f k)). split; [lia|]. apply in_seq. lia. }
  pose proof (NoDup_incl_length ND IN) as L. rewrite !map_length, !seq_length in L. lia.
Qed.

Lemma norm1_bound p (u : gi) (n : nat) : prime p -> (p | gnorm u - 1) ->
  (forall m, (0 < m < 2 * n)%nat -> ~ geq p (gpow u m) gone) -> Z.of_nat n <= p.
Proof.
  intros Pp Hn Ho. pose proof (prime_ge_2 p Pp).
  apply (inj_bound (fun k => fst (gpow u k) mod p)); [lia|intros; apply Z.mod_pos_bound; lia|].
  intros j k Hjk Hk E.
  assert (D : (p | fst (gpow u j) - fst (gpow u k))) by (apply Z.mod_divide; [lia|]; rewrite Zminus_mod, E, Z.sub_diag; reflexivity).
  destruct (norm1_pow p u j Hn) as [cj Hj]. destruct (norm1_pow p u k Hn) as [ck Hk'].
  assert (DY : (p | (snd (gpow u j) - snd (gpow u k)) * (snd (gpow u j) + snd (gpow u k)))).
  { destruct D as [d D]. exists (cj - ck - d * (fst (gpow u j) + fst (gpow u k))). unfold gnorm in *. nia. }
  apply prime_mult in DY; auto. destruct DY as [DY|DY].
  - (* u^j = u^k *)
    apply (Ho (k - j)%nat); [lia|]. apply (norm1_cancel p (gpow u j)); [apply norm1_pow; auto|].
    rewrite <- gpow_add. replace (j + (k - j))%nat with k by lia. rewrite gm_comm, gm_1_l. apply geq_sym. split; auto.
  - (* u^j = conj u^k *)
    apply (Ho (k + j)%nat); [lia|]. rewrite gpow_add.
    assert (G : geq p (gpow u j) (gconj (gpow u k))).
    { split; cbn [gconj fst snd]; auto. replace (snd (gpow u j) - - snd (gpow u k)) with (snd (gpow u j) + snd (gpow u k)) by lia. auto. }
    eapply geq_trans; [apply geq_gm; [apply geq_refl|exact G]|]. rewrite gm_conj.
    split; cbn [gone fst snd]; [exists ck; lia|exists 0; lia].
Qed.

(** ** Exact order *)
Lemma odd_gauss n : forall c q, Nat.Odd c -> Nat.divide c (2 ^ n * q) -> Nat.divide c q.
Proof.
  induction n as [|n IH]; intros c q Ho Hd.
  - rewrite Nat.pow_0_r, Nat.mul_1_l in Hd. auto.
  - apply IH; auto. rewrite Nat.pow_succ_r', <- Nat.mul_assoc in Hd.
    apply (Nat.gauss c 2) in Hd; auto.
    assert (D : Nat.divide (Nat.gcd c 2) 2) by apply Nat.gcd_divide_r.
    assert (D' : Nat.divide (Nat.gcd c 2) c) by apply Nat.gcd_divide_l.
    apply Nat.divide_pos_le in D as L; [|lia]. destruct (Nat.gcd c 2) as [|[|[|g]]] eqn:E; [|auto| |lia].
    + destruct D as [x Hx]. lia.
    + destruct D' as [x Hx]. destruct Ho as [y Hy]. lia.
Qed.

Lemma exact_order p u e q : prime p -> (p | gnorm u - 1) ->
  (forall c, Nat.divide c q -> c = 1%nat \/ c = q) -> (0 < q)%nat ->
  geq p (gpow u (2 ^ S e * q)) gone ->
  ~ geq p (gpow u (2 ^ e * q)) gone -> ~ geq p (gpow u (2 ^ S e)) gone ->
  forall m, (0 < m < 2 ^ S e * q)%nat -> ~ geq p (gpow u m) gone.
Proof.
  intros Pp Hn Hq Hq0 HF H2 Hq' m Hm E.
  set (F := (2 ^ S e * q)%nat) in *.
  assert (HF' : forall k, geq p (gpow u (k * F)) gone).
  { intros k. rewrite gpow_mul. eapply geq_trans; [apply gpow_geq; exact HF|]. rewrite gpow_one. apply geq_refl. }
  assert (HE' : forall k, geq p (gpow u (k * m)) gone).
  { intros k. rewrite gpow_mul. eapply geq_trans; [apply gpow_geq; exact E|]. rewrite gpow_one. apply geq_refl. }
  assert (G : geq p (gpow u (Nat.gcd m F)) gone).
  { destruct (Nat.gcd_bezout_pos m F ltac:(lia)) as (a & b & Hab).
    pose proof (HE' a) as A. rewrite Hab, gpow_add in A.
    eapply geq_trans; [|exact A]. apply geq_sym. rewrite gm_comm.
    eapply geq_trans; [apply geq_gm; [apply HF'|apply geq_refl]|]. rewrite gm_1_l. apply geq_refl. }
  destruct (Nat.gcd_divide_r m F) as [c Hc]. set (g := Nat.gcd m F) in *.
  assert (Lg : (g <= m)%nat) by (apply Nat.divide_pos_le; [lia|apply Nat.gcd_divide_l]).
  assert (HG : forall k, geq p (gpow u (k * g)) gone).
  { intros k. rewrite gpow_mul. eapply geq_trans; [apply gpow_geq; exact G|]. rewrite gpow_one. apply geq_refl. }
  destruct (Nat.Even_or_Odd c) as [[c' Hc']|Ho].
  - apply H2. replace (2 ^ e * q)%nat with (c' * g)%nat; auto.
    unfold F in Hc. rewrite Nat.pow_succ_r' in Hc. nia.
  - assert (D : Nat.divide c F) by (exists g; lia).
    apply odd_gauss in D; auto. destruct (Hq c D) as [->| ->]; [lia|].
    apply Hq'. replace (2 ^ S e)%nat with (1 * g)%nat; auto.
    unfold F in Hc. nia.
Qed.

(** ** Prime divisors *)
Lemma prime_divisor n : 1 < n -> exists q, prime q /\ (q | n).
Proof.
  intros H. assert (H0 : 0 <= n) by lia. revert n H0 H. apply (Z_lt_induction (fun n => 1 < n -> exists q, prime q /\ (q | n))).
  intros n IH Hn. destruct (prime_dec n) as [Hp|Hp]; [exists n; split; [auto|apply Z.divide_refl]|].
  apply not_prime_divide in Hp as (m & Hm & D); auto.
  destruct (IH m ltac:(lia) ltac:(lia)) as (q & Hq & Dq). exists q. split; auto. eapply Z.divide_trans; eauto.
Qed.

Lemma prime_by_bound n b : 1 < n -> 0 < b -> n < b * b -> (forall q, prime q -> (q | n) -> b <= q) -> prime n.
Proof.
  intros Hn Hb Hs H. destruct (prime_dec n) as [|Hp]; auto. exfalso.
  apply not_prime_divide in Hp as (m & Hm & [k D]); auto.
  destruct (prime_divisor m ltac:(lia)) as (q & Pq & Dq). destruct (prime_divisor k ltac:(nia)) as (r & Pr & Dr).
  assert (b <= q) by (apply H; auto; eapply Z.divide_trans; [exact Dq|exists k; auto]).
  assert (b <= r) by (apply H; auto; eapply Z.divide_trans; [exact Dr|exists m; lia]).
  apply Z.divide_pos_le in Dq; [|lia]. apply Z.divide_pos_le in Dr; [|nia]. nia.
Qed.

(** ** The certificate *)
Definition bP : bigN := 124813370954946046625522215052328020445810037362111132960613286328441356722257752720010881927037475586399470137805050608043019087433283648739803958123964308223782110847178313188451195825370794537039688326247916639251700565349771267011273687997230352082398376708996664995018346239500252227115749220824758109724758742435933984445935095514141882211364143691731115285217804939575916379504639999%bigN.
Definition alphaN : bigN * bigN := (22217058283553650969131006137840104971906378482004961923480851614530505601618392462083427369371406681842610367372771921283976491193718764985249220467633899905323213558562672912477494023469426155494456823083197478608122999034471842825762430304050020017355214213208015470692463937267150230544596245268139205387607433522055580597227219109533877363124617586773043157052968198314981198698526749%bigN, 106086793914913481115956744815591173303306939577412966931046459032540908701464777406119413831103519213917576250080351464639474560584542951076932323078884328446239191693149833364003010541504038309463684668801199675120262694829851228984956140079708073695374026921456787215543069783447210268226218672353652856875787270869304294598488866867416150669639015716754705393314408412513348467265084006%bigN).
(* inverse of Re (alpha^(2^634)) - 1 *)
Definition winvN : bigN := 121196240710416535019570336244486555952985863403681643283593508822641765877219398073459843973082858198135108354138044545814744604512502545096336225263908805830085766721477259113998728132519583133864653551669416644806797502733535806147031975096431852247053751878523158115325425833932920478002960564292094464168274374787999843655590052501041633933819354584882440012687764102221939893074997725%bigN.

Definition cmul (m1 p : bigN) (u v : bigN * bigN) : bigN * bigN :=
  let (x, y) := u in let (z, t) := v in
  (BigN.modulo (x * z + m1 * (BigN.modulo (y * t) p))%bigN p, BigN.modulo (x * t + y * z)%bigN p).
Fixpoint csqn (m1 p : bigN) (n : nat) (u : bigN * bigN) : bigN * bigN :=
  match n with O => u | S n => csqn m1 p n (cmul m1 p u u) end.
Fixpoint cpow (m1 p : bigN) (e : positive) (u : bigN * bigN) : bigN * bigN :=
  match e with
  | xH => u
  | xO e' => let v := cpow m1 p e' u in cmul m1 p v v
  | xI e' => let v := cpow m1 p e' u in cmul m1 p u (cmul m1 p v v)
  end.
Definition toG (u : bigN * bigN) : gi := ([fst u]%bigN, [snd u]%bigN).

Definition cert_check (p m1 : bigN) (al : bigN * bigN) (w : bigN) (e : nat) (q : positive) : bool :=
  let n1 := BigN.modulo (fst al * fst al + snd al * snd al)%bigN p in
  let a1 := csqn m1 p e al in
  let a2 := cpow m1 p q a1 in
  let a3 := cmul m1 p a1 a1 in
  BigN.eqb n1 1%bigN && BigN.eqb (fst a2) m1 && BigN.eqb (snd a2) 0%bigN &&
  BigN.eqb (BigN.modulo ((fst a3 + m1) * w)%bigN p) 1%bigN.
Definition bPm1 : bigN := (bP - 1)%bigN.
Lemma cert_ok : cert_check bP bPm1 alphaN winvN 633 41161 = true. Proof. vm_compute. reflexivity. Qed.
Lemma bP_P : [bP]%bigN = P. Proof. vm_compute. reflexivity. Qed.
Lemma bm1_P : [bPm1]%bigN = P - 1. Proof. vm_compute. reflexivity. Qed.

Lemma P_gt_1 : 1 < P. Proof. reflexivity. Qed.
#[local] Opaque P.

Lemma mod_div_sub x p : p <> 0 -> (p | x mod p - x).
Proof. intros Hp. exists (- (x / p)). pose proof (Z.div_mod x p Hp). lia. Qed.

Lemma cmul_ok m1 p u v : [p]%bigN = P -> [m1]%bigN = P - 1 -> geq P (toG (cmul m1 p u v)) (gm (toG u) (toG v)).
Proof.
  intros Ep Em. destruct u as [x y], v as [z t]. unfold cmul, toG, gm, geq. cbn [fst snd].
  rewrite !BigN.spec_modulo, !BigN.spec_add, !BigN.spec_mul, !BigN.spec_modulo, !BigN.spec_mul, Ep, Em.
  pose proof P_gt_1. split.
  - destruct (mod_div_sub ([x]%bigN * [z]%bigN + (P - 1) * (([y]%bigN * [t]%bigN) mod P)) P ltac:(lia)) as [a Ha].
    destruct (mod_div_sub ([y]%bigN * [t]%bigN) P ltac:(lia)) as [b Hb].
    exists (a + ([y]%bigN * [t]%bigN) mod P - b). lia.
  - destruct (mod_div_sub ([x]%bigN * [t]%bigN + [y]%bigN * [z]%bigN) P ltac:(lia)) as [a Ha]. exists a. lia.
Qed.

Lemma csqn_ok m1 p n : [p]%bigN = P -> [m1]%bigN = P - 1 -> forall u, geq P (toG (csqn m1 p n u)) (gpow (toG u) (2 ^ n)).
Proof.
  intros Ep Em. induction n as [|n IH]; intros u; cbn [csqn].
  - rewrite Nat.pow_0_r. cbn [gpow]. rewrite gm_comm, gm_1_l. apply geq_refl.
  - eapply geq_trans; [apply IH|]. rewrite Nat.pow_succ_r', Nat.mul_comm, gpow_mul.
    apply gpow_geq. eapply geq_trans; [apply cmul_ok; auto|]. cbn [gpow]. rewrite (gm_comm _ gone), gm_1_l. apply geq_refl.
Qed.

Lemma cpow_ok m1 p : [p]%bigN = P -> [m1]%bigN = P - 1 -> forall e u, geq P (toG (cpow m1 p e u)) (gpow (toG u) (Pos.to_nat e)).
Proof.
  intros Ep Em. induction e as [e IH|e IH|]; intros u; cbn [cpow].
  - eapply geq_trans; [apply cmul_ok; auto|]. rewrite Pos2Nat.inj_xI. cbn [gpow]. apply geq_gm; [apply geq_refl|].
    eapply geq_trans; [apply cmul_ok; auto|]. replace (2 * Pos.to_nat e)%nat with (Pos.to_nat e + Pos.to_nat e)%nat by lia.
    rewrite gpow_add. apply geq_gm; apply IH.
  - eapply geq_trans; [apply cmul_ok; auto|]. rewrite Pos2Nat.inj_xO.
    replace (2 * Pos.to_nat e)%nat with (Pos.to_nat e + Pos.to_nat e)%nat by lia.
    rewrite gpow_add. apply geq_gm; apply IH.
  - change (Pos.to_nat 1) with 1%nat. cbn [gpow]. rewrite gm_comm, gm_1_l. apply geq_refl.
Qed.

Lemma geq_weaken p q u v : (q | p) -> geq p u v -> geq q u v.
Proof. intros D [A B]. split; eapply Z.divide_trans; eauto. Qed.

Fixpoint no_div (k : nat) (d n : Z) : bool :=
  match k with O => true | S k => negb (n mod d =? 0) && no_div k (d + 1) n end.
Lemma no_div_ok k : forall d n, no_div k d n = true -> forall e, d <= e < d + Z.of_nat k -> n mod e <> 0.
Proof.
  induction k as [|k IH]; intros d n H e He; [lia|]. cbn [no_div] in H. apply andb_true_iff in H as [H1 H2].
  destruct (Z.eq_dec e d) as [->|Hn].
  - apply negb_true_iff, Z.eqb_neq in H1. auto.
  - apply (IH (d + 1) n); auto. lia.
Qed.
Lemma prime_41161 : prime 41161.
Proof.
  apply (prime_by_bound 41161 203); [lia|lia|lia|]. intros q Pq [k D]. pose proof (prime_ge_2 q Pq).
  destruct (Z_lt_ge_dec q 203) as [L|L]; [|lia]. exfalso.
  apply (no_div_ok 201 2 41161 ltac:(vm_compute; reflexivity) q ltac:(lia)). rewrite D. apply Z.mod_mul. lia.
Qed.
Lemma Q41_prime c : Nat.divide c (Pos.to_nat 41161) -> c = 1%nat \/ c = Pos.to_nat 41161.
Proof.
  intros [k Hk]. assert (E : Z.of_nat k * Z.of_nat c = 41161) by lia.
  destruct (prime_divisors 41161 prime_41161 (Z.of_nat c)) as [H|[H|[H|H]]]; [exists (Z.of_nat k); lia|..]; lia.
Qed.

Lemma dbl_nat n : (2 * n = n + n)%nat. Proof. lia. Qed.

(* the abstract argument *)
Lemma prime_from_cert n e q al w x : 1 < n -> n mod 2 = 1 -> (forall c, Nat.divide c q -> c = 1%nat \/ c = q) -> (0 < q)%nat ->
  n < Z.of_nat (2 ^ e * q) * Z.of_nat (2 ^ e * q) ->
  (n | gnorm al - 1) -> geq n (gpow al (2 ^ e * q)) (-1, 0) -> geq n (gpow al (2 ^ S e)) x -> (n | (fst x - 1) * w - 1) -> prime n.
Proof.
  intros Hn Hodd Hq Hq0 Hsq N1 HA HB HW.
  assert (0 < 2 ^ e)%nat by (apply Nat.neq_0_lt_0, Nat.pow_nonzero; lia).
  apply (prime_by_bound n (Z.of_nat (2 ^ e * q))); auto; [nia|]. intros r Pr Dr.
  pose proof (prime_ge_2 r Pr) as Hr2.
  assert (Odd : ~ (r | 2)).
  { intros D. assert (r = 2) by (apply Z.divide_pos_le in D; lia). subst r.
    destruct Dr as [k Hk]. rewrite Hk, Z.mod_mul in Hodd by lia. discriminate. }
  assert (N1r : (r | gnorm al - 1)) by (eapply Z.divide_trans; eauto).
  apply (geq_weaken n r _ _ Dr) in HA, HB.
  apply (norm1_bound r al _ Pr N1r).
  assert (E2 : (2 * (2 ^ e * q) = 2 ^ S e * q)%nat) by (rewrite Nat.pow_succ_r'; lia). rewrite E2.
  apply (exact_order r al e q Pr N1r Hq Hq0).
  - rewrite <- E2, dbl_nat, gpow_add. eapply geq_trans; [apply geq_gm; exact HA|].
    unfold gm, gone. split; cbn [fst snd]; exists 0; lia.
  - intros E. pose proof (geq_trans r _ _ _ (geq_sym _ _ _ E) HA) as [D _]. cbn [fst snd gone] in D.
    apply Odd. destruct D as [d D]. exists d. lia.
  - intros E. pose proof (geq_trans r _ _ _ (geq_sym _ _ _ HB) E) as [[d D] _]. cbn [fst snd gone] in D.
    assert (D1 : (r | 1)).
    { destruct Dr as [k Hk]. destruct HW as [a Ha]. exists (d * w - a * k). rewrite D, Hk in Ha. lia. }
    apply Z.divide_1_r_nonneg in D1; lia.
Qed.


Lemma cert_sound p m1 al w e q : [p]%bigN = P -> [m1]%bigN = P - 1 ->
  (forall c, Nat.divide c (Pos.to_nat q) -> c = 1%nat \/ c = Pos.to_nat q) -> P mod 2 = 1 ->
  P < (2 ^ Z.of_nat e * Z.pos q) * (2 ^ Z.of_nat e * Z.pos q) ->
  cert_check p m1 al w e q = true -> prime P.
Proof.
  intros Ep Em Hq Hodd Hsq C. unfold cert_check in C. cbv zeta in C.
  apply andb_true_iff in C as [C C4]. apply andb_true_iff in C as [C C3]. apply andb_true_iff in C as [C1 C2].
  pose proof (csqn_ok m1 p e Ep Em al) as H1. set (a1 := csqn m1 p e al) in *.
  pose proof (cpow_ok m1 p Ep Em q a1) as H2. set (a2 := cpow m1 p q a1) in *.
  pose proof (cmul_ok m1 p a1 a1 Ep Em) as H3. set (a3 := cmul m1 p a1 a1) in *.
  clearbody a1 a2 a3.
  apply BigN.eqb_eq in C1, C2, C3, C4. unfold BigN.eq in *.
  rewrite BigN.spec_modulo, BigN.spec_add, !BigN.spec_mul, Ep in C1. change [1]%bigN with 1 in C1.
  rewrite BigN.spec_modulo, BigN.spec_mul, BigN.spec_add, Ep, Em in C4. change [1]%bigN with 1 in C4.
  change [0]%bigN with 0 in C3. rewrite Em in C2.
  pose proof P_gt_1 as PP.
  apply (prime_from_cert P e (Pos.to_nat q) (toG al) [w]%bigN (toG a3)); auto.
  - lia.
  - rewrite Nat2Z.inj_mul, Nat2Z.inj_pow, positive_nat_Z. exact Hsq.
  - unfold gnorm, toG. cbn [fst snd].
    destruct (mod_div_sub ([fst al]%bigN * [fst al]%bigN + [snd al]%bigN * [snd al]%bigN) P ltac:(lia)) as [a Ha].
    exists (- a). lia.
  - rewrite Nat.mul_comm, gpow_mul.
    eapply geq_trans; [apply geq_sym; eapply geq_trans; [exact H2|]; apply gpow_geq; exact H1|].
    unfold toG. split; cbn [fst snd]; [rewrite C2; exists 1; lia|rewrite C3; exists 0; lia].
  - rewrite Nat.pow_succ_r', dbl_nat, gpow_add. apply geq_sym. eapply geq_trans; [exact H3|]. apply geq_gm; exact H1.
  - unfold toG. cbn [fst snd]. destruct (mod_div_sub (([fst a3]%bigN + (P - 1)) * [w]%bigN) P ltac:(lia)) as [a Ha]. rewrite C4 in Ha.
    exists (- a - [w]%bigN). lia.
Qed.

Lemma P_odd : P mod 2 = 1. Proof. vm_compute. reflexivity. Qed.
Lemma P_sqrt : P < (2 ^ Z.of_nat 633 * 41161) * (2 ^ Z.of_nat 633 * 41161). Proof. vm_compute. reflexivity. Qed.

Theorem P_prime : prime P.
Proof.
  apply (cert_sound bP bPm1 alphaN winvN 633 41161).
  - exact bP_P.
  - exact bm1_P.
  - exact Q41_prime.
  - exact P_odd.
  - exact P_sqrt.
  - exact cert_ok.
Qed.
