(** The quadratic extension Zp[i], i^2 = -1: field structure, squares and fourth powers. *)
From Coq Require Import ZArith List Lia Bool Ring Field.
From Verif Require Import S_Fp L_Zp.
Open Scope zp_scope.

(** ** Algebra over an abstract field with 2 <> 0 *)
Section Alg.
Variables (F : Type) (f0 f1 : F) (fadd fmul fsub : F -> F -> F) (fopp : F -> F) (fdiv : F -> F -> F) (finv : F -> F).
Hypothesis FT : field_theory f0 f1 fadd fmul fsub fopp fdiv finv (@eq F).
Add Field Ff : FT.
Infix "+" := fadd. Infix "*" := fmul. Infix "-" := fsub. Infix "/" := fdiv. Notation "- x" := (fopp x). Notation "0" := f0. Notation "1" := f1. Notation "2" := (fadd f1 f1).
Hypothesis T : 2 <> 0.
Hypothesis dec : forall a b : F, {a = b} + {a <> b}.
Lemma a_inv_l x : x <> 0 -> finv x * x = 1. Proof. intros. field. auto. Qed.
Lemma a_mul_eq0 a b : a * b = 0 -> a = 0 \/ b = 0.
Proof. intros H. destruct (dec a 0) as [|N]; auto. right. replace b with (finv a * (a * b)) by (field; auto). rewrite H. ring. Qed.
Lemma a_sq0 a : a * a = 0 -> a = 0. Proof. intros H. destruct (a_mul_eq0 _ _ H); auto. Qed.
Lemma a_mul_nz a b : a <> 0 -> b <> 0 -> a * b <> 0. Proof. intros Ha Hb H. destruct (a_mul_eq0 _ _ H); auto. Qed.
Ltac zf := field; repeat split; auto using a_mul_nz.
Lemma a_half_twice a : a / 2 + a / 2 = a. Proof. zf. Qed.
Lemma a_half_sub x d : (x + d) / 2 - d = (x + - d) / 2. Proof. zf. Qed.
Lemma a_qinv a b : a * a + b * b <> 0 -> a / (a * a + b * b) * a - - b / (a * a + b * b) * b = 1 /\ a / (a * a + b * b) * b + - b / (a * a + b * b) * a = 0.
Proof. intros. split; zf. Qed.
Lemma sqrt_alg x0 x1 d y0 : d * d = x0 * x0 + x1 * x1 -> x1 <> 0 -> y0 * y0 = (x0 + d) / 2 ->
  y0 <> 0 /\ y0 * y0 - x1 / (2 * y0) * (x1 / (2 * y0)) = x0 /\ y0 * (x1 / (2 * y0)) + x1 / (2 * y0) * y0 = x1.
Proof.
  intros Hd N Hy.
  assert (N0 : x0 + d <> 0).
  { intros E. apply N. apply a_sq0. replace (x1 * x1) with ((x0 * x0 + x1 * x1) - x0 * x0) by ring. rewrite <- Hd.
    replace d with (x0 + d - x0) by ring. rewrite E. ring. }
  assert (Ny : y0 <> 0).
  { intros E. apply N0. rewrite E in Hy. replace (x0 + d) with (2 * ((x0 + d) / 2)) by zf. rewrite <- Hy. ring. }
  split; auto. split.
  - replace (x1 / (2 * y0) * (x1 / (2 * y0))) with ((x1 * x1) / (2 * 2 * (y0 * y0))) by zf. rewrite Hy.
    replace (x1 * x1) with (d * d - x0 * x0) by (rewrite Hd; ring). zf.
  - zf.
Qed.
Lemma sides_alg x0 x1 d w : d * d = x0 * x0 + x1 * x1 -> w <> 0 -> w * w = - ((x0 + d) / 2) ->
  x1 / (2 * w) * (x1 / (2 * w)) = (x0 + d) / 2 - d.
Proof.
  intros Hd Nw Hw. replace (x1 / (2 * w) * (x1 / (2 * w))) with ((x1 * x1) / (2 * 2 * (w * w))) by zf. rewrite Hw.
  replace (x1 * x1) with (d * d - x0 * x0) by (rewrite Hd; ring).
  assert (N0 : x0 + d <> 0). { intros E. apply Nw, a_sq0. rewrite Hw, E. zf. }
  field. repeat split; auto using a_mul_nz. intros E. apply N0. transitivity (- (- (x0 + d))); [ring|]. rewrite E. ring.
Qed.
Lemma fourth_alg x0 x1 n s y0 : n * n * (n * n) = x0 * x0 + x1 * x1 -> s * s = (n * n + x0) / 2 -> y0 * y0 = (s + n) / 2 ->
  s <> 0 -> y0 <> 0 -> let y1 := x1 / (y0 * (2 * 2 * s)) in
  let a := y0 * y0 - y1 * y1 in let b := y0 * y1 + y1 * y0 in a * a - b * b = x0 /\ a * b + b * a = x1.
Proof.
  intros Hn Hs Hy Ns Ny y1 a b.
  assert (Hx0 : x0 = 2 * (s * s) - n * n) by (rewrite Hs; zf).
  assert (E2 : 2 * y0 * y1 * (2 * s) = x1) by (unfold y1; zf).
  assert (E1 : y1 * y1 = (n - s) / 2).
  { assert (Hx1 : x1 * x1 = 2 * 2 * (s * s) * (n - s) * (n + s)).
    { replace (x1 * x1) with (n * n * (n * n) - x0 * x0) by (rewrite Hn; ring). rewrite Hx0. ring. }
    unfold y1. replace (x1 / (y0 * (2 * 2 * s)) * (x1 / (y0 * (2 * 2 * s)))) with (x1 * x1 / (2 * 2 * 2 * 2 * (y0 * y0) * (s * s))) by zf.
    rewrite Hx1, Hy. field. repeat split; auto using a_mul_nz. intros E. apply Ny, a_sq0. rewrite Hy. rewrite E. zf. }
  unfold a, b. split.
  - transitivity ((y0 * y0 - y1 * y1) * (y0 * y0 - y1 * y1) - 2 * 2 * (y0 * y0) * (y1 * y1)); [ring|]. rewrite Hy, E1, Hx0. zf.
  - transitivity (2 * y0 * y1 * (2 * (y0 * y0 - y1 * y1))); [ring|]. rewrite Hy, E1. rewrite <- E2. zf.
Qed.
Lemma fourth_alg_s0 x0 x1 n y0 : n * n * (n * n) = x0 * x0 + x1 * x1 -> (n * n + x0) / 2 = 0 -> y0 * y0 = n / 2 ->
  let a := y0 * y0 - y0 * y0 in let b := y0 * y0 + y0 * y0 in x1 = 0 /\ a * a - b * b = x0 /\ a * b + b * a = 0.
Proof.
  intros Hn Hs Hy a b. assert (E0 : x0 = - (n * n)).
  { replace x0 with (2 * ((n * n + x0) / 2) - n * n) by zf. rewrite Hs. ring. }
  split; [|split].
  - apply a_sq0. replace (x1 * x1) with (n * n * (n * n) - x0 * x0) by (rewrite Hn; ring). rewrite E0. ring.
  - unfold a, b. rewrite Hy, E0. zf.
  - unfold a, b. ring.
Qed.
Lemma fourth_alg_y0 x0 x1 n s : n * n * (n * n) = x0 * x0 + x1 * x1 -> s * s = (n * n + x0) / 2 -> (s + n) / 2 = 0 -> x1 = 0 /\ x0 = n * n.
Proof.
  intros Hn Hs Hy. assert (E : s = - n). { replace s with (2 * ((s + n) / 2) - n) by zf. rewrite Hy. ring. }
  assert (E0 : x0 = n * n). { replace x0 with (2 * ((n * n + x0) / 2) - n * n) by zf. rewrite <- Hs, E. ring. }
  split; auto. apply a_sq0. replace (x1 * x1) with (n * n * (n * n) - x0 * x0) by (rewrite Hn; ring). rewrite E0. ring.
Qed.
(** the candidates for a known fourth power (a + ib)^4 *)
Lemma fourth_cand a b : let x0 := (a * a - b * b) * (a * a - b * b) - (a * b + b * a) * (a * b + b * a) in
  ((a * a + b * b) * (a * a + b * b) + x0) / 2 = (a * a - b * b) * (a * a - b * b).
Proof. intros x0. unfold x0. zf. Qed.
Lemma cand_pp a b : ((a * a - b * b) + (a * a + b * b)) / 2 = a * a. Proof. zf. Qed.
Lemma cand_pm a b : ((a * a - b * b) + - (a * a + b * b)) / 2 = - (b * b). Proof. zf. Qed.
Lemma cand_mp a b : (- (a * a - b * b) + (a * a + b * b)) / 2 = b * b. Proof. zf. Qed.
Lemma cand_mm a b : (- (a * a - b * b) + - (a * a + b * b)) / 2 = - (a * a). Proof. zf. Qed.
End Alg.

Definition Zq : Type := (Zp * Zp)%type.
Definition q0 : Zq := (0, 0).
Definition q1 : Zq := (1, 0).
Definition qadd (x y : Zq) : Zq := (fst x + fst y, snd x + snd y).
Definition qsub (x y : Zq) : Zq := (fst x - fst y, snd x - snd y).
Definition qopp (x : Zq) : Zq := (- fst x, - snd x).
Definition qconj (x : Zq) : Zq := (fst x, - snd x).
Definition qmul (x y : Zq) : Zq := (fst x * fst y - snd x * snd y, fst x * snd y + snd x * fst y).
Definition qnorm (x : Zq) : Zp := fst x * fst x + snd x * snd x.
Definition qinv (x : Zq) : Zq := (fst x / qnorm x, - snd x / qnorm x).
Definition qdiv (x y : Zq) : Zq := qmul x (qinv y).

Ltac qring := repeat match goal with x : Zq |- _ => destruct x end; unfold q0, q1, qadd, qsub, qopp, qconj, qmul, qnorm in *; cbn [fst snd] in *; try (apply (f_equal2 (@pair Zp Zp))); ring.
Lemma Zq_ring : ring_theory q0 q1 qadd qmul qsub qopp (@eq Zq).
Proof. constructor; intros; qring. Qed.
Lemma qnorm_0 x : qnorm x = 0 -> x = q0.
Proof. destruct x as [a b]. intros H. unfold qnorm in H. cbn [fst snd] in H. apply norm_0 in H. destruct H as [-> ->]. reflexivity. Qed.
Lemma qnorm_nz x : x <> q0 -> qnorm x <> 0. Proof. intros N H. apply N, qnorm_0, H. Qed.
Lemma qinv_l x : x <> q0 -> qmul (qinv x) x = q1.
Proof.
  intros N. apply qnorm_nz in N. destruct x as [a b]. unfold qinv, qmul, q1. cbn [fst snd]. unfold qnorm in *. cbn [fst snd] in *. destruct (a_qinv _ _ _ _ _ _ _ _ _ Zp_field a b N) as [-> ->]. reflexivity.
Qed.
Lemma q1_nz : q1 <> q0. Proof. intros H. injection H as H. exact (one_neq_zero H). Qed.
Lemma Zq_field : field_theory q0 q1 qadd qmul qsub qopp qdiv qinv (@eq Zq).
Proof. constructor; [exact Zq_ring|exact q1_nz|reflexivity|exact qinv_l]. Qed.
Lemma qinv_0 : qinv q0 = q0.
Proof. unfold qinv, q0. cbn [fst snd]. replace (qnorm (0, 0)) with 0 by (unfold qnorm; cbn [fst snd]; ring). rewrite !zdiv_0. reflexivity. Qed.
Lemma qdiv_0 x : qdiv x q0 = q0. Proof. unfold qdiv. rewrite qinv_0. qring. Qed.
Lemma qnorm_mul x y : qnorm (qmul x y) = qnorm x * qnorm y. Proof. qring. Qed.
Lemma q_dec (x y : Zq) : {x = y} + {x <> y}.
Proof. destruct x as [a b], y as [c d]. destruct (zp_dec a c), (zp_dec b d); subst; [left; reflexivity|right..]; congruence. Qed.

(** ** Squares *)
Definition qsquare (x : Zq) : Prop := exists z, qmul z z = x.
Lemma double_eq0 a : 2 * a = 0 -> a = 0.
Proof. intros H. destruct (zmul_eq0 _ _ H) as [E|E]; auto. exfalso. exact (two_nz E). Qed.
Lemma half_sum a : a / 2 + a / 2 = a. Proof. field. apply two_nz. Qed.
(** from a root of the norm and of the right candidate *)
Lemma qsqrt_alg x0 x1 d y0 : d * d = x0 * x0 + x1 * x1 -> x1 <> 0 -> y0 * y0 = (x0 + d) / 2 ->
  y0 <> 0 /\ qmul (y0, x1 / (2 * y0)) (y0, x1 / (2 * y0)) = (x0, x1).
Proof. intros H N Hy. destruct (sqrt_alg _ _ _ _ _ _ _ _ _ Zp_field two_nz zp_dec _ _ _ _ H N Hy) as (A & B & C). split; auto. unfold qmul. cbn [fst snd]. rewrite B, C. reflexivity. Qed.
Lemma sqrt_sides x0 x1 d : d * d = x0 * x0 + x1 * x1 -> x1 <> 0 -> ~ zsquare ((x0 + d) / 2) -> zsquare ((x0 + d) / 2 - d).
Proof.
  intros Hd N H. destruct (zsquare_or_opp ((x0 + d) / 2)) as [|[w Hw]]; [contradiction|].
  assert (Nw : w <> 0).
  { intros ->. apply H. exists 0. rewrite <- (zopp_invol ((x0 + d) / 2)), <- Hw. ring. }
  exists (x1 / (2 * w)). exact (sides_alg _ _ _ _ _ _ _ _ _ Zp_field two_nz zp_dec _ _ _ _ Hd Nw Hw).
Qed.
Lemma qsquare_norm x : qsquare x <-> zsquare (qnorm x).
Proof.
  split.
  - intros [z <-]. exists (qnorm z). symmetry. apply qnorm_mul.
  - destruct x as [x0 x1]. intros [d Hd]. unfold qnorm in Hd. cbn [fst snd] in Hd. destruct (zp_dec x1 0) as [->|N].
    + destruct (zsquare_or_opp x0) as [[w Hw]|[w Hw]].
      * exists (w, 0). unfold qmul. cbn [fst snd]. rewrite Hw. f_equal; ring.
      * exists (0, w). unfold qmul. cbn [fst snd]. rewrite Hw. f_equal; ring.
    + destruct (zsquare_dec ((x0 + d) / 2)) as [[w Hw]|S].
      * eexists. exact (proj2 (qsqrt_alg x0 x1 d w Hd N Hw)).
      * apply (sqrt_sides _ _ _ Hd N) in S. destruct S as [w Hw]. eexists. apply (proj2 (qsqrt_alg x0 x1 (- d) w ltac:(rewrite <- Hd; ring) N ltac:(rewrite Hw; exact (a_half_sub _ _ _ _ _ _ _ _ _ Zp_field two_nz x0 d)))).
Qed.

(** ** Fourth powers *)
Definition q4 (x : Zq) : Zq := qmul (qmul x x) (qmul x x).
Definition qfourth (x : Zq) : Prop := exists z, q4 z = x.
