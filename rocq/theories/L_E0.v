(** The group of y^2 = x^3 + 6x^2 + x over the quadratic extension: it is killed by p+1 and contains a basis of its 2^634-torsion. *)
From Coq Require Import Arith ZArith List Bool Lia Ring Field Znumtheory Permutation.
From Verif Require Import S_Fp S_Fp2 S_Curve L_Fp L_FpOps L_Zp L_Zp2 L_Fp2 L_Group L_Kummer L_Field L_Curve L_QNum L_Jacobi L_Chi L_Descent L_Count L_FinGrp P_Curve P_Super P_Pairing P_PairEx P_Entangled.
Import ListNotations.
Open Scope Z_scope.
Add Field Zp_e0 : Zp_field.
Add Field Zq_e0 : Zq_field.

Definition re (x : Zp) : Zq := (x, zp0).
Definition im (y : Zp) : Zq := (zp0, y).
Definition A6 : Zq := re six.
Lemma qz6 : qz 6 = A6.
Proof. unfold A6, re, qz, six. f_equal. rewrite zp1_eq, <- !mk_add, <- mk_mul. reflexivity. Qed.
Lemma sm6 : qmul A6 A6 <> q4.
Proof. rewrite <- qz6, <- qz_mul. unfold q4, q2. rewrite <- qz_1, <- !qz_add. apply qz_neq. apply small_P; reflexivity. Qed.
Notation On := (on_q A6). Notation "p +++ q" := (padd_q A6 p q) (at level 50, left associativity). Notation mul := (pmul_q A6).

(** ** Conjugation *)
Lemma conj_add x y : qconj (qadd x y) = qadd (qconj x) (qconj y). Proof. unfold qconj, qadd. cbn [fst snd]. f_equal. ring. Qed.
Lemma conj_sub x y : qconj (qsub x y) = qsub (qconj x) (qconj y). Proof. unfold qconj, qsub. cbn [fst snd]. f_equal. ring. Qed.
Lemma conj_mul x y : qconj (qmul x y) = qmul (qconj x) (qconj y). Proof. unfold qconj, qmul. cbn [fst snd]. f_equal; ring. Qed.
Lemma conj_opp x : qconj (qopp x) = qopp (qconj x). Proof. reflexivity. Qed.
Lemma conj_inv x : qconj (qinv x) = qinv (qconj x).
Proof. unfold qconj, qinv, qnorm, zdiv. cbn [fst snd]. replace (- snd x * - snd x)%zp with (snd x * snd x)%zp by ring. f_equal; ring. Qed.
Lemma conj_div x y : qconj (qdiv x y) = qdiv (qconj x) (qconj y). Proof. unfold qdiv. rewrite conj_mul, conj_inv. reflexivity. Qed.
Lemma conj_invol x : qconj (qconj x) = x. Proof. destruct x as [a b]. unfold qconj. cbn [fst snd]. f_equal. ring. Qed.
Lemma conj_inj x y : qconj x = qconj y -> x = y. Proof. intros H. rewrite <- (conj_invol x), <- (conj_invol y), H. reflexivity. Qed.
Lemma conj_1 : qconj q1 = q1. Proof. unfold qconj, q1. cbn [fst snd]. f_equal. ring. Qed.
Lemma conj_re x : qconj (re x) = re x. Proof. unfold qconj, re. cbn [fst snd]. f_equal. ring. Qed.
Lemma conj_im x : qconj (im x) = qopp (im x). Proof. unfold qconj, im, qopp. cbn [fst snd]. f_equal. ring. Qed.
Lemma opp_self a : a = (- a)%zp -> a = zp0.
Proof. intros E. assert (Z : (2 * a)%zp = 0%zp) by (transitivity (a - - a)%zp; [ring|rewrite <- E; ring]). destruct (zmul_eq0 _ _ Z) as [E2|E2]; [destruct (two_nz E2)|exact E2]. Qed.
Lemma conj_fix x : qconj x = x -> exists a, x = re a.
Proof. destruct x as [a b]. unfold qconj. cbn [fst snd]. intros E. exists a. unfold re. f_equal. apply (f_equal snd) in E. cbn [snd] in E. apply opp_self. symmetry. exact E. Qed.
Lemma conj_anti x : qconj x = qopp x -> exists a, x = im a.
Proof. destruct x as [a b]. unfold qconj, qopp. cbn [fst snd]. intros E. exists b. unfold im. f_equal. apply (f_equal fst) in E. cbn [fst] in E. apply opp_self. exact E. Qed.
Definition pc (p : pt Zq) : pt Zq := match p with None => None | Some (x, y) => Some (qconj x, qconj y) end.
Lemma qeqb_conj x y : qeqb (qconj x) (qconj y) = qeqb x y.
Proof. destruct (qeqb x y) eqn:E; [apply qeqb_true in E; rewrite E; apply qeqb_true; reflexivity|]. destruct (qeqb (qconj x) (qconj y)) eqn:E2; [|reflexivity]. apply qeqb_true, conj_inj, qeqb_true in E2. congruence. Qed.
Lemma pc_chord m x1 y1 x2 : pc (chord qmul qsub A6 m x1 y1 x2) = chord qmul qsub A6 (qconj m) (qconj x1) (qconj y1) (qconj x2).
Proof. unfold chord. cbn [pc]. rewrite !conj_sub, !conj_mul, !conj_sub, !conj_mul. replace (qconj A6) with A6 by (symmetry; apply conj_re). reflexivity. Qed.
Lemma pc_add p q : pc (p +++ q) = pc p +++ pc q.
Proof.
  destruct p as [[x1 y1]|]; [|reflexivity]. destruct q as [[x2 y2]|]; [|reflexivity]. unfold padd_q, padd. cbn [pc].
  rewrite qeqb_conj, <- conj_opp, qeqb_conj. destruct (qeqb x1 x2); [destruct (qeqb y1 (qopp y2)); [reflexivity|]|]; rewrite pc_chord; f_equal; rewrite conj_div; repeat rewrite ?conj_add, ?conj_sub, ?conj_mul, ?conj_1; [|reflexivity].
  replace (qconj A6) with A6 by (symmetry; apply conj_re). reflexivity.
Qed.
Lemma pc_on p : On p -> On (pc p).
Proof.
  destruct p as [[x y]|]; [|intros; exact I]. unfold on_q, on, pc. intros H. apply (f_equal qconj) in H. rewrite !conj_add, !conj_mul in H. replace (qconj A6) with A6 in H by (symmetry; apply conj_re). exact H.
Qed.
Lemma pc_invol p : pc (pc p) = p. Proof. destruct p as [[x y]|]; [|reflexivity]. cbn [pc]. rewrite !conj_invol. reflexivity. Qed.
Lemma pc_opp p : pc (popp_q p) = popp_q (pc p). Proof. destruct p as [[x y]|]; reflexivity. Qed.

(** ** The two real forms *)
Definition twp (tw : bool) (p : pt Zq) : pt Zq := if tw then popp_q p else p.
Definition emb (tw : bool) (p : Zp * Zp) : pt Zq := Some (re (fst p), if tw then im (snd p) else re (snd p)).
Lemma on_emb tw x y : On (emb tw (x, y)) <-> (y * y)%zp = if tw then (- cub x)%zp else cub x.
Proof.
  unfold emb, on_q, on, cub, A6. cbn [fst snd]. destruct tw; unfold re, im, qmul, qadd; cbn [fst snd]; split; intros H.
  - apply (f_equal fst) in H. cbn [fst] in H. transitivity (- (0 * 0 - y * y))%zp; [ring|rewrite H; ring].
  - apply (f_equal2 (@pair Zp Zp)); [|ring]. transitivity (- (y * y))%zp; [ring|rewrite H; ring].
  - apply (f_equal fst) in H. cbn [fst] in H. transitivity (y * y - 0 * 0)%zp; [ring|rewrite H; ring].
  - apply (f_equal2 (@pair Zp Zp)); [|ring]. transitivity (y * y)%zp; [ring|rewrite H; ring].
Qed.
Lemma real_form tw p : pc p = twp tw p -> p = None \/ exists x y, p = emb tw (x, y).
Proof.
  destruct p as [[x y]|]; [|left; reflexivity]. intros H. right. unfold emb. cbn [fst snd].
  assert (Hx : qconj x = x) by (destruct tw; exact (f_equal (fun p => match p with Some (a, _) => a | None => q0 end) H)).
  destruct (conj_fix x Hx) as [a ->]. destruct tw; pose proof (f_equal (fun p => match p with Some (_, b) => b | None => q0 end) H : qconj y = _) as Hy; cbn beta iota in Hy.
  - destruct (conj_anti y Hy) as [b ->]. exists a, b. reflexivity.
  - destruct (conj_fix y Hy) as [b ->]. exists a, b. reflexivity.
Qed.
Lemma pc_emb tw q : pc (emb tw q) = twp tw (emb tw q).
Proof. destruct tw; unfold emb; cbn [pc twp popp_q popp]; rewrite conj_re, ?conj_re, ?conj_im; reflexivity. Qed.
Notation sub := (subgroup (pt Zq) (padd_q A6) None popp_q On).
Lemma real_group tw : exists l : list (pt Zq), sub l /\ (forall p, In p l <-> On p /\ pc p = twp tw p) /\ Z.of_nat (length l) = P + 1.
Proof.
  destruct (count_points tw) as (l & Nd & Hin & Len). exists (None :: map (emb tw) l).
  assert (IN : forall p, In p (None :: map (emb tw) l) <-> On p /\ pc p = twp tw p).
  { intros p. split.
    - intros [<-|H]; [split; [exact I|destruct tw; reflexivity]|]. apply in_map_iff in H. destruct H as ([x y] & <- & H). split; [apply on_emb, Hin, H|apply pc_emb].
    - intros [H1 H2]. destruct (real_form tw p H2) as [->|(x & y & ->)]; [left; reflexivity|right]. apply in_map, Hin, on_emb, H1. }
  split; [|split; [exact IN|cbn [length]; rewrite map_length, Nat2Z.inj_succ, Len; reflexivity]].
  split.
  - constructor.
    + intros H. apply in_map_iff in H. destruct H as (q & H & _). discriminate H.
    + apply map_NoDup_in; [|exact Nd]. intros [x y] [x' y'] _ _ E. unfold emb in E. cbn [fst snd] in E. injection E as E1 E2. destruct tw; injection E2 as E2; congruence.
  - intros p H. apply IN in H. tauto.
  - left. reflexivity.
  - intros p q Hp Hq. apply IN in Hp, Hq. destruct Hp as [P1 P2], Hq as [Q1 Q2]. apply IN. split; [apply g_on; assumption|]. rewrite pc_add, P2, Q2. destruct tw; [|reflexivity]. symmetry. apply (popp_add Zq_field qeqb_true q2_nz); assumption.
  - intros p Hp. apply IN in Hp. destruct Hp as [P1 P2]. apply IN. split; [apply g_onopp; exact P1|]. rewrite pc_opp, P2. destruct tw; reflexivity.
Qed.

(** ** The points of order two *)
Lemma root_two : exists r : Zp, (r * r)%zp = 2%zp /\ zsquare r /\ r <> zp0.
Proof.
  assert (S : zsquare 2%zp). { replace (2 : Zp)%zp with (mk (zprod [2])) by (rewrite zp1_eq, <- mk_add; reflexivity). exact (proj1 (zsq_prod [2] eq_refl) eq_refl). }
  destruct S as [r Hr]. assert (N : r <> zp0) by (intros Z; apply two_nz; rewrite <- Hr, Z; ring).
  destruct (zsquare_or_opp r) as [S|S]; [exists r|exists (- r)%zp]; (split; [rewrite <- Hr; ring|split; [exact S|]]); [exact N|]. intros Z. exact (N (zopp_0 r Z)).
Qed.
Lemma re_inj a b : re a = re b -> a = b. Proof. intros H. exact (f_equal fst H). Qed.
Lemma re_mul a b : qmul (re a) (re b) = re (a * b)%zp. Proof. unfold re, qmul. cbn [fst snd]. f_equal; ring. Qed.
Lemma im_mul a b : qmul (im a) (im b) = re (- (a * b))%zp. Proof. unfold re, im, qmul. cbn [fst snd]. f_equal; ring. Qed.
Lemma re_add a b : qadd (re a) (re b) = re (a + b)%zp. Proof. unfold re, qadd. cbn [fst snd]. f_equal; ring. Qed.
Lemma re_sub a b : qsub (re a) (re b) = re (a - b)%zp. Proof. unfold re, qsub. cbn [fst snd]. f_equal; ring. Qed.
Lemma re_opp a : qopp (re a) = re (- a)%zp. Proof. unfold re, qopp. cbn [fst snd]. f_equal; ring. Qed.
Lemma re_1 : q1 = re zp1. Proof. reflexivity. Qed.
Lemma re_0 : q0 = re zp0. Proof. reflexivity. Qed.
Lemma re_square a : qsquare (re a). Proof. apply qsquare_norm. unfold qnorm, re. cbn [fst snd]. exists a. ring. Qed.

(** abscissa of a double, without division *)
Lemma dbl_x x y x3 y3 : On (Some (x, y)) -> Some (x, y) +++ Some (x, y) = Some (x3, y3) -> y <> q0 /\ qmul x3 (qmul (qmul q4 y) y) = qmul (qsub (qmul x x) q1) (qsub (qmul x x) q1).
Proof.
  intros H D. destruct (q_dec y q0) as [Y|Y]; [rewrite (dbl_inf Zq_field qeqb_true x y H Y : Some (x, y) +++ Some (x, y) = None) in D; discriminate|]. split; [exact Y|].
  pose proof (dbl_fin Zq_field qeqb_true q2_nz x y H Y : Some (x, y) +++ Some (x, y) = _) as E. rewrite E in D. apply some_inj in D. apply (f_equal fst) in D. cbn [fst] in D. rewrite <- D. clear D E.
  assert (G : forall u w, w <> q0 -> qmul (qdiv u w) w = u) by (intros u w Nw; field; exact Nw). transitivity (qmul (qdiv (qmul (qsub (qmul x x) q1) (qsub (qmul x x) q1)) (qmul q4 (qmul y y))) (qmul q4 (qmul y y))); [f_equal; ring|].
  apply G. apply (mulr_nz Zq_field qeqb_true); [exact (four_nz Zq_field qeqb_true q2_nz)|apply (mulr_nz Zq_field qeqb_true); exact Y].
Qed.
Lemma dbl_e e x y x3 y3 : On (Some (x, y)) -> Some (x, y) +++ Some (x, y) = Some (x3, y3) -> qadd (qadd (qmul e e) (qmul A6 e)) q1 = q0 ->
  qmul (qsub x3 e) (qmul (qmul q4 y) y) = qmul (qadd (qsub (qmul x x) (qmul (qmul q2 e) x)) q1) (qadd (qsub (qmul x x) (qmul (qmul q2 e) x)) q1).
Proof.
  intros H D Q. destruct (dbl_x x y x3 y3 H D) as [_ E]. unfold on_q, on in H. assert (QA : qmul A6 e = qsub (qopp (qmul e e)) q1) by (transitivity (qsub (qsub (qadd (qadd (qmul e e) (qmul A6 e)) q1) (qmul e e)) q1); [ring|rewrite Q; ring]).
  transitivity (qsub (qmul x3 (qmul (qmul q4 y) y)) (qmul (qmul q4 e) (qmul y y))); [ring|]. rewrite E, H. unfold q4, q2.
  transitivity (qsub (qmul (qsub (qmul x x) q1) (qsub (qmul x x) q1)) (qmul (qadd (qadd q1 q1) (qadd q1 q1)) (qadd (qadd (qmul e (qmul x (qmul x x))) (qmul (qmul A6 e) (qmul x x))) (qmul e x)))); [ring|]. rewrite QA. ring.
Qed.
Lemma sq_of s w y : y <> zp0 -> (s * (2 * y * (2 * y)))%zp = (w * w)%zp -> zsquare s.
Proof. intros N H. exists (w / (2 * y))%zp. pose proof two_nz as N2. transitivity ((w * w) / (2 * y * (2 * y)))%zp; [field; auto|]. rewrite <- H. field. auto. Qed.
Definition sg (tw : bool) (z : Zp) : Zp := if tw then (- z)%zp else z.
Definition tp (e : Zp) : pt Zq := Some (re e, q0).
Lemma q4_re : q4 = re (2 * 2)%zp. Proof. unfold q4, q2. rewrite re_1, !re_add. f_equal. ring. Qed.
Lemma q2_re : q2 = re 2%zp. Proof. unfold q2. rewrite re_1, re_add. reflexivity. Qed.
Lemma img_0 tw x y e : On (emb tw (x, y)) -> emb tw (x, y) +++ emb tw (x, y) = tp e -> zsquare (sg tw e).
Proof.
  unfold emb, tp. cbn [fst snd]. intros H D. destruct (dbl_x _ _ _ _ H D) as [N E]. rewrite q4_re, re_1, !re_mul, !re_sub, !re_mul in E.
  destruct tw; cbn [sg].
  - replace (qmul (qmul (re (2 * 2)%zp) (im y)) (im y)) with (re (- (2 * y * (2 * y)))%zp) in E by (unfold re, im, qmul; cbn [fst snd]; f_equal; ring). rewrite re_mul in E. apply re_inj in E.
    apply (sq_of _ (x * x - 1)%zp y); [intros Z; apply N; rewrite Z; reflexivity|]. rewrite <- E. ring.
  - rewrite !re_mul in E. apply re_inj in E. apply (sq_of _ (x * x - 1)%zp y); [intros Z; apply N; rewrite Z; reflexivity|]. rewrite <- E. ring.
Qed.
Lemma img_e tw x y e e' : On (emb tw (x, y)) -> emb tw (x, y) +++ emb tw (x, y) = tp e -> (e' * e' + six * e' + 1)%zp = zp0 -> zsquare (sg tw (e - e')%zp).
Proof.
  unfold emb, tp. cbn [fst snd]. intros H D Q. destruct (dbl_x _ _ _ _ H D) as [N _].
  assert (Q' : qadd (qadd (qmul (re e') (re e')) (qmul A6 (re e'))) q1 = q0) by (unfold A6; rewrite re_1, !re_mul, !re_add, Q; reflexivity).
  pose proof (dbl_e (re e') _ _ _ _ H D Q') as E. rewrite q4_re, q2_re, re_1, !re_mul, !re_sub, !re_add, !re_mul in E.
  destruct tw; cbn [sg].
  - replace (qmul (qmul (re (2 * 2)%zp) (im y)) (im y)) with (re (- (2 * y * (2 * y)))%zp) in E by (unfold re, im, qmul; cbn [fst snd]; f_equal; ring). rewrite re_mul in E. apply re_inj in E.
    apply (sq_of _ (x * x - 2 * e' * x + 1)%zp y); [intros Z; apply N; rewrite Z; reflexivity|]. rewrite <- E. ring.
  - rewrite !re_mul in E. apply re_inj in E. apply (sq_of _ (x * x - 2 * e' * x + 1)%zp y); [intros Z; apply N; rewrite Z; reflexivity|]. rewrite <- E. ring.
Qed.

Notation gdbl := (dbl (pt Zq) (padd_q A6)).
Definition pdec (p q : pt Zq) : {p = q} + {p <> q}.
Proof. destruct p as [[x y]|], q as [[x' y']|]; [|right; discriminate|right; discriminate|left; reflexivity]. destruct (q_dec x x') as [->|N]; [|right; intros E; injection E; auto]. destruct (q_dec y y') as [->|N]; [left; reflexivity|right; intros E; injection E; auto]. Defined.
Notation gtors := (tors2 (pt Zq) (padd_q A6) None pdec).
Section Roots.
Variable r : Zp.
Hypothesis Hr : (r * r)%zp = 2%zp.
Hypothesis Sr : zsquare r.
Hypothesis Nr : r <> zp0.
Definition ra : Zp := (2 * r - (1 + 2))%zp.
Definition rb : Zp := (- (2 * r) - (1 + 2))%zp.
Lemma ra_root : (ra * ra + six * ra + 1)%zp = zp0.
Proof. unfold ra, six. transitivity (2 * 2 * (r * r - 2))%zp; [ring|rewrite Hr; ring]. Qed.
Lemma rb_root : (rb * rb + six * rb + 1)%zp = zp0.
Proof. unfold rb, six. transitivity (2 * 2 * (r * r - 2))%zp; [ring|rewrite Hr; ring]. Qed.
Lemma rab : (ra * rb)%zp = zp1. Proof. unfold ra, rb. transitivity (1 + 2 * 2 * (2 - r * r))%zp; [ring|rewrite Hr; ring]. Qed.
Lemma ra_sq : zsquare (- ra)%zp. Proof. exists (r - 1)%zp. unfold ra. transitivity (r * r - 2 * r + 1)%zp; [ring|rewrite Hr; ring]. Qed.
Lemma rb_sq : zsquare (- rb)%zp. Proof. exists (r + 1)%zp. unfold rb. transitivity (r * r + 2 * r + 1)%zp; [ring|rewrite Hr; ring]. Qed.
Lemma ra_nz : ra <> zp0. Proof. intros Z. apply one_neq_zero. rewrite <- rab, Z. ring. Qed.
Lemma rb_nz : rb <> zp0. Proof. intros Z. apply one_neq_zero. rewrite <- rab, Z. ring. Qed.
Lemma rab_sq : zsquare (ra - rb)%zp. Proof. replace (ra - rb)%zp with (2 * 2 * r)%zp by (unfold ra, rb; ring). apply zsquare_mul; [exists 2%zp; reflexivity|exact Sr]. Qed.
Lemma rab_ne : ra <> rb.
Proof. intros Z. assert (X : (2 * (2 * r))%zp = zp0) by (transitivity (ra - rb)%zp; [unfold ra, rb; ring|rewrite Z; ring]). destruct (zmul_eq0 _ _ X) as [E|E]; [exact (two_nz E)|]. destruct (zmul_eq0 _ _ E) as [E'|E']; [exact (two_nz E')|exact (Nr E')]. Qed.
Lemma root_re e : (e * e + six * e + 1)%zp = zp0 -> root2 (k0 := q0) (kadd := qadd) (kmul := qmul) (A := A6) (re e).
Proof. intros H. unfold root2, A6. rewrite !re_mul, !re_add. rewrite re_0. f_equal. transitivity (e * (e * e + six * e + 1))%zp; [ring|rewrite H; ring]. Qed.
Lemma tors_list p : On p -> (p +++ p = None <-> In p [None; tp zp0; tp ra; tp rb]).
Proof.
  intros H. split.
  - intros D. destruct (two_tor p H D) as [->|(e & -> & R)]; [left; reflexivity|right].
    destruct (three_roots q0 (re ra) (re rb) e (root2_0 Zq_field) (root_re ra ra_root) (root_re rb rb_root) R) as [->|[->| ->]].
    + rewrite re_0. intros E. apply re_inj in E. exact (ra_nz (eq_sym E)).
    + rewrite re_0. intros E. apply re_inj in E. exact (rb_nz (eq_sym E)).
    + intros E. apply re_inj in E. exact (rab_ne E).
    + left. reflexivity. + right. left. reflexivity. + right. right. left. reflexivity.
  - assert (T : forall e, p = tp e -> p +++ p = None) by (intros e ->; exact (dbl_inf Zq_field qeqb_true (re e) q0 H eq_refl)).
    intros [<-|[E|[E|[E|[]]]]]; [reflexivity|exact (T _ (eq_sym E))..].
Qed.
Lemma tp_on e : e = zp0 \/ (e * e + six * e + 1)%zp = zp0 -> On (tp e).
Proof. intros H. apply (root2_on Zq_field). destruct H as [->|H]; [exact (root2_0 Zq_field)|exact (root_re e H)]. Qed.
Lemma tp_pc tw e : pc (tp e) = twp tw (tp e).
Proof. unfold tp. destruct tw; cbn [pc twp popp_q popp]; rewrite conj_re; f_equal; f_equal; unfold qconj, qopp, q0; cbn [fst snd]; f_equal; ring. Qed.
Lemma tors_on t : In t [None; tp zp0; tp ra; tp rb] -> On t /\ forall tw, pc t = twp tw t.
Proof.
  intros [<-|[<-|[<-|[<-|[]]]]]; (split; [|intros tw; first [apply tp_pc|destruct tw; reflexivity]]); [exact I|apply tp_on; left; reflexivity|apply tp_on; right; exact ra_root|apply tp_on; right; exact rb_root].
Qed.
Lemma tors_nodup : NoDup [None; tp zp0; tp ra; tp rb].
Proof.
  assert (D : forall a b, tp a = tp b -> a = b) by (intros a b E; unfold tp in E; apply some_inj in E; apply (f_equal fst) in E; cbn [fst] in E; exact (re_inj _ _ E)).
  repeat constructor; cbn [In]; intros H; repeat (destruct H as [H|H]; [try discriminate H|]); try exact H; apply D in H; [exact (ra_nz H)|exact (rb_nz H)|exact (rab_ne (eq_sym H))].
Qed.
Lemma tors_length tw l : sub l -> (forall p, In p l <-> On p /\ pc p = twp tw p) -> length (gtors l) = 4%nat.
Proof.
  intros S IN. change 4%nat with (length [None; tp zp0; tp ra; tp rb]). apply Permutation_length, NoDup_Permutation; [apply NoDup_filter; exact (sb_nd _ _ _ _ _ l S)|exact tors_nodup|].
  intros p. rewrite tors2_in. split.
  - intros [H D]. apply IN in H. apply (tors_list p (proj1 H)). exact D.
  - intros H. destruct (tors_on p H) as [O C]. split; [apply IN; split; [exact O|apply C]|]. apply (tors_list p O). exact H.
Qed.
(** the only point of order two that is a double in each real form *)
Definition base (tw : bool) : Zp := if tw then rb else zp0.
Lemma only_double tw p : On p -> pc p = twp tw p -> gdbl (gdbl p) = None -> gdbl p = None \/ gdbl p = tp (base tw).
Proof.
  intros H C D. unfold dbl in *. pose proof (g_on p p H H) as H2. pose proof (proj1 (tors_list _ H2) D) as L. destruct (real_form tw p C) as [->|(x & y & ->)]; [left; reflexivity|].
  destruct L as [E|[E|[E|[E|[]]]]]; [left; symmetry; exact E|..]; symmetry in E; destruct tw; cbn [base]; try (right; exact E); exfalso.
  - pose proof (img_e _ _ _ _ ra H E ra_root) as S. cbn [sg] in S. replace (- (0 - ra))%zp with ra in S by ring. exact (ra_nz (zsquare_both _ S ra_sq)).
  - pose proof (img_e _ _ _ _ rb H E rb_root) as S. cbn [sg] in S. pose proof (zsquare_both _ rab_sq S) as Z. apply rab_ne. transitivity (ra - rb + rb)%zp; [ring|rewrite Z; ring].
  - pose proof (img_0 _ _ _ _ H E) as S. cbn [sg] in S. exact (ra_nz (zsquare_both _ S ra_sq)).
  - pose proof (img_0 _ _ _ _ H E) as S. cbn [sg] in S. exact (rb_nz (zsquare_both _ S rb_sq)).
Qed.
(** points of the real forms are doubles over the extension *)
Lemma real_halvable tw p : On p -> pc p = twp tw p -> halvable A6 p.
Proof.
  intros H C. destruct (real_form tw p C) as [->|(x & y & ->)]; [exists None; split; [exact I|reflexivity]|]. unfold emb in *. cbn [fst snd] in *.
  destruct (re_square x) as [s Hs]. destruct (re_square (x - ra)%zp) as [t Ht]. destruct (re_square (x - rb)%zp) as [u Hu]. rewrite <- re_sub in Ht, Hu.
  refine (halve Zq_field qeqb_true q2_nz (re ra) (re rb) (re x) _ s t u _ _ _ _ _ Hs Ht Hu H).
  - rewrite re_mul, rab. reflexivity.
  - unfold A6. rewrite re_add, re_opp. f_equal. unfold ra, rb, six. ring.
  - rewrite re_0. intros E. exact (ra_nz (re_inj _ _ E)).
  - rewrite re_0. intros E. exact (rb_nz (re_inj _ _ E)).
  - intros E. exact (rab_ne (re_inj _ _ E)).
Qed.
End Roots.

(** ** Orders *)
Lemma fg_zero : On None. Proof. exact I. Qed.
Lemma fg_zero_l p : None +++ p = p. Proof. reflexivity. Qed.
Notation nm := (nmul (pt Zq) (padd_q A6) None).
Lemma nm_mul n p : nm n p = mul (Z.of_nat n) p.
Proof. unfold pmul_q. rewrite pmul_to_nat, Nat2Z.id by lia. induction n as [|n IH]; [reflexivity|]. cbn [nmul pmul_nat]. rewrite IH. reflexivity. Qed.
Lemma iter_on k p : On p -> On (Nat.iter k gdbl p). Proof. intros H. induction k as [|k IH]; [exact H|]. apply g_on; exact IH. Qed.
Lemma iter_mul k p : On p -> Nat.iter k gdbl p = mul (2 ^ Z.of_nat k) p.
Proof.
  intros H. induction k as [|k IH]; [reflexivity|]. change (gdbl (Nat.iter k gdbl p) = mul (2 ^ Z.of_nat (S k)) p). rewrite IH, Nat2Z.inj_succ, Z.pow_succ_r by lia. rewrite <- (g_mul_mul sm6) by (auto; try apply Z.pow_nonneg; lia). reflexivity.
Qed.
Lemma half_kills tw : exists n, 4 * n = P + 1 /\ 0 <= n /\ forall p, On p -> pc p = twp tw p -> mul (2 * n) p = None.
Proof.
  destruct root_two as (r & Hr & Sr & Nr). destruct (real_group tw) as (l & S & IN & Len).
  pose proof (length_image2 (pt Zq) (padd_q A6) None popp_q On pdec fg_zero g_on g_onopp g_comm (g_assoc sm6) fg_zero_l g_oppr l S) as LI. rewrite (tors_length r Hr Nr tw l S IN) in LI.
  pose proof (image2_sub (pt Zq) (padd_q A6) None popp_q On pdec g_on g_onopp g_comm (g_assoc sm6) fg_zero_l g_oppr l S) as SI.
  exists (Z.of_nat (length (image2 (pt Zq) (padd_q A6) pdec l))). split; [rewrite <- Len, LI, Nat2Z.inj_mul; reflexivity|]. split; [apply Nat2Z.is_nonneg|]. intros p H C.
  assert (IP : In (gdbl p) (image2 (pt Zq) (padd_q A6) pdec l)) by (apply image2_in; exists p; split; [apply IN; split; assumption|reflexivity]).
  pose proof (lagrange (pt Zq) (padd_q A6) None popp_q On fg_zero g_on g_onopp g_comm (g_assoc sm6) fg_zero_l g_oppr _ _ SI IP) as LG. rewrite nm_mul in LG.
  rewrite Z.mul_comm, <- (g_mul_mul sm6), g_mul_2 by (auto; try apply Nat2Z.is_nonneg; lia). exact LG.
Qed.
Lemma E0_kills p : On p -> mul (P + 1) p = None.
Proof.
  intros H. destruct (half_kills false) as (n & En & Hn & K0). destruct (half_kills true) as (n' & En' & _ & K1). assert (n' = n) by (clear -En En'; lia). subst n'.
  pose proof (pc_on p H) as HC. pose proof (g_onopp _ HC) as HO. set (u := p +++ pc p). set (v := p +++ popp_q (pc p)).
  assert (Ou : On u) by (apply g_on; assumption). assert (Ov : On v) by (apply g_on; assumption).
  assert (Cu : pc u = twp false u) by (unfold u; rewrite pc_add, pc_invol; apply g_comm; assumption).
  assert (Cv : pc v = twp true v) by (unfold v; rewrite pc_add, pc_opp, pc_invol; cbn [twp]; rewrite (popp_add Zq_field qeqb_true q2_nz : forall p q, On p -> On q -> popp_q (p +++ q) = popp_q p +++ popp_q q), (popp_invol Zq_field : forall p, popp_q (popp_q p) = p) by assumption; apply g_comm; [exact HC|apply g_onopp; exact H]).
  assert (E : p +++ p = u +++ v) by (unfold u, v; rewrite (g_mid sm6), g_oppr, g_0r by assumption; reflexivity).
  replace (P + 1) with (2 * n * 2) by (clear -En; lia). rewrite <- (g_mul_mul sm6), g_mul_2, E, (g_mul_dist sm6), (K0 u Ou Cu), (K1 v Ov Cv) by (auto; lia). reflexivity.
Qed.
(** m = (p+1) / 2^(k+3) halvings reach the base point *)
Lemma half_tower k m tw r : (r * r)%zp = 2%zp -> zsquare r -> r <> zp0 -> P + 1 = 2 ^ (Z.of_nat k + 3) * m -> 0 <= m -> exists g, On g /\ mul (2 ^ (Z.of_nat k + 2)) g = tp (base r tw).
Proof.
  intros Hr Sr Nr EP Hm. destruct (real_group tw) as (l & S & IN & Len).
  pose proof (length_image2 (pt Zq) (padd_q A6) None popp_q On pdec fg_zero g_on g_onopp g_comm (g_assoc sm6) fg_zero_l g_oppr l S) as LI. rewrite (tors_length r Hr Nr tw l S IN) in LI.
  pose proof (image2_sub (pt Zq) (padd_q A6) None popp_q On pdec g_on g_onopp g_comm (g_assoc sm6) fg_zero_l g_oppr l S) as SI. set (D := image2 (pt Zq) (padd_q A6) pdec l) in *.
  assert (LD : length D = (2 ^ Datatypes.S k * Z.to_nat m)%nat).
  { apply Nat2Z.inj. rewrite Nat2Z.inj_mul, Nat2Z.inj_pow, Z2Nat.id by exact Hm. change (Z.of_nat 2) with 2. rewrite (Nat2Z.inj_succ k). rewrite LI, Nat2Z.inj_mul in Len. rewrite EP in Len. change (Z.of_nat 4) with 4 in Len.
    replace (Z.of_nat k + 3) with (Z.succ (Z.of_nat k) + 2) in Len by lia. rewrite Z.pow_add_r in Len by lia. change (2 ^ 2) with 4 in Len. apply (Z.mul_reg_l _ _ 4); [lia|]. rewrite Len. ring. }
  destruct (tower (pt Zq) (padd_q A6) None popp_q On pdec fg_zero g_on g_onopp g_comm (g_assoc sm6) fg_zero_l g_oppr (tp (base r tw)) k D (Z.to_nat m) LD SI) as (h & Hh & Eh).
  { intros x Hx Dx. apply image2_in in Hx. destruct Hx as (p & Hp & <-). apply IN in Hp. exact (only_double r Hr Sr Nr tw p (proj1 Hp) (proj2 Hp) Dx). }
  apply image2_in in Hh. destruct Hh as (h1 & Hh1 & <-). apply IN in Hh1. destruct Hh1 as [O1 C1]. destruct (real_halvable r Hr Nr tw h1 O1 C1) as (g & Og & Eg). exists g. split; [exact Og|].
  rewrite (iter_mul k (gdbl h1)) in Eh by (apply g_on; assumption). rewrite Z.pow_add_r, <- (g_mul_mul sm6) by (auto; try apply Z.pow_nonneg; lia). change (2 ^ 2) with (2 * 2). rewrite <- (g_mul_mul sm6 2 2), !g_mul_2, Eg by (auto; lia). exact Eh.
Qed.
Lemma odd_times m t : On t -> t +++ t = None -> 0 <= m -> mul m t = if Z.odd m then t else None.
Proof.
  intros H T Hm. pose proof (Z.div_mod m 2 ltac:(lia)) as E. rewrite Zmod_odd in E. assert (Hd : 0 <= m / 2) by (apply Z.div_pos; lia). rewrite E at 1. rewrite (g_mul_add sm6) by (auto; destruct (Z.odd m); lia).
  rewrite (Z.mul_comm 2), <- (g_mul_mul sm6), g_mul_2, T, g_mul_O by (auto; lia). destruct (Z.odd m); reflexivity.
Qed.
Lemma basis_of e t1 t2 g1 g2 : 1 <= e -> On g1 -> On g2 -> mul (2 ^ e) g1 = None -> mul (2 ^ e) g2 = None -> mul (2 ^ (e - 1)) g1 = t1 -> mul (2 ^ (e - 1)) g2 = t2 -> t1 <> None -> t2 <> None -> t1 <> t2 -> n_basis A6 (2 ^ e) g1 g2.
Proof.
  intros He H1 H2 K1 K2 E1 E2 N1 N2 N12. split; [exact K1|]. split; [exact K2|]. intros i j Hi Hj REL.
  assert (T : forall g t, On g -> mul (2 ^ e) g = None -> mul (2 ^ (e - 1)) g = t -> On t /\ t +++ t = None).
  { intros g t H K E. split; [rewrite <- E; apply g_mul_on; [apply Z.pow_nonneg; lia|exact H]|]. rewrite <- E, <- g_mul_2, (g_mul_mul sm6) by (auto; try apply Z.pow_nonneg; lia). rewrite <- Z.pow_succ_r by lia. replace (Z.succ (e - 1)) with e by lia. exact K. }
  destruct (T _ _ H1 K1 E1) as [O1 T1]. destruct (T _ _ H2 K2 E2) as [O2 T2].
  assert (ST : forall k, Z.of_nat k <= e -> (2 ^ Z.of_nat k | i) /\ (2 ^ Z.of_nat k | j)).
  { induction k as [|k IH]; intros Hk; [split; apply Z.divide_1_l|]. destruct (IH ltac:(lia)) as [[a Ea] [b Eb]]. assert (PM : 0 < 2 ^ Z.of_nat k) by (apply Z.pow_pos_nonneg; lia).
    assert (Ha : 0 <= a) by (clear -Ea PM Hi; nia). assert (Hb : 0 <= b) by (clear -Eb PM Hj; nia). assert (PQ : 0 <= 2 ^ (e - 1 - Z.of_nat k)) by (apply Z.pow_nonneg; lia).
    assert (W : mul a t1 +++ mul b t2 = None).
    { rewrite <- E1, <- E2. rewrite !(g_mul_mul sm6) by (auto; try apply Z.pow_nonneg; lia). replace (a * 2 ^ (e - 1)) with (2 ^ (e - 1 - Z.of_nat k) * i) by (rewrite Ea; replace (e - 1) with (e - 1 - Z.of_nat k + Z.of_nat k) at 2 by lia; rewrite Z.pow_add_r by lia; ring).
      replace (b * 2 ^ (e - 1)) with (2 ^ (e - 1 - Z.of_nat k) * j) by (rewrite Eb; replace (e - 1) with (e - 1 - Z.of_nat k + Z.of_nat k) at 2 by lia; rewrite Z.pow_add_r by lia; ring).
      rewrite <- !(g_mul_mul sm6) by auto. rewrite <- (g_mul_dist sm6) by (auto using g_mul_on). rewrite REL. apply g_mul_O. exact PQ. }
    rewrite !odd_times in W by assumption.
    assert (R : Z.odd a = false /\ Z.odd b = false).
    { destruct (Z.odd a), (Z.odd b); [|rewrite g_0r in W; contradiction|change (t2 = None) in W; contradiction|split; reflexivity]. exfalso. apply N12. apply (g_cancel sm6 _ _ t2 O1 O2 O2). rewrite W, T2. reflexivity. }
    assert (EV : forall k, Z.odd k = false -> (2 | k)) by (intros z Hz; apply Z.mod_divide; [lia|rewrite Zmod_odd, Hz; reflexivity]).
    destruct R as [Ra Rb]. destruct (EV a Ra) as [a' ->]. destruct (EV b Rb) as [b' ->]. rewrite Nat2Z.inj_succ, Z.pow_succ_r by lia. split; [exists a'|exists b']; lia. }
  specialize (ST (Z.to_nat e) ltac:(lia)). rewrite Z2Nat.id in ST by lia. exact ST.
Qed.
Definition h634 : Z := (P + 1) / 2 ^ 634.
Lemma h634_ok : P + 1 = 2 ^ 634 * h634 /\ Z.odd h634 = true /\ 0 < h634. Proof. vm_compute. repeat split; reflexivity. Qed.
Lemma E0_basis : exists g1 g2, On g1 /\ On g2 /\ n_basis A6 (2 ^ 634) g1 g2.
Proof.
  destruct root_two as (r & Hr & Sr & Nr). destruct h634_ok as (EP & Od & Ph). revert EP Od Ph. generalize h634. intros h EP Od Ph.
  assert (EP' : P + 1 = 2 ^ (Z.of_nat (Z.to_nat 631) + 3) * h) by exact EP.
  destruct (half_tower (Z.to_nat 631) h false r Hr Sr Nr EP' ltac:(clear -Ph; lia)) as (g1 & O1 & E1). destruct (half_tower (Z.to_nat 631) h true r Hr Sr Nr EP' ltac:(clear -Ph; lia)) as (g2 & O2 & E2).
  change (Z.of_nat (Z.to_nat 631) + 2) with (634 - 1) in E1, E2. cbn [base] in E1, E2. exists (mul h g1), (mul h g2).
  assert (T : forall e, On (tp e) -> tp e +++ tp e = None) by (intros e H; exact (dbl_inf Zq_field qeqb_true (re e) q0 H eq_refl)).
  assert (H0 : 0 <= h) by (clear -Ph; lia). assert (OA : On (tp zp0)) by (apply tp_on; left; reflexivity). assert (OB : On (tp (rb r))) by (apply tp_on; right; exact (rb_root r Hr)).
  assert (PW : 0 <= 2 ^ (634 - 1)) by (apply Z.pow_nonneg; clear; lia). assert (PW' : 0 <= 2 ^ 634) by (apply Z.pow_nonneg; clear; lia).
  split; [apply g_mul_on; assumption|]. split; [apply g_mul_on; assumption|]. apply (basis_of 634 (tp zp0) (tp (rb r))); try (apply g_mul_on; assumption).
  - clear; lia.
  - rewrite (g_mul_mul sm6), <- EP by assumption. apply E0_kills, O1.
  - rewrite (g_mul_mul sm6), <- EP by assumption. apply E0_kills, O2.
  - rewrite (g_mul_mul sm6), Z.mul_comm, <- (g_mul_mul sm6), E1, odd_times, Od by auto. reflexivity.
  - rewrite (g_mul_mul sm6), Z.mul_comm, <- (g_mul_mul sm6), E2, odd_times, Od by auto. reflexivity.
  - discriminate. - discriminate.
  - intros E. unfold tp in E. apply some_inj in E. apply (f_equal fst) in E. cbn [fst] in E. apply re_inj in E. exact (rb_nz r Hr (eq_sym E)).
Qed.
