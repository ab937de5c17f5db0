(** The integers modulo [P] as a field with Leibniz equality, and the image of base-field elements in it. *)
From Coq Require Import ZArith Znumtheory List Lia Bool Ring Field Eqdep_dec.
From Verif Require Import S_Fp M_Utils64 M_Consts M_Fp L_Words L_Bits L_Fp L_FpOps L_FpSmall L_FpCodec L_Prime L_Fermat L_FpRoots L_FpDiv L_Jacobi L_Legendre.
Open Scope Z_scope.

Definition inrange (z : Z) : bool := (0 <=? z) && (z <? P).
Lemma inrange_ok z : inrange z = true <-> 0 <= z < P.
Proof. unfold inrange. rewrite andb_true_iff, Z.leb_le, Z.ltb_lt. reflexivity. Qed.
Lemma inrange_mod z : inrange (z mod P) = true.
Proof. apply inrange_ok. apply Z.mod_pos_bound. apply P_pos. Qed.
Lemma sub_inj (a b : {z : Z | inrange z = true}) : proj1_sig a = proj1_sig b -> a = b.
Proof. destruct a as [a Ha], b as [b Hb]. cbn. intros ->. f_equal. apply UIP_dec, bool_dec. Qed.

(** The carrier and its operations are sealed, so that tactics never evaluate them. *)
Record zp_pkg := ZpPkg {
  car : Type; mk_ : Z -> car; zval_ : car -> Z;
  zp0_ : car; zp1_ : car; zadd_ : car -> car -> car; zmul_ : car -> car -> car; zsub_ : car -> car -> car; zopp_ : car -> car; zinv_ : car -> car;
  zval_inj_ : forall a b, zval_ a = zval_ b -> a = b; zval_range_ : forall a, 0 <= zval_ a < P; zval_mk_ : forall z, zval_ (mk_ z) = z mod P;
  zp0_eq_ : zp0_ = mk_ 0; zp1_eq_ : zp1_ = mk_ 1;
  zadd_eq_ : forall a b, zadd_ a b = mk_ (zval_ a + zval_ b); zmul_eq_ : forall a b, zmul_ a b = mk_ (zval_ a * zval_ b);
  zsub_eq_ : forall a b, zsub_ a b = mk_ (zval_ a - zval_ b); zopp_eq_ : forall a, zopp_ a = mk_ (- zval_ a);
  zinv_eq_ : forall a, zinv_ a = mk_ (zval_ a ^ (P - 2)) }.
Definition zpk : zp_pkg.
Proof.
  refine (ZpPkg {z : Z | inrange z = true} (fun z => exist _ (z mod P) (inrange_mod z)) (fun a => proj1_sig a) _ _ _ _ _ _ _
    sub_inj (fun a => proj1 (inrange_ok _) (proj2_sig a)) (fun z => eq_refl) eq_refl eq_refl _ _ _ _ _); intros; reflexivity.
Qed.
Definition Zp : Type := car zpk.
Definition mk : Z -> Zp := mk_ zpk.
Definition zval : Zp -> Z := zval_ zpk.
Definition zp0 : Zp := zp0_ zpk.
Definition zp1 : Zp := zp1_ zpk.
Definition zadd : Zp -> Zp -> Zp := zadd_ zpk.
Definition zmul : Zp -> Zp -> Zp := zmul_ zpk.
Definition zsub : Zp -> Zp -> Zp := zsub_ zpk.
Definition zopp : Zp -> Zp := zopp_ zpk.
Definition zinv : Zp -> Zp := zinv_ zpk.
Definition zval_inj : forall a b, zval a = zval b -> a = b := zval_inj_ zpk.
Definition zval_range : forall a, 0 <= zval a < P := zval_range_ zpk.
Definition zval_mk : forall z, zval (mk z) = z mod P := zval_mk_ zpk.
Definition zp0_eq : zp0 = mk 0 := zp0_eq_ zpk.
Definition zp1_eq : zp1 = mk 1 := zp1_eq_ zpk.
Definition zadd_eq : forall a b, zadd a b = mk (zval a + zval b) := zadd_eq_ zpk.
Definition zmul_eq : forall a b, zmul a b = mk (zval a * zval b) := zmul_eq_ zpk.
Definition zsub_eq : forall a b, zsub a b = mk (zval a - zval b) := zsub_eq_ zpk.
Definition zopp_eq : forall a, zopp a = mk (- zval a) := zopp_eq_ zpk.
Definition zinv_eq : forall a, zinv a = mk (zval a ^ (P - 2)) := zinv_eq_ zpk.
Definition zdiv (a b : Zp) : Zp := zmul a (zinv b).

Lemma mk_zval a : mk (zval a) = a. Proof. apply zval_inj. rewrite zval_mk. apply Z.mod_small, zval_range. Qed.
Lemma mk_eq a b : mk a = mk b <-> cg a b.
Proof.
  rewrite cg_mod. split.
  - intros H. apply (f_equal zval) in H. rewrite !zval_mk in H. exact H.
  - intros H. apply zval_inj. rewrite !zval_mk. exact H.
Qed.
Lemma cg_zval z : cg (zval (mk z)) z. Proof. rewrite zval_mk. apply cg_mod_l. Qed.
Lemma mk_add a b : mk (a + b) = zadd (mk a) (mk b). Proof. rewrite zadd_eq. apply mk_eq. rewrite !cg_zval. reflexivity. Qed.
Lemma mk_mul a b : mk (a * b) = zmul (mk a) (mk b). Proof. rewrite zmul_eq. apply mk_eq. rewrite !cg_zval. reflexivity. Qed.
Lemma mk_sub a b : mk (a - b) = zsub (mk a) (mk b). Proof. rewrite zsub_eq. apply mk_eq. rewrite !cg_zval. reflexivity. Qed.
Lemma mk_opp a : mk (- a) = zopp (mk a). Proof. rewrite zopp_eq. apply mk_eq. rewrite !cg_zval. reflexivity. Qed.
Lemma mk_mod a : mk (a mod P) = mk a. Proof. apply mk_eq. apply cg_mod_l. Qed.
Lemma mk_0 a : mk a = zp0 <-> cg a 0. Proof. rewrite zp0_eq. apply mk_eq. Qed.
Lemma zval_0 a : zval a = 0 <-> a = zp0.
Proof. rewrite zp0_eq. split; intros H; [apply zval_inj; rewrite H, zval_mk; symmetry; apply Zmod_0_l|subst; rewrite zval_mk; apply Zmod_0_l]. Qed.

Lemma one_neq_zero : zp1 <> zp0.
Proof.
  rewrite zp0_eq, zp1_eq. intros H. apply mk_eq in H. apply cg_1_m1. rewrite H. symmetry. replace (-1) with (- (1)) by reflexivity. rewrite H. reflexivity.
Qed.
Lemma zinv_l a : a <> zp0 -> zmul (zinv a) a = zp1.
Proof.
  intros N. rewrite zinv_eq, zp1_eq. rewrite <- (mk_zval a) at 2. rewrite <- mk_mul. apply mk_eq.
  assert (Na : ~ cg (zval a) 0) by (rewrite <- mk_0, mk_zval; exact N).
  pose proof (cg_fermat _ Na) as F. pose proof HP_ok. pose proof HP_pos.
  replace (P - 1) with (P - 2 + 1) in F by lia. rewrite Z.pow_add_r, Z.pow_1_r in F by lia. exact F.
Qed.
Lemma Zp_ring : ring_theory zp0 zp1 zadd zmul zsub zopp (@eq Zp).
Proof.
  constructor; intros; repeat match goal with x : Zp |- _ => rewrite <- (mk_zval x); generalize (zval x); clear x; intros x end;
    rewrite ?zp0_eq, ?zp1_eq; rewrite <- ?mk_add, <- ?mk_mul, <- ?mk_sub, <- ?mk_opp, <- ?mk_add, <- ?mk_mul, <- ?mk_add; f_equal; ring.
Qed.
Lemma Zp_field : field_theory zp0 zp1 zadd zmul zsub zopp zdiv zinv (@eq Zp).
Proof. constructor; [exact Zp_ring|exact one_neq_zero|reflexivity|exact zinv_l]. Qed.

Declare Scope zp_scope.
Delimit Scope zp_scope with zp.
Bind Scope zp_scope with Zp.
Notation "0" := zp0 : zp_scope.
Notation "1" := zp1 : zp_scope.
Notation "2" := (zadd zp1 zp1) : zp_scope.
Infix "+" := zadd : zp_scope.
Infix "*" := zmul : zp_scope.
Infix "-" := zsub : zp_scope.
Infix "/" := zdiv : zp_scope.
Notation "- x" := (zopp x) : zp_scope.
Add Field Zpf : Zp_field.

Lemma zp_dec (a b : Zp) : {a = b} + {a <> b}.
Proof. destruct (Z.eq_dec (zval a) (zval b)) as [E|E]; [left; apply zval_inj; exact E|right; congruence]. Qed.
Lemma two_nz : (2 : Zp)%zp <> 0%zp.
Proof.
  rewrite zp1_eq, zp0_eq, <- mk_add. intros H. apply mk_eq in H. apply cg_1_m1.
  change (1 + 1) with 2 in H. replace 1 with (2 + -1) by reflexivity. rewrite H. reflexivity.
Qed.
Lemma zmul_eq0 a b : (a * b)%zp = 0%zp -> a = 0%zp \/ b = 0%zp.
Proof.
  intros H. destruct (zp_dec a 0%zp) as [|N]; auto. right.
  replace b with (zinv a * (a * b))%zp by (field; auto). rewrite H. ring.
Qed.
Lemma zmul_nz a b : a <> 0%zp -> b <> 0%zp -> (a * b)%zp <> 0%zp.
Proof. intros Ha Hb H. destruct (zmul_eq0 a b H); auto. Qed.
Lemma zinv_0 : zinv 0%zp = 0%zp.
Proof.
  rewrite zinv_eq, zp0_eq. apply mk_eq. pose proof HP_ok. pose proof HP_pos.
  apply cg_pow_0; [lia|]. rewrite cg_zval. reflexivity.
Qed.
Lemma zdiv_0 a : (a / 0)%zp = 0%zp. Proof. unfold zdiv. rewrite zinv_0. ring. Qed.
Lemma zsq_eq a b : (a * a)%zp = (b * b)%zp -> a = b \/ a = (- b)%zp.
Proof.
  intros H. destruct (zmul_eq0 (a - b)%zp (a + b)%zp) as [E|E].
  - replace ((a - b) * (a + b))%zp with (a * a - b * b)%zp by ring. rewrite H. ring.
  - left. replace a with (a - b + b)%zp by ring. rewrite E. ring.
  - right. replace a with (a + b - b)%zp by ring. rewrite E. ring.
Qed.
Lemma zsq_0 a : (a * a)%zp = 0%zp -> a = 0%zp. Proof. intros H. destruct (zmul_eq0 a a H); auto. Qed.

Lemma zopp_invol a : (- - a)%zp = a. Proof. ring. Qed.

(** ** Squares *)
Definition zsquare (a : Zp) : Prop := exists z, (z * z)%zp = a.
Lemma zsquare_mk a : zsquare (mk a) <-> exists z, cg (z * z) a.
Proof.
  split.
  - intros [z H]. exists (zval z). rewrite <- mk_eq, mk_mul, mk_zval. exact H.
  - intros [z H]. exists (mk z). rewrite <- mk_mul. apply mk_eq. exact H.
Qed.
Lemma m1_nonsquare z : (z * z)%zp <> (- (1))%zp.
Proof.
  rewrite <- (mk_zval z). rewrite <- mk_mul. rewrite zp1_eq, <- mk_opp, mk_eq. apply minus_one_nonsquare.
Qed.
Lemma zsquare_dec a : {zsquare a} + {~ zsquare a}.
Proof.
  rewrite <- (mk_zval a). destruct (cg_dec (zval a ^ ((P + 1) / 4) * zval a ^ ((P + 1) / 4)) (zval a)) as [E|E].
  - left. apply zsquare_mk. eexists. exact E.
  - right. intros H. apply E. apply (sqrt_candidate (zval a)). apply zsquare_mk. exact H.
Qed.
Lemma zsquare_or_opp a : zsquare a \/ zsquare (- a)%zp.
Proof. rewrite <- (mk_zval a). rewrite <- mk_opp, !zsquare_mk. apply square_or_opp. Qed.
Lemma zsquare_both a : zsquare a -> zsquare (- a)%zp -> a = 0%zp.
Proof.
  intros [x Hx] [y Hy]. destruct (zp_dec x 0%zp) as [->|N]; [rewrite <- Hx; ring|].
  exfalso. apply (m1_nonsquare (y / x)%zp). replace (y / x * (y / x))%zp with ((y * y) / (x * x))%zp by (field; auto).
  rewrite Hx, Hy. field. intros E. apply N. apply zsq_0. congruence.
Qed.
Lemma zsquare_mul a b : zsquare a -> zsquare b -> zsquare (a * b)%zp.
Proof. intros [x <-] [y <-]. exists (x * y)%zp. ring. Qed.
Lemma zsquare_opp a : ~ zsquare a -> zsquare (- a)%zp. Proof. intros. destruct (zsquare_or_opp a); tauto. Qed.
Lemma zsquare_0 : zsquare 0%zp. Proof. exists 0%zp. ring. Qed.
(** sum of two squares *)
Lemma norm_0 a b : (a * a + b * b)%zp = 0%zp -> a = 0%zp /\ b = 0%zp.
Proof.
  intros H. destruct (zp_dec b 0%zp) as [->|N].
  - split; auto. apply zsq_0. rewrite <- H. ring.
  - exfalso. apply (m1_nonsquare (a / b)%zp). replace (a / b * (a / b))%zp with ((a * a + b * b) / (b * b) - 1)%zp by (field; auto).
    rewrite H. field. auto.
Qed.

(** ** The image of an element *)
Definition fv (x : fp) : Zp := mk (val x).
#[global] Opaque set_half set_mul2 set_div invert sum_of_products difference_of_products legendre.
Lemma zval_fv x : zval (fv x) = val x.
Proof. unfold fv. rewrite zval_mk. apply Z.mod_small, val_range. Qed.
Lemma fv_inj a b : canon a -> canon b -> fv a = fv b -> a = b.
Proof. intros Ha Hb E. apply val_inj; auto. rewrite <- !zval_fv. congruence. Qed.
Lemma fv_val a x : val a = x mod P -> fv a = mk x. Proof. intros E. unfold fv. rewrite E. apply mk_mod. Qed.
Lemma fv_add a b : canon a -> canon b -> fv (set_add a b) = (fv a + fv b)%zp.
Proof. intros. rewrite (fv_val _ _ (val_add a b H H0)). apply mk_add. Qed.
Lemma fv_sub a b : canon a -> canon b -> fv (set_sub a b) = (fv a - fv b)%zp.
Proof. intros. rewrite (fv_val _ _ (val_sub a b H H0)). apply mk_sub. Qed.
Lemma fv_neg a : canon a -> fv (set_neg a) = (- fv a)%zp.
Proof. intros. rewrite (fv_val _ _ (val_neg a H)). apply mk_opp. Qed.
Lemma fv_mul a b : canon a -> canon b -> fv (set_mul a b) = (fv a * fv b)%zp.
Proof. intros. rewrite (fv_val _ _ (val_mul a b H H0)). apply mk_mul. Qed.
Lemma fv_square a : canon a -> fv (set_square a) = (fv a * fv a)%zp.
Proof. intros. rewrite (fv_val _ _ (val_square a H)). apply mk_mul. Qed.
Lemma mk_2 x : mk (2 * x) = (2 * mk x)%zp.
Proof. replace (2 * x) with (x + x) by ring. rewrite mk_add. ring. Qed.
Lemma fv_mul2 a : canon a -> fv (set_mul2 a) = (2 * fv a)%zp.
Proof. intros. rewrite (fv_val _ _ (val_mul2 a H)). apply mk_2. Qed.
Lemma fv_mul3 a : canon a -> fv (set_mul3 a) = ((1 + 2) * fv a)%zp.
Proof. intros. unfold set_mul3. rewrite fv_add, fv_mul2 by auto using canon_mul2. ring. Qed.
Lemma fv_mul4 a : canon a -> fv (set_mul4 a) = (2 * 2 * fv a)%zp.
Proof. intros. unfold set_mul4. rewrite !fv_mul2 by auto using canon_mul2. ring. Qed.
Lemma fv_mul8 a : canon a -> fv (set_mul8 a) = (2 * 2 * 2 * fv a)%zp.
Proof. intros. unfold set_mul8. rewrite !fv_mul2 by auto using canon_mul2. ring. Qed.
Lemma fv_half a : canon a -> fv (set_half a) = (fv a / 2)%zp.
Proof.
  intros H. pose proof (val_half a H) as E. assert (K : fv a = (2 * fv (set_half a))%zp).
  { unfold fv. rewrite <- E, mk_mod. apply mk_2. }
  set (h := fv (set_half a)) in *. clearbody h. rewrite K. field. apply two_nz.
Qed.
Lemma fv_sop a b c d : canon a -> canon b -> canon c -> canon d -> fv (sum_of_products a b c d) = (fv a * fv b + fv c * fv d)%zp.
Proof. intros. destruct (sum_of_products_ok a b c d) as [_ E]; auto. rewrite (fv_val _ _ E). rewrite mk_add, !mk_mul. reflexivity. Qed.
Lemma fv_dop a b c d : canon a -> canon b -> canon c -> canon d -> fv (difference_of_products a b c d) = (fv a * fv b - fv c * fv d)%zp.
Proof. intros. destruct (difference_of_products_ok a b c d) as [_ E]; auto. rewrite (fv_val _ _ E). rewrite mk_sub, !mk_mul. reflexivity. Qed.
Lemma canon_sop a b c d : canon a -> canon b -> canon c -> canon d -> canon (sum_of_products a b c d).
Proof. intros. apply sum_of_products_ok; auto. Qed.
Lemma canon_dop a b c d : canon a -> canon b -> canon c -> canon d -> canon (difference_of_products a b c d).
Proof. intros. apply difference_of_products_ok; auto. Qed.
Lemma fv_0 a : fv a = 0%zp <-> val a = 0%Z.
Proof. rewrite <- zval_0, zval_fv. reflexivity. Qed.
Lemma fv_eq a b : fv a = fv b <-> val a = val b.
Proof. rewrite <- !zval_fv. split; [congruence|apply zval_inj]. Qed.
Lemma fv_zero : fv fp_zero = 0%zp. Proof. apply fv_0, val_zero. Qed.
Lemma fv_one : fv fp_one = 1%zp. Proof. unfold fv. rewrite val_one, zp1_eq. reflexivity. Qed.
Lemma canon_div a b : canon a -> canon b -> canon (set_div a b). Proof. intros. apply set_div_ok; auto. Qed.
Lemma fv_div a b : canon a -> canon b -> fv (set_div a b) = (fv a / fv b)%zp.
Proof.
  intros Ha Hb. destruct (set_div_ok a b Ha Hb) as (_ & H0 & H1). destruct (zp_dec (fv b) 0%zp) as [E|E].
  - rewrite E, zdiv_0. apply fv_0, H0, fv_0, E.
  - assert (K : (fv (set_div a b) * fv b)%zp = fv a).
    { unfold fv. rewrite <- mk_mul, <- mk_mod, H1; auto. intros E'. apply E, fv_0, E'. }
    set (h := fv (set_div a b)) in *. clearbody h. rewrite <- K. field. exact E.
Qed.
Lemma canon_invert a : canon a -> canon (invert a). Proof. intros. Transparent invert. unfold invert. Opaque invert. apply canon_div; auto using canon_one. Qed.
Lemma fv_invert a : canon a -> fv (invert a) = (1 / fv a)%zp.
Proof. intros. Transparent invert. unfold invert. Opaque invert. rewrite fv_div, fv_one by auto using canon_one. reflexivity. Qed.
Lemma canon_select a b m : canon a -> canon b -> canon (select a b (mask32 m)).
Proof. intros. rewrite select_mask by auto. destruct m; auto. Qed.

Definition zeq0 (a : Zp) : bool := if zp_dec a 0%zp then true else false.
Definition zeqb (a b : Zp) : bool := if zp_dec a b then true else false.
Lemma iszero_fv a : canon a -> iszero a = mask32 (zeq0 (fv a)).
Proof.
  intros. rewrite iszero_canon by auto. f_equal. unfold zeq0. destruct (zp_dec (fv a) 0%zp) as [E|E], (Z.eqb_spec (val a) 0) as [E'|E']; auto.
  - apply fv_0 in E. contradiction.
  - exfalso. apply E, fv_0, E'.
Qed.
Lemma equals_fv a b : canon a -> canon b -> equals a b = mask32 (zeqb (fv a) (fv b)).
Proof.
  intros. rewrite equals_canon by auto. f_equal. unfold zeqb. destruct (zp_dec (fv a) (fv b)) as [E|E], (Z.eqb_spec (val a) (val b)) as [E'|E']; auto.
  - apply fv_eq in E. contradiction.
  - exfalso. apply E, fv_eq, E'.
Qed.
Lemma mask_and a b : Z.land (mask32 a) (mask32 b) = mask32 (a && b). Proof. destruct a, b; reflexivity. Qed.
Lemma mask_or a b : Z.lor (mask32 a) (mask32 b) = mask32 (a || b). Proof. destruct a, b; reflexivity. Qed.
Lemma mask_not a : wnot32 (mask32 a) = mask32 (negb a). Proof. destruct a; reflexivity. Qed.

Definition even_z (a : Zp) : bool := Z.even (zval a).
Lemma square_fv a : zsquare (fv a) <-> exists z, cg (z * z) (val a). Proof. apply zsquare_mk. Qed.
Lemma sqrt_fv a : canon a -> exists r b, sqrt a = (r, mask32 b) /\ canon r /\ (b = true <-> zsquare (fv a)) /\
  (b = true -> (fv r * fv r)%zp = fv a /\ even_z (fv r) = true) /\ (b = false -> r = fp_zero).
Proof.
  intros Ha. destruct (sqrt_ok a Ha) as (r & b & E & Hr & H1 & H2 & H3). exists r, b. split; auto. split; auto.
  split; [rewrite square_fv; exact H1|]. split; auto. intros Hb. destruct (H2 Hb) as [H4 H5]. split.
  - unfold fv. rewrite <- mk_mul. apply mk_eq. exact H4.
  - unfold even_z. rewrite zval_fv, Zeven_mod, H5. reflexivity.
Qed.
Lemma fourth_root_fv a : canon a -> exists r b, fourth_root a = (r, mask32 b) /\ canon r /\ (b = true <-> zsquare (fv a)) /\
  (b = true -> (fv r * fv r * (fv r * fv r))%zp = fv a /\ even_z (fv r) = true) /\ (b = false -> r = fp_zero).
Proof.
  intros Ha. destruct (fourth_root_ok a Ha) as (r & b & E & Hr & H1 & H0 & H2 & H3). exists r, b. split; auto. split; auto.
  split; [rewrite square_fv; exact H0|]. split; auto. intros Hb. destruct (H2 Hb) as [H4 H5]. split.
  - unfold fv. rewrite <- !mk_mul. apply mk_eq. exact H4.
  - unfold even_z. rewrite zval_fv, Zeven_mod, H5. reflexivity.
Qed.
Definition leg_spec (a : Zp) : Z := if zp_dec a 0%zp then 0%Z else if zsquare_dec a then 1%Z else (-1)%Z.
Lemma legendre_fv a : canon a -> legendre a = leg_spec (fv a).
Proof.
  intros Ha. rewrite legendre_ok by auto. unfold leg_spec. destruct (zp_dec (fv a) 0%zp) as [E|E].
  - apply fv_0 in E. rewrite E. reflexivity.
  - assert (N : val a <> 0) by (intros E'; apply E, fv_0, E'). destruct (Z.eqb_spec (val a) 0); [contradiction|].
    pose proof (gauss_square a Ha N) as G. rewrite <- square_fv in G. destruct (gauss (eval a) P), (zsquare_dec (fv a)) as [S|S]; auto.
    + apply G in S. discriminate.
    + exfalso. apply S, G. reflexivity.
Qed.
