(** x-only arithmetic on Montgomery curves over an abstract field: doubling, differential addition, y-recovery. *)
From Coq Require Import Arith ZArith List Bool Ring Field Lia.
From Verif Require Import S_Curve L_Group.

Section Kummer.
Context {K : Type} {k0 k1 : K} {kadd kmul ksub : K -> K -> K} {kopp : K -> K} {kdiv : K -> K -> K} {kinv : K -> K} {keq : K -> K -> bool}.
Context (FT : field_theory k0 k1 kadd kmul ksub kopp kdiv kinv (@eq K)).
Context (keq_ok : forall x y, keq x y = true <-> x = y).
Context (two_nz : kadd k1 k1 <> k0).
Context {A : K}.
Context (smooth : kmul A A <> kadd (kadd k1 k1) (kadd k1 k1)).
Add Field Kfield : FT.
Local Notation "0" := k0. Local Notation "1" := k1.
Local Notation "2" := (kadd k1 k1). Local Notation "3" := (kadd (kadd k1 k1) k1). Local Notation "4" := (kadd (kadd k1 k1) (kadd k1 k1)).
Local Infix "+" := kadd. Local Infix "*" := kmul. Local Infix "-" := ksub. Local Infix "/" := kdiv. Local Notation "- x" := (kopp x).
Local Notation on := (on kadd kmul A).
Local Notation padd := (padd k1 kadd kmul ksub kopp kdiv keq A).
Local Notation popp := (popp kopp).
Local Notation pmul_nat := (pmul_nat k1 kadd kmul ksub kopp kdiv keq A).

Lemma nz_mul x y : x <> 0 -> y <> 0 -> x * y <> 0. Proof. exact (mulr_nz FT keq_ok x y). Qed.
Lemma zmul0 x y : x * y = 0 -> x = 0 \/ y = 0. Proof. exact (mul0 FT keq_ok x y). Qed.
Lemma kcancel x y z : x <> 0 -> x * y = x * z -> y = z. Proof. exact (cancel FT x y z). Qed.
Lemma four_nz : 4 <> 0. Proof. replace 4 with (2 * 2) by ring. apply nz_mul; exact two_nz. Qed.
Lemma sq0 x : x * x = 0 -> x = 0. Proof. intros H. destruct (zmul0 _ _ H); auto. Qed.
Lemma kdec (x y : K) : {x = y} + {x <> y}. Proof. exact (keq_dec keq_ok x y). Qed.
Lemma div_eq a b c : b <> 0 -> a = c * b -> a / b = c. Proof. intros N ->. field. auto. Qed.

Lemma dbl_inf x y : on (Some (x, y)) -> y = 0 -> padd (Some (x, y)) (Some (x, y)) = None.
Proof. intros H ->. cbn. rewrite (keq_refl keq_ok). replace (- 0) with 0 by ring. rewrite (keq_refl keq_ok). reflexivity. Qed.
Lemma dbl_fin x y : on (Some (x, y)) -> y <> 0 ->
  padd (Some (x, y)) (Some (x, y)) =
  Some ((x * x - 1) * (x * x - 1) / (4 * (y * y)), (x * x - 1) * ((x * x + 1) * (x * x + 1 + 2 * A * x) + 4 * (x * x)) / (2 * 4 * (y * (y * y)))).
Proof.
  intros H Y. unfold S_Curve.padd. rewrite (keq_refl keq_ok), (keq_false keq_ok).
  2:{ intros E. apply Y, (double_0 FT two_nz), E. }
  unfold chord. cbv zeta. set (m := (3 * (x * x) + 2 * (A * x) + 1) / (2 * y)). cbn in H.
  assert (X : m * m - A - x - x = (x * x - 1) * (x * x - 1) / (4 * (y * y))).
  { symmetry. apply div_eq; [auto using nz_mul, four_nz|]. unfold m.
    transitivity ((3 * (x * x) + 2 * (A * x) + 1) * (3 * (x * x) + 2 * (A * x) + 1) - 4 * (A + 2 * x) * (y * y)); [rewrite H; ring|field; auto]. }
  rewrite X. f_equal. f_equal. symmetry. apply div_eq; [auto 6 using nz_mul, four_nz|]. unfold m.
  transitivity ((3 * (x * x) + 2 * (A * x) + 1) * (4 * x * (y * y) - (x * x - 1) * (x * x - 1)) - 2 * 4 * (y * y) * (y * y)); [rewrite H; ring|field; auto using nz_mul].
Qed.
(** the abscissa of a finite sum *)
Lemma sum_x x0 y0 x1 y1 x2 y2 : on (Some (x0, y0)) -> on (Some (x1, y1)) -> padd (Some (x0, y0)) (Some (x1, y1)) = Some (x2, y2) ->
  x2 * ((x1 - x0) * (x1 - x0)) = (x0 * x1 + 1) * (x0 + x1) + 2 * A * (x0 * x1) - 2 * (y0 * y1).
Proof.
  intros H0 H1 E. destruct (kdec x0 x1) as [->|N].
  - destruct (kdec y0 (- y1)) as [->|Ny].
    { exfalso. cbn in E. rewrite !(keq_refl keq_ok) in E. discriminate. }
    destruct (same_x FT keq_ok _ _ _ H0 H1) as [->|]; [|contradiction]. cbn in H1. rewrite H1. ring.
  - unfold S_Curve.padd in E. rewrite (keq_false keq_ok) in E by auto. unfold chord in E. cbv zeta in E. injection E as E _. rewrite <- E. clear E.
    assert (D : x1 - x0 <> 0) by (apply (sub_nz FT); auto). cbn in H0, H1.
    transitivity ((y1 * y1 + y0 * y0 - 2 * (y0 * y1)) - (A + x0 + x1) * ((x1 - x0) * (x1 - x0))); [field; auto|]. rewrite H0, H1. ring.
Qed.

(** (X : W) represents the abscissa of p; infinity is (X : 0) with X non-zero *)
Definition xrep (X W : K) (p : pt K) : Prop := match p with None => X <> 0 /\ W = 0 | Some (x, _) => W <> 0 /\ X = x * W end.
Lemma xrep_opp X W p : xrep X W (popp p) <-> xrep X W p. Proof. destruct p as [[]|]; reflexivity. Qed.
Definition xdblX (X W : K) : K := (X + W) * (X + W) * ((X - W) * (X - W)).
Definition xdblW (X W : K) : K := (((X + W) * (X + W) - (X - W) * (X - W)) * ((A + 2) / 4) + (X - W) * (X - W)) * ((X + W) * (X + W) - (X - W) * (X - W)).
Lemma xdblX_eq X W : xdblX X W = (X * X - W * W) * (X * X - W * W). Proof. unfold xdblX. ring. Qed.
Lemma xdblW_eq X W : xdblW X W = 4 * (X * W) * (X * X + A * (X * W) + W * W).
Proof. unfold xdblW. field. auto using nz_mul. Qed.
Lemma two_torsion_x x : x * x * x + A * (x * x) + x = 0 -> x * x - 1 <> 0.
Proof.
  intros H E. assert (X1 : x * x = 1) by (apply (sub_eq FT); auto). apply smooth.
  assert (Nx : x <> 0) by (intros ->; apply (one_nz FT); rewrite <- X1; ring).
  assert (B : A = - (2 * x)).
  { apply (kcancel (x * x)). - rewrite X1. apply (one_nz FT). - replace (x * x * A) with ((x * x * x + A * (x * x) + x) - (x * x) * x - x) by ring. rewrite H, X1. ring. }
  rewrite B. replace (- (2 * x) * - (2 * x)) with (4 * (x * x)) by ring. rewrite X1. ring.
Qed.
Lemma xdbl_ok X W p : on p -> xrep X W p -> xrep (xdblX X W) (xdblW X W) (padd p p).
Proof.
  rewrite xdblX_eq, xdblW_eq. destruct p as [[x y]|].
  - intros H [Nw ->]. destruct (kdec y 0) as [Y|Y].
    + rewrite (dbl_inf x y H Y). cbn in H. rewrite Y in H. split.
      * replace (x * W * (x * W) - W * W) with (W * W * (x * x - 1)) by ring. pose proof (two_torsion_x x) as T. assert (x * x - 1 <> 0) by (apply T; transitivity (0 * 0); [rewrite H; ring|ring]).
        repeat apply nz_mul; auto.
      * transitivity (4 * (W * W * (W * W)) * (x * (x * x) + A * (x * x) + x)); [ring|]. rewrite <- H. ring.
    + rewrite (dbl_fin x y H Y). cbn in H. assert (E : 4 * (x * W * W) * (x * W * (x * W) + A * (x * W * W) + W * W) = 4 * (W * W * (W * W)) * (y * y)) by (rewrite H; ring).
      rewrite E. split; [repeat apply nz_mul; auto using four_nz|]. field. auto using nz_mul.
  - intros _ [Nx ->]. cbn. split; [|ring]. replace ((X * X - 0 * 0) * (X * X - 0 * 0)) with (X * X * (X * X)) by ring. repeat apply nz_mul; auto.
Qed.
Lemma opp_eq_cases p q d : on p -> on q -> on d -> padd p (popp q) = d -> p = padd d q.
Proof.
  intros Hp Hq Hd <-. rewrite <- (popp_invol FT q) at 2. symmetry. apply (add_sub FT keq_ok two_nz smooth); auto using (on_opp FT).
Qed.
Lemma x0_y0 x y : on (Some (x, y)) -> x = 0 -> y = 0.
Proof. intros H ->. apply sq0. cbn in H. rewrite H. ring. Qed.
(** differential addition: p - q = +-d *)
Lemma xadd_ok X0 W0 X1 W1 p q x y : on p -> on q -> on (Some (x, y)) -> x <> 0 -> (padd p (popp q) = Some (x, y) \/ padd p (popp q) = Some (x, - y)) ->
  xrep X0 W0 p -> xrep X1 W1 q -> forall c, c <> 0 ->
  xrep (c * ((X0 * X1 - W0 * W1) * (X0 * X1 - W0 * W1))) (c * x * ((X0 * W1 - W0 * X1) * (X0 * W1 - W0 * X1))) (padd p q).
Proof.
  intros Hp Hq Hd Nx D R0 R1 c Nc.
  assert (exists y', on (Some (x, y')) /\ padd p (popp q) = Some (x, y')) as (y' & Hd' & D').
  { destruct D as [D|D]; [exists y|exists (- y)]; split; auto. apply (on_opp FT _ Hd). }
  clear y Hd D. rename y' into y. destruct p as [[x0 y0]|].
  2:{ destruct R0 as [N0 ->]. destruct q as [[x1 y1]|]; [|discriminate]. cbn in D'. injection D' as -> _. destruct R1 as [N1 ->]. cbn.
      split; [repeat apply nz_mul; auto; replace (X0 * W1 - 0 * (x * W1)) with (X0 * W1) by ring; apply nz_mul; auto|ring]. }
  destruct q as [[x1 y1]|].
  2:{ destruct R1 as [N1 ->]. cbn in D'. injection D' as -> _. destruct R0 as [N0 ->]. cbn.
      split; [repeat apply nz_mul; auto; replace (x * W0 * 0 - W0 * X1) with (- (W0 * X1)) by ring; intros E; apply (nz_mul _ _ N0 N1); replace (W0 * X1) with (- - (W0 * X1)) by ring; rewrite E; ring|ring]. }
  destruct R0 as [N0 ->], R1 as [N1 ->]. replace (x0 * W0 * (x1 * W1) - W0 * W1) with ((W0 * W1) * (x0 * x1 - 1)) by ring.
  replace (x0 * W0 * W1 - W0 * (x1 * W1)) with ((W0 * W1) * (x0 - x1)) by ring. set (w := W0 * W1). assert (Nw : w <> 0) by (apply nz_mul; auto).
  destruct (padd (Some (x0, y0)) (Some (x1, y1))) as [[x2 y2]|] eqn:S.
  - pose proof (sum_x _ _ _ _ _ _ Hp Hq S) as E2. cbn [S_Curve.popp] in D'. pose proof (sum_x _ _ _ _ _ _ Hp (on_opp FT _ Hq) D') as E1.
    assert (Nx01 : x0 <> x1).
    { intros ->. destruct (same_x FT keq_ok _ _ _ Hp Hq) as [->| ->].
      - cbn in D'. replace (- - y1) with y1 in D' by ring. rewrite !(keq_refl keq_ok) in D'. discriminate.
      - cbn in S. rewrite !(keq_refl keq_ok) in S. discriminate. }
    assert (N : x0 - x1 <> 0) by (apply (sub_nz FT); auto). split; [repeat apply nz_mul; auto|].
    apply (kcancel ((x0 - x1) * (x0 - x1))); [apply nz_mul; auto|]. 
    transitivity (c * (w * w) * ((x1 - x0) * (x1 - x0) * ((x0 * x1 - 1) * (x0 * x1 - 1)))); [ring|].
    transitivity (c * (w * w) * ((x2 * ((x1 - x0) * (x1 - x0))) * (x * ((x1 - x0) * (x1 - x0))))); [|ring]. rewrite E2, E1. f_equal.
    transitivity (((x0 * x1 + 1) * (x0 + x1) + 2 * A * (x0 * x1)) * ((x0 * x1 + 1) * (x0 + x1) + 2 * A * (x0 * x1)) - 4 * (y0 * y0) * (y1 * y1)); [|ring]. cbn in Hp, Hq. rewrite Hp, Hq. ring.
  - apply (padd_None FT keq_ok two_nz) in S; auto. cbn in S. injection S as -> ->. split; [|ring].
    cbn [S_Curve.popp] in D'. replace (- - y0) with y0 in D' by ring. destruct (kdec y0 0) as [Y|Y]; [rewrite (dbl_inf _ _ Hp Y) in D'; discriminate|].
    rewrite (dbl_fin _ _ Hp Y) in D'. injection D' as D' _. repeat apply nz_mul; auto; intros E; apply Nx; rewrite <- D', E; field; auto using nz_mul.
Qed.
(** y-recovery (Okeya-Sakurai): the ordinate of p from the abscissas of p and p + d *)
Lemma recover_y x0 y0 x y x1 y1 : on (Some (x0, y0)) -> on (Some (x, y)) -> padd (Some (x0, y0)) (Some (x, y)) = Some (x1, y1) ->
  (x * x0 + 1) * (x + x0 + 2 * A) - 2 * A - (x - x0) * (x - x0) * x1 = 2 * (y * y0).
Proof.
  intros H0 H S. pose proof (sum_x _ _ _ _ _ _ H0 H S) as E. replace ((x - x0) * (x - x0) * x1) with (x1 * ((x - x0) * (x - x0))) by ring. rewrite E. ring.
Qed.
(** multiples of a point of order two *)
Lemma pmul_order2 x n : on (Some (x, 0)) -> pmul_nat n (Some (x, 0)) = if Nat.even n then None else Some (x, 0).
Proof.
  intros H. induction n; [reflexivity|]. rewrite pmul_nat_S, IHn, Nat.even_succ, <- Nat.negb_even. destruct (Nat.even n); [reflexivity|]. apply dbl_inf; auto.
Qed.
End Kummer.
