(** Sums of the quadratic character over the prime field, and the number of points of y^2 = x^3 + 6x^2 + x and of its twist. *)
From Coq Require Import Arith ZArith List Bool Lia Ring Field Permutation Znumtheory FinFun.
From Verif Require Import S_Fp L_Prime L_FpRoots L_Fp L_FpOps L_Zp.
Import ListNotations.
Open Scope Z_scope.
Add Field Zp_cf : Zp_field.

Fixpoint sumz {X} (f : X -> Z) (l : list X) : Z := match l with [] => 0 | x :: l => f x + sumz f l end.
Lemma sumz_ext {X} (f g : X -> Z) l : (forall x, f x = g x) -> sumz f l = sumz g l.
Proof. intros H. induction l; cbn [sumz]; [reflexivity|rewrite H, IHl; reflexivity]. Qed.
Lemma sumz_add {X} (f g : X -> Z) l : sumz (fun x => f x + g x) l = sumz f l + sumz g l.
Proof. induction l; cbn [sumz]; [reflexivity|rewrite IHl; ring]. Qed.
Lemma sumz_scal {X} (f : X -> Z) c l : sumz (fun x => c * f x) l = c * sumz f l.
Proof. induction l; cbn [sumz]; [ring|rewrite IHl; ring]. Qed.
Lemma sumz_const {X} c (l : list X) : sumz (fun _ => c) l = c * Z.of_nat (length l).
Proof. induction l; cbn [sumz length]; [ring|rewrite IHl, Nat2Z.inj_succ; ring]. Qed.
Lemma sumz_swap {X Y} (g : X -> Y -> Z) l1 l2 : sumz (fun x => sumz (g x) l2) l1 = sumz (fun y => sumz (fun x => g x y) l1) l2.
Proof. induction l1 as [|a l1 IH]; cbn [sumz]; [symmetry; induction l2; cbn [sumz]; [reflexivity|exact IHl2]|]. rewrite IH, <- sumz_add. apply sumz_ext. reflexivity. Qed.
Lemma sumz_perm {X} (f : X -> Z) l l' : Permutation l l' -> sumz f l = sumz f l'.
Proof. induction 1; cbn [sumz]; lia. Qed.
Lemma sumz_map {X Y} (f : Y -> Z) (g : X -> Y) l : sumz f (map g l) = sumz (fun x => f (g x)) l.
Proof. induction l; cbn [sumz map]; [reflexivity|rewrite IHl; reflexivity]. Qed.
Lemma sumz_app {X} (f : X -> Z) l l' : sumz f (l ++ l') = sumz f l + sumz f l'.
Proof. induction l; cbn [sumz app]; [reflexivity|rewrite IHl; ring]. Qed.
Lemma length_filter {X} (b : X -> bool) l : Z.of_nat (length (filter b l)) = sumz (fun x => if b x then 1 else 0) l.
Proof. induction l as [|a l IH]; cbn [sumz filter length]; [reflexivity|]. destruct (b a); cbn [length]; rewrite <- IH; lia. Qed.
Lemma sumz_prod {X Y} (f : X * Y -> Z) l1 l2 : sumz f (list_prod l1 l2) = sumz (fun x => sumz (fun y => f (x, y)) l2) l1.
Proof. induction l1 as [|a l1 IH]; cbn [sumz list_prod]; [reflexivity|]. rewrite sumz_app, sumz_map, IH. reflexivity. Qed.

Lemma map_NoDup_in {X Y} (f : X -> Y) l : (forall x y, In x l -> In y l -> f x = f y -> x = y) -> NoDup l -> NoDup (map f l).
Proof.
  intros H N. induction N as [|a l Na N IH]; cbn [map]; [constructor|]. constructor; [|apply IH; intros x y Hx Hy; apply H; right; assumption].
  intros I. apply in_map_iff in I. destruct I as (b & E & Hb). apply Na. rewrite <- (H b a (or_intror Hb) (or_introl eq_refl) E). exact Hb.
Qed.
Definition d (x a : Zp) : Z := if zp_dec x a then 1 else 0.
Lemma d_t x a : x = a -> d x a = 1. Proof. intros H. unfold d. destruct (zp_dec x a); [reflexivity|contradiction]. Qed.
Lemma d_f x a : x <> a -> d x a = 0. Proof. intros H. unfold d. destruct (zp_dec x a); [contradiction|reflexivity]. Qed.
Lemma d_iff x a y b : (x = a <-> y = b) -> d x a = d y b.
Proof. intros H. destruct (zp_dec x a) as [E|E]; [rewrite (d_t _ _ E), (d_t y b); tauto|rewrite (d_f _ _ E), (d_f y b); tauto]. Qed.

Notation chi := leg_spec.
Lemma chi_0 : chi 0%zp = 0. Proof. unfold leg_spec. destruct (zp_dec 0%zp 0%zp); [reflexivity|contradiction]. Qed.
Lemma chi_sq a : a <> 0%zp -> zsquare a -> chi a = 1. Proof. intros N S. unfold leg_spec. destruct (zp_dec a 0%zp); [contradiction|]. destruct (zsquare_dec a); [reflexivity|contradiction]. Qed.
Lemma chi_ns a : ~ zsquare a -> chi a = -1.
Proof. intros S. unfold leg_spec. destruct (zp_dec a 0%zp) as [->|]; [destruct (S zsquare_0)|]. destruct (zsquare_dec a); [contradiction|reflexivity]. Qed.
Lemma zopp_0 a : (- a)%zp = 0%zp -> a = 0%zp. Proof. intros H. replace a with (- - a)%zp by ring. rewrite H. ring. Qed.
Lemma chi_opp a : chi (- a)%zp = - chi a.
Proof.
  destruct (zp_dec a 0%zp) as [->|N]; [replace (- 0)%zp with 0%zp by ring; rewrite chi_0; reflexivity|]. assert (N' : (- a)%zp <> 0%zp) by (intros H; exact (N (zopp_0 a H))).
  destruct (zsquare_dec a) as [S|S].
  - rewrite (chi_sq a N S). apply chi_ns. intros S'. exact (N (zsquare_both a S S')).
  - rewrite (chi_ns a S). apply chi_sq; [exact N'|exact (zsquare_opp a S)].
Qed.
Lemma zsq_div a b : a <> 0%zp -> zsquare a -> zsquare (a * b)%zp -> zsquare b.
Proof. intros N [r Hr] [s Hs]. assert (Nr : r <> 0%zp) by (intros Z; apply N; rewrite <- Hr, Z; ring). exists (s / r)%zp. transitivity ((s * s) / (r * r))%zp; [field; exact Nr|]. rewrite Hs, Hr. field. exact N. Qed.
Lemma chi_mul_s a b : a <> 0%zp -> zsquare a -> chi (a * b)%zp = chi b.
Proof.
  intros N S. destruct (zp_dec b 0%zp) as [->|Nb]; [f_equal; ring|]. destruct (zsquare_dec b) as [Sb|Sb].
  - rewrite (chi_sq b Nb Sb). apply chi_sq; [apply zmul_nz; assumption|apply zsquare_mul; assumption].
  - rewrite (chi_ns b Sb). apply chi_ns. intros H. exact (Sb (zsq_div a b N S H)).
Qed.
Lemma chi_mul a b : chi (a * b)%zp = chi a * chi b.
Proof.
  destruct (zp_dec a 0%zp) as [->|N]; [replace (0 * b)%zp with 0%zp by ring; rewrite chi_0; reflexivity|]. destruct (zsquare_dec a) as [S|S].
  - rewrite (chi_mul_s a b N S), (chi_sq a N S). ring.
  - rewrite (chi_ns a S). replace (a * b)%zp with (- (- a * b))%zp by ring. rewrite chi_opp, chi_mul_s; [ring| |exact (zsquare_opp a S)]. intros H; exact (N (zopp_0 a H)).
Qed.

(** the field as a list *)
Lemma all_ex : exists l : list Zp, NoDup l /\ (forall x, In x l) /\ Z.of_nat (length l) = P.
Proof.
  pose proof P_pos as PP. generalize (eq_refl (Z.to_nat P)). generalize (Z.to_nat P) at 2. intros n Hn. assert (En : Z.of_nat n = P) by (rewrite <- Hn; apply Z2Nat.id; clear -PP; lia). clear Hn.
  exists (map (fun k => mk (Z.of_nat k)) (seq 0 n)). split; [|split].
  - apply map_NoDup_in; [|apply seq_NoDup]. intros x y Hx Hy E. apply in_seq in Hx, Hy. apply (f_equal zval) in E. rewrite !zval_mk, !Z.mod_small in E; clear -E Hx Hy En; lia.
  - intros x. apply in_map_iff. exists (Z.to_nat (zval x)). pose proof (zval_range x) as R. split; [rewrite Z2Nat.id by (clear -R; lia); apply mk_zval|]. apply in_seq. clear -R En. lia.
  - rewrite map_length, seq_length. exact En.
Qed.

Section Sums.
Variable all : list Zp.
Hypothesis Nd : NoDup all.
Hypothesis Full : forall x, In x all.
Lemma ss_bij (f : Zp -> Z) (g h : Zp -> Zp) : (forall x, h (g x) = x) -> (forall x, g (h x) = x) -> sumz (fun x => f (g x)) all = sumz f all.
Proof.
  intros H1 H2. rewrite <- sumz_map. apply sumz_perm. apply NoDup_Permutation; [|exact Nd|].
  - apply Injective_map_NoDup; [|exact Nd]. intros x y E. rewrite <- (H1 x), <- (H1 y), E. reflexivity.
  - intros x. split; intros _; [apply Full|]. rewrite <- (H2 x). apply in_map, Full.
Qed.
Lemma ss_one a c : sumz (fun x => d x a * c) all = c.
Proof.
  assert (G : forall l, NoDup l -> (In a l -> sumz (fun x => d x a * c) l = c) /\ (~ In a l -> sumz (fun x => d x a * c) l = 0)).
  { induction l as [|b l IH]; intros N; [split; [intros []|reflexivity]|]. inversion N as [|? ? Nb Nl]; subst. specialize (IH Nl). destruct IH as [I1 I2]. split; intros H; cbn [sumz].
    - destruct (zp_dec b a) as [->|E]; [rewrite (d_t a a eq_refl), (I2 Nb); ring|]. rewrite (d_f b a E). destruct H as [H|H]; [contradiction|]. rewrite (I1 H). ring.
    - rewrite (d_f b a); [|intros E; apply H; left; exact E]. rewrite I2; [ring|]. intros H'. apply H. right. exact H'. }
  exact (proj1 (G all Nd) (Full a)).
Qed.
Lemma ss_one' a : sumz (fun x => d x a) all = 1.
Proof. rewrite <- (ss_one a 1). apply sumz_ext. intros x. ring. Qed.
Lemma ss_odd (f : Zp -> Z) : (forall x, f (- x)%zp = - f x) -> sumz f all = 0.
Proof.
  intros H. pose proof (ss_bij f zopp zopp zopp_invol zopp_invol) as B. rewrite (sumz_ext _ (fun x => -1 * f x)) in B; [rewrite sumz_scal in B; clear -B; lia|]. intros x. rewrite H. ring.
Qed.
(** square roots, and roots of a quadratic *)
Lemma ss_roots c : sumz (fun y => d (y * y)%zp c) all = 1 + chi c.
Proof.
  destruct (zp_dec c 0%zp) as [->|N].
  - rewrite chi_0, <- (ss_one' 0%zp). rewrite Z.add_0_r. apply sumz_ext. intros y. apply d_iff. split; [apply zsq_0|intros ->; ring].
  - destruct (zsquare_dec c) as [[r Hr]|S].
    + rewrite (chi_sq c N) by (exists r; exact Hr). rewrite <- (ss_one' r) at 1. rewrite <- (ss_one' (- r)%zp), <- sumz_add. apply sumz_ext. intros y. subst c.
      assert (Nr : r <> (- r)%zp). { intros E. apply N. assert (Z : (2 * r)%zp = 0%zp) by (transitivity (r - - r)%zp; [ring|rewrite <- E; ring]). destruct (zmul_eq0 _ _ Z) as [E2|E2]; [destruct (two_nz E2)|rewrite E2; ring]. }
      destruct (zp_dec y r) as [->|E1]; [rewrite (d_t r r eq_refl), (d_f _ _ Nr), d_t; reflexivity|]. rewrite (d_f _ _ E1).
      destruct (zp_dec y (- r)%zp) as [->|E2]; [rewrite (d_t (- r)%zp _ eq_refl), d_t; [reflexivity|ring]|]. rewrite (d_f _ _ E2), d_f; [reflexivity|]. intros E. destruct (zsq_eq _ _ E); contradiction.
    + rewrite (chi_ns c S). rewrite (sumz_ext _ (fun _ => 0)); [rewrite sumz_const; reflexivity|]. intros y. apply d_f. intros E. apply S. exists y. exact E.
Qed.
Lemma ss_quad t : sumz (fun x => d (x * x - t * x + 1)%zp 0%zp) all = 1 + chi (t * t - 2 * 2)%zp.
Proof.
  rewrite <- ss_roots. pose proof two_nz as T2. rewrite <- (ss_bij _ (fun y => ((y + t) / 2)%zp) (fun x => (2 * x - t)%zp)); [|intros; field; exact T2|intros; field; exact T2].
  apply sumz_ext. intros y. apply d_iff.
  assert (Q : (y * y - (t * t - 2 * 2) = 2 * 2 * ((y + t) / 2 * ((y + t) / 2) - t * ((y + t) / 2) + 1))%zp) by (field; exact T2).
  split; intros H.
  - rewrite H in Q. transitivity (y * y - (t * t - 2 * 2) + (t * t - 2 * 2))%zp; [ring|rewrite Q; ring].
  - assert (Z : (2 * (2 * ((y + t) / 2 * ((y + t) / 2) - t * ((y + t) / 2) + 1)))%zp = 0%zp) by (transitivity (y * y - (t * t - 2 * 2))%zp; [rewrite Q; ring|rewrite H; ring]).
    destruct (zmul_eq0 _ _ Z) as [Z1|Z1]; [contradiction|]. destruct (zmul_eq0 _ _ Z1) as [Z2|Z2]; [contradiction|exact Z2].
Qed.
Definition six : Zp := ((1 + 2) * 2)%zp.
Definition cub (x : Zp) : Zp := (x * (x * x) + six * (x * x) + x)%zp.
Lemma chi_cub x : chi (cub x) = sumz (fun t => d (x * x - t * x + 1)%zp 0%zp * chi (t + six)%zp) all.
Proof.
  destruct (zp_dec x 0%zp) as [->|N].
  - rewrite (sumz_ext _ (fun _ => 0)); [rewrite sumz_const; unfold cub; replace (0 * (0 * 0) + six * (0 * 0) + 0)%zp with 0%zp by ring; exact chi_0|].
    intros t. rewrite d_f; [ring|]. intros E. apply one_neq_zero. rewrite <- E. ring.
  - rewrite (sumz_ext _ (fun t => d t (x + 1 / x)%zp * chi (x + 1 / x + six)%zp)).
    + rewrite ss_one. replace (cub x) with (x * x * (x + 1 / x + six))%zp by (unfold cub; field; exact N). apply chi_mul_s; [apply zmul_nz; assumption|exists x; reflexivity].
    + intros t. destruct (zp_dec t (x + 1 / x)%zp) as [->|E].
      * rewrite !d_t; [reflexivity|reflexivity|field; exact N].
      * rewrite (d_f t _ E), d_f; [reflexivity|]. intros H. apply E. transitivity ((t * x) / x)%zp; [field; exact N|]. replace (t * x)%zp with (x * x + 1 - (x * x - t * x + 1))%zp by ring. rewrite H. field. exact N.
Qed.
Lemma ss_cub : sumz (fun x => chi (cub x)) all = 0.
Proof.
  rewrite (sumz_ext _ _ all chi_cub), (sumz_swap (fun x t => d (x * x - t * x + 1)%zp 0%zp * chi (t + six)%zp)).
  rewrite (sumz_ext _ (fun t => chi (t + six)%zp + chi ((t + six) * (t * t - 2 * 2))%zp)).
  - rewrite sumz_add.
    rewrite (ss_bij chi (fun t => (t + six)%zp) (fun t => (t - six)%zp)); [|intros; ring|intros; ring]. rewrite (ss_odd chi chi_opp).
    rewrite <- (ss_bij _ (fun s => (s - 2)%zp) (fun s => (s + 2)%zp)); [|intros; ring|intros; ring]. rewrite ss_odd; [reflexivity|]. intros x. rewrite <- chi_opp. f_equal. unfold six. ring.
  - intros t. rewrite (sumz_ext _ (fun x => chi (t + six)%zp * d (x * x - t * x + 1)%zp 0%zp)); [|intros; ring]. rewrite sumz_scal, ss_quad, chi_mul. ring.
Qed.
(** points with ordinate squared equal to a function of zero character sum *)
Definition points (g : Zp -> Zp) : list (Zp * Zp) := filter (fun p => zeqb (snd p * snd p)%zp (g (fst p))) (list_prod all all).
Lemma points_length g : sumz (fun x => chi (g x)) all = 0 -> Z.of_nat (length (points g)) = Z.of_nat (length all).
Proof.
  intros H. unfold points. rewrite length_filter, sumz_prod. cbn [fst snd]. rewrite (sumz_ext _ (fun x => 1 + chi (g x))); [rewrite sumz_add, H, sumz_const; ring|].
  intros x. rewrite <- ss_roots. apply sumz_ext. intros y. unfold zeqb, d. destruct (zp_dec (y * y)%zp (g x)); reflexivity.
Qed.
Lemma prod_NoDup {X Y} (l1 : list X) (l2 : list Y) : NoDup l1 -> NoDup l2 -> NoDup (list_prod l1 l2).
Proof.
  intros N1 N2. induction N1 as [|a l1 Na N1 IH]; cbn [list_prod]; [constructor|].
  assert (NM : NoDup (map (pair a) l2)) by (apply Injective_map_NoDup; [intros x y E; injection E; auto|exact N2]).
  assert (DJ : forall z, In z (map (pair a) l2) -> ~ In z (list_prod l1 l2)) by (intros [x y] H1 H2; apply in_map_iff in H1; destruct H1 as (y' & E & _); injection E as <- <-; apply in_prod_iff in H2; tauto).
  revert NM DJ. induction (map (pair a) l2) as [|z l IHl]; intros NM DJ; cbn [app]; [exact IH|]. inversion NM as [|? ? Hz Hl]; subst. constructor; [|apply IHl; [exact Hl|intros w Hw; apply DJ; right; exact Hw]].
  rewrite in_app_iff. intros [H|H]; [exact (Hz H)|]. exact (DJ z (or_introl eq_refl) H).
Qed.
Lemma points_NoDup g : NoDup (points g). Proof. apply NoDup_filter, prod_NoDup; exact Nd. Qed.
Lemma points_in g x y : In (x, y) (points g) <-> (y * y)%zp = g x.
Proof. unfold points. rewrite filter_In, in_prod_iff. cbn [fst snd]. unfold zeqb. destruct (zp_dec (y * y)%zp (g x)); split; intros H; try tauto; [split; [split; apply Full|reflexivity]|destruct H; discriminate]. Qed.
End Sums.

(** #{(x,y) : y^2 = s (x^3 + 6x^2 + x)} = p for s = 1 and s = -1 *)
Lemma count_points (tw : bool) : exists l : list (Zp * Zp), NoDup l /\ (forall x y, In (x, y) l <-> (y * y)%zp = if tw then (- cub x)%zp else cub x) /\ Z.of_nat (length l) = P.
Proof.
  destruct all_ex as (all & Nd & Full & Len). exists (points all (fun x => if tw then (- cub x)%zp else cub x)). split; [exact (points_NoDup all Nd _)|]. split; [exact (points_in all Full _)|].
  rewrite <- Len. apply (points_length all Nd Full). destruct tw; [|exact (ss_cub all Nd Full)].
  rewrite (sumz_ext _ (fun x => -1 * chi (cub x))); [rewrite sumz_scal, (ss_cub all Nd Full); reflexivity|]. intros x. rewrite chi_opp. ring.
Qed.
