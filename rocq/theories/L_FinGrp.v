(** Finite commutative groups given as lists: the order kills every element, fibres of doubling, elements of order two, towers of halves. *)
From Coq Require Import Arith ZArith List Bool Lia Permutation FinFun.
From Verif Require Import L_Count.
Import ListNotations.

Lemma iter_swap {X} (f : X -> X) n x : f (Nat.iter n f x) = Nat.iter n f (f x).
Proof. induction n as [|n IH]; [reflexivity|]. change (f (f (Nat.iter n f x)) = f (Nat.iter n f (f x))). rewrite IH. reflexivity. Qed.
Section FG.
Variables (G : Type) (add : G -> G -> G) (zero : G) (opp : G -> G) (On : G -> Prop).
Hypothesis dec : forall x y : G, {x = y} + {x <> y}.
Hypothesis on_zero : On zero.
Hypothesis on_add : forall x y, On x -> On y -> On (add x y).
Hypothesis on_opp : forall x, On x -> On (opp x).
Hypothesis comm : forall x y, On x -> On y -> add x y = add y x.
Hypothesis assoc : forall x y z, On x -> On y -> On z -> add (add x y) z = add x (add y z).
Hypothesis zero_l : forall x, add zero x = x.
Hypothesis opp_r : forall x, On x -> add x (opp x) = zero.

Fixpoint nmul (n : nat) (x : G) : G := match n with O => zero | S n => add (nmul n x) x end.
Definition dbl (x : G) : G := add x x.
Record subgroup (l : list G) : Prop := { sb_nd : NoDup l; sb_on : forall x, In x l -> On x; sb_zero : In zero l; sb_add : forall x y, In x l -> In y l -> In (add x y) l; sb_opp : forall x, In x l -> In (opp x) l }.

Lemma zero_r x : On x -> add x zero = x. Proof. intros H. rewrite comm; auto. Qed.
Lemma opp_l x : On x -> add (opp x) x = zero. Proof. intros H. rewrite comm; auto. Qed.
Lemma cancel_l g x y : On g -> On x -> On y -> add g x = add g y -> x = y.
Proof. intros Hg Hx Hy E. rewrite <- (zero_l x), <- (zero_l y), <- (opp_l g Hg), !assoc, E; auto. Qed.
Lemma swap4 a b c e : On a -> On b -> On c -> On e -> add (add a b) (add c e) = add (add a c) (add b e).
Proof. intros Ha Hb Hc He. rewrite (assoc a b (add c e)), (assoc a c (add b e)) by auto. f_equal. rewrite <- (assoc b c e), <- (assoc c b e), (comm b c) by auto. reflexivity. Qed.
Lemma opp_uniq x y : On x -> On y -> add x y = zero -> y = opp x.
Proof. intros Hx Hy E. apply (cancel_l x); auto. rewrite E, opp_r; auto. Qed.
Lemma dbl_add x y : On x -> On y -> dbl (add x y) = add (dbl x) (dbl y).
Proof. intros Hx Hy. unfold dbl. apply swap4; auto. Qed.
Lemma nmul_on n x : On x -> On (nmul n x). Proof. intros H. induction n; cbn [nmul]; auto. Qed.
Lemma nmul_dbl n x : On x -> nmul n (dbl x) = dbl (nmul n x).
Proof. intros H. induction n; cbn [nmul]; [unfold dbl; rewrite zero_l; reflexivity|]. rewrite IHn. rewrite (dbl_add (nmul n x) x); auto using nmul_on. Qed.

Fixpoint total (l : list G) : G := match l with [] => zero | x :: l => add x (total l) end.
Lemma total_on l : (forall x, In x l -> On x) -> On (total l).
Proof. induction l as [|a l IH]; cbn [total]; intros H; [exact on_zero|]. apply on_add; [apply H; left; reflexivity|apply IH; intros x Hx; apply H; right; exact Hx]. Qed.
Lemma total_perm l l' : Permutation l l' -> (forall x, In x l -> On x) -> total l = total l'.
Proof.
  induction 1 as [|x l l' P IH|x y l|l l' l'' P1 I1 P2 I2]; intros H; cbn [total].
  - reflexivity.
  - rewrite IH; [reflexivity|]. intros z Hz. apply H. right. exact Hz.
  - assert (Hx : On x) by (apply H; right; left; reflexivity). assert (Hy : On y) by (apply H; left; reflexivity). assert (Ht : On (total l)) by (apply total_on; intros z Hz; apply H; right; right; exact Hz).
    rewrite <- !assoc by auto. rewrite (comm y x) by auto. reflexivity.
  - rewrite I1 by exact H. apply I2. intros x Hx. apply H. apply (Permutation_in x (Permutation_sym P1) Hx).
Qed.
Lemma total_shift g l : On g -> (forall x, In x l -> On x) -> total (map (add g) l) = add (nmul (length l) g) (total l).
Proof.
  intros Hg. induction l as [|a l IH]; intros H; cbn [total map length nmul]; [rewrite zero_l; reflexivity|].
  assert (Ha : On a) by (apply H; left; reflexivity). assert (Hl : forall x, In x l -> On x) by (intros x Hx; apply H; right; exact Hx). pose proof (total_on l Hl) as Ht.
  rewrite IH by exact Hl. rewrite (comm (nmul (length l) g) g) by auto using nmul_on. apply swap4; auto using nmul_on.
Qed.
(** translates of a finite group by its elements *)
Lemma shift_perm l g : subgroup l -> In g l -> Permutation (map (add g) l) l.
Proof.
  intros S Hg. apply NoDup_Permutation_bis.
  - apply map_NoDup_in; [|exact (sb_nd l S)]. intros x y Hx Hy. apply cancel_l; apply (sb_on l S); assumption.
  - rewrite map_length. auto.
  - intros z Hz. apply in_map_iff in Hz. destruct Hz as (x & <- & Hx). apply (sb_add l S); assumption.
Qed.
Theorem lagrange l g : subgroup l -> In g l -> nmul (length l) g = zero.
Proof.
  intros S Hg. pose proof (sb_on l S) as O. pose proof (total_perm _ _ (Permutation_sym (shift_perm l g S Hg)) O) as E. rewrite total_shift in E by auto.
  pose proof (total_on l O) as Ht. pose proof (nmul_on (length l) g (O g Hg)) as Hn. symmetry. apply (cancel_l (total l)); auto. rewrite zero_r by auto. rewrite comm by auto. exact E.
Qed.

(** ** Doubling *)
Definition tors2 (l : list G) : list G := filter (fun x => if dec (dbl x) zero then true else false) l.
Definition image2 (l : list G) : list G := nodup dec (map dbl l).
Lemma tors2_in l x : In x (tors2 l) <-> In x l /\ dbl x = zero.
Proof. unfold tors2. rewrite filter_In. destruct (dec (dbl x) zero); split; intros [H1 H2]; try discriminate; try contradiction; auto. Qed.
Lemma image2_in l y : In y (image2 l) <-> exists x, In x l /\ dbl x = y.
Proof. unfold image2. rewrite nodup_In, in_map_iff. split; intros (x & H1 & H2); exists x; auto. Qed.
Lemma dbl_opp x : On x -> dbl (opp x) = opp (dbl x).
Proof. intros H. apply opp_uniq; unfold dbl; auto. rewrite swap4 by auto. rewrite opp_r by auto. apply zero_l. Qed.
Lemma image2_sub l : subgroup l -> subgroup (image2 l).
Proof.
  intros S. pose proof (sb_on l S) as O. split.
  - apply NoDup_nodup.
  - intros y H. apply image2_in in H. destruct H as (x & Hx & <-). unfold dbl. auto.
  - apply image2_in. exists zero. split; [exact (sb_zero l S)|apply zero_l].
  - intros y z Hy Hz. apply image2_in in Hy, Hz. destruct Hy as (a & Ha & <-), Hz as (b & Hb & <-). apply image2_in. exists (add a b). split; [apply (sb_add l S); assumption|apply dbl_add; auto].
  - intros y Hy. apply image2_in in Hy. destruct Hy as (a & Ha & <-). apply image2_in. exists (opp a). split; [apply (sb_opp l S); assumption|apply dbl_opp; auto].
Qed.
Lemma fibre l y : subgroup l -> In y (image2 l) -> length (filter (fun x => if dec (dbl x) y then true else false) l) = length (tors2 l).
Proof.
  intros S Hy. apply image2_in in Hy. destruct Hy as (a & Ha & Ey). pose proof (sb_on l S) as O. rewrite <- (map_length (add a) (tors2 l)). apply Permutation_length. apply NoDup_Permutation.
  - apply NoDup_filter. exact (sb_nd l S).
  - apply map_NoDup_in; [|apply NoDup_filter; exact (sb_nd l S)]. intros x z Hx Hz. apply tors2_in in Hx, Hz. apply cancel_l; apply O; tauto.
  - intros x. rewrite filter_In, in_map_iff. split.
    + intros [Hx H]. destruct (dec (dbl x) y) as [E|]; [|discriminate]. exists (add (opp a) x). split.
      * rewrite <- assoc, opp_r by auto. apply zero_l.
      * apply tors2_in. split; [apply (sb_add l S); [apply (sb_opp l S)|]; assumption|]. rewrite dbl_add, dbl_opp, E, <- Ey by auto. apply opp_l. unfold dbl. auto.
    + intros (t & <- & Ht). apply tors2_in in Ht. destruct Ht as [Ht Et]. split; [apply (sb_add l S); assumption|]. rewrite dbl_add, Et, zero_r by (unfold dbl; auto). destruct (dec (dbl a) y); [reflexivity|contradiction].
Qed.
Lemma fibres_sum (f : G -> G) D l : NoDup D -> (forall x, In x l -> In (f x) D) -> Z.of_nat (length l) = sumz (fun y => Z.of_nat (length (filter (fun x => if dec (f x) y then true else false) l))) D.
Proof.
  intros ND H. rewrite (sumz_ext _ (fun y => sumz (fun x => if (if dec (f x) y then true else false) then 1 else 0)%Z l)) by (intros y; apply length_filter).
  rewrite (sumz_swap (fun y x => if (if dec (f x) y then true else false) then 1 else 0)%Z). induction l as [|a l IH]; cbn [sumz length]; [reflexivity|].
  rewrite Nat2Z.inj_succ, IH by (intros x Hx; apply H; right; exact Hx). specialize (H a (or_introl eq_refl)). clear IH. enough (E : sumz (fun x : G => if (if dec (f a) x then true else false) then 1 else 0)%Z D = 1%Z) by lia.
  revert H. induction ND as [|b D Nb ND IH]; intros H; [destruct H|]. cbn [sumz]. destruct (dec (f a) b) as [->|E].
  - assert (Z0 : forall L, ~ In b L -> sumz (fun x : G => if (if dec b x then true else false) then 1 else 0)%Z L = 0%Z).
    { induction L as [|c L IL]; intros N; cbn [sumz]; [reflexivity|]. destruct (dec b c) as [->|]; [destruct N; left; reflexivity|]. rewrite IL; [reflexivity|]. intros HI. apply N. right. exact HI. }
    rewrite (Z0 D Nb). reflexivity.
  - rewrite IH; [reflexivity|]. destruct H as [H|H]; [symmetry in H; contradiction|exact H].
Qed.
Lemma sumz_const_in {X} (f : X -> Z) c l : (forall x, In x l -> f x = c) -> sumz f l = (c * Z.of_nat (length l))%Z.
Proof. intros H. induction l as [|a l IH]; cbn [sumz length]; [lia|]. rewrite (H a (or_introl eq_refl)), IH by (intros x Hx; apply H; right; exact Hx). lia. Qed.
Theorem length_image2 l : subgroup l -> (length l = length (tors2 l) * length (image2 l))%nat.
Proof.
  intros S. apply Nat2Z.inj. rewrite Nat2Z.inj_mul, (fibres_sum dbl (image2 l) l).
  - apply sumz_const_in. intros y Hy. f_equal. exact (fibre l y S Hy).
  - exact (sb_nd _ (image2_sub l S)).
  - intros x Hx. apply image2_in. exists x. auto.
Qed.

(** ** An element of order two in a group of even order *)
Lemma involution_even (s : G -> G) : forall n l, (length l <= n)%nat -> NoDup l -> (forall x, In x l -> In (s x) l) -> (forall x, In x l -> s (s x) = x) -> (forall x, In x l -> s x <> x) -> Nat.even (length l) = true.
Proof.
  induction n as [|n IH]; intros l Hl Nd C I F; [destruct l; [reflexivity|cbn in Hl; lia]|]. destruct l as [|a l]; [reflexivity|].
  inversion Nd as [|? ? Na Nl]; subst. assert (Hs : In (s a) l) by (destruct (C a (or_introl eq_refl)) as [E|E]; [symmetry in E; destruct (F a (or_introl eq_refl) E)|exact E]).
  destruct (in_split _ _ Hs) as (l1 & l2 & El). subst l. pose proof (NoDup_remove_1 _ _ _ Nl) as N1. pose proof (NoDup_remove_2 _ _ _ Nl) as N2.
  cbn [length]. rewrite app_length. cbn [length]. replace (S (length l1 + S (length l2))) with (S (S (length (l1 ++ l2)))) by (rewrite app_length; lia). cbn [Nat.even].
  assert (IN : forall x, In x (l1 ++ l2) -> In x (a :: l1 ++ s a :: l2)) by (intros x Hx; right; apply in_app_iff in Hx; apply in_app_iff; destruct Hx; [left; assumption|right; right; assumption]).
  apply IH; [cbn [length] in Hl; rewrite app_length in *; cbn [length] in Hl; lia|exact N1| | |].
  - intros x Hx. pose proof (IN x Hx) as Hx'. pose proof (C x Hx') as HC. destruct HC as [E|HC].
    + exfalso. apply N2. replace (s a) with x; [exact Hx|]. rewrite E. symmetry. apply I. exact Hx'.
    + apply in_app_iff in HC. apply in_app_iff. destruct HC as [HC|[HC|HC]]; [left; exact HC| |right; exact HC]. exfalso. apply Na. replace a with x; [apply in_app_iff; apply in_app_iff in Hx; destruct Hx; [left; assumption|right; right; assumption]|].
      rewrite <- (I x Hx'), <- HC, I; [reflexivity|left; reflexivity].
  - intros x Hx. apply I, IN, Hx.
  - intros x Hx. apply F, IN, Hx.
Qed.
Lemma opp_invol x : On x -> opp (opp x) = x. Proof. intros H. symmetry. apply opp_uniq; auto. apply opp_l, H. Qed.
Lemma order_two l : subgroup l -> Nat.even (length l) = true -> exists t, In t l /\ t <> zero /\ dbl t = zero.
Proof.
  intros S Ev. pose proof (sb_on l S) as O. destruct (in_split _ _ (sb_zero l S)) as (l1 & l2 & El).
  destruct (existsb (fun x => if dec (dbl x) zero then true else false) (l1 ++ l2)) eqn:X.
  - apply existsb_exists in X. destruct X as (t & Ht & E). destruct (dec (dbl t) zero) as [Ed|]; [|discriminate]. exists t. split; [rewrite El; apply in_app_iff in Ht; apply in_app_iff; destruct Ht; [left; assumption|right; right; assumption]|].
    split; [|exact Ed]. intros ->. pose proof (sb_nd l S) as Nd. rewrite El in Nd. exact (NoDup_remove_2 _ _ _ Nd Ht).
  - exfalso. pose proof (sb_nd l S) as Nd. rewrite El in Nd. pose proof (NoDup_remove_1 _ _ _ Nd) as N1. pose proof (NoDup_remove_2 _ _ _ Nd) as N2.
    assert (IN : forall x, In x (l1 ++ l2) -> In x l) by (intros x Hx; rewrite El; apply in_app_iff in Hx; apply in_app_iff; destruct Hx; [left; assumption|right; right; assumption]).
    assert (E2 : Nat.even (length (l1 ++ l2)) = true).
    { apply (involution_even opp _ _ (le_n _) N1).
      - intros x Hx. pose proof (sb_opp l S x (IN x Hx)) as H. rewrite El in H. apply in_app_iff in H. apply in_app_iff. destruct H as [H|[H|H]]; auto. exfalso. apply N2. replace zero with x; [exact Hx|].
        rewrite <- (opp_invol x) by (apply O, IN, Hx). rewrite <- H. symmetry. apply opp_uniq; auto.
      - intros x Hx. apply opp_invol, O, IN, Hx.
      - intros x Hx E. assert (D : dbl x = zero) by (unfold dbl; rewrite <- E at 2; apply opp_r, O, IN, Hx). assert (X' : existsb (fun x => if dec (dbl x) zero then true else false) (l1 ++ l2) = true) by (apply existsb_exists; exists x; split; [exact Hx|destruct (dec (dbl x) zero); [reflexivity|contradiction]]). congruence. }
    rewrite El, app_length in Ev. cbn [length] in Ev. rewrite Nat.add_succ_r, <- app_length, Nat.even_succ, <- Nat.negb_even, E2 in Ev. discriminate.
Qed.

(** ** Repeated halving of the only element of order two *)
Lemma tower T : forall k l m, (length l = 2 ^ S k * m)%nat -> subgroup l -> (forall x, In x l -> dbl x = zero -> x = zero \/ x = T) -> exists h, In h l /\ Nat.iter k dbl h = T.
Proof.
  induction k as [|k IH]; intros l m Hl S HT.
  - destruct (order_two l S) as (t & Ht & Nt & Dt); [rewrite Hl; rewrite Nat.even_mul; reflexivity|]. exists t. split; [exact Ht|]. destruct (HT t Ht Dt); [contradiction|assumption].
  - assert (Ev : Nat.even (length l) = true) by (rewrite Hl, Nat.even_mul, Nat.even_pow by discriminate; reflexivity). destruct (order_two l S Ev) as (t & Ht & Nt & Dt). destruct (HT t Ht Dt) as [|E]; [contradiction|]. subst t.
    assert (LT : length (tors2 l) = 2%nat).
    { change 2%nat with (length [zero; T]). apply Permutation_length, NoDup_Permutation; [apply NoDup_filter; exact (sb_nd l S)|repeat constructor; cbn; intuition congruence|].
      intros x. rewrite tors2_in. cbn. split; [intros [H1 H2]; destruct (HT x H1 H2); auto|]. intros [<-|[<-|[]]]; [split; [exact (sb_zero l S)|apply zero_l]|auto]. }
    pose proof (length_image2 l S) as LI. rewrite LT, Hl in LI. assert (LI' : length (image2 l) = (2 ^ Datatypes.S k * m)%nat) by (rewrite (Nat.pow_succ_r' 2 (Datatypes.S k)) in LI; generalize dependent (2 ^ Datatypes.S k)%nat; intros; lia).
    destruct (IH (image2 l) m LI' (image2_sub l S)) as (h' & Hh & E).
    + intros x Hx. apply image2_in in Hx. destruct Hx as (a & Ha & <-). apply HT. apply (sb_add l S); assumption.
    + apply image2_in in Hh. destruct Hh as (h & Hh & <-). exists h. split; [exact Hh|]. rewrite <- E. exact (iter_swap dbl k h).
Qed.
End FG.
