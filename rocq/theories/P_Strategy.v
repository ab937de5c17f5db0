(** C40: strategy traversal of the (2,2)-isogeny chain (src/theta.rs:1079-1266, src/fields.rs:475, 497). *)
From Coq Require Import List Arith ZArith Bool Lia.
From Verif Require Import S_Strategy M_Field M_Curve M_Theta M_Consts L_Strategy L_Toy.
Import ListNotations.
Open Scope nat_scope.

(** the shipped strategy is one for the shipped length *)
Theorem C40_shipped : strat (Z.to_nat THETA_ISOGENY_LENGTH) THETA_STRATEGY.
Proof.
  assert (E : parse 700 (Z.to_nat THETA_ISOGENY_LENGTH) THETA_STRATEGY = Some []) by (vm_compute; reflexivity).
  destruct (parse_ok _ _ _ _ E) as (s & Es & H). rewrite app_nil_r in Es. rewrite Es. exact H.
Qed.
Theorem C40_length : forall n s, strat n s -> length s = n - 1 /\ 1 <= n.
Proof. intros n s H. pose proof (strat_length _ _ H). lia. Qed.

(** counting: points are replaced by the number of doublings they have seen, the domain by the list of the steps taken (steps left after it, doublings of both kernel points) *)
Definition count_dbl (_ : list (nat * nat * nat)) (c s : nat) : nat := c + s.
Definition count_push (m : nat) (tr : list (nat * nat * nat)) (c1 c2 : nat) (l : list nat) : list (nat * nat * nat) * list nat := (tr ++ [(m, c1, c2)], l).
Fixpoint countdown (m : nat) : list nat := match m with O => [] | S m' => m' :: countdown m' end.
(* the descent before the gluing step, then the loop, as in product_isogeny *)
Definition count_run (n : nat) (s : list nat) (imgs : list nat) : option (list (nat * nat * nat) * list nat) :=
  match n with
  | O => None
  | S n' =>
      match descend count_dbl [] s [0] 0 n' (0 :: 0 :: imgs) 0 0 with
      | None => None
      | Some (s, level, pts, c1, c2) => let '(tr, pts) := count_push n' [] c1 c2 (tl (tl pts)) in theta_loop count_dbl count_push n' tr s (tl level) pts
      end
  end.
Theorem C40_counts : forall n s imgs, strat n s -> count_run n s imgs = Some (map (fun m => (m, m, m)) (countdown n), imgs).
Proof.
  intros n s imgs H. destruct n as [|n]; [pose proof (strat_pos _ _ H); lia|]. unfold count_run.
  pose (Q := fun c x y : nat => x = c /\ y = c). pose (B := fun l : list nat => l = imgs).
  destruct (descend_ok count_dbl Q B [] (fun c s x y HQ => conj (f_equal (fun z => z + s) (proj1 HQ)) (f_equal (fun z => z + s) (proj2 HQ))) (S n) s H [] [] 0 0 imgs) as (fs & l & p1 & p2 & pts & E & [H1 H2] & HS & HL).
  { split; reflexivity. } { constructor. reflexivity. }
  cbn [app list_sum fold_right Nat.add] in E. rewrite app_nil_r, Nat.add_0_r in E. replace (S n - 1) with n in E by lia. assert (EL0 : list_sum fs = n) by (change (list_sum []) with 0 in HL; lia). rewrite EL0 in H1, H2. rewrite E. cbn [count_push tl app].
  change (tl (fs ++ [0])) with (tl (levels (1 :: fs))). rewrite tl_levels.
  pose (cod := fun m (tr : list (nat * nat * nat)) (x y : nat) => tr ++ [(m, x, y)]). pose (img := fun (m : nat) (d : list (nat * nat * nat)) (x y u : nat) => u).
  pose (I := fun m tr (g : unit) => tr ++ map (fun m => (m, m, m)) (countdown m) = map (fun m => (m, m, m)) (countdown (S n))).
  destruct (loop_ok count_dbl count_push cod img (fun m d x y l => f_equal (pair (d ++ [(m, x, y)])) (eq_sym (map_id l))) I (fun m d g => Q) (fun m d g => B)) with (m := n) (d := [(n, p1, p2)]) (g := tt) (fs := fs) (l := l) (pts := pts) as (d' & g' & pts' & EL & HI & HB).
  - intros m d g c s0 x y _ [Hx Hy]. subst. split; reflexivity.
  - intros m d g x y HI [Hx Hy]. exists tt. subst x y. split; [unfold I, cod; rewrite <- app_assoc; exact HI|]. split; [auto|]. intros l0 ->. unfold B. apply map_id.
  - subst p1 p2. reflexivity.
  - exact HS.
  - exact EL0.
  - rewrite EL. unfold B in HB. subst pts'. unfold I in HI. cbn [countdown map] in HI. rewrite app_nil_r in HI. rewrite HI. reflexivity.
Qed.

(** no panic in the traversal, for any field and any input: with a valid strategy product_isogeny is the final splitting of some theta points, as many as there are images,
    and the gluing step uses the (n-1)-fold doubles of P and Q *)
Lemma double_iter_add {F} (o : fops F) E (P : point F) a b : double_iter o E (double_iter o E P a) b = double_iter o E P (a + b).
Proof. unfold double_iter. rewrite Nat.add_comm. induction b as [|b IH]; [reflexivity|]. cbn [Nat.iter nat_rect Nat.add]. apply f_equal. exact IH. Qed.
Lemma prod_double_iter_add {F} (o : fops F) EE (P : couple F) a b : prod_double_iter o EE (prod_double_iter o EE P a) b = prod_double_iter o EE P (a + b).
Proof. unfold prod_double_iter. cbn [c1 c2]. rewrite !double_iter_add. reflexivity. Qed.
(* the stack after the gluing step: sizes of the unfinished subtrees and the doublings of P and Q on it *)
Lemma glue_stack {F} (o : fops F) EE P Q imgs n s : strat (S n) s ->
  exists fs l cpts, descend (prod_double_iter o) EE s [0] 0 n (Q :: P :: rev imgs) P Q =
    Some (l, fs ++ [0], prod_double_iter o EE Q n :: prod_double_iter o EE P n :: cpts, prod_double_iter o EE P n, prod_double_iter o EE Q n) /\
    stack (fun c x y => x = prod_double_iter o EE P c /\ y = prod_double_iter o EE Q c) (fun l => l = rev imgs) fs l cpts /\ list_sum fs = n.
Proof.
  intros H. pose (R := fun c x y => x = prod_double_iter o EE P c /\ y = prod_double_iter o EE Q c).
  destruct (descend_ok (prod_double_iter o) R (fun l => l = rev imgs) EE) with (b := S n) (s := s) (fs := @nil nat) (l := @nil nat) (p1 := P) (p2 := Q) (pts := rev imgs) as (fs & l & p1 & p2 & pts & E & [H1 H2] & HS & HL); auto.
  - intros c s0 x y [-> ->]. split; apply prod_double_iter_add.
  - unfold R, prod_double_iter, double_iter. cbn. destruct P, Q. split; reflexivity.
  - constructor. reflexivity.
  - cbn [app list_sum fold_right Nat.add] in E. rewrite app_nil_r, Nat.add_0_r in E. replace (S n - 1) with n in E by lia. assert (EL : list_sum fs = n) by (change (list_sum []) with 0 in HL; lia). rewrite EL in H1, H2. subst p1 p2.
    exists fs, l, pts. auto.
Qed.
Lemma gluing_map {F} (o : fops F) EE P8 Q8 l : gluing_isogeny o EE P8 Q8 l = (fst (gluing_isogeny o EE P8 Q8 []), map (fun x => hd (mkT (fzero o) (fzero o) (fzero o) (fzero o)) (snd (gluing_isogeny o EE P8 Q8 [x]))) l).
Proof. unfold gluing_isogeny. destruct (gluing_codomain o _ _) as [[cod [a b]] zi]. reflexivity. Qed.
Lemma stack_map2 {T U} (Q1 : nat -> T -> T -> Prop) (B1 : list T -> Prop) (Q2 : nat -> U -> U -> Prop) (B2 : list U -> Prop) (f : T -> U) fs l pts : (forall c u v, Q1 c u v -> Q2 c (f u) (f v)) -> (forall l, B1 l -> B2 (map f l)) -> stack Q1 B1 fs l pts -> stack Q2 B2 fs l (map f pts).
Proof. intros HQ HB H. induction H; cbn [map]; constructor; auto. Qed.
Theorem C40_total : forall F (o : fops F) EE P Q imgs n s, strat n s ->
  exists dom pts, length pts = length imgs /\ product_isogeny o EE P Q imgs n s = product_finish o dom pts (length imgs).
Proof.
  intros F o EE P Q imgs n s H. destruct n as [|n]; [pose proof (strat_pos _ _ H); lia|]. destruct (glue_stack o EE P Q imgs n s H) as (fs & l & cpts & E & HS & HL). unfold product_isogeny. rewrite E. cbn [tl].
  rewrite gluing_map. set (f := fun x => hd _ _). set (d := fst _). rewrite map_rev, rev_involutive. change (tl (fs ++ [0])) with (tl (levels (1 :: fs))). rewrite tl_levels.
  destruct (loop_ok (theta_double_iter o) (theta_push o) (step_cod o) (step_img o) (theta_push_map o) (fun _ _ (_ : unit) => True) (fun _ _ _ _ _ _ => True) (fun _ _ _ l => length l = length imgs)) with (m := n) (d := d) (g := tt) (fs := fs) (l := l) (pts := map f cpts) as (d' & g' & pts' & EL & _ & HB); auto.
  - intros m d0 g x y _ _. exists tt. split; auto. split; auto. intros l0 <-. apply map_length.
  - eapply stack_map2; [| |exact HS]; [auto|]. intros l0 ->. rewrite map_length. apply rev_length.
  - rewrite EL. exists d', (rev pts'). split; [rewrite rev_length; exact HB|reflexivity].
Qed.

(** ** The strategy does not change the result.  [E d]: two representations of the same point over d; [K m d x y]: x and y are the kernel points with m steps left. *)
Section Independent.
Context {D T : Type} (dbl : D -> T -> nat -> T) (push : nat -> D -> T -> T -> list T -> D * list T) (cod : nat -> D -> T -> T -> D) (img : nat -> D -> T -> T -> T -> T).
Context (E : D -> T -> T -> Prop) (K : nat -> D -> T -> T -> Prop).
(** doubling is well defined and additive, kernel points stay kernel points, and a step depends on its kernel points up to E only and commutes with doubling *)
Record chain_laws : Prop := {
  cl_push : forall m d x y l, push m d x y l = (cod m d x y, map (img m d x y) l);
  cl_trans : forall d x y z, E d x y -> E d y z -> E d x z;
  cl_sym : forall d x y, E d x y -> E d y x;
  cl_dbl : forall d x y s, E d x y -> E d (dbl d x s) (dbl d y s);
  cl_add : forall d x a b, E d x x -> E d (dbl d (dbl d x a) b) (dbl d x (a + b));
  cl_zero : forall d x, E d x x -> E d x (dbl d x 0);
  cl_ker : forall m d x y, K m d x y -> E d x x /\ E d y y;
  cl_step : forall m d x y u v, K (S m) d x y -> E d u (dbl d x m) -> E d v (dbl d y m) ->
    cod m d u v = cod m d (dbl d x m) (dbl d y m) /\
    (forall p q, E d p q -> E (cod m d u v) (img m d u v p) (img m d (dbl d x m) (dbl d y m) q)) /\
    (forall p s, E d p p -> E (cod m d u v) (img m d u v (dbl d p s)) (dbl (cod m d u v) (img m d u v p) s)) /\
    K m (cod m d u v) (img m d (dbl d x m) (dbl d y m) x) (img m d (dbl d x m) (dbl d y m) y) }.
End Independent.
Theorem C40_independent : forall D T dbl push cod img E K, @chain_laws D T dbl push cod img E K ->
  forall n s d x y imgs imgs0, strat n s -> K n d x y -> Forall2 (E d) imgs imgs0 ->
  exists pts, theta_loop dbl push n d s [0] (y :: x :: imgs) = Some (fst (chain dbl cod img n d x y imgs0), pts) /\ Forall2 (E (fst (chain dbl cod img n d x y imgs0))) pts (snd (chain dbl cod img n d x y imgs0)).
Proof.
  intros D T dbl push cod img E K L n s d x y imgs imgs0 Hs HK HB.
  pose (G := (T * T * list T)%type). pose (R := chain dbl cod img n d x y imgs0).
  pose (Iv := fun m d (g : G) => let '(x, y, i) := g in K m d x y /\ chain dbl cod img m d x y i = R).
  pose (Qv := fun (m : nat) d (g : G) c u v => let '(x, y, i) := g in E d u (dbl d x c) /\ E d v (dbl d y c)).
  pose (Bv := fun (m : nat) d (g : G) l => let '(x, y, i) := g in Forall2 (E d) l i).
  destruct (loop_ok dbl push cod img (cl_push _ _ _ _ _ _ L) Iv Qv Bv) with (m := n) (d := d) (g := (x, y, imgs0)) (fs := [n]) (l := s) (pts := y :: x :: imgs) as (d' & [[x' y'] i'] & pts & EL & [HK' HR] & HB').
  - intros m d0 [[x0 y0] i0] c s0 u v [HK0 _] [H1 H2]. destruct (cl_ker _ _ _ _ _ _ L _ _ _ _ HK0) as [Ex Ey]. split; (eapply (cl_trans _ _ _ _ _ _ L); [apply (cl_dbl _ _ _ _ _ _ L); eassumption|apply (cl_add _ _ _ _ _ _ L); assumption]).
  - intros m d0 [[x0 y0] i0] u v [HK0 HR0] [H1 H2]. destruct (cl_step _ _ _ _ _ _ L m d0 x0 y0 u v HK0 H1 H2) as (EC & HI & HD & HK1). set (f := img m d0 (dbl d0 x0 m) (dbl d0 y0 m)) in *.
    exists (f x0, f y0, map f i0). destruct (cl_ker _ _ _ _ _ _ L _ _ _ _ HK0) as [Ex Ey]. split; [split; [exact HK1|]|split].
    + rewrite <- HR0. cbn [chain]. fold f. rewrite EC. reflexivity.
    + intros c p q [Hp Hq].
      assert (A : forall z w, E d0 z z -> E d0 w (dbl d0 z c) -> E (cod m d0 u v) (img m d0 u v w) (dbl (cod m d0 u v) (f z) c)).
      { intros z w Hz Hw. apply (cl_trans _ _ _ _ _ _ L) with (img m d0 u v (dbl d0 z c)).
        - apply (cl_trans _ _ _ _ _ _ L) with (f (dbl d0 z c)); [apply HI; exact Hw|]. apply (cl_sym _ _ _ _ _ _ L), HI. apply (cl_dbl _ _ _ _ _ _ L). exact Hz.
        - apply (cl_trans _ _ _ _ _ _ L) with (dbl (cod m d0 u v) (img m d0 u v z) c); [apply HD; exact Hz|]. apply (cl_dbl _ _ _ _ _ _ L), HI. exact Hz. }
      split; apply A; assumption.
    + intros l Hl. change (Forall2 (E (cod m d0 u v)) (map (img m d0 u v) l) (map f i0)). change (Forall2 (E d0) l i0) in Hl. clear - Hl HI. induction Hl as [|a b l1 l2 Hab Hl IH]; cbn [map]; constructor; [apply HI; exact Hab|exact IH].
  - split; [exact HK|reflexivity].
  - rewrite <- (app_nil_r s). destruct (cl_ker _ _ _ _ _ _ L _ _ _ _ HK) as [Ex Ey].
    constructor; [exact Hs| |constructor; exact HB]. cbn. split; apply (cl_zero _ _ _ _ _ _ L); assumption.
  - cbn. lia.
  - exists pts. cbn [levels app] in EL. cbn [chain] in HR. fold R. rewrite <- HR. cbn [fst snd]. split; [exact EL|exact HB'].
Qed.
(** product_isogeny_no_strategy runs the specification's chain *)
Theorem C40_naive : forall F (o : fops F) EE P Q imgs n, exists dom K1 K2 gimgs pts,
  gluing_isogeny o EE (prod_double_iter o EE P n) (prod_double_iter o EE Q n) (imgs ++ [P; Q]) = (dom, gimgs ++ [K1; K2]) /\ length gimgs = length imgs /\
  let R := chain (theta_double_iter o) (step_cod o) (step_img o) n dom K1 K2 gimgs in
  product_isogeny_no_strategy o EE P Q imgs (S n) = product_finish o (fst R) pts (length imgs) /\ firstn (length imgs) pts = snd R.
Proof.
  intros F o EE P Q imgs n. unfold product_isogeny_no_strategy. rewrite gluing_map. set (f := fun x => hd _ _). set (d := fst _). rewrite map_app. cbn [map].
  destruct (naive_ok o n d (f P) (f Q) (map f imgs)) as (pts & E & HF). rewrite map_length in E, HF. exists d, (f P), (f Q), (map f imgs), pts. split; [reflexivity|]. split; [apply map_length|]. cbv zeta. rewrite E. auto.
Qed.
(** a list of the right length that is not a strategy makes every call panic *)
Theorem C40_invalid_refuted : exists n s, length s = n - 1 /\ forall F (o : fops F) EE P Q imgs, product_isogeny o EE P Q imgs n s = None.
Proof. exists 2, [2]. split; [reflexivity|]. reflexivity. Qed.

(** the length used by the library's own test (theta.rs:1411-1418, L_POWER = 634) does not fit the shipped strategy: every such call panics *)
Theorem C40_test_length_refuted : forall F (o : fops F) EE P Q imgs, product_isogeny o EE P Q imgs (Z.to_nat L_POWER) THETA_STRATEGY = None.
Proof. intros. change (Z.to_nat L_POWER) with 634. unfold product_isogeny. set (d := prod_double_iter o). clearbody d. vm_compute. reflexivity. Qed.

(** ** Concrete cases *)
Example C40_strat_ex : strat 5 [2; 1; 1; 1].
Proof. apply (strat_node 3 2 [1; 1] [1]); [apply (strat_node 2 1 [1] []); [apply (strat_node 1 1 [] []); constructor|constructor]|apply (strat_node 1 1 [] []); constructor]. Qed.
Example C40_counts_ex : count_run 5 [2; 1; 1; 1] [] = Some ([(4, 4, 4); (3, 3, 3); (2, 2, 2); (1, 1, 1); (0, 0, 0)], []).
Proof. reflexivity. Qed.
(* integers modulo 7, with representatives that depend on the kernel points used *)
Example C40_laws_ex : chain_laws (fun (_ : nat) (x : Z) s => (x * 2 ^ Z.of_nat s)%Z) (fun m d x y l => (S d, map (fun p => (3 * p + 7 * x)%Z) l)) (fun _ d _ _ => S d) (fun _ _ x _ p => (3 * p + 7 * x)%Z)
  (fun _ x y => (x mod 7 = y mod 7)%Z) (fun _ _ _ _ => True).
Proof.
  constructor; try reflexivity; try (intros; congruence); auto.
  - intros d x y s H. rewrite (Z.mul_mod x), (Z.mul_mod y), H by lia. reflexivity.
  - intros d x a b _. rewrite Nat2Z.inj_add, Z.pow_add_r, Z.mul_assoc by lia. reflexivity.
  - intros d x _. cbn [Z.of_nat]. rewrite Z.pow_0_r, Z.mul_1_r. reflexivity.
  - intros m d x y u v _ _ _. split; [reflexivity|]. split; [|split; [|exact I]].
    + intros p q H. rewrite !(Z.mul_comm 7), !Z.mod_add by lia. rewrite (Z.mul_mod 3 p), (Z.mul_mod 3 q), H by lia. reflexivity.
    + intros p s _. rewrite (Z.mul_comm 7), Z.mod_add by lia. replace ((3 * p + u * 7) * 2 ^ Z.of_nat s)%Z with (3 * (p * 2 ^ Z.of_nat s) + (u * 2 ^ Z.of_nat s) * 7)%Z by ring. rewrite Z.mod_add by lia. reflexivity.
Qed.
Print Assumptions C40_shipped.
Print Assumptions C40_length.
Print Assumptions C40_counts.
Print Assumptions C40_total.
Print Assumptions C40_independent.
Print Assumptions C40_naive.
Print Assumptions C40_invalid_refuted.
Print Assumptions C40_test_length_refuted.
