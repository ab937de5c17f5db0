(** Traversal of strategies (M_Theta.v, descend and theta_loop). *)
From Coq Require Import List Arith Bool Lia.
From Verif Require Import S_Strategy M_Theta.
Import ListNotations.

Lemma strat_pos n s : strat n s -> 1 <= n. Proof. induction 1; lia. Qed.
Lemma strat_length n s : strat n s -> S (length s) = n.
Proof. induction 1 as [|a b sa sb _ IHa _ IHb]; [reflexivity|]. cbn [length]. rewrite app_length. lia. Qed.
(* a checker *)
Fixpoint parse (fuel n : nat) (l : list nat) : option (list nat) :=
  match fuel with
  | O => None
  | S fuel => if Nat.eqb n 1 then Some l else match l with [] => None | b :: l => if (1 <=? b) && (b <? n) then match parse fuel (n - b) l with None => None | Some l => parse fuel b l end else None end
  end.
Lemma parse_ok fuel : forall n l r, parse fuel n l = Some r -> exists s, l = s ++ r /\ strat n s.
Proof.
  induction fuel as [|fuel IH]; intros n l r H; [discriminate|]. cbn [parse] in H. destruct (Nat.eqb_spec n 1) as [->|N].
  - injection H as ->. exists []. split; [reflexivity|constructor].
  - destruct l as [|b l]; [discriminate|]. destruct ((1 <=? b) && (b <? n)) eqn:B; [|discriminate]. apply andb_true_iff in B. destruct B as [B1 B2]. apply Nat.leb_le in B1. apply Nat.ltb_lt in B2.
    destruct (parse fuel (n - b) l) as [l'|] eqn:E; [|discriminate]. destruct (IH _ _ _ E) as (sa & -> & Ha). destruct (IH _ _ _ H) as (sb & -> & Hb).
    exists (b :: sa ++ sb). split; [rewrite <- app_comm_cons, <- app_assoc; reflexivity|]. replace n with (n - b + b) by lia. constructor; auto.
Qed.

Section Stack.
Context {D T : Type} (dbl : D -> T -> nat -> T).
(* a stack of unfinished subtrees, top first: sizes, what is left of the strategy, points *)
Inductive stack (Q : nat -> T -> T -> Prop) (B : list T -> Prop) : list nat -> list nat -> list T -> Prop :=
| stack_nil pts : B pts -> stack Q B [] [] pts
| stack_cons b s fs l p1 p2 pts : strat b s -> Q (list_sum fs) p1 p2 -> stack Q B fs l pts -> stack Q B (b :: fs) (s ++ l) (p2 :: p1 :: pts).
Definition levels (fs : list nat) : list nat := match fs with [] => [] | _ :: fs => fs ++ [0] end.
Lemma sum_levels b fs : list_sum (levels (b :: fs)) = list_sum fs.
Proof. cbn [levels]. rewrite list_sum_app. cbn. lia. Qed.
Lemma tl_levels b fs : tl (levels (b :: fs)) = levels fs.
Proof. cbn [levels]. destruct fs; reflexivity. Qed.
Lemma descend_ok (Q : nat -> T -> T -> Prop) (B : list T -> Prop) d (Hd : forall c s x y, Q c x y -> Q (c + s) (dbl d x s) (dbl d y s)) b s : strat b s -> forall fs l p1 p2 pts,
  Q (list_sum fs) p1 p2 -> stack Q B fs l pts ->
  exists fs' l' p1' p2' pts', descend dbl d (s ++ l) (fs ++ [0]) (list_sum fs) (b - 1 + list_sum fs) (p2 :: p1 :: pts) p1 p2 = Some (l', fs' ++ [0], p2' :: p1' :: pts', p1', p2') /\
    Q (list_sum fs') p1' p2' /\ stack Q B fs' l' pts' /\ list_sum fs' = b - 1 + list_sum fs.
Proof.
  induction 1 as [|a b sa sb Ha IHa Hb IHb]; intros fs l p1 p2 pts HQ HS.
  - exists fs, l, p1, p2, pts. cbn [app Nat.sub Nat.add]. split; [destruct l; cbn [descend]; rewrite Nat.eqb_refl; reflexivity|]. auto.
  - cbn [app descend]. pose proof (strat_pos _ _ Ha). pose proof (strat_pos _ _ Hb). rewrite (proj2 (Nat.eqb_neq _ _)) by lia.
    destruct (IHa (b :: fs) (sb ++ l) (dbl d p1 b) (dbl d p2 b) (p2 :: p1 :: pts)) as (fs' & l' & p1' & p2' & pts' & E & HQ' & HS' & HL).
    + change (list_sum (b :: fs)) with (b + list_sum fs). rewrite Nat.add_comm. apply Hd. exact HQ.
    + constructor; auto.
    + exists fs', l', p1', p2', pts'. split; [|split; [exact HQ'|split; [exact HS'|change (list_sum (b :: fs)) with (b + list_sum fs) in HL; lia]]]. change (list_sum (b :: fs)) with (b + list_sum fs) in E. rewrite <- E, <- app_assoc. cbn [app]. replace (a - 1 + (b + list_sum fs)) with (a + b - 1 + list_sum fs) by lia. rewrite (Nat.add_comm b (list_sum fs)). reflexivity.
Qed.
(* invariant rule for the loop; G is ghost state *)
Context (push : nat -> D -> T -> T -> list T -> D * list T) (cod : nat -> D -> T -> T -> D) (img : nat -> D -> T -> T -> T -> T).
Context (Hpush : forall m d x y l, push m d x y l = (cod m d x y, map (img m d x y) l)).
Context {G : Type} (I : nat -> D -> G -> Prop) (Q : nat -> D -> G -> nat -> T -> T -> Prop) (B : nat -> D -> G -> list T -> Prop).
Context (Hdbl : forall m d g c s x y, I m d g -> Q m d g c x y -> Q m d g (c + s) (dbl d x s) (dbl d y s)).
Context (Hstep : forall m d g x y, I (S m) d g -> Q (S m) d g m x y -> exists g', I m (cod m d x y) g' /\
  (forall c u v, Q (S m) d g c u v -> Q m (cod m d x y) g' c (img m d x y u) (img m d x y v)) /\ (forall l, B (S m) d g l -> B m (cod m d x y) g' (map (img m d x y) l))).
Lemma stack_map (Q1 : nat -> T -> T -> Prop) (B1 : list T -> Prop) (Q2 : nat -> T -> T -> Prop) (B2 : list T -> Prop) (f : T -> T) fs l pts : (forall c u v, Q1 c u v -> Q2 c (f u) (f v)) -> (forall l, B1 l -> B2 (map f l)) -> stack Q1 B1 fs l pts -> stack Q2 B2 fs l (map f pts).
Proof. intros HQ HB H. induction H; cbn [map]; constructor; auto. Qed.
Lemma loop_ok m : forall d g fs l pts, I m d g -> stack (Q m d g) (B m d g) fs l pts -> list_sum fs = m ->
  exists d' g' pts', theta_loop dbl push m d l (levels fs) pts = Some (d', pts') /\ I 0 d' g' /\ B 0 d' g' pts'.
Proof.
  induction m as [|m IH]; intros d g fs l pts HI HS HL.
  - inversion HS as [pts0 HB|b s fs0 l0 p1 p2 pts0 Hb HQ HS0]; subst; [exists d, g, pts; auto|]. pose proof (strat_pos _ _ Hb). change (list_sum (b :: fs0)) with (b + list_sum fs0) in HL. lia.
  - inversion HS as [pts0 HB|b s fs0 l0 p1 p2 pts0 Hb HQ HS0]; subst; [discriminate HL|]. cbn [theta_loop].
    destruct (descend_ok (Q (S m) d g) (B (S m) d g) d (fun c s x y => Hdbl _ _ _ c s x y HI) b s Hb fs0 l0 p1 p2 pts0 HQ HS0) as (fs' & l' & p1' & p2' & pts' & E & HQ' & HS' & HL').
    rewrite sum_levels. assert (EM0 : b - 1 + list_sum fs0 = m) by (pose proof (strat_pos _ _ Hb); change (list_sum (b :: fs0)) with (b + list_sum fs0) in HL; lia). rewrite EM0 in E, HL'. cbn [levels]. rewrite E. cbn [tl]. rewrite Hpush.
    rewrite HL' in HQ'.
    destruct (Hstep m d g p1' p2' HI HQ') as (g' & HI' & HQ2 & HB2). change (tl (fs' ++ [0])) with (tl (levels (1 :: fs'))). rewrite tl_levels.
    apply (IH _ g'); auto. eapply stack_map; [exact HQ2|exact HB2|exact HS'].
Qed.
End Stack.

Section Naive.
Context {F : Type} (o : M_Field.fops F).
(* one step of the chain, in the shape used by the specification *)
Definition step_cod (m : nat) (d : tstruct F) (x y : tpoint F) : tstruct F := fst (theta_push o m d x y []).
Definition step_img (m : nat) (d : tstruct F) (x y P : tpoint F) : tpoint F := hd P (snd (theta_push o m d x y [P])).
Lemma theta_push_map m d x y l : theta_push o m d x y l = (step_cod m d x y, map (step_img m d x y) l).
Proof. unfold step_cod, step_img, theta_push. destruct (Nat.eqb m 1); [reflexivity|]. destruct (Nat.eqb m 0); reflexivity. Qed.
Lemma naive_ok m : forall d K1 K2 imgs, exists pts, naive_loop o m (length imgs) d (imgs ++ [K1; K2]) = Some (fst (chain (theta_double_iter o) step_cod step_img m d K1 K2 imgs), pts) /\
  firstn (length imgs) pts = snd (chain (theta_double_iter o) step_cod step_img m d K1 K2 imgs).
Proof.
  induction m as [|m IH]; intros d K1 K2 imgs.
  - exists (imgs ++ [K1; K2]). split; [reflexivity|]. cbn [chain snd]. rewrite firstn_app, firstn_all, Nat.sub_diag. cbn. apply app_nil_r.
  - cbn [naive_loop chain]. rewrite nth_error_app2, Nat.sub_diag by lia. rewrite nth_error_app2 by lia. replace (S (length imgs) - length imgs) with 1 by lia. cbn [nth_error].
    rewrite theta_push_map. set (T1 := theta_double_iter o d K1 m). set (T2 := theta_double_iter o d K2 m). set (f := step_img m d T1 T2). rewrite map_app. cbn [map].
    destruct (IH (step_cod m d T1 T2) (f K1) (f K2) (map f imgs)) as (pts & E & HF). rewrite map_length in E, HF. exists pts. split; [exact E|exact HF].
Qed.
End Naive.
