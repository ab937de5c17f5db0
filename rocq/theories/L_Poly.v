(** Polynomial functions over an abstract field, finite products, and the bound on the number of roots. *)
From Coq Require Import Arith List Permutation Ring Field Lia.
From Verif Require Import L_Group.
Import ListNotations.

Section Poly.
Context {K : Type} {k0 k1 : K} {kadd kmul ksub : K -> K -> K} {kopp : K -> K} {kdiv : K -> K -> K} {kinv : K -> K} {keq : K -> K -> bool}.
Context (FT : field_theory k0 k1 kadd kmul ksub kopp kdiv kinv (@eq K)).
Context (keq_ok : forall x y, keq x y = true <-> x = y).
Add Field Kfield : FT.
Local Notation "0" := k0. Local Notation "1" := k1.
Local Infix "+" := kadd. Local Infix "*" := kmul. Local Infix "-" := ksub. Local Infix "/" := kdiv. Local Notation "- x" := (kopp x).

Fixpoint kpow (x : K) (n : nat) : K := match n with O => 1 | S n' => x * kpow x n' end.
Lemma kpow_add x m n : kpow x (m + n) = kpow x m * kpow x n. Proof. induction m; cbn [kpow Nat.add]; [ring|rewrite IHm; ring]. Qed.
Lemma kpow_mul x y n : kpow (x * y) n = kpow x n * kpow y n. Proof. induction n; cbn [kpow]; [ring|rewrite IHn; ring]. Qed.
Lemma kpow_nz x n : x <> 0 -> kpow x n <> 0. Proof. intros H. induction n; cbn [kpow]; [exact (F_1_neq_0 FT)|apply (mulr_nz FT keq_ok); auto]. Qed.
Lemma kpow_1 n : kpow 1 n = 1. Proof. induction n; cbn [kpow]; [ring|rewrite IHn; ring]. Qed.

(** finite products *)
Definition prodf {T : Type} (h : T -> K) (l : list T) : K := fold_right (fun t r => h t * r) 1 l.
Lemma prodf_nil {T} (h : T -> K) : prodf h [] = 1. Proof. reflexivity. Qed.
Lemma prodf_cons {T} (h : T -> K) t l : prodf h (t :: l) = h t * prodf h l. Proof. reflexivity. Qed.
Lemma prodf_app {T} (h : T -> K) l1 l2 : prodf h (l1 ++ l2) = prodf h l1 * prodf h l2.
Proof. induction l1; cbn [app]; rewrite ?prodf_cons, ?prodf_nil; [ring|rewrite IHl1; ring]. Qed.
Lemma prodf_ext {T} (h g : T -> K) l : (forall t, In t l -> h t = g t) -> prodf h l = prodf g l.
Proof. induction l as [|t l IH]; intros H; [reflexivity|]. rewrite !prodf_cons, (H t (or_introl eq_refl)), IH; auto. intros s Hs. apply H. right. exact Hs. Qed.
Lemma prodf_mul {T} (h g : T -> K) l : prodf (fun t => h t * g t) l = prodf h l * prodf g l.
Proof. induction l; rewrite ?prodf_cons, ?prodf_nil; [ring|rewrite IHl; ring]. Qed.
Lemma prodf_const {T} (c : K) (l : list T) : prodf (fun _ => c) l = kpow c (length l).
Proof. induction l; cbn [length kpow]; rewrite ?prodf_cons, ?prodf_nil; [ring|rewrite IHl; ring]. Qed.
Lemma prodf_nz {T} (h : T -> K) l : (forall t, In t l -> h t <> 0) -> prodf h l <> 0.
Proof. induction l as [|t l IH]; intros H; rewrite ?prodf_cons, ?prodf_nil; [exact (F_1_neq_0 FT)|]. apply (mulr_nz FT keq_ok); [apply H; left; auto|apply IH; intros s Hs; apply H; right; auto]. Qed.
Lemma prodf_0 {T} (h : T -> K) l t : In t l -> h t = 0 -> prodf h l = 0.
Proof. induction l as [|s l IH]; [intros []|]; intros [->|H] Z; rewrite prodf_cons; [rewrite Z; ring|rewrite IH by auto; ring]. Qed.
Lemma prodf_0_inv {T} (h : T -> K) l : prodf h l = 0 -> exists t, In t l /\ h t = 0.
Proof.
  induction l as [|s l IH]; rewrite ?prodf_cons, ?prodf_nil; intros H; [destruct (F_1_neq_0 FT H)|].
  destruct (mul0 FT keq_ok _ _ H) as [Z|Z]; [exists s; split; [left|]; auto|]. destruct (IH Z) as (t & I & Ht). exists t. split; [right|]; auto.
Qed.
Lemma prodf_map {T U} (h : U -> K) (f : T -> U) l : prodf h (map f l) = prodf (fun t => h (f t)) l.
Proof. induction l; cbn [map]; rewrite ?prodf_cons, ?prodf_nil; [reflexivity|rewrite IHl; reflexivity]. Qed.
Lemma prodf_perm {T} (h : T -> K) l1 l2 : Permutation l1 l2 -> prodf h l1 = prodf h l2.
Proof. induction 1; rewrite ?prodf_cons; [reflexivity|rewrite IHPermutation; reflexivity|ring|congruence]. Qed.
(** telescoping *)
Lemma prodf_shift (h : nat -> K) a n : h a * prodf (fun i => h (S i)) (seq a n) = prodf h (seq a n) * h (a + n)%nat.
Proof. revert a. induction n; intros a; cbn [seq]; rewrite ?prodf_cons, ?prodf_nil, ?Nat.add_0_r; [ring|]. rewrite (IHn (S a)), Nat.add_succ_comm. ring. Qed.

(** degree below n *)
Fixpoint deglt (n : nat) (f : K -> K) : Prop := match n with O => forall x, f x = 0 | S n' => exists c g, deglt n' g /\ forall x, f x = c + x * g x end.
Lemma deglt_ext n : forall f g, (forall x, f x = g x) -> deglt n f -> deglt n g.
Proof. destruct n; cbn [deglt]; intros f g E H; [intros x; rewrite <- E; auto|]. destruct H as (c & g0 & H & Hx). exists c, g0. split; [exact H|]. intros x. rewrite <- E. apply Hx. Qed.
Lemma deglt_0 n : deglt n (fun _ => 0). Proof. induction n; cbn [deglt]; [reflexivity|]. exists 0, (fun _ => 0). split; [exact IHn|intros; ring]. Qed.
Lemma deglt_up n : forall f, deglt n f -> deglt (S n) f.
Proof. induction n; cbn [deglt]; intros f H; [exists 0, (fun _ => 0); split; [reflexivity|intros x; rewrite H; ring]|]. destruct H as (c & g & H & Hx). exists c, g. split; [apply IHn; exact H|exact Hx]. Qed.
Lemma deglt_le n m f : (n <= m)%nat -> deglt n f -> deglt m f. Proof. induction 1; auto. intros H1. apply deglt_up; auto. Qed.
Lemma deglt_add n : forall f g, deglt n f -> deglt n g -> deglt n (fun x => f x + g x).
Proof. induction n; cbn [deglt]; intros f g H1 H2; [intros x; rewrite H1, H2; ring|]. destruct H1 as (c & f1 & H1 & E1), H2 as (e & g1 & H2 & E2). exists (c + e), (fun x => f1 x + g1 x). split; [auto|]. intros x. rewrite E1, E2. ring. Qed.
Lemma deglt_scale n c : forall f, deglt n f -> deglt n (fun x => c * f x).
Proof. induction n; cbn [deglt]; intros f H1; [intros x; rewrite H1; ring|]. destruct H1 as (e & f1 & H1 & E1). exists (c * e), (fun x => c * f1 x). split; [auto|]. intros x. rewrite E1. ring. Qed.
Lemma deglt_sub n f g : deglt n f -> deglt n g -> deglt n (fun x => f x - g x).
Proof. intros H1 H2. apply (deglt_ext n (fun x => f x + kopp k1 * g x)); [intros; ring|]. apply deglt_add; [exact H1|]. apply (deglt_scale n (kopp k1) g H2). Qed.
Lemma deglt_x n f : deglt n f -> deglt (S n) (fun x => x * f x). Proof. intros H. exists 0, f. split; [exact H|intros; ring]. Qed.
Lemma deglt_const c : deglt 1 (fun _ => c). Proof. exists c, (fun _ => 0). split; [intros ?; reflexivity|intros; ring]. Qed.
Lemma deglt_mul n m : forall f g, deglt n f -> deglt m g -> deglt (n + m) (fun x => f x * g x).
Proof.
  induction n; cbn [deglt Nat.add]; intros f g H1 H2; [apply (deglt_ext m (fun _ => 0)); [intros x; rewrite H1; ring|apply deglt_0]|]. destruct H1 as (c & f1 & H1 & E1).
  apply (deglt_ext (S (n + m)) (fun x => c * g x + x * (f1 x * g x))); [intros x; rewrite E1; ring|]. apply deglt_add; [apply (deglt_le m); [lia|apply deglt_scale; exact H2]|]. apply deglt_x, IHn; assumption.
Qed.
Lemma deglt_pow n m f : deglt m f -> deglt (n + m) (fun x => kpow x n * f x).
Proof.
  intros H. induction n; cbn [kpow Nat.add]; [apply (deglt_ext m f); [intros; ring|exact H]|].
  apply (deglt_ext (S (n + m)) (fun x => x * (kpow x n * f x))); [intros; ring|]. apply deglt_x, IHn.
Qed.
(** degree at most n with coefficient c at n *)
Definition lead (n : nat) (c : K) (f : K -> K) : Prop := deglt n (fun x => f x - c * kpow x n).
Lemma lead_ext n c c' f g : (forall x, f x = g x) -> c = c' -> lead n c f -> lead n c' g.
Proof. intros E -> H. apply (deglt_ext n (fun x => f x - c' * kpow x n)); [intros x; rewrite E; reflexivity|exact H]. Qed.
Lemma lead_const c : lead 0 c (fun _ => c). Proof. intros x. cbn [kpow]. ring. Qed.
Lemma lead_lin a b : lead 1 a (fun x => a * x + b). Proof. apply (deglt_ext 1 (fun _ => b)); [intros x; cbn [kpow]; ring|apply deglt_const]. Qed.
Lemma lead_of n f : deglt n f -> lead n 0 f. Proof. intros H. apply (deglt_ext n f); [intros x; ring|exact H]. Qed.
Lemma lead_lt n c f : lead n c f -> deglt (S n) f.
Proof.
  intros H. apply (deglt_ext (S n) (fun x => (f x - c * kpow x n) + c * (kpow x n * 1))); [intros; ring|]. apply deglt_add; [apply deglt_up; exact H|]. apply (deglt_scale _ c (fun x => kpow x n * 1)).
  rewrite <- Nat.add_1_r. apply (deglt_pow n 1 (fun _ => 1)), deglt_const.
Qed.
Lemma lead_mul n m c e f g : lead n c f -> lead m e g -> lead (n + m) (c * e) (fun x => f x * g x).
Proof.
  intros H1 H2. apply (deglt_ext (n + m) (fun x => (c * (kpow x n * (g x - e * kpow x m)) + e * (kpow x m * (f x - c * kpow x n))) + (f x - c * kpow x n) * (g x - e * kpow x m))); [intros x; rewrite kpow_add; ring|].
  apply deglt_add; [apply deglt_add|].
  - apply (deglt_scale _ c (fun x => kpow x n * (g x - e * kpow x m))), deglt_pow, H2.
  - apply (deglt_scale _ e (fun x => kpow x m * (f x - c * kpow x n))). rewrite Nat.add_comm. apply deglt_pow, H1.
  - apply deglt_mul; assumption.
Qed.
Lemma lead_scale n c e f : lead n c f -> lead n (e * c) (fun x => e * f x). Proof. intros H. exact (lead_mul 0 n e c _ _ (lead_const e) H). Qed.
Lemma lead_sub n c e f g : lead n c f -> lead n e g -> lead n (c - e) (fun x => f x - g x).
Proof. intros H1 H2. apply (deglt_ext n (fun x => (f x - c * kpow x n) - (g x - e * kpow x n))); [intros; ring|apply deglt_sub; assumption]. Qed.
Lemma lead_up n c f : lead n c f -> lead (S n) 0 f. Proof. intros H. apply lead_of, (lead_lt n c), H. Qed.
Lemma lead_0 n f : lead n 0 f -> deglt n f. Proof. intros H. apply (deglt_ext n (fun x => f x - 0 * kpow x n)); [intros; ring|exact H]. Qed.
Lemma lead_prod {T} (n : nat) (c : T -> K) (f : T -> K -> K) l : (forall t, In t l -> lead n (c t) (f t)) -> lead (n * length l) (prodf c l) (fun x => prodf (fun t => f t x) l).
Proof.
  induction l as [|t l IH]; intros H; cbn [length].
  - rewrite Nat.mul_0_r. exact (lead_const 1).
  - rewrite Nat.mul_succ_r, Nat.add_comm. exact (lead_mul n (n * length l) (c t) (prodf c l) (f t) _ (H t (or_introl eq_refl)) (IH (fun s Hs => H s (or_intror Hs)))).
Qed.
(** the number of roots *)
Lemma deglt_quot n a : forall f, deglt (S n) f -> exists h, deglt n h /\ forall x, f x - f a = (x - a) * h x.
Proof.
  induction n; intros f (c & g & H & E).
  - exists (fun _ => 0). split; [intros ?; reflexivity|]. cbn [deglt] in H. intros x. rewrite !E, !H. ring.
  - destruct (IHn g H) as (h & Hh & Eh). exists (fun x => g a + x * h x). split; [exists (g a), h; split; [exact Hh|reflexivity]|].
    intros x. rewrite !E. transitivity ((x - a) * g a + x * (g x - g a)); [ring|]. rewrite Eh. ring.
Qed.
Lemma roots_bound l : forall f, deglt (length l) f -> NoDup l -> (forall a, In a l -> f a = 0) -> forall x, f x = 0.
Proof.
  induction l as [|a l IH]; intros f H ND Z x; [apply H|]. cbn [length] in H. destruct (deglt_quot _ a f H) as (h & Hh & E).
  assert (Ef : forall y, f y = (y - a) * h y) by (intros y; rewrite <- E, (Z a (or_introl eq_refl)); ring). rewrite Ef, (IH h Hh); [ring|inversion ND; assumption|].
  intros b Hb. pose proof (Z b (or_intror Hb)) as Zb. rewrite Ef in Zb. destruct (mul0 FT keq_ok _ _ Zb) as [Q|Q]; [|exact Q]. exfalso. inversion ND. apply (sub_eq FT) in Q. subst. contradiction.
Qed.
End Poly.
