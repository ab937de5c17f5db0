(** Fermat's little theorem and Euler's criterion for an arbitrary odd prime, over Z. *)
From Coq Require Import ZArith Znumtheory List Lia Bool Permutation Setoid Morphisms.
Import ListNotations.
Open Scope Z_scope.

Section Fermat.
Variable p : Z.
Hypothesis Pp : prime p.

Definition eqm (a b : Z) : Prop := exists k, a = b + k * p.
#[local] Instance eqm_equiv : Equivalence eqm.
Proof.
  split.
  - intros a. exists 0. lia.
  - intros a b [k H]. exists (- k). lia.
  - intros a b c [k H] [l H']. exists (k + l). lia.
Qed.
#[local] Instance eqm_add : Proper (eqm ==> eqm ==> eqm) Z.add.
Proof. intros a b [k H] c d [l H']. exists (k + l). lia. Qed.
#[local] Instance eqm_mul : Proper (eqm ==> eqm ==> eqm) Z.mul.
Proof. intros a b [k H] c d [l H']. subst. exists (b * l + k * d + k * l * p). ring. Qed.

Lemma p_ge2 : 2 <= p. Proof. apply prime_ge_2; auto. Qed.
Lemma eqm_mod_l a : eqm (a mod p) a.
Proof. pose proof p_ge2. exists (- (a / p)). pose proof (Z.div_mod a p ltac:(lia)). lia. Qed.
Lemma eqm_mod a b : eqm a b <-> a mod p = b mod p.
Proof.
  pose proof p_ge2. split.
  - intros [k ->]. apply Z_mod_plus_full.
  - intros E. rewrite <- (eqm_mod_l a), <- (eqm_mod_l b), E. reflexivity.
Qed.
Lemma eqm_0 a : eqm a 0 <-> (p | a).
Proof. split; intros [k H]; exists k; lia. Qed.
Lemma eqm_sub a b : eqm a b <-> (p | a - b).
Proof. split; intros [k H]; exists k; lia. Qed.
Lemma eqm_mul_0 a b : eqm (a * b) 0 -> eqm a 0 \/ eqm b 0.
Proof. rewrite !eqm_0. apply prime_mult; auto. Qed.
Lemma eqm_cancel a b c : ~ eqm c 0 -> eqm (c * a) (c * b) -> eqm a b.
Proof.
  intros Hc H. assert (E : eqm (c * (a - b)) 0).
  { apply eqm_0. apply eqm_sub in H. destruct H as [k H]. exists k. lia. }
  apply eqm_mul_0 in E as [E|E]; [contradiction|]. apply eqm_sub. apply eqm_0 in E. auto.
Qed.
Lemma eqm_pow a b m : 0 <= m -> eqm a b -> eqm (a ^ m) (b ^ m).
Proof.
  intros Hm Hc. revert m Hm. apply natlike_ind.
  - reflexivity.
  - intros m Hm IH. rewrite !Z.pow_succ_r by auto. rewrite IH, Hc. reflexivity.
Qed.
Lemma eqm_pow_n0 a m : 0 <= m -> ~ eqm a 0 -> ~ eqm (a ^ m) 0.
Proof.
  intros Hm Ha. revert m Hm. apply natlike_ind.
  - intros E. apply eqm_0 in E. apply Z.divide_1_r_nonneg in E; pose proof p_ge2; lia.
  - intros m Hm IH E. rewrite Z.pow_succ_r in E by auto. apply eqm_mul_0 in E. tauto.
Qed.

Fixpoint zprod (l : list Z) : Z := match l with [] => 1 | x :: l => x * zprod l end.
Lemma zprod_perm l l' : Permutation l l' -> zprod l = zprod l'.
Proof. induction 1; cbn [zprod]; lia. Qed.
Lemma zprod_map a l : eqm (zprod (map (fun x => (a * x) mod p) l)) (a ^ Z.of_nat (length l) * zprod l).
Proof.
  induction l as [|x l IH]; cbn [map zprod length]; [reflexivity|].
  rewrite Nat2Z.inj_succ, Z.pow_succ_r by lia. rewrite eqm_mod_l, IH. exists 0. ring.
Qed.

Definition units : list Z := map (fun k => Z.of_nat (S k)) (seq 0 (Z.to_nat (p - 1))).
Lemma in_units x : In x units <-> 1 <= x < p.
Proof.
  unfold units. rewrite in_map_iff. split.
  - intros (k & <- & Hk). apply in_seq in Hk. lia.
  - intros H. exists (Z.to_nat (x - 1)). split; [lia|]. apply in_seq. lia.
Qed.
Lemma NoDup_units : NoDup units.
Proof. apply FinFun.Injective_map_NoDup; [intros a b H; lia|apply seq_NoDup]. Qed.
Lemma units_length : Z.of_nat (length units) = p - 1.
Proof. unfold units. rewrite map_length, seq_length. pose proof p_ge2. lia. Qed.
Lemma unit_n0 x : 1 <= x < p -> ~ eqm x 0.
Proof. intros H E. apply eqm_0 in E. apply Z.divide_pos_le in E; lia. Qed.
Lemma zprod_n0 l : (forall x, In x l -> ~ eqm x 0) -> ~ eqm (zprod l) 0.
Proof.
  induction l as [|x l IH]; intros H; cbn [zprod].
  - apply (eqm_pow_n0 1 0); [lia|]. apply unit_n0. pose proof p_ge2. lia.
  - intros E. apply eqm_mul_0 in E as [E|E]; [apply (H x); auto; left; auto|]. apply IH; auto. intros y Hy. apply H. right; auto.
Qed.

Lemma NoDup_map_inj (f : Z -> Z) l :
  (forall x y, In x l -> In y l -> f x = f y -> x = y) -> NoDup l -> NoDup (map f l).
Proof.
  intros Hf ND. induction ND as [|x l Hx ND IH]; cbn [map]; constructor.
  - intros H. apply in_map_iff in H as (y & E & Hy). apply Hf in E; [|right; auto|left; auto]. subst. contradiction.
  - apply IH. intros a b Ha Hb. apply Hf; right; auto.
Qed.

Theorem fermat a : ~ eqm a 0 -> eqm (a ^ (p - 1)) 1.
Proof.
  intros Ha. pose proof p_ge2.
  set (l' := map (fun x => (a * x) mod p) units).
  assert (ND : NoDup l').
  { apply NoDup_map_inj; [|apply NoDup_units].
    intros x y Hx Hy E. apply in_units in Hx, Hy. apply eqm_mod in E. apply eqm_cancel in E; auto.
    apply eqm_mod in E. rewrite !Z.mod_small in E by lia. auto. }
  assert (IN : incl l' units).
  { intros y Hy. apply in_map_iff in Hy as (x & <- & Hx). apply in_units. apply in_units in Hx.
    pose proof (Z.mod_pos_bound (a * x) p ltac:(lia)).
    assert ((a * x) mod p <> 0).
    { intros E. assert (E' : eqm (a * x) 0) by (rewrite <- eqm_mod_l, E; reflexivity).
      apply eqm_mul_0 in E' as [E'|E']; [contradiction|]. apply (unit_n0 x); auto. }
    lia. }
  assert (PM : Permutation l' units).
  { apply NoDup_Permutation_bis; auto. unfold l'. rewrite map_length. auto. }
  apply (eqm_cancel _ _ (zprod units)).
  - apply zprod_n0. intros x Hx. apply in_units in Hx. apply unit_n0. auto.
  - pose proof (zprod_map a units) as E. fold l' in E. rewrite (zprod_perm _ _ PM), units_length in E.
    rewrite Z.mul_1_r, (Z.mul_comm (zprod units)). symmetry. exact E.
Qed.

(** Euler's criterion, in the form used by the square-root code. *)
Hypothesis Odd : p mod 2 = 1.
Let h := (p - 1) / 2.
Lemma h_ok : p - 1 = h * 2.
Proof. unfold h. pose proof (Z.div_mod (p - 1) 2 ltac:(lia)). pose proof (Z.div_mod p 2 ltac:(lia)).
  pose proof (Z.mod_pos_bound (p - 1) 2 ltac:(lia)). lia. Qed.
Lemma h_pos : 0 < h.
Proof. pose proof h_ok. pose proof p_ge2. destruct (Z.eq_dec p 2) as [->|]; [discriminate|lia]. Qed.

Theorem euler_cases a : ~ eqm a 0 -> eqm (a ^ h) 1 \/ eqm (a ^ h) (- 1).
Proof.
  intros Ha. pose proof (fermat a Ha) as F. pose proof h_pos. rewrite h_ok, Z.pow_mul_r in F by lia.
  rewrite Z.pow_2_r in F.
  assert (E : eqm ((a ^ h - 1) * (a ^ h + 1)) 0).
  { apply eqm_sub in F. apply eqm_0. destruct F as [k F]. exists k. rewrite <- F. ring. }
  apply eqm_mul_0 in E as [[k E]|[k E]]; [left|right]; exists k; lia.
Qed.
Theorem euler_square a z : ~ eqm a 0 -> eqm (z * z) a -> eqm (a ^ h) 1.
Proof.
  intros Ha Hz. pose proof h_pos.
  assert (Hz0 : ~ eqm z 0). { intros E. apply Ha. rewrite <- Hz, E. reflexivity. }
  rewrite <- (eqm_pow _ _ h ltac:(lia) Hz), <- Z.pow_2_r, <- Z.pow_mul_r, Z.mul_comm, <- h_ok by lia.
  apply fermat; auto.
Qed.
Theorem one_neq_minus_one : ~ eqm 1 (- 1).
Proof.
  intros E. apply eqm_sub in E. apply Z.divide_pos_le in E; [|lia]. pose proof p_ge2.
  assert (p = 2) by lia. subst. discriminate.
Qed.
End Fermat.
