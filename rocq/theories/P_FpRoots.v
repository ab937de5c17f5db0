(** C12: square and fourth roots in the base field.  Squares are stated over the integers modulo [P]. *)
From Coq Require Import ZArith Znumtheory List Lia Bool.
From Verif Require Import S_Fp M_Utils64 M_Consts M_Fp L_Words L_Bits L_Fp L_FpOps L_FpCodec L_FpRoots.
Import ListNotations.
Open Scope Z_scope.

(** [n] is a square / a fourth power modulo [P]. *)
Definition is_square (n : Z) : Prop := exists z, (z ^ 2) mod P = n mod P.
Definition is_fourth_power (n : Z) : Prop := exists z, (z ^ 4) mod P = n mod P.

Lemma is_square_cg n : is_square n <-> exists z, cg (z * z) n.
Proof. split; intros [z H]; exists z; rewrite cg_mod in *; rewrite <- Z.pow_2_r in *; exact H. Qed.
Lemma pow4 z : z ^ 4 = z * z * (z * z). Proof. ring. Qed.
Lemma is_fourth_cg n : is_fourth_power n <-> exists z, cg (z * z * (z * z)) n.
Proof. split; intros [z H]; exists z; rewrite cg_mod in *; rewrite <- pow4 in *; exact H. Qed.

Lemma C12_sqrt_aux a : canon a ->
  (is_square (val a) -> exists r, sqrt a = (r, TRUE32) /\ canon r /\ (val r ^ 2) mod P = val a /\ Z.even (val r) = true) /\
  (~ is_square (val a) -> sqrt a = (fp_zero, 0)).
Proof.
  intros Ha. destruct (sqrt_ok a Ha) as (r & b & E & Hr & H1 & H2 & H3). rewrite is_square_cg, E. split.
  - intros H. apply H1 in H. subst b. destruct (H2 eq_refl) as [H4 H5]. exists r. split; [reflexivity|]. split; auto.
    rewrite Z.pow_2_r. split.
    + rewrite <- (Z.mod_small (val a) P) by apply val_range. apply cg_mod. exact H4.
    + rewrite Zeven_mod, H5. reflexivity.
  - intros H. destruct b; [exfalso; apply H, H1; reflexivity|]. rewrite H3 by reflexivity. reflexivity.
Qed.
Lemma C12_fourth_aux a : canon a ->
  (is_fourth_power (val a) -> exists r, fourth_root a = (r, TRUE32) /\ canon r /\ (val r ^ 4) mod P = val a /\ Z.even (val r) = true) /\
  (~ is_fourth_power (val a) -> fourth_root a = (fp_zero, 0)).
Proof.
  intros Ha. destruct (fourth_root_ok a Ha) as (r & b & E & Hr & H1 & _ & H2 & H3). rewrite is_fourth_cg, E. split.
  - intros H. apply H1 in H. subst b. destruct (H2 eq_refl) as [H4 H5]. exists r. split; [reflexivity|]. split; auto.
    rewrite pow4. split.
    + rewrite <- (Z.mod_small (val a) P) by apply val_range. apply cg_mod. exact H4.
    + rewrite Zeven_mod, H5. reflexivity.
  - intros H. destruct b; [exfalso; apply H, H1; reflexivity|]. rewrite H3 by reflexivity. reflexivity.
Qed.

Theorem C12_sqrt_square : forall a, canon a -> is_square (val a) ->
  exists r, sqrt a = (r, TRUE32) /\ canon r /\ (val r ^ 2) mod P = val a /\ Z.even (val r) = true.
Proof. exact (fun a Ha => proj1 (C12_sqrt_aux a Ha)). Qed.
Theorem C12_sqrt_nonsquare : forall a, canon a -> ~ is_square (val a) -> sqrt a = (fp_zero, 0).
Proof. exact (fun a Ha => proj2 (C12_sqrt_aux a Ha)). Qed.
Theorem C12_fourth_root_power : forall a, canon a -> is_fourth_power (val a) ->
  exists r, fourth_root a = (r, TRUE32) /\ canon r /\ (val r ^ 4) mod P = val a /\ Z.even (val r) = true.
Proof. exact (fun a Ha => proj1 (C12_fourth_aux a Ha)). Qed.
Theorem C12_fourth_root_nonpower : forall a, canon a -> ~ is_fourth_power (val a) -> fourth_root a = (fp_zero, 0).
Proof. exact (fun a Ha => proj2 (C12_fourth_aux a Ha)). Qed.
(** Both hypotheses occur: 4 is a square and a fourth power, -1 is neither. *)
Example C12_ex_square : is_square (val fp_four) /\ is_fourth_power (val fp_four).
Proof.
  rewrite val_four. split; [exists 2; reflexivity|]. apply is_fourth_cg.
  apply fourth_candidate. exists 2. reflexivity.
Qed.
Example C12_ex_nonsquare : ~ is_square (val fp_minus_one) /\ ~ is_fourth_power (val fp_minus_one).
Proof.
  assert (N : ~ is_square (val fp_minus_one)).
  { rewrite is_square_cg, val_minus_one. intros [z H]. apply (minus_one_nonsquare z). rewrite H. exists 1. lia. }
  split; auto. intros [z H]. apply N. exists (z ^ 2). rewrite <- Z.pow_mul_r by lia. exact H.
Qed.
Print Assumptions C12_sqrt_square.
Print Assumptions C12_sqrt_nonsquare.
Print Assumptions C12_fourth_root_power.
Print Assumptions C12_fourth_root_nonpower.
