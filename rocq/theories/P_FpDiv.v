(** C11: division and inversion in the base field, for every pair of elements. *)
From Coq Require Import ZArith List Lia Bool.
From Verif Require Import S_Fp M_Utils64 M_Consts M_Fp L_Fp L_FpOps L_FpDiv.
Import ListNotations.
Open Scope Z_scope.

Lemma C11_zero_aux x y : canon x -> canon y -> val y = 0 -> set_div x y = fp_zero.
Proof.
  intros Hx Hy H. destruct (set_div_ok x y Hx Hy) as (C & Z0 & _). apply val_inj; [exact C|exact canon_zero|]. rewrite val_zero; auto.
Qed.

Theorem C11_div_exact : forall x y, canon x -> canon y -> val y <> 0 ->
  canon (set_div x y) /\ (val (set_div x y) * val y) mod P = val x.
Proof. exact (fun x y Hx Hy N => conj (proj1 (set_div_ok x y Hx Hy)) (proj2 (proj2 (set_div_ok x y Hx Hy)) N)). Qed.
Theorem C11_div_by_zero : forall x y, canon x -> canon y -> val y = 0 -> set_div x y = fp_zero.
Proof. exact C11_zero_aux. Qed.
Theorem C11_invert_exact : forall a, canon a -> val a <> 0 ->
  canon (invert a) /\ (val (invert a) * val a) mod P = 1.
Proof. intros a Ha N. rewrite <- val_one. exact (C11_div_exact fp_one a canon_one Ha N). Qed.
Theorem C11_invert_zero : forall a, canon a -> val a = 0 -> invert a = fp_zero.
Proof. exact (fun a Ha N => C11_zero_aux fp_one a canon_one Ha N). Qed.

(** hypotheses are met: 2 / 3 and the inverse of -1 *)
Example C11_ex_div : (val (set_div fp_two fp_three) * 3) mod P = 2.
Proof. rewrite <- val_three, <- val_two. apply C11_div_exact; auto using canon_two, canon_three. rewrite val_three. discriminate. Qed.
Example C11_ex_zero : set_div fp_three fp_zero = fp_zero.
Proof. apply C11_div_by_zero; auto using canon_three, canon_zero, val_zero. Qed.
Example C11_ex_inv : (val (invert fp_four) * 4) mod P = 1.
Proof. rewrite <- val_four. apply C11_invert_exact; auto using canon_four. rewrite val_four. discriminate. Qed.

Print Assumptions C11_div_exact.
Print Assumptions C11_div_by_zero.
Print Assumptions C11_invert_exact.
Print Assumptions C11_invert_zero.
