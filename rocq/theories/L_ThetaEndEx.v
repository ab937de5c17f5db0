(** Two cases of a last (2,2)-isogeny step to a product, with square roots i of -1, r of 10 and h of 3. *)
From Coq Require Import Arith Ring Field Lia.
From Verif Require Import S_Theta S_KummerSurf L_KummerSurf L_KummerFun.
Section K.
Context {K : Type} {k0 k1 : K} {kadd kmul ksub : K -> K -> K} {kopp : K -> K} {kdiv : K -> K -> K} {kinv : K -> K}.
Context (FT : field_theory k0 k1 kadd kmul ksub kopp kdiv kinv (@eq K)).
Add Field Kf : FT.
Local Notation "0" := k0. Local Notation "1" := k1.
Local Infix "+" := kadd. Local Infix "*" := kmul. Local Infix "-" := ksub. Local Infix "/" := kdiv. Local Notation "- x" := (kopp x).
Local Notation "2" := (1+1). Local Notation "3" := (2+1). Local Notation "4" := (2+2). Local Notation "5" := (4+1). Local Notation "7" := (4+3).
Context (i r h : K) (Hi : i * i = - (1)) (Hr : r * r = 2 * 5) (Hh : h * h = 3).
Context (two_nz : 2 <> 0) (three_nz : 3 <> 0) (five_nz : 5 <> 0) (seven_nz : 7 <> 0).
Local Notation dual := (dual kadd kopp). Local Notation sqdual := (sqdual kadd kmul kopp).
Local Notation generic_null := (generic_null k0 kadd kmul kopp).
Ltac four j H := destruct j as [|[|[|[|j]]]]; [| | | |exfalso; lia]; clear H.
Definition vec (a b c d : K) (j : nat) : K := match j with 0%nat => a | 1%nat => b | 2%nat => c | _ => d end.
(* the dual null point before the last step, the two kernel points in dual coordinates and the null point after it *)
Definition D0 := vec 0 r r (4*i). Definition S01 := vec 1 1 (2*i) 0. Definition S02 := vec (h*(2+i)) (3*h) (2+i) (4*i-1). Definition A0 := vec 1 2 2 (3*i).
Definition D1 := vec r 0 (4*i) r. Definition S11 := vec (2*(1+2*i)) r 0 r. Definition S12 := vec (3*h) (h*(2-i)) (1+4*i) (2-i). Definition A1 := vec 1 (2*i) 2 3.
Lemma by_square x y : x * x = y -> y <> 0 -> x <> 0. Proof. intros E N ->. apply N. rewrite <- E. ring. Qed.
Lemma by_factor x c y : x * c = y -> y <> 0 -> x <> 0. Proof. intros E N ->. apply N. rewrite <- E. ring. Qed.
Lemma by_opp x : - x <> 0 -> x <> 0. Proof. intros N ->. apply N. ring. Qed.
Lemma i_nz : i <> 0. Proof. apply (by_square i (- (1))); [exact Hi|]. apply by_opp. replace (- - (1)) with 1 by ring. exact (F_1_neq_0 FT). Qed.
Lemma r_nz : r <> 0. Proof. apply (by_square r (2*5)); [exact Hr|]. exact (mul_nz FT _ _ two_nz five_nz). Qed.
Ltac mz := repeat apply (mul_nz FT); try assumption; first [exact i_nz|exact r_nz].
Ltac eqv e := match goal with |- ?g <> 0 => replace g with e by (ring [Hi Hr Hh]); try (apply by_opp; match goal with |- - - ?u <> 0 => replace (- - u) with u by ring end); mz end.
Ltac unf := cbv beta iota zeta delta [S_Theta.dual S_Theta.sqdual sum4 sgn dot vec D0 D1 S01 S02 S11 S12 A0 A1 Nat.odd Nat.even Nat.div Nat.divmod fst snd andb xorb negb].
Lemma four_nz : 4 <> 0. Proof. replace 4 with (2*2) by ring. mz. Qed.
Lemma gen0 : generic_null (dual D0).
Proof.
  apply (generic_gen FT two_nz). pose proof four_nz as N4. unf. unfold gen, nz4, hd0, hd1, hd2, hd3.
  assert (Na : 2*r+4*i <> 0) by (apply (by_factor _ (2*r-4*i) (2*(2*2)*7)); [ring [Hi Hr]|mz]).
  assert (Nd : 4*i-2*r <> 0) by (apply (by_factor _ (4*i+2*r) (-(2*(2*2)*7))); [ring [Hi Hr]|apply by_opp; match goal with |- - - ?u <> 0 => replace (- - u) with u by ring end; mz]).
  repeat match goal with |- _ /\ _ => split end.
  - eqv (2*r+4*i).
  - eqv (-(4*i)).
  - eqv (-(4*i)).
  - eqv (4*i-2*r).
  - eqv (4*4).
  - eqv (4*(4*2)*(r*i)).
  - eqv (4*(4*2)*(r*i)).
  - eqv (4*4*5).
  - eqv (4*(4*2)).
  - eqv (4*(4*2)).
  - eqv (-(4*2*(3*3))).
  - eqv (-(4*4*(r*i))).
  - eqv (-(4*4*(r*i))).
  - eqv (-(4*2*5)).
Qed.
Lemma gen1 : generic_null (dual D1).
Proof.
  apply (generic_gen FT two_nz). pose proof four_nz as N4. unf. unfold gen, nz4, hd0, hd1, hd2, hd3.
  assert (Na : 2*r+4*i <> 0) by (apply (by_factor _ (2*r-4*i) (2*(2*2)*7)); [ring [Hi Hr]|mz]).
  assert (Nd : 2*r-4*i <> 0) by (apply (by_factor _ (4*i+2*r) (2*(2*2)*7)); [ring [Hi Hr]|mz]).
  repeat match goal with |- _ /\ _ => split end.
  - eqv (2*r+4*i).
  - eqv (4*i).
  - eqv (-(4*i)).
  - eqv (2*r-4*i).
  - eqv (4*4).
  - eqv (4*(4*2)*(r*i)).
  - eqv (4*(4*2)*(r*i)).
  - eqv (4*4*5).
  - eqv (-(4*(4*2))).
  - eqv (4*(4*2)).
  - eqv (4*2*(3*3)).
  - eqv (4*4*(r*i)).
  - eqv (-(4*4*(r*i))).
  - eqv (4*2*5).
Qed.
Lemma case0 : (forall j, (j < 4)%nat -> A0 j <> 0 /\ sqdual D0 j = 4 * (A0 j * A0 j)) /\ D0 0%nat = 0 /\
  sqdual S01 0%nat = - (2) * A0 0%nat /\ sqdual S01 1%nat = - (2) * A0 1%nat /\
  sqdual S02 0%nat = (4 * 2 * (3 + i)) * A0 0%nat /\ sqdual S02 1%nat = (4 * 3 * i) * A0 1%nat /\ sqdual S02 2%nat = (4 * 2 * (3 + i)) * A0 2%nat /\ sqdual S02 3%nat = (4 * 3 * i) * A0 3%nat.
Proof.
  pose proof (F_1_neq_0 FT) as N1. split; [intros j Hj; split; [four j Hj; unf; mz|four j Hj; unf; ring [Hi Hr]]|]. split; [reflexivity|]. repeat match goal with |- _ /\ _ => split end; unf; ring [Hi Hr Hh].
Qed.
Lemma case1 : (forall j, (j < 4)%nat -> A1 j <> 0 /\ sqdual D1 j = 4 * (A1 j * A1 j)) /\ D1 1%nat = 0 /\
  sqdual S11 0%nat = 4 * 2 * (1 + 2 * i) * A1 0%nat /\ sqdual S11 1%nat = 4 * 2 * (1 + 2 * i) * A1 1%nat /\
  sqdual S12 0%nat = (4 * 2 * (3 - i)) * A1 0%nat /\ sqdual S12 1%nat = (4 * 3) * A1 1%nat /\ sqdual S12 2%nat = (4 * 2 * (3 - i)) * A1 2%nat /\ sqdual S12 3%nat = (4 * 3) * A1 3%nat.
Proof.
  pose proof (F_1_neq_0 FT) as N1. split; [intros j Hj; split; [four j Hj; unf; mz|four j Hj; unf; ring [Hi Hr]]|]. split; [reflexivity|]. repeat match goal with |- _ /\ _ => split end; unf; ring [Hi Hr Hh].
Qed.
Lemma facs : - (2) <> 0 /\ 4 * 2 * (3 + i) <> 0 /\ 4 * 3 * i <> 0 /\ 4 * 2 * (1 + 2 * i) <> 0 /\ 4 * 2 * (3 - i) <> 0 /\ 4 * 3 <> 0.
Proof.
  pose proof four_nz as N4. assert (3 + i <> 0) by (apply (by_factor _ (3-i) (2*5)); [ring [Hi]|mz]). assert (3 - i <> 0) by (apply (by_factor _ (3+i) (2*5)); [ring [Hi]|mz]). assert (1+2*i <> 0) by (apply (by_factor _ (1-2*i) 5); [ring [Hi]|mz]).
  repeat match goal with |- _ /\ _ => split end; try mz. apply by_opp. replace (- - (2)) with 2 by ring. exact two_nz.
Qed.
End K.
