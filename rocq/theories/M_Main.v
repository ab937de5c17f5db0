(** src/main.rs: the random messages and one round of the benchmark program. *)
From Coq Require Import ZArith List Bool.
From Verif Require Import M_Consts M_Field M_Curve M_Dlog M_Super M_Super2 M_Festa.
Import ListNotations.
Open Scope Z_scope.

(* main.rs:10-24.  The random numbers are arguments: gen_biguint_range(0, d) gives s1, s2 below d1 and d2 (their lower ends included), gen_biguint(L_POWER - 1) gives r below 2^(L_POWER - 1) *)
Definition gen_random_trapdoor_input (s1 s2 r : Z) : option trapdoor_input :=
  let b11 := set_bit0 r in
  let l_power := Z.shiftl 1 L_POWER in
  obind (xgcd_big b11 l_power) (fun b22 => Some (mkTI s1 s2 (b11, b22 mod l_power))).
Section Main.
Context {F : Type} (o : fops F) (dlp : F -> F -> list (Z * Z) -> option Z) (fuel : nat) (checks : bool).
(* main.rs:30-46, one case; printing and timing are left out.  None: a panic, among them a failing assert_eq! *)
Definition bench_case (festa : festa F) (r11 r22 : Z) (rng : list (list Z)) (s1 s2 r : Z) : option unit :=
  obind (keygen o dlp fuel checks festa r11 r22 rng) (fun keys =>
  obind (gen_random_trapdoor_input s1 s2 r) (fun trapdoor_input =>
  obind (trapdoor_eval o fuel checks festa (fst keys) trapdoor_input) (fun trapdoor_output =>
  obind (trapdoor_inverse o dlp fuel checks festa trapdoor_output (snd keys)) (fun inverted =>
  if ti_eqb trapdoor_input inverted then Some tt else None)))).
End Main.
