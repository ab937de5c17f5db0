(** C47: the 64-bit helper primitives return mathematically exact results. *)
From Coq Require Import ZArith List Lia.
From Verif Require Import S_Fp M_Utils64 L_Words L_Bits L_Lzcnt.
Import ListNotations.
Open Scope Z_scope.

Theorem C47_addcarry : forall x y c, word x -> word y -> 0 <= c <= 1 ->
  let '(d, e) := addcarry_u64 x y c in
  d + 2 ^ 64 * e = x + y + c /\ 0 <= d < 2 ^ 64 /\ 0 <= e <= 1.
Proof. intros x y c Hx Hy Hc. destruct (addcarry_u64 x y c) eqn:E. exact (addcarry_spec x y c Hx Hy Hc _ _ E). Qed.
Example C47_addcarry_ex : word 18446744073709551615 /\ addcarry_u64 18446744073709551615 18446744073709551615 1 = (18446744073709551615, 1).
Proof. split; [unfold word; lia|reflexivity]. Qed.
Print Assumptions C47_addcarry.

Theorem C47_subborrow : forall x y c, word x -> word y -> 0 <= c <= 1 ->
  let '(d, e) := subborrow_u64 x y c in
  d - 2 ^ 64 * e = x - y - c /\ 0 <= d < 2 ^ 64 /\ 0 <= e <= 1.
Proof. intros x y c Hx Hy Hc. destruct (subborrow_u64 x y c) eqn:E. exact (subborrow_spec x y c Hx Hy Hc _ _ E). Qed.
Example C47_subborrow_ex : word 18446744073709551615 /\ subborrow_u64 0 18446744073709551615 1 = (0, 1).
Proof. split; [unfold word; lia|reflexivity]. Qed.
Print Assumptions C47_subborrow.

Theorem C47_umull : forall x y, word x -> word y ->
  let '(lo, hi) := umull x y in lo + 2 ^ 64 * hi = x * y /\ word lo /\ word hi.
Proof. intros x y Hx Hy. destruct (umull x y) eqn:E. exact (umull_spec x y Hx Hy _ _ E). Qed.
Print Assumptions C47_umull.

Theorem C47_umull_add : forall x y z, word x -> word y -> word z ->
  let '(lo, hi) := umull_add x y z in lo + 2 ^ 64 * hi = x * y + z /\ word lo /\ word hi.
Proof. intros x y z Hx Hy Hz. destruct (umull_add x y z) eqn:E. exact (umull_add_spec x y z Hx Hy Hz _ _ E). Qed.
Print Assumptions C47_umull_add.

Theorem C47_umull_add2 : forall x y z1 z2, word x -> word y -> word z1 -> word z2 ->
  let '(lo, hi) := umull_add2 x y z1 z2 in lo + 2 ^ 64 * hi = x * y + z1 + z2 /\ word lo /\ word hi.
Proof. intros x y z1 z2 Hx Hy H1 H2. destruct (umull_add2 x y z1 z2) eqn:E. exact (umull_add2_spec x y z1 z2 Hx Hy H1 H2 _ _ E). Qed.
Example C47_umull_add2_ex : umull_add2 18446744073709551615 18446744073709551615 18446744073709551615 18446744073709551615
  = (18446744073709551615, 18446744073709551615).
Proof. reflexivity. Qed.
Print Assumptions C47_umull_add2.

(** The two-product helpers are exact whenever the sum fits in 128 bits; otherwise they wrap (below). *)
Theorem C47_umull_x2 : forall x1 y1 x2 y2, word x1 -> word y1 -> word x2 -> word y2 -> x1 * y1 + x2 * y2 < 2 ^ 128 ->
  let '(lo, hi) := umull_x2 x1 y1 x2 y2 in lo + 2 ^ 64 * hi = x1 * y1 + x2 * y2 /\ word lo /\ word hi.
Proof. intros x1 y1 x2 y2 H1 H2 H3 H4 Hb. destruct (umull_x2 x1 y1 x2 y2) eqn:E. exact (umull_x2_spec x1 y1 x2 y2 H1 H2 H3 H4 Hb _ _ E). Qed.
Theorem C47_umull_x2_add : forall x1 y1 x2 y2 z, word x1 -> word y1 -> word x2 -> word y2 -> word z ->
  x1 * y1 + x2 * y2 + z < 2 ^ 128 ->
  let '(lo, hi) := umull_x2_add x1 y1 x2 y2 z in lo + 2 ^ 64 * hi = x1 * y1 + x2 * y2 + z /\ word lo /\ word hi.
Proof. intros x1 y1 x2 y2 z H1 H2 H3 H4 Hz Hb. destruct (umull_x2_add x1 y1 x2 y2 z) eqn:E. exact (umull_x2_add_spec x1 y1 x2 y2 z H1 H2 H3 H4 Hz Hb _ _ E). Qed.
Example C47_umull_x2_ex : 9223372036854775807 * 18446744073709551615 + 9223372036854775808 * 18446744073709551615 < 2 ^ 128
  /\ umull_x2 9223372036854775807 18446744073709551615 9223372036854775808 18446744073709551615 = (1, 18446744073709551614).
Proof. split; reflexivity. Qed.
Print Assumptions C47_umull_x2_add.

(** Without the bound the exactness claim is false of the code as written (128-bit wrap-around). *)
Theorem C47_umull_x2_unbounded_refuted : exists x1 y1 x2 y2, word x1 /\ word y1 /\ word x2 /\ word y2 /\
  let '(lo, hi) := umull_x2 x1 y1 x2 y2 in lo + 2 ^ 64 * hi <> x1 * y1 + x2 * y2.
Proof.
  exists 18446744073709551615, 18446744073709551615, 18446744073709551615, 18446744073709551615.
  repeat (split; [unfold word; lia|]). vm_compute. discriminate.
Qed.
Print Assumptions C47_umull_x2_unbounded_refuted.

Theorem C47_sgnw : forall x, word x -> sgnw x = if x <? 2 ^ 63 then 0 else 2 ^ 64 - 1.
Proof. exact sgnw_spec. Qed.
Example C47_sgnw_ex : sgnw 9223372036854775808 = 18446744073709551615. Proof. reflexivity. Qed.
Print Assumptions C47_sgnw.

(** [bitlength x] is the number of significant bits, see S_Fp; 2^(bitlength-1) <= x < 2^bitlength for x > 0. *)
Theorem C47_lzcnt : forall x, word x -> lzcnt x = 64 - bitlength x.
Proof. exact lzcnt_ok. Qed.
Example C47_lzcnt_ex : lzcnt 0 = 64 /\ lzcnt 18446744073709551615 = 0 /\ lzcnt 65536 = 47. Proof. repeat split; reflexivity. Qed.
Print Assumptions C47_lzcnt.
Theorem bitlength_meaning : forall x, 0 < x -> 2 ^ (bitlength x - 1) <= x < 2 ^ bitlength x.
Proof. exact bitlength_spec. Qed.
Print Assumptions C47_umull_x2.
