(** Model of src/finitefield/utils64.rs.  A machine word of [w] bits is a [Z] in [[0, 2^w)]. *)
From Coq Require Import ZArith List.
Import ListNotations.
Open Scope Z_scope.

(** Word sizes. *)
Definition W64 : Z := 18446744073709551616.                      (* 2^64 *)
Definition W32 : Z := 4294967296.                                (* 2^32 *)
Definition W128 : Z := 340282366920938463463374607431768211456.  (* 2^128 *)

(** Truncations [as u64], [as u32], and to u128 (two's complement for negative arguments). *)
Definition lo64 (x : Z) : Z := Z.land x 18446744073709551615.
Definition lo32 (x : Z) : Z := Z.land x 4294967295.
Definition lo128 (x : Z) : Z := Z.land x 340282366920938463463374607431768211455.

(** Rust's u64::wrapping_add / wrapping_sub / wrapping_mul / wrapping_neg / [!] / [<<]. *)
Definition wadd (x y : Z) : Z := lo64 (x + y).
Definition wsub (x y : Z) : Z := lo64 (x - y).
Definition wmul (x y : Z) : Z := lo64 (x * y).
Definition wneg (x : Z) : Z := lo64 (- x).
Definition wshl (x n : Z) : Z := lo64 (Z.shiftl x n).
Definition wnot32 (x : Z) : Z := W32 - 1 - x.

(** Reinterpretation of a u64 as an i64. *)
Definition to_i64 (x : Z) : Z := if x <? 9223372036854775808 then x else x - W64.

(* utils64.rs:17-20 (the portable body; the x86_64 body at 6-13 is the ADC instruction, same contract) *)
Definition addcarry_u64 (x y c : Z) : Z * Z :=
  let z := lo128 (x + y + c) in (lo64 z, Z.shiftr z 64).

(* utils64.rs:38-41 (the portable body; 27-34 is the SBB instruction, same contract) *)
Definition subborrow_u64 (x y c : Z) : Z * Z :=
  let z := lo128 (lo128 (x - y) - c) in (lo64 z, Z.shiftr z 127).

(* utils64.rs:60-63 *)
Definition umull (x y : Z) : Z * Z :=
  let z := x * y in (lo64 z, Z.shiftr z 64).

(* utils64.rs:66-69 *)
Definition umull_add (x y z : Z) : Z * Z :=
  let t := lo128 (x * y + z) in (lo64 t, Z.shiftr t 64).

(* utils64.rs:73-78 *)
Definition umull_add2 (x y z1 z2 : Z) : Z * Z :=
  let t := lo128 (lo128 (x * y + z1) + z2) in (lo64 t, Z.shiftr t 64).

(* utils64.rs:82-87 *)
Definition umull_x2 (x1 y1 x2 y2 : Z) : Z * Z :=
  let z := lo128 (x1 * y1 + x2 * y2) in (lo64 z, lo64 (Z.shiftr z 64)).

(* utils64.rs:91-96 *)
Definition umull_x2_add (x1 y1 x2 y2 z3 : Z) : Z * Z :=
  let z := lo128 (lo128 (x1 * y1 + x2 * y2) + z3) in (lo64 z, lo64 (Z.shiftr z 64)).

(* utils64.rs:102-104: ((x as i64) >> 63) as u64 *)
Definition sgnw (x : Z) : Z := lo64 (Z.shiftr (to_i64 x) 63).

(* one halving stage of lzcnt, utils64.rs:131-133 with shift amount k *)
Definition lz_stage (k : Z) (s x : Z) : Z * Z :=
  let m := sgnw (wsub (Z.shiftr x k) 1) in
  (Z.lor s (Z.land m k),
   Z.lxor (Z.shiftr x k) (Z.land m (Z.lxor x (Z.shiftr x k)))).

(* utils64.rs:130-159 (the branchless body; 122-124 is the hardware instruction, same contract) *)
Definition lzcnt (x : Z) : Z :=
  let '(s, x) := lz_stage 32 0 x in
  let '(s, x) := lz_stage 16 s x in
  let '(s, x) := lz_stage 8 s x in
  let '(s, x) := lz_stage 4 s x in
  let '(s, x) := lz_stage 2 s x in
  let s := wadd s (Z.land (wsub 2 x) (Z.shiftr (wsub x 3) 2)) in
  lo32 s.
