(** Model of src/finitefield/fp2_gen.rs (macro define_fp2_core) over the limb-level base field of M_Fp.v.
    An element is the pair of fields (x0, x1); control words are u32 values as in the code.  No proofs in this file. *)
From Coq Require Import ZArith List Bool.
From Verif Require Import M_Utils64 M_Consts M_Fp.
Import ListNotations.
Open Scope Z_scope.

(* fp2_gen.rs:29-32 *)
Notation fp2 := (prod (list Z) (list Z)) (only parsing).

(* fp2_gen.rs:35-75 *)
Definition f2_zero : fp2 := (fp_zero, fp_zero).
Definition f2_one : fp2 := (fp_one, fp_zero).
Definition f2_two : fp2 := (fp_two, fp_zero).
Definition f2_three : fp2 := (fp_three, fp_zero).
Definition f2_four : fp2 := (fp_four, fp_zero).
Definition f2_minus_one : fp2 := (fp_minus_one, fp_zero).
Definition f2_zeta : fp2 := (fp_zero, fp_one).
Definition f2_minus_zeta : fp2 := (fp_zero, fp_minus_one).
Definition F2_ENCODED_LENGTH : nat := 2 * ENCODED_LENGTH.
Definition f2_nqr : fp2 := (NQR_RE, fp_one).

(* fp2_gen.rs:85-93 *)
Definition f2_iszero (x : fp2) : Z := Z.land (iszero (fst x)) (iszero (snd x)).
Definition f2_equals (x y : fp2) : Z := Z.land (equals (fst x) (fst y)) (equals (snd x) (snd y)).

(* fp2_gen.rs:95-126 *)
Definition f2_add (x y : fp2) : fp2 := (set_add (fst x) (fst y), set_add (snd x) (snd y)).
Definition f2_sub (x y : fp2) : fp2 := (set_sub (fst x) (fst y), set_sub (snd x) (snd y)).
Definition f2_neg (x : fp2) : fp2 := (set_neg (fst x), set_neg (snd x)).
Definition f2_conj (x : fp2) : fp2 := (fst x, set_neg (snd x)).

(* fp2_gen.rs:128-152 *)
Definition f2_mul_old (x y : fp2) : fp2 :=
  let a := set_mul (fst x) (fst y) in
  let b := set_mul (snd x) (snd y) in
  let c := set_mul (set_add (fst x) (snd x)) (set_add (fst y) (snd y)) in
  (set_sub a b, set_sub (set_sub c a) b).

(* fp2_gen.rs:154-176 *)
Definition f2_mul (x y : fp2) : fp2 :=
  (difference_of_products (fst x) (fst y) (snd x) (snd y), sum_of_products (fst x) (snd y) (snd x) (fst y)).

(* fp2_gen.rs:178-188: the real part is overwritten last *)
Definition f2_square (x : fp2) : fp2 :=
  let a := set_add (fst x) (snd x) in
  let b := set_sub (fst x) (snd x) in
  (set_mul a b, set_mul2 (set_mul (snd x) (fst x))).

(* fp2_gen.rs:197-265 *)
Definition f2_half (x : fp2) : fp2 := (set_half (fst x), set_half (snd x)).
Definition f2_mul2 (x : fp2) : fp2 := (set_mul2 (fst x), set_mul2 (snd x)).
Definition f2_mul3 (x : fp2) : fp2 := (set_mul3 (fst x), set_mul3 (snd x)).
Definition f2_mul4 (x : fp2) : fp2 := (set_mul4 (fst x), set_mul4 (snd x)).
Definition f2_mul8 (x : fp2) : fp2 := (set_mul8 (fst x), set_mul8 (snd x)).
Definition f2_mul_small (x : fp2) (k : Z) : fp2 := (set_mul_small (fst x) k, set_mul_small (snd x) k).

(* fp2_gen.rs:267-301 *)
Definition f2_select (a b : fp2) (ctl : Z) : fp2 := (select (fst a) (fst b) ctl, select (snd a) (snd b) ctl).
Definition f2_set_cond (a b : fp2) (ctl : Z) : fp2 := (set_cond (fst a) (fst b) ctl, set_cond (snd a) (snd b) ctl).
Definition f2_set_condneg (a : fp2) (ctl : Z) : fp2 :=
  (set_cond (fst a) (set_neg (fst a)) ctl, set_cond (snd a) (set_neg (snd a)) ctl).
Definition f2_condswap (a b : fp2) (ctl : Z) : fp2 * fp2 :=
  let '(a0, b0) := condswap (fst a) (fst b) ctl in
  let '(a1, b1) := condswap (snd a) (snd b) ctl in
  ((a0, a1), (b0, b1)).

(* fp2_gen.rs:303-333 *)
Definition f2_norm (x : fp2) : fp := set_add (set_square (fst x)) (set_square (snd x)).
Definition f2_div (x y : fp2) : fp2 :=
  let z := invert (f2_norm y) in
  f2_mul x (set_mul (fst y) z, set_mul (set_neg (snd y)) z).
Definition f2_invert (x : fp2) : fp2 :=
  let z := invert (f2_norm x) in
  (set_mul (fst x) z, set_neg (set_mul (snd x) z)).

(* fp2_gen.rs:339-345 *)
Definition f2_legendre (x : fp2) : Z := legendre (f2_norm x).

(* "(ls >> 1) as u32" of an i32, fp2_gen.rs:402, 509 *)
Definition nqr_mask (ls : Z) : Z := lo32 (Z.shiftr ls 1).
(* the last lines of both root routines, fp2_gen.rs:420-427, 545-553 *)
Definition f2_root_finish (y0 y1 : fp) (r : Z) : fp2 :=
  let x0 := select fp_zero y0 r in
  let x1 := select fp_zero y1 r in
  let x0odd := lo32 (- (Z.land (nth 0 (encode x0) 0) 1)) in
  let x1odd := lo32 (- (Z.land (nth 0 (encode x1) 0) 1)) in
  let x0z := iszero x0 in
  f2_set_condneg (x0, x1) (Z.lor x0odd (Z.land x0z x1odd)).

(* fp2_gen.rs:353-436 *)
Definition f2_sqrt (x : fp2) : fp2 * Z :=
  let '(sqrt_delta, r1) := sqrt (f2_norm x) in
  let y0sq := set_half (set_add (fst x) sqrt_delta) in
  let x1z := iszero (snd x) in
  let y0sq := set_cond y0sq (fst x) x1z in
  let nqr := nqr_mask (legendre y0sq) in
  let y0sq := set_condneg y0sq (Z.land nqr x1z) in
  let y0sq := set_cond y0sq (set_sub y0sq sqrt_delta) (Z.land nqr (wnot32 x1z)) in
  let '(y0, r2) := sqrt y0sq in
  let r := Z.land r1 r2 in
  let y1 := set_div (snd x) (set_mul2 y0) in
  let '(y0, y1) := condswap y0 y1 (Z.land nqr x1z) in
  (f2_root_finish y0 y1 r, r).

(* fp2_gen.rs:444-562 *)
Definition f2_fourth_root (x : fp2) : fp2 * Z :=
  let '(n, r1) := fourth_root (f2_norm x) in
  let disc := set_half (set_add (set_square n) (fst x)) in
  let '(disc_sqrt, r2) := sqrt disc in
  let y02 := set_half (set_add disc_sqrt n) in
  let nqr := nqr_mask (legendre y02) in
  let y02 := set_cond y02 (set_sub y02 n) nqr in
  let n := set_condneg n nqr in
  let y02 := set_cond y02 n (iszero y02) in
  let '(y0, r3) := sqrt y02 in
  let y1 := set_div (snd x) (set_mul y0 (set_mul4 disc_sqrt)) in
  let y1 := set_cond y1 y0 (Z.land (iszero (snd x)) (iszero disc)) in
  let r := Z.land (Z.land r1 r2) r3 in
  (f2_root_finish y0 y1 r, r).

(** ** Exponentiation, fp2_gen.rs:570-628; [None] is the out-of-bounds panic on [e[i >> 3]] *)
Fixpoint f2_pow_loop (x : fp2) (e : list Z) (eoff : nat) (n : nat) (acc : fp2) : option fp2 :=
  match n with
  | O => Some acc
  | S n' =>
      let i := (eoff + n')%nat in
      match nth_error e (Nat.div i 8) with
      | None => None
      | Some byte =>
          let y := f2_mul acc x in
          let ctl := lo32 (- (Z.land (Z.shiftr byte (Z.of_nat (Nat.modulo i 8))) 1)) in
          let acc := f2_set_cond acc y ctl in
          match n' with
          | O => Some acc
          | S _ => f2_pow_loop x e eoff n' (f2_square acc)
          end
      end
  end.
Definition f2_pow_ext (a : fp2) (e : list Z) (eoff ebitlen : nat) : option fp2 := f2_pow_loop a e eoff ebitlen f2_one.
Definition f2_pow (a : fp2) (e : list Z) (ebitlen : nat) : option fp2 := f2_pow_ext a e 0 ebitlen.
(* fp2_gen.rs:605-610; 32 - e.leading_zeros() is the bit length *)
Definition f2_pow_small (a : fp2) (e : Z) : option fp2 := f2_pow a (le_bytes 4 e) (big_bits e).
(* fp2_gen.rs:614-618 *)
Definition f2_pow_big (a : fp2) (e : Z) : option fp2 := f2_pow a (big_to_bytes_le e) (big_bits e).

(* [e >> i] for a u64: with overflow checks a shift of 64 or more panics, without them the amount is taken modulo 64 *)
Definition shr64 (checks : bool) (e : Z) (i : nat) : option Z :=
  if (i <? 64)%nat then Some (Z.shiftr e (Z.of_nat i))
  else if checks then None else Some (Z.shiftr e (Z.of_nat (Nat.modulo i 64))).
(* fp2_gen.rs:703-707, i = n-1 .. 0 *)
Fixpoint f2_pow_u64_loop (checks : bool) (x : fp2) (e : Z) (n : nat) (acc : fp2) : option fp2 :=
  match n with
  | O => Some acc
  | S i =>
      let acc := f2_square acc in
      let y := f2_mul acc x in
      match shr64 checks e i with
      | None => None
      | Some b => f2_pow_u64_loop checks x e i (f2_set_cond acc y (lo32 (- (Z.land (lo32 b) 1))))
      end
  end.
(* fp2_gen.rs:690-711 *)
Definition f2_pow_u64 (checks : bool) (x : fp2) (e : Z) (ebitlen : nat) : option fp2 :=
  match ebitlen with
  | O => Some f2_one
  | S O => Some (f2_set_cond x f2_one (lo32 (Z.land (lo32 e) 1 - 1)))
  | S n =>
      match shr64 checks e n with
      | None => None
      | Some b => f2_pow_u64_loop checks x e n (f2_set_cond x f2_one (lo32 (Z.land (lo32 b) 1 - 1)))
      end
  end.

(* fp2_gen.rs:750-759: [n] two-bit digits are left *)
Fixpoint f2_pow_vt_loop (x xx xxx : fp2) (e : Z) (n : nat) (acc : fp2) : fp2 :=
  match n with
  | O => acc
  | S n' =>
      let acc := f2_square (f2_square acc) in
      let k := Z.land (Z.shiftr e (2 * Z.of_nat n')) 3 in
      let acc := if k =? 0 then acc else f2_mul acc (nth (Z.to_nat k - 1) [x; xx; xxx] f2_zero) in
      f2_pow_vt_loop x xx xxx e n' acc
  end.
(* fp2_gen.rs:725-762: j starts at the even number 63 - leading_zeros(e), rounded down, and decreases by 2 *)
Definition f2_pow_u64_vartime (x : fp2) (e : Z) : fp2 :=
  if e =? 0 then f2_one
  else if e =? 1 then x
  else if e =? 2 then f2_square x
  else if e =? 3 then f2_mul x (f2_square x)
  else if e =? 4 then f2_square (f2_square x)
  else
    let xx := f2_square x in
    let xxx := f2_mul xx x in
    let h := Nat.div (big_bits e - 1) 2 in
    f2_pow_vt_loop x xx xxx e h (nth (Z.to_nat (Z.shiftr e (2 * Z.of_nat h)) - 1) [x; xx; xxx] f2_zero).

(** ** Encoding, fp2_gen.rs:630-652 *)
Definition f2_encode (x : fp2) : list Z := encode (fst x) ++ encode (snd x).
Definition f2_decode (buf : list Z) : fp2 * Z :=
  if Nat.eqb (length buf) F2_ENCODED_LENGTH then
    let '(x0, c0) := decode (firstn ENCODED_LENGTH buf) in
    let '(x1, c1) := decode (skipn ENCODED_LENGTH buf) in
    let cx := Z.land c0 c1 in
    ((set_cond x0 fp_zero (wnot32 cx), set_cond x1 fp_zero (wnot32 cx)), cx)
  else (f2_zero, 0).

(** ** Sampling.  The generator is the stream of the byte blocks it will deliver, each of ENCODED_LENGTH + 16 bytes. *)
(* fp_gen.rs:1405-1409, fp2_gen.rs:656-659 *)
Definition f2_rand (rng : list (list Z)) : option (fp2 * list (list Z)) :=
  match rng with
  | b0 :: b1 :: rng' => Some ((decode_reduce b0, decode_reduce b1), rng')
  | _ => None
  end.
(* fp2_gen.rs:671-684; [None]: the supplied stream ran out before a non-zero value was drawn *)
Fixpoint f2_rand_nonsquare (rng : list (list Z)) : option (fp2 * list (list Z)) :=
  match rng with
  | b0 :: b1 :: rng' =>
      let x := (decode_reduce b0, decode_reduce b1) in
      if f2_iszero x =? 0 then Some (f2_mul (f2_square x) f2_nqr, rng') else f2_rand_nonsquare rng'
  | _ => None
  end.

(* fp2_gen.rs:776-778 *)
Definition f2_hashcode (x : fp2) : Z := Z.lor (wshl (hashcode (fst x)) 1) (Z.land (hashcode (snd x)) 1).

(** ** Batch inversion, fp2_gen.rs:780-818 *)
(* the value with zero replaced by one *)
Definition f2_nz (x : fp2) : fp2 := f2_set_cond x f2_one (f2_iszero x).
(* tt[1 .. blen-1] from tt[0] and xx[i+1 ..] *)
Fixpoint batch_fwd (prev : fp2) (xs : list fp2) : list fp2 :=
  match xs with [] => [] | x :: xs' => let t := f2_mul (f2_nz x) prev in t :: batch_fwd t xs' end.
(* j = blen-1 .. 1 on the pairs (xx[i+j], tt[j-1]), last first; returns the updated xx[i+j], last first, and k *)
Fixpoint batch_bwd (l : list (fp2 * fp2)) (k : fp2) : list fp2 * fp2 :=
  match l with
  | [] => ([], k)
  | (x, t) :: l' =>
      let zz := f2_iszero x in
      let r := f2_set_cond x (f2_mul k t) (wnot32 zz) in
      let '(rs, k') := batch_bwd l' (f2_mul k (f2_set_cond x f2_one zz)) in (r :: rs, k')
  end.
Definition batch_chunk (xs : list fp2) : list fp2 :=
  match xs with
  | [] => []
  | x0 :: xs' =>
      let t0 := f2_nz x0 in
      let tt := t0 :: batch_fwd t0 xs' in
      let k := f2_div f2_one (last tt f2_zero) in
      let '(rs, k) := batch_bwd (rev (combine xs' tt)) k in
      f2_set_cond x0 k (wnot32 (f2_iszero x0)) :: rev rs
  end.
(* the outer while loop: chunks of 200; [fuel] bounds the number of chunks and is never exhausted *)
Fixpoint batch_loop (fuel : nat) (xs : list fp2) : list fp2 :=
  match fuel, xs with
  | _, [] => []
  | O, _ => xs
  | S fuel', _ => batch_chunk (firstn 200 xs) ++ batch_loop fuel' (skipn 200 xs)
  end.
Definition f2_batch_invert (xs : list fp2) : list fp2 := batch_loop (length xs) xs.
