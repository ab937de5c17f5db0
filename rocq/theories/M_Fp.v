(** Model of the base field, src/finitefield/fp_gen.rs instantiated with src/fields.rs (module FpFESTA).
    A field element [Fp([u64; N])] is a [list Z] of N = 21 limbs, least significant first.
    A loop [for i in 0..N] over arrays of the same length is a lockstep recursion over the lists. *)
From Coq Require Import ZArith List.
From Verif Require Import M_Utils64 M_Consts.
Import ListNotations.
Open Scope Z_scope.

Notation fp := (list Z) (only parsing).

(* fp_gen.rs:88-93, 108-114 *)
Definition fp_zero : fp := repeat 0 NLIMBS.
Definition fp_one : fp := R_VAL.
Definition fp_two : fp := DR_VAL.
Definition fp_three : fp := TR_VAL.
Definition fp_four : fp := QR_VAL.
Definition fp_minus_one : fp := MINUS_R_VAL.

(** Limb access; the index is always a constant below N in the source. *)
Definition limb (a : fp) (i : nat) : Z := nth i a 0.

(** ** Elementary limb loops *)

(* the loop of fp_gen.rs:181-185 *)
Fixpoint add_loop (a b : list Z) (cc : Z) : list Z * Z :=
  match a, b with
  | x :: a', y :: b' =>
      let '(d, ee) := addcarry_u64 x y cc in
      let '(ds, co) := add_loop a' b' ee in (d :: ds, co)
  | _, _ => ([], cc)
  end.

(* the loop of fp_gen.rs:189-193 *)
Fixpoint sub_loop (a b : list Z) (cc : Z) : list Z * Z :=
  match a, b with
  | x :: a', y :: b' =>
      let '(d, ee) := subborrow_u64 x y cc in
      let '(ds, co) := sub_loop a' b' ee in (d :: ds, co)
  | _, _ => ([], cc)
  end.

(** [mm & M[i]] for every i *)
Definition masked (mm : Z) (l : list Z) : list Z := map (Z.land mm) l.

(* the loop of fp_gen.rs:197-202 *)
Definition addmask_loop (a : list Z) (mm : Z) : list Z := fst (add_loop a (masked mm MODULUS) 0).

(* fp_gen.rs:178-203 *)
Definition set_add (a b : fp) : fp :=
  let '(t, cc1) := add_loop a b 0 in
  let '(t, cc2) := sub_loop t MODULUS 0 in
  addmask_loop t (wsub cc1 cc2).

(* fp_gen.rs:207-224 *)
Definition set_sub (a b : fp) : fp :=
  let '(t, cc) := sub_loop a b 0 in
  addmask_loop t (wneg cc).

(* fp_gen.rs:228-245 *)
Definition set_neg (a : fp) : fp :=
  let '(t, cc) := sub_loop fp_zero a 0 in
  addmask_loop t (wneg cc).

(** A row [d_i + carry = f*m_i + t_i + carry] (inner loops of fp_gen.rs:256-260, 673-677). *)
Fixpoint row_add2 (f : Z) (m t : list Z) (cc : Z) : list Z * Z :=
  match m, t with
  | x :: m', y :: t' =>
      let '(d, hi) := umull_add2 f x y cc in
      let '(ds, co) := row_add2 f m' t' hi in (d :: ds, co)
  | _, _ => ([], cc)
  end.

(* one round of fp_gen.rs:254-261 *)
Definition monty_step (t : list Z) : list Z :=
  match t, MODULUS with
  | t0 :: ts, m0 :: ms =>
      let f := wmul t0 P0I in
      let '(_, cc) := umull_add f m0 t0 in
      let '(ds, hi) := row_add2 f ms ts cc in
      ds ++ [hi]
  | _, _ => t
  end.

Fixpoint iter {A : Type} (n : nat) (f : A -> A) (x : A) : A :=
  match n with O => x | S n' => iter n' f (f x) end.

(* fp_gen.rs:252-263 *)
Definition set_montyred (a : fp) : fp := iter NLIMBS monty_step a.

(* inner loop of set_mul, fp_gen.rs:277-283 *)
Fixpoint mul_row (f g : Z) (a m t : list Z) (cc1 cc2 : Z) : list Z * Z * Z :=
  match a, m, t with
  | x :: a', y :: m', z :: t' =>
      let '(d, hi1) := umull_add2 f x z cc1 in
      let '(d, hi2) := umull_add2 g y d cc2 in
      let '(ds, c1, c2) := mul_row f g a' m' t' hi1 hi2 in (d :: ds, c1, c2)
  | _, _, _ => ([], cc1, cc2)
  end.

(* one iteration of the outer loop of set_mul, fp_gen.rs:273-286 *)
Definition mul_step (a : fp) (st : list Z * Z) (f : Z) : list Z * Z :=
  let '(t, cch) := st in
  match a, MODULUS, t with
  | a0 :: a', m0 :: m', t0 :: t' =>
      let '(lo, cc1) := umull_add f a0 t0 in
      let g := wmul lo P0I in
      let '(_, cc2) := umull_add g m0 lo in
      let '(ds, cc1, cc2) := mul_row f g a' m' t' cc1 cc2 in
      let '(d, ee) := addcarry_u64 cc1 cc2 cch in
      (ds ++ [d], ee)
  | _, _, _ => st
  end.

(* fp_gen.rs:267-303 *)
Definition set_mul (a b : fp) : fp :=
  let '(t, cch) := fold_left (mul_step a) b (fp_zero, 0) in
  let '(t, cc) := sub_loop t MODULUS 0 in
  addmask_loop t (wsub cch cc).

(** ** Squaring, fp_gen.rs:307-375 *)

(* first row, fp_gen.rs:322-329: products f * a_j with only a carry added *)
Fixpoint row_first (f : Z) (a : list Z) (cc : Z) : list Z * Z :=
  match a with
  | x :: a' =>
      let '(d, hi) := umull_add f x cc in
      let '(ds, co) := row_first f a' hi in (d :: ds, co)
  | [] => ([], cc)
  end.

(* rows i = 1 .. N-2, fp_gen.rs:330-340.  [a] is the suffix a_i, a_{i+1}, ...; [t] is the suffix of the
   accumulator starting at index 2*i+1.  The row rewrites |a|-1 words of [t], stores the carry in the next
   word, and recurses two positions further. *)
Fixpoint sq_rows (a : list Z) (t : list Z) : list Z :=
  match a with
  | f :: ((x :: rest') as rest) =>
      match t with
      | t0 :: ts =>
          let '(d, cc) := umull_add f x t0 in
          let '(ds, co) := row_add2 f rest' ts cc in
          (* write the carry over the next word, keep what lies beyond *)
          let t' := d :: ds ++ co :: skipn (S (length rest')) ts in
          match t' with
          | u0 :: u1 :: us => u0 :: u1 :: sq_rows rest us
          | _ => t'
          end
      | [] => t
      end
  | _ => t
  end.

(* doubling loop, fp_gen.rs:344-351 *)
Fixpoint dbl_loop (t : list Z) (cc : Z) : list Z * Z :=
  match t with
  | w :: t' =>
      let d := Z.lor (wshl w 1) cc in
      let '(ds, co) := dbl_loop t' (Z.shiftr w 63) in (d :: ds, co)
  | [] => ([], cc)
  end.

(* adding the squares, fp_gen.rs:354-362 *)
Fixpoint addsq_loop (a t : list Z) (cc : Z) : list Z :=
  match a, t with
  | x :: a', t0 :: t1 :: t' =>
      let '(lo, hi) := umull x x in
      let '(d0, ee) := addcarry_u64 lo t0 cc in
      let '(d1, ee) := addcarry_u64 hi t1 ee in
      d0 :: d1 :: addsq_loop a' t' ee
  | _, _ => []
  end.

(* the double-width square, fp_gen.rs:317-362 *)
Definition wide_square (a : fp) : list Z :=
  match a with
  | f :: ((x1 :: a2) as a1) =>
      (* t[0] = 0; t[1..N] from the first row; t[N] carry; rest zero *)
      let '(d, cc) := umull f x1 in
      let '(ds, co) := row_first f a2 cc in
      let t := d :: ds ++ co :: repeat 0 (NLIMBS - 1) in       (* t[1 .. 2N-1] *)
      (* rows i >= 1 act from index 3 on *)
      let t := match t with
               | u1 :: u2 :: us => u1 :: u2 :: sq_rows a1 us
               | _ => t
               end in
      (* double t[1 .. 2N-2], then t[2N-1] = carry *)
      let '(ds, cc) := dbl_loop (firstn (2 * NLIMBS - 2) t) 0 in
      addsq_loop a (0 :: ds ++ [cc]) 0
  | _ => []
  end.

(* fp_gen.rs:307-375 *)
Definition set_square (a : fp) : fp :=
  let t := wide_square a in
  let lo := set_montyred (firstn NLIMBS t) in
  let y := skipn NLIMBS t in
  set_add lo y.

(** ** Halving and small multiples *)

(* fp_gen.rs:390-400 *)
Fixpoint half_loop (a h : list Z) (mm cc : Z) : list Z :=
  match a, h with
  | x :: ((y :: _) as a'), z :: h' =>
      let '(d, ee) := addcarry_u64 (Z.lor (Z.shiftr x 1) (wshl y 63)) (Z.land mm z) cc in
      d :: half_loop a' h' mm ee
  | [x], z :: _ =>
      let '(d, _) := addcarry_u64 (Z.shiftr x 1) (Z.land mm z) cc in [d]
  | _, _ => []
  end.

(* fp_gen.rs:387-401 *)
Definition set_half (a : fp) : fp :=
  half_loop a HALF_MODULUS (wneg (Z.land (limb a 0) 1)) 0.

(* fp_gen.rs:417-424 *)
Fixpoint mul2_loop (a m : list Z) (tb cc : Z) : list Z * Z * Z :=
  match a, m with
  | w :: a', y :: m' =>
      let t := Z.lor (wshl w 1) tb in
      let '(d, ee) := subborrow_u64 t y cc in
      let '(ds, tb', cc') := mul2_loop a' m' (Z.shiftr w 63) ee in (d :: ds, tb', cc')
  | _, _ => ([], tb, cc)
  end.

(* fp_gen.rs:413-434 *)
Definition set_mul2 (a : fp) : fp :=
  let '(t, tb, cc) := mul2_loop a MODULUS 0 0 in
  addmask_loop t (wsub tb cc).

(* fp_gen.rs:446-449 *)
Definition set_mul3 (a : fp) : fp := set_add a (set_mul2 a).
(* fp_gen.rs:461-464 *)
Definition set_mul4 (a : fp) : fp := set_mul2 (set_mul2 a).
(* fp_gen.rs:476-480 *)
Definition set_mul8 (a : fp) : fp := set_mul2 (set_mul2 (set_mul2 a)).

(** ** Masks: zero test, equality, selection *)

(* fp_gen.rs:157-163 *)
Definition iszero (a : fp) : Z :=
  match a with
  | a0 :: a' =>
      let x := fold_left Z.lor a' a0 in
      lo32 (W64 - 1 - sgnw (Z.lor x (wneg x)))
  | [] => 0
  end.

Fixpoint xor_or (a b : list Z) (r : Z) : Z :=
  match a, b with
  | x :: a', y :: b' => xor_or a' b' (Z.lor r (Z.lxor x y))
  | _, _ => r
  end.

(* fp_gen.rs:168-174 *)
Definition equals (a b : fp) : Z :=
  let r := xor_or a b 0 in
  lo32 (lo32 (Z.shiftr (Z.lor r (wneg r)) 63) - 1).

(* the 64-bit mask made of a 32-bit control word, fp_gen.rs:593, 616, 638 *)
Definition ctl64 (ctl : Z) : Z := Z.lor ctl (wshl ctl 32).

(* fp_gen.rs:592-599, 605-609 *)
Fixpoint select_loop (c : Z) (a b : list Z) : list Z :=
  match a, b with
  | wa :: a', wb :: b' => Z.lxor wa (Z.land c (Z.lxor wa wb)) :: select_loop c a' b'
  | _, _ => []
  end.
Definition select (a b : fp) (ctl : Z) : fp := select_loop (ctl64 ctl) a b.

(* fp_gen.rs:615-622 *)
Definition set_cond (a rhs : fp) (ctl : Z) : fp := select_loop (ctl64 ctl) a rhs.

(* fp_gen.rs:628-631 *)
Definition set_condneg (a : fp) (ctl : Z) : fp := set_cond a (set_neg a) ctl.

(* fp_gen.rs:637-646 *)
Fixpoint condswap_loop (c : Z) (a b : list Z) : list Z * list Z :=
  match a, b with
  | wa :: a', wb :: b' =>
      let wc := Z.land c (Z.lxor wa wb) in
      let '(ra, rb) := condswap_loop c a' b' in
      (Z.lxor wa wc :: ra, Z.lxor wb wc :: rb)
  | _, _ => ([], [])
  end.
Definition condswap (a b : fp) (ctl : Z) : fp * fp := condswap_loop (ctl64 ctl) a b.

(** ** Conversions from integers *)

(* fp_gen.rs:148-153 *)
Definition from_u64 (x : Z) : fp := set_mul (x :: tl fp_zero) R2_VAL.
(* fp_gen.rs:142-144 *)
Definition from_u32 (x : Z) : fp := from_u64 x.
(* fp_gen.rs:122-128; the i32 argument is a [Z] in [-2^31, 2^31) *)
Definition from_i32 (x : Z) : fp :=
  let sx := lo32 (Z.shiftr x 31) in
  let ax := lo32 (Z.lxor (lo32 x) sx - sx) in
  set_condneg (from_u64 ax) sx.
(* fp_gen.rs:132-138; the i64 argument is a [Z] in [-2^63, 2^63) *)
Definition from_i64 (x : Z) : fp :=
  let sx := lo64 (Z.shiftr x 63) in
  let ax := lo64 (Z.lxor (lo64 x) sx - sx) in
  set_condneg (from_u64 ax) (lo32 sx).

(** ** Multiplication by a small signed integer, fp_gen.rs:492-578 *)

(* fp_gen.rs:498-504 (row_first already is the loop; the first product has no carry in) *)
Definition small_prod (a : fp) (ak : Z) : list Z * Z :=
  match a with
  | a0 :: a' =>
      let '(d, hi) := umull a0 ak in
      let '(ds, co) := row_first ak a' hi in (d :: ds, co)
  | [] => ([], 0)
  end.

(* fp_gen.rs:534-543 *)
Definition top_word (x : list Z) (hi : Z) : Z :=
  let bl := Z.land BITLEN 63 in
  if bl =? 0 then Z.lor (Z.shiftr (limb x (NLIMBS - 1)) 32) (wshl hi 32)
  else if bl <? 32 then Z.lor (wshl (limb x (NLIMBS - 1)) (32 - bl)) (Z.shiftr (limb x (NLIMBS - 2)) (32 + bl))
  else if bl =? 32 then limb x (NLIMBS - 1)
  else Z.lor (wshl hi (96 - bl)) (Z.shiftr (limb x (NLIMBS - 1)) (bl - 32)).

(* fp_gen.rs:555-561 *)
Fixpoint submul_loop (b : Z) (a m : list Z) (cc1 cc2 : Z) : list Z * Z * Z :=
  match a, m with
  | x :: a', y :: m' =>
      let '(d, ee) := umull_add b y cc1 in
      let '(d, ee2) := subborrow_u64 x d cc2 in
      let '(ds, c1, c2) := submul_loop b a' m' ee ee2 in (d :: ds, c1, c2)
  | _, _ => ([], cc1, cc2)
  end.

(* one pass of fp_gen.rs:566-573 *)
Definition addback (st : list Z * Z) : list Z * Z :=
  let '(x, hi) := st in
  let m := sgnw hi in
  let '(x, cc) := add_loop x (masked m MODULUS) 0 in
  (x, wadd hi cc).

(* fp_gen.rs:492-578 *)
Definition set_mul_small (a : fp) (k : Z) : fp :=
  let sk := lo32 (Z.shiftr k 31) in
  let ak := lo32 (Z.lxor (lo32 k) sk - sk) in
  let '(x, hi) := small_prod a ak in
  let x1 := top_word x hi in
  let '(_, t) := umull x1 P1DIV_M in
  let b := Z.shiftr (wadd (Z.shiftr (wsub x1 t) 1) t) 31 in
  let b := lo64 (b + Z.shiftr (wsub P1 b) 63) in
  let '(x, cc1, cc2) := submul_loop b x MODULUS 0 0 in
  let '(hi, _) := subborrow_u64 hi cc1 cc2 in
  let '(x, _) := iter 2 addback (x, hi) in
  set_condneg x sk.

(** ** Fused products, fp_gen.rs:1430-1500 and 1507-1572 *)

(* row [u + f*b], fp_gen.rs:1456-1459: the first product has no carry in *)
Definition row_acc (f : Z) (b u : list Z) : list Z * Z :=
  match b, u with
  | b0 :: b', u0 :: u' =>
      let '(d, cc) := umull_add f b0 u0 in
      let '(ds, co) := row_add2 f b' u' cc in (d :: ds, co)
  | _, _ => ([], 0)
  end.

(* one iteration, fp_gen.rs:1452-1483 *)
Definition sop_step (b1 b2 : fp) (u : list Z) (a1j a2j : Z) : list Z :=
  let '(u, c1) := row_acc a1j b1 u in
  let '(u, c2) := row_acc a2j b2 u in
  let extra := wadd (wadd 0 c1) c2 in
  match u, MODULUS with
  | u0 :: us, m0 :: ms =>
      let q := wmul u0 P0I in
      let '(_, cc) := umull_add q m0 u0 in
      let '(ds, hi) := row_add2 q ms us cc in
      ds ++ [wadd extra hi]
  | _, _ => u
  end.

Fixpoint sop_loop (a1 a2 : list Z) (b1 b2 : fp) (u : list Z) : list Z :=
  match a1, a2 with
  | x :: a1', y :: a2' => sop_loop a1' a2' b1 b2 (sop_step b1 b2 u x y)
  | _, _ => u
  end.

(* fp_gen.rs:1430-1500 *)
Definition sum_of_products (a1 b1 a2 b2 : fp) : fp :=
  let u := sop_loop a1 a2 b1 b2 fp_zero in
  let '(u, borrow) := sub_loop u MODULUS 0 in
  addmask_loop u (wneg borrow).

(* fp_gen.rs:1507-1572 *)
Definition difference_of_products (a1 b1 a2 b2 : fp) : fp :=
  let '(b2m, _) := sub_loop MODULUS b2 0 in
  let u := sop_loop a1 a2 b1 b2m fp_zero in
  let '(u, borrow) := sub_loop u MODULUS 0 in
  addmask_loop u (wneg borrow).

(** ** Byte encodings *)

(** [n] little-endian bytes of [x] (u64::to_le_bytes truncated to n) *)
Fixpoint le_bytes (n : nat) (x : Z) : list Z :=
  match n with O => [] | S n' => Z.land x 255 :: le_bytes n' (Z.shiftr x 8) end.

(** value of little-endian bytes (u64::from_le_bytes; loop 1317-1320) *)
Fixpoint of_le_bytes (l : list Z) : Z :=
  match l with [] => 0 | b :: l' => Z.lor b (Z.shiftl (of_le_bytes l') 8) end.

(* fp_gen.rs:105: (BITLEN + 7) >> 3 = 162 *)
Definition ENCODED_LENGTH : nat := 162.

(* copying loop of fp_gen.rs:1301-1306: 8 bytes for each limb but the last, which gives the remaining [lastn] *)
Fixpoint enc_limbs (r : list Z) (lastn : nat) : list Z :=
  match r with
  | [] => []
  | [x] => le_bytes lastn x
  | x :: r' => le_bytes 8 x ++ enc_limbs r' lastn
  end.

(* fp_gen.rs:1297-1308 *)
Definition encode (a : fp) : list Z :=
  enc_limbs (set_montyred a) (ENCODED_LENGTH - (NLIMBS - 1) * 8).

(* fp_gen.rs:1311-1322: [n] full limbs, then the remaining bytes *)
Fixpoint dec_limbs (n : nat) (buf : list Z) : list Z :=
  match n with
  | O => [of_le_bytes buf]
  | S n' => of_le_bytes (firstn 8 buf) :: dec_limbs n' (skipn 8 buf)
  end.
Definition decode_nocheck (buf : list Z) : fp := dec_limbs (NLIMBS - 1) buf.

(* fp_gen.rs:1331-1354 *)
Definition decode (buf : list Z) : fp * Z :=
  if negb (Nat.eqb (length buf) ENCODED_LENGTH) then (fp_zero, 0)
  else
    let r := decode_nocheck buf in
    let '(_, cc) := sub_loop r MODULUS 0 in
    let m := wneg cc in
    (set_mul (masked m r) R2_VAL, lo32 m).

(* overwrite the first |src| entries of [dst] (copy_from_slice into a prefix) *)
Definition overwrite (src dst : list Z) : list Z := src ++ skipn (length src) dst.

(* fp_gen.rs:1370: 8 * (N - 1) = 160 *)
Definition CLEN : nat := 160.

(* the while loop of fp_gen.rs:1379-1386, with [k] chunks of CLEN bytes left (n = k * CLEN) *)
Fixpoint decred_loop (k : nat) (buf tmp : list Z) (x : fp) : fp :=
  match k with
  | O => x
  | S k' =>
      let n := (k' * CLEN)%nat in
      let tmp := overwrite (firstn CLEN (skipn n buf)) tmp in
      let d := decode_nocheck tmp in
      decred_loop k' buf tmp (set_add (set_mul x TDEC_VAL) d)
  end.

(* fp_gen.rs:1362-1389 *)
Definition decode_reduce (buf : list Z) : fp :=
  let n := length buf in
  if Nat.eqb n 0 then fp_zero
  else
    let nn := let r := Nat.modulo n CLEN in if Nat.eqb r 0 then CLEN else r in
    let n := (n - nn)%nat in
    let tmp := overwrite (skipn n buf) (repeat 0 ENCODED_LENGTH) in
    let x := decode_nocheck tmp in
    set_mul (decred_loop (Nat.div n CLEN) buf tmp x) R2_VAL.

(* fp_gen.rs:1421-1423 *)
Definition hashcode (a : fp) : Z := limb a 0.

(** ** Exponentiation, fp_gen.rs:1086-1100; [None] is the out-of-bounds panic on [e[i >> 3]] *)
Fixpoint pow_loop (x : fp) (e : list Z) (eoff : nat) (n : nat) (acc : fp) : option fp :=
  match n with
  | O => Some acc
  | S n' =>
      let i := (eoff + n')%nat in
      match nth_error e (Nat.div i 8) with
      | None => None
      | Some byte =>
          let y := set_mul acc x in
          let ctl := lo32 (- (Z.land (Z.shiftr byte (Z.of_nat (Nat.modulo i 8))) 1)) in
          let acc := set_cond acc y ctl in
          match n' with
          | O => Some acc
          | S _ => pow_loop x e eoff n' (set_square acc)
          end
      end
  end.
Definition set_pow_ext (a : fp) (e : list Z) (eoff ebitlen : nat) : option fp :=
  pow_loop a e eoff ebitlen fp_one.
(* fp_gen.rs:1079-1081, 1105-1109 *)
Definition pow (a : fp) (e : list Z) (ebitlen : nat) : option fp := set_pow_ext a e 0 ebitlen.

(** num-bigint: BigUint::to_bytes_le (minimal length, [0] for zero) and BigUint::bits. *)
Definition big_bits (e : Z) : nat := if e =? 0 then 0%nat else Z.to_nat (Z.log2 e + 1).
Definition big_to_bytes_le (e : Z) : list Z :=
  if e =? 0 then [0] else le_bytes (Nat.div (big_bits e + 7) 8) e.
(* fp_gen.rs:1113-1117 *)
Definition pow_big (a : fp) (e : Z) : option fp := pow a (big_to_bytes_le e) (big_bits e).

(** ** Square roots, fp_gen.rs:958-1002, 1020-1064 *)

(* window: ww[i] = x^(i+1), fp_gen.rs:960-968.  [mk_window n w] extends [w] (so far length i) to length i+n. *)
Fixpoint mk_window (n : nat) (w : list fp) : list fp :=
  match n with
  | O => w
  | S n' =>
      let i := length w in
      let x := nth 0 w fp_zero in
      let next := if Nat.even (i + 1) then set_square (nth (Nat.div i 2) w fp_zero)
                  else set_mul x (nth (i - 1) w fp_zero) in
      mk_window n' (w ++ [next])
  end.

(* one digit of fp_gen.rs:974-981 *)
Definition win_digit (ww : list fp) (acc : fp) (d : Z) : fp :=
  let acc := iter WIN_LEN set_square acc in
  if d =? 0 then acc else set_mul acc (nth (Z.to_nat d - 1) ww fp_zero).

(* fp_gen.rs:973-985: top digit, remaining digits from the top, then squarings *)
Definition win_pow (eh : list Z) (el : nat) (a : fp) : fp :=
  let ww := mk_window (Nat.pow 2 WIN_LEN - 2) [a] in
  match rev eh with
  | [] => fp_zero
  | top :: rest =>
      let acc := nth (Z.to_nat top - 1) ww fp_zero in
      let acc := fold_left (win_digit ww) rest acc in
      iter (WIN_LEN * el) set_square acc
  end.

(* fp_gen.rs:990-1001: clear on failure, normalise the sign by the low bit of the encoding *)
Definition root_finish (root : fp) (r : Z) : fp :=
  let root := masked (ctl64 r) root in
  let ctl := lo32 (- (Z.land (nth 0 (encode root) 0) 1)) in
  set_condneg root ctl.

(* fp_gen.rs:958-1013 *)
Definition sqrt (a : fp) : fp * Z :=
  let s := win_pow SQRT_EH SQRT_EL a in
  let r := equals (set_square s) a in
  (root_finish s r, r).

(* fp_gen.rs:1020-1075 *)
Definition fourth_root (a : fp) : fp * Z :=
  let s := win_pow FOURTH_ROOT_EH FOURTH_ROOT_EL a in
  let r := equals (set_square (set_square s)) a in
  (root_finish s r, r).

(** ** Division, fp_gen.rs:652-951 *)

(* umull_x2_add row, fp_gen.rs:661-667 (the first word uses umull_x2, i.e. a zero addend) *)
Fixpoint row_x2 (f g : Z) (u v : list Z) (cc : Z) : list Z * Z :=
  match u, v with
  | x :: u', y :: v' =>
      let '(d, hi) := umull_x2_add x f y g cc in
      let '(ds, co) := row_x2 f g u' v' hi in (d :: ds, co)
  | _, _ => ([], cc)
  end.

(* fp_gen.rs:652-697 *)
Definition set_montylin (u v : fp) (f g : Z) : fp :=
  let sf := sgnw f in
  let f := wsub (Z.lxor f sf) sf in
  let tu := select u (set_neg u) (lo32 sf) in
  let sg := sgnw g in
  let g := wsub (Z.lxor g sg) sg in
  let tv := select v (set_neg v) (lo32 sg) in
  match tu, tv with
  | u0 :: u', v0 :: v' =>
      let '(d, cc) := umull_x2 u0 f v0 g in
      let '(ds, up) := row_x2 f g u' v' cc in
      match MODULUS with
      | m0 :: ms =>
          let k := wmul d P0I in
          let '(_, cc) := umull_add k m0 d in
          let '(ds, cc) := row_add2 k ms ds cc in
          let '(d, cc1) := addcarry_u64 up cc 0 in
          let t := ds ++ [d] in
          let '(t, cc2) := sub_loop t MODULUS 0 in
          addmask_loop t (wsub cc1 cc2)
      | [] => []
      end
  | _, _ => []
  end.

(* fp_gen.rs:725-736 *)
Fixpoint lin_loop (a b : list Z) (f g sf sg cc1 cc2 cc3 : Z) : list Z * Z * Z * Z :=
  match a, b with
  | x :: a', y :: b' =>
      let '(d1, ee1) := subborrow_u64 (Z.lxor x sf) sf cc1 in
      let '(d2, ee2) := subborrow_u64 (Z.lxor y sg) sg cc2 in
      let '(d3, hi3) := umull_x2_add d1 f d2 g cc3 in
      let '(ds, c1, c2, c3) := lin_loop a' b' f g sf sg ee1 ee2 hi3 in
      (d3 :: ds, c1, c2, c3)
  | _, _ => ([], cc1, cc2, cc3)
  end.

(* fp_gen.rs:742-745 *)
Fixpoint shr31_loop (t : list Z) (up : Z) : list Z :=
  match t with
  | x :: ((y :: _) as t') => Z.lor (Z.shiftr x 31) (wshl y 33) :: shr31_loop t' up
  | [x] => [Z.lor (Z.shiftr x 31) (wshl up 33)]
  | [] => []
  end.

(* fp_gen.rs:750-754 *)
Fixpoint condneg_loop (t : list Z) (w cc : Z) : list Z :=
  match t with
  | x :: t' =>
      let '(d, ee) := subborrow_u64 (Z.lxor x w) w cc in
      d :: condneg_loop t' w ee
  | [] => []
  end.

(* fp_gen.rs:716-757, 760-764 *)
Definition lindiv31abs (a b : fp) (f g : Z) : fp * Z :=
  let sf := sgnw f in
  let f := wsub (Z.lxor f sf) sf in
  let sg := sgnw g in
  let g := wsub (Z.lxor g sg) sg in
  let '(t, cc1, cc2, cc3) := lin_loop a b f g sf sg 0 0 0 in
  let up := wsub (wsub cc3 (Z.land (wneg cc1) f)) (Z.land (wneg cc2) g) in
  let t := shr31_loop t up in
  let w := sgnw up in
  (condneg_loop t w 0, w).

(** State of the approximation loop, fp_gen.rs:808-824. *)
Record apx := Apx { c_hi : Z; c_lo : Z; a_hi : Z; a_lo : Z; b_hi : Z; b_lo : Z }.

Definition apx_init : apx := Apx (W64 - 1) (W64 - 1) 0 0 0 0.

Definition apx_step (s : apx) (ab : Z * Z) : apx :=
  let '(aw, bw) := ab in
  let ah := Z.lxor (a_hi s) (Z.land (Z.lxor (a_hi s) aw) (c_hi s)) in
  let al := Z.lxor (a_lo s) (Z.land (Z.lxor (a_lo s) aw) (c_lo s)) in
  let bh := Z.lxor (b_hi s) (Z.land (Z.lxor (b_hi s) bw) (c_hi s)) in
  let bl := Z.lxor (b_lo s) (Z.land (Z.lxor (b_lo s) bw) (c_lo s)) in
  let cl := c_hi s in
  let mw := Z.lor aw bw in
  let ch := Z.land (c_hi s) (wsub (Z.shiftr (Z.lor mw (wneg mw)) 63) 1) in
  Apx ch cl ah al bh bl.

Definition LO31 : Z := 0x000000007FFFFFFF.
Definition HI33 : Z := 0xFFFFFFFF80000000.

(* fp_gen.rs:808-840 *)
Definition approx (a b : fp) : Z * Z :=
  let s := fold_left apx_step (rev (combine a b)) apx_init in
  let sh := lzcnt (Z.lor (a_hi s) (b_hi s)) in
  let xa := Z.lor (wshl (a_hi s) sh) (Z.shiftr (Z.shiftr (a_lo s) 1) (63 - sh)) in
  let xb := Z.lor (wshl (b_hi s) sh) (Z.shiftr (Z.shiftr (b_lo s) 1) (63 - sh)) in
  let xa := Z.lor (Z.land xa HI33) (Z.land (limb a 0) LO31) in
  let xb := Z.lor (Z.land xb HI33) (Z.land (limb b 0) LO31) in
  (Z.lxor xa (Z.land (c_lo s) (Z.lxor xa (limb a 0))),
   Z.lxor xb (Z.land (c_lo s) (Z.lxor xb (limb b 0)))).

(* one inner iteration, fp_gen.rs:846-858; state (xa, xb, fg0, fg1) *)
Definition inner_step (st : Z * Z * Z * Z) : Z * Z * Z * Z :=
  let '(xa, xb, fg0, fg1) := st in
  let a_odd := wneg (Z.land xa 1) in
  let '(_, cc) := subborrow_u64 xa xb 0 in
  let swap := Z.land a_odd (wneg cc) in
  let t1 := Z.land swap (Z.lxor xa xb) in
  let xa := Z.lxor xa t1 in
  let xb := Z.lxor xb t1 in
  let t2 := Z.land swap (Z.lxor fg0 fg1) in
  let fg0 := Z.lxor fg0 t2 in
  let fg1 := Z.lxor fg1 t2 in
  let xa := wsub xa (Z.land a_odd xb) in
  let fg0 := wsub fg0 (Z.land a_odd fg1) in
  (Z.shiftr xa 1, xb, fg0, wshl fg1 1).

(* unpacking of the two 32-bit lanes, fp_gen.rs:860-865 *)
Definition LANES : Z := 0x7FFFFFFF7FFFFFFF.
Definition unpack (fg : Z) : Z * Z :=
  let fg := wadd fg LANES in
  (wsub (Z.land fg 0xFFFFFFFF) 0x7FFFFFFF, wsub (Z.shiftr fg 32) 0x7FFFFFFF).

(* one outer iteration, fp_gen.rs:801-880; state (a, b, u, v) *)
Definition outer_step (st : fp * fp * fp * fp) : fp * fp * fp * fp :=
  let '(a, b, u, v) := st in
  let '(xa, xb) := approx a b in
  let '(_, _, fg0, fg1) := iter 31 inner_step (xa, xb, 1, wshl 1 32) in
  let '(f0, g0) := unpack fg0 in
  let '(f1, g1) := unpack fg1 in
  let '(na, nega) := lindiv31abs a b f0 g0 in
  let '(nb, negb) := lindiv31abs a b f1 g1 in
  let f0 := wsub (Z.lxor f0 nega) nega in
  let g0 := wsub (Z.lxor g0 nega) nega in
  let f1 := wsub (Z.lxor f1 negb) negb in
  let g1 := wsub (Z.lxor g1 negb) negb in
  (na, nb, set_montylin u v f0 g0, set_montylin u v f1 g1).

(* one iteration of the last loop, fp_gen.rs:897-914; state (xa, xb, f0, g0, f1, g1) *)
Definition final_step (st : Z * Z * Z * Z * Z * Z) : Z * Z * Z * Z * Z * Z :=
  let '(xa, xb, f0, g0, f1, g1) := st in
  let a_odd := wneg (Z.land xa 1) in
  let '(_, cc) := subborrow_u64 xa xb 0 in
  let swap := Z.land a_odd (wneg cc) in
  let t1 := Z.land swap (Z.lxor xa xb) in
  let xa := Z.lxor xa t1 in
  let xb := Z.lxor xb t1 in
  let t2 := Z.land swap (Z.lxor f0 f1) in
  let f0 := Z.lxor f0 t2 in
  let f1 := Z.lxor f1 t2 in
  let t3 := Z.land swap (Z.lxor g0 g1) in
  let g0 := Z.lxor g0 t3 in
  let g1 := Z.lxor g1 t3 in
  let xa := wsub xa (Z.land a_odd xb) in
  let f0 := wsub f0 (Z.land a_odd f1) in
  let g0 := wsub g0 (Z.land a_odd g1) in
  (Z.shiftr xa 1, xb, f0, g0, wshl f1 1, wshl g1 1).

(* fp_gen.rs:800, 882 with BITLEN = 1293 *)
Definition NUM1 : nat := Z.to_nat ((2 * BITLEN - 34) / 31).
Definition NUM2 : nat := Z.to_nat (2 * BITLEN - 31 * ((2 * BITLEN - 34) / 31) - 2).

(* fp_gen.rs:768-939 *)
Definition set_div (x y : fp) : fp :=
  let '(a, b, u, v) := iter NUM1 outer_step (y, MODULUS, x, fp_zero) in
  let '(_, _, _, _, f1, g1) := iter NUM2 final_step (limb a 0, limb b 0, 1, 0, 0, 1) in
  let r := set_montylin u v f1 g1 in
  let w := wnot32 (iszero y) in
  let w := Z.lor (wshl w 32) w in
  set_mul (masked w r) TFIXDIV_VAL.

(* fp_gen.rs:947-951 *)
Definition invert (a : fp) : fp := set_div fp_one a.

(** ** Legendre symbol, fp_gen.rs:1132-1292 *)

(* fp_gen.rs:1191-1205; state (xa, xb, fg0, fg1, ls) *)
Definition leg_step1 (st : Z * Z * Z * Z * Z) : Z * Z * Z * Z * Z :=
  let '(xa, xb, fg0, fg1, ls) := st in
  let a_odd := wneg (Z.land xa 1) in
  let '(_, cc) := subborrow_u64 xa xb 0 in
  let swap := Z.land a_odd (wneg cc) in
  let ls := Z.lxor ls (Z.land swap (Z.shiftr (Z.land xa xb) 1)) in
  let t1 := Z.land swap (Z.lxor xa xb) in
  let xa := Z.lxor xa t1 in
  let xb := Z.lxor xb t1 in
  let t2 := Z.land swap (Z.lxor fg0 fg1) in
  let fg0 := Z.lxor fg0 t2 in
  let fg1 := Z.lxor fg1 t2 in
  let xa := wsub xa (Z.land a_odd xb) in
  let fg0 := wsub fg0 (Z.land a_odd fg1) in
  let xa := Z.shiftr xa 1 in
  let fg1 := wshl fg1 1 in
  (xa, xb, fg0, fg1, Z.lxor ls (Z.shiftr (wadd xb 2) 2)).

(* fp_gen.rs:1225-1244; state (xa, xb, fg0, fg1, a0, b0, ls) *)
Definition leg_step2 (st : Z * Z * Z * Z * Z * Z * Z) : Z * Z * Z * Z * Z * Z * Z :=
  let '(xa, xb, fg0, fg1, a0, b0, ls) := st in
  let a_odd := wneg (Z.land xa 1) in
  let '(_, cc) := subborrow_u64 xa xb 0 in
  let swap := Z.land a_odd (wneg cc) in
  let ls := Z.lxor ls (Z.land swap (Z.shiftr (Z.land a0 b0) 1)) in
  let t1 := Z.land swap (Z.lxor xa xb) in
  let xa := Z.lxor xa t1 in
  let xb := Z.lxor xb t1 in
  let t2 := Z.land swap (Z.lxor fg0 fg1) in
  let fg0 := Z.lxor fg0 t2 in
  let fg1 := Z.lxor fg1 t2 in
  let t3 := Z.land swap (Z.lxor a0 b0) in
  let a0 := Z.lxor a0 t3 in
  let b0 := Z.lxor b0 t3 in
  let xa := wsub xa (Z.land a_odd xb) in
  let fg0 := wsub fg0 (Z.land a_odd fg1) in
  let a0 := wsub a0 (Z.land a_odd b0) in
  let xa := Z.shiftr xa 1 in
  let fg1 := wshl fg1 1 in
  let a0 := Z.shiftr a0 1 in
  (xa, xb, fg0, fg1, a0, b0, Z.lxor ls (Z.shiftr (wadd b0 2) 2)).

(* fp_gen.rs:1146-1261; state (a, b, ls) *)
Definition leg_outer (st : fp * fp * Z) : fp * fp * Z :=
  let '(a, b, ls) := st in
  let '(xa, xb) := approx a b in
  let '(xa, xb, fg0, fg1, ls) := iter 29 leg_step1 (xa, xb, 1, wshl 1 32, ls) in
  let '(f0, g0) := unpack fg0 in
  let '(f1, g1) := unpack fg1 in
  let a0 := Z.shiftr (wadd (wmul (limb a 0) f0) (wmul (limb b 0) g0)) 29 in
  let b0 := Z.shiftr (wadd (wmul (limb a 0) f1) (wmul (limb b 0) g1)) 29 in
  let '(_, _, fg0, fg1, _, _, ls) := iter 2 leg_step2 (xa, xb, fg0, fg1, a0, b0, ls) in
  let '(f0, g0) := unpack fg0 in
  let '(f1, g1) := unpack fg1 in
  let '(na, nega) := lindiv31abs a b f0 g0 in
  let '(nb, _) := lindiv31abs a b f1 g1 in
  (na, nb, Z.lxor ls (Z.land nega (Z.shiftr (limb nb 0) 1))).

(* fp_gen.rs:1274-1283; state (xa, xb, ls) *)
Definition leg_final (st : Z * Z * Z) : Z * Z * Z :=
  let '(xa, xb, ls) := st in
  let a_odd := wneg (Z.land xa 1) in
  let '(_, cc) := subborrow_u64 xa xb 0 in
  let swap := Z.land a_odd (wneg cc) in
  let ls := Z.lxor ls (Z.land swap (Z.shiftr (Z.land xa xb) 1)) in
  let t1 := Z.land swap (Z.lxor xa xb) in
  let xa := Z.lxor xa t1 in
  let xb := Z.lxor xb t1 in
  let xa := wsub xa (Z.land a_odd xb) in
  let xa := Z.shiftr xa 1 in
  (xa, xb, Z.lxor ls (Z.shiftr (wadd xb 2) 2)).

(** reinterpretation of a u32 as an i32 *)
Definition to_i32 (x : Z) : Z := if x <? 2147483648 then x else x - W32.

(* fp_gen.rs:1132-1292 *)
Definition legendre (x : fp) : Z :=
  let '(a, b, ls) := iter NUM1 leg_outer (x, MODULUS, 0) in
  let '(_, _, ls) := iter NUM2 leg_final (limb a 0, limb b 0, ls) in
  let r := lo32 (1 - wshl (Z.land (lo32 ls) 1) 1) in
  to_i32 (Z.land r (wnot32 (iszero x))).
