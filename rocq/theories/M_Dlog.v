(** Model of src/discrete_log.rs (everything except bidlp, which is in M_Pairing).
    Conventions: BigUint/BigInt are [Z]; u32 values are [Z] in [0,2^32); [None] is a panic; [checks] is true for builds with
    overflow checks and debug assertions, false for release builds. *)
From Coq Require Import ZArith List Bool.
From Verif Require Import M_Utils64 M_Fp M_Fp2.
Import ListNotations.
Open Scope Z_scope.

(** src/discrete_log.rs:20-25, the [while n != 0] loop, on (m, n, s1, s2); t1 and t2 do not influence the result and are left out.
    BigInt division truncates, hence [Z.quot].  [None] here means that the fuel ran out (shown impossible). *)
Fixpoint xgcd_loop (fuel : nat) (m n s1 s2 : Z) : option Z :=
  if n =? 0 then Some s1 else
  match fuel with
  | O => None
  | S f => let q := Z.quot m n in let r := m - q * n in xgcd_loop f n r s2 (s1 - q * s2)
  end.
(** src/discrete_log.rs:11-35.  The reduction [s1 % b] panics for b = 0. *)
Definition xgcd_big (a b : Z) : option Z :=
  let '(m, n, s1, s2) := if a <? b then (b, a, 0, 1) else (a, b, 1, 0) in
  match xgcd_loop (2 * Z.to_nat (Z.log2_up (n + 1)) + 2) m n s1 s2 with
  | None => None
  | Some s => if b =? 0 then None else let s := Z.rem s b in Some (if s <? 0 then s + b else s)
  end.

(** BigUint::from(l).pow(e) *)
Definition bpow (le : Z * Z) : Z := fst le ^ snd le.
(** src/discrete_log.rs:40-44 *)
Definition crt_modulus (fs : list (Z * Z)) : Z := fold_left (fun s le => s * bpow le) fs 1.
(** src/discrete_log.rs:48-53 *)
Definition crt_cofactor (l : Z) (fs : list (Z * Z)) : Z := fold_left (fun s le => if fst le =? l then s else s * bpow le) fs 1.
(** src/discrete_log.rs:46-56; a missing remainder is an index panic, a zero modulus a division panic *)
Fixpoint crt_loop (rs : list Z) (todo fs : list (Z * Z)) (modulus result : Z) {struct todo} : option Z :=
  match todo with
  | [] => Some result
  | (l, e) :: todo' =>
      match xgcd_big (crt_cofactor l fs) (bpow (l, e)), rs with
      | Some ci, r :: rs' => if modulus =? 0 then None else crt_loop rs' todo' fs modulus ((result + r * ci * crt_cofactor l fs) mod modulus)
      | _, _ => None
      end
  end.
(** src/discrete_log.rs:38-58 *)
Definition compute_crt (rs : list Z) (fs : list (Z * Z)) : option Z := crt_loop rs fs fs (crt_modulus fs) 0.

(** u32 addition, multiplication and subtraction: wrap around, or panic when checks are on *)
Definition u32_op (checks : bool) (v : Z) : option Z :=
  if (0 <=? v) && (v <? 4294967296) then Some v else if checks then None else Some (v mod 4294967296).

(** src/discrete_log.rs:67-77, the bisection; Some (inl x) is the early return.  [None] is a panic or fuel exhaustion (shown impossible
    with 33 rounds: b - f halves each time). *)
Fixpoint sqrt_loop (checks : bool) (n : Z) (fuel : nat) (f b : Z) : option (Z + Z * Z) :=
  match u32_op checks (f + 1) with
  | None => None
  | Some f1 =>
      if f1 <? b then
        match fuel with
        | O => None
        | S fuel' =>
            match u32_op checks (f + b) with
            | None => None
            | Some fb =>
                let x := fb / 2 in
                let sqr := x * x in
                if n <? sqr then sqrt_loop checks n fuel' f x else if sqr <? n then sqrt_loop checks n fuel' x b else Some (inl x)
            end
        end
      else Some (inr (f, b))
  end.
(** src/discrete_log.rs:61-84 *)
Definition sqrt_floor (checks : bool) (n : Z) : option Z :=
  if n =? 1 then Some 1 else
  match sqrt_loop checks n 33 0 n with
  | None => None
  | Some (inl x) => Some x
  | Some (inr (f, b)) => match u32_op checks (b * b) with None => None | Some bb => if bb =? n then Some b else Some f end
  end.

(** src/discrete_log.rs:89-94: the table [(i, alpha^i)] and alpha^m *)
Fixpoint bsgs_table (alpha : fp2) (n : nat) (i : Z) (gamma : fp2) : list (Z * fp2) * fp2 :=
  match n with
  | O => ([], gamma)
  | S n' => let '(t, g) := bsgs_table alpha n' (i + 1) (f2_mul gamma alpha) in ((i, gamma) :: t, g)
  end.
(** src/discrete_log.rs:98-104; the final [None] is the panic "No bsgs solution"; [% order] panics for order = 0 *)
Fixpoint bsgs_search (checks : bool) (table : list (Z * fp2)) (minv : fp2) (m order : Z) (n : nat) (i : Z) (target : fp2) : option Z :=
  match n with
  | O => None
  | S n' =>
      match find (fun jv => negb (f2_equals (snd jv) target =? 0)) table with
      | Some (j, _) =>
          match u32_op checks (i * m) with
          | None => None
          | Some im => match u32_op checks (im + j) with None => None | Some v => if order =? 0 then None else Some (v mod order) end
          end
      | None => bsgs_search checks table minv m order n' (i + 1) (f2_mul target minv)
      end
  end.
(** src/discrete_log.rs:87-106 *)
Definition bsgs (checks : bool) (beta alpha : fp2) (order : Z) : option Z :=
  match sqrt_floor checks order with
  | None => None
  | Some s =>
      match u32_op checks (s + 1) with
      | None => None
      | Some m =>
          let '(t, g) := bsgs_table alpha (Z.to_nat m) 0 f2_one in
          bsgs_search checks t (f2_invert g) m order (Z.to_nat m) 0 beta
      end
  end.

(** [for _ in 0..n { g = g.pow_small(l); }] *)
Definition pow_small_iter (l n : Z) (g : fp2) : option fp2 :=
  Z.iter n (fun o => match o with None => None | Some h => f2_pow_small h l end) (Some g).
(** debug_assert!(x^l == 1) *)
Definition is_one (x : fp2) : bool := negb (f2_equals x f2_one =? 0).
(** src/discrete_log.rs:124-140 with x, l_i, and i counted through the remaining rounds [n] (so e - 1 - i = n - 1) *)
Fixpoint ph_loop (checks : bool) (beta alpha gamma : fp2) (l : Z) (n : nat) (x li : Z) : option Z :=
  match n with
  | O => Some x
  | S n' =>
      match f2_pow_big alpha x with
      | None => None
      | Some ax =>
          match pow_small_iter l (Z.of_nat n') (f2_mul beta (f2_invert ax)) with
          | None => None
          | Some h =>
              match f2_pow_small h l with
              | None => None
              | Some hl =>
                  if checks && negb (is_one hl) then None else
                  match bsgs checks h gamma l with
                  | None => None
                  | Some d =>
                      match f2_pow_small gamma d with
                      | None => None
                      | Some gd => if checks && (f2_equals gd h =? 0) then None else ph_loop checks beta alpha gamma l n' (x + li * d) (li * l)
                      end
                  end
              end
          end
      end
  end.
(** src/discrete_log.rs:110-143.  [e - 1] underflows for e = 0: panic with checks, 2^32 - 1 iterations without.
    Debug assertions are evaluated also without checks in the model but then have no effect (pow_small never fails, see L_Fp2Misc). *)
Definition ph_dlp_power (checks : bool) (beta alpha : fp2) (l e : Z) : option Z :=
  match u32_op checks (e - 1) with
  | None => None
  | Some e1 =>
      match pow_small_iter l e1 alpha with
      | None => None
      | Some gamma =>
          match f2_pow_small gamma l with
          | None => None
          | Some gl => if checks && negb (negb (is_one gamma) && is_one gl) then None else ph_loop checks beta alpha gamma l (Z.to_nat e) 0 1
          end
      end
  end.

(** src/discrete_log.rs:152-159: raising to all the listed prime powers with another prime *)
Fixpoint ph_clear (l : Z) (fs : list (Z * Z)) (g : fp2) : option fp2 :=
  match fs with
  | [] => Some g
  | (l1, e1) :: fs' => if l1 =? l then ph_clear l fs' g else match pow_small_iter l1 e1 g with None => None | Some g' => ph_clear l fs' g' end
  end.
(** src/discrete_log.rs:148-162 *)
Fixpoint ph_parts (checks : bool) (beta alpha : fp2) (todo fs : list (Z * Z)) : option (list Z) :=
  match todo with
  | [] => Some []
  | (l, e) :: todo' =>
      match ph_clear l fs alpha, ph_clear l fs beta with
      | Some a, Some b =>
          match ph_dlp_power checks b a l e with
          | None => None
          | Some x => match ph_parts checks beta alpha todo' fs with None => None | Some xs => Some (x :: xs) end
          end
      | _, _ => None
      end
  end.
(** src/discrete_log.rs:147-165 *)
Definition ph_dlp (checks : bool) (beta alpha : fp2) (fs : list (Z * Z)) : option Z :=
  match ph_parts checks beta alpha fs fs with None => None | Some xs => compute_crt xs fs end.
