(** Model of src/eccore.rs (macro define_ec_core) over any field implementation [o] (M_Field.v).
    [None] is a panic; u32 masks are booleans; &mut results are returned.  No proofs in this file. *)
From Coq Require Import ZArith List Bool.
From Verif Require Import M_Fp M_Field.
Import ListNotations.

(* eccore.rs:30-34, 156-159, 199-202, 796-800, 825-828, 856-859 *)
Record point (F : Type) : Type := mkPoint { pX : F; pY : F; pZ : F }.
Record pointx (F : Type) : Type := mkPointX { xX : F; xZ : F }.
Record curve (F : Type) : Type := mkCurve { cA : F; cA24 : F }.
Record isomorphism (F : Type) : Type := mkIso { iu : F; iv : F; iw : F }.
Record couple (F : Type) : Type := mkCouple { c1 : point F; c2 : point F }.
Record eprod (F : Type) : Type := mkEprod { e1 : curve F; e2 : curve F }.
Arguments mkPoint {F}. Arguments pX {F}. Arguments pY {F}. Arguments pZ {F}.
Arguments mkPointX {F}. Arguments xX {F}. Arguments xZ {F}.
Arguments mkCurve {F}. Arguments cA {F}. Arguments cA24 {F}.
Arguments mkIso {F}. Arguments iu {F}. Arguments iv {F}. Arguments iw {F}.
Arguments mkCouple {F}. Arguments c1 {F}. Arguments c2 {F}. Arguments mkEprod {F}. Arguments e1 {F}. Arguments e2 {F}.

Section Curve.
Context {F : Type} (o : fops F).
Local Infix "+" := (fadd o). Local Infix "-" := (fsub o). Local Infix "*" := (fmul o). Local Infix "/" := (fdiv o).

(** ** Points, eccore.rs:36-121 *)
Definition infinity : point F := mkPoint (fzero o) (fone o) (fzero o).
Definition new_xy (x y : F) : point F := mkPoint x y (fone o).
Definition isinfinity (P : point F) : bool := fis0 o (pZ P).
Definition to_xy_vartime (P : point F) : option (F * F) :=
  if fis0 o (pZ P) then None else let t := finv o (pZ P) in Some (pX P * t, pY P * t).
Definition to_xy (P : point F) : F * F := let t := finv o (pZ P) in (pX P * t, pY P * t).
Definition to_xz (P : point F) : F * F := (pX P, pZ P).
Definition to_xyz (P : point F) : F * F * F := (pX P, pY P, pZ P).
Definition p_set_cond (P Q : point F) (ctl : bool) : point F :=
  mkPoint (fcond o (pX P) (pX Q) ctl) (fcond o (pY P) (pY Q) ctl) (fcond o (pZ P) (pZ Q) ctl).
Definition p_neg (P : point F) : point F := mkPoint (pX P) (fneg o (pY P)) (pZ P).
Definition p_condneg (P : point F) (ctl : bool) : point F := mkPoint (pX P) (fcneg o (pY P) ctl) (pZ P).
Definition p_equals (P Q : point F) : bool :=
  let lz := fis0 o (pZ P) in let rz := fis0 o (pZ Q) in
  let vx := feqb o (pX P * pZ Q) (pX Q * pZ P) in
  let vy := feqb o (pY P * pZ Q) (pY Q * pZ P) in
  (lz && rz) || (negb lz && negb rz && vx && vy).

(* eccore.rs:161-194 *)
Definition x_infinity : pointx F := mkPointX (fzero o) (fzero o).
Definition x_isinfinity (P : pointx F) : bool := fis0 o (xZ P).
Definition x_equals (P Q : pointx F) : bool :=
  let inf1 := x_isinfinity P in let inf2 := x_isinfinity Q in
  let e := feqb o (xX P * xZ Q) (xX Q * xZ P) in
  (inf1 && inf2) || (negb inf1 && negb inf2 && e).

(** ** Curves *)
(* eccore.rs:206-216: the two assertions panic in every build *)
Definition curve_new (A : F) : option (curve F) :=
  if feqb o A (ftwo o) then None
  else if fis0 o (A + ftwo o) then None
  else Some (mkCurve A (fhalf o (fhalf o (A + ftwo o)))).
(* eccore.rs:219-222 *)
Definition j_invariant (E : curve F) : F :=
  fpow_small o (ftwo o) 8 * fpow_small o (fsq o (cA E) - fthree o) 3 / (fsq o (cA E) - ffour o).
(* eccore.rs:253-261 *)
Definition set_xy (E : curve F) (x y : F) : point F * bool :=
  let t := x + cA E in
  let t := t * fsq o x in
  let t := t + x in
  let r := feqb o (fsq o y) t in
  (mkPoint x y (fcond o (fone o) (fzero o) (negb r)), r).
(* eccore.rs:268-277 *)
Definition set_xyz (E : curve F) (x y z : F) : point F * bool :=
  let t1 := fsq o (x + z) in
  let t1 := t1 + (cA E - ftwo o) * (x * z) in
  let t1 := t1 * x in
  let t2 := fsq o y * z in
  let r := feqb o t1 t2 || fis0 o z in
  (mkPoint x y (fcond o z (fzero o) (negb r)), r).
(* eccore.rs:280-289 *)
Definition on_curve (E : curve F) (P : point F) : bool :=
  if isinfinity P then true
  else let '(x, y) := to_xy P in feqb o (fsq o y) (x * (fsq o x + cA E * x + fone o)).
(* eccore.rs:318-338 *)
Definition point_xy_vartime (E : curve F) (x y : F) : option (point F) :=
  let '(P, r) := set_xy E x y in if r then Some P else None.
Definition point_xyz_vartime (E : curve F) (x y z : F) : option (point F) :=
  let '(P, r) := set_xyz E x y z in if r then Some P else None.

(* eccore.rs:341-430 (add_into, addto, add) *)
Definition add_pts (E : curve F) (P1 P2 : point F) : point F :=
  let x1z2 := pX P1 * pZ P2 in
  let x2z1 := pX P2 * pZ P1 in
  let T := x2z1 - x1z2 in
  let y1z2 := pY P1 * pZ P2 in
  let y2z1 := pY P2 * pZ P1 in
  let L := y2z1 - y1z2 in
  let dbl := fis0 o T && fis0 o L in
  let Td := fmul2 o (pY P1 * pZ P1) in
  let x1x1 := fsq o (pX P1) in
  let z1z1 := fsq o (pZ P1) in
  let dx1z1 := fsq o (pX P1 + pZ P1) - x1x1 - z1z1 in
  let Ld := fmul3 o x1x1 + z1z1 + cA E * dx1z1 in
  let T := fcond o T Td dbl in
  let L := fcond o L Ld dbl in
  let T2 := fsq o T in
  let T3 := T * T2 in
  let z1z2 := pZ P1 * pZ P2 in
  let U := fsq o L * z1z2 - (x1z2 + x2z1 + cA E * z1z2) * T2 in
  let P3 := mkPoint (U * T) (L * (x1z2 * T2 - U) - y1z2 * T3) (z1z2 * T3) in
  let inf1 := fis0 o (pZ P1) in
  let inf2 := fis0 o (pZ P2) in
  p_set_cond (p_set_cond P3 P2 inf1) P1 inf2.
(* eccore.rs:433-451 *)
Definition sub_pts (E : curve F) (P1 P2 : point F) : point F := add_pts E P1 (p_neg P2).

(* eccore.rs:454-477 *)
Definition double_from_coords (E : curve F) (X Y Z : F) : point F :=
  let xx := fsq o X in
  let zz := fsq o Z in
  let dxz := fsq o (X + Z) - xx - zz in
  let dyz := fmul2 o (Y * Z) in
  let v := xx - zz in
  let m := xx + zz in
  mkPoint (dyz * fsq o v) (v * (m * (m + cA E * dxz) + fsq o dxz)) (dyz * fsq o dyz).
(* eccore.rs:480-502 *)
Definition double_pt (E : curve F) (P : point F) : point F := double_from_coords E (pX P) (pY P) (pZ P).
(* eccore.rs:505-511 *)
Definition double_iter (E : curve F) (P : point F) (n : nat) : point F := Nat.iter n (double_pt E) P.

(** ** Montgomery ladder, eccore.rs:516-655; W0, W1 stand for the code's Z0, Z1 *)
(* eccore.rs:516-527 and 536-545 *)
Definition xdbl (E : curve F) (X Z : F) : F * F :=
  let V1 := fsq o (X + Z) in
  let V2 := fsq o (X - Z) in
  let X' := V1 * V2 in
  let V1 := V1 - V2 in
  let Z' := V1 * cA24 E in
  let Z' := Z' + V2 in
  (X', Z' * V1).
(* eccore.rs:548-561 *)
Definition xadd (Xp Zp X0 W0 X1 W1 : F) : F * F :=
  let V1 := (X0 - W0) * (X1 + W1) in
  let V2 := (X0 + W0) * (X1 - W1) in
  (Zp * fsq o (V1 + V2), Xp * fsq o (V1 - V2)).
(* eccore.rs:564-569 *)
Definition xadd_aff (Xp X0 W0 X1 W1 : F) : F * F :=
  let V1 := (X0 - W0) * (X1 + W1) in
  let V2 := (X0 + W0) * (X1 - W1) in
  (fsq o (V1 + V2), Xp * fsq o (V1 - V2)).
(* the loop variables X0, W0, X1, W1, cc *)
Definition lstate : Type := F * F * F * F * bool.
(* eccore.rs:586-593 and 595-602: one iteration; [dadd] is xadd or xadd_aff on the source point *)
Definition ladder_step (E : curve F) (dadd : F -> F -> F -> F -> F * F) (ctl : bool) (s : lstate) : lstate :=
  let '(X0, W0, X1, W1, cc) := s in
  let '(X0, X1) := fswap o X0 X1 (xorb ctl cc) in
  let '(W0, W1) := fswap o W0 W1 (xorb ctl cc) in
  let '(X1, W1) := dadd X0 W0 X1 W1 in
  let '(X0, W0) := xdbl E X0 W0 in
  (X0, W0, X1, W1, ctl).
(* for i in (0..nbitlen).rev(); [None]: n[i >> 3] out of bounds *)
Fixpoint ladder (E : curve F) (dadd : F -> F -> F -> F -> F * F) (n : list Z) (nbitlen : nat) (s : lstate) : option lstate :=
  match nbitlen with
  | O => Some s
  | S i =>
      match nth_error n (Nat.div i 8) with
      | None => None
      | Some b => ladder E dadd n i (ladder_step E dadd (Z.testbit b (Z.of_nat (Nat.modulo i 8))) s)
      end
  end.
(* eccore.rs:606-646: y recovery and special cases from the final X0, W0, X1, W1 *)
Definition ladder_finish (E : curve F) (P : point F) (n_odd : bool) (X0 W0 X1 W1 : F) : point F :=
  let dP := double_pt E P in
  let z0z := fis0 o W0 in
  let z1z := fis0 o W1 in
  let x1ex := feqb o (X1 * pZ P) (pX P * W1) in
  let xxzz := pX P * X0 + pZ P * W0 in
  let xpz0 := pX P * W0 in
  let x0zp := X0 * pZ P in
  let zz := pZ P * W0 in
  let zzdA := fmul2 o (cA E) * zz in
  let u := xxzz * (xpz0 + x0zp + zzdA) - zzdA * zz in
  let v := fmul2 o (pY P) * zz * W1 in
  let P3 := mkPoint (X0 * v) (u * W1 - fsq o (xpz0 - x0zp) * X1) (W0 * v) in
  let order1 := fis0 o (pZ P) in
  let order2 := negb order1 && fis0 o (pY P) in
  let z0inf := negb order1 && negb order2 && z0z in
  let z1inf := negb order1 && negb order2 && negb z0z && z1z in
  let p1mp := negb order1 && negb order2 && negb z0z && negb z1z && x1ex in
  let P3 := mkPoint (pX P3) (pY P3) (fcond o (pZ P3) (fzero o) (order1 || (order2 && negb n_odd) || z0inf)) in
  let P3 := p_set_cond P3 P (z1inf || (order2 && n_odd)) in
  let P3 := p_set_cond P3 dP p1mp in
  p_condneg P3 (z1inf || p1mp).
Definition mul_pt (E : curve F) (P : point F) (n : list Z) (nbitlen : nat) : option (point F) :=
  let s0 := (fone o, fzero o, pX P, pZ P, false) in
  let r :=
    if Nat.ltb 21 nbitlen then let Xp := pX P / pZ P in ladder E (xadd_aff Xp) n nbitlen s0
    else ladder E (xadd (pX P) (pZ P)) n nbitlen s0 in
  match r with
  | None => None
  | Some (X0, W0, X1, W1, cc) =>
      let '(X0, X1) := fswap o X0 X1 cc in
      let '(W0, W1) := fswap o W0 W1 cc in
      match nth_error n 0 with
      | None => None
      | Some b => Some (ladder_finish E P (Z.testbit b 0) X0 W0 X1 W1)
      end
  end.
(* eccore.rs:658-661 *)
Definition mul_big (E : curve F) (P : point F) (n : Z) : option (point F) := mul_pt E P (big_to_bytes_le n) (big_bits n).
(* eccore.rs:665-691 *)
Definition mul_small (E : curve F) (P : point F) (n : Z) : option (point F) :=
  (if n =? 0 then Some infinity
  else if n =? 1 then Some P
  else if n =? 2 then Some (double_pt E P)
  else if n =? 3 then Some (add_pts E (double_pt E P) P)
  else mul_pt E P (le_bytes 8 n) (big_bits n))%Z.

(** ** Sampling and decompression *)
(* eccore.rs:702, 782: the right-hand side of the curve equation *)
Definition rhs (A x : F) : F := (x + A) * x * x + x.
(* eccore.rs:694-720; the generator is the stream of byte blocks it delivers, [None]: the stream ran out *)
Fixpoint rand_point (fuel : nat) (E : curve F) (rng : list (list Z)) : option (point F * list (list Z)) :=
  match fuel with
  | O => None
  | S fuel' =>
      match frand o rng with
      | None => None
      | Some (x, rng) =>
          let y2 := rhs (cA E) x in
          if (0 <=? fleg o y2)%Z then
            let y := fst (fsqrt o y2) in
            match rng with
            | (b :: _) :: rng => Some (mkPoint x (fcneg o y (Z.testbit b 0)) (fone o), rng)
            | _ => None
            end
          else rand_point fuel' E rng
      end
  end.
(* eccore.rs:723-726, 761-793: the iterator state is the pair (A, x) *)
Definition iter_start : F := fone o + fzeta o.
Fixpoint iter_loop (tries : nat) (A x : F) : option (point F * F) :=
  match tries with
  | O => None
  | S t =>
      let y2 := rhs A x in
      if (0 <=? fleg o y2)%Z then Some (mkPoint x (fst (fsqrt o y2)) (fone o), x + fone o)
      else iter_loop t A (x + fone o)
  end.
(* on [None] the stored x is not advanced *)
Definition iter_next (A x : F) : option (point F * F) := iter_loop 1000 A x.
(* eccore.rs:731-751 *)
Definition complete_pointX (E : curve F) (P : pointx F) : point F * bool :=
  let XZ := xX P * xZ P in
  let V := fsq o (xX P + xZ P) + (cA E - ftwo o) * XZ in
  let '(y, ok) := fsqrt o (V * XZ) in
  (mkPoint XZ y (fcond o (fsq o (xZ P)) (fzero o) (negb ok)), ok).

(** ** Isomorphisms, eccore.rs:796-822 *)
Definition iso_new (debug : bool) (dom cod : curve F) : option (isomorphism F) :=
  if debug && negb (feqb o (j_invariant dom) (j_invariant cod)) then None
  else
    let A2 := cA dom in let A1 := cA cod in
    let v := (fsq o A1 + fmul2 o (fsq o A2) - fsq o (fthree o)) / (A1 * (fthree o - fsq o A2)) in
    let u := (fthree o * v + A1) / A2 in
    let w := fst (fsqrt o (u * fsq o u)) in
    Some (mkIso u v w).
Definition iso_eval (f : isomorphism F) (P : point F) : point F :=
  let '(px, py) := to_xy P in new_xy (iu f * px + iv f) (iw f * py).

(** ** Products of curves, eccore.rs:825-899 *)
Definition couple_infinity : couple F := mkCouple infinity infinity.
Definition prod_add (EE : eprod F) (C D : couple F) : couple F := mkCouple (add_pts (e1 EE) (c1 C) (c1 D)) (add_pts (e2 EE) (c2 C) (c2 D)).
Definition prod_double (EE : eprod F) (C : couple F) : couple F := mkCouple (double_pt (e1 EE) (c1 C)) (double_pt (e2 EE) (c2 C)).
Definition prod_double_iter (EE : eprod F) (C : couple F) (n : nat) : couple F := mkCouple (double_iter (e1 EE) (c1 C) n) (double_iter (e2 EE) (c2 C) n).
End Curve.
