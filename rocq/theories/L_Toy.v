(** The integers modulo 179 as a field implementation, used only to run the generic curve code in examples.
    179 = 3 mod 4 and 179 + 1 = 4 * 3^2 * 5. *)
From Coq Require Import ZArith List Bool.
From Verif Require Import M_Field M_Curve.
Import ListNotations.
Open Scope Z_scope.
Definition tp : Z := 179.
Definition tpow (x e : Z) : Z := match e with Zpos q => Pos.iter_op (fun a b => (a * b) mod tp) q (x mod tp) | _ => 1 end.
Definition tinv (x : Z) : Z := tpow x (tp - 2).
Definition tsqrt (x : Z) : Z * bool :=
  let r := tpow x ((tp + 1) / 4) in let r := if Z.odd r then (tp - r) mod tp else r in
  if (r * r) mod tp =? x mod tp then (r, true) else (0, false).
Definition toy_ops : fops Z := {|
  fzero := 0; fone := 1; ftwo := 2; fthree := 3; ffour := 4; fzeta := 5;
  fadd x y := (x + y) mod tp; fsub x y := (x - y) mod tp; fneg x := (- x) mod tp; fmul x y := (x * y) mod tp; fsq x := (x * x) mod tp;
  fhalf x := (x * 90) mod tp; fmul2 x := (2 * x) mod tp; fmul3 x := (3 * x) mod tp; fmul4 x := (4 * x) mod tp; fmul8 x := (8 * x) mod tp;
  finv := tinv; fdiv x y := (x * tinv y) mod tp; fis0 x := x mod tp =? 0; feqb x y := (x - y) mod tp =? 0;
  fcond x y b := if b then y else x; fcneg x b := if b then (- x) mod tp else x; fswap x y b := if b then (y, x) else (x, y);
  fsqrt := tsqrt; fleg x := if x mod tp =? 0 then 0 else if snd (tsqrt x) then 1 else -1;
  fpow := tpow; fpow_small := tpow; frand _ := None; fenc x := [x mod tp]; fdec b := (hd 0 b, true) |}.
(* the start curve of the library's tests, y^2 = x^3 + 6 x^2 + x, and a point of order 45 on it *)
Definition toyE : curve Z := mkCurve 6 2.
Definition toyK : point Z := mkPoint 149 71 1.
