(** Model of src/pairing.rs and of bidlp (src/discrete_log.rs:167-190) over any field implementation [o].
    [checks] is true for builds with debug assertions and overflow checks; [None] is a panic. *)
From Coq Require Import ZArith List Bool.
From Verif Require Import M_Fp M_Field M_Curve M_Dlog.
Import ListNotations.

Section Pairing.
Context {F : Type} (o : fops F).
Local Infix "+" := (fadd o). Local Infix "-" := (fsub o). Local Infix "*" := (fmul o). Local Infix "/" := (fdiv o).

(* pairing.rs:9-35 *)
Definition eval_line (checks : bool) (E : curve F) (P Q R : point F) : option F :=
  let '(Px, Py) := to_xy o P in
  let '(Qx, Qy) := to_xy o Q in
  let '(Rx, Ry, Rz) := to_xyz R in
  let a := cA E in
  if checks && negb (negb (isinfinity o P) && negb (isinfinity o Q)) then None
  else if p_equals o P Q then
    if fis0 o Py then Some (Rx + fneg o Px * Rz)
    else
      let lambda := (fmul3 o (fsq o Px) + fmul2 o (a * Px) + fone o) / fmul2 o Py in
      Some (fneg o lambda * Rx + Ry + (fneg o Py + lambda * Px) * Rz)
  else if p_equals o P (p_neg o Q) then Some (Rx + fneg o Px * Rz)
  else
    let lambda := (Qy - Py) / (Qx - Px) in
    Some (fneg o lambda * Rx + Ry + (fneg o Py + lambda * Px) * Rz).

(* pairing.rs:45-51 / 54-60: multiply [f] by the line through V and W and divide by the vertical at S = V + W, evaluated at Q *)
Definition miller_factor (checks : bool) (E : curve F) (f : F) (V W S Q : point F) : option F :=
  match eval_line checks E V W Q with
  | None => None
  | Some l =>
      if negb (isinfinity o S) then
        match eval_line checks E S (p_neg o S) Q with None => None | Some d => Some (f * l / d) end
      else Some (f * l / pZ Q)
  end.
(* pairing.rs:44-63, t = n-1 .. 0 *)
Fixpoint miller_loop (checks : bool) (E : curve F) (P Q : point F) (order : Z) (n : nat) (f : F) (V : point F) : option (F * point F) :=
  match n with
  | O => Some (f, V)
  | S t =>
      let D := double_pt o E V in
      match miller_factor checks E (fsq o f) V V D Q with
      | None => None
      | Some f =>
          if Z.testbit order (Z.of_nat t) then
            let A := add_pts o E D P in
            match miller_factor checks E f D P A Q with
            | None => None
            | Some f => miller_loop checks E P Q order t f A
            end
          else miller_loop checks E P Q order t f D
      end
  end.
(* pairing.rs:40-72; order.bits() - 1 underflows (u64) for order = 0 *)
Definition tate_pairing (checks : bool) (E : curve F) (P Q : point F) (order : Z) : option F :=
  if (order =? 0)%Z && checks then None
  else
    match miller_loop checks E P Q order (if (order =? 0)%Z then Z.to_nat 18446744073709551615 else Nat.pred (big_bits order)) (fone o) P with
    | None => None
    | Some (f, V) =>
        if checks && negb (isinfinity o V) then None
        else if fis0 o f then Some (fone o) else Some f
    end.
(* pairing.rs:75-84 *)
Definition weil_pairing (checks : bool) (E : curve F) (P Q : point F) (order : Z) : option F :=
  match tate_pairing checks E P Q order, tate_pairing checks E Q P order with
  | Some ePQ, Some eQP => Some (if Z.testbit order 0 then fneg o ePQ / eQP else ePQ / eQP)
  | _, _ => None
  end.
(* discrete_log.rs:169-190.  [dlp] is ph_dlp (discrete_log.rs:147-165) of the field implementation; the caller instantiates it. *)
Definition bidlp (dlp : F -> F -> list (Z * Z) -> option Z) (checks : bool) (E : curve F) (R P Q : point F) (fs : list (Z * Z)) (ePQ : option F) : option (Z * Z) :=
  let order := fold_left (fun r le => (r * bpow le)%Z) fs 1%Z in
  match (match ePQ with Some x => Some x | None => weil_pairing checks E P Q order end) with
  | None => None
  | Some pair_PQ =>
      match weil_pairing checks E R Q order, weil_pairing checks E R (p_neg o P) order with
      | Some pair_a, Some pair_b =>
          match dlp pair_a pair_PQ fs, dlp pair_b pair_PQ fs with Some a, Some b => Some (a, b) | _, _ => None end
      | _, _ => None
      end
  end.
End Pairing.
