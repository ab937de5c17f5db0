(** Model of src/festa.rs over any field implementation [o].  [None] is a panic (or exhausted fuel in the point searches of M_Super.v).
    Random integers and the byte stream of the generator are arguments.  BigUints are non-negative integers.  No proofs in this file. *)
From Coq Require Import ZArith List Bool.
From Verif Require Import M_Consts M_Fp M_Fp2 M_Field M_Curve M_Pairing M_Dlog M_Super M_Isogeny M_Theta M_Super2 S_Params.
Import ListNotations.
Open Scope Z_scope.

(* festa.rs:23-40 *)
Record public_key (F : Type) : Type := mkPK { pk_EA : curve F; pk_RA : point F; pk_SA : point F }.
(* festa.rs:43-71 *)
Record secret_key (F : Type) : Type := mkSK { sk_EA : curve F; sk_bd1 : point F * point F; sk_d2 : point F * point F; sk_A : Z * Z }.
(* festa.rs:128-151 *)
Record trapdoor_output (F : Type) : Type := mkTO { to_E1 : curve F; to_R1 : point F; to_S1 : point F; to_E2 : curve F; to_R2 : point F; to_S2 : point F }.
(* festa.rs:200-219 *)
Record trapdoor_input : Type := mkTI { ti_s1 : Z; ti_s2 : Z; ti_B : Z * Z }.
(* festa.rs:239-252 *)
Record festa (F : Type) : Type := mkFesta {
  fe_E0 : curve F; fe_l : Z; fe_d1 : Z; fe_d2 : Z; fe_d1d2 : Z; fe_inv : Z; fe_clear_d1 : Z; fe_clear_d2 : Z; fe_clear_lb : Z; fe_g2 : Z;
  fe_lb : point F * point F; fe_d1b : point F * point F }.
Arguments mkPK {F}. Arguments pk_EA {F}. Arguments pk_RA {F}. Arguments pk_SA {F}.
Arguments mkSK {F}. Arguments sk_EA {F}. Arguments sk_bd1 {F}. Arguments sk_d2 {F}. Arguments sk_A {F}.
Arguments mkTO {F}. Arguments to_E1 {F}. Arguments to_R1 {F}. Arguments to_S1 {F}. Arguments to_E2 {F}. Arguments to_R2 {F}. Arguments to_S2 {F}.
Arguments mkFesta {F}. Arguments fe_E0 {F}. Arguments fe_l {F}. Arguments fe_d1 {F}. Arguments fe_d2 {F}. Arguments fe_d1d2 {F}. Arguments fe_inv {F}.
Arguments fe_clear_d1 {F}. Arguments fe_clear_d2 {F}. Arguments fe_clear_lb {F}. Arguments fe_g2 {F}. Arguments fe_lb {F}. Arguments fe_d1b {F}.

(* festa.rs:221-228 *)
Definition ti_eqb (a b : trapdoor_input) : bool :=
  (ti_s1 a =? ti_s1 b) && (ti_s2 a =? ti_s2 b) && (fst (ti_B a) =? fst (ti_B b)) && (snd (ti_B a) =? snd (ti_B b)).

(** ** Byte encodings *)
(* num-bigint to_bytes_le: no leading zero byte, one zero byte for zero; from_bytes_le is [of_le_bytes] *)
Definition to_bytes_le (n : Z) : list Z := if n =? 0 then [0] else le_bytes (Z.to_nat ((Z.log2 n + 8) / 8)) n.
(* festa.rs:92-97: the length subtraction underflows (panic, or a capacity overflow in vec!) when the integer needs more than 82 bytes *)
Definition pad82 (n : Z) : option (list Z) :=
  let b := to_bytes_le n in if Nat.ltb 82 (length b) then None else Some (b ++ repeat 0 (82 - length b)).

Section Festa.
Context {F : Type} (o : fops F) (root : F -> F * bool) (dlp : F -> F -> list (Z * Z) -> option Z) (fuel : nat) (checks : bool).

Definition enc_xy (P : point F) : list Z := let (x, y) := to_xy o P in fenc o x ++ fenc o y.
(* festa.rs:73-99 *)
Definition sk_encode (sk : secret_key F) : option (list Z) :=
  obind (pad82 (fst (sk_A sk))) (fun a11 =>
  obind (pad82 (snd (sk_A sk))) (fun a22 =>
  Some (fenc o (cA (sk_EA sk)) ++ enc_xy (fst (sk_bd1 sk)) ++ enc_xy (snd (sk_bd1 sk)) ++ enc_xy (fst (sk_d2 sk)) ++ enc_xy (snd (sk_d2 sk)) ++ a11 ++ a22))).
(* festa.rs:107-112, 182-187: n field elements from the front; a slice outside of the array panics; returns the rest *)
Fixpoint dec_fields (n : nat) (buf : list Z) : option (list F * list Z) :=
  match n with
  | O => Some ([], buf)
  | S n' =>
      if Nat.ltb (length buf) F2_ENCODED_LENGTH then None
      else
        let (x, ok) := fdec o (firstn F2_ENCODED_LENGTH buf) in
        if checks && negb ok then None
        else obind (dec_fields n' (skipn F2_ENCODED_LENGTH buf)) (fun r => Some (x :: fst r, snd r))
  end.
(* &bytearray[offset..offset + 82] *)
Definition take82 (buf : list Z) : option (Z * list Z) :=
  if Nat.ltb (length buf) 82 then None else Some (of_le_bytes (firstn 82 buf), skipn 82 buf).
(* festa.rs:101-126 *)
Definition sk_decode (buf : list Z) : option (secret_key F) :=
  if checks && negb (Nat.eqb (length buf) (F2_ENCODED_LENGTH * 9 + 82 * 2)) then None
  else
    obind (dec_fields 9 buf) (fun vr =>
    obind (take82 (snd vr)) (fun a11 =>
    obind (take82 (snd a11)) (fun a22 =>
    match fst vr with
    | [v0; v1; v2; v3; v4; v5; v6; v7; v8] =>
        obind (curve_new o v0) (fun E =>
        Some (mkSK E (new_xy o v1 v2, new_xy o v3 v4) (new_xy o v5 v6, new_xy o v7 v8) (fst a11, fst a22)))
    | _ => None
    end))).
(* festa.rs:153-173 *)
Definition to_encode (c : trapdoor_output F) : list Z :=
  fenc o (cA (to_E1 c)) ++ enc_xy (to_R1 c) ++ enc_xy (to_S1 c) ++ fenc o (cA (to_E2 c)) ++ enc_xy (to_R2 c) ++ enc_xy (to_S2 c).
(* festa.rs:175-197 *)
Definition to_decode (buf : list Z) : option (trapdoor_output F) :=
  if checks && negb (Nat.eqb (length buf) (F2_ENCODED_LENGTH * 10)) then None
  else
    obind (dec_fields 10 buf) (fun vr =>
    match fst vr with
    | [v0; v1; v2; v3; v4; v5; v6; v7; v8; v9] =>
        obind (curve_new o v0) (fun E1 =>
        obind (curve_new o v5) (fun E2 =>
        Some (mkTO E1 (new_xy o v1 v2) (new_xy o v3 v4) E2 (new_xy o v6 v7) (new_xy o v8 v9))))
    | _ => None
    end).

(** ** Set-up *)
(* festa.rs:258-264, 265-267 and 270-275: the integers of the set-up, (clear_d1, clear_d2, clear_lb, inv_scalar, g2) *)
Definition festa_scalars : option (Z * Z * Z * Z * Z) :=
  let l := 2 ^ L_POWER in
  let d1 := big32 D1 in
  let d2 := big32 D2 in
  let d1d2 := d1 * d2 in
  obind (xgcd_big d1 l) (fun i1 =>
  obind (xgcd_big d2 l) (fun i2 =>
  obind (xgcd_big l d2) (fun il =>
  let m1 := big32 M1 in
  let m2 := big32 M2 in
  obind (xgcd_big (d1 * d1d2 * m1) l) (fun inv =>
  let g1 := m2 * big32 DA2 * d2 in
  obind (xgcd_big g1 l) (fun g1_inv =>
  Some (i1 * d1, i2 * d2, il * l, inv, m1 * d1 * g1_inv)))))).
(* festa.rs:255-290; the bases of lines 268-269 are computed after the integers here *)
Definition festa_new : option (festa F) :=
  obind (curve_new o (fadd o (ftwo o) (ffour o))) (fun E0 =>
  obind festa_scalars (fun s =>
  let '(clear_d1, clear_d2, clear_lb, inv, g2) := s in
  let l := 2 ^ L_POWER in
  obind (entangled_torsion_basis o root E0 (big32 BASIS_ORDER / l)) (fun lb =>
  obind (torsion_basis o fuel checks E0 D1_FACTORED (Z.to_nat L_POWER)) (fun d1b =>
  Some (mkFesta E0 l (big32 D1) (big32 D2) (big32 D1 * big32 D2) inv clear_d1 clear_d2 clear_lb g2 lb d1b))))).

Section Scheme.
Context (self : festa F).
Definition mul2 (E : curve F) (PQ : point F * point F) (n : Z) : option (point F * point F) :=
  obind (mul_big o E (fst PQ) n) (fun P => obind (mul_big o E (snd PQ) n) (fun Q => Some (P, Q))).
Definition add2 (E : curve F) (PQ RS : point F * point F) : point F * point F := (add_pts o E (fst PQ) (fst RS), add_pts o E (snd PQ) (snd RS)).
(* aP + bQ, festa.rs:366-373 *)
Definition comb (E : curve F) (PQ : point F * point F) (ab : Z * Z) : option (point F) :=
  obind (mul_big o E (fst PQ) (fst ab)) (fun P => obind (mul_big o E (snd PQ) (snd ab)) (fun Q => Some (add_pts o E P Q))).
Definition chain_basis (E : curve F) (PQ : point F * point F) (phi : list (isogeny F)) (n d : Z) : option (point F * point F) :=
  obind (evaluate_isogeny_chain_for_basis o checks E (fst PQ) (snd PQ) phi n d) (fun r => Some (snd r)).
(* BigUint::set_bit(0, true) *)
Definition set_bit0 (n : Z) : Z := Z.lor n 1.
(* debug_assert!(point_has_factored_order(..)) *)
Definition dbg_order (E : curve F) (P : point F) (fs : list (Z * Z)) : option unit :=
  if checks then obind (point_has_factored_order o checks E P fs) (fun b => if b then Some tt else None) else Some tt.

(* festa.rs:291-390; r11 and r22 are the two values of gen_biguint(L_POWER) *)
Definition keygen (r11 r22 : Z) (rng : list (list Z)) : option (public_key F * secret_key F) :=
  let even := Z.to_nat L_POWER in
  let E0 := fe_E0 self in
  let a11 := set_bit0 r11 in
  let a22 := set_bit0 r22 in
  obind (random_isogeny_x_only o fuel checks E0 DA1_FACTORED 2 rng) (fun f1 =>
  let '(phiA1, EA', rng) := f1 in
  obind (random_isogeny_x_only o fuel checks EA' DA2_FACTORED 2 rng) (fun f2 =>
  let '(phiA2, EA, rng) := f2 in
  let dA1 := big32 DA1 in
  let dA2 := big32 DA2 in
  obind (torsion_basis o fuel checks EA' D2_FACTORED even) (fun PQ' =>
  obind (chain_basis E0 (add2 E0 (fe_lb self) (fe_d1b self)) phiA1 (fe_l self * fe_d1 self) dA1) (fun im_d1b =>
  obind (mul2 EA' im_d1b (fe_clear_d1 self)) (fun imb =>
  obind (chain_basis EA' (add2 EA' imb PQ') phiA2 (fe_l self * fe_d2 self) dA2) (fun im_bd2 =>
  obind (mul2 EA im_bd2 (fe_clear_d2 self)) (fun imb =>
  obind (mul2 EA im_bd2 (fe_clear_lb self)) (fun im_d2 =>
  obind (torsion_basis o fuel checks EA D2_FACTORED even) (fun PQ =>
  obind (weil_pairing o checks EA (fst PQ) (snd PQ) (fe_d2 self)) (fun ePQ =>
  obind (bidlp o dlp checks EA (fst PQ) (fst im_d2) (snd im_d2) D2_FACTORED (Some ePQ)) (fun ab1 =>
  obind (bidlp o dlp checks EA (snd PQ) (fst im_d2) (snd im_d2) D2_FACTORED (Some ePQ)) (fun ab2 =>
  obind (comb EA' PQ' ab1) (fun imP' =>
  obind (comb EA' PQ' ab2) (fun imQ' =>
  obind (mul_big o EA (fst imb) a11) (fun R =>
  obind (mul_big o EA (snd imb) a22) (fun S =>
  obind (dbg_order EA R [(2, L_POWER)]) (fun _ =>
  obind (dbg_order EA S [(2, L_POWER)]) (fun _ =>
  Some (mkPK EA R S, mkSK EA' im_d1b (imP', imQ') (a11, a22)))))))))))))))))))).

(* festa.rs:397-418 *)
Definition trapdoor_eval (pk : public_key F) (m : trapdoor_input) : option (trapdoor_output F) :=
  let E0 := fe_E0 self in
  obind (isogeny_from_scalar_x_only o fuel checks E0 D1_FACTORED (ti_s1 m) None) (fun f1 =>
  let (phi1, E1) := f1 in
  obind (chain_basis E0 (fe_lb self) phi1 (fe_l self) (fe_d1 self)) (fun imb =>
  obind (isogeny_from_scalar_x_only o fuel checks (pk_EA pk) D2_FACTORED (ti_s2 m) None) (fun f2 =>
  let (phi2, E2) := f2 in
  obind (chain_basis (pk_EA pk) (pk_RA pk, pk_SA pk) phi2 (fe_l self) (fe_d2 self)) (fun imRS =>
  obind (mul_big o E1 (fst imb) (fst (ti_B m))) (fun R1 =>
  obind (mul_big o E1 (snd imb) (snd (ti_B m))) (fun S1 =>
  obind (mul_big o E2 (fst imRS) (fst (ti_B m))) (fun R2 =>
  obind (mul_big o E2 (snd imRS) (snd (ti_B m))) (fun S2 =>
  Some (mkTO E1 R1 S1 E2 R2 S2))))))))).

(* festa.rs:436-444: from the discrete logarithm to the pair of entries *)
Definition normalise_diagB (alpha : Z) : option (Z * Z) :=
  let l := fe_l self in
  if l =? 0 then None
  else
    let alpha := (fe_inv self * alpha) mod l in
    obind (xgcd_big alpha l) (fun b =>
    let beta := b mod l in
    Some (if Z.shiftr l 1 <? alpha then (l - alpha, l - beta) else (alpha, beta))).
(* festa.rs:421-445; BigUint subtraction: alpha and beta are below l *)
Definition recover_diagB (E : curve F) (R Pb Qb : point F) : option (Z * Z) :=
  obind (bidlp o dlp checks E R Pb Qb [(2, L_POWER)] None) (fun ab => normalise_diagB (fst ab)).

(* festa.rs:450-500 *)
Definition recover_si_and_B (E : curve F) (L1 L2 : point F) (bd1 d2b : point F * point F) : option trapdoor_input :=
  obind (mul2 E (L1, L2) (fe_l self)) (fun im_d1d2 =>
  obind (mul_big o E L1 (fe_d1d2 self)) (fun imPb =>
  obind (mul2 E im_d1d2 (fe_d2 self)) (fun im_d1 =>
  obind (mul2 E im_d1d2 (fe_d1 self)) (fun im_d2 =>
  obind (mul2 E bd1 (fe_clear_d1 self)) (fun phi_b =>
  obind (mul2 E bd1 (fe_l self)) (fun phi_d1 =>
  obind (compute_canonical_kernel o dlp fuel checks E (fst im_d1) (snd im_d1) D1_FACTORED (Some phi_d1)) (fun s1 =>
  obind (compute_canonical_kernel o dlp fuel checks E (fst im_d2) (snd im_d2) D2_FACTORED (Some d2b)) (fun s2 =>
  obind (recover_diagB E imPb (fst phi_b) (snd phi_b)) (fun B =>
  Some (mkTI s1 s2 B)))))))))).

(* festa.rs:562-583: which factor of the codomain is EA', and the transport to it *)
Definition select_factor (EE : eprod F) (imgs : list (couple F)) (E : curve F) : option (point F * point F) :=
  let E3 := e1 EE in
  let E4 := e2 EE in
  match imgs with
  | I0 :: I1 :: _ =>
      if feqb o (j_invariant o E3) (j_invariant o E) then
        if feqb o (cA E3) (cA E) then Some (c1 I0, c1 I1)
        else obind (iso_new o checks E3 E) (fun f => Some (iso_eval o f (c1 I0), iso_eval o f (c1 I1)))
      else if checks && negb (feqb o (j_invariant o E) (j_invariant o E4)) then None
      else if feqb o (cA E4) (cA E) then Some (c2 I0, c2 I1)
      else obind (iso_new o checks E4 E) (fun f => Some (iso_eval o f (c2 I0), iso_eval o f (c2 I1)))
  | _ => None
  end.
(* festa.rs:505-586 *)
Definition trapdoor_inverse (c : trapdoor_output F) (sk : secret_key F) : option trapdoor_input :=
  let even := Z.to_nat L_POWER in
  let E1 := to_E1 c in
  let E2 := to_E2 c in
  obind (xgcd_big (fst (sk_A sk)) (fe_l self)) (fun i11 =>
  obind (xgcd_big (snd (sk_A sk)) (fe_l self)) (fun i22 =>
  obind (mul_big o E2 (to_R2 c) i11) (fun R2' =>
  obind (mul_big o E2 (to_S2 c) i22) (fun S2' =>
  obind (torsion_basis o fuel checks E1 D1_FACTORED even) (fun PQ1 =>
  obind (torsion_basis o fuel checks E2 D2_FACTORED even) (fun PQ2 =>
  let gP1 := to_R1 c in
  let gQ1 := to_S1 c in
  obind (mul_big o E2 R2' (fe_g2 self)) (fun gP2 =>
  obind (mul_big o E2 S2' (fe_g2 self)) (fun gQ2 =>
  obind (weil_pairing o checks E1 (double_iter o E1 gP1 2) (double_iter o E1 gQ1 2) (2 ^ THETA_ISOGENY_LENGTH)) (fun w1 =>
  obind (weil_pairing o checks E2 (double_iter o E2 gP2 2) (double_iter o E2 gQ2 2) (2 ^ THETA_ISOGENY_LENGTH)) (fun w2 =>
  if checks && negb (feqb o (fmul o w1 w2) (fone o)) then None
  else
    let L1 := mkCouple (add_pts o E1 (fst PQ1) (to_R1 c)) (fst PQ2) in
    let L2 := mkCouple (add_pts o E1 (snd PQ1) (to_S1 c)) (snd PQ2) in
    obind (product_isogeny o (mkEprod E1 E2) (mkCouple gP1 gP2) (mkCouple gQ1 gQ2) [L1; L2] (Z.to_nat THETA_ISOGENY_LENGTH) THETA_STRATEGY) (fun res =>
    obind (select_factor (fst res) (snd res) (sk_EA sk)) (fun L =>
    recover_si_and_B (sk_EA sk) (fst L) (snd L) (sk_bd1 sk) (sk_d2 sk))))))))))))).
End Scheme.
End Festa.
