(** Model of the rest of src/supersingular.rs (lines 242-410): entangled bases, canonical kernels, x-only isogenies from points and scalars.
    [None] is a panic (or exhausted fuel in the searches of M_Super.v).  No proofs in this file. *)
From Coq Require Import ZArith List Bool.
From Verif Require Import M_Consts M_Fp M_Fp2 M_Field M_Curve M_Pairing M_Dlog M_Super M_Isogeny S_Params.
Import ListNotations.
Open Scope Z_scope.

(** ** Square root of t by way of its norm, supersingular.rs:262-263, 284-290, 298-305.
    The returned flag is the test of line 287; the value is the y of lines 302-305 (line 288 stores a value that is never used).
    pow_big never panics (C04), so its [None] is dead. *)
Definition p_sqrt : Z := (big32 BIGUINT_MODULUS + 1) / 4.
Definition pow_p_sqrt (z : fp) : fp := match pow_big z p_sqrt with Some r => r | None => fp_zero end.
Definition norm_root (t : fp2) : fp2 * bool :=
  let (c, d) := t in
  let z := set_add (set_square c) (set_square d) in
  let s := pow_p_sqrt z in
  let found := negb (equals (set_square s) z =? 0) in
  let z := set_half (set_add c s) in
  let alpha := pow_p_sqrt z in
  let beta := set_div d (set_add alpha alpha) in
  (if negb (equals (set_square alpha) z =? 0) then (alpha, beta) else f2_neg (beta, alpha), found).

Section Super2.
(** [root] is [norm_root] and [dlp] is [ph_dlp] of the field implementation; the callers instantiate them. *)
Context {F : Type} (o : fops F) (root : F -> F * bool) (dlp : F -> F -> list (Z * Z) -> option Z).
Local Infix "+" := (fadd o). Local Infix "*" := (fmul o).

(* supersingular.rs:244 and 264-265 *)
Definition ent_u : F := fzeta o * ftwo o.
Definition ent_u0 : F := fone o + fzeta o.
(* supersingular.rs:243-260: (T1, T2), in push order *)
Fixpoint elligator_tables (n : nat) (r : F) : list (F * F) * list (F * F) :=
  match n with
  | O => ([], [])
  | S n' =>
      let v := finv o (fone o + ent_u * fsq o r) in
      let (T1, T2) := elligator_tables n' (r + fone o) in
      if fleg o v =? 1 then (T1, (r, v) :: T2) else ((r, v) :: T1, T2)
  end.
(* supersingular.rs:283 *)
Definition ent_t (A x : F) : F := x * (fsq o x + A * x + fone o).
(* supersingular.rs:281-296: the first entry with a rational y *)
Fixpoint ent_search (A : F) (T : list (F * F)) : option (F * F * F) :=
  match T with
  | [] => None
  | (r, v) :: T' => let x := fneg o A * v in let (y, found) := root (ent_t A x) in if found then Some (r, x, y) else ent_search A T'
  end.
(* supersingular.rs:242-316 *)
Definition entangled_points (E : curve F) : option (point F * point F) :=
  let A := cA E in
  let (TQNR, TQR) := elligator_tables 30 (fone o) in
  let l := fleg o A in
  obind (if l =? 1 then Some TQNR else if l =? -1 then Some TQR else None) (fun T =>
  obind (ent_search A T) (fun rxy =>
  let '(r, x, y) := rxy in
  Some (new_xy o x y, new_xy o (ent_u * fsq o r * x) (ent_u0 * r * y)))).
Definition entangled_torsion_basis (E : curve F) (cofactor : Z) : option (point F * point F) :=
  obind (entangled_points E) (fun S =>
  obind (mul_big o E (fst S) cofactor) (fun P => obind (mul_big o E (snd S) cofactor) (fun Q => Some (P, Q)))).

(** ** Canonical kernels *)
(* supersingular.rs:345-357: the lists t1_list and t2_list *)
Fixpoint canonical_coeffs (a1 a2 : Z) (fs : list (Z * Z)) : option (list Z * list Z) :=
  match fs with
  | [] => Some ([], [])
  | le :: fs' =>
      let di := bpow le in
      if fst le =? 0 then None
      else
        obind (if a1 mod fst le =? 0 then obind (xgcd_big a2 di) (fun t => Some (0, t)) else obind (xgcd_big a1 di) (fun t => Some (t, 0))) (fun t =>
        obind (canonical_coeffs a1 a2 fs') (fun ts => Some (fst t :: fst ts, snd t :: snd ts)))
  end.
(* supersingular.rs:342-362 *)
Definition canonical_scalar (a1 b1 a2 b2 : Z) (fs : list (Z * Z)) : option Z :=
  obind (canonical_coeffs a1 a2 fs) (fun ts =>
  obind (compute_crt (fst ts) fs) (fun t1 =>
  obind (compute_crt (snd ts) fs) (fun t2 =>
  if unfactored fs =? 0 then None else Some ((t1 * b1 + t2 * b2) mod unfactored fs)))).
(* supersingular.rs:321-362; fuel is for torsion_basis *)
Definition compute_canonical_kernel (fuel : nat) (checks : bool) (E : curve F) (imP imQ : point F) (fs : list (Z * Z)) (basis : option (point F * point F)) : option Z :=
  obind (match basis with Some x => Some x | None => torsion_basis o fuel checks E fs (Z.to_nat L_POWER) end) (fun PQ =>
  let (P, Q) := PQ in
  obind (weil_pairing o checks E P Q (unfactored fs)) (fun ePQ =>
  obind (bidlp o dlp checks E imP P Q fs (Some ePQ)) (fun ab1 =>
  obind (bidlp o dlp checks E imQ P Q fs (Some ePQ)) (fun ab2 =>
  canonical_scalar (fst ab1) (snd ab1) (fst ab2) (snd ab2) fs)))).

(** ** Isogenies *)
(* phi.last().expect(..).get_codomain() *)
Definition last_codomain (phi : list (isogeny F)) : option (curve F) :=
  match rev phi with [] => None | f :: _ => get_codomain f end.
(* supersingular.rs:365-388; the unused product [degree] is left out; the random generator is the stream of byte blocks it delivers *)
Fixpoint random_isogeny_x_only (fuel : nat) (checks : bool) (E : curve F) (D : list (Z * Z)) (steps : nat) (rng : list (list Z)) : option (list (isogeny F) * curve F * list (list Z)) :=
  match steps with
  | O => Some ([], E, rng)
  | S n =>
      obind (generate_random_point o fuel checks E D (Z.to_nat L_POWER) rng) (fun Kr =>
      obind (factored_kummer_isogeny o checks E (fst Kr) D) (fun phi =>
      obind (last_codomain phi) (fun E' =>
      obind (random_isogeny_x_only fuel checks E' D n (snd Kr)) (fun res =>
      let '(l, E'', rng) := res in Some (phi ++ l, E'', rng)))))
  end.
(* supersingular.rs:396-410 *)
Definition isogeny_from_scalar_x_only (fuel : nat) (checks : bool) (E : curve F) (D : list (Z * Z)) (m : Z) (basis : option (point F * point F)) : option (list (isogeny F) * curve F) :=
  obind (match basis with Some x => Some x | None => torsion_basis o fuel checks E D (Z.to_nat L_POWER) end) (fun PQ =>
  obind (mul_big o E (snd PQ) m) (fun mQ =>
  let K := add_pts o E (fst PQ) mQ in
  obind (factored_kummer_isogeny o checks E K D) (fun phi =>
  obind (last_codomain phi) (fun cod => Some (phi, cod))))).
End Super2.
