(** Model of src/isogeny.rs (macro define_isogeny_structure) over any field implementation [o].
    [checks]: debug assertions and overflow checks on; [None] is a panic (or a computation that never returns, where noted).
    usize is 64 bits wide.  fmt::Display is not modelled.  No proofs in this file. *)
From Coq Require Import ZArith List Bool.
From Verif Require Import M_Fp M_Field M_Curve M_Pairing.
Import ListNotations.

(* isogeny.rs:17-23 *)
Record isogeny (F : Type) : Type := mkIsogeny { i_dom : curve F; i_cod : option (curve F); i_ker : point F; i_deg : Z; i_mult : list (F * F) }.
Arguments mkIsogeny {F}. Arguments i_dom {F}. Arguments i_cod {F}. Arguments i_ker {F}. Arguments i_deg {F}. Arguments i_mult {F}.

Section Isogeny.
Context {F : Type} (o : fops F).
Local Infix "+" := (fadd o). Local Infix "-" := (fsub o). Local Infix "*" := (fmul o). Local Infix "/" := (fdiv o).

(* isogeny.rs:53-60: the values pushed in d iterations *)
Fixpoint edwards_multiples (E : curve F) (K iter_point : point F) (d : nat) : list (F * F) :=
  match d with
  | O => []
  | S d' =>
      let iter_point := add_pts o E iter_point K in
      let '(KX, KZ) := to_xz iter_point in
      (KX - KZ, KX + KZ) :: edwards_multiples E K iter_point d'
  end.
(* isogeny.rs:64-99; a second call appends the multiples again, as the code does.
   degree = 0: degree - 1 underflows; without checks the loop count is 2^63 - 1 and the vector exhausts memory. *)
Definition compute_codomain_constants (phi : isogeny F) : option (isogeny F) :=
  let A := cA (i_dom phi) in
  let C := fone o in
  if (i_deg phi =? 0)%Z then None
  else
    let mult := i_mult phi ++ edwards_multiples (i_dom phi) (i_ker phi) (infinity o) (Z.to_nat ((i_deg phi - 1) / 2)%Z) in
    let Ded := C + C in
    let Aed := A + Ded in
    let Ded := A - Ded in
    let '(prod_y, prod_z) := fold_left (fun p e => (fst p * fst e, snd p * snd e)) mult (fone o, fone o) in
    let '(prod_y, prod_z) := (prod_y * prod_y, prod_z * prod_z) in
    let '(prod_y, prod_z) := (prod_y * prod_y, prod_z * prod_z) in
    let '(prod_y, prod_z) := (prod_y * prod_y, prod_z * prod_z) in
    let Aed := fpow o Aed (i_deg phi) * prod_z in
    let Ded := fpow o Ded (i_deg phi) * prod_y in
    let A := Aed + Ded in
    let C := Aed - Ded in
    let A := A + A in
    match curve_new o (A / C) with
    | None => None
    | Some cod => Some (mkIsogeny (i_dom phi) (Some cod) (i_ker phi) (i_deg phi) mult)
    end.
(* isogeny.rs:28-44 *)
Definition isogeny_new (checks : bool) (domain : curve F) (kernel : point F) (degree : Z) : option (isogeny F) :=
  let run := compute_codomain_constants (mkIsogeny domain None kernel degree []) in
  if checks then
    if isinfinity o kernel then None
    else match mul_small o domain kernel degree with
         | None => None
         | Some R => if isinfinity o R then run else None
         end
  else run.
(* isogeny.rs:47-49 *)
Definition get_codomain (phi : isogeny F) : option (curve F) := i_cod phi.
(* isogeny.rs:103-122 *)
Definition evaluate_isogeny (phi : isogeny F) (P : point F) : option (point F) :=
  let '(xp, zp) := to_xz P in
  let p_sum := xp + zp in
  let p_diff := xp - zp in
  let '(x_new, z_new) :=
    fold_left (fun r e =>
      let diff_ez := p_diff * snd e in
      let sum_ey := fst e * p_sum in
      (fst r * (diff_ez + sum_ey), snd r * (diff_ez - sum_ey))) (i_mult phi) (fone o, fone o) in
  let x_new := x_new * x_new * xp in
  let z_new := z_new * z_new * zp in
  match i_cod phi with
  | None => None
  | Some cod => Some (fst (complete_pointX o cod (mkPointX x_new z_new)))
  end.

(* isogeny.rs:147-161 *)
Fixpoint eval_points (chain : list (isogeny F)) (Q : point F) : option (point F) :=
  match chain with
  | [] => Some Q
  | phi :: rest => match evaluate_isogeny phi Q with None => None | Some Q => eval_points rest Q end
  end.
Definition evaluate_isogeny_chain (domain : curve F) (P : point F) (chain : list (isogeny F)) : option (curve F * point F) :=
  match chain with
  | [] => Some (domain, P)
  | phi :: rest =>
      match eval_points chain P, get_codomain (last rest phi) with
      | Some Q, Some cod => Some (cod, Q)
      | _, _ => None
      end
  end.
(* isogeny.rs:165-187 *)
Definition evaluate_isogeny_chain_for_basis (checks : bool) (domain : curve F) (P Q : point F) (chain : list (isogeny F)) (torsion_order isogeny_degree : Z) : option (curve F * (point F * point F)) :=
  match evaluate_isogeny_chain domain P chain, evaluate_isogeny_chain domain Q chain with
  | Some (codomain, imP), Some (_, imQ) =>
      match weil_pairing o checks domain P Q torsion_order, weil_pairing o checks codomain imP imQ torsion_order with
      | Some pair_E0, Some pair_E1 =>
          let imQ := if negb (feqb o (fpow o pair_E0 isogeny_degree) pair_E1) then p_neg o imQ else imQ in
          Some (codomain, (imP, imQ))
      | _, _ => None
      end
  | _, _ => None
  end.

(* repeated E.mul_small(&Q, l), isogeny.rs:221-224 and 250-252 *)
Fixpoint mul_iter (E : curve F) (Q : point F) (l : Z) (n : nat) : option (point F) :=
  match n with
  | O => Some Q
  | S n' => match mul_small o E Q l with None => None | Some Q => mul_iter E Q l n' end
  end.
(* isogeny.rs:217-218 *)
Definition split_k (k : nat) : nat := Nat.max 1 (Nat.min (k - 1) (Nat.div (k * 8 + 5) 10)).
(* isogeny.rs:205-235.  k = 0: with checks k - 1 underflows and panics; without, the recursion never ends.  [fuel] bounds the recursion
   depth; the callers pass k, which suffices. *)
Fixpoint recursive_sparse_isogeny (checks : bool) (fuel : nat) (E : curve F) (Q : point F) (l : Z) (k : nat) : option (list (isogeny F)) :=
  match fuel with
  | O => None
  | S fuel' =>
      if Nat.eqb k 0 then None
      else if Nat.eqb k 1 then match isogeny_new checks E Q l with None => None | Some phi => Some [phi] end
      else
        let k1 := split_k k in
        match mul_iter E Q l k1 with
        | None => None
        | Some Q1 =>
            match recursive_sparse_isogeny checks fuel' E Q1 l (k - k1) with
            | None => None
            | Some L =>
                match evaluate_isogeny_chain E Q L with
                | None => None
                | Some (coE, Q2) =>
                    match recursive_sparse_isogeny checks fuel' coE Q2 l k1 with
                    | None => None
                    | Some R => Some (L ++ R)
                    end
                end
            end
        end
  end.
(* isogeny.rs:198-240 *)
Definition sparse_isogeny_prime_power (checks : bool) (E : curve F) (P : point F) (l : Z) (e : nat) : option (list (isogeny F)) :=
  recursive_sparse_isogeny checks e E P l e.
(* isogeny.rs:247-254: multiply by every other prime power of the factorisation *)
Fixpoint other_factors (E : curve F) (Q : point F) (l : Z) (order : list (Z * Z)) : option (point F) :=
  match order with
  | [] => Some Q
  | (l1, e1) :: rest =>
      match (if (l =? l1)%Z then Some Q else mul_iter E Q l1 (Z.to_nat e1)) with
      | None => None
      | Some Q => other_factors E Q l rest
      end
  end.
(* isogeny.rs:246-261; [whole] is the complete factorisation *)
Fixpoint kummer_loop (checks : bool) (whole order : list (Z * Z)) (curve : curve F) (P : point F) : option (list (isogeny F)) :=
  match order with
  | [] => Some []
  | (l, e) :: rest =>
      match other_factors curve P l whole with
      | None => None
      | Some Q =>
          match sparse_isogeny_prime_power checks curve Q l (Z.to_nat e) with
          | None => None
          | Some psi =>
              match evaluate_isogeny_chain curve P psi with
              | None => None
              | Some (curve, P) => match kummer_loop checks whole rest curve P with None => None | Some phi => Some (psi ++ phi) end
              end
          end
      end
  end.
(* isogeny.rs:192-266 *)
Definition factored_kummer_isogeny (checks : bool) (domain : curve F) (kernel : point F) (order : list (Z * Z)) : option (list (isogeny F)) :=
  kummer_loop checks order order domain kernel.
End Isogeny.
