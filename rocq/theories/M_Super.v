(** Model of src/supersingular.rs:16-239 (orders, cofactors, torsion points and bases) over any field implementation [o].
    [checks] is true for builds with overflow checks and debug assertions.  [None] is a panic; for the functions that loop over the
    point iterator it also stands for exhausted fuel (the code would still be searching). *)
From Coq Require Import ZArith List Bool.
From Verif Require Import M_Consts M_Fp M_Field M_Curve M_Pairing M_Dlog S_Fp2 S_Params.
Import ListNotations.
Open Scope Z_scope.

Definition obind {A B} (x : option A) (f : A -> option B) : option B := match x with Some a => f a | None => None end.

(** BigUint::from(l).pow(e - 1); [e - 1] is a u32 subtraction *)
Definition pow_pred (checks : bool) (le : Z * Z) : option Z := obind (u32_op checks (snd le - 1)) (fun e => Some (fst le ^ e)).
(* supersingular.rs:18-24, 81-87 *)
Fixpoint d_top (checks : bool) (fs : list (Z * Z)) (D : Z) : option Z :=
  match fs with [] => Some D | le :: fs' => obind (pow_pred checks le) (fun x => d_top checks fs' (D * x)) end.
Definition pis (fs : list (Z * Z)) : list Z := map fst fs.
(* factored_order.iter().fold(1, |m, (l, e)| m * l^e), supersingular.rs:153-157, 185-189, 211-213, 334-336 *)
Definition unfactored (fs : list (Z * Z)) : Z := fold_left (fun m le => m * bpow le) fs 1.

(** ** Batched cofactor multiplication, supersingular.rs:33-63 and 96-120 (the same text for points and for field elements) *)
Section Batch.
Context {T : Type} (smul : T -> Z -> option T).
(* the products of pis over lower..mid and mid..upper; an index outside of [ps] panics *)
Fixpoint prod_range (ps : list Z) (lo n : nat) (acc : Z) : option Z :=
  match n with O => Some acc | S n' => obind (nth_error ps lo) (fun p => prod_range ps (S lo) n' (acc * p)) end.
Definition upd (G : list T) (i : nat) (x : T) : option (list T) :=
  if Nat.ltb i (length G) then Some (firstn i G ++ x :: skipn (S i) G) else None.
Fixpoint batch_cofactor_mul (fuel : nat) (G : list T) (ps : list Z) (lower upper : nat) : option (list T) :=
  match fuel with
  | O => None
  | S f =>
      if Nat.ltb upper lower then None
      else if Nat.eqb (upper - lower) 1 then Some G
      else
        let mid := (lower + Nat.div (upper - lower + 1) 2)%nat in
        obind (prod_range ps lower (mid - lower) 1) (fun cu =>
        obind (prod_range ps mid (upper - mid) 1) (fun cl =>
        obind (nth_error G lower) (fun g =>
        obind (smul g cu) (fun gm =>
        obind (upd G mid gm) (fun G =>
        obind (nth_error G lower) (fun g =>
        obind (smul g cl) (fun gl =>
        obind (upd G lower gl) (fun G =>
        obind (batch_cofactor_mul f G ps lower mid) (fun G => batch_cofactor_mul f G ps mid upper)))))))))
  end.
(* supersingular.rs:26-29, 65-76 and 89-92, 122-136; [unit] fills the list, [triv0] and [triv] are the two tests used *)
Definition order_test (unit : T) (triv0 triv : T -> bool) (checks : bool) (P : T) (fs : list (Z * Z)) : option bool :=
  obind (d_top checks fs 1) (fun D =>
  obind (smul P D) (fun G =>
  if triv0 G then Some false
  else obind (upd (repeat unit (length (pis fs))) 0 G) (fun Gs =>
    if Nat.ltb 1 (length (pis fs)) then
      obind (batch_cofactor_mul (length (pis fs)) Gs (pis fs) 0 (length (pis fs))) (fun Gs => Some (fold_left (fun s x => s && negb (triv x)) Gs true))
    else Some true))).
End Batch.

Section Super.
Context {F : Type} (o : fops F).
(* supersingular.rs:17-77 *)
Definition point_has_factored_order (checks : bool) (E : curve F) (P : point F) (fs : list (Z * Z)) : option bool :=
  order_test (mul_big o E) (infinity o) (fun G => p_equals o G (infinity o)) (isinfinity o) checks P fs.
(* supersingular.rs:80-137 *)
Definition has_factored_order (checks : bool) (v : F) (fs : list (Z * Z)) : option bool :=
  order_test (fun v n => Some (fpow o v n)) (fone o) (fun G => feqb o G (fone o)) (fun G => feqb o G (fone o)) checks v fs.
(* supersingular.rs:141-145 *)
Definition clear_cofactor (E : curve F) (P : point F) (k : Z) (even_power : nat) : option (point F) :=
  mul_big o E (double_iter o E P even_power) (Z.shiftr k (Z.of_nat even_power)).
(* BigUint::from_slice(&BASIS_ORDER) / &order *)
Definition cofactor_of (fs : list (Z * Z)) : option Z := if unfactored fs =? 0 then None else Some (big32 BASIS_ORDER / unfactored fs).

(* the tests of supersingular.rs:162-173 and 193-203 on one sampled point: inl = accept, inr = continue *)
Definition try_point (checks : bool) (E : curve F) (fs : list (Z * Z)) (cofactor : Z) (ep : nat) (R : point F) : option (option (point F)) :=
  obind (clear_cofactor E R cofactor ep) (fun T =>
  if isinfinity o T then Some None
  else obind (point_has_factored_order checks E T fs) (fun b => Some (if b then Some T else None))).
(* supersingular.rs:161-176; the random generator is the stream of byte blocks it delivers *)
Fixpoint random_order_loop (rounds fuel : nat) (checks : bool) (E : curve F) (fs : list (Z * Z)) (cofactor : Z) (ep : nat) (rng : list (list Z)) : option (point F * list (list Z)) :=
  match rounds with
  | O => Some (infinity o, rng)
  | S r =>
      obind (rand_point o fuel E rng) (fun Rr =>
      obind (try_point checks E fs cofactor ep (fst Rr)) (fun res =>
      match res with Some T => Some (T, snd Rr) | None => random_order_loop r fuel checks E fs cofactor ep (snd Rr) end))
  end.
(* supersingular.rs:148-177 *)
Definition generate_random_point (fuel : nat) (checks : bool) (E : curve F) (fs : list (Z * Z)) (ep : nat) (rng : list (list Z)) : option (point F * list (list Z)) :=
  obind (cofactor_of fs) (fun cofactor => random_order_loop 1000 fuel checks E fs cofactor ep rng).
(* supersingular.rs:192-206; [x] is the state of the iterator *)
Fixpoint order_loop (fuel : nat) (checks : bool) (E : curve F) (fs : list (Z * Z)) (cofactor : Z) (ep : nat) (x : F) : option (point F) :=
  match fuel with
  | O => None
  | S f =>
      match iter_next o (cA E) x with
      | None => Some (infinity o)
      | Some (R, x') =>
          obind (try_point checks E fs cofactor ep R) (fun res =>
          match res with Some T => Some T | None => order_loop f checks E fs cofactor ep x' end)
      end
  end.
(* supersingular.rs:180-207 *)
Definition generate_point (fuel : nat) (checks : bool) (E : curve F) (fs : list (Z * Z)) (ep : nat) : option (point F) :=
  obind (cofactor_of fs) (fun cofactor => order_loop fuel checks E fs cofactor ep (iter_start o)).
(* supersingular.rs:217-238 *)
Fixpoint basis_loop (fuel : nat) (checks : bool) (E : curve F) (fs : list (Z * Z)) (cofactor : Z) (ep : nat) (P : point F) (x : F) : option (point F * point F) :=
  match fuel with
  | O => None
  | S f =>
      match iter_next o (cA E) x with
      | None => Some (infinity o, infinity o)
      | Some (R, x') =>
          let next := basis_loop f checks E fs cofactor ep P x' in
          obind (clear_cofactor E R cofactor ep) (fun Q =>
          if p_equals o P Q || isinfinity o Q then next
          else obind (mul_big o E Q (unfactored fs)) (fun DQ =>
            if negb (isinfinity o DQ) then next
            else obind (point_has_factored_order checks E Q fs) (fun b =>
              if negb b then next
              else obind (weil_pairing o checks E P Q (unfactored fs)) (fun ePQ =>
                obind (has_factored_order checks ePQ fs) (fun b => if negb b then next else Some (P, Q))))))
      end
  end.
(* supersingular.rs:210-239 *)
Definition torsion_basis (fuel : nat) (checks : bool) (E : curve F) (fs : list (Z * Z)) (ep : nat) : option (point F * point F) :=
  obind (cofactor_of fs) (fun cofactor =>
  obind (generate_point fuel checks E fs ep) (fun P => basis_loop fuel checks E fs cofactor ep P (iter_start o))).
End Super.
