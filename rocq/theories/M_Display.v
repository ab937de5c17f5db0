(** Model of the Display implementations: the text that a value is printed as, a list of characters.
    src/finitefield/fp_gen.rs:1577-1584, src/finitefield/fp2_gen.rs:816-828, src/eccore.rs:121-129, 754-758, 849-853, src/theta.rs:122-126, src/festa.rs:230-238, src/isogeny.rs:125-143; and of the Hash implementations, src/finitefield/fp_gen.rs:1840-1844, fp2_gen.rs:1093-1101. *)
From Coq Require Import ZArith List Bool Ascii String.
From Verif Require Import M_Fp M_Fp2 M_Field M_Curve M_Isogeny M_Theta M_Festa.
Import ListNotations.
Open Scope Z_scope.

Definition text : Type := list ascii.
Definition lit (s : string) : text := list_ascii_of_string s.
(* num-bigint Display: the decimal digits without leading zeros, "0" for zero; the numbers printed are never negative *)
Definition digit (d : Z) : ascii := ascii_of_N (Z.to_N (48 + d)).
Fixpoint decimal_digits (fuel : nat) (z : Z) : text :=
  match fuel with
  | O => []
  | S f => if z <? 10 then [digit z] else decimal_digits f (z / 10) ++ [digit (z mod 10)]
  end.
Definition decimal (z : Z) : text := decimal_digits (S (Z.to_nat (Z.log2 z))) z.
(* fp_gen.rs:1577-1584 *)
Definition show_fp (a : fp) : text := decimal (of_le_bytes (encode a)).
(* fp2_gen.rs:816-828 *)
Definition show_fp2 (x : fp2) : text :=
  let r := f2_encode x in lit "i*" ++ decimal (of_le_bytes (skipn 162 r)) ++ lit " + " ++ decimal (of_le_bytes (firstn 162 r)).

Section Show.
Context {F : Type} (show : F -> text).
Definition newline : text := [ascii_of_N 10].
(* eccore.rs:121-129 *)
Definition show_point (P : point F) : text := lit "Elliptic Curve Point: (" ++ show (pX P) ++ lit " : " ++ show (pY P) ++ lit " : " ++ show (pZ P) ++ lit ")".
(* eccore.rs:754-758 *)
Definition show_curve (E : curve F) : text := lit "Montgomery Curve with coefficient: " ++ show (cA E).
(* eccore.rs:849-853 *)
Definition show_couple (C : couple F) : text := lit "Couple point with points:" ++ newline ++ show_point (c1 C) ++ newline ++ show_point (c2 C).
(* theta.rs:122-126 *)
Definition show_tpoint (T : tpoint F) : text := show (tX T) ++ newline ++ show (tY T) ++ newline ++ show (tZ T) ++ newline ++ show (tT T) ++ newline.
End Show.
(* festa.rs:230-238 *)
Definition show_input (m : trapdoor_input) : text :=
  lit "(" ++ decimal (ti_s1 m) ++ lit ", " ++ decimal (ti_s2 m) ++ lit ", (" ++ decimal (fst (ti_B m)) ++ lit ", " ++ decimal (snd (ti_B m)) ++ lit "))".
(* isogeny.rs:125-143; [alternate] is the flag of "{:#}"; [None] is the panic of expect when the codomain was not computed *)
Definition show_isogeny {F : Type} (o : fops F) (show : F -> text) (alternate : bool) (I : isogeny F) : option text :=
  match i_cod I with
  | None => None
  | Some C =>
      Some (if alternate then lit "domain " ++ show (j_invariant o (i_dom I)) ++ lit " -> codomain " ++ show (j_invariant o C)
            else lit "domain " ++ show (cA (i_dom I)) ++ lit " -> codomain " ++ show (cA C))
  end.

(** ** Hash: the words that are fed to the hasher; an array is hashed as a slice, its length before its entries *)
(* fp_gen.rs:1840-1844 *)
Definition hash_fp (a : fp) : list Z := Z.of_nat (List.length a) :: a.
(* fp2_gen.rs:1093-1101 *)
Definition hash_fp2 (x : fp2) : list Z := hash_fp (fst x) ++ hash_fp (snd x).
