(** Model of src/theta.rs (macro define_theta_structure) over any field implementation [o].  [None] is a panic.
    Fq::batch_invert is written as element-wise inversion: the two agree limb for limb by C16_batch_invert.
    The constants MINUS_ONE and MINUS_ZETA are [fneg] of ONE and ZETA.  Vectors are lists in push order unless said otherwise.
    fmt::Display is not modelled.  No proofs in this file. *)
From Coq Require Import ZArith List Bool.
From Verif Require Import M_Fp M_Field M_Curve.
Import ListNotations.

(* theta.rs:62-67 (ThetaPoint), 134-137 (ThetaStructure; the six precomputed elements in order) *)
Record tpoint (F : Type) : Type := mkT { tX : F; tY : F; tZ : F; tT : F }.
Record tstruct (F : Type) : Type := mkTS { ts_null : tpoint F; ts_y0 : F; ts_z0 : F; ts_t0 : F; ts_Y0 : F; ts_Z0 : F; ts_T0 : F }.
Arguments mkT {F}. Arguments tX {F}. Arguments tY {F}. Arguments tZ {F}. Arguments tT {F}.
Arguments mkTS {F}. Arguments ts_null {F}. Arguments ts_y0 {F}. Arguments ts_z0 {F}. Arguments ts_t0 {F}. Arguments ts_Y0 {F}. Arguments ts_Z0 {F}. Arguments ts_T0 {F}.

(** ** Strategy traversal, generic in the points, theta.rs:1160-1253.
    Vectors are kept top first: push is cons, pop is tl.  usize sums are natural numbers: with a valid strategy no sum exceeds n - 1. *)
Section Traversal.
Context {D T : Type} (dbl : D -> T -> nat -> T) (push : nat -> D -> T -> T -> list T -> D * list T).
(* theta.rs:1180-1195 and 1223-1238: the while loop; [strat] is what is left of the strategy, reading past its end panics *)
Fixpoint descend (d : D) (strat : list nat) (level : list nat) (prev target : nat) (pts : list T) (T1 T2 : T) : option (list nat * list nat * list T * T * T) :=
  if Nat.eqb prev target then Some (strat, level, pts, T1, T2)
  else match strat with
       | [] => None
       | s :: rest => let T1' := dbl d T1 s in let T2' := dbl d T2 s in descend d rest (s :: level) (prev + s) target (T2' :: T1' :: pts) T1' T2'
       end.
(* theta.rs:1216-1254: for k in 1..n; [m] = n - k is the number of steps left, so n - 1 - k = m - 1; [push m'] is the step taken with m' = n - 1 - k *)
Fixpoint theta_loop (m : nat) (d : D) (strat level : list nat) (pts : list T) : option (D * list T) :=
  match m with
  | O => Some (d, pts)
  | S m' =>
      match pts with
      | T2 :: T1 :: _ =>
          match descend d strat level (list_sum level) m' pts T1 T2 with
          | None => None
          | Some (strat, level, pts, T1, T2) => let '(d, pts) := push m' d T1 T2 (tl (tl pts)) in theta_loop m' d strat (tl level) pts
          end
      | _ => None
      end
  end.
End Traversal.

Section Theta.
Context {F : Type} (o : fops F).
Local Infix "+" := (fadd o). Local Infix "-" := (fsub o). Local Infix "*" := (fmul o). Local Infix "/" := (fdiv o).
Local Notation one := (fone o). Local Notation zero := (fzero o).

(* theta.rs:30-41 *)
Definition to_hadamard (P : tpoint F) : tpoint F :=
  let t1 := tX P + tY P in let t2 := tX P - tY P in
  let t3 := tZ P + tT P in let t4 := tZ P - tT P in
  mkT (t1 + t3) (t2 + t4) (t1 - t3) (t2 - t4).
(* theta.rs:47-54 *)
Definition to_squared_theta (P : tpoint F) : tpoint F := to_hadamard (mkT (fsq o (tX P)) (fsq o (tY P)) (fsq o (tZ P)) (fsq o (tT P))).
(* theta.rs:171-190 *)
Definition precomputation (O0 : tpoint F) : F * F * F * F * F * F :=
  let S := to_squared_theta O0 in
  (tX O0 * finv o (tY O0), tX O0 * finv o (tZ O0), tX O0 * finv o (tT O0), tX S * finv o (tY S), tX S * finv o (tZ S), tX S * finv o (tT S)).
(* theta.rs:143-158 *)
Definition ts_new (O0 : tpoint F) : tstruct F := let '(y, z, t, YY, ZZ, TT) := precomputation O0 in mkTS O0 y z t YY ZZ TT.
(* theta.rs:195-214, 218-222 *)
Definition theta_double (S : tstruct F) (P : tpoint F) : tpoint F :=
  let Q := to_squared_theta P in
  let H := to_hadamard (mkT (fsq o (tX Q)) (ts_Y0 S * fsq o (tY Q)) (ts_Z0 S * fsq o (tZ Q)) (ts_T0 S * fsq o (tT Q))) in
  mkT (tX H) (tY H * ts_y0 S) (tZ H * ts_z0 S) (tT H * ts_t0 S).
(* theta.rs:226-232 *)
Definition theta_double_iter (S : tstruct F) (P : tpoint F) (n : nat) : tpoint F := Nat.iter n (theta_double S) P.

(** ** Gluing *)
(* theta.rs:249-271 *)
Definition get_base_submatrix (E : curve F) (P : point F) : F * F * F * F :=
  let '(x, z) := to_xz P in
  let '(u, w) := xdbl o E x z in
  let wx := w * x in let wz := w * z in let ux := u * x in let uz := u * z in
  let det := wx - uz in
  let d := uz * finv o det in
  (fneg o d, fneg o (wz * finv o det), ux * finv o det - x * finv o z, d).
(* theta.rs:280-355; the 16 entries in row order *)
Definition get_base_matrix (EE : eprod F) (P Q : couple F) : list F :=
  let '(g00_1, g01_1, g10_1, g11_1) := get_base_submatrix (e1 EE) (c1 P) in
  let '(g00_2, g01_2, g10_2, g11_2) := get_base_submatrix (e2 EE) (c2 P) in
  let '(h00_1, _, h10_1, _) := get_base_submatrix (e1 EE) (c1 Q) in
  let '(h00_2, h01_2, h10_2, h11_2) := get_base_submatrix (e2 EE) (c2 Q) in
  let gh00_1 := g00_1 * h00_1 + g01_1 * h10_1 in
  let gh10_1 := g10_1 * h00_1 + g11_1 * h10_1 in
  let gh00_2 := g00_2 * h00_2 + g01_2 * h10_2 in
  let gh10_2 := g10_2 * h00_2 + g11_2 * h10_2 in
  let a := one + g00_1 * g00_2 in let b := zero + g00_1 * g10_2 in let c := zero + g10_1 * g00_2 in let d := zero + g10_1 * g10_2 in
  let a := a + h00_1 * h00_2 in let b := b + h00_1 * h10_2 in let c := c + h10_1 * h00_2 in let d := d + h10_1 * h10_2 in
  let a := a + gh00_1 * gh00_2 in let b := b + gh00_1 * gh10_2 in let c := c + gh10_1 * gh00_2 in let d := d + gh10_1 * gh10_2 in
  let a1 := h00_2 * a + h01_2 * b in let b1 := h10_2 * a + h11_2 * b in let c1 := h00_2 * c + h01_2 * d in let d1 := h10_2 * c + h11_2 * d in
  let a2 := g00_1 * a + g01_1 * c in let b2 := g00_1 * b + g01_1 * d in let c2 := g10_1 * a + g11_1 * c in let d2 := g10_1 * b + g11_1 * d in
  let a3 := g00_1 * a1 + g01_1 * c1 in let b3 := g00_1 * b1 + g01_1 * d1 in let c3 := g10_1 * a1 + g11_1 * c1 in let d3 := g10_1 * b1 + g11_1 * d1 in
  [a; b; c; d; a1; b1; c1; d1; a2; b2; c2; d2; a3; b3; c3; d3].
(* theta.rs:360-366; M has 16 entries *)
Definition apply_base_change (P : tpoint F) (M : list F) : tpoint F :=
  let m i := nth i M zero in
  let row i := m i * tX P + m (i + 1)%nat * tY P + m (i + 2)%nat * tZ P + m (i + 3)%nat * tT P in
  mkT (row 0%nat) (row 4%nat) (row 8%nat) (row 12%nat).
(* theta.rs:376-384 *)
Definition fix_xz (P : point F) : F * F :=
  let '(X, Z) := to_xz P in
  let check := fis0 o X && fis0 o Z in
  (fcond o X one check, fcond o Z zero check).
(* theta.rs:371-396 *)
Definition base_change_couple_point (P : couple F) (M : list F) : tpoint F :=
  let '(X1, Z1) := fix_xz (c1 P) in
  let '(X2, Z2) := fix_xz (c2 P) in
  apply_base_change (mkT (X1 * X2) (X1 * Z2) (Z1 * X2) (Z1 * Z2)) M.
(* the array conversions [.into()] and list(), theta.rs:105-107 *)
Definition t_list (P : tpoint F) : list F := [tX P; tY P; tZ P; tT P].
Definition t_of (l : list F) : tpoint F := mkT (nth 0 l zero) (nth 1 l zero) (nth 2 l zero) (nth 3 l zero).
(* theta.rs:402-412: the bitwise or of the indices of the zero entries *)
Fixpoint zero_index_from (i : nat) (l : list F) : nat :=
  match l with [] => O | x :: l' => Nat.lor (if fis0 o x then i else O) (zero_index_from (S i) l') end.
Definition zero_index (l : list F) : nat := zero_index_from 0 l.
(* indexing by i ^ z_idx *)
Definition xnth (l : list F) (i z : nat) : F := nth (Nat.lxor i z) l zero.
(* an array v with v[i ^ z_idx] = the i-th argument *)
Definition xarr (x y z t : F) (zi : nat) : tpoint F := let l := [x; y; z; t] in mkT (xnth l 0 zi) (xnth l 1 zi) (xnth l 2 zi) (xnth l 3 zi).
(* theta.rs:423-462 *)
Definition gluing_codomain (T1 T2 : tpoint F) : tstruct F * (F * F) * nat :=
  let x := t_list (to_squared_theta T1) in
  let z := t_list (to_squared_theta T2) in
  let zi := zero_index x in
  let t1 := xnth z 1 zi in let t2 := xnth x 2 zi in let t3 := xnth z 3 zi in let t4 := xnth x 3 zi in
  let ABCD := xarr zero (t1 * finv o t3) (t2 * finv o t4) one zi in
  (ts_new (to_hadamard ABCD), (t3 * finv o t1, t4 * finv o t2), zi).
(* theta.rs:472-528 *)
Definition gluing_image (P Pshift : tpoint F) (a_inv b_inv : F) (zi : nat) : tpoint F :=
  let A := t_list (to_squared_theta P) in
  let B := t_list (to_squared_theta Pshift) in
  let y := xnth A 1 zi * a_inv in
  let z := xnth A 2 zi * b_inv in
  let t := xnth A 3 zi in
  let zb := xnth B 3 zi in
  let tb := xnth B 2 zi * b_inv in
  let lam := z * finv o zb in
  let lam_t := t * finv o tb in
  let lam := fcond o lam lam_t (fis0 o z) in
  let xb := xnth B 1 zi * a_inv in
  let x := xb * lam in
  to_hadamard (xarr x y z t zi).
(* theta.rs:532-590 *)
Definition gluing_isogeny (EE : eprod F) (P8 Q8 : couple F) (pts : list (couple F)) : tstruct F * list (tpoint F) :=
  let P4 := prod_double o EE P8 in
  let Q4 := prod_double o EE Q8 in
  let M := get_base_matrix EE P4 Q4 in
  let T1 := base_change_couple_point P8 M in
  let T2 := base_change_couple_point Q8 M in
  let '(cod, (a_inv, b_inv), zi) := gluing_codomain T1 T2 in
  (cod, map (fun P => gluing_image (base_change_couple_point P M) (base_change_couple_point (prod_add o EE P P4) M) a_inv b_inv zi) pts).

(** ** (2,2)-isogenies *)
(* theta.rs:607-665; [h0], [h1] are hadamard[0], hadamard[1] *)
Definition two_isogeny (dom : tstruct F) (T1 T2 : tpoint F) (pts : list (tpoint F)) (h0 h1 : bool) : tstruct F * list (tpoint F) :=
  let x := to_squared_theta T1 in
  let z := to_squared_theta T2 in
  let A := one in
  let B := tY x * finv o (tX x) in
  let C := tZ z * finv o (tX z) in
  let D := tT z * finv o (tY z) * B in
  let B_inv := ts_Y0 dom * B in
  let C_inv := ts_Z0 dom * C in
  let D_inv := ts_T0 dom * D in
  let N := mkT A B C D in
  let N := if h1 then to_hadamard N else N in
  (ts_new N,
   map (fun P =>
     let P := if h0 then to_hadamard P else P in
     let S := to_squared_theta P in
     let R := mkT (tX S) (tY S * B_inv) (tZ S * C_inv) (tT S * D_inv) in
     if h1 then to_hadamard R else R) pts).
(* theta.rs:675-721 *)
Definition two_isogeny_to_product (T1 T2 : tpoint F) (pts : list (tpoint F)) : tstruct F * list (tpoint F) :=
  let x := to_squared_theta (to_hadamard T1) in
  let z := to_squared_theta (to_hadamard T2) in
  let B := tY x * finv o (tX x) in
  let C := tZ z * finv o (tX z) in
  let D := tT z * finv o (tY z) * B in
  let B_inv := tX x * finv o (tY x) in
  let C_inv := tX z * finv o (tZ z) in
  let D_inv := tY z * finv o (tT z) * B_inv in
  (ts_new (mkT one B C D),
   map (fun P => let S := to_squared_theta (to_hadamard P) in mkT (tX S) (tY S * B_inv) (tZ S * C_inv) (tT S * D_inv)) pts).

(** ** Splitting *)
(* theta.rs:760-780; [true]: the mask 0xFFFFFFFF.  Only called with arguments below 4 *)
Definition chi_eval (x y : nat) : bool :=
  match x, y with
  | 1, 1 | 1, 3 | 2, 2 | 2, 3 | 3, 1 | 3, 2 => true
  | _, _ => false
  end%nat.
(* theta.rs:785-795 *)
Definition level_22_constants_sqr (N : tpoint F) (chi i : nat) : F :=
  let l := t_list N in
  fold_left (fun U t => U + fcneg o (nth t l zero * nth (Nat.lxor i t) l zero) (chi_eval chi t)) [0; 1; 2; 3]%nat zero.
(* theta.rs:802-813 *)
Definition even_indices : list (nat * nat) := [(0, 0); (0, 1); (0, 2); (0, 3); (1, 0); (1, 2); (2, 0); (2, 1); (3, 0); (3, 3)]%nat.
(* theta.rs:801-829 *)
Definition identify_even_index (N : tpoint F) : nat * nat :=
  fold_left (fun r ci => if fis0 o (level_22_constants_sqr N (fst ci) (snd ci)) then (Nat.lor (fst r) (fst ci), Nat.lor (snd r) (snd ci)) else r) even_indices (0, 0)%nat.
(* theta.rs:837-898: MAPS *)
Definition splitting_map (i : nat) : list F :=
  let O := zero in let I := one in let N := fneg o one in let Z := fzeta o in let Y := fneg o (fzeta o) in
  nth i [
    [I; O; O; O;  O; I; O; O;  O; O; O; I;  O; O; N; O];
    [I; O; O; O;  O; I; O; O;  O; O; I; O;  O; O; O; I];
    [I; O; O; O;  O; I; O; O;  O; O; I; O;  O; O; O; N];
    [I; I; I; I;  I; N; I; N;  I; N; N; I;  I; I; N; N];
    [I; O; O; O;  O; O; O; I;  O; O; I; O;  O; N; O; O];
    [I; O; O; O;  O; I; O; O;  O; O; O; I;  O; O; I; O];
    [I; I; I; I;  I; N; I; N;  I; N; N; I;  N; N; I; I];
    [I; I; I; I;  I; N; I; N;  I; I; N; N;  N; I; I; N];
    [I; I; I; I;  I; N; N; I;  I; I; N; N;  N; I; N; I];
    [I; Z; I; Z;  I; Y; I; Z;  I; Z; I; Y;  I; Z; I; Z]] [].
(* theta.rs:901-923 *)
Definition splitting_location (loc : nat * nat) : option nat :=
  match loc with
  | (0, 2) => Some 0 | (3, 3) => Some 1 | (0, 3) => Some 2 | (2, 1) => Some 3 | (0, 1) => Some 4
  | (1, 2) => Some 5 | (2, 0) => Some 6 | (3, 0) => Some 7 | (1, 0) => Some 8 | (0, 0) => Some 9
  | _ => None
  end%nat.
Definition compute_splitting_matrix (N : tpoint F) : option (list F) :=
  match splitting_location (identify_even_index N) with None => None | Some i => Some (splitting_map i) end.
(* theta.rs:928-945 *)
Definition splitting_isomorphism (Th : tstruct F) (pts : list (tpoint F)) : option (tstruct F * list (tpoint F)) :=
  match compute_splitting_matrix (ts_null Th) with
  | None => None
  | Some M => Some (ts_new (apply_base_change (ts_null Th) M), map (fun P => apply_base_change P M) pts)
  end.
(* theta.rs:952-959 *)
Definition split_theta_point (P : tpoint F) : (F * F) * (F * F) := ((tX P, tY P), (tY P, tT P)).
(* theta.rs:967-979 *)
Definition null_point_to_montgomery_curve (O0 : F * F) : option (curve F) :=
  let '(a, b) := O0 in
  let aa := fsq o a in let bb := fsq o b in
  let T1 := aa + bb in let T2 := aa - bb in
  curve_new o (fneg o (fsq o T1 + fsq o T2) / (T1 * T2)).
(* theta.rs:986-997 *)
Definition theta_point_to_montgomery_point (O0 P : F * F) : pointx F :=
  let '(a, b) := O0 in let '(U, V) := P in
  mkPointX (a * V + b * U) (a * V - b * U).
(* theta.rs:1002-1042 *)
Definition split_to_product (Th : tstruct F) (pts : list (tpoint F)) (num : nat) : option (eprod F * list (couple F)) :=
  let '(O1, O2) := split_theta_point (ts_null Th) in
  match null_point_to_montgomery_curve O1, null_point_to_montgomery_curve O2 with
  | Some E3, Some E4 =>
      Some (mkEprod E3 E4, map (fun P =>
        let '(P1, P2) := split_theta_point P in
        mkCouple (fst (complete_pointX o E3 (theta_point_to_montgomery_point O1 P1))) (fst (complete_pointX o E4 (theta_point_to_montgomery_point O2 P2))))
        (firstn num pts))
  | _, _ => None
  end.

(** ** Products *)
(* theta.rs:1247-1253: the step taken when m' = n - 1 - k steps follow it *)
Definition theta_push (m' : nat) (dom : tstruct F) (T1 T2 : tpoint F) (pts : list (tpoint F)) : tstruct F * list (tpoint F) :=
  if Nat.eqb m' 1 then two_isogeny dom T1 T2 pts false false
  else if Nat.eqb m' 0 then two_isogeny_to_product T1 T2 pts
  else two_isogeny dom T1 T2 pts false true.
Definition product_finish (dom : tstruct F) (pts : list (tpoint F)) (num : nat) : option (eprod F * list (couple F)) :=
  match splitting_isomorphism dom pts with None => None | Some (dom, pts) => split_to_product dom pts num end.
(* theta.rs:1079-1137; n = 0: n - 1 underflows (a panic, or about 2^64 doublings).  In the loop m = n - k *)
Fixpoint naive_loop (m num : nat) (dom : tstruct F) (pts : list (tpoint F)) : option (tstruct F * list (tpoint F)) :=
  match m with
  | O => Some (dom, pts)
  | S m' =>
      match nth_error pts num, nth_error pts (S num) with
      | Some K1, Some K2 =>
          let '(dom, pts) := theta_push m' dom (theta_double_iter dom K1 m') (theta_double_iter dom K2 m') pts in
          naive_loop m' num dom pts
      | _, _ => None
      end
  end.
Definition product_isogeny_no_strategy (EE : eprod F) (P Q : couple F) (imgs : list (couple F)) (n : nat) : option (eprod F * list (couple F)) :=
  match n with
  | O => None
  | S n' =>
      let pts := imgs ++ [P; Q] in
      let '(dom, pts) := gluing_isogeny EE (prod_double_iter o EE P n') (prod_double_iter o EE Q n') pts in
      match naive_loop n' (length imgs) dom pts with None => None | Some (dom, pts) => product_finish dom pts (length imgs) end
  end.
(* theta.rs:1142-1266.  The couple points are kept top first during the descent and handed to gluing_isogeny in push order.
   n = 0: n - 1 underflows (a panic, or the descent reads past the strategy) *)
Definition product_isogeny (EE : eprod F) (P Q : couple F) (imgs : list (couple F)) (n : nat) (strategy : list nat) : option (eprod F * list (couple F)) :=
  match n with
  | O => None
  | S n' =>
      match descend (prod_double_iter o) EE strategy [0%nat] 0 n' (Q :: P :: rev imgs) P Q with
      | None => None
      | Some (strat, level, pts, ker1, ker2) =>
          let '(dom, tpts) := gluing_isogeny EE ker1 ker2 (rev (tl (tl pts))) in
          match theta_loop theta_double_iter theta_push n' dom strat (tl level) (rev tpts) with
          | None => None
          | Some (dom, tpts) => product_finish dom (rev tpts) (length imgs)
          end
      end
  end.
End Theta.
