(** C72: what the Display implementations print determines the value (M_Display.v). *)
From Coq Require Import ZArith List Bool Lia Ring Field Ascii String.
From Verif Require Import S_Fp S_Fp2 M_Utils64 M_Fp M_Fp2 M_Field M_Curve M_Isogeny M_Theta M_Festa M_Display L_Words L_FpCodec L_Zp L_Zp2 L_Fp L_Fp2 L_Field L_Curve P_Fp P_Fp2 P_Curve P_Iso.
Import ListNotations.
Open Scope Z_scope.

(** ** Specification: reading a decimal number *)
Definition code (c : ascii) : Z := Z.of_N (N_of_ascii c).
Definition is_digit (c : ascii) : bool := (48 <=? code c) && (code c <=? 57).
Definition read (s : text) : Z := fold_left (fun a c => 10 * a + (code c - 48)) s 0.
(** s is the usual decimal form of z: digits only, no leading zero unless it is the only digit, value z *)
Definition numeral (z : Z) (s : text) : Prop := forallb is_digit s = true /\ s <> [] /\ read s = z /\ (z <> 0 -> forall t, s <> "0"%char :: t).

Lemma code_digit d : 0 <= d < 10 -> code (digit d) = 48 + d.
Proof. intros H. unfold code, digit. rewrite N_ascii_embedding by lia. lia. Qed.
Lemma digit_ok d : 0 <= d < 10 -> is_digit (digit d) = true.
Proof. intros H. unfold is_digit. rewrite code_digit by exact H. apply andb_true_iff. split; apply Z.leb_le; lia. Qed.
Lemma read_app s c : read (s ++ [c]) = 10 * read s + (code c - 48).
Proof. unfold read. rewrite fold_left_app. reflexivity. Qed.
Lemma digits_ok : forall fuel z, 0 <= z -> z < 10 ^ Z.of_nat fuel -> (0 < fuel)%nat -> numeral z (decimal_digits fuel z).
Proof.
  induction fuel; intros z Hz Hb Hf; [lia|]. cbn [decimal_digits]. destruct (Z.ltb_spec z 10) as [L|L].
  - split; [cbn [forallb]; rewrite digit_ok by lia; reflexivity|]. split; [discriminate|]. split; [unfold read; cbn [fold_left]; rewrite code_digit by lia; lia|].
    intros N t C. injection C as C _. apply (f_equal code) in C. rewrite code_digit in C by lia. change (code "0") with 48 in C. lia.
  - pose proof (Z.div_pos z 10 Hz ltac:(lia)) as D0. pose proof (Z.mod_pos_bound z 10 ltac:(lia)) as M0. assert (D1 : 1 <= z / 10) by (apply Z.div_le_lower_bound; lia).
    assert (Bd : z / 10 < 10 ^ Z.of_nat fuel) by (apply Z.div_lt_upper_bound; [lia|]; rewrite <- Z.pow_succ_r, <- Nat2Z.inj_succ by lia; exact Hb).
    assert (F0 : (0 < fuel)%nat) by (destruct fuel; [change (10 ^ Z.of_nat 0) with 1 in Bd; lia|lia]).
    destruct (IHfuel (z / 10) D0 Bd F0) as (A1 & A2 & A3 & A4). split; [|split; [|split]].
    + rewrite forallb_app, A1. cbn [forallb]. rewrite digit_ok by lia. reflexivity.
    + intros C. apply app_eq_nil in C. destruct C as [_ C]. discriminate.
    + rewrite read_app, A3, code_digit by lia. pose proof (Z.div_mod z 10 ltac:(lia)). lia.
    + intros _ t. destruct (decimal_digits fuel (z / 10)) as [|c r] eqn:Er; [congruence|]. intros C. injection C as -> _. exact (A4 ltac:(lia) r eq_refl).
Qed.
Lemma pow_le fuel : 2 ^ Z.of_nat fuel <= 10 ^ Z.of_nat fuel. Proof. apply Z.pow_le_mono_l. lia. Qed.
Theorem C72_decimal : forall z, 0 <= z -> numeral z (decimal z).
Proof.
  intros z Hz. unfold decimal. apply digits_ok; [exact Hz| |lia]. eapply Z.lt_le_trans; [|apply pow_le]. destruct (Z.eq_dec z 0) as [->|N]; [reflexivity|].
  rewrite Nat2Z.inj_succ, Z2Nat.id by apply Z.log2_nonneg. apply Z.log2_spec. lia.
Qed.
(** ** A numeral ends where the first other character stands *)
Definition stops (s : text) : Prop := match s with [] => True | c :: _ => is_digit c = false end.
Lemma split_digits : forall a b s t, forallb is_digit a = true -> forallb is_digit b = true -> stops s -> stops t -> a ++ s = b ++ t -> a = b /\ s = t.
Proof.
  induction a as [|c a IH]; intros [|d b] s t Ha Hb Hs Ht H; cbn [app forallb] in *.
  - auto.
  - subst s. apply andb_true_iff in Hb. cbn [stops] in Hs. destruct Hb. congruence.
  - subst t. apply andb_true_iff in Ha. cbn [stops] in Ht. destruct Ha. congruence.
  - injection H as -> H. apply andb_true_iff in Ha, Hb. destruct (IH b s t (proj2 Ha) (proj2 Hb) Hs Ht H) as [-> ->]. auto.
Qed.
Lemma dec_split a b s t : 0 <= a -> 0 <= b -> stops s -> stops t -> decimal a ++ s = decimal b ++ t -> a = b /\ s = t.
Proof.
  intros Ha Hb Hs Ht H. destruct (C72_decimal a Ha) as (A1 & _ & A2 & _). destruct (C72_decimal b Hb) as (B1 & _ & B2 & _). destruct (split_digits _ _ _ _ A1 B1 Hs Ht H) as [E ->]. split; [|reflexivity]. rewrite <- A2, <- B2, E. reflexivity.
Qed.
Lemma app_cancel {A : Type} (l s t : list A) : l ++ s = l ++ t -> s = t. Proof. apply app_inv_head. Qed.
(** ** C72: field elements *)
Lemma fp_value a : canon a -> of_le_bytes (encode a) = val a.
Proof. intros H. destruct (C05_encode a H) as (B & _ & V). rewrite of_le_bytes_ok by exact B. exact V. Qed.
Lemma val_nonneg a : 0 <= val a. Proof. unfold val. apply Z.mod_pos_bound. reflexivity. Qed.
Theorem C72_fp : forall a, canon a -> numeral (val a) (show_fp a).
Proof. intros a H. unfold show_fp. rewrite fp_value by exact H. apply C72_decimal, val_nonneg. Qed.
Lemma fp2_show x : canon2 x -> show_fp2 x = lit "i*" ++ decimal (val (snd x)) ++ lit " + " ++ decimal (val (fst x)).
Proof.
  intros H. unfold show_fp2. cbv zeta. destruct (C19_encode x H) as (B & L & V). rewrite !of_le_bytes_ok by (first [apply bytes_firstn|apply bytes_skipn]; exact B). unfold val2 in V. apply pair_equal_spec in V. destruct V as [V0 V1]. rewrite V0, V1. reflexivity.
Qed.
Theorem C72_fp2 : forall x, canon2 x -> exists s1 s0, show_fp2 x = lit "i*" ++ s1 ++ lit " + " ++ s0 /\ numeral (fst (val2 x)) s0 /\ numeral (snd (val2 x)) s1.
Proof. intros x H. exists (decimal (val (snd x))), (decimal (val (fst x))). split; [apply fp2_show, H|]. split; apply C72_decimal, val_nonneg. Qed.
(** elements as the library stores them: always reduced (C01) *)
Definition show_fq (x : fq) : text := show_fp2 (proj1_sig x).
Lemma fq_split x y s t : stops s -> stops t -> show_fq x ++ s = show_fq y ++ t -> x = y /\ s = t.
Proof.
  intros Hs Ht H. unfold show_fq in H. rewrite !fp2_show in H by apply fq_c. rewrite <- !app_assoc in H. apply app_cancel in H.
  apply dec_split in H; try apply val_nonneg; try reflexivity. destruct H as [H1 H]. apply app_cancel in H. apply dec_split in H; try apply val_nonneg; try assumption. destruct H as [H0 H].
  split; [|exact H]. apply fq_eq. pose proof (fq_c x) as [X0 X1]. pose proof (fq_c y) as [Y0 Y1]. destruct (proj1_sig x) as [x0 x1], (proj1_sig y) as [y0 y1]. cbn [fst snd] in *. f_equal; apply val_inj; assumption.
Qed.
Theorem C72_fq : forall x y, show_fq x = show_fq y <-> x = y.
Proof. intros x y. split; [|intros ->; reflexivity]. intros H. destruct (fq_split x y [] [] I I) as [E _]; [rewrite !app_nil_r; exact H|exact E]. Qed.

(** ** C72: points, curves, couples, theta points *)
Lemma point_split P Q s t : show_point show_fq P ++ s = show_point show_fq Q ++ t -> P = Q /\ s = t.
Proof.
  destruct P as [x y z], Q as [x' y' z']. unfold show_point. cbn [pX pY pZ]. rewrite <- !app_assoc. intros H. apply app_cancel in H.
  apply fq_split in H; [|reflexivity|reflexivity]. destruct H as [-> H]. apply app_cancel in H. apply fq_split in H; [|reflexivity|reflexivity]. destruct H as [-> H]. apply app_cancel in H. apply fq_split in H; [|reflexivity|reflexivity]. destruct H as [-> H]. apply app_cancel in H. auto.
Qed.
Theorem C72_point : forall P Q, show_point show_fq P = show_point show_fq Q <-> P = Q.
Proof. intros P Q. split; [|intros ->; reflexivity]. intros H. destruct (point_split P Q [] []) as [E _]; [rewrite !app_nil_r; exact H|exact E]. Qed.
Theorem C72_curve : forall E E', show_curve show_fq E = show_curve show_fq E' <-> cA E = cA E'.
Proof. intros E E'. unfold show_curve. split; [|intros ->; reflexivity]. intros H. apply app_cancel in H. apply C72_fq. exact H. Qed.
Theorem C72_couple : forall C D, show_couple show_fq C = show_couple show_fq D <-> C = D.
Proof.
  intros [P Q] [R S]. split; [|intros ->; reflexivity]. unfold show_couple. cbn [c1 c2]. intros H. apply app_cancel in H. apply app_cancel in H. apply point_split in H. destruct H as [-> H]. apply app_cancel in H. apply C72_point in H. rewrite H. reflexivity.
Qed.
Theorem C72_theta : forall S T, show_tpoint show_fq S = show_tpoint show_fq T <-> S = T.
Proof.
  intros [x y z t] [x' y' z' t']. split; [|intros ->; reflexivity]. unfold show_tpoint. cbn [tX tY tZ tT]. intros H. do 3 (apply fq_split in H; [|reflexivity|reflexivity]; destruct H as [-> H]; apply app_cancel in H).
  apply fq_split in H; [|reflexivity|reflexivity]. destruct H as [-> _]. reflexivity.
Qed.
(** ** C72: messages: printed alike exactly when the comparison of festa.rs says they are equal *)
Definition natural_input (m : trapdoor_input) : Prop := 0 <= ti_s1 m /\ 0 <= ti_s2 m /\ 0 <= fst (ti_B m) /\ 0 <= snd (ti_B m).
Theorem C72_input : forall m m', natural_input m -> natural_input m' -> (show_input m = show_input m' <-> ti_eqb m m' = true).
Proof.
  intros m m' (A1 & A2 & A3 & A4) (B1 & B2 & B3 & B4). rewrite C67_equality. split; [|intros ->; reflexivity]. unfold show_input. intros H. apply app_cancel in H.
  do 3 (apply dec_split in H; [|assumption|assumption|reflexivity|reflexivity]; destruct H as [? H]; apply app_cancel in H). apply dec_split in H; [|assumption|assumption|reflexivity|reflexivity]. destruct H as [? _].
  destruct m as [s1 s2 [b y]], m' as [s1' s2' [b' y']]. cbn [ti_s1 ti_s2 ti_B fst snd] in *. congruence.
Qed.
(** ** C72: the order in which the parts appear.  Specification: the numbers that stand in a text, from left to right *)
Fixpoint numbers_from (acc : option Z) (s : text) : list Z :=
  match s with
  | [] => match acc with Some z => [z] | None => [] end
  | c :: r => if is_digit c then numbers_from (Some (10 * match acc with Some z => z | None => 0 end + (code c - 48))) r
              else match acc with Some z => z :: numbers_from None r | None => numbers_from None r end
  end.
Definition numbers : text -> list Z := numbers_from None.
Lemma numbers_lit : forall l s, forallb (fun c => negb (is_digit c)) l = true -> numbers (l ++ s) = numbers s.
Proof.
  induction l as [|c l IH]; intros s H; [reflexivity|]. cbn [forallb] in H. apply andb_true_iff in H. destruct H as [H1 H2]. apply negb_true_iff in H1.
  unfold numbers. cbn [app numbers_from]. rewrite H1. exact (IH s H2).
Qed.
Lemma numbers_run : forall a z s, forallb is_digit a = true -> stops s -> numbers_from (Some z) (a ++ s) = fold_left (fun b c => 10 * b + (code c - 48)) a z :: numbers s.
Proof.
  induction a as [|c a IH]; intros z s Ha Hs.
  - cbn [app fold_left]. destruct s as [|d s]; [reflexivity|]. cbn [stops] in Hs. unfold numbers. cbn [numbers_from]. rewrite Hs. reflexivity.
  - cbn [forallb] in Ha. apply andb_true_iff in Ha. destruct Ha as [H1 H2]. cbn [app numbers_from fold_left]. rewrite H1. apply IH; assumption.
Qed.
Lemma numbers_dec z s : 0 <= z -> stops s -> numbers (decimal z ++ s) = z :: numbers s.
Proof.
  intros Hz Hs. destruct (C72_decimal z Hz) as (A1 & A2 & A3 & _). destruct (decimal z) as [|c a]; [congruence|]. cbn [forallb] in A1. apply andb_true_iff in A1. destruct A1 as [H1 H2].
  unfold numbers. cbn [app numbers_from]. rewrite H1, numbers_run by assumption. unfold read in A3. cbn [fold_left] in A3. rewrite A3. reflexivity.
Qed.
Definition parts (x : fq) : list Z := [val (snd (proj1_sig x)); val (fst (proj1_sig x))].
Lemma numbers_fq x s : stops s -> numbers (show_fq x ++ s) = parts x ++ numbers s.
Proof.
  intros Hs. unfold show_fq. rewrite fp2_show by apply fq_c. rewrite <- !app_assoc, (numbers_lit (lit "i*")) by reflexivity. rewrite numbers_dec by (first [apply val_nonneg|reflexivity]).
  rewrite (numbers_lit (lit " + ")) by reflexivity. rewrite numbers_dec by (first [apply val_nonneg|exact Hs]). reflexivity.
Qed.
Lemma numbers_end l : forallb (fun c => negb (is_digit c)) l = true -> numbers l = []. Proof. intros H. rewrite <- (app_nil_r l), numbers_lit by exact H. reflexivity. Qed.
Lemma numbers_point P s : numbers (show_point show_fq P ++ s) = parts (pX P) ++ parts (pY P) ++ parts (pZ P) ++ numbers s.
Proof.
  unfold show_point. rewrite <- !app_assoc, (numbers_lit (lit "Elliptic Curve Point: (")) by reflexivity. rewrite numbers_fq by reflexivity. rewrite (numbers_lit (lit " : ")) by reflexivity.
  rewrite numbers_fq by reflexivity. rewrite (numbers_lit (lit " : ")) by reflexivity. rewrite numbers_fq by reflexivity. rewrite (numbers_lit (lit ")")) by reflexivity. reflexivity.
Qed.
Theorem C72_order :
  (forall x, numbers (show_fq x) = parts x) /\
  (forall P, numbers (show_point show_fq P) = parts (pX P) ++ parts (pY P) ++ parts (pZ P)) /\
  (forall E, numbers (show_curve show_fq E) = parts (cA E)) /\
  (forall C, numbers (show_couple show_fq C) = (parts (pX (c1 C)) ++ parts (pY (c1 C)) ++ parts (pZ (c1 C))) ++ parts (pX (c2 C)) ++ parts (pY (c2 C)) ++ parts (pZ (c2 C))) /\
  (forall T, numbers (show_tpoint show_fq T) = parts (tX T) ++ parts (tY T) ++ parts (tZ T) ++ parts (tT T)) /\
  (forall m, 0 <= ti_s1 m -> 0 <= ti_s2 m -> 0 <= fst (ti_B m) -> 0 <= snd (ti_B m) -> numbers (show_input m) = [ti_s1 m; ti_s2 m; fst (ti_B m); snd (ti_B m)]).
Proof.
  split; [|split; [|split; [|split; [|split]]]].
  - intros x. rewrite <- (app_nil_r (show_fq x)), numbers_fq by exact I. reflexivity.
  - intros P. rewrite <- (app_nil_r (show_point show_fq P)), numbers_point. reflexivity.
  - intros E. unfold show_curve. rewrite numbers_lit by reflexivity. rewrite <- (app_nil_r (show_fq (cA E))), numbers_fq by exact I. reflexivity.
  - intros C. unfold show_couple. rewrite (numbers_lit (lit "Couple point with points:")), (numbers_lit newline), numbers_point, (numbers_lit newline) by reflexivity. rewrite <- (app_nil_r (show_point show_fq (c2 C))), numbers_point. rewrite <- !app_assoc. reflexivity.
  - intros T. unfold show_tpoint. do 3 (rewrite numbers_fq by reflexivity; rewrite (numbers_lit newline) by reflexivity). rewrite numbers_fq by reflexivity. rewrite (numbers_end newline) by reflexivity. reflexivity.
  - intros m H1 H2 H3 H4. unfold show_input. rewrite (numbers_lit (lit "(")) by reflexivity. rewrite numbers_dec by (first [assumption|reflexivity]). rewrite (numbers_lit (lit ", ")) by reflexivity. rewrite numbers_dec by (first [assumption|reflexivity]).
    rewrite (numbers_lit (lit ", (")) by reflexivity. rewrite numbers_dec by (first [assumption|reflexivity]). rewrite (numbers_lit (lit ", ")) by reflexivity. rewrite numbers_dec by (first [assumption|reflexivity]). reflexivity.
Qed.
Print Assumptions C72_order.
(** Printing does not depend on the point alone: two representations of one point, equal for the library, are printed differently. *)
Theorem C72_point_refuted : exists E P Q, valid E /\ on_E E P /\ on_E E Q /\ affine P <> None /\ p_equals fq_ops P Q = true /\ show_point show_fq P <> show_point show_fq Q.
Proof.
  set (Z := fadd fq_ops (fone fq_ops) (fone fq_ops)). set (Q := mkPoint (fzero fq_ops) (fzero fq_ops) Z). assert (VZ : fqv Z = qadd q1 q1) by (unfold Z; rewrite (l_add _ _ _ _ _ _ _ _ _ _ _ fq_laws), (l_one _ _ _ _ _ _ _ _ _ _ _ fq_laws); reflexivity).
  assert (V0 : fqv (fzero fq_ops) = q0) by exact (l_zero _ _ _ _ _ _ _ _ _ _ _ fq_laws).
  assert (AQ : affine Q = Some (q0, q0)).
  { unfold affine, Q. cbn [pX pY pZ]. rewrite VZ, V0. assert (N : qeqb (qadd q1 q1) q0 = false) by (apply qeqb_false; exact q2_nz). rewrite N. assert (D : qdiv q0 (qadd q1 q1) = q0) by (field; exact q2_nz). rewrite D. reflexivity. }
  exists exC, exT, Q. split; [exact (proj1 (proj2 C36_ex))|]. split; [apply exT_on|]. split; [unfold on_E; rewrite AQ, <- exT_affine; apply exT_on|]. split; [rewrite exT_affine; discriminate|]. split; [apply C44_equals; rewrite AQ; exact exT_affine|].
  intros H. apply C72_point in H. apply (f_equal (fun P => fqv (pZ P))) in H. unfold Q in H. cbn [pZ] in H. rewrite VZ in H. change (pZ exT) with (fone fq_ops) in H. rewrite (l_one _ _ _ _ _ _ _ _ _ _ _ fq_laws) in H.
  apply q1_nz. transitivity (qsub (qadd q1 q1) q1); [ring|]. rewrite <- H. ring.
Qed.
Example C72_ex : show_fp (from_u32 1290) = lit "1290" /\ show_fp2 (from_u32 7, from_u32 0) = lit "i*0 + 7" /\ natural_input (mkTI 5 70 (3, 11)) /\ show_input (mkTI 5 70 (3, 11)) = lit "(5, 70, (3, 11))".
Proof. split; [vm_compute; reflexivity|]. split; [vm_compute; reflexivity|]. split; [unfold natural_input; cbn [ti_s1 ti_s2 ti_B fst snd]; repeat split; discriminate|vm_compute; reflexivity]. Qed.
Print Assumptions C72_fp. Print Assumptions C72_fp2. Print Assumptions C72_couple. Print Assumptions C72_theta. Print Assumptions C72_curve. Print Assumptions C72_input. Print Assumptions C72_point_refuted.
Print Assumptions C72_decimal.
Print Assumptions C72_fq.
Print Assumptions C72_point.

(** ** C72: isogenies: the coefficients or the j-invariants of both curves; panics exactly when there is no codomain *)
Theorem C72_isogeny : forall alt I,
  (show_isogeny fq_ops show_fq alt I = None <-> i_cod I = None) /\
  (forall C, i_cod I = Some C -> exists s, show_isogeny fq_ops show_fq alt I = Some s /\
     numbers s = if alt then parts (j_invariant fq_ops (i_dom I)) ++ parts (j_invariant fq_ops C) else parts (cA (i_dom I)) ++ parts (cA C)).
Proof.
  intros alt I. unfold show_isogeny. destruct (i_cod I) as [D|]; [split; [split; intros; discriminate|]|split; [split; reflexivity|intros; discriminate]].
  intros C [= ->]. eexists. split; [reflexivity|]. destruct alt; rewrite numbers_lit by reflexivity; rewrite numbers_fq by reflexivity; rewrite (numbers_lit (lit " -> codomain ")) by reflexivity; rewrite (proj1 C72_order); reflexivity.
Qed.
Print Assumptions C72_isogeny.

(** ** C73: equality and hashing agree.  The words fed to the hasher are the same exactly for equal elements, so a hash table keyed by
    field elements finds every key.  Specification of the hash code: the Montgomery representative of a value *)
Definition mont (z : Z) : Z := (z * 2 ^ 1344) mod P.
Lemma eval_mont a : canon a -> eval a = mont (val a).
Proof.
  intros H. unfold mont. change (2 ^ 1344) with RR. rewrite <- WN_RR. apply cg_small; [apply canon_bound; exact H|apply Z.mod_pos_bound; exact P_pos|]. rewrite cg_mod_l, val_cg. reflexivity.
Qed.
Lemma limb0 a : canon a -> hashcode a = mont (val a) mod 2 ^ 64.
Proof.
  intros H. rewrite <- eval_mont by exact H. destruct H as (L & W & _). destruct a as [|w a]; [discriminate|]. inversion W as [|? ? Hw]; subst. unfold hashcode, limb. cbn [nth eval]. unfold word in Hw.
  change (2 ^ 64) with 18446744073709551616. rewrite Z.mul_comm, Z.mod_add, Z.mod_small by lia. reflexivity.
Qed.
Theorem C73_fp : forall a b, canon a -> canon b -> (equals a b <> 0 <-> val a = val b) /\ (hash_fp a = hash_fp b <-> equals a b <> 0) /\ hashcode a = mont (val a) mod 2 ^ 64.
Proof.
  intros a b Ha Hb. rewrite C08_equals by assumption. assert (E : mask32 (val a =? val b) <> 0 <-> val a = val b).
  { destruct (Z.eqb_spec (val a) (val b)) as [E|E]; cbn [mask32]; split; intros H; try assumption; try discriminate; try congruence. }
  split; [exact E|]. split; [|apply limb0; exact Ha]. rewrite E. split.
  - intros H. unfold hash_fp in H. injection H as _ ->. reflexivity.
  - intros H. rewrite (val_inj a b Ha Hb H). reflexivity.
Qed.
Lemma app_inj_len {A : Type} : forall (a b c d : list A), List.length a = List.length c -> a ++ b = c ++ d -> a = c /\ b = d.
Proof. induction a as [|x a IH]; intros b [|y c] d L H; try discriminate L; [auto|]. cbn [app] in H. injection H as -> H. injection L as L. destruct (IH _ _ _ L H) as [-> ->]. auto. Qed.
Lemma lor_bit u b : 0 <= u -> 0 <= b < 2 -> Z.lor (2 * u) b = 2 * u + b.
Proof. intros Hu Hb. assert (b = 0 \/ b = 1) as [-> | ->] by lia; [rewrite Z.lor_0_r; lia|]. destruct u as [|u|u]; [reflexivity|reflexivity|lia]. Qed.
Lemma mod_mod_mul a b z : 0 < a -> 0 < b -> (z mod (a * b)) mod a = z mod a.
Proof. intros Ha Hb. rewrite Z.rem_mul_r, (Z.mul_comm a), Z.mod_add, Z.mod_mod by lia. reflexivity. Qed.
Theorem C73_fp2 : forall x y, canon2 x -> canon2 y ->
  (f2_equals x y <> 0 <-> val2 x = val2 y) /\ (hash_fp2 x = hash_fp2 y <-> f2_equals x y <> 0) /\
  f2_hashcode x = 2 * (mont (fst (val2 x)) mod 2 ^ 63) + mont (snd (val2 x)) mod 2.
Proof.
  intros x y Hx Hy. destruct (C15_equals x y Hx Hy) as (E1 & E2 & E3). assert (E : f2_equals x y <> 0 <-> val2 x = val2 y).
  { split; intros H. - destruct (Z.eq_dec (fst (val2 x)) (fst (val2 y))) as [A|A]; [destruct (Z.eq_dec (snd (val2 x)) (snd (val2 y))) as [B|B]|].
      + apply (proj2 (pair_equal_spec _ _ _ _)). auto.
      + exfalso. apply H, E2. intros C. apply B. rewrite C. reflexivity.
      + exfalso. apply H, E2. intros C. apply A. rewrite C. reflexivity.
    - rewrite (proj2 E1 H). discriminate. }
  split; [exact E|]. split.
  - rewrite E. split; [|intros H; rewrite (E3 H); reflexivity]. intros H. unfold hash_fp2, hash_fp in H. destruct Hx as [[L0 _] [L1 _]], Hy as [[M0 _] [M1 _]].
    apply app_inj_len in H; [|cbn [List.length]; congruence]. destruct H as [H0 H1]. injection H0 as _ H0. injection H1 as _ H1. destruct x, y. cbn [fst snd] in *. subst. reflexivity.
  - unfold f2_hashcode. destruct Hx as [H0 H1]. rewrite !limb0 by assumption. unfold val2. cbn [fst snd]. unfold wshl. rewrite lo64_mod. change W64 with (2 * 2 ^ 63). rewrite Z.shiftl_mul_pow2, (Z.mul_comm _ (2 ^ 1)) by lia. change (2 ^ 1) with 2.
    rewrite Z.mul_mod_distr_l by lia. change 1 with (Z.ones 1). rewrite Z.land_ones by lia. change (2 ^ 1) with 2.
    assert (M0 : forall z, (z mod 2 ^ 64) mod 2 ^ 63 = z mod 2 ^ 63) by (intros z; exact (mod_mod_mul (2 ^ 63) 2 z eq_refl eq_refl)).
    assert (M1 : forall z, (z mod 2 ^ 64) mod 2 = z mod 2) by (intros z; exact (mod_mod_mul 2 (2 ^ 63) z eq_refl eq_refl)). rewrite M0, M1.
    apply lor_bit; [apply Z.mod_pos_bound; reflexivity|apply Z.mod_pos_bound; reflexivity].
Qed.
(** The hash code alone does not determine the element. *)
Theorem C73_hashcode_refuted : exists x y, canon2 x /\ canon2 y /\ f2_equals x y = 0 /\ f2_hashcode x = f2_hashcode y.
Proof.
  exists f2_zero, (0 :: 1 :: repeat 0 19, fp_zero). split; [split; apply canon_zero|]. split; [split; [|apply canon_zero]|split; vm_compute; reflexivity].
  split; [reflexivity|]. split; [repeat constructor; try (unfold word; lia)|vm_compute; reflexivity].
Qed.
Example C73_ex : hash_fp2 f2_one <> hash_fp2 f2_zeta /\ f2_equals f2_one f2_zeta = 0 /\ f2_hashcode f2_zeta = Z.land (hashcode fp_one) 1.
Proof. split; [vm_compute; discriminate|split; vm_compute; reflexivity]. Qed.
Print Assumptions C73_fp. Print Assumptions C73_fp2. Print Assumptions C73_hashcode_refuted.
