(** A basis of the 5-torsion of y^2 = x^3 + x over any field with an element S with S^2 = 5(-1+2i) and square roots of S(4+2i), used by the examples of odd order. *)
From Coq Require Import Arith ZArith List Bool Ring Field Lia.
From Verif Require Import S_Curve L_Group L_Weil L_Weil2.
Import ListNotations.

Section N5.
Context {K : Type} {k0 k1 : K} {kadd kmul ksub : K -> K -> K} {kopp : K -> K} {kdiv : K -> K -> K} {kinv : K -> K} {keq : K -> K -> bool}.
Context (FT : field_theory k0 k1 kadd kmul ksub kopp kdiv kinv (@eq K)) (keq_ok : forall x y, keq x y = true <-> x = y).
Add Field Kfield : FT.
Local Notation "0" := k0. Local Notation "1" := k1.
Local Notation "2" := (kadd k1 k1). Local Notation "3" := (kadd (kadd k1 k1) k1). Local Notation "4" := (kadd (kadd k1 k1) (kadd k1 k1)).
Local Infix "+" := kadd. Local Infix "*" := kmul. Local Infix "-" := ksub. Local Infix "/" := kdiv. Local Notation "- x" := (kopp x).
Local Notation on := (on kadd kmul).
Local Notation padd := (padd k1 kadd kmul ksub kopp kdiv keq).
Local Notation popp := (popp kopp).
Local Notation pmul_nat := (pmul_nat k1 kadd kmul ksub kopp kdiv keq).
Local Notation "5" := (2 + 3).
Context (n2 : 2 <> 0) (n5 : 5 <> 0).
Lemma n_mul x y : x <> 0 -> y <> 0 -> x * y <> 0. Proof. exact (mulr_nz FT keq_ok x y). Qed.
Lemma k_t x : keq x x = true. Proof. apply keq_ok. reflexivity. Qed.
Lemma k_f x y : x <> y -> keq x y = false. Proof. exact (keq_false keq_ok x y). Qed.
Lemma dbl_nz y : y <> 0 -> y <> - y. Proof. intros N E. apply (n_mul 2 y n2 N). transitivity (y + y); [ring|]. rewrite E at 1. ring. Qed.
Lemma div_eq' a b c : b <> 0 -> a = c * b -> a / b = c. Proof. intros N ->. field. exact N. Qed.
Lemma x5_smooth : 0 * 0 <> 4. Proof. intros E. apply (n_mul 2 2 n2 n2). transitivity 4; [ring|]. rewrite <- E. ring. Qed.
Lemma n5' : 1 + 2 * 2 <> 0. Proof. intros E. apply n5. rewrite <- E. ring. Qed.
(** one eigenpoint of multiplication by i *)
Section One.
Context (im S Y : K) (Hi : im * im = - k1) (HS : S * S = - (5) + 2 * 5 * im) (HY : Y * Y = S * (4 + 2 * im)).
Definition x5P : pt K := Some (S / 5, Y / 5).
Lemma x5_on : on 0 x5P. Proof. cbn [S_Curve.on x5P]. field [Hi HS HY]. exact n5'. Qed.
Lemma im_nz : im <> 0. Proof. intros E. apply (F_1_neq_0 FT). transitivity (- (im * im)); [rewrite Hi|rewrite E]; ring. Qed.
Lemma nim c d : c * c + d * d <> 0 -> c + d * im <> 0.
Proof. intros N E. apply N. transitivity ((c + d * im) * (c - d * im)); [ring [Hi]|rewrite E; ring]. Qed.
Lemma S_nz : S <> 0. Proof. intros E. apply (nim (- (5)) (2 * 5)); [|rewrite <- HS, E; ring]. intros E'. apply (n_mul 5 (5 * 5) n5 (n_mul 5 5 n5 n5)). rewrite <- E'. ring. Qed.
Lemma Y_nz : Y <> 0. Proof. intros E. apply (n_mul S (4 + 2 * im)); [exact S_nz| |rewrite <- HY, E; ring]. apply nim. intros E'. apply (n_mul (2 * 2) 5); [apply n_mul; exact n2|exact n5|]. rewrite <- E'. ring. Qed.
Lemma d5 x : x <> 0 -> x / 5 <> 0. Proof. intros N E. apply N. transitivity (x / 5 * 5); [field; exact n5'|rewrite E; ring]. Qed.
Ltac nn := repeat split; first [exact n5'|exact n2|exact Y_nz|exact S_nz|exact im_nz].
Definition x5l : K := (1 + 3 * im) / Y.
Lemma x5_tan : (3 * (S / 5 * (S / 5)) + 2 * (0 * (S / 5)) + 1) / (2 * (Y / 5)) = x5l.
Proof. apply div_eq'; [apply n_mul; [exact n2|apply d5; exact Y_nz]|]. unfold x5l. field [Hi HS HY]. nn. Qed.
Lemma x5_2P : padd 0 x5P x5P = Some (- (S / 5), im * (Y / 5)).
Proof.
  unfold x5P. cbn [S_Curve.padd]. rewrite k_t, (k_f _ _ (dbl_nz _ (d5 _ Y_nz))), x5_tan. unfold chord, x5l.
  assert (E2 : (1 + 3 * im) / Y * ((1 + 3 * im) / Y) = S / 5).
  { transitivity ((1 + 3 * im) * (1 + 3 * im) / (Y * Y)); [field; exact Y_nz|]. apply div_eq'; [apply n_mul; exact Y_nz|]. field [Hi HS HY]. exact n5'. }
  rewrite E2. replace (S / 5 - 0 - S / 5 - S / 5) with (- (S / 5)) by ring. do 2 f_equal. field [Hi HS HY]. nn.
Qed.
Definition x5D : pt K := Some (- (S / 5), im * (Y / 5)).
Lemma x5_onD : on 0 x5D. Proof. cbn [S_Curve.on x5D]. field [Hi HS HY]. nn. Qed.
End One.
Section Two.
Context (im S Y : K) (Hi : im * im = - k1) (HS : S * S = - (5) + 2 * 5 * im) (HY : Y * Y = S * (4 + 2 * im)).
Ltac nn := repeat split; first [exact n5'|exact n2|exact (Y_nz im S Y Hi HS HY)|exact (S_nz im S Hi HS)|exact (im_nz im Hi)].
Lemma HS' : - S * - S = - (5) + 2 * 5 * im. Proof. rewrite <- HS. ring. Qed.
Lemma HY' : im * Y * (im * Y) = - S * (4 + 2 * im). Proof. transitivity (im * im * (Y * Y)); [ring|]. rewrite Hi, HY. ring. Qed.
Local Notation P := (x5P S Y).
Local Notation D := (x5D im S Y).
Let OP : on 0 P := x5_on im S Y Hi HS HY.
Let OD : on 0 D := x5_onD im S Y Hi HS HY.
Lemma D_P : D = x5P (- S) (im * Y). Proof. unfold x5D, x5P. do 2 f_equal; field; nn. Qed.
Lemma x5_4P : padd 0 D D = popp P.
Proof. rewrite D_P. rewrite (x5_2P im (- S) (im * Y) Hi HS' HY'). unfold x5P. cbn [S_Curve.popp]. do 2 f_equal; field [Hi]; nn. Qed.
Lemma x5_m4 : pmul_nat 0 4 P = popp P.
Proof. change 4%nat with (2 + 2)%nat. rewrite (pmul_nat_add FT keq_ok n2 x5_smooth) by exact OP. rewrite pmul_nat_2, (x5_2P im S Y Hi HS HY). exact x5_4P. Qed.
Lemma x5_m5 : pmul_nat 0 5 P = None.
Proof. change 5%nat with (4 + 1)%nat. rewrite (pmul_nat_add FT keq_ok n2 x5_smooth) by exact OP. rewrite x5_m4, pmul_nat_1. rewrite (padd_comm FT keq_ok n2) by (try exact OP; apply (opp_on FT); exact OP). apply (padd_opp_r FT keq_ok). exact OP. Qed.
Lemma x5_m3 : pmul_nat 0 3 P = popp D.
Proof.
  pose proof x5_m5 as E. change 5%nat with (2 + 3)%nat in E. rewrite (pmul_nat_add FT keq_ok n2 x5_smooth) in E by exact OP. apply (padd_None FT keq_ok n2) in E; [|apply (pmul_nat_on FT keq_ok n2); exact OP|apply (pmul_nat_on FT keq_ok n2); exact OP].
  rewrite pmul_nat_2, (x5_2P im S Y Hi HS HY) in E. exact E.
Qed.
Lemma x5_mP i : pmul_nat 0 i P = match (i mod 5)%nat with 1%nat => P | 2%nat => D | 3%nat => popp D | 4%nat => popp P | _ => None end.
Proof.
  rewrite (Nat.div_mod_eq i 5) at 1. rewrite (pmul_nat_add FT keq_ok n2 x5_smooth) by exact OP. rewrite Nat.mul_comm. rewrite (pmul_nat_mul FT keq_ok n2 x5_smooth) by exact OP. rewrite x5_m5, pmul_nat_None, padd_0_l.
  pose proof (Nat.mod_upper_bound i 5 ltac:(lia)) as B. destruct (i mod 5)%nat as [|[|[|[|[|?]]]]]; [reflexivity|reflexivity|exact (x5_2P im S Y Hi HS HY)|exact x5_m3|exact x5_m4|lia].
Qed.
Local Notation fm := (L_Weil.fm (k1 := k1) (kadd := kadd) (kmul := kmul) (ksub := ksub) (kopp := kopp) (kdiv := kdiv) (keq := keq) (A := 0)).
Lemma x5_fm x y : on 0 (Some (x, y)) -> x <> S / 5 -> x <> - (S / 5) ->
  fm P (Some (x, y)) 5 = (y - Y / 5 - x5l im Y * (x - S / 5)) / (x + S / 5) * ((y - Y / 5 - x5l im Y * (x - S / 5)) / (x + S / 5)) * (y - im * (Y / 5) + im * x5l im Y * (x + S / 5)).
Proof.
  intros OT N1 N2. assert (XD : forall k, xdis (pmul_nat 0 k P) (Some (x, y))) by (intros k; rewrite x5_mP; destruct (k mod 5)%nat as [|[|[|[|[|?]]]]]; cbn; auto).
  change 5%nat with (4 + 1)%nat. rewrite (fm_add FT keq_ok n2 x5_smooth) by first [exact XD | exact OP | exact OT]. change 4%nat with (2 + 2)%nat at 1. rewrite (fm_add FT keq_ok n2 x5_smooth) by first [exact XD | exact OP | exact OT].
  rewrite x5_m4, pmul_nat_2, pmul_nat_1, (x5_2P im S Y Hi HS HY). cbn [L_Weil.fm S_Curve.pmul_nat]. rewrite padd_0_l. unfold hv, hh. rewrite (x5_2P im S Y Hi HS HY). change (Some (- (S / 5), im * (Y / 5))) with D. rewrite x5_4P.
  assert (Z5 : padd 0 (popp P) P = None) by (rewrite <- x5_m4; exact x5_m5).
  unfold x5P in *. unfold x5D. cbn [S_Curve.popp] in *. rewrite Z5. unfold line.
  rewrite !k_t. assert (Yn := d5 _ (Y_nz im S Y Hi HS HY)). rewrite (k_f _ _ (dbl_nz _ Yn)), (k_f _ _ (dbl_nz _ (n_mul _ _ (im_nz im Hi) Yn))).
  rewrite (x5_tan im S Y Hi HS HY).
  assert (T2 : (3 * (- (S / 5) * - (S / 5)) + 2 * (0 * - (S / 5)) + 1) / (2 * (im * (Y / 5))) = - (im * x5l im Y)).
  { transitivity ((3 * (- S / 5 * (- S / 5)) + 2 * (0 * (- S / 5)) + 1) / (2 * (im * Y / 5))); [f_equal; field; nn|]. rewrite (x5_tan im (- S) (im * Y) Hi HS' HY'). unfold x5l. apply div_eq'; [apply n_mul; nn|]. field [Hi]. nn. }
  rewrite T2. set (l := x5l im Y). clearbody l. assert (M1 : x - S / 5 <> 0) by (intros Z; apply N1; transitivity (x - S / 5 + S / 5); [ring|rewrite Z; ring]).
  assert (M2 : x + S / 5 <> 0) by (intros Z; apply N2; transitivity (x + S / 5 - S / 5); [ring|rewrite Z; ring]). revert M1 M2. generalize (S / 5) (Y / 5). intros a b M1 M2.
  field. repeat split; try exact M1; try exact M2; try exact (F_1_neq_0 FT).
Qed.
End Two.
Section Pair.
Context (im S Y T Z : K) (Hi : im * im = - k1) (HS : S * S = - (5) + 2 * 5 * im) (HY : Y * Y = S * (4 + 2 * im)) (HT : T * T = - (5) + 2 * 5 * - im) (HZ : Z * Z = T * (4 + 2 * - im)).
Lemma Hi' : - im * - im = - k1. Proof. rewrite <- Hi. ring. Qed.
Local Notation P := (x5P S Y).
Local Notation Q := (x5P T Z).
Let Yn := Y_nz im S Y Hi HS HY. Let Zn := Y_nz (- im) T Z Hi' HT HZ. Let Sn := S_nz im S Hi HS. Let Tn := S_nz (- im) T Hi' HT. Let In := im_nz im Hi.
Lemma ST_sq : S * S - T * T <> 0.
Proof. rewrite HS, HT. intros E. apply (n_mul (2 * 2) (5 * im)); [apply n_mul; exact n2|apply n_mul; [exact n5|exact In]|]. rewrite <- E. ring. Qed.
Lemma ST_d : T - S <> 0. Proof. intros E. apply ST_sq. transitivity (- ((T - S) * (S + T))); [ring|rewrite E; ring]. Qed.
Lemma ST_a : T + S <> 0. Proof. intros E. apply ST_sq. transitivity ((T + S) * (S - T)); [ring|rewrite E; ring]. Qed.
Lemma d5n x : x <> 0 -> x / 5 <> 0. Proof. intros N E. apply N. transitivity (x / 5 * 5); [field; exact n5'|rewrite E; ring]. Qed.
Lemma x_d : T / 5 <> S / 5. Proof. intros E. apply ST_d. transitivity ((T / 5 - S / 5) * 5); [field; exact n5'|rewrite E; ring]. Qed.
Lemma x_a : T / 5 <> - (S / 5). Proof. intros E. apply ST_a. transitivity ((T / 5 - - (S / 5)) * 5); [field; exact n5'|rewrite E; ring]. Qed.
Let OP := x5_on im S Y Hi HS HY. Let OQ := x5_on (- im) T Z Hi' HT HZ.
Lemma x5_indep i j : padd 0 (pmul_nat 0 i P) (pmul_nat 0 j Q) = None -> (i mod 5 = 0)%nat /\ (j mod 5 = 0)%nat.
Proof.
  intros E. pose proof (padd_None FT keq_ok n2 _ _ (pmul_nat_on FT keq_ok n2 i P OP) (pmul_nat_on FT keq_ok n2 j Q OQ) E) as E'. rewrite (x5_mP im S Y Hi HS HY), (x5_mP (- im) T Z Hi' HT HZ) in E'.
  pose proof (Nat.mod_upper_bound i 5 ltac:(lia)) as B1. pose proof (Nat.mod_upper_bound j 5 ltac:(lia)) as B2.
  assert (X : forall a b c d : K, Some (a, b) = Some (c, d) -> a = c) by (intros a b c d H; injection H; auto).
  assert (x_o : - (T / 5) <> S / 5) by (intros H; apply x_a; rewrite <- H; ring). assert (x_o' : - (T / 5) <> - (S / 5)) by (intros H; apply x_d; transitivity (- - (T / 5)); [ring|rewrite H; ring]).
  destruct (i mod 5)%nat as [|[|[|[|[|?]]]]], (j mod 5)%nat as [|[|[|[|[|?]]]]]; try lia; auto; exfalso; unfold x5P, x5D in E'; cbn [S_Curve.popp] in E'; try discriminate; apply X in E'; revert E'; first [exact x_d | exact x_a | exact x_o | exact x_o'].
Qed.
Local Notation fm := (L_Weil.fm (k1 := k1) (kadd := kadd) (kmul := kmul) (ksub := ksub) (kopp := kopp) (kdiv := kdiv) (keq := keq) (A := 0)).
Local Notation wp := (L_Weil.wp (k1 := k1) (kadd := kadd) (kmul := kmul) (ksub := ksub) (kopp := kopp) (kdiv := kdiv) (keq := keq) (A := 0)).
Definition L1 (U : K) : K := U + S * (im - 3) - (1 + 3 * im) * T.
Definition L2 (U : K) : K := U - S * (1 + 3 * im) + (im - 3) * T.
Definition M1 (U : K) : K := U - T * (im + 3) - (1 - 3 * im) * S.
Definition M2 (U : K) : K := U - T * (1 - 3 * im) - (im + 3) * S.
Lemma key U : U * U = 4 * 5 * (S * T) ->
  2 * 5 * (L1 U * L1 U * L2 U * (L1 U * L1 U * L2 U)) * (T * T * T * ((4 - 2 * im) * (4 - 2 * im) * (4 - 2 * im))) - (5 + S * T) * (L1 U * L1 U * L2 U) * (M1 U * M1 U * M2 U) * (U * U * U)
    + 2 * 5 * (M1 U * M1 U * M2 U * (M1 U * M1 U * M2 U)) * (S * S * S * ((4 + 2 * im) * (4 + 2 * im) * (4 + 2 * im))) = 0.
Proof. intros HU. unfold L1, L2, M1, M2. ring [Hi HS HT HU]. Qed.
Lemma f_PQ : fm P Q 5 = L1 (Y * Z) * L1 (Y * Z) * L2 (Y * Z) / (5 * Y * Y * Y * ((T + S) * (T + S))).
Proof.
  unfold x5P at 2. rewrite (x5_fm im S Y Hi HS HY) by first [exact OQ | exact x_d | exact x_a].
  assert (N2 : T / 5 + S / 5 <> 0) by (intros E; apply x_a; transitivity (T / 5 + S / 5 - S / 5); [ring|rewrite E; ring]).
  assert (E1 : Z / 5 - Y / 5 - x5l im Y * (T / 5 - S / 5) = L1 (Y * Z) / (5 * Y)).
  { symmetry. apply div_eq'; [apply n_mul; [exact n5|exact Yn]|]. unfold x5l, L1. field [Hi HY]. split; [exact n5'|exact Yn]. }
  assert (E2 : Z / 5 - im * (Y / 5) + im * x5l im Y * (T / 5 + S / 5) = L2 (Y * Z) / (5 * Y)).
  { symmetry. apply div_eq'; [apply n_mul; [exact n5|exact Yn]|]. unfold x5l, L2. field [Hi HY]. split; [exact n5'|exact Yn]. }
  rewrite E1, E2. pose proof ST_a as Na. generalize (L1 (Y * Z)) (L2 (Y * Z)). intros a b. field. repeat split; try exact n5'; try exact Yn; exact Na.
Qed.
Lemma f_QP : fm Q P 5 = M1 (Y * Z) * M1 (Y * Z) * M2 (Y * Z) / (5 * Z * Z * Z * ((T + S) * (T + S))).
Proof.
  unfold x5P at 2. rewrite (x5_fm (- im) T Z Hi' HT HZ); [|exact OP|intros E; exact (x_d (eq_sym E))|intros E; apply x_a; rewrite E; ring].
  assert (E1 : Y / 5 - Z / 5 - x5l (- im) Z * (S / 5 - T / 5) = M1 (Y * Z) / (5 * Z)).
  { symmetry. apply div_eq'; [apply n_mul; [exact n5|exact Zn]|]. unfold x5l, M1. field [Hi HZ]. split; [exact n5'|exact Zn]. }
  assert (E2 : Y / 5 - - im * (Z / 5) + - im * x5l (- im) Z * (S / 5 + T / 5) = M2 (Y * Z) / (5 * Z)).
  { symmetry. apply div_eq'; [apply n_mul; [exact n5|exact Zn]|]. unfold x5l, M2. field [Hi HZ]. split; [exact n5'|exact Zn]. }
  rewrite E1, E2. pose proof ST_a as Na. assert (Na' : S + T <> 0) by (intros E; apply Na; rewrite <- E; ring). generalize (M1 (Y * Z)) (M2 (Y * Z)). intros a b. field. repeat split; try exact n5'; try exact Zn; first [exact Na|exact Na'].
Qed.
Lemma QP_nz : fm Q P 5 <> 0.
Proof. apply (fm_nz FT keq_ok n2); [exact OQ|exact OP|]. intros k. rewrite (x5_mP (- im) T Z Hi' HT HZ). destruct (k mod 5)%nat as [|[|[|[|[|?]]]]]; cbn; auto; intros E; first [exact (x_d (eq_sym E))|apply x_a; rewrite E; ring]. Qed.
Lemma x5_weil_ne : wp 5 P Q <> 1.
Proof.
  pose proof QP_nz as NG. unfold L_Weil.wp. change (Nat.odd 5) with true. unfold sg. intros E.
  assert (E1 : fm P Q 5 = - fm Q P 5). { transitivity (- (- k1 * fm P Q 5 / fm Q P 5 * fm Q P 5)); [field; exact NG|rewrite E; ring]. }
  assert (U2 : Y * Z * (Y * Z) = 4 * 5 * (S * T)) by (transitivity (Y * Y * (Z * Z)); [ring|rewrite HY, HZ; ring [Hi]]). pose proof (key (Y * Z) U2) as KK.
  set (g := fm Q P 5) in *. set (d := 5 * ((T + S) * (T + S))).
  assert (D0 : d <> 0) by (apply n_mul; [exact n5|apply n_mul; exact ST_a]).
  assert (EL : L1 (Y * Z) * L1 (Y * Z) * L2 (Y * Z) = - (g * d * (Y * Y * Y))).
  { transitivity (fm P Q 5 * d * (Y * Y * Y)); [|rewrite E1; ring]. rewrite f_PQ. unfold d. field. repeat split; try exact n5'; try exact Yn; exact ST_a. }
  assert (EM : M1 (Y * Z) * M1 (Y * Z) * M2 (Y * Z) = g * d * (Z * Z * Z)).
  { unfold g. rewrite f_QP. unfold d. field. repeat split; try exact n5'; try exact Zn; exact ST_a. }
  rewrite EL, EM in KK. clear EL EM E E1. clearbody g d.
  assert (Z6 : T * T * T * ((4 - 2 * im) * (4 - 2 * im) * (4 - 2 * im)) = Z * Z * (Z * Z) * (Z * Z)) by (rewrite HZ; ring).
  assert (Y6 : S * S * S * ((4 + 2 * im) * (4 + 2 * im) * (4 + 2 * im)) = Y * Y * (Y * Y) * (Y * Y)) by (rewrite HY; ring). rewrite Z6, Y6 in KK.
  assert (NN : g * d * (Y * Y * Y) * (Z * Z * Z) <> 0) by (repeat apply n_mul; first [exact NG|exact D0|exact Yn|exact Zn]).
  assert (C : 5 * 5 + S * T = 0). { destruct (keq (5 * 5 + S * T) 0) eqn:Ek; [apply keq_ok; exact Ek|]. exfalso. assert (Nk : 5 * 5 + S * T <> 0) by (intros H; apply keq_ok in H; congruence). apply (n_mul _ _ (n_mul _ _ NN NN) Nk). rewrite <- KK. ring. }
  apply (n_mul (2 * 2) (5 * 5 * 5)); [apply n_mul; exact n2|apply n_mul; [apply n_mul|]; exact n5|].
  transitivity (5 * 5 * (5 * 5) - S * S * (T * T)); [ring [Hi HS HT]|]. transitivity ((5 * 5 - S * T) * (5 * 5 + S * T)); [ring|rewrite C; ring].
Qed.
End Pair.
End N5.
