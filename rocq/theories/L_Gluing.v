(** Translations by points of order two and four in abscissas, and the bilinear forms behind the gluing isogeny of theta.rs:249-590; generic over fields. *)
From Coq Require Import ZArith List Bool Ring Field Lia.
From Verif Require Import M_Field M_Curve M_Theta S_Curve S_Theta L_Group L_Kummer L_Field L_Curve L_Theta.
Section Glue.
Context {F : Type} {o : fops F}.
Context {K : Type} {k0 k1 : K} {kadd kmul ksub : K -> K -> K} {kopp : K -> K} {kdiv : K -> K -> K} {kinv : K -> K} {keq : K -> K -> bool} {v : F -> K}.
Context (L : flaws o k0 k1 kadd kmul ksub kopp kdiv kinv keq v).
Let FT := l_ft _ _ _ _ _ _ _ _ _ _ _ L.
Let keq_ok := l_keq _ _ _ _ _ _ _ _ _ _ _ L.
Let two_nz := l_two_nz _ _ _ _ _ _ _ _ _ _ _ L.
Add Field Kfield : FT.
Local Notation "0" := k0. Local Notation "1" := k1.
Local Notation "2" := (kadd k1 k1). Local Notation "3" := (kadd (kadd k1 k1) k1). Local Notation "4" := (kadd (kadd k1 k1) (kadd k1 k1)).
Local Infix "+" := kadd. Local Infix "*" := kmul. Local Infix "-" := ksub. Local Infix "/" := kdiv. Local Notation "- x" := (kopp x).
Local Notation on := (on kadd kmul).
Local Notation padd := (padd k1 kadd kmul ksub kopp kdiv keq).
Local Notation popp := (popp kopp).
Local Notation xrep := (xrep (k0 := k0) (kmul := kmul)).
Let nzm := mulr_nz FT keq_ok.
Let sub_eq := sub_eq FT.
Let cancel := cancel FT.
Let sub_nz := sub_nz FT.
Let kdec := keq_dec keq_ok.
Lemma sq_0 x : x * x = 0 -> x = 0. Proof. intros H. destruct (mul0 FT keq_ok _ _ H); auto. Qed.

(** ** Rows and matrices *)
Definition act (x : K * K) (g : K * K * K * K) : K * K := let '(a, b, c, d) := g in (fst x * a + snd x * c, fst x * b + snd x * d).
Definition rsc (k : K) (x : K * K) : K * K := (k * fst x, k * snd x).
Lemma act_rsc k x g : act (rsc k x) g = rsc k (act x g). Proof. destruct g as [[[a b] c] d]. unfold act, rsc. cbn [fst snd]. f_equal; ring. Qed.
(* anticommuting involutions *)
Record pauli (g h : K * K * K * K) : Prop := { pa_g : forall x, act (act x g) g = x; pa_h : forall x, act (act x h) h = x; pa_gh : forall x, act (act x h) g = rsc (- k1) (act (act x g) h) }.

(** ** One curve *)
Section One.
Context (A : K) (smooth : A * A <> 4).
Definition tor (t : K) : Prop := t * (t * t) + A * (t * t) + t = 0.
Definition mm (t : K) : K := 2 * (t * t) + 2 * (A * t) + 1.
Lemma tor_on t : on A (Some (t, 0)) <-> tor t.
Proof. unfold tor, S_Curve.on. split; intros H; [rewrite <- H; ring|rewrite H; ring]. Qed.
Lemma tor_m t : tor t -> t * (mm t + 1) = 0.
Proof. unfold tor, mm. intros H. transitivity (2 * (t * (t * t) + A * (t * t) + t)); [ring|rewrite H; ring]. Qed.
Lemma m_sq t : tor t -> mm t * mm t = 1.
Proof. unfold tor, mm. intros H. apply sub_eq. transitivity (4 * (t + A) * (t * (t * t) + A * (t * t) + t)); [ring|rewrite H; ring]. Qed.
Lemma dt_nz t : tor t -> t * t + mm t <> 0.
Proof.
  unfold tor, mm. intros H E. apply (smooth_pt FT smooth t). - rewrite <- H. ring. - rewrite <- E. ring.
Qed.
Lemma trans2 t X Z q : tor t -> on A q -> xrep X Z q -> xrep (t * X + mm t * Z) (X - t * Z) (padd A q (Some (t, 0))).
Proof.
  intros T Hq R. pose proof (proj2 (tor_on t) T) as OT. destruct q as [[x y]|].
  - destruct R as [NZ ->]. destruct (kdec x t) as [->|N].
    + assert (y = 0). { apply sq_0. cbn in Hq. rewrite Hq. exact T. } subst y. rewrite (dbl_inf FT keq_ok t 0 Hq eq_refl). split; [|ring].
      replace (t * (t * Z) + mm t * Z) with ((t * t + mm t) * Z) by ring. apply nzm; auto using dt_nz.
    + destruct (padd A (Some (x, y)) (Some (t, 0))) as [[x2 y2]|] eqn:ES.
      * pose proof (sum_x FT keq_ok x y t 0 x2 y2 Hq OT ES) as SX. split. { replace (x * Z - t * Z) with ((x - t) * Z) by ring. apply nzm; auto. }
        apply (cancel (x - t)); [auto|]. transitivity (Z * ((x * t + 1) * (x + t) + 2 * A * (x * t) - t * (mm t + 1))); [unfold mm; ring|]. rewrite (tor_m t T).
        transitivity (Z * ((x * t + 1) * (x + t) + 2 * A * (x * t) - 2 * (y * 0))); [ring|]. rewrite <- SX. ring.
      * exfalso. assert (EN : Some (t, 0) = popp (Some (x, y))) by (eapply (padd_None FT); eauto). injection EN as E1 _. auto.
  - destruct R as [NX ->]. rewrite padd_0_l. split; [|ring]. replace (X - t * 0) with X by ring. exact NX.
Qed.
Lemma half a b t : on A (Some (a, b)) -> padd A (Some (a, b)) (Some (a, b)) = Some (t, 0) -> tor t /\ b <> 0 /\ (a - t) * (a - t) = t * t + mm t.
Proof.
  intros H E. assert (B : b <> 0). { intros B. rewrite (dbl_inf FT keq_ok a b H B) in E. discriminate. }
  assert (T : tor t). { apply tor_on. rewrite <- E. apply (padd_on FT keq_ok two_nz); exact H. }
  split; [exact T|]. split; [exact B|]. rewrite (dbl_fin FT keq_ok two_nz a b H B) in E. injection E as E _.
  assert (E' : t * (4 * (b * b)) = (a * a - 1) * (a * a - 1)). { rewrite <- E. field. repeat split; auto. }
  clear E. cbn in H. rewrite H in E'. apply sub_eq. transitivity (a * a - 2 * t * a - mm t); [ring|]. apply sq_0.
  transitivity ((a * a - 1) * (a * a - 1) - t * (4 * (a * (a * a) + A * (a * a) + a)) + 4 * a * (t * (mm t + 1)) + (mm t * mm t - 1)); [unfold mm; ring|].
  rewrite <- E', (tor_m t T), (m_sq t T). ring.
Qed.
(** distinct points of order two *)
Lemma tor_anti t s : tor t -> tor s -> s <> t -> 2 * (t * s) + mm t + mm s = 0.
Proof.
  intros T S N. assert (Q : (s * s + s * t + t * t) + A * (s + t) + 1 = 0).
  { apply (cancel (s - t)); [auto|]. unfold tor in T, S. transitivity ((s * (s * s) + A * (s * s) + s) - (t * (t * t) + A * (t * t) + t)); [ring|]. rewrite T, S. ring. }
  unfold mm. transitivity (2 * ((s * s + s * t + t * t) + A * (s + t) + 1)); [ring|]. rewrite Q. ring.
Qed.
(** translation by a point (t + e, b) whose double is (t, 0) *)
Lemma trans4 t e b X Z X' Z' q : on A (Some (t + e, b)) -> padd A (Some (t + e, b)) (Some (t + e, b)) = Some (t, 0) -> on A q -> xrep X Z q -> xrep X' Z' (padd A q (Some (t + e, b))) ->
  let c := 3 * t + A in exists k, k <> 0 /\ (X' - t * Z' - e * Z') * (X' - t * Z' - e * Z') = k * ((2 * e + c) * ((X - t * Z) * Z)) /\
    (X' - t * Z' + e * Z') * (X' - t * Z' + e * Z') = k * ((X - t * Z) * (X - t * Z) + c * ((X - t * Z) * Z) + e * e * (Z * Z)).
Proof.
  intros HP DB Hq R R' c. destruct (half _ _ _ HP DB) as (T & B & E2). replace (t + e - t) with e in E2 by ring.
  assert (Ne : e <> 0). { intros C. apply (dt_nz t T). rewrite <- E2, C. ring. }
  assert (BB : b * b = e * e * (2 * e + c)).
  { cbn in HP. rewrite HP. unfold c. apply sub_eq. transitivity ((t * (t * t) + A * (t * t) + t) + e * (t * t + mm t - e * e)); [unfold mm; ring|]. rewrite T, E2. ring. }
  assert (C0 : 2 * e + c <> 0). { intros C. apply B, sq_0. rewrite BB, C. ring. }
  assert (CV : forall x y, on A (Some (x, y)) -> y * y = (x - t) * ((x - t) * (x - t) + c * (x - t) + e * e)).
  { intros x y H. cbn in H. rewrite H, E2. unfold c. apply sub_eq. transitivity (t * (t * t) + A * (t * t) + t); [unfold mm; ring|exact T]. }
  assert (PR : forall u0 u1 w0 w1, u0 * w1 = u1 * w0 -> u0 <> 0 \/ u1 <> 0 -> w0 <> 0 \/ w1 <> 0 -> exists k, k <> 0 /\ u0 = k * w0 /\ u1 = k * w1).
  { intros u0 u1 w0 w1 E Hu Hw. destruct (kdec w0 0) as [W|W].
    - assert (W1 : w1 <> 0) by tauto. exists (u1 / w1). assert (u0 = 0). { apply (cancel w1); auto. transitivity (u0 * w1); [ring|]. rewrite E, W. ring. }
      split; [|split; [rewrite H, W; ring|field; auto]]. intros C. destruct Hu as [Hu|Hu]; [auto|]. apply Hu. transitivity (u1 / w1 * w1); [field; auto|rewrite C; ring].
    - exists (u0 / w0). assert (E1 : u1 = u0 / w0 * w1). { apply (cancel w0); auto. transitivity (u1 * w0); [ring|]. rewrite <- E. field. auto. }
      split; [|split; [field; auto|exact E1]]. intros C. destruct Hu as [Hu|Hu]; apply Hu. + transitivity (u0 / w0 * w0); [field; auto|rewrite C; ring]. + rewrite E1, C. ring. }
  assert (NZ : forall p X Z, xrep X Z p -> X <> 0 \/ Z <> 0). { intros [[? ?]|] ? ? [? ?]; tauto. }
  apply PR.
  2:{ destruct (kdec (X' - t * Z' - e * Z') 0) as [D|D]; [right|left; auto]. intros C. apply sq_0 in C.
      assert (Z0 : Z' = 0) by (apply (cancel (2 * e)); [auto|]; transitivity ((X' - t * Z' + e * Z') - (X' - t * Z' - e * Z')); [ring|rewrite C, D; ring]).
      destruct (NZ _ _ _ R') as [N|N]; [|auto]; apply N; transitivity ((X' - t * Z' - e * Z') + (t + e) * Z'); [ring|rewrite D, Z0; ring]. }
  2:{ destruct (kdec ((X - t * Z) * Z) 0) as [D|D]; [right|left; auto]. intros C. destruct (mul0 FT keq_ok _ _ D) as [D0|D0].
      - assert (Z0 : Z = 0). { apply sq_0, (cancel (e * e)); [auto|]. transitivity ((X - t * Z) * (X - t * Z) + c * ((X - t * Z) * Z) + e * e * (Z * Z)); [rewrite D0; ring|rewrite C; ring]. }
        destruct (NZ _ _ _ R) as [N|N]; [|auto]. apply N. transitivity ((X - t * Z) + t * Z); [ring|rewrite D0, Z0; ring].
      - assert (X0 : X = 0). { apply sq_0. rewrite D0 in C. rewrite <- C. ring. } destruct (NZ _ _ _ R) as [N|N]; auto. }
  destruct q as [[x y]|].
  - destruct R as [Nz ->]. pose proof (CV _ _ Hq) as Y. set (xi := x - t) in *. replace (x * Z - t * Z) with (xi * Z) by (unfold xi; ring).
    destruct (padd A (Some (x, y)) (Some (t + e, b))) as [[x2 y2]|] eqn:ES.
    + destruct R' as [Nz' ->]. replace (x2 * Z' - t * Z' - e * Z') with ((x2 - t - e) * Z') by ring. replace (x2 * Z' - t * Z' + e * Z') with ((x2 - t + e) * Z') by ring.
      destruct (kdec xi e) as [D|D].
      * assert (x = t + e) by (unfold xi in D; rewrite <- D; ring). subst x. destruct (same_x FT keq_ok _ _ _ Hq HP) as [->|Eo].
        2:{ exfalso. subst y. rewrite (padd_comm FT keq_ok two_nz) in ES by assumption. change (Some (t + e, - b)) with (popp (Some (t + e, b))) in ES. rewrite (padd_opp_r FT keq_ok) in ES by exact HP. discriminate. }
        rewrite DB in ES. injection ES as <- _. rewrite D. ring.
      * pose proof (sum_x FT keq_ok _ _ _ _ _ _ Hq HP ES) as SX. assert (D' : xi - e <> 0) by auto.
        assert (S1 : (x2 - t - e) * ((xi - e) * (xi - e)) = 2 * (e * (2 * e + c) * xi - y * b)).
        { transitivity (x2 * ((t + e - x) * (t + e - x)) - (t + e) * ((xi - e) * (xi - e))); [unfold xi; ring|]. rewrite SX. apply sub_eq.
          transitivity (2 * (t * (t * t) + A * (t * t) + t) + (e + xi) * (t * t + mm t - e * e)); [unfold mm, c, xi; ring|]. rewrite E2, T. ring. }
        set (D2 := xi * xi + c * xi + e * e) in *.
        assert (S2 : (x2 - t + e) * ((xi - e) * (xi - e)) = 2 * (e * D2 - y * b)).
        { transitivity ((x2 - t - e) * ((xi - e) * (xi - e)) + 2 * e * ((xi - e) * (xi - e))); [ring|]. rewrite S1. unfold D2. ring. }
        apply (cancel ((xi - e) * (xi - e) * ((xi - e) * (xi - e)))); [auto|].
        transitivity (((x2 - t - e) * ((xi - e) * (xi - e))) * ((x2 - t - e) * ((xi - e) * (xi - e))) * (Z' * Z' * (Z * Z)) * D2); [unfold D2; ring|].
        transitivity (((x2 - t + e) * ((xi - e) * (xi - e))) * ((x2 - t + e) * ((xi - e) * (xi - e))) * (Z' * Z' * (Z * Z)) * ((2 * e + c) * xi)); [|ring].
        rewrite S1, S2. apply sub_eq. transitivity (4 * (Z' * Z' * (Z * Z)) * ((y * y - xi * D2) * (b * b * D2 - (2 * e + c) * (xi * (b * b))) + (b * b - e * e * (2 * e + c)) * (xi * D2 * D2 - (2 * e + c) * (xi * xi * D2)) + 0)); [ring|].
        rewrite Y, BB. ring.
    + assert (EN : Some (t + e, b) = popp (Some (x, y))) by (eapply (padd_None FT); eauto). injection EN as E1 _. destruct R' as [_ ->].
      assert (xi = e) by (unfold xi; rewrite <- E1; ring). rewrite H. ring.
  - destruct R as [_ ->]. rewrite padd_0_l in R'. destruct R' as [_ ->]. ring.
Qed.
(** the matrix of translation by (t, 0), normalised by a point t + e of order four above it *)
Definition gmat (t e : K) : K * K * K * K := (- (t / e), - (k1 / e), - (mm t / e), t / e).
Lemma act_gmat t e x : act x (gmat t e) = rsc (- (1 / e)) (t * fst x + mm t * snd x, fst x - t * snd x).
Proof. unfold act, gmat, rsc. cbn [fst snd]. rewrite !(Fdiv_def FT). f_equal; ring. Qed.
Lemma gmat_pauli t e s e' : tor t -> tor s -> s <> t -> e * e = t * t + mm t -> e' * e' = s * s + mm s -> pauli (gmat t e) (gmat s e').
Proof.
  intros T S N E E'. assert (Ne : e <> 0). { intros C. apply (dt_nz t T). rewrite <- E, C. ring. } assert (Ne' : e' <> 0). { intros C. apply (dt_nz s S). rewrite <- E', C. ring. }
  assert (SQ : forall t e x, e <> 0 -> e * e = t * t + mm t -> act (act x (gmat t e)) (gmat t e) = x).
  { intros u f [x z] Nf H. rewrite !act_gmat. unfold rsc. cbn [fst snd]. f_equal; (apply (cancel (f * f)); [auto|]).
    - transitivity (x * (u * u + mm u)); [field; auto|]. rewrite <- H. ring.
    - transitivity (z * (u * u + mm u)); [field; auto|]. rewrite <- H. ring. }
  split; try (intros; apply SQ; auto).
  intros [x z]. pose proof (tor_anti t s T S N) as AN. rewrite !act_gmat. unfold rsc. cbn [fst snd].
  f_equal; (apply (cancel (e * e')); [auto|]; apply sub_eq).
  - transitivity (x * (2 * (t * s) + mm t + mm s)); [field; auto|]. rewrite AN. ring.
  - transitivity (z * (2 * (t * s) + mm t + mm s)); [field; auto|]. rewrite AN. ring.
Qed.
(** invariant linear forms *)
Definition lin (k a : K) (x : K * K) : K := k * (fst x - a * snd x).
Lemma lin_g t e k x : e <> 0 -> e * e = t * t + mm t -> lin k (t + e) (act x (gmat t e)) = lin k (t + e) x.
Proof.
  intros Ne E. rewrite act_gmat. unfold lin, rsc. cbn [fst snd]. apply (cancel e); [auto|]. apply sub_eq.
  transitivity (k * snd x * (e * e - (t * t + mm t))); [field; auto|]. rewrite E. ring.
Qed.
Lemma lin_h t e s e' k : tor t -> tor s -> s <> t -> e * e = t * t + mm t -> e' * e' = s * s + mm s ->
  exists n, n = - ((s - t - e) / e') /\ n * n * (s - t + e) = s - t - e /\ s - t + e <> 0 /\ s - t - e <> 0 /\ forall x, lin k (t + e) (act x (gmat s e')) = n * lin k (t - e) x.
Proof.
  intros T S N E E'. pose proof (tor_anti t s T S N) as AN. assert (Ne' : e' <> 0). { intros C. apply (dt_nz s S). rewrite <- E', C. ring. }
  assert (E2 : e' * e' = (s - t - e) * (s - t + e)). { rewrite E'. apply sub_eq. transitivity ((e * e - t * t - mm t) + (2 * (t * s) + mm t + mm s)); [ring|]. rewrite AN, E. ring. }
  assert (P1 : s - t + e <> 0). { intros C. apply Ne', sq_0. rewrite E2, C. ring. } assert (P2 : s - t - e <> 0). { intros C. apply Ne', sq_0. rewrite E2, C. ring. }
  exists (- ((s - t - e) / e')). split; [reflexivity|]. split; [|split; [auto|split; [auto|]]].
  - apply (cancel (e' * e')); [auto|]. transitivity ((s - t - e) * ((s - t - e) * (s - t + e))); [field; auto|]. rewrite <- E2. ring.
  - intros y. rewrite act_gmat. unfold lin, rsc. cbn [fst snd]. apply (cancel e'); [auto|]. apply sub_eq.
    transitivity (- k * snd y * ((2 * (t * s) + mm t + mm s) + (e * e - t * t - mm t))); [field; auto|]. rewrite AN, E. ring.
Qed.
(** the squared coordinates of a point and of its translate by a point of order four *)
Definition U0 (f : K * K -> K) (h : K * K * K * K) (x : K * K) : K := f x * f x + f (act x h) * f (act x h).
Definition U1 (f : K * K -> K) (h : K * K * K * K) (x : K * K) : K := f x * f x - f (act x h) * f (act x h).
Definition U2 (f : K * K -> K) (h : K * K * K * K) (x : K * K) : K := 2 * (f x * f (act x h)).
Local Notation xr x q := (xrep (fst x) (snd x) q).
Lemma shift4 t e b s e' k q x x' : on A (Some (t + e, b)) -> padd A (Some (t + e, b)) (Some (t + e, b)) = Some (t, 0) -> tor s -> s <> t -> e' * e' = s * s + mm s ->
  on A q -> xr x q -> xr x' (padd A q (Some (t + e, b))) -> let f := lin k (t + e) in let h := gmat s e' in
  U0 f h x' * U0 f h x * U1 f h (1, 0) + U1 f h x' * U1 f h x * U0 f h (1, 0) = 0.
Proof.
  intros HP DB S N E' Hq R R' f h. destruct (half _ _ _ HP DB) as (T & B & E). replace (t + e - t) with e in E by ring.
  destruct (trans4 t e b _ _ _ _ q HP DB Hq R R') as (kk & Nk & F0 & F1).
  destruct (lin_h t e s e' k T S N E E') as (n & _ & Hn & P1 & P2 & Hh).
  assert (SN : s - t <> 0) by auto.
  assert (CC : (s - t) * (s - t) + (3 * t + A) * (s - t) + e * e = 0).
  { apply (cancel (s - t)); [auto|]. rewrite E. unfold tor in T, S. transitivity ((s * (s * s) + A * (s * s) + s) - (t * (t * t) + A * (t * t) + t)); [unfold mm; ring|rewrite S, T; ring]. }
  unfold U0, U1, f, h. rewrite !Hh. unfold lin. destruct x as [X Z]. destruct x' as [X' Z']. cbn [fst snd] in *.
  set (xi := X - t * Z) in *. set (sg := s - t) in *. set (c := 3 * t + A) in *.
  set (a := (X' - t * Z' - e * Z') * (X' - t * Z' - e * Z')) in *. set (d := (X' - t * Z' + e * Z') * (X' - t * Z' + e * Z')) in *.
  replace (k * (X' - (t + e) * Z') * (k * (X' - (t + e) * Z'))) with (k * k * a) by (unfold a; ring).
  replace (n * (k * (X' - (t - e) * Z')) * (n * (k * (X' - (t - e) * Z')))) with (k * k * (n * n) * d) by (unfold d; ring).
  replace (k * (X - (t + e) * Z) * (k * (X - (t + e) * Z))) with (k * k * ((xi - e * Z) * (xi - e * Z))) by (unfold xi; ring).
  replace (n * (k * (X - (t - e) * Z)) * (n * (k * (X - (t - e) * Z)))) with (k * k * (n * n) * ((xi + e * Z) * (xi + e * Z))) by (unfold xi; ring).
  replace (k * (1 - (t + e) * 0) * (k * (1 - (t + e) * 0))) with (k * k) by ring.
  replace (n * (k * (1 - (t - e) * 0)) * (n * (k * (1 - (t - e) * 0)))) with (k * k * (n * n)) by ring.
  rewrite F0, F1. clearbody a d. assert (NN : n * n = (sg - e) / (sg + e)). { rewrite <- Hn. field. exact P1. } rewrite NN.
  assert (EC : c = - (sg * sg + e * e) / sg). { apply (cancel sg); [auto|]. transitivity (sg * sg + c * sg + e * e - (sg * sg + e * e)); [ring|]. rewrite CC. field. auto. }
  rewrite EC. field. auto.
Qed.
(** from now on: two points of order four over distinct points of order two *)
Context (t e b s e' b' : K) (HP : on A (Some (t + e, b))) (DP : padd A (Some (t + e, b)) (Some (t + e, b)) = Some (t, 0))
  (HQ : on A (Some (s + e', b'))) (DQ : padd A (Some (s + e', b')) (Some (s + e', b')) = Some (s, 0)) (NS : s <> t).
Local Notation g := (gmat t e). Local Notation h := (gmat s e').
Lemma gT : tor t. Proof. exact (proj1 (half _ _ _ HP DP)). Qed.
Lemma gS : tor s. Proof. exact (proj1 (half _ _ _ HQ DQ)). Qed.
Lemma gE : e * e = t * t + mm t. Proof. destruct (half _ _ _ HP DP) as (_ & _ & H). rewrite <- H. ring. Qed.
Lemma gE' : e' * e' = s * s + mm s. Proof. destruct (half _ _ _ HQ DQ) as (_ & _ & H). rewrite <- H. ring. Qed.
Lemma e_nz : e <> 0. Proof. intros C. apply (dt_nz t gT). rewrite <- gE, C. ring. Qed.
Lemma e_nz' : e' <> 0. Proof. intros C. apply (dt_nz s gS). rewrite <- gE', C. ring. Qed.
Lemma gh_pauli : pauli g h. Proof. apply gmat_pauli; auto using gT, gS, gE, gE'. Qed.
Definition ff := lin k1 (t + e).
Lemma ff_rsc k x : ff (rsc k x) = k * ff x. Proof. unfold ff, lin, rsc. cbn [fst snd]. ring. Qed.
Lemma ff_g x : ff (act x g) = ff x. Proof. apply lin_g; [exact e_nz|exact gE]. Qed.
Lemma ff_gh x : ff (act (act x g) h) = - ff (act x h).
Proof. pose proof (pa_gh _ _ gh_pauli x) as H. pose proof (f_equal ff H) as H1. rewrite ff_g, ff_rsc in H1. rewrite H1. ring. Qed.
Lemma ff_hh x : ff (act (act x h) h) = ff x. Proof. rewrite (pa_h _ _ gh_pauli). reflexivity. Qed.
Lemma ff_basis : exists al be, forall x, fst x = al * ff x + be * ff (act x h).
Proof.
  destruct (lin_h t e s e' k1 gT gS NS gE gE') as (n & _ & Hn & P1 & P2 & Hh). pose proof e_nz as Ne.
  assert (Nn : n <> 0). { intros C. apply P2. rewrite <- Hn, C. ring. }
  exists (- (t - e) / (2 * e)), ((t + e) / (2 * e * n)). intros x. unfold ff. rewrite Hh. unfold lin. field. auto.
Qed.
Lemma ff_indep x : ff x = 0 -> ff (act x h) = 0 -> fst x = 0 /\ snd x = 0.
Proof.
  destruct (lin_h t e s e' k1 gT gS NS gE gE') as (n & _ & Hn & P1 & P2 & Hh). pose proof e_nz as Ne.
  assert (Nn : n <> 0). { intros C. apply P2. rewrite <- Hn, C. ring. }
  unfold ff. rewrite Hh. unfold lin. intros H1 H2. assert (Z0 : snd x = 0).
  { apply (cancel (2 * e)); [auto|]. apply (cancel n); [auto|]. transitivity (n * (1 * (fst x - (t - e) * snd x)) - n * (1 * (fst x - (t + e) * snd x))); [ring|]. rewrite H1, H2. ring. }
  split; [|exact Z0]. rewrite Z0 in H1. rewrite <- H1. ring.
Qed.
Lemma shiftP q x x' : on A q -> xr x q -> xr x' (padd A q (Some (t + e, b))) -> U0 ff h x' * U0 ff h x * U1 ff h (1, 0) + U1 ff h x' * U1 ff h x * U0 ff h (1, 0) = 0.
Proof. intros Hq R R'. exact (shift4 t e b s e' k1 q x x' HP DP gS NS gE' Hq R R'). Qed.
(* the form adapted to the second point *)
Lemma swap : exists k2, k2 <> 0 /\ forall x, ff x + ff (act x h) = lin k2 (s + e') x.
Proof.
  destruct (lin_h t e s e' k1 gT gS NS gE gE') as (n & En & Hn & P1 & P2 & Hh). pose proof e_nz as Ne. pose proof e_nz' as Ne'.
  exists (1 + n). split.
  - intros C. apply Ne. assert (n = - (1)) by (transitivity (1 + n - 1); [ring|rewrite C; ring]). rewrite H in Hn. apply (cancel 2); [exact two_nz|].
    transitivity (- (1) * - (1) * (s - t + e) - (s - t - e)); [ring|rewrite Hn; ring].
  - intros x. unfold ff. rewrite Hh. unfold lin. apply sub_eq. transitivity (snd x * ((1 + n) * (s + e') - (t + e) - n * (t - e))); [ring|]. rewrite En.
    transitivity (snd x * ((e' * e' - ((s - t) * (s - t) - e * e)) / e')); [field; auto|].
    assert (E2 : e' * e' = (s - t) * (s - t) - e * e). { rewrite gE'. apply sub_eq. transitivity ((e * e - t * t - mm t) + (2 * (t * s) + mm t + mm s)); [ring|]. rewrite (tor_anti t s gT gS NS), gE. ring. }
    rewrite E2. field. auto.
Qed.
Lemma swap_U k2 x : (forall x, ff x + ff (act x h) = lin k2 (s + e') x) -> U0 (lin k2 (s + e')) g x = 2 * U0 ff h x /\ U1 (lin k2 (s + e')) g x = 2 * U2 ff h x.
Proof. intros H. unfold U0, U1, U2. rewrite <- !H, ff_g, ff_gh. split; ring. Qed.
Lemma shiftQ q x x' : on A q -> xr x q -> xr x' (padd A q (Some (s + e', b'))) -> U0 ff h x' * U0 ff h x * U2 ff h (1, 0) + U2 ff h x' * U2 ff h x * U0 ff h (1, 0) = 0.
Proof.
  intros Hq R R'. destruct swap as (k2 & Nk & Hs). pose proof (shift4 s e' b' t e k2 q x x' HQ DQ gT (not_eq_sym NS) gE Hq R R') as H. cbv zeta in H.
  rewrite !(proj1 (swap_U k2 _ Hs)), !(proj2 (swap_U k2 _ Hs)) in H. apply (cancel (2 * (2 * 2))); [auto|].
  transitivity (2 * U0 ff h x' * (2 * U0 ff h x) * (2 * U2 ff h (1, 0)) + 2 * U2 ff h x' * (2 * U2 ff h x) * (2 * U0 ff h (1, 0))); [ring|]. rewrite H. ring.
Qed.
Lemma U_O_gen t0 e0 s0 e0' k : tor t0 -> tor s0 -> s0 <> t0 -> e0 * e0 = t0 * t0 + mm t0 -> e0' * e0' = s0 * s0 + mm s0 -> k <> 0 ->
  U0 (lin k (t0 + e0)) (gmat s0 e0') (1, 0) <> 0 /\ U1 (lin k (t0 + e0)) (gmat s0 e0') (1, 0) <> 0.
Proof.
  intros T S N E E' Nk. destruct (lin_h t0 e0 s0 e0' k T S N E E') as (n & _ & Hn & P1 & P2 & Hh).
  assert (Ne : e0 <> 0). { intros C. apply (dt_nz t0 T). rewrite <- E, C. ring. } assert (SN : s0 - t0 <> 0) by auto.
  assert (NN : n * n = (s0 - t0 - e0) / (s0 - t0 + e0)). { rewrite <- Hn at 1. field. exact P1. }
  unfold U0, U1. rewrite Hh. unfold lin. cbn [fst snd]. split.
  - replace (k * (1 - (t0 + e0) * 0) * (k * (1 - (t0 + e0) * 0)) + n * (k * (1 - (t0 - e0) * 0)) * (n * (k * (1 - (t0 - e0) * 0)))) with (k * k * (1 + n * n)) by ring. rewrite NN.
    replace (1 + (s0 - t0 - e0) / (s0 - t0 + e0)) with (2 * (s0 - t0) / (s0 - t0 + e0)) by (field; auto). intros C. apply (nzm (k * k) (2 * (s0 - t0))); auto.
    transitivity (k * k * (2 * (s0 - t0) / (s0 - t0 + e0)) * (s0 - t0 + e0)); [field; auto|]. rewrite C. ring.
  - replace (k * (1 - (t0 + e0) * 0) * (k * (1 - (t0 + e0) * 0)) - n * (k * (1 - (t0 - e0) * 0)) * (n * (k * (1 - (t0 - e0) * 0)))) with (k * k * (1 - n * n)) by ring. rewrite NN.
    replace (1 - (s0 - t0 - e0) / (s0 - t0 + e0)) with (2 * e0 / (s0 - t0 + e0)) by (field; auto). intros C. apply (nzm (k * k) (2 * e0)); auto.
    transitivity (k * k * (2 * e0 / (s0 - t0 + e0)) * (s0 - t0 + e0)); [field; auto|]. rewrite C. ring.
Qed.
Lemma U_O : U0 ff h (1, 0) <> 0 /\ U1 ff h (1, 0) <> 0 /\ U2 ff h (1, 0) <> 0.
Proof.
  destruct (U_O_gen t e s e' k1 gT gS NS gE gE' (one_nz FT)) as [H0 H1]. split; [exact H0|]. split; [exact H1|].
  destruct swap as (k2 & Nk & Hs). destruct (U_O_gen s e' t e k2 gS gT (not_eq_sym NS) gE' gE Nk) as [_ H2]. rewrite (proj2 (swap_U k2 _ Hs)) in H2. intros C. apply H2. rewrite C. ring.
Qed.
(* U0, U1 do not vanish together, nor U0 and U2 *)
Lemma U01 q x : xr x q -> U0 ff h x = 0 -> U1 ff h x = 0 -> False.
Proof.
  intros R H0 H1. unfold U0, U1 in *. destruct (ff_indep x) as [X Z].
  - apply sq_0, (cancel 2); [exact two_nz|]. transitivity ((ff x * ff x + ff (act x h) * ff (act x h)) + (ff x * ff x - ff (act x h) * ff (act x h))); [ring|]. rewrite H0, H1. ring.
  - apply sq_0, (cancel 2); [exact two_nz|]. transitivity ((ff x * ff x + ff (act x h) * ff (act x h)) - (ff x * ff x - ff (act x h) * ff (act x h))); [ring|]. rewrite H0, H1. ring.
  - destruct q as [[? ?]|]; destruct R as [R1 R2]; auto.
Qed.
Lemma U02 q x : xr x q -> U0 ff h x = 0 -> U2 ff h x = 0 -> False.
Proof.
  intros R H0 H2. unfold U0, U2 in *. assert (H : ff x * ff (act x h) = 0) by (apply (cancel 2); [exact two_nz|rewrite H2; ring]).
  destruct (mul0 FT keq_ok _ _ H) as [C|C]; rewrite C in H0.
  - assert (D : ff (act x h) = 0) by (apply sq_0; rewrite <- H0; ring). destruct (ff_indep x C D) as [X Z]. destruct q as [[? ?]|]; destruct R as [R1 R2]; auto.
  - assert (D : ff x = 0) by (apply sq_0; rewrite <- H0; ring). destruct (ff_indep x D C) as [X Z]. destruct q as [[? ?]|]; destruct R as [R1 R2]; auto.
Qed.
(** points of order eight *)
Lemma no_fix t0 e0 b0 q x : on A (Some (t0 + e0, b0)) -> padd A (Some (t0 + e0, b0)) (Some (t0 + e0, b0)) = Some (t0, 0) -> on A q -> padd A q q = Some (t0 + e0, b0) -> xr x q -> fst x * fst x - 2 * t0 * (fst x * snd x) = mm t0 * (snd x * snd x) -> False.
Proof.
  intros H0 D0 Hq Dq R EX. destruct (half _ _ _ H0 D0) as (T & B & E). replace (t0 + e0 - t0) with e0 in E by ring.
  assert (Ne : e0 <> 0). { intros C. apply (dt_nz t0 T). rewrite <- E, C. ring. }
  pose proof (proj2 (tor_on t0) T) as OT. pose proof (trans2 t0 _ _ q T Hq R) as R2. pose proof (padd_on FT keq_ok two_nz q (Some (t0, 0)) Hq OT) as O2.
  destruct q as [[xq yq]|]; [|discriminate]. destruct R as [Nz RX]. rewrite RX in *.
  assert (EQ : xq * xq - 2 * t0 * xq = mm t0). { apply (cancel (snd x * snd x)); [auto|]. transitivity (mm t0 * (snd x * snd x)); [rewrite <- EX; ring|ring]. }
  destruct (padd A (Some (xq, yq)) (Some (t0, 0))) as [[x2 y2]|] eqn:ES.
  - destruct R2 as [N2 R2]. assert (Nd : xq - t0 <> 0). { intros C. apply N2. transitivity ((xq - t0) * snd x); [ring|rewrite C; ring]. }
    assert (EX2 : x2 = xq). { apply (cancel ((xq - t0) * snd x)); [auto|]. transitivity (x2 * (xq * snd x - t0 * snd x)); [ring|]. rewrite <- R2, <- EQ. ring. }
    subst x2. destruct (same_x FT keq_ok _ _ _ O2 Hq) as [Ey|Ey]; subst y2.
    + (* q + T = q *) assert (C : Some (t0, 0) = None). { apply (padd_cancel_r FT keq_ok two_nz smooth) with (r := Some (xq, yq)); auto; [exact I|]. rewrite (padd_comm FT keq_ok two_nz) by auto. rewrite ES. reflexivity. } discriminate.
    + assert (C : Some (t0, 0) = popp (padd A (Some (xq, yq)) (Some (xq, yq)))).
      { rewrite (popp_add FT keq_ok two_nz) by auto. rewrite <- (add_sub FT keq_ok two_nz smooth (Some (t0, 0)) (Some (xq, yq)) OT Hq). f_equal. rewrite (padd_comm FT keq_ok two_nz) by auto. exact ES. }
      rewrite Dq in C. injection C as C _. apply Ne. transitivity (t0 + e0 - t0); [ring|rewrite <- C; ring].
  - destruct R2 as [_ R2]. assert (C : xq = t0). { apply sub_eq, (cancel (snd x)); [auto|]. transitivity (xq * snd x - t0 * snd x); [ring|rewrite R2; ring]. } subst xq.
    apply (dt_nz t0 T). rewrite <- EQ. ring.
Qed.
Lemma form_fix k a t0 x : k <> 0 -> lin k a x = 0 -> (a - t0) * (a - t0) = t0 * t0 + mm t0 -> fst x * fst x - 2 * t0 * (fst x * snd x) = mm t0 * (snd x * snd x).
Proof.
  intros Nk H E. unfold lin in H. assert (X : fst x = a * snd x). { apply sub_eq, (cancel k); [auto|]. rewrite H. ring. } rewrite X. apply sub_eq.
  transitivity (snd x * snd x * ((a - t0) * (a - t0) - (t0 * t0 + mm t0))); [ring|]. rewrite E. ring.
Qed.
Lemma U8P q x : on A q -> padd A q q = Some (t + e, b) -> xr x q ->
  U0 ff h x <> 0 /\ U1 ff h x <> 0 /\ U2 ff h x <> 0 /\ U0 ff h x * U0 ff h x * U1 ff h (1, 0) + U1 ff h x * U1 ff h x * U0 ff h (1, 0) = 0.
Proof.
  intros Hq Dq R. destruct U_O as (O0 & O1 & O2).
  assert (EQ : U0 ff h x * U0 ff h x * U1 ff h (1, 0) + U1 ff h x * U1 ff h x * U0 ff h (1, 0) = 0).
  { apply (shiftP (popp q)). - apply (on_opp FT); exact Hq. - apply xrep_opp. exact R.
    - replace (padd A (popp q) (Some (t + e, b))) with q; [exact R|]. rewrite <- Dq. rewrite (padd_comm FT keq_ok two_nz) by auto using (on_opp FT), (padd_on FT keq_ok two_nz). symmetry. apply (add_sub FT keq_ok two_nz smooth); auto. }
  assert (N0 : U0 ff h x <> 0). { intros C. apply (U01 q x R C). rewrite C in EQ. apply sq_0, (cancel (U0 ff h (1, 0))); [auto|]. transitivity (0 * 0 * U1 ff h (1, 0) + U1 ff h x * U1 ff h x * U0 ff h (1, 0)); [ring|rewrite EQ; ring]. }
  assert (N1 : U1 ff h x <> 0). { intros C. apply (U01 q x R); [|exact C]. rewrite C in EQ. apply sq_0, (cancel (U1 ff h (1, 0))); [auto|]. transitivity (U0 ff h x * U0 ff h x * U1 ff h (1, 0) + 0 * 0 * U0 ff h (1, 0)); [ring|rewrite EQ; ring]. }
  split; [exact N0|]. split; [exact N1|]. split; [|exact EQ].
  destruct (lin_h t e s e' k1 gT gS NS gE gE') as (n & _ & Hn & P1 & P2 & Hh).
  assert (Nn : n <> 0). { intros C. apply P2. rewrite <- Hn, C. ring. }
  unfold U2. apply nzm; [exact two_nz|]. apply nzm; intros C.
  - apply (no_fix t e b q x HP DP Hq Dq R). apply (form_fix k1 (t + e) t x (one_nz FT) C). rewrite <- gE. ring.
  - unfold ff in C. rewrite Hh in C. apply (no_fix t e b q x HP DP Hq Dq R). apply (form_fix k1 (t - e) t x (one_nz FT)). { apply (cancel n); [auto|]. rewrite C. ring. } rewrite <- gE. ring.
Qed.
Lemma U8Q q x : on A q -> padd A q q = Some (s + e', b') -> xr x q ->
  U0 ff h x <> 0 /\ U1 ff h x <> 0 /\ U2 ff h x <> 0 /\ U0 ff h x * U0 ff h x * U2 ff h (1, 0) + U2 ff h x * U2 ff h x * U0 ff h (1, 0) = 0.
Proof.
  intros Hq Dq R. destruct U_O as (O0 & O1 & O2).
  assert (EQ : U0 ff h x * U0 ff h x * U2 ff h (1, 0) + U2 ff h x * U2 ff h x * U0 ff h (1, 0) = 0).
  { apply (shiftQ (popp q)). - apply (on_opp FT); exact Hq. - apply xrep_opp. exact R.
    - replace (padd A (popp q) (Some (s + e', b'))) with q; [exact R|]. rewrite <- Dq. rewrite (padd_comm FT keq_ok two_nz) by auto using (on_opp FT), (padd_on FT keq_ok two_nz). symmetry. apply (add_sub FT keq_ok two_nz smooth); auto. }
  assert (N0 : U0 ff h x <> 0). { intros C. apply (U02 q x R C). rewrite C in EQ. apply sq_0, (cancel (U0 ff h (1, 0))); [auto|]. transitivity (0 * 0 * U2 ff h (1, 0) + U2 ff h x * U2 ff h x * U0 ff h (1, 0)); [ring|rewrite EQ; ring]. }
  assert (N2 : U2 ff h x <> 0). { intros C. apply (U02 q x R); [|exact C]. rewrite C in EQ. apply sq_0, (cancel (U2 ff h (1, 0))); [auto|]. transitivity (U0 ff h x * U0 ff h x * U2 ff h (1, 0) + 0 * 0 * U0 ff h (1, 0)); [ring|rewrite EQ; ring]. }
  split; [exact N0|]. split; [|split; [exact N2|exact EQ]].
  destruct swap as (k2 & Nk & Hs). destruct (lin_h s e' t e k2 gS gT (not_eq_sym NS) gE' gE) as (n & _ & Hn & P1 & P2 & Hh).
  assert (Nn : n <> 0). { intros C. apply P2. rewrite <- Hn, C. ring. }
  assert (EU : U1 ff h x = lin k2 (s + e') x * lin k2 (s + e') (act x g)). { rewrite <- !Hs, ff_g, ff_gh. unfold U1. ring. } rewrite EU.
  apply nzm; intros C.
  - apply (no_fix s e' b' q x HQ DQ Hq Dq R). apply (form_fix k2 (s + e') s x Nk C). rewrite <- gE'. ring.
  - rewrite Hh in C. apply (no_fix s e' b' q x HQ DQ Hq Dq R). apply (form_fix k2 (s - e') s x Nk). { apply (cancel n); [auto|]. rewrite C. ring. } rewrite <- gE'. ring.
Qed.
Lemma gmat_trans q x : on A q -> xrep (fst x) (snd x) q -> xrep (fst (act x (gmat t e))) (snd (act x (gmat t e))) (padd A q (Some (t, 0))).
Proof.
  destruct x as [X Z]. cbn [fst snd]. intros Hq HX. rewrite act_gmat. unfold rsc. cbn [fst snd]. pose proof e_nz as Ne. assert (NI : - (1 / e) <> 0). { intros C. apply (F_1_neq_0 FT). transitivity ((- e) * (- (1 / e))); [field; exact Ne|rewrite C; ring]. }
  pose proof (trans2 t X Z q gT Hq HX) as H. destruct (padd A q (Some (t, 0))) as [[x y]|]; destruct H as [H1 H2]; split; try (apply nzm; assumption).
  - rewrite H2. ring. - rewrite H2. ring.
Qed.
Lemma gmat_inv x : act (act x (gmat t e)) (gmat t e) = x.
Proof.
  pose proof e_nz as Ne. pose proof gE as H. destruct x as [x z]. rewrite !act_gmat. unfold rsc. cbn [fst snd]. f_equal; (apply (cancel (e * e)); [auto|]).
  - transitivity (x * (t * t + mm t)); [field; auto|]. rewrite <- H. ring.
  - transitivity (z * (t * t + mm t)); [field; auto|]. rewrite <- H. ring.
Qed.
Lemma gmat_fix X Z : xrep X Z (Some (t + e, b)) -> act (X, Z) (gmat t e) = (- X, - Z).
Proof.
  intros [_ ->]. rewrite act_gmat. unfold rsc. cbn [fst snd]. pose proof e_nz as Ne. pose proof gE as He. f_equal; (apply (cancel e); [auto|]).
  - transitivity (- (t * ((t + e) * Z) + mm t * Z)); [field; auto|]. transitivity (- ((t * t + mm t) + t * e) * Z); [ring|]. rewrite <- He. ring.
  - field; auto.
Qed.
End One.

(** ** The matrices of theta.rs *)
Ltac vs := repeat first
  [ rewrite (l_add _ _ _ _ _ _ _ _ _ _ _ L) | rewrite (l_sub _ _ _ _ _ _ _ _ _ _ _ L) | rewrite (l_mul _ _ _ _ _ _ _ _ _ _ _ L)
  | rewrite (l_sq _ _ _ _ _ _ _ _ _ _ _ L) | rewrite (l_neg _ _ _ _ _ _ _ _ _ _ _ L) | rewrite (l_inv _ _ _ _ _ _ _ _ _ _ _ L) | rewrite (l_div _ _ _ _ _ _ _ _ _ _ _ L)
  | rewrite (l_zero _ _ _ _ _ _ _ _ _ _ _ L) | rewrite (l_one _ _ _ _ _ _ _ _ _ _ _ L) | rewrite (l_two _ _ _ _ _ _ _ _ _ _ _ L)
  | rewrite (l_is0 _ _ _ _ _ _ _ _ _ _ _ L) | rewrite (l_eqb _ _ _ _ _ _ _ _ _ _ _ L)
  | rewrite (l_cond _ _ _ _ _ _ _ _ _ _ _ L) | rewrite (l_cneg _ _ _ _ _ _ _ _ _ _ _ L) ].
Definition mv (g : F * F * F * F) : K * K * K * K := let '(a, b, c, d) := g in (v a, v b, v c, v d).
Local Notation affL := (aff (k0 := k0) (kdiv := kdiv) (keq := keq) (v := v)).
Local Notation wfcL := (wfc (k1 := k1) (kadd := kadd) (kmul := kmul) (kdiv := kdiv) (v := v)).
Lemma xr_aff P : affL P <> None -> xrep (v (pX P)) (v (pZ P)) (affL P).
Proof. unfold aff, affk. destruct (keqP L (v (pZ P)) 0) as [E|E]; [congruence|]. intros _. split; [auto|]. field. auto. Qed.
Lemma sub_ok E P t e b : wfcL E -> affL P = Some (t + e, b) -> on (v (cA E)) (Some (t + e, b)) -> padd (v (cA E)) (Some (t + e, b)) (Some (t + e, b)) = Some (t, 0) ->
  mv (get_base_submatrix o E P) = gmat (v (cA E)) t e.
Proof.
  intros W EP HP DP. destruct (half _ _ _ _ HP DP) as (T & B & EE). replace (t + e - t) with e in EE by ring.
  assert (Ne : e <> 0). { intros C. apply (dt_nz _ (proj2 W) t T). rewrite <- EE, C. ring. }
  pose proof (xr_aff P ltac:(rewrite EP; discriminate)) as R. rewrite EP in R.
  pose proof (xdbl_v L E W (pX P) (pZ P) _ HP R) as R2. rewrite DP in R2. destruct R as [Nz RX]. unfold get_base_submatrix, to_xz. destruct (xdbl o E (pX P) (pZ P)) as [u w]. cbn [fst snd] in R2. destruct R2 as [Nw RU].
  unfold mv, gmat. vs. rewrite RX, RU. set (z := v (pZ P)) in *. set (w' := v w) in *. assert (Nd : e * (w' * z) <> 0) by auto.
  replace (w' * ((t + e) * z) - t * w' * z) with (e * (w' * z)) by ring.
  f_equal; [f_equal; [f_equal|]|]; try (field; auto).
  apply (cancel e); [auto|]. transitivity (t * (t + e) - (t + e) * e); [field; auto|]. transitivity (- (e * e - t * t)); [ring|]. rewrite EE. field. auto.
Qed.
Definition th0 (g h g' h' : K * K * K * K) (x y : K * K) : K :=
  fst x * fst y + fst (act x g) * fst (act y g') + fst (act x h) * fst (act y h') + fst (act (act x g) h) * fst (act (act y g') h').
Definition th (g h g' h' : K * K * K * K) (x y : K * K) (i : nat) : K :=
  match i with O => th0 g h g' h' x y | S O => th0 g h g' h' x (act y h') | S (S O) => th0 g h g' h' (act x g) y | _ => th0 g h g' h' (act x g) (act y h') end.
Definition rowf (P : point F) : K * K := (v (fst (fix_xz o P)), v (snd (fix_xz o P))).
Lemma base_change_ok EE P Q C i : (i < 4)%nat -> 
  tv (v := v) (base_change_couple_point o C (get_base_matrix o EE P Q)) i =
  th (mv (get_base_submatrix o (e1 EE) (c1 P))) (mv (get_base_submatrix o (e1 EE) (c1 Q))) (mv (get_base_submatrix o (e2 EE) (c2 P))) (mv (get_base_submatrix o (e2 EE) (c2 Q))) (rowf (c1 C)) (rowf (c2 C)) i.
Proof.
  intros Hi. unfold get_base_matrix, base_change_couple_point, rowf.
  destruct (get_base_submatrix o (e1 EE) (c1 P)) as [[[a1 a2] a3] a4]. destruct (get_base_submatrix o (e2 EE) (c2 P)) as [[[d1 d2] d3] d4].
  destruct (get_base_submatrix o (e1 EE) (c1 Q)) as [[[g1 g2] g3] g4]. destruct (get_base_submatrix o (e2 EE) (c2 Q)) as [[[h1 h2] h3] h4].
  destruct (fix_xz o (c1 C)) as [x1 z1]. destruct (fix_xz o (c2 C)) as [x2 z2]. cbn [fst snd].
  destruct i as [|[|[|[|i]]]]; [| | | |exfalso; lia]; unfold tv, crd, apply_base_change; cbn [tX tY tZ tT nth Nat.add]; vs; unfold th, th0, act, mv; cbn [fst snd]; ring.
Qed.
Lemma rowf_ok P : xrep (fst (rowf P)) (snd (rowf P)) (affL P).
Proof.
  unfold rowf, fix_xz, to_xz. cbn [fst snd]. vs. unfold aff, affk. destruct (keqP L (v (pZ P)) 0) as [Z0|Z0].
  - destruct (keqP L (v (pX P)) 0) as [X0|X0]; cbn [andb]; unfold L_Kummer.xrep; [split; [exact (one_nz FT)|reflexivity]|split; auto].
  - rewrite andb_false_r. split; [auto|]. field. auto.
Qed.
(** ** Two curves *)
Lemma xrep_prop x y q : xrep (fst x) (snd x) q -> xrep (fst y) (snd y) q -> exists l, l <> 0 /\ y = rsc l x.
Proof.
  destruct x as [X Z], y as [X' Z']. cbn [fst snd]. destruct q as [[a b]|]; intros [H1 H2] [H3 H4].
  - exists (Z' / Z). split; [|unfold rsc; cbn [fst snd]; f_equal; [rewrite H2, H4; field; auto|field; auto]]. intros C. apply H3. transitivity (Z' / Z * Z); [field; auto|rewrite C; ring].
  - exists (X' / X). split; [|unfold rsc; cbn [fst snd]; f_equal; [field; auto|rewrite H2, H4; ring]]. intros C. apply H3. transitivity (X' / X * X); [field; auto|rewrite C; ring].
Qed.
Lemma th0_rsc g h g' h' l l' x y : th0 g h g' h' (rsc l x) (rsc l' y) = l * l' * th0 g h g' h' x y.
Proof. unfold th0. rewrite !act_rsc. unfold rsc. cbn [fst snd]. ring. Qed.
Lemma th_rsc g h g' h' l l' x y i : th g h g' h' (rsc l x) (rsc l' y) i = l * l' * th g h g' h' x y i.
Proof. unfold th. rewrite !act_rsc. destruct i as [|[|[|i]]]; apply th0_rsc. Qed.
Lemma th0_g g h g' h' x y : pauli g h -> pauli g' h' -> th0 g h g' h' (act x g) (act y g') = th0 g h g' h' x y.
Proof. intros G G'. unfold th0. rewrite !(pa_g _ _ G), !(pa_g _ _ G'). ring. Qed.
Lemma th0_h g h g' h' x y : pauli g h -> pauli g' h' -> th0 g h g' h' (act x h) (act y h') = th0 g h g' h' x y.
Proof. intros G G'. unfold th0. rewrite !(pa_gh _ _ G), !(pa_gh _ _ G'), !act_rsc, !(pa_h _ _ G), !(pa_h _ _ G'). unfold rsc. cbn [fst snd]. ring. Qed.
Lemma rsc1 x : rsc 1 x = x. Proof. destruct x. unfold rsc. cbn [fst snd]. f_equal; ring. Qed.
(* translation by the kernel changes signs: the first generator those with an odd index, the second those with index 2 and 3 *)
Lemma th_g g h g' h' x y i : (i < 4)%nat -> pauli g h -> pauli g' h' -> th g h g' h' (act x g) (act y g') i = (if Nat.odd i then - k1 else k1) * th g h g' h' x y i.
Proof.
  intros Hi G G'. assert (AN : forall z, act (act z g') h' = rsc (- k1) (act (act z h') g')). { intros z. rewrite (pa_gh _ _ G'), act_rsc || rewrite (pa_gh _ _ G'). unfold rsc. cbn [fst snd]. destruct (act (act z g') h'). cbn [fst snd]. f_equal; ring. }
  destruct i as [|[|[|[|i]]]]; [| | | |exfalso; lia]; unfold th; cbn [Nat.odd Nat.even negb].
  - rewrite th0_g by auto. ring.
  - rewrite AN. rewrite <- (rsc1 (act x g)). rewrite th0_rsc, th0_g by auto. ring.
  - rewrite th0_g by auto. ring.
  - rewrite AN. rewrite <- (rsc1 (act (act x g) g)). rewrite th0_rsc, th0_g by auto. ring.
Qed.
Lemma th_h g h g' h' x y i : (i < 4)%nat -> pauli g h -> pauli g' h' -> th g h g' h' (act x h) (act y h') i = (if Nat.odd (Nat.div i 2) then - k1 else k1) * th g h g' h' x y i.
Proof.
  intros Hi G G'. destruct i as [|[|[|[|i]]]]; [| | | |exfalso; lia]; unfold th; cbn [Nat.odd Nat.even Nat.div Nat.divmod fst negb].
  - rewrite th0_h by auto. ring.
  - rewrite th0_h by auto. ring.
  - rewrite (pa_gh _ _ G). rewrite <- (rsc1 (act y h')). rewrite th0_rsc, th0_h by auto. ring.
  - rewrite (pa_gh _ _ G). rewrite <- (rsc1 (act (act y h') h')). rewrite th0_rsc, th0_h by auto. ring.
Qed.
Local Notation sqdual := (sqdual kadd kmul kopp).
Section Forms.
Context (g h g' h' : K * K * K * K) (f f' : K * K -> K) (G : pauli g h) (G' : pauli g' h').
Context (fg : forall x, f (act x g) = f x) (fgh : forall x, f (act (act x g) h) = - f (act x h)) (fb : exists al be, forall x, fst x = al * f x + be * f (act x h)).
Context (fg' : forall x, f' (act x g') = f' x) (fgh' : forall x, f' (act (act x g') h') = - f' (act x h')) (fb' : exists al be, forall x, fst x = al * f' x + be * f' (act x h')).
Lemma th0_form : exists c, forall x y, th0 g h g' h' x y = c * (f x * f' y + f (act x h) * f' (act y h')).
Proof.
  destruct fb as (al & be & B), fb' as (al' & be' & B'). exists (2 * (al * al' + be * be')). intros x y. unfold th0. rewrite (B x), (B (act x g)), (B (act x h)), (B (act (act x g) h)), (B' y), (B' (act y g')), (B' (act y h')), (B' (act (act y g') h')).
  rewrite !(pa_h _ _ G), !(pa_h _ _ G'), !fgh, !fgh', !fg, !fg'. ring.
Qed.
Lemma th_sq : exists c, (c = 0 -> forall x y i, th g h g' h' x y i = 0) /\ forall x y, let s := sqdual (th g h g' h' x y) in
  s 0%nat = 2 * (c * c) * (U0 f h x * U0 f' h' y) /\ s 1%nat = 2 * (c * c) * (U1 f h x * U1 f' h' y) /\ s 2%nat = 2 * (c * c) * (U2 f h x * U2 f' h' y) /\ s 3%nat = 0.
Proof.
  destruct th0_form as (c & H). exists c. split.
  - intros -> x y i. unfold th. destruct i as [|[|[|i]]]; rewrite H; ring.
  - intros x y. cbv zeta. unfold S_Theta.sqdual, S_Theta.dual, sum4, sgn, dot, th, U0, U1, U2. cbn [Nat.div Nat.divmod fst snd Nat.odd Nat.even negb andb xorb].
    rewrite !H, ?(pa_h _ _ G), ?(pa_h _ _ G'), ?fgh, ?fgh', ?fg, ?fg'. repeat split; ring.
Qed.
End Forms.
Lemma order4_data A p : on A p -> padd A p p <> None -> padd A (padd A p p) (padd A p p) = None -> exists t e b, p = Some (t + e, b) /\ padd A p p = Some (t, 0).
Proof.
  intros Hp N D. pose proof (padd_on FT keq_ok two_nz p p Hp Hp) as O2. destruct (padd A p p) as [[t y]|] eqn:E; [|congruence].
  assert (EN : Some (t, y) = popp (Some (t, y))) by (eapply (padd_None FT); eauto). injection EN as EY. apply (double_0 FT two_nz) in EY. subst y.
  destruct p as [[a b]|]; [|discriminate]. exists t, (a - t), b. split; [|reflexivity]. f_equal. f_equal. ring.
Qed.
Lemma prop_pair u0 u1 w0 w1 : u0 * w1 = u1 * w0 -> u0 <> 0 \/ u1 <> 0 -> w0 <> 0 \/ w1 <> 0 -> exists k, k <> 0 /\ u0 = k * w0 /\ u1 = k * w1.
Proof.
  intros E Hu Hw. destruct (kdec w0 0) as [W|W].
  - assert (W1 : w1 <> 0) by tauto. exists (u1 / w1). assert (u0 = 0). { apply (cancel w1); auto. transitivity (u0 * w1); [ring|]. rewrite E, W. ring. }
    split; [|split; [rewrite H, W; ring|field; auto]]. intros C. destruct Hu as [Hu|Hu]; [auto|]. apply Hu. transitivity (u1 / w1 * w1); [field; auto|rewrite C; ring].
  - exists (u0 / w0). assert (E1 : u1 = u0 / w0 * w1). { apply (cancel w0); auto. transitivity (u1 * w0); [ring|]. rewrite <- E. field. auto. }
    split; [|split; [field; auto|exact E1]]. intros C. destruct Hu as [Hu|Hu]; apply Hu. + transitivity (u0 / w0 * w0); [field; auto|rewrite C; ring]. + rewrite E1, C. ring.
Qed.
Section Two.
Context (A1 A2 : K) (sm1 : A1 * A1 <> 4) (sm2 : A2 * A2 <> 4).
Context (t e b s e' b' : K) (HP : on A1 (Some (t + e, b))) (DP : padd A1 (Some (t + e, b)) (Some (t + e, b)) = Some (t, 0))
  (HQ : on A1 (Some (s + e', b'))) (DQ : padd A1 (Some (s + e', b')) (Some (s + e', b')) = Some (s, 0)) (NS : s <> t).
Context (t2 e2 b2 s2 e2' b2' : K) (HP2 : on A2 (Some (t2 + e2, b2))) (DP2 : padd A2 (Some (t2 + e2, b2)) (Some (t2 + e2, b2)) = Some (t2, 0))
  (HQ2 : on A2 (Some (s2 + e2', b2'))) (DQ2 : padd A2 (Some (s2 + e2', b2')) (Some (s2 + e2', b2')) = Some (s2, 0)) (NS2 : s2 <> t2).
Local Notation g := (gmat A1 t e). Local Notation h := (gmat A1 s e'). Local Notation g' := (gmat A2 t2 e2). Local Notation h' := (gmat A2 s2 e2').
Local Notation TH x y := (th g h g' h' x y). Local Notation OO := (1, 0).
Local Notation xr x q := (xrep (fst x) (snd x) q).
Local Notation f := (ff t e). Local Notation f' := (ff t2 e2).
Local Notation sq x y := (sqdual (TH x y)).
Lemma two_form : exists c, (c = 0 -> forall x y i, TH x y i = 0) /\ forall x y,
  sq x y 0%nat = 2 * (c * c) * (U0 f h x * U0 f' h' y) /\ sq x y 1%nat = 2 * (c * c) * (U1 f h x * U1 f' h' y) /\ sq x y 2%nat = 2 * (c * c) * (U2 f h x * U2 f' h' y) /\ sq x y 3%nat = 0.
Proof.
  apply th_sq.
  - eapply gh_pauli; eauto. - eapply gh_pauli; eauto.
  - eapply ff_g; eauto. - eapply ff_gh; eauto. - eapply ff_basis; eauto.
  - eapply ff_g; eauto. - eapply ff_gh; eauto. - eapply ff_basis; eauto.
Qed.
(** the dual coordinates of the null point of the codomain, read off the points of order eight *)
Definition codual (sP sQ : nat -> K) (j : nat) : K := match j with O => sP 0%nat | S O => sP 1%nat | S (S O) => sQ 2%nat * sP 0%nat / sQ 0%nat | _ => 0 end.
Context (p8 q8 p8' q8' : pt K) (xp yp xq yq : K * K).
Context (Op : on A1 p8) (Oq : on A1 q8) (Op' : on A2 p8') (Oq' : on A2 q8') (Ep : padd A1 p8 p8 = Some (t + e, b)) (Eq : padd A1 q8 q8 = Some (s + e', b'))
  (Ep' : padd A2 p8' p8' = Some (t2 + e2, b2)) (Eq' : padd A2 q8' q8' = Some (s2 + e2', b2')) (Rp : xr xp p8) (Rq : xr xq q8) (Rp' : xr yp p8') (Rq' : xr yq q8').
Context (NO : exists i, TH OO OO i <> 0).
Local Notation cA := (codual (sq xp yp) (sq xq yq)).
Lemma glue_all : zero_at (k0 := k0) cA 3 /\ kernel8_glue (k0 := k0) (kmul := kmul) cA (sq xp yp) (sq xq yq) /\
  (exists k, k <> 0 /\ forall j, (j < 4)%nat -> sq OO OO j = k * (cA j * cA j)) /\
  (forall r r' x y, on A1 r -> on A2 r' -> xr x r -> xr y r' -> sq x y 3%nat = 0) /\
  (forall r r' x y x' y', on A1 r -> on A2 r' -> xr x r -> xr y r' -> xr x' (padd A1 r (Some (t + e, b))) -> xr y' (padd A2 r' (Some (t2 + e2, b2))) -> sq x y 0%nat <> 0 \/ sq x y 1%nat <> 0 ->
    exists Y mu, mu <> 0 /\ (forall j, (j < 4)%nat -> sq x y j = cA j * Y j) /\ (forall j, (j < 4)%nat -> sq x' y' j = mu * (cA j * Y (Nat.lxor j 1))) /\ (Y 1%nat <> 0 \/ Y 0%nat <> 0)).
Proof.
  destruct two_form as (c & C0 & SQ). assert (Nc : c <> 0). { intros C. destruct NO as (i & Ni). apply Ni, C0, C. } clear C0 NO.
  assert (Ncc : 2 * (c * c) <> 0) by auto. set (cc := 2 * (c * c)) in *. clearbody cc.
  destruct (U8P A1 sm1 t e b s e' b' HP DP HQ DQ NS p8 xp Op Ep Rp) as (P0 & P1 & P2 & PE). destruct (U8P A2 sm2 t2 e2 b2 s2 e2' b2' HP2 DP2 HQ2 DQ2 NS2 p8' yp Op' Ep' Rp') as (P0' & P1' & P2' & PE').
  destruct (U8Q A1 sm1 t e b s e' b' HP DP HQ DQ NS q8 xq Oq Eq Rq) as (Q0 & Q1 & Q2 & QE). destruct (U8Q A2 sm2 t2 e2 b2 s2 e2' b2' HP2 DP2 HQ2 DQ2 NS2 q8' yq Oq' Eq' Rq') as (Q0' & Q1' & Q2' & QE').
  destruct (U_O A1 sm1 t e b s e' b' HP DP HQ DQ NS) as (O0 & O1 & O2). destruct (U_O A2 sm2 t2 e2 b2 s2 e2' b2' HP2 DP2 HQ2 DQ2 NS2) as (O0' & O1' & O2').
  destruct (SQ xp yp) as (sp0 & sp1 & sp2 & sp3). destruct (SQ xq yq) as (sq0 & sq1 & sq2 & sq3). destruct (SQ OO OO) as (so0 & so1 & so2 & so3).
  set (sP := sq xp yp) in *. set (sQ := sq xq yq) in *. set (sO := sq OO OO) in *.
  assert (N0 : sP 0%nat <> 0) by (rewrite sp0; auto). assert (N1 : sP 1%nat <> 0) by (rewrite sp1; auto). assert (N2 : sP 2%nat <> 0) by (rewrite sp2; auto).
  assert (M0 : sQ 0%nat <> 0) by (rewrite sq0; auto). assert (M1 : sQ 1%nat <> 0) by (rewrite sq1; auto). assert (M2 : sQ 2%nat <> 0) by (rewrite sq2; auto).
  assert (L0 : sO 0%nat <> 0) by (rewrite so0; auto). assert (L1 : sO 1%nat <> 0) by (rewrite so1; auto). assert (L2 : sO 2%nat <> 0) by (rewrite so2; auto).
  assert (a2nz : sQ 2%nat * sP 0%nat / sQ 0%nat <> 0). { intros C. apply (nzm _ _ M2 N0). transitivity (sQ 2%nat * sP 0%nat / sQ 0%nat * sQ 0%nat); [field; auto|rewrite C; ring]. }
  assert (ZA : zero_at (k0 := k0) (codual sP sQ) 3). { split; [lia|]. split; [reflexivity|]. intros j Hj Nj. destruct j as [|[|[|[|j]]]]; [exact N0|exact N1|exact a2nz|congruence|lia]. }
  (* the relations between the null point and the points of order eight *)
  assert (RP : sP 0%nat * sP 0%nat * sO 1%nat = sP 1%nat * sP 1%nat * sO 0%nat).
  { rewrite sp0, sp1, so0, so1. apply sub_eq. 
    transitivity (cc * (cc * cc) * ((U0 f h xp * U0 f h xp * U1 f h OO + U1 f h xp * U1 f h xp * U0 f h OO) * (U0 f' h' yp * U0 f' h' yp * U1 f' h' OO) - U1 f h xp * U1 f h xp * U0 f h OO * (U0 f' h' yp * U0 f' h' yp * U1 f' h' OO + U1 f' h' yp * U1 f' h' yp * U0 f' h' OO))); [ring|]. rewrite PE, PE'. ring. }
  assert (RQ : sQ 0%nat * sQ 0%nat * sO 2%nat = sQ 2%nat * sQ 2%nat * sO 0%nat).
  { rewrite sq0, sq2, so0, so2. apply sub_eq. 
    transitivity (cc * (cc * cc) * ((U0 f h xq * U0 f h xq * U2 f h OO + U2 f h xq * U2 f h xq * U0 f h OO) * (U0 f' h' yq * U0 f' h' yq * U2 f' h' OO) - U2 f h xq * U2 f h xq * U0 f h OO * (U0 f' h' yq * U0 f' h' yq * U2 f' h' OO + U2 f' h' yq * U2 f' h' yq * U0 f' h' OO))); [ring|]. rewrite QE, QE'. ring. }
  assert (SO : exists k, k <> 0 /\ forall j, (j < 4)%nat -> sO j = k * (codual sP sQ j * codual sP sQ j)).
  { exists (sO 0%nat / (sP 0%nat * sP 0%nat)). split. { intros C. apply L0. transitivity (sO 0%nat / (sP 0%nat * sP 0%nat) * (sP 0%nat * sP 0%nat)); [field; auto|rewrite C; ring]. }
    intros j Hj. destruct j as [|[|[|[|j]]]]; [| | | |lia]; unfold codual.
    - field. auto.
    - apply (cancel (sP 0%nat * sP 0%nat)); [auto|]. rewrite RP. field. auto.
    - apply (cancel (sQ 0%nat * sQ 0%nat)); [auto|]. rewrite RQ. field. auto.
    - rewrite so3. ring. }
  split; [exact ZA|]. split; [|split; [exact SO|split]].
  - exists 1, (sP 2%nat / (sQ 2%nat * sP 0%nat / sQ 0%nat)), (sQ 0%nat / sP 0%nat), (sQ 1%nat / sP 1%nat).
    assert (DN : forall x y, x <> 0 -> y <> 0 -> x / y <> 0). { intros x y Hx Hy C. apply Hx. transitivity (x / y * y); [field; auto|rewrite C; ring]. }
    split; [exact (one_nz FT)|]. split; [auto|]. split; [auto|]. split; [auto|].
    intros j Hj. destruct j as [|[|[|[|j]]]]; [| | | |lia]; cbn [Nat.odd Nat.even Nat.div Nat.divmod fst negb]; unfold codual.
    + split; [ring|field; auto]. + split; [ring|field; auto]. + split; field; auto. + rewrite sp3, sq3. split; ring.
  - intros r r' x y _ _ _ _. apply SQ.
  - intros r r' x y x' y' Or Or' Rx Ry Rx' Ry' H.
    pose proof (shiftP A1 sm1 t e b s e' b' HP DP HQ DQ NS r x x' Or Rx Rx') as S1. pose proof (shiftP A2 sm2 t2 e2 b2 s2 e2' b2' HP2 DP2 HQ2 DQ2 NS2 r' y y' Or' Ry Ry') as S2.
    pose proof (U01 A1 sm1 t e b s e' b' HP DP HQ DQ NS _ x' Rx') as V1. pose proof (U01 A2 sm2 t2 e2 b2 s2 e2' b2' HP2 DP2 HQ2 DQ2 NS2 _ y' Ry') as V2.
    destruct (SQ x y) as (r0 & r1 & r2 & r3). destruct (SQ x' y') as (w0 & w1 & w2 & w3). set (sR := sq x y) in *. set (sW := sq x' y') in *.
    assert (RW : sW 0%nat * sR 0%nat * sO 1%nat = sW 1%nat * sR 1%nat * sO 0%nat).
    { rewrite w0, w1, r0, r1, so0, so1. apply sub_eq. 
      transitivity (cc * (cc * cc) * ((U0 f h x' * U0 f h x * U1 f h OO + U1 f h x' * U1 f h x * U0 f h OO) * (U0 f' h' y' * U0 f' h' y * U1 f' h' OO) - U1 f h x' * U1 f h x * U0 f h OO * (U0 f' h' y' * U0 f' h' y * U1 f' h' OO + U1 f' h' y' * U1 f' h' y * U0 f' h' OO))); [ring|]. rewrite S1, S2. ring. }
    assert (NW : sW 0%nat <> 0 \/ sW 1%nat <> 0).
    { destruct (kdec (sW 0%nat) 0) as [D0|D0]; [|left; auto]. destruct (kdec (sW 1%nat) 0) as [D1|D1]; [|right; auto]. exfalso. rewrite w0 in D0. rewrite w1 in D1.
      assert (D0' : U0 f h x' = 0 \/ U0 f' h' y' = 0). { apply (mul0 FT keq_ok), (cancel cc); [auto|]. rewrite D0. ring. }
      assert (D1' : U1 f h x' = 0 \/ U1 f' h' y' = 0). { apply (mul0 FT keq_ok), (cancel cc); [auto|]. rewrite D1. ring. }
      assert (T1 : U0 f h x' = 0 -> U1 f h x = 0). { intros D. rewrite D in S1. assert (N : U1 f h x' <> 0) by (intros D2; exact (V1 D D2)). apply (cancel (U1 f h x' * U0 f h OO)); [auto|]. transitivity (0 * U0 f h x * U1 f h OO + U1 f h x' * U1 f h x * U0 f h OO); [ring|rewrite S1; ring]. }
      assert (T2 : U1 f h x' = 0 -> U0 f h x = 0). { intros D. rewrite D in S1. assert (N : U0 f h x' <> 0) by (intros D2; exact (V1 D2 D)). apply (cancel (U0 f h x' * U1 f h OO)); [auto|]. transitivity (U0 f h x' * U0 f h x * U1 f h OO + 0 * U1 f h x * U0 f h OO); [ring|rewrite S1; ring]. }
      assert (T3 : U0 f' h' y' = 0 -> U1 f' h' y = 0). { intros D. rewrite D in S2. assert (N : U1 f' h' y' <> 0) by (intros D2; exact (V2 D D2)). apply (cancel (U1 f' h' y' * U0 f' h' OO)); [auto|]. transitivity (0 * U0 f' h' y * U1 f' h' OO + U1 f' h' y' * U1 f' h' y * U0 f' h' OO); [ring|rewrite S2; ring]. }
      assert (T4 : U1 f' h' y' = 0 -> U0 f' h' y = 0). { intros D. rewrite D in S2. assert (N : U0 f' h' y' <> 0) by (intros D2; exact (V2 D2 D)). apply (cancel (U0 f' h' y' * U1 f' h' OO)); [auto|]. transitivity (U0 f' h' y' * U0 f' h' y * U1 f' h' OO + 0 * U1 f' h' y * U0 f' h' OO); [ring|rewrite S2; ring]. }
      destruct D0' as [D0'|D0'], D1' as [D1'|D1']; [exact (V1 D0' D1')| | |exact (V2 D0' D1')].
      - destruct H as [H|H]; apply H; [rewrite r0, (T4 D1'); ring|rewrite r1, (T1 D0'); ring].
      - destruct H as [H|H]; apply H; [rewrite r0, (T2 D1'); ring|rewrite r1, (T3 D0'); ring]. }
    set (a0 := sP 0%nat) in *. set (a1 := sP 1%nat) in *. set (a2 := sQ 2%nat * a0 / sQ 0%nat) in *.
    destruct (prop_pair (sW 0%nat / a0) (sW 1%nat / a1) (sR 1%nat / a1) (sR 0%nat / a0)) as (mu & Nm & E0 & E1).
    { destruct SO as (k & Nk & SO). pose proof (SO 0%nat ltac:(lia)) as SO0. pose proof (SO 1%nat ltac:(lia)) as SO1. unfold codual in SO0, SO1. fold a0 in SO0. fold a1 in SO1. rewrite SO0, SO1 in RW.
      apply (cancel (k * (a0 * a0 * (a1 * a1)))); [auto|]. transitivity (sW 0%nat * sR 0%nat * (k * (a1 * a1))); [field; auto|]. rewrite RW. field. auto. }
    { destruct NW as [NW|NW]; [left|right]; intros C; apply NW. - transitivity (sW 0%nat / a0 * a0); [field; auto|rewrite C; ring]. - transitivity (sW 1%nat / a1 * a1); [field; auto|rewrite C; ring]. }
    { destruct H as [NW'|NW']; [right|left]; intros C; apply NW'. - transitivity (sR 0%nat / a0 * a0); [field; auto|rewrite C; ring]. - transitivity (sR 1%nat / a1 * a1); [field; auto|rewrite C; ring]. }
    exists (fun j => match j with O => sR 0%nat / a0 | S O => sR 1%nat / a1 | S (S O) => sR 2%nat / a2 | _ => sW 2%nat / (mu * a2) end), mu. split; [exact Nm|]. split; [|split].
    + intros j Hj. destruct j as [|[|[|[|j]]]]; [| | | |lia]; unfold codual; fold a0 a1; try fold a2; [field; auto|field; auto|field; auto|rewrite r3; ring].
    + intros j Hj. destruct j as [|[|[|[|j]]]]; [| | | |lia]; unfold codual; fold a0 a1; try fold a2; cbn [Nat.lxor Nat.div2 Nat.odd Nat.even negb xorb Nat.b2n].
      * change (Nat.lxor 0 1) with 1%nat. cbn iota. transitivity (sW 0%nat / a0 * a0); [field; auto|]. rewrite E0. ring.
      * change (Nat.lxor 1 1) with 0%nat. cbn iota. transitivity (sW 1%nat / a1 * a1); [field; auto|]. rewrite E1. ring.
      * change (Nat.lxor 2 1) with 3%nat. cbn iota. field. auto.
      * rewrite w3. ring.
    + destruct H as [NW'|NW']; [right|left]; intros C; apply NW'. * transitivity (sR 0%nat / a0 * a0); [field; auto|rewrite C; ring]. * transitivity (sR 1%nat / a1 * a1); [field; auto|rewrite C; ring].
Qed.
End Two.
(** the coordinates determine the abscissas of both components *)
Section Faithful.
Context (A1 A2 : K) (sm1 : A1 * A1 <> 4) (sm2 : A2 * A2 <> 4).
Context (t e b s e' b' : K) (HP : on A1 (Some (t + e, b))) (DP : padd A1 (Some (t + e, b)) (Some (t + e, b)) = Some (t, 0))
  (HQ : on A1 (Some (s + e', b'))) (DQ : padd A1 (Some (s + e', b')) (Some (s + e', b')) = Some (s, 0)) (NS : s <> t).
Context (t2 e2 b2 s2 e2' b2' : K) (HP2 : on A2 (Some (t2 + e2, b2))) (DP2 : padd A2 (Some (t2 + e2, b2)) (Some (t2 + e2, b2)) = Some (t2, 0))
  (HQ2 : on A2 (Some (s2 + e2', b2'))) (DQ2 : padd A2 (Some (s2 + e2', b2')) (Some (s2 + e2', b2')) = Some (s2, 0)) (NS2 : s2 <> t2).
Local Notation g := (gmat A1 t e). Local Notation h := (gmat A1 s e'). Local Notation g' := (gmat A2 t2 e2). Local Notation h' := (gmat A2 s2 e2').
Local Notation TH x y := (th g h g' h' x y). Local Notation OO := (1, 0).
Local Notation xr x q := (xrep (fst x) (snd x) q).
Local Notation f := (ff t e). Local Notation f' := (ff t2 e2).
Lemma th_values : exists c, forall x y, TH x y 0%nat = c * (f x * f' y + f (act x h) * f' (act y h')) /\ TH x y 1%nat = c * (f x * f' (act y h') + f (act x h) * f' y) /\
  TH x y 2%nat = c * (f x * f' y - f (act x h) * f' (act y h')) /\ TH x y 3%nat = c * (f x * f' (act y h') - f (act x h) * f' y).
Proof.
  pose proof (gh_pauli A1 sm1 t e b s e' b' HP DP HQ DQ NS) as G. pose proof (gh_pauli A2 sm2 t2 e2 b2 s2 e2' b2' HP2 DP2 HQ2 DQ2 NS2) as G'.
  pose proof (ff_g A1 sm1 t e b HP DP) as fg. pose proof (ff_gh A1 sm1 t e b s e' b' HP DP HQ DQ NS) as fgh.
  destruct (th0_form g h g' h' f f' G G') as (c & H).
  - exact fg. - exact fgh. - eapply ff_basis; eauto. - eapply ff_g; eauto. - eapply ff_gh; eauto. - eapply ff_basis; eauto.
  - exists c. intros x y. unfold th. rewrite !H, ?(pa_h _ _ G), ?(pa_h _ _ G'), ?fgh, ?fg. repeat split; ring.
Qed.
Lemma ff_nz q x : xr x q -> f x <> 0 \/ f (act x h) <> 0.
Proof.
  intros R. destruct (kdec (f x) 0) as [D|D]; [|left; auto]. destruct (kdec (f (act x h)) 0) as [D'|D']; [|right; auto]. exfalso.
  destruct (ff_indep A1 sm1 t e b s e' b' HP DP HQ DQ NS x D D') as [X Z]. destruct q as [[? ?]|]; destruct R as [R1 R2]; auto.
Qed.
Lemma ff_cross x y : f x * f (act y h) = f (act x h) * f y -> fst x * snd y = fst y * snd x.
Proof.
  pose proof (gT A1 t e b HP DP) as T. pose proof (gS A1 s e' b' HQ DQ) as S. pose proof (gE A1 t e b HP DP) as E. pose proof (gE' A1 s e' b' HQ DQ) as E'.
  destruct (lin_h A1 sm1 t e s e' k1 T S NS E E') as (n & _ & Hn & P1 & P2 & Hh). pose proof (e_nz A1 sm1 t e b HP DP) as Ne.
  assert (Nn : n <> 0). { intros C. apply P2. rewrite <- Hn, C. ring. }
  unfold ff. rewrite !Hh. unfold lin. intros H. apply (cancel (n * (2 * e))); [auto|]. apply sub_eq.
  transitivity (n * (1 * (fst x - (t - e) * snd x)) * (1 * (fst y - (t + e) * snd y)) * - (1) + 1 * (fst x - (t + e) * snd x) * (n * (1 * (fst y - (t - e) * snd y)))); [ring|]. rewrite H. ring.
Qed.
End Faithful.
Lemma rank_one u0 u1 w0 w1 u0' u1' w0' w1' l : (w0 <> 0 \/ w1 <> 0) -> (w0' <> 0 \/ w1' <> 0) -> u0 * w0 = l * (u0' * w0') -> u0 * w1 = l * (u0' * w1') -> u1 * w0 = l * (u1' * w0') -> u1 * w1 = l * (u1' * w1') -> l <> 0 -> u0 * u1' = u1 * u0'.
Proof.
  intros W W' H00 H01 H10 H11 Nl. assert (D : forall w w', w <> 0 -> w' <> 0 -> u0 * w = l * (u0' * w') -> u1 * w = l * (u1' * w') -> u0 * u1' = u1 * u0').
  { intros w w' Hw Hw' Ha Hb. apply (cancel (w * (l * w'))); [auto|]. transitivity (u0 * w * (l * (u1' * w'))); [ring|]. rewrite Ha, <- Hb. transitivity (u1 * w * (l * (u0' * w'))); [ring|]. rewrite <- Ha. rewrite Ha. ring. }
  destruct W as [W|W], W' as [W'|W'].
  - apply (D w0 w0'); auto.
  - destruct (kdec w0' 0) as [Z|Z]; [|apply (D w0 w0'); auto]. destruct (kdec w1 0) as [Z1|Z1]; [|apply (D w1 w1'); auto].
    assert (u0 = 0) by (apply (cancel w0); [auto|]; transitivity (u0 * w0); [ring|rewrite H00, Z; ring]). assert (u1 = 0) by (apply (cancel w0); [auto|]; transitivity (u1 * w0); [ring|rewrite H10, Z; ring]). rewrite H, H0. ring.
  - destruct (kdec w1' 0) as [Z|Z]; [|apply (D w1 w1'); auto]. destruct (kdec w0 0) as [Z1|Z1]; [|apply (D w0 w0'); auto].
    assert (u0 = 0) by (apply (cancel w1); [auto|]; transitivity (u0 * w1); [ring|rewrite H01, Z; ring]). assert (u1 = 0) by (apply (cancel w1); [auto|]; transitivity (u1 * w1); [ring|rewrite H11, Z; ring]). rewrite H, H0. ring.
  - apply (D w1 w1'); auto.
Qed.
Lemma xrep_cross x y p q : xrep (fst x) (snd x) p -> xrep (fst y) (snd y) q -> fst x * snd y = fst y * snd x -> match p, q with None, None => True | Some (a, _), Some (c, _) => a = c | _, _ => False end.
Proof.
  destruct p as [[a ?]|], q as [[c ?]|]; intros [H1 H2] [H3 H4] H; auto.
  - apply (cancel (snd x * snd y)); [auto|]. transitivity (fst x * snd y); [rewrite H2; ring|]. rewrite H, H4. ring.
  - apply (nzm _ _ H3 H1). rewrite <- H, H4. ring.
  - apply (nzm _ _ H1 H3). rewrite H, H2. ring.
Qed.
Section Faithful2.
Context (A1 A2 : K) (sm1 : A1 * A1 <> 4) (sm2 : A2 * A2 <> 4).
Context (t e b s e' b' : K) (HP : on A1 (Some (t + e, b))) (DP : padd A1 (Some (t + e, b)) (Some (t + e, b)) = Some (t, 0))
  (HQ : on A1 (Some (s + e', b'))) (DQ : padd A1 (Some (s + e', b')) (Some (s + e', b')) = Some (s, 0)) (NS : s <> t).
Context (t2 e2 b2 s2 e2' b2' : K) (HP2 : on A2 (Some (t2 + e2, b2))) (DP2 : padd A2 (Some (t2 + e2, b2)) (Some (t2 + e2, b2)) = Some (t2, 0))
  (HQ2 : on A2 (Some (s2 + e2', b2'))) (DQ2 : padd A2 (Some (s2 + e2', b2')) (Some (s2 + e2', b2')) = Some (s2, 0)) (NS2 : s2 <> t2).
Local Notation g := (gmat A1 t e). Local Notation h := (gmat A1 s e'). Local Notation g' := (gmat A2 t2 e2). Local Notation h' := (gmat A2 s2 e2').
Local Notation TH x y := (th g h g' h' x y). Local Notation OO := (1, 0).
Local Notation xr x q := (xrep (fst x) (snd x) q).
Local Notation f := (ff t e). Local Notation f' := (ff t2 e2).
Lemma th_zero x y r r' : (exists i, TH OO OO i <> 0) -> xr x r -> xr y r' -> exists i, (i < 4)%nat /\ TH x y i <> 0.
Proof.
  intros (i0 & N) R R'. destruct (th_values A1 A2 sm1 sm2 t e b s e' b' HP DP HQ DQ NS t2 e2 b2 s2 e2' b2' HP2 DP2 HQ2 DQ2 NS2) as (c & H).
  assert (Nc : c <> 0). { intros C. apply N. destruct (H OO OO) as (H0 & H1 & H2 & H3). destruct i0 as [|[|[|i0]]]; [rewrite H0|rewrite H1|rewrite H2|change (TH OO OO 3%nat = 0); rewrite H3]; rewrite C; ring. }
  destruct (H x y) as (H0 & H1 & H2 & H3).
  destruct (kdec (TH x y 0%nat) 0) as [D0|D0]; [|exists 0%nat; split; [lia|auto]]. destruct (kdec (TH x y 1%nat) 0) as [D1|D1]; [|exists 1%nat; split; [lia|auto]].
  destruct (kdec (TH x y 2%nat) 0) as [D2|D2]; [|exists 2%nat; split; [lia|auto]]. destruct (kdec (TH x y 3%nat) 0) as [D3|D3]; [|exists 3%nat; split; [lia|auto]]. exfalso.
  rewrite H0 in D0. rewrite H1 in D1. rewrite H2 in D2. rewrite H3 in D3.
  assert (Z : forall a d, c * (a + d) = 0 -> c * (a - d) = 0 -> a = 0 /\ d = 0).
  { intros a d Ha Hd. split; apply (cancel (2 * c)); auto; [transitivity (c * (a + d) + c * (a - d)); [ring|rewrite Ha, Hd; ring]|transitivity (c * (a + d) - c * (a - d)); [ring|rewrite Ha, Hd; ring]]. }
  destruct (Z _ _ D0 D2) as [Z1 Z2]. destruct (Z _ _ D1 D3) as [Z3 Z4].
  destruct (ff_nz A1 sm1 t e b s e' b' HP DP HQ DQ NS r x R) as [W|W], (ff_nz A2 sm2 t2 e2 b2 s2 e2' b2' HP2 DP2 HQ2 DQ2 NS2 r' y R') as [W'|W'].
  - exact (nzm _ _ W W' Z1). - exact (nzm _ _ W W' Z3). - exact (nzm _ _ W W' Z4). - exact (nzm _ _ W W' Z2).
Qed.
Lemma th_faithful x y x' y' r r' q q' l : (exists i, TH OO OO i <> 0) -> xr x r -> xr y r' -> xr x' q -> xr y' q' -> l <> 0 -> (forall i, (i < 4)%nat -> TH x y i = l * TH x' y' i) -> fst x * snd x' = fst x' * snd x /\ fst y * snd y' = fst y' * snd y.
Proof.
  intros (i0 & N) R R' Q Q' Nl E. destruct (th_values A1 A2 sm1 sm2 t e b s e' b' HP DP HQ DQ NS t2 e2 b2 s2 e2' b2' HP2 DP2 HQ2 DQ2 NS2) as (c & H).
  assert (Nc : c <> 0). { intros C. apply N. destruct (H OO OO) as (H0 & H1 & H2 & H3). destruct i0 as [|[|[|i0]]]; [rewrite H0|rewrite H1|rewrite H2|change (TH OO OO 3%nat = 0); rewrite H3]; rewrite C; ring. }
  destruct (H x y) as (H0 & H1 & H2 & H3). destruct (H x' y') as (K0 & K1 & K2 & K3).
  pose proof (E 0%nat ltac:(lia)) as E0. pose proof (E 1%nat ltac:(lia)) as E1. pose proof (E 2%nat ltac:(lia)) as E2. pose proof (E 3%nat ltac:(lia)) as E3.
  rewrite H0, K0 in E0. rewrite H1, K1 in E1. rewrite H2, K2 in E2. rewrite H3, K3 in E3.
  assert (Z : forall a d a' d', c * (a + d) = l * (c * (a' + d')) -> c * (a - d) = l * (c * (a' - d')) -> a = l * a' /\ d = l * d').
  { intros a d a' d' Ha Hd. split; apply (cancel (2 * c)); auto; [transitivity (c * (a + d) + c * (a - d)); [ring|rewrite Ha, Hd; ring]|transitivity (c * (a + d) - c * (a - d)); [ring|rewrite Ha, Hd; ring]]. }
  destruct (Z _ _ _ _ E0 E2) as [Z1 Z2]. destruct (Z _ _ _ _ E1 E3) as [Z3 Z4].
  pose proof (ff_nz A1 sm1 t e b s e' b' HP DP HQ DQ NS r x R) as W. pose proof (ff_nz A2 sm2 t2 e2 b2 s2 e2' b2' HP2 DP2 HQ2 DQ2 NS2 r' y R') as W'.
  pose proof (ff_nz A1 sm1 t e b s e' b' HP DP HQ DQ NS q x' Q) as V. pose proof (ff_nz A2 sm2 t2 e2 b2 s2 e2' b2' HP2 DP2 HQ2 DQ2 NS2 q' y' Q') as V'.
  split.
  - apply (ff_cross A1 sm1 t e b s e' b' HP DP HQ DQ NS). exact (rank_one _ _ _ _ _ _ _ _ l W' V' Z1 Z3 Z4 Z2 Nl).
  - apply (ff_cross A2 sm2 t2 e2 b2 s2 e2' b2' HP2 DP2 HQ2 DQ2 NS2). apply (rank_one _ _ (f x) (f (act x h)) _ _ (f x') (f (act x' h)) l W V); auto.
    + transitivity (f x * f' y); [ring|rewrite Z1; ring]. + transitivity (f (act x h) * f' y); [ring|rewrite Z4; ring]. + transitivity (f x * f' (act y h')); [ring|rewrite Z3; ring]. + transitivity (f (act x h) * f' (act y h')); [ring|rewrite Z2; ring].
Qed.
Lemma th_shift_g x y r r' x' y' : on A1 r -> on A2 r' -> xr x r -> xr y r' -> xr x' (padd A1 r (Some (t, 0))) -> xr y' (padd A2 r' (Some (t2, 0))) ->
  exists l, l <> 0 /\ forall i, (i < 4)%nat -> TH x' y' i = l * ((if Nat.odd i then - k1 else k1) * TH x y i).
Proof.
  intros O O' X Y X' Y'. pose proof (gh_pauli A1 sm1 t e b s e' b' HP DP HQ DQ NS) as G. pose proof (gh_pauli A2 sm2 t2 e2 b2 s2 e2' b2' HP2 DP2 HQ2 DQ2 NS2) as G'.
  destruct (xrep_prop _ _ _ (gmat_trans A1 sm1 t e b HP DP r x O X) X') as (l & Nl & ->). destruct (xrep_prop _ _ _ (gmat_trans A2 sm2 t2 e2 b2 HP2 DP2 r' y O' Y) Y') as (l' & Nl' & ->).
  exists (l * l'). split; [auto|]. intros i Hi. rewrite th_rsc, th_g by auto. reflexivity.
Qed.
Lemma th_shift_h x y r r' x' y' : on A1 r -> on A2 r' -> xr x r -> xr y r' -> xr x' (padd A1 r (Some (s, 0))) -> xr y' (padd A2 r' (Some (s2, 0))) ->
  exists l, l <> 0 /\ forall i, (i < 4)%nat -> TH x' y' i = l * ((if Nat.odd (Nat.div i 2) then - k1 else k1) * TH x y i).
Proof.
  intros O O' X Y X' Y'. pose proof (gh_pauli A1 sm1 t e b s e' b' HP DP HQ DQ NS) as G. pose proof (gh_pauli A2 sm2 t2 e2 b2 s2 e2' b2' HP2 DP2 HQ2 DQ2 NS2) as G'.
  destruct (xrep_prop _ _ _ (gmat_trans A1 sm1 s e' b' HQ DQ r x O X) X') as (l & Nl & ->). destruct (xrep_prop _ _ _ (gmat_trans A2 sm2 s2 e2' b2' HQ2 DQ2 r' y O' Y) Y') as (l' & Nl' & ->).
  exists (l * l'). split; [auto|]. intros i Hi. rewrite th_rsc, th_h by auto. reflexivity.
Qed.
Lemma th_same x y r r' x' y' : xr x r -> xr y r' -> xr x' r -> xr y' r' -> exists l, l <> 0 /\ forall i, (i < 4)%nat -> TH x y i = l * TH x' y' i.
Proof.
  intros X Y X' Y'. destruct (xrep_prop _ _ _ X' X) as (l & Nl & ->). destruct (xrep_prop _ _ _ Y' Y) as (l' & Nl' & ->). exists (l * l'). split; [auto|]. intros i Hi. apply th_rsc.
Qed.
End Faithful2.
(** points of order four and eight on the curve with coefficient - (t + 1/t) *)
Section Pts.
Context (t u : K) (TU : t * u = 1) (TN : t <> u).
Local Notation A := (- (t + u)).
Lemma pts_smooth : A * A <> 4.
Proof. intros E. apply TN, sub_eq, sq_0. transitivity (A * A - 4 * (t * u)); [ring|]. rewrite E, TU. ring. Qed.
Lemma pts_half x r1 r2 r3 : x = r1 * r1 -> x - t = r2 * r2 -> x - u = r3 * r3 -> let X := (r1 + r2) * (r1 + r3) in let Y := (r1 + r2) * (r1 + r3) * (r2 + r3) in
  on A (Some (X, Y)) /\ padd A (Some (X, Y)) (Some (X, Y)) = Some (x, r1 * r2 * r3).
Proof.
  intros H1 H2 H3 X Y. assert (Et : t = r1 * r1 - r2 * r2) by (rewrite <- H2, <- H1; ring). assert (Eu : u = r1 * r1 - r3 * r3) by (rewrite <- H3, <- H1; ring).
  assert (W : 1 = (r1 * r1 - r2 * r2) * (r1 * r1 - r3 * r3)) by (rewrite <- Et, <- Eu; symmetry; exact TU).
  assert (N12 : r1 + r2 <> 0). { intros C. apply (one_nz FT). rewrite W. transitivity ((r1 + r2) * ((r1 - r2) * (r1 * r1 - r3 * r3))); [ring|rewrite C; ring]. }
  assert (N13 : r1 + r3 <> 0). { intros C. apply (one_nz FT). rewrite W. transitivity ((r1 + r3) * ((r1 - r3) * (r1 * r1 - r2 * r2))); [ring|rewrite C; ring]. }
  assert (N23 : r2 + r3 <> 0). { intros C. apply TN. rewrite Et, Eu. apply sub_eq. transitivity ((r2 + r3) * (r3 - r2)); [ring|rewrite C; ring]. }
  assert (NY : Y <> 0) by (unfold Y; auto).
  assert (G : forall q, q = (r1 * r1 - r2 * r2) * (r1 * r1 - r3 * r3) -> Y * Y = X * (X * X) + A * (X * X) + q * X /\ X * X - q = 2 * r1 * Y /\ (X * X + q) * (X * X + q + 2 * A * X) + 4 * (q * (X * X)) = 4 * (Y * Y) * (r2 * r3)).
  { intros q ->. rewrite Et, Eu. unfold X, Y. repeat split; ring. }
  destruct (G 1 W) as (G1 & G2 & G3). assert (O : on A (Some (X, Y))) by (unfold S_Curve.on; rewrite G1; ring). split; [exact O|].
  rewrite (dbl_fin FT keq_ok two_nz X Y O NY). rewrite G2. replace ((X * X + 1) * (X * X + 1 + 2 * A * X) + 4 * (X * X)) with (4 * (Y * Y) * (r2 * r3)) by (rewrite <- G3; ring). rewrite H1. f_equal. f_equal; field; repeat split; auto.
Qed.
Lemma pts_P b : b <> 0 -> on A (Some (1, b)) -> padd A (Some (1, b)) (Some (1, b)) = Some (0, 0).
Proof. intros Nb O. rewrite (dbl_fin FT keq_ok two_nz 1 b O Nb). f_equal. f_equal; field; repeat split; auto. Qed.
Lemma pts_Q e b : e * e = t * t - 1 -> b <> 0 -> on A (Some (t + e, b)) -> padd A (Some (t + e, b)) (Some (t + e, b)) = Some (t, 0).
Proof.
  intros E Nb O. rewrite (dbl_fin FT keq_ok two_nz _ b O Nb). cbn in O.
  assert (E1 : (t + e) * (t + e) = 1 + 2 * e * (t + e)) by (transitivity (t * t + 2 * (t * e) + e * e); [ring|]; transitivity (1 + 2 * t * e + (e * e + (t * t - 1))); [rewrite E; ring|rewrite <- E; ring]).
  assert (E2 : (t + e) * (t + e) + 1 = 2 * t * (t + e)) by (transitivity (t * t + 2 * (t * e) + (e * e + 1)); [ring|]; rewrite E; ring).
  assert (E3 : t * (b * b) = (t + e) * (t + e) * (e * e)).
  { rewrite O. transitivity ((t + e) * (t * ((t + e) * (t + e)) - t * t * (t + e) - (t * u) * (t + e) + t)); [ring|]. rewrite TU. transitivity ((t + e) * (e * (t * t - 1 + t * e))); [ring|]. rewrite <- E. ring. }
  assert (Nx : b * b <> 0) by auto.
  replace ((t + e) * (t + e) - 1) with (2 * e * (t + e)) by (rewrite E1; ring). rewrite E2.
  replace (2 * t * (t + e) * (2 * t * (t + e) + 2 * A * (t + e)) + 4 * ((t + e) * (t + e))) with (4 * ((t + e) * (t + e)) * (1 - t * u)) by ring. rewrite TU. f_equal. f_equal.
  - transitivity (4 * (t * (b * b)) / (4 * (b * b))); [rewrite E3; f_equal; ring|]. field. repeat split; auto.
  - field. repeat split; auto.
Qed.
End Pts.
(** the squared dual coordinates of proportional points, up to signs *)
Lemma sqdual_scale (x y : nat -> K) l (sg : nat -> bool) : (forall i, (i < 4)%nat -> x i = l * ((if sg i then - k1 else k1) * y i)) -> forall j, sqdual x j = l * l * sqdual y j.
Proof.
  intros H j. unfold S_Theta.sqdual, dual, sum4. rewrite !(H 0%nat), !(H 1%nat), !(H 2%nat), !(H 3%nat) by lia.
  unfold sgn. destruct (sg 0%nat), (sg 1%nat), (sg 2%nat), (sg 3%nat), (dot j 0), (dot j 1), (dot j 2), (dot j 3); ring.
Qed.
Lemma inv_scale k x : k <> 0 -> kinv (k * x) = kinv x / k.
Proof.
  intros Nk. destruct (kdec x 0) as [->|N].
  - replace (k * 0) with 0 by ring. rewrite (l_inv0 _ _ _ _ _ _ _ _ _ _ _ L). field. exact Nk.
  - assert (k * x <> 0) by auto. field. auto.
Qed.
Lemma gluing_image_scale P S P' S' k m ai bi z : (z < 4)%nat -> k <> 0 -> m <> 0 -> (forall j, (j < 4)%nat -> sqdual (tv (v := v) P') j = k * sqdual (tv (v := v) P) j) -> (forall j, (j < 4)%nat -> sqdual (tv (v := v) S') j = m * sqdual (tv (v := v) S) j) ->
  forall i, (i < 4)%nat -> tv (v := v) (gluing_image o P' S' ai bi z) i = k * tv (v := v) (gluing_image o P S ai bi z) i.
Proof.
  intros Hz Nk Nm HP HS i Hi. unfold gluing_image. set (sp := to_squared_theta o P). set (ss := to_squared_theta o S). set (sp' := to_squared_theta o P'). set (ss' := to_squared_theta o S').
  assert (LX : forall j, (j < 4)%nat -> (Nat.lxor j z < 4)%nat) by (intros j Hj; destruct j as [|[|[|[|j]]]]; [| | | |exfalso; lia]; destruct z as [|[|[|[|z]]]]; try (exfalso; lia); cbn; lia).
  assert (EP : forall j, (j < 4)%nat -> v (xnth o (t_list sp') j z) = k * v (xnth o (t_list sp) j z)). { intros j Hj. rewrite !(xnth_t L) by auto. unfold sp, sp'. rewrite !(sq_ok L) by auto. apply HP. auto. }
  assert (ES : forall j, (j < 4)%nat -> v (xnth o (t_list ss') j z) = m * v (xnth o (t_list ss) j z)). { intros j Hj. rewrite !(xnth_t L) by auto. unfold ss, ss'. rewrite !(sq_ok L) by auto. apply HS. auto. }
  rewrite !(had_ok L), <- (dual_scale L) by auto. apply (dual_ext L). intros j Hj. unfold tv. rewrite !(xarr_ok L) by auto. pose proof (LX j Hj) as H. generalize dependent (Nat.lxor j z). intros j' Hj'.
  assert (B0 : forall x x', v x' = k * v x -> fis0 o x' = fis0 o x).
  { intros x x' E. rewrite !(l_is0 _ _ _ _ _ _ _ _ _ _ _ L). rewrite E. destruct (keqP L (v x) 0) as [Z|N]; destruct (keqP L (k * v x) 0) as [Z'|N']; auto.
    - exfalso. apply N'. rewrite Z. ring. - exfalso. apply (nzm _ _ Nk N Z'). }
  assert (Ez : v (fmul o (xnth o (t_list sp') 2 z) bi) = k * v (fmul o (xnth o (t_list sp) 2 z) bi)) by (vs; rewrite EP by lia; ring).
  assert (Etb : v (fmul o (xnth o (t_list ss') 2 z) bi) = m * v (fmul o (xnth o (t_list ss) 2 z) bi)) by (vs; rewrite ES by lia; ring).
  assert (Exb : v (fmul o (xnth o (t_list ss') 1 z) ai) = m * v (fmul o (xnth o (t_list ss) 1 z) ai)) by (vs; rewrite ES by lia; ring).
  rewrite (B0 _ _ Ez). destruct j' as [|[|[|[|j']]]]; [| | | |exfalso; lia]; cbn [nth].
  - set (x := fmul o (xnth o (t_list ss) 1 z) ai) in *. set (x' := fmul o (xnth o (t_list ss') 1 z) ai) in *. rewrite !(l_mul _ _ _ _ _ _ _ _ _ _ _ L x), !(l_mul _ _ _ _ _ _ _ _ _ _ _ L x'), !(l_cond _ _ _ _ _ _ _ _ _ _ _ L), Exb.
    set (zz := fmul o (xnth o (t_list sp) 2 z) bi) in *. set (zz' := fmul o (xnth o (t_list sp') 2 z) bi) in *. set (tb := fmul o (xnth o (t_list ss) 2 z) bi) in *. set (tb' := fmul o (xnth o (t_list ss') 2 z) bi) in *.
    destruct (fis0 o zz); rewrite !(l_mul _ _ _ _ _ _ _ _ _ _ _ L), !(l_inv _ _ _ _ _ _ _ _ _ _ _ L).
    + rewrite Etb, EP, inv_scale by auto. generalize (kinv (v tb)). intros w. field. exact Nm.
    + rewrite Ez, ES, inv_scale by auto. generalize (kinv (v (xnth o (t_list ss) 3 z))). intros w. field. exact Nm.
  - vs. rewrite EP by lia. ring.
  - exact Ez.
  - apply EP. lia.
Qed.
End Glue.
