(** C77: the torsion points that supersingular.rs:161-176 samples (a random point times the cofactor) are equally likely. *)
From Coq Require Import Arith ZArith List Bool Lia Ring Field.
From Verif Require Import S_Fp S_Fp2 S_Curve M_Fp M_Fp2 M_Field M_Curve M_Super L_Fp L_FpCodec L_Zp L_Zp2 L_Fp2 L_Group L_Kummer L_Fp2Misc L_Field L_Curve L_Entangled P_Fp P_Fp2 P_Curve P_Pairing P_Super P_Scalar P_Basis P_Uniform P_UniformPoint.
Import ListNotations.
Open Scope Z_scope.
Ltac Zify.zify_post_hook ::= idtac.
Add Field Zq_fut : Zq_field.

(** ** There are finitely many points *)
Definition residues : list Z := map Z.of_nat (seq 0 (Z.to_nat P)).
Lemma residues_in z : In z residues <-> 0 <= z < P.
Proof.
  unfold residues. rewrite in_map_iff. split.
  - intros (n & <- & H). apply in_seq in H. pose proof P_pos. lia.
  - intros H. exists (Z.to_nat z). split; [lia|]. apply in_seq. lia.
Qed.
Definition all_q : list Zq := map mk2 (list_prod residues residues).
Lemma all_q_in z : In z all_q.
Proof. unfold all_q. apply in_map_iff. exists (zval2 z). split; [apply mk2_zval2|]. destruct (zval2_range z) as [A B]. destruct (zval2 z) as [a b]. apply in_prod_iff. rewrite !residues_in. auto. Qed.
Lemma pt_dec (p q : pt Zq) : {p = q} + {p <> q}.
Proof. decide equality. decide equality; apply q_dec. Qed.
Lemma finite_points (f : pt Zq -> bool) : exists L, NoDup L /\ forall p, In p L <-> f p = true.
Proof.
  exists (nodup pt_dec (filter f (None :: map Some (list_prod all_q all_q)))). split; [apply NoDup_nodup|]. intros p. rewrite nodup_In, filter_In. split; [intros [_ H]; exact H|intros H; split; [|exact H]].
  destruct p as [[x y]|]; [right|left; reflexivity]. apply in_map_iff. exists (x, y). split; [reflexivity|]. apply in_prod_iff. split; apply all_q_in.
Qed.

(** ** The fibres of a multiplication are translates of each other *)
Section Fibre.
Variables (E : curve fq) (k : Z).
Hypothesis V : valid E.
Hypothesis Hk : 0 <= k.
Notation A := (coeff E).
Definition fibre (T p : pt Zq) : Prop := on_q A p /\ pmul_q A k p = T.
Let SM := valid_smooth E V.
Lemma g_on p q : on_q A p -> on_q A q -> on_q A (padd_q A p q). Proof. exact (padd_on Zq_field qeqb_true q2_nz p q). Qed.
Lemma g_comm p q : on_q A p -> on_q A q -> padd_q A p q = padd_q A q p. Proof. exact (padd_comm Zq_field qeqb_true q2_nz p q). Qed.
Lemma g_assoc p q r : on_q A p -> on_q A q -> on_q A r -> padd_q A (padd_q A p q) r = padd_q A p (padd_q A q r). Proof. exact (padd_assoc Zq_field qeqb_true q2_nz SM p q r). Qed.
Lemma g_opp_on p : on_q A p -> on_q A (popp_q p).
Proof. destruct p as [[x y]|]; [|intros; exact I]. unfold on_q, on, popp_q, popp. intros H. rewrite <- H. ring. Qed.
Lemma g_opp_r p : on_q A p -> padd_q A p (popp_q p) = None. Proof. exact (padd_opp_r Zq_field qeqb_true p). Qed.
Lemma g_0_r p : padd_q A p None = p. Proof. destruct p as [[]|]; reflexivity. Qed.
Lemma g_mul_on p : on_q A p -> on_q A (pmul_q A k p).
Proof. intros H. unfold pmul_q. rewrite pmul_to_nat by exact Hk. exact (pmul_nat_on Zq_field qeqb_true q2_nz _ p H). Qed.
Lemma g_dist p q : on_q A p -> on_q A q -> pmul_q A k (padd_q A p q) = padd_q A (pmul_q A k p) (pmul_q A k q). Proof. intros HP HQ. unfold pmul_q. rewrite !pmul_to_nat by exact Hk. exact (pmul_nat_dist Zq_field qeqb_true q2_nz SM _ p q HP HQ). Qed.
Lemma g_sub p d : on_q A p -> on_q A d -> padd_q A (padd_q A p d) (popp_q d) = p.
Proof. intros HP HD. rewrite g_assoc, g_opp_r, g_0_r; auto using g_opp_on. Qed.
Lemma g_sub' p d : on_q A p -> on_q A d -> padd_q A (padd_q A p (popp_q d)) d = p.
Proof. intros HP HD. rewrite g_assoc by auto using g_opp_on. rewrite (g_comm (popp_q d) d), g_opp_r, g_0_r; auto using g_opp_on. Qed.

Lemma fibre_counts T T' r r' c : fibre T r -> fibre T' r' -> counts (fibre T) c -> counts (fibre T') c.
Proof.
  intros [Or Er] [Or' Er'] (L & NL & IL & EL).
  exists (map (fun p => padd_q A (padd_q A p (popp_q r)) r') L). split; [|split; [|rewrite map_length; exact EL]].
  - apply nodup_map; [|exact NL]. intros x y Hx Hy H. apply IL in Hx. apply IL in Hy. destruct Hx as [Ox _], Hy as [Oy _].
    apply (f_equal (fun p => padd_q A p (popp_q r'))) in H. rewrite !g_sub in H by auto using g_on, g_opp_on. apply (f_equal (fun p => padd_q A p r)) in H. rewrite !g_sub' in H by assumption. exact H.
  - (* the difference with a member of the fibre is killed *)
    assert (K : forall p s s', on_q A p -> on_q A s -> pmul_q A k p = pmul_q A k s -> on_q A s' -> pmul_q A k (padd_q A (padd_q A p (popp_q s)) s') = pmul_q A k s').
    { intros p s s' Op Os H Os'. rewrite !g_dist by auto using g_on, g_opp_on. rewrite H, <- g_dist by auto using g_opp_on. rewrite g_opp_r by exact Os. assert (Z0 : pmul_q A k None = None) by (unfold pmul_q; rewrite pmul_to_nat by exact Hk; apply pmul_nat_None). rewrite Z0. reflexivity. }
    intros q. rewrite in_map_iff. split.
    + intros (p & <- & Hp). apply IL in Hp. destruct Hp as [Op Ep]. split; [auto using g_on, g_opp_on|]. rewrite K; [exact Er'|assumption|assumption|congruence|assumption].
    + intros [Oq Eq]. exists (padd_q A (padd_q A q (popp_q r')) r). split; [rewrite g_sub by auto using g_on, g_opp_on; rewrite g_sub' by assumption; reflexivity|]. apply IL. split; [auto using g_on, g_opp_on|]. rewrite K; [exact Er|assumption|assumption|congruence|assumption].
Qed.
Lemma fibre_finite T : exists L, NoDup L /\ forall p, In p L <-> fibre T p.
Proof.
  set (onb := fun p : pt Zq => match p with None => true | Some (x, y) => qeqb (qmul y y) (qadd (qadd (qmul x (qmul x x)) (qmul A (qmul x x))) x) end).
  destruct (finite_points (fun p => onb p && if pt_dec (pmul_q A k p) T then true else false)) as (L & N & I). exists L. split; [exact N|]. intros p. rewrite I, andb_true_iff. unfold fibre.
  assert (O : onb p = true <-> on_q A p). { unfold onb, on_q, on. destruct p as [[x y]|]; [apply qeqb_true|split; auto]. } rewrite O. destruct (pt_dec (pmul_q A k p) T); intuition congruence.
Qed.
(** the points that a multiplication by an even number does not kill have y <> 0 *)
Lemma fibre_y T x y : Z.even k = true -> T <> None -> fibre T (Some (x, y)) -> qeqb y q0 = false.
Proof.
  intros Ek NT [O H]. destruct (qeqb y q0) eqn:Ey; [|reflexivity]. exfalso. apply qeqb_true in Ey. subst y. apply NT. rewrite <- H. unfold pmul_q. rewrite pmul_to_nat by exact Hk.
  rewrite (pmul_order2 Zq_field qeqb_true x _ O). rewrite <- (Z2Nat.id k Hk) in Ek. assert (Ev : Nat.even (Z.to_nat k) = true). { rewrite <- Ek. generalize (Z.to_nat k). intros n. clear. apply eq_sym. apply Bool.eq_iff_eq_true. rewrite Z.even_spec, Nat.even_spec. split; intros [m Hm]; [exists (Z.to_nat m)|exists (Z.of_nat m)]; lia. }
  rewrite Ev. reflexivity.
Qed.
End Fibre.

(** ** The draws *)
(** the draws on which the first attempt gives a point that clear_cofactor (supersingular.rs:162-163) sends to T *)
Definition yields (E : curve fq) (k : Z) (ep : nat) (T : pt Zq) (t : (list Z * list Z) * list Z) : Prop :=
  block RAND_LENGTH (fst (fst t)) /\ block RAND_LENGTH (snd (fst t)) /\ block 1 (snd t) /\
  exists R S, (forall fuel rng, rand_point fq_ops (Datatypes.S fuel) E (fst (fst t) :: snd (fst t) :: snd t :: rng) = Some (R, rng)) /\ clear_cofactor fq_ops E R k ep = Some S /\ affine S = T.

Lemma first_try E b0 b1 b R : rand_point fq_ops 1 E [b0; b1; b] = Some (R, []) -> forall fuel rng, rand_point fq_ops (S fuel) E (b0 :: b1 :: b :: rng) = Some (R, rng).
Proof.
  set (X := clamp (decode_reduce b0, decode_reduce b1)).
  assert (St : forall fuel rng, rand_point fq_ops (S fuel) E (b0 :: b1 :: b :: rng) =
    (if (0 <=? fleg fq_ops (rhs fq_ops (cA E) X))%Z then
       match b with w :: _ => Some (mkPoint X (fcneg fq_ops (fst (fsqrt fq_ops (rhs fq_ops (cA E) X))) (Z.testbit w 0)) (fone fq_ops), rng) | [] => None end
     else rand_point fq_ops fuel E (b :: rng))) by (intros; reflexivity).
  intros H fuel rng. rewrite St in *. destruct (0 <=? fleg fq_ops (rhs fq_ops (cA E) X)); [|discriminate H]. destruct b as [|w b]; [discriminate H|]. apply some_fst in H. rewrite H. reflexivity.
Qed.
Lemma near_plus a b den m m' : near 128 a den m -> near 128 b den m' -> near 128 (a + b) den (m + m').
Proof.
  unfold near. assert (T : 0 <= 2 ^ 128) by (apply Z.pow_nonneg; lia). revert T. generalize (2 ^ 128). intros t T A B.
  replace ((a + b) * den - (m + m')) with ((a * den - m) + (b * den - m')) by ring. pose proof (Z.abs_triangle (a * den - m) (b * den - m')) as H. apply (Z.mul_le_mono_nonneg_r _ _ t T) in H. lia.
Qed.
Lemma gives_same E p q t : gives E p t -> gives E q t -> p = q.
Proof. intros (_ & _ & _ & H) (_ & _ & _ & H'). destruct (H O []) as (R & E1 & <-), (H' O []) as (R' & E2 & <-). rewrite E1 in E2. apply some_fst in E2. rewrite E2. reflexivity. Qed.
Lemma sum_counts E L m : L <> [] -> NoDup L -> (forall p, In p L -> exists c, counts (gives E p) c /\ 0 < c /\ near 128 c (P * P) m) ->
  exists s, counts (fun t => exists p, In p L /\ gives E p t) s /\ 0 < s /\ near 128 s (P * P) (Z.of_nat (length L) * m).
Proof.
  induction L as [|p L IH]; intros NE ND H; [contradiction|]. destruct (H p (or_introl eq_refl)) as (c & C1 & C2 & C3). inversion ND as [|? ? N1 N2]; subst. destruct L as [|q L].
  - exists c. split; [|split; [exact C2|]]. { apply (counts_ext _ _ _ C1). intros t. split; [intros (x & [<-|[]] & G); exact G|intros G; exists p; split; [left; reflexivity|exact G]]. } change (Z.of_nat (length [p]) * m) with (1 * m). rewrite Z.mul_1_l. exact C3.
  - destruct (IH ltac:(discriminate) N2 (fun x Hx => H x (or_intror Hx))) as (s & S1 & S2 & S3). exists (c + s). split; [|split; [lia|]].
    + apply (counts_or _ _ _ _ _ C1 S1).
      * intros t G (x & Ix & G'). apply N1. rewrite (gives_same _ _ _ _ G G'). exact Ix.
      * intros t. split; [intros (x & [<-|Ix] & G); [left; exact G|right; exists x; split; assumption]|intros [G|(x & Ix & G)]; [exists p; split; [left; reflexivity|exact G]|exists x; split; [right; exact Ix|exact G]]].
    + replace (Z.of_nat (length (p :: q :: L)) * m) with (m + Z.of_nat (length (q :: L)) * m) by (cbn [length]; rewrite (Nat2Z.inj_succ (Datatypes.S (length L))); ring). apply near_plus; assumption.
Qed.
(** ** C77: all points T <> infinity in the image of the multiplication by the cofactor k are the image of the same number n of points, and equally many draws lead to them up to a factor of 1 +- 2^-128 *)
Theorem C77_torsion : forall E k ep, valid E -> 0 <= k -> (1 <= ep)%nat -> (2 ^ Z.of_nat ep | k) -> (exists T R, T <> None /\ fibre E k T R) ->
  exists n, 0 < n /\ forall T, T <> None -> (exists R, fibre E k T R) -> counts (fibre E k T) n /\
    exists s, counts (yields E k ep T) s /\ 0 < s /\ near 128 s (P * P) (n * (128 * (MB * MB))).
Proof.
  intros E k ep V Hk Hep Dk (T0 & R0 & NT0 & HR0). destruct (fibre_finite E k T0) as (L0 & ND0 & I0). exists (Z.of_nat (length L0)).
  assert (C0 : counts (fibre E k T0) (Z.of_nat (length L0))) by (exists L0; split; [exact ND0|split; [exact I0|reflexivity]]).
  assert (Ek : Z.even k = true). { destruct Dk as [c ->]. replace (2 ^ Z.of_nat ep) with (2 * 2 ^ (Z.of_nat ep - 1)) by (rewrite <- Z.pow_succ_r by lia; f_equal; lia). rewrite !Z.even_mul. cbn [Z.even]. destruct (Z.even c); reflexivity. }
  split. { apply I0 in HR0. destruct L0; [destruct HR0|]. cbn [length]. lia. }
  intros T NT (R & HR). pose proof (fibre_counts E k V Hk T0 T R0 R _ HR0 HR C0) as C. split; [exact C|]. destruct C as (L & ND & I & <-).
  assert (NL : L <> []) by (intros ->; apply I in HR; exact HR).
  assert (Z0 : pmul_q (coeff E) k None = None) by (unfold pmul_q; rewrite pmul_to_nat by exact Hk; apply pmul_nat_None).
  assert (G : forall p, In p L -> exists c, counts (gives E p) c /\ 0 < c /\ near 128 c (P * P) (128 * (MB * MB))).
  { intros p Hp. apply I in Hp. destruct p as [[x y]|]; [|exfalso; apply NT; rewrite <- (proj2 Hp); exact Z0]. destruct (C74_point E x y (proj1 Hp)) as (c & D1 & D2 & D3). rewrite (fibre_y E k Hk T x y Ek NT Hp) in D3. exists c. split; [exact D1|]. split; [exact D2|exact D3]. }
  destruct (sum_counts E L _ NL ND G) as (s & S1 & S2 & S3). exists s. split; [|split; [exact S2|exact S3]]. apply (counts_ext _ _ _ S1). intros [[b0 b1] b]. unfold yields. cbn [fst snd]. split.
  - intros (B0 & B1 & B & R' & S & HR' & HS & HT). destruct (C50_rand_point _ _ _ _ _ (HR' O [])) as [OR _]. destruct (C32_clear_cofactor E R' k ep V OR Hk Dk) as (S' & ES & _ & AS). rewrite HS in ES. injection ES as ES. subst S'.
    exists (affine R'). split; [apply I; split; [exact OR|rewrite <- AS; exact HT]|]. split; [exact B0|]. split; [exact B1|]. split; [exact B|]. intros fuel rng. exists R'. split; [apply HR'|reflexivity].
  - intros (p & Ip & (B0 & B1 & B & H)). cbn [fst snd] in *. apply I in Ip. destruct Ip as [Op Ep]. split; [exact B0|]. split; [exact B1|]. split; [exact B|]. destruct (H O []) as (R' & HR' & HA).
    assert (OR : on_E E R') by (unfold on_E; rewrite HA; exact Op). destruct (C32_clear_cofactor E R' k ep V OR Hk Dk) as (S' & ES & _ & AS). exists R', S'. split; [exact (first_try _ _ _ _ _ HR')|]. split; [exact ES|]. rewrite AS, HA. exact Ep.
Qed.
Print Assumptions C77_torsion.
(** ** C77: generate_random_point_order_factored_D.  The draws on which its first round returns a point with affine coordinates T, whatever the fuel and the rest of the stream *)
Definition returns (checks : bool) (E : curve fq) (fs : list (Z * Z)) (ep : nat) (T : pt Zq) (t : (list Z * list Z) * list Z) : Prop :=
  block RAND_LENGTH (fst (fst t)) /\ block RAND_LENGTH (snd (fst t)) /\ block 1 (snd t) /\
  exists S, affine S = T /\ forall fuel rng, generate_random_point fq_ops (Datatypes.S fuel) checks E fs ep (fst (fst t) :: snd (fst t) :: snd t :: rng) = Some (S, rng).
(** no prime of the list can be removed from the order of T *)
Definition full_order (E : curve fq) (fs : list (Z * Z)) (T : pt Zq) : Prop := T <> None /\ forall l e, In (l, e) fs -> pmul_q (coeff E) (order_of fs / l) T <> None.
Lemma returns_yields checks E fs ep T t : valid E -> entries fs -> (2 ^ Z.of_nat ep | (P + 1) / order_of fs) -> full_order E fs T ->
  (returns checks E fs ep T t <-> yields E ((P + 1) / order_of fs) ep T t).
Proof.
  intros V HE Dk [NT FO]. destruct t as [[b0 b1] b]. unfold returns, yields. cbn [fst snd]. set (k := (P + 1) / order_of fs) in *. assert (Hk : 0 <= k) by (apply cofactor_nonneg, HE).
  assert (G : forall fuel rng, generate_random_point fq_ops fuel checks E fs ep rng = obind (rand_point fq_ops fuel E rng) (fun Rr => obind (try_point fq_ops checks E fs k ep (fst Rr)) (fun res =>
    match res with Some T => Some (T, snd Rr) | None => random_order_loop fq_ops 999 fuel checks E fs k ep (snd Rr) end))) by (intros fuel rng; unfold generate_random_point; rewrite cofactor_eq by exact HE; reflexivity).
  split; intros (B0 & B1 & B & H); (split; [exact B0|]); (split; [exact B1|]); (split; [exact B|]).
  - destruct H as (S & HS & H). specialize (H O []). rewrite G in H. destruct (rand_point fq_ops 1 E [b0; b1; b]) as [[R rest]|] eqn:ER; [|discriminate H]. cbn [obind fst snd] in H.
    assert (Er : rest = []).
    { assert (St : rand_point fq_ops 1 E [b0; b1; b] = (let X := clamp (decode_reduce b0, decode_reduce b1) in if (0 <=? fleg fq_ops (rhs fq_ops (cA E) X))%Z then
         match b with w :: _ => Some (mkPoint X (fcneg fq_ops (fst (fsqrt fq_ops (rhs fq_ops (cA E) X))) (Z.testbit w 0)) (fone fq_ops), []) | [] => None end else None)) by reflexivity.
      rewrite St in ER. cbv zeta in ER. destruct (0 <=? _); [|discriminate ER]. destruct b; [discriminate ER|]. apply some_pair in ER. symmetry. exact (proj2 ER). }
    subst rest. destruct (try_point fq_ops checks E fs k ep R) as [[S'|]|] eqn:ET; cbn [obind] in H; [|change (random_order_loop fq_ops 999 1 checks E fs k ep []) with (@None (point fq * list (list Z))) in H; discriminate H|discriminate H].
    apply some_fst in H. subst S'. unfold try_point in ET. destruct (clear_cofactor fq_ops E R k ep) as [S'|] eqn:EC; [|discriminate ET]. cbn [obind] in ET. destruct (isinfinity fq_ops S'); [discriminate ET|]. destruct (point_has_factored_order fq_ops checks E S' fs) as [[]|]; cbn [obind] in ET; try discriminate ET. injection ET as ET. subst S'.
    exists R, S. split; [exact (first_try _ _ _ _ _ ER)|]. split; [exact EC|exact HS].
  - destruct H as (R & S & HR & HC & HS). exists S. split; [exact HS|]. intros fuel rng. rewrite G, HR. cbn [obind fst snd]. unfold try_point. rewrite HC. cbn [obind].
    destruct (C50_rand_point _ _ _ _ _ (HR O [])) as [OR _]. destruct (C32_clear_cofactor E R k ep V OR Hk Dk) as (S' & ES & OS & _). rewrite HC in ES. injection ES as ES. subst S'.
    assert (NI : isinfinity fq_ops S = false) by (destruct (isinfinity fq_ops S) eqn:EI; [|reflexivity]; apply C44_isinfinity in EI; exfalso; apply NT; rewrite <- HS; exact EI). rewrite NI.
    destruct (C33_point_test checks E S fs V OS HE) as (bb & Eb & Hb). rewrite Eb. cbn [obind]. assert (Tb : bb = true) by (apply Hb; rewrite HS; exact FO). rewrite Tb. reflexivity.
Qed.
(** every point of full order is returned by the first round with the same probability n/(2 p^2), up to a factor of 1 +- 2^-128 *)
Theorem C77_generate : forall checks E fs ep, valid E -> entries fs -> (1 <= ep)%nat -> let k := (P + 1) / order_of fs in (2 ^ Z.of_nat ep | k) -> (exists T R, full_order E fs T /\ fibre E k T R) ->
  exists n, 0 < n /\ forall T, full_order E fs T -> (exists R, fibre E k T R) ->
    exists s, counts (returns checks E fs ep T) s /\ 0 < s /\ near 128 s (P * P) (n * (128 * (MB * MB))).
Proof.
  intros checks E fs ep V HE Hep k Dk (T0 & R0 & FO & HR). destruct (C77_torsion E k ep V (cofactor_nonneg _ HE) Hep Dk (ex_intro _ T0 (ex_intro _ R0 (conj (proj1 FO) HR)))) as (n & Hn & H). exists n. split; [exact Hn|].
  intros T FT HT. destruct (H T (proj1 FT) HT) as (_ & s & S1 & S2 & S3). exists s. split; [|split; [exact S2|exact S3]]. apply (counts_ext _ _ _ S1). intros t. apply returns_yields; assumption.
Qed.
Print Assumptions C77_generate.
(** a round whose multiple is not of full order (or is infinity) leaves no trace: the remaining rounds go on with the rest of the stream *)
Theorem C77_reject : forall checks E fs ep, valid E -> entries fs -> let k := (P + 1) / order_of fs in (2 ^ Z.of_nat ep | k) ->
  forall b0 b1 b R, (forall fuel rng, rand_point fq_ops (S fuel) E (b0 :: b1 :: b :: rng) = Some (R, rng)) -> ~ full_order E fs (pmul_q (coeff E) k (affine R)) ->
  forall rounds fuel rng, random_order_loop fq_ops (S rounds) (S fuel) checks E fs k ep (b0 :: b1 :: b :: rng) = random_order_loop fq_ops rounds (S fuel) checks E fs k ep rng.
Proof.
  intros checks E fs ep V HE k Dk b0 b1 b R HR NF rounds fuel rng. assert (Hk : 0 <= k) by (apply cofactor_nonneg, HE).
  destruct (C50_rand_point _ _ _ _ _ (HR O [])) as [OR _]. destruct (C32_clear_cofactor E R k ep V OR Hk Dk) as (T & ET & OT & AT).
  assert (Tr : try_point fq_ops checks E fs k ep R = Some None).
  { unfold try_point. rewrite ET. cbn [obind]. destruct (isinfinity fq_ops T) eqn:EI; [reflexivity|]. destruct (C33_point_test checks E T fs V OT HE) as (bb & Eb & Hb). rewrite Eb. cbn [obind]. destruct bb; [|reflexivity]. exfalso. apply NF. rewrite <- AT. split; [|apply Hb; reflexivity].
    intros N. apply C44_isinfinity in N. rewrite N in EI. discriminate EI. }
  assert (G : random_order_loop fq_ops (S rounds) (S fuel) checks E fs k ep (b0 :: b1 :: b :: rng) = obind (rand_point fq_ops (S fuel) E (b0 :: b1 :: b :: rng)) (fun Rr => obind (try_point fq_ops checks E fs k ep (fst Rr)) (fun res =>
    match res with Some T => Some (T, snd Rr) | None => random_order_loop fq_ops rounds (S fuel) checks E fs k ep (snd Rr) end))) by reflexivity.
  rewrite G, HR. cbn [obind fst snd]. rewrite Tr. reflexivity.
Qed.
Print Assumptions C77_reject.
(** the curve exE with cofactor 2: the double of exP = (2, 4) is not infinity *)
Example C77_ex : valid exE /\ (2 ^ Z.of_nat 1 | 2) /\ exists T R, T <> None /\ fibre exE 2 T R.
Proof.
  split; [exact exE_valid|]. split; [exists 1; reflexivity|]. exists (padd_q (coeff exE) (affine exP) (affine exP)), (affine exP). split; [|split; [exact exP_on|reflexivity]].
  intros H. apply (padd_None Zq_field qeqb_true q2_nz (affine exP) (affine exP) exP_on exP_on) in H. rewrite exP_affine in H. apply (f_equal (fun p : pt Zq => match p with Some (_, y) => y | None => q0 end)) in H. assert (H4 : q4 = qopp q4) by exact H.
  apply q2_nz. apply (qmul_cancel2 (qadd q1 q1)). apply (qmul_cancel2 (qadd (qadd q1 q1) (qadd q1 q1))). transitivity (qadd q4 q4); [reflexivity|]. rewrite H4 at 1. ring.
Qed.
(** the factorisation 5^556 leaves the cofactor 2; on y^2 = x^3 - x^2 + x the point (0, 0) = [2](1, 1) of order two passes the order test *)
Section Halve.
Context {K : Type} {k0 k1 : K} {kadd kmul ksub : K -> K -> K} {kopp : K -> K} {kdiv : K -> K -> K} {kinv : K -> K}.
Context (FT : field_theory k0 k1 kadd kmul ksub kopp kdiv kinv (@eq K)) (N2 : kadd k1 k1 <> k0).
Context {keq : K -> K -> bool} (keq_ok : forall x y, keq x y = true <-> x = y).
Add Field Kh : FT.
Lemma halve_double : padd k1 kadd kmul ksub kopp kdiv keq (kopp k1) (Some (k1, k1)) (Some (k1, k1)) = Some (k0, k0).
Proof.
  unfold padd. rewrite (proj2 (keq_ok k1 k1) eq_refl). destruct (keq k1 (kopp k1)) eqn:E; [exfalso; apply keq_ok in E; apply N2; rewrite E at 1; ring|]. unfold chord.
  assert (M : kdiv (kadd (kadd (kmul (kadd (kadd k1 k1) k1) (kmul k1 k1)) (kmul (kadd k1 k1) (kmul (kopp k1) k1))) k1) (kmul (kadd k1 k1) k1) = k1) by (field; exact N2).
  rewrite M. cbv zeta. f_equal. f_equal; ring.
Qed.
End Halve.
Definition hE : curve fq := mkE (fneg fq_ops (fone fq_ops)).
Lemma hE_v : fqv (fneg fq_ops (fone fq_ops)) = qopp q1. Proof. rewrite (l_neg _ _ _ _ _ _ _ _ _ _ _ fq_laws), (l_one _ _ _ _ _ _ _ _ _ _ _ fq_laws). reflexivity. Qed.
Lemma hE_coeff : coeff hE = qopp q1. Proof. exact hE_v. Qed.
Lemma hE_valid : valid hE.
Proof. apply mkE_valid. rewrite hE_v. intros H. apply q3_nz. transitivity (qadd q4 (qopp q1)); [unfold q4, q2; ring|rewrite <- H; ring]. Qed.
Lemma hE_double : pmul_q (coeff hE) 2 (Some (q1, q1)) = Some (q0, q0). Proof. rewrite hE_coeff. exact (halve_double Zq_field q2_nz qeqb_true). Qed.
Lemma hE_on1 : on_q (coeff hE) (Some (q1, q1)). Proof. rewrite hE_coeff. cbn. ring. Qed.
Lemma hE_on0 : on_q (coeff hE) (Some (q0, q0)). Proof. generalize (coeff hE). intros a. cbn. ring. Qed.
Lemma hE_two : pmul_q (coeff hE) 2 (Some (q0, q0)) = None.
Proof. change (padd_q (coeff hE) (Some (q0, q0)) (Some (q0, q0)) = None). unfold padd_q, padd. rewrite (proj2 (qeqb_true q0 q0) eq_refl). rewrite (proj2 (qeqb_true q0 (qopp q0))); [reflexivity|ring]. Qed.
Example C77_generate_ex : let fs := [(5, 556)] in valid hE /\ entries fs /\ (2 ^ Z.of_nat 1 | (P + 1) / order_of fs) /\ exists T R, full_order hE fs T /\ fibre hE ((P + 1) / order_of fs) T R.
Proof.
  intros fs. assert (K : (P + 1) / order_of fs = 2) by (vm_compute; reflexivity).
  split; [exact hE_valid|]. split; [split; [discriminate|constructor; [split; [reflexivity|split; discriminate]|constructor]]|]. rewrite K. split; [exists 1; reflexivity|].
  exists (Some (q0, q0)), (Some (q1, q1)). split; [|split; [exact hE_on1|exact hE_double]]. split; [discriminate|]. intros l e [I|[]]. apply (f_equal fst) in I. cbn [fst] in I. subst l. intros Z0.
  assert (G : Z.gcd (order_of fs / 5) 2 = 1) by (vm_compute; reflexivity).
  assert (X := pm_zero_gcd hE_valid (Some (q0, q0)) (order_of fs / 5) 2 hE_on0 ltac:(vm_compute; discriminate) ltac:(discriminate) Z0 hE_two). rewrite G, pm_1 in X. discriminate X.
Qed.
(** the factorisation 2^1291 also leaves the cofactor 2, and then the draws giving (1, 1) are rejected *)
Example C77_reject_ex : let fs := [(2, 1291)] in let k := (P + 1) / order_of fs in entries fs /\ (2 ^ Z.of_nat 1 | k) /\
  exists b0 b1 b R, (forall fuel rng, rand_point fq_ops (S fuel) hE (b0 :: b1 :: b :: rng) = Some (R, rng)) /\ ~ full_order hE fs (pmul_q (coeff hE) k (affine R)).
Proof.
  intros fs k. assert (K : k = 2) by (vm_compute; reflexivity). split; [split; [discriminate|constructor; [split; [reflexivity|split; discriminate]|constructor]]|]. rewrite K. split; [exists 1; reflexivity|].
  destruct (C74_point hE q1 q1 hE_on1) as (c & (L & _ & HL & LC) & PC & _). destruct L as [|[[b0 b1] b] L]; [cbn in LC; lia|]. destruct (proj1 (HL _) (or_introl eq_refl)) as (_ & _ & _ & G). cbn [fst snd] in G. destruct (G O []) as (R & ER & AR).
  exists b0, b1, b, R. split; [exact (first_try _ _ _ _ _ ER)|]. rewrite AR, hE_double. intros [_ F]. apply (F 2 1291 (or_introl eq_refl)).
  assert (O2 : order_of fs / 2 = 2 * 2 ^ 1289) by (vm_compute; reflexivity). rewrite O2. apply (pm_zero_mul hE_valid); [exact hE_on0|discriminate|apply Z.pow_nonneg; discriminate|exact hE_two].
Qed.
