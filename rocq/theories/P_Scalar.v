(** C63: the chains built from a scalar (isogeny_from_scalar_x_only, src/supersingular.rs:396-410) and the random walks (random_isogeny_x_only, 365-388). *)
From Coq Require Import Arith ZArith List Bool Lia Ring Field Znumtheory.
From Verif Require Import P_Velu P_Isogeny M_Isogeny M_Super2 M_Festa P_Festa P_E0 P_Basis P_Entangled L_E0 S_Fp S_Fp2 S_Curve S_Params M_Fp M_Fp2 M_Field M_Curve M_Consts M_Dlog M_Pairing M_Super L_Zp L_Zp2 L_Fp L_Fp2 L_Group L_Kummer L_Field L_Curve L_QNum L_Isog P_Params P_Curve P_Pairing P_PairEx P_Super.
Import ListNotations.
Open Scope Z_scope.

(** ** Specification *)
(** the multiples j * (P + mQ) *)
Definition scalar_kernel (E : curve fq) (P Q : point fq) (m : Z) (p : pt Zq) : Prop :=
  exists j, 0 <= j /\ p = padd_q (coeff E) (pmul_q (coeff E) j (affine P)) (pmul_q (coeff E) (j * m) (affine Q)).
(** what the degree lists of the library satisfy *)
Definition degree_list (D : list (Z * Z)) : Prop := D <> [] /\ Forall odd_power D /\ ForallOrdPairs coprime_bases D.

(** ** Combinations of two points *)
Section Comb.
Context {E : curve fq} (V : valid E).
Notation A := (coeff E).
Lemma pm_dist n p q : 0 <= n -> on_q A p -> on_q A q -> pmul_q A n (padd_q A p q) = padd_q A (pmul_q A n p) (pmul_q A n q).
Proof. intros Hn Hp Hq. rewrite !pmul_n by exact Hn. unfold padd_q. apply (pmul_nat_dist Zq_field qeqb_true q2_nz (valid_smooth E V)); assumption. Qed.
Lemma pm_pair k i j p q : 0 <= k -> 0 <= i -> 0 <= j -> on_q A p -> on_q A q ->
  pmul_q A k (padd_q A (pmul_q A i p) (pmul_q A j q)) = padd_q A (pmul_q A (k * i) p) (pmul_q A (k * j) q).
Proof. intros Hk Hi Hj Hp Hq. rewrite pm_dist by (try apply (pm_on (E := E)); assumption). rewrite !(pm_mul V) by assumption. reflexivity. Qed.
Lemma pm_mod n k p : 0 < n -> 0 <= k -> on_q A p -> pmul_q A n p = None -> pmul_q A k p = pmul_q A (k mod n) p.
Proof.
  intros Hn Hk Hp Z0. pose proof (Z.mod_pos_bound k n Hn) as B. pose proof (Z.div_pos k n Hk Hn) as Hd. rewrite (Z.div_mod k n) at 1 by lia. rewrite (pm_add V) by (try assumption; nia).
  rewrite (pm_zero_mul V) by (try assumption; lia). reflexivity.
Qed.
Lemma basis_eq n p q i j i' j' : 0 < n -> 0 <= i -> 0 <= j -> 0 <= i' -> 0 <= j' -> on_q A p -> on_q A q -> n_basis A n p q ->
  padd_q A (pmul_q A i p) (pmul_q A j q) = padd_q A (pmul_q A i' p) (pmul_q A j' q) -> (n | i - i') /\ (n | j - j').
Proof.
  intros Hn Hi Hj Hi' Hj' Hp Hq (ZP & ZQ & IN) EQ.
  assert (S0 : padd_q A (padd_q A (pmul_q A i p) (pmul_q A j q)) (pmul_q A (n - 1) (padd_q A (pmul_q A i p) (pmul_q A j q))) = None).
  { assert (OS : on_q A (padd_q A (pmul_q A i p) (pmul_q A j q))) by (apply (padd_on Zq_field qeqb_true q2_nz); apply (pm_on (E := E)); assumption).
    transitivity (pmul_q A (1 + (n - 1)) (padd_q A (pmul_q A i p) (pmul_q A j q))); [rewrite (pm_add V) by (try assumption; lia); reflexivity|]. replace (1 + (n - 1)) with n by lia. rewrite pm_pair by (try assumption; lia).
    rewrite !(pm_zero_mul V) by (try assumption; lia). reflexivity. }
  rewrite EQ in S0 at 2. rewrite pm_pair in S0 by (try assumption; lia).
  set (a := pmul_q A i p) in *. assert (Oa : on_q A a) by (apply (pm_on (E := E)); assumption). set (b := pmul_q A j q) in *. assert (Ob : on_q A b) by (apply (pm_on (E := E)); assumption).
  set (c := pmul_q A ((n - 1) * i') p) in *. assert (Oc : on_q A c) by (apply (pm_on (E := E)); [assumption|nia]). set (d := pmul_q A ((n - 1) * j') q) in *. assert (Od : on_q A d) by (apply (pm_on (E := E)); [assumption|nia]).
  assert (RE : padd_q A (padd_q A a b) (padd_q A c d) = padd_q A (padd_q A a c) (padd_q A b d)).
  { assert (PA : forall x y z, on_q A x -> on_q A y -> on_q A z -> padd_q A (padd_q A x y) z = padd_q A x (padd_q A y z)) by (intros; apply (padd_assoc Zq_field qeqb_true q2_nz (valid_smooth E V)); assumption).
    assert (PO : forall x y, on_q A x -> on_q A y -> on_q A (padd_q A x y)) by (intros; apply (padd_on Zq_field qeqb_true q2_nz); assumption).
    rewrite !PA by auto. f_equal. rewrite <- !PA by auto. f_equal. apply (padd_comm Zq_field qeqb_true q2_nz); assumption. }
  rewrite RE in S0. unfold a, b, c, d in S0. rewrite <- !(pm_add V) in S0 by (try assumption; nia). apply IN in S0; [|nia|nia]. destruct S0 as [[u Hu] [w Hw]]. split; [exists (u - i')|exists (w - j')]; lia.
Qed.
End Comb.

(** ** Generalities *)
Lemma same_order D : P_Velu.order_of D = order_of D.
Proof. induction D as [|le D IH]; [reflexivity|]. change (P_Velu.order_of (le :: D)) with (fst le ^ snd le * P_Velu.order_of D). change (order_of (le :: D)) with (fst le ^ snd le * order_of D). rewrite IH. reflexivity. Qed.
Lemma degree_pos D : degree_list D -> 0 < order_of D.
Proof. intros (_ & HF & _). rewrite <- same_order. exact (proj2 (order_nprod D HF)). Qed.
Lemma xi_ker_eq E C f ker ker' : x_isogeny E C f ker -> (forall p, ker p <-> ker' p) -> x_isogeny E C f ker'.
Proof. intros [H1 H2 H3 H4 H5] EK. split; [exact H1| |exact H3|exact H4|exact H5]. intros P R HP HR. rewrite <- EK. exact (H2 P R HP HR). Qed.
Lemma chain_nonempty F (o : fops F) checks E K D chain : D <> [] -> factored_kummer_isogeny o checks E K D = Some chain -> chain <> [].
Proof.
  intros N H Z0. subst chain. pose proof (C37_exponents _ _ _ _ _ _ _ H) as HE. destruct (C37_chain _ _ _ _ _ _ _ H) as [HD _]. destruct D as [|[l e] D]; [congruence|]. inversion_clear HE as [|? ? He _]. cbn [snd] in He.
  unfold factor_steps in HD. cbn [flat_map fst snd map] in HD. destruct (Z.to_nat e) eqn:Ee; [lia|]. discriminate.
Qed.
Lemma last_step {T} (L : list T) x d : last (x :: L) d = last L x.
Proof. revert x d. induction L as [|a L IH]; intros x d; [reflexivity|]. change (last (x :: a :: L) d) with (last (a :: L) d). rewrite !IH. reflexivity. Qed.
Lemma last_linked F (E : curve F) L C : linked E L C -> L <> [] -> last_codomain L = Some C.
Proof.
  intros H N. pose proof (linked_last _ _ _ H) as HL. destruct L as [|phi L]; [congruence|]. unfold last_codomain, get_codomain.
  assert (ER : exists r, rev (phi :: L) = last L phi :: r).
  { clear. revert phi. induction L as [|psi L IH]; intros phi; [exists []; reflexivity|]. destruct (IH psi) as [r Hr]. exists (r ++ [phi]). cbn [rev] in *. rewrite Hr. cbn [app]. rewrite last_step. reflexivity. }
  destruct ER as [r ->]. exact HL.
Qed.

(** ** C63 *)
Section Scalar.
Context {E : curve fq} (V : valid E) {P Q : point fq} (HP : on_E E P) (HQ : on_E E Q) {N : Z} (HN : 0 < N) (B : n_basis (coeff E) N (affine P) (affine Q)).
Lemma kernel_multiple m K : 0 <= m -> affine K = padd_q (coeff E) (affine P) (pmul_q (coeff E) m (affine Q)) -> forall p, multiple_of E K p <-> scalar_kernel E P Q m p.
Proof.
  intros Hm AK p. assert (EJ : forall j, 0 <= j -> pmul_q (coeff E) j (affine K) = padd_q (coeff E) (pmul_q (coeff E) j (affine P)) (pmul_q (coeff E) (j * m) (affine Q))).
  { intros j Hj. rewrite AK. pose proof (pm_pair V j 1 m (affine P) (affine Q) Hj ltac:(lia) Hm HP HQ) as H. rewrite pm_1, Z.mul_1_r in H. exact H. }
  split; intros (j & Hj & ->); exists j; (split; [exact Hj|]); [exact (EJ j Hj)|symmetry; exact (EJ j Hj)].
Qed.
Lemma kernel_order m K : 0 <= m -> affine K = padd_q (coeff E) (affine P) (pmul_q (coeff E) m (affine Q)) -> exact_order (coeff E) N (affine K).
Proof.
  intros Hm AK. pose proof B as (ZP & ZQ & IN). assert (EJ : forall j, 0 <= j -> pmul_q (coeff E) j (affine K) = padd_q (coeff E) (pmul_q (coeff E) j (affine P)) (pmul_q (coeff E) (j * m) (affine Q))).
  { intros j Hj. rewrite AK. pose proof (pm_pair V j 1 m (affine P) (affine Q) Hj ltac:(lia) Hm HP HQ) as H. rewrite pm_1, Z.mul_1_r in H. exact H. }
  split.
  - rewrite EJ by lia. rewrite ZP, (pm_zero_mul V) by (auto; lia). reflexivity.
  - intros k Hk Z0. rewrite EJ in Z0 by lia. apply IN in Z0; [|lia|nia]. destruct Z0 as [D _]. apply Z.divide_pos_le in D; lia.
Qed.
Lemma kernel_same m m' : 0 <= m -> 0 <= m' -> ((forall p, scalar_kernel E P Q m p <-> scalar_kernel E P Q m' p) <-> (N | m - m')).
Proof.
  intros Hm Hm'. split.
  - intros H. assert (K1 : scalar_kernel E P Q m (padd_q (coeff E) (pmul_q (coeff E) 1 (affine P)) (pmul_q (coeff E) m (affine Q)))) by (exists 1; split; [lia|rewrite Z.mul_1_l; reflexivity]).
    apply H in K1. destruct K1 as (j & Hj & EQ). apply (basis_eq V N) in EQ; try assumption; try nia. destruct EQ as [[c Hc] [d Hd]]. exists (d - c * m'). nia.
  - intros D. assert (MM : m mod N = m' mod N) by (destruct D as [c Hc]; replace m with (m' + c * N) by lia; apply Z.mod_add; lia). pose proof B as (_ & ZQ & _).
    assert (EJ : forall j, 0 <= j -> pmul_q (coeff E) (j * m) (affine Q) = pmul_q (coeff E) (j * m') (affine Q)).
    { intros j Hj. rewrite (pm_mod V N (j * m)), (pm_mod V N (j * m')) by (try assumption; nia). f_equal. rewrite (Z.mul_mod j m), (Z.mul_mod j m') by lia. rewrite MM. reflexivity. }
    intros p. split; intros (j & Hj & ->); exists j; (split; [exact Hj|]); rewrite EJ by exact Hj; reflexivity.
Qed.
End Scalar.
(** a chain is returned, one step for every prime factor of the degree, and it divides E by the group of P + mQ *)
Theorem C63_kernel : forall fuel checks E D m P Q, good_curve E -> degree_list D -> on_E E P -> on_E E Q -> n_basis (coeff E) (order_of D) (affine P) (affine Q) -> 0 <= m ->
  exists chain C, isogeny_from_scalar_x_only fq_ops fuel checks E D m (Some (P, Q)) = Some (chain, C) /\ linked E chain C /\ good_curve C /\ map i_deg chain = factor_steps D /\
  x_isogeny E C (eval_points fq_ops chain) (scalar_kernel E P Q m).
Proof.
  intros fuel checks E D m P Q gE HD HP HQ B Hm. pose proof (proj1 gE) as V. pose proof (degree_pos D HD) as HN. destruct HD as (ND & HF & HC). destruct (C31_mul_big E Q m V HQ Hm) as (mQ & E1 & O1 & A1). destruct (C29_add E P mQ V HP O1) as [OK AK].
  rewrite A1 in AK. set (K := add_pts fq_ops E P mQ) in *. pose proof (kernel_order V HP HQ HN B m K Hm AK) as XO. rewrite <- same_order in XO.
  destruct (C60_chain checks E K D gE OK HF HC XO) as (ch & C & E2 & HL & gC & X). exists ch, C. split; [|split; [exact HL|split; [exact gC|split; [exact (proj1 (C37_chain _ _ _ _ _ _ _ E2))|]]]].
  - unfold isogeny_from_scalar_x_only. cbn [obind fst snd]. rewrite E1. cbn [obind]. cbv zeta. fold K. rewrite E2. cbn [obind]. rewrite (last_linked _ _ _ _ HL (chain_nonempty _ _ _ _ _ _ _ ND E2)). reflexivity.
  - apply (xi_ker_eq _ _ _ _ _ X). exact (kernel_multiple V HP HQ m K Hm AK).
Qed.
(** two scalars kill the same points exactly when they agree modulo the degree *)
Theorem C63_injective : forall fuel checks E D m m' P Q chain C chain' C', good_curve E -> degree_list D -> on_E E P -> on_E E Q -> n_basis (coeff E) (order_of D) (affine P) (affine Q) -> 0 <= m -> 0 <= m' ->
  isogeny_from_scalar_x_only fq_ops fuel checks E D m (Some (P, Q)) = Some (chain, C) -> isogeny_from_scalar_x_only fq_ops fuel checks E D m' (Some (P, Q)) = Some (chain', C') ->
  ((forall R T T', on_E E R -> evaluate_isogeny_chain fq_ops E R chain = Some (C, T) -> evaluate_isogeny_chain fq_ops E R chain' = Some (C', T') -> (affine T = None <-> affine T' = None)) <-> (order_of D | m - m')).
Proof.
  intros fuel checks E D m m' P Q ch C ch' C' gE HD HP HQ B Hm Hm' E1 E2. pose proof (proj1 gE) as V. pose proof (degree_pos D HD) as HN.
  destruct (C63_kernel fuel checks E D m P Q gE HD HP HQ B Hm) as (c1 & D1 & F1 & L1 & _ & _ & X1). rewrite E1 in F1. injection F1 as <- <-.
  destruct (C63_kernel fuel checks E D m' P Q gE HD HP HQ B Hm') as (c2 & D2 & F2 & L2 & _ & _ & X2). rewrite E2 in F2. injection F2 as <- <-.
  rewrite <- (kernel_same V HP HQ HN B m m' Hm Hm'). split.
  - intros H p. assert (KP : forall mm q, 0 <= mm -> scalar_kernel E P Q mm q -> exists R, on_E E R /\ affine R = q).
    { intros mm q Hmm (j & Hj & ->). destruct (C31_mul_big E P j V HP Hj) as (R1 & _ & O1 & A1). destruct (C31_mul_big E Q (j * mm) V HQ ltac:(nia)) as (R2 & _ & O2 & A2). destruct (C29_add E R1 R2 V O1 O2) as [O3 A3]. exists (add_pts fq_ops E R1 R2). split; [exact O3|]. rewrite A3, A1, A2. reflexivity. }
    assert (KR : forall R, on_E E R -> (scalar_kernel E P Q m (affine R) <-> scalar_kernel E P Q m' (affine R))).
    { intros R OR. destruct (xi_total _ _ _ _ X1 R OR) as (T & ET & OT). destruct (xi_total _ _ _ _ X2 R OR) as (T' & ET' & OT'). rewrite <- (xi_ker _ _ _ _ X1 R T OR ET), <- (xi_ker _ _ _ _ X2 R T' OR ET'). apply (H R T T' OR); [rewrite (eval_chain_linked fq_ops _ _ _ R L1), ET|rewrite (eval_chain_linked fq_ops _ _ _ R L2), ET']; reflexivity. }
    split; intros HK; [destruct (KP m p Hm HK) as (R & OR & AR)|destruct (KP m' p Hm' HK) as (R & OR & AR)]; rewrite <- AR in *; apply (KR R OR); exact HK.
  - intros H R T T' OR ET ET'. rewrite (eval_chain_linked fq_ops _ _ _ R L1) in ET. rewrite (eval_chain_linked fq_ops _ _ _ R L2) in ET'.
    destruct (xi_total _ _ _ _ X1 R OR) as (T1 & HT & OT). destruct (xi_total _ _ _ _ X2 R OR) as (T2 & HT' & OT'). rewrite HT in ET. rewrite HT' in ET'. injection ET as <-. injection ET' as <-.
    rewrite (xi_ker _ _ _ _ X1 R T1 OR HT), (xi_ker _ _ _ _ X2 R T2 OR HT'). apply H.
Qed.
Print Assumptions C63_kernel. Print Assumptions C63_injective.

(** ** Without a basis: the one found by torsion_basis *)
Definition killed (E : curve fq) : Prop := forall R, on_q (coeff E) R -> pmul_q (coeff E) (S_Fp.P + 1) R = None.
Definition library_degree (D : list (Z * Z)) : Prop := degree_list D /\ prime_entries D /\ Z.odd (order_of D) = true /\ (order_of D | S_Fp.P + 1) /\ (2 ^ 634 | (S_Fp.P + 1) / order_of D).
Definition dependent (E : curve fq) (D : list (Z * Z)) (P Q : point fq) : Prop := exists k, 0 <= k /\ affine P = pmul_q (coeff E) k (affine Q).
Theorem C63_default : forall fuel checks E D m chain C, good_curve E -> killed E -> library_degree D -> 0 <= m -> isogeny_from_scalar_x_only fq_ops fuel checks E D m None = Some (chain, C) ->
  exists P Q, torsion_basis fq_ops fuel checks E D 634 = Some (P, Q) /\ (P = infinity fq_ops \/ dependent E D P Q \/
    n_basis (coeff E) (order_of D) (affine P) (affine Q) /\ linked E chain C /\ good_curve C /\ map i_deg chain = factor_steps D /\ x_isogeny E C (eval_points fq_ops chain) (scalar_kernel E P Q m)).
Proof.
  intros fuel checks E D m ch C gE HK (HD & PE & OD & DV & DV2) Hm H. pose proof (proj1 gE) as V. unfold isogeny_from_scalar_x_only in H. change (Z.to_nat L_POWER) with 634%nat in H. destruct (torsion_basis fq_ops fuel checks E D 634) as [[P Q]|] eqn:ET; [|discriminate H].
  exists P, Q. split; [reflexivity|]. destruct (C62_torsion_basis fuel checks E D 634%nat P Q V PE OD DV DV2 HK ET) as [I0|(OP & OQ & _ & _ & [B|DP])]; [left; exact I0| |right; left; exact DP]. right. right. split; [exact B|].
  destruct (C63_kernel fuel checks E D m P Q gE HD OP OQ B Hm) as (ch' & C' & H' & R). unfold isogeny_from_scalar_x_only in H'. cbn [obind] in H, H'. rewrite H in H'. apply some_inj in H'. injection H' as <- <-. exact R.
Qed.
Print Assumptions C63_default.

(** ** Random walks *)
(** a walk of n steps: each divides by the group of a point of exact order D *)
Inductive walk (D : list (Z * Z)) : curve fq -> nat -> list (isogeny fq) -> curve fq -> Prop :=
| walk_nil E : walk D E 0 [] E
| walk_step E K phi E1 n rest C : on_E E K -> exact_order (coeff E) (order_of D) (affine K) -> linked E phi E1 -> good_curve E1 -> x_isogeny E E1 (eval_points fq_ops phi) (multiple_of E K) ->
    walk D E1 n rest C -> walk D E (S n) (phi ++ rest) C.
(** some curve on the way where the thousand samples of generate_random_point all failed, after k correct steps *)
Definition sampling_failed (fuel : nat) (checks : bool) (D : list (Z * Z)) (E : curve fq) (n : nat) : Prop :=
  exists k phi E1 rng rng', (k < n)%nat /\ walk D E k phi E1 /\ generate_random_point fq_ops fuel checks E1 D 634 rng = Some (infinity fq_ops, rng').
Lemma walk_linked D E n phi C : walk D E n phi C -> linked E phi C.
Proof. induction 1; [constructor|eapply linked_app; eassumption]. Qed.
Theorem C63_random : forall fuel checks D n E rng phi C rng', good_curve E -> library_degree D ->
  (forall k psi E1, (k < n)%nat -> walk D E k psi E1 -> killed E1) ->
  random_isogeny_x_only fq_ops fuel checks E D n rng = Some (phi, C, rng') -> sampling_failed fuel checks D E n \/ walk D E n phi C /\ good_curve C.
Proof.
  intros fuel checks D n. induction n as [|n IH]; intros E rng phi C rng' gE HL HK H.
  - cbn [random_isogeny_x_only] in H. injection H as <- <- _. right. split; [constructor|exact gE].
  - cbn [random_isogeny_x_only] in H. change (Z.to_nat L_POWER) with 634%nat in H. apply obind_inv in H. destruct H as ([K r1] & EK & H). cbn [fst snd] in H. apply obind_inv in H. destruct H as (ph & EP & H). apply obind_inv in H. destruct H as (E1 & EL & H).
    apply obind_inv in H. destruct H as ([[l E2] r2] & ER & H). injection H as <- <- <-. pose proof (proj1 gE) as V. pose proof HL as (HD & PE & OD & DV & DV2). pose proof HD as (ND & HF & HC).
    destruct (C53_generate_random_point _ _ _ _ _ _ _ _ V (prime_entries_ok _ PE) EK) as [-> | HS].
    { left. exists 0%nat, [], E, rng, r1. split; [lia|]. split; [constructor|exact EK]. }
    pose proof (HK 0%nat [] E ltac:(lia) (walk_nil D E)) as K0. destruct (C53_order E D 634 K V PE DV DV2 HS) as (R & OR & _ & _ & HO). pose proof (exact_div (coeff E) (order_of D) (affine K) (degree_pos D HD) (HO (K0 _ OR))) as XO.
    assert (XO' := XO). rewrite <- same_order in XO'. destruct (C60_chain checks E K D gE (proj1 HS) HF HC XO') as (ch & C1 & E3 & LL & gC & X). rewrite EP in E3. apply some_inj in E3. subst ch.
    rewrite (last_linked _ _ _ _ LL (chain_nonempty _ _ _ _ _ _ _ ND EP)) in EL. apply some_inj in EL. subst C1.
    assert (ST : forall k psi E', walk D E1 k psi E' -> walk D E (S k) (ph ++ psi) E') by (intros; eapply walk_step; [exact (proj1 HS)|exact XO|exact LL|exact gC|exact X|assumption]).
    destruct (IH E1 r1 l E2 r2 gC HL) as [(k & psi & E' & ra & rb & Hk & W & G)|[W gE2]]; [|exact ER| |].
    + intros k psi E' Hk W. apply (HK (S k) (ph ++ psi) E'); [lia|apply ST; exact W].
    + left. exists (S k), (ph ++ psi), E', ra, rb. split; [lia|]. split; [apply ST; exact W|exact G].
    + right. split; [apply ST; exact W|exact gE2].
Qed.
Print Assumptions C63_random.

(** ** The degree lists of the library *)
Fixpoint coprimeb (l : list (Z * Z)) : bool := match l with [] => true | a :: l => forallb (fun b => Z.gcd (fst a) (fst b) =? 1) l && coprimeb l end.
Lemma coprimeb_ok l : coprimeb l = true -> ForallOrdPairs coprime_bases l.
Proof.
  induction l as [|a l IH]; intros H; [constructor|]. cbn [coprimeb] in H. apply andb_true_iff in H. destruct H as [H1 H2]. constructor; [|exact (IH H2)]. rewrite forallb_forall in H1. apply Forall_forall. intros b Hb. apply Z.eqb_eq. exact (H1 b Hb).
Qed.
Definition small_oddb (le : Z * Z) : bool := (1 <? fst le) && (fst le <? 2 ^ 64) && Z.odd (fst le) && (1 <=? snd le) && (snd le <=? 2 ^ 32).
Lemma library_ok D : D <> [] -> forallb small_oddb D = true -> coprimeb D = true -> Forall (fun q => prime (fst q)) D -> Z.odd (order_of D) = true -> (S_Fp.P + 1) mod (order_of D) = 0 -> ((S_Fp.P + 1) / order_of D) mod 2 ^ 634 = 0 -> library_degree D.
Proof.
  intros ND HS HC HP OD M1 M2. assert (HS' : Forall (fun le => odd_power le /\ 1 <= snd le <= 2 ^ 32) D).
  { apply Forall_forall. intros le Hl. rewrite forallb_forall in HS. specialize (HS le Hl). unfold small_oddb in HS. rewrite !andb_true_iff, !Z.ltb_lt, !Z.leb_le in HS. unfold odd_power. intuition. }
  assert (DL : degree_list D) by (split; [exact ND|split; [eapply Forall_impl; [|exact HS']; cbn; tauto|apply coprimeb_ok; exact HC]]). pose proof (degree_pos D DL) as PD.
  split; [exact DL|]. split; [split; [exact ND|]|].
  - rewrite Forall_forall in *. intros le Hl. split; [exact (HP le Hl)|exact (proj2 (HS' le Hl))].
  - split; [exact OD|]. split; (apply Z.mod_divide; [|assumption]); [lia|apply Z.pow_nonzero; lia].
Qed.
Lemma lists_prime D : In D [D1_FACTORED; D2_FACTORED; DA1_FACTORED; DA2_FACTORED] -> Forall (fun q => prime (fst q)) D.
Proof.
  intros H. pose proof C42_factor_lists_prime as F. rewrite !Forall_app in F. destruct F as (F1 & F2 & F3 & F4 & _). destruct H as [<-|[<-|[<-|[<-|[]]]]]; assumption.
Qed.
Theorem C63_degrees : Forall library_degree [D1_FACTORED; D2_FACTORED; DA1_FACTORED; DA2_FACTORED].
Proof.
  apply Forall_forall. intros D HD. pose proof (lists_prime D HD) as PR. destruct HD as [<-|[<-|[<-|[<-|[]]]]]; (apply library_ok; [discriminate|vm_compute; reflexivity|vm_compute; reflexivity|exact PR|vm_compute; reflexivity|vm_compute; reflexivity|vm_compute; reflexivity]).
Qed.
(** the starting curve and the four degree lists meet the hypotheses of C63_default and C63_random *)
Example C63_E0 : good_curve E0 /\ killed E0 /\ library_degree D1_FACTORED /\ library_degree DA1_FACTORED.
Proof. pose proof C63_degrees as H. rewrite Forall_forall in H. split; [exact C60_E0_good|]. split; [exact C61_group|]. split; apply H; [left; reflexivity|right; right; left; reflexivity]. Qed.
Print Assumptions C63_degrees.
