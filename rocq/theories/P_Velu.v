(** C59, C60: the isogenies of src/isogeny.rs over the quadratic extension have the kernel they were asked for and respect the group law up to sign. *)
From Coq Require Import Arith ZArith List Bool Lia Ring Field Znumtheory.
From Verif Require Import S_Fp S_Fp2 S_Curve M_Fp M_Fp2 M_Field M_Curve M_Pairing M_Isogeny L_Words L_FpCodec L_Zp L_Zp2 L_Fp L_Fp2 L_Fp2Roots L_Fp2Misc L_Group L_Kummer L_Field L_QNum L_Curve L_Poly L_Velu L_Isog P_Curve P_Pairing P_Super P_Isogeny P_Entangled.
Import ListNotations.
Open Scope Z_scope.

(** ** Specification *)
(** curves whose points of order two are rational and with a rational point of order four above (0, 0); E0 is one (C60_E0_good) *)
Definition good_curve (E : curve fq) : Prop := valid E /\ (exists a, qadd (qadd (qmul a a) (qmul (coeff E) a)) q1 = q0) /\ exists s, qmul s s = qadd (coeff E) q2.
Definition multiple_of (E : curve fq) (K : point fq) (p : pt Zq) : Prop := exists j, 0 <= j /\ p = pmul_q (coeff E) j (affine K).
Definition same_up_to_sign (p q : pt Zq) : Prop := p = q \/ p = popp_q q.
(** the partial function f from points of E to points of C is an isogeny with kernel [ker], each image being known up to sign *)
Record x_isogeny (E C : curve fq) (f : point fq -> option (point fq)) (ker : pt Zq -> Prop) : Prop := {
  xi_total : forall P, on_E E P -> exists R, f P = Some R /\ on_E C R;
  xi_ker : forall P R, on_E E P -> f P = Some R -> (affine R = None <-> ker (affine P));
  xi_sign : forall P P' R R', on_E E P -> on_E E P' -> same_up_to_sign (affine P) (affine P') -> f P = Some R -> f P' = Some R' -> same_up_to_sign (affine R) (affine R');
  xi_hom : forall P Q S D RP RQ RS RD, on_E E P -> on_E E Q -> affine S = padd_q (coeff E) (affine P) (affine Q) -> affine D = padd_q (coeff E) (affine P) (popp_q (affine Q)) ->
    f P = Some RP -> f Q = Some RQ -> f S = Some RS -> f D = Some RD ->
    let sum := padd_q (coeff C) (affine RP) (affine RQ) in let diff := padd_q (coeff C) (affine RP) (popp_q (affine RQ)) in
    (same_up_to_sign (affine RS) sum /\ same_up_to_sign (affine RD) diff) \/ (same_up_to_sign (affine RS) diff /\ same_up_to_sign (affine RD) sum);
  xi_mul : forall P Q n RP RQ, on_E E P -> 0 <= n -> affine Q = pmul_q (coeff E) n (affine P) -> f P = Some RP -> f Q = Some RQ -> same_up_to_sign (affine RQ) (pmul_q (coeff C) n (affine RP)) }.
(** l^e with 1 < l < 2^64 odd and e positive *)
Definition odd_power (le : Z * Z) : Prop := 1 < fst le < 2 ^ 64 /\ Z.odd (fst le) = true /\ 1 <= snd le.
Definition coprime_bases (a b : Z * Z) : Prop := Z.gcd (fst a) (fst b) = 1.
Definition order_of (l : list (Z * Z)) : Z := fold_right (fun le r => fst le ^ snd le * r) 1 l.

(** ** Translation *)
Notation sgq := (sgiso (k1 := q1) (kadd := qadd) (kmul := qmul) (ksub := qsub) (kopp := qopp) (kdiv := qdiv) (keq := qeqb)).
Notation multq := (mult (k1 := q1) (kadd := qadd) (kmul := qmul) (ksub := qsub) (kopp := qopp) (kdiv := qdiv) (keq := qeqb)).
Notation ordq := (ord (k1 := q1) (kadd := qadd) (kmul := qmul) (ksub := qsub) (kopp := qopp) (kdiv := qdiv) (keq := qeqb)).
Notation realq := (realises (k0 := q0) (kadd := qadd) (kmul := qmul) (kdiv := qdiv) (keq := qeqb) (v := fqv)).
Notation ciq := (chain_iso (o := fq_ops) (k0 := q0) (k1 := q1) (kadd := qadd) (kmul := qmul) (ksub := qsub) (kopp := qopp) (kdiv := qdiv) (keq := qeqb) (v := fqv)).
Lemma pmul_n A n p : 0 <= n -> pmul_q A n p = S_Curve.pmul_nat q1 qadd qmul qsub qopp qdiv qeqb A (Z.to_nat n) p. Proof. intros H. unfold pmul_q. rewrite pmul_to_nat by exact H. reflexivity. Qed.
Lemma multq_ok E K p : multq (coeff E) (affine K) p <-> multiple_of E K p.
Proof. split; intros (j & H). - exists (Z.of_nat j). split; [lia|]. rewrite pmul_n, Nat2Z.id by lia. exact H. - destruct H as [Hj ->]. exists (Z.to_nat j). apply pmul_n, Hj. Qed.
Lemma exact_ord E n p : valid E -> 0 < n -> on_q (coeff E) p -> exact_order (coeff E) n p -> ordq (coeff E) (Z.to_nat n) p.
Proof.
  intros V Hn Hp [Z0 Zk] k. assert (E0 : S_Curve.pmul_nat q1 qadd qmul qsub qopp qdiv qeqb (coeff E) k p = pmul_q (coeff E) (Z.of_nat k) p) by (rewrite pmul_n, Nat2Z.id by lia; reflexivity). rewrite E0, (divide_Z fq_laws), (Z2Nat.id n) by lia. clear E0. split.
  - intros H. pose proof (pm_zero_gcd V p n (Z.of_nat k) Hp ltac:(lia) ltac:(lia) Z0 H) as G. pose proof (Z.gcd_divide_l n (Z.of_nat k)) as D1. pose proof (Z.gcd_divide_r n (Z.of_nat k)) as D2.
    assert (P0 : 0 < Z.gcd n (Z.of_nat k)). { pose proof (Z.gcd_nonneg n (Z.of_nat k)). destruct (Z.eq_dec (Z.gcd n (Z.of_nat k)) 0) as [E0|]; [|lia]. apply Z.gcd_eq_0_l in E0. lia. }
    pose proof (Z.divide_pos_le _ _ Hn D1) as Le. destruct (Z.eq_dec (Z.gcd n (Z.of_nat k)) n) as [EG|NG]; [rewrite EG in D2; exact D2|]. destruct (Zk (Z.gcd n (Z.of_nat k)) ltac:(lia) G).
  - intros [c E1]. assert (0 <= c) by nia. rewrite E1, Z.mul_comm. apply (pm_zero_mul V); auto; lia.
Qed.
Lemma ord_exact E n p : 0 < n -> ordq (coeff E) (Z.to_nat n) p -> exact_order (coeff E) n p.
Proof.
  intros Hn H. split; [rewrite pmul_n by lia; apply H, Nat.divide_refl|]. intros k Hk Z0. rewrite pmul_n in Z0 by lia. apply H in Z0. apply Nat.divide_pos_le in Z0; lia.
Qed.
Lemma of_sg E C f im ker ker' : valid E -> sgq (coeff E) (coeff C) im ker -> realq E C f im -> (forall p, ker p <-> ker' p) -> x_isogeny E C f ker'.
Proof.
  intros V S R EK. assert (SM := valid_smooth E V).
  assert (RI : forall P T, on_E E P -> f P = Some T -> im (affine P) (affine T)). { intros P T HP ET. destruct (R P HP) as (T' & ET' & IT). rewrite ET in ET'. injection ET' as ->. exact IT. }
  split.
  - intros P HP. destruct (R P HP) as (T & ET & IT). exists T. split; [exact ET|]. exact (sg_on _ _ _ _ S _ _ IT).
  - intros P T HP ET. pose proof (RI P T HP ET) as IT. rewrite <- EK, <- (sg_ker _ _ _ _ S _ HP). split; [intros <-; exact IT|]. intros I0. destruct (sg_uniq _ _ _ _ S _ _ _ IT I0) as [-> | ->]; reflexivity.
  - intros P P' T T' HP HP' SS ET ET'. pose proof (RI _ _ HP ET) as IT. pose proof (RI _ _ HP' ET') as IT'. destruct SS as [EQ|EQ]; rewrite EQ in IT.
    + exact (sg_uniq _ _ _ _ S _ _ _ IT IT').
    + apply (sg_uniq _ _ _ _ S (popp_q (affine P'))); [exact IT|]. apply (sg_popp _ _ _ _ S); assumption.
  - intros P Q A D RP RQ RA RD HP HQ EA ED EP EQ ERA ERD sum diff. pose proof (RI _ _ HP EP) as IP. pose proof (RI _ _ HQ EQ) as IQ.
    assert (HA : on_E E A) by (unfold on_E; rewrite EA; apply (padd_on Zq_field qeqb_true q2_nz); [exact HP|exact HQ]).
    assert (HD : on_E E D) by (unfold on_E; rewrite ED; apply (padd_on Zq_field qeqb_true q2_nz); [exact HP|apply (on_opp Zq_field); exact HQ]).
    pose proof (RI _ _ HA ERA) as IA. pose proof (RI _ _ HD ERD) as ID. rewrite EA in IA. rewrite ED in ID.
    destruct (sg_hom _ _ _ _ S _ _ _ _ HP HQ IP IQ) as [[H1 H2]|[H1 H2]]; [left|right]; (split; [exact (sg_uniq _ _ _ _ S _ _ _ IA H1)|exact (sg_uniq _ _ _ _ S _ _ _ ID H2)]).
  - intros P Q n RP RQ HP Hn EQ EP ERQ. pose proof (RI _ _ HP EP) as IP.
    assert (HQ : on_E E Q) by (unfold on_E; rewrite EQ; apply (pm_on (E := E)); [exact HP|exact Hn]). pose proof (RI _ _ HQ ERQ) as IQ. rewrite EQ, pmul_n in IQ by exact Hn. rewrite pmul_n by exact Hn.
    exact (sg_uniq _ _ _ _ S _ _ _ IQ (sg_mul _ _ _ _ S _ _ (Z.to_nat n) HP IP)).
Qed.
Lemma order_nprod l : Forall odd_power l -> Z.to_nat (order_of l) = nprod l /\ 0 < order_of l.
Proof.
  induction 1 as [|[b e] l (H1 & _ & H2) _ [IH P0]]; [split; [reflexivity|reflexivity]|]. change (order_of ((b, e) :: l)) with (b ^ e * order_of l). change (nprod ((b, e) :: l)) with (npow (b, e) * nprod l)%nat. cbn [fst snd] in *.
  assert (Pe : 0 < b ^ e) by (apply Z.pow_pos_nonneg; lia). split; [|nia]. rewrite Z2Nat.inj_mul, IH by lia. f_equal. unfold npow. cbn [fst snd]. rewrite <- (Z2Nat.id e) at 1 by lia. rewrite <- (Z2Nat.id b) at 1 by lia.
  rewrite <- Nat2Z.inj_pow. apply Nat2Z.id.
Qed.

(** ** C59 *)
Theorem C59_step : forall checks E K l, good_curve E -> on_E E K -> 1 < l < 2 ^ 64 -> Z.odd l = true -> exact_order (coeff E) l (affine K) ->
  exists phi C, isogeny_new fq_ops checks E K l = Some phi /\ get_codomain phi = Some C /\ good_curve C /\ x_isogeny E C (evaluate_isogeny fq_ops phi) (multiple_of E K).
Proof.
  intros checks E K l gE HK Hl Ol Ho. pose proof (proj1 gE) as V. apply Z.odd_spec in Ol. destruct Ol as [c Ec]. assert (El : l = Z.of_nat (S (Z.to_nat c + Z.to_nat c))) by lia.
  pose proof (exact_ord E l _ V ltac:(lia) HK Ho) as HO. rewrite El, Nat2Z.id in HO.
  destruct (ci_step fq_laws checks E K (Z.to_nat c) gE HK HO ltac:(lia) ltac:(lia)) as (phi & C & EN & HL & gC & im & S & R). rewrite <- El in EN. exists phi, C. split; [exact EN|].
  inversion HL as [|? ? ? ? HC HL']; subst. inversion HL'; subst. split; [exact HC|]. split; [exact gC|]. apply (of_sg _ C _ im _ _ V S); [|apply multq_ok].
  intros P HP. destruct (R P HP) as (T & ET & IT). cbn [eval_points] in ET. destruct (evaluate_isogeny fq_ops phi P) as [T'|]; [|discriminate]. exists T. split; [exact ET|exact IT].
Qed.

(** ** C60 *)
Theorem C60_chain : forall checks E K order, good_curve E -> on_E E K -> Forall odd_power order -> ForallOrdPairs coprime_bases order -> exact_order (coeff E) (order_of order) (affine K) ->
  exists chain C, factored_kummer_isogeny fq_ops checks E K order = Some chain /\ linked E chain C /\ good_curve C /\ x_isogeny E C (eval_points fq_ops chain) (multiple_of E K).
Proof.
  intros checks E K order gE HK HF HC Ho. pose proof (proj1 gE) as V. destruct (order_nprod order HF) as [EO P0]. pose proof (exact_ord E _ _ V P0 HK Ho) as HO. rewrite EO in HO.
  destruct (loop_iso fq_laws checks order [] E K HF HC gE HK HO) as (ch & C & EK & HL & gC & im & S & R). exists ch, C. split; [exact EK|]. split; [exact HL|]. split; [exact gC|].
  apply (of_sg _ C _ im _ _ V S R). apply multq_ok.
Qed.
(** the same for evaluate_isogeny_chain, which also returns the end curve *)
Theorem C60_evaluate : forall checks E K order P, good_curve E -> on_E E K -> on_E E P -> Forall odd_power order -> ForallOrdPairs coprime_bases order -> exact_order (coeff E) (order_of order) (affine K) ->
  exists chain C R, factored_kummer_isogeny fq_ops checks E K order = Some chain /\ good_curve C /\ evaluate_isogeny_chain fq_ops E P chain = Some (C, R) /\ on_E C R /\ (affine R = None <-> multiple_of E K (affine P)).
Proof.
  intros checks E K order P gE HK HP HF HC Ho. destruct (C60_chain checks E K order gE HK HF HC Ho) as (ch & C & E1 & HL & gC & X). destruct (xi_total _ _ _ _ X P HP) as (R & ER & OR). exists ch, C, R.
  split; [exact E1|]. split; [exact gC|]. rewrite (eval_chain_linked fq_ops _ _ _ P HL), ER. split; [reflexivity|]. split; [exact OR|]. exact (xi_ker _ _ _ _ X P R HP ER).
Qed.
(** points of order prime to the degree keep their order, and bases stay bases *)
Section Transport.
Context {E C : curve fq} {f : point fq -> option (point fq)} {K : point fq} {N : Z}.
Context (V : valid E) (VC : valid C) (HK : on_E E K) (HN : 0 < N) (Ho : pmul_q (coeff E) N (affine K) = None) (X : x_isogeny E C f (multiple_of E K)).
Lemma tr_zero n p : 0 < n -> Z.gcd n N = 1 -> on_q (coeff E) p -> pmul_q (coeff E) n p = None -> multiple_of E K p -> p = None.
Proof.
  intros Hn G Hp Zn (j & Hj & Ej). assert (ZN : pmul_q (coeff E) N p = None). { rewrite Ej, (pm_mul V) by (auto; lia). rewrite Z.mul_comm, <- (pm_mul V) by (auto; lia). rewrite Ho. apply (pm_O (E := E)), Hj. }
  pose proof (pm_zero_gcd V p n N Hp ltac:(lia) ltac:(lia) Zn ZN) as Z1. rewrite G in Z1. exact Z1.
Qed.
Lemma tr_mul P R n : on_E E P -> f P = Some R -> 0 <= n -> pmul_q (coeff C) n (affine R) = None <-> multiple_of E K (pmul_q (coeff E) n (affine P)).
Proof.
  intros HP ER Hn. destruct (C31_mul_big E P n V HP Hn) as (Q & _ & OQ & AQ). destruct (xi_total _ _ _ _ X Q OQ) as (RQ & ERQ & ORQ). pose proof (xi_ker _ _ _ _ X Q RQ OQ ERQ) as HKer. rewrite AQ in HKer. rewrite <- HKer.
  pose proof (xi_mul _ _ _ _ X P Q n R RQ HP Hn AQ ER ERQ) as [->|EQ]; [reflexivity|]. rewrite EQ. destruct (pmul_q (coeff C) n (affine R)) as [[]|]; cbn; split; congruence.
Qed.
Lemma tr_order P R n : 0 < n -> Z.gcd n N = 1 -> on_E E P -> f P = Some R -> exact_order (coeff E) n (affine P) -> exact_order (coeff C) n (affine R).
Proof.
  intros Hn G HP ER [Z0 Zk]. split.
  - apply (tr_mul P R n HP ER); [lia|]. rewrite Z0. exists 0. split; [lia|reflexivity].
  - intros k Hk Zr. apply (tr_mul P R k HP ER) in Zr; [|lia]. apply (Zk k Hk). apply (tr_zero n); auto; [apply (pm_on (E := E)); [exact HP|lia]|].
    rewrite (pm_mul V) by (auto; lia). rewrite Z.mul_comm, <- (pm_mul V) by (auto; lia). rewrite Z0. apply (pm_O (E := E)). lia.
Qed.
Lemma tr_basis P Q R S n : 0 < n -> Z.gcd n N = 1 -> on_E E P -> on_E E Q -> f P = Some R -> f Q = Some S -> n_basis (coeff E) n (affine P) (affine Q) -> n_basis (coeff C) n (affine R) (affine S).
Proof.
  intros Hn G HP HQ ER ES (ZP & ZQ & IN). assert (SM := valid_smooth E V). assert (M0 : multiple_of E K None) by (exists 0; split; [lia|reflexivity]).
  split; [apply (tr_mul P R n HP ER); [lia|rewrite ZP; exact M0]|]. split; [apply (tr_mul Q S n HQ ES); [lia|rewrite ZQ; exact M0]|].
  intros i j Hi Hj Zs. destruct (C31_mul_big E P i V HP Hi) as (Pi & _ & OP & AP). destruct (C31_mul_big E Q j V HQ Hj) as (Qj & _ & OQ & AQ).
  destruct (xi_total _ _ _ _ X Pi OP) as (RP & ERP & ORP). destruct (xi_total _ _ _ _ X Qj OQ) as (RQ & ERQ & ORQ).
  destruct (C29_add E Pi Qj V OP OQ) as [OS AS]. destruct (C29_sub E Pi Qj V OP OQ) as [OD AD]. destruct (xi_total _ _ _ _ X _ OS) as (RS & ERS & ORS). destruct (xi_total _ _ _ _ X _ OD) as (RD & ERD & ORD).
  pose proof (xi_mul _ _ _ _ X P Pi i R RP HP Hi AP ER ERP) as S1. pose proof (xi_mul _ _ _ _ X Q Qj j S RQ HQ Hj AQ ES ERQ) as S2.
  pose proof (xi_hom _ _ _ _ X Pi Qj _ _ RP RQ RS RD OP OQ AS AD ERP ERQ ERS ERD) as HH. cbv zeta in HH.
  assert (SD : affine RS = None \/ affine RD = None).
  { destruct (xi_total _ _ _ _ X P HP) as (R' & ER' & OR). rewrite ER in ER'. injection ER' as <-. destruct (xi_total _ _ _ _ X Q HQ) as (S' & ES' & OSS). rewrite ES in ES'. injection ES' as <-.
    set (u := pmul_q (coeff C) i (affine R)) in *. set (w := pmul_q (coeff C) j (affine S)) in *. assert (Ou : on_q (coeff C) u) by (apply (pm_on (E := C)); auto). assert (Ow : on_q (coeff C) w) by (apply (pm_on (E := C)); auto). clearbody u w.
    assert (T : padd_q (coeff C) (affine RP) (affine RQ) = None \/ padd_q (coeff C) (affine RP) (popp_q (affine RQ)) = None).
    { assert (Zn : padd_q (coeff C) (popp_q u) (popp_q w) = None) by (unfold padd_q, popp_q; rewrite <- (popp_add Zq_field qeqb_true q2_nz) by assumption; unfold padd_q in Zs; rewrite Zs; reflexivity).
      destruct S1 as [-> | ->], S2 as [-> | ->]; [left; exact Zs| | |left; exact Zn].
      - right. unfold popp_q. rewrite (popp_invol Zq_field). exact Zs.
      - right. exact Zn. }
    assert (SG : forall p q, same_up_to_sign p q -> q = None -> p = None) by (intros p q [-> | ->] ->; reflexivity).
    destruct T as [T|T], HH as [[H1 H2]|[H1 H2]]; eauto. }
  assert (KEY : forall T RT i' j', on_E E T -> f T = Some RT -> affine RT = None -> affine T = padd_q (coeff E) (pmul_q (coeff E) i' (affine P)) (pmul_q (coeff E) j' (affine Q)) -> 0 <= i' -> 0 <= j' -> (n | i') /\ (n | j')).
  { intros T RT i' j' OT ET ZT AT Hi' Hj'. apply (IN i' j' Hi' Hj'). rewrite <- AT. apply (xi_ker _ _ _ _ X T RT OT ET) in ZT. apply (tr_zero n); auto. rewrite AT.
    rewrite pmul_n by lia. unfold padd_q. rewrite (pmul_nat_dist Zq_field qeqb_true q2_nz SM) by (apply (pm_on (E := E)); auto). rewrite <- !pmul_n by lia. change (padd_q (coeff E) (pmul_q (coeff E) n (pmul_q (coeff E) i' (affine P))) (pmul_q (coeff E) n (pmul_q (coeff E) j' (affine Q))) = None).
    rewrite !(pm_mul V) by (auto; lia). rewrite (Z.mul_comm n i'), (Z.mul_comm n j'), <- !(pm_mul V) by (auto; lia). rewrite ZP, ZQ, !(pm_O (E := E)) by auto. reflexivity. }
  destruct SD as [Z0|Z0].
  - apply (KEY _ RS i j OS ERS Z0); auto. rewrite AS, AP, AQ. reflexivity.
  - destruct (KEY _ RD i ((n - 1) * j) OD ERD Z0) as [D1 D2]; auto; [|nia|split; [exact D1|]].
    + rewrite AD, AP, AQ. f_equal. rewrite !pmul_n by nia. rewrite Z2Nat.inj_mul, Z2Nat.inj_sub by lia. apply (o_opp fq_laws SM); [lia|exact HQ|]. rewrite <- pmul_n by lia. exact ZQ.
    + destruct D2 as [c Dc]. exists (j - c). lia.
Qed.
End Transport.
Theorem C60_torsion : forall checks E K order P Q n, good_curve E -> on_E E K -> Forall odd_power order -> ForallOrdPairs coprime_bases order -> exact_order (coeff E) (order_of order) (affine K) ->
  on_E E P -> on_E E Q -> 0 < n -> Z.gcd n (order_of order) = 1 ->
  exists chain C R S, factored_kummer_isogeny fq_ops checks E K order = Some chain /\ evaluate_isogeny_chain fq_ops E P chain = Some (C, R) /\ evaluate_isogeny_chain fq_ops E Q chain = Some (C, S) /\
    (exact_order (coeff E) n (affine P) -> exact_order (coeff C) n (affine R)) /\ (n_basis (coeff E) n (affine P) (affine Q) -> n_basis (coeff C) n (affine R) (affine S)).
Proof.
  intros checks E K order P Q n gE HK HF HC Ho HP HQ Hn G. destruct (C60_chain checks E K order gE HK HF HC Ho) as (ch & C & E1 & HL & gC & X). destruct (xi_total _ _ _ _ X P HP) as (R & ER & OR). destruct (xi_total _ _ _ _ X Q HQ) as (S & ES & OS).
  exists ch, C, R, S. split; [exact E1|]. rewrite !(eval_chain_linked fq_ops _ _ _ _ HL), ER, ES. split; [reflexivity|]. split; [reflexivity|]. pose proof (proj2 (order_nprod order HF)) as P0. destruct Ho as [Z0 _]. split.
  - exact (tr_order (proj1 gE) HK P0 Z0 X P R n Hn G HP ER).
  - exact (tr_basis (proj1 gE) HK P0 Z0 X P Q R S n Hn G HP HQ ER ES).
Qed.

Section Half.
Context {K : Type} {k0 k1 : K} {kadd kmul ksub : K -> K -> K} {kopp : K -> K} {kdiv : K -> K -> K} {kinv : K -> K} {keq : K -> K -> bool}.
Context (FT : field_theory k0 k1 kadd kmul ksub kopp kdiv kinv (@eq K)) (keq_ok : forall x y, keq x y = true <-> x = y) (two_nz : kadd k1 k1 <> k0).
Add Field Khalf : FT.
Lemma half_root u z : kmul z z = ksub (kmul u u) (kadd (kadd k1 k1) (kadd k1 k1)) ->
  let a := kdiv (ksub u z) (kadd k1 k1) in kadd (kadd (kmul a a) (kmul (kopp u) a)) k1 = k0.
Proof.
  intros H a. pose proof (four_nz FT keq_ok two_nz) as N4. transitivity (kdiv (ksub (kmul z z) (ksub (kmul u u) (kadd (kadd k1 k1) (kadd k1 k1)))) (kadd (kadd k1 k1) (kadd k1 k1))); [unfold a; field; split; [exact (mulr_nz FT keq_ok _ _ two_nz two_nz)|exact two_nz]|].
  rewrite H. field. exact (mulr_nz FT keq_ok _ _ two_nz two_nz).
Qed.
End Half.
(** ** A point of order three: (4, 15/4) on the curve with A = -863/256 *)
Lemma qfr_opp a b : qopp (qfr a b) = qfr (- a) b. Proof. unfold qfr. rewrite qz_opp. unfold qdiv. generalize (qz a), (qinv (qz b)). intros. qring. Qed.
Definition e3 : curve fq := mkE (fneg fq_ops (ffr 863 256)).
Definition k3 : point fq := new_xy fq_ops (ffr 4 1) (ffr 15 4).
Lemma e3_v : coeff e3 = qfr (-863) 256.
Proof. unfold coeff. change (cA e3) with (fneg fq_ops (ffr 863 256)). rewrite (l_neg _ _ _ _ _ _ _ _ _ _ _ fq_laws), ffr_v. apply (qfr_opp 863 256). Qed.
Lemma k3_v : affine k3 = Some (qfr 4 1, qfr 15 4). Proof. unfold k3. rewrite affine_xy, !ffr_v. reflexivity. Qed.
Lemma k3_on : on_E e3 k3.
Proof. unfold on_E. rewrite k3_v, e3_v. unfold on_q. cbn [on]. qfrs. apply qfr_eq; [qnz|qnz|reflexivity]. Qed.
Lemma e3_good : good_curve e3.
Proof.
  split; [|split].
  - apply mkE_valid. change (fqv (fneg fq_ops (ffr 863 256))) with (coeff e3). rewrite e3_v, q4_fr. qfrs. apply qfr_neq; [qnz|qnz|split; reflexivity].
  - rewrite e3_v. destruct (qfr_square 482625 65536) as [z Hz]; [qnz|]. exists (qdiv (qsub (qfr 863 256) z) q2).
    assert (EA : qfr (-863) 256 = qopp (qfr 863 256)) by (symmetry; apply (qfr_opp 863 256)). assert (EQ : qmul z z = qsub (qmul (qfr 863 256) (qfr 863 256)) q4). { rewrite q4_fr. qfrs. rewrite Hz. apply qfr_eq; [qnz|qnz|reflexivity]. }
    rewrite EA. exact (half_root Zq_field qeqb_true q2_nz _ _ EQ).
  - rewrite e3_v, q2_fr. qfrs. destruct (qfr_square (-863 * 1 + 2 * 256) (256 * 1)) as [z Hz]; [qnz|]. exists z. exact Hz.
Qed.
Lemma k3_order : exact_order (coeff e3) 3 (affine k3).
Proof.
  pose proof k3_on as O. unfold on_E in O. rewrite k3_v in *. assert (D : padd_q (coeff e3) (Some (qfr 4 1, qfr 15 4)) (Some (qfr 4 1, qfr 15 4)) = Some (qfr 4 1, qopp (qfr 15 4))).
  { unfold padd_q. rewrite (dbl_fin Zq_field qeqb_true q2_nz _ _ O); [|rewrite <- qz_0, qfr_z; apply qfr_neq; [qnz|qnz|split; reflexivity]]. fold q2. fold q4. rewrite q4_fr, q2_fr, q1_fr, e3_v, qfr_opp. qfrs. f_equal. f_equal; apply qfr_eq; try qnz; reflexivity. }
  assert (O2 : on_q (coeff e3) (Some (qfr 4 1, qopp (qfr 15 4)))) by (apply (on_opp Zq_field (Some (qfr 4 1, qfr 15 4))); exact O). split.
  - change (padd_q (coeff e3) (padd_q (coeff e3) (Some (qfr 4 1, qfr 15 4)) (Some (qfr 4 1, qfr 15 4))) (Some (qfr 4 1, qfr 15 4)) = None). rewrite D.
    unfold padd_q. rewrite (padd_comm Zq_field qeqb_true q2_nz) by assumption. apply (padd_opp_r Zq_field qeqb_true). exact O.
  - intros k Hk. assert (C : k = 1 \/ k = 2) by lia. destruct C as [-> | ->]; [discriminate|]. change (padd_q (coeff e3) (Some (qfr 4 1, qfr 15 4)) (Some (qfr 4 1, qfr 15 4)) <> None). rewrite D. discriminate.
Qed.
Example C59_ex : good_curve e3 /\ on_E e3 k3 /\ Z.odd 3 = true /\ exact_order (coeff e3) 3 (affine k3) /\ forall checks, exists phi C R, isogeny_new fq_ops checks e3 k3 3 = Some phi /\ get_codomain phi = Some C /\ good_curve C /\
  evaluate_isogeny fq_ops phi k3 = Some R /\ affine R = None.
Proof.
  split; [exact e3_good|]. split; [exact k3_on|]. split; [reflexivity|]. split; [exact k3_order|]. intros checks.
  destruct (C59_step checks e3 k3 3 e3_good k3_on ltac:(lia) eq_refl k3_order) as (phi & C & E1 & E2 & gC & X). destruct (xi_total _ _ _ _ X k3 k3_on) as (R & ER & OR). exists phi, C, R. repeat (split; [assumption|]).
  apply (xi_ker _ _ _ _ X k3 R k3_on ER). exists 1. split; [lia|reflexivity].
Qed.
(* the point (0, 0) of order two is not in the kernel and keeps its order *)
Example C60_ex : Forall odd_power [(3, 1)] /\ ForallOrdPairs coprime_bases [(3, 1)] /\ exact_order (coeff e3) (order_of [(3, 1)]) (affine k3) /\
  forall checks, exists chain C R, factored_kummer_isogeny fq_ops checks e3 k3 [(3, 1)] = Some chain /\ evaluate_isogeny_chain fq_ops e3 (mkPoint (fzero fq_ops) (fzero fq_ops) (fone fq_ops)) chain = Some (C, R) /\ exact_order (coeff C) 2 (affine R).
Proof.
  assert (F : Forall odd_power [(3, 1)]) by (constructor; [split; [cbn; lia|split; [reflexivity|cbn; lia]]|constructor]). assert (C1 : ForallOrdPairs coprime_bases [(3, 1)]) by (constructor; constructor).
  assert (KO : exact_order (coeff e3) (order_of [(3, 1)]) (affine k3)) by exact k3_order. split; [exact F|]. split; [exact C1|]. split; [exact KO|]. intros checks. set (T := mkPoint (fzero fq_ops) (fzero fq_ops) (fone fq_ops)).
  assert (AT : affine T = Some (q0, q0)).
  { apply (affk_S fq_laws); cbn [pX pY pZ T]; rewrite ?(l_zero _ _ _ _ _ _ _ _ _ _ _ fq_laws), ?(l_one _ _ _ _ _ _ _ _ _ _ _ fq_laws); [exact (F_1_neq_0 Zq_field)|ring|ring]. }
  assert (OT : on_E e3 T) by (unfold on_E; rewrite AT; cbn [on_q on]; unfold on_q; cbn [on]; ring).
  destruct (C60_torsion checks e3 k3 [(3, 1)] T T 2 e3_good k3_on F C1 KO OT OT ltac:(lia) eq_refl) as (ch & C & R & _ & E1 & E2 & _ & HO & _). exists ch, C, R. split; [exact E1|]. split; [exact E2|]. apply HO. rewrite AT. split.
  - change (padd_q (coeff e3) (Some (q0, q0)) (Some (q0, q0)) = None). apply (dbl_inf Zq_field qeqb_true); [cbn; ring|reflexivity].
  - intros k Hk. assert (k = 1) as -> by (clear -Hk; lia). discriminate.
Qed.
(** the starting curve of the scheme satisfies the hypothesis, and so do all curves reached from it by chains (C60_chain) *)
Theorem C60_E0_good : good_curve E0.
Proof.
  split; [exact E0_valid|]. rewrite E0_coeff. destruct (qz_square 8) as [z Hz]. split.
  - exists (qsub z (qz 3)). transitivity (qsub (qmul z z) (qz 8)); [|rewrite Hz; generalize (qz 8); intros; qring]. change 8 with (3 * 3 - 1). change 6 with (3 + 3). rewrite qz_sub, qz_mul, qz_add, qz_1. generalize (qz 3). intros. qring.
  - exists z. rewrite Hz. change 8 with (6 + (1 + 1)). rewrite !qz_add, qz_1. reflexivity.
Qed.
Print Assumptions C59_step.
Print Assumptions C60_chain.
Print Assumptions C60_evaluate.
Print Assumptions C60_torsion.
Print Assumptions C60_E0_good.
