(** C69: the secret key written by the key generation (src/festa.rs:291-390), and the decryption of an encryption. *)
From Coq Require Import Arith ZArith List Bool Lia Ring Field Znumtheory.
From Verif Require Import M_Isogeny P_Velu P_Isogeny M_Super2 M_Theta M_Festa P_Festa P_E0 P_Basis L_E0 L_Entangled P_Entangled S_Fp S_Fp2 S_Curve S_Dlog S_Params M_Fp M_Fp2 M_Field M_Curve M_Consts M_Dlog M_Pairing M_Super L_Zp L_Zp2 L_Fp L_Fp2 L_Group L_Kummer L_Field L_Curve L_QNum L_Isog L_Weil L_Fp2Misc L_Dlog L_Fp2Misc P_Fp2 S_Fp2 P_Entangled P_Params P_Curve P_Pairing P_PairEx L_Ex5 P_BidlpEx P_Super P_Scalar P_Trapdoor P_Bidlp P_Recover P_Iso P_WeilDet.
Import ListNotations.
Open Scope Z_scope.

(** ** Coordinates in a basis *)
(** p has the coordinates (a, b) with respect to (x, y) *)
Definition coords (A : Zq) (x y p : pt Zq) (a b : Z) : Prop := p = padd_q A (pmul_q A a x) (pmul_q A b y).
Lemma modd x n : 0 < n -> exists q, x mod n = x - n * q. Proof. intros H. exists (x / n). pose proof (Z.div_mod x n ltac:(lia)). lia. Qed.
Lemma gcd_modl a n : 0 < n -> Z.gcd (a mod n) n = Z.gcd a n. Proof. intros H. rewrite Z.gcd_mod by lia. apply Z.gcd_comm. Qed.
Lemma gcd_mul1 a b n : Z.gcd a n = 1 -> Z.gcd b n = 1 -> Z.gcd (a * b) n = 1.
Proof. intros A1 A2. apply Zgcd_1_rel_prime. apply rel_prime_sym, rel_prime_mult; apply rel_prime_sym, Zgcd_1_rel_prime; assumption. Qed.
Lemma basis_exact E n P Q : valid E -> 3 < n -> on_E E P -> on_E E Q -> n_basis (coeff E) n (affine P) (affine Q) -> exact_order (coeff E) n (affine P) /\ exact_order (coeff E) n (affine Q).
Proof.
  intros V Hn HP HQ B. split.
  - rewrite (aP E n Hn P Q HP B). apply (unim_ord E V n Hn P Q HP HQ B). apply unim_1.
  - rewrite (aQ E n Hn P Q). apply (unim_ord E V n Hn P Q HP HQ B). apply unim_0.
Qed.
Section Second.
Context (checks : bool) (E' E : curve fq) (fs : list (Z * Z)) (V' : valid E') (V : valid E).
Let n := fprod fs.
Context (Hn : 3 < n) (On : Z.odd n = true) (HF : log_entries checks fs) (HC : fcoprime fs).
Context (P' Q' X Y P Q : point fq) (OP' : on_E E' P') (OQ' : on_E E' Q') (B' : n_basis (coeff E') n (affine P') (affine Q')).
Context (OX : on_E E X) (OY : on_E E Y) (BX : n_basis (coeff E) n (affine X) (affine Y)) (OP : on_E E P) (OQ : on_E E Q) (BP : n_basis (coeff E) n (affine P) (affine Q)).
Context (a1 b1 a2 b2 : Z) (Ha1 : 0 < a1 < n) (Hb1 : 0 < b1 < n) (Ha2 : 0 < a2 < n) (Hb2 : 0 < b2 < n).
Context (CP : coords (coeff E) (affine X) (affine Y) (affine P) a1 b1) (CQ : coords (coeff E) (affine X) (affine Y) (affine Q) a2 b2).
Notation pz := (pzq (coeff E) (affine X) (affine Y) n).
Notation pz' := (pzq (coeff E') (affine P') (affine Q') n).
Let SM := valid_smooth E V. Let SM' := valid_smooth E' V'.
Let iX := b_OP E n Hn X Y BX. Let iY := b_OQ E n Hn X Y BX. Let iI := b_in E n X Y BX.
Let jX := b_OP E' n Hn P' Q' B'. Let jY := b_OQ E' n Hn P' Q' B'. Let jI := b_in E' n P' Q' B'.
Lemma two_comb u v p q : 0 <= u -> 0 <= v -> p = pz a1 b1 -> q = pz a2 b2 -> padd_q (coeff E) (pmul_q (coeff E) u p) (pmul_q (coeff E) v q) = pz (u * a1 + v * a2) (u * b1 + v * b2).
Proof.
  intros Hu Hv -> ->. rewrite !(pm_n E) by assumption. rewrite !(pz_mul Zq_field qeqb_true q2_nz SM (affine X) (affine Y) OX OY n Hn iX iY iI). rewrite !Z2Nat.id by assumption.
  exact (pz_add Zq_field qeqb_true q2_nz SM (affine X) (affine Y) OX OY n Hn iX iY _ _ _ _).
Qed.
Lemma cPz : affine P = pz a1 b1. Proof. unfold coords in CP. rewrite CP. apply (comb_pz E V n Hn X Y OX OY BX); clear - Ha1 Hb1; lia. Qed.
Lemma cQz : affine Q = pz a2 b2. Proof. unfold coords in CQ. rewrite CQ. apply (comb_pz E V n Hn X Y OX OY BX); clear - Ha2 Hb2; lia. Qed.
Lemma det_nd : ~ (n | a1 * b2 - b1 * a2).
Proof.
  intros [c Hc]. assert (Z0 : padd_q (coeff E) (pmul_q (coeff E) b2 (affine P)) (pmul_q (coeff E) (n - b1) (affine Q)) = None).
  { rewrite (two_comb b2 (n - b1) _ _ ltac:(clear - Hb2; lia) ltac:(clear - Hb1; lia) cPz cQz). apply (pz_None (affine X) (affine Y) n Hn iI). split; [exists (c + a2)|exists b2]; clear - Hc; lia. }
  apply BP in Z0; [|clear - Hb2; lia|clear - Hb1; lia]. destruct Z0 as [D _]. apply Z.divide_pos_le in D; clear - D Hb2; lia.
Qed.
Context (w : fq) (Ew : weil_pairing fq_ops checks E P Q n = Some w) (Ow : unit_order (fqv w) n).
Lemma second_half : exists t, 0 <= t /\ Z.gcd t n = 1 /\ Z.gcd (a1 * b2 - b1 * a2) n = 1 /\
  bidlp fq_ops (dlp_fq checks) checks E P X Y fs (Some w) = Some ((a1 * t) mod n, (b1 * t) mod n) /\ bidlp fq_ops (dlp_fq checks) checks E Q X Y fs (Some w) = Some ((a2 * t) mod n, (b2 * t) mod n).
Proof.
  destruct (basis_exact E n P Q V Hn OP OQ BP) as [XP XQ]. assert (N0 : 0 < n) by (clear - Hn; lia).
  destruct (C55_determinant checks E n X Y P Q a1 b1 a2 b2 V Hn OX OY BX ltac:(clear - Ha1; lia) ltac:(clear - Hb1; lia) ltac:(clear - Ha2; lia) ltac:(clear - Hb2; lia) OP OQ CP CQ XP XQ det_nd) as (v & r & Ev & Er & Vr).
  rewrite Ew in Er. injection Er as <-. destruct (C55_weil checks E n X Y V Hn OX OY BX) as (v' & Ev' & Rv & _). rewrite Ev in Ev'. injection Ev' as <-.
  pose proof (Z.mod_pos_bound (a1 * b2 - b1 * a2) n N0) as M. pose proof Ow as Ow'. rewrite Vr in Ow'. destruct (unit_root (fqv v) n _ N0 (proj1 M) Rv Ow') as (G & t & Ht & Gt & _ & Et). rewrite <- Vr in Et. rewrite gcd_modl in G by exact N0.
  exists t. split; [exact Ht|]. split; [exact Gt|]. split; [exact G|].
  assert (W : forall u, weil_pairing fq_ops checks E X Y n = Some u -> fqv u = qpow (fqv w) t) by (intros u Eu; rewrite Ev in Eu; injection Eu as <-; exact Et). assert (NN : n < n * n) by (clear - Hn; nia).
  split.
  - exact (C28_bidlp_odd checks E X Y P fs a1 b1 n (Some w) w t V Hn On HF HC OX OY OP BX CP Ha1 Hb1 XP N0 NN (or_introl eq_refl) Ow Ht W).
  - exact (C28_bidlp_odd checks E X Y Q fs a2 b2 n (Some w) w t V Hn On HF HC OX OY OQ BX CQ Ha2 Hb2 XQ N0 NN (or_introl eq_refl) Ow Ht W).
Qed.
(** the points of E' with these coordinates *)
Lemma image_basis t (G : Z.gcd t n = 1) (I J : point fq) : 0 <= t -> on_E E' I -> on_E E' J ->
  coords (coeff E') (affine P') (affine Q') (affine I) ((a1 * t) mod n) ((b1 * t) mod n) -> coords (coeff E') (affine P') (affine Q') (affine J) ((a2 * t) mod n) ((b2 * t) mod n) -> n_basis (coeff E') n (affine I) (affine J).
Proof.
  intros Ht OI OJ CI CJ. unfold coords in CI, CJ. assert (N0 : 0 < n) by (clear - Hn; lia). assert (M := fun x => Z.mod_pos_bound x n N0). rewrite (comb_pz E' V' n Hn P' Q' OP' OQ' B') in CI, CJ by (apply M). rewrite CI, CJ.
  split; [|split].
  - rewrite (pm_n E') by (clear - Hn; lia). exact (pz_order Zq_field qeqb_true q2_nz SM' (affine P') (affine Q') OP' OQ' n Hn jX jY jI _ _).
  - rewrite (pm_n E') by (clear - Hn; lia). exact (pz_order Zq_field qeqb_true q2_nz SM' (affine P') (affine Q') OP' OQ' n Hn jX jY jI _ _).
  - intros u v Hu Hv Z0. rewrite !(pm_n E') in Z0 by assumption. rewrite !(pz_mul Zq_field qeqb_true q2_nz SM' (affine P') (affine Q') OP' OQ' n Hn jX jY jI) in Z0. rewrite !Z2Nat.id in Z0 by assumption.
    pose proof (pz_add Zq_field qeqb_true q2_nz SM' (affine P') (affine Q') OP' OQ' n Hn jX jY (u * ((a1 * t) mod n)) (u * ((b1 * t) mod n)) (v * ((a2 * t) mod n)) (v * ((b2 * t) mod n))) as AD. fold (padd_q (coeff E')) in AD. unfold padd_q in AD, Z0. rewrite Z0 in AD. symmetry in AD.
    apply (pz_None (affine P') (affine Q') n Hn jI) in AD. destruct AD as [[c Hc] [d Hd]].
    destruct (modd (a1 * t) n N0) as [q1' E1]. destruct (modd (b1 * t) n N0) as [q2' E2]. destruct (modd (a2 * t) n N0) as [q3' E3]. destruct (modd (b2 * t) n N0) as [q4' E4]. rewrite E1, E3 in Hc. rewrite E2, E4 in Hd.
    assert (D1 : (n | u * a1 + v * a2)). { apply (Z.gauss n t); [|rewrite Z.gcd_comm; exact G]. exists (c + u * q1' + v * q3'). clear - Hc. lia. }
    assert (D2 : (n | u * b1 + v * b2)). { apply (Z.gauss n t); [|rewrite Z.gcd_comm; exact G]. exists (d + u * q2' + v * q4'). clear - Hd. lia. }
    apply BP; [exact Hu|exact Hv|]. rewrite (two_comb u v _ _ Hu Hv cPz cQz). apply (pz_None (affine X) (affine Y) n Hn iI). split; assumption.
Qed.
Lemma image_pairing t (G : Z.gcd t n = 1) (GD : Z.gcd (a1 * b2 - b1 * a2) n = 1) (I J : point fq) : 0 <= t -> on_E E' I -> on_E E' J ->
  coords (coeff E') (affine P') (affine Q') (affine I) ((a1 * t) mod n) ((b1 * t) mod n) -> coords (coeff E') (affine P') (affine Q') (affine J) ((a2 * t) mod n) ((b2 * t) mod n) ->
  full_pairing checks E' n (affine P') (affine Q') -> full_pairing checks E' n (affine I) (affine J).
Proof.
  intros Ht OI OJ CI CJ FP R S OR OS AR AS. pose proof (image_basis t G I J Ht OI OJ CI CJ) as BI. destruct (basis_exact E' n I J V' Hn OI OJ BI) as [XI XJ]. rewrite <- AR in CI, XI. rewrite <- AS in CJ, XJ.
  assert (N0 : 0 < n) by (clear - Hn; lia). assert (M := fun x => Z.mod_pos_bound x n N0).
  destruct (modd (a1 * t) n N0) as [q1' E1]. destruct (modd (b1 * t) n N0) as [q2' E2]. destruct (modd (a2 * t) n N0) as [q3' E3]. destruct (modd (b2 * t) n N0) as [q4' E4].
  set (D := (a1 * t) mod n * ((b2 * t) mod n) - (b1 * t) mod n * ((a2 * t) mod n)).
  assert (GD' : Z.gcd (D mod n) n = 1).
  { replace (D mod n) with ((t * t * (a1 * b2 - b1 * a2)) mod n). { rewrite gcd_modl by exact N0. apply gcd_mul1; [apply gcd_mul1; exact G|exact GD]. }
    unfold D. rewrite E1, E2, E3, E4. replace (t * t * (a1 * b2 - b1 * a2)) with ((a1 * t - n * q1') * (b2 * t - n * q4') - (b1 * t - n * q2') * (a2 * t - n * q3') + (a1 * t * q4' + q1' * (b2 * t - n * q4') - b1 * t * q3' - q2' * (a2 * t - n * q3')) * n) by ring. apply Z.mod_add. clear - N0; lia. }
  assert (ND : ~ (n | D)) by (intros X0; apply Z.mod_divide in X0; [rewrite X0 in GD'; cbn [Z.gcd] in GD'; clear - GD' Hn; rewrite Z.abs_eq in GD' by lia; lia|clear - N0; lia]).
  destruct (C55_determinant checks E' n P' Q' R S _ _ _ _ V' Hn OP' OQ' B' (proj1 (M (a1 * t))) (proj1 (M (b1 * t))) (proj1 (M (a2 * t))) (proj1 (M (b2 * t))) OR OS CI CJ XI XJ ND) as (v & r & Ev & Er & Vr).
  exists r. split; [exact Er|]. destruct (FP P' Q' OP' OQ' eq_refl eq_refl) as (v' & Ev' & Uv). rewrite Ev in Ev'. injection Ev' as <-. rewrite Vr. apply unit_pow; [exact Uv|apply M|exact GD'].
Qed.
End Second.

(** ** The two summands of a point of composite order *)
Lemma stage_swap checks E C ch n d N dd c (TU PQ RS : point fq * point fq) : valid E -> valid C -> linked E ch C -> keeps E C (eval_points fq_ops ch) n -> 0 < n -> 0 < d -> 0 <= c -> (n | c - 1) -> (d | c) ->
  on_E E (fst TU) -> on_E E (snd TU) -> n_basis (coeff E) n (affine (fst TU)) (affine (snd TU)) -> on_E E (fst PQ) -> on_E E (snd PQ) -> pmul_q (coeff E) d (affine (fst PQ)) = None -> pmul_q (coeff E) d (affine (snd PQ)) = None ->
  chain_basis fq_ops checks E (add2 fq_ops E PQ TU) ch N dd = Some RS ->
  on_E C (fst RS) /\ on_E C (snd RS) /\ n_basis (coeff C) n (pmul_q (coeff C) c (affine (fst RS))) (pmul_q (coeff C) c (affine (snd RS))) /\
  exists fT fU, eval_points fq_ops ch (fst TU) = Some fT /\ eval_points fq_ops ch (snd TU) = Some fU /\ on_E C fT /\ on_E C fU /\ same_up_to_sign (pmul_q (coeff C) c (affine (fst RS))) (affine fT) /\ same_up_to_sign (pmul_q (coeff C) c (affine (snd RS))) (affine fU).
Proof.
  intros V VC HL KP Hn Hd Hc D1 D2 OT OU B OP OQ ZP ZQ H. unfold chain_basis in H. apply obind_inv in H. destruct H as ([C' [R S]] & H & HR). cbn [snd] in HR. injection HR as <-. cbn [fst snd].
  destruct (C38_basis _ _ _ _ _ _ _ _ _ _ _ _ H) as (ER & S0 & ES & SS). rewrite (eval_chain_linked fq_ops _ _ _ _ HL) in ER. rewrite (eval_chain_linked fq_ops _ _ _ _ HL) in ES. unfold add2 in ER, ES. cbn [fst snd] in ER, ES.
  destruct (C29_add E _ _ V OP OT) as [O1 A1]. destruct (C29_add E _ _ V OQ OU) as [O2 A2]. destruct TU as [T U], PQ as [P Q]. cbn [fst snd] in *. rewrite (padd_comm Zq_field qeqb_true q2_nz) in A1 by assumption. rewrite (padd_comm Zq_field qeqb_true q2_nz) in A2 by assumption. set (X := add_pts fq_ops E P T) in *. set (Y := add_pts fq_ops E Q U) in *.
  destruct (eval_points fq_ops ch X) as [R'|] eqn:EX; [|discriminate]. injection ER as _ ->. destruct (eval_points fq_ops ch Y) as [S'|] eqn:EY; [|discriminate]. injection ES as _ ->.
  destruct (k_total _ _ _ _ KP X O1) as (R1 & HR1 & OR). rewrite EX in HR1. injection HR1 as <-. destruct (k_total _ _ _ _ KP Y O2) as (S1 & HS1 & OS). rewrite EY in HS1. injection HS1 as <-.
  assert (OS' : on_E C S) by (destruct SS as [-> | ->]; [exact OS|apply neg_on_E; exact OS]). split; [exact OR|]. split; [exact OS'|].
  destruct (k_total _ _ _ _ KP T OT) as (fT & HT & OfT). destruct (k_total _ _ _ _ KP U OU) as (fU & HU & OfU). pose proof (k_basis _ _ _ _ KP T U fT fU OT OU HT HU B) as BC. pose proof B as (ZT & ZU & _).
  assert (ST : same_up_to_sign (pmul_q (coeff C) c (affine R)) (affine fT)) by (apply sign_sym; apply (k_mul _ _ _ _ KP X T c R fT O1 Hc); [symmetry; apply (clear_sum E c n d T P X); assumption|exact EX|exact HT]).
  assert (SU : same_up_to_sign (pmul_q (coeff C) c (affine S)) (affine fU)).
  { assert (SU0 : same_up_to_sign (pmul_q (coeff C) c (affine S0)) (affine fU)) by (apply sign_sym; apply (k_mul _ _ _ _ KP Y U c S0 fU O2 Hc); [symmetry; apply (clear_sum E c n d U Q Y); assumption|exact EY|exact HU]).
    eapply sign_trans; [|exact SU0]. apply sign_mul; [exact VC|exact Hc|exact OS|]. destruct SS as [-> | ->]; [left; reflexivity|right; apply C29_neg]. }
  assert (NL : forall p q, on_q (coeff C) p -> on_q (coeff C) q -> n_basis (coeff C) n p q -> n_basis (coeff C) n (popp_q p) q).
  { intros p q Hp Hq (Z1 & Z2 & IN). assert (BS : n_basis (coeff C) n q p).
    { split; [exact Z2|]. split; [exact Z1|]. intros i j Hi Hj S2. assert (X2 : (n | j) /\ (n | i)); [|tauto]. apply IN; [exact Hj|exact Hi|]. rewrite <- S2. apply (padd_comm Zq_field qeqb_true q2_nz); apply (pm_on (E := C)); assumption. }
    pose proof (basis_neg VC n q p Hn Hq Hp BS) as (Z3 & Z4 & IN2). split; [exact Z4|]. split; [exact Z3|]. intros i j Hi Hj S2. assert (X2 : (n | j) /\ (n | i)); [|tauto]. apply IN2; [exact Hj|exact Hi|]. rewrite <- S2.
    apply (padd_comm Zq_field qeqb_true q2_nz); apply (pm_on (E := C)); try assumption. apply (on_opp Zq_field). exact Hp. }
  split; [|exists fT, fU; do 4 (split; [assumption|]); split; assumption].
  destruct ST as [-> | ->], SU as [-> | ->]; [exact BC|apply (basis_neg VC); assumption|apply NL; assumption|]. apply NL; [exact OfT|apply (on_opp Zq_field); exact OfU|]. apply (basis_neg VC); assumption.
Qed.


Lemma sum_basis E n m (T U P Q X Y : point fq) : valid E -> 0 < n -> 0 < m -> Z.gcd n m = 1 -> on_E E T -> on_E E U -> on_E E P -> on_E E Q -> n_basis (coeff E) n (affine T) (affine U) -> n_basis (coeff E) m (affine P) (affine Q) ->
  affine X = padd_q (coeff E) (affine T) (affine P) -> affine Y = padd_q (coeff E) (affine U) (affine Q) -> n_basis (coeff E) (n * m) (affine X) (affine Y).
Proof.
  intros V Hn Hm G OT OU OP OQ BT BP EX EY.
  assert (KX : forall a b (p q s : pt Zq), 0 <= a -> 0 <= b -> on_q (coeff E) p -> on_q (coeff E) q -> s = padd_q (coeff E) p q -> pmul_q (coeff E) a p = None -> pmul_q (coeff E) b q = None -> pmul_q (coeff E) (a * b) s = None).
  { intros a b p q s Ha Hb Op Oq -> Za Zb. rewrite (pm_dist V) by (try assumption; nia). rewrite (pm_zero_mul V) by assumption. rewrite Z.mul_comm, (pm_zero_mul V) by assumption. reflexivity. }
  (* the part of order a of a relation, when the other part is killed by b *)
  assert (KP : forall a b (t u p q x y : pt Zq), 0 < a -> 0 < b -> Z.gcd a b = 1 -> on_q (coeff E) t -> on_q (coeff E) u -> on_q (coeff E) p -> on_q (coeff E) q -> n_basis (coeff E) a t u -> pmul_q (coeff E) b p = None -> pmul_q (coeff E) b q = None ->
    x = padd_q (coeff E) t p -> y = padd_q (coeff E) u q -> forall i j, 0 <= i -> 0 <= j -> padd_q (coeff E) (pmul_q (coeff E) i x) (pmul_q (coeff E) j y) = None -> (a | i) /\ (a | j)).
  { intros a b t u p q x y Ha Hb Gab Ot Ou Op Oq (_ & _ & IN) Zp Zq' -> -> i j Hi Hj Z0.
    assert (N1 : forall s k, pmul_q (coeff E) b s = None -> on_q (coeff E) s -> 0 <= k -> pmul_q (coeff E) (b * k) s = None) by (intros s k Zs Os Hk; apply (pm_zero_mul V); try assumption; lia).
    assert (R : padd_q (coeff E) (pmul_q (coeff E) (b * i) t) (pmul_q (coeff E) (b * j) u) = None).
    { assert (W : forall s s' k, 0 <= k -> on_q (coeff E) s -> on_q (coeff E) s' -> pmul_q (coeff E) b s' = None -> pmul_q (coeff E) (b * k) (padd_q (coeff E) s s') = pmul_q (coeff E) (b * k) s).
      { intros s s' k Hk Os Os' Zs. rewrite (pm_dist V) by (try assumption; nia). rewrite (N1 s' k Zs Os' Hk). destruct (pmul_q (coeff E) (b * k) s) as [[]|]; reflexivity. }
      rewrite <- (W t p i Hi Ot Op Zp), <- (W u q j Hj Ou Oq Zq'). assert (O1 : on_q (coeff E) (padd_q (coeff E) t p)) by (apply (padd_on Zq_field qeqb_true q2_nz); assumption). assert (O2 : on_q (coeff E) (padd_q (coeff E) u q)) by (apply (padd_on Zq_field qeqb_true q2_nz); assumption).
      rewrite <- !(pm_mul V) by (assumption || lia). rewrite <- (pm_dist V) by (try (apply (pm_on (E := E)); assumption); lia). rewrite Z0. apply (pm_O (E := E)). lia. }
    apply IN in R; [|nia|nia]. destruct R as [R1 R2]. split; [apply (Z.gauss a b i)|apply (Z.gauss a b j)]; assumption. }
  pose proof BT as (ZT & ZU & _). pose proof BP as (ZP & ZQ & _). split; [apply (KX n m (affine T) (affine P)); try assumption; lia|]. split; [apply (KX n m (affine U) (affine Q)); try assumption; lia|].
  intros i j Hi Hj Z0. destruct (KP n m _ _ _ _ _ _ Hn Hm G OT OU OP OQ BT ZP ZQ EX EY i j Hi Hj Z0) as [A1 A2].
  rewrite (padd_comm Zq_field qeqb_true q2_nz) in EX by assumption. rewrite (padd_comm Zq_field qeqb_true q2_nz) in EY by assumption. rewrite Z.gcd_comm in G. destruct (KP m n _ _ _ _ _ _ Hm Hn G OP OQ OT OU BP ZT ZU EX EY i j Hi Hj Z0) as [A3 A4].
  assert (PR : forall k, (n | k) -> (m | k) -> (n * m | k)). { intros k [c Hc] D. rewrite Hc in D |- *. assert (D2 : (m | c)) by (apply (Z.gauss m n); [rewrite Z.mul_comm; exact D|exact G]). destruct D2 as [d ->]. exists d. ring. }
  split; apply PR; assumption.
Qed.
(** the images of a basis under a chain *)
Lemma chain_kept checks E C ch n N dd (PQ RS : point fq * point fq) : valid E -> valid C -> linked E ch C -> keeps E C (eval_points fq_ops ch) n -> 0 < n -> on_E E (fst PQ) -> on_E E (snd PQ) -> n_basis (coeff E) n (affine (fst PQ)) (affine (snd PQ)) ->
  chain_basis fq_ops checks E PQ ch N dd = Some RS ->
  on_E C (fst RS) /\ on_E C (snd RS) /\ n_basis (coeff C) n (affine (fst RS)) (affine (snd RS)) /\ eval_points fq_ops ch (fst PQ) = Some (fst RS) /\ exists S, eval_points fq_ops ch (snd PQ) = Some S /\ same_up_to_sign (affine (snd RS)) (affine S).
Proof.
  intros V VC HL KP Hn OP OQ B H. unfold chain_basis in H. apply obind_inv in H. destruct H as ([C' [R S]] & H & HR). cbn [snd] in HR. injection HR as <-. cbn [fst snd].
  destruct (C38_basis _ _ _ _ _ _ _ _ _ _ _ _ H) as (ER & S0 & ES & SS). rewrite (eval_chain_linked fq_ops _ _ _ _ HL) in ER. rewrite (eval_chain_linked fq_ops _ _ _ _ HL) in ES.
  destruct (eval_points fq_ops ch (fst PQ)) as [R'|] eqn:EX; [|discriminate]. injection ER as _ ->. destruct (eval_points fq_ops ch (snd PQ)) as [S'|] eqn:EY; [|discriminate]. injection ES as _ ->.
  destruct (k_total _ _ _ _ KP _ OP) as (R1 & HR1 & OR). rewrite EX in HR1. injection HR1 as <-. destruct (k_total _ _ _ _ KP _ OQ) as (S1 & HS1 & OS). rewrite EY in HS1. injection HS1 as <-.
  pose proof (k_basis _ _ _ _ KP _ _ R S0 OP OQ EX EY B) as BC. split; [exact OR|]. split; [destruct SS as [-> | ->]; [exact OS|apply neg_on_E; exact OS]|].
  split; [destruct SS as [-> | ->]; [exact BC|rewrite C29_neg; apply (basis_neg VC); assumption]|]. split; [reflexivity|]. exists S0. split; [reflexivity|]. destruct SS as [-> | ->]; [left; reflexivity|right; apply C29_neg].
Qed.
Lemma sign_coords E n X X0 : valid E -> 0 < n -> on_E E X0 -> pmul_q (coeff E) n (affine X0) = None -> same_up_to_sign (affine X) (affine X0) ->
  exists s, (s = 1 \/ s = -1) /\ forall a, 0 < a < n -> pmul_q (coeff E) ((s * a) mod n) (affine X) = pmul_q (coeff E) a (affine X0) /\ 0 < (s * a) mod n < n.
Proof.
  intros V Hn OX ZX [EX|EX].
  - exists 1. split; [left; reflexivity|]. intros a Ha. rewrite Z.mul_1_l, Z.mod_small by lia. rewrite EX. split; [reflexivity|lia].
  - exists (-1). split; [right; reflexivity|]. intros a Ha. replace ((-1 * a) mod n) with (n - a) by (apply (Z.mod_unique_pos _ _ (-1)); lia). split; [|lia].
    rewrite EX. assert (R : pmul_q (coeff E) (n - a) (affine X0) = popp_q (pmul_q (coeff E) a (affine X0))).
    { apply (padd_None Zq_field qeqb_true q2_nz (A := coeff E)); try (apply (pm_on (E := E)); [exact OX|lia]). transitivity (pmul_q (coeff E) (a + (n - a)) (affine X0)); [symmetry; apply (pm_add V); [exact OX|lia|lia]|]. replace (a + (n - a)) with n by ring. exact ZX. }
    assert (N : pmul_q (coeff E) (n - a) (popp_q (affine X0)) = popp_q (pmul_q (coeff E) (n - a) (affine X0))) by (rewrite !pmul_n by lia; apply (pmul_nat_opp Zq_field qeqb_true q2_nz); exact OX).
    rewrite N, R. apply (popp_invol Zq_field).
Qed.
Lemma comb_ok E (PQ : point fq * point fq) ab : valid E -> on_E E (fst PQ) -> on_E E (snd PQ) -> 0 <= fst ab -> 0 <= snd ab -> exists I, comb fq_ops E PQ ab = Some I /\ on_E E I /\ coords (coeff E) (affine (fst PQ)) (affine (snd PQ)) (affine I) (fst ab) (snd ab).
Proof.
  intros V O1 O2 H1 H2. destruct (C31_mul_big E _ _ V O1 H1) as (R & ER & OR & AR). destruct (C31_mul_big E _ _ V O2 H2) as (S & ES & OS & AS). destruct (C29_add E R S V OR OS) as [OI AI]. exists (add_pts fq_ops E R S). unfold comb. rewrite ER. cbn [obind]. rewrite ES. cbn [obind].
  split; [reflexivity|]. split; [exact OI|]. unfold coords. rewrite AI, AR, AS. reflexivity.
Qed.
Lemma mul2_total E PQ k : valid E -> on_E E (fst PQ) -> on_E E (snd PQ) -> 0 <= k -> exists RS, mul2 fq_ops E PQ k = Some RS.
Proof. intros V O1 O2 Hk. unfold mul2. destruct (C31_mul_big E _ k V O1 Hk) as (R & -> & _). cbn [obind]. destruct (C31_mul_big E _ k V O2 Hk) as (S & -> & _). cbn [obind]. eexists. reflexivity. Qed.
Lemma dbg_total checks E P : valid E -> on_E E P -> exact_order (coeff E) (2 ^ 634) (affine P) -> dbg_order fq_ops checks E P [(2, L_POWER)] = Some tt.
Proof.
  intros V OP [Z0 X]. unfold dbg_order. destruct checks; [|reflexivity]. destruct (C33_point_test true E P [(2, L_POWER)] V OP) as (b & Eb & Hb).
  - split; [discriminate|]. constructor; [|constructor]. cbn [fst snd]. unfold L_POWER. clear. lia.
  - rewrite Eb. cbn [obind]. replace b with true; [reflexivity|]. symmetry. apply Hb. intros l e [H|[]]. apply pair_equal_spec in H. destruct H as [<- _]. apply X. vm_compute. split; reflexivity.
Qed.
Lemma keygen_intro F (o : fops F) dlp fuel checks self r11 r22 rng phi1 EA' rng1 phi2 EA rng2 PQ' im1 imb1 im2 imb2 imd2 PQ w ab1 ab2 I J R S :
  random_isogeny_x_only o fuel checks (fe_E0 self) DA1_FACTORED 2 rng = Some (phi1, EA', rng1) -> random_isogeny_x_only o fuel checks EA' DA2_FACTORED 2 rng1 = Some (phi2, EA, rng2) -> torsion_basis o fuel checks EA' D2_FACTORED 634 = Some PQ' ->
  chain_basis o checks (fe_E0 self) (add2 o (fe_E0 self) (fe_lb self) (fe_d1b self)) phi1 (fe_l self * fe_d1 self) (big32 DA1) = Some im1 -> mul2 o EA' im1 (fe_clear_d1 self) = Some imb1 ->
  chain_basis o checks EA' (add2 o EA' imb1 PQ') phi2 (fe_l self * fe_d2 self) (big32 DA2) = Some im2 -> mul2 o EA im2 (fe_clear_d2 self) = Some imb2 -> mul2 o EA im2 (fe_clear_lb self) = Some imd2 ->
  torsion_basis o fuel checks EA D2_FACTORED 634 = Some PQ -> weil_pairing o checks EA (fst PQ) (snd PQ) (fe_d2 self) = Some w ->
  bidlp o dlp checks EA (fst PQ) (fst imd2) (snd imd2) D2_FACTORED (Some w) = Some ab1 -> bidlp o dlp checks EA (snd PQ) (fst imd2) (snd imd2) D2_FACTORED (Some w) = Some ab2 ->
  comb o EA' PQ' ab1 = Some I -> comb o EA' PQ' ab2 = Some J -> mul_big o EA (fst imb2) (Z.lor r11 1) = Some R -> mul_big o EA (snd imb2) (Z.lor r22 1) = Some S ->
  dbg_order o checks EA R [(2, L_POWER)] = Some tt -> dbg_order o checks EA S [(2, L_POWER)] = Some tt ->
  keygen o dlp fuel checks self r11 r22 rng = Some (mkPK EA R S, mkSK EA' im1 (I, J) (Z.lor r11 1, Z.lor r22 1)).
Proof.
  intros H1 H2 H3 H4 H5 H6 H7 H8 H9 H10 H11 H12 H13 H14 H15 H16 H17 H18. unfold keygen, set_bit0. change (Z.to_nat L_POWER) with 634%nat. cbv zeta. rewrite H1. cbn [obind]. rewrite H2. cbn [obind]. rewrite H3. cbn [obind]. rewrite H4. cbn [obind]. rewrite H5. cbn [obind].
  rewrite H6. cbn [obind]. rewrite H7. cbn [obind]. rewrite H8. cbn [obind]. rewrite H9. cbn [obind]. rewrite H10. cbn [obind]. rewrite H11. cbn [obind]. rewrite H12. cbn [obind]. rewrite H13. cbn [obind]. rewrite H14. cbn [obind]. rewrite H15. cbn [obind]. rewrite H16. cbn [obind]. rewrite H17. cbn [obind]. rewrite H18. reflexivity.
Qed.
Lemma chain_total checks E C ch n d (PQ : point fq * point fq) : valid E -> valid C -> linked E ch C -> keeps E C (eval_points fq_ops ch) n -> 3 < n -> on_E E (fst PQ) -> on_E E (snd PQ) -> n_basis (coeff E) n (affine (fst PQ)) (affine (snd PQ)) ->
  exists RS, chain_basis fq_ops checks E PQ ch n d = Some RS.
Proof.
  intros V VC HL K Hn OP OQ B. destruct (k_total _ _ _ _ K _ OP) as (R & ER & OR). destruct (k_total _ _ _ _ K _ OQ) as (S & ES & OS). pose proof (k_basis _ _ _ _ K _ _ R S OP OQ ER ES B) as BC.
  destruct (chain_pair checks E C ch _ _ n d R S V VC HL Hn OP OQ OR OS ER ES B BC) as (S' & EC & _). exists (R, S'). unfold chain_basis. rewrite EC. reflexivity.
Qed.
Lemma gcds : Z.gcd (2 ^ 634) ed1 = 1 /\ Z.gcd (2 ^ 634) ed2 = 1 /\ Z.gcd (2 ^ 634 * ed1) (order_of DA1_FACTORED) = 1 /\ Z.gcd (2 ^ 634 * ed2) (order_of DA2_FACTORED) = 1 /\ Z.gcd ed2 (order_of DA2_FACTORED) = 1.
Proof.
  destruct e_odd as (O1 & O2 & _). destruct DA_lib as [L1 L2]. pose proof (gcd_pow2_degree _ L1) as G1. pose proof (gcd_pow2_degree _ L2) as G2.
  assert (G3 : Z.gcd ed1 (order_of DA1_FACTORED) = 1) by (vm_compute; reflexivity). assert (G4 : Z.gcd ed2 (order_of DA2_FACTORED) = 1) by (vm_compute; reflexivity).
  split; [rewrite Z.gcd_comm; apply odd_gcd; exact O1|]. split; [rewrite Z.gcd_comm; apply odd_gcd; exact O2|]. split; [apply gcd_mul1; assumption|]. split; [apply gcd_mul1; assumption|exact G4].
Qed.
(** ** C69: hypotheses *)
(** the two secret walks (C63_random says when random_isogeny_x_only returns walks) *)
Record walks_ok (fuel : nat) (checks : bool) (rng : list (list Z)) (phi1 : list (isogeny fq)) (EA' : curve fq) (phi2 : list (isogeny fq)) (EA : curve fq) : Prop := {
  w_random : exists rng1 rng2, random_isogeny_x_only fq_ops fuel checks E0 DA1_FACTORED 2 rng = Some (phi1, EA', rng1) /\ random_isogeny_x_only fq_ops fuel checks EA' DA2_FACTORED 2 rng1 = Some (phi2, EA, rng2);
  w_walk1 : walk DA1_FACTORED E0 2 phi1 EA';
  w_walk2 : walk DA2_FACTORED EA' 2 phi2 EA }.
(** what torsion_basis returned on a curve is a basis *)
Definition found_basis (fuel : nat) (checks : bool) (E : curve fq) (fs : list (Z * Z)) (n : Z) (P Q : point fq) : Prop :=
  torsion_basis fq_ops fuel checks E fs 634 = Some (P, Q) /\ n_basis (coeff E) n (affine P) (affine Q).
(** ** C71: the pairing of an accepted basis has full order *)
Lemma order_by_primes fs w : prime_entries fs -> qpow w (order_of fs) = q1 -> (forall l e, In (l, e) fs -> qpow w (order_of fs / l) <> q1) -> unit_order w (order_of fs).
Proof.
  intros HF W1 HW. pose proof (order_pos fs (prime_entries_ok fs HF)) as Hn. set (n := order_of fs) in *. split; [exact Hn|]. split; [exact W1|]. intros k Hk K.
  pose proof (Z.gcd_nonneg k n) as Hg. set (g := Z.gcd k n) in *. destruct (Z.gcd_divide_r k n) as [c Hc]. fold g in Hc. pose proof (Z.gcd_divide_l k n) as Dk. fold g in Dk. apply Z.divide_pos_le in Dk; [|lia].
  assert (G : qpow w g = q1).
  { destruct (Z.gcd_bezout k n g eq_refl) as (u & v & Hb). assert (Hu : 0 <= u mod n) by (apply Z.mod_pos_bound; lia).
    assert (D : g mod n = (u mod n * k) mod n) by (rewrite <- Hb, Z_mod_plus_full, Z.mul_mod_idemp_l by lia; reflexivity).
    rewrite (qpow_mod w n g) by assumption. rewrite D. rewrite <- qpow_mod by (try assumption; nia). rewrite Z.mul_comm, qpow_mul by lia. rewrite K. apply qpow_q1. }
  assert (Hc1 : 1 < c) by nia. destruct (L_Super.prime_divisor c Hc1) as (l & Pl & [d Hd]). assert (1 < l) by (destruct Pl; assumption).
  destruct (order_prime fs l HF Pl) as [e He]; [exists (d * g); fold n; rewrite Hc, Hd; ring|]. apply (HW l e He). assert (ED : n / l = d * g) by (rewrite Hc, Hd; replace (d * l * g) with (d * g * l) by ring; apply Z.div_mul; lia).
  rewrite ED. apply (qpow_root _ g); [exact Hg|exact G|exists d; reflexivity|nia].
Qed.
Theorem C71_accepted : forall checks E fs P Q, valid E -> prime_entries fs -> 3 < order_of fs -> on_E E P -> on_E E Q -> n_basis (coeff E) (order_of fs) (affine P) (affine Q) -> independent_pair checks E fs P Q ->
  full_pairing checks E (order_of fs) (affine P) (affine Q).
Proof.
  intros c E fs P Q V HF Hn OP OQ B (_ & _ & _ & _ & w & Ew & Hw) R S OR OS AR AS. destruct (C55_weil c E _ P Q V Hn OP OQ B) as (w1 & Ew1 & W1 & _). rewrite Ew in Ew1. apply some_inj in Ew1. subst w1.
  destruct (weil_PQ c E V _ Hn P Q OP OQ B) as (w2 & Ew2 & V2). rewrite Ew in Ew2. apply some_inj in Ew2. subst w2. rewrite <- AR, <- AS in B. destruct (weil_PQ c E V _ Hn R S OR OS B) as (v & Ev & Vv). exists v. split; [exact Ev|].
  rewrite AR, AS, <- V2 in Vv. rewrite Vv. apply order_by_primes; assumption.
Qed.
(** the points found by torsion_basis, whenever they are a basis *)
Theorem C71_found : forall fuel checks E fs ep P Q, valid E -> prime_entries fs -> 3 < order_of fs -> torsion_basis fq_ops fuel checks E fs ep = Some (P, Q) -> n_basis (coeff E) (order_of fs) (affine P) (affine Q) ->
  on_E E P /\ on_E E Q /\ full_pairing checks E (order_of fs) (affine P) (affine Q).
Proof.
  intros fuel c E fs ep P Q V HF Hn T B. assert (NP : P <> infinity fq_ops).
  { intros ->. destruct B as (_ & _ & B). destruct (B 1 0 ltac:(lia) ltac:(lia)) as [D _]; [|apply Z.divide_pos_le in D; lia]. rewrite (proj1 (C44_isinfinity (infinity fq_ops))) by (vm_compute; reflexivity). reflexivity. }
  destruct (C54_torsion_basis _ _ _ _ _ _ _ V HF T) as [C|[[C|HS] HI]]; [injection C as -> _; contradiction|contradiction|]. pose proof (proj1 HS) as OP. pose proof HI as (_ & _ & OQ & _).
  split; [exact OP|]. split; [exact OQ|]. apply C71_accepted; assumption.
Qed.
Lemma found_D2 fuel checks E P Q : valid E -> found_basis fuel checks E D2_FACTORED ed2 P Q ->
  torsion_basis fq_ops fuel checks E D2_FACTORED 634 = Some (P, Q) /\ on_E E P /\ on_E E Q /\ n_basis (coeff E) ed2 (affine P) (affine Q) /\ full_pairing checks E ed2 (affine P) (affine Q).
Proof.
  intros V [T B]. pose proof (proj1 (proj2 D2_lib)) as PE. destruct (D2_entries checks) as (_ & _ & _ & _ & D23). pose proof (C71_found fuel checks E D2_FACTORED 634 P Q V PE) as F. rewrite order_D2 in F. destruct (F D23 T B) as (OP & OQ & FP). repeat (split; [assumption|]). exact FP.
Qed.
(** C56 when no basis is given: the function finds one itself, and its test makes the order of the pairing full *)
Theorem C56_own_basis : forall fuel checks E imP imQ P Q fs s, let n := order_of fs in
  valid E -> 3 < n -> Z.odd n = true -> log_entries checks fs -> fcoprime fs -> prime_entries fs ->
  on_E E imP -> on_E E imQ -> found_basis fuel checks E fs n P Q -> 0 <= s -> kernel_images (coeff E) fs (affine P) (affine Q) s (affine imP) (affine imQ) ->
  compute_canonical_kernel fq_ops (dlp_fq checks) fuel checks E imP imQ fs None = Some (s mod n).
Proof.
  intros fuel c E imP imQ P Q fs s n V Hn On HL HC HF H1 H2 [T B] Hs K. destruct (C71_found fuel c E fs 634 P Q V HF Hn T B) as (OP & OQ & FP). assert (EQ : fprod fs = n) by (unfold n, order_of; clear; induction fs as [|[l e] r IH]; [reflexivity|]; cbn [fprod map fold_right fst snd]; rewrite IH; reflexivity).
  pose proof (C56_images fuel c E imP imQ P Q fs s V) as X. cbv zeta in X. rewrite EQ in X. specialize (X Hn On HL HC). assert (PR : Forall (fun f => prime (fst f)) fs) by (destruct HF as [_ HF]; revert HF; apply Forall_impl; intros f F; apply F).
  specialize (X PR OP OQ H1 H2 B FP Hs K). unfold compute_canonical_kernel in X |- *. change (Z.to_nat L_POWER) with 634%nat. rewrite T. exact X.
Qed.
(** a concrete basis of order 2^634: the one of the starting curve *)
Theorem C71_start : forall checks, exists P Q w, entangled_torsion_basis fq_ops root_fq E0 ((S_Fp.P + 1) / 2 ^ 634) = Some (P, Q) /\ n_basis (coeff E0) (2 ^ 634) (affine P) (affine Q) /\
  weil_pairing fq_ops checks E0 P Q (2 ^ 634) = Some w /\ qpow (fqv w) (2 ^ 633) = qopp q1.
Proof.
  intros c. destruct C61_basis as (P & Q & EB & OP & OQ & B). assert (H2 : 2 <= 634) by discriminate. destruct (C71_two_power c E0 P Q 634 E0_valid H2 OP OQ B) as (w & Ew & Hw & _). exists P, Q, w. split; [exact EB|]. split; [exact B|]. split; [exact Ew|exact Hw].
Qed.
Example C71_ex : forall checks, exists E P Q, valid E /\ prime_entries [(5, 1)] /\ on_E E P /\ on_E E Q /\ n_basis (coeff E) (order_of [(5, 1)]) (affine P) (affine Q) /\ independent_pair checks E [(5, 1)] P Q.
Proof.
  intros c. destruct ex5_some as (E & P & Q & X). exists E, P, Q. pose proof X as [V EA AP AQ OP OQ]. pose proof (ex5_basis E P Q X) as B. change (order_of [(5, 1)]) with 5. assert (H3 : 3 < 5) by lia.
  split; [exact V|]. split; [apply pe1; exact prime_5|]. split; [exact OP|]. split; [exact OQ|]. split; [exact B|]. destruct (ex5_weil E P Q X c) as (w & Ew & Ow). destruct B as (Z1 & Z2 & IN).
  assert (Z0 : forall p, padd_q (coeff E) None p = p) by (intros [[]|]; reflexivity).
  split; [|split; [|split; [exact OQ|split]]].
  - intros C. destruct (IN 1 4) as [D _]; [lia|lia| |apply Z.divide_pos_le in D; lia]. rewrite <- C, <- (pm_add V) by (exact OP || lia). exact Z1.
  - rewrite AQ. discriminate.
  - intros k Hk. change (order_of [(5, 1)]) with 5. split.
    + intros C. apply (IN 0 k); [lia|exact Hk|]. rewrite C. reflexivity.
    + intros [j ->]. rewrite Z.mul_comm. apply (pm_zero_mul V); [exact OQ|lia|lia|exact Z2].
  - exists w. split; [exact Ew|]. intros l e [C|[]]. injection C as <- <-. change (order_of [(5, 1)] / 5) with 1. apply Ow. lia.
Qed.
Print Assumptions C71_accepted. Print Assumptions C71_found. Print Assumptions C71_start. Print Assumptions C56_own_basis. Print Assumptions C71_ex.
(** x and y are the images of P' and Q' under the chain, and the points P, Q have these coordinates in (x, y), none of them zero *)
Definition image_coords (phi2 : list (isogeny fq)) (EA : curve fq) (P' Q' P Q : point fq) (a1 b1 a2 b2 : Z) : Prop :=
  exists X Y, eval_points fq_ops phi2 P' = Some X /\ eval_points fq_ops phi2 Q' = Some Y /\ coords (coeff EA) (affine X) (affine Y) (affine P) a1 b1 /\ coords (coeff EA) (affine X) (affine Y) (affine Q) a2 b2 /\
    0 < a1 < ed2 /\ 0 < b1 < ed2 /\ 0 < a2 < ed2 /\ 0 < b2 < ed2.
(** ** C69: what the secret key contains *)
Record secret_ok (checks : bool) (self : festa fq) (phi1 : list (isogeny fq)) (P' Q' : point fq) (a1 b1 a2 b2 : Z) (sk : secret_key fq) : Prop := {
  so_good : good_curve (sk_EA sk);
  so_on : on_E (sk_EA sk) (fst (sk_bd1 sk)) /\ on_E (sk_EA sk) (snd (sk_bd1 sk)) /\ on_E (sk_EA sk) (fst (sk_d2 sk)) /\ on_E (sk_EA sk) (snd (sk_d2 sk));
  (* the images of the sums of the stored bases *)
  so_im1 : eval_points fq_ops phi1 (add_pts fq_ops E0 (fst (fe_lb self)) (fst (fe_d1b self))) = Some (fst (sk_bd1 sk));
  so_im2 : exists S, eval_points fq_ops phi1 (add_pts fq_ops E0 (snd (fe_lb self)) (snd (fe_d1b self))) = Some S /\ same_up_to_sign (affine (snd (sk_bd1 sk))) (affine S);
  so_b1 : n_basis (coeff (sk_EA sk)) (2 ^ 634 * ed1) (affine (fst (sk_bd1 sk))) (affine (snd (sk_bd1 sk)));
  (* the coordinates of (P, Q) in the images of (P', Q'), all scaled by the same unit t and up to the signs of the images *)
  so_d2 : exists t s s', 0 <= t /\ Z.gcd t ed2 = 1 /\ (s = 1 \/ s = -1) /\ (s' = 1 \/ s' = -1) /\
    coords (coeff (sk_EA sk)) (affine P') (affine Q') (affine (fst (sk_d2 sk))) ((s * a1 * t) mod ed2) ((s' * b1 * t) mod ed2) /\
    coords (coeff (sk_EA sk)) (affine P') (affine Q') (affine (snd (sk_d2 sk))) ((s * a2 * t) mod ed2) ((s' * b2 * t) mod ed2);
  so_b2 : n_basis (coeff (sk_EA sk)) ed2 (affine (fst (sk_d2 sk))) (affine (snd (sk_d2 sk)));
  so_w2 : full_pairing checks (sk_EA sk) ed2 (affine (fst (sk_d2 sk))) (affine (snd (sk_d2 sk)));
  so_A : 0 <= fst (sk_A sk) /\ 0 <= snd (sk_A sk) /\ Z.odd (fst (sk_A sk)) = true /\ Z.odd (snd (sk_A sk)) = true }.
(** key generation does not panic and writes such a key *)
Theorem C69_keygen : forall fuel checks self r11 r22 rng phi1 EA' phi2 EA P' Q' P Q a1 b1 a2 b2,
  festa_new fq_ops root_fq fuel checks = Some self -> 0 <= r11 -> 0 <= r22 -> walks_ok fuel checks rng phi1 EA' phi2 EA ->
  n_basis (coeff E0) ed1 (affine (fst (fe_d1b self))) (affine (snd (fe_d1b self))) ->
  found_basis fuel checks EA' D2_FACTORED ed2 P' Q' -> found_basis fuel checks EA D2_FACTORED ed2 P Q -> image_coords phi2 EA P' Q' P Q a1 b1 a2 b2 ->
  exists pk sk, keygen fq_ops (dlp_fq checks) fuel checks self r11 r22 rng = Some (pk, sk) /\ pk_EA pk = EA /\ sk_EA sk = EA' /\ sk_A sk = (Z.lor r11 1, Z.lor r22 1) /\ secret_ok checks self phi1 P' Q' a1 b1 a2 b2 sk.
Proof.
  intros fuel checks self r11 r22 rng phi1 EA' phi2 EA P' Q' P Q a1 b1 a2 b2 HN Hr1 Hr2 [(rng1 & rng2 & W1 & W2) WK1 WK2] BD FB' FB (X0 & Y0 & EX0 & EY0 & CP & CQ & Ha1 & Hb1 & Ha2 & Hb2).
  destruct (C61_new _ _ _ HN) as (F0 & OL1 & OL2 & BL & _). destruct (C58_new _ _ _ _ _ _ HN) as (HL & HD1 & HD2 & _ & _ & SP). pose proof (new_inv _ _ _ _ _ _ HN) as (_ & _ & HD). rewrite F0 in *.
  pose proof (s_pos _ _ _ _ _ _ _ _ _ _ _ SP) as (C1 & C2 & C3 & _). pose proof (s_cd1 _ _ _ _ _ _ _ _ _ _ _ SP) as [V1 V1']. pose proof (s_cd2 _ _ _ _ _ _ _ _ _ _ _ SP) as [V2 V2']. pose proof (s_clb _ _ _ _ _ _ _ _ _ _ _ SP) as [V3 V3']. clear SP.
  assert (OD : on_E E0 (fst (fe_d1b self)) /\ on_E E0 (snd (fe_d1b self))) by (destruct (fe_d1b self) as [D1P D1Q]; destruct (basis_killed _ _ _ _ _ _ E0_valid D1_lib C61_group HD) as [[OD1 _] [OD2 _]]; split; assumption). destruct OD as [OD1 OD2].
  destruct DA_lib as [LA1 LA2]. destruct gcds as (G1 & G2 & G3 & G4 & G5). destruct e_pos as (e1p & e2p & _). destruct (D2_entries checks) as (LE & FC & _ & FD & D23). assert (O2 : Z.odd ed2 = true) by (destruct e_odd as (_ & X & _); exact X).
  assert (P0 : 0 < 2 ^ 634) by reflexivity. assert (N1 : 3 < 2 ^ 634 * ed1) by (assert (4 <= 2 ^ 634) by discriminate; clear - H e1p; revert H e1p; generalize (2 ^ 634), ed1; intros; nia). assert (N2 : 3 < 2 ^ 634 * ed2) by (assert (4 <= 2 ^ 634) by discriminate; clear - H e2p; revert H e2p; generalize (2 ^ 634), ed2; intros; nia).
  assert (N1' : 0 < 2 ^ 634 * ed1) by (clear - N1; lia). assert (N2' : 0 < 2 ^ 634 * ed2) by (clear - N2; lia).
  destruct (walk_keeps _ _ _ _ _ (2 ^ 634 * ed1) (proj1 LA1) N1' G3 C60_E0_good WK1) as [g' K1]. destruct (walk_keeps _ _ _ _ _ (2 ^ 634 * ed2) (proj1 LA2) N2' G4 g' WK2) as [g K2].
  destruct (walk_keeps _ _ _ _ _ (2 ^ 634) (proj1 LA1) P0 (gcd_pow2_degree _ LA1) C60_E0_good WK1) as [_ K1l]. destruct (walk_keeps _ _ _ _ _ (2 ^ 634) (proj1 LA2) P0 (gcd_pow2_degree _ LA2) g' WK2) as [_ K2l].
  destruct (walk_keeps _ _ _ _ _ ed2 (proj1 LA2) e2p G5 g' WK2) as [_ K2d]. pose proof (proj1 g') as VE'. pose proof (proj1 g) as VE. pose proof (walk_linked _ _ _ _ _ WK1) as LK1. pose proof (walk_linked _ _ _ _ _ WK2) as LK2.
  destruct (found_D2 _ _ _ _ _ VE' FB') as (T' & OP' & OQ' & B' & FP'). destruct (found_D2 _ _ _ _ _ VE FB) as (T & OP & OQ & B & FP). clear FB FB'.
  (* first walk *)
  set (S1 := add2 fq_ops E0 (fe_lb self) (fe_d1b self)). destruct (C29_add E0 _ _ E0_valid OL1 OD1) as [OS1 AS1]. destruct (C29_add E0 _ _ E0_valid OL2 OD2) as [OS2 AS2].
  assert (BS : n_basis (coeff E0) (2 ^ 634 * ed1) (affine (fst S1)) (affine (snd S1))) by exact (sum_basis E0 (2 ^ 634) ed1 _ _ _ _ _ _ E0_valid P0 e1p G1 OL1 OL2 OD1 OD2 BL BD AS1 AS2).
  destruct (chain_total checks E0 EA' phi1 (2 ^ 634 * ed1) (big32 DA1) S1 E0_valid VE' LK1 K1 N1 OS1 OS2 BS) as (im1 & EC1).
  destruct (chain_kept checks E0 EA' phi1 (2 ^ 634 * ed1) _ _ S1 im1 E0_valid VE' LK1 K1 N1' OS1 OS2 BS EC1) as (OI1 & OI2 & BI & EI1 & EI2).
  destruct (mul2_total EA' im1 (fe_clear_d1 self) VE' OI1 OI2 C1) as (imb1 & EM1). pose proof BD as (ZD1 & ZD2 & _).
  destruct (stage checks E0 EA' phi1 (2 ^ 634) ed1 _ _ (fe_clear_d1 self) (fe_lb self) (fe_d1b self) im1 E0_valid VE' LK1 K1l P0 e1p C1 V1 V1' OL1 OL2 BL OD1 OD2 ZD1 ZD2 EC1) as (_ & _ & Bb & _).
  destruct (mul2_ok EA' im1 _ imb1 VE' OI1 OI2 C1 EM1) as (Ob1 & Ob2 & Ab1 & Ab2). rewrite <- Ab1, <- Ab2 in Bb.
  (* second walk *)
  set (S2 := add2 fq_ops EA' imb1 (P', Q')). destruct (C29_add EA' _ _ VE' Ob1 OP') as [OS3 AS3]. destruct (C29_add EA' _ _ VE' Ob2 OQ') as [OS4 AS4].
  assert (BS2 : n_basis (coeff EA') (2 ^ 634 * ed2) (affine (fst S2)) (affine (snd S2))) by exact (sum_basis EA' (2 ^ 634) ed2 _ _ _ _ _ _ VE' P0 e2p G2 Ob1 Ob2 OP' OQ' Bb B' AS3 AS4).
  destruct (chain_total checks EA' EA phi2 (2 ^ 634 * ed2) (big32 DA2) S2 VE' VE LK2 K2 N2 OS3 OS4 BS2) as (im2 & EC2). pose proof B' as (ZP' & ZQ' & _). pose proof Bb as (Zb1 & Zb2 & _).
  destruct (stage checks EA' EA phi2 (2 ^ 634) ed2 _ _ (fe_clear_d2 self) imb1 (P', Q') im2 VE' VE LK2 K2l P0 e2p C2 V2 V2' Ob1 Ob2 Bb OP' OQ' ZP' ZQ' EC2) as (OJ1 & OJ2 & Bc & _).
  destruct (stage_swap checks EA' EA phi2 ed2 (2 ^ 634) _ _ (fe_clear_lb self) (P', Q') imb1 im2 VE' VE LK2 K2d e2p P0 C3 V3 V3' OP' OQ' B' Ob1 Ob2 Zb1 Zb2 EC2) as (_ & _ & Bd & fT & fU & HT & HU & OT & OU & ST & SU).
  cbn [fst snd] in HT, HU. rewrite EX0 in HT. injection HT as <-. rewrite EY0 in HU. injection HU as <-.
  destruct (mul2_total EA im2 (fe_clear_d2 self) VE OJ1 OJ2 C2) as (imb2 & EM2). destruct (mul2_ok EA im2 _ imb2 VE OJ1 OJ2 C2 EM2) as (Oc1 & Oc2 & Ac1 & Ac2). rewrite <- Ac1, <- Ac2 in Bc.
  destruct (mul2_total EA im2 (fe_clear_lb self) VE OJ1 OJ2 C3) as (imd2 & EM3). destruct (mul2_ok EA im2 _ imd2 VE OJ1 OJ2 C3 EM3) as (Od1 & Od2 & Ad1 & Ad2). rewrite <- Ad1, <- Ad2 in Bd. rewrite <- Ad1 in ST. rewrite <- Ad2 in SU.
  (* coordinates *)
  assert (ZX : pmul_q (coeff EA) ed2 (affine X0) = None /\ pmul_q (coeff EA) ed2 (affine Y0) = None) by (destruct (k_basis _ _ _ _ K2d P' Q' X0 Y0 OP' OQ' EX0 EY0 B') as (A1 & A2 & _); split; assumption). destruct ZX as [ZX0 ZY0].
  destruct (sign_coords EA ed2 _ X0 VE e2p OT ZX0 ST) as (s & Hs & SC). destruct (sign_coords EA ed2 _ Y0 VE e2p OU ZY0 SU) as (s' & Hs' & SC').
  assert (CP2 : coords (coeff EA) (affine (fst imd2)) (affine (snd imd2)) (affine P) ((s * a1) mod ed2) ((s' * b1) mod ed2)) by (unfold coords in *; rewrite (proj1 (SC a1 Ha1)), (proj1 (SC' b1 Hb1)); exact CP).
  assert (CQ2 : coords (coeff EA) (affine (fst imd2)) (affine (snd imd2)) (affine Q) ((s * a2) mod ed2) ((s' * b2) mod ed2)) by (unfold coords in *; rewrite (proj1 (SC a2 Ha2)), (proj1 (SC' b2 Hb2)); exact CQ).
  destruct (FP P Q OP OQ eq_refl eq_refl) as (w & Ew & Ow). pose proof (proj2 (SC a1 Ha1)) as R1. pose proof (proj2 (SC' b1 Hb1)) as R2. pose proof (proj2 (SC a2 Ha2)) as R3. pose proof (proj2 (SC' b2 Hb2)) as R4.
  pose proof (second_half checks EA D2_FACTORED VE) as SH. pose proof (image_basis EA' EA D2_FACTORED VE' VE) as IB. pose proof (image_pairing checks EA' EA D2_FACTORED VE' VE) as IP. rewrite FD in SH, IB, IP.
  destruct (SH D23 O2 LE FC (fst imd2) (snd imd2) P Q Od1 Od2 Bd OP OQ B _ _ _ _ R1 R2 R3 R4 CP2 CQ2 w Ew Ow) as (t & Ht & Gt & GD & E1 & E2).
  assert (M := fun x => proj1 (Z.mod_pos_bound x ed2 e2p)).
  destruct (comb_ok EA' (P', Q') (((s * a1) mod ed2 * t) mod ed2, ((s' * b1) mod ed2 * t) mod ed2) VE' OP' OQ' (M _) (M _)) as (I1 & EI & OI & CI). destruct (comb_ok EA' (P', Q') (((s * a2) mod ed2 * t) mod ed2, ((s' * b2) mod ed2 * t) mod ed2) VE' OP' OQ' (M _) (M _)) as (J1 & EJ & OJ & CJ). cbn [fst snd] in CI, CJ.
  destruct (lor1_odd _ Hr1) as [M1 Q1]. destruct (lor1_odd _ Hr2) as [M2 Q2].
  destruct (C31_mul_big EA _ (Z.lor r11 1) VE Oc1 M1) as (R & ER & OR & AR). destruct (C31_mul_big EA _ (Z.lor r22 1) VE Oc2 M2) as (S & ES & OS & AS).
  assert (BR : n_basis (coeff EA) (2 ^ 634) (affine R) (affine S)) by (rewrite AR, AS; apply (basis_mul VE); try assumption; apply odd_gcd; assumption).
  destruct (basis_exact EA (2 ^ 634) R S VE ltac:(reflexivity) OR OS BR) as [XR XS].
  pose proof (keygen_intro _ fq_ops (dlp_fq checks) fuel checks self r11 r22 rng phi1 EA' rng1 phi2 EA rng2 (P', Q') im1 imb1 im2 imb2 imd2 (P, Q) w (((s * a1) mod ed2 * t) mod ed2, ((s' * b1) mod ed2 * t) mod ed2) (((s * a2) mod ed2 * t) mod ed2, ((s' * b2) mod ed2 * t) mod ed2) I1 J1 R S) as KI. rewrite F0, HL, HD1, HD2 in KI.
  specialize (KI W1 W2 T' EC1 EM1 EC2 EM2 EM3 T Ew E1 E2 EI EJ ER ES (dbg_total checks EA R VE OR XR) (dbg_total checks EA S VE OS XS)).
  eexists. eexists. split; [exact KI|]. cbn [pk_EA sk_EA sk_A]. split; [reflexivity|]. split; [reflexivity|]. split; [reflexivity|].
  split; cbn [sk_EA sk_bd1 sk_d2 sk_A fst snd].
  - exact g'.
  - split; [exact OI1|]. split; [exact OI2|]. split; [exact OI|exact OJ].
  - exact EI1.
  - exact EI2.
  - exact BI.
  - exists t, s, s'. split; [exact Ht|]. split; [exact Gt|]. split; [exact Hs|]. split; [exact Hs'|]. rewrite !Z.mul_mod_idemp_l in CI, CJ by (clear - e2p; lia). split; [exact CI|exact CJ].
  - exact (IB D23 P' Q' (fst imd2) (snd imd2) P Q OP' OQ' B' Od1 Od2 Bd B _ _ _ _ R1 R2 R3 R4 CP2 CQ2 t Gt I1 J1 Ht OI OJ CI CJ).
  - exact (IP D23 P' Q' (fst imd2) (snd imd2) P Q OP' OQ' B' Od1 Od2 Bd B _ _ _ _ R1 R2 R3 R4 CP2 CQ2 t Gt GD I1 J1 Ht OI OJ CI CJ FP').
  - split; [exact M1|]. split; [exact M2|]. split; [exact Q1|exact Q2].
Qed.
Print Assumptions C69_keygen.

(** ** C69: decryption of an encryption *)
Local Notation "k *[ E ] p" := (pmul_q (coeff E) k (affine p)) (at level 35, p at level 30).
(** a masked point sent through an isogeny, masked again and unmasked *)
Lemma unmask_side E C f ker a b V R X R2 : valid E -> valid C -> x_isogeny E C f ker -> ker None -> on_E E V -> on_E E R -> on_E C R2 -> 2 ^ 634 *[E] V = None -> same_up_to_sign (affine R) (a *[E] V) -> f R = Some X -> same_up_to_sign (affine R2) (b *[C] X) ->
  0 <= a -> Z.odd a = true -> 0 <= b -> 2 ^ 634 *[C] R2 = None ->
  exists i F U, f V = Some F /\ on_E C U /\ affine R2 = a *[C] U /\ same_up_to_sign (affine U) (b *[C] F) /\ 0 <= i /\ Z.gcd i (2 ^ 634) = 1 /\ affine U = i *[C] R2.
Proof.
  intros VE VC XI K0 OV OR OR2 ZV SR EX SR2 Ha Oa Hb ZR2. assert (P0 : 0 < 2 ^ 634) by reflexivity.
  destruct (Zis_gcd_bezout _ _ _ (Zgcd_is_gcd a (2 ^ 634))) as [x y Hxy]. rewrite (odd_gcd a Oa) in Hxy. set (i := x mod 2 ^ 634). pose proof (Z.mod_pos_bound x (2 ^ 634) P0) as Bi. fold i in Bi.
  assert (D : exists z, i * a = 1 + z * 2 ^ 634) by (destruct (modd x (2 ^ 634) P0) as [q Eq]; fold i in Eq; exists (- y - q * a); clear - Hxy Eq; rewrite Eq; lia). destruct D as [z Hz].
  assert (Gi : Z.gcd i (2 ^ 634) = 1) by (apply Z.bezout_1_gcd; exists a, (- z); clear - Hz; lia). assert (Hi : 0 <= i) by (clear - Bi; lia).
  assert (CN : forall (Y : point fq), on_E C Y -> 2 ^ 634 *[C] Y = None -> (i * a) *[C] Y = affine Y).
  { intros Y OY ZY. assert (NA : 0 <= i * a) by (apply Z.mul_nonneg_nonneg; assumption). rewrite (P_Recover.pm_mod VC (2 ^ 634) (i * a) (affine Y) P0 NA OY ZY). rewrite Hz, Z.mod_add by discriminate. reflexivity. }
  destruct (xi_total _ _ _ _ XI V OV) as (F & EF & OF). destruct (xi_total _ _ _ _ XI R OR) as (X' & EX' & OX). rewrite EX in EX'. injection EX' as <-.
  assert (ZF : 2 ^ 634 *[C] F = None).
  { assert (OI : on_E E (infinity fq_ops)) by (unfold on_E; rewrite C29_infinity; exact I). destruct (xi_total _ _ _ _ XI _ OI) as (N & EN & ON). assert (AN : affine N = None) by (apply (xi_ker _ _ _ _ XI _ _ OI EN); rewrite C29_infinity; exact K0).
    pose proof (xi_mul _ _ _ _ XI V (infinity fq_ops) (2 ^ 634) F N OV ltac:(clear - P0; lia) ltac:(rewrite C29_infinity; symmetry; exact ZV) EF EN) as S0. rewrite AN in S0. apply sign_sym in S0. destruct S0 as [S0|S0]; rewrite S0; reflexivity. }
  assert (SX : same_up_to_sign (affine X) (a *[C] F)).
  { destruct (C31_mul_big E V a VE OV Ha) as (T & _ & OT & AT). destruct (xi_total _ _ _ _ XI T OT) as (G & EG & OG). rewrite <- AT in SR. eapply sign_trans; [exact (xi_sign _ _ _ _ XI R T X G OR OT SR EX EG)|]. exact (xi_mul _ _ _ _ XI V T a F G OV Ha AT EF EG). }
  destruct (C31_mul_big C R2 i VC OR2 Hi) as (U & _ & OU & AU). exists i, F, U. split; [exact EF|]. split; [exact OU|]. split.
  - rewrite AU, (pm_mul VC) by (try assumption). rewrite Z.mul_comm. symmetry. apply CN; assumption.
  - split; [|split; [exact Hi|split; [exact Gi|exact AU]]]. rewrite AU. destruct (C31_mul_big C X b VC OX Hb) as (bX & _ & ObX & AbX). rewrite <- AbX in SR2. eapply sign_trans; [apply sign_mul; [exact VC|exact Hi|exact ObX|exact SR2]|].
    rewrite AbX, (pm_mul VC) by assumption. destruct (C31_mul_big C F a VC OF Ha) as (aF & _ & OaF & AaF). rewrite <- AaF in SX. assert (Hib : 0 <= i * b) by (apply Z.mul_nonneg_nonneg; assumption).
    eapply sign_trans; [apply sign_mul; [exact VC|exact Hib|exact OaF|exact SX]|]. rewrite AaF, (pm_mul VC) by assumption. replace (i * b * a) with (b * (i * a)) by ring. rewrite <- (pm_mul VC) by (try assumption; apply Z.mul_nonneg_nonneg; assumption). rewrite CN by assumption. left. reflexivity.
Qed.
(** the isogeny of E1 x E2 with kernel generated by (R1, g2*U) and (S1, g2*W) sends (P1 + R1, P2) and (Q1 + S1, Q2) to points which, on the factor EA', carry the message: the hypothesis of C67_inverse *)
Definition isogeny_carries (checks : bool) (self : festa fq) (sk : secret_key fq) (c : trapdoor_output fq) (U W P1 Q1 P2 Q2 : point fq) (s1 s2 b : Z) : Prop := let E1 := to_E1 c in let E2 := to_E2 c in
  forall gP2 gQ2 T1 T2, on_E E2 gP2 -> on_E E2 gQ2 -> affine gP2 = fe_g2 self *[E2] U -> affine gQ2 = fe_g2 self *[E2] W ->
     on_E E1 T1 -> on_E E1 T2 -> affine T1 = padd_q (coeff E1) (affine P1) (affine (to_R1 c)) -> affine T2 = padd_q (coeff E1) (affine Q1) (affine (to_S1 c)) ->
     exists EE imgs L1 L2, product_isogeny fq_ops (mkEprod E1 E2) (mkCouple (to_R1 c) gP2) (mkCouple (to_S1 c) gQ2) [mkCouple T1 P2; mkCouple T2 Q2] 632 THETA_STRATEGY = Some (EE, imgs) /\
       select_factor fq_ops checks EE imgs (sk_EA sk) = Some (L1, L2) /\ carries self sk s1 s2 b L1 L2.
(** messages as produced by the library: s_i modulo d_i, the diagonal matrix (b, 1/b) with the smaller of b and -b *)
Record message_ok (m : trapdoor_input) : Prop := {
  m_s1 : 0 <= ti_s1 m < ed1; m_s2 : 0 <= ti_s2 m < ed2;
  m_b : 0 < fst (ti_B m) <= 2 ^ 633; m_odd : Z.odd (fst (ti_B m)) = true;
  m_y : 0 < snd (ti_B m) < 2 ^ 634; m_inv : (2 ^ 634 | fst (ti_B m) * snd (ti_B m) - 1) }.
Lemma message_odd m : message_ok m -> Z.odd (snd (ti_B m)) = true.
Proof. intros M. destruct (m_inv _ M) as [z Hz]. assert (E : Z.odd (fst (ti_B m) * snd (ti_B m)) = true) by (replace (fst (ti_B m) * snd (ti_B m)) with (1 + 2 * (z * 2 ^ 633)) by (change (2 ^ 634) with (2 * 2 ^ 633) in Hz; clear - Hz; lia); rewrite Z.odd_add, Z.odd_mul; reflexivity). rewrite Z.odd_mul in E. apply andb_prop in E. apply E. Qed.
Lemma inverse_unique b y y' : 0 < y < 2 ^ 634 -> 0 < y' < 2 ^ 634 -> Z.odd b = true -> (2 ^ 634 | b * y - 1) -> (2 ^ 634 | b * y' - 1) -> y = y'.
Proof.
  intros B1 B2 Ob D1 D2. assert (D : (2 ^ 634 | b * (y - y'))) by (replace (b * (y - y')) with ((b * y - 1) - (b * y' - 1)) by ring; apply Z.divide_sub_r; assumption).
  apply Z.gauss in D; [|rewrite Z.gcd_comm; apply odd_gcd; exact Ob]. destruct D as [z Hz]. revert Hz B1 B2. generalize (2 ^ 634). intros l Hz B1 B2. assert (z = 0) by nia. subst z. lia.
Qed.
(** what the scheme does with a secret key depends on its curve, the affine points and the matrix only *)
Lemma key_ok_same checks sk sk' : same_key sk sk' -> key_ok checks sk -> key_ok checks sk'.
Proof.
  intros (E1 & E2 & E3 & E4 & E5 & E6) [K1 K2 K3 K4 K5 K6 K7]. unfold on_E in K2. split; unfold on_E; rewrite ?E1, ?E2, ?E3, ?E4, ?E5, ?E6; assumption.
Qed.
Lemma isogeny_carries_same checks self sk sk' : same_key sk sk' -> forall c U W P1 Q1 P2 Q2 s1 s2 b, isogeny_carries checks self sk c U W P1 Q1 P2 Q2 s1 s2 b -> isogeny_carries checks self sk' c U W P1 Q1 P2 Q2 s1 s2 b.
Proof.
  intros (E1 & E2 & E3 & E4 & E5 & _) c U W P1 Q1 P2 Q2 s1 s2 b H gP2 gQ2 T1 T2 X1 X2 X3 X4 X5 X6 X7 X8. destruct (H gP2 gQ2 T1 T2 X1 X2 X3 X4 X5 X6 X7 X8) as (EE & imgs & L1 & L2 & Y1 & Y2 & Y3). exists EE, imgs, L1, L2. split; [exact Y1|]. rewrite E1. split; [exact Y2|].
  unfold carries in *. cbv zeta in *. rewrite E1, E2, E3, E4, E5. exact Y3.
Qed.
(** ** C76: any copy of the secret key (same curve, points and matrix) decrypts any copy of the ciphertext; C69_roundtrip is the case of the originals *)
Theorem C76_copies : forall fuel checks self r11 r22 rng phi1 EA' phi2 EA P' Q' P Q a1 b1 a2 b2 pk sk m,
  festa_new fq_ops root_fq fuel checks = Some self -> 0 <= r11 -> 0 <= r22 -> walks_ok fuel checks rng phi1 EA' phi2 EA ->
  n_basis (coeff E0) ed1 (affine (fst (fe_d1b self))) (affine (snd (fe_d1b self))) ->
  found_basis fuel checks EA' D2_FACTORED ed2 P' Q' -> found_basis fuel checks EA D2_FACTORED ed2 P Q -> image_coords phi2 EA P' Q' P Q a1 b1 a2 b2 ->
  keygen fq_ops (dlp_fq checks) fuel checks self r11 r22 rng = Some (pk, sk) ->
  full_pairing checks EA' ed1 (2 ^ 634 *[EA'] fst (sk_bd1 sk)) (2 ^ 634 *[EA'] snd (sk_bd1 sk)) -> message_ok m ->
  exists c U W, trapdoor_eval fq_ops fuel checks self pk m = Some c /\ on_E (to_E2 c) U /\ on_E (to_E2 c) W /\
    (valid (to_E1 c) /\ valid (to_E2 c) /\ n_basis (coeff (to_E1 c)) (2 ^ 634) (affine (to_R1 c)) (affine (to_S1 c)) /\ n_basis (coeff (to_E2 c)) (2 ^ 634) (affine (to_R2 c)) (affine (to_S2 c))) /\
    (* U and W: the images of the stored basis under the secret walks and then an isogeny with kernel P + s2*Q, masked by the message alone *)
    (exists f V V' F F', x_isogeny EA (to_E2 c) f (scalar_kernel EA P Q (ti_s2 m)) /\ eval_points fq_ops (phi1 ++ phi2) (fst (fe_lb self)) = Some V /\ eval_points fq_ops (phi1 ++ phi2) (snd (fe_lb self)) = Some V' /\
      f V = Some F /\ f V' = Some F' /\ same_up_to_sign (affine U) (fst (ti_B m) *[to_E2 c] F) /\ same_up_to_sign (affine W) (snd (ti_B m) *[to_E2 c] F')) /\
    forall c' sk', same_output c c' -> same_key sk sk' -> forall P1 Q1 P2 Q2, torsion_basis fq_ops fuel checks (to_E1 c') D1_FACTORED 634 = Some (P1, Q1) -> torsion_basis fq_ops fuel checks (to_E2 c') D2_FACTORED 634 = Some (P2, Q2) -> on_E (to_E1 c') P1 -> on_E (to_E1 c') Q1 ->
      (checks = true -> pairings_cancel checks (to_E1 c') (to_E2 c') (affine (to_R1 c')) (affine (to_S1 c')) (fe_g2 self *[to_E2 c'] U) (fe_g2 self *[to_E2 c'] W)) ->
      isogeny_carries checks self sk c' U W P1 Q1 P2 Q2 (ti_s1 m) (ti_s2 m) (fst (ti_B m)) ->
      trapdoor_inverse fq_ops (dlp_fq checks) fuel checks self c' sk' = Some m.
Proof.
  intros fuel checks self r11 r22 rng phi1 EA' phi2 EA P' Q' P Q a1 b1 a2 b2 pk sk m HN Hr1 Hr2 WO BD FB' FB IC HK FP1 MO.
  destruct (C69_keygen fuel checks self r11 r22 rng phi1 EA' phi2 EA P' Q' P Q a1 b1 a2 b2 HN Hr1 Hr2 WO BD FB' FB IC) as (pk' & sk' & HK' & EPK & ESK & EAk & SO). rewrite HK in HK'. apply some_inj in HK'. apply pair_equal_spec in HK'. destruct HK' as [<- <-].
  destruct WO as [(rng1 & rng2 & W1 & W2) WK1 WK2]. assert (VEs : valid EA' /\ valid EA) by (assert (P0 : 0 < 2 ^ 634) by reflexivity; destruct DA_lib as [LA1 LA2]; destruct (walk_keeps _ _ _ _ _ (2 ^ 634) (proj1 LA1) P0 (gcd_pow2_degree _ LA1) C60_E0_good WK1) as [g' _]; destruct (walk_keeps _ _ _ _ _ (2 ^ 634) (proj1 LA2) P0 (gcd_pow2_degree _ LA2) g' WK2) as [g _]; split; [exact (proj1 g')|exact (proj1 g)]). destruct VEs as [VE' VE].
  destruct (found_D2 _ _ _ _ _ VE' FB') as (T' & OP' & OQ' & B' & _). destruct (found_D2 _ _ _ _ _ VE FB) as (T & OP & OQ & B & _). pose proof B' as (ZP' & ZQ' & _).
  pose proof (C64_keygen (dlp_fq checks) fuel checks self r11 r22 rng pk sk phi1 EA' rng1 phi2 EA rng2 P' Q' HN Hr1 Hr2 HK W1 WK1 W2 WK2 T' OP' OQ') as KG. rewrite order_D2 in KG. specialize (KG ZP' ZQ').
  destruct KG as (_ & _ & gA & ORA & OSA & BRS & Oa1 & Oa2 & (V1 & V2 & EV1 & EV2 & OV1 & OV2 & SV1 & SV2)). rewrite <- EPK in T, OP, OQ, B.
  pose proof (new_inv _ _ _ _ _ _ HN) as (_ & _ & HD). destruct (C61_new _ _ _ HN) as (F0 & OL1 & OL2 & BL & _). rewrite F0 in HD. rewrite (surjective_pairing (fe_d1b self)) in HD.
  destruct (basis_killed _ _ _ _ _ _ E0_valid D1_lib C61_group HD) as [[OD1 _] [OD2 _]]. pose proof (m_s1 _ MO) as Hs1. pose proof (m_s2 _ MO) as Hs2. pose proof (m_b _ MO) as Hb. pose proof (m_y _ MO) as Hy. pose proof (m_odd _ MO) as Ob. pose proof (message_odd _ MO) as Oy.
  pose proof (C64_eval fuel checks self pk m (fst (fe_d1b self)) (snd (fe_d1b self)) P Q HN) as EV. cbv zeta in EV. rewrite order_D1, order_D2, EPK in EV. rewrite EPK in T, OP, OQ, B.
  destruct (EV gA ORA OSA BRS HD OD1 OD2 BD T OP OQ B ltac:(clear - Hs1; lia) ltac:(clear - Hs2; lia) ltac:(clear - Hb; lia) ltac:(clear - Hy; lia) Ob Oy) as (c & EC & MI1 & MI2). clear EV.
  destruct MI1 as (g1 & OR1 & OS1 & BR1 & _). destruct MI2 as (g2 & OR2 & OS2 & BR2 & (f & X & Y & XI & EX & EY & AR2 & AS2)). pose proof (proj1 gA) as VA. pose proof (proj1 g2) as V2'. pose proof (proj1 g1) as V1'.
  (* the points V1, V2 are killed by 2^634 *)
  assert (ZV : 2 ^ 634 *[EA] V1 = None /\ 2 ^ 634 *[EA] V2 = None).
  { destruct DA_lib as [LA1 LA2]. assert (P0 : 0 < 2 ^ 634) by reflexivity. destruct (walk_keeps _ _ _ _ _ (2 ^ 634) (proj1 LA1) P0 (gcd_pow2_degree _ LA1) C60_E0_good WK1) as [g' K1]. destruct (walk_keeps _ _ _ _ _ (2 ^ 634) (proj1 LA2) P0 (gcd_pow2_degree _ LA2) g' WK2) as [_ K2].
    rewrite eval_app in EV1, EV2. apply obind_inv in EV1. destruct EV1 as (f1 & F1 & EV1). apply obind_inv in EV2. destruct EV2 as (f2 & F2 & EV2). pose proof (k_basis _ _ _ _ K1 _ _ f1 f2 OL1 OL2 F1 F2 BL) as B1.
    destruct (k_total _ _ _ _ K1 _ OL1) as (f1' & F1' & Of1). rewrite F1 in F1'. apply some_inj in F1'. subst f1'. destruct (k_total _ _ _ _ K1 _ OL2) as (f2' & F2' & Of2). rewrite F2 in F2'. apply some_inj in F2'. subst f2'.
    destruct (k_basis _ _ _ _ K2 _ _ V1 V2 Of1 Of2 EV1 EV2 B1) as (A1 & A2 & _). split; assumption. }
  destruct ZV as [ZV1 ZV2]. destruct (so_A _ _ _ _ _ _ _ _ _ _ SO) as (A1 & A2 & A3 & A4). assert (K0 : scalar_kernel EA P Q (ti_s2 m) None). { exists 0. split; [clear; lia|]. reflexivity. }
  pose proof BR2 as (ZR2 & ZS2 & _).
  destruct (unmask_side EA (to_E2 c) f _ (fst (sk_A sk)) (fst (ti_B m)) V1 (pk_RA pk) X (to_R2 c) VA V2' XI K0 OV1 ORA OR2 ZV1 SV1 EX (or_introl AR2) A1 A3 ltac:(clear - Hb; lia) ZR2) as (i1 & F & U & EF & OU & AU & SU & Hi1 & Gi1 & IU).
  destruct (unmask_side EA (to_E2 c) f _ (snd (sk_A sk)) (snd (ti_B m)) V2 (pk_SA pk) Y (to_S2 c) VA V2' XI K0 OV2 OSA OS2 ZV2 SV2 EY AS2 A2 A4 ltac:(clear - Hy; lia) ZS2) as (i2 & F' & W & EF' & OW & AW & SW & Hi2 & Gi2 & IW).
  assert (BUW : n_basis (coeff (to_E2 c)) (2 ^ 634) (affine U) (affine W)) by (rewrite IU, IW; apply (basis_mul V2'); try assumption; reflexivity).
  exists c, U, W. split; [exact EC|]. split; [exact OU|]. split; [exact OW|]. split; [auto|]. split.
  { exists f, V1, V2, F, F'. split; [exact XI|]. split; [exact EV1|]. split; [exact EV2|]. split; [exact EF|]. split; [exact EF'|]. split; [exact SU|exact SW]. }
  intros c' sk' SC SK P1 Q1 P2 Q2 T1 T2 OP1 OQ1 PC HX.
  assert (KO : key_ok checks sk).
  { split; rewrite ?ESK.
    - rewrite <- ESK. exact (proj1 (so_good _ _ _ _ _ _ _ _ _ _ SO)).
    - rewrite <- ESK. exact (so_on _ _ _ _ _ _ _ _ _ _ SO).
    - rewrite <- ESK. exact (so_b1 _ _ _ _ _ _ _ _ _ _ SO).
    - rewrite <- ESK. exact (so_b2 _ _ _ _ _ _ _ _ _ _ SO).
    - exact FP1.
    - pose proof (so_w2 _ _ _ _ _ _ _ _ _ _ SO) as X2. rewrite ESK in X2. exact X2.
    - exact (so_A _ _ _ _ _ _ _ _ _ _ SO). }
  apply (key_ok_same _ _ _ SK) in KO. apply (isogeny_carries_same _ _ _ _ SK) in HX. pose proof SK as (_ & _ & _ & _ & _ & EAA). rewrite <- EAA in AU, AW.
  pose proof SC as (C1 & C2 & C3 & C4 & C5 & C6). unfold on_E in OR1, OS1, OR2, OS2. rewrite <- C1 in V1', OR1, OS1, BR1. rewrite <- C2 in OR1, BR1. rewrite <- C3 in OS1, BR1. rewrite <- C4 in V2', OU, OW, BUW, AU, AW, OR2, OS2. rewrite <- C5 in AU, OR2. rewrite <- C6 in AW, OS2.
  destruct (C67_inverse root_fq fuel fuel checks self sk' c' U W P1 Q1 P2 Q2 (ti_s1 m) (ti_s2 m) (fst (ti_B m)) HN KO V1' OR1 OS1 BR1 V2' OR2 OS2 OU OW BUW AU AW T1 T2 OP1 OQ1 PC HX ltac:(clear - Hs1; lia) ltac:(clear - Hs2; lia) Hb Ob) as (y & EI & By & Dy).
  rewrite EI. rewrite (Z.mod_small (ti_s1 m) ed1 Hs1), (Z.mod_small (ti_s2 m) ed2 Hs2). rewrite (inverse_unique (fst (ti_B m)) y (snd (ti_B m)) By Hy Ob Dy (m_inv _ MO)). destruct m as [x1 x2 [x3 x4]]. reflexivity.
Qed.
Theorem C69_roundtrip : forall fuel checks self r11 r22 rng phi1 EA' phi2 EA P' Q' P Q a1 b1 a2 b2 pk sk m,
  festa_new fq_ops root_fq fuel checks = Some self -> 0 <= r11 -> 0 <= r22 -> walks_ok fuel checks rng phi1 EA' phi2 EA ->
  n_basis (coeff E0) ed1 (affine (fst (fe_d1b self))) (affine (snd (fe_d1b self))) ->
  found_basis fuel checks EA' D2_FACTORED ed2 P' Q' -> found_basis fuel checks EA D2_FACTORED ed2 P Q -> image_coords phi2 EA P' Q' P Q a1 b1 a2 b2 ->
  keygen fq_ops (dlp_fq checks) fuel checks self r11 r22 rng = Some (pk, sk) ->
  full_pairing checks EA' ed1 (2 ^ 634 *[EA'] fst (sk_bd1 sk)) (2 ^ 634 *[EA'] snd (sk_bd1 sk)) -> message_ok m ->
  exists c U W, trapdoor_eval fq_ops fuel checks self pk m = Some c /\ on_E (to_E2 c) U /\ on_E (to_E2 c) W /\
    (* U and W: the images of the stored basis under the secret walks and then an isogeny with kernel P + s2*Q, masked by the message alone *)
    (exists f V V' F F', x_isogeny EA (to_E2 c) f (scalar_kernel EA P Q (ti_s2 m)) /\ eval_points fq_ops (phi1 ++ phi2) (fst (fe_lb self)) = Some V /\ eval_points fq_ops (phi1 ++ phi2) (snd (fe_lb self)) = Some V' /\
      f V = Some F /\ f V' = Some F' /\ same_up_to_sign (affine U) (fst (ti_B m) *[to_E2 c] F) /\ same_up_to_sign (affine W) (snd (ti_B m) *[to_E2 c] F')) /\
    forall P1 Q1 P2 Q2, torsion_basis fq_ops fuel checks (to_E1 c) D1_FACTORED 634 = Some (P1, Q1) -> torsion_basis fq_ops fuel checks (to_E2 c) D2_FACTORED 634 = Some (P2, Q2) -> on_E (to_E1 c) P1 -> on_E (to_E1 c) Q1 ->
      (checks = true -> pairings_cancel checks (to_E1 c) (to_E2 c) (affine (to_R1 c)) (affine (to_S1 c)) (fe_g2 self *[to_E2 c] U) (fe_g2 self *[to_E2 c] W)) ->
      isogeny_carries checks self sk c U W P1 Q1 P2 Q2 (ti_s1 m) (ti_s2 m) (fst (ti_B m)) ->
      trapdoor_inverse fq_ops (dlp_fq checks) fuel checks self c sk = Some m.
Proof.
  intros fuel checks self r11 r22 rng phi1 EA' phi2 EA P' Q' P Q a1 b1 a2 b2 pk sk m HN Hr1 Hr2 WO BD FB' FB IC HK FP1 MO.
  destruct (C76_copies fuel checks self r11 r22 rng phi1 EA' phi2 EA P' Q' P Q a1 b1 a2 b2 pk sk m HN Hr1 Hr2 WO BD FB' FB IC HK FP1 MO) as (c & U & W & EC & OU & OW & _ & X & R). exists c, U, W. split; [exact EC|]. split; [exact OU|]. split; [exact OW|]. split; [exact X|].
  intros P1 Q1 P2 Q2 T1 T2 OP1 OQ1 PC HX. apply (R c sk) with (P1 := P1) (Q1 := Q1) (P2 := P2) (Q2 := Q2); try assumption; [unfold same_output; auto 10|unfold same_key; auto 10].
Qed.
Print Assumptions C76_copies.
Print Assumptions C69_roundtrip.

(** ** Concrete cases *)
(** the step of the key generation which finds the second basis on EA': logarithms of (P, Q) in the basis (X, Y), with the pairing of (P, Q) itself as reference, are the coordinates up to one common factor *)
Theorem C69_second_half : forall checks E fs X Y P Q a1 b1 a2 b2, let n := fprod fs in
  valid E -> 3 < n -> Z.odd n = true -> log_entries checks fs -> fcoprime fs -> on_E E X -> on_E E Y -> n_basis (coeff E) n (affine X) (affine Y) -> on_E E P -> on_E E Q -> n_basis (coeff E) n (affine P) (affine Q) ->
  0 < a1 < n -> 0 < b1 < n -> 0 < a2 < n -> 0 < b2 < n -> coords (coeff E) (affine X) (affine Y) (affine P) a1 b1 -> coords (coeff E) (affine X) (affine Y) (affine Q) a2 b2 -> full_pairing checks E n (affine P) (affine Q) ->
  exists w t, weil_pairing fq_ops checks E P Q n = Some w /\ 0 <= t /\ Z.gcd t n = 1 /\
    bidlp fq_ops (dlp_fq checks) checks E P X Y fs (Some w) = Some ((a1 * t) mod n, (b1 * t) mod n) /\ bidlp fq_ops (dlp_fq checks) checks E Q X Y fs (Some w) = Some ((a2 * t) mod n, (b2 * t) mod n).
Proof.
  intros checks E fs X Y P Q a1 b1 a2 b2 n V Hn On HF HC OX OY BX OP OQ BP Ha1 Hb1 Ha2 Hb2 CP CQ FP. destruct (FP P Q OP OQ eq_refl eq_refl) as (w & Ew & Ow).
  destruct (second_half checks E fs V Hn On HF HC X Y P Q OX OY BX OP OQ BP a1 b1 a2 b2 Ha1 Hb1 Ha2 Hb2 CP CQ w Ew Ow) as (t & Ht & Gt & _ & L1 & L2). exists w, t. repeat split; assumption.
Qed.
(** order 5: the points X + Y and X + 3Y *)
Example C69_second_half_ex : exists E X Y P Q, valid E /\ on_E E P /\ on_E E Q /\ n_basis (coeff E) 5 (affine X) (affine Y) /\ n_basis (coeff E) 5 (affine P) (affine Q) /\ coords (coeff E) (affine X) (affine Y) (affine P) 1 1 /\ coords (coeff E) (affine X) (affine Y) (affine Q) 1 3 /\ forall checks, full_pairing checks E 5 (affine P) (affine Q) /\
  exists w t, weil_pairing fq_ops checks E P Q 5 = Some w /\ Z.gcd t 5 = 1 /\ bidlp fq_ops (dlp_fq checks) checks E P X Y [(5, 1)] (Some w) = Some ((1 * t) mod 5, (1 * t) mod 5) /\ bidlp fq_ops (dlp_fq checks) checks E Q X Y [(5, 1)] (Some w) = Some ((1 * t) mod 5, (3 * t) mod 5).
Proof.
  destruct ex5_some as (E & X & Y & EX). pose proof EX as [V EA AX AY OX OY]. pose proof (ex5_basis E X Y EX) as B. assert (Hn : 3 < 5) by lia.
  destruct (C31_mul_big E Y 3 V OY ltac:(lia)) as (Y3 & _ & O3 & A3). destruct (C29_add E X Y V OX OY) as [OP AP]. destruct (C29_add E X Y3 V OX O3) as [OQ AQ]. set (P := add_pts fq_ops E X Y) in *. set (Q := add_pts fq_ops E X Y3) in *.
  assert (CP : coords (coeff E) (affine X) (affine Y) (affine P) 1 1) by exact AP.
  assert (CQ : coords (coeff E) (affine X) (affine Y) (affine Q) 1 3) by (unfold coords; rewrite AQ, A3; reflexivity).
  assert (BP : n_basis (coeff E) 5 (affine P) (affine Q)).
  { assert (PP : affine P = pzq (coeff E) (affine X) (affine Y) 5 1 1) by (rewrite CP; apply (comb_pz E V 5 Hn X Y OX OY B); lia). assert (PQ : affine Q = pzq (coeff E) (affine X) (affine Y) 5 1 3) by (rewrite CQ; apply (comb_pz E V 5 Hn X Y OX OY B); lia).
    pose (iX := b_OP E 5 Hn X Y B). pose (iY := b_OQ E 5 Hn X Y B). pose (iI := b_in E 5 X Y B). rewrite PP, PQ. split; [|split].
    - rewrite (pm_n E) by lia. exact (pz_order Zq_field qeqb_true q2_nz (valid_smooth E V) (affine X) (affine Y) OX OY 5 Hn iX iY iI _ _).
    - rewrite (pm_n E) by lia. exact (pz_order Zq_field qeqb_true q2_nz (valid_smooth E V) (affine X) (affine Y) OX OY 5 Hn iX iY iI _ _).
    - intros u v Hu Hv Z0. rewrite !(pm_n E) in Z0 by assumption. rewrite !(pz_mul Zq_field qeqb_true q2_nz (valid_smooth E V) (affine X) (affine Y) OX OY 5 Hn iX iY iI) in Z0. rewrite !Z2Nat.id in Z0 by assumption.
      rewrite (pz_add Zq_field qeqb_true q2_nz (valid_smooth E V) (affine X) (affine Y) OX OY 5 Hn iX iY) in Z0. apply (pz_None (affine X) (affine Y) 5 Hn iI) in Z0. destruct Z0 as [[k K] [l L]]. split; [exists (4 * k - 3 * l + v)|exists (3 * l - 3 * k - v)]; lia. }
  assert (FX : forall c, full_pairing c E 5 (affine X) (affine Y)). { intros c P' Q' OP' OQ' EP EQ. refine (ex5_weil E P' Q' _ c). rewrite AX in EP. rewrite AY in EQ. constructor; assumption. }
  exists E, X, Y, P, Q. do 7 (split; [assumption|]). intros c.
  assert (FP : full_pairing c E 5 (affine P) (affine Q)).
  { refine (image_pairing c E E [(5, 1)] V V Hn X Y X Y P Q OX OY B OX OY B BP 1 1 1 3 _ _ _ _ CP CQ 1 eq_refl eq_refl P Q _ OP OQ CP CQ (FX c)); change (fprod [(5, 1)]) with 5; lia. }
  split; [exact FP|]. destruct (C69_second_half c E [(5, 1)] X Y P Q 1 1 1 3 V Hn eq_refl (ex5_log c) ex5_cop OX OY B OP OQ BP ltac:(change (fprod [(5, 1)]) with 5; lia) ltac:(change (fprod [(5, 1)]) with 5; lia) ltac:(change (fprod [(5, 1)]) with 5; lia) ltac:(change (fprod [(5, 1)]) with 5; lia) CP CQ FP) as (w & t & Ew & _ & Gt & L1 & L2).
  exists w, t. repeat split; assumption.
Qed.
(** a message *)
Example C69_message_ex : message_ok (mkTI 5 7 (3, (2 ^ 635 + 1) / 3)).
Proof. split; cbn [ti_s1 ti_s2 ti_B fst snd]; try (split; vm_compute; try reflexivity; discriminate); try reflexivity. exists 2. vm_compute. reflexivity. Qed.
Print Assumptions C69_second_half. Print Assumptions C69_second_half_ex.
