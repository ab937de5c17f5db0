(** The square root used by entangled_torsion_basis, and the points it produces. *)
From Coq Require Import Arith ZArith List Bool Lia Ring Field.
From Verif Require Import S_Fp S_Fp2 S_Params M_Consts M_Utils64 M_Fp M_Fp2 M_Field M_Curve M_Super2 L_Words L_Fp L_FpOps L_FpSmall L_Prime L_Zp L_Zp2 L_FpCodec L_FpRoots L_FpDiv L_Fp2 L_Fp2Roots L_Fp2Misc L_Field L_QNum L_Jacobi L_Chi.
Import ListNotations.
Open Scope Z_scope.

Lemma p_sqrt_eq : p_sqrt = (P + 1) / 4. Proof. vm_compute. reflexivity. Qed.
(** z^((p+1)/4): a root of z or of -z, and itself a square since p = 7 mod 8 *)
Lemma pow_root z : canon z -> canon (pow_p_sqrt z) /\ (zsquare (fv z) -> (fv (pow_p_sqrt z) * fv (pow_p_sqrt z))%zp = fv z) /\
  (~ zsquare (fv z) -> (fv (pow_p_sqrt z) * fv (pow_p_sqrt z))%zp = (- fv z)%zp) /\ zsquare (fv (pow_p_sqrt z)).
Proof.
  intros Cz. unfold pow_p_sqrt. rewrite p_sqrt_eq. destruct (pow_big_ok z ((P + 1) / 4) Cz SQ_pos) as (r & E & Cr & V). rewrite E. split; [exact Cr|].
  assert (R : fv r = mk (val z ^ ((P + 1) / 4))) by (unfold fv; rewrite V; apply mk_mod). rewrite R. unfold fv. rewrite <- mk_mul, <- mk_opp, !zsquare_mk, !mk_eq.
  split; [intros S; apply sqrt_candidate, S|]. split.
  - intros N. assert (Nz : ~ cg (val z) 0) by (intros C; apply N; exists 0; rewrite C; reflexivity).
    pose proof SQ_pos. rewrite <- Z.pow_add_r by lia. replace ((P + 1) / 4 + (P + 1) / 4) with (HP + 1) by (rewrite <- SQ_exp; ring). pose proof HP_pos. rewrite Z.pow_add_r, Z.pow_1_r by lia.
    destruct (cg_euler _ Nz) as [H1|H1]; [exfalso; apply N; eexists; exact (root_of_euler _ H1)|]. rewrite H1. exists 0. ring.
  - exists (val z ^ ((P + 1) / 8)). pose proof FR_pos. rewrite <- Z.pow_add_r by lia. replace ((P + 1) / 8 + (P + 1) / 8) with ((P + 1) / 4); [reflexivity|]. pose proof SQ_exp. pose proof FR_exp. lia.
Qed.
Section Alg.
Local Open Scope zp_scope.
Lemma root_sides c d s al : s * s = c * c + d * d -> al <> 0 -> al * al = (c + s) / 2 -> d / (al + al) * (d / (al + al)) = (s - c) / 2.
Proof.
  intros Hs N Ha. pose proof two_nz as T. assert (Hd : d * d = (s - c) * (2 * (al * al))) by (rewrite Ha; replace (d * d) with (s * s - c * c) by (rewrite Hs; ring); field; exact T).
  assert (N2 : al + al <> 0) by (replace (al + al) with (2 * al) by ring; apply zmul_nz; auto).
  replace (d / (al + al) * (d / (al + al))) with ((d * d) / ((al + al) * (al + al))) by (field; auto). rewrite Hd. field. auto.
Qed.
Lemma root_sides' c d s al : s * s = c * c + d * d -> al <> 0 -> al * al = - ((c + s) / 2) -> d / (al + al) * (d / (al + al)) = (c - s) / 2.
Proof.
  intros Hs N Ha. pose proof two_nz as T. assert (Hd : d * d = (c - s) * (2 * (al * al))) by (rewrite Ha; replace (d * d) with (s * s - c * c) by (rewrite Hs; ring); field; exact T).
  assert (N2 : al + al <> 0) by (replace (al + al) with (2 * al) by ring; apply zmul_nz; auto).
  replace (d / (al + al) * (d / (al + al))) with ((d * d) / ((al + al) * (al + al))) by (field; auto). rewrite Hd. field. auto.
Qed.
End Alg.
Lemma f_mask b : negb (mask32 b =? 0) = b. Proof. destruct b; reflexivity. Qed.
Lemma zeqb_t a b : zeqb a b = true <-> a = b.
Proof. unfold zeqb. destruct (zp_dec a b); split; congruence. Qed.
Lemma f2_pair a b : canon a -> canon b -> canon2 (a, b) /\ fv2 (a, b) = (fv a, fv b). Proof. intros Ha Hb. split; [split; assumption|reflexivity]. Qed.
(** the flag tells squares; the value is a root except for a non-square of the prime field, where it is 0 *)
Lemma norm_root_ok t : canon2 t -> canon2 (fst (norm_root t)) /\ (snd (norm_root t) = true <-> qsquare (fv2 t)) /\
  (snd (norm_root t) = true -> qmul (fv2 (fst (norm_root t))) (fv2 (fst (norm_root t))) = fv2 t /\ (snd (fv2 t) = zp0 -> zsquare (fst (fv2 t))) \/
     snd (fv2 t) = zp0 /\ ~ zsquare (fst (fv2 t)) /\ fv2 (fst (norm_root t)) = q0).
Proof.
  destruct t as [c d]. intros [Cc Cd]. cbn [fst snd] in Cc, Cd. unfold norm_root.
  assert (Cz : canon (set_add (set_square c) (set_square d))) by cn. assert (Vz : fv (set_add (set_square c) (set_square d)) = (fv c * fv c + fv d * fv d)%zp) by (rewrite fv_add, !fv_square by cn; reflexivity).
  set (z := set_add (set_square c) (set_square d)) in *. destruct (pow_root z Cz) as (Cs & S1 & S2 & S3). set (s := pow_p_sqrt z) in *. clearbody s z.
  assert (Cw : canon (set_half (set_add c s))) by cn. assert (Vw : fv (set_half (set_add c s)) = ((fv c + fv s) / (zp1 + zp1))%zp) by (rewrite fv_half, fv_add by cn; reflexivity). set (w := set_half (set_add c s)) in *.
  destruct (pow_root w Cw) as (Ca & A1 & A2 & _). set (al := pow_p_sqrt w) in *. clearbody al w.
  assert (Cb : canon (set_div d (set_add al al))) by cn. assert (Vb : fv (set_div d (set_add al al)) = (fv d / (fv al + fv al))%zp) by (rewrite fv_div, fv_add by cn; reflexivity). set (be := set_div d (set_add al al)) in *.
  cbv zeta. cbn [fst snd]. rewrite !equals_fv, !fv_square by cn. rewrite !f_mask. clearbody be.
  assert (FL : zeqb (fv s * fv s)%zp (fv z) = true <-> qsquare (fv2 (c, d))).
  { rewrite zeqb_t, qsquare_norm. change (qnorm (fv2 (c, d))) with (fv c * fv c + fv d * fv d)%zp. rewrite <- Vz. split; [intros E; exists (fv s); exact E|exact S1]. }
  split; [destruct (zeqb (fv al * fv al)%zp (fv w)); [split; assumption|apply f2_neg_ok; split; assumption]|]. split; [exact FL|].
  intros T. apply zeqb_t in T. rewrite Vz in T. change (fv2 (c, d)) with (fv c, fv d). cbn [fst snd].
  assert (RN : fv d = zp0 -> ~ zsquare (fv c) -> ((fv c + fv s) / (zp1 + zp1))%zp = zp0).
  { intros D0 Q. assert (X : ((fv s - fv c) * (fv s + fv c))%zp = zp0) by (transitivity (fv s * fv s - fv c * fv c)%zp; [ring|rewrite T, D0; ring]). apply zmul_eq0 in X. destruct X as [X|X].
    - exfalso. apply Q. replace (fv c) with (fv s); [exact S3|]. transitivity (fv s - fv c + fv c)%zp; [ring|rewrite X; ring].
    - replace (fv c + fv s)%zp with zp0 by (rewrite <- X; ring). unfold zdiv. ring. }
  destruct (zeqb (fv al * fv al)%zp (fv w)) eqn:EA.
  - apply zeqb_t in EA. rewrite Vw in EA. change (fv2 (al, be)) with (fv al, fv be). rewrite Vb. destruct (zp_dec (fv al) zp0) as [A0|A0].
    + assert (SC : fv c = (- fv s)%zp). { assert (X : ((fv c + fv s) / (zp1 + zp1))%zp = zp0) by (rewrite <- EA, A0; ring). assert (Y : (fv c + fv s)%zp = zp0) by (rewrite <- (half_sum (fv c + fv s)%zp); fold zp1; change (2%zp) with (zp1 + zp1)%zp; rewrite X; ring). transitivity (fv c + fv s - fv s)%zp; [ring|rewrite Y; ring]. }
      assert (D0 : fv d = zp0). { assert (X : (fv d * fv d)%zp = zp0) by (transitivity (fv s * fv s - fv c * fv c)%zp; [rewrite T; ring|rewrite SC; ring]). apply zmul_eq0 in X. tauto. }
      destruct (zsquare_dec (fv c)) as [Q|Q].
      * left. split; [|intros _; exact Q]. assert (C0 : fv c = zp0). { assert (X : fv s = zp0). { apply zsquare_both; [exact S3|]. rewrite <- SC. exact Q. } rewrite SC, X. ring. }
        rewrite A0, D0, C0. unfold qmul. cbn [fst snd]. apply (f_equal2 (@pair Zp Zp)); unfold zdiv; ring.
      * right. split; [exact D0|]. split; [exact Q|]. rewrite A0, D0. unfold q0. apply (f_equal2 (@pair Zp Zp)); unfold zdiv; ring.
    + left. split; [|intros D0; destruct (zsquare_dec (fv c)) as [Q|Q]; [exact Q|exfalso; apply A0; rewrite (RN D0 Q) in EA; apply zmul_eq0 in EA; tauto]].
      unfold qmul. cbn [fst snd]. rewrite (root_sides _ _ _ _ T A0 EA), EA. apply (f_equal2 (@pair Zp Zp)); [field; exact two_nz|]. field. replace (fv al + fv al)%zp with ((1 + 1) * fv al)%zp by ring. apply zmul_nz; [exact two_nz|exact A0].
  - assert (NW : ~ zsquare (fv w)) by (intros Q; apply A1 in Q; apply zeqb_t in Q; congruence). specialize (A2 NW). rewrite Vw in A2.
    assert (A0 : fv al <> zp0) by (intros A0; apply NW; rewrite Vw; rewrite A0 in A2; exists zp0; transitivity (- - ((fv c + fv s) / (zp1 + zp1)))%zp; [rewrite <- A2; ring|ring]).
    left. split; [|intros D0; destruct (zsquare_dec (fv c)) as [Q|Q]; [exact Q|exfalso; apply NW; rewrite Vw, (RN D0 Q); exact zsquare_0]].
    rewrite (proj2 (f2_neg_ok (be, al) (conj Cb Ca))). change (fv2 (be, al)) with (fv be, fv al). rewrite Vb. unfold qmul, qopp. cbn [fst snd].
    apply (f_equal2 (@pair Zp Zp)).
    + transitivity (fv d / (fv al + fv al) * (fv d / (fv al + fv al)) - fv al * fv al)%zp; [ring|]. rewrite (root_sides' _ _ _ _ T A0 A2), A2. field. exact two_nz.
    + field. replace (fv al + fv al)%zp with ((1 + 1) * fv al)%zp by ring. apply zmul_nz; [exact two_nz|exact A0].
Qed.

(** the square root on well-formed elements *)
Lemma cq_root x : canon2 x -> canon2 (fst (norm_root x)). Proof. apply norm_root_ok. Qed.
Definition root_fq (x : fq) : fq * bool := (l1 (fun x => fst (norm_root x)) cq_root x, snd (norm_root (proj1_sig x))).
Lemma root_fq_ok t : (snd (root_fq t) = true <-> qsquare (fqv t)) /\
  (snd (root_fq t) = true -> qmul (fqv (fst (root_fq t))) (fqv (fst (root_fq t))) = fqv t /\ (snd (fqv t) = zp0 -> zsquare (fst (fqv t))) \/ snd (fqv t) = zp0 /\ ~ zsquare (fst (fqv t)) /\ fqv (fst (root_fq t)) = q0).
Proof. exact (proj2 (norm_root_ok _ (fq_c t))). Qed.

(** ** Algebra of the two abscissas, over any field *)
Section EntAlg.
Context {K : Type} {k0 k1 : K} {kadd kmul ksub : K -> K -> K} {kopp : K -> K} {kdiv : K -> K -> K} {kinv : K -> K}.
Context (FT : field_theory k0 k1 kadd kmul ksub kopp kdiv kinv (@eq K)).
Add Field Kfield : FT.
Local Notation "0" := k0. Local Notation "1" := k1. Local Notation "2" := (kadd k1 k1).
Local Infix "+" := kadd. Local Infix "*" := kmul. Local Infix "-" := ksub. Local Infix "/" := kdiv. Local Notation "- x" := (kopp x).
Lemma ent_alg z r A v : z * z = kopp k1 -> (1 + z * 2 * (r * r)) * v = 1 ->
  let x := - A * v in let x2 := z * 2 * (r * r) * x in let w := (1 + z) * r in let f := fun x => x * (x * x) + A * (x * x) + x in
  x + x2 = - A /\ x2 = w * w * x /\ f x2 = w * w * f x /\ f x = x * (1 - x * x2).
Proof.
  intros Hz Hv x x2 w f.
  assert (S : x + x2 = - A) by (unfold x2, x; transitivity (- A * ((1 + z * 2 * (r * r)) * v)); [ring|rewrite Hv; ring]).
  assert (W : w * w = z * 2 * (r * r)) by (unfold w; transitivity ((1 + z * 2 + z * z) * (r * r)); [ring|rewrite Hz; ring]).
  assert (X2 : x2 = w * w * x) by (rewrite W; reflexivity).
  assert (EA : A = - x - x2) by (transitivity (- - A); [ring|rewrite <- S; ring]).
  assert (F1 : f x = x * (1 - x * x2)) by (unfold f; rewrite EA; ring).
  split; [exact S|]. split; [exact X2|]. split; [|exact F1].
  rewrite F1. unfold f. rewrite EA. transitivity (x2 * (1 - x * x2)); [ring|]. rewrite X2 at 1. ring.
Qed.
End EntAlg.

(** ** Squares of GF(p^2) *)
Lemma qsq_dec x : qsquare x \/ ~ qsquare x. Proof. destruct (zsquare_dec (qnorm x)) as [H|H]; [left|right; intros Q]; [apply qsquare_norm; exact H|apply H, qsquare_norm, Q]. Qed.
Lemma qns_mul x y : ~ qsquare x -> ~ qsquare y -> qsquare (qmul x y).
Proof.
  rewrite !qsquare_norm, qnorm_mul. intros Hx Hy. apply zsquare_opp in Hx, Hy. replace (qnorm x * qnorm y)%zp with (- qnorm x * - qnorm y)%zp by ring. apply zsquare_mul; assumption.
Qed.
Lemma qsq_mul x y : qsquare x -> qsquare y -> qsquare (qmul x y). Proof. intros [a <-] [b <-]. exists (qmul a b). generalize a b. intros. qring. Qed.
Add Field Zq_f : Zq_field.
Lemma q_dec0 (x : Zq) : x = q0 \/ x <> q0. Proof. destruct (q_dec x q0); auto. Qed.
Lemma qsq_cancel w x : w <> q0 -> qsquare w -> qsquare (qmul w x) -> qsquare x.
Proof. intros N [a <-] [b Hb]. assert (Na : a <> q0) by (intros ->; apply N; ring). exists (qdiv b a). transitivity (qdiv (qmul b b) (qmul a a)); [field; exact Na|]. rewrite Hb. field. exact Na. Qed.
Lemma qsq_opp1 : qsquare (qopp q1). Proof. exists (zp0, zp1). unfold qmul, qopp, q1. cbn [fst snd]. apply (f_equal2 (@pair Zp Zp)); ring. Qed.
Lemma qsq_opp x : qsquare (qopp x) <-> qsquare x.
Proof. split; intros H; [replace x with (qmul (qopp q1) (qopp x)) by (generalize x; intros; qring)|replace (qopp x) with (qmul (qopp q1) x) by (generalize x; intros; qring)]; apply qsq_mul; [exact qsq_opp1|exact H|exact qsq_opp1|exact H]. Qed.
Lemma qsq_inv x : qsquare (qinv x) <-> qsquare x.
Proof.
  assert (M : forall x, qsquare x -> qsquare (qinv x)).
  { intros y [a <-]. destruct (q_dec0 a) as [->|N]; [exists q0; unfold q0; replace (qmul (zp0, zp0) (zp0, zp0)) with q0 by (unfold q0, qmul; cbn [fst snd]; apply (f_equal2 (@pair Zp Zp)); ring); rewrite qinv_0; reflexivity|]. exists (qinv a). field. exact N. }
  split; [|apply M]. intros H. apply M in H. destruct (q_dec0 x) as [->|N]; [exists q0; unfold q0, qmul; cbn [fst snd]; apply (f_equal2 (@pair Zp Zp)); ring|]. replace x with (qinv (qinv x)); [exact H|]. field. split; [exact N|exact (F_1_neq_0 Zq_field)].
Qed.
