(** Small integers inside GF(P)[i], used by the concrete examples beside the theorems. *)
From Coq Require Import ZArith List Bool Lia Ring Field.
From Verif Require Import S_Fp L_Zp L_Zp2 M_Field L_Fp2 L_Field.

Definition qz (n : Z) : Zq := (mk n, zp0).
Lemma qz_0 : qz 0 = q0. Proof. unfold qz, q0. rewrite zp0_eq. reflexivity. Qed.
Lemma qz_1 : qz 1 = q1. Proof. unfold qz, q1. rewrite zp1_eq. reflexivity. Qed.
Lemma qz_add a b : qz (a + b) = qadd (qz a) (qz b). Proof. unfold qz, qadd. cbn [fst snd]. rewrite mk_add. apply (f_equal2 (@pair Zp Zp)); [reflexivity|ring]. Qed.
Lemma qz_sub a b : qz (a - b) = qsub (qz a) (qz b). Proof. unfold qz, qsub. cbn [fst snd]. rewrite mk_sub. apply (f_equal2 (@pair Zp Zp)); [reflexivity|ring]. Qed.
Lemma qz_mul a b : qz (a * b) = qmul (qz a) (qz b). Proof. unfold qz, qmul. cbn [fst snd]. rewrite mk_mul. apply (f_equal2 (@pair Zp Zp)); ring. Qed.
Lemma qz_opp a : qz (- a) = qopp (qz a). Proof. unfold qz, qopp. cbn [fst snd]. rewrite mk_opp. apply (f_equal2 (@pair Zp Zp)); [reflexivity|ring]. Qed.
Lemma qz_nz n : (0 < n < P)%Z -> qz n <> q0.
Proof. intros H E. apply (f_equal fst) in E. exact (mk_small n H E). Qed.
Lemma qz_neq a b : (0 < a - b < P)%Z -> qz a <> qz b.
Proof. intros H E. apply (qz_nz _ H). rewrite qz_sub, E. generalize (qz b). intros x. qring. Qed.
(** every element of the prime field is a square in the extension *)
Lemma qz_square n : qsquare (qz n).
Proof. apply qsquare_norm. exists (mk n). unfold qnorm, qz. cbn [fst snd]. ring. Qed.
(** fractions *)
Definition qfr (a b : Z) : Zq := qdiv (qz a) (qz b).
Add Field Qf : Zq_field.
Ltac qn := generalize dependent q0; intros.
Lemma qfr_mul a b c d : qz b <> q0 -> qz d <> q0 -> qmul (qfr a b) (qfr c d) = qfr (a * c) (b * d).
Proof. intros B D. unfold qfr. rewrite !qz_mul. field. auto. Qed.
Lemma qfr_add a b c d : qz b <> q0 -> qz d <> q0 -> qadd (qfr a b) (qfr c d) = qfr (a * d + c * b) (b * d).
Proof. intros B D. unfold qfr. rewrite qz_add, !qz_mul. field. auto. Qed.
Lemma qfr_sub a b c d : qz b <> q0 -> qz d <> q0 -> qsub (qfr a b) (qfr c d) = qfr (a * d - c * b) (b * d).
Proof. intros B D. unfold qfr. rewrite qz_sub, !qz_mul. field. auto. Qed.
Lemma qfr_div a b c d : qz b <> q0 -> qz c <> q0 -> qz d <> q0 -> qdiv (qfr a b) (qfr c d) = qfr (a * d) (b * c).
Proof. intros B C D. unfold qfr. rewrite !qz_mul. field. auto. Qed.
Lemma qfr_eq a b c d : qz b <> q0 -> qz d <> q0 -> (a * d = c * b)%Z -> qfr a b = qfr c d.
Proof.
  intros B D E. unfold qfr. apply (f_equal qz) in E. rewrite !qz_mul in E. transitivity (qdiv (qmul (qz a) (qz d)) (qmul (qz b) (qz d))); [field; auto|]. rewrite E. field. auto.
Qed.
Lemma qfr_z a : qz a = qfr a 1. Proof. unfold qfr. rewrite qz_1. field. exact (F_1_neq_0 Zq_field). Qed.
Lemma qfr_neq a b c d : qz b <> q0 -> qz d <> q0 -> (0 < a * d - c * b < P)%Z -> qfr a b <> qfr c d.
Proof.
  intros B D H E. apply (qz_neq _ _ H). rewrite !qz_mul. unfold qfr in E.
  transitivity (qmul (qmul (qz b) (qz d)) (qdiv (qz a) (qz b))); [field; auto|]. rewrite E. field. auto.
Qed.
Lemma qfr_square a b : qz b <> q0 -> qsquare (qfr a b).
Proof.
  intros B. destruct (qz_square (a * b)) as [z Hz]. exists (qdiv z (qz b)). transitivity (qdiv (qmul z z) (qmul (qz b) (qz b))); [field; auto|]. rewrite Hz, qz_mul. unfold qfr. field. auto.
Qed.
(** well-formed field elements with a given small value *)
Fixpoint fnum (p : positive) : fq :=
  match p with xH => fone fq_ops | xO p => fmul2 fq_ops (fnum p) | xI p => fadd fq_ops (fmul2 fq_ops (fnum p)) (fone fq_ops) end.
Lemma fnum_v p : fqv (fnum p) = qz (Zpos p).
Proof.
  assert (M : forall x n, fqv x = qz n -> fqv (fmul2 fq_ops x) = qz (2 * n)).
  { intros x n E. rewrite (l_mul2 _ _ _ _ _ _ _ _ _ _ _ fq_laws), E, qz_mul. change 2%Z with (1 + 1)%Z. rewrite qz_add, qz_1. reflexivity. }
  induction p as [p IH|p IH|]; cbn [fnum].
  - rewrite (l_add _ _ _ _ _ _ _ _ _ _ _ fq_laws), (M _ _ IH), (l_one _ _ _ _ _ _ _ _ _ _ _ fq_laws). rewrite <- qz_1, <- qz_add. reflexivity.
  - rewrite (M _ _ IH). reflexivity.
  - rewrite (l_one _ _ _ _ _ _ _ _ _ _ _ fq_laws), qz_1. reflexivity.
Qed.
Definition ffr (a b : positive) : fq := fdiv fq_ops (fnum a) (fnum b).
Lemma ffr_v a b : fqv (ffr a b) = qfr (Zpos a) (Zpos b).
Proof. unfold ffr. rewrite (l_div _ _ _ _ _ _ _ _ _ _ _ fq_laws), !fnum_v. reflexivity. Qed.
