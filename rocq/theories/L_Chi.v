(** Quadratic character modulo [P] of products of small numbers, by reciprocity (L_Jacobi.v); squares among Gaussian integers. *)
From Coq Require Import Arith ZArith List Bool Lia Znumtheory Ring.
From Verif Require Import S_Fp L_Fp L_Prime L_Fermat L_FpRoots L_Jacobi L_Zp L_Zp2 L_QNum.
Import ListNotations.
Open Scope Z_scope.

Lemma P2_HP : P / 2 = HP. Proof. pose proof HP_ok. Z.div_mod_to_equations. lia. Qed.
Lemma P_mod2 : P mod 2 = 1. Proof. exact P_odd. Qed.
Definition chib (q : Z) : bool := if q =? 2 then false else xorb (Z.odd (q / 2)) (gauss (P mod q) q).
Definition chil (l : list Z) : bool := fold_right xorb false (map chib l).
Definition smallb (q : Z) : bool := (q =? 2) || ((1 <=? q) && (q <? 2 ^ 64) && (q mod 2 =? 1)).
Lemma P_big : 2 ^ 64 < P. Proof. vm_compute. reflexivity. Qed.
Lemma small_gcd q : 0 < q < 2 ^ 64 -> Z.gcd q P = 1.
Proof.
  intros H. pose proof P_big. apply Zgcd_1_rel_prime, rel_prime_sym, prime_rel_prime; [exact P_prime|]. intros D. apply Z.divide_pos_le in D; lia.
Qed.
Lemma gauss_2P : gauss 2 P = false.
Proof. rewrite gauss_2; [|pose proof P_big; lia|exact P_mod2]. vm_compute. reflexivity. Qed.
Lemma chib_ok q : smallb q = true -> gauss q P = chib q.
Proof.
  unfold smallb, chib. destruct (Z.eqb_spec q 2) as [->|N]; [intros _; exact gauss_2P|]. cbn [orb]. rewrite !andb_true_iff, Z.leb_le, Z.ltb_lt, Z.eqb_eq. intros [[A B] C]. pose proof P_big as HB.
  pose proof (gauss_reciprocity q P ltac:(lia) ltac:(lia) C P_mod2 (small_gcd q ltac:(lia))) as R. rewrite P2_HP in R. pose proof HP_odd as HO. apply odd_mod_b in HO. rewrite HO, andb_true_r in R.
  rewrite <- R. rewrite (gauss_mod q ltac:(lia) (P mod q) P).
  - destruct (gauss q P), (gauss P q); reflexivity.
  - exists (- (P / q)). pose proof (Z.div_mod P q ltac:(lia)). lia.
Qed.
Lemma smallb_gcd q : smallb q = true -> Z.gcd q P = 1.
Proof.
  unfold smallb. intros H. apply small_gcd. apply orb_true_iff in H. destruct H as [H|H]; [apply Z.eqb_eq in H; subst q; split; reflexivity|]. rewrite !andb_true_iff, Z.leb_le, Z.ltb_lt in H. lia.
Qed.
Lemma chil_ok l : forallb smallb l = true -> gauss (zprod l) P = chil l /\ Z.gcd (zprod l) P = 1.
Proof.
  induction l as [|q l IH]; cbn [forallb]; intros H.
  - split; [|reflexivity]. apply gauss_1; [pose proof P_big; lia|exact P_mod2].
  - apply andb_true_iff in H. destruct H as [Hq Hl]. destruct (IH Hl) as [A B]. pose proof (smallb_gcd q Hq) as G. pose proof P_big as HB. change (zprod (q :: l)) with (q * zprod l). change (chil (q :: l)) with (xorb (chib q) (chil l)).
    split; [rewrite gauss_mul by (auto using P_mod2; lia); rewrite A, chib_ok by auto; reflexivity|apply gcd_mul; auto; lia].
Qed.
Lemma cg_of_eqm a b : eqm P a b -> cg a b. Proof. exact (fun H => H). Qed.
Lemma zsq_prod l : forallb smallb l = true -> (chil l = false -> zsquare (mk (zprod l))) /\ (chil l = true -> ~ zsquare (mk (zprod l))).
Proof.
  intros H. destruct (chil_ok l H) as [A B]. pose proof (gauss_euler (zprod l) P P_prime P_mod2 B) as E. rewrite A, P2_HP in E. apply cg_of_eqm in E.
  assert (NZ : ~ cg (zprod l) 0). { intros [k K]. assert (D : (P | Z.gcd (zprod l) P)) by (apply Z.gcd_greatest; [exists k; lia|apply Z.divide_refl]). rewrite B in D. apply Z.divide_1_r in D. pose proof P_big. lia. }
  split; intros C; rewrite C in E.
  - apply zsquare_mk. eexists. exact (root_of_euler _ E).
  - intros S. apply zsquare_mk in S. destruct S as [z Hz]. pose proof (cg_euler_square _ z NZ Hz) as E1. apply cg_1_m1. rewrite <- E1. exact E.
Qed.

(** ** Gaussian integers *)
Definition qg (a b : Z) : Zq := (mk a, mk b).
Lemma qg_eq a b : qg a b = qadd (qz a) (qmul (qz b) (zp0, zp1)). Proof. unfold qg, qz. generalize (mk a), (mk b). intros x y. unfold qadd, qmul. cbn [fst snd]. apply (f_equal2 (@pair Zp Zp)); ring. Qed.
Lemma qg_mul a b c d : qmul (qg a b) (qg c d) = qg (a * c - b * d) (a * d + b * c).
Proof. unfold qg, qmul. cbn [fst snd]. rewrite <- !mk_mul, <- mk_sub, <- mk_add. reflexivity. Qed.
Lemma qg_add a b c d : qadd (qg a b) (qg c d) = qg (a + c) (b + d).
Proof. unfold qg, qadd. cbn [fst snd]. rewrite <- !mk_add. reflexivity. Qed.
Lemma qg_norm a b : qnorm (qg a b) = mk (a * a + b * b).
Proof. unfold qg, qnorm. cbn [fst snd]. rewrite <- !mk_mul, <- mk_add. reflexivity. Qed.
Lemma qg_square a b l : forallb smallb l = true -> zprod l = a * a + b * b -> (chil l = false -> qsquare (qg a b)) /\ (chil l = true -> ~ qsquare (qg a b)).
Proof. intros H E. destruct (zsq_prod l H) as [A B]. rewrite E in A, B. split; intros C; rewrite qsquare_norm, qg_norm; auto. Qed.
