(** Lemmas for the integer helpers of discrete_log.rs: extended gcd, CRT, integer square root. *)
From Coq Require Import ZArith List Lia Bool Znumtheory.
From Verif Require Import S_Dlog M_Dlog.
Import ListNotations.
Open Scope Z_scope.

(** ** xgcd *)
Lemma quot_step m n : 0 <= m -> 0 < n -> m - Z.quot m n * n = m mod n.
Proof. intros. rewrite Z.quot_div_nonneg by lia. pose proof (Z.div_mod m n). lia. Qed.
Lemma mod_mod_half n r : 0 < r <= n -> 2 * (n mod r) < n.
Proof. intros H. pose proof (Z.mod_pos_bound n r ltac:(lia)). pose proof (Z.div_mod n r ltac:(lia)). assert (1 <= n / r) by (apply Z.div_le_lower_bound; lia). nia. Qed.
Lemma xgcd_loop_0 f m s1 s2 : xgcd_loop f m 0 s1 s2 = Some s1. Proof. destruct f; reflexivity. Qed.
Lemma xgcd_loop_S f m n s1 s2 : 0 <= m -> 0 < n -> xgcd_loop (S f) m n s1 s2 = xgcd_loop f n (m mod n) s2 (s1 - Z.quot m n * s2).
Proof. intros. cbn [xgcd_loop]. destruct (Z.eqb_spec n 0); [lia|]. cbv zeta. rewrite quot_step by lia. reflexivity. Qed.
(** s1, s2 carry m = s1*a mod b and n = s2*a mod b *)
Lemma xgcd_loop_ok a b : forall k f m n s1 s2, 0 <= m -> 0 <= n < 2 ^ Z.of_nat k -> (2 * k <= f)%nat ->
  (b | m - s1 * a) -> (b | n - s2 * a) -> exists s, xgcd_loop f m n s1 s2 = Some s /\ (b | Z.gcd m n - s * a).
Proof.
  induction k as [|k IH]; intros f m n s1 s2 Hm Hn Hf D1 D2.
  - change (2 ^ Z.of_nat 0) with 1 in Hn. replace n with 0 by lia. rewrite xgcd_loop_0. exists s1. split; auto. rewrite Z.gcd_0_r, Z.abs_eq by lia. auto.
  - destruct (Z.eq_dec n 0) as [->|N0]; [rewrite xgcd_loop_0; exists s1; split; auto; rewrite Z.gcd_0_r, Z.abs_eq by lia; auto|].
    destruct f as [|[|f]]; [lia|lia|]. rewrite xgcd_loop_S by lia.
    set (r := m mod n). set (s3 := s1 - Z.quot m n * s2).
    pose proof (Z.mod_pos_bound m n ltac:(lia)). fold r in H.
    assert (D3 : (b | r - s3 * a)).
    { unfold s3, r. rewrite <- quot_step by lia. replace (m - Z.quot m n * n - (s1 - Z.quot m n * s2) * a) with ((m - s1 * a) - Z.quot m n * (n - s2 * a)) by ring.
      apply Z.divide_sub_r; auto. apply Z.divide_mul_r; auto. }
    assert (G : Z.gcd m n = Z.gcd n r) by (unfold r; rewrite (Z.gcd_comm n), Z.gcd_mod, Z.gcd_comm by lia; reflexivity). rewrite G.
    destruct (Z.eq_dec r 0) as [Er|Nr].
    { rewrite Er, xgcd_loop_0. exists s2. split; auto. rewrite Z.gcd_0_r, Z.abs_eq by lia. auto. }
    rewrite xgcd_loop_S by lia. set (s4 := s2 - Z.quot n r * s3).
    replace (Z.gcd n r) with (Z.gcd r (n mod r)) by (rewrite (Z.gcd_comm r), Z.gcd_mod, Z.gcd_comm by lia; reflexivity).
    apply IH; try lia.
    + split; [apply Z.mod_pos_bound; lia|]. pose proof (mod_mod_half n r ltac:(lia)). rewrite Nat2Z.inj_succ, Z.pow_succ_r in Hn by lia. lia.
    + auto.
    + unfold s4. rewrite <- quot_step by lia. replace (n - Z.quot n r * r - (s2 - Z.quot n r * s3) * a) with ((n - s2 * a) - Z.quot n r * (r - s3 * a)) by ring.
      apply Z.divide_sub_r; auto. apply Z.divide_mul_r; auto.
Qed.
Lemma xgcd_fuel n : 0 <= n -> n < 2 ^ Z.of_nat (Z.to_nat (Z.log2_up (n + 1))).
Proof.
  intros H. rewrite Z2Nat.id by apply Z.log2_up_nonneg. destruct (Z.eq_dec n 0) as [->|N]; [reflexivity|].
  pose proof (Z.log2_up_spec (n + 1) ltac:(lia)). lia.
Qed.
Lemma xgcd_pre a b : 0 <= a -> 0 <= b -> exists s,
  xgcd_big a b = (if b =? 0 then None else let t := Z.rem s b in Some (if t <? 0 then t + b else t)) /\ (b | Z.gcd a b - s * a).
Proof.
  intros Ha Hb. unfold xgcd_big.
  destruct (Z.ltb_spec a b) as [L|L].
  - destruct (xgcd_loop_ok a b (Z.to_nat (Z.log2_up (a + 1))) (2 * Z.to_nat (Z.log2_up (a + 1)) + 2) b a 0 1) as (s & E & D).
    + lia. + split; auto. apply xgcd_fuel; auto. + lia. + exists 1. ring. + exists 0. ring.
    + rewrite E. exists s. rewrite Z.gcd_comm. auto.
  - destruct (xgcd_loop_ok a b (Z.to_nat (Z.log2_up (b + 1))) (2 * Z.to_nat (Z.log2_up (b + 1)) + 2) a b 1 0) as (s & E & D).
    + lia. + split; auto. apply xgcd_fuel; auto. + lia. + exists 0. ring. + exists 1. ring.
    + rewrite E. exists s. auto.
Qed.
Lemma rem_fix s b : 0 < b -> let t := Z.rem s b in (if t <? 0 then t + b else t) = s mod b.
Proof.
  intros Hb. cbv zeta. pose proof (Z.quot_rem s b ltac:(lia)) as E. pose proof (Z.rem_bound_abs s b ltac:(lia)) as B.
  destruct (Z.ltb_spec (Z.rem s b) 0).
  - apply (Z.mod_unique _ _ (Z.quot s b - 1)); lia.
  - apply (Z.mod_unique _ _ (Z.quot s b)); lia.
Qed.
Lemma xgcd_big_0 a : 0 <= a -> xgcd_big a 0 = None.
Proof. intros Ha. destruct (xgcd_pre a 0 Ha ltac:(lia)) as (s & E & _). rewrite E. reflexivity. Qed.
Lemma xgcd_big_ok a b : 0 <= a -> 0 < b -> exists r, xgcd_big a b = Some r /\ 0 <= r < b /\ (b | a * r - Z.gcd a b).
Proof.
  intros Ha Hb. destruct (xgcd_pre a b Ha ltac:(lia)) as (s & E & D). destruct (Z.eqb_spec b 0); [lia|]. cbv zeta in E. rewrite (rem_fix s b Hb) in E.
  exists (s mod b). split; auto. split; [apply Z.mod_pos_bound; auto|]. pose proof (Z.div_mod s b ltac:(lia)) as DM.
  replace (a * (s mod b) - Z.gcd a b) with (- (Z.gcd a b - s * a) - a * (s / b) * b). 2:{ rewrite DM at 1. ring. }
  apply Z.divide_sub_r; [apply Z.divide_opp_r; auto|apply Z.divide_factor_r].
Qed.

(** ** CRT *)
Lemma fprod_app a b : fprod (a ++ b) = fprod a * fprod b.
Proof. induction a as [|[l e] a IH]; cbn [fprod app]; [ring|]. rewrite IH. ring. Qed.
Lemma crt_modulus_ok' fs : forall s, fold_left (fun s le => s * bpow le) fs s = s * fprod fs.
Proof. induction fs as [|[l e] fs IH]; intros s; cbn [fold_left fprod]; [ring|]. rewrite IH. unfold bpow. cbn [fst snd]. ring. Qed.
Lemma crt_modulus_ok fs : crt_modulus fs = fprod fs. Proof. unfold crt_modulus. rewrite crt_modulus_ok'. ring. Qed.
Lemma crt_cof_ok' l fs : forall s, fold_left (fun s le => if fst le =? l then s else s * bpow le) fs s = s * fprod (filter (fun le => negb (fst le =? l)) fs).
Proof.
  induction fs as [|[l1 e] fs IH]; intros s; cbn [fold_left filter fst]; [cbn; ring|]. destruct (l1 =? l); cbn [negb]; rewrite IH; [reflexivity|].
  cbn [fprod]. unfold bpow. cbn [fst snd]. ring.
Qed.
Lemma crt_cof_ok l fs : crt_cofactor l fs = fprod (filter (fun le => negb (fst le =? l)) fs).
Proof. unfold crt_cofactor. rewrite crt_cof_ok'. ring. Qed.
Lemma fprod_div fs f : In f fs -> (fst f ^ snd f | fprod fs).
Proof.
  induction fs as [|[l e] fs IH]; [contradiction|]. intros [<-|H]; cbn [fprod fst snd]; [apply Z.divide_factor_l|]. apply Z.divide_mul_r. auto.
Qed.
Definition fpos (fs : list (Z * Z)) : Prop := Forall (fun f => 0 < fst f ^ snd f) fs.
Lemma fprod_pos fs : fpos fs -> 0 < fprod fs.
Proof. induction 1 as [|[l e] fs H _ IH]; cbn [fprod fst snd] in *; [lia|]. nia. Qed.
Lemma gcd_fprod a fs : 0 <= a -> Forall (fun f => Z.gcd a (fst f ^ snd f) = 1) fs -> Z.gcd a (fprod fs) = 1.
Proof.
  intros Ha. induction 1 as [|[l e] fs H _ IH]; cbn [fprod fst snd] in *; [apply Z.gcd_1_r|].
  apply Zgcd_1_rel_prime. apply rel_prime_mult; apply Zgcd_1_rel_prime; auto.
Qed.
Lemma fcop_app fs1 l e fs2 : fcoprime (fs1 ++ (l, e) :: fs2) -> Forall (fun f => Z.gcd (l ^ e) (fst f ^ snd f) = 1) (fs1 ++ fs2).
Proof.
  induction fs1 as [|[l1 e1] fs1 IH]; cbn [fcoprime app].
  - intros [H _]. exact H.
  - intros [H1 H2]. apply Forall_cons; [|auto]. cbn [fst snd]. rewrite Z.gcd_comm. apply Forall_app in H1. destruct H1 as [_ H1]. inversion H1; subst. auto.
Qed.
Lemma pow_self_gcd l a b : 0 < l ^ a -> 0 < l ^ b -> Z.gcd (l ^ a) (l ^ b) = 1 -> l ^ a = 1 \/ l ^ b = 1.
Proof.
  intros Ha Hb G.
  assert (0 <= a) by (destruct (Z.lt_ge_cases a 0) as [N|]; auto; rewrite Z.pow_neg_r in Ha; lia).
  assert (0 <= b) by (destruct (Z.lt_ge_cases b 0) as [N|]; auto; rewrite Z.pow_neg_r in Hb; lia).
  destruct (Z.le_ge_cases a b) as [L|L].
  - left. assert (D : (l ^ a | l ^ b)) by (exists (l ^ (b - a)); rewrite <- Z.pow_add_r by lia; f_equal; lia).
    apply Z.divide_gcd_iff in D; [|lia]. congruence.
  - right. assert (D : (l ^ b | l ^ a)) by (exists (l ^ (a - b)); rewrite <- Z.pow_add_r by lia; f_equal; lia).
    apply Z.divide_gcd_iff in D; [|lia]. rewrite Z.gcd_comm in D. congruence.
Qed.
(** contribution of one entry: c = r * inv * cofactor is r modulo its own power and 0 modulo all others *)
Lemma crt_entry fs1 l e fs2 : let fs := fs1 ++ (l, e) :: fs2 in fpos fs -> fcoprime fs ->
  exists ci, xgcd_big (crt_cofactor l fs) (bpow (l, e)) = Some ci /\
    (l ^ e | ci * crt_cofactor l fs - 1) /\ Forall (fun f => (fst f ^ snd f | ci * crt_cofactor l fs)) (fs1 ++ fs2).
Proof.
  intros fs Hp Hc. pose proof (fcop_app _ _ _ _ Hc) as Hg.
  assert (Hl : 0 < l ^ e). { eapply Forall_forall in Hp; [|apply in_or_app; right; left; reflexivity]. exact Hp. }
  assert (Hcof : crt_cofactor l fs = fprod (filter (fun le => negb (fst le =? l)) (fs1 ++ fs2))).
  { rewrite crt_cof_ok. unfold fs. rewrite !filter_app. cbn [filter fst]. rewrite Z.eqb_refl. reflexivity. }
  assert (Hpp : fpos (filter (fun le => negb (fst le =? l)) (fs1 ++ fs2))).
  { apply Forall_forall. intros f Hf. apply filter_In in Hf. destruct Hf as [Hf _]. eapply Forall_forall in Hp; [exact Hp|]. apply in_app_iff in Hf. apply in_or_app. cbn. tauto. }
  pose proof (fprod_pos _ Hpp) as Hcp. rewrite <- Hcof in Hcp.
  destruct (xgcd_big_ok (crt_cofactor l fs) (bpow (l, e)) ltac:(lia) Hl) as (ci & E & B & D). exists ci. split; auto. unfold bpow in *. cbn [fst snd] in *.
  assert (G : Z.gcd (crt_cofactor l fs) (l ^ e) = 1).
  { rewrite Z.gcd_comm, Hcof. apply gcd_fprod; [lia|]. apply Forall_forall. intros f Hf. apply filter_In in Hf. eapply Forall_forall in Hg; [exact Hg|tauto]. }
  split.
  - rewrite G in D. rewrite Z.mul_comm. exact D.
  - apply Forall_forall. intros f Hf. destruct (Z.eqb_spec (fst f) l) as [El|Nl].
    + eapply Forall_forall in Hg; [|exact Hf]. rewrite El in *.
      assert (Hf' : 0 < fst f ^ snd f). { eapply Forall_forall in Hp; [exact Hp|]. apply in_app_iff in Hf. apply in_or_app. cbn. tauto. }
      rewrite El in Hf'. destruct (pow_self_gcd l e (snd f) Hl Hf' Hg) as [E1|E1].
      * replace ci with 0 by (rewrite E1 in B; lia). exists 0. ring.
      * rewrite E1. apply Z.divide_1_l.
    + apply Z.divide_mul_r. rewrite Hcof. apply fprod_div. apply filter_In. split; auto. apply negb_true_iff, Z.eqb_neq; auto.
Qed.
Lemma cong_all_iff x rs fs : (length fs <= length rs)%nat -> (cong_all x rs fs <-> Forall (fun p => (fst (fst p) ^ snd (fst p) | x - snd p)) (combine fs rs)).
Proof.
  revert rs. induction fs as [|[l e] fs IH]; intros [|r rs] H; cbn [cong_all combine length] in *; try lia; try tauto; try (split; auto; fail).
  rewrite IH by lia. split; [intros [A B]; apply Forall_cons; auto|intros A; inversion A; auto].
Qed.
Lemma divide_mod_congr d m x y : (d | m) -> 0 < m -> (d | x - y) -> (d | x mod m - y).
Proof.
  intros Hd Hm H. pose proof (Z.div_mod x m ltac:(lia)). replace (x mod m - y) with ((x - y) - m * (x / m)) by lia. apply Z.divide_sub_r; auto. apply Z.divide_mul_l; auto.
Qed.
Lemma crt_loop_ok fs : fpos fs -> fcoprime fs -> forall todo done rs res, fs = done ++ todo -> (length todo <= length rs)%nat ->
  0 <= res < fprod fs -> Forall (fun f => (fst f ^ snd f | res)) todo ->
  exists x, crt_loop rs todo fs (crt_modulus fs) res = Some x /\ 0 <= x < fprod fs /\ cong_all x rs todo /\
    Forall (fun f => (fst f ^ snd f | x - res)) done.
Proof.
  intros Hp Hc. pose proof (fprod_pos _ Hp) as Hm. induction todo as [|[l e] todo IH]; intros done rs res Efs Hl Hr H0; cbn [crt_loop].
  - exists res. split; auto. split; auto. split; [exact I|]. apply Forall_forall. intros. rewrite Z.sub_diag. apply Z.divide_0_r.
  - destruct rs as [|r rs]; [cbn in Hl; lia|]. assert (Hp' := Hp). assert (Hc' := Hc). rewrite Efs in Hp', Hc'.
    destruct (crt_entry done l e todo Hp' Hc') as (ci & E & D1 & D2). rewrite <- Efs in E, D1, D2. rewrite E. rewrite crt_modulus_ok in *. destruct (Z.eqb_spec (fprod fs) 0); [lia|].
    set (res' := (res + r * ci * crt_cofactor l fs) mod fprod fs).
    assert (IN : forall f, In f fs -> (fst f ^ snd f | fprod fs)) by (apply fprod_div).
    assert (Inc : forall f, In f (done ++ todo) -> (fst f ^ snd f | res' - res)).
    { intros f Hf. unfold res'. apply divide_mod_congr; auto.
      - apply IN. rewrite Efs. apply in_app_iff in Hf. apply in_or_app. cbn. tauto.
      - eapply Forall_forall in D2; [|exact Hf]. replace (res + r * ci * crt_cofactor l fs - res) with (r * (ci * crt_cofactor l fs)) by ring. apply Z.divide_mul_r; auto. }
    assert (Own : (l ^ e | res' - r)).
    { unfold res'. apply divide_mod_congr; auto.
      - apply (IN (l, e)). rewrite Efs. apply in_or_app. right. left. reflexivity.
      - inversion H0; subst. cbn [fst snd] in *. replace (res + r * ci * crt_cofactor l (done ++ (l, e) :: todo) - r) with (res + r * (ci * crt_cofactor l (done ++ (l, e) :: todo) - 1)) by ring.
        apply Z.divide_add_r; auto. apply Z.divide_mul_r; auto. }
    destruct (IH (done ++ [(l, e)]) rs res') as (x & Ex & Bx & Cx & Dx).
    + rewrite <- app_assoc. exact Efs.
    + cbn in Hl. lia.
    + apply Z.mod_pos_bound; auto.
    + inversion H0; subst. apply Forall_forall. intros f Hf. replace res' with ((res' - res) + res) by ring. apply Z.divide_add_r; [apply Inc, in_or_app; auto|]. eapply Forall_forall in H3; eauto.
    + exists x. split; auto. split; auto. apply Forall_app in Dx. destruct Dx as [Dx De]. inversion De as [|? ? De1 _]; subst. cbn [fst snd] in De1. cbn [cong_all]. split.
      * split; auto. replace (x - r) with ((x - res') + (res' - r)) by ring. apply Z.divide_add_r; auto.
      * apply Forall_forall. intros f Hf. replace (x - res) with ((x - res') + (res' - res)) by ring. apply Z.divide_add_r; [eapply Forall_forall in Dx; eauto|apply Inc, in_or_app; auto].
Qed.
Lemma compute_crt_ok rs fs : fpos fs -> fcoprime fs -> (length fs <= length rs)%nat ->
  exists x, compute_crt rs fs = Some x /\ 0 <= x < fprod fs /\ cong_all x rs fs.
Proof.
  intros Hp Hc Hl. pose proof (fprod_pos _ Hp). destruct (crt_loop_ok fs Hp Hc fs [] rs 0 eq_refl Hl ltac:(lia)) as (x & A & B & C & _).
  - apply Forall_forall. intros. apply Z.divide_0_r.
  - exists x. auto.
Qed.
Lemma fprod_divide fs x : fpos fs -> fcoprime fs -> Forall (fun f => (fst f ^ snd f | x)) fs -> (fprod fs | x).
Proof.
  induction fs as [|[l e] fs IH]; intros Hp Hc H; cbn [fprod]; [apply Z.divide_1_l|]. inversion Hp; inversion H; subst. cbn [fst snd] in *. destruct Hc as [Hg Hc].
  assert (D : (fprod fs | x)) by auto. destruct D as [k ->]. assert (G : Z.gcd (l ^ e) (fprod fs) = 1) by (apply gcd_fprod; [lia|auto]).
  rewrite Z.mul_comm in H6. apply Z.gauss in H6; [|exact G]. destruct H6 as [j ->]. exists j. ring.
Qed.
Lemma crt_unique rs fs x y : fpos fs -> fcoprime fs -> (length fs <= length rs)%nat -> 0 <= x < fprod fs -> 0 <= y < fprod fs ->
  cong_all x rs fs -> cong_all y rs fs -> x = y.
Proof.
  intros Hp Hc Hl Bx By Cx Cy. assert (D : (fprod fs | x - y)).
  { apply fprod_divide; auto. clear - Cx Cy. revert rs Cx Cy. induction fs as [|[l e] fs IH]; intros [|r rs] Cx Cy; cbn [cong_all] in *; try tauto; try constructor.
    - cbn [fst snd]. replace (x - y) with ((x - r) - (y - r)) by ring. apply Z.divide_sub_r; tauto.
    - apply (IH rs); tauto. }
  destruct D as [k Hk]. assert (k = 0) by nia. subst. lia.
Qed.

(** ** integer square root *)
Lemma u32_op_in c v : 0 <= v < 4294967296 -> u32_op c v = Some v.
Proof. intros H. unfold u32_op. destruct (Z.leb_spec 0 v), (Z.ltb_spec v 4294967296); cbn [andb]; auto; lia. Qed.
Lemma sqrt_loop_ok c n : 2 <= n < 4294967296 -> forall k fuel f b, 0 <= f < b -> b - f <= 2 ^ Z.of_nat k -> (k <= fuel)%nat -> b <= n -> f * f < n -> n <= b * b -> (f = 0 \/ b <= 200000) ->
  exists o, sqrt_loop c n fuel f b = Some o /\ match o with inl x => x * x = n /\ 0 <= x | inr (f', b') => b' = f' + 1 /\ f' * f' < n /\ n <= b' * b' /\ 0 <= f' end.
Proof.
  intros Hn. induction k as [|k IH]; intros fuel f b Hf Hk Hfu Hb H1 H2 H3.
  - assert (b = f + 1) by (change (2 ^ Z.of_nat 0) with 1 in Hk; lia). destruct fuel; cbn [sqrt_loop]; (rewrite u32_op_in by lia); (destruct (Z.ltb_spec (f + 1) b); [lia|]); eexists; (split; [reflexivity|]); cbn; auto with zarith.
  - destruct fuel as [|fuel]; [lia|]. cbn [sqrt_loop]. rewrite u32_op_in by lia. destruct (Z.ltb_spec (f + 1) b).
    2:{ eexists; (split; [reflexivity|]); cbn; auto with zarith. }
    rewrite u32_op_in by lia. cbv zeta. set (x := (f + b) / 2).
    assert (Hx : f + b = 2 * x \/ f + b = 2 * x + 1) by (unfold x; pose proof (Z.div_mod (f + b) 2 ltac:(lia)); pose proof (Z.mod_pos_bound (f + b) 2 ltac:(lia)); lia).
    rewrite Nat2Z.inj_succ, Z.pow_succ_r in Hk by lia.
    destruct (Z.ltb_spec n (x * x)); [|destruct (Z.ltb_spec (x * x) n)].
    + apply IH; try lia.
    + apply IH; try lia.
    + eexists. split; [reflexivity|]. cbn. lia.
Qed.
Lemma sqrt_floor_ok c n : 0 <= n < 4294967296 -> sqrt_floor c n = (if c && (4294836225 <? n) then None else Some (Z.sqrt n)).
Proof.
  intros Hn. unfold sqrt_floor. destruct (Z.eqb_spec n 1) as [->|N1]; [destruct c; reflexivity|].
  destruct (Z.eq_dec n 0) as [->|N0]; [destruct c; reflexivity|].
  destruct (sqrt_loop_ok c n ltac:(lia) 32 33 0 n) as (o & E & H); [lia|change (2 ^ Z.of_nat 32) with 4294967296; lia|lia|lia|lia|nia|auto|].
  rewrite E. destruct o as [x|[f b]].
  - destruct H as [H Hx]. assert (x <= 65535) by nia. assert (n <= 4294836225) by nia. destruct (Z.ltb_spec 4294836225 n); [lia|]. rewrite andb_false_r. f_equal. symmetry. apply Z.sqrt_unique. lia.
  - destruct H as (-> & H1 & H2 & H3). assert (f <= 65535) by nia.
    destruct (Z.ltb_spec 4294836225 n) as [L|L].
    + assert (f = 65535) by nia. subst f. destruct c; [reflexivity|]. cbn [andb]. change (u32_op false ((65535 + 1) * (65535 + 1))) with (Some 0). cbv iota beta. replace (0 =? n) with false by (symmetry; apply Z.eqb_neq; lia).
      f_equal. symmetry. apply Z.sqrt_unique. lia.
    + rewrite andb_false_r. assert (f <= 65534) by nia. rewrite u32_op_in by nia. destruct (Z.eqb_spec ((f + 1) * (f + 1)) n); f_equal; symmetry; apply Z.sqrt_unique; nia.
Qed.
