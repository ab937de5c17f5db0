(** The integers modulo 12289 (1 modulo 2^12) as a field implementation that satisfies [flaws], used only for examples of chains of (2,2)-isogenies. *)
From Coq Require Import ZArith Znumtheory List Bool Lia Ring Field.
From Verif Require Import M_Fp M_Field S_Curve L_Group L_Field L_Prime L_Fermat.
Import ListNotations.
Open Scope Z_scope.
Definition wq : Z := 12289.
Definition inw (z : Z) : bool := (0 <=? z) && (z <? wq).
Definition W : Type := { z : Z | inw z = true }.
Lemma inw_mod z : inw (z mod wq) = true.
Proof. unfold inw. apply andb_true_iff. rewrite Z.leb_le, Z.ltb_lt. apply Z.mod_pos_bound. reflexivity. Qed.
Definition mkw (z : Z) : W := exist _ (z mod wq) (inw_mod z).
Definition uw (x : W) : Z := proj1_sig x.
Lemma w_eq (x y : W) : uw x = uw y -> x = y.
Proof. destruct x as [x Hx], y as [y Hy]. cbn. intros ->. f_equal. apply Eqdep_dec.UIP_dec. decide equality. Qed.
Lemma uw_mk z : uw (mkw z) = z mod wq. Proof. reflexivity. Qed.
Lemma uw_small (x : W) : uw x mod wq = uw x.
Proof. destruct x as [x Hx]. cbn. apply Z.mod_small. unfold inw in Hx. apply andb_true_iff in Hx. rewrite Z.leb_le, Z.ltb_lt in Hx. exact Hx. Qed.
Lemma mk_uw x : mkw (uw x) = x. Proof. apply w_eq. rewrite uw_mk. apply uw_small. Qed.
Lemma mk_mod z : mkw (z mod wq) = mkw z. Proof. apply w_eq. rewrite !uw_mk. apply Zmod_mod. Qed.
(* square and multiply, keeping residues *)
Fixpoint wpowp (x : Z) (e : positive) : Z :=
  match e with xH => x mod wq | xO e' => let y := wpowp x e' in (y * y) mod wq | xI e' => let y := wpowp x e' in (y * y mod wq * x) mod wq end.
Definition wpow (x : W) (e : Z) : W := match e with Zpos p => mkw (wpowp (uw x) p) | _ => mkw 1 end.
Definition winv (x : W) : W := wpow x 12287.
Definition wadd (x y : W) : W := mkw (uw x + uw y). Definition wsub (x y : W) : W := mkw (uw x - uw y). Definition wopp (x : W) : W := mkw (- uw x).
Definition wmul (x y : W) : W := mkw (uw x * uw y). Definition wdiv (x y : W) : W := wmul x (winv y). Definition weqb (x y : W) : bool := uw x =? uw y.
Definition w0 : W := mkw 0. Definition w1 : W := mkw 1.
(* square roots by search from one half on downwards *)
Fixpoint root (n : nat) (c x : Z) : option Z := match n with O => None | S n' => if c * c mod wq =? x then Some c else root n' (c - 1) x end.
Definition wsqrt (x : W) : W * bool := match root (Z.to_nat 6145) 6144 (uw x) with Some r => (mkw r, true) | None => (w0, false) end.
Definition toyw : fops W := {|
  fzero := w0; fone := w1; ftwo := mkw 2; fthree := mkw 3; ffour := mkw 4; fzeta := mkw 1479;
  fadd := wadd; fsub := wsub; fneg := wopp; fmul := wmul; fsq := fun x => wmul x x;
  fhalf := fun x => wmul x (mkw 6145); fmul2 := fun x => wadd x x; fmul3 := fun x => wmul (mkw 3) x; fmul4 := fun x => wmul (mkw 4) x; fmul8 := fun x => wmul (mkw 8) x;
  finv := winv; fdiv := wdiv; fis0 := fun x => weqb x w0; feqb := weqb;
  fcond := fun x y b => if b then y else x; fcneg := fun x b => if b then wopp x else x; fswap := fun x y b => if b then (y, x) else (x, y);
  fsqrt := wsqrt; fleg := fun x => if weqb x w0 then 0 else if snd (wsqrt x) then 1 else -1;
  fpow := wpow; fpow_small := wpow; frand := fun _ => None; fenc := fun x => [uw x]; fdec := fun b => (mkw (hd 0 b), true) |}.

Lemma wq_prime : prime wq.
Proof.
  apply (prime_by_bound wq 111); [reflexivity|reflexivity|reflexivity|]. intros q Hq Hd. pose proof (prime_ge_2 q Hq) as G. destruct (Z_lt_le_dec q 111) as [L|L]; [|exact L]. exfalso.
  assert (T : forallb (fun k => negb (wq mod (Z.of_nat k + 2) =? 0)) (seq 0 109) = true) by (vm_compute; reflexivity).
  rewrite forallb_forall in T. specialize (T (Z.to_nat (q - 2))). rewrite in_seq in T. specialize (T ltac:(lia)). rewrite Z2Nat.id in T by lia. replace (q - 2 + 2) with q in T by lia.
  apply Z.mod_divide in Hd; [|lia]. rewrite Hd in T. discriminate.
Qed.
Lemma mkw_eq a b : eqm wq a b -> mkw a = mkw b.
Proof. intros [k ->]. apply w_eq. rewrite !uw_mk. apply Z_mod_plus_full. Qed.
Lemma mk_add a b : wadd (mkw a) (mkw b) = mkw (a + b). Proof. apply w_eq. unfold wadd. rewrite !uw_mk. symmetry. apply Zplus_mod. Qed.
Lemma mk_sub a b : wsub (mkw a) (mkw b) = mkw (a - b). Proof. apply w_eq. unfold wsub. rewrite !uw_mk. symmetry. apply Zminus_mod. Qed.
Lemma mk_mul a b : wmul (mkw a) (mkw b) = mkw (a * b). Proof. apply w_eq. unfold wmul. rewrite !uw_mk. symmetry. apply Zmult_mod. Qed.
Lemma mk_opp a : wopp (mkw a) = mkw (- a).
Proof. replace (- a) with (0 - a) by lia. rewrite <- mk_sub. apply w_eq. unfold wopp, wsub. rewrite !uw_mk. reflexivity. Qed.
Lemma wpowp_ok x e : wpowp x e = (x ^ Zpos e) mod wq.
Proof.
  induction e as [e IH|e IH|]; cbn [wpowp]; [| |rewrite Z.pow_1_r; reflexivity].
  - rewrite IH. rewrite <- Zmult_mod, Zmult_mod_idemp_l. f_equal. rewrite (Pos2Z.inj_xI e), Z.pow_add_r, Z.pow_1_r, (Z.mul_comm 2), Z.pow_mul_r, Z.pow_2_r by lia. reflexivity.
  - rewrite IH, <- Zmult_mod. f_equal. rewrite (Pos2Z.inj_xO e), (Z.mul_comm 2), Z.pow_mul_r, Z.pow_2_r by lia. reflexivity.
Qed.
Lemma wpow_ok x e : 0 <= e -> wpow x e = mkw (uw x ^ e).
Proof. intros H. destruct e as [|e|e]; [reflexivity| |lia]. cbn [wpow]. rewrite wpowp_ok. apply mk_mod. Qed.
Lemma uw_0 x : uw x = 0 -> x = w0. Proof. intros E. apply w_eq. exact E. Qed.
Lemma inv_l x : x <> w0 -> wmul (winv x) x = w1.
Proof.
  intros H. unfold winv. rewrite wpow_ok by lia. rewrite <- (mk_uw x) at 2. rewrite mk_mul. replace (uw x ^ 12287 * uw x) with (uw x ^ (wq - 1)) by (change (wq - 1) with (Z.succ 12287); rewrite Z.pow_succ_r by lia; apply Z.mul_comm).
  apply mkw_eq. apply (fermat wq wq_prime). intros [k E]. apply H. rewrite <- (mk_uw x), E. apply mkw_eq. exists k. reflexivity.
Qed.
Lemma W_ring : ring_theory w0 w1 wadd wmul wsub wopp eq.
Proof.
  constructor; intros; repeat match goal with x : W |- _ => rewrite <- (mk_uw x); generalize (uw x); clear x; intros x end; unfold w0, w1; rewrite ?mk_opp, ?mk_add, ?mk_sub, ?mk_mul, ?mk_add, ?mk_mul, ?mk_add; f_equal; ring.
Qed.
Lemma W_field : field_theory w0 w1 wadd wmul wsub wopp wdiv winv eq.
Proof. constructor; [exact W_ring|intros E; apply (f_equal uw) in E; discriminate E|reflexivity|exact inv_l]. Qed.
Add Field Wf : W_field.
Lemma weqb_ok x y : weqb x y = true <-> x = y.
Proof. unfold weqb. rewrite Z.eqb_eq. split; [apply w_eq|intros ->; reflexivity]. Qed.
Lemma root_some n : forall c x r, root n c x = Some r -> r * r mod wq = x.
Proof. induction n as [|n IH]; intros c x r H; [discriminate|]. cbn [root] in H. destruct (Z.eqb_spec (c * c mod wq) x) as [E|E]; [injection H as <-; exact E|exact (IH _ _ _ H)]. Qed.
Lemma root_none n : forall c x, root n c x = None -> forall r, c - Z.of_nat n < r <= c -> r * r mod wq <> x.
Proof.
  induction n as [|n IH]; intros c x H r Hr; [lia|]. cbn [root] in H. destruct (Z.eqb_spec (c * c mod wq) x) as [E|E]; [discriminate|].
  destruct (Z.eq_dec r c) as [->|D]; [exact E|]. apply (IH _ _ H). lia.
Qed.
Lemma sqrt_cases x : (exists r, wsqrt x = (r, true) /\ wmul r r = x) \/ (wsqrt x = (w0, false) /\ ~ ksq wmul x).
Proof.
  unfold wsqrt. destruct (root _ _ _) as [r|] eqn:E; [left|right].
  - exists (mkw r). split; [reflexivity|]. apply root_some in E. rewrite mk_mul. apply w_eq. rewrite uw_mk. exact E.
  - split; [reflexivity|]. intros [y Hy]. pose proof (root_none _ _ _ E) as R. rewrite Z2Nat.id in R by lia.
    assert (B : 0 <= uw y < wq) by (rewrite <- uw_small; apply Z.mod_pos_bound; reflexivity). unfold wq in B.
    assert (Ex : uw x = (uw y * uw y) mod wq) by (rewrite <- Hy; reflexivity).
    destruct (Z_le_gt_dec (uw y) 6144) as [L|L]; [apply (R (uw y)); [lia|symmetry; exact Ex]|].
    apply (R (wq - uw y)); [unfold wq; lia|]. rewrite Ex. replace ((wq - uw y) * (wq - uw y)) with (uw y * uw y + (wq - 2 * uw y) * wq) by ring. apply Z_mod_plus_full.
Qed.
Lemma ksq_dec x : ksq wmul x \/ ~ ksq wmul x.
Proof. destruct (sqrt_cases x) as [(r & _ & H)|[_ H]]; [left; exists r; exact H|right; exact H]. Qed.
Lemma toyw_laws : flaws toyw w0 w1 wadd wmul wsub wopp wdiv winv weqb (fun x : W => x).
Proof.
  assert (ND : forall a b : W, (uw a =? uw b) = false -> a <> b) by (intros a b E D; rewrite D, Z.eqb_refl in E; discriminate).
  constructor; cbn [fzero fone ftwo fthree ffour fzeta fadd fsub fneg fmul fsq fhalf fmul2 fmul3 fmul4 fmul8 finv fdiv fis0 feqb fcond fcneg fswap fsqrt fleg fpow fpow_small toyw]; try reflexivity.
  all: try (apply w_eq; reflexivity). all: try (apply ND; reflexivity).
  - exact W_field.
  - exact weqb_ok.
  - intros x. ring.
  - intros x. destruct (sqrt_cases x) as [(r & -> & H)|[-> H]]; cbn [fst snd].
    + split; [split; [intros _; exists r; exact H|reflexivity]|]. split; [intros _; exact H|discriminate].
    + split; [split; [discriminate|intros D; destruct (H D)]|]. split; [discriminate|reflexivity].
  - intros x. destruct (weqb x w0) eqn:Z.
    + apply weqb_ok in Z. split; [reflexivity|]. split; [intros N; destruct (N Z)|]. intros N. exfalso. apply N. exists w0. rewrite Z. apply w_eq. reflexivity.
    + split; [intros D; apply weqb_ok in D; rewrite D in Z; discriminate|]. destruct (sqrt_cases x) as [(r & -> & H)|[-> H]]; cbn [snd]; (split; [|]); try reflexivity; intros; exfalso; [apply H0; exists r; exact H|apply H; assumption].
  - exact ksq_dec.
  - intros x e He. rewrite wpow_ok by exact He. unfold kpow. rewrite <- (Z2Nat.id e) at 1 by exact He. induction (Z.to_nat e) as [|n IH]; [reflexivity|]. cbn [Nat.iter nat_rect]. change (nat_rect (fun _ => W) w1 (fun _ => wmul x) n) with (Nat.iter n (wmul x) w1). rewrite <- IH. rewrite Nat2Z.inj_succ, Z.pow_succ_r by lia. rewrite <- mk_mul, mk_uw. reflexivity.
  - intros x e He. rewrite wpow_ok by lia. unfold kpow. rewrite <- (Z2Nat.id e) at 1 by lia. clear He. induction (Z.to_nat e) as [|n IH]; [reflexivity|]. cbn [Nat.iter nat_rect]. change (nat_rect (fun _ => W) w1 (fun _ => wmul x) n) with (Nat.iter n (wmul x) w1). rewrite <- IH. rewrite Nat2Z.inj_succ, Z.pow_succ_r by lia. rewrite <- mk_mul, mk_uw. reflexivity.
Qed.
