(** C37, C38: structure of isogeny chains (src/isogeny.rs), for every field implementation. *)
From Coq Require Import ZArith List Bool Lia.
From Verif Require Import M_Fp M_Field M_Curve M_Pairing M_Isogeny L_Toy.
Import ListNotations.

(** ** Specification *)
(* the prime factors with multiplicity, in the order of the factor list *)
Definition factor_steps (order : list (Z * Z)) : list Z := flat_map (fun le => repeat (fst le) (Z.to_nat (snd le))) order.
(* every step starts where the previous one ended; [E1] is the end of the chain *)
Inductive linked {F} : curve F -> list (isogeny F) -> curve F -> Prop :=
| linked_nil E : linked E [] E
| linked_cons phi C chain E1 : i_cod phi = Some C -> linked C chain E1 -> linked (i_dom phi) (phi :: chain) E1.
(* what a completed step stores: the multiples of its own kernel *)
Definition complete_step {F} (o : fops F) (phi : isogeny F) : Prop :=
  i_mult phi = edwards_multiples o (i_dom phi) (i_ker phi) (infinity o) (Z.to_nat ((i_deg phi - 1) / 2)) /\ exists C, i_cod phi = Some C.
(* with checks on, the kernel of the step is a non-zero point killed by the degree *)
Definition checked_kernel {F} (o : fops F) (phi : isogeny F) : Prop :=
  isinfinity o (i_ker phi) = false /\ exists R, mul_small o (i_dom phi) (i_ker phi) (i_deg phi) = Some R /\ isinfinity o R = true.

Section Gen.
Context {F : Type} (o : fops F).

Lemma linked_app E (L : list (isogeny F)) E1 R E2 : linked E L E1 -> linked E1 R E2 -> linked E (L ++ R) E2.
Proof. induction 1; intros H2; cbn [app]; auto. econstructor; eauto. Qed.
Lemma last_cons (x y : isogeny F) l : last (y :: l) x = last l y.
Proof. revert x y. induction l as [|c l IH]; intros x y; auto. transitivity (last (c :: l) x); [reflexivity|]. rewrite !IH. reflexivity. Qed.
Lemma linked_last E (L : list (isogeny F)) E1 : linked E L E1 -> match L with [] => E = E1 | phi :: rest => i_cod (last rest phi) = Some E1 end.
Proof. induction 1 as [|phi C chain E1 Hc Hl IH]; auto. destruct chain as [|psi chain]. - cbn [last]. congruence. - rewrite last_cons. exact IH. Qed.
Lemma linked_dom E (L : list (isogeny F)) E1 : linked E L E1 -> match L with [] => E = E1 | phi :: _ => i_dom phi = E end.
Proof. destruct 1; reflexivity. Qed.
Lemma ccc_spec phi phi' : compute_codomain_constants o phi = Some phi' ->
  i_deg phi' = i_deg phi /\ i_dom phi' = i_dom phi /\ i_ker phi' = i_ker phi /\ (exists C, i_cod phi' = Some C) /\
  i_mult phi' = i_mult phi ++ edwards_multiples o (i_dom phi) (i_ker phi) (infinity o) (Z.to_nat ((i_deg phi - 1) / 2)).
Proof.
  unfold compute_codomain_constants. destruct (i_deg phi =? 0)%Z; [discriminate|]. destruct (fold_left _ _ _) as [py pz].
  destruct (curve_new _ _) as [C|]; [|discriminate]. intros H. injection H as <-. cbn [i_deg i_dom i_ker i_cod i_mult].
  split; [reflexivity|]. split; [reflexivity|]. split; [reflexivity|]. split; [exists C; reflexivity|reflexivity].
Qed.
Lemma new_spec checks E K d phi : isogeny_new o checks E K d = Some phi ->
  i_deg phi = d /\ i_dom phi = E /\ i_ker phi = K /\ complete_step o phi /\ (checks = true -> checked_kernel o phi).
Proof.
  unfold isogeny_new. intros H.
  assert (R : compute_codomain_constants o (mkIsogeny E None K d []) = Some phi /\ (checks = true -> isinfinity o K = false /\ exists R, mul_small o E K d = Some R /\ isinfinity o R = true)).
  { destruct checks; [|split; [exact H|discriminate]]. destruct (isinfinity o K) eqn:EK; [discriminate|]. destruct (mul_small o E K d) as [R|] eqn:EM; [|discriminate].
    destruct (isinfinity o R) eqn:ER; [|discriminate]. split; [exact H|]. intros _. split; [reflexivity|]. exists R. split; auto. }
  destruct R as [R1 R2]. apply ccc_spec in R1. cbn [i_deg i_dom i_ker i_cod i_mult app] in R1. destruct R1 as (Hd & HE & HK & C & M).
  split; [exact Hd|]. split; [exact HE|]. split; [exact HK|]. unfold complete_step, checked_kernel. rewrite Hd, HE, HK. split; [split; [exact M|exact C]|exact R2].
Qed.

(** ** Evaluation *)
Lemma eval_points_app L R Q : eval_points o (L ++ R) Q = match eval_points o L Q with None => None | Some Q => eval_points o R Q end.
Proof. revert Q. induction L as [|phi L IH]; intros Q; cbn [app eval_points]; auto. destruct (evaluate_isogeny o phi Q); auto. Qed.
Lemma eval_chain_linked E L E1 P : linked E L E1 -> evaluate_isogeny_chain o E P L = match eval_points o L P with None => None | Some Q => Some (E1, Q) end.
Proof.
  intros H. pose proof (linked_last _ _ _ H) as HL. destruct L as [|phi L]; cbn [evaluate_isogeny_chain]. - subst. reflexivity.
  - destruct (eval_points o (phi :: L) P); auto. unfold get_codomain. rewrite HL. reflexivity.
Qed.

(** ** Construction *)
Lemma split_k_bounds k : (2 <= k)%nat -> (1 <= split_k k < k)%nat.
Proof. unfold split_k. intros H. split; [apply Nat.le_max_l|]. apply Nat.max_lub_lt; [lia|]. apply Nat.min_lt_iff. left. lia. Qed.
Lemma rsi_fuel checks k : forall fuel E Q l, (k <= fuel)%nat -> recursive_sparse_isogeny o checks fuel E Q l k = recursive_sparse_isogeny o checks k E Q l k.
Proof.
  induction k as [k IH] using lt_wf_ind. intros fuel E Q l Hf.
  destruct k as [|k']. { destruct fuel; reflexivity. } destruct fuel as [|fuel]; [lia|]. cbn [recursive_sparse_isogeny Nat.eqb].
  destruct (Nat.eqb k' 0) eqn:E0; auto. apply Nat.eqb_neq in E0. pose proof (split_k_bounds (S k') ltac:(lia)) as B.
  destruct (mul_iter o E Q l (split_k (S k'))) as [Q1|]; auto.
  rewrite (IH (S k' - split_k (S k'))%nat ltac:(lia) fuel) by lia. rewrite (IH (S k' - split_k (S k'))%nat ltac:(lia) k') by lia.
  destruct (recursive_sparse_isogeny o checks (S k' - split_k (S k')) E Q1 l (S k' - split_k (S k'))) as [L|]; auto. destruct (evaluate_isogeny_chain o E Q L) as [[coE Q2]|]; auto.
  rewrite (IH (split_k (S k')) ltac:(lia) fuel) by lia. rewrite (IH (split_k (S k')) ltac:(lia) k') by lia. reflexivity.
Qed.
Definition chain_ok (checks : bool) (E : curve F) (degs : list Z) (chain : list (isogeny F)) : Prop :=
  map i_deg chain = degs /\ (exists E1, linked E chain E1) /\ Forall (complete_step o) chain /\ (checks = true -> Forall (checked_kernel o) chain).
Lemma chain_ok_app checks E d1 L E1 d2 R : chain_ok checks E d1 L -> linked E L E1 -> chain_ok checks E1 d2 R -> chain_ok checks E (d1 ++ d2) (L ++ R).
Proof.
  intros (A1 & _ & A3 & A4) HL (B1 & (E2 & B2) & B3 & B4). split; [rewrite map_app; congruence|]. split; [exists E2; eapply linked_app; eauto|].
  split; [apply Forall_app; auto|]. intros C. apply Forall_app; auto.
Qed.
Lemma eval_chain_end E L P C Q : (exists E1, linked E L E1) -> evaluate_isogeny_chain o E P L = Some (C, Q) -> linked E L C.
Proof. intros (E1 & H) H2. rewrite (eval_chain_linked _ _ _ _ H) in H2. destruct (eval_points o L P); [|discriminate]. injection H2 as <- _. exact H. Qed.
Lemma rsi_ok checks : forall fuel k E Q l L, recursive_sparse_isogeny o checks fuel E Q l k = Some L -> chain_ok checks E (repeat l k) L.
Proof.
  induction fuel as [|fuel IH]; intros k E Q l L H; cbn [recursive_sparse_isogeny] in H; [discriminate|].
  destruct (Nat.eqb k 0) eqn:E0; [discriminate|]. destruct (Nat.eqb k 1) eqn:E1.
  - apply Nat.eqb_eq in E1. subst k. destruct (isogeny_new o checks E Q l) as [phi|] eqn:EN; [|discriminate]. injection H as <-. apply new_spec in EN. destruct EN as (Hd & HE & HK & HC & HD).
    split; [cbn; rewrite Hd; reflexivity|]. destruct HC as [HM (C & HC)]. split. { exists C. rewrite <- HE. econstructor; [exact HC|constructor]. }
    split; [constructor; [|constructor]; split; eauto|]. intros X. constructor; auto.
  - apply Nat.eqb_neq in E0, E1. pose proof (split_k_bounds k ltac:(lia)) as B. destruct (mul_iter o E Q l (split_k k)) as [Q1|]; [|discriminate].
    destruct (recursive_sparse_isogeny o checks fuel E Q1 l (k - split_k k)) as [L1|] eqn:R1; [|discriminate]. destruct (evaluate_isogeny_chain o E Q L1) as [[coE Q2]|] eqn:EC; [|discriminate].
    destruct (recursive_sparse_isogeny o checks fuel coE Q2 l (split_k k)) as [L2|] eqn:R2; [|discriminate]. injection H as <-.
    apply IH in R1. apply IH in R2. replace k with ((k - split_k k) + split_k k)%nat at 1 by lia. rewrite repeat_app.
    eapply chain_ok_app; eauto. eapply eval_chain_end; eauto. apply R1.
Qed.
Lemma loop_ok checks whole : forall order E P L, kummer_loop o checks whole order E P = Some L -> chain_ok checks E (factor_steps order) L.
Proof.
  induction order as [|[l e] order IH]; intros E P L H; cbn [kummer_loop] in H.
  - injection H as <-. split; [reflexivity|]. split; [exists E; constructor|]. split; intros; constructor.
  - destruct (other_factors o E P l whole) as [Q|]; [|discriminate]. unfold sparse_isogeny_prime_power in H. destruct (recursive_sparse_isogeny o checks (Z.to_nat e) E Q l (Z.to_nat e)) as [psi|] eqn:ES; [|discriminate].
    destruct (evaluate_isogeny_chain o E P psi) as [[E1 P1]|] eqn:EC; [|discriminate]. destruct (kummer_loop o checks whole order E1 P1) as [phi|] eqn:EK; [|discriminate]. injection H as <-.
    apply rsi_ok in ES. apply IH in EK. unfold factor_steps. cbn [flat_map fst snd]. eapply chain_ok_app; eauto. eapply eval_chain_end; eauto. apply ES.
Qed.
Lemma loop_exp checks whole : forall order E P L, kummer_loop o checks whole order E P = Some L -> Forall (fun le => (0 < snd le)%Z) order.
Proof.
  induction order as [|[l e] order IH]; intros E P L H; cbn [kummer_loop] in H; constructor.
  - cbn [snd]. destruct (other_factors o E P l whole) as [Q|]; [|discriminate]. unfold sparse_isogeny_prime_power in H. destruct e; try discriminate. reflexivity.
  - destruct (other_factors o E P l whole) as [Q|]; [|discriminate]. destruct (sparse_isogeny_prime_power _ _ _ _ _ _) as [psi|]; [|discriminate]. destruct (evaluate_isogeny_chain o E P psi) as [[E1 P1]|]; [|discriminate].
    destruct (kummer_loop o checks whole order E1 P1) as [phi|] eqn:EK; [|discriminate]. eapply IH; eauto.
Qed.
End Gen.

(** ** C37 *)
(* a returned chain has one step per prime factor, in order, linked from the domain to one end curve; every step holds the multiples of its own
   kernel; with checks on every kernel is a non-zero point killed by the degree of its step *)
Theorem C37_chain : forall F (o : fops F) checks E K order chain, factored_kummer_isogeny o checks E K order = Some chain ->
  map i_deg chain = factor_steps order /\ (exists E1, linked E chain E1) /\ Forall (complete_step o) chain /\ (checks = true -> Forall (checked_kernel o) chain).
Proof. intros F o checks E K order chain H. exact (loop_ok o checks order order E K chain H). Qed.
(* the recursion depth never exceeds the exponent: the result does not depend on how much more is allowed *)
Theorem C37_terminates : forall F (o : fops F) checks fuel E Q l k, (k <= fuel)%nat -> recursive_sparse_isogeny o checks fuel E Q l k = sparse_isogeny_prime_power o checks E Q l k.
Proof. intros F o checks fuel E Q l k H. exact (rsi_fuel o checks k fuel E Q l H). Qed.
(* "for all exponents" fails at exponent zero, for every curve, kernel and prime: no chain is returned at any recursion depth *)
Theorem C37_exponent_zero_refuted : forall F (o : fops F) checks fuel E Q l, recursive_sparse_isogeny o checks fuel E Q l 0 = None.
Proof. intros F o checks [|fuel] E Q l; reflexivity. Qed.
Theorem C37_exponents : forall F (o : fops F) checks E K order chain, factored_kummer_isogeny o checks E K order = Some chain -> Forall (fun le => (0 < snd le)%Z) order.
Proof. intros F o checks E K order chain H. exact (loop_exp o checks order order E K chain H). Qed.

(** ** C38 *)
(* the specification: run the steps from left to right *)
Theorem C38_composition : forall F (o : fops F) E P L R E1, linked E L E1 -> evaluate_isogeny_chain o E P [] = Some (E, P) /\
  evaluate_isogeny_chain o E P (L ++ R) = match evaluate_isogeny_chain o E P L with None => None | Some (E1, P1) => evaluate_isogeny_chain o E1 P1 R end.
Proof.
  intros F o E P L R E1 H. split; [reflexivity|]. rewrite (eval_chain_linked o _ _ _ P H). pose proof (linked_last _ _ _ H) as HL. destruct R as [|psi R].
  { rewrite app_nil_r, (eval_chain_linked o _ _ _ P H). destruct (eval_points o L P); reflexivity. }
  destruct L as [|phi L]; [subst; reflexivity|]. cbn [app evaluate_isogeny_chain].
  change (phi :: L ++ psi :: R) with ((phi :: L) ++ psi :: R). rewrite eval_points_app. destruct (eval_points o (phi :: L) P) as [Q|]; auto.
  destruct (eval_points o (psi :: R) Q); auto. replace (last (L ++ psi :: R) phi) with (last R psi); auto.
  clear. revert phi. induction L as [|c L IH]; intros phi; cbn [app]; rewrite last_cons; auto.
Qed.
Theorem C38_single : forall F (o : fops F) phi P C, i_cod phi = Some C -> exists Q, evaluate_isogeny o phi P = Some Q /\ evaluate_isogeny_chain o (i_dom phi) P [phi] = Some (C, Q).
Proof.
  intros F o phi P C H. unfold evaluate_isogeny_chain. cbn [eval_points last]. unfold get_codomain. rewrite H. unfold evaluate_isogeny at 1 2. destruct (to_xz P) as [x z].
  destruct (fold_left _ _ _) as [xn zn]. rewrite H. eexists. split; reflexivity.
Qed.
(* on the chains built by the library evaluation always answers, and ends on the codomain of the last step *)
Theorem C38_total : forall F (o : fops F) E L E1 P, linked E L E1 -> exists Q, evaluate_isogeny_chain o E P L = Some (E1, Q).
Proof.
  intros F o E L E1 P H. rewrite (eval_chain_linked o _ _ _ P H). enough (exists Q, eval_points o L P = Some Q) as [Q ->] by (exists Q; reflexivity).
  revert P. induction H as [E|phi C chain E1 Hc Hl IH]; intros P; cbn [eval_points]; [eauto|]. destruct (C38_single F o phi P C Hc) as (Q & -> & _). apply IH.
Qed.
(* two points: the images in the same order, the second up to sign, on the same end curve *)
Theorem C38_basis : forall F (o : fops F) checks E P Q L n d C R S, evaluate_isogeny_chain_for_basis o checks E P Q L n d = Some (C, (R, S)) ->
  evaluate_isogeny_chain o E P L = Some (C, R) /\ exists S0, evaluate_isogeny_chain o E Q L = Some (C, S0) /\ (S = S0 \/ S = p_neg o S0).
Proof.
  intros F o checks E P Q L n d C R S H. unfold evaluate_isogeny_chain_for_basis in H. destruct (evaluate_isogeny_chain o E P L) as [[C1 R1]|] eqn:E1; [|discriminate]. destruct (evaluate_isogeny_chain o E Q L) as [[C2 S2]|] eqn:E2; [|discriminate].
  destruct (weil_pairing o checks E P Q n) as [w0|]; [|discriminate]. destruct (weil_pairing o checks C1 R1 S2 n) as [w1|]; [|discriminate].
  assert (C1 = C2). { clear H. destruct L as [|phi L]; cbn [evaluate_isogeny_chain] in E1, E2; [congruence|]. destruct (get_codomain (last L phi)); [|destruct (eval_points _ _ _); discriminate].
    destruct (eval_points o (phi :: L) P); [|discriminate]. destruct (eval_points o (phi :: L) Q); [|discriminate]. congruence. }
  subst C2. injection H as <- <- <-. split; [reflexivity|]. exists S2. split; [reflexivity|]. destruct (negb _); auto.
Qed.
(* the image is computed from the abscissa alone: a point and its negative have the same image, so the sign of an image is lost *)
Theorem C38_sign_lost : forall F (o : fops F) E P chain, chain <> [] -> evaluate_isogeny_chain o E (p_neg o P) chain = evaluate_isogeny_chain o E P chain.
Proof. intros F o E P [|phi chain] N; [contradiction|]. reflexivity. Qed.

(** ** A chain of degree 3^2 * 5, computed with all checks on *)
Example C37_ex : exists chain, factored_kummer_isogeny toy_ops true toyE toyK [(3, 2); (5, 1)]%Z = Some chain /\ map i_deg chain = [3; 3; 5]%Z /\
  map (fun phi => cA (i_dom phi)) chain = [6; 174; 84]%Z /\ linked toyE chain (mkCurve 173 178)%Z.
Proof.
  eexists. split; [vm_compute; reflexivity|]. split; [reflexivity|]. split; [reflexivity|].
  apply (linked_cons (mkIsogeny (mkCurve 6 2) _ _ _ _) (mkCurve 174 44))%Z; [reflexivity|]. apply (linked_cons (mkIsogeny (mkCurve 174 44) _ _ _ _) (mkCurve 84 111))%Z; [reflexivity|].
  apply (linked_cons (mkIsogeny (mkCurve 84 111) _ _ _ _) (mkCurve 173 178))%Z; [reflexivity|]. constructor.
Qed.
(* the kernel goes to the point at infinity, the point (0, 0) to (0, 0) *)
Example C38_ex : exists chain, factored_kummer_isogeny toy_ops true toyE toyK [(3, 2); (5, 1)]%Z = Some chain /\
  match evaluate_isogeny_chain toy_ops toyE toyK chain, evaluate_isogeny_chain toy_ops toyE (mkPoint 0 0 1)%Z chain with
  | Some (C, P), Some (_, Q) => C = mkCurve 173 178 /\ pZ P = 0 /\ pX Q = 0 /\ pZ Q = 75
  | _, _ => False end%Z.
Proof. eexists. split; [vm_compute; reflexivity|]. vm_compute. repeat split. Qed.
(* compute_codomain_constants is public and not idempotent: calling it again on a finished step replaces the codomain by another curve *)
Theorem C37_recompute_refuted : exists phi phi', isogeny_new toy_ops true toyE (mkPoint 116 47 39)%Z 3 = Some phi /\ compute_codomain_constants toy_ops phi = Some phi' /\ i_cod phi' <> i_cod phi.
Proof. eexists. eexists. split; [vm_compute; reflexivity|]. split; [vm_compute; reflexivity|]. vm_compute. discriminate. Qed.
Print Assumptions C37_chain.
Print Assumptions C37_terminates.
Print Assumptions C37_exponent_zero_refuted.
Print Assumptions C37_exponents.
Print Assumptions C38_composition.
Print Assumptions C38_single.
Print Assumptions C38_total.
Print Assumptions C38_basis.
Print Assumptions C38_sign_lost.
Print Assumptions C37_recompute_refuted.
