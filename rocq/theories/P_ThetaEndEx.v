(** Concrete case for C70 over a small field: the chain of P_KummerEx ends in a product (src/theta.rs:607-721, 771-1042). *)
From Coq Require Import Arith ZArith List Bool Lia.
From Verif Require Import M_Fp M_Field M_Curve M_Theta S_Curve S_Theta S_KummerSurf S_Strategy L_Group L_Field L_Curve L_Theta L_KummerSurf L_KummerFun L_Strategy L_ThetaStep L_ThetaEnd L_ThetaSplit P_KummerEx L_ThetaProd L_ToyField P_Strategy.
Import ListNotations.
Open Scope nat_scope.

(* the last step, with the values of the specification given and computed *)
Definition endA (c : nat) (N T1 T2 : tpoint W) (A : nat -> W) (e : W) : bool :=
  stepA 0 N (wsqdual (wstage 0 (wtv T1))) (wsqdual (wstage 0 (wtv T2))) A e && weqb (wdual (wtv N) c) w0 && nzb e && all4 (fun i => weqb (wsqdual (wdual (wtv N)) i) (wmul e (wmul (A i) (A i)))).
Definition endd (c : nat) (N T1 T2 : tpoint W) : bool := endA c N T1 T2 (chooseA (wsqdual (wstage 0 (wtv T1))) (wsqdual (wstage 0 (wtv T2)))) (wsqdual (wdual (wtv N)) 0).
Fixpoint endsd (c m : nat) (N x y : tpoint W) : bool :=
  match m with
  | O => true
  | S m' => let d := ts_new toyw N in let u := theta_double_iter toyw d x m' in let w := theta_double_iter toyw d y m' in
      (if Nat.eqb m' 0 then endd c N u w else stepd m' N u w) && endsd c m' (ts_null (step_cod toyw m' d u w)) (step_img toyw m' d u w x) (step_img toyw m' d u w y)
  end.
Notation wends_ok := (ends_ok (o := toyw) (k0 := w0) (kadd := wadd) (kmul := wmul) (kopp := wopp) (v := fun x : W => x)).
Lemma endA_ok c (N T1 T2 : tpoint W) A e : endA c N T1 T2 A e = true ->
  wstep_hyp 0 N T1 T2 A /\ wdual (wtv N) c = w0 /\ above (k0 := w0) (kadd := wadd) (kmul := wmul) (kopp := wopp) e (wdual (wtv N)) A.
Proof.
  unfold endA. rewrite !andb_true_iff. intros [[[S1 S2] S3] S4]. pose proof (stepA_ok 0 _ _ _ _ _ S1) as H. split; [exact H|]. split; [apply weqb_ok; exact S2|]. split; [exact (nzb_ok _ S3)|].
  intros i Hi. split; [exact (proj1 (proj1 H i Hi))|apply weqb_ok; exact (all4_ok _ S4 i Hi)].
Qed.
Lemma endd_ok c N T1 T2 : endd c N T1 T2 = true -> exists A, wstep_hyp 0 N T1 T2 A /\ (0 = 0 -> wdual (wtv N) c = w0 /\ exists e, above (k0 := w0) (kadd := wadd) (kmul := wmul) (kopp := wopp) e (wdual (wtv N)) A).
Proof.
  unfold endd. generalize (chooseA (wsqdual (wstage 0 (wtv T1))) (wsqdual (wstage 0 (wtv T2)))), (wsqdual (wdual (wtv N)) 0). intros A e H. destruct (endA_ok c N T1 T2 A e H) as (H1 & H2 & H3).
  exists A. split; [exact H1|]. intros _. split; [exact H2|]. exists e. exact H3.
Qed.
Lemma end_or m c N u w : (if Nat.eqb m 0 then endd c N u w else stepd m N u w) = true -> exists A, wstep_hyp m N u w A /\ (m = 0 -> wdual (wtv N) c = w0 /\ exists e, above (k0 := w0) (kadd := wadd) (kmul := wmul) (kopp := wopp) e (wdual (wtv N)) A).
Proof. destruct m as [|m]; cbn [Nat.eqb]; intros H; [exact (endd_ok _ _ _ _ H)|]. destruct (stepd_ok _ _ _ _ H) as [A HA]. exists A. split; [exact HA|]. intros E. discriminate E. Qed.
Lemma endsd_ok c m : forall N x y, endsd c m N x y = true -> wends_ok c m N x y.
Proof.
  induction m as [|m IH]; intros N x y H; [exact I|]. apply andb_prop in H. destruct H as [H1 H2]. exact (conj (end_or _ _ _ _ _ H1) (IH _ _ _ H2)).
Qed.
(* the chain of P_KummerEx after its gluing step: three steps, the last one to a product at location (2,0) *)
Lemma ex_ends : endsd 2 3 (glue_dom (o := toyw) exEE exP exQ 3) (glue_img (o := toyw) exEE exP exQ 3 exP) (glue_img (o := toyw) exEE exP exQ 3 exQ) = true.
Proof. vm_compute. reflexivity. Qed.
Example C70_product_isogeny_ex : wends_ok 2 3 (glue_dom (o := toyw) exEE exP exQ 3) (glue_img (o := toyw) exEE exP exQ 3 exP) (glue_img (o := toyw) exEE exP exQ 3 exQ).
Proof. exact (endsd_ok _ _ _ _ _ ex_ends). Qed.
Example C70_index_val : identify_even_index toyw (ts_null (fst (chain (theta_double_iter toyw) (step_cod toyw) (step_img toyw) 3 (ts_new toyw (glue_dom (o := toyw) exEE exP exQ 3)) (glue_img (o := toyw) exEE exP exQ 3 exP) (glue_img (o := toyw) exEE exP exQ 3 exQ) []))) = (2, 0).
Proof. vm_compute. reflexivity. Qed.
Print Assumptions C70_product_isogeny_ex.
