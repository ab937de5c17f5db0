(** C68, concrete case: a product isogeny of length four over the field with 12289 elements, for which all hypotheses of the generic form of [C68_product_isogeny] are checked. *)
From Coq Require Import Arith ZArith List Bool Lia.
From Verif Require Import M_Fp M_Field M_Curve M_Theta S_Curve S_Theta S_KummerSurf S_Strategy L_Group L_Field L_Curve L_Theta L_KummerSurf L_KummerFun L_Strategy L_ThetaStep L_ThetaProd L_ToyField P_Strategy.
Import ListNotations.
Open Scope nat_scope.
Notation wdual := (dual wadd wopp). Notation wsqdual := (sqdual wadd wmul wopp). Notation wlevel := (level22 wadd wmul wopp).
Notation wsame := (same_point w0 wmul). Notation wgen := (generic_null w0 wadd wmul wopp). Notation wonk := (on_kummer w0 w1 wadd wmul wsub). Notation wtv := (@tv W W (fun x => x)).
Definition nzb (x : W) : bool := negb (weqb x w0).
Lemma nzb_ok x : nzb x = true -> x <> w0.
Proof. unfold nzb. intros H E. apply weqb_ok in E. rewrite E in H. discriminate. Qed.
Definition all4 (f : nat -> bool) : bool := f 0 && f 1 && f 2 && f 3.
Lemma all4_ok f : all4 f = true -> forall i, i < 4 -> f i = true.
Proof. unfold all4. rewrite !andb_true_iff. intros [[[H0 H1] H2] H3] i Hi. destruct i as [|[|[|[|i]]]]; [assumption..|lia]. Qed.
Definition gend (a : nat -> W) : bool := all4 (fun i => nzb (a i)) && all4 (fun chi => all4 (fun i => dot chi i || nzb (wlevel a chi i))).
Lemma gend_ok a : gend a = true -> wgen a.
Proof.
  unfold gend. rewrite andb_true_iff. intros [H1 H2]. split; [intros i Hi; apply nzb_ok; exact (all4_ok _ H1 i Hi)|].
  intros chi i (Hc & Hi & D). pose proof (all4_ok _ (all4_ok _ H2 chi Hc) i Hi) as H. cbv beta in H. rewrite D in H. apply nzb_ok. exact H.
Qed.
(* the coefficients of the surface *)
Definition wsq (x : W) : W := wmul x x.
Definition coefF (a b c d : W) : W := let q x := wsq (wsq x) in wdiv (wsub (wadd (q a) (q b)) (wadd (q c) (q d))) (wsub (wmul (wsq a) (wsq b)) (wmul (wsq c) (wsq d))).
Definition ond (a x : nat -> W) : bool :=
  let F1 := coefF (a 0) (a 1) (a 2) (a 3) in let F2 := coefF (a 0) (a 2) (a 1) (a 3) in let F3 := coefF (a 0) (a 3) (a 1) (a 2) in
  let E := wdiv (wmul (a 0) (wsub (wadd (wadd (wmul F1 (wsq (a 1))) (wmul F2 (wsq (a 2)))) (wmul F3 (wsq (a 3)))) (wmul (wadd w1 w1) (wsq (a 0))))) (wmul (wmul (a 1) (a 2)) (a 3)) in
  all4 (fun i => weqb (half_partial w1 wadd wmul wsub E F1 F2 F3 a i) w0) && weqb (quartic w1 wadd wmul wsub E F1 F2 F3 x) w0.
Lemma ond_ok a x : ond a x = true -> wonk a x.
Proof.
  unfold ond. set (F1 := coefF _ _ _ _). set (F2 := coefF _ _ _ _). set (F3 := coefF _ _ _ _). set (E := wdiv _ _). rewrite andb_true_iff. intros [H1 H2]. exists E, F1, F2, F3.
  split; [intros i Hi; apply weqb_ok; exact (all4_ok _ H1 i Hi)|apply weqb_ok; exact H2].
Qed.
Definition samed (x y : nat -> W) : bool := let c := wdiv (x 0) (y 0) in nzb c && all4 (fun i => weqb (x i) (wmul c (y i))).
Lemma samed_ok x y : samed x y = true -> wsame x y.
Proof. unfold samed. set (c := wdiv _ _). rewrite andb_true_iff. intros [H1 H2]. exists c. split; [exact (nzb_ok _ H1)|intros i Hi; apply weqb_ok; exact (all4_ok _ H2 i Hi)]. Qed.
(* one step *)
Definition kerd (A s1 s2 : nat -> W) : bool := let x := wdiv (s1 0) (A 0) in let z := wdiv (s2 0) (A 0) in let t := wdiv (s2 1) (A 1) in
  nzb x && nzb z && nzb t && weqb (s1 0) (wmul x (A 0)) && weqb (s1 1) (wmul x (A 1)) && weqb (s2 0) (wmul z (A 0)) && weqb (s2 1) (wmul t (A 1)) && weqb (s2 2) (wmul z (A 2)) && weqb (s2 3) (wmul t (A 3)).
Lemma kerd_ok A s1 s2 : kerd A s1 s2 = true -> kernel8 (k0 := w0) (kmul := wmul) A s1 s2.
Proof.
  unfold kerd. set (x := wdiv (s1 0) _). set (z := wdiv (s2 0) _). set (t := wdiv (s2 1) _). rewrite !andb_true_iff. intros ((((((((H1 & H2) & H3) & H4) & H5) & H6) & H7) & H8) & H9).
  exists x, z, t. repeat split; first [apply nzb_ok; assumption|apply weqb_ok; assumption].
Qed.
Definition wstage (m : nat) (x : nat -> W) : nat -> W := if Nat.eqb m 0 then wdual x else x.
Definition stepA (m : nat) (N : tpoint W) (s1 s2 A : nat -> W) (e : W) : bool :=
  all4 (fun i => nzb (A i)) && (Nat.leb m 1 || all4 (fun i => nzb (wdual A i))) && (Nat.eqb m 0 || (nzb e && all4 (fun i => weqb (wsqdual (wtv N) i) (wmul e (wmul (A i) (A i)))))) && kerd A s1 s2.
Definition chooseA (s1 s2 : nat -> W) : nat -> W :=
  let B := wdiv (s1 1) (s1 0) in let C := wdiv (s2 2) (s2 0) in let D := wmul (wdiv (s2 3) (s2 1)) B in fun i => match i with 0 => w1 | 1 => B | 2 => C | _ => D end.
Definition stepd (m : nat) (N T1 T2 : tpoint W) : bool :=
  let s1 := wsqdual (wstage m (wtv T1)) in let s2 := wsqdual (wstage m (wtv T2)) in stepA m N s1 s2 (chooseA s1 s2) (wsqdual (wtv N) 0).
Notation wstep_hyp := (step_hyp (k0 := w0) (kadd := wadd) (kmul := wmul) (kopp := wopp) (v := fun x : W => x)).
Lemma stepA_ok m N T1 T2 A e : stepA m N (wsqdual (wstage m (wtv T1))) (wsqdual (wstage m (wtv T2))) A e = true -> wstep_hyp m N T1 T2 A.
Proof.
  unfold stepA. rewrite !andb_true_iff. intros [[[H1 H2] H3] H4]. split; [|split; [|exact (kerd_ok _ _ _ H4)]].
  - intros i Hi. split; [apply nzb_ok; exact (all4_ok _ H1 i Hi)|]. intros Hm. destruct (Nat.leb_spec m 1) as [L|L]; [lia|]. apply nzb_ok. exact (all4_ok _ H2 i Hi).
  - intros Hm. destruct (Nat.eqb_spec m 0) as [L|L]; [lia|]. cbn [orb] in H3. apply andb_true_iff in H3. destruct H3 as [H3 H5]. exists e. split; [apply nzb_ok; exact H3|]. intros i Hi. apply weqb_ok. exact (all4_ok _ H5 i Hi).
Qed.
Lemma stepd_ok m N T1 T2 : stepd m N T1 T2 = true -> exists A, wstep_hyp m N T1 T2 A.
Proof. intros H. eexists. exact (stepA_ok m N T1 T2 _ _ H). Qed.
Fixpoint kernd (m : nat) (N x y : tpoint W) : bool :=
  match m with
  | O => true
  | S m' => let d := ts_new toyw N in let u := theta_double_iter toyw d x m' in let w := theta_double_iter toyw d y m' in
      stepd m' N u w && kernd m' (ts_null (step_cod toyw m' d u w)) (step_img toyw m' d u w x) (step_img toyw m' d u w y)
  end.
Notation wkernel_ok := (kernel_ok (o := toyw) (k0 := w0) (kadd := wadd) (kmul := wmul) (kopp := wopp) (v := fun x : W => x)).
Lemma kernd_ok m : forall N x y, kernd m N x y = true -> wkernel_ok m N x y.
Proof.
  induction m as [|m IH]; intros N x y H; [exact I|]. apply andb_prop in H. destruct H as [H1 H2]. exact (conj (stepd_ok _ _ _ _ H1) (IH _ _ _ H2)).
Qed.
Definition glued (EE : eprod W) (P Q : couple W) (n : nat) : bool := let N := glue_dom (o := toyw) EE P Q n in let g := glue_img (o := toyw) EE P Q n in
  gend (wtv N) && forallb (fun R => ond (wtv N) (wtv (g R)) && forallb (fun c => samed (wtv (g (prod_double_iter toyw EE R c))) (wtv (theta_double_iter toyw (ts_new toyw N) (g R) c))) (seq 0 n)) [P; Q] && kernd n N (g P) (g Q).
Notation wresult := (same_res (k0 := w0) (kopp := wopp) (kdiv := wdiv) (keq := weqb) (v := fun x : W => x)).
Lemma glued_ok EE P Q n imgs s : glued EE P Q n = true -> strat (S n) s -> wresult (product_isogeny toyw EE P Q imgs (S n) s) (product_isogeny_no_strategy toyw EE P Q imgs (S n)).
Proof.
  unfold glued. set (N := glue_dom EE P Q n). set (g := glue_img EE P Q n). intros H Hs. apply andb_prop in H. destruct H as [H HK]. apply andb_prop in H. destruct H as [HG HF].
  refine (product_same toyw_laws (fun x y E => E) EE P Q imgs n s Hs (gend_ok _ HG) _ (kernd_ok _ _ _ _ HK)).
  intros R HR. rewrite forallb_forall in HF. specialize (HF R HR). apply andb_prop in HF. destruct HF as [HO HC]. split; [exact (ond_ok _ _ HO)|]. intros c Hc. apply samed_ok. rewrite forallb_forall in HC. apply HC. apply in_seq. lia.
Qed.
(* y^2 = x^3 + A x^2 + x for A = 11905 and 4326, and couples of points of order 64 *)
Definition wcurve (A : Z) : curve W := mkCurve (mkw A) (wdiv (wadd (mkw A) (mkw 2)) (mkw 4)).
Definition wpt (x y : Z) : point W := mkPoint (mkw x) (mkw y) w1.
Definition exEE : eprod W := mkEprod (wcurve 11905) (wcurve 4326).
Definition exP : couple W := mkCouple (wpt 4557 4098) (wpt 6377 7735). Definition exQ : couple W := mkCouple (wpt 11021 4994) (wpt 8795 9091).
Lemma ex_glued : glued exEE exP exQ 3 = true.
Proof. vm_compute. reflexivity. Qed.
Example ex_strat : strat 4 [2; 1; 1].
Proof. exact (strat_node 2 2 [1] [1] (strat_node 1 1 [] [] strat_leaf strat_leaf) (strat_node 1 1 [] [] strat_leaf strat_leaf)). Qed.
(* the images of two couple points by a balanced strategy, and by none *)
Definition exR : couple W := mkCouple (add_pts toyw (e1 exEE) (c1 exP) (c1 exQ)) (c2 exP).
Example C68_product_isogeny_ex : wresult (product_isogeny toyw exEE exP exQ [exR; exP] 4 [2; 1; 1]) (product_isogeny_no_strategy toyw exEE exP exQ [exR; exP] 4).
Proof. exact (glued_ok exEE exP exQ 3 [exR; exP] [2; 1; 1] ex_glued ex_strat). Qed.
Definition show (r : option (eprod W * list (couple W))) : option (Z * Z * list (Z * Z * Z * (Z * Z * Z))) :=
  match r with None => None | Some (EE, l) => Some (uw (cA (e1 EE)), uw (cA (e2 EE)), map (fun R => (uw (pX (c1 R)), uw (pY (c1 R)), uw (pZ (c1 R)), (uw (pX (c2 R)), uw (pY (c2 R)), uw (pZ (c2 R))))) l) end.
Example C68_product_isogeny_val : show (product_isogeny toyw exEE exP exQ [exR; exP] 4 [2; 1; 1]) = Some (384%Z, 3313%Z, [(11993%Z, 2%Z, 6332%Z, (2758%Z, 2672%Z, 12017%Z)); (0%Z, 0%Z, 0%Z, (6370%Z, 579%Z, 6370%Z))]).
Proof. vm_compute. reflexivity. Qed.
Print Assumptions C68_product_isogeny_ex.
