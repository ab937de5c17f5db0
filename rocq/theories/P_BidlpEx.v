(** Concrete cases of order 5 for the theorems of odd order (C28, C55, C56): y^2 = x^3 + x over F_p^2. *)
From Coq Require Import Arith ZArith List Bool Lia Ring Field Znumtheory.
From Verif Require Import M_Super2 M_Festa P_Festa S_Fp S_Fp2 S_Dlog S_Curve S_Params M_Fp M_Fp2 M_Field M_Curve M_Consts M_Dlog M_Pairing M_Super L_Words L_FpCodec L_Zp L_Zp2 L_Fp L_Fp2 L_Fp2Roots L_Fp2Misc L_Group L_Kummer L_Field L_QNum L_Curve L_Ints L_Dlog L_Super L_Weil L_Weil2 L_Weil3 L_PairEx L_Ex5 L_Pairing P_Fp2 P_Params P_Curve P_Dlog P_Super P_Pairing P_PairEx L_Festa P_Bidlp L_Params.
Import ListNotations.
Open Scope Z_scope.

(** S = a + b i with S^2 = -5 + 10 i and Y = c + d i with Y^2 = S (4 + 2 i) *)
Definition e5a : Z := 90210396017216493745155844977393730220227026229832707022934599921442934277052859250329804495879879211087267889736438991963894860856489338764596977993956183721149424860794509771437771654867694829326949651840189095545475997681244160657638894068680415740654416653730254030598369734651700847001716750671091460347267918243459412876033760295441820765140326124039052205280935728815935824123553071.
Definition e5b : Z := 33998774777024006897995280318401537359527405504068569670570402119072569220444936364942601154426789133183338891269900960042366960575166123926476686376063089568986690831581360140125303736197576232772807319293508305790606247500417912064338799650319956575449578947662875601294542123983811375189510002123361515110470427276462530826312744988796589617297173656463642871685018630196491148749840620.
Definition e5c : Z := 37781103445840573805467947462504003623592632781654189514115771618253731612965256062473335261675563245977747984099719261164196699332881362502573153586747404463389908948138450098065875651563781959570779363765755679209173989543229155011488554943065603218714157160834512225429513003188858860174089289467064340852783780781074229144048207406131294505651218582326616963016588422122032113132037413.
Definition e5d : Z := 115883365823651014368084231602156600613754177092441277015981590809143492490593810309305045258788517559803395370283411767625225372022783414029711573365219626830612872318262054520825097296701823608145960813314227850373912213437398935536246687105168478291042965639469097347024905740769241756917245683943554055090580945633812948708049683027808105328351425629481707688758217398386526760477582611.
Lemma e5_1 : mk (e5a * e5a - e5b * e5b) = mk (-5). Proof. apply mk_eq. exists 55939510405215493465704829358112822184420548483368603932668550871692984313886166340219321839415784167601890048855643747791915431075567194074091603183971764549458632345088727159455471983633047225659876713476212464044423981231470602185624104406883542908939605620290589597706366905284714701373471595945220970209465160095380849290733438678592754765196929515154062317892702451778951051011013354. reflexivity. Qed.
Lemma e5_2 : mk (2 * e5a * e5b) = mk 10. Proof. apply mk_eq. exists 49146063651186847396443235273572695193049557268145929362363292674201817947525355694277449724042339529178955124305888348422204636561605180209999157607611151088065757933024188242913456703999659208974402322957670321356413754673600415618078229022734827084473064070134112997939240181564803664785612320253350148335870368009603621005067277476413233475144525503821148980420049159365903799817711970. reflexivity. Qed.
Lemma e5_3 : mk (e5c * e5c - e5d * e5d) = mk (4 * e5a - 2 * e5b). Proof. apply mk_eq. exists (-96155905454753122090527009661684091753798677380367139859282997300321169909115085121205051236180952909303432049691523312088953061767672143353310876851223695235831211503587242992161272150861217706073757655794302538907742352874859591485307090949639318616886581340719223671031246030122538172610709774485240038476438863068977705777971866542473323708040802562678047003222593146845241579814184204). reflexivity. Qed.
Lemma e5_4 : mk (2 * e5c * e5d) = mk (2 * e5a + 4 * e5b). Proof. apply mk_eq. exists 70155968039929744061263539498550766960187574847611595738774570054508711697029938323785230552017679919535154272100219133078906456526212136470181909489911772162182064854912606903634105579036167972876563738199070597113550699547256873634342149162100912544925136038758292327526846698949997258216353391061787879413285778296366864273832726794858042741663146053306111004818023414510767993169057936. reflexivity. Qed.
Definition e5S : Zq := (mk e5a, mk e5b).
Definition e5Y : Zq := (mk e5c, mk e5d).
Definition e5T : Zq := (mk e5a, zopp (mk e5b)).
Definition e5Z : Zq := (mk e5c, zopp (mk e5d)).
Ltac mks := rewrite ?zp0_eq, ?zp1_eq; repeat first [rewrite <- mk_mul | rewrite <- mk_opp | rewrite <- mk_add | rewrite <- mk_sub].
Lemma pair_eq (a b c d : Zp) : a = c -> b = d -> (a, b) = (c, d). Proof. intros -> ->. reflexivity. Qed.
Section Rel.
Context (a b c d : Z) (H1 : mk (a * a - b * b) = mk (-5)) (H2 : mk (2 * a * b) = mk 10) (H3 : mk (c * c - d * d) = mk (4 * a - 2 * b)) (H4 : mk (2 * c * d) = mk (2 * a + 4 * b)).
Ltac comp := cbv [qmul qadd qopp qim q5 q3 q2 q1 q4 fst snd]; apply pair_eq; mks.
Ltac via H := first [ transitivity (mk (-5)); [rewrite <- H; f_equal; ring|f_equal; ring] | etransitivity; [|etransitivity; [exact H|]]; f_equal; ring ].
Lemma rS : qmul (mk a, mk b) (mk a, mk b) = qadd (qopp q5) (qmul (qmul q2 q5) qim). Proof. comp; [via H1|via H2]. Qed.
Lemma rY : qmul (mk c, mk d) (mk c, mk d) = qmul (mk a, mk b) (qadd q4 (qmul q2 qim)). Proof. comp; [via H3|via H4]. Qed.
End Rel.
Lemma e5_HS : qmul e5S e5S = qadd (qopp q5) (qmul (qmul q2 q5) qim). Proof. exact (rS _ _ e5_1 e5_2). Qed.
Lemma e5_HY : qmul e5Y e5Y = qmul e5S (qadd q4 (qmul q2 qim)). Proof. exact (rY _ _ _ _ e5_3 e5_4). Qed.
(** conjugation gives the other eigenpoint *)
Lemma conj_mul x y : qconj (qmul x y) = qmul (qconj x) (qconj y). Proof. qring. Qed.
Lemma conj_add x y : qconj (qadd x y) = qadd (qconj x) (qconj y). Proof. qring. Qed.
Lemma conj_opp x : qconj (qopp x) = qopp (qconj x). Proof. qring. Qed.
Lemma conj_1 : qconj q1 = q1. Proof. qring. Qed.
Lemma conj_i : qconj qim = qopp qim. Proof. unfold qim. qring. Qed.
Ltac cj := repeat first [rewrite conj_mul | rewrite conj_add | rewrite conj_opp | rewrite conj_1 | rewrite conj_i].
Lemma conj_2 : qconj q2 = q2. Proof. unfold q2. cj. reflexivity. Qed.
Lemma conj_4 : qconj q4 = q4. Proof. unfold q4, q3, q2. cj. reflexivity. Qed.
Lemma conj_5 : qconj q5 = q5. Proof. unfold q5, q3, q2. cj. reflexivity. Qed.
Lemma e5_HT : qmul e5T e5T = qadd (qopp q5) (qmul (qmul q2 q5) (qopp qim)).
Proof. change e5T with (qconj e5S). rewrite <- conj_mul, e5_HS. cj. rewrite conj_2, conj_5. reflexivity. Qed.
Lemma e5_HZ : qmul e5Z e5Z = qmul e5T (qadd q4 (qmul q2 (qopp qim))).
Proof. change e5Z with (qconj e5Y). rewrite <- conj_mul, e5_HY. cj. rewrite conj_2, conj_4. reflexivity. Qed.
Global Opaque e5S e5T e5Y e5Z.
Notation x5P := (L_Ex5.x5P (k1 := q1) (kadd := qadd) (kdiv := qdiv)).
Record ex5 (E : curve fq) (P Q : point fq) : Prop := { e5_v : valid E; e5_A : coeff E = q0; e5_P : affine P = x5P e5S e5Y; e5_Q : affine Q = x5P e5T e5Z; e5_oP : on_E E P; e5_oQ : on_E E Q }.
Lemma ex5_some : exists E P Q, ex5 E P Q.
Proof.
  destruct (fq_surj q0) as [a Va]. destruct (fq_surj (qdiv e5S q5)) as [x1 X1]. destruct (fq_surj (qdiv e5Y q5)) as [y1 Y1]. destruct (fq_surj (qdiv e5T q5)) as [x2 X2]. destruct (fq_surj (qdiv e5Z q5)) as [y2 Y2].
  exists (mkE a), (new_xy fq_ops x1 y1), (new_xy fq_ops x2 y2).
  assert (AP : affine (new_xy fq_ops x1 y1) = x5P e5S e5Y). { change (affine ?R) with (aff (k0 := q0) (kdiv := qdiv) (keq := qeqb) (v := fqv) R). rewrite (aff_new_xy fq_laws), X1, Y1. reflexivity. }
  assert (AQ : affine (new_xy fq_ops x2 y2) = x5P e5T e5Z). { change (affine ?R) with (aff (k0 := q0) (kdiv := qdiv) (keq := qeqb) (v := fqv) R). rewrite (aff_new_xy fq_laws), X2, Y2. reflexivity. }
  assert (EA : coeff (mkE a) = q0) by exact Va.
  constructor; auto.
  - apply mkE_valid. rewrite Va. exact (x5_smooth Zq_field qeqb_true q2_nz).
  - unfold on_E. rewrite AP, EA. exact (x5_on Zq_field q5_nz qim e5S e5Y qim_sq e5_HS e5_HY).
  - unfold on_E. rewrite AQ, EA. exact (x5_on Zq_field q5_nz (qopp qim) e5T e5Z (Hi' Zq_field qim qim_sq) e5_HT e5_HZ).
Qed.
Lemma mod5 i : (i mod 5 = 0)%nat -> (5 | Z.of_nat i).
Proof. intros H. exists (Z.of_nat (i / 5)). rewrite (Nat.div_mod_eq i 5) at 1. lia. Qed.
Section Ex5.
Context (E : curve fq) (P Q : point fq) (X : ex5 E P Q).
Lemma ex5_basis : n_basis (coeff E) 5 (affine P) (affine Q).
Proof.
  destruct X as [V EA AP AQ OP OQ]. rewrite EA, AP, AQ. split; [|split].
  - rewrite pmA by lia. exact (x5_m5 Zq_field qeqb_true q2_nz q5_nz qim e5S e5Y qim_sq e5_HS e5_HY).
  - rewrite pmA by lia. exact (x5_m5 Zq_field qeqb_true q2_nz q5_nz (qopp qim) e5T e5Z (Hi' Zq_field qim qim_sq) e5_HT e5_HZ).
  - intros i j Hi Hj Z. rewrite (pmA _ i), (pmA _ j) in Z by assumption. destruct (x5_indep Zq_field qeqb_true q2_nz q5_nz qim e5S e5Y e5T e5Z qim_sq e5_HS e5_HY e5_HT e5_HZ _ _ Z) as [A B]. apply mod5 in A, B. rewrite Z2Nat.id in A, B by assumption. auto.
Qed.
Lemma order5 w : qpow w 5 = q1 -> w <> q1 -> unit_order w 5.
Proof.
  intros P5 N. split; [lia|]. split; [exact P5|]. intros k Hk E1. apply N.
  assert (G : forall i, 0 <= i -> qpow w (5 * i) = q1) by (intros i Hi; rewrite qpow_mul, P5 by lia; apply qpow_q1). assert (H : forall i, 0 <= i -> qpow w (k * i) = q1) by (intros i Hi; rewrite qpow_mul, E1 by lia; apply qpow_q1).
  assert (C : exists i j, 0 <= i /\ 0 <= j /\ k * i = 5 * j + 1) by (assert (k = 1 \/ k = 2 \/ k = 3 \/ k = 4) as [->|[->|[->| ->]]] by lia; [exists 1, 0|exists 3, 1|exists 2, 1|exists 4, 3]; lia).
  destruct C as (i & j & Hi & Hj & Eq). rewrite <- (H i Hi), Eq, qpow_succ, G by lia. symmetry. apply qmul_1_r.
Qed.
Lemma ex5_weil c : exists w, weil_pairing fq_ops c E P Q 5 = Some w /\ unit_order (fqv w) 5.
Proof.
  pose proof ex5_basis as B. pose proof X as [V EA AP AQ OP OQ]. destruct (C55_weil c E 5 P Q V ltac:(lia) OP OQ B) as (w & Ew & W5 & _). exists w. split; [exact Ew|]. apply order5; [exact W5|].
  destruct (weil_PQ c E V 5 ltac:(lia) P Q OP OQ B) as (w' & Ew' & Vw). rewrite Ew in Ew'. apply some_inj in Ew'. subst w'. rewrite Vw. unfold L_Weil.ee. rewrite <- (aP E 5 ltac:(lia) P Q OP B), <- (aQ E 5 ltac:(lia) P Q). rewrite EA, AP, AQ.
  exact (x5_weil_ne Zq_field qeqb_true q2_nz q5_nz qim e5S e5Y e5T e5Z qim_sq e5_HS e5_HY e5_HT e5_HZ).
Qed.
Lemma ex5_order R a b : affine R = padd_q (coeff E) (pmul_q (coeff E) a (affine P)) (pmul_q (coeff E) b (affine Q)) -> 0 < a < 5 -> 0 < b < 5 -> exact_order (coeff E) 5 (affine R).
Proof.
  intros ER Ha Hb. pose proof ex5_basis as B. pose proof X as [V EA AP AQ OP OQ]. assert (SM := valid_smooth E V). assert (H3 : 3 < 5) by lia. rewrite (comb_pz E V 5 H3 P Q OP OQ B) in ER by lia. rewrite ER.
  pose proof (b_OP E 5 H3 P Q B) as O1. pose proof (b_OQ E 5 H3 P Q B) as O2. pose proof (b_in E 5 P Q B) as IN. split.
  - rewrite pmA by lia. exact (pz_order Zq_field qeqb_true q2_nz SM (affine P) (affine Q) OP OQ 5 H3 O1 O2 IN a b).
  - intros k Hk N. rewrite pmA in N by lia. rewrite (pz_mul Zq_field qeqb_true q2_nz SM (affine P) (affine Q) OP OQ 5 H3 O1 O2 IN) in N. apply (pz_None (affine P) (affine Q) 5 H3 IN) in N. rewrite Z2Nat.id in N by lia. destruct N as [[u Hu] _].
    assert (k = 1 \/ k = 2 \/ k = 3 \/ k = 4) as C by lia. clear - Hu Ha C. lia.
Qed.
Lemma ex5_log c : log_entries c [(5, 1)]. Proof. constructor; [|constructor]; cbn [fst snd]; split; [lia|]; split; [lia|intros _; discriminate]. Qed.
Lemma ex5_cop : fcoprime [(5, 1)]. Proof. repeat constructor. Qed.
End Ex5.

(** coordinates (1,2) and (3,4); the basis points themselves make the function panic *)
Example C28_ex5 : exists E P Q, valid E /\ on_E E P /\ on_E E Q /\ n_basis (coeff E) 5 (affine P) (affine Q) /\ forall checks,
  (exists w, weil_pairing fq_ops checks E P Q 5 = Some w /\ unit_order (fqv w) 5) /\
  (forall R a b, on_E E R -> affine R = padd_q (coeff E) (pmul_q (coeff E) a (affine P)) (pmul_q (coeff E) b (affine Q)) -> 0 < a < 5 -> 0 < b < 5 -> bidlp fq_ops (dlp_fq checks) checks E R P Q [(5, 1)] None = Some (a, b)) /\
  bidlp fq_ops (dlp_fq checks) checks E (add_pts fq_ops E P (double_pt fq_ops E Q)) P Q [(5, 1)] None = Some (1, 2) /\
  bidlp fq_ops (dlp_fq checks) checks E P P Q [(5, 1)] None = None /\ bidlp fq_ops (dlp_fq checks) checks E Q P Q [(5, 1)] None = None.
Proof.
  destruct ex5_some as (E & P & Q & X). exists E, P, Q. pose proof X as [V EA AP AQ OP OQ]. pose proof (ex5_basis E P Q X) as B.
  split; [exact V|]. split; [exact OP|]. split; [exact OQ|]. split; [exact B|]. intros c. destruct (ex5_weil E P Q X c) as (w & Ew & Ow). split; [exists w; split; [exact Ew|exact Ow]|].
  assert (G : forall R a b, on_E E R -> affine R = padd_q (coeff E) (pmul_q (coeff E) a (affine P)) (pmul_q (coeff E) b (affine Q)) -> 0 < a < 5 -> 0 < b < 5 -> bidlp fq_ops (dlp_fq c) c E R P Q [(5, 1)] None = Some (a, b)).
  { intros R a b OR ER Ha Hb. pose proof (ex5_order E P Q X R a b ER Ha Hb) as XO.
    assert (T : forall v, weil_pairing fq_ops c E P Q 5 = Some v -> fqv v = qpow (fqv w) 1) by (intros v Ev; rewrite Ew in Ev; apply some_inj in Ev; subst v; rewrite qpow_1; reflexivity).
    pose proof (C28_bidlp_odd c E P Q R [(5, 1)] a b 5 None w 1 V ltac:(reflexivity) eq_refl (ex5_log c) ex5_cop OP OQ OR B ER Ha Hb XO ltac:(lia) ltac:(reflexivity) (or_intror (conj eq_refl Ew)) Ow ltac:(lia) T) as R1.
    rewrite R1. change (fprod [(5, 1)]) with 5. rewrite !Z.mul_1_r, !Z.mod_small by lia. reflexivity. }
  split; [exact G|]. split.
  - destruct (C30_double E Q V OQ) as [OD AD]. destruct (C29_add E P (double_pt fq_ops E Q) V OP OD) as [OR AR]. apply G; try lia; [exact OR|]. rewrite AR, AD. rewrite !pmA by lia. change (Z.to_nat 1) with 1%nat. change (Z.to_nat 2) with 2%nat. rewrite pmul_nat_1, pmul_nat_2. reflexivity.
  - apply (C28_bidlp_odd_panics c E P Q [(5, 1)] w V ltac:(reflexivity) eq_refl (ex5_log c) ex5_cop OP OQ); [rewrite AP; discriminate|rewrite AQ; discriminate|exact (proj1 B)|exact (proj1 (proj2 B))|exact Ew|exact (proj1 (proj2 Ow))].
Qed.
Example C56_ex5 : exists E P Q, valid E /\ n_basis (coeff E) 5 (affine P) (affine Q) /\ forall fuel checks R1 R2, on_E E R1 -> on_E E R2 ->
  affine R1 = padd_q (coeff E) (pmul_q (coeff E) 1 (affine P)) (pmul_q (coeff E) 3 (affine Q)) -> affine R2 = padd_q (coeff E) (pmul_q (coeff E) 2 (affine P)) (pmul_q (coeff E) 1 (affine Q)) ->
  compute_canonical_kernel fq_ops (dlp_fq checks) fuel checks E R1 R2 [(5, 1)] (Some (P, Q)) = Some 3.
Proof.
  destruct ex5_some as (E & P & Q & X). exists E, P, Q. pose proof X as [V EA AP AQ OP OQ]. pose proof (ex5_basis E P Q X) as B. split; [exact V|]. split; [exact B|]. intros fuel c R1 R2 O1 O2 E1 E2. destruct (ex5_weil E P Q X c) as (w & Ew & Ow).
  assert (PR : prime 5) by (assert (H : Forall (fun q : Z * Z => prime (fst q)) [(5, 1)]) by (apply primes_sound; vm_compute; reflexivity); inversion H; assumption).
  assert (HF : Forall (fun f : Z * Z => prime (fst f) /\ (~ (fst f | 1) \/ ~ (fst f | 2))) [(5, 1)]) by (constructor; [|constructor]; split; [exact PR|]; left; cbn [fst]; intros [k K]; lia).
  assert (D1 : (5 | 3 - 3 * 1)) by (exists 0; reflexivity). assert (D2 : (5 | 1 - 3 * 2)) by (exists (-1); reflexivity). assert (I1 : 0 < 1 < 5) by lia. assert (I2 : 0 < 2 < 5) by lia. assert (I3 : 0 < 3 < 5) by lia. assert (I5 : 0 < 5) by lia. assert (I25 : 5 < 5 * 5) by lia. assert (H3 : 3 < 5) by lia.
  exact (C56_kernel_odd fuel c E R1 R2 P Q [(5, 1)] 1 3 5 2 1 5 3 w V H3 eq_refl (ex5_log c) ex5_cop HF OP OQ O1 O2 B E1 I1 I3 (ex5_order E P Q X R1 1 3 E1 I1 I3) I5 I25 E2 I2 I1 (ex5_order E P Q X R2 2 1 E2 I2 I1) I5 I25 D1 D2 Ew Ow).
Qed.
Print Assumptions C28_ex5. Print Assumptions C56_ex5.
