(** C52: the published constants P0x, P0y, Q0x, Q0y (src/fields.rs:293-384), documented as a torsion basis of E0. *)
From Coq Require Import ZArith List Bool Lia.
From Bignums Require Import BigZ.
From Verif Require Import S_Fp S_Fp2 S_Curve M_Fp M_Fp2 M_Field M_Curve M_Consts L_Words L_Zp L_Zp2 L_Fp L_Fp2 L_Group L_Field L_QNum L_Curve P_Curve P_PairEx P_Entangled.
Import ListNotations.
Open Scope Z_scope.

(** x and y are elements of the base field, given by the limbs the constants hold (Fp::new stores its argument unchanged) *)
Definition real_of (x : fq) (limbs : list Z) : Prop := proj1_sig x = (limbs, fp_zero).
(** the same integers taken as residues instead of Montgomery representations *)
Definition residue_of (x : fq) (limbs : list Z) : Prop := fqv x = qz (eval limbs).
Definition published : list (list Z * list Z) := [(P0x, P0y); (Q0x, Q0y)].

Lemma canon_published : forallb (fun c => canonb (fst c) && canonb (snd c)) published = true. Proof. vm_compute. reflexivity. Qed.
Definition cubicz (x y : Z) : Z := y * y - (x * x * x + 6 * (x * x) + x).
(* certificates: quotient of the equation at the residues; values vx, vy with the quotients of vx * 2^1344 and vy * 2^1344; quotient and remainder of the equation at the values *)
Definition certs : list (Z * (Z * Z) * (Z * Z) * (Z * Z)) := [
  ((-1674274102417331802306062289016579294865092538810853802857015072128259408837767191206518241194017034671666609008304027634094896713442048512875274543861281827310153505523969569103697986195010644553400333845014863301219033815774530962044293266775411823266424704717233063359135464564574398506148045103210187717823415471705190435952575076613614643482571009436171442278650843323473377561778983812877958307453055999121460934432974898189853175273792059855028839104726423095831627961730106684645336155301747863999472950711059750985897043507339653116806273322522424824421926897011837367465176210152336291435594706783266111858397978709428448430612353689612526229021074426753079255008766015392785661946781305810213285621298817738312832002627975636512028565859311570138403324322114063624170), (12753276906580609409221803641317407745790349761983830758313529102490955858376437261616051846883870749529756585296327234813342499118803342298033428733090539817908253507271940052599222519541322323327465821158941267477127162145253902008280655635711945732300507246557748847418658848308854919990897737374295083345501620543903536486056413735789451274920274939879015174905848198922481154921831831, 39235107699655781145422952487661699715334095116368954212966852601923097320373978956521857909173898491628849200510852657731072621517787068171445111350808222483839137455789096977610176266043647831389396355268555334375098292970453823074559159713351352404115154591106450621459979547873683363046085710891466192501380224784149508329946383063840867638037156834441378198112902307822492744823758349691612803975718), (123415093178879623582997493573668936754959128513365256611560542852094075148999638962825420999255550328713960584137214684774907281597896340461683443100910054358650713971489910308526567431452291911739969634624285356074616687857664442886243072162005425155267805841958755075345079479782058570920929482616855611793637758866873360893480006001241694569816222566725867260953014878694353199156565339, 379683159717001755152516635238830322353758547093420778168666785031158806506186272887235681980391794376219039952985700846535069950736245665256883016772428644406212163194261748360582082070351449292789106885020879618876472619709373171745039380402591852218005409529727407834646893198389570745964699728598314689770561775231506905184008572033304151307649767052683183344422386287393381097783955732214367047426328), ((-16618975805844828498607249922813410210166332673821929757120062176390897907888991109798445451083227033041732302152981467387018614385724628032875398930075681737019059896850040486192931318338362858573941671732467536539637549183572351984935547018994646854088543375338248586615124813694003826418352136158738357170567319726738676206047919518562199457435720853702640641987238511497971060850035106586217342082105325285056661174267750317601704326147914303792192702601878397088306571144236790087359910464788323777604183487895673527884533110154591539808766042007829067006338927648866447611590327122758966420280367929194553651782606288534547455861813742392768317915325641697590088427663040829348721156986988721174018293303023461930016320278530322191421533292927179175255993449974342399783), 108563433042884206911183078783204328950924470783869485019317176789908203735172218787727031525741667961647933347762465933825356814393953696363601870806570443796316564051177067795511243337715721499582063536722976827131270446326829043021803437929397466125436027940310972224610591135868406314347106589938029677849077675177653045875870019553063722371225942191485853093263717618128105875977768750));
  ((-6103685011190597816015037353150149976869176340901855836483045959983282969326068996829762415612088640465202556703861233402203261274239697208000881085525893019332749489510193043187808637997082804939450459334730227281261825924860476938148335209080963527246699595967946211010447852903260799090915824073438632694513571358251762818666648765092558708018026946633909836667492021871570000016970503076126033710774730918617796797154492888864532529202754853185354220514104227874611588322802647936146849612715543319988779118825868045571955484507377805229006368457103980615308872385851956274656583429617645803481662867837621566571983702893426285499346866226696571406528683348880275281776295283942877150466366767072416598636026031500744693169135473671266791677701269901555173017276724898721136), (101573941374238559976381696995713712565853732540078000260638864849314600773011129645784881844284456755625220316833312270220694154882803612548016793792164968058303688288410669829505866317005200951850529351785013254170876152136253520238666472816188336306302353669355977605538863662572015091953786402466442159728798741065903450028183524721735062834070344724651585590685642066014736391275207144, 312489453376520132111255442577904332842416700544514210351074433318599898480633458253680292673084719528568966588773259795578408173256881684425280698532693884032644560279753073777421702380992802907761071427162844250063029315107933108924173695237204964004865074900354941708516261340252977780739346438354008013676583024825115920486840641738388506102846054605822264808982139681727112546459821455025558747961888), (105893119515835208616674197129565972015727910422478938809140328271646985269291582502921501725303905667276247528519638237937574513693605957276487915147255783802072309973049766627901591854040477752085090261043561605333191780488276755283696647764831775147595459688891574732535975309843578737867801957696355252513540362368037434237836789456126406271329054663803506782399204408731153372001746242, 325777286833041536028719443555705777401543317125456569239702625658773863743965220502076476501123935763167550542145712409550763533314531457552773148196006030353267404784016002612003874347912113265420416793990467163776395123539497463646880644547875708699563813721620930296433548383547899230592253719803804544492725114043558969366594642222653540046890065915558988601209807315618359319528826717763728896523988), ((-8396258507846983052853641811534368104217602378300949077982584147779901199378966413692842806240732778388834206095887108495686295069138169594484411983467179523643601946602319533283243461242780799830518164794032423483954781581273754524447979001100334239307357947550724791566205299206618558533158287033231051529032724395680100508647993840886968446426260904271057661582430166305096700702341099616842585587015330966661654939202910853447482313004500440664318518554573039911826490925165939192466377394288781632055944793904899628941419077874976359697070332437723848498832152830238719722925232600798578751969381365261297882504773858577827665399326796034800353523071502045911554752297058986595577266868880472565055318650483026607718059534128797874814958884684929955324544455991693908118216), 49518169203670092114834927100540900999148473227709403422007478256790305979805823012304106752432869246568754500638343806881383122285524571954352699473360150473855857983552888553304258028155197941246295491014017494706441583532923701975593484217614637159761932700412296631312646858113315518920478349561845034103873333209338822184122488798293577435621534434036232102718620883185329270200174804)) ].
Definition cert_ok (c : list Z * list Z) (w : Z * (Z * Z) * (Z * Z) * (Z * Z)) : bool :=
  let '(d, (vx, jx), (vy, jy), (k, r)) := w in
  let x := eval (fst c) in let y := eval (snd c) in
  (cubicz x y =? d * P) && (x + jx * P =? vx * WN) && (y + jy * P =? vy * WN) && (cubicz vx vy =? k * P + r) && (0 <? r) && (r <? P).
(* the same check with the library's big integers *)
Definition bcub (x y : bigZ) : bigZ := (y * y - (x * x * x + BigZ.of_Z 6 * (x * x) + x))%bigZ.
Definition bcert_ok (c : list Z * list Z) (w : Z * (Z * Z) * (Z * Z) * (Z * Z)) : bool :=
  let '(d, (vx, jx), (vy, jy), (k, r)) := w in
  let b := BigZ.of_Z in
  let x := b (eval (fst c)) in let y := b (eval (snd c)) in let p := b P in
  (bcub x y =? b d * p)%bigZ && (x + b jx * p =? b vx * b WN)%bigZ && (y + b jy * p =? b vy * b WN)%bigZ && (bcub (b vx) (b vy) =? b k * p + b r)%bigZ && (0 <? r) && (r <? P).
Lemma bcub_spec x y : BigZ.to_Z (bcub (BigZ.of_Z x) (BigZ.of_Z y)) = cubicz x y.
Proof. unfold bcub, cubicz. rewrite !BigZ.spec_sub, !BigZ.spec_add, !BigZ.spec_mul, !BigZ.spec_of_Z. reflexivity. Qed.
Lemma bcert c w : bcert_ok c w = true -> cert_ok c w = true.
Proof.
  destruct w as [[[d [vx jx]] [vy jy]] [k r]]. unfold bcert_ok, cert_ok. cbv zeta. rewrite !BigZ.spec_eqb, !bcub_spec, !BigZ.spec_add, !BigZ.spec_mul, !BigZ.spec_of_Z. auto.
Qed.
Lemma certs_ok : forallb (fun i => bcert_ok (fst i) (snd i)) (combine published certs) = true. Proof. vm_compute. reflexivity. Qed.
Lemma cert_of c : In c published -> exists w, cert_ok c w = true.
Proof.
  intros H. pose proof certs_ok as K. rewrite forallb_forall in K. unfold published in *. destruct certs as [|w1 [|w2 [|]]] eqn:E; try discriminate E. destruct H as [<-|[<-|[]]]; [exists w1; apply bcert, (K (P0x, P0y, w1)); left; reflexivity|exists w2; apply bcert, (K (Q0x, Q0y, w2)); right; left; reflexivity].
Qed.
#[global] Opaque certs.
Lemma qz_mod a b : a mod P = b mod P <-> qz a = qz b.
Proof. unfold qz. split; intros H. - f_equal. apply zval_inj. rewrite !zval_mk. exact H. - apply (f_equal (fun q => zval (fst q))) in H. cbn [fst] in H. rewrite !zval_mk in H. exact H. Qed.
Lemma P_nz : P <> 0. Proof. discriminate. Qed.
Lemma on_qz x y : on_q (coeff E0) (Some (qz x, qz y)) <-> (P | cubicz x y).
Proof.
  rewrite E0_coeff. unfold on_q, on. rewrite <- !qz_mul, <- ?qz_add. unfold cubicz. rewrite <- qz_mod. pose proof P_nz as N. revert N. generalize P. intros p N.
  replace (x * x * x + 6 * (x * x) + x) with (x * (x * x) + 6 * (x * x) + x) by ring. generalize (y * y) (x * (x * x) + 6 * (x * x) + x). intros u v. split; intros H.
  - exists (u / p - v / p). pose proof (Z.div_mod u p N). pose proof (Z.div_mod v p N). nia.
  - destruct H as [k H]. replace u with (v + k * p) by lia. apply Z.mod_add, N.
Qed.
Lemma real_val x c : real_of x c -> fqv x = qz (val c).
Proof. intros H. unfold fqv. rewrite H. unfold fv2, qz, fv. cbn [fst snd]. f_equal. apply zval_inj. rewrite zval_mk, zp0_eq, zval_mk. f_equal. Qed.

(** every published limb vector is a reduced representation, so Fp::new stores a well-formed element *)
Theorem C52_canonical : forall cx cy, In (cx, cy) published -> canon cx /\ canon cy.
Proof.
  intros cx cy H. pose proof canon_published as C. rewrite forallb_forall in C. specialize (C _ H). cbn [fst snd] in C. apply andb_true_iff in C. rewrite !canonb_ok in C. exact C.
Qed.
(** read as integers modulo p the coordinates are points of E0, and the checked constructor accepts them *)
Theorem C52_residues : forall cx cy x y, In (cx, cy) published -> residue_of x cx -> residue_of y cy ->
  exists R, point_xy_vartime fq_ops E0 x y = Some R /\ on_E E0 R /\ affine R = Some (fqv x, fqv y).
Proof.
  intros cx cy x y H Hx Hy. destruct (cert_of _ H) as [[[[d [vx jx]] [vy jy]] [k r]] W]. unfold cert_ok in W. cbn [fst snd] in W. rewrite !andb_true_iff, !Z.eqb_eq in W. destruct W as [[[[[C _] _] _] _] _].
  assert (D : (P | cubicz (eval cx) (eval cy))) by (exists d; exact C). clear C. rename D into C. apply on_qz in C. rewrite <- Hx, <- Hy in C.
  unfold point_xy_vartime. pose proof (C46_set_xy E0 x y) as X. destruct (set_xy fq_ops E0 x y) as [R ok]. destruct X as [X1 X2]. apply X1 in C as O. rewrite O in *. exists R. split; [reflexivity|]. unfold on_E. rewrite X2. auto.
Qed.
(** but as the field elements the code defines (limbs taken as a Montgomery representation) neither pair is on E0 *)
Theorem C52_on_curve_refuted : forall cx cy x y, In (cx, cy) published -> real_of x cx -> real_of y cy ->
  ~ on_q (coeff E0) (Some (fqv x, fqv y)) /\ point_xy_vartime fq_ops E0 x y = None /\ on_curve fq_ops E0 (new_xy fq_ops x y) = false.
Proof.
  intros cx cy x y H Hx Hy. assert (C : ~ on_q (coeff E0) (Some (fqv x, fqv y))).
  { destruct (cert_of _ H) as [[[[d [vx jx]] [vy jy]] [k r]] W]. unfold cert_ok in W. cbn [fst snd] in W. rewrite !andb_true_iff, !Z.eqb_eq, !Z.ltb_lt in W. destruct W as [[[[[_ W1] W2] W3] W4] W5].
    assert (VX : fqv x = qz vx) by (rewrite (real_val _ _ Hx); apply qz_mod; rewrite (val_from_cg cx vx); [apply Z.mod_mod, P_nz|exists (- jx); rewrite <- W1; ring]).
    assert (VY : fqv y = qz vy) by (rewrite (real_val _ _ Hy); apply qz_mod; rewrite (val_from_cg cy vy); [apply Z.mod_mod, P_nz|exists (- jy); rewrite <- W2; ring]).
    rewrite VX, VY, on_qz, W3. intros D. apply Z.divide_add_cancel_r in D; [|exists k; reflexivity]. apply Z.divide_pos_le in D; [|exact W4]. exact (Z.lt_irrefl _ (Z.lt_le_trans _ _ _ W5 D)). }
  split; [exact C|]. split.
  - unfold point_xy_vartime. pose proof (C46_set_xy E0 x y) as X. destruct (set_xy fq_ops E0 x y) as [R ok]. destruct X as [X1 X2]. destruct ok; [exfalso; apply C, X1; reflexivity|reflexivity].
  - destruct (on_curve fq_ops E0 (new_xy fq_ops x y)) eqn:E; [|reflexivity]. exfalso. apply C.
    apply C46_on_curve in E. unfold on_E in E. change (affine (new_xy fq_ops x y)) with (aff (k0 := q0) (kdiv := qdiv) (keq := qeqb) (v := fqv) (new_xy fq_ops x y)) in E. rewrite (aff_new_xy fq_laws) in E. exact E.
Qed.
(** the hypotheses of both theorems are met: such elements exist for every published vector *)
Lemma canon_zero : canon fp_zero. Proof. apply canonb_ok. vm_compute. reflexivity. Qed.
Example C52_ex : forall c, In c [P0x; P0y; Q0x; Q0y] -> (exists x, real_of x c) /\ (exists x, residue_of x c) /\ c <> fp_zero.
Proof.
  intros c H. assert (K : canon c) by (destruct (C52_canonical P0x P0y (or_introl eq_refl)), (C52_canonical Q0x Q0y (or_intror (or_introl eq_refl))); destruct H as [<-|[<-|[<-|[<-|[]]]]]; assumption).
  split; [exists (mkq (c, fp_zero) (conj K canon_zero)); reflexivity|]. split; [apply fq_surj|]. destruct H as [<-|[<-|[<-|[<-|[]]]]]; discriminate.
Qed.
Print Assumptions C52_canonical. Print Assumptions C52_residues. Print Assumptions C52_on_curve_refuted.
