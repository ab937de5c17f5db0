(** C41, C43, C56, C58: keys, ciphertexts and the integer side of src/festa.rs; canonical kernels of src/supersingular.rs. *)
From Coq Require Import Arith ZArith List Bool Lia Ring Field Znumtheory.
From Verif Require Import S_Fp S_Fp2 S_Dlog S_Curve S_Params M_Fp M_Fp2 M_Field M_Curve M_Consts M_Dlog M_Pairing M_Super M_Isogeny M_Theta M_Super2 M_Festa L_Words L_FpCodec L_Zp L_Zp2 L_Fp L_Fp2 L_Fp2Roots L_Fp2Misc L_Group L_Kummer L_Field L_QNum L_Curve L_Ints L_Dlog L_Super L_Weil L_Weil2 L_Pairing L_Festa L_Params P_Fp2 P_Params P_Curve P_Dlog P_Super P_Pairing P_PairEx.
Import ListNotations.
Open Scope Z_scope.

(** ** C41: byte encodings *)
Lemma enc_ok (x : fq) : bytes (fenc fq_ops x) /\ length (fenc fq_ops x) = 324%nat.
Proof. destruct (C19_encode _ (fq_c x)) as (A & B & _). split; [exact A|exact B]. Qed.
Lemma dec_enc (x : fq) : fdec fq_ops (fenc fq_ops x) = (x, true).
Proof.
  unfold fq_ops. cbn [fenc fdec]. rewrite (C19_roundtrip _ (fq_c x)). cbn [fst snd]. apply (f_equal2 (@pair fq bool)); [|reflexivity]. apply fq_eq, clamp_ok, fq_c.
Qed.
Lemma dec_ok buf : bytes buf -> length buf = 324%nat -> snd (fdec fq_ops buf) = true -> fenc fq_ops (fst (fdec fq_ops buf)) = buf.
Proof.
  intros Hb Hl. unfold fq_ops. cbn [fenc fdec fst snd].
  destruct (Z_lt_dec (le_value (firstn 162 buf)) P) as [L0|L0]; [destruct (Z_lt_dec (le_value (skipn 162 buf)) P) as [L1|L1]|].
  - destruct (C19_decode_accepts buf Hb Hl L0 L1) as (x & E & C & V). rewrite E. cbn [fst snd]. intros _. rewrite clamp_ok by exact C. exact V.
  - rewrite (C19_decode_rejects buf Hb) by (right; right; lia). cbn. discriminate.
  - rewrite (C19_decode_rejects buf Hb) by (right; left; lia). cbn. discriminate.
Qed.
Lemma dec_bad buf : bytes buf -> length buf = 324%nat -> P <= le_value (firstn 162 buf) \/ P <= le_value (skipn 162 buf) -> fdec fq_ops buf = (fzero fq_ops, false).
Proof.
  intros Hb Hl H. unfold fq_ops. cbn [fdec fzero]. rewrite (C19_decode_rejects buf Hb) by (right; exact H). cbn [fst snd]. apply (f_equal2 (@pair fq bool)); [|reflexivity]. apply fq_eq, clamp_ok, canon2_zero.
Qed.
Lemma enc_len : F2_ENCODED_LENGTH = 324%nat. Proof. reflexivity. Qed.
Lemma dec_step c n (x : fq) rest : dec_fields fq_ops c (S n) (fenc fq_ops x ++ rest) = obind (dec_fields fq_ops c n rest) (fun r => Some (x :: fst r, snd r)).
Proof.
  destruct (enc_ok x) as [_ L]. cbn [dec_fields]. rewrite enc_len. replace (Nat.ltb (length (fenc fq_ops x ++ rest)) 324) with false by (symmetry; apply Nat.ltb_ge; rewrite app_length, L; lia).
  rewrite firstn_app, skipn_app, L, Nat.sub_diag, firstn_O, app_nil_r, skipn_O, firstn_all2, skipn_all2 by lia. cbn [app]. rewrite dec_enc. cbn [negb]. rewrite andb_false_r. reflexivity.
Qed.
Lemma dec_step_bad n w rest : bytes w -> length w = 324%nat -> P <= le_value (firstn 162 w) \/ P <= le_value (skipn 162 w) ->
  dec_fields fq_ops false (S n) (w ++ rest) = obind (dec_fields fq_ops false n rest) (fun r => Some (fzero fq_ops :: fst r, snd r)) /\ dec_fields fq_ops true (S n) (w ++ rest) = None.
Proof.
  intros Hb L Hw. cbn [dec_fields]. rewrite enc_len. replace (Nat.ltb (length (w ++ rest)) 324) with false by (symmetry; apply Nat.ltb_ge; rewrite app_length, L; lia).
  rewrite firstn_app, skipn_app, L, Nat.sub_diag, firstn_O, app_nil_r, skipn_O, firstn_all2, skipn_all2 by lia. cbn [app]. rewrite dec_bad by auto. cbn [negb andb]. split; reflexivity.
Qed.
(** a successful decoding with checks consumed exactly the encodings of the elements *)
Lemma dec_inv n : forall buf xs rest, bytes buf -> dec_fields fq_ops true n buf = Some (xs, rest) -> length xs = n /\ buf = concat (map (fenc fq_ops) xs) ++ rest.
Proof.
  induction n; intros buf xs rest Hb H; cbn [dec_fields] in H; [injection H as <- <-; split; reflexivity|]. rewrite enc_len in H. destruct (Nat.ltb_spec (length buf) 324) as [|L]; [discriminate|].
  destruct (fdec fq_ops (firstn 324 buf)) as [x ok] eqn:D. destruct ok; cbn [negb andb] in H; [|discriminate]. destruct (dec_fields fq_ops true n (skipn 324 buf)) as [[ys r]|] eqn:E; [|discriminate]. cbn [obind fst snd] in H. injection H as <- <-.
  destruct (IHn _ _ _ (bytes_skipn _ _ Hb) E) as [A B]. split; [cbn; lia|]. cbn [map concat]. rewrite <- app_assoc, <- B. rewrite <- (firstn_skipn 324 buf) at 1. f_equal.
  pose proof (dec_ok (firstn 324 buf) (bytes_firstn _ _ Hb) ltac:(rewrite firstn_length; lia)) as O. rewrite D in O. symmetry. apply O. reflexivity.
Qed.
Definition norm_pt (P : point fq) : point fq := new_xy fq_ops (fst (to_xy fq_ops P)) (snd (to_xy fq_ops P)).
Lemma norm_pt_ok P : affine P <> None -> affine (norm_pt P) = affine P.
Proof.
  intros N. unfold norm_pt. change (affine (new_xy fq_ops (fst (to_xy fq_ops P)) (snd (to_xy fq_ops P)))) with (aff (v := fqv) (k0 := q0) (kdiv := qdiv) (keq := qeqb) (new_xy fq_ops (fst (to_xy fq_ops P)) (snd (to_xy fq_ops P)))).
  rewrite (aff_new_xy fq_laws). pose proof (to_xy_ok fq_laws P) as T. change (aff P) with (affine P) in T. destruct (affine P) as [[x y]|]; [|contradiction]. destruct T as [-> ->]. reflexivity.
Qed.
Lemma fqv_inj (x y : fq) : fqv x = fqv y -> x = y. Proof. intros E. apply fq_eq, fv2_inj; auto using fq_c. Qed.
Lemma to_xy_new x y : to_xy fq_ops (new_xy fq_ops x y) = (x, y).
Proof.
  pose proof (to_xy_ok fq_laws (new_xy fq_ops x y)) as T. rewrite (aff_new_xy fq_laws) in T. destruct T as [A B]. rewrite (surjective_pairing (to_xy fq_ops (new_xy fq_ops x y))). apply (f_equal2 (@pair fq fq)); apply fqv_inj; assumption.
Qed.
Lemma enc_xy_eq P : enc_xy fq_ops P = fenc fq_ops (fst (to_xy fq_ops P)) ++ fenc fq_ops (snd (to_xy fq_ops P)).
Proof. unfold enc_xy. destruct (to_xy fq_ops P). reflexivity. Qed.
Lemma take82_app b rest : bytes b -> length b = 82%nat -> take82 (b ++ rest) = Some (le_value b, rest).
Proof.
  intros Hb L. unfold take82. replace (Nat.ltb (length (b ++ rest)) 82) with false by (symmetry; apply Nat.ltb_ge; rewrite app_length, L; lia).
  rewrite firstn_app, skipn_app, L, Nat.sub_diag, firstn_O, app_nil_r, skipn_O, firstn_all2, skipn_all2 by lia. cbn [app]. rewrite of_le_bytes_ok by exact Hb. reflexivity.
Qed.
(** both parts of the key: what the holder of the key can observe of it *)
Definition same_key (k k' : secret_key fq) : Prop :=
  sk_EA k' = sk_EA k /\ affine (fst (sk_bd1 k')) = affine (fst (sk_bd1 k)) /\ affine (snd (sk_bd1 k')) = affine (snd (sk_bd1 k)) /\
  affine (fst (sk_d2 k')) = affine (fst (sk_d2 k)) /\ affine (snd (sk_d2 k')) = affine (snd (sk_d2 k)) /\ sk_A k' = sk_A k.
Definition same_output (c c' : trapdoor_output fq) : Prop :=
  to_E1 c' = to_E1 c /\ affine (to_R1 c') = affine (to_R1 c) /\ affine (to_S1 c') = affine (to_S1 c) /\
  to_E2 c' = to_E2 c /\ affine (to_R2 c') = affine (to_R2 c) /\ affine (to_S2 c') = affine (to_S2 c).
Ltac lens := repeat rewrite app_length; repeat match goal with |- context [length (fenc fq_ops ?x)] => rewrite (proj2 (enc_ok x)) end.
Ltac bts := repeat match goal with |- bytes (_ ++ _) => apply bytes_app; split | |- bytes (fenc fq_ops ?x) => exact (proj1 (enc_ok x)) end.
(** what any key and any output decodes to, in the debug and in the release build *)
Lemma sk_enc_dec checks sk : valid (sk_EA sk) -> 0 <= fst (sk_A sk) < 2 ^ 656 -> 0 <= snd (sk_A sk) < 2 ^ 656 ->
  exists buf, sk_encode fq_ops sk = Some buf /\ bytes buf /\ length buf = 3080%nat /\
    sk_decode fq_ops checks buf = Some (mkSK (sk_EA sk) (norm_pt (fst (sk_bd1 sk)), norm_pt (snd (sk_bd1 sk))) (norm_pt (fst (sk_d2 sk)), norm_pt (snd (sk_d2 sk))) (sk_A sk)).
Proof.
  destruct sk as [EA [P1 P2] [P3 P4] [a11 a22]]. cbn [sk_EA sk_bd1 sk_d2 sk_A fst snd]. intros V Ha Hd.
  destruct (pad82_ok a11 Ha) as (b1 & E1 & B1 & L1 & V1). destruct (pad82_ok a22 Hd) as (b2 & E2 & B2 & L2 & V2).
  unfold sk_encode. cbn [sk_EA sk_bd1 sk_d2 sk_A fst snd]. rewrite E1, E2. cbn [obind]. eexists. split; [reflexivity|]. rewrite !enc_xy_eq, <- !app_assoc.
  split; [bts; assumption|]. split; [lens; rewrite L1, L2; reflexivity|].
  unfold sk_decode. match goal with |- context [Nat.eqb ?x ?y] => replace (Nat.eqb x y) with true end.
  2: { symmetry. apply Nat.eqb_eq. lens. rewrite L1, L2. reflexivity. }
  cbn [negb]. rewrite andb_false_r. do 9 rewrite dec_step. cbn [dec_fields obind fst snd]. rewrite take82_app by auto. cbn [obind fst snd]. rewrite <- (app_nil_r b2), take82_app by auto. cbn [obind fst snd].
  unfold valid in V. rewrite V. cbn [obind]. rewrite V1, V2. reflexivity.
Qed.
Lemma to_enc_dec checks c : valid (to_E1 c) -> valid (to_E2 c) ->
  bytes (to_encode fq_ops c) /\ length (to_encode fq_ops c) = 3240%nat /\
    to_decode fq_ops checks (to_encode fq_ops c) = Some (mkTO (to_E1 c) (norm_pt (to_R1 c)) (norm_pt (to_S1 c)) (to_E2 c) (norm_pt (to_R2 c)) (norm_pt (to_S2 c))).
Proof.
  destruct c as [E1 R1 S1 E2 R2 S2]. cbn [to_E1 to_R1 to_S1 to_E2 to_R2 to_S2]. intros V W. unfold to_encode. cbn [to_E1 to_R1 to_S1 to_E2 to_R2 to_S2]. rewrite !enc_xy_eq, <- !app_assoc.
  split; [bts|]. split; [lens; reflexivity|].
  unfold to_decode. match goal with |- context [Nat.eqb ?x ?y] => replace (Nat.eqb x y) with true end.
  2: { symmetry. apply Nat.eqb_eq. lens. reflexivity. }
  cbn [negb]. rewrite andb_false_r. do 9 rewrite dec_step. rewrite <- (app_nil_r (fenc fq_ops (snd (to_xy fq_ops S2)))), dec_step. cbn [dec_fields obind fst snd]. unfold valid in V, W. rewrite V. cbn [obind]. rewrite W. cbn [obind]. reflexivity.
Qed.
Theorem C41_secret_key : forall checks sk, valid (sk_EA sk) ->
  affine (fst (sk_bd1 sk)) <> None -> affine (snd (sk_bd1 sk)) <> None -> affine (fst (sk_d2 sk)) <> None -> affine (snd (sk_d2 sk)) <> None ->
  0 <= fst (sk_A sk) < 2 ^ 656 -> 0 <= snd (sk_A sk) < 2 ^ 656 ->
  exists buf sk', sk_encode fq_ops sk = Some buf /\ bytes buf /\ length buf = 3080%nat /\ sk_decode fq_ops checks buf = Some sk' /\ same_key sk sk'.
Proof.
  intros c sk V N1 N2 N3 N4 Ha Hd. destruct (sk_enc_dec c sk V Ha Hd) as (buf & E & B & L & D). exists buf. eexists. split; [exact E|]. split; [exact B|]. split; [exact L|]. split; [exact D|].
  unfold same_key. cbn [sk_EA sk_bd1 sk_d2 sk_A fst snd]. rewrite !norm_pt_ok by assumption. auto 10.
Qed.
Theorem C41_output : forall checks c, valid (to_E1 c) -> valid (to_E2 c) ->
  affine (to_R1 c) <> None -> affine (to_S1 c) <> None -> affine (to_R2 c) <> None -> affine (to_S2 c) <> None ->
  bytes (to_encode fq_ops c) /\ length (to_encode fq_ops c) = 3240%nat /\ exists c', to_decode fq_ops checks (to_encode fq_ops c) = Some c' /\ same_output c c'.
Proof.
  intros ck c V W N1 N2 N3 N4. destruct (to_enc_dec ck c V W) as (B & L & D). split; [exact B|]. split; [exact L|]. eexists. split; [exact D|].
  unfold same_output. cbn [to_E1 to_R1 to_S1 to_E2 to_R2 to_S2]. rewrite !norm_pt_ok by assumption. auto 10.
Qed.
(** an entry of the matrix beyond 82 bytes makes the encoder panic *)
Theorem C41_overflow : forall sk, 2 ^ 656 <= fst (sk_A sk) \/ 0 <= fst (sk_A sk) < 2 ^ 656 /\ 2 ^ 656 <= snd (sk_A sk) -> sk_encode fq_ops sk = None.
Proof.
  intros sk [H|[H0 H]]; unfold sk_encode; [rewrite (pad82_big _ H); reflexivity|]. destruct (pad82_ok _ H0) as (b & -> & _). cbn [obind]. rewrite (pad82_big _ H). reflexivity.
Qed.
(** debug build: the decoders accept nothing but encodings *)
Lemma enc_new x y : enc_xy fq_ops (new_xy fq_ops x y) = fenc fq_ops x ++ fenc fq_ops y.
Proof. rewrite enc_xy_eq, to_xy_new. reflexivity. Qed.
Lemma curve_cA A E : curve_new fq_ops A = Some E -> cA E = A.
Proof. intros H. exact (proj1 (proj2 (C29_curve_new A) E H)). Qed.
Lemma pad_of_bytes b : bytes b -> length b = 82%nat -> pad82 (le_value b) = Some b.
Proof.
  intros Hb L. destruct (pad82_ok (le_value b)) as (b' & E & B' & L' & V'); [pose proof (le_value_bound b Hb) as H; rewrite L in H; exact H|]. rewrite E. f_equal. apply le_value_inj; auto. congruence.
Qed.
Theorem C41_strict : forall buf sk, bytes buf -> sk_decode fq_ops true buf = Some sk -> sk_encode fq_ops sk = Some buf.
Proof.
  intros buf sk Hb H. unfold sk_decode in H. destruct (Nat.eqb_spec (length buf) (F2_ENCODED_LENGTH * 9 + 82 * 2)) as [L|]; [|discriminate]. cbn [negb andb] in H. rewrite enc_len in L.
  destruct (dec_fields fq_ops true 9 buf) as [[xs rest]|] eqn:D; [|discriminate]. cbn [obind fst snd] in H. destruct (dec_inv 9 buf xs rest Hb D) as [Lx ->].
  assert (Br : bytes rest) by (apply bytes_app in Hb; apply Hb).
  do 10 (destruct xs as [|? xs]; try discriminate Lx). cbn [map concat] in *. rewrite <- !app_assoc in *. cbn [app] in *.
  revert L. lens. intros L. assert (Lr : length rest = 164%nat) by lia. clear L.
  unfold take82 in H. replace (Nat.ltb (length rest) 82) with false in H by (symmetry; apply Nat.ltb_ge; lia). cbn [obind fst snd] in H. rewrite skipn_length in H. replace (Nat.ltb (length rest - 82) 82) with false in H by (symmetry; apply Nat.ltb_ge; lia). cbn [obind fst snd] in H.
  match type of H with obind (curve_new _ ?A) _ = _ => destruct (curve_new fq_ops A) as [E|] eqn:V; [|discriminate] end. cbn [obind] in H. apply curve_cA in V.
  match type of H with Some ?k = _ => assert (Hk : sk = k) by congruence end. subst sk. unfold sk_encode. cbn [sk_EA sk_bd1 sk_d2 sk_A fst snd].
  rewrite !of_le_bytes_ok by auto using bytes_firstn, bytes_skipn. rewrite !pad_of_bytes by (auto using bytes_firstn, bytes_skipn; rewrite firstn_length, ?skipn_length; lia). cbn [obind]. rewrite !enc_new, V, <- !app_assoc. do 2 f_equal. do 8 f_equal.
  rewrite <- (firstn_skipn 82 rest) at 3. f_equal. rewrite firstn_all2; [reflexivity|]. rewrite skipn_length. lia.
Qed.
Theorem C41_output_strict : forall buf c, bytes buf -> to_decode fq_ops true buf = Some c -> to_encode fq_ops c = buf.
Proof.
  intros buf c Hb H. unfold to_decode in H. destruct (Nat.eqb_spec (length buf) (F2_ENCODED_LENGTH * 10)) as [L|]; [|discriminate]. cbn [negb andb] in H. rewrite enc_len in L.
  destruct (dec_fields fq_ops true 10 buf) as [[xs rest]|] eqn:D; [|discriminate]. cbn [obind fst snd] in H. destruct (dec_inv 10 buf xs rest Hb D) as [Lx ->].
  do 11 (destruct xs as [|? xs]; try discriminate Lx). cbn [map concat] in *. rewrite <- !app_assoc in *. cbn [app] in *.
  revert L. lens. intros L. assert (Lr : length rest = 0%nat) by lia. clear L. destruct rest; [|discriminate].
  match type of H with obind (curve_new _ ?A) _ = _ => destruct (curve_new fq_ops A) as [E|] eqn:V; [|discriminate] end. cbn [obind] in H. apply curve_cA in V.
  match type of H with obind (curve_new _ ?A) _ = _ => destruct (curve_new fq_ops A) as [E'|] eqn:V'; [|discriminate] end. cbn [obind] in H. apply curve_cA in V'.
  match type of H with Some ?k = _ => assert (Hk : c = k) by congruence end. subst c. unfold to_encode. cbn [to_E1 to_R1 to_S1 to_E2 to_R2 to_S2]. rewrite !enc_new, V, V', <- !app_assoc, app_nil_r. reflexivity.
Qed.
(** a small key: the curve and the point of P_Curve.v *)
Definition exSK : secret_key fq := mkSK exE (exP, exT) (exT, exP) (3, 2 ^ 655 + 1).
Definition exTO : trapdoor_output fq := mkTO exE exP exT exE exT exP.
Example C41_ex : exists buf sk', sk_encode fq_ops exSK = Some buf /\ length buf = 3080%nat /\ sk_decode fq_ops true buf = Some sk' /\ same_key exSK sk' /\ sk_encode fq_ops sk' = Some buf /\
  sk_encode fq_ops (mkSK exE (exP, exT) (exT, exP) (1, 2 ^ 656)) = None.
Proof.
  destruct (C41_secret_key true exSK) as (buf & sk' & E & B & L & D & S); cbn [exSK sk_EA sk_bd1 sk_d2 sk_A fst snd]; try exact exE_valid; try (rewrite exP_affine; discriminate); try (rewrite exT_affine; discriminate); try (split; reflexivity || discriminate).
  exists buf, sk'. split; [exact E|]. split; [exact L|]. split; [exact D|]. split; [exact S|]. split; [exact (C41_strict buf sk' B D)|]. apply C41_overflow. right. split; [split; [discriminate|reflexivity]|apply Z.le_refl].
Qed.
Example C41_ex_output : length (to_encode fq_ops exTO) = 3240%nat /\ exists c', to_decode fq_ops true (to_encode fq_ops exTO) = Some c' /\ same_output exTO c' /\ to_encode fq_ops c' = to_encode fq_ops exTO.
Proof.
  destruct (C41_output true exTO) as (B & L & c' & D & S); cbn [exTO to_E1 to_R1 to_S1 to_E2 to_R2 to_S2]; try exact exE_valid; try (rewrite exP_affine; discriminate); try (rewrite exT_affine; discriminate).
  split; [exact L|]. exists c'. split; [exact D|]. split; [exact S|exact (C41_output_strict _ c' B D)].
Qed.
(** the point at infinity is encoded like the point (0,0) and comes back as (0,0), in both builds *)
Theorem C41_infinity_refuted : exists sk buf sk', valid (sk_EA sk) /\ 0 <= fst (sk_A sk) < 2 ^ 656 /\ 0 <= snd (sk_A sk) < 2 ^ 656 /\ sk_encode fq_ops sk = Some buf /\
  sk_decode fq_ops true buf = Some sk' /\ affine (fst (sk_bd1 sk)) = None /\ affine (fst (sk_bd1 sk')) = Some (q0, q0).
Proof.
  set (sk := mkSK exE (infinity fq_ops, exP) (exP, exP) (1, 1)). destruct (sk_enc_dec true sk exE_valid) as (buf & E & _ & _ & D); [split; [discriminate|reflexivity]|split; [discriminate|reflexivity]|]. exists sk, buf. eexists.
  split; [exact exE_valid|]. split; [split; [discriminate|reflexivity]|]. split; [split; [discriminate|reflexivity]|]. split; [exact E|]. split; [exact D|]. cbn [sk sk_bd1 fst]. split; [exact C29_infinity|].
  unfold norm_pt. pose proof (to_xy_ok fq_laws (infinity fq_ops)) as T. change (aff (infinity fq_ops)) with (affine (infinity fq_ops)) in T. rewrite C29_infinity in T. destruct T as [A B].
  transitivity (Some (fqv (fst (to_xy fq_ops (infinity fq_ops))), fqv (snd (to_xy fq_ops (infinity fq_ops))))); [exact (aff_new_xy fq_laws _ _)|]. rewrite A, B. reflexivity.
Qed.
(** release build: trailing bytes are ignored and a malformed field element is read as zero *)
Theorem C41_release_trailing : forall sk tail, valid (sk_EA sk) -> 0 <= fst (sk_A sk) < 2 ^ 656 -> 0 <= snd (sk_A sk) < 2 ^ 656 ->
  exists buf, sk_encode fq_ops sk = Some buf /\ sk_decode fq_ops false (buf ++ tail) = sk_decode fq_ops false buf /\ sk_decode fq_ops false buf <> None.
Proof.
  destruct sk as [EA [P1 P2] [P3 P4] [a11 a22]]. cbn [sk_EA sk_bd1 sk_d2 sk_A fst snd]. intros tail V Ha Hd.
  destruct (pad82_ok a11 Ha) as (b1 & E1 & B1 & L1 & V1). destruct (pad82_ok a22 Hd) as (b2 & E2 & B2 & L2 & V2).
  unfold sk_encode. cbn [sk_EA sk_bd1 sk_d2 sk_A fst snd]. rewrite E1, E2. cbn [obind]. eexists. split; [reflexivity|]. rewrite !enc_xy_eq, <- !app_assoc.
  unfold sk_decode. cbn [andb]. do 9 rewrite dec_step. do 9 rewrite dec_step. cbn [dec_fields obind fst snd]. rewrite !take82_app by auto. cbn [obind fst snd]. rewrite take82_app by auto. cbn [obind fst snd]. rewrite <- (app_nil_r b2), take82_app by auto. cbn [obind fst snd].
  unfold valid in V. rewrite V. cbn [obind]. rewrite ?app_nil_r. split; [reflexivity|discriminate].
Qed.
Lemma none_some {T} (x : T) : None = Some x -> False. Proof. discriminate. Qed.
Theorem C41_release_refuted : exists buf sk, bytes buf /\ length buf = 3080%nat /\ sk_decode fq_ops false buf = Some sk /\ sk_encode fq_ops sk <> Some buf /\ sk_decode fq_ops true buf = None.
Proof.
  destruct (pad82_ok 1) as (b & Eb & Bb & Lb & Vb); [split; [discriminate|reflexivity]|].
  set (w := repeat 255 324). assert (Bw : bytes w) by (unfold bytes, w; apply Forall_forall; intros x Hx; apply repeat_spec in Hx; subst; unfold byte; lia).
  assert (Lw : length w = 324%nat) by apply repeat_length.
  assert (Ww : P <= le_value (firstn 162 w) \/ P <= le_value (skipn 162 w)) by (left; vm_compute; discriminate).
  clearbody w. assert (KF := fun rest => proj1 (dec_step_bad 7 w rest Bw Lw Ww)). assert (KT := fun rest => proj2 (dec_step_bad 7 w rest Bw Lw Ww)).
  set (f := fenc fq_ops (fone fq_ops)).
  set (buf := fenc fq_ops (cA exE) ++ w ++ f ++ f ++ f ++ f ++ f ++ f ++ f ++ b ++ b ++ []).
  assert (BB : bytes buf). { unfold buf, f. bts; auto. constructor. }
  assert (LB : length buf = 3080%nat) by (unfold buf, f; lens; rewrite Lw, Lb; reflexivity).
  assert (DT : sk_decode fq_ops true buf = None).
  { unfold sk_decode. rewrite LB. unfold buf, f. rewrite dec_step, KT. reflexivity. }
  exists buf. eexists. split; [exact BB|]. split; [exact LB|]. split.
  - unfold sk_decode. cbn [andb]. unfold buf, f. rewrite dec_step, KF. do 7 rewrite dec_step. cbn [dec_fields obind fst snd]. rewrite !take82_app by auto. cbn [obind fst snd]. rewrite take82_app by auto. cbn [obind fst snd].
    rewrite exE_valid. cbn [obind]. reflexivity.
  - split; [|exact DT]. intros E. destruct (sk_enc_dec true (mkSK exE (new_xy fq_ops (fzero fq_ops) (fone fq_ops), new_xy fq_ops (fone fq_ops) (fone fq_ops)) (new_xy fq_ops (fone fq_ops) (fone fq_ops), new_xy fq_ops (fone fq_ops) (fone fq_ops)) (le_value b, le_value b))) as (buf' & E' & _ & _ & D').
    + exact exE_valid.
    + cbn [sk_A fst]. rewrite Vb. split; [discriminate|reflexivity].
    + cbn [sk_A snd]. rewrite Vb. split; [discriminate|reflexivity].
    + rewrite E' in E. assert (buf' = buf) by congruence. subst buf'. rewrite DT in D'. exact (none_some _ D').
Qed.
Print Assumptions C41_secret_key. Print Assumptions C41_output. Print Assumptions C41_strict. Print Assumptions C41_infinity_refuted. Print Assumptions C41_release_refuted.

(** ** C58: the integers of the set-up *)
Opaque festa_scalars entangled_torsion_basis torsion_basis.
Definition ed1 := big32 D1. Definition ed2 := big32 D2. Definition em1 := big32 M1. Definition em2 := big32 M2. Definition eda1 := big32 DA1. Definition eda2 := big32 DA2.
Lemma e_pos : 0 < ed1 /\ 0 < ed2 /\ 0 < em1 /\ 0 < em2 /\ 0 < eda1 /\ 0 < eda2. Proof. vm_compute. repeat split. Qed.
Lemma e_odd : Z.odd ed1 = true /\ Z.odd ed2 = true /\ Z.odd em1 = true /\ Z.odd em2 = true /\ Z.odd eda1 = true /\ Z.odd eda2 = true. Proof. vm_compute. repeat split. Qed.
Lemma e_theta : THETA_ISOGENY_LENGTH <= L_POWER /\ 1 <= L_POWER. Proof. split; discriminate. Qed.
(** The spec: the multipliers project the sum of a 2^634-torsion and a d_i-torsion point to one part; inv_scalar undoes the factor d1*d1*d2*m1;
    g2 makes the kernel isotropic: d1 + d2*dA*g2^2 = 0 modulo the degree 2^632 of the isogeny between the products. *)
Record setup_spec (ed1 ed2 em1 em2 eda1 eda2 clear_d1 clear_d2 clear_lb inv g2 : Z) : Prop := {
  s_pos : 0 <= clear_d1 /\ 0 <= clear_d2 /\ 0 <= clear_lb /\ 0 <= inv < 2 ^ 634 /\ 0 <= g2;
  s_cd1 : (2 ^ 634 | clear_d1 - 1) /\ (ed1 | clear_d1);
  s_cd2 : (2 ^ 634 | clear_d2 - 1) /\ (ed2 | clear_d2);
  s_clb : (ed2 | clear_lb - 1) /\ (2 ^ 634 | clear_lb);
  s_inv : (2 ^ 634 | inv * (ed1 * (ed1 * ed2) * em1) - 1);
  s_g2 : (2 ^ 634 | g2 * (em2 * eda2 * ed2) - em1 * ed1);
  s_kani : (2 ^ 632 | ed1 + ed2 * (eda1 * eda2) * g2 ^ 2) }.
Notation setup_ok := (setup_spec ed1 ed2 em1 em2 eda1 eda2).
Lemma kani_alg d1 d2 m1 m2 a1 a2 g n m : m2 ^ 2 * (d2 * a2) + m1 ^ 2 * (d1 * a1) = n -> (n | m) -> (m | g * (m2 * a2 * d2) - m1 * d1) -> Z.gcd (m2 ^ 2 * (d2 * a2)) n = 1 -> (n | d1 + d2 * (a1 * a2) * g ^ 2).
Proof.
  intros K D1 D2 G. assert (D : (n | g * (m2 * a2 * d2) - m1 * d1)) by (eapply Z.divide_trans; eauto). apply (Gauss n (m2 ^ 2 * (d2 * a2))); [|apply rel_prime_sym, Zgcd_1_rel_prime; exact G].
  destruct D as [k Hk]. exists (d1 + a1 * k * (g * (m2 * a2 * d2) + m1 * d1)). rewrite <- K.
  replace (m2 ^ 2 * (d2 * a2) * (d1 + d2 * (a1 * a2) * g ^ 2)) with (d1 * (m2 ^ 2 * (d2 * a2) + m1 ^ 2 * (d1 * a1)) + a1 * (g * (m2 * a2 * d2) - m1 * d1) * (g * (m2 * a2 * d2) + m1 * d1)) by ring.
  rewrite Hk, <- K. ring.
Qed.
Theorem C58_scalars : exists clear_d1 clear_d2 clear_lb inv g2, festa_scalars = Some (clear_d1, clear_d2, clear_lb, inv, g2) /\ setup_ok clear_d1 clear_d2 clear_lb inv g2.
Proof.
  Transparent festa_scalars. unfold festa_scalars. fold ed1 ed2 em1 em2 eda2. change L_POWER with 634. cbv zeta. pose proof C42_kani_identity as KI. fold ed1 ed2 em1 em2 eda1 eda2 in KI. change THETA_ISOGENY_LENGTH with 632 in KI.
  pose proof e_pos as (P1 & P2 & P3 & P4 & P5 & P6). pose proof e_odd as (O1 & O2 & O3 & O4 & O5 & O6). revert KI P1 P2 P3 P4 P5 P6 O1 O2 O3 O4 O5 O6. generalize ed1, ed2, em1, em2, eda1, eda2. intros d1 d2 m1 m2 a1 a2 KI P1 P2 P3 P4 P5 P6 O1 O2 O3 O4 O5 O6.
  assert (Lp : 0 < 2 ^ 634) by (apply Z.pow_pos_nonneg; lia). assert (Ld : (2 ^ 632 | 2 ^ 634)) by (exists (2 ^ 2); reflexivity).
  assert (Od : forall a, Z.odd a = true -> Z.gcd a (2 ^ 634) = 1) by (intros; apply odd_gcd_pow2; auto; lia).
  destruct (xgcd_big_ok d1 (2 ^ 634) ltac:(lia) Lp) as (i1 & E1 & B1 & D1). rewrite (Od _ O1) in D1. rewrite E1. cbn [obind].
  destruct (xgcd_big_ok d2 (2 ^ 634) ltac:(lia) Lp) as (i2 & E2 & B2 & D2). rewrite (Od _ O2) in D2. rewrite E2. cbn [obind].
  destruct (xgcd_big_ok (2 ^ 634) d2 ltac:(lia) P2) as (il & E3 & B3 & D3). rewrite Z.gcd_comm, (Od _ O2) in D3. rewrite E3. cbn [obind].
  destruct (xgcd_big_ok (d1 * (d1 * d2) * m1) (2 ^ 634) ltac:(repeat apply Z.mul_nonneg_nonneg; lia) Lp) as (inv & E4 & B4 & D4). rewrite (Od (d1 * (d1 * d2) * m1)) in D4 by (rewrite !Z.odd_mul, O1, O2, O3; reflexivity). rewrite E4. cbn [obind].
  destruct (xgcd_big_ok (m2 * a2 * d2) (2 ^ 634) ltac:(repeat apply Z.mul_nonneg_nonneg; lia) Lp) as (gi & E5 & B5 & D5). rewrite (Od (m2 * a2 * d2)) in D5 by (rewrite !Z.odd_mul, O4, O6, O2; reflexivity). rewrite E5. cbn [obind].
  assert (Dg : (2 ^ 634 | m1 * d1 * gi * (m2 * a2 * d2) - m1 * d1)). { destruct D5 as [k K]. exists (m1 * d1 * k). replace (m1 * d1 * gi * (m2 * a2 * d2) - m1 * d1) with (m1 * d1 * (m2 * a2 * d2 * gi - 1)) by ring. rewrite K. ring. }
  do 5 eexists. split; [reflexivity|]. clear E1 E2 E3 E4 E5 Od. constructor; set (l := 2 ^ 634) in *; clearbody l.
  - repeat split; try lia; repeat apply Z.mul_nonneg_nonneg; lia.
  - split; [rewrite Z.mul_comm; exact D1|exists i1; ring].
  - split; [rewrite Z.mul_comm; exact D2|exists i2; ring].
  - split; [rewrite Z.mul_comm; exact D3|exists il; ring].
  - rewrite Z.mul_comm. exact D4.
  - exact Dg.
  - apply (kani_alg d1 d2 m1 m2 a1 a2 _ (2 ^ 632) l); [rewrite <- KI; ring|exact Ld|exact Dg|]. apply odd_gcd_pow2; [lia|]. rewrite Z.pow_2_r, !Z.odd_mul, O4, O2, O6. reflexivity.
Qed.
Opaque festa_scalars.
Lemma obind_inv {T U} (x : option T) (f : T -> option U) r : obind x f = Some r -> exists y, x = Some y /\ f y = Some r.
Proof. destruct x; cbn [obind]; [eauto|discriminate]. Qed.
(** every object that [FESTACrypto::new] returns carries these integers *)
Theorem C58_new : forall F (o : fops F) root fuel checks self, festa_new o root fuel checks = Some self ->
  fe_l self = 2 ^ 634 /\ fe_d1 self = ed1 /\ fe_d2 self = ed2 /\ fe_d1d2 self = ed1 * ed2 /\ curve_new o (fadd o (ftwo o) (ffour o)) = Some (fe_E0 self) /\
  setup_ok (fe_clear_d1 self) (fe_clear_d2 self) (fe_clear_lb self) (fe_inv self) (fe_g2 self).
Proof.
  intros F o root fuel checks self H. unfold festa_new in H. apply obind_inv in H. destruct H as (E0 & HE & H). apply obind_inv in H. destruct H as (s & HS & H). destruct s as [[[[c1 c2] cl] i] g].
  apply obind_inv in H. destruct H as (lb & _ & H). apply obind_inv in H. destruct H as (db & _ & H). apply some_inj in H. subst self. cbn [fe_l fe_d1 fe_d2 fe_d1d2 fe_E0 fe_clear_d1 fe_clear_d2 fe_clear_lb fe_inv fe_g2].
  destruct C58_scalars as (c1' & c2' & cl' & i' & g' & E & OK). rewrite E in HS. apply some_inj in HS.
  split; [reflexivity|]. split; [reflexivity|]. split; [reflexivity|]. split; [reflexivity|]. split; [exact HE|]. injection HS as <- <- <- <- <-. exact OK.
Qed.
(** the construction only depends on the two point searches *)
Theorem C58_total : forall F (o : fops F) root fuel checks E0 lb d1b, curve_new o (fadd o (ftwo o) (ffour o)) = Some E0 ->
  entangled_torsion_basis o root E0 ((P + 1) / 2 ^ 634) = Some lb -> torsion_basis o fuel checks E0 D1_FACTORED 634 = Some d1b ->
  exists self, festa_new o root fuel checks = Some self /\ fe_E0 self = E0 /\ fe_lb self = lb /\ fe_d1b self = d1b.
Proof.
  intros F o root fuel checks E0 lb db H1 H2 H3. unfold festa_new. rewrite H1. cbn [obind]. destruct C58_scalars as (c1 & c2 & cl & i & g & E & OK). rewrite E. cbn [obind].
  rewrite (proj1 C42_group_order). replace (2 ^ L_POWER) with (2 ^ 634) by reflexivity. replace (Z.to_nat L_POWER) with 634%nat by reflexivity. rewrite H2. cbn [obind]. rewrite H3. cbn [obind]. eexists. split; [reflexivity|]. split; [reflexivity|]. split; reflexivity.
Qed.

(** ** C43: the recovered matrix *)
(** the entries are inverse to each other, the first one at most half the modulus, equal to inv_scalar*alpha up to sign *)
Theorem C43_normalised : forall F (self : festa F) alpha, fe_l self = 2 ^ 634 -> Z.odd (fe_inv self) = true -> Z.odd alpha = true ->
  exists x y, normalise_diagB self alpha = Some (x, y) /\ 0 < x <= 2 ^ 633 /\ 0 < y < 2 ^ 634 /\ (2 ^ 634 | x * y - 1) /\ ((2 ^ 634 | x - fe_inv self * alpha) \/ (2 ^ 634 | x + fe_inv self * alpha)).
Proof. intros F self alpha Hl Hi Ha. apply (norm_ok self 634 ltac:(lia) Hl alpha). rewrite Z.odd_mul, Hi, Ha. reflexivity. Qed.
Theorem C43_sign : forall F (self : festa F) alpha alpha', fe_l self = 2 ^ 634 -> Z.odd (fe_inv self) = true -> Z.odd alpha = true -> (2 ^ 634 | alpha - alpha') \/ (2 ^ 634 | alpha + alpha') ->
  normalise_diagB self alpha' = normalise_diagB self alpha.
Proof. intros F self alpha alpha' Hl Hi Ha. apply (norm_sign self 634 ltac:(lia) Hl). rewrite Z.odd_mul, Hi, Ha. reflexivity. Qed.
Lemma inv_odd inv s : (2 ^ 634 | inv * s - 1) -> Z.odd inv = true.
Proof.
  intros [k K]. destruct (Z.odd inv) eqn:E; [reflexivity|]. exfalso. assert (O : Z.odd (inv * s) = Z.odd (1 + 2 * (k * 2 ^ 633))) by (f_equal; replace (2 ^ 634) with (2 * 2 ^ 633) in K by reflexivity; lia).
  rewrite Z.odd_mul, E, Z.odd_add, Z.odd_mul in O. discriminate.
Qed.
(** the set-up of [FESTACrypto::new] meets the hypotheses *)
Theorem C43_new : forall F (o : fops F) root fuel checks self, festa_new o root fuel checks = Some self -> fe_l self = 2 ^ 634 /\ Z.odd (fe_inv self) = true.
Proof. intros F o root fuel checks self H. destruct (C58_new F o root fuel checks self H) as (L & _ & _ & _ & _ & S). split; [exact L|exact (inv_odd _ _ (s_inv _ _ _ _ _ _ _ _ _ _ _ S))]. Qed.
(** what the holder of the trapdoor gets: from alpha = +-(d1*d1*d2*m1)*b the entry b itself, when b is odd and at most half the modulus *)
Theorem C43_value : forall F (self : festa F) alpha b, fe_l self = 2 ^ 634 -> (2 ^ 634 | fe_inv self * (ed1 * (ed1 * ed2) * em1) - 1) -> 0 < b <= 2 ^ 633 -> Z.odd b = true ->
  (2 ^ 634 | alpha - ed1 * (ed1 * ed2) * em1 * b) \/ (2 ^ 634 | alpha + ed1 * (ed1 * ed2) * em1 * b) ->
  exists y, normalise_diagB self alpha = Some (b, y) /\ 0 < y < 2 ^ 634 /\ (2 ^ 634 | b * y - 1).
Proof.
  intros F self alpha b Hl Hi Hb Ob Ha. pose proof (inv_odd _ _ Hi) as Oi. generalize dependent (ed1 * (ed1 * ed2) * em1). intros s Hi Ha.
  assert (Os : Z.odd s = true) by (rewrite Z.mul_comm in Hi; exact (inv_odd _ _ Hi)).
  rewrite (C43_sign F self (s * b) alpha Hl Oi); [|rewrite Z.odd_mul, Os, Ob; reflexivity|destruct Ha as [[k K]|[k K]]; [left; exists (- k); lia|right; exists k; lia]].
  destruct (C43_normalised F self (s * b) Hl Oi) as (x & y & E & Bx & By & D & S); [rewrite Z.odd_mul, Os, Ob; reflexivity|]. rewrite E. exists y.
  assert (X : x = b).
  { assert (S2 : (2 ^ 634 | x - b) \/ (2 ^ 634 | x + b)).
    { destruct Hi as [h Hh]. assert (Hh' : fe_inv self * (s * b) = b + h * b * 2 ^ 634) by (replace (fe_inv self * (s * b)) with ((fe_inv self * s - 1) * b + b) by ring; rewrite Hh; ring).
      destruct S as [[k K]|[k K]]; [left; exists (k + h * b)|right; exists (k - h * b)]; lia. }
    change (2 ^ 634) with (2 * 2 ^ 633) in S2. set (m := 2 ^ 633) in *. assert (M : 0 < m) by (apply Z.pow_pos_nonneg; lia). clearbody m. clear - S2 Bx Hb M.
    destruct S2 as [[k K]|[k K]]; [assert (k = 0) by nia; lia|]. assert (k = 1) by nia. lia. }
  subst x. split; [reflexivity|]. split; [exact By|exact D].
Qed.
(** from the points: R = aP + bQ of full order 2^634 with a odd *)
Theorem C43_recover : forall checks self E P Q R a b, let n := 2 ^ 634 in
  fe_l self = n -> Z.odd (fe_inv self) = true ->
  valid E -> on_E E P -> on_E E Q -> on_E E R -> n_basis (coeff E) n (affine P) (affine Q) ->
  affine R = padd_q (coeff E) (pmul_q (coeff E) a (affine P)) (pmul_q (coeff E) b (affine Q)) -> exact_order (coeff E) n (affine R) -> 0 <= a < n -> 0 <= b < n -> Z.odd a = true ->
  exists x y, recover_diagB fq_ops (dlp_fq checks) checks self E R P Q = Some (x, y) /\ 0 < x <= 2 ^ 633 /\ 0 < y < n /\ (n | x * y - 1) /\ ((n | x - fe_inv self * a) \/ (n | x + fe_inv self * a)).
Proof.
  intros c self E P Q R a b n Hl Hi V HP HQ HR B ER X Ha Hb Oa. unfold recover_diagB. change L_POWER with 634. rewrite (C28_bidlp_pow2_partial c E P Q R 634 a b V ltac:(split; [discriminate|reflexivity]) HP HQ HR B ER X Ha Hb). cbn [obind fst].
  exact (C43_normalised fq self a Hl Hi Oa).
Qed.
(** an even logarithm (R not part of a basis with Q) is not rejected: the entries are then not inverse to each other *)
Theorem C43_even_refuted : exists F (self : festa F) alpha x y, fe_l self = 2 ^ 634 /\ Z.odd (fe_inv self) = true /\ 0 < alpha < 2 ^ 634 /\ normalise_diagB self alpha = Some (x, y) /\ ~ (2 ^ 634 | x * y - 1).
Proof.
  exists fq. set (self := mkFesta exE (2 ^ 634) ed1 ed2 (ed1 * ed2) 1 0 0 0 0 (exP, exP) (exP, exP)). exists self, 2.
  destruct (xgcd_big_ok 2 (2 ^ 634) ltac:(discriminate) ltac:(reflexivity)) as (r & E & B & _). exists 2, r. split; [reflexivity|]. split; [reflexivity|]. split; [split; reflexivity|]. split.
  - unfold normalise_diagB. cbn [fe_l fe_inv self]. change (2 ^ 634 =? 0) with false. cbv iota zeta. change ((1 * 2) mod 2 ^ 634) with 2. rewrite E. cbn [obind]. rewrite Z.mod_small by exact B. reflexivity.
  - intros [k K]. replace (2 ^ 634) with (2 * 2 ^ 633) in K by reflexivity. generalize dependent (2 ^ 633). intros. lia.
Qed.
Example C43_ex : exists self : festa fq, fe_l self = 2 ^ 634 /\ (2 ^ 634 | fe_inv self * (ed1 * (ed1 * ed2) * em1) - 1) /\ exists y, normalise_diagB self (2 ^ 634 * 5 - ed1 * (ed1 * ed2) * em1 * 3) = Some (3, y) /\ (2 ^ 634 | 3 * y - 1).
Proof.
  destruct C58_scalars as (c1 & c2 & cl & i & g & _ & S). set (self := mkFesta exE (2 ^ 634) ed1 ed2 (ed1 * ed2) i c1 c2 cl g (exP, exP) (exP, exP)). exists self. split; [reflexivity|]. split; [exact (s_inv _ _ _ _ _ _ _ _ _ _ _ S)|].
  destruct (C43_value fq self (2 ^ 634 * 5 - ed1 * (ed1 * ed2) * em1 * 3) 3) as (y & E & _ & D); [reflexivity|exact (s_inv _ _ _ _ _ _ _ _ _ _ _ S)|split; [reflexivity|discriminate]|reflexivity|right; exists 5; ring|]. exists y. split; [exact E|exact D].
Qed.
Print Assumptions C58_scalars. Print Assumptions C43_value. Print Assumptions C43_recover. Print Assumptions C43_even_refuted.

(** ** C56: canonical kernels *)
(** the arithmetic: s from the coordinates (a_i, s*a_i) of two generators, whenever no prime of the order divides both a_1 and a_2 *)
Theorem C56_scalar : forall a1 b1 a2 b2 s fs, 0 <= a1 -> 0 <= a2 -> Forall (fun f => prime (fst f) /\ 1 <= snd f /\ (~ (fst f | a1) \/ ~ (fst f | a2))) fs -> fcoprime fs ->
  (fprod fs | b1 - s * a1) -> (fprod fs | b2 - s * a2) -> canonical_scalar a1 b1 a2 b2 fs = Some (s mod fprod fs).
Proof. exact canonical_ok. Qed.
(** the points: two points a_iP + (s a_i)Q of exact order n, all coordinates nonzero.  Missing: points of lower order (both images of a basis under an isogeny
    with a kernel of order n have order n only when the kernel meets neither of the two cyclic groups). *)
Theorem C56_kernel_partial : forall fuel checks E imP imQ P Q fs a1 b1 a2 b2 s w, let n := fprod fs in
  valid E -> 3 < n -> log_entries checks fs -> fcoprime fs -> Forall (fun f => prime (fst f) /\ (~ (fst f | a1) \/ ~ (fst f | a2))) fs ->
  on_E E P -> on_E E Q -> on_E E imP -> on_E E imQ -> n_basis (coeff E) n (affine P) (affine Q) ->
  affine imP = padd_q (coeff E) (pmul_q (coeff E) a1 (affine P)) (pmul_q (coeff E) b1 (affine Q)) -> exact_order (coeff E) n (affine imP) -> 0 < a1 < n -> 0 < b1 < n ->
  affine imQ = padd_q (coeff E) (pmul_q (coeff E) a2 (affine P)) (pmul_q (coeff E) b2 (affine Q)) -> exact_order (coeff E) n (affine imQ) -> 0 < a2 < n -> 0 < b2 < n ->
  (n | b1 - s * a1) -> (n | b2 - s * a2) ->
  weil_pairing fq_ops checks E P Q n = Some w -> unit_order (fqv w) n ->
  compute_canonical_kernel fq_ops (dlp_fq checks) fuel checks E imP imQ fs (Some (P, Q)) = Some (s mod n).
Proof.
  intros fuel c E imP imQ P Q fs a1 b1 a2 b2 s w n V Hn HL HC HF HP HQ H1 H2 B E1 X1 A1 B1 E2 X2 A2 B2 D1 D2 Ew Ow. unfold compute_canonical_kernel. cbn [obind]. rewrite unfactored_ok. fold n. rewrite Ew. cbn [obind].
  assert (T : forall v, weil_pairing fq_ops c E P Q n = Some v -> fqv v = qpow (fqv w) 1) by (intros v Ev; rewrite Ew in Ev; apply some_inj in Ev; subst v; rewrite qpow_1; reflexivity).
  rewrite (C28_bidlp_partial c E P Q imP fs a1 b1 (Some w) w 1) by (auto; lia). fold n. rewrite !Z.mul_1_r, !Z.mod_small by lia. cbn [obind].
  rewrite (C28_bidlp_partial c E P Q imQ fs a2 b2 (Some w) w 1) by (auto; lia). fold n. rewrite !Z.mul_1_r, !Z.mod_small by lia. cbn [obind fst snd].
  apply C56_scalar; auto; try lia. unfold log_entries in HL. rewrite Forall_forall in *. intros f Hf. destruct (HF f Hf) as [F1 F2]. destruct (HL f Hf) as (_ & F3 & _). split; [exact F1|]. split; [apply F3|exact F2].
Qed.
Example C56_ex : canonical_scalar 3 6 5 10 [(3, 1); (5, 1)] = Some 2 /\ Forall (fun f => prime (fst f) /\ 1 <= snd f /\ (~ (fst f | 3) \/ ~ (fst f | 5))) [(3, 1); (5, 1)].
Proof.
  split; [vm_compute; reflexivity|]. assert (Pr : Forall (fun q : Z * Z => prime (fst q)) [(3, 1); (5, 1)]) by (apply primes_sound; vm_compute; reflexivity).
  rewrite Forall_forall in *. intros f Hf. split; [exact (Pr f Hf)|]. destruct Hf as [<-|[<-|[]]]; cbn [fst snd]; split; try lia; [right|left]; intros [k K]; lia.
Qed.
Example C56_ex4 : exists E P Q, valid E /\ n_basis (coeff E) 4 (affine P) (affine Q) /\ forall fuel checks,
  compute_canonical_kernel fq_ops (dlp_fq checks) fuel checks E (add_pts fq_ops E P Q) (p_neg fq_ops (add_pts fq_ops E P Q)) [(2, 2)] (Some (P, Q)) = Some 1.
Proof.
  destruct ex4_some as (s & E & P & Q & X). exists E, P, Q. pose proof X as [Hs V EA AP AQ OP OQ]. pose proof (ex4_basis s E P Q X) as B. assert (SM := valid_smooth E V). split; [exact V|]. split; [exact B|]. intros fuel c. destruct (ex4_weil s E P Q X c) as (w & Ew & Vw).
  pose proof (b_OP E 4 ltac:(lia) P Q B) as O1. pose proof (b_OQ E 4 ltac:(lia) P Q B) as O2. pose proof (b_in E 4 P Q B) as IN.
  destruct (C29_add E P Q V OP OQ) as [OR AR]. set (R := add_pts fq_ops E P Q) in *. clearbody R. assert (ON : on_E E (p_neg fq_ops R)) by (apply (neg_on fq_laws), OR).
  assert (ER : affine R = padd_q (coeff E) (pmul_q (coeff E) 1 (affine P)) (pmul_q (coeff E) 1 (affine Q))) by (rewrite AR, !pmA by lia; change (Z.to_nat 1) with 1%nat; rewrite !pmul_nat_1; reflexivity).
  assert (EN : affine (p_neg fq_ops R) = padd_q (coeff E) (pmul_q (coeff E) 3 (affine P)) (pmul_q (coeff E) 3 (affine Q))).
  { rewrite C29_neg. rewrite (comb_pz E V 4 ltac:(lia) P Q OP OQ B) in ER |- * by lia. rewrite ER. unfold popp_q. rewrite (pz_opp Zq_field qeqb_true q2_nz SM (affine P) (affine Q) OP OQ 4 ltac:(lia) O1 O2 IN). reflexivity. }
  assert (G : forall S a, on_E E S -> 0 <= a < 4 -> Z.odd a = true -> affine S = padd_q (coeff E) (pmul_q (coeff E) a (affine P)) (pmul_q (coeff E) a (affine Q)) -> exact_order (coeff E) 4 (affine S)).
  { intros S a OS Ha Od ES. rewrite (comb_pz E V 4 ltac:(lia) P Q OP OQ B) in ES by lia. apply (ex4_exact s E P Q X S OS); rewrite ES, pmA by lia; rewrite (pz_mul Zq_field qeqb_true q2_nz SM (affine P) (affine Q) OP OQ 4 ltac:(lia) O1 O2 IN); [apply (pz_None (affine P) (affine Q) 4 ltac:(lia) IN); split; exists a; lia|].
    intros N. apply (pz_None (affine P) (affine Q) 4 ltac:(lia) IN) in N. destruct N as [[u Hu] _]. change (Z.of_nat (Z.to_nat 2)) with 2 in *. replace a with (2 * u) in Od by lia. rewrite Z.odd_mul in Od. discriminate. }
  assert (H3 : 3 < 4) by lia. assert (HL : log_entries c [(2, 2)]) by (constructor; [|constructor]; cbn [fst snd]; split; [lia|]; split; [lia|intros _; discriminate]). assert (HC : fcoprime [(2, 2)]) by (repeat constructor).
  assert (HF : Forall (fun f : Z * Z => prime (fst f) /\ (~ (fst f | 1) \/ ~ (fst f | 3))) [(2, 2)]) by (constructor; [|constructor]; split; [exact prime_2|]; left; cbn [fst]; intros [k K]; lia).
  assert (Ow : unit_order (fqv w) 4) by (rewrite Vw; exact qim_order). assert (D1 : (4 | 1 - 1 * 1)) by (exists 0; reflexivity). assert (D3 : (4 | 3 - 1 * 3)) by (exists 0; reflexivity).
  assert (B1 : 0 < 1 < 4) by lia. assert (B3 : 0 < 3 < 4) by lia.
  exact (C56_kernel_partial fuel c E R (p_neg fq_ops R) P Q [(2, 2)] 1 1 3 3 1 w V H3 HL HC HF OP OQ OR ON B ER (G R 1 OR ltac:(lia) eq_refl ER) B1 B1 EN (G _ 3 ON ltac:(lia) eq_refl EN) B3 B3 D1 D3 Ew Ow).
Qed.
Print Assumptions C56_kernel_partial.
Print Assumptions C41_overflow.
Print Assumptions C41_output_strict.
Print Assumptions C41_release_trailing.
Print Assumptions C58_new.
Print Assumptions C58_total.
Print Assumptions C43_normalised.
Print Assumptions C43_sign.
Print Assumptions C43_new.
Print Assumptions C56_scalar.
