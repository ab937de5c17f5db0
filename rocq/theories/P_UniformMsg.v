(** C75: the random messages of src/main.rs and the random matrix of a secret key are exactly uniform. *)
From Coq Require Import Arith ZArith List Bool Lia Znumtheory.
From Verif Require Import M_Consts M_Field M_Curve M_Dlog M_Super M_Super2 M_Festa M_Main L_Ints L_Field P_Curve P_Festa P_Trapdoor P_Keygen P_Main P_Uniform.
Import ListNotations.
Open Scope Z_scope.
Ltac Zify.zify_post_hook ::= idtac.

Lemma set_bit0_eq r : set_bit0 r = 2 * (r / 2) + 1.
Proof. pose proof (set_bit0_odd r) as Ob. rewrite (Zdiv2_odd_eqn (set_bit0 r)), Ob. unfold set_bit0. rewrite <- (Z.div2_div r). f_equal. f_equal. rewrite !Z.div2_spec, Z.shiftr_lor. change (Z.shiftr 1 1) with 0. apply Z.lor_0_r. Qed.
(** an odd number has exactly the two preimages b and b - 1 *)
Lemma set_bit0_pre r b : Z.odd b = true -> (set_bit0 r = b <-> r = b \/ r = b - 1).
Proof.
  intros Ob. rewrite set_bit0_eq. pose proof (Z.div_mod r 2 ltac:(lia)) as D. pose proof (Z.mod_pos_bound r 2 ltac:(lia)) as B. pose proof (Zdiv2_odd_eqn b) as E. rewrite Ob in E. split.
  - intros H. lia.
  - intros [-> | ->]; lia.
Qed.
(** ** C75: every message that C69_roundtrip covers comes from exactly two of the ed1 * ed2 * 2^633 draws, and no draw gives anything else *)
Theorem C75_message : forall m, message_ok m ->
  counts (fun t => let '(s1, s2, r) := t in (0 <= s1 < ed1 /\ 0 <= s2 < ed2 /\ 0 <= r < 2 ^ 633) /\ gen_random_trapdoor_input s1 s2 r = Some m) 2.
Proof.
  intros m M. destruct (m_s1 _ M) as [S1 S1'], (m_s2 _ M) as [S2 S2'], (m_b _ M) as [B1 B2], (m_y _ M) as [Y1 Y2]. pose proof (m_odd _ M) as O. pose proof (m_inv _ M) as I.
  destruct m as [s1 s2 [b y]]. cbn [ti_s1 ti_s2 ti_B fst snd] in *. assert (B3 : b < 2 ^ 633). { destruct (Z.eq_dec b (2 ^ 633)) as [->|N]; [discriminate O|]. clear - B2 N. lia. }
  exists [(s1, s2, b); (s1, s2, b - 1)]. split; [|split; [|reflexivity]].
  - constructor; [|constructor; [intros []|constructor]]. intros [H|[]]. apply pair_equal_spec in H. destruct H as [_ H]. clear - H. lia.
  - assert (G : forall r, 0 <= r < 2 ^ 633 -> set_bit0 r = b -> gen_random_trapdoor_input s1 s2 r = Some (mkTI s1 s2 (b, y))).
    { intros r Hr Er. destruct (C69_random_message s1 s2 r (conj S1 S1') (conj S2 S2') Hr) as (m & Em & MO & E1 & E2 & E3). rewrite Em. f_equal. rewrite set_bit0_eq in Er.
      assert (EB : fst (ti_B m) = b) by (rewrite E3; exact Er). pose proof (m_y _ MO) as MY. pose proof (m_inv _ MO) as MI. rewrite EB in MI. pose proof (inverse_unique b (snd (ti_B m)) y MY (conj Y1 Y2) O MI I) as EY.
      destruct m as [t1 t2 [b' y']]. cbn [ti_s1 ti_s2 ti_B fst snd] in *. subst. reflexivity. }
    intros [[t1 t2] r]. cbn [In]. split.
    + intros [H|[H|[]]]; apply pair_equal_spec in H; destruct H as [H Hr]; apply pair_equal_spec in H; destruct H as [<- <-]; subst r; (split; [split; [split; assumption|split; [split; assumption|clear - B1 B3; lia]]|apply G; [clear - B1 B3; lia|apply (set_bit0_pre _ b O); auto]]).
    + intros [(R1 & R2 & Rr) H]. destruct (C69_random_message t1 t2 r R1 R2 Rr) as (m & Em & _ & E1 & E2 & E3). rewrite H in Em. assert (E : m = mkTI s1 s2 (b, y)) by congruence. subst m. cbn [ti_s1 ti_s2 ti_B fst snd] in *. subst t1 t2. rewrite <- set_bit0_eq in E3. symmetry in E3. apply (set_bit0_pre _ b O) in E3. destruct E3 as [-> | ->]; auto.
Qed.
(** ** C75: the matrix of a secret key.  keygen depends on its two random numbers through their halves only, ... *)
Theorem C75_keygen : forall fuel checks self r11 r22 r11' r22' rng dlp,
  r11 / 2 = r11' / 2 -> r22 / 2 = r22' / 2 -> keygen fq_ops dlp fuel checks self r11 r22 rng = keygen fq_ops dlp fuel checks self r11' r22' rng.
Proof.
  intros fuel checks self r11 r22 r11' r22' rng dlp H1 H2. unfold keygen. rewrite (set_bit0_eq r11), (set_bit0_eq r22), (set_bit0_eq r11'), (set_bit0_eq r22'), H1, H2. reflexivity.
Qed.
(** ... the matrix it returns has the entries 2 (r/2) + 1, ... *)
Theorem C75_matrix : forall fuel checks self r11 r22 rng dlp pk sk, keygen fq_ops dlp fuel checks self r11 r22 rng = Some (pk, sk) -> sk_A sk = (2 * (r11 / 2) + 1, 2 * (r22 / 2) + 1).
Proof.
  intros fuel checks self r11 r22 rng dlp pk sk H. rewrite <- !set_bit0_eq. unfold keygen in H. cbv zeta in H. generalize dependent (set_bit0 r11). intros a11 H. generalize dependent (set_bit0 r22). intros a22 H.
  repeat match type of H with
  | obind ?e _ = Some _ => destruct e as [?|]; [cbn [obind] in H|discriminate H]
  | (let '(_, _) := ?p in _) = Some _ => destruct p
  end.
  match type of H with Some (_, ?k) = _ => assert (Hk : sk = k) by congruence end. subst sk. reflexivity.
Qed.
(** ... and each pair of odd entries below 2^634 comes from exactly four of the 2^1268 pairs of random numbers. *)
Theorem C75_secret : forall a11 a22, 0 < a11 < 2 ^ 634 -> 0 < a22 < 2 ^ 634 -> Z.odd a11 = true -> Z.odd a22 = true ->
  counts (fun rr => (0 <= fst rr < 2 ^ 634 /\ 0 <= snd rr < 2 ^ 634) /\ (2 * (fst rr / 2) + 1, 2 * (snd rr / 2) + 1) = (a11, a22)) 4.
Proof.
  intros a b Ha Hb Oa Ob. exists [(a, b); (a, b - 1); (a - 1, b); (a - 1, b - 1)]. split; [|split; [|reflexivity]].
  - repeat constructor; cbn [In]; intros H; repeat destruct H as [H|H]; try exact H; apply pair_equal_spec in H; destruct H; lia.
  - intros [r s]. cbn [In fst snd]. rewrite <- !set_bit0_eq. split.
    + intros H. assert (H' : (r = a \/ r = a - 1) /\ (s = b \/ s = b - 1)) by (repeat destruct H as [H|H]; try contradiction; apply pair_equal_spec in H; destruct H as [<- <-]; auto). destruct H' as [Hr Hs].
      split; [clear - Ha Hb Hr Hs; destruct Hr, Hs; lia|]. apply pair_equal_spec. split; apply set_bit0_pre; assumption.
    + intros [_ H]. apply pair_equal_spec in H. destruct H as [H1 H2]. apply set_bit0_pre in H1; [|exact Oa]. apply set_bit0_pre in H2; [|exact Ob]. destruct H1 as [-> | ->], H2 as [-> | ->]; auto.
Qed.
Print Assumptions C75_message. Print Assumptions C75_keygen. Print Assumptions C75_matrix. Print Assumptions C75_secret.
(** a message with the matrix diag(3, 3^-1): the draws r = 2 and r = 3 give it, r = 4 does not *)
Example C75_ex : exists m, message_ok m /\ gen_random_trapdoor_input 5 7 2 = Some m /\ gen_random_trapdoor_input 5 7 3 = Some m /\ gen_random_trapdoor_input 5 7 4 <> Some m.
Proof.
  destruct (C69_random_message 5 7 2) as (m & E & M & _ & _ & B); [split; vm_compute; [discriminate|reflexivity]..|]. exists m. split; [exact M|]. split; [exact E|]. split; [exact E|].
  intros H. destruct (C69_random_message 5 7 4) as (m' & E' & _ & _ & _ & B'); [split; vm_compute; [discriminate|reflexivity]..|]. rewrite H in E'. assert (Em : m = m') by congruence. subst m'. rewrite B in B'. discriminate B'.
Qed.
