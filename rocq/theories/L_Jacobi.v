(** The quadratic symbol modulo an odd number, through the sign count of Gauss and Schering:
    [gauss a n] is the parity of the number of k in [1 .. (n-1)/2] with (a k mod n) > n/2.
    Multiplicativity, the two supplements and reciprocity hold for every odd modulus; for a prime modulus the
    count is the sign of a^((n-1)/2).  [true] stands for -1. *)
From Coq Require Import ZArith Znumtheory Lia Bool List Permutation.
From Verif Require Import L_Fermat.
Import ListNotations.
Open Scope Z_scope.

Definition hs (h : Z) : list Z := map Z.of_nat (seq 1 (Z.to_nat h)).
Definition xsum (f : Z -> bool) (l : list Z) : bool := fold_right xorb false (map f l).
Definition gauss (a n : Z) : bool := xsum (fun k => n / 2 <? (a * k) mod n) (hs (n / 2)).

Lemma in_hs h k : 0 <= h -> In k (hs h) <-> 1 <= k <= h.
Proof.
  intros Hh. unfold hs. rewrite in_map_iff. split.
  - intros (x & <- & Hx). apply in_seq in Hx. lia.
  - intros H. exists (Z.to_nat k). split; [lia|]. apply in_seq. lia.
Qed.
Lemma nodup_hs h : NoDup (hs h).
Proof. unfold hs. apply FinFun.Injective_map_NoDup; [intros x y; lia|apply seq_NoDup]. Qed.

Lemma xsum_ext f g l : (forall k, In k l -> f k = g k) -> xsum f l = xsum g l.
Proof. intros H. unfold xsum. f_equal. apply map_ext_in. exact H. Qed.
Lemma xsum_xor f g l : xsum (fun k => xorb (f k) (g k)) l = xorb (xsum f l) (xsum g l).
Proof. induction l as [|k l IH]; [reflexivity|]. unfold xsum in *. cbn [map fold_right]. rewrite IH. 
  destruct (f k), (g k), (fold_right xorb false (map f l)), (fold_right xorb false (map g l)); reflexivity. Qed.
Lemma xsum_perm f l l' : Permutation l l' -> xsum f l = xsum f l'.
Proof.
  intros H. unfold xsum. induction H; cbn [map fold_right]; try congruence.
  destruct (f x), (f y); cbn; reflexivity || (destruct (fold_right xorb false (map f l)); reflexivity).
Qed.
Lemma xsum_map f g l : xsum f (map g l) = xsum (fun k => f (g k)) l.
Proof. unfold xsum. rewrite map_map. reflexivity. Qed.
Lemma xsum_false l : xsum (fun _ => false) l = false.
Proof. induction l as [|k l IH]; [reflexivity|]. unfold xsum in *. cbn [map fold_right]. rewrite IH. reflexivity. Qed.
Lemma xsum_true l : xsum (fun _ => true) l = Z.odd (Z.of_nat (length l)).
Proof.
  induction l as [|k l IH]; [reflexivity|]. unfold xsum in *. cbn [map fold_right length]. rewrite IH, Nat2Z.inj_succ, Z.odd_succ, <- Z.negb_odd.
  destruct (Z.odd _); reflexivity.
Qed.
Lemma xsum_swap (f : Z -> Z -> bool) l m : xsum (fun k => xsum (f k) m) l = xsum (fun j => xsum (fun k => f k j) l) m.
Proof.
  induction l as [|k l IH].
  - change (false = xsum (fun _ => false) m). symmetry. apply xsum_false.
  - change (xorb (xsum (f k) m) (xsum (fun k => xsum (f k) m) l) = xsum (fun j => xorb (f k j) (xsum (fun k => f k j) l)) m).
    rewrite xsum_xor, IH. reflexivity.
Qed.
Lemma xsum_and c f l : xsum (fun k => c && f k) l = c && xsum f l.
Proof. destruct c; cbn [andb]; [reflexivity|apply xsum_false]. Qed.
Lemma len_hs h : 0 <= h -> Z.of_nat (length (hs h)) = h.
Proof. intros. unfold hs. rewrite map_length, seq_length. lia. Qed.

Section Half.
Variable n : Z.
Hypothesis n_pos : 0 < n.
Hypothesis n_odd : n mod 2 = 1.
Let h := n / 2.
Lemma h_eq : n = 2 * h + 1. Proof. unfold h. Z.div_mod_to_equations. lia. Qed.
Lemma h_nonneg : 0 <= h. Proof. pose proof h_eq. lia. Qed.

Definition sigma (a k : Z) : Z := if h <? (a * k) mod n then n - (a * k) mod n else (a * k) mod n.
Definition eps (a k : Z) : bool := h <? (a * k) mod n.

Lemma gauss_eps a : gauss a n = xsum (eps a) (hs h). Proof. reflexivity. Qed.
Lemma coprime_mul a x : Z.gcd a n = 1 -> (n | a * x) -> (n | x).
Proof. intros H D. apply Gauss with a; auto. apply Zgcd_1_rel_prime. rewrite Z.gcd_comm. auto. Qed.
Lemma mod_range x : 0 <= x mod n < n. Proof. apply Z.mod_pos_bound; auto. Qed.
Lemma mod_eq x : exists q, x = n * q + x mod n. Proof. exists (x / n). apply Z.div_mod. lia. Qed.
Lemma sigma_cong a k : exists q, a * k = n * q + (if eps a k then - sigma a k else sigma a k).
Proof.
  unfold eps, sigma. destruct (mod_eq (a * k)) as [q Hq]. destruct (h <? (a * k) mod n).
  - exists (q + 1). lia.
  - exists q. lia.
Qed.
Lemma sigma_in a k : Z.gcd a n = 1 -> In k (hs h) -> In (sigma a k) (hs h).
Proof.
  intros Ha Hk. rewrite in_hs in * by apply h_nonneg. pose proof h_eq. pose proof (mod_range (a * k)) as R.
  assert (N0 : (a * k) mod n <> 0).
  { intros E. apply Z.mod_divide in E; [|lia]. apply coprime_mul in E; auto. apply Z.divide_pos_le in E; lia. }
  unfold sigma. destruct (Z.ltb_spec h ((a * k) mod n)); lia.
Qed.
Lemma sigma_inj a k l : Z.gcd a n = 1 -> In k (hs h) -> In l (hs h) -> sigma a k = sigma a l -> k = l.
Proof.
  intros Ha Hk Hl E. rewrite in_hs in * by apply h_nonneg. pose proof h_eq.
  destruct (sigma_cong a k) as [q Hq]. destruct (sigma_cong a l) as [q' Hq']. rewrite E in Hq.
  assert (D : (n | k - l) \/ (n | k + l)).
  { destruct (eps a k), (eps a l).
    - left. apply (coprime_mul a); auto. exists (q - q'). lia.
    - right. apply (coprime_mul a); auto. exists (q + q'). lia.
    - right. apply (coprime_mul a); auto. exists (q + q'). lia.
    - left. apply (coprime_mul a); auto. exists (q - q'). lia. }
  destruct D as [[z D]|D].
  - assert (z = 0) by nia. subst. lia.
  - apply Z.divide_pos_le in D; lia.
Qed.
Lemma sigma_perm a : Z.gcd a n = 1 -> Permutation (map (sigma a) (hs h)) (hs h).
Proof.
  intros Ha. apply NoDup_Permutation_bis.
  - assert (G : forall l, NoDup l -> (forall k, In k l -> In k (hs h)) -> NoDup (map (sigma a) l)).
    { induction l as [|k l IH]; intros Hn Hi; [constructor|]. inversion Hn; subst. cbn [map]. constructor.
      - intros I. apply in_map_iff in I as (k' & E & I). apply sigma_inj in E; auto; [subst; contradiction| |]; apply Hi; cbn; auto.
      - apply IH; auto. intros; apply Hi; cbn; auto. }
    apply G; [apply nodup_hs|auto].
  - rewrite map_length. lia.
  - intros x I. apply in_map_iff in I as (k & <- & I). apply sigma_in; auto.
Qed.

Lemma gauss_mod a b : (n | a - b) -> gauss a n = gauss b n.
Proof.
  intros [q Hq]. unfold gauss. apply xsum_ext. intros k _. replace (a * k) with (b * k + (q * k) * n) by (replace a with (b + q * n) by lia; ring).
  rewrite Z.mod_add by lia. reflexivity.
Qed.

Lemma eps_mul a b k : Z.gcd a n = 1 -> In (sigma b k) (hs h) -> eps (a * b) k = xorb (eps a (sigma b k)) (eps b k).
Proof.
  intros Ha Hk. destruct (sigma_cong b k) as [q Hq]. unfold eps at 1.
  assert (S := sigma_in a _ Ha Hk). rewrite in_hs in S by apply h_nonneg.
  destruct (sigma_cong a (sigma b k)) as [q' Hq']. set (t := sigma a (sigma b k)) in *. pose proof h_eq.
  assert (G : forall e : bool, (exists z, a * b * k = n * z + (if e then - t else t)) -> (h <? (a * b * k) mod n) = e).
  { intros e [z Hz]. rewrite Hz, Z.add_comm, Z.mul_comm, Z.mod_add by lia. destruct e.
    - replace (- t) with (n - t + (-1) * n) by ring. rewrite Z.mod_add, Z.mod_small by lia. apply Z.ltb_lt. lia.
    - rewrite Z.mod_small by lia. apply Z.ltb_ge. lia. }
  apply G. replace (a * b * k) with (a * (b * k)) by ring. rewrite Hq. destruct (eps b k), (eps a (sigma b k)); cbn [xorb].
  - exists (a * q - q'). lia.
  - exists (a * q - q'). lia.
  - exists (a * q + q'). lia.
  - exists (a * q + q'). lia.
Qed.

Lemma gcd_mul a b : Z.gcd a n = 1 -> Z.gcd b n = 1 -> Z.gcd (a * b) n = 1.
Proof. intros. rewrite Z.gcd_comm. apply Zgcd_1_rel_prime. apply rel_prime_mult; apply Zgcd_1_rel_prime; rewrite Z.gcd_comm; auto. Qed.

Theorem gauss_mul a b : Z.gcd a n = 1 -> Z.gcd b n = 1 -> gauss (a * b) n = xorb (gauss a n) (gauss b n).
Proof.
  intros Ha Hb. rewrite !gauss_eps. rewrite (xsum_ext _ (fun k => xorb (eps a (sigma b k)) (eps b k))).
  - rewrite xsum_xor. f_equal. rewrite <- (xsum_map (eps a) (sigma b)). apply xsum_perm. apply sigma_perm; auto.
  - intros k Hk. apply eps_mul; auto. apply sigma_in; auto.
Qed.
Lemma gauss_1 : gauss 1 n = false.
Proof.
  unfold gauss. rewrite (xsum_ext _ (fun _ => false)); [apply xsum_false|]. intros k Hk. fold h in Hk. rewrite in_hs in Hk by apply h_nonneg.
  pose proof h_eq. rewrite Z.mul_1_l, Z.mod_small by lia. apply Z.ltb_ge. fold h. lia.
Qed.
Theorem gauss_opp1 : gauss (-1) n = Z.odd h.
Proof.
  unfold gauss. fold h. rewrite (xsum_ext _ (fun _ => true)).
  - rewrite xsum_true, len_hs by apply h_nonneg. reflexivity.
  - intros k Hk. rewrite in_hs in Hk by apply h_nonneg. pose proof h_eq. replace (-1 * k) with (n - k + (-1) * n) by ring.
    rewrite Z.mod_add, Z.mod_small by lia. apply Z.ltb_lt. lia.
Qed.

Lemma xsum_seq f : forall m s, (forall k, (s <= k < s + m)%nat -> f (Z.of_nat k) = true) ->
  xsum f (map Z.of_nat (seq s m)) = Z.odd (Z.of_nat m).
Proof.
  induction m as [|m IH]; intros s H; [reflexivity|]. cbn [seq map].
  change (xorb (f (Z.of_nat s)) (xsum f (map Z.of_nat (seq (S s) m))) = Z.odd (Z.of_nat (S m))).
  rewrite IH by (intros; apply H; lia). rewrite H by lia. rewrite Nat2Z.inj_succ, Z.odd_succ, <- Z.negb_odd. destruct (Z.odd _); reflexivity.
Qed.
Lemma xsum_seq0 f : forall m s, (forall k, (s <= k < s + m)%nat -> f (Z.of_nat k) = false) ->
  xsum f (map Z.of_nat (seq s m)) = false.
Proof.
  intros m s H. rewrite (xsum_ext f (fun _ => false)); [apply xsum_false|].
  intros k Hk. apply in_map_iff in Hk as (x & <- & Hx). apply in_seq in Hx. apply H. lia.
Qed.
Lemma xsum_app f l m : xsum f (l ++ m) = xorb (xsum f l) (xsum f m).
Proof.
  induction l as [|k l IH]; [change (xsum f m = xorb false (xsum f m)); destruct (xsum f m); reflexivity|].
  change (xorb (f k) (xsum f (l ++ m)) = xorb (xorb (f k) (xsum f l)) (xsum f m)). rewrite IH. symmetry. apply xorb_assoc.
Qed.
(** counting a threshold *)
Lemma xsum_gt H0 c f : 0 <= c <= H0 -> (forall k, 1 <= k <= H0 -> f k = (c <? k)) -> xsum f (hs H0) = Z.odd (H0 - c).
Proof.
  intros Hc Hf. unfold hs. replace (Z.to_nat H0) with (Z.to_nat c + Z.to_nat (H0 - c))%nat by lia.
  rewrite seq_app, map_app, xsum_app, xsum_seq0, xsum_seq.
  - rewrite Z2Nat.id by lia. destruct (Z.odd _); reflexivity.
  - intros k Hk. rewrite Hf by lia. apply Z.ltb_lt. lia.
  - intros k Hk. rewrite Hf by lia. apply Z.ltb_ge. lia.
Qed.
Lemma xsum_le H0 c f : 0 <= c <= H0 -> (forall k, 1 <= k <= H0 -> f k = (k <=? c)) -> xsum f (hs H0) = Z.odd c.
Proof.
  intros Hc Hf. unfold hs. replace (Z.to_nat H0) with (Z.to_nat c + Z.to_nat (H0 - c))%nat by lia.
  rewrite seq_app, map_app, xsum_app, xsum_seq, xsum_seq0.
  - rewrite Z2Nat.id by lia. destruct (Z.odd _); reflexivity.
  - intros k Hk. rewrite Hf by lia. apply Z.leb_gt. lia.
  - intros k Hk. rewrite Hf by lia. apply Z.leb_le. lia.
Qed.
Theorem gauss_2 : gauss 2 n = Z.odd (h - h / 2).
Proof.
  unfold gauss. fold h. pose proof h_eq. pose proof h_nonneg. apply xsum_gt.
  - Z.div_mod_to_equations; lia.
  - intros k Hk. rewrite Z.mod_small by lia. clear - Hk. destruct (Z.ltb_spec h (2 * k)), (Z.ltb_spec (h / 2) k); auto; Z.div_mod_to_equations; lia.
Qed.

(** Eisenstein *)
Lemma odd_mod_b x : x mod 2 = 1 -> Z.odd x = true.
Proof. rewrite Zmod_odd. destruct (Z.odd x); congruence. Qed.
Theorem gauss_floor a : Z.gcd a n = 1 -> a mod 2 = 1 -> gauss a n = xsum (fun k => Z.odd (a * k / n)) (hs h).
Proof.
  intros Ha Ho. rewrite gauss_eps. apply odd_mod_b in Ho. pose proof (odd_mod_b n n_odd) as No.
  assert (E : xsum Z.odd (hs h) = xorb (xsum (fun k => Z.odd (a * k / n)) (hs h)) (xorb (xsum Z.odd (hs h)) (xsum (eps a) (hs h)))).
  { rewrite <- (xsum_perm Z.odd _ _ (sigma_perm a Ha)) at 2. rewrite xsum_map, <- !xsum_xor. apply xsum_ext. intros k Hk.
    assert (E1 : Z.odd k = xorb (Z.odd (a * k / n)) (Z.odd ((a * k) mod n))).
    { pose proof (Z.div_mod (a * k) n ltac:(lia)) as E. apply (f_equal Z.odd) in E. rewrite Z.odd_add, !Z.odd_mul, Ho, No in E. exact E. }
    rewrite E1. f_equal. unfold sigma, eps. destruct (h <? (a * k) mod n).
    - rewrite Z.odd_sub, No. destruct (Z.odd ((a * k) mod n)); reflexivity.
    - destruct (Z.odd ((a * k) mod n)); reflexivity. }
  destruct (xsum Z.odd (hs h)), (xsum (fun k => Z.odd (a * k / n)) (hs h)), (xsum (eps a) (hs h)); cbn in E; congruence.
Qed.
Lemma floor_count a k : 0 < a -> Z.gcd a n = 1 -> a mod 2 = 1 -> 1 <= k <= h ->
  Z.odd (a * k / n) = xsum (fun l => n * l <? a * k) (hs (a / 2)).
Proof.
  intros Ha Hg Ho Hk. symmetry. pose proof h_eq.
  assert (Hq : 0 <= a * k / n) by (apply Z.div_pos; nia).
  pose proof (Z.div_mod (a * k) n ltac:(lia)) as E. pose proof (mod_range (a * k)) as R.
  set (q := a * k / n) in *. set (r := (a * k) mod n) in *.
  assert (r <> 0).
  { intros E0. assert (D : (n | k)) by (apply (coprime_mul a); auto; exists q; lia). apply Z.divide_pos_le in D; lia. }
  apply xsum_le.
  - split; auto. assert (2 * q < a) by nia. Z.div_mod_to_equations; lia.
  - intros l Hl. clearbody q r. destruct (Z.ltb_spec (n * l) (a * k)), (Z.leb_spec l q); auto; nia.
Qed.
End Half.

Theorem gauss_reciprocity a n : 0 < a -> 0 < n -> a mod 2 = 1 -> n mod 2 = 1 -> Z.gcd a n = 1 ->
  xorb (gauss a n) (gauss n a) = Z.odd (a / 2) && Z.odd (n / 2).
Proof.
  intros Ha Hn Oa On Hg. assert (Hg' : Z.gcd n a = 1) by (rewrite Z.gcd_comm; auto).
  rewrite (gauss_floor n Hn On a Hg Oa), (gauss_floor a Ha Oa n Hg' On).
  assert (Pa : 0 <= a / 2) by (apply Z.div_pos; lia). assert (Pn : 0 <= n / 2) by (apply Z.div_pos; lia).
  rewrite (xsum_ext _ (fun k => xsum (fun l => n * l <? a * k) (hs (a / 2)))).
  2:{ intros k Hk. rewrite in_hs in Hk by auto. apply floor_count; auto. }
  rewrite (xsum_ext (fun k => Z.odd (n * k / a)) (fun l => xsum (fun k => a * k <? n * l) (hs (n / 2)))).
  2:{ intros l Hl. rewrite in_hs in Hl by auto. apply floor_count; auto. }
  rewrite xsum_swap, <- xsum_xor.
  rewrite (xsum_ext _ (fun l => xsum (fun _ => true) (hs (n / 2)))).
  - rewrite (xsum_ext _ (fun _ => Z.odd (n / 2) && true)).
    + rewrite xsum_and, xsum_true, len_hs by auto. apply andb_comm.
    + intros _ _. rewrite xsum_true, len_hs, andb_true_r by auto. reflexivity.
  - intros l Hl. rewrite <- xsum_xor. apply xsum_ext. intros k Hk. rewrite in_hs in * by auto.
    destruct (Z.ltb_spec (n * l) (a * k)), (Z.ltb_spec (a * k) (n * l)); auto; try lia.
    exfalso. assert (E : a * k = n * l) by lia.
    assert (D : (n | k)) by (apply (coprime_mul n a); auto; exists l; lia). apply Z.divide_pos_le in D; [|lia].
    clear - D Hk Hn. Z.div_mod_to_equations. lia.
Qed.

(** Gauss's lemma for a prime modulus *)
Definition zprod (l : list Z) : Z := fold_right Z.mul 1 l.
Lemma zprod_perm l l' : Permutation l l' -> zprod l = zprod l'.
Proof. intros H. unfold zprod. induction H; cbn [fold_right]; try congruence. ring. Qed.
Lemma zprod_scale a l : zprod (map (Z.mul a) l) = a ^ Z.of_nat (length l) * zprod l.
Proof.
  induction l as [|k l IH]; [reflexivity|]. cbn [map length]. change (zprod (a * k :: map (Z.mul a) l)) with (a * k * zprod (map (Z.mul a) l)).
  change (zprod (k :: l)) with (k * zprod l). rewrite IH, Nat2Z.inj_succ, Z.pow_succ_r by lia. ring.
Qed.
Lemma zprod_signs p (f : Z -> bool) (g w : Z -> Z) l : (forall k, In k l -> exists q, w k = p * q + (if f k then - g k else g k)) ->
  eqm p (zprod (map w l)) ((if xsum f l then -1 else 1) * zprod (map g l)).
Proof.
  induction l as [|k l IH]; intros H.
  - exists 0. reflexivity.
  - cbn [map]. change (zprod (w k :: map w l)) with (w k * zprod (map w l)). change (zprod (g k :: map g l)) with (g k * zprod (map g l)).
    change (xsum f (k :: l)) with (xorb (f k) (xsum f l)).
    destruct (IH (fun k' Hk => H k' (or_intror Hk))) as [z Hz]. destruct (H k (or_introl eq_refl)) as [q Hq]. rewrite Hz, Hq.
    set (G := zprod (map g l)). destruct (f k), (xsum f l); cbn [xorb].
    + exists (q * (-1 * G + z * p) - g k * z). ring.
    + exists (q * (1 * G + z * p) - g k * z). ring.
    + exists (q * (-1 * G + z * p) + g k * z). ring.
    + exists (q * (1 * G + z * p) + g k * z). ring.
Qed.
Lemma zprod_unit p l : prime p -> (forall k, In k l -> 1 <= k < p) -> ~ eqm p (zprod l) 0.
Proof.
  intros Hp H. induction l as [|k l IH].
  - intros [q Hq]. cbn in Hq. assert (D : (p | 1)) by (exists q; lia). apply Z.divide_1_r in D. destruct Hp. lia.
  - intros E. change (zprod (k :: l)) with (k * zprod l) in E. apply eqm_mul_0 in E; auto. destruct E as [[q E]|E].
    + specialize (H k (or_introl eq_refl)). assert (D : (p | k)) by (exists q; lia). apply Z.divide_pos_le in D; lia.
    + apply IH; auto. intros; apply H; cbn; auto.
Qed.
Theorem gauss_euler a p : prime p -> p mod 2 = 1 -> Z.gcd a p = 1 -> eqm p (a ^ (p / 2)) (if gauss a p then -1 else 1).
Proof.
  intros Hp Ho Hg. assert (P0 : 0 < p) by (destruct Hp; lia). pose proof (h_eq p Ho) as HE. pose proof (h_nonneg p P0 Ho) as HN.
  apply (eqm_cancel p Hp) with (c := zprod (hs (p / 2))).
  - apply zprod_unit; auto. intros k Hk. rewrite in_hs in Hk by auto. lia.
  - pose proof (zprod_signs p (eps p a) (sigma p a) (Z.mul a) (hs (p / 2)) (fun k _ => sigma_cong p P0 a k)) as E.
    rewrite zprod_scale, len_hs in E by auto. rewrite (zprod_perm _ _ (sigma_perm p P0 Ho a Hg)) in E.
    rewrite !(Z.mul_comm (zprod (hs (p / 2)))). exact E.
Qed.
