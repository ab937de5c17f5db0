(** Soundness of trial division. *)
From Coq Require Import ZArith Znumtheory List Lia Bool.
From Verif Require Import S_Params.
Import ListNotations.
Open Scope Z_scope.

Lemma primeb_sound n : primeb n = true -> prime n.
Proof.
  unfold primeb. intros H. apply andb_true_iff in H as [H1 H2]. apply Z.leb_le in H1.
  rewrite forallb_forall in H2.
  assert (ND : forall d, 2 <= d -> d * d <= n -> ~ (d | n)).
  { intros d Hd Hdd Hdiv. assert (Hs : d <= Z.sqrt n) by (apply Z.sqrt_le_square; lia).
    specialize (H2 (Z.to_nat (d - 2))). rewrite in_seq in H2.
    specialize (H2 ltac:(lia)). apply negb_true_iff, Z.eqb_neq in H2. apply H2.
    replace (Z.of_nat (Z.to_nat (d - 2)) + 2) with d by lia. apply Zdivide_mod; auto. }
  apply prime_alt. split; [lia|]. intros d Hd Hdiv. destruct (Z_le_gt_dec (d * d) n) as [Hle|Hgt].
  - apply (ND d); auto. lia.
  - destruct Hdiv as [k Hk]. assert (2 <= k) by nia. assert (k * k <= n) by nia.
    apply (ND k); auto. exists d. lia.
Qed.
Lemma primes_sound l : forallb (fun q => primeb (fst q)) l = true -> Forall (fun q : Z * Z => prime (fst q)) l.
Proof. rewrite forallb_forall. intros H. apply Forall_forall. intros q Hq. apply primeb_sound. auto. Qed.
