(** Finite sums over [nat] ranges and congruences modulo m: the mathematical
    vocabulary of the statements about transforms and polynomials. *)
From Coq Require Export Morphisms Setoid.
From Coq Require Import Znumtheory.
From Verif Require Import Base.

(** sum of f 0, ..., f (n-1) *)
Fixpoint zsum (n : nat) (f : nat -> Z) : Z :=
  match n with O => 0 | S n' => zsum n' f + f n' end.

(** a and b are congruent modulo m *)
Definition cong (m a b : Z) : Prop := (m | a - b).

Global Instance cong_equiv m : Equivalence (cong m).
Proof.
  split.
  - intros a. exists 0. lia.
  - intros a b [k H]. exists (- k). lia.
  - intros a b c [k H] [l H']. exists (k + l). lia.
Qed.

Global Instance add_cong m : Proper (cong m ==> cong m ==> cong m) Z.add.
Proof. intros a b [k H] c d [l H']. exists (k + l). lia. Qed.

Global Instance sub_cong m : Proper (cong m ==> cong m ==> cong m) Z.sub.
Proof. intros a b [k H] c d [l H']. exists (k - l). lia. Qed.

Global Instance opp_cong m : Proper (cong m ==> cong m) Z.opp.
Proof. intros a b [k H]. exists (- k). lia. Qed.

Global Instance mul_cong m : Proper (cong m ==> cong m ==> cong m) Z.mul.
Proof.
  intros a b [k H] c d [l H']. exists (k * c + b * l).
  replace (a * c - b * d) with ((a - b) * c + b * (c - d)) by ring. rewrite H, H'. ring.
Qed.

Global Instance pow_cong m : Proper (cong m ==> eq ==> cong m) Z.pow.
Proof.
  intros a b E e e' <-. destruct (Z.le_gt_cases 0 e) as [H|H].
  - revert e H. apply natlike_ind; [reflexivity|]. intros e He IH.
    rewrite !Z.pow_succ_r by assumption. rewrite IH, E. reflexivity.
  - rewrite !Z.pow_neg_r by assumption. reflexivity.
Qed.

Lemma cong_iff m a b : m <> 0 -> (cong m a b <-> a mod m = b mod m).
Proof.
  intros Hm. unfold cong. rewrite <- Z.mod_divide by assumption. split; intros H.
  - replace a with (b + (a - b)) by ring. rewrite Zplus_mod, H, Z.add_0_r. apply Zmod_mod.
  - rewrite Zminus_mod, H, Z.sub_diag. apply Z.mod_0_l; assumption.
Qed.

Lemma cong_mod m a : cong m (a mod m) a.
Proof.
  destruct (Z.eq_dec m 0) as [->|H]; [rewrite Zmod_0_r; reflexivity|].
  apply cong_iff; [assumption|]. apply Zmod_mod.
Qed.

Lemma cong_eq m a b : a = b -> cong m a b.
Proof. intros ->. reflexivity. Qed.

Lemma cong_small m a b : 0 <= a < m -> 0 <= b < m -> cong m a b -> a = b.
Proof.
  intros Ha Hb H. apply cong_iff in H; [|lia]. rewrite !Z.mod_small in H; assumption.
Qed.

Lemma cong_m m : cong m m 0.
Proof. exists 1. lia. Qed.

Lemma cong_to_mod m a b : 0 < m -> cong m a b -> a mod m = b mod m.
Proof. intros Hm H. apply cong_iff; [lia|assumption]. Qed.

(** mod version of a congruence whose left side is already reduced *)
Lemma cong_reduced m a b : 0 <= a < m -> cong m a b -> a = b mod m.
Proof. intros Ha H. apply cong_to_mod in H; [|lia]. rewrite <- H, Z.mod_small; auto. Qed.

Lemma zsum_ext n f g : (forall i, (i < n)%nat -> f i = g i) -> zsum n f = zsum n g.
Proof. intros H. induction n; cbn; [reflexivity|]. rewrite IHn, H; auto. Qed.

Lemma zsum_cong m n f g : (forall i, (i < n)%nat -> cong m (f i) (g i)) ->
  cong m (zsum n f) (zsum n g).
Proof. intros H. induction n; cbn; [reflexivity|]. rewrite IHn, H by auto. reflexivity. Qed.

Lemma zsum_zero n : zsum n (fun _ => 0) = 0.
Proof. induction n; cbn; lia. Qed.

Lemma zsum_add n f g : zsum n (fun i => f i + g i) = zsum n f + zsum n g.
Proof. induction n; cbn; [reflexivity|]. rewrite IHn. ring. Qed.

Lemma zsum_sub n f g : zsum n (fun i => f i - g i) = zsum n f - zsum n g.
Proof. induction n; cbn; [reflexivity|]. rewrite IHn. ring. Qed.

Lemma zsum_opp n f : zsum n (fun i => - f i) = - zsum n f.
Proof. induction n; cbn; [reflexivity|]. rewrite IHn. ring. Qed.

Lemma zsum_mul_l n c f : zsum n (fun i => c * f i) = c * zsum n f.
Proof. induction n; cbn; [ring|]. rewrite IHn. ring. Qed.

Lemma zsum_mul_r n c f : zsum n (fun i => f i * c) = zsum n f * c.
Proof. induction n; cbn; [ring|]. rewrite IHn. ring. Qed.

Lemma zsum_split a b f : zsum (a + b) f = zsum a f + zsum b (fun i => f (a + i)%nat).
Proof.
  induction b; cbn; [rewrite Nat.add_0_r; ring|].
  rewrite Nat.add_succ_r. cbn. rewrite IHb. ring.
Qed.

Lemma zsum_first n f : zsum (S n) f = f O + zsum n (fun i => f (S i)).
Proof. change (S n) with (1 + n)%nat. rewrite zsum_split. cbn. ring. Qed.

Lemma zsum_swap a b f :
  zsum a (fun i => zsum b (fun j => f i j)) = zsum b (fun j => zsum a (fun i => f i j)).
Proof.
  induction a; cbn; [symmetry; apply zsum_zero|].
  rewrite IHa, <- zsum_add. reflexivity.
Qed.


Lemma zsum_single n k f : (k < n)%nat -> (forall i, (i < n)%nat -> i <> k -> f i = 0) ->
  zsum n f = f k.
Proof.
  induction n; intros Hk H; [lia|]. cbn. destruct (Nat.eq_dec k n) as [->|].
  - rewrite (zsum_ext n f (fun _ => 0)), zsum_zero; [ring|]. intros. apply H; lia.
  - rewrite IHn, (H n); [ring|lia..|]. intros; apply H; lia.
Qed.

Lemma zsum_nonneg n f : (forall i, (i < n)%nat -> 0 <= f i) -> 0 <= zsum n f.
Proof. induction n; cbn; intros H; [lia|]. pose proof (H n). assert (0 <= zsum n f) by auto. lia. Qed.

Lemma zsum_le n f g : (forall i, (i < n)%nat -> f i <= g i) -> zsum n f <= zsum n g.
Proof. induction n; cbn; intros H; [lia|]. pose proof (H n). assert (zsum n f <= zsum n g) by auto. lia. Qed.

Lemma zsum_const n c : zsum n (fun _ => c) = Z.of_nat n * c.
Proof. induction n; cbn [zsum]; [lia|]. rewrite IHn. lia. Qed.

Lemma zsum_abs n f : Z.abs (zsum n f) <= zsum n (fun i => Z.abs (f i)).
Proof. induction n; cbn; lia. Qed.
