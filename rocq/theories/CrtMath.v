(** Chinese remainders over a list of moduli. *)
From Coq Require Import Znumtheory.
From Verif Require Import Base FinSum RnsSpec.
Local Notation zsum := FinSum.zsum.

Lemma prodz_app a b : prodz (a ++ b) = prodz a * prodz b.
Proof. induction a; [change (prodz ([] ++ b)) with (prodz b); change (prodz []) with 1; ring|].
  change (a * prodz (a0 ++ b) = a * prodz a0 * prodz b). rewrite IHa. ring. Qed.

Lemma prodz_cons x l : prodz (x :: l) = x * prodz l.
Proof. reflexivity. Qed.

Lemma prodz_pos l : Forall (fun q => 0 < q) l -> 0 < prodz l.
Proof. induction 1; cbn; [lia|]. change (0 < x * prodz l). nia. Qed.

Lemma split_nth (qs : list Z) i : (i < length qs)%nat ->
  qs = firstn i qs ++ nth i qs 0 :: skipn (S i) qs.
Proof.
  revert i. induction qs as [|q t IH]; intros i Hi; [cbn in Hi; lia|].
  destruct i as [|i]; [reflexivity|]. cbn [length] in Hi.
  change (q :: t = q :: (firstn i t ++ nth i t 0 :: skipn (S i) t)). f_equal. apply IH. lia.
Qed.

Lemma hat_mul qs i : (i < length qs)%nat -> nth i qs 0 * hat qs i = prodz qs.
Proof.
  intros Hi. unfold hat. rewrite (split_nth qs i Hi) at 4. rewrite !prodz_app, prodz_cons. ring.
Qed.

Lemma hat_0 q t : hat (q :: t) 0 = prodz t.
Proof. reflexivity. Qed.
Lemma hat_S q t i : hat (q :: t) (S i) = q * hat t i.
Proof. reflexivity. Qed.

Lemma prodz_divide x l : In x l -> (x | prodz l).
Proof.
  induction l as [|y t IH]; [contradiction|]. intros [->|H]; rewrite prodz_cons.
  - apply Z.divide_factor_l.
  - apply Z.divide_mul_r, IH, H.
Qed.

Lemma hat_divide qs : forall i j, (i < length qs)%nat -> (j < length qs)%nat -> i <> j -> (nth j qs 0 | hat qs i).
Proof.
  induction qs as [|q t IH]; intros i j Hi Hj N; [cbn in Hi; lia|]. cbn [length] in *.
  destruct i as [|i], j as [|j]; [lia| | |].
  - rewrite hat_0. cbn [nth]. apply prodz_divide, nth_In. lia.
  - rewrite hat_S. cbn [nth]. apply Z.divide_factor_l.
  - rewrite hat_S. cbn [nth]. apply Z.divide_mul_r, IH; lia.
Qed.

Lemma ForallFirstn {A} (P : A -> Prop) n l : Forall P l -> Forall P (firstn n l).
Proof. intros H. rewrite <- (firstn_skipn n l) in H. apply Forall_app in H. apply H. Qed.
Lemma ForallSkipn {A} (P : A -> Prop) n l : Forall P l -> Forall P (skipn n l).
Proof. intros H. rewrite <- (firstn_skipn n l) in H. apply Forall_app in H. apply H. Qed.

(** pairwise coprime *)
Fixpoint pairwise (qs : list Z) : Prop :=
  match qs with [] => True | q :: t => Forall (rel_prime q) t /\ pairwise t end.

Lemma pairwise_primes qs : Forall prime qs -> NoDup qs -> pairwise qs.
Proof.
  induction 1 as [|q t Hq Ht IH]; [constructor|]. intros D. inversion D as [|? ? N D']; subst. split; [|auto].
  rewrite Forall_forall in *. intros x Hx.
  apply prime_rel_prime; [exact Hq|]. intros Hd.
  apply (prime_div_prime q x Hq (Ht x Hx)) in Hd. subst. contradiction.
Qed.

Lemma rel_prime_prodz q l : Forall (rel_prime q) l -> rel_prime q (prodz l).
Proof.
  induction 1; [apply rel_prime_sym, rel_prime_1|]. rewrite prodz_cons. apply rel_prime_mult; assumption.
Qed.

Lemma pairwise_divide qs x : pairwise qs -> Forall (fun q => (q | x)) qs -> (prodz qs | x).
Proof.
  induction qs as [|q t IH]; intros P D; [apply Z.divide_1_l|]. destruct P as [R P]. inversion D as [|? ? D1 D2]; subst.
  rewrite prodz_cons. destruct (IH P D2) as [y E]. apply rel_prime_prodz in R.
  destruct D1 as [z Ez]. subst x. assert (prodz t | z).
  { apply Gauss with q; [exists y; lia|apply rel_prime_sym, R]. }
  destruct H as [w ->]. exists w. ring.
Qed.

Lemma pairwise_cong qs x y : pairwise qs -> (forall i, (i < length qs)%nat -> cong (nth i qs 0) x y) -> cong (prodz qs) x y.
Proof.
  intros P H. unfold cong. apply pairwise_divide; [exact P|]. apply Forall_forall. intros q Hq.
  destruct (In_nth _ _ 0 Hq) as (i & Hi & <-). apply H, Hi.
Qed.

Lemma cong_sub_modulus d m a b : (d | m) -> cong m a b -> cong d a b.
Proof. intros [x ->] [y E]. exists (y * x). rewrite E. ring. Qed.

Lemma pairwise_hat qs : pairwise qs -> forall i, (i < length qs)%nat -> rel_prime (hat qs i) (nth i qs 0).
Proof.
  induction qs as [|q t IH]; intros P i Hi; [cbn in Hi; lia|]. destruct P as [R P]. destruct i as [|i].
  - rewrite hat_0. cbn [nth]. apply rel_prime_sym, rel_prime_prodz, R.
  - rewrite hat_S. cbn [nth length] in *. apply rel_prime_sym, rel_prime_mult.
    + rewrite Forall_forall in R. apply rel_prime_sym, R, nth_In. lia.
    + apply rel_prime_sym, IH; [exact P|lia].
Qed.

(** only the k-th term of the interpolation sum counts modulo the k-th modulus *)
Lemma crt_sum_cong qs (x : nat -> Z) k : (k < length qs)%nat ->
  cong (nth k qs 0) (zsum (length qs) (fun i => x i * hat qs i)) (x k * hat qs k).
Proof.
  intros Hk. transitivity (zsum (length qs) (fun i => if (i =? k)%nat then x k * hat qs k else 0)).
  - apply zsum_cong. intros i Hi. destruct (Nat.eqb_spec i k) as [->|N]; [reflexivity|].
    destruct (hat_divide qs i k Hi Hk N) as [y E]. exists (x i * y). rewrite E. ring.
  - rewrite (zsum_single _ k _ Hk).
    + rewrite Nat.eqb_refl. reflexivity.
    + intros i Hi N. destruct (Nat.eqb_spec i k); [contradiction|reflexivity].
Qed.

(** the interpolation sum with multipliers x_i = a * hat_i^-1 mod q_i *)
Lemma crt_sum_value qs (x : nat -> Z) a : pairwise qs ->
  (forall i, (i < length qs)%nat -> cong (nth i qs 0) (x i * hat qs i) a) ->
  cong (prodz qs) (zsum (length qs) (fun i => x i * hat qs i)) a.
Proof.
  intros P H. apply pairwise_cong; [exact P|]. intros k Hk. rewrite crt_sum_cong by exact Hk. apply H, Hk.
Qed.

Lemma crt_exists qs (r : nat -> Z) : pairwise qs -> Forall (fun q => 0 < q) qs ->
  exists a, 0 <= a < prodz qs /\ forall i, (i < length qs)%nat -> cong (nth i qs 0) a (r i).
Proof.
  intros P Pos.
  assert (I : forall i, exists u, (i < length qs)%nat -> cong (nth i qs 0) (u * hat qs i) 1).
  { intros i. destruct (Nat.lt_ge_cases i (length qs)) as [Hi|Hi]; [|exists 0; lia].
    destruct (rel_prime_bezout _ _ (pairwise_hat qs P i Hi)) as [u v E]. exists u. intros _. exists (- v). lia. }
  assert (F : forall n, exists u : nat -> Z, forall i, (i < n)%nat -> (i < length qs)%nat -> cong (nth i qs 0) (u i * hat qs i) 1).
  { induction n as [|n [u Hu]]; [exists (fun _ => 0); lia|]. destruct (I n) as [w Hw].
    exists (fun i => if (i =? n)%nat then w else u i). intros i Hi HL. destruct (Nat.eqb_spec i n) as [->|N]; [auto|].
    apply Hu; lia. }
  destruct (F (length qs)) as [u Hu].
  pose proof (prodz_pos qs Pos) as PQ.
  exists (zsum (length qs) (fun i => r i * u i * hat qs i) mod prodz qs). split; [apply Z.mod_pos_bound, PQ|].
  intros k Hk. transitivity (zsum (length qs) (fun i => r i * u i * hat qs i)).
  - apply cong_sub_modulus with (prodz qs); [apply prodz_divide, nth_In, Hk|apply cong_mod].
  - rewrite (crt_sum_cong qs (fun i => r i * u i) k Hk). specialize (Hu k Hk Hk).
    replace (r k * u k * hat qs k) with (r k * (u k * hat qs k)) by ring. rewrite Hu. apply cong_eq. ring.
Qed.

(** size of the interpolation sum *)
Lemma crt_sum_range qs (x : nat -> Z) : Forall (fun q => 0 < q) qs -> qs <> [] ->
  (forall i, (i < length qs)%nat -> 0 <= x i < nth i qs 0) ->
  0 <= zsum (length qs) (fun i => x i * hat qs i) < Z.of_nat (length qs) * prodz qs.
Proof.
  intros Pos Ne H.
  assert (HP : forall i, (i < length qs)%nat -> 0 < hat qs i).
  { intros i Hi. unfold hat. apply prodz_pos. rewrite Forall_app. split; [apply ForallFirstn|apply ForallSkipn]; exact Pos. }
  assert (T : forall i, (i < length qs)%nat -> 0 <= x i * hat qs i /\ x i * hat qs i + 1 <= prodz qs).
  { intros i Hi. rewrite <- (hat_mul qs i Hi). specialize (H i Hi). specialize (HP i Hi). nia. }
  split; [apply zsum_nonneg; intros i Hi; apply T, Hi|].
  assert (E : zsum (length qs) (fun i => x i * hat qs i + 1) <= zsum (length qs) (fun _ => prodz qs)).
  { apply zsum_le. intros i Hi. apply T, Hi. }
  rewrite zsum_add, !zsum_const in E. destruct qs; [contradiction|]. cbn [length] in *. lia.
Qed.

Lemma crt_sum_abs qs (x : nat -> Z) : Forall (fun q => 0 < q) qs ->
  (forall i, (i < length qs)%nat -> 2 * Z.abs (x i) <= nth i qs 0) ->
  2 * Z.abs (zsum (length qs) (fun i => x i * hat qs i)) <= Z.of_nat (length qs) * prodz qs.
Proof.
  intros Pos H.
  assert (HP : forall i, (i < length qs)%nat -> 0 < hat qs i).
  { intros i Hi. unfold hat. apply prodz_pos. rewrite Forall_app. split; [apply ForallFirstn|apply ForallSkipn]; exact Pos. }
  pose proof (zsum_abs (length qs) (fun i => x i * hat qs i)) as A.
  assert (E : zsum (length qs) (fun i => 2 * Z.abs (x i * hat qs i)) <= zsum (length qs) (fun _ => prodz qs)).
  { apply zsum_le. intros i Hi. rewrite <- (hat_mul qs i Hi). specialize (H i Hi). specialize (HP i Hi).
    rewrite Z.abs_mul, (Z.abs_eq (hat qs i)) by lia. nia. }
  rewrite (zsum_mul_l _ 2 (fun i => Z.abs (x i * hat qs i))), zsum_const in E. cbv beta in A. lia.
Qed.
