(** Facts about Z[X]/(X^n+1), evaluated at roots of X^n+1 modulo m. *)
From Coq Require Import Arith ArithRing Znumtheory Zpow_facts.
From Verif Require Import Base FinSum PolySpec.

Lemma peval_ext n f g x : (forall i, (i < n)%nat -> f i = g i) -> peval n f x = peval n g x.
Proof. intros H. apply zsum_ext. intros i Hi. rewrite H by exact Hi. reflexivity. Qed.

Lemma peval_cong m n f g x : (forall i, (i < n)%nat -> cong m (f i) (g i)) ->
  cong m (peval n f x) (peval n g x).
Proof. intros H. apply zsum_cong. intros i Hi. rewrite (H i Hi). reflexivity. Qed.

Lemma peval_x m n f x y : cong m x y -> cong m (peval n f x) (peval n f y).
Proof. intros H. apply zsum_cong. intros i Hi. rewrite H. reflexivity. Qed.

Lemma peval_add n f g x : peval n (fun i => f i + g i) x = peval n f x + peval n g x.
Proof. unfold peval. rewrite <- zsum_add. apply zsum_ext. intros. ring. Qed.

Lemma peval_sub n f g x : peval n (fun i => f i - g i) x = peval n f x - peval n g x.
Proof. unfold peval. rewrite <- zsum_sub. apply zsum_ext. intros. ring. Qed.

Lemma peval_opp n f x : peval n (fun i => - f i) x = - peval n f x.
Proof. unfold peval. rewrite <- zsum_opp. apply zsum_ext. intros. ring. Qed.

Lemma peval_scale n c f x : peval n (fun i => c * f i) x = c * peval n f x.
Proof. unfold peval. rewrite <- zsum_mul_l. apply zsum_ext. intros. ring. Qed.

Lemma peval_zero n x : peval n (fun _ => 0) x = 0.
Proof. unfold peval. rewrite (zsum_ext _ _ (fun _ => 0)); [apply zsum_zero|]. intros; ring. Qed.

Lemma peval_const n c x : (0 < n)%nat -> peval n (pconst c) x = c.
Proof.
  intros Hn. unfold peval. rewrite (zsum_single n 0); [|exact Hn|
    intros i Hi Ne; unfold pconst; destruct (Nat.eqb_spec i 0); [lia|ring]].
  unfold pconst. cbn. ring.
Qed.

Lemma peval_zsum n k (F : nat -> nat -> Z) x :
  peval n (fun i => zsum k (fun j => F j i)) x = zsum k (fun j => peval n (F j) x).
Proof.
  unfold peval. rewrite zsum_swap. apply zsum_ext. intros i Hi. rewrite <- zsum_mul_r. reflexivity.
Qed.

Lemma pow_n_plus m x n k : cong m (x ^ Z.of_nat n) (-1) ->
  cong m (x ^ Z.of_nat (n + k)) (- x ^ Z.of_nat k).
Proof.
  intros H. rewrite Nat2Z.inj_add, Z.pow_add_r by lia. rewrite H. apply cong_eq. ring.
Qed.

Lemma peval_negacyclic m n f g x : cong m (x ^ Z.of_nat n) (-1) ->
  cong m (peval n (negacyclic n f g) x) (peval n f x * peval n g x).
Proof.
  intros Hx. unfold negacyclic.
  rewrite (peval_zsum n n (fun i k =>
    if (i <=? k)%nat then f i * g (k - i)%nat else - (f i * g (k + n - i)%nat))).
  unfold peval at 2. rewrite <- zsum_mul_r. apply zsum_cong. intros i Hi.
  rewrite <- Z.mul_assoc. unfold peval.
  assert (E : forall a b, n = (a + b)%nat -> a = i ->
    cong m (zsum n (fun k => (if (i <=? k)%nat then f i * g (k - i)%nat
                              else - (f i * g (k + n - i)%nat)) * x ^ Z.of_nat k))
           (f i * (x ^ Z.of_nat i * zsum n (fun j => g j * x ^ Z.of_nat j)))).
  { intros a b En Ea.
    rewrite En at 1. rewrite zsum_split.
    replace (zsum n (fun j => g j * x ^ Z.of_nat j)) with
      (zsum b (fun j => g j * x ^ Z.of_nat j) + zsum a (fun j => g (b + j)%nat * x ^ Z.of_nat (b + j))).
    2:{ rewrite <- (zsum_split b a (fun j => g j * x ^ Z.of_nat j)). f_equal. lia. }
    rewrite !Z.mul_add_distr_l. rewrite Z.add_comm. apply add_cong.
    - rewrite <- !zsum_mul_l. apply cong_eq. apply zsum_ext. intros j Hj.
      subst a. destruct (Nat.leb_spec i (i + j)); [|lia]. replace (i + j - i)%nat with j by lia.
      rewrite Nat2Z.inj_add, Z.pow_add_r by lia. ring.
    - rewrite <- !zsum_mul_l. apply zsum_cong. intros j Hj.
      destruct (Nat.leb_spec i j); [lia|]. replace (j + n - i)%nat with (b + j)%nat by lia.
      transitivity (f i * g (b + j)%nat * x ^ Z.of_nat (n + j)).
      + rewrite (pow_n_plus m x n j Hx). apply cong_eq. ring.
      + apply cong_eq. replace (n + j)%nat with (i + (b + j))%nat by lia.
        rewrite (Nat2Z.inj_add i), Z.pow_add_r by lia. ring. }
  apply (E i (n - i)%nat); lia.
Qed.

Lemma pow_mod_2n m x n e : (0 < n)%nat -> cong m (x ^ Z.of_nat n) (-1) ->
  cong m (x ^ Z.of_nat e) (x ^ Z.of_nat (e mod (2 * n))).
Proof.
  intros Hn Hx. rewrite (Nat.div_mod e (2 * n)) at 1 by lia.
  rewrite Nat2Z.inj_add, Z.pow_add_r by lia.
  rewrite <- Nat.mul_assoc, Nat.mul_comm, <- Nat.mul_assoc, Nat2Z.inj_mul, Z.pow_mul_r by lia.
  rewrite Hx. rewrite Nat.mul_comm, Nat2Z.inj_mul, Z.pow_mul_r by lia.
  change ((-1) ^ Z.of_nat 2) with 1. rewrite Z.pow_1_l by lia. apply cong_eq. ring.
Qed.

Lemma peval_substituted m n power f x : (0 < n)%nat -> cong m (x ^ Z.of_nat n) (-1) ->
  cong m (peval n (substituted n power f) x) (peval n f (x ^ Z.of_nat power)).
Proof.
  intros Hn Hx. unfold substituted.
  rewrite (peval_zsum n n (fun i k => if (i * power mod (2 * n) =? k)%nat then f i
     else if (i * power mod (2 * n) =? k + n)%nat then - f i else 0)).
  apply zsum_cong. intros i Hi. rewrite <- Z.pow_mul_r by lia. rewrite <- Nat2Z.inj_mul, (Nat.mul_comm power i).
  rewrite (pow_mod_2n m x n (i * power) Hn Hx).
  pose proof (Nat.mod_upper_bound (i * power) (2 * n) ltac:(lia)) as U.
  set (e := (i * power mod (2 * n))%nat) in *. unfold peval.
  destruct (Nat.lt_ge_cases e n) as [H|H].
  - rewrite (zsum_single n e); [rewrite Nat.eqb_refl; reflexivity|exact H|].
    intros k Hk Ne. destruct (Nat.eqb_spec e k); [lia|]. destruct (Nat.eqb_spec e (k + n)); [lia|ring].
  - rewrite (zsum_single n (e - n)); [|lia|].
    + destruct (Nat.eqb_spec e (e - n)); [lia|]. destruct (Nat.eqb_spec e (e - n + n)); [|lia].
      replace e with (n + (e - n))%nat at 2 by lia. rewrite (pow_n_plus m x n (e - n) Hx).
      apply cong_eq. ring.
    + intros k Hk Ne. destruct (Nat.eqb_spec e k); [lia|]. destruct (Nat.eqb_spec e (k + n)); [lia|ring].
Qed.

(** ** Norm bounds *)

Lemma negacyclic_bound n f g A B k : 0 <= A -> 0 <= B ->
  (forall i, (i < n)%nat -> Z.abs (f i) <= A) -> (forall i, (i < n)%nat -> Z.abs (g i) <= B) ->
  (k < n)%nat -> Z.abs (negacyclic n f g k) <= Z.of_nat n * (A * B).
Proof.
  intros HA HB Hf Hg Hk. unfold negacyclic. eapply Z.le_trans; [apply zsum_abs|].
  rewrite <- zsum_const. apply zsum_le. intros i Hi.
  destruct (Nat.leb_spec i k).
  - rewrite Z.abs_mul. apply Z.mul_le_mono_nonneg; try apply Z.abs_nonneg; [apply Hf|apply Hg]; lia.
  - rewrite Z.abs_opp, Z.abs_mul. apply Z.mul_le_mono_nonneg; try apply Z.abs_nonneg; [apply Hf|apply Hg]; lia.
Qed.

Lemma odd_cancel n power i j : Nat.odd power = true -> (exists l, n = 2 ^ l)%nat ->
  (i * power mod n = j * power mod n)%nat -> (i < n)%nat -> (j < n)%nat -> i = j.
Proof.
  intros Ho [l El] E Hi Hj.
  assert (Hn : 0 < Z.of_nat n) by lia.
  assert (D : (Z.of_nat n | (Z.of_nat i - Z.of_nat j) * Z.of_nat power)).
  { rewrite Z.mul_sub_distr_r. fold (cong (Z.of_nat n) (Z.of_nat i * Z.of_nat power) (Z.of_nat j * Z.of_nat power)).
    apply cong_iff; [lia|]. rewrite <- !Nat2Z.inj_mul, <- !Nat2Z.inj_mod. f_equal. exact E. }
  rewrite Z.mul_comm in D. apply Gauss in D.
  - destruct D as [q Q]. assert (q = 0) by nia. nia.
  - rewrite El, Nat2Z.inj_pow. apply rel_prime_sym. apply rel_prime_Zpower_r; [lia|].
    apply rel_prime_sym. apply prime_rel_prime; [apply prime_2|].
    intros [c C]. apply Nat.odd_spec in Ho. destruct Ho as [d Hd].
    assert (Z.of_nat power = 2 * Z.of_nat d + 1) by lia. change (Z.of_nat 2) with 2 in C. lia.
Qed.

Lemma substituted_cases n power f k : Nat.odd power = true -> (exists l, n = 2 ^ l)%nat -> (k < n)%nat ->
  substituted n power f k = 0 \/
  exists i, (i < n)%nat /\ (substituted n power f k = f i \/ substituted n power f k = - f i).
Proof.
  intros Ho Hl Hk.
  assert (Dec : (exists i, (i < n)%nat /\ (i * power mod n = k)%nat) \/
                forall i, (i < n)%nat -> (i * power mod n <> k)%nat).
  { clear - Hk. assert (forall b, (exists i, (i < b)%nat /\ (i * power mod n = k)%nat) \/
                forall i, (i < b)%nat -> (i * power mod n <> k)%nat) as X; [|apply X].
    induction b as [|b IH]; [right; lia|]. destruct IH as [(i & Hi & E)|N].
    - left. exists i. split; [lia|exact E].
    - destruct (Nat.eq_dec (b * power mod n) k) as [E|E]; [left; exists b; split; [lia|exact E]|].
      right. intros i Hi. destruct (Nat.eq_dec i b) as [->|]; [exact E|apply N; lia]. }
  assert (R : forall i, ((i * power mod (2 * n)) mod n = i * power mod n)%nat).
  { intros i. rewrite (Nat.mul_comm 2 n), Nat.mod_mul_r by lia.
    rewrite (Nat.mul_comm n), Nat.mod_add by lia. apply Nat.mod_mod. lia. }
  assert (T : forall i, ((i * power mod (2 * n)) mod n <> k)%nat ->
    (if (i * power mod (2 * n) =? k)%nat then f i
     else if (i * power mod (2 * n) =? k + n)%nat then - f i else 0) = 0).
  { intros i Hne. destruct (Nat.eqb_spec (i * power mod (2 * n)) k) as [E|E].
    - rewrite E, Nat.mod_small in Hne by exact Hk. lia.
    - destruct (Nat.eqb_spec (i * power mod (2 * n)) (k + n)) as [E'|E']; [|reflexivity].
      rewrite E' in Hne. replace (k + n)%nat with (k + 1 * n)%nat in Hne by lia.
      rewrite Nat.mod_add, Nat.mod_small in Hne by lia. lia. }
  unfold substituted. destruct Dec as [(i & Hi & E)|N].
  - right. exists i. split; [exact Hi|].
    rewrite (zsum_single n i); [|exact Hi|].
    + destruct (Nat.eqb_spec (i * power mod (2 * n)) k); [left; reflexivity|].
      destruct (Nat.eqb_spec (i * power mod (2 * n)) (k + n)); [right; reflexivity|].
      exfalso. pose proof (R i) as Ri. rewrite E in Ri.
      pose proof (Nat.mod_upper_bound (i * power) (2 * n) ltac:(lia)) as U.
      set (e := (i * power mod (2 * n))%nat) in *.
      destruct (Nat.lt_ge_cases e n).
      * rewrite Nat.mod_small in Ri by assumption. lia.
      * replace e with (e - n + 1 * n)%nat in Ri by lia. rewrite Nat.mod_add, Nat.mod_small in Ri by lia. lia.
    + intros j Hj Ne. apply T. intros Ej. apply Ne. apply (odd_cancel n power j i Ho Hl); try assumption.
      rewrite <- R, Ej. symmetry. exact E.
  - left. rewrite (zsum_ext _ _ (fun _ => 0)); [apply zsum_zero|]. intros i Hi. apply T. rewrite R. apply N. exact Hi.
Qed.

Lemma substituted_bound n power f B k : Nat.odd power = true -> (exists l, n = 2 ^ l)%nat -> (k < n)%nat ->
  0 <= B -> (forall i, (i < n)%nat -> Z.abs (f i) <= B) -> Z.abs (substituted n power f k) <= B.
Proof.
  intros Ho Hl Hk HB Hf. destruct (substituted_cases n power f k Ho Hl Hk) as [->|(i & Hi & [->| ->])].
  - lia.
  - apply Hf, Hi.
  - rewrite Z.abs_opp. apply Hf, Hi.
Qed.

(** ** Centred representatives *)

Lemma centered_cong q x : cong q (centered q x) x.
Proof.
  unfold centered. destruct (Z.leb_spec (2 * (x mod q)) q).
  - apply cong_mod.
  - transitivity (x mod q - 0); [apply sub_cong; [reflexivity|apply cong_m]|]. rewrite Z.sub_0_r. apply cong_mod.
Qed.

Lemma centered_fits q x : 0 < q -> fits q (centered q x).
Proof.
  intros Hq. unfold centered, fits. pose proof (Z.mod_pos_bound x q Hq).
  destruct (Z.leb_spec (2 * (x mod q)) q); lia.
Qed.

Lemma fits_unique q x y : 0 < q -> fits q x -> fits q y -> cong q x y -> x = y.
Proof. unfold fits. intros Hq Hx Hy [k E]. assert (k = 0) by nia. lia. Qed.

Lemma centered_eq q x y : 0 < q -> fits q y -> cong q x y -> centered q x = y.
Proof.
  intros Hq Hy H. apply (fits_unique q); auto using centered_fits.
  rewrite centered_cong. exact H.
Qed.
