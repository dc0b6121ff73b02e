(** Powers of 5 modulo a power of two: every residue that is 1 modulo 4 is one
    (used for ComputeNumberSubstitutionsWithGenerator), and popcount of a power
    of two. *)
From Coq Require Import ZArith Lia List Znumtheory.
From Verif Require Import Base BitsUtil BitsUtilProofs Expand.
Open Scope Z_scope.

Lemma five_pow (e : nat) : exists h, 5 ^ 2 ^ Z.of_nat e = 1 + 2 ^ Z.of_nat (e + 2) * (2 * h + 1).
Proof.
  induction e as [|e (h & IH)]; [exists 0; reflexivity|].
  exists (2 ^ Z.of_nat e * (2 * h + 1) ^ 2 + h).
  rewrite Nat2Z.inj_succ, Z.pow_succ_r by lia. rewrite Z.mul_comm, Z.pow_mul_r by (try apply Z.pow_nonneg; lia). rewrite IH.
  replace (Z.of_nat (S e + 2)) with (Z.of_nat e + 3) by lia. replace (Z.of_nat (e + 2)) with (Z.of_nat e + 2) by lia.
  rewrite !Z.pow_add_r by lia. change (2 ^ 3) with 8. change (2 ^ 2) with 4. ring.
Qed.

Lemma five_generates (M : nat) : forall x, x mod 4 = 1 ->
  exists b, 1 <= b <= 2 ^ Z.of_nat M /\ (2 ^ Z.of_nat (M + 2) | 5 ^ b - x).
Proof.
  induction M as [|M IH]; intros x Hx.
  - exists 1. split; [change (2 ^ Z.of_nat 0) with 1; lia|]. change (2 ^ Z.of_nat (0 + 2)) with 4. change (5 ^ 1) with 5.
    exists (1 - x / 4). pose proof (Z.div_mod x 4 ltac:(lia)). lia.
  - destruct (IH x Hx) as (b & Hb & (d & Hd)).
    assert (P : 2 ^ Z.of_nat (S M) = 2 * 2 ^ Z.of_nat M) by (rewrite Nat2Z.inj_succ, Z.pow_succ_r by lia; reflexivity).
    assert (P2 : 2 ^ Z.of_nat (S M + 2) = 2 * 2 ^ Z.of_nat (M + 2)).
    { replace (S M + 2)%nat with (S (M + 2)) by lia. rewrite Nat2Z.inj_succ, Z.pow_succ_r by lia. reflexivity. }
    destruct (Z.Even_or_Odd d) as [(d' & ->)|(d' & ->)].
    + exists b. split; [lia|]. exists d'. rewrite Hd, P2. ring.
    + exists (b + 2 ^ Z.of_nat M). split; [lia|]. destruct (five_pow M) as (h & Hh).
      rewrite Z.pow_add_r by (try apply Z.pow_nonneg; lia). rewrite Hh.
      assert (O5 : Z.Odd (5 ^ b)).
      { apply Z.odd_spec. rewrite <- (Z2Nat.id b) by lia. generalize (Z.to_nat b). intros c. induction c as [|c IHc]; [reflexivity|].
        rewrite Nat2Z.inj_succ, Z.pow_succ_r, Z.odd_mul, IHc by lia. reflexivity. }
      destruct O5 as (o & Ho).
      exists (d' + o * (2 * h + 1) + h + 1). rewrite P2.
      replace (5 ^ b * (1 + 2 ^ Z.of_nat (M + 2) * (2 * h + 1)) - x) with
        ((5 ^ b - x) + 2 ^ Z.of_nat (M + 2) * (5 ^ b * (2 * h + 1))) by ring.
      rewrite Hd, Ho. ring.
Qed.

Lemma generator_loop_sound two_n target : 0 < two_n -> forall fuel b r, 1 <= b ->
  generator_loop two_n target fuel b (5 ^ (b - 1) mod two_n) = Ok r ->
  b <= r /\ 5 ^ r mod two_n = target /\ forall c, b <= c < r -> 5 ^ c mod two_n <> target.
Proof.
  intros Hn. induction fuel as [|fuel IH]; intros b r Hb E; cbn [generator_loop] in E; [discriminate|].
  assert (St : 5 ^ (b - 1) mod two_n * 5 mod two_n = 5 ^ b mod two_n).
  { rewrite Z.mul_mod_idemp_l by lia. replace (5 ^ b) with (5 ^ (b - 1) * 5); [reflexivity|].
    replace b with (Z.succ (b - 1)) at 2 by lia. rewrite Z.pow_succ_r by lia. ring. }
  rewrite St in E. destruct (Z.eqb_spec (5 ^ b mod two_n) target) as [Q|Q].
  - injection E as <-. split; [lia|]. split; [exact Q|]. intros c Hc. lia.
  - replace (5 ^ b mod two_n) with (5 ^ (b + 1 - 1) mod two_n) in E by (do 2 f_equal; lia).
    destruct (IH (b + 1) r ltac:(lia) E) as (H1 & H2 & H3). split; [lia|]. split; [exact H2|].
    intros c Hc. destruct (Z.eq_dec c b) as [->|]; [exact Q|]. apply H3. lia.
Qed.

Lemma generator_loop_finds two_n target : 0 < two_n -> forall fuel b c, 1 <= b -> b <= c < b + Z.of_nat fuel ->
  5 ^ c mod two_n = target ->
  exists r, generator_loop two_n target fuel b (5 ^ (b - 1) mod two_n) = Ok r /\ b <= r <= c.
Proof.
  intros Hn. induction fuel as [|fuel IH]; intros b c Hb Hc E; [lia|]. cbn [generator_loop].
  assert (St : 5 ^ (b - 1) mod two_n * 5 mod two_n = 5 ^ b mod two_n).
  { rewrite Z.mul_mod_idemp_l by lia. replace (5 ^ b) with (5 ^ (b - 1) * 5); [reflexivity|].
    replace b with (Z.succ (b - 1)) at 2 by lia. rewrite Z.pow_succ_r by lia. ring. }
  rewrite St. destruct (Z.eqb_spec (5 ^ b mod two_n) target) as [Q|Q]; [exists b; split; [reflexivity|lia]|].
  assert (b <> c) by (intros ->; contradiction).
  destruct (IH (b + 1) c ltac:(lia) ltac:(lia) E) as (r & Er & Hr). exists r. split; [|lia].
  rewrite <- Er. replace (b + 1 - 1) with b by lia. reflexivity.
Qed.

Lemma ones_pow2 e : 0 <= e < 64 -> count_ones_64 (2 ^ e) = 1.
Proof.
  intros He. assert (F : forallb (fun i => count_ones_64 (2 ^ Z.of_nat i) =? 1) (seq 0 64) = true) by (vm_compute; reflexivity).
  rewrite forallb_forall in F. specialize (F (Z.to_nat e)). rewrite in_seq in F. rewrite Z2Nat.id in F by lia. apply Z.eqb_eq, F. lia.
Qed.

(** 2^e + 1 with 2 <= e <= L is some power of the generator modulo 2^(L+1) *)
Lemma num_substitutions_ok (L : nat) e : (L <= 15)%nat -> 2 <= e <= Z.of_nat L ->
  exists b, num_substitutions (2 ^ Z.of_nat L) (2 ^ e + 1) = Ok b /\ 1 <= b <= 2 ^ (Z.of_nat L - 1) /\
    5 ^ b mod (2 * 2 ^ Z.of_nat L) = 2 ^ e + 1 /\
    forall c, 1 <= c < b -> 5 ^ c mod (2 * 2 ^ Z.of_nat L) <> 2 ^ e + 1.
Proof.
  intros HL He. assert (P4 : 4 <= 2 ^ e) by (change 4 with (2 ^ 2); apply Z.pow_le_mono_r; lia).
  assert (PL : 2 ^ e <= 2 ^ Z.of_nat L) by (apply Z.pow_le_mono_r; lia).
  unfold num_substitutions. destruct (Z.ltb_spec (2 ^ e + 1) 5); [lia|]. rewrite Z.geb_leb.
  destruct (Z.leb_spec (2 * 2 ^ Z.of_nat L) (2 ^ e + 1)); [lia|]. replace (2 ^ e + 1 - 1) with (2 ^ e) by lia.
  rewrite ones_pow2 by lia. cbn [orb negb Z.eqb Pos.eqb].
  assert (E2 : 2 * 2 ^ Z.of_nat L = 2 ^ Z.of_nat (L - 1 + 2)).
  { replace (Z.of_nat (L - 1 + 2)) with (Z.succ (Z.of_nat L)) by lia. rewrite Z.pow_succ_r by lia. reflexivity. }
  assert (E1 : 2 ^ Z.of_nat (L - 1) = 2 ^ (Z.of_nat L - 1)) by (f_equal; lia).
  assert (E3 : 2 ^ Z.of_nat L = 2 * 2 ^ (Z.of_nat L - 1)) by (rewrite <- Z.pow_succ_r by lia; f_equal; lia).
  destruct (five_generates (L - 1) (2 ^ e + 1)) as (c & Hc & (d & Hd)).
  { replace e with (e - 2 + 2) by lia. rewrite Z.pow_add_r by lia. change (2 ^ 2) with 4.
    rewrite Z.add_comm, Z.mod_add by lia. reflexivity. }
  rewrite <- E2 in Hd. rewrite E1 in Hc.
  assert (Ec : 5 ^ c mod (2 * 2 ^ Z.of_nat L) = 2 ^ e + 1).
  { replace (5 ^ c) with (2 ^ e + 1 + d * (2 * 2 ^ Z.of_nat L)) by lia. rewrite Z.mod_add by lia. apply Z.mod_small. lia. }
  destruct (generator_loop_finds (2 * 2 ^ Z.of_nat L) (2 ^ e + 1) ltac:(lia) (Z.to_nat (2 * 2 ^ Z.of_nat L - 1)) 1 c) as (r & Er & Hr); [lia| |exact Ec|].
  { rewrite Z2Nat.id by lia. lia. }
  assert (E0 : 5 ^ (1 - 1) mod (2 * 2 ^ Z.of_nat L) = 1) by (change (5 ^ (1 - 1)) with 1; apply Z.mod_small; lia).
  destruct (generator_loop_sound (2 * 2 ^ Z.of_nat L) (2 ^ e + 1) ltac:(lia) _ 1 r ltac:(lia) Er) as (S1 & S2 & S3).
  rewrite E0 in Er. exists r. split; [exact Er|]. split; [lia|]. split; [exact S2|exact S3].
Qed.
