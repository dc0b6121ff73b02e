(** Proofs for C96, the ternary sampler: the expected number of missing bits is
    divided by four in every round. *)
From Verif Require Import Base FinSum BitsUtil Montgomery MontBatch Ntt Poly PolyExt Prng Sampling SampleSpec ZLemmas MontgomeryProofs Spec ArithFacts
  PolySpec Ring MontBatchProofs SampleProofs SampleErrProofs ThmArith ThmSample DistSpec DistProofs TapeSpec TapeProofs TapeRns EndProofs.
Local Notation zsum := FinSum.zsum.
Local Notation tapes N := (repeat 8 N).

Definition bits (x : Z) : Z := zsum 8 (fun i => Z.b2z (Z.testbit x (Z.of_nat i))).
Lemma bits_0 : bits 0 = 0.
Proof. reflexivity. Qed.
Lemma bits_le x : 0 <= bits x <= 8.
Proof.
  unfold bits. split; [apply zsum_nonneg; intros i _; destruct (Z.testbit _ _); cbn; lia|].
  transitivity (zsum 8 (fun _ => 1)); [|vm_compute; discriminate]. apply zsum_le. intros i _. destruct (Z.testbit _ _); cbn; lia.
Qed.
Lemma bits_pos x : (forall i, 8 <= i -> Z.testbit x i = false) -> x <> 0 -> 1 <= bits x.
Proof.
  intros H N. destruct (Z_le_gt_dec 1 (bits x)) as [|L]; [assumption|]. exfalso. apply N. apply Z.bits_inj'. intros i Hi. rewrite Z.bits_0.
  destruct (Z_lt_le_dec i 8) as [I|I]; [|apply H, I]. destruct (Z.testbit x i) eqn:E; [|reflexivity].
  assert (1 <= bits x); [|lia]. unfold bits.
  transitivity (zsum 8 (fun j => if (j =? Z.to_nat i)%nat then 1 else 0)).
  - rewrite (zsum_single 8 (Z.to_nat i)); [rewrite Nat.eqb_refl; lia|lia|]. intros j _ Hj. apply Nat.eqb_neq in Hj. rewrite Hj. reflexivity.
  - apply zsum_le. intros j _. destruct (Nat.eqb_spec j (Z.to_nat i)) as [J|J]; [rewrite J, Z2Nat.id, E by exact Hi; reflexivity|destruct (Z.testbit x (Z.of_nat j)); discriminate].
Qed.

Definition next (missing e0 e1 r0 r1 : Z) : Z :=
  Z.land (wrap 8 (Z.lnot (Z.lxor e0 (Z.land r0 missing)))) (Z.lxor e1 (Z.land r1 missing)).
(** bits that are not missing have been accepted *)
Definition settled (missing e0 e1 : Z) : Prop :=
  forall i, (i < 8)%nat -> Z.testbit missing (Z.of_nat i) = false -> negb (Z.testbit e0 (Z.of_nat i)) && Z.testbit e1 (Z.of_nat i) = false.

Lemma next_bit missing e0 e1 r0 r1 i : (i < 8)%nat -> Z.testbit (next missing e0 e1 r0 r1) (Z.of_nat i) =
  negb (xorb (Z.testbit e0 (Z.of_nat i)) (Z.testbit r0 (Z.of_nat i) && Z.testbit missing (Z.of_nat i))) &&
  xorb (Z.testbit e1 (Z.of_nat i)) (Z.testbit r1 (Z.of_nat i) && Z.testbit missing (Z.of_nat i)).
Proof.
  intros Hi. unfold next, wrap. rewrite Z.land_spec, Z.mod_pow2_bits_low by lia. rewrite Z.lnot_spec by lia. rewrite !Z.lxor_spec, !Z.land_spec. reflexivity.
Qed.

Lemma half i a : (i < 8)%nat -> zsum 256 (fun r => Z.b2z (xorb a (Z.testbit (Z.of_nat r) (Z.of_nat i)))) = 128.
Proof.
  intros Hi. destruct a; do 8 (destruct i as [|i]; [vm_compute; reflexivity|]); lia.
Qed.

Lemma quarter missing e0 e1 i : settled missing e0 e1 -> (i < 8)%nat ->
  zsum 256 (fun r0 => zsum 256 (fun r1 => Z.b2z (Z.testbit (next missing e0 e1 (Z.of_nat r0) (Z.of_nat r1)) (Z.of_nat i)))) = 16384 * Z.b2z (Z.testbit missing (Z.of_nat i)).
Proof.
  intros S Hi. destruct (Z.testbit missing (Z.of_nat i)) eqn:M.
  - rewrite (zsum_ext _ _ (fun r0 => 128 * Z.b2z (xorb (negb (Z.testbit e0 (Z.of_nat i))) (Z.testbit (Z.of_nat r0) (Z.of_nat i))))).
    + rewrite zsum_mul_l, half by exact Hi. reflexivity.
    + intros r0 _. rewrite <- (half i (Z.testbit e1 (Z.of_nat i)) Hi). rewrite Z.mul_comm, <- zsum_mul_l. apply zsum_ext. intros r1 _.
      rewrite next_bit, M by exact Hi. rewrite !andb_true_r.
      destruct (Z.testbit e0 (Z.of_nat i)), (Z.testbit e1 (Z.of_nat i)), (Z.testbit (Z.of_nat r0) (Z.of_nat i)), (Z.testbit (Z.of_nat r1) (Z.of_nat i)); reflexivity.
  - rewrite (zsum_ext _ _ (fun _ => 0)); [rewrite zsum_zero; reflexivity|]. intros r0 _. rewrite (zsum_ext _ _ (fun _ => 0)); [apply zsum_zero|]. intros r1 _.
    rewrite next_bit, M by exact Hi. rewrite !andb_false_r, !xorb_false_r. rewrite (S i Hi M). reflexivity.
Qed.

Lemma bits_next missing e0 e1 : settled missing e0 e1 ->
  zsum 256 (fun r0 => zsum 256 (fun r1 => bits (next missing e0 e1 (Z.of_nat r0) (Z.of_nat r1)))) = 16384 * bits missing.
Proof.
  intros S. unfold bits at 2. rewrite <- zsum_mul_l. rewrite <- (zsum_ext _ _ _ (fun i Hi => quarter missing e0 e1 i S Hi)).
  transitivity (zsum 256 (fun r0 => zsum 8 (fun i => zsum 256 (fun r1 => Z.b2z (Z.testbit (next missing e0 e1 (Z.of_nat r0) (Z.of_nat r1)) (Z.of_nat i)))))).
  - apply zsum_ext. intros r0 _. unfold bits. apply zsum_swap.
  - apply zsum_swap.
Qed.
Lemma settled_next missing e0 e1 r0 r1 : settled (next missing e0 e1 r0 r1) (Z.lxor e0 (Z.land r0 missing)) (Z.lxor e1 (Z.land r1 missing)).
Proof.
  intros i Hi H. rewrite next_bit in H by exact Hi. rewrite !Z.lxor_spec, !Z.land_spec. exact H.
Qed.

Lemma next_high missing e0 e1 r0 r1 i : 8 <= i -> Z.testbit (next missing e0 e1 r0 r1) i = false.
Proof. intros Hi. unfold next, wrap. rewrite Z.land_spec, Z.mod_pow2_bits_high by lia. reflexivity. Qed.

Lemma byte_over {A} N (g : Z -> list Z -> result (A * list Z)) K :
  ex N (fun ds => do! ' (r, s) <- pr_rand8 tape ds; g r s) K = if (1 <=? N)%nat then zsum 256 (fun r => ex (N - 1) (g (Z.of_nat r)) K) else 0.
Proof.
  rewrite (ex_eq N _ (take_bytes 1) K (fun r s => runs (g r) K s)).
  2:{ intros ds. change (pr_rand8 tape ds) with (take_bytes 1 ds). destruct (take_bytes 1 ds) as [[r s]| |]; reflexivity. }
  rewrite take_over. change (Z.to_nat (2 ^ (8 * Z.of_nat 1))) with 256%nat. reflexivity.
Qed.

Definition loop3 (f : nat) (missing e0 e1 : Z) (ds : list Z) : result ((Z * Z) * list Z) :=
  ternary_loop tape f missing e0 e1 ds.
Lemma loop_step H f missing e0 e1 N : missing <> 0 -> ex N (loop3 (S f) missing e0 e1) (fun _ s => H s) =
  if (2 <=? N)%nat then zsum 256 (fun r0 => zsum 256 (fun r1 =>
    ex (N - 2) (loop3 f (next missing e0 e1 (Z.of_nat r0) (Z.of_nat r1)) (Z.lxor e0 (Z.land (Z.of_nat r0) missing)) (Z.lxor e1 (Z.land (Z.of_nat r1) missing))) (fun _ s => H s))) else 0.
Proof.
  intros M. apply Z.eqb_neq in M.
  rewrite (ex_ext N _ (fun ds => do! ' (r0, s) <- pr_rand8 tape ds; (fun r0 s => do! ' (r1, s) <- pr_rand8 tape s;
    loop3 f (next missing e0 e1 r0 r1) (Z.lxor e0 (Z.land r0 missing)) (Z.lxor e1 (Z.land r1 missing)) s) r0 s) _ (fun _ s => H s)).
  2:{ intros ds. unfold loop3. cbn [ternary_loop]. rewrite M. reflexivity. }
  2:{ reflexivity. }
  rewrite byte_over. destruct (Nat.leb_spec 1 N) as [A|A]; destruct (Nat.leb_spec 2 N) as [B|B]; try lia; try reflexivity.
  - apply zsum_ext. intros r0 _. rewrite byte_over. destruct (Nat.leb_spec 1 (N - 1)); [|lia]. replace (N - 1 - 1)%nat with (N - 2)%nat by lia. reflexivity.
  - rewrite (zsum_ext _ _ (fun _ => 0)); [apply zsum_zero|]. intros r0 _. rewrite byte_over. destruct (Nat.leb_spec 1 (N - 1)); [lia|reflexivity].
Qed.


Lemma loop_likely f c B H missing e0 e1 : 0 <= c -> likely f c B H -> settled missing e0 e1 -> (forall i, 8 <= i -> Z.testbit missing i = false) ->
  likely f (c + bits missing) (2 * f + B) (runs (loop3 f missing e0 e1) (fun _ s => H s)).
Proof.
  intros C0 [H0 HL] St Hi. split; [intros ds; apply runs_nonneg, H0|]. intros N HN. rewrite over_runs.
  set (F := 2 ^ Z.of_nat f) in *. assert (F1 : 1 <= F) by (unfold F; pose proof (Z.pow_pos_nonneg 2 (Z.of_nat f) ltac:(lia) ltac:(lia)); lia).
  assert (P : forall M, 0 < 256 ^ Z.of_nat M) by (intros; apply Z.pow_pos_nonneg; lia).
  assert (En : forall j x y z N, 0 <= ex N (loop3 j x y z) (fun _ s => H s)) by (intros; unfold ex; apply over_nonneg; intros ds; apply (runs_nonneg (loop3 j x y z) H ds H0)).
  pose proof (bits_le missing) as Bb.
  destruct (Z_lt_le_dec F (c + bits missing)) as [LT|LE]; [specialize (P N); specialize (En f missing e0 e1 N); nia|].
  assert (S : forall j N missing e0 e1, settled missing e0 e1 -> (forall i, 8 <= i -> Z.testbit missing i = false) -> (2 * j + B <= N)%nat ->
    (4 ^ Z.of_nat j - bits missing) * ((F - c) * 256 ^ Z.of_nat N) <= 4 ^ Z.of_nat j * (F * ex N (loop3 j missing e0 e1) (fun _ s => H s))).
  { assert (Fc : 0 <= F - c) by lia. clear N HN missing e0 e1 St Hi Bb LE. induction j as [|j IH]; intros N missing e0 e1 St Hi HN; (destruct (Z.eq_dec missing 0) as [->|M];
      [match goal with |- context [loop3 ?j 0 e0 e1] => assert (E : ex N (loop3 j 0 e0 e1) (fun _ s => H s) = over (tapes N) H) by reflexivity end;
       rewrite E, bits_0, Z.sub_0_r; apply Z.mul_le_mono_nonneg_l; [apply Z.pow_nonneg; lia|apply HL; lia]|]).
    - change (4 ^ Z.of_nat 0) with 1. pose proof (bits_pos missing Hi M). specialize (En 0%nat missing e0 e1 N). specialize (P N).
      assert (0 <= (F - c) * 256 ^ Z.of_nat N) by (apply Z.mul_nonneg_nonneg; lia). nia.
    - rewrite loop_step by exact M. destruct (Nat.leb_spec 2 N) as [A|A]; [|lia].
      replace (256 ^ Z.of_nat N) with (65536 * 256 ^ Z.of_nat (N - 2)) by (change 65536 with (256 ^ 2); rewrite <- Z.pow_add_r by lia; f_equal; lia).
      rewrite Nat2Z.inj_succ, Z.pow_succ_r by lia. set (J := 4 ^ Z.of_nat j) in *. set (D := (F - c) * 256 ^ Z.of_nat (N - 2)).
      replace ((F - c) * (65536 * 256 ^ Z.of_nat (N - 2))) with (65536 * D) by (unfold D; ring).
      replace ((4 * J - bits missing) * (65536 * D)) with (4 * ((65536 * J - 16384 * bits missing) * D)) by ring.
      rewrite <- (bits_next missing e0 e1 St).
      assert (Q : (65536 * J - zsum 256 (fun r0 => zsum 256 (fun r1 => bits (next missing e0 e1 (Z.of_nat r0) (Z.of_nat r1))))) * D =
        zsum 256 (fun r0 => zsum 256 (fun r1 => (J - bits (next missing e0 e1 (Z.of_nat r0) (Z.of_nat r1))) * D))).
      { assert (W : forall g : nat -> nat -> Z, zsum 256 (fun r0 => zsum 256 (fun r1 => (J - g r0 r1) * D)) = (65536 * J - zsum 256 (fun r0 => zsum 256 (g r0))) * D).
        { intros g. rewrite (zsum_ext _ _ (fun r0 => (256 * J - zsum 256 (g r0)) * D)).
          - rewrite zsum_mul_r, zsum_sub, zsum_const. change (Z.of_nat 256) with 256. f_equal. generalize (zsum 256 (fun r0 => zsum 256 (g r0))). intros y. ring.
          - intros r0 _. rewrite zsum_mul_r, zsum_sub, zsum_const. reflexivity. }
        symmetry. apply W. }
      rewrite Q. replace (4 * J) with (J * 4) by ring.
      match goal with |- _ <= J * 4 * (F * ?X) => replace (J * 4 * (F * X)) with (4 * (J * F * X)) by (generalize X; intros; ring) end.
      apply Z.mul_le_mono_nonneg_l; [lia|]. rewrite <- zsum_mul_l. apply zsum_le. intros r0 _. rewrite <- zsum_mul_l. apply zsum_le. intros r1 _.
      rewrite <- Z.mul_assoc. apply IH; [apply settled_next|intros i; apply next_high|lia]. }
  specialize (S f N missing e0 e1 St Hi HN). specialize (P N). specialize (En f missing e0 e1 N). set (X := ex N _ _) in *. set (b := bits missing) in *.
  assert (E4 : 4 ^ Z.of_nat f = F * F) by (unfold F; rewrite <- Z.pow_mul_l; reflexivity). rewrite E4 in S. set (T := 256 ^ Z.of_nat N) in *.
  apply (Z.mul_le_mono_pos_l _ _ (F * F)); [nia|]. etransitivity; [|exact S].
  replace ((F * F - b) * ((F - c) * T)) with (F * F * (F - c) * T - b * (F - c) * T) by ring.
  replace (F * F * ((F - (c + b)) * T)) with (F * F * (F - c) * T - b * (F * F) * T) by ring.
  assert (b * (F - c) * T <= b * (F * F) * T); [|lia]. apply Z.mul_le_mono_nonneg_r; [lia|]. apply Z.mul_le_mono_nonneg_l; nia.
Qed.

Lemma bits_ones n : (n <= 8)%nat -> bits (2 ^ Z.of_nat n - 1) = Z.of_nat n.
Proof. intros Hn. do 9 (destruct n as [|n]; [vm_compute; reflexivity|]). lia. Qed.
Lemma ones_high n i : (n <= 8)%nat -> 8 <= i -> Z.testbit (2 ^ Z.of_nat n - 1) i = false.
Proof. intros Hn Hi. rewrite Z.sub_1_r, <- Z.ones_equiv. apply Z.ones_spec_high. lia. Qed.

Lemma settled_start missing : settled missing 0 0.
Proof. intros i _ _. rewrite !Z.bits_0. reflexivity. Qed.

Lemma batches_likely f p : forall b n c B H, (n <= b)%nat -> 0 <= c -> likely f c B H ->
  likely f (c + Z.of_nat n) (2 * f * n + B) (runs (ternary_batches tape f b p n) (fun _ s => H s)).
Proof.
  induction b as [|b IH]; intros n c B H Hb C0 HL.
  - assert (n = O) by lia. subst n. cbn [ternary_batches]. unfold runs. cbn beta iota. rewrite Z.add_0_r, Nat.mul_0_r. apply HL.
  - destruct n as [|n]; [cbn [ternary_batches]; unfold runs; cbn beta iota; rewrite Z.add_0_r, Nat.mul_0_r; apply HL|].
    set (filled := Nat.min (S n) 8). assert (F8 : (1 <= filled <= 8 /\ filled <= S n)%nat) by (unfold filled; lia).
    assert (Em : (if (filled <? 8)%nat then 2 ^ Z.of_nat filled - 1 else 255) = 2 ^ Z.of_nat filled - 1).
    { destruct (Nat.ltb_spec filled 8) as [|G]; [reflexivity|]. replace filled with 8%nat by lia. reflexivity. }
    pose proof (IH (S n - filled)%nat c B H ltac:(lia) C0 HL) as I1.
    pose proof (loop_likely f (c + Z.of_nat (S n - filled)) _ _ (2 ^ Z.of_nat filled - 1) 0 0 ltac:(lia) I1 (settled_start _) (fun i => ones_high filled i ltac:(lia))) as I2.
    rewrite bits_ones in I2 by lia.
    assert (I3 : likely f (c + Z.of_nat (S n)) (2 * f * S n + B) (runs (loop3 f (2 ^ Z.of_nat filled - 1) 0 0) (fun _ s => runs (ternary_batches tape f b p (S n - filled)) (fun _ s => H s) s))).
    { destruct I2 as [J1 J2]. split; [exact J1|]. intros N HN. replace (c + Z.of_nat (S n)) with (c + Z.of_nat (S n - filled) + Z.of_nat filled) by lia. apply J2. nia. }
    revert I3. apply likely_ext. intros ds. unfold runs, loop3. cbn [ternary_batches]. fold filled. rewrite Em.
    destruct (ternary_loop tape f (2 ^ Z.of_nat filled - 1) 0 0 ds) as [[[u0 u1] s]| |]; cbn [bind]; try reflexivity.
    destruct (ternary_batches tape f b p (S n - filled) s) as [[r s1]| |]; reflexivity.
Qed.
