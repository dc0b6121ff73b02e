From Coq Require Import Arith.
From Verif Require Import Base FinSum BitsUtil Montgomery Ntt Poly Prng Sampling SampleSpec ZLemmas
  MontgomeryProofs MontBatchProofs SampleProofs SampleErrProofs.
Local Notation zsum := FinSum.zsum.

(** ** Splitting off the low bit *)

Ltac bitwise2 := apply Z.bits_inj'; intros n Hn; destruct (Z.eq_dec n 0) as [->|Hn0];
  [|replace n with (Z.succ (n - 1)) by lia];
  rewrite ?Z.land_spec, ?Z.lxor_spec, ?Z.ldiff_spec, ?Z.testbit_0_r, ?Z.testbit_succ_r by lia;
  rewrite ?Z.land_spec, ?Z.lxor_spec, ?Z.ldiff_spec; reflexivity.

Lemma land_2 a b c d : Z.land (2 * a + Z.b2z b) (2 * c + Z.b2z d) = 2 * Z.land a c + Z.b2z (b && d).
Proof. bitwise2. Qed.
Lemma lxor_2 a b c d : Z.lxor (2 * a + Z.b2z b) (2 * c + Z.b2z d) = 2 * Z.lxor a c + Z.b2z (xorb b d).
Proof. bitwise2. Qed.
Lemma ldiff_2 a b c d : Z.ldiff (2 * a + Z.b2z b) (2 * c + Z.b2z d) = 2 * Z.ldiff a c + Z.b2z (b && negb d).
Proof. bitwise2. Qed.

Lemma split_low x w : 0 <= x < 2 ^ Z.of_nat (S w) ->
  exists y b, x = 2 * y + Z.b2z b /\ 0 <= y < 2 ^ Z.of_nat w.
Proof.
  intros H. exists (x / 2), (Z.odd x). split.
  - pose proof (Z.div_mod x 2 ltac:(lia)). rewrite Zmod_odd in H0. destruct (Z.odd x); cbn [Z.b2z]; lia.
  - rewrite Nat2Z.inj_succ, Z.pow_succ_r in H by lia.
    split; [apply Z.div_pos; lia|apply Z.div_lt_upper_bound; lia].
Qed.

Lemma zero_2 a b : (2 * a + Z.b2z b =? 0) = (a =? 0) && negb b.
Proof. destruct b; cbn [Z.b2z negb]; destruct (Z.eqb_spec a 0); apply Bool.eq_iff_eq_true; rewrite ?andb_true_r, ?andb_false_r, Z.eqb_eq; split; intros; try discriminate; try lia. Qed.

(** ** One round *)

(** e and v agree outside the missing positions *)
Definition ag (miss e v : Z) : bool := Z.ldiff (Z.lxor e v) miss =? 0.

Lemma ag_2 m mb e eb v vb : ag (2 * m + Z.b2z mb) (2 * e + Z.b2z eb) (2 * v + Z.b2z vb) =
  ag m e v && (mb || eqb eb vb).
Proof. unfold ag. rewrite lxor_2, ldiff_2, zero_2. f_equal. destruct mb, eb, vb; reflexivity. Qed.

(** The number of ways, over subsets of the missing positions that stay missing. *)
Fixpoint subsets (w : nat) (miss : Z) (H : Z -> Z) : Z :=
  match w with
  | O => H 0
  | S w' => if Z.odd miss then subsets w' (miss / 2) (fun x => H (2 * x)) + subsets w' (miss / 2) (fun x => H (2 * x + 1))
            else 4 * subsets w' (miss / 2) (fun x => H (2 * x))
  end.

Definition round_term (miss e0 e1 v0 v1 : Z) (H : Z -> Z) (r0 r1 : Z) : Z :=
  let e0' := Z.lxor e0 (Z.land r0 miss) in
  let e1' := Z.lxor e1 (Z.land r1 miss) in
  let M' := Z.ldiff e1' e0' in
  Z.b2z (ag M' e0' v0 && ag M' e1' v1) * H M'.

Definition round_sum (w : nat) (miss e0 e1 v0 v1 : Z) (H : Z -> Z) : Z :=
  zsum (Z.to_nat (2 ^ Z.of_nat w)) (fun r0 => zsum (Z.to_nat (2 ^ Z.of_nat w)) (fun r1 =>
    round_term miss e0 e1 v0 v1 H (Z.of_nat r0) (Z.of_nat r1))).

Lemma odd_2 a b : Z.odd (2 * a + Z.b2z b) = b.
Proof. rewrite Z.add_comm, Z.odd_add_mul_2. destruct b; reflexivity. Qed.
Lemma half_2 a b : (2 * a + Z.b2z b) / 2 = a.
Proof. rewrite Z.add_comm, Z.mul_comm, Z.div_add by lia. destruct b; cbn; lia. Qed.

Lemma round_sum_S w m mb e0 b0 e1 b1 v0 c0 v1 c1 H :
  round_sum (S w) (2 * m + Z.b2z mb) (2 * e0 + Z.b2z b0) (2 * e1 + Z.b2z b1) (2 * v0 + Z.b2z c0) (2 * v1 + Z.b2z c1) H =
  zsum (Z.to_nat (2 ^ Z.of_nat w)) (fun r0 => zsum (Z.to_nat (2 ^ Z.of_nat w)) (fun r1 =>
    let T := fun p0 p1 =>
      let f0 := xorb b0 (p0 && mb) in let f1 := xorb b1 (p1 && mb) in let m' := f1 && negb f0 in
      Z.b2z ((m' || eqb f0 c0) && (m' || eqb f1 c1)) *
      round_term m e0 e1 v0 v1 (fun x => H (2 * x + Z.b2z m')) (Z.of_nat r0) (Z.of_nat r1) in
    T false false + T false true + (T true false + T true true))).
Proof.
  unfold round_sum. rewrite pow2_nat_S, zsum_double. apply zsum_ext. intros r0 _.
  rewrite !zsum_double, <- zsum_add. apply zsum_ext. intros r1 _.
  assert (E0 : forall z, Z.of_nat (2 * z) = 2 * Z.of_nat z + Z.b2z false) by (intros; cbn [Z.b2z]; lia).
  assert (E1 : forall z, Z.of_nat (2 * z + 1) = 2 * Z.of_nat z + Z.b2z true) by (intros; cbn [Z.b2z]; lia).
  rewrite !E0, !E1. cbv zeta.
  assert (TT : forall p0 p1, round_term (2 * m + Z.b2z mb) (2 * e0 + Z.b2z b0) (2 * e1 + Z.b2z b1) (2 * v0 + Z.b2z c0) (2 * v1 + Z.b2z c1) H
     (2 * Z.of_nat r0 + Z.b2z p0) (2 * Z.of_nat r1 + Z.b2z p1) =
     (let f0 := xorb b0 (p0 && mb) in let f1 := xorb b1 (p1 && mb) in let m' := f1 && negb f0 in
      Z.b2z ((m' || eqb f0 c0) && (m' || eqb f1 c1)) *
      round_term m e0 e1 v0 v1 (fun x => H (2 * x + Z.b2z m')) (Z.of_nat r0) (Z.of_nat r1))).
  { intros p0 p1. cbv zeta. unfold round_term. rewrite !land_2, !lxor_2, ldiff_2, !ag_2.
    set (A := ag _ _ v0). set (B := ag _ _ v1). set (C := H _).
    set (f0 := xorb b0 (p0 && mb)). set (f1 := xorb b1 (p1 && mb)).
    destruct A, B, (f1 && negb f0 || eqb f0 c0), (f1 && negb f0 || eqb f1 c1); cbn [andb Z.b2z]; lia. }
  rewrite !TT. reflexivity.
Qed.

Lemma round_ok w : forall miss e0 e1 v0 v1 H,
  0 <= miss < 2 ^ Z.of_nat w -> 0 <= e0 < 2 ^ Z.of_nat w -> 0 <= e1 < 2 ^ Z.of_nat w ->
  0 <= v0 < 2 ^ Z.of_nat w -> 0 <= v1 < 2 ^ Z.of_nat w ->
  Z.ldiff v1 v0 = 0 -> Z.ldiff (Z.ldiff e1 e0) miss = 0 ->
  round_sum w miss e0 e1 v0 v1 H = Z.b2z (ag miss e0 v0 && ag miss e1 v1) * subsets w miss H.
Proof.
  induction w as [|w IH]; intros miss e0 e1 v0 v1 H Hm H0 H1 H2 H3 Vv Ve.
  - change (2 ^ Z.of_nat 0) with 1 in *.
    replace miss with 0 by lia. replace e0 with 0 by lia. replace e1 with 0 by lia.
    replace v0 with 0 by lia. replace v1 with 0 by lia. unfold round_sum.
    change (Z.to_nat (2 ^ Z.of_nat 0)) with 1%nat. cbn [FinSum.zsum]. unfold round_term. cbn [Z.of_nat].
    rewrite !Z.land_0_l, !Z.lxor_0_l. change (Z.ldiff 0 0) with 0. cbn [subsets]. change (ag 0 0 0) with true. cbn [andb Z.b2z]. lia.
  - destruct (split_low _ _ Hm) as (m & mb & -> & Hm'). destruct (split_low _ _ H0) as (a0 & b0 & -> & H0').
    destruct (split_low _ _ H1) as (a1 & b1 & -> & H1'). destruct (split_low _ _ H2) as (u0 & c0 & -> & H2').
    destruct (split_low _ _ H3) as (u1 & c1 & -> & H3').
    rewrite ldiff_2 in Vv. rewrite !ldiff_2 in Ve.
    apply Z.eqb_eq in Vv, Ve. rewrite zero_2 in Vv, Ve. apply andb_true_iff in Vv, Ve.
    destruct Vv as [Vv Vb]. destruct Ve as [Ve Eb]. apply Z.eqb_eq in Vv, Ve.
    rewrite round_sum_S, !ag_2. cbn [subsets]. rewrite odd_2, half_2.
    assert (IHH : forall H, zsum (Z.to_nat (2 ^ Z.of_nat w)) (fun r0 => zsum (Z.to_nat (2 ^ Z.of_nat w)) (fun r1 =>
       round_term m a0 a1 u0 u1 H (Z.of_nat r0) (Z.of_nat r1))) = Z.b2z (ag m a0 u0 && ag m a1 u1) * subsets w m H).
    { intros H'. apply (IH m a0 a1 u0 u1 H'); assumption. }
    destruct mb.
    + rewrite (zsum_ext _ _ (fun r0 => zsum (Z.to_nat (2 ^ Z.of_nat w)) (fun r1 =>
         round_term m a0 a1 u0 u1 (fun x => H (2 * x)) (Z.of_nat r0) (Z.of_nat r1)) +
         zsum (Z.to_nat (2 ^ Z.of_nat w)) (fun r1 => round_term m a0 a1 u0 u1 (fun x => H (2 * x + 1)) (Z.of_nat r0) (Z.of_nat r1)))).
      * rewrite zsum_add, !IHH. cbn [orb]. rewrite ?andb_true_r. lia.
      * intros r0 _. rewrite <- zsum_add. apply zsum_ext. intros r1 _. cbv zeta.
        rewrite !andb_true_r. cbn [xorb].
        assert (Z0 : round_term m a0 a1 u0 u1 (fun x => H (2 * x + 0)) (Z.of_nat r0) (Z.of_nat r1) =
                     round_term m a0 a1 u0 u1 (fun x => H (2 * x)) (Z.of_nat r0) (Z.of_nat r1)).
        { unfold round_term. rewrite Z.add_0_r. reflexivity. }
        destruct b0, b1, c0, c1; try discriminate; cbn [xorb andb orb negb eqb Z.b2z]; rewrite ?Z0; lia.
    + rewrite (zsum_ext _ _ (fun r0 => zsum (Z.to_nat (2 ^ Z.of_nat w)) (fun r1 =>
         4 * (Z.b2z (eqb b0 c0 && eqb b1 c1) * round_term m a0 a1 u0 u1 (fun x => H (2 * x)) (Z.of_nat r0) (Z.of_nat r1))))).
      * rewrite (zsum_ext _ _ (fun r0 => 4 * Z.b2z (eqb b0 c0 && eqb b1 c1) * zsum (Z.to_nat (2 ^ Z.of_nat w)) (fun r1 =>
           round_term m a0 a1 u0 u1 (fun x => H (2 * x)) (Z.of_nat r0) (Z.of_nat r1)))).
        2:{ intros r0 _. rewrite <- zsum_mul_l. apply zsum_ext. intros. lia. }
        rewrite zsum_mul_l, IHH. cbn [orb].
        destruct (ag m a0 u0), (ag m a1 u1), (eqb b0 c0), (eqb b1 c1); cbn [andb Z.b2z]; lia.
      * intros r0 _. apply zsum_ext. intros r1 _. cbv zeta. rewrite !andb_false_r, !xorb_false_r.
        assert (Z0 : round_term m a0 a1 u0 u1 (fun x => H (2 * x + 0)) (Z.of_nat r0) (Z.of_nat r1) =
                     round_term m a0 a1 u0 u1 (fun x => H (2 * x)) (Z.of_nat r0) (Z.of_nat r1)).
        { unfold round_term. rewrite Z.add_0_r. reflexivity. }
        cbn [negb] in Eb. rewrite andb_true_r in Eb.
        assert (E1 : b1 && negb b0 = false) by (destruct b0, b1; try discriminate; reflexivity).
        rewrite E1. cbn [orb Z.b2z]. rewrite Z0. lia.
Qed.

(** ** All rounds *)

(** number of scripts of N rounds, all positions settled exactly at the end *)
Fixpoint ways (N : nat) (miss : Z) : Z :=
  match N with
  | O => if miss =? 0 then 1 else 0
  | S N' => if miss =? 0 then 0 else subsets 8 miss (ways N')
  end.

Lemma lnot_wrap e0 e1 : 0 <= e1 < 2 ^ 8 -> Z.land (wrap 8 (Z.lnot e0)) e1 = Z.ldiff e1 e0.
Proof.
  intros H1. apply Z.bits_inj'. intros n Hn. rewrite Z.land_spec, Z.ldiff_spec. unfold wrap.
  destruct (Z.ltb_spec n 8).
  - rewrite Z.mod_pow2_bits_low by lia. rewrite Z.lnot_spec by lia. apply andb_comm.
  - rewrite Z.mod_pow2_bits_high by lia.
    assert (Z.testbit e1 n = false) as ->; [|reflexivity].
    rewrite <- (Z.mod_small e1 (2 ^ 8)) by lia. apply Z.mod_pow2_bits_high. lia.
Qed.

Lemma byte_bits x : 0 <= x -> (forall n, 8 <= n -> Z.testbit x n = false) -> x < 2 ^ 8.
Proof.
  intros H K. assert (x = x mod 2 ^ 8) as ->; [|apply Z.mod_pos_bound; lia].
  apply Z.bits_inj'. intros n Hn. destruct (Z.ltb_spec n 8).
  - symmetry. apply Z.mod_pow2_bits_low. lia.
  - rewrite Z.mod_pow2_bits_high by lia. apply K. lia.
Qed.
Lemma byte_bit x n : 0 <= x < 2 ^ 8 -> 8 <= n -> Z.testbit x n = false.
Proof. intros H Hn. rewrite <- (Z.mod_small x (2 ^ 8)) by lia. apply Z.mod_pow2_bits_high. lia. Qed.

Lemma xor_byte e r m : 0 <= e < 2 ^ 8 -> 0 <= r -> 0 <= m < 2 ^ 8 -> 0 <= Z.lxor e (Z.land r m) < 2 ^ 8.
Proof.
  intros He Hr Hm. assert (0 <= Z.lxor e (Z.land r m)).
  { apply Z.lxor_nonneg. split; intros; [apply Z.land_nonneg; left; lia|lia]. }
  split; [assumption|]. apply byte_bits; [assumption|]. intros n Hn.
  rewrite Z.lxor_spec, Z.land_spec, (byte_bit e), (byte_bit m) by assumption. rewrite andb_false_r. reflexivity.
Qed.
Lemma diff_byte a b : 0 <= a < 2 ^ 8 -> 0 <= Z.ldiff a b < 2 ^ 8.
Proof.
  intros Ha. assert (0 <= Z.ldiff a b) by (apply Z.ldiff_nonneg; left; lia).
  split; [assumption|]. apply byte_bits; [assumption|]. intros n Hn. rewrite Z.ldiff_spec, (byte_bit a) by assumption. reflexivity.
Qed.

Lemma ternary_count N : forall miss e0 e1 v0 v1,
  0 <= miss < 2 ^ 8 -> 0 <= e0 < 2 ^ 8 -> 0 <= e1 < 2 ^ 8 -> 0 <= v0 < 2 ^ 8 -> 0 <= v1 < 2 ^ 8 ->
  Z.ldiff v1 v0 = 0 -> Z.ldiff (Z.ldiff e1 e0) miss = 0 ->
  over (repeat 8 (2 * N)) (fun ds =>
    match ternary_loop scripted N miss e0 e1 ds with
    | Ok (a, b, []) => Z.b2z ((a =? v0) && (b =? v1)) | _ => 0 end) =
  Z.b2z (ag miss e0 v0 && ag miss e1 v1) * ways N miss.
Proof.
  induction N as [|N IH]; intros miss e0 e1 v0 v1 Hm H0 H1 H2 H3 Vv Ve.
  - change (2 * 0)%nat with 0%nat. cbn [repeat over ternary_loop ways]. destruct (Z.eqb_spec miss 0) as [->|].
    + rewrite Z.mul_1_r. f_equal. unfold ag. rewrite !Z.ldiff_0_r.
      f_equal; apply Bool.eq_iff_eq_true; rewrite !Z.eqb_eq, Z.lxor_eq_0_iff; reflexivity.
    + lia.
  - replace (2 * S N)%nat with (S (S (2 * N))) by lia. cbn [repeat].
    cbn [ways]. destruct (Z.eqb_spec miss 0) as [->|Nz].
    + rewrite (over_ext _ _ (fun _ => 0)).
      * rewrite Z.mul_0_r. cbn [over]. rewrite (zsum_ext _ _ (fun _ => 0)); [apply zsum_zero|].
        intros i _. rewrite (zsum_ext _ _ (fun _ => 0)); [apply zsum_zero|]. intros j _.
        clear. induction (2 * N)%nat as [|k IH]; [reflexivity|]. cbn [repeat over].
        rewrite (zsum_ext _ _ (fun _ => 0)); [apply zsum_zero|]. intros; apply IH.
      * intros ds Hds. cbn [ternary_loop]. cbn iota. rewrite Z.eqb_refl. destruct ds as [|d t]; [inversion Hds|reflexivity].
      * apply Forall_forall. intros w [<-|[<-|Hw]]; [lia|lia|]. apply repeat_spec in Hw. lia.
    + rewrite over_two. rewrite <- round_ok; try assumption. unfold round_sum. change (Z.of_nat 8) with 8.
      apply zsum_ext. intros r0 Hr0. apply zsum_ext. intros r1 Hr1.
      assert (B0 : 0 <= Z.of_nat r0 < 2 ^ 8) by lia. assert (B1 : 0 <= Z.of_nat r1 < 2 ^ 8) by lia.
      unfold round_term. cbv zeta.
      pose proof (xor_byte e0 (Z.of_nat r0) miss H0 ltac:(lia) Hm) as X0.
      pose proof (xor_byte e1 (Z.of_nat r1) miss H1 ltac:(lia) Hm) as X1.
      rewrite <- IH; try assumption.
      * apply over_ext.
        -- intros ds _. cbn [ternary_loop]. destruct (Z.eqb_spec miss 0); [lia|].
           assert (E : forall x, 0 <= x < 2 ^ 8 -> (0 <=? x) && (x <? 2 ^ 8) = true).
           { intros x Hx. apply andb_true_iff. split; [apply Z.leb_le|apply Z.ltb_lt]; lia. }
           cbn [scripted pr_rand8]. rewrite (E _ B0). cbn [bind]. rewrite (E _ B1). cbn [bind].
           rewrite lnot_wrap by exact X1. reflexivity.
        -- apply Forall_forall. intros w Hw. apply repeat_spec in Hw. lia.
      * apply diff_byte. exact X1.
      * apply Z.bits_inj'. intros n Hn. rewrite !Z.ldiff_spec, Z.bits_0.
        destruct (Z.testbit (Z.lxor e1 (Z.land (Z.of_nat r1) miss)) n), (Z.testbit (Z.lxor e0 (Z.land (Z.of_nat r0) miss)) n); reflexivity.
Qed.

(** ** Decoding *)

Definition tern (p : mparams) (b0 b1 : bool) : Z := if b0 then if b1 then p_m p - 1 else 1 else 0.

Lemma bit_test e i : 0 <= e -> (0 <? Z.land e (2 ^ Z.of_nat i)) = Z.testbit e (Z.of_nat i).
Proof.
  intros He. set (n := Z.of_nat i).
  assert (K : Z.land e (2 ^ n) = if Z.testbit e n then 2 ^ n else 0).
  { apply Z.bits_inj'. intros j Hj. rewrite Z.land_spec, Z.pow2_bits_eqb by lia.
    destruct (Z.eqb_spec n j) as [->|N].
    - destruct (Z.testbit e j); [rewrite Z.pow2_bits_true by lia|rewrite Z.bits_0]; reflexivity.
    - rewrite andb_false_r. destruct (Z.testbit e n); [rewrite Z.pow2_bits_false by lia|rewrite Z.bits_0]; reflexivity. }
  rewrite K. destruct (Z.testbit e n); [apply Z.ltb_lt, pow2_pos; lia|reflexivity].
Qed.

Lemma ternary_value_ok p e0 e1 i : good p -> 0 <= e0 -> 0 <= e1 ->
  crep p (ternary_value p e0 e1 i) /\
  val p (ternary_value p e0 e1 i) = tern p (Z.testbit e0 (Z.of_nat i)) (Z.testbit e1 (Z.of_nat i)).
Proof.
  intros G H0 H1. unfold ternary_value. rewrite !bit_test by assumption.
  pose proof (m4 p G) as M4. pose proof (m_gt1 p G) as M1. pose proof (k_pos p G) as Kp.
  assert (Z0 : wrap (p_k p) (- 0) = 0) by (apply wrap_small; lia).
  assert (Z1 : forall x, 0 <= x < p_m p -> Z.land (wrap (p_k p) (- 1)) x = x).
  { intros x Hx. unfold wrap. replace (-1) with (Z.lnot 0) by reflexivity. apply Z.bits_inj'. intros n Hn.
    rewrite Z.land_spec. destruct (Z.ltb_spec n (p_k p)).
    - rewrite Z.mod_pow2_bits_low by lia. rewrite Z.lnot_spec, Z.bits_0 by lia. reflexivity.
    - rewrite <- (Z.mod_small x (2 ^ p_k p)) by lia. rewrite !(Z.mod_pow2_bits_high x) by lia. apply andb_false_r. }
  assert (K : forall x, 0 <= x < p_m p -> crep p (import_int p x) /\ val p (import_int p x) = x).
  { intros x Hx. split; [apply import_crep; [exact G|lia]|]. rewrite import_val by (try exact G; lia). apply Z.mod_small. exact Hx. }
  unfold tern. destruct (Z.testbit e0 (Z.of_nat i)), (Z.testbit e1 (Z.of_nat i)); cbn [andb negb Z.b2z]; rewrite ?Z0, ?Z1 by lia;
    rewrite ?Z.land_0_l, ?Z.lor_0_l, ?Z.lor_0_r; apply K; lia.
Qed.

(** ** Every result of the loop is a valid encoding supported on the requested positions *)

Lemma ternary_loop_inv R : prng_ok R -> forall fuel miss e0 e1 s a b s' X,
  0 <= miss < 2 ^ 8 -> 0 <= e0 < 2 ^ 8 -> 0 <= e1 < 2 ^ 8 ->
  Z.ldiff (Z.ldiff e1 e0) miss = 0 ->
  Z.ldiff miss X = 0 -> Z.ldiff e0 X = 0 -> Z.ldiff e1 X = 0 ->
  ternary_loop R fuel miss e0 e1 s = Ok (a, b, s') ->
  0 <= a < 2 ^ 8 /\ 0 <= b < 2 ^ 8 /\ Z.ldiff b a = 0 /\ Z.ldiff a X = 0 /\ Z.ldiff b X = 0.
Proof.
  intros [R8 _]. induction fuel as [|fuel IH]; intros miss e0 e1 s a b s' X Hm H0 H1 V M E0 E1; cbn [ternary_loop].
  - destruct (Z.eqb_spec miss 0) as [->|]; [|discriminate]. intros [= <- <- <-]. rewrite Z.ldiff_0_r in V. auto.
  - destruct (Z.eqb_spec miss 0) as [->|]; [intros [= <- <- <-]; rewrite Z.ldiff_0_r in V; auto|].
    pose proof (R8 s) as B0. destruct (pr_rand8 R s) as [[r0 s1]|c|]; cbn [bind]; try discriminate.
    pose proof (R8 s1) as B1. destruct (pr_rand8 R s1) as [[r1 s2]|c|]; cbn [bind]; try discriminate.
    pose proof (xor_byte e0 r0 miss H0 ltac:(lia) Hm) as X0.
    pose proof (xor_byte e1 r1 miss H1 ltac:(lia) Hm) as X1.
    rewrite lnot_wrap by exact X1.
    assert (SUB : forall e r, Z.ldiff e X = 0 -> Z.ldiff (Z.lxor e (Z.land r miss)) X = 0).
    { intros e r He. apply Z.bits_inj'. intros jj Hn. rewrite Z.bits_0, Z.ldiff_spec, Z.lxor_spec, Z.land_spec.
      assert (Q1 : Z.testbit (Z.ldiff e X) jj = false) by (rewrite He; apply Z.bits_0).
      assert (Q2 : Z.testbit (Z.ldiff miss X) jj = false) by (rewrite M; apply Z.bits_0).
      rewrite Z.ldiff_spec in Q1, Q2.
      destruct (Z.testbit e jj), (Z.testbit X jj), (Z.testbit miss jj), (Z.testbit r jj); try discriminate; reflexivity. }
    apply IH; try assumption.
    + apply diff_byte. exact X1.
    + apply Z.bits_inj'. intros jj Hn. rewrite !Z.ldiff_spec, Z.bits_0.
      destruct (Z.testbit (Z.lxor e1 (Z.land r1 miss)) jj), (Z.testbit (Z.lxor e0 (Z.land r0 miss)) jj); reflexivity.
    + apply Z.bits_inj'. intros jj Hn. assert (Q : Z.testbit (Z.ldiff (Z.lxor e1 (Z.land r1 miss)) X) jj = false) by (rewrite SUB by exact E1; apply Z.bits_0).
      rewrite Z.ldiff_spec in Q. rewrite !Z.ldiff_spec, Z.bits_0.
      destruct (Z.testbit (Z.lxor e1 (Z.land r1 miss)) jj), (Z.testbit X jj); try discriminate; rewrite ?andb_false_r; reflexivity.
    + apply SUB, E0.
    + apply SUB, E1.
Qed.

(** number with given bits *)
Fixpoint of_bits (l : list bool) : Z := match l with [] => 0 | b :: t => 2 * of_bits t + Z.b2z b end.

Lemma of_bits_range l : 0 <= of_bits l < 2 ^ Z.of_nat (length l).
Proof.
  induction l as [|b t IH]; [cbn; lia|]. cbn [of_bits length]. rewrite Nat2Z.inj_succ, Z.pow_succ_r by lia.
  destruct b; cbn [Z.b2z]; lia.
Qed.
Lemma of_bits_testbit l : forall i, Z.testbit (of_bits l) (Z.of_nat i) = nth i l false.
Proof.
  induction l as [|b t IH]; intros [|i]; cbn [of_bits nth]; rewrite ?Z.bits_0; try reflexivity.
  - apply Z.testbit_0_r.
  - rewrite Nat2Z.inj_succ, Z.testbit_succ_r by lia. apply IH.
Qed.

Definition first_missing (n : nat) : Z := if (n <? 8)%nat then 2 ^ Z.of_nat n - 1 else 255.

Lemma first_missing_ok n : (n <= 8)%nat -> first_missing n = 2 ^ Z.of_nat n - 1.
Proof.
  intros H. unfold first_missing. destruct (Nat.ltb_spec n 8); [reflexivity|]. replace n with 8%nat by lia. reflexivity.
Qed.

Lemma mask_bits n j : 0 <= j -> Z.testbit (2 ^ Z.of_nat n - 1) j = (j <? Z.of_nat n).
Proof.
  intros Hj. replace (2 ^ Z.of_nat n - 1) with (Z.ones (Z.of_nat n)) by (rewrite Z.ones_equiv; lia).
  destruct (Z.ltb_spec j (Z.of_nat n)); [apply Z.ones_spec_low; lia|apply Z.ones_spec_high; lia].
Qed.

Lemma sub_mask_bits a n j : Z.ldiff a (2 ^ Z.of_nat n - 1) = 0 -> Z.of_nat n <= j -> Z.testbit a j = false.
Proof.
  intros H Hj. assert (Q : Z.testbit (Z.ldiff a (2 ^ Z.of_nat n - 1)) j = false) by (rewrite H; apply Z.bits_0).
  rewrite Z.ldiff_spec, mask_bits in Q by lia. destruct (Z.ltb_spec j (Z.of_nat n)); [lia|].
  cbn [negb] in Q. rewrite andb_true_r in Q. exact Q.
Qed.

(** a batch of n <= 8 on the scripted generator *)
Definition trit_bits (ts : list Z) : list bool * list bool :=
  (map (fun t => negb (t =? 0)) ts, map (fun t => t =? -1) ts).

Lemma batch_count p N n ts (test : list Z -> bool) : good p -> (n <= 8)%nat -> length ts = n ->
  Forall (fun t => t = -1 \/ t = 0 \/ t = 1) ts ->
  (forall e0 e1, 0 <= e0 -> 0 <= e1 -> test (map (ternary_value p e0 e1) (seq 0 n)) = true <->
     forall i, (i < n)%nat -> tern p (Z.testbit e0 (Z.of_nat i)) (Z.testbit e1 (Z.of_nat i)) = nth i ts 0 mod p_m p) ->
  over (repeat 8 (2 * N)) (fun ds =>
    match ternary_loop scripted N (first_missing n) 0 0 ds with
    | Ok (a, b, []) => Z.b2z (test (map (ternary_value p a b) (seq 0 n))) | _ => 0 end) = ways N (first_missing n).
Proof.
  intros G Hn Ht Hts Htest. rewrite first_missing_ok by exact Hn.
  set (v0 := of_bits (fst (trit_bits ts))). set (v1 := of_bits (snd (trit_bits ts))).
  assert (P8 : 2 ^ Z.of_nat n <= 2 ^ 8) by (apply Z.pow_le_mono_r; lia).
  assert (R0 : 0 <= v0 < 2 ^ Z.of_nat n).
  { unfold v0. pose proof (of_bits_range (fst (trit_bits ts))) as B. cbn [fst trit_bits] in *. rewrite map_length, Ht in B. exact B. }
  assert (R1 : 0 <= v1 < 2 ^ Z.of_nat n).
  { unfold v1. pose proof (of_bits_range (snd (trit_bits ts))) as B. cbn [snd trit_bits] in *. rewrite map_length, Ht in B. exact B. }
  assert (T0 : forall i, (i < n)%nat -> Z.testbit v0 (Z.of_nat i) = negb (nth i ts 0 =? 0)).
  { intros i Hi. unfold v0. rewrite of_bits_testbit. cbn [fst trit_bits].
    rewrite nth_indep with (d' := (fun t => negb (t =? 0)) 0) by (rewrite map_length; lia). apply (map_nth (fun t => negb (t =? 0))). }
  assert (T1 : forall i, (i < n)%nat -> Z.testbit v1 (Z.of_nat i) = (nth i ts 0 =? -1)).
  { intros i Hi. unfold v1. rewrite of_bits_testbit. cbn [snd trit_bits].
    rewrite nth_indep with (d' := (fun t => t =? -1) 0) by (rewrite map_length; lia). apply (map_nth (fun t => t =? -1)). }
  assert (HI : forall v, 0 <= v < 2 ^ Z.of_nat n -> forall j, Z.of_nat n <= j -> Z.testbit v j = false).
  { intros v Hv j Hj. rewrite <- (Z.mod_small v (2 ^ Z.of_nat n)) by lia. apply Z.mod_pow2_bits_high. lia. }
  assert (VV : Z.ldiff v1 v0 = 0).
  { apply Z.bits_inj'. intros j Hj. rewrite Z.ldiff_spec, Z.bits_0. destruct (Z.ltb_spec j (Z.of_nat n)).
    - replace j with (Z.of_nat (Z.to_nat j)) by lia. rewrite T0, T1 by lia.
      destruct (Z.eqb_spec (nth (Z.to_nat j) ts 0) (-1)) as [E|E]; [rewrite E; reflexivity|reflexivity].
    - rewrite (HI v1 R1) by lia. reflexivity. }
  pose proof (pow2_pos (Z.of_nat n) ltac:(lia)) as Pn. pose proof (m_gt1 p G) as M1.
  assert (M3 : 3 <= p_m p). { pose proof (g_odd p G) as O. destruct (Z.eq_dec (p_m p) 2) as [E|]; [rewrite E in O; discriminate|lia]. }
  assert (OKS : prng_ok scripted).
  { split; intros s; cbn [scripted pr_rand8 pr_rand64]; destruct s as [|x t]; try exact I;
      match goal with |- context [if ?c then _ else _] => destruct c eqn:E; [|exact I] end;
      apply andb_true_iff in E; destruct E as [A B]; apply Z.leb_le in A; apply Z.ltb_lt in B; lia. }
  rewrite (over_ext _ _ (fun ds => match ternary_loop scripted N (2 ^ Z.of_nat n - 1) 0 0 ds with
    | Ok (a, b, []) => Z.b2z ((a =? v0) && (b =? v1)) | _ => 0 end)).
  - rewrite ternary_count; try lia; try exact VV; try reflexivity.
    assert (AG : forall v, 0 <= v < 2 ^ Z.of_nat n -> ag (2 ^ Z.of_nat n - 1) 0 v = true).
    { intros v Hv. unfold ag. apply Z.eqb_eq. rewrite Z.lxor_0_l. apply Z.bits_inj'. intros j Hj.
      rewrite Z.ldiff_spec, Z.bits_0, mask_bits by lia. destruct (Z.ltb_spec j (Z.of_nat n)); [apply andb_false_r|].
      rewrite (HI v Hv) by lia. reflexivity. }
    rewrite !AG by assumption. cbn [andb Z.b2z]. lia.
  - intros ds _. destruct (ternary_loop scripted N (2 ^ Z.of_nat n - 1) 0 0 ds) as [[[a b] [|]]|c|] eqn:E; try reflexivity.
    f_equal. apply (ternary_loop_inv scripted OKS _ _ _ _ _ _ _ _ (2 ^ Z.of_nat n - 1)) in E; try lia; try reflexivity.
    2:{ apply Z.ldiff_diag. }
    destruct E as (Ha & Hb & V & Sa & Sb). apply Bool.eq_iff_eq_true. rewrite andb_true_iff, !Z.eqb_eq, Htest by lia. split.
    + intros K.
      assert (KB : forall i, (i < n)%nat -> Z.testbit a (Z.of_nat i) = negb (nth i ts 0 =? 0) /\ Z.testbit b (Z.of_nat i) = (nth i ts 0 =? -1)).
      { intros i Hi. specialize (K i Hi). rewrite Forall_forall in Hts.
        assert (Q : Z.testbit (Z.ldiff b a) (Z.of_nat i) = false) by (rewrite V; apply Z.bits_0).
        rewrite Z.ldiff_spec in Q. unfold tern in K.
        destruct (Hts (nth i ts 0) ltac:(apply nth_In; lia)) as [E|[E|E]]; rewrite E in *.
        - replace (-1) with (p_m p - 1 + (-1) * p_m p) in K by lia. rewrite Z.mod_add, Z.mod_small in K by lia.
          destruct (Z.testbit a (Z.of_nat i)), (Z.testbit b (Z.of_nat i)); try discriminate; try lia; split; reflexivity.
        - rewrite Z.mod_0_l in K by lia.
          destruct (Z.testbit a (Z.of_nat i)), (Z.testbit b (Z.of_nat i)); try discriminate; try lia; split; reflexivity.
        - rewrite Z.mod_small in K by lia.
          destruct (Z.testbit a (Z.of_nat i)), (Z.testbit b (Z.of_nat i)); try discriminate; try lia; split; reflexivity. }
      split; apply Z.bits_inj'; intros j Hj; (destruct (Z.ltb_spec j (Z.of_nat n)) as [L|L];
        [replace j with (Z.of_nat (Z.to_nat j)) by lia|]).
      * rewrite T0 by lia. apply KB. lia.
      * rewrite (HI v0 R0) by lia. apply (sub_mask_bits a n j Sa L).
      * rewrite T1 by lia. apply KB. lia.
      * rewrite (HI v1 R1) by lia. apply (sub_mask_bits b n j Sb L).
    + intros [-> ->] i Hi. rewrite T0, T1 by exact Hi. rewrite Forall_forall in Hts. unfold tern.
      destruct (Hts (nth i ts 0) ltac:(apply nth_In; lia)) as [->|[->| ->]]; cbn [negb Z.eqb].
      * replace (-1) with (p_m p - 1 + (-1) * p_m p) by lia. rewrite Z.mod_add, Z.mod_small by lia. reflexivity.
      * rewrite Z.mod_0_l by lia. reflexivity.
      * rewrite Z.mod_small by lia. reflexivity.
  - apply Forall_forall. intros w Hw. apply repeat_spec in Hw. lia.
Qed.

(** ** Whole vectors *)

Lemma batches_enough R fuel p : forall b n s, (n <= b)%nat -> forall b', (n <= b')%nat ->
  ternary_batches R fuel b p n s = ternary_batches R fuel b' p n s.
Proof.
  induction b as [|b IH]; intros n s Hn b' Hb'.
  - replace n with 0%nat by lia. destruct b'; reflexivity.
  - destruct n as [|n]; [destruct b'; reflexivity|]. destruct b' as [|b']; [lia|].
    cbn [ternary_batches]. set (filled := Nat.min (S n) 8). 
    destruct (ternary_loop R fuel _ 0 0 s) as [[[e0 e1] s1]|c|]; cbn [bind]; try reflexivity.
    rewrite (IH (S n - filled)%nat s1 ltac:(unfold filled; lia) b' ltac:(unfold filled; lia)). reflexivity.
Qed.

Lemma ternary_batches_ok R fuel p : prng_ok R -> good p -> forall b n s xs s', (n <= b)%nat ->
  ternary_batches R fuel b p n s = Ok (xs, s') ->
  length xs = n /\ Forall (fun x => crep p x /\ (val p x = 0 \/ val p x = 1 \/ val p x = p_m p - 1)) xs.
Proof.
  intros HR G. induction b as [|b IH]; intros n s xs s' Hn.
  - replace n with 0%nat by lia. cbn. intros [= <- <-]. split; [reflexivity|constructor].
  - destruct n as [|n]; [cbn; intros [= <- <-]; split; [reflexivity|constructor]|].
    cbn [ternary_batches]. set (filled := Nat.min (S n) 8).
    destruct (ternary_loop R fuel _ 0 0 s) as [[[e0 e1] s1]|c|] eqn:E; cbn [bind]; try discriminate.
    destruct (ternary_batches R fuel b p (S n - filled) s1) as [[rest s2]|c|] eqn:E2; cbn [bind]; try discriminate.
    intros E3. assert (X3 := f_equal (fun r => match r with Ok (l, _) => l | _ => [] end) E3).
    cbv beta iota in X3. subst xs. clear E3. apply IH in E2; [|unfold filled; lia]. destruct E2 as [L2 F2].
    assert (Hf : (filled <= 8)%nat) by (unfold filled; lia).
    assert (P8 : 2 ^ Z.of_nat filled <= 2 ^ 8) by (apply Z.pow_le_mono_r; lia).
    pose proof (pow2_pos (Z.of_nat filled) ltac:(lia)).
    change (if (filled <? 8)%nat then 2 ^ Z.of_nat filled - 1 else 255) with (first_missing filled) in E.
    rewrite first_missing_ok in E by exact Hf.
    apply (ternary_loop_inv R HR _ _ _ _ _ _ _ _ (2 ^ Z.of_nat filled - 1)) in E; try lia; try reflexivity.
    2:{ apply Z.ldiff_diag. }
    destruct E as (Ha & Hb & _). split.
    + rewrite app_length, map_length, seq_length, L2. unfold filled. lia.
    + apply Forall_app. split; [|exact F2]. rewrite Forall_map. apply Forall_forall. intros i _.
      destruct (ternary_value_ok p e0 e1 i G ltac:(lia) ltac:(lia)) as [C V]. split; [exact C|]. rewrite V. unfold tern.
      destruct (Z.testbit e0 (Z.of_nat i)), (Z.testbit e1 (Z.of_nat i)); auto.
Qed.
