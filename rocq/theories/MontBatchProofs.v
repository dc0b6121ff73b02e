(** Proofs about MontBatch.v. *)
From Verif Require Import Base BitsUtil BitsUtilProofs Montgomery Transcription MontBatch ZLemmas
  TranscriptionProofs MontgomeryProofs.

Lemma map2_length {A B C} (f : A -> B -> C) l1 : forall l2,
  length l1 = length l2 -> length (map2 f l1 l2) = length l1.
Proof. induction l1 as [|a t IH]; intros [|b t2] H; cbn in *; auto; try lia. Qed.

Lemma nth_map2 {A B C} (f : A -> B -> C) da db dc l1 : forall l2 i,
  length l1 = length l2 -> (i < length l1)%nat ->
  nth i (map2 f l1 l2) dc = f (nth i l1 da) (nth i l2 db).
Proof.
  induction l1 as [|a t IH]; intros [|b t2] i H Hi; cbn [length] in *; try lia.
  destruct i; cbn [map2 nth]; [reflexivity|]. apply IH; lia.
Qed.

Lemma same_len_spec {A B} (a : list A) (b : list B) : same_len a b = true <-> length a = length b.
Proof. unfold same_len. apply Nat.eqb_eq. Qed.

Lemma seqr_ok {A} (l : list (result A)) (d : A) :
  (forall i, (i < length l)%nat -> exists x, nth i l UB = Ok x) ->
  exists xs, seqr l = Ok xs /\ length xs = length l /\
    forall i, (i < length l)%nat -> nth i l UB = Ok (nth i xs d).
Proof.
  induction l as [|r rs IH]; intros H.
  - exists []. repeat split; cbn; intros; lia.
  - destruct (H 0%nat ltac:(cbn; lia)) as [x Hx]. cbn [nth] in Hx.
    destruct IH as (xs & E & L & N).
    { intros i Hi. apply (H (S i)). cbn; lia. }
    exists (x :: xs). cbn [seqr]. rewrite Hx, E. cbn [bind].
    split; [reflexivity|]. split; [cbn; lia|].
    intros [|i] Hi; cbn [nth]; [reflexivity|]. apply N. cbn in Hi; lia.
Qed.

Lemma seqr_inv {A} (l : list (result A)) xs (d : A) :
  seqr l = Ok xs -> length xs = length l /\
    forall i, (i < length l)%nat -> nth i l UB = Ok (nth i xs d).
Proof.
  revert xs; induction l as [|r rs IH]; intros xs H; cbn [seqr] in H.
  - injection H as <-. split; [reflexivity|]. cbn; intros; lia.
  - destruct r; cbn [bind] in H; try discriminate.
    destruct (seqr rs) eqn:E; cbn [bind] in H; try discriminate.
    injection H as <-. destruct (IH a0 eq_refl) as [L N].
    split; [cbn; lia|]. intros [|i] Hi; cbn [nth]; [reflexivity|]. apply N. cbn in Hi; lia.
Qed.

Section G.
Variable p : mparams.
Hypothesis G : good p.
Local Notation m := (p_m p).
Local Notation logm := (p_logm p).

Lemma logm_bounds : 2 <= logm <= p_k p - 2 /\ 2 ^ (logm - 1) <= m < 2 ^ logm.
Proof.
  pose proof (m_gt1 p G) as Hm. pose proof (m4 p G) as H4. pose proof (k_pos p G) as Hk.
  pose proof (g_odd p G) as Ho.
  pose proof (blen_spec m (p_logm p) ltac:(lia)) as S.
  destruct S as [S _]. rewrite (g_logm p G) in S at 1. specialize (S eq_refl).
  destruct S as (S1 & S2 & S3 & _). specialize (S3 ltac:(lia)).
  assert (E : 2 ^ p_k p = 4 * 2 ^ (p_k p - 2)).
  { change 4 with (2 ^ 2). rewrite <- Z.pow_add_r by lia. f_equal; lia. }
  split; [|lia]. split.
  - destruct (Z.le_gt_cases 2 logm); [assumption|].
    assert (Hle : 2 ^ logm <= 2 ^ 1) by (apply Z.pow_le_mono_r; lia).
    change (2 ^ 1) with 2 in Hle. lia.
  - assert (logm - 1 < p_k p - 2); [|lia].
    apply (Z.pow_lt_mono_r_iff 2); lia.
Qed.

Lemma rep_logm n : rep p n -> 0 <= n < 2 ^ logm.
Proof. unfold rep. pose proof logm_bounds. lia. Qed.

Lemma serialize_vector_ok v :
  (0 < length v)%nat -> Z.of_nat (length v) <= max_num_coeffs ->
  Forall (fun n => 0 <= n < 2 ^ logm) v ->
  exists s, mserialize_vector p v = Ok s /\
    Z.of_nat (length s) = (Z.of_nat (length v) * logm + 7) / 8 /\
    Forall (fun b => 0 <= b < 256) s /\
    mdeserialize_vector p (Z.of_nat (length v)) s = Ok v.
Proof.
  intros Hl Hmax Hv. pose proof logm_bounds as [Hb _]. pose proof (k_pos p G) as Hk.
  unfold max_num_coeffs in *.
  set (len := Z.of_nat (length v) * logm).
  assert (Hlen : 0 < len <= 2 ^ 15 * 126) by (unfold len; nia).
  destruct (transcribe_bits_ok (p_k p) 8 v len logm 8) as (s & E & L & B); try (unfold len; lia).
  exists s. unfold mserialize_vector.
  rewrite Z.gtb_ltb. unfold max_num_coeffs. destruct (Z.ltb_spec (2 ^ 15) (Z.of_nat (length v))); [lia|].
  assert (Ev : forall (T : Type) (a b : T), (match v with [] => a | _ => b end) = b).
  { intros. destruct v; [cbn in Hl; lia|reflexivity]. }
  rewrite Ev. clear Ev.
  fold len. split; [exact E|]. split; [rewrite L; f_equal|]. split.
  - rewrite Forall_forall. intros b Hin. apply In_nth with (d := 0) in Hin.
    destruct Hin as (j & Hj & <-).
    assert (Hw : nth j s 0 = wrap 8 (nth j s 0)).
    { apply Z.bits_inj'. intros i Hi. rewrite wrap_bits by lia.
      destruct (Z.ltb_spec i 8) as [|Hge]; cbn [andb]; [reflexivity|].
      rewrite B by lia. destruct (Z.ltb_spec i 8); [lia|]. reflexivity. }
    rewrite Hw. apply (wrap_range 8); lia.
  - unfold mdeserialize_vector. destruct (Z.ltb_spec (Z.of_nat (length v)) 0); [lia|].
    rewrite Z.gtb_ltb. unfold max_num_coeffs. destruct (Z.ltb_spec (2 ^ 15) (Z.of_nat (length v))); [lia|].
    replace (logm * Z.of_nat (length v)) with len by (unfold len; lia).
    rewrite (transcribe_roundtrip (p_k p) 8 v logm 8 len s); try lia; try assumption.
    cbn [bind]. destruct (Z.ltb_spec (Z.of_nat (length v)) (Z.of_nat (length v))); [lia|].
    rewrite Nat2Z.id, firstn_all. reflexivity.
Qed.

Lemma serialize_one_ok n :
  0 <= n < 2 ^ logm ->
  exists s, mserialize p n = Ok s /\ Z.of_nat (length s) = serialized_size p /\
    mdeserialize p s = Ok n.
Proof.
  intros Hn. pose proof logm_bounds as [Hb _]. pose proof (k_pos p G) as Hk.
  destruct (transcribe_bits_ok (p_k p) 8 [n] logm logm 8) as (s & E & L & B); try (cbn [length]; lia).
  exists s. unfold mserialize, mdeserialize, serialized_size. split; [exact E|].
  split; [exact L|].
  rewrite (transcribe_roundtrip (p_k p) 8 [n] logm 8 logm s); try lia; try assumption.
  - reflexivity.
  - cbn [length]. lia.
  - constructor; [assumption|constructor].
Qed.

(** What deserialization does guarantee on arbitrary bytes. *)
Lemma deserialize_range s n :
  mdeserialize p s = Ok n -> 0 <= n < 2 ^ logm.
Proof.
  pose proof logm_bounds as [Hb _]. pose proof (k_pos p G) as Hk.
  unfold mdeserialize.
  destruct (Z.le_gt_cases logm (8 * Z.of_nat (length s))) as [C|C].
  - destruct (transcribe_bits_ok 8 (p_k p) s logm 8 logm) as (o & E & L & B); try lia.
    rewrite E. cbn [bind]. assert (Ho : (0 < length o)%nat).
    { replace (logm + (logm - 1)) with ((logm - 1) + 1 * logm) in L by ring.
      rewrite Z.div_add, Z.div_small in L by lia. lia. }
    rewrite (get_ok o 0 0 Ho). intros X; injection X as <-.
    assert (Hw : nth 0 o 0 = wrap logm (nth 0 o 0)).
    { apply Z.bits_inj'. intros i Hi. rewrite wrap_bits by lia.
      destruct (Z.ltb_spec i logm) as [|Hge]; cbn [andb]; [reflexivity|].
      rewrite B by lia. destruct (Z.ltb_spec i logm); [lia|]. reflexivity. }
    rewrite Hw. apply wrap_range; lia.
  - assert (E : transcribe_bits 8 (p_k p) s logm 8 logm = Err InvalidArgument).
    { apply transcribe_bits_err; lia. }
    rewrite E. cbn [bind]. discriminate.
Qed.

Lemma deserialize_short s :
  8 * Z.of_nat (length s) < logm -> mdeserialize p s = Err InvalidArgument.
Proof.
  pose proof logm_bounds as [Hb _]. pose proof (k_pos p G) as Hk. intros C.
  unfold mdeserialize.
  assert (E : transcribe_bits 8 (p_k p) s logm 8 logm = Err InvalidArgument).
  { apply transcribe_bits_err; lia. }
  rewrite E. reflexivity.
Qed.

Lemma deserialize_vector_spec num s :
  Z.of_nat (length s) < 2 ^ 31 ->
  match mdeserialize_vector p num s with
  | Ok v => 0 <= num <= max_num_coeffs /\ Z.of_nat (length v) = num /\
            Forall (fun n => 0 <= n < 2 ^ logm) v
  | Err c => c = InvalidArgument /\
             (num < 0 \/ num > max_num_coeffs \/ 8 * Z.of_nat (length s) < num * logm \/
              (num = 0 /\ s <> []))
  | UB => False
  end.
Proof.
  intros Hs. pose proof logm_bounds as [Hb _]. pose proof (k_pos p G) as Hk.
  unfold mdeserialize_vector, max_num_coeffs. rewrite Z.gtb_ltb.
  destruct (Z.ltb_spec num 0); [split; [reflexivity|lia]|].
  destruct (Z.ltb_spec (2 ^ 15) num); [split; [reflexivity|lia]|].
  destruct (Z.eq_dec num 0) as [->|Hnz].
  { rewrite Z.mul_0_r. unfold transcribe_bits. rewrite !Z.gtb_ltb.
    destruct (Z.ltb_spec 8 8); [lia|]. destruct (Z.ltb_spec (p_k p) logm); [lia|].
    destruct (Z.ltb_spec 0 0); [lia|]. destruct (Z.eqb_spec 0 0); [|lia].
    destruct s as [|x t]; cbn [bind].
    - cbn. repeat split; try lia. constructor.
    - split; [reflexivity|]. right; right; right. split; [reflexivity|discriminate]. }
  assert (Hlen : 0 < logm * num <= 126 * 2 ^ 15) by nia.
  destruct (Z.le_gt_cases (logm * num) (8 * Z.of_nat (length s))) as [C|C].
  - destruct (transcribe_bits_ok 8 (p_k p) s (logm * num) 8 logm) as (o & E & L & B); try lia.
    rewrite E. cbn [bind].
    assert (Lo : Z.of_nat (length o) = num).
    { rewrite L. replace (logm * num + (logm - 1)) with ((logm - 1) + num * logm) by ring.
      rewrite Z.div_add, Z.div_small by lia. lia. }
    destruct (Z.ltb_spec (Z.of_nat (length o)) num); [lia|].
    rewrite firstn_length, Nat.min_l by lia. rewrite Z2Nat.id by lia.
    split; [lia|]. split; [reflexivity|].
    rewrite firstn_all2 by lia.
    rewrite Forall_forall. intros b Hin. apply In_nth with (d := 0) in Hin.
    destruct Hin as (j & Hj & <-).
    assert (Hw : nth j o 0 = wrap logm (nth j o 0)).
    { apply Z.bits_inj'. intros i Hi. rewrite wrap_bits by lia.
      destruct (Z.ltb_spec i logm) as [|Hge]; cbn [andb]; [reflexivity|].
      rewrite B by lia. destruct (Z.ltb_spec i logm); [lia|]. reflexivity. }
    rewrite Hw. apply wrap_range; lia.
  - assert (E : transcribe_bits 8 (p_k p) s (logm * num) 8 logm = Err InvalidArgument).
    { apply transcribe_bits_err; lia. }
    rewrite E. cbn [bind]. split; [reflexivity|]. right; right; left. lia.
Qed.

End G.
