(** Proofs about the buffered generators. *)
From Verif Require Import Base ZLemmas Prng PrngSpec.

Lemma run_calls_app R cs : forall cs' s,
  run_calls R (cs ++ cs') s =
  do! ' (xs, s) <- run_calls R cs s; do! ' (ys, s) <- run_calls R cs' s; Ok (xs ++ ys, s).
Proof.
  induction cs as [|c cs IH]; intros cs' s; cbn [run_calls app].
  - cbn [bind]. destruct (run_calls R cs' s) as [[ys s1]|e|]; reflexivity.
  - destruct (gen_call R c s) as [[x s1]|e|]; cbn [bind]; try reflexivity. rewrite IH.
    destruct (run_calls R cs s1) as [[xs s2]|e|]; cbn [bind]; try reflexivity.
    destruct (run_calls R cs' s2) as [[ys s3]|e|]; reflexivity.
Qed.

Section Stream.
Variable block : Z -> result (list Z).
(** the blocks, for the salts the counter can reach *)
Variable B : Z -> list Z.
Hypothesis HB : forall i, 0 <= i < 2 ^ 31 - 1 -> block i = Ok (B i).
Hypothesis HL : forall i, 0 <= i < 2 ^ 31 - 1 -> Z.of_nat (length (B i)) = output_bytes.
Hypothesis HV : forall i x, 0 <= i < 2 ^ 31 - 1 -> In x (B i) -> 0 <= x < 2 ^ 8.

Local Notation stream_byte := (stream_byte B).
Local Notation stream_number := (stream_number B).
Local Notation expected := (expected B).

Record at_pos (i : Z) (s : bstate) : Prop := {
  ap_salt : 1 <= b_salt s <= 2 ^ 31 - 1;
  ap_pos : 0 <= b_pos s <= output_bytes;
  ap_buf : b_buf s = B (b_salt s - 1);
  ap_i : i = (b_salt s - 1) * output_bytes + b_pos s }.

Lemma output_pos : output_bytes = 8160. Proof. reflexivity. Qed.

Lemma stream_at q r : 0 <= r < output_bytes -> stream_byte (q * output_bytes + r) = nth (Z.to_nat r) (B q) 0.
Proof.
  intros H. unfold PrngSpec.stream_byte. change (255 * 32) with 8160 in *. rewrite ?output_pos in *.
  rewrite Z.add_comm, Z.mod_add, Z.div_add, Z.mod_small, Z.div_small by lia. reflexivity.
Qed.

Lemma get_nth (l : list Z) n : (n < length l)%nat -> get l n = Ok (nth n l 0).
Proof.
  revert n. induction l as [|x l IH]; intros n H; cbn [length] in H; [lia|]. destruct n as [|n]; [reflexivity|].
  unfold get in *. cbn [nth_error nth]. apply IH. lia.
Qed.

Lemma byte_ok q r : 0 <= q < 2 ^ 31 - 1 -> 0 <= r < output_bytes -> wrap 8 (nth (Z.to_nat r) (B q) 0) = nth (Z.to_nat r) (B q) 0.
Proof.
  intros Hq Hr. apply wrap_small, (HV q); [exact Hq|]. apply nth_In. pose proof (HL q Hq). lia.
Qed.

Lemma read_byte i s : at_pos i s -> i < capacity ->
  exists s', buf_rand8 block s = Ok (stream_byte i, s') /\ at_pos (i + 1) s'.
Proof.
  intros [S P Bu I] C. unfold capacity in C. change (255 * 32) with 8160 in *. rewrite ?output_pos in *. unfold buf_rand8.
  assert (LB : Z.of_nat (length (b_buf s)) = 8160) by (rewrite Bu; apply HL; lia).
  rewrite LB. destruct (Z.leb_spec 8160 (b_pos s)) as [L|L].
  - assert (b_pos s = 8160) by lia. unfold resalt.
    assert (b_salt s < 2 ^ 31 - 1) by lia.
    rewrite (HB (b_salt s)) by lia. cbn [bind]. destruct (Z.eqb_spec (b_salt s) (2 ^ 31 - 1)); [lia|].
    cbn [bind b_buf b_pos b_salt].
    rewrite get_nth by (pose proof (HL (b_salt s) ltac:(lia)) as Q; rewrite ?output_pos in Q; lia). cbn [bind].
    pose proof (stream_at (b_salt s) 0 ltac:(rewrite output_pos; lia)) as SA.
    pose proof (byte_ok (b_salt s) 0 ltac:(lia) ltac:(rewrite output_pos; lia)) as BO.
    rewrite BO, <- SA, output_pos. eexists. split.
    + f_equal. f_equal. f_equal. lia.
    + constructor; cbn [b_salt b_pos b_buf]; rewrite ?output_pos; try lia. f_equal. lia.
  - cbn [bind]. rewrite get_nth by lia. cbn [bind].
    pose proof (stream_at (b_salt s - 1) (b_pos s) ltac:(rewrite output_pos; lia)) as SA.
    pose proof (byte_ok (b_salt s - 1) (b_pos s) ltac:(lia) ltac:(rewrite output_pos; lia)) as BO.
    rewrite Bu, BO, <- SA, output_pos, <- I. eexists. split; [reflexivity|].
    constructor; cbn [b_salt b_pos b_buf]; rewrite ?output_pos; try lia. reflexivity.
Qed.

(** the counter overflows at the end of the last block *)
Lemma read_past s l : at_pos capacity s -> block (2 ^ 31 - 1) = Ok l -> buf_rand8 block s = UB.
Proof.
  intros [S P Bu I] HE. unfold capacity in I. change (255 * 32) with 8160 in *. rewrite ?output_pos in *. unfold buf_rand8.
  assert (LB : Z.of_nat (length (b_buf s)) = 8160) by (rewrite Bu; apply HL; lia).
  rewrite LB. destruct (Z.leb_spec 8160 (b_pos s)) as [L|L]; [|lia].
  unfold resalt. assert (E : b_salt s = 2 ^ 31 - 1) by lia. rewrite E, HE. cbn [bind].
  rewrite Z.eqb_refl. reflexivity.
Qed.

Lemma stream_range i : 0 <= i < capacity -> 0 <= stream_byte i < 2 ^ 8.
Proof.
  intros H. unfold PrngSpec.stream_byte, capacity in *. change (255 * 32) with 8160 in *. rewrite ?output_pos in *.
  assert (Q : 0 <= i / 8160 < 2 ^ 31 - 1) by (split; [apply Z.div_pos; lia|apply Z.div_lt_upper_bound; lia]).
  apply (HV (i / 8160)); [exact Q|]. apply nth_In. pose proof (HL _ Q) as LL. rewrite ?output_pos in LL.
  pose proof (Z.mod_pos_bound i 8160 ltac:(lia)). lia.
Qed.

Lemma stream_number_range n : forall i, 0 <= i -> i + Z.of_nat n <= capacity -> 0 <= stream_number n i < 256 ^ Z.of_nat n.
Proof.
  induction n as [|n IH]; intros i H0 H; cbn [PrngSpec.stream_number]; [cbn; lia|].
  pose proof (stream_range i ltac:(lia)). pose proof (IH (i + 1) ltac:(lia) ltac:(lia)).
  replace (Z.of_nat (S n)) with (Z.succ (Z.of_nat n)) by lia. rewrite Z.pow_succ_r by lia. lia.
Qed.

Lemma rand64_loop_ok n : forall j acc i s, (j + n <= 8)%nat -> at_pos i s -> 0 <= i -> i + Z.of_nat n <= capacity ->
  0 <= acc < 2 ^ (8 * Z.of_nat j) ->
  exists s', rand64_loop block n (Z.of_nat j) acc s = Ok (acc + 2 ^ (8 * Z.of_nat j) * stream_number n i, s') /\
    at_pos (i + Z.of_nat n) s'.
Proof.
  induction n as [|n IH]; intros j acc i s Hj Hs H0 Hc Ha; cbn [rand64_loop PrngSpec.stream_number].
  - exists s. split; [f_equal; f_equal; lia|]. replace (i + Z.of_nat 0) with i by lia. exact Hs.
  - destruct (read_byte i s Hs ltac:(lia)) as (s1 & E1 & S1). rewrite E1. cbn [bind].
    pose proof (stream_range i ltac:(lia)) as R.
    assert (P1 : 0 < 2 ^ (8 * Z.of_nat j)) by (apply pow2_pos; lia).
    assert (P2 : 2 ^ (8 * Z.of_nat (S j)) = 256 * 2 ^ (8 * Z.of_nat j)).
    { replace (8 * Z.of_nat (S j)) with (8 + 8 * Z.of_nat j) by lia. rewrite Z.pow_add_r by lia. reflexivity. }
    assert (P3 : 2 ^ (8 * Z.of_nat (S j)) <= 2 ^ 64) by (apply Z.pow_le_mono_r; lia).
    rewrite (wrap_small 64 (stream_byte i * _)) by nia. rewrite wrap_small by nia.
    destruct (IH (S j) (acc + stream_byte i * 2 ^ (8 * Z.of_nat j)) (i + 1) s1) as (s2 & E2 & S2); try lia; try exact S1.
    { rewrite P2. nia. }
    exists s2. replace (Z.of_nat j + 1) with (Z.of_nat (S j)) by lia. rewrite E2. split.
    + f_equal. f_equal. rewrite P2. ring.
    + replace (i + Z.of_nat (S n)) with (i + 1 + Z.of_nat n) by lia. exact S2.
Qed.

Lemma run_ok cs : forall i s, at_pos i s -> 0 <= i -> i + reads cs <= capacity ->
  exists s', run_calls (buffered block) cs s = Ok (expected i cs, s') /\ at_pos (i + reads cs) s'.
Proof.
  induction cs as [|c cs IH]; intros i s Hs H0 Hc.
  - exists s. cbn [run_calls PrngSpec.expected]. change (reads []) with 0. rewrite Z.add_0_r. split; [reflexivity|exact Hs].
  - assert (RN : 0 <= reads cs).
    { clear. induction cs as [|d cs IH]; [change (reads []) with 0; lia|].
      change (reads (d :: cs)) with ((match d with CallRand8 => 1 | CallRand64 => 8 end) + reads cs). destruct d; lia. }
    cbn [buffered pr_st] in *. destruct c; cbn [PrngSpec.expected run_calls gen_call buffered pr_rand8 pr_rand64].
    + change (reads (CallRand8 :: cs)) with (1 + reads cs) in *.
      destruct (read_byte i s Hs ltac:(lia)) as (s1 & E1 & S1).
      destruct (IH _ s1 S1 ltac:(lia) ltac:(lia)) as (s2 & E2 & S2).
      exists s2. rewrite E1. cbn [bind]. rewrite E2. split; [reflexivity|].
      replace (i + (1 + reads cs)) with (i + 1 + reads cs) by lia. exact S2.
    + change (reads (CallRand64 :: cs)) with (8 + reads cs) in *.
      destruct (rand64_loop_ok 8 0 0 i s ltac:(lia) Hs H0 ltac:(lia) ltac:(cbn; lia)) as (s1 & E1 & S1).
      destruct (IH _ s1 S1 ltac:(lia) ltac:(lia)) as (s2 & E2 & S2).
      exists s2. unfold buf_rand64. change (Z.of_nat 0) with 0 in E1. rewrite E1. cbn [bind].
      change (Z.of_nat 8) with 8 in *. rewrite E2.
      replace (0 + 2 ^ (8 * 0) * stream_number 8 i) with (stream_number 8 i) by (change (2 ^ (8 * 0)) with 1; lia).
      split; [reflexivity|]. replace (i + (8 + reads cs)) with (i + 8 + reads cs) by lia. exact S2.
Qed.

Lemma first_resalt : exists s, resalt block {| b_pos := 0; b_salt := 0; b_buf := [] |} = Ok s /\ at_pos 0 s.
Proof.
  unfold resalt. cbn [b_salt]. rewrite HB by lia. cbn [bind]. eexists. split; [reflexivity|].
  constructor; cbn [b_salt b_pos b_buf]; rewrite ?output_pos; try lia. reflexivity.
Qed.
End Stream.

(** ** Interleavings are equivalent to sequential executions *)

(** reading bytes one by one *)
Inductive byte_reads (block : Z -> result (list Z)) : bstate -> list Z -> bstate -> Prop :=
| br_nil s : byte_reads block s [] s
| br_snoc s l s1 x s2 : byte_reads block s l s1 -> buf_rand8 block s1 = Ok (x, s2) -> byte_reads block s (l ++ [x]) s2.

Lemma byte_reads_cons block s x s1 : buf_rand8 block s = Ok (x, s1) -> forall l s2, byte_reads block s1 l s2 ->
  byte_reads block s (x :: l) s2.
Proof.
  intros E l s2 H. induction H as [s1|s1 l s3 y s4 H IH Ey].
  - apply (br_snoc block s [] s x s1); [constructor|exact E].
  - change (x :: l ++ [y]) with ((x :: l) ++ [y]). eapply br_snoc; eauto.
Qed.

Lemma byte_reads_split block : forall n s l s2, length l = S n -> byte_reads block s l s2 ->
  exists x s1 t, l = x :: t /\ buf_rand8 block s = Ok (x, s1) /\ byte_reads block s1 t s2.
Proof.
  induction n as [|n IH]; intros s l s2 L H.
  - inversion H as [|s0 l' s1 x s2' H1 E]; subst; [discriminate|].
    rewrite app_length in L. destruct l'; [|cbn in L; lia]. inversion H1 as [|? l'' ? y ? H2 E2]; subst.
    + exists x, s2, []. split; [reflexivity|]. split; [exact E|constructor].
    + destruct l''; discriminate.
  - inversion H as [|s0 l' s1 x s2' H1 E]; subst; [discriminate|].
    rewrite app_length in L. cbn in L. destruct (IH s l' s1 ltac:(lia) H1) as (y & s3 & t & -> & E3 & H3).
    exists y, s3, (t ++ [x]). split; [reflexivity|]. split; [exact E3|]. eapply br_snoc; eauto.
Qed.

Lemma buf_rand8_byte block s x s' : buf_rand8 block s = Ok (x, s') -> 0 <= x < 2 ^ 8.
Proof.
  unfold buf_rand8. destruct (if _ <=? _ then _ else _) as [s1|e|]; cbn [bind]; try discriminate.
  destruct (get _ _) as [y|e|]; cbn [bind]; try discriminate. intros [= <- _]. apply Z.mod_pos_bound. lia.
Qed.

Lemma loop_of_reads block : forall n l s s' j acc, length l = n -> (j + n <= 8)%nat -> byte_reads block s l s' ->
  0 <= acc < 2 ^ (8 * Z.of_nat j) ->
  rand64_loop block n (Z.of_nat j) acc s = Ok (acc + 2 ^ (8 * Z.of_nat j) * le_value l, s').
Proof.
  induction n as [|n IH]; intros l s s' j acc L Hj H Ha.
  - destruct l; [|discriminate]. inversion H as [|? l' ? ? ? ? ?]; subst; [|destruct l'; discriminate].
    cbn [rand64_loop le_value]. f_equal. f_equal. lia.
  - destruct (byte_reads_split block n s l s' L H) as (x & s1 & t & -> & E & H1). cbn [rand64_loop]. rewrite E. cbn [bind].
    pose proof (buf_rand8_byte _ _ _ _ E) as R.
    assert (P1 : 0 < 2 ^ (8 * Z.of_nat j)) by (apply pow2_pos; lia).
    assert (P2 : 2 ^ (8 * Z.of_nat (S j)) = 256 * 2 ^ (8 * Z.of_nat j)).
    { replace (8 * Z.of_nat (S j)) with (8 + 8 * Z.of_nat j) by lia. rewrite Z.pow_add_r by lia. reflexivity. }
    assert (P3 : 2 ^ (8 * Z.of_nat (S j)) <= 2 ^ 64) by (apply Z.pow_le_mono_r; lia).
    rewrite (wrap_small 64 (x * _)) by nia. rewrite wrap_small by nia.
    replace (Z.of_nat j + 1) with (Z.of_nat (S j)) by lia. cbn [length] in L.
    rewrite (IH t s1 s' (S j)); [|lia|lia|exact H1|rewrite P2; nia].
    f_equal. f_equal. cbn [le_value]. rewrite P2. ring.
Qed.

Lemma call_of_reads block c l s s' : length l = call_reads c -> byte_reads block s l s' ->
  gen_call (buffered block) c s = Ok (le_value l, s').
Proof.
  intros L H. destruct c; cbn [gen_call buffered pr_rand8 pr_rand64 call_reads] in *.
  - destruct (byte_reads_split block 0 s l s' L H) as (x & s1 & t & -> & E & H1). destruct t; [|discriminate].
    inversion H1 as [|? l' ? ? ? ? ?]; subst; [|destruct l'; discriminate]. rewrite E.
    replace (le_value [x]) with x by (cbn [le_value]; lia). reflexivity.
  - pose proof (loop_of_reads block 8 l s s' 0 0 L ltac:(lia) H ltac:(cbn; lia)) as E.
    change (Z.of_nat 0) with 0 in E. unfold buf_rand64. rewrite E.
    replace (0 + 2 ^ (8 * 0) * le_value l) with (le_value l) by (change (2 ^ (8 * 0)) with 1; lia). reflexivity.
Qed.


(** the state with the lock held is what sequential execution of the log leads
    to, plus the bytes read by the holder *)
Definition sys_inv (block : Z -> result (list Z)) (s0 : bstate) (y : sys) : Prop :=
  exists s1, run_calls (buffered block) (rev (log_calls (y_log y))) s0 = Ok (rev (log_results (y_log y)), s1) /\
  match y_run y with
  | None => y_st y = s1
  | Some r => byte_reads block s1 (r_bytes r) (y_st y) /\ (length (r_bytes r) <= call_reads (r_call r))%nat
  end.

Lemma sys_inv_ok block s0 y y' : sys_steps block y y' ->
  y = {| y_st := s0; y_run := None; y_log := [] |} -> sys_inv block s0 y'.
Proof.
  induction 1 as [y|y y1 y2 H IH S]; intros E.
  - subst. exists s0. split; reflexivity.
  - specialize (IH E). destruct IH as (s1 & R & I). inversion S as [st log tid c|st st' log r x L Ex|st log r L]; subst; cbn [y_st y_run y_log] in *.
    + exists s1. split; [exact R|]. cbn [y_run y_st r_bytes r_call length]. subst. split; [constructor|lia].
    + exists s1. split; [exact R|]. cbn [y_run y_st r_bytes r_call length]. destruct I as [I1 I2].
      split; [eapply br_snoc; eauto|]. rewrite app_length. cbn [length]. lia.
    + destruct I as [I1 I2]. exists st. split; [|reflexivity].
      cbn [y_log log_calls log_results map rev fst snd].
      change (map (fun e : nat * call * Z => snd (fst e)) log) with (log_calls log).
      change (map snd log) with (log_results log).
      rewrite run_calls_app. cbn [buffered pr_st] in *. rewrite R. cbn [bind run_calls].
      rewrite (call_of_reads block (r_call r) (r_bytes r) s1 st L I1). reflexivity.
Qed.

(** ** Nonces and salts *)

Lemma le_bytes_inj n : forall a b, 0 <= a < 256 ^ Z.of_nat n -> 0 <= b < 256 ^ Z.of_nat n -> le_bytes n a = le_bytes n b -> a = b.
Proof.
  induction n as [|n IH]; intros a b Ha Hb; [cbn in *; lia|]. cbn [le_bytes]. intros [= E1 E2].
  change 255 with (Z.ones 8) in E1. rewrite !Z.land_ones in E1 by lia. unfold shr in E2.
  replace (Z.of_nat (S n)) with (Z.succ (Z.of_nat n)) in * by lia. rewrite Z.pow_succ_r in * by lia. change (2 ^ 8) with 256 in *.
  apply IH in E2; [|split; [apply Z.div_pos; lia|apply Z.div_lt_upper_bound; lia]..].
  rewrite (Z.div_mod a 256), (Z.div_mod b 256) by lia. rewrite E1, E2. reflexivity.
Qed.

Lemma chacha_nonce_inj a b : 0 <= a < 2 ^ 31 -> 0 <= b < 2 ^ 31 -> chacha_nonce a = chacha_nonce b -> a = b.
Proof.
  intros Ha Hb E. unfold chacha_nonce in E. apply app_inv_head in E. apply le_bytes_inj in E; [exact E| |];
    change (256 ^ Z.of_nat 8) with (2 ^ 64); lia.
Qed.

(** value of a list of decimal digits *)
Fixpoint dec_value (acc : Z) (l : list Z) : Z := match l with [] => acc | d :: t => dec_value (10 * acc + (d - 48)) t end.

Lemma dec_digits_value fuel : forall n acc, 0 <= n < 10 ^ Z.of_nat fuel -> (0 < fuel)%nat ->
  dec_value 0 (dec_digits fuel n acc) = dec_value n acc.
Proof.
  induction fuel as [|f IH]; intros n acc Hn Hf; [lia|]. cbn [dec_digits].
  pose proof (Z.div_mod n 10 ltac:(lia)) as DM. pose proof (Z.mod_pos_bound n 10 ltac:(lia)) as MB.
  destruct (Z.eqb_spec (n / 10) 0) as [E|E].
  - cbn [dec_value]. f_equal. lia.
  - replace (Z.of_nat (S f)) with (Z.succ (Z.of_nat f)) in Hn by lia. rewrite Z.pow_succ_r in Hn by lia.
    assert (Q : 0 <= n / 10 < 10 ^ Z.of_nat f) by (split; [apply Z.div_pos; lia|apply Z.div_lt_upper_bound; lia]).
    rewrite IH; [|exact Q|destruct f; [cbn in Q; lia|lia]].
    cbn [dec_value]. f_equal. lia.
Qed.

Lemma hkdf_salt_inj a b : 0 <= a < 2 ^ 31 -> 0 <= b < 2 ^ 31 -> hkdf_salt a = hkdf_salt b -> a = b.
Proof.
  intros Ha Hb.
  assert (T : 2 ^ 31 < 10 ^ Z.of_nat 20) by reflexivity.
  pose proof (dec_digits_value 20 a [] ltac:(lia) ltac:(lia)) as A.
  pose proof (dec_digits_value 20 b [] ltac:(lia) ltac:(lia)) as Bb.
  intros E. unfold hkdf_salt in E. apply app_inv_head in E.
  rewrite E in A. rewrite Bb in A. symmetry. exact A.
Qed.
