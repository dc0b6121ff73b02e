(** C97: the distribution of public-key encryptions (rns/rns_bgv_public_key.h,
    rns/rns_bfv_public_key.h). *)
From Coq Require Import Znumtheory Lia Arith.
From Verif Require Import Base FinSum BitsUtil Montgomery MontBatch Ntt Poly PolyExt Prng Sampling SampleSpec ZLemmas MontgomeryProofs Spec ArithFacts
  PolySpec Ring MontBatchProofs SampleProofs SampleErrProofs ThmArith ThmSample RnsPoly RnsSpec RnsSub RnsProofs RnsBasis2 RnsMore RnsCtx RnsCt RnsCtSpec RnsCtProofs RnsEncode RnsKey
  RnsFloat RnsPub DistSpec DistProofs RnsExample TapeSpec TapeProofs TapeRns EndSpec EndProofs PubTapeSpec PubTape ThmTape.
Local Notation tapes N := (repeat 8 N).
Local Opaque error_widths error_count.

Section Pub.
Variables (k : Z) (L : nat) (m0 : pmod) (ms' : list pmod).
Local Notation ms := (m0 :: ms').
Local Notation n := (2 ^ L)%nat.
Local Notation p0 := (pm_p m0).
Hypothesis OK : moduli_ok k L ms.
Hypothesis K16 : k <> 16.
Variables (v t : Z) (A B P : rpoly) (a b m : nat -> Z) (sc : rpoly -> result rpoly).
Hypothesis Hv : 0 < v <= 256.
Hypothesis Hq : 4 * v < modulus m0.
Hypothesis HA : rns_is ms L true A a.
Hypothesis HB : rns_is ms L true B b.
Hypothesis HP : rns_is ms L true P m.
Hypothesis Hsc : forall c f, rns_is ms L true c f -> is_rns ms L true (sc c) (fun i => t * f i).
Local Notation w := (nbytes (error_widths 24 (2 * v))).

(** both encryption functions, with the random polynomials drawn in between *)
Definition enc (ds : list Z) : result (rct * list Z) :=
  do! ' (r, s) <- rns_sample_error tape (Z.of_nat L) v ms ds;
  do! ' (c0, s) <- rns_sample_error tape (Z.of_nat L) v ms s;
  do! c0 <- sc c0;
  do! c0 <- rns_fused_mul_add c0 B r ms;
  do! c0 <- rns_add c0 P ms;
  do! ' (c1, s) <- rns_sample_error tape (Z.of_nat L) v ms s;
  do! c1 <- sc c1;
  do! c1 <- rns_fused_mul_add c1 A r ms;
  Ok (rct_make [c0; c1] ms 1, s).
Definition fin (xr x0 x1 : list Z) : result rct :=
  do! r <- rns_convert_balanced xr p0 ms;
  do! c0 <- rns_convert_balanced x0 p0 ms;
  do! c0 <- sc c0;
  do! c0 <- rns_fused_mul_add c0 B r ms;
  do! c0 <- rns_add c0 P ms;
  do! c1 <- rns_convert_balanced x1 p0 ms;
  do! c1 <- sc c1;
  do! c1 <- rns_fused_mul_add c1 A r ms;
  Ok (rct_make [c0; c1] ms 1).

Lemma fin_ok xr x0 x1 : errs_ok L m0 v xr -> errs_ok L m0 v x0 -> errs_ok L m0 v x1 -> exists x, fin xr x0 x1 = Ok x /\
  pub_encryption ms L a b m t (signed p0 xr) (signed p0 x0) (signed p0 x1) x.
Proof.
  intros Xr X0 X1. destruct (balanced_ok k L m0 ms' OK v xr Xr) as (r & Er & Hr). destruct (balanced_ok k L m0 ms' OK v x0 X0) as (c0 & E0 & H0).
  destruct (balanced_ok k L m0 ms' OK v x1 X1) as (c1 & E1 & H1). destruct (Hsc _ _ H0) as (d0 & F0 & H0'). destruct (Hsc _ _ H1) as (d1 & F1 & H1').
  destruct (rns_fused_is k L ms OK d0 B r _ b _ K16 H0' HB Hr) as (f0 & G0 & I0). destruct (rns_add_is k L ms OK true f0 P _ m I0 HP) as (g0 & J0 & K0).
  destruct (rns_fused_is k L ms OK d1 A r _ a _ K16 H1' HA Hr) as (f1 & G1 & I1).
  unfold fin. rewrite Er, E0. cbn [bind]. rewrite F0. cbn [bind]. rewrite G0. cbn [bind]. rewrite J0, E1. cbn [bind]. rewrite F1. cbn [bind]. rewrite G1. cbn [bind].
  eexists. split; [reflexivity|]. exists g0, f1. split; [reflexivity|]. split.
  - apply (rns_ext k L ms OK _ _ _ _ K0). intros. apply cong_eq. ring.
  - apply (rns_ext k L ms OK _ _ _ _ I1). intros. apply cong_eq. ring.
Qed.

Definition ct (r e0 e1 : list Z) : rct := match fin (res0 m0 r) (res0 m0 e0) (res0 m0 e1) with Ok x => x | _ => rct_make [] [] 0 end.
Lemma res0_imp e : res0 m0 e = map (imp p0) e.
Proof. reflexivity. Qed.

Lemma ct_ok r e0 e1 : errors v n r -> errors v n e0 -> errors v n e1 -> fin (res0 m0 r) (res0 m0 e0) (res0 m0 e1) = Ok (ct r e0 e1) /\
  pub_encryption ms L a b m t r e0 e1 (ct r e0 e1).
Proof.
  intros [Lr Fr] [L0' F0] [L1 F1]. destruct (res0_ok k L m0 ms' OK v r Hq Lr Fr) as [Xr Sr]. destruct (res0_ok k L m0 ms' OK v e0 Hq L0' F0) as [X0 S0].
  destruct (res0_ok k L m0 ms' OK v e1 Hq L1 F1) as [X1 S1]. destruct (fin_ok _ _ _ Xr X0 X1) as (x & Ex & Hx). rewrite Sr, S0, S1 in Hx.
  unfold ct. rewrite Ex. split; [reflexivity|exact Hx].
Qed.

Lemma enc_avg (test : rct -> bool) N : (3 * error_bytes v n <= N)%nat ->
  count_tapes N (fun ds => passes test (enc ds)) =
  over_errors v n (fun r => over_errors v n (fun e0 => over_errors v n (fun e1 => Z.b2z (test (ct r e0 e1))))) * 256 ^ Z.of_nat (N - 3 * error_bytes v n).
Proof.
  intros HN. pose proof (ok_for k L m0 (Forall_inv OK)) as PF. assert (V0 : 0 <= v <= 256) by lia. unfold error_bytes in *.
  pose proof (errors_avg k (modulus m0) p0 v PF V0 Hq) as AV.
  unfold count_tapes, count_scripts.
  transitivity (ex N (sample_error tape p0 n v) (fun xr s => runs (sample_error tape p0 n v) (fun x0 s => runs (sample_error tape p0 n v) (fun x1 _ =>
    match fin xr x0 x1 with Ok x => Z.b2z (test x) | _ => 0 end) s) s)).
  - unfold ex. apply over_ext; [|apply tapes_nonneg]. intros ds _. unfold enc, runs. rewrite (error_eq k L m0 ms' OK v ds (proj1 Hv)).
    destruct (sample_error tape p0 n v ds) as [[xr s1]| |] eqn:Er; try reflexivity. cbn [bind].
    pose proof (errs_sampled k L m0 ms' OK v ds xr s1 ltac:(lia) ltac:(lia) Er) as Xr. destruct (balanced_ok k L m0 ms' OK v xr Xr) as (r & Cr & Hr). rewrite Cr. cbn [bind].
    rewrite (error_eq k L m0 ms' OK v s1 (proj1 Hv)).
    destruct (sample_error tape p0 n v s1) as [[x0 s2]| |] eqn:E0; try reflexivity. cbn [bind].
    pose proof (errs_sampled k L m0 ms' OK v s1 x0 s2 ltac:(lia) ltac:(lia) E0) as X0. destruct (balanced_ok k L m0 ms' OK v x0 X0) as (c0 & C0 & H0). rewrite C0. cbn [bind].
    destruct (Hsc _ _ H0) as (d0 & F0 & H0'). rewrite F0. cbn [bind].
    destruct (rns_fused_is k L ms OK d0 B r _ b _ K16 H0' HB Hr) as (f0 & G0 & I0). rewrite G0. cbn [bind].
    destruct (rns_add_is k L ms OK true f0 P _ m I0 HP) as (g0 & J0 & K0). rewrite J0. cbn [bind].
    rewrite (error_eq k L m0 ms' OK v s2 (proj1 Hv)).
    destruct (sample_error tape p0 n v s2) as [[x1 s3]| |] eqn:E1; try reflexivity. cbn [bind]. unfold fin. rewrite Cr, C0. cbn [bind]. rewrite F0. cbn [bind]. rewrite G0. cbn [bind].
    rewrite J0. cbn [bind]. destruct (rns_convert_balanced x1 p0 ms) as [c1| |]; try reflexivity. cbn [bind]. destruct (sc c1) as [d1| |]; try reflexivity. cbn [bind].
    destruct (rns_fused_mul_add d1 A r ms) as [f1| |]; reflexivity.
  - rewrite AV. destruct (Nat.leb_spec (n * w) N) as [N1|N1]; [|lia]. rewrite <- over_errors_mul. apply (over_errors_ext v n). intros r Hr. rewrite over_runs, AV.
    destruct (Nat.leb_spec (n * w) (N - n * w)) as [N2|N2]; [|lia]. rewrite <- over_errors_mul. apply (over_errors_ext v n). intros e0 He0. rewrite over_runs, AV.
    destruct (Nat.leb_spec (n * w) (N - n * w - n * w)) as [N3|N3]; [|lia]. rewrite <- over_errors_mul. apply (over_errors_ext v n). intros e1 He1.
    rewrite <- !res0_imp, (proj1 (ct_ok r e0 e1 Hr He0 He1)).
    replace (N - n * w - n * w - n * w)%nat with (N - 3 * (n * w))%nat by lia. rewrite <- over_ones, <- over_mul. apply over_ext; [|apply tapes_nonneg]. intros; lia.
Qed.

(** the second component does not involve the message *)
Definition second (r e1 : list Z) : rpoly :=
  match (do! r <- rns_convert_balanced (res0 m0 r) p0 ms; do! c1 <- rns_convert_balanced (res0 m0 e1) p0 ms; do! c1 <- sc c1; rns_fused_mul_add c1 A r ms) with
  | Ok c => c | _ => mk 0 [] end.
Lemma ct_second r e0 e1 d : errors v n r -> errors v n e0 -> errors v n e1 -> nth 1 (rt_c (ct r e0 e1)) d = second r e1.
Proof.
  intros Hr H0 H1. destruct (ct_ok r e0 e1 Hr H0 H1) as [E _]. unfold second. unfold fin in E.
  destruct (rns_convert_balanced (res0 m0 r) p0 ms) as [cr| |]; try discriminate E. cbn [bind] in *.
  destruct (rns_convert_balanced (res0 m0 e0) p0 ms) as [c0| |]; try discriminate E. cbn [bind] in *.
  destruct (sc c0) as [d0| |]; try discriminate E. cbn [bind] in *. destruct (rns_fused_mul_add d0 B cr ms) as [f0| |]; try discriminate E. cbn [bind] in *.
  destruct (rns_add f0 P ms) as [g0| |]; try discriminate E. cbn [bind] in *. destruct (rns_convert_balanced (res0 m0 e1) p0 ms) as [c1| |]; try discriminate E. cbn [bind] in *.
  destruct (sc c1) as [d1| |]; try discriminate E. cbn [bind] in *. destruct (rns_fused_mul_add d1 A cr ms) as [f1| |]; try discriminate E. cbn [bind] in *.
  assert (X : rct_make [g0; f1] ms 1 = ct r e0 e1) by congruence. rewrite <- X. reflexivity.
Qed.

Lemma enc_total N : (3 * error_bytes v n <= N)%nat -> count_tapes N (fun ds => finished (enc ds)) = 256 ^ Z.of_nat N.
Proof.
  intros HN. pose proof (ok_for k L m0 (Forall_inv OK)) as PF.
  assert (ONE : over_errors v n (fun _ => 1) = 256 ^ Z.of_nat (error_bytes v n)).
  { pose proof (errors_avg k (modulus m0) p0 v PF ltac:(lia) Hq n (fun _ _ => 1) (n * w)) as E.
    pose proof (errors_total k (modulus m0) p0 v PF ltac:(lia) Hq (fun _ => 1) n (n * w)) as E'. pose proof (eq_trans (eq_sym E) E') as X. clear E E'. rename X into E'.
    rewrite Nat.leb_refl, Nat.sub_diag in E'. cbn [repeat over] in E'. unfold error_bytes. rewrite E'. ring. }
  transitivity (count_tapes N (fun ds => passes (fun _ => true) (enc ds))).
  - unfold count_tapes, count_scripts. apply over_ext; [|apply tapes_nonneg]. intros ds _. destruct (enc ds) as [[x s]| |]; reflexivity.
  - rewrite (enc_avg (fun _ => true) N HN). cbn [Z.b2z].
    rewrite (over_errors_ext v n _ (fun _ => 1 * (256 ^ Z.of_nat (error_bytes v n) * 256 ^ Z.of_nat (error_bytes v n)))).
    2:{ intros r _. rewrite (over_errors_ext v n _ (fun _ => 1 * 256 ^ Z.of_nat (error_bytes v n))) by (intros; rewrite ONE; ring). rewrite over_errors_mul, ONE. ring. }
    rewrite over_errors_mul, ONE. rewrite <- !Z.pow_add_r by lia. f_equal. lia.
Qed.
End Pub.

(** BGV. There is a function from (r, e0, e1) to the ciphertext
    (b r + t e0 + m, a r + t e1). For every test, the number of tapes on which the
    ciphertext passes is the sum over all r, e0, e1, each weighted with its three
    products of centred binomials. *)
Theorem C97_encrypt_bgv :
  forall k L ms pk a b E msgs ntt p m, moduli_ok k L ms -> k <> 16 -> rpk_ms pk = ms ->
  rns_is ms L true (rpk_a pk) a -> rns_is ms L true (rpk_b pk) b -> let v := rpk_var pk in 0 < v <= 256 -> 4 * v < first_modulus ms ->
  0 <= en_t E < 2 ^ k -> en_bgv E msgs ms = Ok p -> rns_is ms L ntt p m ->
  exists ct : list Z -> list Z -> list Z -> rct,
    (forall r e0 e1, errors v (2 ^ L) r -> errors v (2 ^ L) e0 -> errors v (2 ^ L) e1 -> pub_encryption ms L a b m (en_t E) r e0 e1 (ct r e0 e1)) /\
    forall test N, (3 * error_bytes v (2 ^ L) <= N)%nat ->
      count_tapes N (fun ds => passes test (rpk_encrypt_bgv tape pk E msgs ds)) =
      over_errors v (2 ^ L) (fun r => over_errors v (2 ^ L) (fun e0 => over_errors v (2 ^ L) (fun e1 => Z.b2z (test (ct r e0 e1))))) *
      256 ^ Z.of_nat (N - 3 * error_bytes v (2 ^ L)).
Proof.
  intros k L [|m0 ms'] pk a b E msgs ntt p m OK K16 Ems HA HB v Hv Hq Ht Ep Hp; [cbn [first_modulus] in Hq; lia|].
  assert (HN : is_rns (m0 :: ms') L true (ensure_ntt p (m0 :: ms')) m).
  { unfold ensure_ntt. rewrite (proj1 (proj2 Hp)). destruct ntt; [exists p; auto|apply (rns_to_ntt_is k L _ OK p m Hp)]. }
  destruct HN as (q & Eq & Hq').
  pose (sc := fun c => rns_mul_scalar c (en_t E) (m0 :: ms')).
  assert (Hsc : forall c f, rns_is (m0 :: ms') L true c f -> is_rns (m0 :: ms') L true (sc c) (fun i => en_t E * f i)) by (intros c f Hc; apply (rns_mul_scalar_is k L _ OK true c f (en_t E) Hc Ht)).
  exists (ct m0 ms' (rpk_a pk) (rpk_b pk) q sc). split.
  - intros r e0 e1 Hr H0 H1. apply (ct_ok k L m0 ms' OK K16 v (en_t E) _ _ _ a b m sc Hq HA HB Hq' Hsc r e0 e1 Hr H0 H1).
  - intros test N HNn. rewrite <- (enc_avg k L m0 ms' OK K16 v (en_t E) _ _ _ a b m sc Hv Hq HA HB Hq' Hsc test N HNn).
    unfold count_tapes, count_scripts. apply over_ext; [|apply tapes_nonneg]. intros ds _. do 2 f_equal. unfold rpk_encrypt_bgv, enc.
    rewrite Ems, Ep. cbn [bind]. rewrite Eq. cbn [bind]. rewrite (proj1 HA). reflexivity.
Qed.

(** BFV: t is 1 and m the scaled message. *)
Theorem C97_encrypt_bfv :
  forall k L ms pk a b E msgs ntt p m, moduli_ok k L ms -> k <> 16 -> rpk_ms pk = ms ->
  rns_is ms L true (rpk_a pk) a -> rns_is ms L true (rpk_b pk) b -> let v := rpk_var pk in 0 < v <= 256 -> 4 * v < first_modulus ms ->
  en_bfv E msgs ms = Ok p -> rns_is ms L ntt p m ->
  exists ct : list Z -> list Z -> list Z -> rct,
    (forall r e0 e1, errors v (2 ^ L) r -> errors v (2 ^ L) e0 -> errors v (2 ^ L) e1 -> pub_encryption ms L a b m 1 r e0 e1 (ct r e0 e1)) /\
    forall test N, (3 * error_bytes v (2 ^ L) <= N)%nat ->
      count_tapes N (fun ds => passes test (rpk_encrypt_bfv tape pk E msgs ds)) =
      over_errors v (2 ^ L) (fun r => over_errors v (2 ^ L) (fun e0 => over_errors v (2 ^ L) (fun e1 => Z.b2z (test (ct r e0 e1))))) *
      256 ^ Z.of_nat (N - 3 * error_bytes v (2 ^ L)).
Proof.
  intros k L [|m0 ms'] pk a b E msgs ntt p m OK K16 Ems HA HB v Hv Hq Ep Hp; [cbn [first_modulus] in Hq; lia|].
  assert (HN : is_rns (m0 :: ms') L true (ensure_ntt p (m0 :: ms')) m).
  { unfold ensure_ntt. rewrite (proj1 (proj2 Hp)). destruct ntt; [exists p; auto|apply (rns_to_ntt_is k L _ OK p m Hp)]. }
  destruct HN as (q & Eq & Hq').
  pose (sc := fun c : rpoly => Ok c).
  assert (Hsc : forall c f, rns_is (m0 :: ms') L true c f -> is_rns (m0 :: ms') L true (sc c) (fun i => 1 * f i)).
  { intros c f Hc. exists c. split; [reflexivity|]. apply (rns_ext k L _ OK _ _ _ _ Hc). intros. apply cong_eq. ring. }
  exists (ct m0 ms' (rpk_a pk) (rpk_b pk) q sc). split.
  - intros r e0 e1 Hr H0 H1. apply (ct_ok k L m0 ms' OK K16 v 1 _ _ _ a b m sc Hq HA HB Hq' Hsc r e0 e1 Hr H0 H1).
  - intros test N HNn. rewrite <- (enc_avg k L m0 ms' OK K16 v 1 _ _ _ a b m sc Hv Hq HA HB Hq' Hsc test N HNn).
    unfold count_tapes, count_scripts. apply over_ext; [|apply tapes_nonneg]. intros ds _. do 2 f_equal. unfold rpk_encrypt_bfv, enc.
    rewrite Ems, Ep. cbn [bind]. rewrite Eq. cbn [bind]. rewrite (proj1 HA). reflexivity.
Qed.

(** Encryption succeeds on every tape of that length, in both schemes. *)
Theorem C97_never_fails :
  forall k L ms pk a b E msgs ntt p m N, moduli_ok k L ms -> k <> 16 -> rpk_ms pk = ms ->
  rns_is ms L true (rpk_a pk) a -> rns_is ms L true (rpk_b pk) b -> 0 < rpk_var pk <= 256 -> 4 * rpk_var pk < first_modulus ms ->
  rns_is ms L ntt p m -> (3 * error_bytes (rpk_var pk) (2 ^ L) <= N)%nat ->
  (en_bgv E msgs ms = Ok p -> 0 <= en_t E < 2 ^ k -> count_tapes N (fun ds => finished (rpk_encrypt_bgv tape pk E msgs ds)) = 256 ^ Z.of_nat N) /\
  (en_bfv E msgs ms = Ok p -> count_tapes N (fun ds => finished (rpk_encrypt_bfv tape pk E msgs ds)) = 256 ^ Z.of_nat N).
Proof.
  intros k L [|m0 ms'] pk a b E msgs ntt p m N OK K16 Ems HA HB Hv Hq Hp HNn; [cbn [first_modulus] in Hq; lia|].
  assert (HN : is_rns (m0 :: ms') L true (ensure_ntt p (m0 :: ms')) m).
  { unfold ensure_ntt. rewrite (proj1 (proj2 Hp)). destruct ntt; [exists p; auto|apply (rns_to_ntt_is k L _ OK p m Hp)]. }
  destruct HN as (q & Eq & Hq'). split.
  - intros Ep Ht. pose (sc := fun c => rns_mul_scalar c (en_t E) (m0 :: ms')).
    assert (Hsc : forall c f, rns_is (m0 :: ms') L true c f -> is_rns (m0 :: ms') L true (sc c) (fun i => en_t E * f i)) by (intros c f Hc; apply (rns_mul_scalar_is k L _ OK true c f (en_t E) Hc Ht)).
    rewrite <- (enc_total k L m0 ms' OK K16 _ (en_t E) _ _ _ a b m sc Hv Hq HA HB Hq' Hsc N HNn).
    unfold count_tapes, count_scripts. apply over_ext; [|apply tapes_nonneg]. intros ds _. do 2 f_equal. unfold rpk_encrypt_bgv, enc.
    rewrite Ems, Ep. cbn [bind]. rewrite Eq. cbn [bind]. rewrite (proj1 HA). reflexivity.
  - intros Ep. pose (sc := fun c : rpoly => Ok c).
    assert (Hsc : forall c f, rns_is (m0 :: ms') L true c f -> is_rns (m0 :: ms') L true (sc c) (fun i => 1 * f i)).
    { intros c f Hc. exists c. split; [reflexivity|]. apply (rns_ext k L _ OK _ _ _ _ Hc). intros. apply cong_eq. ring. }
    rewrite <- (enc_total k L m0 ms' OK K16 _ 1 _ _ _ a b m sc Hv Hq HA HB Hq' Hsc N HNn).
    unfold count_tapes, count_scripts. apply over_ext; [|apply tapes_nonneg]. intros ds _. do 2 f_equal. unfold rpk_encrypt_bfv, enc.
    rewrite Ems, Ep. cbn [bind]. rewrite Eq. cbn [bind]. rewrite (proj1 HA). reflexivity.
Qed.

(** The second component alone has the same distribution for all messages. *)
Theorem C97_second_component :
  forall k L ms pk a b E msgs ntt p m msgs' ntt' p' m' d test N, moduli_ok k L ms -> k <> 16 -> rpk_ms pk = ms ->
  rns_is ms L true (rpk_a pk) a -> rns_is ms L true (rpk_b pk) b -> 0 < rpk_var pk <= 256 -> 4 * rpk_var pk < first_modulus ms ->
  0 <= en_t E < 2 ^ k -> en_bgv E msgs ms = Ok p -> rns_is ms L ntt p m -> en_bgv E msgs' ms = Ok p' -> rns_is ms L ntt' p' m' ->
  (3 * error_bytes (rpk_var pk) (2 ^ L) <= N)%nat ->
  count_tapes N (fun ds => passes (fun x => test (nth 1 (rt_c x) d)) (rpk_encrypt_bgv tape pk E msgs ds)) =
  count_tapes N (fun ds => passes (fun x => test (nth 1 (rt_c x) d)) (rpk_encrypt_bgv tape pk E msgs' ds)).
Proof.
  intros k L [|m0 ms'] pk a b E msgs ntt p m msgs' ntt' p' m' d test N OK K16 Ems HA HB Hv Hq Ht Ep Hp Ep' Hp' HNn; [cbn [first_modulus] in Hq; lia|].
  pose (sc := fun c => rns_mul_scalar c (en_t E) (m0 :: ms')).
  assert (Hsc : forall c f, rns_is (m0 :: ms') L true c f -> is_rns (m0 :: ms') L true (sc c) (fun i => en_t E * f i)) by (intros c f Hc; apply (rns_mul_scalar_is k L _ OK true c f (en_t E) Hc Ht)).
  assert (ALL : forall msgs ntt p m, en_bgv E msgs (m0 :: ms') = Ok p -> rns_is (m0 :: ms') L ntt p m ->
    count_tapes N (fun ds => passes (fun x => test (nth 1 (rt_c x) d)) (rpk_encrypt_bgv tape pk E msgs ds)) =
    over_errors (rpk_var pk) (2 ^ L) (fun r => over_errors (rpk_var pk) (2 ^ L) (fun e0 => over_errors (rpk_var pk) (2 ^ L) (fun e1 => Z.b2z (test (second m0 ms' (rpk_a pk) sc r e1))))) *
      256 ^ Z.of_nat (N - 3 * error_bytes (rpk_var pk) (2 ^ L))); [|rewrite (ALL _ _ _ _ Ep Hp), (ALL _ _ _ _ Ep' Hp'); reflexivity].
  clear msgs ntt p m msgs' ntt' p' m' Ep Hp Ep' Hp'. intros msgs ntt p m Ep Hp.
  assert (HN : is_rns (m0 :: ms') L true (ensure_ntt p (m0 :: ms')) m).
  { unfold ensure_ntt. rewrite (proj1 (proj2 Hp)). destruct ntt; [exists p; auto|apply (rns_to_ntt_is k L _ OK p m Hp)]. }
  destruct HN as (q & Eq & Hq').
  transitivity (count_tapes N (fun ds => passes (fun x => test (nth 1 (rt_c x) d)) (enc L m0 ms' (rpk_var pk) (rpk_a pk) (rpk_b pk) q sc ds))).
  - unfold count_tapes, count_scripts. apply over_ext; [|apply tapes_nonneg]. intros ds _. do 2 f_equal. unfold rpk_encrypt_bgv, enc.
    rewrite Ems, Ep. cbn [bind]. rewrite Eq. cbn [bind]. rewrite (proj1 HA). reflexivity.
  - rewrite (enc_avg k L m0 ms' OK K16 _ (en_t E) _ _ _ a b m sc Hv Hq HA HB Hq' Hsc _ N HNn). f_equal.
    apply over_errors_ext. intros r Hr. apply over_errors_ext. intros e0 H0. apply over_errors_ext. intros e1 H1.
    rewrite (ct_second k L m0 ms' OK K16 _ (en_t E) _ _ _ a b m sc Hq HA HB Hq' Hsc r e0 e1 d Hr H0 H1). reflexivity.
Qed.

(** Degree 8, primes 97, 193 and 17, variance 1, t = 5: the public key of mask94,
    and the encryption of 1 + 4 X on a tape of 48 bytes. *)
Definition rows97 : list (list Z) := [[7; 1; 0; 3; 90; 4; 4; 2]; [100; 2; 9; 8; 0; 0; 1; 33]; [1; 2; 3; 4; 5; 6; 7; 8]].
Definition pk97 : rpkey := {| rpk_a := poly_of 3 mask94; rpk_b := poly_of 3 rows97; rpk_ms := ex_qs; rpk_var := 1; rpk_seed := []; rpk_type := 1 |}.
Definition ctx97 : result rctx := ctx_create_bfv 32 3 [97; 193; 17] [] 5.
Definition enc97 (c : rctx) : encoder := coeff_encoder exact_dops c.
Definition tape97 : list Z := [1; 0; 0; 0; 3; 1; 1; 0; 0; 0; 0; 2; 0; 3; 1; 3; 0; 1; 2; 3; 0; 1; 2; 3; 0; 1; 2; 3; 0; 1; 2; 3; 3; 3; 0; 0; 1; 1; 2; 2; 0; 0; 0; 0; 0; 0; 3; 0].
Definition plain97 : rpoly := Eval vm_compute in match (do! c <- ctx97; en_bgv (enc97 c) [1; 4] ex_qs) with Ok p => p | _ => poly_of 0 [] end.
Lemma rows_ok a : rp_logn a = 3%nat -> forallb (fun mv => (length (snd mv) =? 8)%nat && forallb (fun x => (0 <=? x) && (x <? pm_q (fst mv))) (snd mv)) (combine ex_qs (rp_vs a)) = true ->
  length (rp_vs a) = 3%nat -> exists m, rns_is ex_qs 3 (rp_ntt a) a m.
Proof.
  intros E1 E3 E4. pose proof (proj1 ex_ok) as OK. pose proof (proj1 (proj2 ex_distinct)) as DI.
  assert (R : residue_rows ex_qs 8 (rp_vs a)).
  { clear - E3 E4. unfold residue_rows. change 3%nat with (length ex_qs) in E4. revert E3 E4. generalize (rp_vs a) as vs. generalize ex_qs as ms.
    induction ms as [|m ms IH]; intros [|v vs] E3 E4; try discriminate E4; [constructor|]. cbn [combine forallb fst snd] in E3. apply andb_prop in E3. destruct E3 as [A B].
    apply andb_prop in A. destruct A as [A C]. constructor; [|apply IH; [exact B|injection E4 as E4; exact E4]]. split; [apply Nat.eqb_eq, A|].
    rewrite forallb_forall in C. apply Forall_forall. intros x Hx. specialize (C x Hx). apply andb_prop in C. unfold modulus. change (pm_q m) with (p_m (pm_p m)) in C. lia. }
  destruct ex_qs as [|m0 ms'] eqn:Eq; [vm_compute in Eq; discriminate Eq|].
  pose proof (rows_poly 3 m0 ms' (rp_vs a) R) as PP. destruct (rns_exists 32 3 _ OK DI a) as (f & _ & Hf).
  { destruct a as [a1 a2 a3]. cbn [rp_logn rp_vs] in *. subst a1. exact PP. }
  exists f. exact Hf.
Qed.
Example C97_example :
  exists c, ctx97 = Ok c /\ en_t (enc97 c) = 5 /\ en_bgv (enc97 c) [1; 4] ex_qs = Ok plain97 /\
  finished (rpk_encrypt_bgv tape pk97 (enc97 c) [1; 4] tape97) = true /\
  finished (rpk_encrypt_bgv tape pk97 (enc97 c) [1; 4] (tl tape97)) = false /\ length tape97 = (3 * error_bytes (rpk_var pk97) 8)%nat /\
  moduli_ok 32 3 ex_qs /\ 4 * rpk_var pk97 < first_modulus ex_qs /\ rpk_ms pk97 = ex_qs /\
  (exists a, rns_is ex_qs 3 true (rpk_a pk97) a) /\ (exists b, rns_is ex_qs 3 true (rpk_b pk97) b) /\ exists m, rns_is ex_qs 3 (rp_ntt plain97) plain97 m.
Proof.
  destruct ctx97 as [c| |] eqn:Ec; [|vm_compute in Ec; discriminate Ec|vm_compute in Ec; discriminate Ec]. exists c. split; [reflexivity|].
  assert (S : match ctx97 with Ok c => (en_t (enc97 c), en_bgv (enc97 c) [1; 4] ex_qs, finished (rpk_encrypt_bgv tape pk97 (enc97 c) [1; 4] tape97),
    finished (rpk_encrypt_bgv tape pk97 (enc97 c) [1; 4] (tl tape97))) | _ => (0, UB, false, false) end = (5, Ok plain97, true, false)) by (vm_compute; reflexivity).
  rewrite Ec in S. assert (S1 : en_t (enc97 c) = 5) by congruence. assert (S2 : en_bgv (enc97 c) [1; 4] ex_qs = Ok plain97) by congruence.
  assert (S3 : finished (rpk_encrypt_bgv tape pk97 (enc97 c) [1; 4] tape97) = true) by congruence.
  assert (S4 : finished (rpk_encrypt_bgv tape pk97 (enc97 c) [1; 4] (tl tape97)) = false) by congruence.
  split; [exact S1|]. split; [exact S2|]. split; [exact S3|]. split; [exact S4|]. split; [vm_compute; reflexivity|]. split; [exact (proj1 ex_ok)|]. split; [vm_compute; reflexivity|].
  split; [reflexivity|]. split; [apply (rows_ok (poly_of 3 mask94)); vm_compute; reflexivity|]. split; [apply (rows_ok (poly_of 3 rows97)); vm_compute; reflexivity|].
  apply (rows_ok plain97); vm_compute; reflexivity.
Qed.
Print Assumptions C97_encrypt_bgv.
Print Assumptions C97_encrypt_bfv.
Print Assumptions C97_never_fails.
Print Assumptions C97_second_component.
Print Assumptions C97_example.
