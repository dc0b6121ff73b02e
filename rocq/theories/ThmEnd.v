(** C96: sampling ends (montgomery.h, polynomial.h, rns/rns_polynomial.h,
    sampler/uniform_ternary.h, rns/rns_secret_key.h). The rejection loops of the
    code have no bound; the model gives each of them [fuel] attempts. The
    fraction of byte tapes on which a call with that many attempts has not
    returned halves with every attempt, and more attempts never change a result. *)
From Coq Require Import Znumtheory Lia Arith.
From Verif Require Import Base FinSum BitsUtil Montgomery MontBatch Ntt Poly PolyExt Prng Sampling SampleSpec ZLemmas MontgomeryProofs Spec ArithFacts
  PolySpec Ring MontBatchProofs SampleProofs SampleErrProofs ThmArith ThmSample SymSpec RnsPoly RnsSpec RnsSub RnsProofs RnsBasis2 RnsMore RnsCtx RnsCt RnsCtSpec RnsCtProofs
  RnsEncode RnsKey DistSpec DistProofs DistEnc RnsKeySpec RnsKeyProofs RnsExample TapeSpec TapeProofs TapeRns ThmTape EndSpec EndProofs EndTern.
Local Opaque error_widths error_count.

Lemma likely_unfinished {A} f c B N (call : list Z -> result A) : likely f c B (fun ds => Z.b2z (finished (call ds))) -> (B <= N)%nat ->
  2 ^ Z.of_nat f * unfinished N call <= c * 256 ^ Z.of_nat N.
Proof.
  intros [_ H] HN. specialize (H N HN). unfold unfinished, count_tapes, count_scripts.
  assert (E : over (repeat 8 N) (fun ds => Z.b2z (negb (finished (call ds)))) + over (repeat 8 N) (fun ds => Z.b2z (finished (call ds))) = 256 ^ Z.of_nat N).
  { rewrite <- over_ones. clear. generalize (repeat 8 N) as ws. intros ws.
    assert (W : forall F G H : list Z -> Z, (forall ds, F ds + G ds = H ds) -> over ws F + over ws G = over ws H).
    { induction ws as [|w ws IH]; intros F G H E; cbn [over]; [apply E|]. rewrite <- zsum_add. apply zsum_ext. intros i _. apply IH. intros ds. apply E. }
    apply W. intros ds. destruct (finished (call ds)); reflexivity. }
  nia.
Qed.

(** One residue, and a polynomial of them. *)
Theorem C96_residues :
  forall k m p fuel n N, params_for k m p -> 0 < n ->
  (fuel * (Z.to_nat n * nbytes (attempt_widths (p_logm p))) <= N)%nat ->
  2 ^ Z.of_nat fuel * unfinished N (sample_polynomial tape fuel n p) <= n * 256 ^ Z.of_nat N.
Proof.
  intros k m p fuel n N PF Hn HN.
  apply (likely_unfinished fuel n (fuel * (Z.to_nat n * nbytes (attempt_widths (p_logm p))))); [|exact HN].
  pose proof (n_likely k m p PF fuel 0 (fun _ => 1) (Z.to_nat n) 0 ltac:(lia) (likely_one fuel 0)) as Hl.
  rewrite Nat.add_0_r, Z.add_0_l, Z2Nat.id in Hl by lia. revert Hl. apply likely_ext. intros ds. unfold runs, sample_polynomial.
  destruct (Z.ltb_spec n 1); [lia|]. destruct (sample_n tape fuel (Z.to_nat n) p ds) as [[xs s]| |] eqn:Es; try reflexivity. cbn [bind].
  pose proof (proj1 (sample_n_reduced k m p PF fuel (Z.to_nat n) ds xs s Es)) as Lx. unfold poly_of. destruct xs as [|x xs]; [cbn [length] in Lx; lia|]. reflexivity.
Qed.

(** A uniform RNS polynomial. *)
Theorem C96_uniform :
  forall k L ms fuel N, moduli_ok k L ms -> ms <> [] -> (fuel * row_bytes ms (2 ^ L) <= N)%nat ->
  2 ^ Z.of_nat fuel * unfinished N (rns_sample_uniform tape fuel (Z.of_nat L) ms) <= Z.of_nat (length ms * 2 ^ L) * 256 ^ Z.of_nat N.
Proof.
  intros k L [|m0 ms'] fuel N OK NE HN; [contradiction|].
  apply (likely_unfinished fuel _ (fuel * row_bytes (m0 :: ms') (2 ^ L))); [|exact HN].
  pose proof (rows_likely k L fuel (2 ^ L) 0 (fun _ => 1) (likely_one fuel 0) (m0 :: ms') OK) as Hl. rewrite Nat.add_0_r in Hl.
  revert Hl. apply likely_ext. intros ds. rewrite (uniform_eq k L m0 ms' OK). unfold runs.
  destruct (rns_sample_rows tape fuel (2 ^ L) (m0 :: ms') ds) as [[vs s]| |]; reflexivity.
Qed.

(** Uniform ternary coefficients. *)
Theorem C96_ternary :
  forall p fuel n N, 0 < n -> (2 * fuel * Z.to_nat n <= N)%nat ->
  2 ^ Z.of_nat fuel * unfinished N (sample_ternary tape fuel p n) <= n * 256 ^ Z.of_nat N.
Proof.
  intros p fuel n N Hn HN. apply (likely_unfinished fuel n (2 * fuel * Z.to_nat n)); [|exact HN].
  pose proof (batches_likely fuel p (Z.to_nat n) (Z.to_nat n) 0 0 (fun _ => 1) ltac:(lia) ltac:(lia) (likely_one fuel 0)) as Hl.
  rewrite Nat.add_0_r, Z.add_0_l, Z2Nat.id in Hl by lia. revert Hl. apply likely_ext. intros ds. unfold runs, sample_ternary.
  destruct (Z.leb_spec n 0); [lia|]. destruct (ternary_batches tape fuel (Z.to_nat n) p (Z.to_nat n) ds) as [[xs s]| |]; reflexivity.
Qed.

Lemma fin_likely k L m0 ms' fuel v (fin : list (list Z) -> list Z -> result rct) :
  moduli_ok k L (m0 :: ms') -> 0 < v <= 256 -> 4 * v < modulus m0 ->
  (forall vs xs, residue_rows (m0 :: ms') (2 ^ L) vs -> errs_ok L m0 v xs -> exists x, fin vs xs = Ok x) ->
  likely fuel (Z.of_nat (length (m0 :: ms') * 2 ^ L)) (fuel * row_bytes (m0 :: ms') (2 ^ L) + error_bytes v (2 ^ L))
    (fun ds => Z.b2z (finished (do! ' (vs, s) <- rns_sample_rows tape fuel (2 ^ L) (m0 :: ms') ds;
      do! ' (xs, s) <- sample_error tape (pm_p m0) (2 ^ L) v s; do! x <- fin vs xs; Ok (x, s)))).
Proof.
  intros OK Hv Hq HF. pose proof (ok_for k L m0 (Forall_inv OK)) as PF.
  pose proof (errors_likely k (modulus m0) (pm_p m0) v PF ltac:(lia) Hq fuel (2 ^ L) (fun _ => 1) 0 0 (likely_one fuel 0)) as He.
  pose proof (rows_likely k L fuel (2 ^ L) _ _ He (m0 :: ms') OK) as Hl. rewrite Nat.add_0_r in Hl. unfold error_bytes.
  revert Hl. apply likely_ext. intros ds. unfold runs.
  destruct (rns_sample_rows tape fuel (2 ^ L) (m0 :: ms') ds) as [[vs s]| |] eqn:Er; try reflexivity. cbn [bind].
  destruct (sample_error tape (pm_p m0) (2 ^ L) v s) as [[xs s1]| |] eqn:Es; try reflexivity. cbn [bind].
  destruct (HF vs xs (rows_reduced k L fuel (2 ^ L) _ ds vs s OK Er) (errs_sampled k L m0 ms' OK v s xs s1 ltac:(lia) ltac:(lia) Es)) as (x & Ex).
  rewrite Ex. reflexivity.
Qed.

(** Encryption, BGV and BFV: the mask, then the error, then the arithmetic. *)
Theorem C96_encrypt_bgv :
  forall k L ms fuel key sk p m t N, moduli_ok k L ms -> distinct ms -> k <> 16 -> 0 < rsk_var key <= 256 -> 4 * rsk_var key < first_modulus ms ->
  RnsKeySpec.key_is ms L key sk -> rns_is ms L true p m -> 0 <= t < 2 ^ k ->
  (fuel * row_bytes ms (2 ^ L) + error_bytes (rsk_var key) (2 ^ L) <= N)%nat ->
  2 ^ Z.of_nat fuel * unfinished N (rsk_encrypt_poly_bgv tape fuel key p t) <= Z.of_nat (length ms * 2 ^ L) * 256 ^ Z.of_nat N.
Proof.
  intros k L [|m0 ms'] fuel key sk p m t N OK DI K16 Hv Hq HK Hp Ht HN; [cbn [first_modulus] in Hq; lia|].
  apply (likely_unfinished fuel _ (fuel * row_bytes (m0 :: ms') (2 ^ L) + error_bytes (rsk_var key) (2 ^ L))); [|exact HN].
  pose proof (fin_likely k L m0 ms' fuel (rsk_var key) (fin_bgv L m0 ms' key p t) OK Hv Hq) as Hl. refine (likely_ext _ _ _ _ _ _ (Hl _)).
  - intros ds. rewrite (enc_bgv_eq k L m0 ms' OK key sk p m HK Hp Hv fuel t ds). reflexivity.
  - intros vs xs R X. destruct (fin_bgv_ok k L m0 ms' OK DI K16 key sk p m HK Hp (rsk_var key) t vs xs Ht R X) as (x & Ex & _). exists x. exact Ex.
Qed.

Theorem C96_encrypt_bfv :
  forall k L ms fuel key sk E msgs ntt p m N, moduli_ok k L ms -> distinct ms -> k <> 16 -> 0 < rsk_var key <= 256 -> 4 * rsk_var key < first_modulus ms ->
  RnsKeySpec.key_is ms L key sk -> en_bfv E msgs ms = Ok p -> rns_is ms L ntt p m ->
  (fuel * row_bytes ms (2 ^ L) + error_bytes (rsk_var key) (2 ^ L) <= N)%nat ->
  2 ^ Z.of_nat fuel * unfinished N (rsk_encrypt_bfv1 tape fuel key E msgs) <= Z.of_nat (length ms * 2 ^ L) * 256 ^ Z.of_nat N.
Proof.
  intros k L [|m0 ms'] fuel key sk E msgs ntt p1 m N OK DI K16 Hv Hq HK Ep Hp1 HN; [cbn [first_modulus] in Hq; lia|].
  assert (HE : is_rns (m0 :: ms') L true (ensure_ntt p1 (m0 :: ms')) m).
  { unfold ensure_ntt. rewrite (proj1 (proj2 Hp1)). destruct ntt; [exists p1; auto|apply (rns_to_ntt_is k L _ OK p1 m Hp1)]. }
  destruct HE as (p & Eq & Hp).
  apply (likely_unfinished fuel _ (fuel * row_bytes (m0 :: ms') (2 ^ L) + error_bytes (rsk_var key) (2 ^ L))); [|exact HN].
  pose proof (fin_likely k L m0 ms' fuel (rsk_var key) (fin_bfv L m0 ms' key p) OK Hv Hq) as Hl. refine (likely_ext _ _ _ _ _ _ (Hl _)).
  - intros ds. rewrite (enc_bfv_eq k L m0 ms' OK key sk p HK Hv fuel E msgs p1 ds Ep Eq). reflexivity.
  - intros vs xs R X. destruct (fin_bfv_ok k L m0 ms' OK DI K16 key sk p m HK Hp (rsk_var key) vs xs R X) as (x & Ex & _). exists x. exact Ex.
Qed.

(** So encryption ends with probability as close to one as wanted. *)
Theorem C96_almost_surely :
  forall k L ms key sk p m t d, moduli_ok k L ms -> distinct ms -> k <> 16 -> 0 < rsk_var key <= 256 -> 4 * rsk_var key < first_modulus ms ->
  RnsKeySpec.key_is ms L key sk -> rns_is ms L true p m -> 0 <= t < 2 ^ k -> 0 < d ->
  exists fuel N0, forall N, (N0 <= N)%nat -> d * unfinished N (rsk_encrypt_poly_bgv tape fuel key p t) <= 256 ^ Z.of_nat N.
Proof.
  intros k L ms key sk p m t d OK DI K16 Hv Hq HK Hp Ht Hd. set (c := Z.of_nat (length ms * 2 ^ L)).
  exists (Z.to_nat (d * c)), (Z.to_nat (d * c) * row_bytes ms (2 ^ L) + error_bytes (rsk_var key) (2 ^ L))%nat. intros N HN.
  pose proof (C96_encrypt_bgv k L ms _ key sk p m t N OK DI K16 Hv Hq HK Hp Ht HN) as H. fold c in H.
  assert (C1 : 1 <= c). { unfold c. destruct ms; [cbn [first_modulus] in Hq; lia|]. pose proof (NttMath.pow2_gt0 L). cbn [length]. nia. }
  rewrite Z2Nat.id in H by nia. assert (P : d * c < 2 ^ (d * c)) by (apply Z.pow_gt_lin_r; nia).
  assert (U : 0 <= unfinished N (rsk_encrypt_poly_bgv tape (Z.to_nat (d * c)) key p t)).
  { unfold unfinished, count_tapes, count_scripts. apply over_nonneg. intros ds. destruct (negb _); cbn; lia. }
  set (u := unfinished N _) in *. set (T := 256 ^ Z.of_nat N) in *.
  apply (Z.mul_le_mono_pos_l _ _ c); [lia|]. replace (c * (d * u)) with (d * c * u) by ring. nia.
Qed.

(** With any generator: a call that has returned returns the same with more
    attempts. *)
Lemma import_more R p : forall f f' s r, import_random R f p s = Ok r -> (f <= f')%nat -> import_random R f' p s = Ok r.
Proof.
  induction f as [|f IH]; intros [|f'] s r E H; try discriminate E; try lia. cbn [import_random] in *.
  destruct (generate_random_int R (p_k p) (p_logm p) s) as [[x s1]| |]; try discriminate E. cbn [bind] in *. destruct (p_m p <=? x); [apply IH; [exact E|lia]|exact E].
Qed.
Lemma sample_more R p f f' : (f <= f')%nat -> forall n s r, sample_n R f n p s = Ok r -> sample_n R f' n p s = Ok r.
Proof.
  intros H. induction n as [|n IH]; intros s r E; [exact E|]. cbn [sample_n] in *.
  destruct (import_random R f p s) as [[x s1]| |] eqn:E1; try discriminate E. rewrite (import_more R p f f' _ _ E1 H). cbn [bind] in *.
  destruct (sample_n R f n p s1) as [[y s2]| |] eqn:E2; try discriminate E. rewrite (IH _ _ E2). exact E.
Qed.
Lemma rows_more R f f' n : (f <= f')%nat -> forall ms s r, rns_sample_rows R f n ms s = Ok r -> rns_sample_rows R f' n ms s = Ok r.
Proof.
  intros H. induction ms as [|m ms IH]; intros s r E; [exact E|]. cbn [rns_sample_rows] in *.
  destruct (sample_n R f n (pm_p m) s) as [[x s1]| |] eqn:E1; try discriminate E. rewrite (sample_more R _ f f' H _ _ _ E1). cbn [bind] in *.
  destruct (rns_sample_rows R f n ms s1) as [[y s2]| |] eqn:E2; try discriminate E. rewrite (IH _ _ E2). exact E.
Qed.
Lemma uniform_more R f f' l ms s r : (f <= f')%nat -> rns_sample_uniform R f l ms s = Ok r -> rns_sample_uniform R f' l ms s = Ok r.
Proof.
  intros H E. unfold rns_sample_uniform in *. destruct (l <=? 0); [discriminate E|]. destruct ms as [|m ms]; [discriminate E|].
  destruct (shl_int l) as [n| |]; try discriminate E. cbn [bind] in *.
  destruct (rns_sample_rows R f n (m :: ms) s) as [[x s1]| |] eqn:E1; try discriminate E. rewrite (rows_more R f f' n H _ _ _ E1). exact E.
Qed.
Lemma loop_more R : forall f f' m e0 e1 s r, (f <= f')%nat -> ternary_loop R f m e0 e1 s = Ok r -> ternary_loop R f' m e0 e1 s = Ok r.
Proof.
  induction f as [|f IH]; intros [|f'] m e0 e1 s r H E; cbn [ternary_loop] in *; destruct (m =? 0); try exact E; try discriminate E; try lia.
  destruct (pr_rand8 R s) as [[r0 s0]| |]; try discriminate E. cbn [bind] in *. destruct (pr_rand8 R s0) as [[r1 s1]| |]; try discriminate E. cbn [bind] in *.
  apply IH; [lia|exact E].
Qed.
Lemma batches_more R p f f' : (f <= f')%nat -> forall b n s r, ternary_batches R f b p n s = Ok r -> ternary_batches R f' b p n s = Ok r.
Proof.
  intros H. induction b as [|b IH]; intros [|n] s r E; cbn [ternary_batches] in *; try exact E.
  match type of E with context [ternary_loop R f ?m 0 0 s] => destruct (ternary_loop R f m 0 0 s) as [[[e0 e1] s1]| |] eqn:E1; try discriminate E;
    rewrite (loop_more R f f' _ _ _ _ _ H E1) end.
  cbn [bind] in *. match type of E with context [ternary_batches R f b p ?m s1] => destruct (ternary_batches R f b p m s1) as [[y s2]| |] eqn:E2; try discriminate E end.
  rewrite (IH _ _ _ E2). exact E.
Qed.

Theorem C96_more_attempts :
  forall (R : prng) fuel fuel', (fuel <= fuel')%nat ->
  (forall n p s r, sample_polynomial R fuel n p s = Ok r -> sample_polynomial R fuel' n p s = Ok r) /\
  (forall l ms s r, rns_sample_uniform R fuel l ms s = Ok r -> rns_sample_uniform R fuel' l ms s = Ok r) /\
  (forall p n s r, sample_ternary R fuel p n s = Ok r -> sample_ternary R fuel' p n s = Ok r) /\
  (forall key p t s r, rsk_encrypt_poly_bgv R fuel key p t s = Ok r -> rsk_encrypt_poly_bgv R fuel' key p t s = Ok r) /\
  (forall key E msgs s r, rsk_encrypt_bfv1 R fuel key E msgs s = Ok r -> rsk_encrypt_bfv1 R fuel' key E msgs s = Ok r).
Proof.
  intros R f f' H. split; [|split; [|split; [|split]]].
  - intros n p s r E. unfold sample_polynomial in *. destruct (n <? 1); [discriminate E|].
    destruct (sample_n R f (Z.to_nat n) p s) as [[x s1]| |] eqn:E1; try discriminate E. rewrite (sample_more R _ f f' H _ _ _ E1). exact E.
  - intros l ms s r. apply uniform_more, H.
  - intros p n s r E. unfold sample_ternary in *. destruct (n <=? 0); [discriminate E|]. apply (batches_more R p f f' H), E.
  - intros key p t s r E. unfold rsk_encrypt_poly_bgv in *. destruct (negb (rp_ntt p)); [discriminate E|].
    match type of E with context [rns_sample_uniform R f ?l ?q s] => destruct (rns_sample_uniform R f l q s) as [[x s1]| |] eqn:E1; try discriminate E end.
    rewrite (uniform_more R f f' _ _ _ _ H E1). exact E.
  - intros key En msgs s r E. unfold rsk_encrypt_bfv1 in *. destruct (en_bfv En msgs (rsk_ms key)) as [p0| |]; try discriminate E. cbn [bind] in *.
    destruct (ensure_ntt p0 (rsk_ms key)) as [p1| |]; try discriminate E. cbn [bind] in *.
    match type of E with context [rns_sample_uniform R f ?l ?q s] => destruct (rns_sample_uniform R f l q s) as [[x s1]| |] eqn:E1; try discriminate E end.
    rewrite (uniform_more R f f' _ _ _ _ H E1). exact E.
Qed.

(** Degree 8, primes 97, 193 and 17: one attempt is not enough on the tape of
    C94, two are; 30 attempts of 24 bytes, and 16 bytes for the error, leave at
    most one tape in 2^25. *)
Example C96_example :
  finished (rsk_encrypt_poly_bgv tape 1 key94 plain94 4 tape94) = false /\ finished (rsk_encrypt_poly_bgv tape 2 key94 plain94 4 tape94) = true /\
  row_bytes ex_qs 8 = 24%nat /\ error_bytes (rsk_var key94) 8 = 16%nat /\
  forall N, (30 * 24 + 16 <= N)%nat -> 2 ^ 25 * unfinished N (rsk_encrypt_poly_bgv tape 30 key94 plain94 4) <= 256 ^ Z.of_nat N.
Proof.
  destruct C94_example as (_ & _ & _ & _ & _ & E1 & E2 & Hq & _ & _ & _ & OK & DI & Ev & (s & HK) & (m & Hp)).
  split; [vm_compute; reflexivity|]. split; [vm_compute; reflexivity|]. split; [exact E1|]. rewrite Ev. split; [exact E2|]. intros N HN.
  assert (B : 2 ^ Z.of_nat 30 * unfinished N (rsk_encrypt_poly_bgv tape 30 key94 plain94 4) <= Z.of_nat (length ex_qs * 2 ^ 3) * 256 ^ Z.of_nat N).
  { apply (C96_encrypt_bgv 32 3 ex_qs 30 key94 s plain94 m 4 N OK DI); [lia|rewrite Ev; lia|rewrite Ev; exact Hq|exact HK|exact Hp|lia|].
    rewrite Ev. change (2 ^ 3)%nat with 8%nat. rewrite E1, E2. lia. }
  replace (Z.of_nat (length ex_qs * 2 ^ 3)) with 24 in B by (vm_compute; reflexivity). set (u := unfinished N _) in *. set (T := 256 ^ Z.of_nat N) in *.
  assert (0 < T) by (apply Z.pow_pos_nonneg; lia). replace (2 ^ Z.of_nat 30) with (32 * 2 ^ 25) in B by reflexivity. nia.
Qed.
Print Assumptions C96_residues.
Print Assumptions C96_uniform.
Print Assumptions C96_ternary.
Print Assumptions C96_encrypt_bgv.
Print Assumptions C96_encrypt_bfv.
Print Assumptions C96_almost_surely.
Print Assumptions C96_more_attempts.
Print Assumptions C96_example.
