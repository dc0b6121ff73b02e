(** C67: RNS public keys. *)
From Coq Require Import Znumtheory QArith Lia.
From Verif Require Import Base FinSum PolySpec Ring NegRing SymSpec Montgomery MontBatch Spec Prng Sampling SampleSpec Relin ThmSymEnc ThmRelin RnsPoly RnsSpec CrtMath RnsSub RnsProofs RnsBasis RnsFloat
  RnsCtx RnsCtxSpec RnsCtxProofs RnsCtxFacts ThmRnsCtx RnsCt RnsCtSpec RnsCtProofs RnsEncode RnsEncodeSpec RnsKey RnsKeySpec RnsKeyProofs ThmRnsKey RnsDecode RnsScaleOne RnsDecodeBfv RnsExample
  ThmRnsBgv ThmRnsBfv FieldSpec FieldMath FieldProofs FieldCtx ThmField RnsPub RnsPubSpec RnsPubProofs.
Local Open Scope Z_scope.

(** Create: b + a s is error_scalar times a small error, and -a is the uniform
    sample that the generator of the public seed gives. *)
Theorem C67_create :
  forall k L ms F fuel key sk v ty t seed seed_e pk, moduli_ok k L ms -> ms <> [] -> distinct ms -> k <> 16 ->
  key_is ms L key sk -> prng_ok (gf_prng F ty) -> variance_fits v ms -> 0 <= t < 2 ^ k ->
  rpk_create F fuel key v ty t seed seed_e = Ok pk ->
  public_key ms L sk t (2 * v) pk /\ 0 < v <= 256 /\ rpk_var pk = v /\ rpk_seed pk = seed /\ rpk_type pk = ty /\
  exists s u s' f, gf_start F ty seed = Ok s /\ rns_sample_uniform (gf_prng F ty) fuel (Z.of_nat L) ms s = Ok (u, s') /\
    rns_is ms L true u f /\ rns_is ms L true (rpk_a pk) (fun i => - f i).
Proof.
  intros k L ms F fuel key sk v ty t seed seed_e pk OK NE DI K16 HK HR HV Ht E.
  exact (rpk_create_ok k L ms OK NE K16 F fuel key sk v ty t seed seed_e pk DI HK HR HV Ht E).
Qed.

Theorem C67_create_errors :
  forall F fuel key v ty t seed seed_e, v <= 0 \/ known_type ty = false -> rpk_create F fuel key v ty t seed seed_e = Err InvalidArgument.
Proof.
  intros F fuel key v ty t seed seed_e H. unfold rpk_create. destruct (Z.leb_spec v 0); [reflexivity|]. destruct H as [H| ->]; [lia|reflexivity].
Qed.

(** Encrypt (BGV): two components with phase m + t (e r + e' + e'' s), for the
    error e of the key and fresh small r, e', e''. *)
Theorem C67_encrypt_bgv :
  forall k L ms R sk be pk E msgs ntt p m s x s', moduli_ok k L ms -> ms <> [] -> k <> 16 -> prng_ok R ->
  public_key ms L sk (en_t E) be pk -> variance_fits (rpk_var pk) ms -> 0 <= en_t E < 2 ^ k ->
  en_bgv E msgs ms = Ok p -> rns_is ms L ntt p m -> rpk_encrypt_bgv R pk E msgs s = Ok (x, s') ->
  exists e r e' e'', bounded (2 ^ L) be e /\ bounded (2 ^ L) (2 * rpk_var pk) r /\ bounded (2 ^ L) (2 * rpk_var pk) e' /\
    bounded (2 ^ L) (2 * rpk_var pk) e'' /\
    ciphertext ms L sk 2 1 x (fun i => m i + en_t E * pub_error (2 ^ L) sk e r e' e'' i).
Proof.
  intros k L ms R sk be pk E msgs ntt p m s x s' OK NE K16 HR PK HV Ht Ep Hp Ex. pose proof PK as (K1 & a & b & e0 & Ha & _).
  unfold rpk_encrypt_bgv in Ex. rewrite K1, Ep, (proj1 Ha) in Ex. cbn [bind] in Ex.
  assert (HN : is_rns ms L true (ensure_ntt p ms) m).
  { unfold ensure_ntt. rewrite (proj1 (proj2 Hp)). destruct ntt; [exists p; auto|apply (rns_to_ntt_is k L ms OK p m Hp)]. }
  destruct HN as (q & Eq & Hq). rewrite Eq in Ex. cbn [bind] in Ex.
  destruct (rns_sample_error R (Z.of_nat L) (rpk_var pk) ms s) as [[r s1]| |] eqn:E1; try discriminate. cbn [bind] in Ex.
  destruct (sample_err_is k L ms OK NE R HR _ s r s1 E1 HV) as (_ & fr & Br & Hr).
  destruct (rns_sample_error R (Z.of_nat L) (rpk_var pk) ms s1) as [[c0 s2]| |] eqn:E2; try discriminate. cbn [bind] in Ex.
  destruct (sample_err_is k L ms OK NE R HR _ _ _ _ E2 HV) as (_ & f0 & B0 & H0).
  destruct (rns_mul_scalar_is k L ms OK true c0 f0 (en_t E) H0 Ht) as (d0 & D0 & G0). rewrite D0 in Ex. cbn [bind] in Ex.
  destruct (rns_fused_mul_add d0 (rpk_b pk) r ms) as [d1| |] eqn:D1; try discriminate. cbn [bind] in Ex.
  destruct (rns_add d1 q ms) as [d2| |] eqn:D2; try discriminate. cbn [bind] in Ex.
  destruct (rns_sample_error R (Z.of_nat L) (rpk_var pk) ms s2) as [[c1 s3]| |] eqn:E3; try discriminate. cbn [bind] in Ex.
  destruct (sample_err_is k L ms OK NE R HR _ _ _ _ E3 HV) as (_ & f1 & B1 & H1).
  destruct (rns_mul_scalar_is k L ms OK true c1 f1 (en_t E) H1 Ht) as (d3 & D3 & G3). rewrite D3 in Ex. cbn [bind] in Ex.
  destruct (pub_phase k L ms OK K16 sk (en_t E) be pk q m r fr d0 f0 d3 f1 PK Hq Hr G0 G3) as (c0' & c0'' & c1' & P1 & P2 & P3 & e & Be & Hx).
  rewrite P1 in D1. injection D1 as <-. rewrite P2 in D2. injection D2 as <-. rewrite P3 in Ex. cbn [bind] in Ex. injection Ex as <- _.
  exists e, fr, f0, f1. auto.
Qed.

(** Encrypt (BFV): phase m + e r + e' + e'' s. *)
Theorem C67_encrypt_bfv :
  forall k L ms R sk be pk E msgs ntt p m s x s', moduli_ok k L ms -> ms <> [] -> k <> 16 -> prng_ok R ->
  public_key ms L sk 1 be pk -> variance_fits (rpk_var pk) ms ->
  en_bfv E msgs ms = Ok p -> rns_is ms L ntt p m -> rpk_encrypt_bfv R pk E msgs s = Ok (x, s') ->
  exists e r e' e'', bounded (2 ^ L) be e /\ bounded (2 ^ L) (2 * rpk_var pk) r /\ bounded (2 ^ L) (2 * rpk_var pk) e' /\
    bounded (2 ^ L) (2 * rpk_var pk) e'' /\
    ciphertext ms L sk 2 1 x (fun i => m i + 1 * pub_error (2 ^ L) sk e r e' e'' i).
Proof.
  intros k L ms R sk be pk E msgs ntt p m s x s' OK NE K16 HR PK HV Ep Hp Ex. pose proof PK as (K1 & a & b & e0 & Ha & _).
  unfold rpk_encrypt_bfv in Ex. rewrite K1, Ep, (proj1 Ha) in Ex. cbn [bind] in Ex.
  assert (HN : is_rns ms L true (ensure_ntt p ms) m).
  { unfold ensure_ntt. rewrite (proj1 (proj2 Hp)). destruct ntt; [exists p; auto|apply (rns_to_ntt_is k L ms OK p m Hp)]. }
  destruct HN as (q & Eq & Hq). rewrite Eq in Ex. cbn [bind] in Ex.
  destruct (rns_sample_error R (Z.of_nat L) (rpk_var pk) ms s) as [[r s1]| |] eqn:E1; try discriminate. cbn [bind] in Ex.
  destruct (sample_err_is k L ms OK NE R HR _ s r s1 E1 HV) as (_ & fr & Br & Hr).
  destruct (rns_sample_error R (Z.of_nat L) (rpk_var pk) ms s1) as [[c0 s2]| |] eqn:E2; try discriminate. cbn [bind] in Ex.
  destruct (sample_err_is k L ms OK NE R HR _ _ _ _ E2 HV) as (_ & f0 & B0 & H0).
  destruct (rns_fused_mul_add c0 (rpk_b pk) r ms) as [d1| |] eqn:D1; try discriminate. cbn [bind] in Ex.
  destruct (rns_add d1 q ms) as [d2| |] eqn:D2; try discriminate. cbn [bind] in Ex.
  destruct (rns_sample_error R (Z.of_nat L) (rpk_var pk) ms s2) as [[c1 s3]| |] eqn:E3; try discriminate. cbn [bind] in Ex.
  destruct (sample_err_is k L ms OK NE R HR _ _ _ _ E3 HV) as (_ & f1 & B1 & H1).
  assert (ONE : forall c f, rns_is ms L true c f -> rns_is ms L true c (fun i => 1 * f i)).
  { intros c f H. apply (rns_ext k L ms OK _ _ _ _ H). intros. apply cong_eq. ring. }
  destruct (pub_phase k L ms OK K16 sk 1 be pk q m r fr c0 f0 c1 f1 PK Hq Hr (ONE _ _ H0) (ONE _ _ H1)) as (c0' & c0'' & c1' & P1 & P2 & P3 & e & Be & Hx).
  rewrite P1 in D1. injection D1 as <-. rewrite P2 in D2. injection D2 as <-. rewrite P3 in Ex. cbn [bind] in Ex. injection Ex as <- _.
  exists e, fr, f0, f1. auto.
Qed.

(** Messages beyond the encoder's limits, or any other failure of the encoder,
    are passed on. *)
Theorem C67_encrypt_errors :
  forall R pk E msgs s err, (en_bgv E msgs (rpk_ms pk) = Err err -> rpk_encrypt_bgv R pk E msgs s = Err err) /\
  (en_bfv E msgs (rpk_ms pk) = Err err -> rpk_encrypt_bfv R pk E msgs s = Err err).
Proof. intros R pk E msgs s err. split; intros H; unfold rpk_encrypt_bgv, rpk_encrypt_bfv; rewrite H; reflexivity. Qed.

Lemma padded_mod n t msgs : (length msgs <= n)%nat -> Forall (fun m => 0 <= m < t) msgs -> 0 < t ->
  map (fun i => nth i msgs 0 mod t) (seq 0 n) = padded n msgs.
Proof.
  intros Lm Fm T. assert (LP : length (padded n msgs) = n) by (unfold padded; rewrite app_length, repeat_length; lia).
  apply (nth_ext _ _ 0 0); [rewrite map_length, seq_length; congruence|]. rewrite map_length, seq_length. intros i Hi.
  rewrite (nth_indep _ 0 ((fun i => nth i msgs 0 mod t) 0%nat)) by (rewrite map_length, seq_length; exact Hi).
  rewrite (map_nth (fun i => nth i msgs 0 mod t)), seq_nth by exact Hi. cbn [Nat.add].
  assert (EN : nth i (padded n msgs) 0 = nth i msgs 0).
  { unfold padded. destruct (Nat.lt_ge_cases i (length msgs)); [apply app_nth1; assumption|].
    rewrite app_nth2, nth_repeat by assumption. symmetry. apply nth_overflow. assumption. }
  rewrite EN. apply Z.mod_small. destruct (Nat.lt_ge_cases i (length msgs)) as [Hm|Hm]; [rewrite Forall_forall in Fm; apply Fm, nth_In, Hm|rewrite nth_overflow by exact Hm; lia].
Qed.

(** The noisy plaintext of a BGV encryption, for both encoders below. *)
Lemma bgv_noise n t be b bs sk g e r e' e'' : 1 < t -> 0 <= be -> 0 <= b -> 0 <= bs -> bounded n bs sk ->
  (forall i, (i < n)%nat -> 2 * Z.abs (g i) <= t) -> bounded n be e -> bounded n b r -> bounded n b e' -> bounded n b e'' ->
  bounded n (t / 2 + t * pub_bound n be b bs) (fun i => g i + t * pub_error n sk e r e' e'' i).
Proof.
  intros T H1 H2 H3 Hs Hg He Hr He' He'' i Hi. pose proof (pub_error_bound n sk e r e' e'' be b bs H1 H2 H3 He Hr He' He'' Hs i Hi) as B.
  assert (T2 : Z.abs (g i) <= t / 2) by (apply Z.div_le_lower_bound; [lia|apply Hg, Hi]).
  pose proof (Z.abs_triangle (g i) (t * pub_error n sk e r e' e'' i)) as TR. rewrite Z.abs_mul, (Z.abs_eq t) in TR by lia.
  pose proof (Z.mul_le_mono_nonneg_l _ _ t ltac:(lia) B). lia.
Qed.

(** A BGV public-key encryption of coefficients decrypts to the messages. *)
Theorem C67_encrypt_decrypt_bgv :
  forall k log_n qs ps t c l D R key sk be bs pk msgs s x s', ctx_args k qs ps t -> ctx_made k log_n qs ps t c -> (l < length qs)%nat ->
  let n := (2 ^ Z.to_nat log_n)%nat in
  k <> 16 -> prng_ok R -> (forall q, In q qs -> Z.gcd q t = 1) ->
  key_is (at_level c l) (Z.to_nat log_n) key sk -> bounded n bs sk -> public_key (at_level c l) (Z.to_nat log_n) sk t be pk ->
  variance_fits (rpk_var pk) (at_level c l) ->
  (length msgs <= n)%nat -> Forall (fun m => 0 <= m < t) msgs ->
  bgv_decodable t (firstn (S l) qs) (t / 2 + t * pub_bound n be (2 * rpk_var pk) bs) ->
  rpk_encrypt_bgv R pk (coeff_encoder D c) msgs s = Ok (x, s') ->
  rsk_decrypt_bgv key (coeff_encoder D c) x = Ok (padded n msgs).
Proof.
  intros k log_n qs ps t c l D R key sk be bs pk msgs s x s' A M Hl n K16 HR G HK HS PK HV Lm Fm HB Ex.
  pose proof (ctx_t k log_n t qs ps c A M) as [Et Ht].
  pose proof (level_ok k log_n t qs ps c A M l) as OK. pose proof (level_ne k log_n t qs ps c A M l Hl) as NE.
  destruct (C61_encode k log_n qs ps t c l msgs A M Hl Lm) as (p & Ep & Hp).
  { eapply Forall_impl; [|exact Fm]. cbv beta. intros. lia. }
  assert (EN : en_t (coeff_encoder D c) = t) by exact Et. 
  destruct (C67_encrypt_bgv k _ (at_level c l) R sk be pk (coeff_encoder D c) msgs false p (fun i => centered t (nth i msgs 0)) s x s' OK NE K16 HR) as (e & r & e' & e'' & Be & Br & Be' & Be'' & Hx).
  { rewrite EN. exact PK. } { exact HV. } { rewrite EN. lia. } { exact Ep. } { exact Hp. } { exact Ex. }
  rewrite EN in Hx. pose proof (NttMath.pow2_gt0 (Z.to_nat log_n)) as N0. fold n in N0.
  assert (P1 : 0 <= be) by (specialize (Be 0%nat N0); lia). assert (P2 : 0 <= 2 * rpk_var pk) by (specialize (Br 0%nat N0); lia).
  assert (P3 : 0 <= bs) by (specialize (HS 0%nat N0); lia).
  rewrite (C61_decrypt k log_n qs ps t c l D key sk x 2 _ (t / 2 + t * pub_bound n be (2 * rpk_var pk) bs) A M Hl G HK ltac:(lia) Hx); [| |exact HB].
  - f_equal. fold n. rewrite <- (padded_mod n t msgs Lm Fm ltac:(lia)). apply map_ext. intros i.
    apply cong_to_mod; [lia|]. destruct (centered_cong t (nth i msgs 0)) as [y Ey].
    exists (y + pub_error n sk e r e' e'' i). fold n. rewrite Z.mul_add_distr_r, <- Ey. ring.
  - apply bgv_noise; try assumption; [lia|]. intros i _. pose proof (centered_fits t (nth i msgs 0) ltac:(lia)) as F. unfold fits in F. lia.
Qed.

(** The same with the finite field encoder. *)
Theorem C67_encrypt_decrypt_bgv_slots :
  forall k log_n qs ps t c e l D R key sk be bs pk msgs s x s', encoder_for k log_n qs ps t c e -> (l < length qs)%nat ->
  let n := (2 ^ Z.to_nat log_n)%nat in
  k <> 16 -> prng_ok R -> (forall q, In q qs -> q <> t) ->
  key_is (at_level c l) (Z.to_nat log_n) key sk -> bounded n bs sk -> public_key (at_level c l) (Z.to_nat log_n) sk t be pk ->
  variance_fits (rpk_var pk) (at_level c l) ->
  (length msgs <= n)%nat -> Forall (fun m => 0 <= m < t) msgs ->
  bgv_decodable t (firstn (S l) qs) (t / 2 + t * pub_bound n be (2 * rpk_var pk) bs) ->
  rpk_encrypt_bgv R pk (field_encoder D e) msgs s = Ok (x, s') ->
  rsk_decrypt_bgv key (field_encoder D e) x = Ok (padded n msgs).
Proof.
  intros k log_n qs ps t c e0 l D R key sk be bs pk msgs s x s' F Hl n K16 HR N HK HS PK HV Lm Fm HB Ex.
  destruct (enc_parts _ _ _ _ _ _ _ F) as (A & M & PT & EC & HL & T & RT & _).
  pose proof (ctx_t k log_n t qs ps c A M) as [Et Ht].
  pose proof (level_ok k log_n t qs ps c A M l) as OK. pose proof (level_ne k log_n t qs ps c A M l Hl) as NE.
  destruct (C69_encode_bgv k log_n qs ps t c e0 l msgs F Hl Lm) as (g & (p & Ep & Hp) & Gb & Gs).
  { eapply Forall_impl; [|exact Fm]. cbv beta. intros. lia. }
  assert (EN : en_t (field_encoder D e0) = t) by (cbn [field_encoder en_t]; rewrite EC; exact Et).
  destruct (C67_encrypt_bgv k _ (at_level c l) R sk be pk (field_encoder D e0) msgs true p g s x s' OK NE K16 HR) as (e & r & e' & e'' & Be & Br & Be' & Be'' & Hx).
  { rewrite EN. exact PK. } { exact HV. } { rewrite EN. lia. } { exact Ep. } { exact Hp. } { exact Ex. }
  rewrite EN in Hx. pose proof (NttMath.pow2_gt0 (Z.to_nat log_n)) as N0. fold n in N0.
  assert (P1 : 0 <= be) by (specialize (Be 0%nat N0); lia). assert (P2 : 0 <= 2 * rpk_var pk) by (specialize (Br 0%nat N0); lia).
  assert (P3 : 0 <= bs) by (specialize (HS 0%nat N0); lia).
  rewrite (C69_decrypt_bgv k log_n qs ps t c e0 l D key sk x 2 _ (t / 2 + t * pub_bound n be (2 * rpk_var pk) bs) F Hl N HK ltac:(lia) Hx); [| |exact HB].
  - f_equal. fold n. rewrite <- (padded_mod n t msgs Lm Fm ltac:(lia)). apply map_ext_in. intros i Hi. apply in_seq in Hi. unfold n in Hi.
    rewrite <- (Gs i ltac:(lia)). apply (slot_ext _ HL t _ ltac:(lia)). intros j Hj. exists (pub_error n sk e r e' e'' j). fold n. ring.
  - apply bgv_noise; try assumption. lia.
Qed.

(** A BFV public-key encryption of coefficients decrypts to the messages. *)
Theorem C67_encrypt_decrypt_bfv :
  forall k log_n qs ps t c D val eps R key sk be bs pk msgs s x s', ctx_args k qs ps t -> ctx_made_bfv k log_n qs ps t c -> (0 < length qs)%nat ->
  let n := (2 ^ Z.to_nat log_n)%nat in
  k <> 16 -> prng_ok R -> (forall q, In q qs -> Z.gcd q t = 1) -> float_model D val eps ->
  key_is (rc_qs c) (Z.to_nat log_n) key sk -> bounded n bs sk -> public_key (rc_qs c) (Z.to_nat log_n) sk 1 be pk ->
  variance_fits (rpk_var pk) (rc_qs c) ->
  (length msgs <= n)%nat -> Forall (fun m => 0 <= m < t) msgs ->
  bfv_decodable k eps qs (t + t * pub_bound n be (2 * rpk_var pk) bs) ->
  rpk_encrypt_bfv R pk (coeff_encoder D c) msgs s = Ok (x, s') ->
  rsk_decrypt_bfv key (coeff_encoder D c) x = Ok (padded n msgs).
Proof.
  intros k log_n qs ps t c D val eps R key sk be bs pk msgs s x s' A M Hq n K16 HR G FM HK HS PK HV Lm Fm HB Ex.
  pose proof (bfv_made _ _ _ _ _ _ M) as M'.
  pose proof (ctx_t k log_n t qs ps c A M') as [Et Ht]. destruct (ctx_qs_ok k log_n t qs ps c A M') as (OK & Mq & DI).
  pose proof (full_level k log_n t qs ps c A M Hq) as FL.
  assert (NE : rc_qs c <> []) by (rewrite FL; apply (level_ne k log_n t qs ps c A M'); lia).
  destruct (C62_encode k log_n qs ps t c msgs A M G Hq Lm) as (g & (p & Ep & Hp) & Hg).
  { eapply Forall_impl; [|exact Fm]. cbv beta. intros. lia. }
  destruct (C67_encrypt_bfv k _ (rc_qs c) R sk be pk (coeff_encoder D c) msgs true p g s x s' OK NE K16 HR PK HV) as (e & r & e' & e'' & Be & Br & Be' & Be'' & Hx).
  { exact Ep. } { exact Hp. } { exact Ex. }
  pose proof (NttMath.pow2_gt0 (Z.to_nat log_n)) as N0. fold n in N0.
  assert (P1 : 0 <= be) by (specialize (Be 0%nat N0); lia). assert (P2 : 0 <= 2 * rpk_var pk) by (specialize (Br 0%nat N0); lia).
  assert (P3 : 0 <= bs) by (specialize (HS 0%nat N0); lia).
  set (l := (length qs - 1)%nat) in *. assert (Hl' : (l < length qs)%nat) by (unfold l; lia).
  assert (FQ : firstn (S l) qs = qs) by (unfold l; replace (S (length qs - 1)) with (length qs) by lia; apply firstn_all).
  rewrite FL in HK, Hx.
  rewrite (C62_decrypt k log_n qs ps t c l D val eps key sk x 2 _ (fun i => nth i msgs 0) (t + t * pub_bound n be (2 * rpk_var pk) bs) A M Hl' G FM HK ltac:(lia) Hx); [| |rewrite FQ; exact HB].
  - f_equal. apply padded_mod; [exact Lm|exact Fm|lia].
  - rewrite FQ. intros i Hi. cbv beta. specialize (Hg i Hi). pose proof (pub_error_bound n sk e r e' e'' be _ bs P1 P2 P3 Be Br Be' Be'' HS i Hi) as B. fold n.
    replace (t * (g i + 1 * pub_error n sk e r e' e'' i) - prodz qs * nth i msgs 0) with ((t * g i - prodz qs * nth i msgs 0) + t * pub_error n sk e r e' e'' i) by ring.
    pose proof (Z.abs_triangle (t * g i - prodz qs * nth i msgs 0) (t * pub_error n sk e r e' e'' i)) as TR. rewrite (Z.abs_mul t), (Z.abs_eq t) in TR by lia.
    pose proof (Z.mul_le_mono_nonneg_l _ _ t ltac:(lia) B). lia.
Qed.

(** Degree 8, primes 97, 193 and 257, plaintext modulus 5, variance 1. The
    toy generators start from the first byte of the seed. *)
Example C67_example :
  bgv_decodable 5 [97; 193; 257] (5 / 2 + 5 * pub_bound 8 (2 * 1) (2 * 1) (2 * 1)) /\
  bfv_decodable 32 (1 # 2 ^ 53) [97; 193; 257] (5 + 5 * pub_bound 8 (2 * 1) (2 * 1) (2 * 1)) /\
  (do! c <- ctx_create_bfv 32 3 [97; 193; 257] [] 5;
   do! ' (key, s) <- rsk_sample toy 3 1 (rc_qs c) 12345;
   do! pk <- rpk_create toys 200 key 1 1 5 [77] [44];
   do! ' (x, s) <- rpk_encrypt_bgv toy pk (coeff_encoder exact_dops c) [1; 4; 0; 3; 2] s;
   do! m <- rsk_decrypt_bgv key (coeff_encoder exact_dops c) x;
   do! pk <- rpk_create toys 200 key 1 2 1 [78] [45];
   do! ' (x, s) <- rpk_encrypt_bfv toy pk (coeff_encoder exact_dops c) [1; 4; 0; 3; 2] s;
   do! m' <- rsk_decrypt_bfv key (coeff_encoder exact_dops c) x; Ok (m, m')) = Ok ([1; 4; 0; 3; 2; 0; 0; 0], [1; 4; 0; 3; 2; 0; 0; 0]).
Proof. split; [vm_compute; split; [discriminate|reflexivity]|]. split; [vm_compute; repeat split; discriminate|vm_compute; reflexivity]. Qed.

Print Assumptions C67_create.
Print Assumptions C67_create_errors.
Print Assumptions C67_encrypt_bgv.
Print Assumptions C67_encrypt_bfv.
Print Assumptions C67_encrypt_errors.
Print Assumptions C67_encrypt_decrypt_bgv.
Print Assumptions C67_encrypt_decrypt_bgv_slots.
Print Assumptions C67_encrypt_decrypt_bfv.
