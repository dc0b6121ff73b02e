(** C66: RNS relinearization keys. *)
From Coq Require Import Setoid Znumtheory QArith Lia.
From Verif Require Import Base FinSum PolySpec Ring NegRing SymSpec Montgomery MontBatch Spec Prng Sampling SampleSpec Relin ThmSymEnc ThmRelin RnsPoly RnsSpec CrtMath RnsSub RnsProofs RnsBasis RnsFloat RnsLazy
  RnsCtx RnsCtxSpec RnsCtxProofs RnsCtxFacts ThmRnsCtx RnsCt RnsCtSpec RnsCtProofs ThmRnsCt RnsEncode RnsEncodeSpec RnsKey RnsKeySpec RnsKeyProofs ThmRnsKey RnsDecode RnsScaleOne RnsDecodeBfv RnsExample
  ThmRnsBgv ThmRnsBfv FieldSpec FieldMath FieldProofs FieldCtx ThmField RnsGadget RnsGadgetSpec RnsGadgetProofs RnsSwitchSpec RnsSwitchProofs RnsSwitchProofs2.
Local Open Scope Z_scope.

(** Create: for every i from 2 to the degree the key encrypts the multiples
    w s^i, for the components w of the gadget vector, under s. *)
Theorem C66_create :
  forall k L ms F fuel key sk degree v g ty t seed seed_e rr B ws, moduli_ok k L ms -> ms <> [] -> distinct ms -> k <> 16 ->
  key_is ms L key sk -> prng_ok (gf_prng F ty) -> variance_fits v ms -> 0 <= t < 2 ^ k -> gadget_for ms L B g ws ->
  rrelin_create F fuel key degree v g ty t seed seed_e = Ok rr ->
  relin_key ms L sk t (2 * v) B ws rr /\ rr_deg rr = degree /\ rr_g rr = g /\ rr_seed rr = seed /\ rr_type rr = ty /\ 0 < v.
Proof.
  intros k L ms F fuel key sk degree v g ty t seed seed_e rr B ws OK NE DI K16 HK HR HV Ht HG E.
  exact (relin_create_ok k L ms OK NE K16 F fuel key sk degree v g ty t seed seed_e rr B ws DI HK HR HV Ht HG E).
Qed.

(** A degree below 2, an unknown generator and an empty gadget are refused; so
    is a variance that is not positive, once the pads have been sampled. *)
Theorem C66_create_errors :
  forall F fuel key degree v g ty t seed seed_e,
  (degree <= 1 \/ known_type ty = false \/ rg_dimension g = 0%nat -> rrelin_create F fuel key degree v g ty t seed seed_e = Err InvalidArgument) /\
  (forall pads, v <= 0 -> relin_create_pads F pads key degree v g seed ty t seed_e = Err InvalidArgument).
Proof.
  intros F fuel key degree v g ty t seed seed_e. split.
  - intros H. unfold rrelin_create. destruct (Z.leb_spec degree 1); [reflexivity|]. destruct (known_type ty); [|reflexivity]. cbn [negb].
    destruct H as [H|[H|H]]; [lia|discriminate|]. rewrite H. reflexivity.
  - intros pads H. unfold relin_create_pads. cbv zeta. destruct (Z.leb_spec v 0); [reflexivity|lia].
Qed.

(** ApplyTo, for ciphertexts of two or three components, and for longer ones
    whose degree is the gadget's dimension: the result has two components and
    phase w + t E. *)
Theorem C66_apply :
  forall k L ms s t be B ws rr x w len, moduli_ok k L ms -> k <> 16 -> 0 <= B -> 0 <= be ->
  relin_key ms L s t be B ws rr -> ciphertext ms L s len 1 x w -> (2 <= len)%nat -> Z.of_nat len - 1 <= rr_deg rr ->
  (len <= 3 \/ len = S (length ws))%nat ->
  exists E, bounded (2 ^ L) (Z.of_nat (len - 2) * switch_bound (2 ^ L) (length ws) B be) E /\
    gives ms L s 2 1 (rrelin_apply rr x) (fun i => w i + t * E i).
Proof.
  intros k L ms s t be B ws rr x w len OK K16 HB Hbe HR Hx L2 LD LC.
  exact (relin_apply_ok k L ms OK K16 s t be B ws rr x w len HB Hbe HR Hx L2 LD LC).
Qed.

(** The condition on the degree is needed: the code finds the key for s^i at
    (i - 2) times the degree of the ciphertext, instead of (i - 2) times the
    gadget's dimension. With a gadget of one or two components, relinearizing a
    ciphertext of degree 3 reads past the end of the key. *)
Theorem C66_index_out_of_range_refuted :
  forall k L ms s t be B ws rr x w, moduli_ok k L ms -> k <> 16 ->
  relin_key ms L s t be B ws rr -> rr_deg rr = 3 -> (1 <= length ws <= 2)%nat -> ciphertext ms L s 4 1 x w ->
  rrelin_apply rr x = UB.
Proof. intros k L ms s t be B ws rr x w OK K16 HR ED LW Hx. exact (relin_short k L ms OK K16 s t be B ws rr x w HR ED LW Hx). Qed.

Theorem C66_apply_errors :
  forall rr x, rr_deg rr < Z.of_nat (length (rt_c x)) - 1 \/ length (rt_ms x) <> length (rr_ms rr) \/ rt_pow x <> 1 ->
  rrelin_apply rr x = Err InvalidArgument.
Proof.
  intros rr x H. unfold rrelin_apply. destruct (Z.ltb_spec (rr_deg rr) (Z.of_nat (length (rt_c x)) - 1)); [reflexivity|].
  destruct (same_len (rt_ms x) (rr_ms rr)) eqn:E; [|reflexivity]. apply Nat.eqb_eq in E. cbn [negb].
  destruct (Z.eqb_spec (rt_pow x) 1); [|reflexivity]. destruct H as [H|[H|H]]; [lia|contradiction|contradiction].
Qed.

(** Multiply two BGV ciphertexts, relinearize, decrypt: the products of the
    slots. *)
Theorem C66_multiply_relinearize_bgv :
  forall k log_n qs ps t c e l D key sk be B ws rr x y w v Bw, encoder_for k log_n qs ps t c e -> (l < length qs)%nat -> k <> 16 ->
  let n := (2 ^ Z.to_nat log_n)%nat in let slot := slot_value t (field_root e) n in
  (forall q, In q qs -> q <> t) -> key_is (at_level c l) (Z.to_nat log_n) key sk -> 0 <= B -> 0 <= be ->
  relin_key (at_level c l) (Z.to_nat log_n) sk t be B ws rr ->
  ciphertext (at_level c l) (Z.to_nat log_n) sk 2 1 x w -> ciphertext (at_level c l) (Z.to_nat log_n) sk 2 1 y v ->
  bounded n Bw (negacyclic n w v) -> bgv_decodable t (firstn (S l) qs) (Bw + t * switch_bound n (length ws) B be) ->
  exists z z', rct_mul x y = Ok z /\ rrelin_apply rr z = Ok z' /\ length (rt_c z') = 2%nat /\
  rsk_decrypt_bgv key (field_encoder D e) z' = Ok (map (fun i => (slot w i * slot v i) mod t) (seq 0 n)).
Proof.
  intros k log_n qs ps t c e l D key sk be B ws rr x y w v Bw F Hl K16 n slot N HK HB Hbe HR Hx Hy Bb HD.
  destruct (enc_parts _ _ _ _ _ _ _ F) as (A & M & PT & EC & HL & T & RT & _).
  pose proof (level_ok k log_n t qs ps c A M l) as OK. pose proof (level_ne k log_n t qs ps c A M l Hl) as NE.
  destruct (C58_mul k _ _ sk 2 2 1 x y w v K16 OK NE ltac:(lia) Hx Hy) as (z & Ez & Hz). cbn [Nat.add Nat.sub] in Hz.
  destruct (C66_apply k _ _ sk t be B ws rr z _ 3 OK K16 HB Hbe HR Hz ltac:(lia)) as (E & BE & z' & Ez' & Hz').
  { pose proof HR as (_ & _ & R & _). lia. } { lia. }
  exists z, z'. split; [exact Ez|]. split; [exact Ez'|]. split; [apply Hz'|].
  rewrite (C69_decrypt_bgv k log_n qs ps t c e l D key sk z' 2 _ (Bw + t * switch_bound n (length ws) B be) F Hl N HK ltac:(lia) Hz'); [| |exact HD].
  - f_equal. apply map_ext_in. intros i Hi. apply in_seq in Hi. unfold slot.
    destruct (C69_slots k log_n qs ps t c e F w v i ltac:(lia)) as (_ & _ & MU & _). refine (eq_trans _ MU).
    apply (slot_ext _ HL t _ ltac:(lia)). intros j Hj. exists (E j). fold n. ring.
  - intros i Hi. cbv beta. specialize (BE i Hi). specialize (Bb i Hi). change (Z.of_nat (3 - 2)) with 1 in BE. rewrite Z.mul_1_l in BE. fold n. fold n in BE.
    pose proof (Z.abs_triangle (negacyclic n w v i) (t * E i)) as TR.
    rewrite (Z.abs_mul t), (Z.abs_eq t) in TR by lia. pose proof (Z.mul_le_mono_nonneg_l _ _ t ltac:(lia) BE). lia.
Qed.

(** Relinearizing a BFV ciphertext of three components leaves what it decrypts
    to unchanged. *)
Theorem C66_relinearize_bfv :
  forall k log_n qs ps t c l D val eps key sk be B ws rr x w m Bw, ctx_args k qs ps t -> ctx_made_bfv k log_n qs ps t c -> (l < length qs)%nat -> k <> 16 ->
  let n := (2 ^ Z.to_nat log_n)%nat in
  (forall q, In q qs -> Z.gcd q t = 1) -> float_model D val eps -> key_is (at_level c l) (Z.to_nat log_n) key sk -> 0 <= B -> 0 <= be ->
  relin_key (at_level c l) (Z.to_nat log_n) sk 1 be B ws rr -> ciphertext (at_level c l) (Z.to_nat log_n) sk 3 1 x w ->
  bounded n Bw (fun i => t * w i - prodz (firstn (S l) qs) * m i) -> bfv_decodable k eps (firstn (S l) qs) (Bw + t * switch_bound n (length ws) B be) ->
  exists z, rrelin_apply rr x = Ok z /\ length (rt_c z) = 2%nat /\
    rsk_decrypt_bfv key (coeff_encoder D c) x = Ok (map (fun i => m i mod t) (seq 0 n)) /\
    rsk_decrypt_bfv key (coeff_encoder D c) z = Ok (map (fun i => m i mod t) (seq 0 n)).
Proof.
  intros k log_n qs ps t c l D val eps key sk be B ws rr x w m Bw A M Hl K16 n G FM HK HB Hbe HR Hx Bb HD.
  pose proof (bfv_made _ _ _ _ _ _ M) as M'. pose proof (ctx_t k log_n t qs ps c A M') as [Et Ht].
  pose proof (level_ok k log_n t qs ps c A M' l) as OK. pose proof (level_ne k log_n t qs ps c A M' l Hl) as NE.
  destruct (C66_apply k _ _ sk 1 be B ws rr x _ 3 OK K16 HB Hbe HR Hx ltac:(lia)) as (E & BE & z & Ez & Hz).
  { pose proof HR as (_ & _ & R & _). lia. } { lia. }
  exists z. split; [exact Ez|]. split; [apply Hz|].
  assert (SB : 0 <= switch_bound n (length ws) B be) by (unfold switch_bound; apply Z.mul_nonneg_nonneg; [lia|]; apply Z.mul_nonneg_nonneg; [lia|]; apply Z.mul_nonneg_nonneg; lia).
  split.
  - apply (C62_decrypt k log_n qs ps t c l D val eps key sk x 3 w m (Bw + t * switch_bound n (length ws) B be) A M Hl G FM HK ltac:(lia) Hx); [|exact HD].
    intros i Hi. specialize (Bb i Hi). cbv beta in *. fold n. pose proof (Z.mul_nonneg_nonneg t (switch_bound n (length ws) B be)). lia.
  - apply (C62_decrypt k log_n qs ps t c l D val eps key sk z 2 _ m (Bw + t * switch_bound n (length ws) B be) A M Hl G FM HK ltac:(lia) Hz); [|exact HD].
    intros i Hi. cbv beta. specialize (BE i Hi). specialize (Bb i Hi). cbv beta in Bb. change (Z.of_nat (3 - 2)) with 1 in BE. rewrite Z.mul_1_l in BE. fold n. fold n in BE.
    replace (t * (w i + 1 * E i) - prodz (firstn (S l) qs) * m i) with ((t * w i - prodz (firstn (S l) qs) * m i) + t * E i) by ring.
    pose proof (Z.abs_triangle (t * w i - prodz (firstn (S l) qs) * m i) (t * E i)) as TR.
    rewrite (Z.abs_mul t), (Z.abs_eq t) in TR by lia. pose proof (Z.mul_le_mono_nonneg_l _ _ t ltac:(lia) BE). lia.
Qed.

(** n = 4, t = 17, q = 97, 193, 257, gadget of base 2^4 and dimension 7: the
    product of two ciphertexts, relinearized, decrypts to the products of the
    slots. *)
Local Notation setup := (
   do! c <- ctx_create_bfv_ff 32 2 [97; 193; 257] [] 17; do! e <- ff_create c;
   do! ' (key, s) <- rsk_sample toy 2 1 (rc_qs c) 12345;
   do! hats <- main_complements c 2; do! invs <- main_crt_factors c 2;
   do! g <- rgadget_create 2 [4; 4; 4] hats invs (rc_qs c); Ok (c, e, key, s, g)).

Example C66_example :
  bgv_decodable 17 [97; 193; 257] (4 * (17 / 2 + 17 * (2 * 1)) ^ 2 + 17 * switch_bound 4 7 15 (2 * 1)) /\
  (do! ' (c, e, key, s, g) <- setup;
   do! rr <- rrelin_create toys 200 key 2 1 g 1 17 [77] [78];
   do! ' (x, s) <- rsk_encrypt_bgv toy 200 key (field_encoder exact_dops e) [1; 14; 3; 12] s;
   do! ' (y, s) <- rsk_encrypt_bgv toy 200 key (field_encoder exact_dops e) [5; 2; 9; 4] s;
   do! z <- rct_mul x y; do! z <- rrelin_apply rr z;
   do! m <- rsk_decrypt_bgv key (field_encoder exact_dops e) z; Ok (length (rt_c z), m)) = Ok (2%nat, [5; 11; 10; 14]).
Proof. split; [vm_compute; split; [discriminate|reflexivity]|]. vm_compute. reflexivity. Qed.

(** With a key of degree 3 and the same gadget, the product of three
    ciphertexts decrypts correctly before relinearization. Relinearization
    succeeds, and the result decrypts to something else. *)
Theorem C66_index_wrong_result_refuted :
  (do! ' (c, e, key, s, g) <- setup;
   do! rr <- rrelin_create toys 200 key 3 1 g 1 3 [77] [78];
   do! c' <- ctx_create 32 2 [97; 193; 257] [] 3; let e' := coeff_encoder exact_dops c' in
   do! ' (x, s) <- rsk_encrypt_bgv toy 200 key e' [1; 1; 0; 1] s;
   do! ' (y, s) <- rsk_encrypt_bgv toy 200 key e' [0; 1] s;
   do! ' (z, s) <- rsk_encrypt_bgv toy 200 key e' [0; 0; 1] s;
   do! xy <- rct_mul x y; do! xyz <- rct_mul xy z; do! u <- rrelin_apply rr xyz;
   do! m <- rsk_decrypt_bgv key e' xyz; do! m' <- rsk_decrypt_bgv key e' u; Ok (length (rt_c u), m, m')) = Ok (2%nat, [2; 0; 2; 1], [1; 2; 2; 0]).
Proof. vm_compute. reflexivity. Qed.

Print Assumptions C66_create.
Print Assumptions C66_create_errors.
Print Assumptions C66_apply.
Print Assumptions C66_index_out_of_range_refuted.
Print Assumptions C66_apply_errors.
Print Assumptions C66_multiply_relinearize_bgv.
Print Assumptions C66_relinearize_bfv.
Print Assumptions C66_index_wrong_result_refuted.
