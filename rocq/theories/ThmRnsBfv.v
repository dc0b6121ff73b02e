(** C62: BFV encoding of coefficients, decoding and decryption. *)
From Coq Require Import Znumtheory QArith Lia.
From Verif Require Import Base FinSum PolySpec Ring NegRing SymSpec Montgomery MontBatch Spec Prng Sampling SampleSpec ThmSymEnc RnsPoly RnsSpec CrtMath RnsSub RnsProofs RnsBasis RnsFloat
  RnsCtx RnsCtxSpec RnsCtxProofs RnsCtxFacts ThmRnsCtx RnsCt RnsCtSpec RnsCtProofs RnsEncode RnsEncodeSpec RnsKey RnsKeySpec RnsKeyProofs ThmRnsKey RnsDecode RnsScaleOne RnsDecodeBfv.
Local Open Scope Z_scope.

(** EncodeBfv over all main primes: coefficient i is Q m_i / t, rounded up. *)
Theorem C62_encode :
  forall k log_n qs ps t c msgs, ctx_args k qs ps t -> ctx_made_bfv k log_n qs ps t c -> (forall q, In q qs -> Z.gcd q t = 1) ->
  (0 < length qs)%nat -> let n := (2 ^ Z.to_nat log_n)%nat in
  (length msgs <= n)%nat -> Forall (fun x => 0 <= x < 2 ^ k) msgs ->
  exists g, is_rns (rc_qs c) (Z.to_nat log_n) true (coeff_encode_bfv c msgs (rc_qs c) true) g /\
  forall i, (i < n)%nat -> 0 <= t * g i - prodz qs * nth i msgs 0 < t.
Proof. intros k log_n qs ps t c msgs A M G Hl n. apply (bfv_encode_ok k log_n t qs ps c A M G msgs Hl). Qed.

(** Without scaling: the messages modulo t, at any level. *)
Theorem C62_encode_unscaled :
  forall k log_n qs ps t c l msgs, ctx_args k qs ps t -> ctx_made_bfv k log_n qs ps t c -> (forall q, In q qs -> Z.gcd q t = 1) ->
  (l < length qs)%nat -> let n := (2 ^ Z.to_nat log_n)%nat in
  (length msgs <= n)%nat -> Forall (fun x => 0 <= x < 2 ^ k) msgs ->
  is_rns (at_level c l) (Z.to_nat log_n) true (coeff_encode_bfv c msgs (at_level c l) false) (fun i => nth i msgs 0 mod t).
Proof. intros k log_n qs ps t c l msgs A M G Hl n. apply (bfv_encode_unscaled k log_n t qs ps c A M G l msgs Hl). Qed.

(** With scaling only the full list of main primes is accepted. *)
Theorem C62_encode_lower_level :
  forall k log_n qs ps t c l msgs, ctx_args k qs ps t -> ctx_made_bfv k log_n qs ps t c -> (forall q, In q qs -> Z.gcd q t = 1) ->
  (S l < length qs)%nat -> (length msgs <= 2 ^ Z.to_nat log_n)%nat -> Forall (fun x => 0 <= x < 2 ^ k) msgs ->
  coeff_encode_bfv c msgs (at_level c l) true = Err InvalidArgument.
Proof. intros k log_n qs ps t c l msgs A M G Hl. apply (bfv_encode_low k log_n t qs ps c A M G l msgs Hl). Qed.

Theorem C62_encode_errors :
  forall k log_n qs ps t c msgs ms scaled, ctx_args k qs ps t -> ctx_made_bfv k log_n qs ps t c -> (0 < length qs)%nat ->
  (2 ^ Z.to_nat log_n < length msgs)%nat \/ ms = [] -> coeff_encode_bfv c msgs ms scaled = Err InvalidArgument.
Proof.
  intros k log_n qs ps t c msgs ms scaled A M Hl H. unfold coeff_encode_bfv.
  rewrite (ctx_shl k log_n t qs ps c A (bfv_made _ _ _ _ _ _ M)) by lia. cbn [bind].
  destruct (Nat.ltb_spec (2 ^ Z.to_nat log_n) (length msgs)); [reflexivity|]. destruct H as [H| ->]; [lia|reflexivity].
Qed.

(** DecodeBfv at level l, with product Q of the primes: the integers m_i modulo
    t, when t w_i is close enough to Q m_i. *)
Theorem C62_decode :
  forall k log_n qs ps t c l D val eps ntt a w m B, ctx_args k qs ps t -> ctx_made_bfv k log_n qs ps t c -> (l < length qs)%nat ->
  let n := (2 ^ Z.to_nat log_n)%nat in
  (forall q, In q qs -> Z.gcd q t = 1) -> float_model D val eps -> rns_is (at_level c l) (Z.to_nat log_n) ntt a w ->
  bounded n B (fun i => t * w i - prodz (firstn (S l) qs) * m i) -> bfv_decodable k eps (firstn (S l) qs) B ->
  coeff_decode_bfv D c a (at_level c l) = Ok (map (fun i => m i mod t) (seq 0 n)).
Proof.
  intros k log_n qs ps t c l D val eps ntt a w m B A M Hl n G FM Ha HB (N1 & N2 & N3 & N4).
  apply (bfv_decode_ok k log_n t qs ps c A M G D val eps l ntt a w m FM Hl Ha). intros i Hi.
  split; [exact N1|]. split; [exact N2|]. split; [exact N3|]. eapply Qle_lt_trans; [|exact N4]. rewrite <- Zle_Qle. apply (HB i Hi).
Qed.

Theorem C62_decode_errors :
  forall D c a ms, length ms <> length (rp_vs a) \/ rc_pt c = None -> coeff_decode_bfv D c a ms = Err InvalidArgument.
Proof.
  intros D c a ms H. unfold coeff_decode_bfv. destruct (Nat.eq_dec (length ms) (length (rp_vs a))) as [E|E].
  - destruct H as [H|H]; [contradiction|]. rewrite same_len_eq by exact E. rewrite H. reflexivity.
  - rewrite same_len_neq by exact E. reflexivity.
Qed.

(** Decryption of any ciphertext with phase w. *)
Theorem C62_decrypt :
  forall k log_n qs ps t c l D val eps key sk x len w m B, ctx_args k qs ps t -> ctx_made_bfv k log_n qs ps t c -> (l < length qs)%nat ->
  let n := (2 ^ Z.to_nat log_n)%nat in
  (forall q, In q qs -> Z.gcd q t = 1) -> float_model D val eps -> key_is (at_level c l) (Z.to_nat log_n) key sk -> (0 < len)%nat ->
  ciphertext (at_level c l) (Z.to_nat log_n) sk len 1 x w ->
  bounded n B (fun i => t * w i - prodz (firstn (S l) qs) * m i) -> bfv_decodable k eps (firstn (S l) qs) B ->
  rsk_decrypt_bfv key (coeff_encoder D c) x = Ok (map (fun i => m i mod t) (seq 0 n)).
Proof.
  intros k log_n qs ps t c l D val eps key sk x len w m B A M Hl n G FM HK HL Hx HB HD.
  pose proof (bfv_made _ _ _ _ _ _ M) as M'.
  destruct (C59_decrypt k _ _ key sk (coeff_encoder D c) x len w (level_ok k log_n t qs ps c A M' l) (level_ne k log_n t qs ps c A M' l Hl) HK HL Hx) as (a & Ha & _ & _ & E & _).
  rewrite E. cbn [coeff_encoder en_unbfv]. apply (C62_decode k log_n qs ps t c l D val eps true a w m B); assumption.
Qed.

(** A fresh encryption decrypts to the messages, followed by zeros. *)
Theorem C62_encrypt_decrypt :
  forall k log_n qs ps t c D val eps R R' fuel key sk msgs s r x s' r', ctx_args k qs ps t -> ctx_made_bfv k log_n qs ps t c -> (0 < length qs)%nat ->
  let n := (2 ^ Z.to_nat log_n)%nat in
  k <> 16 -> prng_ok R -> (forall q, In q qs -> Z.gcd q t = 1) -> float_model D val eps ->
  key_is (rc_qs c) (Z.to_nat log_n) key sk -> variance_fits (rsk_var key) (rc_qs c) ->
  (length msgs <= n)%nat -> Forall (fun m => 0 <= m < t) msgs ->
  bfv_decodable k eps qs (t + t * (2 * rsk_var key)) ->
  rsk_encrypt_bfv R R' fuel key (coeff_encoder D c) msgs s r = Ok (x, s', r') ->
  rsk_decrypt_bfv key (coeff_encoder D c) x = Ok (padded n msgs).
Proof.
  intros k log_n qs ps t c D val eps R R' fuel key sk msgs s r x s' r' A M Hl n K16 HR G FM HK HV Lm Fm HB Ex.
  pose proof (bfv_made _ _ _ _ _ _ M) as M'.
  pose proof (ctx_t k log_n t qs ps c A M') as [Et Ht]. destruct (ctx_qs_ok k log_n t qs ps c A M') as (OK & Mq & DI).
  pose proof (full_level k log_n t qs ps c A M Hl) as FL.
  assert (NE : rc_qs c <> []) by (rewrite FL; apply (level_ne k log_n t qs ps c A M'); lia).
  destruct (C62_encode k log_n qs ps t c msgs A M G Hl Lm) as (g & (p & Ep & Hp) & Hg).
  { eapply Forall_impl; [|exact Fm]. cbv beta. intros. lia. }
  destruct (C59_encrypt_bfv k _ (rc_qs c) R R' fuel key sk (coeff_encoder D c) msgs true p g s r x s' r' OK NE DI K16 HR HK HV) as (a & e & _ & Be & Hx & _).
  { exact Ep. } { exact Hp. } { exact Ex. }
  set (l := (length qs - 1)%nat) in *. assert (Hl' : (l < length qs)%nat) by (unfold l; lia).
  assert (FQ : firstn (S l) qs = qs) by (unfold l; replace (S (length qs - 1)) with (length qs) by lia; apply firstn_all).
  assert (V0 : 0 <= rsk_var key).
  { specialize (Be 0%nat (NttMath.pow2_gt0 _)). lia. }
  rewrite FL in HK, Hx.
  rewrite (C62_decrypt k log_n qs ps t c l D val eps key sk x 2 _ (fun i => nth i msgs 0) (t + t * (2 * rsk_var key)) A M Hl' G FM HK ltac:(lia) Hx); [| |rewrite FQ; exact HB].
  - f_equal. fold n. assert (LP : length (padded n msgs) = n) by (unfold padded; rewrite app_length, repeat_length; lia).
    apply (nth_ext _ _ 0 0); [rewrite map_length, seq_length; congruence|]. rewrite map_length, seq_length. intros i Hi.
    rewrite (nth_indep _ 0 ((fun i => nth i msgs 0 mod t) 0%nat)) by (rewrite map_length, seq_length; exact Hi).
    rewrite (map_nth (fun i => nth i msgs 0 mod t)), seq_nth by exact Hi. cbn [Nat.add].
    assert (EN : nth i (padded n msgs) 0 = nth i msgs 0).
    { unfold padded. destruct (Nat.lt_ge_cases i (length msgs)); [apply app_nth1; assumption|].
      rewrite app_nth2, nth_repeat by assumption. symmetry. apply nth_overflow. assumption. }
    rewrite EN. apply Z.mod_small. destruct (Nat.lt_ge_cases i (length msgs)) as [Hm|Hm]; [rewrite Forall_forall in Fm; apply Fm, nth_In, Hm|rewrite nth_overflow by exact Hm; lia].
  - rewrite FQ. intros i Hi. cbv beta. specialize (Be i Hi). specialize (Hg i Hi).
    replace (t * (g i + e i) - prodz qs * nth i msgs 0) with ((t * g i - prodz qs * nth i msgs 0) + t * e i) by ring.
    pose proof (Z.abs_triangle (t * g i - prodz qs * nth i msgs 0) (t * e i)) as T. rewrite (Z.abs_mul t), (Z.abs_eq t) in T by lia.
    pose proof (Z.mul_le_mono_nonneg_l _ _ t ltac:(lia) Be). lia.
Qed.

(** Degree 8, primes 97 and 193, plaintext modulus 15 (not a prime), variance 1. *)
Definition ctx15 : result rctx := ctx_create_bfv 32 3 [97; 193] [] 15.
Example C62_example :
  (exists c, ctx15 = Ok c) /\ bfv_decodable 32 (1 # 2 ^ 53) [97; 193] (15 + 15 * (2 * 1)) /\
  (do! c <- ctx15;
   do! ' (key, s) <- rsk_sample toy 3 1 (rc_qs c) 12345;
   do! ' (x, s, r) <- rsk_encrypt_bfv toy toy 200 key (coeff_encoder exact_dops c) [1; 14; 0; 3; 12] s 99;
   rsk_decrypt_bfv key (coeff_encoder exact_dops c) x) = Ok [1; 14; 0; 3; 12; 0; 0; 0].
Proof. split; [eexists; vm_compute; reflexivity|]. split; [vm_compute; repeat split; discriminate|vm_compute; reflexivity]. Qed.

Print Assumptions C62_encode.
Print Assumptions C62_encode_unscaled.
Print Assumptions C62_encode_lower_level.
Print Assumptions C62_encode_errors.
Print Assumptions C62_decode.
Print Assumptions C62_decode_errors.
Print Assumptions C62_decrypt.
Print Assumptions C62_encrypt_decrypt.
