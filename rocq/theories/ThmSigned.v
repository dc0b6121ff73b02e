(** C89: signed messages. *)
From Coq Require Import Znumtheory QArith Lia.
From Verif Require Import Base FinSum PolySpec Ring NegRing SymSpec Montgomery MontBatch Spec Prng Sampling SampleSpec PolyProofs PrimeCheck ThmSymEnc ThmRelin
  RnsPoly RnsSpec CrtMath RnsSub RnsProofs RnsBasis RnsCtx RnsCtxSpec RnsCtxFacts ThmRnsCtx RnsCt RnsCtSpec RnsCtProofs ThmRnsCt RnsEncode RnsEncodeSpec RnsKey RnsKeySpec
  RnsKeyProofs ThmRnsKey RnsDecode RnsGadget RnsGadgetSpec ThmRnsGadget RnsSwitchSpec ThmRnsGalois ThmRnsRelin RnsPub RnsPubSpec ThmRnsPub RnsScaleOne RnsDecodeBfv RnsFloat RnsExample ThmRnsBgv ThmRnsBfv
  FieldSpec FieldMath FieldProofs FieldCtx ThmField RnsCircuitSpec RnsCircuitProofs ThmRnsCircuit RnsBfv RnsBfvSpec RnsCircuitBfvSpec ThmRnsCircuitBfv
  MontgomeryProofs SignedMsg SignedMsgSpec SignedMsgProofs.
Local Open Scope Z_scope.

(** the plaintext modulus of an encoder fits the word and is odd *)
Lemma enc_odd k log_n qs ps t c e : encoder_for k log_n qs ps t c e -> word_size k /\ 0 < t < 2 ^ k /\ Z.odd t = true.
Proof.
  intros F. destruct (enc_parts k log_n t qs ps c e F) as (A & _ & PT & _ & _ & T & _ & mt & O & Et & _). split; [apply A|]. split; [lia|].
  destruct O as [P _]. unfold modulus in Et. destruct P as (P1 & P2 & P3). pose proof (g_odd _ (proj1 (create_good k _ _ P1 P2 P3))) as H. rewrite Et in H. rewrite Zmod_odd in H. destruct (Z.odd t); [reflexivity|discriminate H].
Qed.

(** WrapSigned turns values of the range into the residues of [0, t) *)
Theorem C89_wrap :
  forall s k t msgs, signed_bits s -> word_size k -> 0 < t < 2 ^ k -> Forall (signed_value s) msgs -> Forall (fun x => - t <= x < t) msgs ->
  exists ms, wrap_signed s k t msgs = Ok ms /\ length ms = length msgs /\
  forall i, (i < length msgs)%nat -> 0 <= nth i ms 0 < t /\ (t | nth i ms 0 - nth i msgs 0).
Proof.
  intros s k t msgs S K T V X. exists (map (fun x => x mod t) msgs). split; [apply wrap_signed_spec; assumption|]. split; [apply map_length|].
  intros i Hi. rewrite (nth_indep _ 0 (0 mod t)) by (rewrite map_length; exact Hi). rewrite (map_nth (fun x => x mod t)).
  split; [apply Z.mod_pos_bound; lia|]. exists (- (nth i msgs 0 / t)). rewrite Z.mod_eq by lia. lia.
Qed.

(** UnwrapToSigned gives the representative in the range, for a signed type that
    holds t *)
Theorem C89_unwrap :
  forall s k t ms, signed_bits s -> word_size k -> Z.odd t = true -> 0 < t < 2 ^ k -> t < 2 ^ (s - 1) -> Forall (fun m => 0 <= m < t) ms ->
  exists msgs, unwrap_signed s k t ms = Ok msgs /\ length msgs = length ms /\
  forall i, (i < length ms)%nat -> in_range t (nth i msgs 0) /\ (t | nth i ms 0 - nth i msgs 0).
Proof.
  intros s k t ms S K O T TS X. eexists. split; [apply unwrap_signed_spec; eassumption|]. split; [apply map_length|].
  intros i Hi. set (g := fun m => if t / 2 <? m then m - t else m). rewrite (nth_indep _ 0 (g 0)) by (rewrite map_length; exact Hi). rewrite (map_nth g).
  rewrite Forall_forall in X. pose proof (X _ (nth_In ms 0 Hi)) as R. cbv beta in R. unfold g, in_range.
  rewrite Z.odd_spec in O. destruct O as [h ->]. replace ((2 * h + 1) / 2) with h by (rewrite Z.mul_comm, Z.div_add_l by lia; cbn; lia).
  destruct (Z.ltb_spec h (nth i ms 0)); split; try lia; [exists 1|exists 0]; lia.
Qed.

(** and the two are inverse to each other *)
Theorem C89_round_trip :
  forall s k t msgs, signed_bits s -> word_size k -> Z.odd t = true -> 0 < t < 2 ^ k -> t < 2 ^ (s - 1) -> Forall (in_range t) msgs ->
  exists ms, wrap_signed s k t msgs = Ok ms /\ unwrap_signed s k t ms = Ok msgs.
Proof.
  intros s k t msgs S K O T TS X. exists (map (fun x => x mod t) msgs). rewrite Forall_forall in X. split.
  - apply wrap_signed_spec; try assumption; apply Forall_forall; intros x Hx; pose proof (X x Hx) as R; unfold in_range in R; unfold signed_value; lia.
  - rewrite unwrap_signed_spec; try assumption.
    + f_equal. rewrite map_map. transitivity (map (fun x => x) msgs); [|apply map_id]. apply map_ext_in. intros x Hx. apply centre_back; auto; lia.
    + apply Forall_forall. intros m Hm. apply in_map_iff in Hm. destruct Hm as (x & <- & _). apply Z.mod_pos_bound. lia.
Qed.

(** the values unwrapped after a computation *)
Lemma unwrap_values s k t n v : signed_bits s -> word_size k -> Z.odd t = true -> 0 < t < 2 ^ k -> t < 2 ^ (s - 1) ->
  (forall i, (i < n)%nat -> in_range t (v i)) -> unwrap_signed s k t (map (fun i => v i mod t) (seq 0 n)) = Ok (map v (seq 0 n)).
Proof.
  intros S K O T TS R. rewrite unwrap_signed_spec; try assumption.
  - f_equal. rewrite map_map. apply map_ext_in. intros i Hi. apply in_seq in Hi. apply centre_back; auto; try lia. apply R. lia.
  - apply Forall_forall. intros m Hm. apply in_map_iff in Hm. destruct Hm as (x & <- & _). apply Z.mod_pos_bound. lia.
Qed.

Lemma wrapped_messages s k t msgs m : signed_bits s -> word_size k -> 0 < t < 2 ^ k -> Forall (signed_value s) msgs -> Forall (in_range t) msgs ->
  wrap_signed s k t msgs = Ok m -> forall i, nth i m 0 mod t = nth i msgs 0 mod t.
Proof.
  intros S K T V R E i. rewrite wrap_signed_spec in E; try assumption.
  - injection E as <-. change 0 with (0 mod t) at 1. rewrite (map_nth (fun x => x mod t)). apply Z.mod_mod. lia.
  - eapply Forall_impl; [|exact R]. unfold in_range. intros x Hx. lia.
Qed.

(** A whole computation on BGV ciphertexts whose messages, given to WrapSigned,
    are signed: unwrapping the decryption gives the results over the integers,
    slot by slot, when these lie in the range. *)
Theorem C89_bgv :
  forall s k log_n qs ps t c e D sk bs keys a b, encoder_for k log_n qs ps t c e -> k <> 16 -> (forall q, In q qs -> q <> t) -> signed_bits s -> t < 2 ^ (s - 1) ->
  let L := Z.to_nat log_n in let n := (2 ^ L)%nat in let E := field_encoder D e in
  all_messages (Forall (in_range t)) a -> wrap_circuit (wrap_signed s k t) a = Ok b ->
  rkeys L c sk bs keys -> rwf k L t c sk t b -> bgv_leaves E keys b ->
  bgv_decodable t (firstn (S (rlevel b)) qs) (bgv_noise n t c keys bs b) ->
  (forall i, (i < n)%nat -> in_range t (as_slots n a i)) ->
  exists x ms, run_bgv E t c keys b = Ok x /\ rsk_decrypt_bgv (keys (rlevel b)) E x = Ok ms /\ unwrap_signed s k t ms = Ok (map (as_slots n a) (seq 0 n)).
Proof.
  intros s k log_n qs ps t c e D sk bs keys a b F K16 NT S TS L n E AM WC RK W Lv HD R. destruct (enc_odd _ _ _ _ _ _ _ F) as (K & T & O).
  destruct (C76_bgv_slots k log_n qs ps t c e D sk bs keys b F K16 NT RK W Lv HD) as (x & Ex & _ & Ed). fold L n E in Ex, Ed.
  exists x. eexists. split; [exact Ex|]. split; [exact Ed|].
  rewrite (map_ext_in _ (fun i => as_slots n a i mod t)); [apply unwrap_values; assumption|].
  intros i _. apply (wrap_circuit_all (wrap_signed s k t) (Forall (in_range t)) t n a b); try assumption; [lia|].
  intros msgs m P Em. apply (wrapped_messages s k t msgs m); try assumption.
  eapply Forall_impl; [|exact P]. unfold in_range, signed_value. intros y Hy. lia.
Qed.

(** the same for BFV *)
Theorem C89_bfv :
  forall s k log_n qs ps t c e D val eps sk bs keys a b, encoder_for k log_n qs ps t c e -> ctx_create_bfv_ff k log_n qs ps t = Ok c -> k <> 16 ->
  (forall q, In q qs -> q <> t) -> float_model D val eps -> signed_bits s -> t < 2 ^ (s - 1) ->
  let L := Z.to_nat log_n in let n := (2 ^ L)%nat in let E := field_encoder D e in let raw := fun msgs ms => ff_encode_bfv e msgs ms false in
  all_messages (Forall (in_range t)) a -> wrap_circuit (wrap_signed s k t) a = Ok b ->
  rkeys L c sk bs keys -> rwf k L t c sk 1 b -> bfv_ok k eps c b -> bfv_leaves E keys b ->
  bfv_decodable k eps (firstn (S (rlevel b)) qs) (bfv_noise n t qs ps keys bs b) ->
  (forall i, (i < n)%nat -> in_range t (as_slots n a i)) ->
  exists x ms, run_bfv D E raw c keys b = Ok x /\ rsk_decrypt_bfv (keys (rlevel b)) E x = Ok ms /\ unwrap_signed s k t ms = Ok (map (as_slots n a) (seq 0 n)).
Proof.
  intros s k log_n qs ps t c e D val eps sk bs keys a b F MB K16 NT FM S TS L n E raw AM WC RK W BO Lv HD R. destruct (enc_odd _ _ _ _ _ _ _ F) as (K & T & O).
  destruct (C77_bfv_slots k log_n qs ps t c e D val eps sk bs keys b F MB K16 NT FM RK W BO Lv HD) as (x & Ex & _ & Ed). fold L n E raw in Ex, Ed.
  exists x. eexists. split; [exact Ex|]. split; [exact Ed|].
  rewrite (map_ext_in _ (fun i => as_slots n a i mod t)); [apply unwrap_values; assumption|].
  intros i _. apply (wrap_circuit_all (wrap_signed s k t) (Forall (in_range t)) t n a b); try assumption; [lia|].
  intros msgs m P Em. apply (wrapped_messages s k t msgs m); try assumption.
  eapply Forall_impl; [|exact P]. unfold in_range, signed_value. intros y Hy. lia.
Qed.

(** wrapping the messages of a computation always succeeds *)
Theorem C89_wrap_circuit :
  forall s k t a, signed_bits s -> word_size k -> 0 < t < 2 ^ k -> t < 2 ^ (s - 1) -> all_messages (Forall (in_range t)) a ->
  exists b, wrap_circuit (wrap_signed s k t) a = Ok b.
Proof.
  intros s k t a S K T TS AM. apply (wrap_circuit_ok _ (Forall (in_range t)) a); [|exact AM].
  intros msgs P. eexists. apply wrap_signed_spec; try assumption; eapply Forall_impl; try exact P; unfold in_range, signed_value; intros y Hy; lia.
Qed.

(** A signed type narrower than t loses messages even though they are values of
    the type and lie in the range. *)
Theorem C89_narrow_refuted :
  forall s k t, signed_bits s -> word_size k -> Z.odd t = true -> 2 ^ s < t < 2 ^ k ->
  exists x ms, signed_value s x /\ in_range t x /\ wrap_signed s k t [x] = Ok ms /\ unwrap_signed s k t ms <> Ok [x].
Proof.
  intros s k t S K O T. assert (S1 : 1 <= s) by (unfold signed_bits in S; cbn [In] in S; lia). pose proof (pow_pos s ltac:(lia)) as P.
  destruct (narrow_collision s t S1 O ltac:(lia)) as (x & y & Vx & Vy & N & Rx & Ry & E).
  assert (W : forall z, signed_value s z -> in_range t z -> wrap_signed s k t [z] = Ok [z mod t]).
  { intros z V R. unfold in_range in R. apply (wrap_signed_spec s k t [z]); [assumption|assumption|lia|apply Forall_cons; [assumption|apply Forall_nil]|apply Forall_cons; [lia|apply Forall_nil]]. }
  pose proof (unwrap_low s k t _ _ ltac:(lia) E) as U. unfold unwrap_signed. cbn [map seqr].
  destruct (unwrap_one s k t (x mod t)) as [z| |] eqn:Ez.
  - destruct (Z.eq_dec z x) as [->|Nz].
    + exists y, [y mod t]. split; [exact Vy|]. split; [exact Ry|]. split; [auto|]. cbn [map seqr]. rewrite <- U. cbn [bind]. intros H. injection H as H. auto.
    + exists x, [x mod t]. split; [exact Vx|]. split; [exact Rx|]. split; [auto|]. cbn [map seqr]. rewrite Ez. cbn [bind]. intros H. injection H as H. auto.
  - exists x, [x mod t]. split; [exact Vx|]. split; [exact Rx|]. split; [auto|]. cbn [map seqr]. rewrite Ez. discriminate.
  - exists x, [x mod t]. split; [exact Vx|]. split; [exact Rx|]. split; [auto|]. cbn [map seqr]. rewrite Ez. discriminate.
Qed.

(** for t = 65537 and 16-bit values, -1 comes back as 0; for t = 193 and 8-bit
    values with 16-bit words, it comes back as -64 *)
Theorem C89_minus_one_refuted :
  wrap_signed 16 32 65537 [-1; -2; 5] = Ok [65536; 65535; 5] /\ unwrap_signed 16 32 65537 [65536; 65535; 5] = Ok [0; -2; 5] /\
  wrap_signed 8 16 193 [-1; -2; 5] = Ok [192; 191; 5] /\ unwrap_signed 8 16 193 [192; 191; 5] = Ok [-64; -65; 5].
Proof. repeat split; vm_compute; reflexivity. Qed.

(** Messages below -t are accepted, and become words that are not congruent to
    them (unless t divides 2^k, which no odd t does). *)
Theorem C89_below_accepted :
  forall s k t x, signed_bits s -> word_size k -> Z.odd t = true -> 1 < t < 2 ^ k -> s <= k -> 32 <= k -> signed_value s x -> x < - t ->
  exists m, wrap_signed s k t [x] = Ok [m] /\ t <= m /\ ~ (t | m - x).
Proof.
  intros s k t x S K O T SK K32 V X. unfold wrap_signed. cbn [map seqr]. unfold wrap_one.
  assert (EC : common s k = Unsigned k). { unfold common. destruct (Z.ltb_spec k 32); [lia|]. unfold signed_bits in S. cbn [In] in S. destruct (Z.leb_spec (Z.max s 32) k); [reflexivity|lia]. }
  assert (S1 : 1 <= s) by (unfold signed_bits in S; cbn [In] in S; lia).
  rewrite EC. destruct (Z.ltb_spec x 0); [|lia]. cbn [into bind]. unfold wrap.
  rewrite <- Z.add_mod by lia. rewrite Z.mod_mod by lia.
  pose proof (pow_half k ltac:(lia)) as PK. pose proof (pow_le (s - 1) (k - 1) ltac:(lia)) as PL. unfold signed_value in V.
  assert (E : (x + t) mod 2 ^ k = x + t + 2 ^ k).
  { rewrite <- (Z.mod_small (x + t + 2 ^ k) (2 ^ k)) by lia. rewrite <- (Z.mod_add (x + t) 1 (2 ^ k)) by lia. f_equal. lia. }
  rewrite E. exists (x + t + 2 ^ k).  split; [reflexivity|]. split.
  - assert (- 2 ^ (k - 1) <= x) by lia. lia.
  - intros Dv. assert (D2 : (t | 2 ^ k)). { replace (2 ^ k) with (x + t + 2 ^ k - x - t) by lia. apply Z.divide_sub_r; [exact Dv|apply Z.divide_refl]. }
    assert (G : rel_prime t (2 ^ k)). { apply Zpow_facts.rel_prime_Zpower_r; [lia|]. apply rel_prime_sym, prime_rel_prime; [exact prime_2|]. intros [q Hq]. rewrite Hq, Z.odd_mul in O. destruct (Z.odd q); discriminate O. }
    destruct G as [_ _ G]. specialize (G t (Z.divide_refl t) D2). apply Z.divide_1_r_nonneg in G; lia.
Qed.

(** Degree 4, primes 97, 193, 257, t = 17, 8-bit signed messages: a product,
    minus another ciphertext, plus a plaintext, sent. *)
Definition sx_circuit : rcirc :=
  RSend (RAddPlain (RMul (REnc 2 toy 200 [-2; 3; 1; -1] 777) (REnc 2 toy 200 [2; -1; -8; -1] 888)) [1; -4; 0; 7]).
Definition sx_wrapped : rcirc :=
  RSend (RAddPlain (RMul (REnc 2 toy 200 [15; 3; 1; 16] 777) (REnc 2 toy 200 [2; 16; 9; 16] 888)) [1; 13; 0; 7]).

(** the hypotheses of [C89_bgv] hold for any objects made by these calls *)
Lemma sx_hypotheses c e key s keys :
  ctx_create_bgv_ff 32 2 [97; 193; 257] [] 17 = Ok c -> ff_create c = Ok e -> rsk_sample toy 2 1 (rc_qs c) 12345 = Ok (key, s) ->
  keys 2%nat = key -> rsk_mod_reduce (keys 2%nat) = Ok (keys 1%nat) -> rsk_mod_reduce (keys 1%nat) = Ok (keys 0%nat) ->
  encoder_for 32 2 [97; 193; 257] [] 17 c e /\ all_messages (Forall (in_range 17)) sx_circuit /\ wrap_circuit (wrap_signed 8 32 17) sx_circuit = Ok sx_wrapped /\
  (exists sk, rkeys 2 c sk 2 keys /\ rwf 32 2 17 c sk 17 sx_wrapped) /\
  bgv_decodable 17 (firstn (S (rlevel sx_wrapped)) [97; 193; 257]) (bgv_noise 4 17 c keys 2 sx_wrapped) /\
  (forall i, (i < 4)%nat -> in_range 17 (as_slots 4 sx_circuit i)).
Proof.
  intros Ec Ee Ek K2 K1 K0. assert (A := ex_args). assert (MF : ctx_made_ff 32 2 [97; 193; 257] [] 17 c) by (left; exact Ec).
  pose proof (ff_made _ _ _ _ _ _ MF) as M.
  assert (PT : prime 17) by (apply (prime_by_trial _ 20); [lia|vm_compute; reflexivity]).
  split; [split; [exact A|]; split; [exact MF|]; split; [exact PT|exact Ee]|].
  split. { unfold sx_circuit. cbn [all_messages]. unfold in_range. repeat split; repeat (apply Forall_cons; [lia|]); apply Forall_nil. }
  split.
  { unfold sx_circuit, sx_wrapped. cbn [wrap_circuit].
    assert (W1 : wrap_signed 8 32 17 [-2; 3; 1; -1] = Ok [15; 3; 1; 16]) by (vm_compute; reflexivity).
    assert (W2 : wrap_signed 8 32 17 [2; -1; -8; -1] = Ok [2; 16; 9; 16]) by (vm_compute; reflexivity).
    assert (W3 : wrap_signed 8 32 17 [1; -4; 0; 7] = Ok [1; 13; 0; 7]) by (vm_compute; reflexivity).
    rewrite W1, W2, W3. reflexivity. }
  destruct (ctx_qs_ok 32 2 17 _ _ c A M) as (OK & EM & _). cbn [length] in EM. pose proof (ctx_len 32 2 17 _ _ c A M) as LQ. cbn [length] in LQ.
  assert (HV : variance_fits 1 (rc_qs c)). { destruct (rc_qs c) as [|m0 r]; [exact I|]. injection EM as E0 _. cbn [variance_fits]. lia. }
  destruct (C76_keys 32 2 _ _ 17 c toy 1 12345 key s A M toy_ok HV Ek) as [_ X].
  destruct (X keys) as (sk & RK & VK); [exact K2| |].
  { intros l Hl. cbn [length] in Hl. destruct l as [|[|l]]; [exact K0|exact K1|lia]. }
  split; [|split].
  - exists sk. split; [exact RK|]. unfold sx_wrapped. cbn [rwf rlevel rwidth]. rewrite LQ.
    repeat match goal with |- _ /\ _ => split | |- msgs_ok _ _ _ => split; [cbn; lia|repeat (apply Forall_cons; [lia|]); apply Forall_nil] end; try lia; exact toy_ok.
  - unfold sx_wrapped. cbn [rlevel rwidth bgv_noise]. rewrite (VK 2%nat) by (cbn; lia). vm_compute. split; [discriminate|reflexivity].
  - intros i Hi. unfold in_range. destruct i as [|[|[|[|i]]]]; [vm_compute; split; discriminate..|lia].
Qed.

(** and the calls succeed: -2 * 2 + 1, 3 * -1 - 4, 1 * -8 + 0, -1 * -1 + 7 *)
Example C89_example :
  (do! c <- ctx_create_bgv_ff 32 2 [97; 193; 257] [] 17; do! e <- ff_create c;
   do! ' (key, s) <- rsk_sample toy 2 1 (rc_qs c) 12345;
   do! key1 <- rsk_mod_reduce key; do! key0 <- rsk_mod_reduce key1; let keys := fun l => nth l [key0; key1; key] key in
   let E := field_encoder exact_dops e in do! b <- wrap_circuit (wrap_signed 8 32 17) sx_circuit;
   do! x <- run_bgv E 17 c keys b; do! m <- rsk_decrypt_bgv (keys (rlevel b)) E x; do! v <- unwrap_signed 8 32 17 m;
   Ok (m, v, map (as_slots 4 sx_circuit) (seq 0 4))) =
  Ok ([14; 10; 9; 8], [-3; -7; -8; 8], [-3; -7; -8; 8]).
Proof. vm_compute. reflexivity. Qed.

Example C89_below_example : wrap_signed 8 32 17 [-20] = Ok [4294967293] /\ 4294967293 mod 17 = 15 /\ (-20) mod 17 = 14.
Proof. vm_compute. repeat split. Qed.

Print Assumptions C89_wrap.
Print Assumptions C89_unwrap.
Print Assumptions C89_round_trip.
Print Assumptions C89_bgv.
Print Assumptions C89_bfv.
Print Assumptions C89_wrap_circuit.
Print Assumptions C89_narrow_refuted.
Print Assumptions C89_minus_one_refuted.
Print Assumptions C89_below_accepted.
