(** C65: RNS Galois keys. *)
From Coq Require Import Setoid Znumtheory QArith Lia.
From Verif Require Import Base FinSum PolySpec Ring NegRing SymSpec Montgomery MontBatch Spec Prng Sampling SampleSpec Relin ThmSymEnc ThmRelin RnsPoly RnsSpec CrtMath RnsSub RnsProofs RnsBasis RnsFloat RnsLazy
  RnsCtx RnsCtxSpec RnsCtxProofs RnsCtxFacts ThmRnsCtx RnsCt RnsCtSpec RnsCtProofs ThmRnsCt RnsEncode RnsEncodeSpec RnsKey RnsKeySpec RnsKeyProofs ThmRnsKey RnsDecode RnsScaleOne RnsDecodeBfv RnsExample
  ThmRnsBgv ThmRnsBfv FieldSpec FieldMath FieldProofs FieldCtx ThmField RnsGadget RnsGadgetSpec RnsGadgetProofs RnsSwitchSpec RnsSwitchProofs RnsSwitchProofs2.
Local Open Scope Z_scope.

(** Create: the key encrypts, for each component w of the gadget vector,
    w s(X^power) under s, with errors t e, |e| <= 2 variance. The power is odd
    and below 2n. The random pads are those that the public seed gives. *)
Theorem C65_create :
  forall k L ms F fuel key sk power v g ty t seed seed_e gk B ws, moduli_ok k L ms -> ms <> [] -> distinct ms -> k <> 16 ->
  key_is ms L key sk -> prng_ok (gf_prng F ty) -> variance_fits v ms -> 0 <= t < 2 ^ k -> gadget_for ms L B g ws ->
  galois_create F fuel key power v g ty t seed seed_e = Ok gk ->
  galois_key ms L sk t (2 * v) B ws gk /\ gk_pow gk = power /\ 0 < power < 2 * Z.of_nat (2 ^ L) /\ Z.odd power = true /\ gk_g gk = g /\
  gk_seed gk = seed /\ gk_type gk = ty /\ galois_pads F fuel (rg_dimension g) (Z.of_nat L) ms seed ty = Ok (gk_as gk) /\ 0 < v.
Proof.
  intros k L ms F fuel key sk power v g ty t seed seed_e gk B ws OK NE DI K16 HK HR HV Ht HG E.
  exact (galois_create_ok k L ms OK NE K16 F fuel key sk power v g ty t seed seed_e gk B ws DI HK HR HV Ht HG E).
Qed.

(** An even power, one outside [0, 2n), a variance that is not positive and an
    unknown type of generator are refused, whatever the pads. *)
Theorem C65_create_errors :
  forall F pads key power v g seed ty t seed_e,
  power < 0 \/ Z.even power = true \/ 2 * Z.of_nat (rp_ncoeffs (rsk_key key)) <= power \/ v <= 0 \/ known_type ty = false ->
  galois_create_pads F pads key power v g seed ty t seed_e = Err InvalidArgument.
Proof.
  intros F pads key power v g seed ty t seed_e H. unfold galois_create_pads. cbv zeta.
  destruct ((power <? 0) || (power mod 2 =? 0) || (2 * Z.of_nat (rp_ncoeffs (rsk_key key)) <=? power)) eqn:E; [reflexivity|].
  apply Bool.orb_false_iff in E. destruct E as [E C3]. apply Bool.orb_false_iff in E. destruct E as [C1 C2].
  apply Z.ltb_ge in C1. apply Z.eqb_neq in C2. apply Z.leb_gt in C3.
  destruct (Z.leb_spec v 0); [reflexivity|]. destruct (known_type ty); [|reflexivity].
  destruct H as [H|[H|[H|[H|H]]]]; try lia; try discriminate. rewrite Zmod_even, H in C2. congruence.
Qed.

(** ApplyTo: from phase w under s(X^p) to phase w + t E under s. *)
Theorem C65_apply :
  forall k L ms s t be B ws gk x w, moduli_ok k L ms -> ms <> [] -> k <> 16 -> 0 <= B -> 0 <= be ->
  galois_key ms L s t be B ws gk -> ciphertext ms L s 2 (gk_pow gk) x w ->
  exists E, bounded (2 ^ L) (switch_bound (2 ^ L) (length ws) B be) E /\ gives ms L s 2 1 (galois_apply gk x) (fun i => w i + t * E i).
Proof.
  intros k L ms s t be B ws gk x w OK NE K16 HB Hbe HG Hx. exact (galois_apply_ok k L ms OK NE K16 s t be B ws gk x w HB Hbe HG Hx).
Qed.

Theorem C65_apply_errors :
  forall gk x digits pad, rt_pow x <> gk_pow gk \/ length (rt_ms x) <> length (gk_ms gk) \/ length (rt_c x) <> 2%nat ->
  galois_apply gk x = Err InvalidArgument /\ galois_apply_with_pad gk x digits pad = Err InvalidArgument.
Proof.
  intros gk x digits pad H. unfold galois_apply, galois_switch, galois_apply_with_pad.
  assert (E : galois_checks gk x = Err InvalidArgument); [|rewrite E; split; reflexivity].
  unfold galois_checks. destruct (Z.eqb_spec (rt_pow x) (gk_pow gk)); [|reflexivity]. cbn [negb].
  destruct (same_len (rt_ms x) (gk_ms gk)) eqn:E; [|reflexivity]. apply Nat.eqb_eq in E. cbn [negb].
  destruct (Nat.eqb_spec (length (rt_c x)) 2); [|reflexivity]. destruct H as [H|[H|H]]; contradiction.
Qed.

(** PrecomputeRandomPad and ApplyToWithRandomPad: the same with digits, in NTT
    form, of the second component that were computed before. *)
Theorem C65_precomputed :
  forall k L ms s t be B ws gk x w c1 f1 digits ds, moduli_ok k L ms -> ms <> [] -> distinct ms -> k <> 16 -> 0 <= B -> 0 <= be -> ws <> [] ->
  galois_key ms L s t be B ws gk -> ciphertext ms L s 2 (gk_pow gk) x w ->
  nth_error (rt_c x) 1 = Some c1 -> rns_is ms L true c1 f1 ->
  Forall2 (rns_is ms L true) digits ds -> length ds = length ws -> Forall (bounded (2 ^ L) B) ds -> pcong (big_q ms) (2 ^ L) (weighted ws ds) f1 ->
  exists pad E, galois_precompute gk digits = Ok pad /\ bounded (2 ^ L) (switch_bound (2 ^ L) (length ws) B be) E /\
    gives ms L s 2 1 (galois_apply_with_pad gk x digits pad) (fun i => w i + t * E i).
Proof.
  intros k L ms s t be B ws gk x w c1 f1 digits ds OK NE DI K16 HB Hbe NW HG Hx E1 H1 Hd Ld Bd Wd.
  exact (with_pad_ok k L ms OK NE K16 s t be B ws gk x w c1 f1 digits ds DI HB Hbe NW HG Hx E1 H1 Hd Ld Bd Wd).
Qed.

(** Serialize and Deserialize give the key back, random pads included. *)
Theorem C65_round_trip :
  forall k L ms F fuel s t be B ws gk, moduli_ok k L ms -> ms <> [] -> ws <> [] -> galois_key ms L s t be B ws gk ->
  galois_pads F fuel (length ws) (Z.of_nat L) ms (gk_seed gk) (gk_type gk) = Ok (gk_as gk) ->
  exists sg, galois_serialize gk = Ok sg /\ galois_deserialize F fuel sg (gk_g gk) ms = Ok gk.
Proof.
  intros k L ms F fuel s t be B ws gk OK NE NW HG EP. exact (galois_round_trip k L ms OK NE F fuel s t be B ws gk NW HG EP).
Qed.

(** Deserialize does not compare the number of components with the dimension of
    the gadget: a key with too few components is accepted, and applying it reads
    past the end of the key. *)
Theorem C65_deserialize_dimension_accepted :
  (forall F fuel sg g ms gk, galois_deserialize F fuel sg g ms = Ok gk -> gk_g gk = g /\ length (gk_bs gk) = length (sg_bs sg)) /\
  (forall k L ms s gk ws B hs x w, moduli_ok k L ms -> ms <> [] -> k <> 16 -> gk_ms gk = ms -> gadget_for ms L B (gk_g gk) ws ->
   Forall2 (rns_is ms L true) (gk_bs gk) hs -> (length (gk_bs gk) < length ws)%nat -> ciphertext ms L s 2 (gk_pow gk) x w ->
   galois_apply gk x = UB).
Proof.
  split.
  - intros F fuel sg g ms gk E. unfold galois_deserialize in E.
    assert (X : forall l bs, seqr (map (fun b => rns_deserialize b ms) l) = Ok bs -> length bs = length l).
    { induction l as [|b l IH]; intros bs E'; cbn [map seqr] in E'; [injection E' as <-; reflexivity|].
      destruct (rns_deserialize b ms); try discriminate. cbn [bind] in E'.
      destruct (seqr (map (fun b => rns_deserialize b ms) l)) as [r'| |] eqn:Er; try discriminate. cbn [bind] in E'. injection E' as <-.
      cbn [length]. f_equal. apply IH. reflexivity. }
    destruct (sg_bs sg) as [|b0 l] eqn:El; [discriminate|]. rewrite <- El in *.
    destruct (seqr (map (fun b => rns_deserialize b ms) (sg_bs sg))) as [bs| |] eqn:Eb; try discriminate. cbn [bind] in E.
    destruct (get bs 0) as [b1| |]; try discriminate. cbn [bind] in E.
    destruct (galois_pads F fuel (length bs) (Z.of_nat (rp_logn b1)) ms (sg_seed sg) (sg_type sg)); try discriminate. cbn [bind] in E.
    injection E as <-. cbn [gk_g gk_bs]. split; [reflexivity|]. apply X. exact Eb.
  - intros k L ms s gk ws B hs x w OK NE K16 G1 HG Hh Ls Hx. exact (galois_short k L ms OK NE K16 gk ws B hs s x w G1 HG Hh Ls Hx).
Qed.

(** Substitute, then ApplyTo: f(X) becomes f(X^p), under the same secret. *)
Theorem C65_substitute_and_switch :
  forall k L ms s t be B ws gk x w, moduli_ok k L ms -> ms <> [] -> k <> 16 -> 0 <= B -> 0 <= be ->
  galois_key ms L s t be B ws gk -> 0 < gk_pow gk < 2 * Z.of_nat (2 ^ L) -> Z.odd (gk_pow gk) = true -> ciphertext ms L s 2 1 x w ->
  exists y z E, rct_substitute x (gk_pow gk) = Ok y /\ galois_apply gk y = Ok z /\ bounded (2 ^ L) (switch_bound (2 ^ L) (length ws) B be) E /\
    ciphertext ms L s 2 1 z (fun i => substituted (2 ^ L) (Z.to_nat (gk_pow gk)) w i + t * E i).
Proof.
  intros k L ms s t be B ws gk x w OK NE K16 HB Hbe HG Hp Ho Hx. pose proof (ok_L k L ms OK NE) as HL.
  assert (P2 : Z.of_nat (2 ^ L) <= 2 ^ 15) by (rewrite Nat2Z.inj_pow; apply Z.pow_le_mono_r; lia).
  destruct (C58_substitute k L ms s 2 1 x w (gk_pow gk) OK ltac:(lia) Hx ltac:(lia)) as (y & Ey & Hy).
  { rewrite Nat2Z.inj_pow in Hp. exact Hp. } { exact Ho. } { change (2 ^ 15) with 32768 in P2. lia. }
  rewrite Z.mul_1_l, Z.mod_small in Hy by (rewrite Nat2Z.inj_pow in Hp; change (Z.of_nat 2) with 2 in Hp; lia).
  destruct (C65_apply k L ms s t be B ws gk y _ OK NE K16 HB Hbe HG Hy) as (E & BE & z & Ez & Hz). exists y, z, E. auto.
Qed.

Lemma pow5_odd n r : (0 < n)%nat -> Z.odd (5 ^ Z.of_nat r mod (2 * Z.of_nat n)) = true.
Proof.
  intros N0. rewrite Z.mod_eq by lia. rewrite Z.odd_sub, <- Z.mul_assoc, (Z.odd_mul 2). cbn [Z.odd andb]. rewrite Bool.xorb_false_r.
  destruct r; [reflexivity|]. rewrite Z.odd_pow by lia. reflexivity.
Qed.

Lemma odd_of_nat p : Z.odd (Z.of_nat p) = Nat.odd p.
Proof.
  rewrite Zodd_mod. destruct (Nat.odd p) eqn:E.
  - apply Nat.odd_spec in E. destruct E as [j ->]. rewrite Nat2Z.inj_add, Nat2Z.inj_mul, Z.add_comm, Z.mul_comm, Z.mod_add by lia. reflexivity.
  - assert (E' : Nat.even p = true) by (rewrite <- Nat.negb_odd, E; reflexivity). apply Nat.even_spec in E'. destruct E' as [j ->].
    rewrite Nat2Z.inj_mul, Z.mul_comm, Z.mod_mul by lia. reflexivity.
Qed.

Lemma substituted_lin n p a b f g i : substituted n p (fun j => a * f j - b * g j) i = a * substituted n p f i - b * substituted n p g i.
Proof.
  unfold substituted. rewrite <- !zsum_mul_l, <- zsum_sub. apply zsum_ext. intros j _.
  destruct (j * p mod (2 * n) =? i)%nat; [ring|]. destruct (j * p mod (2 * n) =? i + n)%nat; ring.
Qed.

(** For the finite field encoding, the power 5^r rotates the slots by r places:
    BGV. *)
Theorem C65_rotate_bgv :
  forall k log_n qs ps t c e l D key sk be B ws gk x w Bw r, encoder_for k log_n qs ps t c e -> (l < length qs)%nat ->
  let n := (2 ^ Z.to_nat log_n)%nat in let slot := slot_value t (field_root e) n in
  k <> 16 -> (forall q, In q qs -> q <> t) -> key_is (at_level c l) (Z.to_nat log_n) key sk -> 0 <= B -> 0 <= be ->
  galois_key (at_level c l) (Z.to_nat log_n) sk t be B ws gk -> gk_pow gk = 5 ^ Z.of_nat r mod (2 * Z.of_nat n) ->
  ciphertext (at_level c l) (Z.to_nat log_n) sk 2 1 x w -> bounded n Bw w ->
  bgv_decodable t (firstn (S l) qs) (Bw + t * switch_bound n (length ws) B be) ->
  exists y z, rct_substitute x (gk_pow gk) = Ok y /\ galois_apply gk y = Ok z /\
    rsk_decrypt_bgv key (field_encoder D e) z = Ok (map (fun i => slot w (rotated_slot n r i)) (seq 0 n)).
Proof.
  intros k log_n qs ps t c e l D key sk be B ws gk x w Bw r F Hl n slot K16 N HK HB Hbe HG Ep Hx Bb HD.
  destruct (enc_parts _ _ _ _ _ _ _ F) as (A & M & PT & EC & HL & T & RT & _).
  pose proof (level_ok k log_n t qs ps c A M l) as OK. pose proof (level_ne k log_n t qs ps c A M l Hl) as NE.
  pose proof (NttMath.pow2_gt0 (Z.to_nat log_n)) as N0. fold n in N0.
  assert (Ho : Z.odd (gk_pow gk) = true) by (rewrite Ep; apply pow5_odd, N0).
  assert (Pp : 0 < gk_pow gk < 2 * Z.of_nat n).
  { pose proof (Z.mod_pos_bound (5 ^ Z.of_nat r) (2 * Z.of_nat n) ltac:(lia)) as P. rewrite <- Ep in P.
    destruct (Z.eq_dec (gk_pow gk) 0) as [E0|]; [rewrite E0 in Ho; discriminate|lia]. }
  destruct (C65_substitute_and_switch k _ _ sk t be B ws gk x w OK NE K16 HB Hbe HG Pp Ho Hx) as (y & z & E & Ey & Ez & BE & Hz).
  exists y, z. split; [exact Ey|]. split; [exact Ez|].
  rewrite (C69_decrypt_bgv k log_n qs ps t c e l D key sk z 2 _ (Bw + t * switch_bound n (length ws) B be) F Hl N HK ltac:(lia) Hz); [| |exact HD].
  - f_equal. apply map_ext_in. intros i Hi. apply in_seq in Hi. unfold slot.
    destruct (C69_slots k log_n qs ps t c e F w w i ltac:(lia)) as (_ & _ & _ & RO & _). refine (eq_trans _ (RO r)). fold n. rewrite <- Ep.
    apply (slot_ext _ HL t _ ltac:(lia)). intros j Hj. exists (E j). fold n. ring.
  - intros i Hi. cbv beta. specialize (BE i Hi).
    assert (BW : 0 <= Bw) by (specialize (Bb 0%nat N0); lia).
    assert (Hs : Z.abs (substituted n (Z.to_nat (gk_pow gk)) w i) <= Bw).
    { apply substituted_bound; [|exists (Z.to_nat log_n); reflexivity|exact Hi|exact BW|exact Bb].
      rewrite <- Ho. rewrite <- (Z2Nat.id (gk_pow gk)) at 2 by lia. rewrite odd_of_nat. reflexivity. }
    fold n. fold n in BE. pose proof (Z.abs_triangle (substituted n (Z.to_nat (gk_pow gk)) w i) (t * E i)) as TR.
    rewrite (Z.abs_mul t), (Z.abs_eq t) in TR by lia. pose proof (Z.mul_le_mono_nonneg_l _ _ t ltac:(lia) BE). lia.
Qed.

(** BFV: keys made with error scalar 1. *)
Theorem C65_rotate_bfv :
  forall k log_n qs ps t c e l D val eps key sk be B ws gk x w m Bw r, encoder_for k log_n qs ps t c e -> ctx_create_bfv_ff k log_n qs ps t = Ok c ->
  (l < length qs)%nat -> let n := (2 ^ Z.to_nat log_n)%nat in let slot := slot_value t (field_root e) n in
  k <> 16 -> (forall q, In q qs -> q <> t) -> float_model D val eps -> key_is (at_level c l) (Z.to_nat log_n) key sk -> 0 <= B -> 0 <= be ->
  galois_key (at_level c l) (Z.to_nat log_n) sk 1 be B ws gk -> gk_pow gk = 5 ^ Z.of_nat r mod (2 * Z.of_nat n) ->
  ciphertext (at_level c l) (Z.to_nat log_n) sk 2 1 x w -> bounded n Bw (fun i => t * w i - prodz (firstn (S l) qs) * m i) ->
  bfv_decodable k eps (firstn (S l) qs) (Bw + t * switch_bound n (length ws) B be) ->
  exists y z, rct_substitute x (gk_pow gk) = Ok y /\ galois_apply gk y = Ok z /\
    rsk_decrypt_bfv key (field_encoder D e) z = Ok (map (fun i => slot m (rotated_slot n r i)) (seq 0 n)).
Proof.
  intros k log_n qs ps t c e l D val eps key sk be B ws gk x w m Bw r F EC' Hl n slot K16 N FM HK HB Hbe HG Ep Hx Bb HD.
  destruct (enc_parts _ _ _ _ _ _ _ F) as (A & M & PT & EC & HL & T & RT & _).
  pose proof (level_ok k log_n t qs ps c A M l) as OK. pose proof (level_ne k log_n t qs ps c A M l Hl) as NE.
  pose proof (NttMath.pow2_gt0 (Z.to_nat log_n)) as N0. fold n in N0.
  assert (Ho : Z.odd (gk_pow gk) = true) by (rewrite Ep; apply pow5_odd, N0).
  assert (Pp : 0 < gk_pow gk < 2 * Z.of_nat n).
  { pose proof (Z.mod_pos_bound (5 ^ Z.of_nat r) (2 * Z.of_nat n) ltac:(lia)) as P. rewrite <- Ep in P.
    destruct (Z.eq_dec (gk_pow gk) 0) as [E0|]; [rewrite E0 in Ho; discriminate|lia]. }
  destruct (C65_substitute_and_switch k _ _ sk 1 be B ws gk x w OK NE K16 HB Hbe HG Pp Ho Hx) as (y & z & E & Ey & Ez & BE & Hz).
  exists y, z. split; [exact Ey|]. split; [exact Ez|].
  destruct (C59_decrypt k _ _ key sk (field_encoder D e) z 2 _ OK NE HK ltac:(lia) Hz) as (a & Ha & _ & _ & Ed & _). rewrite Ed. cbn [en_unbfv field_encoder].
  rewrite (C69_decode_bfv k log_n qs ps t c e l D val eps true a _ (substituted n (Z.to_nat (gk_pow gk)) m) (Bw + t * switch_bound n (length ws) B be) F EC' Hl N FM Ha); [| |exact HD].
  - f_equal. apply map_ext_in. intros i Hi. apply in_seq in Hi. unfold slot.
    destruct (C69_slots k log_n qs ps t c e F m m i ltac:(lia)) as (_ & _ & _ & RO & _). refine (eq_trans _ (RO r)). fold n. rewrite <- Ep. reflexivity.
  - intros i Hi. cbv beta. specialize (BE i Hi). fold n. fold n in BE.
    assert (BW : 0 <= Bw) by (specialize (Bb 0%nat N0); lia).
    set (p := Z.to_nat (gk_pow gk)).
    assert (Hs : Z.abs (substituted n p (fun i => t * w i - prodz (firstn (S l) qs) * m i) i) <= Bw).
    { apply substituted_bound; [|exists (Z.to_nat log_n); reflexivity|exact Hi|exact BW|exact Bb].
      unfold p. rewrite <- Ho. rewrite <- (Z2Nat.id (gk_pow gk)) at 2 by lia. rewrite odd_of_nat. reflexivity. }
    rewrite substituted_lin in Hs.
    replace (t * (substituted n p w i + 1 * E i) - prodz (firstn (S l) qs) * substituted n p m i)
      with ((t * substituted n p w i - prodz (firstn (S l) qs) * substituted n p m i) + t * E i) by ring.
    pose proof (Z.abs_triangle (t * substituted n p w i - prodz (firstn (S l) qs) * substituted n p m i) (t * E i)) as TR.
    rewrite (Z.abs_mul t), (Z.abs_eq t) in TR by lia. pose proof (Z.mul_le_mono_nonneg_l _ _ t ltac:(lia) BE). lia.
Qed.

(** rotation by one place for both schemes: n = 4, t = 17, q = 97, 193, 257,
    gadget of base 2^4 *)
Example C65_example :
  Forall (fun lb => 1 <= lb <= 30 /\ lb < 32) [4; 4; 4] /\ Forall2 (fun q lb => Z.min (2 ^ lb - 1) (q / 2) <= 15) [97; 193; 257] [4; 4; 4] /\
  bgv_decodable 17 [97; 193; 257] (17 / 2 + 17 * (2 * 1) + 17 * switch_bound 4 7 15 (2 * 1)) /\
  bfv_decodable 32 (1 # 2 ^ 53) [97; 193; 257] (17 + 17 * (2 * 1) + 17 * switch_bound 4 7 15 (2 * 1)) /\
  (do! c <- ctx_create_bfv_ff 32 2 [97; 193; 257] [] 17; do! e <- ff_create c;
   do! ' (key, s) <- rsk_sample toy 2 1 (rc_qs c) 12345;
   do! hats <- main_complements c 2; do! invs <- main_crt_factors c 2;
   do! g <- rgadget_create 2 [4; 4; 4] hats invs (rc_qs c);
   do! gk <- galois_create toys 200 key 5 1 g 1 17 [77] [78];
   do! sg <- galois_serialize gk; do! gk <- galois_deserialize toys 200 sg g (rc_qs c);
   do! ' (x, s) <- rsk_encrypt_bgv toy 200 key (field_encoder exact_dops e) [1; 14; 3; 12] s;
   do! y <- rct_substitute x 5; do! z <- galois_apply gk y;
   do! m <- rsk_decrypt_bgv key (field_encoder exact_dops e) z;
   do! gk <- galois_create toys 200 key 5 1 g 2 1 [79] [80];
   do! ' (x, s, r) <- rsk_encrypt_bfv toy toy 200 key (field_encoder exact_dops e) [1; 14; 3; 12] s 99;
   do! y <- rct_substitute x 5; do! z <- galois_apply gk y;
   do! m' <- rsk_decrypt_bfv key (field_encoder exact_dops e) z; Ok (rg_dimension g, m, m')) =
   Ok (7%nat, [14; 1; 12; 3], [14; 1; 12; 3]).
Proof.
  split; [repeat constructor; lia|]. split; [repeat constructor; vm_compute; discriminate|].
  split; [vm_compute; split; [discriminate|reflexivity]|]. split; [vm_compute; repeat split; discriminate|]. vm_compute. reflexivity.
Qed.

Print Assumptions C65_create.
Print Assumptions C65_create_errors.
Print Assumptions C65_apply.
Print Assumptions C65_apply_errors.
Print Assumptions C65_precomputed.
Print Assumptions C65_round_trip.
Print Assumptions C65_deserialize_dimension_accepted.
Print Assumptions C65_substitute_and_switch.
Print Assumptions C65_rotate_bgv.
Print Assumptions C65_rotate_bfv.
