(** C69: the finite field encoder puts one message into every slot. *)
From Coq Require Import Znumtheory QArith Lia.
From Verif Require Import Base FinSum PolySpec Ring NegRing SymSpec Montgomery MontBatch Ntt Spec ArithFacts NttFacts MontgomeryProofs PolyView Prng Sampling SampleSpec ThmArith ThmNtt ThmSymEnc RnsPoly RnsSpec CrtMath RnsSub RnsProofs RnsBasis RnsMore RnsFloat
  RnsCtx RnsCtxSpec RnsCtxProofs RnsCtxFacts ThmRnsCtx RnsCt RnsCtSpec RnsCtProofs ThmRnsCt RnsEncode RnsEncodeSpec RnsKey RnsKeySpec RnsKeyProofs ThmRnsKey RnsDecode RnsScaleOne RnsDecodeBfv RnsExample ThmRnsBgv ThmRnsBfv
  FieldSpec FieldMath FieldProofs FieldCtx.
Local Open Scope Z_scope.

(** Create succeeds for every degree up to 2^14; the encoder uses a root of
    X^n + 1 modulo t. *)
Theorem C69_create :
  forall k log_n qs ps t c, ctx_args k qs ps t -> ctx_made_ff k log_n qs ps t c -> prime t -> log_n <= 14 ->
  exists e, ff_create c = Ok e /\ field_root e ^ Z.of_nat (2 ^ Z.to_nat log_n) mod t = t - 1.
Proof.
  intros k log_n qs ps t c A M P H. destruct (ff_create_ok k log_n t qs ps c A M P H) as [e E]. exists e. split; [exact E|].
  destruct (enc_parts k log_n t qs ps c e (conj A (conj M (conj P E)))) as (_ & _ & _ & _ & _ & T & R & _).
  apply (cong_to_mod t) in R; [|lia]. rewrite R. symmetry. apply Z.mod_unique with (-1); lia.
Qed.

(** A context without a plaintext modulus for finite field encoding is refused. *)
Theorem C69_create_errors :
  forall k log_n qs ps t c, ctx_create k log_n qs ps t = Ok c \/ ctx_create_bfv k log_n qs ps t = Ok c -> ff_create c = Err InvalidArgument.
Proof.
  intros k log_n qs ps t c H. unfold ff_create. enough (E : rc_nt c = None) by (rewrite E; destruct (rc_pt c); reflexivity).
  assert (X : forall c0, ctx_create k log_n qs ps t = Ok c0 -> rc_nt c0 = None).
  { intros c0. unfold ctx_create. destruct (log_n <=? 0); [discriminate|]. destruct (t =? 0); [discriminate|].
    destruct (seqr (map (make_modulus k log_n) qs)) as [ms| |]; try discriminate. cbn [bind].
    destruct (seqr (map (make_modulus k log_n) ps)) as [mp| |]; try discriminate. cbn [bind]. intros E. injection E as <-. reflexivity. }
  destruct H as [H|H]; [apply X, H|]. unfold ctx_create_bfv in H.
  destruct (ctx_create k log_n qs ps t) as [c0| |] eqn:E0; try discriminate. cbn [bind] in H.
  destruct (params_create k t) as [p| |]; try discriminate. cbn [bind] in H.
  revert H. unfold ctx_bfv, with_pt. cbn [rc_pt].
  match goal with |- context [bfv_loop ?a ?b ?c ?d] => destruct (bfv_loop a b c d) as [[[xs ys] zs]| |]; try discriminate end.
  cbn [bind]. intros H. injection H as <-. reflexivity.
Qed.

(** The largest degree, 2^15, is accepted by every other class and makes Create
    overflow an [int], whatever the moduli. *)
Theorem C69_create_degree_32768_refuted :
  (forall k qs ps t c, ctx_args k qs ps t -> ctx_made_ff k 15 qs ps t c -> prime t -> ff_create c = UB) /\
  (exists c, ctx_args 32 [786433] [] 65537 /\ ctx_made_ff 32 15 [786433] [] 65537 c /\ prime 65537).
Proof.
  split.
  - intros k qs ps t c A MF PT. destruct (ff_modulus k 15 t qs ps c A MF PT) as (mt & O & Et & P1 & P2).
    destruct (made_ok _ _ _ _ _ _ A (ff_made _ _ _ _ _ _ MF)) as (L1 & L0 & _).
    unfold ff_create. rewrite P1, P2, L1. change 15 with (Z.of_nat 15) in O |- *. rewrite Nat2Z.id in O.
    rewrite (shl_int_ok k 15 [mt] (Forall_cons _ O (Forall_nil _))) by discriminate. cbn [bind].
    pose proof O as [PF NT]. destruct (init_wellformed _ _ _ _ _ PF NT) as (_ & _ & _ & _ & _ & _ & _ & _ & _ & _ & EB & _).
    replace (Z.of_nat (2 ^ 15)) with 32768 by (rewrite Nat2Z.inj_pow; reflexivity).
    assert (X : (9 <= 2 ^ 14)%nat) by (apply Nat.le_trans with (2 ^ 4)%nat; [cbn; lia|apply Nat.pow_le_mono_r; lia]).
    replace (2 ^ 15 / 2)%nat with (9 + (2 ^ 14 - 9))%nat; [rewrite (slot_loop_large _ EB); reflexivity|].
    rewrite (Nat.pow_succ_r' 2 14), (Nat.mul_comm 2), Nat.div_mul by discriminate. revert X. generalize (2 ^ 14)%nat. intros; lia.
  - assert (P : prime 65537) by (apply (PrimeCheck.prime_by_trial _ 260%nat); [lia|vm_compute; reflexivity]).
    assert (P' : prime 786433) by (apply (PrimeCheck.prime_by_trial _ 900%nat); [lia|vm_compute; reflexivity]).
    assert (W : word_size 32) by (right; left; reflexivity).
    assert (MK : forall q, prime q -> 1 < q -> q mod 2 ^ 16 = 1 -> (exists p, params_create 32 q = Ok p) -> exists m, make_modulus 32 15 q = Ok m).
    { intros q Pq Q1 Qm (p & Ep). unfold make_modulus. rewrite Ep. cbn [bind].
      destruct (C15_init_succeeds 32 q p 15 (conj W (conj Q1 Ep)) Pq ltac:(lia) Qm) as (np & ->). cbn [bind]. eexists. reflexivity. }
    destruct (MK 786433 P' ltac:(lia) eq_refl ltac:(eexists; vm_compute; reflexivity)) as [m Em].
    destruct (MK 65537 P ltac:(lia) eq_refl ltac:(eexists; vm_compute; reflexivity)) as [mt Emt].
    assert (C : exists c, ctx_create_bgv_ff 32 15 [786433] [] 65537 = Ok c).
    { unfold ctx_create_bgv_ff, ctx_create. cbn [map seqr]. rewrite Em. cbn [seqr bind].
      change (65537 mod 2 =? 0) with false. change (15 <=? 0) with false. change (65537 =? 0) with false. cbn [bind].
      unfold ctx_finite_field. cbn [rc_logn rc_t]. rewrite Emt. cbn [bind]. eexists. reflexivity. }
    destruct C as [c Ec]. exists c. split; [|split; [left; exact Ec|exact P]].
    split; [exact W|]. split; [constructor; [exact P'|constructor]|]. split; [constructor|]. split; [repeat constructor; cbn; tauto|lia].
Qed.

(** EncodeBgv: the result represents a polynomial with centred coefficients
    modulo t whose slot i is message i, and 0 beyond the messages. *)
Theorem C69_encode_bgv :
  forall k log_n qs ps t c e l msgs, encoder_for k log_n qs ps t c e -> (l < length qs)%nat ->
  let n := (2 ^ Z.to_nat log_n)%nat in
  (length msgs <= n)%nat -> Forall (fun x => 0 <= x < 2 ^ k) msgs ->
  exists g, is_rns (at_level c l) (Z.to_nat log_n) true (ff_encode_bgv e msgs (at_level c l)) g /\
  (forall i, (i < n)%nat -> 2 * Z.abs (g i) <= t) /\
  (forall i, (i < n)%nat -> slot_value t (field_root e) n g i = nth i msgs 0 mod t).
Proof.
  intros k log_n qs ps t c e l msgs F Hl n Lm Fm. destruct (enc_slots _ _ _ _ _ _ _ F msgs Lm Fm) as (v & Ev & Lv & Sv & PF & HS).
  destruct (enc_parts _ _ _ _ _ _ _ F) as (A & M & PT & EC & HL & T & R & _).
  pose proof (level_ok k log_n t qs ps c A M l) as OK. pose proof (level_ne k log_n t qs ps c A M l Hl) as NE.
  exists (fun i => centered t (export_int (fe_pt e) (nth i v 0))). split; [|split].
  - unfold ff_encode_bgv. rewrite EC, (ctx_shl k log_n t qs ps c A M) by lia. cbn [bind].
    destruct (Nat.ltb_spec (2 ^ Z.to_nat log_n) (length msgs)); [unfold n in Lm; lia|].
    rewrite ne_match by exact NE. rewrite Ev. cbn [bind].
    exact (convert_balanced_is k _ _ OK NE t (fe_pt e) v PF Lv Sv).
  - intros i Hi. pose proof (centered_fits t (export_int (fe_pt e) (nth i v 0)) ltac:(lia)) as X. unfold fits in X. lia.
  - intros i Hi. rewrite <- (HS i Hi). apply (slot_ext _ HL t _ ltac:(lia)). intros j Hj. apply centered_cong.
Qed.

Theorem C69_encode_errors :
  forall k log_n qs ps t c e msgs ms scaled, encoder_for k log_n qs ps t c e -> (0 < length qs)%nat ->
  (2 ^ Z.to_nat log_n < length msgs)%nat \/ ms = [] ->
  ff_encode_bgv e msgs ms = Err InvalidArgument /\ ff_encode_bfv e msgs ms scaled = Err InvalidArgument.
Proof.
  intros k log_n qs ps t c e msgs ms scaled F Hq H. destruct (enc_parts _ _ _ _ _ _ _ F) as (A & M & PT & EC & _).
  unfold ff_encode_bgv, ff_encode_bfv. rewrite EC, (ctx_shl k log_n t qs ps c A M) by lia. cbn [bind].
  destruct (Nat.ltb_spec (2 ^ Z.to_nat log_n) (length msgs)); [auto|]. destruct H as [H| ->]; [lia|auto].
Qed.

(** DecodeBgv of a polynomial that represents w: the slots of w. *)
Theorem C69_decode_bgv :
  forall k log_n qs ps t c e l ntt a w B, encoder_for k log_n qs ps t c e -> (l < length qs)%nat ->
  let n := (2 ^ Z.to_nat log_n)%nat in
  (forall q, In q qs -> q <> t) -> rns_is (at_level c l) (Z.to_nat log_n) ntt a w ->
  bounded n B w -> bgv_decodable t (firstn (S l) qs) B ->
  ff_decode_bgv e a (at_level c l) = Ok (map (slot_value t (field_root e) n w) (seq 0 n)).
Proof.
  intros k log_n qs ps t c e l ntt a w B F Hl n N Ha HB HD. destruct (enc_parts _ _ _ _ _ _ _ F) as (A & M & PT & EC & _).
  unfold ff_decode_bgv. rewrite EC. rewrite (C61_decode k log_n qs ps t c l ntt a w B A M Hl (ff_gcd _ _ _ _ A PT N) Ha HB HD). cbn [bind].
  apply (enc_unslot _ _ _ _ _ _ _ F).
Qed.

(** DecodeBgvWithCrt, with integers of K bits: exact for every w of absolute
    value below half the product Q of the moduli. *)
Theorem C69_decode_bgv_crt :
  forall k log_n qs ps t c e l K ntt a w invs, encoder_for k log_n qs ps t c e -> (l < length qs)%nat -> k <= K ->
  let n := (2 ^ Z.to_nat log_n)%nat in let ms := at_level c l in
  Forall (fun m => big_q ms * modulus m <= 2 ^ K) ms -> hat_inverses ms invs -> t <= big_q ms ->
  rns_is ms (Z.to_nat log_n) ntt a w -> (forall i, (i < n)%nat -> 2 * Z.abs (w i) < big_q ms) ->
  ff_decode_bgv_crt K e a ms (rns_modulus_complements K ms) invs = Ok (map (slot_value t (field_root e) n w) (seq 0 n)).
Proof. intros k log_n qs ps t c e l K ntt a w invs F Hl HK. exact (enc_crt _ _ _ _ _ _ _ F l K ntt a w invs Hl HK). Qed.

(** EncodeBfv: Q m / t rounded up, where slot i of m is message i. *)
Theorem C69_encode_bfv :
  forall k log_n qs ps t c e msgs, encoder_for k log_n qs ps t c e -> ctx_create_bfv_ff k log_n qs ps t = Ok c ->
  (forall q, In q qs -> q <> t) -> (0 < length qs)%nat -> let n := (2 ^ Z.to_nat log_n)%nat in
  (length msgs <= n)%nat -> Forall (fun x => 0 <= x < 2 ^ k) msgs ->
  exists g m, is_rns (rc_qs c) (Z.to_nat log_n) true (ff_encode_bfv e msgs (rc_qs c) true) g /\
  (forall i, (i < n)%nat -> 0 <= t * g i - prodz qs * m i < t) /\ (forall i, (i < n)%nat -> 0 <= m i < t) /\
  (forall i, (i < n)%nat -> slot_value t (field_root e) n m i = nth i msgs 0 mod t).
Proof.
  intros k log_n qs ps t c e msgs F MB N Hq n Lm Fm. destruct (enc_slots _ _ _ _ _ _ _ F msgs Lm Fm) as (v & Ev & Lv & Sv & PF & HS).
  destruct (enc_parts _ _ _ _ _ _ _ F) as (A & M & PT & EC & HL & T & R & _).
  assert (RV : forall x, In x v -> 0 <= export_int (fe_pt e) x < t).
  { intros x Ix. rewrite Forall_forall in Sv. apply (C04_ring_operations k t _ x x PF (Sv x Ix) (Sv x Ix)). }
  destruct (C62_encode k log_n qs ps t c (map (export_int (fe_pt e)) v) A (or_intror MB) (ff_gcd _ _ _ _ A PT N) Hq) as (g & Hg & Hb).
  { rewrite map_length, Lv. unfold n. lia. }
  { apply Forall_forall. intros x Ix. apply in_map_iff in Ix. destruct Ix as (y & <- & Iy). specialize (RV y Iy). lia. }
  assert (EN : forall i, (i < n)%nat -> nth i (map (export_int (fe_pt e)) v) 0 = export_int (fe_pt e) (nth i v 0)).
  { intros i Hi. rewrite (nth_indep _ 0 (export_int (fe_pt e) 0)) by (rewrite map_length, Lv; exact Hi). apply map_nth. }
  exists g, (fun i => export_int (fe_pt e) (nth i v 0)). split; [|split; [|split]].
  - unfold ff_encode_bfv. rewrite EC, (ctx_shl k log_n t qs ps c A M) by lia. cbn [bind].
    destruct (Nat.ltb_spec (2 ^ Z.to_nat log_n) (length msgs)); [unfold n in Lm; lia|].
    rewrite ne_match.
    + rewrite Ev. cbn [bind]. exact Hg.
    + pose proof (level_ne k log_n t qs ps c A M 0 Hq) as NE. unfold at_level in NE. intros X. rewrite X in NE. apply NE. reflexivity.
  - intros i Hi. rewrite <- (EN i Hi). apply Hb, Hi.
  - intros i Hi. apply RV, nth_In. lia.
  - exact HS.
Qed.

(** Without scaling: the polynomial m with coefficients in [0, t) whose slot i is
    message i, at any level. *)
Theorem C69_encode_bfv_unscaled :
  forall k log_n qs ps t c e l msgs, encoder_for k log_n qs ps t c e -> ctx_create_bfv_ff k log_n qs ps t = Ok c ->
  (forall q, In q qs -> q <> t) -> (l < length qs)%nat -> let n := (2 ^ Z.to_nat log_n)%nat in
  (length msgs <= n)%nat -> Forall (fun x => 0 <= x < 2 ^ k) msgs ->
  exists m, is_rns (at_level c l) (Z.to_nat log_n) true (ff_encode_bfv e msgs (at_level c l) false) m /\ (forall i, (i < n)%nat -> 0 <= m i < t) /\
  (forall i, (i < n)%nat -> slot_value t (field_root e) n m i = nth i msgs 0 mod t).
Proof.
  intros k log_n qs ps t c e l msgs F MB N Hl n Lm Fm. destruct (enc_slots _ _ _ _ _ _ _ F msgs Lm Fm) as (v & Ev & Lv & Sv & PF & HS).
  destruct (enc_parts _ _ _ _ _ _ _ F) as (A & M & PT & EC & HL & T & R & _).
  assert (RV : forall x, In x v -> 0 <= export_int (fe_pt e) x < t).
  { intros x Ix. rewrite Forall_forall in Sv. apply (C04_ring_operations k t _ x x PF (Sv x Ix) (Sv x Ix)). }
  assert (Hg : is_rns (at_level c l) (Z.to_nat log_n) true (coeff_encode_bfv c (map (export_int (fe_pt e)) v) (at_level c l) false)
    (fun i => nth i (map (export_int (fe_pt e)) v) 0 mod t)).
  { apply (C62_encode_unscaled k log_n qs ps t c l (map (export_int (fe_pt e)) v) A (or_intror MB) (ff_gcd _ _ _ _ A PT N) Hl).
    - rewrite map_length, Lv. lia.
    - apply Forall_forall. intros x Ix. apply in_map_iff in Ix. destruct Ix as (y & <- & Iy). specialize (RV y Iy). lia. }
  assert (EN : forall i, (i < n)%nat -> nth i (map (export_int (fe_pt e)) v) 0 = export_int (fe_pt e) (nth i v 0)).
  { intros i Hi. rewrite (nth_indep _ 0 (export_int (fe_pt e) 0)) by (rewrite map_length, Lv; exact Hi). apply map_nth. }
  exists (fun i => nth i (map (export_int (fe_pt e)) v) 0 mod t). split; [|split].
  - unfold ff_encode_bfv. rewrite EC, (ctx_shl k log_n t qs ps c A M) by lia. cbn [bind].
    destruct (Nat.ltb_spec (2 ^ Z.to_nat log_n) (length msgs)); [unfold n in Lm; lia|].
    rewrite ne_match by (apply (level_ne k log_n t qs ps c A M l Hl)). rewrite Ev. cbn [bind]. exact Hg.
  - intros i Hi. apply Z.mod_pos_bound. lia.
  - intros i Hi. rewrite <- (HS i Hi). apply (slot_ext _ HL t _ ltac:(lia)). intros j Hj. rewrite (EN j Hj). apply cong_mod.
Qed.

(** DecodeBfv of a polynomial w with t w close enough to Q m: the slots of m. *)
Theorem C69_decode_bfv :
  forall k log_n qs ps t c e l D val eps ntt a w m B, encoder_for k log_n qs ps t c e -> ctx_create_bfv_ff k log_n qs ps t = Ok c ->
  (l < length qs)%nat -> let n := (2 ^ Z.to_nat log_n)%nat in
  (forall q, In q qs -> q <> t) -> float_model D val eps -> rns_is (at_level c l) (Z.to_nat log_n) ntt a w ->
  bounded n B (fun i => t * w i - prodz (firstn (S l) qs) * m i) -> bfv_decodable k eps (firstn (S l) qs) B ->
  ff_decode_bfv D e a (at_level c l) = Ok (map (slot_value t (field_root e) n m) (seq 0 n)).
Proof.
  intros k log_n qs ps t c e l D val eps ntt a w m B F MB Hl n N FM Ha HB HD. destruct (enc_parts _ _ _ _ _ _ _ F) as (A & M & PT & EC & _).
  unfold ff_decode_bfv. rewrite EC.
  rewrite (C62_decode k log_n qs ps t c l D val eps ntt a w m B A (or_intror MB) Hl (ff_gcd _ _ _ _ A PT N) FM Ha HB HD). cbn [bind].
  apply (enc_unslot _ _ _ _ _ _ _ F).
Qed.

(** The slots are ring homomorphisms, X -> X^(5^r) rotates both halves of the
    slots by r, and X -> X^(2n-1) exchanges the halves. *)
Theorem C69_slots :
  forall k log_n qs ps t c e, encoder_for k log_n qs ps t c e ->
  let n := (2 ^ Z.to_nat log_n)%nat in let slot := slot_value t (field_root e) n in
  forall f g i, (i < n)%nat ->
  slot (fun j => f j + g j) i = (slot f i + slot g i) mod t /\
  slot (fun j => - f j) i = (- slot f i) mod t /\
  slot (negacyclic n f g) i = (slot f i * slot g i) mod t /\
  (forall r, slot (substituted n (Z.to_nat (5 ^ Z.of_nat r mod (2 * Z.of_nat n))) f) i = slot f (rotated_slot n r i)) /\
  slot (substituted n (2 * n - 1) f) i = slot f (swapped_slot n i).
Proof.
  intros k log_n qs ps t c e F n slot f g i Hi. destruct (enc_parts _ _ _ _ _ _ _ F) as (A & M & PT & EC & HL & T & R & _).
  split; [apply slot_add|]. split; [apply (slot_neg _ HL); lia|]. split; [apply (slot_mul _ HL); [lia|exact R]|].
  split; [intros r; apply (slot_rotate _ HL); [lia|exact R|exact Hi]|apply (slot_swap _ HL); [lia|exact R|exact Hi]].
Qed.

(** Decryption of any BGV ciphertext with phase w: the slots of w. *)
Theorem C69_decrypt_bgv :
  forall k log_n qs ps t c e l D key sk x len w B, encoder_for k log_n qs ps t c e -> (l < length qs)%nat ->
  let n := (2 ^ Z.to_nat log_n)%nat in
  (forall q, In q qs -> q <> t) -> key_is (at_level c l) (Z.to_nat log_n) key sk -> (0 < len)%nat ->
  ciphertext (at_level c l) (Z.to_nat log_n) sk len 1 x w ->
  bounded n B w -> bgv_decodable t (firstn (S l) qs) B ->
  rsk_decrypt_bgv key (field_encoder D e) x = Ok (map (slot_value t (field_root e) n w) (seq 0 n)).
Proof.
  intros k log_n qs ps t c e l D key sk x len w B F Hl n N HK Hlen Hx Bw HB. destruct (enc_parts _ _ _ _ _ _ _ F) as (A & M & _).
  destruct (C59_decrypt k _ _ key sk (field_encoder D e) x len w (level_ok k log_n t qs ps c A M l) (level_ne k log_n t qs ps c A M l Hl) HK Hlen Hx)
    as (a & Ha & _ & E & _).
  rewrite E. cbn [field_encoder en_unbgv]. exact (C69_decode_bgv k log_n qs ps t c e l true a w B F Hl N Ha Bw HB).
Qed.

(** Products of ciphertexts multiply slot by slot; sums add. *)
Theorem C69_multiply_bgv :
  forall k log_n qs ps t c e l D key sk lx ly x y w v B, encoder_for k log_n qs ps t c e -> (l < length qs)%nat -> k <> 16 ->
  let n := (2 ^ Z.to_nat log_n)%nat in let slot := slot_value t (field_root e) n in
  (forall q, In q qs -> q <> t) -> key_is (at_level c l) (Z.to_nat log_n) key sk -> (0 < lx)%nat -> (0 < ly)%nat ->
  ciphertext (at_level c l) (Z.to_nat log_n) sk lx 1 x w -> ciphertext (at_level c l) (Z.to_nat log_n) sk ly 1 y v ->
  bounded n B (negacyclic n w v) -> bgv_decodable t (firstn (S l) qs) B ->
  exists z, rct_mul x y = Ok z /\
  rsk_decrypt_bgv key (field_encoder D e) z = Ok (map (fun i => (slot w i * slot v i) mod t) (seq 0 n)).
Proof.
  intros k log_n qs ps t c e l D key sk lx ly x y w v B F Hl K16 n slot N HK H1 H2 Hx Hy Bw HB. destruct (enc_parts _ _ _ _ _ _ _ F) as (A & M & _).
  destruct (C58_mul k _ _ sk lx ly 1 x y w v K16 (level_ok k log_n t qs ps c A M l) (level_ne k log_n t qs ps c A M l Hl) H1 Hx Hy) as (z & Ez & Hz).
  exists z. split; [exact Ez|]. rewrite (C69_decrypt_bgv k log_n qs ps t c e l D key sk z (lx + ly - 1) _ B F Hl N HK ltac:(lia) Hz Bw HB).
  f_equal. apply map_ext_in. intros i Hi. apply in_seq in Hi. apply (C69_slots k log_n qs ps t c e F w v i). lia.
Qed.

Theorem C69_add_bgv :
  forall k log_n qs ps t c e l D key sk len x y w v B, encoder_for k log_n qs ps t c e -> (l < length qs)%nat ->
  let n := (2 ^ Z.to_nat log_n)%nat in let slot := slot_value t (field_root e) n in
  (forall q, In q qs -> q <> t) -> key_is (at_level c l) (Z.to_nat log_n) key sk -> (0 < len)%nat ->
  ciphertext (at_level c l) (Z.to_nat log_n) sk len 1 x w -> ciphertext (at_level c l) (Z.to_nat log_n) sk len 1 y v ->
  bounded n B (fun i => w i + v i) -> bgv_decodable t (firstn (S l) qs) B ->
  exists z, rct_add x y = Ok z /\
  rsk_decrypt_bgv key (field_encoder D e) z = Ok (map (fun i => (slot w i + slot v i) mod t) (seq 0 n)).
Proof.
  intros k log_n qs ps t c e l D key sk len x y w v B F Hl n slot N HK H1 Hx Hy Bw HB. destruct (enc_parts _ _ _ _ _ _ _ F) as (A & M & _).
  destruct (C58_linear k _ _ sk len 1 x y w v (level_ok k log_n t qs ps c A M l) Hx Hy) as (_ & (z & Ez & Hz) & _).
  exists z. split; [exact Ez|]. rewrite (C69_decrypt_bgv k log_n qs ps t c e l D key sk z len _ B F Hl N HK H1 Hz Bw HB).
  f_equal. apply map_ext_in. intros i Hi. apply in_seq in Hi. apply (C69_slots k log_n qs ps t c e F w v i). lia.
Qed.

(** A fresh BGV encryption decrypts to the messages, followed by zeros. *)
Theorem C69_encrypt_decrypt_bgv :
  forall k log_n qs ps t c e l D R fuel key sk msgs s x s', encoder_for k log_n qs ps t c e -> (l < length qs)%nat ->
  let n := (2 ^ Z.to_nat log_n)%nat in
  k <> 16 -> prng_ok R -> (forall q, In q qs -> q <> t) ->
  key_is (at_level c l) (Z.to_nat log_n) key sk -> variance_fits (rsk_var key) (at_level c l) ->
  (length msgs <= n)%nat -> Forall (fun m => 0 <= m < t) msgs ->
  bgv_decodable t (firstn (S l) qs) (t / 2 + t * (2 * rsk_var key)) ->
  rsk_encrypt_bgv R fuel key (field_encoder D e) msgs s = Ok (x, s') ->
  rsk_decrypt_bgv key (field_encoder D e) x = Ok (padded n msgs).
Proof.
  intros k log_n qs ps t c e l D R fuel key sk msgs s x s' F Hl n K16 HR N HK HV Lm Fm HB Ex.
  destruct (enc_parts _ _ _ _ _ _ _ F) as (A & M & PT & EC & HL & T & RT & _).
  pose proof (ctx_t k log_n t qs ps c A M) as [Et Ht].
  pose proof (level_ok k log_n t qs ps c A M l) as OK. pose proof (level_ne k log_n t qs ps c A M l Hl) as NE.
  destruct (C69_encode_bgv k log_n qs ps t c e l msgs F Hl Lm) as (g & (p & Ep & Hp) & Gb & Gs).
  { eapply Forall_impl; [|exact Fm]. cbv beta. intros. lia. }
  assert (DI : distinct (at_level c l)) by (apply (level_distinct k log_n t qs ps c A M)).
  destruct (C59_encrypt_bgv k _ (at_level c l) R fuel key sk (field_encoder D e) msgs true p g s x s' OK NE DI K16 HR HK HV) as (a & s1 & er & _ & Be & Hx & _).
  { cbn [field_encoder en_t]. rewrite EC. lia. } { exact Ep. } { exact Hp. } { exact Ex. }
  cbn [field_encoder en_t] in Hx. rewrite EC, Et in Hx.
  rewrite (C69_decrypt_bgv k log_n qs ps t c e l D key sk x 2 _ (t / 2 + t * (2 * rsk_var key)) F Hl N HK ltac:(lia) Hx); [| |exact HB].
  - f_equal. fold n. assert (LP : length (padded n msgs) = n) by (unfold padded; rewrite app_length, repeat_length; lia).
    apply (nth_ext _ _ 0 0); [rewrite map_length, seq_length; congruence|]. rewrite map_length, seq_length. intros i Hi.
    match goal with |- nth i (map ?h _) 0 = _ => rewrite (nth_indep _ 0 (h 0%nat)) by (rewrite map_length, seq_length; exact Hi); rewrite (map_nth h), seq_nth by exact Hi end.
    cbn [Nat.add].
    assert (EN : nth i (padded n msgs) 0 = nth i msgs 0).
    { unfold padded. destruct (Nat.lt_ge_cases i (length msgs)); [apply app_nth1; assumption|].
      rewrite app_nth2, nth_repeat by assumption. symmetry. apply nth_overflow. assumption. }
    rewrite EN. rewrite (slot_ext _ HL t _ ltac:(lia) _ g).
    + rewrite (Gs i Hi). apply Z.mod_small. destruct (Nat.lt_ge_cases i (length msgs)) as [Hm|Hm]; [rewrite Forall_forall in Fm; apply Fm, nth_In, Hm|rewrite nth_overflow by exact Hm; lia].
    + intros j Hj. exists (er j). ring.
  - intros i Hi. cbv beta. specialize (Be i Hi). specialize (Gb i Hi).
    assert (T2 : Z.abs (g i) <= t / 2) by (apply Z.div_le_lower_bound; lia).
    pose proof (Z.abs_triangle (g i) (t * er i)) as TR. rewrite Z.abs_mul, (Z.abs_eq t) in TR by lia.
    pose proof (Z.mul_le_mono_nonneg_l _ _ t ltac:(lia) Be). lia.
Qed.

(** The same for BFV. *)
Theorem C69_encrypt_decrypt_bfv :
  forall k log_n qs ps t c e D val eps R R' fuel key sk msgs s r x s' r', encoder_for k log_n qs ps t c e -> ctx_create_bfv_ff k log_n qs ps t = Ok c ->
  (0 < length qs)%nat -> let n := (2 ^ Z.to_nat log_n)%nat in
  k <> 16 -> prng_ok R -> (forall q, In q qs -> q <> t) -> float_model D val eps ->
  key_is (rc_qs c) (Z.to_nat log_n) key sk -> variance_fits (rsk_var key) (rc_qs c) ->
  (length msgs <= n)%nat -> Forall (fun m => 0 <= m < t) msgs ->
  bfv_decodable k eps qs (t + t * (2 * rsk_var key)) ->
  rsk_encrypt_bfv R R' fuel key (field_encoder D e) msgs s r = Ok (x, s', r') ->
  rsk_decrypt_bfv key (field_encoder D e) x = Ok (padded n msgs).
Proof.
  intros k log_n qs ps t c e D val eps R R' fuel key sk msgs s r x s' r' F MB Hq n K16 HR N FM HK HV Lm Fm HB Ex.
  destruct (enc_parts _ _ _ _ _ _ _ F) as (A & M & PT & EC & HL & T & RT & _).
  destruct (ctx_qs_ok k log_n t qs ps c A M) as (OK & Mq & DI).
  pose proof (full_level k log_n t qs ps c A (or_intror MB) Hq) as FL.
  assert (NE : rc_qs c <> []) by (rewrite FL; apply (level_ne k log_n t qs ps c A M); lia).
  destruct (C69_encode_bfv k log_n qs ps t c e msgs F MB N Hq Lm) as (g & m & (p & Ep & Hp) & Hg & Hm & Hs).
  { eapply Forall_impl; [|exact Fm]. cbv beta. intros. lia. }
  destruct (C59_encrypt_bfv k _ (rc_qs c) R R' fuel key sk (field_encoder D e) msgs true p g s r x s' r' OK NE DI K16 HR HK HV) as (a & er & _ & Be & Hx & _).
  { exact Ep. } { exact Hp. } { exact Ex. }
  set (l := (length qs - 1)%nat) in *. assert (Hl' : (l < length qs)%nat) by (unfold l; lia).
  assert (FQ : firstn (S l) qs = qs) by (unfold l; replace (S (length qs - 1)) with (length qs) by lia; apply firstn_all).
  rewrite FL in HK, Hx.
  destruct (C59_decrypt k _ _ key sk (field_encoder D e) x 2 _ (level_ok k log_n t qs ps c A M l) (level_ne k log_n t qs ps c A M l Hl') HK ltac:(lia) Hx)
    as (b & Hb & _ & _ & Eb & _).
  rewrite Eb. cbn [field_encoder en_unbfv].
  rewrite (C69_decode_bfv k log_n qs ps t c e l D val eps true b _ m (t + t * (2 * rsk_var key)) F MB Hl' N FM Hb); [| |rewrite FQ; exact HB].
  - f_equal. fold n. assert (LP : length (padded n msgs) = n) by (unfold padded; rewrite app_length, repeat_length; lia).
    apply (nth_ext _ _ 0 0); [rewrite map_length, seq_length; congruence|]. rewrite map_length, seq_length. intros i Hi.
    match goal with |- nth i (map ?h _) 0 = _ => rewrite (nth_indep _ 0 (h 0%nat)) by (rewrite map_length, seq_length; exact Hi); rewrite (map_nth h), seq_nth by exact Hi end.
    cbn [Nat.add].
    assert (EN : nth i (padded n msgs) 0 = nth i msgs 0).
    { unfold padded. destruct (Nat.lt_ge_cases i (length msgs)); [apply app_nth1; assumption|].
      rewrite app_nth2, nth_repeat by assumption. symmetry. apply nth_overflow. assumption. }
    rewrite EN. unfold n in *. rewrite (Hs i Hi). apply Z.mod_small. destruct (Nat.lt_ge_cases i (length msgs)) as [H'|H']; [rewrite Forall_forall in Fm; apply Fm, nth_In, H'|rewrite nth_overflow by exact H'; lia].
  - rewrite FQ. intros i Hi. cbv beta. specialize (Be i Hi). specialize (Hg i Hi).
    replace (t * (g i + er i) - prodz qs * m i) with ((t * g i - prodz qs * m i) + t * er i) by ring.
    pose proof (Z.abs_triangle (t * g i - prodz qs * m i) (t * er i)) as TR. rewrite (Z.abs_mul t), (Z.abs_eq t) in TR by lia.
    pose proof (Z.mul_le_mono_nonneg_l _ _ t ltac:(lia) Be). lia.
Qed.

(** Degree 8, primes 97 and 193, plaintext modulus 17, variance 1. *)
Local Notation ctx17 := (ctx_create_bfv_ff 32 3 [97; 193] [] 17).
Example C69_example :
  (exists c e, encoder_for 32 3 [97; 193] [] 17 c e) /\ (forall q, In q [97; 193] -> q <> 17) /\
  bgv_decodable 17 [97; 193] (17 / 2 + 17 * (2 * 1)) /\ bfv_decodable 32 (1 # 2 ^ 53) [97; 193] (17 + 17 * (2 * 1)) /\
  (do! c <- ctx17; do! e <- ff_create c;
   do! ' (key, s) <- rsk_sample toy 3 1 (rc_qs c) 12345;
   do! ' (x, s) <- rsk_encrypt_bgv toy 200 key (field_encoder exact_dops e) [1; 14; 0; 3; 12] s;
   do! m <- rsk_decrypt_bgv key (field_encoder exact_dops e) x;
   do! ' (x, s, r) <- rsk_encrypt_bfv toy toy 200 key (field_encoder exact_dops e) [1; 14; 0; 3; 12] s 99;
   do! m' <- rsk_decrypt_bfv key (field_encoder exact_dops e) x; Ok (m, m')) = Ok ([1; 14; 0; 3; 12; 0; 0; 0], [1; 14; 0; 3; 12; 0; 0; 0]) /\
  map (rotated_slot 8 1) (seq 0 8) = [1; 2; 3; 0; 5; 6; 7; 4]%nat.
Proof.
  split.
  { assert (OK : match ctx17 with Ok _ => true | _ => false end = true) by (vm_compute; reflexivity).
    destruct ctx17 as [c| |] eqn:Ec; [|discriminate OK|discriminate OK]. clear OK. assert (A : ctx_args 32 [97; 193] [] 17).
    { destruct ex_primes as [P1 _]. pose proof (Forall_inv P1) as H1. pose proof (Forall_inv (Forall_inv_tail P1)) as H2.
      split; [right; left; reflexivity|]. split; [constructor; [exact H1|constructor; [exact H2|constructor]]|]. split; [constructor|].
      split; [repeat constructor; cbn; lia|]. cbn. lia. }
    assert (P : prime 17) by (apply (PrimeCheck.prime_by_trial _ 5%nat); [lia|vm_compute; reflexivity]).
    destruct (C69_create 32 3 [97; 193] [] 17 c A (or_intror Ec) P ltac:(lia)) as (e & E & _). exists c, e.
    split; [exact A|]. split; [right; exact Ec|]. split; [exact P|exact E]. }
  split; [intros q [<-|[<-|[]]]; lia|]. split; [vm_compute; split; [discriminate|reflexivity]|].
  split; [vm_compute; repeat split; discriminate|]. split; vm_compute; reflexivity.
Qed.

Print Assumptions C69_create.
Print Assumptions C69_create_errors.
Print Assumptions C69_create_degree_32768_refuted.
Print Assumptions C69_encode_bgv.
Print Assumptions C69_encode_errors.
Print Assumptions C69_decode_bgv.
Print Assumptions C69_decode_bgv_crt.
Print Assumptions C69_encode_bfv.
Print Assumptions C69_encode_bfv_unscaled.
Print Assumptions C69_decode_bfv.
Print Assumptions C69_slots.
Print Assumptions C69_decrypt_bgv.
Print Assumptions C69_multiply_bgv.
Print Assumptions C69_add_bgv.
Print Assumptions C69_encrypt_decrypt_bgv.
Print Assumptions C69_encrypt_decrypt_bfv.
