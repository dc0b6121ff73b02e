(** C78: messages from an untrusted sender.

    Deserialization of arbitrary messages and the use of what it returns have
    defined behaviour, under the stated conditions on the sizes announced in
    the messages; where a size or a power is not checked, a message is shown
    that makes a later call undefined. [storable] holds of every message that a
    protocol buffer can hold. *)
From Coq Require Import Znumtheory.
From Verif Require Import Base FinSum PolySpec NegRing Montgomery MontBatch Ntt Poly PolyExt Prng Sampling SymEnc Relin AuxRelin PubKey
  Spec SymSpec ArithFacts MontgomeryProofs TranscriptionProofs NttIndex NttFacts SampleProofs SymProofs2 ThmPoly ThmKeys ThmRelin
  RnsPoly RnsCtx RnsCtxSpec RnsCtxFacts RnsCtxProofs RnsSpec RnsCt RnsEncode RnsKey RnsExample
  UntrustedSpec UntrustedProofs UntrustedProofs2.

Lemma defined_iff {A} (r : result A) : defined r <-> r <> UB.
Proof. destruct r; cbn; split; intros; try congruence; try exact I; contradiction. Qed.

Lemma f2_length {A B} (P : A -> B -> Prop) l1 l2 : Forall2 P l1 l2 -> length l1 = length l2.
Proof. induction 1 as [|a b l1 l2 _ _ IH]; [reflexivity|cbn; congruence]. Qed.

(** ** Keys *)

(** a relinearization or Galois key message is refused, or gives a key with the
    announced number of parts, one column per digit, and random polynomials as
    long as the received ones; the only other outcome is a sampler that goes on *)
Theorem C78_relinearization_key :
  forall k m p np (F : genfam) fuel sr, params_for k m p -> (forall ty seed, gf_start F ty seed <> UB) -> storable (sr_c sr) ->
  match relin_deserialize F fuel sr p np with
  | Ok rk => rk_p rk = p /\ rk_np rk = np /\ rk_num rk = sr_num sr /\ rk_pow rk = sr_pow sr /\ 0 < sr_logT sr <= p_logm p /\
      Z.of_nat (length (rk_parts rk)) = sr_num sr - first_index (sr_pow sr) /\ rk_parts rk <> [] /\
      Forall (fun pt => pt_logT pt = sr_logT sr /\ Z.of_nat (length (pt_top pt)) = gadget_size p (sr_logT sr) /\
        Forall2 (fun a b => received p a /\ length b = length a /\ Forall (stored p) b) (pt_top pt) (pt_bot pt)) (rk_parts rk)
  | Err _ => True
  | UB => still_sampling (gf_prng F (sr_type sr)) fuel p
  end.
Proof.
  intros k m p np F fuel sr HP HF Hs. unfold relin_deserialize.
  destruct (Z.leb_spec (sr_num sr) (first_index (sr_pow sr))) as [|A]; [exact I|].
  set (ex := sr_num sr - first_index (sr_pow sr)) in *. set (l := Z.of_nat (length (sr_c sr))) in *.
  destruct (Z.eqb_spec (l mod ex) 0) as [B|]; cbn [negb]; [|exact I].
  destruct (Z.leb_spec (sr_logT sr) 0) as [|D]; [exact I|]. rewrite Z.gtb_ltb.
  destruct (Z.ltb_spec (p_logm p) (sr_logT sr)) as [|H]; [exact I|].
  destruct (Z.eqb_spec (l / ex) (gadget_size p (sr_logT sr))) as [G|]; cbn [negb]; [|exact I].
  destruct (known_type (sr_type sr)); cbn [negb]; [|exact I].
  pose proof (HF (sr_type sr) (sr_seed sr)) as N. destruct (gf_start F (sr_type sr) (sr_seed sr)) as [s|e|]; [|exact I|contradiction]. cbn [bind].
  assert (Hex : 0 < ex) by (unfold ex; lia). pose proof (gadget_pos p (sr_logT sr) ltac:(lia)) as Hg.
  rewrite G. set (g := gadget_size p (sr_logT sr)) in *.
  assert (Hl : l = ex * g) by (rewrite <- G, (Z.div_mod l ex) at 1 by lia; lia).
  pose proof (parts_deser_ok k m p (gf_prng F (sr_type sr)) fuel (sr_logT sr) (Z.to_nat g) HP (Z.to_nat ex) (sr_c sr) s) as Q.
  specialize (Q ltac:(apply Nat2Z.inj; rewrite Nat2Z.inj_mul, !Z2Nat.id by lia; fold l; lia) Hs).
  destruct (parts_deser _ _ _ _ _ _ _ _) as [parts|e|]; cbn [bind]; try exact Q. destruct Q as [Q1 Q2].
  cbn [rk_p rk_np rk_num rk_pow rk_parts]. do 4 (split; [reflexivity|]). split; [lia|]. split; [rewrite Q1; fold ex; lia|].
  split; [intros ->; cbn in Q1; lia|]. eapply Forall_impl; [|exact Q2]. cbv beta. intros pt (P1 & P2 & P3). split; [exact P1|]. split; [lia|exact P3].
Qed.

(** a public key message *)
Theorem C78_public_key :
  forall k m p np (F : genfam) fuel sp t, params_for k m p -> (forall ty seed, gf_start F ty seed <> UB) ->
  Z.of_nat (length (sp_coeffs (spk_b sp))) < 2 ^ 31 ->
  match pub_deserialize F fuel sp t p np with
  | Ok pk => received p (pk_b pk) /\ length (pk_a pk) = np_n np /\ Z.of_nat (length (pk_b pk)) = sp_num (spk_b sp)
  | Err _ => True
  | UB => still_sampling (gf_prng F (spk_type sp)) fuel p
  end.
Proof.
  intros k m p np F fuel sp t HP HF Hs. unfold pub_deserialize. destruct (known_type (spk_type sp)); cbn [negb]; [|exact I].
  pose proof (HF (spk_type sp) (spk_seed sp)) as N. destruct (gf_start F (spk_type sp) (spk_seed sp)) as [s|e|]; [|exact I|contradiction]. cbn [bind].
  destruct (sample_polynomial (gf_prng F (spk_type sp)) fuel (Z.of_nat (np_n np)) p s) as [[a s1]|e|] eqn:Ea; cbn [bind]; [|exact I|do 2 eexists; exact Ea].
  pose proof (deser_total k m p (spk_b sp) HP Hs) as Nb. destruct (poly_deserialize p (spk_b sp)) as [b|e|] eqn:Eb; cbn [bind]; [|exact I|contradiction].
  cbn [pk_b pk_a]. destruct (deser_received k m p _ b HP Hs Eb) as [R1 R2]. pose proof (pf_good _ _ _ HP) as (G & _ & _).
  destruct (sample_polynomial_stored _ p _ _ _ _ _ G Ea) as (La & _ & _). rewrite Nat2Z.id in La.
  split; [exact R1|]. split; [unfold poly_neg; rewrite map_length; exact La|exact R2].
Qed.

(** a secret key message; log_t is negative for no caller *)
Theorem C78_secret_key :
  forall k m mt p pt np variance log_t s, params_for k m p -> params_for k mt pt -> 0 <= log_t ->
  Z.of_nat (length (sp_coeffs s)) < 2 ^ 31 ->
  match key_deserialize variance log_t s p pt np with
  | Ok key => received p (sk_key key) /\ Z.of_nat (length (sk_key key)) = sp_num s
  | Err _ => True
  | UB => False
  end.
Proof.
  intros k m mt p pt np variance log_t s HP HPT Hlt Hs. unfold key_deserialize. rewrite Z.gtb_ltb.
  destruct (Z.ltb_spec (p_logm p - 1) log_t) as [|H]; [exact I|].
  pose proof (deser_total k m p s HP Hs) as N. destruct (poly_deserialize p s) as [a|e|] eqn:Ea; cbn [bind]; [|exact I|contradiction].
  unfold t_word. pose proof (pf_good _ _ _ HP) as (G & Ek & _). pose proof (pf_good _ _ _ HPT) as (_ & Ekt & _).
  pose proof (log_range p G) as (_ & LR & _). rewrite Ek in LR. rewrite Ekt.
  destruct (Z.eqb_spec k 16) as [K|K].
  - destruct (Z.leb_spec 31 log_t); [lia|]. cbn [bind sk_key]. apply (deser_received k m p s a HP Hs Ea).
  - destruct (Z.leb_spec k log_t); [lia|]. cbn [bind sk_key]. apply (deser_received k m p s a HP Hs Ea).
Qed.

(** an auxiliary-modulus key message with a component count below 2^30 *)
Theorem C78_auxiliary_key :
  forall k m mx p np px npx (F : genfam) fuel sa t, params_for k m p -> params_for k mx px ->
  (1 <= np_n np)%nat -> (1 <= np_n npx)%nat -> (forall ty seed, gf_start F ty seed <> UB) -> storable (sa_b sa) -> sa_num sa < 2 ^ 30 ->
  match aux_deserialize F fuel sa p np px npx t with
  | Ok ak => ak_pow ak = sa_pow sa /\ Forall (fun kc => received p (ac_b kc) /\ received px (ac_baux kc) /\
               length (ac_a kc) = np_n np /\ length (ac_aaux kc) = np_n npx) (ak_keys ak)
  | Err _ => True
  | UB => still_sampling (gf_prng F (sa_type sa)) fuel p \/ still_sampling (gf_prng F (sa_type sa)) fuel px
  end.
Proof.
  intros k m mx p np px npx F fuel sa t HP HPX Hn Hnx HF Hs Hnum. unfold aux_deserialize.
  destruct (Z.leb_spec (sa_num sa) 0) as [|H0]; [exact I|]. destruct (Z.leb_spec (2 ^ 31) (2 * sa_num sa)) as [|_]; [lia|].
  destruct (Z.eqb_spec (Z.of_nat (length (sa_b sa))) (2 * sa_num sa)) as [El|]; cbn [negb]; [|exact I].
  destruct (known_type (sa_type sa)); cbn [negb]; [|exact I].
  pose proof (HF (sa_type sa) (sa_seed sa)) as N. destruct (gf_start F (sa_type sa) (sa_seed sa)) as [s|e|]; [|exact I|contradiction]. cbn [bind].
  pose proof (aux_deser k m mx p np px npx (gf_prng F (sa_type sa)) fuel HP HPX Hn Hnx (sa_b sa) (sa_num sa) El Hs (length (sa_b sa)) 0 s ltac:(lia) ltac:(lia)) as Q.
  destruct (aux_deser_loop _ _ _ _ _ _ _ _ _ _ _) as [keys|e|]; cbn [bind]; try exact Q. cbn [ak_pow ak_keys]. auto.
Qed.

(** ... the product 2 * num_components overflows from 2^30 on; the same code
    reads the auxiliary Galois keys *)
Theorem C78_auxiliary_key_refuted :
  forall p np px npx (F : genfam) fuel sa t, 2 ^ 30 <= sa_num sa ->
  aux_deserialize F fuel sa p np px npx t = UB /\ auxgalois_deserialize F fuel sa p np px npx t = UB.
Proof.
  intros p np px npx F fuel sa t H. unfold auxgalois_deserialize, aux_deserialize.
  destruct (Z.leb_spec (sa_num sa) 0) as [|H0]; [lia|]. destruct (Z.leb_spec (2 ^ 31) (2 * sa_num sa)) as [|]; [auto|lia].
Qed.

(** ** Ciphertexts *)

Lemma ct_received k q p s x : params_for k q p -> storable (sc_c s) -> ct_deserialize p s = Ok x ->
  ct_p x = p /\ ct_pow x = sc_pow s /\ ct_c x <> [] /\
  Forall2 (fun c a => received p a /\ Z.of_nat (length a) = sp_num c) (sc_c s) (ct_c x).
Proof.
  intros HP Hs. unfold ct_deserialize. destruct (Z.leb_spec (Z.of_nat (length (sc_c s))) 0) as [|H0]; [discriminate|]. destruct (_ >? _); [discriminate|].
  destruct (seqr (map (poly_deserialize p) (sc_c s))) as [cs|e|] eqn:E; try discriminate. cbn [bind]. intros [= <-]. cbn [ct_make ct_p ct_pow ct_c].
  assert (Q : Forall2 (fun c a => received p a /\ Z.of_nat (length a) = sp_num c) (sc_c s) cs).
  { clear H0. revert cs E. induction Hs as [|c l Hc _ IH]; intros cs E; cbn [map seqr] in E; [injection E as <-; constructor|].
    destruct (poly_deserialize p c) as [a|e|] eqn:Ea; try discriminate. cbn [bind] in E. destruct (seqr (map (poly_deserialize p) l)) as [r|e|]; try discriminate.
    cbn [bind] in E. injection E as <-. constructor; [apply (deser_received k q p c a HP Hc Ea)|apply IH; reflexivity]. }
  do 2 (split; [reflexivity|]). split; [|exact Q]. intros ->. inversion Q as [E0|]. rewrite <- E0 in H0. cbn in H0. lia.
Qed.

Lemma received_nonempty p a : received p a -> a <> [].
Proof. intros [H _] ->. cbn in H. lia. Qed.

Lemma all_nonempty k q p s x : params_for k q p -> storable (sc_c s) -> ct_deserialize p s = Ok x -> Forall (fun a : poly => a <> []) (ct_c x).
Proof.
  intros HP Hs E. destruct (ct_received k q p s x HP Hs E) as (_ & _ & _ & F). clear -F. induction F as [|c a cs l [R _] _ IH]; constructor; [apply (received_nonempty p), R|exact IH].
Qed.

(** the arithmetic of two received ciphertexts, of whatever numbers of
    components, lengths and powers, with any plaintext *)
Theorem C78_arithmetic :
  forall k q p s1 s2 x y b z, params_for k q p -> k <> 16 -> storable (sc_c s1) -> storable (sc_c s2) ->
  ct_deserialize p s1 = Ok x -> ct_deserialize p s2 = Ok y ->
  ct_add x y <> UB /\ ct_sub x y <> UB /\ ct_mul x y <> UB /\ ct_absorb x b <> UB /\ ct_absorb_scalar x z <> UB /\
  ct_fused_absorb x y b <> UB.
Proof.
  intros k q p s1 s2 x y b z HP K H1 H2 E1 E2. pose proof (pf_good _ _ _ HP) as (_ & Ek & _).
  pose proof (all_nonempty k q p s2 y HP H2 E2) as N. destruct (ct_received k q p s1 x HP H1 E1) as (Ep & _ & _ & _).
  assert (K' : p_k (ct_p x) <> 16) by (rewrite Ep, Ek; exact K).
  rewrite <- !defined_iff. split; [apply d_ct_add, N|]. split; [apply d_ct_sub, N|]. split; [apply d_ct_mul, K'|]. split; [apply d_ct_absorb|].
  split; [apply d_ct_absorb_scalar|apply d_ct_fused, K'].
Qed.

(** decryption of a received ciphertext: an error, or 2^L values below t; it
    succeeds only if every component has 2^L coefficients *)
Theorem C78_decrypt :
  forall k q L t key s x, key_ok k q L t key -> 0 < t -> storable (sc_c s) -> ct_deserialize (sk_p key) s = Ok x ->
  match decrypt key x with
  | Ok v => length v = (2 ^ L)%nat /\ Forall (fun w => 0 <= w < t) v /\ exactly (2 ^ L) (sc_c s)
  | Err _ => True
  | UB => False
  end.
Proof.
  intros k q L t key s x K Ht Hs E. pose proof (ko_params _ _ _ _ _ K) as HP. pose proof (ko_key _ _ _ _ _ K) as HK.
  destruct (ct_received k q (sk_p key) s x HP Hs E) as (Ep & _ & _ & F).
  unfold decrypt, extract_error_and_message. destruct HK as [LK _]. rewrite LK. unfold poly_zero.
  rewrite poly_of_cons by (apply len_nonempty; rewrite repeat_length; apply pow2_gt0'). cbn [bind].
  set (z := repeat (import_zero (sk_p key)) (2 ^ L)).
  pose proof (d_extract key (ct_p x) (ct_c x) 0 (sk_key key) z) as D.
  destruct (extract_loop key (ct_p x) (ct_c x) 0 (sk_key key) z) as [acc|e|] eqn:El; cbn [bind]; [|exact I|exact D].
  destruct (extract_len key (ct_p x) (ct_c x) 0 (sk_key key) z acc El) as [La Lc]. unfold z in La, Lc. rewrite repeat_length in La, Lc.
  destruct (inverse_any (sk_p key) (sk_np key) acc) as (v & -> & Lv); [apply len_nonempty; rewrite La; apply pow2_gt0'|]. cbn [bind].
  rewrite (ko_t _ _ _ _ _ K). destruct (Z.eqb_spec t 0); [lia|]. unfold remove_error. destruct (Z.eqb_spec t 0); [lia|].
  split; [rewrite !map_length; congruence|]. split.
  - apply Forall_forall. intros w Hw. apply in_map_iff in Hw as (u & <- & _). apply Z.mod_pos_bound. exact Ht.
  - unfold exactly. clear -F Lc. induction F as [|c a cs l [_ R] _ IH]; [constructor|]. inversion Lc as [|? ? L1 L2]; subst. constructor; [rewrite <- R, L1; reflexivity|apply IH, L2].
Qed.

Lemma at_most_len p L np s (cs : list poly) : length (np_psis_c np) = (2 ^ L)%nat -> at_most (2 ^ L) s ->
  Forall2 (fun c a => received p a /\ Z.of_nat (length a) = sp_num c) s cs ->
  Forall (fun c : poly => c <> [] /\ (length c <= length (np_psis_c np))%nat) cs.
Proof.
  intros Ln H F. rewrite Ln. revert H. induction F as [|c a s cs [R1 R2] _ IH]; intros H; [constructor|]. inversion H as [|? ? H1 H2]; subst.
  constructor; [|apply IH, H2]. split; [apply (received_nonempty p), R1|lia].
Qed.

Lemma parts_shape k m p logT : params_for k m p -> 0 < logT <= p_logm p -> forall parts,
  Forall (fun pt => pt_logT pt = logT /\ Z.of_nat (length (pt_top pt)) = gadget_size p logT /\
    Forall2 (fun a b => received p a /\ length b = length a /\ Forall (stored p) b) (pt_top pt) (pt_bot pt)) parts ->
  Forall (part_shape p) parts.
Proof.
  intros HP HT parts H. pose proof (pf_good _ _ _ HP) as (G & _ & _). pose proof (log_range p G) as (_ & LR & _). pose proof (gadget_pos p logT HT) as Hg.
  eapply Forall_impl; [|exact H]. cbv beta. intros pt (P1 & P2 & P3). split; [intros E; rewrite E in P2; cbn in P2; lia|].
  split; [symmetry; apply (f2_length _ _ _ P3)|rewrite P1; lia].
Qed.

(** applying a received key to a received ciphertext whose components have at
    most 2^L coefficients, 2^L being the degree of the NTT parameters *)
Theorem C78_key_switching :
  forall k q L p np (F : genfam) fuel sr s rk x, params_for k q p -> ntt_for p L np -> k <> 16 ->
  (forall ty seed, gf_start F ty seed <> UB) -> storable (sr_c sr) -> storable (sc_c s) -> at_most (2 ^ L) (sc_c s) ->
  relin_deserialize F fuel sr p np = Ok rk -> ct_deserialize p s = Ok x ->
  relin_apply rk x <> UB /\ galois_apply rk x <> UB.
Proof.
  intros k q L p np F fuel sr s rk x HP HN K HF Hr Hs Hm Er Ex. pose proof (pf_good _ _ _ HP) as (_ & Ek & _).
  pose proof (C78_relinearization_key k q p np F fuel sr HP HF Hr) as D. rewrite Er in D.
  destruct D as (D1 & D2 & _ & _ & D3 & _ & D4 & D5). destruct (ct_received k q p s x HP Hs Ex) as (_ & _ & _ & FR).
  destruct (psis_len k q p L np HP HN) as [Ln _].
  assert (A : defined (relin_apply rk x)).
  { apply d_relin_apply; [rewrite D1, Ek; exact K|exact D4|rewrite D1; apply (parts_shape k q p (sr_logT sr) HP D3 _ D5)|].
    rewrite D2. apply (at_most_len p L np _ _ Ln Hm FR). }
  rewrite <- !defined_iff. split; [exact A|]. unfold galois_apply. destruct (negb _); [exact I|exact A].
Qed.

(** a longer component of a power of two of coefficients passes every check,
    and the transform of its digits reads past the end of the table of roots *)
Theorem C78_key_switching_oversized_refuted :
  forall k q L p np (F : genfam) fuel sr s rk x l, params_for k q p -> ntt_for p L np -> k <> 16 ->
  (forall ty seed, gf_start F ty seed <> UB) -> storable (sr_c sr) -> storable (sc_c s) ->
  relin_deserialize F fuel sr p np = Ok rk -> ct_deserialize p s = Ok x ->
  Z.of_nat (length (sc_c s)) <= sr_num sr -> (L < l)%nat ->
  option_map sp_num (nth_error (sc_c s) (Z.to_nat (first_index (sr_pow sr)))) = Some (2 ^ Z.of_nat l) ->
  relin_apply rk x = UB.
Proof.
  intros k q L p np F fuel sr s rk x l HP HN K HF Hr Hs Er Ex Hc Hl H1. pose proof (pf_good _ _ _ HP) as (_ & Ek & _).
  pose proof (C78_relinearization_key k q p np F fuel sr HP HF Hr) as D. rewrite Er in D.
  destruct D as (D1 & D2 & D0 & DP & D3 & _ & D4 & D5). destruct (ct_received k q p s x HP Hs Ex) as (_ & _ & _ & FR).
  destruct (psis_len k q p L np HP HN) as [Ln _].
  assert (Lx : length (ct_c x) = length (sc_c s)) by (symmetry; apply (f2_length _ _ _ FR)).
  unfold relin_apply. rewrite D0, Lx, Z.gtb_ltb. destruct (Z.ltb_spec (sr_num sr) (Z.of_nat (length (sc_c s)))) as [|_]; [lia|]. cbv zeta.
  destruct (nth_error (sc_c s) (Z.to_nat (first_index (sr_pow sr)))) as [c1|] eqn:E1; [|discriminate H1]. cbn [option_map] in H1. injection H1 as H1.
  assert (Q : exists a, nth_error (ct_c x) (Z.to_nat (first_index (sr_pow sr))) = Some a /\ Z.of_nat (length a) = sp_num c1).
  { clear -FR E1. revert E1. generalize (Z.to_nat (first_index (sr_pow sr))). induction FR as [|c a cs l' [_ R] _ IH]; intros i E1; [destruct i; discriminate E1|].
    destruct i as [|i]; [injection E1 as <-; exists a; auto|apply IH, E1]. }
  destruct Q as (a & Ea & La).
  assert (Ha : length a = (2 ^ l)%nat) by (apply Nat2Z.inj; rewrite La, H1, Nat2Z.inj_pow; reflexivity).
  assert (Hi : (Z.to_nat (first_index (sr_pow sr)) < length (sc_c s))%nat) by (apply nth_error_Some; rewrite E1; discriminate).
  assert (Hf : 1 <= first_index (sr_pow sr)) by (unfold first_index; destruct (identical_base _); lia).
  unfold ct_component at 1. rewrite DP. destruct (Z.gtb_spec 0 (first_index (sr_pow sr))) as [|_]; [lia|]. cbn [orb]. rewrite Z.geb_leb, Lx.
  destruct (Z.leb_spec (Z.of_nat (length (sc_c s))) (first_index (sr_pow sr))) as [|_]; [lia|].
  unfold get at 1. rewrite Ea. cbn [bind]. pose proof (parts_shape k q p (sr_logT sr) HP D3 _ D5) as PS.
  destruct (rk_parts rk) as [|pt parts]; [contradiction|]. rewrite D1, D2.
  rewrite (ub_apply_part p np pt a l); [reflexivity|rewrite Ek; exact K|apply (Forall_inv PS)|exact Ha|].
  rewrite Ln. pose proof (pow2_gt0' L). split; [lia|]. apply Nat.pow_lt_mono_r; lia.
Qed.

(** switching a received ciphertext to another modulus *)
Theorem C78_switch_modulus :
  forall k p q L Lq pp npp pq npq s x t, params_for k p pp -> params_for k q pq -> ntt_for pp L npp -> ntt_for pq Lq npq -> t <> 0 ->
  storable (sc_c s) -> ct_deserialize pp s = Ok x ->
  (at_most (2 ^ Lq) (sc_c s) -> ct_switch_modulus npp pq npq t x <> UB) /\
  (forall l c0, p mod t = q mod t -> hd_error (sc_c s) = Some c0 -> (Lq < l)%nat -> sp_num c0 = 2 ^ Z.of_nat l -> ct_switch_modulus npp pq npq t x = UB).
Proof.
  intros k p q L Lq pp npp pq npq s x t HP HQ HN HNQ Ht Hs Ex. destruct (ct_received k p pp s x HP Hs Ex) as (Ep & _ & _ & FR).
  destruct (psis_len k q pq Lq npq HQ HNQ) as [Ln _]. pose proof (pf_good _ _ _ HP) as (_ & _ & Em). pose proof (pf_good _ _ _ HQ) as (_ & _ & Emq).
  unfold ct_switch_modulus. destruct (Z.eqb_spec t 0); [contradiction|]. rewrite Ep. split.
  - intros Hm. rewrite <- defined_iff. destruct (negb _); [exact I|]. apply d_bind; [|intros; exact I]. apply d_seqr.
    pose proof (at_most_len pp Lq npq _ _ Ln Hm FR) as A. apply Forall_forall. intros r Hr. apply in_map_iff in Hr as (a & <- & Ha).
    destruct (proj1 (Forall_forall _ _) A a Ha) as [N Hl]. destruct (inverse_any pp npp a N) as (v & -> & Lv). cbn [bind].
    destruct (to_ntt_in pq npq (map (switch1 pp pq t) v)) as (w & ->); [apply len_nonempty; rewrite map_length, Lv; apply len_nonempty, N|rewrite map_length; lia|exact I].
  - intros l c0 Hpq Hh Hl Hn. rewrite Em, Emq, (proj2 (Z.eqb_eq _ _) Hpq). cbn [negb].
    destruct FR as [|c a cs ar [R1 R2] _]; [discriminate Hh|]. injection Hh as ->. cbn [map seqr].
    destruct (inverse_any pp npp a (received_nonempty pp a R1)) as (v & -> & Lv). cbn [bind].
    rewrite (to_ntt_out pq npq _ l); [reflexivity| |].
    + apply Nat2Z.inj. rewrite map_length, Lv, R2, Hn, Nat2Z.inj_pow. reflexivity.
    + rewrite Ln. pose proof (pow2_gt0' Lq). split; [lia|apply Nat.pow_lt_mono_r; lia].
Qed.

(** ** Substitution *)

Lemma substitute_exact np a pw : length (np_bitrevs np) = length a -> Forall (fun s => (s < length a)%nat) (np_bitrevs np) ->
  forall is idx out, (idx < length a)%nat -> Forall (fun i => (i < length a)%nat) is -> defined (substitute_loop np a pw is idx out).
Proof.
  intros Lb Hb. rewrite Forall_forall in Hb. induction is as [|i is IH]; intros idx out Hi H; cbn [substitute_loop]; [exact I|].
  inversion H as [|? ? H1 H2]; subst. rewrite (get_ok _ _ 0%nat) by lia. cbn [bind]. destruct (_ <=? _)%nat; [exact I|].
  rewrite (get_ok _ _ 0%nat) by lia. cbn [bind]. destruct (Nat.leb_spec (length a) (nth i (np_bitrevs np) 0%nat)) as [B|B].
  - pose proof (Hb (nth i (np_bitrevs np) 0%nat) ltac:(apply nth_In; lia)). lia.
  - rewrite (get_ok _ _ 0) by (apply Hb, nth_In; lia). cbn [bind]. apply IH; [apply Nat.mod_upper_bound; lia|exact H2].
Qed.

Lemma bitrevs_below k m p L np : params_for k m p -> ntt_for p L np -> Forall (fun s => (s < 2 ^ L)%nat) (np_bitrevs np).
Proof.
  intros HP HN. pose proof (init_wellformed k m p L np HP HN) as W. cbv zeta in W. destruct W as (_ & _ & _ & _ & _ & _ & _ & _ & _ & _ & B & _).
  rewrite B. apply Forall_forall. intros s Hs. apply in_map_iff in Hs as (i & <- & Hi). apply in_seq in Hi. rewrite <- bitrev_spec by lia. apply bitrev_lt.
Qed.

(** a received ciphertext whose components have 2^L coefficients, with a power
    whose product with the substitution power is an int *)
Theorem C78_substitute :
  forall k q L p np s x power, params_for k q p -> ntt_for p L np -> storable (sc_c s) -> exactly (2 ^ L) (sc_c s) ->
  ct_deserialize p s = Ok x -> - 2 ^ 31 <= sc_pow s * power < 2 ^ 31 -> ct_substitute np power x <> UB.
Proof.
  intros k q L p np s x power HP HN Hs He Ex Hw. destruct (ct_received k q p s x HP Hs Ex) as (_ & Epw & N & FR).
  destruct (psis_len k q p L np HP HN) as [_ Lb]. pose proof (bitrevs_below k q p L np HP HN) as Hb. rewrite <- defined_iff. unfold ct_substitute.
  assert (A : Forall (fun a : poly => length a = (2 ^ L)%nat) (ct_c x)).
  { clear -FR He. revert He. induction FR as [|c a cs l [_ R] _ IH]; intros He; [constructor|]. inversion He as [|? ? H1 H2]; subst.
    constructor; [apply Nat2Z.inj; congruence|apply IH, H2]. }
  apply d_bind.
  - apply d_seqr, Forall_forall. intros r Hr. apply in_map_iff in Hr as (a & <- & Ha). pose proof (proj1 (Forall_forall _ _) A a Ha) as La. cbv beta in La.
    unfold poly_substitute. destruct (Z.gtb_spec 0 power); [exact I|]. cbn [orb]. destruct (Z.eqb_spec (Z.rem power 2) 0); [exact I|]. cbn [orb]. rewrite Z.geb_leb.
    destruct (Z.leb_spec (2 * Z.of_nat (length a)) power); [exact I|]. apply substitute_exact; [congruence|rewrite La; exact Hb| |].
    + apply Nat.div_lt_upper_bound; lia.
    + apply Forall_forall. intros i Hi. apply in_seq in Hi. lia.
  - intros c _. destruct (ct_c x) as [|c0 cr]; [contradiction|]. cbn [get nth_error bind]. rewrite Epw.
    destruct (Z.ltb_spec (sc_pow s * power) (- 2 ^ 31)); [lia|]. destruct (Z.leb_spec (2 ^ 31) (sc_pow s * power)); [lia|]. cbn [orb].
    pose proof (Forall_inv A) as L0. cbv beta in L0. destruct (Nat.eqb_spec (2 * length c0) 0) as [Z0|]; [|exact I]. pose proof (pow2_gt0' L). lia.
Qed.

(** a first component longer than 2^L, of any length: the table of reversed
    indices is read past its end *)
Theorem C78_substitute_oversized_refuted :
  forall k q L p np s x power c0, params_for k q p -> ntt_for p L np -> storable (sc_c s) ->
  ct_deserialize p s = Ok x -> hd_error (sc_c s) = Some c0 -> 2 ^ Z.of_nat L < sp_num c0 ->
  Z.odd power = true -> 0 < power < 2 * sp_num c0 -> ct_substitute np power x = UB.
Proof.
  intros k q L p np s x power c0 HP HN Hs Ex Hh Hn Ho Hp. destruct (ct_received k q p s x HP Hs Ex) as (_ & _ & _ & FR).
  destruct (psis_len k q p L np HP HN) as [_ Lb]. pose proof (bitrevs_below k q p L np HP HN) as Hb. unfold ct_substitute.
  destruct FR as [|c a cs ar [R1 R2] _]; [discriminate Hh|]. injection Hh as ->. cbn [map seqr]. rewrite <- R2 in *.
  assert (E2 : 2 ^ Z.of_nat L = Z.of_nat (2 ^ L)) by (rewrite Nat2Z.inj_pow; reflexivity). rewrite E2 in Hn.
  unfold poly_substitute. destruct (Z.gtb_spec 0 power); [lia|]. cbn [orb]. destruct (Z.eqb_spec (Z.rem power 2) 0) as [Er|_].
  { rewrite Z.rem_mod_nonneg, Zmod_odd, Ho in Er by lia. discriminate Er. }
  cbn [orb]. rewrite Z.geb_leb. destruct (Z.leb_spec (2 * Z.of_nat (length a)) power); [lia|].
  rewrite (substitute_out np a (Z.to_nat power)); [reflexivity|lia| | |lia].
  - eapply Forall_impl; [|exact Hb]. cbv beta. intros; lia.
  - apply Nat.div_lt_upper_bound; lia.
Qed.

(** a power of s that is not reduced: the int product of the powers overflows *)
Theorem C78_substitute_power_refuted :
  forall k q p np s x power c, params_for k q p -> storable (sc_c s) -> ct_deserialize p s = Ok x ->
  seqr (map (fun a => poly_substitute np a power) (ct_c x)) = Ok c -> 2 ^ 31 <= sc_pow s * power -> ct_substitute np power x = UB.
Proof.
  intros k q p np s x power c HP Hs Ex Es Hw. destruct (ct_received k q p s x HP Hs Ex) as (_ & Epw & N & _).
  unfold ct_substitute. rewrite Es. cbn [bind]. destruct (ct_c x) as [|c0 cr]; [contradiction|]. cbn [get nth_error bind]. rewrite Epw.
  destruct (Z.leb_spec (2 ^ 31) (sc_pow s * power)); [|lia]. rewrite orb_true_r. reflexivity.
Qed.

(** ** RNS ciphertexts *)

(** DecryptBgv with the coefficient encoder of any ciphertext with a component *)
Theorem C78_rns_decrypt :
  forall k log_n qs ps t c lev (D : dops) key x, ctx_args k qs ps t -> ctx_made k log_n qs ps t c -> (lev < length qs)%nat ->
  rsk_ms key = at_level c lev -> (rp_logn (rsk_key key) < 31)%nat -> rt_c x <> [] ->
  rsk_decrypt_bgv key (coeff_encoder D c) x <> UB.
Proof.
  intros k log_n qs ps t c lev D key x HA HM Hlev Hms HL Hx. rewrite <- defined_iff. unfold rsk_decrypt_bgv. apply d_bind.
  - unfold rsk_check. destruct (negb _); [exact I|]. destruct (rt_c x); [contradiction|]. destruct (negb _); [exact I|]. destruct (negb _); exact I.
  - intros u _. pose proof (raw_decrypt_any key x HL) as Q. destruct (rsk_raw_decrypt key x) as [a|e|]; cbn [bind]; [|exact I|exact Q].
    destruct Q as (Q1 & Q2 & Q3). cbn [coeff_encoder en_unbgv].
    destruct (made_ok k log_n qs ps t c HA HM) as (_ & _ & Et & _). pose proof HA as (_ & _ & _ & _ & Ht).
    apply (decode_any (2 ^ rp_logn (rsk_key key)) (rp_logn (rsk_key key))); [reflexivity|lia|exact Q3| |exact Q1].
    rewrite Hms. apply (ctx_rows k log_n qs ps t c lev); assumption.
Qed.

(** a message without components is accepted; decryption, multiplication, and
    addition of a plaintext then read components_[0] *)
Theorem C78_rns_empty_refuted :
  forall s ms, src_c s = [] -> src_pow s = 1 ->
  exists x, rct_deserialize s ms = Ok x /\
    (forall key E, rsk_decrypt_bgv key E x = UB /\ rsk_decrypt_bfv key E x = UB) /\
    (forall y, rt_ms y = ms -> rt_pow y = 1 -> rct_mul x y = UB) /\
    (forall b, length (rp_vs b) = length ms -> rct_add_plain x b = UB /\ rct_sub_plain x b = UB) /\
    (forall power, rct_substitute x power = UB).
Proof.
  intros s ms Hc Hp. exists (rct_make [] ms 1). unfold rct_deserialize. rewrite Hc, Hp. split; [reflexivity|]. split; [intros; split; reflexivity|].
  split; [intros y E1 E2; unfold rct_mul; cbn [rct_make rt_ms rt_pow rt_c]; rewrite E1, E2; unfold same_len; rewrite Nat.eqb_refl; reflexivity|].
  split; [|reflexivity]. intros b Hb. unfold rct_add_plain, rct_sub_plain. cbn [rct_make rt_ms rt_c]. unfold same_len. rewrite Hb, Nat.eqb_refl. split; reflexivity.
Qed.

(** ** Examples *)

(** n coefficients, all words 2^20 - 1, above the modulus 786433 *)
Definition junk (n : nat) : ser_poly := {| sp_coeffs := repeat 255 (20 * n / 8); sp_num := Z.of_nat n |}.
Definition junk_ct (ns : list nat) (pow : Z) : ser_ct := {| sc_c := map junk ns; sc_pow := pow |}.
Definition outcome {A} (r : result A) : Z := match r with Ok _ => 0 | Err _ => 1 | UB => 2 end.

Example C78_hypotheses :
  params_for 32 786433 pr /\ ntt_for pr 3 npr /\ key_ok 32 786433 3 3 keyr /\
  (forall ty seed, gf_start toys ty seed <> UB) /\ storable (sc_c (junk_ct [8; 4; 8; 16]%nat 1)) /\
  at_most (2 ^ 3) (sc_c (junk_ct [8; 4; 8]%nat 1)) /\ exactly (2 ^ 3) (sc_c (junk_ct [8; 8]%nat 1)) /\
  match relin_serialize rkr with Ok sr => storable (sr_c sr) /\ sr_pow sr = 1 /\ sr_num sr = 3 | _ => False end.
Proof.
  pose proof (proj1 keyr_ok) as EK. destruct EK as [K _ _]. split; [exact pr_for|]. split; [exact npr_for|]. split; [exact K|].
  split; [intros ty [|z [|z' zs]] E; discriminate E|]. split; [repeat constructor|]. split; [repeat constructor; vm_compute; discriminate|]. split; [repeat constructor|].
  assert (Q : match relin_serialize rkr with Ok sr => forallb (fun c => Z.of_nat (length (sp_coeffs c)) <? 2 ^ 31) (sr_c sr) = true /\ sr_pow sr = 1 /\ sr_num sr = 3 | _ => False end)
    by (vm_compute; auto).
  destruct (relin_serialize rkr) as [sr|e|]; try exact Q. destruct Q as (Q1 & Q2). split; [|exact Q2].
  apply Forall_forall. intros c Hc. rewrite forallb_forall in Q1. apply Z.ltb_lt, Q1, Hc.
Qed.

(** received ciphertexts with components of different lengths: errors, results,
    and the undefined calls *)
Example C78_example :
  (do! x <- ct_deserialize pr (junk_ct [8; 8]%nat 1); decrypt keyr x) <> Err InvalidArgument /\
  outcome (do! x <- ct_deserialize pr (junk_ct [8; 4]%nat 1); decrypt keyr x) = 1 /\
  outcome (do! x <- ct_deserialize pr (junk_ct [8; 8]%nat 1); do! y <- ct_deserialize pr (junk_ct [8; 4; 2]%nat 1); ct_add x y) = 1 /\
  outcome (do! x <- ct_deserialize pr (junk_ct [8; 8; 8]%nat 1); relin_apply rkr x) = 0 /\
  outcome (do! x <- ct_deserialize pr (junk_ct [8; 8; 4]%nat 1); relin_apply rkr x) = 1 /\
  outcome (do! x <- ct_deserialize pr (junk_ct [8; 8; 12]%nat 1); relin_apply rkr x) = 1 /\
  outcome (do! x <- ct_deserialize pr (junk_ct [8; 8; 16]%nat 1); relin_apply rkr x) = 2 /\
  outcome (do! x <- ct_deserialize pr (junk_ct [8; 8]%nat 1); ct_substitute npr 5 x) = 0 /\
  outcome (do! x <- ct_deserialize pr (junk_ct [10; 8]%nat 1); ct_substitute npr 5 x) = 2 /\
  outcome (do! x <- ct_deserialize pr (junk_ct [8; 8]%nat (2 ^ 29)); ct_substitute npr 5 x) = 2 /\
  outcome (do! sr <- relin_serialize rkr;
    relin_deserialize toys 100 {| sr_c := map (fun _ => junk 8) (sr_c sr); sr_logT := sr_logT sr; sr_num := sr_num sr; sr_seed := sr_seed sr;
        sr_type := sr_type sr; sr_pow := sr_pow sr |} pr npr) = 0.
Proof. split; [vm_compute; discriminate|]. vm_compute. repeat split. Qed.

Print Assumptions C78_relinearization_key.
Print Assumptions C78_public_key.
Print Assumptions C78_secret_key.
Print Assumptions C78_auxiliary_key.
Print Assumptions C78_auxiliary_key_refuted.
Print Assumptions C78_arithmetic.
Print Assumptions C78_decrypt.
Print Assumptions C78_key_switching.
Print Assumptions C78_key_switching_oversized_refuted.
Print Assumptions C78_switch_modulus.
Print Assumptions C78_substitute.
Print Assumptions C78_substitute_oversized_refuted.
Print Assumptions C78_substitute_power_refuted.
Print Assumptions C78_rns_decrypt.
Print Assumptions C78_rns_empty_refuted.
