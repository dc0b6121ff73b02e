(** C44-C48: serialization of ciphertexts and secret keys, arithmetic on secret
    keys, equality of polynomials, substitution in keys. *)
From Coq Require Import Arith Znumtheory.
From Verif Require Import Base FinSum PolySpec Ring ZLemmas Montgomery MontBatch Ntt Poly PolyExt Prng Sampling SampleSpec MontgomeryProofs
  MontBatchProofs NttIndex NttMath NttProofs Spec PolyView ArithFacts NttFacts PolyProofs PolyFacts ThmPoly
  SymEnc SymSpec SymProofs SymProofs2 SymFacts SymSwitch ThmSymEnc Relin RelinSpec RelinProofs ThmRelin Expand ExpandSpec ExpandProofs ExpandProofs2 ThmExpand.
Local Notation zsum := FinSum.zsum.

(** ** C44: ciphertext serialization *)

Lemma seqr_round {A B} (f : A -> result B) (g : B -> result A) l :
  Forall (fun a => exists s, f a = Ok s /\ g s = Ok a) l ->
  exists s, seqr (map f l) = Ok s /\ length s = length l /\ seqr (map g s) = Ok l.
Proof.
  intros H. induction H as [|a l (s & E1 & E2) _ (ss & I1 & I2 & I3)]; cbn [map seqr].
  - exists []. repeat split.
  - rewrite E1. cbn [bind]. rewrite I1. cbn [bind]. exists (s :: ss). split; [reflexivity|]. split; [cbn; congruence|].
    cbn [map seqr]. rewrite E2. cbn [bind]. rewrite I3. reflexivity.
Qed.

Theorem C44_round_trip :
  forall k q p x, params_for k q p -> ct_p x = p -> 0 < Z.of_nat (length (ct_c x)) <= 2 ^ 15 ->
  Forall (fun a => Forall (stored p) a /\ 0 < Z.of_nat (length a) <= 2 ^ 15) (ct_c x) ->
  exists s, ct_serialize x = Ok s /\
    exists y, ct_deserialize p s = Ok y /\ ct_c y = ct_c x /\ ct_pow y = ct_pow x /\ ct_p y = p /\ ct_lazy y = [].
Proof.
  intros k q p x HP Ep Hl Hc. unfold ct_serialize. rewrite Ep.
  destruct (seqr_round (poly_serialize p) (poly_deserialize p) (ct_c x)) as (c & E1 & E2 & E3).
  { eapply Forall_impl; [|exact Hc]. intros a [Sa La]. destruct (C20_serialize k q p a HP Sa ltac:(lia) ltac:(lia)) as (s & A & _ & B). eauto. }
  rewrite E1. cbn [bind]. eexists. split; [reflexivity|]. unfold ct_deserialize, max_num_coeffs. cbn [sc_c sc_pow]. rewrite E2, Z.gtb_ltb.
  destruct (Z.leb_spec (Z.of_nat (length (ct_c x))) 0); [lia|]. destruct (Z.ltb_spec (2 ^ 15) (Z.of_nat (length (ct_c x)))); [lia|].
  rewrite E3. cbn [bind]. eexists. split; [reflexivity|]. repeat split.
Qed.

(** the restored ciphertext decrypts like the original *)
Theorem C44_decrypts :
  forall k q L t key x s, key_ok k q L t key -> ct_ok L key x -> (L <= 15)%nat -> 0 < Z.of_nat (length (ct_c x)) <= 2 ^ 15 ->
  ct_serialize x = Ok s -> exists y, ct_deserialize (sk_p key) s = Ok y /\ ct_ok L key y /\ decrypt key y = decrypt key x.
Proof.
  intros k q L t key x s K [Ep Fx] HL Hl E.
  destruct (C44_round_trip k q (sk_p key) x (ko_params _ _ _ _ _ K) Ep Hl) as (s' & Es & y & Ey & Y1 & Y2 & Y3 & Y4).
  { eapply Forall_impl; [|exact Fx]. intros a [La Sa]. split; [exact Sa|]. rewrite La, Nat2Z.inj_pow. change (Z.of_nat 2) with 2.
    split; [apply Z.pow_pos_nonneg; lia|apply Z.pow_le_mono_r; lia]. }
  rewrite Es in E. injection E as ->. exists y. split; [exact Ey|]. split; [split; [exact Y3|rewrite Y1; exact Fx]|].
  unfold decrypt, extract_error_and_message. rewrite Y1, Y3, Ep. reflexivity.
Qed.

(** arbitrary messages: no undefined behaviour, and only well-formed shapes
    are accepted *)
Theorem C44_deserialize_total :
  forall k q p s, params_for k q p -> Forall (fun c => Z.of_nat (length (sp_coeffs c)) < 2 ^ 31) (sc_c s) ->
  match ct_deserialize p s with
  | Ok y => 0 < Z.of_nat (length (sc_c s)) <= 2 ^ 15 /\ length (ct_c y) = length (sc_c s) /\ ct_pow y = sc_pow s /\
      Forall (fun a => 0 < Z.of_nat (length a) <= 2 ^ 15 /\ Forall (fun w => 0 <= w < 2 ^ p_logm p) a) (ct_c y)
  | Err c => c = InvalidArgument
  | UB => False
  end.
Proof.
  intros k q p s HP Hs. unfold ct_deserialize, max_num_coeffs. rewrite Z.gtb_ltb.
  destruct (Z.leb_spec (Z.of_nat (length (sc_c s))) 0); [reflexivity|]. destruct (Z.ltb_spec (2 ^ 15) (Z.of_nat (length (sc_c s)))); [reflexivity|].
  assert (I : match seqr (map (poly_deserialize p) (sc_c s)) with
    | Ok c => length c = length (sc_c s) /\ Forall (fun a => 0 < Z.of_nat (length a) <= 2 ^ 15 /\ Forall (fun w => 0 <= w < 2 ^ p_logm p) a) c
    | Err c => c = InvalidArgument | UB => False end).
  { clear - HP Hs. induction Hs as [|c cs Hc _ IH]; cbn [map seqr]; [split; [reflexivity|constructor]|].
    pose proof (C20_deserialize_total k q p c HP Hc) as D. destruct (poly_deserialize p c) as [a|e|]; [|exact (proj1 D)|exact D].
    cbn [bind]. destruct (seqr (map (poly_deserialize p) cs)) as [r|e|]; cbn [bind]; try exact IH.
    destruct IH as [I1 I2]. split; [cbn; congruence|]. constructor; [split; [lia|apply D]|exact I2]. }
  destruct (seqr (map (poly_deserialize p) (sc_c s))) as [r|e|]; cbn [bind]; try exact I.
  cbn [ct_make ct_c ct_pow]. split; [lia|]. split; [apply I|]. split; [reflexivity|apply I].
Qed.

Theorem C44_rejects :
  forall p s, sc_c s = [] \/ 2 ^ 15 < Z.of_nat (length (sc_c s)) -> ct_deserialize p s = Err InvalidArgument.
Proof.
  intros p s H. unfold ct_deserialize, max_num_coeffs. rewrite Z.gtb_ltb.
  destruct (Z.leb_spec (Z.of_nat (length (sc_c s))) 0); [reflexivity|]. destruct (Z.ltb_spec (2 ^ 15) (Z.of_nat (length (sc_c s)))); [reflexivity|].
  destruct H as [H|H]; [rewrite H in *; cbn in *; lia|lia].
Qed.

(** ** C45: key serialization *)

(** any key whose plaintext modulus is 2^log_t + 1 over its own parameters *)
Lemma key_round k q L t key tw : key_ok k q L t key -> (L <= 15)%nat -> sk_logt key <= p_logm (sk_p key) - 1 ->
  t_word (sk_pt key) (sk_logt key) = Ok tw -> sk_t key = import_int (sk_pt key) tw ->
  exists s, key_serialize key = Ok s /\
    key_deserialize (sk_var key) (sk_logt key) s (sk_p key) (sk_pt key) (sk_np key) = Ok key.
Proof.
  intros K HL Hl Ew Et. destruct (ko_key _ _ _ _ _ K) as [La Sa].
  assert (Hlen : 0 < Z.of_nat (length (sk_key key)) <= 2 ^ 15).
  { rewrite La, Nat2Z.inj_pow. change (Z.of_nat 2) with 2. split; [apply Z.pow_pos_nonneg; lia|apply Z.pow_le_mono_r; lia]. }
  destruct (C20_serialize k q (sk_p key) (sk_key key) (ko_params _ _ _ _ _ K) Sa ltac:(lia) ltac:(lia)) as (s & A & _ & B).
  exists s. split; [exact A|]. unfold key_deserialize. rewrite Z.gtb_ltb. destruct (Z.ltb_spec (p_logm (sk_p key) - 1) (sk_logt key)); [lia|].
  rewrite B. cbn [bind]. rewrite Ew. cbn [bind]. rewrite <- Et. destruct key; reflexivity.
Qed.

(** a sampled key survives *)
Theorem C45_round_trip :
  forall k q p np L (R : prng) v l s key s', params_for k q p -> ntt_for p L np -> prng_ok R ->
  0 <= v -> 2 * v <= q -> 0 <= l -> 2 ^ l + 1 < q -> (L <= 15)%nat ->
  key_sample R L v l p np s = Ok (key, s') ->
  exists sk, key_serialize key = Ok sk /\ (l <= p_logm p - 1 -> key_deserialize v l sk p p np = Ok key).
Proof.
  intros k q p np L R v l s key s' HP HN HR Hv Hvq Hl Ht HL E.
  destruct (sample_key_ok k q p np L R v l s key s' HP HN HR Hv Hvq Hl Ht E) as ([K EP ST] & I2 & I3 & I4 & I5 & _).
  destruct (pf_good _ _ _ HP) as (G & _ & Eq). rewrite <- Eq in Ht.
  assert (Ew : t_word p l = Ok (2 ^ l + 1)) by (apply t_word_ok; [exact G|]; split; [exact Hl|apply t_small; assumption]).
  assert (Et : sk_t key = import_int p (2 ^ l + 1)).
  { unfold key_sample in E. destruct (sample_error R p (2 ^ L) v s) as [[e s1]| |]; try discriminate. cbn [bind] in E.
    destruct (convert_to_ntt p np e) as [a| |]; try discriminate. cbn [bind] in E. rewrite Ew in E. cbn [bind] in E. injection E as <- <-. reflexivity. }
  assert (Hs : exists sk, key_serialize key = Ok sk).
  { destruct (ko_key _ _ _ _ _ K) as [La Sa].
    destruct (C20_serialize k q (sk_p key) (sk_key key) (ko_params _ _ _ _ _ K) Sa) as (sk & A & _); [rewrite La; apply n_pos| |exists sk; exact A].
    rewrite La, Nat2Z.inj_pow. change (Z.of_nat 2) with 2. apply Z.pow_le_mono_r; lia. }
  destruct Hs as [sk Es]. exists sk. split; [exact Es|]. intros Hlog.
  destruct (key_round k q L (2 ^ l + 1) key (2 ^ l + 1) K HL) as (sk' & A & B).
  - rewrite I5, I2. exact Hlog.
  - rewrite EP, I5, I2. exact Ew.
  - rewrite EP, I2. exact Et.
  - rewrite Es in A. injection A as <-. rewrite I4, I5, EP, I2, I3 in B. exact B.
Qed.

Theorem C45_rejects :
  forall v l s p pt np, p_logm p - 1 < l -> key_deserialize v l s p pt np = Err InvalidArgument.
Proof. intros v l s p pt np H. unfold key_deserialize. rewrite Z.gtb_ltb. destruct (Z.ltb_spec (p_logm p - 1) l); [reflexivity|lia]. Qed.

(** ** C46: key arithmetic *)

Lemma with_key_ok k q L t key a : key_ok k q L t key -> ntt_poly (sk_p key) L a -> key_ok k q L t (with_key key a).
Proof. intros [A B D E] Ha. split; assumption. Qed.

Theorem C46_add_sub :
  forall k q L t x y, key_ok k q L t x -> key_ok k q L t y -> sk_p y = sk_p x -> sk_np y = sk_np x ->
  (sk_var x = sk_var y /\ sk_logt x = sk_logt y /\ sk_t x = sk_t y ->
   exists a b, key_add x y = Ok a /\ key_sub x y = Ok b /\ key_ok k q L t a /\ key_ok k q L t b /\
     (sk_var a = sk_var x /\ sk_logt a = sk_logt x /\ sk_t a = sk_t x /\ sk_p a = sk_p x /\ sk_np a = sk_np x) /\
     (sk_var b = sk_var x /\ sk_logt b = sk_logt x /\ sk_t b = sk_t x /\ sk_p b = sk_p x /\ sk_np b = sk_np x) /\
     forall i, (i < 2 ^ L)%nat -> secret a i = (secret x i + secret y i) mod q /\ secret b i = (secret x i - secret y i) mod q) /\
  (sk_var x <> sk_var y \/ sk_logt x <> sk_logt y \/ sk_t x <> sk_t y ->
   key_add x y = Err InvalidArgument /\ key_sub x y = Err InvalidArgument).
Proof.
  intros k q L t x y Kx Ky Ep En. unfold key_add, key_sub, key_compatible, meqb. split.
  - intros (E1 & E2 & E3). rewrite E1, E2, E3, !Z.eqb_refl. cbn [andb negb].
    pose proof (ko_key _ _ _ _ _ Ky) as Hy. rewrite Ep in Hy. pose proof (ko_key _ _ _ _ _ Kx) as Hx.
    destruct (C18_add_sub_neg k q (sk_p x) L (sk_np x) (sk_key x) (sk_key y) (ko_params _ _ _ _ _ Kx) (ko_ntt _ _ _ _ _ Kx) Hx Hy)
      as ((a & Ea & Ha & Va) & (b & Eb & Hb & Vb) & _).
    rewrite Ea, Eb. cbn [bind]. exists (with_key x a), (with_key x b). do 2 (split; [reflexivity|]).
    split; [apply with_key_ok; assumption|]. split; [apply with_key_ok; assumption|].
    split; [cbn [with_key sk_var sk_logt sk_t sk_p sk_np]; auto|]. split; [cbn [with_key sk_var sk_logt sk_t sk_p sk_np]; auto|].
    intros i Hi. unfold secret. cbn [with_key sk_p sk_np sk_key]. rewrite (Va i Hi), (Vb i Hi), Ep, En.
    pose proof (key_q _ _ _ _ _ Kx) as Eq. rewrite Eq. split; reflexivity.
  - intros H. assert (E : (sk_var x =? sk_var y) && (sk_logt x =? sk_logt y) && (sk_t x =? sk_t y) = false).
    { destruct (Z.eqb_spec (sk_var x) (sk_var y)), (Z.eqb_spec (sk_logt x) (sk_logt y)), (Z.eqb_spec (sk_t x) (sk_t y)); try reflexivity.
      exfalso. tauto. }
    rewrite E. split; reflexivity.
Qed.

(** encryptions under two keys that share their second component add up to
    an encryption under the sum of the keys *)
Theorem C46_key_homomorphic :
  forall k q L t x y z a0 b0 s0 c1 f g, key_ok k q L t x -> key_ok k q L t y -> sk_p y = sk_p x -> sk_np y = sk_np x ->
  key_add x y = Ok z -> ntt_poly (sk_p x) L a0 -> ntt_poly (sk_p x) L b0 -> ntt_poly (sk_p x) L c1 ->
  carries L x (ct_make (sk_p x) [a0; c1] 1) f -> carries L y (ct_make (sk_p x) [b0; c1] 1) g ->
  poly_add (sk_p x) a0 b0 = Ok s0 ->
  carries L z (ct_make (sk_p x) [s0; c1] 1) (fun i => f i + g i).
Proof.
  intros k q L t x y z a0 b0 s0 c1 f g Kx Ky Ep En Ez Ha Hb Hc Cf Cg Es.
  destruct (C46_add_sub k q L t x y Kx Ky Ep En) as [A B].
  assert (CP : sk_var x = sk_var y /\ sk_logt x = sk_logt y /\ sk_t x = sk_t y).
  { destruct (Z.eq_dec (sk_var x) (sk_var y)) as [|n1]; [|rewrite (proj1 (B (or_introl n1))) in Ez; discriminate].
    destruct (Z.eq_dec (sk_logt x) (sk_logt y)) as [|n2]; [|rewrite (proj1 (B (or_intror (or_introl n2)))) in Ez; discriminate].
    destruct (Z.eq_dec (sk_t x) (sk_t y)) as [|n3]; [|rewrite (proj1 (B (or_intror (or_intror n3)))) in Ez; discriminate]. auto. }
  destruct (A CP) as (z' & zb & Ez' & _ & Kz & _ & (_ & _ & _ & Pz & Nz) & _ & Sz). assert (z' = z) by congruence. subst z'.
  pose proof (key_ctx _ _ _ _ _ Kx) as C. pose proof (key_q _ _ _ _ _ Kx) as Eq.
  destruct (add_pw (sk_p x) L (sk_np x) C a0 b0 Ha Hb) as (s' & Es' & Hs & Vs). rewrite Es in Es'. injection Es' as <-.
  assert (O1 : ct_ok L x (ct_make (sk_p x) [a0; c1] 1)) by (split; [reflexivity|repeat constructor; apply Ha || apply Hc]).
  assert (O2 : ct_ok L y (ct_make (sk_p x) [b0; c1] 1)) by (split; [cbn; congruence|rewrite Ep; repeat constructor; apply Hb || apply Hc]).
  assert (O3 : ct_ok L z (ct_make (sk_p x) [s0; c1] 1)) by (split; [cbn; congruence|rewrite Pz; repeat constructor; apply Hs || apply Hc]).
  apply (carries_at k q L t z Kz _ _ O3). intros j Hj.
  apply (proj1 (carries_at k q L t x Kx _ _ O1)) with (j := j) in Cf; [|exact Hj].
  apply (proj1 (carries_at k q L t y Ky _ _ O2)) with (j := j) in Cg; [|exact Hj].
  rewrite Ep, En in Cg. rewrite Pz, Nz. rewrite <- Eq in *. cbn [ct_make ct_c SymProofs.hv] in *. rewrite ev_add. rewrite <- Cf, <- Cg.
  assert (ES : cong (p_m (sk_p x)) (ev L (ntt_root (sk_p x) (sk_np x)) (secret z) j)
     (ev L (ntt_root (sk_p x) (sk_np x)) (secret x) j + ev L (ntt_root (sk_p x) (sk_np x)) (secret y) j)).
  { rewrite <- ev_add. apply ev_cong. intros i Hi. rewrite (proj1 (Sz i Hi)). apply cong_mod. }
  rewrite ES, (Vs j Hj). apply cong_eq. ring.
Qed.

(** under the null key the first component is the plaintext *)
Theorem C46_null_key :
  forall k q p np L v l, params_for k q p -> ntt_for p L np -> 0 <= l -> 2 ^ l + 1 < q ->
  exists key, key_null L v l p np = Ok key /\ enc_key k q L (2 ^ l + 1) key /\ sk_p key = p /\ sk_np key = np /\
    sk_var key = v /\ sk_logt key = l /\ (forall i, (i < 2 ^ L)%nat -> secret key i = 0) /\
    forall x c0 cs, ct_ok L key x -> ct_c x = c0 :: cs ->
      decrypt key x = Ok (tabulate (2 ^ L) (fun i => centered q (coeff p np c0 i) mod (2 ^ l + 1))).
Proof.
  intros k q p np L v l HP HN Hl Ht. destruct (mk_ctx k q p L np HP HN) as (C & Ek & Eq). pose proof (proj1 C) as G.
  destruct (zero_at p L np C) as (z & Ez & Hz & Vz). unfold key_null. rewrite Ez. cbn [bind].
  rewrite <- Eq in Ht. rewrite (t_word_ok p l G (conj Hl (t_small p l G Hl Ht))). cbn [bind]. eexists. split; [reflexivity|].
  destruct (t_export p l G Hl Ht) as [T1 T2].
  set (key := {| sk_key := z; sk_var := v; sk_logt := l; sk_t := import_int p (2 ^ l + 1); sk_p := p; sk_pt := p; sk_np := np |}).
  assert (K : key_ok k q L (2 ^ l + 1) key) by (split; assumption).
  split; [split; [exact K|reflexivity|apply crep_rep, T1]|]. do 4 (split; [reflexivity|]).
  assert (S0 : forall i, (i < 2 ^ L)%nat -> cong (p_m p) (secret key i) 0).
  { apply (ev_inj p G L np (ntt_root p np) (proj2 C)). intros j Hj. change (secret key) with (coeff p np z). rewrite <- (coeff_at p L np C z j Hz Hj), (Vz j Hj). rewrite ev_zero. reflexivity. }
  split.
  - intros i Hi. specialize (S0 i Hi). pose proof (m_gt1 p G). apply cong_iff in S0; [|lia]. rewrite Z.mod_0_l in S0 by lia.
    unfold secret in *. cbn [sk_p sk_np sk_key key] in *. rewrite <- S0. symmetry. apply Z.mod_small. apply (coeff_range p L np z i C Hz Hi).
  - intros x c0 cs Hx Ec. assert (0 < 2 ^ l) by (apply Z.pow_pos_nonneg; lia).
    destruct (C26_decrypt k q L (2 ^ l + 1) key x (coeff p np c0) K ltac:(lia) Hx) as [D _]; [|exact D].
    apply (carries_at k q L _ key K _ _ Hx). intros j Hj. rewrite Ec. cbn [SymProofs.hv]. rewrite <- Eq.
    assert (E0 : cong (p_m p) (ev L (ntt_root p np) (secret key) j) 0).
    { rewrite (ev_cong p L (ntt_root p np) _ (fun _ => 0) j S0). rewrite ev_zero. reflexivity. }
    cbn [sk_p sk_np key]. set (H' := SymProofs.hv p (ev L (ntt_root p np) (secret key) j) j cs). rewrite E0. destruct Hx as [_ Fx]. rewrite Ec in Fx. inversion_clear Fx as [|? ? H0 _].
    rewrite <- (coeff_at p L np C c0 j H0 Hj). apply cong_eq. ring.
Qed.

(** ** C47: equality of polynomials *)

Theorem C47_equality_words : forall a b, poly_eqb a b = true <-> a = b.
Proof.
  intros a b. unfold poly_eqb, same_len, meqb. split.
  - intros H. apply andb_prop in H. destruct H as [H1 H2]. apply Nat.eqb_eq in H1. revert b H1 H2.
    induction a as [|x a IH]; intros [|y b] H1 H2; try discriminate; [reflexivity|]. cbn in H2. apply andb_prop in H2. destruct H2 as [E H2].
    apply Z.eqb_eq in E. f_equal; [exact E|]. apply IH; [cbn in H1; lia|exact H2].
  - intros <-. rewrite Nat.eqb_refl. cbn [andb]. induction a as [|x a IH]; [reflexivity|]. cbn. rewrite Z.eqb_refl. exact IH.
Qed.

(** polynomials with reduced words: equality is equality of coefficients;
    missing for the full claim: words equal to the modulus *)
Theorem C47_equality_reduced_partial :
  forall k q p L np a b, params_for k q p -> ntt_for p L np -> length a = (2 ^ L)%nat -> length b = (2 ^ L)%nat ->
  Forall (reduced p) a -> Forall (reduced p) b ->
  (poly_eqb a b = true <-> forall i, (i < 2 ^ L)%nat -> coeff p np a i = coeff p np b i).
Proof.
  intros k q p L np a b HP HN La Lb Ra Rb. rewrite C47_equality_words. split; [intros <-; reflexivity|]. intros H.
  destruct (mk_ctx k q p L np HP HN) as (C & _). pose proof (proj1 C) as G.
  assert (Ha : ntt_poly p L a) by (split; [exact La|eapply Forall_impl; [|exact Ra]; intros; apply reduced_stored; assumption]).
  assert (Hb : ntt_poly p L b) by (split; [exact Lb|eapply Forall_impl; [|exact Rb]; intros; apply reduced_stored; assumption]).
  apply (nth_ext _ _ 0 0); [congruence|]. intros j Hj. rewrite La in Hj.
  pose proof (C18_coefficients_determine k q p L np a b HP HN Ha Hb H j Hj) as E.
  assert (Aj : reduced p (nth j a 0)) by (rewrite Forall_forall in Ra; apply Ra, nth_In; lia).
  assert (Bj : reduced p (nth j b 0)) by (rewrite Forall_forall in Rb; apply Rb, nth_In; lia).
  rewrite (stored_val p _ G (reduced_stored _ _ Aj)), (stored_val p _ G (reduced_stored _ _ Bj)) in E.
  apply (val_inj p G); assumption.
Qed.

(** -0 differs from 0 *)
Theorem C47_equality_refuted :
  forall k q p L np, params_for k q p -> ntt_for p L np ->
  exists z, poly_zero p (2 ^ L) = Ok z /\ ntt_poly p L z /\ ntt_poly p L (poly_neg p z) /\
    (forall i, (i < 2 ^ L)%nat -> coeff p np (poly_neg p z) i = coeff p np z i) /\ poly_eqb (poly_neg p z) z = false.
Proof.
  intros k q p L np HP HN. destruct (mk_ctx k q p L np HP HN) as (C & _). pose proof (proj1 C) as G.
  destruct (zero_at p L np C) as (z & Ez & Hz & Vz). exists z. split; [exact Ez|]. split; [exact Hz|].
  destruct (neg_pw p L np C z Hz) as [Hn Vn]. split; [exact Hn|]. pose proof (m_gt1 p G). split.
  - intros i Hi. assert (I : cong (p_m p) (coeff p np (poly_neg p z) i) (coeff p np z i)).
    { revert i Hi. apply (ev_inj p G L np (ntt_root p np) (proj2 C)). intros j Hj.
      rewrite <- (coeff_at p L np C _ j Hn Hj), <- (coeff_at p L np C _ j Hz Hj), (Vn j Hj), (Vz j Hj). apply cong_eq. ring. }
    apply cong_iff in I; [|lia]. rewrite !Z.mod_small in I; [exact I|apply (coeff_range p L np _ i C); assumption..].
  - destruct (poly_eqb (poly_neg p z) z) eqn:E; [|reflexivity]. exfalso. apply C47_equality_words in E.
    unfold poly_zero, poly_of in Ez. pose proof (n_pos L) as Pn.
    assert (E0 : z = repeat (import_zero p) (2 ^ L)).
    { destruct (2 ^ L)%nat; [lia|]. cbn in Ez. injection Ez as <-. reflexivity. }
    assert (Ed : nth 0 (poly_neg p z) 0 = nth 0 z 0) by (rewrite E; reflexivity). rewrite E0 in Ed. unfold poly_neg in Ed.
    destruct (2 ^ L)%nat; [lia|]. cbn [repeat map nth] in Ed. destruct (neg_zero_neq k q p HP) as [_ Ne]. rewrite Ed in Ne.
    unfold meqb in Ne. rewrite Z.eqb_refl in Ne. discriminate.
Qed.

(** ** C48: substitution in keys *)

Theorem C48_key_substitute :
  forall k q L key b, enc_key k q L (2 ^ sk_logt key + 1) key -> 0 <= sk_logt key -> 2 ^ sk_logt key + 1 < q ->
  0 < b < 2 * 2 ^ Z.of_nat L -> Z.odd b = true ->
  exists key', key_substitute b key = Ok key' /\ enc_key k q L (2 ^ sk_logt key + 1) key' /\
    sk_p key' = sk_p key /\ sk_np key' = sk_np key /\ sk_var key' = sk_var key /\ sk_logt key' = sk_logt key /\
    (forall i, (i < 2 ^ L)%nat -> secret key' i = substituted (2 ^ L) (Z.to_nat b) (secret key) i mod q) /\
    forall x f, ct_ok L key x -> ct_c x <> [] -> ct_pow x = 1 -> carries L key x f -> b < 2 ^ 31 ->
      exists y, ct_substitute (sk_np key) b x = Ok y /\ carries L key' y (substituted (2 ^ L) (Z.to_nat b) f) /\
      ((forall i, (i < 2 ^ L)%nat -> fits q (substituted (2 ^ L) (Z.to_nat b) f i)) ->
        decrypt key' y = Ok (tabulate (2 ^ L) (fun i => substituted (2 ^ L) (Z.to_nat b) f i mod (2 ^ sk_logt key + 1)))).
Proof.
  intros k q L key b [K EP ST] Hl Ht Hb Ho. pose proof (key_q _ _ _ _ _ K) as Eq. pose proof (key_ctx _ _ _ _ _ K) as C. pose proof (proj1 C) as G.
  assert (Ht' : 2 ^ sk_logt key + 1 < p_m (sk_p key)) by (rewrite Eq; exact Ht).
  unfold key_substitute. rewrite (t_word_ok (sk_p key) _ G (conj Hl (t_small _ _ G Hl Ht'))). cbn [bind].
  assert (Hb' : 0 < b < 2 * Z.of_nat (2 ^ L)) by (rewrite Nat2Z.inj_pow; exact Hb).
  destruct (C19_substitute k q (sk_p key) L (sk_np key) (sk_key key) b (ko_params _ _ _ _ _ K) (ko_ntt _ _ _ _ _ K) (ko_key _ _ _ _ _ K) Hb' Ho) as (s & Es & Hs & Vs).
  rewrite Es. cbn [bind]. eexists. split; [reflexivity|]. destruct (t_export (sk_p key) _ G Hl Ht') as [T1 T2].
  set (key' := {| sk_key := s; sk_var := sk_var key; sk_logt := sk_logt key; sk_t := import_int (sk_p key) (2 ^ sk_logt key + 1);
                  sk_p := sk_p key; sk_pt := sk_pt key; sk_np := sk_np key |}).
  assert (K' : key_ok k q L (2 ^ sk_logt key + 1) key').
  { split; [exact (ko_params _ _ _ _ _ K)|exact (ko_ntt _ _ _ _ _ K)|exact Hs|]. cbn [sk_pt sk_t key']. rewrite EP. exact T2. }
  assert (S' : forall i, (i < 2 ^ L)%nat -> secret key' i = substituted (2 ^ L) (Z.to_nat b) (secret key) i mod q).
  { intros i Hi. rewrite <- Eq. exact (Vs i Hi). }
  split; [split; [exact K'|exact EP|apply crep_rep, T1]|]. do 4 (split; [reflexivity|]). split; [exact S'|].
  intros x f [Px Fx] Hne Hp Hf Hbound.
  destruct (substitute_carries (sk_p key) L (sk_np key) C (secret key) (ct_c x) f b Hb' Ho Fx) as (ds & Ed & Ld & Fd & Cd).
  { apply carries_p; assumption. }
  unfold ct_substitute. rewrite Ed. cbn [bind]. destruct (ct_c x) as [|c0 cs] eqn:Ec; [contradiction|]. cbn [get nth_error bind].
  rewrite Hp, Z.mul_1_l. destruct (Z.ltb_spec b (- 2 ^ 31)); [lia|]. destruct (Z.leb_spec (2 ^ 31) b); [lia|]. cbn [orb].
  inversion_clear Fx as [|? ? Hc0 _]. rewrite (proj1 Hc0). pose proof (n_pos L) as Pn. destruct (Nat.eqb_spec (2 * 2 ^ L) 0) as [Z0|_]; [lia|].
  eexists. split; [reflexivity|]. rewrite Px.
  assert (Cy : carries L key' (ct_make (sk_p key) ds (Z.rem b (2 * Z.of_nat (2 ^ L)))) (substituted (2 ^ L) (Z.to_nat b) f)).
  { apply carries_p; [reflexivity|]. apply Cd. intros i Hi. rewrite (S' i Hi), <- Eq. apply cong_mod. }
  split; [exact Cy|]. intros Hfit. assert (0 < 2 ^ sk_logt key) by (apply Z.pow_pos_nonneg; lia).
  apply (C26_decrypt k q L (2 ^ sk_logt key + 1) key' _ _ K' ltac:(lia)); [|exact Cy|exact Hfit]. split; [reflexivity|exact Fd].
Qed.

(** a key read with Deserialize(..., modulus_params, plaintext_modulus_params,
    ...) holds t over the plaintext parameters; Substitute stores t over the
    ciphertext parameters while keeping the plaintext parameters, and
    decryption then uses a wrong plaintext modulus *)
Definition ptr : mparams := Eval vm_compute in
  (params_make 32 12289).
Definition keyd : skey := Eval vm_compute in
  (match key_serialize keyr with
  | Ok s => match key_deserialize 1 1 s pr ptr npr with Ok key => key | _ => keyr end | _ => keyr end).

Theorem C48_plaintext_params_refuted :
  exists key x key' y, key_ok 32 786433 3 3 key /\ sk_pt key <> sk_p key /\ decrypt key x = Ok [0; 1; 2; 2; 1; 0; 0; 1] /\
    key_substitute 5 key = Ok key' /\ ct_substitute (sk_np key) 5 x = Ok y /\
    decrypt key' y <> Ok [0; 0; 1; 1; 1; 1; 0; 1] /\
    export_int (sk_pt key) (sk_t key) = 3 /\ export_int (sk_pt key') (sk_t key') <> 3.
Proof.
  exists keyd, (encr mr 5).
  exists (match key_substitute 5 keyd with Ok key => key | _ => keyd end), (match ct_substitute npr 5 (encr mr 5) with Ok y => y | _ => encr mr 5 end).
  split.
  { destruct keyr_ok as (EK & _ & E1 & E2). destruct EK as [K _ _].
    assert (Ed : sk_p keyd = sk_p keyr /\ sk_np keyd = sk_np keyr /\ sk_key keyd = sk_key keyr /\ sk_pt keyd = ptr /\ export_int ptr (sk_t keyd) = 3)
      by (vm_compute; do 4 (split; [reflexivity|]); reflexivity).
    destruct Ed as (D1 & D2 & D3 & D4 & D5). split; [rewrite D1; exact (ko_params _ _ _ _ _ K)|rewrite D1, D2; exact (ko_ntt _ _ _ _ _ K)|rewrite D1, D3; exact (ko_key _ _ _ _ _ K)|rewrite D4; exact D5]. }
  split; [vm_compute; discriminate|]. split; [vm_compute; reflexivity|]. split; [vm_compute; reflexivity|]. split; [vm_compute; reflexivity|].
  split; [vm_compute; discriminate|]. split; [vm_compute; reflexivity|]. vm_compute. discriminate.
Qed.

(** ** Examples *)

Example C44_example : ct_ok 3 keyr (encr mr 5) /\ match ct_serialize (encr mr 5) with
  | Ok s => ct_deserialize pr s = Ok (encr mr 5) /\ length (sc_c s) = 2%nat | _ => False end.
Proof.
  split; [|vm_compute; split; reflexivity].
  apply (encr_ok [0; 1; 2; 2; 1; 0; 0; 1] 5); [reflexivity|repeat constructor; discriminate|vm_compute; discriminate].
Qed.

Example C45_example : match key_serialize keyr with Ok s => key_deserialize 1 1 s pr pr npr = Ok keyr /\ key_deserialize 1 20 s pr pr npr = Err InvalidArgument | _ => False end.
Proof. vm_compute. split; reflexivity. Qed.

(** keyr + keyr and keyr - keyr; the same ciphertext under both keys *)
Example C46_example : match key_add keyr keyr, key_sub keyr keyr, key_null 3 1 1 pr npr with
  | Ok a, Ok b, Ok z => map (secret a) (seq 0 8) = map (fun i => (2 * secret keyr i) mod 786433) (seq 0 8) /\
      map (secret b) (seq 0 8) = repeat 0 8 /\ sk_key a <> sk_key keyr /\
      decrypt z (ct_make pr [mr; polyr [5; 7; 0; 0; 0; 0; 0; 0]] 1) = Ok [0; 1; 2; 2; 1; 0; 0; 1]
  | _, _, _ => False end.
Proof. vm_compute. split; [reflexivity|]. split; [reflexivity|]. split; [discriminate|reflexivity]. Qed.

Example C47_example : poly_eqb mr mr = true /\ poly_eqb mr (polyr [0; 1; 2; 2; 1; 0; 0; 2]) = false /\ poly_eqb mr (firstn 4 mr) = false /\ Forall (reduced pr) mr.
Proof. split; [vm_compute; reflexivity|]. split; [vm_compute; reflexivity|]. split; [vm_compute; reflexivity|].
  assert (E : forallb (fun w => (0 <=? w) && (w <? p_m pr)) mr = true) by (vm_compute; reflexivity).
  apply Forall_forall. intros w Hw. rewrite forallb_forall in E. specialize (E w Hw). apply andb_prop in E. unfold reduced. lia.
Qed.

Example C48_example : match key_substitute 5 keyr, ct_substitute npr 5 (encr mr 5) with
  | Ok key, Ok y => decrypt key y = Ok [0; 0; 1; 1; 1; 1; 0; 1] /\ decrypt keyr y <> Ok [0; 0; 1; 1; 1; 1; 0; 1]
  | _, _ => False end.
Proof. vm_compute. split; [reflexivity|discriminate]. Qed.

Print Assumptions C44_round_trip.
Print Assumptions C44_decrypts.
Print Assumptions C44_deserialize_total.
Print Assumptions C45_round_trip.
Print Assumptions C46_add_sub.
Print Assumptions C46_key_homomorphic.
Print Assumptions C46_null_key.
Print Assumptions C47_equality_reduced_partial.
Print Assumptions C47_equality_refuted.
Print Assumptions C48_key_substitute.
Print Assumptions C48_plaintext_params_refuted.
