(** C90: an encryption is an encryption of zero plus the message, word for word;
    randomness is drawn independently of the message. *)
From Coq Require Import Znumtheory QArith Lia.
From Verif Require Import Base FinSum PolySpec Ring NegRing Montgomery MontgomeryProofs MontBatch ArithFacts Spec SymSpec Poly Ntt NttFacts PolyView Prng Sampling SampleSpec ThmSample SymEnc SymProofs SymProofs2 SymFacts PolyFacts ThmSymEnc
  PubKey PubKeySpec PubKeyProofs Relin RelinSpec ThmRelin ThmPubKey RnsPoly RnsSpec CrtMath RnsSub RnsProofs RnsReduce RnsBasis RnsBasis2 RnsMore RnsFloat
  RnsCtx RnsCtxSpec RnsCt RnsCtSpec RnsCtProofs RnsEncode RnsEncodeSpec RnsKey RnsKeySpec RnsKeyProofs ThmRnsKey RnsPub RnsPubSpec RnsPubProofs RnsExample ShiftSpec ShiftProofs.
Local Open Scope Z_scope.

Local Notation zsum := FinSum.zsum.

Lemma vec_poly p L v : ntt_poly p L v <-> vec p (2 ^ L) v.
Proof. reflexivity. Qed.

(** ** Single modulus, secret key *)

(** Encrypt: success, failure, the ciphertext and the generator left behind are
    those of encrypting the zero polynomial, the plaintext being added to the
    first component afterwards. *)
Theorem C90_encrypt :
  forall k q L t key (R : prng) fuel pt s, enc_key k q L t key -> k <> 16 -> ntt_poly (sk_p key) L pt ->
  prng_ok R -> 0 <= sk_var key -> 2 * sk_var key <= q ->
  encrypt R fuel key pt s =
    do! ' (z, s') <- encrypt R fuel key (zero_poly L) s;
    do! x <- plus_message z pt;
    Ok (x, s').
Proof.
  intros k q L t key R fuel pt s [K EP ST] Hk Hpt HR Hv Hvq.
  pose proof (key_ctx k q L t key K) as C. pose proof (key_q k q L t key K) as Eq. pose proof (key_k _ _ _ _ _ K) as Ek.
  pose proof (proj1 C) as G. pose proof (ko_key _ _ _ _ _ K) as Kk.
  assert (P : exists m, params_for (p_k (sk_p key)) m (sk_p key)) by (exists q; rewrite Ek; exact (ko_params _ _ _ _ _ K)).
  assert (K16 : p_k (sk_p key) <> 16) by (rewrite Ek; exact Hk).
  unfold encrypt. cbv zeta. rewrite (proj1 Kk).
  destruct (sample_polynomial R fuel (Z.of_nat (2 ^ L)) (sk_p key) s) as [[a s1]|e|] eqn:Ea; [|reflexivity..]. cbn [bind].
  destruct (sample_polynomial_stored R (sk_p key) _ _ _ _ _ G Ea) as (La & _ & Ra).
  assert (Ha : ntt_poly (sk_p key) L a) by (split; [rewrite La; apply Nat2Z.id|exact Ra]).
  unfold encrypt_internal. cbv zeta. rewrite (proj1 Kk).
  destruct (sample_error R (sk_p key) (2 ^ L) (sk_var key) s1) as [[e s2]|e|] eqn:Ee; [|reflexivity..]. cbn [bind].
  destruct (sample_error_bounded R (sk_p key) _ _ _ _ _ G HR Hv ltac:(lia) Ee) as (_ & Le & Re & _).
  assert (Se : Forall (stored (sk_p key)) e) by (eapply Forall_impl; [|exact Re]; intros; apply reduced_stored; assumption).
  destruct (convert_coeff _ L _ C e Le Se) as (c0 & -> & H0 & _). cbn [bind].
  destruct (mul_scalar_pw _ L _ C (sk_t key) ST c0 H0) as (c1 & -> & H1 & _). cbn [bind].
  unfold poly_add, poly_fused_mul_add.
  destruct (add_ok (sk_p key) P (2 ^ L) c1 pt H1 Hpt) as [E2 V2]. rewrite E2.
  destruct (add_ok (sk_p key) P (2 ^ L) c1 (zero_poly L) H1 (zeros_vec _ P _)) as [E3 V3]. rewrite E3. cbn [bind].
  destruct (fv_ok (sk_p key) P K16 (2 ^ L) _ a (sk_key key) V2 Ha Kk) as [E4 V4]. rewrite E4.
  destruct (fv_ok (sk_p key) P K16 (2 ^ L) _ a (sk_key key) V3 Ha Kk) as [E5 V5]. rewrite E5. cbn [bind].
  unfold plus_message. cbn [ct_c ct_make ct_p]. unfold poly_add.
  destruct (add_ok (sk_p key) P (2 ^ L) _ pt V5 Hpt) as [E6 _]. rewrite E6. cbn [bind].
  unfold zero_poly. rewrite (fv_shift (sk_p key) P K16 (2 ^ L) c1 pt a (sk_key key) H1 Hpt Ha Kk). reflexivity.
Qed.

(** Which encryptions succeed, what they draw from the generator and all
    components but the first are the same for any two plaintexts. *)
Theorem C90_same_randomness :
  forall k q L t key (R : prng) fuel pt pt' s x s', enc_key k q L t key -> k <> 16 -> ntt_poly (sk_p key) L pt -> ntt_poly (sk_p key) L pt' ->
  prng_ok R -> 0 <= sk_var key -> 2 * sk_var key <= q ->
  encrypt R fuel key pt s = Ok (x, s') ->
  exists x', encrypt R fuel key pt' s = Ok (x', s') /\ tl (ct_c x') = tl (ct_c x) /\
    exists z, plus_message z pt = Ok x /\ plus_message z pt' = Ok x'.
Proof.
  intros k q L t key R fuel pt pt' s x s' EK Hk Hp Hp' HR Hv Hvq E.
  rewrite (C90_encrypt k q L t key R fuel pt s EK Hk Hp HR Hv Hvq) in E. rewrite (C90_encrypt k q L t key R fuel pt' s EK Hk Hp' HR Hv Hvq).
  destruct (encrypt R fuel key (zero_poly L) s) as [[z s1]| |] eqn:Ez; try discriminate E. cbn [bind] in *.
  destruct (plus_message z pt) as [y| |] eqn:Ey; try discriminate E. cbn [bind] in E. injection E as -> ->.
  assert (Hz : exists c0 c1, ct_c z = [c0; c1] /\ ct_p z = sk_p key).
  { unfold encrypt in Ez. destruct (sample_polynomial _ _ _ _ _) as [[a r]| |]; try discriminate Ez. cbn [bind] in Ez.
    destruct (encrypt_internal _ _ _ _ _) as [[c r']| |]; try discriminate Ez. cbn [bind] in Ez. injection Ez as <- _. eexists _, _. split; reflexivity. }
  destruct Hz as (c0 & c1 & Hc & Hq).
  assert (A : forall w, length w = (2 ^ L)%nat -> plus_message z w =
    if Nat.eqb (length c0) (2 ^ L) then Ok (with_c z [map2 (madd (sk_p key)) c0 w; c1]) else Err InvalidArgument).
  { intros w Hw. unfold plus_message. rewrite Hc, Hq. unfold poly_add, batch_add, same_len. rewrite Hw. destruct (Nat.eqb _ _); reflexivity. }
  pose proof (A pt (proj1 Hp)) as A1. pose proof (A pt' (proj1 Hp')) as A2. rewrite A1 in Ey.
  destruct (Nat.eqb (length c0) (2 ^ L)); [|discriminate Ey]. injection Ey as <-. rewrite A2. cbn [bind].
  eexists. split; [reflexivity|]. split; [reflexivity|]. exists z. auto.
Qed.

(** The second component depends neither on the key nor on the plaintext: it is
    a function of the generator's state, the degree and the parameters. *)
Theorem C90_pad :
  forall (R : prng) fuel key key' pt pt' s x s1 x' s2, sk_p key = sk_p key' -> length (sk_key key) = length (sk_key key') ->
  encrypt R fuel key pt s = Ok (x, s1) -> encrypt R fuel key' pt' s = Ok (x', s2) ->
  exists c0 c0' b, ct_c x = [c0; b] /\ ct_c x' = [c0'; b].
Proof.
  intros R fuel key key' pt pt' s x s1 x' s2 Hp Hl E E'. unfold encrypt in E, E'. rewrite <- Hp, <- Hl in E'.
  destruct (sample_polynomial _ _ _ _ _) as [[a r]| |]; try discriminate E. cbn [bind] in *.
  destruct (encrypt_internal R key pt a r) as [[c r']| |]; try discriminate E. cbn [bind] in E. injection E as <- _.
  destruct (encrypt_internal R key' pt' a r) as [[c' r'']| |]; try discriminate E'. cbn [bind] in E'. injection E' as <- _.
  eexists _, _, _. split; reflexivity.
Qed.

(** Any number of encryptions drawing from one generator: they come out as the
    ciphertexts xs and leave the generator in state s' exactly when as many
    encryptions of zero do so with zs, and xs are zs with the messages added. *)
Theorem C90_history :
  forall k q L t key (R : prng) fuel pts s xs s', enc_key k q L t key -> k <> 16 -> Forall (ntt_poly (sk_p key) L) pts ->
  prng_ok R -> 0 <= sk_var key -> 2 * sk_var key <= q ->
  in_turn (encrypt R fuel key) pts s = Ok (xs, s') <->
  exists zs, in_turn (encrypt R fuel key) (repeat (zero_poly L) (length pts)) s = Ok (zs, s') /\ seqr (map2 plus_message zs pts) = Ok xs.
Proof.
  intros k q L t key R fuel pts s xs s' EK Hk Hp HR Hv Hvq.
  assert (F : Forall (shifts (encrypt R fuel key) (encrypt R fuel key (zero_poly L)) plus_message) pts).
  { eapply Forall_impl; [|exact Hp]. intros pt H r. apply (C90_encrypt k q L t); assumption. }
  rewrite (turns_ok _ _ _ pts F s xs s').
  assert (E : forall r, in_turn (fun _ => encrypt R fuel key (zero_poly L)) pts r = in_turn (encrypt R fuel key) (repeat (zero_poly L) (length pts)) r).
  { clear. induction pts as [|pt pts IH]; intros r; [reflexivity|]. cbn [in_turn length repeat].
    destruct (encrypt R fuel key (zero_poly L) r) as [[z r']| |]; [|reflexivity..]. cbn [bind]. rewrite IH. reflexivity. }
  rewrite E. reflexivity.
Qed.

(** ** Single modulus, public key *)
Theorem C90_public :
  forall k q L t key R be pk pt variance s, key_ok k q L t key -> pub_ok L t be key pk -> k <> 16 -> ntt_poly (sk_p key) L pt ->
  prng_ok R -> 2 * variance <= q ->
  pub_encrypt R pk pt variance s =
    do! ' (z, s') <- pub_encrypt R pk (zero_poly L) variance s;
    do! x <- plus_message z pt;
    Ok (x, s').
Proof.
  intros k q L t key R be pk pt variance s K PO Hk Hpt HR Hvq.
  pose proof (key_ctx k q L t key K) as C. pose proof (key_q k q L t key K) as Eq. pose proof (key_k _ _ _ _ _ K) as Ek.
  pose proof (proj1 C) as G.
  assert (P : exists m, params_for (p_k (sk_p key)) m (sk_p key)) by (exists q; rewrite Ek; exact (ko_params _ _ _ _ _ K)).
  assert (K16 : p_k (sk_p key) <> 16) by (rewrite Ek; exact Hk).
  destruct (po_ab _ _ _ _ _ PO) as (_ & Fab). cbn [ct_c ct_make] in Fab. inversion_clear Fab as [|? ? Hb Fa]. inversion_clear Fa as [|? ? Ha _].
  unfold pub_encrypt. destruct (Z.leb_spec variance 0) as [|Hv]; [reflexivity|]. cbv zeta. rewrite (po_p _ _ _ _ _ PO), (po_np _ _ _ _ _ PO), (proj1 Ha).
  assert (CONV : forall r e r', sample_error R (sk_p key) (2 ^ L) variance r = Ok (e, r') ->
    exists c, convert_to_ntt (sk_p key) (sk_np key) e = Ok c /\ ntt_poly (sk_p key) L c).
  { intros r e r' Ee. destruct (sample_error_bounded R (sk_p key) _ _ _ _ _ G HR (Z.lt_le_incl _ _ Hv) ltac:(lia) Ee) as (_ & Le & Re & _).
    assert (Se : Forall (stored (sk_p key)) e) by (eapply Forall_impl; [|exact Re]; intros; apply reduced_stored; assumption).
    destruct (convert_coeff _ L _ C e Le Se) as (c0 & E & H0 & _). exists c0. auto. }
  destruct (sample_error R (sk_p key) (2 ^ L) variance s) as [[v s1]| |] eqn:E1; [|reflexivity..]. cbn [bind].
  destruct (CONV _ _ _ E1) as (v' & -> & Hv'). cbn [bind].
  destruct (sample_error R (sk_p key) (2 ^ L) variance s1) as [[e0 s2]| |] eqn:E2; [|reflexivity..]. cbn [bind].
  destruct (CONV _ _ _ E2) as (d0 & D0 & Hd0).
  destruct (sample_error R (sk_p key) (2 ^ L) variance s2) as [[e1 s3]| |] eqn:E3; [|reflexivity..]. cbn [bind].
  destruct (CONV _ _ _ E3) as (d1 & D1 & Hd1). rewrite D0, D1. cbn [bind].
  destruct (mul_scalar_pw _ L _ C (pk_t pk) (po_stored _ _ _ _ _ PO) d0 Hd0) as (f0 & -> & Hf0 & _). cbn [bind].
  destruct (mul_scalar_pw _ L _ C (pk_t pk) (po_stored _ _ _ _ _ PO) d1 Hd1) as (f1 & -> & Hf1 & _). cbn [bind].
  unfold poly_fused_mul_add, poly_add.
  destruct (fv_ok (sk_p key) P K16 (2 ^ L) f0 (pk_b pk) v' Hf0 Hb Hv') as [-> V4]. cbn [bind].
  destruct (fv_ok (sk_p key) P K16 (2 ^ L) f1 (pk_a pk) v' Hf1 Ha Hv') as [-> V5].
  destruct (add_ok (sk_p key) P (2 ^ L) _ pt V4 Hpt) as [-> _].
  destruct (add_ok (sk_p key) P (2 ^ L) _ (zero_poly L) V4 (zeros_vec _ P _)) as [-> V6]. cbn [bind].
  unfold plus_message. cbn [ct_c ct_make ct_p]. unfold poly_add.
  destruct (add_ok (sk_p key) P (2 ^ L) _ pt V6 Hpt) as [-> _]. cbn [bind].
  unfold zero_poly. rewrite (add_vshift (sk_p key) P (2 ^ L) _ pt V4 Hpt). reflexivity.
Qed.

(** ** RNS, secret key *)
Lemma is_poly ms L ntt a f : rns_is ms L ntt a f -> rns_poly ms L a.
Proof. intros (A & _ & B). split; [exact A|]. induction B; constructor; [apply H|assumption]. Qed.

Section Rns.
Variables (k : Z) (L : nat) (ms : list pmod).
Hypothesis OK : moduli_ok k L ms.
Hypothesis NE : ms <> [].
Hypothesis DI : distinct ms.
Hypothesis K16 : k <> 16.

Lemma neg_ok a : rns_poly ms L a -> rns_neg_in_place a ms = Ok (with_vs a (map2 (fun m v => map (mneg (pm_p m)) v) ms (rp_vs a))).
Proof. intros [_ H]. unfold rns_neg_in_place, same_len. rewrite (shaped_len L ms _ H), Nat.eqb_refl. reflexivity. Qed.

Lemma plus_ok c c1 x : rns_poly ms L x -> rct_add_plain (rct_make [c; c1] ms 1) x = do! c' <- rns_add c x ms; Ok (rct_make [c'; c1] ms 1).
Proof. intros [_ H]. unfold rct_add_plain, same_len. cbn [rt_ms rt_c rct_make]. rewrite (shaped_len L ms _ H), Nat.eqb_refl. reflexivity. Qed.

Lemma ensure_ok p : rns_poly ms L p -> exists q, ensure_ntt p ms = Ok q /\ rns_poly ms L q /\ rp_ntt q = true.
Proof.
  intros H. destruct (rns_exists k L ms OK DI p H) as (f & _ & Hf). unfold ensure_ntt. destruct (rp_ntt p) eqn:En; [exists p; auto|].
  destruct (rns_to_ntt_is k L ms OK p f Hf) as (q & E & Hq). exists q. split; [exact E|]. split; [exact (is_poly _ _ _ _ _ Hq)|exact (proj1 (proj2 Hq))].
Qed.

Lemma err_ok R v s a s' : prng_ok R -> variance_fits v ms -> rns_sample_error R (Z.of_nat L) v ms s = Ok (a, s') -> rns_poly ms L a /\ rp_ntt a = true.
Proof. intros HR HV E. destruct (sample_err_is k L ms OK NE R HR v s a s' E HV) as (_ & e & _ & He). split; [exact (is_poly _ _ _ _ _ He)|exact (proj1 (proj2 He))]. Qed.

Lemma scalar_ok a t : rns_poly ms L a -> rp_ntt a = true -> 0 <= t < 2 ^ k -> exists c, rns_mul_scalar a t ms = Ok c /\ rns_poly ms L c /\ rp_ntt c = true.
Proof.
  intros H En Ht. destruct (rns_exists k L ms OK DI a H) as (f & _ & Hf). rewrite En in Hf.
  destruct (rns_mul_scalar_is k L ms OK true a f t Hf Ht) as (c & E & Hc). exists c. split; [exact E|]. split; [exact (is_poly _ _ _ _ _ Hc)|exact (proj1 (proj2 Hc))].
Qed.
End Rns.

(** EncryptPolynomialBgv: the plaintext is added with the library's own
    AddInPlace to an encryption of the zero polynomial. *)
Theorem C90_rns_polynomial_bgv :
  forall k L ms R fuel key sk p t s, moduli_ok k L ms -> ms <> [] -> distinct ms -> k <> 16 -> prng_ok R ->
  key_is ms L key sk -> variance_fits (rsk_var key) ms -> 0 <= t < 2 ^ k -> rns_poly ms L p -> rp_ntt p = true ->
  rsk_encrypt_poly_bgv R fuel key p t s =
    do! ' (z, s') <- rsk_encrypt_poly_bgv R fuel key (zero_rns L ms) t s;
    do! x <- rct_add_plain z p;
    Ok (x, s').
Proof.
  intros k L ms R fuel key sk p t s OK NE DI K16 HR (K1 & K2) HV Ht Hp Np.
  unfold rsk_encrypt_poly_bgv. rewrite K1, (proj1 K2), Np. cbn [negb rp_ntt zero_rns].
  destruct (rns_sample_uniform R fuel (Z.of_nat L) ms s) as [[a s1]| |] eqn:Ea; [|reflexivity..]. cbn [bind].
  destruct (sample_ok k L ms OK NE R fuel s a s1 Ea) as [Pa Na].
  destruct (rns_sample_error R (Z.of_nat L) (rsk_var key) ms s1) as [[c s2]| |] eqn:Ec; [|reflexivity..]. cbn [bind].
  destruct (err_ok k L ms OK NE R _ _ _ _ HR HV Ec) as [Pc Nc].
  destruct (scalar_ok k L ms OK DI c t Pc Nc Ht) as (c1 & -> & Pc1 & Nc1). cbn [bind].
  destruct (before_or_after k L K16 ms OK c1 p a (rsk_key key) Pc1 Hp Pa (is_poly _ _ _ _ _ K2) Nc1 Na (proj1 (proj2 K2)))
    as (y & z & E1 & E2 & _ & y' & r & E3 & E4 & E5).
  fold (zero_rns L ms). rewrite E1, E3. cbn [bind]. rewrite E2, E4. cbn [bind]. rewrite (neg_ok L ms a Pa). cbn [bind].
  rewrite (plus_ok L ms _ _ p Hp), E5. reflexivity.
Qed.

(** EncryptBgv, with any encoder that makes an RNS polynomial of the messages *)
Theorem C90_rns_bgv :
  forall k L ms R fuel key sk E msgs s, moduli_ok k L ms -> ms <> [] -> distinct ms -> k <> 16 -> prng_ok R ->
  key_is ms L key sk -> variance_fits (rsk_var key) ms -> 0 <= en_t E < 2 ^ k ->
  (forall p, en_bgv E msgs ms = Ok p -> rns_poly ms L p) ->
  rsk_encrypt_bgv R fuel key E msgs s =
    do! p <- en_bgv E msgs ms;
    do! p <- ensure_ntt p ms;
    do! ' (z, s') <- rsk_encrypt_poly_bgv R fuel key (zero_rns L ms) (en_t E) s;
    do! x <- rct_add_plain z p;
    Ok (x, s').
Proof.
  intros k L ms R fuel key sk E msgs s OK NE DI K16 HR HK HV Ht Hp. unfold rsk_encrypt_bgv. rewrite (proj1 HK).
  destruct (en_bgv E msgs ms) as [p| |]; [|reflexivity..]. cbn [bind]. destruct (ensure_ok k L ms OK DI p (Hp p eq_refl)) as (q & -> & Hq & Nq). cbn [bind].
  apply (C90_rns_polynomial_bgv k L ms R fuel key sk q (en_t E) s); assumption.
Qed.

(** EncryptBfv: there is an encryption of zero that knows nothing of encoder and
    messages. Two generators, then one. *)
Theorem C90_rns_bfv :
  forall k L ms R R' fuel key sk, moduli_ok k L ms -> ms <> [] -> distinct ms -> k <> 16 -> prng_ok R ->
  key_is ms L key sk -> variance_fits (rsk_var key) ms ->
  exists zero : pr_st R -> pr_st R' -> result (rct * pr_st R * pr_st R'),
  forall E msgs s r, (forall p, en_bfv E msgs ms = Ok p -> rns_poly ms L p) ->
  rsk_encrypt_bfv R R' fuel key E msgs s r =
    do! p <- en_bfv E msgs ms;
    do! p <- ensure_ntt p ms;
    do! ' (z, s', r') <- zero s r;
    do! x <- rct_add_plain z p;
    Ok (x, s', r').
Proof.
  intros k L ms R R' fuel key sk OK NE DI K16 HR (K1 & K2) HV.
  exists (fun s r => do! ' (a, r) <- rns_sample_uniform R' fuel (Z.of_nat L) ms r; do! ' (c0, s) <- rns_sample_error R (Z.of_nat L) (rsk_var key) ms s;
    do! c0 <- rns_add c0 (zero_rns L ms) ms; do! c0 <- rns_fused_mul_add c0 a (rsk_key key) ms; do! a <- rns_neg_in_place a ms; Ok (rct_make [c0; a] ms 1, s, r)).
  intros E msgs s r Hp. unfold rsk_encrypt_bfv. rewrite K1, (proj1 K2).
  destruct (en_bfv E msgs ms) as [p| |]; [|reflexivity..]. cbn [bind]. destruct (ensure_ok k L ms OK DI p (Hp p eq_refl)) as (q & -> & Hq & Nq). cbn [bind].
  destruct (rns_sample_uniform R' fuel (Z.of_nat L) ms r) as [[a r1]| |] eqn:Ea; [|reflexivity..]. cbn [bind].
  destruct (sample_ok k L ms OK NE R' fuel r a r1 Ea) as [Pa Na].
  destruct (rns_sample_error R (Z.of_nat L) (rsk_var key) ms s) as [[c s2]| |] eqn:Ec; [|reflexivity..]. cbn [bind].
  destruct (err_ok k L ms OK NE R _ _ _ _ HR HV Ec) as [Pc Nc].
  destruct (before_or_after k L K16 ms OK c q a (rsk_key key) Pc Hq Pa (is_poly _ _ _ _ _ K2) Nc Na (proj1 (proj2 K2)))
    as (y & z & E1 & E2 & _ & y' & x & E3 & E4 & E5).
  rewrite E1, E3. cbn [bind]. rewrite E2, E4. cbn [bind]. rewrite (neg_ok L ms a Pa). cbn [bind].
  rewrite (plus_ok L ms _ _ q Hq), E5. reflexivity.
Qed.

Theorem C90_rns_bfv_one_generator :
  forall k L ms R fuel key sk, moduli_ok k L ms -> ms <> [] -> distinct ms -> k <> 16 -> prng_ok R ->
  key_is ms L key sk -> variance_fits (rsk_var key) ms ->
  exists zero : pr_st R -> result (rct * pr_st R),
  forall E msgs s, (forall p, en_bfv E msgs ms = Ok p -> rns_poly ms L p) ->
  rsk_encrypt_bfv1 R fuel key E msgs s =
    do! p <- en_bfv E msgs ms;
    do! p <- ensure_ntt p ms;
    do! ' (z, s') <- zero s;
    do! x <- rct_add_plain z p;
    Ok (x, s').
Proof.
  intros k L ms R fuel key sk OK NE DI K16 HR (K1 & K2) HV.
  exists (fun s => do! ' (a, s) <- rns_sample_uniform R fuel (Z.of_nat L) ms s; do! ' (c0, s) <- rns_sample_error R (Z.of_nat L) (rsk_var key) ms s;
    do! c0 <- rns_add c0 (zero_rns L ms) ms; do! c0 <- rns_fused_mul_add c0 a (rsk_key key) ms; do! a <- rns_neg_in_place a ms; Ok (rct_make [c0; a] ms 1, s)).
  intros E msgs s Hp. unfold rsk_encrypt_bfv1. rewrite K1, (proj1 K2).
  destruct (en_bfv E msgs ms) as [p| |]; [|reflexivity..]. cbn [bind]. destruct (ensure_ok k L ms OK DI p (Hp p eq_refl)) as (q & -> & Hq & Nq). cbn [bind].
  destruct (rns_sample_uniform R fuel (Z.of_nat L) ms s) as [[a s1]| |] eqn:Ea; [|reflexivity..]. cbn [bind].
  destruct (sample_ok k L ms OK NE R fuel s a s1 Ea) as [Pa Na].
  destruct (rns_sample_error R (Z.of_nat L) (rsk_var key) ms s1) as [[c s2]| |] eqn:Ec; [|reflexivity..]. cbn [bind].
  destruct (err_ok k L ms OK NE R _ _ _ _ HR HV Ec) as [Pc Nc].
  destruct (before_or_after k L K16 ms OK c q a (rsk_key key) Pc Hq Pa (is_poly _ _ _ _ _ K2) Nc Na (proj1 (proj2 K2)))
    as (y & z & E1 & E2 & _ & y' & x & E3 & E4 & E5).
  rewrite E1, E3. cbn [bind]. rewrite E2, E4. cbn [bind]. rewrite (neg_ok L ms a Pa). cbn [bind].
  rewrite (plus_ok L ms _ _ q Hq), E5. reflexivity.
Qed.

(** ** RNS, public key *)
Theorem C90_rns_public_bgv :
  forall k L ms R pk sk scalar be t, moduli_ok k L ms -> ms <> [] -> distinct ms -> k <> 16 -> prng_ok R ->
  public_key ms L sk scalar be pk -> variance_fits (rpk_var pk) ms -> 0 <= t < 2 ^ k ->
  exists zero : pr_st R -> result (rct * pr_st R),
  forall E msgs s, en_t E = t -> (forall p, en_bgv E msgs ms = Ok p -> rns_poly ms L p) ->
  rpk_encrypt_bgv R pk E msgs s =
    do! p <- en_bgv E msgs ms;
    do! p <- ensure_ntt p ms;
    do! ' (z, s') <- zero s;
    do! x <- rct_add_plain z p;
    Ok (x, s').
Proof.
  intros k L ms R pk sk scalar be t OK NE DI K16 HR (K1 & fa & fb & e & Ha & Hb & _) HV Ht.
  exists (fun s => do! ' (r, s) <- rns_sample_error R (Z.of_nat L) (rpk_var pk) ms s; do! ' (c0, s) <- rns_sample_error R (Z.of_nat L) (rpk_var pk) ms s;
    do! c0 <- rns_mul_scalar c0 t ms; do! c0 <- rns_fused_mul_add c0 (rpk_b pk) r ms; do! c0 <- rns_add c0 (zero_rns L ms) ms;
    do! ' (c1, s) <- rns_sample_error R (Z.of_nat L) (rpk_var pk) ms s; do! c1 <- rns_mul_scalar c1 t ms; do! c1 <- rns_fused_mul_add c1 (rpk_a pk) r ms;
    Ok (rct_make [c0; c1] ms 1, s)).
  intros E msgs s ET Hp. unfold rpk_encrypt_bgv. rewrite K1, (proj1 Ha), ET.
  destruct (en_bgv E msgs ms) as [p| |]; [|reflexivity..]. cbn [bind]. destruct (ensure_ok k L ms OK DI p (Hp p eq_refl)) as (q & -> & Hq & Nq). cbn [bind].
  destruct (rns_sample_error R (Z.of_nat L) (rpk_var pk) ms s) as [[r s1]| |] eqn:E1; [|reflexivity..]. cbn [bind].
  destruct (err_ok k L ms OK NE R _ _ _ _ HR HV E1) as [Pr Nr].
  destruct (rns_sample_error R (Z.of_nat L) (rpk_var pk) ms s1) as [[c s2]| |] eqn:E2; [|reflexivity..]. cbn [bind].
  destruct (err_ok k L ms OK NE R _ _ _ _ HR HV E2) as [Pc Nc].
  destruct (scalar_ok k L ms OK DI c t Pc Nc Ht) as (c1 & -> & Pc1 & Nc1). cbn [bind].
  destruct (fma_is k L K16 ms OK c1 (rpk_b pk) r Pc1 (is_poly _ _ _ _ _ Hb) Pr Nc1 (proj1 (proj2 Hb)) Nr) as [-> P2]. cbn [bind].
  destruct (add_is k L K16 ms OK _ q P2 Hq) as [-> P3]. destruct (add_is k L K16 ms OK _ (zero_rns L ms) P2 (zero_poly_ok k L K16 ms OK)) as [-> P4]. cbn [bind].
  destruct (rns_sample_error R (Z.of_nat L) (rpk_var pk) ms s2) as [[d s3]| |] eqn:E3; [|reflexivity..]. cbn [bind].
  destruct (rns_mul_scalar d t ms) as [d1| |]; [|reflexivity..]. cbn [bind]. destruct (rns_fused_mul_add d1 (rpk_a pk) r ms) as [d2| |]; [|reflexivity..]. cbn [bind].
  rewrite (plus_ok L ms _ _ q Hq). destruct (add_is k L K16 ms OK _ q P4 Hq) as [-> _]. cbn [bind].
  unfold with_vs. cbn [rp_logn rp_vs rp_ntt].
  pose proof (rows_add_shift k L K16 ms OK _ _ (proj2 P2) (proj2 Hq)) as RS. unfold with_vs in RS. cbn [rp_vs] in RS.
  change (rp_vs (zero_rns L ms)) with (zero_rows L ms). rewrite RS. reflexivity.
Qed.

Theorem C90_rns_public_bfv :
  forall k L ms R pk sk scalar be, moduli_ok k L ms -> ms <> [] -> distinct ms -> k <> 16 -> prng_ok R ->
  public_key ms L sk scalar be pk -> variance_fits (rpk_var pk) ms ->
  exists zero : pr_st R -> result (rct * pr_st R),
  forall E msgs s, (forall p, en_bfv E msgs ms = Ok p -> rns_poly ms L p) ->
  rpk_encrypt_bfv R pk E msgs s =
    do! p <- en_bfv E msgs ms;
    do! p <- ensure_ntt p ms;
    do! ' (z, s') <- zero s;
    do! x <- rct_add_plain z p;
    Ok (x, s').
Proof.
  intros k L ms R pk sk scalar be OK NE DI K16 HR (K1 & fa & fb & e & Ha & Hb & _) HV.
  exists (fun s => do! ' (r, s) <- rns_sample_error R (Z.of_nat L) (rpk_var pk) ms s; do! ' (c0, s) <- rns_sample_error R (Z.of_nat L) (rpk_var pk) ms s;
    do! c0 <- rns_fused_mul_add c0 (rpk_b pk) r ms; do! c0 <- rns_add c0 (zero_rns L ms) ms;
    do! ' (c1, s) <- rns_sample_error R (Z.of_nat L) (rpk_var pk) ms s; do! c1 <- rns_fused_mul_add c1 (rpk_a pk) r ms;
    Ok (rct_make [c0; c1] ms 1, s)).
  intros E msgs s Hp. unfold rpk_encrypt_bfv. rewrite K1, (proj1 Ha).
  destruct (en_bfv E msgs ms) as [p| |]; [|reflexivity..]. cbn [bind]. destruct (ensure_ok k L ms OK DI p (Hp p eq_refl)) as (q & -> & Hq & Nq). cbn [bind].
  destruct (rns_sample_error R (Z.of_nat L) (rpk_var pk) ms s) as [[r s1]| |] eqn:E1; [|reflexivity..]. cbn [bind].
  destruct (err_ok k L ms OK NE R _ _ _ _ HR HV E1) as [Pr Nr].
  destruct (rns_sample_error R (Z.of_nat L) (rpk_var pk) ms s1) as [[c s2]| |] eqn:E2; [|reflexivity..]. cbn [bind].
  destruct (err_ok k L ms OK NE R _ _ _ _ HR HV E2) as [Pc Nc].
  destruct (fma_is k L K16 ms OK c (rpk_b pk) r Pc (is_poly _ _ _ _ _ Hb) Pr Nc (proj1 (proj2 Hb)) Nr) as [-> P2]. cbn [bind].
  destruct (add_is k L K16 ms OK _ q P2 Hq) as [-> P3]. destruct (add_is k L K16 ms OK _ (zero_rns L ms) P2 (zero_poly_ok k L K16 ms OK)) as [-> P4]. cbn [bind].
  destruct (rns_sample_error R (Z.of_nat L) (rpk_var pk) ms s2) as [[d s3]| |] eqn:E3; [|reflexivity..]. cbn [bind].
  destruct (rns_fused_mul_add d (rpk_a pk) r ms) as [d2| |]; [|reflexivity..]. cbn [bind].
  rewrite (plus_ok L ms _ _ q Hq). destruct (add_is k L K16 ms OK _ q P4 Hq) as [-> _]. cbn [bind].
  unfold with_vs. cbn [rp_logn rp_vs rp_ntt].
  pose proof (rows_add_shift k L K16 ms OK _ _ (proj2 P2) (proj2 Hq)) as RS. unfold with_vs in RS. cbn [rp_vs] in RS.
  change (rp_vs (zero_rns L ms)) with (zero_rows L ms). rewrite RS. reflexivity.
Qed.

(** ** Examples *)
From Verif Require Import PolyProofs PrimeCheck RnsDecode RnsCtxFacts ThmRnsCtx FieldSpec FieldCtx ThmField RnsCircuitSpec RnsCircuitProofs ThmRnsCircuit.

(** degree 8, q = 786433, t = 3: two messages in turn, and a message under the public key *)
Example C90_example :
  enc_key 32 786433 3 3 keyr /\ ntt_poly (sk_p keyr) 3 mr /\ prng_ok toy /\ 0 <= sk_var keyr /\ 2 * sk_var keyr <= 786433 /\ pub_ok 3 3 2 keyr pkr /\
  match in_turn (encrypt toy 100 keyr) [mr; mr] 99, in_turn (encrypt toy 100 keyr) [zero_poly 3; zero_poly 3] 99 with
  | Ok ([x; y], s), Ok ([z; w], s') => s = s' /\ plus_message z mr = Ok x /\ plus_message w mr = Ok y /\ tl (ct_c x) = tl (ct_c z) /\ ct_c x <> ct_c y /\ ct_c x <> ct_c z
  | _, _ => False
  end /\
  match pub_encrypt toy pkr mr 1 91, pub_encrypt toy pkr (zero_poly 3) 1 91 with
  | Ok (x, s), Ok (z, s') => s = s' /\ plus_message z mr = Ok x /\ ct_c x <> ct_c z
  | _, _ => False
  end.
Proof.
  destruct keyr_ok as (EK & Ev & Ep & _). split; [exact EK|]. rewrite Ep, Ev.
  split. { split; [vm_compute; reflexivity|]. unfold mr. repeat (apply Forall_cons; [vm_compute; split; discriminate|]). apply Forall_nil. }
  split; [exact toy_ok|]. split; [lia|]. split; [lia|].
  split; [apply (C36_create 32 786433 3 3 keyr toys 100%nat 1 1 [77] [78] pkr EK toy_ok ltac:(lia) pkr_create)|].
  split; vm_compute; repeat split; discriminate.
Qed.

(** the hypotheses of the RNS theorems hold for any objects made by these calls *)
Lemma C90_rns_hypotheses c e key s :
  ctx_create_bgv_ff 32 2 [97; 193; 257] [] 17 = Ok c -> ff_create c = Ok e -> rsk_sample toy 2 1 (rc_qs c) 12345 = Ok (key, s) ->
  moduli_ok 32 2 (rc_qs c) /\ rc_qs c <> [] /\ distinct (rc_qs c) /\ (exists sk, key_is (rc_qs c) 2 key sk) /\ variance_fits (rsk_var key) (rc_qs c) /\
  0 <= en_t (field_encoder exact_dops e) < 2 ^ 32 /\ (forall p, en_bgv (field_encoder exact_dops e) [1; 2; 16; 0] (rc_qs c) = Ok p -> rns_poly (rc_qs c) 2 p).
Proof.
  intros Ec Ee Ek. assert (A := ex_args). assert (MF : ctx_made_ff 32 2 [97; 193; 257] [] 17 c) by (left; exact Ec).
  pose proof (ff_made _ _ _ _ _ _ MF) as M. assert (PT : prime 17) by (apply (prime_by_trial _ 20); [lia|vm_compute; reflexivity]).
  assert (F : encoder_for 32 2 [97; 193; 257] [] 17 c e) by (split; [exact A|]; split; [exact MF|]; split; [exact PT|exact Ee]).
  destruct (ctx_qs_ok 32 2 17 _ _ c A M) as (O2 & EM & D2). pose proof (ctx_len 32 2 17 _ _ c A M) as LQ. cbn [length] in EM, LQ.
  assert (AT : at_level c 2 = rc_qs c) by (unfold at_level; apply firstn_all2; rewrite LQ; lia).
  assert (N2 : rc_qs c <> []) by (intros Z; rewrite Z in LQ; discriminate LQ).
  assert (HV : variance_fits 1 (rc_qs c)). { destruct (rc_qs c) as [|m0 r]; [exact I|]. injection EM as E0 _. cbn [variance_fits]. lia. }
  destruct (C59_sample 32 2 (rc_qs c) toy 1 12345 key s O2 toy_ok HV Ek) as (_ & Ev & sk & HK & _).
  split; [exact O2|]. split; [exact N2|]. split; [exact D2|]. split; [exists sk; exact HK|]. split; [rewrite Ev; exact HV|].
  split. { assert (T : en_t (field_encoder exact_dops e) = 17).
    { destruct (enc_parts _ _ _ _ _ _ _ F) as (_ & _ & _ & EC & _). cbn [en_t field_encoder]. rewrite EC. exact (proj1 (ctx_t 32 2 17 _ _ c A M)). }
    rewrite T. lia. }
  intros p Ep. destruct (C69_encode_bgv 32 2 [97; 193; 257] [] 17 c e 2 [1; 2; 16; 0] F ltac:(cbn; lia)) as (g & (q & Eq & Hq) & _); [apply le_n|repeat (apply Forall_cons; [lia|]); apply Forall_nil|].
  rewrite AT in *. cbn [en_bgv field_encoder] in Ep. rewrite Eq in Ep. injection Ep as <-. exact (is_poly _ _ _ _ _ Hq).
Qed.

Example C90_rns_example :
  match (do! c <- ctx_create_bgv_ff 32 2 [97; 193; 257] [] 17; do! e <- ff_create c; do! ' (key, s) <- rsk_sample toy 2 1 (rc_qs c) 12345;
    let E := field_encoder exact_dops e in
    do! p <- en_bgv E [1; 2; 16; 0] (rc_qs c);
    do! ' (x, s1) <- rsk_encrypt_bgv toy 200 key E [1; 2; 16; 0] s;
    do! ' (z, s2) <- rsk_encrypt_poly_bgv toy 200 key (zero_rns 2 (rc_qs c)) 17 s;
    do! y <- rct_add_plain z p;
    Ok (map rp_vs (rt_c x), map rp_vs (rt_c y), map rp_vs (rt_c z), s1 =? s2)) with
  | Ok (x, y, z, b) => x = y /\ x <> z /\ tl x = tl z /\ b = true
  | _ => False
  end.
Proof. vm_compute. repeat split; discriminate. Qed.

Print Assumptions C90_encrypt.
Print Assumptions C90_same_randomness.
Print Assumptions C90_pad.
Print Assumptions C90_history.
Print Assumptions C90_public.
Print Assumptions C90_rns_polynomial_bgv.
Print Assumptions C90_rns_bgv.
Print Assumptions C90_rns_bfv.
Print Assumptions C90_rns_bfv_one_generator.
Print Assumptions C90_rns_public_bgv.
Print Assumptions C90_rns_public_bfv.
