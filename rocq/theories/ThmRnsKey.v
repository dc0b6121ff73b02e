(** C59 (RNS secret keys: sampling, encryption, decryption) and C70 (RNS error
    polynomials). *)
From Coq Require Import Setoid Ring Znumtheory.
From Verif Require Import Base FinSum PolySpec Ring NegRing SymSpec Montgomery MontBatch MontBatchProofs Prng Sampling SampleSpec ThmSample
  Gauss GaussSpec Spec RnsPoly RnsSpec CrtMath RnsSub RnsProofs RnsReduce RnsBasis RnsBasis2 RnsMore RnsCtx RnsCt RnsCtSpec RnsCtProofs
  RnsEncode RnsKey RnsKeySpec RnsKeyProofs RnsExample ThmSymEnc ThmRnsCt.

(** ** C70 *)

(** SampleError: every residue vector holds the same small integers, namely the
    centred values of the sampler for the first prime. *)
Theorem C70_error :
  forall k L m0 ms R v s a s', moduli_ok k L (m0 :: ms) -> prng_ok R -> 2 * v <= modulus m0 ->
  rns_sample_error R (Z.of_nat L) v (m0 :: ms) s = Ok (a, s') ->
  0 < v <= 256 /\
  exists xs, sample_error R (pm_p m0) (2 ^ L) v s = Ok (xs, s') /\
    let e i := centered (modulus m0) (export_int (pm_p m0) (nth i xs 0)) in
    rns_is (m0 :: ms) L true a e /\ bounded (2 ^ L) (2 * v) e.
Proof.
  intros k L m0 ms R v s a s' OK HR Hv E.
  assert (NE : m0 :: ms <> []) by discriminate. pose proof (ok_L k L _ OK NE) as RL.
  destruct (sample_err_is k L _ OK NE R HR v s a s' E Hv) as (V & _). split; [exact V|].
  unfold rns_sample_error in E. destruct (Z.leb_spec (Z.of_nat L) 0); [lia|]. destruct (Z.leb_spec v 0); [lia|].
  rewrite (shl_int_ok k L _ OK NE) in E. cbn [bind] in E.
  assert (O0 : mod_ok k L m0) by (apply (Forall_inv OK)).
  pose proof (ok_for k L m0 O0) as PF. pose proof (ok_q k L m0 O0) as Q1.
  destruct (sample_error R (pm_p m0) (2 ^ L) v s) as [[xs s1]| |] eqn:Es; try discriminate. cbn [bind] in E.
  destruct (C24_error_bounded k _ _ R _ v s xs s1 PF HR ltac:(lia) Hv Es) as (_ & Lx & Rx & Bx).
  destruct (convert_balanced_is k L _ OK NE _ _ xs PF Lx) as (c & Ec & Hc).
  { eapply Forall_impl; [|exact Rx]. intros x Hx. unfold reduced, stored in *. lia. }
  rewrite Ec in E. cbn [bind] in E. injection E as <- <-. exists xs. split; [reflexivity|]. cbv zeta.
  split; [exact Hc|]. intros i Hi. cbv beta. rewrite <- Lx in Hi.
  rewrite Forall_forall in Bx. destruct (Bx (nth i xs 0) ltac:(apply nth_In; exact Hi)) as (e & Be & ->).
  assert (EC : centered (modulus m0) (e mod modulus m0) = centered (modulus m0) e).
  { unfold centered. rewrite Zmod_mod. reflexivity. }
  rewrite EC. pose proof (centered_le (modulus m0) e ltac:(lia)). lia.
Qed.

(** SampleUniformTernary: coefficients -1, 0 and 1 in every residue vector. *)
Theorem C70_ternary :
  forall k L m0 ms R fuel s a s', moduli_ok k L (m0 :: ms) -> prng_ok R ->
  rns_sample_ternary R fuel (Z.of_nat L) (m0 :: ms) s = Ok (a, s') ->
  exists xs, sample_ternary R fuel (pm_p m0) (Z.of_nat (2 ^ L)) s = Ok (xs, s') /\
    let e i := centered (modulus m0) (export_int (pm_p m0) (nth i xs 0)) in
    rns_is (m0 :: ms) L true a e /\ forall i, (i < 2 ^ L)%nat -> e i = -1 \/ e i = 0 \/ e i = 1.
Proof.
  intros k L m0 ms R fuel s a s' OK HR E.
  assert (NE : m0 :: ms <> []) by discriminate. pose proof (ok_L k L _ OK NE) as RL.
  unfold rns_sample_ternary in E. destruct (Z.leb_spec (Z.of_nat L) 0); [lia|].
  rewrite (shl_int_ok k L _ OK NE) in E. cbn [bind] in E.
  assert (O0 : mod_ok k L m0) by (apply (Forall_inv OK)).
  pose proof (ok_for k L m0 O0) as PF.
  destruct (sample_ternary R fuel (pm_p m0) (Z.of_nat (2 ^ L)) s) as [[xs s1]| |] eqn:Es; try discriminate. cbn [bind] in E.
  destruct (proj2 (C41_ternary_values k _ _ R fuel (Z.of_nat (2 ^ L)) s PF) HR xs s1 Es) as (Lx & Rx & Bx).
  apply Nat2Z.inj in Lx.
  destruct (convert_balanced_is k L _ OK NE _ _ xs PF Lx) as (c & Ec & Hc).
  { eapply Forall_impl; [|exact Rx]. intros x Hx. unfold reduced, stored in *. lia. }
  rewrite Ec in E. cbn [bind] in E. injection E as <- <-. exists xs. split; [reflexivity|]. cbv zeta.
  split; [exact Hc|]. intros i Hi. cbv beta. rewrite <- Lx in Hi. rewrite Forall_forall in Bx. apply Bx, nth_In, Hi.
Qed.

(** SampleDiscreteGaussian: the residues of the sampled integers, read as
    two's complement words, in coefficient form. *)
Theorem C70_gaussian :
  forall k L m0 ms R D fuel sd (g : sampler D) s a s', moduli_ok k L (m0 :: ms) ->
  rns_sample_gaussian R D fuel (Z.of_nat L) sd (m0 :: ms) g s = Ok (a, s') ->
  exists iters xs, num_iterations D fuel g sd = Ok iters /\ draw_gauss R D k g sd iters (2 ^ L) s = Ok (xs, s') /\
    length xs = (2 ^ L)%nat /\ rns_is (m0 :: ms) L false a (fun i => read_signed k (nth i xs 0)).
Proof.
  intros k L m0 ms R D fuel sd g s a s' OK E.
  assert (NE : m0 :: ms <> []) by discriminate. pose proof (ok_L k L _ OK NE) as RL.
  unfold rns_sample_gaussian in E. destruct (Z.leb_spec (Z.of_nat L) 0); [lia|].
  assert (O0 : mod_ok k L m0) by (apply (Forall_inv OK)). rewrite (ok_k k L m0 O0) in E.
  assert (K0 : 0 < k). { destruct (ok_for k L m0 O0) as (W & _). destruct W as [->|[->|[->| ->]]]; lia. }
  destruct (num_iterations D fuel g sd) as [iters| |]; try discriminate. cbn [bind] in E.
  rewrite (shl_int_ok k L _ OK NE) in E. cbn [bind] in E.
  destruct (draw_gauss R D k g sd iters (2 ^ L) s) as [[xs s1]| |] eqn:Ed; try discriminate. cbn [bind] in E.
  destruct (draw_gauss_ok R D k g sd iters _ s xs s1 Ed) as [Lx Bx].
  specialize (Bx K0 (fun x s s' => gauss_word R D k g sd iters s x s' K0)).
  destruct (create_residues k L (m0 :: ms) (gauss_residue k) (read_signed k) xs OK NE Lx) as (c & Ec & Hc).
  { intros m x I Ix. rewrite Forall_forall in Bx. apply (gauss_residue_ok k L m x (moduli_in _ _ _ _ OK I) (Bx x Ix)). }
  cbv zeta in E. cbv beta in E. rewrite Ec in E. cbn [bind] in E. injection E as <- <-.
  exists iters, xs. auto.
Qed.

Theorem C70_errors :
  forall R D fuel log_n v sd (g : sampler D) ms s, log_n <= 0 \/ ms = [] ->
  rns_sample_error R log_n v ms s = Err InvalidArgument /\ rns_sample_ternary R fuel log_n ms s = Err InvalidArgument /\
  rns_sample_gaussian R D fuel log_n sd ms g s = Err InvalidArgument.
Proof.
  intros R D fuel log_n v sd g ms s H. unfold rns_sample_error, rns_sample_ternary, rns_sample_gaussian.
  destruct (Z.leb_spec log_n 0); [auto|]. destruct H as [H| ->]; [lia|]. destruct (v <=? 0); auto.
Qed.

Theorem C70_variance :
  forall R log_n v ms s, v <= 0 -> rns_sample_error R log_n v ms s = Err InvalidArgument.
Proof.
  intros R log_n v ms s H. unfold rns_sample_error. destruct (log_n <=? 0); [reflexivity|].
  destruct (Z.leb_spec v 0); [reflexivity|lia].
Qed.

(** ** C59 *)

Theorem C59_sample :
  forall k L ms R v s key s', moduli_ok k L ms -> prng_ok R -> variance_fits v ms ->
  rsk_sample R (Z.of_nat L) v ms s = Ok (key, s') ->
  0 < v <= 256 /\ rsk_var key = v /\ exists f, key_is ms L key f /\ bounded (2 ^ L) (2 * v) f.
Proof.
  intros k L ms R v s key s' OK HR Hv E. unfold rsk_sample in E.
  destruct (Z.of_nat L <=? 0); [discriminate|]. destruct (v <=? 0); [discriminate|].
  assert (NE : ms <> []) by (intros ->; discriminate). rewrite ne_match in E by exact NE.
  destruct (rns_sample_error R (Z.of_nat L) v ms s) as [[a s1]| |] eqn:Es; try discriminate. cbn [bind] in E. injection E as <- <-.
  destruct (sample_err_is k L ms OK NE R HR v s a s1 Es Hv) as (V & e & Be & He).
  split; [exact V|]. split; [reflexivity|]. exists e. split; [|exact Be]. split; [reflexivity|exact He].
Qed.

Theorem C59_sample_errors :
  forall R log_n v ms s, log_n <= 0 \/ v <= 0 \/ ms = [] -> rsk_sample R log_n v ms s = Err InvalidArgument.
Proof.
  intros R log_n v ms s H. unfold rsk_sample. destruct (Z.leb_spec log_n 0); [reflexivity|].
  destruct (Z.leb_spec v 0); [reflexivity|]. destruct H as [H|[H| ->]]; [lia|lia|reflexivity].
Qed.

(** EncryptPolynomialBgv of the plaintext polynomial m: once the pad a and the
    error e are drawn, in this order from the same generator, encryption
    succeeds with the pair (m + t e + a s, -a). *)
Theorem C59_encrypt_polynomial_bgv :
  forall k L ms R fuel key sk p m t s a s1 c s2, moduli_ok k L ms -> ms <> [] -> distinct ms -> k <> 16 -> prng_ok R ->
  key_is ms L key sk -> variance_fits (rsk_var key) ms -> 0 <= t < 2 ^ k -> rns_is ms L true p m ->
  rns_sample_uniform R fuel (Z.of_nat L) ms s = Ok (a, s1) ->
  rns_sample_error R (Z.of_nat L) (rsk_var key) ms s1 = Ok (c, s2) ->
  exists x e, rsk_encrypt_poly_bgv R fuel key p t s = Ok (x, s2) /\
    rns_is ms L true c e /\ bounded (2 ^ L) (2 * rsk_var key) e /\ masked ms L sk x a (fun i => m i + t * e i).
Proof.
  intros k L ms R fuel key sk p m t s a s1 c s2 OK NE DI K16 HR (K1 & K2) Hv Ht Hp Ea Ec.
  destruct (sample_err_is k L ms OK NE R HR _ s1 c s2 Ec Hv) as (_ & e & Be & He).
  destruct (sample_ok k L ms OK NE R fuel s a s1 Ea) as [Pa Na].
  destruct (rns_mul_scalar_is k L ms OK true c e t He Ht) as (c1 & E1 & H1).
  destruct (rns_add_is k L ms OK true c1 p _ m H1 Hp) as (c2 & E2 & H2).
  assert (H2' : rns_is ms L true c2 (fun i => m i + t * e i)).
  { apply (rns_ext k L ms OK _ _ _ _ H2). intros. apply cong_eq. ring. }
  destruct (mask_ok k L ms OK DI K16 sk a _ c2 (rsk_key key) Pa Na H2' K2) as (x0 & x1 & E3 & E4 & Hx).
  exists (rct_make [x0; x1] ms 1), e. split; [|auto].
  unfold rsk_encrypt_poly_bgv. rewrite K1, (proj1 K2), (proj1 (proj2 Hp)). cbn [negb].
  rewrite Ea. cbn [bind]. rewrite Ec. cbn [bind]. rewrite E1. cbn [bind]. rewrite E2. cbn [bind].
  rewrite E3. cbn [bind]. rewrite E4. reflexivity.
Qed.

(** EncryptBgv with any encoder that gives an RNS polynomial m for the messages. *)
Theorem C59_encrypt_bgv :
  forall k L ms R fuel key sk E msgs ntt p m s x s', moduli_ok k L ms -> ms <> [] -> distinct ms -> k <> 16 -> prng_ok R ->
  key_is ms L key sk -> variance_fits (rsk_var key) ms -> 0 <= en_t E < 2 ^ k ->
  en_bgv E msgs ms = Ok p -> rns_is ms L ntt p m ->
  rsk_encrypt_bgv R fuel key E msgs s = Ok (x, s') ->
  exists a s1 e, rns_sample_uniform R fuel (Z.of_nat L) ms s = Ok (a, s1) /\
    bounded (2 ^ L) (2 * rsk_var key) e /\ masked ms L sk x a (fun i => m i + en_t E * e i).
Proof.
  intros k L ms R fuel key sk E msgs ntt p m s x s' OK NE DI K16 HR HK Hv Ht Ep Hp Ex.
  unfold rsk_encrypt_bgv in Ex. rewrite (proj1 HK), Ep in Ex. cbn [bind] in Ex.
  assert (HN : is_rns ms L true (ensure_ntt p ms) m).
  { unfold ensure_ntt. rewrite (proj1 (proj2 Hp)). destruct ntt; [exists p; auto|apply (rns_to_ntt_is k L ms OK p m Hp)]. }
  destruct HN as (q & Eq & Hq). rewrite Eq in Ex. cbn [bind] in Ex.
  assert (Ex' := Ex). unfold rsk_encrypt_poly_bgv in Ex'. rewrite (proj1 HK), (proj1 (proj2 HK)), (proj1 (proj2 Hq)) in Ex'. cbn [negb] in Ex'.
  destruct (rns_sample_uniform R fuel (Z.of_nat L) ms s) as [[a s1]| |] eqn:Ea; try discriminate. cbn [bind] in Ex'.
  destruct (rns_sample_error R (Z.of_nat L) (rsk_var key) ms s1) as [[c s2]| |] eqn:Ec; try discriminate. clear Ex'.
  destruct (C59_encrypt_polynomial_bgv k L ms R fuel key sk q m (en_t E) s a s1 c s2 OK NE DI K16 HR HK Hv Ht Hq Ea Ec) as (y & e & Ey & _ & Be & Hy).
  rewrite Ey in Ex. injection Ex as <- <-. exists a, s1, e. auto.
Qed.

(** EncryptBfv: the same without the factor t. The pad comes from a generator of
    its own, or from the one for the error. *)
Theorem C59_encrypt_bfv :
  forall k L ms R R' fuel key sk E msgs ntt p m s r x s' r', moduli_ok k L ms -> ms <> [] -> distinct ms -> k <> 16 -> prng_ok R ->
  key_is ms L key sk -> variance_fits (rsk_var key) ms -> en_bfv E msgs ms = Ok p -> rns_is ms L ntt p m ->
  rsk_encrypt_bfv R R' fuel key E msgs s r = Ok (x, s', r') ->
  exists a e, rns_sample_uniform R' fuel (Z.of_nat L) ms r = Ok (a, r') /\
    bounded (2 ^ L) (2 * rsk_var key) e /\ masked ms L sk x a (fun i => m i + e i).
Proof.
  intros k L ms R R' fuel key sk E msgs ntt p m s r x s' r' OK NE DI K16 HR (K1 & K2) Hv Ep Hp Ex.
  unfold rsk_encrypt_bfv in Ex. rewrite K1, Ep, (proj1 K2) in Ex. cbn [bind] in Ex.
  assert (HN : is_rns ms L true (ensure_ntt p ms) m).
  { unfold ensure_ntt. rewrite (proj1 (proj2 Hp)). destruct ntt; [exists p; auto|apply (rns_to_ntt_is k L ms OK p m Hp)]. }
  destruct HN as (q & Eq & Hq). rewrite Eq in Ex. cbn [bind] in Ex.
  destruct (rns_sample_uniform R' fuel (Z.of_nat L) ms r) as [[a r1]| |] eqn:Ea; try discriminate. cbn [bind] in Ex.
  destruct (rns_sample_error R (Z.of_nat L) (rsk_var key) ms s) as [[c s2]| |] eqn:Ec; try discriminate. cbn [bind] in Ex.
  destruct (sample_err_is k L ms OK NE R HR _ s c s2 Ec Hv) as (_ & e & Be & He).
  destruct (sample_ok k L ms OK NE R' fuel r a r1 Ea) as [Pa Na].
  destruct (rns_add_is k L ms OK true c q e m He Hq) as (c2 & E2 & H2). rewrite E2 in Ex. cbn [bind] in Ex.
  assert (H2' : rns_is ms L true c2 (fun i => m i + e i)).
  { apply (rns_ext k L ms OK _ _ _ _ H2). intros. apply cong_eq. ring. }
  destruct (mask_ok k L ms OK DI K16 sk a _ c2 (rsk_key key) Pa Na H2' K2) as (x0 & x1 & E3 & E4 & Hx).
  rewrite E3 in Ex. cbn [bind] in Ex. rewrite E4 in Ex. cbn [bind] in Ex. injection Ex as <- <- <-. exists a, e. auto.
Qed.

Theorem C59_encrypt_bfv_one_generator :
  forall k L ms R fuel key sk E msgs ntt p m s x s', moduli_ok k L ms -> ms <> [] -> distinct ms -> k <> 16 -> prng_ok R ->
  key_is ms L key sk -> variance_fits (rsk_var key) ms -> en_bfv E msgs ms = Ok p -> rns_is ms L ntt p m ->
  rsk_encrypt_bfv1 R fuel key E msgs s = Ok (x, s') ->
  exists a s1 e, rns_sample_uniform R fuel (Z.of_nat L) ms s = Ok (a, s1) /\
    bounded (2 ^ L) (2 * rsk_var key) e /\ masked ms L sk x a (fun i => m i + e i).
Proof.
  intros k L ms R fuel key sk E msgs ntt p m s x s' OK NE DI K16 HR HK Hv Ep Hp Ex.
  unfold rsk_encrypt_bfv1 in Ex. assert (Ex' := Ex). rewrite (proj1 HK), Ep, (proj1 (proj2 HK)) in Ex'. cbn [bind] in Ex'.
  destruct (ensure_ntt p ms) as [q| |] eqn:Eq; try discriminate. cbn [bind] in Ex'.
  destruct (rns_sample_uniform R fuel (Z.of_nat L) ms s) as [[a s1]| |] eqn:Ea; try discriminate. cbn [bind] in Ex'.
  assert (G : rsk_encrypt_bfv R R fuel key E msgs s1 s = Ok (x, s', s1)).
  { unfold rsk_encrypt_bfv. rewrite (proj1 HK), Ep, (proj1 (proj2 HK)). cbn [bind]. rewrite Eq. cbn [bind]. rewrite Ea. cbn [bind].
    destruct (rns_sample_error R (Z.of_nat L) (rsk_var key) ms s1) as [[c s2]| |]; try discriminate. cbn [bind] in *.
    destruct (rns_add c q ms) as [c2| |]; try discriminate. cbn [bind] in *.
    destruct (rns_fused_mul_add c2 a (rsk_key key) ms) as [c3| |]; try discriminate. cbn [bind] in *.
    destruct (rns_neg_in_place a ms) as [c4| |]; try discriminate. cbn [bind] in *. injection Ex' as <- <-. reflexivity. }
  destruct (C59_encrypt_bfv k L ms R R fuel key sk E msgs ntt p m s1 s x s' s1 OK NE DI K16 HR HK Hv Ep Hp G) as (a' & e & Ea' & Be & Hx).
  rewrite Ea in Ea'. injection Ea' as <-. exists a, s1, e. auto.
Qed.

(** Decryption hands the phase of the ciphertext, however many components it
    has, to the decoder. *)
Theorem C59_decrypt :
  forall k L ms key sk E x len w, moduli_ok k L ms -> ms <> [] -> key_is ms L key sk -> (0 < len)%nat -> ciphertext ms L sk len 1 x w ->
  exists a, rns_is ms L true a w /\ rsk_raw_decrypt key x = Ok a /\
    rsk_decrypt_bgv key E x = en_unbgv E a ms /\ rsk_decrypt_bfv key E x = en_unbfv E a ms /\
    forall K e hats invs, length hats = length ms -> length invs = length ms ->
      rsk_decrypt_bgv_crt K key e x hats invs = ff_decode_bgv_crt K e a ms hats invs.
Proof.
  intros k L ms key sk E x len w OK NE (K1 & K2) Hl Hx.
  destruct (raw_decrypt_is k L ms OK NE key sk x w len K1 K2 Hx) as (a & Ea & Ha). exists a. split; [exact Ha|]. split; [exact Ea|].
  destruct Hx as (X1 & X2 & X3 & cs & Hc & _).
  assert (CK : rsk_check key x = Ok tt).
  { unfold rsk_check. rewrite X2, Z.eqb_refl. cbn [negb]. destruct (rt_c x) as [|c0 c]; [cbn in X3; lia|].
    destruct cs as [|d0 cs]; [inversion Hc|]. assert (H0 : rns_is ms L true c0 d0) by (inversion Hc; assumption). rewrite (proj1 H0), (proj1 K2), Nat.eqb_refl. cbn [negb].
    unfold same_len. rewrite X1, K1, Nat.eqb_refl. reflexivity. }
  unfold rsk_decrypt_bgv, rsk_decrypt_bfv, rsk_decrypt_bgv_crt. rewrite CK, Ea, K1. cbn [bind].
  split; [reflexivity|]. split; [reflexivity|]. intros K e hats invs H1 H2.
  unfold same_len. rewrite H1, H2, Nat.eqb_refl. reflexivity.
Qed.

(** Ciphertexts under a substituted key, of another degree or over another
    number of primes are rejected. *)
Theorem C59_decrypt_errors :
  forall key E x c0 cs, rt_c x = c0 :: cs ->
  rt_pow x <> 1 \/ rp_logn c0 <> rp_logn (rsk_key key) \/ length (rt_ms x) <> length (rsk_ms key) ->
  rsk_decrypt_bgv key E x = Err InvalidArgument /\ rsk_decrypt_bfv key E x = Err InvalidArgument /\
  forall K e hats invs, rsk_decrypt_bgv_crt K key e x hats invs = Err InvalidArgument.
Proof.
  intros key E x c0 cs Hc H. unfold rsk_decrypt_bgv, rsk_decrypt_bfv, rsk_decrypt_bgv_crt, rsk_check. rewrite Hc.
  destruct (Z.eqb_spec (rt_pow x) 1); [|auto]. cbn [negb]. destruct (Nat.eqb_spec (rp_logn c0) (rp_logn (rsk_key key))); [|auto].
  cbn [negb]. unfold same_len. destruct (Nat.eqb_spec (length (rt_ms x)) (length (rsk_ms key))); [|auto]. tauto.
Qed.

(** ModReduce: the same secret over all primes but the last. *)
Theorem C59_mod_reduce :
  forall L ms ml key sk, ms <> [] -> key_is (ms ++ [ml]) L key sk ->
  exists key', rsk_mod_reduce key = Ok key' /\ key_is ms L key' sk /\ rsk_var key' = rsk_var key.
Proof.
  intros L ms ml key sk NE (K1 & (A1 & A2 & A3)). destruct (Forall2_last _ _ _ _ A3) as (ws & v & Ev & Hw & _).
  unfold rsk_mod_reduce. rewrite K1, app_length. cbn [length].
  assert (1 <= length ms)%nat by (destruct ms; [contradiction|cbn; lia]).
  destruct (Nat.leb_spec (length ms + 1) 1); [lia|]. unfold rns_detach. rewrite Ev, rev_unit. cbn [bind].
  eexists. split; [reflexivity|]. replace (length ms + 1 - 1)%nat with (length ms) by lia.
  split; [|reflexivity]. split; [cbn [rsk_ms]; rewrite firstn_app, Nat.sub_diag, firstn_all, firstn_O, app_nil_r; reflexivity|].
  cbn [rsk_key]. split; [exact A1|]. split; [exact A2|]. cbn [rp_vs]. rewrite rev_involutive. exact Hw.
Qed.

Theorem C59_mod_reduce_last :
  forall key, (length (rsk_ms key) <= 1)%nat -> rsk_mod_reduce key = Err FailedPrecondition.
Proof. intros key H. unfold rsk_mod_reduce. apply Nat.leb_le in H. rewrite H. reflexivity. Qed.

(** Degree 8, primes 97, 193, 17: encrypt a polynomial, decrypt it. *)
Definition ex_m : list Z := [1; 0; 2; 3; 0; 1; 1; 2].
Definition ex_round : result (list (list Z)) :=
  do! ' (key, s) <- rsk_sample toy 3 8 ex_qs 12345;
  do! p <- ex_poly ex_qs ex_m;
  do! ' (x, s) <- rsk_encrypt_poly_bgv toy 200 key p 4 s;
  ex_view ex_qs (rsk_raw_decrypt key x).
(** every coefficient is m + 4 e with a small e, the same for all primes *)
Definition ex_noise (vs : list (list Z)) : list (list Z) :=
  map2 (fun q v => map2 (fun m x => centered q (x - m)) ex_m v) [97; 193; 17] vs.
Example C59_example :
  variance_fits 8 ex_qs /\
  match ex_round with
  | Ok vs => let e := nth 0 (ex_noise vs) [] in
      ex_noise vs = [e; e; map (centered 17) e] /\ forallb (fun x => (x mod 4 =? 0) && (Z.abs x <=? 64)) e = true /\ existsb (fun x => negb (x =? 0)) e = true
  | _ => False
  end.
Proof. vm_compute. repeat split; discriminate. Qed.

Example C70_example :
  match rns_sample_error toy 3 8 ex_qs 99 with
  | Ok (a, _) => match ex_view ex_qs (Ok a) with
    | Ok [v1; v2; v3] => map (centered 97) v1 = map (centered 193) v2 /\ map (fun x => centered 97 x mod 17) v1 = v3 /\ existsb (fun x => negb (x =? 0)) v1 = true
    | _ => False end
  | _ => False
  end.
Proof. vm_compute. repeat split. Qed.

Print Assumptions C70_error.
Print Assumptions C70_ternary.
Print Assumptions C70_gaussian.
Print Assumptions C70_errors.
Print Assumptions C70_variance.
Print Assumptions C59_sample.
Print Assumptions C59_sample_errors.
Print Assumptions C59_encrypt_polynomial_bgv.
Print Assumptions C59_encrypt_bgv.
Print Assumptions C59_encrypt_bfv.
Print Assumptions C59_encrypt_bfv_one_generator.
Print Assumptions C59_decrypt.
Print Assumptions C59_decrypt_errors.
Print Assumptions C59_mod_reduce.
Print Assumptions C59_mod_reduce_last.
