(** C36: public-key encryption. *)
From Coq Require Import Arith Znumtheory.
From Verif Require Import Base FinSum PolySpec Ring ZLemmas Montgomery MontBatch Ntt Poly PolyExt Prng Sampling SampleSpec MontgomeryProofs
  MontBatchProofs NttIndex NttMath NttProofs Spec PolyView ArithFacts NttFacts PolyProofs PolyFacts ThmPoly
  SymEnc SymSpec SymProofs SymProofs2 SymFacts ThmSymEnc Relin RelinSpec RelinProofs ThmRelin PubKey PubKeySpec PubKeyProofs.
Local Opaque sample_error sample_polynomial convert_to_ntt poly_mul_scalar poly_add poly_fused_mul_add poly_neg export_int.

(** the generated pair (b, a) is an encryption of 0 under the secret key with
    error at most twice the variance, and a comes from the seed *)
Theorem C36_create :
  forall k q L t key F fuel variance ty seed seed_e pk, enc_key k q L t key -> prng_ok (gf_prng F ty) -> 2 * variance <= q ->
  pub_create F fuel key variance ty seed seed_e = Ok pk ->
  pub_ok L t (2 * variance) key pk /\ pk_seed pk = seed /\ pk_type pk = ty.
Proof.
  intros k q L t key F fuel variance ty seed seed_e pk [K Ept St] HF Hv E.
  destruct (pub_create_ok k q L t key K F fuel variance ty seed seed_e pk St Ept HF Hv E) as (A & B & D & _). auto.
Qed.

(** the ciphertext carries m + t (v e + e0 + s e1) for the key's error e and
    fresh small v, e0, e1 *)
Theorem C36_encrypt :
  forall k q L t key R be pk pt variance s x s', key_ok k q L t key -> pub_ok L t be key pk -> ntt_poly (sk_p key) L pt ->
  prng_ok R -> 2 * variance <= q -> pub_encrypt R pk pt variance s = Ok (x, s') ->
  ct_ok L key x /\ length (ct_c x) = 2%nat /\ ct_pow x = 1 /\
  exists e v e0 e1,
    (forall i, (i < 2 ^ L)%nat -> Z.abs (e i) <= be) /\ (forall i, (i < 2 ^ L)%nat -> Z.abs (v i) <= 2 * variance) /\
    (forall i, (i < 2 ^ L)%nat -> Z.abs (e0 i) <= 2 * variance) /\ (forall i, (i < 2 ^ L)%nat -> Z.abs (e1 i) <= 2 * variance) /\
    carries L key x (fun i => coeff (sk_p key) (sk_np key) pt i +
       t * (negacyclic (2 ^ L) v e i + e0 i + negacyclic (2 ^ L) e1 (signed_secret key) i)).
Proof.
  intros k q L t key R be pk pt variance s x s' K PO Hpt HR Hv E.
  destruct (pub_encrypt_ok k q L t key K R be pk pt variance s x s' PO Hpt HR Hv E) as (_ & A & B & D & _ & Ex). auto.
Qed.

Theorem C36_decrypt_encrypt :
  forall k q L t key R be pk pt variance s x s', key_ok k q L t key -> pub_ok L t be key pk -> ntt_poly (sk_p key) L pt ->
  (forall i, (i < 2 ^ L)%nat -> 0 <= coeff (sk_p key) (sk_np key) pt i < t) ->
  prng_ok R -> 0 <= be -> 2 * (t * pub_noise L key be (2 * variance) + t - 1) < q ->
  pub_encrypt R pk pt variance s = Ok (x, s') ->
  decrypt key x = Ok (tabulate (2 ^ L) (coeff (sk_p key) (sk_np key) pt)).
Proof.
  intros k q L t key R be pk pt variance s x s' K PO Hpt Hm HR Hbe Hb E.
  assert (T0 : 0 < t). { pose proof (n_pos L). specialize (Hm 0%nat ltac:(lia)). lia. }
  assert (V0 : 0 < variance) by (unfold pub_encrypt in E; destruct (Z.leb_spec variance 0); [discriminate|assumption]).
  assert (N0 : 2 * variance <= pub_noise L key be (2 * variance)).
  { unfold pub_noise. assert (0 <= l1 (2 ^ L) (signed_secret key)) by (unfold l1; apply zsum_nonneg; intros; apply Z.abs_nonneg).
    assert (0 < 2 ^ Z.of_nat L) by (apply Z.pow_pos_nonneg; lia). nia. }
  assert (Hv : 2 * variance <= q) by nia.
  destruct (C36_encrypt k q L t key R be pk pt variance s x s' K PO Hpt HR Hv E) as (Hx & _ & _ & e & v & e0 & e1 & He & Bv & B0 & B1 & Hc).
  pose proof (C26_decrypt k q L t key x _ K ltac:(nia) Hx Hc) as [_ D]. rewrite D; clear D.
  - f_equal. unfold tabulate. apply map_ext_in. intros i Hi. apply in_seq in Hi.
    rewrite (Z.mul_comm t), Z_mod_plus_full. apply Z.mod_small, Hm. lia.
  - intros i Hi. specialize (Hm i Hi).
    pose proof (pub_noise_bound L key be (2 * variance) e v e0 e1 i Hbe ltac:(lia) He Bv B0 B1 Hi) as HN. unfold fits. nia.
Qed.

(** create, encrypt, decrypt *)
Theorem C36_correct :
  forall k q L t key F fuel variance ty seed seed_e pk R pt ve s x s', enc_key k q L t key ->
  prng_ok (gf_prng F ty) -> prng_ok R -> 2 * variance <= q ->
  pub_create F fuel key variance ty seed seed_e = Ok pk -> ntt_poly (sk_p key) L pt ->
  (forall i, (i < 2 ^ L)%nat -> 0 <= coeff (sk_p key) (sk_np key) pt i < t) ->
  2 * (t * pub_noise L key (2 * variance) (2 * ve) + t - 1) < q ->
  pub_encrypt R pk pt ve s = Ok (x, s') ->
  decrypt key x = Ok (tabulate (2 ^ L) (coeff (sk_p key) (sk_np key) pt)).
Proof.
  intros k q L t key F fuel variance ty seed seed_e pk R pt ve s x s' EK HF HR Hv Ec Hpt Hm Hb E.
  assert (V0 : 0 < variance) by (unfold pub_create in Ec; destruct (Z.leb_spec variance 0); [discriminate|assumption]).
  destruct (C36_create k q L t key F fuel variance ty seed seed_e pk EK HF Hv Ec) as (PO & _).
  apply (C36_decrypt_encrypt k q L t key R (2 * variance) pk pt ve s x s' (ek_key _ _ _ _ _ EK) PO Hpt Hm HR ltac:(lia) Hb E).
Qed.

(** encryption succeeds whenever the generator delivers the three samples *)
Theorem C36_encrypt_succeeds :
  forall k q L t key R be pk pt variance s v s1 e0 s2 e1 s3, key_ok k q L t key -> pub_ok L t be key pk -> ntt_poly (sk_p key) L pt ->
  k <> 16 -> prng_ok R -> 0 < variance -> 2 * variance <= q ->
  sample_error R (sk_p key) (2 ^ L) variance s = Ok (v, s1) ->
  sample_error R (sk_p key) (2 ^ L) variance s1 = Ok (e0, s2) ->
  sample_error R (sk_p key) (2 ^ L) variance s2 = Ok (e1, s3) ->
  exists x, pub_encrypt R pk pt variance s = Ok (x, s3).
Proof.
  intros k q L t key R be pk pt variance s v s1 e0 s2 e1 s3 K [Ep Enp Et St [_ Fab] _] Hpt Hk HR Hv0 Hv Ev E0 E1.
  cbn [ct_make ct_c] in Fab. inversion_clear Fab as [|? ? Hb Fa]. inversion_clear Fa as [|? ? Ha _].
  pose proof (key_ctx k q L t key K) as C. pose proof (proj1 C) as G. pose proof (key_q k q L t key K) as Eq.
  pose proof (key_k k q L t key K) as Ek.
  unfold pub_encrypt. destruct (Z.leb_spec variance 0) as [|_]; [lia|]. cbv zeta. rewrite Ep, Enp, (proj1 Ha).
  assert (Hvm : 2 * variance <= p_m (sk_p key)) by (rewrite Eq; exact Hv). assert (0 <= variance) by lia.
  destruct (error_poly _ L _ C R variance s v s1 HR ltac:(lia) Hvm Ev) as (? & cv & _ & Ecv & Hcv).
  destruct (error_poly _ L _ C R variance s1 e0 s2 HR ltac:(lia) Hvm E0) as (? & c0 & _ & Ec0 & Hc0).
  destruct (error_poly _ L _ C R variance s2 e1 s3 HR ltac:(lia) Hvm E1) as (? & c1 & _ & Ec1 & Hc1).
  rewrite Ev. cbn [bind]. rewrite Ecv. cbn [bind]. rewrite E0. cbn [bind]. rewrite E1. cbn [bind]. rewrite Ec0. cbn [bind].
  assert (Vt : cong (p_m (sk_p key)) (MontgomeryProofs.val (sk_p key) (pk_t pk)) t) by (rewrite <- Et, (stored_val _ _ G St); reflexivity).
  destruct (mul_scalar_holds _ G _ c0 _ (pk_t pk) t Hc0 St Vt) as (d0 & D0 & HD0 & _). rewrite D0. cbn [bind].
  destruct (fused_defined (sk_p key) (2 ^ L)%nat d0 (pk_b pk) cv _ _ _ ltac:(rewrite Ek; exact Hk) HD0 (holds_of _ L _ Hb) Hcv) as [d1 D1].
  rewrite D1. cbn [bind].
  destruct (fused_holds _ G _ d0 (pk_b pk) cv _ _ _ d1 HD0 (holds_of _ L _ Hb) Hcv D1) as [HD1 _].
  destruct (add_holds _ G _ d1 pt _ _ HD1 (poly_holds _ L _ C pt Hpt)) as (d2 & D2 & _). rewrite D2. cbn [bind].
  rewrite Ec1. cbn [bind].
  destruct (mul_scalar_holds _ G _ c1 _ (pk_t pk) t Hc1 St Vt) as (d3 & D3 & HD3 & _). rewrite D3. cbn [bind].
  destruct (fused_defined (sk_p key) (2 ^ L)%nat d3 (pk_a pk) cv _ _ _ ltac:(rewrite Ek; exact Hk) HD3 (holds_of _ L _ Ha) Hcv) as [d4 D4].
  rewrite D4. cbn [bind]. eexists. reflexivity.
Qed.

Theorem C36_rejects :
  (forall F fuel key variance ty seed seed_e, variance <= 0 \/ known_type ty = false ->
     pub_create F fuel key variance ty seed seed_e = Err InvalidArgument) /\
  (forall R pk pt variance s, variance <= 0 -> pub_encrypt R pk pt variance s = Err InvalidArgument) /\
  (forall F fuel sp t p np, known_type (spk_type sp) = false -> pub_deserialize F fuel sp t p np = Err InvalidArgument).
Proof.
  split; [|split].
  - intros F fuel key variance ty seed seed_e H. unfold pub_create. destruct (Z.leb_spec variance 0); [reflexivity|].
    destruct H as [H|H]; [lia|]. rewrite H. reflexivity.
  - intros R pk pt variance s H. unfold pub_encrypt. destruct (Z.leb_spec variance 0); [reflexivity|lia].
  - intros F fuel sp t p np H. unfold pub_deserialize. rewrite H. reflexivity.
Qed.

(** a created key is recovered from its serialized form, which holds the seed
    and b only, by a party that knows the parameters *)
Theorem C36_round_trip :
  forall k q L t key F fuel variance ty seed seed_e pk, enc_key k q L t key -> prng_ok (gf_prng F ty) -> 2 * variance <= q ->
  (L <= 15)%nat -> pub_create F fuel key variance ty seed seed_e = Ok pk ->
  exists sp, pub_serialize pk = Ok sp /\ spk_seed sp = seed /\ spk_type sp = ty /\
    pub_deserialize F fuel sp (sk_t key) (sk_p key) (sk_np key) = Ok pk.
Proof.
  intros k q L t key F fuel variance ty seed seed_e pk [K Ept St] HF Hv HL E.
  destruct (pub_create_ok k q L t key K F fuel variance ty seed seed_e pk St Ept HF Hv E) as (PO & Es & Ety & Et & _ & Hk & s & a & s' & E1 & E2 & E3).
  destruct PO as [Ep Enp _ _ [_ Fab] _]. cbn [ct_make ct_c] in Fab. inversion_clear Fab as [|? ? Hb _].
  assert (Hlen : Z.of_nat (length (pk_b pk)) <= 2 ^ 15).
  { rewrite (proj1 Hb), Nat2Z.inj_pow. change (Z.of_nat 2) with 2. apply Z.pow_le_mono_r; lia. }
  destruct (C20_serialize k q (sk_p key) (pk_b pk) (ko_params _ _ _ _ _ K) (proj2 Hb)) as (b & B1 & _ & B2).
  { rewrite (proj1 Hb). apply n_pos. }
  { exact Hlen. }
  unfold pub_serialize. rewrite Ep, B1. cbn [bind]. eexists. split; [reflexivity|]. cbn [spk_seed spk_type].
  split; [exact Es|]. split; [exact Ety|]. unfold pub_deserialize. cbn [spk_seed spk_type spk_b]. rewrite Ety, Hk. cbn [negb].
  rewrite Es, E1. cbn [bind].
  pose proof (key_ctx k q L t key K) as C. rewrite (ng_n _ _ _ _ (proj2 C)).
  rewrite E2. cbn [bind]. rewrite B2. cbn [bind]. f_equal.
  destruct pk as [pa pb ps pty ptt pnp ppp]; cbn [pk_a pk_b pk_seed pk_type pk_t pk_np pk_p] in *. subst. reflexivity.
Qed.

Definition pkr : pkey := Eval vm_compute in
  (match pub_create toys 100 keyr 1 1 [77] [78] with Ok pk => pk | _ =>
  {| pk_a := []; pk_b := []; pk_seed := []; pk_type := 0; pk_t := 0; pk_np := npr; pk_p := pr |} end).
Lemma pkr_create : pub_create toys 100 keyr 1 1 [77] [78] = Ok pkr.
Proof. vm_compute. reflexivity. Qed.

Example C36_example : enc_key 32 786433 3 3 keyr /\ pub_ok 3 3 2 keyr pkr /\ prng_ok toy /\
  2 * (3 * pub_noise 3 keyr 2 2 + 3 - 1) < 786433 /\
  match pub_encrypt toy pkr mr 1 91 with
  | Ok (x, _) => decrypt keyr x = Ok [0; 1; 2; 2; 1; 0; 0; 1] /\ nth_error (ct_c x) 0 <> Some mr
  | _ => False
  end /\
  match pub_serialize pkr with Ok sp => pub_deserialize toys 100 sp (sk_t keyr) pr npr = Ok pkr | _ => False end.
Proof.
  destruct keyr_ok as (EK & _). split; [exact EK|].
  split; [apply (C36_create 32 786433 3 3 keyr toys 100%nat 1 1 [77] [78] pkr EK toy_ok ltac:(lia) pkr_create)|].
  split; [exact toy_ok|]. split; [vm_compute; reflexivity|]. vm_compute. split; [split; [reflexivity|discriminate]|reflexivity].
Qed.

Print Assumptions C36_create.
Print Assumptions C36_encrypt.
Print Assumptions C36_decrypt_encrypt.
Print Assumptions C36_correct.
Print Assumptions C36_encrypt_succeeds.
Print Assumptions C36_rejects.
Print Assumptions C36_round_trip.
