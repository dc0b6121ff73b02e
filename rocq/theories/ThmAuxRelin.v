(** Key switching with an auxiliary modulus: C40, and the serialization of its
    keys (C39). *)
From Coq Require Import Arith Znumtheory.
From Verif Require Import Base FinSum PolySpec Ring Montgomery MontBatch Ntt Poly PolyExt Prng Sampling SampleSpec
  MontgomeryProofs Spec PolyView ArithFacts NttFacts PrimeCheck PolyFacts PolyExtProofs ThmPoly
  SymEnc SymSpec SymProofs SymFacts SymSwitch ThmSymEnc Relin RelinSpec RelinProofs ThmRelin AuxRelin AuxRelinSpec AuxRelinProofs.

(** ** C40 *)

(** Create: the components encrypt P s(X^power)^a modulo q and 0 modulo P with
    a common error *)
Theorem C40_create :
  forall k q P L t key px npx (F : genfam) fuel ty degree power seed seed_e ak,
  enc_key k q L t key -> params_for k P px -> ntt_for px L npx -> 0 <= sk_var key -> 2 * sk_var key <= q ->
  prng_ok (gf_prng F ty) ->
  aux_create F fuel key ty degree px npx power seed seed_e = Ok ak ->
  aux_ok L t (sk_var key) key ak /\ ak_px ak = px /\ ak_npx ak = npx /\ ak_pow ak = power /\
  Z.of_nat (aux_len ak) = degree + 1.
Proof.
  intros k q P L t key px npx F fuel ty degree power seed seed_e ak EK HX NX Hv Hvq HF E.
  destruct (aux_create_ok k q P L t key px npx EK HX NX Hv Hvq F fuel ty degree power seed seed_e ak HF E)
    as (I1 & I2 & I3 & I4 & _ & _ & I5 & _). auto.
Qed.

Theorem C40_create_rejects :
  forall k q P L t key px npx (F : genfam) fuel ty degree power seed seed_e,
  key_ok k q L t key -> params_for k P px -> ntt_for px L npx ->
  (degree <= 0 \/ power <= 0 \/ ~ (ty = 1 \/ ty = 2) -> 
     aux_create F fuel key ty degree px npx power seed seed_e = Err InvalidArgument) /\
  (forall ak, aux_create F fuel key ty degree px npx power seed seed_e = Ok ak ->
     0 < power < 2 * 2 ^ Z.of_nat L /\ Z.odd power = true).
Proof.
  intros k q P L t key px npx F fuel ty degree power seed seed_e K HX NX. unfold aux_create. split.
  - intros H. destruct (Z.leb_spec degree 0); [reflexivity|]. destruct (Z.leb_spec power 0); [reflexivity|].
    destruct H as [H|[H|H]]; [lia|lia|].
    unfold known_type. destruct (Z.eqb_spec ty 1); [tauto|]. destruct (Z.eqb_spec ty 2); [tauto|]. reflexivity.
  - intros ak E. destruct (degree <=? 0); [discriminate|]. destruct (power <=? 0); [discriminate|].
    destruct (negb (known_type ty)); [discriminate|].
    destruct (gf_start F ty seed) as [s| |]; try discriminate. cbn [bind] in E.
    destruct (gf_start F ty seed_e) as [e| |]; try discriminate. cbn [bind] in E.
    destruct (convert_balanced_ntt _ _ _ _ _) as [sx| |]; try discriminate. cbn [bind] in E.
    destruct (poly_substitute (sk_np key) (sk_key key) power) as [sub| |] eqn:Es; try discriminate.
    destruct (substitute_range _ _ _ _ Es) as [Hr Ho]. rewrite (proj1 (ko_key _ _ _ _ _ K)), Nat2Z.inj_pow in Hr.
    split; [exact Hr|exact Ho].
Qed.

(** ApplyTo: two components, under the key itself, same plaintext up to
    t * E where E is bounded by [aux_noise]. Needs two different prime moduli
    of which P does not divide t. For 16-bit words the call may run into C06. *)
Theorem C40_apply :
  forall k q P L t v key ak x f, key_ok k q L t key -> params_for k P (ak_px ak) -> ntt_for (ak_px ak) L (ak_npx ak) ->
  P <> q -> ~ (P | t) -> 0 <= t < 2 ^ k -> 0 <= v -> aux_ok L t v key ak -> ct_ok L key x ->
  length (ct_c x) = aux_len ak -> carries_under L key (secret_at L key (ak_pow ak)) x f ->
  (k <> 16 -> exists y, aux_apply ak x = Ok y) /\
  forall y, aux_apply ak x = Ok y ->
  ct_ok L key y /\ length (ct_c y) = 2%nat /\ ct_pow y = 1 /\ ct_lazy y = [] /\
  exists E, (forall l, (l < 2 ^ L)%nat -> Z.abs (E l) <= aux_noise L v key ak) /\ carries L key y (fun l => f l + t * E l).
Proof.
  intros k q P L t v key ak x f K HX NX HPq Ht Htr Hv R Hx Hn Hf.
  exact (aux_apply_ok k q P L t v key (ak_px ak) (ak_npx ak) K HX NX HPq Ht Htr Hv ak x f R eq_refl eq_refl Hx Hn Hf).
Qed.

(** the decryption is unchanged *)
Theorem C40_decrypts :
  forall k q P L t v key ak x f m y, key_ok k q L t key -> params_for k P (ak_px ak) -> ntt_for (ak_px ak) L (ak_npx ak) ->
  P <> q -> 0 < t <= q -> ~ (P | t) -> 0 <= v -> aux_ok L t v key ak -> ak_pow ak = 1 ->
  ct_ok L key x -> length (ct_c x) = aux_len ak -> carries L key x f ->
  (forall i, (i < 2 ^ L)%nat -> 2 * (Z.abs (f i) + t * aux_noise L v key ak) < q) ->
  decrypt key x = Ok m -> aux_apply ak x = Ok y -> decrypt key y = Ok m.
Proof.
  intros k q P L t v key ak x f m y K HX NX HPq Ht HPt Hv R Hp Hx Hn Hf Hb Dx E.
  assert (Htr : 0 <= t < 2 ^ k).
  { pose proof (key_good k q L t key K) as G. pose proof (key_q k q L t key K) as Eq. pose proof (key_k k q L t key K) as Ek.
    pose proof (MontgomeryProofs.m4 _ G). pose proof (m_gt1 _ G). rewrite Eq, Ek in *. lia. }
  destruct (C40_apply k q P L t v key ak x f K HX NX HPq HPt Htr Hv R Hx Hn) as [_ HA].
  { rewrite Hp. apply (secret_at_one k q L t key x f K Hx). exact Hf. }
  destruct (HA y E) as (Oy & _ & _ & _ & er & Ber & Cy).
  assert (Hnn : 0 <= t * aux_noise L v key ak).
  { specialize (Ber 0%nat (PolyProofs.n_pos L)). nia. }
  rewrite (proj2 (C26_decrypt k q L t key x f K Ht Hx Hf)) in Dx by (intros i Hi; specialize (Hb i Hi); unfold fits; lia).
  rewrite (proj2 (C26_decrypt k q L t key y _ K Ht Oy Cy)).
  - rewrite <- Dx. f_equal. unfold tabulate. apply map_ext_in. intros i Hi. rewrite (Z.mul_comm t). apply Z_mod_plus_full.
  - intros i Hi. specialize (Hb i Hi). specialize (Ber i Hi). unfold fits. nia.
Qed.

(** a ciphertext over another modulus or of another length is refused *)
Theorem C40_rejects :
  forall ak x, p_m (ct_p x) <> p_m (ak_p ak) \/ length (ct_c x) <> aux_len ak -> aux_apply ak x = Err InvalidArgument.
Proof.
  intros ak x H. unfold aux_apply. destruct (Z.eqb_spec (p_m (ct_p x)) (p_m (ak_p ak))); [|reflexivity]. cbn [negb].
  destruct (Z.eqb_spec (Z.of_nat (length (ct_c x))) (Z.of_nat (length (ak_keys ak)) + (if ak_pow ak =? 1 then 2 else 1))) as [E|E]; [|reflexivity].
  exfalso. destruct H as [H|H]; [contradiction|]. apply H. unfold aux_len. destruct (ak_pow ak =? 1); lia.
Qed.

(** AuxModGaloisKey: a key of two components; ciphertexts with another PowerOfS
    are refused *)
Theorem C40_galois_mismatch :
  forall ak x, ct_pow x <> ak_pow ak -> auxgalois_apply ak x = Err InvalidArgument.
Proof. intros ak x H. unfold auxgalois_apply. destruct (Z.eqb_spec (ct_pow x) (ak_pow ak)); [contradiction|reflexivity]. Qed.

(** substitute, then switch back: the result decrypts to m(X^power) *)
Theorem C40_galois :
  forall k q P L t v key ak x f m z, key_ok k q L t key -> params_for k P (ak_px ak) -> ntt_for (ak_px ak) L (ak_npx ak) ->
  P <> q -> 0 < t <= q -> ~ (P | t) -> 0 <= v -> aux_ok L t v key ak -> aux_len ak = 2%nat ->
  ct_ok L key x -> length (ct_c x) = 2%nat -> ct_pow x = 1 -> carries L key x f ->
  (forall i, (i < 2 ^ L)%nat -> 2 * Z.abs (f i) < q) ->
  (forall i, (i < 2 ^ L)%nat ->
     2 * (Z.abs (substituted (2 ^ L) (Z.to_nat (ak_pow ak)) f i) + t * aux_noise L v key ak) < q) ->
  decrypt key x = Ok m ->
  (do! y <- ct_substitute (sk_np key) (ak_pow ak) x; auxgalois_apply ak y) = Ok z ->
  ct_pow z = 1 /\
  decrypt key z = Ok (tabulate (2 ^ L) (fun i => substituted (2 ^ L) (Z.to_nat (ak_pow ak)) (fun l => nth l m 0) i mod t)).
Proof.
  intros k q P L t v key ak x f m z K HX NX HPq Ht HPt Hv R Hn Hx Hl Hp Hf Hb1 Hb Dx E. pose proof (key_L _ _ _ _ _ K) as HL.
  assert (Htr : 0 <= t < 2 ^ k).
  { pose proof (key_good k q L t key K) as G. pose proof (key_q k q L t key K) as Eq. pose proof (key_k k q L t key K) as Ek.
    pose proof (MontgomeryProofs.m4 _ G). pose proof (m_gt1 _ G). rewrite Eq, Ek in *. lia. }
  destruct (ao_pow _ _ _ _ _ R) as [Hr Ho].
  assert (2 ^ Z.of_nat L <= 2 ^ 15) by (apply Z.pow_le_mono_r; lia).
  destruct (C32_substitute k q L t key 1 (ak_pow ak) x f K Hx) as (y & Ey & Oy & Ly & Py & _ & Cy); try assumption; try lia.
  { intros E0. rewrite E0 in Hl. discriminate. }
  { apply (secret_at_one k q L t key x f K Hx). exact Hf. }
  rewrite Ey in E. cbn [bind] in E. rewrite Z.mul_1_l, Z.mod_small in Py by lia.
  rewrite Py in Cy. unfold auxgalois_apply in E. rewrite Py, Z.eqb_refl in E. cbn [negb] in E.
  destruct (C40_apply k q P L t v key ak y _ K HX NX HPq HPt Htr Hv R Oy ltac:(congruence) Cy) as [_ HA].
  destruct (HA z E) as (Oz & _ & Pz & _ & er & Ber & Cz). split; [exact Pz|].
  rewrite (proj2 (C26_decrypt k q L t key x f K Ht Hx Hf)) in Dx by (intros i Hi; specialize (Hb1 i Hi); unfold fits; lia).
  injection Dx as <-.
  rewrite (proj2 (C26_decrypt k q L t key z _ K Ht Oz Cz)).
  - f_equal. unfold tabulate at 1 2. apply map_ext_in. intros i Hi. apply in_seq in Hi. rewrite (Z.mul_comm t), Z_mod_plus_full.
    apply cong_iff; [lia|]. unfold substituted. apply zsum_cong. intros l Hl'. rewrite nth_tabulate by exact Hl'.
    assert (Cm : cong t (f l) (f l mod t)) by (symmetry; apply cong_mod).
    destruct (_ =? _)%nat; [exact Cm|]. destruct (_ =? _)%nat; [destruct Cm as [c Hc]; exists (- c); lia|reflexivity].
  - intros i Hi. specialize (Hb i Hi). specialize (Ber i Hi). unfold fits. nia.
Qed.

(** ** C39 for these keys *)

(** a key with exactly one component (all Galois keys with power <> 1, and
    relinearization keys of degree 2) survives serialization word for word *)
Theorem C39_aux_round_trip :
  forall k q P L t key px npx (F : genfam) fuel ty degree power seed seed_e ak,
  enc_key k q L t key -> params_for k P px -> ntt_for px L npx -> 0 <= sk_var key -> 2 * sk_var key <= q ->
  prng_ok (gf_prng F ty) ->
  aux_create F fuel key ty degree px npx power seed seed_e = Ok ak -> length (ak_keys ak) = 1%nat ->
  exists sa, aux_serialize ak = Ok sa /\ aux_deserialize F fuel sa (sk_p key) (sk_np key) px npx t = Ok ak.
Proof.
  intros k q P L t key px npx F fuel ty degree power seed seed_e ak EK HX NX Hv Hvq HF E Hl.
  pose proof (key_L _ _ _ _ _ (ek_key _ _ _ _ _ EK)).
  destruct (aux_round_trip k q P L t key px npx EK HX NX Hv Hvq F fuel ty degree power seed seed_e ak ltac:(lia) HF E) as (sa & E1 & _ & E2).
  { rewrite Hl. reflexivity. }
  exists sa. split; [exact E1|]. rewrite E2 by (intros E0; rewrite E0 in Hl; discriminate).
  destruct (aux_create_ok k q P L t key px npx EK HX NX Hv Hvq F fuel ty degree power seed seed_e ak HF E) as (R & Epx & Enpx & Epow & Es & Ety & _).
  destruct R as [A1 A2 A3 _ _]. destruct ak as [a1 a2 a3 a4 a5 a6 a7 a8 a9].
  cbn [ak_p ak_np ak_px ak_npx ak_seed ak_type ak_keys ak_t ak_pow] in *. subst.
  destruct a7 as [|c [|]]; try discriminate. reflexivity.
Qed.

(** A key with two or more components does not survive: the loop in Deserialize
    advances by two while counting components, so only the first half (rounded
    up) of the components is rebuilt. The rebuilt key refuses the ciphertexts
    the original was made for. *)
Theorem C39_aux_round_trip_refuted :
  forall k q P L t key px npx (F : genfam) fuel ty degree power seed seed_e ak,
  enc_key k q L t key -> params_for k P px -> ntt_for px L npx -> 0 <= sk_var key -> 2 * sk_var key <= q ->
  prng_ok (gf_prng F ty) ->
  aux_create F fuel key ty degree px npx power seed seed_e = Ok ak -> 1 < Z.of_nat (length (ak_keys ak)) < 2 ^ 30 ->
  exists sa ak', aux_serialize ak = Ok sa /\ aux_deserialize F fuel sa (sk_p key) (sk_np key) px npx t = Ok ak' /\
    ak_keys ak' = firstn (Nat.div2 (length (ak_keys ak) + 1)) (ak_keys ak) /\
    (length (ak_keys ak') < length (ak_keys ak))%nat /\
    forall x, length (ct_c x) = aux_len ak -> aux_apply ak' x = Err InvalidArgument.
Proof.
  intros k q P L t key px npx F fuel ty degree power seed seed_e ak EK HX NX Hv Hvq HF E Hl.
  pose proof (key_L _ _ _ _ _ (ek_key _ _ _ _ _ EK)).
  destruct (aux_round_trip k q P L t key px npx EK HX NX Hv Hvq F fuel ty degree power seed seed_e ak ltac:(lia) HF E) as (sa & E1 & _ & E2).
  { lia. }
  eexists sa, _. split; [exact E1|]. split; [apply E2; intros E0; rewrite E0 in Hl; cbn in Hl; lia|]. cbn [ak_keys].
  split; [reflexivity|].
  assert (Hlt : (length (firstn (Nat.div2 (length (ak_keys ak) + 1)) (ak_keys ak)) < length (ak_keys ak))%nat).
  { rewrite firstn_length. rewrite Nat.div2_div. assert ((length (ak_keys ak) + 1) / 2 < length (ak_keys ak))%nat by (apply Nat.div_lt_upper_bound; lia). lia. }
  split; [exact Hlt|].
  destruct (aux_create_ok k q P L t key px npx EK HX NX Hv Hvq F fuel ty degree power seed seed_e ak HF E) as (_ & _ & _ & Epow & _).
  intros x Hx. apply C40_rejects. right. rewrite Hx. unfold aux_len. cbn [ak_keys ak_pow]. rewrite Epow. destruct (power =? 1); lia.
Qed.

(** a key without components (power 1, degree 1, which Create accepts) cannot
    be deserialized *)
Theorem C39_aux_empty_refuted :
  forall k q P L t key px npx (F : genfam) fuel ty degree power seed seed_e ak,
  enc_key k q L t key -> params_for k P px -> ntt_for px L npx -> 0 <= sk_var key -> 2 * sk_var key <= q ->
  prng_ok (gf_prng F ty) ->
  aux_create F fuel key ty degree px npx power seed seed_e = Ok ak -> ak_keys ak = [] ->
  exists sa, aux_serialize ak = Ok sa /\
    forall t', aux_deserialize F fuel sa (sk_p key) (sk_np key) px npx t' = Err InvalidArgument.
Proof.
  intros k q P L t key px npx F fuel ty degree power seed seed_e ak EK HX NX Hv Hvq HF E Hl.
  pose proof (key_L _ _ _ _ _ (ek_key _ _ _ _ _ EK)).
  destruct (aux_round_trip k q P L t key px npx EK HX NX Hv Hvq F fuel ty degree power seed seed_e ak ltac:(lia) HF E) as (sa & E1 & E2 & _).
  { rewrite Hl. reflexivity. }
  exists sa. split; [exact E1|]. intros t'. apply E2, Hl.
Qed.

Theorem C39_aux_rejects :
  forall (F : genfam) fuel sa p np px npx t,
  sa_num sa <= 0 \/ (0 < sa_num sa < 2 ^ 30 /\
    (Z.of_nat (length (sa_b sa)) <> 2 * sa_num sa \/ ~ (sa_type sa = 1 \/ sa_type sa = 2))) ->
  aux_deserialize F fuel sa p np px npx t = Err InvalidArgument.
Proof.
  intros F fuel sa p np px npx t H. unfold aux_deserialize. destruct (Z.leb_spec (sa_num sa) 0) as [A|A]; [reflexivity|].
  destruct H as [H|[[_ H1] H]]; [lia|]. rewrite (proj2 (Z.leb_gt _ _)) by lia.
  destruct (Z.eqb_spec (Z.of_nat (length (sa_b sa))) (2 * sa_num sa)) as [B|B]; [|reflexivity]. cbn [negb].
  destruct H as [H|H]; [contradiction|].
  unfold known_type. destruct (Z.eqb_spec (sa_type sa) 1); [tauto|]. destruct (Z.eqb_spec (sa_type sa) 2); [tauto|]. reflexivity.
Qed.

(** examples: q = 786433 as in ThmRelin, auxiliary modulus 65537 *)
Definition pxr : mparams := Eval vm_compute in
  (params_make 32 65537).
Definition npxr : nttp := Eval vm_compute in
  (match init_ntt pxr 3 with Ok np => np | _ => Build_nttp 0 0 [] [] [] [] [] end).
Lemma pxr_for : params_for 32 65537 pxr.
Proof. split; [right; left; reflexivity|]. split; [lia|vm_compute; reflexivity]. Qed.
Lemma npxr_for : ntt_for pxr 3 npxr.
Proof. split; [apply (prime_by_trial 65537 300%nat); [lia|vm_compute; reflexivity]|vm_compute; reflexivity]. Qed.
Definition ak_default : auxkey := {| ak_p := pr; ak_np := npr; ak_px := pxr; ak_npx := npxr; ak_seed := []; ak_type := 0; ak_keys := [];
  ak_t := 0; ak_pow := 0 |}.
Definition akr (degree power : Z) : auxkey :=
  match aux_create toys 100 keyr 1 degree pxr npxr power [77] [78] with Ok ak => ak | _ => ak_default end.

Lemma akr2 : aux_create toys 100 keyr 1 2 pxr npxr 1 [77] [78] = Ok (akr 2 1).
Proof. vm_compute. reflexivity. Qed.
Lemma akr2_ok : aux_ok 3 3 1 keyr (akr 2 1).
Proof.
  destruct keyr_ok as (EK & Ev & _). rewrite <- Ev at 1.
  apply (C40_create 32 786433 65537 3 3 keyr pxr npxr toys 100%nat 1 2 1 [77] [78] (akr 2 1) EK pxr_for npxr_for); [lia|lia|exact toy_ok|exact akr2].
Qed.

Example C40_example :
  2 * (12 * 12 * 8 + 3 * aux_noise 3 1 keyr (akr 2 1)) < 786433 /\
  match ct_mul (encr mr 5) (encr mr 6) with
  | Ok x => length (ct_c x) = aux_len (akr 2 1) /\ decrypt keyr x = Ok [0; 2; 0; 2; 2; 1; 1; 1] /\
    match aux_apply (akr 2 1) x with
    | Ok y => decrypt keyr y = Ok [0; 2; 0; 2; 2; 1; 1; 1] /\ length (ct_c y) = 2%nat
    | _ => False end
  | _ => False end.
Proof. split; [vm_compute; reflexivity|]. vm_compute. repeat split. Qed.

Example C40_galois_example :
  match ct_substitute npr 5 (encr mr 5) with
  | Ok y => match auxgalois_apply (akr 1 5) y with
    | Ok z => decrypt keyr z = Ok [0; 0; 1; 1; 1; 1; 0; 1]
    | _ => False end
  | _ => False end.
Proof. vm_compute. reflexivity. Qed.

Example C39_aux_example :
  match aux_serialize (akr 2 1), aux_serialize (akr 3 1) with
  | Ok s2, Ok s3 => aux_deserialize toys 100 s2 pr npr pxr npxr 3 = Ok (akr 2 1) /\
    match aux_deserialize toys 100 s3 pr npr pxr npxr 3 with
    | Ok a => length (ak_keys a) = 1%nat /\ length (ak_keys (akr 3 1)) = 2%nat
    | _ => False end
  | _, _ => False end.
Proof. vm_compute. repeat split. Qed.

Print Assumptions C40_create.
Print Assumptions C40_apply.
Print Assumptions C40_decrypts.
Print Assumptions C40_rejects.
Print Assumptions C40_galois.
Print Assumptions C39_aux_round_trip.
Print Assumptions C39_aux_round_trip_refuted.
Print Assumptions C39_aux_empty_refuted.
