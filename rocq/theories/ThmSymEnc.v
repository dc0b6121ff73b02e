(** C25-C30: encryption and the homomorphic operations (symmetric_encryption.h).
    The vocabulary ([key_ok], [ct_ok], [carries], [phase]) is in SymSpec.v.
    [carries L key x f]: ciphertext x, with any number of components, hides the
    integer polynomial f = message + t * error under the key. *)
From Coq Require Import Arith Znumtheory.
From Verif Require Import Base FinSum PolySpec Ring ZLemmas Montgomery MontBatch Ntt Poly PolyExt Prng Sampling SampleSpec MontgomeryProofs
  Spec PolyView ArithFacts NttFacts PolyFacts PrimeCheck ThmPoly SymEnc SymSpec SymProofs SymProofs2 SymFacts SymSwitch.
Local Notation zsum := FinSum.zsum.

(** ** C25 *)

Theorem C25_remove_error :
  forall k q p t v (m e : nat -> Z), params_for k q p -> 0 < t <= q -> Forall (stored p) v ->
  (forall i, (i < length v)%nat ->
     0 <= m i < t /\ fits q (m i + t * e i) /\ export_int p (nth i v 0) = (m i + t * e i) mod q) ->
  remove_error p q t v = tabulate (length v) m.
Proof.
  intros k q p t v m e H Ht Hv Hm. destruct (pf_good _ _ _ H) as (G & _ & E). subst q. pose proof (m_gt1 p G).
  rewrite remove_error_ok by assumption. unfold tabulate. apply (nth_ext _ _ 0 0).
  { rewrite !map_length, seq_length. reflexivity. }
  intros i Hi. rewrite map_length in Hi. destruct (Hm i Hi) as (M1 & M2 & M3).
  rewrite (nth_indep _ 0 (centered (p_m p) (export_int p 0) mod t)) by (rewrite map_length; exact Hi).
  rewrite (map_nth (fun x => centered (p_m p) (export_int p x) mod t)), M3.
  rewrite (centered_eq (p_m p) _ (m i + t * e i)); [|lia|exact M2|apply cong_mod].
  rewrite (nth_indep _ 0 (m 0%nat)) by (rewrite map_length, seq_length; exact Hi). rewrite map_nth, seq_nth by exact Hi.
  rewrite Z.mul_comm, Z_mod_plus_full. apply Z.mod_small. exact M1.
Qed.

(** without any assumption on the noise *)
Theorem C25_remove_error_value :
  forall k q p t v, params_for k q p -> 0 < t <= q -> Forall (stored p) v ->
  remove_error p q t v = map (fun x => centered q (export_int p x) mod t) v.
Proof.
  intros k q p t v H Ht Hv. destruct (pf_good _ _ _ H) as (G & _ & E). subst q. apply remove_error_ok; assumption.
Qed.

Theorem C25_measure_error :
  forall k q p v, params_for k q p -> Forall (stored p) v ->
  (forall x, In x v -> Z.abs (centered q (export_int p x)) <= measure_error p q v) /\
  (v <> [] -> exists x, In x v /\ Z.abs (centered q (export_int p x)) = measure_error p q v) /\
  measure_error p q [] = 0.
Proof.
  intros k q p v H Hv. destruct (pf_good _ _ _ H) as (G & _ & E). subst q.
  destruct (measure_error_ok p v G Hv) as [B A]. split; [exact B|]. split; [|reflexivity].
  intros Nv. destruct A as [[Ev _]|(x & A)]; [congruence|].
  destruct A as [A|A]; [exists x; exact A|]. destruct v as [|x0 v']; [congruence|].
  exists x0. split; [left; reflexivity|]. specialize (B x0 (or_introl eq_refl)). lia.
Qed.

Example C25_example :
  remove_error p97 97 3 (map (import_int p97) [0; 48; 49; 96; 1; 50]) = [0; 0; 0; 2; 1; 1] /\
  measure_error p97 97 (map (import_int p97) [0; 3; 49; 96]) = 48 /\
  fits 97 (2 + 3 * 15) /\ fits 97 (0 + 3 * (-16)) /\ ~ fits 97 (1 + 3 * 16).
Proof. repeat split; try (vm_compute; reflexivity); unfold fits; lia. Qed.

(** ** C26 *)

(** what decryption computes, for every ciphertext *)
Theorem C26_decrypt :
  forall k q L t key x f, key_ok k q L t key -> 0 < t <= q -> ct_ok L key x -> carries L key x f ->
  decrypt key x = Ok (tabulate (2 ^ L) (fun i => centered q (f i) mod t)) /\
  ((forall i, (i < 2 ^ L)%nat -> fits q (f i)) ->
   decrypt key x = Ok (tabulate (2 ^ L) (fun i => f i mod t))).
Proof.
  intros k q L t key x f K Ht Hx Hf. split; [apply (decrypt_carries k q L t key K); assumption|].
  intros Hb. apply (decrypt_fits k q L t key K); assumption.
Qed.

(** every ciphertext carries its own phase *)
Theorem C26_decrypt_total :
  forall k q L t key x, key_ok k q L t key -> 0 < t <= q -> ct_ok L key x ->
  decrypt key x = Ok (tabulate (2 ^ L) (fun i =>
    centered q (phase (2 ^ L) (secret key) (length (ct_c x)) (component (sk_np key) x) i) mod t)).
Proof.
  intros k q L t key x K Ht Hx. apply (decrypt_carries k q L t key K); [assumption| |assumption].
  intros i Hi. reflexivity.
Qed.

Theorem C26_zero_plaintext_modulus :
  forall k q L key x, key_ok k q L 0 key -> ct_ok L key x -> decrypt key x = Err InvalidArgument.
Proof.
  intros k q L key x K Hx. unfold decrypt.
  rewrite (extract_carries k q L 0 key K x _ Hx (fun i _ => cong_eq _ _ _ eq_refl)). cbn [bind].
  rewrite (ko_t _ _ _ _ _ K). reflexivity.
Qed.

(** a fresh ciphertext carries message + t * error with |error| <= 2 * variance *)
Theorem C26_encrypt :
  forall k q L t key (R : prng) fuel pt s x s', enc_key k q L t key -> ntt_poly (sk_p key) L pt ->
  prng_ok R -> 0 <= sk_var key -> 2 * sk_var key <= q ->
  encrypt R fuel key pt s = Ok (x, s') ->
  ct_ok L key x /\ length (ct_c x) = 2%nat /\ ct_pow x = 1 /\ ct_lazy x = [] /\
  exists e, (forall i, (i < 2 ^ L)%nat -> Z.abs (e i) <= 2 * sk_var key) /\
    carries L key x (fun i => coeff (sk_p key) (sk_np key) pt i + t * e i).
Proof.
  intros k q L t key R fuel pt s x s' [K EP ST] Hpt HR Hv Hvq E.
  pose proof (key_ctx k q L t key K) as C. pose proof (key_q k q L t key K) as Eq. pose proof (ko_t _ _ _ _ _ K) as Et.
  rewrite EP in Et. rewrite <- Eq in Hvq.
  destruct (encrypt_carries (sk_p key) L (sk_np key) C R fuel key pt s x s' eq_refl eq_refl (ko_key _ _ _ _ _ K) ST Hpt HR Hv Hvq E)
    as (e & He & Px & Lx & Fx & Wx & Zx & Cx).
  split; [split; assumption|]. split; [exact Lx|]. split; [exact Wx|]. split; [exact Zx|].
  exists e. split; [intros i Hi; specialize (He i Hi); lia|].
  rewrite Et in Cx. apply (carries_p L key x _ Px). exact Cx.
Qed.

Theorem C26_decrypt_encrypt :
  forall k q L t key (R : prng) fuel pt s x s', enc_key k q L t key -> ntt_poly (sk_p key) L pt ->
  (forall i, (i < 2 ^ L)%nat -> 0 <= coeff (sk_p key) (sk_np key) pt i < t) ->
  prng_ok R -> 0 <= sk_var key -> 2 * (t * (2 * sk_var key) + t - 1) < q ->
  encrypt R fuel key pt s = Ok (x, s') ->
  decrypt key x = Ok (tabulate (2 ^ L) (coeff (sk_p key) (sk_np key) pt)).
Proof.
  intros k q L t key R fuel pt s x s' EK Hpt Hm HR Hv Hb E.
  assert (T0 : 0 < t). { pose proof (n_pos' L). specialize (Hm 0%nat ltac:(lia)). lia. }
  destruct (C26_encrypt k q L t key R fuel pt s x s' EK Hpt HR Hv ltac:(nia) E) as (Hx & _ & _ & _ & e & He & Hc).
  pose proof (C26_decrypt k q L t key x _ (ek_key _ _ _ _ _ EK) ltac:(nia) Hx Hc) as [_ D]. rewrite D; clear D.
  - f_equal. unfold tabulate. apply map_ext_in. intros i Hi. apply in_seq in Hi.
    rewrite Z.mul_comm, Z_mod_plus_full. apply Z.mod_small, Hm. lia.
  - intros i Hi. specialize (He i Hi). specialize (Hm i Hi). unfold fits. nia.
Qed.

(** encryption succeeds as soon as the generator delivers (16-bit words: the
    fused multiply-add may overflow, see C06) *)
Theorem C26_encrypt_succeeds :
  forall k q L t key (R : prng) fuel pt s a s1 e s2, enc_key k q L t key -> ntt_poly (sk_p key) L pt -> k <> 16 ->
  prng_ok R -> 0 <= sk_var key -> 2 * sk_var key <= q ->
  sample_polynomial R fuel (2 ^ Z.of_nat L) (sk_p key) s = Ok (a, s1) ->
  sample_error R (sk_p key) (2 ^ L) (sk_var key) s1 = Ok (e, s2) ->
  exists x, encrypt R fuel key pt s = Ok (x, s2).
Proof.
  intros k q L t key R fuel pt s a s1 e s2 [K EP ST] Hpt Hk HR Hv Hvq Ea Ee.
  pose proof (key_ctx k q L t key K) as C. pose proof (key_q k q L t key K) as Eq.
  pose proof (proj1 C) as G. pose proof (ko_key _ _ _ _ _ K) as Kk.
  unfold encrypt. cbv zeta. rewrite (proj1 Kk). rewrite Nat2Z.inj_pow. change (Z.of_nat 2) with 2. rewrite Ea. cbn [bind].
  destruct (sample_polynomial_stored R (sk_p key) _ _ _ _ _ G Ea) as (La & _ & Ra).
  assert (Ha : ntt_poly (sk_p key) L a).
  { split; [rewrite La|exact Ra]. change 2 with (Z.of_nat 2). rewrite <- Nat2Z.inj_pow. apply Nat2Z.id. }
  unfold encrypt_internal. cbv zeta. rewrite (proj1 Kk), Ee. cbn [bind].
  destruct (sample_error_bounded R (sk_p key) _ _ _ _ _ G HR Hv ltac:(lia) Ee) as (_ & Le & Re & _).
  assert (Se : Forall (stored (sk_p key)) e) by (eapply Forall_impl; [|exact Re]; intros; apply reduced_stored; assumption).
  destruct (convert_coeff _ L _ C e Le Se) as (c0 & -> & H0 & _). cbn [bind].
  destruct (mul_scalar_pw _ L _ C (sk_t key) ST c0 H0) as (c1 & -> & H1 & _). cbn [bind].
  destruct (add_pw _ L _ C c1 pt H1 Hpt) as (c2 & -> & H2 & _). cbn [bind].
  destruct (fused_total_k _ L _ C ltac:(rewrite (key_k _ _ _ _ _ K); exact Hk) c2 a (sk_key key) H2 Ha Kk) as (c3 & ->). cbn [bind].
  eexists. reflexivity.
Qed.

(** a key drawn with Sample has the shape the theorems ask for *)
Theorem C26_sampled_key :
  forall k q p np L (R : prng) v l s key s', params_for k q p -> ntt_for p L np -> prng_ok R ->
  0 <= v -> 2 * v <= q -> 0 <= l -> 2 ^ l + 1 < q ->
  key_sample R L v l p np s = Ok (key, s') ->
  enc_key k q L (2 ^ l + 1) key /\ sk_p key = p /\ sk_np key = np /\ sk_var key = v /\ v <= 256 /\
  forall i, (i < 2 ^ L)%nat -> exists e, Z.abs e <= 2 * v /\ secret key i = e mod q.
Proof.
  intros k q p np L R v l s key s' HP HN HR Hv Hvq Hl Ht E.
  destruct (sample_key_ok k q p np L R v l s key s' HP HN HR Hv Hvq Hl Ht E) as (I1 & I2 & I3 & I4 & _ & I5 & I6).
  do 5 (split; [assumption|]). intros i Hi. destruct (I6 i Hi) as (e & He & Ee). exists e. split; [lia|exact Ee].
Qed.

(** all together *)
Theorem C26_sample_encrypt_decrypt :
  forall k q p np L (R R' : prng) v l s key s' fuel pt r x r', params_for k q p -> ntt_for p L np ->
  prng_ok R -> prng_ok R' -> 0 <= v -> 0 <= l -> 2 * ((2 ^ l + 1) * (2 * v) + 2 ^ l) < q ->
  key_sample R L v l p np s = Ok (key, s') ->
  ntt_poly p L pt -> (forall i, (i < 2 ^ L)%nat -> 0 <= coeff p np pt i < 2 ^ l + 1) ->
  encrypt R' fuel key pt r = Ok (x, r') ->
  decrypt key x = Ok (tabulate (2 ^ L) (coeff p np pt)).
Proof.
  intros k q p np L R R' v l s key s' fuel pt r x r' HP HN HR HR' Hv Hl Hb Es Hpt Hm Ex.
  assert (0 < 2 ^ l) by (apply Z.pow_pos_nonneg; lia).
  destruct (C26_sampled_key k q p np L R v l s key s' HP HN HR Hv ltac:(nia) Hl ltac:(nia) Es) as (EK & <- & <- & Ev & _).
  apply (C26_decrypt_encrypt k q L (2 ^ l + 1) key R' fuel pt r x r' EK Hpt Hm HR'); [lia| |exact Ex].
  rewrite Ev. lia.
Qed.

(** a generator for the examples *)
Definition toy : prng :=
  let next s := (s * 6364136223846793005 + 1442695040888963407) mod 2 ^ 64 in
  {| pr_st := Z;
     pr_rand8 := fun s => Ok ((s / 2 ^ 40) mod 2 ^ 8, next s);
     pr_rand64 := fun s => Ok (s mod 2 ^ 64, next s) |}.
Lemma toy_ok : prng_ok toy.
Proof. split; intros s; cbn [toy pr_rand8 pr_rand64]; apply Z.mod_pos_bound; reflexivity. Qed.

Definition key97 : skey := Eval vm_compute in
  (match key_sample toy 3 1 1 p97 np8 12345 with
  | Ok (key, _) => key
  | _ => {| sk_key := []; sk_var := 0; sk_logt := 0; sk_t := 0; sk_p := p97; sk_pt := p97; sk_np := np8 |}
  end).
Lemma key97_ok : enc_key 16 97 3 3 key97 /\ sk_var key97 = 1 /\ sk_p key97 = p97 /\ sk_np key97 = np8 /\ sk_logt key97 = 1.
Proof.
  destruct (key_sample toy 3 1 1 p97 np8 12345) as [[key s']| |] eqn:E.
  2,3: vm_compute in E; discriminate E.
  assert (Ek : key = key97) by (vm_compute in E; injection E as <- _; reflexivity).
  destruct (sample_key_ok 16 97 p97 np8 3 toy 1 1 12345 key s' p97_for np8_for toy_ok ltac:(lia) ltac:(lia) ltac:(lia) ltac:(lia) E)
    as (I1 & I2 & I3 & I4 & I5 & _).
  rewrite <- Ek. repeat (split; [assumption|]). assumption.
Qed.
Definition m8 := Eval vm_compute in poly8 [0; 1; 2; 2; 1; 0; 0; 1].
Definition enc97 (pt : poly) (seed : Z) : ct :=
  match encrypt toy 100 key97 pt seed with Ok (x, _) => x | _ => ct_empty p97 end.

Example C26_example :
  secret key97 0 <> 0 /\ tabulate 8 (signed_secret key97) <> repeat 0 8 /\ ct_c (enc97 m8 99) <> ct_c (enc97 m8 100) /\
  (2 * (3 * (2 * 1) + 3 - 1) < 97) /\
  (exists x s', encrypt toy 100 key97 m8 99 = Ok (x, s')) /\
  tabulate 8 (coeff p97 np8 m8) = [0; 1; 2; 2; 1; 0; 0; 1] /\
  decrypt key97 (enc97 m8 99) = Ok [0; 1; 2; 2; 1; 0; 0; 1].
Proof.
  split; [vm_compute; discriminate|]. split; [vm_compute; discriminate|]. split; [vm_compute; discriminate|]. split; [lia|].
  split; [|split; vm_compute; reflexivity].
  destruct (encrypt toy 100 key97 m8 99) as [[x s']| |] eqn:E; [exists x, s'; reflexivity|..]; vm_compute in E; discriminate.
Qed.

(** ** C27 *)

Lemma nth_tabulate n f i : (i < n)%nat -> nth i (tabulate n f) 0 = f i.
Proof.
  intros Hi. unfold tabulate. rewrite (nth_indep _ 0 (f 0%nat)) by (rewrite map_length, seq_length; exact Hi).
  rewrite map_nth, seq_nth by exact Hi. reflexivity.
Qed.

Theorem C27_add_sub :
  forall k q L t key x y f g, key_ok k q L t key -> ct_ok L key x -> ct_ok L key y ->
  carries L key x f -> carries L key y g -> ct_pow x = ct_pow y ->
  (exists z, ct_add x y = Ok z /\ ct_ok L key z /\ ct_pow z = ct_pow x /\
     length (ct_c z) = Nat.max (length (ct_c x)) (length (ct_c y)) /\ carries L key z (fun i => f i + g i)) /\
  (exists z, ct_sub x y = Ok z /\ ct_ok L key z /\ ct_pow z = ct_pow x /\
     length (ct_c z) = Nat.max (length (ct_c x)) (length (ct_c y)) /\ carries L key z (fun i => f i - g i)).
Proof.
  intros k q L t key x y f g K Hx Hy Hf Hg Ep. split.
  - apply (add_carries k q L t key K x y f g Hx Hy Hf Hg Ep).
  - apply (sub_carries k q L t key K x y f g Hx Hy Hf Hg Ep).
Qed.

(** in terms of decryptions *)
Theorem C27_decrypts :
  forall k q L t key x y f g mx my, key_ok k q L t key -> 0 < t <= q -> ct_ok L key x -> ct_ok L key y ->
  carries L key x f -> carries L key y g -> ct_pow x = ct_pow y ->
  (forall i, (i < 2 ^ L)%nat -> 2 * (Z.abs (f i) + Z.abs (g i)) < q) ->
  decrypt key x = Ok mx -> decrypt key y = Ok my ->
  (do! z <- ct_add x y; decrypt key z) = Ok (tabulate (2 ^ L) (fun i => (nth i mx 0 + nth i my 0) mod t)) /\
  (do! z <- ct_sub x y; decrypt key z) = Ok (tabulate (2 ^ L) (fun i => (nth i mx 0 - nth i my 0) mod t)).
Proof.
  intros k q L t key x y f g mx my K Ht Hx Hy Hf Hg Ep Hb Dx Dy.
  destruct (C27_add_sub k q L t key x y f g K Hx Hy Hf Hg Ep) as ((z1 & E1 & O1 & _ & _ & C1) & (z2 & E2 & O2 & _ & _ & C2)).
  rewrite E1, E2. cbn [bind].
  rewrite (proj2 (C26_decrypt k q L t key x f K Ht Hx Hf)) in Dx by (intros i Hi; specialize (Hb i Hi); unfold fits; lia).
  rewrite (proj2 (C26_decrypt k q L t key y g K Ht Hy Hg)) in Dy by (intros i Hi; specialize (Hb i Hi); unfold fits; lia).
  rewrite (proj2 (C26_decrypt k q L t key z1 _ K Ht O1 C1)) by (intros i Hi; specialize (Hb i Hi); unfold fits; lia).
  rewrite (proj2 (C26_decrypt k q L t key z2 _ K Ht O2 C2)) by (intros i Hi; specialize (Hb i Hi); unfold fits; lia).
  injection Dx as <-. injection Dy as <-. split; f_equal; unfold tabulate at 1 2; apply map_ext_in; intros i Hi; apply in_seq in Hi;
    rewrite !nth_tabulate by lia; [apply Z.add_mod; lia|apply Zminus_mod].
Qed.

Theorem C27_key_mismatch :
  forall x y, ct_pow x <> ct_pow y -> ct_add x y = Err InvalidArgument /\ ct_sub x y = Err InvalidArgument.
Proof.
  intros x y H. unfold ct_add, ct_sub. destruct (Z.eqb_spec (ct_pow x) (ct_pow y)); [contradiction|]. split; reflexivity.
Qed.

Example C27_example :
  match ct_add (enc97 m8 99) (enc97 m8 7), ct_sub (enc97 m8 99) (enc97 a8 7) with
  | Ok z, Ok w => decrypt key97 z = Ok [0; 2; 1; 1; 2; 0; 0; 2] /\ length (ct_c w) = 2%nat
  | _, _ => False
  end.
Proof. vm_compute. split; reflexivity. Qed.

(** ** C28 *)

(** [h] is any integer polynomial the plaintext polynomial b stands for, e.g.
    with signed coefficients; [c] likewise for the scalar s *)
Theorem C28_absorb :
  forall k q L t key x f b h, key_ok k q L t key -> ct_ok L key x -> carries L key x f ->
  ntt_poly (sk_p key) L b -> (forall i, (i < 2 ^ L)%nat -> cong q (coeff (sk_p key) (sk_np key) b i) (h i)) ->
  exists z, ct_absorb x b = Ok z /\ ct_ok L key z /\ ct_pow z = ct_pow x /\ length (ct_c z) = length (ct_c x) /\
    carries L key z (negacyclic (2 ^ L) f h).
Proof.
  intros k q L t key x f b h K Hx Hf Hb Hh. exact (absorb_carries k q L t key K x f Hx Hf b Hb h Hh).
Qed.

Theorem C28_absorb_scalar :
  forall k q L t key x f s c, key_ok k q L t key -> ct_ok L key x -> carries L key x f ->
  stored (sk_p key) s -> cong q (export_int (sk_p key) s) c ->
  exists z, ct_absorb_scalar x s = Ok z /\ ct_ok L key z /\ ct_pow z = ct_pow x /\ length (ct_c z) = length (ct_c x) /\
    carries L key z (fun i => c * f i).
Proof.
  intros k q L t key x f s c K Hx Hf Hs Hc. exact (absorb_scalar_carries k q L t key K x f Hx Hf s c Hs Hc).
Qed.

Theorem C28_multiply :
  forall k q L t key x y f g, key_ok k q L t key -> ct_ok L key x -> ct_ok L key y ->
  carries L key x f -> carries L key y g ->
  (forall z, ct_mul x y = Ok z ->
     ct_ok L key z /\ ct_pow z = ct_pow x /\ (length (ct_c z) = length (ct_c x) + length (ct_c y) - 1)%nat /\
     carries L key z (negacyclic (2 ^ L) f g)) /\
  (k <> 16 -> ct_pow x = ct_pow y -> ct_c x <> [] -> ct_c y <> [] -> exists z, ct_mul x y = Ok z) /\
  (ct_c x = [] \/ ct_c y = [] \/ ct_pow x <> ct_pow y -> ct_mul x y = Err InvalidArgument).
Proof.
  intros k q L t key x y f g K Hx Hy Hf Hg. split; [|split].
  - exact (mul_carries k q L t key K x y f g Hx Hy Hf Hg).
  - exact (mul_defined k q L t key K x y Hx Hy).
  - intros H. unfold ct_mul. destruct (Z.eqb_spec (ct_pow x) (ct_pow y)) as [E|E]; [|reflexivity]. cbn [negb].
    destruct (ct_c x) as [|x0 xs]; [reflexivity|]. destruct (ct_c y) as [|y0 ys]; [reflexivity|].
    destruct H as [H|[H|H]]; congruence.
Qed.

Theorem C28_fused_absorb :
  forall k q L t key x y f g b h, key_ok k q L t key -> ct_ok L key x -> ct_ok L key y ->
  carries L key x f -> carries L key y g -> ct_pow x = ct_pow y ->
  ntt_poly (sk_p key) L b -> (forall i, (i < 2 ^ L)%nat -> cong q (coeff (sk_p key) (sk_np key) b i) (h i)) ->
  (forall z, ct_fused_absorb x y b = Ok z ->
     ct_ok L key z /\ ct_pow z = ct_pow x /\ carries L key z (fun i => f i + negacyclic (2 ^ L) g h i)) /\
  (k <> 16 -> exists z, ct_fused_absorb x y b = Ok z) /\
  exists z, (do! cb <- poly_constants (sk_p key) b; ct_fused_absorb_constant x y cb) = Ok z /\
     ct_ok L key z /\ ct_pow z = ct_pow x /\ carries L key z (fun i => f i + negacyclic (2 ^ L) g h i).
Proof.
  intros k q L t key x y f g b h K Hx Hy Hf Hg Ep Hb Hh. split; [|split].
  - intros z. apply (fused_absorb_carries k q L t key K x y b z f g h); assumption.
  - intros Hk. apply (fused_absorb_defined k q L t key K x y b); assumption.
  - apply (fused_constant_carries k q L t key K x y f g Hx Hy Hf Hg b Hb h Hh Ep).
Qed.

(** in terms of decryptions: the product modulo X^n + 1 and t *)
Theorem C28_decrypts :
  forall k q L t key x y f g mx my z, key_ok k q L t key -> 0 < t <= q -> ct_ok L key x -> ct_ok L key y ->
  carries L key x f -> carries L key y g ->
  (forall i, (i < 2 ^ L)%nat -> fits q (f i) /\ fits q (g i) /\ fits q (negacyclic (2 ^ L) f g i)) ->
  decrypt key x = Ok mx -> decrypt key y = Ok my -> ct_mul x y = Ok z ->
  decrypt key z = Ok (tabulate (2 ^ L) (fun i =>
    negacyclic (2 ^ L) (fun j => nth j mx 0) (fun j => nth j my 0) i mod t)).
Proof.
  intros k q L t key x y f g mx my z K Ht Hx Hy Hf Hg Hb Dx Dy E.
  destruct (proj1 (C28_multiply k q L t key x y f g K Hx Hy Hf Hg) z E) as (Oz & _ & _ & Cz).
  rewrite (proj2 (C26_decrypt k q L t key x f K Ht Hx Hf)) in Dx by (intros i Hi; apply (Hb i Hi)).
  rewrite (proj2 (C26_decrypt k q L t key y g K Ht Hy Hg)) in Dy by (intros i Hi; apply (Hb i Hi)).
  rewrite (proj2 (C26_decrypt k q L t key z _ K Ht Oz Cz)) by (intros i Hi; apply (Hb i Hi)).
  injection Dx as <-. injection Dy as <-. f_equal. unfold tabulate at 1 2. apply map_ext_in. intros i Hi. apply in_seq in Hi.
  apply (cong_to_mod t); [lia|]. apply negacyclic_cong; try lia; intros j Hj; rewrite nth_tabulate by exact Hj; symmetry; apply cong_mod.
Qed.

Definition keyz : skey :=
  {| sk_key := poly8 [1; 0; 0; 96; 0; 0; 0; 0]; sk_var := 0; sk_logt := 1; sk_t := import_int p97 3; sk_p := p97; sk_pt := p97; sk_np := np8 |}.
Definition encz (pt : poly) (seed : Z) : ct :=
  match encrypt toy 100 keyz pt seed with Ok (x, _) => x | _ => ct_empty p97 end.
Example C28_example :
  match ct_mul (encz m8 99) (encz m8 7) with
  | Ok z => length (ct_c z) = 3%nat /\ decrypt keyz z = Ok [0; 2; 0; 2; 2; 1; 1; 1] | _ => False end /\
  match ct_absorb (enc97 m8 99) (poly8 [0; 1; 0; 0; 0; 0; 0; 0]) with
  | Ok z => decrypt key97 z = Ok [2; 0; 1; 2; 2; 1; 0; 0] | _ => False end /\
  match ct_absorb_scalar (enc97 m8 99) (import_int p97 2) with
  | Ok z => decrypt key97 z = Ok [0; 2; 1; 1; 2; 0; 0; 2] | _ => False end.
Proof. vm_compute. repeat split. Qed.

(** ** C29 *)

(** Any sequence of lazy absorptions followed by MergeLazyOperations gives, word
    for word, the ciphertext of the eager sequence, provided no non-empty
    ciphertext is shorter than an earlier one. Missing: sequences violating
    that, for which the code reads out of bounds (next theorem). *)
Theorem C29_lazy_equals_eager_partial :
  forall k q L t key x ops, key_ok k q L t key -> ct_ok L key x -> ct_lazy x = [] ->
  Forall (fun ab => ct_ok L key (fst ab) /\ ntt_poly (sk_p key) L (snd ab) /\ ct_pow (fst ab) = ct_pow x) ops ->
  growing 0 ops -> Exists (fun ab => ct_c (fst ab) <> []) ops ->
  exists z, (do! y <- run_lazy x ops; ct_merge y) = Ok z /\ ct_ok L key z /\ ct_lazy z = [] /\
    (forall w, run_fused x ops = Ok w -> z = w) /\
    (k <> 16 -> run_fused x ops = Ok z).
Proof.
  intros k q L t key x ops K Hx El HO HG HE.
  assert (HO1 : opsok L key ops) by (eapply Forall_impl; [|exact HO]; intros ab H; split; apply H).
  assert (HO2 : Forall (fun ab => ct_pow (fst ab) = ct_pow x) ops) by (eapply Forall_impl; [|exact HO]; intros ab H; apply H).
  assert (HM : (0 < maxlen 0 ops)%nat).
  { clear - HE. induction HE as [[a b] ops H|[a b] ops HE IH]; cbn [fst] in *.
    - unfold maxlen. cbn [fold_left fst]. pose proof (maxlen_ge ops (Nat.max 0 (length (ct_c a)))) as M. unfold maxlen in M.
      destruct (ct_c a); [congruence|]. cbn [length] in *. lia.
    - change (maxlen 0 ((a, b) :: ops)) with (maxlen (Nat.max 0 (length (ct_c a))) ops). rewrite maxlen_max. lia. }
  destruct (lazy_equals_eager k q L t key K ops x HO1 Hx El HO2 HG HM) as (z & Ez & Oz & Zz & W).
  exists z. split; [exact Ez|]. split; [exact Oz|]. split; [exact Zz|]. split; [exact W|].
  intros Hk. destruct (run_fused_defined k q L t key K ops Hk HO1 x Hx HO2) as (w & Ew). rewrite Ew. f_equal. symmetry. apply W, Ew.
Qed.

(** every lazy call with a non-empty ciphertext shorter than the accumulators
    reads out of bounds *)
Theorem C29_shorter_refuted :
  ~ (forall k q L t key x ops, key_ok k q L t key -> ct_ok L key x -> ct_lazy x = [] ->
     Forall (fun ab => ct_ok L key (fst ab) /\ ntt_poly (sk_p key) L (snd ab) /\ ct_pow (fst ab) = ct_pow x) ops ->
     run_lazy x ops <> UB).
Proof.
  intros A. destruct key97_ok as (EK & _ & Ep & _).
  pose proof (proj1 (proj1 C18_example)) as La. pose proof (proj2 (proj1 C18_example)) as Sa.
  assert (Ha : ntt_poly (sk_p key97) 3 a8) by (rewrite Ep; split; assumption).
  apply (A 16 97 3%nat 3 key97 (ct_empty p97) [(ct_make p97 [a8; a8] 1, a8); (ct_make p97 [a8] 1, a8)] (ek_key _ _ _ _ _ EK)).
  - split; [symmetry; exact Ep|constructor].
  - reflexivity.
  - assert (Hc : forall l, Forall (ntt_poly (sk_p key97) 3) l -> ct_ok 3 key97 (ct_make p97 l 1)) by (intros l Hl; split; [symmetry; exact Ep|exact Hl]).
    constructor; [|constructor; [|constructor]]; cbn [fst snd]; (split; [apply Hc; repeat (constructor; [exact Ha|]); constructor|split; [exact Ha|reflexivity]]).
  - vm_compute. reflexivity.
Qed.

Theorem C29_edge_cases :
  forall x a b,
  (ct_lazy x = [] -> ct_merge x = Err FailedPrecondition) /\
  (ct_pow x <> ct_pow a -> ct_fused_lazily x a b = Err InvalidArgument /\ ct_fused_absorb x a b = Err InvalidArgument) /\
  (ct_pow x = ct_pow a -> ct_c a = [] -> ct_fused_lazily x a b = Ok x /\ ct_fused_absorb x a b = Ok x).
Proof.
  intros x a b. split; [|split].
  - intros H. unfold ct_merge. rewrite H. reflexivity.
  - intros H. unfold ct_fused_lazily, ct_fused_absorb. destruct (Z.eqb_spec (ct_pow x) (ct_pow a)); [contradiction|]. split; reflexivity.
  - intros H Ha. unfold ct_fused_lazily, ct_fused_absorb. rewrite H, Z.eqb_refl, Ha. cbn [negb]. split; [reflexivity|].
    destruct x as [c z w p]. cbn [ct_c ct_p]. destruct c; reflexivity.
Qed.

Example C29_example :
  let ops := [(ct_make p97 [b8] 1, a8); (enc97 m8 99, a8); (ct_empty p97, b8); (enc97 m8 7, b8)] in
  growing 0 ops /\ Exists (fun ab => ct_c (fst ab) <> []) ops /\
  match run_lazy (ct_make p97 [a8; a8; b8] 1) ops with Ok y => ct_merge y | _ => UB end = run_fused (ct_make p97 [a8; a8; b8] 1) ops /\
  match run_fused (ct_make p97 [a8; a8; b8] 1) ops with Ok y => length (ct_c y) = 3%nat | _ => False end.
Proof.
  cbv zeta. split; [|split; [constructor; discriminate|split; vm_compute; reflexivity]].
  cbn [growing]. repeat split; try (right; vm_compute; lia); left; vm_compute; reflexivity.
Qed.

(** ** C30 *)

(** one coefficient: same residue modulo t, and the integer it stands for is
    within (t + 3) / 2 of c * Q / P *)
Theorem C30_coefficient :
  forall k P Q pp pq t x, params_for k P pp -> params_for k Q pq -> Q <= P -> 0 < t <= Q -> stored pp x ->
  reduced pq (switch1 pp pq t x) /\
  exists d, export_int pq (switch1 pp pq t x) = d mod Q /\ cong t d (export_int pp x) /\
    2 * Z.abs (P * d - Q * export_int pp x) <= P * (t + 3).
Proof.
  intros k P Q pp pq t x HP HQ LE Ht Hx. destruct (pf_good _ _ _ HP) as (GP & KP & <-). destruct (pf_good _ _ _ HQ) as (GQ & KQ & <-).
  destruct (switch1_ok pp pq GP GQ ltac:(congruence) LE t x Ht Hx) as [S1 S2]. split; [exact S1|].
  exists (switch_int pp pq t (export_int pp x)). split.
  - rewrite (stored_val pq _ GQ (crep_rep pq _ S1)). exact S2.
  - split; [apply switch_int_mod; lia|apply switch_int_close; [exact GP|lia]].
Qed.

(** the whole ciphertext; key' holds the same signed secret modulo Q *)
Theorem C30_switch_modulus :
  forall k P Q L t tp tq key key' x f, key_ok k P L tp key -> key_ok k Q L tq key' -> Q <= P -> 0 < t <= Q ->
  P mod t = Q mod t -> (forall i, (i < 2 ^ L)%nat -> cong Q (secret key' i) (signed_secret key i)) ->
  ct_ok L key x -> carries L key x f ->
  exists y, ct_switch_modulus (sk_np key) (sk_p key') (sk_np key') t x = Ok y /\ ct_ok L key' y /\
    ct_pow y = ct_pow x /\ length (ct_c y) = length (ct_c x) /\
    exists f', carries L key' y f' /\ forall i, (i < 2 ^ L)%nat -> cong t (f' i) (f i) /\
      2 * Z.abs (P * f' i - Q * f i) <=
        P * (t + 3) * zsum (length (ct_c x)) (fun j => l1 (2 ^ L) (npow (2 ^ L) (signed_secret key) j)).
Proof. intros k P Q L t tp tq key key' x f K K' LE Ht HM HS Hx Hf. apply (switch_carries k P Q L t tp tq key key'); assumption. Qed.

(** ... and it decrypts to the same plaintext *)
Theorem C30_decrypts :
  forall k P Q L t key key' x f, key_ok k P L t key -> key_ok k Q L t key' -> Q <= P -> 0 < t <= Q ->
  P mod t = Q mod t -> (forall i, (i < 2 ^ L)%nat -> cong Q (secret key' i) (signed_secret key i)) ->
  ct_ok L key x -> carries L key x f ->
  (forall i, (i < 2 ^ L)%nat -> 2 * Q * Z.abs (f i) +
     P * (t + 3) * zsum (length (ct_c x)) (fun j => l1 (2 ^ L) (npow (2 ^ L) (signed_secret key) j)) < P * Q) ->
  (do! y <- ct_switch_modulus (sk_np key) (sk_p key') (sk_np key') t x; decrypt key' y) = decrypt key x.
Proof.
  intros k P Q L t key key' x f K K' LE Ht HM HS Hx Hf Hb.
  destruct (C30_switch_modulus k P Q L t t t key key' x f K K' LE Ht HM HS Hx Hf) as (y & -> & Oy & _ & _ & f' & Cy & B). cbn [bind].
  pose proof (q_gt1 _ _ _ _ _ K) as P1. pose proof (q_gt1 _ _ _ _ _ K') as Q1.
  set (S := zsum (length (ct_c x)) (fun j => l1 (2 ^ L) (npow (2 ^ L) (signed_secret key) j))) in *.
  assert (S0 : 0 <= S).
  { unfold S. rewrite <- (zsum_zero (length (ct_c x))). apply zsum_le. intros i Hi. unfold l1.
    rewrite <- (zsum_zero (2 ^ L)). apply zsum_le. intros j Hj. lia. }
  rewrite (proj2 (C26_decrypt k Q L t key' y f' K' ltac:(lia) Oy Cy)).
  - rewrite (proj2 (C26_decrypt k P L t key x f K ltac:(lia) Hx Hf)).
    + f_equal. unfold tabulate. apply map_ext_in. intros i Hi. apply in_seq in Hi.
      apply (cong_to_mod t); [lia|]. apply (B i). lia.
    + intros i Hi. specialize (Hb i Hi). assert (0 <= P * (t + 3) * S) by (apply Z.mul_nonneg_nonneg; nia).
      assert (2 * Z.abs (f i) < P) by nia. unfold fits. lia.
  - intros i Hi. specialize (Hb i Hi). destruct (B i Hi) as [_ Bi].
    assert (P * (2 * Z.abs (f' i)) < P * Q) by nia. assert (2 * Z.abs (f' i) < Q) by nia. unfold fits. lia.
Qed.

(** the key side: SwitchModulus keeps the signed coefficients *)
Theorem C30_key_switch_modulus :
  forall k P Q L tp key pq npq, key_ok k P L tp key -> params_for k Q pq -> ntt_for pq L npq -> Q <= P ->
  0 <= sk_logt key -> 2 ^ sk_logt key + 1 < Q ->
  let t := 2 ^ sk_logt key + 1 in
  (P mod t = Q mod t -> exists key', key_switch_modulus pq npq key = Ok key' /\ enc_key k Q L t key' /\
     sk_p key' = pq /\ sk_np key' = npq /\
     (forall i, (i < 2 ^ L)%nat -> secret key' i = signed_secret key i mod Q) /\
     forall i, (i < 2 ^ L)%nat -> 2 * Z.abs (signed_secret key i) < Q -> signed_secret key' i = signed_secret key i) /\
  (P mod t <> Q mod t -> key_switch_modulus pq npq key = Err InvalidArgument).
Proof.
  intros k P Q L tp key pq npq K HP HN LE Hl Ht t. split.
  - intros HM. destruct (key_switch_ok k P Q L tp key pq npq K HP HN LE Hl Ht HM) as (key' & E & EK & Ep & En & _ & _ & S).
    exists key'. split; [exact E|]. split; [exact EK|]. split; [exact Ep|]. split; [exact En|]. split; [exact S|].
    intros i Hi Hb. unfold signed_secret at 1. rewrite (S i Hi).
    pose proof (key_q _ _ _ _ _ (ek_key _ _ _ _ _ EK)) as EQ. rewrite EQ. pose proof (q_gt1 _ _ _ _ _ (ek_key _ _ _ _ _ EK)).
    apply centered_eq; [lia|unfold fits; lia|apply cong_mod].
  - intros HM. destruct (pf_good _ _ _ HP) as (G & _ & EQ). rewrite <- EQ in Ht. unfold key_switch_modulus.
    rewrite (t_word_ok pq _ G (conj Hl (t_small pq _ G Hl Ht))). cbn [bind].
    assert (0 < 2 ^ sk_logt key) by (apply Z.pow_pos_nonneg; lia). destruct (Z.eqb_spec (2 ^ sk_logt key + 1) 0); [lia|].
    rewrite (key_q _ _ _ _ _ K), EQ. fold t. destruct (Z.eqb_spec (P mod t) (Q mod t)); [contradiction|]. reflexivity.
Qed.

Theorem C30_mismatch :
  forall npp pq npq t x, t <> 0 -> p_m (ct_p x) mod t <> p_m pq mod t ->
  ct_switch_modulus npp pq npq t x = Err InvalidArgument.
Proof.
  intros npp pq npq t x Ht H. unfold ct_switch_modulus. destruct (Z.eqb_spec t 0); [contradiction|].
  destruct (Z.eqb_spec (p_m (ct_p x) mod t) (p_m pq mod t)); [contradiction|]. reflexivity.
Qed.

(** from 4129 to 97, both 1 modulo 3 and modulo 32 *)
Definition p4129 : mparams := Eval vm_compute in
  (params_make 16 4129).
Definition np8b : nttp := Eval vm_compute in
  (match init_ntt p4129 3 with Ok np => np | _ => Build_nttp 0 0 [] [] [] [] [] end).
Definition poly8b (l : list Z) : poly :=
  match convert_to_ntt p4129 np8b (map (import_int p4129) l) with Ok a => a | _ => [] end.
Definition keyb : skey :=
  {| sk_key := poly8b [1; 0; 0; 4128; 0; 0; 0; 0]; sk_var := 1; sk_logt := 1; sk_t := import_int p4129 3; sk_p := p4129; sk_pt := p4129; sk_np := np8b |}.
Lemma p4129_for : params_for 16 4129 p4129.
Proof. split; [left; reflexivity|]. split; [lia|vm_compute; reflexivity]. Qed.
Lemma np8b_for : ntt_for p4129 3 np8b.
Proof. split; [apply (prime_by_trial 4129 70%nat); [lia|vm_compute; reflexivity]|vm_compute; reflexivity]. Qed.
Lemma keyb_ok : enc_key 16 4129 3 3 keyb.
Proof.
  split; [split| |]; cbn [keyb sk_p sk_pt sk_np sk_key sk_t].
  - exact p4129_for.
  - exact np8b_for.
  - split; [vm_compute; reflexivity|]. apply Forall_forall. intros y Hy.
    assert (F : forallb (fun x => (0 <=? x) && (x <=? 4129)) (poly8b [1; 0; 0; 4128; 0; 0; 0; 0]) = true) by (vm_compute; reflexivity).
    rewrite forallb_forall in F. specialize (F y Hy). change (stored p4129 y) with (0 <= y <= 4129). lia.
  - vm_compute. reflexivity.
  - reflexivity.
  - change (stored p4129 (import_int p4129 3)) with (0 <= import_int p4129 3 <= 4129). vm_compute. split; discriminate.
Qed.

Example C30_example :
  4129 mod 3 = 97 mod 3 /\
  match encrypt toy 100 keyb (poly8b [0; 1; 2; 2; 1; 0; 0; 1]) 5, key_switch_modulus p97 np8 keyb with
  | Ok (x, _), Ok key' =>
     match ct_switch_modulus np8b p97 np8 3 x with
     | Ok y => decrypt key' y = Ok [0; 1; 2; 2; 1; 0; 0; 1] /\ decrypt keyb x = Ok [0; 1; 2; 2; 1; 0; 0; 1] /\
               tabulate 8 (signed_secret key') = [1; 0; 0; -1; 0; 0; 0; 0]
     | _ => False end
  | _, _ => False end.
Proof. split; [reflexivity|]. vm_compute. repeat split. Qed.

Print Assumptions C25_remove_error.
Print Assumptions C26_sample_encrypt_decrypt.
Print Assumptions C26_encrypt_succeeds.
Print Assumptions C27_decrypts.
Print Assumptions C28_decrypts.
Print Assumptions C28_fused_absorb.
Print Assumptions C29_lazy_equals_eager_partial.
Print Assumptions C29_shorter_refuted.
Print Assumptions C30_decrypts.
Print Assumptions C30_key_switch_modulus.
