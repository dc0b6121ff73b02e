(** Key switching: C31 (relinearization), C32 (Galois keys), C38 (seed
    compression), C39 (serialized keys). *)
From Coq Require Import Arith Znumtheory.
From Verif Require Import Base FinSum PolySpec Ring Montgomery MontBatch Ntt Poly PolyExt Prng Sampling SampleSpec
  MontgomeryProofs Spec PolyView ArithFacts NttFacts PrimeCheck PolyFacts PolyExtProofs ThmPoly
  SymEnc SymSpec SymProofs SymFacts SymSwitch ThmSymEnc Relin RelinSpec RelinProofs.

Lemma key_L k q L t key : key_ok k q L t key -> (1 <= L <= 15)%nat.
Proof. intros K. apply (ntt_for_good k q _ L _ (ko_params _ _ _ _ _ K) (ko_ntt _ _ _ _ _ K)). Qed.

(** ** C31 *)

(** Create returns a key whose columns encrypt 2^(logT*i) * s(X^power)^a *)
Theorem C31_create :
  forall k q L t key (F : genfam) fuel ty num logT power seed seed_e rk,
  enc_key k q L t key -> 0 <= sk_var key -> 2 * sk_var key <= q -> prng_ok (gf_prng F ty) ->
  relin_create F fuel key ty num logT power seed seed_e = Ok rk ->
  relin_ok L t (sk_var key) key rk /\ rk_num rk = num /\ rk_logT rk = logT /\ rk_pow rk = int32 power.
Proof.
  intros k q L t key F fuel ty num logT power seed seed_e rk EK Hv Hvq HF E.
  destruct (create_ok k q L t key EK Hv Hvq F fuel ty num logT power seed seed_e rk HF E) as (I1 & I2 & I3 & I4 & _). auto.
Qed.

Theorem C31_create_rejects :
  forall (F : genfam) fuel key ty num logT power seed seed_e,
  (int32 power = 1 /\ num < 3) \/ num < 2 \/ logT <= 0 \/ p_logm (sk_p key) < logT ->
  relin_create F fuel key ty num logT power seed seed_e = Err InvalidArgument.
Proof.
  intros F fuel key ty num logT power seed seed_e H. unfold relin_create.
  destruct (Z.ltb_spec num (if identical_base power then 3 else 2)) as [A|A]; [reflexivity|].
  destruct (Z.leb_spec logT 0) as [B|B]; [reflexivity|]. rewrite Z.gtb_ltb.
  destruct (Z.ltb_spec (p_logm (sk_p key)) logT) as [D|D]; [reflexivity|]. exfalso.
  unfold identical_base in A. destruct H as [[H1 H]|[H|[H|H]]]; [rewrite H1 in A; cbn in A; lia| |lia|lia].
  destruct (int32 power =? 1); lia.
Qed.

Theorem C31_create_bad_power :
  forall k q L t key (F : genfam) fuel ty num logT power seed seed_e rk,
  key_ok k q L t key -> relin_create F fuel key ty num logT power seed seed_e = Ok rk ->
  0 < int32 power < 2 * 2 ^ Z.of_nat L /\ Z.odd (int32 power) = true /\ (ty = 1 \/ ty = 2).
Proof.
  intros k q L t key F fuel ty num logT power seed seed_e rk K E. unfold relin_create in E.
  destruct (num <? _); [discriminate|]. destruct (logT <=? 0); [discriminate|]. destruct (logT >? _); [discriminate|].
  destruct (key_substitute (int32 power) key) as [base| |] eqn:Eb; try discriminate. cbn [bind] in E.
  destruct (known_type ty) eqn:Et; [|discriminate].
  unfold key_substitute in Eb. destruct (t_word _ _) as [tw| |]; try discriminate. cbn [bind] in Eb.
  destruct (poly_substitute (sk_np key) (sk_key key) (int32 power)) as [sub| |] eqn:Es; try discriminate.
  destruct (substitute_range _ _ _ _ Es) as [Hr Ho]. rewrite (proj1 (ko_key _ _ _ _ _ K)), Nat2Z.inj_pow in Hr.
  split; [exact Hr|]. split; [exact Ho|]. unfold known_type in Et. apply Bool.orb_true_iff in Et.
  destruct Et as [Et|Et]; apply Z.eqb_eq in Et; auto.
Qed.

(** ApplyTo: two components, under the key itself, same plaintext, bounded
    additional error. For 16-bit words the call may run into C06. *)
Theorem C31_apply :
  forall k q L t v key rk x f, key_ok k q L t key -> 0 <= v -> relin_ok L t v key rk -> ct_ok L key x ->
  Z.of_nat (length (ct_c x)) = rk_num rk -> carries_under L key (secret_at L key (rk_pow rk)) x f ->
  (k <> 16 -> exists y, relin_apply rk x = Ok y) /\
  forall y, relin_apply rk x = Ok y ->
  ct_ok L key y /\ length (ct_c y) = 2%nat /\ ct_pow y = 1 /\ ct_lazy y = [] /\
  exists E, (forall l, (l < 2 ^ L)%nat -> Z.abs (E l) <= relin_noise L v rk) /\ carries L key y (fun l => f l + t * E l).
Proof.
  intros k q L t v key rk x f K Hv R Hx Hn Hf. pose proof (key_L _ _ _ _ _ K).
  apply (relin_apply_ok k q L t v key K Hv rk x f R ltac:(lia) Hx Hn Hf).
Qed.

(** power 1 means the key itself *)
Lemma secret_at_one k q L t key x f : key_ok k q L t key -> ct_ok L key x ->
  (carries_under L key (secret_at L key 1) x f <-> carries L key x f).
Proof.
  intros K Hx. pose proof (key_ctx k q L t key K) as C. destruct Hx as [Px Fx].
  assert (A1 : carries_under L key (secret_at L key 1) x f <->
    pcarries (sk_p key) L (sk_np key) (secret_at L key 1) (ct_c x) f) by (unfold carries_under, pcarries, component; rewrite Px; reflexivity).
  rewrite A1, (carries_p L key) by exact Px.
  rewrite !(pcarries_iff _ _ _ C _ _ _ Fx).
  assert (E : forall j, (j < 2 ^ L)%nat -> cong (p_m (sk_p key)) (hv (sk_p key) (PolyProofs.ev L (ntt_root (sk_p key) (sk_np key)) (secret_at L key 1) j) j (ct_c x))
     (hv (sk_p key) (PolyProofs.ev L (ntt_root (sk_p key) (sk_np key)) (secret key) j) j (ct_c x))).
  { intros j Hj. apply hv_w. unfold secret_at, PolyProofs.ev. change (Z.to_nat 1) with 1%nat.
    rewrite peval_substituted; [|apply (PolyProofs.n_pos L)|apply (PolyProofs.point_root _ L (sk_np key) _ (proj2 C))].
    change (Z.of_nat 1) with 1. rewrite Z.pow_1_r. reflexivity. }
  split; intros H j Hj; specialize (H j Hj); specialize (E j Hj).
  - rewrite <- E. exact H.
  - rewrite E. exact H.
Qed.

(** the decryption is unchanged *)
Theorem C31_decrypts :
  forall k q L t v key rk x f m y, key_ok k q L t key -> 0 < t <= q -> 0 <= v -> relin_ok L t v key rk -> rk_pow rk = 1 ->
  ct_ok L key x -> Z.of_nat (length (ct_c x)) = rk_num rk -> carries L key x f ->
  (forall i, (i < 2 ^ L)%nat -> 2 * (Z.abs (f i) + t * relin_noise L v rk) < q) ->
  decrypt key x = Ok m -> relin_apply rk x = Ok y -> decrypt key y = Ok m.
Proof.
  intros k q L t v key rk x f m y K Ht Hv R Hp Hx Hn Hf Hb Dx E.
  destruct (C31_apply k q L t v key rk x f K Hv R Hx Hn) as [_ HA].
  { rewrite Hp. apply (secret_at_one k q L t key x f K Hx). exact Hf. }
  destruct (HA y E) as (Oy & _ & _ & _ & er & Ber & Cy).
  assert (Hnn : 0 <= t * relin_noise L v rk).
  { specialize (Ber 0%nat (PolyProofs.n_pos L)). nia. }
  rewrite (proj2 (C26_decrypt k q L t key x f K Ht Hx Hf)) in Dx by (intros i Hi; specialize (Hb i Hi); unfold fits; lia).
  rewrite (proj2 (C26_decrypt k q L t key y _ K Ht Oy Cy)).
  - rewrite <- Dx. f_equal. unfold tabulate. apply map_ext_in. intros i Hi. rewrite (Z.mul_comm t). apply Z_mod_plus_full.
  - intros i Hi. specialize (Hb i Hi). specialize (Ber i Hi). unfold fits. nia.
Qed.

Theorem C31_too_long :
  forall rk x, Z.of_nat (length (ct_c x)) > rk_num rk -> relin_apply rk x = Err InvalidArgument.
Proof. intros rk x H. unfold relin_apply. destruct (Z.gtb_spec (Z.of_nat (length (ct_c x))) (rk_num rk)); [reflexivity|lia]. Qed.

(** relinearization_key.h promises ciphertexts "with at most num_parts
    components"; shorter ones are always refused *)
Theorem C31_shorter_refuted :
  forall k q L t v key rk x, key_ok k q L t key -> 0 <= v -> relin_ok L t v key rk -> ct_ok L key x ->
  Z.of_nat (length (ct_c x)) < rk_num rk ->
  (forall y, relin_apply rk x <> Ok y) /\ (k <> 16 -> relin_apply rk x = Err InvalidArgument).
Proof.
  intros k q L t v key rk x K Hv R Hx Hn. pose proof (key_L _ _ _ _ _ K).
  apply (relin_apply_short k q L t v key K Hv rk x R ltac:(lia) Hx Hn).
Qed.

(** examples: modulus 786433 = 3*2^18+1 in 32-bit words, degree 8, t = 3 *)
Definition pr : mparams := Eval vm_compute in
  (params_make 32 786433).
Definition npr : nttp := Eval vm_compute in
  (match init_ntt pr 3 with Ok np => np | _ => Build_nttp 0 0 [] [] [] [] [] end).
Definition polyr (l : list Z) : poly :=
  match convert_to_ntt pr npr (map (import_int pr) l) with Ok a => a | _ => [] end.
Lemma pr_for : params_for 32 786433 pr.
Proof. split; [right; left; reflexivity|]. split; [lia|vm_compute; reflexivity]. Qed.
Lemma npr_for : ntt_for pr 3 npr.
Proof. split; [apply (prime_by_trial 786433 900%nat); [lia|vm_compute; reflexivity]|vm_compute; reflexivity]. Qed.
Definition keyr : skey := Eval vm_compute in
  (match key_sample toy 3 1 1 pr npr 12345 with
  | Ok (key, _) => key
  | _ => {| sk_key := []; sk_var := 0; sk_logt := 0; sk_t := 0; sk_p := pr; sk_pt := pr; sk_np := npr |}
  end).
Lemma keyr_ok : enc_key 32 786433 3 3 keyr /\ sk_var keyr = 1 /\ sk_p keyr = pr /\ sk_np keyr = npr.
Proof.
  destruct (key_sample toy 3 1 1 pr npr 12345) as [[key s']| |] eqn:E.
  2,3: vm_compute in E; discriminate E.
  assert (Ek : key = keyr) by (vm_compute in E; injection E as <- _; reflexivity).
  destruct (sample_key_ok 32 786433 pr npr 3 toy 1 1 12345 key s' pr_for npr_for toy_ok ltac:(lia) ltac:(lia) ltac:(lia) ltac:(lia) E)
    as (I1 & I2 & I3 & I4 & _).
  rewrite <- Ek. repeat (split; [assumption|]). assumption.
Qed.
Definition encr (pt : poly) (seed : Z) : ct :=
  match encrypt toy 100 keyr pt seed with Ok (x, _) => x | _ => ct_empty pr end.
(** toy generators: the seed is a single number *)
Definition toys : genfam :=
  {| gf_prng := fun _ => toy; gf_start := fun _ seed => match seed with [z] => Ok z | _ => Err InvalidArgument end |}.
Definition rk_default : relin := {| rk_dim := 0; rk_num := 0; rk_logT := 0; rk_T := 0; rk_pow := 0; rk_p := pr; rk_np := npr;
  rk_parts := []; rk_seed := []; rk_type := 0 |}.
Definition rkr : relin := Eval vm_compute in
  (match relin_create toys 100 keyr 1 3 4 1 [77] [78] with Ok rk => rk | _ => rk_default end).
Definition mr := Eval vm_compute in
  (polyr [0; 1; 2; 2; 1; 0; 0; 1]).

Lemma rkr_ok : relin_create toys 100 keyr 1 3 4 1 [77] [78] = Ok rkr.
Proof. vm_compute. reflexivity. Qed.
Lemma rkr_relin : relin_ok 3 3 1 keyr rkr.
Proof.
  destruct keyr_ok as (EK & Ev & _). rewrite <- Ev at 1.
  apply (C31_create 32 786433 3 3 keyr toys 100%nat 1 3 4 1 [77] [78] rkr EK); [lia|lia|exact toy_ok|exact rkr_ok].
Qed.
Example C31_example :
  2 * (12 * 12 * 8 + 3 * relin_noise 3 1 rkr) < 786433 /\
  match ct_mul (encr mr 5) (encr mr 6) with
  | Ok x => length (ct_c x) = 3%nat /\ decrypt keyr x = Ok [0; 2; 0; 2; 2; 1; 1; 1] /\
    match relin_apply rkr x with
    | Ok y => decrypt keyr y = Ok [0; 2; 0; 2; 2; 1; 1; 1] /\ length (ct_c y) = 2%nat
    | _ => False end
  | _ => False end.
Proof. split; [vm_compute; reflexivity|]. vm_compute. repeat split. Qed.

(** ** C32 *)

(** Substitute: the ciphertext now encrypts f(X^b) under s(X^(a*b)) *)
Theorem C32_substitute :
  forall k q L t key a b x f, key_ok k q L t key -> ct_ok L key x -> ct_c x <> [] ->
  ct_pow x = a -> 0 < a < 2 * 2 ^ Z.of_nat L -> 0 < b < 2 * 2 ^ Z.of_nat L -> Z.odd b = true -> a * b < 2 ^ 31 ->
  carries_under L key (secret_at L key a) x f ->
  exists y, ct_substitute (sk_np key) b x = Ok y /\ ct_ok L key y /\ length (ct_c y) = length (ct_c x) /\
    ct_pow y = (a * b) mod (2 * 2 ^ Z.of_nat L) /\ ct_lazy y = [] /\
    carries_under L key (secret_at L key (ct_pow y)) y (substituted (2 ^ L) (Z.to_nat b) f).
Proof.
  intros k q L t key a b x f K Hx Hne Hp Ha Hb Ho Hov Hf.
  apply (substitute_ct k q L t key K a b x f Hx Hne Hp Ha Hb Ho Hov Hf).
Qed.

(** the product of the two powers is computed in a signed 32-bit int: with
    degree 2^15 two large substitutions overflow *)
Theorem C32_substitute_overflow_refuted :
  forall k q t key x c0 cs, key_ok k q 15 t key -> ct_ok 15 key x -> ct_c x = c0 :: cs -> ct_pow x = 65535 ->
  ct_substitute (sk_np key) 65535 x = UB.
Proof.
  intros k q t key x c0 cs K Hx Ec Hp.
  apply (substitute_overflow k q 15 t key K 65535 x c0 cs Hx Ec); [lia|reflexivity|]. rewrite Hp. lia.
Qed.

Theorem C32_substitute_rejects :
  forall L key x c0 cs b, ct_ok L key x -> ct_c x = c0 :: cs ->
  b < 0 \/ Z.even b = true \/ 2 * 2 ^ Z.of_nat L <= b ->
  ct_substitute (sk_np key) b x = Err InvalidArgument.
Proof.
  intros L key x c0 cs b [_ F] Ec H. unfold ct_substitute. rewrite Ec in *. inversion_clear F as [|? ? H0 _]. cbn [map seqr].
  assert (E : poly_substitute (sk_np key) c0 b = Err InvalidArgument); [|rewrite E; reflexivity].
  unfold poly_substitute. rewrite (proj1 H0), Nat2Z.inj_pow. change (Z.of_nat 2) with 2.
  destruct H as [H|[H|H]].
  - rewrite Z.gtb_ltb. destruct (Z.ltb_spec b 0); [reflexivity|lia].
  - assert (Z.rem b 2 = 0); [|rewrite H1; cbn [Z.eqb]; rewrite Bool.orb_true_r; reflexivity].
    apply Z.rem_divide; [lia|]. apply Zeven_bool_iff in H. apply Zeven_ex in H. destruct H as (c & ->). exists c. ring.
  - rewrite (Z.geb_leb b). destruct (Z.leb_spec (2 * 2 ^ Z.of_nat L) b); [|lia]. rewrite !Bool.orb_true_r. reflexivity.
Qed.

Theorem C32_create :
  forall k q L t key (F : genfam) fuel ty power logT seed seed_e gk,
  enc_key k q L t key -> 0 <= sk_var key -> 2 * sk_var key <= q -> prng_ok (gf_prng F ty) ->
  galois_create F fuel key ty power logT seed seed_e = Ok gk ->
  relin_ok L t (sk_var key) key gk /\ rk_num gk = 2 /\ rk_pow gk = int32 power /\ rk_pow gk <> 1.
Proof.
  intros k q L t key F fuel ty power logT seed seed_e gk EK Hv Hvq HF E.
  destruct (C31_create k q L t key F fuel ty 2 logT power seed seed_e gk EK Hv Hvq HF E) as (R & I1 & _ & I3).
  split; [exact R|]. split; [exact I1|]. split; [exact I3|]. intros H1. pose proof (ro_num _ _ _ _ _ R) as Hn.
  rewrite H1, I1 in Hn. cbn in Hn. lia.
Qed.

(** a ciphertext with another PowerOfS is refused *)
Theorem C32_power_mismatch :
  forall gk x, ct_pow x <> rk_pow gk -> galois_apply gk x = Err InvalidArgument.
Proof. intros gk x H. unfold galois_apply. destruct (Z.eqb_spec (ct_pow x) (rk_pow gk)); [contradiction|reflexivity]. Qed.

Theorem C32_apply :
  forall k q L t v key gk x f, key_ok k q L t key -> 0 <= v -> relin_ok L t v key gk -> rk_num gk = 2 -> ct_ok L key x ->
  length (ct_c x) = 2%nat -> ct_pow x = rk_pow gk -> carries_under L key (secret_at L key (ct_pow x)) x f ->
  (k <> 16 -> exists y, galois_apply gk x = Ok y) /\
  forall y, galois_apply gk x = Ok y ->
  ct_ok L key y /\ length (ct_c y) = 2%nat /\ ct_pow y = 1 /\ ct_lazy y = [] /\
  exists E, (forall l, (l < 2 ^ L)%nat -> Z.abs (E l) <= relin_noise L v gk) /\ carries L key y (fun l => f l + t * E l).
Proof.
  intros k q L t v key gk x f K Hv R Hn Hx Hl Hp Hf. unfold galois_apply. rewrite Hp, Z.eqb_refl. cbn [negb].
  apply (C31_apply k q L t v key gk x f K Hv R Hx); [rewrite Hl; lia|]. rewrite Hp in Hf. exact Hf.
Qed.

(** substitute, then switch back: the result decrypts to m(X^power). The bound
    is on the substituted plaintext. *)
Theorem C32_galois :
  forall k q L t v key gk x f m z, key_ok k q L t key -> 0 < t <= q -> 0 <= v -> relin_ok L t v key gk -> rk_num gk = 2 ->
  ct_ok L key x -> length (ct_c x) = 2%nat -> ct_pow x = 1 -> carries L key x f ->
  (forall i, (i < 2 ^ L)%nat -> 2 * Z.abs (f i) < q) ->
  (forall i, (i < 2 ^ L)%nat ->
     2 * (Z.abs (substituted (2 ^ L) (Z.to_nat (rk_pow gk)) f i) + t * relin_noise L v gk) < q) ->
  decrypt key x = Ok m ->
  (do! y <- ct_substitute (sk_np key) (rk_pow gk) x; galois_apply gk y) = Ok z ->
  ct_pow z = 1 /\
  decrypt key z = Ok (tabulate (2 ^ L) (fun i => substituted (2 ^ L) (Z.to_nat (rk_pow gk)) (fun l => nth l m 0) i mod t)).
Proof.
  intros k q L t v key gk x f m z K Ht Hv R Hn Hx Hl Hp Hf Hb1 Hb Dx E. pose proof (key_L _ _ _ _ _ K) as HL.
  destruct (ro_pow _ _ _ _ _ R) as [Hr Ho].
  assert (2 ^ Z.of_nat L <= 2 ^ 15) by (apply Z.pow_le_mono_r; lia).
  destruct (C32_substitute k q L t key 1 (rk_pow gk) x f K Hx) as (y & Ey & Oy & Ly & Py & _ & Cy); try assumption; try lia.
  { intros E0. rewrite E0 in Hl. discriminate. }
  { apply (secret_at_one k q L t key x f K Hx). exact Hf. }
  rewrite Ey in E. cbn [bind] in E. rewrite Z.mul_1_l, Z.mod_small in Py by lia.
  destruct (C32_apply k q L t v key gk y _ K Hv R Hn Oy ltac:(congruence) Py Cy) as [_ HA].
  destruct (HA z E) as (Oz & _ & Pz & _ & er & Ber & Cz). split; [exact Pz|].
  rewrite (proj2 (C26_decrypt k q L t key x f K Ht Hx Hf)) in Dx by (intros i Hi; specialize (Hb1 i Hi); unfold fits; lia).
  injection Dx as <-.
  rewrite (proj2 (C26_decrypt k q L t key z _ K Ht Oz Cz)).
  - f_equal. unfold tabulate at 1 2. apply map_ext_in. intros i Hi. apply in_seq in Hi. rewrite (Z.mul_comm t), Z_mod_plus_full.
    apply cong_iff; [lia|]. unfold substituted. apply zsum_cong. intros l Hl'. rewrite nth_tabulate by exact Hl'.
    assert (Cm : cong t (f l) (f l mod t)) by (symmetry; apply cong_mod).
    destruct (_ =? _)%nat; [exact Cm|]. destruct (_ =? _)%nat; [destruct Cm as [c Hc]; exists (- c); lia|reflexivity].
  - intros i Hi. specialize (Hb i Hi). specialize (Ber i Hi). unfold fits. nia.
Qed.

Definition gkr : relin := Eval vm_compute in
  (match galois_create toys 100 keyr 2 5 4 [77] [78] with Ok rk => rk | _ => rk_default end).
Lemma gkr_relin : relin_ok 3 3 1 keyr gkr /\ rk_num gkr = 2 /\ rk_pow gkr = 5.
Proof.
  destruct keyr_ok as (EK & Ev & _). rewrite <- Ev at 1.
  destruct (C32_create 32 786433 3 3 keyr toys 100%nat 2 5 4 [77] [78] gkr EK) as (A & B & D & _);
    [lia|lia|exact toy_ok|vm_compute; reflexivity|]. split; [exact A|]. split; [exact B|]. exact D.
Qed.
Example C32_example :
  2 * (8 * 12 + 3 * relin_noise 3 1 gkr) < 786433 /\ decrypt keyr (encr mr 5) = Ok [0; 1; 2; 2; 1; 0; 0; 1] /\
  match ct_substitute npr 5 (encr mr 5) with
  | Ok y => ct_pow y = 5 /\
    match galois_apply gkr y with
    | Ok z => decrypt keyr z = Ok [0; 0; 1; 1; 1; 1; 0; 1]
    | _ => False end
  | _ => False end.
Proof. split; [vm_compute; reflexivity|]. vm_compute. repeat split. Qed.

(** ** C38 *)

Theorem C38_expand :
  forall k q L t key (R E : prng) fuel pts s e c0s s' e',
  enc_key k q L t key -> 0 <= sk_var key -> 2 * sk_var key <= q -> prng_ok E ->
  Forall (ntt_poly (sk_p key) L) pts ->
  encrypt_with_prng R E fuel key pts s e = Ok (c0s, (s', e')) ->
  exists xs, expand_from_prng R fuel (sk_p key) c0s s = Ok (xs, s') /\ length xs = length pts /\
  forall i, (i < length pts)%nat ->
    let x := nth i xs (ct_empty (sk_p key)) in
    ct_ok L key x /\ length (ct_c x) = 2%nat /\ ct_pow x = 1 /\ ct_lazy x = [] /\
    exists err, (forall l, (l < 2 ^ L)%nat -> Z.abs (err l) <= 2 * sk_var key) /\
      carries L key x (fun l => coeff (sk_p key) (sk_np key) (nth i pts []) l + t * err l).
Proof.
  intros k q L t key R E fuel pts s e c0s s' e' EK Hv Hvq HE Hp E0.
  apply (encrypt_expand k q L t key EK Hv Hvq R E fuel HE pts s e c0s s' e' Hp E0).
Qed.

Theorem C38_decrypts :
  forall k q L t key (R E : prng) fuel pts s e c0s s' e',
  enc_key k q L t key -> 0 < t <= q -> 0 <= sk_var key -> 2 * (t * (2 * sk_var key) + t - 1) < q -> prng_ok E ->
  Forall (ntt_poly (sk_p key) L) pts ->
  (forall pt i, In pt pts -> (i < 2 ^ L)%nat -> 0 <= coeff (sk_p key) (sk_np key) pt i < t) ->
  encrypt_with_prng R E fuel key pts s e = Ok (c0s, (s', e')) ->
  exists xs, expand_from_prng R fuel (sk_p key) c0s s = Ok (xs, s') /\
    map (decrypt key) xs = map (fun pt => Ok (tabulate (2 ^ L) (coeff (sk_p key) (sk_np key) pt))) pts.
Proof.
  intros k q L t key R E fuel pts s e c0s s' e' EK Ht Hv Hb HE Hp Hm E0.
  destruct (C38_expand k q L t key R E fuel pts s e c0s s' e' EK Hv ltac:(nia) HE Hp E0) as (xs & E1 & Ll & H).
  exists xs. split; [exact E1|].
  apply (nth_ext _ _ (decrypt key (ct_empty (sk_p key))) (Ok (tabulate (2 ^ L) (coeff (sk_p key) (sk_np key) [])))).
  { rewrite !map_length. exact Ll. }
  intros i Hi. rewrite map_length in Hi. rewrite map_nth.
  rewrite (map_nth (fun pt => Ok (tabulate (2 ^ L) (coeff (sk_p key) (sk_np key) pt))) pts []).
  destruct (H i ltac:(lia)) as (Ox & _ & _ & _ & err & Berr & Cx).
  rewrite (proj2 (C26_decrypt k q L t key _ _ (ek_key _ _ _ _ _ EK) Ht Ox Cx)).
  - f_equal. unfold tabulate. apply map_ext_in. intros l Hl. apply in_seq in Hl. rewrite (Z.mul_comm t), Z_mod_plus_full.
    apply Z.mod_small. apply Hm; [apply nth_In; lia|lia].
  - intros l Hl. specialize (Berr l Hl). assert (Hin : In (nth i pts []) pts) by (apply nth_In; rewrite <- Ll; exact Hi).
    specialize (Hm _ l Hin Hl). unfold fits. nia.
Qed.

Example C38_example :
  match encrypt_with_prng toy toy 100 keyr [mr; polyr [1; 1; 1; 1; 0; 0; 0; 2]; mr] 5 6 with
  | Ok (c0s, (s', _)) =>
    match expand_from_prng toy 100 pr c0s 5 with
    | Ok (xs, s2) => map (decrypt keyr) xs = [Ok [0; 1; 2; 2; 1; 0; 0; 1]; Ok [1; 1; 1; 1; 0; 0; 0; 2]; Ok [0; 1; 2; 2; 1; 0; 0; 1]] /\ s2 = s'
    | _ => False end
  | _ => False end.
Proof. vm_compute. repeat split. Qed.

(** ** C39 *)

(** a created key survives serialization word for word: the bottom row is
    regenerated from the seed *)
Theorem C39_relinearization_round_trip :
  forall k q L t key (F : genfam) fuel ty num logT power seed seed_e rk,
  enc_key k q L t key -> 0 <= sk_var key -> 2 * sk_var key <= q -> prng_ok (gf_prng F ty) ->
  relin_create F fuel key ty num logT power seed seed_e = Ok rk ->
  exists sr, relin_serialize rk = Ok sr /\ relin_deserialize F fuel sr (sk_p key) (sk_np key) = Ok rk.
Proof.
  intros k q L t key F fuel ty num logT power seed seed_e rk EK Hv Hvq HF E.
  pose proof (key_L _ _ _ _ _ (ek_key _ _ _ _ _ EK)).
  apply (relin_round_trip k q L t key EK Hv Hvq F fuel ty num logT power seed seed_e rk ltac:(lia) HF E).
Qed.

Theorem C39_galois_round_trip :
  forall k q L t key (F : genfam) fuel ty power logT seed seed_e gk,
  enc_key k q L t key -> 0 <= sk_var key -> 2 * sk_var key <= q -> prng_ok (gf_prng F ty) ->
  galois_create F fuel key ty power logT seed seed_e = Ok gk ->
  exists sr, galois_serialize gk = Ok sr /\ galois_deserialize F fuel sr (sk_p key) (sk_np key) = Ok gk.
Proof.
  intros k q L t key F fuel ty power logT seed seed_e gk EK Hv Hvq HF E.
  apply (C39_relinearization_round_trip k q L t key F fuel ty 2 logT power seed seed_e gk EK Hv Hvq HF E).
Qed.

(** malformed sizes are rejected *)
Theorem C39_rejects :
  forall (F : genfam) fuel sr p np,
  sr_num sr <= first_index (sr_pow sr) \/
  (first_index (sr_pow sr) < sr_num sr /\
   (Z.of_nat (length (sr_c sr)) <> (sr_num sr - first_index (sr_pow sr)) * gadget_size p (sr_logT sr) \/
    sr_logT sr <= 0 \/ p_logm p < sr_logT sr \/ ~ (sr_type sr = 1 \/ sr_type sr = 2))) ->
  relin_deserialize F fuel sr p np = Err InvalidArgument.
Proof.
  intros F fuel sr p np H. unfold relin_deserialize.
  destruct (Z.leb_spec (sr_num sr) (first_index (sr_pow sr))) as [A|A]; [reflexivity|].
  destruct H as [H|[_ H]]; [lia|]. set (ex := sr_num sr - first_index (sr_pow sr)) in *. set (l := Z.of_nat (length (sr_c sr))) in *.
  destruct (Z.eqb_spec (l mod ex) 0) as [B|B]; [|reflexivity]. cbn [negb].
  destruct (Z.leb_spec (sr_logT sr) 0) as [D|D]; [reflexivity|]. rewrite Z.gtb_ltb.
  destruct (Z.ltb_spec (p_logm p) (sr_logT sr)) as [E|E]; [reflexivity|].
  destruct (Z.eqb_spec (l / ex) (gadget_size p (sr_logT sr))) as [G|G]; [|reflexivity]. cbn [negb].
  destruct (known_type (sr_type sr)) eqn:Et; [|reflexivity]. exfalso.
  destruct H as [H|[H|[H|H]]]; [|lia|lia|].
  - apply H. rewrite <- G. assert (Hex : 0 < ex) by (unfold ex; lia). rewrite (Z.div_mod l ex) at 1 by lia. rewrite B. ring.
  - apply H. unfold known_type in Et. apply Bool.orb_true_iff in Et. destruct Et as [Et|Et]; apply Z.eqb_eq in Et; auto.
Qed.

Lemma part_deser_shape (R : prng) fuel p : forall c s m s', part_deser_loop R fuel p c s = Ok (m, s') ->
  length (fst m) = length c /\ length (snd m) = length c.
Proof.
  induction c as [|a c IH]; intros s m s' E; cbn [part_deser_loop] in E; [injection E as <- <-; split; reflexivity|].
  destruct (poly_deserialize p a) as [x| |]; try discriminate. cbn [bind] in E.
  destruct (sample_polynomial R fuel _ p s) as [[b s1]| |]; try discriminate. cbn [bind] in E.
  destruct (part_deser_loop R fuel p c s1) as [[m' s2]| |] eqn:Er; try discriminate. cbn [bind] in E. injection E as <- <-.
  destruct (IH s1 m' s2 Er). cbn [fst snd length]. lia.
Qed.

(** an accepted key has the advertised number of parts, each with one column
    per digit *)
Theorem C39_accepted_shape :
  forall (F : genfam) fuel sr p np rk, relin_deserialize F fuel sr p np = Ok rk ->
  Z.of_nat (length (rk_parts rk)) = rk_num rk - first_index (rk_pow rk) /\ first_index (rk_pow rk) < rk_num rk /\
  1 <= rk_logT rk <= p_logm p /\
  forall pt, In pt (rk_parts rk) -> pt_logT pt = rk_logT rk /\
    Z.of_nat (length (pt_top pt)) = gadget_size p (rk_logT rk) /\ Z.of_nat (length (pt_bot pt)) = gadget_size p (rk_logT rk).
Proof.
  intros F fuel sr p np rk E. unfold relin_deserialize in E.
  destruct (Z.leb_spec (sr_num sr) (first_index (sr_pow sr))) as [A|A]; [discriminate|].
  set (ex := sr_num sr - first_index (sr_pow sr)) in *. set (l := Z.of_nat (length (sr_c sr))) in *.
  destruct (Z.eqb_spec (l mod ex) 0) as [B|B]; [|discriminate]. cbn [negb] in E.
  destruct (Z.leb_spec (sr_logT sr) 0) as [D|D]; [discriminate|]. rewrite Z.gtb_ltb in E.
  destruct (Z.ltb_spec (p_logm p) (sr_logT sr)) as [H|H]; [discriminate|].
  destruct (Z.eqb_spec (l / ex) (gadget_size p (sr_logT sr))) as [G|G]; [|discriminate]. cbn [negb] in E.
  destruct (known_type (sr_type sr)); [|discriminate]. cbn [negb] in E.
  destruct (gf_start F (sr_type sr) (sr_seed sr)) as [s| |]; try discriminate. cbn [bind] in E.
  destruct (parts_deser _ _ _ _ _ _ _ _) as [parts| |] eqn:Ep; try discriminate. cbn [bind] in E. injection E as <-.
  cbn [rk_parts rk_num rk_pow rk_logT]. assert (Hex : 0 < ex) by (unfold ex; lia).
  assert (Hl : l = ex * gadget_size p (sr_logT sr)) by (rewrite <- G, (Z.div_mod l ex) at 1 by lia; lia).
  assert (Hg : 0 <= gadget_size p (sr_logT sr)) by (rewrite <- G; apply Z.div_pos; lia).
  fold ex. rewrite G in Ep. set (g := gadget_size p (sr_logT sr)) in *.
  assert (Q : forall (R : prng) count polys (s : pr_st R) parts, (Z.to_nat g * count <= length polys)%nat ->
    parts_deser R fuel p (sr_logT sr) (Z.to_nat g) count polys s = Ok parts ->
    length parts = count /\ forall pt, In pt parts -> pt_logT pt = sr_logT sr /\ length (pt_top pt) = Z.to_nat g /\ length (pt_bot pt) = Z.to_nat g).
  { clear. induction count as [|c IH]; intros polys s parts Hle E; cbn [parts_deser] in E.
    - injection E as <-. split; [reflexivity|]. intros pt [].
    - destruct (part_deser_loop R fuel p (firstn (Z.to_nat g) polys) s) as [[m s1]| |] eqn:E1; try discriminate. cbn [bind] in E.
      destruct (parts_deser R fuel p (sr_logT sr) (Z.to_nat g) c (skipn (Z.to_nat g) polys) s1) as [r| |] eqn:E2; try discriminate. cbn [bind] in E.
      injection E as <-. 
      assert (Hle2 : (Z.to_nat g * c <= length (skipn (Z.to_nat g) polys))%nat) by (rewrite skipn_length; nia).
      destruct (IH _ _ _ Hle2 E2) as [I1 I2].
      destruct (part_deser_shape _ _ _ _ _ _ _ E1) as [S1 S2]. rewrite firstn_length_le in S1, S2 by nia.
      split; [cbn; congruence|]. intros pt [<-|Hin]; [|apply I2, Hin]. cbn [pt_top pt_bot pt_logT]. auto. }
  assert (Hle : (Z.to_nat g * Z.to_nat ex <= length (sr_c sr))%nat).
  { apply Nat2Z.inj_le. rewrite Nat2Z.inj_mul, !Z2Nat.id by lia. fold l. lia. }
  destruct (Q _ _ _ _ _ Hle Ep) as [Q1 Q2].
  split; [rewrite Q1; unfold ex; lia|]. split; [exact A|]. split; [lia|]. intros pt Hpt. destruct (Q2 pt Hpt) as (P1 & P2 & P3).
  split; [exact P1|]. lia.
Qed.

Example C39_example :
  match relin_serialize rkr with
  | Ok sr => relin_deserialize toys 100 sr pr npr = Ok rkr /\ length (sr_c sr) = 5%nat /\
     relin_deserialize toys 100 {| sr_c := tl (sr_c sr); sr_logT := sr_logT sr; sr_num := sr_num sr; sr_seed := sr_seed sr;
        sr_type := sr_type sr; sr_pow := sr_pow sr |} pr npr = Err InvalidArgument
  | _ => False end.
Proof. vm_compute. repeat split. Qed.

Print Assumptions C31_create.
Print Assumptions C31_decrypts.
Print Assumptions C31_shorter_refuted.
Print Assumptions C32_galois.
Print Assumptions C32_substitute.
Print Assumptions C38_decrypts.
Print Assumptions C39_relinearization_round_trip.
Print Assumptions C39_accepted_shape.
