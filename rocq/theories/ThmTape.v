(** C94: the distribution of RNS masks, errors, keys and fresh ciphertexts
    (rns/rns_polynomial.h, rns/error_distribution.h, rns/rns_secret_key.h). The
    functions read a tape of N bytes; [count_tapes N test] is the number of the
    256^N tapes that pass the test. *)
From Coq Require Import Znumtheory Lia Arith.
From Verif Require Import Base FinSum Montgomery MontBatch Ntt Poly PolyExt Prng Sampling SampleSpec MontgomeryProofs Spec ArithFacts
  PolySpec Ring SampleProofs SampleErrProofs ThmSample SymSpec RnsPoly RnsSpec RnsSub RnsProofs RnsBasis2 RnsMore RnsCtx RnsCt RnsCtSpec RnsCtProofs
  RnsEncode RnsKey DistSpec DistProofs DistEnc RnsKeySpec RnsKeyProofs RnsExample TapeSpec TapeProofs TapeRns.

Definition poly_of (L : nat) (vs : list (list Z)) : rpoly := {| rp_logn := L; rp_vs := vs; rp_ntt := true |}.

(** A uniform RNS polynomial: for tapes of every length, every matrix of
    residues is the outcome for the same number of tapes; and nothing else is
    an outcome. *)
Theorem C94_uniform :
  forall k L ms fuel, moduli_ok k L ms -> ms <> [] ->
  (forall N vs vs', residue_rows ms (2 ^ L) vs -> residue_rows ms (2 ^ L) vs' ->
     count_tapes N (fun ds => gave_rows vs (rns_sample_uniform tape fuel (Z.of_nat L) ms ds)) =
     count_tapes N (fun ds => gave_rows vs' (rns_sample_uniform tape fuel (Z.of_nat L) ms ds))) /\
  (forall N vs, residue_rows ms (2 ^ L) vs -> (1 <= fuel)%nat -> (row_bytes ms (2 ^ L) <= N)%nat ->
     0 < count_tapes N (fun ds => gave_rows vs (rns_sample_uniform tape fuel (Z.of_nat L) ms ds))) /\
  (forall ds a rest, rns_sample_uniform tape fuel (Z.of_nat L) ms ds = Ok (a, rest) -> a = poly_of L (rp_vs a) /\ residue_rows ms (2 ^ L) (rp_vs a)).
Proof.
  intros k L [|m0 ms'] fuel OK NE; [contradiction|].
  assert (E : forall N vs, residue_rows (m0 :: ms') (2 ^ L) vs -> count_tapes N (fun ds => gave_rows vs (rns_sample_uniform tape fuel (Z.of_nat L) (m0 :: ms') ds)) =
    row_weights (m0 :: ms') fuel (2 ^ L) N (fun M => 256 ^ Z.of_nat M)).
  { intros N vs R. rewrite <- (row_weights_ext fuel (2 ^ L) (fun M => over (repeat 8 M) (fun _ => 1)) _ over_ones).
    rewrite <- (row_weights_ok k L fuel (2 ^ L) (fun _ => 1) _ vs OK R). unfold count_tapes, count_scripts, ex. apply over_ext; [|apply tapes_nonneg]. intros ds _.
    rewrite (uniform_eq k L m0 ms' OK). destruct (rns_sample_rows tape fuel (2 ^ L) (m0 :: ms') ds) as [[ws s]| |]; try reflexivity. cbn [bind].
    unfold gave_rows, is_rows. cbn [rp_vs mk]. rewrite Z.mul_1_r. destruct (list_eq_dec _ ws vs); reflexivity. }
  split; [|split].
  - intros N vs vs' R R'. rewrite !E by assumption. reflexivity.
  - intros N vs R Hf HN. rewrite E by assumption. apply (row_weights_pos k L _ fuel (2 ^ L) 0); [| |exact Hf|exact OK|lia]; intros; [apply Z.pow_nonneg|apply Z.pow_pos_nonneg]; lia.
  - intros ds a rest. rewrite (uniform_eq k L m0 ms' OK). destruct (rns_sample_rows tape fuel (2 ^ L) (m0 :: ms') ds) as [[ws s]| |] eqn:Er; intros H; try discriminate H.
    cbn [bind] in H. injection H as <- _. split; [reflexivity|]. exact (rows_reduced k L fuel (2 ^ L) _ ds ws s OK Er).
Qed.

(** A sampled RNS error polynomial: the coefficients are independent centred
    binomials, as integers, the same ones for all primes. *)
Theorem C94_error :
  forall k L ms var e, moduli_ok k L ms -> 0 < var <= 256 -> 4 * var < first_modulus ms ->
  length e = (2 ^ L)%nat -> Forall (fun x => Z.abs x <= 2 * var) e ->
  exists a, rns_is ms L true a (fun i => nth i e 0) /\ forall N, (error_bytes var (2 ^ L) <= N)%nat ->
    count_tapes N (fun ds => gave_rows (rp_vs a) (rns_sample_error tape (Z.of_nat L) var ms ds)) =
    product (map (error_count var) e) * 256 ^ Z.of_nat (N - error_bytes var (2 ^ L)).
Proof.
  intros k L [|m0 ms'] var e OK Hv Hq Le Fe; [cbn [first_modulus] in Hq; lia|].
  destruct (rns_error_count k L m0 ms' var e OK Hv Hq Le Fe) as (a & Ha & E). exists a. split; [exact Ha|]. intros N HN. rewrite E.
  destruct (Nat.leb_spec (error_bytes var (2 ^ L)) N); [reflexivity|lia].
Qed.

(** A sampled secret key: so are its coefficients. *)
Theorem C94_key :
  forall k L ms var e, moduli_ok k L ms -> 0 < var <= 256 -> 4 * var < first_modulus ms ->
  length e = (2 ^ L)%nat -> Forall (fun x => Z.abs x <= 2 * var) e ->
  exists key, RnsKeySpec.key_is ms L key (fun i => nth i e 0) /\ forall N, (error_bytes var (2 ^ L) <= N)%nat ->
    count_tapes N (fun ds => gave_key (rp_vs (rsk_key key)) (rsk_sample tape (Z.of_nat L) var ms ds)) =
    product (map (error_count var) e) * 256 ^ Z.of_nat (N - error_bytes var (2 ^ L)).
Proof.
  intros k L ms var e OK Hv Hq Le Fe. destruct (C94_error k L ms var e OK Hv Hq Le Fe) as (a & Ha & E).
  exists {| rsk_key := a; rsk_ms := ms; rsk_var := var |}. split; [split; [reflexivity|exact Ha]|]. intros N HN. rewrite <- (E N HN).
  unfold count_tapes, count_scripts. apply over_ext; [|apply tapes_nonneg]. intros ds _. f_equal. cbn [rsk_key].
  unfold rsk_sample. destruct ms as [|m0 ms']; [cbn [first_modulus] in Hq; lia|]. rewrite (L0 k L m0 ms' OK). destruct (Z.leb_spec var 0); [lia|].
  destruct (rns_sample_error tape (Z.of_nat L) var (m0 :: ms') ds) as [[b s]| |]; reflexivity.
Qed.

(** A fresh BGV ciphertext. For every mask and every small error there is one
    ciphertext, an encryption of m + t e with that mask; the number of tapes
    that lead to it is a weight times the binomials of the error. The weight
    does not depend on the key, the message, t, the mask or the error. *)
Theorem C94_encrypt_bgv :
  forall k L ms fuel var, moduli_ok k L ms -> distinct ms -> k <> 16 -> 0 < var <= 256 -> 4 * var < first_modulus ms ->
  exists weight : nat -> Z, (forall N, 0 <= weight N) /\
    (forall N, (1 <= fuel)%nat -> (row_bytes ms (2 ^ L) + error_bytes var (2 ^ L) <= N)%nat -> 0 < weight N) /\
    forall key sk p m t vs e, RnsKeySpec.key_is ms L key sk -> rsk_var key = var -> rns_is ms L true p m -> 0 <= t < 2 ^ k -> rel_prime t (first_modulus ms) ->
    residue_rows ms (2 ^ L) vs -> length e = (2 ^ L)%nat -> Forall (fun x => Z.abs x <= 2 * var) e ->
    exists x, masked ms L sk x (poly_of L vs) (fun i => m i + t * nth i e 0) /\ forall N,
      count_tapes N (fun ds => gave_ct (map rp_vs (rt_c x)) (rsk_encrypt_poly_bgv tape fuel key p t ds)) =
      weight N * product (map (error_count var) e).
Proof.
  intros k L [|m0 ms'] fuel var OK DI K16 Hv Hq; [cbn [first_modulus] in Hq; lia|].
  exists (fun N => row_weights (m0 :: ms') fuel (2 ^ L) N (rest L var)).
  assert (RN : forall M, 0 <= rest L var M) by (intros M; unfold rest; destruct (_ <=? M)%nat; [apply Z.pow_nonneg|]; lia).
  split; [intros N; apply (row_weights_nonneg k L _ fuel (2 ^ L) RN _ OK)|]. split.
  { intros N Hf HN. apply (row_weights_pos k L _ fuel (2 ^ L) (error_bytes var (2 ^ L)) RN); [|exact Hf|exact OK|exact HN].
    intros M HM. unfold rest. unfold error_bytes in HM. apply Nat.leb_le in HM. rewrite HM. apply Z.pow_pos_nonneg; lia. }
  intros key sk p m t vs e HK Ev Hp Ht RP R Le Fe. rewrite <- Ev in *.
  destruct (res0_ok k L m0 ms' OK (rsk_var key) e Hq Le Fe) as [X0 S0].
  pose proof (fun vs xs => fin_bgv_ok k L m0 ms' OK DI K16 key sk p m HK Hp (rsk_var key) t vs xs Ht) as HF.
  destruct (HF vs (res0 m0 e) R X0) as (x & Ex & Mx & _). rewrite S0 in Mx. exists x. split; [exact Mx|]. intros N.
  exact (enc_count k L m0 ms' OK fuel (rsk_var key) t sk key m _ (fin_bgv L m0 ms' key p t) Hv Hq RP HK
    (enc_bgv_eq k L m0 ms' OK key sk p m HK Hp Hv fuel t) HF vs e x N R Le Fe Ex).
Qed.

(** The same for BFV, where the error is not scaled. *)
Theorem C94_encrypt_bfv :
  forall k L ms fuel var, moduli_ok k L ms -> distinct ms -> k <> 16 -> 0 < var <= 256 -> 4 * var < first_modulus ms ->
  exists weight : nat -> Z, (forall N, 0 <= weight N) /\
    (forall N, (1 <= fuel)%nat -> (row_bytes ms (2 ^ L) + error_bytes var (2 ^ L) <= N)%nat -> 0 < weight N) /\
    forall key sk E msgs ntt p m vs e, RnsKeySpec.key_is ms L key sk -> rsk_var key = var -> en_bfv E msgs ms = Ok p -> rns_is ms L ntt p m ->
    residue_rows ms (2 ^ L) vs -> length e = (2 ^ L)%nat -> Forall (fun x => Z.abs x <= 2 * var) e ->
    exists x, masked ms L sk x (poly_of L vs) (fun i => m i + nth i e 0) /\ forall N,
      count_tapes N (fun ds => gave_ct (map rp_vs (rt_c x)) (rsk_encrypt_bfv1 tape fuel key E msgs ds)) =
      weight N * product (map (error_count var) e).
Proof.
  intros k L [|m0 ms'] fuel var OK DI K16 Hv Hq; [cbn [first_modulus] in Hq; lia|].
  exists (fun N => row_weights (m0 :: ms') fuel (2 ^ L) N (rest L var)).
  assert (RN : forall M, 0 <= rest L var M) by (intros M; unfold rest; destruct (_ <=? M)%nat; [apply Z.pow_nonneg|]; lia).
  split; [intros N; apply (row_weights_nonneg k L _ fuel (2 ^ L) RN _ OK)|]. split.
  { intros N Hf HN. apply (row_weights_pos k L _ fuel (2 ^ L) (error_bytes var (2 ^ L)) RN); [|exact Hf|exact OK|exact HN].
    intros M HM. unfold rest. unfold error_bytes in HM. apply Nat.leb_le in HM. rewrite HM. apply Z.pow_pos_nonneg; lia. }
  intros key sk E msgs ntt p1 m vs e HK Ev Ep Hp1 R Le Fe. rewrite <- Ev in *.
  assert (HN : is_rns (m0 :: ms') L true (ensure_ntt p1 (m0 :: ms')) m).
  { unfold ensure_ntt. rewrite (proj1 (proj2 Hp1)). destruct ntt; [exists p1; auto|apply (rns_to_ntt_is k L _ OK p1 m Hp1)]. }
  destruct HN as (p & Eq & Hp).
  destruct (res0_ok k L m0 ms' OK (rsk_var key) e Hq Le Fe) as [X0 S0].
  pose proof (fin_bfv_ok k L m0 ms' OK DI K16 key sk p m HK Hp (rsk_var key)) as HF.
  destruct (HF vs (res0 m0 e) R X0) as (x & Ex & (Mx & Mx') & _). rewrite S0 in Mx. exists x. split.
  { split; [|exact Mx']. destruct Mx as (A1 & A2 & A3 & cs & A4 & A5). split; [exact A1|]. split; [exact A2|]. split; [exact A3|]. exists cs. split; [exact A4|].
    intros i Hi. rewrite (A5 i Hi). apply cong_eq. ring. }
  intros N.
  assert (RP : rel_prime 1 (modulus m0)) by (apply Zgcd_1_rel_prime, Z.gcd_1_l).
  exact (enc_count k L m0 ms' OK fuel (rsk_var key) 1 sk key m _ (fin_bfv L m0 ms' key p) Hv Hq RP HK
    (fun ds => enc_bfv_eq k L m0 ms' OK key sk p HK Hv fuel E msgs p1 ds Ep Eq) HF vs e x N R Le Fe Ex).
Qed.

(** The second component alone is uniform, and says nothing of key or message. *)
Theorem C94_pad_uniform :
  forall k L ms fuel key sk p m t key' sk' p' m' t' vs vs' N, moduli_ok k L ms -> distinct ms -> k <> 16 ->
  0 < rsk_var key <= 256 -> 4 * rsk_var key < first_modulus ms -> rsk_var key' = rsk_var key ->
  RnsKeySpec.key_is ms L key sk -> rns_is ms L true p m -> 0 <= t < 2 ^ k ->
  RnsKeySpec.key_is ms L key' sk' -> rns_is ms L true p' m' -> 0 <= t' < 2 ^ k ->
  residue_rows ms (2 ^ L) vs -> residue_rows ms (2 ^ L) vs' ->
  count_tapes N (fun ds => gave_pad (neg_rows ms vs) (rsk_encrypt_poly_bgv tape fuel key p t ds)) =
  count_tapes N (fun ds => gave_pad (neg_rows ms vs') (rsk_encrypt_poly_bgv tape fuel key' p' t' ds)).
Proof.
  intros k L [|m0 ms'] fuel key sk p m t key' sk' p' m' t' vs vs' N OK DI K16 Hv Hq Ev HK Hp Ht HK' Hp' Ht' R R'; [cbn [first_modulus] in Hq; lia|].
  rewrite (pad_test k L m0 ms' OK fuel (rsk_var key) t sk m _ (fin_bgv L m0 ms' key p t) Hv Hq (enc_bgv_eq k L m0 ms' OK key sk p m HK Hp Hv fuel t)
    (fun vs xs => fin_bgv_ok k L m0 ms' OK DI K16 key sk p m HK Hp (rsk_var key) t vs xs Ht) vs N R).
  rewrite <- Ev in Hv, Hq |- *.
  rewrite (pad_test k L m0 ms' OK fuel (rsk_var key') t' sk' m' _ (fin_bgv L m0 ms' key' p' t') Hv Hq (enc_bgv_eq k L m0 ms' OK key' sk' p' m' HK' Hp' Hv fuel t')
    (fun vs xs => fin_bgv_ok k L m0 ms' OK DI K16 key' sk' p' m' HK' Hp' (rsk_var key') t' vs xs Ht') vs' N R'). reflexivity.
Qed.

(** Degree 8, primes 97, 193 and 17, variance 1, t = 4. The first byte of the
    tape, 127, is rejected for the prime 97. *)
Definition key94 : rskey := Eval vm_compute in
  match rsk_sample tape 3 1 ex_qs [1; 0; 0; 0; 3; 1; 1; 0; 0; 0; 0; 2; 0; 3; 1; 3] with Ok (key, _) => key | _ => {| rsk_key := poly_of 3 []; rsk_ms := []; rsk_var := 0 |} end.
Definition plain94 : rpoly := poly_of 3 (repeat (repeat 1 8) 3).
Definition mask94 : list (list Z) := [[5; 0; 17; 96; 40; 3; 2; 1]; [1; 2; 3; 192; 5; 6; 7; 8]; [16; 1; 0; 1; 0; 1; 0; 3]].
Definition tape94 : list Z := 127 :: concat mask94 ++ [1; 0; 0; 0; 0; 1; 3; 0; 0; 0; 1; 1; 3; 3; 0; 3].
Definition error94 : list Z := [1; 0; -1; 2; 0; 0; 0; -2].
Definition ct94 : list (list (list Z)) := Eval vm_compute in
  match rsk_encrypt_poly_bgv tape 9 key94 plain94 4 tape94 with Ok (x, _) => map rp_vs (rt_c x) | _ => [] end.
Example C94_example :
  gave_ct ct94 (rsk_encrypt_poly_bgv tape 9 key94 plain94 4 tape94) = true /\ length ct94 = 2%nat /\
  nth 1 ct94 [] = neg_rows ex_qs mask94 /\ gave_pad (neg_rows ex_qs mask94) (rsk_encrypt_poly_bgv tape 9 key94 plain94 4 tape94) = true /\
  gave_rows mask94 (rns_sample_uniform tape 2 3 ex_qs tape94) = true /\
  row_bytes ex_qs 8 = 24%nat /\ error_bytes 1 8 = 16%nat /\ 4 * 1 < first_modulus ex_qs /\ rel_prime 4 (first_modulus ex_qs) /\
  product (map (error_count 1) error94) = 4 ^ 2 * 6 ^ 4 * 4096 ^ 8 /\
  residue_rows ex_qs 8 mask94 /\ moduli_ok 32 3 ex_qs /\ distinct ex_qs /\ rsk_var key94 = 1 /\
  (exists s, RnsKeySpec.key_is ex_qs 3 key94 s) /\ exists m, rns_is ex_qs 3 true plain94 m.
Proof.
  pose proof (proj1 ex_ok) as OK. pose proof (proj1 (proj2 ex_distinct)) as DI.
  assert (P : forall a, rp_logn a = 3%nat -> rp_ntt a = true -> forallb (fun mv => (length (snd mv) =? 8)%nat && forallb (fun x => (0 <=? x) && (x <? pm_q (fst mv))) (snd mv)) (combine ex_qs (rp_vs a)) = true ->
    length (rp_vs a) = 3%nat -> residue_rows ex_qs 8 (rp_vs a) /\ exists m, rns_is ex_qs 3 true a m).
  { intros a E1 E2 E3 E4.
    assert (R : residue_rows ex_qs 8 (rp_vs a)).
    { clear - E3 E4. unfold residue_rows. change 3%nat with (length ex_qs) in E4. revert E3 E4. generalize (rp_vs a) as vs. generalize ex_qs as ms.
      induction ms as [|m ms IH]; intros [|v vs] E3 E4; try discriminate E4; [constructor|]. cbn [combine forallb fst snd] in E3. apply andb_prop in E3. destruct E3 as [A B].
      apply andb_prop in A. destruct A as [A C]. constructor; [|apply IH; [exact B|injection E4 as E4; exact E4]]. split; [apply Nat.eqb_eq, A|].
      rewrite forallb_forall in C. apply Forall_forall. intros x Hx. specialize (C x Hx). apply andb_prop in C. unfold modulus. change (pm_q m) with (p_m (pm_p m)) in C. lia. }
    split; [exact R|]. destruct ex_qs as [|m0 ms'] eqn:Eq; [vm_compute in Eq; discriminate Eq|].
    pose proof (rows_poly 3 m0 ms' (rp_vs a) R) as PP. destruct a as [a1 a2 a3]. cbn [rp_logn rp_ntt rp_vs] in *. subst a1 a3.
    destruct (rns_exists 32 3 _ OK DI _ PP) as (f & _ & Hf). exists f. exact Hf. }
  destruct (P (rsk_key key94)) as [_ [s Hs]]; [vm_compute; reflexivity|vm_compute; reflexivity|vm_compute; reflexivity|vm_compute; reflexivity|].
  destruct (P plain94) as [_ [m Hm]]; [vm_compute; reflexivity|vm_compute; reflexivity|vm_compute; reflexivity|vm_compute; reflexivity|].
  destruct (P (poly_of 3 mask94)) as [HM _]; [vm_compute; reflexivity|vm_compute; reflexivity|vm_compute; reflexivity|vm_compute; reflexivity|].
  split; [vm_compute; reflexivity|]. split; [vm_compute; reflexivity|]. split; [vm_compute; reflexivity|]. split; [vm_compute; reflexivity|].
  split; [vm_compute; reflexivity|]. split; [vm_compute; reflexivity|]. split; [vm_compute; reflexivity|]. split; [vm_compute; reflexivity|].
  split; [apply Zgcd_1_rel_prime; vm_compute; reflexivity|]. split; [vm_compute; reflexivity|]. split; [exact HM|]. split; [exact OK|]. split; [exact DI|].
  split; [vm_compute; reflexivity|]. split; [exists s; split; [vm_compute; reflexivity|exact Hs]|]. exists m. exact Hm.
Qed.

Print Assumptions C94_uniform.
Print Assumptions C94_error.
Print Assumptions C94_key.
Print Assumptions C94_encrypt_bgv.
Print Assumptions C94_encrypt_bfv.
Print Assumptions C94_pad_uniform.
Print Assumptions C94_example.
