(** C88: calls with unfit arguments are refused. No assumption is made on the
    contents of the arguments: a refusal does not depend on anything else. *)
From Coq Require Import Lia.
From Verif Require Import Base ZLemmas Montgomery MontBatch Ntt Poly PolyExt Prng Sampling SymEnc Context Relin RnsPoly RnsCtx RnsCt RnsHwy RnsEncode RnsKey RnsGadget CoeffPoly RefuseSpec.

Ltac bools := repeat match goal with
  | H : _ || _ = true |- _ => apply Bool.orb_true_iff in H
  | H : _ || _ = false |- _ => apply Bool.orb_false_iff in H; destruct H
  | H : negb _ = true |- _ => apply Bool.negb_true_iff in H
  | H : negb _ = false |- _ => apply Bool.negb_false_iff in H
  | H : (_ =? _)%nat = true |- _ => apply Nat.eqb_eq in H
  | H : (_ =? _)%nat = false |- _ => apply Nat.eqb_neq in H
  | H : (_ <? _)%nat = true |- _ => apply Nat.ltb_lt in H
  | H : (_ <? _)%nat = false |- _ => apply Nat.ltb_ge in H
  | H : (_ <=? _)%nat = true |- _ => apply Nat.leb_le in H
  | H : (_ <=? _)%nat = false |- _ => apply Nat.leb_gt in H
  | H : (_ =? _) = true |- _ => apply Z.eqb_eq in H
  | H : (_ =? _) = false |- _ => apply Z.eqb_neq in H
  | H : (_ <? _) = true |- _ => apply Z.ltb_lt in H
  | H : (_ <? _) = false |- _ => apply Z.ltb_ge in H
  | H : (_ <=? _) = true |- _ => apply Z.leb_le in H
  | H : (_ <=? _) = false |- _ => apply Z.leb_gt in H
  end.
Ltac checks := repeat match goal with
  | |- (if ?b then _ else _) = _ => let E := fresh "E" in destruct b eqn:E; [reflexivity|]
  | |- (match ?l with [] => _ | _ => _ end) = _ => destruct l; [reflexivity|]
  end.
Ltac refuse := intros; unfold refused, parts, in_ntt, same_len in *; checks; exfalso; bools; intuition (try congruence; lia).

Lemma not_pow2 n : is_not_power_of_two (Z.of_nat n) = true <-> ~ power_of_two n.
Proof.
  unfold is_not_power_of_two, power_of_two. destruct (Z.leb_spec (Z.of_nat n) 0).
  - split; [|reflexivity]. intros _ [l E]. pose proof (Nat.pow_nonzero 2 l). lia.
  - rewrite Bool.negb_true_iff. split.
    + intros E [l ->]. apply Z.eqb_neq in E. apply E. rewrite Nat2Z.inj_pow. change (Z.of_nat 2) with 2.
      replace (2 ^ Z.of_nat l - 1) with (Z.ones (Z.of_nat l)) by (rewrite Z.ones_equiv; lia). rewrite Z.land_ones by lia. apply Z.mod_same. apply Z.pow_nonzero; lia.
    + intros N. apply Z.eqb_neq. intros E. apply N. exists (Z.to_nat (Z.log2 (Z.of_nat n))).
      set (z := Z.of_nat n) in *. set (l := Z.log2 z). assert (Hl : 0 <= l) by apply Z.log2_nonneg. pose proof (Z.log2_spec z ltac:(lia)) as [P1 P2]. fold l in P1, P2.
      destruct (Z.eq_dec z (2 ^ l)) as [Ez|Ez].
      { apply Nat2Z.inj. rewrite Nat2Z.inj_pow, Z2Nat.id by exact Hl. exact Ez. }
      exfalso. assert (B : Z.testbit (Z.land z (z - 1)) l = true); [|rewrite E, Z.bits_0 in B; discriminate B].
      rewrite Z.land_spec. unfold l at 1. rewrite (Z.bit_log2 z) by lia.
      assert (L2 : Z.log2 (z - 1) = l) by (apply Z.log2_unique; [exact Hl|lia]). rewrite <- L2. rewrite Z.bit_log2; [reflexivity|].
      assert (0 < 2 ^ l) by (apply Z.pow_pos_nonneg; lia). lia.
Qed.

(** ** RNS polynomials *)
Theorem C88_rns_polynomial :
  forall (a b x : rpoly) (ms : list pmod) (coeffs : list Z) (vs : list (list Z)) pq flag log_n power (s t : Z) (zs : rnsint),
  let n := length ms in
  (* Create: no vector, vectors of different lengths, a length that is not a power of two *)
  (vs = [] \/ (exists v w, In v vs /\ In w vs /\ length v <> length w) \/ (exists v, In v vs /\ ~ power_of_two (length v)) -> refused (rns_create vs flag)) /\
  (* CreateZero, CreateOne, SampleUniform *)
  (log_n <= 0 \/ n = 0%nat -> refused (rns_zero log_n ms flag) /\ refused (rns_one log_n ms) /\
     forall R fuel st, refused (rns_sample_uniform R fuel log_n ms st)) /\
  (* ConvertFromPolynomialCoeffs and the balanced one, which lets length 0 pass *)
  (~ power_of_two (length coeffs) \/ n = 0%nat -> refused (rns_convert coeffs pq ms) /\ (coeffs <> [] -> refused (rns_convert_balanced coeffs pq ms))) /\
  (* ConvertToNttForm, ConvertToCoeffForm *)
  (in_ntt a \/ parts a <> n -> refused (rns_to_ntt a ms)) /\
  (~ in_ntt a \/ parts a <> n -> refused (rns_to_coeff a ms)) /\
  (* NegateInPlace, multiplication with a scalar *)
  (parts a <> n -> refused (rns_neg_in_place a ms) /\ refused (rns_mul_scalar a s ms) /\ refused (rns_serialize a ms)) /\
  (parts a <> n \/ length zs <> n -> refused (rns_mul_rnsint a zs ms)) /\
  (* Add, Sub, Mul, FusedMulAdd *)
  (parts a <> n \/ parts b <> n -> refused (rns_add a b ms) /\ refused (rns_sub a b ms)) /\
  (parts a <> n \/ parts b <> n \/ ~ in_ntt a \/ ~ in_ntt b -> refused (rns_mul a b ms)) /\
  (parts x <> n \/ parts a <> n \/ parts b <> n \/ ~ in_ntt x \/ ~ in_ntt a \/ ~ in_ntt b -> refused (rns_fused_mul_add x a b ms)) /\
  (* Substitute *)
  (power < 0 \/ Z.even power = true \/ 2 * 2 ^ Z.of_nat (rp_logn a) <= power \/ parts a <> n \/ ~ in_ntt a -> refused (rns_substitute a power ms)) /\
  (* DetachLastCoeffVector, ReplaceSubPolynomialAt *)
  (parts a = 0%nat -> refused (rns_detach a)) /\
  (power < 0 \/ Z.of_nat (parts a) <= power -> refused (rns_replace a power coeffs)) /\
  (* ModReduceLsb, ModReduceMsb *)
  (parts a <> n \/ (n <= 1)%nat \/ (length zs + 1)%nat <> n -> refused (rns_mod_reduce_lsb a t zs ms) /\ refused (rns_mod_reduce_msb a zs ms)).
Proof.
  intros a b x ms coeffs vs pq flag log_n power s t zs n. unfold n. clear n.
  split. { intros H. unfold refused, rns_create. destruct vs as [|v0 vs]; [reflexivity|].
    destruct (is_not_power_of_two _) eqn:E1; [reflexivity|]. destruct (forallb _ _) eqn:E2; [|reflexivity]. exfalso.
    rewrite forallb_forall in E2. assert (E3 : forall v, In v (v0 :: vs) -> length v = length v0) by (intros v Hv; apply Nat.eqb_eq, E2, Hv).
    destruct H as [H|[(v & w & Hv & Hw & H)|(v & Hv & H)]]; [discriminate H| |].
    - rewrite (E3 v Hv), (E3 w Hw) in H. apply H. reflexivity.
    - apply not_pow2 in H. rewrite (E3 v Hv) in H. congruence. }
  split. { intros H. assert (G : (log_n <=? 0) = true \/ ms = []) by (destruct H as [H|H]; [left; apply Z.leb_le; exact H|right; apply length_zero_iff_nil; exact H]).
    unfold refused, rns_zero, rns_one, rns_sample_uniform. split; [|split]; [| |intros]; destruct G as [-> | ->]; try reflexivity; destruct (log_n <=? 0); reflexivity. }
  split. { intros H. unfold refused, rns_convert, rns_convert_balanced. split.
    - destruct (is_not_power_of_two _) eqn:E; [reflexivity|]. destruct H as [H|H]; [apply not_pow2 in H; congruence|]. destruct ms; [reflexivity|discriminate H].
    - intros Hc. destruct (negb _) eqn:E; [reflexivity|]. destruct H as [H|H]; [|destruct ms; [reflexivity|discriminate H]].
      apply not_pow2 in H. unfold is_not_power_of_two in H. destruct (Z.leb_spec (Z.of_nat (length coeffs)) 0) as [Q|Q]; [|congruence]. destruct coeffs; [contradiction|cbn [length] in Q; lia]. }
  split; [unfold rns_to_ntt; refuse|]. split; [unfold rns_to_coeff; refuse|].
  split; [intros; split; [unfold rns_neg_in_place; refuse|split; [unfold rns_mul_scalar; refuse|unfold rns_serialize; refuse]]|].
  split; [unfold rns_mul_rnsint; refuse|].
  split; [intros; split; [unfold rns_add; refuse|unfold rns_sub; refuse]|].
  split; [unfold rns_mul; refuse|]. split; [unfold rns_fused_mul_add; refuse|].
  split. { unfold rns_substitute, rp_ncoeffs. intros H. unfold refused, parts, in_ntt, same_len in *. checks. exfalso. bools.
    rewrite Nat2Z.inj_pow in *. change (Z.of_nat 2) with 2 in *.
    destruct H as [H|[H|[H|[H|H]]]]; try congruence; try lia.
    apply Z.even_spec in H. destruct H as [h ->]. match goal with Q : Z.rem _ 2 <> 0 |- _ => apply Q end. rewrite Z.mul_comm, Z.rem_mul by lia. reflexivity. }
  split. { intros H. unfold refused, rns_detach, parts in *. apply length_zero_iff_nil in H. rewrite H. reflexivity. }
  split; [unfold rns_replace; refuse|].
  intros H. split; [unfold rns_mod_reduce_lsb; refuse|unfold rns_mod_reduce_msb; refuse].
Qed.

(** ** Changing the basis *)
Theorem C88_rns_basis :
  forall D (a aux : rpoly) (qs ps : list pmod) (hat_inv q_mod_ps p_mod_qs p_inv_mod_qs t_inv_mod_ps : list Z) (hat_mod_ps q_inv_mod_ps : list rnsint) (balanced : bool) (p_mod_t t : Z),
  let n := length qs in
  (in_ntt a \/ parts a <> n \/ ps = [] \/ (length hat_inv < n)%nat \/ (length hat_mod_ps < n)%nat \/ length q_mod_ps <> length ps ->
     refused (rns_switch_basis D a qs ps hat_inv hat_mod_ps q_mod_ps) /\ refused (rns_extend_basis D a qs ps hat_inv hat_mod_ps q_mod_ps)) /\
  (in_ntt a \/ parts a <> n \/ ps = [] \/ (length hat_inv < n)%nat \/ length q_inv_mod_ps <> length ps \/ (length p_mod_qs < n)%nat ->
     refused (rns_scale_and_switch D a qs ps hat_inv q_inv_mod_ps p_mod_qs)) /\
  (parts a <> n \/ ps = [] \/ length hat_inv <> n \/ length hat_mod_ps <> n ->
     refused (rns_approx_switch a qs ps hat_inv hat_mod_ps balanced)) /\
  (parts a <> n \/ parts aux <> length ps \/ length p_inv_mod_qs <> n \/ length hat_inv <> length ps \/ length hat_mod_ps <> length ps ->
     refused (rns_approx_reduce_msb a aux qs ps p_inv_mod_qs hat_inv hat_mod_ps) /\
     refused (rns_approx_reduce_lsb a aux qs ps p_inv_mod_qs hat_inv hat_mod_ps t_inv_mod_ps p_mod_t t)) /\
  (length t_inv_mod_ps <> length ps -> refused (rns_approx_reduce_lsb a aux qs ps p_inv_mod_qs hat_inv hat_mod_ps t_inv_mod_ps p_mod_t t)).
Proof.
  intros. unfold n. clear n.
  assert (S : in_ntt a \/ parts a <> length qs \/ ps = [] \/ (length hat_inv < length qs)%nat \/ (length hat_mod_ps < length qs)%nat \/ length q_mod_ps <> length ps ->
     refused (rns_switch_basis D a qs ps hat_inv hat_mod_ps q_mod_ps)).
  { unfold rns_switch_basis; refuse. }
  split. { intros H. specialize (S H). split; [exact S|]. unfold refused, rns_extend_basis in *. rewrite S. reflexivity. }
  split; [unfold rns_scale_and_switch; refuse|]. split; [unfold rns_approx_switch; refuse|].
  split; [intros; split; [unfold rns_approx_reduce_msb; refuse|unfold rns_approx_reduce_lsb; refuse]|unfold rns_approx_reduce_lsb; refuse].
Qed.

(** ** RNS ciphertexts, lazy products and keys. [k] components; a ciphertext for
    another power of the secret, other moduli or of the wrong degree is refused by
    keys; so is a generator type that does not exist. *)
Theorem C88_rns_ciphertext :
  forall (x y : rct) (b b2 : rpoly) (zs : rnsint) (z : rlazy) (ms : list pmod) (i log_n : Z) (key : rskey) (gk : rgalois) (rr : rrelin) (g : rgadget) (digits : list rpoly) (pad : rpoly),
  let n := length (rt_ms x) in
  (parts b <> n -> refused (rct_add_plain x b) /\ refused (rct_sub_plain x b)) /\
  (length zs <> n -> refused (rct_absorb_rns x zs)) /\
  (length (rt_c x) <> 2%nat \/ length (rt_c y) <> 2%nat \/ length (rt_ms y) <> n \/ rt_pow x <> rt_pow y -> refused (rct_fused_nopad x y b)) /\
  ((2 < length (rt_c x))%nat -> refused (rct_set_pad x b)) /\
  (i < 0 \/ Z.of_nat (length (rt_c x)) <= i -> refused (rct_component x i)) /\
  (* lazy products *)
  (~ in_ntt b \/ ~ in_ntt b2 \/ rp_logn b <> rp_logn b2 \/ parts b <> length ms \/ parts b2 <> length ms -> refused (rlazy_create b b2 ms)) /\
  (log_n <= 0 \/ ms = [] -> refused (rlazy_zero log_n ms)) /\
  (length (rl_vs z) <> length ms -> refused (rlazy_export z ms)) /\
  (~ in_ntt b \/ ~ in_ntt b2 \/ parts b <> length ms \/ parts b2 <> length ms \/ length (rl_vs z) <> length ms \/
     (exists v vs, rl_vs z = v :: vs /\ (length v <> 2 ^ rp_logn b \/ length v <> 2 ^ rp_logn b2)%nat) ->
     refused (rlazy_fused z b b2 ms) /\ forall fma, refused (rlazy_fused_with fma z b b2 ms)) /\
  (* decryption *)
  (rt_pow x <> 1 \/ (exists c0 cs, rt_c x = c0 :: cs /\ (rp_logn c0 <> rp_logn (rsk_key key) \/ n <> length (rsk_ms key))) ->
     (forall e, refused (rsk_decrypt_bgv key e x)) /\ (forall e, refused (rsk_decrypt_bfv key e x)) /\
     (forall K e hats invs, refused (rsk_decrypt_bgv_crt K key e x hats invs))) /\
  (* Galois keys *)
  (rt_pow x <> gk_pow gk \/ n <> length (gk_ms gk) \/ length (rt_c x) <> 2%nat ->
     refused (galois_apply gk x)) /\
  (rt_pow x <> gk_pow gk \/ n <> length (gk_ms gk) \/ length (rt_c x) <> 2%nat \/ length digits <> rg_dimension (gk_g gk) ->
     refused (galois_apply_with_pad gk x digits pad)) /\
  (length digits <> rg_dimension (gk_g gk) -> refused (galois_precompute gk digits)) /\
  (* relinearization keys *)
  (rr_deg rr < Z.of_nat (length (rt_c x)) - 1 \/ n <> length (rr_ms rr) \/ rt_pow x <> 1 -> refused (rrelin_apply rr x)) /\
  (forall F fuel power variance ty t seed seed_e, ty <> 1 /\ ty <> 2 ->
     refused (galois_create F fuel key power variance g ty t seed seed_e) /\ refused (rrelin_create F fuel key power variance g ty t seed seed_e)) /\
  (forall F fuel degree variance ty t seed seed_e, degree <= 1 -> refused (rrelin_create F fuel key degree variance g ty t seed seed_e)) /\
  (forall F fuel sg, sg_bs sg = [] -> refused (galois_deserialize F fuel sg g ms)).
Proof.
  intros x y b b2 zs z ms i log_n key gk rr g digits pad n. unfold n. clear n.
  split; [intros; split; [unfold rct_add_plain; refuse|unfold rct_sub_plain; refuse]|].
  split; [unfold rct_absorb_rns; refuse|].
  split. { unfold rct_fused_nopad. intros H. unfold refused, same_len. destruct (rt_c x) as [|c0 [|c1 [|c2 cx]]]; try reflexivity. destruct (rt_c y) as [|d0 [|d1 [|d2 cy]]]; try reflexivity.
    cbn [length] in H. checks. exfalso. bools. intuition congruence. }
  split. { unfold rct_set_pad, refused. destruct (rt_c x) as [|c0 [|c1 [|c2 cx]]]; cbn [length]; intros; try lia; reflexivity. }
  split; [unfold rct_component; refuse|].
  split. { unfold rlazy_create, rp_ncoeffs. intros H. unfold refused, parts, in_ntt, same_len in *. checks. exfalso. bools.
    assert (rp_logn b2 = rp_logn b) by (apply (Nat.pow_inj_r 2); lia). intuition congruence. }
  split; [unfold rlazy_zero; refuse|]. split; [unfold rlazy_export; refuse|].
  split. { intros H. assert (G : forall A (r : result A),
      (if negb (rp_ntt b) || negb (rp_ntt b2) then Err InvalidArgument
       else if negb (same_len (rp_vs b) ms) || negb (same_len (rp_vs b2) ms) || negb (same_len (rl_vs z) ms) then Err InvalidArgument
       else match rl_vs z with [] => UB | v0 :: _ => if negb (rp_ncoeffs b =? length v0)%nat || negb (rp_ncoeffs b2 =? length v0)%nat then Err InvalidArgument else r end) = Err InvalidArgument).
    { intros A r. unfold parts, in_ntt, same_len, rp_ncoeffs in *. destruct (negb (rp_ntt b) || _) eqn:E1; [reflexivity|]. destruct (_ || _ || _) eqn:E2; [reflexivity|]. bools.
      destruct H as [H|[H|[H|[H|[H|(v & vs & Ez & H)]]]]]; try congruence; try lia. rewrite Ez.
      destruct (_ || _) eqn:E3; [reflexivity|]. bools. exfalso. lia. }
    unfold refused, rlazy_fused, rlazy_fused_with. split; [|intros fma]; apply G. }
  split. { intros H. assert (G : rsk_check key x = Err InvalidArgument).
    { unfold rsk_check, same_len. destruct (Z.eqb_spec (rt_pow x) 1) as [E|E]; [|reflexivity]. destruct H as [H|(c0 & cs & -> & H)]; [contradiction|]. cbn [negb].
      checks. exfalso. bools. intuition congruence. }
    unfold refused, rsk_decrypt_bgv, rsk_decrypt_bfv, rsk_decrypt_bgv_crt. rewrite G. repeat split. }
  assert (GK : rt_pow x <> gk_pow gk \/ length (rt_ms x) <> length (gk_ms gk) \/ length (rt_c x) <> 2%nat -> galois_checks gk x = Err InvalidArgument).
  { unfold galois_checks. refuse. }
  split. { intros H. unfold refused, galois_apply, galois_switch. rewrite (GK H). reflexivity. }
  split. { intros H. unfold refused, galois_apply_with_pad. destruct (galois_checks gk x) as [[]|e|] eqn:E; cbn [bind].
    - destruct (negb _) eqn:E2; [reflexivity|]. exfalso. bools. destruct H as [H|[H|[H|H]]]; [| | |congruence]; (assert (Q : Ok tt = Err InvalidArgument) by (apply GK; tauto)); discriminate Q.
    - unfold galois_checks in E. destruct (negb _); [injection E as <-; reflexivity|]. destruct (negb _); [injection E as <-; reflexivity|]. destruct (negb _); [injection E as <-; reflexivity|discriminate E].
    - unfold galois_checks in E. repeat (destruct (negb _); [discriminate E|]). discriminate E. }
  split; [unfold galois_precompute; refuse|]. split; [unfold rrelin_apply; refuse|].
  split. { intros F fuel power variance ty t seed seed_e [H1 H2]. assert (K : known_type ty = false) by (unfold known_type; apply Z.eqb_neq in H1, H2; rewrite H1, H2; reflexivity).
    unfold refused, galois_create, rrelin_create. rewrite K. cbn [negb]. split; [reflexivity|]. destruct (power <=? 1); reflexivity. }
  split; [unfold rrelin_create; refuse|].
  intros F fuel sg H. unfold refused, galois_deserialize. rewrite H. reflexivity.
Qed.

(** ** The single-modulus library *)
Theorem C88_single :
  (* MontgomeryIntParams::Create: exactly the even moduli and those of more than k - 2 bits *)
  (forall k m, 2 <= k -> 0 <= m -> (refused (params_create k m) <-> 2 ^ (k - 2) <= m \/ Z.even m = true)) /\
  (* SerializeVector: no coefficients, more than 2^15 *)
  (forall p cs, cs = [] \/ 2 ^ 15 < Z.of_nat (length cs) -> refused (mserialize_vector p cs)) /\
  (* ErrorParams::Create *)
  (forall p log_t variance, p_logm p - 1 < log_t \/ log_t <= 0 \/ max_variance < variance -> refused (error_params_create p log_t variance)) /\
  (* ConstantPolynomial::Create *)
  (forall c cb, length c <> length cb <-> refused (const_poly_create c cb)) /\
  (* Component *)
  (forall x i, i < 0 \/ Z.of_nat (length (ct_c x)) <= i <-> refused (ct_component x i)) /\
  (* FusedAbsorbConstantAddInPlace and the reference ciphertexts: different powers of the secret *)
  (forall x a b, ct_pow x <> ct_pow a -> refused (ct_fused_absorb_constant x a b)) /\
  (forall x y, cc_pow x <> cc_pow y -> refused (cct_add x y)) /\
  (* generators: a seed of the wrong length *)
  (forall n block key, length key <> n -> refused (prng_create n block key)) /\
  (* LazyPolynomial: a modulus with too few spare bits *)
  (forall p, 2 * p_k p - 1 - 2 * p_logm p < 1 <-> refused (lazy_log_max p)).
Proof.
  split. { intros k m Hk Hm. unfold refused, params_create, shr. assert (P : 0 < 2 ^ (k - 2)) by (apply Z.pow_pos_nonneg; lia).
    destruct (Z.eqb_spec (m / 2 ^ (k - 2)) 0) as [E|E]; cbn [negb].
    - apply Z.div_small_iff in E; [|lia]. rewrite Zmod_even. destruct (Z.even m); cbn [Z.eqb].
      + split; [intros _; right; reflexivity|reflexivity].
      + split; [intros Q; discriminate Q|]. intros [Q|Q]; [lia|discriminate Q].
    - split; [intros _; left|reflexivity]. apply Z.nlt_ge. intros Q. apply E. apply Z.div_small. lia. }
  split. { intros p cs H. unfold refused, mserialize_vector. destruct (Z.gtb_spec (Z.of_nat (length cs)) max_num_coeffs) as [Q|Q]; [reflexivity|].
    destruct H as [->|H]; [reflexivity|]. exfalso. unfold max_num_coeffs in Q. lia. }
  split. { intros p log_t variance H. unfold refused, error_params_create. rewrite !Z.gtb_ltb. checks. exfalso. bools. lia. }
  split. { intros c cb. unfold refused, const_poly_create, same_len. destruct (Nat.eqb_spec (length c) (length cb)) as [E|E]; split; intros H; try congruence; try reflexivity. }
  split. { intros x i. unfold refused, ct_component. rewrite Z.gtb_ltb, Z.geb_leb. destruct (_ || _) eqn:E.
    - split; [reflexivity|]. intros _. bools. destruct E as [E|E]; bools; [left|right]; assumption.
    - bools. split; [lia|]. intros Q. unfold get in Q. destruct (nth_error _ _); discriminate Q. }
  split; [unfold ct_fused_absorb_constant; refuse|]. split; [unfold cct_add; refuse|]. split; [unfold prng_create; refuse|].
  intros p. unfold refused, lazy_log_max. destruct (Z.ltb_spec (2 * p_k p - 1 - 2 * p_logm p) 1); split; intros Q; try reflexivity; try lia; discriminate Q.
Qed.

(** Not refused: balanced conversion of no coefficients (undefined behaviour, while
    the other conversion refuses them) ... *)
Theorem C88_balanced_refuted : forall pq m ms,
  rns_convert_balanced [] pq (m :: ms) = UB /\ refused (rns_convert [] pq (m :: ms)).
Proof.
  intros. split; [|reflexivity]. unfold rns_convert_balanced. cbn [length Z.of_nat map seqr]. change (Z.land 0 (0 - 1) =? 0) with true. cbn [negb].
  assert (E : convert_balanced pq (pm_p m) [] = []) by (unfold convert_balanced; destruct (_ =? _); reflexivity). rewrite E. reflexivity.
Qed.

(** ... and a pad for a ciphertext without components, which becomes its first
    component. *)
Theorem C88_set_pad_accepted : forall x a, rt_c x = [] ->
  exists y, rct_set_pad x a = Ok y /\ rt_c y = [a] /\ rct_component y 0 = Ok a.
Proof. intros x a H. unfold rct_set_pad. rewrite H. eexists. split; [reflexivity|]. split; reflexivity. Qed.

(** Refused calls beside accepted ones. *)
Example C88_example :
  let a := {| rp_logn := 1; rp_vs := [[1; 2]]; rp_ntt := true |} in
  refused (rns_create [[1; 2]; [1; 2; 3]] true) /\ refused (rns_create [[1; 2; 3]] true) /\ rns_create [[1; 2]] true = Ok a /\
  refused (rns_replace a 1 [3; 4]) /\ rns_replace a 0 [3; 4] = Ok {| rp_logn := 1; rp_vs := [[3; 4]]; rp_ntt := true |} /\
  refused (params_create 16 16385) /\ refused (params_create 16 100) /\ exists p, params_create 16 12289 = Ok p.
Proof. repeat split; try (vm_compute; reflexivity). eexists. vm_compute. reflexivity. Qed.

Print Assumptions C88_rns_polynomial.
Print Assumptions C88_rns_basis.
Print Assumptions C88_rns_ciphertext.
Print Assumptions C88_single.
Print Assumptions C88_balanced_refuted.
Print Assumptions C88_set_pad_accepted.
