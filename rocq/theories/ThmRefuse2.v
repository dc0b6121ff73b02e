(** C88, continued: setting up contexts, gadgets and keys; expansion and
    compression; auxiliary keys. *)
From Coq Require Import Lia.
From Verif Require Import Base ZLemmas Montgomery MontBatch Ntt Poly PolyExt Prng Sampling SymEnc Context Relin AuxRelin Expand RnsPoly RnsCtx RnsCt RnsHwy RnsEncode RnsKey RelinProofs ExpandProofs2 InPlaceProofs2 ThmPoly RefuseSpec ThmRefuse.
From Verif Require RnsGadget.

Local Open Scope Z_scope.

(** ** RNS contexts, gadgets, key material, decoding *)
Theorem C88_rns_setup :
  forall (ms : list pmod) (log_n t level variance : Z) (qs ps hats invs log_bs zs : list Z) (rows : list (list Z)) (k K : Z) (c : rctx) (a : rpoly) (g : RnsGadget.rgadget),
  let n := length ms in
  (* RnsContext: no ring, no plaintext space, no finite field of characteristic 2 *)
  (log_n <= 0 \/ t = 0 -> refused (ctx_create k log_n qs ps t) /\ refused (ctx_create_bfv k log_n qs ps t)) /\
  (log_n <= 0 \/ Z.even t = true -> refused (ctx_create_bgv_ff k log_n qs ps t) /\ refused (ctx_create_bfv_ff k log_n qs ps t)) /\
  (* levels that do not exist *)
  (level < 0 \/ Z.of_nat (length (rc_qs c)) <= level ->
     refused (main_leveled_aux_residues c level) /\ refused (main_complements c level) /\ refused (main_crt_factors c level) /\ refused (main_complement_residues c level)) /\
  (* CRT interpolation and decoding with it *)
  (rows = [] \/ n <> length rows \/ length hats <> length rows \/ length invs <> length rows -> refused (crt_interpolation K rows ms hats invs)) /\
  (refused (remove_error_on_msb K zs t level) <-> level = 0) /\
  (forall e, length hats <> n \/ length invs <> n -> refused (ff_decode_bgv_crt K e a ms hats invs)) /\
  (* gadgets *)
  (log_n <= 0 \/ n = 0%nat \/ length log_bs <> n \/ length hats <> n \/ length invs <> n -> refused (RnsGadget.rgadget_create log_n log_bs hats invs ms)) /\
  (in_ntt a \/ parts a <> n -> refused (RnsGadget.rg_decompose g a ms)) /\
  (* sampling errors and secret keys *)
  (log_n <= 0 \/ variance <= 0 \/ n = 0%nat -> forall R s, refused (rns_sample_error R log_n variance ms s) /\ refused (rsk_sample R log_n variance ms s)) /\
  (* encryption of a polynomial *)
  (~ in_ntt a -> forall R fuel key s, refused (rsk_encrypt_poly_bgv R fuel key a t s)) /\
  (* decryption with interpolation: lists for another number of moduli *)
  (forall key e x c0 cs, rt_pow x = 1 -> rt_c x = c0 :: cs -> length hats <> length (rsk_ms key) \/ length invs <> length (rsk_ms key) -> refused (rsk_decrypt_bgv_crt K key e x hats invs)).
Proof.
  intros ms log_n t level variance qs ps hats invs log_bs zs rows k K c a g n. unfold n. clear n.
  assert (CC : log_n <= 0 \/ t = 0 -> refused (ctx_create k log_n qs ps t)) by (unfold ctx_create; refuse).
  split. { intros H. specialize (CC H). split; [exact CC|]. unfold refused, ctx_create_bfv in *. rewrite CC. reflexivity. }
  split. { intros H. unfold refused, ctx_create_bgv_ff, ctx_create_bfv_ff in *. rewrite Zmod_even. destruct (Z.even t) eqn:E; cbn [Z.eqb]; [split; reflexivity|].
    destruct H as [H|H]; [|discriminate H]. rewrite CC by (left; exact H). split; reflexivity. }
  split. { intros H. assert (G : check_level c level = true) by (unfold check_level; apply Bool.orb_true_iff; destruct H; [left; apply Z.ltb_lt|right; apply Z.leb_le]; assumption).
    unfold refused, main_leveled_aux_residues, main_complements, main_crt_factors, main_products, main_complement_residues. rewrite G. repeat split. }
  split. { unfold crt_interpolation, refused. intros H. destruct rows as [|r0 rows]; [reflexivity|]. unfold same_len. checks. exfalso. bools. destruct H as [H|[H|[H|H]]]; [discriminate H|congruence|congruence|congruence]. }
  split. { unfold refused, remove_error_on_msb. destruct (Z.eqb_spec level 0); split; intros H; try congruence; reflexivity. }
  split. { intros e. unfold ff_decode_bgv_crt. refuse. }
  split. { unfold RnsGadget.rgadget_create, refused. intros H. destruct (Z.leb_spec log_n 0); [reflexivity|]. destruct ms as [|m ms]; [reflexivity|]. unfold same_len. checks. exfalso. bools. destruct H as [H|[H|[H|[H|H]]]]; [lia|discriminate H|congruence|congruence|congruence]. }
  split; [unfold RnsGadget.rg_decompose; refuse|].
  split. { intros H R s. unfold refused, rns_sample_error, rsk_sample. destruct (Z.leb_spec log_n 0); [split; reflexivity|]. destruct (Z.leb_spec variance 0); [split; reflexivity|].
    destruct H as [H|[H|H]]; try lia. apply length_zero_iff_nil in H. subst ms. split; reflexivity. }
  split. { intros H R fuel key s. unfold refused, rsk_encrypt_poly_bgv, in_ntt in *. destruct (rp_ntt a); [congruence|reflexivity]. }
  intros key e x c0 cs H1 H2 H. unfold refused, rsk_decrypt_bgv_crt, rsk_check, same_len. rewrite H1, H2. cbn [Z.eqb negb].
  destruct (negb (rp_logn c0 =? _)%nat); [reflexivity|]. destruct (negb (length (rt_ms x) =? _)%nat); [reflexivity|]. cbn [bind].
  destruct (_ || _) eqn:E; [reflexivity|]. exfalso. bools. intuition congruence.
Qed.

(** ** RNS key-switching keys. A key is refused when its pads are requested for no
    gadget component, when the power is even, negative or too large, when there is
    no noise, or when components are missing. *)
Theorem C88_rns_keys :
  forall F fuel (key : rskey) (g : RnsGadget.rgadget) (pads key_as key_bs : list rpoly) (power variance ty t log_n dimension degree : Z) (ms : list pmod) (seed seed_e : list Z),
  let n := 2 ^ Z.of_nat (rp_logn (rsk_key key)) in
  (ty <> 1 /\ ty <> 2 -> forall d, refused (RnsGadget.galois_pads F fuel d log_n ms seed ty)) /\
  (dimension <= 0 \/ degree <= 1 \/ log_n <= 0 \/ (ty <> 1 /\ ty <> 2) -> refused (RnsGadget.relin_pads F fuel dimension degree log_n ms seed ty)) /\
  (power < 0 \/ Z.even power = true \/ 2 * n <= power \/ variance <= 0 \/ (ty <> 1 /\ ty <> 2) -> refused (RnsGadget.galois_create_pads F pads key power variance g seed ty t seed_e)) /\
  (length key_as <> RnsGadget.rg_dimension g \/ length key_bs <> RnsGadget.rg_dimension g <-> refused (RnsGadget.galois_from key_as key_bs power g ms seed ty)) /\
  (variance <= 0 -> refused (RnsGadget.relin_create_pads F pads key degree variance g seed ty t seed_e)).
Proof.
  intros. unfold n. clear n.
  assert (KT : ty <> 1 /\ ty <> 2 -> known_type ty = false) by (intros [H1 H2]; unfold known_type; apply Z.eqb_neq in H1, H2; rewrite H1, H2; reflexivity).
  split. { intros H d. unfold refused, RnsGadget.galois_pads. rewrite (KT H). reflexivity. }
  split. { intros H. unfold refused, RnsGadget.relin_pads. destruct (Z.leb_spec dimension 0); [reflexivity|]. destruct (Z.leb_spec degree 1); [reflexivity|]. destruct (Z.leb_spec log_n 0); [reflexivity|].
    rewrite KT by (destruct H as [H|[H|[H|H]]]; [lia|lia|lia|exact H]). reflexivity. }
  split. { intros H. unfold refused, RnsGadget.galois_create_pads, rp_ncoeffs. rewrite Nat2Z.inj_pow. change (Z.of_nat 2) with 2. rewrite Zmod_even.
    destruct (Z.ltb_spec power 0); [reflexivity|]. destruct (Z.even power) eqn:E; cbn [Z.eqb orb]; [reflexivity|].
    destruct (Z.leb_spec (2 * 2 ^ Z.of_nat (rp_logn (rsk_key key))) power); [reflexivity|]. destruct (Z.leb_spec variance 0); [reflexivity|].
    rewrite KT by (destruct H as [H|[H|[H|[H|H]]]]; [lia|discriminate H|lia|lia|exact H]). reflexivity. }
  split. { unfold refused, RnsGadget.galois_from. destruct (_ || _) eqn:E.
    - split; [reflexivity|]. intros _. bools. destruct E as [E|E]; bools; [left|right]; exact E.
    - bools. split; [intros [Q|Q]; contradiction|]. intros Q. discriminate Q. }
  unfold RnsGadget.relin_create_pads; refuse.
Qed.

(** ** Oblivious expansion, compressed vectors, keys with an auxiliary modulus *)
Theorem C88_single_2 :
  (* ObliviousExpand: a negative or too large output, levels outside 0 .. 31 *)
  (forall ex xs levels len, len < 0 \/ levels < 0 \/ 32 <= levels -> refused (oblivious_expand ex xs levels len)) /\
  (forall ex xs levels len, 0 <= levels < 31 -> Z.of_nat (length xs) * 2 ^ levels < 2 ^ 31 -> len <> Z.of_nat (length xs) ->
     Z.of_nat (length xs) * 2 ^ levels < len -> refused (oblivious_expand ex xs levels len)) /\
  (* the expander that expands nothing *)
  (forall xs levels len, 0 <= len < 2 ^ 64 -> len <> Z.of_nat (length xs) -> refused (default_expand xs levels len)) /\
  (* the expander with one generator key *)
  (forall gk p np, rk_pow gk <> 5 <-> refused (generator_expander gk p np)) /\
  (forall n power, power < 5 \/ 2 * n <= power -> refused (num_substitutions n power)) /\
  (* MakeCompressedVector: sizes and indices *)
  (forall total indices log_cf p np, total <= 0 \/ log_cf < 0 \/ 32 <= log_cf -> refused (make_compressed_vector total indices log_cf p np)) /\
  (forall total indices log_cf p np, 0 <= log_cf < 31 -> Z.of_nat (np_n np) < 2 ^ log_cf -> refused (make_compressed_vector total indices log_cf p np)) /\
  (forall total i indices log_cf p np, i < 0 \/ total <= i -> refused (make_compressed_vector total (i :: indices) log_cf p np)) /\
  (* keys with an auxiliary modulus *)
  (forall F fuel key ty degree px npx power seed seed_e, degree <= 0 \/ power <= 0 \/ (ty <> 1 /\ ty <> 2) -> refused (aux_create F fuel key ty degree px npx power seed seed_e)) /\
  (forall F fuel key ty px npx power seed seed_e, power <= 0 \/ (ty <> 1 /\ ty <> 2) -> refused (auxgalois_create F fuel key ty power px npx seed seed_e)) /\
  (forall ak x, p_m (ct_p x) <> p_m (ak_p ak) \/ Z.of_nat (length (ct_c x)) <> Z.of_nat (length (ak_keys ak)) + (if ak_pow ak =? 1 then 2 else 1) -> refused (aux_apply ak x)) /\
  (forall ak x, ct_pow x <> ak_pow ak -> refused (auxgalois_apply ak x)) /\
  (forall F fuel sa p np px npx t, sa_num sa <= 0 \/ (sa_num sa < 2 ^ 30 /\ (Z.of_nat (length (sa_b sa)) <> 2 * sa_num sa \/ (sa_type sa <> 1 /\ sa_type sa <> 2))) ->
     refused (aux_deserialize F fuel sa p np px npx t) /\ refused (auxgalois_deserialize F fuel sa p np px npx t)).
Proof.
  assert (KT : forall ty, ty <> 1 /\ ty <> 2 -> known_type ty = false) by (intros ty [H1 H2]; unfold known_type; apply Z.eqb_neq in H1, H2; rewrite H1, H2; reflexivity).
  assert (SH : forall l, 0 <= l < 31 -> shl1 l = 2 ^ l).
  { intros l Hl. rewrite <- (Z2Nat.id l) by lia. apply shl1_small. lia. }
  assert (MC : forall total indices log_cf p np, total <= 0 \/ log_cf < 0 \/ 32 <= log_cf -> refused (make_compressed_vector total indices log_cf p np)).
  { intros. unfold make_compressed_vector. unfold refused. destruct (Z.leb_spec total 0); [reflexivity|]. destruct (_ || _) eqn:E; [reflexivity|]. exfalso. bools. lia. }
  assert (AC : forall F fuel key ty degree px npx power seed seed_e, degree <= 0 \/ power <= 0 \/ (ty <> 1 /\ ty <> 2) -> refused (aux_create F fuel key ty degree px npx power seed seed_e)).
  { intros. unfold refused, aux_create. destruct (Z.leb_spec degree 0); [reflexivity|]. destruct (Z.leb_spec power 0); [reflexivity|].
    rewrite KT by (destruct H as [H|[H|H]]; [lia|lia|exact H]). reflexivity. }
  split. { intros ex xs levels len H. unfold refused, oblivious_expand. destruct (Z.ltb_spec len 0); [reflexivity|]. destruct (_ || _) eqn:E; [reflexivity|]. exfalso. bools. lia. }
  split. { intros ex xs levels len Hl Hx Hn H. unfold refused, oblivious_expand. destruct (Z.ltb_spec len 0); [reflexivity|]. destruct (_ || _) eqn:E; [reflexivity|].
    destruct (Z.eqb_spec (Z.of_nat (length xs)) len); [congruence|]. rewrite SH by lia. assert (P : 0 < 2 ^ levels) by (apply Z.pow_pos_nonneg; lia).
    assert (P2 : 2 ^ levels < 2 ^ 31) by (apply Z.pow_lt_mono_r; lia).
    assert (E64 : 2 ^ 31 < 2 ^ 64) by reflexivity.
    unfold wrap. rewrite (Z.mod_small (2 ^ levels)) by lia. rewrite Z.mod_small by nia. rewrite int32_small by nia.
    rewrite Z.gtb_ltb. destruct (Z.ltb_spec (Z.of_nat (length xs) * 2 ^ levels) len); [reflexivity|lia]. }
  split. { intros xs levels len Hl H. unfold refused, default_expand, wrap. rewrite Z.mod_small by lia. destruct (Z.eqb_spec len (Z.of_nat (length xs))); [congruence|reflexivity]. }
  split. { intros gk p np. unfold refused, generator_expander. destruct (Z.eqb_spec (rk_pow gk) 5); cbn [negb]; split; intros Q; try congruence; reflexivity. }
  split. { intros n power H. unfold refused, num_substitutions. rewrite Z.geb_leb. destruct (_ || _) eqn:E; [reflexivity|]. exfalso. bools. lia. }
  split; [exact MC|].
  split. { intros total indices log_cf p np Hl H. unfold refused, make_compressed_vector. destruct (Z.leb_spec total 0); [reflexivity|]. destruct (_ || _) eqn:E; [reflexivity|]. cbv zeta. rewrite SH by lia.
    rewrite Z.gtb_ltb. destruct (Z.ltb_spec (Z.of_nat (np_n np)) (2 ^ log_cf)); [|lia]. rewrite Bool.orb_true_r. reflexivity. }
  split. { intros total i indices log_cf p np H. unfold refused, make_compressed_vector. destruct (Z.leb_spec total 0); [reflexivity|]. destruct ((log_cf <? 0) || _); [reflexivity|]. cbv zeta.
    destruct ((shl1 log_cf <=? 0) || _); [reflexivity|]. cbn [compress_loop]. rewrite Z.geb_leb. destruct ((i <? 0) || _) eqn:E; [reflexivity|]. exfalso. bools. lia. }
  split; [exact AC|].
  split. { intros. apply AC. tauto. }
  split. { intros ak x H. unfold refused, aux_apply. destruct (Z.eqb_spec (p_m (ct_p x)) (p_m (ak_p ak))); [|reflexivity]. cbn [negb]. cbv zeta.
    destruct (Z.eqb_spec (Z.of_nat (length (ct_c x))) (Z.of_nat (length (ak_keys ak)) + (if ak_pow ak =? 1 then 2 else 1))); [exfalso; tauto|reflexivity]. }
  split. { intros ak x H. unfold refused, auxgalois_apply. destruct (Z.eqb_spec (ct_pow x) (ak_pow ak)); [contradiction|reflexivity]. }
  intros F fuel sa p np px npx t H.
  assert (G : refused (aux_deserialize F fuel sa p np px npx t)); [|split; exact G].
  unfold refused, aux_deserialize. destruct (Z.leb_spec (sa_num sa) 0); [reflexivity|]. destruct H as [H|[H1 H2]]; [lia|].
  change (2 ^ 30) with 1073741824 in H1. change (2 ^ 31) with 2147483648.
  destruct (Z.leb_spec 2147483648 (2 * sa_num sa)); [lia|].
  destruct (Z.eqb_spec (Z.of_nat (length (sa_b sa))) (2 * sa_num sa)); cbn [negb]; [|reflexivity].
  rewrite KT by (destruct H2 as [H2|H2]; [contradiction|exact H2]). reflexivity.
Qed.

(** ConvertToNtt cannot return an error: IsValid tells afterwards whether the
    vector had a length that can be transformed. *)
Theorem C88_is_valid :
  forall p np v a, convert_to_ntt p np v = Ok a -> is_valid a = true <-> power_of_two (length v).
Proof.
  intros p np v a E. unfold convert_to_ntt in E. split.
  - intros V. destruct (forward_ntt p np v) as [w|e|] eqn:F; [|injection E as <-; discriminate V|discriminate E].
    unfold forward_ntt in F. destruct (length v =? 0)%nat; [discriminate F|].
    destruct (Nat.eqb_spec (length v) (2 ^ Nat.log2 (length v))) as [H|H]; [|discriminate F]. exists (Nat.log2 (length v)). exact H.
  - intros [d H]. destruct (forward_ntt p np v) as [w|e|] eqn:F; [|exfalso; exact (forward_fine p np v d e H F)|discriminate E].
    destruct w; [discriminate E|]. injection E as <-. reflexivity.
Qed.

(** Refused calls beside accepted ones. *)
Example C88_example_2 :
  refused (default_expand [] 0 3) /\ default_expand [] 0 0 = Ok [] /\
  refused (num_substitutions 8 16) /\ num_substitutions 8 5 = Ok 1 /\ num_substitutions 8 9 = Ok 2 /\
  refused (remove_error_on_msb 64 [1; 2] 17 0) /\ remove_error_on_msb 64 [1; 16] 17 2 = Ok [1; 1] /\
  refused (crt_interpolation 64 [] [] [] []) /\
  (do! a <- convert_to_ntt p97 np8 [1; 2; 3]; Ok (is_valid a)) = Ok false /\ (do! a <- convert_to_ntt p97 np8 [1; 2; 3; 4; 5; 6; 7; 8]; Ok (is_valid a)) = Ok true.
Proof. repeat split; vm_compute; reflexivity. Qed.

Print Assumptions C88_rns_setup.
Print Assumptions C88_rns_keys.
Print Assumptions C88_single_2.
Print Assumptions C88_is_valid.
