(** C61: BGV with the coefficient encoder recovers the messages. *)
From Coq Require Import Setoid Ring Znumtheory.
From Verif Require Import Base FinSum PolySpec Ring NegRing SymSpec Montgomery MontBatch MontBatchProofs Prng Sampling SampleSpec
  Spec RnsPoly RnsSpec CrtMath RnsSub RnsProofs RnsBasis RnsBasis2 RnsCtx RnsCtxSpec RnsCtxFacts RnsCt RnsCtSpec RnsEncode RnsEncodeSpec
  RnsKey RnsKeySpec RnsKeyProofs RnsDecode RnsExample RnsFloat ThmSymEnc ThmRnsKey.

(** EncodeBgv: coefficient i is the centred representative of message i. *)
Theorem C61_encode :
  forall k log_n qs ps t c l msgs, ctx_args k qs ps t -> ctx_made k log_n qs ps t c -> (l < length qs)%nat ->
  let n := (2 ^ Z.to_nat log_n)%nat in
  (length msgs <= n)%nat -> Forall (fun x => 0 <= x < 2 ^ k) msgs ->
  is_rns (at_level c l) (Z.to_nat log_n) false (coeff_encode_bgv c msgs (at_level c l)) (fun i => centered t (nth i msgs 0)).
Proof. intros k log_n qs ps t c l msgs A M Hl n. exact (encode_ok k log_n t qs ps c A M l msgs Hl). Qed.

Theorem C61_encode_errors :
  forall k log_n qs ps t c l msgs, ctx_args k qs ps t -> ctx_made k log_n qs ps t c -> (l < length qs)%nat ->
  (2 ^ Z.to_nat log_n < length msgs)%nat ->
  coeff_encode_bgv c msgs (at_level c l) = Err InvalidArgument /\ (forall msgs, coeff_encode_bgv c msgs [] = Err InvalidArgument).
Proof.
  intros k log_n qs ps t c l msgs A M Hl H. unfold coeff_encode_bgv. rewrite (ctx_shl k log_n t qs ps c A M) by lia. cbn [bind].
  split; [apply Nat.ltb_lt in H; rewrite H; reflexivity|]. intros m. destruct (_ <? length m)%nat; reflexivity.
Qed.

(** DecodeBgv of any polynomial that represents w at level l, in either form:
    the values w modulo t, provided w is small enough. *)
Theorem C61_decode :
  forall k log_n qs ps t c l ntt a w B, ctx_args k qs ps t -> ctx_made k log_n qs ps t c -> (l < length qs)%nat ->
  let n := (2 ^ Z.to_nat log_n)%nat in
  (forall q, In q qs -> Z.gcd q t = 1) -> rns_is (at_level c l) (Z.to_nat log_n) ntt a w ->
  bounded n B w -> bgv_decodable t (firstn (S l) qs) B ->
  coeff_decode_bgv c a (at_level c l) = Ok (map (fun i => w i mod t) (seq 0 n)).
Proof. intros k log_n qs ps t c l ntt a w B A M Hl n. exact (decode_ok k log_n t qs ps c A M l ntt a w B Hl). Qed.

Theorem C61_decode_errors :
  forall c a ms, length ms <> length (rp_vs a) -> coeff_decode_bgv c a ms = Err InvalidArgument.
Proof. intros c a ms H. unfold coeff_decode_bgv, same_len. apply Nat.eqb_neq in H. rewrite H. reflexivity. Qed.

(** Decryption of any ciphertext with phase w. *)
Theorem C61_decrypt :
  forall k log_n qs ps t c l D key sk x len w B, ctx_args k qs ps t -> ctx_made k log_n qs ps t c -> (l < length qs)%nat ->
  let n := (2 ^ Z.to_nat log_n)%nat in
  (forall q, In q qs -> Z.gcd q t = 1) -> key_is (at_level c l) (Z.to_nat log_n) key sk -> (0 < len)%nat ->
  ciphertext (at_level c l) (Z.to_nat log_n) sk len 1 x w ->
  bounded n B w -> bgv_decodable t (firstn (S l) qs) B ->
  rsk_decrypt_bgv key (coeff_encoder D c) x = Ok (map (fun i => w i mod t) (seq 0 n)).
Proof.
  intros k log_n qs ps t c l D key sk x len w B A M Hl n G HK Hlen Hx Bw HB.
  destruct (C59_decrypt k _ _ key sk (coeff_encoder D c) x len w (level_ok k log_n t qs ps c A M l) (level_ne k log_n t qs ps c A M l Hl) HK Hlen Hx)
    as (a & Ha & _ & E & _).
  rewrite E. cbn [coeff_encoder en_unbgv]. exact (C61_decode k log_n qs ps t c l true a w B A M Hl G Ha Bw HB).
Qed.

(** A fresh encryption decrypts to the messages, followed by zeros. *)
Theorem C61_encrypt_decrypt :
  forall k log_n qs ps t c l D R fuel key sk msgs s x s', ctx_args k qs ps t -> ctx_made k log_n qs ps t c -> (l < length qs)%nat ->
  let n := (2 ^ Z.to_nat log_n)%nat in
  k <> 16 -> prng_ok R -> (forall q, In q qs -> Z.gcd q t = 1) ->
  key_is (at_level c l) (Z.to_nat log_n) key sk -> variance_fits (rsk_var key) (at_level c l) -> 0 <= rsk_var key ->
  (length msgs <= n)%nat -> Forall (fun m => 0 <= m < t) msgs ->
  bgv_decodable t (firstn (S l) qs) (t / 2 + t * (2 * rsk_var key)) ->
  rsk_encrypt_bgv R fuel key (coeff_encoder D c) msgs s = Ok (x, s') ->
  rsk_decrypt_bgv key (coeff_encoder D c) x = Ok (padded n msgs).
Proof.
  intros k log_n qs ps t c l D R fuel key sk msgs s x s' A M Hl n K16 HR G HK HV V0 Lm Fm HB Ex.
  pose proof (ctx_t k log_n t qs ps c A M) as [Et Ht].
  pose proof (level_ok k log_n t qs ps c A M l) as OK. pose proof (level_ne k log_n t qs ps c A M l Hl) as NE.
  destruct (C61_encode k log_n qs ps t c l msgs A M Hl Lm) as (p & Ep & Hp).
  { eapply Forall_impl; [|exact Fm]. cbv beta. intros. lia. }
  assert (DI : distinct (at_level c l)) by (apply (level_distinct k log_n t qs ps c A M)).
  destruct (C59_encrypt_bgv k _ (at_level c l) R fuel key sk (coeff_encoder D c) msgs false p (fun i => centered t (nth i msgs 0)) s x s' OK NE DI K16 HR HK HV) as (a & s1 & e & _ & Be & Hx & _).
  { cbn [coeff_encoder en_t]. lia. } { exact Ep. } { exact Hp. } { exact Ex. }
  cbn [coeff_encoder en_t] in Hx. rewrite Et in Hx.
  rewrite (C61_decrypt k log_n qs ps t c l D key sk x 2 _ (t / 2 + t * (2 * rsk_var key)) A M Hl G HK ltac:(lia) Hx); [| |exact HB].
  - f_equal. fold n. assert (LP : length (padded n msgs) = n) by (unfold padded; rewrite app_length, repeat_length; lia).
    apply (nth_ext _ _ 0 0); [rewrite map_length, seq_length; congruence|]. rewrite map_length, seq_length. intros i Hi.
    rewrite (nth_indep _ 0 ((fun i => (centered t (nth i msgs 0) + t * e i) mod t) 0%nat)) by (rewrite map_length, seq_length; exact Hi).
    rewrite (map_nth (fun i => (centered t (nth i msgs 0) + t * e i) mod t)), seq_nth by exact Hi. cbn [Nat.add].
    rewrite (Z.mul_comm t), Z_mod_plus_full.
    assert (EN : nth i (padded n msgs) 0 = nth i msgs 0).
    { unfold padded. destruct (Nat.lt_ge_cases i (length msgs)); [apply app_nth1; assumption|].
      rewrite app_nth2, nth_repeat by assumption. symmetry. apply nth_overflow. assumption. }
    rewrite EN. assert (RM : 0 <= nth i msgs 0 < t).
    { destruct (Nat.lt_ge_cases i (length msgs)) as [Hm|Hm]; [rewrite Forall_forall in Fm; apply Fm, nth_In, Hm|rewrite nth_overflow by exact Hm; lia]. }
    pose proof (centered_cong t (nth i msgs 0)) as C. apply (cong_to_mod t) in C; [|lia]. rewrite C. apply Z.mod_small, RM.
  - intros i Hi. cbv beta. specialize (Be i Hi). pose proof (centered_fits t (nth i msgs 0) ltac:(lia)) as F. unfold fits in F.
    assert (T2 : Z.abs (centered t (nth i msgs 0)) <= t / 2) by (apply Z.div_le_lower_bound; lia).
    pose proof (Z.abs_triangle (centered t (nth i msgs 0)) (t * e i)) as T. rewrite Z.abs_mul, (Z.abs_eq t) in T by lia.
    pose proof (Z.mul_le_mono_nonneg_l _ _ t ltac:(lia) Be). lia.
Qed.

(** A noisy plaintext of absolute value below Q/2 is not enough for DecodeBgv:
    dropping a prime multiplies by (q mod t) / q, not by 1 / q. *)
Definition ctx5 : result rctx := ctx_create 32 3 [97; 193] [] 5.
Theorem C61_below_half_Q_refuted :
  ~ (forall k log_n qs ps t c l a w, ctx_args k qs ps t -> ctx_made k log_n qs ps t c -> (l < length qs)%nat ->
     (forall q, In q qs -> Z.gcd q t = 1 /\ t <= q) -> rns_is (at_level c l) (Z.to_nat log_n) false a w ->
     (forall i, 2 * Z.abs (w i) < big_q (at_level c l)) ->
     coeff_decode_bgv c a (at_level c l) = Ok (map (fun i => w i mod t) (seq 0 (2 ^ Z.to_nat log_n)))).
Proof.
  intros H. destruct ctx5 as [c| |] eqn:Ec; [|vm_compute in Ec; discriminate|vm_compute in Ec; discriminate].
  assert (A : ctx_args 32 [97; 193] [] 5).
  { destruct ex_primes as [P1 _]. pose proof (Forall_inv P1) as H1. pose proof (Forall_inv (Forall_inv_tail P1)) as H2.
    split; [right; left; reflexivity|]. split; [constructor; [exact H1|constructor; [exact H2|constructor]]|]. split; [constructor|].
    split; [repeat constructor; cbn; lia|]. cbn. lia. }
  assert (M : ctx_made 32 3 [97; 193] [] 5 c) by (left; exact Ec).
  set (v := [9000; 0; 0; 0; 0; 0; 0; 0]).
  destruct (create_residues 32 3 (at_level c 1) (fun m x => import_int (pm_p m) x) (fun x => x) v
     (level_ok 32 3 5 _ _ c A M 1) (level_ne 32 3 5 _ _ c A M 1 ltac:(cbn; lia)) eq_refl) as (a & Ea & Ha).
  { intros m x I Ix. apply (RnsSub.residue_import 32 3 m (moduli_in _ _ _ _ (level_ok 32 3 5 _ _ c A M 1) I)).
    unfold v in Ix. cbn [In] in Ix. intuition subst; lia. }
  specialize (H 32 3 [97; 193] [] 5 c 1%nat a (fun i => nth i v 0) A M ltac:(cbn; lia)).
  assert (Q : big_q (at_level c 1) = 18721).
  { unfold big_q. rewrite (level_moduli 32 3 5 _ _ c A M). reflexivity. }
  rewrite Q in H. specialize (H ltac:(intros q [<-|[<-|[]]]; split; [reflexivity|lia|reflexivity|lia]) Ha).
  assert (HB : forall i, 2 * Z.abs (nth i v 0) < 18721).
  { intros i. unfold v. do 9 (destruct i as [|i]; [cbn; lia|]). cbn. lia. }
  specialize (H HB). revert Ea H. vm_compute in Ec. injection Ec as <-. intros Ea. vm_compute in Ea. injection Ea as <-.
  vm_compute. discriminate.
Qed.

(** Degree 8, primes 97 and 193, plaintext modulus 5, variance 1. *)
Example C61_example :
  (exists c, ctx5 = Ok c) /\ bgv_decodable 5 [97; 193] (5 / 2 + 5 * (2 * 1)) /\
  (do! c <- ctx5;
   do! ' (key, s) <- rsk_sample toy 3 1 (rc_qs c) 12345;
   do! ' (x, s) <- rsk_encrypt_bgv toy 200 key (coeff_encoder exact_dops c) [1; 4; 0; 3; 2] s;
   rsk_decrypt_bgv key (coeff_encoder exact_dops c) x) = Ok [1; 4; 0; 3; 2; 0; 0; 0].
Proof. split; [eexists; vm_compute; reflexivity|]. split; [vm_compute; split; [discriminate|reflexivity]|vm_compute; reflexivity]. Qed.

Print Assumptions C61_encode.
Print Assumptions C61_encode_errors.
Print Assumptions C61_decode.
Print Assumptions C61_decode_errors.
Print Assumptions C61_decrypt.
Print Assumptions C61_encrypt_decrypt.
Print Assumptions C61_below_half_Q_refuted.
