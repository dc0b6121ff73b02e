(** C92: the power a ciphertext carries names the key that decrypts it. *)
From Coq Require Import Znumtheory Lia.
From Verif Require Import Base FinSum PolySpec ZLemmas Montgomery Ntt Poly PolyExt Prng Sampling SampleSpec Spec PolyView ArithFacts NttFacts
  SymEnc SymSpec SymFacts Relin RelinSpec AuxRelin AuxRelinSpec PubKey ThmArith ThmSymEnc ThmRelin ThmKeys PowerSpec PowerProofs.

(** Whatever the history, PowerOfS is the power the substitutions since the last
    key switch multiply up to, an odd number below 2n. *)
Theorem C92_power : forall k q L key h x,
  enc_key k q L (2 ^ sk_logt key + 1) key -> 0 <= sk_logt key -> 2 ^ sk_logt key + 1 < q -> 0 <= sk_var key -> 2 * sk_var key <= q ->
  wf L (2 ^ sk_logt key + 1) key k h -> run key h = Ok x ->
  ct_pow x = power L h /\ 0 < power L h < 2 * 2 ^ Z.of_nat L /\ Z.odd (power L h) = true /\ length (ct_c x) = width h.
Proof.
  intros k q L key h x EK Hl Ht Hv Hvq Hw E. destruct (run_inv k q L key EK Hl Ht Hv Hvq h x Hw E) as (P & [V1 V2] & key' & _ & (_ & Ln & _)).
  split; [exact P|]. split; [exact V1|]. split; [exact V2|]. exact Ln.
Qed.

(** The key substituted by that power decrypts the result to the computation on
    the plaintexts, while the worst-case error is below q / 2. *)
Theorem C92_decrypts : forall k q L key h x,
  enc_key k q L (2 ^ sk_logt key + 1) key -> 0 <= sk_logt key -> 2 ^ sk_logt key + 1 < q -> 0 <= sk_var key -> 2 * sk_var key <= q ->
  wf L (2 ^ sk_logt key + 1) key k h -> run key h = Ok x ->
  2 * noise L (2 ^ sk_logt key + 1) key h < q ->
  exists key', key_substitute (ct_pow x) key = Ok key' /\
    decrypt key' x = Ok (tabulate (2 ^ L) (fun i => meaning L key h i mod (2 ^ sk_logt key + 1))).
Proof.
  intros k q L key h x EK Hl Ht Hv Hvq Hw E Hn. destruct (run_inv k q L key EK Hl Ht Hv Hvq h x Hw E) as (P & V & key' & Ek & (O & _ & _ & _ & f & Cf & Hf)).
  exists key'. split; [rewrite P; exact Ek|]. destruct (key_at k q L key EK Hl Ht (power L h) V) as (key2 & E2 & EK' & _). rewrite Ek in E2. injection E2 as <-.
  pose proof (Z.pow_pos_nonneg 2 (sk_logt key) ltac:(lia) Hl).
  rewrite (proj2 (C26_decrypt k q L (2 ^ sk_logt key + 1) key' x f (ek_key _ _ _ _ _ EK') ltac:(lia) O Cf)).
  - f_equal. unfold tabulate. apply map_ext_in. intros i Hi. apply in_seq in Hi. apply cong_to_mod; [lia|]. apply Hf. lia.
  - intros i Hi. destruct (Hf i Hi) as [A _]. unfold fits. lia.
Qed.

(** Back at power 1, the key itself decrypts. *)
Theorem C92_back : forall k q L key h x,
  enc_key k q L (2 ^ sk_logt key + 1) key -> 0 <= sk_logt key -> 2 ^ sk_logt key + 1 < q -> 0 <= sk_var key -> 2 * sk_var key <= q ->
  wf L (2 ^ sk_logt key + 1) key k h -> run key h = Ok x ->
  2 * noise L (2 ^ sk_logt key + 1) key h < q -> ct_pow x = 1 ->
  decrypt key x = Ok (tabulate (2 ^ L) (fun i => meaning L key h i mod (2 ^ sk_logt key + 1))).
Proof.
  intros k q L key h x EK Hl Ht Hv Hvq Hw E Hn P1. pose proof (run_inv k q L key EK Hl Ht Hv Hvq h x Hw E) as I. pose proof I as (P & V & _).
  assert (P1' : power L h = 1) by congruence. rewrite P1' in P, V, I. apply (inv_iff k q L key EK Hl Ht x 1 _ _ _ P V) in I. destruct I as (O & _ & _ & f & Cf & Hf).
  apply (secret_at_one k q L (2 ^ sk_logt key + 1) key x f (ek_key _ _ _ _ _ EK) O) in Cf.
  pose proof (Z.pow_pos_nonneg 2 (sk_logt key) ltac:(lia) Hl).
  rewrite (proj2 (C26_decrypt k q L (2 ^ sk_logt key + 1) key x f (ek_key _ _ _ _ _ EK) ltac:(lia) O Cf)).
  - f_equal. unfold tabulate. apply map_ext_in. intros i Hi. apply in_seq in Hi. apply cong_to_mod; [lia|]. apply Hf. lia.
  - intros i Hi. destruct (Hf i Hi) as [A _]. unfold fits. lia.
Qed.

(** Ciphertexts at different powers are never mixed, and a Galois key is never
    applied at another power than its own. *)
Theorem C92_mismatch : forall k q L key a b x y,
  enc_key k q L (2 ^ sk_logt key + 1) key -> 0 <= sk_logt key -> 2 ^ sk_logt key + 1 < q -> 0 <= sk_var key -> 2 * sk_var key <= q ->
  wf L (2 ^ sk_logt key + 1) key k a -> wf L (2 ^ sk_logt key + 1) key k b -> run key a = Ok x -> run key b = Ok y ->
  power L a <> power L b ->
  run key (HAdd a b) = Err InvalidArgument /\ run key (HSub a b) = Err InvalidArgument /\ run key (HMul a b) = Err InvalidArgument /\
  forall pt, run key (HFused a b pt) = Err InvalidArgument.
Proof.
  intros k q L key a b x y EK Hl Ht Hv Hvq Wa Wb Ea Eb N.
  assert (Ne : (ct_pow x =? ct_pow y) = false).
  { apply Z.eqb_neq. rewrite (proj1 (run_inv k q L key EK Hl Ht Hv Hvq a x Wa Ea)), (proj1 (run_inv k q L key EK Hl Ht Hv Hvq b y Wb Eb)). exact N. }
  cbn [run]. rewrite Ea, Eb. cbn [bind]. unfold ct_add, ct_sub, ct_mul, ct_fused_absorb. rewrite Ne. cbn [negb]. repeat split.
Qed.

Theorem C92_galois_mismatch : forall k q L key a x,
  enc_key k q L (2 ^ sk_logt key + 1) key -> 0 <= sk_logt key -> 2 ^ sk_logt key + 1 < q -> 0 <= sk_var key -> 2 * sk_var key <= q ->
  wf L (2 ^ sk_logt key + 1) key k a -> run key a = Ok x ->
  (forall gk, rk_pow gk <> power L a -> run key (HGalois a gk) = Err InvalidArgument) /\
  (forall ak, ak_pow ak <> power L a -> run key (HAuxGalois a ak) = Err InvalidArgument).
Proof.
  intros k q L key a x EK Hl Ht Hv Hvq Wa Ea. pose proof (proj1 (run_inv k q L key EK Hl Ht Hv Hvq a x Wa Ea)) as P.
  cbn [run]. rewrite Ea. cbn [bind]. unfold galois_apply, auxgalois_apply. rewrite P. split; intros g N.
  - destruct (Z.eqb_spec (power L a) (rk_pow g)); [congruence|reflexivity].
  - destruct (Z.eqb_spec (power L a) (ak_pow g)); [congruence|reflexivity].
Qed.

(** If the powers agree, every history runs to its end (words of 32 bits or
    more, degrees up to 2^14). *)
Theorem C92_defined : forall k q L key h,
  enc_key k q L (2 ^ sk_logt key + 1) key -> 0 <= sk_logt key -> 2 ^ sk_logt key + 1 < q -> 0 <= sk_var key -> 2 * sk_var key <= q ->
  k <> 16 -> (L <= 14)%nat -> wf L (2 ^ sk_logt key + 1) key k h -> powers_agree L h -> leaves_ok key h ->
  exists x, run key h = Ok x.
Proof. intros k q L key h EK Hl Ht Hv Hvq. apply (run_defined k q L key EK Hl Ht Hv Hvq). Qed.

(** ** Examples and a counterexample: modulus 786433, degree 8, t = 3 *)
Definition key9 : skey := Eval vm_compute in keyr.
Definition m9 : poly := Eval vm_compute in mr.
Definition rk9 : relin := Eval vm_compute in rkr.
Definition gk9 : relin := Eval vm_compute in gkr.

Lemma key9_ok : enc_key 32 786433 3 (2 ^ sk_logt key9 + 1) key9 /\ sk_var key9 = 1 /\ sk_logt key9 = 1.
Proof.
  assert (E : key9 = keyr) by (vm_compute; reflexivity). destruct keyr_ok as (A & B & _). rewrite E.
  assert (LT : sk_logt keyr = 1) by (vm_compute; reflexivity). rewrite LT. split; [exact A|]. split; [exact B|reflexivity].
Qed.
Lemma rk9_ok : relin_ok 3 3 1 key9 rk9.
Proof. assert (E : key9 = keyr) by (vm_compute; reflexivity). assert (E' : rk9 = rkr) by (vm_compute; reflexivity). rewrite E, E'. exact rkr_relin. Qed.
Lemma gk9_ok : relin_ok 3 3 1 key9 gk9.
Proof. assert (E : key9 = keyr) by (vm_compute; reflexivity). assert (E' : gk9 = gkr) by (vm_compute; reflexivity). rewrite E, E'. exact (proj1 gkr_relin). Qed.

Definition e5 : hist := HEnc toy 100 m9 5.
Definition e6 : hist := HEnc toy 100 m9 6.
(** m(X^5) + m(X^(13 * 9)) at power 5: 13 * 9 = 117 = 5 modulo 16 *)
Definition h5 : hist := HAdd (HSubst e5 5) (HSubst (HSubst e6 13) 9).

Lemma m9_ok : message_ok 3 3 key9 m9.
Proof.
  split.
  - split; [vm_compute; reflexivity|]. assert (E : forallb (fun c => (0 <=? c) && (c <=? p_m (sk_p key9))) m9 = true) by (vm_compute; reflexivity).
    apply Forall_forall. intros c Hc. rewrite forallb_forall in E. specialize (E c Hc). unfold stored. lia.
  - assert (E : forallb (fun i => let c := coeff (sk_p key9) (sk_np key9) m9 i in (0 <=? c) && (c <? 3)) (seq 0 (2 ^ 3)) = true) by (vm_compute; reflexivity).
    rewrite forallb_forall in E. intros i Hi. specialize (E i ltac:(apply in_seq; lia)). cbv zeta in E. unfold plain. lia.
Qed.

Lemma e_wf (s : pr_st toy) : wf 3 3 key9 32 (HEnc toy 100 m9 s).
Proof. split; [exact toy_ok|exact m9_ok]. Qed.

Example C92_example :
  wf 3 3 key9 32 (HGalois h5 gk9) /\ powers_agree 3 (HGalois h5 gk9) /\ leaves_ok key9 (HGalois h5 gk9) /\
  power 3 h5 = 5 /\ 2 * noise 3 3 key9 (HGalois h5 gk9) < 786433 /\
  (exists x key', run key9 h5 = Ok x /\ key_substitute 5 key9 = Ok key' /\ decrypt key' x = Ok [0; 0; 2; 2; 2; 2; 0; 2] /\ decrypt key9 x <> decrypt key' x) /\
  (exists x key', run key9 (HMul (HSubst e5 5) (HSubst e6 5)) = Ok x /\ ct_pow x = 5 /\ key_substitute 5 key9 = Ok key' /\ decrypt key' x = Ok [0; 2; 0; 1; 2; 2; 2; 1]) /\
  run key9 (HAdd (HSubst e5 5) e6) = Err InvalidArgument.
Proof.
  destruct key9_ok as (_ & Ev & _). split.
  { cbn [wf h5 e5 e6 width Nat.max]. rewrite Ev. split; [split; [exact (e_wf 5)|exact (e_wf 6)]|]. split; [exact gk9_ok|]. split; vm_compute; reflexivity. }
  split. { cbn [powers_agree h5 e5 e6]. repeat split; try (vm_compute; reflexivity). }
  split. { cbn [leaves_ok h5 e5 e6]. split; (eexists; vm_compute; reflexivity). }
  split; [vm_compute; reflexivity|]. split; [vm_compute; reflexivity|].
  split. { eexists. eexists. split; [vm_compute; reflexivity|]. split; [vm_compute; reflexivity|]. split; [vm_compute; reflexivity|]. vm_compute. intros H. discriminate H. }
  split. { eexists. eexists. split; [vm_compute; reflexivity|]. split; [vm_compute; reflexivity|]. split; [vm_compute; reflexivity|]. vm_compute. reflexivity. }
  vm_compute. reflexivity.
Qed.

(** A relinearization key is applied whatever its power: with a key for power 1
    on a product at power 5 the call succeeds and the result is labelled 1, but
    neither key decrypts it to the product. *)
Definition h9 : hist := HMul (HSubst e5 5) (HSubst e6 5).
Theorem C92_relinearize_refuted :
  exists q L key h rk x y key' k,
    enc_key k q L (2 ^ sk_logt key + 1) key /\ wf L (2 ^ sk_logt key + 1) key k h /\
    relin_ok L (2 ^ sk_logt key + 1) (sk_var key) key rk /\ rk_num rk = Z.of_nat (width h) /\ rk_pow rk <> power L h /\
    run key h = Ok x /\ run key (HRelin h rk) = Ok y /\ ct_pow y = 1 /\ 2 * noise L (2 ^ sk_logt key + 1) key (HRelin h rk) < q /\
    key_substitute (power L h) key = Ok key' /\
    (let right := Ok (tabulate (2 ^ L) (fun i => meaning L key h i mod (2 ^ sk_logt key + 1))) in
     decrypt key' x = right /\ decrypt key y <> right /\ decrypt key' y <> right).
Proof.
  destruct key9_ok as (EK & Ev & El). exists 786433, 3%nat, key9, h9, rk9. do 3 eexists. exists 32. rewrite El in *. change (2 ^ 1 + 1) with 3 in *.
  split; [exact EK|]. split; [split; [exact (e_wf 5)|exact (e_wf 6)]|]. split; [rewrite Ev; exact rk9_ok|].
  split; [vm_compute; reflexivity|]. split; [vm_compute; intros H; discriminate H|].
  split; [vm_compute; reflexivity|]. split; [vm_compute; reflexivity|]. split; [vm_compute; reflexivity|]. split; [vm_compute; reflexivity|].
  split; [vm_compute; reflexivity|]. cbv zeta.
  assert (R : tabulate (2 ^ 3) (fun i => meaning 3 key9 h9 i mod 3) = [0; 2; 0; 1; 2; 2; 2; 1]) by (vm_compute; reflexivity). rewrite R. split; [vm_compute; reflexivity|]. split; vm_compute; intros H; discriminate H.
Qed.

Print Assumptions C92_power.
Print Assumptions C92_decrypts.
Print Assumptions C92_back.
Print Assumptions C92_mismatch.
Print Assumptions C92_galois_mismatch.
Print Assumptions C92_defined.
Print Assumptions C92_example.
Print Assumptions C92_relinearize_refuted.
