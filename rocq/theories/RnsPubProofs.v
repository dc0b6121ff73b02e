(** RNS public keys: generation and encryption. *)
From Coq Require Import Setoid Ring Znumtheory.
From Verif Require Import Base FinSum PolySpec Ring NegRing SymSpec Montgomery MontBatch MontBatchProofs Prng Sampling SampleSpec ThmSample Relin
  Spec RnsPoly RnsSpec CrtMath RnsSub RnsProofs RnsReduce RnsBasis RnsBasis2 RnsMore RnsCtx RnsCt RnsCtSpec RnsCtProofs RnsEncode RnsKey RnsKeySpec RnsKeyProofs RnsPub RnsPubSpec.
Local Notation zsum := FinSum.zsum.

Lemma pub_error_bound n s e r e' e'' be b bs : 0 <= be -> 0 <= b -> 0 <= bs ->
  bounded n be e -> bounded n b r -> bounded n b e' -> bounded n b e'' -> bounded n bs s -> bounded n (pub_bound n be b bs) (pub_error n s e r e' e'').
Proof.
  intros H1 H2 H3 He Hr He' He'' Hs i Hi. unfold pub_error, pub_bound.
  pose proof (negacyclic_bound n e r be b i H1 H2 He Hr Hi). pose proof (negacyclic_bound n e'' s b bs i H2 H3 He'' Hs Hi).
  pose proof (He' i Hi). lia.
Qed.

Section Pub.
Variables (k : Z) (L : nat) (ms : list pmod).
Hypothesis OK : moduli_ok k L ms.
Hypothesis NE : ms <> [].
Hypothesis K16 : k <> 16.
Local Notation n := (2 ^ L)%nat.
Local Notation Q := (big_q ms).
Local Lemma HnP : (0 < n)%nat.
Proof. apply (Hn L). Qed.
Add Ring NRP : (neg_ring Q n HnP) (setoid (pcong_equiv Q n) (neg_ring_ext Q n)).

Lemma rpk_create_ok F fuel key sk v ty t seed seed_e pk : distinct ms -> key_is ms L key sk -> prng_ok (gf_prng F ty) -> variance_fits v ms ->
  0 <= t < 2 ^ k -> rpk_create F fuel key v ty t seed seed_e = Ok pk ->
  public_key ms L sk t (2 * v) pk /\ 0 < v <= 256 /\ rpk_var pk = v /\ rpk_seed pk = seed /\ rpk_type pk = ty /\
  exists s u s' f, gf_start F ty seed = Ok s /\ rns_sample_uniform (gf_prng F ty) fuel (Z.of_nat L) ms s = Ok (u, s') /\
    rns_is ms L true u f /\ rns_is ms L true (rpk_a pk) (fun i => - f i).
Proof.
  intros DI (K1 & K2) HR HV Ht E. unfold rpk_create in E. destruct (v <=? 0); [discriminate|]. destruct (known_type ty); [|discriminate].
  cbn [negb] in E. cbv zeta in E. rewrite K1, (proj1 K2) in E.
  destruct (gf_start F ty seed) as [s| |] eqn:Es; try discriminate. cbn [bind] in E.
  destruct (gf_start F ty seed_e) as [s_e| |]; try discriminate. cbn [bind] in E.
  destruct (rns_sample_uniform (gf_prng F ty) fuel (Z.of_nat L) ms s) as [[u s1]| |] eqn:Eu; try discriminate. cbn [bind] in E.
  destruct (rns_sample_error (gf_prng F ty) (Z.of_nat L) v ms s_e) as [[b0 s2]| |] eqn:Eb; try discriminate. cbn [bind] in E.
  destruct (uniform_is k L ms OK NE _ _ _ _ _ DI Eu) as (f & _ & Hf).
  destruct (sample_err_is k L ms OK NE _ HR _ _ _ _ Eb HV) as (V & e & Be & He).
  destruct (rns_mul_scalar_is k L ms OK true b0 e t He Ht) as (b1 & E1 & H1). rewrite E1 in E. cbn [bind] in E.
  destruct (rns_fused_is k L ms OK b1 u (rsk_key key) _ f sk K16 H1 Hf K2) as (b2 & E2 & H2). rewrite E2 in E. cbn [bind] in E.
  destruct (rns_neg_is k L ms OK true u f Hf) as (a & E3 & H3). rewrite E3 in E. cbn [bind] in E. injection E as <-.
  cbn [rpk_a rpk_var rpk_seed rpk_type]. split; [|repeat (split; [first [exact V|reflexivity]|]); exists s, u, s1, f; auto].
  split; [reflexivity|]. cbn [rpk_a rpk_b].
  exists (popp f), (padd (pscale t e) (negacyclic n f sk)), e. split; [exact H3|]. split; [exact H2|]. split; [exact Be|]. ring.
Qed.

(** the common part of both encryption functions: t is 1 for BFV *)
Lemma pub_phase sk t be pk p m r r' c0 e0 c1 e1 : public_key ms L sk t be pk -> rns_is ms L true p m ->
  rns_is ms L true r r' -> rns_is ms L true c0 (fun i => t * e0 i) -> rns_is ms L true c1 (fun i => t * e1 i) ->
  exists c0' c0'' c1', rns_fused_mul_add c0 (rpk_b pk) r ms = Ok c0' /\ rns_add c0' p ms = Ok c0'' /\
    rns_fused_mul_add c1 (rpk_a pk) r ms = Ok c1' /\
    exists e, bounded n be e /\ ciphertext ms L sk 2 1 (rct_make [c0''; c1'] ms 1) (fun i => m i + t * pub_error n sk e r' e0 e1 i).
Proof.
  intros (_ & a & b & e & Ha & Hb & Be & Hz) Hp Hr H0 H1.
  destruct (rns_fused_is k L ms OK c0 (rpk_b pk) r _ b r' K16 H0 Hb Hr) as (d0 & E0 & D0).
  destruct (rns_add_is k L ms OK true d0 p _ m D0 Hp) as (d1 & E1 & D1).
  destruct (rns_fused_is k L ms OK c1 (rpk_a pk) r _ a r' K16 H1 Ha Hr) as (d2 & E2 & D2).
  exists d0, d1, d2. split; [exact E0|]. split; [exact E1|]. split; [exact E2|]. exists e. split; [exact Be|].
  split; [reflexivity|]. split; [reflexivity|]. split; [reflexivity|].
  exists [padd (padd (pscale t e0) (negacyclic n b r')) m; padd (pscale t e1) (negacyclic n a r')].
  split; [constructor; [exact D1|constructor; [exact D2|constructor]]|].
  change (Z.to_nat 1) with 1%nat. rewrite (phase_cons Q n HnP), (phase_cons Q n HnP), (phase_nil Q n), (subst_one Q n HnP sk).
  change (fun i => m i + t * pub_error n sk e r' e0 e1 i)
    with (padd m (pscale t (padd (padd (negacyclic n e r') e0) (negacyclic n e1 sk)))).
  assert (Hb' : pcong Q n b (psub (pscale t e) (negacyclic n a sk))).
  { rewrite <- Hz. ring. }
  rewrite Hb'. rewrite !(pscale_const Q n HnP). ring.
Qed.
End Pub.
