(** Proofs about PubKey.v. *)
From Coq Require Import Arith Znumtheory.
From Verif Require Import Base FinSum PolySpec Ring ZLemmas Montgomery MontBatch Ntt Poly PolyExt Prng Sampling SampleSpec MontgomeryProofs
  MontBatchProofs NttIndex NttMath NttProofs Spec PolyView ArithFacts NttFacts PolyProofs PolyFacts PolyExtProofs
  SymEnc SymSpec SymProofs ThmSample SymProofs2 SymFacts SymSwitch ThmPoly ThmSymEnc Relin RelinProofs PubKey PubKeySpec.
Local Notation zsum := FinSum.zsum.
Local Opaque sample_error sample_polynomial convert_to_ntt poly_mul_scalar poly_add poly_fused_mul_add poly_neg export_int.

Section Ctx.
Variables (p : mparams) (L : nat) (np : nttp).
Hypothesis C : ctx p L np.
Local Notation m := (p_m p).
Local Notation n := (2 ^ L)%nat.
Local Notation X := (ntt_root p np).
Local Notation ev := (ev L X).
Local Notation holds := (holds p).
Let G : good p := proj1 C.
Let NG : ntt_good p L np X := proj2 C.

(** a sampled error vector and its NTT form *)
Lemma error_poly R v s e0 s1 : prng_ok R -> 0 <= v -> 2 * v <= m -> sample_error R p n v s = Ok (e0, s1) ->
  exists e ce, (forall i, (i < n)%nat -> Z.abs (e i) <= 2 * v) /\ convert_to_ntt p np e0 = Ok ce /\ holds n ce (ev e).
Proof.
  intros HR Hv Hvm Ee.
  destruct (sample_error_bounded R p n _ s e0 s1 G HR Hv Hvm Ee) as (_ & Le & Re & Be).
  assert (Be' : forall i, (i < n)%nat -> exists e, - (2 * v) <= e <= 2 * v /\ export_int p (nth i e0 0) = e mod m).
  { intros i Hi. rewrite Forall_forall in Be. apply Be, nth_In. lia. }
  destruct (choose_list _ n Be') as (e & He).
  assert (Se : Forall (stored p) e0) by (eapply Forall_impl; [|exact Re]; intros; apply reduced_stored; assumption).
  destruct (forward_holds p G L np X NG e0 e Le Se) as (ce & Ece & Hce & _).
  { intros i Hi. rewrite <- stored_val; [|exact G|rewrite Forall_forall in Se; apply Se, nth_In; lia].
    rewrite (proj2 (He i Hi)). apply cong_mod. }
  exists e, ce. split; [intros i Hi; destruct (He i Hi); lia|]. split; assumption.
Qed.
End Ctx.

Section Key.
Variables (k q : Z) (L : nat) (t : Z) (key : skey).
Hypothesis K : key_ok k q L t key.
Local Notation p := (sk_p key).
Local Notation np := (sk_np key).
Local Notation n := (2 ^ L)%nat.
Local Notation X := (ntt_root p np).
Local Notation ev := (ev L X).
Local Notation at_ := (at_ p).
Let C : ctx p L np := key_ctx k q L t key K.
Let G : good p := proj1 C.
Let Eq : p_m p = q := key_q k q L t key K.

Lemma pub_create_ok F fuel variance ty seed seed_e pk : stored p (sk_t key) -> sk_pt key = p -> prng_ok (gf_prng F ty) -> 2 * variance <= q ->
  pub_create F fuel key variance ty seed seed_e = Ok pk ->
  pub_ok L t (2 * variance) key pk /\ pk_seed pk = seed /\ pk_type pk = ty /\ pk_t pk = sk_t key /\ 0 < variance /\
  known_type ty = true /\ exists s a s', gf_start F ty seed = Ok s /\
  sample_polynomial (gf_prng F ty) fuel (Z.of_nat n) p s = Ok (a, s') /\ pk_a pk = poly_neg p a.
Proof.
  intros St Ept HF Hv. unfold pub_create. destruct (Z.leb_spec variance 0) as [|Hv0]; [discriminate|].
  destruct (known_type ty) eqn:Ek; [|discriminate]. cbn [negb]. cbv zeta.
  destruct (gf_start F ty seed) as [s| |]; try discriminate. cbn [bind].
  destruct (gf_start F ty seed_e) as [e0| |]; try discriminate. cbn [bind].
  pose proof (ko_key _ _ _ _ _ K) as Hk. rewrite (proj1 Hk).
  destruct (sample_polynomial _ _ _ p s) as [[a s']| |] eqn:Ea; try discriminate. cbn [bind].
  destruct (sample_error _ p n variance e0) as [[er s1]| |] eqn:Ee; try discriminate. cbn [bind].
  destruct (error_poly p L np C _ variance e0 er s1 HF ltac:(lia) ltac:(rewrite Eq; lia) Ee) as (e & ce & He & Ec & Hc). rewrite Ec. cbn [bind].
  destruct (mul_scalar_holds p G n ce _ (sk_t key) t Hc St) as (c1 & E1 & H1 & _).
  { rewrite <- (ko_t _ _ _ _ _ K), Ept. rewrite (stored_val p _ G St). reflexivity. }
  rewrite E1. cbn [bind].
  destruct (sample_polynomial_stored _ p _ _ _ _ _ G Ea) as (La & _ & Ra). rewrite Nat2Z.id in La.
  assert (Ha : ntt_poly p L a) by (split; assumption).
  destruct (poly_fused_mul_add p c1 a (sk_key key)) as [b| |] eqn:E2; try discriminate. cbn [bind]. intros E. injection E as <-.
  destruct (fused_holds p G n c1 a (sk_key key) _ _ _ b H1 (holds_of p L a Ha) (holds_of p L _ Hk) E2) as [H2 _].
  apply (of_holds p L) in H2. destruct H2 as [Hb Vb]. destruct (neg_pw p L np C a Ha) as [Hn Vn].
  cbn [pk_a pk_b pk_seed pk_type pk_t]. split; [|do 5 (split; [solve [reflexivity|assumption]|])].
  2: { exists s, a, s'. split; [reflexivity|]. split; [exact Ea|reflexivity]. }
  assert (Fab : Forall (ntt_poly p L) [b; poly_neg p a]) by (repeat constructor; apply Hb || apply Hn).
  assert (Oab : ct_ok L key (ct_make p [b; poly_neg p a] 1)) by (split; [reflexivity|exact Fab]).
  split; cbn [pk_a pk_b pk_t pk_np pk_p]; try reflexivity; try assumption.
  - rewrite <- (ko_t _ _ _ _ _ K), Ept. reflexivity.
  - exists e. split; [exact He|]. apply (carries_at k q L t key K _ _ Oab). intros j Hj. cbn [ct_make ct_c SymProofs.hv]. rewrite <- Eq.
    rewrite (Vb j Hj), (Vn j Hj). rewrite ev_scale. unfold secret. rewrite <- (coeff_at p L np C _ j Hk Hj). apply cong_eq. ring.
Qed.

Lemma pub_encrypt_ok R be pk pt variance s x s' : pub_ok L t be key pk -> ntt_poly p L pt -> prng_ok R -> 2 * variance <= q ->
  pub_encrypt R pk pt variance s = Ok (x, s') ->
  0 < variance /\ ct_ok L key x /\ length (ct_c x) = 2%nat /\ ct_pow x = 1 /\ ct_lazy x = [] /\
  exists e v e0 e1, (forall i, (i < n)%nat -> Z.abs (e i) <= be) /\ (forall i, (i < n)%nat -> Z.abs (v i) <= 2 * variance) /\
    (forall i, (i < n)%nat -> Z.abs (e0 i) <= 2 * variance) /\ (forall i, (i < n)%nat -> Z.abs (e1 i) <= 2 * variance) /\
    carries L key x (fun i => coeff p np pt i + t * (negacyclic n v e i + e0 i + negacyclic n e1 (signed_secret key) i)).
Proof.
  intros [Ep Enp Et St [_ Fab] (e & He & Cab)] Hpt HR Hv. cbn [ct_make ct_c] in Fab. inversion_clear Fab as [|? ? Hb Fa]. inversion_clear Fa as [|? ? Ha _].
  unfold pub_encrypt. rewrite Ep, Enp. destruct (Z.leb_spec variance 0) as [|Hv0]; [discriminate|]. cbv zeta. rewrite (proj1 Ha).
  assert (Hvm : 2 * variance <= p_m p) by (rewrite Eq; exact Hv).
  destruct (sample_error _ p n variance s) as [[vc s1]| |] eqn:Ev; try discriminate. cbn [bind].
  destruct (error_poly p L np C _ variance s vc s1 HR ltac:(lia) Hvm Ev) as (v & cv & Bv & Ecv & Hcv). rewrite Ecv. cbn [bind].
  destruct (sample_error _ p n variance s1) as [[x0 s2]| |] eqn:E0; try discriminate. cbn [bind].
  destruct (error_poly p L np C _ variance s1 x0 s2 HR ltac:(lia) Hvm E0) as (e0 & ce0 & B0 & Ece0 & Hce0).
  destruct (sample_error _ p n variance s2) as [[x1 s3]| |] eqn:E1; try discriminate. cbn [bind].
  destruct (error_poly p L np C _ variance s2 x1 s3 HR ltac:(lia) Hvm E1) as (e1 & ce1 & B1 & Ece1 & Hce1).
  assert (Vt : cong (p_m p) (MontgomeryProofs.val p (pk_t pk)) t) by (rewrite <- Et, (stored_val p _ G St); reflexivity).
  rewrite Ece0. cbn [bind]. destruct (mul_scalar_holds p G n ce0 _ (pk_t pk) t Hce0 St Vt) as (d0 & D0 & HD0 & _). rewrite D0. cbn [bind].
  destruct (poly_fused_mul_add p d0 (pk_b pk) cv) as [d1| |] eqn:D1; try discriminate. cbn [bind].
  destruct (fused_holds p G n d0 (pk_b pk) cv _ _ _ d1 HD0 (holds_of p L _ Hb) Hcv D1) as [HD1 _].
  destruct (add_holds p G n d1 pt _ _ HD1 (poly_holds p L np C pt Hpt)) as (c0 & D2 & HD2 & _). rewrite D2. cbn [bind].
  rewrite Ece1. cbn [bind]. destruct (mul_scalar_holds p G n ce1 _ (pk_t pk) t Hce1 St Vt) as (d3 & D3 & HD3 & _). rewrite D3. cbn [bind].
  destruct (poly_fused_mul_add p d3 (pk_a pk) cv) as [c1| |] eqn:D4; try discriminate. cbn [bind].
  destruct (fused_holds p G n d3 (pk_a pk) cv _ _ _ c1 HD3 (holds_of p L _ Ha) Hcv D4) as [HD4 _].
  intros E. injection E as <- <-. apply (of_holds p L) in HD2, HD4. destruct HD2 as [Hc0 V0]. destruct HD4 as [Hc1 V1].
  assert (Fx : Forall (ntt_poly p L) [c0; c1]) by (repeat constructor; apply Hc0 || apply Hc1).
  assert (Ox : ct_ok L key (ct_make p [c0; c1] 1)) by (split; [reflexivity|exact Fx]).
  split; [exact Hv0|]. split; [exact Ox|]. do 3 (split; [reflexivity|]). exists e, v, e0, e1. do 4 (split; [assumption|]).
  apply (carries_at k q L t key K _ _ Ox). intros j Hj. cbn [ct_make ct_c SymProofs.hv].
  assert (Oab : ct_ok L key (ct_make p [pk_b pk; pk_a pk] 1)) by (split; [reflexivity|repeat constructor; apply Hb || apply Ha]).
  apply (proj1 (carries_at k q L t key K _ _ Oab)) with (j := j) in Cab; [|exact Hj]. cbn [ct_make ct_c SymProofs.hv] in Cab.
  rewrite <- Eq in *. rewrite ev_scale in Cab. rewrite (V0 j Hj), (V1 j Hj).
  assert (ES : cong (p_m p) (ev (signed_secret key) j) (ev (secret key) j)).
  { apply ev_cong. intros i Hi. unfold signed_secret. apply centered_cong. }
  rewrite ev_add, ev_scale, !ev_add. rewrite !(ev_mul p L np X (proj2 C)) by exact Hj. rewrite ES.
  set (S := ev (secret key) j) in *. set (B := at_ j (pk_b pk)) in *. set (A := at_ j (pk_a pk)) in *.
  assert (Cab2 : cong (p_m p) (B + S * A) (t * ev e j)) by (rewrite <- Cab; apply cong_eq; ring).
  replace (t * ev e0 j + B * ev v j + ev (coeff p np pt) j + S * (t * ev e1 j + A * ev v j + S * 0)) with
    ((B + S * A) * ev v j + t * ev e0 j + ev (coeff p np pt) j + S * (t * ev e1 j)) by ring.
  rewrite Cab2. apply cong_eq. ring.
Qed.

Lemma pub_noise_bound be b e v e0 e1 i : 0 <= be -> 0 <= b -> (forall i, (i < n)%nat -> Z.abs (e i) <= be) -> (forall i, (i < n)%nat -> Z.abs (v i) <= b) ->
  (forall i, (i < n)%nat -> Z.abs (e0 i) <= b) -> (forall i, (i < n)%nat -> Z.abs (e1 i) <= b) -> (i < n)%nat ->
  Z.abs (negacyclic n v e i + e0 i + negacyclic n e1 (signed_secret key) i) <= pub_noise L key be b.
Proof.
  intros Hbe Hb He Hv H0 H1 Hi. unfold pub_noise.
  pose proof (negacyclic_bound n v e b be i Hb Hbe Hv He Hi) as A1. pose proof (negacyclic_l1 n e1 (signed_secret key) b i Hb H1 Hi) as A2.
  specialize (H0 i Hi). rewrite Nat2Z.inj_pow in A1. change (Z.of_nat 2) with 2 in A1. lia.
Qed.
End Key.
