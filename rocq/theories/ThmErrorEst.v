(** C74: the error reported by a ciphertext. *)
From Coq Require Import Reals Lra Znumtheory.
From Verif Require Import Base FinSum PolySpec Ring ZLemmas Montgomery MontBatch Ntt Poly PolyExt Prng Sampling SampleSpec MontgomeryProofs
  Spec PolyView ArithFacts NttFacts PolyFacts PrimeCheck NegRing PolyProofs SymEnc SymSpec SymProofs SymProofs2 SymFacts SymSwitch
  Relin RelinSpec RelinProofs PubKey PubKeySpec PubKeyProofs ExpandProofs ThmArith ThmNtt ThmPoly ThmSymEnc ThmRelin ThmPubKey ErrorEst.
Local Notation zsum := FinSum.zsum.

(** ** Real arithmetic *)

Section Reals.
Local Open Scope R_scope.

Lemma sqrt_mono_mul a b : 0 <= a -> 0 <= b -> a <= b -> sqrt a * sqrt a <= sqrt b * sqrt a.
Proof. intros Ha Hb H. apply Rmult_le_compat_r; [apply sqrt_pos|]. apply sqrt_le_1; assumption. Qed.

Lemma export_t_small t n v l : (0 <= t < 2 ^ 64)%Z -> export_t (mk_err_params t n v l) = IZR t.
Proof. intros H. unfold export_t, mk_err_params. cbn [ep_t]. rewrite Z.mod_small by exact H. reflexivity. Qed.

(** the estimate for a fresh ciphertext is at least t - 1 + 2 t v *)
Lemma fresh_bound t n v l : (1 <= t < 2 ^ 64)%Z -> (1 <= n)%nat -> (0 <= v <= 9 * Z.of_nat n)%Z ->
  IZR (t - 1 + t * (2 * v)) <= b_encryption (mk_err_params t n v l).
Proof.
  intros Ht Hn Hv. unfold b_encryption. rewrite export_t_small by lia. cbn [mk_err_params ep_dim ep_sigma].
  rewrite plus_IZR, minus_IZR, mult_IZR, mult_IZR.
  assert (T : 1 <= IZR t) by (apply IZR_le; lia). assert (N : 1 <= INR n) by (rewrite INR_IZR_INZ; apply IZR_le; lia).
  assert (V0 : 0 <= IZR v) by (apply IZR_le; lia).
  assert (V : IZR v <= 9 * INR n) by (rewrite INR_IZR_INZ, <- mult_IZR; apply IZR_le; lia).
  pose proof (sqrt_sqrt (IZR v) V0) as SV. pose proof (sqrt_sqrt (INR n) ltac:(lra)) as SN.
  pose proof (sqrt_pos (IZR v)) as P1. pose proof (sqrt_pos (INR n)) as P2.
  assert (S9 : sqrt (IZR v) <= 3 * sqrt (INR n)).
  { replace 3 with (sqrt 9) by (replace 9 with (3 * 3) by ring; apply sqrt_square; lra). rewrite <- sqrt_mult by lra. apply sqrt_le_1; lra. }
  assert (S1 : 1 <= sqrt (INR n)) by (rewrite <- sqrt_1; apply sqrt_le_1; lra).
  assert (S3 : 1 <= sqrt 3) by (rewrite <- sqrt_1; apply sqrt_le_1; lra).
  set (a := sqrt (IZR v)) in *. set (b := sqrt (INR n)) in *. set (c := sqrt 3) in *. set (T' := IZR t) in *.
  rewrite <- SV. assert (A1 : 1 <= b * c) by nra. assert (A2 : 2 * (a * a) <= 6 * (b * a)) by nra.
  assert (A3 : 1 + 2 * (a * a) <= b * (c + 6 * a)) by nra.
  replace (T' * b * (c + 6 * a)) with (T' * (b * (c + 6 * a))) by ring. nra.
Qed.

(** the estimate for relinearization is at least the worst case *)
Lemma relin_bound t n v l num B : (0 <= t < 2 ^ 64)%Z -> (0 <= v <= 5)%Z -> (0 <= num)%Z -> (1 <= B <= 30)%Z -> (0 <= l)%Z ->
  exists b, b_relinearize (mk_err_params t n v l) num B = Ok b /\
    IZR (t * (num * ((l + (B - 1)) / B * (Z.of_nat n * ((2 ^ B - 1) * (2 * v)))))) <= b.
Proof.
  intros Ht Hv Hn HB Hl. unfold b_relinearize, shl1. destruct (Z.leb_spec 32 B); [lia|]. destruct (Z.eqb_spec B 31); [lia|]. cbn [bind].
  eexists. split; [reflexivity|]. rewrite export_t_small by lia. cbn [mk_err_params ep_dim ep_sigma ep_logm].
  replace (B + l - 1)%Z with (l + (B - 1))%Z by lia. set (d := ((l + (B - 1)) / B)%Z).
  assert (D : (0 <= d)%Z) by (apply Z.div_pos; lia). assert (P2 : (0 < 2 ^ B)%Z) by (apply Z.pow_pos_nonneg; lia).
  rewrite !mult_IZR, minus_IZR, <- INR_IZR_INZ.
  apply IZR_le in D. apply IZR_le in Hn. assert (T0 : 0 <= IZR t) by (apply IZR_le; lia). assert (B0 : 1 <= IZR (2 ^ B)) by (apply IZR_le; lia).
  assert (V0 : 0 <= IZR v) by (apply IZR_le; lia). assert (V5 : IZR v <= 5) by (apply IZR_le; lia). pose proof (pos_INR n) as N0.
  pose proof (sqrt_sqrt (IZR v) V0) as SV. pose proof (sqrt_pos (IZR v)) as P1.
  pose proof (sqrt_sqrt 3 ltac:(lra)) as S3. assert (P3 : 0 < sqrt 3) by (apply sqrt_lt_R0; lra).
  set (a := sqrt (IZR v)) in *. set (c := sqrt 3) in *.
  assert (AC : a * c <= 4).
  { apply Rsqr_incr_0_var; [|lra]. unfold Rsqr. replace (a * c * (a * c)) with (a * a * (c * c)) by ring. rewrite SV, S3. lra. }
  assert (KEY : (IZR (2 ^ B) - 1) * (2 * IZR v) <= 8 / c * a * IZR (2 ^ B)).
  { assert (E : 2 * IZR v <= 8 / c * a).
    { rewrite <- SV. replace (8 / c * a) with (2 * a * (4 / c)) by (field; lra). replace (2 * (a * a)) with (2 * a * a) by ring.
      apply Rmult_le_compat_l; [lra|]. apply (Rmult_le_reg_r c); [exact P3|]. replace (4 / c * c) with 4 by (field; lra). exact AC. }
    assert (0 <= 8 / c * a) by lra. nra. }
  set (X := (IZR (2 ^ B) - 1) * (2 * IZR v)) in *. set (Y := 8 / c * a * IZR (2 ^ B)) in *.
  replace (8 / c * IZR t * IZR d * a * INR n * IZR (2 ^ B) * IZR num) with (IZR t * (IZR num * (IZR d * (INR n * Y)))) by (unfold Y; ring).
  apply Rmult_le_compat_l; [exact T0|]. apply Rmult_le_compat_l; [exact Hn|]. apply Rmult_le_compat_l; [exact D|]. apply Rmult_le_compat_l; [exact N0|]. exact KEY.
Qed.
End Reals.

(** ** Histories *)

(** what a user may do: encrypt, add, subtract, multiply by a scalar, rotate with
    a Galois key, absorb a plaintext *)
Inductive history (St : Type) :=
| HEnc (fuel : nat) (pt : poly) (s : St)
| HAdd (a b : history St)
| HSub (a b : history St)
| HScale (a : history St) (c : Z)
| HRotate (a : history St) (gk : relin)
| HAbsorb (a : history St) (pt : poly).
Arguments HEnc {St}. Arguments HAdd {St}. Arguments HSub {St}. Arguments HScale {St}. Arguments HRotate {St}. Arguments HAbsorb {St}.

(** running it *)
Fixpoint run (G : prng) (key : skey) (e : err_params) (h : history (pr_st G)) : result tct :=
  match h with
  | HEnc fuel pt s => t_encrypt G fuel key e pt s
  | HAdd a b => do! x <- run G key e a; do! y <- run G key e b; t_add x y
  | HSub a b => do! x <- run G key e a; do! y <- run G key e b; t_sub x y
  | HScale a c => do! x <- run G key e a; t_scale x c
  | HRotate a gk => do! x <- run G key e a; t_rotate e (sk_np key) gk x
  | HAbsorb a pt => do! x <- run G key e a; t_absorb e x pt
  end.

(** the plaintext it stands for, as integers (to be read modulo t) *)
Fixpoint meaning {St} (L : nat) (key : skey) (h : history St) : nat -> Z :=
  match h with
  | HEnc _ pt _ => coeff (sk_p key) (sk_np key) pt
  | HAdd a b => fun i => meaning L key a i + meaning L key b i
  | HSub a b => fun i => meaning L key a i - meaning L key b i
  | HScale a c => fun i => export_int (sk_p key) c * meaning L key a i
  | HRotate a gk => substituted (2 ^ L) (Z.to_nat (rk_pow gk)) (meaning L key a)
  | HAbsorb a pt => negacyclic (2 ^ L) (meaning L key a) (coeff (sk_p key) (sk_np key) pt)
  end.

(** histories without absorption of polynomials, over valid arguments; rotations
    only for variance at most 5 and decomposition bases below 2^31 *)
Fixpoint linear {St} (L : nat) (t : Z) (key : skey) (h : history St) : Prop :=
  match h with
  | HEnc _ pt _ => ntt_poly (sk_p key) L pt /\ forall i, (i < 2 ^ L)%nat -> 0 <= coeff (sk_p key) (sk_np key) pt i < t
  | HAdd a b | HSub a b => linear L t key a /\ linear L t key b
  | HScale a c => linear L t key a /\ stored (sk_p key) c
  | HRotate a gk => linear L t key a /\ relin_ok L t (sk_var key) key gk /\ rk_num gk = 2 /\ sk_var key <= 5 /\ rk_logT gk <= 30
  | HAbsorb a pt => False
  end.

(** the invariant *)
Definition est (L : nat) (t : Z) (key : skey) (x : tct) (m : nat -> Z) : Prop :=
  ct_ok L key (fst x) /\ length (ct_c (fst x)) = 2%nat /\ ct_pow (fst x) = 1 /\
  exists f B, carries L key (fst x) f /\ (IZR B <= snd x)%R /\ forall i, (i < 2 ^ L)%nat -> Z.abs (f i) <= B /\ cong t (f i) (m i).

Lemma ext_cong_sub n t pw f g l : (forall i, (i < n)%nat -> cong t (f i) (g i)) -> cong t (substituted n pw f l) (substituted n pw g l).
Proof.
  intros H. unfold substituted. apply zsum_cong. intros i Hi. destruct (_ =? _)%nat; [apply H; exact Hi|].
  destruct (_ =? _)%nat; [|apply cong_eq; reflexivity]. destruct (H i Hi) as (u & Eu). exists (- u). lia.
Qed.

Section Track.
Variables (k q : Z) (L : nat) (t : Z) (key : skey) (G : prng).
Hypothesis EK : enc_key k q L t key.
Hypothesis HG : prng_ok G.
Hypothesis Ht : 1 <= t < 2 ^ 64.
Hypothesis Hv : 0 <= sk_var key <= 9 * 2 ^ Z.of_nat L.
Hypothesis Hvq : 2 * sk_var key <= q.
Let e := mk_err_params t (2 ^ L) (sk_var key) (p_logm (sk_p key)).
Let K := ek_key _ _ _ _ _ EK.

Lemma est_encrypt fuel pt s x : ntt_poly (sk_p key) L pt -> (forall i, (i < 2 ^ L)%nat -> 0 <= coeff (sk_p key) (sk_np key) pt i < t) ->
  t_encrypt G fuel key e pt s = Ok x -> est L t key x (coeff (sk_p key) (sk_np key) pt).
Proof.
  intros Hp Hm. unfold t_encrypt. destruct (encrypt G fuel key pt s) as [[y s']| |] eqn:E; try discriminate. cbn [bind]. intros X. injection X as <-.
  destruct (C26_encrypt k q L t key G fuel pt s y s' EK Hp HG ltac:(lia) Hvq E) as (O & Ln & Pw & _ & er & Be & Ca).
  split; [exact O|]. split; [exact Ln|]. split; [exact Pw|].
  exists (fun i => coeff (sk_p key) (sk_np key) pt i + t * er i), (t - 1 + t * (2 * sk_var key)). split; [exact Ca|]. split.
  - cbn [snd]. apply fresh_bound; [lia|pose proof (n_pos L); lia|]. rewrite Nat2Z.inj_pow. exact Hv.
  - intros i Hi. specialize (Hm i Hi). specialize (Be i Hi). split; [|exists (er i); ring]. rewrite Z.abs_le in Be. apply Z.abs_le. nia.
Qed.

Lemma est_add x y z m n : est L t key x m -> est L t key y n -> t_add x y = Ok z -> est L t key z (fun i => m i + n i).
Proof.
  intros (Ox & Lx & Px & f & B & Cf & Bf & Hf) (Oy & Ly & Py & g & D & Cg & Bg & Hg). unfold t_add.
  destruct (proj1 (C27_add_sub k q L t key (fst x) (fst y) f g K Ox Oy Cf Cg ltac:(congruence))) as (w & Ew & Ow & Pw & Lw & Cw).
  rewrite Ew. cbn [bind]. intros X. injection X as <-. split; [exact Ow|]. split; [cbn [fst]; rewrite Lw, Lx, Ly; reflexivity|]. split; [cbn [fst]; congruence|].
  exists (fun i => f i + g i), (B + D). split; [exact Cw|]. split; [cbn [snd]; rewrite plus_IZR; lra|].
  intros i Hi. destruct (Hf i Hi) as (A1 & u1 & E1). destruct (Hg i Hi) as (A2 & u2 & E2). split; [lia|]. exists (u1 + u2). lia.
Qed.

Lemma est_sub x y z m n : est L t key x m -> est L t key y n -> t_sub x y = Ok z -> est L t key z (fun i => m i - n i).
Proof.
  intros (Ox & Lx & Px & f & B & Cf & Bf & Hf) (Oy & Ly & Py & g & D & Cg & Bg & Hg). unfold t_sub.
  destruct (proj2 (C27_add_sub k q L t key (fst x) (fst y) f g K Ox Oy Cf Cg ltac:(congruence))) as (w & Ew & Ow & Pw & Lw & Cw).
  rewrite Ew. cbn [bind]. intros X. injection X as <-. split; [exact Ow|]. split; [cbn [fst]; rewrite Lw, Lx, Ly; reflexivity|]. split; [cbn [fst]; congruence|].
  exists (fun i => f i - g i), (B + D). split; [exact Cw|]. split; [cbn [snd]; rewrite plus_IZR; lra|].
  intros i Hi. destruct (Hf i Hi) as (A1 & u1 & E1). destruct (Hg i Hi) as (A2 & u2 & E2). split; [lia|]. exists (u1 - u2). lia.
Qed.

Lemma est_scale x z m c : est L t key x m -> stored (sk_p key) c -> t_scale x c = Ok z -> est L t key z (fun i => export_int (sk_p key) c * m i).
Proof.
  intros (Ox & Lx & Px & f & B & Cf & Bf & Hf) Hc. unfold t_scale.
  destruct (C28_absorb_scalar k q L t key (fst x) f c (export_int (sk_p key) c) K Ox Cf Hc) as (w & Ew & Ow & Pw & Lw & Cw); [exists 0; ring|].
  rewrite Ew. cbn [bind]. intros X. injection X as <-. rewrite (proj1 Ox).
  assert (C0 : 0 <= export_int (sk_p key) c).
  { pose proof (key_ctx _ _ _ _ _ K) as [Gd _]. rewrite (stored_val _ c Gd Hc). apply Z.mod_pos_bound. pose proof (m_gt1 _ Gd). lia. }
  split; [exact Ow|]. split; [cbn [fst]; congruence|]. split; [cbn [fst]; congruence|].
  exists (fun i => export_int (sk_p key) c * f i), (B * export_int (sk_p key) c). split; [exact Cw|]. split.
  - cbn [snd]. rewrite mult_IZR. apply Rmult_le_compat_r; [apply IZR_le; exact C0|exact Bf].
  - intros i Hi. destruct (Hf i Hi) as (A & u & E). split; [rewrite Z.abs_mul, (Z.abs_eq (export_int _ _)) by exact C0; nia|].
    exists (export_int (sk_p key) c * u). rewrite <- Z.mul_sub_distr_l, E. ring.
Qed.

Lemma est_rotate x z m gk : est L t key x m -> relin_ok L t (sk_var key) key gk -> rk_num gk = 2 -> sk_var key <= 5 -> rk_logT gk <= 30 ->
  t_rotate e (sk_np key) gk x = Ok z -> est L t key z (substituted (2 ^ L) (Z.to_nat (rk_pow gk)) m).
Proof.
  intros (Ox & Lx & Px & f & B & Cf & Bf & Hf) RO Hn V5 B30. unfold t_rotate.
  destruct (ro_pow _ _ _ _ _ RO) as [Rp Ro]. pose proof (key_L _ _ _ _ _ K) as HL.
  assert (P31 : 2 * 2 ^ Z.of_nat L < 2 ^ 31).
  { rewrite <- Z.pow_succ_r by lia. apply Z.pow_lt_mono_r; lia. }
  assert (C1 : carries_under L key (secret_at L key 1) (fst x) f) by (apply (secret_at_one k q L t key _ f K Ox); exact Cf).
  destruct (C32_substitute k q L t key 1 (rk_pow gk) (fst x) f K Ox) as (w & Ew & Ow & Lw & Pw & _ & Cw); try assumption; try lia.
  { intros X. rewrite X in Lx. discriminate Lx. }
  rewrite Ew. cbn [bind]. assert (Pw' : ct_pow w = rk_pow gk) by (rewrite Pw, Z.mul_1_l; apply Z.mod_small; lia).
  destruct (C32_apply k q L t (sk_var key) key gk w _ K ltac:(lia) RO Hn Ow ltac:(congruence) Pw' Cw) as [_ HA].
  destruct (galois_apply gk w) as [y| |] eqn:Ey; try discriminate. cbn [bind]. destruct (HA y eq_refl) as (Oy & Ly & Py & _ & E & BE & Cy).
  destruct (ro_logT _ _ _ _ _ RO) as [B1 B2].
  destruct (relin_bound t (2 ^ L) (sk_var key) (p_logm (sk_p key)) (Z.of_nat (length (rk_parts gk))) (rk_logT gk)) as (b & Eb & Hb); try lia.
  fold e in Eb. rewrite Eb. cbn [bind]. intros X. injection X as <-.
  split; [exact Oy|]. split; [exact Ly|]. split; [exact Py|].
  assert (NB : t * relin_noise L (sk_var key) gk = t * (Z.of_nat (length (rk_parts gk)) * ((p_logm (sk_p key) + (rk_logT gk - 1)) / rk_logT gk * (Z.of_nat (2 ^ L) * ((2 ^ rk_logT gk - 1) * (2 * sk_var key)))))).
  { unfold relin_noise, gadget_size. rewrite (ro_p _ _ _ _ _ RO), Nat2Z.inj_pow. reflexivity. }
  exists (fun l => substituted (2 ^ L) (Z.to_nat (rk_pow gk)) f l + t * E l), (B + t * relin_noise L (sk_var key) gk).
  split; [exact Cy|]. split; [cbn [snd]; rewrite plus_IZR, NB; lra|].
  assert (B0 : 0 <= B). { pose proof (n_pos L). destruct (Hf 0%nat ltac:(lia)) as [A _]. lia. }
  intros i Hi. split.
  - assert (S1 : Z.abs (substituted (2 ^ L) (Z.to_nat (rk_pow gk)) f i) <= B).
    { apply substituted_bound; [apply odd_nat; [lia|exact Ro]|exists L; reflexivity|exact Hi|exact B0|]. intros j Hj. apply (Hf j Hj). }
    specialize (BE i Hi). assert (Z.abs (t * E i) <= t * relin_noise L (sk_var key) gk) by (rewrite Z.abs_mul, (Z.abs_eq t) by lia; nia). lia.
  - assert (X : cong t (substituted (2 ^ L) (Z.to_nat (rk_pow gk)) f i) (substituted (2 ^ L) (Z.to_nat (rk_pow gk)) m i)) by (apply ext_cong_sub; intros j Hj; apply (Hf j Hj)).
    destruct X as (u & Eu). exists (u + E i). lia.
Qed.

Lemma est_run h : forall x, linear L t key h -> run G key e h = Ok x -> est L t key x (meaning L key h).
Proof.
  induction h as [fuel pt s|a IHa b IHb|a IHa b IHb|a IHa c|a IHa gk|a IHa pt]; intros x Hl; cbn [linear run meaning] in *.
  - intros E. exact (est_encrypt fuel pt s x (proj1 Hl) (proj2 Hl) E).
  - destruct (run G key e a) as [u| |]; try discriminate. destruct (run G key e b) as [w| |]; try discriminate. cbn [bind]. intros E.
    exact (est_add u w x _ _ (IHa u (proj1 Hl) eq_refl) (IHb w (proj2 Hl) eq_refl) E).
  - destruct (run G key e a) as [u| |]; try discriminate. destruct (run G key e b) as [w| |]; try discriminate. cbn [bind]. intros E.
    exact (est_sub u w x _ _ (IHa u (proj1 Hl) eq_refl) (IHb w (proj2 Hl) eq_refl) E).
  - destruct (run G key e a) as [u| |]; try discriminate. cbn [bind]. intros E. exact (est_scale u x _ c (IHa u (proj1 Hl) eq_refl) (proj2 Hl) E).
  - destruct (run G key e a) as [u| |]; try discriminate. cbn [bind]. intros E. destruct Hl as (Hl & R & N & V & B).
    exact (est_rotate u x _ gk (IHa u Hl eq_refl) R N V B E).
  - destruct Hl.
Qed.
End Track.

(** As long as the reported error stays below q / 2, decryption returns what the
    history means, for every history of encryptions, additions, subtractions,
    scalar multiplications and rotations. *)
Theorem C74_reported_error :
  forall k q L t key (G : prng) h x, enc_key k q L t key -> prng_ok G -> 1 <= t < 2 ^ 64 -> t <= q ->
  0 <= sk_var key <= 9 * 2 ^ Z.of_nat L -> 2 * sk_var key <= q -> linear L t key h ->
  run G key (mk_err_params t (2 ^ L) (sk_var key) (p_logm (sk_p key))) h = Ok x ->
  (2 * snd x < IZR q)%R ->
  decrypt key (fst x) = Ok (tabulate (2 ^ L) (fun i => meaning L key h i mod t)).
Proof.
  intros k q L t key G h x EK HG Ht Htq Hv Hvq Hl E Hb.
  destruct (est_run k q L t key G EK HG Ht Hv Hvq h x Hl E) as (O & _ & _ & f & B & Ca & Bx & Hf).
  assert (QB : 2 * B < q) by (apply lt_IZR; rewrite mult_IZR; lra).
  rewrite (proj2 (C26_decrypt k q L t key (fst x) f (ek_key _ _ _ _ _ EK) ltac:(lia) O Ca)).
  - f_equal. unfold tabulate. apply map_ext_in. intros i Hi. apply in_seq in Hi. apply cong_to_mod; [lia|]. apply Hf. lia.
  - intros i Hi. destruct (Hf i Hi) as [A _]. unfold fits. lia.
Qed.

(** ** Public-key encryption and modulus switching *)

(** With all variances equal to v <= 9, the estimate for public-key encryption
    bounds the noisy plaintext of every such ciphertext. *)
Theorem C74_public_key :
  forall k q L t key (G : prng) pk pt v s x, key_ok k q L t key -> pub_ok L t (2 * v) key pk -> ntt_poly (sk_p key) L pt ->
  (forall i, (i < 2 ^ L)%nat -> 0 <= coeff (sk_p key) (sk_np key) pt i < t) ->
  (forall i, (i < 2 ^ L)%nat -> Z.abs (signed_secret key i) <= 2 * v) ->
  prng_ok G -> 1 <= v <= 9 -> 2 * v <= q -> 1 <= t < 2 ^ 64 ->
  t_pub_encrypt G pk (mk_err_params t (2 ^ L) v (p_logm (sk_p key))) pt v s = Ok x ->
  ct_ok L key (fst x) /\
  exists f, carries L key (fst x) f /\ forall i, (i < 2 ^ L)%nat ->
    cong t (f i) (coeff (sk_p key) (sk_np key) pt i) /\ (IZR (Z.abs (f i)) <= snd x)%R.
Proof.
  intros k q L t key G pk pt v s x K PO Hpt Hm Hs HG Hv Hvq Ht. unfold t_pub_encrypt.
  destruct (pub_encrypt G pk pt v s) as [[y s']| |] eqn:E; try discriminate. cbn [bind]. intros X. injection X as <-. cbn [fst snd].
  destruct (C36_encrypt k q L t key G (2 * v) pk pt v s y s' K PO Hpt HG Hvq E) as (Hx & _ & _ & e & w & e0 & e1 & He & Bv & B0 & B1 & Hc).
  split; [exact Hx|]. eexists. split; [exact Hc|]. intros i Hi. cbv beta.
  pose proof (pub_noise_bound L key (2 * v) (2 * v) e w e0 e1 i ltac:(lia) ltac:(lia) He Bv B0 B1 Hi) as HN.
  set (ns := negacyclic (2 ^ L) w e i + e0 i + negacyclic (2 ^ L) e1 (signed_secret key) i) in *. split; [exists ns; ring|].
  set (n := Z.of_nat (2 ^ L)). assert (N1 : 1 <= n) by (unfold n; pose proof (n_pos L); lia).
  assert (L1 : l1 (2 ^ L) (signed_secret key) <= n * (2 * v)).
  { unfold l1, n. rewrite <- (zsum_const (2 ^ L) (2 * v)). apply zsum_le. exact Hs. }
  assert (PN : pub_noise L key (2 * v) (2 * v) <= 8 * n * (v * v) + 2 * v).
  { unfold pub_noise. replace (2 ^ Z.of_nat L) with n by (unfold n; rewrite Nat2Z.inj_pow; reflexivity). nia. }
  assert (F : Z.abs (coeff (sk_p key) (sk_np key) pt i + t * ns) <= t - 1 + t * (72 * n * v + 2 * v)).
  { specialize (Hm i Hi). assert (8 * n * (v * v) <= 72 * n * v) by nia. assert (HN' : Z.abs ns <= 72 * n * v + 2 * v) by lia. rewrite Z.abs_le in HN'. apply Z.abs_le. nia. }
  apply IZR_le in F. eapply Rle_trans; [exact F|]. unfold b_publickey. rewrite export_t_small by lia. cbn [mk_err_params ep_dim].
  pose proof (fresh_bound t (2 ^ L) v 0 Ht ltac:(pose proof (n_pos L); lia) ltac:(fold n; lia)) as FB. unfold b_encryption in FB.
  rewrite export_t_small in FB by lia. cbn [mk_err_params ep_dim ep_sigma] in FB.
  rewrite INR_IZR_INZ in FB |- *. fold n in FB |- *.
  replace (t - 1 + t * (72 * n * v + 2 * v)) with (t - 1 + t * (2 * v) + t * (72 * n * v)) by ring.
  rewrite plus_IZR, (mult_IZR t), mult_IZR, mult_IZR. lra.
Qed.

Lemma negacyclic_one_l n f j : (0 < n)%nat -> (j < n)%nat -> negacyclic n (pconst 1) f j = f j.
Proof. intros Hn Hj. destruct (neg_one 0 n Hn f j Hj) as (u & E). lia. Qed.

(** Switching to a smaller modulus, with a secret of variance at most 2 and two
    components: the new reported error still bounds the noisy plaintext. *)
Theorem C74_switch_modulus :
  forall k P Q L t key key' x f y v, key_ok k P L t key -> key_ok k Q L t key' -> Q <= P -> 3 <= t <= Q -> t < 2 ^ 64 ->
  P mod t = Q mod t -> (forall i, (i < 2 ^ L)%nat -> cong Q (secret key' i) (signed_secret key i)) ->
  0 <= v <= 2 -> (forall i, (i < 2 ^ L)%nat -> Z.abs (signed_secret key i) <= 2 * v) ->
  ct_ok L key (fst x) -> length (ct_c (fst x)) = 2%nat -> carries L key (fst x) f ->
  (forall i, (i < 2 ^ L)%nat -> IZR (Z.abs (f i)) <= snd x)%R ->
  t_switch (sk_np key) (sk_p key') (sk_np key') (mk_err_params t (2 ^ L) v (p_logm (sk_p key'))) t x = Ok y ->
  ct_ok L key' (fst y) /\
  exists f', carries L key' (fst y) f' /\ forall i, (i < 2 ^ L)%nat -> cong t (f' i) (f i) /\ (IZR (Z.abs (f' i)) <= snd y)%R.
Proof.
  intros k P Q L t key key' x f y v K K' LE Ht Ht64 HM HS Hv Hs Ox Lx Cf Bf. unfold t_switch.
  destruct (C30_switch_modulus k P Q L t t t key key' (fst x) f K K' LE ltac:(lia) HM HS Ox Cf) as (z & Ez & Oz & _ & _ & f' & Cz & Hz).
  rewrite Ez. cbn [bind]. intros X. injection X as <-. cbn [fst snd]. split; [exact Oz|]. exists f'. split; [exact Cz|].
  intros i Hi. destruct (Hz i Hi) as [C1 C2]. split; [exact C1|].
  pose proof (q_gt1 _ _ _ _ _ K) as P1. pose proof (q_gt1 _ _ _ _ _ K') as Q1.
  set (n := Z.of_nat (2 ^ L)). assert (N1 : 1 <= n) by (unfold n; pose proof (n_pos L); lia).
  rewrite Lx in C2. change (zsum 2 (fun j => l1 (2 ^ L) (npow (2 ^ L) (signed_secret key) j)))
    with (0 + l1 (2 ^ L) (npow (2 ^ L) (signed_secret key) 0) + l1 (2 ^ L) (npow (2 ^ L) (signed_secret key) 1)) in C2.
  assert (S0 : l1 (2 ^ L) (npow (2 ^ L) (signed_secret key) 0) = 1).
  { unfold l1. cbn [npow]. rewrite (zsum_single (2 ^ L) 0 (fun i => Z.abs (pconst 1 i))); [reflexivity|pose proof (n_pos L); lia|].
    intros j Hj Hj0. unfold pconst. destruct (Nat.eqb_spec j 0); [contradiction|reflexivity]. }
  assert (S1 : l1 (2 ^ L) (npow (2 ^ L) (signed_secret key) 1) <= n * 4).
  { unfold l1, n. rewrite <- (zsum_const (2 ^ L) 4). apply zsum_le. intros j Hj. cbn [npow]. rewrite negacyclic_one_l by lia. specialize (Hs j Hj). lia. }
  rewrite S0 in C2.
  assert (D : 2 * P * Z.abs (f' i) <= 2 * Q * Z.abs (f i) + P * (2 * t) * (1 + n * 4)).
  { assert (A : 2 * Z.abs (P * f' i - Q * f i) <= P * (2 * t) * (1 + n * 4)).
    { eapply Z.le_trans; [exact C2|]. set (l := l1 (2 ^ L) (npow (2 ^ L) (signed_secret key) 1)) in *.
      assert (l0 : 0 <= l). { unfold l, l1. apply zsum_nonneg. intros; apply Z.abs_nonneg. }
      apply Z.mul_le_mono_nonneg; nia. }
    assert (B : Z.abs (P * f' i) <= Z.abs (P * f' i - Q * f i) + Z.abs (Q * f i)) by lia.
    rewrite !Z.abs_mul, (Z.abs_eq P), (Z.abs_eq Q) in B by lia. nia. }
  rewrite (proj1 Ox), (key_q _ _ _ _ _ K), (key_q _ _ _ _ _ K').
  specialize (Bf i Hi). apply IZR_le in D. rewrite plus_IZR, !mult_IZR, plus_IZR, mult_IZR in D.
  unfold b_scale. rewrite export_t_small by lia. cbn [mk_err_params ep_dim]. rewrite INR_IZR_INZ. fold n.
  apply IZR_lt in P1. apply IZR_lt in Q1. apply IZR_le in N1. assert (T3 : (3 <= IZR t)%R) by (apply IZR_le; lia).
  assert (A1 : (1 <= sqrt (3 * IZR n))%R) by (rewrite <- sqrt_1; apply sqrt_le_1; lra).
  assert (A2 : (1 / 2 <= sqrt (1 / 3))%R).
  { replace (1 / 2)%R with (sqrt ((1 / 2) * (1 / 2))) by (apply sqrt_square; lra). apply sqrt_le_1; lra. }
  set (a1 := sqrt (3 * IZR n)) in *. set (a2 := sqrt (1 / 3)) in *. set (F := IZR (Z.abs (f i))) in *. set (F' := IZR (Z.abs (f' i))) in *.
  set (p := IZR P) in *. set (qq := IZR Q) in *. set (nn := IZR n) in *. set (tt := IZR t) in *.
  apply (Rmult_le_reg_l (2 * p)); [lra|]. eapply Rle_trans; [exact D|].
  replace (2 * p * (qq / p * snd x + tt * (a1 + 8 * nn * a2)))%R with (2 * qq * snd x + p * (2 * tt) * (a1 + 8 * nn * a2))%R by (field; lra).
  assert (B1 : (2 * qq * F <= 2 * qq * snd x)%R) by (apply Rmult_le_compat_l; lra).
  assert (B2 : (1 + nn * 4 <= a1 + 8 * nn * a2)%R) by nra.
  assert (B3 : (p * (2 * tt) * (1 + nn * 4) <= p * (2 * tt) * (a1 + 8 * nn * a2))%R) by (apply Rmult_le_compat_l; [nra|exact B2]).
  lra.
Qed.

(** ** Where the estimates are not bounds *)

(** a generator whose 64-bit words alternate between all ones and all zeros, so
    that every sampled error is as large as possible *)
Definition extreme : prng :=
  {| pr_st := Z;
     pr_rand8 := fun s => Ok ((s * 37 + 11) mod 2 ^ 8, s + 1);
     pr_rand64 := fun s => Ok (if Z.even s then 2 ^ 64 - 1 else 0, s + 1) |}.
Lemma extreme_ok : prng_ok extreme.
Proof. split; intros s; cbn [extreme pr_rand8 pr_rand64]; [apply Z.mod_pos_bound; reflexivity|]. destruct (Z.even s); split; lia || reflexivity. Qed.

(** a key over q (degree 32, plaintext modulus 3, variance 256) sampled with it, and
    the plaintext 2 + 2X + ... + 2X^31 *)
Lemma concrete q p np key s' pt : 1 < q -> prime q -> 2 * (3 * (2 * 256)) < q -> params_create 32 q = Ok p -> init_ntt p 5 = Ok np ->
  key_sample extreme 5 256 1 p np 0 = Ok (key, s') -> convert_to_ntt p np (repeat (import_int p 2) 32) = Ok pt ->
  enc_key 32 q 5 3 key /\ sk_var key = 256 /\ sk_p key = p /\ sk_np key = np /\
  ntt_poly p 5 pt /\ forall i, (i < 2 ^ 5)%nat -> coeff p np pt i = 2.
Proof.
  intros Q1 PR QB Ep En Ek Et. assert (PF : params_for 32 q p) by (split; [unfold word_size; tauto|split; [lia|exact Ep]]).
  assert (NF : ntt_for p 5 np) by (destruct (pf_good _ _ _ PF) as (_ & _ & Em); split; [rewrite Em; exact PR|exact En]).
  destruct (C26_sampled_key 32 q p np 5 extreme 256 1 0 key s' PF NF extreme_ok ltac:(lia) ltac:(lia) ltac:(lia) ltac:(cbn; lia) Ek) as (EK & E1 & E2 & E3 & _).
  split; [exact EK|]. split; [exact E3|]. split; [exact E1|]. split; [exact E2|].
  destruct (mk_ctx 32 q p 5 np PF NF) as (C & _ & _). destruct (C03_import_export 32 q p 2 PF ltac:(lia)) as [I1 I2].
  destruct (convert_coeff p 5 np C (repeat (import_int p 2) 32) (repeat_length _ _)) as (a & Ea & Ha & Va).
  { apply Forall_forall. intros c Hc. apply repeat_spec in Hc. subst c. apply reduced_stored, I2. }
  rewrite Et in Ea. injection Ea as <-. split; [exact Ha|]. intros i Hi. rewrite (Va i Hi).
  rewrite (nth_indep _ 0 (import_int p 2)) by (rewrite repeat_length; exact Hi). destruct (pf_good _ _ _ PF) as (_ & _ & Em). rewrite nth_repeat, I1, Em, Z.mod_mod by lia. apply Z.mod_small. lia.
Qed.

Definition ok_or {A} (d : A) (r : result A) : A := match r with Ok a => a | _ => d end.
Definition pA : mparams := Eval vm_compute in params_make 32 114689.
Definition npA : nttp := Eval vm_compute in ok_or np8 (init_ntt pA 5).
Definition keyA : skey := Eval vm_compute in ok_or key97 (do! ' (key, _) <- key_sample extreme 5 256 1 pA npA 0; Ok key).
Definition ptA : poly := Eval vm_compute in ok_or [] (convert_to_ntt pA npA (repeat (import_int pA 2) 32)).
Lemma A_ok : enc_key 32 114689 5 3 keyA /\ sk_var keyA = 256 /\ sk_p keyA = pA /\ sk_np keyA = npA /\
  ntt_poly pA 5 ptA /\ forall i, (i < 2 ^ 5)%nat -> coeff pA npA ptA i = 2.
Proof.
  assert (PR : prime 114689) by (apply (prime_by_trial _ 400%nat); [lia|vm_compute; reflexivity]).
  apply (concrete 114689 pA npA keyA 512 ptA); [lia|exact PR|lia|vm_compute; reflexivity|vm_compute; reflexivity|vm_compute; reflexivity|vm_compute; reflexivity].
Qed.

Lemma sqrt_256 : sqrt (IZR 256) = 16%R.
Proof. replace (IZR 256) with (16 * 16)%R by lra. apply sqrt_square. lra. Qed.

Lemma sqrt3_bound : (0 < sqrt 3 < 1.7321)%R.
Proof.
  split; [apply sqrt_lt_R0; lra|]. replace 1.7321%R with (sqrt (1.7321 * 1.7321)) by (apply sqrt_square; lra). apply sqrt_lt_1; lra.
Qed.

Lemma negacyclic_ext2 n f f' g g' k : (k < n)%nat -> (forall i, (i < n)%nat -> f i = f' i) -> (forall i, (i < n)%nat -> g i = g' i) ->
  negacyclic n f g k = negacyclic n f' g' k.
Proof.
  intros Hk Hf Hg. unfold negacyclic. apply zsum_ext. intros i Hi. destruct (Nat.leb_spec i k); rewrite Hf, Hg by lia; reflexivity.
Qed.

Lemma head_differs (v : list Z) f a b n i : (i < n)%nat -> nth i v 0 = a -> f i = b -> a <> b -> v <> tabulate n f.
Proof. intros Hi Ha Hb N E. apply N. rewrite <- Ha, <- Hb, E. apply nth_tabulate. exact Hi. Qed.

Lemma twos_0 : negacyclic (2 ^ 5) (fun _ => 2) (fun _ => 2) 0 mod 3 = 0.
Proof. vm_compute. reflexivity. Qed.
Lemma twos_1 : negacyclic (2 ^ 5) (fun _ => 2) (fun _ => 2) 1 mod 3 = 2.
Proof. vm_compute. reflexivity. Qed.
Lemma one_lt : (1 < 2 ^ 5)%nat.
Proof. cbn. lia. Qed.

Lemma run_absorb G key e fuel pt s x s' y : encrypt G fuel key pt s = Ok (x, s') -> ct_absorb x pt = Ok y ->
  run G key e (HAbsorb (HEnc fuel pt s) pt) = Ok (y, (b_encryption e * b_plaintext e)%R).
Proof. intros E1 E2. cbn [run]. unfold t_encrypt, t_absorb. rewrite E1. cbn [bind fst snd]. rewrite E2. reflexivity. Qed.

Lemma A_run : exists x s' y v, encrypt extreme 100 keyA ptA 0 = Ok (x, s') /\ ct_absorb x ptA = Ok y /\ decrypt keyA y = Ok (2 :: v).
Proof.
  assert (T : match encrypt extreme 100 keyA ptA 0 with
              | Ok (x, _) => match ct_absorb x ptA with
                | Ok y => match decrypt keyA y with Ok (v0 :: _) => v0 =? 2 | _ => false end | _ => false end
              | _ => false end = true) by (vm_compute; reflexivity).
  destruct (encrypt extreme 100 keyA ptA 0) as [[x s']| |]; [|discriminate T|discriminate T].
  destruct (ct_absorb x ptA) as [y| |] eqn:E; [|discriminate T|discriminate T].
  destruct (decrypt keyA y) as [v| |] eqn:D; [|discriminate T|discriminate T]. destruct v as [|v0 v]; [discriminate T|]. apply Z.eqb_eq in T. subst v0.
  exists x, s', y, v. split; [reflexivity|]. split; [exact E|exact D].
Qed.

Lemma estimate_absorb l : (2 * (b_encryption (mk_err_params 3 (2 ^ 5) 256 l) * b_plaintext (mk_err_params 3 (2 ^ 5) 256 l)) < IZR 114689)%R.
Proof.
  unfold b_encryption, b_plaintext. rewrite export_t_small by lia. cbn [mk_err_params ep_dim ep_sigma]. rewrite sqrt_256.
  rewrite sqrt_mult by (lra || apply pos_INR). pose proof (sqrt_sqrt (INR (2 ^ 5)) (pos_INR _)) as SN. pose proof sqrt3_bound as S3. pose proof (sqrt_sqrt 3 ltac:(lra)) as S33.
  set (a := sqrt (INR (2 ^ 5))) in *. set (c := sqrt 3) in *.
  replace (2 * (3 * a * (c + 6 * 16) * (3 * (c * a))))%R with (18 * (a * a) * (c * c + 96 * c))%R by ring. rewrite SN, S33.
  replace (INR (2 ^ 5)) with 32%R by (rewrite INR_IZR_INZ; reflexivity). lra.
Qed.

Lemma meaning_absorb G key fuel (pt : poly) (s : pr_st G) : (forall i, (i < 2 ^ 5)%nat -> coeff (sk_p key) (sk_np key) pt i = 2) ->
  forall v, 2 :: v <> tabulate (2 ^ 5) (fun i => meaning 5 key (HAbsorb (HEnc (St := pr_st G) fuel pt s) pt) i mod 3).
Proof.
  intros Hc v. apply (head_differs _ _ 2 0 (2 ^ 5) 0); [apply n_pos|reflexivity|cbn [meaning];
  rewrite (negacyclic_ext2 (2 ^ 5) _ (fun _ => 2) _ (fun _ => 2)); [exact twos_0|apply n_pos|exact Hc|exact Hc]|lia].
Qed.

(** Absorbing a plaintext: a ciphertext that reports an error below q / 2 and does
    not decrypt to the product (modulus 114689, degree 32, t = 3, variance 256). *)
Theorem C74_absorb_refuted :
  exists q key (G : prng) pt s fuel x v, prng_ok G /\ enc_key 32 q 5 3 key /\ sk_var key = 256 /\ ntt_poly (sk_p key) 5 pt /\
  (forall i, (i < 2 ^ 5)%nat -> 0 <= coeff (sk_p key) (sk_np key) pt i < 3) /\
  run G key (mk_err_params 3 (2 ^ 5) 256 (p_logm (sk_p key))) (HAbsorb (HEnc fuel pt s) pt) = Ok x /\
  (2 * snd x < IZR q)%R /\ decrypt key (fst x) = Ok v /\
  v <> tabulate (2 ^ 5) (fun i => meaning 5 key (HAbsorb (HEnc (St := pr_st G) fuel pt s) pt) i mod 3).
Proof.
  destruct A_ok as (EK & Ev & E1 & E2 & Hp & Hc). destruct A_run as (x & s' & y & v & R1 & R2 & R3). rewrite <- E1 in Hp. rewrite <- E1, <- E2 in Hc.
  exists 114689, keyA, extreme, ptA, 0, 100%nat, (y, (b_encryption (mk_err_params 3 (2 ^ 5) 256 (p_logm (sk_p keyA))) * b_plaintext (mk_err_params 3 (2 ^ 5) 256 (p_logm (sk_p keyA))))%R), (2 :: v).
  split; [exact extreme_ok|]. split; [exact EK|]. split; [exact Ev|]. split; [exact Hp|].
  split; [intros i Hi; rewrite (Hc i Hi); lia|]. split; [exact (run_absorb extreme keyA _ 100 ptA 0 x s' y R1 R2)|].
  split; [apply estimate_absorb|]. split; [exact R3|]. exact (meaning_absorb extreme keyA 100 ptA 0 Hc v).
Qed.

(** The same for a product of two ciphertexts (modulus 5767169). *)
Definition pB : mparams := Eval vm_compute in params_make 32 5767169.
Definition npB : nttp := Eval vm_compute in ok_or np8 (init_ntt pB 5).
Definition keyB : skey := Eval vm_compute in ok_or key97 (do! ' (key, _) <- key_sample extreme 5 256 1 pB npB 0; Ok key).
Definition ptB : poly := Eval vm_compute in ok_or [] (convert_to_ntt pB npB (repeat (import_int pB 2) 32)).
Lemma B_ok : enc_key 32 5767169 5 3 keyB /\ sk_var keyB = 256 /\ sk_p keyB = pB /\ sk_np keyB = npB /\
  ntt_poly pB 5 ptB /\ forall i, (i < 2 ^ 5)%nat -> coeff pB npB ptB i = 2.
Proof.
  assert (PR : prime 5767169) by (apply (prime_by_trial _ 2500%nat); [lia|vm_compute; reflexivity]).
  apply (concrete 5767169 pB npB keyB 512 ptB); [lia|exact PR|lia|vm_compute; reflexivity|vm_compute; reflexivity|vm_compute; reflexivity|vm_compute; reflexivity].
Qed.
Lemma B_run : exists x s' y v, encrypt extreme 100 keyB ptB 0 = Ok (x, s') /\ ct_mul x x = Ok y /\ decrypt keyB y = Ok (0 :: 0 :: v).
Proof.
  assert (T : match encrypt extreme 100 keyB ptB 0 with
              | Ok (x, _) => match ct_mul x x with
                | Ok y => match decrypt keyB y with Ok (v0 :: v1 :: _) => (v0 =? 0) && (v1 =? 0) | _ => false end | _ => false end
              | _ => false end = true) by (vm_compute; reflexivity).
  destruct (encrypt extreme 100 keyB ptB 0) as [[x s']| |]; [|discriminate T|discriminate T].
  destruct (ct_mul x x) as [y| |] eqn:E; [|discriminate T|discriminate T].
  destruct (decrypt keyB y) as [v| |] eqn:D; [|discriminate T|discriminate T]. destruct v as [|v0 [|v1 v]]; [discriminate T|discriminate T|].
  apply andb_prop in T. rewrite !Z.eqb_eq in T. destruct T; subst v0 v1.
  exists x, s', y, v. split; [reflexivity|]. split; [exact E|exact D].
Qed.

Lemma estimate_mul l : (2 * (b_encryption (mk_err_params 3 (2 ^ 5) 256 l) * b_encryption (mk_err_params 3 (2 ^ 5) 256 l)) < IZR 5767169)%R.
Proof.
  unfold b_encryption. rewrite export_t_small by lia. cbn [mk_err_params ep_dim ep_sigma]. rewrite sqrt_256.
  pose proof (sqrt_sqrt (INR (2 ^ 5)) (pos_INR _)) as SN. pose proof sqrt3_bound as S3. pose proof (sqrt_sqrt 3 ltac:(lra)) as S33.
  set (a := sqrt (INR (2 ^ 5))) in *. set (c := sqrt 3) in *.
  replace (2 * (3 * a * (c + 6 * 16) * (3 * a * (c + 6 * 16))))%R with (18 * (a * a) * (c * c + 192 * c + 9216))%R by ring. rewrite SN, S33.
  replace (INR (2 ^ 5)) with 32%R by (rewrite INR_IZR_INZ; reflexivity). lra.
Qed.

Theorem C74_multiply_refuted :
  exists q key (G : prng) pt s fuel x y v, prng_ok G /\ enc_key 32 q 5 3 key /\ sk_var key = 256 /\ ntt_poly (sk_p key) 5 pt /\
  (forall i, (i < 2 ^ 5)%nat -> 0 <= coeff (sk_p key) (sk_np key) pt i < 3) /\
  t_encrypt G fuel key (mk_err_params 3 (2 ^ 5) 256 (p_logm (sk_p key))) pt s = Ok x /\ t_mul x x = Ok y /\
  (2 * snd y < IZR q)%R /\ decrypt key (fst y) = Ok v /\
  v <> tabulate (2 ^ 5) (fun i => negacyclic (2 ^ 5) (coeff (sk_p key) (sk_np key) pt) (coeff (sk_p key) (sk_np key) pt) i mod 3).
Proof.
  destruct B_ok as (EK & Ev & E1 & E2 & Hp & Hc). destruct B_run as (x & s' & y & v & R1 & R2 & R3). rewrite <- E1 in Hp. rewrite <- E1, <- E2 in Hc.
  pose (b := b_encryption (mk_err_params 3 (2 ^ 5) 256 (p_logm (sk_p keyB)))).
  exists 5767169, keyB, extreme, ptB, 0, 100%nat, (x, b), (y, (b * b)%R), (0 :: 0 :: v).
  split; [exact extreme_ok|]. split; [exact EK|]. split; [exact Ev|]. split; [exact Hp|].
  split; [intros i Hi; rewrite (Hc i Hi); lia|]. split; [unfold t_encrypt; rewrite R1; reflexivity|].
  split; [unfold t_mul; cbn [fst snd]; rewrite R2; reflexivity|].
  split; [apply estimate_mul|]. split; [exact R3|].
  apply (head_differs _ _ 0 2 (2 ^ 5) 1); [exact one_lt|reflexivity|cbv beta;
  rewrite (negacyclic_ext2 (2 ^ 5) _ (fun _ => 2) _ (fun _ => 2)); [exact twos_1|exact one_lt|exact Hc|exact Hc]|lia].
Qed.

(** The estimate for relinearization shifts an int by log_base: a relinearization
    key with a decomposition base of 2^32 or more works, but using it runs into
    undefined behaviour when the estimate is computed; for base 2^31 the estimate
    is negative. *)
Theorem C74_large_base_refuted :
  forall k q L t v key rk x err f, k <> 16 -> key_ok k q L t key -> 0 <= v -> relin_ok L t v key rk -> ct_ok L key x ->
  Z.of_nat (length (ct_c x)) = rk_num rk -> carries_under L key (secret_at L key (rk_pow rk)) x f ->
  let e := mk_err_params t (2 ^ L) v (p_logm (sk_p key)) in
  (32 <= rk_logT rk -> (exists y, relin_apply rk x = Ok y) /\ t_relinearize e rk (x, err) = UB) /\
  (rk_logT rk = 31 -> 1 <= v -> 1 <= t < 2 ^ 64 -> exists y, t_relinearize e rk (x, err) = Ok y /\ (snd y < err)%R).
Proof.
  intros k q L t v key rk x err f K16 K Hv R Hx Hn Hf e.
  destruct (C31_apply k q L t v key rk x f K Hv R Hx Hn Hf) as [HE _]. destruct (HE K16) as (y & Ey). unfold t_relinearize. cbn [fst snd]. rewrite Ey. cbn [bind].
  unfold b_relinearize, shl1. split.
  - intros HL. split; [exists y; reflexivity|]. destruct (Z.leb_spec 32 (rk_logT rk)); [reflexivity|lia].
  - intros EL V1 Ht. destruct (ro_logT _ _ _ _ _ R) as [_ B2]. rewrite EL in B2 |- *. change (32 <=? 31) with false. change (31 =? 31) with true. cbn [bind]. eexists. split; [reflexivity|]. cbn [snd].
    unfold e. rewrite export_t_small by lia. cbn [mk_err_params ep_logm ep_sigma ep_dim].
    pose proof (ro_parts _ _ _ _ _ R) as RP. pose proof (ro_num _ _ _ _ _ R) as RN.
    assert (D : (0 < IZR ((31 + p_logm (sk_p key) - 1) / 31))%R).
    { apply IZR_lt. apply Z.div_str_pos. lia. }
    assert (NP : (0 < IZR (Z.of_nat (length (rk_parts rk))))%R) by (apply IZR_lt; lia).
    assert (T0 : (0 < IZR t)%R) by (apply IZR_lt; lia). assert (S0 : (0 < sqrt (IZR v))%R) by (apply sqrt_lt_R0, IZR_lt; lia).
    assert (N0 : (0 < INR (2 ^ L))%R) by (apply lt_0_INR; exact (n_pos L)). assert (S3 : (0 < 8 / sqrt 3)%R) by (apply Rdiv_lt_0_compat; [lra|apply sqrt_lt_R0; lra]).
    set (X := (8 / sqrt 3 * IZR t * IZR ((31 + p_logm (sk_p key) - 1) / 31) * sqrt (IZR v) * INR (2 ^ L))%R).
    assert (X0 : (0 < X)%R) by (unfold X; do 4 (apply Rmult_lt_0_compat; [|assumption]); exact S3).
    assert (C : (IZR (- 2 ^ 31) < 0)%R) by (apply IZR_lt; reflexivity).
    assert (Y : (0 < X * IZR (Z.of_nat (length (rk_parts rk))))%R) by (apply Rmult_lt_0_compat; assumption).
    replace (X * IZR (- 2 ^ 31) * IZR (Z.of_nat (length (rk_parts rk))))%R with (X * IZR (Z.of_nat (length (rk_parts rk))) * IZR (- 2 ^ 31))%R by ring.
    assert (X * IZR (Z.of_nat (length (rk_parts rk))) * IZR (- 2 ^ 31) < 0)%R by nra. lra.
Qed.

(** ** The RNS estimates *)

From Verif Require Import RnsPoly RnsSpec RnsCt RnsCtSpec ThmRnsCt.

(** RnsErrorParams takes log2(t)^2 for t. For plaintext moduli of 27 bits or more
    the reported error of a fresh ciphertext is then smaller than half the
    plaintext modulus, whatever the degree (up to 2^15) and deviation (up to 16):
    it does not even cover the message. *)
Theorem C74_rns_fresh_refuted :
  forall log_n log_t sigma, (log_n <= 15)%nat -> 27 <= log_t -> (0 < sigma <= 16)%R ->
  (rns_b_encryption log_n log_t sigma < IZR (2 ^ (log_t - 1) / 2))%R.
Proof.
  intros log_n log_t sigma Hn Ht Hs. unfold rns_b_encryption, rns_export_t.
  assert (N : (sqrt (INR (2 ^ log_n)) <= 182)%R).
  { replace 182%R with (sqrt (182 * 182)) by (apply sqrt_square; lra). apply sqrt_le_1; [apply pos_INR|lra|].
    rewrite INR_IZR_INZ. eapply Rle_trans; [apply (IZR_le _ (2 ^ 15))|lra]. rewrite Nat2Z.inj_pow. apply Z.pow_le_mono_r; lia. }
  pose proof sqrt3_bound as S3. pose proof (sqrt_pos (INR (2 ^ log_n))) as P0. assert (T : (27 <= IZR log_t)%R) by (apply IZR_le; lia).
  assert (P : 18000 * (log_t * log_t) < 2 ^ (log_t - 2)).
  { replace log_t with (27 + Z.of_nat (Z.to_nat (log_t - 27))) by lia. generalize (Z.to_nat (log_t - 27)). clear. intros n. induction n as [|n IH]; [reflexivity|].
    replace (27 + Z.of_nat (S n) - 2) with (Z.succ (27 + Z.of_nat n - 2)) by lia. rewrite Z.pow_succ_r by lia. nia. }
  assert (E : 2 ^ (log_t - 1) / 2 = 2 ^ (log_t - 2)).
  { replace (log_t - 1) with (Z.succ (log_t - 2)) by lia. rewrite Z.pow_succ_r, Z.mul_comm by lia. apply Z.div_mul. lia. }
  rewrite E. apply IZR_lt in P. rewrite !mult_IZR in P. eapply Rle_lt_trans; [|exact P].
  set (a := sqrt (INR (2 ^ log_n))) in *. set (c := sqrt 3) in *. set (l := IZR log_t) in *.
  assert (A : (a * (c + 6 * sigma) <= 18000)%R) by nra.
  replace (l * l * a * (c + 6 * sigma))%R with (l * l * (a * (c + 6 * sigma)))%R by ring.
  replace (18000 * (l * l))%R with (l * l * 18000)%R by ring. apply Rmult_le_compat_l; [nra|exact A].
Qed.

(** Absorbing the scalar 1 leaves an RNS ciphertext as it is but halves its
    reported error; doing it again and again, the report falls below any bound. *)
Theorem C74_rns_scalar_refuted :
  forall k L ms s len j x w err, word_size k -> moduli_ok k L ms -> ciphertext ms L s len j x w -> (0 < err)%R ->
  gives ms L s len j (rct_absorb_scalar x 1) w /\ rns_scale_error err 1 = (err / 2)%R /\
  forall eps, (0 < eps)%R -> exists n, (Nat.iter n (fun r => rns_scale_error r 1) err < eps)%R.
Proof.
  intros k L ms s len j x w err W OK Hx He. split; [|split].
  - destruct (proj1 (C58_scalar k L ms s len j x w OK Hx) 1) as (z & Ez & Hz).
    { split; [lia|]. unfold word_size in W. change 1 with (2 ^ 0). apply Z.pow_lt_mono_r; lia. }
    exists z. split; [exact Ez|]. destruct Hz as (I1 & I2 & I3 & cs & F & C). split; [exact I1|]. split; [exact I2|]. split; [exact I3|].
    exists cs. split; [exact F|]. intros i Hi. specialize (C i Hi). cbv beta in C. rewrite Z.mul_1_l in C. exact C.
  - unfold rns_scale_error. lra.
  - intros eps Hep.
    assert (IT : forall n, Nat.iter n (fun r => rns_scale_error r 1) err = (err * (/ 2) ^ n)%R).
    { induction n as [|n IH]; [cbn; ring|]. cbn [Nat.iter nat_rect]. change (nat_rect _ _ _ n) with (Nat.iter n (fun r => rns_scale_error r 1) err).
      rewrite IH. unfold rns_scale_error. cbn [pow]. lra. }
    destruct (pow_lt_1_zero (/ 2) ltac:(rewrite Rabs_pos_eq; lra) (eps / err)) as (n & Hn); [apply Rdiv_lt_0_compat; lra|].
    exists n. rewrite IT. specialize (Hn n (Nat.le_refl n)). rewrite Rabs_pos_eq in Hn by (apply pow_le; lra).
    apply (Rmult_lt_compat_l err) in Hn; [|exact He]. replace (err * (eps / err))%R with eps in Hn by (field; lra). exact Hn.
Qed.

(** ** Examples *)

(** ThmRelin's key (modulus 786433, degree 8, t = 3, variance 1): the history
    2 * (enc(m) + enc(m)) - rotate(enc(m)), whose reported error is below q / 2 *)
Definition hist_r : history Z :=
  HSub (HScale (HAdd (HEnc 100 mr 99) (HEnc 100 mr 7)) (import_int pr 2)) (HRotate (HEnc 100 mr 5) gkr).

Lemma run_shape G key e gk pt c s1 s2 s3 x1 x2 x3 t1 t2 t3 y z w w' r b : encrypt G 100 key pt s1 = Ok (x1, t1) -> encrypt G 100 key pt s2 = Ok (x2, t2) ->
  encrypt G 100 key pt s3 = Ok (x3, t3) -> ct_add x1 x2 = Ok y -> ct_absorb_scalar y c = Ok z -> ct_substitute (sk_np key) (rk_pow gk) x3 = Ok w ->
  galois_apply gk w = Ok w' -> ct_sub z w' = Ok r -> b_relinearize e (Z.of_nat (length (rk_parts gk))) (rk_logT gk) = Ok b ->
  run G key e (HSub (HScale (HAdd (HEnc 100 pt s1) (HEnc 100 pt s2)) c) (HRotate (HEnc 100 pt s3) gk)) =
  Ok (r, ((b_encryption e + b_encryption e) * IZR (export_int (ct_p y) c) + (b_encryption e + b))%R).
Proof.
  intros E1 E2 E3 E4 E5 E6 E7 E8 E9. cbn [run]. unfold t_encrypt. rewrite E1, E2, E3. cbn [bind]. unfold t_add, t_scale, t_rotate, t_sub. cbn [fst snd].
  rewrite E4. cbn [bind fst snd]. rewrite E5. cbn [bind fst snd]. rewrite E6. cbn [bind]. rewrite E7. cbn [bind]. rewrite E9. cbn [bind fst snd]. rewrite E8. reflexivity.
Qed.

Definition hist_check (G : prng) (key : skey) (gk : relin) (pt : list Z) (c : Z) (s1 s2 s3 : pr_st G) (v : list Z) : bool :=
  match encrypt G 100 key pt s1 with Ok (x1, _) =>
  match encrypt G 100 key pt s2 with Ok (x2, _) =>
  match encrypt G 100 key pt s3 with Ok (x3, _) =>
  match ct_add x1 x2 with Ok y =>
  match ct_substitute (sk_np key) (rk_pow gk) x3 with Ok w =>
  match ct_absorb_scalar y c with Ok z =>
  match galois_apply gk w with Ok w' =>
  match ct_sub z w' with Ok r =>
  (export_int (ct_p y) c =? 2) &&
  match decrypt key r with Ok v' => if list_eq_dec Z.eq_dec v' v then true else false | _ => false end
  | _ => false end | _ => false end | _ => false end | _ => false end | _ => false end | _ => false end | _ => false end | _ => false end.
Lemma hist_checked G key gk pt c s1 s2 s3 v e b : hist_check G key gk pt c s1 s2 s3 v = true -> b_relinearize e (Z.of_nat (length (rk_parts gk))) (rk_logT gk) = Ok b ->
  exists x, run G key e (HSub (HScale (HAdd (HEnc 100 pt s1) (HEnc 100 pt s2)) c) (HRotate (HEnc 100 pt s3) gk)) = Ok x /\
  snd x = ((b_encryption e + b_encryption e) * 2 + (b_encryption e + b))%R /\ decrypt key (fst x) = Ok v.
Proof.
  unfold hist_check. intros T Eb.
  destruct (encrypt G 100 key pt s1) as [[x1 t1]| |] eqn:R1; [|discriminate T|discriminate T].
  destruct (encrypt G 100 key pt s2) as [[x2 t2]| |] eqn:R2; [|discriminate T|discriminate T].
  destruct (encrypt G 100 key pt s3) as [[x3 t3]| |] eqn:R3; [|discriminate T|discriminate T].
  destruct (ct_add x1 x2) as [y| |] eqn:R4; [|discriminate T|discriminate T].
  destruct (ct_substitute (sk_np key) (rk_pow gk) x3) as [w| |] eqn:R5; [|discriminate T|discriminate T].
  destruct (ct_absorb_scalar y c) as [z| |] eqn:R6; [|discriminate T|discriminate T].
  destruct (galois_apply gk w) as [w'| |] eqn:R7; [|discriminate T|discriminate T].
  destruct (ct_sub z w') as [r| |] eqn:R8; [|discriminate T|discriminate T].
  apply andb_prop in T. destruct T as [T1 T2]. apply Z.eqb_eq in T1.
  destruct (decrypt key r) as [v'| |] eqn:R9; [|discriminate T2|discriminate T2]. destruct (list_eq_dec Z.eq_dec v' v) as [Ev'|]; [|discriminate T2]. subst v'.
  eexists. split; [eapply (run_shape G key e gk pt c s1 s2 s3 x1 x2 x3 t1 t2 t3 y z w w' r b R1 R2 R3 R4 R6 R5 R7 R8 Eb)|]. cbn [fst snd]. rewrite T1. split; [reflexivity|exact R9].
Qed.
Lemma hist_r_checked : hist_check toy keyr gkr mr (import_int pr 2) 99 7 5 [0; 1; 1; 1; 0; 2; 0; 0] = true.
Proof. vm_compute. reflexivity. Qed.
Lemma gkr_logT : rk_logT gkr = 4. Proof. vm_compute. reflexivity. Qed.
Lemma gkr_parts : length (rk_parts gkr) = 1%nat. Proof. vm_compute. reflexivity. Qed.
Lemma keyr_logm : p_logm (sk_p keyr) = 20. Proof. vm_compute. reflexivity. Qed.
Lemma mr_ntt : ntt_poly pr 3 mr.
Proof.
  split; [vm_compute; reflexivity|]. apply Forall_forall. intros c Hc.
  assert (Ck : forallb (fun c => (0 <=? c) && (c <=? p_m pr)) mr = true) by (vm_compute; reflexivity).
  rewrite forallb_forall in Ck. specialize (Ck c Hc). unfold stored. lia.
Qed.
Lemma mr_small i : (i < 2 ^ 3)%nat -> 0 <= coeff pr npr mr i < 3.
Proof.
  intros Hi. assert (Ck : forallb (fun i => (0 <=? coeff pr npr mr i) && (coeff pr npr mr i <? 3)) (seq 0 8) = true) by (vm_compute; reflexivity).
  rewrite forallb_forall in Ck. specialize (Ck i). rewrite in_seq in Ck. specialize (Ck ltac:(cbn in Hi; lia)). lia.
Qed.
Lemma INR8 : INR (2 ^ 3) = 8%R. Proof. rewrite INR_IZR_INZ. reflexivity. Qed.
Lemma example_bound : (2 * ((3 * sqrt 8 * (sqrt 3 + 6 * 1) + 3 * sqrt 8 * (sqrt 3 + 6 * 1)) * 2 + (3 * sqrt 8 * (sqrt 3 + 6 * 1) + 8 / sqrt 3 * 3 * 5 * 1 * 8 * 16 * 1)) < 786433)%R.
Proof.
  pose proof sqrt3_bound as [S3 S3'].
  assert (S8 : (sqrt 8 <= 3)%R) by (replace 3%R with (sqrt (3 * 3)) by (apply sqrt_square; lra); apply sqrt_le_1; lra).
  assert (D : (8 / sqrt 3 <= 8)%R).
  { assert (1 <= sqrt 3)%R by (rewrite <- sqrt_1; apply sqrt_le_1; lra). apply (Rmult_le_reg_r (sqrt 3)); [lra|]. replace (8 / sqrt 3 * sqrt 3)%R with 8%R by (field; lra). nra. }
  pose proof (sqrt_pos 8). assert (F : (3 * sqrt 8 * (sqrt 3 + 6 * 1) <= 100)%R) by nra.
  set (FF := (3 * sqrt 8 * (sqrt 3 + 6 * 1))%R) in *. set (DD := (8 / sqrt 3)%R) in *. lra.
Qed.
Example C74_example :
  linear 3 3 keyr hist_r /\ exists x, run toy keyr (mk_err_params 3 (2 ^ 3) 1 (p_logm (sk_p keyr))) hist_r = Ok x /\ (2 * snd x < IZR 786433)%R /\
  decrypt keyr (fst x) = Ok [0; 1; 1; 1; 0; 2; 0; 0].
Proof.
  destruct keyr_ok as (EK & Ev & E1 & E2). destruct gkr_relin as (RO & Rn & _). split.
  { cbn [linear hist_r]. rewrite Ev, E1, E2. pose proof mr_ntt as M1. pose proof mr_small as M2.
    assert (Hc : stored pr (import_int pr 2)) by (apply reduced_stored; apply (C03_import_export 32 786433 pr 2 pr_for); lia).
    pose proof gkr_logT as G1. rewrite G1. split; [split; [split; [exact (conj M1 M2)|exact (conj M1 M2)]|exact Hc]|]. split; [exact (conj M1 M2)|]. split; [exact RO|]. split; [exact Rn|]. lia. }
  assert (Eb : b_relinearize (mk_err_params 3 (2 ^ 3) 1 (p_logm (sk_p keyr))) (Z.of_nat (length (rk_parts gkr))) (rk_logT gkr) =
    Ok (8 / sqrt 3 * 3 * 5 * 1 * 8 * 16 * 1)%R).
  { rewrite gkr_logT, gkr_parts, keyr_logm. unfold b_relinearize. change (shl1 4) with (@Ok Z 16). cbn [bind]. rewrite export_t_small by lia.
    cbn [mk_err_params ep_dim ep_sigma ep_logm]. rewrite sqrt_1. change ((4 + 20 - 1) / 4) with 5. change (Z.of_nat 1) with 1.
    rewrite INR8. reflexivity. }
  destruct (hist_checked toy keyr gkr mr (import_int pr 2) 99 7 5 _ _ _ hist_r_checked Eb) as (x & Ex & Es & Ed).
  exists x. split; [exact Ex|]. split; [|exact Ed]. rewrite Es. unfold b_encryption. rewrite export_t_small by lia. cbn [mk_err_params ep_dim ep_sigma ep_logm].
  rewrite sqrt_1. rewrite INR8. exact example_bound.
Qed.

Print Assumptions C74_reported_error.
Print Assumptions C74_public_key.
Print Assumptions C74_switch_modulus.
Print Assumptions C74_absorb_refuted.
Print Assumptions C74_multiply_refuted.
Print Assumptions C74_large_base_refuted.
Print Assumptions C74_rns_fresh_refuted.
Print Assumptions C74_rns_scalar_refuted.
Print Assumptions C74_example.
