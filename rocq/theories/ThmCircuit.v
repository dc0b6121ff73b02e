(** C75: every computation on ciphertexts decrypts to the same computation on
    plaintexts while the worst-case error stays below q / 2. *)
From Coq Require Import Znumtheory.
From Verif Require Import Base FinSum PolySpec Ring ZLemmas Montgomery MontBatch Ntt Poly PolyExt Prng Sampling SampleSpec MontgomeryProofs
  Spec PolyView ArithFacts NttFacts PolyFacts PrimeCheck NegRing PolyProofs SymEnc SymSpec SymProofs SymProofs2 SymFacts SymSwitch
  Relin RelinSpec RelinProofs AuxRelin AuxRelinSpec PubKey PubKeySpec PubKeyProofs ExpandProofs
  ThmArith ThmNtt ThmPoly ThmSymEnc ThmRelin ThmAuxRelin ThmPubKey ThmKeys CircuitSpec.
Local Notation zsum := FinSum.zsum.

Lemma ext_cong_sub n t pw f g l : (forall i, (i < n)%nat -> cong t (f i) (g i)) -> cong t (substituted n pw f l) (substituted n pw g l).
Proof.
  intros H. unfold substituted. apply zsum_cong. intros i Hi. destruct (_ =? _)%nat; [apply H; exact Hi|].
  destruct (_ =? _)%nat; [|apply cong_eq; reflexivity]. destruct (H i Hi) as (u & Eu). exists (- u). lia.
Qed.

(** the invariant: x encrypts m at the level of [key] with error at most B *)
Definition tracks (L : nat) (t : Z) (key : skey) (x : ct) (w : nat) (m : nat -> Z) (B : Z) : Prop :=
  ct_ok L key x /\ length (ct_c x) = w /\ (1 <= w)%nat /\ ct_pow x = 1 /\
  exists f, carries L key x f /\ forall i, (i < 2 ^ L)%nat -> Z.abs (f i) <= B /\ cong t (f i) (m i).

Section Step.
Variables (k q : Z) (L : nat) (t : Z) (key : skey).
Hypothesis EK : enc_key k q L t key.
Hypothesis Ht : 1 <= t <= q.
Hypothesis Hv : 0 <= sk_var key.
Hypothesis Hvq : 2 * sk_var key <= q.
Let K := ek_key _ _ _ _ _ EK.
Local Notation tracks := (tracks L t key).

Lemma tracks_nonneg x w m B : tracks x w m B -> 0 <= B.
Proof. intros (_ & _ & _ & _ & f & _ & H). destruct (H 0%nat) as [A _]; [apply n_pos|]. lia. Qed.

Lemma tracks_enc G fuel pt s x s' : prng_ok G -> ntt_poly (sk_p key) L pt -> (forall i, (i < 2 ^ L)%nat -> 0 <= coeff (sk_p key) (sk_np key) pt i < t) ->
  encrypt G fuel key pt s = Ok (x, s') -> tracks x 2 (coeff (sk_p key) (sk_np key) pt) (t - 1 + t * (2 * sk_var key)).
Proof.
  intros HG Hp Hm E. destruct (C26_encrypt k q L t key G fuel pt s x s' EK Hp HG Hv Hvq E) as (O & Ln & Pw & _ & er & Be & Ca).
  split; [exact O|]. split; [exact Ln|]. split; [lia|]. split; [exact Pw|].
  exists (fun i => coeff (sk_p key) (sk_np key) pt i + t * er i). split; [exact Ca|].
  intros i Hi. specialize (Hm i Hi). specialize (Be i Hi). split; [|exists (er i); ring]. rewrite Z.abs_le in Be. apply Z.abs_le. nia.
Qed.

Lemma tracks_pub G pk be pt v s x s' : prng_ok G -> ntt_poly (sk_p key) L pt -> (forall i, (i < 2 ^ L)%nat -> 0 <= coeff (sk_p key) (sk_np key) pt i < t) ->
  pub_ok L t be key pk -> 0 <= be -> 1 <= v -> 2 * v <= q -> pub_encrypt G pk pt v s = Ok (x, s') ->
  tracks x 2 (coeff (sk_p key) (sk_np key) pt) (t - 1 + t * pub_noise L key be (2 * v)).
Proof.
  intros HG Hp Hm PO Hbe V1 Hvv E.
  destruct (C36_encrypt k q L t key G be pk pt v s x s' K PO Hp HG Hvv E) as (O & Ln & Pw & e & u & e0 & e1 & He & Hu & H0 & H1 & Ca).
  split; [exact O|]. split; [exact Ln|]. split; [lia|]. split; [exact Pw|]. eexists. split; [exact Ca|]. cbv beta.
  intros i Hi. specialize (Hm i Hi). split.
  - set (E' := negacyclic (2 ^ L) u e i + e0 i + negacyclic (2 ^ L) e1 (signed_secret key) i).
    assert (BE : Z.abs E' <= pub_noise L key be (2 * v)).
    { unfold E', pub_noise. pose proof (negacyclic_bound (2 ^ L) u e (2 * v) be i ltac:(lia) Hbe Hu He Hi) as N1.
      pose proof (negacyclic_l1 (2 ^ L) e1 (signed_secret key) (2 * v) i ltac:(lia) H1 Hi) as N2. specialize (H0 i Hi).
      rewrite Nat2Z.inj_pow in N1. change (Z.of_nat 2) with 2 in N1. lia. }
    rewrite Z.abs_le in BE. apply Z.abs_le. nia.
  - eexists. rewrite Z.add_simpl_l, Z.mul_comm. reflexivity.
Qed.

Lemma tracks_add x y w u m n A B z : tracks x w m A -> tracks y u n B -> ct_add x y = Ok z -> tracks z (Nat.max w u) (fun i => m i + n i) (A + B).
Proof.
  intros (Ox & Lx & Wx & Px & f & Cf & Hf) (Oy & Ly & Wy & Py & g & Cg & Hg) E.
  destruct (proj1 (C27_add_sub k q L t key x y f g K Ox Oy Cf Cg ltac:(congruence))) as (z' & Ez & Oz & Pz & Lz & Cz).
  rewrite Ez in E. injection E as <-. split; [exact Oz|]. split; [rewrite Lz, Lx, Ly; reflexivity|]. split; [lia|]. split; [congruence|].
  exists (fun i => f i + g i). split; [exact Cz|]. intros i Hi. destruct (Hf i Hi) as (A1 & u1 & E1). destruct (Hg i Hi) as (A2 & u2 & E2).
  split; [lia|]. exists (u1 + u2). lia.
Qed.

Lemma tracks_sub x y w u m n A B z : tracks x w m A -> tracks y u n B -> ct_sub x y = Ok z -> tracks z (Nat.max w u) (fun i => m i - n i) (A + B).
Proof.
  intros (Ox & Lx & Wx & Px & f & Cf & Hf) (Oy & Ly & Wy & Py & g & Cg & Hg) E.
  destruct (proj2 (C27_add_sub k q L t key x y f g K Ox Oy Cf Cg ltac:(congruence))) as (z' & Ez & Oz & Pz & Lz & Cz).
  rewrite Ez in E. injection E as <-. split; [exact Oz|]. split; [rewrite Lz, Lx, Ly; reflexivity|]. split; [lia|]. split; [congruence|].
  exists (fun i => f i - g i). split; [exact Cz|]. intros i Hi. destruct (Hf i Hi) as (A1 & u1 & E1). destruct (Hg i Hi) as (A2 & u2 & E2).
  split; [lia|]. exists (u1 - u2). lia.
Qed.

Lemma export_nonneg c : stored (sk_p key) c -> 0 <= export_int (sk_p key) c.
Proof.
  intros Hc. pose proof (key_ctx _ _ _ _ _ K) as [Gd _]. rewrite (stored_val _ c Gd Hc). apply Z.mod_pos_bound. pose proof (m_gt1 _ Gd). lia.
Qed.

Lemma tracks_scale x w m A c z : tracks x w m A -> stored (sk_p key) c -> ct_absorb_scalar x c = Ok z ->
  tracks z w (fun i => export_int (sk_p key) c * m i) (A * export_int (sk_p key) c).
Proof.
  intros (Ox & Lx & Wx & Px & f & Cf & Hf) Hc E.
  destruct (C28_absorb_scalar k q L t key x f c (export_int (sk_p key) c) K Ox Cf Hc) as (z' & Ez & Oz & Pz & Lz & Cz); [exists 0; ring|].
  rewrite Ez in E. injection E as <-. pose proof (export_nonneg c Hc) as C0.
  split; [exact Oz|]. split; [congruence|]. split; [exact Wx|]. split; [congruence|].
  exists (fun i => export_int (sk_p key) c * f i). split; [exact Cz|]. intros i Hi. destruct (Hf i Hi) as (B & u & E). split.
  - rewrite Z.abs_mul, (Z.abs_eq (export_int _ _)) by exact C0. nia.
  - exists (export_int (sk_p key) c * u). rewrite <- Z.mul_sub_distr_l, E. ring.
Qed.

Lemma tracks_absorb x w m A b z : tracks x w m A -> ntt_poly (sk_p key) L b -> ct_absorb x b = Ok z ->
  tracks z w (negacyclic (2 ^ L) m (coeff (sk_p key) (sk_np key) b)) (A * l1 (2 ^ L) (coeff (sk_p key) (sk_np key) b)).
Proof.
  intros T Hb E. pose proof (tracks_nonneg _ _ _ _ T) as A0. destruct T as (Ox & Lx & Wx & Px & f & Cf & Hf).
  destruct (C28_absorb k q L t key x f b (coeff (sk_p key) (sk_np key) b) K Ox Cf Hb) as (z' & Ez & Oz & Pz & Lz & Cz); [intros i Hi; exists 0; ring|].
  rewrite Ez in E. injection E as <-. split; [exact Oz|]. split; [congruence|]. split; [exact Wx|]. split; [congruence|].
  eexists. split; [exact Cz|]. intros i Hi. split.
  - apply negacyclic_l1; [exact A0| |exact Hi]. intros j Hj. apply (Hf j Hj).
  - apply negacyclic_cong; [intros j Hj; apply (Hf j Hj)|intros j Hj; exists 0; ring|exact Hi].
Qed.

Lemma tracks_fused x y w u m n A B b z : tracks x w m A -> tracks y u n B -> ntt_poly (sk_p key) L b -> ct_fused_absorb x y b = Ok z ->
  tracks z (Nat.max w u) (fun i => m i + negacyclic (2 ^ L) n (coeff (sk_p key) (sk_np key) b) i) (A + B * l1 (2 ^ L) (coeff (sk_p key) (sk_np key) b)).
Proof.
  intros (Ox & Lx & Wx & Px & f & Cf & Hf) T Hb E. pose proof (tracks_nonneg _ _ _ _ T) as B0. destruct T as (Oy & Ly & Wy & Py & g & Cg & Hg).
  destruct (fused_absorb_step k q L t key K x y b z Ox Oy Hb E) as (_ & _ & _ & _ & Lz & _).
  destruct (proj1 (C28_fused_absorb k q L t key x y f g b (coeff (sk_p key) (sk_np key) b) K Ox Oy Cf Cg ltac:(congruence) Hb ltac:(intros i Hi; exists 0; ring)) z E)
    as (Oz & Pz & Cz).
  split; [exact Oz|]. split; [rewrite Lz, Lx, Ly; reflexivity|]. split; [lia|]. split; [congruence|].
  eexists. split; [exact Cz|]. cbv beta. intros i Hi. destruct (Hf i Hi) as (A1 & E1).
  assert (X : Z.abs (negacyclic (2 ^ L) g (coeff (sk_p key) (sk_np key) b) i) <= B * l1 (2 ^ L) (coeff (sk_p key) (sk_np key) b))
    by (apply negacyclic_l1; [exact B0|intros j Hj; apply (Hg j Hj)|exact Hi]).
  assert (Y : cong t (negacyclic (2 ^ L) g (coeff (sk_p key) (sk_np key) b) i) (negacyclic (2 ^ L) n (coeff (sk_p key) (sk_np key) b) i))
    by (apply negacyclic_cong; [intros j Hj; apply (Hg j Hj)|intros j Hj; exists 0; ring|exact Hi]).
  split; [lia|]. destruct E1 as (u1 & E1), Y as (u2 & E2). exists (u1 + u2). lia.
Qed.

Lemma tracks_mul x y w u m n A B z : tracks x w m A -> tracks y u n B -> ct_mul x y = Ok z ->
  tracks z (w + u - 1) (negacyclic (2 ^ L) m n) (2 ^ Z.of_nat L * (A * B)).
Proof.
  intros T T' E. pose proof (tracks_nonneg _ _ _ _ T) as A0. pose proof (tracks_nonneg _ _ _ _ T') as B0.
  destruct T as (Ox & Lx & Wx & Px & f & Cf & Hf). destruct T' as (Oy & Ly & Wy & Py & g & Cg & Hg).
  destruct (proj1 (C28_multiply k q L t key x y f g K Ox Oy Cf Cg) z E) as (Oz & Pz & Lz & Cz).
  split; [exact Oz|]. split; [rewrite Lz, Lx, Ly; reflexivity|]. split; [lia|]. split; [congruence|].
  eexists. split; [exact Cz|]. intros i Hi. split.
  - pose proof (negacyclic_bound (2 ^ L) f g A B i A0 B0 (fun j Hj => proj1 (Hf j Hj)) (fun j Hj => proj1 (Hg j Hj)) Hi) as N1.
    rewrite Nat2Z.inj_pow in N1. exact N1.
  - apply negacyclic_cong; [intros j Hj; apply (Hf j Hj)|intros j Hj; apply (Hg j Hj)|exact Hi].
Qed.

Lemma tracks_relin x w m A rk z : tracks x w m A -> relin_ok L t (sk_var key) key rk -> rk_pow rk = 1 -> rk_num rk = Z.of_nat w -> relin_apply rk x = Ok z ->
  tracks z 2 m (A + t * relin_noise L (sk_var key) rk).
Proof.
  intros (Ox & Lx & Wx & Px & f & Cf & Hf) RO R1 Rn E.
  assert (C1 : carries_under L key (secret_at L key (rk_pow rk)) x f) by (rewrite R1; apply (secret_at_one k q L t key _ f K Ox); exact Cf).
  destruct (proj2 (C31_apply k q L t (sk_var key) key rk x f K Hv RO Ox ltac:(congruence) C1) z E) as (Oz & Lz & Pz & _ & er & BE & Cz).
  split; [exact Oz|]. split; [exact Lz|]. split; [lia|]. split; [exact Pz|]. eexists. split; [exact Cz|]. cbv beta.
  intros i Hi. destruct (Hf i Hi) as (A1 & u & E1). specialize (BE i Hi). split.
  - assert (Z.abs (t * er i) <= t * relin_noise L (sk_var key) rk) by (rewrite Z.abs_mul, (Z.abs_eq t) by lia; nia). lia.
  - exists (u + er i). lia.
Qed.

Lemma tracks_aux x w m A ak P z : tracks x w m A -> aux_ok L t (sk_var key) key ak -> ak_pow ak = 1 -> aux_len ak = w ->
  params_for k P (ak_px ak) -> ntt_for (ak_px ak) L (ak_npx ak) -> P <> q -> ~ (P | t) -> aux_apply ak x = Ok z ->
  tracks z 2 m (A + t * aux_noise L (sk_var key) key ak).
Proof.
  intros (Ox & Lx & Wx & Px & f & Cf & Hf) AO A1' Al HP HN Hq Hd E.
  assert (C1 : carries_under L key (secret_at L key (ak_pow ak)) x f) by (rewrite A1'; apply (secret_at_one k q L t key _ f K Ox); exact Cf).
  assert (Htr : 0 <= t < 2 ^ k).
  { pose proof (key_good k q L t key K) as G. pose proof (key_q k q L t key K) as Eq. pose proof (key_k k q L t key K) as Ek.
    pose proof (MontgomeryProofs.m4 _ G). pose proof (m_gt1 _ G). rewrite Eq, Ek in *. lia. }
  destruct (proj2 (C40_apply k q P L t (sk_var key) key ak x f K HP HN Hq Hd Htr Hv AO Ox ltac:(congruence) C1) z E) as (Oz & Lz & Pz & _ & er & BE & Cz).
  split; [exact Oz|]. split; [exact Lz|]. split; [lia|]. split; [exact Pz|]. eexists. split; [exact Cz|]. cbv beta.
  intros i Hi. destruct (Hf i Hi) as (A1 & u & E1). specialize (BE i Hi). split.
  - assert (Z.abs (t * er i) <= t * aux_noise L (sk_var key) key ak) by (rewrite Z.abs_mul, (Z.abs_eq t) by lia; nia). lia.
  - exists (u + er i). lia.
Qed.

Lemma rotate_mid x m A gk : tracks x 2 m A -> relin_ok L t (sk_var key) key gk -> rk_num gk = 2 ->
  exists f w, (forall i, (i < 2 ^ L)%nat -> Z.abs (f i) <= A /\ cong t (f i) (m i)) /\ ct_substitute (sk_np key) (rk_pow gk) x = Ok w /\
    ct_ok L key w /\ length (ct_c w) = 2%nat /\ ct_pow w = rk_pow gk /\
    carries_under L key (secret_at L key (ct_pow w)) w (substituted (2 ^ L) (Z.to_nat (rk_pow gk)) f).
Proof.
  intros (Ox & Lx & Wx & Px & f & Cf & Hf) RO Hn. destruct (ro_pow _ _ _ _ _ RO) as [Rp Ro]. pose proof (key_L _ _ _ _ _ K) as HL.
  assert (P31 : 2 * 2 ^ Z.of_nat L < 2 ^ 31) by (rewrite <- Z.pow_succ_r by lia; apply Z.pow_lt_mono_r; lia).
  assert (C1 : carries_under L key (secret_at L key 1) x f) by (apply (secret_at_one k q L t key _ f K Ox); exact Cf).
  destruct (C32_substitute k q L t key 1 (rk_pow gk) x f K Ox) as (w & Ew & Ow & Lw & Pw & _ & Cw); try assumption; try lia.
  { intros X. rewrite X in Lx. discriminate Lx. }
  exists f, w. split; [exact Hf|]. split; [exact Ew|]. split; [exact Ow|]. split; [congruence|]. split; [|exact Cw].
  rewrite Pw, Z.mul_1_l. apply Z.mod_small. lia.
Qed.

Lemma tracks_rotate x m A gk w z : tracks x 2 m A -> relin_ok L t (sk_var key) key gk -> rk_num gk = 2 ->
  ct_substitute (sk_np key) (rk_pow gk) x = Ok w -> galois_apply gk w = Ok z ->
  tracks z 2 (substituted (2 ^ L) (Z.to_nat (rk_pow gk)) m) (A + t * relin_noise L (sk_var key) gk).
Proof.
  intros T RO Hn Ew Ez. pose proof (tracks_nonneg _ _ _ _ T) as A0. destruct (ro_pow _ _ _ _ _ RO) as [Rp Ro].
  destruct (rotate_mid x m A gk T RO Hn) as (f & w' & Hf & Ew' & Ow & Lw & Pw & Cw). rewrite Ew in Ew'. injection Ew' as <-.
  destruct (proj2 (C32_apply k q L t (sk_var key) key gk w _ K Hv RO Hn Ow Lw Pw Cw) z Ez) as (Oz & Lz & Pz & _ & er & BE & Cz).
  split; [exact Oz|]. split; [exact Lz|]. split; [lia|]. split; [exact Pz|]. eexists. split; [exact Cz|]. cbv beta.
  intros i Hi. specialize (BE i Hi). split.
  - assert (S1 : Z.abs (substituted (2 ^ L) (Z.to_nat (rk_pow gk)) f i) <= A).
    { apply substituted_bound; [apply odd_nat; [lia|exact Ro]|exists L; reflexivity|exact Hi|exact A0|]. intros j Hj. apply (Hf j Hj). }
    assert (Z.abs (t * er i) <= t * relin_noise L (sk_var key) gk) by (rewrite Z.abs_mul, (Z.abs_eq t) by lia; nia). lia.
  - assert (X : cong t (substituted (2 ^ L) (Z.to_nat (rk_pow gk)) f i) (substituted (2 ^ L) (Z.to_nat (rk_pow gk)) m i)) by (apply ext_cong_sub; intros j Hj; apply (Hf j Hj)).
    destruct X as (u & Eu). exists (u + er i). lia.
Qed.

Lemma send_ok x w m A : tracks x w m A -> Z.of_nat w <= 2 ^ 15 ->
  exists s y, ct_serialize x = Ok s /\ ct_deserialize (sk_p key) s = Ok y /\ tracks y w m A.
Proof.
  intros (Ox & Lx & Wx & Px & f & Cf & Hf) Hw. pose proof (key_L _ _ _ _ _ K) as HL.
  destruct (C44_round_trip k q (sk_p key) x (ko_params _ _ _ _ _ K) (proj1 Ox)) as (s & Es & y & Ey & Y1 & Y2 & Y3 & Y4).
  { rewrite Lx. lia. }
  { eapply Forall_impl; [|exact (proj2 Ox)]. intros a [La Sa]. split; [exact Sa|]. rewrite La, Nat2Z.inj_pow. change (Z.of_nat 2) with 2.
    split; [apply Z.pow_pos_nonneg; lia|apply Z.pow_le_mono_r; lia]. }
  exists s, y. split; [exact Es|]. split; [exact Ey|]. split; [split; [exact Y3|rewrite Y1; exact (proj2 Ox)]|]. split; [congruence|]. split; [exact Wx|].
  split; [congruence|]. exists f. split; [|exact Hf]. intros i Hi. specialize (Cf i Hi). unfold component in *. rewrite Y1, Y3. rewrite (proj1 Ox) in Cf. exact Cf.
Qed.
End Step.

Lemma tracks_switch k P Q L t key key' x w m A z : enc_key k P L t key -> enc_key k Q L t key' -> Q <= P -> 1 <= t <= Q -> P mod t = Q mod t ->
  (forall i, (i < 2 ^ L)%nat -> cong Q (secret key' i) (signed_secret key i)) -> tracks L t key x w m A ->
  ct_switch_modulus (sk_np key) (sk_p key') (sk_np key') t x = Ok z ->
  tracks L t key' z w m ((2 * Q * A + P * (t + 3) * zsum w (fun j => l1 (2 ^ L) (npow (2 ^ L) (signed_secret key) j))) / (2 * P)).
Proof.
  intros EK EK' LE Ht HM HS (Ox & Lx & Wx & Px & f & Cf & Hf) E.
  destruct (C30_switch_modulus k P Q L t t t key key' x f (ek_key _ _ _ _ _ EK) (ek_key _ _ _ _ _ EK') LE ltac:(lia) HM HS Ox Cf)
    as (z' & Ez & Oz & Pz & Lz & f' & Cz & Hb).
  rewrite Ez in E. injection E as <-. split; [exact Oz|]. split; [congruence|]. split; [exact Wx|]. split; [congruence|].
  exists f'. split; [exact Cz|]. intros i Hi. destruct (Hb i Hi) as [C1 B1]. destruct (Hf i Hi) as [A1 C2]. rewrite Lx in B1.
  pose proof (q_gt1 _ _ _ _ _ (ek_key _ _ _ _ _ EK)) as P1. split.
  - set (S' := zsum w _) in *. apply Z.div_le_lower_bound; [lia|].
    assert (X : P * Z.abs (f' i) <= Z.abs (P * f' i - Q * f i) + Q * Z.abs (f i)).
    { rewrite <- (Z.abs_eq P) at 1 by lia. rewrite <- (Z.abs_eq Q) at 2 by lia. rewrite <- !Z.abs_mul. lia. }
    nia.
  - destruct C1 as (u1 & E1), C2 as (u2 & E2). exists (u1 + u2). lia.
Qed.

Section Circuit.
Variables (k : Z) (L : nat) (t : Z) (keys : nat -> skey) (top : nat).
Hypothesis CH : chain L t keys k top.

Lemma level_top c : wf L t keys k top c -> (level c <= top)%nat.
Proof. induction c; cbn [wf level]; intros H; try tauto; try (apply IHc; tauto); try (apply IHc1; tauto). Qed.

Lemma run_tracks c : forall x, wf L t keys k top c -> run t keys c = Ok x ->
  tracks L t (keys (level c)) x (width c) (meaning L keys c) (noise L t keys c).
Proof.
  induction c as [l G fuel pt s|l G pk be pt v s|a IHa b IHb|a IHa b IHb|a IHa c|a IHa pt|a IHa b IHb pt|a IHa b IHb|a IHa rk|a IHa ak|a IHa gk|a IHa|a IHa];
    intros x Hw E; cbn [wf run level width meaning noise] in *.
  - destruct Hw as (Hl & HG & Hp & Hm). destruct (encrypt G fuel (keys l) pt s) as [[y s']| |] eqn:Ee; try discriminate E. injection E as <-.
    destruct (ch_var _ _ _ _ _ CH l Hl) as [V1 V2].
    exact (tracks_enc k _ L t (keys l) (ch_key _ _ _ _ _ CH l Hl) (ch_t _ _ _ _ _ CH l Hl) V1 V2 G fuel pt s y s' HG Hp Hm Ee).
  - destruct Hw as (Hl & HG & (Hp & Hm) & PO & Hbe & V1 & V2). destruct (pub_encrypt G pk pt v s) as [[y s']| |] eqn:Ee; try discriminate E. injection E as <-.
    exact (tracks_pub k _ L t (keys l) (ch_key _ _ _ _ _ CH l Hl) (ch_t _ _ _ _ _ CH l Hl) G pk be pt v s y s' HG Hp Hm PO Hbe V1 V2 Ee).
  - destruct Hw as (Wa & Wb & El). destruct (run t keys a) as [u| |]; try discriminate E. destruct (run t keys b) as [w| |]; try discriminate E. cbn [bind] in E.
    specialize (IHa u Wa eq_refl). specialize (IHb w Wb eq_refl). rewrite <- El in IHb. pose proof (level_top a Wa) as Hl.
    exact (tracks_add k _ L t _ (ch_key _ _ _ _ _ CH _ Hl) u w _ _ _ _ _ _ x IHa IHb E).
  - destruct Hw as (Wa & Wb & El). destruct (run t keys a) as [u| |]; try discriminate E. destruct (run t keys b) as [w| |]; try discriminate E. cbn [bind] in E.
    specialize (IHa u Wa eq_refl). specialize (IHb w Wb eq_refl). rewrite <- El in IHb. pose proof (level_top a Wa) as Hl.
    exact (tracks_sub k _ L t _ (ch_key _ _ _ _ _ CH _ Hl) u w _ _ _ _ _ _ x IHa IHb E).
  - destruct Hw as (Wa & Hc). destruct (run t keys a) as [u| |]; try discriminate E. cbn [bind] in E. pose proof (level_top a Wa) as Hl.
    exact (tracks_scale k _ L t _ (ch_key _ _ _ _ _ CH _ Hl) u _ _ _ c x (IHa u Wa eq_refl) Hc E).
  - destruct Hw as (Wa & Hc). destruct (run t keys a) as [u| |]; try discriminate E. cbn [bind] in E. pose proof (level_top a Wa) as Hl.
    exact (tracks_absorb k _ L t _ (ch_key _ _ _ _ _ CH _ Hl) u _ _ _ pt x (IHa u Wa eq_refl) Hc E).
  - destruct Hw as (Wa & Wb & El & Hc). destruct (run t keys a) as [u| |]; try discriminate E. destruct (run t keys b) as [w| |]; try discriminate E. cbn [bind] in E.
    specialize (IHa u Wa eq_refl). specialize (IHb w Wb eq_refl). rewrite <- El in *. pose proof (level_top a Wa) as Hl.
    exact (tracks_fused k _ L t _ (ch_key _ _ _ _ _ CH _ Hl) u w _ _ _ _ _ _ pt x IHa IHb Hc E).
  - destruct Hw as (Wa & Wb & El). destruct (run t keys a) as [u| |]; try discriminate E. destruct (run t keys b) as [w| |]; try discriminate E. cbn [bind] in E.
    specialize (IHa u Wa eq_refl). specialize (IHb w Wb eq_refl). rewrite <- El in IHb. pose proof (level_top a Wa) as Hl.
    exact (tracks_mul k _ L t _ (ch_key _ _ _ _ _ CH _ Hl) u w _ _ _ _ _ _ x IHa IHb E).
  - destruct Hw as (Wa & RO & R1 & Rn). destruct (run t keys a) as [u| |]; try discriminate E. cbn [bind] in E. pose proof (level_top a Wa) as Hl.
    destruct (ch_var _ _ _ _ _ CH _ Hl) as [V1 _].
    exact (tracks_relin k _ L t _ (ch_key _ _ _ _ _ CH _ Hl) (ch_t _ _ _ _ _ CH _ Hl) V1 u _ _ _ rk x (IHa u Wa eq_refl) RO R1 Rn E).
  - destruct Hw as (Wa & AO & A1 & Al & P & HP & HN & Hq & Hd). destruct (run t keys a) as [u| |]; try discriminate E. cbn [bind] in E. pose proof (level_top a Wa) as Hl.
    destruct (ch_var _ _ _ _ _ CH _ Hl) as [V1 _].
    exact (tracks_aux k _ L t _ (ch_key _ _ _ _ _ CH _ Hl) (ch_t _ _ _ _ _ CH _ Hl) V1 u _ _ _ ak P x (IHa u Wa eq_refl) AO A1 Al HP HN Hq Hd E).
  - destruct Hw as (Wa & RO & Rn & W2). destruct (run t keys a) as [u| |]; try discriminate E. cbn [bind] in E. pose proof (level_top a Wa) as Hl.
    destruct (ct_substitute (sk_np (keys (level a))) (rk_pow gk) u) as [w| |] eqn:Ew; try discriminate E. cbn [bind] in E.
    specialize (IHa u Wa eq_refl). rewrite W2 in IHa. destruct (ch_var _ _ _ _ _ CH _ Hl) as [V1 _].
    exact (tracks_rotate k _ L t _ (ch_key _ _ _ _ _ CH _ Hl) (ch_t _ _ _ _ _ CH _ Hl) V1 u _ _ gk w x IHa RO Rn Ew E).
  - destruct Hw as (Wa & Hl'). destruct (run t keys a) as [u| |]; try discriminate E. cbn [bind] in E. pose proof (level_top a Wa) as Hl.
    destruct (ch_step _ _ _ _ _ CH _ Hl') as (S1 & S2 & S3).
    exact (tracks_switch k _ _ L t _ _ u _ _ _ x (ch_key _ _ _ _ _ CH _ Hl) (ch_key _ _ _ _ _ CH _ Hl') S1 (ch_t _ _ _ _ _ CH _ Hl') S2 S3 (IHa u Wa eq_refl) E).
  - destruct Hw as (Wa & W2). destruct (run t keys a) as [u| |]; try discriminate E. cbn [bind] in E. pose proof (level_top a Wa) as Hl.
    destruct (send_ok k _ L t _ (ch_key _ _ _ _ _ CH _ Hl) u _ _ _ (IHa u Wa eq_refl) W2) as (m & y & E1 & E2 & T).
    rewrite E1 in E. cbn [bind] in E. rewrite E2 in E. injection E as <-. exact T.
Qed.

Lemma run_defined c : k <> 16 -> wf L t keys k top c -> leaves_ok keys c -> exists x, run t keys c = Ok x.
Proof.
  intros Hk. induction c as [l G fuel pt s|l G pk be pt v s|a IHa b IHb|a IHa b IHb|a IHa c|a IHa pt|a IHa b IHb pt|a IHa b IHb|a IHa rk|a IHa ak|a IHa gk|a IHa|a IHa];
    intros Hw Hl; cbn [wf run leaves_ok] in *.
  - destruct Hl as ([x s'] & ->). eexists. reflexivity.
  - destruct Hl as ([x s'] & ->). eexists. reflexivity.
  - destruct Hw as (Wa & Wb & El), Hl as (La & Lb). destruct (IHa Wa La) as (u & Eu). destruct (IHb Wb Lb) as (w & Ew). rewrite Eu, Ew. cbn [bind].
    destruct (run_tracks a u Wa Eu) as (Ou & _ & _ & Pu & f & Cf & _). destruct (run_tracks b w Wb Ew) as (Ow & _ & _ & Pw & g & Cg & _). rewrite <- El in *.
    pose proof (level_top a Wa) as Ht.
    destruct (proj1 (C27_add_sub k _ L t _ u w f g (ek_key _ _ _ _ _ (ch_key _ _ _ _ _ CH _ Ht)) Ou Ow Cf Cg ltac:(congruence))) as (z & Ez & _). eauto.
  - destruct Hw as (Wa & Wb & El), Hl as (La & Lb). destruct (IHa Wa La) as (u & Eu). destruct (IHb Wb Lb) as (w & Ew). rewrite Eu, Ew. cbn [bind].
    destruct (run_tracks a u Wa Eu) as (Ou & _ & _ & Pu & f & Cf & _). destruct (run_tracks b w Wb Ew) as (Ow & _ & _ & Pw & g & Cg & _). rewrite <- El in *.
    pose proof (level_top a Wa) as Ht.
    destruct (proj2 (C27_add_sub k _ L t _ u w f g (ek_key _ _ _ _ _ (ch_key _ _ _ _ _ CH _ Ht)) Ou Ow Cf Cg ltac:(congruence))) as (z & Ez & _). eauto.
  - destruct Hw as (Wa & Hc). destruct (IHa Wa Hl) as (u & Eu). rewrite Eu. cbn [bind]. destruct (run_tracks a u Wa Eu) as (Ou & _ & _ & Pu & f & Cf & _).
    pose proof (level_top a Wa) as Ht.
    destruct (C28_absorb_scalar k _ L t _ u f c _ (ek_key _ _ _ _ _ (ch_key _ _ _ _ _ CH _ Ht)) Ou Cf Hc (cong_eq _ _ _ eq_refl)) as (z & Ez & _). eauto.
  - destruct Hw as (Wa & Hc). destruct (IHa Wa Hl) as (u & Eu). rewrite Eu. cbn [bind]. destruct (run_tracks a u Wa Eu) as (Ou & _ & _ & Pu & f & Cf & _).
    pose proof (level_top a Wa) as Ht.
    destruct (C28_absorb k _ L t _ u f pt _ (ek_key _ _ _ _ _ (ch_key _ _ _ _ _ CH _ Ht)) Ou Cf Hc (fun i _ => cong_eq _ _ _ eq_refl)) as (z & Ez & _). eauto.
  - destruct Hw as (Wa & Wb & El & Hc), Hl as (La & Lb). destruct (IHa Wa La) as (u & Eu). destruct (IHb Wb Lb) as (w & Ew). rewrite Eu, Ew. cbn [bind].
    destruct (run_tracks a u Wa Eu) as (Ou & _ & _ & Pu & f & Cf & _). destruct (run_tracks b w Wb Ew) as (Ow & _ & _ & Pw & g & Cg & _). rewrite <- El in *.
    pose proof (level_top a Wa) as Ht.
    exact (proj1 (proj2 (C28_fused_absorb k _ L t _ u w f g pt _ (ek_key _ _ _ _ _ (ch_key _ _ _ _ _ CH _ Ht)) Ou Ow Cf Cg ltac:(congruence) Hc (fun i _ => cong_eq _ _ _ eq_refl))) Hk).
  - destruct Hw as (Wa & Wb & El), Hl as (La & Lb). destruct (IHa Wa La) as (u & Eu). destruct (IHb Wb Lb) as (w & Ew). rewrite Eu, Ew. cbn [bind].
    destruct (run_tracks a u Wa Eu) as (Ou & Lu & Wu & Pu & f & Cf & _). destruct (run_tracks b w Wb Ew) as (Ow & Lw & Ww & Pw & g & Cg & _). rewrite <- El in *.
    pose proof (level_top a Wa) as Ht.
    apply (proj1 (proj2 (C28_multiply k _ L t _ u w f g (ek_key _ _ _ _ _ (ch_key _ _ _ _ _ CH _ Ht)) Ou Ow Cf Cg)) Hk); [congruence| |];
      intros X; rewrite X in *; cbn [length] in *; lia.
  - destruct Hw as (Wa & RO & R1 & Rn). destruct (IHa Wa Hl) as (u & Eu). rewrite Eu. cbn [bind]. destruct (run_tracks a u Wa Eu) as (Ou & Lu & _ & Pu & f & Cf & _).
    pose proof (level_top a Wa) as Ht. pose proof (ek_key _ _ _ _ _ (ch_key _ _ _ _ _ CH _ Ht)) as K. destruct (ch_var _ _ _ _ _ CH _ Ht) as [V1 _].
    apply (proj1 (C31_apply k _ L t _ _ rk u f K V1 RO Ou ltac:(congruence) ltac:(rewrite R1; apply (secret_at_one k _ L t _ _ f K Ou); exact Cf)) Hk).
  - destruct Hw as (Wa & AO & A1 & Al & P & HP & HN & Hq & Hd). destruct (IHa Wa Hl) as (u & Eu). rewrite Eu. cbn [bind].
    destruct (run_tracks a u Wa Eu) as (Ou & Lu & _ & Pu & f & Cf & _).
    pose proof (level_top a Wa) as Ht. pose proof (ek_key _ _ _ _ _ (ch_key _ _ _ _ _ CH _ Ht)) as K. destruct (ch_var _ _ _ _ _ CH _ Ht) as [V1 _].
    pose proof (ch_t _ _ _ _ _ CH _ Ht) as T1.
    assert (Htr : 0 <= t < 2 ^ k).
    { pose proof (key_good _ _ _ _ _ K) as G. pose proof (key_k _ _ _ _ _ K) as Ek.
      pose proof (MontgomeryProofs.m4 _ G). pose proof (m_gt1 _ G). rewrite Ek in *. lia. }
    apply (proj1 (C40_apply k _ P L t _ _ ak u f K HP HN Hq Hd Htr V1 AO Ou ltac:(congruence) ltac:(rewrite A1; apply (secret_at_one k _ L t _ _ f K Ou); exact Cf)) Hk).
  - destruct Hw as (Wa & RO & Rn & W2). destruct (IHa Wa Hl) as (u & Eu). rewrite Eu. cbn [bind]. pose proof (run_tracks a u Wa Eu) as T. rewrite W2 in T.
    pose proof (level_top a Wa) as Ht. pose proof (ch_key _ _ _ _ _ CH _ Ht) as EK. destruct (ch_var _ _ _ _ _ CH _ Ht) as [V1 _].
    destruct (rotate_mid k _ L t _ EK u _ _ gk T RO Rn) as (f & w & _ & Ew & Ow & Lw & Pw & Cw). rewrite Ew. cbn [bind].
    apply (proj1 (C32_apply k _ L t _ _ gk w _ (ek_key _ _ _ _ _ EK) V1 RO Rn Ow Lw Pw Cw) Hk).
  - destruct Hw as (Wa & Hl'). destruct (IHa Wa Hl) as (u & Eu). rewrite Eu. cbn [bind]. destruct (run_tracks a u Wa Eu) as (Ou & _ & _ & Pu & f & Cf & _).
    pose proof (level_top a Wa) as Ht. destruct (ch_step _ _ _ _ _ CH _ Hl') as (S1 & S2 & S3). pose proof (ch_t _ _ _ _ _ CH _ Hl') as T1.
    destruct (C30_switch_modulus k _ _ L t t t _ _ u f (ek_key _ _ _ _ _ (ch_key _ _ _ _ _ CH _ Ht)) (ek_key _ _ _ _ _ (ch_key _ _ _ _ _ CH _ Hl')) S1 ltac:(lia) S2 S3 Ou Cf) as (z & Ez & _). eauto.
  - destruct Hw as (Wa & W2). destruct (IHa Wa Hl) as (u & Eu). rewrite Eu. cbn [bind]. pose proof (level_top a Wa) as Ht.
    destruct (send_ok k _ L t _ (ch_key _ _ _ _ _ CH _ Ht) u _ _ _ (run_tracks a u Wa Eu) W2) as (m & y & E1 & E2 & _).
    rewrite E1. cbn [bind]. eauto.
Qed.
End Circuit.

(** A circuit whose worst-case error stays below half the modulus of its result
    decrypts to what it means. Nothing is required of intermediate results. *)
Theorem C75_circuit :
  forall k L t keys top c x, chain L t keys k top -> wf L t keys k top c -> run t keys c = Ok x ->
  2 * noise L t keys c < p_m (sk_p (keys (level c))) ->
  decrypt (keys (level c)) x = Ok (tabulate (2 ^ L) (fun i => meaning L keys c i mod t)).
Proof.
  intros k L t keys top c x CH Hw E Hb. destruct (run_tracks k L t keys top CH c x Hw E) as (O & _ & _ & _ & f & Ca & Hf).
  pose proof (level_top k L t keys top c Hw) as Hl. pose proof (ch_t _ _ _ _ _ CH _ Hl) as T1.
  rewrite (proj2 (C26_decrypt k _ L t _ x f (ek_key _ _ _ _ _ (ch_key _ _ _ _ _ CH _ Hl)) ltac:(lia) O Ca)).
  - f_equal. unfold tabulate. apply map_ext_in. intros i Hi. apply in_seq in Hi. apply cong_to_mod; [lia|]. apply Hf. lia.
  - intros i Hi. destruct (Hf i Hi) as [A _]. unfold fits. lia.
Qed.

(** On words of 32 bits or more, a circuit runs to the end whenever its fresh
    ciphertexts could be made. *)
Theorem C75_defined :
  forall k L t keys top c, chain L t keys k top -> wf L t keys k top c -> k <> 16 -> leaves_ok keys c ->
  exists x, run t keys c = Ok x /\ length (ct_c x) = width c.
Proof.
  intros k L t keys top c CH Hw Hk Hl. destruct (run_defined k L t keys top CH c Hk Hw Hl) as (x & E). exists x. split; [exact E|].
  apply (run_tracks k L t keys top CH c x Hw E).
Qed.

(** Such chains are what SwitchModulus on the key produces. *)
Theorem C75_chain :
  forall k L lt (keys : nat -> skey) top, 0 <= lt -> enc_key k (p_m (sk_p (keys 0%nat))) L (2 ^ lt + 1) (keys 0%nat) ->
  2 ^ lt + 1 <= p_m (sk_p (keys 0%nat)) -> sk_logt (keys 0%nat) = lt -> 0 <= sk_var (keys 0%nat) -> 2 * sk_var (keys 0%nat) <= p_m (sk_p (keys 0%nat)) ->
  (forall l, (S l <= top)%nat -> exists Q pq npq, params_for k Q pq /\ ntt_for pq L npq /\ Q <= p_m (sk_p (keys l)) /\ 2 ^ lt + 1 < Q /\
     2 * sk_var (keys 0%nat) <= Q /\ key_switch_modulus pq npq (keys l) = Ok (keys (S l))) ->
  chain L (2 ^ lt + 1) keys k top.
Proof.
  intros k L lt keys top Hlt E0 T0 L0 V0 V1 H. pose proof (Z.pow_pos_nonneg 2 lt ltac:(lia) Hlt) as P2.
  assert (I : forall l, (l <= top)%nat -> enc_key k (p_m (sk_p (keys l))) L (2 ^ lt + 1) (keys l) /\ 2 ^ lt + 1 <= p_m (sk_p (keys l)) /\ sk_logt (keys l) = lt /\
    sk_var (keys l) = sk_var (keys 0%nat) /\ 2 * sk_var (keys 0%nat) <= p_m (sk_p (keys l)) /\
    ((S l <= top)%nat -> p_m (sk_p (keys (S l))) <= p_m (sk_p (keys l)) /\ p_m (sk_p (keys l)) mod (2 ^ lt + 1) = p_m (sk_p (keys (S l))) mod (2 ^ lt + 1) /\
      (forall i, (i < 2 ^ L)%nat -> cong (p_m (sk_p (keys (S l)))) (secret (keys (S l)) i) (signed_secret (keys l) i)) /\
      enc_key k (p_m (sk_p (keys (S l)))) L (2 ^ lt + 1) (keys (S l)) /\ 2 ^ lt + 1 <= p_m (sk_p (keys (S l))) /\ sk_logt (keys (S l)) = lt /\
      sk_var (keys (S l)) = sk_var (keys 0%nat) /\ 2 * sk_var (keys 0%nat) <= p_m (sk_p (keys (S l))))).
  { assert (ST : forall l, (S l <= top)%nat -> enc_key k (p_m (sk_p (keys l))) L (2 ^ lt + 1) (keys l) -> sk_logt (keys l) = lt -> sk_var (keys l) = sk_var (keys 0%nat) ->
      p_m (sk_p (keys (S l))) <= p_m (sk_p (keys l)) /\ p_m (sk_p (keys l)) mod (2 ^ lt + 1) = p_m (sk_p (keys (S l))) mod (2 ^ lt + 1) /\
      (forall i, (i < 2 ^ L)%nat -> cong (p_m (sk_p (keys (S l)))) (secret (keys (S l)) i) (signed_secret (keys l) i)) /\
      enc_key k (p_m (sk_p (keys (S l)))) L (2 ^ lt + 1) (keys (S l)) /\ 2 ^ lt + 1 <= p_m (sk_p (keys (S l))) /\ sk_logt (keys (S l)) = lt /\
      sk_var (keys (S l)) = sk_var (keys 0%nat) /\ 2 * sk_var (keys 0%nat) <= p_m (sk_p (keys (S l)))).
    { intros l Hl EK EL EV. destruct (H l Hl) as (Q & pq & npq & HP & HN & LE & HQ & HV & E). pose proof (ek_key _ _ _ _ _ EK) as K.
      destruct (Z.eq_dec (p_m (sk_p (keys l)) mod (2 ^ lt + 1)) (Q mod (2 ^ lt + 1))) as [HM|HM].
      - destruct (key_switch_ok k (p_m (sk_p (keys l))) Q L (2 ^ lt + 1) (keys l) pq npq K HP HN LE) as (key' & E' & EK' & Ep & En & Elt & Ev & S'); rewrite ?EL; try assumption.
        rewrite E in E'. injection E' as <-. rewrite EL in EK', Elt. pose proof (pf_good _ _ _ HP) as (_ & _ & EQ). rewrite Ep, EQ. split; [exact LE|]. split; [exact HM|].
        split; [intros i Hi; rewrite (S' i Hi); apply cong_iff; [lia|apply Z.mod_mod; lia]|]. split; [exact EK'|]. split; [lia|]. split; [exact Elt|]. split; [congruence|exact HV].
      - destruct (C30_key_switch_modulus k _ Q L (2 ^ lt + 1) (keys l) pq npq K HP HN LE) as [_ F]; rewrite ?EL in *; try assumption. rewrite (F HM) in E. discriminate E. }
    induction l as [|l IH]; intros Hl.
    - split; [exact E0|]. split; [exact T0|]. split; [exact L0|]. split; [reflexivity|]. split; [exact V1|]. intros H1. apply (ST 0%nat H1 E0 L0 eq_refl).
    - destruct (IH ltac:(lia)) as (_ & _ & _ & _ & _ & N). destruct (N Hl) as (_ & _ & _ & N1 & N2 & N3 & N4 & N5).
      split; [exact N1|]. split; [exact N2|]. split; [exact N3|]. split; [exact N4|]. split; [exact N5|]. intros H1. apply (ST (S l) H1 N1 N3 N4). }
  constructor.
  - intros l Hl. apply (I l Hl).
  - intros l Hl. destruct (I l Hl) as (_ & A & _). lia.
  - intros l Hl. destruct (I l Hl) as (_ & _ & _ & -> & A & _). split; assumption.
  - intros l Hl. destruct (I l ltac:(lia)) as (_ & _ & _ & _ & _ & N). destruct (N Hl) as (N1 & N2 & N3 & _). auto.
Qed.

(** The example: two levels, 786433 and 193 (both 1 modulo 3), degree 8, t = 3:
    switch(relinearize(m * m)) + send(m' * a), m and m' fresh at levels 0 and 1. *)
Definition p1 : mparams := Eval vm_compute in params_make 32 193.
Definition np1 : nttp := Eval vm_compute in match init_ntt p1 3 with Ok np => np | _ => Build_nttp 0 0 [] [] [] [] [] end.
Definition key0 : skey := Eval vm_compute in keyr.
Definition rk0 : relin := Eval vm_compute in rkr.
Definition m0 : poly := Eval vm_compute in mr.
Lemma key0_eq : key0 = keyr. Proof. vm_compute. reflexivity. Qed.
Lemma rk0_eq : rk0 = rkr. Proof. vm_compute. reflexivity. Qed.
Lemma same_key (key key' : skey) p np : key = key' -> enc_key 32 786433 3 3 key' /\ sk_var key' = 1 /\ sk_p key' = p /\ sk_np key' = np ->
  enc_key 32 786433 3 3 key /\ sk_var key = 1.
Proof. intros -> (A & B & _). split; assumption. Qed.
Lemma same_relin key key' rk rk' : key = key' -> rk = rk' -> relin_ok 3 3 1 key' rk' -> relin_ok 3 3 1 key rk.
Proof. intros -> -> A. exact A. Qed.
Lemma key0_ok : enc_key 32 786433 3 3 key0 /\ sk_var key0 = 1.
Proof. exact (same_key key0 keyr pr npr key0_eq keyr_ok). Qed.
Lemma rk0_relin : relin_ok 3 3 1 key0 rk0.
Proof. exact (same_relin key0 keyr rk0 rkr key0_eq rk0_eq rkr_relin). Qed.
Definition key1 : skey := Eval vm_compute in match key_switch_modulus p1 np1 key0 with Ok key => key | _ => key0 end.
Definition keys2 (l : nat) : skey := match l with O => key0 | _ => key1 end.
Definition m1 : poly := Eval vm_compute in match convert_to_ntt p1 np1 (map (import_int p1) [2; 0; 1; 0; 0; 2; 1; 1]) with Ok a => a | _ => [] end.
Definition a1 : poly := Eval vm_compute in match convert_to_ntt p1 np1 (map (import_int p1) [1; 0; 0; 2; 0; 0; 0; 0]) with Ok a => a | _ => [] end.
Definition circ : circuit :=
  CAdd (CSwitch (CRelin (CMul (CEnc 0 toy 100 m0 5) (CEnc 0 toy 100 m0 6)) rk0)) (CSend (CAbsorb (CEnc 1 toy 100 m1 9) a1)).

Lemma p1_for : params_for 32 193 p1.
Proof. split; [right; left; reflexivity|]. split; [lia|vm_compute; reflexivity]. Qed.
Lemma np1_for : ntt_for p1 3 np1.
Proof. split; [apply (prime_by_trial 193 20%nat); [lia|vm_compute; reflexivity]|vm_compute; reflexivity]. Qed.
Lemma key1_eq : key_switch_modulus p1 np1 key0 = Ok key1.
Proof. vm_compute. reflexivity. Qed.

Lemma keys2_chain : chain 3 3 keys2 32 1.
Proof.
  destruct key0_ok as [EK Ev]. pose proof (key_q _ _ _ _ _ (ek_key _ _ _ _ _ EK)) as Q0.
  assert (LT : sk_logt key0 = 1) by (vm_compute; reflexivity).
  apply (C75_chain 32 3 1 keys2 1); cbn [keys2]; try lia.
  - rewrite Q0. exact EK.
  - intros l Hl. assert (l = 0%nat) as -> by lia. cbn [keys2]. exists 193, p1, np1. rewrite Q0, Ev.
    split; [exact p1_for|]. split; [exact np1_for|]. split; [lia|]. split; [lia|]. split; [lia|]. exact key1_eq.
Qed.

Definition message_check (L : nat) (t : Z) (key : skey) (pt : poly) : bool :=
  (length pt =? 2 ^ L)%nat && forallb (fun c => (0 <=? c) && (c <=? p_m (sk_p key))) pt &&
  forallb (fun i => let c := coeff (sk_p key) (sk_np key) pt i in (0 <=? c) && (c <? t)) (seq 0 (2 ^ L)).
Lemma message_checked L t keys l pt : message_check L t (keys l) pt = true -> message_ok L t keys l pt.
Proof.
  unfold message_check. intros H. apply andb_prop in H. destruct H as [H H3]. apply andb_prop in H. destruct H as [H1 H2].
  apply Nat.eqb_eq in H1. rewrite forallb_forall in H2, H3. split.
  - split; [exact H1|]. apply Forall_forall. intros c Hc. specialize (H2 c Hc). unfold stored. lia.
  - intros i Hi. assert (In i (seq 0 (2 ^ L))) as Hin by (apply in_seq; lia). specialize (H3 i Hin). cbv zeta in H3. unfold plain. lia.
Qed.

Lemma circ_wf : wf 3 3 keys2 32 1 circ.
Proof.
  assert (M0 : message_ok 3 3 keys2 0 m0) by (apply message_checked; vm_compute; reflexivity).
  assert (M1 : message_ok 3 3 keys2 1 m1) by (apply message_checked; vm_compute; reflexivity).
  assert (A1 : message_ok 3 3 keys2 1 a1) by (apply message_checked; vm_compute; reflexivity).
  pose proof rk0_relin as RO. destruct key0_ok as [_ Ev].
  assert (R1 : rk_pow rk0 = 1) by (vm_compute; reflexivity). assert (R2 : rk_num rk0 = 3) by (vm_compute; reflexivity).
  cbn [wf circ level width keys2 Nat.add Nat.sub]. rewrite Ev. pose proof toy_ok as TO.
  split; [|split; [|reflexivity]].
  - split; [|lia]. split; [|split; [exact RO|split; [exact R1|exact R2]]]. split; [|split; [|reflexivity]]; (split; [lia|]; split; [exact TO|exact M0]).
  - split; [|lia]. split; [split; [lia|]; split; [exact TO|exact M1]|exact (proj1 A1)].
Qed.

Example C75_example :
  chain 3 3 keys2 32 1 /\ wf 3 3 keys2 32 1 circ /\ leaves_ok keys2 circ /\ 2 * noise 3 3 keys2 circ < p_m (sk_p (keys2 (level circ))) /\
  (exists x, run 3 keys2 circ = Ok x /\ decrypt key1 x = Ok [1; 0; 2; 0; 2; 2; 2; 2]).
Proof.
  split; [exact keys2_chain|]. split; [exact circ_wf|].
  assert (L0 : leaves_ok keys2 circ).
  { cbn [leaves_ok circ keys2]. split; [split|]; (eexists; vm_compute; reflexivity). }
  split; [exact L0|]. assert (N : 2 * noise 3 3 keys2 circ < p_m (sk_p (keys2 (level circ)))) by (vm_compute; reflexivity).
  split; [exact N|]. destruct (C75_defined 32 3 3 keys2 1 circ keys2_chain circ_wf ltac:(lia) L0) as (x & E & _). exists x. split; [exact E|].
  change key1 with (keys2 (level circ)). rewrite (C75_circuit 32 3 3 keys2 1 circ x keys2_chain circ_wf E N). vm_compute. reflexivity.
Qed.

Print Assumptions C75_circuit.
Print Assumptions C75_defined.
Print Assumptions C75_chain.
Print Assumptions C75_example.
