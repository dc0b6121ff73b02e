(** Proofs for C76: the invariant that every BGV circuit keeps, for any encoder. *)
From Coq Require Import Znumtheory QArith Lia.
From Verif Require Import Base FinSum PolySpec Ring NegRing SymSpec SymProofs2 Montgomery MontBatch MontBatchProofs Spec Prng Sampling SampleSpec PolyProofs ExpandProofs RelinProofs ThmRelin
  RnsPoly RnsSpec CrtMath RnsSub RnsProofs RnsBasis RnsBasis2 RnsCtx RnsCtxSpec RnsCtxFacts ThmRnsCtx RnsCt RnsCtSpec RnsCtProofs RnsNoise ThmRnsCt RnsEncode RnsEncodeSpec RnsKey RnsKeySpec
  RnsKeyProofs ThmRnsKey RnsDecode RnsGadget RnsGadgetSpec RnsSwitchSpec ThmRnsGalois ThmRnsRelin RnsPub RnsPubSpec ThmRnsPub ThmRnsCtMore RnsBfv RnsBfvSpec FieldSpec RnsCircuitSpec.
Local Open Scope Z_scope.
Local Notation zsum := FinSum.zsum.

Section Generic.
Variables (k log_n : Z) (qs ps : list Z) (t : Z) (c : rctx).
Hypothesis A : ctx_args k qs ps t.
Hypothesis M : ctx_made k log_n qs ps t c.
Hypothesis K16 : k <> 16.
Local Notation L := (Z.to_nat log_n).
Local Notation n := (2 ^ L)%nat.
Variables (sk : nat -> Z) (bs : Z) (keys : nat -> rskey).
Hypothesis RK : rkeys L c sk bs keys.

(** what the values of a vector of messages say about a polynomial *)
Variable rep : (nat -> Z) -> (nat -> Z) -> Prop.
Variable mul : (nat -> Z) -> (nat -> Z) -> nat -> Z.
Variable move : bool -> nat -> (nat -> Z) -> nat -> Z.
Hypothesis rep_ext : forall v m m', pcong t n m m' -> rep v m -> rep v m'.
Hypothesis rep_neg : forall v m, rep v m -> rep (fun i => - v i) (fun i => - m i).
Hypothesis rep_add : forall v m v' m', rep v m -> rep v' m' -> rep (fun i => v i + v' i) (fun i => m i + m' i).
Hypothesis rep_sub : forall v m v' m', rep v m -> rep v' m' -> rep (fun i => v i - v' i) (fun i => m i - m' i).
Hypothesis rep_scale : forall v m x, rep v m -> rep (fun i => x * v i) (fun i => x * m i).
Hypothesis rep_mul : forall v m v' m', rep v m -> rep v' m' -> rep (mul v v') (negacyclic n m m').
Hypothesis rep_move : forall v m swap r, rep v m -> rep (move swap r v) (substituted n (Z.to_nat (move_power n swap r)) m).

Lemma ctx_length : length (rc_qs c) = length qs.
Proof. exact (ctx_len k log_n t qs ps c A M). Qed.

Lemma t_pos : 1 < t < 2 ^ k.
Proof. exact (proj2 (ctx_t k log_n t qs ps c A M)). Qed.

Lemma bounded_nonneg B f : bounded n B f -> 0 <= B.
Proof. intros H. specialize (H 0%nat (Hn L)). lia. Qed.

Lemma l_ok l : (l < length (rc_qs c))%nat -> moduli_ok k L (at_level c l) /\ at_level c l <> [] /\ distinct (at_level c l).
Proof.
  rewrite ctx_length. intros H. split; [apply (level_ok k log_n t qs ps c A M)|]. split; [apply (level_ne k log_n t qs ps c A M l H)|].
  apply (level_distinct k log_n t qs ps c A M).
Qed.

Lemma L_range : (0 < length (rc_qs c))%nat -> (L < 16)%nat.
Proof. intros H. destruct (l_ok 0 H) as (OK & NE & _). pose proof (ok_L k L _ OK NE). lia. Qed.

(** the powers of [RSubst] are odd numbers below 2n *)
Lemma move_power_ok swap r : (0 < L)%nat -> 0 < move_power n swap r < 2 * Z.of_nat n /\ Z.odd (move_power n swap r) = true.
Proof.
  intros HL. unfold move_power. pose proof (Hn L) as N0.
  assert (O : Z.odd (((if swap then -1 else 1) * 5 ^ Z.of_nat r) mod (2 * Z.of_nat n)) = true).
  { rewrite Z.odd_spec. destruct (Z.odd_spec (((if swap then -1 else 1) * 5 ^ Z.of_nat r))) as [X _].
    assert (Y : Z.odd ((if swap then -1 else 1) * 5 ^ Z.of_nat r) = true).
    { rewrite Z.odd_mul. clear X. destruct swap; cbn [Z.odd andb].
      all: induction r as [|r IH]; [reflexivity|]; rewrite Nat2Z.inj_succ, Z.pow_succ_r, Z.odd_mul by lia; cbn [Z.odd andb]; exact IH. }
    destruct (X Y) as (u & Eu). rewrite Eu. exists (u - Z.of_nat n * ((2 * u + 1) / (2 * Z.of_nat n))).
    rewrite Z.mod_eq by lia. ring. }
  split; [|exact O]. pose proof (Z.mod_pos_bound ((if swap then -1 else 1) * 5 ^ Z.of_nat r) (2 * Z.of_nat n) ltac:(lia)) as P.
  destruct (Z.eq_dec (((if swap then -1 else 1) * 5 ^ Z.of_nat r) mod (2 * Z.of_nat n)) 0) as [Z0|]; [|lia]. rewrite Z0 in O. discriminate O.
Qed.

(** the keys made by ModReduce *)
Section Bgv.
Variable E : encoder.
Hypothesis Et : en_t E = t.
Hypothesis G : forall q, In q qs -> Z.gcd q t = 1.
Hypothesis enc_ok : forall l msgs, (l < length (rc_qs c))%nat -> msgs_ok L t msgs ->
  exists ntt p m, en_bgv E msgs (at_level c l) = Ok p /\ rns_is (at_level c l) L ntt p m /\ bounded n (t / 2) m /\ rep (fun i => nth i msgs 0) m.

Definition tracks (l : nat) (x : rct) (len : nat) (v : nat -> Z) (B : Z) : Prop :=
  exists w, ciphertext (at_level c l) L sk len 1 x w /\ bounded n B w /\ rep v w.

Lemma plain_ok l msgs : (l < length (rc_qs c))%nat -> msgs_ok L t msgs ->
  exists p m, bgv_plain E c l msgs = Ok p /\ rns_is (at_level c l) L true p m /\ bounded n (t / 2) m /\ rep (fun i => nth i msgs 0) m.
Proof.
  intros Hl Hm. destruct (enc_ok l msgs Hl Hm) as (ntt & p & m & Ep & Hp & Bm & Rm). unfold bgv_plain. rewrite Ep. cbn [bind].
  destruct (l_ok l Hl) as (OK & _). unfold ensure_ntt. rewrite (proj1 (proj2 Hp)). destruct ntt.
  - exists p, m. auto.
  - destruct (rns_to_ntt_is k L _ OK p m Hp) as (p' & Ep' & Hp'). exists p', m. auto.
Qed.

(** a phase m + t e *)
Lemma fresh_bound m e B : bounded n (t / 2) m -> bounded n B e -> bounded n (t / 2 + t * B) (fun i => m i + t * e i).
Proof.
  intros Bm Be i Hi. specialize (Bm i Hi). specialize (Be i Hi). pose proof t_pos as T.
  pose proof (Z.abs_triangle (m i) (t * e i)) as X. rewrite Z.abs_mul, (Z.abs_eq t) in X by lia.
  pose proof (Z.mul_le_mono_nonneg_l _ _ t ltac:(lia) Be). lia.
Qed.

Lemma fresh_rep v m e : rep v m -> rep v (fun i => m i + t * e i).
Proof. apply rep_ext. intros i _. exists (- e i). ring. Qed.

Lemma track_enc l R fuel msgs s x s' : (l < length (rc_qs c))%nat -> prng_ok R -> msgs_ok L t msgs ->
  rsk_encrypt_bgv R fuel (keys l) E msgs s = Ok (x, s') ->
  tracks l x 2 (fun i => nth i msgs 0) (t / 2 + t * (2 * rsk_var (keys l))).
Proof.
  intros Hl HR Hm Ex. destruct (l_ok l Hl) as (OK & NE & DI). destruct (enc_ok l msgs Hl Hm) as (ntt & p & m & Ep & Hp & Bm & Rm).
  pose proof t_pos as T.
  destruct (C59_encrypt_bgv k L _ R fuel (keys l) sk E msgs ntt p m s x s' OK NE DI K16 HR (rk_key _ _ _ _ _ RK l Hl) (rk_var _ _ _ _ _ RK l Hl)
    ltac:(lia) Ep Hp Ex) as (a & s1 & e & _ & Be & Hx & _). rewrite Et in Hx.
  exists (fun i => m i + t * e i). split; [exact Hx|]. split; [apply fresh_bound; assumption|apply fresh_rep, Rm].
Qed.

Lemma pub_error_bound s e r e' e'' be b : 0 <= be -> bounded n bs s -> bounded n be e -> bounded n b r -> bounded n b e' -> bounded n b e'' ->
  bounded n (pub_bound n be b bs) (pub_error n s e r e' e'').
Proof.
  intros Hbe Bs Be Br B1 B2 i Hi. pose proof (bounded_nonneg _ _ Br) as B0. pose proof (bounded_nonneg _ _ Bs) as S0. unfold pub_error, pub_bound.
  pose proof (negacyclic_bound n e r be b i Hbe B0 Be Br Hi) as N1. pose proof (negacyclic_bound n e'' s b bs i B0 S0 B2 Bs Hi) as N2.
  specialize (B1 i Hi). lia.
Qed.

Lemma track_pub l R pk be msgs s x s' : (l < length (rc_qs c))%nat -> prng_ok R -> msgs_ok L t msgs ->
  public_key (at_level c l) L sk t be pk -> 0 <= be -> variance_fits (rpk_var pk) (at_level c l) ->
  rpk_encrypt_bgv R pk E msgs s = Ok (x, s') ->
  tracks l x 2 (fun i => nth i msgs 0) (t / 2 + t * pub_bound n be (2 * rpk_var pk) bs).
Proof.
  intros Hl HR Hm HP Hbe HV Ex. destruct (l_ok l Hl) as (OK & NE & DI). destruct (enc_ok l msgs Hl Hm) as (ntt & p & m & Ep & Hp & Bm & Rm).
  pose proof t_pos as T. rewrite <- Et in HP.
  destruct (C67_encrypt_bgv k L _ R sk be pk E msgs ntt p m s x s' OK NE K16 HR HP HV ltac:(lia) Ep Hp Ex) as (e & r & e' & e'' & Be & Br & B1 & B2 & Hx).
  rewrite Et in Hx. exists (fun i => m i + t * pub_error n sk e r e' e'' i). split; [exact Hx|].
  split; [apply fresh_bound; [exact Bm|apply pub_error_bound; try assumption; apply (rk_bound _ _ _ _ _ RK)]|apply fresh_rep, Rm].
Qed.

Lemma conv_bound f g a b : bounded n a f -> bounded n b g -> bounded n (Z.of_nat n * (a * b)) (negacyclic n f g).
Proof. intros F H i Hi. apply negacyclic_bound; auto; eapply bounded_nonneg; eassumption. Qed.

Lemma switch_bounded w e s b : bounded n b w -> bounded n s e -> bounded n (b + t * s) (fun i => w i + t * e i).
Proof.
  intros Bw Be i Hi. specialize (Bw i Hi). specialize (Be i Hi). pose proof t_pos as T.
  pose proof (Z.abs_triangle (w i) (t * e i)) as X. rewrite Z.abs_mul, (Z.abs_eq t) in X by lia.
  pose proof (Z.mul_le_mono_nonneg_l _ _ t ltac:(lia) Be). lia.
Qed.

Lemma key_size_le len : key_size n sk len <= key_bound n bs len.
Proof.
  pose proof (rk_bound _ _ _ _ _ RK) as B. assert (H : 0 <= l1 n sk <= Z.of_nat n * bs).
  { split; [apply l1_nonneg|]. unfold l1. rewrite <- zsum_const. apply zsum_le. exact B. }
  apply zsum_le. intros e _. apply Z.pow_le_mono_l. exact H.
Qed.

Lemma track_reduce l x len v b : (S l < length (rc_qs c))%nat -> tracks (S l) x len v b ->
  exists z inv y, get (rc_prime_q_invs c) (S l) = Ok z /\ rnsint_prefix z (S l) = Ok inv /\ rbgv_mod_reduce x t inv = Ok y /\
  tracks l y len v ((2 * (nth (S l) (moduli (rc_qs c)) 0 mod t) * b + t * (nth (S l) (moduli (rc_qs c)) 0 - 1) * key_bound n bs len) / (2 * nth (S l) (moduli (rc_qs c)) 0)).
Proof.
  intros Hl (w & Hx & Bw & Rw). assert (Hl' := Hl). rewrite ctx_length in Hl'.
  destruct (C49_levels k log_n qs ps t c (S l) A M Hl') as (_ & _ & _ & _ & m & z & inv & Em & Ez & Ei & HI).
  exists z, inv. destruct (l_ok l ltac:(lia)) as (OK & NE & _). destruct (l_ok (S l) Hl) as (OK' & _ & _).
  assert (EL : at_level c (S l) = at_level c l ++ [m]) by (unfold at_level; apply firstn_last; exact Em).
  assert (Om : mod_ok k L m). { rewrite EL in OK'. apply Forall_app in OK'. exact (Forall_inv (proj2 OK')). }
  assert (Em' : nth (S l) (moduli (rc_qs c)) 0 = modulus m) by (unfold moduli; apply nth_error_nth; rewrite nth_error_map, Em; reflexivity).
  rewrite Em'. rewrite EL in Hx. pose proof t_pos as T.
  assert (Gm : Z.gcd (modulus m) t = 1).
  { apply G. pose proof (proj1 (proj2 (ctx_qs_ok k log_n t qs ps c A M))) as EM. rewrite <- EM, <- Em'. apply nth_In. unfold moduli. rewrite map_length. exact Hl. }
  destruct (C60_mod_reduce k L (at_level c l) m sk len 1 x w t inv OK Om NE HI ltac:(lia) Gm ltac:(lia) Hx) as (w' & (y & Ey & Hy) & H).
  exists y. split; [exact Ez|]. split; [exact Ei|]. split; [exact Ey|]. exists w'. split; [exact Hy|]. split.
  - intros i Hi. destruct (H i Hi) as [_ Bd]. specialize (Bw i Hi). pose proof (ok_q k L m Om) as Q1. apply Z.div_le_lower_bound; [lia|].
    pose proof (Z.mod_pos_bound (modulus m) t ltac:(lia)). fold (key_size n sk len) in Bd. pose proof (key_size_le len) as KS.
    pose proof (Z.mul_le_mono_nonneg_l _ _ (2 * (modulus m mod t)) ltac:(lia) Bw) as X1.
    pose proof (Z.mul_le_mono_nonneg_l _ _ (t * (modulus m - 1)) ltac:(nia) KS) as X2. lia.
  - apply (rep_ext v w); [|exact Rw]. intros i Hi. destruct (H i Hi) as [(u & Eu) _]. exists (- u). lia.
Qed.

Lemma track_send l x len v b : (l < length (rc_qs c))%nat -> tracks l x len v b ->
  exists m y, rct_serialize x = Ok m /\ rct_deserialize m (at_level c l) = Ok y /\ tracks l y len v b.
Proof.
  intros Hl (w & Hx & Bw & Rw). destruct (l_ok l Hl) as (OK & NE & _). destruct Hx as (X1 & X2 & X3 & cs & Hc & HP).
  destruct (C72_round_trip k L (at_level c l) x OK NE X1) as (m & Em & Ey & _).
  { clear X3 HP. induction Hc as [|a f r fs Ha Hc IH]; constructor; [|exact IH]. destruct Ha as (A1 & A2 & A3). split; [exact A1|].
    eapply Forall2_imp; [exact A3|]. cbv beta. intros q u _ Hu. exact (proj1 Hu). }
  exists m, (rct_with_lazy x []). split; [exact Em|]. split; [exact Ey|]. exists w. split; [|auto].
  split; [exact X1|]. split; [exact X2|]. split; [exact X3|]. exists cs. split; [exact Hc|exact HP].
Qed.

Theorem bgv_tracks a : rwf k L t c sk t a -> bgv_leaves E keys a ->
  (rlevel a < length (rc_qs c))%nat /\ (1 <= rwidth a)%nat /\
  exists x, run_bgv E t c keys a = Ok x /\ tracks (rlevel a) x (rwidth a) (values mul move a) (bgv_noise n t c keys bs a).
Proof.
  induction a as [l R fuel msgs s|l R pk be msgs s|a IHa|a IHa b IHb|a IHa b IHb|a IHa msgs|a IHa msgs|a IHa msgs|a IHa msgs|a IHa x0|a IHa b IHb msgs|a IHa b IHb
    |a IHa rr be B ws|a IHa swap r gk be B ws|a IHa|a IHa]; cbn [rwf bgv_leaves rlevel rwidth run_bgv values bgv_noise]; intros W Lv.
  - destruct W as (Hl & HR & Hm), Lv as ([x s'] & Ex). split; [exact Hl|]. split; [lia|]. exists x. rewrite Ex. split; [reflexivity|].
    exact (track_enc l R fuel msgs s x s' Hl HR Hm Ex).
  - destruct W as (Hl & HR & Hm & HP & Hbe & HV), Lv as ([x s'] & Ex). split; [exact Hl|]. split; [lia|]. exists x. rewrite Ex. split; [reflexivity|].
    exact (track_pub l R pk be msgs s x s' Hl HR Hm HP Hbe HV Ex).
  - destruct (IHa W Lv) as (Hl & Hw & x & Ex & w & Hx & Bw & Rw). split; [exact Hl|]. split; [exact Hw|]. rewrite Ex. cbn [bind].
    destruct (l_ok _ Hl) as (OK & _). destruct (C58_linear k L _ sk _ 1 x x w w OK Hx Hx) as ((y & Ey & Hy) & _).
    exists y. split; [exact Ey|]. exists (fun i => - w i). split; [exact Hy|]. split; [intros i Hi; rewrite Z.abs_opp; exact (Bw i Hi)|apply rep_neg, Rw].
  - destruct W as (Wa & Wb & El & Ew), Lv as (La & Lb). destruct (IHa Wa La) as (Hl & Hw & x & Ex & w & Hx & Bw & Rw). destruct (IHb Wb Lb) as (_ & _ & y & Ey & u & Hy & Bu & Ru).
    split; [exact Hl|]. split; [exact Hw|]. rewrite Ex, Ey. cbn [bind]. rewrite <- El, <- Ew in Hy. destruct (l_ok _ Hl) as (OK & _).
    destruct (C58_linear k L _ sk _ 1 x y w u OK Hx Hy) as (_ & (z & Ez & Hz) & _). exists z. split; [exact Ez|].
    exists (fun i => w i + u i). split; [exact Hz|]. split; [|apply rep_add; assumption].
    intros i Hi. specialize (Bw i Hi). specialize (Bu i Hi). lia.
  - destruct W as (Wa & Wb & El & Ew), Lv as (La & Lb). destruct (IHa Wa La) as (Hl & Hw & x & Ex & w & Hx & Bw & Rw). destruct (IHb Wb Lb) as (_ & _ & y & Ey & u & Hy & Bu & Ru).
    split; [exact Hl|]. split; [exact Hw|]. rewrite Ex, Ey. cbn [bind]. rewrite <- El, <- Ew in Hy. destruct (l_ok _ Hl) as (OK & _).
    destruct (C58_linear k L _ sk _ 1 x y w u OK Hx Hy) as (_ & _ & (z & Ez & Hz)). exists z. split; [exact Ez|].
    exists (fun i => w i - u i). split; [exact Hz|]. split; [|apply rep_sub; assumption].
    intros i Hi. specialize (Bw i Hi). specialize (Bu i Hi). lia.
  - destruct W as (Wa & Hm). destruct (IHa Wa Lv) as (Hl & Hw & x & Ex & w & Hx & Bw & Rw). split; [exact Hl|]. split; [exact Hw|]. rewrite Ex. cbn [bind].
    destruct (plain_ok _ msgs Hl Hm) as (p & m & Ep & Hp & Bm & Rm). rewrite Ep. cbn [bind]. destruct (l_ok _ Hl) as (OK & _).
    destruct (C58_plaintext k L _ sk _ 1 x w p m OK Hw Hx Hp) as ((z & Ez & Hz) & _). exists z. split; [exact Ez|].
    exists (fun i => w i + m i). split; [exact Hz|]. split; [|apply rep_add; assumption].
    intros i Hi. specialize (Bw i Hi). specialize (Bm i Hi). lia.
  - destruct W as (Wa & Hm). destruct (IHa Wa Lv) as (Hl & Hw & x & Ex & w & Hx & Bw & Rw). split; [exact Hl|]. split; [exact Hw|]. rewrite Ex. cbn [bind].
    destruct (plain_ok _ msgs Hl Hm) as (p & m & Ep & Hp & Bm & Rm). rewrite Ep. cbn [bind]. destruct (l_ok _ Hl) as (OK & _).
    destruct (C58_plaintext k L _ sk _ 1 x w p m OK Hw Hx Hp) as (_ & (z & Ez & Hz) & _). exists z. split; [exact Ez|].
    exists (fun i => w i - m i). split; [exact Hz|]. split; [|apply rep_sub; assumption].
    intros i Hi. specialize (Bw i Hi). specialize (Bm i Hi). lia.
  - destruct W as (Wa & Hm). destruct (IHa Wa Lv) as (Hl & Hw & x & Ex & w & Hx & Bw & Rw). split; [exact Hl|]. split; [exact Hw|]. rewrite Ex. cbn [bind].
    destruct (plain_ok _ msgs Hl Hm) as (p & m & Ep & Hp & Bm & Rm). rewrite Ep. cbn [bind]. destruct (l_ok _ Hl) as (OK & _).
    destruct (C58_plaintext k L _ sk _ 1 x w p m OK Hw Hx Hp) as (_ & _ & (z & Ez & Hz)). exists z. split; [exact Ez|].
    exists (negacyclic n w m). split; [exact Hz|]. split; [apply conv_bound; assumption|apply rep_mul; assumption].
  - destruct W as (Wa & Hm). destruct (IHa Wa Lv) as (Hl & Hw & x & Ex & w & Hx & Bw & Rw). split; [exact Hl|]. split; [exact Hw|]. rewrite Ex. cbn [bind].
    destruct (plain_ok _ msgs Hl Hm) as (p & m & Ep & Hp & Bm & Rm). rewrite Ep. cbn [bind]. destruct (l_ok _ Hl) as (OK & _).
    destruct (C58_plaintext k L _ sk _ 1 x w p m OK Hw Hx Hp) as (_ & _ & (z & Ez & Hz)). exists z. split; [exact Ez|].
    exists (negacyclic n w m). split; [exact Hz|]. split; [apply conv_bound; assumption|apply rep_mul; assumption].
  - destruct W as (Wa & Hx0). destruct (IHa Wa Lv) as (Hl & Hw & x & Ex & w & Hx & Bw & Rw). split; [exact Hl|]. split; [exact Hw|]. rewrite Ex. cbn [bind].
    destruct (l_ok _ Hl) as (OK & _). destruct (proj1 (C58_scalar k L _ sk _ 1 x w OK Hx) x0 Hx0) as (z & Ez & Hz). exists z. split; [exact Ez|].
    exists (fun i => x0 * w i). split; [exact Hz|]. split; [|apply rep_scale, Rw].
    intros i Hi. specialize (Bw i Hi). rewrite Z.abs_mul, (Z.abs_eq x0) by lia. apply Z.mul_le_mono_nonneg_l; lia.
  - destruct W as (Wa & Wb & El & Ew & Hm), Lv as (La & Lb). destruct (IHa Wa La) as (Hl & Hw & x & Ex & w & Hx & Bw & Rw).
    destruct (IHb Wb Lb) as (_ & _ & y & Ey & u & Hy & Bu & Ru). split; [exact Hl|]. split; [exact Hw|]. rewrite Ex, Ey. cbn [bind].
    rewrite <- El, <- Ew in Hy. rewrite <- El. destruct (l_ok _ Hl) as (OK & _).
    destruct (plain_ok _ msgs Hl Hm) as (p & m & Ep & Hp & Bm & Rm). rewrite Ep. cbn [bind].
    destruct (C58_fused_absorb_add k L _ sk _ 1 x y w u p m K16 OK Hx Hy Hp) as (z & Ez & Hz). exists z. split; [exact Ez|].
    exists (fun i => w i + negacyclic n u m i). split; [exact Hz|]. split; [|apply rep_add; [exact Rw|apply rep_mul; assumption]].
    intros i Hi. specialize (Bw i Hi). pose proof (conv_bound u m _ _ Bu Bm i Hi) as N1. cbv beta in N1. lia.
  - destruct W as (Wa & Wb & El), Lv as (La & Lb). destruct (IHa Wa La) as (Hl & Hw & x & Ex & w & Hx & Bw & Rw). destruct (IHb Wb Lb) as (_ & Hw' & y & Ey & u & Hy & Bu & Ru).
    split; [exact Hl|]. split; [lia|]. rewrite Ex, Ey. cbn [bind]. rewrite <- El in Hy. destruct (l_ok _ Hl) as (OK & NE & _).
    destruct (C58_mul k L _ sk _ _ 1 x y w u K16 OK NE Hw Hx Hy) as (z & Ez & Hz). exists z. split; [exact Ez|].
    exists (negacyclic n w u). split; [exact Hz|]. split; [apply conv_bound; assumption|apply rep_mul; assumption].
  - destruct W as (Wa & HK & HB & Hbe & W2 & Wd & Wi). destruct (IHa Wa Lv) as (Hl & Hw & x & Ex & w & Hx & Bw & Rw). split; [exact Hl|]. split; [lia|]. rewrite Ex. cbn [bind].
    destruct (l_ok _ Hl) as (OK & _). destruct (C66_apply k L _ sk t be B ws rr x w _ OK K16 HB Hbe HK Hx W2 Wd Wi) as (e & Be & z & Ez & Hz).
    exists z. split; [exact Ez|]. exists (fun i => w i + t * e i). split; [exact Hz|]. split; [apply switch_bounded; assumption|apply fresh_rep, Rw].
  - destruct W as (Wa & HK & HB & Hbe & W2 & Hp). destruct (IHa Wa Lv) as (Hl & Hw & x & Ex & w & Hx & Bw & Rw). split; [exact Hl|]. split; [lia|]. rewrite Ex. cbn [bind].
    destruct (l_ok _ Hl) as (OK & NE & _). rewrite W2 in Hx. pose proof (ok_L k L _ OK NE) as HL.
    destruct (move_power_ok swap r ltac:(lia)) as [P1 P2]. rewrite <- Hp in P1, P2.
    destruct (C65_substitute_and_switch k L _ sk t be B ws gk x w OK NE K16 HB Hbe HK P1 P2 Hx) as (y & z & e & Ey & Ez & Be & Hz).
    rewrite Ey. cbn [bind]. exists z. split; [exact Ez|]. eexists. split; [exact Hz|]. split.
    + apply (switch_bounded (substituted n (Z.to_nat (gk_pow gk)) w) e); [|exact Be].
      intros i Hi. apply substituted_bound; [apply odd_nat; [lia|exact P2]|exists L; reflexivity|exact Hi|eapply bounded_nonneg; exact Bw|exact Bw].
    + apply (fresh_rep _ (substituted n (Z.to_nat (gk_pow gk)) w)). rewrite Hp. apply rep_move, Rw.
  - destruct W as (Wa & W1). destruct (IHa Wa Lv) as (Hl & Hw & x & Ex & T). split; [lia|]. split; [exact Hw|]. rewrite Ex. cbn [bind].
    destruct (rlevel a) as [|l]; [lia|]. destruct (track_reduce l x _ _ _ Hl T) as (z & inv & y & Ez & Ei & Ey & Ty).
    rewrite Ez. cbn [bind]. rewrite Ei. cbn [bind]. rewrite Ey. exists y. split; [reflexivity|]. replace (S l - 1)%nat with l by lia. exact Ty.
  - destruct (IHa W Lv) as (Hl & Hw & x & Ex & T). split; [exact Hl|]. split; [exact Hw|]. rewrite Ex. cbn [bind].
    destruct (track_send _ x _ _ _ Hl T) as (m & y & Em & Ey & Ty). rewrite Em. cbn [bind]. exists y. auto.
Qed.
End Bgv.
End Generic.
