(** Proofs for C77: the invariant that every BFV circuit keeps, for any encoder. *)
From Coq Require Import Znumtheory QArith Lia.
From Verif Require Import Base FinSum PolySpec Ring NegRing SymSpec SymProofs2 Montgomery MontBatch MontBatchProofs Spec Prng Sampling SampleSpec PolyProofs ExpandProofs RelinProofs ThmRelin
  RnsPoly RnsSpec CrtMath RnsSub RnsProofs RnsBasis RnsBasis2 RnsCtx RnsCtxSpec RnsCtxFacts ThmRnsCtx RnsCt RnsCtSpec RnsCtProofs RnsNoise ThmRnsCt RnsEncode RnsEncodeSpec RnsKey RnsKeySpec
  RnsKeyProofs ThmRnsKey RnsDecode RnsFloat RnsGadget RnsGadgetSpec RnsSwitchSpec ThmRnsGalois ThmRnsRelin RnsPub RnsPubSpec ThmRnsPub ThmRnsCtMore RnsBfv RnsBfvSpec RnsBfvNoise ThmRnsBfvCt FieldSpec
  RnsCircuitSpec RnsCircuitBfvSpec RnsCircuitProofs.
Local Open Scope Z_scope.
Local Notation zsum := FinSum.zsum.

Section Generic.
Variables (k log_n : Z) (qs ps : list Z) (t : Z) (c : rctx).
Hypothesis A : ctx_args k qs ps t.
Hypothesis M : ctx_made k log_n qs ps t c.
Hypothesis K16 : k <> 16.
Local Notation L := (Z.to_nat log_n).
Local Notation n := (2 ^ L)%nat.
Variables (sk : nat -> Z) (bs : Z) (keys : nat -> rskey).
Hypothesis RK : rkeys L c sk bs keys.
Variables (D : dops) (val : d_t D -> Q) (eps : Q).
Hypothesis FM : float_model D val eps.

Variable rep : (nat -> Z) -> (nat -> Z) -> Prop.
Variable mul : (nat -> Z) -> (nat -> Z) -> nat -> Z.
Variable move : bool -> nat -> (nat -> Z) -> nat -> Z.
Hypothesis rep_ext : forall v m m', pcong t n m m' -> rep v m -> rep v m'.
Hypothesis rep_neg : forall v m, rep v m -> rep (fun i => - v i) (fun i => - m i).
Hypothesis rep_add : forall v m v' m', rep v m -> rep v' m' -> rep (fun i => v i + v' i) (fun i => m i + m' i).
Hypothesis rep_sub : forall v m v' m', rep v m -> rep v' m' -> rep (fun i => v i - v' i) (fun i => m i - m' i).
Hypothesis rep_scale : forall v m x, rep v m -> rep (fun i => x * v i) (fun i => x * m i).
Hypothesis rep_mul : forall v m v' m', rep v m -> rep v' m' -> rep (mul v v') (negacyclic n m m').
Hypothesis rep_move : forall v m swap r, rep v m -> rep (move swap r v) (substituted n (Z.to_nat (move_power n swap r)) m).

Variables (E : encoder) (raw : list Z -> list pmod -> result rpoly).
Hypothesis enc_ok : forall msgs, (0 < length qs)%nat -> msgs_ok L t msgs ->
  exists ntt p g m, en_bfv E msgs (rc_qs c) = Ok p /\ rns_is (rc_qs c) L ntt p g /\ (forall i, (i < n)%nat -> 0 <= t * g i - prodz qs * m i < t) /\
  rep (fun i => nth i msgs 0) m.
Hypothesis raw_ok : forall l msgs, (l < length qs)%nat -> msgs_ok L t msgs ->
  exists ntt p m, raw msgs (at_level c l) = Ok p /\ rns_is (at_level c l) L ntt p m /\ (forall i, (i < n)%nat -> 0 <= m i < t) /\
  rep (fun i => nth i msgs 0) m.

Local Notation lok := (l_ok k log_n qs ps t c A M).
Local Notation clen := (ctx_length k log_n qs ps t c A M).
Local Notation tpos := (t_pos k log_n qs ps t c A M).
Local Notation bnn := (bounded_nonneg log_n).
Local Notation Ql l := (prodz (firstn (S l) qs)).

Definition tracks (l : nat) (x : rct) (len : nat) (v : nat -> Z) (B : Z) : Prop :=
  exists w m, ciphertext (at_level c l) L sk len 1 x w /\ bounded n B (fun i => t * w i - Ql l * m i) /\ rep v m.

Lemma top_level l : at_top c l -> at_level c l = rc_qs c /\ firstn (S l) qs = qs.
Proof. unfold at_top, at_level. intros H. split; [rewrite H; apply firstn_all|rewrite <- clen in *; rewrite H, clen; apply firstn_all]. Qed.

Lemma ntt_ok l ntt p f : (l < length (rc_qs c))%nat -> rns_is (at_level c l) L ntt p f ->
  exists q, ensure_ntt p (at_level c l) = Ok q /\ rns_is (at_level c l) L true q f.
Proof.
  intros Hl Hp. destruct (lok l Hl) as (OK & _). unfold ensure_ntt. rewrite (proj1 (proj2 Hp)). destruct ntt; [exists p; auto|].
  destruct (rns_to_ntt_is k L _ OK p f Hp) as (q & Eq & Hq). exists q. auto.
Qed.

Lemma scaled_ok l msgs : (l < length (rc_qs c))%nat -> at_top c l -> msgs_ok L t msgs ->
  exists p g m, bfv_scaled E c l msgs = Ok p /\ rns_is (at_level c l) L true p g /\ bounded n t (fun i => t * g i - Ql l * m i) /\ rep (fun i => nth i msgs 0) m.
Proof.
  intros Hl HT Hm. destruct (top_level l HT) as [E1 E2]. destruct (enc_ok msgs) as (ntt & p & g & m & Ep & Hp & Bm & Rm); [rewrite <- clen; lia|exact Hm|].
  unfold bfv_scaled. rewrite E1, Ep, E2. cbn [bind]. rewrite <- E1 in Hp |- *. destruct (ntt_ok l ntt p g Hl Hp) as (q & Eq & Hq). exists q, g, m.
  split; [exact Eq|]. split; [exact Hq|]. split; [|exact Rm]. intros i Hi. specialize (Bm i Hi). lia.
Qed.

Lemma raw_plain l msgs : (l < length (rc_qs c))%nat -> msgs_ok L t msgs ->
  exists p m, bfv_raw raw c l msgs = Ok p /\ rns_is (at_level c l) L true p m /\ bounded n (t - 1) m /\ rep (fun i => nth i msgs 0) m.
Proof.
  intros Hl Hm. destruct (raw_ok l msgs) as (ntt & p & m & Ep & Hp & Bm & Rm); [rewrite <- clen; lia|exact Hm|].
  unfold bfv_raw. rewrite Ep. cbn [bind]. destruct (ntt_ok l ntt p m Hl Hp) as (q & Eq & Hq). exists q, m.
  split; [exact Eq|]. split; [exact Hq|]. split; [|exact Rm]. intros i Hi. specialize (Bm i Hi). lia.
Qed.

(** adding errors to a phase *)
Lemma err_bound Q0 (w m e : nat -> Z) b s : bounded n b (fun i => t * w i - Q0 * m i) -> bounded n s e ->
  bounded n (b + t * s) (fun i => t * (w i + e i) - Q0 * m i).
Proof.
  intros Bw Be i Hi. specialize (Bw i Hi). specialize (Be i Hi). cbv beta in Bw. pose proof tpos as T.
  replace (t * (w i + e i) - Q0 * m i) with ((t * w i - Q0 * m i) + t * e i) by ring.
  pose proof (Z.abs_triangle (t * w i - Q0 * m i) (t * e i)) as X. rewrite Z.abs_mul, (Z.abs_eq t) in X by lia.
  pose proof (Z.mul_le_mono_nonneg_l _ _ t ltac:(lia) Be). lia.
Qed.

Lemma ct_ext l x len w w' : ciphertext (at_level c l) L sk len 1 x w -> (forall i, w i = w' i) -> ciphertext (at_level c l) L sk len 1 x w'.
Proof.
  intros (X1 & X2 & X3 & cs & Hc & HP) H. split; [exact X1|]. split; [exact X2|]. split; [exact X3|]. exists cs. split; [exact Hc|].
  intros i Hi. rewrite (HP i Hi), H. reflexivity.
Qed.

Lemma track_enc l R fuel msgs s x s' : (l < length (rc_qs c))%nat -> at_top c l -> prng_ok R -> msgs_ok L t msgs ->
  rsk_encrypt_bfv1 R fuel (keys l) E msgs s = Ok (x, s') ->
  tracks l x 2 (fun i => nth i msgs 0) (t + t * (2 * rsk_var (keys l))).
Proof.
  intros Hl HT HR Hm Ex. destruct (lok l Hl) as (OK & NE & DI). destruct (top_level l HT) as [E1 E2].
  destruct (enc_ok msgs) as (ntt & p & g & m & Ep & Hp & Bm & Rm); [rewrite <- clen; lia|exact Hm|]. rewrite <- E1 in Ep, Hp.
  destruct (C59_encrypt_bfv_one_generator k L _ R fuel (keys l) sk E msgs ntt p g s x s' OK NE DI K16 HR (rk_key _ _ _ _ _ RK l Hl) (rk_var _ _ _ _ _ RK l Hl) Ep Hp Ex)
    as (a & s1 & e & _ & Be & Hx & _).
  exists (fun i => g i + e i), m. split; [exact Hx|]. split; [|exact Rm]. apply err_bound; [|exact Be]. rewrite E2.
  intros i Hi. specialize (Bm i Hi). lia.
Qed.

Lemma track_pub l R pk be msgs s x s' : (l < length (rc_qs c))%nat -> at_top c l -> prng_ok R -> msgs_ok L t msgs ->
  public_key (at_level c l) L sk 1 be pk -> 0 <= be -> variance_fits (rpk_var pk) (at_level c l) ->
  rpk_encrypt_bfv R pk E msgs s = Ok (x, s') ->
  tracks l x 2 (fun i => nth i msgs 0) (t + t * pub_bound n be (2 * rpk_var pk) bs).
Proof.
  intros Hl HT HR Hm HP Hbe HV Ex. destruct (lok l Hl) as (OK & NE & DI). destruct (top_level l HT) as [E1 E2].
  destruct (enc_ok msgs) as (ntt & p & g & m & Ep & Hp & Bm & Rm); [rewrite <- clen; lia|exact Hm|]. rewrite <- E1 in Ep, Hp.
  destruct (C67_encrypt_bfv k L _ R sk be pk E msgs ntt p g s x s' OK NE K16 HR HP HV Ep Hp Ex) as (e & r & e' & e'' & Be & Br & B1 & B2 & Hx).
  exists (fun i => g i + pub_error n sk e r e' e'' i), m. split; [apply (ct_ext l x 2 _ _ Hx); intros; ring|]. split; [|exact Rm].
  apply err_bound; [rewrite E2; intros i Hi; specialize (Bm i Hi); lia|]. apply pub_error_bound; try assumption. apply (rk_bound _ _ _ _ _ RK).
Qed.

Lemma key_le len : 0 <= key_size n sk len <= key_bound n bs len.
Proof. split; [apply zsum_nonneg; intros; apply Z.pow_nonneg, l1_nonneg|]. apply (key_size_le log_n c sk bs keys RK). Qed.

Lemma mul_noise_le P0 Q0 e e' gx gy gl gx' gy' gl' : 0 <= P0 -> 0 <= Q0 -> 0 <= e -> 0 <= e' -> 0 <= gx <= gx' -> 0 <= gy <= gy' -> gl <= gl' ->
  mul_noise n t P0 Q0 e e' gx gy gl <= mul_noise n t P0 Q0 e e' gx' gy' gl'.
Proof.
  intros HP HQ He He' Hx Hy Hl. pose proof tpos as T. unfold mul_noise.
  assert (X1 : Z.of_nat n * e' * (t * Q0 * (P0 + 1) * gx + P0 * e) <= Z.of_nat n * e' * (t * Q0 * (P0 + 1) * gx' + P0 * e)).
  { apply Z.mul_le_mono_nonneg_l; [apply Z.mul_nonneg_nonneg; lia|]. apply Z.add_le_mono_r, Z.mul_le_mono_nonneg_l; [|lia].
    repeat apply Z.mul_nonneg_nonneg; lia. }
  assert (X2 : P0 * (Z.of_nat n * e * (t * Q0 * gy + e')) <= P0 * (Z.of_nat n * e * (t * Q0 * gy' + e'))).
  { apply Z.mul_le_mono_nonneg_l; [lia|]. apply Z.mul_le_mono_nonneg_l; [apply Z.mul_nonneg_nonneg; lia|]. apply Z.add_le_mono_r, Z.mul_le_mono_nonneg_l; [|lia].
    repeat apply Z.mul_nonneg_nonneg; lia. }
  assert (X3 : t * t * (Z.of_nat n * (Q0 * gx) * (Q0 * gy)) <= t * t * (Z.of_nat n * (Q0 * gx') * (Q0 * gy'))).
  { apply Z.mul_le_mono_nonneg_l; [apply Z.mul_nonneg_nonneg; lia|].
    assert (Q0 * gx <= Q0 * gx') by (apply Z.mul_le_mono_nonneg_l; lia). assert (Q0 * gy <= Q0 * gy') by (apply Z.mul_le_mono_nonneg_l; lia).
    assert (0 <= Q0 * gx) by (apply Z.mul_nonneg_nonneg; lia). assert (0 <= Q0 * gy) by (apply Z.mul_nonneg_nonneg; lia).
    apply Z.mul_le_mono_nonneg; [apply Z.mul_nonneg_nonneg; lia| |assumption|assumption]. apply Z.mul_le_mono_nonneg_l; [lia|assumption]. }
  assert (X4 : t * Q0 * P0 * gl <= t * Q0 * P0 * gl').
  { apply Z.mul_le_mono_nonneg_l; [|exact Hl]. repeat apply Z.mul_nonneg_nonneg; lia. }
  lia.
Qed.

Lemma prod_pos l : Forall (fun q => 1 < q) l -> 0 < prodz l.
Proof. induction 1 as [|q l Hq _ IH]; [reflexivity|]. unfold prodz in *. cbn [fold_right]. apply Z.mul_pos_pos; lia. Qed.

Lemma primes_pos : 0 < prodz qs /\ 0 < prodz ps.
Proof.
  destruct A as (_ & P1 & P2 & _). split; apply prod_pos; [eapply Forall_impl; [|exact P1]|eapply Forall_impl; [|exact P2]]; intros q Hq; destruct Hq; assumption.
Qed.

Lemma ct_level l x len w : at_top c l -> ciphertext (at_level c l) L sk len 1 x w <-> ciphertext (rc_qs c) L sk len 1 x w.
Proof. intros H. rewrite (proj1 (top_level l H)). reflexivity. Qed.

Lemma track_mul l x y lx ly v u b b' : (l < length (rc_qs c))%nat -> at_top c l -> products k eps c -> (1 <= lx)%nat ->
  tracks l x lx v b -> tracks l y ly u b' ->
  exists z, bfv_mul D c x y = Ok z /\
  tracks l z (lx + ly - 1) (mul v u) (mul_noise n t (prodz ps) (prodz qs) b b' (key_bound n bs lx) (key_bound n bs ly) (key_bound n bs (lx + ly - 1)) / (prodz ps * prodz qs)).
Proof.
  intros Hl HT (R1 & R2) Hlx (w & m & Hx & Bw & Rw) (w' & m' & Hy & Bw' & Rw'). destruct (top_level l HT) as [E1 E2]. rewrite E2 in Bw, Bw'.
  apply (ct_level _ _ _ _ HT) in Hx, Hy. rewrite clen in R1.
  assert (LP : length (rc_ps c) = length ps). { destruct (made_ok _ _ _ _ _ _ A M) as (_ & _ & _ & _ & Mp & _). rewrite <- Mp. unfold moduli. rewrite map_length. reflexivity. }
  rewrite LP in R2. pose proof (bnn _ _ Bw) as B0. pose proof (bnn _ _ Bw') as B0'. destruct primes_pos as [PQ PP].
  destruct (C63_mul k log_n qs ps t c D val eps sk lx ly 1 x y w w' m m' b b' A M K16 FM R1 R2 Hlx Hx Hy Bw Bw') as (g & MM & (z & Ez & Hz) & HM & BN).
  exists z. split; [exact Ez|]. exists g, MM. split; [apply (ct_level _ _ _ _ HT), Hz|]. split.
  - rewrite E2. intros i Hi. specialize (BN i Hi). apply Z.div_le_lower_bound; [apply Z.mul_pos_pos; assumption|].
    eapply Z.le_trans; [exact BN|]. apply mul_noise_le; try lia; apply key_le.
  - apply (rep_ext _ (negacyclic n m m')); [|apply rep_mul; assumption]. intros i Hi. symmetry. apply HM, Hi.
Qed.

Lemma track_absorb l x lx v b msgs : (l < length (rc_qs c))%nat -> at_top c l -> products k eps c -> (1 <= lx)%nat -> msgs_ok L t msgs ->
  tracks l x lx v b ->
  exists p z, bfv_scaled E c l msgs = Ok p /\ bfv_absorb D c x p = Ok z /\
  tracks l z lx (mul v (fun i => nth i msgs 0)) (mul_noise n t (prodz ps) (prodz qs) b t (key_bound n bs lx) 1 (key_bound n bs lx) / (prodz ps * prodz qs)).
Proof.
  intros Hl HT (R1 & R2) Hlx Hm (w & m & Hx & Bw & Rw). destruct (scaled_ok l msgs Hl HT Hm) as (p & f & m' & Ep & Hp & Bf & Rm). exists p.
  destruct (top_level l HT) as [E1 E2]. rewrite E2 in Bw, Bf.
  apply (ct_level _ _ _ _ HT) in Hx. rewrite E1 in Hp. rewrite clen in R1.
  assert (LP : length (rc_ps c) = length ps). { destruct (made_ok _ _ _ _ _ _ A M) as (_ & _ & _ & _ & Mp & _). rewrite <- Mp. unfold moduli. rewrite map_length. reflexivity. }
  rewrite LP in R2. pose proof (bnn _ _ Bw) as B0. pose proof (bnn _ _ Bf) as B0'. destruct primes_pos as [PQ PP].
  destruct (C63_absorb k log_n qs ps t c D val eps sk lx 1 x w p f m m' b t A M FM R1 R2 Hlx Hx Hp Bw Bf) as (g & MM & (z & Ez & Hz) & HM & BN).
  exists z. split; [exact Ep|]. split; [exact Ez|]. exists g, MM. split; [apply (ct_level _ _ _ _ HT), Hz|]. split.
  - rewrite E2. intros i Hi. specialize (BN i Hi). apply Z.div_le_lower_bound; [apply Z.mul_pos_pos; assumption|].
    eapply Z.le_trans; [exact BN|]. apply mul_noise_le; try lia; apply key_le.
  - apply (rep_ext _ (negacyclic n m m')); [|apply rep_mul; assumption]. intros i Hi. symmetry. apply HM, Hi.
Qed.

Lemma track_reduce l x len v b : (S l < length (rc_qs c))%nat -> tracks (S l) x len v b ->
  exists y, bfv_mod_reduce c x = Ok y /\ tracks l y len v ((2 * b + t * nth (S l) qs 0 * key_bound n bs len) / (2 * nth (S l) qs 0)).
Proof.
  intros Hl (w & m & Hx & Bw & Rw). rewrite clen in Hl.
  destruct (C63_mod_reduce k log_n qs ps t c l sk len 1 x w m b A M Hl Hx Bw) as (g & MM & (y & Ey & Hy) & HM & BN).
  exists y. split; [exact Ey|]. exists g, MM. split; [exact Hy|]. pose proof tpos as T.
  assert (Q1 : 1 < nth (S l) qs 0). { destruct A as (_ & P1 & _). rewrite Forall_forall in P1. destruct (P1 (nth (S l) qs 0) ltac:(apply nth_In; exact Hl)); assumption. }
  split.
  - intros i Hi. specialize (BN i Hi). apply Z.div_le_lower_bound; [lia|]. pose proof (key_le len) as KL.
    pose proof (Z.mul_le_mono_nonneg_l _ _ (t * nth (S l) qs 0) ltac:(nia) (proj2 KL)) as X. lia.
  - apply (rep_ext _ m); [|exact Rw]. intros i Hi. symmetry. apply HM, Hi.
Qed.

Lemma subst_lin p (w m : nat -> Z) Q0 i : t * substituted n p w i - Q0 * substituted n p m i = substituted n p (fun j => t * w j - Q0 * m j) i.
Proof.
  rewrite !substituted_mono, <- !zsum_mul_l.
  assert (Sub : forall N (a b : nat -> Z), zsum N a - zsum N b = zsum N (fun i => a i - b i)).
  { intros N a b. induction N as [|N IH]; cbn [FinSum.zsum]; [reflexivity|]. lia. }
  rewrite Sub. apply zsum_ext. intros a _. ring.
Qed.

Lemma Ql_big l : Ql l = big_q (at_level c l).
Proof.
  destruct (ctx_qs_ok k log_n t qs ps c A M) as (_ & EM & _). unfold big_q, at_level. f_equal. rewrite <- EM. unfold moduli. rewrite firstn_map. reflexivity.
Qed.

Lemma track_send l x len v b : (l < length (rc_qs c))%nat -> tracks l x len v b ->
  exists m y, rct_serialize x = Ok m /\ rct_deserialize m (at_level c l) = Ok y /\ tracks l y len v b.
Proof.
  intros Hl (w & m0 & Hx & Bw & Rw). destruct (lok l Hl) as (OK & NE & _). destruct Hx as (X1 & X2 & X3 & cs & Hc & HP).
  destruct (C72_round_trip k L (at_level c l) x OK NE X1) as (m & Em & Ey & _).
  { clear X3 HP. induction Hc as [|a f r fs Ha Hc IH]; constructor; [|exact IH]. destruct Ha as (A1 & A2 & A3). split; [exact A1|].
    eapply Forall2_imp; [exact A3|]. cbv beta. intros q u _ Hu. exact (proj1 Hu). }
  exists m, (rct_with_lazy x []). split; [exact Em|]. split; [exact Ey|]. exists w, m0. split; [|auto].
  split; [exact X1|]. split; [exact X2|]. split; [exact X3|]. exists cs. split; [exact Hc|exact HP].
Qed.

Theorem bfv_tracks a : rwf k L t c sk 1 a -> bfv_ok k eps c a -> bfv_leaves E keys a ->
  (rlevel a < length (rc_qs c))%nat /\ (1 <= rwidth a)%nat /\
  exists x, run_bfv D E raw c keys a = Ok x /\ tracks (rlevel a) x (rwidth a) (values mul move a) (bfv_noise n t qs ps keys bs a).
Proof.
  induction a as [l R fuel msgs s|l R pk be msgs s|a IHa|a IHa b IHb|a IHa b IHb|a IHa msgs|a IHa msgs|a IHa msgs|a IHa msgs|a IHa x0|a IHa b IHb msgs|a IHa b IHb
    |a IHa rr be B ws|a IHa swap r gk be B ws|a IHa|a IHa]; cbn [rwf bfv_ok bfv_leaves rlevel rwidth run_bfv values bfv_noise]; intros W O Lv.
  - destruct W as (Hl & HR & Hm), Lv as ([x s'] & Ex). split; [exact Hl|]. split; [lia|]. exists x. rewrite Ex. split; [reflexivity|].
    exact (track_enc l R fuel msgs s x s' Hl O HR Hm Ex).
  - destruct W as (Hl & HR & Hm & HP & Hbe & HV), Lv as ([x s'] & Ex). split; [exact Hl|]. split; [lia|]. exists x. rewrite Ex. split; [reflexivity|].
    exact (track_pub l R pk be msgs s x s' Hl O HR Hm HP Hbe HV Ex).
  - destruct (IHa W O Lv) as (Hl & Hw & x & Ex & w & m & Hx & Bw & Rw). split; [exact Hl|]. split; [exact Hw|]. rewrite Ex. cbn [bind].
    destruct (lok _ Hl) as (OK & _). destruct (C58_linear k L _ sk _ 1 x x w w OK Hx Hx) as ((y & Ey & Hy) & _).
    exists y. split; [exact Ey|]. exists (fun i => - w i), (fun i => - m i). split; [exact Hy|]. split; [|apply rep_neg, Rw].
    intros i Hi. specialize (Bw i Hi). cbv beta in Bw. replace (t * - w i - Ql (rlevel a) * - m i) with (- (t * w i - Ql (rlevel a) * m i)) by ring. rewrite Z.abs_opp. exact Bw.
  - destruct W as (Wa & Wb & El & Ew), O as (Oa & Ob), Lv as (La & Lb). destruct (IHa Wa Oa La) as (Hl & Hw & x & Ex & w & m & Hx & Bw & Rw).
    destruct (IHb Wb Ob Lb) as (_ & _ & y & Ey & u & m' & Hy & Bu & Ru).
    split; [exact Hl|]. split; [exact Hw|]. rewrite Ex, Ey. cbn [bind]. rewrite <- El, <- Ew in Hy. rewrite <- El in Bu. destruct (lok _ Hl) as (OK & _).
    destruct (C58_linear k L _ sk _ 1 x y w u OK Hx Hy) as (_ & (z & Ez & Hz) & _). exists z. split; [exact Ez|].
    exists (fun i => w i + u i), (fun i => m i + m' i). split; [exact Hz|]. split; [|apply rep_add; assumption].
    intros i Hi. specialize (Bw i Hi). specialize (Bu i Hi). cbv beta in Bw, Bu. lia.
  - destruct W as (Wa & Wb & El & Ew), O as (Oa & Ob), Lv as (La & Lb). destruct (IHa Wa Oa La) as (Hl & Hw & x & Ex & w & m & Hx & Bw & Rw).
    destruct (IHb Wb Ob Lb) as (_ & _ & y & Ey & u & m' & Hy & Bu & Ru).
    split; [exact Hl|]. split; [exact Hw|]. rewrite Ex, Ey. cbn [bind]. rewrite <- El, <- Ew in Hy. rewrite <- El in Bu. destruct (lok _ Hl) as (OK & _).
    destruct (C58_linear k L _ sk _ 1 x y w u OK Hx Hy) as (_ & _ & (z & Ez & Hz)). exists z. split; [exact Ez|].
    exists (fun i => w i - u i), (fun i => m i - m' i). split; [exact Hz|]. split; [|apply rep_sub; assumption].
    intros i Hi. specialize (Bw i Hi). specialize (Bu i Hi). cbv beta in Bw, Bu. lia.
  - destruct W as (Wa & Hm), O as (Oa & HT). destruct (IHa Wa Oa Lv) as (Hl & Hw & x & Ex & w & m & Hx & Bw & Rw). split; [exact Hl|]. split; [exact Hw|]. rewrite Ex. cbn [bind].
    destruct (scaled_ok _ msgs Hl HT Hm) as (p & g & m' & Ep & Hp & Bm & Rm). rewrite Ep. cbn [bind]. destruct (lok _ Hl) as (OK & _).
    destruct (C58_plaintext k L _ sk _ 1 x w p g OK Hw Hx Hp) as ((z & Ez & Hz) & _). exists z. split; [exact Ez|].
    exists (fun i => w i + g i), (fun i => m i + m' i). split; [exact Hz|]. split; [|apply rep_add; assumption].
    intros i Hi. specialize (Bw i Hi). specialize (Bm i Hi). cbv beta in Bw, Bm. lia.
  - destruct W as (Wa & Hm), O as (Oa & HT). destruct (IHa Wa Oa Lv) as (Hl & Hw & x & Ex & w & m & Hx & Bw & Rw). split; [exact Hl|]. split; [exact Hw|]. rewrite Ex. cbn [bind].
    destruct (scaled_ok _ msgs Hl HT Hm) as (p & g & m' & Ep & Hp & Bm & Rm). rewrite Ep. cbn [bind]. destruct (lok _ Hl) as (OK & _).
    destruct (C58_plaintext k L _ sk _ 1 x w p g OK Hw Hx Hp) as (_ & (z & Ez & Hz) & _). exists z. split; [exact Ez|].
    exists (fun i => w i - g i), (fun i => m i - m' i). split; [exact Hz|]. split; [|apply rep_sub; assumption].
    intros i Hi. specialize (Bw i Hi). specialize (Bm i Hi). cbv beta in Bw, Bm. lia.
  - destruct W as (Wa & Hm). destruct (IHa Wa O Lv) as (Hl & Hw & x & Ex & w & m & Hx & Bw & Rw). split; [exact Hl|]. split; [exact Hw|]. rewrite Ex. cbn [bind].
    destruct (raw_plain _ msgs Hl Hm) as (p & f & Ep & Hp & Bm & Rm). rewrite Ep. cbn [bind]. destruct (lok _ Hl) as (OK & _). rewrite Ql_big in Bw.
    destruct (C63_absorb_simple k L _ t sk _ 1 x w p f m _ _ OK Hx Hp Bm Bw) as ((z & Ez & Hz) & Bz). exists z. split; [exact Ez|].
    exists (negacyclic n w f), (negacyclic n m f). split; [exact Hz|]. rewrite Ql_big. split; [exact Bz|apply rep_mul; assumption].
  - destruct W as (Wa & Hm), O as (Oa & HT & HP). destruct (IHa Wa Oa Lv) as (Hl & Hw & x & Ex & T). split; [exact Hl|]. split; [exact Hw|]. rewrite Ex. cbn [bind].
    destruct (track_absorb _ x _ _ _ msgs Hl HT HP Hw Hm T) as (p & z & Ep & Ez & Tz). rewrite Ep. cbn [bind]. exists z. split; [exact Ez|exact Tz].
  - destruct W as (Wa & Hx0). destruct (IHa Wa O Lv) as (Hl & Hw & x & Ex & w & m & Hx & Bw & Rw). split; [exact Hl|]. split; [exact Hw|]. rewrite Ex. cbn [bind].
    destruct (lok _ Hl) as (OK & _). destruct (proj1 (C58_scalar k L _ sk _ 1 x w OK Hx) x0 Hx0) as (z & Ez & Hz). exists z. split; [exact Ez|].
    exists (fun i => x0 * w i), (fun i => x0 * m i). split; [exact Hz|]. split; [|apply rep_scale, Rw].
    intros i Hi. specialize (Bw i Hi). cbv beta in Bw. replace (t * (x0 * w i) - Ql (rlevel a) * (x0 * m i)) with (x0 * (t * w i - Ql (rlevel a) * m i)) by ring.
    rewrite Z.abs_mul, (Z.abs_eq x0) by lia. apply Z.mul_le_mono_nonneg_l; lia.
  - destruct W as (Wa & Wb & El & Ew & Hm), O as (Oa & Ob), Lv as (La & Lb). destruct (IHa Wa Oa La) as (Hl & Hw & x & Ex & w & m & Hx & Bw & Rw).
    destruct (IHb Wb Ob Lb) as (_ & _ & y & Ey & u & m' & Hy & Bu & Ru). split; [exact Hl|]. split; [exact Hw|]. rewrite Ex, Ey. cbn [bind].
    rewrite <- El, <- Ew in Hy. rewrite <- El in Bu |- *. destruct (lok _ Hl) as (OK & _).
    destruct (raw_plain _ msgs Hl Hm) as (p & f & Ep & Hp & Bm & Rm). rewrite Ep. cbn [bind].
    destruct (C58_fused_absorb_add k L _ sk _ 1 x y w u p f K16 OK Hx Hy Hp) as (z & Ez & Hz). exists z. split; [exact Ez|].
    rewrite Ql_big in Bu. destruct (C63_absorb_simple k L _ t sk _ 1 y u p f m' _ _ OK Hy Hp Bm Bu) as (_ & Bz). rewrite <- Ql_big in Bz.
    exists (fun i => w i + negacyclic n u f i), (fun i => m i + negacyclic n m' f i). split; [exact Hz|]. split; [|apply rep_add; [exact Rw|apply rep_mul; assumption]].
    intros i Hi. specialize (Bw i Hi). specialize (Bz i Hi). cbv beta in Bw, Bz. lia.
  - destruct W as (Wa & Wb & El), O as (Oa & Ob & HT & HP), Lv as (La & Lb). destruct (IHa Wa Oa La) as (Hl & Hw & x & Ex & Tx). destruct (IHb Wb Ob Lb) as (_ & Hw' & y & Ey & Ty).
    split; [exact Hl|]. split; [lia|]. rewrite Ex, Ey. cbn [bind]. rewrite <- El in Ty.
    destruct (track_mul _ x y _ _ _ _ _ _ Hl HT HP Hw Tx Ty) as (z & Ez & Tz). exists z. split; [exact Ez|exact Tz].
  - destruct W as (Wa & HK & HB & Hbe & W2 & Wd & Wi). destruct (IHa Wa O Lv) as (Hl & Hw & x & Ex & w & m & Hx & Bw & Rw). split; [exact Hl|]. split; [lia|]. rewrite Ex. cbn [bind].
    destruct (lok _ Hl) as (OK & _). destruct (C66_apply k L _ sk 1 be B ws rr x w _ OK K16 HB Hbe HK Hx W2 Wd Wi) as (e & Be & z & Ez & Hz).
    exists z. split; [exact Ez|]. exists (fun i => w i + e i), m. split; [apply (ct_ext _ z 2 _ _ Hz); intros; ring|]. split; [apply err_bound; assumption|exact Rw].
  - destruct W as (Wa & HK & HB & Hbe & W2 & Hp). destruct (IHa Wa O Lv) as (Hl & Hw & x & Ex & w & m & Hx & Bw & Rw). split; [exact Hl|]. split; [lia|]. rewrite Ex. cbn [bind].
    destruct (lok _ Hl) as (OK & NE & _). rewrite W2 in Hx. pose proof (ok_L k L _ OK NE) as HL.
    destruct (move_power_ok log_n swap r ltac:(lia)) as [P1 P2]. rewrite <- Hp in P1, P2.
    destruct (C65_substitute_and_switch k L _ sk 1 be B ws gk x w OK NE K16 HB Hbe HK P1 P2 Hx) as (y & z & e & Ey & Ez & Be & Hz).
    rewrite Ey. cbn [bind]. exists z. split; [exact Ez|].
    exists (fun i => substituted n (Z.to_nat (gk_pow gk)) w i + e i), (substituted n (Z.to_nat (gk_pow gk)) m). split; [apply (ct_ext _ z 2 _ _ Hz); intros; ring|]. split.
    + apply (err_bound _ (substituted n (Z.to_nat (gk_pow gk)) w)); [|exact Be]. intros i Hi. rewrite subst_lin.
      apply substituted_bound; [apply odd_nat; [lia|exact P2]|exists L; reflexivity|exact Hi|eapply bnn; exact Bw|exact Bw].
    + rewrite Hp. apply rep_move, Rw.
  - destruct W as (Wa & W1). destruct (IHa Wa O Lv) as (Hl & Hw & x & Ex & T). split; [lia|]. split; [exact Hw|]. rewrite Ex. cbn [bind].
    destruct (rlevel a) as [|l]; [lia|]. destruct (track_reduce l x _ _ _ Hl T) as (y & Ey & Ty).
    exists y. split; [exact Ey|]. replace (S l - 1)%nat with l by lia. exact Ty.
  - destruct (IHa W O Lv) as (Hl & Hw & x & Ex & w & m & Hx & Bw & Rw). split; [exact Hl|]. split; [exact Hw|]. rewrite Ex. cbn [bind].
    destruct (track_send _ x _ _ _ Hl (ex_intro _ w (ex_intro _ m (conj Hx (conj Bw Rw))))) as (mm & y & Em & Ey & Ty). rewrite Em. cbn [bind]. exists y. auto.
Qed.
End Generic.
