(** Finite field encoders of a context. *)
From Coq Require Import Znumtheory QArith Lia.
From Verif Require Import Base FinSum PolySpec Ring NegRing Montgomery MontBatch Ntt Poly MontgomeryProofs MontBatchProofs TranscriptionProofs NttIndex Spec PolyView ArithFacts NttFacts NttProofs
  ThmNtt RnsPoly RnsSpec CrtMath RnsSub RnsProofs RnsBasis RnsMore RnsFloat RnsCtx RnsCtxSpec RnsCtxProofs RnsCtxFacts RnsCrt ThmRnsCtx RnsEncode RnsEncodeSpec RnsKeySpec RnsKeyProofs RnsDecode RnsScaleOne RnsDecodeBfv FieldSpec FieldMath FieldProofs.
Local Open Scope Z_scope.

Section Ctx.
Variables (k log_n t : Z) (qs ps : list Z) (c : rctx).
Hypothesis A : ctx_args k qs ps t.
Hypothesis MF : ctx_made_ff k log_n qs ps t c.
Hypothesis PT : prime t.
Local Notation L := (Z.to_nat log_n).
Local Notation n := (2 ^ L)%nat.

Lemma ff_made : ctx_made k log_n qs ps t c.
Proof. destruct MF; unfold ctx_made; auto. Qed.

Lemma ff_modulus : exists mt, mod_ok k L mt /\ modulus mt = t /\ rc_pt c = Some (pm_p mt) /\ rc_nt c = Some (pm_np mt).
Proof.
  destruct (made_ok _ _ _ _ _ _ A ff_made) as (L1 & L0 & _). assert (W : word_size k) by apply A.
  assert (S : exists c0 c1 m, ctx_create k log_n qs ps t = Ok c0 /\ make_modulus k (rc_logn c0) (rc_t c0) = Ok m /\
    rc_pt c1 = Some (pm_p m) /\ rc_nt c1 = Some (pm_np m) /\ (c = c1 \/ ctx_bfv c1 = Ok c)).
  { destruct MF as [H|H].
    - unfold ctx_create_bgv_ff in H. destruct (t mod 2 =? 0); [discriminate|].
      destruct (ctx_create k log_n qs ps t) as [c0| |] eqn:E0; try discriminate. cbn [bind] in H. unfold ctx_finite_field in H.
      destruct (make_modulus k (rc_logn c0) (rc_t c0)) as [m| |] eqn:Em; try discriminate. cbn [bind] in H. injection H as H.
      exists c0, c, m. split; [reflexivity|]. split; [exact Em|]. rewrite <- H. cbn [rc_pt rc_nt]. auto.
    - unfold ctx_create_bfv_ff in H. destruct (t mod 2 =? 0); [discriminate|].
      destruct (ctx_create k log_n qs ps t) as [c0| |] eqn:E0; try discriminate. cbn [bind] in H.
      destruct (ctx_finite_field k c0) as [c1| |] eqn:E1; try discriminate. cbn [bind] in H. unfold ctx_finite_field in E1.
      destruct (make_modulus k (rc_logn c0) (rc_t c0)) as [m| |] eqn:Em; try discriminate. cbn [bind] in E1. injection E1 as E1.
      exists c0, c1, m. split; [reflexivity|]. split; [exact Em|]. split; [rewrite <- E1; reflexivity|]. split; [rewrite <- E1; reflexivity|]. right. exact H. }
  destruct S as (c0 & c1 & m & E0 & Em & P1 & P2 & EC). destruct (create_tables _ _ _ _ _ _ E0) as (T1 & T2 & _ & _ & Tt & _).
  rewrite T1, Tt in Em. replace log_n with (Z.of_nat L) in Em by lia.
  destruct (make_modulus_ok k L t m W PT Em) as [O E]. exists m. split; [exact O|]. split; [exact E|].
  destruct EC as [->|EC]; [auto|]. unfold ctx_bfv in EC. rewrite P1 in EC.
  destruct (bfv_loop (pm_p m) (rc_t c1) (rc_qs c1) (import_one (pm_p m))) as [[[xs ys] zs]| |]; try discriminate. cbn [bind] in EC.
  injection EC as EC. rewrite <- EC. cbn [rc_pt rc_nt]. auto.
Qed.

Lemma ff_gcd : (forall q, In q qs -> q <> t) -> forall q, In q qs -> Z.gcd q t = 1.
Proof.
  intros N q I. assert (P : prime q) by (destruct A as (_ & P & _); rewrite Forall_forall in P; apply P, I).
  apply Zgcd_1_rel_prime. apply prime_rel_prime; [exact P|]. intros D. apply (N q I). apply prime_div_prime; assumption.
Qed.

Lemma ff_create_ok : log_n <= 14 -> exists e, ff_create c = Ok e.
Proof.
  intros H14. destruct ff_modulus as (mt & O & E & P1 & P2). destruct (made_ok _ _ _ _ _ _ A ff_made) as (L1 & L0 & _).
  unfold ff_create. rewrite P1, P2, L1. replace log_n with (Z.of_nat L) by lia.
  rewrite (shl_int_ok k L [mt] (Forall_cons _ O (Forall_nil _))) by discriminate. cbn [bind].
  destruct O as [PF NT]. destruct (init_wellformed _ _ _ _ _ PF NT) as (_ & _ & _ & _ & _ & _ & _ & _ & _ & _ & EB & _).
  pose proof (slot_loop_ok L ltac:(lia) (pm_np mt) EB ltac:(lia) (n / 2) 0 ltac:(lia)) as SL.
  change (5 ^ Z.of_nat 0) with 1 in SL. pose proof (n2_pos L ltac:(lia)) as P. rewrite Z.mod_1_l in SL by lia. rewrite SL. cbn [bind]. eexists. reflexivity.
Qed.

(** what a created encoder holds *)
Lemma ff_created e : ff_create c = Ok e -> log_n <= 14 /\ fe_ctx e = c /\
  exists mt, mod_ok k L mt /\ modulus mt = t /\ fe_pt e = pm_p mt /\ fe_nt e = pm_np mt /\ rc_pt c = Some (pm_p mt) /\
    fe_slots e = map (fslot L) (seq 0 n).
Proof.
  intros E. destruct ff_modulus as (mt & O & Et & P1 & P2). destruct (made_ok _ _ _ _ _ _ A ff_made) as (L1 & L0 & _).
  unfold ff_create in E. rewrite P1, P2, L1 in E. replace log_n with (Z.of_nat L) in E by lia.
  rewrite (shl_int_ok k L [mt] (Forall_cons _ O (Forall_nil _))) in E by discriminate. cbn [bind] in E.
  pose proof O as [PF NT]. destruct (init_wellformed _ _ _ _ _ PF NT) as (_ & _ & _ & _ & _ & _ & _ & _ & _ & _ & EB & _).
  destruct (ntt_for_good _ _ _ _ _ PF NT) as (L15 & _).
  assert (H14 : log_n <= 14).
  { destruct (Z.le_gt_cases log_n 14) as [H|H]; [exact H|exfalso]. assert (EL : L = 15%nat) by lia. rewrite EL in *.
    replace (slot_loop (pm_np mt) (Z.of_nat (2 ^ 15)) (2 ^ 15 / 2) 1) with (@UB (list nat * list nat)) in E; [discriminate|].
    symmetry. replace (Z.of_nat (2 ^ 15)) with 32768 by (rewrite Nat2Z.inj_pow; reflexivity).
    replace (2 ^ 15 / 2)%nat with (9 + (2 ^ 14 - 9))%nat; [apply slot_loop_large, EB|].
    assert (X : (9 <= 2 ^ 14)%nat) by (apply Nat.le_trans with (2 ^ 4)%nat; [cbn; lia|apply Nat.pow_le_mono_r; lia]).
    rewrite (Nat.pow_succ_r' 2 14), (Nat.mul_comm 2), Nat.div_mul by discriminate. revert X. generalize (2 ^ 14)%nat. intros; lia. }
  split; [exact H14|].
  pose proof (slot_loop_ok L ltac:(lia) (pm_np mt) EB ltac:(lia) (n / 2) 0 ltac:(lia)) as SL.
  change (5 ^ Z.of_nat 0) with 1 in SL. pose proof (n2_pos L ltac:(lia)) as P. rewrite Z.mod_1_l in SL by lia. rewrite SL in E. cbn [bind] in E. injection E as E.
  rewrite <- E. cbn [fe_ctx fe_pt fe_nt fe_slots]. split; [reflexivity|]. exists mt.
  split; [exact O|]. split; [exact Et|]. split; [reflexivity|]. split; [reflexivity|]. split; [exact P1|].
  rewrite Nat.add_0_r. rewrite <- map_app. f_equal. pose proof (half_n L ltac:(lia)) as [EH _].
  replace (seq 0 n) with (seq 0 (n / 2 + n / 2)) by (f_equal; lia). rewrite seq_app. reflexivity.
Qed.
End Ctx.

(** ** Encoding and decoding *)
Section Enc.
Variables (k log_n t : Z) (qs ps : list Z) (c : rctx) (e : ffenc).
Hypothesis F : encoder_for k log_n qs ps t c e.
Local Notation L := (Z.to_nat log_n).
Local Notation n := (2 ^ L)%nat.
Local Notation psi := (field_root e).

Lemma enc_parts : ctx_args k qs ps t /\ ctx_made k log_n qs ps t c /\ prime t /\ fe_ctx e = c /\ (1 <= L)%nat /\ 1 < t < 2 ^ k /\
  cong t (psi ^ Z.of_nat n) (-1) /\
  exists mt, mod_ok k L mt /\ modulus mt = t /\ fe_pt e = pm_p mt /\ fe_nt e = pm_np mt /\ rc_pt c = Some (pm_p mt) /\ fe_slots e = map (fslot L) (seq 0 n).
Proof.
  destruct F as (A & MF & PT & E). destruct (ff_created _ _ _ _ _ _ A MF PT e E) as (_ & EC & mt & O & Et & E1 & E2 & E3 & E4).
  split; [exact A|]. split; [exact (ff_made _ _ _ _ _ _ MF)|]. split; [exact PT|]. split; [exact EC|].
  split; [apply (f_L k L mt O)|]. split; [apply A|]. split; [|exists mt; auto 10].
  unfold field_root. rewrite E1, E2, <- Et. exact (f_psi k L mt O).
Qed.

Lemma enc_slots msgs : (length msgs <= n)%nat -> Forall (fun x => 0 <= x < 2 ^ k) msgs ->
  exists v, ff_slots e msgs n = Ok v /\ length v = n /\ Forall (stored (fe_pt e)) v /\ params_for k t (fe_pt e) /\
    forall i, (i < n)%nat -> slot_value t psi n (fun j => export_int (fe_pt e) (nth j v 0)) i = nth i msgs 0 mod t.
Proof.
  intros Lm Fm. destruct enc_parts as (_ & _ & _ & _ & _ & _ & _ & mt & O & Et & E1 & E2 & _ & E4).
  destruct (slots_ok k L mt e O E1 E2 E4 msgs Lm Fm) as (v & H1 & H2 & H3 & H4).
  exists v. unfold field_root. rewrite E1, E2, <- Et. split; [exact H1|]. split; [exact H2|]. split; [exact H3|]. split; [apply O|exact H4].
Qed.

Lemma enc_unslot (w : nat -> Z) : ff_unslot e (map (fun i => w i mod t) (seq 0 n)) = Ok (map (slot_value t psi n w) (seq 0 n)).
Proof.
  destruct enc_parts as (_ & _ & _ & _ & HL & T & RT & mt & O & Et & E1 & E2 & _ & E4).
  rewrite (unslot_ok k L mt e O E1 E2 E4).
  - f_equal. apply map_ext_in. intros i Hi. unfold field_root. rewrite E1, E2. rewrite Et.
    unfold field_root in RT. rewrite E1, E2 in RT. apply (slot_ext L HL t _ ltac:(lia)).
    intros j Hj. rewrite (nth_indep _ 0 ((fun i => w i mod t) 0%nat)) by (rewrite map_length, seq_length; exact Hj).
    rewrite (map_nth (fun i => w i mod t)), seq_nth by exact Hj. apply cong_mod.
  - rewrite map_length, seq_length. reflexivity.
  - apply Forall_forall. intros x Ix. apply in_map_iff in Ix. destruct Ix as (i & <- & _). pose proof (Z.mod_pos_bound (w i) t ltac:(lia)). lia.
Qed.

(** centred representatives modulo Q of values below Q/2 *)
Lemma centered_mod q x : 0 < q -> 2 * Z.abs x < q -> centered q (x mod q) = x.
Proof. intros Q H. apply centered_eq; [exact Q|unfold fits; lia|apply cong_mod]. Qed.

Lemma enc_crt l K ntt a w invs : (l < length qs)%nat -> k <= K ->
  let ms := at_level c l in Forall (fun m => big_q ms * modulus m <= 2 ^ K) ms -> hat_inverses ms invs -> t <= big_q ms ->
  rns_is ms L ntt a w -> (forall i, (i < n)%nat -> 2 * Z.abs (w i) < big_q ms) ->
  ff_decode_bgv_crt K e a ms (rns_modulus_complements K ms) invs = Ok (map (slot_value t psi n w) (seq 0 n)).
Proof.
  intros Hl HK ms FIT INV TQ Ha HB. destruct enc_parts as (A & M & PT & EC & HL & T & RT & mt & O & Et & E1 & E2 & _ & E4).
  pose proof (level_ok k log_n t qs ps c A M l) as OK. pose proof (level_ne k log_n t qs ps c A M l Hl) as NE. fold ms in OK, NE.
  pose proof (level_distinct k log_n t qs ps c A M l) as DI. fold ms in DI.
  assert (PF : Forall (fun m => params_for k (modulus m) (pm_p m)) ms) by (eapply Forall_impl; [|exact OK]; intros m [H _]; exact H).
  assert (FP : Forall (fun m => 0 < modulus m) ms) by (apply (Forall_impl _ (fun m H => Z.lt_trans 0 1 _ eq_refl (proj1 (proj2 H))) PF)).
  assert (Qpos : 0 < big_q ms) by (apply prodz_pos; unfold moduli; apply Forall_map; exact FP).
  assert (QK : big_q ms < 2 ^ K).
  { assert (X : exists m, In m ms) by (clear -NE; destruct ms as [|m ?]; [contradiction|exists m; left; reflexivity]).
    destruct X as [m I]. rewrite Forall_forall in FIT, PF. pose proof (FIT m I). destruct (PF m I) as (_ & M1 & _). nia. }
  assert (Kpos : 0 < K) by (destruct A as ([->|[->|[->| ->]]] & _); lia).
  unfold ff_decode_bgv_crt.
  assert (L1 : length (rns_modulus_complements K ms) = length ms) by (rewrite (C43_complements k K ms HK PF QK), map_length; reflexivity).
  assert (L2 : length invs = length ms) by (symmetry; exact (Forall2_len _ _ _ INV)).
  rewrite !same_len_eq by congruence. cbn [negb orb].
  assert (HC : is_rns ms L false (if rp_ntt a then rns_to_coeff a ms else Ok a) w).
  { rewrite (proj1 (proj2 Ha)). destruct ntt; [apply (rns_to_coeff_is k L _ OK a w Ha)|exists a; auto]. }
  destruct HC as (b & Eb & Hb). rewrite Eb. cbn [bind]. destruct Hb as (_ & _ & Hb).
  destruct (C43_interpolation k K ms (rp_vs b) invs n HK NE PF) as (xs & Ex & Lx & Hx).
  { exact (mods_pairwise k L ms OK DI). }
  { exact FIT. }
  { clear -Hb. induction Hb as [|m v ms vs H Hs IH]; constructor; [exact (proj1 H)|exact IH]. }
  { exact INV. }
  rewrite Ex. cbn [bind]. rewrite (big_product_ok K ms Kpos (conj Qpos QK)).
  assert (ET : p_m (fe_pt e) = t) by (rewrite E1; exact Et). rewrite ET.
  unfold wrap at 1. rewrite (Z.mod_small t) by lia.
  assert (XS : forall j, (j < n)%nat -> nth j xs 0 = w j mod big_q ms).
  { intros j Hj. symmetry. apply (Hx j Hj). split; [apply Z.mod_pos_bound; exact Qpos|].
    assert (DV : forall m, In m ms -> (modulus m | big_q ms)) by (intros m I; apply prodz_divide, in_map, I).
    clear -Hb DV Hj FP. revert DV. generalize (big_q ms). intros Q DV. induction Hb as [|m v ms vs H Hs IH]; constructor.
    - destruct H as [_ H]. specialize (H j Hj). cbn [rcoeff] in H. rewrite H. apply cong_to_mod; [pose proof (Forall_inv FP) as X; cbv beta in X; lia|].
      destruct (DV m (or_introl eq_refl)) as [z Ez]. destruct (cong_mod Q (w j)) as [y Ey]. exists (y * z). rewrite Ey, Ez. ring.
    - apply IH; [exact (Forall_inv_tail FP)|]. intros m' I. apply DV. right. exact I. }
  rewrite C57_remove_error; [|lia|exact QK|].
  2:{ apply Forall_forall. intros x Ix. apply In_nth with (d := 0) in Ix. destruct Ix as (j & Hj & <-). rewrite Lx in Hj. rewrite (XS j Hj). apply Z.mod_pos_bound; exact Qpos. }
  cbn [bind].
  assert (EK : p_k (fe_pt e) = k) by (rewrite E1; exact (proj1 (proj2 (pf_good _ _ _ (proj1 O))))).
  rewrite EK.
  replace (map (wrap k) (map (fun x => centered (big_q ms) x mod t) xs)) with (map (fun i => w i mod t) (seq 0 n)); [apply enc_unslot|].
  rewrite map_map. apply (nth_ext _ _ 0 0); [rewrite !map_length, seq_length; congruence|]. rewrite map_length, seq_length. intros i Hi.
  rewrite (nth_indep _ 0 ((fun i => w i mod t) 0%nat)) by (rewrite map_length, seq_length; exact Hi).
  rewrite (map_nth (fun i => w i mod t)), seq_nth by exact Hi. cbn [Nat.add].
  rewrite (nth_indep (map _ xs) 0 ((fun x => wrap k (centered (big_q ms) x mod t)) 0)) by (rewrite map_length, Lx; exact Hi).
  rewrite (map_nth (fun x => wrap k (centered (big_q ms) x mod t))). rewrite (XS i Hi), centered_mod by (try exact Qpos; apply HB, Hi).
  unfold wrap. symmetry. apply Z.mod_small. pose proof (Z.mod_pos_bound (w i) t ltac:(lia)). lia.
Qed.
End Enc.
