(** BFV coefficient encoding and decoding. *)
From Coq Require Import Setoid Ring Znumtheory QArith Lqa Lia.
From Verif Require Import Base FinSum PolySpec Ring NegRing Montgomery MontBatch MontBatchProofs Spec ArithFacts PolyExt ThmPolyExt
  RnsPoly RnsSpec CrtMath RnsSub RnsProofs RnsReduce RnsBasis RnsBasis2 RnsMore RnsFloat RnsCtx RnsCtxSpec RnsCtxProofs RnsCtxFacts RnsCrt ThmRnsCtx ThmRns ThmRnsBasis
  RnsEncode RnsEncodeSpec RnsKeySpec RnsKeyProofs RnsDecode RnsScaleOne.
Local Open Scope Z_scope.

Lemma Forall2_firstn {X Y} (P : X -> Y -> Prop) j a b : Forall2 P a b -> Forall2 P (firstn j a) (firstn j b).
Proof. intros H. revert j. induction H; intros [|j]; cbn [firstn]; constructor; auto. Qed.

Lemma nth_pad n zero v i : (i < n)%nat -> (length v <= n)%nat -> nth i (pad_to n zero v) zero = nth i v zero.
Proof.
  intros Hi Lv. unfold pad_to. destruct (Nat.lt_ge_cases i (length v)); [apply app_nth1; assumption|].
  rewrite app_nth2, nth_repeat by assumption. symmetry. apply nth_overflow. assumption.
Qed.

Section Ctx.
Variables (k log_n t : Z) (qs ps : list Z) (c : rctx).
Hypothesis A : ctx_args k qs ps t.
Hypothesis M : ctx_made_bfv k log_n qs ps t c.
Hypothesis G : forall q, In q qs -> Z.gcd q t = 1.
Local Notation L := (Z.to_nat log_n).
Local Notation n := (2 ^ L)%nat.

Lemma bfv_made : ctx_made k log_n qs ps t c.
Proof. destruct M; unfold ctx_made; auto. Qed.
Local Notation M' := bfv_made.

Lemma bfv_pt : exists pt, rc_pt c = Some pt /\ params_for k t pt.
Proof. destruct (created_pt k log_n qs ps t c A M G) as (pt & E & P & _). exists pt. auto. Qed.

Lemma plain_for pt : params_for k t pt -> params_for k (modulus (plain_modulus c pt)) (pm_p (plain_modulus c pt)) /\ modulus (plain_modulus c pt) = t.
Proof.
  intros P. destruct (pf_good _ _ _ P) as (_ & _ & E). unfold modulus. cbn [plain_modulus pm_p]. rewrite E. auto.
Qed.

Lemma not_div q : In q qs -> ~ (q | t).
Proof.
  intros I D. specialize (G q I). assert (P : prime q).
  { destruct A as (_ & P & _). rewrite Forall_forall in P. apply P, I. }
  assert (Q1 : 1 < q) by (destruct P; lia).
  assert (q | Z.gcd q t) by (apply Z.gcd_greatest; [apply Z.divide_refl|exact D]). rewrite G in H.
  apply Z.divide_1_r_nonneg in H; lia.
Qed.

(** the messages modulo t *)
Lemma plain_ok pt msgs : params_for k t pt -> (length msgs <= n)%nat -> Forall (fun x => 0 <= x < 2 ^ k) msgs ->
  sub_is (plain_modulus c pt) L false (pad_to n (import_zero pt) (map (import_int pt) msgs)) (fun i => nth i msgs 0).
Proof.
  intros P Lm Fm. destruct (plain_for pt P) as [PF ET]. apply (rcoeff_form L). split.
  { unfold pad_to. rewrite app_length, repeat_length, map_length. lia. }
  intros i Hi. rewrite (nth_indep _ 0 (import_zero pt)).
  2:{ unfold pad_to. rewrite app_length, repeat_length, map_length. lia. }
  rewrite nth_pad by (try exact Hi; rewrite map_length; exact Lm).
  destruct (Nat.lt_ge_cases i (length msgs)) as [Hm|Hm].
  - rewrite (nth_indep _ _ (import_int pt 0)) by (rewrite map_length; exact Hm). rewrite map_nth.
    apply (w_import k _ PF). rewrite Forall_forall in Fm. apply Fm, nth_In, Hm.
  - rewrite !nth_overflow by (try rewrite map_length; exact Hm). apply (w_zero k _ PF).
Qed.

Lemma bfv_encode_unscaled l msgs : (l < length qs)%nat -> (length msgs <= n)%nat -> Forall (fun x => 0 <= x < 2 ^ k) msgs ->
  is_rns (at_level c l) L true (coeff_encode_bfv c msgs (at_level c l) false) (fun i => nth i msgs 0 mod t).
Proof.
  intros Hl Lm Fm. unfold coeff_encode_bfv. rewrite (ctx_shl k log_n t qs ps c A M') by lia. cbn [bind].
  destruct (Nat.ltb_spec n (length msgs)); [lia|]. rewrite ne_match by (apply (level_ne k log_n t qs ps c A M' l Hl)).
  destruct bfv_pt as (pt & Ep & P). rewrite Ep. pose proof (plain_ok pt msgs P Lm Fm) as ([S1 S2] & S3).
  eapply (is_rns_ext k L _ (level_ok k log_n t qs ps c A M' l)).
  - apply (convert_is k L _ (level_ok k log_n t qs ps c A M' l) (level_ne k log_n t qs ps c A M' l Hl) t pt _ P S1 S2).
  - intros m i I Hi. cbv beta. specialize (S3 i Hi). unfold rcoeff in S3. cbn [plain_modulus pm_p] in S3. rewrite S3.
    destruct (plain_for pt P) as [_ ET]. rewrite ET. reflexivity.
Qed.

Lemma full_level : (0 < length qs)%nat -> rc_qs c = at_level c (length qs - 1).
Proof. intros H. unfold at_level. replace (S (length qs - 1)) with (length (rc_qs c)) by (rewrite (ctx_len k log_n t qs ps c A M'); lia). rewrite firstn_all. reflexivity. Qed.

Lemma bfv_encode_ok msgs : (0 < length qs)%nat -> (length msgs <= n)%nat -> Forall (fun x => 0 <= x < 2 ^ k) msgs ->
  exists g, is_rns (rc_qs c) L true (coeff_encode_bfv c msgs (rc_qs c) true) g /\
  forall i, (i < n)%nat -> 0 <= t * g i - prodz qs * nth i msgs 0 < t.
Proof.
  intros Hl Lm Fm. set (Q := prodz qs). destruct (ctx_t k log_n t qs ps c A M') as [Et Ht].
  destruct (ctx_qs_ok k log_n t qs ps c A M') as (OK & Mq & DI).
  assert (NE : rc_qs c <> []) by (rewrite full_level by exact Hl; apply (level_ne k log_n t qs ps c A M'); lia).
  set (r := fun i => (nth i msgs 0 * (- Q)) mod t). set (g := fun i => (Q * nth i msgs 0 + r i) / t).
  assert (EG : forall i, t * g i = Q * nth i msgs 0 + r i).
  { intros i. unfold g. symmetry. apply Z_div_exact_full_2; [lia|]. unfold r. rewrite Zplus_mod_idemp_r.
    replace (Q * nth i msgs 0 + nth i msgs 0 * - Q) with 0 by ring. apply Z.mod_0_l. lia. }
  exists g. split.
  - unfold coeff_encode_bfv. rewrite (ctx_shl k log_n t qs ps c A M') by lia. cbn [bind].
    destruct (Nat.ltb_spec n (length msgs)); [lia|]. rewrite ne_match by exact NE.
    destruct bfv_pt as (pt & Ep & P). rewrite Ep. destruct (plain_for pt P) as [PF ET].
    destruct (C49_constants k log_n qs ps t c A M') as (_ & _ & _ & _ & _ & _ & _ & _ & _ & _ & _ & _ & EQ & _ & _ & TI & _).
    rewrite EQ. fold Q.
    destruct (ws_scale k L _ PF _ _ (mneg pt (import_int pt (Q mod t))) (- (Q mod t)) (plain_ok pt msgs P Lm Fm)) as (v & Ev & Hv).
    { apply (w_neg k _ PF). apply (w_import k _ PF). pose proof (Z.mod_pos_bound Q t ltac:(lia)). lia. }
    cbn [plain_modulus pm_p] in Ev. rewrite Ev. cbn [bind]. destruct Hv as ([S1 S2] & S3).
    destruct (convert_is k L _ OK NE t pt v P S1 S2) as (a & Ea & Ha). rewrite Ea. cbn [bind].
    apply (rns_mul_words k L _ OK true a (fun i => export_int pt (nth i v 0)) (rc_t_inv_mod_qs c) (fun m => zinv (modulus m) t)); [exact Ha| |].
    + apply (inverses_words k L _ _ t OK (TI not_div)).
    + intros m i I Hi. specialize (S3 i Hi). unfold rcoeff in S3. cbn [plain_modulus pm_p] in S3. rewrite S3, ET.
      replace ((- (Q mod t) * nth i msgs 0) mod t) with (r i).
      2:{ unfold r. apply cong_to_mod; [lia|]. destruct (cong_mod t Q) as [y Ey]. exists (nth i msgs 0 * y).
          replace (Q mod t) with (Q + y * t) by lia. ring. }
      assert (Dm : (modulus m | Q)).
      { unfold Q. rewrite <- Mq. apply prodz_divide. apply in_map, I. }
      pose proof (moduli_in _ _ _ _ OK I) as O.
      assert (ZI : cong (modulus m) (zinv (modulus m) t * t) 1).
      { apply (inverses_words k L _ _ t OK (TI not_div)), I. }
      destruct ZI as [z Ez]. destruct Dm as [y Ey].
      exists (z * g i - zinv (modulus m) t * (y * nth i msgs 0)).
      assert (r i = t * g i - Q * nth i msgs 0) as -> by (rewrite EG; ring). rewrite Ey.
      replace (zinv (modulus m) t * (t * g i - y * modulus m * nth i msgs 0) - g i) with
        ((zinv (modulus m) t * t - 1) * g i - zinv (modulus m) t * (y * modulus m * nth i msgs 0)) by ring.
      rewrite Ez. ring.
  - intros i Hi. rewrite EG. unfold r. pose proof (Z.mod_pos_bound (nth i msgs 0 * - Q) t ltac:(lia)). lia.
Qed.

Lemma bfv_encode_low l msgs : (S l < length qs)%nat -> (length msgs <= n)%nat -> Forall (fun x => 0 <= x < 2 ^ k) msgs ->
  coeff_encode_bfv c msgs (at_level c l) true = Err InvalidArgument.
Proof.
  intros Hl Lm Fm. destruct (ctx_t k log_n t qs ps c A M') as [Et Ht].
  unfold coeff_encode_bfv. rewrite (ctx_shl k log_n t qs ps c A M') by lia. cbn [bind].
  destruct (Nat.ltb_spec n (length msgs)); [lia|]. pose proof (level_ne k log_n t qs ps c A M' l ltac:(lia)) as NE. rewrite ne_match by exact NE.
  destruct bfv_pt as (pt & Ep & P). rewrite Ep. destruct (plain_for pt P) as [PF ET].
  destruct (C49_constants k log_n qs ps t c A M') as (_ & _ & _ & _ & _ & _ & _ & _ & _ & _ & _ & _ & EQ & _ & _ & TI & _).
  rewrite EQ.
  destruct (ws_scale k L _ PF _ _ (mneg pt (import_int pt (prodz qs mod t))) (- (prodz qs mod t)) (plain_ok pt msgs P Lm Fm)) as (v & Ev & Hv).
  { apply (w_neg k _ PF). apply (w_import k _ PF). pose proof (Z.mod_pos_bound (prodz qs) t ltac:(lia)). lia. }
  cbn [plain_modulus pm_p] in Ev. rewrite Ev. cbn [bind]. destruct Hv as ([S1 S2] & S3).
  destruct (convert_is k L _ (level_ok k log_n t qs ps c A M' l) NE t pt v P S1 S2) as (a & Ea & Ha). rewrite Ea. cbn [bind].
  unfold rns_mul_rnsint. rewrite same_len_neq; [reflexivity|].
  specialize (TI not_div). pose proof (Forall2_len _ _ _ TI) as L1. rewrite <- L1, <- (rns_len _ _ _ _ _ Ha).
  unfold at_level. rewrite firstn_length, (ctx_len k log_n t qs ps c A M'). lia.
Qed.

Lemma bfv_decode_ok D val eps l ntt a w m : float_model D val eps -> (l < length qs)%nat ->
  rns_is (at_level c l) L ntt a w ->
  (forall i, (i < n)%nat -> bfv_decodable k eps (firstn (S l) qs) (Z.abs (t * w i - prodz (firstn (S l) qs) * m i))) ->
  coeff_decode_bfv D c a (at_level c l) = Ok (map (fun i => m i mod t) (seq 0 n)).
Proof.
  intros FM Hl Ha Hm. destruct (ctx_t k log_n t qs ps c A M') as [Et Ht].
  pose proof (level_ok k log_n t qs ps c A M' l) as OK. pose proof (level_ne k log_n t qs ps c A M' l Hl) as NE.
  pose proof (level_distinct k log_n t qs ps c A M' l) as DI. pose proof (level_moduli k log_n t qs ps c A M' l) as ML.
  unfold coeff_decode_bfv. pose proof (rns_len _ _ _ _ _ Ha) as La. rewrite same_len_eq by exact La.
  destruct (created_pt k log_n qs ps t c A M G) as (pt & Ep & P & _ & HI & _). rewrite Ep.
  destruct (plain_for pt P) as [PF ET].
  assert (HC : is_rns (at_level c l) L false (if rp_ntt a then rns_to_coeff a (at_level c l) else Ok a) w).
  { rewrite (proj1 (proj2 Ha)). destruct ntt; [apply (rns_to_coeff_is k L _ OK a w Ha)|exists a; auto]. }
  destruct HC as (b & Eb & Hb). rewrite Eb. cbn [bind].
  assert (LL : length (at_level c l) = S l) by (unfold at_level; rewrite firstn_length, (ctx_len k log_n t qs ps c A M'); lia).
  rewrite LL. replace (Z.of_nat (S l) - 1) with (Z.of_nat l) by lia.
  destruct (C49_levels k log_n qs ps t c l A M' Hl) as (_ & (ws & E1 & H1) & _). rewrite E1. cbn [bind].
  set (ms := at_level c l) in *. set (Q := big_q ms) in *.
  assert (EQ : prodz (firstn (S l) qs) = Q) by (unfold Q, big_q; rewrite ML; reflexivity). rewrite EQ in Hm.
  pose proof (big_q_pos k L ms OK) as PQ. fold Q in PQ.
  set (u := fun i => (crt_value ms (t * w i) - centered Q (t * w i)) / Q).
  assert (HN : forall i, (i < n)%nat -> centered Q (t * w i) = t * w i - Q * m i /\ exists u', rounds_to D k ms (t * w i) u' /\ nearest ms (t * w i) u').
  { intros i Hi. destruct (Hm i Hi) as (N1 & N2 & N3 & N4). rewrite EQ in N4. rewrite <- ML in N1, N3, N4. unfold moduli in N1, N3, N4. rewrite map_length in N1, N3, N4.
    assert (F : 2 * Z.abs (t * w i - Q * m i) < Q).
    { rewrite Zlt_Qlt, inject_Z_mult. change (inject_Z 2) with 2%Q.
      pose proof (fm_eps _ _ _ FM) as E0.
      assert (I0 : (0 <= inject_Z Q)%Q) by (apply inj_nonneg; lia).
      assert (I1 : (0 <= inject_Z (Z.of_nat (length ms) * (Z.of_nat (length ms) + 6)))%Q) by (apply inj_nonneg; lia).
      assert (X : (0 <= eps * inject_Z (Z.of_nat (length ms) * (Z.of_nat (length ms) + 6)) * inject_Z Q)%Q).
      { apply Qmult_le_0_compat; [apply Qmult_le_0_compat; assumption|assumption]. }
      revert N4 X. generalize (inject_Z Q) (inject_Z (Z.abs (t * w i - Q * m i))) (eps * inject_Z (Z.of_nat (length ms) * (Z.of_nat (length ms) + 6)))%Q.
      intros q b' e N4 X. apply Qlt_le_trans with (2 * (((1 # 2) - e) * q))%Q.
      - apply Qmult_lt_l; [reflexivity|exact N4].
      - setoid_replace (2 * (((1 # 2) - e) * q))%Q with (q - 2 * (e * q))%Q by ring. lra. }
    assert (CE : centered Q (t * w i) = t * w i - Q * m i).
    { apply centered_eq; [lia|unfold fits; lia|exists (m i); ring]. }
    split; [exact CE|]. apply (C55_rounding k L D val eps ms (t * w i) FM OK DI N2 N3); [|exact N1|].
    - destruct OK as [|m0 ms0 O0 _]; [contradiction|]. destruct (ok_for k L m0 O0) as (W & _). destruct W as [->|[->|[->| ->]]]; lia.
    - fold Q. rewrite CE. exact N4. }
  assert (HU : forall i, (i < n)%nat -> rounds_to D k ms (t * w i) (u i) /\ crt_value ms (t * w i) - u i * Q = centered Q (t * w i)).
  { intros i Hi. destruct (HN i Hi) as (CE & u' & R & N).
    pose proof (nearest_centered k L ms OK DI (t * w i) u' (big_q_odd k L ms OK) N) as EC. fold Q in EC.
    assert (u i = u') as ->; [|split; assumption].
    unfold u. rewrite <- EC. replace (crt_value ms (t * w i) - (crt_value ms (t * w i) - u' * Q)) with (u' * Q) by ring.
    apply Z.div_mul. lia. }
  destruct (scale_one_ok k L ms (plain_modulus c pt) D OK PF DI ws) with (cs := rc_q_invs_mod_t c) (p_mod := rc_t_mod_qs c) (a := b) (f := w) (u := u) (y := m) as (v & Ev & Hv).
  - pose proof (Forall2_len _ _ _ H1) as L1. rewrite firstn_all2 by lia. exact H1.
  - rewrite ET. cbn [plain_modulus pm_p]. rewrite LL. unfold ms, at_level. apply Forall2_firstn. exact HI.
  - rewrite ET, LL. unfold ms, at_level. apply Forall2_firstn.
    destruct (C49_constants k log_n qs ps t c A M') as (_ & _ & _ & _ & _ & _ & _ & _ & _ & _ & _ & _ & _ & _ & TR & _). exact TR.
  - exact Hb.
  - rewrite ET. intros i Hi. apply (HU i Hi).
  - rewrite ET. fold Q. intros i Hi. rewrite (proj2 (HU i Hi)), (proj1 (HN i Hi)). ring.
  - unfold rnsint in *. rewrite Ev. cbn [bind rp_vs get nth_error]. unfold rp_ncoeffs. cbn [rp_logn].
    pose proof (sub_len L _ _ _ _ Hv) as Lv. rewrite Lv, Nat.ltb_irrefl. rewrite <- Lv at 1. rewrite firstn_all. f_equal.
    apply (nth_ext _ _ 0 0); [rewrite !map_length, seq_length; exact Lv|]. intros i Hi. rewrite map_length, Lv in Hi.
    rewrite (nth_indep _ 0 (export_int pt 0)) by (rewrite map_length, Lv; exact Hi). rewrite map_nth.
    rewrite (nth_indep (map (fun i => m i mod t) (seq 0 n)) 0 (m 0%nat mod t)) by (rewrite map_length, seq_length; exact Hi).
    rewrite (map_nth (fun i => m i mod t)), seq_nth by exact Hi. cbn [Nat.add].
    destruct (sub_res L _ _ _ i Hv Hi) as [_ E]. cbn [plain_modulus pm_p] in E. rewrite E, ET. reflexivity.
Qed.
End Ctx.
