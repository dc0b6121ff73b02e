From Coq Require Import Arith Znumtheory.
From Verif Require Import Base FinSum PolySpec Ring Montgomery MontBatch Ntt Poly PolyExt ZLemmas
  MontgomeryProofs TranscriptionProofs MontBatchProofs NttProofs Spec ArithFacts PolyProofs.

Section Lazy.
Variable p : mparams.
Hypothesis G : good p.
Local Notation m := (p_m p).
Local Notation val := (val p).
Local Notation rep := (rep p).
Local Notation k := (p_k p).

Lemma log_max_ok : lazy_log_max p = Ok (2 * k - 1 - 2 * p_logm p) /\ 1 <= 2 * k - 1 - 2 * p_logm p.
Proof.
  unfold lazy_log_max. pose proof (logm_bounds p G) as [H _].
  destruct (Z.ltb_spec (2 * k - 1 - 2 * p_logm p) 1); [lia|]. split; [reflexivity|lia].
Qed.

Definition lmax : Z := 2 ^ (2 * k - 1 - 2 * p_logm p).

Lemma lmax_bound : 1 < lmax /\ lmax < 2 ^ (2 * k) /\ lmax * (m * m) < 2 ^ (2 * k - 1).
Proof.
  pose proof (logm_bounds p G) as [H [_ H2]]. pose proof log_max_ok as [_ H3]. pose proof (m_gt1 p G).
  unfold lmax. split; [apply Z.pow_gt_1; lia|]. split; [apply Z.pow_lt_mono_r; lia|].
  assert (E : 2 ^ (2 * k - 1) = 2 ^ (2 * k - 1 - 2 * p_logm p) * (2 ^ p_logm p * 2 ^ p_logm p)).
  { rewrite <- !Z.pow_add_r by lia. f_equal. lia. }
  rewrite E. apply Z.mul_lt_mono_pos_l; [apply pow2_pos; lia|]. nia.
Qed.

(** The accumulators hold C j, congruent to S j (a sum of products of words). *)
Definition linv (n : nat) (z : lazy) (S : nat -> Z) : Prop :=
  length (lz_coeffs z) = n /\ lz_max z = lmax /\ 0 <= lz_level z <= lmax /\
  forall j, (j < n)%nat -> 0 <= nth j (lz_coeffs z) 0 <= lz_level z * (m * m) /\
     cong m (nth j (lz_coeffs z) 0) (S j).

Lemma word_prod x y : rep x -> rep y -> 0 <= x * y <= m * m.
Proof. unfold MontgomeryProofs.rep. pose proof (m_gt1 p G). nia. Qed.

Lemma big_mul_ok x y : rep x -> rep y -> big_mul p x y = x * y.
Proof.
  intros Hx Hy. unfold big_mul. pose proof (word_prod x y Hx Hy). pose proof (rep_prod p G x y Hx Hy).
  apply wrap_small. pose proof lmax_bound as (L1 & _ & L3).
  assert (2 ^ (2 * k - 1) < 2 ^ (2 * k)) by (pose proof (k_pos p G); apply Z.pow_lt_mono_r; lia). nia.
Qed.

Lemma lazy_empty_ok n : exists z, lazy_create_empty p n = Ok z /\ linv n z (fun _ => 0).
Proof.
  unfold lazy_create_empty. destruct log_max_ok as [-> H]. cbn [bind]. eexists. split; [reflexivity|].
  pose proof lmax_bound as (L1 & L2 & _). pose proof (m_gt1 p G).
  split; [apply repeat_length|]. cbn [lz_max lz_level lz_coeffs]. fold lmax. rewrite wrap_small by lia.
  split; [reflexivity|]. split; [lia|]. intros j Hj. rewrite nth_repeat. split; [lia|reflexivity].
Qed.

Lemma lazy_create_ok n a b : length a = n -> length b = n -> Forall rep a -> Forall rep b ->
  exists z, lazy_create p a b = Ok z /\ linv n z (fun j => nth j a 0 * nth j b 0).
Proof.
  intros La Lb Ra Rb. unfold lazy_create. rewrite same_len_true by lia. cbn [negb].
  destruct log_max_ok as [-> H]. cbn [bind]. eexists. split; [reflexivity|].
  pose proof lmax_bound as (L1 & L2 & _).
  split; [cbn [lz_coeffs]; rewrite map2_length; lia|]. cbn [lz_max lz_level lz_coeffs]. fold lmax. rewrite wrap_small by lia.
  split; [reflexivity|]. split; [lia|]. intros j Hj. rewrite (nth_map2 _ 0 0) by lia.
  rewrite Forall_forall in Ra, Rb.
  assert (Hx : rep (nth j a 0)) by (apply Ra, nth_In; lia).
  assert (Hy : rep (nth j b 0)) by (apply Rb, nth_In; lia).
  rewrite big_mul_ok by assumption. pose proof (word_prod _ _ Hx Hy). split; [lia|reflexivity].
Qed.

Lemma refresh_ok n z S : linv n z S ->
  linv n (lazy_refresh p z) S /\ lz_level (lazy_refresh p z) = 1.
Proof.
  intros (Lz & Mz & Vz & Cz). pose proof lmax_bound as (L1 & L2 & L3). pose proof (m_gt1 p G).
  split; [|reflexivity]. unfold lazy_refresh, linv. cbn [lz_coeffs lz_max lz_level].
  split; [rewrite map_length; exact Lz|]. split; [exact Mz|]. split; [lia|].
  intros j Hj. rewrite (nth_map_any _ _ 0) by lia. destruct (Cz j Hj) as [B E].
  rewrite barrett_reduce_bigint_ok by (try exact G; nia).
  pose proof (Z.mod_pos_bound (nth j (lz_coeffs z) 0) m ltac:(lia)).
  split; [nia|]. rewrite cong_mod. exact E.
Qed.

Lemma lazy_fused_ok n z S a b : linv n z S -> length a = n -> length b = n ->
  Forall rep a -> Forall rep b ->
  exists z', lazy_fused p z a b = Ok z' /\ linv n z' (fun j => S j + nth j a 0 * nth j b 0).
Proof.
  intros Hz La Lb Ra Rb. pose proof Hz as (Lz & Mz & Vz & Cz). unfold lazy_fused.
  rewrite !same_len_true by lia. cbn [negb orb]. eexists. split; [reflexivity|].
  pose proof lmax_bound as (L1 & L2 & L3). pose proof (m_gt1 p G).
  assert (H' : exists z1, z1 = (if lz_level z =? lz_max z then lazy_refresh p z else z) /\
     linv n z1 S /\ lz_level z1 < lmax).
  { eexists. split; [reflexivity|]. destruct (Z.eqb_spec (lz_level z) (lz_max z)).
    - destruct (refresh_ok n z S Hz) as [H1 H2]. split; [exact H1|]. rewrite H2. lia.
    - split; [exact Hz|]. lia. }
  destruct H' as (z1 & <- & (Lz1 & Mz1 & Vz1 & Cz1) & Hlt).
  unfold linv. cbn [lz_coeffs lz_max lz_level].
  assert (Lc : length (combine a b) = n) by (rewrite combine_length_eq; lia).
  split; [rewrite map2_length; lia|]. split; [exact Mz1|]. rewrite (wrap_small (2 * k)) by lia.
  split; [lia|]. intros j Hj. rewrite (nth_map2 _ 0 (0, 0)) by lia. rewrite combine_nth by lia. cbn [fst snd].
  rewrite Forall_forall in Ra, Rb.
  assert (Hx : rep (nth j a 0)) by (apply Ra, nth_In; lia).
  assert (Hy : rep (nth j b 0)) by (apply Rb, nth_In; lia).
  rewrite big_mul_ok by assumption. pose proof (word_prod _ _ Hx Hy). destruct (Cz1 j Hj) as [B E].
  assert (2 ^ (2 * k - 1) < 2 ^ (2 * k)) by (pose proof (k_pos p G); apply Z.pow_lt_mono_r; lia).
  rewrite wrap_small by nia. split; [nia|]. rewrite E. reflexivity.
Qed.

Lemma lazy_export_ok n z S : (0 < n)%nat -> linv n z S ->
  exists out, lazy_export p z = Ok out /\ length out = n /\ Forall (crep p) out /\
    forall j, (j < n)%nat -> cong m (val (nth j out 0)) (S j * (p_invr p * p_invr p)).
Proof.
  intros Hn (Lz & Mz & Vz & Cz). unfold lazy_export.
  pose proof lmax_bound as (L1 & L2 & L3). pose proof (m_gt1 p G).
  set (o := map (fun c => export_int p (barrett_reduce_bigint p c)) (lz_coeffs z)).
  assert (Lo : length o = n) by (unfold o; rewrite map_length; exact Lz).
  exists o. split; [destruct o; [cbn in Lo; lia|reflexivity]|]. split; [exact Lo|].
  assert (K : forall j, (j < n)%nat -> nth j o 0 = val (nth j (lz_coeffs z) 0)).
  { intros j Hj. unfold o. rewrite (nth_map_any _ _ 0) by lia. destruct (Cz j Hj) as [B E].
    rewrite barrett_reduce_bigint_ok by (try exact G; nia).
    rewrite export_int_ok; [apply val_mod|exact G|]. apply rep_word, crep_rep, mod_crep; exact G. }
  split.
  - apply Forall_nth. intros i d Hi. rewrite nth_indep with (d' := 0) by exact Hi. rewrite K by lia.
    apply val_range. exact G.
  - intros j Hj. rewrite (K j Hj). destruct (Cz j Hj) as [_ E].
    unfold MontgomeryProofs.val. rewrite !cong_mod. rewrite E. apply cong_eq. ring.
Qed.

(** [lz] is what some sequence of operations with the given operand pairs leaves. *)
Definition sumprod (ops : list (list Z * list Z)) (j : nat) : Z :=
  fold_right Z.add 0 (map (fun ab => nth j (fst ab) 0 * nth j (snd ab) 0) ops).

Definition ok_ops (n : nat) (ops : list (list Z * list Z)) : Prop :=
  Forall (fun ab => length (fst ab) = n /\ length (snd ab) = n /\
                    Forall rep (fst ab) /\ Forall rep (snd ab)) ops.

Lemma lazy_run_ok n ops : ok_ops n ops -> forall z S, linv n z S ->
  exists z', fold_left (fun r ab => do! l <- r; lazy_fused p l (fst ab) (snd ab)) ops (Ok z) = Ok z' /\
    linv n z' (fun j => S j + sumprod ops j).
Proof.
  induction 1 as [|[a b] t (La & Lb & Ra & Rb) Ht IH]; intros z S Hz.
  - exists z. split; [reflexivity|]. destruct Hz as (A & B & C & D). split; [exact A|].
    split; [exact B|]. split; [exact C|]. intros j Hj. destruct (D j Hj) as [D1 D2].
    split; [exact D1|]. rewrite D2. cbn. apply cong_eq. ring.
  - cbn [fold_left bind fst snd] in *. destruct (lazy_fused_ok n z S a b Hz La Lb Ra Rb) as (z1 & E1 & H1).
    rewrite E1. destruct (IH z1 _ H1) as (z2 & E2 & (A & B & C & D)). exists z2. split; [exact E2|].
    split; [exact A|]. split; [exact B|]. split; [exact C|]. intros j Hj. destruct (D j Hj) as [D1 D2].
    split; [exact D1|]. rewrite D2. apply cong_eq. unfold sumprod. cbn [map fold_right fst snd]. ring.
Qed.

Lemma sumprod_val ops j :
  cong m (sumprod ops j * (p_invr p * p_invr p))
         (fold_right Z.add 0 (map (fun ab => val (nth j (fst ab) 0) * val (nth j (snd ab) 0)) ops)).
Proof.
  induction ops as [|[a b] t IH]; [reflexivity|].
  unfold sumprod in *. cbn [map fold_right fst snd]. rewrite <- IH.
  unfold MontgomeryProofs.val. rewrite !cong_mod. apply cong_eq. ring.
Qed.

End Lazy.

(** ** Modulus conversion *)

Lemma shr1_odd q : Z.odd q = true -> forall x, (x > shr q 1 <-> 2 * x > q).
Proof.
  intros Ho x. unfold shr. change (2 ^ 1) with 2.
  pose proof (Z.div_mod q 2 ltac:(lia)) as D. rewrite Zmod_odd, Ho in D. lia.
Qed.

Lemma good_odd p : good p -> Z.odd (p_m p) = true.
Proof.
  intros G. pose proof (g_odd p G) as O. rewrite Zmod_odd in O. destruct (Z.odd (p_m p)); [reflexivity|discriminate].
Qed.

Section Conv.
Variables pq pp : mparams.
Hypothesis Gq : good pq.
Hypothesis Gp : good pp.
Hypothesis Hk : p_k pq = p_k pp.

Lemma convert_balanced1_ok x : rep pq x ->
  crep pp (convert_balanced1 pq pp x) /\
  cong (p_m pp) (val pp (convert_balanced1 pq pp x)) (centered (p_m pq) (val pq x)).
Proof.
  intros Hx. unfold convert_balanced1.
  pose proof (rep_word pq Gq x Hx) as Wx. rewrite export_int_ok by assumption.
  pose proof (val_range pq Gq x) as Vx. set (v := val pq x) in *.
  pose proof (m_gt1 pq Gq). pose proof (m_gt1 pp Gp). pose proof (m4 pq Gq) as M4q. pose proof (m4 pp Gp) as M4p.
  rewrite Hk in M4q.
  assert (Iv : crep pp (import_int pp v) /\ val pp (import_int pp v) = v mod p_m pp).
  { split; [apply import_crep|apply import_val]; try exact Gp; lia. }
  assert (Id : forall d, 0 <= d < 2 ^ p_k pp ->
    crep pp (import_int pp d) /\ val pp (import_int pp d) = d mod p_m pp).
  { intros d Hd. split; [apply import_crep|apply import_val]; assumption. }
  unfold centered. rewrite Z.mod_small by exact Vx.
  pose proof (shr1_odd (p_m pq) (good_odd pq Gq) v) as S1.
  rewrite !Z.gtb_ltb. destruct (Z.ltb_spec (shr (p_m pq) 1) v); destruct (Z.leb_spec (2 * v) (p_m pq)); try lia.
  - destruct (Z.ltb_spec (p_m pq) (p_m pp)).
    + destruct (Z.ltb_spec (p_m pp) (p_m pq)); [lia|].
      destruct (Id (p_m pp - p_m pq) ltac:(lia)) as [C V]. destruct Iv as [Cv Vv].
      split; [apply madd_crep; try exact Gp; apply crep_rep; assumption|].
      rewrite madd_val by (try exact Gp; apply crep_rep; assumption).
      rewrite V, Vv, !cong_mod. replace (v + (p_m pp - p_m pq)) with (v - p_m pq + p_m pp) by ring.
      transitivity (v - p_m pq + 0); [apply add_cong; [reflexivity|apply cong_m]|]. apply cong_eq; ring.
    + assert (Hd : 0 <= (if p_m pp <? p_m pq then p_m pq - p_m pp else p_m pp - p_m pq) < 2 ^ p_k pp).
      { destruct (Z.ltb_spec (p_m pp) (p_m pq)); lia. }
      destruct (Id _ Hd) as [C V]. destruct Iv as [Cv Vv].
      split; [apply msub_crep; try exact Gp; apply crep_rep; assumption|].
      rewrite msub_val by (try exact Gp; apply crep_rep; assumption).
      rewrite V, Vv, !cong_mod.
      destruct (Z.ltb_spec (p_m pp) (p_m pq)).
      * replace (v - (p_m pq - p_m pp)) with (v - p_m pq + p_m pp) by ring.
        transitivity (v - p_m pq + 0); [apply add_cong; [reflexivity|apply cong_m]|]. apply cong_eq; ring.
      * assert (p_m pp = p_m pq) as E by lia. rewrite E.
        transitivity (v - 0); [apply cong_eq; ring|]. apply sub_cong; [reflexivity|]. symmetry. apply cong_m.
  - destruct Iv as [Cv Vv]. split; [exact Cv|]. rewrite Vv. apply cong_mod.
Qed.

Lemma convert1_ok x : rep pq x ->
  crep pp (import_int pp (export_int pq x)) /\
  cong (p_m pp) (val pp (import_int pp (export_int pq x))) (val pq x).
Proof.
  intros Hx. pose proof (rep_word pq Gq x Hx) as Wx. rewrite export_int_ok by assumption.
  pose proof (val_range pq Gq x) as Vx. pose proof (m4 pq Gq) as M4q. rewrite Hk in M4q.
  split; [apply import_crep; try exact Gp; lia|]. rewrite import_val by (try exact Gp; lia). apply cong_mod.
Qed.
End Conv.

Lemma import_balanced1_ok pp t v : good pp -> 0 < t < 2 ^ p_k pp -> 0 <= v ->
  rep pp (import_balanced1 t pp v) /\
  cong (p_m pp) (val pp (import_balanced1 t pp v)) (centered t v).
Proof.
  intros Gp Ht Hv. unfold import_balanced1, centered. pose proof (Z.mod_pos_bound v t ltac:(lia)) as B.
  set (w := v mod t) in *. unfold shr. change (2 ^ 1) with 2. rewrite Z.gtb_ltb.
  pose proof (Z.div_mod t 2 ltac:(lia)) as D. pose proof (Z.mod_pos_bound t 2 ltac:(lia)).
  destruct (Z.ltb_spec (t / 2) w); destruct (Z.leb_spec (2 * w) t); try lia.
  - pose proof (import_crep pp Gp (t - w) ltac:(lia)) as C. apply crep_rep in C.
    split; [apply mneg_rep; assumption|]. rewrite mneg_val, import_val by (try assumption; lia).
    rewrite !cong_mod. apply cong_eq. ring.
  - split; [apply crep_rep, import_crep; try assumption; lia|]. rewrite import_val by (try assumption; lia). apply cong_mod.
Qed.

(** ** Gadget *)

Section Gadget.
Variable p : mparams.
Hypothesis G : good p.

Lemma gadget_size_ok lb : 1 <= lb <= p_logm p ->
  1 <= gadget_size p lb /\ (gadget_size p lb - 1) * lb < p_logm p <= gadget_size p lb * lb.
Proof.
  intros H. unfold gadget_size.
  pose proof (Z.div_mod (p_logm p + (lb - 1)) lb ltac:(lia)).
  pose proof (Z.mod_pos_bound (p_logm p + (lb - 1)) lb ltac:(lia)). nia.
Qed.

Lemma decompose_loop_ok lb : 1 <= lb < p_k p -> forall dim vs,
  Forall (fun x => 0 <= x < p_m p) vs ->
  let ds := decompose_loop p lb (2 ^ lb - 1) vs dim in
  length ds = dim /\
  (forall i, (i < dim)%nat -> length (nth i ds []) = length vs /\ Forall (crep p) (nth i ds [])) /\
  forall j, (j < length vs)%nat ->
    (forall i, (i < dim)%nat -> val p (nth j (nth i ds []) 0) = (nth j vs 0 / 2 ^ (Z.of_nat i * lb)) mod 2 ^ lb).
Proof.
  intros Hlb. pose proof (m4 p G) as M4. pose proof (m_gt1 p G) as M1.
  assert (P : 0 < 2 ^ lb) by (apply pow2_pos; lia).
  induction dim as [|dim IH]; intros vs Hvs; cbv zeta.
  - split; [reflexivity|]. split; intros; lia.
  - assert (LM : forall x, Z.land x (2 ^ lb - 1) = x mod 2 ^ lb).
    { intros x. rewrite <- Z.land_ones by lia. rewrite Z.ones_equiv. f_equal. }
    assert (DL : forall x, 0 <= x < p_m p -> 0 <= x mod 2 ^ lb < p_m p).
    { intros x Hx. pose proof (Z.mod_le x (2 ^ lb) ltac:(lia) P).
      pose proof (Z.mod_pos_bound x (2 ^ lb) P). lia. }
    destruct (IH (map (fun x => shr x lb) vs)) as (I1 & I2 & I3).
    { rewrite Forall_map. eapply Forall_impl; [|exact Hvs]. intros x Hx. cbv beta in *. unfold shr.
      split; [apply Z.div_pos; lia|]. apply Z.le_lt_trans with x; [|lia].
      apply Z.div_le_upper_bound; [lia|]. nia. }
    cbn [decompose_loop]. split; [cbn [length]; f_equal; exact I1|]. split.
    + intros [|i] Hi; cbn [nth].
      * rewrite map_length. split; [reflexivity|]. rewrite Forall_map. eapply Forall_impl; [|exact Hvs].
        intros x Hx. cbv beta in *. rewrite LM. apply import_crep; [exact G|]. specialize (DL x Hx). lia.
      * specialize (I2 i ltac:(lia)). rewrite map_length in I2. exact I2.
    + intros j Hj [|i] Hi; cbn [nth].
      * rewrite (nth_map_any _ _ 0) by exact Hj. rewrite LM. rewrite Forall_forall in Hvs.
        assert (Hx : 0 <= nth j vs 0 < p_m p) by (apply Hvs, nth_In; exact Hj). specialize (DL _ Hx).
        rewrite import_val by (try exact G; lia). cbn [Z.of_nat]. rewrite Z.mul_0_l, Z.pow_0_r, Z.div_1_r.
        apply Z.mod_small. exact DL.
      * rewrite I3 by (try rewrite map_length; lia). rewrite (nth_map_any _ _ 0) by exact Hj. unfold shr.
        rewrite Z.div_div by (try apply Z.pow_nonzero; try apply pow2_pos; nia).
        rewrite <- Z.pow_add_r by nia. do 3 f_equal. lia.
Qed.

Lemma digit_sum lb x : 0 < lb -> 0 <= x -> forall dim,
  zsum dim (fun i => (x / 2 ^ (Z.of_nat i * lb)) mod 2 ^ lb * 2 ^ (Z.of_nat i * lb)) = x mod 2 ^ (Z.of_nat dim * lb).
Proof.
  intros Hlb Hx. induction dim as [|d IH].
  - cbn. rewrite Z.mod_1_r. reflexivity.
  - cbn [zsum]. rewrite IH.
    replace (Z.of_nat (S d) * lb) with (Z.of_nat d * lb + lb) by lia. rewrite Z.pow_add_r by nia.
    rewrite Z.rem_mul_r by (try apply Z.pow_nonzero; try apply pow2_pos; nia). ring.
Qed.

Lemma base_decompose_ok lb v : 1 <= lb <= p_logm p -> Forall (rep p) v ->
  let dim := Z.to_nat (gadget_size p lb) in
  exists ds, base_decompose p v lb dim = Ok ds /\ length ds = dim /\
    (forall i, (i < dim)%nat -> length (nth i ds []) = length v /\ Forall (crep p) (nth i ds [])) /\
    forall j, (j < length v)%nat ->
      (forall i, (i < dim)%nat -> 0 <= val p (nth j (nth i ds []) 0) < 2 ^ lb) /\
      zsum dim (fun i => val p (nth j (nth i ds []) 0) * 2 ^ (Z.of_nat i * lb)) = val p (nth j v 0).
Proof.
  intros Hlb Hv. cbv zeta. pose proof (logm_bounds p G) as [Hb [_ Hm]]. pose proof (k_pos p G) as Kp.
  pose proof (gadget_size_ok lb Hlb) as [S1 S2]. set (dim := Z.to_nat (gadget_size p lb)).
  unfold base_decompose.
  assert (Hlt : (if p_k p =? 16 then 31 else p_k p) <=? lb = false).
  { apply Z.leb_gt. destruct (Z.eqb_spec (p_k p) 16); lia. }
  rewrite Hlt.
  assert (P : 2 ^ lb < 2 ^ p_k p) by (apply Z.pow_lt_mono_r; lia).
  assert (P1 : 1 < 2 ^ lb) by (apply Z.pow_gt_1; lia).
  rewrite (wrap_small (p_k p) (2 ^ lb)) by lia. rewrite wrap_small by lia.
  assert (Hx : Forall (fun x => 0 <= x < p_m p) (map (export_int p) v)).
  { rewrite Forall_map. eapply Forall_impl; [|exact Hv]. intros x Hx. cbv beta.
    rewrite export_int_ok by (try exact G; apply rep_word; assumption). apply val_range. exact G. }
  destruct (decompose_loop_ok lb ltac:(lia) dim _ Hx) as (D1 & D2 & D3). rewrite map_length in D2, D3.
  eexists. split; [reflexivity|]. split; [exact D1|]. split; [exact D2|].
  intros j Hj. split.
  - intros i Hi. rewrite (D3 j Hj i Hi). apply Z.mod_pos_bound. lia.
  - rewrite (zsum_ext _ _ (fun i => (nth j (map (export_int p) v) 0 / 2 ^ (Z.of_nat i * lb)) mod 2 ^ lb * 2 ^ (Z.of_nat i * lb))).
    2:{ intros i Hi. rewrite (D3 j Hj i Hi). reflexivity. }
    rewrite Forall_forall in Hx. specialize (Hx (nth j (map (export_int p) v) 0)).
    rewrite digit_sum; [|lia|].
    + rewrite Z.mod_small.
      * rewrite (nth_map_any _ _ 0) by exact Hj. apply export_int_ok; [exact G|].
        rewrite Forall_forall in Hv. apply rep_word; [exact G|]. apply Hv, nth_In. exact Hj.
      * assert (In (nth j (map (export_int p) v) 0) (map (export_int p) v)) as I by (apply nth_In; rewrite map_length; exact Hj).
        specialize (Hx I). split; [lia|]. apply Z.lt_le_trans with (2 ^ p_logm p); [lia|].
        apply Z.pow_le_mono_r; [lia|]. unfold dim. rewrite Z2Nat.id by lia. lia.
    + apply Hx, nth_In. rewrite map_length. exact Hj.
Qed.
End Gadget.
