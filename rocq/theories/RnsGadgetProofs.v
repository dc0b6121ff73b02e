(** Gadgets. *)
From Coq Require Import Setoid Ring Znumtheory.
From Verif Require Import Base FinSum PolySpec Ring NegRing SymSpec Montgomery MontgomeryProofs MontBatch MontBatchProofs NttProofs PolyView PolyExt PolyExtProofs
  Spec RnsPoly RnsSpec CrtMath RnsSub RnsProofs RnsReduce RnsBasis RnsBasis2 RnsMore RnsCtx RnsCt RnsCtSpec RnsCtProofs RnsEncode RnsKey RnsKeySpec RnsKeyProofs RnsGadget RnsGadgetSpec ZLemmas.
Local Notation zsum := FinSum.zsum.

(** ** Digits of one modulus *)

Section One.
Variable p : mparams.
Hypothesis G : good p.

Lemma gadget_size_any lb : 1 <= lb ->
  1 <= gadget_size p lb /\ (gadget_size p lb - 1) * lb < p_logm p <= gadget_size p lb * lb.
Proof.
  intros H. unfold gadget_size. pose proof (logm_bounds p G) as [Hb _].
  pose proof (Z.div_mod (p_logm p + (lb - 1)) lb ltac:(lia)).
  pose proof (Z.mod_pos_bound (p_logm p + (lb - 1)) lb ltac:(lia)). nia.
Qed.

Lemma base_decompose_any lb v : 1 <= lb <= 30 -> lb < p_k p -> Forall (rep p) v ->
  let dim := Z.to_nat (gadget_size p lb) in
  exists ds, base_decompose p v lb dim = Ok ds /\ length ds = dim /\
    (forall i, (i < dim)%nat -> length (nth i ds []) = length v /\ Forall (crep p) (nth i ds [])) /\
    forall j, (j < length v)%nat ->
      (forall i, (i < dim)%nat -> 0 <= val p (nth j (nth i ds []) 0) < 2 ^ lb) /\
      zsum dim (fun i => val p (nth j (nth i ds []) 0) * 2 ^ (Z.of_nat i * lb)) = val p (nth j v 0).
Proof.
  intros Hlb Hk Hv. cbv zeta. pose proof (logm_bounds p G) as [Hb [_ Hm]]. pose proof (k_pos p G) as Kp.
  pose proof (gadget_size_any lb ltac:(lia)) as [S1 S2]. set (dim := Z.to_nat (gadget_size p lb)).
  unfold base_decompose.
  assert (Hlt : (if p_k p =? 16 then 31 else p_k p) <=? lb = false).
  { apply Z.leb_gt. destruct (Z.eqb_spec (p_k p) 16); lia. }
  rewrite Hlt.
  assert (P : 2 ^ lb < 2 ^ p_k p) by (apply Z.pow_lt_mono_r; lia).
  assert (P1 : 1 < 2 ^ lb) by (apply Z.pow_gt_1; lia).
  rewrite (wrap_small (p_k p) (2 ^ lb)) by lia. rewrite wrap_small by lia.
  assert (Hx : Forall (fun x => 0 <= x < p_m p) (map (export_int p) v)).
  { rewrite Forall_map. eapply Forall_impl; [|exact Hv]. intros x Hx. cbv beta.
    rewrite export_int_ok by (try exact G; apply rep_word; assumption). apply val_range. exact G. }
  destruct (decompose_loop_ok p G lb ltac:(lia) dim _ Hx) as (D1 & D2 & D3). rewrite map_length in D2, D3.
  eexists. split; [reflexivity|]. split; [exact D1|]. split; [exact D2|].
  intros j Hj. split.
  - intros i Hi. rewrite (D3 j Hj i Hi). apply Z.mod_pos_bound. lia.
  - rewrite (zsum_ext _ _ (fun i => (nth j (map (export_int p) v) 0 / 2 ^ (Z.of_nat i * lb)) mod 2 ^ lb * 2 ^ (Z.of_nat i * lb))).
    2:{ intros i Hi. rewrite (D3 j Hj i Hi). reflexivity. }
    rewrite Forall_forall in Hx. specialize (Hx (nth j (map (export_int p) v) 0)).
    rewrite digit_sum; [|lia|].
    + rewrite Z.mod_small.
      * rewrite (nth_map_any _ _ 0) by exact Hj. apply export_int_ok; [exact G|].
        rewrite Forall_forall in Hv. apply rep_word; [exact G|]. apply Hv, nth_In. exact Hj.
      * assert (In (nth j (map (export_int p) v) 0) (map (export_int p) v)) as I by (apply nth_In; rewrite map_length; exact Hj).
        specialize (Hx I). split; [lia|]. apply Z.lt_le_trans with (2 ^ p_logm p); [lia|].
        apply Z.pow_le_mono_r; [lia|]. unfold dim. rewrite Z2Nat.id by lia. lia.
    + apply Hx, nth_In. rewrite map_length. exact Hj.
Qed.

Lemma digit_count_ok lb : 1 <= lb -> Z.to_nat (gadget_size p lb) = digit_count (p_m p) lb.
Proof.
  intros H. unfold digit_count, gadget_size. rewrite (g_logm p G). unfold BitsUtilProofs.blen. pose proof (m_gt1 p G).
  destruct (Z.eqb_spec (p_m p) 0); [lia|]. f_equal. f_equal. lia.
Qed.
End One.

(** ** Sums *)

Lemma weighted_app ws ws' ds ds' i : length ws = length ds ->
  weighted (ws ++ ws') (ds ++ ds') i = weighted ws ds i + weighted ws' ds' i.
Proof.
  revert ds. induction ws as [|w ws IH]; intros [|d ds] H; try discriminate; cbn [app].
  - reflexivity.
  - injection H as H. specialize (IH ds H).
    change (w * d i + weighted (ws ++ ws') (ds ++ ds') i = w * d i + weighted ws ds i + weighted ws' ds' i). rewrite IH. ring.
Qed.

Lemma weighted_seq F ds i : weighted (map F (seq 0 (length ds))) ds i = zsum (length ds) (fun j => F j * nth j ds (fun _ => 0) i).
Proof.
  unfold weighted. enough (forall s, sumz (map2 (fun w d => w * d i) (map F (seq s (length ds))) ds) =
    zsum (length ds) (fun j => F (s + j)%nat * nth j ds (fun _ => 0) i)) as H by exact (H 0%nat).
  induction ds as [|d ds IH]; intros s; [reflexivity|]. cbn [length seq map map2 sumz fold_right].
  rewrite zsum_first. cbn [nth]. unfold sumz in IH. rewrite IH. replace (s + 0)%nat with s by lia. f_equal.
  apply zsum_ext. intros j _. replace (S s + j)%nat with (s + S j)%nat by lia. reflexivity.
Qed.

Section Gadget.
Variables (k : Z) (L : nat) (ms : list pmod).
Hypothesis OK : moduli_ok k L ms.
Hypothesis DI : distinct ms.
Local Notation n := (2 ^ L)%nat.
Local Notation Q := (big_q ms).

Definition weight (m : pmod) (lb : Z) (j : nat) : Z := hat_of ms m * zinv (modulus m) (hat_of ms m) * 2 ^ (Z.of_nat j * lb).

Lemma hat_other m m' : In m ms -> In m' ms -> modulus m <> modulus m' -> cong (modulus m') (hat_of ms m) 0.
Proof.
  intros I I' N. pose proof (hat_of_mul k L ms OK m I) as E. pose proof (mod_divides ms m' I') as D. rewrite <- E in D.
  unfold cong. rewrite Z.sub_0_r. apply Gauss with (modulus m); [exact D|].
  pose proof (ok_prime k L m' (moduli_in _ _ _ _ OK I')) as P'. pose proof (ok_prime k L m (moduli_in _ _ _ _ OK I)) as P.
  apply prime_rel_prime; [exact P'|]. intros D'. apply (prime_div_prime _ _ P' P) in D'. congruence.
Qed.

Lemma upd_app {A} (a : list A) x b y : upd (a ++ x :: b) (length a) y = a ++ y :: b.
Proof. induction a as [|h a IH]; [reflexivity|]. cbn [app length upd]. rewrite IH. reflexivity. Qed.

(** a component of the gadget vector *)
Lemma entry_ok pre m post cur w : ms = pre ++ m :: post -> residue m cur w -> (forall m', In m' ms -> modulus m' <> modulus m -> cong (modulus m') w 0) ->
  residues ms (upd (map (fun m => import_zero (pm_p m)) ms) (length pre) cur) w.
Proof.
  intros E Hc Hz. rewrite E at 2. rewrite map_app. cbn [map].
  rewrite <- (map_length (fun m => import_zero (pm_p m)) pre), upd_app.
  assert (ND : NoDup (moduli pre ++ modulus m :: moduli post)).
  { unfold distinct in DI. rewrite E in DI. unfold moduli in *. rewrite map_app in DI. exact DI. }
  assert (Z0 : forall l, (forall m', In m' l -> In m' ms /\ modulus m' <> modulus m) ->
    Forall2 (fun m w' => residue m w' w) l (map (fun m => import_zero (pm_p m)) l)).
  { induction l as [|m' l IH]; intros H; constructor; [|apply IH; intros; apply H; right; assumption].
    destruct (H m' (or_introl eq_refl)) as [I N]. pose proof (moduli_in _ _ _ _ OK I) as O.
    apply (residue_ext k L m' O _ 0); [apply (residue_zero k L m' O)|symmetry; apply Hz; assumption]. }
  unfold residues. rewrite E at 1. apply Forall2_app; [|constructor; [exact Hc|]]; apply Z0; intros m' I'.
  - split; [rewrite E; apply in_or_app; left; exact I'|]. intros EM. apply NoDup_remove_2 in ND. apply ND.
    apply in_or_app. left. rewrite <- EM. apply in_map. exact I'.
  - split; [rewrite E; apply in_or_app; right; right; exact I'|]. intros EM. apply NoDup_remove_2 in ND. apply ND.
    apply in_or_app. right. rewrite <- EM. apply in_map. exact I'.
Qed.

Lemma row_ok pre m post lb b : ms = pre ++ m :: post -> residue m b (2 ^ lb) -> 0 <= lb -> forall count s cur,
  residue m cur (weight m lb s) ->
  Forall2 (residues ms) (gadget_row (pm_p m) (length pre) (map (fun m => import_zero (pm_p m)) ms) b cur count) (map (weight m lb) (seq s count)).
Proof.
  intros E Hb H0. assert (I : In m ms) by (rewrite E; apply in_or_app; right; left; reflexivity).
  pose proof (moduli_in _ _ _ _ OK I) as O.
  induction count as [|c IH]; intros s cur Hc; cbn [gadget_row seq map]; constructor.
  - apply (entry_ok pre m post cur (weight m lb s) E Hc). intros m' I' N. unfold weight.
    destruct (hat_other m m' I I' ltac:(congruence)) as [y Ey]. exists (y * zinv (modulus m) (hat_of ms m) * 2 ^ (Z.of_nat s * lb)).
    rewrite Z.sub_0_r in *. rewrite Ey at 1. ring.
  - apply IH. apply (residue_ext k L m O _ (weight m lb s * 2 ^ lb)); [apply (residue_mul k L m O); assumption|].
    apply cong_eq. unfold weight. rewrite Nat2Z.inj_succ, Z.mul_succ_l, Z.pow_add_r by lia. ring.
Qed.

Lemma rows_ok : forall ms' pre log_bs hats invs, ms = pre ++ ms' ->
  length log_bs = length ms' -> Forall (fun lb => 1 <= lb <= 30 /\ lb < k) log_bs ->
  Forall2 (fun m w => residue m w (hat_of ms m)) ms' hats ->
  Forall2 (fun m w => residue m w (zinv (modulus m) (hat_of ms m))) ms' invs ->
  exists bs, seqr (map2 (fun m lb => if (lb <=? 0) || (31 <=? lb) then UB else Ok (wrap (p_k (pm_p m)) (2 ^ lb))) ms' log_bs) = Ok bs /\
    let ks := map2 (fun m lb => Z.to_nat (gadget_size (pm_p m) lb)) ms' log_bs in
    fold_right Nat.add 0%nat ks = length (concat (map2 (fun m lb => map (weight m lb) (seq 0 (digit_count (modulus m) lb))) ms' log_bs)) /\
    Forall2 (residues ms) (gadget_rows (map (fun m => import_zero (pm_p m)) ms) (length pre) ms' bs ks hats invs)
      (concat (map2 (fun m lb => map (weight m lb) (seq 0 (digit_count (modulus m) lb))) ms' log_bs)).
Proof.
  induction ms' as [|m ms' IH]; intros pre log_bs hats invs E Ll Fl Hh Hv.
  - destruct log_bs; [|discriminate]. exists []. cbn. repeat split. constructor.
  - destruct log_bs as [|lb log_bs]; [discriminate|]. injection Ll as Ll.
    inversion Hh as [|? h ? hats' Hh1 Hh2]; subst. inversion Hv as [|? v ? invs' Hv1 Hv2]; subst.
    pose proof (Forall_inv Fl) as [Hlb Hlk]. pose proof (Forall_inv_tail Fl) as Fl'.
    destruct (IH (pre ++ [m]) log_bs hats' invs') as (bs & Eb & Ek & Hr); try assumption.
    { rewrite <- app_assoc. exact E. }
    assert (I : In m ms) by (rewrite E; apply in_or_app; right; left; reflexivity).
    pose proof (moduli_in _ _ _ _ OK I) as O. pose proof (ok_good k L m O) as G. pose proof (ok_k k L m O) as KK.
    cbn [map2 seqr]. destruct (Z.leb_spec lb 0); [lia|]. destruct (Z.leb_spec 31 lb); [lia|]. cbn [orb bind]. rewrite Eb. cbn [bind].
    eexists. split; [reflexivity|]. cbv zeta in *. cbn [fold_right concat]. rewrite !app_length, map_length, seq_length, Ek.
    rewrite (digit_count_ok (pm_p m) G lb ltac:(lia)). split; [reflexivity|]. cbn [gadget_rows].
    apply Forall2_app.
    + apply (row_ok pre m ms' lb _ E).
      * assert (P : 0 <= 2 ^ lb < 2 ^ k) by (split; [apply Z.pow_nonneg; lia|apply Z.pow_lt_mono_r; lia]).
        rewrite KK, wrap_small by exact P. apply (residue_import k L m O). exact P.
      * lia.
      * apply (residue_ext k L m O _ (hat_of ms m * zinv (modulus m) (hat_of ms m))); [apply (residue_mul k L m O); assumption|].
        apply cong_eq. unfold weight. cbn [Z.of_nat Z.mul]. rewrite Z.pow_0_r. ring.
    + rewrite app_length in Hr. cbn [length] in Hr. replace (length pre + 1)%nat with (S (length pre)) in Hr by lia. exact Hr.
Qed.

(** one digit in all moduli *)
Lemma spread_ok pre m post d f : ms = pre ++ m :: post -> sub_is m L false d f ->
  is_rns ms L false (rns_create (spread (pm_p m) (length pre) d 0 ms) false) (fun i => centered (modulus m) (f i)).
Proof.
  intros E Hd. assert (I : In m ms) by (rewrite E; apply in_or_app; right; left; reflexivity).
  pose proof (moduli_in _ _ _ _ OK I) as O. pose proof (ok_q k L m O) as Q1.
  assert (H : forall l j pre', ms = pre' ++ l -> j = length pre' ->
    Forall2 (fun m' v => sub_is m' L false v (fun i => centered (modulus m) (f i))) l (spread (pm_p m) (length pre) d j l)).
  { induction l as [|m' l IH]; intros j pre' E' ->; cbn [spread]; constructor.
    - destruct (Nat.eqb_spec (length pre') (length pre)) as [EL|NL].
      + assert (m' = m).
        { rewrite E in E'. clear -E' EL. revert pre' E' EL. induction pre as [|x pre IH]; intros [|y pre'] E' EL; cbn in *; try discriminate.
          - injection E' as <- _. reflexivity.
          - injection E' as <- E'. injection EL as EL. apply (IH pre' E' EL). }
        subst m'. apply (sub_ext k L m O false d f _ Hd). intros i _. symmetry. apply centered_cong.
      + assert (I' : In m' ms) by (rewrite E'; apply in_or_app; right; left; reflexivity).
        apply (sub_convert_balanced k L m m' d f O (moduli_in _ _ _ _ OK I') Hd).
    - apply (IH (S (length pre')) (pre' ++ [m'])); [rewrite <- app_assoc; exact E'|rewrite app_length; cbn; lia]. }
  specialize (H ms 0%nat [] eq_refl eq_refl). eexists. split.
  - apply create_iff. exists L. split; [|split; [|reflexivity]].
    + intros E0. rewrite E0 in H. inversion H as [E1|]. rewrite <- E1 in E. destruct pre; discriminate.
    + clear -H. induction H as [|m' v l l' [[Lv _] _] H IH]; constructor; auto.
  - split; [reflexivity|]. split; [reflexivity|]. exact H.
Qed.

Lemma row_decompose pre m post lb v f B : ms = pre ++ m :: post -> 1 <= lb <= 30 -> lb < k -> sub_is m L false v f ->
  Z.min (2 ^ lb - 1) (modulus m / 2) <= B ->
  exists ws xs ds, base_decompose (pm_p m) v lb (digit_count (modulus m) lb) = Ok ws /\
    seqr (map (fun d => rns_create (spread (pm_p m) (length pre) d 0 ms) false) ws) = Ok xs /\
    Forall2 (rns_is ms L false) xs ds /\ length ds = digit_count (modulus m) lb /\ Forall (bounded n B) ds /\
    pcong Q n (weighted (map (weight m lb) (seq 0 (digit_count (modulus m) lb))) ds) (fun i => crt_digit ms (f i) m * hat_of ms m).
Proof.
  intros E Hlb Hlk Hv HB. assert (I : In m ms) by (rewrite E; apply in_or_app; right; left; reflexivity).
  pose proof (moduli_in _ _ _ _ OK I) as O. pose proof (ok_good k L m O) as G. pose proof (ok_k k L m O) as KK. pose proof (ok_q k L m O) as Q1.
  destruct Hv as [[Lv Sv] Vv].
  assert (Rv : Forall (rep (pm_p m)) v) by exact Sv.
  destruct (base_decompose_any (pm_p m) G lb v Hlb ltac:(rewrite KK; exact Hlk) Rv) as (ws & Ew & Lw & Sw & Vw).
  cbv zeta in *. pose proof (digit_count_ok (pm_p m) G lb ltac:(lia)) as DC. rewrite DC in Ew, Lw, Sw, Vw. clear DC. change (p_m (pm_p m)) with (modulus m) in *.
  set (dim := digit_count (modulus m) lb) in *.
  set (D := fun (w : list Z) (i : nat) => centered (modulus m) (export_int (pm_p m) (nth i w 0))).
  assert (SW : forall w, In w ws -> ntt_poly (pm_p m) L w).
  { intros w Iw. apply (In_nth _ _ []) in Iw. destruct Iw as (i & Hi & <-). rewrite Lw in Hi. destruct (Sw i Hi) as [A1 A2].
    split; [congruence|]. eapply Forall_impl; [|exact A2]. intros x Hx. unfold crep, rep, stored in *. lia. }
  assert (HX : exists xs, seqr (map (fun d => rns_create (spread (pm_p m) (length pre) d 0 ms) false) ws) = Ok xs /\
    Forall2 (rns_is ms L false) xs (map D ws)).
  { clear -E O SW OK I. induction ws as [|w ws IH]; [exists []; split; [reflexivity|constructor]|].
    destruct IH as (xs & Ex & Hx); [intros; apply SW; right; assumption|].
    pose proof (sub_self k L m O false w (SW w (or_introl eq_refl))) as Hw.
    destruct (spread_ok pre m post w _ E Hw) as (x & E1 & H1). exists (x :: xs). cbn [map seqr]. rewrite E1. cbn [bind]. rewrite Ex.
    split; [reflexivity|]. constructor; [exact H1|exact Hx]. }
  destruct HX as (xs & Ex & Hx). exists ws, xs, (map D ws). split; [exact Ew|]. split; [exact Ex|]. split; [exact Hx|].
  split; [rewrite map_length; exact Lw|].
  assert (VW : forall i j, (j < n)%nat -> (i < dim)%nat -> export_int (pm_p m) (nth j (nth i ws []) 0) = val (pm_p m) (nth j (nth i ws []) 0)).
  { intros i j Hj Hi. apply export_int_ok; [exact G|]. destruct (Sw i Hi) as [A1 A2]. rewrite Forall_forall in A2.
    apply rep_word; [exact G|]. pose proof (A2 (nth j (nth i ws []) 0) ltac:(apply nth_In; lia)) as C. unfold crep, rep in *. lia. }
  split.
  - apply Forall_forall. intros d Id. apply in_map_iff in Id. destruct Id as (w & <- & Iw). apply (In_nth _ _ []) in Iw. destruct Iw as (i & Hi & <-).
    rewrite Lw in Hi. intros j Hj. unfold D. rewrite VW by assumption.
    destruct (Vw j ltac:(lia)) as [V1 _]. specialize (V1 i Hi). set (x := val (pm_p m) (nth j (nth i ws []) 0)) in *.
    pose proof (centered_fits (modulus m) x ltac:(lia)) as F. unfold fits in F.
    pose proof (centered_le (modulus m) x ltac:(lia)) as C. assert (2 * Z.abs (centered (modulus m) x) <= modulus m) by lia.
    assert (Z.abs (centered (modulus m) x) <= modulus m / 2) by (apply Z.div_le_lower_bound; lia). lia.
  - intros i Hi.
    replace (seq 0 dim) with (seq 0 (length (map D ws))) by (rewrite map_length, Lw; reflexivity). rewrite weighted_seq, map_length, Lw.
    rewrite (zsum_ext _ _ (fun j => hat_of ms m * (zinv (modulus m) (hat_of ms m) * (D (nth j ws []) i * 2 ^ (Z.of_nat j * lb))))).
    2:{ intros j Hj. unfold weight. rewrite (nth_indep _ _ (D [])) by (rewrite map_length, Lw; exact Hj). rewrite map_nth. ring. }
    rewrite zsum_mul_l, zsum_mul_l.
    assert (C : cong (modulus m) (zsum dim (fun j => D (nth j ws []) i * 2 ^ (Z.of_nat j * lb))) (f i)).
    { destruct (Vw i ltac:(lia)) as [_ V2].
      transitivity (zsum dim (fun j => val (pm_p m) (nth i (nth j ws []) 0) * 2 ^ (Z.of_nat j * lb))).
      - apply zsum_cong. intros j Hj. unfold D. rewrite VW by assumption. rewrite centered_cong. reflexivity.
      - rewrite V2. specialize (Vv i Hi). unfold rcoeff in Vv. rewrite export_int_ok in Vv; [rewrite Vv; apply cong_mod|exact G|].
        apply rep_word; [exact G|]. rewrite Forall_forall in Rv. apply Rv, nth_In. lia. }
    unfold crt_digit. set (X := zsum dim _) in *. set (z := zinv _ _).
    assert (C' : cong (modulus m) (z * X) ((z * f i) mod modulus m)) by (rewrite C; symmetry; apply cong_mod).
    destruct C' as [y Ey]. exists y. pose proof (hat_of_mul k L ms OK m I) as E1.
    replace (hat_of ms m * (z * X) - (z * f i) mod modulus m * hat_of ms m) with (hat_of ms m * (z * X - (z * f i) mod modulus m)) by ring.
    rewrite Ey, <- E1. ring.
Qed.

Lemma get_app {A} (a : list A) x b i : i = length a -> get (a ++ x :: b) i = Ok x.
Proof. intros ->. unfold get. rewrite nth_error_app2, Nat.sub_diag by lia. reflexivity. Qed.

Lemma rows_decompose g f B : forall ms' pre lpre log_bs kpre vs, ms = pre ++ ms' -> length lpre = length pre -> length kpre = length pre ->
  rg_logbs g = lpre ++ log_bs -> rg_dims g = kpre ++ map2 (fun m lb => Z.to_nat (gadget_size (pm_p m) lb)) ms' log_bs ->
  length log_bs = length ms' -> Forall (fun lb => 1 <= lb <= 30 /\ lb < k) log_bs ->
  Forall2 (fun m lb => Z.min (2 ^ lb - 1) (modulus m / 2) <= B) ms' log_bs ->
  Forall2 (fun m v => sub_is m L false v f) ms' vs ->
  exists xs ds, decompose_rows g ms (length pre) ms' vs = Ok xs /\ Forall2 (rns_is ms L false) xs ds /\
    length ds = length (concat (map2 (fun m lb => map (weight m lb) (seq 0 (digit_count (modulus m) lb))) ms' log_bs)) /\
    Forall (bounded n B) ds /\
    pcong Q n (weighted (concat (map2 (fun m lb => map (weight m lb) (seq 0 (digit_count (modulus m) lb))) ms' log_bs)) ds)
      (fun i => sumz (map (fun m => crt_digit ms (f i) m * hat_of ms m) ms')).
Proof.
  induction ms' as [|m ms' IH]; intros pre lpre log_bs kpre vs E L1 L2 E1 E2 Ll Fl HB Hv.
  - inversion Hv; subst. destruct log_bs; [|discriminate]. exists [], []. cbn. repeat split; try constructor. 
    exists 0. reflexivity.
  - destruct log_bs as [|lb log_bs]; [discriminate|]. injection Ll as Ll. inversion Hv as [|? v ? vs' Hv1 Hv2]; subst.
    inversion HB as [|? ? ? ? HB1 HB2]; subst.
    pose proof (Forall_inv Fl) as [Hlb Hlk]. pose proof (Forall_inv_tail Fl) as Fl'.
    destruct (IH (pre ++ [m]) (lpre ++ [lb]) log_bs (kpre ++ [Z.to_nat (gadget_size (pm_p m) lb)]) vs') as (xs & ds & Ex & Hx & Ld & Bd & Wd);
      try assumption; try (rewrite !app_length; cbn; lia); try (rewrite <- app_assoc; assumption).
    assert (I : In m ms) by (rewrite E; apply in_or_app; right; left; reflexivity).
    pose proof (moduli_in _ _ _ _ OK I) as O. pose proof (ok_good k L m O) as G.
    destruct (row_decompose pre m ms' lb v f B E Hlb Hlk Hv1 HB1) as (ws & xs1 & ds1 & Ew & Ex1 & Hx1 & Ld1 & Bd1 & Wd1).
    cbn [map2] in E2. cbn [decompose_rows]. rewrite E1, E2, (get_app lpre lb log_bs) by lia. cbn [bind].
    rewrite (get_app kpre) by lia. cbn [bind]. rewrite (digit_count_ok (pm_p m) G lb ltac:(lia)). change (p_m (pm_p m)) with (modulus m).
    rewrite Ew. cbn [bind]. rewrite Ex1. cbn [bind].
    rewrite app_length in Ex. cbn [length] in Ex. replace (length pre + 1)%nat with (S (length pre)) in Ex by lia. rewrite Ex. cbn [bind].
    exists (xs1 ++ xs), (ds1 ++ ds). split; [reflexivity|]. split; [apply Forall2_app; assumption|].
    cbn [map2 concat map sumz fold_right]. split; [rewrite !app_length, map_length, seq_length; congruence|].
    split; [apply Forall_app; split; assumption|]. intros i Hi. rewrite weighted_app by (rewrite map_length, seq_length; congruence).
    rewrite (Wd1 i Hi). rewrite (Wd i Hi). reflexivity.
Qed.

Lemma gadget_ok log_n log_bs hats invs B : ms <> [] -> 0 < log_n ->
  length log_bs = length ms -> Forall (fun lb => 1 <= lb <= 30 /\ lb < k) log_bs ->
  Forall2 (fun m w => residue m w (hat_of ms m)) ms hats -> hat_inverses ms invs ->
  Forall2 (fun m lb => Z.min (2 ^ lb - 1) (modulus m / 2) <= B) ms log_bs ->
  exists g, rgadget_create log_n log_bs hats invs ms = Ok g /\ gadget_for ms L B g (gadget_weights ms log_bs).
Proof.
  intros NE Hn Ll Fl Hh Hv HB. pose proof (hat_inverses_residues k L ms invs OK DI Hv) as Hv'.
  destruct (rows_ok ms [] log_bs hats invs eq_refl Ll Fl Hh Hv') as (bs & Eb & Ek & Hr).
  unfold rgadget_create. destruct (Z.leb_spec log_n 0); [lia|]. rewrite (ne_match ms) by exact NE.
  rewrite (same_len_eq log_bs ms Ll), (same_len_eq hats ms) by (symmetry; apply (Forall2_len _ _ _ Hh)).
  rewrite (same_len_eq invs ms) by (symmetry; apply (Forall2_len _ _ _ Hv')). rewrite Eb. cbn [bind].
  eexists. split; [reflexivity|]. split; [exact Ek|]. split; [exact Hr|].
  intros a f (A1 & A2 & A3). unfold rg_decompose. rewrite A2. rewrite (same_len_eq ms (rp_vs a)) by (apply (Forall2_len _ _ _ A3)).
  match goal with |- context [decompose_rows ?g _ _ _ _] =>
    destruct (rows_decompose g f B ms [] [] log_bs [] (rp_vs a) eq_refl eq_refl eq_refl eq_refl eq_refl Ll Fl HB A3) as (xs & ds & Ex & Hx & Ld & Bd & Wd) end.
  exists xs, ds. split; [exact Ex|]. split; [exact Hx|]. split; [exact Ld|]. split; [exact Bd|].
  intros i Hi. etransitivity; [exact (Wd i Hi)|]. apply (crt_value_cong k L ms OK DI).
Qed.
End Gadget.
