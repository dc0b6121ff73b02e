(** Scaling and switching to one modulus that need not be prime: the plaintext
    modulus. *)
From Coq Require Import Znumtheory.
From Verif Require Import Base FinSum PolySpec Ring Montgomery MontBatch Ntt Poly PolyExt MontgomeryProofs
  MontBatchProofs Fermat Spec PolyView ArithFacts NttFacts NttProofs PolyProofs PolyFacts ThmPolyExt
  RnsPoly RnsSpec CrtMath RnsSub RnsProofs RnsBasis.
Local Notation zsum := FinSum.zsum.

(** an inverse of a modulo b *)
Definition binv (a b : Z) : Z := match euclid a b with Euclid_intro _ _ u _ d _ _ => u * d end.
Lemma binv_ok a b : rel_prime a b -> cong b (binv a b * a) 1.
Proof.
  intros RP. unfold binv. destruct (euclid a b) as [u v d E G].
  assert (D : d = 1 \/ d = -1).
  { exact (Zis_gcd_uniqueness_apart_sign _ _ _ _ G RP). }
  exists (- (v * d)). assert (DD : d * d = 1) by (destruct D as [D|D]; rewrite D; reflexivity).
  transitivity (d * (u * a) - d * d); [rewrite DD; ring|]. rewrite <- E. ring.
Qed.

Section Word.
Variables (k : Z) (L : nat) (m : pmod).
Hypothesis PF : params_for k (modulus m) (pm_p m).
Local Notation n := (2 ^ L)%nat.
Local Notation p := (pm_p m).

Lemma w_good : good p.
Proof. apply (pf_good _ _ _ PF). Qed.
Lemma w_k : p_k p = k.
Proof. apply (pf_good _ _ _ PF). Qed.
Lemma w_m : 1 < modulus m.
Proof. apply PF. Qed.
Lemma w_val w x : residue m w x -> stored p w /\ val p w = x mod modulus m.
Proof. intros [S E]. split; [exact S|]. rewrite stored_val in E by (try exact S; exact w_good). exact E. Qed.
Lemma w_intro w x : stored p w -> val p w = x mod modulus m -> residue m w x.
Proof. intros S E. split; [exact S|]. rewrite stored_val by (try exact S; exact w_good). exact E. Qed.
Lemma w_ext w x y : residue m w x -> cong (modulus m) x y -> residue m w y.
Proof. intros [S E] C. split; [exact S|]. rewrite E. pose proof w_m. apply cong_to_mod; [lia|exact C]. Qed.
Lemma w_add a b x y : residue m a x -> residue m b y -> residue m (madd p a b) (x + y).
Proof.
  intros Ha Hb. destruct (w_val a x Ha) as [Sa Va]. destruct (w_val b y Hb) as [Sb Vb].
  apply w_intro; [apply crep_rep, madd_crep; try assumption; exact w_good|].
  rewrite madd_val by (try assumption; exact w_good). rewrite Va, Vb. symmetry. apply Zplus_mod.
Qed.
Lemma w_mul a b x y : residue m a x -> residue m b y -> residue m (mmul p a b) (x * y).
Proof.
  intros Ha Hb. destruct (w_val a x Ha) as [Sa Va]. destruct (w_val b y Hb) as [Sb Vb].
  apply w_intro; [apply crep_rep, mmul_crep; try assumption; exact w_good|].
  rewrite mmul_val by (try assumption; exact w_good). rewrite Va, Vb. symmetry. apply Zmult_mod.
Qed.
Lemma w_neg a x : residue m a x -> residue m (mneg p a) (- x).
Proof.
  intros Ha. destruct (w_val a x Ha) as [Sa Va].
  apply w_intro; [apply mneg_rep; try assumption; exact w_good|].
  rewrite mneg_val by (try assumption; exact w_good). rewrite Va. pose proof w_m.
  apply cong_to_mod; [unfold modulus in *; lia|]. unfold modulus. rewrite cong_mod. reflexivity.
Qed.
Lemma w_import x : 0 <= x < 2 ^ k -> residue m (import_int p x) x.
Proof.
  intros H. rewrite <- w_k in H. pose proof w_good as G.
  apply w_intro; [apply crep_rep, import_crep; assumption|]. apply import_val; assumption.
Qed.
Lemma w_zero : residue m (import_zero p) 0.
Proof.
  pose proof w_m. apply w_intro; [split; unfold import_zero, modulus in *; lia|].
  rewrite zero_val by exact w_good. symmetry. apply Z.mod_0_l. lia.
Qed.

Lemma ws_add v w f g : sub_is m L false v f -> sub_is m L false w g ->
  exists r, batch_add p v w = Ok r /\ sub_is m L false r (fun i => f i + g i).
Proof.
  intros Hv Hw. pose proof (sub_len _ _ _ _ _ Hv) as Lv. pose proof (sub_len _ _ _ _ _ Hw) as Lw.
  unfold batch_add. rewrite (proj2 (same_len_spec v w)) by lia. eexists. split; [reflexivity|].
  apply (map2_is L m (madd p) Z.add); try assumption. apply w_add.
Qed.
Lemma ws_scale v f w x : sub_is m L false v f -> residue m w x ->
  exists r, batch_mul_scalar p v w = Ok r /\ sub_is m L false r (fun i => x * f i).
Proof.
  intros Hv Hw. eexists. split; [reflexivity|].
  apply (map_is L m (fun y => mmul p y w) (fun y => x * y)); [|exact Hv].
  intros a y Ha. eapply w_ext; [apply w_mul; [exact Ha|exact Hw]|]. apply cong_eq. ring.
Qed.
Lemma ws_ext v f g : sub_is m L false v f -> (forall i, (i < n)%nat -> cong (modulus m) (f i) (g i)) -> sub_is m L false v g.
Proof.
  intros [P V] C. split; [exact P|]. intros i Hi. rewrite (V i Hi). pose proof w_m. apply cong_to_mod; [lia|apply C, Hi].
Qed.
Lemma ws_convert mq v f : mod_ok k L mq -> sub_is mq L false v f ->
  sub_is m L false (convert_modulus (pm_p mq) p v) (fun i => f i mod modulus mq).
Proof.
  intros Oq Hv. pose proof (sub_len _ _ _ _ _ Hv) as Lv. destruct Hv as [[_ Sv] Vv].
  destruct (C22_convert_modulus k _ _ _ _ v (ok_for k L mq Oq) PF Sv) as (L1 & S1 & V1).
  split; [split; [congruence|exact S1]|]. intros i Hi. unfold rcoeff. rewrite V1 by lia.
  f_equal. unfold rcoeff in Vv. apply (Vv i Hi).
Qed.

Lemma acc_one qs (X : pmod -> nat -> Z) (H : pmod -> Z) : moduli_ok k L qs ->
  forall rows hss o F, Forall2 (fun q r => sub_is q L false r (X q)) qs rows ->
  Forall2 (fun q hs => exists w, hs = [Ok w] /\ residue m w (H q)) qs hss -> sub_is m L false o F ->
  exists o', acc_rows convert_modulus qs rows [m] hss [o] = Ok [o'] /\
    sub_is m L false o' (fun i => F i + sumz (map (fun q => H q * (X q i mod modulus q)) qs)).
Proof.
  induction qs as [|q qs IH]; intros OK rows hss o F Hr Hh Ho.
  - exists o. split; [reflexivity|]. apply (ws_ext o _ _ Ho). intros i Hi. unfold sumz. cbn. apply cong_eq. ring.
  - destruct rows as [|row rows]; [inversion Hr|]. destruct hss as [|hs hss]; [inversion Hh|].
    assert (Hr1 : sub_is q L false row (X q)) by (inversion Hr; assumption).
    assert (Hr2 : Forall2 (fun q r => sub_is q L false r (X q)) qs rows) by (inversion Hr; assumption).
    assert (Hh1 : exists w, hs = [Ok w] /\ residue m w (H q)) by (inversion Hh; assumption).
    assert (Hh2 : Forall2 (fun q hs => exists w, hs = [Ok w] /\ residue m w (H q)) qs hss) by (inversion Hh; assumption).
    destruct Hh1 as (w & -> & Hw). cbn [acc_rows acc_row bind].
    pose proof (ws_convert q row _ (Forall_inv OK) Hr1) as Hx.
    destruct (ws_scale _ _ w _ Hx Hw) as (r & Er & Hr'). rewrite Er. cbn [bind].
    destruct (ws_add o r _ _ Ho Hr') as (r2 & Er2 & Hr2'). rewrite Er2. cbn [bind].
    destruct (IH (Forall_inv_tail OK) rows hss r2 _ Hr2 Hh2 Hr2') as (o' & E & Ho'). exists o'. split; [exact E|].
    apply (ws_ext o' _ _ Ho'). intros i Hi. cbn [map].
    match goal with |- cong _ _ (_ + sumz (?a :: ?l)) => change (sumz (a :: l)) with (a + sumz l) end.
    apply cong_eq. ring.
Qed.
End Word.

Section One.
Variables (k : Z) (L : nat) (qs : list pmod) (m : pmod) (D : dops).
Hypothesis OKq : moduli_ok k L qs.
Hypothesis PF : params_for k (modulus m) (pm_p m).
Hypothesis DI : distinct qs.
Local Notation n := (2 ^ L)%nat.
Local Notation Q := (big_q qs).
Local Notation t := (modulus m).
Variables (hat_inv : list Z).
Hypothesis HI : hat_inverses qs (firstn (length qs) hat_inv).

Lemma scale_one_ok (cs : rnsint) p_mod a f u y :
  Forall2 (fun q w => stored (pm_p m) w /\ (export_int (pm_p m) w * modulus q) mod t = 1) qs (firstn (length qs) cs) ->
  Forall2 (fun q w => residue q w t) qs (firstn (length qs) p_mod) ->
  rns_is qs L false a f ->
  (forall i, (i < n)%nat -> rounds_to D k qs (t * f i) (u i)) ->
  (forall i, (i < n)%nat -> Q * y i = t * f i - (crt_value qs (t * f i) - u i * Q)) ->
  exists v, rns_scale_and_switch D a qs [m] hat_inv [cs] p_mod = Ok {| rp_logn := L; rp_vs := [v]; rp_ntt := false |} /\
    sub_is m L false v y.
Proof.
  intros HV HP Ha Hu Hy. pose proof (rns_len _ _ _ _ _ Ha) as Ea. pose proof (w_m k m PF) as T1.
  pose proof (Forall2_len _ _ _ HI) as Li. symmetry in Li. apply len_firstn in Li.
  pose proof (Forall2_len _ _ _ HP) as Lp. symmetry in Lp. apply len_firstn in Lp.
  assert (CO : forall q, In q qs -> rel_prime (modulus q) t).
  { intros q I. destruct (In_nth qs q q I) as (i & Hi & E).
    destruct (firstn_get _ q qs cs i HV Hi) as (w & _ & _ & V). rewrite E in V.
    apply bezout_rel_prime. apply Bezout_intro with (export_int (pm_p m) w) (- ((export_int (pm_p m) w * modulus q) / t)).
    pose proof (Z_div_mod_eq_full (export_int (pm_p m) w * modulus q) t) as G. rewrite V in G. lia. }
  unfold rns_scale_and_switch. destruct Ha as (A1 & A2 & Ha). rewrite A2. rewrite same_len_eq by congruence.
  destruct (Nat.ltb_spec (length hat_inv) (length (rp_vs a))); [lia|]. cbn [same_len length Nat.eqb negb].
  change (same_len [cs] [m]) with true. cbn [negb].
  destruct (Nat.ltb_spec (length p_mod) (length (rp_vs a))); [lia|].
  pose proof (hat_inverses_residues k L qs _ OKq DI HI) as HW.
  set (X := fun m i => zinv (modulus m) (hat_of qs m) * (t * f i)).
  destruct (each_ok _ (fun m r => sub_is m L false r (X m))
    (fun m vz => do! v <- batch_mul_scalar (pm_p m) (fst vz) (fst (snd vz)); batch_mul_scalar (pm_p m) v (snd (snd vz))) _ _
    (Forall2_combine _ _ _ _ _ Ha (Forall2_combine _ _ _ _ _ HP HW))) as (rows & E & HVr).
  { intros q [v [w1 w2]] I [Hv [Hw1 Hw2]]. cbn [fst snd] in *. pose proof (moduli_in _ _ _ _ OKq I) as O.
    destruct (sub_scale k L q O false v f w1 _ Hv Hw1) as (r & Er & Hr). rewrite Er. cbn [bind].
    apply (sub_scale k L q O false r _ w2 _ Hr Hw2). }
  assert (Ec : combine (rp_vs a) (combine (firstn (length qs) p_mod) (firstn (length qs) hat_inv)) =
               combine (rp_vs a) (combine p_mod hat_inv)).
  { rewrite (combine_firstn (rp_vs a) (combine p_mod hat_inv)). f_equal. rewrite <- Ea.
    generalize (length qs) p_mod hat_inv. clear. induction n; intros [|x a] [|y b]; cbn; try reflexivity.
    f_equal. apply IHn. }
  rewrite Ec in E. rewrite E. cbn [bind]. unfold rp_ncoeffs. rewrite A1.
  destruct (us_value k L qs D (fun i => t * f i) rows _ u HVr eq_refl Hu) as (us & Eu & Lu & HU). rewrite Eu. cbn [bind].
  destruct (acc_one k L m PF qs X (fun q => - binv (modulus q) t) OKq rows
     (map (fun i => map2 (fun pj z => do! x <- get z i; Ok (mneg (pm_p pj) x)) [m] [cs]) (seq 0 (length qs)))
     (repeat (import_zero (pm_p m)) n) (fun _ => 0) HVr) as (o & Eo & Ho).
  - assert (K : forall l s, (forall i, (i < length l)%nat -> nth_error qs (s + i) = nth_error l i) ->
      Forall2 (fun q hs => exists w, hs = [Ok w] /\ residue m w (- binv (modulus q) t)) l
        (map (fun i => map2 (fun pj z => do! x <- get z i; Ok (mneg (pm_p pj) x)) [m] [cs]) (seq s (length l)))).
    { induction l as [|q l IH]; intros s Hs; [constructor|]. cbn [length seq map]. constructor.
      - assert (Eq : nth_error qs s = Some q) by (rewrite <- (Nat.add_0_r s); apply (Hs 0%nat); cbn; lia).
        assert (Hsl : (s < length qs)%nat) by (apply nth_error_Some; congruence).
        assert (Iq : In q qs) by (eapply nth_error_In; eauto).
        destruct (firstn_get _ q qs cs s HV Hsl) as (w & Ew & Sw & Vw). rewrite (nth_error_nth _ _ q Eq) in Vw.
        exists (mneg (pm_p m) w). cbn [map2]. rewrite Ew. split; [reflexivity|].
        apply (w_neg k m PF). apply (w_ext k m PF w (export_int (pm_p m) w)).
        + split; [exact Sw|]. symmetry. apply Z.mod_small. rewrite stored_val by (try exact Sw; exact (w_good k m PF)).
          apply (val_range (pm_p m) (w_good k m PF)).
        + apply (mul_inverse_unique t (modulus q)); [apply mod1_cong; [lia|exact Vw]|apply binv_ok, CO, Iq].
      - apply IH. intros i Hi. rewrite Nat.add_succ_comm. apply (Hs (S i)). cbn [length]. lia. }
    apply K. reflexivity.
  - apply (rcoeff_form L m). split; [apply repeat_length|]. intros i Hi.
    rewrite (nth_indep _ 0 (import_zero (pm_p m))) by (rewrite repeat_length; exact Hi). rewrite nth_repeat. apply (w_zero k m PF).
  - change (zero_outs n [m]) with [repeat (import_zero (pm_p m)) n]. rewrite Eo. cbn [bind map2 seqr].
    rewrite (seqr_map_nth _ us (fun i => import_int (pm_p m) (u i))).
    2:{ intros i x Ex. rewrite (proj2 (HU i x Ex)). reflexivity. }
    cbn [bind].
    assert (Hcs : sub_is m L false (map (fun i => import_int (pm_p m) (u i)) (seq 0 (length us))) u).
    { apply (rcoeff_form L m). split; [rewrite map_length, seq_length; exact Lu|]. intros i Hi.
      rewrite (nth_map_any _ _ 0%nat) by (rewrite seq_length; lia). rewrite seq_nth by lia. cbn [plus].
      apply (w_import k m PF). apply (Hu i Hi). }
    destruct (ws_add k L m PF o _ _ _ Ho Hcs) as (r & Er & Hr). rewrite Er. cbn [bind]. exists r. split; [reflexivity|].
    apply (ws_ext k L m PF r _ _ Hr). intros i Hi. cbv beta.
    assert (NQ : rel_prime t Q).
    { unfold big_q. apply rel_prime_prodz. apply Forall_forall. intros x Hx. unfold moduli in Hx. apply in_map_iff in Hx.
      destruct Hx as (q & <- & Iq). apply rel_prime_sym, CO, Iq. }
    assert (CQ : forall x z, cong t (Q * x) (Q * z) -> cong t x z).
    { intros x z C. unfold cong in *. replace (Q * x - Q * z) with (Q * (x - z)) in C by ring.
      apply (Gauss t Q); [exact C|exact NQ]. }
    apply CQ. rewrite (Hy i Hi). rewrite Z.add_0_l, Z.mul_add_distr_l. rewrite <- (sumz_mul_l Q).
    transitivity (0 - (crt_value qs (t * f i) - u i * Q)); [|apply sub_cong; [exists (- f i); ring|reflexivity]].
    transitivity (sumz (map (fun q => -1 * (crt_digit qs (t * f i) q * hat_of qs q)) qs) + Q * u i).
    + apply add_cong; [|reflexivity]. apply sumz_cong. intros q Iq. cbv beta.
      change (X q i mod modulus q) with (crt_digit qs (t * f i) q).
      rewrite <- (hat_of_mul k L qs OKq q Iq).
      pose proof (binv_ok (modulus q) t (CO q Iq)) as ZI. destruct ZI as [z Ez].
      exists (- (z * hat_of qs q * crt_digit qs (t * f i) q)).
      replace (modulus q * hat_of qs q * (- binv (modulus q) t * crt_digit qs (t * f i) q) - -1 * (crt_digit qs (t * f i) q * hat_of qs q))
        with (- (binv (modulus q) t * modulus q - 1) * (hat_of qs q * crt_digit qs (t * f i) q)) by ring.
      rewrite Ez. ring.
    + rewrite (sumz_mul_l (-1)). unfold crt_value. apply cong_eq. ring.
Qed.
End One.
