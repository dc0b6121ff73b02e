(** Modulus reduction of RNS polynomials. *)
From Coq Require Import Znumtheory.
From Verif Require Import Base FinSum PolySpec Ring Montgomery MontBatch Ntt Poly PolyExt MontgomeryProofs
  MontBatchProofs Spec PolyView ArithFacts NttFacts NttProofs PolyProofs PolyFacts
  RnsPoly RnsSpec CrtMath RnsSub RnsProofs.

Lemma Forall2_last {A B} (P : A -> B -> Prop) ms m vs : Forall2 P (ms ++ [m]) vs ->
  exists ws v, vs = ws ++ [v] /\ Forall2 P ms ws /\ P m v.
Proof.
  intros H. apply Forall2_app_inv_l in H. destruct H as (ws & x & H1 & H2 & E).
  inversion H2 as [|? v ? ? Hv Hn]; subst. inversion Hn; subst. exists ws, v. auto.
Qed.

Lemma reduce_divides ql t r k x : ql = k * t + r -> (ql | r * x + t * centered ql (k * x)).
Proof.
  intros E. destruct (centered_cong ql (k * x)) as [y Ey].
  exists (x + t * y). replace (centered ql (k * x)) with (k * x + y * ql) by lia. subst ql. ring.
Qed.

Section Reduce.
Variables (k : Z) (L : nat) (ms : list pmod) (ml : pmod).
Hypothesis OK : moduli_ok k L ms.
Hypothesis OKl : mod_ok k L ml.
Hypothesis NE : ms <> [].
Local Notation n := (2 ^ L)%nat.
Local Notation ql := (modulus ml).
Variable inv : rnsint.
(** inv is q_l^-1 modulo each remaining prime *)
Variable c : pmod -> Z.
Hypothesis Hc : forall m, In m ms -> cong (modulus m) (c m * ql) 1.
Hypothesis Hinv : Forall2 (fun m w => residue m w (c m)) ms inv.

Lemma len_ne : (1 <= length ms)%nat.
Proof. destruct ms; [contradiction|cbn; lia]. Qed.

Lemma cancel m x g : In m ms -> x = ql * g -> cong (modulus m) (c m * x) g.
Proof.
  intros I ->. rewrite Z.mul_assoc. rewrite (Hc m I). apply cong_eq. ring.
Qed.

Lemma lsb_ok ntt a f t : rns_is (ms ++ [ml]) L ntt a f -> 0 < t < 2 ^ k ->
  let r := ql mod t in let kk := ql / t in
  forall g, (forall i, (i < n)%nat -> r * f i + t * centered ql (kk * f i) = ql * g i) ->
  is_rns ms L ntt (rns_mod_reduce_lsb a t inv (ms ++ [ml])) g.
Proof.
  intros Ha Ht r kk g Hg. pose proof len_ne as LN.
  pose proof (rns_len _ _ _ _ _ Ha) as Ea. pose proof (Forall2_len _ _ _ Hinv) as Ei.
  destruct Ha as (A1 & A2 & Ha). destruct (Forall2_last _ _ _ _ Ha) as (ws & dl & Ev & Hws & Hdl).
  pose proof (Forall2_len _ _ _ Hws) as Ew.
  unfold rns_mod_reduce_lsb. rewrite same_len_eq by exact Ea. rewrite Ev, app_length. cbn [length].
  destruct (Nat.leb_spec (length ws + 1) 1); [lia|].
  destruct (Nat.eqb_spec (length inv) (length ws + 1 - 1)); [cbn [negb]|lia].
  unfold rns_detach. rewrite Ev, rev_unit. cbn [bind]. unfold last_modulus. rewrite rev_unit. cbn [bind].
  destruct (Z.eqb_spec t 0); [lia|].
  assert (Eq : p_m (pm_p ml) = ql) by reflexivity. rewrite Eq. fold r.
  pose proof (ok_q k L ml OKl) as Q1. pose proof (ok_qk k L ml OKl) as Q2.
  assert (Ek : (ql - r) / t = kk).
  { unfold r, kk. pose proof (Z.div_mod ql t ltac:(lia)) as D.
    replace (ql - ql mod t) with (ql / t * t) by lia. apply Z.div_mul. lia. }
  rewrite Ek.
  assert (Rr : 0 <= r < t) by (apply Z.mod_pos_bound; lia).
  assert (Rk : 0 <= kk < 2 ^ k).
  { unfold kk. split; [apply Z.div_pos; lia|]. apply Z.div_lt_upper_bound; [lia|]. nia. }
  destruct (sub_scale k L ml OKl ntt dl f _ kk Hdl (residue_import k L ml OKl kk Rk)) as (dl' & Ed & Hd).
  rewrite Ed. cbn [bind]. rewrite app_length. cbn [length].
  replace (length ms + 1 - 1)%nat with (length ms) by lia.
  rewrite firstn_app, Nat.sub_diag, firstn_all. cbn [firstn]. rewrite app_nil_r, rev_involutive.
  assert (Hw : rns_is ms L ntt (with_vs a ws) f) by (split; [exact A1|]; split; [exact A2|exact Hws]).
  destruct (rns_mul_scalar_is k L ms OK ntt (with_vs a ws) f r Hw ltac:(lia)) as (b & Eb & Hb).
  rewrite Eb. cbn [bind]. pose proof Hb as (B1 & B2 & Hb').
  rewrite B2. destruct ntt.
  - destruct (sub_inverse k L ml OKl dl' _ Hd) as (dc & Edc & Hdc). rewrite Edc. cbn [bind].
    set (delta := {| rp_logn := rp_logn b; rp_vs := map (fun m => convert_balanced (pm_p ml) (pm_p m) dc) ms; rp_ntt := false |}).
    assert (D0 : rns_is ms L false delta (fun i => centered ql (kk * f i))).
    { split; [exact B1|]. split; [reflexivity|]. cbn [rp_vs delta]. apply map_forall. intros m I.
      apply (sub_convert_balanced k L ml m dc _ OKl (moduli_in _ _ _ _ OK I) Hdc). }
    destruct (rns_to_ntt_is k L ms OK delta _ D0) as (d1 & E1 & D1). rewrite E1. cbn [bind].
    destruct (rns_mul_scalar_is k L ms OK true d1 _ t D1 ltac:(lia)) as (d2 & E2 & D2). rewrite E2. cbn [bind].
    destruct (rns_add_is k L ms OK true b d2 _ _ Hb D2) as (d3 & E3 & D3). rewrite E3. cbn [bind].
    apply (rns_mul_words k L ms OK true d3 _ inv c g D3 Hinv). intros m i I Hi. cbv beta.
    apply cancel; [exact I|]. apply Hg, Hi.
  - destruct (each_ok _ (fun m r => sub_is m L false r g)
      (fun m vz => let p := pm_p m in let d := convert_balanced (pm_p ml) p dl' in
         do! d0 <- batch_mul_scalar p d (import_int p t);
         do! v <- batch_add p (fst vz) d0; batch_mul_scalar p v (snd vz)) _ _
      (Forall2_combine _ _ _ _ _ Hb' Hinv)) as (vs & E & HV).
    + intros m [v w] I [Hv Hw']. cbn [fst snd] in *. cbv zeta. pose proof (moduli_in _ _ _ _ OK I) as O.
      pose proof (sub_convert_balanced k L ml m dl' _ OKl O Hd) as Hcv.
      destruct (sub_scale k L m O false _ _ _ t Hcv (residue_import k L m O t ltac:(lia))) as (d0 & E0 & H0).
      rewrite E0. cbn [bind]. destruct (sub_add k L m O false v d0 _ _ Hv H0) as (d1 & E1 & H1).
      rewrite E1. cbn [bind]. destruct (sub_scale k L m O false d1 _ w (c m) H1 Hw') as (d2 & E2 & H2).
      exists d2. split; [exact E2|]. eapply (sub_ext k L m O); [exact H2|]. intros i Hi. cbv beta.
      apply cancel; [exact I|]. apply Hg, Hi.
    + cbv zeta in E. rewrite E. cbn [bind]. eexists. split; [reflexivity|]. split; [exact B1|]. split; [exact B2|exact HV].
Qed.

Lemma msb_ok ntt a f : rns_is (ms ++ [ml]) L ntt a f ->
  forall g, (forall i, (i < n)%nat -> f i - centered ql (f i) = ql * g i) ->
  is_rns ms L ntt (rns_mod_reduce_msb a inv (ms ++ [ml])) g.
Proof.
  intros Ha g Hg. pose proof len_ne as LN.
  pose proof (rns_len _ _ _ _ _ Ha) as Ea. pose proof (Forall2_len _ _ _ Hinv) as Ei.
  destruct Ha as (A1 & A2 & Ha). destruct (Forall2_last _ _ _ _ Ha) as (ws & dl & Ev & Hws & Hdl).
  pose proof (Forall2_len _ _ _ Hws) as Ew.
  unfold rns_mod_reduce_msb. rewrite same_len_eq by exact Ea. rewrite Ev, app_length. cbn [length].
  destruct (Nat.leb_spec (length ws + 1) 1); [lia|].
  destruct (Nat.eqb_spec (length inv) (length ws + 1 - 1)); [cbn [negb]|lia].
  unfold rns_detach. rewrite Ev, rev_unit. cbn [bind]. unfold last_modulus. rewrite rev_unit. cbn [bind].
  rewrite app_length. cbn [length].
  replace (length ms + 1 - 1)%nat with (length ms) by lia.
  rewrite firstn_app, Nat.sub_diag, firstn_all. cbn [firstn]. rewrite app_nil_r, rev_involutive.
  set (b := with_vs a ws).
  assert (Hb : rns_is ms L ntt b f) by (split; [exact A1|]; split; [exact A2|exact Hws]).
  pose proof Hb as (B1 & B2 & Hb').
  rewrite B2. destruct ntt.
  - destruct (sub_inverse k L ml OKl dl _ Hdl) as (dc & Edc & Hdc). rewrite Edc. cbn [bind].
    set (delta := {| rp_logn := rp_logn b; rp_vs := map (fun m => convert_balanced (pm_p ml) (pm_p m) dc) ms; rp_ntt := false |}).
    assert (D0 : rns_is ms L false delta (fun i => centered ql (f i))).
    { split; [exact B1|]. split; [reflexivity|]. cbn [rp_vs delta]. apply map_forall. intros m I.
      apply (sub_convert_balanced k L ml m dc _ OKl (moduli_in _ _ _ _ OK I) Hdc). }
    destruct (rns_to_ntt_is k L ms OK delta _ D0) as (d1 & E1 & D1). rewrite E1. cbn [bind].
    destruct (rns_sub_is k L ms OK true b d1 _ _ Hb D1) as (d3 & E3 & D3). rewrite E3. cbn [bind].
    apply (rns_mul_words k L ms OK true d3 _ inv c g D3 Hinv). intros m i I Hi. cbv beta.
    apply cancel; [exact I|]. apply Hg, Hi.
  - destruct (each_ok _ (fun m r => sub_is m L false r g)
      (fun m vz => let p := pm_p m in let d := convert_balanced (pm_p ml) p dl in
         do! v <- batch_sub p (fst vz) d; batch_mul_scalar p v (snd vz)) _ _
      (Forall2_combine _ _ _ _ _ Hb' Hinv)) as (vs & E & HV).
    + intros m [v w] I [Hv Hw']. cbn [fst snd] in *. cbv zeta. pose proof (moduli_in _ _ _ _ OK I) as O.
      pose proof (sub_convert_balanced k L ml m dl _ OKl O Hdl) as Hcv.
      destruct (sub_sub k L m O false v _ _ _ Hv Hcv) as (d1 & E1 & H1).
      rewrite E1. cbn [bind]. destruct (sub_scale k L m O false d1 _ w (c m) H1 Hw') as (d2 & E2 & H2).
      exists d2. split; [exact E2|]. eapply (sub_ext k L m O); [exact H2|]. intros i Hi. cbv beta.
      apply cancel; [exact I|]. apply Hg, Hi.
    + cbv zeta in E. rewrite E. cbn [bind]. eexists. split; [reflexivity|]. split; [exact B1|]. split; [exact B2|exact HV].
Qed.

End Reduce.
