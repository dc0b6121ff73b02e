(** Proofs about key switching with an auxiliary modulus. *)
From Coq Require Import Arith Znumtheory.
From Verif Require Import Base FinSum PolySpec Ring ZLemmas Montgomery MontBatch Ntt Poly PolyExt Prng Sampling SampleSpec MontgomeryProofs
  MontBatchProofs NttIndex NttMath NttProofs Spec PolyView ArithFacts NttFacts PolyProofs PolyFacts PolyExtProofs ThmPoly ThmPolyExt
  SymEnc SymSpec SymProofs SymProofs2 SymFacts SymSwitch Relin RelinSpec RelinProofs AuxRelin AuxRelinSpec.
Local Notation zsum := FinSum.zsum.

Lemma centered_min q x : 0 < q -> Z.abs (centered q x) <= Z.abs x.
Proof.
  intros Hq. pose proof (centered_fits q x Hq) as F. pose proof (centered_cong q x) as [c Hc]. unfold fits in F.
  destruct (Z.eq_dec c 0) as [->|N]; [lia|]. assert (q <= Z.abs (c * q)) by (rewrite Z.abs_mul; nia). lia.
Qed.
Lemma centered_half q x : 0 < q -> Z.abs (centered q x) <= q / 2.
Proof. intros Hq. pose proof (centered_fits q x Hq) as F. unfold fits in F. apply Z.div_le_lower_bound; lia. Qed.

Lemma prime_cancel p a b c : prime p -> ~ (p | c) -> cong p (c * a) (c * b) -> cong p a b.
Proof.
  intros Hp Hc [d Hd]. unfold cong. assert (D : (p | c * (a - b))) by (exists d; lia).
  destruct (prime_mult p Hp _ _ D); [contradiction|assumption].
Qed.

Lemma prime_ndiv a b : prime a -> prime b -> a <> b -> ~ (a | b).
Proof. intros Ha Hb N D. apply N. apply prime_div_prime; assumption. Qed.

(** the balanced lift between two rings *)
Lemma lift_at k q P pq pp L npq npp a : params_for k q pq -> params_for k P pp -> ntt_for pq L npq -> ntt_for pp L npp ->
  ntt_poly pq L a ->
  exists c, convert_balanced_ntt pq npq pp npp a = Ok c /\ ntt_poly pp L c /\
    forall j, (j < 2 ^ L)%nat -> cong P (at_ pp j c) (ev L (ntt_root pp npp) (fun i => centered q (coeff pq npq a i)) j).
Proof.
  intros Hq Hp Nq Np Ha. destruct (C22_convert_ntt_polynomial k q P pq pp L npq npp a Hq Hp Nq Np Ha) as (c & E & Pc & V).
  exists c. split; [exact E|]. split; [exact Pc|]. intros j Hj.
  destruct (mk_ctx _ _ _ _ _ Hp Np) as (C & _ & M). rewrite <- M. rewrite (coeff_at pp L npp C c j Pc Hj).
  apply (ev_cong pp L). intros i Hi. rewrite (V i Hi). apply cong_mod.
Qed.

Section Aux.
Variables (k q P : Z) (L : nat) (t v : Z) (key : skey) (px : mparams) (npx : nttp).
Hypothesis K : key_ok k q L t key.
Hypothesis HX : params_for k P px.
Hypothesis NX : ntt_for px L npx.
Hypothesis HPq : P <> q.
Hypothesis Ht : ~ (P | t).
Hypothesis Htr : 0 <= t < 2 ^ k.
Hypothesis Hv : 0 <= v.
Local Notation p := (sk_p key).
Local Notation np := (sk_np key).
Local Notation n := (2 ^ L)%nat.
Local Notation X := (ntt_root p np).
Local Notation Y := (ntt_root px npx).
Let C : ctx p L np := key_ctx k q L t key K.
Let Cx : ctx px L npx := proj1 (mk_ctx _ _ _ _ _ HX NX).
Let G : good p := proj1 C.
Let Gx : good px := proj1 Cx.
Let Eq : p_m p = q := key_q k q L t key K.
Let Ex : p_m px = P := proj2 (proj2 (mk_ctx _ _ _ _ _ HX NX)).
Let Kx : p_k px = k := proj1 (proj2 (mk_ctx _ _ _ _ _ HX NX)).
Let Kq : p_k p = k := key_k k q L t key K.
Local Notation w := (fun j => ev L X (secret key) j).
Local Notation wx := (fun j => ev L Y (signed_secret key) j).

Lemma q_prime : prime q.
Proof. pose proof (proj1 (ko_ntt _ _ _ _ _ K)) as H. rewrite Eq in H. exact H. Qed.
Lemma P_prime : prime P.
Proof. pose proof (proj1 NX) as H. rewrite Ex in H. exact H. Qed.
Lemma P_pos : 1 < P.
Proof. pose proof (prime_ge_2 _ P_prime). lia. Qed.
Lemma q_pos : 1 < q.
Proof. pose proof (prime_ge_2 _ q_prime). lia. Qed.

(** importing a small integer *)
Lemma import_at pp x : good pp -> 0 <= x < 2 ^ p_k pp -> stored pp (import_int pp x) /\ export_int pp (import_int pp x) = x mod p_m pp.
Proof.
  intros Gp Hx. pose proof (import_crep pp Gp _ Hx) as Hc. split; [apply crep_rep, Hc|].
  rewrite (stored_val pp _ Gp) by (apply crep_rep, Hc). apply (import_val pp Gp _ Hx).
Qed.

Lemma P_word : 0 <= P < 2 ^ k.
Proof. rewrite <- Kx, <- Ex. pose proof (m_gt1 px Gx). pose proof (m4 px Gx). lia. Qed.

Lemma key_signed j : (j < n)%nat -> cong q (ev L X (signed_secret key) j) (w j).
Proof. intros Hj. rewrite <- Eq. apply (ev_cong p L). intros i Hi. unfold signed_secret. apply centered_cong. Qed.

(** key components at the evaluation points *)
Lemma comp_at s a kc : auxcomp_ok L t v key px npx s a kc ->
  ntt_poly p L (ac_b kc) /\ ntt_poly p L (ac_a kc) /\ ntt_poly px L (ac_baux kc) /\ ntt_poly px L (ac_aaux kc) /\
  exists e, (forall l, (l < n)%nat -> Z.abs (e l) <= 2 * v) /\
   (forall j, (j < n)%nat -> cong q (at_ p j (ac_b kc) + w j * at_ p j (ac_a kc)) (t * ev L X e j + P * ev L X s j ^ Z.of_nat a)) /\
   (forall j, (j < n)%nat -> cong P (at_ px j (ac_baux kc) + wx j * at_ px j (ac_aaux kc)) (t * ev L Y e j)).
Proof.
  intros (F1 & F2 & e & B & H1 & H2).
  pose proof (proj1 (pcarries_iff p L np C _ _ _ F1) H1) as V1. pose proof (proj1 (pcarries_iff px L npx Cx _ _ _ F2) H2) as V2.
  cbn [hv] in V1, V2.
  inversion_clear F1 as [|? ? N1 F1']. inversion_clear F1' as [|? ? N2 _].
  inversion_clear F2 as [|? ? N3 F2']. inversion_clear F2' as [|? ? N4 _].
  split; [exact N1|]. split; [exact N2|]. split; [exact N3|]. split; [exact N4|].
  exists e. split; [exact B|]. split; intros j Hj.
  - specialize (V1 j Hj). rewrite ev_add, ev_scale, ev_scale, (ev_npow p L np C), Eq, Ex in V1. rewrite <- V1. apply cong_eq. ring.
  - specialize (V2 j Hj). rewrite ev_scale, Ex in V2. rewrite <- V2. apply cong_eq. ring.
Qed.

Definition loop_noise : Z := 2 ^ Z.of_nat L * (q / 2 * (2 * v)).

Lemma aux_loop_val ak s x : ak_p ak = p -> ak_np ak = np -> ak_px ak = px -> ak_npx ak = npx -> ct_ok L key x ->
  forall keys i c0 c1 x0 x1 o0 o1 y0 y1, 0 <= i -> i + Z.of_nat (length keys) <= Z.of_nat (length (ct_c x)) ->
  (forall j kc, nth_error keys j = Some kc -> auxcomp_ok L t v key px npx s (Z.to_nat i + j) kc) ->
  ntt_poly p L c0 -> ntt_poly p L c1 -> ntt_poly px L x0 -> ntt_poly px L x1 ->
  aux_apply_loop ak keys x i c0 c1 x0 x1 = Ok ((o0, o1), (y0, y1)) ->
  ntt_poly p L o0 /\ ntt_poly p L o1 /\ ntt_poly px L y0 /\ ntt_poly px L y1 /\
  exists W, (forall l, (l < n)%nat -> Z.abs (W l) <= Z.of_nat (length keys) * loop_noise) /\
  (forall j, (j < n)%nat -> cong q (at_ p j o0 + w j * at_ p j o1)
    (at_ p j c0 + w j * at_ p j c1 + t * ev L X W j +
     P * zsum (length keys) (fun l => at_ p j (nth (Z.to_nat i + l) (ct_c x) []) * ev L X s j ^ Z.of_nat (Z.to_nat i + l)))) /\
  (forall j, (j < n)%nat -> cong P (at_ px j y0 + wx j * at_ px j y1) (at_ px j x0 + wx j * at_ px j x1 + t * ev L Y W j)).
Proof.
  intros Ep Enp Epx Enpx Hx. induction keys as [|kc keys IH]; intros i c0 c1 x0 x1 o0 o1 y0 y1 Hi Hlen HK H0 H1 H2 H3 E; cbn [aux_apply_loop] in E.
  - injection E as <- <- <- <-. split; [exact H0|]. split; [exact H1|]. split; [exact H2|]. split; [exact H3|].
    exists (fun _ => 0). split; [intros; cbn; lia|]. split; intros j Hj; rewrite ev_zero; cbn; apply cong_eq; ring.
  - rewrite Ep, Enp, Epx, Enpx in E. cbn [length] in Hlen.
    destruct (component_ok L key x i Hx ltac:(lia)) as [Ec Hc]. rewrite Ec in E. cbn [bind] in E.
    set (ci := nth (Z.to_nat i) (ct_c x) []) in *.
    destruct (comp_at s _ kc (HK 0%nat kc eq_refl)) as (N1 & N2 & N3 & N4 & e & Be & V1 & V2).
    destruct (poly_fused_mul_add p c0 (ac_b kc) ci) as [c0'| |] eqn:E0; try discriminate. cbn [bind] in E.
    destruct (poly_fused_mul_add p c1 (ac_a kc) ci) as [c1'| |] eqn:E1; try discriminate. cbn [bind] in E.
    destruct (fused_result p L np C _ _ _ _ H0 N1 Hc E0) as [M0 U0].
    destruct (fused_result p L np C _ _ _ _ H1 N2 Hc E1) as [M1 U1].
    destruct (lift_at k q P p px L np npx ci (ko_params _ _ _ _ _ K) HX (ko_ntt _ _ _ _ _ K) NX Hc) as (cx & Ecx & Ncx & Vcx).
    rewrite Ecx in E. cbn [bind] in E. set (lc := fun i => centered q (coeff p np ci i)) in *.
    destruct (poly_fused_mul_add px x0 (ac_baux kc) cx) as [x0'| |] eqn:E2; try discriminate. cbn [bind] in E.
    destruct (poly_fused_mul_add px x1 (ac_aaux kc) cx) as [x1'| |] eqn:E3; try discriminate. cbn [bind] in E.
    destruct (fused_result px L npx Cx _ _ _ _ H2 N3 Ncx E2) as [M2 U2].
    destruct (fused_result px L npx Cx _ _ _ _ H3 N4 Ncx E3) as [M3 U3].
    destruct (IH (i + 1) c0' c1' x0' x1' o0 o1 y0 y1 ltac:(lia) ltac:(lia)) as (O0 & O1 & O2 & O3 & W & BW & Vm & Vx); try assumption.
    { intros j kc' Hj. replace (Z.to_nat (i + 1) + j)%nat with (Z.to_nat i + S j)%nat by lia. apply HK. exact Hj. }
    split; [exact O0|]. split; [exact O1|]. split; [exact O2|]. split; [exact O3|].
    pose proof q_pos as Q1.
    exists (fun l => negacyclic n lc e l + W l). split; [|split].
    + intros l Hl. specialize (BW l Hl). cbn [length].
      assert (Z.abs (negacyclic n lc e l) <= loop_noise); [|unfold loop_noise in *; lia].
      unfold loop_noise. replace (2 ^ Z.of_nat L) with (Z.of_nat n) by (rewrite Nat2Z.inj_pow; reflexivity).
      apply negacyclic_bound; [apply Z.div_pos; lia|lia| |exact Be|exact Hl].
      intros i' Hi'. apply centered_half. lia.
    + intros j Hj. rewrite (Vm j Hj). specialize (U0 j Hj). specialize (U1 j Hj). rewrite Eq in U0, U1. rewrite U0, U1.
      rewrite ev_add. pose proof (ev_mul p L np X (proj2 C) lc e j) as Em. rewrite Eq in Em. rewrite Em.
      assert (Lc : cong q (at_ p j ci) (ev L X lc j)).
      { rewrite <- Eq. rewrite (coeff_at p L np C ci j Hc Hj). apply (ev_cong p L). intros i' Hi'. unfold lc. rewrite <- Eq. symmetry. apply centered_cong. }
      cbn [length]. rewrite zsum_first, Nat.add_0_r. fold ci.
      replace (Z.to_nat (i + 1)) with (S (Z.to_nat i)) by lia.
      rewrite (zsum_ext (length keys) (fun l => at_ p j (nth (S (Z.to_nat i) + l) (ct_c x) []) * ev L X s j ^ Z.of_nat (S (Z.to_nat i) + l))
        (fun l => at_ p j (nth (Z.to_nat i + S l) (ct_c x) []) * ev L X s j ^ Z.of_nat (Z.to_nat i + S l)))
        by (intros l _; rewrite !Nat.add_succ_r; reflexivity).
      set (Sm := zsum (length keys) _). specialize (V1 j Hj). rewrite Nat.add_0_r in V1.
      transitivity (at_ p j c0 + ev L X (secret key) j * at_ p j c1 + (at_ p j (ac_b kc) + ev L X (secret key) j * at_ p j (ac_a kc)) * at_ p j ci
         + t * ev L X W j + P * Sm); [apply cong_eq; ring|].
      rewrite V1. rewrite <- Lc. apply cong_eq. ring.
    + intros j Hj. rewrite (Vx j Hj). specialize (U2 j Hj). specialize (U3 j Hj). rewrite Ex in U2, U3. rewrite U2, U3.
      rewrite ev_add. pose proof (ev_mul px L npx Y (proj2 Cx) lc e j) as Em. rewrite Ex in Em. rewrite Em.
      specialize (Vcx j Hj). specialize (V2 j Hj).
      transitivity (at_ px j x0 + ev L Y (signed_secret key) j * at_ px j x1 +
         (at_ px j (ac_baux kc) + ev L Y (signed_secret key) j * at_ px j (ac_aaux kc)) * at_ px j cx + t * ev L Y W j); [apply cong_eq; ring|].
      rewrite V2, Vcx. apply cong_eq. ring.
Qed.

Lemma aux_loop_defined ak s x : k <> 16 -> ak_p ak = p -> ak_np ak = np -> ak_px ak = px -> ak_npx ak = npx -> ct_ok L key x ->
  forall keys i c0 c1 x0 x1, 0 <= i -> i + Z.of_nat (length keys) <= Z.of_nat (length (ct_c x)) ->
  (forall j kc, nth_error keys j = Some kc -> auxcomp_ok L t v key px npx s (Z.to_nat i + j) kc) ->
  ntt_poly p L c0 -> ntt_poly p L c1 -> ntt_poly px L x0 -> ntt_poly px L x1 ->
  exists o0 o1 y0 y1, aux_apply_loop ak keys x i c0 c1 x0 x1 = Ok ((o0, o1), (y0, y1)).
Proof.
  intros Hk Ep Enp Epx Enpx Hx. induction keys as [|kc keys IH]; intros i c0 c1 x0 x1 Hi Hlen HK H0 H1 H2 H3; cbn [aux_apply_loop].
  - do 4 eexists. reflexivity.
  - rewrite Ep, Enp, Epx, Enpx. cbn [length] in Hlen.
    destruct (component_ok L key x i Hx ltac:(lia)) as [Ec Hc]. rewrite Ec. cbn [bind].
    set (ci := nth (Z.to_nat i) (ct_c x) []) in *.
    destruct (comp_at s _ kc (HK 0%nat kc eq_refl)) as (N1 & N2 & N3 & N4 & _).
    assert (T : fused_total p L) by (apply (fused_total_k p L np C); rewrite Kq; exact Hk).
    assert (Tx : fused_total px L) by (apply (fused_total_k px L npx Cx); rewrite Kx; exact Hk).
    destruct (T c0 (ac_b kc) ci H0 N1 Hc) as (c0' & E0). rewrite E0. cbn [bind].
    destruct (T c1 (ac_a kc) ci H1 N2 Hc) as (c1' & E1). rewrite E1. cbn [bind].
    destruct (fused_result p L np C _ _ _ _ H0 N1 Hc E0) as [M0 _].
    destruct (fused_result p L np C _ _ _ _ H1 N2 Hc E1) as [M1 _].
    destruct (lift_at k q P p px L np npx ci (ko_params _ _ _ _ _ K) HX (ko_ntt _ _ _ _ _ K) NX Hc) as (cx & Ecx & Ncx & _).
    rewrite Ecx. cbn [bind].
    destruct (Tx x0 (ac_baux kc) cx H2 N3 Ncx) as (x0' & E2). rewrite E2. cbn [bind].
    destruct (Tx x1 (ac_aaux kc) cx H3 N4 Ncx) as (x1' & E3). rewrite E3. cbn [bind].
    destruct (fused_result px L npx Cx _ _ _ _ H2 N3 Ncx E2) as [M2 _].
    destruct (fused_result px L npx Cx _ _ _ _ H3 N4 Ncx E3) as [M3 _].
    apply IH; try assumption; try lia.
    intros j kc' Hj. replace (Z.to_nat (i + 1) + j)%nat with (Z.to_nat i + S j)%nat by lia. apply HK. exact Hj.
Qed.

(** scaling down by P *)
Lemma to_main_ok ak cx c : ak_p ak = p -> ak_np ak = np -> ak_px ak = px -> ak_npx ak = npx -> ak_t ak = t ->
  ntt_poly px L cx -> ntt_poly p L c ->
  exists r d, aux_to_main ak (import_int p P) cx c = Ok r /\ ntt_poly p L r /\
    (forall l, (l < n)%nat -> Z.abs (d l) <= P / 2) /\
    (forall j, (j < n)%nat -> cong P (t * ev L Y d j) (at_ px j cx)) /\
    (forall j, (j < n)%nat -> cong q (P * at_ p j r) (at_ p j c - t * ev L X d j)).
Proof.
  intros Ep Enp Epx Enpx Et Hcx Hc. unfold aux_to_main. rewrite Ep, Enp, Epx, Enpx, Et.
  assert (Htx : 0 <= t < 2 ^ p_k px) by (rewrite Kx; exact Htr).
  assert (Htq : 0 <= t < 2 ^ p_k p) by (rewrite Kq; exact Htr).
  assert (HPw : 0 <= P < 2 ^ p_k p) by (rewrite Kq; exact P_word).
  destruct (import_at px t Gx Htx) as [S1 V1]. destruct (import_at p t G Htq) as [S2 V2]. destruct (import_at p P G HPw) as [S3 V3].
  rewrite Ex in V1. rewrite Eq in V2, V3. pose proof P_pos as P1. pose proof q_pos as Q1.
  assert (Nz1 : export_int px (import_int px t) <> 0).
  { rewrite V1. intros Z0. apply Ht. apply Z.mod_divide; [lia|exact Z0]. }
  assert (Nz3 : export_int p (import_int p P) <> 0).
  { rewrite V3. intros Z0. apply (prime_ndiv q P q_prime P_prime ltac:(congruence)). apply Z.mod_divide; [lia|exact Z0]. }
  destruct (ThmArith.C07_multiplicative_inverse_prime k P px _ HX P_prime S1 Nz1) as [R1 I1].
  destruct (ThmArith.C07_multiplicative_inverse_prime k q p _ (ko_params _ _ _ _ _ K) q_prime S3 Nz3) as [R3 I3].
  rewrite V1 in I1. rewrite V3 in I3.
  set (ti := mult_inverse px (import_int px t)) in *. set (pin := mult_inverse p (import_int p P)) in *.
  apply reduced_stored in R1. apply reduced_stored in R3.
  destruct (mul_scalar_pw px L npx Cx ti R1 cx Hcx) as (cx1 & A1 & M1 & W1). rewrite A1. cbn [bind].
  destruct (lift_at k P q px p L npx np cx1 HX (ko_params _ _ _ _ _ K) NX (ko_ntt _ _ _ _ _ K) M1) as (cq & A2 & M2 & W2).
  rewrite A2. cbn [bind]. set (d := fun i => centered P (coeff px npx cx1 i)) in *.
  destruct (mul_scalar_pw p L np C _ S2 cq M2) as (cq1 & A3 & M3 & W3). rewrite A3. cbn [bind].
  destruct (sub_pw p L np C c cq1 Hc M3) as (c1 & A4 & M4 & W4). rewrite A4. cbn [bind].
  destruct (mul_scalar_pw p L np C _ R3 c1 M4) as (r & A5 & M5 & W5). rewrite A5.
  exists r, d. split; [reflexivity|]. split; [exact M5|]. split; [intros; apply centered_half; lia|]. split.
  - intros j Hj.
    assert (Ed : cong P (ev L Y d j) (at_ px j cx1)).
    { rewrite <- Ex. rewrite (coeff_at px L npx Cx cx1 j M1 Hj). apply (ev_cong px L). intros i Hi. unfold d. rewrite <- Ex. apply centered_cong. }
    rewrite Ed. specialize (W1 j Hj). rewrite Ex in W1. rewrite W1.
    assert (I1' : cong P (export_int px ti * t) 1).
    { apply cong_iff; [lia|]. rewrite (Z.mod_1_l P) by lia. rewrite <- I1. rewrite Z.mul_mod_idemp_r by lia. reflexivity. }
    transitivity (at_ px j cx * (export_int px ti * t)); [apply cong_eq; ring|]. rewrite I1'. apply cong_eq. ring.
  - intros j Hj. specialize (W5 j Hj). specialize (W4 j Hj). specialize (W3 j Hj). specialize (W2 j Hj).
    rewrite Eq in W5, W4, W3. rewrite W5, W4, W3, W2. rewrite V2.
    assert (I3' : cong q (export_int p pin * P) 1).
    { apply cong_iff; [lia|]. rewrite (Z.mod_1_l q) by lia. rewrite <- I3. rewrite Z.mul_mod_idemp_r by lia. reflexivity. }
    rewrite (cong_mod q t).
    set (D := ev L X d j). transitivity ((at_ p j c - D * t) * (export_int p pin * P)); [apply cong_eq; ring|].
    rewrite I3'. apply cong_eq. ring.
Qed.

Lemma np_n_eq pp npp : ntt_good pp L npp (ntt_root pp npp) -> np_n npp = n.
Proof. intros NG. exact (ng_n pp L npp _ NG). Qed.

Lemma aux_apply_ok ak x f : aux_ok L t v key ak -> ak_px ak = px -> ak_npx ak = npx -> ct_ok L key x ->
  length (ct_c x) = aux_len ak -> carries_under L key (secret_at L key (ak_pow ak)) x f ->
  (k <> 16 -> exists y, aux_apply ak x = Ok y) /\
  forall y, aux_apply ak x = Ok y ->
  ct_ok L key y /\ length (ct_c y) = 2%nat /\ ct_pow y = 1 /\ ct_lazy y = [] /\
  exists E, (forall l, (l < n)%nat -> Z.abs (E l) <= aux_noise L v key ak) /\ carries L key y (fun l => f l + t * E l).
Proof.
  intros R Epx Enpx Hx Hlen Hf. set (s := secret_at L key (ak_pow ak)) in *.
  pose proof (ao_p _ _ _ _ _ R) as Ep. pose proof (ao_np _ _ _ _ _ R) as Enp. pose proof (ao_t _ _ _ _ _ R) as Et.
  pose proof (ao_each _ _ _ _ _ R) as RE. rewrite Epx, Enpx in RE. fold s in RE.
  unfold aux_len in Hlen. set (fi := if ak_pow ak =? 1 then 2 else 1).
  set (fn := if ak_pow ak =? 1 then 2%nat else 1%nat) in *.
  assert (Hfi : fi = Z.of_nat fn /\ 1 <= fi <= 2) by (unfold fi, fn; destruct (_ =? _); split; try reflexivity; lia). destruct Hfi as [Efi Hfi].
  assert (Fn : Z.to_nat fi = fn) by lia.
  assert (Nn : np_n np = n) by exact (np_n_eq p np (proj2 C)).
  pose proof P_pos as P1. pose proof q_pos as Q1.
  unfold aux_apply. rewrite Ep, Enp, Epx, Nn, Ex. destruct Hx as [Px Fx]. rewrite Px, Z.eqb_refl. cbn [negb].
  assert (Hx : ct_ok L key x) by (split; assumption).
  fold fi. rewrite (proj2 (Z.eqb_eq _ _)) by lia. cbn [negb].
  destruct (component_ok L key x 0 Hx ltac:(lia)) as [Ec0 Hc0]. rewrite Ec0. cbn [bind].
  set (d0 := nth (Z.to_nat 0) (ct_c x) []) in *.
  destruct (zero_at p L np C) as (z & Ez & Nz & Vz). rewrite Ez. cbn [bind].
  assert (U1 : exists u1, (if ak_pow ak =? 1 then do! c <- ct_component x 1; poly_add p z c else Ok z) = Ok u1 /\ ntt_poly p L u1 /\
      forall j, (j < n)%nat -> cong q (at_ p j u1) (if ak_pow ak =? 1 then at_ p j (nth 1 (ct_c x) []) else 0)).
  { destruct (ak_pow ak =? 1) eqn:E1.
    - destruct (component_ok L key x 1 Hx ltac:(unfold fn in Hlen; lia)) as [Ec1 Hc1]. rewrite Ec1. cbn [bind].
      destruct (add_pw p L np C z _ Nz Hc1) as (u1 & EU1 & NU1 & VU1). exists u1. split; [exact EU1|]. split; [exact NU1|].
      intros j Hj. rewrite <- Eq. rewrite (VU1 j Hj), (Vz j Hj). apply cong_eq. change (Z.to_nat 1) with 1%nat. ring.
    - exists z. split; [reflexivity|]. split; [exact Nz|]. intros j Hj. rewrite <- Eq. apply Vz, Hj. }
  destruct U1 as (u1 & EU1 & NU1 & VU1). rewrite EU1. cbn [bind].
  assert (HPw : 0 <= P < 2 ^ p_k p) by (rewrite Kq; exact P_word).
  destruct (import_at p P G HPw) as [SP VP].
  destruct (mul_scalar_pw p L np C _ SP d0 Hc0) as (c0 & A0 & M0 & W0). rewrite A0. cbn [bind].
  destruct (mul_scalar_pw p L np C _ SP u1 NU1) as (c1 & A1 & M1 & W1). rewrite A1. cbn [bind].
  destruct (zero_at px L npx Cx) as (zx & Ezx & Nzx & Vzx). rewrite Ezx. cbn [bind].
  assert (RE' : forall j kc, nth_error (ak_keys ak) j = Some kc -> auxcomp_ok L t v key px npx s (Z.to_nat fi + j) kc).
  { intros j kc Hj. rewrite Fn. apply RE, Hj. }
  split.
  - intros Hk. destruct (aux_loop_defined ak s x Hk Ep Enp Epx Enpx Hx (ak_keys ak) fi c0 c1 zx zx ltac:(lia) ltac:(lia) RE' M0 M1 Nzx Nzx) as (o0 & o1 & y0 & y1 & El).
    rewrite El. cbn [bind].
    destruct (aux_loop_val ak s x Ep Enp Epx Enpx Hx (ak_keys ak) fi c0 c1 zx zx o0 o1 y0 y1 ltac:(lia) ltac:(lia) RE' M0 M1 Nzx Nzx El) as (O0 & O1 & O2 & O3 & _).
    destruct (to_main_ok ak y0 o0 Ep Enp Epx Enpx Et O2 O0) as (r0 & _ & -> & _). cbn [bind].
    destruct (to_main_ok ak y1 o1 Ep Enp Epx Enpx Et O3 O1) as (r1 & _ & -> & _). cbn [bind]. eexists. reflexivity.
  - intros y E. destruct (aux_apply_loop ak (ak_keys ak) x fi c0 c1 zx zx) as [[[o0 o1] [y0 y1]]| |] eqn:El; try discriminate. cbn [bind] in E.
    destruct (aux_loop_val ak s x Ep Enp Epx Enpx Hx (ak_keys ak) fi c0 c1 zx zx o0 o1 y0 y1 ltac:(lia) ltac:(lia) RE' M0 M1 Nzx Nzx El)
      as (O0 & O1 & O2 & O3 & W & BW & Vm & Vx).
    destruct (to_main_ok ak y0 o0 Ep Enp Epx Enpx Et O2 O0) as (r0 & e0 & T0 & R0 & B0 & X0 & Y0). rewrite T0 in E. cbn [bind] in E.
    destruct (to_main_ok ak y1 o1 Ep Enp Epx Enpx Et O3 O1) as (r1 & e1 & T1 & R1 & B1 & X1 & Y1). rewrite T1 in E. cbn [bind] in E.
    injection E as <-.
    assert (Oy : ct_ok L key (ct_make p [r0; r1] 1)).
    { split; [reflexivity|]. cbn [ct_make ct_c]. constructor; [exact R0|]. constructor; [exact R1|constructor]. }
    split; [exact Oy|]. split; [reflexivity|]. split; [reflexivity|]. split; [reflexivity|].
    set (N := fun l => W l - (e0 l + negacyclic n e1 (signed_secret key) l)).
    (* N is divisible by P *)
    assert (ND : forall l, (l < n)%nat -> cong P (N l) 0).
    { rewrite <- Ex. apply (ev_inj px Gx L npx Y (proj2 Cx) N (fun _ => 0)). intros j Hj. rewrite Ex, ev_zero.
      apply (prime_cancel P _ _ t P_prime Ht). unfold N. rewrite ev_sub, ev_add.
      pose proof (ev_mul px L npx Y (proj2 Cx) e1 (signed_secret key) j) as Em. rewrite Ex in Em. rewrite Em.
      specialize (Vx j Hj). specialize (Vzx j Hj). rewrite Ex in Vzx. rewrite Vzx in Vx.
      specialize (X0 j Hj). specialize (X1 j Hj). rewrite <- X0, <- X1 in Vx. set (wx := ev L Y (signed_secret key) j) in *.
      transitivity ((0 + wx * 0 + t * ev L Y W j) - (t * ev L Y e0 j + wx * (t * ev L Y e1 j))); [apply cong_eq; ring|].
      rewrite <- Vx. apply cong_eq. ring. }
    exists (fun l => N l / P).
    assert (NE : forall l, (l < n)%nat -> N l = P * (N l / P)).
    { intros l Hl. specialize (ND l Hl). apply cong_iff in ND; [|lia]. rewrite Zmod_0_l in ND. pose proof (Z.div_mod (N l) P ltac:(lia)). lia. }
    split.
    { intros l Hl. unfold aux_noise. rewrite Epx, Ex, Eq. apply Z.div_le_lower_bound; [lia|].
      replace (P * Z.abs (N l / P)) with (Z.abs (N l)) by (rewrite (NE l Hl) at 1; rewrite Z.abs_mul, (Z.abs_eq P) by lia; reflexivity).
      specialize (BW l Hl). specialize (B0 l Hl). fold loop_noise.
      assert (Bn : Z.abs (negacyclic n e1 (signed_secret key) l) <= P / 2 * l1 n (signed_secret key)).
      { apply negacyclic_l1; [apply Z.div_pos; lia|exact B1|exact Hl]. }
      unfold N. lia. }
    apply (carries_at k q L t key K _ _ Oy). intros j Hj. cbn [ct_make ct_c hv]. rewrite ev_add, ev_scale. cbv beta. set (EE := ev L X (fun l => N l / P) j).
    apply (prime_cancel q _ _ P q_prime (prime_ndiv q P q_prime P_prime ltac:(congruence))).
    assert (EN : P * ev L X (fun l => N l / P) j = ev L X N j).
    { rewrite <- ev_scale. apply (ev_ext L). intros l Hl. symmetry. apply NE, Hl. }
    assert (Hs : cong q (hv p (ev L X s j) j (ct_c x)) (ev L X f j)).
    { rewrite <- Eq. apply (pcarries_iff p L np C s (ct_c x) f Fx); [|exact Hj].
      intros i Hi. specialize (Hf i Hi). unfold component in Hf. rewrite Px in Hf. exact Hf. }
    specialize (Y0 j Hj). specialize (Y1 j Hj). specialize (Vm j Hj). specialize (VU1 j Hj).
    specialize (W0 j Hj). specialize (W1 j Hj). rewrite Eq in W0, W1. rewrite VP, Eq in W0, W1.
    set (ww := ev L X (secret key) j) in *. set (WW := ev L X s j) in *.
    transitivity (P * at_ p j r0 + ww * (P * at_ p j r1)); [apply cong_eq; ring|]. rewrite Y0, Y1.
    transitivity ((at_ p j o0 + ww * at_ p j o1) - t * (ev L X e0 j + ww * ev L X e1 j)); [apply cong_eq; ring|].
    rewrite Vm, W0, W1, VU1.
    replace (P * (ev L X f j + t * EE)) with (P * ev L X f j + t * (P * EE)) by ring. unfold EE. rewrite EN. clear EE.
    unfold N. rewrite ev_sub, ev_add. pose proof (ev_mul p L np X (proj2 C) e1 (signed_secret key) j) as Em. rewrite Eq in Em. rewrite Em.
    pose proof (key_signed j Hj) as Ks. fold ww in Ks. rewrite Ks. rewrite <- Hs.
    rewrite (hv_index key WW j (ct_c x) fn) by lia.
    replace (length (ct_c x) - fn)%nat with (length (ak_keys ak)) by lia. rewrite Fn.
    set (Sm := zsum (length (ak_keys ak)) _).
    assert (Pre : cong q (zsum fn (fun i => at_ p j (nth i (ct_c x) []) * WW ^ Z.of_nat i))
       (at_ p j d0 + ww * (if ak_pow ak =? 1 then at_ p j (nth 1 (ct_c x) []) else 0))).
    { unfold fn, d0. change (Z.to_nat 0) with 0%nat. destruct (Z.eqb_spec (ak_pow ak) 1) as [E1'|E1'].
      - cbn [FinSum.zsum]. change (Z.of_nat 1) with 1. change (Z.of_nat 0) with 0. rewrite Z.pow_0_r, Z.pow_1_r.
        assert (WWw : cong q WW ww).
        { unfold WW, ww, s, secret_at. rewrite E1'. change (Z.to_nat 1) with 1%nat. rewrite <- Eq.
          unfold PolyProofs.ev. rewrite peval_substituted; [|apply (n_pos L)|apply (point_root p L np X (proj2 C))].
          change (Z.of_nat 1) with 1. rewrite Z.pow_1_r. reflexivity. }
        rewrite WWw. apply cong_eq. ring.
      - cbn [FinSum.zsum]. change (Z.of_nat 0) with 0. rewrite Z.pow_0_r. apply cong_eq. ring. }
    rewrite Pre. rewrite !(cong_mod q P). fold ww. apply cong_eq. ring.
Qed.
End Aux.

Section Create.
Variables (k q P : Z) (L : nat) (t : Z) (key : skey) (px : mparams) (npx : nttp).
Hypothesis EK : enc_key k q L t key.
Hypothesis HX : params_for k P px.
Hypothesis NX : ntt_for px L npx.
Hypothesis Hv : 0 <= sk_var key.
Hypothesis Hvq : 2 * sk_var key <= q.
Local Notation v := (sk_var key).
Local Notation p := (sk_p key).
Local Notation np := (sk_np key).
Local Notation n := (2 ^ L)%nat.
Local Notation X := (ntt_root p np).
Local Notation Y := (ntt_root px npx).
Let K : key_ok k q L t key := ek_key _ _ _ _ _ EK.
Let C : ctx p L np := key_ctx k q L t key K.
Let Cx : ctx px L npx := proj1 (mk_ctx _ _ _ _ _ HX NX).
Let G : good p := proj1 C.
Let Gx : good px := proj1 Cx.
Let NG := proj2 C.
Let Eq : p_m p = q := key_q k q L t key K.
Let Ex : p_m px = P := proj2 (proj2 (mk_ctx _ _ _ _ _ HX NX)).
Let Kx : p_k px = k := proj1 (proj2 (mk_ctx _ _ _ _ _ HX NX)).
Let Kq : p_k p = k := key_k k q L t key K.
Local Notation w := (fun j => ev L X (secret key) j).
Local Notation wx := (fun j => ev L Y (signed_secret key) j).

Lemma t_aux : stored px (import_int px t) /\ cong P (export_int px (import_int px t)) t.
Proof.
  pose proof (t_export' k q L t key EK) as Et.
  assert (Hr : 0 <= t < 2 ^ p_k px).
  { rewrite <- Et, Kx, <- Kq. rewrite (stored_val p _ G) by exact (ek_stored _ _ _ _ _ EK).
    pose proof (val_range p G (sk_t key)). pose proof (m4 p G). lia. }
  destruct (import_at px t Gx Hr) as [S V]. split; [exact S|]. rewrite V, Ex. apply cong_mod.
Qed.

(** the error vector in both rings *)
Lemma error_both (E : prng) s e0 s1 : prng_ok E -> sample_error E p n v s = Ok (e0, s1) ->
  exists e c cx, (forall i, (i < n)%nat -> Z.abs (e i) <= 2 * v) /\
    convert_to_ntt p np e0 = Ok c /\ ntt_poly p L c /\ (forall j, (j < n)%nat -> cong q (at_ p j c) (ev L X e j)) /\
    convert_to_ntt px npx (convert_balanced p px e0) = Ok cx /\ ntt_poly px L cx /\
    (forall j, (j < n)%nat -> cong P (at_ px j cx) (ev L Y e j)).
Proof.
  intros HR Ee.
  destruct (sample_error_bounded E p n _ s e0 s1 G HR Hv ltac:(lia) Ee) as (_ & Le & Re & Be).
  assert (Se : Forall (stored p) e0) by (eapply Forall_impl; [|exact Re]; intros; apply reduced_stored; assumption).
  assert (Q1 : 1 < q) by (rewrite <- Eq; apply m_gt1; exact G).
  destruct (C22_convert_balanced k q P p px e0 (ko_params _ _ _ _ _ K) HX Se) as (Lx & Sx & Vx). cbv zeta in Lx, Sx, Vx.
  set (e := fun i => centered q (export_int p (nth i e0 0))).
  destruct (forward_holds p G L np X NG e0 e Le Se) as (c & Ec & Hc & _).
  { intros i Hi. unfold e. rewrite <- (stored_val p _ G) by (rewrite Forall_forall in Se; apply Se, nth_In; lia).
    rewrite Eq. symmetry. apply centered_cong. }
  destruct (forward_holds px Gx L npx Y (proj2 Cx) (convert_balanced p px e0) e ltac:(congruence) Sx) as (cx & Ecx & Hcx & _).
  { intros i Hi. unfold e. rewrite <- (stored_val px _ Gx) by (rewrite Forall_forall in Sx; apply Sx, nth_In; lia).
    rewrite (Vx i) by lia. rewrite Ex. apply cong_mod. }
  destruct (of_holds p L c _ Hc) as [Nc Vc]. destruct (of_holds px L cx _ Hcx) as [Ncx Vcx].
  exists e, c, cx. split.
  { intros i Hi. rewrite Forall_forall in Be. destruct (Be (nth i e0 0) ltac:(apply nth_In; lia)) as (f & Bf & Vf).
    unfold e. rewrite Vf, Eq. transitivity (Z.abs f); [|lia].
    replace (centered q (f mod q)) with (centered q f); [apply centered_min; lia|].
    unfold centered. rewrite Zmod_mod. reflexivity. }
  split; [exact Ec|]. split; [exact Nc|]. split; [rewrite <- Eq; exact Vc|]. split; [exact Ecx|]. split; [exact Ncx|].
  rewrite <- Ex. exact Vcx.
Qed.

Lemma comp_create (R E : prng) fuel s_aux src s (a : nat) st e kc st' : prng_ok E ->
  ntt_poly px L s_aux -> (forall j, (j < n)%nat -> cong P (at_ px j s_aux) (wx j)) ->
  ntt_poly p L src -> (forall j, (j < n)%nat -> cong q (at_ p j src) (P * ev L X s j ^ Z.of_nat a)) ->
  auxcomp_create R E fuel (sk_key key) s_aux src p np px npx (sk_t key) (import_int px t) n v st e = Ok (kc, st') ->
  auxcomp_ok L t v key px npx s a kc.
Proof.
  intros HE Hsx Vsx Hsrc Vsrc H. unfold auxcomp_create in H. pose proof (ko_key _ _ _ _ _ K) as Hk.
  destruct (sample_polynomial R fuel (Z.of_nat n) p st) as [[a1 st1]| |] eqn:E1; try discriminate. cbn [bind] in H.
  destruct (sample_polynomial R fuel (Z.of_nat n) px st1) as [[a2 st2]| |] eqn:E2; try discriminate. cbn [bind] in H.
  destruct (sample_error E p n v e) as [[er e1]| |] eqn:Ee; try discriminate. cbn [bind] in H.
  destruct (sample_polynomial_stored R p _ _ _ _ _ G E1) as (La1 & _ & Ra1). rewrite Nat2Z.id in La1.
  destruct (sample_polynomial_stored R px _ _ _ _ _ Gx E2) as (La2 & _ & Ra2). rewrite Nat2Z.id in La2.
  assert (Na1 : ntt_poly p L a1) by (split; assumption). assert (Na2 : ntt_poly px L a2) by (split; assumption).
  destruct (error_both E e er e1 HE Ee) as (err & c & cx & Be & Ec & Nc & Vc & Ecx & Ncx & Vcx).
  rewrite Ec, Ecx in H. cbn [bind] in H.
  destruct t_aux as [St Vt].
  destruct (mul_scalar_pw p L np C (sk_t key) (ek_stored _ _ _ _ _ EK) c Nc) as (b1 & A1 & M1 & W1). rewrite A1 in H. cbn [bind] in H.
  destruct (mul_scalar_pw px L npx Cx _ St cx Ncx) as (x1 & A2 & M2 & W2). rewrite A2 in H. cbn [bind] in H.
  destruct (poly_fused_mul_add p b1 a1 (sk_key key)) as [b2| |] eqn:E3; try discriminate. cbn [bind] in H.
  destruct (fused_result p L np C _ _ _ _ M1 Na1 Hk E3) as [M3 W3].
  destruct (poly_fused_mul_add px x1 a2 s_aux) as [x2| |] eqn:E4; try discriminate. cbn [bind] in H.
  destruct (fused_result px L npx Cx _ _ _ _ M2 Na2 Hsx E4) as [M4 W4].
  destruct (add_pw p L np C b2 src M3 Hsrc) as (b3 & A5 & M5 & W5). rewrite A5 in H. cbn [bind] in H. injection H as <- <-.
  destruct (neg_pw p L np C a1 Na1) as [N1 U1]. destruct (neg_pw px L npx Cx a2 Na2) as [N2 U2].
  assert (F1 : Forall (ntt_poly p L) [b3; poly_neg p a1]) by (constructor; [exact M5|constructor; [exact N1|constructor]]).
  assert (F2 : Forall (ntt_poly px L) [x2; poly_neg px a2]) by (constructor; [exact M4|constructor; [exact N2|constructor]]).
  split; [exact F1|]. split; [exact F2|]. exists err. split; [exact Be|]. cbn [ac_b ac_a ac_baux ac_aaux]. split.
  - apply (pcarries_iff p L np C _ _ _ F1). intros j Hj. cbn [hv]. rewrite ev_add, ev_scale, ev_scale, (ev_npow p L np C), Ex.
    rewrite (W5 j Hj), (W3 j Hj), (W1 j Hj), (U1 j Hj). rewrite (t_export' k q L t key EK).
    specialize (Vc j Hj). specialize (Vsrc j Hj). rewrite <- Eq in Vc, Vsrc. rewrite Vc, Vsrc.
    assert (Wj : cong (p_m p) (ev L X (secret key) j) (at_ p j (sk_key key))) by (symmetry; apply (coeff_at p L np C); [exact Hk|exact Hj]).
    rewrite Wj. apply cong_eq. ring.
  - apply (pcarries_iff px L npx Cx _ _ _ F2). intros j Hj. cbn [hv]. rewrite ev_scale.
    rewrite (W4 j Hj), (W2 j Hj), (U2 j Hj). specialize (Vcx j Hj). specialize (Vsx j Hj). rewrite <- Ex in Vcx, Vsx, Vt.
    rewrite Vt, Vcx, Vsx. apply cong_eq. ring.
Qed.

Lemma aux_loop_create (R E : prng) fuel s_aux base s same : prng_ok E ->
  ntt_poly px L s_aux -> (forall j, (j < n)%nat -> cong P (at_ px j s_aux) (wx j)) ->
  ntt_poly p L base -> (forall j, (j < n)%nat -> cong q (at_ p j base) (ev L X s j)) ->
  forall count pw first (a : nat) st e keys, ntt_poly p L pw ->
  (forall j, (j < n)%nat -> cong q (at_ p j pw) (P * ev L X s j ^ Z.of_nat a)) ->
  aux_create_loop R E fuel key s_aux base pw px npx (import_int px t) same first count st e = Ok keys ->
  length keys = count /\ forall j kc, nth_error keys j = Some kc ->
    auxcomp_ok L t v key px npx s (a + (if same || negb first then 1 else 0) + j) kc.
Proof.
  intros HE Hsx Vsx Hb Vb. induction count as [|count IH]; intros pw first a st e keys Hpw Vpw H; cbn [aux_create_loop] in H.
  - injection H as <-. split; [reflexivity|]. intros [|j] kc Hj; discriminate.
  - assert (Hk' : exists pw', (if same || negb first then poly_mul p pw base else Ok pw) = Ok pw' /\ ntt_poly p L pw' /\
      forall j, (j < n)%nat -> cong q (at_ p j pw') (P * ev L X s j ^ Z.of_nat (a + (if same || negb first then 1 else 0)))).
    { destruct (same || negb first).
      - destruct (mul_pw p L np C base Hb pw Hpw) as (pw' & A & N & V). exists pw'. split; [exact A|]. split; [exact N|].
        intros j Hj. specialize (V j Hj). rewrite Eq in V. rewrite V, (Vpw j Hj), (Vb j Hj).
        rewrite Nat.add_1_r, Nat2Z.inj_succ, Z.pow_succ_r by lia. apply cong_eq. ring.
      - exists pw. split; [reflexivity|]. split; [exact Hpw|]. rewrite Nat.add_0_r. exact Vpw. }
    destruct Hk' as (pw' & A & N & V). rewrite A in H. cbn [bind] in H. rewrite (proj1 (ko_key _ _ _ _ _ K)) in H.
    destruct (auxcomp_create _ _ _ _ _ _ _ _ _ _ _ _ _ _ _ _) as [[kc st']| |] eqn:Ec; try discriminate. cbn [bind] in H.
    destruct (aux_create_loop _ _ _ _ _ _ _ _ _ _ _ _ _ _ _) as [r| |] eqn:El; try discriminate. cbn [bind] in H. injection H as <-.
    destruct (IH pw' false _ _ _ r N V El) as [L1 I1]. split; [cbn; congruence|].
    intros [|j] kc' Hj; cbn [nth_error] in Hj.
    + injection Hj as <-. rewrite Nat.add_0_r. exact (comp_create R E fuel s_aux pw' s _ st e kc st' HE Hsx Vsx N V Ec).
    + specialize (I1 j kc' Hj). rewrite Bool.orb_true_r in I1.
      replace (a + (if same || negb first then 1 else 0) + S j)%nat with (a + (if same || negb first then 1 else 0) + 1 + j)%nat by lia. exact I1.
Qed.

Lemma aux_create_ok (F : genfam) fuel ty degree power seed seed_e ak : prng_ok (gf_prng F ty) ->
  aux_create F fuel key ty degree px npx power seed seed_e = Ok ak ->
  aux_ok L t v key ak /\ ak_px ak = px /\ ak_npx ak = npx /\ ak_pow ak = power /\ ak_seed ak = seed /\ ak_type ak = ty /\
  Z.of_nat (aux_len ak) = degree + 1 /\ known_type ty = true /\ 0 < degree.
Proof.
  intros HF. unfold aux_create.
  destruct (Z.leb_spec degree 0) as [|Hd]; [discriminate|]. destruct (Z.leb_spec power 0) as [|Hp0]; [discriminate|].
  destruct (known_type ty) eqn:Ek; [|discriminate]. cbn [negb].
  destruct (gf_start F ty seed) as [s| |]; try discriminate. cbn [bind].
  destruct (gf_start F ty seed_e) as [e| |]; try discriminate. cbn [bind].
  rewrite (t_export' k q L t key EK). pose proof (ko_key _ _ _ _ _ K) as Hk.
  destruct (lift_at k q P p px L np npx (sk_key key) (ko_params _ _ _ _ _ K) HX (ko_ntt _ _ _ _ _ K) NX Hk) as (sx & Esx & Nsx & Vsx).
  rewrite Esx. cbn [bind].
  destruct (poly_substitute np (sk_key key) power) as [base| |] eqn:Es; try discriminate. cbn [bind].
  destruct (substitute_range _ _ _ _ Es) as [Hr Ho]. rewrite (proj1 Hk), Nat2Z.inj_pow in Hr. change (Z.of_nat 2) with 2 in Hr.
  assert (Hr' : 0 < power < 2 * Z.of_nat n) by (rewrite Nat2Z.inj_pow; exact Hr).
  destruct (substitute_holds p L np X NG (sk_key key) (secret key) power (poly_holds p L np C _ Hk) Hr' Ho) as (r & Er & Hr2 & _).
  rewrite Es in Er. injection Er as <-. destruct (of_holds p L base _ Hr2) as [Ns Vs].
  assert (HPw : 0 <= P < 2 ^ p_k p).
  { rewrite Kq, <- Kx, <- Ex. pose proof (m_gt1 px Gx). pose proof (m4 px Gx). lia. }
  rewrite Ex. destruct (import_at p P G HPw) as [SP VP]. rewrite Eq in VP.
  destruct (mul_scalar_pw p L np C _ SP base Ns) as (pw & Apw & Npw & Vpw). rewrite Apw. cbn [bind].
  destruct (aux_create_loop _ _ _ _ _ _ _ _ _ _ _ _ _ _ _) as [keys| |] eqn:El; try discriminate. cbn [bind]. intros E0. injection E0 as <-.
  destruct (aux_loop_create (gf_prng F ty) (gf_prng F ty) fuel sx base (secret_at L key power) (power =? 1) HF Nsx) with
    (count := Z.to_nat (if power =? 1 then degree - 1 else degree)) (pw := pw) (first := true) (a := 1%nat) (st := s) (e := e) (keys := keys) as (Q1 & Q2).
  { intros j Hj. rewrite (Vsx j Hj). apply cong_eq. apply (ev_ext L). intros i Hi. unfold signed_secret, secret. rewrite Eq. reflexivity. }
  { exact Ns. }
  { intros j Hj. rewrite <- Eq. apply Vs, Hj. }
  { exact Npw. }
  { intros j Hj. specialize (Vpw j Hj). specialize (Vs j Hj). rewrite Eq in Vpw, Vs. rewrite Vpw, Vs, VP, (cong_mod q P).
    change (Z.of_nat 1) with 1. rewrite Z.pow_1_r. unfold secret_at. apply cong_eq. ring. }
  { exact El. }
  split.
  { constructor; cbn [ak_p ak_np ak_px ak_npx ak_t ak_pow ak_keys]; try reflexivity.
    - split; assumption.
    - intros j kc Hj. specialize (Q2 j kc Hj). destruct (power =? 1); exact Q2. }
  do 5 (split; [reflexivity|]). split; [|split; [reflexivity|exact Hd]].
  unfold aux_len. cbn [ak_keys ak_pow]. rewrite Q1. destruct (power =? 1); lia.
Qed.

(** ** Serialization *)

Lemma seqr_flat {A B} (f g : A -> result B) (l : list A) (f' g' : A -> B) :
  (forall a, In a l -> f a = Ok (f' a) /\ g a = Ok (g' a)) ->
  seqr (flat_map (fun a => [f a; g a]) l) = Ok (flat_map (fun a => [f' a; g' a]) l).
Proof.
  induction l as [|a l IH]; intros H; [reflexivity|]. cbn [flat_map app seqr]. destruct (H a (or_introl eq_refl)) as [-> ->].
  rewrite IH by (intros; apply H; right; assumption). reflexivity.
Qed.

Lemma nth_flat {A B} (f g : A -> B) : forall (l : list A) i a, nth_error l i = Some a ->
  nth_error (flat_map (fun a => [f a; g a]) l) (2 * i) = Some (f a) /\
  nth_error (flat_map (fun a => [f a; g a]) l) (2 * i + 1) = Some (g a).
Proof.
  induction l as [|x l IH]; intros [|i] a H; cbn in H; try discriminate.
  - injection H as ->. split; reflexivity.
  - replace (2 * S i)%nat with (S (S (2 * i))) by lia. cbn [flat_map app nth_error Nat.add]. apply IH, H.
Qed.

Lemma deser_loop_val (R E : prng) fuel s_aux base same polys num fm fa :
  forall count pw first st e keys i f,
  aux_create_loop R E fuel key s_aux base pw px npx (import_int px t) same first count st e = Ok keys ->
  length (sk_key key) = n -> np_n np = n -> np_n npx = n ->
  (forall j kc, nth_error keys j = Some kc ->
     nth_error polys (Z.to_nat i + 2 * j) = Some (fm kc) /\ nth_error polys (Z.to_nat i + (2 * j + 1)) = Some (fa kc) /\
     poly_deserialize p (fm kc) = Ok (ac_b kc) /\ poly_deserialize px (fa kc) = Ok (ac_baux kc)) ->
  0 <= i -> num - i <= Z.of_nat f -> num - i <= 2 * Z.of_nat (length keys) ->
  aux_deser_loop R fuel p np px npx polys num i f st = Ok (firstn (Z.to_nat ((num - i + 1) / 2)) keys).
Proof.
  induction count as [|count IH]; intros pw first st e keys i f H Hl Nn Nx HP Hi Hf Hk; cbn [aux_create_loop] in H.
  - injection H as <-. cbn [length] in Hk. rewrite firstn_nil. unfold aux_deser_loop. destruct f; destruct (Z.ltb_spec i num); try lia; reflexivity.
  - destruct (if same || negb first then poly_mul p pw base else Ok pw) as [pw'| |]; try discriminate. cbn [bind] in H.
    destruct (auxcomp_create _ _ _ _ _ _ _ _ _ _ _ _ _ _ _ _) as [[kc [st' e']]| |] eqn:Ec; try discriminate. cbn [bind fst snd] in H.
    destruct (aux_create_loop _ _ _ _ _ _ _ _ _ _ _ _ _ _ _) as [r| |] eqn:El; try discriminate. cbn [bind] in H. injection H as <-.
    destruct (Z.ltb_spec i num) as [Hin|Hin].
    2:{ replace (Z.to_nat ((num - i + 1) / 2)) with 0%nat.
        - cbn [firstn]. unfold aux_deser_loop. destruct f; destruct (Z.ltb_spec i num); try lia; reflexivity.
        - symmetry. destruct (Z.eq_dec num i) as [->|N]; [rewrite Z.sub_diag; reflexivity|].
          assert ((num - i + 1) / 2 < 1) by (apply Z.div_lt_upper_bound; lia). lia. }
    destruct f as [|f]; [lia|]. cbn [aux_deser_loop]. destruct (Z.ltb_spec i num); [|lia]. cbn [negb].
    destruct (HP 0%nat kc eq_refl) as (P1 & P2 & D1 & D2). rewrite Nat.mul_0_r, Nat.add_0_r in P1. rewrite Nat.mul_0_r in P2. cbn [Nat.add] in P2.
    unfold get at 1. rewrite P1. cbn [bind]. rewrite D1. cbn [bind]. replace (Z.to_nat (i + 1)) with (Z.to_nat i + 1)%nat by lia.
    unfold get at 1. rewrite P2. cbn [bind]. rewrite D2. cbn [bind]. rewrite Nn, Nx.
    unfold auxcomp_create in Ec. rewrite Hl in Ec.
    destruct (sample_polynomial R fuel (Z.of_nat n) p st) as [[a1 st1]| |] eqn:E1; try discriminate. cbn [bind] in Ec |- *.
    destruct (sample_polynomial R fuel (Z.of_nat n) px st1) as [[a2 st2]| |] eqn:E2; try discriminate. cbn [bind] in Ec |- *.
    destruct (sample_error _ _ _ _ _) as [[er e1]| |]; try discriminate. cbn [bind] in Ec.
    destruct (convert_to_ntt p np er) as [c| |]; try discriminate. cbn [bind] in Ec.
    destruct (convert_to_ntt px npx _) as [cx| |]; try discriminate. cbn [bind] in Ec.
    destruct (poly_mul_scalar p c _) as [c1| |]; try discriminate. cbn [bind] in Ec.
    destruct (poly_mul_scalar px cx _) as [cx1| |]; try discriminate. cbn [bind] in Ec.
    destruct (poly_fused_mul_add p c1 _ _) as [c2| |]; try discriminate. cbn [bind] in Ec.
    destruct (poly_fused_mul_add px cx1 _ _) as [cx2| |]; try discriminate. cbn [bind] in Ec.
    destruct (poly_add p c2 _) as [c3| |]; try discriminate. cbn [bind] in Ec. injection Ec as <- <- <-. cbn [ac_b ac_baux] in *.
    rewrite (IH pw' false st2 e1 r (i + 2) f El Hl Nn Nx).
    + cbn [bind]. f_equal. replace ((num - i + 1) / 2) with ((num - (i + 2) + 1) / 2 + 1) by (rewrite <- Z.div_add by lia; f_equal; lia).
      assert (0 <= (num - (i + 2) + 1) / 2) by (apply Z.div_pos; lia).
      rewrite Z2Nat.inj_add, Nat.add_1_r by lia. reflexivity.
    + intros j kc' Hj. specialize (HP (S j) kc' Hj).
      replace (Z.to_nat (i + 2) + 2 * j)%nat with (Z.to_nat i + 2 * S j)%nat by lia.
      replace (Z.to_nat (i + 2) + (2 * j + 1))%nat with (Z.to_nat i + (2 * S j + 1))%nat by lia. exact HP.
    + lia.
    + lia.
    + cbn [length] in Hk. lia.
Qed.

Lemma aux_round_trip (F : genfam) fuel ty degree power seed seed_e ak : (L <= 15)%nat -> prng_ok (gf_prng F ty) ->
  aux_create F fuel key ty degree px npx power seed seed_e = Ok ak ->
  2 * Z.of_nat (length (ak_keys ak)) < 2 ^ 31 ->
  exists sa, aux_serialize ak = Ok sa /\
    (ak_keys ak = [] -> forall t', aux_deserialize F fuel sa p np px npx t' = Err InvalidArgument) /\
    (ak_keys ak <> [] -> aux_deserialize F fuel sa p np px npx t =
      Ok {| ak_p := p; ak_np := np; ak_px := px; ak_npx := npx; ak_seed := seed; ak_type := ty;
            ak_keys := firstn (Nat.div2 (length (ak_keys ak) + 1)) (ak_keys ak); ak_t := t; ak_pow := power |}).
Proof.
  intros HL HF E Hs. destruct (aux_create_ok F fuel ty degree power seed seed_e ak HF E) as (R & Epx & Enpx & Epow & Eseed & Ety & _ & Ek & _).
  pose proof (ao_p _ _ _ _ _ R) as Ep. pose proof (ao_each _ _ _ _ _ R) as RE. rewrite Epx, Enpx in RE.
  assert (Hall : forall kc, In kc (ak_keys ak) -> (exists s1, poly_serialize p (ac_b kc) = Ok s1 /\ poly_deserialize p s1 = Ok (ac_b kc)) /\
     (exists s2, poly_serialize px (ac_baux kc) = Ok s2 /\ poly_deserialize px s2 = Ok (ac_baux kc))).
  { intros kc Hin. apply In_nth_error in Hin. destruct Hin as (j & Hj). destruct (RE j kc Hj) as (F1 & F2 & _).
    inversion_clear F1 as [|? ? [B1 B2] _]. inversion_clear F2 as [|? ? [B3 B4] _].
    assert (Hn : (0 < n)%nat) by apply (n_pos L).
    assert (Hn15 : Z.of_nat n <= 2 ^ 15) by (rewrite Nat2Z.inj_pow; apply Z.pow_le_mono_r; lia).
    destruct (ThmPoly.C20_serialize k q p (ac_b kc) (ko_params _ _ _ _ _ K) B2 ltac:(lia) ltac:(lia)) as (s1 & X1 & _ & X2).
    destruct (ThmPoly.C20_serialize k P px (ac_baux kc) HX B4 ltac:(lia) ltac:(lia)) as (s2 & X3 & _ & X4).
    split; [exists s1|exists s2]; split; assumption. }
  set (dflt := {| sp_coeffs := []; sp_num := 0 |}).
  set (fm := fun kc => match poly_serialize p (ac_b kc) with Ok s => s | _ => dflt end).
  set (fa := fun kc => match poly_serialize px (ac_baux kc) with Ok s => s | _ => dflt end).
  assert (Hfm : forall kc, In kc (ak_keys ak) -> poly_serialize p (ac_b kc) = Ok (fm kc) /\ poly_serialize px (ac_baux kc) = Ok (fa kc)).
  { intros kc Hin. destruct (Hall kc Hin) as [(s1 & X1 & _) (s2 & X2 & _)]. unfold fm, fa. rewrite X1, X2. split; reflexivity. }
  unfold aux_serialize. rewrite Ep, Epx. rewrite (seqr_flat _ _ _ fm fa Hfm). cbn [bind].
  eexists. split; [reflexivity|]. unfold aux_deserialize. cbn [sa_num sa_b sa_type sa_seed sa_pow].
  assert (Lb : Z.of_nat (length (flat_map (fun a => [fm a; fa a]) (ak_keys ak))) = 2 * Z.of_nat (length (ak_keys ak))).
  { clear. induction (ak_keys ak) as [|a l IH]; [reflexivity|]. cbn [flat_map app length]. lia. }
  split.
  { intros E0 t'. rewrite E0. reflexivity. }
  intros Hne. destruct (Z.leb_spec (Z.of_nat (length (ak_keys ak))) 0) as [Hz|Hz].
  { exfalso. apply Hne. destruct (ak_keys ak); [reflexivity|cbn [length] in Hz; lia]. }
  rewrite (proj2 (Z.leb_gt _ _)) by lia. rewrite Lb, Z.eqb_refl. cbn [negb]. rewrite Ety, Ek. cbn [negb]. rewrite Eseed.
  unfold aux_create in E.
  destruct (Z.leb_spec degree 0) as [|Hd]; [discriminate|]. destruct (Z.leb_spec power 0) as [|Hp0]; [discriminate|].
  rewrite Ek in E. cbn [negb] in E.
  destruct (gf_start F ty seed) as [s| |]; try discriminate. cbn [bind] in E |- *.
  destruct (gf_start F ty seed_e) as [e| |]; try discriminate. cbn [bind] in E.
  rewrite (t_export' k q L t key EK) in E.
  destruct (convert_balanced_ntt _ _ _ _ _) as [sx| |]; try discriminate. cbn [bind] in E.
  destruct (poly_substitute _ _ _) as [base| |]; try discriminate. cbn [bind] in E.
  destruct (poly_mul_scalar _ _ _) as [pw| |]; try discriminate. cbn [bind] in E.
  destruct (aux_create_loop _ _ _ _ _ _ _ _ _ _ _ _ _ _ _) as [keys| |] eqn:El; try discriminate. cbn [bind] in E. injection E as <-.
  cbn [ak_keys ak_pow] in *.
  rewrite (deser_loop_val (gf_prng F ty) (gf_prng F ty) fuel sx base (power =? 1) _ (Z.of_nat (length keys)) fm fa _ pw true s e keys 0 _ El).
  - cbn [bind]. do 2 f_equal. rewrite Z.sub_0_r. replace (Z.of_nat (length keys) + 1) with (Z.of_nat (length keys + 1)) by lia.
    rewrite Nat.div2_div. change 2 with (Z.of_nat 2). rewrite <- Nat2Z.inj_div, Nat2Z.id. reflexivity.
  - exact (proj1 (ko_key _ _ _ _ _ K)).
  - exact (ng_n p L np _ NG).
  - exact (ng_n px L npx _ (proj2 Cx)).
  - intros j kc Hj. change (Z.to_nat 0) with 0%nat. cbn [Nat.add]. destruct (nth_flat fm fa keys j kc Hj) as [X1 X2].
    destruct (Hall kc (nth_error_In _ _ Hj)) as [(s1 & Y1 & Y2) (s2 & Y3 & Y4)].
    destruct (Hfm kc (nth_error_In _ _ Hj)) as [Z1 Z2].
    split; [exact X1|]. split; [exact X2|]. rewrite Y1 in Z1. rewrite Y3 in Z2. injection Z1 as <-. injection Z2 as <-. split; assumption.
  - lia.
  - lia.
  - lia.
Qed.
End Create.
