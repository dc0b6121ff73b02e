(** Extension, scaling and approximate reduction of RNS polynomials; the
    correspondence between RNS polynomials and polynomials modulo Q. *)
From Coq Require Import Znumtheory.
From Verif Require Import Base FinSum PolySpec Ring Montgomery MontBatch Ntt Poly PolyExt MontgomeryProofs
  MontBatchProofs Fermat Spec PolyView ArithFacts NttFacts NttProofs PolyProofs PolyFacts
  RnsPoly RnsSpec CrtMath RnsSub RnsProofs RnsReduce RnsBasis.
Local Notation zsum := FinSum.zsum.

Lemma inverses_words k L ms words x : moduli_ok k L ms -> inverses ms words x ->
  Forall2 (fun m w => residue m w (zinv (modulus m) x)) ms words /\
  forall m, In m ms -> cong (modulus m) (zinv (modulus m) x * x) 1.
Proof.
  intros OK H.
  assert (N : forall m w, In m ms -> (export_int (pm_p m) w * x) mod modulus m = 1 -> ~ (modulus m | x)).
  { intros m w I E D. pose proof (ok_q k L m (moduli_in _ _ _ _ OK I)).
    assert (Z0 : (export_int (pm_p m) w * x) mod modulus m = 0).
    { apply Z.mod_divide; [lia|]. apply Z.divide_mul_r, D. } lia. }
  split.
  - eapply Forall2_imp; [exact H|]. intros m w I [S E].
    apply (inverses_residue k L); try assumption; [apply (moduli_in _ _ _ _ OK I)|eapply N; eauto].
  - intros m I. assert (G : exists w, (export_int (pm_p m) w * x) mod modulus m = 1).
    { clear -H I. induction H as [|m' w l l' [S E] H IH]; [contradiction|]. destruct I as [->|I]; [exists w; exact E|auto]. }
    destruct G as [w E]. pose proof (moduli_in _ _ _ _ OK I) as O. apply zinv_ok.
    + apply (ok_prime k L m O).
    + pose proof (ok_prime k L m O) as P. pose proof (prime_ge_2 _ P). pose proof (g_odd (pm_p m) (ok_good k L m O)) as Od.
      fold (modulus m) in Od. destruct (Z.eq_dec (modulus m) 2) as [E2|]; [rewrite E2 in Od; discriminate|lia].
    + eapply N; eauto.
Qed.

Lemma rns_div k L ms ntt a h words x g : moduli_ok k L ms -> inverses ms words x -> rns_is ms L ntt a h ->
  (forall i, (i < 2 ^ L)%nat -> x * g i = h i) -> is_rns ms L ntt (rns_mul_rnsint a words ms) g.
Proof.
  intros OK HI Ha Hg. destruct (inverses_words k L ms words x OK HI) as [HW HC].
  apply (rns_mul_words k L ms OK ntt a h words (fun m => zinv (modulus m) x) g Ha HW). intros m i I Hi. cbv beta.
  rewrite <- (Hg i Hi), Z.mul_assoc. rewrite (HC m I). apply cong_eq. ring.
Qed.

Lemma rns_sub_q k L ms : moduli_ok k L ms -> forall m x y, In m ms -> cong (big_q ms) x y -> cong (modulus m) x y.
Proof. intros OK m x y I. apply cong_sub_modulus. apply mod_divides, I. Qed.

(** ** RNS polynomials and polynomials modulo Q *)
Section Bridge.
Variables (k : Z) (L : nat) (ms : list pmod).
Hypothesis OK : moduli_ok k L ms.
Hypothesis DI : distinct ms.
Local Notation n := (2 ^ L)%nat.

Lemma rns_iff ntt a f g : rns_is ms L ntt a f ->
  (rns_is ms L ntt a g <-> forall i, (i < n)%nat -> cong (big_q ms) (f i) (g i)).
Proof.
  intros Hf. split.
  - intros Hg i Hi. apply (cong_all k L ms OK DI). intros m I.
    destruct Hf as (_ & _ & Hf). destruct Hg as (_ & _ & Hg).
    assert (G : exists v, sub_is m L ntt v f /\ sub_is m L ntt v g).
    { clear -Hf Hg I. revert Hg I. induction Hf as [|m' v l l' H1 H IH]; intros Hg I; [contradiction|].
      inversion Hg as [|? ? ? ? G1 G2]; subst. destruct I as [->|I]; [exists v; auto|auto]. }
    destruct G as (v & [_ V1] & [_ V2]). pose proof (ok_q k L m (moduli_in _ _ _ _ OK I)).
    apply cong_iff; [lia|]. rewrite <- V1, <- V2 by exact Hi. reflexivity.
  - intros H. apply (rns_ext k L ms OK ntt a f g Hf). intros m i I Hi. apply (rns_sub_q k L ms OK m _ _ I), H, Hi.
Qed.

Lemma rns_unique ntt a f g : rns_is ms L ntt a f -> rns_is ms L ntt a g ->
  (forall i, 0 <= f i < big_q ms) -> (forall i, 0 <= g i < big_q ms) -> forall i, (i < n)%nat -> f i = g i.
Proof.
  intros Hf Hg Rf Rg i Hi. pose proof (proj1 (rns_iff ntt a f g Hf) Hg i Hi) as C.
  pose proof (big_q_pos k L ms OK). apply cong_iff in C; [|lia]. rewrite !Z.mod_small in C; auto.
Qed.

Lemma pick (P : nat -> Z -> Prop) : (forall i, exists x, P i x) ->
  forall N, exists l, length l = N /\ forall i, (i < N)%nat -> P i (nth i l 0).
Proof.
  intros H N. induction N as [|N (l & E & Hl)]; [exists []; split; [reflexivity|lia]|].
  destruct (H N) as [x Hx]. exists (l ++ [x]). split; [rewrite app_length; cbn; lia|].
  intros i Hi. destruct (Nat.lt_ge_cases i N) as [A|A].
  - rewrite app_nth1 by lia. apply Hl, A.
  - replace i with N by lia. rewrite app_nth2 by lia. replace (N - length l)%nat with 0%nat by lia. exact Hx.
Qed.

Lemma rns_exists a : rns_poly ms L a ->
  exists f, (forall i, 0 <= f i < big_q ms) /\ rns_is ms L (rp_ntt a) a f.
Proof.
  intros [El H]. set (ntt := rp_ntt a). pose proof (big_q_pos k L ms OK) as PQ.
  assert (G : forall i, exists x, 0 <= x < big_q ms /\ ((i < n)%nat ->
    Forall2 (fun m v => rcoeff m ntt v i = x mod modulus m) ms (rp_vs a))).
  { intros i. destruct (Nat.lt_ge_cases i n) as [Hi|Hi]; [|exists 0; split; [lia|lia]].
    destruct (crt_exists (moduli ms) (fun j => nth j (map2 (fun m v => rcoeff m ntt v i) ms (rp_vs a)) 0)
      (mods_pairwise k L ms OK DI) (mods_pos k L ms OK)) as (x & Rx & Hx).
    exists x. split; [exact Rx|]. intros _.
    assert (R : Forall2 (fun m v => 0 <= rcoeff m ntt v i < modulus m) ms (rp_vs a)).
    { eapply Forall2_imp; [exact H|]. intros m v I Hv. cbv beta in *. pose proof (moduli_in _ _ _ _ OK I) as O.
      destruct (sub_self k L m O ntt v Hv) as [_ V]. rewrite (V i Hi). apply Z.mod_pos_bound.
      pose proof (ok_q k L m O). lia. }
    clear -Hx R. unfold moduli in Hx. revert Hx. induction R as [|m v l l' R1 R IH]; intros Hx; constructor.
    - specialize (Hx 0%nat ltac:(cbn; lia)). cbn in Hx. apply (cong_reduced _ _ _ R1). symmetry. exact Hx.
    - apply IH. intros j Hj. apply (Hx (S j)). cbn. lia. }
  destruct (pick _ G n) as (l & E & Hl). exists (fun i => nth i l 0). split.
  - intros i. destruct (Nat.lt_ge_cases i n) as [A|A]; [apply Hl, A|]. rewrite nth_overflow by lia. lia.
  - split; [exact El|]. split; [reflexivity|].
    assert (A : forall i, (i < n)%nat -> Forall2 (fun m v => rcoeff m ntt v i = nth i l 0 mod modulus m) ms (rp_vs a)).
    { intros i Hi. apply (Hl i Hi), Hi. }
    clear -H A. revert H A. generalize (rp_vs a). induction ms as [|m t IH]; intros vs H A; inversion H; subst; constructor.
    + split; [assumption|]. intros i Hi. specialize (A i Hi). inversion A; subst. assumption.
    + apply IH; [assumption|]. intros i Hi. specialize (A i Hi). inversion A; subst. assumption.
Qed.
End Bridge.

(** ** Extension, scaling, approximate reductions *)
Section Two.
Variables (k : Z) (L : nat) (qs ps : list pmod) (D : dops).
Hypothesis OKq : moduli_ok k L qs.
Hypothesis OKp : moduli_ok k L ps.
Hypothesis DIq : distinct qs.
Hypothesis DIp : distinct ps.
Hypothesis NEq : qs <> [].
Hypothesis NEp : ps <> [].
Local Notation n := (2 ^ L)%nat.
Local Notation P := (big_q ps).

Lemma moduli_app : moduli_ok k L (qs ++ ps).
Proof. apply Forall_app. auto. Qed.

Lemma extend_ok hat_inv hat_mod q_mod a f u :
  hat_inverses qs (firstn (length qs) hat_inv) -> hat_residues qs ps hat_mod -> (length qs <= length hat_mod)%nat ->
  residues ps q_mod (big_q qs) -> rns_is qs L false a f ->
  (forall i, (i < n)%nat -> rounds_to D k qs (f i) (u i)) ->
  is_rns (qs ++ ps) L false (rns_extend_basis D a qs ps hat_inv hat_mod q_mod)
    (fun i => crt_value qs (f i) - u i * big_q qs).
Proof.
  intros HI HR Lh HQ Ha Hu. unfold rns_extend_basis.
  destruct (switch_ok k L qs ps D OKq OKp DIq NEp hat_inv HI hat_mod q_mod a f u HR Lh HQ Ha Hu) as (b & E & Hb).
  rewrite E. cbn [bind]. eexists. split; [reflexivity|]. destruct Hb as (B1 & B2 & Hb).
  assert (Ha' : rns_is qs L false a (fun i => crt_value qs (f i) - u i * big_q qs)).
  { apply (proj2 (rns_iff k L qs OKq DIq false a f _ Ha)). intros i Hi.
    transitivity (crt_value qs (f i)); [symmetry; apply (crt_value_cong k L qs OKq DIq)|]. exists (u i). ring. }
  destruct Ha' as (A1 & A2 & Ha'). split; [exact A1|]. split; [exact A2|]. cbn [rp_vs with_vs].
  apply Forall2_app; assumption.
Qed.

Lemma to_ntt_if ntt a f : rns_is qs L ntt a f -> is_rns qs L true (if rp_ntt a then Ok a else rns_to_ntt a qs) f.
Proof.
  intros Ha. pose proof Ha as (_ & -> & _). destruct ntt; [exists a; auto|apply (rns_to_ntt_is k L qs OKq a f Ha)].
Qed.

Lemma scale_reduce_ok hat_inv hat_mod p_mod p_inv t ntt ntt' a aux f u g :
  hat_inverses ps (firstn (length ps) hat_inv) -> hat_residues ps qs hat_mod -> (length ps <= length hat_mod)%nat ->
  residues qs p_mod P -> inverses qs p_inv P -> 0 <= t < 2 ^ k ->
  rns_is qs L ntt a f -> rns_is ps L ntt' aux f ->
  (forall i, (i < n)%nat -> rounds_to D k ps (t * f i) (u i)) ->
  (forall i, (i < n)%nat -> P * g i = t * f i - (crt_value ps (t * f i) - u i * P)) ->
  is_rns qs L ntt (rns_scale_and_reduce D a aux t qs ps hat_inv hat_mod p_mod p_inv) g.
Proof.
  intros HI HR Lh HP HV Ht Ha Hb Hu Hg. unfold rns_scale_and_reduce.
  destruct (rns_mul_scalar_is k L qs OKq ntt a f t Ha Ht) as (a1 & E1 & H1). rewrite E1. cbn [bind].
  destruct (rns_mul_scalar_is k L ps OKp ntt' aux f t Hb Ht) as (b1 & F1 & G1). rewrite F1. cbn [bind].
  assert (B2 : exists b2, (if rp_ntt b1 then rns_to_coeff b1 ps else Ok b1) = Ok b2 /\ rns_is ps L false b2 (fun i => t * f i)).
  { pose proof G1 as (_ & -> & _). destruct ntt'; [apply (rns_to_coeff_is k L ps OKp b1 _ G1)|exists b1; auto]. }
  destruct B2 as (b2 & F2 & G2). rewrite F2. cbn [bind].
  destruct (switch_ok k L ps qs D OKp OKq DIp NEq hat_inv HI hat_mod p_mod b2 _ u HR Lh HP G2 Hu) as (d & F3 & G3).
  rewrite F3. cbn [bind]. pose proof H1 as (_ & -> & _).
  assert (D2 : exists d2, (if ntt then rns_to_ntt d qs else Ok d) = Ok d2 /\
     rns_is qs L ntt d2 (fun i => crt_value ps (t * f i) - u i * P)).
  { destruct ntt; [apply (rns_to_ntt_is k L qs OKq d _ G3)|exists d; auto]. }
  destruct D2 as (d2 & F4 & G4). rewrite F4. cbn [bind].
  destruct (rns_sub_is k L qs OKq ntt a1 d2 _ _ H1 G4) as (a2 & E2 & H2). rewrite E2. cbn [bind].
  apply (rns_div k L qs ntt a2 _ p_inv P g OKq HV H2). intros i Hi. cbv beta. apply Hg, Hi.
Qed.

Variables (hat_inv : list Z) (hat_mod : list rnsint) (p_inv : list Z).
Hypothesis HI : hat_inverses ps hat_inv.
Hypothesis HR : hat_residues ps qs hat_mod.
Hypothesis LH : length hat_mod = length ps.
Hypothesis HV : inverses qs p_inv P.

Lemma approx_msb_ok ntt ntt' a aux f g :
  rns_is qs L ntt a f -> rns_is ps L ntt' aux f ->
  (forall i, (i < n)%nat -> P * g i = f i - approx_value ps false (f i)) ->
  is_rns qs L true (rns_approx_reduce_msb a aux qs ps p_inv hat_inv hat_mod) g.
Proof.
  intros Ha Hb Hg. pose proof (rns_len _ _ _ _ _ Ha) as Ea. pose proof (rns_len _ _ _ _ _ Hb) as Eb.
  pose proof (Forall2_len _ _ _ HI) as Li. pose proof (Forall2_len _ _ _ HV) as Lv.
  unfold rns_approx_reduce_msb. rewrite !same_len_eq by congruence.
  destruct (approx_ok k L ps qs OKp OKq DIp hat_inv hat_mod HI HR NEq ntt' aux f false Hb LH) as (d & E & Hd).
  rewrite E. cbn [bind].
  destruct (rns_to_ntt_is k L qs OKq d _ Hd) as (d2 & E2 & H2). rewrite E2. cbn [bind].
  destruct (to_ntt_if ntt a f Ha) as (a2 & E3 & H3). rewrite E3. cbn [bind].
  destruct (rns_sub_is k L qs OKq true a2 d2 _ _ H3 H2) as (a3 & E4 & H4). rewrite E4. cbn [bind].
  apply (rns_div k L qs true a3 _ p_inv P g OKq HV H4). intros i Hi. cbv beta. apply Hg, Hi.
Qed.

Lemma approx_lsb_ok t_inv t ntt ntt' a aux f g : inverses ps t_inv t -> 0 < t < 2 ^ k ->
  rns_is qs L ntt a f -> rns_is ps L ntt' aux f ->
  (forall i, (i < n)%nat -> P * g i = (P mod t) * f i + t * approx_value ps true (P / t * f i)) ->
  is_rns qs L true (rns_approx_reduce_lsb a aux qs ps p_inv hat_inv hat_mod t_inv (P mod t) t) g.
Proof.
  intros HT Ht Ha Hb Hg. pose proof (rns_len _ _ _ _ _ Ha) as Ea. pose proof (rns_len _ _ _ _ _ Hb) as Eb.
  pose proof (Forall2_len _ _ _ HI) as Li. pose proof (Forall2_len _ _ _ HV) as Lv. pose proof (Forall2_len _ _ _ HT) as Lt.
  pose proof (Z.mod_pos_bound P t ltac:(lia)) as Rr.
  unfold rns_approx_reduce_lsb. rewrite !same_len_eq by congruence.
  destruct (inverses_words k L ps t_inv t OKp HT) as [HW HC].
  destruct Hb as (B1 & B2 & Hb).
  destruct (each_ok _ (fun m r => sub_is m L ntt' r (fun i => P / t * f i))
    (fun m vz => let p := pm_p m in
      do! v <- batch_mul_scalar p (fst vz) (import_int p (P mod t)); batch_mul_scalar p v (mneg p (snd vz))) _ _
    (Forall2_combine _ _ _ _ _ Hb HW)) as (vs & E0 & HVs).
  { intros m [v w] I [Hv Hw]. cbn [fst snd] in *. pose proof (moduli_in _ _ _ _ OKp I) as O. cbv zeta.
    destruct (sub_scale k L m O ntt' v f _ (P mod t) Hv (residue_import k L m O (P mod t) ltac:(lia))) as (r & Er & Hr).
    rewrite Er. cbn [bind].
    destruct (sub_scale k L m O ntt' r _ _ _ Hr (residue_neg k L m O w _ Hw)) as (r2 & Er2 & Hr2).
    exists r2. split; [exact Er2|]. apply (sub_ext k L m O ntt' r2 _ _ Hr2). intros i Hi. cbv beta.
    assert (C0 : cong (modulus m) (P mod t) (- (P / t * t))).
    { destruct (mod_divides ps m I) as [y Ey]. exists y. pose proof (Z.div_mod P t ltac:(lia)) as DM.
      rewrite <- Ey. transitivity (t * (P / t) + P mod t); [ring|symmetry; exact DM]. }
    rewrite C0. replace (- zinv (modulus m) t * (- (P / t * t) * f i)) with (zinv (modulus m) t * t * (P / t * f i)) by ring.
    rewrite (HC m I). apply cong_eq. ring. }
  cbv zeta in E0. rewrite E0. cbn [bind].
  assert (Hb' : rns_is ps L ntt' (with_vs aux vs) (fun i => P / t * f i)) by (split; [exact B1|]; split; [exact B2|exact HVs]).
  destruct (approx_ok k L ps qs OKp OKq DIp hat_inv hat_mod HI HR NEq ntt' (with_vs aux vs) _ true Hb' LH) as (d & E & Hd).
  rewrite E. cbn [bind].
  destruct (rns_to_ntt_is k L qs OKq d _ Hd) as (d2 & E2 & H2). rewrite E2. cbn [bind].
  destruct (rns_mul_scalar_is k L qs OKq true d2 _ t H2 ltac:(lia)) as (d3 & E3 & H3). rewrite E3. cbn [bind].
  destruct (to_ntt_if ntt a f Ha) as (a2 & E4 & H4). rewrite E4. cbn [bind].
  destruct (rns_mul_scalar_is k L qs OKq true a2 _ (P mod t) H4 ltac:(lia)) as (a3 & E5 & H5). rewrite E5. cbn [bind].
  destruct (rns_add_is k L qs OKq true a3 d3 _ _ H5 H3) as (a4 & E6 & H6). rewrite E6. cbn [bind].
  apply (rns_div k L qs true a4 _ p_inv P g OKq HV H6). intros i Hi. cbv beta. apply Hg, Hi.
Qed.
End Two.
