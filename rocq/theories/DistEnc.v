(** Fresh ciphertexts: from the random words to the mask and the error (C93). *)
From Coq Require Import Znumtheory Lia Arith.
From Verif Require Import Base FinSum BitsUtil Montgomery MontBatch Ntt Poly PolyExt Prng Sampling SampleSpec ZLemmas MontgomeryProofs Spec ArithFacts
  PolySpec Ring MontBatchProofs NttFacts PolyView PolyProofs PolyFacts SampleProofs SampleErrProofs ThmArith ThmSample SymEnc SymSpec SymProofs SymProofs2 SymFacts DistSpec DistProofs.
Local Notation zsum := FinSum.zsum.

Lemma scale_inj t q a b v : rel_prime t q -> 0 <= v -> 4 * v < q -> Z.abs a <= 2 * v -> Z.abs b <= 2 * v -> cong q (t * a) (t * b) -> a = b.
Proof.
  intros R Hv Hq Ha Hb C. unfold cong in C.
  assert (D : (q | t * (a - b))).
  { rewrite Z.mul_sub_distr_l. exact C. }
  apply Gauss in D; [|apply rel_prime_sym; exact R]. destruct D as (c & D). destruct (Z.eq_dec c 0) as [->|N]; [lia|]. exfalso. nia.
Qed.

Section Enc.
Variables (k q : Z) (L : nat) (t : Z) (key : skey).
Hypothesis EK : enc_key k q L t key.
Hypothesis Hk : k <> 16.
Hypothesis Hv : 0 <= sk_var key <= 256.
Hypothesis Hq : 4 * sk_var key < q.
Hypothesis Ht : rel_prime t q.
Local Notation p := (sk_p key).
Local Notation n := (2 ^ L)%nat.
Local Notation v := (sk_var key).
Let K : key_ok k q L t key := ek_key _ _ _ _ _ EK.
Let C : ctx p L (sk_np key) := key_ctx k q L t key K.
Let PF : params_for k q p := ko_params _ _ _ _ _ K.
Let G : good p := proj1 C.
Let NG := proj2 C.

(** what Encrypt does with a sampled mask and sampled errors *)
Definition build (pt a es : poly) : result poly :=
  do! c0 <- convert_to_ntt p (sk_np key) es;
  do! c0 <- poly_mul_scalar p c0 (sk_t key);
  do! c0 <- poly_add p c0 pt;
  poly_fused_mul_add p c0 a (sk_key key).

Local Transparent encrypt_internal.
Lemma encrypt_build f pt ds : encrypt scripted f key pt ds =
  do! ' (a, s) <- sample_polynomial scripted f (Z.of_nat n) p ds;
  do! ' (es, s) <- sample_error scripted p n v s;
  do! c0 <- build pt a es; Ok (ct_make p [c0; poly_neg p a] 1, s).
Proof.
  unfold encrypt, encrypt_internal, build. cbv zeta. rewrite (proj1 (ko_key _ _ _ _ _ K)).
  destruct (sample_polynomial scripted f (Z.of_nat n) p ds) as [[a s]| |]; try reflexivity. cbn [bind].
  destruct (sample_error scripted p n v s) as [[es s1]| |]; try reflexivity. cbn [bind].
  destruct (convert_to_ntt p (sk_np key) es) as [c| |]; try reflexivity. cbn [bind].
  destruct (poly_mul_scalar p c (sk_t key)) as [c1| |]; try reflexivity. cbn [bind].
  destruct (poly_add p c1 pt) as [c2| |]; try reflexivity. cbn [bind].
  destruct (poly_fused_mul_add p c2 a (sk_key key)) as [c3| |]; reflexivity.
Qed.

Lemma build_ok pt a es : ntt_poly p L pt -> ntt_poly p L a -> length es = n -> Forall (reduced p) es ->
  exists c0, build pt a es = Ok c0 /\ ntt_poly p L c0 /\
    carries L key (ct_make p [c0; poly_neg p a] 1) (fun i => coeff p (sk_np key) pt i + t * nth i (signed p es) 0).
Proof.
  intros Hpt Ha Le Re. unfold build. pose proof (m_gt1 p G) as M1.
  assert (Se : Forall (stored p) es) by (eapply Forall_impl; [|exact Re]; intros; apply reduced_stored; assumption).
  pose proof (ko_key _ _ _ _ _ K) as Kk. pose proof (ko_t _ _ _ _ _ K) as Et. rewrite (ek_pt _ _ _ _ _ EK) in Et. pose proof (ek_stored _ _ _ _ _ EK) as ST.
  destruct (forward_holds p G L (sk_np key) _ NG es (fun i => nth i (signed p es) 0) Le Se) as (ce & Ece & Hce & _).
  { intros i Hi. unfold signed. rewrite (nth_indep (map (fun x => centered (p_m p) (export_int p x)) es) 0 (centered (p_m p) (export_int p 0))) by (rewrite map_length; lia).
    rewrite (map_nth (fun x => centered (p_m p) (export_int p x))), centered_cong.
    rewrite <- stored_val; [reflexivity|exact G|rewrite Forall_forall in Se; apply Se, nth_In; lia]. }
  rewrite Ece. cbn [bind].
  destruct (mul_scalar_holds p G n ce _ (sk_t key) (export_int p (sk_t key)) Hce ST) as (c1 & E1 & H1 & _).
  { rewrite stored_val by assumption. reflexivity. }
  rewrite E1. cbn [bind].
  destruct (add_holds p G n c1 pt _ _ H1 (poly_holds p L (sk_np key) C pt Hpt)) as (c2 & E2 & H2 & _).
  rewrite E2. cbn [bind].
  destruct (of_holds p L _ _ H2) as [N2 _].
  destruct (fused_total_k _ L _ C ltac:(rewrite (key_k _ _ _ _ _ K); exact Hk) c2 a (sk_key key) N2 Ha Kk) as (c3 & E3).
  rewrite E3. exists c3. split; [reflexivity|].
  destruct (fused_holds p G n c2 a (sk_key key) _ _ _ c3 H2 (holds_of p L a Ha) (holds_of p L _ Kk) E3) as [H3 _].
  apply (of_holds p L) in H3. destruct H3 as [H3 V3]. split; [exact H3|].
  apply (carries_p L key (ct_make p [c3; poly_neg p a] 1) _ eq_refl). cbn [ct_make ct_c].
  destruct (neg_pw p L (sk_np key) C a Ha) as [Hn Vn].
  assert (F : Forall (ntt_poly p L) [c3; poly_neg p a]) by (repeat constructor; apply H3 || apply Hn).
  apply (proj2 (pcarries_iff p L (sk_np key) C _ _ _ F)). intros j Hj. cbn [SymProofs.hv].
  rewrite (V3 j Hj), (Vn j Hj). unfold secret. rewrite <- (coeff_at p L (sk_np key) C _ j Kk Hj). rewrite Et, ev_add, ev_scale.
  apply cong_eq. ring.
Qed.

(** ** The test on the outcome of an encryption splits *)
Lemma encrypted_as_iff cs res : encrypted_as cs res = true <-> exists x, res = Ok (x, []) /\ ct_c x = cs.
Proof.
  unfold encrypted_as. destruct res as [[x [|y l]]|e|]; try (split; [discriminate|intros (z & E & _); discriminate E]).
  destruct (list_eq_dec (list_eq_dec Z.eq_dec) (ct_c x) cs) as [E|N]; split; intros H; try discriminate H; try reflexivity.
  - exists x. auto.
  - destruct H as (z & E & Ez). injection E as <-. congruence.
Qed.
Lemma returned_signed_iff e res : returned_signed p e res = true <-> exists l, res = Ok (l, []) /\ signed p l = e.
Proof.
  unfold returned_signed. destruct res as [[x [|y l]]|er|]; try (split; [discriminate|intros (z & E & _); discriminate E]).
  destruct (list_eq_dec Z.eq_dec (signed p x) e) as [E|N]; split; intros H; try discriminate H; try reflexivity.
  - exists x. auto.
  - destruct H as (z & E & Ez). injection E as <-. congruence.
Qed.

Lemma neg_inj a b : Forall (reduced p) a -> Forall (reduced p) b -> poly_neg p a = poly_neg p b -> a = b.
Proof.
  unfold poly_neg. revert b. induction a as [|x a IH]; intros [|y b] Fa Fb E; try discriminate E; [reflexivity|].
  cbn [map] in E. injection E as E1 E2. inversion_clear Fa. inversion_clear Fb. f_equal; [|apply IH; assumption].
  rewrite !(mneg_ok p G) in E1 by (apply crep_rep; assumption). lia.
Qed.

(** residues for given small integers *)
Definition residues (e : list Z) : list Z := map (fun x => import_int p (x mod q)) e.
Lemma residues_ok e : Forall (fun x => Z.abs x <= 2 * v) e -> Forall (reduced p) (residues e) /\ signed p (residues e) = e.
Proof.
  pose proof (proj2 (proj2 (pf_good _ _ _ PF))) as Em. pose proof (m_gt1 p G) as M1. pose proof (g_m4 p G) as M4.
  assert (X : forall x, 0 <= x mod q < 2 ^ p_k p) by (intros x; pose proof (Z.mod_pos_bound x q ltac:(lia)); lia).
  unfold residues, signed. intros F. split.
  - apply Forall_map. eapply Forall_impl; [|exact F]. intros x _. apply (import_crep p G). apply X.
  - rewrite map_map. rewrite <- map_id. apply map_ext_in. intros x Hx. rewrite Forall_forall in F. specialize (F x Hx).
    rewrite stored_val; [|exact G|apply reduced_stored, (import_crep p G), X]. rewrite (import_val p G) by apply X.
    apply centered_eq; [lia|unfold fits; lia|]. rewrite Em, Z.mod_mod by lia. apply cong_mod.
Qed.

Lemma nth_abs e i : Forall (fun x => Z.abs x <= 2 * v) e -> Z.abs (nth i e 0) <= 2 * v.
Proof.
  intros F. destruct (lt_dec i (length e)) as [H|H]; [|rewrite nth_overflow by lia; change (Z.abs 0) with 0; lia]. rewrite Forall_forall in F. apply F, nth_In, H.
Qed.

(** equal ciphertexts carry equal errors *)
Lemma same_errors x pt e e' : length e = n -> length e' = n -> Forall (fun x => Z.abs x <= 2 * v) e -> Forall (fun x => Z.abs x <= 2 * v) e' ->
  carries L key x (fun i => coeff p (sk_np key) pt i + t * nth i e 0) -> carries L key x (fun i => coeff p (sk_np key) pt i + t * nth i e' 0) -> e = e'.
Proof.
  intros Le Le' Fe Fe' A B. apply (nth_ext _ _ 0 0); [congruence|]. intros i Hi. specialize (A i ltac:(lia)). specialize (B i ltac:(lia)).
  pose proof (proj2 (proj2 (pf_good _ _ _ PF))) as Em. rewrite Em in A, B.
  apply (scale_inj t q _ _ v Ht ltac:(lia) Hq (nth_abs e i Fe) (nth_abs e' i Fe')). rewrite A in B. unfold cong in *.
  match type of B with (q | ?x) => replace (t * nth i e 0 - t * nth i e' 0) with x by ring end. exact B.
Qed.

Lemma samples_reduced s v s' : samples scripted q (p_logm p) s v s' -> Forall (reduced p) v.
Proof.
  induction 1 as [|s x s1 xs s' H _ IH]; constructor; [|exact IH]. exact (proj1 (proj2 (C14_import_random k q p scripted s x s1 PF) H)).
Qed.
(** every outcome has this form *)
Lemma encrypt_form f pt ds x rest : ntt_poly p L pt -> encrypt scripted f key pt ds = Ok (x, rest) ->
  exists a s es c0, sample_polynomial scripted f (Z.of_nat n) p ds = Ok (a, s) /\ sample_error scripted p n v s = Ok (es, rest) /\
    length a = n /\ Forall (reduced p) a /\ length es = n /\ Forall (reduced p) es /\ Forall (fun e => Z.abs e <= 2 * v) (signed p es) /\
    build pt a es = Ok c0 /\ ntt_poly p L c0 /\ x = ct_make p [c0; poly_neg p a] 1 /\
    carries L key x (fun i => coeff p (sk_np key) pt i + t * nth i (signed p es) 0).
Proof.
  intros Hpt E. rewrite encrypt_build in E.
  destruct (sample_polynomial scripted f (Z.of_nat n) p ds) as [[a s]| |] eqn:Ea; try discriminate E. cbn [bind] in E.
  destruct (sample_error scripted p n v s) as [[es s1]| |] eqn:Es; try discriminate E. cbn [bind] in E.
  pose proof (proj2 (proj2 (pf_good _ _ _ PF))) as Em. assert (V0 : 0 <= v) by lia. assert (V2 : 2 * v <= p_m p) by lia.
  destruct (sample_polynomial_stored scripted p _ _ _ _ _ G Ea) as (La & _ & Sa). rewrite Nat2Z.id in La.
  destruct (proj1 (proj1 (C14_polynomial k q p scripted (Z.of_nat n) _ a s PF)) (ex_intro _ f Ea)) as (_ & _ & S). pose proof (samples_reduced _ _ _ S) as Ra.
  destruct (sample_error_bounded scripted p _ _ _ _ _ G scripted_ok V0 V2 Es) as (_ & Le & Re & Be).
  destruct (build_ok pt a es Hpt (conj La Sa) Le Re) as (c0 & Eb & N0 & Cc). rewrite Eb in E. cbn [bind] in E. injection E as <- <-.
  exists a, s, es, c0. repeat (split; [first [reflexivity|assumption]|]). split; [|repeat (split; [first [reflexivity|assumption]|]); exact Cc].
  unfold signed. apply Forall_map. apply Forall_forall. intros y Hy. rewrite Forall_forall in Be. destruct (Be y Hy) as (e & Bd & ->).
  replace (centered (p_m p) (e mod p_m p)) with e; [lia|]. symmetry. pose proof (m_gt1 p G). apply centered_eq; [lia|unfold fits; lia|apply cong_mod].
Qed.

Lemma signed_inj : forall l l', Forall (reduced p) l -> Forall (reduced p) l' -> signed p l = signed p l' -> l = l'.
Proof.
  induction l as [|x l IH]; intros [|y l'] A B E; try discriminate E; [reflexivity|].
  unfold signed in E. cbn [map] in E. injection E as E1 E2. inversion_clear A as [|? ? Rx A']. inversion_clear B as [|? ? Ry B'].
  rewrite (IH l' A' B' E2). f_equal. rewrite !stored_val in E1 by (try exact G; apply reduced_stored; assumption).
  assert (X : cong (p_m p) (val p x) (val p y)) by (rewrite <- (centered_cong (p_m p) (val p x)), E1, centered_cong; reflexivity).
  pose proof (val_range p G x). pose proof (val_range p G y). pose proof (m_gt1 p G). apply cong_iff in X; [|lia]. rewrite !Z.mod_small in X by assumption.
  exact (val_inj p G x y Rx Ry X).
Qed.

Lemma split_test r f pt a e c0 : ntt_poly p L pt -> (1 <= r <= f)%nat -> length a = n -> Forall (reduced p) a -> length e = n -> Forall (fun x => Z.abs x <= 2 * v) e ->
  build pt a (residues e) = Ok c0 -> forall d1 d2, chunk (attempts p r) d1 -> chunk (errors v n) d2 ->
  encrypted_as [c0; poly_neg p a] (encrypt scripted f key pt (d1 ++ d2)) =
  (returned a (sample_polynomial scripted f (Z.of_nat n) p d1) && returned_signed p e (sample_error scripted p n v d2))%bool.
Proof.
  intros Hpt Hr La Ra Le Fe Eb d1 d2 D1 D2. pose proof (proj2 (proj2 (pf_good _ _ _ PF))) as Em. assert (V0 : 0 <= v) by lia. assert (V2 : 2 * v <= p_m p) by lia.
  assert (Sa : Forall (stored p) a) by (eapply Forall_impl; [|exact Ra]; intros; apply reduced_stored; assumption).
  destruct (residues_ok e Fe) as [Rr Sr]. assert (Lr : length (residues e) = n) by (unfold residues; rewrite map_length; exact Le).
  destruct (build_ok pt a (residues e) Hpt (conj La Sa) Lr Rr) as (c0' & Eb' & N0 & Cc). rewrite Eb in Eb'. injection Eb' as <-. rewrite Sr in Cc.
  assert (Hn : (1 <= n)%nat) by (pose proof (Nat.pow_nonzero 2 L ltac:(lia)); lia).
  apply Bool.eq_iff_eq_true. rewrite encrypted_as_iff, Bool.andb_true_iff, returned_iff, returned_signed_iff. split.
  - intros (x & E & Ex). destruct (encrypt_form f pt _ x [] Hpt E) as (a' & s & es & c' & Ea & Es & La' & Ra' & Les & Res & Bes & Eb' & N' & -> & C').
    cbn [ct_make ct_c] in Ex. injection Ex as -> En. apply neg_inj in En; try assumption. subst a'.
    pose proof (same_errors _ pt _ _ ltac:(unfold signed; rewrite map_length; exact Les) Le Bes Fe C' Cc) as Ee.
    assert (Ls : length s = length d2).
    { unfold sample_error in Es. destruct (Z.ltb_spec 256 v); [lia|]. rewrite (many_left k q p v PF Hv Hq _ _ _ _ Es). cbn [length].
      rewrite (chunk_length _ _ D2), errors_length. lia. }
    destruct (proj1 (proj1 (C14_polynomial k q p scripted (Z.of_nat n) _ a s PF)) (ex_intro _ f Ea)) as (_ & _ & S).
    destruct (samples_app _ _ _ _ _ S) as (pre & Epre & H).
    apply app_eq_app in Epre. destruct Epre as (l & [(E1 & E2)|(E1 & E2)]).
    + subst. rewrite app_length in Ls. destruct l; [|cbn in Ls; lia]. rewrite app_nil_r in *. cbn [app] in *. subst.
      split; [|exists es; auto]. apply (sample_iff k q p PF); [exact Hn| |split; [exact La|]].
      * rewrite (chunk_length _ _ D1), attempts_length. nia.
      * specialize (H []). rewrite app_nil_r in H. exact H.
    + subst. rewrite app_length in Ls. destruct l; [|cbn in Ls; lia]. rewrite app_nil_r in *. cbn [app] in *. subst.
      split; [|exists es; auto]. apply (sample_iff k q p PF); [exact Hn| |split; [exact La|]].
      * rewrite (chunk_length _ _ D1), attempts_length. nia.
      * specialize (H []). rewrite app_nil_r in H. exact H.
  - intros (Ea & es & Es & Ee). apply (local_poly k q p PF _ _ _ _ _ d2) in Ea. cbn [app] in Ea.
    exists (ct_make p [c0; poly_neg p a] 1). split; [|reflexivity]. rewrite encrypt_build, Ea. cbn [bind]. rewrite Es. cbn [bind].
    assert (es = residues e) as ->.
    { destruct (sample_error_bounded scripted p _ _ _ _ _ G scripted_ok V0 V2 Es) as (_ & Les & Res & _).
      rewrite <- Sr in Ee. exact (signed_inj _ _ Res Rr Ee). }
    rewrite Eb. reflexivity.
Qed.

Lemma encrypt_count r f pt a e c0 : ntt_poly p L pt -> (1 <= r <= f)%nat -> length a = n -> Forall (reduced p) a -> length e = n -> Forall (fun x => Z.abs x <= 2 * v) e ->
  build pt a (residues e) = Ok c0 ->
  over (attempts p r ++ errors v n) (fun ds => Z.b2z (encrypted_as [c0; poly_neg p a] (encrypt scripted f key pt ds))) = mask_count p n r * product (map (error_count v) e).
Proof.
  intros Hpt Hr La Ra Le Fe Eb. pose proof (proj2 (proj2 (pf_good _ _ _ PF))) as Em.
  assert (Hn : (1 <= n)%nat) by (pose proof (Nat.pow_nonzero 2 L ltac:(lia)); lia).
  rewrite <- (error_distribution k q p v PF Hv Hq e), Le.
  rewrite <- La at 2. rewrite <- (mask_distribution k q p PF f r a Hr); [|intros ->; cbn in La; lia|].
  2:{ rewrite <- Em. exact Ra. }
  rewrite La, over_app, <- over_prod.
  apply over_ext; [|apply widths_nonneg, attempts_ok]. intros d1 D1. apply over_ext; [|apply widths_nonneg, errors_ok]. intros d2 D2.
  rewrite (split_test r f pt a e c0 Hpt Hr La Ra Le Fe Eb d1 d2 D1 D2).
  destruct (returned a _), (returned_signed p e _); reflexivity.
Qed.

Lemma pad_is_iff b res : pad_is b res = true <-> exists x, res = Ok (x, []) /\ tl (ct_c x) = [b].
Proof.
  unfold pad_is. destruct res as [[x [|y l]]|e|]; try (split; [discriminate|intros (z & E & _); discriminate E]).
  destruct (list_eq_dec (list_eq_dec Z.eq_dec) (tl (ct_c x)) [b]) as [E|N]; split; intros H; try discriminate H; try reflexivity.
  - exists x. auto.
  - destruct H as (z & E & Ez). injection E as <-. congruence.
Qed.

Lemma pad_test r f pt a : ntt_poly p L pt -> (1 <= r <= f)%nat -> length a = n -> Forall (reduced p) a ->
  forall d1 d2, chunk (attempts p r) d1 -> chunk (errors v n) d2 ->
  pad_is (poly_neg p a) (encrypt scripted f key pt (d1 ++ d2)) = returned a (sample_polynomial scripted f (Z.of_nat n) p d1).
Proof.
  intros Hpt Hr La Ra d1 d2 D1 D2.
  assert (Sa : Forall (stored p) a) by (eapply Forall_impl; [|exact Ra]; intros; apply reduced_stored; assumption).
  destruct (many_errors k q p v PF Hv Hq n d2 D2) as (es & Es & Les & Res & Bes).
  destruct (build_ok pt a es Hpt (conj La Sa) Les Res) as (c0 & Eb & _ & Cc). rewrite <- Bool.andb_true_r.
  apply Bool.eq_iff_eq_true. rewrite Bool.andb_true_r. rewrite pad_is_iff, returned_iff. split.
  - intros (x & E & Ex). destruct (encrypt_form f pt _ x [] Hpt E) as (a' & s & es' & c' & Ea & Es' & La' & Ra' & Les' & Res' & Bes' & Eb' & N' & -> & C').
    cbn [ct_make ct_c tl] in Ex. injection Ex as En. apply neg_inj in En; try assumption. subst a'.
    pose proof (split_test r f pt a (signed p es') c' Hpt Hr La Ra ltac:(unfold signed; rewrite map_length; exact Les') Bes') as T.
    destruct (residues_ok _ Bes') as [Rr Sr]. pose proof (signed_inj _ _ Rr Res' Sr) as Er. rewrite Er in T. specialize (T Eb' d1 d2 D1 D2).
    assert (B : encrypted_as [c'; poly_neg p a] (encrypt scripted f key pt (d1 ++ d2)) = true).
    { apply encrypted_as_iff. exists (ct_make p [c'; poly_neg p a] 1). split; [exact E|reflexivity]. }
    rewrite B in T. symmetry in T. apply Bool.andb_true_iff in T. apply returned_iff, T.
  - intros Ea. apply (local_poly k q p PF _ _ _ _ _ d2) in Ea. cbn [app] in Ea.
    exists (ct_make p [c0; poly_neg p a] 1). split; [|reflexivity]. rewrite encrypt_build, Ea. cbn [bind]. rewrite Es. cbn [bind]. rewrite Eb. reflexivity.
Qed.

Lemma pad_count r f pt a : ntt_poly p L pt -> (1 <= r <= f)%nat -> length a = n -> Forall (reduced p) a ->
  over (attempts p r ++ errors v n) (fun ds => Z.b2z (pad_is (poly_neg p a) (encrypt scripted f key pt ds))) = mask_count p n r * 2 ^ total (errors v n).
Proof.
  intros Hpt Hr La Ra. pose proof (proj2 (proj2 (pf_good _ _ _ PF))) as Em.
  assert (Hn : (1 <= n)%nat) by (pose proof (Nat.pow_nonzero 2 L ltac:(lia)); lia).
  rewrite <- (over_one (errors v n)) by (apply widths_nonneg, errors_ok).
  rewrite <- La at 2. rewrite <- (mask_distribution k q p PF f r a Hr); [|intros ->; cbn in La; lia|].
  2:{ rewrite <- Em. exact Ra. }
  rewrite La, over_app, <- over_prod.
  apply over_ext; [|apply widths_nonneg, attempts_ok]. intros d1 D1. apply over_ext; [|apply widths_nonneg, errors_ok]. intros d2 D2.
  rewrite (pad_test r f pt a Hpt Hr La Ra d1 d2 D1 D2). ring.
Qed.
End Enc.

