(** Auxiliary lemmas of ThmUntrusted.v: received keys and RNS ciphertexts. *)
From Coq Require Import Znumtheory.
From Verif Require Import Base Montgomery MontBatch Ntt Poly PolyExt Prng Sampling SymEnc Relin AuxRelin PubKey
  Spec ArithFacts MontgomeryProofs TranscriptionProofs NttIndex NttFacts SymProofs2 ThmPoly
  RnsPoly RnsCtx RnsCtxSpec RnsCtxFacts RnsCtxProofs RnsSpec RnsCt RnsEncode RnsKey UntrustedSpec UntrustedProofs.

(** ** Received keys *)

Lemma deser_received k m p s a : params_for k m p -> Z.of_nat (length (sp_coeffs s)) < 2 ^ 31 ->
  poly_deserialize p s = Ok a -> received p a /\ Z.of_nat (length a) = sp_num s.
Proof.
  intros HP Hs E. pose proof (C20_deserialize_total k m p s HP Hs) as D. rewrite E in D.
  destruct D as (D1 & D2 & D3). split; [split; [lia|exact D3]|exact D2].
Qed.

Lemma deser_total k m p s : params_for k m p -> Z.of_nat (length (sp_coeffs s)) < 2 ^ 31 -> poly_deserialize p s <> UB.
Proof. intros HP Hs E. pose proof (C20_deserialize_total k m p s HP Hs) as D. rewrite E in D. exact D. Qed.

Lemma part_deser k m p R fuel : params_for k m p -> forall polys s,
  Forall (fun c => Z.of_nat (length (sp_coeffs c)) < 2 ^ 31) polys ->
  match part_deser_loop R fuel p polys s with
  | Ok ((top, bot), _) => length top = length polys /\
      Forall2 (fun a b => received p a /\ length b = length a /\ Forall (stored p) b) top bot
  | Err _ => True
  | UB => still_sampling R fuel p
  end.
Proof.
  intros HP. pose proof (pf_good _ _ _ HP) as (G & _ & _).
  induction polys as [|c polys IH]; intros s H; cbn [part_deser_loop]; [split; [reflexivity|constructor]|].
  inversion H as [|? ? Hc Ht]; subst.
  pose proof (deser_total k m p c HP Hc) as N. destruct (poly_deserialize p c) as [a|e|] eqn:Ea; [|exact I|contradiction].
  cbn [bind]. destruct (deser_received k m p c a HP Hc Ea) as [Ra _].
  destruct (sample_polynomial R fuel (Z.of_nat (length a)) p s) as [[b s1]|e|] eqn:Eb; cbn [bind];
    [|exact I|exists (Z.of_nat (length a)), s; exact Eb].
  destruct (sample_polynomial_stored R p _ _ _ _ _ G Eb) as (Lb & _ & Sb). rewrite Nat2Z.id in Lb.
  specialize (IH s1 Ht). destruct (part_deser_loop R fuel p polys s1) as [[[t b'] s2]|e|]; cbn [bind]; try exact IH.
  cbn [fst snd]. destruct IH as [I1 I2]. split; [cbn; congruence|]. constructor; auto.
Qed.

Lemma parts_deser_ok k m p R fuel logT per : params_for k m p -> forall count polys s,
  (length polys = count * per)%nat ->
  Forall (fun c => Z.of_nat (length (sp_coeffs c)) < 2 ^ 31) polys ->
  match parts_deser R fuel p logT per count polys s with
  | Ok parts => length parts = count /\ Forall (fun pt => pt_logT pt = logT /\ length (pt_top pt) = per /\
      Forall2 (fun a b => received p a /\ length b = length a /\ Forall (stored p) b) (pt_top pt) (pt_bot pt)) parts
  | Err _ => True
  | UB => still_sampling R fuel p
  end.
Proof.
  intros HP. induction count as [|count IH]; intros polys s L H; cbn [parts_deser]; [split; [reflexivity|constructor]|].
  rewrite <- (firstn_skipn per polys) in H. apply Forall_app in H as [H1 H2].
  pose proof (part_deser k m p R fuel HP (firstn per polys) s H1) as D.
  destruct (part_deser_loop R fuel p (firstn per polys) s) as [[[t b] s1]|e|]; cbn [bind]; try exact D.
  destruct D as [D1 D2]. rewrite firstn_length, L, Nat.min_l in D1 by (cbn; lia).
  specialize (IH (skipn per polys) s1). rewrite skipn_length, L in IH. specialize (IH ltac:(cbn; lia) H2).
  destruct (parts_deser R fuel p logT per count (skipn per polys) s1) as [r|e|]; cbn [bind]; try exact IH.
  destruct IH as [I1 I2]. split; [cbn; congruence|]. constructor; [|exact I2]. cbn. auto.
Qed.

Lemma gadget_pos p logT : 0 < logT <= p_logm p -> 1 <= gadget_size p logT.
Proof. intros H. unfold gadget_size. apply Z.div_le_lower_bound; lia. Qed.

Lemma aux_deser k m mx p np px npx R fuel : params_for k m p -> params_for k mx px ->
  (1 <= np_n np)%nat -> (1 <= np_n npx)%nat ->
  forall polys num, Z.of_nat (length polys) = 2 * num -> Forall (fun c => Z.of_nat (length (sp_coeffs c)) < 2 ^ 31) polys ->
  forall f i s, 0 <= i -> num - i <= Z.of_nat f ->
  match aux_deser_loop R fuel p np px npx polys num i f s with
  | Ok keys => Forall (fun kc => received p (ac_b kc) /\ received px (ac_baux kc) /\
                    length (ac_a kc) = np_n np /\ length (ac_aaux kc) = np_n npx) keys
  | Err _ => True
  | UB => still_sampling R fuel p \/ still_sampling R fuel px
  end.
Proof.
  intros HP HPX Hn Hnx polys num L H. pose proof (pf_good _ _ _ HP) as (G & _ & _). pose proof (pf_good _ _ _ HPX) as (GX & _ & _).
  rewrite Forall_forall in H. induction f as [|f IH]; intros i s Hi Hf.
  - cbn [aux_deser_loop]. destruct (Z.ltb_spec i num); [lia|]. cbn [negb]. constructor.
  - cbn [aux_deser_loop]. destruct (Z.ltb_spec i num) as [Hl|Hl]; cbn [negb]; [|constructor].
    pose (d0 := {| sp_coeffs := []; sp_num := 0 |}).
    rewrite (get_ok _ _ d0) by lia. cbn [bind].
    assert (H0 : Z.of_nat (length (sp_coeffs (nth (Z.to_nat i) polys d0))) < 2 ^ 31) by (apply H, nth_In; lia).
    pose proof (deser_total k m p _ HP H0) as N. destruct (poly_deserialize p _) as [b|e|] eqn:Eb; [|exact I|contradiction].
    cbn [bind]. rewrite (get_ok _ _ d0) by lia. cbn [bind].
    assert (H1 : Z.of_nat (length (sp_coeffs (nth (Z.to_nat (i + 1)) polys d0))) < 2 ^ 31) by (apply H, nth_In; lia).
    pose proof (deser_total k mx px _ HPX H1) as N1. destruct (poly_deserialize px _) as [bx|e|] eqn:Ebx; [|exact I|contradiction].
    cbn [bind].
    destruct (sample_polynomial R fuel (Z.of_nat (np_n np)) p s) as [[a s1]|e|] eqn:Ea; cbn [bind]; [|exact I|left; do 2 eexists; exact Ea].
    destruct (sample_polynomial R fuel (Z.of_nat (np_n npx)) px s1) as [[ax s2]|e|] eqn:Eax; cbn [bind]; [|exact I|right; do 2 eexists; exact Eax].
    specialize (IH (i + 2) s2 ltac:(lia) ltac:(lia)).
    destruct (aux_deser_loop R fuel p np px npx polys num (i + 2) f s2) as [r|e|]; cbn [bind]; try exact IH.
    constructor; [|exact IH]. cbn [ac_b ac_a ac_baux ac_aaux].
    destruct (sample_polynomial_stored R p _ _ _ _ _ G Ea) as (La & _ & _). destruct (sample_polynomial_stored R px _ _ _ _ _ GX Eax) as (Lax & _ & _).
    unfold poly_neg. rewrite !map_length, La, Lax, !Nat2Z.id.
    split; [apply (deser_received k m p _ b HP H0 Eb)|]. split; [apply (deser_received k mx px _ bx HPX H1 Ebx)|]. auto.
Qed.

(** ** RNS ciphertexts *)

Definition rshape (n : nat) (L : nat) (nm : nat) (ntt : bool) (a : rpoly) : Prop :=
  rp_logn a = L /\ rp_ntt a = ntt /\ length (rp_vs a) = nm /\ Forall (fun v => length v = n) (rp_vs a).

Lemma map2_len {A B C} (f : A -> B -> C) : forall l1 l2, length l1 = length l2 -> length (map2 f l1 l2) = length l1.
Proof. induction l1 as [|x l1 IH]; intros [|y l2] E; try discriminate E; [reflexivity|]. cbn. f_equal. apply IH. injection E as E. exact E. Qed.

Lemma batch_add_len p a b c : batch_add p a b = Ok c -> length c = length a.
Proof.
  unfold batch_add, same_len. destruct (Nat.eqb_spec (length a) (length b)) as [E|E]; [|discriminate]. intros [= <-]. apply map2_len, E.
Qed.
Lemma d_batch_add p a b : defined (batch_add p a b).
Proof. unfold batch_add. destruct (same_len a b); exact I. Qed.
Lemma d_batch_mul p a b : defined (batch_mul p a b).
Proof. unfold batch_mul. destruct (same_len a b); exact I. Qed.

(** the loops over the moduli *)
Lemma seqr2 {B} (f : pmod -> B -> result (list Z)) n : forall ms bs, length bs = length ms ->
  (forall m b, In b bs -> match f m b with Ok v => length v = n | Err _ => True | UB => False end) ->
  match seqr (map2 f ms bs) with Ok vs => length vs = length ms /\ Forall (fun v => length v = n) vs | Err _ => True | UB => False end.
Proof.
  induction ms as [|m ms IH]; intros [|b bs] L H; try discriminate L; [split; [reflexivity|constructor]|]. cbn [map2 seqr].
  pose proof (H m b (or_introl eq_refl)) as D. destruct (f m b) as [v|e|]; cbn [bind]; try exact D.
  injection L as L. specialize (IH bs L (fun m' b' I' => H m' b' (or_intror I'))).
  destruct (seqr (map2 f ms bs)) as [vs|e|]; cbn [bind]; try exact IH. destruct IH as [I1 I2]. split; [cbn; congruence|]. constructor; assumption.
Qed.

Lemma d_each2 f ms vs ws : (forall p v w, defined (f p v w)) -> defined (each2 f ms vs ws).
Proof.
  intros F. unfold each2. apply d_seqr. apply Forall_forall. intros r Hr.
  assert (Q : forall ms (l : list (list Z * list Z)), In r (map2 (fun m vw => f (pm_p m) (fst vw) (snd vw)) ms l) -> exists p v w, r = f p v w).
  { clear. induction ms as [|m ms IH]; intros [|x l] H; try destruct H as [<-|H]; try contradiction; eauto. }
  destruct (Q _ _ Hr) as (p & v & w & ->). apply F.
Qed.

Lemma d_rns_add a b ms : defined (rns_add a b ms).
Proof.
  unfold rns_add. destruct (negb _); [exact I|]. destruct (negb _); [exact I|]. apply d_bind; [|intros; exact I]. apply d_each2. intros; apply d_batch_add.
Qed.
Lemma d_rns_mul a b ms : defined (rns_mul a b ms).
Proof.
  unfold rns_mul. destruct (negb _); [exact I|]. destruct (negb _); [exact I|]. destruct (negb _); [exact I|]. destruct (negb _); [exact I|].
  apply d_bind; [|intros; exact I]. apply d_each2. intros; apply d_batch_mul.
Qed.

Lemma same_len_eq {A B} (a : list A) (b : list B) : negb (same_len a b) = false -> length a = length b.
Proof. unfold same_len. intros H. apply negb_false_iff, Nat.eqb_eq in H. exact H. Qed.

Lemma rns_add_shape n L nm ntt a b ms c : rshape n L nm ntt a -> length ms = nm -> rns_add a b ms = Ok c -> rshape n L nm ntt c.
Proof.
  intros (H1 & H2 & H3 & H4) Lm. unfold rns_add. destruct (negb (same_len (rp_vs b) (rp_vs a))) eqn:E1; [discriminate|].
  destruct (negb (same_len ms (rp_vs a))) eqn:E2; [discriminate|]. apply same_len_eq in E1. apply same_len_eq in E2. unfold each2.
  assert (Q : match seqr (map2 (fun m vw => batch_add (pm_p m) (fst vw) (snd vw)) ms (combine (rp_vs a) (rp_vs b))) with
    Ok vs => length vs = length ms /\ Forall (fun v => length v = n) vs | Err _ => True | UB => False end).
  { apply seqr2; [rewrite combine_length; lia|]. intros m [v w] Hi. cbn [fst snd]. pose proof (d_batch_add (pm_p m) v w) as D.
    destruct (batch_add (pm_p m) v w) as [x|e|] eqn:E; try exact D. rewrite (batch_add_len _ _ _ _ E).
    apply in_combine_l in Hi. apply (proj1 (Forall_forall _ _) H4 v Hi). }
  destruct (seqr _) as [vs|e|]; try discriminate. cbn [bind]. intros [= <-]. destruct Q as [Q1 Q2].
  repeat split; cbn [with_vs rp_logn rp_ntt rp_vs]; auto. congruence.
Qed.

Lemma raw_shape key n L nm ntt ms : length ms = nm -> forall cs i sp out a, rshape n L nm ntt out ->
  raw_loop key ms cs i sp out = Ok a -> rshape n L nm ntt a.
Proof.
  intros Lm. induction cs as [|c cs IH]; intros i sp out a H E; cbn [raw_loop] in E; [injection E as <-; exact H|].
  destruct (if (1 <? i)%nat then rns_mul sp key ms else Ok sp) as [sp'| |]; try discriminate. cbn [bind] in E.
  destruct (if (0 <? i)%nat then rns_mul c sp' ms else Ok c) as [c'| |]; try discriminate. cbn [bind] in E.
  destruct (rns_add out c' ms) as [o| |] eqn:Ea; try discriminate. cbn [bind] in E.
  eapply IH; [|exact E]. eapply rns_add_shape; [exact H|exact Lm|exact Ea].
Qed.

Lemma d_raw key ms : forall cs i sp out, defined (raw_loop key ms cs i sp out).
Proof.
  induction cs as [|c cs IH]; intros i sp out; cbn [raw_loop]; [exact I|].
  apply d_bind; [destruct (1 <? i)%nat; [apply d_rns_mul|exact I]|]. intros sp' _.
  apply d_bind; [destruct (0 <? i)%nat; [apply d_rns_mul|exact I]|]. intros c' _.
  apply d_bind; [apply d_rns_add|]. intros o _. apply IH.
Qed.

Lemma raw_decrypt_any key x : (rp_logn (rsk_key key) < 31)%nat ->
  match rsk_raw_decrypt key x with
  | Ok a => rshape (2 ^ rp_logn (rsk_key key)) (rp_logn (rsk_key key)) (length (rsk_ms key)) true a /\ (rp_logn (rsk_key key) <> 0)%nat /\ rsk_ms key <> []
  | Err _ => True
  | UB => False
  end.
Proof.
  intros HL. unfold rsk_raw_decrypt, rns_zero. destruct (Z.leb_spec (Z.of_nat (rp_logn (rsk_key key))) 0); [exact I|].
  destruct (rsk_ms key) as [|m0 ms'] eqn:Em; [exact I|]. rewrite <- Em. unfold shl_int.
  destruct (Z.leb_spec 31 (Z.of_nat (rp_logn (rsk_key key)))); [lia|]. cbn [bind].
  match goal with |- match raw_loop ?k ?ms ?cs ?i ?sp ?z with _ => _ end => pose proof (d_raw k ms cs i sp z) as D;
    destruct (raw_loop k ms cs i sp z) as [a|e|] eqn:E; [|exact I|exact D]; split;
      [apply (raw_shape k (2 ^ rp_logn (rsk_key key)) (rp_logn (rsk_key key)) (length (rsk_ms key)) true ms eq_refl cs i sp z a); [|exact E]|] end.
  - repeat split; cbn [rp_logn rp_ntt rp_vs]; [lia|apply map_length|]. apply Forall_forall. intros v Hv.
    apply in_map_iff in Hv as (m & <- & _). rewrite repeat_length, Nat2Z.id. reflexivity.
  - split; [lia|]. rewrite Em. discriminate.
Qed.

Lemma inverse_strict p np v : v <> [] -> match inverse_ntt p np v with Ok w => length w = length v | Err _ => True | UB => False end.
Proof.
  intros N. unfold inverse_ntt. destruct (Nat.eqb_spec (length v) 0) as [E|E]; [destruct v; [contradiction|discriminate E]|].
  destruct (length v =? 2 ^ Nat.log2 (length v))%nat; cbn [negb]; [|exact I].
  pose proof (gs_layers_any p np (Nat.log2 (length v)) 0 v 0) as Q.
  destruct (gs_layers p np (Nat.log2 (length v)) 0 v 0) as [w|e|]; cbn [bind]; try exact Q. rewrite map_length. exact Q.
Qed.

Lemma to_coeff_any n L nm a ms : (0 < n)%nat -> rshape n L nm true a -> length ms = nm ->
  match rns_to_coeff a ms with Ok b => rshape n L nm false b | Err _ => True | UB => False end.
Proof.
  intros Hn (H1 & H2 & H3 & H4) Lm. unfold rns_to_coeff. rewrite H2. cbn [negb].
  destruct (negb (same_len ms (rp_vs a))) eqn:E2; [exact I|]. apply same_len_eq in E2.
  assert (Q : match seqr (map2 (fun m v => inverse_ntt (pm_p m) (pm_np m) v) ms (rp_vs a)) with
    Ok vs => length vs = length ms /\ Forall (fun v => length v = n) vs | Err _ => True | UB => False end).
  { apply seqr2; [lia|]. intros m v Hi. pose proof (proj1 (Forall_forall _ _) H4 v Hi) as Lv. cbv beta in Lv.
    pose proof (inverse_strict (pm_p m) (pm_np m) v ltac:(apply len_nonempty; lia)) as Q. destruct (inverse_ntt _ _ v); try exact Q. congruence. }
  destruct (seqr _) as [vs|e|]; cbn [bind]; try exact Q. destruct Q as [Q1 Q2]. repeat split; cbn; auto. congruence.
Qed.

Lemma lsb_any n L nm a t inv ms : rshape n L (S nm) false a -> (1 <= nm)%nat -> length ms = S nm -> t <> 0 ->
  match rns_mod_reduce_lsb a t inv ms with Ok b => rshape n L nm false b | Err _ => True | UB => False end.
Proof.
  intros (H1 & H2 & H3 & H4) Hnm Lm Ht. unfold rns_mod_reduce_lsb. destruct (negb _); [exact I|].
  destruct (_ <=? 1)%nat; [exact I|]. destruct (length inv =? length (rp_vs a) - 1)%nat eqn:Ei; cbn [negb]; [|exact I]. apply Nat.eqb_eq in Ei.
  unfold rns_detach. destruct (rev (rp_vs a)) as [|dl vr] eqn:Er; [apply (f_equal (@length _)) in Er; rewrite rev_length in Er; cbn in Er; lia|].
  assert (Ev : rp_vs a = rev vr ++ [dl]) by (rewrite <- (rev_involutive (rp_vs a)), Er; reflexivity).
  cbn [bind]. unfold last_modulus. destruct (rev ms) as [|ml mr] eqn:Em; [apply (f_equal (@length _)) in Em; rewrite rev_length in Em; cbn in Em; lia|].
  cbn [bind]. destruct (Z.eqb_spec t 0); [contradiction|]. cbv zeta. unfold batch_mul_scalar at 1. cbn [bind].
  rewrite Ev in H3, H4. rewrite app_length in H3. cbn [length] in H3. apply Forall_app in H4 as [H4 _].
  assert (Lr : length (rev vr) = nm) by lia.
  assert (Lf : length (firstn (length ms - 1) ms) = nm) by (rewrite firstn_length; lia).
  rewrite Ev, app_length in Ei. cbn [length] in Ei.
  unfold rns_mul_scalar at 1. cbn [with_vs rp_vs]. destruct (negb _); [exact I|]. cbn [bind]. unfold each.
  assert (Q : match seqr (map2 (fun (m : pmod) v => batch_mul_scalar (pm_p m) v (import_int (pm_p m) (p_m (pm_p ml) mod t))) (firstn (length ms - 1) ms) (rev vr)) with
    Ok vs => length vs = length (firstn (length ms - 1) ms) /\ Forall (fun v => length v = n) vs | Err _ => True | UB => False end).
  { apply seqr2; [lia|]. intros m v Hi. cbn [batch_mul_scalar]. unfold batch_mul_scalar. rewrite map_length. apply (proj1 (Forall_forall _ _) H4 v Hi). }
  destruct (seqr _) as [vs|e|]; cbn [bind]; try exact Q. destruct Q as [Q1 Q2]. cbn [with_vs rp_ntt rp_vs rp_logn]. rewrite H2.
  match goal with |- match bind ?r _ with _ => _ end => assert (Q' : match r with
    Ok vs => length vs = length (firstn (length ms - 1) ms) /\ Forall (fun v => length v = n) vs | Err _ => True | UB => False end) end.
  { apply seqr2; [rewrite combine_length; lia|]. intros m [v z] Hi. cbn [fst snd]. unfold batch_mul_scalar at 1. cbn [bind].
    match goal with |- match bind (batch_add ?p ?u ?w) _ with _ => _ end => pose proof (d_batch_add p u w) as D; destruct (batch_add p u w) as [x|e|] eqn:E end; cbn [bind]; try exact I; try exact D.
    unfold batch_mul_scalar. rewrite map_length, (batch_add_len _ _ _ _ E). apply in_combine_l in Hi. apply (proj1 (Forall_forall _ _) Q2 v Hi). }
  match goal with |- match bind ?r _ with _ => _ end => destruct r as [vs'|e|] end; cbn [bind]; try exact Q'. destruct Q' as [R1 R2].
  repeat split; cbn; auto. congruence.
Qed.

Lemma reduce_any n L c ms : rc_t c <> 0 ->
  (forall l, (1 <= l < length ms)%nat -> exists row, get (rc_prime_q_invs c) l = Ok row /\ (l <= length row)%nat) ->
  forall l a, (l < length ms)%nat -> rshape n L (S l) false a ->
  match reduce_to_one c ms l a with Ok b => rshape n L 1 false b | Err _ => True | UB => False end.
Proof.
  intros Ht Hr. induction l as [|l IH]; intros a Hl H; cbn [reduce_to_one]; [exact H|].
  destruct (Hr (S l) ltac:(lia)) as (row & -> & Lr). cbn [bind]. unfold rnsint_prefix.
  destruct (Nat.ltb_spec (length row) (S l)); [lia|]. cbn [bind].
  pose proof (lsb_any n L (S l) a (rc_t c) (firstn (S l) row) (firstn (S (S l)) ms) H ltac:(lia) ltac:(rewrite firstn_length; lia) Ht) as Q.
  destruct (rns_mod_reduce_lsb _ _ _ _) as [b|e|]; cbn [bind]; try exact Q. apply IH; [lia|exact Q].
Qed.

Lemma decode_any n L c ms a : n = (2 ^ L)%nat -> rc_t c <> 0 -> ms <> [] ->
  (forall l, (1 <= l < length ms)%nat -> exists row, get (rc_prime_q_invs c) l = Ok row /\ (l <= length row)%nat) ->
  rshape n L (length ms) true a -> defined (coeff_decode_bgv c a ms).
Proof.
  intros En Ht Hms Hr H. unfold coeff_decode_bgv. destruct (negb _); [exact I|]. rewrite (proj1 (proj2 H)).
  assert (Hn : (0 < n)%nat) by (subst n; apply pow2_gt0').
  pose proof (to_coeff_any n L (length ms) a ms Hn H eq_refl) as Q. destruct (rns_to_coeff a ms) as [b|e|]; cbn [bind]; try exact I; try exact Q.
  destruct ms as [|m0 ms'] eqn:Em; [contradiction|]. rewrite <- Em in *.
  assert (Lm : (0 < length ms)%nat) by (rewrite Em; cbn; lia).
  rewrite (proj1 (proj2 (proj2 Q))).
  pose proof (reduce_any n L c ms Ht Hr (length ms - 1) b ltac:(lia)) as Q1. replace (S (length ms - 1)) with (length ms) in Q1 by lia. specialize (Q1 Q).
  destruct (reduce_to_one c ms (length ms - 1) b) as [d|e|]; cbn [bind]; try exact I; try exact Q1.
  rewrite Em. cbn [get nth_error bind]. destruct Q1 as (D1 & D2 & D3 & D4). destruct (rp_vs d) as [|v0 vs]; [discriminate D3|]. cbn [get nth_error bind].
  pose proof (Forall_inv D4) as Lv. cbv beta in Lv. unfold rp_ncoeffs. rewrite D1, Lv, En, Nat.ltb_irrefl. unfold remove_error_on_msb.
  destruct (Z.eqb_spec (rc_t c) 0); [contradiction|exact I].
Qed.

(** the tables of a context have a row for every level *)
Lemma ctx_rows k l qs ps t c lev : ctx_args k qs ps t -> ctx_made k l qs ps t c ->
  forall i, (1 <= i < length (at_level c lev))%nat -> exists row, get (rc_prime_q_invs c) i = Ok row /\ (i <= length row)%nat.
Proof.
  intros A M i Hi. destruct (made_base k l qs ps t c M) as (c0 & E0 & EB). pose proof (create_tables k l qs ps t c0 E0) as (_ & _ & _ & _ & _ & T).
  pose proof (base_tables k c c0 EB T) as [(T1 & T2 & _) _]. rewrite T2.
  unfold at_level in Hi. rewrite firstn_length in Hi.
  destruct (nth_error (rc_qs c) i) as [m|] eqn:Em; [|apply nth_error_None in Em; lia].
  unfold ctx_prime_q_invs. rewrite (get_indexed _ (rc_qs c) i m Em). eexists. split; [reflexivity|].
  rewrite map_length, indexed_length. lia.
Qed.
