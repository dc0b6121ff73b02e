(** Further proofs about symmetric_encryption.h: encryption, error removal,
    lazy absorption, substitution, modulus switching. *)
From Coq Require Import Arith Znumtheory.
From Verif Require Import Base FinSum PolySpec Ring ZLemmas Montgomery MontBatch Ntt Poly PolyExt Prng Sampling SampleSpec MontgomeryProofs
  MontBatchProofs NttIndex NttMath NttProofs Spec PolyView ArithFacts NttFacts PolyProofs PolyFacts PolyExtProofs
  SymEnc SymSpec SymProofs ThmSample.
Local Notation zsum := FinSum.zsum.

(** ** Error removal *)

Lemma remove1 k q t x : 0 < t <= q -> q < 2 ^ k -> 0 <= x < q ->
  (if x >? shr q 1 then wrap k (x - q mod t) else x) mod t = centered q x mod t.
Proof.
  intros Ht Hq Hx. unfold centered. rewrite (Z.mod_small x q) by lia. rewrite Z.gtb_ltb.
  assert (E : shr q 1 = q / 2) by (unfold shr; rewrite Z.pow_1_r; reflexivity). rewrite E.
  pose proof (Z.div_mod q 2 ltac:(lia)). pose proof (Z.mod_pos_bound q 2 ltac:(lia)).
  destruct (Z.ltb_spec (q / 2) x) as [H1|H1]; destruct (Z.leb_spec (2 * x) q) as [H2|H2]; try lia; try reflexivity.
  pose proof (Z.mod_pos_bound q t ltac:(lia)) as Hm.
  assert (Hb : q mod t <= x).
  { destruct (Z.le_gt_cases t x); [lia|]. assert (q / t = 1).
    { symmetry. apply (Z.div_unique q t 1 (q - t)); lia. }
    pose proof (Z.div_mod q t ltac:(lia)). lia. }
  rewrite wrap_small by lia. apply cong_to_mod; [lia|]. apply sub_cong; [reflexivity|apply cong_mod].
Qed.

Lemma remove_error_ok p t v : good p -> 0 < t <= p_m p -> Forall (stored p) v ->
  remove_error p (p_m p) t v = map (fun x => centered (p_m p) (export_int p x) mod t) v.
Proof.
  intros G Ht Hv. unfold remove_error. destruct (Z.eqb_spec t 0); [lia|]. cbv zeta. rewrite map_map.
  pose proof (m4 p G) as M4. pose proof (m_gt1 p G).
  apply map_ext_in. intros x Hx. rewrite Forall_forall in Hv. apply Hv in Hx.
  apply remove1; [exact Ht|lia|]. rewrite stored_val by assumption. apply val_range, G.
Qed.

Lemma measure_step q x : 0 <= x < q ->
  (if x >? shr q 1 then q - x else x) = Z.abs (centered q x).
Proof.
  intros Hx. unfold centered. rewrite (Z.mod_small x q) by lia. rewrite Z.gtb_ltb.
  assert (E : shr q 1 = q / 2) by (unfold shr; rewrite Z.pow_1_r; reflexivity). rewrite E.
  pose proof (Z.div_mod q 2 ltac:(lia)). pose proof (Z.mod_pos_bound q 2 ltac:(lia)).
  destruct (Z.ltb_spec (q / 2) x) as [H1|H1]; destruct (Z.leb_spec (2 * x) q) as [H2|H2]; lia.
Qed.

Lemma measure_error_ok p v : good p -> Forall (stored p) v ->
  (forall x, In x v -> Z.abs (centered (p_m p) (export_int p x)) <= measure_error p (p_m p) v) /\
  (v = [] /\ measure_error p (p_m p) v = 0 \/
   exists x, In x v /\ Z.abs (centered (p_m p) (export_int p x)) = measure_error p (p_m p) v \/
             measure_error p (p_m p) v = 0).
Proof.
  intros G Hv. unfold measure_error. pose proof (m4 p G) as M4. pose proof (m_gt1 p G).
  set (F := fun x => Z.abs (centered (p_m p) (export_int p x))).
  set (step := fun (max i : Z) => _).
  assert (St : forall mx i, stored p i -> step mx i = Z.max mx (F i)).
  { intros mx i Hi. unfold step, F. pose proof (val_range p G i) as Vr. rewrite <- (stored_val p i G Hi) in Vr.
    rewrite <- measure_step by exact Vr.
    assert (W : (if export_int p i >? shr (p_m p) 1 then wrap (p_k p) (p_m p - export_int p i) else export_int p i) =
      (if export_int p i >? shr (p_m p) 1 then p_m p - export_int p i else export_int p i)).
    { destruct (_ >? _); [rewrite wrap_small by lia|]; reflexivity. }
    rewrite W. destruct (Z.gtb_spec (if export_int p i >? shr (p_m p) 1 then p_m p - export_int p i else export_int p i) mx); lia. }
  assert (K : forall l mx, Forall (stored p) l -> let r := fold_left step l mx in
     mx <= r /\ (forall x, In x l -> F x <= r) /\ (r = mx \/ exists x, In x l /\ F x = r)).
  { induction l as [|i l IH]; intros mx Hl; cbn [fold_left]; cbv zeta.
    - split; [lia|]. split; [intros x []|left; reflexivity].
    - inversion_clear Hl as [|? ? Hi Hl']. rewrite (St mx i Hi).
      destruct (IH (Z.max mx (F i)) Hl') as (I1 & I2 & I3). cbv zeta in I1, I2, I3.
      split; [lia|]. split; [intros x [->|Hx]; [lia|apply I2, Hx]|].
      destruct I3 as [I3|(x & Hx & Ex)].
      + destruct (Z.max_spec mx (F i)) as [[_ Q]|[_ Q]]; rewrite Q in I3 |- *.
        * right. exists i. split; [left; reflexivity|]. symmetry; exact I3.
        * left. exact I3.
      + right. exists x. split; [right; exact Hx|exact Ex]. }
  destruct (K v 0 Hv) as (K1 & K2 & K3). cbv zeta in *. split; [exact K2|].
  destruct v as [|x0 v']; [left; split; reflexivity|]. right.
  destruct K3 as [K3|(x & Hx & Ex)]; [exists x0; right; exact K3|exists x; left; split; assumption].
Qed.

Local Opaque Z.pow.
Lemma sample_polynomial_stored R p fuel num s a s' : good p ->
  sample_polynomial R fuel num p s = Ok (a, s') ->
  length a = Z.to_nat num /\ 1 <= num /\ Forall (stored p) a.
Proof.
  intros G E. unfold sample_polynomial in E. destruct (Z.ltb_spec num 1); [discriminate|].
  assert (Q1 : forall f bits rand s0 r s1, 0 <= rand -> gen_loop R (p_k p) f bits rand s0 = Ok (r, s1) -> 0 <= r).
  { pose proof (k_pos p G). induction f as [|f IH]; intros bits rand s0 r s1 Hr E0; cbn [gen_loop] in E0; [discriminate|].
    destruct (Z.leb_spec bits 0); [injection E0 as <- _; exact Hr|].
    destruct (Z.leb_spec bits 8).
    - destruct (pr_rand8 R s0) as [[b s2]| |]; try discriminate. cbn [bind] in E0. injection E0 as <- _.
      unfold wrap. apply Z.mod_pos_bound, Z.pow_pos_nonneg; lia.
    - destruct (pr_rand64 R s0) as [[b s2]| |]; try discriminate. cbn [bind] in E0. eapply IH; [|exact E0].
      unfold wrap. apply Z.mod_pos_bound, Z.pow_pos_nonneg; lia. }
  assert (Q2 : forall f s0 r s1, import_random R f p s0 = Ok (r, s1) -> stored p r).
  { induction f as [|f IH]; intros s0 r s1 E0; cbn [import_random] in E0; [discriminate|].
    unfold generate_random_int in E0. destruct (gen_loop R (p_k p) 16 (p_logm p) 0 s0) as [[x s2]| |] eqn:Eg; try discriminate.
    cbn [bind] in E0. destruct (Z.leb_spec (p_m p) x); [eapply IH, E0|]. injection E0 as <- _.
    apply Q1 in Eg; [|lia]. split; lia. }
  assert (Q3 : forall c s0 xs s1, sample_n R fuel c p s0 = Ok (xs, s1) -> length xs = c /\ Forall (stored p) xs).
  { induction c as [|c IH]; intros s0 xs s1 E0; cbn [sample_n] in E0; [injection E0 as <- _; split; [reflexivity|constructor]|].
    destruct (import_random R fuel p s0) as [[x s2]| |] eqn:Ei; try discriminate. cbn [bind] in E0.
    destruct (sample_n R fuel c p s2) as [[ys s3]| |] eqn:En; try discriminate. cbn [bind] in E0. injection E0 as <- _.
    destruct (IH _ _ _ En) as [L1 F1]. split; [cbn; congruence|]. constructor; [eapply Q2, Ei|exact F1]. }
  destruct (sample_n R fuel (Z.to_nat num) p s) as [[xs s2]| |] eqn:En; try discriminate. cbn [bind] in E.
  destruct (Q3 _ _ _ _ En) as [L1 F1]. unfold poly_of in E. destruct xs as [|x xs]; [discriminate|]. cbn [bind] in E.
  injection E as <- _. split; [exact L1|]. split; [lia|exact F1].
Qed.

Local Opaque sample_error1 SampleErrProofs.error_widths SampleErrProofs.error_diff SampleProofs.draw.
Lemma sample_error_bounded R p c v s xs s' : good p -> prng_ok R -> 0 <= v -> 2 * v <= p_m p ->
  sample_error R p c v s = Ok (xs, s') ->
  v <= 256 /\ length xs = c /\ Forall (reduced p) xs /\
  Forall (fun x => exists e, - (2 * v) <= e <= 2 * v /\ export_int p x = e mod p_m p) xs.
Proof.
  intros G HR Hv Hvm. unfold sample_error.
  destruct (Z.ltb_spec 256 v); [discriminate|]. intros E. split; [lia|].
  revert s xs s' E. induction c as [|c IH]; intros s xs s' E; cbn [sample_error_n] in E.
  - injection E as <- <-. split; [reflexivity|]. split; constructor.
  - destruct (sample_error1 R p v s) as [[x s1]| |] eqn:E1; cbn [bind] in E; try discriminate.
    destruct (sample_error_n R p v c s1) as [[ys s2]| |] eqn:E2; cbn [bind] in E; try discriminate.
    injection E as <- <-. destruct (IH s1 ys s2 E2) as (Ly & Ry & Fy).
    destruct (SampleErrProofs.sample_error1_ok R p v s G HR ltac:(lia) Hvm) as [(ds & s3 & _ & y & Ey & Cy & Vy & By)|[(c' & _ & Ec)|[_ Eu]]];
      [|congruence|congruence]. rewrite E1 in Ey. injection Ey as <- <-.
    split; [cbn; congruence|]. split; [constructor; assumption|]. constructor; [|exact Fy].
    eexists. split; [exact By|]. rewrite stored_val by (exact G || apply reduced_stored, Cy). exact Vy.
Qed.

Local Opaque sample_error sample_polynomial convert_to_ntt poly_mul_scalar poly_add poly_fused_mul_add poly_neg
  encrypt_internal export_int.

Section Ctx2.
Variables (p : mparams) (L : nat) (np : nttp).
Hypothesis C : ctx p L np.
Local Notation m := (p_m p).
Local Notation n := (2 ^ L)%nat.
Local Notation X := (ntt_root p np).
Local Notation ev := (ev L X).
Local Notation holds := (holds p).
Local Notation val := (val p).
Local Notation at_ := (at_ p).
Local Notation hv := (hv p).
Let G : good p := proj1 C.
Let NG : ntt_good p L np X := proj2 C.
Let M1 : 1 < m := m_gt1 p G.

(** ** Encryption *)

Lemma choose_list (P : nat -> Z -> Prop) k : (forall i, (i < k)%nat -> exists e, P i e) ->
  exists e : nat -> Z, forall i, (i < k)%nat -> P i (e i).
Proof.
  induction k as [|k IH]; intros H; [exists (fun _ => 0); lia|].
  destruct IH as (e & He); [intros; apply H; lia|]. destruct (H k ltac:(lia)) as (x & Hx).
  exists (fun i => if (i =? k)%nat then x else e i). intros i Hi. destruct (Nat.eqb_spec i k) as [->|N]; [exact Hx|].
  apply He. lia.
Qed.

Local Transparent encrypt_internal.
(** internal::Encrypt computes a*s + m + t*e for a small e *)
Lemma encrypt_internal_val R key pt a s c0 s' : sk_p key = p -> sk_np key = np -> ntt_poly p L (sk_key key) ->
  stored p (sk_t key) -> ntt_poly p L pt -> ntt_poly p L a -> prng_ok R -> 0 <= sk_var key -> 2 * sk_var key <= m ->
  encrypt_internal R key pt a s = Ok (c0, s') ->
  sk_var key <= 256 /\
  exists e, (forall i, (i < n)%nat -> - (2 * sk_var key) <= e i <= 2 * sk_var key) /\ ntt_poly p L c0 /\
    forall j, (j < n)%nat -> cong m (at_ j c0)
      (ev (fun i => coeff p np pt i + export_int p (sk_t key) * e i) j + at_ j a * at_ j (sk_key key)).
Proof.
  intros Ep Enp Hk Ht Hpt Ha HR Hv Hvm. unfold encrypt_internal. rewrite Ep, Enp, (proj1 Hk). cbv zeta.
  destruct (sample_error R p n (sk_var key) s) as [[e0 s1]| |] eqn:Ee; try discriminate. cbn [bind].
  assert (Q : sk_var key <= 256 /\ length e0 = n /\ Forall (reduced p) e0 /\
     Forall (fun x => exists e, - (2 * sk_var key) <= e <= 2 * sk_var key /\ export_int p x = e mod m) e0).
  { apply (sample_error_bounded R p n _ s e0 s1 G HR Hv Hvm Ee). }
  destruct Q as (Hv2 & Le & Re & Be). intros E. split; [exact Hv2|].
  assert (Be' : forall i, (i < n)%nat -> exists e, - (2 * sk_var key) <= e <= 2 * sk_var key /\ export_int p (nth i e0 0) = e mod m).
  { intros i Hi. rewrite Forall_forall in Be. apply Be, nth_In. lia. }
  destruct (choose_list _ n Be') as (e & He). exists e. split; [intros i Hi; apply He, Hi|].
  assert (Se : Forall (stored p) e0) by (eapply Forall_impl; [|exact Re]; intros; apply reduced_stored; assumption).
  destruct (forward_holds p G L np X NG e0 e Le Se) as (ce & Ece & Hce & _).
  { intros i Hi. rewrite <- stored_val; [|exact G|rewrite Forall_forall in Se; apply Se, nth_In; lia].
    rewrite (proj2 (He i Hi)). apply cong_mod. }
  rewrite Ece in E. cbn [bind] in E.
  destruct (mul_scalar_holds p G n ce _ (sk_t key) (export_int p (sk_t key)) Hce Ht) as (c1 & E1 & H1 & _).
  { rewrite stored_val by assumption. reflexivity. }
  rewrite E1 in E. cbn [bind] in E.
  destruct (add_holds p G n c1 pt _ _ H1 (poly_holds p L np C pt Hpt)) as (c2 & E2 & H2 & _).
  rewrite E2 in E. cbn [bind] in E.
  destruct (poly_fused_mul_add p c2 a (sk_key key)) as [c3| |] eqn:E3; try discriminate. cbn [bind] in E.
  injection E as <- <-.
  destruct (fused_holds p G n c2 a (sk_key key) _ _ _ c3 H2 (holds_of p L a Ha) (holds_of p L _ Hk) E3) as [H3 _].
  apply (of_holds p L) in H3. destruct H3 as [H3 V3]. split; [exact H3|].
  intros j Hj. rewrite (V3 j Hj). rewrite ev_add, ev_scale. apply cong_eq. ring.
Qed.

Local Opaque encrypt_internal.
Lemma encrypt_carries R fuel key pt s x s' : sk_p key = p -> sk_np key = np -> ntt_poly p L (sk_key key) ->
  stored p (sk_t key) -> ntt_poly p L pt -> prng_ok R -> 0 <= sk_var key -> 2 * sk_var key <= m ->
  encrypt R fuel key pt s = Ok (x, s') ->
  exists e, (forall i, (i < n)%nat -> - (2 * sk_var key) <= e i <= 2 * sk_var key) /\
    ct_p x = p /\ length (ct_c x) = 2%nat /\ Forall (ntt_poly p L) (ct_c x) /\ ct_pow x = 1 /\ ct_lazy x = [] /\
    pcarries p L np (secret key) (ct_c x) (fun i => coeff p np pt i + export_int p (sk_t key) * e i).
Proof.
  intros Ep Enp Hk Ht Hpt HR Hv Hvm. unfold encrypt. rewrite Ep. cbv zeta.
  destruct (sample_polynomial R fuel _ p s) as [[a s1]| |] eqn:Ea; try discriminate. cbn [bind].
  destruct (sample_polynomial_stored R p _ _ _ _ _ G Ea) as (La & _ & Ra).
  assert (Ha : ntt_poly p L a) by (split; [rewrite La, Nat2Z.id; apply Hk|exact Ra]).
  destruct (encrypt_internal R key pt a s1) as [[c0 s2]| |] eqn:E0; try discriminate. cbn [bind].
  intros E. injection E as <- <-.
  destruct (encrypt_internal_val R key pt a s1 c0 s2 Ep Enp Hk Ht Hpt Ha HR Hv Hvm E0) as (_ & e & He & Hc0 & V0).
  exists e. split; [exact He|]. cbn [ct_make ct_p ct_c ct_pow ct_lazy].
  destruct (neg_pw p L np C a Ha) as [Hn Vn].
  assert (F : Forall (ntt_poly p L) [c0; poly_neg p a]) by (repeat constructor; apply Hc0 || apply Hn).
  split; [reflexivity|]. split; [reflexivity|]. split; [exact F|]. split; [reflexivity|]. split; [reflexivity|].
  apply (proj2 (pcarries_iff p L np C _ _ _ F)). intros j Hj. cbn [SymProofs.hv].
  rewrite (V0 j Hj), (Vn j Hj). unfold secret. rewrite Ep, Enp. rewrite <- (coeff_at p L np C _ j Hk Hj).
  apply cong_eq. ring.
Qed.

(** ** Lazy absorption *)

Definition canon (a : poly) : Prop := length a = n /\ Forall (crep p) a.

Lemma canon_ntt a : canon a -> ntt_poly p L a.
Proof. intros [La Ra]. split; [exact La|]. eapply Forall_impl; [|exact Ra]. intros; apply crep_rep; assumption. Qed.

Lemma canon_eq a b : canon a -> canon b -> (forall j, (j < n)%nat -> cong m (at_ j a) (at_ j b)) -> a = b.
Proof.
  intros [La Ra] [Lb Rb] H. apply (nth_ext _ _ 0 0); [congruence|]. intros j Hj.
  rewrite Forall_forall in Ra, Rb. assert (Hj' : (j < n)%nat) by lia.
  apply (val_inj p G); [apply Ra, nth_In; lia|apply Rb, nth_In; lia|].
  apply (cong_small m); [apply val_range, G|apply val_range, G|apply H, Hj'].
Qed.

Lemma at_nil j : at_ j [] = 0.
Proof. unfold SymProofs.at_. destruct j; cbn [nth]; unfold MontgomeryProofs.val; reflexivity. Qed.

Lemma at_over j (cs : list poly) i : (length cs <= i)%nat -> at_ j (nth i cs []) = 0.
Proof. intros H. rewrite nth_overflow by exact H. apply at_nil. Qed.

Lemma nth_poly cs i : Forall (ntt_poly p L) cs -> (i < length cs)%nat -> ntt_poly p L (nth i cs []).
Proof. intros H Hi. rewrite Forall_forall in H. apply H, nth_In, Hi. Qed.

(** one eager step *)
Lemma eager_step b cs ds es : ntt_poly p L b -> Forall (ntt_poly p L) cs -> Forall (ntt_poly p L) ds ->
  fused_into (fun u y => poly_fused_mul_add p u y b) (fun y => poly_mul p y b) cs ds = Ok es ->
  length es = Nat.max (length cs) (length ds) /\ Forall (ntt_poly p L) es /\
  (forall i, (i < length ds)%nat -> canon (nth i es [])) /\
  (forall i, (length ds <= i)%nat -> nth i es [] = nth i cs []) /\
  forall i j, (j < n)%nat -> cong m (at_ j (nth i es [])) (at_ j (nth i cs []) + at_ j (nth i ds []) * at_ j b).
Proof.
  intros Hb Hc Hd. revert cs es Hc. induction Hd as [|d ds H Hd IH]; intros cs es Hc E.
  - destruct cs; cbn [fused_into] in E; injection E as <-; (split; [cbn; lia|]); (split; [exact Hc|]);
      (split; [cbn; lia|]); (split; [reflexivity|]); intros i j Hj; rewrite (at_over j []) by (cbn; lia); apply cong_eq; ring.
  - destruct Hc as [|c cs H' Hc]; cbn [fused_into] in E.
    + destruct (mul_holds p G n d b _ _ (holds_of p L d H) (holds_of p L b Hb)) as (e & Ee & He & Ce).
      rewrite Ee in E. cbn [bind] in E. destruct (fused_into _ _ [] ds) as [es'| |] eqn:Er; try discriminate.
      cbn [bind] in E. injection E as <-. destruct (IH [] es' ltac:(constructor) Er) as (I1 & I2 & I3 & I4 & I5).
      destruct (of_holds p L e _ He) as [Hep Vep].
      split; [cbn in *; lia|]. split; [constructor; assumption|]. split.
      { intros [|i] Hi; cbn [nth]; [split; [apply Hep|exact Ce]|apply I3; cbn in Hi; lia]. }
      split.
      { intros [|i] Hi; cbn in Hi; [lia|]. cbn [nth]. rewrite (I4 i ltac:(lia)). destruct i; reflexivity. }
      intros [|i] j Hj; cbn [nth]; [rewrite (Vep j Hj), at_nil; apply cong_eq; ring|].
      rewrite (I5 i j Hj). destruct i; cbn [nth]; reflexivity.
    + destruct (poly_fused_mul_add p c d b) as [e| |] eqn:Ee; try discriminate. cbn [bind] in E.
      destruct (fused_into _ _ cs ds) as [es'| |] eqn:Er; try discriminate. cbn [bind] in E. injection E as <-.
      destruct (IH cs es' Hc Er) as (I1 & I2 & I3 & I4 & I5).
      destruct (fused_holds p G n c d b _ _ _ e (holds_of p L c H') (holds_of p L d H) (holds_of p L b Hb) Ee) as [He Ce].
      destruct (of_holds p L e _ He) as [Hep Vep].
      split; [cbn in *; lia|]. split; [constructor; assumption|]. split.
      { intros [|i] Hi; cbn [nth]; [split; [apply Hep|exact Ce]|apply I3; cbn in Hi; lia]. }
      split.
      { intros [|i] Hi; cbn in Hi; [lia|]. cbn [nth]. apply I4; lia. }
      intros [|i] j Hj; cbn [nth]; [apply Vep, Hj|apply I5, Hj].
Qed.

(** an accumulator holds the pointwise values T *)
Definition lz (z : lazy) (T : nat -> Z) : Prop :=
  exists S, linv p n z S /\ forall j, (j < n)%nat -> cong m (S j * (p_invr p * p_invr p)) (T j).

Lemma at_words j a b : cong m (nth j a 0 * nth j b 0 * (p_invr p * p_invr p)) (at_ j a * at_ j b).
Proof.
  unfold SymProofs.at_, MontgomeryProofs.val. rewrite !cong_mod. apply cong_eq. ring.
Qed.

Lemma lz_create a b : ntt_poly p L a -> ntt_poly p L b ->
  exists z, lazy_create p a b = Ok z /\ lz z (fun j => at_ j a * at_ j b).
Proof.
  intros [La Ra] [Lb Rb]. destruct (lazy_create_ok p G n a b La Lb Ra Rb) as (z & E & Hz).
  exists z. split; [exact E|]. eexists. split; [exact Hz|]. intros j Hj. apply at_words.
Qed.

Lemma lz_empty : exists z, lazy_create_empty p n = Ok z /\ lz z (fun _ => 0).
Proof.
  destruct (lazy_empty_ok p G n) as (z & E & Hz). exists z. split; [exact E|]. eexists. split; [exact Hz|].
  intros j Hj. apply cong_eq. ring.
Qed.

Lemma lz_fused z T a b : lz z T -> ntt_poly p L a -> ntt_poly p L b ->
  exists z', lazy_fused p z a b = Ok z' /\ lz z' (fun j => T j + at_ j a * at_ j b).
Proof.
  intros (S & HS & VS) [La Ra] [Lb Rb]. destruct (lazy_fused_ok p G n z S a b HS La Lb Ra Rb) as (z' & E & Hz).
  exists z'. split; [exact E|]. eexists. split; [exact Hz|]. intros j Hj. cbv beta.
  rewrite Z.mul_add_distr_r, at_words, (VS j Hj). reflexivity.
Qed.

Lemma lz_ext z T T' : lz z T -> (forall j, (j < n)%nat -> cong m (T j) (T' j)) -> lz z T'.
Proof. intros (S & HS & VS) H. exists S. split; [exact HS|]. intros j Hj. rewrite (VS j Hj). apply H, Hj. Qed.

Lemma lz_export z T : lz z T -> exists e, lazy_export p z = Ok e /\ canon e /\ forall j, (j < n)%nat -> cong m (at_ j e) (T j).
Proof.
  intros (S & HS & VS). destruct (lazy_export_ok p G n z S (n_pos L) HS) as (e & E & Le & Ce & Ve).
  exists e. split; [exact E|]. split; [split; assumption|]. intros j Hj. unfold SymProofs.at_. rewrite (Ve j Hj). apply VS, Hj.
Qed.

Definition lazy0 : lazy := {| lz_coeffs := []; lz_level := 0; lz_max := 0 |}.

(** all accumulators: number i holds T i, missing ones stand for 0 *)
Definition lzs (zs : list lazy) (T : nat -> nat -> Z) : Prop :=
  (forall i, (i < length zs)%nat -> lz (nth i zs lazy0) (T i)) /\
  (forall i j, (length zs <= i)%nat -> (j < n)%nat -> cong m (T i j) 0).

Lemma lazy_creates b ds : ntt_poly p L b -> Forall (ntt_poly p L) ds ->
  exists zs, seqr (map (fun y => lazy_create p y b) ds) = Ok zs /\ length zs = length ds /\
    lzs zs (fun i j => at_ j (nth i ds []) * at_ j b).
Proof.
  intros Hb Hd. induction Hd as [|d ds H Hd IH]; cbn [map seqr].
  - exists []. split; [reflexivity|]. split; [reflexivity|]. split; [cbn; lia|].
    intros i j _ Hj. destruct i; cbn [nth]; rewrite at_nil; apply cong_eq; ring.
  - destruct (lz_create d b H Hb) as (z & E & Hz). destruct IH as (zs & Es & Ls & I1 & I2).
    rewrite E. cbn [bind]. rewrite Es. cbn [bind]. exists (z :: zs). split; [reflexivity|].
    split; [cbn; congruence|]. split.
    + intros [|i] Hi; cbn [nth]; [exact Hz|apply I1; cbn in Hi; lia].
    + intros [|i] j Hi Hj; cbn in Hi; [lia|]. cbn [nth]. apply I2; [lia|exact Hj].
Qed.

Lemma lazy_into_ok b : ntt_poly p L b -> forall zs ds T, Forall (ntt_poly p L) ds -> length zs = length ds -> lzs zs T ->
  exists zs', lazy_into p zs ds b = Ok zs' /\ length zs' = length ds /\
    lzs zs' (fun i j => T i j + at_ j (nth i ds []) * at_ j b).
Proof.
  intros Hb. induction zs as [|z zs IH]; intros ds T Hd Hl [I1 I2]; cbn [lazy_into].
  - destruct ds; [|discriminate]. exists []. split; [reflexivity|]. split; [reflexivity|]. split; [cbn; lia|].
    intros i j Hi Hj. rewrite (I2 i j Hi Hj). destruct i; cbn [nth]; rewrite at_nil; apply cong_eq; ring.
  - destruct ds as [|d ds]; [discriminate|]. inversion_clear Hd as [|? ? H Hd'].
    destruct (lz_fused z (T 0%nat) d b (I1 0%nat ltac:(cbn; lia)) H Hb) as (z' & E & Hz).
    destruct (IH ds (fun i => T (S i)) Hd' ltac:(cbn in Hl; lia)) as (zs' & Es & Ls & J1 & J2).
    { split; [intros i Hi; apply (I1 (S i)); cbn; lia|intros i j Hi Hj; apply (I2 (S i)); [cbn; lia|exact Hj]]. }
    rewrite E. cbn [bind]. rewrite Es. cbn [bind]. exists (z' :: zs'). split; [reflexivity|].
    split; [cbn; congruence|]. split.
    + intros [|i] Hi; cbn [nth]; [exact Hz|apply J1; cbn in Hi; lia].
    + intros [|i] j Hi Hj; cbn in Hi; [lia|]. cbn [nth]. apply J2; [lia|exact Hj].
Qed.

Lemma lazy_pad zs T k e : lzs zs T -> lz e (fun _ => 0) -> lzs (zs ++ repeat e k) T.
Proof.
  intros [I1 I2] He. split.
  - intros i Hi. rewrite app_length, repeat_length in Hi. destruct (Nat.lt_ge_cases i (length zs)) as [H|H].
    + rewrite app_nth1 by exact H. apply I1, H.
    + rewrite app_nth2 by exact H. rewrite (nth_indep _ lazy0 e) by (rewrite repeat_length; lia). rewrite nth_repeat.
      eapply lz_ext; [exact He|]. intros j Hj. symmetry. apply I2; assumption.
  - intros i j Hi Hj. rewrite app_length in Hi. apply I2; [lia|exact Hj].
Qed.

Lemma merge_ok : forall zs cs T, Forall (ntt_poly p L) cs -> lzs zs T ->
  exists es, merge_into p cs zs = Ok es /\ length es = Nat.max (length cs) (length zs) /\ Forall (ntt_poly p L) es /\
  (forall i, (i < length zs)%nat -> canon (nth i es [])) /\
  (forall i, (length zs <= i)%nat -> nth i es [] = nth i cs []) /\
  forall i j, (j < n)%nat -> cong m (at_ j (nth i es [])) (at_ j (nth i cs []) + T i j).
Proof.
  induction zs as [|z zs IH]; intros cs T Hc [I1 I2]; cbn [merge_into].
  - exists cs. split; [reflexivity|]. split; [cbn; lia|]. split; [exact Hc|]. split; [cbn; lia|]. split; [reflexivity|].
    intros i j Hj. rewrite (I2 i j ltac:(cbn; lia) Hj). apply cong_eq. ring.
  - destruct (lz_export z (T 0%nat) (I1 0%nat ltac:(cbn; lia))) as (e & E & Ce & Ve).
    assert (HT : lzs zs (fun i => T (S i))).
    { split; [intros i Hi; apply (I1 (S i)); cbn; lia|intros i j Hi Hj; apply (I2 (S i)); [cbn; lia|exact Hj]]. }
    destruct Hc as [|c cs H Hc].
    + rewrite E. cbn [bind]. destruct (IH [] _ ltac:(constructor) HT) as (es & Es & L1 & F1 & J1 & J2 & J3).
      rewrite Es. cbn [bind]. exists (e :: es). split; [reflexivity|]. split; [cbn in *; lia|].
      split; [constructor; [apply canon_ntt, Ce|exact F1]|]. split.
      { intros [|i] Hi; cbn [nth]; [exact Ce|apply J1; cbn in Hi; lia]. }
      split.
      { intros [|i] Hi; cbn in Hi; [lia|]. cbn [nth]. rewrite (J2 i ltac:(lia)). destruct i; reflexivity. }
      intros [|i] j Hj; cbn [nth]; [rewrite (Ve j Hj), at_nil; apply cong_eq; ring|].
      rewrite (J3 i j Hj). destruct i; cbn [nth]; reflexivity.
    + rewrite E. cbn [bind].
      destruct (add_holds p G n c e _ _ (holds_of p L c H) (holds_of p L e (canon_ntt e Ce))) as (r & Er & Hr & Cr).
      rewrite Er. cbn [bind]. destruct (IH cs _ Hc HT) as (es & Es & L1 & F1 & J1 & J2 & J3).
      rewrite Es. cbn [bind]. destruct (of_holds p L r _ Hr) as [Hrp Vr].
      exists (r :: es). split; [reflexivity|]. split; [cbn in *; lia|].
      split; [constructor; [exact Hrp|exact F1]|]. split.
      { intros [|i] Hi; cbn [nth]; [split; [apply Hrp|exact Cr]|apply J1; cbn in Hi; lia]. }
      split.
      { intros [|i] Hi; cbn in Hi; [lia|]. cbn [nth]. apply J2; lia. }
      intros [|i] j Hj; cbn [nth]; [rewrite (Vr j Hj), (Ve j Hj); reflexivity|apply J3, Hj].
Qed.

(** ** Substitution *)

Lemma odd_pow_neg1 x q : cong m x (-1) -> 0 <= q -> Z.odd q = true -> cong m (x ^ q) (-1).
Proof.
  intros Hx Hq Ho. rewrite Hx. apply cong_eq. apply Z.odd_spec in Ho. destruct Ho as [h ->].
  replace (2 * h + 1) with (Z.succ (2 * h)) by lia. rewrite Z.pow_succ_r, Z.pow_mul_r by lia.
  change ((-1) ^ 2) with 1. rewrite Z.pow_1_l by lia. reflexivity.
Qed.

Lemma substitute_carries s cs f power : 0 < power < 2 * Z.of_nat n -> Z.odd power = true ->
  Forall (ntt_poly p L) cs -> pcarries p L np s cs f ->
  exists ds, seqr (map (fun a => poly_substitute np a power) cs) = Ok ds /\ length ds = length cs /\
    Forall (ntt_poly p L) ds /\
    forall s', (forall i, (i < n)%nat -> cong m (s' i) (substituted n (Z.to_nat power) s i)) ->
    pcarries p L np s' ds (substituted n (Z.to_nat power) f).
Proof.
  intros Hp Ho Hc Hf.
  assert (D : exists ds, seqr (map (fun a => poly_substitute np a power) cs) = Ok ds /\
     Forall2 (fun d c => holds n d (ev (substituted n (Z.to_nat power) (coeff p np c)))) ds cs).
  { clear Hf. induction Hc as [|c cs H Hc IH]; cbn [map seqr]; [exists []; split; [reflexivity|constructor]|].
    destruct (substitute_holds p L np X NG c _ power (poly_holds p L np C c H) Hp Ho) as (d & E & Hd & _).
    destruct IH as (ds & Es & I). rewrite E. cbn [bind]. rewrite Es. cbn [bind]. exists (d :: ds).
    split; [reflexivity|]. constructor; assumption. }
  destruct D as (ds & E & H2). exists ds. split; [exact E|].
  assert (Ll : length ds = length cs) by (clear - H2; induction H2; cbn; congruence).
  split; [exact Ll|].
  assert (Fd : Forall (ntt_poly p L) ds).
  { clear - H2. induction H2 as [|d c ds cs H H2 IH]; constructor; [|exact IH]. apply (of_holds p L d _ H). }
  split; [exact Fd|]. intros s' Hs'. apply (proj2 (pcarries_iff p L np C _ _ _ Fd)). intros j Hj.
  set (x := point L X j) in *. pose proof (point_root p L np X NG j) as Rx. fold x in Rx.
  set (y := x ^ Z.of_nat (Z.to_nat power)).
  assert (Ry : cong m (y ^ Z.of_nat n) (-1)).
  { unfold y. rewrite <- Z.pow_mul_r by lia. rewrite Z.mul_comm, Z.pow_mul_r by lia.
    apply odd_pow_neg1; [exact Rx|lia|]. rewrite Z2Nat.id by lia. exact Ho. }
  pose proof (n_pos L) as Hn.
  assert (Es : forall g, cong m (ev (substituted n (Z.to_nat power) g) j) (peval n g y)).
  { intros g. unfold PolyProofs.ev. fold x. unfold y. apply peval_substituted; assumption. }
  rewrite Es.
  assert (Ef : cong m (peval n (phase n s (length cs) (fun l => coeff p np (nth l cs []))) y) (peval n f y)).
  { apply peval_cong. exact Hf. }
  rewrite <- Ef. rewrite peval_phase by assumption. rewrite hv_sum, Ll. apply zsum_cong. intros i Hi.
  assert (Ei : cong m (at_ j (nth i ds [])) (peval n (coeff p np (nth i cs [])) y)).
  { assert (H : holds n (nth i ds []) (ev (substituted n (Z.to_nat power) (coeff p np (nth i cs []))))).
    { clear - H2 Hi. revert i Hi. induction H2 as [|d c ds cs H H2 IH]; intros i Hi; cbn in Hi; [lia|].
      destruct i; cbn [nth]; [exact H|apply IH; lia]. }
    unfold SymProofs.at_. rewrite (holds_val p n _ _ j H Hj). apply Es. }
  rewrite Ei. apply mul_cong; [reflexivity|]. apply pow_cong; [|reflexivity].
  rewrite <- Es. apply ev_cong. exact Hs'.
Qed.

End Ctx2.

(** ** Norms *)

Lemma zsum_rev n f : zsum n f = zsum n (fun i => f (n - 1 - i)%nat).
Proof.
  revert f. induction n as [|n IH]; intros f; [reflexivity|]. rewrite zsum_first. cbn [FinSum.zsum].
  rewrite (IH (fun i => f (S i))). replace (S n - 1 - n)%nat with O by lia. rewrite Z.add_comm. f_equal.
  apply zsum_ext. intros i Hi. f_equal. lia.
Qed.

Lemma negacyclic_abs n f g k : (k < n)%nat ->
  Z.abs (negacyclic n f g k) <=
  zsum (S k) (fun i => Z.abs (f i) * Z.abs (g (k - i)%nat)) +
  zsum (n - S k) (fun i => Z.abs (f (S k + i)%nat) * Z.abs (g (k + n - (S k + i))%nat)).
Proof.
  intros Hk. unfold negacyclic. eapply Z.le_trans; [apply zsum_abs|].
  cbv beta. assert (En : n = (S k + (n - S k))%nat) by lia.
  match goal with |- zsum n ?F <= _ => assert (E : zsum n F = zsum (S k + (n - S k))%nat F) by (rewrite <- En; reflexivity) end.
  rewrite E.
  rewrite FinSum.zsum_split. apply Z.add_le_mono.
  - apply zsum_le. intros i Hi. destruct (Nat.leb_spec i k); [|lia]. rewrite Z.abs_mul. lia.
  - apply zsum_le. intros i Hi. destruct (Nat.leb_spec (S k + i) k); [lia|]. rewrite Z.abs_opp, Z.abs_mul. lia.
Qed.

Lemma negacyclic_l1 n f g B k : 0 <= B -> (forall i, (i < n)%nat -> Z.abs (f i) <= B) -> (k < n)%nat ->
  Z.abs (negacyclic n f g k) <= B * l1 n g.
Proof.
  intros HB Hf Hk. eapply Z.le_trans; [apply negacyclic_abs, Hk|]. unfold l1.
  transitivity (zsum (S k) (fun i => B * Z.abs (g (k - i)%nat)) + zsum (n - S k) (fun i => B * Z.abs (g (k + n - (S k + i))%nat))).
  { apply Z.add_le_mono; apply zsum_le; intros i Hi; apply Z.mul_le_mono_nonneg_r; try lia; apply Hf; lia. }
  rewrite !zsum_mul_l, <- Z.mul_add_distr_l. apply Z.mul_le_mono_nonneg_l; [exact HB|].
  assert (En : n = (S k + (n - S k))%nat) by lia.
  assert (E : zsum n (fun i => Z.abs (g i)) = zsum (S k + (n - S k))%nat (fun i => Z.abs (g i))) by (rewrite <- En; reflexivity).
  rewrite E.
  rewrite FinSum.zsum_split. apply Z.add_le_mono.
  - rewrite (zsum_rev (S k) (fun i => Z.abs (g i))). apply Z.eq_le_incl, zsum_ext. intros i Hi. do 2 f_equal. lia.
  - rewrite (zsum_rev (n - S k) (fun i => Z.abs (g (S k + i)%nat))). apply Z.eq_le_incl, zsum_ext. intros i Hi. do 2 f_equal. lia.
Qed.

Lemma negacyclic_cong m n f f' g g' k : (forall i, (i < n)%nat -> cong m (f i) (f' i)) ->
  (forall i, (i < n)%nat -> cong m (g i) (g' i)) -> (k < n)%nat ->
  cong m (negacyclic n f g k) (negacyclic n f' g' k).
Proof.
  intros Hf Hg Hk. unfold negacyclic. apply zsum_cong. intros i Hi. destruct (Nat.leb_spec i k).
  - rewrite (Hf i Hi), (Hg (k - i)%nat ltac:(lia)). reflexivity.
  - rewrite (Hf i Hi), (Hg (k + n - i)%nat ltac:(lia)). reflexivity.
Qed.

Lemma npow_cong m n f f' i : (forall j, (j < n)%nat -> cong m (f j) (f' j)) ->
  forall k, (k < n)%nat -> cong m (npow n f i k) (npow n f' i k).
Proof.
  intros Hf. induction i as [|i IH]; intros k Hk; cbn [npow]; [reflexivity|]. apply negacyclic_cong; auto.
Qed.

Lemma phase_cong m n s s' num cs cs' k : (forall j, (j < n)%nat -> cong m (s j) (s' j)) ->
  (forall i j, (i < num)%nat -> (j < n)%nat -> cong m (cs i j) (cs' i j)) -> (k < n)%nat ->
  cong m (phase n s num cs k) (phase n s' num cs' k).
Proof.
  intros Hs Hc Hk. unfold phase. apply zsum_cong. intros i Hi. apply negacyclic_cong; [auto| |exact Hk].
  apply npow_cong, Hs.
Qed.

Lemma negacyclic_lin n a b f f' g k :
  negacyclic n (fun i => a * f i - b * f' i) g k = a * negacyclic n f g k - b * negacyclic n f' g k.
Proof.
  unfold negacyclic. rewrite <- !zsum_mul_l, <- zsum_sub. apply zsum_ext. intros i Hi.
  destruct (i <=? k)%nat; ring.
Qed.

Lemma phase_lin n s num a b cs cs' k :
  phase n s num (fun i j => a * cs i j - b * cs' i j) k = a * phase n s num cs k - b * phase n s num cs' k.
Proof.
  unfold phase. rewrite <- !zsum_mul_l, <- zsum_sub. apply zsum_ext. intros i Hi. apply negacyclic_lin.
Qed.

Lemma phase_bound n s num cs B k : 0 <= B -> (forall i j, (i < num)%nat -> (j < n)%nat -> Z.abs (cs i j) <= B) ->
  (k < n)%nat -> Z.abs (phase n s num cs k) <= B * zsum num (fun i => l1 n (npow n s i)).
Proof.
  intros HB Hc Hk. unfold phase. eapply Z.le_trans; [apply zsum_abs|]. rewrite <- zsum_mul_l.
  apply zsum_le. intros i Hi. apply negacyclic_l1; auto.
Qed.

(** ** Modulus switching *)

Section Switch.
Variables (pp pq : mparams).
Hypothesis GP : good pp.
Hypothesis GQ : good pq.
Hypothesis EK : p_k pp = p_k pq.
Local Notation P := (p_m pp).
Local Notation Q := (p_m pq).
Hypothesis LE : Q <= P.

(** the integer a switched coefficient stands for *)
Definition switch_int (t c : Z) : Z :=
  let q0 := c * Q / P in
  let d := (c - q0) mod t in
  if t / 2 <=? d then q0 + d - t else q0 + d.

Lemma switch1_ok t x : 0 < t <= Q -> stored pp x ->
  crep pq (switch1 pp pq t x) /\ MontgomeryProofs.val pq (switch1 pp pq t x) = switch_int t (export_int pp x) mod Q.
Proof.
  intros Ht Hx. unfold switch1, switch_int. cbv zeta.
  pose proof (val_range pp GP x) as Vc. rewrite <- (stored_val pp x GP Hx) in Vc. set (c := export_int pp x) in *.
  pose proof (m4 pp GP) as MP. pose proof (m4 pq GQ) as MQ. pose proof (m_gt1 pq GQ) as MQ1. pose proof (k_pos pp GP) as KP.
  rewrite <- EK in MQ.
  assert (Hq0 : 0 <= c * Q / P <= c).
  { split; [apply Z.div_pos; nia|]. apply Z.div_le_upper_bound; nia. }
  assert (Hq1 : c * Q / P < Q) by (apply Z.div_lt_upper_bound; nia).
  rewrite (wrap_small (2 * p_k pp) (c * Q)).
  2:{ split; [nia|]. replace (2 * p_k pp) with (p_k pp + p_k pp) by ring. rewrite Z.pow_add_r by lia. nia. }
  set (q0 := c * Q / P) in *. rewrite (wrap_small (p_k pp) q0) by lia.
  assert (Ed : (if p_k pp =? 16 then wrap (p_k pp) (Z.rem (c - q0) t) else wrap (p_k pp) (c - q0) mod t) = (c - q0) mod t).
  { pose proof (Z.mod_pos_bound (c - q0) t ltac:(lia)). destruct (Z.eqb_spec (p_k pp) 16).
    - rewrite Z.rem_mod_nonneg by lia. apply wrap_small. lia.
    - rewrite wrap_small by lia. reflexivity. }
  rewrite Ed. set (d := (c - q0) mod t). pose proof (Z.mod_pos_bound (c - q0) t ltac:(lia)) as Hd. fold d in Hd.
  rewrite (wrap_small (p_k pp) (q0 + d)) by lia.
  assert (Es : shr t 1 = t / 2) by (unfold shr; rewrite Z.pow_1_r; reflexivity). rewrite Es.
  destruct (Z.leb_spec (t / 2) d).
  - rewrite (wrap_small (p_k pp)) by lia. split; [apply import_crep; [exact GQ|rewrite <- EK; lia]|].
    rewrite import_val by (try exact GQ; rewrite <- EK; lia). apply cong_to_mod; [lia|].
    exists 1. ring.
  - split; [apply import_crep; [exact GQ|rewrite <- EK; lia]|]. apply import_val; [exact GQ|rewrite <- EK; lia].
Qed.

Lemma switch_int_mod t c : 0 < t -> cong t (switch_int t c) c.
Proof.
  intros Ht. unfold switch_int. cbv zeta. set (q0 := c * Q / P).
  assert (E : cong t (q0 + (c - q0) mod t) c). { rewrite cong_mod. apply cong_eq. ring. }
  destruct (_ <=? _); [|exact E]. rewrite E. exists (-1). ring.
Qed.

Lemma switch_int_close t c : 0 < t -> 2 * Z.abs (P * switch_int t c - Q * c) <= P * (t + 3).
Proof.
  intros Ht. unfold switch_int. cbv zeta. set (q0 := c * Q / P).
  pose proof (m_gt1 pp GP) as MP. pose proof (Z.div_mod (c * Q) P ltac:(lia)) as E. fold q0 in E.
  pose proof (Z.mod_pos_bound (c * Q) P ltac:(lia)) as Hr.
  set (d := (c - q0) mod t). pose proof (Z.mod_pos_bound (c - q0) t Ht) as Hd. fold d in Hd.
  pose proof (Z.div_mod t 2 ltac:(lia)). pose proof (Z.mod_pos_bound t 2 ltac:(lia)).
  destruct (Z.leb_spec (t / 2) d) as [H1|H1].
  - assert (-(t + 1) <= 2 * (d - t) <= -2) by lia.
    replace (P * (q0 + d - t) - Q * c) with (P * (d - t) - (c * Q) mod P) by lia. nia.
  - assert (0 <= 2 * d <= t) by lia.
    replace (P * (q0 + d) - Q * c) with (P * d - (c * Q) mod P) by lia. nia.
Qed.

Lemma key_switch1_ok x : stored pp x ->
  crep pq (key_switch1 pp pq x) /\
  MontgomeryProofs.val pq (key_switch1 pp pq x) = centered P (export_int pp x) mod Q.
Proof.
  intros Hx. unfold key_switch1. cbv zeta.
  pose proof (val_range pp GP x) as Vc. rewrite <- (stored_val pp x GP Hx) in Vc. set (c := export_int pp x) in *.
  pose proof (m4 pp GP) as MP. pose proof (m_gt1 pq GQ) as MQ1. pose proof (k_pos pp GP) as KP.
  unfold centered. rewrite (Z.mod_small c P) by lia. rewrite Z.gtb_ltb.
  assert (Es : shr P 1 = P / 2) by (unfold shr; rewrite Z.pow_1_r; reflexivity). rewrite Es.
  pose proof (Z.div_mod P 2 ltac:(lia)). pose proof (Z.mod_pos_bound P 2 ltac:(lia)).
  pose proof (Z.mod_pos_bound P Q ltac:(lia)) as Hm.
  destruct (Z.ltb_spec (P / 2) c) as [H1|H1]; destruct (Z.leb_spec (2 * c) P) as [H2|H2]; try lia.
  - assert (Hb : P mod Q <= c).
    { destruct (Z.le_gt_cases Q c); [lia|]. assert (P / Q = 1).
      { symmetry. apply (Z.div_unique P Q 1 (P - Q)); lia. }
      pose proof (Z.div_mod P Q ltac:(lia)). lia. }
    rewrite wrap_small by lia. split; [apply import_crep; [exact GQ|rewrite <- EK; lia]|].
    rewrite import_val by (try exact GQ; rewrite <- EK; lia). apply cong_to_mod; [lia|].
    apply sub_cong; [reflexivity|apply cong_mod].
  - split; [apply import_crep; [exact GQ|rewrite <- EK; lia]|]. apply import_val; [exact GQ|rewrite <- EK; lia].
Qed.

End Switch.
