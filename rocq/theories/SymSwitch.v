(** Modulus switching at the level of ciphertexts, and how keys come about. *)
From Coq Require Import Arith Znumtheory.
From Verif Require Import Base FinSum PolySpec Ring ZLemmas Montgomery MontBatch Ntt Poly PolyExt Prng Sampling SampleSpec MontgomeryProofs
  MontBatchProofs NttIndex NttMath NttProofs Spec PolyView ArithFacts NttFacts PolyProofs PolyFacts PolyExtProofs
  SymEnc SymSpec SymProofs SymProofs2 SymFacts.
Local Notation zsum := FinSum.zsum.

Lemma coeff_range p L np a i : ctx p L np -> ntt_poly p L a -> (i < 2 ^ L)%nat -> 0 <= coeff p np a i < p_m p.
Proof.
  intros C Ha Hi. rewrite (coeff_holds p L np C a _ (poly_holds p L np C a Ha) i Hi).
  apply Z.mod_pos_bound. pose proof (m_gt1 p (proj1 C)). lia.
Qed.

Lemma inverse_coeff p L np a : ctx p L np -> ntt_poly p L a ->
  exists v, inverse_ntt_poly p np a = Ok v /\ length v = (2 ^ L)%nat /\ Forall (stored p) v /\
  forall i, (i < 2 ^ L)%nat -> export_int p (nth i v 0) = coeff p np a i.
Proof.
  intros C Ha. pose proof (inverse_holds p (proj1 C) L np _ (proj2 C) a _ (poly_holds p L np C a Ha)) as E.
  eexists. split; [exact E|]. destruct (import_reps p (proj1 C) L (coeff p np a)) as (Lv & Cv & Vv). cbv zeta in *.
  split; [exact Lv|]. split; [eapply Forall_impl; [|exact Cv]; intros; apply crep_rep; assumption|].
  intros i Hi. unfold coeff at 2. rewrite E. reflexivity.
Qed.

(** converting every coefficient with F and moving to the ring of pq *)
Lemma convert_with pp npp pq npq L (F : Z -> Z) (Fi : Z -> Z) a : ctx pp L npp -> ctx pq L npq -> ntt_poly pp L a ->
  (forall x, stored pp x -> crep pq (F x) /\ MontgomeryProofs.val pq (F x) = Fi (export_int pp x) mod p_m pq) ->
  exists b, (do! v <- inverse_ntt_poly pp npp a; convert_to_ntt pq npq (map F v)) = Ok b /\ ntt_poly pq L b /\
  forall i, (i < 2 ^ L)%nat -> coeff pq npq b i = Fi (coeff pp npp a i) mod p_m pq.
Proof.
  intros CP CQ Ha HF. destruct (inverse_coeff pp L npp a CP Ha) as (v & Ev & Lv & Sv & Vv). rewrite Ev. cbn [bind].
  assert (Sw : Forall (stored pq) (map F v)).
  { apply Forall_forall. intros y Hy. apply in_map_iff in Hy. destruct Hy as (x & <- & Hx). rewrite Forall_forall in Sv.
    apply crep_rep, HF, Sv, Hx. }
  destruct (forward_holds pq (proj1 CQ) L npq _ (proj2 CQ) (map F v) (fun i => Fi (coeff pp npp a i) mod p_m pq)) as (b & Eb & Hb & _).
  - rewrite map_length. exact Lv.
  - exact Sw.
  - intros i Hi. rewrite (nth_indep _ 0 (F 0)) by (rewrite map_length; lia). rewrite map_nth.
    rewrite <- (Vv i Hi). apply cong_eq. apply HF. rewrite Forall_forall in Sv. apply Sv, nth_In. lia.
  - exists b. split; [exact Eb|]. split; [exact (proj1 (of_holds pq L b _ Hb))|].
    intros i Hi. rewrite (coeff_holds pq L npq CQ b _ Hb i Hi). apply Zmod_mod.
Qed.

Section Switching.
Variables (k P Q : Z) (L : nat) (t tp tq : Z) (key key' : skey).
Hypothesis K : key_ok k P L tp key.
Hypothesis K' : key_ok k Q L tq key'.
Hypothesis LE : Q <= P.
Hypothesis Ht : 0 < t <= Q.
Hypothesis HM : P mod t = Q mod t.
Hypothesis HS : forall i, (i < 2 ^ L)%nat -> cong Q (secret key' i) (signed_secret key i).
Local Notation n := (2 ^ L)%nat.
Local Notation sg := (signed_secret key).

Lemma switch_carries x f : ct_ok L key x -> carries L key x f ->
  exists y, ct_switch_modulus (sk_np key) (sk_p key') (sk_np key') t x = Ok y /\ ct_ok L key' y /\ ct_pow y = ct_pow x /\
  length (ct_c y) = length (ct_c x) /\
  exists f', carries L key' y f' /\ forall i, (i < n)%nat -> cong t (f' i) (f i) /\
    2 * Z.abs (P * f' i - Q * f i) <= P * (t + 3) * zsum (length (ct_c x)) (fun j => l1 n (npow n sg j)).
Proof.
  intros [Px Fx] Hf. pose proof (key_ctx _ _ _ _ _ K) as CP. pose proof (key_ctx _ _ _ _ _ K') as CQ.
  pose proof (key_q _ _ _ _ _ K) as EP. pose proof (key_q _ _ _ _ _ K') as EQ.
  assert (EK : p_k (sk_p key) = p_k (sk_p key')) by (rewrite (key_k _ _ _ _ _ K), (key_k _ _ _ _ _ K'); reflexivity).
  assert (LE' : p_m (sk_p key') <= p_m (sk_p key)) by lia.
  set (SI := switch_int (sk_p key) (sk_p key') t).
  assert (SW : exists ds, seqr (map (fun a => do! v <- inverse_ntt_poly (sk_p key) (sk_np key) a;
        convert_to_ntt (sk_p key') (sk_np key') (map (switch1 (sk_p key) (sk_p key') t) v)) (ct_c x)) = Ok ds /\
      length ds = length (ct_c x) /\ Forall (ntt_poly (sk_p key') L) ds /\
      forall i j, (i < length (ct_c x))%nat -> (j < n)%nat -> 
         coeff (sk_p key') (sk_np key') (nth i ds []) j = SI (coeff (sk_p key) (sk_np key) (nth i (ct_c x) []) j) mod Q).
  { clear Hf. induction Fx as [|c cs Hc Fc IH]; cbn [map seqr].
    - exists []. split; [reflexivity|]. split; [reflexivity|]. split; [constructor|]. cbn; lia.
    - destruct (convert_with (sk_p key) (sk_np key) (sk_p key') (sk_np key') L (switch1 (sk_p key) (sk_p key') t) SI c CP CQ Hc) as (b & Eb & Hb & Vb).
      { intros y Hy. apply (switch1_ok _ _ (proj1 CP) (proj1 CQ) EK LE' t y ltac:(lia) Hy). }
      rewrite Eb. cbn [bind]. destruct IH as (ds & Ed & Ld & Fd & Vd). rewrite Ed. cbn [bind].
      exists (b :: ds). split; [reflexivity|]. split; [cbn; congruence|]. split; [constructor; assumption|].
      intros [|i] j Hi Hj; cbn [nth]; [rewrite (Vb j Hj), EQ; reflexivity|]. cbn in Hi. apply Vd; [lia|exact Hj]. }
  destruct SW as (ds & Ed & Ld & Fd & Vd).
  unfold ct_switch_modulus. rewrite Px, EP, EQ, HM, Z.eqb_refl. destruct (Z.eqb_spec t 0) as [T0|T0]; [lia|]. cbn [negb].
  rewrite Ed. cbn [bind]. eexists. split; [reflexivity|]. split; [split; [reflexivity|exact Fd]|]. split; [reflexivity|].
  split; [exact Ld|].
  set (num := length (ct_c x)) in *. set (C := fun i j => coeff (sk_p key) (sk_np key) (nth i (ct_c x) []) j).
  set (D := fun i j => SI (C i j)).
  assert (K1 : forall i, (i < n)%nat -> exists z, phase n sg num C i = f i + P * z).
  { intros i Hi. pose proof (Hf i Hi) as H1. unfold component in H1. rewrite Px, EP in H1. fold num in H1.
    assert (H2 : cong P (phase n sg num C i) (f i)).
    { rewrite <- H1. apply phase_cong; [|intros; reflexivity|exact Hi]. intros j Hj. unfold signed_secret. rewrite EP. apply centered_cong. }
    destruct H2 as [z Hz]. exists z. lia. }
  destruct (choose_list (fun i z => phase n sg num C i = f i + P * z) n K1) as (z & Hz).
  exists (fun i => phase n sg num D i - Q * z i).
  assert (TM : cong t P Q).
  { rewrite (Z.div_mod P t), (Z.div_mod Q t) by lia. rewrite HM. exists (P / t - Q / t). ring. }
  split.
  - intros i Hi. unfold component. cbn [ct_make ct_c ct_p]. rewrite EQ, Ld. fold num.
    transitivity (phase n sg num D i).
    + apply phase_cong; [exact HS| |exact Hi]. intros a b Ha Hb. cbv beta. rewrite (Vd a b Ha Hb). apply cong_mod.
    + exists (z i). ring.
  - intros i Hi. split.
    + cbv beta. transitivity (phase n sg num C i - P * z i).
      * apply sub_cong; [|rewrite TM; reflexivity].
        apply phase_cong; [intros; reflexivity| |exact Hi]. intros a b Ha Hb. apply switch_int_mod. lia.
      * rewrite (Hz i Hi). apply cong_eq. ring.
    + cbv beta. replace (P * (phase n sg num D i - Q * z i) - Q * f i) with (P * phase n sg num D i - Q * phase n sg num C i)
        by (rewrite (Hz i Hi); ring).
      rewrite <- phase_lin.
      assert (B := phase_bound n sg num (fun a b => 2 * (P * D a b - Q * C a b)) (P * (t + 3)) i).
      rewrite <- B; [|pose proof (q_gt1 _ _ _ _ _ K); nia| |exact Hi].
      * apply Z.eq_le_incl. replace (2 * Z.abs (phase n sg num (fun a b => P * D a b - Q * C a b) i)) with
          (Z.abs (2 * phase n sg num (fun a b => P * D a b - Q * C a b) i)) by lia.
        f_equal. pose proof (phase_lin n sg num 2 0 (fun a b => P * D a b - Q * C a b) (fun a b => 0) i) as E.
        rewrite Z.mul_0_l, Z.sub_0_r in E. rewrite <- E. unfold phase. apply zsum_ext. intros a Ha.
        unfold negacyclic. apply zsum_ext. intros b Hb. destruct (b <=? i)%nat; ring.
      * intros a b Ha Hb. pose proof (switch_int_close (sk_p key) (sk_p key') (proj1 CP) t (C a b) ltac:(lia)) as H.
        unfold D. fold SI in H. rewrite EP, EQ in H. lia.
Qed.
End Switching.

(** ** Plaintext moduli and keys *)

Lemma t_word_ok p l : good p -> 0 <= l < p_k p -> t_word p l = Ok (2 ^ l + 1).
Proof.
  intros G Hl. unfold t_word. pose proof (k_pos p G).
  assert (H2 : 2 ^ l <= 2 ^ (p_k p - 1)) by (apply Z.pow_le_mono_r; lia).
  assert (H3 : 2 ^ p_k p = 2 * 2 ^ (p_k p - 1)) by (rewrite <- Z.pow_succ_r by lia; f_equal; lia).
  assert (H4 : 2 ^ 1 <= 2 ^ (p_k p - 1)) by (apply Z.pow_le_mono_r; lia).
  assert (0 < 2 ^ l) by (apply Z.pow_pos_nonneg; lia).
  destruct (Z.leb_spec (if p_k p =? 16 then 31 else p_k p) l) as [Q|Q].
  { destruct (Z.eqb_spec (p_k p) 16); lia. }
  rewrite !wrap_small; [reflexivity| |]; rewrite ?wrap_small; lia.
Qed.

Lemma t_small p l : good p -> 0 <= l -> 2 ^ l + 1 < p_m p -> l < p_k p.
Proof.
  intros G Hl H. pose proof (m4 p G). pose proof (k_pos p G). apply (Z.pow_lt_mono_r_iff 2); lia.
Qed.

Lemma t_export p l : good p -> 0 <= l -> 2 ^ l + 1 < p_m p ->
  crep p (import_int p (2 ^ l + 1)) /\ export_int p (import_int p (2 ^ l + 1)) = 2 ^ l + 1.
Proof.
  intros G Hl H. pose proof (m4 p G). assert (0 < 2 ^ l) by (apply Z.pow_pos_nonneg; lia).
  assert (B : 0 <= 2 ^ l + 1 < 2 ^ p_k p) by lia. split; [apply import_crep; [exact G|exact B]|].
  rewrite (stored_val p _ G (crep_rep p _ (import_crep p G _ B))), (import_val p G _ B). apply Z.mod_small. lia.
Qed.

Local Opaque sample_error.
Lemma sample_key_ok k q p np L (R : prng) v l s key s' : params_for k q p -> ntt_for p L np -> prng_ok R ->
  0 <= v -> 2 * v <= q -> 0 <= l -> 2 ^ l + 1 < q ->
  key_sample R L v l p np s = Ok (key, s') ->
  enc_key k q L (2 ^ l + 1) key /\ sk_p key = p /\ sk_np key = np /\ sk_var key = v /\ sk_logt key = l /\ v <= 256 /\
  forall i, (i < 2 ^ L)%nat -> exists e, - (2 * v) <= e <= 2 * v /\ secret key i = e mod q.
Proof.
  intros HP HN HR Hv Hvq Hl Ht. destruct (mk_ctx k q p L np HP HN) as (C & Ek & Eq). subst q.
  unfold key_sample. destruct (sample_error R p (2 ^ L) v s) as [[e s1]| |] eqn:Ee; try discriminate. cbn [bind].
  destruct (sample_error_bounded R p _ v s e s1 (proj1 C) HR Hv Hvq Ee) as (Hv2 & Le & Re & Be).
  assert (Se : Forall (stored p) e) by (eapply Forall_impl; [|exact Re]; intros; apply reduced_stored; assumption).
  destruct (convert_coeff p L np C e Le Se) as (a & Ea & Ha & Va). rewrite Ea. cbn [bind].
  rewrite (t_word_ok p l (proj1 C) (conj Hl (t_small p l (proj1 C) Hl Ht))). cbn [bind]. intros E. injection E as <- <-.
  destruct (t_export p l (proj1 C) Hl Ht) as [T1 T2].
  split; [split; [split|reflexivity|]|]; cbn [sk_p sk_np sk_key sk_pt sk_t]; try assumption.
  { apply crep_rep, T1. }
  do 5 (split; [reflexivity || assumption|]).
  intros i Hi. rewrite Forall_forall in Be. destruct (Be (nth i e 0)) as (z & Hz & Ez); [apply nth_In; lia|].
  exists z. split; [exact Hz|]. unfold secret. cbn [sk_p sk_np sk_key]. rewrite (Va i Hi), Ez. apply Zmod_mod.
Qed.

Lemma key_switch_ok k P Q L tp key pq npq : key_ok k P L tp key -> params_for k Q pq -> ntt_for pq L npq -> Q <= P ->
  0 <= sk_logt key -> 2 ^ sk_logt key + 1 < Q -> P mod (2 ^ sk_logt key + 1) = Q mod (2 ^ sk_logt key + 1) ->
  exists key', key_switch_modulus pq npq key = Ok key' /\ enc_key k Q L (2 ^ sk_logt key + 1) key' /\
    sk_p key' = pq /\ sk_np key' = npq /\ sk_logt key' = sk_logt key /\ sk_var key' = sk_var key /\
    forall i, (i < 2 ^ L)%nat -> secret key' i = signed_secret key i mod Q.
Proof.
  intros K HP HN LE Hl Ht HM. destruct (mk_ctx k Q pq L npq HP HN) as (CQ & Ek & EQ). pose proof (key_ctx _ _ _ _ _ K) as CP.
  pose proof (key_q _ _ _ _ _ K) as EP. rewrite <- EQ in Ht.
  unfold key_switch_modulus. rewrite (t_word_ok pq _ (proj1 CQ) (conj Hl (t_small pq _ (proj1 CQ) Hl Ht))). cbn [bind].
  assert (0 < 2 ^ sk_logt key) by (apply Z.pow_pos_nonneg; lia). destruct (Z.eqb_spec (2 ^ sk_logt key + 1) 0); [lia|].
  rewrite EP, EQ, HM, Z.eqb_refl. cbn [negb].
  destruct (convert_with (sk_p key) (sk_np key) pq npq L (key_switch1 (sk_p key) pq) (centered P) (sk_key key) CP CQ (ko_key _ _ _ _ _ K)) as (b & Eb & Hb & Vb).
  { intros y Hy. rewrite <- EP. apply (key_switch1_ok _ _ (proj1 CP) (proj1 CQ)); [rewrite (key_k _ _ _ _ _ K); congruence|lia|exact Hy]. }
  destruct (inverse_ntt_poly (sk_p key) (sk_np key) (sk_key key)) as [v| |]; try discriminate. cbn [bind] in Eb |- *.
  rewrite Eb. cbn [bind]. eexists. split; [reflexivity|]. destruct (t_export pq _ (proj1 CQ) Hl Ht) as [T1 T2].
  split; [split; [split|reflexivity|]|]; cbn [sk_p sk_np sk_key sk_pt sk_t]; try assumption.
  { apply crep_rep, T1. }
  do 4 (split; [reflexivity|]). intros i Hi. unfold secret, signed_secret. cbn [sk_p sk_np sk_key].
  rewrite (Vb i Hi), EP, EQ. reflexivity.
Qed.
