(** C73: RlweContext. *)
From Coq Require Import Znumtheory.
From Verif Require Import Base FinSum PolySpec Ring ZLemmas Montgomery MontBatch Ntt Poly PolyExt Prng Sampling SampleSpec MontgomeryProofs
  Spec PolyView ArithFacts NttFacts PolyFacts PrimeCheck RnsPoly SymEnc SymSpec SymProofs SymProofs2 SymFacts SymSwitch ThmArith ThmNtt ThmSymEnc Context.

(** what a user has to provide *)
Definition good_params (k : Z) (c : ctx_params) : Prop :=
  cp_modulus c < 2 ^ (k - 2) /\
  1 <= cp_log_n c <= 15 /\ cp_modulus c mod 2 ^ (cp_log_n c + 1) = 1 /\
  (1 <= cp_log_t c /\ 2 ^ (cp_log_t c) <= cp_modulus c) /\ cp_variance c <= 256.

Lemma to_int_small x : 0 <= x < 2 ^ 31 -> to_int x = x.
Proof.
  intros H. unfold to_int. rewrite Z.mod_small by lia. cbv zeta. destruct (Z.ltb_spec x (2 ^ 31)); lia.
Qed.

(** log_t <= log_modulus - 1 is 2^log_t <= modulus *)
Lemma log_t_iff k m p l : params_for k m p -> 0 <= l -> (l <= p_logm p - 1 <-> 2 ^ l <= m).
Proof.
  intros H Hl. destruct (params_consistent _ _ _ H) as (_ & _ & B & _). pose proof (proj1 (proj2 H)) as M1.
  assert (L0 : 0 <= p_logm p - 1).
  { destruct (Z.lt_ge_cases (p_logm p - 1) 0) as [N|N]; [|exact N]. destruct (Z.eq_dec (p_logm p) 0) as [E|E].
    - rewrite E in B. cbn in B. lia.
    - rewrite (Z.pow_neg_r 2 (p_logm p)) in B by lia. lia. }
  split.
  - intros X. eapply Z.le_trans; [|apply B]. apply Z.pow_le_mono_r; lia.
  - intros X. destruct (Z.le_gt_cases l (p_logm p - 1)) as [Y|Y]; [exact Y|].
    assert (2 ^ p_logm p <= 2 ^ l) by (apply Z.pow_le_mono_r; lia). lia.
Qed.

Lemma log_t_word k m p l : params_for k m p -> 0 <= l -> 2 ^ l <= m -> t_word p l = Ok (2 ^ l + 1).
Proof.
  intros H Hl Hm. destruct (pf_good _ _ _ H) as (G & Ek & Em). pose proof (proj1 H) as W.
  assert (MB : m < 2 ^ (k - 2)).
  { destruct H as (_ & M1 & E). unfold params_create in E. destruct (Z.eqb_spec (shr m (k - 2)) 0) as [S|S]; [|discriminate].
    unfold shr in S. apply Z.div_small_iff in S; [|apply Z.pow_nonzero; [lia|]; unfold word_size in W; lia]. lia. }
  assert (Lk : l < k - 2) by (apply (Z.pow_lt_mono_r_iff 2); [lia|unfold word_size in W; lia|lia]).
  unfold t_word. rewrite Ek. destruct (Z.leb_spec (if k =? 16 then 31 else k) l) as [X|X].
  - destruct (Z.eqb_spec k 16); unfold word_size in W; lia.
  - f_equal. assert (P2 : 2 ^ k = 4 * 2 ^ (k - 2)) by (change 4 with (2 ^ 2); rewrite <- Z.pow_add_r by (unfold word_size in W; lia); f_equal; lia).
    assert (0 < 2 ^ l) by (apply Z.pow_pos_nonneg; lia).
    unfold wrap. rewrite (Z.mod_small (2 ^ l)) by lia. rewrite Z.mod_small by lia. reflexivity.
Qed.

(** For a prime modulus and parameters below 2^31, Create succeeds exactly when
    the documented conditions hold, and is InvalidArgument otherwise; the getters
    of a created context return the documented values. *)
Theorem C73_create :
  forall k c, word_size k -> prime (cp_modulus c) -> cp_modulus c < 2 ^ k ->
  0 <= cp_log_n c < 2 ^ 31 -> 0 <= cp_log_t c < 2 ^ 31 -> 0 <= cp_variance c < 2 ^ 64 ->
  (good_params k c -> exists x, rlwe_ctx_create k c = Ok x) /\
  (~ good_params k c -> rlwe_ctx_create k c = Err InvalidArgument) /\
  (forall x, rlwe_ctx_create k c = Ok x ->
     params_for k (cp_modulus c) (cx_p x) /\ ntt_for (cx_p x) (Z.to_nat (cp_log_n c)) (cx_np x) /\ cx_params x = c /\
     get_n x = Ok (2 ^ Z.to_nat (cp_log_n c))%nat /\ np_n (cx_np x) = (2 ^ Z.to_nat (cp_log_n c))%nat /\
     get_t x = Ok (2 ^ cp_log_t c + 1) /\ cx_err_t x = 2 ^ cp_log_t c + 1).
Proof.
  intros k c W PR Hm HN HT HV. set (m := cp_modulus c) in *. pose proof (prime_ge_2 _ PR) as M2.
  assert (KEY : (good_params k c /\ exists p np, params_for k m p /\ init_ntt p (cp_log_n c) = Ok np /\
                   rlwe_ctx_create k c = Ok {| cx_p := p; cx_np := np; cx_err_t := 2 ^ cp_log_t c + 1; cx_params := c |}) \/
                (~ good_params k c /\ rlwe_ctx_create k c = Err InvalidArgument)).
  { unfold rlwe_ctx_create. fold m. rewrite !to_int_small by assumption.
    destruct (Z_lt_le_dec m (2 ^ (k - 2))) as [MB|MB].
    2:{ right. split; [intros (G & _); fold m in G; lia|]. unfold params_create. destruct (Z.eqb_spec (shr m (k - 2)) 0) as [S|S]; [|reflexivity].
        unfold shr in S. apply Z.div_small_iff in S; [lia|]. apply Z.pow_nonzero; [lia|]. unfold word_size in W; lia. }
    destruct (Z.eq_dec (m mod 2) 1) as [OD|EV].
    2:{ right. split.
        - intros (_ & L1 & X & _). fold m in X. apply EV. apply (f_equal (fun z => z mod 2)) in X. rewrite <- Zmod_div_mod in X; [exact X|lia|apply Z.pow_pos_nonneg; lia|].
          exists (2 ^ cp_log_n c). rewrite Z.pow_add_r by lia. reflexivity.
        - unfold params_create. destruct (Z.eqb_spec (shr m (k - 2)) 0); [|reflexivity]. cbn [negb].
          destruct (Z.eqb_spec (m mod 2) 0); [reflexivity|]. pose proof (Z.mod_pos_bound m 2). lia. }
    destruct (proj2 (params_create_iff k m W ltac:(lia)) (conj OD MB)) as (p & Ep). rewrite Ep. cbn [bind].
    assert (PF : params_for k m p) by (split; [exact W|split; [lia|exact Ep]]).
    destruct (Z_le_dec 1 (cp_log_n c)) as [L1|L1]; [|right; split; [intros (_ & X & _); lia|]; rewrite (C15_init_rejects k m p _ PF) by lia; reflexivity].
    destruct (Z_le_dec (cp_log_n c) 15) as [L2|L2]; [|right; split; [intros (_ & X & _); lia|]; rewrite (C15_init_rejects k m p _ PF) by lia; reflexivity].
    destruct (Z.eq_dec (m mod 2 ^ (cp_log_n c + 1)) 1) as [MM|MM];
      [|right; split; [intros (_ & _ & X & _); fold m in X; lia|]; rewrite (C15_init_rejects k m p _ PF) by lia; reflexivity].
    destruct (C15_init_succeeds k m p (cp_log_n c) PF PR (conj L1 L2) MM) as (np & En). rewrite En. cbn [bind].
    unfold error_params_create. pose proof (log_t_iff k m p (cp_log_t c) PF ltac:(lia)) as TI.
    destruct (Z.gtb_spec (cp_log_t c) (p_logm p - 1)) as [T1|T1].
    { right. split; [intros (_ & _ & _ & (_ & X) & _); fold m in X; apply TI in X; lia|reflexivity]. }
    destruct (Z.leb_spec (cp_log_t c) 0) as [T2|T2]; [right; split; [intros (_ & _ & _ & (X & _) & _); lia|reflexivity]|].
    unfold max_variance. destruct (Z.gtb_spec (cp_variance c) 256) as [V|V]; [right; split; [intros (_ & _ & _ & _ & X); lia|reflexivity]|].
    assert (TM : 2 ^ cp_log_t c <= m) by (apply TI; lia).
    left. split. { split; [exact MB|]. split; [lia|]. split; [exact MM|]. split; [split; [lia|exact TM]|lia]. }
    exists p, np. split; [exact PF|]. split; [exact En|]. rewrite (log_t_word k m p _ PF) by (lia || exact TM). reflexivity. }
  destruct KEY as [[G (p & np & PF & En & E)]|[NG E]].
  - split; [intros _; eexists; exact E|]. split; [intros X; contradiction|]. intros x Ex. rewrite E in Ex. injection Ex as <-. cbn [cx_p cx_np cx_params cx_err_t].
    destruct G as (_ & L1 & MM & (T1 & T2) & _). fold m in T2. assert (NT : ntt_for p (Z.to_nat (cp_log_n c)) np).
    { destruct (pf_good _ _ _ PF) as (_ & _ & Em). split; [rewrite Em; exact PR|]. rewrite Z2Nat.id by lia. exact En. }
    split; [exact PF|]. split; [exact NT|]. split; [reflexivity|]. split.
    { unfold get_n, shl_int. cbn [cx_params]. destruct (Z.leb_spec 31 (cp_log_n c)); [lia|reflexivity]. }
    split; [exact (proj1 (C15_init_wellformed k m p _ np PF NT))|]. split; [|reflexivity].
    unfold get_t. cbn [cx_p cx_params]. apply (log_t_word k m p _ PF); [lia|exact T2].
  - split; [intros X; contradiction|]. split; [intros _; exact E|]. intros x Ex. rewrite E in Ex. discriminate.
Qed.

(** A key sampled with the values of a context encrypts and decrypts, for every
    plaintext with coefficients below GetT(), as long as the noise fits. *)
Theorem C73_end_to_end :
  forall k c x, word_size k -> prime (cp_modulus c) -> cp_modulus c < 2 ^ k ->
  0 <= cp_log_n c < 2 ^ 31 -> 0 <= cp_log_t c < 2 ^ 31 -> 0 <= cp_variance c < 2 ^ 64 ->
  rlwe_ctx_create k c = Ok x ->
  let t := 2 ^ cp_log_t c + 1 in let v := cp_variance c in let L := Z.to_nat (cp_log_n c) in
  2 * (t * (2 * v) + t - 1) < cp_modulus c ->
  forall (R R' : prng) s key s' fuel pt r y r', prng_ok R -> prng_ok R' ->
  key_sample R L v (cp_log_t c) (cx_p x) (cx_np x) s = Ok (key, s') ->
  ntt_poly (cx_p x) L pt -> (forall i, (i < 2 ^ L)%nat -> 0 <= coeff (cx_p x) (cx_np x) pt i < t) ->
  encrypt R' fuel key pt r = Ok (y, r') ->
  decrypt key y = Ok (tabulate (2 ^ L) (coeff (cx_p x) (cx_np x) pt)).
Proof.
  intros k c x W PR Hm HN HT HV E t v L Hb R R' s key s' fuel pt r y r' HR HR' Es Hp Hc Ex.
  destruct (C73_create k c W PR Hm HN HT HV) as (_ & _ & C). destruct (C x E) as (PF & NT & _).
  apply (C26_sample_encrypt_decrypt k (cp_modulus c) (cx_p x) (cx_np x) L R R' v (cp_log_t c) s key s' fuel pt r y r'); try assumption; unfold v, t in *; lia.
Qed.

(** CanModulusSwitchTo(p) holds exactly when GetT() divides the difference of the
    moduli; then switching key and ciphertexts to a context with a smaller modulus
    keeps the plaintext (noise permitting), and otherwise the key's SwitchModulus
    is refused. *)
Theorem C73_can_switch :
  forall k c x, word_size k -> prime (cp_modulus c) -> cp_modulus c < 2 ^ k ->
  0 <= cp_log_n c < 2 ^ 31 -> 0 <= cp_log_t c < 2 ^ 31 -> 0 <= cp_variance c < 2 ^ 64 ->
  rlwe_ctx_create k c = Ok x ->
  let t := 2 ^ cp_log_t c + 1 in let P := cp_modulus c in let L := Z.to_nat (cp_log_n c) in
  (forall Q, 0 <= Q -> ((t | P - Q) -> can_switch_to x Q = Ok tt) /\ (~ (t | P - Q) -> can_switch_to x Q = Err InvalidArgument)) /\
  (forall Q pq npq key, params_for k Q pq -> ntt_for pq L npq -> Q <= P -> t < Q ->
     enc_key k P L t key -> sk_logt key = cp_log_t c ->
     (can_switch_to x Q = Ok tt ->
      exists key', key_switch_modulus pq npq key = Ok key' /\ enc_key k Q L t key' /\
      forall y f, ct_ok L key y -> carries L key y f ->
        (forall i, (i < 2 ^ L)%nat -> 2 * Q * Z.abs (f i) +
           P * (t + 3) * FinSum.zsum (length (ct_c y)) (fun j => l1 (2 ^ L) (npow (2 ^ L) (signed_secret key) j)) < P * Q) ->
        (do! z <- ct_switch_modulus (sk_np key) (sk_p key') (sk_np key') t y; decrypt key' z) = decrypt key y) /\
     (can_switch_to x Q <> Ok tt -> key_switch_modulus pq npq key = Err InvalidArgument)).
Proof.
  intros k c x W PR Hm HN HT HV E t P L. destruct (C73_create k c W PR Hm HN HT HV) as (_ & _ & C).
  destruct (C x E) as (PF & NT & Ec & _ & _ & Et & _). fold t in Et. assert (T0 : 0 < 2 ^ cp_log_t c) by (apply Z.pow_pos_nonneg; lia).
  assert (CS : forall Q, can_switch_to x Q = if P mod t =? Q mod t then Ok tt else Err InvalidArgument).
  { intros Q. unfold can_switch_to. rewrite Et, Ec. cbn [bind]. destruct (Z.eqb_spec t 0); [unfold t in *; lia|]. fold P. destruct (P mod t =? Q mod t); reflexivity. }
  assert (T1 : 0 < t) by (unfold t; lia). split.
  - intros Q HQ. rewrite CS. split; intros D; destruct (Z.eqb_spec (P mod t) (Q mod t)) as [M|M]; try reflexivity; exfalso.
    + apply M. apply (cong_to_mod t); [exact T1|exact D].
    + apply D. apply Z.mod_divide; [lia|]. rewrite Zminus_mod, M, Z.sub_diag. apply Z.mod_0_l. lia.
  - intros Q pq npq key HP HNT LE Ht EK El. rewrite CS.
    pose proof (C30_key_switch_modulus k P Q L t key pq npq (ek_key _ _ _ _ _ EK) HP HNT LE ltac:(lia)) as K. rewrite El in K. fold t in K.
    destruct (K Ht) as [K1 K2]. split.
    + destruct (Z.eqb_spec (P mod t) (Q mod t)) as [M|M]; [|discriminate]. intros _. destruct (K1 M) as (key' & E' & EK' & Ep & En & SS & _).
      exists key'. split; [exact E'|]. split; [exact EK'|]. intros y f Hy Hf Hb.
      apply (C30_decrypts k P Q L t key key' y f (ek_key _ _ _ _ _ EK) (ek_key _ _ _ _ _ EK') LE ltac:(lia) M); [|exact Hy|exact Hf|exact Hb].
      intros i Hi. rewrite (SS i Hi). pose proof (proj1 (proj2 HP)). exists (- (signed_secret key i / Q)). rewrite Z.mod_eq by lia. ring.
    + destruct (Z.eqb_spec (P mod t) (Q mod t)) as [M|M]; [congruence|]. intros _. apply K2, M.
Qed.

(** ** Fermat primes *)

Local Opaque sample_error.
Lemma sample_key_fermat k q p np L (R : prng) v l s key s' : params_for k q p -> ntt_for p L np -> prng_ok R ->
  0 <= v -> 2 * v <= q -> 0 <= l -> q = 2 ^ l + 1 ->
  key_sample R L v l p np s = Ok (key, s') -> enc_key k q L 0 key /\ sk_p key = p /\ sk_np key = np /\ sk_var key = v.
Proof.
  intros HP HN HR Hv Hvq Hl Ht. destruct (mk_ctx k q p L np HP HN) as (C & Ek & Eq).
  assert (P0 : 0 < 2 ^ l) by (apply Z.pow_pos_nonneg; lia).
  unfold key_sample. destruct (sample_error R p (2 ^ L) v s) as [[e s1]| |] eqn:Ee; try discriminate. cbn [bind].
  destruct (sample_error_bounded R p _ v s e s1 (proj1 C) HR Hv ltac:(lia) Ee) as (Hv2 & Le & Re & Be).
  assert (Se : Forall (stored p) e) by (eapply Forall_impl; [|exact Re]; intros; apply reduced_stored; assumption).
  destruct (convert_coeff p L np C e Le Se) as (a & Ea & Ha & Va). rewrite Ea. cbn [bind].
  rewrite (log_t_word k q p l HP Hl) by lia. cbn [bind]. intros E. injection E as <- <-.
  pose proof (m4 p (proj1 C)) as M4.
  destruct (C03_import_export k q p (2 ^ l + 1) HP ltac:(rewrite <- Ek; lia)) as [T1 T2].
  split; [|split; [reflexivity|split; reflexivity]].
  split; [split|reflexivity|]; cbn [sk_p sk_np sk_key sk_pt sk_t]; try assumption.
  - rewrite T1, Ht. apply Z_mod_same_full.
  - apply reduced_stored. exact T2.
Qed.

(** Create accepts log_t = log_modulus - 1. With a Fermat prime q = 2^l + 1 the
    plaintext modulus is then q itself: keys have plaintext modulus 0 modulo q, so
    fresh ciphertexts carry no noise at all (c0 - a*s is the message exactly) and
    decryption fails for every ciphertext. *)
Theorem C73_fermat_accepted :
  forall k c x, word_size k -> prime (cp_modulus c) -> cp_modulus c < 2 ^ k ->
  0 <= cp_log_n c < 2 ^ 31 -> 0 <= cp_log_t c < 2 ^ 31 -> 0 <= cp_variance c < 2 ^ 64 ->
  rlwe_ctx_create k c = Ok x ->
  let q := cp_modulus c in let v := cp_variance c in let L := Z.to_nat (cp_log_n c) in
  q = 2 ^ cp_log_t c + 1 -> 2 * v <= q ->
  forall (R R' : prng) s key s', prng_ok R -> prng_ok R' -> key_sample R L v (cp_log_t c) (cx_p x) (cx_np x) s = Ok (key, s') ->
  (forall y, ct_ok L key y -> decrypt key y = Err InvalidArgument) /\
  (forall fuel pt r y r', ntt_poly (cx_p x) L pt -> encrypt R' fuel key pt r = Ok (y, r') ->
     ct_ok L key y /\ carries L key y (coeff (cx_p x) (cx_np x) pt)).
Proof.
  intros k c x W PR Hm HN HT HV E q v L Hq Hvq R R' s key s' HR HR' Es.
  destruct (C73_create k c W PR Hm HN HT HV) as (_ & _ & C). destruct (C x E) as (PF & NT & _).
  destruct (sample_key_fermat k q (cx_p x) (cx_np x) L R v (cp_log_t c) s key s' PF NT HR ltac:(apply HV) Hvq ltac:(apply HT) Hq Es) as (EK & Ep & En & Ev).
  split; [intros y Hy; exact (C26_zero_plaintext_modulus k q L key y (ek_key _ _ _ _ _ EK) Hy)|].
  intros fuel pt r y r' Hp Ey.
  pose proof (C26_encrypt k q L 0 key R' fuel pt r y r' EK) as X. rewrite Ep, En, Ev in X.
  destruct (X Hp HR' ltac:(apply HV) Hvq Ey) as (O & _ & _ & _ & e & _ & Ca). split; [exact O|].
  intros i Hi. specialize (Ca i Hi). cbv beta in Ca. replace (coeff (cx_p x) (cx_np x) pt i + 0 * e i) with (coeff (cx_p x) (cx_np x) pt i) in Ca by ring. exact Ca.
Qed.

(** ** Narrowing *)

(** log_n and log_t are size_t but are handed to functions taking int: values
    above 2^32 are accepted when their low bits are, after which GetN and GetT
    shift by the full value, which is undefined behaviour. *)
Theorem C73_narrowing_accepted :
  forall k c x, word_size k -> rlwe_ctx_create k c = Ok x ->
  forall i j, 1 <= i -> 1 <= j ->
  let c' := {| cp_modulus := cp_modulus c; cp_log_n := cp_log_n c + 2 ^ 32 * i; cp_log_t := cp_log_t c + 2 ^ 32 * j; cp_variance := cp_variance c |} in
  0 <= cp_log_n c -> 0 <= cp_log_t c ->
  exists x', rlwe_ctx_create k c' = Ok x' /\ cx_p x' = cx_p x /\ cx_np x' = cx_np x /\ get_n x' = UB /\ get_t x' = UB /\
    forall Q, can_switch_to x' Q = UB.
Proof.
  intros k c x W E i j Hi Hj c' Hn Ht.
  assert (T : forall a b, to_int (a + 2 ^ 32 * b) = to_int a).
  { intros a b. unfold to_int. rewrite (Z.mul_comm (2 ^ 32)), Z_mod_plus_full. reflexivity. }
  unfold rlwe_ctx_create in E |- *. unfold c' at 1 2 3 4. cbn [cp_modulus cp_log_n cp_log_t cp_variance]. rewrite !T.
  destruct (params_create k (cp_modulus c)) as [p| |] eqn:Ep; try discriminate. cbn [bind] in E |- *.
  destruct (init_ntt p (to_int (cp_log_n c))) as [np| |]; try discriminate. cbn [bind] in E |- *.
  destruct (error_params_create p (to_int (cp_log_t c)) (cp_variance c)) as [t| |]; try discriminate. cbn [bind] in E |- *.
  injection E as <-. eexists. split; [reflexivity|]. split; [reflexivity|]. split; [reflexivity|].
  assert (P32 : 2 ^ 32 = 4294967296) by reflexivity.
  assert (GT : t_word p (cp_log_t c + 2 ^ 32 * j) = UB).
  { unfold t_word. assert (Ek : p_k p = k).
    { unfold params_create in Ep. destruct (negb _); [discriminate|]. destruct (_ =? 0); [discriminate|]. injection Ep as <-. reflexivity. }
    rewrite Ek. destruct (Z.leb_spec (if k =? 16 then 31 else k) (cp_log_t c + 2 ^ 32 * j)) as [X|X]; [reflexivity|].
    exfalso. destruct (k =? 16); unfold word_size in W; lia. }
  split; [|split; [exact GT|]].
  - unfold get_n, shl_int, c'. cbn [cx_params cp_log_n]. destruct (Z.leb_spec 31 (cp_log_n c + 2 ^ 32 * i)); [reflexivity|lia].
  - intros Q. unfold can_switch_to, get_t, c'. cbn [cx_params cx_p cp_log_t]. rewrite GT. reflexivity.
Qed.

(** For every value of the size_t arguments: Create looks at the low 32 bits of
    log_n and log_t only, and accepts exactly when those are good. *)
Definition low32 (c : ctx_params) : ctx_params :=
  {| cp_modulus := cp_modulus c; cp_log_n := cp_log_n c mod 2 ^ 32; cp_log_t := cp_log_t c mod 2 ^ 32; cp_variance := cp_variance c |}.
Theorem C73_create_low_bits :
  forall k c, word_size k -> prime (cp_modulus c) -> cp_modulus c < 2 ^ k -> 0 <= cp_variance c < 2 ^ 64 ->
  (good_params k (low32 c) -> exists x, rlwe_ctx_create k c = Ok x /\ cx_params x = c) /\
  (~ good_params k (low32 c) -> rlwe_ctx_create k c = Err InvalidArgument).
Proof.
  intros k c W PR Hm HV. pose proof (prime_ge_2 _ PR) as M2.
  assert (BN : 0 <= cp_log_n c mod 2 ^ 32 < 2 ^ 32) by (apply Z.mod_pos_bound; reflexivity).
  assert (BT : 0 <= cp_log_t c mod 2 ^ 32 < 2 ^ 32) by (apply Z.mod_pos_bound; reflexivity).
  assert (P31 : 2 ^ 31 = 2147483648) by reflexivity. assert (P32 : 2 ^ 32 = 4294967296) by reflexivity.
  assert (GB : good_params k (low32 c) -> cp_log_n c mod 2 ^ 32 < 2 ^ 31 /\ cp_log_t c mod 2 ^ 32 < 2 ^ 31).
  { intros (G1 & G2 & _ & (G3 & G4) & _). cbn [low32 cp_modulus cp_log_n cp_log_t] in *. split; [lia|].
    destruct (Z_lt_le_dec (cp_log_t c mod 2 ^ 32) (2 ^ 31)) as [|X]; [assumption|exfalso].
    assert (2 ^ k <= 2 ^ (cp_log_t c mod 2 ^ 32)) by (apply Z.pow_le_mono_r; [lia|unfold word_size in W; lia]). lia. }
  destruct (Z_lt_le_dec (cp_log_n c mod 2 ^ 32) (2 ^ 31)) as [LN|LN].
  2:{ split; [intros G; apply GB in G; lia|intros _]. unfold rlwe_ctx_create.
      destruct (params_create k (cp_modulus c)) as [p| |] eqn:Ep; cbn [bind].
      - assert (init_ntt p (to_int (cp_log_n c)) = Err InvalidArgument) as ->; [|reflexivity]. unfold init_ntt.
        destruct (Z.leb_spec (to_int (cp_log_n c)) 0) as [|X]; [reflexivity|]. exfalso. unfold to_int in X. cbv zeta in X.
        destruct (Z.ltb_spec (cp_log_n c mod 2 ^ 32) (2 ^ 31)); lia.
      - unfold params_create in Ep. destruct (negb _); [congruence|]. destruct (_ =? 0); congruence.
      - unfold params_create in Ep. destruct (negb _); [discriminate|]. destruct (_ =? 0); discriminate. }
  assert (TN : to_int (cp_log_n c) = cp_log_n c mod 2 ^ 32) by (unfold to_int; cbv zeta; destruct (Z.ltb_spec (cp_log_n c mod 2 ^ 32) (2 ^ 31)); lia).
  destruct (Z_lt_le_dec (cp_log_t c mod 2 ^ 32) (2 ^ 31)) as [LT|LT].
  - assert (TT : to_int (cp_log_t c) = cp_log_t c mod 2 ^ 32) by (unfold to_int; cbv zeta; destruct (Z.ltb_spec (cp_log_t c mod 2 ^ 32) (2 ^ 31)); lia).
    destruct (C73_create k (low32 c) W PR Hm ltac:(cbn [low32 cp_log_n]; lia) ltac:(cbn [low32 cp_log_t]; lia) HV) as (A & B & _).
    unfold rlwe_ctx_create in *. cbn [low32 cp_modulus cp_log_n cp_log_t cp_variance] in A, B. rewrite !to_int_small in A, B by lia. rewrite TN, TT.
    destruct (params_create k (cp_modulus c)) as [p| |]; cbn [bind] in *; [|split; [intros G; destruct (A G) as (x & Ex); discriminate Ex|exact B]..].
    destruct (init_ntt p (cp_log_n c mod 2 ^ 32)) as [np| |]; cbn [bind] in *; [|split; [intros G; destruct (A G) as (x & Ex); discriminate Ex|exact B]..].
    destruct (error_params_create p (cp_log_t c mod 2 ^ 32) (cp_variance c)) as [t| |]; cbn [bind] in *; [|split; [intros G; destruct (A G) as (x & Ex); discriminate Ex|exact B]..].
    split; [intros _; eexists; split; reflexivity|]. intros NG. specialize (B NG). discriminate B.
  - split; [intros G; apply GB in G; lia|intros _].
    set (c1 := {| cp_modulus := cp_modulus c; cp_log_n := cp_log_n c mod 2 ^ 32; cp_log_t := 0; cp_variance := cp_variance c |}).
    destruct (C73_create k c1 W PR Hm ltac:(cbn [c1 cp_log_n]; lia) ltac:(cbn [c1 cp_log_t]; lia) HV) as (_ & B & _).
    specialize (B ltac:(intros (_ & _ & _ & (X & _) & _); cbn [c1 cp_log_t] in X; lia)).
    unfold rlwe_ctx_create in *. unfold c1 in B. cbn [cp_modulus cp_log_n cp_log_t cp_variance] in B. rewrite !to_int_small in B by lia. rewrite TN.
    destruct (params_create k (cp_modulus c)) as [p| |]; cbn [bind] in *; try exact B.
    destruct (init_ntt p (cp_log_n c mod 2 ^ 32)) as [np| |]; cbn [bind] in *; try exact B.
    assert (error_params_create p (to_int (cp_log_t c)) (cp_variance c) = Err InvalidArgument) as ->; [|reflexivity].
    unfold error_params_create. destruct (_ >? _); [reflexivity|]. destruct (Z.leb_spec (to_int (cp_log_t c)) 0) as [|X]; [reflexivity|].
    exfalso. unfold to_int in X. cbv zeta in X. destruct (Z.ltb_spec (cp_log_t c mod 2 ^ 32) (2 ^ 31)); lia.
Qed.

(** ** Examples *)

Definition cp97 := {| cp_modulus := 97; cp_log_n := 3; cp_log_t := 1; cp_variance := 1 |}.
Definition cp17 := {| cp_modulus := 17; cp_log_n := 3; cp_log_t := 4; cp_variance := 1 |}.

(** The contexts for 97 (plaintext modulus 3, degree 8) and for the Fermat prime
    17 (plaintext modulus 17) exist; the latter's keys cannot decrypt what they
    encrypt. From 97 one may switch to 73 but not to 89. *)
Example C73_example :
  (prime 97 /\ prime 17) /\ good_params 16 cp97 /\ good_params 16 cp17 /\
  (exists x, rlwe_ctx_create 16 cp97 = Ok x /\ get_t x = Ok 3 /\ get_n x = Ok 8%nat /\
     can_switch_to x 73 = Ok tt /\ can_switch_to x 89 = Err InvalidArgument) /\
  (exists x, rlwe_ctx_create 16 cp17 = Ok x /\ get_t x = Ok 17 /\
     exists key s', key_sample toy 3 1 4 (cx_p x) (cx_np x) 12345 = Ok (key, s') /\
     exists y r, encrypt toy 100 key (sk_key key) 99 = Ok (y, r) /\ decrypt key y = Err InvalidArgument) /\
  rlwe_ctx_create 16 {| cp_modulus := 97; cp_log_n := 3; cp_log_t := 7; cp_variance := 1 |} = Err InvalidArgument.
Proof.
  assert (P : 2 ^ (16 - 2) = 16384) by reflexivity.
  assert (P97 : prime 97) by (apply (prime_by_trial _ 20%nat); [lia|vm_compute; reflexivity]).
  assert (P17 : prime 17) by (apply (prime_by_trial _ 20%nat); [lia|vm_compute; reflexivity]).
  split; [split; assumption|].
  split. { unfold good_params. cbn [cp97 cp_modulus cp_log_n cp_log_t cp_variance]. rewrite P. split; [lia|]. split; [lia|]. split; [reflexivity|]. split; [split; [lia|vm_compute; discriminate]|lia]. }
  split. { unfold good_params. cbn [cp17 cp_modulus cp_log_n cp_log_t cp_variance]. rewrite P. split; [lia|]. split; [lia|]. split; [reflexivity|]. split; [split; [lia|vm_compute; discriminate]|lia]. }
  split; [|split; [|vm_compute; reflexivity]].
  - destruct (rlwe_ctx_create 16 cp97) as [x| |] eqn:E; [|vm_compute in E; discriminate E|vm_compute in E; discriminate E].
    exists x. split; [reflexivity|]. vm_compute in E. injection E as <-. split; [vm_compute; reflexivity|]. split; [vm_compute; reflexivity|]. split; vm_compute; reflexivity.
  - destruct (rlwe_ctx_create 16 cp17) as [x| |] eqn:E; [|vm_compute in E; discriminate E|vm_compute in E; discriminate E].
    exists x. split; [reflexivity|]. destruct (C73_create 16 cp17) as (_ & _ & C); [unfold word_size; tauto|apply P17|reflexivity|cbn; lia|cbn; lia|cbn; lia|].
    destruct (C x E) as (PF & NT & _ & _ & _ & Et & _). split; [exact Et|].
    assert (S : match key_sample toy 3 1 4 (cx_p x) (cx_np x) 12345 with
                | Ok (key, _) => match encrypt toy 100 key (sk_key key) 99 with Ok (y, _) => match decrypt key y with Err InvalidArgument => true | _ => false end | _ => false end
                | _ => false end = true).
    { clear -E. vm_compute in E. injection E as <-. vm_compute. reflexivity. }
    destruct (key_sample toy 3 1 4 (cx_p x) (cx_np x) 12345) as [[key s']| |]; [|discriminate S|discriminate S]. exists key, s'. split; [reflexivity|].
    destruct (encrypt toy 100 key (sk_key key) 99) as [[y r]| |]; [|discriminate S|discriminate S]. exists y, r. split; [reflexivity|].
    destruct (decrypt key y) as [ |[]| ]; try discriminate S. reflexivity.
Qed.

Print Assumptions C73_create.
Print Assumptions C73_end_to_end.
Print Assumptions C73_can_switch.
Print Assumptions C73_fermat_accepted.
Print Assumptions C73_narrowing_accepted.
(** log_n = 2^32 - 1, the value -1 cast to size_t, is refused; 2^32 + 3 is taken for 3 *)
Example C73_low_bits_example :
  rlwe_ctx_create 16 {| cp_modulus := 97; cp_log_n := 2 ^ 32 - 1; cp_log_t := 1; cp_variance := 1 |} = Err InvalidArgument /\
  rlwe_ctx_create 16 {| cp_modulus := 97; cp_log_n := 3; cp_log_t := 2 ^ 64 - 1; cp_variance := 1 |} = Err InvalidArgument /\
  low32 {| cp_modulus := 97; cp_log_n := 2 ^ 32 + 3; cp_log_t := 2 ^ 32 + 1; cp_variance := 1 |} = cp97.
Proof. split; [vm_compute; reflexivity|]. split; vm_compute; reflexivity. Qed.
Print Assumptions C73_create_low_bits.
Print Assumptions C73_example.
