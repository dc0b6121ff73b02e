(** Proofs about Expand.v, continued: the expanders, ObliviousExpand,
    ComputeNormalizer, MakeCompressedVector. *)
From Coq Require Import ZArith Lia List Bool.
From Verif Require Import Base BitsUtil FinSum PolySpec Ring Montgomery MontgomeryProofs MontBatch Spec ArithFacts TranscriptionProofs
  ZLemmas Ntt NttMath NttProofs NttFacts Poly PolyProofs PolyView PolyFacts PolyExt SymEnc SymSpec SymProofs SymFacts ThmSymEnc Relin RelinSpec RelinProofs ThmRelin
  Expand ExpandSpec ExpandProofs GenFive.
Import ListNotations.
Open Scope Z_scope.

Section Expand2.
Variables (k q : Z) (L : nat) (t : Z) (key : skey).
Hypothesis K : key_ok k q L t key.
Local Notation p := (sk_p key).
Local Notation np := (sk_np key).
Local Notation n := (2 ^ L)%nat.
Local Notation subst_ok := (subst_ok k L t key).

Lemma np_size : Z.of_nat (np_n np) = 2 ^ Z.of_nat L.
Proof. rewrite (ng_n _ _ _ _ (proj2 (key_ctx k q L t key K))), Nat2Z.inj_pow. reflexivity. Qed.

Lemma generator_subst_ok v B gk i : 0 <= v -> relin_ok L t v key gk -> rk_num gk = 2 -> rk_pow gk = 5 ->
  2 ^ (Z.of_nat L - 1) * relin_noise L v gk <= B -> (i + 2 <= L)%nat ->
  subst_ok (generator_subst np gk) B (Z.of_nat (2 ^ (L - i) + 1)).
Proof.
  intros Hv R Hn P5 HB Hi. pose proof (L_range k q L t key K) as LR.
  assert (Epow : Z.of_nat (2 ^ (L - i) + 1) = 2 ^ (Z.of_nat L - Z.of_nat i) + 1).
  { rewrite Nat2Z.inj_add, Nat2Z.inj_pow, Nat2Z.inj_sub by lia. reflexivity. }
  rewrite Epow. set (e := Z.of_nat L - Z.of_nat i).
  assert (P4 : 4 <= 2 ^ e) by (change 4 with (2 ^ 2); apply Z.pow_le_mono_r; lia).
  assert (PL : 2 ^ e <= 2 ^ Z.of_nat L) by (apply Z.pow_le_mono_r; lia).
  destruct (num_substitutions_ok L e ltac:(lia) ltac:(lia)) as (b & Eb & Hb & Hb2 & _).
  split; [lia|]. split.
  { rewrite Z.odd_add. replace e with (Z.succ (e - 1)) by lia. rewrite Z.pow_succ_r by lia. rewrite Z.odd_mul. reflexivity. }
  intros x f Hx Hc. unfold generator_subst. rewrite np_size, Eb.
  assert (E0 : exists c0, ct_component x 0 = Ok c0).
  { destruct Hx as (_ & Lx & _). destruct (ct_c x) as [|c0 cs] eqn:Ec; [discriminate|]. exists c0.
    unfold ct_component; rewrite Ec; reflexivity. }
  destruct E0 as (c0 & E0). rewrite E0. cbn [bind].
  destruct (generator_iter_ok k q L t key K v gk Hv R Hn P5 (Z.to_nat b) x f Hx Hc) as [HD HV]. split; [exact HD|].
  intros y Ey. destruct (HV y Ey) as (Fy & E & HE & Cy). split; [exact Fy|]. exists E. split.
  - intros l Hl. specialize (HE l Hl). rewrite Z2Nat.id in HE by lia. nia.
  - eapply carries_ext; [|exact Cy]. intros l Hl. cbv beta. unfold cong.
    assert (H : cong q (subst_iter L (Z.to_nat b) f l) (substituted n (Z.to_nat (2 ^ e + 1)) f l)).
    { apply (subst_iter_power k q L t key K); [lia| |exact Hl]. rewrite Z2Nat.id by lia. exact Hb2. }
    rewrite <- (key_q k q L t key K) in H. unfold cong in H. destruct H as (d & Hd).
    exists d. lia.
Qed.

Lemma expander_for_ok v B lv ex : 0 <= v -> expander_for L t v B key lv ex ->
  ex_p ex = p /\ ex_np ex = np /\ (lv <= L)%nat /\
  forall i, (i < lv)%nat -> subst_ok (ex_subst ex) B (Z.of_nat (2 ^ (L - i) + 1)).
Proof.
  intros Hv [(gks & HG & H1 & H2 & E)|(gk & R & Hn & HB & HL & E)].
  - unfold galois_expander in E. destruct (negb _); [discriminate|]. injection E as <-. cbn [ex_p ex_np ex_subst].
    split; [reflexivity|]. split; [reflexivity|]. split; [exact H2|]. intros i Hi.
    apply (galois_subst_ok k q L t key K v B gks i Hv HG); lia.
  - unfold generator_expander in E. destruct (Z.eqb_spec (rk_pow gk) 5) as [E5|]; [|discriminate]. injection E as <-. cbn [ex_p ex_np ex_subst].
    split; [reflexivity|]. split; [reflexivity|]. split; [lia|]. intros i Hi. apply (generator_subst_ok v B gk i); try assumption. lia.
Qed.

Lemma expand_all_ok v B lv ex (f : nat -> nat -> Z) : 0 <= v -> 0 <= B -> expander_for L t v B key lv ex ->
  forall xs i0,
  (forall a x, nth_error xs a = Some x -> fresh_shape L key x /\ carries L key x (f (i0 + a)%nat)) ->
  (k <> 16 -> exists ys, expand_all ex (Z.of_nat lv) xs = Ok ys) /\
  forall ys, expand_all ex (Z.of_nat lv) xs = Ok ys ->
  length ys = (length xs * 2 ^ lv)%nat /\
  forall idx y, nth_error ys idx = Some y -> fresh_shape L key y /\
    exists E, (forall l, (l < n)%nat -> Z.abs (E l) <= (2 ^ Z.of_nat lv - 1) * B) /\
      carries L key y (fun l => 2 ^ Z.of_nat lv * residue_part (2 ^ lv) (idx mod 2 ^ lv) (f (i0 + idx / 2 ^ lv)%nat) l + t * E l).
Proof.
  intros Hv HB HE. destruct (expander_for_ok v B lv ex Hv HE) as (Ep & Enp & HL & HS).
  assert (P2 : (0 < 2 ^ lv)%nat) by apply (n_pos lv).
  induction xs as [|x xs IH]; intros i0 Hxs; cbn [expand_all].
  - split; [eauto|]. intros ys E. injection E as <-. split; [reflexivity|]. intros idx y Hy. destruct idx; discriminate.
  - destruct (Hxs 0%nat x eq_refl) as [Fx Cx]. rewrite Nat.add_0_r in Cx.
    destruct (expand_ciphertext_ok k q L t key K ex B (f i0) x lv Ep Enp HB HL HS Fx Cx) as [XD XV].
    destruct (IH (S i0)) as [ID IV].
    { intros a y Hy. replace (S i0 + a)%nat with (i0 + S a)%nat by lia. apply (Hxs (S a) y Hy). }
    split.
    + intros Hk. destruct (XD Hk) as (e & Ee). rewrite Ee. cbn [bind]. destruct (ID Hk) as (r & Er). rewrite Er. cbn [bind]. eauto.
    + intros ys. destruct (expand_ciphertext ex x (Z.of_nat lv)) as [e| |] eqn:Ee; try discriminate. cbn [bind].
      destruct (expand_all ex (Z.of_nat lv) xs) as [r| |] eqn:Er; try discriminate. cbn [bind]. intros E. injection E as <-.
      destruct (XV e eq_refl) as [L1 H1]. destruct (IV r eq_refl) as [L2 H2].
      split; [rewrite app_length, L1, L2; cbn [length]; lia|]. intros idx y Hy.
      destruct (Nat.lt_ge_cases idx (length e)) as [Hi|Hi].
      * rewrite nth_error_app1 in Hy by exact Hi. rewrite L1 in Hi. rewrite Nat.mod_small, Nat.div_small by exact Hi.
        rewrite Nat.add_0_r. apply (H1 idx y Hy).
      * rewrite nth_error_app2 in Hy by exact Hi. rewrite L1 in Hi, Hy. destruct (H2 _ y Hy) as [Fy HY].
        replace idx with ((idx - 2 ^ lv) + 1 * 2 ^ lv)%nat by lia. rewrite Nat.mod_add, Nat.div_add by lia.
        replace (i0 + ((idx - 2 ^ lv) / 2 ^ lv + 1))%nat with (S i0 + (idx - 2 ^ lv) / 2 ^ lv)%nat by lia.
        split; [exact Fy|exact HY].
Qed.

Lemma shl1_small lv : (lv <= 30)%nat -> shl1 (Z.of_nat lv) = 2 ^ Z.of_nat lv.
Proof.
  intros H. unfold shl1. pose proof (Z.pow_pos_nonneg 2 (Z.of_nat lv) ltac:(lia) ltac:(lia)). apply int32_small.
  split; [lia|apply Z.pow_lt_mono_r; lia].
Qed.

(** the lengths never overflow for a vector that fits in memory: at most 2^31
    output ciphertexts *)
Lemma oblivious_expand_unfold ex xs lv m : (lv <= 30)%nat -> 0 <= m -> Z.of_nat (length xs) * 2 ^ Z.of_nat lv < 2 ^ 31 ->
  Z.of_nat (length xs) <> m -> m <= Z.of_nat (length xs) * 2 ^ Z.of_nat lv ->
  oblivious_expand ex xs (Z.of_nat lv) m =
  do! r <- expand_all ex (Z.of_nat lv) xs;
  if Z.of_nat (length r) >? m then Ok (firstn (Z.to_nat m) r)
  else if Z.of_nat (length r) <? m then Err InvalidArgument else Ok r.
Proof.
  intros Hlv Hm Hs Hne Hle. unfold oblivious_expand. destruct (Z.ltb_spec m 0); [lia|].
  destruct (Z.ltb_spec (Z.of_nat lv) 0); [lia|]. destruct (Z.leb_spec 32 (Z.of_nat lv)); [lia|]. cbn [orb].
  destruct (Z.eqb_spec (Z.of_nat (length xs)) m); [contradiction|].
  rewrite shl1_small by exact Hlv. pose proof (Z.pow_pos_nonneg 2 (Z.of_nat lv) ltac:(lia) ltac:(lia)).
  assert (2 ^ Z.of_nat lv <= 2 ^ 30) by (apply Z.pow_le_mono_r; lia).
  rewrite (wrap_small 64 (2 ^ Z.of_nat lv)) by lia. rewrite wrap_small by nia. rewrite int32_small by nia. rewrite Z.gtb_ltb.
  destruct (Z.ltb_spec (Z.of_nat (length xs) * 2 ^ Z.of_nat lv) m); [lia|]. reflexivity.
Qed.
End Expand2.

(** ** ComputeNormalizer *)

Lemma normalizer_ok k log_t : 0 <= k -> 1 <= log_t <= 63 ->
  exists r, compute_normalizer k log_t = Ok r /\ 0 < r < 2 ^ log_t + 1 /\ (r * 2 ^ k) mod (2 ^ log_t + 1) = 1.
Proof.
  intros Hk Hl. unfold compute_normalizer. destruct (Z.eqb_spec log_t 0); [lia|].
  rewrite Z.rem_mod_nonneg, Z.quot_div_nonneg by lia. set (pw := k / log_t). set (r := k mod log_t).
  assert (Hr : 0 <= r < log_t) by (apply Z.mod_pos_bound; lia). assert (Hpw : 0 <= pw) by (apply Z.div_pos; lia).
  assert (Ek : k = log_t * pw + r) by (apply Z.div_mod; lia).
  destruct (Z.ltb_spec log_t 0); [lia|]. destruct (Z.leb_spec 64 log_t); [lia|].
  destruct (Z.ltb_spec (log_t - r) 0); [lia|]. destruct (Z.leb_spec 64 (log_t - r)); [lia|]. cbn [orb].
  set (T := 2 ^ log_t + 1). assert (HT : T = 2 ^ log_t + 1) by reflexivity. clearbody T. assert (PT : 2 <= 2 ^ log_t) by (change 2 with (2 ^ 1) at 1; apply Z.pow_le_mono_r; lia).
  assert (PT2 : 2 ^ log_t <= 2 ^ 63) by (apply Z.pow_le_mono_r; lia).
  assert (PE : 1 <= 2 ^ (log_t - r) <= 2 ^ log_t).
  { split; [pose proof (Z.pow_pos_nonneg 2 (log_t - r) ltac:(lia) ltac:(lia)); lia|apply Z.pow_le_mono_r; lia]. }
  assert (Epow : cong T (2 ^ (log_t - r) * 2 ^ k) ((-1) ^ (pw + 1))).
  { rewrite <- Z.pow_add_r by lia. replace (log_t - r + k) with (log_t * (pw + 1)) by lia. rewrite Z.pow_mul_r by lia.
    assert (B : cong T (2 ^ log_t) (-1)) by (exists 1; lia).
    rewrite <- (Z2Nat.id (pw + 1)) by lia. generalize (Z.to_nat (pw + 1)). intros c. induction c as [|c IH]; [apply cong_eq; reflexivity|].
    rewrite Nat2Z.inj_succ, !Z.pow_succ_r by lia. rewrite IH, B. apply cong_eq. reflexivity. }
  assert (one : forall z, cong T z 1 -> z mod T = 1).
  { intros z Hz. apply cong_iff in Hz; [|lia]. rewrite Hz. apply Z.mod_small. lia. }
  rewrite Z.rem_mod_nonneg by lia.
  pose proof (Z.div_mod pw 2 ltac:(lia)) as D2. pose proof (Z.mod_pos_bound pw 2 ltac:(lia)) as B2. pose proof (Z.div_pos pw 2 Hpw ltac:(lia)).
  destruct (Z.eqb_spec (pw mod 2) 0) as [E|E].
  - rewrite (wrap_small 64 T) by lia. rewrite wrap_small by lia. eexists; split; [reflexivity|]. split; [lia|].
    apply one. replace ((T - 2 ^ (log_t - r)) * 2 ^ k) with (T * 2 ^ k + - (2 ^ (log_t - r) * 2 ^ k)) by ring. rewrite Epow.
    replace (pw + 1) with (2 * (pw / 2) + 1) by lia. rewrite Z.pow_add_r, Z.pow_mul_r by lia. change ((-1) ^ 2) with 1. rewrite Z.pow_1_l by lia.
    exists (2 ^ k). change ((-1) ^ 1) with (-1). ring.
  - eexists; split; [reflexivity|]. split; [lia|]. apply one. rewrite Epow.
    replace (pw + 1) with (2 * (pw / 2 + 1)) by lia. rewrite Z.pow_mul_r by lia. change ((-1) ^ 2) with 1. rewrite Z.pow_1_l by lia.
    apply cong_eq. reflexivity.
Qed.

(** ** MakeCompressedVector *)

Section Compress.
Variables (p : mparams) (n : nat) (total log_cf : Z).
Hypothesis Hlog : 0 <= log_cf.
Let cf := 2 ^ log_cf.
Hypothesis Hcf : cf <= Z.of_nat n.

Let cf_pos : 0 < cf.
Proof. unfold cf. apply Z.pow_pos_nonneg; lia. Qed.

Lemma compress_loop_ok (N : nat) : total <= Z.of_nat N * cf -> forall indices vecs, length vecs = N -> Forall (fun v => length v = n) vecs ->
  (forall i, In i indices -> 0 <= i < total) ->
  exists vs, compress_loop p total log_cf cf indices vecs = Ok vs /\ length vs = N /\ Forall (fun v => length v = n) vs /\
  forall a l, (a < N)%nat -> nth l (nth a vs []) 0 =
    if (Z.of_nat l <? cf) && existsb (Z.eqb (Z.of_nat a * cf + Z.of_nat l)) indices then import_one p else nth l (nth a vecs []) 0.
Proof.
  intros HN. induction indices as [|i indices IH]; intros vecs Lv Fv Hi; cbn [compress_loop].
  - exists vecs. split; [reflexivity|]. split; [exact Lv|]. split; [exact Fv|]. intros a l _. cbn [existsb]. rewrite andb_false_r. reflexivity.
  - assert (Hi0 : 0 <= i < total) by (apply Hi; left; reflexivity).
    destruct (Z.ltb_spec i 0); [lia|]. rewrite Z.geb_leb. destruct (Z.leb_spec total i); [lia|]. cbn [orb].
    unfold shr. fold cf. pose proof (Z.div_pos i cf ltac:(lia) cf_pos) as Hd. pose proof (Z.mod_pos_bound i cf cf_pos) as Hm.
    pose proof (Z.div_mod i cf ltac:(lia)) as DM.
    assert (HdN : (Z.to_nat (i / cf) < N)%nat).
    { assert (i / cf < Z.of_nat N); [|lia]. apply Z.div_lt_upper_bound; lia. }
    rewrite (get_ok vecs _ []) by lia. cbn [bind].
    assert (Ln : length (nth (Z.to_nat (i / cf)) vecs []) = n).
    { rewrite Forall_forall in Fv. apply Fv, nth_In. lia. }
    destruct (Nat.leb_spec (length (nth (Z.to_nat (i / cf)) vecs [])) (Z.to_nat (i mod cf))); [lia|].
    destruct (IH (upd vecs (Z.to_nat (i / cf)) (upd (nth (Z.to_nat (i / cf)) vecs []) (Z.to_nat (i mod cf)) (import_one p)))) as (vs & E & Lvs & Fvs & V).
    { rewrite upd_length. exact Lv. }
    { apply Forall_upd; [rewrite upd_length; exact Ln|exact Fv]. }
    { intros j Hj. apply Hi. right. exact Hj. }
    exists vs. split; [exact E|]. split; [exact Lvs|]. split; [exact Fvs|]. intros a l Ha. rewrite (V a l Ha). cbn [existsb].
    destruct (Z.ltb_spec (Z.of_nat l) cf) as [Hl|Hl]; cbn [andb].
    + destruct (existsb (Z.eqb (Z.of_nat a * cf + Z.of_nat l)) indices); [rewrite orb_true_r; reflexivity|]. rewrite orb_false_r.
      rewrite nth_upd by lia. destruct (Nat.eqb_spec a (Z.to_nat (i / cf))) as [Ea|Ea].
      * rewrite nth_upd by lia. destruct (Nat.eqb_spec l (Z.to_nat (i mod cf))) as [El|El].
        -- destruct (Z.eqb_spec (Z.of_nat a * cf + Z.of_nat l) i) as [_|N1]; [reflexivity|]. exfalso. apply N1. subst a l.
           rewrite !Z2Nat.id by lia. lia.
        -- destruct (Z.eqb_spec (Z.of_nat a * cf + Z.of_nat l) i) as [N1|_]; [|subst a; reflexivity]. exfalso. apply El.
           rewrite <- N1. rewrite Z.add_comm, Z.mod_add, Z.mod_small by lia. lia.
      * destruct (Z.eqb_spec (Z.of_nat a * cf + Z.of_nat l) i) as [N1|_]; [|reflexivity]. exfalso. apply Ea.
        rewrite <- N1. rewrite Z.add_comm, Z.div_add, Z.div_small by lia. lia.
    + rewrite nth_upd by lia. destruct (Nat.eqb_spec a (Z.to_nat (i / cf))) as [Ea|Ea]; [|reflexivity].
      rewrite nth_upd by lia. destruct (Nat.eqb_spec l (Z.to_nat (i mod cf))) as [El|El]; [lia|]. subst a. reflexivity.
Qed.

Lemma compress_loop_bad (N : nat) : total <= Z.of_nat N * cf -> forall indices vecs, length vecs = N -> Forall (fun v => length v = n) vecs ->
  (exists i, In i indices /\ ~ 0 <= i < total) -> compress_loop p total log_cf cf indices vecs = Err InvalidArgument.
Proof.
  intros HN. induction indices as [|i indices IH]; intros vecs Lv Fv (j & Hin & Hj); [destruct Hin|]. cbn [compress_loop].
  destruct (Z.ltb_spec i 0); [reflexivity|]. rewrite Z.geb_leb. destruct (Z.leb_spec total i); [reflexivity|]. cbn [orb].
  unfold shr. fold cf. pose proof (Z.div_pos i cf ltac:(lia) cf_pos) as Hd. pose proof (Z.mod_pos_bound i cf cf_pos) as Hm.
  assert (HdN : (Z.to_nat (i / cf) < N)%nat).
  { assert (i / cf < Z.of_nat N); [|lia]. apply Z.div_lt_upper_bound; lia. }
  rewrite (get_ok vecs _ []) by lia. cbn [bind].
  assert (Ln : length (nth (Z.to_nat (i / cf)) vecs []) = n).
  { rewrite Forall_forall in Fv. apply Fv, nth_In. lia. }
  destruct (Nat.leb_spec (length (nth (Z.to_nat (i / cf)) vecs [])) (Z.to_nat (i mod cf))); [lia|].
  apply IH; [rewrite upd_length; exact Lv|apply Forall_upd; [rewrite upd_length; exact Ln|exact Fv]|].
  destruct Hin as [<-|Hin]; [lia|]. exists j. split; assumption.
Qed.
End Compress.
