(** Property theorems C14, C24, C41: random sampling. *)
From Verif Require Import Base FinSum ZLemmas BitsUtil PolySpec Ring Montgomery MontBatch Ntt Poly Prng Sampling SampleSpec
  MontgomeryProofs MontBatchProofs Spec ArithFacts SampleProofs SampleErrProofs TernaryProofs ThmArith ThmPoly.
Local Notation zsum := FinSum.zsum.

(** ** C14 *)

(** What ImportRandom is meant to do with the draws: attempts of fixed draw
    widths, each giving an integer of log_modulus bits; the first one below the
    modulus is the stored result. *)
Inductive sampled (R : prng) (m logm : Z) : pr_st R -> Z -> pr_st R -> Prop :=
| sampled_accept s ds s' : draws R (attempt_widths logm) s ds s' -> attempt_value logm ds < m ->
    sampled R m logm s (attempt_value logm ds) s'
| sampled_reject s ds s1 x s' : draws R (attempt_widths logm) s ds s1 -> m <= attempt_value logm ds ->
    sampled R m logm s1 x s' -> sampled R m logm s x s'.

Lemma import_random_unfold R p f s : good p ->
  import_random R (S f) p s =
  do! ' (ds, s) <- draw R (attempt_widths (p_logm p)) s;
  if p_m p <=? attempt_value (p_logm p) ds then import_random R f p s else Ok (attempt_value (p_logm p) ds, s).
Proof.
  intros G. destruct (log_range p G) as (L1 & L2 & L3). cbn [import_random].
  rewrite gen_spec by (try exact L3; lia).
  destruct (draw R (attempt_widths (p_logm p)) s) as [[ds s1]|c|]; reflexivity.
Qed.

(** Whatever the generator: a result is a reduced element, and results are
    exactly those of the rejection process above. *)
Theorem C14_import_random :
  forall k m p (R : prng) s x s', params_for k m p ->
  ((exists fuel, import_random R fuel p s = Ok (x, s')) <-> sampled R m (p_logm p) s x s') /\
  (sampled R m (p_logm p) s x s' -> reduced p x /\ 0 <= export_int p x < m).
Proof.
  intros k m p R s x s' H. destruct (pf_good _ _ _ H) as (G & _ & <-).
  destruct (log_range p G) as (L1 & L2 & L3). pose proof (m_gt1 p G) as M1.
  assert (K : p_k p <= 128) by (destruct L3 as [->|[->|[->| ->]]]; lia).
  split; [split|].
  - intros [fuel E]. revert s E. induction fuel as [|f IH]; intros s E; [discriminate|].
    rewrite import_random_unfold in E by exact G.
    destruct (draw R (attempt_widths (p_logm p)) s) as [[ds s1]|c|] eqn:D; cbn [bind] in E; try discriminate.
    apply draw_draws in D; [|apply attempt_widths_ok].
    destruct (Z.leb_spec (p_m p) (attempt_value (p_logm p) ds)).
    + eapply sampled_reject; eauto.
    + injection E as <- <-. apply sampled_accept; assumption.
  - induction 1 as [s ds s' D A|s ds s1 x s' D A _ [f IH]].
    + exists 1%nat. rewrite import_random_unfold by exact G. apply draw_draws in D; [|apply attempt_widths_ok].
      rewrite D. cbn [bind]. destruct (Z.leb_spec (p_m p) (attempt_value (p_logm p) ds)); [lia|reflexivity].
    + exists (S f). rewrite import_random_unfold by exact G. apply draw_draws in D; [|apply attempt_widths_ok].
      rewrite D. cbn [bind]. destruct (Z.leb_spec (p_m p) (attempt_value (p_logm p) ds)); [exact IH|lia].
  - intros Hs. assert (C : reduced p x).
    { induction Hs as [s ds s' D A|]; [|assumption].
      apply draw_draws in D; [|apply attempt_widths_ok]. apply draw_length in D.
      pose proof (attempt_range (p_logm p) ds ltac:(lia) D). unfold reduced. lia. }
    split; [exact C|]. rewrite stored_val by (try exact G; apply reduced_stored; exact C).
    apply val_range. exact G.
Qed.

(** Counting: among all equally likely scripts of one attempt, the same number
    gives every element of Z_m, every other script is a rejection, and at least
    half of the scripts are accepted. *)
Definition attempt_gives (p : mparams) (v : Z) (ds : list Z) : bool :=
  match import_random scripted 1 p ds with Ok (x, []) => export_int p x =? v | _ => false end.

Lemma attempt_scripted p ds : good p -> Forall2 (fun w d => 0 <= d < 2 ^ w) (attempt_widths (p_logm p)) ds ->
  import_random scripted 1 p ds =
  if p_m p <=? attempt_value (p_logm p) ds then UB else Ok (attempt_value (p_logm p) ds, []).
Proof.
  intros G D. rewrite import_random_unfold by exact G.
  pose proof (draw_scripted _ (attempt_widths_ok (p_logm p)) ds D []) as E. rewrite app_nil_r in E.
  rewrite E. reflexivity.
Qed.

Theorem C14_uniform :
  forall k m p v, params_for k m p -> 0 <= v < m ->
  count_scripts (attempt_widths (p_logm p)) (attempt_gives p v) =
    2 ^ (total (attempt_widths (p_logm p)) - p_logm p) /\
  2 ^ total (attempt_widths (p_logm p)) <= 2 * (m * count_scripts (attempt_widths (p_logm p)) (attempt_gives p v)) /\
  forall ds, Forall2 (fun w d => 0 <= d < 2 ^ w) (attempt_widths (p_logm p)) ds ->
    (exists x, import_random scripted 1 p ds = Ok (x, [])) \/
    (import_random scripted 1 p ds = UB /\
     forall f rest, import_random scripted (S f) p (ds ++ rest) = import_random scripted f p rest).
Proof.
  intros k m p v H Hv. destruct (pf_good _ _ _ H) as (G & _ & E). subst m.
  destruct (log_range p G) as (L1 & L2 & L3). pose proof (m_gt1 p G) as M1.
  assert (K : p_k p <= 128) by (destruct L3 as [->|[->|[->| ->]]]; lia).
  pose proof (logm_bounds p G) as [LB1 LB2].
  assert (Hv' : 0 <= v < 2 ^ p_k p) by (pose proof (m4 p G); lia).
  set (w := import_int p v). pose proof (import_crep p G v Hv') as Cw. pose proof (import_val p G v Hv') as Vw.
  fold w in Cw, Vw. rewrite Z.mod_small in Vw by lia.
  assert (C : count_scripts (attempt_widths (p_logm p)) (attempt_gives p v) =
    2 ^ (total (attempt_widths (p_logm p)) - p_logm p)).
  { rewrite <- (attempt_uniform (p_logm p) w) by (unfold crep in Cw; lia).
    apply over_ext; [|apply widths_nonneg, attempt_widths_ok].
    intros ds D. f_equal. unfold attempt_gives. rewrite attempt_scripted by assumption.
    assert (DL : length ds = length (attempt_widths (p_logm p))) by (clear -D; induction D; cbn [length]; congruence).
    pose proof (attempt_range (p_logm p) ds ltac:(lia) ltac:(lia)) as AR.
    set (x := attempt_value (p_logm p) ds) in *.
    destruct (Z.leb_spec (p_m p) x).
    - destruct (Z.eqb_spec x w); [unfold crep in Cw; lia|reflexivity].
    - rewrite stored_val by (try exact G; unfold stored; lia).
      destruct (Z.eqb_spec x w) as [->|N]; [apply Z.eqb_eq; exact Vw|]. apply Z.eqb_neq. intros Q. apply N.
      apply (val_inj p G); [unfold crep; lia|exact Cw|lia]. }
  split; [exact C|]. split.
  - rewrite C. pose proof (attempt_total (p_logm p) ltac:(lia)) as T.
    replace (total (attempt_widths (p_logm p))) with ((total (attempt_widths (p_logm p)) - p_logm p) + p_logm p) at 1 by lia.
    rewrite Z.pow_add_r by lia. pose proof (pow2_pos (total (attempt_widths (p_logm p)) - p_logm p) ltac:(lia)).
    assert (2 ^ p_logm p <= 2 * p_m p); [|nia].
    replace (p_logm p) with (Z.succ (p_logm p - 1)) by lia. rewrite Z.pow_succ_r by lia. lia.
  - intros ds D. rewrite attempt_scripted by assumption.
    destruct (Z.leb_spec (p_m p) (attempt_value (p_logm p) ds)) as [L|L]; [right|left; eexists; reflexivity].
    split; [reflexivity|]. intros f rest. rewrite import_random_unfold by exact G.
    rewrite (draw_scripted _ (attempt_widths_ok (p_logm p)) ds D rest). cbn [bind].
    destruct (Z.leb_spec (p_m p) (attempt_value (p_logm p) ds)); [reflexivity|lia].
Qed.

(** A sampled polynomial is a sequence of such samples; a non-positive length is
    rejected. *)
Inductive samples (R : prng) (m logm : Z) : pr_st R -> list Z -> pr_st R -> Prop :=
| samples_nil s : samples R m logm s [] s
| samples_cons s x s1 xs s' : sampled R m logm s x s1 -> samples R m logm s1 xs s' ->
    samples R m logm s (x :: xs) s'.

Lemma import_random_more R p : forall f f' s x s', (f <= f')%nat ->
  import_random R f p s = Ok (x, s') -> import_random R f' p s = Ok (x, s').
Proof.
  induction f as [|f IH]; intros f' s x s' L; [discriminate|]. destruct f' as [|f']; [lia|]. cbn [import_random].
  destruct (generate_random_int R (p_k p) (p_logm p) s) as [[r s1]|c|]; cbn [bind]; try discriminate.
  destruct (p_m p <=? r); [apply IH; lia|auto].
Qed.
Lemma sample_n_more R p f f' : (f <= f')%nat -> forall n s x s',
  sample_n R f n p s = Ok (x, s') -> sample_n R f' n p s = Ok (x, s').
Proof.
  intros L. induction n as [|n IH]; intros s xs s'; [auto|]. cbn [sample_n].
  destruct (import_random R f p s) as [[x s1]|c|] eqn:E1; cbn [bind]; try discriminate.
  rewrite (import_random_more R p f f' s x s1 L E1). cbn [bind].
  destruct (sample_n R f n p s1) as [[ys s2]|c|] eqn:E2; cbn [bind]; try discriminate.
  rewrite (IH _ _ _ E2). cbn [bind]. auto.
Qed.

Theorem C14_polynomial :
  forall k m p (R : prng) n s a s', params_for k m p ->
  ((exists fuel, sample_polynomial R fuel n p s = Ok (a, s')) <->
     1 <= n /\ length a = Z.to_nat n /\ samples R m (p_logm p) s a s') /\
  (n < 1 -> forall fuel, sample_polynomial R fuel n p s = Err InvalidArgument).
Proof.
  intros k m p R n s a s' H. split.
  2:{ intros Hn fuel. unfold sample_polynomial. destruct (Z.ltb_spec n 1); [reflexivity|lia]. }
  assert (Q : forall c s a s', (exists fuel, sample_n R fuel c p s = Ok (a, s')) <->
      length a = c /\ samples R m (p_logm p) s a s').
  { induction c as [|c IH]; intros s0 a0 s0'.
    - cbn [sample_n]. split; [intros [_ [= <- <-]]; split; [reflexivity|constructor]|].
      intros [L Hs]. destruct a0; [|discriminate]. inversion Hs; subst. exists 0%nat. reflexivity.
    - split.
      + intros [fuel E]. cbn [sample_n] in E.
        destruct (import_random R fuel p s0) as [[x s1]|e|] eqn:E1; cbn [bind] in E; try discriminate.
        destruct (sample_n R fuel c p s1) as [[xs s2]|e|] eqn:E2; cbn [bind] in E; try discriminate.
        injection E as <- <-. destruct (proj1 (IH s1 xs s2) (ex_intro _ fuel E2)) as [Lx Hx].
        split; [cbn [length]; lia|]. econstructor; [|exact Hx].
        apply (C14_import_random k m p R s0 x s1 H). exists fuel. exact E1.
      + intros [L Hs]. destruct a0 as [|x xs]; [discriminate|]. inversion Hs as [|? ? s1 ? ? A B]; subst.
        destruct (proj2 (proj1 (C14_import_random k m p R s0 x s1 H)) A) as [f1 E1].
        destruct (proj2 (IH s1 xs s0')) as [f2 E2]; [split; [cbn in L; lia|exact B]|].
        exists (Nat.max f1 f2). cbn [sample_n].
        rewrite (import_random_more R p f1 (Nat.max f1 f2) s0 x s1 ltac:(lia) E1). cbn [bind].
        rewrite (sample_n_more R p f2 (Nat.max f1 f2) ltac:(lia) _ _ _ _ E2). reflexivity. }
  unfold sample_polynomial. destruct (Z.ltb_spec n 1) as [Hn|Hn].
  - split; [intros [f E]; discriminate|lia].
  - split.
    + intros [f E]. destruct (sample_n R f (Z.to_nat n) p s) as [[xs s1]|c|] eqn:E1; cbn [bind] in E; try discriminate.
      destruct xs as [|x xs]; cbn [poly_of bind] in E; [discriminate|]. injection E as <- <-.
      split; [exact Hn|]. apply Q. exists f. exact E1.
    + intros (_ & L & Hs). destruct (proj2 (Q (Z.to_nat n) s a s') (conj L Hs)) as [f E]. exists f. rewrite E.
      cbn [bind]. destruct a; [cbn in L; lia|reflexivity].
Qed.

Example C14_hypotheses :
  params_for 16 97 p97 /\ p_logm p97 = 7 /\ attempt_widths 7 = [8] /\
  sample_polynomial scripted 5 2 p97 [100; 228; 45; 223; 7] = Ok ([45; 95], [7]) /\
  import_random scripted 1 p97 [100] = UB /\
  import_random scripted 1 p97 [45] = Ok (45, []) /\
  prng_ok scripted.
Proof.
  split; [exact p97_for|]. split; [vm_compute; reflexivity|]. split; [reflexivity|].
  split; [vm_compute; reflexivity|]. split; [vm_compute; reflexivity|]. split; [vm_compute; reflexivity|].
  split; intros s; cbn [scripted pr_rand8 pr_rand64]; destruct s as [|x t]; try exact I;
    match goal with |- context [if ?c then _ else _] => destruct c eqn:E; [|exact I] end;
    apply andb_true_iff in E; destruct E as [A B]; apply Z.leb_le in A; apply Z.ltb_lt in B; lia.
Qed.

(** ** C24 *)

Local Opaque sample_error1 error_widths error_diff draw.

Lemma sample_error_1 R p v s : v <= 256 ->
  sample_error R p 1 v s = do! ' (x, s) <- sample_error1 R p v s; Ok ([x], s).
Proof.
  intros Hv. unfold sample_error. destruct (Z.ltb_spec 256 v); [lia|]. cbn [sample_error_n].
  destruct (sample_error1 R p v s) as [[x s1]|c|]; reflexivity.
Qed.

Theorem C24_error_bounded :
  forall k m p (R : prng) n v s xs s', params_for k m p -> prng_ok R -> 0 <= v -> 2 * v <= m ->
  sample_error R p n v s = Ok (xs, s') ->
  v <= 256 /\ length xs = n /\ Forall (reduced p) xs /\
  Forall (fun x => exists e, - (2 * v) <= e <= 2 * v /\ export_int p x = e mod m) xs.
Proof.
  intros k m p R n v s xs s' H HR Hv Hm. destruct (pf_good _ _ _ H) as (G & _ & E). subst m.
  unfold sample_error. destruct (Z.ltb_spec 256 v); [discriminate|]. intros E. split; [lia|].
  revert s xs s' E. induction n as [|n IH]; intros s xs s' E; cbn [sample_error_n] in E.
  - injection E as <- <-. split; [reflexivity|]. split; constructor.
  - destruct (sample_error1 R p v s) as [[x s1]|c|] eqn:E1; cbn [bind] in E; try discriminate.
    destruct (sample_error_n R p v n s1) as [[ys s2]|c|] eqn:E2; cbn [bind] in E; try discriminate.
    injection E as <- <-. destruct (IH s1 ys s2 E2) as (Ly & Ry & Fy).
    destruct (sample_error1_ok R p v s G HR ltac:(lia) Hm) as [(ds & s3 & _ & y & Ey & Cy & Vy & By)|[(c & _ & Ec)|[_ Eu]]];
      [|congruence|congruence].
    rewrite E1 in Ey. injection Ey as <- <-.
    split; [cbn [length]; lia|]. split; [constructor; [exact Cy|exact Ry]|]. constructor; [|exact Fy].
    exists (error_diff (2 * v) ds). split; [exact By|].
    rewrite stored_val by (try exact G; apply reduced_stored; exact Cy). exact Vy.
Qed.

(** The scripts of one coefficient, and the test "the coefficient is d" *)
Definition error_gives (p : mparams) (v d : Z) (ds : list Z) : bool :=
  match sample_error scripted p 1 v ds with Ok ([x], []) => centered (p_m p) (export_int p x) =? d | _ => false end.

Lemma scripted_ok : prng_ok scripted.
Proof. apply C14_hypotheses. Qed.

Lemma error_scripted p v ds : good p -> 0 <= v <= 256 -> 4 * v < p_m p ->
  Forall2 (fun w d => 0 <= d < 2 ^ w) (error_widths 24 (2 * v)) ds ->
  exists x, sample_error scripted p 1 v ds = Ok ([x], []) /\ centered (p_m p) (export_int p x) = error_diff (2 * v) ds.
Proof.
  intros G Hv Hm D. rewrite sample_error_1 by lia.
  pose proof (draw_scripted _ (error_widths_ok 24 (2 * v)) ds D []) as E. rewrite app_nil_r in E.
  destruct (sample_error1_ok scripted p v ds G scripted_ok Hv ltac:(lia)) as [(ds' & s3 & E' & y & Ey & Cy & Vy & By)|[(c & Ec & _)|[Eu _]]];
    [|congruence|congruence].
  rewrite E in E'. injection E' as <- <-. exists y. rewrite Ey. split; [reflexivity|].
  rewrite stored_val by (try exact G; apply reduced_stored; exact Cy). rewrite Vy.
  pose proof (m_gt1 p G). apply centered_eq; [lia|unfold fits; lia|apply cong_mod].
Qed.

Local Transparent sample_error1 error_widths error_diff draw.

Lemma total_widths : forall fuel k, 0 <= k -> need k <= Z.of_nat fuel ->
  total (error_widths fuel k) = unused k + 2 * k.
Proof.
  induction fuel as [|f IH]; intros k Hk Hf; [pose proof (need_ge k Hk); lia|]. cbn [error_widths].
  assert (U : forall j, unused (k - j * 8) = unused k).
  { intros j. unfold unused. replace (k - j * 8) with (k + (- j) * 8) by lia. rewrite Z.mod_add by lia. reflexivity. }
  destruct (Z.leb_spec k 0) as [L|L].
  - replace k with 0 by lia. reflexivity.
  - destruct (Z.leb_spec 64 k) as [L2|L2]; [|destruct (Z.leb_spec 8 k) as [L3|L3]].
    + change (total (64 :: 64 :: error_widths f (k - 64))) with (64 + (64 + total (error_widths f (k - 64)))).
      pose proof (need_64 k L2). rewrite IH by lia. pose proof (U 8) as U8. replace (8 * 8) with 64 in U8 by lia. lia.
    + change (total (8 :: 8 :: error_widths f (k - 8))) with (8 + (8 + total (error_widths f (k - 8)))).
      pose proof (need_8 k ltac:(lia)). rewrite IH by lia. pose proof (U 1) as U8. replace (1 * 8) with 8 in U8 by lia. lia.
    + unfold unused. rewrite Z.mod_small by lia. destruct (Z.eqb_spec k 0); [lia|].
      change (total [8; 8]) with 16. lia.
Qed.

(** The distribution of one coefficient is exactly the centred binomial one:
    out of the equally likely 2^(unused + 4v) scripts, 2^unused * C(4v, 2v+d)
    give the value d. *)
Theorem C24_error_distribution :
  forall k m p v d, params_for k m p -> 0 <= v <= 256 -> 4 * v < m ->
  count_scripts (error_widths 24 (2 * v)) (error_gives p v d) =
    2 ^ unused (2 * v) * binom (Z.to_nat (4 * v)) (2 * v + d) /\
  total (error_widths 24 (2 * v)) = unused (2 * v) + 4 * v.
Proof.
  intros k m p v d H Hv Hm. destruct (pf_good _ _ _ H) as (G & _ & E). subst m. split.
  - unfold count_scripts.
    rewrite (over_ext _ _ (fun ds => (fun z => Z.b2z (z =? d)) (0 + error_diff (2 * v) ds))).
    + rewrite (error_sum (fun z => Z.b2z (z =? d))) by (try lia; apply need_max; lia).
      rewrite pairs_binom. do 2 f_equal; lia.
    + intros ds D. destruct (error_scripted p v ds G Hv Hm D) as (x & Ex & Cx).
      unfold error_gives. rewrite Ex, Cx. reflexivity.
    + apply widths_nonneg, error_widths_ok.
  - rewrite total_widths by (try lia; apply need_max; lia). lia.
Qed.

(** Mean 0 and variance exactly v. *)
Definition error_value (p : mparams) (v : Z) (ds : list Z) : Z :=
  match sample_error scripted p 1 v ds with Ok ([x], []) => centered (p_m p) (export_int p x) | _ => 0 end.

Lemma pairs_moment k : forall c,
  pairs k (fun z => z) c = 4 ^ Z.of_nat k * c /\
  2 * pairs k (fun z => z * z) c = 4 ^ Z.of_nat k * (2 * (c * c) + Z.of_nat k).
Proof.
  induction k as [|k IH]; intros c; [rewrite !pairs_0; change (4 ^ Z.of_nat 0) with 1; change (Z.of_nat 0) with 0; split; ring|].
  rewrite !pairs_S.
  destruct (IH c) as [A1 B1]. destruct (IH (c + 1)) as [A2 B2]. destruct (IH (c - 1)) as [A3 B3].
  replace (Z.of_nat (S k)) with (Z.succ (Z.of_nat k)) by lia. rewrite Z.pow_succ_r by lia. split.
  - rewrite A1, A2, A3. ring.
  - rewrite !Z.mul_add_distr_l. rewrite B2, B3, B1. unfold Z.succ. ring.
Qed.

Theorem C24_error_variance :
  forall k m p v, params_for k m p -> 0 <= v <= 256 -> 4 * v < m ->
  over (error_widths 24 (2 * v)) (error_value p v) = 0 /\
  over (error_widths 24 (2 * v)) (fun ds => error_value p v ds * error_value p v ds) =
    v * 2 ^ total (error_widths 24 (2 * v)).
Proof.
  intros k m p v H Hv Hm. destruct (pf_good _ _ _ H) as (G & _ & E). subst m.
  assert (EV : forall ds, Forall2 (fun w d => 0 <= d < 2 ^ w) (error_widths 24 (2 * v)) ds ->
     error_value p v ds = 0 + error_diff (2 * v) ds).
  { intros ds D. destruct (error_scripted p v ds G Hv Hm D) as (x & Ex & Cx). unfold error_value. rewrite Ex, Cx. lia. }
  destruct (pairs_moment (Z.to_nat (2 * v)) 0) as [M1 M2].
  pose proof (pow2_pos (unused (2 * v)) ltac:(unfold unused; pose proof (Z.mod_pos_bound (2 * v) 8 ltac:(lia)); destruct (_ =? 0); lia)) as U.
  split.
  - rewrite (over_ext _ _ (fun ds => (fun z => z) (0 + error_diff (2 * v) ds))) by (try exact EV; apply widths_nonneg, error_widths_ok).
    rewrite (error_sum (fun z => z)) by (try lia; apply need_max; lia). rewrite M1. lia.
  - rewrite (over_ext _ _ (fun ds => (fun z => z * z) (0 + error_diff (2 * v) ds))).
    2:{ intros ds D. rewrite (EV ds D). reflexivity. }
    2:{ apply widths_nonneg, error_widths_ok. }
    rewrite (error_sum (fun z => z * z)) by (try lia; apply need_max; lia).
    rewrite total_widths by (try lia; apply need_max; lia).
    assert (UN : 0 <= unused (2 * v)) by (unfold unused; pose proof (Z.mod_pos_bound (2 * v) 8 ltac:(lia)); destruct (_ =? 0); lia).
    rewrite Z.pow_add_r by lia. rewrite Z2Nat.id in M2 by lia.
    replace (2 ^ (2 * (2 * v))) with (4 ^ (2 * v)) by (rewrite (Z.pow_mul_r 2 2) by lia; reflexivity).
    assert (Q : pairs (Z.to_nat (2 * v)) (fun z => z * z) 0 = 4 ^ (2 * v) * v) by lia. rewrite Q. ring.
Qed.

(** Coefficients are drawn one after the other, and variances above 256 are rejected. *)
Theorem C24_error_sequential :
  forall (R : prng) p n v s,
  (256 < v -> sample_error R p n v s = Err InvalidArgument) /\
  (v <= 256 -> sample_error R p (S n) v s =
     do! ' (xs, s) <- sample_error R p 1 v s; do! ' (ys, s) <- sample_error R p n v s; Ok (xs ++ ys, s)).
Proof.
  intros R p n v s. split; intros H.
  - unfold sample_error. destruct (Z.ltb_spec 256 v); [reflexivity|lia].
  - rewrite sample_error_1 by exact H. unfold sample_error. destruct (Z.ltb_spec 256 v); [lia|]. cbn [sample_error_n].
    destruct (sample_error1 R p v s) as [[x s1]|c|]; cbn [bind]; try reflexivity.
Qed.

(** The documented distribution is not delivered when 2 * variance exceeds the
    modulus: the unsigned coefficient wraps around. Here all 128 subtracted bits
    are ones and no added one is, so the noise should be -128 modulo 97. *)
Theorem C24_small_modulus_refuted :
  ~ (forall k m p v ds, params_for k m p -> 0 <= v <= 256 ->
     Forall2 (fun w d => 0 <= d < 2 ^ w) (error_widths 24 (2 * v)) ds ->
     exists x, sample_error scripted p 1 v ds = Ok ([x], []) /\ export_int p x = error_diff (2 * v) ds mod m).
Proof.
  intros A. destruct (A 16 97 p97 64 [0; 2 ^ 64 - 1; 0; 2 ^ 64 - 1] p97_for ltac:(lia)) as (x & E & V).
  - change (error_widths 24 (2 * 64)) with [64; 64; 64; 64]. repeat (constructor; [lia|]). constructor.
  - assert (B : match sample_error scripted p97 1 64 [0; 2 ^ 64 - 1; 0; 2 ^ 64 - 1] with
               | Ok ([y], _) => export_int p97 y =? error_diff (2 * 64) [0; 2 ^ 64 - 1; 0; 2 ^ 64 - 1] mod 97
               | _ => true end = false) by (vm_compute; reflexivity).
    rewrite E in B. apply Z.eqb_neq in B. exact (B V).
Qed.

Example C24_hypotheses :
  params_for 16 97 p97 /\ 4 * 2 < 97 /\ error_widths 24 (2 * 2) = [8; 8] /\
  error_gives p97 2 (-3) [129; 79] = true /\ binom 8 (4 - 3) = 8 /\
  unused 4 = 8 /\ total (error_widths 24 4) = 16 /\ prng_ok scripted /\
  sample_error scripted p97 2 8 [7; 63; 0; 0; 1; 0; 3; 0] =
    Ok ([import_int p97 94; import_int p97 3], []).
Proof.
  split; [exact p97_for|]. split; [lia|]. split; [reflexivity|]. split; [vm_compute; reflexivity|].
  split; [vm_compute; reflexivity|]. split; [reflexivity|]. split; [reflexivity|]. split; [exact scripted_ok|].
  vm_compute; reflexivity.
Qed.

(** ** C41 *)

Theorem C41_ternary_values :
  forall k m p (R : prng) fuel n s, params_for k m p ->
  (n <= 0 -> sample_ternary R fuel p n s = Err InvalidArgument) /\
  (prng_ok R -> forall xs s', sample_ternary R fuel p n s = Ok (xs, s') ->
    Z.of_nat (length xs) = n /\ Forall (reduced p) xs /\
    Forall (fun x => centered m (export_int p x) = -1 \/ centered m (export_int p x) = 0 \/
                     centered m (export_int p x) = 1) xs).
Proof.
  intros k m p R fuel n s H. destruct (pf_good _ _ _ H) as (G & _ & E). subst m. split.
  - intros Hn. unfold sample_ternary. destruct (Z.leb_spec n 0); [reflexivity|lia].
  - intros HR xs s'. unfold sample_ternary. destruct (Z.leb_spec n 0); [discriminate|]. intros E.
    destruct (ternary_batches_ok R fuel p HR G _ _ _ _ _ (Nat.le_refl _) E) as [L F].
    split; [lia|]. split; (eapply Forall_impl; [|exact F]); intros x [C V]; [exact C|].
    rewrite stored_val by (try exact G; apply reduced_stored; exact C).
    pose proof (m_gt1 p G). pose proof (g_odd p G) as O.
    assert (p_m p <> 2) by (intros Q; rewrite Q in O; discriminate).
    unfold centered. destruct V as [->|[->| ->]]; rewrite Z.mod_small by lia;
      match goal with |- context [?a <=? ?b] => destruct (Z.leb_spec a b) end; lia.
Qed.

(** The test "the sampled vector is ts". *)
Fixpoint same_list (a b : list Z) : bool :=
  match a, b with
  | [], [] => true
  | x :: a, y :: b => (x =? y) && same_list a b
  | _, _ => false
  end.
Lemma same_list_ok a : forall b, same_list a b = true <-> a = b.
Proof.
  induction a as [|x a IH]; intros [|y b]; cbn [same_list]; split; try discriminate; try reflexivity.
  - rewrite andb_true_iff, Z.eqb_eq. intros [-> Q]. f_equal. apply IH, Q.
  - intros [= -> ->]. rewrite Z.eqb_refl. apply IH. reflexivity.
Qed.

Definition ternary_gives (p : mparams) (rounds : nat) (ts : list Z) (ds : list Z) : bool :=
  match sample_ternary scripted rounds p (Z.of_nat (length ts)) ds with
  | Ok (xs, []) => same_list (map (fun x => centered (p_m p) (export_int p x)) xs) ts
  | _ => false
  end.

(** Among all scripts of 2 * rounds bytes, every vector of up to eight values in
    {-1, 0, 1} is produced (after exactly that many rounds) by the same number of
    scripts. *)
Theorem C41_ternary_uniform :
  forall k m p rounds ts ts', params_for k m p -> (1 <= length ts <= 8)%nat -> length ts' = length ts ->
  Forall (fun t => t = -1 \/ t = 0 \/ t = 1) ts -> Forall (fun t => t = -1 \/ t = 0 \/ t = 1) ts' ->
  count_scripts (repeat 8 (2 * rounds)) (ternary_gives p rounds ts) =
  count_scripts (repeat 8 (2 * rounds)) (ternary_gives p rounds ts').
Proof.
  intros k m p N ts ts' H HL HL' Ht Ht'. destruct (pf_good _ _ _ H) as (G & _ & E). subst m.
  assert (Q : forall ts, (1 <= length ts <= 8)%nat -> Forall (fun t => t = -1 \/ t = 0 \/ t = 1) ts ->
    count_scripts (repeat 8 (2 * N)) (ternary_gives p N ts) = ways N (first_missing (length ts))).
  2:{ rewrite !Q by (try assumption; lia). rewrite HL'. reflexivity. }
  clear ts ts' HL HL' Ht Ht'. intros ts HL Ht.
  rewrite <- (batch_count p N (length ts) ts
     (fun xs => same_list (map (fun x => centered (p_m p) (export_int p x)) xs) ts)); try assumption; try lia.
  - unfold count_scripts. apply over_ext; [|apply Forall_forall; intros w Hw; apply repeat_spec in Hw; lia].
    intros ds _. unfold ternary_gives, sample_ternary. destruct (Z.leb_spec (Z.of_nat (length ts)) 0); [lia|].
    rewrite Nat2Z.id. destruct (length ts) as [|n] eqn:En; [lia|]. cbn [ternary_batches].
    replace (Nat.min (S n) 8) with (S n) by lia.
    change (if (S n <? 8)%nat then 2 ^ Z.of_nat (S n) - 1 else 255) with (first_missing (S n)).
    destruct (ternary_loop scripted N (first_missing (S n)) 0 0 ds) as [[[a b] s]|c|]; cbn [bind]; try reflexivity.
    rewrite Nat.sub_diag. replace (ternary_batches scripted N n p 0 s) with (Ok (@nil Z, s)) by (destruct n; reflexivity).
    cbn [bind]. rewrite app_nil_r. destruct s; reflexivity.
  - intros e0 e1 H0 H1. rewrite same_list_ok.
    pose proof (m_gt1 p G) as M1. pose proof (g_odd p G) as O.
    assert (M2 : p_m p <> 2) by (intros Q; rewrite Q in O; discriminate).
    assert (EX : forall i, export_int p (ternary_value p e0 e1 i) = tern p (Z.testbit e0 (Z.of_nat i)) (Z.testbit e1 (Z.of_nat i))).
    { intros i. destruct (ternary_value_ok p e0 e1 i G H0 H1) as [C V].
      rewrite stored_val by (try exact G; apply reduced_stored; exact C). exact V. }
    rewrite map_map. split.
    + intros Q i Hi. rewrite <- Q. rewrite <- EX.
      rewrite nth_indep with (d' := (fun x => centered (p_m p) (export_int p (ternary_value p e0 e1 x))) 0%nat)
        by (rewrite map_length, seq_length; exact Hi).
      rewrite (map_nth (fun x => centered (p_m p) (export_int p (ternary_value p e0 e1 x)))), seq_nth by exact Hi.
      cbn [plus]. rewrite EX. symmetry. pose proof (centered_cong (p_m p) (tern p (Z.testbit e0 (Z.of_nat i)) (Z.testbit e1 (Z.of_nat i)))) as CC.
      rewrite (cong_to_mod (p_m p) _ _ ltac:(lia) CC). apply Z.mod_small. unfold tern. destruct (Z.testbit e0 _), (Z.testbit e1 _); lia.
    + intros Q. apply nth_ext with (d := 0) (d' := 0); [rewrite map_length, seq_length; reflexivity|].
      rewrite map_length, seq_length. intros i Hi.
      rewrite nth_indep with (d' := (fun x => centered (p_m p) (export_int p (ternary_value p e0 e1 x))) 0%nat)
        by (rewrite map_length, seq_length; exact Hi).
      rewrite (map_nth (fun x => centered (p_m p) (export_int p (ternary_value p e0 e1 x)))), seq_nth by exact Hi.
      cbn [plus]. rewrite EX, Q by exact Hi. rewrite Forall_forall in Ht.
      apply centered_eq; [lia| |apply cong_mod].
      unfold fits. destruct (Ht (nth i ts 0) ltac:(apply nth_In; exact Hi)) as [->|[->| ->]]; lia.
Qed.

(** Longer vectors are sampled in independent batches of eight. *)
Theorem C41_ternary_batches :
  forall (R : prng) fuel p n s, 8 < n ->
  sample_ternary R fuel p n s =
  do! ' (xs, s) <- sample_ternary R fuel p 8 s;
  do! ' (ys, s) <- sample_ternary R fuel p (n - 8) s;
  Ok (xs ++ ys, s).
Proof.
  intros R fuel p n s Hn. unfold sample_ternary. destruct (Z.leb_spec n 0); [lia|]. destruct (Z.leb_spec (n - 8) 0); [lia|].
  change (8 <=? 0) with false. cbv iota. replace (Z.to_nat (n - 8)) with (Z.to_nat n - 8)%nat by lia.
  remember (Z.to_nat n) as c. assert (Hc : (8 < c)%nat) by lia. destruct c as [|c]; [lia|].
  change (Z.to_nat 8) with 8%nat.
  assert (E8 : ternary_batches R fuel 8 p 8 s =
     do! ' (e0, e1, s) <- ternary_loop R fuel 255 0 0 s; Ok (map (ternary_value p e0 e1) (seq 0 8), s)).
  { cbn [ternary_batches]. change (Nat.min 8 8) with 8%nat. change (8 - 8)%nat with 0%nat. change (8 <? 8)%nat with false. cbv iota.
    destruct (ternary_loop R fuel 255 0 0 s) as [[[e0 e1] s1]|x|]; try reflexivity. }
  rewrite E8. cbn [ternary_batches]. replace (Nat.min (S c) 8) with 8%nat by lia. change (8 <? 8)%nat with false. cbv iota.
  destruct (ternary_loop R fuel 255 0 0 s) as [[[e0 e1] s1]|x|]; cbn [bind]; try reflexivity.
  rewrite (batches_enough R fuel p c (S c - 8) s1 ltac:(lia) (S c - 8) ltac:(lia)). reflexivity.
Qed.

Example C41_hypotheses :
  params_for 16 97 p97 /\
  ternary_gives p97 1 [1; -1; 0] [251; 2] = true /\ ternary_gives p97 2 [1; 1; -1] [253; 6; 2; 7] = true /\
  sample_ternary scripted 9 p97 10 [255; 129; 1; 2; 2; 2] =
    Ok (map (import_int p97) [96; 1; 1; 1; 1; 1; 1; 96; 1; 1], []) /\
  0 < ways 1 (first_missing 3).
Proof.
  split; [exact p97_for|]. split; [vm_compute; reflexivity|]. split; [vm_compute; reflexivity|].
  split; vm_compute; reflexivity.
Qed.

Print Assumptions C14_import_random.
Print Assumptions C14_uniform.
Print Assumptions C14_polynomial.
Print Assumptions C24_error_bounded.
Print Assumptions C24_error_distribution.
Print Assumptions C24_error_variance.
Print Assumptions C24_error_sequential.
Print Assumptions C24_small_modulus_refuted.
Print Assumptions C41_ternary_values.
Print Assumptions C41_ternary_uniform.
Print Assumptions C41_ternary_batches.
