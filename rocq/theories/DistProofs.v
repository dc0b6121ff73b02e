(** Counting lemmas behind C93. *)
From Coq Require Import Znumtheory Lia Arith.
From Verif Require Import Base FinSum BitsUtil Montgomery MontBatch Ntt Poly Prng Sampling SampleSpec ZLemmas MontgomeryProofs Spec ArithFacts
  PolySpec Ring MontBatchProofs SampleProofs SampleErrProofs ThmArith ThmSample DistSpec.
Local Notation zsum := FinSum.zsum.

(** ** Sums over scripts *)
Lemma over_app a : forall b F, over (a ++ b) F = over a (fun x => over b (fun y => F (x ++ y))).
Proof. induction a as [|w a IH]; intros b F; [reflexivity|]. cbn [app over]. apply zsum_ext. intros d _. rewrite IH. reflexivity. Qed.

Lemma over_mul c ws : forall F, over ws (fun d => c * F d) = c * over ws F.
Proof.
  induction ws as [|w ws IH]; intros F; [reflexivity|]. cbn [over]. rewrite <- zsum_mul_l. apply zsum_ext. intros d _.
  apply (IH (fun ds => F (Z.of_nat d :: ds))).
Qed.
Lemma over_add ws : forall F G, over ws (fun d => F d + G d) = over ws F + over ws G.
Proof.
  induction ws as [|w ws IH]; intros F G; [reflexivity|]. cbn [over]. rewrite <- zsum_add. apply zsum_ext. intros d _.
  apply (IH (fun ds => F (Z.of_nat d :: ds)) (fun ds => G (Z.of_nat d :: ds))).
Qed.
Lemma over_zero ws : over ws (fun _ => 0) = 0.
Proof. induction ws as [|w ws IH]; [reflexivity|]. cbn [over]. rewrite (zsum_ext _ _ (fun _ => 0)); [apply zsum_zero|]. intros; exact IH. Qed.
Lemma over_sum ws n : forall F, over ws (fun d => zsum n (fun i => F i d)) = zsum n (fun i => over ws (F i)).
Proof.
  induction n as [|n IH]; intros F; [apply over_zero|]. cbn [FinSum.zsum]. rewrite (over_add ws (fun d => zsum n (fun i => F i d)) (F n)). rewrite IH. reflexivity.
Qed.
Lemma over_prod a b F G : over a (fun x => over b (fun y => F x * G y)) = over a F * over b G.
Proof.
  assert (E : over a (fun x => over b G * F x) = over b G * over a F) by apply over_mul. rewrite (Z.mul_comm (over a F)), <- E.
  clear E. revert F. induction a as [|w a IH]; intros F; cbn [over].
  - rewrite over_mul. ring.
  - apply zsum_ext. intros d _. apply (IH (fun ds => F (Z.of_nat d :: ds))).
Qed.
Lemma total_nonneg ws : Forall (fun w => 0 <= w) ws -> 0 <= total ws.
Proof. induction 1 as [|w ws Hw _ IH]; [cbn; lia|]. change (total (w :: ws)) with (w + total ws). lia. Qed.
Lemma over_one ws : Forall (fun w => 0 <= w) ws -> over ws (fun _ => 1) = 2 ^ total ws.
Proof.
  induction ws as [|w ws IH]; intros H; [reflexivity|]. inversion H as [|? ? Hw Hs]; subst. cbn [over]. change (total (w :: ws)) with (w + total ws).
  rewrite (zsum_ext _ _ (fun _ => 2 ^ total ws)) by (intros; apply IH; exact Hs). rewrite zsum_const.
  rewrite Z.pow_add_r by (try assumption; apply total_nonneg; exact Hs). rewrite Z2Nat.id by (apply Z.pow_nonneg; lia). ring.
Qed.

(** ** Locality of the replaying generator *)
Notation chunk ws ds := (Forall2 (fun w d => 0 <= d < 2 ^ w) ws ds).

Lemma draws_app ws s ds s' : draws scripted ws s ds s' -> s = ds ++ s' /\ length ds = length ws /\ forall u, draws scripted ws (ds ++ u) ds u.
Proof.
  induction 1 as [s|ws s x s1 ds s' E D (IH1 & IH2 & IH3)|ws s x s1 ds s' E D (IH1 & IH2 & IH3)].
  - split; [reflexivity|]. split; [reflexivity|]. intros u. constructor.
  - cbn [scripted pr_rand8] in E. destruct s as [|y t]; [discriminate E|]. destruct ((0 <=? y) && (y <? 2 ^ 8)) eqn:B; [|discriminate E]. injection E as -> ->.
    split; [cbn [app]; congruence|]. split; [cbn [length]; lia|]. intros u. apply draws_8 with (s1 := ds ++ u); [|apply IH3]. cbn [scripted pr_rand8 app]. rewrite B. reflexivity.
  - cbn [scripted pr_rand64] in E. destruct s as [|y t]; [discriminate E|]. destruct ((0 <=? y) && (y <? 2 ^ 64)) eqn:B; [|discriminate E]. injection E as -> ->.
    split; [cbn [app]; congruence|]. split; [cbn [length]; lia|]. intros u. apply draws_64 with (s1 := ds ++ u); [|apply IH3]. cbn [scripted pr_rand64 app]. rewrite B. reflexivity.
Qed.

Lemma draws_chunk ws : Forall (fun w => w = 8 \/ w = 64) ws -> forall ds rest, chunk ws ds ->
  draws scripted ws (ds ++ rest) ds rest /\ forall ds' s', draws scripted ws (ds ++ rest) ds' s' -> ds' = ds /\ s' = rest.
Proof.
  intros Hw ds rest D. pose proof (draw_scripted ws Hw ds D rest) as E. split; [apply draw_draws; assumption|].
  intros ds' s' D'. apply draw_draws in D'; [|exact Hw]. rewrite E in D'. injection D' as <- <-. auto.
Qed.

Lemma sampled_app m logm s x s' : sampled scripted m logm s x s' -> exists pre, s = pre ++ s' /\ forall u, sampled scripted m logm (pre ++ u) x u.
Proof.
  induction 1 as [s ds s' D A|s ds s1 x s' D A _ (pre & Ep & Hp)].
  - destruct (draws_app _ _ _ _ D) as (E & _ & H). exists ds. split; [exact E|]. intros u. apply sampled_accept; [apply H|exact A].
  - destruct (draws_app _ _ _ _ D) as (E & _ & H). exists (ds ++ pre). split; [rewrite <- app_assoc; congruence|]. intros u. rewrite <- app_assoc.
    eapply sampled_reject; [apply H|exact A|apply Hp].
Qed.
Lemma samples_app m logm s v s' : samples scripted m logm s v s' -> exists pre, s = pre ++ s' /\ forall u, samples scripted m logm (pre ++ u) v u.
Proof.
  induction 1 as [s|s x s1 xs s' A _ (pre & Ep & Hp)].
  - exists []. split; [reflexivity|]. intros u. constructor.
  - destruct (sampled_app _ _ _ _ _ A) as (pa & Ea & Ha). exists (pa ++ pre). split; [rewrite <- app_assoc; congruence|].
    intros u. rewrite <- app_assoc. econstructor; [apply Ha|apply Hp].
Qed.

(** one attempt *)
Lemma samples_step m logm c rest x v s' : chunk (attempt_widths logm) c ->
  samples scripted m logm (c ++ rest) (x :: v) s' <->
  (if m <=? attempt_value logm c then samples scripted m logm rest (x :: v) s' else attempt_value logm c = x /\ samples scripted m logm rest v s').
Proof.
  intros D. destruct (draws_chunk _ (attempt_widths_ok logm) c rest D) as [D1 D2]. destruct (Z.leb_spec m (attempt_value logm c)) as [A|A]; split.
  - intros H. inversion H as [|? ? s1 ? ? H1 H2]; subst. inversion H1 as [? ds ? E B|? ds s2 ? ? E B H3]; subst.
    + destruct (D2 _ _ E) as [-> ->]. lia.
    + destruct (D2 _ _ E) as [-> ->]. econstructor; eassumption.
  - intros H. inversion H as [|? ? s1 ? ? H1 H2]; subst. econstructor; [|exact H2]. eapply sampled_reject; [exact D1|exact A|exact H1].
  - intros H. inversion H as [|? ? s1 ? ? H1 H2]; subst. inversion H1 as [? ds ? E B|? ds s2 ? ? E B H3]; subst.
    + destruct (D2 _ _ E) as [-> ->]. auto.
    + destruct (D2 _ _ E) as [-> ->]. lia.
  - intros [<- H]. econstructor; [|exact H]. apply sampled_accept; assumption.
Qed.

Lemma samples_nil_iff m logm s s' : samples scripted m logm s [] s' <-> s = s'.
Proof. split; [inversion 1; reflexivity|intros ->; constructor]. Qed.

Lemma log126 p : good p -> 0 < p_logm p <= 126.
Proof. intros G. destruct (log_range p G) as (L1 & L2 & [E|[E|[E|E]]]); lia. Qed.

(** enough fuel: one attempt per w words *)
Section Mask.
Variables (k m : Z) (p : mparams).
Hypothesis PF : params_for k m p.
Let G : good p := proj1 (pf_good _ _ _ PF).
Local Notation w := (length (attempt_widths (p_logm p))).

Lemma w_pos : (1 <= w)%nat.
Proof. unfold attempt_widths. destruct (_ <=? 8); [|destruct (_ <=? 64); [|destruct (_ <=? 72)]]; cbn; lia. Qed.

Lemma fuel_one : forall f f' ds x rest, import_random scripted f p ds = Ok (x, rest) -> (length ds <= f' * w)%nat -> import_random scripted f' p ds = Ok (x, rest).
Proof.
  pose proof w_pos as W. induction f as [|f IH]; intros f' ds x rest E H; [discriminate E|].
  rewrite import_random_unfold in E by exact G. destruct (draw scripted (attempt_widths (p_logm p)) ds) as [[c s1]|e|] eqn:D; try discriminate E. cbn [bind] in E.
  pose proof D as D'. apply draw_draws in D'; [|apply attempt_widths_ok]. destruct (draws_app _ _ _ _ D') as (Ed & Lc & _).
  assert (Hl : length ds = (w + length s1)%nat) by (rewrite Ed, app_length; lia).
  destruct f' as [|f']; [cbn in H; lia|]. rewrite import_random_unfold by exact G. rewrite D. cbn [bind].
  destruct (p_m p <=? attempt_value (p_logm p) c); [|exact E]. apply IH; [exact E|]. cbn [Nat.mul] in H. lia.
Qed.

Lemma left_one : forall f ds x rest, import_random scripted f p ds = Ok (x, rest) -> (length rest <= length ds)%nat.
Proof.
  intros f ds x rest E. assert (S : sampled scripted m (p_logm p) ds x rest) by (apply (C14_import_random k m p scripted ds x rest PF); exists f; exact E).
  destruct (sampled_app _ _ _ _ _ S) as (pre & -> & _). rewrite app_length. lia.
Qed.

Lemma fuel_many : forall n f f' ds v rest, sample_n scripted f n p ds = Ok (v, rest) -> (length ds <= f' * w)%nat -> sample_n scripted f' n p ds = Ok (v, rest).
Proof.
  induction n as [|n IH]; intros f f' ds v rest E H; [exact E|]. cbn [sample_n] in *.
  destruct (import_random scripted f p ds) as [[x s1]|e|] eqn:E1; try discriminate E. cbn [bind] in E.
  rewrite (fuel_one f f' ds x s1 E1 H). cbn [bind]. pose proof (left_one _ _ _ _ E1).
  destruct (sample_n scripted f n p s1) as [[ys s2]|e|] eqn:E2; try discriminate E. cbn [bind] in E.
  rewrite (IH f f' s1 ys s2 E2 ltac:(lia)). cbn [bind]. exact E.
Qed.

Lemma local_one : forall f ds x rest u, import_random scripted f p ds = Ok (x, rest) -> import_random scripted f p (ds ++ u) = Ok (x, rest ++ u).
Proof.
  induction f as [|f IH]; intros ds x rest u E; [discriminate E|].
  rewrite import_random_unfold in E by exact G. destruct (draw scripted (attempt_widths (p_logm p)) ds) as [[c s1]|e|] eqn:D; try discriminate E. cbn [bind] in E.
  apply draw_draws in D; [|apply attempt_widths_ok]. destruct (draws_app _ _ _ _ D) as (-> & _ & H). specialize (H (s1 ++ u)). apply draw_draws in H; [|apply attempt_widths_ok].
  rewrite import_random_unfold by exact G. rewrite <- app_assoc, H. cbn [bind].
  destruct (p_m p <=? attempt_value (p_logm p) c); [apply IH; exact E|]. injection E as <- <-. reflexivity.
Qed.
Lemma local_many : forall n f ds v rest u, sample_n scripted f n p ds = Ok (v, rest) -> sample_n scripted f n p (ds ++ u) = Ok (v, rest ++ u).
Proof.
  induction n as [|n IH]; intros f ds v rest u E; cbn [sample_n] in *; [injection E as <- <-; reflexivity|].
  destruct (import_random scripted f p ds) as [[x s1]|e|] eqn:E1; try discriminate E. cbn [bind] in E. rewrite (local_one _ _ _ _ u E1). cbn [bind].
  destruct (sample_n scripted f n p s1) as [[ys s2]|e|] eqn:E2; try discriminate E. cbn [bind] in E. rewrite (IH _ _ _ _ u E2). cbn [bind]. injection E as <- <-. reflexivity.
Qed.
Lemma local_poly f n ds v rest u : sample_polynomial scripted f n p ds = Ok (v, rest) -> sample_polynomial scripted f n p (ds ++ u) = Ok (v, rest ++ u).
Proof.
  unfold sample_polynomial. destruct (n <? 1); [discriminate|]. intros E. destruct (sample_n scripted f (Z.to_nat n) p ds) as [[xs s1]|e|] eqn:E1; try discriminate E. cbn [bind] in E.
  rewrite (local_many _ _ _ _ _ u E1). cbn [bind]. destruct (poly_of xs) as [b| |]; try discriminate E. cbn [bind] in *. injection E as <- <-. reflexivity.
Qed.

(** sampling n >= 1 residues with enough fuel is the rejection process *)
Lemma sample_iff f n ds v rest : (1 <= n)%nat -> (length ds <= f * w)%nat ->
  (sample_polynomial scripted f (Z.of_nat n) p ds = Ok (v, rest) <-> length v = n /\ samples scripted m (p_logm p) ds v rest).
Proof.
  intros Hn H. pose proof (proj1 (C14_polynomial k m p scripted (Z.of_nat n) ds v rest PF)) as I. rewrite Nat2Z.id in I. split.
  - intros E. destruct (proj1 I (ex_intro _ f E)) as (_ & L & S). auto.
  - intros [L S]. destruct (proj2 I) as [f0 E]; [split; [lia|]; auto|]. unfold sample_polynomial in *. rewrite Nat2Z.id in *.
    destruct (Z.ltb_spec (Z.of_nat n) 1); [lia|]. destruct (sample_n scripted f0 n p ds) as [[xs s1]|e|] eqn:E1; try discriminate E. cbn [bind] in E.
    rewrite (fuel_many n f0 f ds xs s1 E1 H). cbn [bind]. exact E.
Qed.

(** the test "the process yields v and uses up everything" *)
Definition yields (f : nat) (v ds : list Z) : bool := match v with [] => match ds with [] => true | _ => false end
  | _ => returned v (sample_polynomial scripted f (Z.of_nat (length v)) p ds) end.

Lemma returned_iff v res : returned v res = true <-> res = Ok (v, []).
Proof.
  unfold returned. destruct res as [[x [|y t]]|e|]; try (split; [discriminate|congruence]). destruct (list_eq_dec Z.eq_dec x v); split; congruence.
Qed.
Lemma yields_iff f v ds : (length ds <= f * w)%nat -> (yields f v ds = true <-> samples scripted m (p_logm p) ds v []).
Proof.
  intros H. destruct v as [|x v].
  - cbn [yields]. rewrite samples_nil_iff. destruct ds; split; congruence.
  - unfold yields. rewrite returned_iff, sample_iff by (cbn [length]; lia). cbn [length]. tauto.
Qed.

Lemma chunk_length ws ds : chunk ws ds -> length ds = length ws.
Proof. induction 1; cbn [length]; congruence. Qed.

Definition rate_reject : Z := over (attempt_widths (p_logm p)) (fun c => Z.b2z (p_m p <=? attempt_value (p_logm p) c)).

Lemma accept_rate x : 0 <= x < m -> over (attempt_widths (p_logm p)) (fun c => Z.b2z (attempt_value (p_logm p) c =? x)) = accept p.
Proof.
  intros Hx. pose proof (proj2 (proj2 (pf_good _ _ _ PF))) as Em. pose proof (log126 p G) as L126. pose proof (logm_bounds p G) as [LB1 LB2]. apply attempt_uniform; lia.
Qed.
Lemma reject_rate : rate_reject = reject p.
Proof.
  pose proof (proj2 (proj2 (pf_good _ _ _ PF))) as Em. pose proof (log126 p G) as L126. pose proof (m_gt1 p G) as M1.
  assert (E : rate_reject + zsum (Z.to_nat m) (fun x => over (attempt_widths (p_logm p)) (fun c => Z.b2z (attempt_value (p_logm p) c =? Z.of_nat x))) = 2 ^ total (attempt_widths (p_logm p))).
  { unfold rate_reject. rewrite <- over_sum, <- over_add. rewrite <- over_one by (apply widths_nonneg, attempt_widths_ok).
    apply over_ext; [|apply widths_nonneg, attempt_widths_ok]. intros c D. pose proof (attempt_range (p_logm p) c ltac:(lia) (chunk_length _ _ D)) as R.
    set (y := attempt_value (p_logm p) c) in *. destruct (Z.leb_spec (p_m p) y) as [A|A]; cbn [Z.b2z].
    - rewrite (zsum_ext _ _ (fun _ => 0)); [rewrite zsum_zero; lia|]. intros i Hi. destruct (Z.eqb_spec y (Z.of_nat i)); [lia|reflexivity].
    - rewrite (zsum_ext _ _ (fun d => Z.b2z (Z.of_nat d =? y))) by (intros; rewrite Z.eqb_sym; reflexivity). rewrite zsum_indicator by lia. reflexivity. }
  rewrite (zsum_ext _ _ (fun _ => accept p)) in E by (intros i Hi; apply accept_rate; lia). rewrite zsum_const in E. rewrite Z2Nat.id in E by lia. unfold reject. rewrite Em. lia.
Qed.

Lemma yields_step f x v c rest : chunk (attempt_widths (p_logm p)) c -> (length (c ++ rest) <= f * w)%nat -> 0 <= x < m ->
  Z.b2z (yields f (x :: v) (c ++ rest)) =
  Z.b2z (p_m p <=? attempt_value (p_logm p) c) * Z.b2z (yields f (x :: v) rest) + Z.b2z (attempt_value (p_logm p) c =? x) * Z.b2z (yields f v rest).
Proof.
  intros D H Hx. pose proof (proj2 (proj2 (pf_good _ _ _ PF))) as Em. assert (H' : (length rest <= f * w)%nat) by (rewrite app_length in H; lia).
  pose proof (yields_iff f (x :: v) (c ++ rest) H) as I1. rewrite (samples_step m (p_logm p) c rest x v [] D) in I1.
  pose proof (yields_iff f (x :: v) rest H') as I2. pose proof (yields_iff f v rest H') as I3. rewrite Em.
  destruct (Z.leb_spec m (attempt_value (p_logm p) c)) as [A|A].
  - destruct (Z.eqb_spec (attempt_value (p_logm p) c) x); [lia|]. assert (I4 : yields f (x :: v) (c ++ rest) = yields f (x :: v) rest) by (apply Bool.eq_iff_eq_true; tauto). rewrite I4. cbn [Z.b2z]. lia.
  - destruct (Z.eqb_spec (attempt_value (p_logm p) c) x) as [Ev|N].
    + assert (I4 : yields f (x :: v) (c ++ rest) = yields f v rest) by (apply Bool.eq_iff_eq_true; tauto). rewrite I4. cbn [Z.b2z]. lia.
    + assert (I4 : yields f (x :: v) (c ++ rest) = false) by (apply Bool.not_true_is_false; tauto). rewrite I4. cbn [Z.b2z]. lia.
Qed.

Definition ways (f r : nat) (v : list Z) : Z := over (attempts p r) (fun ds => Z.b2z (yields f v ds)).

Lemma attempts_ok r : Forall (fun w => w = 8 \/ w = 64) (attempts p r).
Proof. induction r as [|r IH]; [constructor|]. cbn [attempts repeat concat]. apply Forall_app. split; [apply attempt_widths_ok|exact IH]. Qed.
Lemma attempts_length r : length (attempts p r) = (r * w)%nat.
Proof. induction r as [|r IH]; [reflexivity|]. unfold attempts in *. cbn [repeat concat]. rewrite app_length, IH. reflexivity. Qed.

Lemma ways_step f r x v : (S r <= f)%nat -> 0 <= x < m -> ways f (S r) (x :: v) = reject p * ways f r (x :: v) + accept p * ways f r v.
Proof.
  intros Hf Hx. unfold ways at 1. change (attempts p (S r)) with (attempt_widths (p_logm p) ++ attempts p r). rewrite over_app.
  rewrite (over_ext _ _ (fun c => Z.b2z (p_m p <=? attempt_value (p_logm p) c) * ways f r (x :: v) + Z.b2z (attempt_value (p_logm p) c =? x) * ways f r v)).
  - rewrite (over_add _ (fun c => _ * ways f r (x :: v)) (fun c => _ * ways f r v)). rewrite <- reject_rate, <- (accept_rate x Hx).
    rewrite (over_ext _ (fun c => _ * ways f r (x :: v)) (fun c => ways f r (x :: v) * Z.b2z (p_m p <=? attempt_value (p_logm p) c))) by (try (intros; ring); apply widths_nonneg, attempt_widths_ok).
    rewrite (over_ext _ (fun c => _ * ways f r v) (fun c => ways f r v * Z.b2z (attempt_value (p_logm p) c =? x))) by (try (intros; ring); apply widths_nonneg, attempt_widths_ok).
    rewrite !over_mul. unfold rate_reject. ring.
  - intros c D. unfold ways. rewrite <- !over_mul. rewrite <- over_add. apply over_ext; [|apply widths_nonneg, attempts_ok].
    intros rest D'. apply yields_step; [exact D| |exact Hx]. rewrite app_length, (chunk_length _ _ D), (chunk_length _ _ D'), attempts_length.
    change (w + r * w)%nat with (S r * w)%nat. apply Nat.mul_le_mono_r. exact Hf.
  - apply widths_nonneg, attempt_widths_ok.
Qed.

Lemma ways_nil f r : ways f (S r) [] = 0.
Proof.
  unfold ways. change (attempts p (S r)) with (attempt_widths (p_logm p) ++ attempts p r). rewrite over_app. rewrite (over_ext _ _ (fun _ => 0)); [apply over_zero| |apply widths_nonneg, attempt_widths_ok].
  intros c D. apply chunk_length in D. pose proof w_pos. destruct c as [|y c]; [cbn [length] in D; lia|]. apply over_zero.
Qed.

Definition mc (r n : nat) : Z := match r, n with
  | O, O => 1 | O, S _ => 0 | S _, O => 0
  | S r', S n' => binom r' (Z.of_nat n') * accept p ^ Z.of_nat (S n') * reject p ^ Z.of_nat (r' - n') end.

Lemma binom_neg n j : j < 0 -> binom n j = 0.
Proof. revert j. induction n as [|n IH]; intros j H; cbn [binom]; [destruct (Z.eqb_spec j 0); [lia|reflexivity]|]. rewrite !IH by lia. reflexivity. Qed.
Lemma binom_over n j : Z.of_nat n < j -> binom n j = 0.
Proof. revert j. induction n as [|n IH]; intros j H; cbn [binom]; [destruct (Z.eqb_spec j 0); [lia|reflexivity]|]. rewrite !IH by lia. reflexivity. Qed.

Lemma mc_step r n : mc (S r) (S n) = reject p * mc r (S n) + accept p * mc r n.
Proof.
  destruct r as [|r].
  - cbn [mc]. destruct n as [|n]; cbn [mc binom]; [change (Z.of_nat 0) with 0; cbn [Z.eqb]; change (Z.of_nat (0 - 0)) with 0; change (Z.of_nat 1) with 1; rewrite Z.pow_1_r, Z.pow_0_r; ring|].
    destruct (Z.eqb_spec (Z.of_nat (S n)) 0); [lia|ring].
  - destruct n as [|n].
    + cbn [mc binom]. change (Z.of_nat 0) with 0. rewrite (binom_neg r (0 - 1)) by lia. rewrite !Nat.sub_0_r. rewrite (Nat2Z.inj_succ r), (Z.pow_succ_r (reject p)) by lia. ring.
    + cbn [mc binom]. replace (Z.of_nat (S n) - 1) with (Z.of_nat n) by lia. replace (S r - S n)%nat with (r - n)%nat by lia.
      rewrite (Nat2Z.inj_succ (S n)), Z.pow_succ_r by lia.
      destruct (Nat.le_gt_cases (S n) r) as [A|A].
      * replace (Z.of_nat (r - n)) with (Z.succ (Z.of_nat (r - S n))) by lia. rewrite Z.pow_succ_r by lia. ring.
      * rewrite (binom_over r (Z.of_nat (S n))) by lia. ring.
Qed.

Lemma ways_mc f : forall r v, (r <= f)%nat -> Forall (fun x => 0 <= x < m) v -> ways f r v = mc r (length v).
Proof.
  induction r as [|r IH]; intros v Hr Hv.
  - destruct v as [|x v]; [reflexivity|]. unfold ways. cbn [attempts repeat concat over]. cbn [length mc].
    assert (I : yields f (x :: v) [] = false); [|rewrite I; reflexivity]. apply Bool.not_true_is_false. intros E. apply yields_iff in E; [|cbn; lia].
    inversion E as [|? ? s1 ? ? A B]; subst. clear -A.
    assert (Q : forall s, sampled scripted m (p_logm p) s x s1 -> s <> []).
    { intros s S. pose proof w_pos as W. destruct S as [s ds s' D _|s ds s2 y s' D _ _]; destruct (draws_app _ _ _ _ D) as (-> & L & _); destruct ds; cbn in L; try lia; discriminate. }
    exact (Q _ A eq_refl).
  - destruct v as [|x v]; [rewrite ways_nil; reflexivity|]. inversion Hv as [|? ? Hx Hv']; subst. rewrite ways_step by assumption.
    rewrite !IH by (try lia; assumption). cbn [length]. rewrite mc_step. reflexivity.
Qed.

(** the distribution of a uniformly sampled polynomial *)
Lemma mask_distribution f r v : (1 <= r <= f)%nat -> v <> [] -> Forall (fun x => 0 <= x < m) v ->
  over (attempts p r) (fun ds => Z.b2z (returned v (sample_polynomial scripted f (Z.of_nat (length v)) p ds))) = mask_count p (length v) r.
Proof.
  intros Hr Hv Fv. pose proof (ways_mc f r v ltac:(lia) Fv) as W. unfold ways, yields in W. destruct v as [|x v]; [congruence|]. rewrite W. unfold mask_count.
  cbn [length]. destruct r as [|r]; [lia|]. cbn [mc]. replace (S r - 1)%nat with r by lia. replace (Z.of_nat (S (length v)) - 1) with (Z.of_nat (length v)) by lia. reflexivity.
Qed.
End Mask.

(** ** Error vectors *)
Local Opaque sample_error1 error_widths error_diff draw.
Section Err.
Variables (k m : Z) (p : mparams) (v : Z).
Hypothesis PF : params_for k m p.
Hypothesis Hv : 0 <= v <= 256.
Hypothesis Hm : 4 * v < m.
Let G : good p := proj1 (pf_good _ _ _ PF).
Let Em : p_m p = m := proj2 (proj2 (pf_good _ _ _ PF)).
Local Notation w := (length (error_widths 24 (2 * v))).

Lemma one_error c rest : chunk (error_widths 24 (2 * v)) c ->
  exists y, sample_error1 scripted p v (c ++ rest) = Ok (y, rest) /\ reduced p y /\ centered (p_m p) (export_int p y) = error_diff (2 * v) c /\ - (2 * v) <= error_diff (2 * v) c <= 2 * v.
Proof.
  intros D. pose proof (draw_scripted _ (error_widths_ok 24 (2 * v)) c D rest) as E.
  destruct (sample_error1_ok scripted p v (c ++ rest) G scripted_ok Hv ltac:(rewrite Em; lia)) as [(ds & s3 & E' & y & Ey & Cy & Vy & By)|[(e & Ee & _)|[Eu _]]]; [|congruence|congruence].
  rewrite E in E'. injection E' as <- <-. exists y. split; [exact Ey|]. split; [exact Cy|]. split; [|exact By].
  rewrite stored_val by (try exact G; apply reduced_stored; exact Cy). rewrite Vy. pose proof (m_gt1 p G). apply centered_eq; [lia|unfold fits; lia|apply cong_mod].
Qed.

Lemma one_left s y s' : sample_error1 scripted p v s = Ok (y, s') -> length s = (w + length s')%nat.
Proof.
  intros E. destruct (sample_error1_ok scripted p v s G scripted_ok Hv ltac:(rewrite Em; lia)) as [(ds & s3 & E' & y' & Ey & _)|[(e & _ & Ee)|[_ Eu]]]; [|congruence|congruence].
  rewrite E in Ey. injection Ey as <- <-. apply draw_draws in E'; [|apply error_widths_ok]. destruct (draws_app _ _ _ _ E') as (-> & L & _). rewrite app_length. lia.
Qed.
Lemma many_left : forall n s l s', sample_error_n scripted p v n s = Ok (l, s') -> length s = (n * w + length s')%nat.
Proof.
  induction n as [|n IH]; intros s l s' E; cbn [sample_error_n] in E; [injection E as _ <-; reflexivity|].
  destruct (sample_error1 scripted p v s) as [[y s1]|e|] eqn:E1; try discriminate E. cbn [bind] in E.
  destruct (sample_error_n scripted p v n s1) as [[ys s2]|e|] eqn:E2; try discriminate E. cbn [bind] in E. injection E as _ <-.
  rewrite (one_left _ _ _ E1), (IH _ _ _ E2). cbn [Nat.mul]. lia.
Qed.

Lemma errors_ok n : Forall (fun w => w = 8 \/ w = 64) (errors v n).
Proof. induction n as [|n IH]; [constructor|]. unfold errors in *. cbn [repeat concat]. apply Forall_app. split; [apply error_widths_ok|exact IH]. Qed.
Lemma errors_length n : length (errors v n) = (n * w)%nat.
Proof. induction n as [|n IH]; [reflexivity|]. unfold errors in *. cbn [repeat concat]. rewrite app_length, IH. reflexivity. Qed.

Lemma chunk_split a b ds : chunk (a ++ b) ds -> exists c r, ds = c ++ r /\ chunk a c /\ chunk b r.
Proof. intros H. apply Forall2_app_inv_l in H. destruct H as (c & r & A & B & ->). exists c, r. auto. Qed.

(** every script of the right widths gives a vector *)
Lemma many_errors : forall n ds, chunk (errors v n) ds ->
  exists l, sample_error scripted p n v ds = Ok (l, []) /\ length l = n /\ Forall (reduced p) l /\ Forall (fun e => Z.abs e <= 2 * v) (signed p l).
Proof.
  intros n. unfold sample_error. destruct (Z.ltb_spec 256 v); [lia|]. induction n as [|n IH]; intros ds D.
  - apply chunk_length in D. destruct ds; [|discriminate D]. exists []. split; [reflexivity|]. split; [reflexivity|]. split; constructor.
  - change (errors v (S n)) with (error_widths 24 (2 * v) ++ errors v n) in D. destruct (chunk_split _ _ _ D) as (c & r & -> & Dc & Dr).
    destruct (one_error c r Dc) as (y & Ey & Ry & Cy & By). destruct (IH r Dr) as (l & El & Ll & Rl & Fl). exists (y :: l). cbn [sample_error_n].
    rewrite Ey. cbn [bind]. rewrite El. cbn [bind]. split; [reflexivity|]. split; [cbn [length]; congruence|]. split; [constructor; assumption|].
    unfold signed in *. cbn [map]. constructor; [|exact Fl]. rewrite Cy. lia.
Qed.

Lemma error_one d : over (error_widths 24 (2 * v)) (fun c => Z.b2z (error_diff (2 * v) c =? d)) = error_count v d.
Proof.
  pose proof (error_sum (fun z => Z.b2z (z =? d)) 24 (2 * v) 0 ltac:(lia) (need_max v Hv)) as E. rewrite pairs_binom in E. unfold error_count. rewrite total_widths by (try apply need_max; lia). replace (unused (2 * v) + 2 * (2 * v) - 4 * v) with (unused (2 * v)) by lia.
  replace (Z.to_nat (4 * v)) with (2 * Z.to_nat (2 * v))%nat by lia. replace (2 * v + d) with (Z.of_nat (Z.to_nat (2 * v)) + (d - 0)) by lia. rewrite <- E. reflexivity.
Qed.

Lemma error_distribution : forall e,
  over (errors v (length e)) (fun ds => Z.b2z (returned_signed p e (sample_error scripted p (length e) v ds))) = product (map (error_count v) e).
Proof.
  unfold sample_error. destruct (Z.ltb_spec 256 v); [lia|]. induction e as [|d e IH].
  - reflexivity.
  - cbn [length map product fold_right]. change (fold_right Z.mul 1 (map (error_count v) e)) with (product (map (error_count v) e)). rewrite <- IH, <- error_one.
    change (errors v (S (length e))) with (error_widths 24 (2 * v) ++ errors v (length e)). rewrite over_app, <- over_prod.
    apply over_ext; [|apply widths_nonneg, error_widths_ok]. intros c Dc. apply over_ext; [|apply widths_nonneg, errors_ok]. intros r Dr.
    destruct (one_error c r Dc) as (y & Ey & _ & Cy & _). destruct (many_errors (length e) r Dr) as (l & El & _ ). unfold sample_error in El. destruct (Z.ltb_spec 256 v); [lia|].
    cbn [sample_error_n]. rewrite Ey. cbn [bind]. rewrite El. cbn [bind returned_signed]. unfold signed. cbn [map]. rewrite Cy. fold (signed p l).
    destruct (list_eq_dec Z.eq_dec (signed p l) e) as [A|A]; destruct (Z.eqb_spec (error_diff (2 * v) c) d) as [B|B];
      (destruct (list_eq_dec Z.eq_dec (error_diff (2 * v) c :: signed p l) (d :: e)) as [C|C]); cbn [Z.b2z]; try reflexivity; congruence.
Qed.
End Err.
