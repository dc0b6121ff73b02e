(** Sums over tapes (C94). *)
From Coq Require Import Znumtheory Lia Arith.
From Verif Require Import Base FinSum BitsUtil Montgomery MontBatch Ntt Poly Prng Sampling SampleSpec ZLemmas MontgomeryProofs Spec ArithFacts
  PolySpec Ring MontBatchProofs SampleProofs SampleErrProofs ThmArith ThmSample RnsPoly RnsSpec RnsCtProofs DistSpec DistProofs TapeSpec.
Local Notation zsum := FinSum.zsum.

Lemma zsum_grid a : forall b f, zsum (b * a) f = zsum b (fun i => zsum a (fun j => f (i * a + j)%nat)).
Proof.
  induction b as [|b IH]; intros f; [reflexivity|]. rewrite zsum_last. replace (S b * a)%nat with (b * a + a)%nat by lia.
  rewrite zsum_split, IH. reflexivity.
Qed.

(** the sum of K over the results of m on all tapes of N bytes *)
Local Opaque error_widths error_count.
Definition ex {A : Type} (N : nat) (m : list Z -> result (A * list Z)) (K : A -> list Z -> Z) : Z :=
  over (repeat 8 N) (fun ds => match m ds with Ok (a, s) => K a s | _ => 0 end).
Definition runs {A : Type} (m : list Z -> result (A * list Z)) (K : A -> list Z -> Z) (ds : list Z) : Z :=
  match m ds with Ok (a, s) => K a s | _ => 0 end.
Lemma over_runs {A : Type} N (m : list Z -> result (A * list Z)) K : over (repeat 8 N) (runs m K) = ex N m K.
Proof. reflexivity. Qed.
Local Notation tapes N := (repeat 8 N).

Lemma tapes_nonneg N : Forall (fun w => 0 <= w) (tapes N).
Proof. apply Forall_forall. intros x H. apply repeat_spec in H. lia. Qed.

Lemma ex_ext {A} N m m' K K' : (forall ds : list Z, m ds = m' ds) -> (forall (a : A) s, K a s = K' a s) -> ex N m K = ex N m' K'.
Proof.
  intros E EK. unfold ex. apply over_ext; [|apply tapes_nonneg]. intros ds _. rewrite E. destruct (m' ds) as [[a s]| |]; try reflexivity. apply EK.
Qed.
Lemma ex_eq {A B} N (m : list Z -> result (A * list Z)) (m' : list Z -> result (B * list Z)) K K' :
  (forall ds, match m ds with Ok (a, s) => K a s | _ => 0 end = match m' ds with Ok (a, s) => K' a s | _ => 0 end) -> ex N m K = ex N m' K'.
Proof. intros E. unfold ex. apply over_ext; [|apply tapes_nonneg]. intros ds _. apply E. Qed.

Lemma take_over j : forall N K, ex N (take_bytes j) K =
  if (j <=? N)%nat then zsum (Z.to_nat (2 ^ (8 * Z.of_nat j))) (fun d => over (tapes (N - j)) (K (Z.of_nat d))) else 0.
Proof.
  induction j as [|j IH]; intros N K.
  - cbn [Nat.leb Nat.sub]. replace (Z.to_nat (2 ^ (8 * Z.of_nat 0))) with 1%nat by reflexivity. rewrite Nat.sub_0_r. unfold ex. cbn [take_bytes].
    rewrite zsum_last. change (zsum 0 _) with 0. rewrite Z.add_0_l. reflexivity.
  - destruct N as [|N]; [reflexivity|]. cbn [Nat.leb Nat.sub]. unfold ex. cbn [repeat over take_bytes].
    rewrite (zsum_ext _ _ (fun b => ex N (take_bytes j) (fun y s => K (Z.of_nat b + 256 * y) s))).
    2:{ intros b Hb. unfold ex. apply over_ext; [|apply tapes_nonneg]. intros ds _. destruct (take_bytes j ds) as [[y r]| |]; try reflexivity. cbn [bind].
        rewrite Z.mod_small by (change (2 ^ 8) with 256 in Hb; lia). reflexivity. }
    rewrite (zsum_ext _ _ (fun b => if (j <=? N)%nat then zsum (Z.to_nat (2 ^ (8 * Z.of_nat j))) (fun d => over (tapes (N - j)) (K (Z.of_nat b + 256 * Z.of_nat d))) else 0)).
    2:{ intros b _. apply IH. }
    destruct (j <=? N)%nat; [|apply zsum_zero].
    replace (2 ^ (8 * Z.of_nat (S j))) with (2 ^ (8 * Z.of_nat j) * 2 ^ 8) by (rewrite <- Z.pow_add_r by lia; f_equal; lia).
    rewrite Z2Nat.inj_mul by (apply Z.pow_nonneg; lia). rewrite zsum_grid, zsum_swap. apply zsum_ext. intros d _. apply zsum_ext. intros b _.
    f_equal. f_equal. rewrite Nat2Z.inj_add, Nat2Z.inj_mul, Z2Nat.id by lia. change (2 ^ 8) with 256. lia.
Qed.

(** ** Drawing words *)
Lemma nbytes_cons w ws : w = 8 \/ w = 64 -> Forall (fun w => w = 8 \/ w = 64) ws -> nbytes (w :: ws) = (Z.to_nat (w / 8) + nbytes ws)%nat.
Proof.
  intros H F. unfold nbytes. change (total (w :: ws)) with (w + total ws).
  assert (T : 0 <= total ws) by (clear - F; induction F as [|x l Hx _ IH]; [cbn; lia|change (total (x :: l)) with (x + total l); lia]).
  assert (0 <= total ws / 8) by (apply Z.div_pos; lia).
  destruct H as [-> | ->]; [replace (8 + total ws) with (total ws + 1 * 8) by lia|replace (64 + total ws) with (total ws + 8 * 8) by lia]; rewrite Z.div_add by lia;
    [change (8 / 8) with 1|change (64 / 8) with 8]; lia.
Qed.

Lemma draw_over ws : Forall (fun w => w = 8 \/ w = 64) ws -> forall N K,
  ex N (draw tape ws) K = if (nbytes ws <=? N)%nat then over ws (fun ds => over (tapes (N - nbytes ws)) (K ds)) else 0.
Proof.
  induction 1 as [|w ws Hw F IH]; intros N K.
  - change (nbytes []) with 0%nat. cbn [Nat.leb over]. rewrite Nat.sub_0_r. reflexivity.
  - rewrite nbytes_cons by assumption. set (j := Z.to_nat (w / 8)).
    assert (Ej : w = 8 * Z.of_nat j) by (unfold j; destruct Hw as [-> | ->]; reflexivity).
    assert (ET : forall s, (if w =? 8 then pr_rand8 tape s else pr_rand64 tape s) = take_bytes j s) by (intros s; unfold j; destruct Hw as [-> | ->]; reflexivity).
    rewrite (ex_eq N (draw tape (w :: ws)) (take_bytes j) K (fun x s => match draw tape ws s with Ok (ds, s') => K (x :: ds) s' | _ => 0 end)).
    2:{ intros ds. cbn [draw]. rewrite ET. destruct (take_bytes j ds) as [[x s]| |]; try reflexivity. cbn [bind].
        destruct (draw tape ws s) as [[xs s']| |]; reflexivity. }
    rewrite take_over. cbn [over]. replace (2 ^ (8 * Z.of_nat j)) with (2 ^ w) by (rewrite Ej at 1; reflexivity). destruct (Nat.leb_spec j N) as [A|A].
    + rewrite (zsum_ext _ _ (fun d => ex (N - j) (draw tape ws) (fun ds s' => K (Z.of_nat d :: ds) s'))) by (intros; reflexivity).
      rewrite (zsum_ext _ _ (fun d => if (nbytes ws <=? N - j)%nat then over ws (fun ds => over (tapes (N - j - nbytes ws)) (K (Z.of_nat d :: ds))) else 0)) by (intros; apply IH).
      destruct (Nat.leb_spec (nbytes ws) (N - j)) as [B|B]; destruct (Nat.leb_spec (j + nbytes ws) N) as [C|C]; try lia; [|apply zsum_zero].
      replace (N - (j + nbytes ws))%nat with (N - j - nbytes ws)%nat by lia. reflexivity.
    + destruct (Nat.leb_spec (j + nbytes ws) N); [lia|reflexivity].
Qed.

(** ** Uniform residues *)
(** the weight of any fixed residue, if the rest of the tape has weight h *)
Fixpoint weight1 (p : mparams) (fuel N : nat) (h : nat -> Z) : Z :=
  match fuel with
  | O => 0
  | S f =>
      let w := nbytes (attempt_widths (p_logm p)) in
      if (w <=? N)%nat then accept p * h (N - w)%nat + reject p * weight1 p f (N - w) h else 0
  end.
Fixpoint weights (p : mparams) (fuel n N : nat) (h : nat -> Z) : Z :=
  match n with
  | O => h N
  | S n' => weight1 p fuel N (fun M => weights p fuel n' M h)
  end.

Lemma over_zero_fun ws : over ws (fun _ => 0) = 0.
Proof. apply over_zero. Qed.

Section One.
Variables (k m : Z) (p : mparams).
Hypothesis PF : params_for k m p.
Let G : good p := proj1 (pf_good _ _ _ PF).

Lemma weight1_ok x H : 0 <= x < m -> forall f N,
  ex N (import_random tape f p) (fun y s => Z.b2z (y =? x) * H s) = weight1 p f N (fun M => over (tapes M) H).
Proof.
  intros Hx. pose proof (proj2 (proj2 (pf_good _ _ _ PF))) as Em. induction f as [|f IH]; intros N; cbn [weight1].
  - unfold ex. apply over_zero.
  - rewrite (ex_eq N _ (draw tape (attempt_widths (p_logm p))) _
      (fun ds s => Z.b2z (attempt_value (p_logm p) ds =? x) * H s +
                   Z.b2z (p_m p <=? attempt_value (p_logm p) ds) * match import_random tape f p s with Ok (y, s') => Z.b2z (y =? x) * H s' | _ => 0 end)).
    2:{ intros ds. rewrite import_random_unfold by exact G. destruct (draw tape (attempt_widths (p_logm p)) ds) as [[c s]| |]; try reflexivity. cbn [bind].
        destruct (Z.leb_spec (p_m p) (attempt_value (p_logm p) c)) as [A|A]; cbn [Z.b2z].
        - destruct (Z.eqb_spec (attempt_value (p_logm p) c) x); [lia|]. change (Z.b2z false) with 0. change (Z.b2z true) with 1. rewrite Z.mul_0_l, Z.add_0_l, Z.mul_1_l. reflexivity.
        - change (Z.b2z false) with 0. rewrite Z.mul_0_l, Z.add_0_r. reflexivity. }
    rewrite draw_over by apply attempt_widths_ok. destruct (_ <=? N)%nat; [|reflexivity].
    set (M := (N - nbytes (attempt_widths (p_logm p)))%nat).
    rewrite <- (accept_rate k m p PF x Hx), <- (reject_rate k m p PF). unfold rate_reject. rewrite <- IH.
    rewrite Z.mul_comm, (Z.mul_comm (over _ _) (ex _ _ _)). rewrite <- !over_mul, <- over_add.
    apply over_ext; [|apply widths_nonneg, attempt_widths_ok]. intros c _. rewrite over_add. unfold ex.
    rewrite (over_mul (Z.b2z (attempt_value (p_logm p) c =? x))), (over_mul (Z.b2z (p_m p <=? attempt_value (p_logm p) c))). ring.
Qed.
End One.

Lemma weight1_ext p h h' : (forall M, h M = h' M) -> forall f N, weight1 p f N h = weight1 p f N h'.
Proof. intros E. induction f as [|f IH]; intros N; [reflexivity|]. cbn [weight1]. cbv zeta. rewrite E, IH. reflexivity. Qed.
Lemma weight1_mul p c h : forall f N, weight1 p f N (fun M => c * h M) = c * weight1 p f N h.
Proof. induction f as [|f IH]; intros N; cbn [weight1]; [lia|]. cbv zeta. destruct (_ <=? N)%nat; [|lia]. rewrite IH. ring. Qed.
Lemma weights_ext p f h h' : (forall M, h M = h' M) -> forall n N, weights p f n N h = weights p f n N h'.
Proof. intros E. induction n as [|n IH]; intros N; cbn [weights]; [apply E|]. apply weight1_ext. exact IH. Qed.
Lemma weights_mul p f c h : forall n N, weights p f n N (fun M => c * h M) = c * weights p f n N h.
Proof. induction n as [|n IH]; intros N; cbn [weights]; [reflexivity|]. rewrite <- weight1_mul. apply weight1_ext. exact IH. Qed.

Definition is_list (v v0 : list Z) : Z := if list_eq_dec Z.eq_dec v v0 then 1 else 0.
Lemma is_list_cons x v x0 v0 : is_list (x :: v) (x0 :: v0) = Z.b2z (x =? x0) * is_list v v0.
Proof.
  unfold is_list. destruct (list_eq_dec Z.eq_dec v v0) as [A|A]; destruct (Z.eqb_spec x x0) as [B|B];
    (destruct (list_eq_dec Z.eq_dec (x :: v) (x0 :: v0)) as [C|C]); cbn [Z.b2z]; try reflexivity; congruence.
Qed.

Section Many.
Variables (k m : Z) (p : mparams).
Hypothesis PF : params_for k m p.
Let G : good p := proj1 (pf_good _ _ _ PF).

Lemma weights_ok f H : forall v0, Forall (fun x => 0 <= x < m) v0 -> forall N,
  ex N (sample_n tape f (length v0) p) (fun v s => is_list v v0 * H s) = weights p f (length v0) N (fun M => over (tapes M) H).
Proof.
  induction v0 as [|x0 v0 IH]; intros F N; cbn [length weights].
  - unfold ex. cbn [sample_n]. apply over_ext; [|apply tapes_nonneg]. intros ds _. change (is_list [] []) with 1. lia.
  - inversion F as [|? ? Hx Fv]; subst.
    rewrite (ex_eq N (sample_n tape f (S (length v0)) p) (import_random tape f p) _
      (fun y s => Z.b2z (y =? x0) * match sample_n tape f (length v0) p s with Ok (v, s') => is_list v v0 * H s' | _ => 0 end)).
    2:{ intros ds. cbn [sample_n]. destruct (import_random tape f p ds) as [[y s]| |]; try reflexivity. cbn [bind].
        destruct (sample_n tape f (length v0) p s) as [[v s']| |]; cbn [bind]; try lia. rewrite is_list_cons. ring. }
    rewrite (weight1_ok k m p PF x0 _ Hx). apply weight1_ext. intros M. apply (IH Fv M).
Qed.

Lemma sample_n_reduced f : forall n s v s', sample_n tape f n p s = Ok (v, s') -> length v = n /\ Forall (fun x => 0 <= x < m) v.
Proof.
  pose proof (proj2 (proj2 (pf_good _ _ _ PF))) as Em. induction n as [|n IH]; intros s v s' E; cbn [sample_n] in E; [injection E as <- _; split; [reflexivity|constructor]|].
  destruct (import_random tape f p s) as [[x s1]| |] eqn:E1; try discriminate E. cbn [bind] in E.
  destruct (sample_n tape f n p s1) as [[xs s2]| |] eqn:E2; try discriminate E. cbn [bind] in E. injection E as <- _.
  destruct (IH _ _ _ E2) as [A B]. split; [cbn; lia|]. constructor; [|exact B].
  destruct (C14_import_random k m p tape s x s1 PF) as [I J]. destruct (J (proj1 I (ex_intro _ f E1))) as [R _]. unfold reduced in R. lia.
Qed.
End Many.

(** ** Rows *)
Fixpoint row_weights (ms : list pmod) (fuel n N : nat) (h : nat -> Z) : Z :=
  match ms with
  | [] => h N
  | m :: ms' => weights (pm_p m) fuel n N (fun M => row_weights ms' fuel n M h)
  end.
Lemma row_weights_ext f n h h' : (forall M, h M = h' M) -> forall ms N, row_weights ms f n N h = row_weights ms f n N h'.
Proof. intros E. induction ms as [|m ms IH]; intros N; cbn [row_weights]; [apply E|]. apply weights_ext. exact IH. Qed.
Lemma row_weights_mul f n c h : forall ms N, row_weights ms f n N (fun M => c * h M) = c * row_weights ms f n N h.
Proof. induction ms as [|m ms IH]; intros N; cbn [row_weights]; [reflexivity|]. rewrite <- weights_mul. apply weights_ext. exact IH. Qed.

Definition is_rows (v v0 : list (list Z)) : Z := if list_eq_dec (list_eq_dec Z.eq_dec) v v0 then 1 else 0.
Lemma is_rows_cons x v x0 v0 : is_rows (x :: v) (x0 :: v0) = is_list x x0 * is_rows v v0.
Proof.
  unfold is_rows, is_list. destruct (list_eq_dec (list_eq_dec Z.eq_dec) v v0) as [A|A]; destruct (list_eq_dec Z.eq_dec x x0) as [B|B];
    (destruct (list_eq_dec (list_eq_dec Z.eq_dec) (x :: v) (x0 :: v0)) as [C|C]); try reflexivity; congruence.
Qed.

Lemma row_weights_ok k L f n H ms vs0 : moduli_ok k L ms -> residue_rows ms n vs0 -> forall N,
  ex N (rns_sample_rows tape f n ms) (fun vs s => is_rows vs vs0 * H s) = row_weights ms f n N (fun M => over (tapes M) H).
Proof.
  intros OK R. induction R as [|m v0 ms vs0 [Lv Fv] R IH]; intros N; cbn [row_weights].
  - unfold ex. cbn [rns_sample_rows]. apply over_ext; [|apply tapes_nonneg]. intros ds _. change (is_rows [] []) with 1. lia.
  - inversion OK as [|? ? [PF _] OK']; subst.
    rewrite (ex_eq N (rns_sample_rows tape f (length v0) (m :: ms)) (sample_n tape f (length v0) (pm_p m)) _
      (fun v s => is_list v v0 * match rns_sample_rows tape f (length v0) ms s with Ok (vs, s') => is_rows vs vs0 * H s' | _ => 0 end)).
    2:{ intros ds. cbn [rns_sample_rows]. destruct (sample_n tape f (length v0) (pm_p m) ds) as [[v s]| |]; try reflexivity. cbn [bind].
        destruct (rns_sample_rows tape f (length v0) ms s) as [[vs s']| |]; cbn [bind]; try lia. rewrite is_rows_cons. ring. }
    rewrite (weights_ok k (modulus m) (pm_p m) PF f _ v0 Fv). apply weights_ext. intros M. apply (IH OK' M).
Qed.

Lemma rows_reduced k L f n : forall ms s vs s', moduli_ok k L ms -> rns_sample_rows tape f n ms s = Ok (vs, s') -> residue_rows ms n vs.
Proof.
  induction ms as [|m ms IH]; intros s vs s' OK E; cbn [rns_sample_rows] in E; [injection E as <- _; constructor|].
  inversion OK as [|? ? [PF _] OK']; subst.
  destruct (sample_n tape f n (pm_p m) s) as [[v s1]| |] eqn:E1; try discriminate E. cbn [bind] in E.
  destruct (rns_sample_rows tape f n ms s1) as [[ws s2]| |] eqn:E2; try discriminate E. cbn [bind] in E. injection E as <- _.
  constructor; [exact (sample_n_reduced k (modulus m) (pm_p m) PF f n s v s1 E1)|exact (IH s1 ws s2 OK' E2)].
Qed.

(** positivity *)
Lemma over_nonneg ws : forall F, (forall d, 0 <= F d) -> 0 <= over ws F.
Proof. induction ws as [|w ws IH]; intros F H; cbn [over]; [apply H|]. apply zsum_nonneg. intros d _. apply IH. intros. apply H. Qed.

Lemma weight1_nonneg k m p h : params_for k m p -> (forall M, 0 <= h M) -> forall f N, 0 <= weight1 p f N h.
Proof.
  intros PF Hh. assert (A : 0 <= accept p) by (apply Z.pow_nonneg; lia).
  assert (B : 0 <= reject p).
  { rewrite <- (reject_rate k m p PF). unfold rate_reject. apply over_nonneg. intros c. destruct (_ <=? _); cbn; lia. }
  induction f as [|f IH]; intros N; cbn [weight1]; [lia|]. cbv zeta. destruct (_ <=? N)%nat; [|lia]. specialize (Hh (N - nbytes (attempt_widths (p_logm p)))%nat). specialize (IH (N - nbytes (attempt_widths (p_logm p)))%nat). nia.
Qed.
Lemma weight1_pos k m p h B : params_for k m p -> (forall M, 0 <= h M) -> (forall M, (B <= M)%nat -> 0 < h M) ->
  forall f N, (1 <= f)%nat -> (nbytes (attempt_widths (p_logm p)) + B <= N)%nat -> 0 < weight1 p f N h.
Proof.
  intros PF H0 HB [|f] N Hf HN; [lia|]. cbn [weight1]. cbv zeta. set (w := nbytes (attempt_widths (p_logm p))) in *.
  destruct (Nat.leb_spec w N); [|lia]. pose proof (weight1_nonneg k m p h PF H0 f (N - w)) as W.
  assert (A : 0 < accept p).
  { apply Z.pow_pos_nonneg; [lia|]. pose proof (log126 p (proj1 (pf_good _ _ _ PF))). pose proof (logm_bounds p (proj1 (pf_good _ _ _ PF))).
    unfold attempt_widths, total. destruct (Z.leb_spec (p_logm p) 8); [cbn [fold_right]; lia|]. destruct (Z.leb_spec (p_logm p) 64); [cbn [fold_right]; lia|]. destruct (Z.leb_spec (p_logm p) 72); cbn [fold_right]; lia. }
  assert (Bn : 0 <= reject p).
  { rewrite <- (reject_rate k m p PF). unfold rate_reject. apply over_nonneg. intros c. destruct (_ <=? _); cbn; lia. }
  specialize (HB (N - w)%nat ltac:(lia)). nia.
Qed.
Lemma weights_nonneg k m p h f : params_for k m p -> (forall M, 0 <= h M) -> forall n N, 0 <= weights p f n N h.
Proof. intros PF H0. induction n as [|n IH]; intros N; cbn [weights]; [apply H0|]. apply (weight1_nonneg k m p _ PF). exact IH. Qed.
Lemma weights_pos k m p h f B : params_for k m p -> (forall M, 0 <= h M) -> (forall M, (B <= M)%nat -> 0 < h M) -> (1 <= f)%nat ->
  forall n N, (n * nbytes (attempt_widths (p_logm p)) + B <= N)%nat -> 0 < weights p f n N h.
Proof.
  intros PF H0 HB Hf. induction n as [|n IH]; intros N HN; cbn [weights]; [apply HB; lia|].
  apply (weight1_pos k m p _ (n * nbytes (attempt_widths (p_logm p)) + B) PF); [|exact IH|exact Hf|cbn [Nat.mul] in HN; lia].
  apply (weights_nonneg k m p h f PF H0 n).
Qed.
Lemma row_weights_nonneg k L h f n : (forall M, 0 <= h M) -> forall ms, moduli_ok k L ms -> forall N, 0 <= row_weights ms f n N h.
Proof.
  intros H0. induction ms as [|m ms IH]; intros OK N; cbn [row_weights]; [apply H0|]. inversion OK as [|? ? [PF _] OK']; subst.
  apply (weights_nonneg k (modulus m) (pm_p m) _ f PF). exact (IH OK').
Qed.
Lemma row_weights_pos k L h f n B : (forall M, 0 <= h M) -> (forall M, (B <= M)%nat -> 0 < h M) -> (1 <= f)%nat ->
  forall ms, moduli_ok k L ms -> forall N, (row_bytes ms n + B <= N)%nat -> 0 < row_weights ms f n N h.
Proof.
  intros H0 HB Hf. induction ms as [|m ms IH]; intros OK N HN; cbn [row_weights row_bytes fold_right] in *; [apply HB; lia|]. inversion OK as [|? ? [PF _] OK']; subst.
  apply (weights_pos k (modulus m) (pm_p m) _ f (row_bytes ms n + B) PF); [apply (row_weights_nonneg k L h f n H0 ms OK')|exact (IH OK')|exact Hf|].
  change (fold_right (fun m acc => n * nbytes (attempt_widths (p_logm (pm_p m))) + acc)%nat 0%nat ms) with (row_bytes ms n) in HN. lia.
Qed.

(** ** Errors *)
Lemma take_range j : forall s x s', take_bytes j s = Ok (x, s') -> 0 <= x < 2 ^ (8 * Z.of_nat j).
Proof.
  induction j as [|j IH]; intros s x s' E; cbn [take_bytes] in E; [injection E as <- _; cbn; lia|]. destruct s as [|b t]; [discriminate E|].
  destruct (take_bytes j t) as [[y r]| |] eqn:Ey; try discriminate E. cbn [bind] in E. assert (Ex : x = b mod 256 + 256 * y) by congruence. rewrite Ex. clear Ex E. specialize (IH _ _ _ Ey).
  replace (8 * Z.of_nat (S j)) with (8 + 8 * Z.of_nat j) by lia. rewrite Z.pow_add_r by lia. change (2 ^ 8) with 256. pose proof (Z.mod_pos_bound b 256 ltac:(lia)). lia.
Qed.
Lemma tape_ok : prng_ok tape.
Proof.
  split; intros s; [destruct (pr_rand8 tape s) as [[x s']| |] eqn:E|destruct (pr_rand64 tape s) as [[x s']| |] eqn:E]; try exact I;
    [exact (take_range 1 s x s' E)|exact (take_range 8 s x s' E)].
Qed.

Lemma product_cons x l : product (x :: l) = x * product l.
Proof. reflexivity. Qed.
Section Err.
Variables (k m : Z) (p : mparams) (v : Z).
Hypothesis PF : params_for k m p.
Hypothesis Hv : 0 <= v <= 256.
Hypothesis Hm : 4 * v < m.
Let G : good p := proj1 (pf_good _ _ _ PF).
Local Notation w := (nbytes (error_widths 24 (2 * v))).

Lemma error1_eq s (K : Z -> list Z -> Z) (K' : list Z -> list Z -> Z) :
  (forall ds y s', sample_error1 tape p v s = Ok (y, s') -> centered (p_m p) (export_int p y) = error_diff (2 * v) ds -> reduced p y -> K y s' = K' ds s') ->
  match sample_error1 tape p v s with Ok (y, s') => K y s' | _ => 0 end = match draw tape (error_widths 24 (2 * v)) s with Ok (ds, s') => K' ds s' | _ => 0 end.
Proof.
  intros H. pose proof (proj2 (proj2 (pf_good _ _ _ PF))) as Em. pose proof (m_gt1 p G) as M1. assert (V2 : 2 * v <= p_m p) by lia.
  destruct (sample_error1_ok tape p v s G tape_ok Hv V2) as [(ds & s3 & E' & y & Ey & Cy & Vy & By)|[(e & E1 & E2)|[E1 E2]]].
  - rewrite E', Ey. apply H; [exact Ey| |exact Cy]. rewrite stored_val by (try exact G; apply reduced_stored; exact Cy). rewrite Vy.
    apply centered_eq; [lia|unfold fits; lia|apply cong_mod].
  - rewrite E1, E2. reflexivity.
  - rewrite E1, E2. reflexivity.
Qed.

Lemma error1_over d H N :
  ex N (sample_error1 tape p v) (fun y s => Z.b2z (centered (p_m p) (export_int p y) =? d) * H s) =
  if (w <=? N)%nat then error_count v d * over (tapes (N - w)) H else 0.
Proof.
  rewrite (ex_eq N _ (draw tape (error_widths 24 (2 * v))) _ (fun ds s => Z.b2z (error_diff (2 * v) ds =? d) * H s)).
  2:{ intros s. apply error1_eq. intros ds y s' _ -> _. reflexivity. }
  rewrite draw_over by apply error_widths_ok. destruct (w <=? N)%nat; [|reflexivity].
  rewrite <- (error_one v Hv d). rewrite (Z.mul_comm (over (error_widths 24 (2 * v)) _)), <- over_mul. apply over_ext; [|apply widths_nonneg, error_widths_ok]. intros c _.
  rewrite over_mul. ring.
Qed.

Lemma errors_over H : forall e N,
  ex N (sample_error tape p (length e) v) (fun l s => is_list (signed p l) e * H s) =
  if (length e * w <=? N)%nat then product (map (error_count v) e) * over (tapes (N - length e * w)) H else 0.
Proof.
  unfold sample_error. destruct (Z.ltb_spec 256 v); [lia|]. induction e as [|d e IH]; intros N.
  - cbn [length Nat.mul Nat.leb map product fold_right]. rewrite Nat.sub_0_r. unfold ex. cbn [sample_error_n].
    rewrite Z.mul_1_l. apply over_ext; [|apply tapes_nonneg]. intros ds _. unfold signed, is_list. cbn [map]. destruct (list_eq_dec Z.eq_dec [] []); [lia|congruence].
  - cbn [length map]. rewrite product_cons.
    rewrite (ex_eq N (sample_error_n tape p v (S (length e))) (sample_error1 tape p v) _
      (fun y s => Z.b2z (centered (p_m p) (export_int p y) =? d) * runs (sample_error_n tape p v (length e)) (fun l s' => is_list (signed p l) e * H s') s)).
    2:{ intros ds. unfold runs. cbn [sample_error_n]. destruct (sample_error1 tape p v ds) as [[y s]| |]; try reflexivity. cbn [bind].
        destruct (sample_error_n tape p v (length e) s) as [[l s']| |]; cbn [bind]; try lia. unfold signed. cbn [map]. rewrite is_list_cons. ring. }
    rewrite (error1_over d (runs (sample_error_n tape p v (length e)) (fun l s' => is_list (signed p l) e * H s')) N). destruct (Nat.leb_spec w N) as [A|A].
    + rewrite over_runs, IH.
      destruct (Nat.leb_spec (length e * w) (N - w)) as [B|B]; destruct (Nat.leb_spec (S (length e) * w) N) as [C|C]; cbn [Nat.mul] in C; try (exfalso; lia); [|apply Z.mul_0_r].
      replace (N - S (length e) * w)%nat with (N - w - length e * w)%nat by (cbn [Nat.mul]; lia). rewrite <- Z.mul_assoc. reflexivity.
    + destruct (Nat.leb_spec (S (length e) * w) N) as [C|C]; [cbn [Nat.mul] in C; lia|reflexivity].
Qed.
End Err.
