(** The mathematics of the in-place transform, on functions nat -> Z modulo m. *)
From Coq Require Import Arith ArithRing.
From Verif Require Import Base FinSum Ntt NttIndex.

Lemma blk h b r : (r < 2 * h)%nat ->
  ((b * (2 * h) + r) / (2 * h) = b /\ (b * (2 * h) + r) mod (2 * h) = r)%nat.
Proof.
  intros H. split; symmetry; [apply Nat.div_unique with r|apply Nat.mod_unique with b]; lia.
Qed.

Lemma blk_cases h q : (0 < h)%nat ->
  exists b r, (q = b * (2 * h) + r /\ r < 2 * h)%nat.
Proof.
  intros H. exists (q / (2 * h))%nat, (q mod (2 * h))%nat.
  pose proof (Nat.div_mod q (2 * h) ltac:(lia)). pose proof (Nat.mod_upper_bound q (2 * h) ltac:(lia)). lia.
Qed.

Definition ctf (h : nat) (w : nat -> Z) (V : nat -> Z) (q : nat) : Z :=
  if (q mod (2 * h) <? h)%nat then V q + w (q / (2 * h))%nat * V (q + h)%nat
  else V (q - h)%nat - w (q / (2 * h))%nat * V q.

Definition gsf (h : nat) (w : nat -> Z) (V : nat -> Z) (q : nat) : Z :=
  if (q mod (2 * h) <? h)%nat then V q + V (q + h)%nat
  else w (q / (2 * h))%nat * (V (q - h)%nat - V q).

Lemma ctf_lo h w V b r : (r < h)%nat ->
  ctf h w V (b * (2 * h) + r) = V (b * (2 * h) + r)%nat + w b * V (b * (2 * h) + h + r)%nat.
Proof.
  intros H. unfold ctf. destruct (blk h b r ltac:(lia)) as [-> ->].
  destruct (Nat.ltb_spec r h); [|lia]. do 3 f_equal. lia.
Qed.

Lemma ctf_hi h w V b r : (r < h)%nat ->
  ctf h w V (b * (2 * h) + h + r) = V (b * (2 * h) + r)%nat - w b * V (b * (2 * h) + h + r)%nat.
Proof.
  intros H. unfold ctf. rewrite <- Nat.add_assoc. destruct (blk h b (h + r) ltac:(lia)) as [-> ->].
  destruct (Nat.ltb_spec (h + r) h); [lia|]. do 2 f_equal. lia.
Qed.

Lemma gsf_lo h w V b r : (r < h)%nat ->
  gsf h w V (b * (2 * h) + r) = V (b * (2 * h) + r)%nat + V (b * (2 * h) + h + r)%nat.
Proof.
  intros H. unfold gsf. destruct (blk h b r ltac:(lia)) as [-> ->].
  destruct (Nat.ltb_spec r h); [|lia]. do 2 f_equal. lia.
Qed.

Lemma gsf_hi h w V b r : (r < h)%nat ->
  gsf h w V (b * (2 * h) + h + r) = w b * (V (b * (2 * h) + r)%nat - V (b * (2 * h) + h + r)%nat).
Proof.
  intros H. unfold gsf. rewrite <- Nat.add_assoc. destruct (blk h b (h + r) ltac:(lia)) as [-> ->].
  destruct (Nat.ltb_spec (h + r) h); [lia|]. do 3 f_equal. lia.
Qed.

(** Every position below B*2h is in the low or the high half of a block b < B. *)
Lemma pos_cases h B q : (0 < h)%nat -> (q < B * (2 * h))%nat ->
  exists b r, (b < B /\ r < h /\ (q = b * (2 * h) + r \/ q = b * (2 * h) + h + r))%nat.
Proof.
  intros Hh Hq. destruct (blk_cases h q Hh) as (b & r & E & Hr).
  assert (b < B)%nat by nia.
  destruct (Nat.lt_ge_cases r h).
  - exists b, r. lia.
  - exists b, (r - h)%nat. lia.
Qed.

Section Tree.
Variables (m : Z) (L : nat).
Variables (W Wi : nat -> Z).
Notation n := (2 ^ L)%nat.

Definition eqv (V V' : nat -> Z) : Prop := forall q, (q < n)%nat -> cong m (V q) (V' q).

Definition wl (i b : nat) : Z := W (2 ^ (L - 1 - i) + b)%nat.
Definition wil (i b : nat) : Z := Wi (2 ^ (L - 1 - i) + b)%nat.

(** layers i-1, ..., 0 of the forward transform *)
Fixpoint ctl (i : nat) (V : nat -> Z) : nat -> Z :=
  match i with O => V | S i' => ctl i' (ctf (2 ^ i') (wl i') V) end.

(** layers 0, ..., i-1 of the inverse transform *)
Fixpoint gsl (i : nat) (V : nat -> Z) : nat -> Z :=
  match i with O => V | S i' => gsf (2 ^ i') (wil i') (gsl i' V) end.

Lemma n_split i : (i < L)%nat -> n = (2 ^ (L - 1 - i) * (2 * 2 ^ i))%nat.
Proof.
  intros H. rewrite <- Nat.pow_succ_r', <- Nat.pow_add_r. f_equal. lia.
Qed.

Lemma pow2_gt0 i : (0 < 2 ^ i)%nat.
Proof. apply Nat.neq_0_lt_0, Nat.pow_nonzero. lia. Qed.

Lemma layer_pos i q : (i < L)%nat -> (q < n)%nat ->
  exists b r, (b < 2 ^ (L - 1 - i) /\ r < 2 ^ i /\
    b * (2 * 2 ^ i) + 2 ^ i + r < n /\
    (q = b * (2 * 2 ^ i) + r \/ q = b * (2 * 2 ^ i) + 2 ^ i + r))%nat.
Proof.
  intros Hi Hq. rewrite (n_split i Hi) in *.
  destruct (pos_cases _ _ q (pow2_gt0 i) Hq) as (b & r & Hb & Hr & E).
  exists b, r. repeat split; auto. nia.
Qed.

Lemma ctf_eqv i V V' : (i < L)%nat -> eqv V V' ->
  eqv (ctf (2 ^ i) (wl i) V) (ctf (2 ^ i) (wl i) V').
Proof.
  unfold eqv. intros Hi E q Hq. destruct (layer_pos i q Hi Hq) as (b & r & Hb & Hr & Hn & [-> | ->]).
  - rewrite !ctf_lo by exact Hr. rewrite !E by lia. reflexivity.
  - rewrite !ctf_hi by exact Hr. rewrite !E by lia. reflexivity.
Qed.

Lemma gsf_eqv i V V' : (i < L)%nat -> eqv V V' ->
  eqv (gsf (2 ^ i) (wil i) V) (gsf (2 ^ i) (wil i) V').
Proof.
  unfold eqv. intros Hi E q Hq. destruct (layer_pos i q Hi Hq) as (b & r & Hb & Hr & Hn & [-> | ->]).
  - rewrite !gsf_lo by exact Hr. rewrite !E by lia. reflexivity.
  - rewrite !gsf_hi by exact Hr. rewrite !E by lia. reflexivity.
Qed.

Lemma ctl_eqv i : forall V V', (i <= L)%nat -> eqv V V' -> eqv (ctl i V) (ctl i V').
Proof.
  induction i as [|i IH]; intros V V' Hi E; cbn [ctl]; [exact E|].
  apply IH; [lia|]. apply ctf_eqv; [lia|exact E].
Qed.

Lemma gsl_eqv i : forall V V', (i <= L)%nat -> eqv V V' -> eqv (gsl i V) (gsl i V').
Proof.
  induction i as [|i IH]; intros V V' Hi E; cbn [gsl]; [exact E|].
  apply gsf_eqv; [lia|]. apply IH; [lia|exact E].
Qed.

Lemma eqv_refl V : eqv V V.
Proof. intros q _. reflexivity. Qed.

Lemma eqv_trans V V' V'' : eqv V V' -> eqv V' V'' -> eqv V V''.
Proof. intros A B q Hq. rewrite (A q Hq). apply B. exact Hq. Qed.

Lemma eqv_sym V V' : eqv V V' -> eqv V' V.
Proof. intros A q Hq. symmetry. apply A. exact Hq. Qed.

Definition scale (c : Z) (V : nat -> Z) (q : nat) : Z := c * V q.

Lemma ctf_scale h w c V q : ctf h w (scale c V) q = scale c (ctf h w V) q.
Proof. unfold ctf, scale. destruct (q mod (2 * h) <? h)%nat; ring. Qed.

Lemma gsf_scale h w c V q : gsf h w (scale c V) q = scale c (gsf h w V) q.
Proof. unfold gsf, scale. destruct (q mod (2 * h) <? h)%nat; ring. Qed.

Lemma ctl_scale i : forall c V, (i <= L)%nat -> eqv (ctl i (scale c V)) (scale c (ctl i V)).
Proof.
  induction i as [|i IH]; intros c V Hi; cbn [ctl]; [apply eqv_refl|].
  eapply eqv_trans; [|apply IH; lia].
  apply ctl_eqv; [lia|]. intros q _. rewrite ctf_scale. reflexivity.
Qed.

Hypothesis HWi : forall h, (1 <= h < n)%nat -> cong m (W h * Wi h) 1.

Lemma w_inv i b : (i < L)%nat -> (b < 2 ^ (L - 1 - i))%nat -> cong m (wl i b * wil i b) 1.
Proof.
  intros Hi Hb. apply HWi. pose proof (pow2_gt0 (L - 1 - i)).
  split; [lia|]. rewrite (n_split i Hi). pose proof (pow2_gt0 i). nia.
Qed.

Lemma gs_ct i V : (i < L)%nat ->
  eqv (gsf (2 ^ i) (wil i) (ctf (2 ^ i) (wl i) V)) (scale 2 V).
Proof.
  intros Hi q Hq. destruct (layer_pos i q Hi Hq) as (b & r & Hb & Hr & Hn & [-> | ->]); unfold scale.
  - rewrite gsf_lo, ctf_lo, ctf_hi by exact Hr. apply cong_eq. ring.
  - rewrite gsf_hi, ctf_lo, ctf_hi by exact Hr.
    transitivity (2 * V (b * (2 * 2 ^ i) + 2 ^ i + r)%nat * (wl i b * wil i b)).
    + apply cong_eq. ring.
    + rewrite (w_inv i b Hi Hb). apply cong_eq. ring.
Qed.

Lemma ct_gs i V : (i < L)%nat ->
  eqv (ctf (2 ^ i) (wl i) (gsf (2 ^ i) (wil i) V)) (scale 2 V).
Proof.
  intros Hi q Hq. destruct (layer_pos i q Hi Hq) as (b & r & Hb & Hr & Hn & [-> | ->]); unfold scale.
  - rewrite ctf_lo, gsf_lo, gsf_hi by exact Hr.
    rewrite Z.mul_assoc, (w_inv i b Hi Hb). apply cong_eq. ring.
  - rewrite ctf_hi, gsf_lo, gsf_hi by exact Hr.
    rewrite Z.mul_assoc, (w_inv i b Hi Hb). apply cong_eq. ring.
Qed.

Lemma gsl_ctl i : forall V, (i <= L)%nat -> eqv (gsl i (ctl i V)) (scale (2 ^ Z.of_nat i) V).
Proof.
  induction i as [|i IH]; intros V Hi.
  - cbn [gsl ctl]. intros q _. unfold scale. apply cong_eq. change (2 ^ Z.of_nat 0) with 1. ring.
  - cbn [gsl ctl]. eapply eqv_trans.
    + apply gsf_eqv; [lia|]. apply IH; lia.
    + eapply eqv_trans; [intros q Hq; rewrite gsf_scale; reflexivity|].
      intros q Hq. unfold scale at 1. rewrite (gs_ct i V ltac:(lia) q Hq). unfold scale.
      rewrite Nat2Z.inj_succ, Z.pow_succ_r by lia. apply cong_eq. ring.
Qed.

Lemma ctl_gsl i : forall V, (i <= L)%nat -> eqv (ctl i (gsl i V)) (scale (2 ^ Z.of_nat i) V).
Proof.
  induction i as [|i IH]; intros V Hi.
  - cbn [gsl ctl]. intros q _. unfold scale. apply cong_eq. change (2 ^ Z.of_nat 0) with 1. ring.
  - cbn [gsl ctl]. eapply eqv_trans.
    + apply ctl_eqv; [lia|]. apply ct_gs; lia.
    + eapply eqv_trans; [apply ctl_scale; lia|].
      intros q Hq. unfold scale at 1. rewrite (IH V ltac:(lia) q Hq). unfold scale.
      rewrite Nat2Z.inj_succ, Z.pow_succ_r by lia. apply cong_eq. ring.
Qed.

(** ** Evaluation *)

(** value of the leaf point above node h of the tree *)
Definition zeta (h : nat) : Z := if Nat.even h then W (h / 2)%nat else - W (h / 2)%nat.

Hypothesis HW0 : W 0%nat = 1.
Hypothesis HWsq : forall h, (1 <= h < n)%nat -> cong m (W h * W h) (zeta h).

Lemma zeta_even h : zeta (2 * h) = W h.
Proof.
  unfold zeta. rewrite Nat.even_mul. cbn [Nat.even orb].
  rewrite Nat.mul_comm, Nat.div_mul by lia. reflexivity.
Qed.

Lemma zeta_odd h : zeta (2 * h + 1) = - W h.
Proof.
  unfold zeta. rewrite Nat.add_comm, Nat.even_add_mul_2. cbn [Nat.even].
  replace ((1 + 2 * h) / 2)%nat with h; [reflexivity|]. apply Nat.div_unique with 1%nat; lia.
Qed.

Lemma zeta_sq h : (2 <= h < 2 * n)%nat -> cong m (zeta h * zeta h) (zeta (h / 2)).
Proof.
  intros Hh. assert (1 <= h / 2 < n)%nat.
  { split; [apply Nat.div_le_lower_bound; lia|apply Nat.div_lt_upper_bound; lia]. }
  rewrite <- (HWsq (h / 2)) by assumption. unfold zeta. destruct (Nat.even h); apply cong_eq; ring.
Qed.

Definition pt (p : nat) : Z := zeta (n + p).

Lemma pt_pow i p : (i <= L)%nat -> (p < n)%nat ->
  cong m (pt p ^ (2 ^ Z.of_nat i)) (zeta ((n + p) / 2 ^ i)).
Proof.
  intros Hi Hp. induction i as [|i IH].
  - change (2 ^ Z.of_nat 0) with 1. rewrite Z.pow_1_r. cbn [Nat.pow]. rewrite Nat.div_1_r. reflexivity.
  - rewrite Nat2Z.inj_succ, Z.pow_succ_r by lia. rewrite Z.mul_comm, Z.pow_mul_r by lia.
    rewrite IH by lia. rewrite Z.pow_2_r, Nat.pow_succ_r'.
    rewrite zeta_sq.
    + rewrite Nat.div_div by (try lia; apply Nat.pow_nonzero; lia).
      rewrite (Nat.mul_comm (2 ^ i) 2). reflexivity.
    + pose proof (pow2_gt0 i).
      assert (2 * 2 ^ i <= n)%nat by (rewrite <- Nat.pow_succ_r'; apply Nat.pow_le_mono_r; lia).
      split; [apply Nat.div_le_lower_bound; lia|apply Nat.div_lt_upper_bound; nia].
Qed.

Definition block_eval (s : nat) (V : nat -> Z) (p : nat) : Z :=
  zsum s (fun j => V (p / s * s + j)%nat * pt p ^ Z.of_nat j).

Lemma pow_of_nat2 i : Z.of_nat (2 ^ i) = 2 ^ Z.of_nat i.
Proof. rewrite Nat2Z.inj_pow. reflexivity. Qed.

Lemma zsum_ctf_eval (h k : nat) (x w : Z) (s : Z) (V : nat -> Z) :
  cong m (x ^ Z.of_nat h) (s * w) ->
  cong m (zsum h (fun j => (V (k + j)%nat + s * w * V (k + h + j)%nat) * x ^ Z.of_nat j))
         (zsum (2 * h) (fun j => V (k + j)%nat * x ^ Z.of_nat j)).
Proof.
  intros E. replace (2 * h)%nat with (h + h)%nat by lia. rewrite zsum_split.
  rewrite <- zsum_add. apply zsum_cong. intros j Hj.
  rewrite Nat2Z.inj_add, Z.pow_add_r by lia. rewrite E.
  rewrite Nat.add_assoc. apply cong_eq. ring.
Qed.

Lemma ctf_eval i V p : (i < L)%nat -> (p < n)%nat ->
  cong m (block_eval (2 ^ i) (ctf (2 ^ i) (wl i) V) p) (block_eval (2 ^ S i) V p).
Proof.
  intros Hi Hp. unfold block_eval. pose proof (pow2_gt0 i) as P.
  pose proof (pt_pow i p ltac:(lia) Hp) as E. rewrite <- pow_of_nat2 in E.
  destruct (layer_pos i p Hi Hp) as (b & r & Hb & Hr & Hn & Hq).
  assert (D : (p / 2 ^ S i = b)%nat).
  { rewrite Nat.pow_succ_r'. destruct Hq as [-> | ->].
    - apply blk; lia.
    - rewrite <- Nat.add_assoc. apply blk; lia. }
  rewrite D, Nat.pow_succ_r'.
  assert (N : (n + p = 2 ^ (L - 1 - i) * (2 * 2 ^ i) + p)%nat) by (rewrite <- n_split; auto).
  destruct Hq as [Eq | Eq].
  - assert (D1 : (p / 2 ^ i = 2 * b)%nat) by (symmetry; apply Nat.div_unique with r; lia).
    assert (D2 : ((n + p) / 2 ^ i = 2 * (2 ^ (L - 1 - i) + b))%nat).
    { symmetry; apply Nat.div_unique with r; [lia|]. rewrite N, Eq. ring. }
    rewrite D1. rewrite D2, zeta_even in E. fold (wl i b) in E.
    replace (2 * b * 2 ^ i)%nat with (b * (2 * 2 ^ i))%nat by ring.
    etransitivity; [|apply (zsum_ctf_eval _ _ _ (wl i b) 1 V); rewrite E; apply cong_eq; ring].
    apply zsum_cong. intros j Hj. rewrite ctf_lo by exact Hj. apply cong_eq. ring.
  - assert (D1 : (p / 2 ^ i = 2 * b + 1)%nat) by (symmetry; apply Nat.div_unique with r; lia).
    assert (D2 : ((n + p) / 2 ^ i = 2 * (2 ^ (L - 1 - i) + b) + 1)%nat).
    { symmetry; apply Nat.div_unique with r; [lia|]. rewrite N, Eq. ring. }
    rewrite D1. rewrite D2, zeta_odd in E. fold (wl i b) in E.
    replace ((2 * b + 1) * 2 ^ i)%nat with (b * (2 * 2 ^ i) + 2 ^ i)%nat by ring.
    etransitivity; [|apply (zsum_ctf_eval _ _ _ (wl i b) (-1) V); rewrite E; apply cong_eq; ring].
    apply zsum_cong. intros j Hj. rewrite ctf_hi by exact Hj. apply cong_eq. ring.
Qed.

Lemma ctl_eval i : forall V p, (i <= L)%nat -> (p < n)%nat ->
  cong m (ctl i V p) (block_eval (2 ^ i) V p).
Proof.
  induction i as [|i IH]; intros V p Hi Hp.
  - cbn [ctl]. unfold block_eval. cbn [Nat.pow zsum]. rewrite Nat.div_1_r, Nat.mul_1_r, Nat.add_0_r.
    change (Z.of_nat 0) with 0. rewrite Z.pow_0_r. apply cong_eq. ring.
  - cbn [ctl]. rewrite IH by lia. apply ctf_eval; lia.
Qed.

Lemma ctl_full V p : (p < n)%nat ->
  cong m (ctl L V p) (zsum n (fun j => V j * pt p ^ Z.of_nat j)).
Proof.
  intros Hp. rewrite ctl_eval by lia. unfold block_eval. rewrite Nat.div_small by exact Hp.
  reflexivity.
Qed.

End Tree.
