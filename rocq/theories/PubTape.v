(** Proofs for C97. *)
From Coq Require Import Znumtheory Lia Arith.
From Verif Require Import Base FinSum BitsUtil Montgomery MontBatch Ntt Poly PolyExt Prng Sampling SampleSpec ZLemmas MontgomeryProofs Spec ArithFacts
  PolySpec Ring MontBatchProofs SampleProofs SampleErrProofs ThmArith ThmSample RnsPoly RnsSpec RnsSub RnsProofs RnsMore RnsCt RnsCtSpec RnsCtProofs RnsEncode RnsKey
  RnsPub DistSpec DistProofs TapeSpec TapeProofs TapeRns PubTapeSpec.
Local Notation zsum := FinSum.zsum.
Local Notation tapes N := (repeat 8 N).
Local Opaque error_widths error_count.

Lemma over_zsum ws : forall c (F : nat -> list Z -> Z), over ws (fun ds => zsum c (fun i => F i ds)) = zsum c (fun i => over ws (F i)).
Proof.
  induction ws as [|w ws IH]; intros c F; [reflexivity|]. cbn [over]. rewrite zsum_swap. apply zsum_ext. intros d _. apply IH.
Qed.

Section Err.
Variables (k m : Z) (p : mparams) (v : Z).
Hypothesis PF : params_for k m p.
Hypothesis Hv : 0 <= v <= 256.
Hypothesis Hm : 4 * v < m.
Let G : good p := proj1 (pf_good _ _ _ PF).
Local Notation w := (nbytes (error_widths 24 (2 * v))).
Definition imp (x : Z) : Z := import_int p (x mod p_m p).

Lemma error1_avg K N : ex N (sample_error1 tape p v) K =
  if (w <=? N)%nat then zsum (Z.to_nat (4 * v + 1)) (fun i => error_count v (Z.of_nat i - 2 * v) * over (tapes (N - w)) (K (imp (Z.of_nat i - 2 * v)))) else 0.
Proof.
  pose proof (proj2 (proj2 (pf_good _ _ _ PF))) as Em. pose proof (m_gt1 p G) as M1. pose proof (m4 p G) as M4.
  transitivity (zsum (Z.to_nat (4 * v + 1)) (fun i => ex N (sample_error1 tape p v)
    (fun y s => Z.b2z (centered (p_m p) (export_int p y) =? Z.of_nat i - 2 * v) * K (imp (Z.of_nat i - 2 * v)) s))).
  - unfold ex. rewrite <- over_zsum. apply over_ext; [|apply tapes_nonneg]. intros ds _.
    destruct (sample_error1_ok tape p v ds G tape_ok Hv ltac:(lia)) as [(bs & s3 & _ & y & Ey & Cy & Vy & By)|[(e & _ & E2)|[_ E2]]].
    + rewrite Ey. set (d := error_diff (2 * v) bs) in *.
      assert (Ec : centered (p_m p) (export_int p y) = d).
      { rewrite stored_val by (try exact G; apply reduced_stored; exact Cy). rewrite Vy. apply centered_eq; [lia|unfold fits; lia|apply cong_mod]. }
      assert (Ey' : y = imp d).
      { assert (0 <= d mod p_m p < 2 ^ p_k p) by (pose proof (Z.mod_pos_bound d (p_m p)); lia).
        apply (val_inj p G); [exact Cy|apply (import_crep p G); assumption|]. unfold imp. rewrite (import_val p G) by assumption. rewrite Zmod_mod. exact Vy. }
      rewrite Ec. rewrite (zsum_single _ (Z.to_nat (d + 2 * v))); [|lia|].
      * rewrite Z2Nat.id by lia. replace (d + 2 * v - 2 * v) with d by lia. rewrite Z.eqb_refl, <- Ey'. cbn [Z.b2z]. lia.
      * intros i _ Hi. destruct (Z.eqb_spec d (Z.of_nat i - 2 * v)) as [E|E]; [exfalso; apply Hi; lia|reflexivity].
    + rewrite E2. rewrite zsum_zero. reflexivity.
    + rewrite E2. rewrite zsum_zero. reflexivity.
  - destruct (Nat.leb_spec w N) as [A|A].
    + apply zsum_ext. intros i _. rewrite (error1_over k m p v PF Hv Hm). apply Nat.leb_le in A. rewrite A. reflexivity.
    + rewrite (zsum_ext _ _ (fun _ => 0)); [apply zsum_zero|]. intros i _. rewrite (error1_over k m p v PF Hv Hm). destruct (Nat.leb_spec w N); [lia|reflexivity].
Qed.

Lemma over_errors_ext n : forall F F', (forall e, errors v n e -> F e = F' e) -> over_errors v n F = over_errors v n F'.
Proof.
  induction n as [|n IH]; intros F F' H; cbn [over_errors]; [apply H; split; [reflexivity|constructor]|].
  apply zsum_ext. intros i Hi. f_equal. apply IH. intros e [E1 E2]. apply H. split; [cbn [length]; lia|]. constructor; [lia|exact E2].
Qed.
Lemma over_errors_zero n : over_errors v n (fun _ => 0) = 0.
Proof. induction n as [|n IH]; [reflexivity|]. cbn [over_errors]. rewrite (zsum_ext _ _ (fun _ => 0)); [apply zsum_zero|]. intros i _. rewrite IH. apply Z.mul_0_r. Qed.
Lemma over_errors_mul n c : forall F, over_errors v n (fun e => F e * c) = over_errors v n F * c.
Proof.
  induction n as [|n IH]; intros F; [reflexivity|]. cbn [over_errors]. rewrite <- zsum_mul_r. apply zsum_ext. intros i _. rewrite IH. ring.
Qed.

Lemma errors_avg : forall n K N, ex N (sample_error tape p n v) K =
  if (n * w <=? N)%nat then over_errors v n (fun e => over (tapes (N - n * w)) (K (map imp e))) else 0.
Proof.
  unfold sample_error. destruct (Z.ltb_spec 256 v); [lia|]. induction n as [|n IH]; intros K N.
  - cbn [Nat.mul Nat.leb over_errors map]. rewrite Nat.sub_0_r. reflexivity.
  - rewrite (ex_eq N (sample_error_n tape p v (S n)) (sample_error1 tape p v) _ (fun y s => runs (sample_error_n tape p v n) (fun l s' => K (y :: l) s') s)).
    2:{ intros ds. unfold runs. cbn [sample_error_n]. destruct (sample_error1 tape p v ds) as [[y s]| |]; try reflexivity. cbn [bind].
        destruct (sample_error_n tape p v n s) as [[l s']| |]; reflexivity. }
    rewrite error1_avg. destruct (Nat.leb_spec w N) as [A|A].
    + destruct (Nat.leb_spec (S n * w) N) as [C|C]; cbn [Nat.mul] in C.
      * cbn [over_errors]. apply zsum_ext. intros i _. rewrite over_runs, IH. destruct (Nat.leb_spec (n * w) (N - w)) as [B|B]; [|lia].
        replace (N - S n * w)%nat with (N - w - n * w)%nat by (cbn [Nat.mul]; lia). reflexivity.
      * rewrite (zsum_ext _ _ (fun _ => 0)); [apply zsum_zero|]. intros i _. rewrite over_runs, IH. destruct (Nat.leb_spec (n * w) (N - w)) as [B|B]; [lia|apply Z.mul_0_r].
    + destruct (Nat.leb_spec (S n * w) N) as [C|C]; [cbn [Nat.mul] in C; lia|reflexivity].
Qed.
End Err.
