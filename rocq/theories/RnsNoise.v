(** Size of phases, and modulus reduction of BGV ciphertexts. *)
From Coq Require Import Setoid Ring Znumtheory.
From Verif Require Import Base FinSum MontgomeryProofs PolySpec Ring NegRing SymSpec SymProofs2 Montgomery MontBatch MontBatchProofs Ntt Spec ArithFacts NttFacts PolyView
  RnsPoly RnsSpec CrtMath RnsSub RnsProofs RnsReduce RnsBasis RnsBasis2 RnsCt RnsCtSpec RnsCtProofs.
Local Notation zsum := FinSum.zsum.

Lemma pcong0 n f g : pcong 0 n f g -> forall i, (i < n)%nat -> f i = g i.
Proof. intros H i Hi. destruct (H i Hi) as [c Hc]. lia. Qed.

(** 1 + a + ... + a^(len-1) *)
Definition geom (a : Z) (len : nat) : Z := zsum len (fun l => a ^ Z.of_nat l).

Lemma geom_succ a len : geom a (S len) = 1 + a * geom a len.
Proof.
  unfold geom. rewrite zsum_first. change (a ^ Z.of_nat 0) with 1. f_equal. rewrite <- zsum_mul_l. apply zsum_ext. intros i _.
  rewrite Nat2Z.inj_succ, Z.pow_succ_r by lia. reflexivity.
Qed.

Lemma geom_nonneg a len : 0 <= a -> 0 <= geom a len.
Proof. intros H. apply zsum_nonneg. intros i _. apply Z.pow_nonneg, H. Qed.

Lemma l1_nonneg n f : 0 <= l1 n f.
Proof. apply zsum_nonneg. intros i _. apply Z.abs_nonneg. Qed.

Lemma phase_bound n s B : (0 < n)%nat -> 0 <= B -> forall ds, Forall (fun d => forall i, (i < n)%nat -> Z.abs (d i) <= B) ds ->
  forall i, (i < n)%nat -> Z.abs (phase_of n s ds i) <= B * geom (l1 n s) (length ds).
Proof.
  intros Hn HB ds HF. induction HF as [|d ds Hd HF IH]; intros i Hi.
  - unfold phase_of, phase. cbn. lia.
  - rewrite (pcong0 _ _ _ (phase_cons 0 n Hn s d ds) i Hi). unfold padd. cbn [length]. rewrite geom_succ.
    rewrite (pcong0 _ _ _ (neg_comm 0 n s (phase_of n s ds)) i Hi).
    pose proof (l1_nonneg n s) as L0. pose proof (geom_nonneg _ (length ds) L0) as G0.
    pose proof (negacyclic_l1 n (phase_of n s ds) s (B * geom (l1 n s) (length ds)) i ltac:(nia) IH Hi) as A.
    specialize (Hd i Hi). lia.
Qed.

Lemma mono_l1 n e : (0 < n)%nat -> zsum n (fun k => Z.abs (mono n e k)) = 1.
Proof.
  intros Hn. destruct (mod_2n_cases n e Hn) as (c & r & b & Hr & Hb & ->).
  rewrite (zsum_single n r); [|exact Hr|].
  - replace (c * (2 * n) + b * n + r)%nat with (b * n + r + c * (2 * n))%nat by lia. rewrite mono_shift by exact Hn.
    destruct Hb as [-> | ->].
    + cbn [Nat.mul Nat.add]. rewrite mono_small, Nat.eqb_refl by assumption. reflexivity.
    + rewrite mono_neg_odd by (assumption || reflexivity). rewrite mono_small, Nat.eqb_refl by assumption. reflexivity.
  - intros i Hi Ne. replace (c * (2 * n) + b * n + r)%nat with (b * n + r + c * (2 * n))%nat by lia. rewrite mono_shift by exact Hn.
    destruct Hb as [-> | ->].
    + cbn [Nat.mul Nat.add]. rewrite mono_small by assumption. destruct (Nat.eqb_spec r i); [lia|reflexivity].
    + rewrite mono_neg_odd by (assumption || reflexivity). rewrite mono_small by assumption. destruct (Nat.eqb_spec r i); [lia|reflexivity].
Qed.

Lemma l1_subst n p f : (0 < n)%nat -> l1 n (substituted n p f) <= l1 n f.
Proof.
  intros Hn. unfold l1.
  transitivity (zsum n (fun k => zsum n (fun i => Z.abs (f i) * Z.abs (mono n (i * p) k)))).
  - apply zsum_le. intros k _. rewrite substituted_mono. eapply Z.le_trans; [apply zsum_abs|]. apply zsum_le. intros i _. rewrite Z.abs_mul. lia.
  - rewrite (zsum_swap n n (fun k i => Z.abs (f i) * Z.abs (mono n (i * p) k))). apply Z.eq_le_incl. apply zsum_ext. intros i _.
    rewrite zsum_mul_l, mono_l1 by exact Hn. ring.
Qed.

Lemma geom_mono a b len : 0 <= a <= b -> geom a len <= geom b len.
Proof. intros H. apply zsum_le. intros i _. apply Z.pow_le_mono_l. exact H. Qed.

(** ** Modulus reduction *)
Section ModReduce.
Variables (k : Z) (L : nat) (ms : list pmod) (ml : pmod).
Hypothesis OK : moduli_ok k L ms.
Hypothesis OKl : mod_ok k L ml.
Hypothesis NE : ms <> [].
Local Notation n := (2 ^ L)%nat.
Local Notation ql := (modulus ml).
Variable inv : rnsint.
Hypothesis HI : inverses ms inv (modulus ml).
Variable t : Z.
Hypothesis Ht : 0 < t < 2 ^ k.
Variable s : nat -> Z.

Definition delta (f : nat -> Z) (i : nat) : Z := centered ql (ql / t * f i).
Definition lowered (f : nat -> Z) (i : nat) : Z := ((ql mod t) * f i + t * delta f i) / ql.

Lemma lowered_eq f i : ql * lowered f i = (ql mod t) * f i + t * delta f i.
Proof.
  pose proof (ok_q k L ml OKl) as Q1. unfold lowered. symmetry. apply Z_div_exact_full_2; [lia|]. apply Z.mod_divide; [lia|].
  apply reduce_divides. pose proof (Z_div_mod_eq_full ql t). lia.
Qed.

Lemma delta_bound f i : 2 * Z.abs (delta f i) <= ql - 1.
Proof.
  pose proof (ok_q k L ml OKl) as Q1. unfold delta. pose proof (centered_fits ql (ql / t * f i) ltac:(lia)) as F. unfold fits in F.
  pose proof (g_odd (pm_p ml) (ok_good k L ml OKl)) as O. fold ql in O. pose proof (Z_div_mod_eq_full ql 2). lia.
Qed.

Lemma lowered_phase S0 cs i : (i < n)%nat ->
  ql * phase_of n S0 (map lowered cs) i = (ql mod t) * phase_of n S0 cs i + t * phase_of n S0 (map delta cs) i.
Proof.
  pose proof (Hn L) as N0. revert i. induction cs as [|c cs IH]; intros l Hl; cbn [map].
  - unfold phase_of, phase. cbn. ring.
  - rewrite (pcong0 _ _ _ (phase_cons 0 n N0 S0 (lowered c) _) l Hl), (pcong0 _ _ _ (phase_cons 0 n N0 S0 c _) l Hl),
      (pcong0 _ _ _ (phase_cons 0 n N0 S0 (delta c) _) l Hl). unfold padd.
    pose proof (lowered_eq c l) as E1.
    rewrite !(pcong0 _ _ _ (neg_comm 0 n S0 _) l Hl).
    set (X := phase_of n S0 (map lowered cs)) in *. set (Y := phase_of n S0 cs) in *. set (W := phase_of n S0 (map delta cs)) in *.
    pose proof (negacyclic_lin n ql 0 X X S0 l) as A1. pose proof (negacyclic_lin n (ql mod t) (- t) Y W S0 l) as A2.
    assert (A3 : negacyclic n (fun i => ql * X i - 0 * X i) S0 l = negacyclic n (fun i => (ql mod t) * Y i - - t * W i) S0 l).
    { unfold negacyclic. apply zsum_ext. intros i Hi. rewrite !Z.mul_0_l, Z.sub_0_r, (IH i) by lia.
      destruct (i <=? l)%nat; ring. }
    lia.
Qed.

(** the number the reduced ciphertext decrypts to, for one that decrypts to w *)
Lemma mod_reduce_gives len j x w : ciphertext (ms ++ [ml]) L s len j x w -> 0 <= j ->
  exists w' d, gives ms L s len j (rbgv_mod_reduce x t inv) w' /\
    forall i, (i < n)%nat -> ql * w' i = (ql mod t) * w i + t * d i /\
      2 * Z.abs (d i) <= (ql - 1) * geom (l1 n s) len.
Proof.
  intros (X1 & X2 & X3 & cs & HF & HP) Hj. pose proof (Hn L) as N0. pose proof (ok_q k L ml OKl) as Q1.
  set (Q := big_q ms) in *. set (S0 := substituted n (Z.to_nat j) s) in *.
  assert (EQ : big_q (ms ++ [ml]) = Q * ql).
  { unfold Q, big_q, moduli. rewrite map_app, prodz_app. cbn [map]. rewrite prodz_cons. cbn. ring. }
  set (z := fun i => (phase_of n S0 cs i - w i) / (Q * ql)).
  assert (Hz : forall i, (i < n)%nat -> phase_of n S0 cs i = w i + Q * ql * z i).
  { intros i Hi. destruct (HP i Hi) as [y Ey]. rewrite EQ in Ey. unfold z. rewrite Ey.
    assert (Q <> 0). { unfold Q. pose proof (big_q_pos k L ms OK). lia. }
    rewrite Z.div_mul by nia. lia. }
  exists (fun i => phase_of n S0 (map lowered cs) i - (ql mod t) * Q * z i), (phase_of n S0 (map delta cs)). split.
  - destruct (inverses_words k L ms inv ql OK HI) as (HW & HC).
    assert (R : exists ys, seqr (map (fun c => rns_mod_reduce_lsb c t inv (ms ++ [ml])) (rt_c x)) = Ok ys /\
      Forall2 (rns_is ms L true) ys (map lowered cs)).
    { clear X3 HP z Hz. induction HF as [|c d c0 ds Hc HF IH]; cbn [map seqr]; [exists []; auto|].
      destruct (lsb_ok k L ms ml OK OKl NE inv _ HC HW true c d t Hc Ht (lowered d)) as (c' & E & Hc').
      { intros i _. symmetry. apply lowered_eq. }
      destruct IH as (cs' & E' & HF'). rewrite E. cbn [bind]. rewrite E'. cbn [bind]. exists (c' :: cs'). auto. }
    destruct R as (ys & E & HY). unfold rbgv_mod_reduce. rewrite X1, app_length. cbn [length].
    assert (LN : (1 <= length ms)%nat) by (revert NE; destruct ms; [contradiction|cbn; lia]). destruct (Nat.leb_spec (length ms + 1) 1); [lia|]. rewrite E. cbn [bind].
    eexists. split; [reflexivity|]. split; [|split; [exact X2|]].
    { cbn [rt_ms]. replace (length ms + 1 - 1)%nat with (length ms) by lia. rewrite firstn_app, Nat.sub_diag, firstn_all. cbn. apply app_nil_r. }
    cbn [rt_c]. pose proof (Forall2_len _ _ _ HY) as L1. pose proof (Forall2_len _ _ _ HF) as L2. rewrite map_length in L1.
    split; [congruence|]. exists (map lowered cs). split; [exact HY|]. fold S0. intros i Hi. exists ((ql mod t) * z i). fold Q. ring.
  - intros i Hi. pose proof (lowered_phase S0 cs i Hi) as A. rewrite (Hz i Hi) in A. split; [lia|].
    pose proof (delta_bound) as DB.
    assert (B : Z.abs (phase_of n S0 (map delta cs) i) <= (ql - 1) / 2 * geom (l1 n S0) (length (map delta cs))).
    { apply phase_bound; [exact N0|apply Z.div_pos; lia| |exact Hi]. apply Forall_forall. intros d Hd l _. apply in_map_iff in Hd.
      destruct Hd as (f & <- & _). apply Z.div_le_lower_bound; [lia|]. apply DB. }
    rewrite map_length, <- (Forall2_len _ _ _ HF), X3 in B.
    pose proof (l1_nonneg n S0). pose proof (l1_subst n (Z.to_nat j) s N0) as LS. fold S0 in LS.
    pose proof (geom_mono (l1 n S0) (l1 n s) len ltac:(lia)) as GM. pose proof (geom_nonneg _ len H).
    pose proof (Z.mul_div_le (ql - 1) 2 ltac:(lia)). nia.
Qed.
End ModReduce.
