(** Creation, conversion, serialization and sampling of RNS polynomials. *)
From Coq Require Import Znumtheory.
From Verif Require Import Base FinSum PolySpec Ring Montgomery MontBatch Ntt Poly PolyExt Prng Sampling MontgomeryProofs
  MontBatchProofs Spec PolyView ArithFacts NttFacts NttProofs PolyProofs PolyFacts ThmArith ThmPolyExt ThmKeys SymProofs2
  RnsPoly RnsSpec CrtMath RnsSub RnsProofs.

(** ** Powers of two *)

Lemma pow2_land l : 0 <= l -> Z.land (2 ^ l) (2 ^ l - 1) = 0.
Proof.
  intros H. replace (2 ^ l - 1) with (Z.ones l) by (rewrite Z.ones_equiv; lia).
  rewrite Z.land_ones by exact H. apply Z.mod_same. apply Z.pow_nonzero; lia.
Qed.

Lemma land_pow2 x : 0 < x -> Z.land x (x - 1) = 0 -> x = 2 ^ Z.log2 x.
Proof.
  intros H E. pose proof (Z.log2_spec x H) as [A B]. set (l := Z.log2 x) in *.
  assert (0 <= l) by apply Z.log2_nonneg. destruct (Z.eq_dec x (2 ^ l)) as [|N]; [assumption|exfalso].
  assert (T : Z.testbit (Z.land x (x - 1)) l = true).
  { rewrite Z.land_spec. rewrite Z.bit_log2 by exact H.
    assert (E2 : Z.log2 (x - 1) = l) by (apply Z.log2_unique; lia).
    rewrite <- E2. rewrite Z.bit_log2; [reflexivity|]. pose proof (Z.pow_pos_nonneg 2 l). lia. }
  rewrite E, Z.testbit_0_l in T. discriminate.
Qed.

Lemma is_not_power_spec x : is_not_power_of_two x = false <-> exists l, 0 <= l /\ x = 2 ^ l.
Proof.
  unfold is_not_power_of_two. destruct (Z.leb_spec x 0) as [Hx|Hx].
  - split; [discriminate|]. intros (l & Hl & ->). pose proof (Z.pow_pos_nonneg 2 l). lia.
  - destruct (Z.eqb_spec (Z.land x (x - 1)) 0) as [E|E]; cbn [negb]; split.
    + intros _. exists (Z.log2 x). split; [apply Z.log2_nonneg|apply land_pow2; assumption].
    + reflexivity.
    + discriminate.
    + intros (l & Hl & ->). exfalso. apply E, pow2_land, Hl.
Qed.

Lemma not_power_len L (l : list Z) : length l = (2 ^ L)%nat -> is_not_power_of_two (Z.of_nat (length l)) = false.
Proof. intros E. apply is_not_power_spec. exists (Z.of_nat L). split; [lia|]. rewrite E, Nat2Z.inj_pow. reflexivity. Qed.

Lemma create_iff vs ntt a : rns_create vs ntt = Ok a <->
  exists L, vs <> [] /\ Forall (fun v => length v = 2 ^ L)%nat vs /\ a = {| rp_logn := L; rp_vs := vs; rp_ntt := ntt |}.
Proof.
  unfold rns_create. destruct vs as [|v0 vs]; [split; [discriminate|intros (L & H & _); contradiction]|]. split.
  - destruct (is_not_power_of_two (Z.of_nat (length v0))) eqn:E; [discriminate|]. apply is_not_power_spec in E.
    destruct E as (l & Hl & E).
    destruct (forallb (fun v => (length v =? length v0)%nat) (v0 :: vs)) eqn:F; [|discriminate]. cbn [negb]. intros [= <-].
    assert (E' : length v0 = (2 ^ Z.to_nat l)%nat).
    { apply Nat2Z.inj. rewrite E, Nat2Z.inj_pow, Z2Nat.id by exact Hl. reflexivity. }
    exists (Z.to_nat l). split; [discriminate|]. split.
    + apply Forall_forall. intros v I. rewrite forallb_forall in F. specialize (F v I). apply Nat.eqb_eq in F. congruence.
    + f_equal. rewrite E'. apply Nat.log2_pow2. lia.
  - intros (L & _ & F & ->). inversion F as [|? ? F0 F1]; subst. rewrite (not_power_len L v0 F0).
    assert (B : forallb (fun v => (length v =? length v0)%nat) (v0 :: vs) = true).
    { apply forallb_forall. intros v I. apply Nat.eqb_eq. rewrite Forall_forall in F. rewrite (F v I), F0. reflexivity. }
    rewrite B. cbn [negb]. rewrite F0, Nat.log2_pow2 by lia. reflexivity.
Qed.

(** ** Conversions, serialization *)
Section More.
Variables (k : Z) (L : nat) (ms : list pmod).
Hypothesis OK : moduli_ok k L ms.
Hypothesis NE : ms <> [].
Local Notation n := (2 ^ L)%nat.

Lemma map_each (f : pmod -> result (list Z)) (P : pmod -> list Z -> Prop) l :
  (forall m, In m l -> exists r, f m = Ok r /\ P m r) -> exists rs, seqr (map f l) = Ok rs /\ Forall2 P l rs.
Proof.
  induction l as [|m l IH]; intros H; [exists []; split; [reflexivity|constructor]|].
  destruct (H m (or_introl eq_refl)) as (r & E & Hr). destruct IH as (rs & Es & Hs); [intros; apply H; right; assumption|].
  exists (r :: rs). cbn [map seqr]. rewrite E. cbn [bind]. rewrite Es. split; [reflexivity|constructor; assumption].
Qed.

Lemma convert_is q pq v : params_for k q pq -> length v = n -> Forall (stored pq) v ->
  is_rns ms L true (rns_convert v pq ms) (fun i => export_int pq (nth i v 0)).
Proof.
  intros Hq Lv Sv. unfold rns_convert. rewrite (not_power_len L v Lv).
  assert (M : forall (A : Type) (x y : A), match ms with [] => x | _ :: _ => y end = y) by (clear -NE; destruct ms; [contradiction|reflexivity]).
  rewrite M.
  destruct (map_each (fun m => forward_ntt (pm_p m) (pm_np m) (convert_modulus pq (pm_p m) v))
    (fun m r => sub_is m L true r (fun i => export_int pq (nth i v 0))) ms) as (vs & E & H).
  - intros m I. pose proof (moduli_in _ _ _ _ OK I) as O.
    destruct (C22_convert_modulus k _ _ _ _ v Hq (ok_for k L m O) Sv) as (L1 & S1 & V1).
    apply (sub_forward k L m O). split; [split; [congruence|exact S1]|]. intros i Hi. unfold rcoeff. rewrite V1 by lia. reflexivity.
  - rewrite E. cbn [bind]. eexists. split; [reflexivity|]. split; [|split; [reflexivity|exact H]].
    cbn [rp_logn]. rewrite Lv. apply Nat.log2_pow2. lia.
Qed.

Lemma convert_balanced_is q pq v : params_for k q pq -> length v = n -> Forall (stored pq) v ->
  is_rns ms L true (rns_convert_balanced v pq ms) (fun i => centered q (export_int pq (nth i v 0))).
Proof.
  intros Hq Lv Sv. unfold rns_convert_balanced. rewrite Lv.
  rewrite (Nat2Z.inj_pow 2 L). change (Z.of_nat 2) with 2. rewrite pow2_land by lia. cbn [Z.eqb negb].
  assert (M : forall (A : Type) (x y : A), match ms with [] => x | _ :: _ => y end = y) by (clear -NE; destruct ms; [contradiction|reflexivity]).
  rewrite M.
  destruct (map_each (fun m => forward_ntt (pm_p m) (pm_np m) (convert_balanced pq (pm_p m) v))
    (fun m r => sub_is m L true r (fun i => centered q (export_int pq (nth i v 0)))) ms) as (vs & E & H).
  - intros m I. pose proof (moduli_in _ _ _ _ OK I) as O.
    destruct (C22_convert_balanced k _ _ _ _ v Hq (ok_for k L m O) Sv) as (L1 & S1 & V1).
    apply (sub_forward k L m O). split; [split; [congruence|exact S1]|]. intros i Hi. unfold rcoeff. rewrite V1 by lia. reflexivity.
  - rewrite E. cbn [bind]. eexists. split; [reflexivity|]. split; [|split; [reflexivity|exact H]].
    cbn [rp_logn]. apply Nat.log2_pow2. lia.
Qed.

Lemma serialize_ok a : rns_poly ms L a ->
  exists s, rns_serialize a ms = Ok s /\ rns_deserialize s ms = Ok a.
Proof.
  intros [El H]. pose proof (Forall2_len _ _ _ H) as Len. pose proof (ok_L k L ms OK NE) as RL.
  unfold rns_serialize. rewrite same_len_eq by exact Len.
  assert (G : exists bs, seqr (map2 (fun m v => mserialize_vector (pm_p m) v) ms (rp_vs a)) = Ok bs /\
    Forall2 (fun m b => True) ms bs /\
    seqr (map2 (fun m b => mdeserialize_vector (pm_p m) (Z.of_nat n) b) ms bs) = Ok (rp_vs a)).
  { revert H OK. generalize (rp_vs a). clear -RL. induction ms as [|m t IH]; intros vs H OK.
    - inversion H; subst. exists []. repeat split; constructor.
    - inversion H as [|? v ? vs' [Lv Sv] H']; subst. inversion OK as [|? ? O OK']; subst.
      destruct (IH vs' H' OK') as (bs & E1 & E2 & E3).
      assert (P15 : Z.of_nat n <= 2 ^ 15).
      { rewrite Nat2Z.inj_pow. apply Z.pow_le_mono_r; lia. }
      destruct (C10_serialize_vector k _ _ v (ok_for k L m O) Sv) as (s & Es & _ & _ & Ds).
      { rewrite Lv. apply NttMath.pow2_gt0. } { rewrite Lv. exact P15. }
      rewrite Lv in Ds. exists (s :: bs). cbn [map2 seqr]. rewrite Es. cbn [bind]. rewrite E1. cbn [bind].
      split; [reflexivity|]. split; [constructor; auto|]. rewrite Ds. cbn [bind]. rewrite E3. reflexivity. }
  destruct G as (bs & E1 & E2 & E3). pose proof (Forall2_len _ _ _ E2) as Lb.
  rewrite E1. cbn [bind]. eexists. split; [reflexivity|]. unfold rns_deserialize. cbn [srp_logn srp_vs srp_ntt].
  rewrite El. destruct (Z.leb_spec (Z.of_nat L) 0); [lia|]. rewrite same_len_eq by congruence.
  rewrite (shl_int_ok k L ms OK NE). cbn [bind]. rewrite E3. cbn [bind]. apply create_iff. exists L.
  split; [|split].
  - intros E0. rewrite E0 in H. inversion H. congruence.
  - clear -H. induction H as [|m v l l' [Lv _] H IH]; constructor; auto.
  - destruct a; cbn in *. congruence.
Qed.

Lemma sample_ok R fuel s a s' : rns_sample_uniform R fuel (Z.of_nat L) ms s = Ok (a, s') ->
  rns_poly ms L a /\ rp_ntt a = true.
Proof.
  intros E. pose proof (ok_L k L ms OK NE) as RL. unfold rns_sample_uniform in E.
  destruct (Z.leb_spec (Z.of_nat L) 0); [lia|].
  assert (M : forall (A : Type) (x y : A), match ms with [] => x | _ :: _ => y end = y) by (clear -NE; destruct ms; [contradiction|reflexivity]).
  rewrite M in E. rewrite (shl_int_ok k L ms OK NE) in E. cbn [bind] in E.
  destruct (rns_sample_rows R fuel n ms s) as [[vs s1]| |] eqn:Er; try discriminate. cbn [bind] in E. injection E as <- _.
  split; [|reflexivity]. split; [cbn [rp_logn]; apply Nat2Z.id|]. cbn [rp_vs].
  revert s vs s1 Er. clear M NE. induction ms as [|m t IH]; intros s vs s1 Er; cbn [rns_sample_rows] in Er.
  - injection Er as <- _. constructor.
  - inversion OK as [|? ? O OK']; subst.
    destruct (sample_n R fuel n (pm_p m) s) as [[v s2]| |] eqn:En; try discriminate. cbn [bind] in Er.
    destruct (rns_sample_rows R fuel n t s2) as [[ws s3]| |] eqn:Ew; try discriminate. cbn [bind] in Er. injection Er as <- _.
    constructor; [|eapply (IH OK'), Ew].
    assert (Es : exists s', sample_polynomial R fuel (Z.of_nat n) (pm_p m) s = Ok (v, s')).
    { unfold sample_polynomial. pose proof (NttMath.pow2_gt0 L). destruct (Z.ltb_spec (Z.of_nat n) 1); [lia|].
      rewrite Nat2Z.id, En. cbn [bind]. unfold poly_of. destruct v as [|x v]; [|exists s2; reflexivity].
      exfalso. clear -En H0. revert H0 En. generalize n. intros [|c]; [lia|]. intros _. cbn [sample_n].
      destruct (import_random R fuel (pm_p m) s) as [[x t1]| |]; try discriminate. cbn [bind].
      destruct (sample_n R fuel c (pm_p m) t1) as [[y t2]| |]; discriminate. }
    destruct Es as [s4 Es]. apply (sample_polynomial_stored R (pm_p m) fuel) in Es; [|apply (ok_good k L m O)].
    rewrite Nat2Z.id in Es. destruct Es as (L1 & _ & S1). split; assumption.
Qed.
End More.
