(** C101: what the two transforms do with a vector whose length is a power of
    two other than the context's. *)
From Coq Require Import Arith ArithRing Znumtheory Lia.
From Verif Require Import Base FinSum Montgomery Ntt ZLemmas MontgomeryProofs TranscriptionProofs
  Fermat RootCount NttIndex NttMath Spec ArithFacts NttProofs NttFacts ThmArith ThmNtt NttLen.

(** A shorter vector: the forward transform is the transform of that length.
    Component j is the value of the polynomial at the (2 rev(j) + 1)-th power of
    psi^(2^(L-d)), a root of x^(2^d) + 1. *)
Theorem C101_forward_shorter :
  forall k m p L np d v, params_for k m p -> ntt_for p L np -> (1 <= d <= L)%nat ->
  length v = (2 ^ d)%nat -> Forall (stored p) v ->
  let psi := ntt_root p np ^ 2 ^ Z.of_nat (L - d) in
  psi ^ 2 ^ Z.of_nat d mod m = m - 1 /\
  exists out, forward_ntt p np v = Ok out /\ length out = (2 ^ d)%nat /\ Forall (reduced p) out /\
    forall j, (j < 2 ^ d)%nat ->
      export_int p (nth j out 0) =
      zsum (2 ^ d) (fun i => export_int p (nth i v 0) * psi ^ Z.of_nat ((2 * bit_reversal d j + 1) * i)) mod m.
Proof.
  intros k m p L np d v H HN Hd Hv Hs. destruct (ntt_for_good k m p L np H HN) as (HL & Hm & NG & HX).
  pose proof (pf_good _ _ _ H) as (G & <- & <-). pose proof (m_gt1 p G) as M1. set (X := ntt_root p np) in *. cbv zeta.
  rewrite <- pow_of_nat2. set (e := (L - d)%nat) in *. replace L with (e + d)%nat in NG by lia.
  pose proof (short_good p np X d e G ltac:(lia) NG) as NS. split.
  { pose proof (ng_root _ _ _ _ NS) as RT. rewrite <- pow_of_nat2. apply cong_iff in RT; [|lia]. rewrite RT. symmetry. apply Z.mod_unique with (-1); lia. }
  destruct (forward_eval p G d _ _ NS v Hv Hs) as (o & Eo & Lo & Co & Vo).
  exists o. split; [|split; [exact Lo|split; [exact Co|]]].
  - apply (forward_app p np (short_np p np X d e) (skipn (2 ^ d) (np_psis_c np)) v o); [|exact Eo]. cbn [np_psis_c short_np]. symmetry. apply firstn_skipn.
  - intros j Hj. rewrite Forall_forall in Co, Hs.
    rewrite stored_val by (try exact G; apply reduced_stored, Co, nth_In; lia).
    apply cong_reduced; [apply val_range; exact G|]. rewrite (Vo j Hj).
    apply zsum_cong. intros i Hi. rewrite stored_val by (try exact G; apply Hs, nth_In; lia).
    rewrite bitrev_spec by exact Hj. rewrite <- (Z.pow_mul_r _ (Z.of_nat (2 * _ + 1))) by lia. rewrite <- Nat2Z.inj_mul. reflexivity.
Qed.

(** The inverse transform of a shorter vector is accepted too, but it is not the
    inverse: after both transforms the constant coefficient has been divided by
    2^(L-d). *)
Theorem C101_round_trip_shorter :
  forall k m p L np d v, params_for k m p -> ntt_for p L np -> (1 <= d <= L)%nat ->
  length v = (2 ^ d)%nat -> Forall (stored p) v ->
  exists o w, forward_ntt p np v = Ok o /\ inverse_ntt p np o = Ok w /\ length w = (2 ^ d)%nat /\ Forall (reduced p) w /\
    (export_int p (nth 0 w 0) * 2 ^ Z.of_nat (L - d)) mod m = export_int p (nth 0 v 0).
Proof.
  intros k m p L np d v H HN Hd Hv Hs. destruct (ntt_for_good k m p L np H HN) as (HL & Hm & NG & HX).
  pose proof (pf_good _ _ _ H) as (G & <- & <-). pose proof (m_gt1 p G) as M1. pose proof (pow2_gt0 d) as Pd. set (X := ntt_root p np) in *.
  set (e := (L - d)%nat) in *. assert (EL : L = (e + d)%nat) by lia. clearbody e. subst L.
  pose proof (short_good p np X d e G ltac:(lia) NG) as NS. set (ns := short_np p np X d e) in *.
  destruct (inverse_forward p G d ns _ NS v Hv Hs) as (o & Eo & Ei).
  destruct (forward_ok p G d ns _ NS v Hv Hs) as (o' & Eo' & Lo & Co & _). rewrite Eo in Eo'. injection Eo' as <-.
  assert (Ro : Forall (rep p) o) by (apply Forall_forall; intros x Hx; apply crep_rep; rewrite Forall_forall in Co; apply Co; exact Hx).
  assert (CS : forall L' np' X', ntt_good p L' np' X' -> length (np_psis_inv_c np') = (2 ^ L')%nat /\ (forall h, (h < length (np_psis_inv_c np'))%nat -> exists c, const_for p c (nth h (np_psis_inv_c np') (0, 0)))).
  { intros L' np' X' N. assert (Q : length (np_psis_inv_c np') = (2 ^ L')%nat) by (rewrite (ng_psis_inv_c _ _ _ _ N), map_length; apply (ng_psis_inv_len _ _ _ _ N)).
    split; [exact Q|]. rewrite Q. intros h Hh. destruct (psis_inv_const p G L' np' X' N h Hh) as (c & Hc & _). eauto. }
  destruct (CS _ _ _ NS) as [L1 C1]. destruct (CS _ _ _ NG) as [L2 C2].
  destruct (inverse_zero p ns G C1 d o Lo Ro ltac:(apply crep_rep, (ng_ninv _ _ _ _ NS)) ltac:(lia)) as (w1 & Ew1 & _ & _ & V1).
  assert (LE : (2 ^ d <= 2 ^ (e + d))%nat) by (apply Nat.pow_le_mono_r; lia).
  destruct (inverse_zero p np G C2 d o Lo Ro ltac:(apply crep_rep, (ng_ninv _ _ _ _ NG)) ltac:(lia)) as (w & Ew & Lw & Cw & V2).
  exists o, w. split; [|split; [exact Ew|split; [exact Lw|split; [exact Cw|]]]].
  - apply (forward_app p np ns (skipn (2 ^ d) (np_psis_c np)) v o); [|exact Eo]. cbn [np_psis_c short_np ns]. symmetry. apply firstn_skipn.
  - rewrite Ei in Ew1. injection Ew1 as <-. rewrite (nth_map_any _ _ 0) in V1 by lia. rewrite (val_mod p) in V1.
    rewrite Forall_forall in Cw, Hs. rewrite !stored_val by (try exact G; solve [apply reduced_stored, Cw, nth_In; lia | apply Hs, nth_In; lia]).
    symmetry. apply cong_reduced; [apply val_range; exact G|].
    rewrite V1, V2. cbn [np_ninv short_np ns]. rewrite import_val by (try exact G; pose proof (m4 p G); match goal with |- context [?x mod _] => pose proof (Z.mod_pos_bound x (p_m p) ltac:(lia)) end; lia). rewrite Z.mod_mod by lia. rewrite cong_mod. apply cong_eq. ring.
Qed.

(** So no vector with a non-zero constant coefficient comes back. *)
Theorem C101_round_trip_shorter_refuted :
  forall k m p L np d v, params_for k m p -> ntt_for p L np -> (1 <= d < L)%nat ->
  length v = (2 ^ d)%nat -> Forall (stored p) v -> export_int p (nth 0 v 0) <> 0 ->
  exists o w, forward_ntt p np v = Ok o /\ inverse_ntt p np o = Ok w /\ map (export_int p) w <> map (export_int p) v.
Proof.
  intros k m p L np d v H HN Hd Hv Hs N0. destruct (C101_round_trip_shorter k m p L np d v H HN ltac:(lia) Hv Hs) as (o & w & Eo & Ew & Lw & Cw & V).
  exists o, w. split; [exact Eo|]. split; [exact Ew|]. intros E. pose proof (pow2_gt0 d) as Pd.
  destruct (ntt_for_good k m p L np H HN) as (HL & Hm & NG & HX). destruct HN as [Hp _]. pose proof (pf_good _ _ _ H) as (G & <- & <-). pose proof (m_gt1 p G) as M1.
  assert (E0 : export_int p (nth 0 w 0) = export_int p (nth 0 v 0)).
  { apply (f_equal (fun l => nth 0 l 0)) in E. rewrite !(nth_map_any (export_int p) _ 0) in E by lia. exact E. }
  rewrite E0 in V. set (x := export_int p (nth 0 v 0)) in *.
  assert (Hx : 0 <= x < p_m p). { unfold x. rewrite stored_val; [apply val_range; exact G|exact G|]. rewrite Forall_forall in Hs. apply Hs, nth_In. lia. }
  assert (P2 : 2 ^ Z.of_nat (L - d) < p_m p).
  { pose proof (Z.div_mod (p_m p) (2 ^ (Z.of_nat L + 1)) ltac:(pose proof (pow2_pos (Z.of_nat L + 1) ltac:(lia)); lia)) as DM. rewrite Hm in DM.
    assert (2 ^ Z.of_nat (L - d) < 2 ^ (Z.of_nat L + 1)) by (apply Z.pow_lt_mono_r; lia). assert (0 < p_m p / 2 ^ (Z.of_nat L + 1)) by nia. nia. }
  assert (P1 : 2 <= 2 ^ Z.of_nat (L - d)). { change 2 with (2 ^ 1) at 1. apply Z.pow_le_mono_r; lia. }
  assert (D : (p_m p | x * (2 ^ Z.of_nat (L - d) - 1))).
  { exists (x * 2 ^ Z.of_nat (L - d) / p_m p). pose proof (Z.div_mod (x * 2 ^ Z.of_nat (L - d)) (p_m p) ltac:(lia)) as DM. rewrite V in DM. lia. }
  apply prime_mult in D; [|exact Hp]. destruct D as [D|D]; apply Z.divide_pos_le in D; lia.
Qed.

(** A longer vector: the forward transform reads past the end of the table, the
    inverse transform returns an error. *)
Theorem C101_longer :
  forall k m p L np d v, params_for k m p -> ntt_for p L np -> (L < d)%nat -> length v = (2 ^ d)%nat ->
  forward_ntt p np v = UB /\ inverse_ntt p np v = Err InvalidArgument.
Proof.
  intros k m p L np d v H HN Hd Hv. destruct (ntt_for_good k m p L np H HN) as (HL & _ & NG & _).
  assert (P : (2 * 2 ^ L <= 2 ^ d)%nat) by (rewrite <- Nat.pow_succ_r'; apply Nat.pow_le_mono_r; lia).
  assert (P1 : (2 <= 2 ^ L)%nat) by (change 2%nat with (2 ^ 1)%nat at 1; apply Nat.pow_le_mono_r; lia). split.
  - apply (forward_short p np d v Hv); [|lia]. rewrite (ng_psis_c _ _ _ _ NG), map_length, (ng_psis_len _ _ _ _ NG). lia.
  - apply (inverse_short p np d v Hv). rewrite (ng_psis_inv_c _ _ _ _ NG), map_length, (ng_psis_inv_len _ _ _ _ NG). lia.
Qed.

(** The empty vector and vectors of one element. *)
Theorem C101_tiny :
  forall p np x, forward_ntt p np [] = UB /\ inverse_ntt p np [] = UB /\
    forward_ntt p np [x] = Ok [x] /\ inverse_ntt p np [x] = Ok [mmul p x (np_ninv np)].
Proof. intros. repeat split. Qed.

(** Modulus 12289 and 16 coefficients: eight coefficients are transformed, but do
    not come back; their first is halved (5 = 2 * 6147 mod 12289). *)
Definition v101 : list Z := map (import_int p12289) (map Z.of_nat (seq 5 8)).
Example C101_example :
  length v101 = (2 ^ 3)%nat /\ Forall (stored p12289) v101 /\ export_int p12289 (nth 0 v101 0) = 5 /\
  (do! o <- forward_ntt p12289 np16 v101; do! w <- inverse_ntt p12289 np16 o; Ok (export_int p12289 (nth 0 w 0))) = Ok 6147 /\
  (do! o <- forward_ntt p12289 np16 v101; do! w <- inverse_ntt p12289 np16 o; Ok (export_int p12289 (nth 1 w 0))) <> Ok 6 /\
  forward_ntt p12289 np16 (repeat 1 64) = UB /\ inverse_ntt p12289 np16 (repeat 1 64) = Err InvalidArgument.
Proof.
  split; [reflexivity|]. split. { apply Forall_forall. intros x Hx. revert x Hx. apply Forall_forall. vm_compute. repeat constructor; discriminate. }
  split; [vm_compute; reflexivity|]. split; [vm_compute; reflexivity|]. split; [vm_compute; discriminate|]. split; vm_compute; reflexivity.
Qed.
Print Assumptions C101_forward_shorter.
Print Assumptions C101_round_trip_shorter.
Print Assumptions C101_round_trip_shorter_refuted.
Print Assumptions C101_longer.
Print Assumptions C101_tiny.
Print Assumptions C101_example.
