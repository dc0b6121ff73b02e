(** Statements about the NTT in the vocabulary of Spec.v. *)
From Coq Require Import Arith ArithRing Znumtheory.
From Verif Require Import Base FinSum Montgomery Ntt ZLemmas MontgomeryProofs TranscriptionProofs
  Fermat RootCount NttIndex NttMath Spec ArithFacts NttProofs.

(** [np] is what InitializeNttParameters(log_n) returns for a prime modulus. *)
Definition ntt_for (p : mparams) (L : nat) (np : nttp) : Prop :=
  prime (p_m p) /\ init_ntt p (Z.of_nat L) = Ok np.

(** psi: the table entry at the position whose reversed index is 1 *)
Definition ntt_root (p : mparams) (np : nttp) : Z :=
  export_int p (nth (np_n np / 2) (np_psis np) 0).

Lemma bit_reversal_mod L : forall i j, (i mod 2 ^ L = j mod 2 ^ L)%nat ->
  bit_reversal L i = bit_reversal L j.
Proof.
  induction L as [|l IH]; intros i j H; [reflexivity|]. cbn [bit_reversal].
  assert (E : Nat.testbit i l = Nat.testbit j l).
  { rewrite <- (Nat.mod_pow2_bits_low i (S l) l), <- (Nat.mod_pow2_bits_low j (S l) l), H by lia.
    reflexivity. }
  assert (E2 : (i mod 2 ^ l = j mod 2 ^ l)%nat).
  { assert (X : forall a, ((a mod 2 ^ S l) mod 2 ^ l = a mod 2 ^ l)%nat).
    { intros a. rewrite Nat.pow_succ_r', (Nat.mul_comm 2). rewrite Nat.mod_mul_r by (try lia; apply Nat.pow_nonzero; lia).
      rewrite (Nat.mul_comm (2 ^ l)), Nat.mod_add by (apply Nat.pow_nonzero; lia).
      apply Nat.mod_mod, Nat.pow_nonzero; lia. }
    rewrite <- (X i), <- (X j), H. reflexivity. }
  rewrite E, (IH i j E2). reflexivity.
Qed.

Lemma bitrev_spec L : forall i, (i < 2 ^ L)%nat -> bitrev i L = bit_reversal L i.
Proof.
  induction L as [|l IH]; intros i Hi; [reflexivity|]. cbn [bit_reversal].
  rewrite Nat.pow_succ_r' in Hi. pose proof (pow2_gt0 l).
  destruct (Nat.lt_ge_cases i (2 ^ l)) as [Hl|Hl].
  - rewrite bitrev_low by exact Hl. rewrite IH by exact Hl.
    rewrite Nat.testbit_eqb, Nat.div_small by exact Hl. reflexivity.
  - replace i with (2 ^ l + (i - 2 ^ l))%nat at 1 by lia. rewrite bitrev_high by lia.
    rewrite IH by lia.
    assert (T : Nat.testbit i l = true).
    { rewrite Nat.testbit_eqb. replace (i / 2 ^ l)%nat with 1%nat; [reflexivity|].
      apply Nat.div_unique with (i - 2 ^ l)%nat; lia. }
    rewrite T. rewrite (bit_reversal_mod l (i - 2 ^ l) i); [lia|].
    replace i with (i - 2 ^ l + 1 * 2 ^ l)%nat at 2 by lia. rewrite Nat.mod_add by lia. reflexivity.
Qed.

Lemma bitrev_half l : bitrev (2 ^ l) (S l) = 1%nat.
Proof.
  replace (2 ^ l)%nat with (2 ^ l + 0)%nat by lia. rewrite bitrev_high by (apply pow2_gt0).
  rewrite bitrev_zero. reflexivity.
Qed.

Lemma init_reject k m p log_n : params_for k m p ->
  ~ (1 <= log_n <= 15 /\ m mod 2 ^ (log_n + 1) = 1) -> init_ntt p log_n = Err InvalidArgument.
Proof.
  intros H N. pose proof (pf_good _ _ _ H) as (G & <- & <-).
  pose proof (m_gt1 p G). pose proof (m4 p G). pose proof (k_pos p G).
  unfold init_ntt, max_log_num_coeffs, does_log_n_fit.
  destruct (Z.leb_spec log_n 0); [reflexivity|]. destruct (Z.ltb_spec 15 log_n); [reflexivity|].
  destruct (Z.ltb_spec log_n (p_k p - 1)); cbn [negb]; [|reflexivity].
  assert (2 ^ (log_n + 1) <= 2 ^ p_k p) by (apply Z.pow_le_mono_r; lia).
  assert (0 < 2 ^ (log_n + 1)) by (apply pow2_pos; lia).
  destruct (Z.eq_dec (2 ^ (log_n + 1)) (2 ^ p_k p)) as [E|E].
  - apply Z.pow_inj_r in E; lia.
  - rewrite wrap_small by lia. destruct (Z.eqb_spec (p_m p mod 2 ^ (log_n + 1)) 1); [|reflexivity].
    exfalso. apply N. lia.
Qed.

Lemma fit_of_mod p log_n : good p -> 1 <= log_n -> p_m p mod 2 ^ (log_n + 1) = 1 -> log_n < p_k p - 1.
Proof.
  intros G Hl Hm. pose proof (m_gt1 p G). pose proof (m4 p G). pose proof (k_pos p G).
  assert (2 ^ (log_n + 1) < 2 ^ p_k p).
  { destruct (Z.lt_ge_cases (p_m p) (2 ^ (log_n + 1))) as [L|L]; [|lia].
    rewrite Z.mod_small in Hm by lia. lia. }
  apply Z.pow_lt_mono_r_iff in H2; lia.
Qed.

(** Everything the transforms need. *)
Lemma ntt_for_good k m p L np : params_for k m p -> ntt_for p L np ->
  (1 <= L <= 15)%nat /\ m mod 2 ^ (Z.of_nat L + 1) = 1 /\
  ntt_good p L np (ntt_root p np) /\ 0 <= ntt_root p np < m.
Proof.
  intros H [Hp E]. pose proof H as H0. pose proof (pf_good _ _ _ H) as (G & <- & <-).
  assert (C : 1 <= Z.of_nat L <= 15 /\ p_m p mod 2 ^ (Z.of_nat L + 1) = 1).
  { destruct (Z_le_dec 1 (Z.of_nat L)), (Z_le_dec (Z.of_nat L) 15),
      (Z.eq_dec (p_m p mod 2 ^ (Z.of_nat L + 1)) 1); try (split; [lia|assumption]);
    rewrite (init_reject _ _ _ _ H0) in E by (intros [? ?]; lia || contradiction); discriminate. }
  destruct C as [C1 C2]. pose proof (fit_of_mod p (Z.of_nat L) G ltac:(lia) C2) as Fit.
  destruct (init_ntt_ok p G Hp (Z.of_nat L) C1 Fit C2) as (np' & X & E' & HX & NG).
  rewrite E in E'. injection E' as <-. rewrite Nat2Z.id in NG.
  assert (EX : ntt_root p np = X).
  { unfold ntt_root. rewrite (ng_n p L np X NG).
    assert (exists l, L = S l) as [l ->] by (exists (pred L); lia).
    rewrite Nat.pow_succ_r', (Nat.mul_comm 2), Nat.div_mul by lia.
    destruct (ng_psis p (S l) np X NG (2 ^ l)) as [Cr V].
    { rewrite Nat.pow_succ_r'. pose proof (pow2_gt0 l). lia. }
    rewrite bitrev_half in V. change (Z.of_nat 1) with 1 in V. rewrite Z.pow_1_r in V.
    rewrite stored_val; [|exact G|apply reduced_stored; exact Cr].
    apply (cong_small (p_m p)); [apply val_range; exact G|exact HX|exact V]. }
  rewrite EX. split; [lia|]. split; [assumption|]. split; assumption.
Qed.

(** An exact power-of-two order. *)
Lemma two_adic : forall fuel f, 0 < f < Z.of_nat fuel ->
  exists a o, f = 2 ^ Z.of_nat a * (2 * o + 1) /\ 0 <= o.
Proof.
  induction fuel as [|fuel IH]; intros f Hf; [lia|].
  pose proof (Z.div_mod f 2 ltac:(lia)) as D. pose proof (Z.mod_pos_bound f 2 ltac:(lia)).
  destruct (Z.eq_dec (f mod 2) 1) as [E|E].
  - exists O, (f / 2). change (2 ^ Z.of_nat 0) with 1. lia.
  - destruct (IH (f / 2) ltac:(lia)) as (a & o & Ef & Ho).
    exists (S a), o. rewrite Nat2Z.inj_succ, Z.pow_succ_r by lia. split; [|exact Ho].
    rewrite <- Z.mul_assoc, <- Ef. lia.
Qed.

Lemma root_order m L X : 2 < m -> cong m (X ^ (2 ^ Z.of_nat L)) (-1) ->
  (forall e, 0 < e < 2 ^ (Z.of_nat L + 1) -> X ^ e mod m <> 1).
Proof.
  intros Hm HX e He E.
  destruct (two_adic (S (Z.to_nat e)) e ltac:(lia)) as (a & o & Ef & Ho).
  assert (0 < 2 ^ Z.of_nat a) by (apply pow2_pos; lia).
  assert (Ha : Z.of_nat a < Z.of_nat L + 1).
  { apply (Z.pow_lt_mono_r_iff 2); try lia; nia. }
  assert (C : cong m (X ^ e) 1) by (apply cong_iff; [lia|]; rewrite E, Z.mod_1_l; lia).
  assert (C2 : cong m ((X ^ e) ^ 2 ^ (Z.of_nat L - Z.of_nat a)) 1).
  { rewrite C, Z.pow_1_l; [reflexivity|apply Z.pow_nonneg; lia]. }
  rewrite <- Z.pow_mul_r in C2 by (try apply Z.pow_nonneg; lia).
  replace (e * 2 ^ (Z.of_nat L - Z.of_nat a)) with (2 ^ Z.of_nat L * (2 * o + 1)) in C2.
  2:{ rewrite Ef. assert (PE : 2 ^ Z.of_nat L = 2 ^ Z.of_nat a * 2 ^ (Z.of_nat L - Z.of_nat a)).
      { rewrite <- Z.pow_add_r by (clear - Ha; lia). f_equal. clear; lia. }
      rewrite PE. ring. }
  rewrite Z.pow_mul_r, HX in C2 by (try apply Z.pow_nonneg; lia).
  rewrite Z.pow_add_r, Z.pow_mul_r, Z.pow_1_r in C2 by lia.
  replace ((-1) ^ 2) with 1 in C2 by reflexivity. rewrite Z.pow_1_l in C2 by lia.
  destruct C2 as [q Q]. assert (m * q = -2) by lia.
  assert (q = -1 \/ q <= -2 \/ 0 <= q) as [->|[?|?]] by lia; nia.
Qed.

Lemma init_wellformed k m p L np : params_for k m p -> ntt_for p L np ->
  let psi := ntt_root p np in let n := (2 ^ L)%nat in
  np_n np = n /\ 0 <= psi < m /\ psi ^ Z.of_nat n mod m = m - 1 /\
  psi ^ (2 * Z.of_nat n) mod m = 1 /\
  (forall e, 0 < e < 2 * Z.of_nat n -> psi ^ e mod m <> 1) /\
  length (np_psis np) = n /\ length (np_psis_inv np) = n /\
  (forall i, (i < n)%nat ->
     reduced p (nth i (np_psis np) 0) /\ reduced p (nth i (np_psis_inv np) 0) /\
     export_int p (nth i (np_psis np) 0) = psi ^ Z.of_nat (bit_reversal L i) mod m /\
     (export_int p (nth i (np_psis_inv np) 0) * psi ^ Z.of_nat (bit_reversal L i + 1)) mod m = 1) /\
  np_psis_c np = map (get_constant p) (np_psis np) /\
  np_psis_inv_c np = map (get_constant p) (np_psis_inv np) /\
  np_bitrevs np = map (bit_reversal L) (seq 0 n) /\
  reduced p (np_ninv np) /\ (export_int p (np_ninv np) * Z.of_nat n) mod m = 1.
Proof.
  intros H HN. destruct (ntt_for_good k m p L np H HN) as (HL & Hm & NG & HX).
  pose proof (pf_good _ _ _ H) as (G & <- & <-). cbv zeta.
  pose proof (m_gt1 p G) as M1. set (X := ntt_root p np) in *.
  assert (M2 : 2 < p_m p). { assert (p_m p <> 2); [|lia]. intros E. pose proof (g_odd p G) as O. rewrite E in O. discriminate. }
  pose proof (ng_root p L np X NG) as RT.
  assert (E1 : forall a, cong (p_m p) a 1 -> a mod p_m p = 1).
  { intros a C. apply cong_iff in C; [|lia]. rewrite C. apply Z.mod_1_l. lia. }
  split; [apply NG|]. split; [exact HX|].
  split. { apply cong_to_mod in RT; [|lia]. rewrite RT.
           symmetry. apply Z.mod_unique with (-1); lia. }
  split. { apply E1. rewrite Z.mul_comm, Z.pow_mul_r by lia. rewrite RT. apply cong_eq. reflexivity. }
  split. { replace (2 * Z.of_nat (2 ^ L)) with (2 ^ (Z.of_nat L + 1)).
           - apply root_order; [exact M2|]. rewrite <- pow_of_nat2. exact RT.
           - rewrite pow_of_nat2, Z.pow_add_r by lia. ring. }
  split; [apply NG|]. split; [apply NG|].
  split.
  { intros i Hi. destruct (ng_psis p L np X NG i Hi) as [C V], (ng_psis_inv p L np X NG i Hi) as [Ci Vi].
    rewrite bitrev_spec in V, Vi by exact Hi.
    split; [exact C|]. split; [exact Ci|].
    rewrite !stored_val by (try exact G; apply reduced_stored; assumption).
    split; [apply cong_reduced; [apply val_range; exact G|exact V]|]. apply E1. exact Vi. }
  split; [apply NG|]. split; [apply NG|].
  split. { rewrite (ng_bitrevs p L np X NG). unfold bitrev_array. apply map_ext_in. intros i Hi.
           apply in_seq in Hi. apply bitrev_spec. lia. }
  destruct (ng_ninv p L np X NG) as [C V]. split; [exact C|].
  rewrite stored_val by (try exact G; apply reduced_stored; assumption). apply E1. exact V.
Qed.

Lemma forward_evaluates k m p L np v : params_for k m p -> ntt_for p L np ->
  length v = (2 ^ L)%nat -> Forall (stored p) v ->
  exists out, forward_ntt p np v = Ok out /\ length out = (2 ^ L)%nat /\ Forall (reduced p) out /\
    forall j, (j < 2 ^ L)%nat ->
      export_int p (nth j out 0) =
      zsum (2 ^ L) (fun i => export_int p (nth i v 0) *
                    ntt_root p np ^ Z.of_nat ((2 * bit_reversal L j + 1) * i)) mod m.
Proof.
  intros H HN Hv Hs. destruct (ntt_for_good k m p L np H HN) as (HL & Hm & NG & HX).
  pose proof (pf_good _ _ _ H) as (G & <- & <-). set (X := ntt_root p np) in *.
  destruct (forward_eval p G L np X NG v Hv Hs) as (o & Eo & Lo & Co & Vo).
  exists o. split; [exact Eo|]. split; [exact Lo|]. split; [exact Co|].
  intros j Hj. rewrite Forall_forall in Co, Hs.
  rewrite stored_val by (try exact G; apply reduced_stored, Co, nth_In; lia).
  apply cong_reduced; [apply val_range; exact G|]. rewrite (Vo j Hj).
  apply zsum_cong. intros i Hi. rewrite stored_val by (try exact G; apply Hs, nth_In; lia).
  rewrite bitrev_spec by exact Hj. rewrite <- Z.pow_mul_r by lia. rewrite <- Nat2Z.inj_mul. reflexivity.
Qed.

Lemma export_mod p n : good p -> stored p n -> export_int p (n mod p_m p) = export_int p n.
Proof.
  intros G Hn. rewrite !stored_val; try assumption.
  - apply val_mod.
  - apply reduced_stored, mod_crep. exact G.
Qed.

Lemma inverse_then k m p L np v : params_for k m p -> ntt_for p L np ->
  length v = (2 ^ L)%nat -> Forall (stored p) v ->
  (exists o, forward_ntt p np v = Ok o /\ inverse_ntt p np o = Ok (map (fun x => x mod m) v)) /\
  (exists o, inverse_ntt p np v = Ok o /\ forward_ntt p np o = Ok (map (fun x => x mod m) v)) /\
  map (export_int p) (map (fun x => x mod m) v) = map (export_int p) v.
Proof.
  intros H HN Hv Hs. destruct (ntt_for_good k m p L np H HN) as (HL & Hm & NG & HX).
  pose proof (pf_good _ _ _ H) as (G & <- & <-).
  split; [eapply inverse_forward; eassumption|]. split; [eapply forward_inverse; eassumption|].
  rewrite map_map. apply map_ext_in. intros x Hx. rewrite Forall_forall in Hs.
  apply export_mod; [exact G|apply Hs; exact Hx].
Qed.

Lemma ntt_bad_length p np v : v <> [] -> length v <> (2 ^ Nat.log2 (length v))%nat ->
  forward_ntt p np v = Err InvalidArgument /\ inverse_ntt p np v = Err InvalidArgument.
Proof.
  intros H N. assert (length v <> 0)%nat by (destruct v; [congruence|cbn; lia]).
  unfold forward_ntt, inverse_ntt. destruct (Nat.eqb_spec (length v) 0); [lia|].
  destruct (Nat.eqb_spec (length v) (2 ^ Nat.log2 (length v))); [lia|]. split; reflexivity.
Qed.
