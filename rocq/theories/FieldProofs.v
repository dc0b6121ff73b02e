(** The finite field encoder fills and reads the slots of a polynomial modulo t. *)
From Coq Require Import Znumtheory Lia.
From Verif Require Import Base FinSum PolySpec Ring Montgomery MontBatch Ntt Poly MontgomeryProofs MontBatchProofs TranscriptionProofs NttIndex Spec PolyView ArithFacts NttFacts NttProofs
  ThmNtt RnsPoly RnsSpec CrtMath RnsSub RnsProofs RnsMore RnsCtx RnsEncode FieldSpec FieldMath.
Local Notation zsum := FinSum.zsum.

(** the position of slot i in a transformed vector *)
Definition fslot (L i : nat) : nat := bit_reversal L (Z.to_nat ((slot_power (2 ^ L) i - 1) / 2)).

Section Slots.
Variable L : nat.
Hypothesis HL : (1 <= L)%nat.
Local Notation n := (2 ^ L)%nat.
Local Notation N2 := (2 * Z.of_nat n).

Lemma slot_half i : exists y, (y < n)%nat /\ slot_power n i = 2 * Z.of_nat y + 1 /\ Z.to_nat ((slot_power n i - 1) / 2) = y.
Proof.
  pose proof (slot_range L HL i) as R. pose proof (slot_odd L HL i) as O. apply Z.odd_spec in O. destruct O as [y Ey].
  exists (Z.to_nat y). rewrite Ey. replace (2 * y + 1 - 1) with (y * 2) by ring. rewrite Z.div_mul by lia. split; [lia|]. split; [lia|reflexivity].
Qed.
Lemma fslot_lt i : (fslot L i < n)%nat.
Proof. unfold fslot. destruct (slot_half i) as (y & Hy & _ & ->). rewrite <- bitrev_spec by exact Hy. apply bitrev_lt. Qed.
Lemma fslot_power i : 2 * Z.of_nat (bit_reversal L (fslot L i)) + 1 = slot_power n i.
Proof.
  pose proof (fslot_lt i) as F. unfold fslot in *. destruct (slot_half i) as (y & Hy & Ey & E). rewrite E in *.
  rewrite <- bitrev_spec by exact F. rewrite <- bitrev_spec by exact Hy. rewrite bitrev_invol by exact Hy. lia.
Qed.
Lemma fslot_inj i j : (i < n)%nat -> (j < n)%nat -> fslot L i = fslot L j -> i = j.
Proof. intros Hi Hj E. apply (slot_inj L HL i j Hi Hj). rewrite <- !fslot_power, E. reflexivity. Qed.
Lemma fslot_nodup : NoDup (map (fslot L) (seq 0 n)).
Proof.
  apply (NoDup_nth _ 0%nat). rewrite map_length, seq_length. intros i j Hi Hj E.
  rewrite !(nth_indep (map (fslot L) (seq 0 n)) 0%nat (fslot L 0)) in E by (rewrite map_length, seq_length; assumption).
  rewrite !map_nth, !seq_nth in E by assumption. cbn [Nat.add] in E. apply fslot_inj; assumption.
Qed.

Lemma slot_loop_ok nt : np_bitrevs nt = map (bit_reversal L) (seq 0 n) -> (L <= 14)%nat ->
  forall steps i0, (i0 + steps <= n / 2)%nat ->
  slot_loop nt (Z.of_nat n) steps (5 ^ Z.of_nat i0 mod N2) = Ok (map (fslot L) (seq i0 steps), map (fslot L) (seq (n / 2 + i0) steps)).
Proof.
  intros EB L14. pose proof (n2_pos L HL) as P2. pose proof (half_n L HL) as [EH _].
  assert (P15 : N2 <= 2 ^ 15).
  { rewrite (n2_eq L HL). apply Z.pow_le_mono_r; lia. }
  change (2 ^ 15) with 32768 in P15.
  assert (GB : forall y, (y < n)%nat -> get_z (np_bitrevs nt) (Z.of_nat y) = Ok (bit_reversal L y)).
  { intros y Hy. unfold get_z. destruct (Z.ltb_spec (Z.of_nat y) 0); [lia|]. rewrite Nat2Z.id. unfold get.
    rewrite EB. rewrite nth_error_map. rewrite (nth_error_nth' (seq 0 n) 0%nat) by (rewrite seq_length; exact Hy). rewrite seq_nth by exact Hy. reflexivity. }
  induction steps as [|steps IH]; intros i0 H; [reflexivity|]. cbn [slot_loop seq map].
  assert (C1 : (i0 <? n / 2)%nat = true) by (apply Nat.ltb_lt; lia).
  assert (S1 : 5 ^ Z.of_nat i0 mod N2 = slot_power n i0) by (unfold slot_power; rewrite C1; reflexivity).
  assert (S2 : (slot_power n i0 * (N2 - 1)) mod N2 = slot_power n (n / 2 + i0)).
  { rewrite <- S1. unfold slot_power. assert (C2 : (n / 2 + i0 <? n / 2)%nat = false) by (apply Nat.ltb_ge; lia). rewrite C2.
    replace (n / 2 + i0 - n / 2)%nat with i0 by lia. rewrite Z.mul_mod_idemp_l by lia.
    apply cong_to_mod; [lia|]. exists (5 ^ Z.of_nat i0). ring. }
  rewrite S1. pose proof (slot_range L HL i0) as R0. pose proof (slot_range L HL (n / 2 + i0)) as R1.
  destruct (slot_half i0) as (y & Hy & Ey & F). destruct (slot_half (n / 2 + i0)) as (z & Hz & Ez & F').
  replace (Z.quot (slot_power n i0 - 1) 2) with (Z.of_nat y) by (rewrite Ey; replace (2 * Z.of_nat y + 1 - 1) with (Z.of_nat y * 2) by ring; rewrite Z.quot_mul by lia; reflexivity).
  rewrite (GB y Hy). cbn [bind].
  assert (IM : forall b, 0 <= b < 32768 -> int_mul (slot_power n i0) b = Ok (slot_power n i0 * b)).
  { intros b Hb. unfold int_mul. assert (0 <= slot_power n i0 * b < 2 ^ 31).
    { split; [apply Z.mul_nonneg_nonneg; lia|]. apply Z.le_lt_trans with (32768 * 32768); [apply Z.mul_le_mono_nonneg; lia|reflexivity]. }
    destruct (Z.ltb_spec (slot_power n i0 * b) (- 2 ^ 31)); [lia|]. destruct (Z.leb_spec (2 ^ 31) (slot_power n i0 * b)); [lia|]. reflexivity. }
  rewrite IM by lia. cbn [bind]. rewrite Z.rem_mod_nonneg by (try lia; apply Z.mul_nonneg_nonneg; lia). rewrite S2.
  replace (Z.quot (slot_power n (n / 2 + i0) - 1) 2) with (Z.of_nat z) by (rewrite Ez; replace (2 * Z.of_nat z + 1 - 1) with (Z.of_nat z * 2) by ring; rewrite Z.quot_mul by lia; reflexivity).
  rewrite (GB z Hz). cbn [bind]. rewrite IM by lia. cbn [bind]. rewrite Z.rem_mod_nonneg by (try lia; apply Z.mul_nonneg_nonneg; lia).
  replace ((slot_power n i0 * 5) mod N2) with (5 ^ Z.of_nat (S i0) mod N2).
  2:{ rewrite <- S1, Z.mul_mod_idemp_l by lia. rewrite Nat2Z.inj_succ, Z.pow_succ_r by lia. f_equal. ring. }
  rewrite IH by lia. cbn [bind]. rewrite Nat.add_succ_r. assert (A1 : fslot L i0 = bit_reversal L y) by (unfold fslot; rewrite F; reflexivity).
  assert (A2 : fslot L (n / 2 + i0) = bit_reversal L z) by (unfold fslot; rewrite F'; reflexivity).
  rewrite A1, A2. reflexivity.
Qed.
End Slots.

Lemma nth_firstn_lt {A} (d : A) i : forall j l, (i < j)%nat -> nth i (firstn j l) d = nth i l d.
Proof. induction i as [|i IH]; intros [|j] [|x l] H; cbn; try lia; try reflexivity. apply IH. lia. Qed.

(** With degree 2^15 the product 62945 * 65535 of the ninth step overflows. *)
Lemma slot_loop_large nt : np_bitrevs nt = map (bit_reversal 15) (seq 0 (2 ^ 15)) ->
  forall m, slot_loop nt 32768 (9 + m) 1 = UB.
Proof.
  intros EB m.
  assert (GB : forall y, 0 <= y < 32768 -> exists z, get_z (np_bitrevs nt) y = Ok z).
  { intros y Hy. unfold get_z. destruct (Z.ltb_spec y 0); [lia|]. unfold get. rewrite EB. rewrite nth_error_map.
    assert (H15 : (Z.to_nat y < 2 ^ 15)%nat).
    { apply Nat2Z.inj_lt. rewrite Z2Nat.id by lia. rewrite Nat2Z.inj_pow. exact (proj2 Hy). }
    rewrite (nth_error_nth' (seq 0 (2 ^ 15)) 0%nat) by (rewrite seq_length; exact H15). rewrite seq_nth by exact H15. eexists. reflexivity. }
  assert (ST : forall steps curr, Z.odd curr = true -> 0 <= curr < 65536 ->
     (forall next, next = (curr * 5) mod 65536 -> slot_loop nt 32768 steps next = UB) -> slot_loop nt 32768 (S steps) curr = UB).
  { intros steps curr O R IH. cbn [slot_loop]. apply Z.odd_spec in O. destruct O as [y ->].
    replace (2 * y + 1 - 1) with (y * 2) by ring. rewrite Z.quot_mul by lia. destruct (GB y ltac:(lia)) as [z ->]. cbn [bind].
    unfold int_mul at 1. destruct (_ || _); [reflexivity|]. cbn [bind].
    change (2 * 32768) with 65536. change (65536 - 1) with 65535.
    assert (E : Z.rem ((2 * y + 1) * 65535) 65536 = 2 * (32767 - y) + 1).
    { rewrite Z.rem_mod_nonneg by lia. symmetry. apply Z.mod_unique with (2 * y); lia. }
    rewrite E. replace (2 * (32767 - y) + 1 - 1) with ((32767 - y) * 2) by ring. rewrite Z.quot_mul by lia.
    destruct (GB (32767 - y) ltac:(lia)) as [z' ->]. cbn [bind]. unfold int_mul. destruct (_ || _); [reflexivity|]. cbn [bind].
    rewrite IH; [reflexivity|]. rewrite Z.rem_mod_nonneg by lia. reflexivity. }
  do 8 (apply ST; [reflexivity|lia|]; intros ? ->; match goal with |- slot_loop _ _ _ ?x = _ => let y := eval vm_compute in x in change x with y end).
  cbn [slot_loop]. match goal with |- context [get_z _ ?x] => let y := eval vm_compute in x in change x with y end.
  destruct (GB 31472 ltac:(lia)) as [z ->]. reflexivity.
Qed.

(** ** Filling and reading the slots *)
Section Fill.
Variables (k : Z) (L : nat) (mt : pmod) (e : ffenc).
Hypothesis OK : mod_ok k L mt.
Hypothesis Ept : fe_pt e = pm_p mt.
Hypothesis Ent : fe_nt e = pm_np mt.
Hypothesis Esl : fe_slots e = map (fslot L) (seq 0 (2 ^ L)).
Local Notation n := (2 ^ L)%nat.
Local Notation t := (modulus mt).
Local Notation pt := (pm_p mt).
Local Notation psi := (ntt_root (pm_p mt) (pm_np mt)).

Lemma f_L : (1 <= L <= 15)%nat.
Proof. destruct OK as [P N]. apply (ntt_for_good _ _ _ _ _ P N). Qed.
Lemma f_psi : cong t (psi ^ Z.of_nat n) (-1).
Proof.
  destruct OK as [P N]. destruct (init_wellformed _ _ _ _ _ P N) as (_ & _ & E & _). pose proof (ok_q k L mt OK).
  apply cong_iff; [lia|]. rewrite E. apply Z.mod_unique with (-1); lia.
Qed.

Lemma fill_ok : forall msgs idx slots, NoDup idx -> (forall j, In j idx -> (j < length slots)%nat) -> (length msgs <= length idx)%nat ->
  exists v, fill_slots pt msgs idx slots = Ok v /\ length v = length slots /\
    (forall i, (i < length msgs)%nat -> nth (nth i idx 0%nat) v 0 = import_int pt (nth i msgs 0)) /\
    (forall j, ~ In j (firstn (length msgs) idx) -> nth j v 0 = nth j slots 0).
Proof.
  induction msgs as [|x msgs IH]; intros idx slots ND B Lm.
  - exists slots. split; [reflexivity|]. split; [reflexivity|]. split; [intros i Hi; cbn in Hi; lia|reflexivity].
  - destruct idx as [|j idx]; [cbn in Lm; lia|]. cbn [fill_slots]. pose proof (B j (or_introl eq_refl)) as Hj.
    destruct (Nat.leb_spec (length slots) j); [lia|]. inversion ND as [|? ? N1 N2]; subst.
    destruct (IH idx (upd slots j (import_int pt x)) N2) as (v & Ev & Lv & H1 & H2).
    + intros i Hi. rewrite upd_length. apply B. right. exact Hi.
    + cbn [length] in Lm. lia.
    + rewrite upd_length in Lv. exists v. split; [exact Ev|]. split; [exact Lv|]. split.
      * intros [|i] Hi; cbn [nth].
        -- rewrite H2. { rewrite nth_upd by exact Hj. rewrite Nat.eqb_refl. reflexivity. }
           intros I. apply N1. rewrite <- (firstn_skipn (length msgs) idx). apply in_or_app. left. exact I.
        -- apply H1. cbn [length] in Hi. lia.
      * intros i Hi. cbn [firstn length In] in Hi. rewrite H2 by tauto. rewrite nth_upd by exact Hj.
        destruct (Nat.eqb_spec i j); [subst; tauto|reflexivity].
Qed.

Lemma slots_ok msgs : (length msgs <= n)%nat -> Forall (fun x => 0 <= x < 2 ^ k) msgs ->
  exists v, ff_slots e msgs n = Ok v /\ length v = n /\ Forall (stored pt) v /\
    forall i, (i < n)%nat -> slot_value t psi n (fun j => export_int pt (nth j v 0)) i = nth i msgs 0 mod t.
Proof.
  intros Lm Fm. pose proof (proj1 f_L) as HL. destruct OK as [P NT]. pose proof (ok_q k L mt OK) as Q1. pose proof (ok_good k L mt OK) as Gd.
  unfold ff_slots. rewrite Ept, Ent, Esl.
  destruct (fill_ok msgs (map (fslot L) (seq 0 n)) (repeat (import_zero pt) n)) as (s & Es & Ls & H1 & H2).
  { apply fslot_nodup, HL. }
  { intros j Ij. apply in_map_iff in Ij. destruct Ij as (i & <- & _). rewrite repeat_length. apply fslot_lt, HL. }
  { rewrite map_length, seq_length. exact Lm. }
  rewrite repeat_length in Ls. rewrite Es. cbn [bind].
  assert (N1 : forall i, (i < n)%nat -> nth i (map (fslot L) (seq 0 n)) 0%nat = fslot L i).
  { intros i Hi. rewrite (nth_indep _ 0%nat (fslot L 0)) by (rewrite map_length, seq_length; exact Hi). rewrite map_nth, seq_nth by exact Hi. reflexivity. }
  assert (V : forall i, (i < n)%nat -> residue mt (nth (fslot L i) s 0) (nth i msgs 0)).
  { intros i Hi. destruct (Nat.lt_ge_cases i (length msgs)) as [Hm|Hm].
    - rewrite <- (N1 i Hi), (H1 i Hm). apply (residue_import k L mt OK). rewrite Forall_forall in Fm. apply Fm, nth_In, Hm.
    - rewrite H2.
      + rewrite (nth_indep _ 0 (import_zero pt)) by (rewrite repeat_length; apply fslot_lt, HL). rewrite nth_repeat.
        rewrite nth_overflow by exact Hm. apply (residue_zero k L mt OK).
      + intros I. apply In_nth with (d := 0%nat) in I. destruct I as (j & Hj & Ej).
        rewrite firstn_length, map_length, seq_length in Hj. assert (Hjm : (j < length msgs)%nat) by lia. assert (Hjn : (j < n)%nat) by lia.
        rewrite nth_firstn_lt in Ej by exact Hjm. rewrite N1 in Ej by exact Hjn.
        apply (fslot_inj L HL) in Ej; lia. }
  assert (SS : Forall (stored pt) s).
  { apply Forall_forall. intros x Hx. apply In_nth with (d := 0) in Hx. destruct Hx as (j & Hj & <-). rewrite Ls in Hj.
    destruct (in_dec Nat.eq_dec j (firstn (length msgs) (map (fslot L) (seq 0 n)))) as [I|I].
    - apply In_nth with (d := 0%nat) in I. destruct I as (i & Hi & <-). rewrite firstn_length, map_length, seq_length in Hi.
      rewrite nth_firstn_lt by lia. rewrite N1 by lia. apply V. lia.
    - rewrite (H2 j I). rewrite (nth_indep _ 0 (import_zero pt)) by (rewrite repeat_length; exact Hj). rewrite nth_repeat. apply (residue_zero k L mt OK). }
  destruct (sub_inverse k L mt OK s _ (sub_self k L mt OK true s (conj Ls SS))) as (v & Ev & Hv).
  rewrite Ev. destruct Hv as [[Lv Sv] _]. exists v. split; [reflexivity|]. split; [exact Lv|]. split; [exact Sv|].
  intros i Hi. destruct (C17_inverse_inverts k _ _ L _ s P NT Ls SS) as (_ & (o & Eo & Fo) & EM). rewrite Ev in Eo. injection Eo as <-.
  destruct (C16_forward_evaluates k _ _ L _ v P NT Lv Sv) as (out & Eout & Lout & _ & HE). rewrite Fo in Eout. injection Eout as <-.
  pose proof (fslot_lt L HL i) as Fl. specialize (HE (fslot L i) Fl).
  destruct (V i Hi) as [_ Vi]. rewrite <- Vi.
  assert (EX : export_int pt (nth (fslot L i) (map (fun x => x mod t) s) 0) = export_int pt (nth (fslot L i) s 0)).
  { pose proof (f_equal (fun l => nth (fslot L i) l (export_int pt 0)) EM) as E. cbv beta in E. rewrite !map_nth in E. exact E. }
  rewrite <- EX, HE. unfold slot_value. f_equal. apply zsum_ext. intros j Hj. f_equal.
  rewrite <- (fslot_power L HL i). rewrite <- Z.pow_mul_r by lia. f_equal. lia.
Qed.

Lemma unslot_ok coeffs : length coeffs = n -> Forall (fun x => 0 <= x < 2 ^ k) coeffs ->
  ff_unslot e coeffs = Ok (map (slot_value t psi n (fun j => nth j coeffs 0)) (seq 0 n)).
Proof.
  intros Lc Fc. pose proof (proj1 f_L) as HL. destruct OK as [P NT]. pose proof (ok_q k L mt OK) as Q1.
  unfold ff_unslot. rewrite Ept, Ent, Esl.
  assert (R : forall j, (j < n)%nat -> residue mt (nth j (map (import_int pt) coeffs) 0) (nth j coeffs 0)).
  { intros j Hj. rewrite (nth_indep _ 0 (import_int pt 0)) by (rewrite map_length, Lc; exact Hj). rewrite map_nth.
    apply (residue_import k L mt OK). rewrite Forall_forall in Fc. apply Fc, nth_In. lia. }
  destruct (C16_forward_evaluates k _ _ L _ (map (import_int pt) coeffs) P NT) as (out & Eout & Lout & _ & HE).
  { rewrite map_length. exact Lc. }
  { apply Forall_forall. intros x Hx. apply In_nth with (d := 0) in Hx. destruct Hx as (j & Hj & <-). rewrite map_length, Lc in Hj. apply (R j Hj). }
  rewrite Eout. cbn [bind]. rewrite Lc.
  assert (G : forall len s, (s + len <= n)%nat ->
    seqr (map (fun i => do! j <- get (map (fslot L) (seq 0 n)) i; do! x <- get out j; Ok (export_int pt x)) (seq s len)) =
    Ok (map (slot_value t psi n (fun j => nth j coeffs 0)) (seq s len))).
  { induction len as [|len IH]; intros s Hs; [reflexivity|]. cbn [seq map seqr].
    unfold get at 1. rewrite nth_error_map, (nth_error_nth' (seq 0 n) 0%nat) by (rewrite seq_length; lia). rewrite seq_nth by lia. cbn [option_map bind Nat.add].
    pose proof (fslot_lt L HL s) as Fl. unfold get at 1. rewrite (nth_error_nth' out 0) by lia. cbn [bind].
    rewrite IH by lia. cbn [bind]. do 2 f_equal. rewrite (HE _ Fl). unfold slot_value. apply cong_to_mod; [lia|]. apply zsum_cong. intros j Hj.
    rewrite (proj2 (R j Hj)). rewrite cong_mod. apply cong_eq. f_equal. rewrite <- (fslot_power L HL s). rewrite <- Z.pow_mul_r by lia. f_equal. lia. }
  apply G. lia.
Qed.
End Fill.
