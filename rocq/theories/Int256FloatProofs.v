(** Rounding to nearest, and the conversion of a 256-bit integer. *)
From Coq Require Import Lia.
From Verif Require Import Base ZLemmas Int256 Int256Spec Int256Float Int256FloatSpec.

Section Rne.
Variable b : Z.
Hypothesis B : 1 <= b.

Definition expo (z : Z) : Z := Z.max 0 (Z.log2 z + 1 - b).

Lemma expo_nonneg z : 0 <= expo z.
Proof. unfold expo. lia. Qed.

Lemma pow_pos e : 0 <= e -> 0 < 2 ^ e.
Proof. intros. apply Z.pow_pos_nonneg; lia. Qed.

(** the chosen multiple of 2^e and its distance *)
Lemma rne_mult z : 0 <= z -> exists k, rne b z = k * 2 ^ expo z /\ 0 <= k <= 2 ^ b /\ 2 * Z.abs (rne b z - z) <= 2 ^ expo z.
Proof.
  intros Hz. unfold rne. cbv zeta. fold (expo z). set (e := expo z). pose proof (expo_nonneg z) as E0. fold e in E0.
  pose proof (pow_pos e E0) as P. pose proof (Z.div_mod z (2 ^ e) ltac:(lia)) as D. pose proof (Z.mod_pos_bound z (2 ^ e) P) as M.
  assert (Q0 : 0 <= z / 2 ^ e) by (apply Z.div_pos; lia).
  assert (Q1 : z / 2 ^ e < 2 ^ b).
  { apply Z.div_lt_upper_bound; [exact P|]. rewrite <- Z.pow_add_r by lia. destruct (Z.eq_dec z 0) as [->|N]; [apply pow_pos; lia|].
    pose proof (Z.log2_spec z ltac:(lia)) as [_ L]. eapply Z.lt_le_trans; [exact L|]. apply Z.pow_le_mono_r; [lia|]. unfold e, expo. lia. }
  set (q := z / 2 ^ e) in *. set (r := z mod 2 ^ e) in *. clearbody q r.
  assert (A : forall k, (k = q \/ k = q + 1) -> 2 * Z.abs (k * 2 ^ e - z) <= 2 ^ e -> exists k', k * 2 ^ e = k' * 2 ^ e /\ 0 <= k' <= 2 ^ b /\ 2 * Z.abs (k * 2 ^ e - z) <= 2 ^ e).
  { intros k [-> | ->] H; [exists q|exists (q + 1)]; repeat split; try lia; exact H. }
  assert (Eq : q * 2 ^ e - z = - r) by nia. assert (Eq1 : (q + 1) * 2 ^ e - z = 2 ^ e - r) by nia.
  destruct (Z.ltb_spec (2 * r) (2 ^ e)); [apply A; [left; reflexivity|rewrite Eq; lia]|].
  destruct (Z.ltb_spec (2 ^ e) (2 * r)); [apply A; [right; reflexivity|rewrite Eq1; lia]|].
  destruct (Z.even q); apply A; [left; reflexivity|rewrite Eq; lia|right; reflexivity|rewrite Eq1; lia].
Qed.

Lemma rne_rep z : 0 <= z -> representable b (rne b z).
Proof.
  intros Hz. destruct (rne_mult z Hz) as (k & E & K & _). pose proof (expo_nonneg z). rewrite E.
  destruct (Z.eq_dec k (2 ^ b)) as [->|N].
  - exists 1, (b + expo z). split; [split; [lia|]|split; [lia|rewrite Z.pow_add_r by lia; ring]].
    apply Z.pow_gt_1; lia.
  - exists k, (expo z). repeat split; try lia.
Qed.

(** no multiple of 2^e is closer *)
Lemma rne_near_mult z k : 0 <= z -> Z.abs (rne b z - z) <= Z.abs (k * 2 ^ expo z - z).
Proof.
  intros Hz. destruct (rne_mult z Hz) as (k0 & E & _ & H). pose proof (pow_pos _ (expo_nonneg z)) as P. rewrite E in *.
  set (p := 2 ^ expo z) in *. clearbody p. destruct (Z.eq_dec k k0) as [->|N]; [lia|].
  assert (p <= Z.abs (k * p - k0 * p)) by (replace (k * p - k0 * p) with ((k - k0) * p) by ring; rewrite Z.abs_mul, (Z.abs_eq p) by lia; nia).
  lia.
Qed.

Lemma rne_nearest z : 0 <= z -> nearest b z (rne b z).
Proof.
  intros Hz. split; [apply rne_rep; exact Hz|]. intros w (m & f & Hm & Hf & ->).
  pose proof (pow_pos _ Hf) as Pf.
  destruct (Z.eq_dec (expo z) 0) as [E0|E0].
  { pose proof (rne_near_mult z z Hz) as H. rewrite E0, Z.pow_0_r, Z.mul_1_r, Z.sub_diag in H. cbn [Z.abs] in H. lia. }
  pose proof (expo_nonneg z) as E1. assert (EE : expo z = Z.log2 z + 1 - b) by (unfold expo in *; lia).
  assert (Z1 : 0 < z) by (destruct (Z.eq_dec z 0) as [->|]; [change (Z.log2 0) with 0 in EE; lia|lia]).
  pose proof (Z.log2_spec z Z1) as [L1 L2]. set (e := expo z) in *.
  destruct (Z.le_gt_cases e f) as [H|H].
  { replace (m * 2 ^ f) with (m * 2 ^ (f - e) * 2 ^ e); [apply rne_near_mult; exact Hz|].
    rewrite <- Z.mul_assoc, <- Z.pow_add_r by lia. do 2 f_equal. lia. }
  (* m 2^f is below 2^(b-1+e), itself a multiple of 2^e not above z *)
  assert (W : m * 2 ^ f <= 2 ^ (Z.log2 z)).
  { replace (Z.log2 z) with (b + (e - 1)) by lia. rewrite Z.pow_add_r by lia.
    assert (2 ^ f <= 2 ^ (e - 1)) by (apply Z.pow_le_mono_r; lia). nia. }
  pose proof (rne_near_mult z (2 ^ (b - 1)) Hz) as N. fold e in N. rewrite <- Z.pow_add_r in N by lia. replace (b - 1 + e) with (Z.log2 z) in N by lia. lia.
Qed.

Lemma nearest_mono z z' y y' : z < z' -> nearest b z y -> nearest b z' y' -> y <= y'.
Proof. intros H [R1 N1] [R2 N2]. specialize (N1 y' R2). specialize (N2 y R1). lia. Qed.

Lemma rne_mono z z' : 0 <= z <= z' -> rne b z <= rne b z'.
Proof.
  intros H. destruct (Z.eq_dec z z') as [->|N]; [lia|]. apply (nearest_mono z z'); [lia|apply rne_nearest; lia..].
Qed.

Lemma rne_id z : 0 <= z -> representable b z -> rne b z = z.
Proof. intros Hz R. destruct (rne_nearest z Hz) as [_ N]. specialize (N z R). lia. Qed.

Lemma rne_nonneg z : 0 <= z -> 0 <= rne b z.
Proof. intros Hz. destruct (rne_rep z Hz) as (m & e & Hm & He & ->). pose proof (pow_pos e He). nia. Qed.

Lemma rep_shift z k : 0 <= k -> representable b z -> representable b (z * 2 ^ k).
Proof. intros Hk (m & e & Hm & He & ->). exists m, (e + k). rewrite Z.pow_add_r by lia. repeat split; try lia. Qed.

Lemma rep_small z : 0 <= z <= 2 ^ b -> representable b z.
Proof.
  intros H. destruct (Z.eq_dec z (2 ^ b)) as [->|N].
  - exists 1, b. split; [split; [lia|apply Z.pow_gt_1; lia]|split; lia].
  - exists z, 0. repeat split; lia.
Qed.

Lemma rep_pow k : 0 <= k -> representable b (2 ^ k).
Proof. intros Hk. exists 1, k. split; [split; [lia|apply Z.pow_gt_1; lia]|split; lia]. Qed.

(** relative error at most 2^-b *)
Lemma rne_err z : 0 <= z -> 2 ^ b * Z.abs (rne b z - z) <= z.
Proof.
  intros Hz. destruct (rne_mult z Hz) as (k & E & _ & H). destruct (Z.eq_dec (expo z) 0) as [E0|E0].
  { pose proof (rne_near_mult z z Hz) as N. rewrite E0, Z.pow_0_r, Z.mul_1_r, Z.sub_diag in N. cbn [Z.abs] in N.
    assert (Z.abs (rne b z - z) = 0) by lia. nia. }
  pose proof (expo_nonneg z) as E1. assert (EE : expo z = Z.log2 z + 1 - b) by (unfold expo in *; lia).
  assert (Z1 : 0 < z) by (destruct (Z.eq_dec z 0) as [->|]; [change (Z.log2 0) with 0 in EE; lia|lia]).
  pose proof (Z.log2_spec z Z1) as [L1 _].
  assert (2 ^ b * 2 ^ expo z = 2 * 2 ^ Z.log2 z).
  { rewrite <- Z.pow_add_r by lia. rewrite <- (Z.pow_succ_r 2 (Z.log2 z)) by apply Z.log2_nonneg. f_equal. lia. }
  pose proof (pow_pos b ltac:(lia)). nia.
Qed.

(** after rounding up, one more is rounded away *)
Lemma rne_after_up z : 0 <= z -> z < rne b z -> rne b (rne b z + 1) = rne b z.
Proof.
  intros Hz Up. destruct (rne_mult z Hz) as (k & E & K & H).
  destruct (Z.eq_dec (expo z) 0) as [E0|E0].
  { rewrite (rne_id z Hz) in Up; [lia|]. apply rep_small. split; [exact Hz|]. destruct (Z.eq_dec z 0) as [->|]; [pose proof (pow_pos b ltac:(lia)); lia|].
    pose proof (Z.log2_spec z ltac:(lia)) as [_ L]. assert (2 ^ Z.succ (Z.log2 z) <= 2 ^ b) by (apply Z.pow_le_mono_r; unfold expo in E0; lia). lia. }
  pose proof (expo_nonneg z) as E1. assert (EE : expo z = Z.log2 z + 1 - b) by (unfold expo in *; lia).
  assert (Z1 : 0 < z) by (destruct (Z.eq_dec z 0) as [->|]; [change (Z.log2 0) with 0 in EE; lia|lia]).
  pose proof (Z.log2_spec z Z1) as [L1 L2]. set (R := rne b z) in *. set (e := expo z) in *.
  assert (P2 : 2 ^ e = 2 * 2 ^ (e - 1)) by (rewrite <- Z.pow_succ_r by lia; f_equal; lia). pose proof (pow_pos (e - 1) ltac:(lia)) as P1.
  assert (RB : R <= 2 ^ (b + e)) by (rewrite Z.pow_add_r by lia; rewrite E; nia).
  assert (RL : 2 ^ Z.log2 z <= R) by lia.
  destruct (Z.eq_dec R (2 ^ (b + e))) as [Er|Er].
  - (* the next power of two *)
    assert (LG : Z.log2 (R + 1) = b + e).
    { apply Z.log2_unique; [lia|]. rewrite Er, Z.pow_succ_r by lia. assert (1 < 2 ^ (b + e)) by (apply Z.pow_gt_1; lia). lia. }
    unfold rne. cbv zeta. rewrite LG. replace (Z.max 0 (b + e + 1 - b)) with (e + 1) by lia.
    assert (P3 : 2 ^ (e + 1) = 2 * 2 ^ e) by (rewrite Z.pow_add_r by lia; ring).
    assert (RM : R = 2 ^ (b - 1) * 2 ^ (e + 1)) by (rewrite <- Z.pow_add_r by lia; rewrite Er; f_equal; lia).
    assert (DV : (R + 1) / 2 ^ (e + 1) = 2 ^ (b - 1)) by (symmetry; apply (Z.div_unique_pos _ _ _ 1); [lia|rewrite RM; ring]).
    assert (MD : (R + 1) mod 2 ^ (e + 1) = 1) by (symmetry; apply (Z.mod_unique_pos _ _ (2 ^ (b - 1))); [lia|rewrite RM; ring]).
    rewrite DV, MD. destruct (Z.ltb_spec (2 * 1) (2 ^ (e + 1))); [symmetry; exact RM|lia].
  - assert (LG : Z.log2 (R + 1) = Z.log2 z).
    { apply Z.log2_unique; [apply Z.log2_nonneg|]. split; [lia|]. replace (Z.succ (Z.log2 z)) with (b + e) by lia.
      (* R and 2^(b+e) are even *)
      assert (R mod 2 = 0) by (rewrite E, P2, Z.mul_assoc, (Z.mul_comm k 2), <- Z.mul_assoc, Z.mul_comm; apply Z_mod_mult).
      assert (2 ^ (b + e) mod 2 = 0) by (replace (b + e) with (Z.succ (b + e - 1)) by lia; rewrite Z.pow_succ_r, Z.mul_comm by lia; apply Z_mod_mult).
      destruct (Z.eq_dec (R + 1) (2 ^ (b + e))) as [X|X]; [|lia]. exfalso.
      assert (Y : (R + 1) mod 2 = 0) by (rewrite X; assumption). rewrite Zplus_mod, H0 in Y. cbn in Y. discriminate Y. }
    assert (DV : (R + 1) / 2 ^ e = k) by (symmetry; apply (Z.div_unique_pos _ _ _ 1); [lia|rewrite E; ring]).
    assert (MD : (R + 1) mod 2 ^ e = 1) by (symmetry; apply (Z.mod_unique_pos _ _ k); [lia|rewrite E; ring]).
    unfold rne at 1. cbv zeta. rewrite LG, <- EE. fold e. replace (Z.max 0 e) with e by lia. rewrite DV, MD.
    destruct (Z.ltb_spec (2 * 1) (2 ^ e)); [symmetry; exact E|]. destruct (Z.ltb_spec (2 ^ e) (2 * 1)); [lia|].
    (* 2^e = 2: the tie went to an even multiple *)
    assert (EV : Z.even k = true); [|rewrite EV; symmetry; exact E].
    assert (E2 : 2 ^ e = 2) by lia. unfold R in Up, E. unfold rne in Up, E. cbv zeta in Up, E. fold (expo z) in Up, E. fold e in Up, E. rewrite E2 in Up, E.
    pose proof (Z.div_mod z 2 ltac:(lia)) as D. pose proof (Z.mod_pos_bound z 2 ltac:(lia)) as M. set (q := z / 2) in *. set (r := z mod 2) in *. clearbody q r.
    destruct (Z.ltb_spec (2 * r) 2); [lia|]. destruct (Z.ltb_spec 2 (2 * r)); [lia|].
    destruct (Z.even q) eqn:Q; [lia|]. replace k with (Z.succ q) by lia. rewrite Z.even_succ. rewrite <- Z.negb_even, Q. reflexivity.
Qed.
End Rne.

(** scaling by a power of two *)
Lemma rne_scale b z k : 1 <= b -> 0 <= z -> 0 <= k -> rne b (z * 2 ^ k) = rne b z * 2 ^ k.
Proof.
  intros B Hz Hk. pose proof (pow_pos k Hk) as Pk.
  destruct (Z.le_gt_cases z (2 ^ b)) as [S|S].
  { rewrite (rne_id b B z Hz) by (apply rep_small; lia). apply rne_id; [exact B|nia|]. apply (rep_shift b B); [exact Hk|]. apply rep_small; lia. }
  pose proof (pow_pos b ltac:(lia)). assert (LB : b <= Z.log2 z) by (apply Z.log2_le_pow2; lia).
  unfold rne. cbv zeta. rewrite Z.log2_mul_pow2 by lia.
  replace (Z.max 0 (k + Z.log2 z + 1 - b)) with (Z.log2 z + 1 - b + k) by lia. replace (Z.max 0 (Z.log2 z + 1 - b)) with (Z.log2 z + 1 - b) by lia.
  set (e := Z.log2 z + 1 - b). pose proof (pow_pos e ltac:(lia)) as Pe. rewrite (Z.pow_add_r 2 e k) by lia.
  rewrite Z.div_mul_cancel_r, Z.mul_mod_distr_r by lia.
  assert (A : forall x, (2 * (x * 2 ^ k) <? 2 ^ e * 2 ^ k) = (2 * x <? 2 ^ e)).
  { intros x. destruct (Z.ltb_spec (2 * x) (2 ^ e)); [apply Z.ltb_lt|apply Z.ltb_ge]; nia. }
  assert (A' : forall x, (2 ^ e * 2 ^ k <? 2 * (x * 2 ^ k)) = (2 ^ e <? 2 * x)).
  { intros x. destruct (Z.ltb_spec (2 ^ e) (2 * x)); [apply Z.ltb_lt|apply Z.ltb_ge]; nia. }
  rewrite A, A'. destruct (_ <? _); [ring|]. destruct (_ <? _); [ring|]. destruct (Z.even _); ring.
Qed.

Section Convert.
Variable F : ftype.
Hypothesis B : 1 <= ft_prec F.
Local Notation b := (ft_prec F).

Definition fsum (x : u256) : Z := rne b (u_lo x) + rne b (u_hi x) * 2 ^ 128.

Lemma rne_word z n : 0 <= n -> 0 <= z < 2 ^ n -> 0 <= rne b z <= 2 ^ n.
Proof.
  intros Hn H. split; [apply rne_nonneg; lia|]. rewrite <- (rne_id b B (2 ^ n)) by (try (apply rep_pow; [exact B|lia]); apply Z.pow_nonneg; lia).
  apply rne_mono; [exact B|lia].
Qed.

Lemma convert_finite x : 257 <= ft_emax F -> is_u256 x -> u_to_float F x = Finite (rne b (fsum x)).
Proof.
  intros HE [Hh Hl]. pose proof (rne_word (u_hi x) 128 ltac:(lia) Hh) as Rh. pose proof (rne_word (u_lo x) 128 ltac:(lia) Hl) as Rl.
  assert (M : 2 ^ 257 <= 2 ^ ft_emax F) by (apply Z.pow_le_mono_r; lia).
  assert (S0 : 0 <= fsum x < 2 ^ 257). { unfold fsum. change (2 ^ 257) with (2 * (2 ^ 128 * 2 ^ 128)). nia. }
  unfold u_to_float, to_float at 1. cbv zeta. replace (rne b (u_lo x) <? 2 ^ ft_emax F) with true by (symmetry; apply Z.ltb_lt; lia).
  unfold to_float at 1. cbv zeta. replace (rne b (u_hi x) <? 2 ^ ft_emax F) with true by (symmetry; apply Z.ltb_lt; lia).
  cbn [ldexp]. replace (rne b (u_hi x) * 2 ^ 128 <? 2 ^ ft_emax F) with true by (symmetry; apply Z.ltb_lt; unfold fsum in S0; lia).
  cbn [fplus]. fold (fsum x). unfold to_float. cbv zeta.
  assert (V : fsum x <= 2 ^ 128 + 2 ^ 128 * 2 ^ 128) by (unfold fsum; nia).
  replace (rne b (fsum x) <? 2 ^ ft_emax F) with true; [reflexivity|]. symmetry. apply Z.ltb_lt.
  (* 2 ^ 256 + 2 ^ 128 rounds to at most 2 ^ 257, below which lies 3 * 2^255 *)
  pose proof (rne_err b B (fsum x) ltac:(lia)) as ER. assert (2 <= 2 ^ b) by (change 2 with (2 ^ 1) at 1; apply Z.pow_le_mono_r; lia).
  assert (rne b (fsum x) <= fsum x + fsum x / 2). { assert (2 * Z.abs (rne b (fsum x) - fsum x) <= fsum x) by nia. pose proof (Z.div_mod (fsum x) 2 ltac:(lia)). pose proof (Z.mod_pos_bound (fsum x) 2 ltac:(lia)). lia. }
  assert (fsum x / 2 <= (2 ^ 128 + 2 ^ 128 * 2 ^ 128) / 2) by (apply Z.div_le_mono; lia).
  eapply Z.le_lt_trans; [eassumption|]. eapply Z.le_lt_trans; [apply Z.add_le_mono; eassumption|]. eapply Z.lt_le_trans; [|exact M]. reflexivity.
Qed.

Lemma fsum_err x : is_u256 x -> 2 ^ b * Z.abs (fsum x - value x) <= value x.
Proof.
  intros [Hh Hl]. pose proof (rne_err b B (u_hi x) ltac:(lia)) as E1. pose proof (rne_err b B (u_lo x) ltac:(lia)) as E2.
  unfold fsum, value. set (h := rne b (u_hi x)) in *. set (l := rne b (u_lo x)) in *. pose proof (pow_pos b ltac:(lia)).
  assert (Z.abs (l + h * 2 ^ 128 - (u_hi x * 2 ^ 128 + u_lo x)) <= Z.abs (l - u_lo x) + Z.abs (h - u_hi x) * 2 ^ 128).
  { replace (l + h * 2 ^ 128 - (u_hi x * 2 ^ 128 + u_lo x)) with ((l - u_lo x) + (h - u_hi x) * 2 ^ 128) by ring.
    eapply Z.le_trans; [apply Z.abs_triangle|]. rewrite Z.abs_mul. change (Z.abs (2 ^ 128)) with (2 ^ 128). lia. }
  nia.
Qed.

Lemma final_err x : is_u256 x -> 2 ^ (2 * b) * Z.abs (rne b (fsum x) - value x) <= (2 ^ (b + 1) + 1) * value x.
Proof.
  intros H. pose proof (fsum_err x H) as E1. assert (S0 : 0 <= fsum x) by (unfold fsum; pose proof (rne_nonneg b B (u_lo x)); pose proof (rne_nonneg b B (u_hi x)); unfold is_u256 in H; nia).
  pose proof (rne_err b B (fsum x) S0) as E2. replace (2 * b) with (b + b) by lia. rewrite !Z.pow_add_r by lia. change (2 ^ 1) with 2.
  set (p := 2 ^ b) in *. assert (P : 0 < p) by (apply pow_pos; lia). set (S := fsum x) in *. set (d := rne b S) in *. set (v := value x) in *.
  assert (V0 : 0 <= v) by (unfold v, value, is_u256 in *; lia). clearbody p S d v.
  assert (T : Z.abs (d - v) <= Z.abs (d - S) + Z.abs (S - v)) by lia.
  assert (PS : p * S <= p * v + v) by nia.
  assert (X : p * Z.abs (d - v) <= S + v) by nia.
  assert (Y : p * (p * Z.abs (d - v)) <= p * (S + v)) by (apply Z.mul_le_mono_nonneg_l; lia).
  rewrite <- Z.mul_assoc. lia.
Qed.

(** a number with at most b significant bits has halves with at most b significant bits *)
Lemma halves_rep v : 0 <= v -> representable b v -> representable b (v mod 2 ^ 128) /\ representable b (v / 2 ^ 128).
Proof.
  intros Hv (m & e & Hm & He & ->). pose proof (pow_pos e He) as Pe.
  destruct (Z.le_gt_cases 128 e) as [G|G].
  - assert (Ee : m * 2 ^ e = m * 2 ^ (e - 128) * 2 ^ 128) by (rewrite <- Z.mul_assoc, <- Z.pow_add_r by lia; do 2 f_equal; lia).
    rewrite Ee. rewrite Z_mod_mult, Z_div_mult by lia. split; [exists 0, 0; repeat split; try lia; apply pow_pos; lia|].
    exists m, (e - 128). repeat split; lia.
  - assert (P : 2 ^ 128 = 2 ^ (128 - e) * 2 ^ e) by (rewrite <- Z.pow_add_r by lia; f_equal; lia). rewrite P.
    pose proof (pow_pos (128 - e) ltac:(lia)) as P'. rewrite Z.mul_mod_distr_r, Z.div_mul_cancel_r by lia. split.
    + exists (m mod 2 ^ (128 - e)), e. pose proof (Z.mod_pos_bound m (2 ^ (128 - e)) P'). pose proof (Z.mod_le m (2 ^ (128 - e)) ltac:(lia) P'). repeat split; lia.
    + exists (m / 2 ^ (128 - e)), 0. assert (0 <= m / 2 ^ (128 - e)) by (apply Z.div_pos; lia). assert (m / 2 ^ (128 - e) <= m) by (apply Z.div_le_upper_bound; [lia|nia]). repeat split; lia.
Qed.

Lemma value_halves x : is_u256 x -> value x mod 2 ^ 128 = u_lo x /\ value x / 2 ^ 128 = u_hi x.
Proof.
  intros [Hh Hl]. unfold value. split.
  - symmetry. apply (Z.mod_unique_pos _ _ (u_hi x)); [exact Hl|ring].
  - symmetry. apply (Z.div_unique_pos _ _ _ (u_lo x)); [exact Hl|ring].
Qed.

Lemma exact_sum x : is_u256 x -> representable b (value x) -> fsum x = value x.
Proof.
  intros H R. destruct (value_halves x H) as [E1 E2]. assert (V0 : 0 <= value x) by (unfold value, is_u256 in *; lia).
  destruct (halves_rep _ V0 R) as [R1 R2]. rewrite E1 in R1. rewrite E2 in R2. destruct H as [Hh Hl].
  unfold fsum. rewrite !rne_id by (assumption || lia). unfold value. ring.
Qed.

Lemma sum_mono x y : is_u256 x -> is_u256 y -> value x <= value y -> rne b (fsum x) <= rne b (fsum y).
Proof.
  intros [Hx1 Hx0] [Hy1 Hy0] V. unfold value in V. pose proof (rne_word (u_lo x) 128 ltac:(lia) Hx0) as L1. pose proof (rne_nonneg b B (u_lo y) ltac:(lia)) as L2.
  pose proof (rne_nonneg b B (u_hi x) ltac:(lia)) as H1. pose proof (rne_nonneg b B (u_hi y) ltac:(lia)) as H2.
  destruct (Z.eq_dec (u_hi x) (u_hi y)) as [E|E].
  { apply rne_mono; [exact B|]. unfold fsum. rewrite E. pose proof (rne_mono b B (u_lo x) (u_lo y) ltac:(nia)). nia. }
  assert (LT : u_hi x + 1 <= u_hi y) by nia.
  transitivity (rne b ((rne b (u_hi x) + 1) * 2 ^ 128)); [apply rne_mono; [exact B|unfold fsum; nia]|].
  transitivity (rne b (rne b (u_hi x + 1) * 2 ^ 128)).
  - rewrite !rne_scale by (try apply rne_nonneg; lia). apply Z.mul_le_mono_nonneg_r; [lia|].
    rewrite (rne_id b B (rne b (u_hi x + 1))) by (try apply rne_rep; try apply rne_nonneg; lia).
    destruct (Z.le_gt_cases (rne b (u_hi x)) (u_hi x)) as [G|G]; [apply rne_mono; [exact B|lia]|].
    rewrite (rne_after_up b B (u_hi x)) by lia. apply rne_mono; [exact B|lia].
  - apply rne_mono; [exact B|]. pose proof (rne_nonneg b B (u_hi x + 1) ltac:(lia)). pose proof (rne_mono b B (u_hi x + 1) (u_hi y) ltac:(lia)). unfold fsum. nia.
Qed.
End Convert.
