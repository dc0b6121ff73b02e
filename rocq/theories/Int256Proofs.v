(** Proofs about the model of uint256. *)
From Coq Require Import Lia.
From Verif Require Import Base ZLemmas Int256 Int256Spec.

Notation B := (2 ^ 128).
Lemma B_pos : 0 < B. Proof. reflexivity. Qed.
Lemma BB : 2 ^ 256 = B * B. Proof. reflexivity. Qed.

Lemma w128_range x : 0 <= w128 x < B.
Proof. apply wrap_range. lia. Qed.

Lemma is_mk h l : is (mk256 (w128 h) (w128 l)) ((h - l / B) * B + l).
Proof.
  split; [split; apply w128_range|]. unfold value. cbn [u_hi u_lo]. rewrite BB.
  pose proof (w128_range h). pose proof (w128_range l).
  apply Z.mod_unique with (h / B); [left; nia|].
  unfold w128, wrap in *. pose proof (Z.div_mod h B ltac:(discriminate)). pose proof (Z.div_mod l B ltac:(discriminate)). nia.
Qed.

Lemma is_cong x n m : is x n -> n mod 2 ^ 256 = m mod 2 ^ 256 -> is x m.
Proof. intros [A E] H. split; [exact A|]. rewrite E. exact H. Qed.

Lemma is_eq x n m : is x n -> n = m -> is x m.
Proof. intros A <-. exact A. Qed.

Lemma value_range x : is_u256 x -> 0 <= value x < 2 ^ 256.
Proof. intros [A C]. unfold value. rewrite BB. nia. Qed.

Lemma is_small x n : is x n -> 0 <= n < 2 ^ 256 -> value x = n.
Proof. intros [_ E] H. rewrite E. apply Z.mod_small. exact H. Qed.

Lemma is_value x : is_u256 x -> is x (value x).
Proof. intros A. split; [exact A|]. symmetry. apply Z.mod_small, value_range, A. Qed.

Lemma w128_small x : 0 <= x < B -> w128 x = x.
Proof. apply wrap_small. Qed.

Lemma mk_small h l : 0 <= h < B -> 0 <= l < B -> mk256 h l = mk256 (w128 h) (w128 l).
Proof. intros H1 H2. rewrite !w128_small by assumption. reflexivity. Qed.

Lemma value_inj x y : is_u256 x -> is_u256 y -> value x = value y -> x = y.
Proof.
  intros [A1 A2] [B1 B2] E. unfold value in E. destruct x as [h l], y as [h' l']. cbn [u_hi u_lo] in *.
  assert (h = h') by nia. subst h'. f_equal. lia.
Qed.

Lemma add_is x y : is_u256 x -> is_u256 y -> is (u_add x y) (value x + value y).
Proof.
  intros [Hx1 Hx2] [Hy1 Hy2]. unfold u_add. unfold w128 at 2. unfold w128 at 1. rewrite wrap_add_l. fold (w128 (u_hi x + u_hi y + b2z (w128 (u_lo x + u_lo y) <? u_lo x))).
  eapply is_eq; [apply is_mk|].
  assert (E : b2z (w128 (u_lo x + u_lo y) <? u_lo x) = (u_lo x + u_lo y) / B).
  { destruct (Z.lt_ge_cases (u_lo x + u_lo y) B).
    - rewrite w128_small by lia. rewrite Z.div_small by lia. rewrite (proj2 (Z.ltb_ge _ _)) by lia. reflexivity.
    - assert (Ed : (u_lo x + u_lo y) / B = 1) by (symmetry; apply Z.div_unique with (u_lo x + u_lo y - B); lia).
      assert (Em : w128 (u_lo x + u_lo y) = u_lo x + u_lo y - B) by (unfold w128, wrap; symmetry; apply Z.mod_unique with 1; lia).
      rewrite Ed, Em. rewrite (proj2 (Z.ltb_lt _ _)) by lia. reflexivity. }
  rewrite E. unfold value. lia.
Qed.

Lemma sub_is x y : is_u256 x -> is_u256 y -> is (u_sub x y) (value x - value y).
Proof.
  intros [Hx1 Hx2] [Hy1 Hy2]. unfold u_sub. unfold w128 at 2. unfold w128 at 1. rewrite wrap_sub_l. fold (w128 (u_hi x - u_hi y - b2z (u_lo x <? u_lo y))).
  eapply is_eq; [apply is_mk|].
  assert (E : b2z (u_lo x <? u_lo y) = - ((u_lo x - u_lo y) / B)).
  { destruct (Z.ltb_spec (u_lo x) (u_lo y)) as [H|H]; cbn [b2z].
    - assert (Ed : (u_lo x - u_lo y) / B = -1) by (symmetry; apply Z.div_unique with (u_lo x - u_lo y + B); lia).
      rewrite Ed. reflexivity.
    - rewrite Z.div_small by lia. reflexivity. }
  rewrite E. unfold value. lia.
Qed.

Lemma lnot_w x : 0 <= x < B -> w128 (Z.lnot x) = B - 1 - x.
Proof.
  intros H. unfold Z.lnot, w128, wrap. symmetry. apply Z.mod_unique with (-1); lia.
Qed.

Lemma compl_is x : is_u256 x -> is_u256 (u_compl x) /\ value (u_compl x) = 2 ^ 256 - 1 - value x.
Proof.
  intros [H1 H2]. unfold u_compl, value, is_u256. cbn [u_hi u_lo]. rewrite !lnot_w by assumption. rewrite BB.
  split; [split; lia|]. lia.
Qed.

Lemma neg_is x : is_u256 x -> is (u_neg x) (- value x).
Proof.
  intros [H1 H2]. unfold u_neg. rewrite !lnot_w by assumption.
  replace (B - 1 - u_lo x + 1) with (B - u_lo x) by lia.
  destruct (Z.eq_dec (u_lo x) 0) as [E|E].
  - rewrite E. replace (w128 (B - 0)) with 0 by reflexivity. rewrite (proj2 (Z.ltb_lt _ _)) by reflexivity.
    change 0 with (w128 0) at 1. eapply is_cong; [apply is_mk|].
    unfold value. rewrite E, BB.
    replace (((B - 1 - u_hi x + 1) - 0 / B) * B + 0) with (- (u_hi x * B + 0) + 1 * (B * B)) by (change (0 / B) with 0; lia).
    apply Z_mod_plus_full.
  - rewrite w128_small by lia. rewrite (proj2 (Z.ltb_ge _ _)) by lia.
    rewrite mk_small by lia. eapply is_cong; [apply is_mk|]. rewrite Z.div_small by lia. unfold value. rewrite BB.
    replace ((B - 1 - u_hi x - 0) * B + (B - u_lo x)) with (- (u_hi x * B + u_lo x) + 1 * (B * B)) by lia.
    apply Z_mod_plus_full.
Qed.

Lemma inc_is x : is_u256 x -> is (u_inc x) (value x + 1).
Proof.
  intros [H1 H2]. unfold u_inc. destruct (Z.eq_dec (u_lo x) (B - 1)) as [E|E].
  - rewrite E. replace (w128 (B - 1 + 1)) with 0 by reflexivity. cbn [Z.eqb].
    change 0 with (w128 0) at 1. eapply is_eq; [apply is_mk|]. unfold value. rewrite E. change (0 / B) with 0. lia.
  - rewrite w128_small by lia. destruct (Z.eqb_spec (u_lo x + 1) 0); [lia|].
    rewrite mk_small by lia. eapply is_eq; [apply is_mk|]. rewrite Z.div_small by lia. unfold value. lia.
Qed.

Lemma dec_is x : is_u256 x -> is (u_dec x) (value x - 1).
Proof.
  intros [H1 H2]. unfold u_dec. destruct (Z.eqb_spec (u_lo x) 0) as [E|E].
  - rewrite E. eapply is_eq; [apply is_mk|]. unfold value. rewrite E. change ((0 - 1) / B) with (-1). lia.
  - replace (u_hi x) with (w128 (u_hi x)) by (apply w128_small; assumption).
    eapply is_eq; [apply is_mk|]. rewrite Z.div_small by lia. unfold value. lia.
Qed.

(** ** Comparisons *)
Lemma eqb_is x y : is_u256 x -> is_u256 y -> u_eqb x y = (value x =? value y).
Proof.
  intros [A1 A2] [B1 B2]. unfold u_eqb, value.
  destruct (Z.eqb_spec (u_lo x) (u_lo y)), (Z.eqb_spec (u_hi x) (u_hi y)); cbn [andb]; symmetry.
  - apply Z.eqb_eq. congruence.
  - apply Z.eqb_neq. nia.
  - apply Z.eqb_neq. nia.
  - apply Z.eqb_neq. nia.
Qed.

Lemma cmp_is x y : is_u256 x -> is_u256 y ->
  u_ltb x y = (value x <? value y) /\ u_gtb x y = (value x >? value y) /\
  u_leb x y = (value x <=? value y) /\ u_geb x y = (value x >=? value y).
Proof.
  intros [A1 A2] [B1 B2]. unfold u_ltb, u_gtb, u_leb, u_geb, u_cmp, value. rewrite !Z.gtb_ltb, !Z.geb_leb.
  assert (Hl : forall b c, (b = true <-> c = true) -> b = c) by (intros [|] [|]; intuition congruence).
  destruct (Z.eqb_spec (u_hi x) (u_hi y)) as [E|E].
  - rewrite E. repeat split; apply Hl; rewrite ?Z.ltb_lt, ?Z.leb_le; lia.
  - repeat split; apply Hl; rewrite ?Z.ltb_lt, ?Z.leb_le; nia.
Qed.

(** ** Bits *)
Lemma lor_add a b s : 0 <= s -> 0 <= b < 2 ^ s -> Z.lor (a * 2 ^ s) b = a * 2 ^ s + b.
Proof.
  intros Hs Hb. symmetry. rewrite <- Z.lxor_lor; [rewrite Z.add_nocarry_lxor; [reflexivity|]|];
  apply Z.bits_inj'; intros n Hn; rewrite Z.land_spec, Z.bits_0;
  (destruct (Z.lt_ge_cases n s); [rewrite Z.mul_pow2_bits_low by lia; reflexivity|]);
  (destruct (Z.eq_dec b 0) as [->|Hb0]; [rewrite Z.bits_0, Bool.andb_false_r; reflexivity|]);
  rewrite (Z.bits_above_log2 b n), Bool.andb_false_r; try reflexivity; try lia;
  apply Z.lt_le_trans with s; try lia; apply Z.log2_lt_pow2; lia.
Qed.

Lemma bits_split h l n : 0 <= l < B -> 0 <= n -> Z.testbit (h * B + l) n = if n <? 128 then Z.testbit l n else Z.testbit h (n - 128).
Proof.
  intros Hl Hn. rewrite <- lor_add by (assumption || lia). rewrite Z.lor_spec. destruct (Z.ltb_spec n 128).
  - rewrite Z.mul_pow2_bits_low by lia. reflexivity.
  - rewrite Z.mul_pow2_bits by lia. destruct (Z.eq_dec l 0) as [->|]; [rewrite Z.bits_0; apply Bool.orb_false_r|].
    rewrite (Z.bits_above_log2 l n), Bool.orb_false_r; try lia; [reflexivity|].
    apply Z.lt_le_trans with 128; [apply Z.log2_lt_pow2; lia|lia].
Qed.

Lemma bits_lt x : 0 <= x < B <-> (0 <= x /\ forall n, 128 <= n -> Z.testbit x n = false).
Proof.
  split; intros [H1 H2].
  - split; [exact H1|]. intros n Hn. destruct (Z.eq_dec x 0) as [->|]; [apply Z.bits_0|].
    apply Z.bits_above_log2; [lia|]. apply Z.lt_le_trans with 128; [apply Z.log2_lt_pow2; lia|lia].
  - split; [exact H1|]. destruct (Z.lt_ge_cases x B) as [|H]; [assumption|].
    assert (Hp : 0 < x) by (pose proof B_pos; lia). pose proof (Z.bit_log2 x Hp) as Hb. rewrite H2 in Hb; [discriminate|].
    apply Z.log2_le_pow2; [lia|exact H].
Qed.

Section Bitwise.
Variable op : Z -> Z -> Z.
Variable bop : bool -> bool -> bool.
Hypothesis Hop : forall a b n, Z.testbit (op a b) n = bop (Z.testbit a n) (Z.testbit b n).
Hypothesis Hff : bop false false = false.
Hypothesis Hnn : forall a b, 0 <= a -> 0 <= b -> 0 <= op a b.

Lemma bitwise_is x y : is_u256 x -> is_u256 y ->
  is_u256 (mk256 (op (u_hi x) (u_hi y)) (op (u_lo x) (u_lo y))) /\
  value (mk256 (op (u_hi x) (u_hi y)) (op (u_lo x) (u_lo y))) = op (value x) (value y).
Proof.
  intros [A1 A2] [B1 B2].
  assert (R : forall a b, 0 <= a < B -> 0 <= b < B -> 0 <= op a b < B).
  { intros a b Ha Hb. apply bits_lt. split; [apply Hnn; lia|]. intros n Hn. rewrite Hop.
    rewrite (proj2 (proj1 (bits_lt a) Ha) n Hn), (proj2 (proj1 (bits_lt b) Hb) n Hn). exact Hff. }
  split; [split; cbn [u_hi u_lo]; apply R; assumption|].
  unfold value. cbn [u_hi u_lo]. apply Z.bits_inj'. intros n Hn. rewrite Hop, !bits_split by (try apply R; assumption).
  destruct (n <? 128); apply Hop.
Qed.
End Bitwise.

(** ** Shifts *)
Lemma shl_is x s : is_u256 x -> 0 <= s -> exists y, u_shl x s = Ok y /\ is y (value x * 2 ^ s).
Proof.
  intros [A1 A2] Hs. unfold u_shl. destruct (Z.ltb_spec s 128) as [H|H].
  - destruct (Z.eqb_spec s 0) as [->|E]; cbn [negb].
    + eexists. split; [reflexivity|]. rewrite Z.mul_1_r. apply is_value. split; assumption.
    + unfold shl128, shr128. rewrite (proj2 (Z.ltb_ge s 0)), (proj2 (Z.leb_gt 128 s)), (proj2 (Z.ltb_ge (128 - s) 0)), (proj2 (Z.leb_gt 128 (128 - s))) by lia.
      cbn [orb bind]. eexists. split; [reflexivity|].
      assert (P1 : 0 < 2 ^ s) by (apply Z.pow_pos_nonneg; lia). assert (P2 : 0 < 2 ^ (128 - s)) by (apply Z.pow_pos_nonneg; lia).
      assert (EB : B = 2 ^ s * 2 ^ (128 - s)) by (rewrite <- Z.pow_add_r by lia; f_equal; lia).
      assert (Eh : w128 (u_hi x * 2 ^ s) = (u_hi x mod 2 ^ (128 - s)) * 2 ^ s).
      { unfold w128, wrap. rewrite EB, (Z.mul_comm (2 ^ s) (2 ^ (128 - s))). apply Zmult_mod_distr_r. }
      assert (Rc : 0 <= shr (u_lo x) (128 - s) < 2 ^ s).
      { unfold shr. split; [apply Z.div_pos; lia|]. apply Z.div_lt_upper_bound; lia. }
      rewrite Eh, lor_add by (assumption || lia). rewrite <- Eh.
      assert (Ec : shr (u_lo x) (128 - s) = (u_lo x * 2 ^ s) / B).
      { unfold shr. rewrite EB, (Z.mul_comm (2 ^ s) (2 ^ (128 - s))). rewrite Z.div_mul_cancel_r by lia. reflexivity. }
      assert (Rh : 0 <= w128 (u_hi x * 2 ^ s) + shr (u_lo x) (128 - s) < B).
      { rewrite Eh. pose proof (Z.mod_pos_bound (u_hi x) (2 ^ (128 - s)) P2). rewrite EB. nia. }
      rewrite <- (w128_small (w128 (u_hi x * 2 ^ s) + shr (u_lo x) (128 - s))) by exact Rh.
      replace (w128 (w128 (u_hi x * 2 ^ s) + shr (u_lo x) (128 - s))) with (w128 (u_hi x * 2 ^ s + shr (u_lo x) (128 - s)))
        by (unfold w128; symmetry; apply wrap_add_l).
      eapply is_eq; [apply is_mk|]. rewrite Ec. unfold value. lia.
  - destruct (Z.ltb_spec s 256) as [H'|H'].
    + unfold shl128. rewrite (proj2 (Z.ltb_ge (s - 128) 0)), (proj2 (Z.leb_gt 128 (s - 128))) by lia. cbn [orb bind].
      eexists. split; [reflexivity|]. change 0 with (w128 0) at 1.
      eapply is_cong; [apply is_mk|]. change (0 / B) with 0. unfold value.
      replace s with (s - 128 + 128) at 2 by lia. rewrite Z.pow_add_r, BB by lia.
      replace ((u_hi x * B + u_lo x) * (2 ^ (s - 128) * B)) with ((u_lo x * 2 ^ (s - 128) - 0) * B + 0 + (u_hi x * 2 ^ (s - 128)) * (B * B)) by lia.
      symmetry. apply Z_mod_plus_full.
    + eexists. split; [reflexivity|]. split; [split; cbn [u_hi u_lo]; pose proof B_pos; lia|]. unfold value. cbn [u_hi u_lo].
      replace s with (s - 256 + 256) by lia. rewrite Z.pow_add_r, Z.mul_assoc, Z_mod_mult by lia. reflexivity.
Qed.

Lemma shl_neg x s : s < 0 -> u_shl x s = UB /\ u_shr x s = UB.
Proof.
  intros H. unfold u_shl, u_shr, shl128, shr128. rewrite (proj2 (Z.ltb_lt s 128)) by lia.
  destruct (Z.eqb_spec s 0); [lia|]. rewrite (proj2 (Z.ltb_lt s 0)) by lia. split; reflexivity.
Qed.

Lemma shr_is x s : is_u256 x -> 0 <= s -> exists y, u_shr x s = Ok y /\ is_u256 y /\ value y = value x / 2 ^ s.
Proof.
  intros [A1 A2] Hs. unfold u_shr. destruct (Z.ltb_spec s 128) as [H|H].
  - destruct (Z.eqb_spec s 0) as [->|E]; cbn [negb].
    + eexists. split; [reflexivity|]. split; [split; assumption|]. rewrite Z.div_1_r. reflexivity.
    + unfold shl128, shr128. rewrite (proj2 (Z.ltb_ge s 0)), (proj2 (Z.leb_gt 128 s)), (proj2 (Z.ltb_ge (128 - s) 0)), (proj2 (Z.leb_gt 128 (128 - s))) by lia.
      cbn [orb bind]. eexists. split; [reflexivity|].
      assert (P1 : 0 < 2 ^ s) by (apply Z.pow_pos_nonneg; lia). assert (P2 : 0 < 2 ^ (128 - s)) by (apply Z.pow_pos_nonneg; lia).
      assert (EB : B = 2 ^ s * 2 ^ (128 - s)) by (rewrite <- Z.pow_add_r by lia; f_equal; lia).
      assert (Eh : w128 (u_hi x * 2 ^ (128 - s)) = (u_hi x mod 2 ^ s) * 2 ^ (128 - s)).
      { unfold w128, wrap. rewrite EB. apply Zmult_mod_distr_r. }
      assert (Rc : 0 <= shr (u_lo x) s < 2 ^ (128 - s)).
      { unfold shr. split; [apply Z.div_pos; lia|]. apply Z.div_lt_upper_bound; lia. }
      rewrite Eh, Z.lor_comm, lor_add by (assumption || lia).
      pose proof (Z.mod_pos_bound (u_hi x) (2 ^ s) P1) as Hm. pose proof (Z.div_mod (u_hi x) (2 ^ s) ltac:(lia)) as Hd.
      split; [split; cbn [u_hi u_lo]|].
      * unfold shr. split; [apply Z.div_pos; lia|]. apply Z.div_lt_upper_bound; nia.
      * nia.
      * unfold value. cbn [u_hi u_lo]. unfold shr.
        replace (u_hi x * B + u_lo x) with (u_lo x + (u_hi x * 2 ^ (128 - s)) * 2 ^ s) by (rewrite EB; lia).
        rewrite Z.div_add by lia. rewrite EB.
        replace (u_hi x * 2 ^ (128 - s)) with ((2 ^ s * (u_hi x / 2 ^ s) + u_hi x mod 2 ^ s) * 2 ^ (128 - s)) by (rewrite <- Hd; reflexivity). lia.
  - destruct (Z.ltb_spec s 256) as [H'|H'].
    + unfold shr128. rewrite (proj2 (Z.ltb_ge (s - 128) 0)), (proj2 (Z.leb_gt 128 (s - 128))) by lia. cbn [orb bind].
      assert (P1 : 0 < 2 ^ (s - 128)) by (apply Z.pow_pos_nonneg; lia).
      eexists. split; [reflexivity|]. split.
      * split; cbn [u_hi u_lo]; [lia|]. unfold shr. split; [apply Z.div_pos; lia|]. apply Z.div_lt_upper_bound; nia.
      * unfold value. cbn [u_hi u_lo]. unfold shr. replace (2 ^ s) with (B * 2 ^ (s - 128)) by (rewrite <- Z.pow_add_r by lia; f_equal; lia).
        rewrite <- Z.div_div by lia. rewrite Z.div_add_l by lia. rewrite (Z.div_small (u_lo x)) by lia. rewrite Z.add_0_r. lia.
    + eexists. split; [reflexivity|]. split; [split; cbn [u_hi u_lo]; pose proof B_pos; lia|]. unfold value at 1. cbn [u_hi u_lo].
      rewrite Z.div_small; [lia|]. pose proof (value_range x (conj A1 A2)). assert (2 ^ 256 <= 2 ^ s) by (apply Z.pow_le_mono_r; lia). lia.
Qed.

(** ** Multiplication *)
Lemma mul_is x y : is_u256 x -> is_u256 y -> exists z, u_mul x y = Ok z /\ is z (value x * value y).
Proof.
  intros [A1 A2] [B1 B2]. unfold u_mul.
  set (a64 := shr (u_lo x) 64). set (a00 := wrap 64 (u_lo x)). set (b64 := shr (u_lo y) 64). set (b00 := wrap 64 (u_lo y)).
  assert (EB : B = 2 ^ 64 * 2 ^ 64) by reflexivity. set (W := 2 ^ 64) in *.
  assert (HW : 0 < W) by reflexivity.
  assert (Ra : 0 <= a64 < W /\ 0 <= a00 < W /\ u_lo x = W * a64 + a00).
  { unfold a64, a00, shr, wrap. fold W. split; [split; [apply Z.div_pos; lia|apply Z.div_lt_upper_bound; lia]|].
    split; [apply Z.mod_pos_bound; lia|apply Z.div_mod; lia]. }
  assert (Rb : 0 <= b64 < W /\ 0 <= b00 < W /\ u_lo y = W * b64 + b00).
  { unfold b64, b00, shr, wrap. fold W. split; [split; [apply Z.div_pos; lia|apply Z.div_lt_upper_bound; lia]|].
    split; [apply Z.mod_pos_bound; lia|apply Z.div_mod; lia]. }
  clearbody a64 a00 b64 b00. destruct Ra as (Ra1 & Ra2 & Ea). destruct Rb as (Rb1 & Rb2 & Eb).
  rewrite (w128_small (a64 * b00)), (w128_small (a00 * b64)), (w128_small (a00 * b00)) by (rewrite EB; nia).
  assert (M : is (u_add (u_of_unsigned (a64 * b00)) (u_of_unsigned (a00 * b64))) (a64 * b00 + a00 * b64)).
  { eapply is_eq; [apply add_is; split; cbn [u_of_unsigned u_hi u_lo]; rewrite ?EB; nia|]. reflexivity. }
  pose proof (is_small _ _ M) as Em. destruct M as [M _].
  assert (Vm : value (u_add (u_of_unsigned (a64 * b00)) (u_of_unsigned (a00 * b64))) = a64 * b00 + a00 * b64).
  { apply Em. rewrite BB, EB. nia. }
  destruct (shl_is _ 64 M ltac:(lia)) as (m & Esh & Im & Vsh). rewrite Esh. cbn [bind]. eexists. split; [reflexivity|].
  set (h := w128 (w128 (w128 (u_hi x * u_lo y) + w128 (a64 * b64)) + w128 (u_lo x * u_hi y))).
  assert (Eh : exists c, h = u_hi x * u_lo y + a64 * b64 + u_lo x * u_hi y - c * B).
  { exists ((u_hi x * u_lo y + a64 * b64 + u_lo x * u_hi y) / B). unfold h, w128.
    unfold wrap. rewrite Zplus_mod_idemp_r, <- Zplus_mod, Zplus_mod_idemp_l, Z.mod_eq by discriminate. ring. }
  assert (Rh : 0 <= h < B) by apply w128_range. clearbody h. destruct Eh as [c Eh].
  eapply is_cong; [apply add_is; [split; cbn [u_hi u_lo]; [exact Rh|rewrite EB; nia]|exact Im]|].
  rewrite Vsh, Vm. rewrite Zplus_mod_idemp_r. unfold value. cbn [u_hi u_lo]. fold W.
  replace ((u_hi x * B + u_lo x) * (u_hi y * B + u_lo y)) with
    (h * B + a00 * b00 + (a64 * b00 + a00 * b64) * W + (u_hi x * u_hi y + c) * (B * B)).
  - rewrite <- BB. symmetry. apply Z_mod_plus_full.
  - rewrite Eh.
    replace ((u_hi x * B + u_lo x) * (u_hi y * B + u_lo y)) with
      (u_hi x * u_hi y * (B * B) + (u_hi x * u_lo y + u_lo x * u_hi y) * B + u_lo x * u_lo y) by ring.
    replace (u_lo x * u_lo y) with ((W * W) * (a64 * b64) + (a64 * b00 + a00 * b64) * W + a00 * b00) by (rewrite Ea, Eb; ring).
    rewrite <- EB. ring.
Qed.

(** ** Position of the highest bit *)
Lemma log2_shr n s : 0 <= s -> 2 ^ s <= n -> Z.log2 (shr n s) = Z.log2 n - s.
Proof.
  intros Hs Hn. unfold shr. rewrite <- Z.shiftr_div_pow2 by lia. rewrite Z.log2_shiftr by lia.
  assert (s <= Z.log2 n) by (apply Z.log2_le_pow2; lia). lia.
Qed.

Lemma fls_step_ok sh n pos n' pos' : 0 <= sh -> 0 < n < 2 ^ (2 * sh) -> fls_step sh (n, pos) = (n', pos') ->
  0 < n' < 2 ^ sh /\ (pos' = pos \/ pos' = Z.lor pos sh) /\ (pos' = pos -> Z.log2 n' = Z.log2 n \/ Z.log2 n' + sh = Z.log2 n) /\
  ((pos' = pos /\ Z.log2 n' = Z.log2 n) \/ (pos' = Z.lor pos sh /\ Z.log2 n' + sh = Z.log2 n)).
Proof.
  intros Hs Hn. unfold fls_step. assert (P : 0 < 2 ^ sh) by (apply Z.pow_pos_nonneg; lia).
  destruct (Z.leb_spec (2 ^ sh) n) as [H|H]; intros E; injection E as <- <-.
  - pose proof (log2_shr n sh Hs H) as EL.
    assert (R : 0 < shr n sh < 2 ^ sh).
    { unfold shr. split; [apply Z.div_str_pos; lia|]. apply Z.div_lt_upper_bound; [lia|].
      rewrite <- Z.pow_add_r by lia. replace (sh + sh) with (2 * sh) by lia. lia. }
    split; [exact R|]. split; [right; reflexivity|]. split; [right; lia|]. right. split; [reflexivity|lia].
  - split; [lia|]. split; [left; reflexivity|]. split; [left; reflexivity|]. left. split; reflexivity.
Qed.

Lemma fls_table n : 0 < n < 16 -> Z.land (shr 0x3333333322221100 (wrap 32 (n * 4))) 3 = Z.log2 n.
Proof.
  intros H. assert (K : n = 1 \/ n = 2 \/ n = 3 \/ n = 4 \/ n = 5 \/ n = 6 \/ n = 7 \/ n = 8 \/ n = 9 \/ n = 10 \/ n = 11 \/ n = 12 \/ n = 13 \/ n = 14 \/ n = 15) by lia.
  repeat (destruct K as [->|K]; [reflexivity|]). subst n. reflexivity.
Qed.

Lemma fls64_ok n : 0 < n < 2 ^ 64 -> fls64 n = Z.log2 n.
Proof.
  intros H. unfold fls64. destruct (fls_step 32 (n, 0)) as [n1 p1] eqn:E1.
  destruct (fls_step_ok 32 _ _ _ _ ltac:(lia) H E1) as (R1 & _ & _ & D1).
  rewrite (wrap_small 32 n1) by lia.
  destruct (fls_step 16 (n1, p1)) as [n2 p2] eqn:E2. destruct (fls_step_ok 16 _ _ _ _ ltac:(lia) R1 E2) as (R2 & _ & _ & D2).
  destruct (fls_step 8 (n2, p2)) as [n3 p3] eqn:E3. destruct (fls_step_ok 8 _ _ _ _ ltac:(lia) R2 E3) as (R3 & _ & _ & D3).
  destruct (fls_step 4 (n3, p3)) as [n4 p4] eqn:E4. destruct (fls_step_ok 4 _ _ _ _ ltac:(lia) R3 E4) as (R4 & _ & _ & D4).
  rewrite fls_table by exact R4. clear E1 E2 E3 E4.
  destruct D1 as [[-> D1]|[-> D1]]; destruct D2 as [[-> D2]|[-> D2]]; destruct D3 as [[-> D3]|[-> D3]];
    destruct D4 as [[-> D4]|[-> D4]]; cbn [Z.lor Pos.lor]; lia.
Qed.

Lemma log2_high h l b : 0 <= b -> 0 < h -> 0 <= l < 2 ^ b -> Z.log2 (h * 2 ^ b + l) = Z.log2 h + b.
Proof.
  intros Hb Hh Hl. assert (P : 0 < 2 ^ b) by (apply Z.pow_pos_nonneg; lia).
  pose proof (log2_shr (h * 2 ^ b + l) b Hb ltac:(nia)) as E. unfold shr in E.
  rewrite Z.div_add_l, (Z.div_small l), Z.add_0_r in E by lia. lia.
Qed.

Lemma fls128_ok n : 0 < n < B -> fls128 n = Z.log2 n.
Proof.
  intros H. unfold fls128. assert (R : 0 <= shr n 64 < 2 ^ 64).
  { unfold shr. split; [apply Z.div_pos; lia|]. apply Z.div_lt_upper_bound; lia. }
  pose proof (Z.div_mod n (2 ^ 64) ltac:(discriminate)) as Hd. pose proof (Z.mod_pos_bound n (2 ^ 64) ltac:(lia)) as Hm.
  unfold shr in *. fold (wrap 64 n) in *. destruct (Z.eqb_spec (n / 2 ^ 64) 0) as [E|E]; cbn [negb].
  - rewrite E in Hd. rewrite fls64_ok by lia. f_equal. lia.
  - rewrite fls64_ok by lia. rewrite <- (log2_high (n / 2 ^ 64) (wrap 64 n) 64) by lia. f_equal. lia.
Qed.

Lemma fls256_ok x : is_u256 x -> 0 < value x -> fls256 x = Z.log2 (value x).
Proof.
  intros [A1 A2] H. unfold fls256, value in *. destruct (Z.eqb_spec (u_hi x) 0) as [E|E]; cbn [negb].
  - rewrite E in *. rewrite fls128_ok by lia. f_equal.
  - rewrite fls128_ok by lia. symmetry. apply log2_high; lia.
Qed.

(** ** Division *)
Lemma or_one x : is_u256 x -> value x mod 2 = 0 -> is_u256 (u_or x (u_of_int 1)) /\ value (u_or x (u_of_int 1)) = value x + 1.
Proof.
  intros [A1 A2] H. unfold u_or, u_of_int, value, is_u256 in *. cbn [u_hi u_lo Z.ltb]. change (w128 1) with 1. change (if 1 <? 0 then w128 (-1) else 0) with 0.
  rewrite Z.lor_0_r.
  assert (E : u_lo x mod 2 = 0).
  { rewrite <- H. replace (u_hi x * B + u_lo x) with (u_lo x + (u_hi x * 2 ^ 127) * 2) by (change B with (2 ^ 127 * 2); lia). symmetry. apply Z_mod_plus_full. }
  pose proof (Z.div_mod (u_lo x) 2 ltac:(lia)) as Hd. rewrite E in Hd.
  replace (Z.lor (u_lo x) 1) with (u_lo x + 1).
  - split; [|lia]. split; [lia|]. change B with (2 ^ 127 * 2) in *. lia.
  - replace (u_lo x) with ((u_lo x / 2) * 2 ^ 1) by (change (2 ^ 1) with 2; lia). rewrite lor_add by lia. reflexivity.
Qed.

Lemma divmod_loop_ok cnt : forall dividend den quo d, is_u256 dividend -> is_u256 den -> is_u256 quo -> 0 < d ->
  value den = d * 2 ^ Z.of_nat cnt / 2 -> value dividend < d * 2 ^ Z.of_nat cnt ->
  (value quo * 2 ^ Z.of_nat cnt) * d + value dividend < 2 ^ 256 ->
  exists q r, divmod_loop cnt dividend den quo = Ok (q, r) /\ is_u256 q /\ is_u256 r /\
    value q * d + value r = (value quo * 2 ^ Z.of_nat cnt) * d + value dividend /\ value r < d.
Proof.
  induction cnt as [|cnt IH]; intros dividend den quo d H1 H2 H3 Hd Eden Hlt Hov; cbn [divmod_loop].
  - exists quo, dividend. change (Z.of_nat 0) with 0 in *. rewrite Z.pow_0_r, Z.mul_1_r in *. auto 10.
  - rewrite Nat2Z.inj_succ, Z.pow_succ_r in * by lia. set (p := 2 ^ Z.of_nat cnt) in *.
    assert (Pp : 0 < p) by (apply Z.pow_pos_nonneg; lia).
    replace (d * (2 * p) / 2) with (d * p) in Eden by (replace (d * (2 * p)) with (d * p * 2) by lia; symmetry; apply Z.div_mul; lia).
    pose proof (value_range _ H1) as V1. pose proof (value_range _ H2) as V2. pose proof (value_range _ H3) as V3.
    assert (Qs : 0 <= value quo * 2 ^ 1 < 2 ^ 256 - 1).
    { change (2 ^ 1) with 2. split; [lia|]. destruct (Z.eq_dec (value quo) 0) as [E0|E0]; [rewrite E0; reflexivity|].
      assert (value quo * 2 * 1 <= value quo * 2 * (p * d)) by (apply Z.mul_le_mono_nonneg_l; nia).
      assert (Hx : value quo * (2 * p) * d = value quo * 2 * (p * d)) by ring. rewrite Hx in Hov.
      assert (value quo * 2 * (p * d) < 2 ^ 256) by lia.
      assert (value quo * 2 <> 2 ^ 256 - 1) by (change (2 ^ 256) with (2 ^ 255 * 2); lia).
      lia. }
    destruct (shl_is quo 1 H3 ltac:(lia)) as (q1 & E1 & I1). rewrite E1. cbn [bind].
    pose proof (is_small _ _ I1 ltac:(lia)) as Vq1. destruct I1 as [I1 _]. change (2 ^ 1) with 2 in *.
    destruct (shr_is den 1 H2 ltac:(lia)) as (d1 & Ed1 & Id1 & Vd1). change (2 ^ 1) with 2 in Vd1. rewrite Eden in Vd1.
    pose proof (cmp_is dividend den H1 H2) as (_ & _ & _ & Ege). rewrite Ege, Z.geb_leb, Eden.
    destruct (Z.leb_spec (d * p) (value dividend)) as [Hge|Hge].
    + pose proof (sub_is dividend den H1 H2) as Is. rewrite Eden in Is. pose proof (is_small _ _ Is ltac:(lia)) as Vs. destruct Is as [Is _].
      destruct (or_one q1 I1) as [Io Vo]; [rewrite Vq1; apply Z_mod_mult|]. rewrite Vq1 in Vo. rewrite Ed1. cbn [bind].
      destruct (IH (u_sub dividend den) d1 (u_or q1 (u_of_int 1)) d Is Id1 Io Hd Vd1) as (q & r & E & Iq & Ir & Ev & Hr).
      * rewrite Vs. lia.
      * rewrite Vo, Vs. lia.
      * exists q, r. rewrite E. repeat split; try apply Iq; try apply Ir; [|exact Hr]. rewrite Ev, Vo, Vs. ring.
    + rewrite Ed1. cbn [bind].
      destruct (IH dividend d1 q1 d H1 Id1 I1 Hd Vd1) as (q & r & E & Iq & Ir & Ev & Hr).
      * lia.
      * rewrite Vq1. lia.
      * exists q, r. rewrite E. repeat split; try apply Iq; try apply Ir; [|exact Hr]. rewrite Ev, Vq1. ring.
Qed.

Lemma of_int_small z : 0 <= z < B -> is_u256 (u_of_int z) /\ value (u_of_int z) = z.
Proof.
  intros H. unfold u_of_int, is_u256, value. rewrite (proj2 (Z.ltb_ge z 0)) by lia. cbn [u_hi u_lo].
  rewrite w128_small by exact H. pose proof B_pos. lia.
Qed.

Lemma divmod_ok x y : is_u256 x -> is_u256 y ->
  (value y = 0 -> u_divmod x y = Ok None) /\
  (value y <> 0 -> exists q r, u_divmod x y = Ok (Some (q, r)) /\ is_u256 q /\ is_u256 r /\
     value q = value x / value y /\ value r = value x mod value y).
Proof.
  intros Hx Hy. unfold u_divmod. pose proof (value_range _ Hx) as Vx. pose proof (value_range _ Hy) as Vy.
  destruct (of_int_small 0 ltac:(pose proof B_pos; lia)) as [I0 V0]. destruct (of_int_small 1 ltac:(split; [lia|reflexivity])) as [I1 V1].
  rewrite (eqb_is y (u_of_int 0) Hy I0), V0, (eqb_is y x Hy Hx). rewrite (proj1 (proj2 (cmp_is y x Hy Hx))), Z.gtb_ltb.
  destruct (Z.eqb_spec (value y) 0) as [E|E]; split; intros H; try contradiction; [reflexivity|].
  destruct (Z.ltb_spec (value x) (value y)) as [L|L].
  - exists (u_of_int 0), x. rewrite V0, Z.div_small, Z.mod_small by lia. auto.
  - destruct (Z.eqb_spec (value y) (value x)) as [E'|E'].
    + exists (u_of_int 1), (u_of_int 0). rewrite V0, V1, E', Z.div_same, Z.mod_same by lia. auto.
    + rewrite !fls256_ok by (assumption || lia).
      assert (HL : Z.log2 (value y) <= Z.log2 (value x)) by (apply Z.log2_le_mono; lia).
      set (s := Z.log2 (value x) - Z.log2 (value y)). assert (Hs : 0 <= s) by (unfold s; lia).
      pose proof (Z.log2_spec (value x) ltac:(lia)) as Sx. pose proof (Z.log2_spec (value y) ltac:(lia)) as Sy.
      assert (Hp : 2 ^ Z.log2 (value x) = 2 ^ Z.log2 (value y) * 2 ^ s) by (rewrite <- Z.pow_add_r by (try apply Z.log2_nonneg; lia); f_equal; unfold s; lia).
      assert (Ps : 0 < 2 ^ s) by (apply Z.pow_pos_nonneg; lia).
      rewrite Z.pow_succ_r in Sx, Sy by apply Z.log2_nonneg.
      assert (Lx : Z.log2 (value x) < 256) by (apply Z.log2_lt_pow2; lia).
      assert (Bs : value y * 2 ^ s < 2 ^ 256).
      { apply Z.lt_le_trans with (2 * 2 ^ Z.log2 (value x)); [nia|]. rewrite <- Z.pow_succ_r by apply Z.log2_nonneg. apply Z.pow_le_mono_r; lia. }
      destruct (shl_is y s Hy Hs) as (den & Ed & Id). rewrite Ed. cbn [bind].
      pose proof (is_small _ _ Id ltac:(nia)) as Vd. destruct Id as [Id _].
      assert (Ec : Z.of_nat (Z.to_nat (s + 1)) = s + 1) by lia.
      assert (Ep : 2 ^ (s + 1) = 2 * 2 ^ s) by (rewrite Z.pow_add_r by lia; change (2 ^ 1) with 2; lia).
      destruct (divmod_loop_ok (Z.to_nat (s + 1)) x den (u_of_int 0) (value y) Hx Id I0 ltac:(lia)) as (q & r & El & Iq & Ir & Ev & Hr);
        rewrite ?Ec, ?Ep.
      * rewrite Vd. replace (value y * (2 * 2 ^ s)) with (value y * 2 ^ s * 2) by lia. symmetry. apply Z.div_mul. lia.
      * rewrite Hp in Sx. nia.
      * rewrite V0. lia.
      * rewrite V0 in Ev. rewrite El. cbn [bind]. exists q, r. split; [reflexivity|]. split; [exact Iq|]. split; [exact Ir|].
        pose proof (value_range _ Ir). split; [apply Z.div_unique with (value r); lia|apply Z.mod_unique with (value q); lia].
Qed.
