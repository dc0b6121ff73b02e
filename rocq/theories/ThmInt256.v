(** C12 and C13: 256-bit arithmetic and its printing. *)
From Verif Require Import Base ZLemmas Int256 Int256Spec Int256Proofs.

(** ** C12 *)
Theorem C12_construct :
  (forall z, - 2 ^ 31 <= z < 2 ^ 31 -> is (u_of_int z) z) /\
  (forall v, 0 <= v < 2 ^ 128 -> is (u_of_unsigned v) v) /\
  (forall h l, 0 <= h < 2 ^ 128 -> 0 <= l < 2 ^ 128 -> is (u_make h l) (h * 2 ^ 128 + l)) /\
  is u_max (-1) /\
  (forall x, is_u256 x -> u_to_bool x = negb (value x =? 0) /\ u_not x = (value x =? 0) /\
     forall w, 0 <= w <= 128 -> u_to_unsigned w x = value x mod 2 ^ w).
Proof.
  split; [|split; [|split; [|split]]].
  - intros z Hz. unfold u_of_int. destruct (Z.ltb_spec z 0).
    + eapply is_cong; [apply is_mk|]. replace (z / 2 ^ 128) with (-1) by (apply Z.div_unique with (z + 2 ^ 128); lia).
      f_equal.
    + change 0 with (w128 0) at 1. eapply is_eq; [apply is_mk|]. rewrite Z.div_small by lia. lia.
  - intros v Hv. split; [split; cbn [u_of_unsigned u_hi u_lo]; lia|]. unfold value. cbn [u_of_unsigned u_hi u_lo].
    rewrite Z.mod_small; [lia|]. rewrite BB. nia.
  - intros h l Hh Hl. apply is_value. split; assumption.
  - split; [split; cbn; lia|reflexivity].
  - intros x Hx. pose proof Hx as [[A1 A2] [A3 A4]]. unfold u_to_bool, u_not, u_to_unsigned, value.
    split; [|split].
    + destruct (Z.eqb_spec (u_lo x) 0), (Z.eqb_spec (u_hi x) 0), (Z.eqb_spec (u_hi x * 2 ^ 128 + u_lo x) 0); try reflexivity; exfalso; nia.
    + destruct (Z.eqb_spec (u_lo x) 0), (Z.eqb_spec (u_hi x) 0), (Z.eqb_spec (u_hi x * 2 ^ 128 + u_lo x) 0); try reflexivity; exfalso; nia.
    + intros w Hw. unfold wrap. replace 128 with (128 - w + w) at 1 by lia. rewrite Z.pow_add_r, Z.mul_assoc, Z.add_comm by lia.
      symmetry. apply Z_mod_plus_full.
Qed.

Theorem C12_add_sub :
  forall x y, is_u256 x -> is_u256 y ->
  is (u_add x y) (value x + value y) /\ is (u_sub x y) (value x - value y) /\ is (u_neg x) (- value x) /\
  is (u_inc x) (value x + 1) /\ is (u_dec x) (value x - 1).
Proof. intros x y Hx Hy. exact (conj (add_is x y Hx Hy) (conj (sub_is x y Hx Hy) (conj (neg_is x Hx) (conj (inc_is x Hx) (dec_is x Hx))))). Qed.

Theorem C12_mul :
  forall x y, is_u256 x -> is_u256 y -> exists z, u_mul x y = Ok z /\ is z (value x * value y).
Proof. exact mul_is. Qed.

Theorem C12_bitwise :
  forall x y, is_u256 x -> is_u256 y ->
  (is_u256 (u_and x y) /\ value (u_and x y) = Z.land (value x) (value y)) /\
  (is_u256 (u_or x y) /\ value (u_or x y) = Z.lor (value x) (value y)) /\
  (is_u256 (u_xor x y) /\ value (u_xor x y) = Z.lxor (value x) (value y)) /\
  (is_u256 (u_compl x) /\ is (u_compl x) (Z.lnot (value x))).
Proof.
  intros x y Hx Hy. split; [|split; [|split]].
  - apply (bitwise_is Z.land andb); auto using Z.land_spec. intros a b Ha Hb. apply Z.land_nonneg. auto.
  - apply (bitwise_is Z.lor orb); auto using Z.lor_spec. intros a b Ha Hb. apply Z.lor_nonneg. auto.
  - apply (bitwise_is Z.lxor xorb); auto using Z.lxor_spec. intros a b Ha Hb. apply Z.lxor_nonneg. tauto.
  - destruct (compl_is x Hx) as [I V]. split; [exact I|]. split; [exact I|]. rewrite V. unfold Z.lnot.
    pose proof (value_range x Hx). apply Z.mod_unique with (-1); lia.
Qed.

(** shifts by every non-negative amount; a negative amount is undefined
    behaviour, as for the built-in types *)
Theorem C12_shift :
  forall x s, is_u256 x ->
  (0 <= s -> exists y z, u_shl x s = Ok y /\ is y (value x * 2 ^ s) /\ u_shr x s = Ok z /\ is z (value x / 2 ^ s)) /\
  (s < 0 -> u_shl x s = UB /\ u_shr x s = UB).
Proof.
  intros x s Hx. split; [|apply shl_neg]. intros Hs. destruct (shl_is x s Hx Hs) as (y & Ey & Iy).
  destruct (shr_is x s Hx Hs) as (z & Ez & Iz & Vz). exists y, z. repeat split; auto; try apply Iy; try apply Iz.
  rewrite Vz. symmetry. apply Z.mod_small. rewrite <- Vz. apply value_range, Iz.
Qed.

Theorem C12_compare :
  forall x y, is_u256 x -> is_u256 y ->
  (u_eqb x y = true <-> value x = value y) /\ (u_ltb x y = true <-> value x < value y) /\
  (u_gtb x y = true <-> value x > value y) /\ (u_leb x y = true <-> value x <= value y) /\
  (u_geb x y = true <-> value x >= value y) /\ (value x = value y <-> x = y).
Proof.
  intros x y Hx Hy. rewrite (eqb_is x y Hx Hy). destruct (cmp_is x y Hx Hy) as (-> & -> & -> & ->).
  rewrite Z.eqb_eq, Z.ltb_lt, Z.gtb_lt, Z.leb_le, Z.geb_le. repeat split; try lia; [apply value_inj; assumption|congruence].
Qed.

(** division never overflows, never fails except for a zero divisor (the
    process is ended: [Ok None]) and is exact *)
Theorem C12_div_mod :
  forall x y, is_u256 x -> is_u256 y ->
  (value y = 0 -> u_div x y = Ok None /\ u_mod x y = Ok None) /\
  (value y <> 0 -> exists q r, u_div x y = Ok (Some q) /\ u_mod x y = Ok (Some r) /\
     is_u256 q /\ is_u256 r /\ value x = value y * value q + value r /\ 0 <= value r < value y).
Proof.
  intros x y Hx Hy. unfold u_div, u_mod. destruct (divmod_ok x y Hx Hy) as [H0 H1]. split.
  - intros E. rewrite (H0 E). split; reflexivity.
  - intros E. destruct (H1 E) as (q & r & -> & Iq & Ir & Vq & Vr). exists q, r. cbn [rmap option_map fst snd].
    pose proof (value_range y Hy). split; [reflexivity|]. split; [reflexivity|]. split; [exact Iq|]. split; [exact Ir|].
    rewrite Vq, Vr. split; [apply Z.div_mod; exact E|apply Z.mod_pos_bound; lia].
Qed.

Example C12_example :
  let x := mk256 (2 ^ 127 + 12345) (2 ^ 128 - 3) in let y := mk256 1 (2 ^ 128 - 1) in
  is_u256 x /\ is_u256 y /\
  (exists z, u_mul x y = Ok z /\ value z = value x * value y mod 2 ^ 256 /\ value z <> value x * value y) /\
  (exists q, u_div x y = Ok (Some q) /\ value q = (2 ^ 255 + 12345 * 2 ^ 128 + 2 ^ 128 - 3) / (2 ^ 129 - 1)).
Proof.
  cbv zeta. split; [split; cbn; lia|]. split; [split; cbn; lia|]. split.
  - eexists. split; [vm_compute; reflexivity|]. split; [vm_compute; reflexivity|]. vm_compute. discriminate.
  - eexists. split; vm_compute; reflexivity.
Qed.

(** ** C13 *)
Section Digits.
Variable b : Z.
Hypothesis Hb : 2 <= b.

Lemma horner_app ds : forall es acc, horner b acc (ds ++ es) = horner b (horner b acc ds) es.
Proof. induction ds; intros; cbn; auto. Qed.

Lemma horner_acc ds : forall acc, horner b acc ds = acc * b ^ Z.of_nat (length ds) + horner b 0 ds.
Proof.
  induction ds as [|d ds IH]; intros acc; cbn [horner length]; [change (Z.of_nat 0) with 0; lia|].
  rewrite (IH (acc * b + d)), (IH (0 * b + d)), Nat2Z.inj_succ, Z.pow_succ_r by lia. ring.
Qed.

Lemma horner_zeros n acc : horner b acc (repeat 0 n) = acc * b ^ Z.of_nat n.
Proof.
  rewrite horner_acc, repeat_length. replace (horner b 0 (repeat 0 n)) with 0; [lia|].
  induction n; [reflexivity|]. cbn [repeat horner]. exact IHn.
Qed.

Lemma udigits_ok fuel : forall v, 0 <= v < b ^ Z.of_nat fuel -> (0 < fuel)%nat ->
  represents b v (udigits fuel b v) /\ (forall w, (0 < w)%nat -> v < b ^ Z.of_nat w -> (length (udigits fuel b v) <= w)%nat).
Proof.
  induction fuel as [|fuel IH]; intros v Hv Hf; [lia|]. cbn [udigits]. destruct (Z.ltb_spec v b) as [H|H].
  - split; [|intros; cbn; lia]. split; [repeat constructor; lia|]. split; [reflexivity|auto].
  - rewrite Nat2Z.inj_succ, Z.pow_succ_r in Hv by lia.
    assert (Hq : 0 < v / b < b ^ Z.of_nat fuel) by (split; [apply Z.div_str_pos; lia|apply Z.div_lt_upper_bound; lia]).
    assert (Hf' : (0 < fuel)%nat) by (destruct fuel; [cbn in Hq; lia|lia]).
    destruct (IH (v / b) ltac:(lia) Hf') as [(F & E & N) L]. pose proof (Z.mod_pos_bound v b ltac:(lia)) as Hm.
    pose proof (Z.div_mod v b ltac:(lia)) as Hd. split.
    + split; [|split].
      * apply Forall_app. split; [exact F|]. repeat constructor; lia.
      * rewrite horner_app, E. cbn. lia.
      * destruct (udigits fuel b (v / b)) as [|d ds]; [destruct N|]. cbn [app]. intros ->. exfalso.
        rewrite (N eq_refl) in E. cbn in E. lia.
    + intros w Hw Hlt. rewrite app_length. cbn [length]. destruct w as [|w]; [lia|].
      rewrite Nat2Z.inj_succ, Z.pow_succ_r in Hlt by lia.
      destruct w as [|w]; [cbn in Hlt; lia|].
      assert (v / b < b ^ Z.of_nat (S w)) by (apply Z.div_lt_upper_bound; lia). specialize (L (S w) ltac:(lia) ltac:(assumption)). lia.
Qed.
End Digits.

Lemma represents_unique b v : 2 <= b -> forall ds es, represents b v ds -> represents b v es -> ds = es.
Proof.
  intros Hb.
  assert (U : forall n ds es, (length ds <= n)%nat -> represents b (horner b 0 ds) ds -> represents b (horner b 0 es) es ->
    horner b 0 ds = horner b 0 es -> ds = es).
  { intros n. induction n as [|n IH]; intros ds es Hn Hd He E.
    - destruct ds; [destruct Hd as (_ & _ & []) | cbn in Hn; lia].
    - destruct (@exists_last _ ds) as (ds' & d & ->); [intros ->; destruct Hd as (_ & _ & [])|].
      destruct (@exists_last _ es) as (es' & e & ->); [intros ->; destruct He as (_ & _ & [])|].
      rewrite !horner_app in E. cbn [horner] in E.
      destruct Hd as (Fd & _ & Nd). destruct He as (Fe & _ & Ne). apply Forall_app in Fd. apply Forall_app in Fe.
      destruct Fd as [Fd Hd]. destruct Fe as [Fe He]. inversion Hd as [|? ? Rd _]; subst. inversion He as [|? ? Re _]; subst.
      assert (Ed : d = e).
      { apply (f_equal (fun z => z mod b)) in E. rewrite (Z.add_comm _ d), (Z.add_comm _ e), !Z_mod_plus_full, !Z.mod_small in E by lia. exact E. }
      subst e. assert (E' : horner b 0 ds' = horner b 0 es') by (apply (Z.mul_reg_r _ _ b); lia).
      assert (Pos : forall l, Forall (fun d => 0 <= d < b) l -> l <> [] -> (forall x r, l = x :: r -> x <> 0) -> 0 < horner b 0 l).
      { intros [|x r] Fl Hl Hx; [contradiction|]. cbn [horner]. rewrite horner_acc. inversion Fl as [|? ? Rx Fr]; subst.
        assert (0 <= horner b 0 r).
        { clear -Fr Hb. revert Fr. assert (G : forall acc, 0 <= acc -> Forall (fun d => 0 <= d < b) r -> 0 <= horner b acc r).
          { induction r as [|y r IHr]; intros acc Ha Fr; [exact Ha|]. inversion Fr; subst. apply IHr; [nia|assumption]. }
          apply G. lia. }
        specialize (Hx x r eq_refl). assert (0 < b ^ Z.of_nat (length r)) by (apply Z.pow_pos_nonneg; lia). nia. }
      assert (Nz : forall l x, match l ++ [x] with [] => False | y :: rest => y = 0 -> rest = [] end -> forall y r, l = y :: r -> y <> 0).
      { intros l x N y r -> ->. cbn in N. specialize (N eq_refl). destruct r; discriminate. }
      destruct ds' as [|d1 ds'], es' as [|e1 es'].
      + reflexivity.
      + exfalso. pose proof (Pos _ Fe ltac:(discriminate) (Nz (e1 :: es') d Ne)) as P. rewrite <- E' in P. cbn in P. lia.
      + exfalso. pose proof (Pos _ Fd ltac:(discriminate) (Nz (d1 :: ds') d Nd)) as P. rewrite E' in P. cbn in P. lia.
      + f_equal. apply IH; [rewrite app_length in Hn; cbn in *; lia| | |exact E'].
        * split; [exact Fd|]. split; [reflexivity|]. intros ->. destruct (Nz (_ :: _) d Nd _ _ eq_refl eq_refl).
        * split; [exact Fe|]. split; [reflexivity|]. intros ->. destruct (Nz (_ :: _) d Ne _ _ eq_refl eq_refl). }
  intros ds es Hd He. apply (U (length ds)); auto.
  - destruct Hd as (F & E & N). split; [exact F|auto].
  - destruct He as (F & E & N). split; [exact F|auto].
  - destruct Hd as (_ & -> & _). destruct He as (_ & -> & _). reflexivity.
Qed.

Lemma digit_char_text up d : 0 <= d < 16 -> digit_char up d = digit_text up d.
Proof.
  intros H. assert (K : d = 0 \/ d = 1 \/ d = 2 \/ d = 3 \/ d = 4 \/ d = 5 \/ d = 6 \/ d = 7 \/ d = 8 \/ d = 9 \/ d = 10 \/ d = 11 \/ d = 12 \/ d = 13 \/ d = 14 \/ d = 15) by lia.
  destruct up; repeat (destruct K as [->|K]; [reflexivity|]); subst d; reflexivity.
Qed.

Lemma base_of_range b : 2 <= base_of b <= 16. Proof. destruct b; cbn; lia. Qed.
Lemma chunk_pow b : chunk_div b = base_of b ^ chunk_log b. Proof. destruct b; reflexivity. Qed.
Lemma chunk_big b : chunk_div b <= base_of b ^ Z.of_nat 43 /\ 2 ^ 59 < chunk_div b < 2 ^ 64 /\ 0 < chunk_log b.
Proof. destruct b; vm_compute; repeat split; discriminate. Qed.

Lemma map_zeros up n : map (digit_char up) (repeat 0 n) = repeat 48 n.
Proof. induction n; cbn; [reflexivity|]. f_equal. exact IHn. Qed.

Local Opaque udigits.
Section Print.
Variable f : ioflags.
Notation b := (io_base f).
Notation dc := (digit_char (io_upper f)).

(** state of the output after the chunks making up V *)
Definition st_ok (V : Z) (st : list Z * bool * bool * Z) : Prop :=
  if V =? 0 then st = ([], false, io_showbase f, 0)
  else exists ds, represents (base_of b) V ds /\ st = (base_text f V ++ map dc ds, true, false, chunk_log b).

Lemma print_small show v : 0 <= v < chunk_div b ->
  print128 show (io_upper f) b 0 v = prefix show (io_upper f) b v ++ map dc (udigits 43 (base_of b) v).
Proof. intros _. unfold print128, pad_left. match goal with |- repeat _ (Z.to_nat (0 - Z.of_nat ?n)) ++ _ = _ => replace (Z.to_nat (0 - Z.of_nat n)) with 0%nat by lia end. reflexivity. Qed.

Lemma chunk_join V ds c : V <> 0 -> represents (base_of b) V ds -> 0 <= c < chunk_div b ->
  exists es, represents (base_of b) (V * chunk_div b + c) (ds ++ es) /\ print128 false (io_upper f) b (chunk_log b) c = map dc es.
Proof.
  intros HV (F & E & N) Hc. pose proof (base_of_range b) as Hb. destruct (chunk_big b) as (B1 & B2 & B3).
  destruct (udigits_ok (base_of b) ltac:(lia) 43 c ltac:(lia) ltac:(lia)) as [(F' & E' & _) HL].
  specialize (HL (Z.to_nat (chunk_log b)) ltac:(lia)). rewrite Z2Nat.id in HL by lia. rewrite <- chunk_pow in HL. specialize (HL ltac:(lia)).
  set (u := udigits 43 (base_of b) c) in *. exists (repeat 0 (Z.to_nat (chunk_log b - Z.of_nat (length u))) ++ u). split.
  - split; [|split].
    + apply Forall_app. split; [exact F|]. apply Forall_app. split; [|exact F']. apply Forall_forall. intros z Hz. apply repeat_spec in Hz. lia.
    + rewrite !horner_app, E, horner_zeros, horner_acc, E'. rewrite <- Z.mul_assoc, <- Z.pow_add_r by lia.
      rewrite chunk_pow. do 2 f_equal. f_equal. lia.
    + destruct ds as [|d ds]; [destruct N|]. cbn [app]. intros ->. exfalso. rewrite (N eq_refl) in E. cbn in E. lia.
  - unfold print128, pad_left, prefix. cbn [negb orb app]. rewrite map_app, map_length. f_equal.
    symmetry. apply map_zeros.
Qed.

Lemma chunk_step_ok V st c : 0 <= V -> st_ok V st -> 0 <= c < chunk_div b ->
  st_ok (V * chunk_div b + c) (chunk_step (io_upper f) b st c).
Proof.
  intros HV Hst Hc. pose proof (base_of_range b) as Hb. destruct (chunk_big b) as (B1 & B2 & B3).
  unfold st_ok in *. destruct (Z.eqb_spec V 0) as [->|HV0].
  - rewrite Hst. cbn [chunk_step orb Z.mul Z.add]. destruct (Z.eqb_spec c 0) as [->|Hc0]; cbn [negb]; [reflexivity|].
    destruct (udigits_ok (base_of b) ltac:(lia) 43 c ltac:(lia) ltac:(lia)) as [R _].
    exists (udigits 43 (base_of b) c). split; [exact R|]. rewrite print_small by exact Hc. cbn [app]. unfold prefix, base_text.
    rewrite (proj2 (Z.eqb_neq c 0) Hc0), Bool.orb_false_r. destruct (io_showbase f); cbn [negb]; [|reflexivity]. reflexivity.
  - destruct Hst as (ds & R & ->). cbn [chunk_step orb]. destruct (Z.eqb_spec (V * chunk_div b + c) 0); [nia|].
    destruct (chunk_join V ds c HV0 R Hc) as (es & R' & ->). exists (ds ++ es). split; [exact R'|].
    rewrite map_app, app_assoc. do 4 f_equal. unfold base_text. rewrite (proj2 (Z.eqb_neq V 0) HV0).
    destruct (Z.eqb_spec (V * chunk_div b + c) 0); [contradiction|]. reflexivity.
Qed.

Lemma chunk_last V st c : 0 <= V -> st_ok V st -> 0 <= c < chunk_div b ->
  exists ds, represents (base_of b) (V * chunk_div b + c) ds /\
    (let '(os, _, show, width) := st in os ++ print128 show (io_upper f) b width c) = base_text f (V * chunk_div b + c) ++ map dc ds.
Proof.
  intros HV Hst Hc. pose proof (base_of_range b) as Hb. destruct (chunk_big b) as (B1 & B2 & B3).
  unfold st_ok in *. destruct (Z.eqb_spec V 0) as [->|HV0].
  - rewrite Hst. cbn [Z.mul Z.add app].
    destruct (udigits_ok (base_of b) ltac:(lia) 43 c ltac:(lia) ltac:(lia)) as [R _].
    exists (udigits 43 (base_of b) c). split; [exact R|]. rewrite print_small by exact Hc. f_equal. unfold prefix, base_text.
    destruct (io_showbase f), (c =? 0); reflexivity.
  - destruct Hst as (ds & R & ->). destruct (chunk_join V ds c HV0 R Hc) as (es & R' & ->). exists (ds ++ es). split; [exact R'|].
    rewrite map_app, app_assoc. do 2 f_equal. unfold base_text. rewrite (proj2 (Z.eqb_neq V 0) HV0).
    destruct (Z.eqb_spec (V * chunk_div b + c) 0); [nia|]. reflexivity.
Qed.
End Print.

(** Printing: the base prefix if asked for, then exactly the digits of the
    value (their uniqueness is [C13_digits_unique]), filled up to the width *)
Theorem C13_print :
  forall f x, is_u256 x ->
  exists ds, represents (base_of (io_base f)) (value x) ds /\
    u_print f x = Ok (Some (padded f (base_text f (value x) ++ map (digit_text (io_upper f)) ds))).
Proof.
  intros f x Hx. unfold u_print. set (D := chunk_div (io_base f)).
  pose proof (base_of_range (io_base f)) as Hb. destruct (chunk_big (io_base f)) as (B1 & B2 & B3). fold D in B1, B2.
  assert (ID : is_u256 (u_of_unsigned D)) by (split; cbn [u_of_unsigned u_hi u_lo]; lia).
  assert (VD : value (u_of_unsigned D) = D) by reflexivity.
  pose proof (value_range x Hx) as Vx.
  destruct (proj2 (divmod_ok x _ Hx ID) ltac:(lia)) as (h1 & low & -> & I1 & J1 & V1 & W1). cbn [bind].
  destruct (proj2 (divmod_ok h1 _ I1 ID) ltac:(lia)) as (h2 & ml & -> & I2 & J2 & V2 & W2). cbn [bind].
  destruct (proj2 (divmod_ok h2 _ I2 ID) ltac:(lia)) as (h3 & mm & -> & I3 & J3 & V3 & W3). cbn [bind].
  destruct (proj2 (divmod_ok h3 _ I3 ID) ltac:(lia)) as (h4 & mh & -> & I4 & J4 & V4 & W4). cbn [bind].
  rewrite VD in *.
  assert (Lo : forall y, is_u256 y -> value y < 2 ^ 128 -> u_lo y = value y).
  { intros y [Y1 Y2] Hy. unfold value in *. nia. }
  assert (HD : 0 < D) by lia.
  assert (R : forall y, 0 <= y mod D < D) by (intros; apply Z.mod_pos_bound; lia).
  assert (Small : 0 <= value h4 < D).
  { split; [apply (value_range h4 I4)|]. rewrite V4, V3, V2, V1. rewrite !Z.div_div by nia. apply Z.div_lt_upper_bound; [nia|].
    apply Z.lt_le_trans with (2 ^ 256); [lia|]. apply Z.le_trans with (2 ^ 59 * (2 ^ 59 * (2 ^ 59 * 2 ^ 59)) * 2 ^ 59); [vm_compute; discriminate|].
    apply Z.mul_le_mono_nonneg; try lia. }
  rewrite (Lo h4 I4), (Lo mh J4), (Lo mm J3), (Lo ml J2), (Lo low J1)
    by (rewrite ?W1, ?W2, ?W3, ?W4; try lia;
        match goal with |- ?y mod D < _ => pose proof (R y); lia end).
  cbn [fold_left].
  assert (S0 : st_ok f 0 ([], false, io_showbase f, 0)) by reflexivity.
  pose proof (chunk_step_ok f 0 _ (value h4) ltac:(lia) S0 ltac:(fold D; lia)) as S1. fold D in S1.
  pose proof (value_range _ J4) as P4. pose proof (value_range _ J3) as P3. pose proof (value_range _ J2) as P2. pose proof (value_range _ J1) as P1.
  pose proof (chunk_step_ok f (0 * D + value h4) _ (value mh) ltac:(nia) S1 ltac:(fold D; rewrite W4; apply R)) as S2. fold D in S2.
  assert (E3 : (0 * D + value h4) * D + value mh = value h3) by (rewrite V4, W4; pose proof (Z.div_mod (value h3) D); lia).
  rewrite E3 in S2. pose proof (value_range _ I3) as Q3.
  pose proof (chunk_step_ok f (value h3) _ (value mm) ltac:(lia) S2 ltac:(fold D; rewrite W3; apply R)) as S3. fold D in S3.
  assert (E2 : value h3 * D + value mm = value h2) by (rewrite V3, W3; pose proof (Z.div_mod (value h2) D); lia).
  rewrite E2 in S3. pose proof (value_range _ I2) as Q2.
  pose proof (chunk_step_ok f (value h2) _ (value ml) ltac:(lia) S3 ltac:(fold D; rewrite W2; apply R)) as S4. fold D in S4.
  assert (E1 : value h2 * D + value ml = value h1) by (rewrite V2, W2; pose proof (Z.div_mod (value h1) D); lia).
  rewrite E1 in S4. pose proof (value_range _ I1) as Q1.
  destruct (chunk_last f (value h1) _ (value low) ltac:(lia) S4 ltac:(fold D; rewrite W1; apply R)) as (ds & Rep & Eos). fold D in Rep, Eos.
  assert (E0 : value h1 * D + value low = value x) by (rewrite V1, W1; pose proof (Z.div_mod (value x) D); lia).
  rewrite E0 in *. exists ds. split; [exact Rep|].
  destruct (chunk_step _ _ _ (value ml)) as [[[os p] sh] w].
  rewrite Eos. do 2 f_equal.
  assert (Emap : map (digit_char (io_upper f)) ds = map (digit_text (io_upper f)) ds).
  { apply map_ext_in. intros d Hd. apply digit_char_text. destruct Rep as (F & _). rewrite Forall_forall in F. specialize (F d Hd). lia. }
  rewrite Emap. unfold padded.
  match goal with |- context[Z.of_nat (length ?l) <? _] => set (rep := l) end.
  destruct (Z.ltb_spec (Z.of_nat (length rep)) (io_width f)) as [H|H]; [reflexivity|].
  replace (Z.to_nat (io_width f - Z.of_nat (length rep))) with 0%nat by lia. cbn [repeat app]. rewrite app_nil_r. destruct (io_left f); reflexivity.
Qed.

Theorem C13_digits_unique :
  forall f v ds es, represents (base_of (io_base f)) v ds -> represents (base_of (io_base f)) v es -> ds = es.
Proof. intros f v ds es. apply represents_unique. pose proof (base_of_range (io_base f)). lia. Qed.

(** 10^57 + 7 has inner chunks that are entirely zero *)
Example C13_example :
  represents 10 (10 ^ 57 + 7) (1 :: repeat 0 56 ++ [7]) /\
  u_print {| io_base := Dec; io_showbase := false; io_upper := false; io_left := false; io_width := 60; io_fill := 42 |}
    (mk256 ((10 ^ 57 + 7) / 2 ^ 128) ((10 ^ 57 + 7) mod 2 ^ 128)) = Ok (Some ([42; 42; 49] ++ repeat 48 56 ++ [55])) /\
  u_print {| io_base := Hex; io_showbase := true; io_upper := true; io_left := true; io_width := 0; io_fill := 42 |} (mk256 0 255) = Ok (Some [48; 88; 70; 70]).
Proof. split; [|split; vm_compute; reflexivity]. split; [repeat (constructor; [lia|]); constructor|]. split; [vm_compute; reflexivity|discriminate]. Qed.

Print Assumptions C12_construct.
Print Assumptions C12_add_sub.
Print Assumptions C12_mul.
Print Assumptions C12_bitwise.
Print Assumptions C12_shift.
Print Assumptions C12_compare.
Print Assumptions C12_div_mod.
Print Assumptions C13_print.
Print Assumptions C13_digits_unique.
