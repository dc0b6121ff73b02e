(** Index-level facts about the NTT model: bit reversal, the swap loop, binary
    fuel loops, and the effect of one pass of in-place butterflies. *)
From Verif Require Import Base Montgomery Ntt TranscriptionProofs.

(** ** Bit reversal *)

Lemma bitrev_loop_acc l : forall i o, bitrev_loop l i o = (2 ^ l * o + bitrev_loop l i 0)%nat.
Proof.
  induction l as [|l IH]; intros i o; cbn [bitrev_loop Nat.pow]; [lia|].
  rewrite IH, (IH (i / 2)%nat (2 * 0 + i mod 2)%nat). nia.
Qed.

Lemma bitrev_S i l : bitrev i (S l) = (2 ^ l * (i mod 2) + bitrev (i / 2) l)%nat.
Proof. unfold bitrev. cbn [bitrev_loop]. rewrite bitrev_loop_acc. lia. Qed.

Lemma div2_lt i l : (i < 2 ^ S l)%nat -> (i / 2 < 2 ^ l)%nat.
Proof. intros H. apply Nat.div_lt_upper_bound; [lia|]. rewrite Nat.pow_succ_r' in H. lia. Qed.

Lemma bitrev_lt l : forall i, (bitrev i l < 2 ^ l)%nat.
Proof.
  induction l as [|l IH]; intros i; [cbn; lia|]. rewrite bitrev_S.
  specialize (IH (i / 2)%nat). pose proof (Nat.mod_upper_bound i 2 ltac:(lia)).
  rewrite Nat.pow_succ_r'. nia.
Qed.

Lemma bitrev_even i l : bitrev (2 * i) (S l) = bitrev i l.
Proof.
  rewrite bitrev_S. replace ((2 * i) mod 2)%nat with 0%nat.
  - replace (2 * i / 2)%nat with i; [lia|]. rewrite Nat.mul_comm, Nat.div_mul; lia.
  - rewrite Nat.mul_comm, Nat.mod_mul; lia.
Qed.

Lemma bitrev_odd i l : bitrev (2 * i + 1) (S l) = (2 ^ l + bitrev i l)%nat.
Proof.
  rewrite bitrev_S. replace ((2 * i + 1) mod 2)%nat with 1%nat.
  - replace ((2 * i + 1) / 2)%nat with i; [lia|].
    apply Nat.div_unique with 1%nat; lia.
  - apply Nat.mod_unique with i; lia.
Qed.

(** Stripping the top bit instead of the bottom bit. *)
Lemma bitrev_top l : forall i b, (i < 2 ^ l)%nat -> (b < 2)%nat ->
  bitrev (2 ^ l * b + i) (S l) = (2 * bitrev i l + b)%nat.
Proof.
  induction l as [|l IH]; intros i b Hi Hb.
  - assert (i = 0)%nat by (cbn in Hi; lia). subst i.
    assert (b = 0 \/ b = 1)%nat as [->| ->] by lia; reflexivity.
  - rewrite (bitrev_S (2 ^ S l * b + i)).
    assert (E1 : ((2 ^ S l * b + i) mod 2 = i mod 2)%nat).
    { rewrite Nat.pow_succ_r'. replace (2 * 2 ^ l * b + i)%nat with (i + (2 ^ l * b) * 2)%nat by lia.
      apply Nat.mod_add; lia. }
    assert (E2 : ((2 ^ S l * b + i) / 2 = 2 ^ l * b + i / 2)%nat).
    { rewrite Nat.pow_succ_r'. replace (2 * 2 ^ l * b + i)%nat with (i + (2 ^ l * b) * 2)%nat by lia.
      rewrite Nat.div_add by lia. lia. }
    rewrite E1, E2, IH by (try apply div2_lt; assumption).
    rewrite (bitrev_S i l). rewrite Nat.pow_succ_r'. lia.
Qed.

Lemma bitrev_low i l : (i < 2 ^ l)%nat -> bitrev i (S l) = (2 * bitrev i l)%nat.
Proof.
  intros H. pose proof (bitrev_top l i 0 H ltac:(lia)) as E.
  rewrite Nat.mul_0_r, Nat.add_0_l in E. lia.
Qed.

Lemma bitrev_high i l : (i < 2 ^ l)%nat -> bitrev (2 ^ l + i) (S l) = (2 * bitrev i l + 1)%nat.
Proof.
  intros H. pose proof (bitrev_top l i 1 H ltac:(lia)) as E.
  rewrite Nat.mul_1_r in E. exact E.
Qed.

Lemma bitrev_invol l : forall i, (i < 2 ^ l)%nat -> bitrev (bitrev i l) l = i.
Proof.
  induction l as [|l IH]; intros i Hi.
  - cbn in Hi. cbn. lia.
  - rewrite (bitrev_S i l). pose proof (div2_lt i l Hi) as Hd.
    rewrite bitrev_top by (try apply bitrev_lt; apply Nat.mod_upper_bound; lia).
    rewrite IH by assumption. pose proof (Nat.div_mod i 2 ltac:(lia)). lia.
Qed.

(** Doubling relations used by the evaluation tree. *)
Lemma bitrev_double_even L h : (2 * h < 2 ^ L)%nat -> (2 * bitrev (2 * h) L = bitrev h L)%nat.
Proof.
  destruct L as [|l]; intros H; [cbn in H; assert (h = 0)%nat by lia; subst; reflexivity|].
  rewrite bitrev_even. rewrite Nat.pow_succ_r' in H. rewrite (bitrev_low h l); lia.
Qed.

Lemma bitrev_double_odd L h : (2 * h + 1 < 2 ^ L)%nat ->
  (2 * bitrev (2 * h + 1) L = 2 ^ L + bitrev h L)%nat.
Proof.
  destruct L as [|l]; intros H; [cbn in H; lia|].
  rewrite bitrev_odd. rewrite Nat.pow_succ_r' in H.
  rewrite (bitrev_low h l) by lia. rewrite Nat.pow_succ_r'. lia.
Qed.

(** The relation between the forward and the inverse tables. *)
Lemma bitrev_inv_index L : forall be b, (be < L)%nat -> (b < 2 ^ be)%nat ->
  (bitrev (2 ^ L - 2 * 2 ^ be + b) L + 1 = bitrev (2 ^ be + b) L)%nat.
Proof.
  induction L as [|l IH]; intros be b Hbe Hb; [lia|].
  destruct (Nat.eq_dec be l) as [->|Hne].
  - rewrite Nat.pow_succ_r'. replace (2 * 2 ^ l - 2 * 2 ^ l + b)%nat with b by lia.
    rewrite bitrev_low, bitrev_high by lia. lia.
  - assert (Hle : (2 * 2 ^ be <= 2 ^ l)%nat).
    { rewrite <- Nat.pow_succ_r'. apply Nat.pow_le_mono_r; lia. }
    rewrite Nat.pow_succ_r'.
    replace (2 * 2 ^ l - 2 * 2 ^ be + b)%nat with (2 ^ l + (2 ^ l - 2 * 2 ^ be + b))%nat by lia.
    rewrite bitrev_high by lia. rewrite bitrev_low by lia.
    rewrite <- IH by lia. lia.
Qed.

Lemma bitrev_array_length l : length (bitrev_array l) = (2 ^ l)%nat.
Proof. unfold bitrev_array. rewrite map_length, seq_length. reflexivity. Qed.

Lemma bitrev_array_nth l i : (i < 2 ^ l)%nat -> nth i (bitrev_array l) 0%nat = bitrev i l.
Proof.
  intros H. unfold bitrev_array.
  rewrite nth_indep with (d' := bitrev 0 l) by (rewrite map_length, seq_length; exact H).
  rewrite map_nth with (f := fun i => bitrev i l), seq_nth; auto.
Qed.

(** ** The swap loop *)

Lemma swap_length {A} (d : A) l i j : length (swap d l i j) = length l.
Proof. unfold swap. rewrite !upd_length. reflexivity. Qed.

Lemma swap_nth {A} (d : A) l i j q : (i < length l)%nat -> (j < length l)%nat ->
  nth q (swap d l i j) d =
  if (q =? j)%nat then nth i l d else if (q =? i)%nat then nth j l d else nth q l d.
Proof.
  intros Hi Hj. unfold swap. rewrite nth_upd by (rewrite upd_length; exact Hj).
  rewrite nth_upd by exact Hi. reflexivity.
Qed.

Lemma bitrev_helper_ok {A} (d : A) l (v : list A) : length v = (2 ^ l)%nat ->
  exists out, bitrev_helper d (bitrev_array l) v = Ok out /\ length out = length v /\
    forall q, (q < 2 ^ l)%nat -> nth q out d = nth (bitrev q l) v d.
Proof.
  intros Hv. unfold bitrev_helper.
  enough (W : forall c i w, (i + c = 2 ^ l)%nat -> length w = (2 ^ l)%nat ->
    (forall q, (q < 2 ^ l)%nat -> nth q w d =
       if (q <? i)%nat || (bitrev q l <? i)%nat then nth (bitrev q l) v d else nth q v d) ->
    exists out, bitrev_helper_loop d (bitrev_array l) (seq i c) w = Ok out /\
      length out = length v /\
      forall q, (q < 2 ^ l)%nat -> nth q out d = nth (bitrev q l) v d).
  { apply (W (length v) O v); [lia|exact Hv|]. intros q Hq. reflexivity. }
  induction c as [|c IH]; intros i w Hi Hw H.
  - cbn. exists w. split; [reflexivity|]. split; [lia|]. intros q Hq. rewrite H by exact Hq.
    destruct (Nat.ltb_spec q i); [reflexivity|lia].
  - cbn [seq bitrev_helper_loop].
    rewrite (get_ok _ i 0%nat) by (rewrite bitrev_array_length; lia). cbn [bind].
    rewrite bitrev_array_nth by lia.
    pose proof (bitrev_lt l i) as Hr.
    pose proof (bitrev_invol l i ltac:(lia)) as Hinv.
    destruct (Nat.ltb_spec i (bitrev i l)) as [Hlt|Hge].
    + destruct (Nat.ltb_spec (bitrev i l) (length w)); [|lia].
      apply IH; [lia|rewrite swap_length; exact Hw|].
      intros q Hq. rewrite swap_nth by lia.
      pose proof (bitrev_invol l q Hq) as Hqq.
      destruct (Nat.eqb_spec q (bitrev i l)) as [->|N1].
      * rewrite Hinv. rewrite H by lia.
        replace (i <? S i)%nat with true by (symmetry; apply Nat.ltb_lt; lia).
        rewrite orb_true_r.
        replace (i <? i)%nat with false by (symmetry; apply Nat.ltb_ge; lia).
        replace (bitrev i l <? i)%nat with false by (symmetry; apply Nat.ltb_ge; lia). reflexivity.
      * destruct (Nat.eqb_spec q i) as [->|N2].
        -- replace (i <? S i)%nat with true by (symmetry; apply Nat.ltb_lt; lia). cbn [orb].
           rewrite H by lia. rewrite Hinv.
           replace (i <? i)%nat with false by (symmetry; apply Nat.ltb_ge; lia).
           replace (bitrev i l <? i)%nat with false by (symmetry; apply Nat.ltb_ge; lia).
           reflexivity.
        -- rewrite H by exact Hq.
           assert (bitrev q l <> i) by (intros E; rewrite E in Hqq; congruence).
           destruct (Nat.ltb_spec q i), (Nat.ltb_spec q (S i)), (Nat.ltb_spec (bitrev q l) i),
             (Nat.ltb_spec (bitrev q l) (S i)); cbn; try reflexivity; lia.
    + apply IH; [lia|exact Hw|]. intros q Hq. rewrite H by exact Hq.
      pose proof (bitrev_invol l q Hq) as Hqq.
      destruct (Nat.eq_dec q i) as [->|N].
      * replace (i <? S i)%nat with true by (symmetry; apply Nat.ltb_lt; lia). cbn [orb].
        destruct (Nat.ltb_spec i i); [lia|]. destruct (Nat.ltb_spec (bitrev i l) i); [reflexivity|].
        replace (bitrev i l) with i by lia. reflexivity.
      * destruct (Nat.eq_dec (bitrev q l) i) as [E|E].
        -- assert (q = bitrev i l) by congruence. subst q.
           rewrite Hinv. destruct (Nat.ltb_spec (bitrev i l) i), (Nat.ltb_spec (bitrev i l) (S i)); cbn [orb]; try reflexivity; lia.
        -- destruct (Nat.ltb_spec q i), (Nat.ltb_spec q (S i)), (Nat.ltb_spec (bitrev q l) i),
             (Nat.ltb_spec (bitrev q l) (S i)); cbn; try reflexivity; lia.
Qed.

(** ** Loops with binary fuel *)

Lemma iter2_inv {S R} (step : S -> S + R) (P : S -> Prop) (Q : R -> Prop) :
  (forall s, P s -> match step s with inl s' => P s' | inr r => Q r end) ->
  forall d s, P s -> match iter2 d step s with inl s' => P s' | inr r => Q r end.
Proof.
  intros H. induction d as [|d IH]; intros s Hs; cbn [iter2]; [apply H; exact Hs|].
  specialize (IH s Hs) as IH1. destruct (iter2 d step s); [apply IH; exact IH1|exact IH1].
Qed.

Lemma iter2_measure {S R} (step : S -> S + R) (P : S -> Prop) (mu : S -> Z) :
  (forall s, P s -> match step s with inl s' => P s' /\ mu s' + 1 <= mu s | inr _ => True end) ->
  forall d s, P s -> match iter2 d step s with
    | inl s' => P s' /\ mu s' + 2 ^ Z.of_nat d <= mu s | inr _ => True end.
Proof.
  intros H. induction d as [|d IH]; intros s Hs; cbn [iter2].
  - specialize (H s Hs). destruct (step s); [|exact I]. destruct H as [H1 H2].
    split; [exact H1|]. change (2 ^ Z.of_nat 0) with 1. lia.
  - specialize (IH s Hs) as IH1. destruct (iter2 d step s) as [s1|]; [|exact I].
    destruct IH1 as [P1 M1]. specialize (IH s1 P1).
    destruct (iter2 d step s1) as [s2|]; [|exact I]. destruct IH as [P2 M2].
    split; [exact P2|]. rewrite Nat2Z.inj_succ, Z.pow_succ_r by lia. lia.
Qed.

(** ** One pass of butterflies *)

(** Butterflies on the pairs (k+j, k+j+half), j < J, in increasing order. *)
Definition bf_block (F G : Z -> Z -> Z) (half k J : nat) (v : list Z) : list Z :=
  fold_left (fun v j =>
    upd (upd v (k + j) (F (nth (k + j) v 0) (nth (k + j + half) v 0)))
      (k + j + half) (G (nth (k + j) v 0) (nth (k + j + half) v 0)))
    (seq 0 J) v.

Lemma bf_block_S F G half k J v :
  bf_block F G half k (S J) v =
  let w := bf_block F G half k J v in
  upd (upd w (k + J) (F (nth (k + J) w 0) (nth (k + J + half) w 0)))
    (k + J + half) (G (nth (k + J) w 0) (nth (k + J + half) w 0)).
Proof. unfold bf_block. rewrite seq_S, fold_left_app. reflexivity. Qed.

Lemma bf_block_length F G half k J v : length (bf_block F G half k J v) = length v.
Proof.
  induction J as [|J IH]; [reflexivity|]. rewrite bf_block_S. cbv zeta.
  rewrite !upd_length. exact IH.
Qed.

Lemma bf_block_nth F G half k J v q : (J <= half)%nat -> (k + half + J <= length v)%nat ->
  nth q (bf_block F G half k J v) 0 =
  if (k <=? q)%nat && (q <? k + J)%nat then F (nth q v 0) (nth (q + half) v 0)
  else if (k + half <=? q)%nat && (q <? k + half + J)%nat
       then G (nth (q - half) v 0) (nth q v 0)
       else nth q v 0.
Proof.
  revert q. induction J as [|J IH]; intros q HJ Hl.
  - cbn [bf_block seq fold_left].
    destruct (Nat.leb_spec k q), (Nat.ltb_spec q (k + 0)), (Nat.leb_spec (k + half) q),
      (Nat.ltb_spec q (k + half + 0)); cbn; try reflexivity; lia.
  - rewrite bf_block_S. cbv zeta. set (w := bf_block F G half k J v) in *.
    assert (Lw : length w = length v) by apply bf_block_length.
    assert (E1 : nth (k + J) w 0 = nth (k + J) v 0).
    { unfold w. rewrite IH by lia.
      destruct (Nat.leb_spec k (k + J)), (Nat.ltb_spec (k + J) (k + J)),
        (Nat.leb_spec (k + half) (k + J)), (Nat.ltb_spec (k + J) (k + half + J)); cbn; try reflexivity; lia. }
    assert (E2 : nth (k + J + half) w 0 = nth (k + J + half) v 0).
    { unfold w. rewrite IH by lia.
      destruct (Nat.leb_spec k (k + J + half)), (Nat.ltb_spec (k + J + half) (k + J)),
        (Nat.leb_spec (k + half) (k + J + half)), (Nat.ltb_spec (k + J + half) (k + half + J));
        cbn; try reflexivity; lia. }
    rewrite E1, E2. rewrite nth_upd by (rewrite upd_length; lia). rewrite nth_upd by lia.
    destruct (Nat.eqb_spec q (k + J + half)) as [->|N1].
    + destruct (Nat.leb_spec k (k + J + half)), (Nat.ltb_spec (k + J + half) (k + S J)),
        (Nat.leb_spec (k + half) (k + J + half)), (Nat.ltb_spec (k + J + half) (k + half + S J));
        cbn [andb]; try lia;
      replace (k + J + half - half)%nat with (k + J)%nat by lia; reflexivity.
    + destruct (Nat.eqb_spec q (k + J)) as [->|N2].
      * destruct (Nat.leb_spec k (k + J)), (Nat.ltb_spec (k + J) (k + S J)); cbn [andb]; try lia; reflexivity.
      * unfold w. rewrite IH by lia.
        destruct (Nat.leb_spec k q), (Nat.ltb_spec q (k + J)), (Nat.ltb_spec q (k + S J)),
        (Nat.leb_spec (k + half) q), (Nat.ltb_spec q (k + half + J)), (Nat.ltb_spec q (k + half + S J));
        cbn; try reflexivity; lia.
Qed.

(** A pass over B consecutive blocks of size 2*half with block-dependent
    butterflies. *)
Definition bf_pass (F G : nat -> Z -> Z -> Z) (half B : nat) (v : list Z) : list Z :=
  fold_left (fun v b => bf_block (F b) (G b) half (b * (2 * half)) half v) (seq 0 B) v.

Lemma bf_pass_length F G half B v : length (bf_pass F G half B v) = length v.
Proof.
  unfold bf_pass. generalize (seq 0 B). intros l. revert v.
  induction l as [|b l IH]; intros v; [reflexivity|]. cbn [fold_left].
  rewrite IH. apply bf_block_length.
Qed.

Lemma bf_pass_nth F G half B v q : (0 < half)%nat -> (B * (2 * half) <= length v)%nat ->
  nth q (bf_pass F G half B v) 0 =
  if (q <? B * (2 * half))%nat then
    if (q mod (2 * half) <? half)%nat
    then F (q / (2 * half))%nat (nth q v 0) (nth (q + half) v 0)
    else G (q / (2 * half))%nat (nth (q - half) v 0) (nth q v 0)
  else nth q v 0.
Proof.
  intros Hh. revert q. induction B as [|B IH]; intros q Hl.
  - destruct (Nat.ltb_spec q (0 * (2 * half))); [lia|reflexivity].
  - unfold bf_pass in *. rewrite seq_S, fold_left_app. cbn [fold_left]. rewrite Nat.add_0_l.
    fold (bf_pass F G half B v) in *.
    rewrite bf_block_nth by (try rewrite bf_pass_length; lia).
    set (w := bf_pass F G half B v) in *.
    assert (W : forall r, (B * (2 * half) <= r)%nat -> nth r w 0 = nth r v 0).
    { intros r Hr. rewrite IH by lia. destruct (Nat.ltb_spec r (B * (2 * half))); [lia|reflexivity]. }
    destruct (Nat.leb_spec (B * (2 * half)) q) as [H1|H1]; cbn [andb].
    + destruct (Nat.ltb_spec q (B * (2 * half) + half)) as [H2|H2]; cbn [andb].
      * assert (D : (q / (2 * half) = B)%nat) by (symmetry; apply Nat.div_unique with (q - B * (2 * half))%nat; lia).
        assert (M : (q mod (2 * half) = q - B * (2 * half))%nat) by (symmetry; apply Nat.mod_unique with B; lia).
        rewrite D, M. destruct (Nat.ltb_spec q (S B * (2 * half))); [|lia].
        destruct (Nat.ltb_spec (q - B * (2 * half)) half); [|lia].
        rewrite !W by lia. reflexivity.
      * destruct (Nat.leb_spec (B * (2 * half) + half) q); [|lia]. cbn [andb].
        destruct (Nat.ltb_spec q (B * (2 * half) + half + half)) as [H4|H4].
        -- assert (D : (q / (2 * half) = B)%nat) by (symmetry; apply Nat.div_unique with (q - B * (2 * half))%nat; lia).
           assert (M : (q mod (2 * half) = q - B * (2 * half))%nat) by (symmetry; apply Nat.mod_unique with B; lia).
           rewrite D, M. destruct (Nat.ltb_spec q (S B * (2 * half))); [|lia].
           destruct (Nat.ltb_spec (q - B * (2 * half)) half); [lia|].
           rewrite !W by lia. reflexivity.
        -- destruct (Nat.ltb_spec q (S B * (2 * half))); [lia|]. apply W; lia.
    + destruct (Nat.leb_spec (B * (2 * half) + half) q); [lia|]. cbn [andb].
      rewrite IH by lia. destruct (Nat.ltb_spec q (B * (2 * half))); [|lia].
      destruct (Nat.ltb_spec q (S B * (2 * half))); [|lia]. reflexivity.
Qed.

Lemma steps_eq n s : (0 < s)%nat -> steps (n * s) s = map (fun b => b * s)%nat (seq 0 n).
Proof.
  intros Hs. unfold steps. f_equal. f_equal. symmetry.
  apply Nat.div_unique with (s - 1)%nat; lia.
Qed.

(** The model's loops are such passes. *)
Definition ct_F (p : mparams) (odd : bool) (c : Z * Z) (u x : Z) : Z :=
  let t := mul_constant p x c in if odd then lazy_add p u t else madd p u t.
Definition ct_G (p : mparams) (odd : bool) (c : Z * Z) (u x : Z) : Z :=
  let t := mul_constant p x c in if odd then lazy_sub p u t else msub p u t.
Definition gs_F (p : mparams) (u x : Z) : Z := madd p u x.
Definition gs_G (p : mparams) (c : Z * Z) (u x : Z) : Z := mul_constant p (lazy_sub p u x) c.

Lemma ct_block_bf p odd c half k v :
  ct_block p odd c half k v = bf_block (ct_F p odd c) (ct_G p odd c) half k half v.
Proof.
  unfold ct_block, bf_block.
  generalize (seq 0 half). intros l. revert v. induction l as [|j l IH]; intros v; [reflexivity|].
  cbn [fold_left]. rewrite IH. f_equal. unfold ct_butterfly, ct_F, ct_G.
  destruct odd; reflexivity.
Qed.

Lemma ct_blocks_bf p np odd half : forall B B0 v idx,
  (idx + B <= length (np_psis_c np))%nat ->
  ct_blocks p np odd half (map (fun b => b * (2 * half))%nat (seq B0 B)) v idx =
  Ok (fold_left (fun v b =>
        bf_block (ct_F p odd (nth (idx + (b - B0)) (np_psis_c np) (0, 0)))
                 (ct_G p odd (nth (idx + (b - B0)) (np_psis_c np) (0, 0)))
                 half (b * (2 * half)) half v) (seq B0 B) v, (idx + B)%nat).
Proof.
  induction B as [|B IH]; intros B0 v idx H.
  - cbn. rewrite Nat.add_0_r. reflexivity.
  - cbn [seq map ct_blocks fold_left]. rewrite (get_ok _ _ (0, 0)) by lia. cbn [bind].
    rewrite IH by lia. rewrite ct_block_bf.
    replace (idx + (B0 - B0))%nat with idx by lia.
    f_equal. f_equal; [|lia].
    assert (E : forall l w, (forall b, In b l -> (S B0 <= b)%nat) ->
      fold_left (fun v b =>
        bf_block (ct_F p odd (nth (S idx + (b - S B0)) (np_psis_c np) (0, 0)))
                 (ct_G p odd (nth (S idx + (b - S B0)) (np_psis_c np) (0, 0)))
                 half (b * (2 * half)) half v) l w =
      fold_left (fun v b =>
        bf_block (ct_F p odd (nth (idx + (b - B0)) (np_psis_c np) (0, 0)))
                 (ct_G p odd (nth (idx + (b - B0)) (np_psis_c np) (0, 0)))
                 half (b * (2 * half)) half v) l w).
    { induction l as [|b l IHl]; intros w Hw; [reflexivity|]. cbn [fold_left].
      rewrite IHl by (intros; apply Hw; right; assumption).
      replace (idx + (b - B0))%nat with (S idx + (b - S B0))%nat; [reflexivity|].
      specialize (Hw b (or_introl eq_refl)). lia. }
    apply E. intros b Hb. apply in_seq in Hb. lia.
Qed.

Lemma ct_blocks_pass p np odd half B v idx :
  (idx + B <= length (np_psis_c np))%nat ->
  ct_blocks p np odd half (map (fun b => b * (2 * half))%nat (seq 0 B)) v idx =
  Ok (bf_pass (fun b => ct_F p odd (nth (idx + b) (np_psis_c np) (0, 0)))
              (fun b => ct_G p odd (nth (idx + b) (np_psis_c np) (0, 0))) half B v, (idx + B)%nat).
Proof.
  intros H. rewrite ct_blocks_bf by exact H. unfold bf_pass.
  f_equal. f_equal. generalize (seq 0 B). intros l. revert v.
  induction l as [|b l IH]; intros v; [reflexivity|]. cbn [fold_left]. rewrite Nat.sub_0_r in *. apply IH.
Qed.

Lemma gs_block_bf p c half k : forall J j0 v, (k + j0 + J + half <= length v)%nat ->
  gs_block p c half k (seq j0 J) v =
  Ok (fold_left (fun v j =>
    upd (upd v (k + j) (gs_F p (nth (k + j) v 0) (nth (k + j + half) v 0)))
      (k + j + half) (gs_G p c (nth (k + j) v 0) (nth (k + j + half) v 0))) (seq j0 J) v).
Proof.
  induction J as [|J IH]; intros j0 v H; [reflexivity|].
  cbn [seq gs_block fold_left]. destruct (Nat.leb_spec (length v) (k + j0 + half)); [lia|].
  rewrite IH by (rewrite !upd_length; lia). reflexivity.
Qed.

Lemma gs_blocks_bf p np half : forall B B0 v idx,
  (idx + B <= length (np_psis_inv_c np))%nat -> ((B0 + B) * (2 * half) <= length v)%nat ->
  gs_blocks p np half (map (fun b => b * (2 * half))%nat (seq B0 B)) v idx =
  Ok (fold_left (fun v b =>
        bf_block (gs_F p) (gs_G p (nth (idx + (b - B0)) (np_psis_inv_c np) (0, 0)))
                 half (b * (2 * half)) half v) (seq B0 B) v, (idx + B)%nat).
Proof.
  induction B as [|B IH]; intros B0 v idx H Hl.
  - cbn. rewrite Nat.add_0_r. reflexivity.
  - cbn [seq map gs_blocks fold_left].
    rewrite (nth_error_nth' _ (0, 0)) by lia.
    rewrite gs_block_bf by nia. cbn [bind].
    fold (bf_block (gs_F p) (gs_G p (nth idx (np_psis_inv_c np) (0, 0))) half (B0 * (2 * half)) half v).
    rewrite IH by (try rewrite bf_block_length; lia).
    replace (idx + (B0 - B0))%nat with idx by lia.
    f_equal. f_equal; [|lia].
    assert (E : forall l w, (forall b, In b l -> (S B0 <= b)%nat) ->
      fold_left (fun v b =>
        bf_block (gs_F p) (gs_G p (nth (S idx + (b - S B0)) (np_psis_inv_c np) (0, 0)))
                 half (b * (2 * half)) half v) l w =
      fold_left (fun v b =>
        bf_block (gs_F p) (gs_G p (nth (idx + (b - B0)) (np_psis_inv_c np) (0, 0)))
                 half (b * (2 * half)) half v) l w).
    { induction l as [|b l IHl]; intros w Hw; [reflexivity|]. cbn [fold_left].
      rewrite IHl by (intros; apply Hw; right; assumption).
      replace (idx + (b - B0))%nat with (S idx + (b - S B0))%nat; [reflexivity|].
      specialize (Hw b (or_introl eq_refl)). lia. }
    apply E. intros b Hb. apply in_seq in Hb. lia.
Qed.

Lemma gs_blocks_pass p np half B v idx :
  (idx + B <= length (np_psis_inv_c np))%nat -> (B * (2 * half) <= length v)%nat ->
  gs_blocks p np half (map (fun b => b * (2 * half))%nat (seq 0 B)) v idx =
  Ok (bf_pass (fun b => gs_F p)
              (fun b => gs_G p (nth (idx + b) (np_psis_inv_c np) (0, 0))) half B v, (idx + B)%nat).
Proof.
  intros H Hl. rewrite gs_blocks_bf by (try exact H; lia). unfold bf_pass.
  f_equal. f_equal. generalize (seq 0 B). intros l. clear Hl. revert v.
  induction l as [|b l IH]; intros v; [reflexivity|]. cbn [fold_left]. rewrite Nat.sub_0_r in *. apply IH.
Qed.
