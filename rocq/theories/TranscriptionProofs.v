(** Proofs about Transcription.v. *)
From Verif Require Import Base ZLemmas Transcription.

(** ** Specification: the bit stream held by a vector of [b]-bit chunks. *)
Definition stream_bit (b : Z) (v : list Z) (i : Z) : bool :=
  Z.testbit (nth (Z.to_nat (i / b)) v 0) (i mod b).

(** ** Bit lemmas *)

Lemma wrap_bits w x b : 0 <= w -> 0 <= b -> Z.testbit (wrap w x) b = (b <? w) && Z.testbit x b.
Proof.
  intros Hw Hb. unfold wrap. destruct (Z.ltb_spec b w); cbn [andb].
  - apply Z.mod_pow2_bits_low; lia.
  - apply Z.mod_pow2_bits_high; lia.
Qed.

Lemma upd_length {A} (l : list A) : forall i x, length (upd l i x) = length l.
Proof. induction l; intros [|i] x; cbn; auto. Qed.

Lemma nth_upd {A} (l : list A) : forall i x d j, (i < length l)%nat ->
  nth j (upd l i x) d = if Nat.eqb j i then x else nth j l d.
Proof.
  induction l as [|h t IH]; intros [|i] x d [|j] H; cbn [length upd nth Nat.eqb] in *; try lia; auto.
  apply IH; lia.
Qed.

Lemma get_ok {A} (l : list A) i d : (i < length l)%nat -> get l i = Ok (nth i l d).
Proof. intros H. unfold get. rewrite (nth_error_nth' l d H). reflexivity. Qed.

(** The state after [c] bits of the stream have been copied. *)
Definition tinv (len ibits obits : Z) (v : list Z) (c : Z)
  (st : list Z * nat * Z * Z) : Prop :=
  let '(out, ptr, chunk, needed) := st in
  Z.of_nat (length out) = (len + (obits - 1)) / obits /\
  0 <= needed <= chunk /\ 0 < chunk <= obits /\
  c = obits * Z.of_nat ptr + (chunk - needed) /\
  (chunk = obits \/ len <= obits * Z.of_nat ptr + chunk) /\
  0 <= c <= len /\
  forall j b, 0 <= b ->
    Z.testbit (nth j out 0) b =
    (b <? obits) && (obits * Z.of_nat j + b <? c) &&
    stream_bit ibits v (obits * Z.of_nat j + b).

Lemma ptr_in_range len obits ptr :
  0 < obits -> 0 <= ptr -> obits * ptr < len -> ptr < (len + (obits - 1)) / obits.
Proof.
  intros Ho Hp H. assert (ptr + 1 <= (len + (obits - 1)) / obits); [|lia].
  apply Z.div_le_lower_bound; lia.
Qed.

Lemma chunk_ok len ibits obits wi wo v x i remaining :
  0 < ibits <= wi -> 0 < obits <= wo -> 0 <= i ->
  remaining = len - ibits * i -> 0 < remaining ->
  x = nth (Z.to_nat i) v 0 ->
  let nbits0 := Z.min ibits remaining in
  let inp := wrap wi (x * 2 ^ (wi - nbits0)) in
  forall fuel st nbits,
  nbits <= Z.of_nat fuel -> 0 <= nbits <= nbits0 ->
  tinv len ibits obits v (ibits * i + (nbits0 - nbits)) st ->
  exists st', transcribe_chunk fuel wi wo obits remaining inp st nbits = Ok st' /\
    tinv len ibits obits v (ibits * i + nbits0) st'.
Proof.
  intros Hib Hob Hi Hrem Hrem0 Hx nbits0 inp.
  assert (Hn0 : 0 < nbits0 <= ibits /\ nbits0 <= remaining) by (unfold nbits0; lia).
  induction fuel as [|f IH]; intros [[[out ptr] chunk] needed] nbits Hfuel Hnb Hinv.
  { cbn [transcribe_chunk]. rewrite Z.gtb_ltb. destruct (Z.ltb_spec 0 nbits); [lia|].
    exists (out, ptr, chunk, needed). split; [reflexivity|].
    replace (nbits0) with (nbits0 - nbits) by lia. exact Hinv. }
  cbn [transcribe_chunk]. rewrite Z.gtb_ltb. destruct (Z.ltb_spec 0 nbits) as [Hpos|Hpos].
  2:{ exists (out, ptr, chunk, needed). split; [reflexivity|].
      replace (nbits0) with (nbits0 - nbits) by lia. exact Hinv. }
  destruct Hinv as (Hlen & Hneed & Hch & Hc & Hlast & Hcl & Hbits).
  set (c := ibits * i + (nbits0 - nbits)) in *.
  assert (Hclt : c < len) by (unfold c; lia).
  (* normalise the "needed = 0" step *)
  assert (N : exists ptr' chunk' needed',
    (if needed =? 0 then (S ptr, Z.min remaining obits, Z.min remaining obits)
     else (ptr, chunk, needed)) = (ptr', chunk', needed') /\
    0 < needed' <= chunk' /\ 0 < chunk' <= obits /\
    c = obits * Z.of_nat ptr' + (chunk' - needed') /\
    (chunk' = obits \/ len <= obits * Z.of_nat ptr' + chunk')).
  { destruct (Z.eqb_spec needed 0) as [E|E].
    - exists (S ptr), (Z.min remaining obits), (Z.min remaining obits).
      split; [reflexivity|]. subst needed. rewrite Nat2Z.inj_succ.
      assert (chunk = obits) by lia. subst chunk.
      assert (c = obits * Z.succ (Z.of_nat ptr)) by lia.
      repeat split; try lia.
    - exists ptr, chunk, needed. repeat split; try reflexivity; lia. }
  destruct N as (ptr' & chunk' & needed' & EN & Hneed' & Hch' & Hc' & Hlast').
  rewrite EN. clear EN Hneed Hch Hc Hlast ptr chunk needed.
  set (np := Z.min nbits needed').
  assert (Hnp : 0 < np <= nbits /\ np <= needed') by (unfold np; lia).
  assert (Hptr : (ptr' < length out)%nat).
  { apply Nat2Z.inj_lt. rewrite Hlen. apply ptr_in_range; lia. }
  rewrite (get_ok out ptr' 0 Hptr). cbn [bind].
  set (off := chunk' - needed') in *.
  set (bl := wrap wi (inp * 2 ^ (nbits - np))).
  set (mask := wrap wo (shr bl (wi - np))).
  assert (Hmask : forall b, 0 <= b ->
     Z.testbit (wrap wo (mask * 2 ^ off)) b =
     (off <=? b) && (b <? off + np) && Z.testbit x (b - off + (nbits0 - nbits))).
  { intros b Hb. rewrite wrap_bits by lia. rewrite Z.mul_pow2_bits by lia.
    destruct (Z.leb_spec off b) as [Ho|Ho]; cbn [andb].
    2:{ rewrite (Z.testbit_neg_r mask) by lia. apply andb_false_r. }
    unfold mask. rewrite wrap_bits by lia. unfold shr. rewrite Z.div_pow2_bits by lia.
    unfold bl. rewrite wrap_bits by lia. rewrite Z.mul_pow2_bits by lia.
    destruct (Z.ltb_spec b (off + np)) as [Hb2|Hb2]; cbn [andb].
    - destruct (Z.ltb_spec b wo); [|lia]. destruct (Z.ltb_spec (b - off) wo); [|lia].
      destruct (Z.ltb_spec (b - off + (wi - np)) wi); [|lia]. cbn [andb].
      unfold inp. rewrite wrap_bits by lia. rewrite Z.mul_pow2_bits by lia.
      destruct (Z.ltb_spec (b - off + (wi - np) - (nbits - np)) wi); [|lia]. cbn [andb].
      f_equal. lia.
    - destruct (Z.ltb_spec (b - off + (wi - np)) wi); [lia|]. cbn [andb].
      rewrite andb_false_r. apply andb_false_r. }
  set (out' := upd out ptr' _).
  apply IH; try lia.
  unfold tinv. unfold out'. rewrite upd_length.
  split; [assumption|]. split; [lia|]. split; [lia|].
  split; [unfold off, c in *; lia|]. split; [assumption|]. split; [lia|].
  intros j b Hb. rewrite nth_upd by assumption.
  destruct (Nat.eqb_spec j ptr') as [->|Hj].
  - rewrite Z.lor_spec, Hbits, Hmask by assumption.
    set (pos := obits * Z.of_nat ptr' + b).
    assert (Epos : pos - c = b - off) by (unfold pos; lia).
    destruct (Z.ltb_spec b obits) as [Hbo|Hbo]; cbn [andb].
    + destruct (Z.ltb_spec pos c) as [Hp|Hp]; cbn [andb].
      * destruct (Z.leb_spec off b); [lia|]. cbn [andb]. rewrite orb_false_r.
        destruct (Z.ltb_spec pos (ibits * i + (nbits0 - (nbits - np)))); [reflexivity|unfold c in *; lia].
      * destruct (Z.leb_spec off b); [|lia]. cbn [andb orb].
        destruct (Z.ltb_spec b (off + np)) as [Hb2|Hb2];
        destruct (Z.ltb_spec pos (ibits * i + (nbits0 - (nbits - np)))) as [Hp2|Hp2];
        cbn [andb]; try reflexivity; try (exfalso; unfold c in *; lia).
        unfold stream_bit.
        assert (Ediv : pos = ibits * i + (b - off + (nbits0 - nbits))) by (unfold c in *; lia).
        assert (Hr : 0 <= b - off + (nbits0 - nbits) < ibits) by lia.
        rewrite <- (Z.div_unique pos ibits i _ (or_introl Hr) Ediv).
        rewrite <- (Z.mod_unique pos ibits i _ (or_introl Hr) Ediv).
        rewrite <- Hx. reflexivity.
    + destruct (Z.ltb_spec b (off + np)) as [Hb2|Hb2]; [lia|]. rewrite andb_false_r. reflexivity.
  - rewrite Hbits by assumption.
    destruct (Z.ltb_spec b obits) as [Hbo|Hbo]; cbn [andb]; [|reflexivity].
    set (pos := obits * Z.of_nat j + b).
    destruct (Z.ltb_spec pos c); destruct (Z.ltb_spec pos (ibits * i + (nbits0 - (nbits - np))));
      cbn [andb]; try reflexivity; exfalso.
    + unfold c in *; lia.
    + assert (obits * Z.of_nat ptr' <= pos < obits * Z.of_nat ptr' + obits) by (unfold c in *; lia).
      assert (Z.of_nat j <> Z.of_nat ptr') by lia.
      unfold pos in *.
      destruct (Z.lt_total (Z.of_nat j) (Z.of_nat ptr')) as [L|[L|L]]; [|lia|].
      * assert (obits * (Z.of_nat j + 1) <= obits * Z.of_nat ptr')
          by (apply Z.mul_le_mono_nonneg_l; lia). lia.
      * assert (obits * (Z.of_nat ptr' + 1) <= obits * Z.of_nat j)
          by (apply Z.mul_le_mono_nonneg_l; lia). lia.
Qed.

Lemma skipn_cons_nth (v : list Z) i x rest :
  skipn i v = x :: rest -> nth i v 0 = x /\ skipn (S i) v = rest.
Proof.
  revert v; induction i as [|i IH]; intros [|h t] H; cbn in *; try discriminate.
  - inversion H; auto.
  - apply IH in H. exact H.
Qed.

Lemma loop_ok len ibits obits wi wo v :
  0 < ibits <= wi -> 0 < obits <= wo ->
  forall chunks i st remaining,
  (i + chunks <= length v)%nat ->
  remaining = len - ibits * Z.of_nat i ->
  ((chunks = 0)%nat -> ibits * Z.of_nat i >= len) ->
  ((chunks <> 0)%nat -> ibits * Z.of_nat (i + chunks - 1) < len <= ibits * Z.of_nat (i + chunks)) ->
  tinv len ibits obits v (Z.min len (ibits * Z.of_nat i)) st ->
  exists st', transcribe_loop wi wo ibits obits (skipn i v) chunks st remaining = Ok st' /\
    tinv len ibits obits v len st'.
Proof.
  intros Hib Hob. induction chunks as [|n IH]; intros i st remaining Hl Hrem H0 H1 Hinv.
  { exists st. split; [reflexivity|]. rewrite Z.min_l in Hinv by lia. exact Hinv. }
  clear H0. specialize (H1 ltac:(lia)). cbn [transcribe_loop].
  destruct (skipn i v) as [|x rest] eqn:Es.
  { pose proof (skipn_length i v) as E. rewrite Es in E. cbn in E. lia. }
  apply skipn_cons_nth in Es. destruct Es as [Ex Er].
  assert (Hlt : ibits * Z.of_nat i < len) by nia.
  set (nb := Z.min ibits remaining).
  destruct (chunk_ok len ibits obits wi wo v x (Z.of_nat i) remaining Hib Hob ltac:(lia) Hrem ltac:(lia)
              ltac:(rewrite Nat2Z.id; auto) (Z.to_nat nb) st nb) as (st' & E & I).
  - lia.
  - fold nb. lia.
  - fold nb. rewrite Z.sub_diag, Z.add_0_r. rewrite Z.min_r in Hinv by lia. exact Hinv.
  - fold nb in E, I. rewrite E. cbn [bind]. rewrite <- Er.
    apply IH.
    + lia.
    + lia.
    + intros ->. lia.
    + intros Hn. replace (S i + n)%nat with (i + S n)%nat by lia. exact H1.
    + replace (Z.min len (ibits * Z.of_nat (S i))) with (ibits * Z.of_nat i + nb) by lia.
      exact I.
Qed.

(** The complete behaviour on well-formed arguments. *)
Lemma transcribe_bits_ok wi wo v len ibits obits :
  0 < ibits <= wi -> 0 < obits <= wo -> 0 < len -> len + ibits <= 2 ^ 31 -> len + obits <= 2 ^ 31 ->
  len <= ibits * Z.of_nat (length v) ->
  exists out, transcribe_bits wi wo v len ibits obits = Ok out /\
    Z.of_nat (length out) = (len + (obits - 1)) / obits /\
    forall j b, 0 <= b ->
      Z.testbit (nth j out 0) b =
      (b <? obits) && (obits * Z.of_nat j + b <? len) &&
      stream_bit ibits v (obits * Z.of_nat j + b).
Proof.
  intros Hib Hob Hlen Hi1 Hi2 Hv. unfold transcribe_bits.
  rewrite !Z.gtb_ltb.
  destruct (Z.ltb_spec wi ibits); [lia|]. destruct (Z.ltb_spec wo obits); [lia|].
  destruct (Z.ltb_spec len 0); [lia|]. destruct (Z.eqb_spec len 0); [lia|].
  destruct (Z.leb_spec ibits 0); [lia|]. destruct (Z.leb_spec obits 0); [lia|]. cbn [orb].
  unfold int32.
  destruct (Z.leb_spec (- 2 ^ 31) (len + ibits - 1)); [|lia].
  destruct (Z.ltb_spec (len + ibits - 1) (2 ^ 31)); [|lia]. cbn [andb bind].
  set (ch := (len + ibits - 1) / ibits).
  assert (Hch : ibits * (ch - 1) < len <= ibits * ch).
  { pose proof (Z.div_mod (len + ibits - 1) ibits ltac:(lia)) as D. fold ch in D.
    pose proof (Z.mod_pos_bound (len + ibits - 1) ibits ltac:(lia)). lia. }
  destruct (Z.ltb_spec (Z.of_nat (length v)) ch); [nia|].
  destruct (Z.leb_spec (- 2 ^ 31) (len + (obits - 1))); [|lia].
  destruct (Z.ltb_spec (len + (obits - 1)) (2 ^ 31)); [|lia]. cbn [andb bind].
  set (no := (len + (obits - 1)) / obits).
  assert (Hno : 0 < no) by (unfold no; apply Z.div_str_pos; lia).
  assert (Hch0 : 0 < ch) by nia.
  destruct (loop_ok len ibits obits wi wo v Hib Hob (Z.to_nat ch) 0
             (repeat 0 (Z.to_nat no), O, Z.min len obits, Z.min len obits) len) as (st & E & I).
  - lia.
  - lia.
  - lia.
  - intros _. rewrite Nat.add_0_l. rewrite Nat2Z.inj_sub, !Z2Nat.id by lia. exact Hch.
  - rewrite Z.mul_0_r, Z.min_r by lia. unfold tinv. rewrite repeat_length, Z2Nat.id by lia.
    split; [reflexivity|]. split; [lia|]. split; [lia|]. split; [lia|]. split; [lia|]. split; [lia|].
    intros j b Hb. rewrite nth_repeat, Z.bits_0. symmetry.
    destruct (Z.ltb_spec (obits * Z.of_nat j + b) 0); [nia|].
    rewrite andb_false_r. reflexivity.
  - cbn [skipn] in E. rewrite E. cbn [bind]. destruct st as [[[out ptr] chunk] needed].
    destruct I as (I1 & _ & _ & _ & _ & _ & I7).
    exists out. auto.
Qed.

(** Error behaviour: exactly the documented conditions. *)
Lemma transcribe_bits_err wi wo v len ibits obits :
  0 < ibits -> 0 < obits -> len + ibits <= 2 ^ 31 -> len + obits <= 2 ^ 31 ->
  (transcribe_bits wi wo v len ibits obits = Err InvalidArgument <->
   (ibits > wi \/ obits > wo \/ len < 0 \/ (len = 0 /\ v <> []) \/
    ibits * Z.of_nat (length v) < len)).
Proof.
  intros Hib Hob H1 H2.
  destruct (Z_gt_dec ibits wi) as [C1|C1].
  { unfold transcribe_bits. rewrite !Z.gtb_ltb. destruct (Z.ltb_spec wi ibits); [|lia]. intuition. }
  destruct (Z_gt_dec obits wo) as [C2|C2].
  { unfold transcribe_bits. rewrite !Z.gtb_ltb. destruct (Z.ltb_spec wi ibits); [lia|].
    destruct (Z.ltb_spec wo obits); [|lia]. intuition. }
  destruct (Z_lt_dec len 0) as [C3|C3].
  { unfold transcribe_bits. rewrite !Z.gtb_ltb. destruct (Z.ltb_spec wi ibits); [lia|].
    destruct (Z.ltb_spec wo obits); [lia|]. destruct (Z.ltb_spec len 0); [|lia]. intuition. }
  destruct (Z.eq_dec len 0) as [C4|C4].
  { unfold transcribe_bits. rewrite !Z.gtb_ltb. destruct (Z.ltb_spec wi ibits); [lia|].
    destruct (Z.ltb_spec wo obits); [lia|]. destruct (Z.ltb_spec len 0); [lia|].
    destruct (Z.eqb_spec len 0); [|lia]. destruct v as [|x t].
    - split; [discriminate|]. intros [?|[?|[?|[[_ ?]|?]]]]; try lia; congruence.
    - split; [|reflexivity]. intros _. right; right; right; left. split; [assumption|discriminate]. }
  destruct (Z_le_dec len (ibits * Z.of_nat (length v))) as [C5|C5].
  { destruct (transcribe_bits_ok wi wo v len ibits obits) as (out & E & _); try lia.
    rewrite E. split; [discriminate|]. lia. }
  unfold transcribe_bits. rewrite !Z.gtb_ltb. destruct (Z.ltb_spec wi ibits); [lia|].
  destruct (Z.ltb_spec wo obits); [lia|]. destruct (Z.ltb_spec len 0); [lia|].
  destruct (Z.eqb_spec len 0); [lia|].
  destruct (Z.leb_spec ibits 0); [lia|]. destruct (Z.leb_spec obits 0); [lia|]. cbn [orb].
  unfold int32.
  destruct (Z.leb_spec (- 2 ^ 31) (len + ibits - 1)); [|lia].
  destruct (Z.ltb_spec (len + ibits - 1) (2 ^ 31)); [|lia]. cbn [andb bind].
  destruct (Z.ltb_spec (Z.of_nat (length v)) ((len + ibits - 1) / ibits)) as [L|L].
  - split; [|reflexivity]. intros _. lia.
  - exfalso. assert ((len + ibits - 1) / ibits * ibits <= Z.of_nat (length v) * ibits) by nia.
    pose proof (Z.div_mod (len + ibits - 1) ibits ltac:(lia)) as D.
    pose proof (Z.mod_pos_bound (len + ibits - 1) ibits ltac:(lia)). nia.
Qed.

(** Transcribing forth and back. *)
Lemma transcribe_roundtrip wi wo v ibits obits len out :
  0 < ibits <= wi -> 0 < obits <= wo -> len = ibits * Z.of_nat (length v) ->
  0 < len -> len + ibits <= 2 ^ 31 -> len + obits <= 2 ^ 31 ->
  Forall (fun x => 0 <= x < 2 ^ ibits) v ->
  transcribe_bits wi wo v len ibits obits = Ok out ->
  transcribe_bits wo wi out len obits ibits = Ok v.
Proof.
  intros Hib Hob Hl Hlen H1 H2 Hv E.
  destruct (transcribe_bits_ok wi wo v len ibits obits) as (o & E1 & L1 & B1); try lia.
  rewrite E in E1. injection E1 as <-.
  assert (Hcov : len <= obits * Z.of_nat (length out)).
  { rewrite L1. pose proof (Z.div_mod (len + (obits - 1)) obits ltac:(lia)) as D.
    pose proof (Z.mod_pos_bound (len + (obits - 1)) obits ltac:(lia)). lia. }
  destruct (transcribe_bits_ok wo wi out len obits ibits) as (v' & E2 & L2 & B2); try lia.
  rewrite E2. f_equal.
  assert (Lv : length v' = length v).
  { apply Nat2Z.inj. rewrite L2, Hl.
    replace (ibits * Z.of_nat (length v) + (ibits - 1)) with ((ibits - 1) + Z.of_nat (length v) * ibits) by ring.
    rewrite Z.div_add by lia. rewrite Z.div_small by lia. lia. }
  apply nth_ext with (d := 0) (d' := 0); [assumption|].
  intros j Hj. rewrite Lv in Hj.
  apply Z.bits_inj'. intros b Hb. rewrite B2 by assumption.
  assert (Hvj : 0 <= nth j v 0 < 2 ^ ibits).
  { rewrite Forall_forall in Hv. apply Hv, nth_In. assumption. }
  destruct (Z.ltb_spec b ibits) as [Hbi|Hbi]; cbn [andb].
  2:{ destruct (Z.eq_dec (nth j v 0) 0) as [->|Hnz]; [symmetry; apply Z.bits_0|].
      symmetry. apply Z.bits_above_log2; [lia|]. apply Z.log2_lt_pow2; [lia|].
      assert (2 ^ ibits <= 2 ^ b) by (apply Z.pow_le_mono_r; lia). lia. }
  set (pos := ibits * Z.of_nat j + b).
  assert (Hpos : 0 <= pos < len) by (unfold pos; nia).
  destruct (Z.ltb_spec pos len); [|lia]. cbn [andb].
  unfold stream_bit at 1. rewrite B1.
  2:{ apply Z.mod_pos_bound; lia. }
  rewrite Z2Nat.id by (apply Z.div_pos; lia).
  rewrite <- Z.div_mod by lia.
  pose proof (Z.mod_pos_bound pos obits ltac:(lia)).
  destruct (Z.ltb_spec (pos mod obits) obits); [|lia].
  destruct (Z.ltb_spec pos len); [|lia]. cbn [andb].
  unfold stream_bit.
  assert (Hr : 0 <= b < ibits) by lia.
  rewrite <- (Z.div_unique pos ibits (Z.of_nat j) b (or_introl Hr) eq_refl).
  rewrite <- (Z.mod_unique pos ibits (Z.of_nat j) b (or_introl Hr) eq_refl).
  rewrite Nat2Z.id. reflexivity.
Qed.
