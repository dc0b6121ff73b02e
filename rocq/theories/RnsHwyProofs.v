(** The vector multiply-and-add computes the same as the scalar loop. *)
From Coq Require Import Arith.
From Verif Require Import Base Montgomery MontBatch MontBatchProofs Ntt Poly PolyExt Spec RnsPoly RnsSpec RnsSub RnsProofs RnsCt RnsCtSpec RnsLazy RnsLazyCt RnsHwy.

Lemma lanes_len {A} n (f : nat -> A) : length (lanes n f) = n.
Proof. unfold lanes. now rewrite map_length, seq_length. Qed.

Lemma lanes_nth {A} n (f : nat -> A) i d : (i < n)%nat -> nth i (lanes n f) d = f i.
Proof.
  intros H. unfold lanes. rewrite (nth_indep _ d (f 0%nat)) by (rewrite map_length, seq_length; exact H).
  rewrite map_nth, seq_nth by exact H. reflexivity.
Qed.

Lemma lane_lanes n f i : (i < n)%nat -> lane (lanes n f) i = f i.
Proof. apply lanes_nth. Qed.

(** ** The scalar loop, entry by entry *)
Lemma fma_scalar_ok w : forall a b out, (length a <= length b)%nat -> (length a <= length out)%nat ->
  exists r, fma_scalar w a b out = Ok r /\ length r = length out /\
    forall i, lane r i = if (i <? length a)%nat then wrap w (lane out i + wrap w (lane a i * lane b i)) else lane out i.
Proof.
  induction a as [|x a IH]; intros b out Hb Ho.
  - exists out. split; [reflexivity|]. split; [reflexivity|]. intros i. reflexivity.
  - destruct b as [|y b]; [cbn in Hb; lia|]. destruct out as [|o out]; [cbn in Ho; lia|]. cbn [length] in *.
    destruct (IH b out) as (r & E & Lr & Hr); try lia. cbn [fma_scalar]. rewrite E. cbn [bind]. eexists. split; [reflexivity|].
    split; [cbn; lia|]. intros [|i]; [reflexivity|]. unfold lane in *. cbn [nth]. apply Hr.
Qed.

Lemma fma_scalar_app w : forall a1 a2 b out, (length a1 <= length b)%nat -> (length a1 <= length out)%nat ->
  fma_scalar w (a1 ++ a2) b out =
  do! r1 <- fma_scalar w a1 (firstn (length a1) b) (firstn (length a1) out);
  do! r2 <- fma_scalar w a2 (skipn (length a1) b) (skipn (length a1) out);
  Ok (r1 ++ r2).
Proof.
  induction a1 as [|x a1 IH]; intros a2 b out Hb Ho.
  - cbn. destruct (fma_scalar w a2 b out); reflexivity.
  - destruct b as [|y b]; [cbn in Hb; lia|]. destruct out as [|o out]; [cbn in Ho; lia|]. cbn [length] in *.
    cbn [app fma_scalar firstn skipn length]. rewrite IH by lia.
    destruct (fma_scalar w a1 (firstn (length a1) b) (firstn (length a1) out)); cbn [bind]; [|reflexivity|reflexivity].
    destruct (fma_scalar w a2 (skipn (length a1) b) (skipn (length a1) out)); reflexivity.
Qed.

(** ** The block loop *)
Definition words (k : Z) (v : list Z) : Prop := Forall (fun x => 0 <= x < 2 ^ k) v.

Lemma words_firstn k n v : words k v -> words k (firstn n v).
Proof. intros H. apply Forall_forall. intros x I. unfold words in H. rewrite Forall_forall in H. apply H. rewrite <- (firstn_skipn n v). apply in_or_app. now left. Qed.

Lemma words_skipn k n v : words k v -> words k (skipn n v).
Proof. intros H. apply Forall_forall. intros x I. unfold words in H. rewrite Forall_forall in H. apply H. rewrite <- (firstn_skipn n v). apply in_or_app. now right. Qed.

Lemma words_lane k v i : 0 <= k -> words k v -> 0 <= lane v i < 2 ^ k.
Proof.
  intros Hk H. unfold lane. destruct (Nat.lt_ge_cases i (length v)) as [Hi|Hi].
  - unfold words in H. rewrite Forall_forall in H. apply H. now apply nth_In.
  - rewrite nth_overflow by exact Hi. pose proof (Z.pow_pos_nonneg 2 k). lia.
Qed.

Definition step_ok (k : Z) (N : nat) (step : list Z -> list Z -> list Z -> list Z) : Prop :=
  forall a b out, length a = N -> length b = N -> length out = N ->
    words k a -> words k b -> words (2 * k) out ->
    fma_scalar (2 * k) a b out = Ok (step a b out).

Lemma fma_blocks_ok k N step : (0 < N)%nat -> step_ok k N step ->
  forall fuel a b out, (length a <= fuel)%nat -> (length a <= length b)%nat -> (length a <= length out)%nat ->
  words k a -> words k b -> words (2 * k) out ->
  fma_blocks (2 * k) N step fuel a b out = fma_scalar (2 * k) a b out.
Proof.
  intros HN HS. induction fuel as [|fuel IH]; intros a b out Hf Hb Ho Wa Wb Wo.
  - cbn [fma_blocks]. destruct (Nat.leb_spec N (length a)); [lia|reflexivity].
  - cbn [fma_blocks]. destruct (Nat.leb_spec N (length a)) as [H|H]; [|reflexivity].
    destruct (Nat.ltb_spec (length b) N); [lia|]. destruct (Nat.ltb_spec (length out) N); [lia|]. cbn [orb].
    rewrite IH; try (rewrite !skipn_length; lia); try (apply words_skipn; assumption).
    assert (E : fma_scalar (2 * k) a b out = fma_scalar (2 * k) (firstn N a ++ skipn N a) b out) by now rewrite firstn_skipn.
    rewrite E. clear E. rewrite fma_scalar_app by (rewrite firstn_length; lia).
    rewrite firstn_length, Nat.min_l by exact H.
    rewrite (HS (firstn N a) (firstn N b) (firstn N out)); try (rewrite firstn_length; lia); try (apply words_firstn; assumption).
    cbn [bind]. destruct (fma_scalar (2 * k) (skipn N a) (skipn N b) (skipn N out)); reflexivity.
Qed.

(** a step is right when every entry is *)
Lemma step_entries k N (step : list Z -> list Z -> list Z -> list Z) :
  (forall a b out, length a = N -> length b = N -> length out = N -> words k a -> words k b -> words (2 * k) out ->
     length (step a b out) = N /\
     forall i, (i < N)%nat -> lane (step a b out) i = wrap (2 * k) (lane out i + wrap (2 * k) (lane a i * lane b i))) ->
  step_ok k N step.
Proof.
  intros H a b out La Lb Lo Wa Wb Wo. destruct (H a b out La Lb Lo Wa Wb Wo) as [Ls Hs].
  destruct (fma_scalar_ok (2 * k) a b out) as (r & E & Lr & Hr); [lia|lia|]. rewrite E. f_equal.
  apply (nth_ext _ _ 0 0); [lia|]. intros i Hi. specialize (Hr i). unfold lane in *. rewrite Hr, Hs by lia.
  destruct (Nat.ltb_spec i (length a)); [reflexivity|lia].
Qed.

Lemma lane_firstn n v i : (i < n)%nat -> lane (firstn n v) i = lane v i.
Proof.
  intros H. unfold lane. rewrite <- (firstn_skipn n v) at 2. destruct (Nat.lt_ge_cases i (length (firstn n v))) as [Hi|Hi].
  - now rewrite app_nth1.
  - rewrite firstn_length in Hi. rewrite (nth_overflow (firstn n v)) by (rewrite firstn_length; lia).
    rewrite firstn_skipn. rewrite nth_overflow by lia. reflexivity.
Qed.

Lemma lane_skipn : forall n v i, lane (skipn n v) i = lane v (n + i).
Proof.
  induction n as [|n IH]; intros v i; [reflexivity|]. destruct v as [|x v].
  - cbn [skipn]. unfold lane. now rewrite !nth_overflow by (cbn; lia).
  - cbn [skipn]. rewrite IH. reflexivity.
Qed.

Lemma lane_app_l x y i : (i < length x)%nat -> lane (x ++ y) i = lane x i.
Proof. intros H. unfold lane. now rewrite app_nth1. Qed.
Lemma lane_app_r x y i : (length x <= i)%nat -> lane (x ++ y) i = lane y (i - length x).
Proof. intros H. unfold lane. now rewrite app_nth2. Qed.

Lemma even_form i : Nat.even i = true -> exists q, i = (2 * q)%nat.
Proof. intros H. apply Nat.even_spec in H. exact H. Qed.
Lemma odd_form i : Nat.even i = false -> exists q, i = (2 * q + 1)%nat.
Proof. intros H. rewrite <- Nat.negb_odd in H. apply Bool.negb_false_iff, Nat.odd_spec in H. exact H. Qed.
Lemma even_2 q : Nat.even (2 * q) = true.
Proof. apply Nat.even_spec. now exists q. Qed.
Lemma even_21 q : Nat.even (2 * q + 1) = false.
Proof. rewrite <- Nat.negb_odd. apply Bool.negb_false_iff, Nat.odd_spec. now exists q. Qed.
Lemma div2_2 q : (2 * q / 2 = q)%nat.
Proof. rewrite Nat.mul_comm. now apply Nat.div_mul. Qed.
Lemma div2_21 q : ((2 * q + 1) / 2 = q)%nat.
Proof. symmetry. apply (Nat.div_unique (2 * q + 1) 2 q 1); lia. Qed.

(** interleaving puts the products back in order *)
Lemma interleave_wide a b q : length a = (4 * q)%nat -> forall i, (i < 2 * q)%nat ->
  lane (interleave_lower (mul_even_wide a b) (mul_odd_wide a b)) i = lane a i * lane b i /\
  lane (interleave_upper (mul_even_wide a b) (mul_odd_wide a b)) i = lane a (2 * q + i) * lane b (2 * q + i).
Proof.
  intros La i Hi.
  assert (Lh : (length a / 2 = 2 * q)%nat) by (rewrite La; replace (4 * q)%nat with (2 * (2 * q))%nat by lia; apply div2_2).
  unfold interleave_lower, interleave_upper. assert (LE : length (mul_even_wide a b) = (2 * q)%nat) by (unfold mul_even_wide; rewrite lanes_len; exact Lh).
  rewrite LE. rewrite !lane_lanes by lia. rewrite div2_2.
  unfold mul_even_wide, mul_odd_wide. rewrite Lh.
  destruct (Nat.even i) eqn:E.
  - destruct (even_form i E) as [j ->]. rewrite div2_2. rewrite !lane_lanes by lia.
    replace (2 * (q + j))%nat with (2 * q + 2 * j)%nat by lia. split; reflexivity.
  - destruct (odd_form i E) as [j ->]. rewrite div2_21. rewrite !lane_lanes by lia.
    replace (2 * (q + j) + 1)%nat with (2 * q + (2 * j + 1))%nat by lia. split; reflexivity.
Qed.

Lemma hwy_step_ok k q : 0 <= k -> step_ok k (4 * q) (hwy_step k (4 * q)).
Proof.
  intros Hk. apply step_entries. intros a b out La Lb Lo Wa Wb Wo. unfold hwy_step.
  assert (Lh : (4 * q / 2 = 2 * q)%nat) by (replace (4 * q)%nat with (2 * (2 * q))%nat by lia; apply div2_2).
  rewrite Lh.
  assert (L0 : length (firstn (2 * q) out) = (2 * q)%nat) by (rewrite firstn_length; lia).
  assert (L1 : length (firstn (2 * q) (skipn (2 * q) out)) = (2 * q)%nat) by (rewrite firstn_length, skipn_length; lia).
  unfold lanes_add. rewrite L0, L1. split; [rewrite app_length, !lanes_len; lia|].
  assert (Hp : forall x y, 0 <= x < 2 ^ k -> 0 <= y < 2 ^ k -> x * y = wrap (2 * k) (x * y)).
  { intros x y Hx Hy. unfold wrap. symmetry. apply Z.mod_small. replace (2 * k) with (k + k) by lia. rewrite Z.pow_add_r by lia. nia. }
  intros i Hi. destruct (Nat.lt_ge_cases i (2 * q)) as [H|H].
  - rewrite lane_app_l by (rewrite lanes_len; exact H). rewrite lane_lanes by exact H. rewrite lane_firstn by exact H.
    rewrite (proj1 (interleave_wide a b q La i H)). rewrite <- Hp by (apply words_lane; assumption). reflexivity.
  - rewrite lane_app_r by (rewrite lanes_len; exact H). rewrite lanes_len. assert (H' : (i - 2 * q < 2 * q)%nat) by lia.
    rewrite lane_lanes by exact H'. rewrite lane_firstn by exact H'. rewrite lane_skipn.
    rewrite (proj2 (interleave_wide a b q La _ H')). replace (2 * q + (i - 2 * q))%nat with i by lia.
    rewrite <- Hp by (apply words_lane; assumption). reflexivity.
Qed.

Lemma fma_hwy_ok k N a b out : 0 <= k -> (0 < N)%nat -> (N mod 4 = 0)%nat ->
  (length a <= length b)%nat -> (length a <= length out)%nat -> words k a -> words k b -> words (2 * k) out ->
  fma_hwy k N a b out = fma_scalar (2 * k) a b out.
Proof.
  intros Hk HN H4 Hb Ho Wa Wb Wo. apply Nat.mod_divides in H4; [|lia]. destruct H4 as [q ->].
  apply fma_blocks_ok; try assumption; [|lia]. now apply hwy_step_ok.
Qed.

(** ** 64-bit lanes *)
Lemma to_lanes_len out : length (to_lanes out) = (2 * length out)%nat.
Proof. induction out as [|x out IH]; [reflexivity|]. cbn [to_lanes flat_map app length] in *. unfold to_lanes in IH. rewrite IH. lia. Qed.

Lemma to_lanes_lane : forall out j, (j < length out)%nat ->
  lane (to_lanes out) (2 * j) = wrap 64 (lane out j) /\ lane (to_lanes out) (2 * j + 1) = shr (lane out j) 64.
Proof.
  induction out as [|x out IH]; intros j Hj; [cbn in Hj; lia|]. destruct j as [|j]; [split; reflexivity|]. cbn [length] in Hj.
  destruct (IH j ltac:(lia)) as [E1 E2]. replace (2 * S j)%nat with (S (S (2 * j))) by lia.
  replace (S (S (2 * j)) + 1)%nat with (S (S (2 * j + 1))) by lia. unfold lane in *. cbn [to_lanes flat_map app nth]. split; assumption.
Qed.

Lemma of_lanes_ok : forall n v, length v = (2 * n)%nat ->
  length (of_lanes v) = n /\ forall j, (j < n)%nat -> lane (of_lanes v) j = lane v (2 * j) + 2 ^ 64 * lane v (2 * j + 1).
Proof.
  induction n as [|n IH]; intros v Hv; [destruct v; [split; [reflexivity|lia]|cbn in Hv; lia]|].
  destruct v as [|lo [|hi v]]; try (cbn in Hv; lia). cbn [length] in Hv. destruct (IH v) as [L H]; [lia|].
  cbn [of_lanes length]. split; [lia|]. intros [|j] Hj; [reflexivity|].
  replace (2 * S j)%nat with (S (S (2 * j))) by lia. replace (S (S (2 * j)) + 1)%nat with (S (S (2 * j + 1))) by lia.
  unfold lane in *. cbn [nth]. apply H. lia.
Qed.

(** the mask has the even lanes *)
Lemma mask_lo_nth N i : (i < N)%nat -> nth i (mask_lo N) false = Nat.even i.
Proof.
  intros Hi. unfold mask_lo, load_mask_bits. rewrite lanes_nth by exact Hi.
  assert (Hb : nth (i / 8) (repeat mask_byte ((N + 7) / 8)) 0 = 85).
  { assert (H : (i / 8 < (N + 7) / 8)%nat).
    { pose proof (Nat.div_mod i 8 ltac:(lia)). pose proof (Nat.mod_upper_bound i 8 ltac:(lia)).
      pose proof (Nat.div_mod (N + 7) 8 ltac:(lia)). pose proof (Nat.mod_upper_bound (N + 7) 8 ltac:(lia)). lia. }
    rewrite (nth_indep _ 0 mask_byte) by (rewrite repeat_length; exact H). rewrite nth_repeat. reflexivity. }
  rewrite Hb. pose proof (Nat.div_mod i 8 ltac:(lia)) as E. pose proof (Nat.mod_upper_bound i 8 ltac:(lia)) as B.
  set (r := (i mod 8)%nat) in *. assert (Ev : Nat.even i = Nat.even r).
  { rewrite E. replace (8 * (i / 8) + r)%nat with (r + 2 * (4 * (i / 8)))%nat by lia. apply Nat.even_add_mul_2. }
  rewrite Ev. clearbody r. do 8 (destruct r as [|r]; [reflexivity|]). lia.
Qed.

Lemma mask_lo_len N : length (mask_lo N) = N.
Proof. apply lanes_len. Qed.

Lemma ones_lane N i : (i < N)%nat -> lane (ones N) i = if Nat.even i then 0 else 1.
Proof.
  intros Hi. unfold ones, slide1up, if_then_else_zero, set_all. rewrite !lanes_len. rewrite lane_lanes by exact Hi.
  destruct i as [|i]; [reflexivity|]. rewrite lane_lanes by lia. rewrite mask_lo_nth by lia. rewrite lane_lanes by lia.
  rewrite Nat.even_succ, <- Nat.negb_even. destruct (Nat.even i); reflexivity.
Qed.

(** one half of the output: each 128-bit entry gets its product, with carry *)
Lemma add_carry_lanes N output mul j : length output = N -> (2 * j + 1 < N)%nat ->
  let lo := wrap 64 (lane output (2 * j) + lane mul (2 * j)) in
  let hi := wrap 64 (lane output (2 * j + 1) + lane mul (2 * j + 1)) in
  lane (add_carry N output mul) (2 * j) = lo /\
  lane (add_carry N output mul) (2 * j + 1) = if lo <? lane output (2 * j) then wrap 64 (hi + 1) else hi.
Proof.
  intros Lo Hj lo hi. unfold add_carry, masked_add_or, lanes_add. rewrite !lanes_len, Lo.
  unfold slide_mask1up, mask_and, lanes_lt. rewrite !lanes_len.
  rewrite !lane_lanes by lia. rewrite !ones_lane by lia. rewrite even_2, even_21. fold lo hi. rewrite !lanes_nth by lia. split.
  - destruct (2 * j)%nat as [|j'] eqn:E; [reflexivity|]. rewrite lanes_nth by lia. rewrite mask_lo_nth by lia.
    assert (Ho : Nat.even j' = false). { pose proof (even_2 j) as H. rewrite E, Nat.even_succ, <- Nat.negb_even in H. now apply Bool.negb_true_iff in H. }
    rewrite Ho, Bool.andb_false_r. reflexivity.
  - replace (2 * j + 1)%nat with (S (2 * j)) by lia. rewrite lanes_nth by lia. rewrite mask_lo_nth by lia. rewrite even_2, Bool.andb_true_r.
    rewrite lanes_nth by lia. rewrite lane_lanes by lia. fold lo. reflexivity.
Qed.

Lemma add_carry_len N output mul : length output = N -> length (add_carry N output mul) = N.
Proof. intros H. unfold add_carry, masked_add_or, lanes_add. now rewrite !lanes_len. Qed.

(** the arithmetic of the carry *)
Lemma carry_arith o p : 0 <= o < 2 ^ 128 -> 0 <= p < 2 ^ 128 ->
  let lo := wrap 64 (wrap 64 o + wrap 64 p) in
  let hi := wrap 64 (shr o 64 + shr p 64) in
  lo + 2 ^ 64 * (if lo <? wrap 64 o then wrap 64 (hi + 1) else hi) = wrap 128 (o + p).
Proof.
  intros Ho Hp. cbv zeta. unfold wrap, shr. set (B := 2 ^ 64). assert (HB : B = 2 ^ 64) by reflexivity.
  change (2 ^ 128) with (B * B) in *. assert (B0 : 0 < B) by (rewrite HB; reflexivity).
  assert (Oq : 0 <= o / B < B) by (split; [apply Z.div_pos; lia|apply Z.div_lt_upper_bound; lia]).
  assert (Pq : 0 <= p / B < B) by (split; [apply Z.div_pos; lia|apply Z.div_lt_upper_bound; lia]).
  pose proof (Z.div_mod o B ltac:(lia)) as Do. pose proof (Z.div_mod p B ltac:(lia)) as Dp.
  pose proof (Z.mod_pos_bound o B B0) as Om. pose proof (Z.mod_pos_bound p B B0) as Pm.
  clearbody B. clear HB.
  set (oq := o / B) in *. set (pq := p / B) in *. set (om := o mod B) in *. set (pm := p mod B) in *. clearbody oq pq om pm. subst o p.
  assert (M : forall x y, 0 <= x < B -> 0 <= y -> (B * y + x) mod (B * B) = x + B * (y mod B)).
  { intros x y Hx Hy. pose proof (Z.div_mod y B ltac:(lia)) as D. pose proof (Z.mod_pos_bound y B B0) as Bm.
    symmetry. apply (Z.mod_unique _ _ (y / B)); nia. }
  destruct (Z.lt_ge_cases (om + pm) B) as [Hc|Hc].
  - rewrite (Z.mod_small (om + pm)) by lia. destruct (Z.ltb_spec (om + pm) om); [lia|].
    replace (B * oq + om + (B * pq + pm)) with (B * (oq + pq) + (om + pm)) by ring. rewrite M by lia. reflexivity.
  - assert (E : (om + pm) mod B = om + pm - B) by (symmetry; apply (Z.mod_unique _ _ 1); lia). rewrite E.
    destruct (Z.ltb_spec (om + pm - B) om); [|lia].
    replace (B * oq + om + (B * pq + pm)) with (B * (oq + pq + 1) + (om + pm - B)) by ring. rewrite M by lia.
    f_equal. f_equal. rewrite Z.add_mod_idemp_l by lia. reflexivity.
Qed.

(** after the shuffle, lanes 2 j and 2 j + 1 hold product j (lower half of the
    vector) or product N/2 + j (upper half) *)
Lemma shuffled u a b q : length a = (4 * q)%nat -> forall i, (i < 4 * q)%nat ->
  lane (per4_shuffle 3 1 2 0 u (interleave_lower (mul_even64 a b) (mul_odd64 a b))) i
    = half64 i (lane a (i / 2) * lane b (i / 2)) /\
  lane (per4_shuffle 3 1 2 0 u (interleave_upper (mul_even64 a b) (mul_odd64 a b))) i
    = half64 i (lane a (2 * q + i / 2) * lane b (2 * q + i / 2)).
Proof.
  intros La i Hi. unfold per4_shuffle, interleave_lower, interleave_upper. rewrite !lanes_len.
  assert (LE : length (mul_even64 a b) = (4 * q)%nat) by (unfold mul_even64; rewrite lanes_len; exact La). rewrite LE.
  rewrite !lane_lanes by exact Hi.
  pose proof (Nat.div_mod i 4 ltac:(lia)) as E. pose proof (Nat.mod_upper_bound i 4 ltac:(lia)) as Br.
  set (c := (i / 4)%nat) in *. set (r := (i mod 4)%nat) in *. clearbody c r.
  assert (Lh : (4 * q / 2 = 2 * q)%nat) by (replace (4 * q)%nat with (2 * (2 * q))%nat by lia; apply div2_2). rewrite Lh.
  unfold mul_even64, mul_odd64. rewrite La.
  assert (R : r = 0%nat \/ r = 1%nat \/ r = 2%nat \/ r = 3%nat) by lia.
  destruct R as [-> | [-> | [-> | ->]]]; cbn [nth]; rewrite !lanes_nth by lia; subst i.
  - replace (4 * c + 0)%nat with (2 * (2 * c))%nat by lia. rewrite even_2, div2_2. rewrite !lane_lanes by lia.
    replace (2 * q + 2 * c)%nat with (2 * (q + c))%nat by lia. rewrite !div2_2. unfold half64. rewrite !even_2. split; reflexivity.
  - replace (4 * c + 2)%nat with (2 * (2 * c + 1))%nat by lia. rewrite even_2, div2_2.
    replace (4 * c + 1)%nat with (2 * (2 * c) + 1)%nat by lia. rewrite div2_21. rewrite !lane_lanes by lia.
    replace (2 * q + (2 * c + 1))%nat with (2 * (q + c) + 1)%nat by lia. rewrite !div2_21. unfold half64. rewrite !even_21.
    replace (2 * q + 2 * c)%nat with (2 * (q + c))%nat by lia. split; reflexivity.
  - replace (4 * c + 1)%nat with (2 * (2 * c) + 1)%nat by lia. rewrite even_21, div2_21.
    replace (4 * c + 2)%nat with (2 * (2 * c + 1))%nat by lia. rewrite div2_2. rewrite !lane_lanes by lia.
    replace (2 * q + 2 * c)%nat with (2 * (q + c))%nat by lia. rewrite !div2_2. unfold half64. rewrite !even_2.
    replace (2 * q + (2 * c + 1))%nat with (2 * (q + c) + 1)%nat by lia. split; reflexivity.
  - replace (4 * c + 3)%nat with (2 * (2 * c + 1) + 1)%nat by lia. rewrite even_21, div2_21. rewrite !lane_lanes by lia.
    replace (2 * q + (2 * c + 1))%nat with (2 * (q + c) + 1)%nat by lia. rewrite !div2_21. unfold half64. rewrite !even_21. split; reflexivity.
Qed.

Lemma hwy_step64_ok u q : step_ok 64 (4 * q) (hwy_step64 u (4 * q)).
Proof.
  apply step_entries. intros a b out La Lb Lo Wa Wb Wo. change (2 * 64) with 128 in *. unfold hwy_step64.
  set (N := (4 * q)%nat). set (m0 := per4_shuffle 3 1 2 0 u (interleave_lower _ _)). set (m1 := per4_shuffle 3 1 2 0 u (interleave_upper _ _)).
  set (o0 := firstn N (to_lanes out)). set (o1 := firstn N (skipn N (to_lanes out))).
  pose proof (to_lanes_len out) as Lt.
  assert (L0 : length o0 = N) by (unfold o0; rewrite firstn_length; lia).
  assert (L1 : length o1 = N) by (unfold o1; rewrite firstn_length, skipn_length; lia).
  destruct (of_lanes_ok N (add_carry N o0 m0 ++ add_carry N o1 m1)) as [LF HF].
  { rewrite app_length, !add_carry_len by assumption. lia. }
  split; [exact LF|]. intros i Hi. rewrite HF by exact Hi.
  pose proof (words_lane 128 out i ltac:(lia) Wo) as Bo.
  assert (Bp : 0 <= lane a i * lane b i < 2 ^ 128).
  { pose proof (words_lane 64 a i ltac:(lia) Wa). pose proof (words_lane 64 b i ltac:(lia) Wb). change (2 ^ 128) with (2 ^ 64 * 2 ^ 64).
    generalize dependent (2 ^ 64). intros; nia. }
  assert (Wp : wrap 128 (lane a i * lane b i) = lane a i * lane b i) by (apply Z.mod_small; exact Bp). rewrite Wp.
  rewrite <- (carry_arith _ _ Bo Bp). cbv zeta.
  destruct (Nat.lt_ge_cases i (2 * q)) as [H|H].
  - rewrite !lane_app_l by (rewrite add_carry_len by assumption; unfold N; lia).
    destruct (add_carry_lanes N o0 m0 i L0 ltac:(unfold N; lia)) as [E1 E2]. rewrite E1, E2.
    unfold o0. rewrite !lane_firstn by (unfold N; lia). destruct (to_lanes_lane out i) as [T1 T2]; [lia|]. rewrite T1, T2.
    unfold m0. rewrite (proj1 (shuffled u a b q La (2 * i) ltac:(lia))), (proj1 (shuffled u a b q La (2 * i + 1) ltac:(lia))).
    rewrite div2_2, div2_21. unfold half64. rewrite even_2, even_21. reflexivity.
  - rewrite !lane_app_r by (rewrite add_carry_len by assumption; unfold N; lia). rewrite !add_carry_len by assumption.
    replace (2 * i - N)%nat with (2 * (i - 2 * q))%nat by (unfold N; lia).
    replace (2 * i + 1 - N)%nat with (2 * (i - 2 * q) + 1)%nat by (unfold N; lia). set (j := (i - 2 * q)%nat).
    assert (Hj : (j < 2 * q)%nat) by (unfold j, N in *; lia).
    destruct (add_carry_lanes N o1 m1 j L1 ltac:(unfold N; lia)) as [E1 E2]. rewrite E1, E2.
    unfold o1. rewrite !lane_firstn by (unfold N; lia). rewrite !lane_skipn. destruct (to_lanes_lane out i) as [T1 T2]; [lia|].
    replace (N + 2 * j)%nat with (2 * i)%nat by (unfold j, N; lia). replace (N + (2 * j + 1))%nat with (2 * i + 1)%nat by (unfold j, N; lia).
    rewrite T1, T2. unfold m1. rewrite (proj2 (shuffled u a b q La (2 * j) ltac:(lia))), (proj2 (shuffled u a b q La (2 * j + 1) ltac:(lia))).
    rewrite div2_2, div2_21. replace (2 * q + j)%nat with i by (unfold j; lia). unfold half64. rewrite even_2, even_21. reflexivity.
Qed.

Lemma fma_hwy64_ok u N a b out : (0 < N)%nat -> (N mod 4 = 0)%nat ->
  (length a <= length b)%nat -> (length a <= length out)%nat -> words 64 a -> words 64 b -> words 128 out ->
  fma_hwy64 u N a b out = fma_scalar 128 a b out.
Proof.
  intros HN H4 Hb Ho Wa Wb Wo. apply Nat.mod_divides in H4; [|lia]. destruct H4 as [q ->].
  apply (fma_blocks_ok 64); try assumption; [|lia]. now apply hwy_step64_ok.
Qed.

(** ** Two lanes *)
Lemma two_lanes u a0 a1 b0 b1 o0 o1 r : 0 <= o1 < 2 ^ 128 ->
  fma_hwy64 u 2 [a0; a1] [b0; b1] [o0; o1] = Ok r ->
  wrap 64 (lane r 1) = wrap 64 (o1 + shr (a0 * b0) 64).
Proof.
  intros Ho E.
  assert (E' : fma_hwy64 u 2 [a0; a1] [b0; b1] [o0; o1] = Ok (hwy_step64 u 2 [a0; a1] [b0; b1] [o0; o1] ++ [])) by reflexivity.
  rewrite app_nil_r in E'. rewrite E' in E.
  assert (R : r = hwy_step64 u 2 [a0; a1] [b0; b1] [o0; o1]) by congruence. rewrite R. unfold hwy_step64.
  set (m0 := per4_shuffle 3 1 2 0 u (interleave_lower _ _)). set (m1 := per4_shuffle 3 1 2 0 u (interleave_upper _ _)).
  set (x0 := firstn 2 (to_lanes [o0; o1])). set (x1 := firstn 2 (skipn 2 (to_lanes [o0; o1]))).
  destruct (of_lanes_ok 2 (add_carry 2 x0 m0 ++ add_carry 2 x1 m1)) as [_ HF]; [reflexivity|].
  rewrite (HF 1%nat) by lia. rewrite lane_app_r by (rewrite add_carry_len by reflexivity; lia).
  rewrite add_carry_len by reflexivity. destruct (add_carry_lanes 2 x1 m1 0 eq_refl ltac:(lia)) as [E1 _].
  change (2 * 1 - 2)%nat with (2 * 0)%nat. rewrite E1.
  replace (lane x1 (2 * 0)) with (wrap 64 o1) by reflexivity. replace (lane m1 (2 * 0)) with (shr (a0 * b0) 64) by reflexivity.
  unfold wrap. rewrite (Z.mul_comm (2 ^ 64)), Z.mod_add by discriminate. rewrite Z.mod_mod by discriminate.
  rewrite Z.add_mod_idemp_l by discriminate. reflexivity.
Qed.

(** the scalar loop on vectors of the same length, as in [rlazy_fused] *)
Lemma fma_scalar_map2 w : forall out a b, length a = length out -> length b = length out ->
  fma_scalar w a b out = Ok (map2 (fun c xy => wrap w (c + wrap w (fst xy * snd xy))) out (combine a b)).
Proof.
  induction out as [|o out IH]; intros a b La Lb.
  - destruct a; [|discriminate]. reflexivity.
  - destruct a as [|x a]; [discriminate|]. destruct b as [|y b]; [discriminate|]. cbn [fma_scalar combine map2 fst snd length] in *.
    rewrite IH by lia. reflexivity.
Qed.

(** ** Lazy polynomials *)
Section Lazy.
Variables (k : Z) (L : nat) (ms : list pmod) (fma : list Z -> list Z -> list Z -> result (list Z)).
Hypothesis OK : moduli_ok k L ms.
Hypothesis FMA : forall a b out, (length a <= length b)%nat -> (length a <= length out)%nat ->
  words k a -> words k b -> words (2 * k) out -> fma a b out = fma_scalar (2 * k) a b out.

Lemma sub_words m v f : mod_ok k L m -> sub_is m L true v f -> words k v.
Proof.
  intros Hm [[_ Hs] _]. unfold words. eapply Forall_impl; [|exact Hs]. cbn. unfold stored. intros c Hc.
  pose proof (ok_qk k L m Hm) as B. pose proof (ok_q k L m Hm). change (p_m (pm_p m)) with (modulus m) in Hc. lia.
Qed.

Lemma acc_words lvl m v f : mod_ok k L m -> lvl * (modulus m * modulus m) < 2 ^ (2 * k - 1) -> acc m L lvl v f -> words (2 * k) v.
Proof.
  intros Hm HB (_ & HA & _). unfold words. eapply Forall_impl; [|exact HA]. cbv beta. intros c Hc. split; [lia|].
  assert (H0 : 0 <= 2 * k - 1).
  { destruct (Z.lt_ge_cases (2 * k - 1) 0) as [H|H]; [|lia]. rewrite (Z.pow_neg_r 2 (2 * k - 1)) in HB by exact H. lia. }
  assert (E : 2 ^ (2 * k) = 2 * 2 ^ (2 * k - 1)) by (rewrite <- Z.pow_succ_r by lia; f_equal; lia).
  rewrite E. destruct Hc as [Hc0 Hc]. pose proof (Z.le_lt_trans _ _ _ Hc HB). lia.
Qed.

Lemma zip_with lvl : forall ms' zs vs ws h f g, moduli_ok k L ms' ->
  Forall (fun m => lvl * (modulus m * modulus m) < 2 ^ (2 * k - 1)) ms' ->
  Forall2 (fun m v => acc m L lvl v h) ms' zs ->
  Forall2 (fun m v => sub_is m L true v f) ms' vs -> Forall2 (fun m v => sub_is m L true v g) ms' ws ->
  seqr (map (fun zab => fma (fst (snd zab)) (snd (snd zab)) (fst zab)) (combine zs (combine vs ws))) =
  Ok (map2 (fun m zab => map2 (fun c xy => wrap (2 * p_k (pm_p m)) (c + big_mul (pm_p m) (fst xy) (snd xy)))
                  (fst zab) (combine (fst (snd zab)) (snd (snd zab)))) ms' (combine zs (combine vs ws))).
Proof.
  induction ms' as [|m t IH]; intros zs vs ws h f g HO HB Hz Hv Hw; inversion Hz as [|? z ? zs' Z1 Z2]; inversion Hv as [|? v ? vs' V1 V2];
    inversion Hw as [|? w ? ws' W1 W2]; subst; [reflexivity|]. cbn [combine map2 map seqr fst snd].
  inversion HO as [|? ? O1 O2]. inversion HB as [|? ? B1 B2].
  pose proof (sub_len L m _ _ _ V1) as Lv. pose proof (sub_len L m _ _ _ W1) as Lw. pose proof (proj1 Z1) as Lz.
  rewrite FMA; [|lia|lia|exact (sub_words m v f O1 V1)|exact (sub_words m w g O1 W1)|exact (acc_words lvl m z h O1 B1 Z1)].
  rewrite fma_scalar_map2 by lia. cbn [bind]. rewrite (IH zs' vs' ws' h f g) by assumption. cbn [bind].
  unfold big_mul. rewrite (ok_k k L m O1). reflexivity.
Qed.

Lemma fused_with_ok z a b h f g : lazy_is k ms L z h -> rns_is ms L true a f -> rns_is ms L true b g ->
  rlazy_fused_with fma z a b ms = rlazy_fused z a b ms.
Proof.
  intros Hz Ha Hb. unfold rlazy_fused_with, rlazy_fused.
  destruct (negb (rp_ntt a) || negb (rp_ntt b)); [reflexivity|].
  destruct (negb (same_len (rp_vs a) ms) || negb (same_len (rp_vs b) ms) || negb (same_len (rl_vs z) ms)); [reflexivity|].
  destruct (rl_vs z) as [|v0 t] eqn:Ev; [reflexivity|].
  destruct (negb (rp_ncoeffs a =? length v0)%nat || negb (rp_ncoeffs b =? length v0)%nat); [reflexivity|].
  set (z1 := if rl_level z =? rl_max z then rlazy_refresh z ms else z).
  assert (H1 : lazy_is k ms L z1 h).
  { unfold z1. destruct (rl_level z =? rl_max z); [apply (refresh_is k L ms OK), Hz|exact Hz]. }
  destruct H1 as (C1 & C2 & C3 & C4). cbv zeta.
  rewrite (zip_with (rl_level z1) ms (rl_vs z1) (rp_vs a) (rp_vs b) h f g); [reflexivity|exact OK| |exact C4|apply Ha|apply Hb].
  rewrite Forall_forall in C3 |- *. intros m I. specialize (C3 m I). eapply Z.le_lt_trans; [|exact C3].
  apply Z.mul_le_mono_nonneg_r; [|lia]. pose proof (ok_q k L m (moduli_in _ _ _ _ OK I)). nia.
Qed.

Lemma run_with_ok : ms <> [] -> forall ops fgs, Forall2 (rep_pair L ms) ops fgs -> forall z h, lazy_is k ms L z h ->
  fold_left (fun r ab => do! z <- r; rlazy_fused_with fma z (fst ab) (snd ab) ms) ops (Ok z) =
  fold_left (fun r ab => do! z <- r; rlazy_fused z (fst ab) (snd ab) ms) ops (Ok z).
Proof.
  intros NE ops fgs HF. induction HF as [|ab fg ops fgs [Ha Hb] HF IH]; intros z h Hz; [reflexivity|].
  cbn [fold_left bind]. rewrite (fused_with_ok z _ _ h _ _ Hz Ha Hb).
  destruct (lazy_fused_is k L ms OK z (fst ab) (snd ab) h _ _ NE Hz Ha Hb) as (z1 & E1 & H1).
  rewrite E1. apply (IH z1 _ H1).
Qed.
End Lazy.
