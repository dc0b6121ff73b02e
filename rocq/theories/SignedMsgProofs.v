(** Proofs about [SignedMsg]. *)
From Verif Require Import Base Spec RnsCircuitSpec SignedMsg SignedMsgSpec.
Local Open Scope Z_scope.

Lemma pow_le : forall a b, 0 <= a <= b -> 2 ^ a <= 2 ^ b. Proof. intros. apply Z.pow_le_mono_r; lia. Qed.
Lemma pow_pos : forall a, 0 <= a -> 0 < 2 ^ a. Proof. intros. apply Z.pow_pos_nonneg; lia. Qed.
Lemma pow_half : forall s, 1 <= s -> 2 ^ s = 2 * 2 ^ (s - 1). Proof. intros. rewrite <- Z.pow_succ_r by lia. f_equal. lia. Qed.

Lemma to_signed_id : forall s x, 1 <= s -> signed_value s x -> to_signed s x = x.
Proof. intros s x S V. unfold to_signed, signed_value in *. pose proof (pow_half s S) as H. set (h := 2 ^ (s - 1)) in *. rewrite (Z.mod_small (x + h) (2 ^ s)) by lia. lia. Qed.

Lemma to_signed_cong : forall s x y, 0 <= s -> x mod 2 ^ s = y mod 2 ^ s -> to_signed s x = to_signed s y.
Proof. intros s x y S E. unfold to_signed. rewrite (Z.add_mod x), (Z.add_mod y), E by (pose proof (pow_pos s); lia). reflexivity. Qed.

(** where the types meet, s and k being given *)
Lemma meet_cases : forall s k, signed_bits s -> word_size k ->
  (common s k = Unsigned k /\ s <= k /\ 1 <= s /\ 1 <= k) \/ (exists w, common s k = Signed w /\ s <= w /\ k < w /\ 1 <= s /\ 1 <= k).
Proof.
  intros s k S K. unfold signed_bits, word_size in *. cbn [In] in *. unfold common.
  destruct (Z.ltb_spec k 32); [right; exists (Z.max s 32); repeat split; lia|].
  destruct (Z.leb_spec (Z.max s 32) k); [left; repeat split; lia|right; exists (Z.max s 32); repeat split; lia].
Qed.

Lemma into_signed : forall w x, 1 <= w -> signed_value w x -> into (Signed w) x = Ok x.
Proof. intros w x W [A B]. unfold into. destruct (Z.ltb_spec x (- 2 ^ (w - 1))); [lia|]. destruct (Z.leb_spec (2 ^ (w - 1)) x); [lia|]. reflexivity. Qed.

Lemma signed_wider : forall s w x, 1 <= s <= w -> signed_value s x -> signed_value w x.
Proof. intros s w x W [A B]. unfold signed_value. pose proof (pow_le (s - 1) (w - 1) ltac:(lia)). lia. Qed.

Lemma word_signed : forall k w x, 1 <= k < w -> 0 <= x < 2 ^ k -> signed_value w x.
Proof. intros k w x W X. unfold signed_value. pose proof (pow_le k (w - 1) ltac:(lia)). lia. Qed.

Lemma mod_centre : forall t x, - t <= x < t -> x mod t = if x <? 0 then x + t else x.
Proof.
  intros t x X. destruct (Z.ltb_spec x 0); [|apply Z.mod_small; lia].
  rewrite <- (Z.mod_small (x + t) t) by lia. rewrite <- (Z.mod_add x 1 t) by lia. f_equal. lia.
Qed.

Lemma wrap_one_spec : forall s k t x, signed_bits s -> word_size k -> 0 < t < 2 ^ k -> signed_value s x -> - t <= x < t ->
  wrap_one s k t x = Ok (x mod t).
Proof.
  intros s k t x S K T V X. rewrite (mod_centre t x X). unfold wrap_one.
  destruct (meet_cases s k S K) as [(E & A & B & C)|(w & E & A & B & C & D)]; rewrite E; destruct (Z.ltb_spec x 0).
  - cbn [into bind]. unfold wrap. f_equal. rewrite <- Z.add_mod by lia. rewrite Z.mod_mod by lia. apply Z.mod_small. lia.
  - cbn [into bind]. unfold wrap. f_equal. rewrite Z.mod_mod by lia. apply Z.mod_small. lia.
  - rewrite (into_signed w x) by (first [lia|apply (signed_wider s); [lia|exact V]]). rewrite (into_signed w t) by (try lia; apply (word_signed k); lia).
    cbn [bind]. rewrite (into_signed w (x + t)) by (try lia; apply (word_signed k); lia). cbn [bind]. unfold wrap. f_equal. apply Z.mod_small. lia.
  - rewrite (into_signed w x) by (first [lia|apply (signed_wider s); [lia|exact V]]). cbn [bind]. unfold wrap. f_equal. apply Z.mod_small. lia.
Qed.

Lemma unwrap_one_spec : forall s k t m, signed_bits s -> word_size k -> 0 < t < 2 ^ k -> t < 2 ^ (s - 1) -> 0 <= m < t ->
  unwrap_one s k t m = Ok (if t / 2 <? m then m - t else m).
Proof.
  intros s k t m S K T TS M. assert (H2 : 0 <= t / 2 <= t) by (split; [apply Z.div_pos; lia|apply Z.div_le_upper_bound; lia]). unfold unwrap_one.
  assert (S1 : 1 <= s) by (unfold signed_bits in S; cbn [In] in S; lia).
  assert (V : forall x, - t <= x <= t -> signed_value s x) by (intros; unfold signed_value; lia).
  rewrite (to_signed_id s m S1) by (apply V; lia).
  destruct (meet_cases s k S K) as [(E & A & B & C)|(w & E & A & B & C & D)]; rewrite E.
  - cbn [into bind]. unfold wrap. rewrite (Z.mod_small m (2 ^ k)), (Z.mod_small (t / 2) (2 ^ k)), (Z.mod_small t (2 ^ k)) by lia. destruct (t / 2 <? m); f_equal; [|apply to_signed_id; [lia|apply V; lia]].
    transitivity (to_signed s (m - t)); [|apply to_signed_id; [lia|apply V; lia]]. apply to_signed_cong; [lia|].
    replace (2 ^ k) with (2 ^ s * 2 ^ (k - s)) by (rewrite <- Z.pow_add_r by lia; f_equal; lia).
    rewrite Z.rem_mul_r by (pose proof (pow_pos s); pose proof (pow_pos (k - s)); lia).
    rewrite (Z.mul_comm (2 ^ s) (((m - t) / 2 ^ s) mod _)), Z.mod_add by (pose proof (pow_pos s); lia). apply Z.mod_mod. pose proof (pow_pos s); lia.
  - assert (VW : forall x, - t <= x <= t -> signed_value w x) by (intros; apply (signed_wider s); [lia|auto]).
    rewrite !into_signed by (try lia; apply VW; lia). cbn [bind]. destruct (t / 2 <? m).
    + rewrite into_signed by (try lia; apply VW; lia). cbn [bind]. f_equal. apply to_signed_id; [lia|apply V; lia].
    + f_equal. apply to_signed_id; [lia|apply V; lia].
Qed.

Lemma seqr_all : forall {A B} (f : A -> result B) g l, (forall x, In x l -> f x = Ok (g x)) -> seqr (map f l) = Ok (map g l).
Proof. induction l as [|x l IH]; intros H; [reflexivity|]. cbn [map seqr]. rewrite (H x (or_introl eq_refl)). cbn [bind]. rewrite IH by (intros; apply H; right; auto). reflexivity. Qed.

Lemma wrap_signed_spec : forall s k t msgs, signed_bits s -> word_size k -> 0 < t < 2 ^ k -> Forall (signed_value s) msgs -> Forall (fun x => - t <= x < t) msgs ->
  wrap_signed s k t msgs = Ok (map (fun x => x mod t) msgs).
Proof.
  intros s k t msgs S K T V X. apply seqr_all. intros x Hx. rewrite Forall_forall in V, X. apply wrap_one_spec; auto.
Qed.

Lemma unwrap_signed_spec : forall s k t msgs, signed_bits s -> word_size k -> 0 < t < 2 ^ k -> t < 2 ^ (s - 1) -> Forall (fun m => 0 <= m < t) msgs ->
  unwrap_signed s k t msgs = Ok (map (fun m => if t / 2 <? m then m - t else m) msgs).
Proof.
  intros s k t msgs S K T TS X. apply seqr_all. intros x Hx. rewrite Forall_forall in X. apply unwrap_one_spec; auto.
Qed.

(** centring a residue gives back the value of the range *)
Lemma centre_back : forall t x, Z.odd t = true -> 0 < t -> in_range t x -> (if t / 2 <? x mod t then x mod t - t else x mod t) = x.
Proof.
  intros t x O T R. unfold in_range in R. rewrite mod_centre by lia. rewrite Z.odd_spec in O. destruct O as [h ->].
  replace ((2 * h + 1) / 2) with h by (rewrite Z.mul_comm, Z.div_add_l by lia; reflexivity || (cbn; lia)).
  destruct (Z.ltb_spec x 0).
  - destruct (Z.ltb_spec h (x + (2 * h + 1))); lia.
  - destruct (Z.ltb_spec h x); lia.
Qed.

(** wrapping the messages of a computation does not change its value modulo t *)
Lemma wrap_circuit_all : forall (f : list Z -> result (list Z)) (Q : list Z -> Prop) t n a b, 0 < t ->
  (forall msgs m, Q msgs -> f msgs = Ok m -> forall i, nth i m 0 mod t = nth i msgs 0 mod t) ->
  all_messages Q a -> wrap_circuit f a = Ok b -> forall i, as_slots n b i mod t = as_slots n a i mod t.
Proof.
  intros f Q t n a b T F. unfold as_slots. revert b.
  assert (P : forall a b c d, a mod t = b mod t -> c mod t = d mod t -> (a + c) mod t = (b + d) mod t) by (intros x y z u H1 H2; rewrite Z.add_mod, H1, H2, <- Z.add_mod by lia; reflexivity).
  assert (S : forall a b c d, a mod t = b mod t -> c mod t = d mod t -> (a - c) mod t = (b - d) mod t) by (intros x y z u H1 H2; rewrite Zminus_mod, H1, H2, <- Zminus_mod; reflexivity).
  assert (M : forall a b c d, a mod t = b mod t -> c mod t = d mod t -> (a * c) mod t = (b * d) mod t) by (intros x y z u H1 H2; rewrite Z.mul_mod, H1, H2, <- Z.mul_mod by lia; reflexivity).
  induction a; intros c A E; cbn [wrap_circuit bind all_messages] in A, E; repeat match goal with A : _ /\ _ |- _ => destruct A end;
    repeat match type of E with context [bind ?e _] => let H := fresh "H" in destruct e eqn:H; cbn [bind] in E; [|discriminate E|discriminate E] end;
    injection E as <-; intros i; cbn [values]; auto 6.
  match goal with |- (- ?x) mod t = (- ?y) mod t => rewrite <- (Z.sub_0_l x), <- (Z.sub_0_l y) end. apply S; auto.
Qed.

Lemma wrap_circuit_ok : forall (f : list Z -> result (list Z)) (P : list Z -> Prop) a, (forall msgs, P msgs -> exists m, f msgs = Ok m) -> all_messages P a -> exists b, wrap_circuit f a = Ok b.
Proof.
  intros f P a F. induction a; cbn [all_messages wrap_circuit]; intros H;
    repeat match goal with H : _ /\ _ |- _ => destruct H end;
    repeat match goal with IH : ?X -> exists b, wrap_circuit f ?a = Ok b, H : ?X |- _ => destruct (IH H) as [? ?]; clear IH end;
    repeat match goal with H : P ?m |- _ => destruct (F m H) as [? ?]; clear H end;
    repeat match goal with E : _ = Ok _ |- _ => rewrite E; clear E; cbn [bind] end; eauto.
Qed.

(** two values of a signed type narrower than t cannot be told apart *)
Lemma unwrap_low : forall s k t m m', 0 <= s -> m mod 2 ^ s = m' mod 2 ^ s -> unwrap_one s k t m = unwrap_one s k t m'.
Proof. intros s k t m m' S E. unfold unwrap_one. rewrite (to_signed_cong s m m' S E). reflexivity. Qed.

Lemma narrow_collision : forall s t, 1 <= s -> Z.odd t = true -> 2 ^ s < t ->
  exists x y, signed_value s x /\ signed_value s y /\ x <> y /\ in_range t x /\ in_range t y /\ (x mod t) mod 2 ^ s = (y mod t) mod 2 ^ s.
Proof.
  intros s t S O T. pose proof (pow_half s S) as H. pose proof (pow_pos (s - 1) ltac:(lia)) as P. set (h := 2 ^ (s - 1)) in *. set (r := t mod 2 ^ s).
  assert (R : 0 <= r < 2 ^ s) by (apply Z.mod_pos_bound; lia).
  assert (R0 : r <> 0).
  { intros R0. apply Z.mod_divide in R0; [|lia]. destruct R0 as [q E]. rewrite H in E. rewrite E in O.
    replace (q * (2 * h)) with (2 * (q * h)) in O by lia. rewrite Z.odd_mul in O. discriminate O. }
  assert (W : forall x y, - h <= x < 0 -> 0 <= y < h -> x + r = y -> (x mod t) mod 2 ^ s = (y mod t) mod 2 ^ s).
  { intros x y X Y E. rewrite (mod_centre t x), (mod_centre t y) by lia. destruct (Z.ltb_spec x 0); [|lia]. destruct (Z.ltb_spec y 0); [lia|].
    rewrite Z.add_mod by lia. fold r. rewrite (Z.mod_small y) by lia. rewrite <- (Z.mod_small r (2 ^ s)) by lia. rewrite <- Z.add_mod by lia. rewrite E. apply Z.mod_small. lia. }
  unfold signed_value, in_range. fold h. destruct (Z_le_gt_dec r h).
  - exists (-1), (r - 1). repeat split; try lia. apply W; lia.
  - exists (- h), (r - h). repeat split; try lia. apply W; lia.
Qed.
