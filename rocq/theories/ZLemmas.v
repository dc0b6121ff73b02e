(** Arithmetic lemmas about [Z] used by all proof files. *)
From Verif Require Import Base.

Lemma wrap_small k x : 0 <= x < 2 ^ k -> wrap k x = x.
Proof. intros H; unfold wrap; apply Z.mod_small; exact H. Qed.

Lemma wrap_range k x : 0 <= k -> 0 <= wrap k x < 2 ^ k.
Proof. intros H; unfold wrap; apply Z.mod_pos_bound; apply Z.pow_pos_nonneg; lia. Qed.

Lemma wrap_wrap k x : wrap k (wrap k x) = wrap k x.
Proof. unfold wrap; apply Zmod_mod. Qed.

Lemma wrap_wrap_le j k x : 0 <= j <= k -> wrap j (wrap k x) = wrap j x.
Proof.
  intros H; unfold wrap.
  replace (2 ^ k) with (2 ^ j * 2 ^ (k - j)).
  2:{ rewrite <- Z.pow_add_r by lia. f_equal; lia. }
  assert (0 < 2 ^ j) by (apply Z.pow_pos_nonneg; lia).
  assert (0 < 2 ^ (k - j)) by (apply Z.pow_pos_nonneg; lia).
  rewrite Z.rem_mul_r by lia.
  rewrite Z.mul_comm, Z_mod_plus_full. apply Zmod_mod.
Qed.

Lemma wrap_sub_sub k x y : wrap k (wrap k x - wrap k y) = wrap k (x - y).
Proof. unfold wrap; symmetry; apply Zminus_mod. Qed.

Lemma wrap_sub_r k x y : wrap k (x - wrap k y) = wrap k (x - y).
Proof. unfold wrap; apply Zminus_mod_idemp_r. Qed.

Lemma wrap_sub_l k x y : wrap k (wrap k x - y) = wrap k (x - y).
Proof. unfold wrap; apply Zminus_mod_idemp_l. Qed.

Lemma wrap_add_l k x y : wrap k (wrap k x + y) = wrap k (x + y).
Proof. unfold wrap; apply Zplus_mod_idemp_l. Qed.

Lemma wrap_add_r k x y : wrap k (x + wrap k y) = wrap k (x + y).
Proof. unfold wrap; apply Zplus_mod_idemp_r. Qed.

Lemma wrap_mul_l k x y : wrap k (wrap k x * y) = wrap k (x * y).
Proof. unfold wrap; apply Zmult_mod_idemp_l. Qed.

Lemma wrap_mul_r k x y : wrap k (x * wrap k y) = wrap k (x * y).
Proof. unfold wrap; apply Zmult_mod_idemp_r. Qed.

Lemma pow2_pos k : 0 <= k -> 0 < 2 ^ k.
Proof. intros; apply Z.pow_pos_nonneg; lia. Qed.

Lemma pow2_double k : 0 <= k -> 2 ^ (2 * k) = 2 ^ k * 2 ^ k.
Proof. intros; replace (2 * k) with (k + k) by lia. apply Z.pow_add_r; lia. Qed.

Lemma mod_eq_divide m a b : m <> 0 -> (a mod m = b mod m <-> (m | a - b)).
Proof.
  intros Hm; split; intros H.
  - exists (a / m - b / m).
    rewrite (Z.div_mod a m) at 1 by lia.
    rewrite (Z.div_mod b m) at 1 by lia. rewrite H. ring.
  - destruct H as [q Hq]. replace a with (b + q * m) by lia.
    apply Z_mod_plus_full.
Qed.

(** A value in [0, 2m) congruent to [x] reduces to [x mod m] by one
    conditional subtraction. *)
Lemma cond_sub_mod m x y :
  0 < m -> 0 <= y < 2 * m -> y mod m = x mod m ->
  (if m <=? y then y - m else y) = x mod m.
Proof.
  intros Hm Hy He. destruct (Z.leb_spec m y).
  - rewrite <- He. symmetry. rewrite <- (Z_mod_plus_full y (-1) m).
    replace (y + -1 * m) with (y - m) by ring. apply Z.mod_small; lia.
  - rewrite <- He. symmetry; apply Z.mod_small; lia.
Qed.

(** Quotient approximation behind Barrett/Shoup reduction: with
    [cb = floor (c*R/m)], the estimate [floor (cb*x/R)] of [c*x/m] is at most
    one too small for every word [x < R]. *)
Lemma shoup_bound m R c x :
  0 < m -> 0 < R -> 0 <= c -> 0 <= x < R ->
  let cb := c * R / m in
  0 <= x * c - (cb * x) / R * m < 2 * m.
Proof.
  intros Hm HR Hc Hx cb.
  pose proof (Z.div_mod (c * R) m ltac:(lia)) as H1. fold cb in H1.
  pose proof (Z.mod_pos_bound (c * R) m Hm) as H2.
  pose proof (Z.div_mod (cb * x) R ltac:(lia)) as H3.
  pose proof (Z.mod_pos_bound (cb * x) R HR) as H4.
  set (e := (c * R) mod m) in *. set (f := (cb * x) mod R) in *.
  set (q := cb * x / R) in *.
  (* R*(x*c - q*m) = e*x + m*f *)
  assert (E : R * (x * c - q * m) = e * x + m * f).
  { replace (R * (x * c - q * m)) with (x * (c * R) - m * (R * q)) by ring.
    rewrite H1. replace (R * q) with (cb * x - f) by lia. ring. }
  assert (0 <= e * x) by nia. assert (0 <= m * f) by nia.
  assert (e * x < m * R) by nia. assert (m * f < m * R) by nia.
  split; nia.
Qed.

Lemma shoup_bound2 m R c a n :
  0 < m -> 0 < R -> 0 <= c -> 0 <= a -> 0 <= n -> a + n < R ->
  let cb := c * R / m in let bn := R / m in
  0 <= n + a * c - (cb * a + bn * n) / R * m < 2 * m.
Proof.
  intros Hm HR Hc Ha Hn Han cb bn.
  pose proof (Z.div_mod (c * R) m ltac:(lia)) as H1. fold cb in H1.
  pose proof (Z.mod_pos_bound (c * R) m Hm) as H2.
  pose proof (Z.div_mod R m ltac:(lia)) as H5. fold bn in H5.
  pose proof (Z.mod_pos_bound R m Hm) as H6.
  set (S := cb * a + bn * n).
  pose proof (Z.div_mod S R ltac:(lia)) as H3.
  pose proof (Z.mod_pos_bound S R HR) as H4.
  set (e := (c * R) mod m) in *. set (g := R mod m) in *.
  set (f := S mod R) in *. set (q := S / R) in *.
  assert (E : R * (n + a * c - q * m) = e * a + g * n + m * f).
  { replace (R * (n + a * c - q * m)) with (R * n + a * (c * R) - m * (R * q)) by ring.
    rewrite H1. replace (R * q) with (S - f) by lia. unfold S.
    replace (R * n) with ((m * bn + g) * n) by (rewrite <- H5; ring). ring. }
  assert (0 <= e * a) by nia. assert (0 <= g * n) by nia. assert (0 <= m * f) by nia.
  assert (e * a + g * n < m * R) by nia. assert (m * f < m * R) by nia.
  split; nia.
Qed.
