(** C42: discrete Gaussian sampling. *)
From Coq Require Import Sorted Lia.
From Verif Require Import Base ZLemmas Prng SampleSpec Gauss GaussSpec.

(** ** Table lookup *)
Lemma find_count cdt u : forall acc, fold_left (fun index c => index + (if c <? u then 1 else 0)) cdt acc =
  acc + Z.of_nat (length (filter (fun c => c <? u) cdt)).
Proof.
  induction cdt as [|c cdt IH]; intros acc; cbn [fold_left filter]; [cbn; lia|].
  rewrite IH. destruct (c <? u); cbn [length]; lia.
Qed.

Lemma filter_sorted cdt u : Sorted Z.le cdt -> forall j, (j < length cdt)%nat ->
  ((j < length (filter (fun c => (c <? u)%Z) cdt))%nat <-> nth j cdt 0 < u).
Proof.
  intros Hs. apply Sorted_StronglySorted in Hs; [|intros a b c; lia].
  induction Hs as [|c cdt Hs IH Hc]; intros j Hj; [cbn in Hj; lia|]. cbn [filter].
  destruct (Z.ltb_spec c u) as [H|H].
  - cbn [length]. destruct j as [|j]; cbn [nth]; [split; [intros _; exact H|lia]|].
    cbn [length] in Hj. rewrite <- IH by lia. lia.
  - assert (E : filter (fun c0 => c0 <? u) cdt = []).
    { rewrite Forall_forall in Hc. clear -Hc H. induction cdt as [|e cdt IH]; [reflexivity|]. cbn [filter].
      assert (c <= e) by (apply Hc; left; reflexivity). destruct (Z.ltb_spec e u); [lia|]. apply IH. intros x Hx. apply Hc. right. exact Hx. }
    rewrite E. cbn [length]. split; [lia|]. intros Hlt. exfalso. destruct j; cbn [nth] in Hlt; [lia|].
    rewrite Forall_forall in Hc. cbn [length] in Hj. assert (Hj2 : (j < length cdt)%nat) by lia. specialize (Hc _ (nth_In cdt 0 Hj2)). lia.
Qed.

(** the index r returned for u is the one with cdt[r-1] < u <= cdt[r] *)
Theorem C42_lookup :
  forall cdt u, Sorted Z.le cdt ->
  0 <= find_in_cdt cdt u <= Z.of_nat (length cdt) /\
  forall r, 0 <= r <= Z.of_nat (length cdt) ->
  (find_in_cdt cdt u = r <->
    (r = 0 \/ nth (Z.to_nat (r - 1)) cdt 0 < u) /\ (r = Z.of_nat (length cdt) \/ u <= nth (Z.to_nat r) cdt 0)).
Proof.
  intros cdt u Hs. unfold find_in_cdt. rewrite find_count. pose proof (filter_sorted cdt u Hs) as HF. cbn [Z.add].
  set (n := length (filter (fun c => c <? u) cdt)) in *.
  assert (Hn : (n <= length cdt)%nat).
  { unfold n. clear. induction cdt as [|c cdt IH]; [reflexivity|]. cbn. destruct (c <? u); cbn; lia. }
  split; [lia|]. intros r Hr. split.
  - intros <-. rewrite Nat2Z.id. split.
    + destruct (Nat.eq_dec n 0); [left; lia|right]. replace (Z.to_nat (Z.of_nat n - 1)) with (n - 1)%nat by lia. apply HF; lia.
    + destruct (Nat.eq_dec n (length cdt)); [left; lia|right]. destruct (Z.lt_ge_cases (nth n cdt 0) u) as [H|H]; [|exact H].
      apply HF in H; lia.
  - intros [[->|H1] [H2|H2]].
    + lia.
    + destruct n as [|n']; [reflexivity|]. exfalso. assert (nth 0 cdt 0 < u) by (apply HF; lia). change (Z.to_nat 0) with 0%nat in H2. lia.
    + destruct (Z.eq_dec r 0) as [->|]; [lia|]. apply HF in H1; lia.
    + destruct (Z.eq_dec r (Z.of_nat (length cdt))) as [E|E].
      * destruct (Z.eq_dec r 0); [|apply HF in H1; lia]. lia.
      * assert (~ nth (Z.to_nat r) cdt 0 < u) as H3 by lia. rewrite <- HF in H3 by lia.
        destruct (Z.eq_dec r 0); [lia|]. apply HF in H1; lia.
Qed.

(** ** Base samples *)
Lemma base_bounds cdt b u : length cdt = (2 * b + 1)%nat -> - Z.of_nat b <= base_value cdt u <= Z.of_nat b + 1.
Proof.
  intros H. unfold base_value. rewrite H.
  assert (Hn : (length (filter (fun c => (c <? u mod 2 ^ 63)%Z) cdt) <= 2 * b + 1)%nat).
  { rewrite <- H. clear. induction cdt as [|c cdt IH]; [reflexivity|]. cbn [filter]. destruct (c <? u mod 2 ^ 63); cbn [length]; lia. }
  replace ((2 * b + 1) / 2)%nat with b by (apply Nat.div_unique with 1%nat; lia). lia.
Qed.

Section Thm.
Variable D : fops.
Variable R : prng.
Variable k : Z.
Hypothesis Hk : word_size k.
Variable g : sampler D.

Lemma k_pos : 0 < k. Proof. destruct Hk as [->|[->|[->| ->]]]; lia. Qed.

Lemma base_is s : sample_base D R k g s = do! ' (u, s) <- pr_rand64 R s; Ok (wrap k (base_value (g_cdt g) u), s).
Proof.
  unfold sample_base. destruct (pr_rand64 R s) as [[u s']| |]; try reflexivity. cbn [bind].
  unfold find_in_cdt. rewrite find_count, wrap_sub_l, wrap_sub_r. unfold base_value. rewrite Z.add_0_l. do 2 f_equal. f_equal.
  change (2 ^ 63 - 1) with (Z.ones 63). rewrite Z.land_ones by lia. rewrite Nat2Z.inj_div. reflexivity.
Qed.


(** ** The recursion tree over a vector of base samples *)
Variables w v : nat -> Z.
Fixpoint tree (l : nat) (xs : list Z) (off : nat) : Z :=
  match l with O => nth off xs 0 | S l => w l * tree l xs off + v l * tree l xs (off + 2 ^ l) end.

Lemma tree_app_l l : forall xs ys off, (off + 2 ^ l <= length xs)%nat -> tree l (xs ++ ys) off = tree l xs off.
Proof.
  induction l as [|l IH]; intros xs ys off H; cbn [tree Nat.pow] in *.
  - apply app_nth1. lia.
  - rewrite !IH by lia. reflexivity.
Qed.
Lemma tree_app_r l : forall xs ys off, tree l (xs ++ ys) (length xs + off) = tree l ys off.
Proof.
  induction l as [|l IH]; intros xs ys off; cbn [tree].
  - rewrite app_nth2 by lia. f_equal. lia.
  - rewrite IH. rewrite <- Nat.add_assoc, IH. reflexivity.
Qed.

(** drawing over the integers *)
Fixpoint draw (n : nat) (s : pr_st R) : result (list Z * pr_st R) :=
  match n with
  | O => Ok ([], s)
  | S n => do! ' (u, s) <- pr_rand64 R s; do! ' (xs, s) <- draw n s; Ok (base_value (g_cdt g) u :: xs, s)
  end.

Lemma draw_app m n : forall s, draw (m + n) s = do! ' (xs, s) <- draw m s; do! ' (ys, s) <- draw n s; Ok (xs ++ ys, s).
Proof.
  induction m as [|m IH]; intros s; cbn [draw plus bind].
  - destruct (draw n s) as [[? ?]| |]; reflexivity.
  - destruct (pr_rand64 R s) as [[u s1]| |]; try reflexivity. cbn [bind]. rewrite IH.
    destruct (draw m s1) as [[xs s2]| |]; try reflexivity. cbn [bind]. destruct (draw n s2) as [[ys s3]| |]; reflexivity.
Qed.

Lemma draw_len n : forall s xs s', draw n s = Ok (xs, s') -> length xs = n.
Proof.
  induction n as [|n IH]; intros s xs s' E; cbn [draw] in E; [injection E as <- <-; reflexivity|].
  destruct (pr_rand64 R s) as [[u s1]| |]; try discriminate. cbn [bind] in E.
  destruct (draw n s1) as [[ys s2]| |] eqn:E2; try discriminate. cbn [bind] in E. injection E as <- <-. cbn. f_equal. eauto.
Qed.

Lemma sampleI_tree i : forall s, sampleI R (g_cdt g) w v i s = do! ' (xs, s) <- draw (2 ^ i) s; Ok (tree i xs 0, s).
Proof.
  induction i as [|i IH]; intros s; cbn [sampleI].
  - cbn [Nat.pow draw]. destruct (pr_rand64 R s) as [[u s1]| |]; reflexivity.
  - replace (2 ^ S i)%nat with (2 ^ i + 2 ^ i)%nat by (cbn; lia). rewrite draw_app, IH. destruct (draw (2 ^ i) s) as [[xs s1]| |] eqn:E1; try reflexivity. cbn [bind].
    rewrite IH. destruct (draw (2 ^ i) s1) as [[ys s2]| |] eqn:E2; try reflexivity. cbn [bind tree]. do 2 f_equal.
    pose proof (draw_len _ _ _ _ E1) as L1. rewrite tree_app_l by lia. cbn [plus].
    pose proof (tree_app_r i xs ys 0) as HR. rewrite Nat.add_0_r, L1 in HR. rewrite HR. reflexivity.
Qed.

Lemma draw_base_is n : forall s, draw_base D R k n g s = do! ' (xs, s) <- draw n s; Ok (map (wrap k) xs, s).
Proof.
  induction n as [|n IH]; intros s; cbn [draw_base draw]; [reflexivity|]. rewrite base_is.
  destruct (pr_rand64 R s) as [[u s1]| |]; try reflexivity. cbn [bind]. rewrite IH.
  destruct (draw n s1) as [[xs s2]| |]; reflexivity.
Qed.

(** ** The passes *)
Lemma upd_length {A} (l : list A) i x : length (upd l i x) = length l.
Proof. revert i. induction l; destruct i; cbn; auto. Qed.
Lemma nth_upd (l : list Z) i j x : (i < length l)%nat -> nth j (upd l i x) 0 = if (j =? i)%nat then x else nth j l 0.
Proof.
  revert i j. induction l as [|y l IH]; intros i j H; [cbn in H; lia|].
  destruct i, j; cbn; try reflexivity. apply IH. cbn in H. lia.
Qed.
Lemma get_nth (l : list Z) i : (i < length l)%nat -> get l i = Ok (nth i l 0).
Proof. intros H. unfold get. rewrite (nth_error_nth' l 0 H). reflexivity. Qed.

Lemma comb_ok gap wl vl : (0 < gap)%nat -> forall cnt j l, (j + cnt * (2 * gap) <= length l)%nat ->
  (k <> 16 -> exists l', comb_loop k cnt j gap wl vl l = Ok l') /\
  forall l', comb_loop k cnt j gap wl vl l = Ok l' -> length l' = length l /\
    (forall a, (a < cnt)%nat -> nth (j + a * (2 * gap)) l' 0 = wrap k (wl * nth (j + a * (2 * gap)) l 0 + vl * nth (j + a * (2 * gap) + gap) l 0)).
Proof.
  intros Hg. induction cnt as [|cnt IH]; intros j l Hl; cbn [comb_loop].
  - split; [eauto|]. intros l' E. injection E as <-. split; [reflexivity|]. intros; lia.
  - rewrite !get_nth by lia. cbn [bind]. unfold mul_int.
    set (y := wrap k (wrap k (wl * nth j l 0) + wrap k (vl * nth (j + gap) l 0))).
    destruct (IH (j + 2 * gap)%nat (upd l j y)) as [T V]; [rewrite upd_length; lia|]. split.
    + intros H16. rewrite (proj2 (Z.eqb_neq k 16) H16). cbn [andb bind]. exact (T H16).
    + intros l' E. destruct (_ && _); [discriminate|]. cbn [bind] in E. destruct (_ && _); [discriminate|]. cbn [bind] in E.
      destruct (V l' E) as [L1 L2]. rewrite upd_length in L1. split; [exact L1|].
      assert (Keep : forall cnt0 j0 l0 l1 x, (x < j0)%nat -> (j0 + cnt0 * (2 * gap) <= length l0)%nat -> comb_loop k cnt0 j0 gap wl vl l0 = Ok l1 -> nth x l1 0 = nth x l0 0).
      { clear -Hg. induction cnt0 as [|c IHc]; intros j0 l0 l1 x Hx Hl E; cbn [comb_loop] in E; [injection E as <-; reflexivity|].
        rewrite !get_nth in E by lia. cbn [bind] in E. unfold mul_int in E. destruct (_ && _); [discriminate|]. cbn [bind] in E.
        destruct (_ && _); [discriminate|]. cbn [bind] in E. pose proof (fun A B => IHc _ _ _ x A B E) as HK. rewrite HK by (rewrite ?upd_length; lia).
        rewrite nth_upd by lia. destruct (Nat.eqb_spec x j0); [lia|reflexivity]. }
      intros a Ha. destruct a as [|a].
      * replace (j + 0 * (2 * gap))%nat with j by lia.
        pose proof (fun A B => Keep _ _ _ _ j A B E) as HK. rewrite HK by (rewrite ?upd_length; lia). rewrite nth_upd, Nat.eqb_refl by lia. unfold y. rewrite wrap_add_l, wrap_add_r. reflexivity.
      * replace (j + S a * (2 * gap))%nat with (j + 2 * gap + a * (2 * gap))%nat by lia. rewrite L2 by lia.
        rewrite !nth_upd by lia. destruct (Nat.eqb_spec (j + 2 * gap + a * (2 * gap)) j); [lia|].
        destruct (Nat.eqb_spec (j + 2 * gap + a * (2 * gap) + gap) j); [lia|]. reflexivity.
Qed.

Lemma wrap_lin a b x y x' y' : wrap k x = wrap k x' -> wrap k y = wrap k y' -> wrap k (a * x + b * y) = wrap k (a * x' + b * y').
Proof.
  intros H1 H2. rewrite <- (wrap_add_l k (a * x)), <- (wrap_mul_r k a x), H1, wrap_mul_r, wrap_add_l.
  rewrite <- (wrap_add_r k _ (b * y)), <- (wrap_mul_r k b y), H2, wrap_mul_r, wrap_add_r. reflexivity.
Qed.

Lemma level_ok xs i : weights D k (g_s_base g) w v i -> forall n lvl l, (n + lvl = i)%nat -> length l = (2 ^ i)%nat ->
  (forall a, (a < 2 ^ n)%nat -> wrap k (nth (a * 2 ^ lvl) l 0) = wrap k (tree lvl xs (a * 2 ^ lvl))) ->
  (k <> 16 -> exists r, level_loop D k n lvl i (s_at D (g_s_base g) lvl) l = Ok r) /\
  forall l' sd, level_loop D k n lvl i (s_at D (g_s_base g) lvl) l = Ok (l', sd) ->
    length l' = length l /\ sd = s_at D (g_s_base g) i /\ wrap k (nth 0 l' 0) = wrap k (tree i xs 0) /\ ((0 < n)%nat -> nth 0 l' 0 = wrap k (nth 0 l' 0)).
Proof.
  intros W. induction n as [|n IH]; intros lvl l Hn Hl Hinv; cbn [level_loop].
  - split; [eauto|]. intros l' sd E. injection E as <- <-. cbn in Hn. subst lvl. split; [reflexivity|]. split; [reflexivity|].
    split; [|lia]. specialize (Hinv 0%nat ltac:(cbn; lia)). cbn [Nat.mul] in Hinv. exact Hinv.
  - destruct (W lvl ltac:(lia)) as [Ew Ev]. rewrite Ew, Ev. cbn [bind].
    assert (P : (2 ^ i = 2 ^ n * (2 * 2 ^ lvl))%nat).
    { replace (2 * 2 ^ lvl)%nat with (2 ^ S lvl)%nat by reflexivity. rewrite <- Nat.pow_add_r. f_equal. lia. }
    replace (i - S lvl)%nat with n by lia.
    destruct (comb_ok (2 ^ lvl) (w lvl) (v lvl) ltac:(apply Nat.neq_0_lt_0, Nat.pow_nonzero; lia) (2 ^ n) 0 l ltac:(lia)) as [T V].
    assert (Step : forall l', comb_loop k (2 ^ n) 0 (2 ^ lvl) (w lvl) (v lvl) l = Ok l' -> length l' = (2 ^ i)%nat /\
      (forall a, (a < 2 ^ n)%nat -> nth (a * 2 ^ S lvl) l' 0 = wrap k (tree (S lvl) xs (a * 2 ^ S lvl)))).
    { intros l' E. destruct (V l' E) as [L1 L2]. split; [lia|]. intros a Ha. specialize (L2 a Ha). cbn [plus] in L2.
      replace (2 ^ S lvl)%nat with (2 * 2 ^ lvl)%nat by reflexivity. rewrite L2. cbn [tree]. apply wrap_lin.
      - pose proof (Hinv (2 * a)%nat ltac:(cbn [Nat.pow]; lia)) as H1. replace (2 * a * 2 ^ lvl)%nat with (a * (2 * 2 ^ lvl))%nat in H1 by lia. exact H1.
      - pose proof (Hinv (2 * a + 1)%nat ltac:(cbn [Nat.pow]; lia)) as H1. replace ((2 * a + 1) * 2 ^ lvl)%nat with (a * (2 * 2 ^ lvl) + 2 ^ lvl)%nat in H1 by lia. exact H1. }
    change (level_next D (s_at D (g_s_base g) lvl)) with (s_at D (g_s_base g) (S lvl)).
    split.
    + intros H16. destruct (T H16) as [l' E]. rewrite E. cbn [bind]. destruct (Step l' E) as [S1 S2].
      apply (IH (S lvl) l' ltac:(lia) S1); [|exact H16]. intros a Ha. rewrite (S2 a Ha), wrap_wrap. reflexivity.
    + intros l' sd E. destruct (comb_loop _ _ _ _ _ _ _) as [l1| |] eqn:E1; try discriminate. cbn [bind] in E. destruct (Step l1 eq_refl) as [S1 S2].
      destruct (IH (S lvl) l1 ltac:(lia) S1) as [_ H].
      { intros a Ha. rewrite (S2 a Ha), wrap_wrap. reflexivity. }
      destruct (H l' sd E) as (A1 & A2 & A3 & A4). split; [lia|]. split; [exact A2|]. split; [exact A3|]. intros _.
      destruct n as [|n]; [|apply A4; lia]. cbn [level_loop] in E. injection E as <- <-. specialize (S2 0%nat ltac:(cbn; lia)). cbn [Nat.mul] in S2.
      rewrite S2. rewrite wrap_wrap. reflexivity.
Qed.

Lemma tree_map_wrap xs : forall a, (a < length xs)%nat -> wrap k (nth (a * 2 ^ 0) (map (wrap k) xs) 0) = wrap k (tree 0 xs (a * 2 ^ 0)).
Proof.
  intros a Ha. replace (a * 2 ^ 0)%nat with a by (cbn; lia). cbn [tree].
  rewrite (nth_indep _ 0 (wrap k 0)) by (rewrite map_length; exact Ha). rewrite map_nth. apply wrap_wrap.
Qed.
End Thm.

(** SampleIIterative computes SampleI: same draws in the same order, same
    combination, reduced modulo 2^k; for 16-bit integers the products may
    overflow int, so there only results are characterised. *)
Theorem C42_recursion :
  forall D R k (g : sampler D) (w v : nat -> Z) i s, word_size k -> weights D k (g_s_base g) w v i ->
  (forall x sd s', sample_i D R k g (Z.of_nat i) s = Ok (x, sd, s') ->
     exists X, sampleI R (g_cdt g) w v i s = Ok (X, s') /\ x = X mod 2 ^ k /\ sd = s_at D (g_s_base g) i) /\
  (k <> 16 -> (i < 31)%nat ->
     match sampleI R (g_cdt g) w v i s with
     | Ok (X, s') => sample_i D R k g (Z.of_nat i) s = Ok (X mod 2 ^ k, s_at D (g_s_base g) i, s')
     | Err e => sample_i D R k g (Z.of_nat i) s = Err e
     | UB => sample_i D R k g (Z.of_nat i) s = UB
     end).
Proof.
  intros D R k g w v i s Hk W. rewrite (sampleI_tree D R g w v). unfold sample_i. destruct (Z.ltb_spec (Z.of_nat i) 0); [lia|].
  destruct (Z.eqb_spec (Z.of_nat i) 0) as [E0|E0].
  - assert (i = 0)%nat by lia. subst i. cbn [Nat.pow draw]. rewrite (base_is D R k g). split.
    + intros x sd s' E. destruct (pr_rand64 R s) as [[u s1]| |]; try discriminate. cbn [bind] in E |- *. injection E as <- <- <-. eauto.
    + intros _ _. destruct (pr_rand64 R s) as [[u s1]| |]; reflexivity.
  - rewrite Nat2Z.id, (draw_base_is D R k g).
    assert (Main : forall xs s1, draw D R g (2 ^ i) s = Ok (xs, s1) ->
      (k <> 16 -> exists r, level_loop D k i 0 i (g_s_base g) (map (wrap k) xs) = Ok r) /\
      forall l' sd, level_loop D k i 0 i (g_s_base g) (map (wrap k) xs) = Ok (l', sd) ->
        sd = s_at D (g_s_base g) i /\ get l' 0 = Ok (wrap k (tree w v i xs 0))).
    { intros xs s1 Ed. pose proof (draw_len D R g _ _ _ _ Ed) as Lx.
      destruct (level_ok D k g w v xs i W i 0 (map (wrap k) xs) ltac:(lia) ltac:(rewrite map_length; exact Lx)) as [T V].
      { rewrite <- Lx. apply tree_map_wrap. }
      split; [exact T|]. intros l' sd E. destruct (V l' sd E) as (A1 & A2 & A3 & A4). split; [exact A2|].
      rewrite map_length, Lx in A1. rewrite get_nth by (rewrite A1; apply Nat.neq_0_lt_0, Nat.pow_nonzero; lia).
      rewrite (A4 ltac:(lia)), A3. reflexivity. }
    split.
    + intros x sd s' E. destruct (31 <=? Z.of_nat i); [discriminate|]. destruct (draw D R g (2 ^ i) s) as [[xs s1]| |]; try discriminate. cbn [bind] in *.
      destruct (Main xs s1 eq_refl) as [_ V]. destruct (level_loop _ _ _ _ _ _ _) as [[l' sd']| |]; try discriminate. cbn [bind] in E.
      destruct (V l' sd' eq_refl) as [V1 V2]. rewrite V2 in E. cbn [bind] in E. injection E as <- <- <-. eexists. split; [reflexivity|]. split; [reflexivity|exact V1].
    + intros H16 Hi. rewrite (proj2 (Z.leb_gt 31 (Z.of_nat i))) by lia. destruct (draw D R g (2 ^ i) s) as [[xs s1]| |]; try reflexivity. cbn [bind].
      destruct (Main xs s1 eq_refl) as [T V]. destruct (T H16) as [[l' sd] E]. rewrite E. cbn [bind]. destruct (V l' sd E) as [V1 V2].
      rewrite V2, V1. reflexivity.
Qed.

(** a base sample lies in [-b, b + 1] for a table of 2b + 1 entries, and the
    result of depth i within the reach of that *)
Theorem C42_range :
  forall R cdt (w v : nat -> Z) b i s X s', length cdt = (2 * b + 1)%nat ->
  (forall l, (l < i)%nat -> 0 <= w l /\ 0 <= v l) ->
  sampleI R cdt w v i s = Ok (X, s') ->
  (i = 0%nat -> - Z.of_nat b <= X <= Z.of_nat b + 1) /\ Z.abs X <= reach (Z.of_nat b + 1) w v i.
Proof.
  intros R cdt w v b i s X s' Hl Hw E. split.
  - intros ->. cbn [sampleI] in E. destruct (pr_rand64 R s) as [[u s1]| |]; try discriminate. cbn [bind] in E. injection E as <- <-.
    exact (base_bounds cdt b u Hl).
  - revert s X s' Hw E. induction i as [|i IH]; intros s X s' Hw E; cbn [sampleI reach] in *.
    + destruct (pr_rand64 R s) as [[u s1]| |]; try discriminate. cbn [bind] in E. injection E as <- <-.
      pose proof (base_bounds cdt b u Hl) as Hb.
      lia.
    + destruct (sampleI R cdt w v i s) as [[x1 s1]| |] eqn:E1; try discriminate. cbn [bind] in E.
      destruct (sampleI R cdt w v i s1) as [[x2 s2]| |] eqn:E2; try discriminate. cbn [bind] in E. injection E as <- <-.
      assert (Hw' : forall l, (l < i)%nat -> 0 <= w l /\ 0 <= v l) by (intros; apply Hw; lia).
      pose proof (IH _ _ _ Hw' E1). pose proof (IH _ _ _ Hw' E2). destruct (Hw i ltac:(lia)) as [W1 W2].
      rewrite (Z.abs_triangle (w i * x1) (v i * x2)) || (eapply Z.le_trans; [apply Z.abs_triangle|]). rewrite !Z.abs_mul, (Z.abs_eq (w i)), (Z.abs_eq (v i)) by assumption. nia.
Qed.

(** when the type is wide enough the returned word, read as documented, is the
    integer itself *)
Theorem C42_signed :
  forall k X, word_size k -> 2 * Z.abs X < 2 ^ k -> read_signed k (X mod 2 ^ k) = X.
Proof.
  intros k X Hk H. unfold read_signed.
  assert (E : exists h, 2 ^ k = 2 * h /\ 0 < h) by (exists (2 ^ (k - 1)); rewrite <- (Z.pow_succ_r 2 (k - 1)) by (destruct Hk as [->|[->|[->| ->]]]; lia); split; [f_equal; lia|apply Z.pow_pos_nonneg; destruct Hk as [->|[->|[->| ->]]]; lia]).
  destruct E as (h & E & Hh). rewrite E in *. assert (Eh : (2 * h - 1) / 2 = h - 1) by (symmetry; apply Z.div_unique with 1; lia). rewrite Eh.
  destruct (Z.lt_ge_cases X 0).
  - rewrite <- (Z.mod_unique X (2 * h) (-1) (X + 2 * h)) by lia. destruct (Z.ltb_spec (h - 1) (X + 2 * h)); lia.
  - rewrite Z.mod_small by lia. destruct (Z.ltb_spec (h - 1) X); lia.
Qed.

(** Sample with n > 0 iterations: z X1 + (z - 1) X2 of two results of SampleI;
    with n = 0 a base sample. s below s_base and negative n are refused. *)
Theorem C42_sample :
  forall D R k (g : sampler D) (w v : nat -> Z) sd n s, word_size k -> weights D k (g_s_base g) w v (Z.to_nat n) ->
  (f_lt D sd (g_s_base g) = true \/ n < 0 -> sample_with_iterations D R k g sd n s = Err InvalidArgument) /\
  forall x s', sample_with_iterations D R k g sd n s = Ok (x, s') ->
    0 <= n /\
    (n = 0 -> exists X, sampleI R (g_cdt g) w v 0 s = Ok (X, s') /\ x = X mod 2 ^ k) /\
    (0 < n -> exists X1 X2 s1 z zi zj,
       sampleI R (g_cdt g) w v (Z.to_nat n) s = Ok (X1, s1) /\ sampleI R (g_cdt g) w v (Z.to_nat n) s1 = Ok (X2, s') /\
       f_to_unsigned D k z = Ok zi /\ f_to_unsigned D k (f_sub D z (f_of_Z D 1)) = Ok zj /\
       x = (zi * X1 + zj * X2) mod 2 ^ k).
Proof.
  intros D R k g w v sd n s Hk W. unfold sample_with_iterations. split.
  - intros [H|H]; [rewrite H; reflexivity|]. destruct (f_lt D sd (g_s_base g)); [reflexivity|].
    rewrite (proj2 (Z.ltb_lt n 0)) by lia. reflexivity.
  - intros x s' E. destruct (f_lt D sd (g_s_base g)); [discriminate|]. destruct (Z.ltb_spec n 0); [discriminate|]. split; [assumption|].
    destruct (Z.eqb_spec n 0) as [->|Hn]; (split; [intros|intros]); try lia.
    + rewrite (base_is D R k g) in E. cbn [sampleI]. destruct (pr_rand64 R s) as [[u s1]| |]; try discriminate. cbn [bind] in *. injection E as <- <-. eauto.
    + assert (En : n = Z.of_nat (Z.to_nat n)) by lia. rewrite En in E. rewrite Nat2Z.id in E || idtac.
      destruct (sample_i D R k g (Z.of_nat (Z.to_nat n)) s) as [[[x1 si] s1]| |] eqn:E1; try discriminate. cbn [bind] in E.
      destruct (sample_i D R k g (Z.of_nat (Z.to_nat n)) s1) as [[[x2 si2] s2]| |] eqn:E2; try discriminate. cbn [bind] in E.
      destruct (proj1 (C42_recursion D R k g w v _ s Hk W) _ _ _ E1) as (X1 & F1 & G1 & _).
      destruct (proj1 (C42_recursion D R k g w v _ s1 Hk W) _ _ _ E2) as (X2 & F2 & G2 & _).
      match type of E with (do! _ <- f_to_unsigned D k ?z; _) = _ => set (zz := z) in * end.
      destruct (f_to_unsigned D k zz) as [zi| |] eqn:Ez; try discriminate. cbn [bind] in E.
      destruct (f_to_unsigned D k (f_sub D zz (f_of_Z D 1))) as [zj| |] eqn:Ezj; try discriminate. cbn [bind] in E.
      unfold mul_int in E. destruct (_ && _); [discriminate|]. cbn [bind] in E. destruct (_ && _); [discriminate|]. cbn [bind] in E.
      injection E as <- <-. exists X1, X2, s1, zz, zi, zj. split; [exact F1|]. split; [exact F2|]. split; [exact Ez|]. split; [exact Ezj|].
      rewrite wrap_add_l, wrap_add_r. rewrite G1, G2. apply (wrap_lin k); unfold wrap; apply Z.mod_mod, Z.pow_nonzero; destruct Hk as [->|[->|[->| ->]]]; lia.
Qed.

(** NumIterations: the largest i with s_0, ..., s_i all at most s. If s is not
    comparable (NaN) the answer is -1, which SampleWithIterations refuses. *)
Theorem C42_iterations :
  forall D (g : sampler D) fuel s n,
  (f_lt D s (g_s_base g) = true -> num_iterations D fuel g s = Err InvalidArgument) /\
  (num_iterations D fuel g s = Ok n ->
     -1 <= n < 2 ^ 31 - 1 /\ (forall i, Z.of_nat i <= n -> f_le D (s_at D (g_s_base g) i) s = true) /\
     f_le D (s_at D (g_s_base g) (Z.to_nat (n + 1))) s = false).
Proof.
  intros D g fuel s n. unfold num_iterations. split; [intros ->; reflexivity|].
  destruct (f_lt D s (g_s_base g)); [discriminate|].
  assert (G : forall fuel i, Z.of_nat i <= 2 ^ 31 - 1 -> (forall j, (j < i)%nat -> f_le D (s_at D (g_s_base g) j) s = true) ->
    num_loop D fuel s (s_at D (g_s_base g) i) (Z.of_nat i) = Ok n ->
    -1 <= n < 2 ^ 31 - 1 /\ (forall i, Z.of_nat i <= n -> f_le D (s_at D (g_s_base g) i) s = true) /\
    f_le D (s_at D (g_s_base g) (Z.to_nat (n + 1))) s = false).
  { clear fuel. induction fuel as [|fuel IH]; intros i Hi Hall E; cbn [num_loop] in E; [discriminate|].
    destruct (f_le D (s_at D (g_s_base g) i) s) eqn:El.
    - destruct (Z.eqb_spec (Z.of_nat i) (2 ^ 31 - 1)); [discriminate|].
      apply (IH (S i)); [lia| |].
      + intros j Hj. destruct (Nat.eq_dec j i) as [->|]; [exact El|apply Hall; lia].
      + rewrite Nat2Z.inj_succ. exact E.
    - injection E as <-. split; [lia|]. split; [intros j Hj; apply Hall; lia|].
      replace (Z.to_nat (Z.of_nat i - 1 + 1)) with i by lia. exact El. }
  intros E. apply (G fuel 0%nat); [lia|intros; lia|exact E].
Qed.

(** Create makes a table of odd length *)
Theorem C42_create :
  forall D scale s_base g, g_create D scale s_base = Ok g ->
  g_s_base g = s_base /\ f_lt D s_base (f_mul D (f_sqrt D (f_of_Z D 2)) (f_smoothing D)) = false /\
  exists cut, f_to_int D (f_mul D (f_of_Z D 8) (f_ceil D s_base)) = Ok cut /\
    (0 <= cut -> length (g_cdt g) = (2 * Z.to_nat cut + 1)%nat).
Proof.
  intros D scale s_base g. unfold g_create. destruct (f_lt D s_base _) eqn:El; [discriminate|].
  destruct (f_to_int D _) as [cut| |]; try discriminate. cbn [bind]. intros E. destruct (2 ^ 31 <=? 2 * cut + 1); [discriminate|].
  destruct (seqr _) as [cdt| |] eqn:Es; try discriminate. cbn [bind] in E. injection E as <-. cbn [g_s_base g_cdt].
  split; [reflexivity|]. split; [reflexivity|]. exists cut. split; [reflexivity|]. intros Hc.
  assert (L : forall (A : Type) (l : list (result A)) r, seqr l = Ok r -> length r = length l).
  { clear. intros A l. induction l as [|x l IH]; intros r E; cbn [seqr] in E; [injection E as <-; reflexivity|].
    destruct x; try discriminate. cbn [bind] in E. destruct (seqr l) as [t| |]; try discriminate. cbn [bind] in E. injection E as <-. cbn. f_equal. auto. }
  rewrite (L _ _ _ Es), map_length.
  assert (LC : forall ps, length (cdf_of D ps) = length ps).
  { clear. intros [|p ps]; [reflexivity|]. cbn. f_equal. generalize p. clear p. induction ps as [|q ps IH]; intros p; [reflexivity|]. cbn. f_equal. apply IH. }
  rewrite LC, !map_length, seq_length. lia.
Qed.

(** ** Examples, with integers in place of doubles (z_l = s_l / 2) *)
Definition dz : fops := {| F := Z; f_lt := Z.ltb; f_le := Z.leb; f_add := Z.add; f_sub := Z.sub; f_mul := Z.mul; f_div := Z.div;
  f_sqrt := Z.sqrt; f_floor := id; f_ceil := id; f_max := Z.max; f_exp := id; f_of_Z := id; f_smoothing := 2; f_pi := 3;
  f_to_unsigned := fun k x => if (0 <=? x) && (x <? 2 ^ k) then Ok x else UB; f_to_int := Ok |}.
Definition gz : sampler dz := @Build_sampler dz 9 [2 ^ 60; 2 ^ 61; 2 ^ 62; 2 ^ 62 + 2 ^ 61; 2 ^ 63 - 2 ^ 60].
Definition lcg : prng := {| pr_st := Z; pr_rand8 := fun s => Ok (s mod 2 ^ 8, (s * 6364136223846793005 + 1442695040888963407) mod 2 ^ 64);
  pr_rand64 := fun s => Ok (s, (s * 6364136223846793005 + 1442695040888963407) mod 2 ^ 64) |}.

Definition wz (l : nat) : Z := match l with O => 4 | _ => 22 end.
Definition vz (l : nat) : Z := match l with O => 3 | _ => 21 end.
Example C42_weights_example : weights dz 32 (g_s_base gz) wz vz 2.
Proof. intros [|[|l]] H; [split; vm_compute; reflexivity|split; vm_compute; reflexivity|lia]. Qed.
Example C42_example :
  Sorted Z.le (g_cdt gz) /\
  sampleI lcg (g_cdt gz) wz vz 2 10 = Ok (- 434, 4015636148853147230) /\
  sample_i dz lcg 32 gz 2 10 = Ok (2 ^ 32 - 434, 1350, 4015636148853147230) /\ read_signed 32 (2 ^ 32 - 434) = - 434.
Proof. split; [repeat constructor; lia|]. vm_compute. repeat split. Qed.
Example C42_base_example : (* the asymmetric end of the range is reached *)
  base_value (g_cdt gz) (2 ^ 63 - 1) = 3 /\ base_value (g_cdt gz) 0 = -2.
Proof. split; vm_compute; reflexivity. Qed.

Print Assumptions C42_lookup.
Print Assumptions C42_recursion.
Print Assumptions C42_range.
Print Assumptions C42_signed.
Print Assumptions C42_sample.
Print Assumptions C42_iterations.
Print Assumptions C42_create.
