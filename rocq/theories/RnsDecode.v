(** BGV coefficient encoding and decoding. *)
From Coq Require Import Setoid Ring Znumtheory.
From Verif Require Import Base FinSum PolySpec Ring NegRing Montgomery MontBatch MontBatchProofs Spec PolyExt ThmPolyExt
  RnsPoly RnsSpec CrtMath RnsSub RnsProofs RnsReduce RnsBasis RnsBasis2 RnsMore RnsCtx RnsCtxSpec RnsCtxProofs RnsCtxFacts RnsCrt ThmRnsCtx ThmRns RnsEncode RnsEncodeSpec RnsKeySpec RnsKeyProofs.

Lemma firstn_last {A} (l : list A) i x : nth_error l i = Some x -> firstn (S i) l = firstn i l ++ [x].
Proof.
  revert i. induction l as [|a l IH]; intros [|i] H; cbn in *; try discriminate; [congruence|]. f_equal. apply IH, H.
Qed.
Lemma tl_app {A} (l : list A) x : l <> [] -> tl (l ++ [x]) = tl l ++ [x].
Proof. destruct l; [contradiction|reflexivity]. Qed.

Lemma create_subs L ms vs ntt f : ms <> [] -> Forall2 (fun m v => sub_is m L ntt v f) ms vs -> is_rns ms L ntt (rns_create vs ntt) f.
Proof.
  intros NE H. exists {| rp_logn := L; rp_vs := vs; rp_ntt := ntt |}. split; [|split; [reflexivity|split; [reflexivity|exact H]]].
  apply create_iff. exists L. split; [intros ->; inversion H; subst; contradiction|]. split; [|reflexivity].
  clear NE. induction H as [|m v ms vs Hv H IH]; constructor; [apply Hv|exact IH].
Qed.

Section Ctx.
Variables (k log_n t : Z) (qs ps : list Z) (c : rctx).
Hypothesis A : ctx_args k qs ps t.
Hypothesis M : ctx_made k log_n qs ps t c.
Local Notation L := (Z.to_nat log_n).
Local Notation n := (2 ^ L)%nat.

Lemma ctx_t : rc_t c = t /\ 1 < t < 2 ^ k.
Proof. split; [apply (made_ok _ _ _ _ _ _ A M)|apply A]. Qed.
Lemma ctx_qs_ok : moduli_ok k L (rc_qs c) /\ moduli (rc_qs c) = qs /\ distinct (rc_qs c).
Proof.
  destruct (made_ok _ _ _ _ _ _ A M) as (_ & _ & _ & Mq & _ & Oq & _ & D & _). split; [exact Oq|]. split; [exact Mq|].
  unfold distinct, moduli in *. rewrite map_app in D. apply nodup_app2 in D. apply D.
Qed.
Lemma ctx_len : length (rc_qs c) = length qs.
Proof. destruct ctx_qs_ok as (_ & <- & _). unfold moduli. symmetry. apply map_length. Qed.
Lemma level_ok l : moduli_ok k L (at_level c l).
Proof. unfold at_level. apply Forall_forall. intros m I. apply (moduli_in _ _ _ _ (proj1 ctx_qs_ok)). rewrite <- (firstn_skipn (S l)). apply in_or_app. left. exact I. Qed.
Lemma level_ne l : (l < length qs)%nat -> at_level c l <> [].
Proof. intros H E. apply (f_equal (@length _)) in E. unfold at_level in E. rewrite firstn_length, ctx_len in E. cbn [length] in E. lia. Qed.
Lemma level_moduli l : moduli (at_level c l) = firstn (S l) qs.
Proof. unfold at_level, moduli. rewrite <- firstn_map. fold (moduli (rc_qs c)). rewrite (proj1 (proj2 ctx_qs_ok)). reflexivity. Qed.

Lemma level_distinct l : distinct (at_level c l).
Proof.
  destruct ctx_qs_ok as (_ & _ & D). unfold distinct in *. rewrite <- (firstn_skipn (S l) (rc_qs c)) in D. unfold moduli in *. rewrite map_app in D.
  apply nodup_app2 in D. apply D.
Qed.

Lemma reduce_ok l l0 a w B : (l <= l0)%nat -> (l0 < length qs)%nat -> (forall q, In q qs -> Z.gcd q t = 1) ->
  rns_is (at_level c l) L false a w -> 0 <= B -> bounded n B w ->
  exists a' g, reduce_to_one c (at_level c l0) l a = Ok a' /\ rns_is (at_level c 0) L false a' g /\
    bounded n (residual_bound t (rev (tl (firstn (S l) qs))) B) g /\ forall i, (i < n)%nat -> (t | g i - w i).
Proof.
  intros Hl H0 G. destruct ctx_t as [Et Ht]. revert Hl a w B. induction l as [|l IH]; intros Hl a w B Ha HB Hw; cbn [reduce_to_one].
  - exists a, w. split; [reflexivity|]. split; [exact Ha|]. split; [|intros i _; exists 0; ring].
    destruct qs; cbn [firstn tl rev residual_bound]; exact Hw.
  - destruct (C49_levels k log_n qs ps t c (S l) A M ltac:(lia)) as (_ & _ & _ & _ & m & z & inv & Em & Ez & Ei & HI).
    rewrite Ez. cbn [bind]. rewrite Ei. cbn [bind].
    assert (EL : at_level c (S l) = at_level c l ++ [m]) by (apply firstn_last, Em).
    assert (EF : firstn (S (S l)) (at_level c l0) = at_level c l ++ [m]).
    { unfold at_level at 1. rewrite firstn_firstn, Nat.min_l by lia. exact EL. }
    assert (Im : In m (rc_qs c)) by (eapply nth_error_In, Em).
    assert (Om : mod_ok k L m) by (apply (moduli_in _ _ _ _ (proj1 ctx_qs_ok) Im)). pose proof (ok_q k L m Om) as Q1.
    assert (Iq : In (modulus m) qs) by (rewrite <- (proj1 (proj2 ctx_qs_ok)); apply in_map, Im).
    rewrite EL in Ha. rewrite EF.
    destruct (C53_mod_reduce_lsb k L (at_level c l) m false a w inv t (level_ok l) Om (level_ne l ltac:(lia)) HI Ha ltac:(lia))
      as (g & (b & Eb & Hb) & Hg).
    rewrite Et, Eb. cbn [bind].
    set (q := modulus m) in *.
    pose proof (Z.mod_pos_bound q t ltac:(lia)) as R. set (r := q mod t) in *.
    set (B' := (r * B + t * ((q - 1) / 2)) / q).
    assert (H1 : 0 <= (q - 1) / 2) by (apply Z.div_pos; lia).
    assert (HB' : 0 <= B') by (apply Z.div_pos; [nia|lia]).
    assert (Hg' : bounded n B' g).
    { intros i Hi. destruct (Hg i Hi) as (Eg & _ & _). specialize (Hw i Hi). set (d := centered q (q / t * w i)) in *.
      assert (Bd : Z.abs d <= (q - 1) / 2).
      { pose proof (centered_fits q (q / t * w i) ltac:(lia)) as F. fold d in F. unfold fits in F.
        assert (OD : q mod 2 = 1) by (apply (MontgomeryProofs.g_odd _ (ok_good k L m Om))).
        pose proof (Z_div_mod_eq_full q 2) as Ey. rewrite OD in Ey.
        assert (EY : (q - 1) / 2 = q / 2) by (rewrite Ey at 1; replace (2 * (q / 2) + 1 - 1) with (q / 2 * 2) by ring; apply Z.div_mul; lia). lia. }
      apply Z.div_le_lower_bound; [lia|]. replace (q * Z.abs (g i)) with (Z.abs (q * g i)) by (rewrite Z.abs_mul, (Z.abs_eq q) by lia; reflexivity). rewrite Eg.
      pose proof (Z.abs_triangle (r * w i) (t * d)) as T. rewrite !Z.abs_mul, (Z.abs_eq r), (Z.abs_eq t) in T by lia.
      pose proof (Z.mul_le_mono_nonneg_l _ _ r ltac:(lia) Hw). pose proof (Z.mul_le_mono_nonneg_l _ _ t ltac:(lia) Bd). lia. }
    destruct (IH ltac:(lia) b g B' Hb HB' Hg') as (a' & h & Ea & Ha' & Bh & Ch).
    exists a', h. split; [exact Ea|]. split; [exact Ha'|]. split.
    + assert (ER : rev (tl (firstn (S (S l)) qs)) = q :: rev (tl (firstn (S l) qs))).
      { assert (E2 : nth_error qs (S l) = Some q).
        { rewrite <- (proj1 (proj2 ctx_qs_ok)). unfold moduli. rewrite nth_error_map, Em. reflexivity. }
        rewrite (firstn_last _ _ _ E2). rewrite tl_app; [apply rev_unit|].
        intros E. apply (f_equal (@length _)) in E. rewrite firstn_length in E. cbn [length] in E. lia. }
      rewrite ER. exact Bh.
    + intros i Hi. destruct (Hg i Hi) as (_ & Cg & _). specialize (Cg (G _ Iq)). apply Z.mod_divide in Cg; [|lia].
      replace (h i - w i) with ((h i - g i) + (g i - w i)) by ring. apply Z.divide_add_r; [apply Ch, Hi|exact Cg].
Qed.
Lemma ctx_logn : rc_logn c = Z.of_nat L /\ rc_logn c = log_n.
Proof. destruct (made_ok _ _ _ _ _ _ A M) as (E & P & _). rewrite E. split; lia. Qed.

Lemma ctx_shl : (0 < length qs)%nat -> shl_int (rc_logn c) = Ok n.
Proof. intros H. rewrite (proj1 ctx_logn). apply (shl_int_ok k L (at_level c 0) (level_ok 0) (level_ne 0 H)). Qed.

Lemma level_get l : (l < length qs)%nat -> exists m0, get (at_level c l) 0 = Ok m0 /\ at_level c 0 = [m0] /\ In m0 (rc_qs c) /\ Some (modulus m0) = hd_error qs.
Proof.
  intros H. pose proof ctx_len as E. pose proof (proj1 (proj2 ctx_qs_ok)) as EM. unfold at_level.
  destruct (rc_qs c) as [|m0 rest]; [cbn in E; lia|]. exists m0.
  split; [reflexivity|]. split; [reflexivity|]. split; [left; reflexivity|]. rewrite <- EM. reflexivity.
Qed.

Lemma decode_ok l ntt a w B : (l < length qs)%nat -> (forall q, In q qs -> Z.gcd q t = 1) ->
  rns_is (at_level c l) L ntt a w -> bounded n B w -> bgv_decodable t (firstn (S l) qs) B ->
  coeff_decode_bgv c a (at_level c l) = Ok (map (fun i => w i mod t) (seq 0 n)).
Proof.
  intros Hl G Ha Hw HD. destruct ctx_t as [Et Ht]. unfold coeff_decode_bgv.
  pose proof (rns_len _ _ _ _ _ Ha) as La. rewrite same_len_eq by exact La.
  assert (HC : is_rns (at_level c l) L false (if rp_ntt a then rns_to_coeff a (at_level c l) else Ok a) w).
  { rewrite (proj1 (proj2 Ha)). destruct ntt; [apply (rns_to_coeff_is k L _ (level_ok l) a w Ha)|exists a; auto]. }
  destruct HC as (b & Eb & Hb). rewrite Eb. cbn [bind].
  assert (HB : 0 <= B). { pose proof (NttMath.pow2_gt0 L) as P. specialize (Hw 0%nat P). lia. }
  pose proof (rns_len _ _ _ _ _ Hb) as Lb.
  assert (LL : length (at_level c l) = S l) by (unfold at_level; rewrite firstn_length, ctx_len; lia).
  replace (length (rp_vs b) - 1)%nat with l by lia.
  destruct (reduce_ok l l b w B (le_n l) Hl G Hb HB Hw) as (d & g & Ed & Hd & Bg & Cg). rewrite Ed. cbn [bind].
  destruct (level_get l Hl) as (m0 & Eg & E0 & I0 & Eh). rewrite Eg. cbn [bind]. rewrite E0 in Hd.
  pose proof (moduli_in _ _ _ _ (proj1 ctx_qs_ok) I0) as O0. pose proof (ok_q k L m0 O0) as Q1. pose proof (ok_qk k L m0 O0) as Q2.
  destruct Hd as (D1 & D2 & D3). destruct (rp_vs d) as [|v0 vs] eqn:Ev; [inversion D3|].
  assert (S0 : sub_is m0 L false v0 g) by (inversion D3; assumption). cbn [get nth_error bind].
  unfold rp_ncoeffs. rewrite D1. pose proof (sub_len L m0 _ _ _ S0) as Lv. rewrite Lv. rewrite Nat.ltb_irrefl. rewrite <- Lv at 1. rewrite firstn_all.
  rewrite (ok_k k L m0 O0), Et. change (pm_q m0) with (modulus m0).
  destruct qs as [|q0 qs'] eqn:Eq; [cbn in Hl; lia|]. cbn [hd_error] in Eh. injection Eh as Eh. cbn [firstn bgv_decodable tl] in HD, Bg.
  rewrite <- Eh in HD. destruct HD as [Ht0 HD].
  rewrite C57_remove_error; [|lia|lia|].
  2: { apply Forall_forall. intros x Hx. apply in_map_iff in Hx. destruct Hx as (y & <- & Iy).
       apply In_nth with (d := 0) in Iy. destruct Iy as (i & Hi & <-). rewrite Lv in Hi.
       rewrite (proj2 (sub_res L m0 _ _ i S0 Hi)). apply Z.mod_pos_bound. lia. }
  f_equal. rewrite map_map. apply (nth_ext _ _ 0 0); [rewrite !map_length, seq_length; exact Lv|].
  intros i Hi. rewrite map_length, Lv in Hi.
  rewrite (nth_indep _ 0 (centered (modulus m0) (export_int (pm_p m0) 0) mod t)) by (rewrite map_length, Lv; exact Hi).
  rewrite (map_nth (fun x => centered (modulus m0) (export_int (pm_p m0) x) mod t)).
  rewrite (nth_indep (map (fun i => w i mod t) (seq 0 n)) 0 (w 0%nat mod t)) by (rewrite map_length, seq_length; exact Hi). rewrite (map_nth (fun i => w i mod t)), seq_nth by exact Hi.
  cbn [Nat.add]. rewrite (proj2 (sub_res L m0 _ _ i S0 Hi)).
  rewrite (centered_eq (modulus m0) (g i mod modulus m0) (g i)); [|lia| |apply cong_mod].
  - destruct (Cg i Hi) as [y Ey]. replace (g i) with (w i + y * t) by lia. apply Z_mod_plus_full.
  - specialize (Bg i Hi). unfold fits. lia.
Qed.

Lemma encode_ok l msgs : (l < length qs)%nat -> (length msgs <= n)%nat -> Forall (fun x => 0 <= x < 2 ^ k) msgs ->
  is_rns (at_level c l) L false (coeff_encode_bgv c msgs (at_level c l)) (fun i => centered t (nth i msgs 0)).
Proof.
  intros Hl Lm Fm. destruct ctx_t as [Et Ht]. unfold coeff_encode_bgv. rewrite ctx_shl by lia. cbn [bind].
  destruct (Nat.ltb_spec n (length msgs)); [lia|]. rewrite ne_match by (apply level_ne, Hl). rewrite Et.
  destruct (map_each (fun m => do! v <- import_balanced t (pm_p m) msgs; Ok (pad_to n (import_zero (pm_p m)) v))
    (fun m r => sub_is m L false r (fun i => centered t (nth i msgs 0))) (at_level c l)) as (vs & E & H1).
  - intros m I. pose proof (moduli_in _ _ _ _ (level_ok l) I) as O.
    destruct (C22_import_balanced k _ _ t msgs (ok_for k L m O) ltac:(lia) Fm) as (v & Ev & Lv & Sv & Vv).
    rewrite Ev. cbn [bind]. eexists. split; [reflexivity|].
    assert (R : forall i, (i < n)%nat -> residue m (nth i (pad_to n (import_zero (pm_p m)) v) 0) (centered t (nth i msgs 0))).
    { intros i Hi. unfold pad_to. destruct (Nat.lt_ge_cases i (length v)) as [Hv|Hv].
      - rewrite app_nth1 by exact Hv. split; [rewrite Forall_forall in Sv; apply Sv, nth_In, Hv|apply Vv; rewrite <- Lv; exact Hv].
      - rewrite app_nth2 by exact Hv. rewrite (nth_indep _ 0 (import_zero (pm_p m))) by (rewrite repeat_length; lia). rewrite nth_repeat.
        rewrite (nth_overflow msgs) by lia. replace (centered t 0) with 0 by (unfold centered; rewrite Z.mod_0_l by lia; destruct (Z.leb_spec (2 * 0) t); lia).
        apply (residue_zero k L m O). }
    assert (LP : length (pad_to n (import_zero (pm_p m)) v) = n) by (unfold pad_to; rewrite app_length, repeat_length; lia).
    split; [split; [exact LP|]|intros i Hi; apply (R i Hi)].
    apply Forall_forall. intros x Hx. apply In_nth with (d := 0) in Hx. destruct Hx as (i & Hi & <-). rewrite LP in Hi. apply (R i Hi).
  - rewrite E. cbn [bind]. apply create_subs; [apply level_ne, Hl|exact H1].
Qed.
End Ctx.
