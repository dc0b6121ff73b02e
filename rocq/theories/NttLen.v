(** The transforms on vectors whose length is not the context's. *)
From Coq Require Import Arith ArithRing Znumtheory Lia.
From Verif Require Import Base FinSum Montgomery Ntt ZLemmas MontgomeryProofs TranscriptionProofs
  Fermat RootCount NttIndex NttMath Spec ArithFacts NttProofs NttFacts.

Lemma zsum_pairs B f : zsum (2 * B) f = zsum B (fun b => f (2 * b)%nat + f (2 * b + 1)%nat).
Proof.
  induction B as [|B IH]; [reflexivity|]. replace (2 * S B)%nat with (S (S (2 * B)))%nat by lia. cbn [zsum]. rewrite IH.
  replace (S (2 * B))%nat with (2 * B + 1)%nat by lia. ring.
Qed.

Lemma bitrev_short d e h : (h < 2 ^ d)%nat -> bitrev h (e + d) = (2 ^ e * bitrev h d)%nat.
Proof.
  induction e as [|e IH]; intros H; [cbn [Nat.add Nat.pow]; lia|]. cbn [Nat.add]. rewrite bitrev_low; [rewrite IH by exact H; rewrite Nat.pow_succ_r'; lia|].
  apply Nat.lt_le_trans with (2 ^ d)%nat; [exact H|]. apply Nat.pow_le_mono_r; lia.
Qed.

(** ** a longer table gives the same forward transform *)

Lemma ct_blocks_app p np np' rest odd half ks : np_psis_c np = np_psis_c np' ++ rest -> forall v idx r,
  ct_blocks p np' odd half ks v idx = Ok r -> ct_blocks p np odd half ks v idx = Ok r.
Proof.
  intros E. induction ks as [|k ks IH]; intros v idx r H; cbn [ct_blocks] in *; [exact H|]. unfold get in *. rewrite E.
  destruct (nth_error (np_psis_c np') idx) as [c|] eqn:Ec; [|discriminate H]. rewrite nth_error_app1 by (apply nth_error_Some; rewrite Ec; discriminate). rewrite Ec. cbn [bind] in *. apply IH. exact H.
Qed.
Lemma ct_layers_app p np np' rest i : np_psis_c np = np_psis_c np' ++ rest -> forall v idx r,
  ct_layers p np' i v idx = Ok r -> ct_layers p np i v idx = Ok r.
Proof.
  intros E. induction i as [|i IH]; intros v idx r H; cbn [ct_layers] in *; [exact H|].
  destruct (ct_blocks p np' (Nat.odd i) (2 ^ i) (steps (length v) (2 * 2 ^ i)) v idx) as [[w j]| |] eqn:Eb; try discriminate H. cbn [bind] in H.
  rewrite (ct_blocks_app p np np' rest _ _ _ E _ _ _ Eb). cbn [bind]. apply IH. exact H.
Qed.
Lemma forward_app p np np' rest v r : np_psis_c np = np_psis_c np' ++ rest -> forward_ntt p np' v = Ok r -> forward_ntt p np v = Ok r.
Proof.
  intros E. unfold forward_ntt. destruct (length v =? 0)%nat; [discriminate|]. destruct (negb _); [discriminate|]. apply (ct_layers_app p np np' rest _ E).
Qed.

(** ** a too short table *)

Lemma ct_blocks_short p np odd half ks : ks <> [] -> forall v idx, (length (np_psis_c np) < idx + length ks)%nat -> ct_blocks p np odd half ks v idx = UB.
Proof.
  induction ks as [|k ks IH]; intros N v idx H; [congruence|]. cbn [ct_blocks length] in *. unfold get. destruct (nth_error (np_psis_c np) idx) as [c|] eqn:Ec; [|reflexivity]. cbn [bind].
  assert (idx < length (np_psis_c np))%nat by (apply nth_error_Some; rewrite Ec; discriminate). destruct ks as [|k' ks]; [cbn [length] in H; lia|]. apply IH; [discriminate|cbn [length] in *; lia].
Qed.
Lemma ct_layers_S p np i v idx : ct_layers p np (S i) v idx =
  do! ' (v, idx) <- ct_blocks p np (Nat.odd i) (2 ^ i) (steps (length v) (2 * 2 ^ i)) v idx; ct_layers p np i v idx.
Proof. reflexivity. Qed.
Lemma ct_layers_short p np d : forall i v, (i < d)%nat -> length v = (2 ^ d)%nat -> (length (np_psis_c np) < 2 ^ d)%nat ->
  ct_layers p np (S i) v (2 ^ (d - S i)) = UB.
Proof.
  induction i as [|i IH]; intros v Hi Hv HT; rewrite ct_layers_S.
  - assert (E : (2 ^ d = 2 ^ (d - 1) * (2 * 2 ^ 0))%nat). { cbn [Nat.pow]. rewrite Nat.mul_1_r, Nat.mul_comm, <- Nat.pow_succ_r'. f_equal. lia. }
    rewrite Hv. rewrite E at 1. rewrite steps_eq by (cbn; lia). rewrite ct_blocks_short; [reflexivity| |].
    + intros F. apply (f_equal (@length nat)) in F. rewrite map_length, seq_length in F. pose proof (pow2_gt0 (d - 1)). cbn in F. lia.
    + rewrite map_length, seq_length. cbn [Nat.pow] in E. lia.
  - assert (E : (2 ^ d = 2 ^ (d - S (S i)) * (2 * 2 ^ S i))%nat). { rewrite <- Nat.pow_succ_r', <- Nat.pow_add_r. f_equal. lia. }
    rewrite Hv. rewrite E at 1. rewrite steps_eq by (pose proof (pow2_gt0 (S i)); lia). set (B := (2 ^ (d - S (S i)))%nat) in *. pose proof (pow2_gt0 (d - S (S i))) as PB. fold B in PB.
    destruct (le_lt_dec (B + B) (length (np_psis_c np))) as [Hle|Hlt].
    + rewrite ct_blocks_pass by exact Hle. cbn [bind]. replace (B + B)%nat with (2 ^ (d - S i))%nat; [apply IH; [lia|rewrite bf_pass_length; exact Hv|exact HT]|].
      replace (d - S i)%nat with (S (d - S (S i))) by lia. rewrite Nat.pow_succ_r'. fold B. lia.
    + rewrite ct_blocks_short; [reflexivity| |].
      * intros F. apply (f_equal (@length nat)) in F. rewrite map_length, seq_length in F. cbn in F. lia.
      * rewrite map_length, seq_length. exact Hlt.
Qed.
Lemma forward_short p np d v : length v = (2 ^ d)%nat -> (length (np_psis_c np) < 2 ^ d)%nat -> (1 <= d)%nat -> forward_ntt p np v = UB.
Proof.
  intros Hv HT Hd. unfold forward_ntt. pose proof (pow2_gt0 d). rewrite Hv, Nat.log2_pow2, Nat.eqb_refl by lia. destruct (Nat.eqb_spec (2 ^ d) 0); [reflexivity|]. cbn [negb].
  destruct d as [|i]; [lia|]. pose proof (ct_layers_short p np (S i) i v ltac:(lia) Hv HT) as R. rewrite Nat.sub_diag in R. exact R.
Qed.

Lemma gs_blocks_short p np half : forall B B0 v idx, (B <> 0)%nat -> (length (np_psis_inv_c np) < idx + B)%nat -> ((B0 + B) * (2 * half) <= length v)%nat ->
  gs_blocks p np half (map (fun b => b * (2 * half))%nat (seq B0 B)) v idx = Err InvalidArgument.
Proof.
  induction B as [|B IH]; intros B0 v idx N H Hl; [congruence|]. cbn [seq map gs_blocks]. destruct (nth_error (np_psis_inv_c np) idx) as [c|] eqn:Ec; [|reflexivity].
  assert (idx < length (np_psis_inv_c np))%nat by (apply nth_error_Some; rewrite Ec; discriminate).
  rewrite gs_block_bf by nia. cbn [bind]. fold (bf_block (gs_F p) (gs_G p c) half (B0 * (2 * half)) half v). apply IH; [lia|lia|]. rewrite bf_block_length. lia.
Qed.
Lemma gs_layers_short p np d : forall f i v, (i + f = d)%nat -> (f <> 0)%nat -> length v = (2 ^ d)%nat -> (length (np_psis_inv_c np) < 2 ^ d - 1)%nat ->
  gs_layers p np f i v (2 ^ d - 2 ^ (d - i)) = Err InvalidArgument.
Proof.
  induction f as [|f IH]; intros i v Hi N Hv HT; [congruence|]. cbn [gs_layers].
  assert (E : (2 ^ d = 2 ^ (d - S i) * (2 * 2 ^ i))%nat). { rewrite <- Nat.pow_succ_r', <- Nat.pow_add_r. f_equal. lia. }
  assert (E1 : (2 ^ (d - i) = 2 * 2 ^ (d - S i))%nat) by (rewrite <- Nat.pow_succ_r'; f_equal; lia).
  rewrite Hv. rewrite E at 1. pose proof (pow2_gt0 i) as Pi. rewrite steps_eq by lia. set (B := (2 ^ (d - S i))%nat) in *. pose proof (pow2_gt0 (d - S i)) as PB. fold B in PB.
  rewrite E1. assert (BB : (2 * B <= 2 ^ d)%nat) by (rewrite E; nia).
  destruct (le_lt_dec (2 ^ d - 2 * B + B) (length (np_psis_inv_c np))) as [Hle|Hlt].
  - rewrite gs_blocks_pass by (try exact Hle; lia). cbn [bind]. replace (2 ^ d - 2 * B + B)%nat with (2 ^ d - 2 ^ (d - S i))%nat by (fold B; lia).
    apply IH; [lia| |rewrite bf_pass_length; exact Hv|exact HT]. intros ->. assert (B = 1)%nat by (unfold B; replace (d - S i)%nat with 0%nat by lia; reflexivity). lia.
  - rewrite gs_blocks_short; [reflexivity|lia|exact Hlt|lia].
Qed.
Lemma inverse_short p np d v : length v = (2 ^ d)%nat -> (length (np_psis_inv_c np) < 2 ^ d - 1)%nat -> inverse_ntt p np v = Err InvalidArgument.
Proof.
  intros Hv HT. unfold inverse_ntt. pose proof (pow2_gt0 d). rewrite Hv, Nat.log2_pow2, Nat.eqb_refl by lia. destruct (Nat.eqb_spec (2 ^ d) 0); [lia|]. cbn [negb].
  assert (d <> 0)%nat by (intros ->; cbn in HT; lia). pose proof (gs_layers_short p np d d 0 v ltac:(lia) ltac:(assumption) Hv HT) as R. rewrite Nat.sub_0_r, Nat.sub_diag in R. rewrite R. reflexivity.
Qed.

(** ** the constant coefficient of the inverse transform *)

Section Zero.
Variables (p : mparams) (np : nttp).
Hypothesis G : good p.
Hypothesis consts : forall h, (h < length (np_psis_inv_c np))%nat -> exists c, const_for p c (nth h (np_psis_inv_c np) (0, 0)).
Local Notation m := (p_m p).
Local Notation val := (val p).

Lemma zero_layers d : (2 ^ d <= length (np_psis_inv_c np))%nat -> forall f i v, (i + f = d)%nat -> length v = (2 ^ d)%nat -> (forall q, (q < 2 ^ d)%nat -> rep p (nth q v 0)) ->
  exists out, gs_layers p np f i v (2 ^ d - 2 ^ (d - i)) = Ok out /\ length out = (2 ^ d)%nat /\ (forall q, (q < 2 ^ d)%nat -> rep p (nth q out 0)) /\
    cong m (val (nth 0 out 0)) (zsum (2 ^ (d - i)) (fun b => val (nth (b * 2 ^ i) v 0))).
Proof.
  intros HT. induction f as [|f IH]; intros i v Hi Hv Hr; cbn [gs_layers].
  - exists v. split; [reflexivity|]. split; [exact Hv|]. split; [exact Hr|]. replace (d - i)%nat with 0%nat by lia. cbn [Nat.pow zsum]. apply cong_eq. cbn [Nat.mul]. ring.
  - assert (E : (2 ^ d = 2 ^ (d - S i) * (2 * 2 ^ i))%nat). { rewrite <- Nat.pow_succ_r', <- Nat.pow_add_r. f_equal. lia. }
    assert (E1 : (2 ^ (d - i) = 2 * 2 ^ (d - S i))%nat) by (rewrite <- Nat.pow_succ_r'; f_equal; lia).
    assert (E2 : (2 ^ S i = 2 * 2 ^ i)%nat) by apply Nat.pow_succ_r'.
    pose proof (pow2_gt0 i) as Pi. assert (ES : steps (length v) (2 * 2 ^ i) = map (fun b => b * (2 * 2 ^ i))%nat (seq 0 (2 ^ (d - S i)))) by (rewrite Hv, E at 1; apply steps_eq; lia).
    rewrite ES. clear ES. pose proof (pow2_gt0 (d - S i)) as PB. rewrite E1. specialize (IH (S i)). revert IH E PB. generalize (2 ^ (d - S i))%nat as B. intros B IH E PB.
    assert (BB : (2 * B <= 2 ^ d)%nat) by (rewrite E; nia).
    rewrite gs_blocks_pass by lia. cbn [bind]. set (w := bf_pass _ _ _ _ _).
    assert (Lw : length w = (2 ^ d)%nat) by (unfold w; rewrite bf_pass_length; exact Hv).
    assert (Rw : forall q, (q < 2 ^ d)%nat -> rep p (nth q w 0)).
    { intros q Hq. unfold w. rewrite bf_pass_nth by lia. destruct (Nat.ltb_spec q (B * (2 * 2 ^ i))); [|lia].
      pose proof (Nat.div_mod q (2 * 2 ^ i) ltac:(lia)) as DM. pose proof (Nat.mod_upper_bound q (2 * 2 ^ i) ltac:(lia)) as MU.
      assert (QB : (q / (2 * 2 ^ i) < B)%nat) by (apply Nat.div_lt_upper_bound; lia).
      destruct (Nat.ltb_spec (q mod (2 * 2 ^ i)) (2 ^ i)).
      - apply crep_rep, gs_F_ok; [exact G|apply Hr; exact Hq|apply Hr]. revert DM QB. generalize (q / (2 * 2 ^ i))%nat as b. intros b DM QB. rewrite E. nia.
      - destruct (consts (2 ^ d - 2 * B + q / (2 * 2 ^ i))) as [c Hc]; [lia|]. apply crep_rep. apply (gs_G_ok p G c _ _ _ Hc); apply Hr; lia. }
    destruct (IH w ltac:(lia) Lw Rw) as (out & Eo & Lo & Ro & Vo).
    exists out. split; [replace (2 ^ d - 2 * B + B)%nat with (2 ^ d - B)%nat by lia; exact Eo|]. split; [exact Lo|]. split; [exact Ro|].
    rewrite Vo, zsum_pairs. apply zsum_cong. intros b Hb. rewrite E2. unfold w. rewrite bf_pass_nth by lia.
    destruct (blk (2 ^ i) b 0 ltac:(lia)) as [D M]. rewrite Nat.add_0_r in D, M. rewrite D, M.
    destruct (Nat.ltb_spec (b * (2 * 2 ^ i)) (B * (2 * 2 ^ i))); [|nia]. destruct (Nat.ltb_spec 0 (2 ^ i)); [|lia].
    replace (2 * b * 2 ^ i)%nat with (b * (2 * 2 ^ i))%nat by ring. replace ((2 * b + 1) * 2 ^ i)%nat with (b * (2 * 2 ^ i) + 2 ^ i)%nat by ring.
    apply gs_F_ok; [exact G|apply Hr..]; rewrite E; nia.
Qed.
Lemma inverse_zero d v : length v = (2 ^ d)%nat -> Forall (rep p) v -> rep p (np_ninv np) -> (2 ^ d <= length (np_psis_inv_c np))%nat ->
  exists out, inverse_ntt p np v = Ok out /\ length out = (2 ^ d)%nat /\ Forall (crep p) out /\
    cong m (val (nth 0 out 0)) (val (np_ninv np) * zsum (2 ^ d) (fun b => val (nth b v 0))).
Proof.
  intros Hv Hr Hn HT. pose proof (pow2_gt0 d) as P. destruct (zero_layers d HT d 0 v ltac:(lia) Hv) as (o & E & Lo & Ro & Vo).
  { intros q Hq. rewrite Forall_forall in Hr. apply Hr, nth_In. lia. }
  exists (map (fun x => mmul p x (np_ninv np)) o). rewrite Nat.sub_0_r, Nat.sub_diag in E. split; [|split; [rewrite map_length; exact Lo|split]].
  - unfold inverse_ntt. rewrite Hv, Nat.log2_pow2, Nat.eqb_refl by lia. destruct (Nat.eqb_spec (2 ^ d) 0); [lia|]. cbn [negb]. rewrite E. reflexivity.
  - apply Forall_map, Forall_nth. intros i x Hi. rewrite nth_indep with (d' := 0) by exact Hi. apply mmul_crep; [exact G|apply Ro; lia|exact Hn].
  - rewrite (nth_map_any _ _ 0) by lia. rewrite mmul_cong by (try exact Hn; try exact G; apply Ro; lia). rewrite Vo, Nat.sub_0_r. rewrite (zsum_ext _ _ (fun b => val (nth b v 0))); [apply cong_eq; ring|].
    intros b _. cbn [Nat.pow]. rewrite Nat.mul_1_r. reflexivity.
Qed.
End Zero.

(** ** parameters of a smaller transform, with the first part of the table *)

Definition short_np (p : mparams) (np : nttp) (X : Z) (d e : nat) : nttp :=
  let Y := X ^ Z.of_nat (2 ^ e) in
  let inv := map (fun h => import_int p (Y ^ Z.of_nat (2 * 2 ^ d - (bitrev h d + 1)) mod p_m p)) (seq 0 (2 ^ d)) in
  {| np_n := 2 ^ d; np_ninv := import_int p ((val p (np_ninv np) * 2 ^ Z.of_nat e) mod p_m p);
     np_psis := firstn (2 ^ d) (np_psis np); np_psis_c := firstn (2 ^ d) (np_psis_c np);
     np_psis_inv := inv; np_psis_inv_c := map (get_constant p) inv; np_bitrevs := bitrev_array d |}.

Lemma nth_first {A} (x : A) : forall n l i, (i < n)%nat -> nth i (firstn n l) x = nth i l x.
Proof. induction n as [|n IH]; intros [|a l] [|i] H; cbn; try reflexivity; try lia. apply IH. lia. Qed.

Lemma short_good p np X d e : good p -> (1 <= d)%nat -> ntt_good p (e + d) np X -> ntt_good p d (short_np p np X d e) (X ^ Z.of_nat (2 ^ e)).
Proof.
  intros G Hd NG. pose proof (m_gt1 p G) as M1. pose proof (m4 p G) as M4. pose proof (pow2_gt0 d) as Pd. pose proof (pow2_gt0 e) as Pe.
  set (Y := X ^ Z.of_nat (2 ^ e)).
  assert (RY : cong (p_m p) (Y ^ Z.of_nat (2 ^ d)) (-1)).
  { unfold Y. rewrite <- Z.pow_mul_r, <- Nat2Z.inj_mul, <- Nat.pow_add_r by lia. exact (ng_root _ _ _ _ NG). }
  assert (LE : (2 ^ d <= 2 ^ (e + d))%nat) by (apply Nat.pow_le_mono_r; lia).
  assert (IM : forall x, crep p (import_int p (x mod p_m p)) /\ cong (p_m p) (val p (import_int p (x mod p_m p))) x).
  { intros x. pose proof (Z.mod_pos_bound x (p_m p) ltac:(lia)). split; [apply import_crep; [exact G|lia]|]. rewrite import_val by (try exact G; lia). rewrite Z.mod_mod by lia. apply cong_mod. }
  unfold short_np. constructor; cbn [np_n np_ninv np_psis np_psis_c np_psis_inv np_psis_inv_c np_bitrevs].
  - exact Hd.
  - reflexivity.
  - exact RY.
  - reflexivity.
  - rewrite firstn_length, (ng_psis_len _ _ _ _ NG). lia.
  - intros h Hh. rewrite nth_first by exact Hh. destruct (ng_psis _ _ _ _ NG h ltac:(lia)) as [C V]. split; [exact C|]. rewrite V, bitrev_short by exact Hh.
    unfold Y. rewrite <- Z.pow_mul_r, <- Nat2Z.inj_mul by lia. reflexivity.
  - rewrite (ng_psis_c _ _ _ _ NG). apply firstn_map.
  - rewrite map_length, seq_length. reflexivity.
  - intros h Hh. rewrite (nth_map_any _ _ 0%nat) by (rewrite seq_length; exact Hh). rewrite seq_nth by exact Hh. cbn [Nat.add]. fold Y. destruct (IM (Y ^ Z.of_nat (2 * 2 ^ d - (bitrev h d + 1)))) as [C V]. split; [exact C|].
    rewrite V. pose proof (bitrev_lt d h). rewrite <- Z.pow_add_r by lia. rewrite <- Nat2Z.inj_add. replace (2 * 2 ^ d - (bitrev h d + 1) + (bitrev h d + 1))%nat with (2 ^ d + 2 ^ d)%nat by lia.
    rewrite Nat2Z.inj_add, Z.pow_add_r by lia. rewrite RY. apply cong_eq. reflexivity.
  - reflexivity.
  - destruct (IM (val p (np_ninv np) * 2 ^ Z.of_nat e)) as [C V]. split; [exact C|]. rewrite V. destruct (ng_ninv _ _ _ _ NG) as [_ N].
    rewrite <- N. apply cong_eq. rewrite !pow_of_nat2, Nat2Z.inj_add, Z.pow_add_r by lia. ring.
Qed.
