(** Auxiliary lemmas of ThmUntrusted.v: which calls on objects of arbitrary
    shape can have undefined behaviour. *)
From Verif Require Import Base Montgomery MontBatch Ntt Poly PolyExt Prng Sampling SymEnc Relin AuxRelin PubKey
  Spec ArithFacts MontgomeryProofs TranscriptionProofs NttIndex NttFacts SymProofs2 ThmPoly.

Local Open Scope nat_scope.

Lemma pow2_gt0' i : 0 < 2 ^ i.
Proof. pose proof (Nat.pow_nonzero 2 i). lia. Qed.

(** ** the transforms *)

Lemma ct_block_len p odd c half k v : length (ct_block p odd c half k v) = length v.
Proof. rewrite ct_block_bf. apply bf_block_length. Qed.

Lemma ct_blocks_in p np odd half : forall ks v idx, idx + length ks <= length (np_psis_c np) ->
  exists w, ct_blocks p np odd half ks v idx = Ok (w, idx + length ks) /\ length w = length v.
Proof.
  induction ks as [|k ks IH]; intros v idx H; cbn [ct_blocks length] in *.
  - exists v. rewrite Nat.add_0_r. auto.
  - rewrite (get_ok _ _ (0%Z, 0%Z)) by lia. cbn [bind].
    destruct (IH (ct_block p odd (nth idx (np_psis_c np) (0%Z, 0%Z)) half k v) (S idx)) as (w & E & Lw); [lia|].
    exists w. rewrite E, Lw, ct_block_len. split; [do 2 f_equal; lia|reflexivity].
Qed.

Lemma ct_blocks_out p np odd half : forall ks v idx, length (np_psis_c np) < idx + length ks -> idx <= length (np_psis_c np) ->
  ct_blocks p np odd half ks v idx = UB.
Proof.
  induction ks as [|k ks IH]; intros v idx H H1; cbn [ct_blocks length] in *; [lia|].
  destruct (le_lt_dec (length (np_psis_c np)) idx) as [D|D].
  - unfold get. rewrite (proj2 (nth_error_None _ _)) by lia. reflexivity.
  - rewrite (get_ok _ _ (0%Z, 0%Z)) by lia. cbn [bind]. apply IH; lia.
Qed.

Lemma steps_len l i : i < l -> length (steps (2 ^ l) (2 * 2 ^ i)) = 2 ^ (l - S i).
Proof.
  intros H. assert (E : 2 ^ l = 2 ^ (l - S i) * (2 * 2 ^ i)).
  { rewrite <- Nat.pow_succ_r', <- Nat.pow_add_r. f_equal. lia. }
  rewrite E, steps_eq by (pose proof (pow2_gt0' i); lia). rewrite map_length, seq_length. reflexivity.
Qed.

Lemma ct_layers_in p np l : forall i v, i <= l -> length v = 2 ^ l -> 2 ^ l <= length (np_psis_c np) ->
  exists w, ct_layers p np i v (2 ^ (l - i)) = Ok w /\ length w = length v.
Proof.
  induction i as [|i IH]; intros v Hi Lv H; cbn [ct_layers]; [exists v; auto|].
  pose proof (steps_len l i Hi) as Ls. rewrite Lv.
  assert (E2 : 2 ^ (l - S i) + 2 ^ (l - S i) = 2 ^ (l - i)) by (replace (l - i) with (S (l - S i)) by lia; rewrite Nat.pow_succ_r'; lia).
  assert (E3 : 2 ^ (l - i) <= 2 ^ l) by (apply Nat.pow_le_mono_r; lia).
  destruct (ct_blocks_in p np (Nat.odd i) (2 ^ i) (steps (2 ^ l) (2 * 2 ^ i)) v (2 ^ (l - S i))) as (w & E & Lw); [lia|].
  rewrite E. cbn [bind]. rewrite Ls, E2. destruct (IH w) as (w' & E' & Lw'); try lia.
  exists w'. split; [exact E'|congruence].
Qed.

Lemma ct_layers_out p np l : forall i v, i <= l -> length v = 2 ^ l ->
  2 ^ (l - i) <= length (np_psis_c np) -> length (np_psis_c np) < 2 ^ l ->
  ct_layers p np i v (2 ^ (l - i)) = UB.
Proof.
  induction i as [|i IH]; intros v Hi Lv H1 H; cbn [ct_layers]; [rewrite Nat.sub_0_r in H1; lia|].
  pose proof (steps_len l i Hi) as Ls. rewrite Lv.
  assert (E2 : 2 ^ (l - S i) + 2 ^ (l - S i) = 2 ^ (l - i)) by (replace (l - i) with (S (l - S i)) by lia; rewrite Nat.pow_succ_r'; lia).
  destruct (le_lt_dec (2 ^ (l - i)) (length (np_psis_c np))) as [D|D].
  - destruct (ct_blocks_in p np (Nat.odd i) (2 ^ i) (steps (2 ^ l) (2 * 2 ^ i)) v (2 ^ (l - S i))) as (w & E & Lw); [lia|].
    rewrite E. cbn [bind]. rewrite Ls, E2. apply IH; lia.
  - rewrite ct_blocks_out by lia. reflexivity.
Qed.

(** a forward transform of a non-empty vector no longer than the table *)
Lemma forward_in p np v : v <> [] -> length v <= length (np_psis_c np) ->
  match forward_ntt p np v with Ok w => length w = length v | Err _ => True | UB => False end.
Proof.
  intros N H. unfold forward_ntt. destruct (Nat.eqb_spec (length v) 0) as [E|E]; [destruct v; [contradiction|discriminate E]|].
  destruct (Nat.eqb_spec (length v) (2 ^ Nat.log2 (length v))) as [P|P]; cbn [negb]; [|exact I].
  destruct (ct_layers_in p np (Nat.log2 (length v)) (Nat.log2 (length v)) v) as (w & Ew & Lw); try lia.
  rewrite Nat.sub_diag in Ew. change (2 ^ 0) with 1 in Ew. rewrite Ew. exact Lw.
Qed.

(** ... and of a vector whose length is a greater power of two *)
Lemma forward_out p np v l : length v = 2 ^ l -> 1 <= length (np_psis_c np) < 2 ^ l -> forward_ntt p np v = UB.
Proof.
  intros Lv H. unfold forward_ntt. destruct (Nat.eqb_spec (length v) 0) as [E|E]; [reflexivity|].
  rewrite Lv, Nat.log2_pow2, Nat.eqb_refl by lia. cbn [negb].
  pose proof (ct_layers_out p np l l v) as Q. rewrite Nat.sub_diag in Q. apply Q; try exact Lv; cbn [Nat.pow]; lia.
Qed.

Lemma gs_block_any p c half k : forall js v,
  match gs_block p c half k js v with Ok w => length w = length v | Err _ => True | UB => False end.
Proof.
  induction js as [|j js IH]; intros v; cbn [gs_block]; [reflexivity|].
  destruct (length v <=? k + j + half); [exact I|]. cbv zeta.
  match goal with |- match gs_block _ _ _ _ _ ?u with _ => _ end => specialize (IH u) end.
  rewrite !upd_length in IH. exact IH.
Qed.

Lemma gs_blocks_any p np half : forall ks v idx,
  match gs_blocks p np half ks v idx with Ok (w, _) => length w = length v | Err _ => True | UB => False end.
Proof.
  induction ks as [|k ks IH]; intros v idx; cbn [gs_blocks]; [reflexivity|].
  destruct (nth_error (np_psis_inv_c np) idx) as [c|]; [|exact I].
  pose proof (gs_block_any p c half k (seq 0 half) v) as Q.
  destruct (gs_block p c half k (seq 0 half) v) as [w|e|]; cbn [bind]; try exact Q.
  specialize (IH w (S idx)). destruct (gs_blocks p np half ks w (S idx)) as [[u i]|e|]; try exact IH. congruence.
Qed.

Lemma gs_layers_any p np : forall f i v idx,
  match gs_layers p np f i v idx with Ok w => length w = length v | Err _ => True | UB => False end.
Proof.
  induction f as [|f IH]; intros i v idx; cbn [gs_layers]; [reflexivity|].
  pose proof (gs_blocks_any p np (2 ^ i) (steps (length v) (2 * 2 ^ i)) v idx) as Q.
  destruct (gs_blocks p np (2 ^ i) (steps (length v) (2 * 2 ^ i)) v idx) as [[w j]|e|]; cbn [bind]; try exact Q.
  specialize (IH (S i) w j). destruct (gs_layers p np f (S i) w j); try exact IH. congruence.
Qed.

Lemma inverse_any p np a : a <> [] -> exists v, inverse_ntt_poly p np a = Ok v /\ length v = length a.
Proof.
  intros N. unfold inverse_ntt_poly, inverse_ntt. destruct (Nat.eqb_spec (length a) 0) as [E|E]; [destruct a; [contradiction|discriminate E]|].
  destruct (length a =? 2 ^ Nat.log2 (length a)); cbn [negb]; [|exists a; auto].
  pose proof (gs_layers_any p np (Nat.log2 (length a)) 0 a 0) as Q.
  destruct (gs_layers p np (Nat.log2 (length a)) 0 a 0) as [w|e|]; cbn [bind]; [|exists a; auto|destruct Q].
  eexists. split; [reflexivity|]. rewrite map_length. exact Q.
Qed.

Lemma poly_of_cons v : v <> [] -> poly_of v = Ok v.
Proof. destruct v; [contradiction|reflexivity]. Qed.

Lemma len_nonempty {A} (v : list A) : v <> [] <-> 0 < length v.
Proof. destruct v; cbn; split; intros; try lia; congruence. Qed.

Lemma to_ntt_in p np v : v <> [] -> length v <= length (np_psis_c np) -> exists w, convert_to_ntt p np v = Ok w.
Proof.
  intros N H. pose proof (forward_in p np v N H) as Q. unfold convert_to_ntt.
  destruct (forward_ntt p np v) as [w|e|]; [|eexists; reflexivity|destruct Q].
  exists w. apply poly_of_cons. apply len_nonempty. rewrite Q. apply len_nonempty, N.
Qed.

Lemma to_ntt_out p np v l : length v = 2 ^ l -> 1 <= length (np_psis_c np) < 2 ^ l -> convert_to_ntt p np v = UB.
Proof. intros H1 H2. unfold convert_to_ntt. rewrite (forward_out p np v l H1 H2). reflexivity. Qed.

Lemma psis_len k m p L np : params_for k m p -> ntt_for p L np -> length (np_psis_c np) = 2 ^ L /\ length (np_bitrevs np) = 2 ^ L.
Proof.
  intros HP HN. pose proof (init_wellformed k m p L np HP HN) as W. cbv zeta in W.
  destruct W as (_ & _ & _ & _ & _ & L1 & _ & _ & C & _ & B & _). rewrite C, B, !map_length, seq_length. auto.
Qed.

(** ** vectors of any lengths *)

Definition defined {A} (r : result A) : Prop := match r with UB => False | _ => True end.

Lemma d_bind {A B} (r : result A) (f : A -> result B) : defined r -> (forall a, r = Ok a -> defined (f a)) -> defined (bind r f).
Proof. destruct r; cbn; auto. Qed.

Lemma d_seqr {A} (l : list (result A)) : Forall defined l -> defined (seqr l).
Proof. induction 1 as [|r l Hr _ IH]; [exact I|]. cbn [seqr]. apply d_bind; [exact Hr|]. intros a _. apply d_bind; [exact IH|]. intros; exact I. Qed.

Lemma d_add p a b : defined (poly_add p a b).
Proof. unfold poly_add, batch_add. destruct (same_len a b); exact I. Qed.
Lemma d_sub p a b : defined (poly_sub p a b).
Proof. unfold poly_sub, batch_sub. destruct (same_len a b); exact I. Qed.
Lemma d_mul p a b : defined (poly_mul p a b).
Proof. unfold poly_mul, batch_mul. destruct (same_len a b); exact I. Qed.

Lemma d_fused p x a b : p_k p <> 16%Z -> defined (poly_fused_mul_add p x a b).
Proof.
  intros K. unfold poly_fused_mul_add, batch_fused_mul_add. destruct (_ || _); [exact I|]. apply d_seqr.
  apply Forall_forall. intros r Hr.
  assert (Q : forall (l1 : list Z) (l2 : list (Z * Z)), In r (map2 (fun x bc => fused_mul_add p x (fst bc) (snd bc)) l1 l2) ->
    exists x y z, r = fused_mul_add p x y z).
  { induction l1 as [|u l1 IH]; intros [|w l2] Hi; try destruct Hi as [<-|Hi]; try contradiction; eauto. }
  destruct (Q _ _ Hr) as (x' & y & z & ->). unfold fused_mul_add, mul_int.
  destruct (Z.eqb_spec (p_k p) 16); [contradiction|]. exact I.
Qed.

Lemma add_len p a b c : poly_add p a b = Ok c -> length c = length a /\ length b = length a.
Proof.
  unfold poly_add, batch_add, same_len. destruct (Nat.eqb_spec (length a) (length b)) as [E|E]; [|discriminate].
  intros Q. injection Q as <-. split; [|congruence]. clear -E. revert b E. induction a as [|x a IH]; intros [|y b] E; try discriminate E; [reflexivity|].
  cbn. f_equal. apply IH. injection E as E. exact E.
Qed.

(** ** ciphertexts *)

Lemma d_zip f c d : (forall x y, defined (f x y)) -> length d <= length c -> defined (zip_into f c d).
Proof.
  intros F. revert c. induction d as [|y d IH]; intros c H; cbn [zip_into]; [destruct c; exact I|].
  destruct c as [|x c]; [cbn in H; lia|]. apply d_bind; [apply F|]. intros z _. apply d_bind; [apply IH; cbn in H; lia|]. intros; exact I.
Qed.

Lemma pad_len p (c d : list poly) : Forall (fun a : poly => a <> []) d -> exists c', pad_to p c d = Ok c' /\ length d <= length c'.
Proof.
  intros H. unfold pad_to. destruct (Nat.ltb_spec (length c) (length d)) as [Hl|Hl]; [|exists c; auto].
  destruct d as [|d0 d]; [cbn in Hl; lia|]. cbn [get nth_error bind]. inversion H as [|? ? N _]; subst.
  unfold poly_zero. rewrite poly_of_cons by (destruct d0; [contradiction|discriminate]). cbn [bind].
  eexists. split; [reflexivity|]. rewrite app_length, repeat_length. lia.
Qed.

Lemma d_ct_add x y : Forall (fun a => a <> []) (ct_c y) -> defined (ct_add x y).
Proof.
  intros H. unfold ct_add. destruct (negb _); [exact I|]. destruct (pad_len (ct_p x) (ct_c x) (ct_c y) H) as (c & -> & Lc). cbn [bind].
  apply d_bind; [|intros; exact I]. apply d_zip; [intros; apply d_add|exact Lc].
Qed.

Lemma d_ct_sub x y : Forall (fun a => a <> []) (ct_c y) -> defined (ct_sub x y).
Proof.
  intros H. unfold ct_sub. destruct (negb _); [exact I|]. destruct (pad_len (ct_p x) (ct_c x) (ct_c y) H) as (c & -> & Lc). cbn [bind].
  apply d_bind; [|intros; exact I]. apply d_zip; [intros; apply d_sub|exact Lc].
Qed.

Lemma d_map {A} (f : A -> result poly) l : (forall a, defined (f a)) -> defined (seqr (map f l)).
Proof. intros F. apply d_seqr, Forall_forall. intros r Hr. apply in_map_iff in Hr as (a & <- & _). apply F. Qed.

Lemma d_ct_absorb x b : defined (ct_absorb x b).
Proof. unfold ct_absorb. apply d_bind; [|intros; exact I]. apply d_map. intros; apply d_mul. Qed.
Lemma d_ct_absorb_scalar x s : defined (ct_absorb_scalar x s).
Proof. unfold ct_absorb_scalar. apply d_bind; [|intros; exact I]. apply d_map. intros; exact I. Qed.

Lemma d_fused_into f g c a : (forall x y, defined (f x y)) -> (forall y, defined (g y)) -> defined (fused_into f g c a).
Proof.
  intros F G. revert c. induction a as [|y a IH]; intros c; cbn [fused_into]; [destruct c; exact I|].
  destruct c as [|x c]; (apply d_bind; [auto|]; intros z _; apply d_bind; [apply IH|]; intros; exact I).
Qed.

Lemma d_ct_fused x a b : p_k (ct_p x) <> 16%Z -> defined (ct_fused_absorb x a b).
Proof.
  intros K. unfold ct_fused_absorb. destruct (negb _); [exact I|]. apply d_bind; [|intros; exact I].
  apply d_fused_into; intros; [apply d_fused, K|apply d_mul].
Qed.

Lemma d_mul_row p ci : p_k p <> 16%Z -> forall d idx res, idx + length d <= length res ->
  match mul_row p ci d idx res with Ok r => length r = length res | Err _ => True | UB => False end.
Proof.
  intros K. induction d as [|dj d IH]; intros idx res H; cbn [mul_row length] in *; [reflexivity|].
  rewrite (get_ok _ _ ([] : poly)) by lia. cbn [bind]. pose proof (d_fused p (nth idx res []) ci dj K) as D.
  destruct (poly_fused_mul_add p (nth idx res []) ci dj) as [y|e|]; cbn [bind]; try exact D.
  specialize (IH (S idx) (upd res idx y)). rewrite upd_length in IH. apply IH. lia.
Qed.

Lemma d_mul_rows p d : p_k p <> 16%Z -> forall c idx res, idx + length c + length d <= length res + 1 ->
  defined (mul_rows p c d idx res).
Proof.
  intros K. induction c as [|ci c IH]; intros idx res H; cbn [mul_rows length] in *; [exact I|].
  pose proof (d_mul_row p ci K d idx res ltac:(lia)) as D.
  destruct (mul_row p ci d idx res) as [r|e|]; cbn [bind]; try exact I; try exact D. apply IH. lia.
Qed.

Lemma d_ct_mul x y : p_k (ct_p x) <> 16%Z -> defined (ct_mul x y).
Proof.
  intros K. unfold ct_mul. destruct (negb _); [exact I|]. destruct (ct_c x) as [|x0 xs]; [exact I|]. destruct (ct_c y) as [|y0 ys]; [exact I|].
  destruct (Nat.leb_spec (length x0) 0) as [|Hx]; [exact I|]. destruct (length y0 <=? 0); [exact I|]. cbn [orb].
  unfold poly_zero. rewrite poly_of_cons by (apply len_nonempty; rewrite repeat_length; lia). cbn [bind].
  apply d_bind; [|intros; exact I]. apply d_mul_rows; [exact K|]. rewrite repeat_length. cbn [length]. lia.
Qed.

(** ** decryption *)

Lemma extract_len key pc : forall cs i kp acc v, extract_loop key pc cs i kp acc = Ok v ->
  length v = length acc /\ Forall (fun c => length c = length acc) cs.
Proof.
  induction cs as [|c cs IH]; intros i kp acc v E; cbn [extract_loop] in E; [injection E as <-; auto|].
  destruct (if 1 <? i then poly_mul (sk_p key) kp (sk_key key) else Ok kp) as [kp'| |]; try discriminate. cbn [bind] in E.
  destruct (if 0 <? i then poly_mul pc c kp' else Ok c) as [c'| |] eqn:Ec; try discriminate. cbn [bind] in E.
  destruct (poly_add (sk_p key) acc c') as [acc'| |] eqn:Ea; try discriminate. cbn [bind] in E.
  destruct (IH _ _ _ _ E) as [I1 I2]. destruct (add_len _ _ _ _ Ea) as [A1 A2]. rewrite A1 in *. split; [exact I1|].
  constructor; [|exact I2]. destruct (0 <? i); [|congruence].
  revert Ec. unfold poly_mul, batch_mul, same_len. destruct (Nat.eqb_spec (length c) (length kp')) as [El|El]; [|discriminate].
  intros Q. injection Q as <-. rewrite <- A2. clear -El. revert kp' El. induction c as [|x c IH]; intros [|y b] E; try discriminate E; [reflexivity|].
  cbn. f_equal. apply IH. injection E as E. exact E.
Qed.

Lemma d_extract key pc : forall cs i kp acc, defined (extract_loop key pc cs i kp acc).
Proof.
  induction cs as [|c cs IH]; intros i kp acc; cbn [extract_loop]; [exact I|].
  apply d_bind; [destruct (1 <? i); [apply d_mul|exact I]|]. intros kp' _.
  apply d_bind; [destruct (0 <? i); [apply d_mul|exact I]|]. intros c' _.
  apply d_bind; [apply d_add|]. intros a _. apply IH.
Qed.

(** ** key switching *)

Lemma decompose_len p lb mask : forall dim ds, length (decompose_loop p lb mask ds dim) = dim /\
  Forall (fun d => length d = length ds) (decompose_loop p lb mask ds dim).
Proof.
  induction dim as [|d IH]; intros ds; cbn [decompose_loop]; [split; [reflexivity|constructor]|].
  destruct (IH (map (fun x => shr x lb) ds)) as [I1 I2]. rewrite map_length in I2.
  split; [cbn; congruence|]. constructor; [apply map_length|exact I2].
Qed.

Lemma d_mm p np : p_k p <> 16%Z -> forall top bot digits r0 r1, length bot = length top -> length digits = length top ->
  Forall (fun d => d <> [] /\ length d <= length (np_psis_c np)) digits -> defined (mm_loop p np digits top bot r0 r1).
Proof.
  intros K. induction top as [|a top IH]; intros bot digits r0 r1 Lb Ld H; cbn [mm_loop]; [exact I|].
  destruct digits as [|d digits]; [discriminate Ld|]. destruct bot as [|b bot]; [discriminate Lb|].
  inversion H as [|? ? [N Hd] Ht]; subst. destruct (to_ntt_in p np d N Hd) as (x & ->). cbn [bind].
  apply d_bind; [apply d_fused, K|]. intros y _. apply d_bind; [apply d_fused, K|]. intros z _.
  apply IH; [injection Lb as E; exact E|injection Ld as E; exact E|exact Ht].
Qed.

(** a part of a key: as many digits in both rows, at least one, and a
    decomposition that can be shifted by *)
Definition part_shape (p : mparams) (pt : part) : Prop :=
  pt_top pt <> [] /\ length (pt_bot pt) = length (pt_top pt) /\ (0 < pt_logT pt < p_k p)%Z.

Lemma d_apply_part p np pt c : p_k p <> 16%Z -> part_shape p pt -> c <> [] -> length c <= length (np_psis_c np) ->
  defined (apply_part pt c p np).
Proof.
  intros K (H1 & H2 & H3) N Hc. unfold apply_part. destruct (inverse_any p np c N) as (v & -> & Lv). cbn [bind].
  unfold base_decompose. destruct (Z.eqb_spec (p_k p) 16) as [|_]; [contradiction|].
  destruct (Z.leb_spec (p_k p) (pt_logT pt)) as [|_]; [lia|]. cbn [bind]. cbv zeta.
  match goal with |- context [decompose_loop p ?lb ?mk ?ds ?dim] => destruct (decompose_len p lb mk dim ds) as [L1 L2]; set (dg := decompose_loop p lb mk ds dim) in * end.
  unfold matrix_multiply. destruct dg as [|d0 dg']; [apply len_nonempty in H1; cbn in L1; lia|]. cbn [get nth_error bind].
  assert (F : Forall (fun d => d <> [] /\ length d <= length (np_psis_c np)) (d0 :: dg')).
  { eapply Forall_impl; [|exact L2]. cbv beta. intros d E. rewrite map_length, Lv in E. apply len_nonempty in N. rewrite len_nonempty. lia. }
  unfold poly_zero. rewrite poly_of_cons by (inversion F as [|? ? [N0 _] _]; subst; apply len_nonempty; rewrite repeat_length; apply len_nonempty, N0).
  cbn [bind]. apply d_mm; assumption.
Qed.

(** the first digit of an oversized component cannot be transformed *)
Lemma ub_apply_part p np pt c l : p_k p <> 16%Z -> part_shape p pt -> length c = 2 ^ l -> 1 <= length (np_psis_c np) < 2 ^ l ->
  apply_part pt c p np = UB.
Proof.
  intros K (H1 & H2 & H3) Lc Hn. assert (N : c <> []) by (apply len_nonempty; rewrite Lc; apply pow2_gt0').
  unfold apply_part. destruct (inverse_any p np c N) as (v & -> & Lv). cbn [bind].
  unfold base_decompose. destruct (Z.eqb_spec (p_k p) 16) as [|_]; [contradiction|].
  destruct (Z.leb_spec (p_k p) (pt_logT pt)) as [|_]; [lia|]. cbn [bind]. cbv zeta.
  match goal with |- context [decompose_loop p ?lb ?mk ?ds ?dim] => destruct (decompose_len p lb mk dim ds) as [L1 L2]; set (dg := decompose_loop p lb mk ds dim) in * end.
  destruct (pt_top pt) as [|a top] eqn:Et; [contradiction|]. destruct (pt_bot pt) as [|b bot]; [discriminate H2|].
  unfold matrix_multiply. destruct dg as [|d0 dg']; [discriminate L1|]. cbn [get nth_error bind].
  inversion L2 as [|? ? E0 _]; subst. rewrite map_length, Lv in E0.
  unfold poly_zero. rewrite poly_of_cons by (apply len_nonempty; rewrite repeat_length, E0; apply len_nonempty, N).
  cbn [bind mm_loop]. rewrite (to_ntt_out p np d0 l); [reflexivity|congruence|exact Hn].
Qed.

Lemma d_component x i : defined (ct_component x i).
Proof.
  unfold ct_component. destruct (Z.gtb_spec 0 i) as [|Hi]; [exact I|]. cbn [orb]. rewrite Z.geb_leb.
  destruct (Z.leb_spec (Z.of_nat (length (ct_c x))) i) as [|H]; [exact I|]. rewrite (get_ok _ _ ([] : poly)) by lia. exact I.
Qed.

Lemma component_in x i c : ct_component x i = Ok c -> In c (ct_c x).
Proof.
  unfold ct_component. destruct (Z.gtb_spec 0 i) as [|Hi]; [discriminate|]. cbn [orb]. rewrite Z.geb_leb.
  destruct (Z.leb_spec (Z.of_nat (length (ct_c x))) i) as [|H]; [discriminate|]. rewrite (get_ok _ _ ([] : poly)) by lia.
  intros E. injection E as <-. apply nth_In. lia.
Qed.

Lemma d_apply_loop p np x : p_k p <> 16%Z -> Forall (fun c => c <> [] /\ length c <= length (np_psis_c np)) (ct_c x) ->
  forall parts idx r0 r1, Forall (part_shape p) parts -> defined (apply_loop p np parts x idx r0 r1).
Proof.
  intros K Hx. rewrite Forall_forall in Hx. induction parts as [|pt parts IH]; intros idx r0 r1 H; cbn [apply_loop]; [exact I|].
  inversion H as [|? ? Hp Ht]; subst. apply d_bind; [apply d_component|]. intros c Ec. apply component_in in Ec. destruct (Hx c Ec) as [N Hl].
  apply d_bind; [apply d_apply_part; assumption|]. intros [a b] _. apply d_bind; [apply d_add|]. intros r0' _.
  apply d_bind; [apply d_add|]. intros r1' _. apply IH, Ht.
Qed.

Lemma d_relin_apply rk x : p_k (rk_p rk) <> 16%Z -> rk_parts rk <> [] -> Forall (part_shape (rk_p rk)) (rk_parts rk) ->
  Forall (fun c => c <> [] /\ length c <= length (np_psis_c (rk_np rk))) (ct_c x) -> defined (relin_apply rk x).
Proof.
  intros K N H Hx. unfold relin_apply. destruct (_ >? _)%Z; [exact I|]. cbv zeta.
  apply d_bind; [apply d_component|]. intros c1 Ec. apply component_in in Ec.
  pose proof (proj1 (Forall_forall _ _) Hx c1 Ec) as [N1 Hl].
  destruct (rk_parts rk) as [|pt parts]; [contradiction|]. inversion H as [|? ? Hp Ht]; subst.
  apply d_bind; [apply d_apply_part; assumption|]. intros [a b] _.
  apply d_bind; [apply d_apply_loop; assumption|]. intros [r0 r1] _.
  apply d_bind; [apply d_component|]. intros c0 _. apply d_bind; [apply d_add|]. intros r0' _.
  apply d_bind; [|intros; exact I]. destruct (identical_base _); [|exact I]. apply d_bind; [apply d_component|]. intros; apply d_add.
Qed.

(** ** Substitute *)

Lemma substitute_out np coeffs pw : length (np_bitrevs np) < length coeffs ->
  Forall (fun s => s < length coeffs) (np_bitrevs np) ->
  forall m i0 idx out, idx < length coeffs -> i0 <= length (np_bitrevs np) < i0 + m ->
  substitute_loop np coeffs pw (seq i0 m) idx out = UB.
Proof.
  intros Hl Hb. rewrite Forall_forall in Hb. induction m as [|m IH]; intros i0 idx out Hidx Hi; [lia|]. cbn [seq substitute_loop].
  unfold get at 1. destruct (nth_error (np_bitrevs np) idx) as [src|] eqn:Es; [|reflexivity]. cbn [bind].
  pose proof (Hb src (nth_error_In _ _ Es)) as Hs. destruct (Nat.leb_spec (length coeffs) src) as [|_]; [lia|].
  unfold get at 1. destruct (nth_error (np_bitrevs np) i0) as [dst|] eqn:Ed; [|reflexivity]. cbn [bind].
  pose proof (Hb dst (nth_error_In _ _ Ed)) as Hd. destruct (Nat.leb_spec (length coeffs) dst) as [|_]; [lia|].
  rewrite (get_ok _ _ 0%Z) by exact Hs. cbn [bind].
  assert (i0 < length (np_bitrevs np)) by (apply nth_error_Some; rewrite Ed; discriminate).
  apply IH; [apply Nat.mod_upper_bound|]; lia.
Qed.
