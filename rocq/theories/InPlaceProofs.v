(** The in-place methods against the methods that return a new object. *)
From Coq Require Import Lia.
From Verif Require Import Base Montgomery MontBatch Ntt Poly PolyExt SymEnc RnsPoly RnsCtx RnsCt RnsBfv InPlace InPlaceSpec.

Lemma ag_checked {A} (x : A) r : agrees (checked x r) r.
Proof. destruct r; reflexivity. Qed.

Lemma ag_refuse {A} (x : A) : agrees (refuse x) (Err InvalidArgument).
Proof. reflexivity. Qed.

Lemma ag_ok {A} (x : A) : agrees (Ok tt, x) (Ok x).
Proof. reflexivity. Qed.

Lemma ag_andthen {A} (e : effect A) r f g : agrees e r -> (forall y, agrees (f y) (g y)) -> agrees (andthen e f) (bind r g).
Proof. destruct r as [y|er|]; cbn; intros H1 H2; [subst e; apply H2|unfold andthen; rewrite H1; reflexivity..]. Qed.

Lemma ag_reading {A B} (r : result B) (x : A) f g : (forall b, agrees (f b) (g b)) -> agrees (reading r x f) (bind r g).
Proof. destruct r as [y|er|]; cbn; intros H; [apply H|reflexivity..]. Qed.

(** changing the type of the object *)
Lemma ag_on {A B} (e : effect A) r (k : A -> B) : agrees e r -> agrees (fst e, k (snd e)) (bind r (fun y => Ok (k y))).
Proof. destruct r as [y|er|]; cbn; intros H; [subst e; reflexivity|exact H..]. Qed.

Lemma ag_rows a e r : agrees e r -> agrees (on_rows a e) (bind r (fun vs => Ok (with_vs a vs))).
Proof. apply (ag_on e r (with_vs a)). Qed.
Lemma ag_c x e r : agrees e r -> agrees (on_c x e) (bind r (fun c => Ok (rct_with_c x c))).
Proof. apply (ag_on e r (rct_with_c x)). Qed.
Lemma ag_parts x e r : agrees e r -> agrees (on_parts x e) (bind r (fun c => Ok (with_c x c))).
Proof. apply (ag_on e r (with_c x)). Qed.

(** one step of a loop *)
Lemma ag_cons {A} (e : effect A) (es : effect (list A)) l r rs : agrees e r -> agrees es rs ->
  agrees (match e with (Ok _, y) => let (r, m) := es in (r, y :: m) | (r, y) => (r, y :: l) end)
         (do! y <- r; do! ys <- rs; Ok (y :: ys)).
Proof.
  intros H1 H2. destruct r as [y|er|]; cbn [agrees bind] in *.
  - subst e. cbn. destruct rs as [ys|er|]; cbn [agrees bind] in *; [subst es; reflexivity|destruct es; exact H2..].
  - destruct e as [[]]; cbn in *; congruence.
  - destruct e as [[]]; cbn in *; congruence.
Qed.

Lemma ag_walk {A} (f : A -> effect A) g l : (forall x, agrees (f x) (g x)) -> agrees (walk f l) (seqr (map g l)).
Proof. intros H. induction l as [|x l IH]; cbn [walk map seqr]; [reflexivity|]. apply ag_cons; [apply H|exact IH]. Qed.

Lemma ag_walk2 {A B} (f : A -> B -> effect A) g : (forall x b, agrees (f x b) (g x b)) ->
  forall m l, length l = length m -> agrees (walk2 f l m) (seqr (map2 g l m)).
Proof.
  intros H. induction m as [|b m IH]; intros [|x l] E; try discriminate E; cbn [walk2 map2 seqr]; [reflexivity|].
  apply ag_cons; [apply H|apply IH; cbn in E; lia].
Qed.

Lemma sl_true {A B} (a : list A) (b : list B) : negb (same_len a b) = false -> length a = length b.
Proof. unfold same_len. destruct (Nat.eqb_spec (length a) (length b)); [auto|discriminate]. Qed.

(** lists walked in another arrangement *)
Lemma map2_swap {A B C} (g : A -> B -> C) (h : B -> A -> C) : (forall a b, g a b = h b a) ->
  forall l m, map2 g l m = map2 h m l.
Proof. intros H. induction l as [|a l IH]; intros [|b m]; cbn; try reflexivity. rewrite H, IH. reflexivity. Qed.

Lemma map2_3 {A B C R} (g : A -> B * C -> R) (h : B -> A * C -> R) : (forall a b c, g a (b, c) = h b (a, c)) ->
  forall l m k, map2 g l (combine m k) = map2 h m (combine l k).
Proof. intros H. induction l as [|a l IH]; intros [|b m] [|c k]; cbn; try reflexivity. rewrite H, IH. reflexivity. Qed.

Lemma comb_len {A B} (a : list A) (b : list B) : length a = length b -> length (combine a b) = length a.
Proof. intros H. rewrite combine_length. lia. Qed.

(** ** RNS polynomials *)

Lemma ag_rns_neg a ms : agrees (ip_rns_neg a ms) (rns_neg_in_place a ms).
Proof.
  unfold ip_rns_neg, rns_neg_in_place. destruct (negb (same_len ms (rp_vs a))) eqn:E; [reflexivity|]. apply sl_true in E.
  pose proof (ag_walk2 (fun v m => (Ok tt, map (mneg (pm_p m)) v)) (fun v m => Ok (map (mneg (pm_p m)) v)) (fun _ _ => eq_refl) ms (rp_vs a) (eq_sym E)) as Q.
  apply (ag_rows a) in Q. replace (seqr (map2 (fun v m => Ok (map (mneg (pm_p m)) v)) (rp_vs a) ms)) with (Ok (map2 (fun m v => map (mneg (pm_p m)) v) ms (rp_vs a))) in Q; [exact Q|].
  generalize (rp_vs a). clear. induction ms as [|m ms IH]; intros [|v l]; cbn [map2 seqr bind]; try reflexivity. rewrite <- IH. reflexivity.
Qed.

Lemma ag_two f a (ws : list (list Z)) ms : length ws = length (rp_vs a) -> length ms = length (rp_vs a) ->
  agrees (on_rows a (walk2 (fun v mw => checked v (f (pm_p (fst mw)) v (snd mw))) (rp_vs a) (combine ms ws)))
         (do! vs <- each2 f ms (rp_vs a) ws; Ok (with_vs a vs)).
Proof.
  intros E1 E2. apply ag_rows. unfold each2.
  rewrite (map2_3 _ (fun v mw => f (pm_p (fst mw)) v (snd mw))) by reflexivity.
  apply ag_walk2; [intros; apply ag_checked|rewrite comb_len; lia].
Qed.

Lemma ag_rns_add a b ms : agrees (ip_rns_add a b ms) (rns_add a b ms).
Proof.
  unfold ip_rns_add, rns_add. destruct (negb (same_len (rp_vs b) (rp_vs a))) eqn:E1; [reflexivity|].
  destruct (negb (same_len ms (rp_vs a))) eqn:E2; [reflexivity|]. apply ag_two; apply sl_true; assumption.
Qed.

Lemma ag_rns_sub a b ms : agrees (ip_rns_sub a b ms) (rns_sub a b ms).
Proof.
  unfold ip_rns_sub, rns_sub. destruct (negb (same_len (rp_vs b) (rp_vs a))) eqn:E1; [reflexivity|].
  destruct (negb (same_len ms (rp_vs a))) eqn:E2; [reflexivity|]. apply ag_two; apply sl_true; assumption.
Qed.

Lemma ag_rns_mul a b ms : agrees (ip_rns_mul a b ms) (rns_mul a b ms).
Proof.
  unfold ip_rns_mul, rns_mul. destruct (negb (same_len (rp_vs b) (rp_vs a))) eqn:E1; [reflexivity|].
  destruct (negb (same_len ms (rp_vs a))) eqn:E2; [reflexivity|]. destruct (negb (rp_ntt a)); [reflexivity|].
  destruct (negb (rp_ntt b)); [reflexivity|]. apply ag_two; apply sl_true; assumption.
Qed.

Lemma ag_rns_mul_scalar a s ms : agrees (ip_rns_mul_scalar a s ms) (rns_mul_scalar a s ms).
Proof.
  unfold ip_rns_mul_scalar, rns_mul_scalar. destruct (negb (same_len ms (rp_vs a))) eqn:E; [reflexivity|]. apply sl_true in E.
  apply ag_rows. unfold each. rewrite (map2_swap _ (fun v m => batch_mul_scalar (pm_p m) v (import_int (pm_p m) s))) by reflexivity.
  apply ag_walk2; [intros; apply ag_checked|lia].
Qed.

Lemma ag_rns_mul_rnsint a zs ms : agrees (ip_rns_mul_rnsint a zs ms) (rns_mul_rnsint a zs ms).
Proof.
  unfold ip_rns_mul_rnsint, rns_mul_rnsint. destruct (negb (same_len zs (rp_vs a))) eqn:E1; [reflexivity|].
  destruct (negb (same_len ms (rp_vs a))) eqn:E2; [reflexivity|]. apply sl_true in E1, E2. apply ag_rows.
  rewrite (map2_3 _ (fun v mz => batch_mul_scalar (pm_p (fst mz)) v (snd mz))) by reflexivity.
  apply ag_walk2; [intros; apply ag_checked|rewrite comb_len; lia].
Qed.

Lemma ag_rns_fused x a b ms : agrees (ip_rns_fused x a b ms) (rns_fused_mul_add x a b ms).
Proof.
  unfold ip_rns_fused, rns_fused_mul_add. destruct (negb (same_len (rp_vs a) (rp_vs x))) eqn:E1; [reflexivity|].
  destruct (negb (same_len (rp_vs b) (rp_vs x))) eqn:E2; [reflexivity|]. destruct (negb (same_len ms (rp_vs x))) eqn:E3; [reflexivity|].
  destruct (negb (rp_ntt x)); [reflexivity|]. destruct (negb (rp_ntt a)); [reflexivity|]. destruct (negb (rp_ntt b)); [reflexivity|].
  apply sl_true in E1, E2, E3. apply ag_rows.
  rewrite (map2_3 _ (fun v mab => batch_fused_mul_add (pm_p (fst mab)) v (fst (snd mab)) (snd (snd mab)))) by reflexivity.
  apply ag_walk2; [intros; apply ag_checked|]. rewrite comb_len; [lia|]. rewrite combine_length. lia.
Qed.

(** a conversion changes the flag on success *)
Lemma ag_flag a b e r : agrees e r ->
  agrees (let (s, c) := on_rows a e in match s with Ok _ => (s, {| rp_logn := rp_logn c; rp_vs := rp_vs c; rp_ntt := b |}) | _ => (s, c) end)
         (do! vs <- r; Ok {| rp_logn := rp_logn a; rp_vs := vs; rp_ntt := b |}).
Proof. destruct r as [y|er|]; cbn; intros H; [subst e; reflexivity| |]; unfold on_rows; rewrite H; reflexivity. Qed.

Lemma ag_rns_to_ntt a ms : agrees (ip_rns_to_ntt a ms) (rns_to_ntt a ms).
Proof.
  unfold ip_rns_to_ntt, rns_to_ntt. destruct (rp_ntt a); [reflexivity|].
  destruct (negb (same_len ms (rp_vs a))) eqn:E; [reflexivity|]. apply sl_true in E.
  apply (ag_flag a true). rewrite (map2_swap _ (fun v m => forward_ntt (pm_p m) (pm_np m) v)) by reflexivity.
  apply ag_walk2; [intros; apply ag_checked|lia].
Qed.

Lemma ag_gs_blocks p np half : forall ks v idx, agrees (ip_gs_blocks p np half ks v idx) (gs_blocks p np half ks v idx).
Proof.
  induction ks as [|k ks IH]; intros v idx; cbn [ip_gs_blocks gs_blocks]; [reflexivity|].
  destruct (nth_error (np_psis_inv_c np) idx) as [c|]; [|reflexivity].
  destruct (gs_block p c half k (seq 0 half) v) as [w|e|]; cbn [bind]; [apply IH|reflexivity..].
Qed.

Lemma ag_gs_layers p np : forall f i v idx, agrees (ip_gs_layers p np f i v idx) (gs_layers p np f i v idx).
Proof.
  induction f as [|f IH]; intros i v idx; cbn [ip_gs_layers gs_layers]; [reflexivity|].
  pose proof (ag_gs_blocks p np (2 ^ i) (steps (length v) (2 * 2 ^ i)) v idx) as Q.
  destruct (gs_blocks p np (2 ^ i) (steps (length v) (2 * 2 ^ i)) v idx) as [[w j]|e|]; cbn [agrees bind] in *.
  - rewrite Q. apply IH.
  - destruct (ip_gs_blocks p np (2 ^ i) (steps (length v) (2 * 2 ^ i)) v idx) as [r [w j]]. cbn in Q. subst r. reflexivity.
  - destruct (ip_gs_blocks p np (2 ^ i) (steps (length v) (2 * 2 ^ i)) v idx) as [r [w j]]. cbn in Q. subst r. reflexivity.
Qed.

Lemma ag_inverse_ntt p np v : agrees (ip_inverse_ntt p np v) (inverse_ntt p np v).
Proof.
  unfold ip_inverse_ntt, inverse_ntt. destruct (length v =? 0)%nat; [reflexivity|]. cbv zeta.
  destruct (negb (length v =? 2 ^ Nat.log2 (length v))%nat); [reflexivity|]. apply ag_andthen; [apply ag_gs_layers|reflexivity].
Qed.

Lemma ag_rns_to_coeff a ms : agrees (ip_rns_to_coeff a ms) (rns_to_coeff a ms).
Proof.
  unfold ip_rns_to_coeff, rns_to_coeff. destruct (negb (rp_ntt a)); [reflexivity|].
  destruct (negb (same_len ms (rp_vs a))) eqn:E; [reflexivity|]. apply sl_true in E.
  apply (ag_flag a false). rewrite (map2_swap _ (fun v m => inverse_ntt (pm_p m) (pm_np m) v)) by reflexivity.
  apply ag_walk2; [intros; apply ag_inverse_ntt|lia].
Qed.

Lemma detach_len a v b : rns_detach a = Ok (v, b) -> length (rp_vs b) = (length (rp_vs a) - 1)%nat.
Proof.
  unfold rns_detach. destruct (rev (rp_vs a)) as [|x l] eqn:E; [discriminate|]. intros H. inversion H; subst. cbn.
  apply (f_equal (@length _)) in E. rewrite rev_length in *. cbn in E. lia.
Qed.

Lemma ag_reading' {A B} (r : result B) (x : A) f g : (forall b, r = Ok b -> agrees (f b) (g b)) -> agrees (reading r x f) (bind r g).
Proof. destruct r as [y|er|]; cbn; intros H; [apply H; reflexivity|reflexivity..]. Qed.

Lemma ag_andthen' {A} (e : effect A) r f g : agrees e r -> (forall y, r = Ok y -> agrees (f y) (g y)) -> agrees (andthen e f) (bind r g).
Proof. destruct r as [y|er|]; cbn; intros H1 H2; [subst e; apply H2; reflexivity|unfold andthen; rewrite H1; reflexivity..]. Qed.

Lemma mul_scalar_len a s ms b : rns_mul_scalar a s ms = Ok b -> length (rp_vs b) = length (rp_vs a).
Proof.
  unfold rns_mul_scalar. destruct (negb (same_len ms (rp_vs a))) eqn:E; [discriminate|]. apply sl_true in E. unfold each.
  destruct (seqr _) as [vs|e|] eqn:S1; cbn [bind]; try discriminate. intros H. inversion H; subst. clear H. cbn.
  revert vs S1 E. generalize (rp_vs a). clear. induction ms as [|m ms IH]; intros [|v l] vs S1 E; try discriminate E; cbn [map2 seqr bind] in S1.
  - injection S1 as <-. reflexivity.
  - cbn [batch_mul_scalar bind] in S1. destruct (seqr _) as [ws|e|] eqn:S2; cbn [bind] in S1; try discriminate S1. injection S1 as <-. cbn. f_equal.
    apply (IH l ws S2). cbn in E. lia.
Qed.

Lemma ag_rns_mod_reduce_lsb a t z ms : agrees (ip_rns_mod_reduce_lsb a t z ms) (rns_mod_reduce_lsb a t z ms).
Proof.
  unfold ip_rns_mod_reduce_lsb, rns_mod_reduce_lsb. destruct (negb (same_len ms (rp_vs a))) eqn:E1; [reflexivity|]. apply sl_true in E1.
  destruct (length (rp_vs a) <=? 1)%nat eqn:E2; [reflexivity|]. apply Nat.leb_gt in E2.
  destruct (length z =? length (rp_vs a) - 1)%nat eqn:E3; cbn [negb]; [|reflexivity]. apply Nat.eqb_eq in E3.
  apply ag_reading'. intros [dl b] HD. apply detach_len in HD. apply ag_reading. intros ml. cbv zeta. destruct (t =? 0); [reflexivity|].
  apply ag_reading. intros dl'. apply ag_andthen'; [apply ag_rns_mul_scalar|]. intros b' HB. apply mul_scalar_len in HB.
  destruct (rp_ntt b').
  - apply ag_reading. intros d1. cbv zeta. apply ag_reading. intros d2. apply ag_reading. intros d3. apply ag_andthen; [apply ag_rns_add|]. intros b2. apply ag_rns_mul_rnsint.
  - apply ag_rows. rewrite (map2_3 _ (fun v mz => let p := pm_p (fst mz) in let d := convert_balanced (pm_p ml) p dl' in
      do! d <- batch_mul_scalar p d (import_int p t); do! v <- batch_add p v d; batch_mul_scalar p v (snd mz))) by reflexivity.
    apply ag_walk2; [|rewrite comb_len; rewrite ?firstn_length; lia].
    intros v mz. cbv zeta. apply ag_reading. intros d. apply ag_andthen; [apply ag_checked|]. intros. apply ag_checked.
Qed.

Lemma ag_rns_mod_reduce_msb a z ms : agrees (ip_rns_mod_reduce_msb a z ms) (rns_mod_reduce_msb a z ms).
Proof.
  unfold ip_rns_mod_reduce_msb, rns_mod_reduce_msb. destruct (negb (same_len ms (rp_vs a))) eqn:E1; [reflexivity|]. apply sl_true in E1.
  destruct (length (rp_vs a) <=? 1)%nat eqn:E2; [reflexivity|]. apply Nat.leb_gt in E2.
  destruct (length z =? length (rp_vs a) - 1)%nat eqn:E3; cbn [negb]; [|reflexivity]. apply Nat.eqb_eq in E3.
  apply ag_reading'. intros [dl b] HD. apply detach_len in HD. apply ag_reading. intros ml. cbv zeta.
  destruct (rp_ntt b).
  - apply ag_reading. intros d1. apply ag_reading. intros d2. apply ag_andthen; [apply ag_rns_sub|]. intros b2. apply ag_rns_mul_rnsint.
  - apply ag_rows. rewrite (map2_3 _ (fun v mz => let p := pm_p (fst mz) in let d := convert_balanced (pm_p ml) p dl in
      do! v <- batch_sub p v d; batch_mul_scalar p v (snd mz))) by reflexivity.
    apply ag_walk2; [|rewrite comb_len; rewrite ?firstn_length; lia].
    intros v mz. cbv zeta. apply ag_andthen; [apply ag_checked|]. intros. apply ag_checked.
Qed.

Lemma ag_rns_scale_and_reduce D a aux t qs ps h1 h2 h3 h4 :
  agrees (ip_rns_scale_and_reduce D a aux t qs ps h1 h2 h3 h4) (rns_scale_and_reduce D a aux t qs ps h1 h2 h3 h4).
Proof.
  unfold ip_rns_scale_and_reduce, rns_scale_and_reduce. apply ag_andthen; [apply ag_rns_mul_scalar|]. intros b.
  repeat (apply ag_reading; intros ?). apply ag_andthen; [apply ag_rns_sub|]. intros. apply ag_rns_mul_rnsint.
Qed.

(** ** RNS ciphertexts *)

Lemma ag_rct_map x f g : (forall c, agrees (f c) (g c)) -> agrees (on_c x (walk f (rt_c x))) (rct_map g x).
Proof. intros H. unfold rct_map. apply ag_c, ag_walk, H. Qed.

Lemma ag_rct_neg x : agrees (ip_rct_neg x) (rct_neg x).
Proof. apply ag_rct_map. intros. apply ag_rns_neg. Qed.

Lemma compat_len x y : negb (rct_compatible x y) = false -> length (rt_c x) = length (rt_c y).
Proof. intros H. apply Bool.negb_false_iff in H. unfold rct_compatible in H. rewrite !Bool.andb_true_iff in H. destruct H as ((H & _) & _). apply Nat.eqb_eq, H. Qed.

Lemma ag_rct_add x y : agrees (ip_rct_add x y) (rct_add x y).
Proof.
  unfold ip_rct_add, rct_add. destruct (negb (rct_compatible x y)) eqn:E; [reflexivity|]. apply ag_c, ag_walk2; [intros; apply ag_rns_add|apply compat_len, E].
Qed.
Lemma ag_rct_sub x y : agrees (ip_rct_sub x y) (rct_sub x y).
Proof.
  unfold ip_rct_sub, rct_sub. destruct (negb (rct_compatible x y)) eqn:E; [reflexivity|]. apply ag_c, ag_walk2; [intros; apply ag_rns_sub|apply compat_len, E].
Qed.
Lemma ag_rct_fused x a b : agrees (ip_rct_fused x a b) (rct_fused x a b).
Proof.
  unfold ip_rct_fused, rct_fused. destruct (negb (rct_compatible x a)) eqn:E; [reflexivity|]. apply ag_c, ag_walk2; [intros; apply ag_rns_fused|apply compat_len, E].
Qed.

(** the first component only *)
Lemma ag_first {B} x (f : rpoly -> B -> effect rpoly) g b : (forall c, agrees (f c b) (g c)) ->
  agrees (on_c x (walk2 f (rt_c x) [b])) (match rt_c x with [] => UB | c0 :: cs => do! c0 <- g c0; Ok (rct_with_c x (c0 :: cs)) end).
Proof.
  intros H. destruct (rt_c x) as [|c0 cs]; [reflexivity|]. cbn [walk2]. specialize (H c0).
  destruct (g c0) as [y|e|]; cbn [agrees bind] in *.
  - rewrite H. reflexivity.
  - destruct (f c0 b) as [[] ?]; cbn in *; congruence.
  - destruct (f c0 b) as [[] ?]; cbn in *; congruence.
Qed.

Lemma ag_rct_add_plain x b : agrees (ip_rct_add_plain x b) (rct_add_plain x b).
Proof.
  unfold ip_rct_add_plain, rct_add_plain. destruct (negb _); [reflexivity|]. apply (ag_first x (fun a b => ip_rns_add a b (rt_ms x)) (fun c => rns_add c b (rt_ms x))). intros. apply ag_rns_add.
Qed.
Lemma ag_rct_sub_plain x b : agrees (ip_rct_sub_plain x b) (rct_sub_plain x b).
Proof.
  unfold ip_rct_sub_plain, rct_sub_plain. destruct (negb _); [reflexivity|]. apply (ag_first x (fun a b => ip_rns_sub a b (rt_ms x)) (fun c => rns_sub c b (rt_ms x))). intros. apply ag_rns_sub.
Qed.
Lemma ag_rct_fused_nopad x a b : agrees (ip_rct_fused_nopad x a b) (rct_fused_nopad x a b).
Proof.
  unfold ip_rct_fused_nopad, rct_fused_nopad. pose proof (ag_first x (fun u y => ip_rns_fused u y b (rt_ms x))) as Q.
  destruct (rt_c x) as [|c0 [|c1 [|]]]; try reflexivity. destruct (rt_c a) as [|a0 [|a1 [|]]]; try reflexivity.
  destruct (negb (same_len _ _)); [reflexivity|]. destruct (negb (_ =? _)); [reflexivity|].
  apply (Q (fun u => rns_fused_mul_add u a0 b (rt_ms x)) a0). intros. apply ag_rns_fused.
Qed.

Lemma ag_rct_absorb x b : agrees (ip_rct_absorb x b) (rct_absorb x b).
Proof. apply ag_rct_map. intros. apply ag_rns_mul. Qed.
Lemma ag_rct_absorb_rns x zs : agrees (ip_rct_absorb_rns x zs) (rct_absorb_rns x zs).
Proof. unfold ip_rct_absorb_rns, rct_absorb_rns. destruct (negb _); [reflexivity|]. apply ag_rct_map. intros. apply ag_rns_mul_rnsint. Qed.
Lemma ag_rct_absorb_scalar x s : agrees (ip_rct_absorb_scalar x s) (rct_absorb_scalar x s).
Proof. apply ag_rct_map. intros. apply ag_rns_mul_scalar. Qed.
Lemma ag_rct_to_ntt x : agrees (ip_rct_to_ntt x) (rct_to_ntt x).
Proof. apply ag_rct_map. intros. apply ag_rns_to_ntt. Qed.
Lemma ag_rct_to_coeff x : agrees (ip_rct_to_coeff x) (rct_to_coeff x).
Proof. apply ag_rct_map. intros. apply ag_rns_to_coeff. Qed.

Lemma ag_merge_into ms : forall z c, agrees (ip_rct_merge_into ms c z) (rct_merge_into ms c z).
Proof.
  induction z as [|y z IH]; intros [|x c]; cbn [ip_rct_merge_into rct_merge_into]; try reflexivity.
  - destruct (rlazy_export y ms) as [e|e|]; cbn [bind]; try reflexivity. specialize (IH []).
    destruct (rct_merge_into ms [] z); cbn [agrees bind] in *; [rewrite IH; reflexivity|destruct (ip_rct_merge_into ms [] z); exact IH..].
  - pose proof (ag_cons (reading (rlazy_export y ms) x (fun e => ip_rns_add x e ms)) (ip_rct_merge_into ms c z) c
      (do! e <- rlazy_export y ms; rns_add x e ms) (rct_merge_into ms c z)) as Q.
    destruct (rlazy_export y ms) as [e|e|]; cbn [bind reading] in *; try reflexivity.
    apply Q; [apply ag_rns_add|apply IH].
Qed.

Lemma ag_rct_merge x : agrees (ip_rct_merge x) (rct_merge x).
Proof.
  unfold ip_rct_merge, rct_merge. destruct (rt_lazy x) as [|y z]; [reflexivity|].
  pose proof (ag_merge_into (rt_ms x) (y :: z) (rt_c x)) as Q.
  destruct (rct_merge_into (rt_ms x) (rt_c x) (y :: z)) as [c|e|]; cbn [agrees bind] in *; unfold on_c, andthen; cbn [fst snd]; rewrite Q; reflexivity.
Qed.

Lemma ag_drop x c r : agrees c r ->
  agrees (drop_modulus (on_c x c)) (do! cs <- r; Ok {| rt_c := cs; rt_lazy := rt_lazy x; rt_ms := firstn (length (rt_ms x) - 1) (rt_ms x); rt_pow := rt_pow x |}).
Proof. destruct r as [y|e|]; cbn; intros H; unfold drop_modulus, on_c, andthen; rewrite H; reflexivity. Qed.

Lemma ag_rbgv_mod_reduce x t z : agrees (ip_rbgv_mod_reduce x t z) (rbgv_mod_reduce x t z).
Proof. unfold ip_rbgv_mod_reduce, rbgv_mod_reduce. destruct (_ <=? _)%nat; [reflexivity|]. apply ag_drop, ag_walk. intros. apply ag_rns_mod_reduce_lsb. Qed.

Lemma ag_bfv_mod_reduce c x : agrees (ip_bfv_mod_reduce c x) (bfv_mod_reduce c x).
Proof.
  unfold ip_bfv_mod_reduce, bfv_mod_reduce. cbv zeta. destruct (_ <=? _)%nat; [reflexivity|]. apply ag_reading. intros q.
  apply ag_drop, ag_walk. intros a. apply ag_reading. intros. apply ag_rns_mod_reduce_msb.
Qed.

Lemma ag_bfv_absorb_one D c ms h pl pa ci : agrees (ip_bfv_absorb_one D c ms h pl pa ci) (bfv_absorb_one D c ms h pl pa ci).
Proof.
  unfold ip_bfv_absorb_one, bfv_absorb_one. apply ag_andthen; [|intros; apply ag_checked].
  destruct (rp_ntt ci); [apply ag_rns_to_coeff|reflexivity].
Qed.

Lemma ag_bfv_absorb D c x p : agrees (ip_bfv_absorb D c x p) (bfv_absorb D c x p).
Proof.
  unfold ip_bfv_absorb, bfv_absorb. cbv zeta. destruct (negb _); [reflexivity|]. repeat (apply ag_reading; intros ?).
  apply ag_rct_map. intros. apply ag_bfv_absorb_one.
Qed.

Lemma ag_bfv_absorb_simple x p : agrees (ip_bfv_absorb_simple x p) (bfv_absorb_simple x p).
Proof. unfold ip_bfv_absorb_simple, bfv_absorb_simple. destruct (negb _); [reflexivity|]. destruct (negb _); [reflexivity|]. apply ag_rct_map. intros. apply ag_rns_mul. Qed.

(** ** Ciphertexts with one modulus *)

Lemma ag_zip f : forall d c, agrees (walk2 (fun a b => checked a (f a b)) c d) (zip_into f c d).
Proof.
  induction d as [|y d IH]; intros [|x c]; cbn [walk2 zip_into]; try reflexivity. apply ag_cons; [apply ag_checked|apply IH].
Qed.

Lemma ag_ct_add x y : agrees (ip_ct_add x y) (ct_add x y).
Proof. unfold ip_ct_add, ct_add. destruct (negb _); [reflexivity|]. apply ag_reading. intros c. apply ag_parts, ag_zip. Qed.
Lemma ag_ct_sub x y : agrees (ip_ct_sub x y) (ct_sub x y).
Proof. unfold ip_ct_sub, ct_sub. destruct (negb _); [reflexivity|]. apply ag_reading. intros c. apply ag_parts, ag_zip. Qed.
Lemma ag_ct_absorb x b : agrees (ip_ct_absorb x b) (ct_absorb x b).
Proof. apply ag_parts, ag_walk. intros. apply ag_checked. Qed.
Lemma ag_ct_absorb_scalar x s : agrees (ip_ct_absorb_scalar x s) (ct_absorb_scalar x s).
Proof. apply ag_parts, ag_walk. intros. apply ag_checked. Qed.

Lemma ag_cons' {A} (e : result A) (es : effect (list A)) l rs : agrees es rs ->
  agrees (match e with Ok z => let (r, m) := es in (r, z :: m) | Err e => (Err e, l) | UB => (UB, l) end) (do! y <- e; do! ys <- rs; Ok (y :: ys)).
Proof.
  intros H. destruct e as [y|er|]; cbn [bind]; [|reflexivity..].
  destruct rs as [ys|er|]; cbn [agrees bind] in *; [subst es; reflexivity|destruct es; exact H..].
Qed.

Lemma ag_fused_into f g : forall a c, agrees (ip_fused_into f g c a) (fused_into f g c a).
Proof. induction a as [|y a IH]; intros [|x c]; cbn [ip_fused_into fused_into]; try reflexivity; apply ag_cons'; apply IH. Qed.

Lemma ag_ct_fused x a b : agrees (ip_ct_fused x a b) (ct_fused_absorb x a b).
Proof. unfold ip_ct_fused, ct_fused_absorb. destruct (negb _); [reflexivity|]. apply ag_parts, ag_fused_into. Qed.
Lemma ag_ct_fused_constant x a b : agrees (ip_ct_fused_constant x a b) (ct_fused_absorb_constant x a b).
Proof. unfold ip_ct_fused_constant, ct_fused_absorb_constant. destruct (negb _); [reflexivity|]. apply ag_parts, ag_fused_into. Qed.

Lemma ag_lazy_create p b : forall a, agrees (ip_lazy_create p a b) (seqr (map (fun y => lazy_create p y b) a)).
Proof. induction a as [|y a IH]; cbn [ip_lazy_create map seqr]; [reflexivity|]. apply ag_cons', IH. Qed.

Lemma ag_lazy_into p b : forall z a, agrees (ip_lazy_into p z a b) (lazy_into p z a b).
Proof. induction z as [|x z IH]; intros [|y a]; cbn [ip_lazy_into lazy_into]; try reflexivity. apply ag_cons', IH. Qed.

Lemma ag_let {A B} (e : effect A) r (k : A -> B) : agrees e r -> agrees (let (s, y) := e in (s, k y)) (bind r (fun y => Ok (k y))).
Proof. intros H. apply (ag_on _ _ k) in H. destruct e. exact H. Qed.

Lemma ag_ct_fused_lazily x a b : agrees (ip_ct_fused_lazily x a b) (ct_fused_lazily x a b).
Proof.
  unfold ip_ct_fused_lazily, ct_fused_lazily. destruct (negb _); [reflexivity|]. destruct (ct_c a) as [|a0 al]; [reflexivity|].
  destruct (ct_lazy x) as [|z0 zl]; [apply ag_let, ag_lazy_create|]. apply ag_reading. intros z. apply ag_let, ag_lazy_into.
Qed.

Lemma ag_ct_merge_into p : forall z c, agrees (ip_merge_into p c z) (merge_into p c z).
Proof.
  induction z as [|y z IH]; intros [|x c]; cbn [ip_merge_into merge_into]; try reflexivity; [apply ag_cons', IH|].
  pose proof (ag_cons (reading (lazy_export p y) x (fun e => checked x (poly_add p x e))) (ip_merge_into p c z) c
      (do! e <- lazy_export p y; poly_add p x e) (merge_into p c z)) as Q.
  destruct (lazy_export p y) as [e|e|]; cbn [bind reading] in *; try reflexivity.
  apply Q; [apply ag_checked|apply IH].
Qed.

Lemma ag_ct_merge x : agrees (ip_ct_merge x) (ct_merge x).
Proof.
  unfold ip_ct_merge, ct_merge. destruct (ct_lazy x) as [|y z]; [reflexivity|].
  pose proof (ag_ct_merge_into (ct_p x) (y :: z) (ct_c x)) as Q.
  destruct (merge_into (ct_p x) (ct_c x) (y :: z)) as [c|e|]; cbn [agrees bind] in *; unfold on_parts, andthen; cbn [fst snd]; rewrite Q; reflexivity.
Qed.
