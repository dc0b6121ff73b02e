(** Proofs about ciphertexts with one modulus whose methods get operands that may
    be the ciphertext itself. *)
From Verif Require Import Base Montgomery MontBatch Ntt Poly PolyExt SymEnc RnsPoly RnsCt InPlace InPlaceSpec InPlaceProofs Alias AliasSpec AliasProofs AliasProofs2.
Local Open Scope Z_scope.

Lemma rows1_ok (f : nat -> nat -> store -> effect store) (bo : list Z -> list Z -> result (list Z)) s xs ys :
  (forall s a b, (a < length s)%nat -> on_vector s a (f a b) (bo (ld s a) (ld s b))) ->
  NoDup xs -> inside s xs -> inside s ys -> no_back xs ys ->
  same_as_by_value (fun s => map (ld s) xs) xs s (mem_walk2 f xs ys s) (walk2 (fun v w => checked v (bo v w)) (map (ld s) xs) (map (ld s) ys)).
Proof.
  intros Hf N I J S. apply (on_single xs).
  apply (walk_ok ld (fun a => [a]) ld (fun a => [a]) _ (fun v w => checked v (bo v w)) (fun _ _ => True)).
  - intros s0 s1 x H. apply H. now left.
  - intros s0 s1 x H. apply H. now left.
  - intros s0 x b _ Ix _ _. apply Hf. apply (inside_in _ _ _ Ix). now left.
  - rewrite flat_map_single. exact N.
  - rewrite flat_map_single. exact I.
  - rewrite flat_map_single. exact J.
  - clear - S. revert ys S. induction xs as [|x xs IH]; intros [|y ys0] S; cbn; trivial. repeat split.
    + rewrite Forall_forall. intros b' Hin a [<-|[]] [K|[]]. subst b'. exact (no_back_hd _ _ _ _ S Hin).
    + apply IH. eapply no_back_tl, S.
Qed.

(** an operand that the whole walk only reads *)
Lemma rows1_fixed (f : nat -> nat -> store -> effect store) (bo : list Z -> list Z -> list Z -> result (list Z)) s xs ys k :
  (forall s a b, (a < length s)%nat -> on_vector s a (f a b) (bo (ld s k) (ld s a) (ld s b))) ->
  NoDup xs -> inside s xs -> inside s ys -> (k < length s)%nat -> no_back xs ys -> ~ In k xs ->
  same_as_by_value (fun s => map (ld s) xs) xs s (mem_walk2 f xs ys s) (walk2 (fun v w => checked v (bo (ld s k) v w)) (map (ld s) xs) (map (ld s) ys)).
Proof.
  intros Hf N I J Hk S Nk. apply (on_single xs).
  apply (walk_fixed ld (fun a => [a]) ld (fun a => [a]) (fun s => ld s k) [k] _ (fun q v w => checked v (bo q v w)) (fun _ _ => True)).
  - intros s0 s1 x H. apply H. now left.
  - intros s0 s1 x H. apply H. now left.
  - intros s0 s1 H. apply H. now left.
  - intros s0 x b _ Ix _ _ _ _. apply Hf. apply (inside_in _ _ _ Ix). now left.
  - rewrite flat_map_single. exact N.
  - rewrite flat_map_single. exact I.
  - rewrite flat_map_single. exact J.
  - repeat constructor. exact Hk.
  - rewrite flat_map_single. intros a Ha [<-|[]]. now apply Nk.
  - clear - S. revert ys S. induction xs as [|x xs IH]; intros [|y ys0] S; cbn; trivial. repeat split.
    + rewrite Forall_forall. intros b' Hin a [<-|[]] [K|[]]. subst b'. exact (no_back_hd _ _ _ _ S Hin).
    + apply IH. eapply no_back_tl, S.
Qed.

Lemma alloc_all_eq : forall vs s, alloc_all s vs = (s ++ vs, seq (length s) (length vs)).
Proof.
  induction vs as [|v vs IH]; intros s; cbn; [now rewrite app_nil_r|]. rewrite IH, app_length, <- app_assoc. cbn.
  now rewrite Nat.add_1_r.
Qed.

Lemma ld_app_l s vs a : (a < length s)%nat -> ld (s ++ vs) a = ld s a.
Proof. intros H. unfold ld. now apply app_nth1. Qed.
Lemma ld_new s vs : map (ld (s ++ vs)) (seq (length s) (length vs)) = vs.
Proof.
  revert s. induction vs as [|v vs IH]; intros s; cbn; [reflexivity|]. f_equal.
  - unfold ld. rewrite app_nth2 by lia. now rewrite Nat.sub_diag.
  - specialize (IH (s ++ [v])). rewrite <- app_assoc in IH. cbn in IH. rewrite app_length in IH. cbn in IH. rewrite Nat.add_1_r in IH. exact IH.
Qed.

Section Ct.
Variables (s : store) (x y : cobj).
Hypothesis (N : NoDup (co_c x)) (I : inside s (co_c x)) (J : inside s (co_c y)) (S : self_or_apart (co_c x) (co_c y)).

Lemma ct_two_ok f (bo : mparams -> list Z -> list Z -> result (list Z)) :
  (forall p s a b, (a < length s)%nat -> on_vector s a (f p a b) (bo p (ld s a) (ld s b))) ->
  same_ct_as_by_value x s
    (if negb (co_pow x =? co_pow y) then refuse (s, co_c x)
     else reading (mem_pad x y s) (s, co_c x) (fun sc => let (s, c) := sc in let e := mem_walk2 (f (co_p x)) c (co_c y) s in (fst e, (snd e, c))))
    (let X := ct_at s x in let Y := ct_at s y in
     if negb (ct_pow X =? ct_pow Y) then refuse X
     else reading (pad_to (ct_p X) (ct_c X) (ct_c Y)) X (fun c => on_parts X (walk2 (fun a b => checked a (bo (ct_p X) a b)) c (ct_c Y)))).
Proof.
  intros Hf. cbv zeta. cbn [ct_at ct_make ct_p ct_c ct_pow].
  destruct (co_pow x =? co_pow y); cbn [negb]; [|split; [reflexivity|]; intros _; cbn; split; [reflexivity|]; split; [lia|reflexivity]].
  assert (Main : forall s1 c vs, s1 = s ++ vs -> map (ld s1) c = map (ld s) (co_c x) ++ vs -> NoDup c -> inside s1 c -> no_back c (co_c y) ->
    (forall a, (a < length s)%nat -> In a c -> In a (co_c x)) ->
    same_ct_as_by_value x s (let e := mem_walk2 (f (co_p x)) c (co_c y) s1 in (fst e, (snd e, c)))
      (on_parts (ct_at s x) (walk2 (fun a b => checked a (bo (co_p x) a b)) (map (ld s) (co_c x) ++ vs) (map (ld s) (co_c y))))).
  { intros s1 c vs -> Ec Nc Ic Sc Oc. assert (J1 : inside (s ++ vs) (co_c y)).
    { eapply Forall_impl; [|exact J]. cbn. intros a Q. rewrite app_length. lia. }
    pose proof (rows1_ok (f (co_p x)) (bo (co_p x)) (s ++ vs) c (co_c y) (Hf (co_p x)) Nc Ic J1 Sc) as [E F].
    rewrite Ec in E, F. replace (map (ld (s ++ vs)) (co_c y)) with (map (ld s) (co_c y)) in E, F
      by (apply map_ext_in; intros a Ha; symmetry; apply ld_app_l, (inside_in _ _ _ J Ha)).
    split; [exact E|]. intros Q. destruct (F Q) as [G1 [G2 G3]]. cbn [fst snd on_parts]. split.
    - unfold ct_at. cbn [co_c co_pow co_p]. change (map (fun a => nth a _ []) c) with (map (ld (snd (mem_walk2 (f (co_p x)) c (co_c y) (s ++ vs)))) c).
      rewrite G1. reflexivity.
    - rewrite app_length in G2. split; [lia|]. intros a Ha Na. rewrite G3; [now apply app_nth1|rewrite app_length; lia|].
      intros K. apply Na, Oc; assumption. }
  unfold mem_pad, pad_to. rewrite !map_length.
  destruct (length (co_c x) <? length (co_c y))%nat eqn:L.
  - apply Nat.ltb_lt in L. destruct S as [E|S']; [rewrite E in L; lia|].
    destruct (co_c y) as [|d0 l] eqn:Ey; [cbn in L; lia|]. cbn [get nth_error bind map]. change (nth d0 s []) with (ld s d0).
    destruct (poly_zero (co_p x) (length (ld s d0))) as [z|e|]; cbn [bind reading]; [|split; [reflexivity|]; intros _; cbn; split; [reflexivity|]; split; [lia|reflexivity]|split; [reflexivity|]; intros Q; now destruct Q].
    rewrite alloc_all_eq. cbn [reading].
    change (ld s d0 :: map (fun a => nth a s []) l) with (map (ld s) (d0 :: l)). rewrite <- Ey in *.
    set (vs := repeat z (length (co_c y) - length (co_c x))). set (new := seq (length s) (length vs)).
    assert (New : forall a, In a new -> (length s <= a < length s + length vs)%nat) by (intros a Ha; apply in_seq in Ha; exact Ha).
    apply (Main (s ++ vs) (co_c x ++ new) vs).
    + reflexivity.
    + rewrite map_app. f_equal; [|apply ld_new]. apply map_ext_in. intros a Ha. apply ld_app_l, (inside_in _ _ _ I Ha).
    + assert (Nn : NoDup new) by apply seq_NoDup.
      clearbody new vs. clear - N Nn New I. induction (co_c x) as [|a l IH]; cbn; [exact Nn|]. inversion N as [|? ? N1 N2]; subst. inversion I as [|? ? I1 I2]; subst.
      constructor; [|now apply IH]. intros K. apply in_app_or in K. destruct K as [K|K]; [now apply N1|]. apply New in K. lia.
    + apply inside_app. split; [eapply Forall_impl; [|exact I]; cbn; intros a Q; rewrite app_length; lia|].
      apply Forall_forall. intros a Ha. apply New in Ha. rewrite app_length. unfold poly in *. lia.
    + apply apart_no_back. intros a Ha Hb. apply in_app_or in Ha. destruct Ha as [Ha|Ha]; [exact (S' a Ha Hb)|]. apply New in Ha.
      apply (inside_in _ _ _ J) in Hb. lia.
    + intros a Ha Hb. apply in_app_or in Hb. destruct Hb as [Hb|Hb]; [exact Hb|]. apply New in Hb. lia.
  - cbn [reading]. rewrite <- (app_nil_r (map _ (co_c x))). change (map (fun a => nth a s []) (co_c x)) with (map (ld s) (co_c x)).
    change (map (fun a => nth a s []) (co_c y)) with (map (ld s) (co_c y)).
    apply (Main s (co_c x) []); [now rewrite app_nil_r|now rewrite app_nil_r|exact N|exact I|apply no_back_of; assumption|auto].
Qed.

Lemma ct_add_ok : same_ct_as_by_value x s (mem_ct_add x y s) (ip_ct_add (ct_at s x) (ct_at s y)).
Proof. apply (ct_two_ok mem_add batch_add). intros; now apply add_ok. Qed.
Lemma ct_sub_ok : same_ct_as_by_value x s (mem_ct_sub x y s) (ip_ct_sub (ct_at s x) (ct_at s y)).
Proof. apply (ct_two_ok mem_sub batch_sub). intros; now apply sub_ok. Qed.

Lemma fused_short f g : forall c a, (length a <= length c)%nat -> ip_fused_into f g c a = walk2 (fun u y => checked u (f u y)) c a.
Proof.
  induction c as [|u c IH]; intros [|v a] L; cbn in *; try reflexivity; [lia|]. destruct (f u v); cbn; try reflexivity.
  rewrite IH by lia. reflexivity.
Qed.

Variables (b : nat).
Hypothesis (Kb : (b < length s)%nat) (Nb : ~ In b (co_c x)).

Lemma ct_fused_ok : (length (co_c y) <= length (co_c x))%nat ->
  same_as_by_value (fun s => ct_at s x) (co_c x) s (mem_ct_fused x y b s) (ip_ct_fused (ct_at s x) (ct_at s y) (ld s b)).
Proof.
  intros L. unfold mem_ct_fused, ip_ct_fused. cbn [ct_at ct_make ct_p ct_c ct_pow]. apply if_same; [reflexivity|].
  rewrite fused_short by (rewrite !map_length; exact L). rewrite firstn_all2 by exact L. unfold on_parts.
  apply (same_view (fun s => map (ld s) (co_c x)) (with_c (ct_at s x))); [reflexivity|].
  apply (rows1_fixed (fun u v => mem_fused (co_p x) u v b) (fun q u v => batch_fused_mul_add (co_p x) u v q)); try assumption.
  - intros s0 a c Ha. now apply fused_ok.
  - now apply no_back_of.
Qed.

Lemma ct_fused_constant_ok c : (length (co_c y) <= length (co_c x))%nat ->
  same_as_by_value (fun s => ct_at s x) (co_c x) s (mem_ct_fused_constant x y c s) (ip_ct_fused_constant (ct_at s x) (ct_at s y) c).
Proof.
  intros L. unfold mem_ct_fused_constant, ip_ct_fused_constant. cbn [ct_at ct_make ct_p ct_c ct_pow]. apply if_same; [reflexivity|].
  rewrite fused_short by (rewrite !map_length; exact L). rewrite firstn_all2 by exact L. unfold on_parts.
  apply (same_view (fun s => map (ld s) (co_c x)) (with_c (ct_at s x))); [reflexivity|].
  apply (rows1_ok (mem_fused_constant (co_p x) (cp_c c) (cp_cb c)) (fun u v => batch_fused_mul_constant_add (co_p x) u v (cp_c c) (cp_cb c))); try assumption.
  - intros s0 a d Ha. now apply fused_constant_ok.
  - now apply no_back_of.
Qed.

Lemma ct_absorb_ok : same_as_by_value (fun s => ct_at s x) (co_c x) s (mem_ct_absorb x b s) (ip_ct_absorb (ct_at s x) (ld s b)).
Proof.
  unfold mem_ct_absorb, ip_ct_absorb, on_parts. cbn [ct_at ct_make ct_p ct_c ct_pow].
  apply (same_view (fun s => map (ld s) (co_c x)) (with_c (ct_at s x))); [reflexivity|].
  rewrite <- (walk2_ignore (B := poly) _ _ (map (ld s) (co_c x)) eq_refl).
  apply (rows1_fixed (fun u v => mem_mul (co_p x) u b) (fun q u v => batch_mul (co_p x) u q)); try assumption.
  - intros s0 a c Ha. now apply mul_ok.
  - apply no_back_of; [exact N|now left].
Qed.
End Ct.
