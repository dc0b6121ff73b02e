(** Proofs about methods that walk over the parts of two objects that may be the
    same. *)
From Verif Require Import Base Montgomery MontBatch Ntt Poly PolyExt SymEnc RnsPoly RnsCt InPlace InPlaceSpec InPlaceProofs Alias AliasSpec AliasProofs.
Local Open Scope Z_scope.

Definition inside (s : store) (l : list nat) : Prop := Forall (fun a => (a < length s)%nat) l.

Lemma inside_app s l m : inside s (l ++ m) <-> inside s l /\ inside s m.
Proof. apply Forall_app. Qed.
Lemma inside_in s l a : inside s l -> In a l -> (a < length s)%nat.
Proof. intros H I. exact (proj1 (Forall_forall _ _) H a I). Qed.
Lemma inside_grow l s s' m : only_changes m s s' -> inside s l -> inside s' l.
Proof. intros [H _] I. eapply Forall_impl; [|exact I]. cbn. intros a Q. lia. Qed.

Lemma nodup_app {A} (l m : list A) : NoDup (l ++ m) -> NoDup l /\ NoDup m /\ (forall a, In a l -> ~ In a m).
Proof.
  induction l as [|x l IH]; cbn; intros H; [repeat split; [constructor|exact H|intros a []]|].
  inversion H as [|? ? N D]; subst. destruct (IH D) as (P & Q & R). repeat split; [|exact Q|].
  - constructor; [|exact P]. intros I. apply N, in_or_app. now left.
  - intros a [<-|I]; [intros J; apply N, in_or_app; now right|now apply R].
Qed.

Section Walk.
Context {A B V C : Type}.
Variables (val : store -> A -> V) (foot : A -> list nat) (vb : store -> B -> C) (footb : B -> list nat).
Variables (f : A -> B -> store -> effect store) (fe : V -> C -> effect V) (P : A -> B -> Prop).
Hypothesis Hval : forall s s' x, (forall a, In a (foot x) -> nth a s' [] = nth a s []) -> val s' x = val s x.
Hypothesis Hvb : forall s s' b, (forall a, In a (footb b) -> nth a s' [] = nth a s []) -> vb s' b = vb s b.
Hypothesis Hf : forall s x b, NoDup (foot x) -> inside s (foot x) -> inside s (footb b) -> P x b ->
  same_as_by_value (fun s => val s x) (foot x) s (f x b s) (fe (val s x) (vb s b)).

(** x_i may share with b_i as P says, and shares nothing with the later b's *)
Fixpoint paired (xs : list A) (bs : list B) : Prop :=
  match xs, bs with
  | x :: xs', b :: bs' => P x b /\ Forall (fun b' => apart (foot x) (footb b')) bs' /\ paired xs' bs'
  | _, _ => True
  end.

Lemma walk_ok : forall bs xs s, NoDup (flat_map foot xs) -> inside s (flat_map foot xs) -> inside s (flat_map footb bs) -> paired xs bs ->
  same_as_by_value (fun s => map (val s) xs) (flat_map foot xs) s (mem_walk2 f xs bs s) (walk2 fe (map (val s) xs) (map (vb s) bs)).
Proof.
  induction bs as [|b bs IH]; intros xs s N I J Q; cbn [map walk2 mem_walk2].
  - split; [reflexivity|]. intros _. cbn. split; [reflexivity|]. split; [lia|reflexivity].
  - destruct xs as [|x xs]; cbn [map].
    + split; [reflexivity|]. intros K. now destruct K.
    + cbn [flat_map] in *. apply nodup_app in N. destruct N as (Nx & Nxs & Dx). apply inside_app in I, J. destruct I as [Ix Ixs], J as [Jb Jbs].
      cbn [paired] in Q. destruct Q as (Pxb & Fb & Q).
      destruct (Hf s x b Nx Ix Jb Pxb) as [E1 E2]. destruct (f x b s) as [r s1]. destruct (fe (val s x) (vb s b)) as [r' y]. cbn [fst snd] in E1, E2. subst r'.
      unfold andthen. cbn [fst snd]. destruct r as [[]|e|].
      * destruct E2 as [Ey Ch]; [intros K; discriminate K|].
        assert (Vx : map (val s1) xs = map (val s) xs).
        { apply map_ext_in. intros z Hz. apply Hval. intros a Ha. apply (proj2 Ch); [|].
          - apply (inside_in _ _ _ Ixs). apply in_flat_map. eauto.
          - intros K. apply (Dx a K). apply in_flat_map. eauto. }
        assert (Vb : map (vb s1) bs = map (vb s) bs).
        { apply map_ext_in. intros z Hz. apply Hvb. intros a Ha. apply (proj2 Ch).
          - apply (inside_in _ _ _ Jbs). apply in_flat_map. eauto.
          - intros K. rewrite Forall_forall in Fb. apply (Fb z Hz a K Ha). }
        destruct (IH xs s1 Nxs (inside_grow _ _ _ _ Ch Ixs) (inside_grow _ _ _ _ Ch Jbs) Q) as [F1 F2].
        rewrite Vx, Vb in F1, F2. destruct (walk2 fe (map (val s) xs) (map (vb s) bs)) as [r k]. cbn [fst snd] in F1, F2 |- *.
        split; [exact F1|]. intros K. destruct (F2 K) as [G1 G2]. split.
        -- cbn [fst snd]. f_equal; [|exact G1]. rewrite <- Ey. apply Hval. intros a Ha. apply (proj2 G2).
           ++ apply (inside_in _ _ _ (inside_grow _ _ _ _ Ch Ix) Ha).
           ++ intros K'. exact (Dx a Ha K').
        -- destruct Ch as [L1 C1], G2 as [L2 C2]. split; [lia|]. intros a Ha Na. rewrite C2; [apply C1|lia|]; try assumption; intros K'; apply Na, in_or_app; auto.
      * destruct E2 as [Ey Ch]; [intros K; discriminate K|]. split; [reflexivity|]. intros _. cbn [fst snd]. split.
        -- f_equal; [exact Ey|]. apply map_ext_in. intros z Hz. apply Hval. intros a Ha. apply (proj2 Ch).
           ++ apply (inside_in _ _ _ Ixs). apply in_flat_map. eauto.
           ++ intros K. apply (Dx a K). apply in_flat_map. eauto.
        -- destruct Ch as [L1 C1]. split; [lia|]. intros a Ha Na. apply C1; [exact Ha|]. intros K. apply Na, in_or_app. now left.
      * split; [reflexivity|]. intros K. now destruct K.
Qed.
End Walk.

(** the same status and a derived view of the object *)
Lemma same_view {X Y} (u : store -> X) (k : X -> Y) (w : store -> Y) l s call e : (forall s, w s = k (u s)) ->
  same_as_by_value u l s call e -> same_as_by_value w l s call (fst e, k (snd e)).
Proof. intros H [E F]. split; [exact E|]. intros Q. destruct (F Q) as [G1 G2]. split; [|exact G2]. cbn. rewrite H, G1. reflexivity. Qed.

Lemma if_same {X} (u : store -> X) l s call e v (b : bool) : u s = v -> same_as_by_value u l s call e ->
  same_as_by_value u l s (if negb b then refuse s else call) (if negb b then refuse v else e).
Proof. intros E H. destruct b; [exact H|]. now apply refuse_same. Qed.

(** the operand is the object itself or shares nothing with it *)
Definition self_or_apart (l m : list nat) : Prop := m = l \/ apart l m.

Lemma flat_map_single {A} (l : list A) : flat_map (fun a => [a]) l = l.
Proof. induction l as [|x l IH]; [reflexivity|]. cbn. now rewrite IH. Qed.

Lemma on_single {X} (l : list nat) (u : store -> X) s call e :
  same_as_by_value u (flat_map (fun a => [a]) l) s call e -> same_as_by_value u l s call e.
Proof. now rewrite flat_map_single. Qed.

(** rows: positions are met in the same order in both operands *)
Definition no_back (l m : list nat) : Prop := forall i j x, (i < j)%nat -> nth_error l i = Some x -> nth_error m j <> Some x.
Lemma no_back_of l m : NoDup l -> self_or_apart l m -> no_back l m.
Proof.
  intros N [->|H] i j x Hij E F.
  - rewrite NoDup_nth_error in N. assert (i < length l)%nat by (apply nth_error_Some; rewrite E; intros Q; discriminate Q).
    specialize (N i j H (eq_trans E (eq_sym F))). lia.
  - apply (H x); eapply nth_error_In; eassumption.
Qed.
Lemma no_back_tl x l y m : no_back (x :: l) (y :: m) -> no_back l m.
Proof. intros H i j z Hij E F. apply (H (S i) (S j) z); [lia|exact E|exact F]. Qed.
Lemma no_back_hd x l y m : no_back (x :: l) (y :: m) -> ~ In x m.
Proof. intros H I. apply In_nth_error in I. destruct I as [j E]. apply (H 0%nat (S j) x); [lia|reflexivity|exact E]. Qed.

Section Rows.
Variables (ms : list pmod).
Let vb (s : store) (mb : pmod * nat) : pmod * list Z := (fst mb, ld s (snd mb)).
Let footb (mb : pmod * nat) : list nat := [snd mb].

Lemma flat_combine : forall (ms : list pmod) (l : list nat), length ms = length l -> flat_map footb (combine ms l) = l.
Proof. induction ms0 as [|m ms0 IH]; intros [|a l] E; try discriminate E; [reflexivity|]. cbn. f_equal. apply IH. now injection E. Qed.
Lemma map_combine s : forall (ms : list pmod) (l : list nat), map (vb s) (combine ms l) = combine ms (map (ld s) l).
Proof. induction ms0 as [|m ms0 IH]; intros [|a l]; try reflexivity. cbn. f_equal. apply IH. Qed.

Lemma rows_ok (f : mparams -> nat -> nat -> store -> effect store) (bo : mparams -> list Z -> list Z -> result (list Z)) s xs ys :
  (forall p s a b, (a < length s)%nat -> on_vector s a (f p a b) (bo p (ld s a) (ld s b))) ->
  NoDup xs -> inside s xs -> inside s ys -> no_back xs ys -> length ms = length ys ->
  same_as_by_value (fun s => map (ld s) xs) xs s (mem_walk2 (fun a mb => f (pm_p (fst mb)) a (snd mb)) xs (combine ms ys) s)
    (walk2 (fun v mw => checked v (bo (pm_p (fst mw)) v (snd mw))) (map (ld s) xs) (combine ms (map (ld s) ys))).
Proof.
  intros Hf N I J S L. rewrite <- map_combine. apply (on_single xs).
  apply (walk_ok ld (fun a => [a]) vb footb _ (fun v mw => checked v (bo (pm_p (fst mw)) v (snd mw))) (fun _ _ => True)).
  - intros s0 s1 x H. apply H. now left.
  - intros s0 s1 b H. unfold vb. f_equal. apply H. now left.
  - intros s0 x b _ Ix _ _. apply Hf. apply (inside_in _ _ _ Ix). now left.
  - rewrite flat_map_single. exact N.
  - rewrite flat_map_single. exact I.
  - rewrite flat_combine by exact L. exact J.
  - clear - S. revert S. generalize ms ys. induction xs as [|x xs IH]; intros [|m ms0] [|y ys0] S; cbn; trivial. repeat split.
    + rewrite Forall_forall. intros [m' b'] Hin a [<-|[]] [K|[]]. cbn in K. subst b'. apply (no_back_hd _ _ _ _ S). now apply in_combine_r in Hin.
    + apply IH. eapply no_back_tl, S.
Qed.

Let vb3 (s : store) (mab : pmod * (nat * nat)) : pmod * (list Z * list Z) := (fst mab, (ld s (fst (snd mab)), ld s (snd (snd mab)))).
Let foot3 (mab : pmod * (nat * nat)) : list nat := [fst (snd mab); snd (snd mab)].
Lemma map_combine3 s : forall (ms : list pmod) (l k : list nat), map (vb3 s) (combine ms (combine l k)) = combine ms (combine (map (ld s) l) (map (ld s) k)).
Proof. induction ms0 as [|m ms0 IH]; intros [|a l] [|b k]; try reflexivity. cbn. f_equal. apply IH. Qed.

Lemma rows3_ok s xs ys zs :
  NoDup xs -> inside s xs -> inside s ys -> inside s zs -> no_back xs ys -> no_back xs zs ->
  same_as_by_value (fun s => map (ld s) xs) xs s
    (mem_walk2 (fun r mab => mem_fused (pm_p (fst mab)) r (fst (snd mab)) (snd (snd mab))) xs (combine ms (combine ys zs)) s)
    (walk2 (fun v mab => checked v (batch_fused_mul_add (pm_p (fst mab)) v (fst (snd mab)) (snd (snd mab)))) (map (ld s) xs)
       (combine ms (combine (map (ld s) ys) (map (ld s) zs)))).
Proof.
  intros N I J K S T. rewrite <- map_combine3. apply (on_single xs).
  apply (walk_ok ld (fun a => [a]) vb3 foot3 _ (fun v mab => checked v (batch_fused_mul_add (pm_p (fst mab)) v (fst (snd mab)) (snd (snd mab)))) (fun _ _ => True)).
  - intros s0 s1 x H. apply H. now left.
  - intros s0 s1 b H. unfold vb3. f_equal. f_equal; apply H; [now left|right; now left].
  - intros s0 x b _ Ix _ _. apply fused_ok. apply (inside_in _ _ _ Ix). now left.
  - rewrite flat_map_single. exact N.
  - rewrite flat_map_single. exact I.
  - apply Forall_forall. intros a Ha. apply in_flat_map in Ha. destruct Ha as ([m [y z]] & Hin & Ha). apply in_combine_r in Hin.
    destruct Ha as [<-|[<-|[]]]; cbn; [apply (inside_in _ _ _ J); now apply in_combine_l in Hin|apply (inside_in _ _ _ K); now apply in_combine_r in Hin].
  - clear - S T. revert S T. generalize ms ys zs. induction xs as [|x xs IH]; intros [|m ms0] [|y ys0] [|z zs0] S T; cbn; trivial. repeat split.
    + rewrite Forall_forall. intros [m' [b' c']] Hin a [<-|[]] Q. cbn in Q. apply in_combine_r in Hin.
      destruct Q as [<-|[<-|[]]]; [apply (no_back_hd _ _ _ _ S); now apply in_combine_l in Hin|apply (no_back_hd _ _ _ _ T); now apply in_combine_r in Hin].
    + apply IH; eapply no_back_tl; eassumption.
Qed.
End Rows.

(** ** RNS polynomials *)
Lemma sl_map {A B C} (f : A -> B) (l : list A) (m : list C) : same_len (map f l) m = same_len l m.
Proof. unfold same_len. now rewrite map_length. Qed.
Lemma sl_map_r {A B C} (f : A -> B) (l : list A) (m : list C) : same_len m (map f l) = same_len m l.
Proof. unfold same_len. now rewrite map_length. Qed.

Lemma poly_at_view s x vs : with_vs (poly_at s x) vs = {| rp_logn := ro_logn x; rp_vs := vs; rp_ntt := ro_ntt x |}.
Proof. reflexivity. Qed.

Section Poly.
Variables (ms : list pmod) (s : store).

Lemma rns_two_ok f bo x y : 
  (forall p s a b, (a < length s)%nat -> on_vector s a (f p a b) (bo p (ld s a) (ld s b))) ->
  NoDup (ro_rows x) -> inside s (ro_rows x) -> inside s (ro_rows y) -> no_back (ro_rows x) (ro_rows y) -> length ms = length (ro_rows y) ->
  same_as_by_value (fun s => poly_at s x) (ro_rows x) s
    (mem_walk2 (fun a mb => f (pm_p (fst mb)) a (snd mb)) (ro_rows x) (combine ms (ro_rows y)) s)
    (on_rows (poly_at s x) (walk2 (fun v mw => checked v (bo (pm_p (fst mw)) v (snd mw))) (rp_vs (poly_at s x)) (combine ms (rp_vs (poly_at s y))))).
Proof.
  intros Hf N I J S L. unfold on_rows.
  apply (same_view (fun s => map (ld s) (ro_rows x)) (with_vs (poly_at s x))); [reflexivity|].
  apply rows_ok; assumption.
Qed.

Variables (x y : robj).
Hypothesis (N : NoDup (ro_rows x)) (I : inside s (ro_rows x)) (J : inside s (ro_rows y)) (S : no_back (ro_rows x) (ro_rows y)).

Lemma rns_add_ok : same_as_by_value (fun s => poly_at s x) (ro_rows x) s (mem_rns_add ms x y s) (ip_rns_add (poly_at s x) (poly_at s y) ms).
Proof.
  unfold mem_rns_add, ip_rns_add. cbn [poly_at rp_vs] in *. rewrite sl_map, !sl_map_r.
  destruct (same_len (ro_rows y) (ro_rows x)) eqn:L1; cbn [negb]; [|now apply refuse_same]. destruct (same_len ms (ro_rows x)) eqn:L2; cbn [negb]; [|now apply refuse_same].
  apply sl_eq in L1, L2. apply (rns_two_ok mem_add batch_add x y); [intros; now apply add_ok|exact N|exact I|exact J|exact S|congruence].
Qed.
Lemma rns_sub_ok : same_as_by_value (fun s => poly_at s x) (ro_rows x) s (mem_rns_sub ms x y s) (ip_rns_sub (poly_at s x) (poly_at s y) ms).
Proof.
  unfold mem_rns_sub, ip_rns_sub. cbn [poly_at rp_vs] in *. rewrite sl_map, !sl_map_r.
  destruct (same_len (ro_rows y) (ro_rows x)) eqn:L1; cbn [negb]; [|now apply refuse_same]. destruct (same_len ms (ro_rows x)) eqn:L2; cbn [negb]; [|now apply refuse_same].
  apply sl_eq in L1, L2. apply (rns_two_ok mem_sub batch_sub x y); [intros; now apply sub_ok|exact N|exact I|exact J|exact S|congruence].
Qed.
Lemma rns_mul_ok : same_as_by_value (fun s => poly_at s x) (ro_rows x) s (mem_rns_mul ms x y s) (ip_rns_mul (poly_at s x) (poly_at s y) ms).
Proof.
  unfold mem_rns_mul, ip_rns_mul. cbn [poly_at rp_vs rp_ntt] in *. rewrite sl_map, !sl_map_r.
  destruct (same_len (ro_rows y) (ro_rows x)) eqn:L1; cbn [negb]; [|now apply refuse_same]. destruct (same_len ms (ro_rows x)) eqn:L2; cbn [negb]; [|now apply refuse_same].
  apply if_same; [reflexivity|]. apply if_same; [reflexivity|].
  apply sl_eq in L1, L2. apply (rns_two_ok mem_mul batch_mul x y); [intros; now apply mul_ok|exact N|exact I|exact J|exact S|congruence].
Qed.

Variables (z : robj).
Hypothesis (K : inside s (ro_rows z)) (T : no_back (ro_rows x) (ro_rows z)).
Lemma rns_fused_ok : same_as_by_value (fun s => poly_at s x) (ro_rows x) s (mem_rns_fused ms x y z s) (ip_rns_fused (poly_at s x) (poly_at s y) (poly_at s z) ms).
Proof.
  unfold mem_rns_fused, ip_rns_fused. cbn [poly_at rp_vs rp_ntt] in *. rewrite !sl_map, !sl_map_r.
  repeat (apply if_same; [reflexivity|]). unfold on_rows.
  apply (same_view (fun s => map (ld s) (ro_rows x)) (with_vs (poly_at s x))); [reflexivity|].
  apply rows3_ok; assumption.
Qed.
End Poly.

(** ** RNS ciphertexts *)
Lemma poly_at_frame s s' x : (forall a, In a (ro_rows x) -> nth a s' [] = nth a s []) -> poly_at s' x = poly_at s x.
Proof. intros H. unfold poly_at. f_equal. apply map_ext_in. exact H. Qed.

Lemma sub_inside s l m : inside s m -> (forall a, In a l -> In a m) -> inside s l.
Proof. intros H Q. apply Forall_forall. intros a Ha. apply (inside_in _ _ _ H), Q, Ha. Qed.

Section Ct.
Variable s : store.
Variables x y : rcobj.
Hypothesis (N : NoDup (rcells x)) (I : inside s (rcells x)) (J : inside s (rcells y)).
Hypothesis S : y = x \/ apart (rcells x) (rcells y).

(** the components of x against those of y *)
Definition match_up (u v : robj) : Prop := no_back (ro_rows u) (ro_rows v).

Lemma paired_self : forall l, NoDup (flat_map ro_rows l) -> paired ro_rows ro_rows match_up l l.
Proof.
  induction l as [|u l IH]; intros M; cbn; [exact Logic.I|]. cbn in M. apply nodup_app in M. destruct M as (M1 & M2 & M3).
  split; [apply no_back_of; [exact M1|now left]|]. split; [|now apply IH].
  rewrite Forall_forall. intros v Hv a Ha Hb. apply (M3 a Ha). apply in_flat_map. eauto.
Qed.
Lemma paired_apart : forall l m, apart (flat_map ro_rows l) (flat_map ro_rows m) -> paired ro_rows ro_rows match_up l m.
Proof.
  induction l as [|u l IH]; intros [|v m] M; cbn; trivial. cbn in M.
  assert (Q : forall w, In w (v :: m) -> apart (ro_rows u) (ro_rows w)).
  { intros w Hw a Ha Hb. apply (M a); [apply in_or_app; now left|]. change (ro_rows v ++ flat_map ro_rows m) with (flat_map ro_rows (v :: m)).
    apply in_flat_map. eauto. }
  split; [|split].
  - intros i j a _ E F. apply (Q v (or_introl eq_refl) a); eapply nth_error_In; eassumption.
  - rewrite Forall_forall. intros w Hw. apply Q. now right.
  - apply IH. intros a Ha Hb. apply (M a); apply in_or_app; now right.
Qed.
Lemma paired_ct : paired ro_rows ro_rows match_up (rco_c x) (rco_c y).
Proof. destruct S as [->|M]; [apply paired_self, N|apply paired_apart, M]. Qed.

Lemma ct_walk f (fe : rpoly -> rpoly -> effect rpoly) :
  (forall s u v, NoDup (ro_rows u) -> inside s (ro_rows u) -> inside s (ro_rows v) -> match_up u v ->
     same_as_by_value (fun s => poly_at s u) (ro_rows u) s (f u v s) (fe (poly_at s u) (poly_at s v))) ->
  same_as_by_value (fun s => rct_at s x) (rcells x) s (mem_walk2 f (rco_c x) (rco_c y) s)
    (on_c (rct_at s x) (walk2 fe (rt_c (rct_at s x)) (rt_c (rct_at s y)))).
Proof.
  intros H. unfold on_c.
  apply (same_view (fun s => map (poly_at s) (rco_c x)) (rct_with_c (rct_at s x))); [reflexivity|].
  apply (walk_ok poly_at ro_rows poly_at ro_rows f fe match_up); [apply poly_at_frame|apply poly_at_frame|exact H|exact N|exact I|exact J|exact paired_ct].
Qed.

Lemma compatible_at : rct_compatible (rct_at s x) (rct_at s y) = rco_compatible x y.
Proof. unfold rct_compatible, rco_compatible, same_len. cbn. now rewrite !map_length. Qed.

Lemma rct_add_ok : same_as_by_value (fun s => rct_at s x) (rcells x) s (mem_rct_add x y s) (ip_rct_add (rct_at s x) (rct_at s y)).
Proof.
  unfold mem_rct_add, ip_rct_add. rewrite compatible_at. apply if_same; [reflexivity|].
  apply (ct_walk (mem_rns_add (rco_ms x)) (fun a b => ip_rns_add a b (rco_ms x))).
  intros s0 u v A B C D. apply rns_add_ok; assumption.
Qed.
Lemma rct_sub_ok : same_as_by_value (fun s => rct_at s x) (rcells x) s (mem_rct_sub x y s) (ip_rct_sub (rct_at s x) (rct_at s y)).
Proof.
  unfold mem_rct_sub, ip_rct_sub. rewrite compatible_at. apply if_same; [reflexivity|].
  apply (ct_walk (mem_rns_sub (rco_ms x)) (fun a b => ip_rns_sub a b (rco_ms x))).
  intros s0 u v A B C D. apply rns_sub_ok; assumption.
Qed.
End Ct.

(** an operand that the whole walk only reads *)
Section Fixed.
Context {A B V C K : Type}.
Variables (val : store -> A -> V) (foot : A -> list nat) (vb : store -> B -> C) (footb : B -> list nat) (key : store -> K) (footk : list nat).
Variables (f : A -> B -> store -> effect store) (fe : K -> V -> C -> effect V) (P : A -> B -> Prop).
Hypothesis Hval : forall s s' x, (forall a, In a (foot x) -> nth a s' [] = nth a s []) -> val s' x = val s x.
Hypothesis Hvb : forall s s' b, (forall a, In a (footb b) -> nth a s' [] = nth a s []) -> vb s' b = vb s b.
Hypothesis Hkey : forall s s', (forall a, In a footk -> nth a s' [] = nth a s []) -> key s' = key s.
Hypothesis Hf : forall s x b, NoDup (foot x) -> inside s (foot x) -> inside s (footb b) -> inside s footk -> apart (foot x) footk -> P x b ->
  same_as_by_value (fun s => val s x) (foot x) s (f x b s) (fe (key s) (val s x) (vb s b)).

Lemma walk_fixed xs bs s : NoDup (flat_map foot xs) -> inside s (flat_map foot xs) -> inside s (flat_map footb bs) -> inside s footk ->
  apart (flat_map foot xs) footk -> paired foot footb P xs bs ->
  same_as_by_value (fun s => map (val s) xs) (flat_map foot xs) s (mem_walk2 f xs bs s) (walk2 (fe (key s)) (map (val s) xs) (map (vb s) bs)).
Proof.
  intros N I J H D Q.
  set (P' := fun x b => P x b /\ apart (foot x) footk).
  assert (G : same_as_by_value (fun s => map (val s) xs) (flat_map foot xs) s (mem_walk2 f xs (bs) s)
     (walk2 (fun v (c : C * K) => fe (snd c) v (fst c)) (map (val s) xs) (map (fun b => (vb s b, key s)) bs))).
  { apply (walk_ok val foot (fun s b => (vb s b, key s)) (fun b => footb b ++ footk) f (fun v (c : C * K) => fe (snd c) v (fst c)) P').
    - exact Hval.
    - intros s0 s1 b E. f_equal; [apply Hvb|apply Hkey]; intros a Ha; apply E, in_or_app; auto.
    - intros s0 x b A1 A2 A3 [A4 A5]. apply inside_app in A3. apply Hf; tauto.
    - exact N.
    - exact I.
    - clear - J H. induction bs as [|b bs IH]; cbn in *; [constructor|]. apply inside_app in J. destruct J as [J1 J2]. rewrite !inside_app. auto.
    - clear - Q D. revert bs Q. induction xs as [|x xs IH]; intros [|b bs] Q; cbn in *; trivial. destruct Q as (Q1 & Q2 & Q3).
      assert (Dx : apart (foot x) footk) by (intros a Ha; apply D, in_or_app; now left). split; [split; [exact Q1|exact Dx]|]. split.
      + eapply Forall_impl; [|exact Q2]. cbn. intros b' E a Ha Hb. apply in_app_or in Hb. destruct Hb as [Hb|Hb]; [exact (E a Ha Hb)|exact (Dx a Ha Hb)].
      + apply IH; [|exact Q3]. intros a Ha. apply D, in_or_app. now right. }
  assert (E : forall vs, walk2 (fun v (c : C * K) => fe (snd c) v (fst c)) vs (map (fun b => (vb s b, key s)) bs) = walk2 (fe (key s)) vs (map (vb s) bs)).
  { clear. induction bs as [|b bs IH]; intros [|v vs]; cbn; try reflexivity. destruct (fe (key s) v (vb s b)) as [[]]; try reflexivity. now rewrite IH. }
  rewrite E in G. exact G.
Qed.
End Fixed.

Lemma apart_no_back l m : apart l m -> no_back l m.
Proof. intros H i j x _ E F. apply (H x); eapply nth_error_In; eassumption. Qed.

Section Ct2.
Variable s : store.
Variables (x y : rcobj) (b : robj).
Hypothesis (N : NoDup (rcells x)) (I : inside s (rcells x)) (J : inside s (rcells y)) (K : inside s (ro_rows b)).
Hypothesis (S : y = x \/ apart (rcells x) (rcells y)) (T : apart (rcells x) (ro_rows b)).

Lemma rct_fused_ok : same_as_by_value (fun s => rct_at s x) (rcells x) s (mem_rct_fused x y b s) (ip_rct_fused (rct_at s x) (rct_at s y) (poly_at s b)).
Proof.
  unfold mem_rct_fused, ip_rct_fused. rewrite compatible_at. apply if_same; [reflexivity|]. unfold on_c.
  apply (same_view (fun s => map (poly_at s) (rco_c x)) (rct_with_c (rct_at s x))); [reflexivity|].
  apply (walk_fixed poly_at ro_rows poly_at ro_rows (fun s => poly_at s b) (ro_rows b) _ (fun k u v => ip_rns_fused u v k (rco_ms x)) match_up);
    [apply poly_at_frame|apply poly_at_frame|intros; now apply poly_at_frame| |exact N|exact I|exact J|exact K|exact T|apply (paired_ct s); assumption].
  intros s0 u v A B C D E F. apply rns_fused_ok; try assumption. now apply apart_no_back.
Qed.

Lemma walk2_ignore {A B} (f : A -> effect A) : forall (l : list A) (m : list B), length m = length l -> walk2 (fun a _ => f a) l m = walk f l.
Proof. induction l as [|a l IH]; intros [|c m] E; try discriminate E; [reflexivity|]. cbn. destruct (f a) as [[]]; try reflexivity. rewrite IH by now injection E. reflexivity. Qed.

Lemma rct_absorb_ok : same_as_by_value (fun s => rct_at s x) (rcells x) s (mem_rct_absorb x b s) (ip_rct_absorb (rct_at s x) (poly_at s b)).
Proof.
  unfold mem_rct_absorb, ip_rct_absorb, on_c.
  apply (same_view (fun s => map (poly_at s) (rco_c x)) (rct_with_c (rct_at s x))); [reflexivity|].
  rewrite <- (walk2_ignore (B := rpoly) _ (rt_c (rct_at s x)) (rt_c (rct_at s x)) eq_refl).
  apply (walk_fixed poly_at ro_rows poly_at ro_rows (fun s => poly_at s b) (ro_rows b) _ (fun k u _ => ip_rns_mul u k (rco_ms x)) match_up);
    [apply poly_at_frame|apply poly_at_frame|intros; now apply poly_at_frame| |exact N|exact I|exact I|exact K|exact T|apply paired_self, N].
  intros s0 u v A B C D E F. apply rns_mul_ok; try assumption. now apply apart_no_back.
Qed.
End Ct2.
