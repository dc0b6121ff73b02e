(** When an in-place call that fails has not changed the object. *)
From Coq Require Import Lia.
From Verif Require Import Base Montgomery MontBatch Ntt NttIndex NttFacts Spec Poly PolyExt SymEnc RnsPoly RnsSpec RnsCtx RnsCt RnsBfv InPlace InPlaceSpec InPlaceProofs.
Local Open Scope nat_scope.

(** the call reports no error (it may still be undefined) *)
Definition never {A} (e : effect A) : Prop := forall er, fst e <> Err er.
(** the call reports an error and has changed nothing *)
Definition refuses {A} (x : A) (e : effect A) : Prop := exists er, e = (Err er, x).

(** whether f refuses depends on the shape only *)
Definition settled {A} (P : A -> Prop) (f : A -> effect A) : Prop :=
  (forall a, P a -> never (f a)) \/ (forall a, P a -> refuses a (f a)).
Definition settled2 {A B} (P : A -> Prop) (T : B -> Prop) (f : A -> B -> effect A) : Prop :=
  (forall a b, P a -> T b -> never (f a b)) \/ (forall a b, P a -> T b -> refuses a (f a b)).

Lemma never_ok {A} (x : A) : never (Ok tt, x).
Proof. intros er. discriminate. Qed.
Lemma never_ub {A} (x : A) : never (UB, x).
Proof. intros er. discriminate. Qed.

Lemma walk_never {A} (f : A -> effect A) l : Forall (fun x => never (f x)) l -> never (walk f l).
Proof.
  induction 1 as [|x l H F IH]; cbn [walk]; [apply never_ok|]. destruct (f x) as [[u|e|] y].
  - destruct (walk f l) as [r m]. exact IH.
  - destruct (H e). reflexivity.
  - apply never_ub.
Qed.

Lemma walk_keeps {A} (P : A -> Prop) f l : settled P f -> Forall P l -> all_or_nothing (walk f l) l.
Proof.
  intros [H|H] F er E.
  - destruct (walk_never f l (Forall_impl _ H F) er E).
  - destruct F as [|x l Px F]; [discriminate E|]. cbn [walk] in *. destruct (H x Px) as (e & Ex). rewrite Ex. reflexivity.
Qed.

Lemma walk2_never {A B} (P : A -> Prop) (T : B -> Prop) f : (forall a b, P a -> T b -> never (f a b)) ->
  forall m l, Forall P l -> Forall T m -> never (walk2 f l m).
Proof.
  intros H. induction m as [|b m IH]; intros l F G; cbn [walk2]; [apply never_ok|]. destruct F as [|x l Px F]; [apply never_ub|].
  inversion G as [|? ? Tb G']; subst. specialize (H x b Px Tb). destruct (f x b) as [[u|e|] y].
  - specialize (IH l F G'). destruct (walk2 f l m) as [r k]. exact IH.
  - destruct (H e). reflexivity.
  - apply never_ub.
Qed.

Lemma walk2_refuses {A B} (P : A -> Prop) (T : B -> Prop) f : (forall a b, P a -> T b -> refuses a (f a b)) ->
  forall m l, Forall P l -> Forall T m -> l <> [] -> m <> [] -> refuses l (walk2 f l m).
Proof.
  intros H [|b m] [|x l] F G N1 N2; try congruence. inversion F; inversion G; subst. destruct (H x b) as (e & E); try assumption.
  exists e. cbn [walk2]. rewrite E. reflexivity.
Qed.

Lemma walk2_keeps {A B} (P : A -> Prop) (T : B -> Prop) f l m : settled2 P T f -> Forall P l -> Forall T m -> all_or_nothing (walk2 f l m) l.
Proof.
  intros [H|H] F G er E.
  - destruct (walk2_never P T f H m l F G er E).
  - destruct m as [|b m]; [discriminate E|]. destruct l as [|x l]; [discriminate E|].
    destruct (walk2_refuses P T f H (b :: m) (x :: l) F G ltac:(discriminate) ltac:(discriminate)) as (e & Q). rewrite Q. reflexivity.
Qed.

Lemma with_same a : with_vs a (rp_vs a) = a.
Proof. destruct a; reflexivity. Qed.
Lemma rct_with_same x : rct_with_c x (rt_c x) = x.
Proof. destruct x; reflexivity. Qed.
Lemma with_c_same x : with_c x (ct_c x) = x.
Proof. destruct x; reflexivity. Qed.

Lemma rows_refuse a e : refuses (rp_vs a) e -> refuses a (on_rows a e).
Proof. intros (er & ->). exists er. unfold on_rows. cbn [fst snd]. rewrite with_same. reflexivity. Qed.
Lemma c_keeps x e : all_or_nothing e (rt_c x) -> all_or_nothing (on_c x e) x.
Proof. intros H er E. cbn in *. rewrite (H er E). apply rct_with_same. Qed.
Lemma parts_keeps x e : all_or_nothing e (ct_c x) -> all_or_nothing (on_parts x e) x.
Proof. intros H er E. cbn in *. rewrite (H er E). apply with_c_same. Qed.
Lemma refuse_keeps {A} (x : A) : all_or_nothing (refuse x) x.
Proof. intros er E. reflexivity. Qed.
Lemma checked_keeps {A} (x : A) r : all_or_nothing (checked x r) x.
Proof. intros er E. destruct r; [discriminate E|reflexivity..]. Qed.

Lemma settled_if {A} (P : A -> Prop) (b : bool) f : settled P f -> settled P (fun a => if b then refuse a else f a).
Proof. destruct b; [intros _; right; intros a _; exists InvalidArgument; reflexivity|auto]. Qed.
Lemma settled2_if {A B} (P : A -> Prop) (T : B -> Prop) (b : bool) f : settled2 P T f -> settled2 P T (fun a c => if b then refuse a else f a c).
Proof. destruct b; [intros _; right; intros a c _ _; exists InvalidArgument; reflexivity|auto]. Qed.

(** rows of two polynomials *)
Lemma batch_settled f d d' : (forall p v w, length v <> length w -> f p v w = Err InvalidArgument) ->
  (forall p v w er, length v = length w -> f p v w <> Err er) ->
  settled2 (fun v : list Z => length v = 2 ^ d) (fun mw : pmod * list Z => length (snd mw) = 2 ^ d')
    (fun v mw => checked v (f (pm_p (fst mw)) v (snd mw))).
Proof.
  intros H1 H2. destruct (Nat.eq_dec (2 ^ d) (2 ^ d')) as [E|E]; [left|right]; intros v [m w] Hv Hw; cbn [fst snd] in *.
  - intros er. specialize (H2 (pm_p m) v w). destruct (f (pm_p m) v w) as [y|e|]; try discriminate. intros _. apply (H2 e); congruence.
  - exists InvalidArgument. rewrite H1 by congruence. reflexivity.
Qed.

Lemma comb_snd {A B} (P : B -> Prop) (l : list A) m : Forall P m -> Forall (fun x => P (snd x)) (combine l m).
Proof. intros H. rewrite Forall_forall in *. intros [a b] I. apply in_combine_r in I. auto. Qed.

Lemma nonempty {A} (l : list A) n : length l = n -> 0 < n -> l <> [].
Proof. intros H1 H2 ->. cbn in H1. lia. Qed.

Lemma two_settled f ms d l b d' b' : (forall p v w, length v <> length w -> f p v w = Err InvalidArgument) ->
  (forall p v w er, length v = length w -> f p v w <> Err er) -> 0 < l -> length ms = l ->
  settled2 (shaped d l b) (shaped d' l b')
    (fun a c => on_rows a (walk2 (fun v mw => checked v (f (pm_p (fst mw)) v (snd mw))) (rp_vs a) (combine ms (rp_vs c)))).
Proof.
  intros H1 H2 Hl Hm. destruct (batch_settled f d d' H1 H2) as [H|H]; [left|right]; intros a c (A1 & A2 & _) (C1 & C2 & _).
  - exact (walk2_never _ _ _ H _ _ A2 (comb_snd _ ms _ C2)).
  - apply rows_refuse. apply (walk2_refuses _ _ _ H _ _ A2 (comb_snd _ ms _ C2)); [apply (nonempty _ l); assumption|].
    apply (nonempty _ l); [|exact Hl]. rewrite combine_length. lia.
Qed.

Lemma badd p v w : length v <> length w -> batch_add p v w = Err InvalidArgument.
Proof. unfold batch_add, same_len. destruct (Nat.eqb_spec (length v) (length w)); congruence. Qed.
Lemma badd' p v w er : length v = length w -> batch_add p v w <> Err er.
Proof. unfold batch_add, same_len. destruct (Nat.eqb_spec (length v) (length w)); congruence. Qed.
Lemma bsub p v w : length v <> length w -> batch_sub p v w = Err InvalidArgument.
Proof. unfold batch_sub, same_len. destruct (Nat.eqb_spec (length v) (length w)); congruence. Qed.
Lemma bsub' p v w er : length v = length w -> batch_sub p v w <> Err er.
Proof. unfold batch_sub, same_len. destruct (Nat.eqb_spec (length v) (length w)); congruence. Qed.
Lemma bmul p v w : length v <> length w -> batch_mul p v w = Err InvalidArgument.
Proof. unfold batch_mul, same_len. destruct (Nat.eqb_spec (length v) (length w)); congruence. Qed.
Lemma bmul' p v w er : length v = length w -> batch_mul p v w <> Err er.
Proof. unfold batch_mul, same_len. destruct (Nat.eqb_spec (length v) (length w)); congruence. Qed.

(** the tests on the numbers of moduli and on the form depend on the shape only *)
Lemma settled2_ext {A B} (P : A -> Prop) (T : B -> Prop) f g : (forall a b, P a -> T b -> f a b = g a b) -> settled2 P T g -> settled2 P T f.
Proof. intros E [H|H]; [left|right]; intros a b Pa Tb; rewrite (E a b Pa Tb); auto. Qed.
Lemma settled_ext {A} (P : A -> Prop) f g : (forall a, P a -> f a = g a) -> settled P g -> settled P f.
Proof. intros E [H|H]; [left|right]; intros a Pa; rewrite (E a Pa); auto. Qed.

Lemma add_settled ms d l b d' l' b' : 0 < l -> settled2 (shaped d l b) (shaped d' l' b') (fun a c => ip_rns_add a c ms).
Proof.
  intros Hl. apply settled2_ext with (g := fun a c => if negb (l' =? l) then refuse a else if negb (length ms =? l) then refuse a else
    on_rows a (walk2 (fun v mw => checked v (batch_add (pm_p (fst mw)) v (snd mw))) (rp_vs a) (combine ms (rp_vs c)))).
  - intros a c (A1 & _) (C1 & _). unfold ip_rns_add, same_len. rewrite A1, C1. reflexivity.
  - destruct (Nat.eqb_spec l' l) as [->|N]; cbn [negb]; [|right; intros; exists InvalidArgument; reflexivity].
    destruct (Nat.eqb_spec (length ms) l); cbn [negb]; [|right; intros; exists InvalidArgument; reflexivity].
    apply two_settled; auto using badd, badd'.
Qed.

Lemma sub_settled ms d l b d' l' b' : 0 < l -> settled2 (shaped d l b) (shaped d' l' b') (fun a c => ip_rns_sub a c ms).
Proof.
  intros Hl. apply settled2_ext with (g := fun a c => if negb (l' =? l) then refuse a else if negb (length ms =? l) then refuse a else
    on_rows a (walk2 (fun v mw => checked v (batch_sub (pm_p (fst mw)) v (snd mw))) (rp_vs a) (combine ms (rp_vs c)))).
  - intros a c (A1 & _) (C1 & _). unfold ip_rns_sub, same_len. rewrite A1, C1. reflexivity.
  - destruct (Nat.eqb_spec l' l) as [->|N]; cbn [negb]; [|right; intros; exists InvalidArgument; reflexivity].
    destruct (Nat.eqb_spec (length ms) l); cbn [negb]; [|right; intros; exists InvalidArgument; reflexivity].
    apply two_settled; auto using bsub, bsub'.
Qed.

Lemma mul_settled ms d l b d' l' b' : 0 < l -> settled2 (shaped d l b) (shaped d' l' b') (fun a c => ip_rns_mul a c ms).
Proof.
  intros Hl. apply settled2_ext with (g := fun a c => if negb (l' =? l) then refuse a else if negb (length ms =? l) then refuse a else
    if negb b then refuse a else if negb b' then refuse a else
    on_rows a (walk2 (fun v mw => checked v (batch_mul (pm_p (fst mw)) v (snd mw))) (rp_vs a) (combine ms (rp_vs c)))).
  - intros a c (A1 & _ & A3) (C1 & _ & C3). unfold ip_rns_mul, same_len. rewrite A1, C1, A3, C3. reflexivity.
  - destruct (Nat.eqb_spec l' l) as [->|N]; cbn [negb]; [|right; intros; exists InvalidArgument; reflexivity].
    destruct (Nat.eqb_spec (length ms) l); cbn [negb]; [|right; intros; exists InvalidArgument; reflexivity].
    apply settled2_if, settled2_if. apply two_settled; auto using bmul, bmul'.
Qed.

Lemma neg_settled ms d l b : settled (shaped d l b) (fun a => ip_rns_neg a ms).
Proof.
  apply settled_ext with (g := fun a => if negb (length ms =? l) then refuse a else on_rows a (walk2 (fun v m => (Ok tt, map (mneg (pm_p m)) v)) (rp_vs a) ms)).
  - intros a (A1 & _). unfold ip_rns_neg, same_len. rewrite A1. reflexivity.
  - apply settled_if. left. intros a (A1 & A2 & _).
    apply (walk2_never (fun _ => True) (fun _ => True)); [intros; apply never_ok|apply Forall_forall; auto..].
Qed.

Lemma mul_scalar_settled ms s d l b : settled (shaped d l b) (fun a => ip_rns_mul_scalar a s ms).
Proof.
  apply settled_ext with (g := fun a => if negb (length ms =? l) then refuse a else
    on_rows a (walk2 (fun v m => checked v (batch_mul_scalar (pm_p m) v (import_int (pm_p m) s))) (rp_vs a) ms)).
  - intros a (A1 & _). unfold ip_rns_mul_scalar, same_len. rewrite A1. reflexivity.
  - apply settled_if. left. intros a (A1 & A2 & _).
    apply (walk2_never (fun _ => True) (fun _ => True)); [intros; apply never_ok|apply Forall_forall; auto..].
Qed.

Lemma mul_rnsint_settled ms zs d l b : settled (shaped d l b) (fun a => ip_rns_mul_rnsint a zs ms).
Proof.
  apply settled_ext with (g := fun a => if negb (length zs =? l) then refuse a else if negb (length ms =? l) then refuse a else
    on_rows a (walk2 (fun v mz => checked v (batch_mul_scalar (pm_p (fst mz)) v (snd mz))) (rp_vs a) (combine ms zs))).
  - intros a (A1 & _). unfold ip_rns_mul_rnsint, same_len. rewrite A1. reflexivity.
  - apply settled_if, settled_if. left. intros a (A1 & A2 & _).
    apply (walk2_never (fun _ => True) (fun _ => True)); [intros; apply never_ok|apply Forall_forall; auto..].
Qed.

Lemma bfused p v u w : length v <> length u \/ length v <> length w -> batch_fused_mul_add p v u w = Err InvalidArgument.
Proof.
  unfold batch_fused_mul_add, same_len. intros [H|H]; [destruct (Nat.eqb_spec (length v) (length u)); [contradiction|reflexivity]|].
  destruct (Nat.eqb_spec (length v) (length w)); [contradiction|]. destruct (length v =? length u); reflexivity.
Qed.

Lemma seqr_fine {A} (l : list (result A)) er : Forall (fun r => forall e, r <> Err e) l -> seqr l <> Err er.
Proof.
  induction 1 as [|r l H F IH]; cbn [seqr]; [discriminate|]. destruct r as [y|e|]; cbn [bind]; [|destruct (H e eq_refl)|discriminate].
  destruct (seqr l) as [ys|e|]; cbn [bind]; congruence.
Qed.

Lemma map2_all {A B C} (Q : C -> Prop) (f : A -> B -> C) : (forall a b, Q (f a b)) -> forall l m, Forall Q (map2 f l m).
Proof. intros H. induction l as [|a l IH]; intros [|b m]; cbn; constructor; auto. Qed.

Lemma fma_fine p n a b er : fused_mul_add p n a b <> Err er.
Proof.
  unfold fused_mul_add. cbv zeta. destruct (mul_int _ _ _) as [u|e|] eqn:E; cbn [bind]; try discriminate.
  unfold mul_int in E. repeat match type of E with context [if ?c then _ else _] => destruct c end; discriminate E.
Qed.

Lemma bfused' p v u w er : length v = length u -> length v = length w -> batch_fused_mul_add p v u w <> Err er.
Proof.
  intros H1 H2. unfold batch_fused_mul_add, same_len. rewrite <- H1, <- H2, Nat.eqb_refl. cbn [negb orb].
  apply seqr_fine, map2_all. intros. apply fma_fine.
Qed.

Lemma fused_settled ms d l b d1 l1 b1 c2 d2 l2 b2 : 0 < l -> shaped d2 l2 b2 c2 ->
  settled2 (shaped d l b) (shaped d1 l1 b1) (fun a c => ip_rns_fused a c c2 ms).
Proof.
  intros Hl (D1 & D2 & D3).
  apply settled2_ext with (g := fun a c => if negb (l1 =? l) then refuse a else if negb (l2 =? l) then refuse a else if negb (length ms =? l) then refuse a else
    if negb b then refuse a else if negb b1 then refuse a else if negb b2 then refuse a else
    on_rows a (walk2 (fun v mab => checked v (batch_fused_mul_add (pm_p (fst mab)) v (fst (snd mab)) (snd (snd mab)))) (rp_vs a) (combine ms (combine (rp_vs c) (rp_vs c2))))).
  - intros a c (A1 & _ & A3) (C1 & _ & C3). unfold ip_rns_fused, same_len. rewrite A1, C1, D1, A3, C3, D3. reflexivity.
  - destruct (Nat.eqb_spec l1 l) as [->|N1]; cbn [negb]; [|right; intros; exists InvalidArgument; reflexivity].
    destruct (Nat.eqb_spec l2 l) as [->|N2]; cbn [negb]; [|right; intros; exists InvalidArgument; reflexivity].
    destruct (Nat.eqb_spec (length ms) l) as [Em|]; cbn [negb]; [|right; intros; exists InvalidArgument; reflexivity].
    apply settled2_if, settled2_if, settled2_if.
    assert (TT : forall c, Forall (fun v => length v = 2 ^ d1) (rp_vs c) ->
      Forall (fun mab : pmod * (list Z * list Z) => length (fst (snd mab)) = 2 ^ d1 /\ length (snd (snd mab)) = 2 ^ d2) (combine ms (combine (rp_vs c) (rp_vs c2)))).
    { intros c H. apply (comb_snd (fun vw => length (fst vw) = 2 ^ d1 /\ length (snd vw) = 2 ^ d2)). rewrite Forall_forall in *. intros [v w] I.
      pose proof (in_combine_l _ _ _ _ I). pose proof (in_combine_r _ _ _ _ I). cbn. auto. }
    destruct (Nat.eq_dec (2 ^ d) (2 ^ d1)) as [E1|E1]; [destruct (Nat.eq_dec (2 ^ d) (2 ^ d2)) as [E2|E2]|]; [left|right|right].
    + intros a c (A1 & A2 & _) (C1 & C2 & _). refine (walk2_never _ _ _ _ _ _ A2 (TT c C2)). intros v [m [u w]] Hv (Hu & Hw). cbn [fst snd] in *.
      intros er. pose proof (bfused' (pm_p m) v u w) as Q. destruct (batch_fused_mul_add (pm_p m) v u w) as [y|e|]; try discriminate. intros _. apply (Q e); congruence.
    + intros a c (A1 & A2 & _) (C1 & C2 & _). apply rows_refuse. refine (walk2_refuses _ _ _ _ _ _ A2 (TT c C2) _ _).
      * intros v [m [u w]] Hv (Hu & Hw). cbn [fst snd] in *. exists InvalidArgument. rewrite bfused by (right; congruence). reflexivity.
      * apply (nonempty _ l); assumption.
      * apply (nonempty _ l); [|exact Hl]. rewrite !combine_length. lia.
    + intros a c (A1 & A2 & _) (C1 & C2 & _). apply rows_refuse. refine (walk2_refuses _ _ _ _ _ _ A2 (TT c C2) _ _).
      * intros v [m [u w]] Hv (Hu & Hw). cbn [fst snd] in *. exists InvalidArgument. rewrite bfused by (left; congruence). reflexivity.
      * apply (nonempty _ l); assumption.
      * apply (nonempty _ l); [|exact Hl]. rewrite !combine_length. lia.
Qed.

Lemma flag_never a b e : never e ->
  never (let (s, c) := on_rows a e in match s with Ok _ => (s, {| rp_logn := rp_logn c; rp_vs := rp_vs c; rp_ntt := b |}) | _ => (s, c) end).
Proof. intros H er. specialize (H er). unfold on_rows. destruct (fst e); cbn in *; congruence. Qed.

Lemma forward_fine p np v d er : length v = 2 ^ d -> forward_ntt p np v <> Err er.
Proof.
  intros H. unfold forward_ntt. rewrite H, Nat.log2_pow2, Nat.eqb_refl by lia. destruct (2 ^ d =? 0); [discriminate|]. cbn [negb].
  assert (Q : forall i v idx e, ct_layers p np i v idx <> Err e).
  { induction i as [|i IH]; intros u idx e; cbn [ct_layers]; [discriminate|].
    assert (R : forall ks u idx e, ct_blocks p np (Nat.odd i) (2 ^ i) ks u idx <> Err e).
    { induction ks as [|k ks IHk]; intros u' idx' e'; cbn [ct_blocks]; [discriminate|]. unfold get. destruct (nth_error _ _); cbn [bind]; [apply IHk|discriminate]. }
    destruct (ct_blocks _ _ _ _ _ _ _) as [[w j]|e'|] eqn:E; cbn [bind]; [apply IH|destruct (R _ _ _ _ E)|discriminate]. }
  apply Q.
Qed.

Lemma to_ntt_settled ms d l b : settled (shaped d l b) (fun a => ip_rns_to_ntt a ms).
Proof.
  apply settled_ext with (g := fun a => if b then refuse a else if negb (length ms =? l) then refuse a else
    let (r, b) := on_rows a (walk2 (fun v m => checked v (forward_ntt (pm_p m) (pm_np m) v)) (rp_vs a) ms) in
    match r with Ok _ => (r, {| rp_logn := rp_logn b; rp_vs := rp_vs b; rp_ntt := true |}) | _ => (r, b) end).
  - intros a (A1 & _ & A3). unfold ip_rns_to_ntt, same_len. rewrite A1, A3. reflexivity.
  - apply settled_if, settled_if. left. intros a (A1 & A2 & _). apply flag_never.
    apply (walk2_never (fun v => length v = 2 ^ d) (fun _ => True)); [|exact A2|apply Forall_forall; auto].
    intros v m Hv _ er. pose proof (forward_fine (pm_p m) (pm_np m) v d) as Q. destruct (forward_ntt _ _ v) as [w|e|]; try discriminate. intros _. apply (Q e Hv eq_refl).
Qed.

(** ** the inverse transform of a vector not longer than the table *)

Lemma gs_blocks_fine p np half B v idx : idx + B <= length (np_psis_inv_c np) -> B * (2 * half) = length v -> 0 < half ->
  exists w, gs_blocks p np half (steps (length v) (2 * half)) v idx = Ok (w, idx + B) /\ length w = length v.
Proof.
  intros H1 H2 Hh. assert (ES : steps (length v) (2 * half) = map (fun b => b * (2 * half)) (seq 0 B)) by (rewrite <- H2; apply steps_eq; lia).
  rewrite ES, gs_blocks_pass by lia.
  eexists. split; [reflexivity|]. apply bf_pass_length.
Qed.

Lemma inverse_fine p np v d : length v = 2 ^ d -> 2 ^ d <= length (np_psis_inv_c np) -> exists w, inverse_ntt p np v = Ok w /\ length w = 2 ^ d.
Proof.
  intros H T. unfold inverse_ntt. assert (P0 : 2 ^ d <> 0) by (apply Nat.pow_nonzero; lia).
  rewrite H, Nat.log2_pow2, Nat.eqb_refl by lia. destruct (Nat.eqb_spec (2 ^ d) 0); [lia|]. cbn [negb].
  assert (Q : forall f i v, i + f = d -> length v = 2 ^ d -> exists w, gs_layers p np f i v (2 ^ d - 2 ^ (d - i)) = Ok w /\ length w = 2 ^ d).
  { induction f as [|f IH]; intros i u Hi Hu; cbn [gs_layers]; [eauto|].
    assert (P1 : 2 ^ i <> 0) by (apply Nat.pow_nonzero; lia).
    assert (E1 : 2 ^ (d - i) = 2 * 2 ^ (d - S i)) by (rewrite <- Nat.pow_succ_r'; f_equal; lia).
    assert (E2 : 2 ^ (d - S i) * (2 * 2 ^ i) = 2 ^ d) by (rewrite <- Nat.pow_succ_r', <- Nat.pow_add_r; f_equal; lia).
    destruct (gs_blocks_fine p np (2 ^ i) (2 ^ (d - S i)) u (2 ^ d - 2 ^ (d - i))) as (w & Ew & Lw); try nia.
    rewrite Ew. cbn [bind]. replace (2 ^ d - 2 ^ (d - i) + 2 ^ (d - S i)) with (2 ^ d - 2 ^ (d - S i)) by nia.
    apply IH; lia. }
  destruct (Q d 0 v ltac:(lia) H) as (w & Ew & Lw). rewrite Nat.sub_0_r, Nat.sub_diag in Ew. rewrite Ew. cbn [bind].
  eexists. split; [reflexivity|]. rewrite map_length. exact Lw.
Qed.

Lemma table_len k L m : mod_ok k L m -> length (np_psis_inv_c (pm_np m)) = 2 ^ L.
Proof.
  intros (HP & HN). pose proof (init_wellformed k _ _ L _ HP HN) as W. cbv zeta in W.
  destruct W as (_ & _ & _ & _ & _ & _ & L2 & _ & _ & C & _). rewrite C, map_length. exact L2.
Qed.

Lemma inverse_fine_ok k L m v d : mod_ok k L m -> d <= L -> length v = 2 ^ d -> exists w, inverse_ntt (pm_p m) (pm_np m) v = Ok w /\ length w = 2 ^ d.
Proof. intros M H Hv. apply inverse_fine; [exact Hv|]. rewrite (table_len _ _ _ M). apply Nat.pow_le_mono_r; lia. Qed.

Lemma never_of {A} (e : effect A) r : agrees e r -> (forall er, r <> Err er) -> never e.
Proof. destruct r as [y|er|]; cbn; intros H N er'; [subst e; discriminate|destruct (N er eq_refl)|rewrite H; discriminate]. Qed.

Lemma to_coeff_settled k L ms d l b : moduli_ok k L ms -> d <= L -> settled (shaped d l b) (fun a => ip_rns_to_coeff a ms).
Proof.
  intros OK Hd. apply settled_ext with (g := fun a => if negb b then refuse a else if negb (length ms =? l) then refuse a else
    let (r, b) := on_rows a (walk2 (fun v m => ip_inverse_ntt (pm_p m) (pm_np m) v) (rp_vs a) ms) in
    match r with Ok _ => (r, {| rp_logn := rp_logn b; rp_vs := rp_vs b; rp_ntt := false |}) | _ => (r, b) end).
  - intros a (A1 & _ & A3). unfold ip_rns_to_coeff, same_len. rewrite A1, A3. reflexivity.
  - apply settled_if, settled_if. left. intros a (A1 & A2 & _). apply flag_never.
    apply (walk2_never (fun v => length v = 2 ^ d) (mod_ok k L)); [|exact A2|exact OK].
    intros v m Hv Hm. apply (never_of _ _ (ag_inverse_ntt _ _ _)). destruct (inverse_fine_ok k L m v d Hm Hd Hv) as (w & -> & _). discriminate.
Qed.

(** ** modulus reduction *)

(** no error, and the result is as stated if there is one *)
Definition fine {A} (Q : A -> Prop) (r : result A) : Prop := match r with Ok y => Q y | Err _ => False | UB => True end.

Lemma fine_bind {A B} (Q : A -> Prop) (R : B -> Prop) r f : fine Q r -> (forall y, Q y -> fine R (f y)) -> fine R (bind r f).
Proof. destruct r; cbn; intros; auto; contradiction. Qed.
Lemma fine_err {A} (Q : A -> Prop) r er : fine Q r -> r <> Err er.
Proof. destruct r; cbn; intros; [discriminate|contradiction|discriminate]. Qed.

Lemma seqr_rows {A B} (Q : A -> Prop) (P : B -> Prop) (f : pmod -> B -> result A) : (forall m b, P b -> fine Q (f m b)) ->
  forall ms l, length ms = length l -> Forall P l -> fine (fun r => Forall Q r /\ length r = length l) (seqr (map2 f ms l)).
Proof.
  intros H. induction ms as [|m ms IH]; intros [|b l] E F; try discriminate E; cbn [map2 seqr]; [cbn; auto|].
  inversion F as [|? ? Pb F']; subst. apply (fine_bind Q); [apply H, Pb|]. intros y Qy.
  apply (fine_bind _ _ _ _ (IH l ltac:(cbn in E; lia) F')). intros ys (H1 & H2). cbn. auto.
Qed.

Lemma comb_fst {A B} (P : A -> Prop) (l : list A) (m : list B) : Forall P l -> Forall (fun x => P (fst x)) (combine l m).
Proof. intros H. rewrite Forall_forall in *. intros [a b] I. apply in_combine_l in I. auto. Qed.

Lemma fine_mul_scalar a s ms d l b : shaped d l b a -> length ms = l -> fine (shaped d l b) (rns_mul_scalar a s ms).
Proof.
  intros (A1 & A2 & A3) E. unfold rns_mul_scalar, same_len, each. rewrite A1, E, Nat.eqb_refl. cbn [negb].
  eapply fine_bind; [apply (seqr_rows (fun v => length v = 2 ^ d) (fun v => length v = 2 ^ d)); [|congruence|exact A2]|].
  - intros m v Hv. cbn. rewrite map_length. exact Hv.
  - intros vs (V1 & V2). cbn. unfold shaped. cbn. repeat split; try assumption. congruence.
Qed.

Lemma fine_mul_rnsint a zs ms d l b : shaped d l b a -> length ms = l -> length zs = l -> fine (shaped d l b) (rns_mul_rnsint a zs ms).
Proof.
  intros (A1 & A2 & A3) E1 E2. unfold rns_mul_rnsint, same_len. rewrite A1, E1, E2, Nat.eqb_refl. cbn [negb].
  eapply fine_bind; [apply (seqr_rows (fun v => length v = 2 ^ d) (fun vz => length (fst vz) = 2 ^ d))|].
  - intros m v Hv. cbn. rewrite map_length. exact Hv.
  - rewrite combine_length. lia.
  - apply (comb_fst (fun v : list Z => length v = 2 ^ d)), A2.
  - intros vs (V1 & V2). cbn. unfold shaped. cbn. repeat split; try assumption. rewrite V2, combine_length. lia.
Qed.

Lemma map2_len {A B C} (f : A -> B -> C) : forall l m, length (map2 f l m) = Nat.min (length l) (length m).
Proof. induction l as [|a l IH]; intros [|b m]; cbn; auto. Qed.

Lemma fine_two f a c ms d l b b' : (forall p v w, length v = length w -> fine (fun u : list Z => length u = length v) (f p v w)) ->
  shaped d l b a -> shaped d l b' c -> length ms = l -> fine (shaped d l b) (do! vs <- each2 f ms (rp_vs a) (rp_vs c); Ok (with_vs a vs)).
Proof.
  intros H (A1 & A2 & A3) (C1 & C2 & _) E. unfold each2.
  eapply fine_bind; [apply (seqr_rows (fun v => length v = 2 ^ d) (fun vw => length (fst vw) = 2 ^ d /\ length (snd vw) = 2 ^ d))|].
  - intros m [v w] (Hv & Hw). cbn [fst snd] in *. specialize (H (pm_p m) v w ltac:(congruence)). destruct (f _ v w); cbn in *; congruence.
  - rewrite combine_length. lia.
  - rewrite Forall_forall in *. intros [v w] I. pose proof (in_combine_l _ _ _ _ I). pose proof (in_combine_r _ _ _ _ I). cbn. auto.
  - intros vs (V1 & V2). cbn. unfold shaped. cbn. repeat split; try assumption. rewrite V2, combine_length. lia.
Qed.

Lemma fine_badd p v w : length v = length w -> fine (fun u => length u = length v) (batch_add p v w).
Proof. intros H. unfold batch_add, same_len. rewrite H, Nat.eqb_refl. cbn. rewrite map2_len. lia. Qed.
Lemma fine_bsub p v w : length v = length w -> fine (fun u => length u = length v) (batch_sub p v w).
Proof. intros H. unfold batch_sub, same_len. rewrite H, Nat.eqb_refl. cbn. rewrite map2_len. lia. Qed.

Lemma fine_add a c ms d l b b' : shaped d l b a -> shaped d l b' c -> length ms = l -> fine (shaped d l b) (rns_add a c ms).
Proof.
  intros HA HC E. unfold rns_add, same_len. pose proof HA as (A1 & _). pose proof HC as (C1 & _). rewrite A1, C1, E, !Nat.eqb_refl. cbn [negb].
  exact (fine_two batch_add a c ms d l b b' fine_badd HA HC E).
Qed.
Lemma fine_sub a c ms d l b b' : shaped d l b a -> shaped d l b' c -> length ms = l -> fine (shaped d l b) (rns_sub a c ms).
Proof.
  intros HA HC E. unfold rns_sub, same_len. pose proof HA as (A1 & _). pose proof HC as (C1 & _). rewrite A1, C1, E, !Nat.eqb_refl. cbn [negb].
  exact (fine_two batch_sub a c ms d l b b' fine_bsub HA HC E).
Qed.

Lemma ct_layers_len p np : forall i v idx, fine (fun w => length w = length v) (ct_layers p np i v idx).
Proof.
  induction i as [|i IH]; intros v idx; cbn [ct_layers]; [reflexivity|].
  assert (R : forall ks u j, fine (fun wj => length (fst wj) = length u) (ct_blocks p np (Nat.odd i) (2 ^ i) ks u j)).
  { induction ks as [|k ks IHk]; intros u j; cbn [ct_blocks]; [reflexivity|]. unfold get. destruct (nth_error _ _); cbn [bind]; [|exact I].
    specialize (IHk (ct_block p (Nat.odd i) p0 (2 ^ i) k u) (S j)). rewrite ct_block_bf, bf_block_length in IHk. rewrite ct_block_bf. exact IHk. }
  specialize (R (steps (length v) (2 * 2 ^ i)) v idx). destruct (ct_blocks _ _ _ _ _ _ _) as [[w j]|e|]; cbn [bind]; [|exact R..].
  specialize (IH w j). cbn in R. rewrite R in IH. exact IH.
Qed.

Lemma fine_forward p np v d : length v = 2 ^ d -> fine (fun w => length w = 2 ^ d) (forward_ntt p np v).
Proof.
  intros H. pose proof (fun er => forward_fine p np v d er H) as N. unfold forward_ntt in *. rewrite H, Nat.log2_pow2, Nat.eqb_refl in * by lia.
  destruct (2 ^ d =? 0); [exact I|]. cbn [negb] in *. pose proof (ct_layers_len p np d v 1) as Q. rewrite H in Q. exact Q.
Qed.

Lemma fine_to_ntt a ms d l : shaped d l false a -> length ms = l -> fine (shaped d l true) (rns_to_ntt a ms).
Proof.
  intros (A1 & A2 & A3) E. unfold rns_to_ntt, same_len. rewrite A3, A1, E, Nat.eqb_refl. cbn [negb].
  eapply fine_bind; [apply (seqr_rows (fun v => length v = 2 ^ d) (fun v => length v = 2 ^ d)); [|congruence|exact A2]|].
  - intros m v Hv. apply fine_forward, Hv.
  - intros vs (V1 & V2). cbn. unfold shaped. cbn. repeat split; try assumption. congruence.
Qed.

Lemma detach_shaped a d l b : shaped d l b a -> 0 < l -> fine (fun va => length (fst va) = 2 ^ d /\ shaped d (l - 1) b (snd va)) (rns_detach a).
Proof.
  intros (A1 & A2 & A3) Hl. unfold rns_detach. destruct (rev (rp_vs a)) as [|v vs] eqn:E.
  - apply (f_equal (@length _)) in E. rewrite rev_length in E. cbn in E. lia.
  - assert (F : Forall (fun v => length v = 2 ^ d) (v :: vs)) by (rewrite <- E; apply Forall_rev, A2). inversion F; subst. cbn. split; [assumption|].
    unfold shaped. cbn. repeat split; try assumption; [|apply Forall_rev; assumption]. apply (f_equal (@length _)) in E. rewrite rev_length in *. cbn in E. lia.
Qed.

Lemma last_in ms m : last_modulus ms = Ok m -> In m ms.
Proof. unfold last_modulus. destruct (rev ms) as [|x l] eqn:E; [discriminate|]. intros H. inversion H; subst. apply in_rev. rewrite E. left. reflexivity. Qed.

Lemma conv_len pl p v : length (convert_balanced pl p v) = length v.
Proof. unfold convert_balanced. destruct (_ =? _)%Z; [reflexivity|apply map_length]. Qed.

Section Reduce.
Variables (k : Z) (L : nat) (ms : list pmod) (d l : nat) (b : bool).
Hypothesis OK : moduli_ok k L ms.
Hypothesis Hd : d <= L.

Lemma fine_lsb a t z : shaped d l b a -> length ms = l -> 1 < l -> length z = l - 1 -> fine (fun _ => True) (rns_mod_reduce_lsb a t z ms).
Proof.
  intros HA E Hl Hz. pose proof HA as (A1 & _). unfold rns_mod_reduce_lsb, same_len. rewrite A1, E, Hz, !Nat.eqb_refl. cbn [negb].
  destruct (Nat.leb_spec l 1); [lia|]. apply (fine_bind _ _ _ _ (detach_shaped a d l b HA ltac:(lia))). intros [dl a1] (Hv & HA1). cbn [fst snd] in *.
  destruct (last_modulus ms) as [ml|e|] eqn:EL; cbn [bind]; [|unfold last_modulus in EL; destruct (rev ms); discriminate EL|exact I].
  apply last_in in EL. assert (Oml : mod_ok k L ml) by (unfold moduli_ok in OK; rewrite Forall_forall in OK; apply OK, EL). cbv zeta.
  destruct (t =? 0)%Z; [exact I|]. cbn [batch_mul_scalar bind].
  assert (Ems : length (firstn (l - 1) ms) = l - 1) by (rewrite firstn_length; lia).
  apply (fine_bind _ _ _ _ (fine_mul_scalar a1 _ (firstn (l - 1) ms) d (l - 1) b HA1 Ems)). intros a2 HA2.
  set (dl' := map _ dl). assert (Hv' : length dl' = 2 ^ d) by (unfold dl'; rewrite map_length; exact Hv). clearbody dl'.
  destruct (rp_ntt a2).
  - destruct (inverse_fine_ok k L ml dl' d Oml Hd Hv') as (w & Ew & Lw). rewrite Ew. cbn [bind].
    set (delta := {| rp_logn := rp_logn a2; rp_vs := _; rp_ntt := false |}).
    assert (HD : shaped d (l - 1) false delta).
    { unfold shaped, delta. cbn. repeat split; [rewrite map_length; exact Ems|]. apply Forall_forall. intros v I. apply in_map_iff in I. destruct I as (m & <- & _). rewrite conv_len. exact Lw. }
    apply (fine_bind _ _ _ _ (fine_to_ntt delta _ d (l - 1) HD Ems)). intros d1 H1.
    apply (fine_bind _ _ _ _ (fine_mul_scalar d1 t _ d (l - 1) true H1 Ems)). intros d2 H2.
    apply (fine_bind _ _ _ _ (fine_add a2 d2 _ d (l - 1) b true HA2 H2 Ems)). intros a3 H3.
    pose proof (fine_mul_rnsint a3 z _ d (l - 1) b H3 Ems Hz) as Q. destruct (rns_mul_rnsint _ _ _); cbn in *; auto.
  - destruct HA2 as (B1 & B2 & _).
    eapply fine_bind; [apply (seqr_rows (fun v => length v = 2 ^ d) (fun vz => length (fst vz) = 2 ^ d))|].
    + intros m [v y] Q. cbn [fst snd] in *. cbn [batch_mul_scalar bind]. eapply fine_bind; [apply fine_badd; rewrite map_length, conv_len; congruence|].
      intros u Hu. cbn. rewrite map_length. congruence.
    + rewrite combine_length. lia.
    + apply (comb_fst (fun v : list Z => length v = 2 ^ d)), B2.
    + intros vs _. exact I.
Qed.

Lemma fine_msb a z : shaped d l b a -> length ms = l -> 1 < l -> length z = l - 1 -> fine (fun _ => True) (rns_mod_reduce_msb a z ms).
Proof.
  intros HA E Hl Hz. pose proof HA as (A1 & _). unfold rns_mod_reduce_msb, same_len. rewrite A1, E, Hz, !Nat.eqb_refl. cbn [negb].
  destruct (Nat.leb_spec l 1); [lia|]. apply (fine_bind _ _ _ _ (detach_shaped a d l b HA ltac:(lia))). intros [dl a2] (Hv' & HA2). cbn [fst snd] in *.
  destruct (last_modulus ms) as [ml|e|] eqn:EL; cbn [bind]; [|unfold last_modulus in EL; destruct (rev ms); discriminate EL|exact I].
  apply last_in in EL. assert (Oml : mod_ok k L ml) by (unfold moduli_ok in OK; rewrite Forall_forall in OK; apply OK, EL). cbv zeta.
  assert (Ems : length (firstn (l - 1) ms) = l - 1) by (rewrite firstn_length; lia).
  destruct (rp_ntt a2).
  - destruct (inverse_fine_ok k L ml dl d Oml Hd Hv') as (w & Ew & Lw). rewrite Ew. cbn [bind].
    set (delta := {| rp_logn := rp_logn a2; rp_vs := _; rp_ntt := false |}).
    assert (HD : shaped d (l - 1) false delta).
    { unfold shaped, delta. cbn. repeat split; [rewrite map_length; exact Ems|]. apply Forall_forall. intros v I. apply in_map_iff in I. destruct I as (m & <- & _). rewrite conv_len. exact Lw. }
    apply (fine_bind _ _ _ _ (fine_to_ntt delta _ d (l - 1) HD Ems)). intros d1 H1.
    apply (fine_bind _ _ _ _ (fine_sub a2 d1 _ d (l - 1) b true HA2 H1 Ems)). intros a3 H3.
    pose proof (fine_mul_rnsint a3 z _ d (l - 1) b H3 Ems Hz) as Q. destruct (rns_mul_rnsint _ _ _); cbn in *; auto.
  - destruct HA2 as (B1 & B2 & _).
    eapply fine_bind; [apply (seqr_rows (fun v => length v = 2 ^ d) (fun vz => length (fst vz) = 2 ^ d))|].
    + intros m [v y] Q. cbn [fst snd] in *. eapply fine_bind; [apply fine_bsub; rewrite conv_len; congruence|].
      intros u Hu. cbn. rewrite map_length. congruence.
    + rewrite combine_length. lia.
    + apply (comb_fst (fun v : list Z => length v = 2 ^ d)), B2.
    + intros vs _. exact I.
Qed.

Lemma lsb_settled t z : settled (shaped d l b) (fun a => ip_rns_mod_reduce_lsb a t z ms).
Proof.
  destruct (Nat.eq_dec (length ms) l) as [E|E]; [destruct (le_lt_dec l 1) as [H|H]; [|destruct (Nat.eq_dec (length z) (l - 1)) as [Z|Z]]|].
  - right. intros a (A1 & _). exists InvalidArgument. unfold ip_rns_mod_reduce_lsb, same_len. rewrite A1, E, Nat.eqb_refl. cbn [negb].
    destruct (Nat.leb_spec l 1); [reflexivity|lia].
  - left. intros a HA. apply (never_of _ _ (ag_rns_mod_reduce_lsb a t z ms)). intros er. apply (fine_err (fun _ => True)), (fine_lsb a t z HA E H Z).
  - right. intros a (A1 & _). exists InvalidArgument. unfold ip_rns_mod_reduce_lsb, same_len. rewrite A1, E, Nat.eqb_refl. cbn [negb].
    destruct (Nat.leb_spec l 1); [lia|]. destruct (Nat.eqb_spec (length z) (l - 1)); [contradiction|reflexivity].
  - right. intros a (A1 & _). exists InvalidArgument. unfold ip_rns_mod_reduce_lsb, same_len. rewrite A1. destruct (Nat.eqb_spec (length ms) l); [contradiction|reflexivity].
Qed.

Lemma msb_settled z : settled (shaped d l b) (fun a => ip_rns_mod_reduce_msb a z ms).
Proof.
  destruct (Nat.eq_dec (length ms) l) as [E|E]; [destruct (le_lt_dec l 1) as [H|H]; [|destruct (Nat.eq_dec (length z) (l - 1)) as [Z|Z]]|].
  - right. intros a (A1 & _). exists InvalidArgument. unfold ip_rns_mod_reduce_msb, same_len. rewrite A1, E, Nat.eqb_refl. cbn [negb].
    destruct (Nat.leb_spec l 1); [reflexivity|lia].
  - left. intros a HA. apply (never_of _ _ (ag_rns_mod_reduce_msb a z ms)). intros er. apply (fine_err (fun _ => True)), (fine_msb a z HA E H Z).
  - right. intros a (A1 & _). exists InvalidArgument. unfold ip_rns_mod_reduce_msb, same_len. rewrite A1, E, Nat.eqb_refl. cbn [negb].
    destruct (Nat.leb_spec l 1); [lia|]. destruct (Nat.eqb_spec (length z) (l - 1)); [contradiction|reflexivity].
  - right. intros a (A1 & _). exists InvalidArgument. unfold ip_rns_mod_reduce_msb, same_len. rewrite A1. destruct (Nat.eqb_spec (length ms) l); [contradiction|reflexivity].
Qed.
End Reduce.
