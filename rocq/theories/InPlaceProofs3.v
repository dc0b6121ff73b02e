(** Ciphertexts: calls that fail without a change, and calls that change the
    object although they fail. *)
From Coq Require Import Lia.
From Verif Require Import Base Montgomery MontBatch Ntt Poly PolyExt SymEnc RnsPoly RnsMore RnsSpec RnsCtx RnsCt RnsBfv InPlace InPlaceSpec InPlaceProofs InPlaceProofs2.
Local Open Scope nat_scope.

(** ** RNS ciphertexts *)

Lemma keeps_if {A} (b : bool) (x : A) e : all_or_nothing e x -> all_or_nothing (if b then refuse x else e) x.
Proof. destruct b; [intros _; apply refuse_keeps|auto]. Qed.

Lemma keeps_map (P : rpoly -> Prop) x f : settled P f -> Forall P (rt_c x) -> all_or_nothing (on_c x (walk f (rt_c x))) x.
Proof. intros H F. apply c_keeps, (walk_keeps P f _ H F). Qed.

Lemma keeps_map2 (P T : rpoly -> Prop) x f l : settled2 P T f -> Forall P (rt_c x) -> Forall T l -> all_or_nothing (on_c x (walk2 f (rt_c x) l)) x.
Proof. intros H F G. apply c_keeps, (walk2_keeps P T f _ _ H F G). Qed.

Lemma settled_fix {A B} (P : A -> Prop) (T : B -> Prop) f b : settled2 P T f -> T b -> settled P (fun a => f a b).
Proof. intros [H|H] Hb; [left|right]; auto. Qed.

Lemma keeps_drop x e : all_or_nothing e x -> all_or_nothing (drop_modulus e) x.
Proof. intros H er E. unfold drop_modulus, andthen in *. destruct (fst e) as [u|e0|] eqn:Ef; cbn in *; try discriminate. apply (H e0), Ef. Qed.

Lemma reading_keeps {A B} (r : result B) (x : A) f : (forall b, r = Ok b -> all_or_nothing (f b) x) -> all_or_nothing (reading r x f) x.
Proof. destruct r as [b|e|]; cbn; intros H; [apply H; reflexivity|intros er E; reflexivity|intros er E; reflexivity]. Qed.

Lemma create_shaped vs b a : rns_create vs b = Ok a -> exists d, shaped d (length vs) b a /\ 0 < length vs.
Proof.
  unfold rns_create. destruct vs as [|v0 vs]; [discriminate|]. destruct (is_not_power_of_two _) eqn:E1; [discriminate|].
  destruct (forallb _ _) eqn:E2; cbn [negb]; [|discriminate]. intros H. inversion H; subst. apply is_not_power_spec in E1. destruct E1 as (d & D0 & D1).
  exists (Z.to_nat d). assert (Lv : length v0 = 2 ^ Z.to_nat d). { apply Nat2Z.inj. rewrite D1, Nat2Z.inj_pow, Z2Nat.id by lia. reflexivity. }
  split; [|cbn; lia]. unfold shaped. cbn [rp_vs rp_ntt]. repeat split. rewrite forallb_forall in E2. apply Forall_forall. intros v I. specialize (E2 v I). apply Nat.eqb_eq in E2. congruence.
Qed.

Lemma export_shaped z ms a : rlazy_export z ms = Ok a -> exists d l b, 0 < l /\ shaped d l b a.
Proof.
  unfold rlazy_export. destruct (negb _); [discriminate|]. destruct (rl_vs z) as [|r rs]; [discriminate|].
  intros H. apply create_shaped in H. destruct H as (d & H1 & H2). eauto.
Qed.

Lemma merge_keeps x : uniform x -> length (rt_lazy x) <= 1 -> all_or_nothing (ip_rct_merge x) x.
Proof.
  intros (d & l & b & Hl & F) Hz er E. unfold ip_rct_merge in *. destruct (rt_lazy x) as [|z [|z' zs]]; [reflexivity| |cbn in Hz; lia].
  assert (K : all_or_nothing (on_c x (ip_rct_merge_into (rt_ms x) (rt_c x) [z])) x).
  { apply c_keeps. destruct F as [|c0 cs F0 F]; cbn [ip_rct_merge_into].
    - intros e Ee. destruct (rlazy_export z (rt_ms x)); [discriminate Ee|reflexivity|discriminate Ee].
    - intros e Ee. destruct (rlazy_export z (rt_ms x)) as [p|e'|] eqn:EX; cbn [reading] in *; [|reflexivity|discriminate Ee].
      apply export_shaped in EX. destruct EX as (d' & l' & b' & _ & Hp). pose proof (add_settled (rt_ms x) d l b d' l' b' Hl) as [Q|Q].
      + specialize (Q c0 p F0 Hp). destruct (ip_rns_add c0 p (rt_ms x)) as [[u|e'|] s]; [discriminate Ee|destruct (Q e' eq_refl)|discriminate Ee].
      + destruct (Q c0 p F0 Hp) as (e' & Q'). rewrite Q'. reflexivity. }
  unfold andthen in *. destruct (fst (on_c x (ip_rct_merge_into (rt_ms x) (rt_c x) [z]))) as [u|e0|] eqn:Ef; cbn in *; try discriminate E.
  apply (K e0), Ef.
Qed.

Lemma msb_prefix_settled ms k L d l b q n : moduli_ok k L ms -> d <= L ->
  settled (shaped d l b) (fun a => reading (rnsint_prefix q n) a (fun z => ip_rns_mod_reduce_msb a z ms)).
Proof.
  intros OK Hd. unfold rnsint_prefix. destruct (length q <? n); cbn [reading]; [left; intros; apply never_ub|]. apply (msb_settled k L ms d l b OK Hd).
Qed.

(** ** Ciphertexts with one modulus *)

Lemma poly_mul_settled p b n : settled (fun a : poly => length a = n) (fun a => checked a (poly_mul p a b)).
Proof.
  destruct (Nat.eq_dec n (length b)) as [E|E]; [left|right]; intros a Ha.
  - intros er. pose proof (bmul' p a b) as Q. unfold poly_mul. destruct (batch_mul p a b) as [y|e|]; try discriminate. intros _. apply (Q e); congruence.
  - exists InvalidArgument. unfold poly_mul. rewrite bmul by congruence. reflexivity.
Qed.

Lemma poly_two_settled f n n' : (forall v w : poly, length v <> length w -> f v w = Err InvalidArgument) ->
  (forall (v w : poly) er, length v = length w -> f v w <> Err er) ->
  settled2 (fun a : poly => length a = n) (fun a : poly => length a = n') (fun a b => checked a (f a b)).
Proof.
  intros H1 H2. destruct (Nat.eq_dec n n') as [E|E]; [left|right]; intros a b Ha Hb.
  - intros er. specialize (H2 a b). destruct (f a b) as [y|e|]; try discriminate. intros _. apply (H2 e); congruence.
  - exists InvalidArgument. rewrite H1 by congruence. reflexivity.
Qed.

Lemma pad_short p c d : length d <= length c -> pad_to p c d = Ok c.
Proof. intros H. unfold pad_to. destruct (Nat.ltb_spec (length c) (length d)); [lia|reflexivity]. Qed.

(** the fused loop: either no step fails or the first one does *)
Lemma fused_keeps f g n n' :
  (forall x y : poly, length x = n -> length y = n' -> forall er, f x y <> Err er) /\ (forall y : poly, length y = n' -> forall er, g y <> Err er) \/
  (forall x y : poly, length x = n -> length y = n' -> exists er, f x y = Err er) /\ (forall y : poly, length y = n' -> forall er, g y <> Err er) \/
  (forall x y : poly, length x = n -> length y = n' -> exists er, f x y = Err er) /\ (forall y : poly, length y = n' -> exists er, g y = Err er) ->
  forall c a, Forall (fun x : poly => length x = n) c -> Forall (fun x : poly => length x = n') a -> all_or_nothing (ip_fused_into f g c a) c.
Proof.
  intros H.
  assert (G : (forall y : poly, length y = n' -> forall er, g y <> Err er) -> forall a, Forall (fun x : poly => length x = n') a -> forall er, fst (ip_fused_into f g [] a) <> Err er).
  { intros N. induction 1 as [|y a Hy F IH]; cbn [ip_fused_into]; [discriminate|]. intros er. specialize (N y Hy). destruct (g y) as [z|e|]; cbn; [|destruct (N e eq_refl)|discriminate].
    specialize (IH er). destruct (ip_fused_into f g [] a). exact IH. }
  intros c a Fc Fa er E. destruct Fa as [|y a Hy Fa]; [destruct Fc; discriminate E|]. destruct Fc as [|x c Hx Fc].
  - destruct H as [(H1 & H2)|[(H1 & H2)|(H1 & H2)]].
    + destruct (G H2 (y :: a) (Forall_cons _ Hy Fa) er E).
    + destruct (G H2 (y :: a) (Forall_cons _ Hy Fa) er E).
    + cbn [ip_fused_into]. destruct (H2 y Hy) as (e & ->). reflexivity.
  - destruct H as [(H1 & H2)|[(H1 & _)|(H1 & _)]].
    + exfalso. assert (K : forall c a, Forall (fun x : poly => length x = n) c -> Forall (fun x : poly => length x = n') a -> fst (ip_fused_into f g c a) <> Err er).
      { clear - H1 H2 G. induction c as [|x c IH]; intros a Fc Fa; [apply G; assumption|]. destruct Fa as [|y a Hy Fa]; [discriminate|]. cbn [ip_fused_into].
        inversion_clear Fc as [|? ? Hx Fc']. specialize (H1 x y Hx Hy). destruct (f x y) as [z|e|]; cbn; [|destruct (H1 e eq_refl)|discriminate]. specialize (IH a Fc' Fa). destruct (ip_fused_into f g c a). exact IH. }
      apply (K (x :: c) (y :: a)); [constructor; assumption..|exact E].
    + cbn [ip_fused_into]. destruct (H1 x y Hx Hy) as (e & ->). reflexivity.
    + cbn [ip_fused_into]. destruct (H1 x y Hx Hy) as (e & ->). reflexivity.
Qed.

Lemma ct_fused_keeps x a b n n' : of_degree n x -> of_degree n' a -> all_or_nothing (ip_ct_fused x a b) x.
Proof.
  intros Hx Ha. apply keeps_if, parts_keeps, (fused_keeps _ _ n n'); [|exact Hx|exact Ha]. unfold poly_fused_mul_add, poly_mul.
  destruct (Nat.eq_dec n' (length b)) as [E|E].
  - assert (G : forall y : poly, length y = n' -> forall er, batch_mul (ct_p a) y b <> Err er) by (intros; apply bmul'; congruence).
    destruct (Nat.eq_dec n n') as [E2|E2]; [left|right; left]; (split; [|exact G]).
    + intros; apply bfused'; congruence.
    + intros u y Hu Hy. exists InvalidArgument. apply bfused. left. congruence.
  - right; right. split.
    + intros u y Hu Hy. exists InvalidArgument. apply bfused. destruct (Nat.eq_dec n n'); [right|left]; congruence.
    + intros y Hy. exists InvalidArgument. apply bmul. congruence.
Qed.

Lemma ct_fused_constant_keeps x a b n n' : of_degree n x -> of_degree n' a -> length (cp_c b) = length (cp_cb b) -> all_or_nothing (ip_ct_fused_constant x a b) x.
Proof.
  intros Hx Ha Hb. apply keeps_if, parts_keeps, (fused_keeps _ _ n n'); [|exact Hx|exact Ha].
  unfold poly_fused_mul_constant_add, poly_mul_constant, batch_fused_mul_constant_add, batch_mul_constant, same_len.
  destruct (Nat.eq_dec n' (length (cp_c b))) as [E|E].
  - assert (G : forall y : poly, length y = n' -> forall er : code, (if negb (length y =? length (cp_c b)) || negb (length (cp_c b) =? length (cp_cb b)) then Err InvalidArgument
       else Ok (map2 (mul_constant (ct_p a)) y (combine (cp_c b) (cp_cb b)))) <> Err er).
    { intros y Hy er. rewrite Hy, <- E, <- Hb, <- E, Nat.eqb_refl. discriminate. }
    destruct (Nat.eq_dec n n') as [E2|E2]; [left|right; left]; (split; [|exact G]).
    + intros u y Hu Hy er. rewrite Hu, Hy, <- Hb, <- E, <- E2, Nat.eqb_refl. discriminate.
    + intros u y Hu Hy. exists InvalidArgument. rewrite Hu, Hy. destruct (Nat.eqb_spec n n'); [contradiction|reflexivity].
  - right; right. split.
    + intros u y Hu Hy. exists InvalidArgument. rewrite Hu, Hy. destruct (Nat.eqb_spec n n') as [->|]; [|reflexivity].
      destruct (Nat.eqb_spec n' (length (cp_c b))); [contradiction|reflexivity].
    + intros y Hy. exists InvalidArgument. rewrite Hy. destruct (Nat.eqb_spec n' (length (cp_c b))); [contradiction|reflexivity].
Qed.

(** lazy operations *)
Lemma lazy_create_keeps p b n a : Forall (fun y : poly => length y = n) a -> forall er, fst (ip_lazy_create p a b) = Err er -> snd (ip_lazy_create p a b) = [].
Proof.
  intros F er E. destruct F as [|y a Hy F]; [discriminate E|]. cbn [ip_lazy_create] in *.
  destruct (lazy_create p y b) as [z|e|] eqn:EL; [exfalso|reflexivity|reflexivity].
  assert (K : forall u : poly, length u = n -> exists w, lazy_create p u b = Ok w).
  { intros u Hu. unfold lazy_create, same_len in *. rewrite Hy in EL. rewrite Hu. destruct (negb (n =? length b)); [discriminate EL|].
    destruct (lazy_log_max p); cbn [bind] in *; try discriminate EL. eauto. }
  assert (N : forall a, Forall (fun y : poly => length y = n) a -> fst (ip_lazy_create p a b) = Ok tt).
  { induction 1 as [|u a' Hu F' IH]; cbn [ip_lazy_create]; [reflexivity|]. destruct (K u Hu) as (w & ->). destruct (ip_lazy_create p a' b). exact IH. }
  specialize (N a F). destruct (ip_lazy_create p a b). cbn in *. congruence.
Qed.

Lemma lazy_into_keeps p b n m : forall z a, Forall (fun y : poly => length y = n) a -> Forall (fun y => length (lz_coeffs y) = m) z ->
  all_or_nothing (ip_lazy_into p z a b) z.
Proof.
  intros z a Fa Fz er E. destruct (Nat.eq_dec n m) as [E1|E1]; [destruct (Nat.eq_dec n (length b)) as [E2|E2]|].
  - exfalso. revert a Fa E. induction Fz as [|x z Hx Fz IH]; intros a Fa E; [discriminate E|]. destruct Fa as [|y a Hy Fa]; [discriminate E|]. cbn [ip_lazy_into] in E.
    unfold lazy_fused, same_len in E. rewrite Hy, Hx, <- E2, <- E1, Nat.eqb_refl in E. cbn [negb orb] in E. specialize (IH a Fa).
    destruct (ip_lazy_into p z a b). cbn in *. auto.
  - destruct Fz as [|x z Hx Fz]; [discriminate E|]. destruct Fa as [|y a Hy Fa]; [discriminate E|]. cbn [ip_lazy_into] in *.
    unfold lazy_fused, same_len in *. rewrite Hy in *. destruct (Nat.eqb_spec n (length b)); [contradiction|]. reflexivity.
  - destruct Fz as [|x z Hx Fz]; [discriminate E|]. destruct Fa as [|y a Hy Fa]; [discriminate E|]. cbn [ip_lazy_into] in *.
    unfold lazy_fused, same_len in *. rewrite Hy, Hx in *. destruct (Nat.eqb_spec n m); [contradiction|]. rewrite Bool.orb_true_r in *. reflexivity.
Qed.

Lemma with_lazy_same x : with_lazy x (ct_lazy x) = x.
Proof. destruct x; reflexivity. Qed.

Lemma lazily_keeps x a b n m : of_degree n a -> Forall (fun z => length (lz_coeffs z) = m) (ct_lazy x) ->
  ct_lazy x = [] \/ length (ct_c a) <= length (ct_lazy x) -> all_or_nothing (ip_ct_fused_lazily x a b) x.
Proof.
  intros Ha Hz Hs. unfold ip_ct_fused_lazily. apply keeps_if. unfold of_degree in Ha. destruct (ct_c a) as [|a0 al]; [intros er E; reflexivity|].
  destruct (ct_lazy x) as [|z0 zl] eqn:EZ.
  - intros er E. pose proof (lazy_create_keeps (ct_p x) b n _ Ha er) as K. destruct (ip_lazy_create (ct_p x) (a0 :: al) b) as [r z]. cbn in *.
    rewrite (K E), <- EZ. apply with_lazy_same.
  - destruct Hs as [Hs|Hs]; [discriminate Hs|]. destruct (Nat.ltb_spec (length (z0 :: zl)) (length (a0 :: al))); [lia|]. cbn [reading].
    intros er E. pose proof (lazy_into_keeps (ct_p x) b n m _ _ Ha Hz er) as K. destruct (ip_lazy_into (ct_p x) (z0 :: zl) (a0 :: al) b) as [r z]. cbn in *.
    rewrite (K E), <- EZ. apply with_lazy_same.
Qed.

Lemma export_len p z e : lazy_export p z = Ok e -> length e = length (lz_coeffs z).
Proof. unfold lazy_export, poly_of. destruct (lz_coeffs z); cbn; [discriminate|]. intros H. inversion H; subst. cbn. rewrite map_length. reflexivity. Qed.

Lemma export_err p z er : lazy_export p z <> Err er.
Proof. unfold lazy_export, poly_of. destruct (lz_coeffs z); discriminate. Qed.

Lemma merge_into_keeps p n m : forall z c, Forall (fun y => length (lz_coeffs y) = m) z -> Forall (fun y : poly => length y = n) c ->
  all_or_nothing (ip_merge_into p c z) c.
Proof.
  assert (G : forall z, forall er, fst (ip_merge_into p [] z) <> Err er).
  { induction z as [|y z IH]; cbn [ip_merge_into]; [discriminate|]. intros er. pose proof (export_err p y) as X. destruct (lazy_export p y) as [e|e|]; cbn; [|destruct (X e eq_refl)|discriminate].
    specialize (IH er). destruct (ip_merge_into p [] z). exact IH. }
  intros z c Fz Fc er E. destruct Fz as [|y z Hy Fz]; [discriminate E|]. destruct Fc as [|x c Hx Fc]; [destruct (G _ _ E)|].
  destruct (Nat.eq_dec n m) as [E1|E1].
  - exfalso. assert (K : forall c z, Forall (fun y => length (lz_coeffs y) = m) z -> Forall (fun y : poly => length y = n) c -> fst (ip_merge_into p c z) <> Err er).
    { clear - G E1. induction c as [|x c IH]; intros z Fz Fc; [apply G|]. destruct Fz as [|y z Hy Fz]; [discriminate|]. inversion_clear Fc as [|? ? Hx Fc']. cbn [ip_merge_into].
      pose proof (export_err p y) as X. pose proof (export_len p y) as XL. destruct (lazy_export p y) as [e|e|]; cbn [reading]; [|destruct (X e eq_refl)|discriminate].
      specialize (XL e eq_refl). pose proof (fun e' => badd' p x e e') as Q. unfold poly_add. destruct (batch_add p x e) as [s|e'|]; cbn [checked];
        [|exfalso; apply (Q e'); congruence|discriminate]. specialize (IH z Fz Fc'). destruct (ip_merge_into p c z). exact IH. }
    apply (K (x :: c) (y :: z)); [constructor; assumption..|exact E].
  - cbn [ip_merge_into] in *. pose proof (export_len p y) as XL. destruct (lazy_export p y) as [e|e|]; cbn [reading] in *; [|reflexivity|reflexivity].
    specialize (XL e eq_refl). unfold poly_add in *. rewrite badd by congruence. reflexivity.
Qed.

Lemma ct_merge_keeps x n m : of_degree n x -> Forall (fun z => length (lz_coeffs z) = m) (ct_lazy x) -> all_or_nothing (ip_ct_merge x) x.
Proof.
  intros Hx Hz er E. unfold ip_ct_merge in *. destruct (ct_lazy x) as [|z0 zl] eqn:EZ; [reflexivity|]. rewrite <- EZ in *.
  pose proof (parts_keeps x _ (merge_into_keeps (ct_p x) n m _ _ Hz Hx)) as K.
  unfold andthen in *. destruct (fst (on_parts x (ip_merge_into (ct_p x) (ct_c x) (ct_lazy x)))) as [u|e0|] eqn:Ef; cbn in *; try discriminate E.
  apply (K e0), Ef.
Qed.

(** ** a failing sum that adds components *)

Lemma poly_zero_ok p n : 0 < n -> poly_zero p n = Ok (repeat (import_zero p) n).
Proof. destruct n; [lia|]. reflexivity. Qed.

Lemma pad_long p (c d : list poly) (d0 : poly) n' : nth_error d 0 = Some d0 -> length d0 = n' -> 0 < n' -> length c < length d ->
  pad_to p c d = Ok (c ++ repeat (repeat (import_zero p) n') (length d - length c)).
Proof.
  intros H0 Hn Hp Hl. unfold pad_to. destruct (Nat.ltb_spec (length c) (length d)); [|lia]. unfold get. rewrite H0. cbn [bind].
  rewrite Hn, poly_zero_ok by exact Hp. reflexivity.
Qed.

Lemma extract_mixed key pc (cs : list poly) i (kp acc : poly) : length kp = length (sk_key key) -> length acc = length (sk_key key) ->
  Exists (fun a : poly => length a <> length (sk_key key)) cs -> extract_loop key pc cs i kp acc = Err InvalidArgument.
Proof.
  revert i kp acc. induction cs as [|c cs IH]; intros i kp acc Hk Ha HE; [inversion HE|]. cbn [extract_loop].
  assert (K : exists kp', (if (1 <? i)%nat then poly_mul (sk_p key) kp (sk_key key) else Ok kp) = Ok kp' /\ length kp' = length (sk_key key)).
  { destruct (1 <? i)%nat; [|eauto]. unfold poly_mul, batch_mul, same_len. rewrite Hk, Nat.eqb_refl. eexists. split; [reflexivity|]. rewrite map2_len. lia. }
  destruct K as (kp' & -> & Hk'). cbn [bind]. destruct (Nat.eq_dec (length c) (length (sk_key key))) as [Ec|Ec].
  - assert (K : exists c', (if (0 <? i)%nat then poly_mul pc c kp' else Ok c) = Ok c' /\ length c' = length (sk_key key)).
    { destruct (0 <? i)%nat; [|eauto]. unfold poly_mul, batch_mul, same_len. rewrite Ec, Hk', Nat.eqb_refl. eexists. split; [reflexivity|]. rewrite map2_len. lia. }
    destruct K as (c' & -> & Hc'). cbn [bind]. unfold poly_add, batch_add, same_len. rewrite Ha, Hc', Nat.eqb_refl. cbn [bind].
    apply IH; [exact Hk'|rewrite map2_len; lia|]. inversion HE; subst; [contradiction|assumption].
  - destruct (0 <? i)%nat.
    + unfold poly_mul. rewrite bmul by congruence. reflexivity.
    + cbn [bind]. unfold poly_add. rewrite badd by congruence. reflexivity.
Qed.

Lemma decrypt_mixed key x : sk_key key <> [] -> Exists (fun a : poly => length a <> length (sk_key key)) (ct_c x) -> decrypt key x = Err InvalidArgument.
Proof.
  intros N H. unfold decrypt, extract_error_and_message. rewrite poly_zero_ok by (destruct (sk_key key); [contradiction|cbn; lia]). cbn [bind].
  rewrite extract_mixed; try reflexivity; [apply repeat_length|exact H].
Qed.

Lemma walk2_first (f : poly -> poly -> result poly) c y d e : c <> [] -> (forall x, In x c -> f x y = Err e) ->
  walk2 (fun a b => checked a (f a b)) c (y :: d) = (Err e, c).
Proof. intros N H. destruct c as [|x c]; [contradiction|]. cbn [walk2]. rewrite H by (left; reflexivity). reflexivity. Qed.
