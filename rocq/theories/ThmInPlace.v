(** C79: what a call that changes an object in place leaves behind when it fails. *)
From Coq Require Import Setoid Znumtheory QArith Lia.
From Verif Require Import Base FinSum PolySpec Ring NegRing SymSpec Montgomery MontBatch Ntt Spec Poly PolyExt SymEnc Prng Sampling SampleSpec ThmSymEnc RnsPoly RnsSpec CrtMath RnsSub RnsProofs RnsBasis RnsBasis2 RnsFloat RnsExample
  RnsCtx RnsCtxSpec RnsCtxProofs RnsCtxFacts ThmRnsCtx RnsCt RnsCtSpec RnsCtProofs RnsNoise RnsEncode RnsEncodeSpec RnsKey RnsKeySpec RnsKeyProofs RnsDecode RnsDecodeBfv ThmRnsBfv
  RnsBfv RnsBfvSpec RnsBfvProofs RnsBfvNoise RnsBfvProofs2 RnsBfvProofs3 InPlace InPlaceSpec InPlaceProofs InPlaceProofs2 InPlaceProofs3.
Local Open Scope Z_scope.

(** ** The calls against the methods that return a new object *)

(** Every in-place method of an RNS ciphertext reports the status, and on
    success leaves the object, that the theorems about the copying methods speak
    of. *)
Theorem C79_rns_agrees :
  forall x y b zs s t D c,
  agrees (ip_rct_neg x) (rct_neg x) /\ agrees (ip_rct_add x y) (rct_add x y) /\ agrees (ip_rct_sub x y) (rct_sub x y) /\
  agrees (ip_rct_add_plain x b) (rct_add_plain x b) /\ agrees (ip_rct_sub_plain x b) (rct_sub_plain x b) /\
  agrees (ip_rct_absorb x b) (rct_absorb x b) /\ agrees (ip_rct_absorb_rns x zs) (rct_absorb_rns x zs) /\
  agrees (ip_rct_absorb_scalar x s) (rct_absorb_scalar x s) /\ agrees (ip_rct_fused x y b) (rct_fused x y b) /\
  agrees (ip_rct_fused_nopad x y b) (rct_fused_nopad x y b) /\ agrees (ip_rct_merge x) (rct_merge x) /\
  agrees (ip_rct_to_ntt x) (rct_to_ntt x) /\ agrees (ip_rct_to_coeff x) (rct_to_coeff x) /\
  agrees (ip_rbgv_mod_reduce x t zs) (rbgv_mod_reduce x t zs) /\ agrees (ip_bfv_mod_reduce c x) (bfv_mod_reduce c x) /\
  agrees (ip_bfv_absorb D c x b) (bfv_absorb D c x b) /\ agrees (ip_bfv_absorb_simple x b) (bfv_absorb_simple x b).
Proof.
  intros. repeat split; auto using ag_rct_neg, ag_rct_add, ag_rct_sub, ag_rct_add_plain, ag_rct_sub_plain, ag_rct_absorb, ag_rct_absorb_rns, ag_rct_absorb_scalar, ag_rct_fused,
    ag_rct_fused_nopad, ag_rct_merge, ag_rct_to_ntt, ag_rct_to_coeff, ag_rbgv_mod_reduce, ag_bfv_mod_reduce, ag_bfv_absorb, ag_bfv_absorb_simple.
Qed.

(** The same for RNS polynomials ... *)
Theorem C79_poly_agrees :
  forall a b x zs s t ms qs ps D h1 h2 h3 h4,
  agrees (ip_rns_neg a ms) (rns_neg_in_place a ms) /\ agrees (ip_rns_add a b ms) (rns_add a b ms) /\ agrees (ip_rns_sub a b ms) (rns_sub a b ms) /\
  agrees (ip_rns_mul_scalar a s ms) (rns_mul_scalar a s ms) /\ agrees (ip_rns_mul_rnsint a zs ms) (rns_mul_rnsint a zs ms) /\
  agrees (ip_rns_mul a b ms) (rns_mul a b ms) /\ agrees (ip_rns_fused x a b ms) (rns_fused_mul_add x a b ms) /\
  agrees (ip_rns_to_ntt a ms) (rns_to_ntt a ms) /\ agrees (ip_rns_to_coeff a ms) (rns_to_coeff a ms) /\
  agrees (ip_rns_mod_reduce_lsb a t zs ms) (rns_mod_reduce_lsb a t zs ms) /\ agrees (ip_rns_mod_reduce_msb a zs ms) (rns_mod_reduce_msb a zs ms) /\
  agrees (ip_rns_scale_and_reduce D a b t qs ps h1 h2 h3 h4) (rns_scale_and_reduce D a b t qs ps h1 h2 h3 h4).
Proof.
  intros. repeat split; auto using ag_rns_neg, ag_rns_add, ag_rns_sub, ag_rns_mul_scalar, ag_rns_mul_rnsint, ag_rns_mul, ag_rns_fused, ag_rns_to_ntt, ag_rns_to_coeff,
    ag_rns_mod_reduce_lsb, ag_rns_mod_reduce_msb, ag_rns_scale_and_reduce.
Qed.

(** ... and for ciphertexts with one modulus. *)
Theorem C79_single_agrees :
  forall x y b cb s,
  agrees (ip_ct_add x y) (ct_add x y) /\ agrees (ip_ct_sub x y) (ct_sub x y) /\ agrees (ip_ct_absorb x b) (ct_absorb x b) /\
  agrees (ip_ct_absorb_scalar x s) (ct_absorb_scalar x s) /\ agrees (ip_ct_fused x y b) (ct_fused_absorb x y b) /\
  agrees (ip_ct_fused_constant x y cb) (ct_fused_absorb_constant x y cb) /\ agrees (ip_ct_fused_lazily x y b) (ct_fused_lazily x y b) /\
  agrees (ip_ct_merge x) (ct_merge x).
Proof.
  intros. repeat split; auto using ag_ct_add, ag_ct_sub, ag_ct_absorb, ag_ct_absorb_scalar, ag_ct_fused, ag_ct_fused_constant, ag_ct_fused_lazily, ag_ct_merge.
Qed.

(** ** Calls that leave the object alone when they fail *)

(** RNS ciphertexts whose components have one shape, with operands of any
    shape: other degrees, other levels, other forms. *)
Theorem C79_rns_unchanged :
  forall x y b zs s, uniform x -> uniform y -> regular b ->
  all_or_nothing (ip_rct_neg x) x /\ all_or_nothing (ip_rct_add x y) x /\ all_or_nothing (ip_rct_sub x y) x /\
  all_or_nothing (ip_rct_add_plain x b) x /\ all_or_nothing (ip_rct_sub_plain x b) x /\ all_or_nothing (ip_rct_absorb x b) x /\
  all_or_nothing (ip_rct_absorb_rns x zs) x /\ all_or_nothing (ip_rct_absorb_scalar x s) x /\ all_or_nothing (ip_rct_fused x y b) x /\
  all_or_nothing (ip_rct_fused_nopad x y b) x /\ all_or_nothing (ip_rct_to_ntt x) x /\ all_or_nothing (ip_bfv_absorb_simple x b) x /\
  ((length (rt_lazy x) <= 1)%nat -> all_or_nothing (ip_rct_merge x) x).
Proof.
  intros x y b zs s UX (dy & ly & by_ & Hy & Fy) (db & lb & bb & Hb & Sb). pose proof UX as (d & l & bx & Hl & F). repeat split.
  - apply (keeps_map (shaped d l bx)); [apply neg_settled|exact F].
  - apply keeps_if, (keeps_map2 (shaped d l bx) (shaped dy ly by_)); [apply add_settled, Hl|exact F|exact Fy].
  - apply keeps_if, (keeps_map2 (shaped d l bx) (shaped dy ly by_)); [apply sub_settled, Hl|exact F|exact Fy].
  - apply keeps_if, (keeps_map2 (shaped d l bx) (shaped db lb bb)); [apply add_settled, Hl|exact F|auto].
  - apply keeps_if, (keeps_map2 (shaped d l bx) (shaped db lb bb)); [apply sub_settled, Hl|exact F|auto].
  - apply (keeps_map (shaped d l bx)); [|exact F]. apply (settled_fix _ (shaped db lb bb) (fun a c => ip_rns_mul a c (rt_ms x)) b); [apply mul_settled, Hl|exact Sb].
  - apply keeps_if, (keeps_map (shaped d l bx)); [apply mul_rnsint_settled|exact F].
  - apply (keeps_map (shaped d l bx)); [apply mul_scalar_settled|exact F].
  - apply keeps_if, (keeps_map2 (shaped d l bx) (shaped dy ly by_)); [apply (fused_settled _ d l bx dy ly by_ b db lb bb Hl Sb)|exact F|exact Fy].
  - unfold ip_rct_fused_nopad. pose proof (keeps_map2 (shaped d l bx) (shaped dy ly by_) x (fun u y => ip_rns_fused u y b (rt_ms x))) as Q.
    destruct (rt_c x) as [|c0 [|c1 [|]]]; try apply refuse_keeps. destruct (rt_c y) as [|a0 [|a1 [|]]]; try apply refuse_keeps.
    apply keeps_if, keeps_if, Q; [apply (fused_settled _ d l bx dy ly by_ b db lb bb Hl Sb)|exact F|]. inversion Fy; auto.
  - apply (keeps_map (shaped d l bx)); [apply to_ntt_settled|exact F].
  - apply keeps_if, keeps_if, (keeps_map (shaped d l bx)); [|exact F]. apply (settled_fix _ (shaped db lb bb) (fun a c => ip_rns_mul a c (rt_ms x)) b); [apply mul_settled, Hl|exact Sb].
  - intros Hz. apply merge_keeps; assumption.
Qed.

(** ConvertToCoeffForm and the modulus reductions, when the degree is at most
    that of the parameters. *)
Theorem C79_reduce_unchanged :
  forall k L x t zs c, moduli_ok k L (rt_ms x) -> uniform_upto L x ->
  all_or_nothing (ip_rct_to_coeff x) x /\ all_or_nothing (ip_rbgv_mod_reduce x t zs) x /\ all_or_nothing (ip_bfv_mod_reduce c x) x.
Proof.
  intros k L x t zs c OK (d & l & b & Hd & Hl & F). repeat split.
  - apply (keeps_map (shaped d l b)); [apply (to_coeff_settled k L); assumption|exact F].
  - unfold ip_rbgv_mod_reduce. destruct (_ <=? _)%nat; [intros er E; reflexivity|]. apply keeps_drop, (keeps_map (shaped d l b)); [apply (lsb_settled k L); assumption|exact F].
  - unfold ip_bfv_mod_reduce. cbv zeta. destruct (_ <=? _)%nat; [intros er E; reflexivity|]. apply reading_keeps. intros q _.
    apply keeps_drop, (keeps_map (shaped d l b)); [apply (msb_prefix_settled _ k L); assumption|exact F].
Qed.

(** Ciphertexts with one modulus, components of n coefficients, operands of n'. *)
Theorem C79_single_unchanged :
  forall n n' m x y b cb s, of_degree n x -> of_degree n' y -> length (cp_c cb) = length (cp_cb cb) ->
  Forall (fun z => length (lz_coeffs z) = m) (ct_lazy x) ->
  all_or_nothing (ip_ct_absorb x b) x /\ all_or_nothing (ip_ct_absorb_scalar x s) x /\ all_or_nothing (ip_ct_fused x y b) x /\
  all_or_nothing (ip_ct_fused_constant x y cb) x /\ all_or_nothing (ip_ct_merge x) x /\
  ((length (ct_c y) <= length (ct_c x))%nat -> all_or_nothing (ip_ct_add x y) x /\ all_or_nothing (ip_ct_sub x y) x) /\
  (ct_lazy x = [] \/ (length (ct_c y) <= length (ct_lazy x))%nat -> all_or_nothing (ip_ct_fused_lazily x y b) x).
Proof.
  intros n n' m x y b cb s Hx Hy Hc Hz. split; [|split; [|split; [|split; [|split; [|split]]]]].
  - apply parts_keeps, (walk_keeps (fun a : poly => length a = n)); [apply poly_mul_settled|exact Hx].
  - apply parts_keeps, (walk_keeps (fun a : poly => length a = n)); [left; intros; apply never_ok|exact Hx].
  - exact (ct_fused_keeps x y b n n' Hx Hy).
  - exact (ct_fused_constant_keeps x y cb n n' Hx Hy Hc).
  - exact (ct_merge_keeps x n m Hx Hz).
  - intros Hl. split; apply keeps_if; rewrite pad_short by exact Hl; cbn [reading]; apply parts_keeps.
    + apply (walk2_keeps (fun a : poly => length a = n) (fun a : poly => length a = n')); [|exact Hx|exact Hy].
      apply (poly_two_settled (poly_add (ct_p x)) n n'); [apply badd|intros; apply badd'; assumption].
    + apply (walk2_keeps (fun a : poly => length a = n) (fun a : poly => length a = n')); [|exact Hx|exact Hy].
      apply (poly_two_settled (poly_sub (ct_p x)) n n'); [apply bsub|intros; apply bsub'; assumption].
  - intros Hs. exact (lazily_keeps x y b n' m Hy Hz Hs).
Qed.

(** ** Calls that change the object although they fail *)

(** AddInPlace and SubInPlace of a ciphertext with more components and another
    degree: the call fails and leaves components of the other degree in the
    object, which then no key decrypts. *)
Theorem C79_add_refuted :
  forall n n' x y, of_degree n x -> of_degree n' y -> n <> n' -> (0 < n)%nat -> (0 < n')%nat -> ct_pow x = ct_pow y ->
  (0 < length (ct_c x) < length (ct_c y))%nat ->
  exists x', ip_ct_add x y = (Err InvalidArgument, x') /\ ip_ct_sub x y = (Err InvalidArgument, x') /\ length (ct_c x') = length (ct_c y) /\
    forall key, sk_key key <> [] -> decrypt key x' = Err InvalidArgument.
Proof.
  intros n n' x y Hx Hy N P P' HP (H0 & HL). unfold of_degree in *.
  destruct (ct_c y) as [|y0 ys] eqn:Ey; [cbn in HL; lia|]. assert (L0 : length y0 = n') by (inversion Hy; assumption).
  set (c := ct_c x ++ repeat (repeat (import_zero (ct_p x)) n') (length (y0 :: ys) - length (ct_c x))).
  assert (Ep : SymEnc.pad_to (ct_p x) (ct_c x) (y0 :: ys) = Ok c) by (apply (pad_long _ _ _ y0); auto).
  assert (EC : exists x0 xs, ct_c x = x0 :: xs) by (destruct (ct_c x) as [|x0 xs]; [cbn in H0; lia|eauto]). destruct EC as (x0 & xs & EC).
  assert (Lx0 : length x0 = n) by (rewrite EC in Hx; inversion Hx; assumption).
  assert (Ec : c = x0 :: (xs ++ repeat (repeat (import_zero (ct_p x)) n') (length (y0 :: ys) - length (ct_c x)))) by (unfold c; rewrite EC; reflexivity).
  exists (with_c x c). split; [|split; [|split]].
  - unfold ip_ct_add. rewrite HP, Z.eqb_refl, Ey, Ep. cbn [negb reading]. rewrite Ec at 1. cbn [walk2]. unfold poly_add. rewrite badd by congruence. cbn [checked on_parts fst snd]. unfold on_parts. cbn [fst snd]. rewrite <- Ec. reflexivity.
  - unfold ip_ct_sub. rewrite HP, Z.eqb_refl, Ey, Ep. cbn [negb reading]. rewrite Ec at 1. cbn [walk2]. unfold poly_sub. rewrite bsub by congruence. unfold on_parts. cbn [checked fst snd]. rewrite <- Ec. reflexivity.
  - cbn [with_c ct_c]. unfold c. rewrite app_length, repeat_length. lia.
  - intros key NK. apply decrypt_mixed; [exact NK|]. cbn [with_c ct_c]. destruct (Nat.eq_dec (length (sk_key key)) n) as [E|E].
    + unfold c. apply Exists_exists. exists (repeat (import_zero (ct_p x)) n'). split; [|rewrite repeat_length; lia].
      apply in_or_app. right. destruct (length (y0 :: ys) - length (ct_c x))%nat eqn:Q; [lia|]. left. reflexivity.
    + rewrite Ec. apply Exists_cons_hd. lia.
Qed.

(** FusedAbsorbAddInPlaceLazily of a ciphertext with more components and another
    degree: the call fails, and leaves as many lazy components as that has. *)
Theorem C79_lazily_refuted :
  forall n' m x y b e, of_degree n' y -> Forall (fun z => length (lz_coeffs z) = m) (ct_lazy x) -> n' <> m -> ct_pow x = ct_pow y ->
  (0 < length (ct_lazy x) < length (ct_c y))%nat -> lazy_create_empty (ct_p x) n' = Ok e ->
  ip_ct_fused_lazily x y b =
    (Err InvalidArgument, with_lazy x (ct_lazy x ++ repeat e (length (ct_c y) - length (ct_lazy x)))).
Proof.
  intros n' m x y b e Hy Hz N HP (H0 & HL) He. unfold ip_ct_fused_lazily, of_degree in *. rewrite HP, Z.eqb_refl. cbn [negb].
  destruct (ct_c y) as [|y0 ys]; [cbn in HL; lia|]. assert (L0 : length y0 = n') by (inversion Hy; assumption).
  destruct (ct_lazy x) as [|z0 zs] eqn:EZ; [cbn in H0; lia|]. destruct (Nat.ltb_spec (length (z0 :: zs)) (length (y0 :: ys))); [|lia].
  rewrite L0, He. cbn [bind reading app ip_lazy_into].
  assert (Lz : length (lz_coeffs z0) = m) by (inversion Hz; assumption).
  unfold lazy_fused at 1, same_len. rewrite L0, Lz. destruct (Nat.eqb_spec n' m); [contradiction|]. rewrite Bool.orb_true_r. reflexivity.
Qed.

(** AbsorbInPlace of a BFV ciphertext below the full list of main primes always
    fails (C63), and leaves the first component in coefficient form, the others
    in NTT form. *)
Theorem C79_bfv_absorb_refuted :
  forall k log_n qs ps t c D val eps l s lx j x w plain f, ctx_args k qs ps t -> ctx_made k log_n qs ps t c ->
  float_model D val eps -> roundable k eps (Z.of_nat (length qs)) -> roundable k eps (Z.of_nat (length ps)) -> (S l < length qs)%nat ->
  (1 <= lx)%nat -> ciphertext (at_level c l) (Z.to_nat log_n) s lx j x w -> rns_is (at_level c l) (Z.to_nat log_n) true plain f ->
  exists c0 cs cc, rt_c x = c0 :: cs /\ rp_ntt c0 = true /\ rns_to_coeff c0 (at_level c l) = Ok cc /\ rp_ntt cc = false /\
    ip_bfv_absorb D c x plain = (Err InvalidArgument, rct_with_c x (cc :: cs)).
Proof.
  intros k log_n qs ps t c D val eps l s lx j x w plain f A M FM Rq Rp Hl HL (X1 & X2 & X3 & fs & Hc & _) Hp.
  destruct (low_facts k log_n qs ps t c D val eps l A M FM Rq Rp Hl) as (hi & hm & qm & E1 & E2 & E3 & F & NEm & NEp & Om & Op).
  destruct (rt_c x) as [|c0 cs] eqn:Ec; [cbn in X3; lia|].
  assert (R0 : rns_is (at_level c l) (Z.to_nat log_n) true c0 (nth 0 fs pzero)) by (apply (Forall2_nth_ _ c0 pzero _ _ 0%nat Hc); cbn; lia).
  destruct (F c0 _ R0) as (cc & I1 & I2 & _). pose proof R0 as (_ & En' & _). exists c0, cs, cc. repeat split; try assumption.
  - unfold rns_to_coeff in I1. rewrite En' in I1. cbn [negb] in I1. destruct (negb _); [discriminate I1|]. destruct (seqr _); cbn [bind] in I1; [|discriminate I1..].
    inversion I1. reflexivity.
  - unfold ip_bfv_absorb. rewrite X1. pose proof Hp as (_ & En & _). rewrite En. cbn [negb]. rewrite E1, E2, E3. cbn [reading].
    destruct (F plain f Hp) as (pc & G1 & _ & ca & b & G2 & G3). rewrite G1. cbn [reading]. rewrite G2. cbn [reading]. rewrite G3. cbn [reading].
    rewrite Ec. cbn [walk]. unfold ip_bfv_absorb_one at 1. rewrite En'. pose proof (ag_rns_to_coeff c0 (at_level c l)) as Q. rewrite I1 in Q. cbn [agrees] in Q. rewrite Q.
    unfold andthen. cbn [fst snd]. rewrite I2. reflexivity.
Qed.

(** On a ciphertext whose components are in different forms (SetPadComponent and
    the constructor accept one), AbsorbInPlace fails after it has multiplied the
    components before the one in coefficient form. *)
Theorem C79_mixed_refuted :
  forall x b c0 c1 c0', rt_c x = [c0; c1] -> rp_ntt c1 = false -> rns_mul c0 b (rt_ms x) = Ok c0' ->
  ip_rct_absorb x b = (Err InvalidArgument, rct_with_c x [c0'; c1]).
Proof.
  intros x b c0 c1 c0' Ec N1 E. unfold ip_rct_absorb. rewrite Ec. cbn [walk]. pose proof (ag_rns_mul c0 b (rt_ms x)) as Q. rewrite E in Q. cbn [agrees] in Q. rewrite Q.
  assert (R : ip_rns_mul c1 b (rt_ms x) = refuse c1).
  { unfold ip_rns_mul. rewrite N1. cbn [negb]. destruct (negb _); [reflexivity|]. destruct (negb _); reflexivity. }
  rewrite R. reflexivity.
Qed.

(** ScaleAndReduceRnsBasisInPlace with the wrong number of auxiliary moduli fails
    after it has multiplied the polynomial by t. *)
Theorem C79_scale_and_reduce_refuted :
  forall D a aux t qs ps h1 h2 h3 h4 a', rns_mul_scalar a t qs = Ok a' -> length ps <> length (rp_vs aux) ->
  ip_rns_scale_and_reduce D a aux t qs ps h1 h2 h3 h4 = (Err InvalidArgument, a').
Proof.
  intros D a aux t qs ps h1 h2 h3 h4 a' E N. unfold ip_rns_scale_and_reduce. pose proof (ag_rns_mul_scalar a t qs) as Q. rewrite E in Q. cbn [agrees] in Q. rewrite Q.
  unfold andthen. cbn [fst snd]. unfold rns_mul_scalar, same_len. destruct (Nat.eqb_spec (length ps) (length (rp_vs aux))); [contradiction|reflexivity].
Qed.

(** ** Examples *)

(** degree 8, main primes 97, 193, 17: two ciphertexts, one of them at a lower
    level; the sum fails, and nothing has changed *)
Definition ip_x : rct := rct_make [{| rp_logn := 3; rp_vs := repeat (repeat 1 8) 3; rp_ntt := true |}; {| rp_logn := 3; rp_vs := repeat (repeat 2 8) 3; rp_ntt := true |}] ex_qs 1.
Definition ip_y : rct := rct_make [{| rp_logn := 3; rp_vs := repeat (repeat 3 8) 2; rp_ntt := true |}; {| rp_logn := 3; rp_vs := repeat (repeat 4 8) 2; rp_ntt := true |}] (firstn 2 ex_qs) 1.

Lemma ip_x_uniform : uniform_upto 3 ip_x /\ uniform ip_x /\ uniform ip_y.
Proof.
  assert (X : Forall (shaped 3 3 true) (rt_c ip_x)) by (repeat constructor).
  assert (Y : Forall (shaped 3 2 true) (rt_c ip_y)) by (repeat constructor).
  split; [exists 3%nat, 3%nat, true|split; [exists 3%nat, 3%nat, true|exists 3%nat, 2%nat, true]]; repeat split; auto; lia.
Qed.

Example C79_example :
  uniform ip_x /\ uniform ip_y /\ moduli_ok 32 3 (rt_ms ip_x) /\ uniform_upto 3 ip_x /\
  fst (ip_rct_add ip_x ip_y) = Err InvalidArgument /\ snd (ip_rct_add ip_x ip_y) = ip_x /\
  fst (ip_rct_absorb_scalar ip_x 5) = Ok tt /\ rt_c (snd (ip_rct_absorb_scalar ip_x 5)) <> rt_c ip_x.
Proof.
  destruct ip_x_uniform as (H1 & H2 & H3). destruct ex_ok as (OK & _). repeat (split; [assumption|]).
  split; [vm_compute; reflexivity|]. split; [vm_compute; reflexivity|]. split; [vm_compute; reflexivity|]. vm_compute. discriminate.
Qed.

(** a ciphertext of degree 8 with two components, and one of degree 4 with three *)
Definition ip_three : ct := with_c (enc97 m8 99) [[1; 2; 3; 4]; [5; 6; 7; 8]; [9; 10; 11; 12]].
Example C79_example_single :
  of_degree 8 (enc97 m8 99) /\ of_degree 4 ip_three /\ decrypt key97 (enc97 m8 99) = Ok [0; 1; 2; 2; 1; 0; 0; 1] /\
  fst (ip_ct_add (enc97 m8 99) ip_three) = Err InvalidArgument /\
  decrypt key97 (snd (ip_ct_add (enc97 m8 99) ip_three)) = Err InvalidArgument /\
  fst (ip_ct_sub ip_three (enc97 m8 99)) = Err InvalidArgument /\ snd (ip_ct_sub ip_three (enc97 m8 99)) = ip_three.
Proof.
  split; [|split; [repeat constructor|]].
  - unfold of_degree. apply Forall_forall. intros a Ha. assert (E : forallb (fun a : poly => Nat.eqb (length a) 8) (ct_c (enc97 m8 99)) = true) by (vm_compute; reflexivity).
    rewrite forallb_forall in E. apply Nat.eqb_eq, E, Ha.
  - repeat (split; [vm_compute; reflexivity|]). vm_compute. reflexivity.
Qed.

(** a lazy sum of ciphertexts of degree 8, then one of degree 4 with more
    components: the call fails, and the next correct call is undefined, since it
    adds as many components as there are lazy ones (C47) *)
Definition ip_lazy : ct := snd (ip_ct_fused_lazily (enc97 m8 99) (enc97 m8 100) m8).
Example C79_example_lazily :
  length (ct_lazy ip_lazy) = 2%nat /\
  fst (ip_ct_fused_lazily ip_lazy (enc97 m8 100) m8) = Ok tt /\
  fst (ip_ct_fused_lazily ip_lazy ip_three [1; 2; 3; 4]) = Err InvalidArgument /\
  length (ct_lazy (snd (ip_ct_fused_lazily ip_lazy ip_three [1; 2; 3; 4]))) = 3%nat /\
  fst (ip_ct_fused_lazily (snd (ip_ct_fused_lazily ip_lazy ip_three [1; 2; 3; 4])) (enc97 m8 100) m8) = UB.
Proof. repeat (split; [vm_compute; reflexivity|]). vm_compute. reflexivity. Qed.

(** BFV, one level down: the message, the status of AbsorbInPlace, the forms of
    the components it leaves, and what these decrypt to *)
Example C79_example_bfv :
  (do! c <- ctx_create_bfv 32 3 [97; 193; 257] [113; 241; 337] 3; let e := coeff_encoder exact_dops c in
   do! ' (key, s) <- rsk_sample toy 3 1 (rc_qs c) 12345;
   do! ' (x, s, r) <- rsk_encrypt_bfv toy toy 200 key e [1; 2; 0; 1; 2] s 99;
   do! x <- bfv_mod_reduce c x; do! key <- rsk_mod_reduce key; do! b <- get (rt_c x) 1; do! m <- rsk_decrypt_bfv key e x;
   let call := ip_bfv_absorb exact_dops c x b in
   do! m' <- rsk_decrypt_bfv key e (snd call);
   Ok (m, fst call, map rp_ntt (rt_c (snd call)), m')) =
  Ok ([1; 2; 0; 1; 2; 0; 0; 0], Err InvalidArgument, [false; true], [1; 1; 1; 2; 2; 0; 2; 0]).
Proof. vm_compute. reflexivity. Qed.

(** ConvertToCoeffForm of a polynomial with more coefficients than the parameters
    have: the call fails with the rows half transformed *)
Example C79_example_to_coeff :
  let a := {| rp_logn := 4; rp_vs := repeat (map Z.of_nat (seq 0 16)) 3; rp_ntt := true |} in
  fst (ip_rns_to_coeff a ex_qs) <> Ok tt /\ rp_vs (snd (ip_rns_to_coeff a ex_qs)) <> rp_vs a.
Proof. cbv zeta. split; vm_compute; discriminate. Qed.

Print Assumptions C79_rns_agrees.
Print Assumptions C79_poly_agrees.
Print Assumptions C79_single_agrees.
Print Assumptions C79_rns_unchanged.
Print Assumptions C79_reduce_unchanged.
Print Assumptions C79_single_unchanged.
Print Assumptions C79_add_refuted.
Print Assumptions C79_lazily_refuted.
Print Assumptions C79_bfv_absorb_refuted.
Print Assumptions C79_mixed_refuted.
Print Assumptions C79_scale_and_reduce_refuted.
