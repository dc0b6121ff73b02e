(** C72: RNS ciphertexts and polynomials as objects: serialization, conversion of
    all components, multiply-and-add without the pad, comparisons. *)
From Coq Require Import Setoid Znumtheory.
From Verif Require Import Base FinSum PolySpec Ring NegRing SymSpec Montgomery MontBatch MontBatchProofs Ntt Poly PolyView
  Spec RnsPoly RnsSpec CrtMath RnsSub RnsProofs RnsBasis RnsBasis2 RnsMore RnsCtx RnsExample RnsCt RnsCtSpec RnsCtProofs RnsLazy RnsLazyCt ThmRnsCt ThmRnsLazy.

(** Serialize succeeds on every ciphertext with well-formed components, of any
    degree and form, and Deserialize gives the ciphertext back. Operations that
    are still pending (not merged) are not part of the message. *)
Theorem C72_round_trip :
  forall k L ms x, moduli_ok k L ms -> ms <> [] -> rt_ms x = ms -> Forall (rns_poly ms L) (rt_c x) ->
  exists sx, rct_serialize x = Ok sx /\ rct_deserialize sx ms = Ok (rct_with_lazy x []) /\
    (rt_lazy x = [] -> rct_deserialize sx ms = Ok x).
Proof.
  intros k L ms x OK NE Ems Hc. unfold rct_serialize. rewrite Ems.
  assert (G : exists bs, seqr (map (fun a => rns_serialize a ms) (rt_c x)) = Ok bs /\ seqr (map (fun b => rns_deserialize b ms) bs) = Ok (rt_c x)).
  { induction (rt_c x) as [|a t IH]; [exists []; split; reflexivity|].
    destruct (IH (Forall_inv_tail Hc)) as (bs & E1 & E2). destruct (serialize_ok k L ms OK NE a (Forall_inv Hc)) as (b & F1 & F2).
    exists (b :: bs). cbn [map seqr]. rewrite F1, F2. cbn [bind]. rewrite E1, E2. split; reflexivity. }
  destruct G as (bs & E1 & E2). rewrite E1. cbn [bind]. eexists. split; [reflexivity|].
  unfold rct_deserialize. cbn [src_c src_pow]. rewrite E2. cbn [bind]. unfold rct_make, rct_with_lazy. rewrite Ems.
  split; [reflexivity|]. intros El. destruct x as [c lz m pw]. cbn in *. subst. reflexivity.
Qed.

(** So lazily accumulated products are lost by a round trip before
    MergeLazyOperations. *)
Theorem C72_pending_operations_kept_refuted :
  ~ (forall x sx y, rt_lazy x <> [] -> rct_serialize x = Ok sx -> rct_deserialize sx (rt_ms x) = Ok y -> rt_lazy y = rt_lazy x) /\
  (forall sx ms y, rct_deserialize sx ms = Ok y -> rct_merge y = Err FailedPrecondition).
Proof.
  split.
  - intros H. specialize (H (rct_with_lazy (rct_zero []) [{| rl_vs := []; rl_level := 0; rl_max := 0 |}]) {| src_c := []; src_pow := 1 |} (rct_zero [])).
    specialize (H ltac:(discriminate) eq_refl eq_refl). discriminate.
  - intros sx ms y. unfold rct_deserialize. destruct (seqr _) as [c| |]; cbn [bind]; try discriminate. intros [= <-]. reflexivity.
Qed.

(** ConvertToCoeffForm and back: the phase stays. The conversions in the wrong
    direction are InvalidArgument. *)
Theorem C72_forms :
  forall k L ms s len j x w, moduli_ok k L ms -> ciphertext ms L s len j x w ->
  (exists y, rct_to_coeff x = Ok y /\ gives ms L s len j (rct_to_ntt y) w /\
     Forall (fun c => rp_ntt c = false) (rt_c y) /\ rt_ms y = ms /\ rt_pow y = j) /\
  ((0 < len)%nat -> rct_to_ntt x = Err InvalidArgument).
Proof.
  intros k L ms s len j x w OK (A1 & A2 & A3 & cs & A4 & A5). split.
  - assert (G : exists ds, seqr (map (fun c => rns_to_coeff c ms) (rt_c x)) = Ok ds /\ Forall2 (rns_is ms L false) ds cs).
    { clear A3 A5. induction A4 as [|c f t fs Hc HF IH]; [exists []; split; [reflexivity|constructor]|].
      destruct IH as (ds & E & Hd). destruct (rns_to_coeff_is k L ms OK c f Hc) as (d & E' & Hd'). exists (d :: ds).
      cbn [map seqr]. rewrite E'. cbn [bind]. rewrite E. split; [reflexivity|]. constructor; assumption. }
    destruct G as (ds & E & Hd). unfold rct_to_coeff, rct_map. rewrite A1, E. cbn [bind]. eexists. split; [reflexivity|]. split.
    + unfold gives, rct_to_ntt, rct_map. cbn [rct_with_c rt_c rt_ms]. rewrite A1.
      assert (G2 : exists es, seqr (map (fun c => rns_to_ntt c ms) ds) = Ok es /\ Forall2 (rns_is ms L true) es cs).
      { clear -Hd OK. induction Hd as [|c f t fs Hc HF IH]; [exists []; split; [reflexivity|constructor]|].
        destruct IH as (es & E & He). destruct (rns_to_ntt_is k L ms OK c f Hc) as (d & E' & Hd'). exists (d :: es).
        cbn [map seqr]. rewrite E'. cbn [bind]. rewrite E. split; [reflexivity|]. constructor; assumption. }
      destruct G2 as (es & E2 & He). rewrite E2. cbn [bind]. eexists. split; [reflexivity|].
      split; [exact A1|]. split; [exact A2|]. split; [|exists cs; split; [exact He|exact A5]].
      cbn [rct_with_c rt_c]. pose proof (Forall2_len _ _ _ He). pose proof (Forall2_len _ _ _ A4). congruence.
    + split; [|split; [exact A1|exact A2]]. cbn [rct_with_c rt_c]. clear -Hd. induction Hd as [|c f t fs Hc HF IH]; constructor; [apply Hc|exact IH].
  - intros Hl. unfold rct_to_ntt, rct_map. destruct (rt_c x) as [|c t]; [cbn in A3; lia|]. inversion A4 as [|? f ? fs Hc]. cbn [map seqr].
    assert (E : rns_to_ntt c (rt_ms x) = Err InvalidArgument). { unfold rns_to_ntt. destruct Hc as (_ & Hn & _). rewrite Hn. reflexivity. }
    rewrite E. reflexivity.
Qed.

Section Phase2.
Variables (Q : Z) (n : nat).
Hypothesis Hn : (0 < n)%nat.
Add Ring NR72 : (neg_ring Q n Hn) (setoid (pcong_equiv Q n) (neg_ring_ext Q n)).
Lemma phase2_fused S0 f0 c1 g0 d1 m :
  pcong Q n (phase_of n S0 [fun i => f0 i + negacyclic n g0 m i; fun i => c1 i + negacyclic n d1 m i])
    (padd (phase_of n S0 [f0; c1]) (negacyclic n (phase_of n S0 [g0; d1]) m)).
Proof.
  assert (P2 : forall c0 c1', pcong Q n (phase_of n S0 [c0; c1']) (padd c0 (negacyclic n c1' S0))).
  { intros c0 c1'. rewrite (phase_cons Q n Hn), (phase_cons Q n Hn).
    assert (P0 : pcong Q n (phase_of n S0 []) pzero) by apply phase_nil. rewrite P0. ring. }
  rewrite (P2 f0 c1), (P2 g0 d1). rewrite P2.
  change (fun i => f0 i + negacyclic n g0 m i) with (padd f0 (negacyclic n g0 m)).
  change (fun i => c1 i + negacyclic n d1 m i) with (padd c1 (negacyclic n d1 m)). ring.
Qed.
End Phase2.

(** FusedAbsorbAddInPlaceWithoutPad, then SetPadComponent with the pad of x plus
    the pad of a times the plaintext: the phase is w + v m. *)
Theorem C72_fused_without_pad :
  forall k L ms s j x a w v b m pad c1 d1, k <> 16 -> moduli_ok k L ms -> distinct ms ->
  ciphertext ms L s 2 j x w -> ciphertext ms L s 2 j a v -> rns_is ms L true b m ->
  (exists x1, nth_error (rt_c x) 1 = Some x1 /\ rns_is ms L true x1 c1) ->
  (exists a1, nth_error (rt_c a) 1 = Some a1 /\ rns_is ms L true a1 d1) ->
  rns_is ms L true pad (fun i => c1 i + negacyclic (2 ^ L) d1 m i) ->
  gives ms L s 2 j (do! y <- rct_fused_nopad x a b; rct_set_pad y pad) (fun i => w i + negacyclic (2 ^ L) v m i) /\
  (exists y, rct_fused_nopad x a b = Ok y /\ nth_error (rt_c y) 1 = nth_error (rt_c x) 1).
Proof.
  intros k L ms s j x a w v b m pad c1 d1 Hk OK DI Hx Ha Hb (x1 & X1 & Hx1) (a1 & A1 & Ha1) Hp.
  pose proof (fused_gives k L ms OK s 2 j x a w v b m Hk Hx Ha Hb) as (y & Ey & Hy).
  destruct Hx as (Mx & Px & Lx & cs & Fx & Qx). destruct Ha as (Ma & Pa & La & ds & Fa & Qa).
  unfold rct_fused_nopad. unfold rct_fused in Ey.
  destruct (rt_c x) as [|x0 [|x1' [|? ?]]] eqn:Ex; try discriminate. destruct (rt_c a) as [|a0 [|a1' [|? ?]]] eqn:Ea; try discriminate.
  cbn in X1, A1. injection X1 as ->. injection A1 as ->.
  rewrite Mx, Ma, Px, Pa in *. rewrite (same_len_eq ms ms eq_refl), Z.eqb_refl in *. cbn [negb] in *.
  inversion Fx as [|? f0 ? fs0 Fx0 Fx']. inversion Fx' as [|? f1 ? fs1 Fx1 Fx'']. inversion Fx''. subst cs fs0 fs1.
  inversion Fa as [|? g0 ? gs0 Fa0 Fa']. inversion Fa' as [|? g1 ? gs1 Fa1 Fa'']. inversion Fa''. subst ds gs0 gs1.
  destruct (rns_fused_is k L ms OK x0 a0 b f0 g0 m Hk Fx0 Fa0 Hb) as (z0 & Ez & Hz). rewrite Ez. cbn [bind].
  split; [|eexists; split; [reflexivity|]; reflexivity].
  unfold rct_set_pad. cbn [rct_with_c rt_c]. eexists. split; [reflexivity|]. split; [exact Mx|]. split; [exact Px|]. split; [reflexivity|].
  exists [fun i => f0 i + negacyclic (2 ^ L) g0 m i; fun i => c1 i + negacyclic (2 ^ L) d1 m i]. split.
  - cbn [rct_with_c rt_c]. constructor; [exact Hz|]. constructor; [exact Hp|constructor].
  - set (n := (2 ^ L)%nat) in *. pose proof (Hn L) as N0. fold n in N0.
    assert (C1 : pcong (big_q ms) n f1 c1) by (intros i Hi; apply (proj1 (rns_iff k L ms OK DI true x1 f1 c1 Fx1) Hx1 i Hi)).
    assert (D1 : pcong (big_q ms) n g1 d1) by (intros i Hi; apply (proj1 (rns_iff k L ms OK DI true a1 g1 d1 Fa1) Ha1 i Hi)).
    set (S0 := substituted n (Z.to_nat j) s) in *.
    assert (Qx' : pcong (big_q ms) n (phase_of n S0 [f0; c1]) w).
    { etransitivity; [|exact Qx]. apply phase_cong; [exact N0|reflexivity|]. constructor; [reflexivity|constructor; [symmetry; exact C1|constructor]]. }
    assert (Qa' : pcong (big_q ms) n (phase_of n S0 [g0; d1]) v).
    { etransitivity; [|exact Qa]. apply phase_cong; [exact N0|reflexivity|]. constructor; [reflexivity|constructor; [symmetry; exact D1|constructor]]. }
    assert (E : pcong (big_q ms) n (phase_of n S0 [fun i => f0 i + negacyclic n g0 m i; fun i => c1 i + negacyclic n d1 m i])
                (padd (phase_of n S0 [f0; c1]) (negacyclic n (phase_of n S0 [g0; d1]) m))).
    { exact (phase2_fused (big_q ms) n N0 S0 f0 c1 g0 d1 m). }
    etransitivity; [exact E|]. intros i Hi. unfold padd. apply add_cong; [apply (Qx' i Hi)|].
    apply (neg_cong (big_q ms) n); [exact Qa'|reflexivity|exact Hi].
Qed.

(** IsModulusSameAs compares the lists of primes; operator== on polynomials
    compares the degree, the form and all stored words. *)
Theorem C72_comparisons :
  (forall x y, rct_same_modulus x y = true <-> moduli (rt_ms x) = moduli (rt_ms y)) /\
  (forall a b, rns_eqb a b = true <-> a = b).
Proof.
  split.
  - intros x y. unfold rct_same_modulus, moduli, modulus. generalize (rt_ms x) (rt_ms y). clear.
    induction l as [|m l IH]; intros [|m' l']; try (cbn; split; [discriminate|discriminate]); [split; reflexivity|].
    unfold same_len in *. cbn [length combine forallb fst snd map Nat.eqb]. specialize (IH l').
    rewrite Bool.andb_true_iff in IH |- *. rewrite Bool.andb_true_iff, Z.eqb_eq. split.
    + intros (A & B & C). f_equal; [exact B|]. apply IH. auto.
    + intros E. injection E as E1 E2. apply IH in E2. tauto.
  - assert (EP : forall v w, poly_eqb v w = true <-> v = w).
    { unfold poly_eqb, same_len. induction v as [|c v IH]; intros [|d w]; try (cbn; split; discriminate); [split; reflexivity|].
      cbn [length combine forallb fst snd Nat.eqb]. specialize (IH w). rewrite Bool.andb_true_iff in IH |- *. rewrite Bool.andb_true_iff.
      unfold meqb at 1. rewrite Z.eqb_eq. split.
      - intros (A & B & C). f_equal; [exact B|]. apply IH. auto.
      - intros E. injection E as E1 E2. apply IH in E2. tauto. }
    intros [La va na] [Lb vb nb]. unfold rns_eqb. cbn [rp_logn rp_vs rp_ntt]. rewrite !Bool.andb_true_iff, Nat.eqb_eq.
    rewrite Bool.eqb_true_iff. unfold same_len. split.
    + intros (((A & B) & C) & D). f_equal; try assumption. revert vb C D. clear -EP. induction va as [|v va IH]; intros [|w vb] C D; try discriminate; [reflexivity|].
      cbn [combine forallb fst snd length Nat.eqb] in *. apply Bool.andb_true_iff in D. destruct D as [D1 D2]. apply EP in D1. f_equal; [exact D1|]. apply IH; assumption.
    + intros E. injection E as E1 E2 E3. subst. rewrite Nat.eqb_refl. repeat split. clear -EP. induction vb as [|v vb IH]; [reflexivity|].
      cbn [combine forallb fst snd]. rewrite IH, Bool.andb_true_r. now apply EP.
Qed.

(** Equality of stored words is finer than equality of polynomials: the negation
    of the zero polynomial stores the modulus itself and differs from zero. *)
Theorem C72_equality_refuted :
  ~ (forall k L ms ntt a b f, moduli_ok k L ms -> rns_is ms L ntt a f -> rns_is ms L ntt b f -> rns_eqb a b = true) /\
  (do! z <- rns_zero 3 ex_qs true; do! y <- rns_neg z ex_qs; Ok (rns_eqb z y)) = Ok false.
Proof.
  assert (E : (do! z <- rns_zero 3 ex_qs true; do! y <- rns_neg z ex_qs; Ok (rns_eqb z y)) = Ok false) by (vm_compute; reflexivity).
  split; [|exact E]. intros H. destruct ex_ok as (OK & Em & _).
  assert (NE : ex_qs <> []) by (intros X; apply (f_equal moduli) in X; rewrite Em in X; discriminate X).
  destruct (rns_zero_is 32 3 ex_qs OK true NE) as (z & Ez & Hz). change (Z.of_nat 3) with 3 in Ez. rewrite Ez in E. cbn [bind] in E.
  destruct (rns_neg_copy 32 3 ex_qs OK true z _ Hz) as (y & Ey & Hy). rewrite Ey in E. cbn [bind] in E.
  assert (X : rns_eqb z y = true).
  { apply (H 32 3%nat ex_qs true z y (fun _ => 0) OK Hz). apply (rns_ext 32 3 ex_qs OK _ _ _ _ Hy). intros mm i _ Hi. apply cong_eq. reflexivity. }
  rewrite X in E. discriminate E.
Qed.

(** AppendCoeffVector adds one residue polynomial; ReplaceSubPolynomialAt changes
    exactly one, and rejects indices outside. *)
Theorem C72_sub_polynomials :
  (forall ms L ntt a f m v, rns_is ms L ntt a f -> sub_is m L ntt v f -> rns_is (ms ++ [m]) L ntt (rns_append a v) f) /\
  (forall a index v, (index < 0 \/ Z.of_nat (length (rp_vs a)) <= index) -> rns_replace a index v = Err InvalidArgument) /\
  (forall a index v, 0 <= index < Z.of_nat (length (rp_vs a)) ->
     exists b, rns_replace a index v = Ok b /\ rp_logn b = rp_logn a /\ rp_ntt b = rp_ntt a /\ length (rp_vs b) = length (rp_vs a) /\
       forall i, (i < length (rp_vs a))%nat -> nth i (rp_vs b) [] = if (Z.of_nat i =? index) then v else nth i (rp_vs a) []).
Proof.
  split; [|split].
  - intros ms L ntt a f m v (A & B & C) Hv. split; [exact A|]. split; [exact B|]. cbn [rns_append with_vs rp_vs]. apply Forall2_app; [exact C|].
    constructor; [exact Hv|constructor].
  - intros a index v H. unfold rns_replace. destruct (Z.ltb_spec index 0); [reflexivity|]. cbn [orb].
    destruct (Z.leb_spec (Z.of_nat (length (rp_vs a))) index); [reflexivity|lia].
  - intros a index v H. unfold rns_replace. destruct (Z.ltb_spec index 0); [lia|]. cbn [orb].
    destruct (Z.leb_spec (Z.of_nat (length (rp_vs a))) index); [lia|]. eexists. split; [reflexivity|]. cbn [with_vs rp_vs rp_logn rp_ntt].
    split; [reflexivity|]. split; [reflexivity|].
    assert (U : forall (l : list (list Z)) j, length (upd l j v) = length l /\ forall i, (i < length l)%nat -> nth i (upd l j v) [] = if (i =? j)%nat then v else nth i l []).
    { clear. induction l as [|w l IH]; intros j; [split; [reflexivity|cbn; lia]|]. destruct j as [|j]; cbn [upd].
      - split; [reflexivity|]. intros [|i] Hi; reflexivity.
      - destruct (IH j) as [I1 I2]. split; [cbn; lia|]. intros [|i] Hi; [reflexivity|]. cbn [nth Nat.eqb]. apply I2. cbn in Hi. lia. }
    destruct (U (rp_vs a) (Z.to_nat index)) as [U1 U2]. split; [exact U1|]. intros i Hi. rewrite U2 by exact Hi.
    destruct (Nat.eqb_spec i (Z.to_nat index)), (Z.eqb_spec (Z.of_nat i) index); try reflexivity; lia.
Qed.

(** A ciphertext through a message and through coefficient form; without the pad
    and with the pad set later against the plain operation. *)
Example C72_example :
  let w := [5; -3; 0; 2; 7; 0; 1; -1] in let v := [2; 0; 4; -6; 0; 0; 3; 1] in
  let pw := [9; 8; -7; 6; 100; 4; -3; 2] in let pv := [12; 0; 50; 6; 5; -44; 3; 21] in
  let m1 := [1; 2; 3; 4; 5; 6; 7; 8] in
  (do! x <- ex_ct w pw; do! sx <- rct_serialize x; do! y <- rct_deserialize sx ex_qs; do! y <- rct_to_coeff y; do! z <- ex_phase ex_qs (rct_to_ntt y);
   Ok (z, rct_same_modulus x y))
    = (do! z <- res ex_qs w; Ok (z, true)) /\
  ex_phase ex_qs
    (do! x <- ex_ct w pw; do! y <- ex_ct v pv; do! b1 <- ex_poly ex_qs m1; do! pad <- ex_poly ex_qs (map2 Z.add pw (ex_neg pv m1));
     do! x <- rct_fused_nopad x y b1; rct_set_pad x pad)
  = res ex_qs (map2 Z.add w (ex_neg v m1)).
Proof. split; vm_compute; reflexivity. Qed.

Print Assumptions C72_round_trip.
Print Assumptions C72_pending_operations_kept_refuted.
Print Assumptions C72_forms.
Print Assumptions C72_fused_without_pad.
Print Assumptions C72_comparisons.
Print Assumptions C72_equality_refuted.
Print Assumptions C72_sub_polynomials.
