(** C68: lazy accumulation over RNS moduli. *)
From Coq Require Import Setoid Znumtheory.
From Verif Require Import Base FinSum PolySpec Ring NegRing SymSpec Montgomery MontBatch MontBatchProofs
  Spec RnsPoly RnsSpec CrtMath RnsSub RnsProofs RnsBasis RnsBasis2 RnsMore RnsCtx RnsExample RnsCt RnsCtSpec RnsCtProofs RnsLazy RnsLazyCt ThmRnsCt.

(** Any number of FusedMulAddInPlace calls after CreateZero or Create: the
    export is the sum of all products; no accumulator overflows on the way. *)
Theorem C68_lazy_exact :
  forall k L ms ops fgs, moduli_ok k L ms -> ms <> [] ->
  Forall2 (fun ab fg => rns_is ms L true (fst ab) (fst fg) /\ rns_is ms L true (snd ab) (snd fg)) ops fgs ->
  let run := fold_left (fun r (ab : rpoly * rpoly) => do! z <- r; rlazy_fused z (fst ab) (snd ab) ms) in
  let sum := fun i => fold_right Z.add 0 (map (fun fg => negacyclic (2 ^ L) (fst fg) (snd fg) i) fgs) in
  is_rns ms L true (do! z <- run ops (rlazy_zero (Z.of_nat L) ms); rlazy_export z ms) sum /\
  forall a b f g, rns_is ms L true a f -> rns_is ms L true b g ->
  is_rns ms L true (do! z <- run ops (rlazy_create a b ms); rlazy_export z ms) (fun i => negacyclic (2 ^ L) f g i + sum i).
Proof.
  intros k L ms ops fgs OK NE H run sum.
  assert (K : forall i, products L fgs i = sum i).
  { intros i. unfold products, psum, sum. rewrite map_map. reflexivity. }
  assert (F : forall z h h', lazy_is k ms L z h -> (forall i, h i + products L fgs i = h' i) ->
     is_rns ms L true (do! z <- run ops (Ok z); rlazy_export z ms) h').
  { intros z h h' Hz E. destruct (run_is k L ms OK NE ops fgs H z h Hz) as (z' & E' & Hz'). unfold run. rewrite E'. cbn [bind].
    apply (is_rns_ext k L ms OK _ _ _ _ (lazy_export_is k L ms OK z' _ NE Hz')). intros mm i _ Hi. apply cong_eq. cbv beta. apply E. }
  split.
  - destruct (lazy_zero_ok k L ms OK NE) as (z & E & Hz). rewrite E. apply (F z _ _ Hz). intros i. rewrite K. reflexivity.
  - intros a b f g Ha Hb. destruct (lazy_create_is k L ms OK a b f g NE Ha Hb) as (z & E & Hz). rewrite E.
    apply (F z _ _ Hz). intros i. rewrite K. reflexivity.
Qed.

(** one operand: a ciphertext of phase w and pad c1, and a plaintext m *)
Definition lazy_operand (ms : list pmod) (L : nat) (s : nat -> Z) (ab : rct * rpoly) (d : (nat -> Z) * (nat -> Z) * (nat -> Z)) : Prop :=
  let '(w, c1, m) := d in
  ciphertext ms L s 2 1 (fst ab) w /\ rns_is ms L true (snd ab) m /\
  exists a1, nth_error (rt_c (fst ab)) 1 = Some a1 /\ rns_is ms L true a1 c1.

Definition absorb_lazily (ops : list (rct * rpoly)) (x : rct) : result rct :=
  fold_left (fun r ab => do! x <- r; rct_fused_lazily x (fst ab) (snd ab)) ops (Ok x).

(** FusedAbsorbAddInPlaceWithoutPadLazily any number of times on an empty
    ciphertext, then MergeLazyOperations and SetPadComponent with the separately
    computed pad: the phase is the sum of all phase * plaintext. *)
Theorem C68_lazy_absorb :
  forall k L ms s ops ds pad, moduli_ok k L ms -> ms <> [] -> distinct ms -> ops <> [] ->
  Forall2 (lazy_operand ms L s) ops ds ->
  rns_is ms L true pad (fun i => fold_right Z.add 0 (map (fun d => let '(w, c1, m) := d in negacyclic (2 ^ L) c1 m i) ds)) ->
  gives ms L s 2 1 (do! x <- absorb_lazily ops (rct_zero ms); do! x <- rct_merge x; rct_set_pad x pad)
    (fun i => fold_right Z.add 0 (map (fun d => let '(w, c1, m) := d in negacyclic (2 ^ L) w m i) ds)).
Proof.
  intros k L ms s ops ds pad OK NE DI NO HF Hpad. set (n := (2 ^ L)%nat) in *. pose proof (Hn L) as N0. fold n in N0.
  set (S0 := substituted n (Z.to_nat 1) s).
  assert (Hds : exists es, Forall2 (operand L ms) ops es /\
     pcong (big_q ms) n (psum (map (fun d => let '(c0, c1, m) := d in negacyclic n (phase_of n S0 [c0; c1]) m) es))
       (fun i => fold_right Z.add 0 (map (fun d => let '(w, c1, m) := d in negacyclic n w m i) ds)) /\
     forall i, products L (pairs1 es) i = fold_right Z.add 0 (map (fun d => let '(w, c1, m) := d in negacyclic n c1 m i) ds)).
  { clear NO Hpad. induction HF as [|[a b] [[w c1] m] ops ds Hd HF IH].
    - exists []. split; [constructor|]. split; [intros i _; reflexivity|reflexivity].
    - destruct IH as (es & I1 & I2 & I3). destruct Hd as ((A1 & A2 & A3 & cs & A4 & A5) & Hm & a1 & E1 & H1). cbn [fst snd] in *.
      destruct (rt_c a) as [|a0 [|a1' [|? ?]]] eqn:Ea; try discriminate. cbn in E1. injection E1 as ->.
      assert (Hcs : exists d0 d1, cs = [d0; d1] /\ rns_is ms L true a0 d0 /\ rns_is ms L true a1 d1).
      { inversion A4 as [|? d0 ? cs' B1 B2]. inversion B2 as [|? d1 ? cs'' B3 B4]. inversion B4. exists d0, d1. auto. }
      destruct Hcs as (d0 & d1 & -> & H0 & H1').
      assert (C1 : pcong (big_q ms) n d1 c1).
      { intros i Hi. apply (proj1 (rns_iff k L ms OK DI true a1 d1 c1 H1') H1 i Hi). }
      assert (PH : pcong (big_q ms) n (phase_of n S0 [d0; c1]) w).
      { etransitivity; [|exact A5]. apply phase_cong; [exact N0|reflexivity|].
        constructor; [reflexivity|constructor; [symmetry; exact C1|constructor]]. }
      exists ((d0, c1, m) :: es). split; [|split].
      + constructor; [|exact I1]. split; [exact A1|]. split; [exact A2|]. cbn [fst snd]. rewrite Ea.
        split; [|exact Hm]. constructor; [exact H0|constructor; [exact H1|constructor]].
      + intros i Hi. unfold psum in *. cbn [map fold_right]. apply add_cong; [|apply (I2 i Hi)].
        apply (neg_cong (big_q ms) n); [exact PH|reflexivity|exact Hi].
      + intros i. unfold products, psum, pairs1 in *. cbn [map fold_right fst snd]. f_equal. apply I3. }
  destruct Hds as (es & HO & HP & H1).
  destruct (lazily_is k L ms OK NE ops es HO NO (rct_zero ms) eq_refl eq_refl (fun _ => 0) (fun _ => eq_refl)) as (z & Ez & Hz).
  unfold absorb_lazily. unfold lazily in Ez. rewrite Ez. cbn [bind].
  destruct (merge_empty k L ms OK NE (rct_with_lazy (rct_zero ms) [z]) z _ eq_refl eq_refl eq_refl Hz) as (e & Ee & He).
  rewrite Ee. cbn [bind]. unfold rct_set_pad. cbn [rct_make rt_c].
  eexists. split; [reflexivity|]. split; [reflexivity|]. split; [reflexivity|]. split; [reflexivity|].
  exists [products L (pairs0 es); products L (pairs1 es)]. split.
  - cbn [rct_with_c rt_c]. constructor; [|constructor; [|constructor]].
    + apply (rns_ext k L ms OK _ _ _ _ He). intros mm i _ Hi. apply cong_eq. reflexivity.
    + apply (rns_ext k L ms OK _ _ _ _ Hpad). intros mm i _ Hi. apply cong_eq. symmetry. apply H1.
  - etransitivity; [exact (products_phase L ms S0 es)|exact HP].
Qed.

(** MergeLazyOperations needs pending operations, and only ciphertexts of
    degree 1 at the same level and power are accumulated. *)
Theorem C68_errors :
  forall x a b,
  (rt_lazy x = [] -> rct_merge x = Err FailedPrecondition) /\
  (length (rt_c a) <> 2%nat \/ length (rt_ms x) <> length (rt_ms a) \/ rt_pow x <> rt_pow a ->
    rct_fused_lazily x a b = Err InvalidArgument).
Proof.
  intros x a b. split; [intros E; unfold rct_merge; rewrite E; reflexivity|]. intros H. unfold rct_fused_lazily.
  destruct (rt_c a) as [|a0 [|a1 [|a2 t]]]; try reflexivity. destruct H as [H|[H|H]]; [cbn in H; lia| |].
  - apply Nat.eqb_neq in H. unfold same_len. rewrite H. reflexivity.
  - apply Z.eqb_neq in H. rewrite H. destruct (same_len (rt_ms x) (rt_ms a)); reflexivity.
Qed.

(** Two products accumulated lazily, against the eager sum. *)
Example C68_example :
  let w := [5; -3; 0; 2; 7; 0; 1; -1] in let v := [2; 0; 4; -6; 0; 0; 3; 1] in
  let pw := [9; 8; -7; 6; 100; 4; -3; 2] in let pv := [12; 0; 50; 6; 5; -44; 3; 21] in
  let m1 := [1; 2; 3; 4; 5; 6; 7; 8] in let m2 := [-1; 4; 0; 0; 2; 0; 9; 3] in
  ex_phase ex_qs
    (do! x <- ex_ct w pw; do! y <- ex_ct v pv; do! b1 <- ex_poly ex_qs m1; do! b2 <- ex_poly ex_qs m2;
     do! pad <- ex_poly ex_qs (map2 Z.add (ex_neg pw m1) (ex_neg pv m2));
     do! x <- absorb_lazily [(x, b1); (y, b2)] (rct_zero ex_qs); do! x <- rct_merge x; rct_set_pad x pad)
  = res ex_qs (map2 Z.add (ex_neg w m1) (ex_neg v m2)).
Proof. vm_compute. reflexivity. Qed.

Print Assumptions C68_lazy_exact.
Print Assumptions C68_lazy_absorb.
Print Assumptions C68_errors.
