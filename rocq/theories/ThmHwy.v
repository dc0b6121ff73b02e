(** C71: the vectorised multiply-and-add of lazy polynomials. *)
From Coq Require Import Znumtheory Arith.
From Verif Require Import Base FinSum PolySpec SymSpec Montgomery MontBatch Ntt PrimeCheck Spec NttFacts Poly PolyView RnsPoly RnsSpec CrtMath RnsSub RnsProofs RnsBasis RnsMore
  RnsCtx RnsCtxProofs RnsExample RnsCt RnsCtSpec RnsLazy RnsLazyCt RnsHwy RnsHwyProofs.

(** all entries are unsigned w-bit integers *)
Definition unsigned (w : Z) (v : list Z) : Prop := Forall (fun x => 0 <= x < 2 ^ w) v.

(** r is out with a_i * b_i added to entry i, modulo 2^w, for every entry of a *)
Definition multiplied_and_added (w : Z) (a b out r : list Z) : Prop :=
  length r = length out /\
  forall i, (i < length out)%nat ->
    nth i r 0 = if (i <? length a)%nat then (nth i out 0 + nth i a 0 * nth i b 0) mod 2 ^ w else nth i out 0.

Lemma scalar_spec w a b out : (length a <= length b)%nat -> (length a <= length out)%nat ->
  exists r, fma_scalar w a b out = Ok r /\ multiplied_and_added w a b out r.
Proof.
  intros Hb Ho. destruct (fma_scalar_ok w a b out Hb Ho) as (r & E & Lr & Hr). exists r. split; [exact E|]. split; [exact Lr|].
  intros i Hi. specialize (Hr i). unfold lane in Hr. rewrite Hr. destruct (i <? length a)%nat; [|reflexivity].
  unfold wrap. apply Zplus_mod_idemp_r.
Qed.

(** For 32-bit (and any smaller) integers and every vector length that is a
    multiple of four lanes, whatever the number of coefficients. *)
Theorem C71_multiply_add :
  forall k N a b out, 0 <= k -> (0 < N)%nat -> (N mod 4 = 0)%nat ->
  (length a <= length b)%nat -> (length a <= length out)%nat -> unsigned k a -> unsigned k b -> unsigned (2 * k) out ->
  exists r, fma_hwy k N a b out = Ok r /\ multiplied_and_added (2 * k) a b out r.
Proof. intros. rewrite fma_hwy_ok by assumption. now apply scalar_spec. Qed.

(** For 64-bit integers, with 128-bit sums and carries between lanes: the same,
    whatever the unspecified lanes hold. *)
Theorem C71_multiply_add_64 :
  forall u N a b out, (0 < N)%nat -> (N mod 4 = 0)%nat ->
  (length a <= length b)%nat -> (length a <= length out)%nat -> unsigned 64 a -> unsigned 64 b -> unsigned 128 out ->
  exists r, fma_hwy64 u N a b out = Ok r /\ multiplied_and_added 128 a b out r.
Proof. intros. rewrite fma_hwy64_ok by assumption. now apply scalar_spec. Qed.

(** Any number of FusedMulAddInPlace calls with vector instructions gives the
    accumulators the scalar loops give, so C68 holds of them. *)
Theorem C71_lazy :
  forall u k N L ms ops fgs, (0 < N)%nat -> (N mod 4 = 0)%nat -> moduli_ok k L ms -> ms <> [] ->
  Forall2 (fun ab fg => rns_is ms L true (fst ab) (fst fg) /\ rns_is ms L true (snd ab) (snd fg)) ops fgs ->
  let run (fused : rlazy -> rpoly -> rpoly -> list pmod -> result rlazy) :=
    fold_left (fun r (ab : rpoly * rpoly) => do! z <- r; fused z (fst ab) (snd ab) ms) ops in
  let sum := fun i => fold_right Z.add 0 (map (fun fg => negacyclic (2 ^ L) (fst fg) (snd fg) i) fgs) in
  forall fused, (k = 32 /\ fused = rlazy_fused32 N) \/ (k = 64 /\ fused = rlazy_fused64 u N) ->
  run fused (rlazy_zero (Z.of_nat L) ms) = run rlazy_fused (rlazy_zero (Z.of_nat L) ms) /\
  is_rns ms L true (do! z <- run fused (rlazy_zero (Z.of_nat L) ms); rlazy_export z ms) sum /\
  forall a b f g, rns_is ms L true a f -> rns_is ms L true b g ->
    run fused (rlazy_create a b ms) = run rlazy_fused (rlazy_create a b ms) /\
    is_rns ms L true (do! z <- run fused (rlazy_create a b ms); rlazy_export z ms) (fun i => negacyclic (2 ^ L) f g i + sum i).
Proof.
  intros u k N L ms ops fgs HN H4 OK NE HF run sum fused Hf.
  assert (S : forall z h, lazy_is k ms L z h -> run fused (Ok z) = run rlazy_fused (Ok z)).
  { intros z h Hz. unfold run. destruct Hf as [[-> ->]|[-> ->]].
    - apply (run_with_ok 32 L ms (fma_hwy 32 N) OK) with (fgs := fgs) (h := h); try assumption.
      intros a b out. now apply (fma_hwy_ok 32 N a b out).
    - apply (run_with_ok 64 L ms (fma_hwy64 u N) OK) with (fgs := fgs) (h := h); try assumption.
      intros a b out. now apply (fma_hwy64_ok u N a b out). }
  assert (K : forall i, products L fgs i = sum i). { intros i. unfold products, psum, sum. rewrite map_map. reflexivity. }
  assert (X : forall z h h', lazy_is k ms L z h -> (forall i, h i + products L fgs i = h' i) ->
     is_rns ms L true (do! z <- run fused (Ok z); rlazy_export z ms) h').
  { intros z h h' Hz E. rewrite (S z h Hz). destruct (run_is k L ms OK NE ops fgs HF z h Hz) as (z' & E' & Hz'). unfold run. rewrite E'. cbn [bind].
    apply (is_rns_ext k L ms OK _ _ _ _ (lazy_export_is k L ms OK z' _ NE Hz')). intros mm i _ Hi. apply cong_eq. cbv beta. apply E. }
  destruct (lazy_zero_ok k L ms OK NE) as (z & E & Hz). rewrite E. split; [exact (S z _ Hz)|]. split.
  - apply (X z _ _ Hz). intros i. rewrite K. reflexivity.
  - intros a b f g Ha Hb. destruct (lazy_create_is k L ms OK a b f g NE Ha Hb) as (z1 & E1 & Hz1). rewrite E1.
    split; [exact (S z1 _ Hz1)|]. apply (X z1 _ _ Hz1). intros i. rewrite K. reflexivity.
Qed.

(** 64-bit words, degree 2, prime 97 *)
Definition ex64_ms : list pmod := Eval vm_compute in match seqr (map (make_modulus 64 1) [97]) with Ok l => l | _ => [] end.
(** the polynomial X *)
Definition ex64_x : rpoly := {| rp_logn := 1; rp_vs := [[81; 16]]; rp_ntt := true |}.

Lemma ex64_ok : moduli_ok 64 1 ex64_ms /\ ex64_ms <> [] /\ rns_is ex64_ms 1 true ex64_x (fun i => Z.of_nat i).
Proof.
  assert (W : word_size 64) by (right; right; left; reflexivity).
  destruct (make_moduli 64 1 [97] W) with (ms := ex64_ms) as [A B].
  { constructor; [apply (prime_by_trial _ 20); [lia|vm_compute; reflexivity]|constructor]. }
  { vm_compute. reflexivity. }
  split; [exact A|]. split; [discriminate|]. split; [reflexivity|]. split; [reflexivity|].
  constructor; [|constructor]. split.
  - split; [reflexivity|]. repeat constructor; vm_compute; discriminate.
  - intros i Hi. cbn in Hi. destruct i as [|[|i]]; [vm_compute; reflexivity|vm_compute; reflexivity|lia].
Qed.

(** With two 64-bit lanes (128-bit vectors, as on SSE and NEON) the shuffle has
    no four-lane block to work on. Whatever it then leaves in the unspecified
    lane, the low half of the second sum gets the high half of the first product
    in place of the second product. *)
Theorem C71_two_lanes_refuted :
  (forall u a0 a1 b0 b1 o0 o1 r, 0 <= o1 < 2 ^ 128 ->
     fma_hwy64 u 2 [a0; a1] [b0; b1] [o0; o1] = Ok r ->
     (a1 * b1) mod 2 ^ 64 <> (a0 * b0 / 2 ^ 64) mod 2 ^ 64 ->
     ~ multiplied_and_added 128 [a0; a1] [b0; b1] [o0; o1] r) /\
  exists ms a b, moduli_ok 64 1 ms /\ ms <> [] /\
    rns_is ms 1 true a (fun i => Z.of_nat i) /\ rns_is ms 1 true b (fun i => Z.of_nat i) /\
    forall u, (do! z <- rlazy_zero 1 ms; rlazy_fused64 u 2 z a b ms) <> (do! z <- rlazy_zero 1 ms; rlazy_fused z a b ms).
Proof.
  split.
  - intros u a0 a1 b0 b1 o0 o1 r Ho E NE (_ & H). specialize (H 1%nat ltac:(cbn; lia)). cbn [nth length] in H.
    change (1 <? 2)%nat with true in H. cbv iota in H.
    pose proof (two_lanes u a0 a1 b0 b1 o0 o1 r Ho E) as T. unfold lane in T. rewrite H in T. unfold wrap, shr in T.
    assert (M : forall x, (x mod 2 ^ 128) mod 2 ^ 64 = x mod 2 ^ 64).
    { intros x. symmetry. apply Znumtheory.Zmod_div_mod; [reflexivity|reflexivity|]. exists (2 ^ 64). reflexivity. }
    rewrite M in T. apply NE. apply (f_equal (fun x => (x - o1) mod 2 ^ 64)) in T. cbv beta in T.
    rewrite !Zminus_mod_idemp_l in T. replace (o1 + a1 * b1 - o1) with (a1 * b1) in T by ring.
    replace (o1 + a0 * b0 / 2 ^ 64 - o1) with (a0 * b0 / 2 ^ 64) in T by ring. exact T.
  - destruct ex64_ok as (A & B & C). exists ex64_ms, ex64_x, ex64_x. do 4 (split; [assumption|]). intros u.
    assert (Z0 : rlazy_zero 1 ex64_ms = Ok {| rl_vs := [[0; 0]]; rl_level := 0; rl_max := 2 ^ 62 |}) by (vm_compute; reflexivity).
    rewrite Z0. cbn [bind].
    assert (R : rlazy_fused {| rl_vs := [[0; 0]]; rl_level := 0; rl_max := 2 ^ 62 |} ex64_x ex64_x ex64_ms
       = Ok {| rl_vs := [[6561; 256]]; rl_level := 1; rl_max := 2 ^ 62 |}) by (vm_compute; reflexivity).
    rewrite R. unfold rlazy_fused64.
    assert (F : forall fma, rlazy_fused_with fma {| rl_vs := [[0; 0]]; rl_level := 0; rl_max := 2 ^ 62 |} ex64_x ex64_x ex64_ms
       = do! vs <- seqr [fma [81; 16] [81; 16] [0; 0]]; Ok {| rl_vs := vs; rl_level := 1; rl_max := 2 ^ 62 |}) by (intros; reflexivity).
    rewrite F. cbn [seqr]. destruct (fma_hwy64 u 2 [81; 16] [81; 16] [0; 0]) as [r| |] eqn:E; cbn [bind]; [|discriminate|discriminate].
    pose proof (two_lanes u 81 16 81 16 0 0 r ltac:(lia) E) as T. intros Q. assert (Er : r = [6561; 256]) by congruence.
    rewrite Er in T. vm_compute in T. discriminate.
Qed.

(** Nine coefficients with four 32-bit lanes (two blocks and a tail), and five
    with four 64-bit lanes, with a carry in each of the first two sums; with two
    lanes the second sum is wrong. *)
Example C71_example :
  fma_hwy 32 4 [1; 2; 3; 4; 5; 6; 7; 8; 2 ^ 32 - 1] [9; 8; 7; 6; 5; 4; 3; 2; 2 ^ 32 - 1] (repeat 10 9)
    = Ok [19; 26; 31; 34; 35; 34; 31; 26; (10 + (2 ^ 32 - 1) * (2 ^ 32 - 1)) mod 2 ^ 64] /\
  (let m := 2 ^ 64 - 1 in
   fma_hwy64 7 4 [m; 2; m; 5; 6] [m; 3; 1; 5; 7] [m; m; 2 ^ 100; 0; 8] = Ok [m * m + m; m + 6; 2 ^ 100 + m; 25; 50]) /\
  fma_hwy64 0 2 [3; 5] [3; 5] [0; 0] = Ok [9; 0].
Proof. repeat split; vm_compute; reflexivity. Qed.

Print Assumptions C71_multiply_add.
Print Assumptions C71_multiply_add_64.
Print Assumptions C71_lazy.
Print Assumptions C71_two_lanes_refuted.
