(** C58, C60, C68: homomorphic operations on RNS ciphertexts, BGV modulus
    reduction, lazy accumulation.

    [ciphertext ms L s len j x w] (RnsCtSpec.v): x has [len] components over the
    primes ms and PowerOfS() = j, and c_0 + c_1 s(X^j) + c_2 s(X^j)^2 + ... = w
    modulo Q and X^(2^L) + 1. Decryption reads the message off w. *)
From Coq Require Import Znumtheory.
From Verif Require Import Base FinSum PolySpec Ring NegRing SymSpec PrimeCheck Montgomery MontBatch Ntt Spec NttFacts ThmArith ThmNtt MontBatchProofs
  RnsPoly RnsSpec CrtMath RnsSub RnsProofs RnsReduce RnsBasis RnsBasis2 RnsMore RnsCtx RnsExample RnsCt RnsCtSpec RnsCtProofs RnsNoise RnsLazy ThmRns.

(** ** C58 *)

Theorem C58_linear :
  forall k L ms s len j x y w v, moduli_ok k L ms ->
  ciphertext ms L s len j x w -> ciphertext ms L s len j y v ->
  gives ms L s len j (rct_neg x) (fun i => - w i) /\
  gives ms L s len j (rct_add x y) (fun i => w i + v i) /\
  gives ms L s len j (rct_sub x y) (fun i => w i - v i).
Proof.
  intros k L ms s len j x y w v OK Hx Hy.
  exact (conj (neg_gives k L ms OK s len j x w Hx)
    (conj (add_gives k L ms OK s len j x y w v Hx Hy) (sub_gives k L ms OK s len j x y w v Hx Hy))).
Qed.

(** A plaintext m is added, subtracted or multiplied in. *)
Theorem C58_plaintext :
  forall k L ms s len j x w b m, moduli_ok k L ms -> (1 <= len)%nat ->
  ciphertext ms L s len j x w -> rns_is ms L true b m ->
  gives ms L s len j (rct_add_plain x b) (fun i => w i + m i) /\
  gives ms L s len j (rct_sub_plain x b) (fun i => w i - m i) /\
  gives ms L s len j (rct_absorb x b) (negacyclic (2 ^ L) w m).
Proof.
  intros k L ms s len j x w b m OK Hl Hx Hb.
  exact (conj (add_plain_gives k L ms OK s len j x w b m Hl Hx Hb)
    (conj (sub_plain_gives k L ms OK s len j x w b m Hl Hx Hb) (absorb_gives k L ms OK s len j x w b m Hx Hb))).
Qed.

(** A scalar, as a word or as an RNS integer. *)
Theorem C58_scalar :
  forall k L ms s len j x w, moduli_ok k L ms -> ciphertext ms L s len j x w ->
  (forall a, 0 <= a < 2 ^ k -> gives ms L s len j (rct_absorb_scalar x a) (fun i => a * w i)) /\
  (forall zs a, residues ms zs a -> gives ms L s len j (rct_absorb_rns x zs) (fun i => a * w i)).
Proof.
  intros k L ms s len j x w OK Hx. split.
  - intros a Ha. exact (scalar_gives k L ms OK s len j x w a Hx Ha).
  - intros zs a Hz. exact (rnsint_gives k L ms OK s len j x w zs a Hx Hz).
Qed.

(** FusedAbsorbAddInPlace: x += y * b. (For 16-bit words see C06: the fused
    multiply-add itself is undefined there.) *)
Theorem C58_fused_absorb_add :
  forall k L ms s len j x y w v b m, k <> 16 -> moduli_ok k L ms ->
  ciphertext ms L s len j x w -> ciphertext ms L s len j y v -> rns_is ms L true b m ->
  gives ms L s len j (rct_fused x y b) (fun i => w i + negacyclic (2 ^ L) v m i).
Proof. intros k L ms s len j x y w v b m K OK Hx Hy Hb. exact (fused_gives k L ms OK s len j x y w v b m K Hx Hy Hb). Qed.

(** Multiplication of ciphertexts of any lengths. *)
Theorem C58_mul :
  forall k L ms s lx ly j x y w v, k <> 16 -> moduli_ok k L ms -> ms <> [] -> (1 <= lx)%nat ->
  ciphertext ms L s lx j x w -> ciphertext ms L s ly j y v ->
  gives ms L s (lx + ly - 1) j (rct_mul x y) (negacyclic (2 ^ L) w v).
Proof. intros k L ms s lx ly j x y w v K OK NE Hl Hx Hy. exact (mul_gives k L ms OK s NE lx ly j x y w v K Hl Hx Hy). Qed.

(** Substitution X -> X^p: the result decrypts under s(X^(j p)). *)
Theorem C58_substitute :
  forall k L ms s len j x w p, moduli_ok k L ms -> (1 <= len)%nat -> ciphertext ms L s len j x w ->
  0 <= j -> 0 < p < 2 * 2 ^ Z.of_nat L -> Z.odd p = true -> j * p < 2 ^ 31 ->
  gives ms L s len ((j * p) mod (2 * 2 ^ Z.of_nat L)) (rct_substitute x p) (substituted (2 ^ L) (Z.to_nat p) w).
Proof.
  intros k L ms s len j x w p OK Hl Hx Hj Hp Ho Hb. pose proof (subst_gives k L ms OK s len j x w p Hl Hx Hj) as A.
  rewrite Nat2Z.inj_pow in A. exact (A Hp Ho Hb).
Qed.

(** The last hypothesis is needed: the powers are multiplied as [int]. With
    degree 2^15, powers below 2 * 2^15 have products beyond 2^31 - 1, and the
    call is undefined although all its arguments are valid. *)
Lemma ex_large : exists ms, moduli_ok 32 15 ms /\ moduli ms = [65537].
Proof.
  assert (P : prime 65537) by (apply (prime_by_trial _ 260%nat); [lia|vm_compute; reflexivity]).
  assert (W : word_size 32) by (right; left; reflexivity).
  destruct (params_create 32 65537) as [p| |] eqn:E; [|vm_compute in E; discriminate|vm_compute in E; discriminate].
  assert (H : params_for 32 65537 p) by (split; [exact W|split; [lia|exact E]]).
  assert (M : p_m p = 65537) by (apply (C02_create_consistent _ _ _ H)).
  destruct (C15_init_succeeds 32 65537 p 15 H P ltac:(lia) ltac:(reflexivity)) as (np & En).
  exists [{| pm_p := p; pm_np := np |}]. split; [|unfold moduli, modulus; cbn; rewrite M; reflexivity].
  constructor; [|constructor]. unfold mod_ok, modulus. cbn [pm_p pm_np]. rewrite M. split; [exact H|].
  split; [rewrite M; exact P|exact En].
Qed.

Lemma poly_exists k L ms f : moduli_ok k L ms -> distinct ms -> exists a, rns_is ms L true a f.
Proof.
  intros OK DI. destruct (proj2 (C50_representation k L ms OK DI) f) as (a & Ha).
  destruct (rns_to_ntt_is k L ms OK a f Ha) as (b & _ & Hb). exists b. exact Hb.
Qed.

(** every phase is taken by a ciphertext with any given pad *)
Lemma ciphertext_exists k L ms s j w pad : moduli_ok k L ms -> distinct ms ->
  exists x, ciphertext ms L s 2 j x w /\ exists c0 c1, rt_c x = [c0; c1] /\ rns_is ms L true c1 pad.
Proof.
  intros OK DI. set (S0 := substituted (2 ^ L) (Z.to_nat j) s).
  destruct (poly_exists k L ms (psub w (negacyclic (2 ^ L) S0 pad)) OK DI) as (c0 & H0).
  destruct (poly_exists k L ms pad OK DI) as (c1 & H1).
  exists (rct_make [c0; c1] ms j). split; [|exists c0, c1; auto].
  split; [reflexivity|]. split; [reflexivity|]. split; [reflexivity|].
  exists [psub w (negacyclic (2 ^ L) S0 pad); pad]. split; [constructor; [exact H0|constructor; [exact H1|constructor]]|]. fold S0.
  pose proof (Hn L) as N0. set (n := (2 ^ L)%nat) in *. set (Q := big_q ms).
  rewrite (phase_cons Q n N0), (phase_cons Q n N0). intros i Hi. unfold padd.
  assert (E : cong Q (negacyclic n S0 (fun i => pad i + negacyclic n S0 (phase_of n S0 []) i) i) (negacyclic n S0 pad i)).
  { assert (P0 : pcong Q n (phase_of n S0 []) pzero) by apply phase_nil.
    assert (P1 : pcong Q n (negacyclic n S0 (phase_of n S0 [])) pzero).
    { rewrite (neg_cong Q n S0 S0 _ pzero); [|reflexivity|exact P0]. intros l Hl. unfold negacyclic, pzero.
      rewrite (zsum_ext n _ (fun _ => 0)); [rewrite zsum_zero; reflexivity|]. intros i0 _. destruct (i0 <=? l)%nat; ring. }
    apply (neg_cong Q n S0 S0); [reflexivity| |exact Hi]. intros l Hl. rewrite (P1 l Hl). unfold pzero. apply cong_eq. ring. }
  rewrite E. unfold psub. apply cong_eq. ring.
Qed.

Theorem C58_substitute_int_overflow_refuted :
  exists k ms x w, moduli_ok k 15 ms /\ ciphertext ms 15 (fun _ => 1) 2 65535 x w /\ rct_substitute x 65535 = UB.
Proof.
  destruct ex_large as (ms & OK & M).
  assert (DI : distinct ms) by (unfold distinct; rewrite M; repeat constructor; cbn; lia).
  destruct (ciphertext_exists 32 15 ms (fun _ => 1) 65535 (fun _ => 5) (fun _ => 7) OK DI) as (x & Hx & _).
  exists 32, ms, x, (fun _ => 5). split; [exact OK|]. split; [exact Hx|].
  destruct Hx as (X1 & X2 & X3 & cs & Hc & _). unfold rct_substitute. rewrite X1, X2.
  assert (E : exists c, seqr (map (fun a => rns_substitute a 65535 ms) (rt_c x)) = Ok c).
  { clear X3. induction Hc as [|c d cl dl Hcd Hc IH]; cbn [map seqr]; [eexists; reflexivity|].
    destruct (rns_substitute_is 32 15 ms OK c d 65535 Hcd) as (c' & E & _).
    { rewrite Nat2Z.inj_pow. split; reflexivity. }
    { reflexivity. }
    destruct IH as (cl' & E'). rewrite E. cbn [bind]. rewrite E'. eexists. reflexivity. }
  destruct E as (c & ->). cbn [bind]. destruct (rt_c x) as [|c0 t]; [discriminate|]. reflexivity.
Qed.

(** Operands that do not match are refused. *)
Theorem C58_mismatch :
  forall x y b, (length (rt_c x) <> length (rt_c y) \/ length (rt_ms x) <> length (rt_ms y) \/ rt_pow x <> rt_pow y ->
    rct_add x y = Err InvalidArgument /\ rct_sub x y = Err InvalidArgument /\ rct_fused x y b = Err InvalidArgument) /\
  (length (rt_ms x) <> length (rt_ms y) \/ rt_pow x <> rt_pow y -> rct_mul x y = Err InvalidArgument).
Proof.
  intros x y b. split.
  - intros H. assert (E : rct_compatible x y = false).
    { unfold rct_compatible. destruct H as [H|[H|H]].
      - apply Nat.eqb_neq in H. unfold same_len at 1. rewrite H. reflexivity.
      - apply Nat.eqb_neq in H. unfold same_len at 2. rewrite H, andb_false_r. reflexivity.
      - apply Z.eqb_neq in H. rewrite H. apply andb_false_r. }
    unfold rct_add, rct_sub, rct_fused. rewrite E. auto.
  - intros H. unfold rct_mul. destruct H as [H|H].
    + apply Nat.eqb_neq in H. unfold same_len. rewrite H. reflexivity.
    + apply Z.eqb_neq in H. rewrite H. destruct (same_len (rt_ms x) (rt_ms y)); reflexivity.
Qed.

(** concrete ciphertexts of degree 8 over the primes 97, 193, 17 *)
Definition ex_s : list Z := [1; -1; 0; 1; 0; 0; -1; 1].
Definition ex_neg (a b : list Z) : list Z := map (negacyclic 8 (fun i => nth i a 0) (fun i => nth i b 0)) (seq 0 8).
Definition ex_ct (w pad : list Z) : result rct :=
  do! c0 <- ex_poly ex_qs (map2 Z.sub w (ex_neg pad ex_s));
  do! c1 <- ex_poly ex_qs pad; Ok (rct_make [c0; c1] ex_qs 1).
Definition ex_phase (ms : list pmod) (r : result rct) : result (list (list Z)) :=
  do! x <- r; do! key <- ex_poly ms ex_s;
  do! z <- rns_zero 3 ms true;
  do! acc <- fold_left (fun r c => do! a <- r; do! b <- rns_mul a key ms; rns_add b c ms) (rev (rt_c x)) (Ok z);
  ex_view ms (Ok acc).

Example C58_example :
  let w := [5; -3; 0; 2; 7; 0; 1; -1] in let v := [2; 0; 4; -6; 0; 0; 3; 1] in
  let x := ex_ct w [9; 8; -7; 6; 100; 4; -3; 2] in let y := ex_ct v [12; 0; 50; 6; 5; -44; 3; 21] in
  ex_phase ex_qs x = res ex_qs w /\
  ex_phase ex_qs (do! x <- x; do! y <- y; rct_sub x y) = res ex_qs (map2 Z.sub w v) /\
  ex_phase ex_qs (do! x <- x; do! y <- y; rct_mul x y) = res ex_qs (ex_neg w v) /\
  (do! x <- x; do! y <- y; do! z <- rct_mul x y; Ok (length (rt_c z))) = Ok 3%nat /\
  (do! x <- x; rct_add x (rct_make (rt_c x) ex_qs 3)) = Err InvalidArgument.
Proof. cbv zeta. repeat split; vm_compute; reflexivity. Qed.

Example C58_example_hypotheses :
  exists x, ciphertext ex_qs 3 (fun i => nth i ex_s 0) 2 5 x (fun i => Z.of_nat i - 4) /\ moduli_ok 32 3 ex_qs.
Proof.
  destruct ex_ok as (OK & _). destruct ex_distinct as (_ & DI & _).
  destruct (ciphertext_exists 32 3 ex_qs (fun i => nth i ex_s 0) 5 (fun i => Z.of_nat i - 4) (fun i => 3 * Z.of_nat i) OK DI) as (x & Hx & _).
  exists x. auto.
Qed.

Print Assumptions C58_linear.
Print Assumptions C58_plaintext.
Print Assumptions C58_scalar.
Print Assumptions C58_fused_absorb_add.
Print Assumptions C58_mul.
Print Assumptions C58_substitute.
Print Assumptions C58_substitute_int_overflow_refuted.
Print Assumptions C58_mismatch.

(** ** C60 *)

(** ModReduce drops the last prime. The new phase w' is congruent to w modulo
    the plaintext modulus, and shrinks by the dropped prime up to a term that
    depends on the secret key and the number of components only. *)
Theorem C60_mod_reduce :
  forall k L ms ml s len j x w t inv, moduli_ok k L ms -> mod_ok k L ml -> ms <> [] ->
  inverses ms inv (modulus ml) -> 0 < t < 2 ^ k -> Z.gcd (modulus ml) t = 1 -> 0 <= j ->
  ciphertext (ms ++ [ml]) L s len j x w ->
  exists w', gives ms L s len j (rbgv_mod_reduce x t inv) w' /\
    forall i, (i < 2 ^ L)%nat ->
      (t | w' i - w i) /\
      2 * modulus ml * Z.abs (w' i) <=
        2 * (modulus ml mod t) * Z.abs (w i) + t * (modulus ml - 1) * FinSum.zsum len (fun e => l1 (2 ^ L) s ^ Z.of_nat e).
Proof.
  intros k L ms ml s len j x w t inv OK OKl NE HI Ht G Hj Hx.
  destruct (mod_reduce_gives k L ms ml OK OKl NE inv HI t Ht s len j x w Hx Hj) as (w' & d & Hg & H).
  exists w'. split; [exact Hg|]. intros i Hi. destruct (H i Hi) as [E B]. pose proof (ok_q k L ml OKl) as Q1. split.
  - apply (Gauss t (modulus ml)).
    + exists (d i - modulus ml / t * w i). pose proof (Z_div_mod_eq_full (modulus ml) t) as D.
      rewrite Z.mul_sub_distr_l, E. rewrite D at 2. ring.
    + apply Zgcd_1_rel_prime. rewrite Z.gcd_comm. exact G.
  - unfold geom in B. set (g := FinSum.zsum len _) in *. pose proof (Z.mod_pos_bound (modulus ml) t ltac:(lia)) as M.
    replace (2 * modulus ml * Z.abs (w' i)) with (2 * Z.abs (modulus ml * w' i)) by (rewrite Z.abs_mul, (Z.abs_eq (modulus ml)) by lia; ring).
    rewrite E. pose proof (Z.abs_triangle (modulus ml mod t * w i) (t * d i)) as T. rewrite !Z.abs_mul, (Z.abs_eq (modulus ml mod t)), (Z.abs_eq t) in T by lia.
    nia.
Qed.

Theorem C60_last_modulus :
  forall x t inv, (length (rt_ms x) <= 1)%nat -> rbgv_mod_reduce x t inv = Err FailedPrecondition.
Proof. intros x t inv H. unfold rbgv_mod_reduce. apply Nat.leb_le in H. rewrite H. reflexivity. Qed.

Example C60_example :
  let inv := map (fun m => mult_inverse (pm_p m) (import_int (pm_p m) 17)) (firstn 2 ex_qs) in
  let w := [5; -3; 0; 2; 70; 0; 1; -1] in
  (** phase before: w; after: congruent to w modulo t = 4 *)
  (do! v <- ex_phase (firstn 2 ex_qs) (do! x <- ex_ct w [9; 8; -7; 6; 100; 4; -3; 2]; rbgv_mod_reduce x 4 inv);
   Ok (map (fun c => (centered 97 c) mod 4) (nth 0 v []))) = Ok (map (fun c => c mod 4) w).
Proof. vm_compute. reflexivity. Qed.

Print Assumptions C60_mod_reduce.
Print Assumptions C60_last_modulus.
