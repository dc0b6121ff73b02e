(** Property theorem C37: the generators produce a fixed stream. *)
From Verif Require Import Base ZLemmas Prng PrngSpec SampleSpec PrngProofs.

(** What is assumed of the primitives: they deliver as many bytes as asked. *)
Definition chacha_delivers (chacha20 : list Z -> list Z -> Z -> list Z) (key : list Z) : Prop :=
  forall nonce, Z.of_nat (length (chacha20 key nonce (255 * 32))) = 255 * 32 /\
                Forall (fun x => 0 <= x < 2 ^ 8) (chacha20 key nonce (255 * 32)).
Definition hkdf_delivers (hkdf : list Z -> list Z -> Z -> result (list Z)) (key : list Z) (H : list Z -> list Z) : Prop :=
  forall salt, hkdf key salt (255 * 32) = Ok (H salt) /\ Z.of_nat (length (H salt)) = 255 * 32 /\
               Forall (fun x => 0 <= x < 2 ^ 8) (H salt).

(** The outputs of any sequence of calls are the consecutive bytes of the key
    stream of the seed, up to the capacity of the block counter. *)
Theorem C37_chacha_stream :
  forall chacha20 key, chacha_delivers chacha20 key -> length key = 32%nat ->
  exists st, chacha_create chacha20 key = Ok st /\
  forall calls, reads calls <= capacity ->
    exists st', run_calls (buffered (chacha_block chacha20 key)) calls st =
      Ok (expected (fun b => chacha20 key (chacha_nonce b) (255 * 32)) 0 calls, st').
Proof.
  intros chacha20 key D L. set (B := fun b => chacha20 key (chacha_nonce b) (255 * 32)).
  assert (HB : forall i, 0 <= i < 2 ^ 31 - 1 -> chacha_block chacha20 key i = Ok (B i)) by reflexivity.
  assert (HL : forall i, 0 <= i < 2 ^ 31 - 1 -> Z.of_nat (length (B i)) = output_bytes) by (intros i _; apply D).
  assert (HV : forall i x, 0 <= i < 2 ^ 31 - 1 -> In x (B i) -> 0 <= x < 2 ^ 8).
  { intros i x _ Hx. destruct (D (chacha_nonce i)) as [_ F]. rewrite Forall_forall in F. apply F, Hx. }
  destruct (first_resalt (chacha_block chacha20 key) B HB) as (st & E & A).
  exists st. split; [unfold chacha_create, prng_create; rewrite L; exact E|].
  intros calls Hc. destruct (run_ok (chacha_block chacha20 key) B HB HL HV calls 0 st A ltac:(lia) ltac:(lia)) as (st' & E' & _).
  exists st'. exact E'.
Qed.

Theorem C37_hkdf_stream :
  forall hkdf key H, hkdf_delivers hkdf key H -> length key = 64%nat ->
  exists st, hkdf_create hkdf key = Ok st /\
  forall calls, reads calls <= capacity ->
    exists st', run_calls (buffered (hkdf_block hkdf key)) calls st =
      Ok (expected (fun b => H (hkdf_salt b)) 0 calls, st').
Proof.
  intros hkdf key H D L. set (B := fun b => H (hkdf_salt b)).
  assert (HB : forall i, 0 <= i < 2 ^ 31 - 1 -> hkdf_block hkdf key i = Ok (B i)) by (intros i _; apply D).
  assert (HL : forall i, 0 <= i < 2 ^ 31 - 1 -> Z.of_nat (length (B i)) = output_bytes) by (intros i _; apply D).
  assert (HV : forall i x, 0 <= i < 2 ^ 31 - 1 -> In x (B i) -> 0 <= x < 2 ^ 8).
  { intros i x _ Hx. destruct (D (hkdf_salt i)) as [_ [_ F]]. rewrite Forall_forall in F. apply F, Hx. }
  destruct (first_resalt (hkdf_block hkdf key) B HB) as (st & E & A).
  exists st. split; [unfold hkdf_create, prng_create; rewrite L; exact E|].
  intros calls Hc. destruct (run_ok (hkdf_block hkdf key) B HB HL HV calls 0 st A ltac:(lia) ltac:(lia)) as (st' & E' & _).
  exists st'. exact E'.
Qed.

(** Seeds of the wrong size are rejected. *)
Theorem C37_seed_size :
  (forall chacha20 key, length key <> 32%nat -> chacha_create chacha20 key = Err InvalidArgument) /\
  (forall hkdf key, length key <> 64%nat -> hkdf_create hkdf key = Err InvalidArgument).
Proof.
  split; intros f key H; unfold chacha_create, hkdf_create, prng_create.
  - destruct (Nat.eqb_spec (length key) 32); [contradiction|reflexivity].
  - destruct (Nat.eqb_spec (length key) 64); [contradiction|reflexivity].
Qed.

(** No block of key stream is ever requested twice: nonces and salts of
    different blocks differ, and a nonce has the 12 bytes of RFC 7539. *)
Theorem C37_blocks_distinct :
  forall a b, 0 <= a < 2 ^ 31 -> 0 <= b < 2 ^ 31 -> a <> b ->
  chacha_nonce a <> chacha_nonce b /\ hkdf_salt a <> hkdf_salt b /\ length (chacha_nonce a) = 12%nat.
Proof.
  intros a b Ha Hb N. split; [|split; [|reflexivity]]; intros E; apply N.
  - apply chacha_nonce_inj; assumption.
  - apply hkdf_salt_inj; assumption.
Qed.

(** Thread safety: whatever the interleaving of any number of threads, the calls
    that have returned got what some sequential order of the same calls gets
    (the order in which they held the mutex), so by the previous theorems they
    got disjoint consecutive parts of the stream. *)
Theorem C37_linearizable :
  forall block st y, sys_steps block {| y_st := st; y_run := None; y_log := [] |} y ->
  exists st', run_calls (buffered block) (rev (log_calls (y_log y))) st = Ok (rev (log_results (y_log y)), st') /\
              (y_run y = None -> y_st y = st').
Proof.
  intros block st y H. destruct (sys_inv_ok block st _ y H eq_refl) as (s1 & R & I).
  exists s1. split; [exact R|]. intros E. rewrite E in I. exact I.
Qed.

(** Every generator of this kind meets the interface assumed by the samplers. *)
Theorem C37_interface : forall block, prng_ok (buffered block).
Proof.
  intros block. split; intros s; cbn [buffered pr_rand8 pr_rand64].
  - pose proof (buf_rand8_byte block s) as H. destruct (buf_rand8 block s) as [[x s']|e|]; [apply (H x s' eq_refl)|exact I|exact I].
  - unfold buf_rand64. generalize 8%nat as n. intros n.
    assert (Q : forall n i acc s, 0 <= acc < 2 ^ 64 ->
       match rand64_loop block n i acc s with Ok (x, _) => 0 <= x < 2 ^ 64 | _ => True end).
    { clear. induction n as [|n IH]; intros i acc s Ha; cbn [rand64_loop]; [exact Ha|].
      destruct (buf_rand8 block s) as [[x s1]|e|]; cbn [bind]; try exact I. apply IH. apply Z.mod_pos_bound. lia. }
    apply Q. lia.
Qed.

(** The header promises an unbounded number of bytes. The int block counter
    overflows (undefined behaviour) after 2^31 - 1 blocks. *)
Theorem C37_unbounded_refuted :
  forall chacha20 key st, chacha_delivers chacha20 key -> chacha_create chacha20 key = Ok st ->
  ~ (forall calls, exists outs st', run_calls (buffered (chacha_block chacha20 key)) calls st = Ok (outs, st')).
Proof.
  intros chacha20 key st D C A. set (B := fun b => chacha20 key (chacha_nonce b) (255 * 32)).
  assert (HB : forall i, 0 <= i < 2 ^ 31 - 1 -> chacha_block chacha20 key i = Ok (B i)) by reflexivity.
  assert (HL : forall i, 0 <= i < 2 ^ 31 - 1 -> Z.of_nat (length (B i)) = output_bytes) by (intros i _; apply D).
  assert (HV : forall i x, 0 <= i < 2 ^ 31 - 1 -> In x (B i) -> 0 <= x < 2 ^ 8).
  { intros i x _ Hx. destruct (D (chacha_nonce i)) as [_ F]. rewrite Forall_forall in F. apply F, Hx. }
  destruct (first_resalt (chacha_block chacha20 key) B HB) as (st0 & E & A0).
  assert (st = st0).
  { unfold chacha_create, prng_create in C. destruct (negb _); [discriminate|]. congruence. }
  subst st0.
  assert (R : forall n, reads (repeat CallRand8 n) = Z.of_nat n).
  { induction n as [|n IH]; [reflexivity|].
    change (reads (repeat CallRand8 (S n))) with (1 + reads (repeat CallRand8 n)). lia. }
  assert (CP : 0 <= capacity) by (unfold capacity; lia).
  remember (Z.to_nat capacity) as N eqn:EN.
  assert (RN : reads (repeat CallRand8 N) = capacity) by (rewrite R; lia).
  destruct (run_ok (chacha_block chacha20 key) B HB HL HV (repeat CallRand8 N) 0 st A0 ltac:(lia) ltac:(lia)) as (s1 & E1 & A1).
  rewrite RN, Z.add_0_l in A1.
  destruct (A (repeat CallRand8 N ++ [CallRand8])) as (outs & s2 & E2).
  rewrite run_calls_app in E2. cbn [buffered pr_st] in *. rewrite E1 in E2. cbn [bind run_calls gen_call buffered pr_rand8] in E2.
  rewrite (read_past _ B HL s1 (B (2 ^ 31 - 1)) A1 eq_refl) in E2. discriminate.
Qed.

(** A toy primitive that meets the assumptions, and a run with two threads. *)
Definition toy_chacha (key nonce : list Z) (n : Z) : list Z :=
  map (fun i => (Z.of_nat i + fold_right Z.add 0 nonce) mod 2 ^ 8) (seq 0 (Z.to_nat n)).

Example C37_hypotheses :
  (forall key, chacha_delivers toy_chacha key) /\
  (forall key, hkdf_delivers (fun k s n => Ok (toy_chacha k s n)) key (fun s => toy_chacha key s (255 * 32))) /\
  (forall key, exists st r8 st8 r64 st64, chacha_create toy_chacha (repeat 7 32) = Ok st /\
     buf_rand8 (chacha_block toy_chacha key) st = Ok (r8, st8) /\
     buf_rand64 (chacha_block toy_chacha key) st8 = Ok (r64, st64) /\
     sys_steps (chacha_block toy_chacha key) {| y_st := st; y_run := None; y_log := [] |}
       {| y_st := st8; y_run := Some {| r_tid := 2; r_call := CallRand64; r_bytes := [] |}; y_log := [(1%nat, CallRand8, r8 + 256 * 0)] |}) /\
  3 <= capacity.
Proof.
  assert (D : forall key nonce, Z.of_nat (length (toy_chacha key nonce (255 * 32))) = 255 * 32 /\
                Forall (fun x => 0 <= x < 2 ^ 8) (toy_chacha key nonce (255 * 32))).
  { intros key nonce. unfold toy_chacha. split; [rewrite map_length, seq_length; lia|].
    apply Forall_forall. intros x Hx. apply in_map_iff in Hx. destruct Hx as (i & <- & _). apply Z.mod_pos_bound. lia. }
  split; [intros key nonce; apply D|]. split; [intros key salt; split; [reflexivity|apply D]|]. split; [|unfold capacity; lia].
  intros key.
  assert (HB : forall i, 0 <= i < 2 ^ 31 - 1 -> chacha_block toy_chacha key i = Ok (toy_chacha key (chacha_nonce i) (255 * 32))) by reflexivity.
  destruct (C37_chacha_stream toy_chacha (repeat 7 32) (fun n => D _ n) eq_refl) as (st & C & R).
  assert (A0 : at_pos (fun i => toy_chacha key (chacha_nonce i) (255 * 32)) 0 st).
  { destruct (first_resalt _ _ HB) as (s0 & E & A). assert (s0 = st); [|congruence].
    assert (Ok s0 = Ok st); [|congruence]. rewrite <- C, <- E. reflexivity. }
  assert (HL : forall i, 0 <= i < 2 ^ 31 - 1 -> Z.of_nat (length (toy_chacha key (chacha_nonce i) (255 * 32))) = output_bytes) by (intros; apply D).
  assert (HV : forall i x, 0 <= i < 2 ^ 31 - 1 -> In x (toy_chacha key (chacha_nonce i) (255 * 32)) -> 0 <= x < 2 ^ 8).
  { intros i x _ Hx. destruct (D key (chacha_nonce i)) as [_ F]. rewrite Forall_forall in F. apply F, Hx. }
  destruct (read_byte _ _ HB HL HV 0 st A0) as (s1 & E1 & A1); [unfold capacity; lia|].
  destruct (run_ok _ _ HB HL HV [CallRand64] _ s1 A1) as (s2 & E2 & A2); [lia|unfold capacity; cbn; lia|].
  cbn [run_calls gen_call buffered pr_rand64] in E2.
  destruct (buf_rand64 (chacha_block toy_chacha key) s1) as [[r64 s3]|e|] eqn:E3; cbn [bind] in E2; try discriminate.
  do 5 eexists. split; [exact C|]. split; [exact E1|]. split; [exact E3|].
  eapply steps_next; [eapply steps_next; [eapply steps_next; [eapply steps_next; [apply steps_refl|]|]|]|].
  - apply (step_acquire _ st [] 1%nat CallRand8).
  - eapply step_read; [cbn; lia|exact E1].
  - apply step_return. reflexivity.
  - cbn [r_bytes r_call r_tid app le_value]. apply step_acquire.
Qed.

Print Assumptions C37_chacha_stream.
Print Assumptions C37_hkdf_stream.
Print Assumptions C37_seed_size.
Print Assumptions C37_blocks_distinct.
Print Assumptions C37_linearizable.
Print Assumptions C37_interface.
Print Assumptions C37_unbounded_refuted.
