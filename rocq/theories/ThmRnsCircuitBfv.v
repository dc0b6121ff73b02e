(** C77: whole computations on BFV ciphertexts decrypt correctly. *)
From Coq Require Import Znumtheory QArith Lia.
From Verif Require Import Base FinSum PolySpec Ring NegRing SymSpec Montgomery MontBatch Spec Prng Sampling SampleSpec PolyProofs PrimeCheck ThmSymEnc ThmRelin
  RnsPoly RnsSpec CrtMath RnsSub RnsProofs RnsBasis RnsCtx RnsCtxSpec RnsCtxFacts ThmRnsCtx RnsCt RnsCtSpec RnsCtProofs ThmRnsCt RnsEncode RnsEncodeSpec RnsKey RnsKeySpec
  RnsKeyProofs ThmRnsKey RnsDecode RnsGadget RnsGadgetSpec ThmRnsGadget RnsSwitchSpec ThmRnsGalois ThmRnsRelin RnsPub RnsPubSpec ThmRnsPub RnsScaleOne RnsDecodeBfv RnsFloat RnsExample ThmRnsBgv ThmRnsBfv
  RnsBfv RnsBfvSpec FieldSpec FieldMath FieldProofs FieldCtx ThmField RnsCircuitSpec RnsCircuitProofs ThmRnsCircuit RnsCircuitBfvSpec RnsCircuitBfvProofs.
Local Open Scope Z_scope.

(** A computation whose messages are coefficients: it succeeds, and decryption
    gives the coefficients, modulo t, of the polynomial it stands for, provided
    the worst-case error is one that DecodeBfv accepts. *)
Theorem C77_bfv_polynomials :
  forall k log_n qs ps t c D val eps sk bs keys a, ctx_args k qs ps t -> ctx_made_bfv k log_n qs ps t c -> k <> 16 -> (forall q, In q qs -> Z.gcd q t = 1) ->
  float_model D val eps ->
  let L := Z.to_nat log_n in let n := (2 ^ L)%nat in let E := coeff_encoder D c in let raw := fun msgs ms => coeff_encode_bfv c msgs ms false in
  rkeys L c sk bs keys -> rwf k L t c sk 1 a -> bfv_ok k eps c a -> bfv_leaves E keys a ->
  bfv_decodable k eps (firstn (S (rlevel a)) qs) (bfv_noise n t qs ps keys bs a) ->
  exists x, run_bfv D E raw c keys a = Ok x /\ length (rt_c x) = rwidth a /\
  rsk_decrypt_bfv (keys (rlevel a)) E x = Ok (map (fun i => as_polynomial n a i mod t) (seq 0 n)).
Proof.
  intros k log_n qs ps t c D val eps sk bs keys a A MB K16 G FM L n E raw RK W O Lv HD. pose proof (bfv_made _ _ _ _ _ _ MB) as M.
  pose proof (ctx_t k log_n t qs ps c A M) as [Et Ht].
  destruct (coeff_encoding L t) as [H1 H2 H3 H4 H5 H6 H7].
  destruct (bfv_tracks k log_n qs ps t c A M K16 sk bs keys RK D val eps FM _ _ _ H1 H2 H3 H4 H5 H6 H7 E raw) with (a := a) as (Hl & Hw & x & Ex & w & m & Hx & Bw & Rw).
  - intros msgs Hq [Lm Fm].
    destruct (C62_encode k log_n qs ps t c msgs A MB G Hq Lm) as (g & (p & Ep & Hp) & Hg). { eapply Forall_impl; [|exact Fm]. cbv beta. intros. lia. }
    exists true, p, g, (fun i => nth i msgs 0). split; [exact Ep|]. split; [exact Hp|]. split; [exact Hg|]. intros i Hi. reflexivity.
  - intros l msgs Hl [Lm Fm].
    destruct (C62_encode_unscaled k log_n qs ps t c l msgs A MB G Hl Lm) as (p & Ep & Hp). { eapply Forall_impl; [|exact Fm]. cbv beta. intros. lia. }
    exists true, p, (fun i => nth i msgs 0 mod t). split; [exact Ep|]. split; [exact Hp|]. split.
    + intros i Hi. apply Z.mod_pos_bound. lia.
    + intros i Hi. apply cong_mod.
  - exact W.
  - exact O.
  - exact Lv.
  - exists x. split; [exact Ex|]. split; [apply Hx|]. pose proof (rk_key _ _ _ _ _ RK _ Hl) as HK. rewrite (ctx_len k log_n t qs ps c A M) in Hl.
    unfold E. rewrite (C62_decrypt k log_n qs ps t c (rlevel a) D val eps (keys (rlevel a)) sk x (rwidth a) w m _ A MB Hl G FM HK ltac:(lia) Hx Bw HD). f_equal. fold L n.
    apply map_ext_in. intros i Hi. apply in_seq in Hi. apply cong_to_mod; [lia|]. apply Rw. fold L n. lia.
Qed.

(** A computation whose messages are in slots. *)
Theorem C77_bfv_slots :
  forall k log_n qs ps t c e D val eps sk bs keys a, encoder_for k log_n qs ps t c e -> ctx_create_bfv_ff k log_n qs ps t = Ok c -> k <> 16 ->
  (forall q, In q qs -> q <> t) -> float_model D val eps ->
  let L := Z.to_nat log_n in let n := (2 ^ L)%nat in let E := field_encoder D e in let raw := fun msgs ms => ff_encode_bfv e msgs ms false in
  rkeys L c sk bs keys -> rwf k L t c sk 1 a -> bfv_ok k eps c a -> bfv_leaves E keys a ->
  bfv_decodable k eps (firstn (S (rlevel a)) qs) (bfv_noise n t qs ps keys bs a) ->
  exists x, run_bfv D E raw c keys a = Ok x /\ length (rt_c x) = rwidth a /\
  rsk_decrypt_bfv (keys (rlevel a)) E x = Ok (map (fun i => as_slots n a i mod t) (seq 0 n)).
Proof.
  intros k log_n qs ps t c e D val eps sk bs keys a F MB K16 NT FM L n E raw RK W O Lv HD.
  destruct (enc_parts k log_n t qs ps c e F) as (A & M & PT & EC & HL & T & R & _). pose proof (proj1 T) as T1.
  destruct (slot_encoding L t (field_root e) HL T1 R) as [H1 H2 H3 H4 H5 H6 H7].
  destruct (bfv_tracks k log_n qs ps t c A M K16 sk bs keys RK D val eps FM _ _ _ H1 H2 H3 H4 H5 H6 H7 E raw) with (a := a) as (Hl & Hw & x & Ex & w & m & Hx & Bw & Rw).
  - intros msgs Hq [Lm Fm].
    destruct (C69_encode_bfv k log_n qs ps t c e msgs F MB NT Hq Lm) as (g & m & (p & Ep & Hp) & Hg & _ & Sg). { eapply Forall_impl; [|exact Fm]. cbv beta. intros. lia. }
    exists true, p, g, m. split; [exact Ep|]. split; [exact Hp|]. split; [exact Hg|exact Sg].
  - intros l msgs Hl [Lm Fm].
    destruct (C69_encode_bfv_unscaled k log_n qs ps t c e l msgs F MB NT Hl Lm) as (m & (p & Ep & Hp) & Hm & Sm). { eapply Forall_impl; [|exact Fm]. cbv beta. intros. lia. }
    exists true, p, m. split; [exact Ep|]. split; [exact Hp|]. split; [exact Hm|exact Sm].
  - exact W.
  - exact O.
  - exact Lv.
  - exists x. split; [exact Ex|]. split; [apply Hx|]. pose proof (rk_key _ _ _ _ _ RK _ Hl) as HK. rewrite (ctx_len k log_n t qs ps c A M) in Hl.
    destruct (C59_decrypt k _ _ (keys (rlevel a)) sk E x (rwidth a) w (level_ok k log_n t qs ps c A M (rlevel a)) (level_ne k log_n t qs ps c A M (rlevel a) Hl) HK ltac:(lia) Hx)
      as (p & Hp & _ & _ & Ed & _).
    rewrite Ed. unfold E. cbn [field_encoder en_unbfv].
    rewrite (C69_decode_bfv k log_n qs ps t c e (rlevel a) D val eps true p w m _ F MB Hl NT FM Hp Bw HD). f_equal. fold L n.
    apply map_ext_in. intros i Hi. apply in_seq in Hi. apply Rw. fold L n. lia.
Qed.

(** Degree 4, primes 97, 193, 257 and 113, 241, 337, t = 17, messages in slots:
    multiply, relinearize, rotate by one slot, add a plaintext, drop the prime
    257, double, send. *)
Definition ex_circuit_bfv (rr : rrelin) (gk : rgalois) (ws : list Z) : rcirc :=
  RSend (RScale (RReduce (RAddPlain (RSubst (RRelin (RMul (REnc 2 toy 200 [1; 14; 0; 3] 777) (REnc 2 toy 200 [5; 2; 9; 4] 888)) rr 2 255 ws)
    false 1 gk 2 255 ws) [1; 2; 3])) 2).

Lemma ex_args_bfv : ctx_args 32 [97; 193; 257] [113; 241; 337] 17.
Proof.
  split; [right; left; reflexivity|]. split; [repeat (apply Forall_cons; [apply (prime_by_trial _ 20); [lia|vm_compute; reflexivity]|]); apply Forall_nil|].
  split; [repeat (apply Forall_cons; [apply (prime_by_trial _ 20); [lia|vm_compute; reflexivity]|]); apply Forall_nil|]. split; [repeat constructor; cbn; lia|]. cbn. lia.
Qed.

(** its hypotheses hold, in double precision, for any objects made by these calls *)
Lemma ex_hypotheses_bfv c e key s keys hats invs g rr gk :
  ctx_create_bfv_ff 32 2 [97; 193; 257] [113; 241; 337] 17 = Ok c -> ff_create c = Ok e -> rsk_sample toy 2 1 (rc_qs c) 12345 = Ok (key, s) ->
  keys 2%nat = key -> rsk_mod_reduce (keys 2%nat) = Ok (keys 1%nat) -> rsk_mod_reduce (keys 1%nat) = Ok (keys 0%nat) ->
  main_complements c 2 = Ok hats -> main_crt_factors c 2 = Ok invs -> rgadget_create 2 [8; 8; 8] hats invs (rc_qs c) = Ok g ->
  rrelin_create toys 200 key 2 1 g 1 1 [77] [78] = Ok rr -> galois_create toys 200 key 5 1 g 1 1 [79] [80] = Ok gk ->
  let ws := gadget_weights (rc_qs c) [8; 8; 8] in let a := ex_circuit_bfv rr gk ws in let eps := (1 # 2 ^ 53)%Q in
  encoder_for 32 2 [97; 193; 257] [113; 241; 337] 17 c e /\
  (exists sk, rkeys 2 c sk 2 keys /\ rwf 32 2 17 c sk 1 a) /\ bfv_ok 32 eps c a /\
  bfv_decodable 32 eps (firstn (S (rlevel a)) [97; 193; 257]) (bfv_noise 4 17 [97; 193; 257] [113; 241; 337] keys 2 a).
Proof.
  intros Ec Ee Ek K2 K1 K0 Eh Ei Eg Er Egk ws a eps. assert (A := ex_args_bfv). assert (MF : ctx_made_ff 32 2 [97; 193; 257] [113; 241; 337] 17 c) by (right; exact Ec).
  pose proof (ff_made _ _ _ _ _ _ MF) as M.
  assert (PT : prime 17) by (apply (prime_by_trial _ 20); [lia|vm_compute; reflexivity]).
  split; [split; [exact A|]; split; [exact MF|]; split; [exact PT|exact Ee]|].
  destruct (ctx_qs_ok 32 2 17 _ _ c A M) as (OK & EM & _). cbn [length] in EM. pose proof (ctx_len 32 2 17 _ _ c A M) as LQ. cbn [length] in LQ.
  assert (LP : length (rc_ps c) = 3%nat). { destruct (made_ok _ _ _ _ _ _ A M) as (_ & _ & _ & _ & Mp & _). rewrite <- (map_length modulus). unfold moduli in Mp. rewrite Mp. reflexivity. }
  assert (AL : at_level c 2 = rc_qs c) by (unfold at_level; rewrite <- LQ; apply firstn_all).
  assert (HV : variance_fits 1 (rc_qs c)). { destruct (rc_qs c) as [|m0 r]; [exact I|]. injection EM as E0 _. cbn [variance_fits]. lia. }
  destruct (C76_keys 32 2 _ _ 17 c toy 1 12345 key s A M toy_ok HV Ek) as [_ X].
  destruct (X keys) as (sk & RK & VK); [exact K2| |].
  { intros l Hl. cbn [length] in Hl. destruct l as [|[|l]]; [exact K0|exact K1|lia]. }
  assert (DI : distinct (rc_qs c)) by (rewrite <- AL; apply (level_distinct 32 2 17 _ _ c A M)).
  assert (NE : rc_qs c <> []) by (intros H; rewrite H in LQ; discriminate LQ).
  assert (HG : gadget_for (rc_qs c) 2 255 g ws).
  { destruct (C64_create_for_level 32 2 _ _ 17 c 2 [8; 8; 8] 255 A M ltac:(cbn; lia) eq_refl) as (hats' & invs' & g' & Eh' & Ei' & Eg' & HG).
    - repeat constructor; lia.
    - rewrite AL. destruct (rc_qs c) as [|m0 [|m1 [|m2 [|]]]]; try discriminate LQ. injection EM as E0 E1 E2.
      repeat constructor; match goal with |- Z.min ?a ?b <= _ => apply Z.le_trans with a; [apply Z.le_min_l|cbn; lia] end.
    - change (Z.of_nat 2) with 2 in Eh', Ei'. rewrite Eh in Eh'. injection Eh' as <-. rewrite Ei in Ei'. injection Ei' as <-. rewrite AL in Eg', HG.
      rewrite Eg in Eg'. injection Eg' as <-. exact HG. }
  assert (HK : key_is (rc_qs c) 2 key sk). { rewrite <- AL, <- K2. apply (rk_key _ _ _ _ _ RK). lia. }
  destruct (C66_create 32 2 (rc_qs c) toys 200 key sk 2 1 g 1 1 [77] [78] rr 255 ws OK NE DI ltac:(lia) HK toy_ok HV ltac:(lia) HG Er) as (HR & DR & _).
  destruct (C65_create 32 2 (rc_qs c) toys 200 key sk 5 1 g 1 1 [79] [80] gk 255 ws OK NE DI ltac:(lia) HK toy_ok HV ltac:(lia) HG Egk) as (HGK & PGK & _).
  split; [|split].
  - exists sk. split; [exact RK|]. unfold a, ex_circuit_bfv. cbn [rwf rlevel rwidth Nat.add Nat.sub]. rewrite AL, LQ, DR, PGK.
    repeat match goal with |- _ /\ _ => split | |- msgs_ok _ _ _ => split; [cbn; lia|repeat constructor; lia] end; try lia; try exact toy_ok; try exact HR; try exact HGK.
    vm_compute. reflexivity.
  - unfold a, ex_circuit_bfv, products, at_top. cbn [bfv_ok rlevel]. unfold products, at_top. rewrite LQ, LP.
    repeat match goal with |- _ /\ _ => split end; try reflexivity; vm_compute; repeat split; discriminate.
  - assert (LW : length ws = 4%nat).
    { unfold ws, gadget_weights. destruct (rc_qs c) as [|m0 [|m1 [|m2 [|]]]]; try discriminate LQ. injection EM as E0 E1 E2. cbn [map2 concat].
      rewrite !app_length, !map_length, !seq_length, E0, E1, E2. reflexivity. }
    unfold a, ex_circuit_bfv. cbn [rlevel rwidth Nat.add Nat.sub bfv_noise]. rewrite (VK 2%nat) by (cbn; lia). rewrite LW. vm_compute. repeat split; discriminate.
Qed.

(** and the calls succeed: slot i of the result is twice the sum of the product
    in slot i + 1 of the same half and of the plaintext *)
Example C77_example :
  (do! c <- ctx_create_bfv_ff 32 2 [97; 193; 257] [113; 241; 337] 17; do! e <- ff_create c;
   do! ' (key, s) <- rsk_sample toy 2 1 (rc_qs c) 12345;
   do! key1 <- rsk_mod_reduce key; do! key0 <- rsk_mod_reduce key1; let keys := fun l => nth l [key0; key1; key] key in
   do! hats <- main_complements c 2; do! invs <- main_crt_factors c 2;
   do! g <- rgadget_create 2 [8; 8; 8] hats invs (rc_qs c);
   do! rr <- rrelin_create toys 200 key 2 1 g 1 1 [77] [78];
   do! gk <- galois_create toys 200 key 5 1 g 1 1 [79] [80];
   let a := ex_circuit_bfv rr gk [] in let E := field_encoder exact_dops e in
   do! x <- run_bfv exact_dops E (fun msgs ms => ff_encode_bfv e msgs ms false) c keys a;
   do! m <- rsk_decrypt_bfv (keys (rlevel a)) E x; Ok (m, map (fun i => as_slots 4 a i mod 17) (seq 0 4))) =
  Ok ([7; 14; 13; 0], [7; 14; 13; 0]).
Proof. vm_compute. reflexivity. Qed.

Print Assumptions C77_bfv_polynomials.
Print Assumptions C77_bfv_slots.
