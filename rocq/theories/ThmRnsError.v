(** C83: the error reported by RNS BGV ciphertexts. *)
From Coq Require Import Reals Lra Lia Znumtheory QArith.
From Verif Require Import Base FinSum PolySpec Ring NegRing SymSpec Montgomery MontBatch Spec Prng Sampling SampleSpec PolyProofs PrimeCheck ThmSymEnc ThmRelin
  RnsPoly RnsSpec CrtMath RnsSub RnsProofs RnsBasis RnsCtx RnsCtxSpec RnsCtxFacts ThmRnsCtx RnsCt RnsCtSpec RnsCtProofs ThmRnsCt RnsEncode RnsEncodeSpec RnsKey RnsKeySpec
  RnsKeyProofs ThmRnsKey RnsDecode RnsGadget RnsGadgetSpec ThmRnsGadget RnsSwitchSpec ThmRnsGalois ThmRnsRelin RnsPub RnsPubSpec ThmRnsPub RnsScaleOne RnsDecodeBfv RnsFloat RnsExample ThmRnsBgv ThmRnsBfv
  FieldSpec FieldMath FieldProofs FieldCtx ThmField RnsCircuitSpec RnsCircuitProofs ThmRnsCircuit ErrorEst RnsErrorEst RnsErrorSpec RnsErrorProofs.
Local Open Scope Z_scope.

(** the parameters, created for the context and the variance v *)
Lemma params_facts k log_n qs ps t c log_t v e : ctx_args k qs ps t -> ctx_made k log_n qs ps t c ->
  rns_err_create log_n (rc_qs c) log_t (sqrt (IZR v)) = Ok e -> t <= log_t * log_t ->
  (IZR t <= re_t e)%R /\ re_sigma e = sqrt (IZR v) /\ re_dim e = Z.of_nat (2 ^ Z.to_nat log_n) /\ shl1 (re_logn e) = Ok (Z.of_nat (2 ^ Z.to_nat log_n)).
Proof.
  intros A M C Ht. destruct (made_ok _ _ _ _ _ _ A M) as (_ & L0 & _).
  assert (LR : (0 < length (rc_qs c))%nat). { destruct (rc_qs c); [|cbn; lia]. unfold rns_err_create in C. destruct (log_n <=? 0); discriminate C. }
  pose proof (L_range k log_n qs ps t c A M LR) as LG.
  assert (SH : shl1 log_n = Ok (Z.of_nat (2 ^ Z.to_nat log_n))).
  { rewrite shl1_small by lia. f_equal. rewrite Nat2Z.inj_pow, Z2Nat.id by lia. reflexivity. }
  unfold rns_err_create in C. destruct (log_n <=? 0); [discriminate C|]. destruct (rc_qs c); [discriminate C|]. destruct (log_t <=? 0); [discriminate C|].
  destruct (Rle_dec _ _); [discriminate C|]. rewrite SH in C. cbn [bind] in C. injection C as <-. cbn [re_t re_sigma re_dim re_logn re_logt].
  split; [|split; [reflexivity|split; [reflexivity|exact SH]]]. unfold re_t, rns_export_t. cbn [re_logt]. rewrite <- mult_IZR. apply IZR_le. exact Ht.
Qed.

Section Core.
Variables (k log_n : Z) (qs ps : list Z) (t : Z) (c : rctx) (log_t v : Z) (e : rns_err) (sk : nat -> Z) (keys : nat -> rskey) (E : encoder).
Local Notation L := (Z.to_nat log_n).
Local Notation n := (2 ^ L)%nat.
Hypothesis A : ctx_args k qs ps t.
Hypothesis M : ctx_made k log_n qs ps t c.
Hypothesis C : rns_err_create log_n (rc_qs c) log_t (sqrt (IZR v)) = Ok e.
Hypothesis Htt : t <= log_t * log_t.
Hypothesis Hv : 1 <= v <= 9.
Variable good : rcirc -> rct -> (nat -> Z) -> Prop.
Hypothesis tracked : forall a, rwf k L t c sk t a -> bgv_leaves E keys a ->
  (rlevel a < length (rc_qs c))%nat /\ (1 <= rwidth a)%nat /\
  exists x w, run_bgv E t c keys a = Ok x /\ ciphertext (at_level c (rlevel a)) L sk (rwidth a) 1 x w /\
    bounded n (bgv_noise n t c keys (2 * v) a) w /\ good a x w.

Lemma core a : rwf k L t c sk t a -> bgv_leaves E keys a -> usual n t v c keys a ->
  (rlevel a < length (rc_qs c))%nat /\ (1 <= rwidth a)%nat /\
  exists x err w, run_reporting E t c keys e a = Ok (x, err) /\ run_bgv E t c keys a = Ok x /\
    ciphertext (at_level c (rlevel a)) L sk (rwidth a) 1 x w /\ (forall i, (i < n)%nat -> (slack n v a * IZR (Z.abs (w i)) <= err)%R) /\ good a x w /\
    ((1 <= slack n v a)%R -> forall B, (err <= IZR B)%R -> bounded n B w).
Proof.
  intros W Lv U. destruct (params_facts k log_n qs ps t c log_t v e A M C Htt) as (F1 & F2 & F3 & F4).
  pose proof (proj2 (ctx_t k log_n t qs ps c A M)) as T.
  destruct (tracked a W Lv) as (Hl & Hw & x & w & Ex & Hx & Bw & G). split; [exact Hl|]. split; [exact Hw|].
  assert (R : run_reporting E t c keys e a = Ok (x, report n e a)).
  { apply (reported L t v c E keys e F4 (fun a => rwf k L t c sk t a /\ bgv_leaves E keys a)); auto.
    - intros a0 [W0 L0]. destruct a0; cbn [rwf bgv_leaves] in W0, L0; tauto.
    - intros a0 x0 [W0 L0] Ex0. destruct (tracked a0 W0 L0) as (_ & _ & x1 & w1 & Ex1 & Hx1 & _). rewrite Ex0 in Ex1. injection Ex1 as <-. apply Hx1. }
  destruct (estimate k L t v c sk keys e ltac:(lia) Hv F1 F2 F3 a W U) as (ES & _ & S0 & _).
  assert (B : forall i, (i < n)%nat -> (slack n v a * IZR (Z.abs (w i)) <= report n e a)%R).
  { intros i Hi. eapply Rle_trans; [|exact ES]. apply Rmult_le_compat_l; [exact S0|]. apply IZR_le. apply Bw, Hi. }
  exists x, (report n e a), w. repeat (split; [assumption|]). intros S1 B0 HB i Hi. specialize (B i Hi). apply le_IZR. eapply Rle_trans; [|exact HB].
  eapply Rle_trans; [|exact B]. assert (0 <= IZR (Z.abs (w i)))%R by (apply IZR_le; lia). nra.
Qed.
End Core.

(** For a computation whose messages are coefficients: the size of the phase is at
    most the reported error divided by the slack. When the slack is at least 1, the
    report can be relied on: if it is decodable, decryption is correct. *)
Theorem C83_polynomials :
  forall k log_n qs ps t c D sk keys a log_t v e, ctx_args k qs ps t -> ctx_made k log_n qs ps t c -> k <> 16 -> (forall q, In q qs -> Z.gcd q t = 1) ->
  let L := Z.to_nat log_n in let n := (2 ^ L)%nat in let E := coeff_encoder D c in
  rns_err_create log_n (rc_qs c) log_t (sqrt (IZR v)) = Ok e -> t <= log_t * log_t -> 1 <= v <= 9 ->
  rkeys L c sk (2 * v) keys -> rwf k L t c sk t a -> bgv_leaves E keys a -> usual n t v c keys a ->
  exists x err w, run_reporting E t c keys e a = Ok (x, err) /\ run_bgv E t c keys a = Ok x /\
    ciphertext (at_level c (rlevel a)) L sk (rwidth a) 1 x w /\ (forall i, (i < n)%nat -> (slack n v a * IZR (Z.abs (w i)) <= err)%R) /\
    ((1 <= slack n v a)%R -> forall B, (err <= IZR B)%R -> bgv_decodable t (firstn (S (rlevel a)) qs) B ->
      rsk_decrypt_bgv (keys (rlevel a)) E x = Ok (map (fun i => as_polynomial n a i mod t) (seq 0 n))).
Proof.
  intros k log_n qs ps t c D sk keys a log_t v e A M K16 G L n E C Htt Hv RK W Lv U. pose proof (ctx_t k log_n t qs ps c A M) as [Et Ht].
  destruct (coeff_encoding L t) as [H1 H2 H3 H4 H5 H6 H7].
  destruct (core k log_n qs ps t c log_t v e sk keys E A M C Htt Hv (fun a _ w => pcong t n w (as_polynomial n a))) with (a := a) as (Hl & Hw & x & err & w & R1 & R2 & Hx & B1 & Rw & B2); auto.
  - intros a0 W0 L0. destruct (bgv_tracks k log_n qs ps t c A M K16 sk (2 * v) keys RK _ _ _ H1 H2 H3 H4 H5 H6 H7 E Et G) with (a := a0) as (Hl & Hw & x & Ex & w & Hx & Bw & Rw); auto.
    + intros l msgs Hl [Lm Fm]. rewrite (ctx_len k log_n t qs ps c A M) in Hl.
      destruct (C61_encode k log_n qs ps t c l msgs A M Hl Lm) as (p & Ep & Hp). { eapply Forall_impl; [|exact Fm]. cbv beta. intros. lia. }
      exists false, p, (fun i => centered t (nth i msgs 0)). split; [exact Ep|]. split; [exact Hp|]. split.
      * intros i Hi. pose proof (centered_fits t (nth i msgs 0) ltac:(lia)) as F. unfold fits in F. apply Z.div_le_lower_bound; lia.
      * intros i Hi. apply centered_cong.
    + split; [exact Hl|]. split; [exact Hw|]. exists x, w. auto.
  - exists x, err, w. repeat (split; [assumption|]). intros S1 B HB HD. pose proof (rk_key _ _ _ _ _ RK _ Hl) as HK. rewrite (ctx_len k log_n t qs ps c A M) in Hl.
    unfold E. rewrite (C61_decrypt k log_n qs ps t c (rlevel a) D (keys (rlevel a)) sk x (rwidth a) w B A M Hl G HK ltac:(lia) Hx (B2 S1 B HB) HD). f_equal. fold L n.
    apply map_ext_in. intros i Hi. apply in_seq in Hi. apply cong_to_mod; [lia|]. apply Rw. fold L n. lia.
Qed.

(** The same for messages in slots. *)
Theorem C83_slots :
  forall k log_n qs ps t c en D sk keys a log_t v e, encoder_for k log_n qs ps t c en -> k <> 16 -> (forall q, In q qs -> q <> t) ->
  let L := Z.to_nat log_n in let n := (2 ^ L)%nat in let E := field_encoder D en in
  rns_err_create log_n (rc_qs c) log_t (sqrt (IZR v)) = Ok e -> t <= log_t * log_t -> 1 <= v <= 9 ->
  rkeys L c sk (2 * v) keys -> rwf k L t c sk t a -> bgv_leaves E keys a -> usual n t v c keys a ->
  exists x err w, run_reporting E t c keys e a = Ok (x, err) /\ run_bgv E t c keys a = Ok x /\
    ciphertext (at_level c (rlevel a)) L sk (rwidth a) 1 x w /\ (forall i, (i < n)%nat -> (slack n v a * IZR (Z.abs (w i)) <= err)%R) /\
    ((1 <= slack n v a)%R -> forall B, (err <= IZR B)%R -> bgv_decodable t (firstn (S (rlevel a)) qs) B ->
      rsk_decrypt_bgv (keys (rlevel a)) E x = Ok (map (fun i => as_slots n a i mod t) (seq 0 n))).
Proof.
  intros k log_n qs ps t c en D sk keys a log_t v e F K16 NT L n E C Htt Hv RK W Lv U. destruct (enc_parts k log_n t qs ps c en F) as (A & M & PT & EC & HL & T & R & _).
  pose proof (ctx_t k log_n t qs ps c A M) as [Et Ht]. pose proof (ff_gcd _ _ _ _ A PT NT) as G.
  destruct (slot_encoding L t (field_root en) HL (proj1 T) R) as [H1 H2 H3 H4 H5 H6 H7].
  assert (Et' : en_t E = t) by (unfold E; cbn [field_encoder en_t]; rewrite EC; exact Et).
  destruct (core k log_n qs ps t c log_t v e sk keys E A M C Htt Hv (fun a _ w => forall i, (i < n)%nat -> slot_value t (field_root en) n w i = as_slots n a i mod t))
    with (a := a) as (Hl & Hw & x & err & w & R1 & R2 & Hx & B1 & Rw & B2); auto.
  - intros a0 W0 L0. destruct (bgv_tracks k log_n qs ps t c A M K16 sk (2 * v) keys RK _ _ _ H1 H2 H3 H4 H5 H6 H7 E Et' G) with (a := a0) as (Hl & Hw & x & Ex & w & Hx & Bw & Rw); auto.
    + intros l msgs Hl [Lm Fm]. rewrite (ctx_len k log_n t qs ps c A M) in Hl.
      destruct (C69_encode_bgv k log_n qs ps t c en l msgs F Hl Lm) as (g & (p & Ep & Hp) & Hg & Sg). { eapply Forall_impl; [|exact Fm]. cbv beta. intros. lia. }
      exists true, p, g. split; [exact Ep|]. split; [exact Hp|]. split; [|exact Sg].
      intros i Hi. specialize (Hg i Hi). apply Z.div_le_lower_bound; lia.
    + split; [exact Hl|]. split; [exact Hw|]. exists x, w. auto.
  - exists x, err, w. repeat (split; [assumption|]). intros S1 B HB HD. pose proof (rk_key _ _ _ _ _ RK _ Hl) as HK. rewrite (ctx_len k log_n t qs ps c A M) in Hl.
    unfold E. rewrite (C69_decrypt_bgv k log_n qs ps t c en (rlevel a) D (keys (rlevel a)) sk x (rwidth a) w B F Hl NT HK ltac:(lia) Hx (B2 S1 B HB) HD). f_equal. fold L n.
    apply map_ext_in. intros i Hi. apply in_seq in Hi. apply Rw. fold L n. lia.
Qed.

(** Creating the parameters: which arguments are accepted. *)
Theorem C83_create :
  forall log_n main log_t sigma, log_n <= 30 ->
  (0 < log_n /\ main <> [] /\ 0 < log_t /\ (0 < sigma)%R -> exists e, rns_err_create log_n main log_t sigma = Ok e) /\
  (log_n <= 0 \/ main = [] \/ log_t <= 0 \/ (sigma <= 0)%R -> rns_err_create log_n main log_t sigma = Err InvalidArgument).
Proof.
  intros log_n main log_t sigma Hn. unfold rns_err_create. split.
  - intros (H1 & H2 & H3 & H4). destruct (Z.leb_spec log_n 0); [lia|]. destruct main as [|m r]; [congruence|]. destruct (Z.leb_spec log_t 0); [lia|].
    destruct (Rle_dec sigma 0); [lra|]. rewrite shl1_small by lia. cbn [bind]. eauto.
  - destruct (Z.leb_spec log_n 0); [reflexivity|]. destruct main as [|m r]; [reflexivity|]. destruct (Z.leb_spec log_t 0); [reflexivity|].
    destruct (Rle_dec sigma 0); [reflexivity|]. intros [H1|[H1|[H1|H1]]]; [lia|discriminate H1|lia|lra].
Qed.

(** Without the condition on the slack: adding a plaintext again and again moves
    the phase as far as one likes, and the report stays what it was. *)
Theorem C83_add_plain_refuted :
  forall k L ms s len j x w p m err r, moduli_ok k L ms -> (1 <= len)%nat -> ciphertext ms L s len j x w -> rns_is ms L true p m ->
  exists y, Nat.iter r (fun z => do! z' <- z; re_add_plain z' p) (Ok (x, err)) = Ok (y, err) /\
    ciphertext ms L s len j y (fun i => w i + Z.of_nat r * m i).
Proof.
  intros k L ms s len j x w p m err r OK Hl Hx Hp. induction r as [|r IH].
  - exists x. split; [reflexivity|]. destruct Hx as (X1 & X2 & X3 & cs & Hc & HP). split; [exact X1|]. split; [exact X2|]. split; [exact X3|]. exists cs. split; [exact Hc|].
    intros i Hi. specialize (HP i Hi). cbv beta in HP |- *. rewrite HP. apply cong_eq. lia.
  - destruct IH as (y & Ey & Hy). destruct (C58_plaintext k L ms s len j y _ p m OK Hl Hy Hp) as ((z & Ez & Hz) & _). exists z. split.
    + change (Nat.iter (S r) (fun z => do! z' <- z; re_add_plain z' p) (Ok (x, err))) with (do! z' <- Nat.iter r (fun z => do! z' <- z; re_add_plain z' p) (Ok (x, err)); re_add_plain z' p).
      rewrite Ey. cbn [bind]. unfold re_add_plain. cbn [fst snd]. rewrite Ez. reflexivity.
    + destruct Hz as (X1 & X2 & X3 & cs & Hc & HP). split; [exact X1|]. split; [exact X2|]. split; [exact X3|]. exists cs. split; [exact Hc|].
      intros i Hi. specialize (HP i Hi). cbv beta in HP |- *. rewrite HP. apply cong_eq. lia.
Qed.

(** ** Example *)

(** Degree 8, primes 5767169 and 12289, t = 17 (5 bits), variance 1, messages in
    slots: multiply, relinearize, rotate, drop the prime 12289, send *)
Definition er_qs : list Z := [5767169; 12289].
Definition er_circuit (rr : rrelin) (gk : rgalois) (ws : list Z) : rcirc :=
  RSend (RReduce (RSubst (RRelin (RMul (REnc 1 toy 200 [1; 14; 0; 3; 12] 777) (REnc 1 toy 200 [5; 2; 9; 4; 3] 888)) rr 2 255 ws) false 1 gk 2 255 ws)).

Lemma er_args : ctx_args 32 er_qs [] 17.
Proof.
  split; [right; left; reflexivity|]. split; [repeat (apply Forall_cons; [apply (prime_by_trial _ 2402); [lia|vm_compute; reflexivity]|]); apply Forall_nil|].
  split; [constructor|]. split; [repeat constructor; cbn; lia|]. cbn. lia.
Qed.

(** its hypotheses hold for any objects made by these calls, and its slack is 1 *)
Lemma er_hypotheses c en key s keys hats invs g rr gk :
  ctx_create_bgv_ff 32 3 er_qs [] 17 = Ok c -> ff_create c = Ok en -> rsk_sample toy 3 1 (rc_qs c) 12345 = Ok (key, s) ->
  keys 1%nat = key -> rsk_mod_reduce (keys 1%nat) = Ok (keys 0%nat) ->
  main_complements c 1 = Ok hats -> main_crt_factors c 1 = Ok invs -> rgadget_create 3 [8; 8] hats invs (rc_qs c) = Ok g ->
  rrelin_create toys 200 key 2 1 g 1 17 [77] [78] = Ok rr -> galois_create toys 200 key 5 1 g 1 17 [79] [80] = Ok gk ->
  let ws := gadget_weights (rc_qs c) [8; 8] in let a := er_circuit rr gk ws in
  encoder_for 32 3 er_qs [] 17 c en /\ (exists e, rns_err_create 3 (rc_qs c) 5 (sqrt (IZR 1)) = Ok e) /\ 17 <= 5 * 5 /\
  (exists sk, rkeys 3 c sk (2 * 1) keys /\ rwf 32 3 17 c sk 17 a) /\ usual 8 17 1 c keys a /\ slack 8 1 a = 1%R /\
  forall e, rns_err_create 3 (rc_qs c) 5 (sqrt (IZR 1)) = Ok e -> (report 8 e a <= IZR 2800000)%R.
Proof.
  intros Ec Ee Ek K1 K0 Eh Ei Eg Er Egk ws a. assert (A := er_args). assert (MF : ctx_made_ff 32 3 er_qs [] 17 c) by (left; exact Ec).
  pose proof (ff_made _ _ _ _ _ _ MF) as M.
  assert (PT : prime 17) by (apply (prime_by_trial _ 20); [lia|vm_compute; reflexivity]).
  split; [split; [exact A|]; split; [exact MF|]; split; [exact PT|exact Ee]|].
  destruct (ctx_qs_ok 32 3 17 _ _ c A M) as (OK & EM & _). cbn [length] in EM. pose proof (ctx_len 32 3 17 _ _ c A M) as LQ. cbn [length er_qs] in LQ.
  assert (NE : rc_qs c <> []) by (intros H; rewrite H in LQ; discriminate LQ).
  split. { apply (C83_create 3 (rc_qs c) 5 (sqrt (IZR 1)) ltac:(lia)). split; [lia|]. split; [exact NE|]. split; [lia|]. apply sqrt_lt_R0. lra. }
  split; [lia|].
  assert (AL : at_level c 1 = rc_qs c) by (unfold at_level; rewrite <- LQ; apply firstn_all).
  assert (HV : variance_fits 1 (rc_qs c)). { destruct (rc_qs c) as [|m0 r]; [exact I|]. injection EM as E0 _. cbn [variance_fits]. lia. }
  destruct (C76_keys 32 3 _ _ 17 c toy 1 12345 key s A M toy_ok HV Ek) as [_ X].
  destruct (X keys) as (sk & RK & VK); [exact K1| |].
  { intros l Hl. cbn [length er_qs] in Hl. destruct l as [|l]; [exact K0|lia]. }
  assert (DI : distinct (rc_qs c)) by (rewrite <- AL; apply (level_distinct 32 3 17 _ _ c A M)).
  assert (HG : gadget_for (rc_qs c) 3 255 g ws /\ rg_logbs g = [8; 8]).
  { destruct (C64_create_for_level 32 3 _ _ 17 c 1 [8; 8] 255 A M ltac:(cbn; lia) eq_refl) as (hats' & invs' & g' & Eh' & Ei' & Eg' & HG).
    - repeat constructor; lia.
    - rewrite AL. destruct (rc_qs c) as [|m0 [|m1 [|]]]; try discriminate LQ. injection EM as E0 E1.
      repeat constructor; match goal with |- Z.min ?a ?b <= _ => apply Z.le_trans with a; [apply Z.le_min_l|cbn; lia] end.
    - change (Z.of_nat 1) with 1 in Eh', Ei'. rewrite Eh in Eh'. injection Eh' as <-. rewrite Ei in Ei'. injection Ei' as <-. rewrite AL in Eg', HG.
      rewrite Eg in Eg'. injection Eg' as <-. split; [exact HG|]. clear - Eg. unfold rgadget_create in Eg. cbn [Z.leb Z.compare] in Eg. destruct (rc_qs c) as [|m0 r]; [discriminate Eg|].
      destruct (negb _); [discriminate Eg|]. destruct (negb _); [discriminate Eg|]. destruct (negb _); [discriminate Eg|].
      destruct (seqr _) as [bs| |]; cbn [bind] in Eg; [|discriminate Eg|discriminate Eg]. injection Eg as <-. reflexivity. }
  destruct HG as [HG LB].
  assert (HK : key_is (rc_qs c) 3 key sk). { rewrite <- AL, <- K1. apply (rk_key _ _ _ _ _ RK). lia. }
  destruct (C66_create 32 3 (rc_qs c) toys 200 key sk 2 1 g 1 17 [77] [78] rr 255 ws OK NE DI ltac:(lia) HK toy_ok HV ltac:(lia) HG Er) as (HR & DR & GR & _).
  destruct (C65_create 32 3 (rc_qs c) toys 200 key sk 5 1 g 1 17 [79] [80] gk 255 ws OK NE DI ltac:(lia) HK toy_ok HV ltac:(lia) HG Egk) as (HGK & PGK & _ & _ & GG & _).
  split; [|split].
  - exists sk. split; [exact RK|]. unfold a, er_circuit. cbn [rwf rlevel rwidth Nat.add Nat.sub]. rewrite AL, LQ, DR, PGK.
    repeat match goal with |- _ /\ _ => split | |- msgs_ok _ _ _ => split; [cbn; lia|repeat constructor; lia] end; try lia; try exact toy_ok; try exact HR; try exact HGK.
    vm_compute. reflexivity.
  - assert (LW : length ws = 5%nat).
    { unfold ws, gadget_weights. destruct (rc_qs c) as [|m0 [|m1 [|]]]; try discriminate LQ. injection EM as E0 E1. cbn [map2 concat].
      rewrite !app_length, !map_length, !seq_length, E0, E1. reflexivity. }
    assert (UG : usual_gadget 1 g 255 2) by (split; [lia|]; exists 8; unfold rg_log_base; rewrite LB; split; [reflexivity|]; split; lia).
    unfold a, er_circuit. cbn [usual rlevel rwidth Nat.add Nat.sub bgv_noise]. rewrite GR, GG, (VK 1%nat) by (cbn; lia). rewrite LW, EM.
    split; [split; [split; [split; reflexivity|exact UG]|exact UG]|]. vm_compute. split; discriminate.
  - assert (R8 : INR 8 = 8%R) by (rewrite INR_IZR_INZ; reflexivity). assert (S8 : (sqrt 8 * sqrt 8 = 8)%R) by (apply sqrt_sqrt; lra).
    destruct sqrt3_facts as (P3 & S3 & T3). assert (S3u : (1.73 <= sqrt 3 <= 1.74)%R) by (split; nra).
    assert (DG : rg_dimension g = 5%nat).
    { rewrite (proj1 HG). unfold ws, gadget_weights. destruct (rc_qs c) as [|m0 [|m1 [|]]]; try discriminate LQ. injection EM as E0 E1. cbn [map2 concat].
      rewrite !app_length, !map_length, !seq_length, E0, E1. reflexivity. }
    split.
    + unfold a, er_circuit. cbn [slack]. rewrite R8, S8. replace (8 / 8)%R with 1%R by field. rewrite sqrt_1, Rmult_1_r.
      assert (Y : (1 <= 4 / sqrt 3)%R) by (apply (Rmult_le_reg_r (sqrt 3)); [exact P3|]; replace (4 / sqrt 3 * sqrt 3)%R with 4%R by (field; lra); lra).
      rewrite (Rmin_left 1) by exact Y. apply Rmin_left. exact Y.
    + intros e Ce. destruct (params_facts 32 3 er_qs [] 17 c 5 1 e A M Ce ltac:(lia)) as (_ & F2 & F3 & _).
      assert (Ft : re_t e = 25%R).
      { unfold rns_err_create in Ce. cbn [Z.leb Z.compare] in Ce. destruct (rc_qs c); [discriminate Ce|]. destruct (Rle_dec _ _); [discriminate Ce|].
        cbn [bind] in Ce. injection Ce as <-. unfold re_t, rns_export_t. cbn [re_logt]. lra. }
      assert (FD : IZR (re_dim e) = 8%R) by (rewrite F3; reflexivity).
      unfold a, er_circuit. cbn [report rwidth Nat.add Nat.sub]. unfold switch_report, rg_log_base, re_secretkey. rewrite GR, GG, LB, DG, Ft, F2, FD, R8, sqrt_1. cbn [fold_right].
      change (Z.max 8 8) with 8. change (2 ^ 8) with 256. change (Z.of_nat 5) with 5. change (Z.of_nat 3 - 2) with 1.
      assert (Y : (8 / sqrt 3 <= 4.63)%R) by (apply (Rmult_le_reg_r (sqrt 3)); [exact P3|]; replace (8 / sqrt 3 * sqrt 3)%R with 8%R by (field; lra); lra).
      set (u := (8 / sqrt 3)%R) in *. set (d := sqrt 3) in *.
      replace (25 * sqrt 8 * (d + 6 * 1) * (25 * sqrt 8 * (d + 6 * 1)))%R with (625 * (sqrt 8 * sqrt 8) * ((d + 6) * (d + 6)))%R by ring. rewrite S8.
      assert (Z1 : ((d + 6) * (d + 6) <= 60)%R) by nra. lra.
Qed.

Lemma er_decodable : bgv_decodable 17 (firstn 1 er_qs) 2800000.
Proof. vm_compute. split; [discriminate|reflexivity]. Qed.

(** and the calls succeed *)
Example C83_example :
  (do! c <- ctx_create_bgv_ff 32 3 er_qs [] 17; do! e <- ff_create c;
   do! ' (key, s) <- rsk_sample toy 3 1 (rc_qs c) 12345;
   do! key0 <- rsk_mod_reduce key; let keys := fun l => nth l [key0; key] key in
   do! hats <- main_complements c 1; do! invs <- main_crt_factors c 1;
   do! g <- rgadget_create 3 [8; 8] hats invs (rc_qs c);
   do! rr <- rrelin_create toys 200 key 2 1 g 1 17 [77] [78];
   do! gk <- galois_create toys 200 key 5 1 g 1 17 [79] [80];
   let a := er_circuit rr gk [] in let E := field_encoder exact_dops e in
   do! x <- run_bgv E 17 c keys a; do! m <- rsk_decrypt_bgv (keys (rlevel a)) E x; Ok (m, map (fun i => as_slots 8 a i mod 17) (seq 0 8))) =
  Ok ([11; 0; 12; 5; 0; 0; 0; 2], [11; 0; 12; 5; 0; 0; 0; 2]).
Proof. vm_compute. reflexivity. Qed.

Print Assumptions C83_polynomials.
Print Assumptions C83_slots.
Print Assumptions C83_create.
Print Assumptions C83_add_plain_refuted.
