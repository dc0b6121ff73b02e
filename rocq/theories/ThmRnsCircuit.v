(** C76: whole computations on BGV ciphertexts decrypt correctly. *)
From Coq Require Import Znumtheory QArith Lia.
From Verif Require Import Base FinSum PolySpec Ring NegRing SymSpec Montgomery MontBatch Spec Prng Sampling SampleSpec PolyProofs PrimeCheck ThmSymEnc ThmRelin
  RnsPoly RnsSpec CrtMath RnsSub RnsProofs RnsBasis RnsCtx RnsCtxSpec RnsCtxFacts ThmRnsCtx RnsCt RnsCtSpec RnsCtProofs ThmRnsCt RnsEncode RnsEncodeSpec RnsKey RnsKeySpec
  RnsKeyProofs ThmRnsKey RnsDecode RnsGadget RnsGadgetSpec ThmRnsGadget RnsSwitchSpec ThmRnsGalois ThmRnsRelin RnsPub RnsPubSpec ThmRnsPub RnsScaleOne RnsDecodeBfv RnsFloat RnsExample ThmRnsBgv ThmRnsBfv
  FieldSpec FieldMath FieldProofs FieldCtx ThmField RnsCircuitSpec RnsCircuitProofs.
Local Open Scope Z_scope.

(** ** Messages as coefficients, and in slots *)

(** the power -5^r moves slots too *)
Lemma slot_move L t psi swap r f i : (0 < L)%nat -> 1 < t -> cong t (psi ^ Z.of_nat (2 ^ L)) (-1) -> (i < 2 ^ L)%nat ->
  slot_value t psi (2 ^ L) (substituted (2 ^ L) (Z.to_nat (move_power (2 ^ L) swap r)) f) i =
  slot_value t psi (2 ^ L) f (rotated_slot (2 ^ L) r (if swap then swapped_slot (2 ^ L) i else i)).
Proof.
  intros HL T R Hi. destruct swap.
  2:{ unfold move_power. rewrite Z.mul_1_l. apply (slot_rotate L HL t psi T R). exact Hi. }
  set (n := (2 ^ L)%nat) in *. pose proof (half_n L HL) as [EH _]. pose proof (half_pos L HL) as HP. pose proof (n2_pos L HL) as P. fold n in EH, HP, P.
  assert (Hj : (swapped_slot n i < n)%nat) by (unfold swapped_slot; destruct (Nat.ltb_spec i (n / 2)); lia).
  pose proof (slot_rotate L HL t psi T R r f _ Hj) as E1. pose proof (slot_swap L HL t psi T R (substituted n (Z.to_nat (5 ^ Z.of_nat r mod (2 * Z.of_nat n))) f) i Hi) as E2.
  fold n in E1, E2. rewrite <- E1, <- E2.
  unfold slot_value. apply cong_to_mod; [lia|]. apply peval_cong. intros j H. symmetry.
  assert (OD1 : Nat.odd (2 * n - 1) = true).
  { replace (2 * n - 1)%nat with (1 + 2 * (n - 1))%nat by lia. rewrite Nat.odd_add_mul_2. reflexivity. }
  transitivity (substituted n (Z.to_nat (5 ^ Z.of_nat r mod (2 * Z.of_nat n)) * (2 * n - 1)) f j).
  { refine (subst_comp t n _ _ _ f OD1 j H). lia. }
  refine (subst_mod t n _ _ _ f _ j H); [lia|]. apply Nat2Z.inj. rewrite !Nat2Z.inj_mod, Nat2Z.inj_mul, Nat2Z.inj_sub, Nat2Z.inj_mul by lia.
  change (Z.of_nat 2) with 2. change (Z.of_nat 1) with 1. unfold move_power.
  rewrite !Z2Nat.id by (apply Z.mod_pos_bound; lia). rewrite Zmod_mod. apply cong_to_mod; [lia|]. rewrite (cong_mod (2 * Z.of_nat n)).
  exists (5 ^ Z.of_nat r). ring.
Qed.

Lemma moved_lt n (swap : bool) r i : (0 < n / 2)%nat -> n = (2 * (n / 2))%nat -> (i < n)%nat -> (rotated_slot n r (if swap then swapped_slot n i else i) < n)%nat.
Proof.
  intros P E H. assert (S1 : ((if swap then swapped_slot n i else i) < n)%nat).
  { destruct swap; [|exact H]. unfold swapped_slot. destruct (Nat.ltb_spec i (n / 2)); lia. }
  set (j := if swap then swapped_slot n i else i) in *. unfold rotated_slot. destruct (j <? n / 2)%nat.
  - pose proof (Nat.mod_upper_bound (j + r) (n / 2) ltac:(lia)). lia.
  - pose proof (Nat.mod_upper_bound (j - n / 2 + r) (n / 2) ltac:(lia)). lia.
Qed.

(** what the generic proof needs to know about an encoding *)
Record encoding (L : nat) (t : Z) (rep : (nat -> Z) -> (nat -> Z) -> Prop) (mul : (nat -> Z) -> (nat -> Z) -> nat -> Z) (move : bool -> nat -> (nat -> Z) -> nat -> Z) : Prop := {
  rp_ext : forall v m m', pcong t (2 ^ L) m m' -> rep v m -> rep v m';
  rp_neg : forall v m, rep v m -> rep (fun i => - v i) (fun i => - m i);
  rp_add : forall v m v' m', rep v m -> rep v' m' -> rep (fun i => v i + v' i) (fun i => m i + m' i);
  rp_sub : forall v m v' m', rep v m -> rep v' m' -> rep (fun i => v i - v' i) (fun i => m i - m' i);
  rp_scale : forall v m x, rep v m -> rep (fun i => x * v i) (fun i => x * m i);
  rp_mul : forall v m v' m', rep v m -> rep v' m' -> rep (mul v v') (negacyclic (2 ^ L) m m');
  rp_move : forall v m swap r, rep v m -> rep (move swap r v) (substituted (2 ^ L) (Z.to_nat (move_power (2 ^ L) swap r)) m)
}.

Lemma coeff_encoding L t : encoding L t (fun v m => pcong t (2 ^ L) m v) (negacyclic (2 ^ L)) (fun swap r => substituted (2 ^ L) (Z.to_nat (move_power (2 ^ L) swap r))).
Proof.
  split.
  - intros v m m' E H i Hi. rewrite <- (E i Hi). apply H, Hi.
  - intros v m H i Hi. rewrite (H i Hi). reflexivity.
  - intros v m v' m' H H' i Hi. rewrite (H i Hi), (H' i Hi). reflexivity.
  - intros v m v' m' H H' i Hi. rewrite (H i Hi), (H' i Hi). reflexivity.
  - intros v m x H i Hi. rewrite (H i Hi). reflexivity.
  - intros v m v' m' H H'. apply neg_cong; assumption.
  - intros v m swap r H. apply subst_cong, H.
Qed.

Lemma slot_encoding L t psi : (0 < L)%nat -> 1 < t -> cong t (psi ^ Z.of_nat (2 ^ L)) (-1) ->
  encoding L t (fun v m => forall i, (i < 2 ^ L)%nat -> slot_value t psi (2 ^ L) m i = v i mod t) (fun f g i => f i * g i)
    (fun swap r f i => f (rotated_slot (2 ^ L) r (if swap then swapped_slot (2 ^ L) i else i))).
Proof.
  intros HL T R. assert (C : forall x, cong t (x mod t) x) by (intros; apply cong_mod).
  assert (AD : forall v m v' m' i, slot_value t psi (2 ^ L) m i = v i mod t -> slot_value t psi (2 ^ L) m' i = v' i mod t ->
    slot_value t psi (2 ^ L) (fun j => m j + m' j) i = (v i + v' i) mod t).
  { intros v m v' m' i H H'. rewrite slot_add, H, H'. apply cong_to_mod; [lia|]. rewrite !C. reflexivity. }
  assert (NG : forall v m i, slot_value t psi (2 ^ L) m i = v i mod t -> slot_value t psi (2 ^ L) (fun j => - m j) i = (- v i) mod t).
  { intros v m i H. rewrite (slot_neg L HL t psi T), H. apply cong_to_mod; [lia|]. rewrite !C. reflexivity. }
  split.
  - intros v m m' E H i Hi. rewrite <- (H i Hi). symmetry. apply (slot_ext L HL t psi T). exact E.
  - intros v m H i Hi. apply (NG v m). apply H, Hi.
  - intros v m v' m' H H' i Hi. apply AD; auto.
  - intros v m v' m' H H' i Hi. rewrite (slot_ext L HL t psi T _ (fun j => m j + - m' j)) by (intros j _; apply cong_eq; ring).
    rewrite (AD v m (fun j => - v' j) (fun j => - m' j) i (H i Hi) (NG v' m' i (H' i Hi))). f_equal. 
  - intros v m x H i Hi. unfold slot_value. specialize (H i Hi). unfold slot_value in H. apply cong_to_mod; [lia|]. apply cong_iff in H; [|lia].
    rewrite <- H. unfold peval. rewrite <- zsum_mul_l. apply cong_eq. apply zsum_ext. intros j _. ring.
  - intros v m v' m' H H' i Hi. rewrite (slot_mul L HL t psi T R), (H i Hi), (H' i Hi). apply cong_to_mod; [lia|]. rewrite !C. reflexivity.
  - intros v m swap r H i Hi. rewrite (slot_move L t psi swap r m i HL T R Hi). apply H.
    apply moved_lt; [apply (half_pos L HL)|apply (half_n L HL)|exact Hi].
Qed.

(** ** The theorems *)

(** A computation whose messages are coefficients: it succeeds, and decryption
    gives the coefficients, modulo t, of the polynomial it stands for, provided
    the worst-case size of the phase is one that DecodeBgv accepts. *)
Theorem C76_bgv_polynomials :
  forall k log_n qs ps t c D sk bs keys a, ctx_args k qs ps t -> ctx_made k log_n qs ps t c -> k <> 16 -> (forall q, In q qs -> Z.gcd q t = 1) ->
  let L := Z.to_nat log_n in let n := (2 ^ L)%nat in let E := coeff_encoder D c in
  rkeys L c sk bs keys -> rwf k L t c sk t a -> bgv_leaves E keys a ->
  bgv_decodable t (firstn (S (rlevel a)) qs) (bgv_noise n t c keys bs a) ->
  exists x, run_bgv E t c keys a = Ok x /\ length (rt_c x) = rwidth a /\
  rsk_decrypt_bgv (keys (rlevel a)) E x = Ok (map (fun i => as_polynomial n a i mod t) (seq 0 n)).
Proof.
  intros k log_n qs ps t c D sk bs keys a A M K16 G L n E RK W Lv HD. pose proof (ctx_t k log_n t qs ps c A M) as [Et Ht].
  destruct (coeff_encoding L t) as [H1 H2 H3 H4 H5 H6 H7].
  destruct (bgv_tracks k log_n qs ps t c A M K16 sk bs keys RK _ _ _ H1 H2 H3 H4 H5 H6 H7 E Et G) with (a := a) as (Hl & Hw & x & Ex & w & Hx & Bw & Rw).
  - intros l msgs Hl [Lm Fm]. rewrite (ctx_len k log_n t qs ps c A M) in Hl.
    destruct (C61_encode k log_n qs ps t c l msgs A M Hl Lm) as (p & Ep & Hp). { eapply Forall_impl; [|exact Fm]. cbv beta. intros. lia. }
    exists false, p, (fun i => centered t (nth i msgs 0)). split; [exact Ep|]. split; [exact Hp|]. split.
    + intros i Hi. pose proof (centered_fits t (nth i msgs 0) ltac:(lia)) as F. unfold fits in F. apply Z.div_le_lower_bound; lia.
    + intros i Hi. apply centered_cong.
  - exact W.
  - exact Lv.
  - exists x. split; [exact Ex|]. split; [apply Hx|]. pose proof (rk_key _ _ _ _ _ RK _ Hl) as HK. rewrite (ctx_len k log_n t qs ps c A M) in Hl.
    unfold E. rewrite (C61_decrypt k log_n qs ps t c (rlevel a) D (keys (rlevel a)) sk x (rwidth a) w _ A M Hl G HK ltac:(lia) Hx Bw HD). f_equal. fold L n.
    apply map_ext_in. intros i Hi. apply in_seq in Hi. apply cong_to_mod; [lia|]. apply Rw. fold L n. lia.
Qed.

(** A computation whose messages are in slots. *)
Theorem C76_bgv_slots :
  forall k log_n qs ps t c e D sk bs keys a, encoder_for k log_n qs ps t c e -> k <> 16 -> (forall q, In q qs -> q <> t) ->
  let L := Z.to_nat log_n in let n := (2 ^ L)%nat in let E := field_encoder D e in
  rkeys L c sk bs keys -> rwf k L t c sk t a -> bgv_leaves E keys a ->
  bgv_decodable t (firstn (S (rlevel a)) qs) (bgv_noise n t c keys bs a) ->
  exists x, run_bgv E t c keys a = Ok x /\ length (rt_c x) = rwidth a /\
  rsk_decrypt_bgv (keys (rlevel a)) E x = Ok (map (fun i => as_slots n a i mod t) (seq 0 n)).
Proof.
  intros k log_n qs ps t c e D sk bs keys a F K16 NT L n E RK W Lv HD. destruct (enc_parts k log_n t qs ps c e F) as (A & M & PT & EC & HL & T & R & _).
  pose proof (ctx_t k log_n t qs ps c A M) as [Et Ht]. pose proof (ff_gcd _ _ _ _ A PT NT) as G.
  destruct (slot_encoding L t (field_root e) HL (proj1 T) R) as [H1 H2 H3 H4 H5 H6 H7].
  assert (Et' : en_t E = t) by (unfold E; cbn [field_encoder en_t]; rewrite EC; exact Et).
  destruct (bgv_tracks k log_n qs ps t c A M K16 sk bs keys RK _ _ _ H1 H2 H3 H4 H5 H6 H7 E Et' G) with (a := a) as (Hl & Hw & x & Ex & w & Hx & Bw & Rw).
  - intros l msgs Hl [Lm Fm]. rewrite (ctx_len k log_n t qs ps c A M) in Hl.
    destruct (C69_encode_bgv k log_n qs ps t c e l msgs F Hl Lm) as (g & (p & Ep & Hp) & Hg & Sg). { eapply Forall_impl; [|exact Fm]. cbv beta. intros. lia. }
    exists true, p, g. split; [exact Ep|]. split; [exact Hp|]. split; [|exact Sg].
    intros i Hi. specialize (Hg i Hi). apply Z.div_le_lower_bound; lia.
  - exact W.
  - exact Lv.
  - exists x. split; [exact Ex|]. split; [apply Hx|]. pose proof (rk_key _ _ _ _ _ RK _ Hl) as HK. rewrite (ctx_len k log_n t qs ps c A M) in Hl.
    unfold E. rewrite (C69_decrypt_bgv k log_n qs ps t c e (rlevel a) D (keys (rlevel a)) sk x (rwidth a) w _ F Hl NT HK ltac:(lia) Hx Bw HD). f_equal. fold L n.
    apply map_ext_in. intros i Hi. apply in_seq in Hi. apply Rw. fold L n. lia.
Qed.

(** The keys: a sampled key, and what ModReduce makes of it for the levels
    below. *)
Theorem C76_keys :
  forall k log_n qs ps t c R v s key s', ctx_args k qs ps t -> ctx_made k log_n qs ps t c -> prng_ok R -> variance_fits v (rc_qs c) ->
  rsk_sample R log_n v (rc_qs c) s = Ok (key, s') ->
  (exists keys, keys (length qs - 1)%nat = key /\ forall l, (S l < length qs)%nat -> rsk_mod_reduce (keys (S l)) = Ok (keys l)) /\
  forall keys, keys (length qs - 1)%nat = key -> (forall l, (S l < length qs)%nat -> rsk_mod_reduce (keys (S l)) = Ok (keys l)) ->
  exists sk, rkeys (Z.to_nat log_n) c sk (2 * v) keys /\ forall l, (l < length qs)%nat -> rsk_var (keys l) = v.
Proof.
  intros k log_n qs ps t c R v s key s' A M HR HV E. destruct (ctx_qs_ok k log_n t qs ps c A M) as (OK & EM & _).
  pose proof (ctx_len k log_n t qs ps c A M) as LQ.
  assert (LG : Z.of_nat (Z.to_nat log_n) = log_n). { unfold rsk_sample in E. destruct (Z.leb_spec log_n 0); [discriminate E|lia]. }
  rewrite <- LG in E. destruct (C59_sample k _ _ R v s key s' OK HR HV E) as (_ & Ev & f & HK & Bf).
  assert (N0 : (0 < length qs)%nat). { rewrite <- LQ. destruct (rc_qs c); [|cbn; lia]. unfold rsk_sample in E. destruct (_ <=? 0); [discriminate E|]. destruct (v <=? 0); discriminate E. }
  assert (step : forall l key, (S l < length qs)%nat -> key_is (at_level c (S l)) (Z.to_nat log_n) key f -> rsk_var key = v ->
     exists key', rsk_mod_reduce key = Ok key' /\ key_is (at_level c l) (Z.to_nat log_n) key' f /\ rsk_var key' = v).
  { intros l key0 Hl HK0 V0. destruct (nth_error (rc_qs c) (S l)) as [m|] eqn:Em; [|apply nth_error_None in Em; lia].
    assert (EL : at_level c (S l) = at_level c l ++ [m]) by (unfold at_level; apply firstn_last; exact Em). rewrite EL in HK0.
    destruct (C59_mod_reduce _ _ m key0 f (level_ne k log_n t qs ps c A M l ltac:(lia)) HK0) as (key' & E' & HK' & V'). exists key'. rewrite V'. auto. }
  assert (top : key_is (at_level c (length qs - 1)) (Z.to_nat log_n) key f).
  { unfold at_level. replace (S (length qs - 1)) with (length (rc_qs c)) by lia. rewrite firstn_all. exact HK. }
  split.
  - enough (X : forall d, (d < length qs)%nat -> exists keys, keys (length qs - 1)%nat = key /\
        (forall l, (S l < length qs)%nat -> (length qs - 1 - d <= l)%nat -> rsk_mod_reduce (keys (S l)) = Ok (keys l)) /\
        key_is (at_level c (length qs - 1 - d)) (Z.to_nat log_n) (keys (length qs - 1 - d)%nat) f /\ rsk_var (keys (length qs - 1 - d)%nat) = v).
    { destruct (X (length qs - 1)%nat ltac:(lia)) as (keys & E1 & E2 & _). exists keys. split; [exact E1|]. intros l Hl. apply E2; lia. }
    induction d as [|d IH]; intros Hd.
    + exists (fun _ => key). rewrite Nat.sub_0_r. split; [reflexivity|]. split; [intros; lia|]. split; [exact top|exact Ev].
    + destruct (IH ltac:(lia)) as (keys & E1 & E2 & HKd & Vd). set (l0 := (length qs - 1 - S d)%nat). replace (length qs - 1 - d)%nat with (S l0) in * by lia.
      destruct (step l0 _ ltac:(lia) HKd Vd) as (key' & E' & HK' & V').
      exists (fun l => if Nat.eqb l l0 then key' else keys l). split; [|split; [|split]].
      * destruct (Nat.eqb_spec (length qs - 1) l0); [lia|exact E1].
      * intros l Hl Hl0. destruct (Nat.eqb_spec (S l) l0); [lia|]. destruct (Nat.eqb_spec l l0) as [->|]; [exact E'|]. apply E2; lia.
      * rewrite Nat.eqb_refl. exact HK'.
      * rewrite Nat.eqb_refl. exact V'.
  - intros keys Et Er. exists f.
    assert (X : forall d, (d < length qs)%nat -> key_is (at_level c (length qs - 1 - d)) (Z.to_nat log_n) (keys (length qs - 1 - d)%nat) f /\ rsk_var (keys (length qs - 1 - d)%nat) = v).
    { induction d as [|d IH]; intros Hd.
      - rewrite Nat.sub_0_r, Et. split; [exact top|exact Ev].
      - destruct (IH ltac:(lia)) as [HKd Vd]. set (l0 := (length qs - 1 - S d)%nat). replace (length qs - 1 - d)%nat with (S l0) in * by lia.
        destruct (step l0 _ ltac:(lia) HKd Vd) as (key' & E' & HK' & V'). rewrite (Er l0 ltac:(lia)) in E'. injection E' as <-. auto. }
    assert (Y : forall l, (l < length qs)%nat -> key_is (at_level c l) (Z.to_nat log_n) (keys l) f /\ rsk_var (keys l) = v).
    { intros l Hl. specialize (X (length qs - 1 - l)%nat ltac:(lia)). replace (length qs - 1 - (length qs - 1 - l))%nat with l in X by lia. exact X. }
    split; [|intros l Hl; apply Y, Hl]. split; [intros l Hl; apply Y; lia| |exact Bf].
    intros l Hl. rewrite (proj2 (Y l ltac:(lia))). unfold at_level. destruct (rc_qs c); [exact HV|exact HV].
Qed.

(** Degree 8, primes 97, 193, 257, t = 17, messages in slots: multiply,
    relinearize, rotate by one slot, drop the prime 257, add a plaintext, send. *)
Definition ex_circuit (rr : rrelin) (gk : rgalois) (ws : list Z) : rcirc :=
  RSend (RAddPlain (RReduce (RSubst (RRelin (RMul (REnc 2 toy 200 [1; 14; 0; 3; 12] 777) (REnc 2 toy 200 [5; 2; 9; 4; 3] 888)) rr 2 15 ws)
    false 1 gk 2 15 ws)) [1; 2; 3]).

Lemma ex_args : ctx_args 32 [97; 193; 257] [] 17.
Proof.
  split; [right; left; reflexivity|]. split; [repeat (apply Forall_cons; [apply (prime_by_trial _ 20); [lia|vm_compute; reflexivity]|]); apply Forall_nil|].
  split; [constructor|]. split; [repeat constructor; cbn; lia|]. cbn. lia.
Qed.

(** its hypotheses hold for any objects made by these calls *)
Lemma ex_hypotheses c e key s keys hats invs g rr gk :
  ctx_create_bgv_ff 32 3 [97; 193; 257] [] 17 = Ok c -> ff_create c = Ok e -> rsk_sample toy 3 1 (rc_qs c) 12345 = Ok (key, s) ->
  keys 2%nat = key -> rsk_mod_reduce (keys 2%nat) = Ok (keys 1%nat) -> rsk_mod_reduce (keys 1%nat) = Ok (keys 0%nat) ->
  main_complements c 2 = Ok hats -> main_crt_factors c 2 = Ok invs -> rgadget_create 3 [4; 4; 4] hats invs (rc_qs c) = Ok g ->
  rrelin_create toys 200 key 2 1 g 1 17 [77] [78] = Ok rr -> galois_create toys 200 key 5 1 g 1 17 [79] [80] = Ok gk ->
  let ws := gadget_weights (rc_qs c) [4; 4; 4] in let a := ex_circuit rr gk ws in
  encoder_for 32 3 [97; 193; 257] [] 17 c e /\
  (exists sk, rkeys 3 c sk 2 keys /\ rwf 32 3 17 c sk 17 a) /\
  bgv_decodable 17 (firstn (S (rlevel a)) [97; 193; 257]) (bgv_noise 8 17 c keys 2 a).
Proof.
  intros Ec Ee Ek K2 K1 K0 Eh Ei Eg Er Egk ws a. assert (A := ex_args). assert (MF : ctx_made_ff 32 3 [97; 193; 257] [] 17 c) by (left; exact Ec).
  pose proof (ff_made _ _ _ _ _ _ MF) as M.
  assert (PT : prime 17) by (apply (prime_by_trial _ 20); [lia|vm_compute; reflexivity]).
  split; [split; [exact A|]; split; [exact MF|]; split; [exact PT|exact Ee]|].
  destruct (ctx_qs_ok 32 3 17 _ _ c A M) as (OK & EM & _). cbn [length] in EM. pose proof (ctx_len 32 3 17 _ _ c A M) as LQ. cbn [length] in LQ.
  assert (AL : at_level c 2 = rc_qs c) by (unfold at_level; rewrite <- LQ; apply firstn_all).
  assert (HV : variance_fits 1 (rc_qs c)). { destruct (rc_qs c) as [|m0 r]; [exact I|]. injection EM as E0 _. cbn [variance_fits]. lia. }
  destruct (C76_keys 32 3 _ _ 17 c toy 1 12345 key s A M toy_ok HV Ek) as [_ X].
  destruct (X keys) as (sk & RK & VK); [exact K2| |].
  { intros l Hl. cbn [length] in Hl. destruct l as [|[|l]]; [exact K0|exact K1|lia]. }
  assert (DI : distinct (rc_qs c)) by (rewrite <- AL; apply (level_distinct 32 3 17 _ _ c A M)).
  assert (NE : rc_qs c <> []) by (intros H; rewrite H in LQ; discriminate LQ).
  assert (HG : gadget_for (rc_qs c) 3 15 g ws).
  { destruct (C64_create_for_level 32 3 _ _ 17 c 2 [4; 4; 4] 15 A M ltac:(cbn; lia) eq_refl) as (hats' & invs' & g' & Eh' & Ei' & Eg' & HG).
    - repeat constructor; lia.
    - rewrite AL. destruct (rc_qs c) as [|m0 [|m1 [|m2 [|]]]]; try discriminate LQ. injection EM as E0 E1 E2.
      repeat constructor; match goal with |- Z.min ?a ?b <= _ => apply Z.le_trans with a; [apply Z.le_min_l|cbn; lia] end.
    - change (Z.of_nat 2) with 2 in Eh', Ei'. rewrite Eh in Eh'. injection Eh' as <-. rewrite Ei in Ei'. injection Ei' as <-. rewrite AL in Eg', HG.
      rewrite Eg in Eg'. injection Eg' as <-. exact HG. }
  assert (HK : key_is (rc_qs c) 3 key sk). { rewrite <- AL, <- K2. apply (rk_key _ _ _ _ _ RK). lia. }
  destruct (C66_create 32 3 (rc_qs c) toys 200 key sk 2 1 g 1 17 [77] [78] rr 15 ws OK NE DI ltac:(lia) HK toy_ok HV ltac:(lia) HG Er) as (HR & DR & _).
  destruct (C65_create 32 3 (rc_qs c) toys 200 key sk 5 1 g 1 17 [79] [80] gk 15 ws OK NE DI ltac:(lia) HK toy_ok HV ltac:(lia) HG Egk) as (HGK & PGK & _).
  split.
  - exists sk. split; [exact RK|]. unfold a, ex_circuit. cbn [rwf rlevel rwidth Nat.add Nat.sub]. rewrite AL, LQ, DR, PGK.
    repeat match goal with |- _ /\ _ => split | |- msgs_ok _ _ _ => split; [cbn; lia|repeat constructor; lia] end; try lia; try exact toy_ok; try exact HR; try exact HGK.
    vm_compute. reflexivity.
  - assert (LW : length ws = 7%nat).
    { unfold ws, gadget_weights. destruct (rc_qs c) as [|m0 [|m1 [|m2 [|]]]]; try discriminate LQ. injection EM as E0 E1 E2. cbn [map2 concat].
      rewrite !app_length, !map_length, !seq_length, E0, E1, E2. reflexivity. }
    unfold a, ex_circuit. cbn [rlevel rwidth Nat.add Nat.sub bgv_noise]. rewrite (VK 2%nat) by (cbn; lia). rewrite LW, EM. vm_compute. split; [discriminate|reflexivity].
Qed.

(** and the calls succeed: slot i of the result is the product in slot i + 1 of
    the same half, plus the plaintext *)
Example C76_example :
  (do! c <- ctx_create_bgv_ff 32 3 [97; 193; 257] [] 17; do! e <- ff_create c;
   do! ' (key, s) <- rsk_sample toy 3 1 (rc_qs c) 12345;
   do! key1 <- rsk_mod_reduce key; do! key0 <- rsk_mod_reduce key1; let keys := fun l => nth l [key0; key1; key] key in
   do! hats <- main_complements c 2; do! invs <- main_crt_factors c 2;
   do! g <- rgadget_create 3 [4; 4; 4] hats invs (rc_qs c);
   do! rr <- rrelin_create toys 200 key 2 1 g 1 17 [77] [78];
   do! gk <- galois_create toys 200 key 5 1 g 1 17 [79] [80];
   let a := ex_circuit rr gk [] in let E := field_encoder exact_dops e in
   do! x <- run_bgv E 17 c keys a; do! m <- rsk_decrypt_bgv (keys (rlevel a)) E x; Ok (m, map (fun i => as_slots 8 a i mod 17) (seq 0 8))) =
  Ok ([12; 2; 15; 5; 0; 0; 0; 2], [12; 2; 15; 5; 0; 0; 0; 2]).
Proof. vm_compute. reflexivity. Qed.

Print Assumptions C76_bgv_polynomials.
Print Assumptions C76_bgv_slots.
Print Assumptions C76_keys.
