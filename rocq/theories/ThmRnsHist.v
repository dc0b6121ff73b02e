(** C103: any number of RNS encryptions, BGV and BFV in any order, under any
    keys over one chain of moduli, made one after the other with one generator:
    the joint distribution of all ciphertexts. The generator reads a tape of
    uniform bytes. *)
From Coq Require Import Znumtheory Lia Arith.
From Verif Require Import Base FinSum Montgomery MontBatch Ntt Poly PolyExt Prng Sampling SampleSpec MontgomeryProofs Spec ArithFacts
  PolySpec Ring SampleProofs SampleErrProofs ThmSample SymSpec RnsPoly RnsSpec RnsSub RnsProofs RnsBasis2 RnsMore RnsCtx RnsCt RnsCtSpec RnsCtProofs
  RnsEncode RnsKey DistSpec DistProofs DistEnc RnsKeySpec RnsKeyProofs RnsExample TapeSpec TapeProofs TapeRns ThmTape RnsFloat.
Local Notation tapes N := (repeat 8 N).
Local Opaque error_widths error_count.

(** one call of RnsRlweSecretKey::EncryptPolynomialBgv or ::EncryptBfv *)
Inductive call :=
| CallBgv (key : rskey) (p : rpoly) (t : Z)
| CallBfv (key : rskey) (E : encoder) (msgs : list Z).
Definition run_call (fuel : nat) (c : call) (s : list Z) : result (rct * list Z) :=
  match c with
  | CallBgv key p t => rsk_encrypt_poly_bgv tape fuel key p t s
  | CallBfv key E msgs => rsk_encrypt_bfv1 tape fuel key E msgs s
  end.
(** a caller that makes the calls one after the other, with one generator *)
Fixpoint run_calls (fuel : nat) (calls : list call) (s : list Z) : result (list rct * list Z) :=
  match calls with
  | [] => Ok ([], s)
  | c :: calls =>
      do! ' (x, s) <- run_call fuel c s;
      do! ' (xs, s) <- run_calls fuel calls s;
      Ok (x :: xs, s)
  end.

Definition shape (x : rct) : list (list (list Z)) := map rp_vs (rt_c x).
Definition shapes_dec := list_eq_dec (list_eq_dec (list_eq_dec (list_eq_dec Z.eq_dec))).
(** all calls succeeded and these are the components of the ciphertexts *)
Definition gave_rcts (cs : list (list (list (list Z)))) (res : result (list rct * list Z)) : bool :=
  match res with Ok (xs, _) => if shapes_dec (map shape xs) cs then true else false | _ => false end.

(** a call, what it means (the integer polynomials of its key and plaintext and
    the factor of the error), and a mask and an error it may draw *)
Record draw := { d_call : call; d_key : nat -> Z; d_msg : nat -> Z; d_t : Z; d_mask : list (list Z); d_err : list Z }.
Definition call_means (k : Z) (L : nat) (ms : list pmod) (var : Z) (c : call) (sk m : nat -> Z) (t : Z) : Prop :=
  match c with
  | CallBgv key p t' => RnsKeySpec.key_is ms L key sk /\ rsk_var key = var /\ rns_is ms L true p m /\ t' = t /\ 0 <= t < 2 ^ k /\ rel_prime t (first_modulus ms)
  | CallBfv key E msgs => RnsKeySpec.key_is ms L key sk /\ rsk_var key = var /\ (exists ntt p, en_bfv E msgs ms = Ok p /\ rns_is ms L ntt p m) /\ t = 1
  end.
Definition draw_ok (k : Z) (L : nat) (ms : list pmod) (var : Z) (d : draw) : Prop :=
  call_means k L ms var (d_call d) (d_key d) (d_msg d) (d_t d) /\ residue_rows ms (2 ^ L) (d_mask d) /\
  length (d_err d) = (2 ^ L)%nat /\ Forall (fun x => Z.abs x <= 2 * var) (d_err d).

Section One.
Variables (k : Z) (L : nat) (m0 : pmod) (ms' : list pmod).
Local Notation ms := (m0 :: ms').
Hypothesis OK : moduli_ok k L ms.
Local Notation n := (2 ^ L)%nat.
Local Notation p0 := (pm_p m0).
Local Notation q0 := (modulus m0).
Variables (f : nat) (v t : Z) (s : nat -> Z) (key : rskey) (m : nat -> Z).
Variable enc : list Z -> result (rct * list Z).
Variable fin : list (list Z) -> list Z -> result rct.
Hypothesis Hv : 0 < v <= 256.
Hypothesis Hq : 4 * v < q0.
Hypothesis Ht : rel_prime t q0.
Hypothesis HK : RnsKeySpec.key_is ms L key s.
Hypothesis Eenc : forall ds, enc ds = do! ' (vs, s) <- rns_sample_rows tape f n ms ds; do! ' (xs, s) <- sample_error tape p0 n v s; do! x <- fin vs xs; Ok (x, s).
Hypothesis Hfin : forall vs xs, residue_rows ms n vs -> errs_ok L m0 v xs -> exists x, fin vs xs = Ok x /\
  masked ms L s x (poly_of L vs) (fun i => m i + t * nth i (signed p0 xs) 0) /\ nth_error (map rp_vs (rt_c x)) 1 = Some (neg_rows ms vs).
Local Notation eb := (error_bytes v n).

Lemma enc_then vs0 e0 x0 H N : residue_rows ms n vs0 -> length e0 = n -> Forall (fun x => Z.abs x <= 2 * v) e0 -> fin vs0 (res0 m0 e0) = Ok x0 ->
  ex N enc (fun x s => is_ct (shape x0) x * H s) =
  row_weights ms f n N (fun M => if (eb <=? M)%nat then product (map (error_count v) e0) * over (tapes (M - eb)) H else 0).
Proof.
  intros R0 Le Fe E0. pose proof (ok_for k L m0 (Forall_inv OK)) as PF.
  transitivity (ex N (rns_sample_rows tape f n ms) (fun vs s => is_rows vs vs0 * runs (sample_error tape p0 n v) (fun xs s => is_list (signed p0 xs) e0 * H s) s)).
  - unfold ex. apply over_ext; [|apply tapes_nonneg]. intros ds _. unfold runs. rewrite Eenc. destruct (rns_sample_rows tape f n ms ds) as [[vs s1]| |] eqn:Er; try reflexivity. cbn [bind].
    pose proof (rows_reduced k L f n ms ds vs s1 OK Er) as R.
    destruct (sample_error tape p0 n v s1) as [[xs s2]| |] eqn:Ee; cbn [bind]; try (rewrite Z.mul_0_r; reflexivity).
    pose proof (errs_sampled k L m0 ms' OK v s1 xs s2 ltac:(lia) ltac:(lia) Ee) as X. destruct (Hfin vs xs R X) as (x & Ex & _). rewrite Ex. cbn [bind].
    unfold shape. rewrite (split_test k L m0 ms' OK v t s key m fin Hv Hq Ht HK Hfin vs0 e0 x0 vs xs x R0 Le Fe E0 R X Ex). ring.
  - rewrite (row_weights_ok k L f n _ ms vs0 OK R0). apply row_weights_ext. intros M. rewrite over_runs.
    pose proof (errors_over k q0 p0 v PF ltac:(lia) Hq H e0 M) as EO. rewrite Le in EO. exact EO.
Qed.
End One.

(** one call, followed by anything *)
Lemma call_then k L ms fuel var d : moduli_ok k L ms -> distinct ms -> k <> 16 -> 0 < var <= 256 -> 4 * var < first_modulus ms -> draw_ok k L ms var d ->
  exists x, masked ms L (d_key d) x (poly_of L (d_mask d)) (fun i => d_msg d i + d_t d * nth i (d_err d) 0) /\ forall H N,
    ex N (run_call fuel (d_call d)) (fun y s => is_ct (shape x) y * H s) =
    row_weights ms fuel (2 ^ L) N (fun M => if (error_bytes var (2 ^ L) <=? M)%nat then product (map (error_count var) (d_err d)) * over (tapes (M - error_bytes var (2 ^ L))) H else 0).
Proof.
  destruct ms as [|m0 ms']; intros OK DI K16 Hv Hq; [cbn [first_modulus] in Hq; lia|]. destruct d as [c sk m t vs e]. intros (HC & R & Le & Fe). cbn [d_call d_key d_msg d_t d_mask d_err] in *.
  cbn [first_modulus] in Hq.
  destruct (res0_ok k L m0 ms' OK var e Hq Le Fe) as [X0 S0].
  destruct c as [key p t'|key E msgs]; cbn [call_means run_call] in *.
  - destruct HC as (HK & Ev & Hp & -> & Ht & RP). subst var.
    pose proof (fun vs xs => fin_bgv_ok k L m0 ms' OK DI K16 key sk p m HK Hp (rsk_var key) t vs xs Ht) as HF.
    destruct (HF vs (res0 m0 e) R X0) as (x & Ex & Mx & _). rewrite S0 in Mx. exists x. split; [exact Mx|]. intros H N.
    exact (enc_then k L m0 ms' OK fuel (rsk_var key) t sk key m _ (fin_bgv L m0 ms' key p t) Hv Hq RP HK
      (enc_bgv_eq k L m0 ms' OK key sk p m HK Hp Hv fuel t) HF vs e x H N R Le Fe Ex).
  - destruct HC as (HK & Ev & (ntt & p1 & Ep & Hp1) & ->). subst var.
    assert (HN : is_rns (m0 :: ms') L true (ensure_ntt p1 (m0 :: ms')) m).
    { unfold ensure_ntt. rewrite (proj1 (proj2 Hp1)). destruct ntt; [exists p1; auto|apply (rns_to_ntt_is k L _ OK p1 m Hp1)]. }
    destruct HN as (p & Eq & Hp).
    pose proof (fin_bfv_ok k L m0 ms' OK DI K16 key sk p m HK Hp (rsk_var key)) as HF.
    destruct (HF vs (res0 m0 e) R X0) as (x & Ex & Mx & _). rewrite S0 in Mx. exists x. split; [exact Mx|]. intros H N.
    assert (RP : rel_prime 1 (modulus m0)) by (apply Zgcd_1_rel_prime, Z.gcd_1_l).
    exact (enc_then k L m0 ms' OK fuel (rsk_var key) 1 sk key m _ (fin_bfv L m0 ms' key p) Hv Hq RP HK
      (fun ds => enc_bfv_eq k L m0 ms' OK key sk p HK Hv fuel E msgs p1 ds Ep Eq) HF vs e x H N R Le Fe Ex).
Qed.

(** the number of ways to spend N bytes on d masks and errors *)
Fixpoint spend_rows (ms : list pmod) (fuel n eb d N : nat) : Z :=
  match d with
  | O => 256 ^ Z.of_nat N
  | S d => row_weights ms fuel n N (fun M => if (eb <=? M)%nat then spend_rows ms fuel n eb d (M - eb) else 0)
  end.
Lemma spend_rows_nonneg k L ms fuel n eb d : moduli_ok k L ms -> forall N, 0 <= spend_rows ms fuel n eb d N.
Proof.
  intros OK. induction d as [|d IH]; intros N; cbn [spend_rows]; [apply Z.pow_nonneg; lia|]. apply (row_weights_nonneg k L _ fuel n); [|exact OK]. intros M. destruct (eb <=? M)%nat; [apply IH|lia].
Qed.
Lemma spend_rows_pos k L ms fuel n eb d : moduli_ok k L ms -> (1 <= fuel)%nat -> forall N, (d * (row_bytes ms n + eb) <= N)%nat -> 0 < spend_rows ms fuel n eb d N.
Proof.
  intros OK Hf. induction d as [|d IH]; intros N HN; cbn [spend_rows]; [apply Z.pow_pos_nonneg; lia|].
  apply (row_weights_pos k L _ fuel n (eb + d * (row_bytes ms n + eb))); [| |exact Hf|exact OK|cbn [Nat.mul] in HN; lia].
  - intros M. destruct (eb <=? M)%nat; [apply (spend_rows_nonneg k L ms fuel n eb d OK)|lia].
  - intros M HM. destruct (Nat.leb_spec eb M); [apply IH; lia|lia].
Qed.

Lemma shapes_cons x xs c cs : (if shapes_dec (map shape (x :: xs)) (c :: cs) then 1 else 0) = is_ct c x * (if shapes_dec (map shape xs) cs then 1 else 0).
Proof.
  unfold is_ct. fold (shape x). destruct (list_eq_dec (list_eq_dec (list_eq_dec Z.eq_dec)) (shape x) c) as [A|A]; destruct (shapes_dec (map shape xs) cs) as [B|B];
    destruct (shapes_dec (map shape (x :: xs)) (c :: cs)) as [C|C]; try reflexivity; exfalso; cbn [map] in C; try (injection C as C1 C2; contradiction).
  apply C. rewrite A, B. reflexivity.
Qed.

(** For any number d of calls there is a weight, the same for all keys,
    plaintexts, masks and errors, and for BGV and BFV, with which the following
    holds. For all masks a_j and small errors e_j there is one list of
    ciphertexts, encrypting m_j + t_j e_j with these masks (t_j = 1 in BFV), and
    the number of tapes that give it is the weight times all the binomials: the
    masks are uniform, the errors binomial, and all of them independent. *)
Theorem C103_history :
  forall k L ms fuel var d, moduli_ok k L ms -> distinct ms -> k <> 16 -> 0 < var <= 256 -> 4 * var < first_modulus ms ->
  exists weight : nat -> Z,
    (forall N, (1 <= fuel)%nat -> (d * (row_bytes ms (2 ^ L) + error_bytes var (2 ^ L)) <= N)%nat -> 0 < weight N) /\
    forall draws, length draws = d -> Forall (draw_ok k L ms var) draws ->
    exists xs, Forall2 (fun w x => masked ms L (d_key w) x (poly_of L (d_mask w)) (fun i => d_msg w i + d_t w * nth i (d_err w) 0)) draws xs /\ forall N,
      count_tapes N (fun ds => gave_rcts (map shape xs) (run_calls fuel (map d_call draws) ds)) =
      weight N * product (map (fun w => product (map (error_count var) (d_err w))) draws).
Proof.
  intros k L ms fuel var d OK DI K16 Hv Hq. exists (spend_rows ms fuel (2 ^ L) (error_bytes var (2 ^ L)) d). split.
  { intros N Hf HN. apply (spend_rows_pos k L ms fuel (2 ^ L) _ d OK Hf N HN). }
  intros draws. revert d. induction draws as [|w draws IH]; intros d Ld Fd; subst d.
  - exists []. split; [constructor|]. intros N. cbn [length spend_rows map product fold_right]. rewrite Z.mul_1_r, <- over_ones. reflexivity.
  - destruct (IH (length draws) eq_refl (Forall_inv_tail Fd)) as (xs & Hxs & E).
    destruct (call_then k L ms fuel var w OK DI K16 Hv Hq (Forall_inv Fd)) as (x & Hx & Ex). exists (x :: xs). split; [constructor; assumption|].
    intros N. cbn [length spend_rows map].
    transitivity (ex N (run_call fuel (d_call w)) (fun y s => is_ct (shape x) y * Z.b2z (gave_rcts (map shape xs) (run_calls fuel (map d_call draws) s)))).
    + unfold count_tapes, count_scripts, ex. apply over_ext; [|apply tapes_nonneg]. intros ds _. cbn [run_calls]. unfold runs.
      destruct (run_call fuel (d_call w) ds) as [[y s]| |]; try reflexivity. cbn [bind]. destruct (run_calls fuel (map d_call draws) s) as [[ys s1]| |]; cbn [bind gave_rcts Z.b2z]; try (rewrite Z.mul_0_r; reflexivity).
      assert (B : forall (P : Prop) (b : {P} + {~ P}), Z.b2z (if b then true else false) = if b then 1 else 0) by (intros P []; reflexivity). rewrite !B. apply shapes_cons.
    + rewrite Ex, product_cons. rewrite Z.mul_comm, <- row_weights_mul. apply row_weights_ext. intros M. destruct (_ <=? M)%nat; [|lia].
      specialize (E (M - error_bytes var (2 ^ L))%nat). unfold count_tapes, count_scripts in E. rewrite E. ring.
Qed.

(** A BGV and then a BFV encryption, of degree 8 over 97, 193 and 17, with one
    tape: 40 bytes each, and one more for the rejected first byte. *)
Definition ctx103 : list rctx := Eval vm_compute in match ctx_create_bfv 32 3 [97; 193; 17] [113; 241] 3 with Ok c => [c] | _ => [] end.
Definition enc103 : list encoder := map (coeff_encoder exact_dops) ctx103.
Definition tape103 : list Z := tape94 ++ tl tape94.
Definition bfv103 : rpoly := Eval vm_compute in
  match map (fun c => coeff_encode_bfv c [1; 2; 0; 2] ex_qs true) ctx103 with [Ok p] => p | _ => poly_of 3 [] end.
Definition ran103 (E : encoder) (s : list Z) : result (list rct * list Z) := run_calls 2 [CallBgv key94 plain94 4; CallBfv key94 E [1; 2; 0; 2]] s.
Definition check103 (E : encoder) : bool :=
  match ran103 E tape103 with
  | Ok ([x; y], []) => if shapes_dec (map (fun c => [nth 1 (shape c) []]) [x; y]) [[neg_rows ex_qs mask94]; [neg_rows ex_qs mask94]] then
      if list_eq_dec (list_eq_dec Z.eq_dec) (nth 0 (shape x) []) (nth 0 (shape y) []) then false else true else false
  | _ => false end &&
  match ran103 E (removelast tape103) with Ok _ => false | _ => true end.
Lemma one_true A (f : A -> bool) (x : A) : forallb f [x] = true -> f x = true.
Proof. cbn [forallb]. rewrite andb_true_r. auto. Qed.
Example C103_example :
  exists E s m g, enc103 = [E] /\ check103 E = true /\
  Forall (draw_ok 32 3 ex_qs 1)
    [{| d_call := CallBgv key94 plain94 4; d_key := s; d_msg := m; d_t := 4; d_mask := mask94; d_err := error94 |};
     {| d_call := CallBfv key94 E [1; 2; 0; 2]; d_key := s; d_msg := g; d_t := 1; d_mask := mask94; d_err := error94 |}] /\
  moduli_ok 32 3 ex_qs /\ distinct ex_qs /\ 4 * 1 < first_modulus ex_qs /\ row_bytes ex_qs 8 = 24%nat /\ error_bytes 1 8 = 16%nat.
Proof.
  destruct C94_example as (_ & _ & _ & _ & _ & R1 & R2 & Hq & RP & _ & HM & OK & DI & Ev & (s & Hs) & (m & Hm)).
  assert (C : forallb check103 enc103 = true) by (vm_compute; reflexivity).
  assert (B : forallb (fun E => match en_bfv E [1; 2; 0; 2] ex_qs with Ok p => if list_eq_dec (list_eq_dec Z.eq_dec) (rp_vs p) (rp_vs bfv103) then Nat.eqb (rp_logn p) 3 else false | _ => false end) enc103 = true)
    by (vm_compute; reflexivity).
  assert (P : rns_poly ex_qs 3 (poly_of 3 (rp_vs bfv103))).
  { pose proof (proj1 ex_ok) as O. destruct ex_qs as [|m0 ms'] eqn:Eq; [vm_compute in Eq; discriminate Eq|]. apply (rows_poly 3 m0 ms'). rewrite <- Eq. clear.
    assert (E3 : forallb (fun mv => (length (snd mv) =? 8)%nat && forallb (fun x => (0 <=? x) && (x <? pm_q (fst mv))) (snd mv)) (combine ex_qs (rp_vs bfv103)) = true) by (vm_compute; reflexivity).
    assert (E4 : length (rp_vs bfv103) = length ex_qs) by (vm_compute; reflexivity). revert E3 E4. unfold residue_rows. generalize (rp_vs bfv103) as vs. generalize ex_qs as ms.
    induction ms as [|m ms IH]; intros [|v vs] E3 E4; try discriminate E4; [constructor|]. cbn [combine forallb fst snd] in E3. apply andb_prop in E3. destruct E3 as [A B].
    apply andb_prop in A. destruct A as [A C]. constructor; [|apply IH; [exact B|injection E4 as E4; exact E4]]. split; [apply Nat.eqb_eq, A|].
    rewrite forallb_forall in C. apply Forall_forall. intros x Hx. specialize (C x Hx). apply andb_prop in C. unfold modulus. change (pm_q m) with (p_m (pm_p m)) in C. lia. }
  assert (E1 : exists E, enc103 = [E]) by (eexists; reflexivity). destruct E1 as [E EE]. rewrite EE in C, B. apply one_true in C. apply one_true in B.
  destruct (en_bfv E [1; 2; 0; 2] ex_qs) as [p| |] eqn:Ep; try discriminate B.
  destruct (list_eq_dec (list_eq_dec Z.eq_dec) (rp_vs p) (rp_vs bfv103)) as [Vp|]; [|discriminate B]. rename B into Lp. apply Nat.eqb_eq in Lp.
  assert (Pp : rns_poly ex_qs 3 p) by (split; [exact Lp|rewrite Vp; exact (proj2 P)]).
  destruct (rns_exists 32 3 _ OK DI _ Pp) as (g & _ & Hg).
  exists E, s, m, g. split; [exact EE|]. split; [exact C|]. split.
  - assert (De : length error94 = 8%nat /\ Forall (fun x => Z.abs x <= 2 * 1) error94).
    { split; [reflexivity|]. apply Forall_forall. intros x Hx. assert (F : forallb (fun x => Z.abs x <=? 2) error94 = true) by reflexivity. rewrite forallb_forall in F. specialize (F x Hx). lia. }
    constructor; [|constructor; [|constructor]]; (split; [|split; [exact HM|exact De]]); cbn [d_call d_key d_msg d_t call_means].
    + split; [exact Hs|]. split; [exact Ev|]. split; [exact Hm|]. split; [reflexivity|]. split; [lia|exact RP].
    + split; [exact Hs|]. split; [exact Ev|]. split; [|reflexivity]. exists (rp_ntt p), p. split; [exact Ep|exact Hg].
  - split; [exact OK|]. split; [exact DI|]. split; [exact Hq|]. split; [exact R1|exact R2].
Qed.
Print Assumptions C103_history.
Print Assumptions C103_example.
