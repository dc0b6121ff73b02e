(** C50-C53: RNS polynomials as elements of Z_Q[X]/(X^N+1), their constructors
    and conversions, serialization, and modulus reduction. *)
From Coq Require Import Znumtheory.
From Verif Require Import Base FinSum PolySpec Ring Montgomery MontBatch Ntt Poly Prng Sampling MontgomeryProofs MontBatchProofs Spec ArithFacts
  PrimeCheck PolyView NttFacts RnsPoly RnsSpec RnsCtx CrtMath RnsSub RnsProofs RnsReduce RnsBasis RnsBasis2 RnsMore RnsExample.

(** ** C50 *)

(** Over different primes an RNS polynomial stands for exactly one polynomial
    with coefficients in [0, Q), and every polynomial is represented. *)
Theorem C50_representation :
  forall k L ms, moduli_ok k L ms -> distinct ms ->
  (forall a, rns_poly ms L a -> exists f, (forall i, 0 <= f i < big_q ms) /\ rns_is ms L (rp_ntt a) a f /\
     forall g, rns_is ms L (rp_ntt a) a g <-> forall i, (i < 2 ^ L)%nat -> (f i - g i) mod big_q ms = 0) /\
  (forall f, exists a, rns_is ms L false a f).
Proof.
  intros k L ms OK DI. pose proof (big_q_pos k L ms OK) as PQ. split.
  - intros a Ha. destruct (rns_exists k L ms OK DI a Ha) as (f & Rf & Hf). exists f. split; [exact Rf|]. split; [exact Hf|].
    intros g. rewrite (rns_iff k L ms OK DI _ a f g Hf). unfold cong.
    split; intros H i Hi; specialize (H i Hi); apply Z.mod_divide in H || apply Z.mod_divide; try lia; assumption.
  - intros f. exists {| rp_logn := L; rp_vs := map (fun m => map (fun i => import_int (pm_p m) (f i mod modulus m)) (seq 0 (2 ^ L))) ms; rp_ntt := false |}.
    split; [reflexivity|]. split; [reflexivity|]. cbn [rp_vs]. apply map_forall. intros m I.
    pose proof (moduli_in _ _ _ _ OK I) as O. pose proof (ok_q k L m O) as Q1. pose proof (ok_qk k L m O) as QK.
    assert (R : forall i, residue m (import_int (pm_p m) (f i mod modulus m)) (f i)).
    { intros i. pose proof (Z.mod_pos_bound (f i) (modulus m) ltac:(lia)).
      apply (residue_ext k L m O _ (f i mod modulus m)); [apply (residue_import k L m O); lia|apply cong_mod]. }
    split.
    + split; [rewrite map_length, seq_length; reflexivity|]. apply Forall_map, Forall_forall. intros i _. apply (R i).
    + intros i Hi. unfold rcoeff. rewrite (nth_indep _ 0 (import_int (pm_p m) (f 0%nat mod modulus m))) by (rewrite map_length, seq_length; exact Hi).
      rewrite (map_nth (fun i => import_int (pm_p m) (f i mod modulus m))), seq_nth by exact Hi. apply (R i).
Qed.

(** Addition, subtraction and negation, in either form. *)
Theorem C50_add_sub_neg :
  forall k L ms ntt a b f g, moduli_ok k L ms -> rns_is ms L ntt a f -> rns_is ms L ntt b g ->
  is_rns ms L ntt (rns_add a b ms) (fun i => f i + g i) /\
  is_rns ms L ntt (rns_sub a b ms) (fun i => f i - g i) /\
  is_rns ms L ntt (rns_neg a ms) (fun i => - f i) /\ is_rns ms L ntt (rns_neg_in_place a ms) (fun i => - f i).
Proof.
  intros k L ms ntt a b f g OK Ha Hb.
  exact (conj (rns_add_is k L ms OK ntt a b f g Ha Hb) (conj (rns_sub_is k L ms OK ntt a b f g Ha Hb)
    (conj (rns_neg_copy k L ms OK ntt a f Ha) (rns_neg_is k L ms OK ntt a f Ha)))).
Qed.

(** Multiplication by a word and by an RNS integer, in either form. *)
Theorem C50_scalar_mul :
  forall k L ms ntt a f, moduli_ok k L ms -> rns_is ms L ntt a f ->
  (forall s, 0 <= s < 2 ^ k -> is_rns ms L ntt (rns_mul_scalar a s ms) (fun i => s * f i)) /\
  (forall z s, residues ms z s -> is_rns ms L ntt (rns_mul_rnsint a z ms) (fun i => s * f i)).
Proof.
  intros k L ms ntt a f OK Ha. split.
  - intros s Hs. apply (rns_mul_scalar_is k L ms OK ntt a f s Ha Hs).
  - intros z s Hz. apply (rns_mul_rnsint_is k L ms OK ntt a f z s Ha Hz).
Qed.

(** Multiplication in Z_Q[X]/(X^N+1), in NTT form. *)
Theorem C50_mul :
  forall k L ms a b f g, moduli_ok k L ms -> rns_is ms L true a f -> rns_is ms L true b g ->
  is_rns ms L true (rns_mul a b ms) (negacyclic (2 ^ L) f g).
Proof. intros k L ms a b f g OK. exact (rns_mul_is k L ms OK a b f g). Qed.

Theorem C50_fused_mul_add :
  forall k L ms x a b h f g, k <> 16 -> moduli_ok k L ms -> rns_is ms L true x h -> rns_is ms L true a f -> rns_is ms L true b g ->
  is_rns ms L true (rns_fused_mul_add x a b ms) (fun i => h i + negacyclic (2 ^ L) f g i).
Proof. intros k L ms x a b h f g Hk OK. exact (rns_fused_is k L ms OK x a b h f g Hk). Qed.

(** Operands or moduli lists of the wrong length are rejected. *)
Theorem C50_errors :
  forall a b ms, length ms <> length (rp_vs a) ->
  (forall r, r = rns_add a b ms \/ r = rns_sub a b ms \/ r = rns_neg_in_place a ms \/ r = rns_mul_scalar a 0 ms -> r = Err InvalidArgument) /\
  (length (rp_vs b) <> length (rp_vs a) -> forall ms', rns_add a b ms' = Err InvalidArgument /\ rns_sub a b ms' = Err InvalidArgument).
Proof.
  intros a b ms N. assert (E : @same_len pmod (list Z) ms (rp_vs a) = false) by (apply Nat.eqb_neq; exact N). split.
  - intros r H. unfold rns_add, rns_sub, rns_neg_in_place, rns_mul_scalar in H. rewrite E in H. cbn [negb] in H.
    destruct (same_len (rp_vs b) (rp_vs a)); cbn [negb] in H; intuition congruence.
  - intros N2 ms'. assert (E2 : @same_len (list Z) (list Z) (rp_vs b) (rp_vs a) = false) by (apply Nat.eqb_neq; exact N2).
    unfold rns_add, rns_sub. rewrite E2. auto.
Qed.

(** Negate, unlike NegateInPlace, does not report a wrong number of moduli: it
    returns the unchanged polynomial. *)
Theorem C50_negate_reports_errors_refuted :
  ~ (forall a ms, length ms <> length (rp_vs a) -> exists e, rns_neg a ms = Err e).
Proof.
  intros H. destruct (H {| rp_logn := 1; rp_vs := [[1; 2]]; rp_ntt := true |} [] ltac:(discriminate)) as [e E]. discriminate.
Qed.

(** Adding polynomials in different forms is accepted: is_ntt of the second
    operand is not looked at. *)
Theorem C50_mixed_forms_accepted :
  forall k L ms a b f g ntt ntt', moduli_ok k L ms -> rns_is ms L ntt a f -> rns_is ms L ntt' b g ->
  exists c, rns_add a b ms = Ok c /\ rp_ntt c = ntt.
Proof.
  intros k L ms a b f g ntt ntt' OK Ha Hb.
  pose proof (rns_len _ _ _ _ _ Ha) as La. pose proof (rns_len _ _ _ _ _ Hb) as Lb.
  destruct Ha as (A1 & A2 & Ha). destruct Hb as (B1 & B2 & Hb).
  assert (Pa : rns_poly ms L a).
  { split; [exact A1|]. clear -Ha. induction Ha; constructor; [apply H|assumption]. }
  assert (Pb : rns_poly ms L b) by (split; [exact B1|]; clear -Hb; induction Hb; constructor; [apply H|assumption]).
  unfold rns_add. rewrite !same_len_eq by congruence.
  destruct Pa as [_ Pa]. destruct Pb as [_ Pb].
  assert (G : exists vs, each2 batch_add ms (rp_vs a) (rp_vs b) = Ok vs).
  { revert Pb. generalize (rp_vs b) as ws. clear -OK Pa. revert OK. induction Pa as [|m v ms vs Hv F IH]; intros OK ws Pb.
    - inversion Pb; subst. exists []. reflexivity.
    - inversion Pb as [|? w ? ws' Hw Fw]; subst. inversion OK as [|? ? O Ot]; subst. destruct (IH Ot ws' Fw) as [r E].
      unfold each2 in *. cbn [combine map2 seqr fst snd]. 
      assert (EB : exists y, batch_add (pm_p m) v w = Ok y).
      { unfold batch_add. rewrite (proj2 (same_len_spec v w) (eq_trans (proj1 Hv) (eq_sym (proj1 Hw)))). eexists. reflexivity. }
      destruct EB as [y Ey]. rewrite Ey. cbn [bind]. rewrite E. eexists. reflexivity. }
  destruct G as [vs E]. rewrite E. cbn [bind]. eexists. split; [reflexivity|]. exact A2.
Qed.

(** ** C51 *)

(** Conversion between the forms keeps the polynomial. *)
Theorem C51_forms :
  forall k L ms a f, moduli_ok k L ms ->
  (rns_is ms L false a f -> is_rns ms L true (rns_to_ntt a ms) f) /\
  (rns_is ms L true a f -> is_rns ms L false (rns_to_coeff a ms) f).
Proof. intros k L ms a f OK. exact (conj (rns_to_ntt_is k L ms OK a f) (rns_to_coeff_is k L ms OK a f)). Qed.

(** Substitute(a, power) is a(X^power). *)
Theorem C51_substitute :
  forall k L ms a f power, moduli_ok k L ms -> rns_is ms L true a f -> 0 < power < 2 * 2 ^ Z.of_nat L -> Z.odd power = true ->
  is_rns ms L true (rns_substitute a power ms) (substituted (2 ^ L) (Z.to_nat power) f).
Proof.
  intros k L ms a f power OK Ha Hp Ho. apply (rns_substitute_is k L ms OK); try assumption.
  rewrite (Nat2Z.inj_pow 2 L). exact Hp.
Qed.

Theorem C51_zero_one :
  forall k L ms, moduli_ok k L ms -> ms <> [] ->
  (forall ntt, is_rns ms L ntt (rns_zero (Z.of_nat L) ms ntt) (fun _ => 0)) /\
  is_rns ms L true (rns_one (Z.of_nat L) ms) (pconst 1).
Proof. intros k L ms OK NE. exact (conj (fun ntt => rns_zero_is k L ms OK ntt NE) (rns_one_is k L ms OK NE)). Qed.

(** From coefficients modulo any q: the representatives in [0, q), resp. the
    centred ones. *)
Theorem C51_convert :
  forall k L ms q pq v, moduli_ok k L ms -> ms <> [] -> params_for k q pq -> length v = (2 ^ L)%nat -> Forall (stored pq) v ->
  is_rns ms L true (rns_convert v pq ms) (fun i => export_int pq (nth i v 0)) /\
  is_rns ms L true (rns_convert_balanced v pq ms) (fun i => centered q (export_int pq (nth i v 0))).
Proof.
  intros k L ms q pq v OK NE P Lv Sv.
  exact (conj (convert_is k L ms OK NE q pq v P Lv Sv) (convert_balanced_is k L ms OK NE q pq v P Lv Sv)).
Qed.

(** Create accepts exactly non-empty lists of vectors of the same power-of-two
    length. *)
Theorem C51_create :
  forall vs ntt a, rns_create vs ntt = Ok a <->
  exists L, vs <> [] /\ Forall (fun v => length v = 2 ^ L)%nat vs /\ a = {| rp_logn := L; rp_vs := vs; rp_ntt := ntt |}.
Proof. exact create_iff. Qed.

(** A sampled polynomial is well formed and in NTT form. *)
Theorem C51_sample_uniform :
  forall k L ms R fuel s a s', moduli_ok k L ms -> ms <> [] ->
  rns_sample_uniform R fuel (Z.of_nat L) ms s = Ok (a, s') -> rns_poly ms L a /\ rp_ntt a = true.
Proof. intros k L ms R fuel s a s' OK NE. exact (sample_ok k L ms OK NE R fuel s a s'). Qed.

(** ** C52 *)
Theorem C52_round_trip :
  forall k L ms a, moduli_ok k L ms -> ms <> [] -> rns_poly ms L a ->
  exists s, rns_serialize a ms = Ok s /\ rns_deserialize s ms = Ok a.
Proof. intros k L ms a OK NE. exact (serialize_ok k L ms OK NE a). Qed.

(** What Deserialize accepts is well formed: one vector for each modulus, all of
    length 2^log_n. *)
Theorem C52_deserialize_shape :
  forall s ms a, rns_deserialize s ms = Ok a ->
  0 < srp_logn s /\ length (rp_vs a) = length ms /\ rp_ntt a = srp_ntt s /\ Forall (fun v => length v = 2 ^ rp_logn a)%nat (rp_vs a).
Proof.
  intros s ms a. unfold rns_deserialize. destruct (Z.leb_spec (srp_logn s) 0); [discriminate|].
  destruct (same_len (srp_vs s) ms) eqn:SL; [|discriminate]. cbn [negb]. apply same_len_spec in SL.
  destruct (shl_int (srp_logn s)) as [n| |]; try discriminate. cbn [bind].
  destruct (seqr (map2 (fun m b => mdeserialize_vector (pm_p m) (Z.of_nat n) b) ms (srp_vs s))) as [vs| |] eqn:E; try discriminate.
  cbn [bind]. intros H1. apply create_iff in H1. destruct H1 as (L & NE & F & ->). cbn [rp_vs rp_logn rp_ntt].
  assert (LV : length vs = length ms).
  { clear -E SL. revert vs E. generalize dependent (srp_vs s). induction ms as [|m ms IH]; intros bs SL vs E.
    - destruct bs; [|discriminate]. cbn in E. injection E as <-. reflexivity.
    - destruct bs as [|b bs]; [discriminate|]. cbn [map2 seqr] in E. destruct (mdeserialize_vector (pm_p m) (Z.of_nat n) b); try discriminate. cbn [bind] in E.
      destruct (seqr (map2 (fun m b => mdeserialize_vector (pm_p m) (Z.of_nat n) b) ms bs)) as [ws| |] eqn:E2; try discriminate. cbn [bind] in E. injection E as <-.
      cbn. f_equal. apply (IH bs); [cbn in SL; lia|exact E2]. }
  auto.
Qed.

Theorem C52_errors :
  forall s ms, srp_logn s <= 0 \/ length (srp_vs s) <> length ms -> rns_deserialize s ms = Err InvalidArgument.
Proof.
  intros s ms H. unfold rns_deserialize. destruct (Z.leb_spec (srp_logn s) 0); [reflexivity|].
  destruct H as [H|H]; [lia|]. rewrite same_len_neq by exact H. reflexivity.
Qed.

(** A message with log_n >= 31 is not rejected: 1 << log_n overflows. *)
Theorem C52_deserialize_total_refuted :
  ~ (forall s ms, rns_deserialize s ms <> UB).
Proof. intros H. apply (H {| srp_logn := 31; srp_vs := []; srp_ntt := true |} []). reflexivity. Qed.

(** ** C53 *)

(** ModReduceLsb drops the last prime q_l and maps f to
    (r f + t [k f]_q_l) / q_l with q_l = k t + r: an exact quotient, congruent
    to f modulo t when q_l is coprime to t, and within t/2 of (r/q_l) f. *)
Theorem C53_mod_reduce_lsb :
  forall k L ms ml ntt a f inv t, moduli_ok k L ms -> mod_ok k L ml -> ms <> [] -> inverses ms inv (modulus ml) ->
  rns_is (ms ++ [ml]) L ntt a f -> 0 < t < 2 ^ k ->
  exists g, is_rns ms L ntt (rns_mod_reduce_lsb a t inv (ms ++ [ml])) g /\
  forall i, (i < 2 ^ L)%nat ->
    modulus ml * g i = (modulus ml mod t) * f i + t * centered (modulus ml) (modulus ml / t * f i) /\
    (Z.gcd (modulus ml) t = 1 -> (g i - f i) mod t = 0) /\
    2 * Z.abs (modulus ml * g i - (modulus ml mod t) * f i) <= t * modulus ml.
Proof.
  intros k L ms ml ntt a f inv t OK O NE HI Ha Ht. set (q := modulus ml).
  pose proof (ok_q k L ml O) as Q1. fold q in Q1.
  pose proof (Z_div_mod_eq_full q t) as ED.
  set (x := fun i => (q mod t) * f i + t * centered q (q / t * f i)).
  assert (DV : forall i, (q | x i)) by (intros i; apply reduce_divides; lia).
  set (g := fun i => x i / q).
  assert (EG : forall i, x i = q * g i) by (intros i; unfold g; apply Z_div_exact_full_2; [lia|apply Z.mod_divide; [lia|apply DV]]).
  exists g. destruct (inverses_words k L ms inv q OK HI) as [HW HC]. split.
  - apply (lsb_ok k L ms ml OK O NE inv (fun m => zinv (modulus m) q) HC HW ntt a f t Ha Ht g).
    intros i Hi. apply (EG i).
  - intros i Hi. split; [symmetry; apply EG|]. split.
    + intros G. apply Z.mod_divide; [lia|]. apply (Gauss t q); [|apply Zgcd_1_rel_prime; rewrite Z.gcd_comm; exact G].
      exists (centered q (q / t * f i) - q / t * f i). specialize (EG i). unfold x in EG.
      replace (q * (g i - f i)) with (q * g i - q * f i) by ring. rewrite <- EG.
      assert (QF : q * f i = (t * (q / t) + q mod t) * f i) by (rewrite <- ED; reflexivity). rewrite QF. ring.
    + rewrite <- EG. unfold x. replace ((q mod t) * f i + t * centered q (q / t * f i) - (q mod t) * f i) with (t * centered q (q / t * f i)) by ring.
      pose proof (centered_fits q (q / t * f i) ltac:(lia)) as F. unfold fits in F. rewrite Z.abs_mul. nia.
Qed.

(** ModReduceMsb drops the last prime and maps f to (f - [f]_q_l) / q_l, the
    integer nearest to f / q_l. *)
Theorem C53_mod_reduce_msb :
  forall k L ms ml ntt a f inv, moduli_ok k L ms -> mod_ok k L ml -> ms <> [] -> inverses ms inv (modulus ml) ->
  rns_is (ms ++ [ml]) L ntt a f ->
  exists g, is_rns ms L ntt (rns_mod_reduce_msb a inv (ms ++ [ml])) g /\
  forall i, (i < 2 ^ L)%nat -> 2 * Z.abs (modulus ml * g i - f i) <= modulus ml.
Proof.
  intros k L ms ml ntt a f inv OK O NE HI Ha. set (q := modulus ml).
  pose proof (ok_q k L ml O) as Q1. fold q in Q1.
  set (g := fun i => (f i - centered q (f i)) / q).
  assert (EG : forall i, f i - centered q (f i) = q * g i).
  { intros i. unfold g. apply Z_div_exact_full_2; [lia|]. apply Z.mod_divide; [lia|]. destruct (centered_cong q (f i)) as [y Ey]. exists (- y). lia. }
  exists g. destruct (inverses_words k L ms inv q OK HI) as [HW HC]. split.
  - apply (msb_ok k L ms ml OK O NE inv (fun m => zinv (modulus m) q) HC HW ntt a f Ha g). intros i Hi. apply (EG i).
  - intros i Hi. rewrite <- EG. pose proof (centered_fits q (f i) ltac:(lia)) as F. unfold fits in F. lia.
Qed.

(** the last prime cannot be dropped, and mismatched lengths are rejected *)
Theorem C53_errors :
  forall a t inv ms, length ms <> length (rp_vs a) \/ (length (rp_vs a) <= 1)%nat \/ S (length inv) <> length (rp_vs a) ->
  rns_mod_reduce_lsb a t inv ms = Err InvalidArgument /\ rns_mod_reduce_msb a inv ms = Err InvalidArgument.
Proof.
  intros a t inv ms H. unfold rns_mod_reduce_lsb, rns_mod_reduce_msb.
  destruct (same_len ms (rp_vs a)) eqn:E; [|auto]. apply same_len_spec in E. cbn [negb].
  destruct (Nat.leb_spec (length (rp_vs a)) 1); [auto|].
  destruct (Nat.eqb_spec (length inv) (length (rp_vs a) - 1)); [|auto]. exfalso. lia.
Qed.

(** ** Examples: degree 8, primes 97, 193, 17 *)
Definition f8 : list Z := [1; 2; 3; 100; 20000; 0; 7; 318256].
Definition g8 : list Z := [5; 0; 0; 1; 0; 12; 0; 3].

Example C50_example :
  moduli_ok 32 3 ex_qs /\ distinct ex_qs /\
  (do! a <- ex_poly ex_qs f8; ex_view ex_qs (Ok a)) = res ex_qs f8 /\
  ex_view ex_qs (do! a <- ex_poly ex_qs f8; do! b <- ex_poly ex_qs g8; rns_add a b ex_qs) = res ex_qs (map2 Z.add f8 g8) /\
  ex_view ex_qs (do! a <- ex_poly ex_qs f8; do! b <- ex_poly ex_qs g8; rns_mul a b ex_qs) =
    res ex_qs (map (negacyclic 8 (fun i => nth i f8 0) (fun i => nth i g8 0)) (seq 0 8)).
Proof.
  split; [apply ex_ok|]. split; [apply ex_distinct|]. split; [vm_compute; reflexivity|]. split; vm_compute; reflexivity.
Qed.

Example C51_example :
  ex_view ex_qs (do! a <- ex_poly ex_qs f8; rns_substitute a 5 ex_qs) =
    res ex_qs (map (substituted 8 5 (fun i => nth i f8 0)) (seq 0 8)) /\
  ex_view ex_qs (rns_one 3 ex_qs) = res ex_qs [1; 0; 0; 0; 0; 0; 0; 0].
Proof. split; vm_compute; reflexivity. Qed.

Example C52_example :
  (do! a <- ex_poly ex_qs f8; do! s <- rns_serialize a ex_qs; rns_deserialize s ex_qs) = ex_poly ex_qs f8 /\
  match ex_poly ex_qs f8 with Ok _ => True | _ => False end.
Proof. split; vm_compute; [reflexivity|exact I]. Qed.

Definition ex_inv17 : list Z := map (fun m => mult_inverse (pm_p m) (import_int (pm_p m) 17)) (firstn 2 ex_qs).

Example C53_example :
  forallb (fun mw => (export_int (pm_p (fst mw)) (snd mw) * 17) mod modulus (fst mw) =? 1) (combine (firstn 2 ex_qs) ex_inv17) = true /\
  ex_view (firstn 2 ex_qs) (do! a <- ex_poly ex_qs f8; rns_mod_reduce_lsb a 5 ex_inv17 ex_qs) =
    res (firstn 2 ex_qs) (map (fun x => (2 * x + 5 * centered 17 (3 * x)) / 17) f8) /\
  ex_view (firstn 2 ex_qs) (do! a <- ex_poly ex_qs f8; rns_mod_reduce_msb a ex_inv17 ex_qs) =
    res (firstn 2 ex_qs) (map (fun x => (x - centered 17 x) / 17) f8).
Proof. split; [|split]; vm_compute; reflexivity. Qed.

Print Assumptions C50_representation.
Print Assumptions C50_add_sub_neg.
Print Assumptions C50_scalar_mul.
Print Assumptions C50_mul.
Print Assumptions C50_fused_mul_add.
Print Assumptions C50_errors.
Print Assumptions C50_negate_reports_errors_refuted.
Print Assumptions C50_mixed_forms_accepted.
Print Assumptions C51_forms.
Print Assumptions C51_substitute.
Print Assumptions C51_zero_one.
Print Assumptions C51_convert.
Print Assumptions C51_create.
Print Assumptions C51_sample_uniform.
Print Assumptions C52_round_trip.
Print Assumptions C52_deserialize_shape.
Print Assumptions C52_errors.
Print Assumptions C52_deserialize_total_refuted.
Print Assumptions C53_mod_reduce_lsb.
Print Assumptions C53_mod_reduce_msb.
Print Assumptions C53_errors.
