(** C54-C56: switching an RNS polynomial to another basis, exactly and
    approximately, and dividing by the product of the auxiliary primes. *)
From Coq Require Import Znumtheory QArith.
From Verif Require Import Base FinSum PolySpec Ring Montgomery MontBatch Ntt Poly MontgomeryProofs MontBatchProofs Spec ArithFacts
  PrimeCheck PolyView NttFacts RnsPoly RnsSpec RnsCtx CrtMath RnsSub RnsProofs RnsReduce RnsBasis RnsBasis2 RnsMore RnsFloat RnsCtxSpec RnsCtxProofs RnsCtxFacts ThmRnsCtx RnsExample.
Local Open Scope Z_scope.

(** ** C54 *)

(** ApproxSwitchRnsBasis returns a polynomial congruent to the input modulo Q,
    whose distance from the reduced one is a small multiple of Q: in
    [0, #qs * Q), or at most #qs * Q / 2 in absolute value in balanced form. *)
Theorem C54_approx_switch :
  forall k L qs ps hat_inv hat_mod ntt a f balanced,
  moduli_ok k L qs -> moduli_ok k L ps -> distinct qs -> ps <> [] -> qs <> [] ->
  hat_inverses qs hat_inv -> hat_residues qs ps hat_mod -> length hat_mod = length qs ->
  rns_is qs L ntt a f ->
  exists g, is_rns ps L false (rns_approx_switch a qs ps hat_inv hat_mod balanced) g /\
  forall i, (i < 2 ^ L)%nat -> (g i - f i) mod big_q qs = 0 /\
    if balanced then 2 * Z.abs (g i) <= Z.of_nat (length qs) * big_q qs
    else 0 <= g i < Z.of_nat (length qs) * big_q qs.
Proof.
  intros k L qs ps hat_inv hat_mod ntt a f balanced OKq OKp DI NEp NEq HI HR LH Ha.
  exists (fun i => approx_value qs balanced (f i)). split; [apply (approx_ok k L qs ps OKq OKp DI hat_inv hat_mod HI HR NEp ntt a f balanced Ha LH)|].
  intros i Hi. pose proof (big_q_pos k L qs OKq) as PQ. split.
  - apply Z.mod_divide; [lia|]. apply (approx_cong k L qs OKq DI balanced (f i)).
  - destruct balanced; [apply (approx_abs k L qs OKq)|apply (approx_range k L qs OKq (f i) NEq)].
Qed.

(** ** C55 *)

(** SwitchRnsBasis is exact: the result represents the centred representative
    modulo Q of the input, provided that the floating-point quotient rounds to
    the nearest integer. *)
Theorem C55_switch :
  forall k L D qs ps hat_inv hat_mod q_mod a f u,
  moduli_ok k L qs -> moduli_ok k L ps -> distinct qs -> ps <> [] ->
  hat_inverses qs (firstn (length qs) hat_inv) -> hat_residues qs ps hat_mod -> (length qs <= length hat_mod)%nat ->
  residues ps q_mod (big_q qs) -> rns_is qs L false a f ->
  (forall i, (i < 2 ^ L)%nat -> rounds_to D k qs (f i) (u i) /\ nearest qs (f i) (u i)) ->
  is_rns ps L false (rns_switch_basis D a qs ps hat_inv hat_mod q_mod) (fun i => centered (big_q qs) (f i)).
Proof.
  intros k L D qs ps hat_inv hat_mod q_mod a f u OKq OKp DI NEp HI HR LH HQ Ha Hu.
  destruct (switch_ok k L qs ps D OKq OKp DI NEp hat_inv HI hat_mod q_mod a f u HR LH HQ Ha (fun i Hi => proj1 (Hu i Hi))) as (c & E & Hc).
  exists c. split; [exact E|]. apply (rns_ext_eq k L ps OKp _ _ _ _ Hc). intros i Hi. cbv beta.
  apply (nearest_centered k L qs OKq DI); [apply (big_q_odd k L qs OKq)|apply (Hu i Hi)].
Qed.

(** With the constants of a context, from the primes of any level to the
    auxiliary primes. *)
Theorem C55_switch_with_context :
  forall k log_n qs ps t c D l a f u,
  ctx_args k qs ps t -> ctx_made k log_n qs ps t c -> (l < length qs)%nat -> ps <> [] ->
  rns_is (at_level c l) (Z.to_nat log_n) false a f ->
  (forall i, (i < 2 ^ Z.to_nat log_n)%nat -> rounds_to D k (at_level c l) (f i) (u i) /\ nearest (at_level c l) (f i) (u i)) ->
  exists hat_inv hat_mod q_mod,
    main_crt_factors c (Z.of_nat l) = Ok hat_inv /\ main_complement_residues c (Z.of_nat l) = Ok hat_mod /\
    main_leveled_aux_residues c (Z.of_nat l) = Ok q_mod /\
    is_rns (rc_ps c) (Z.to_nat log_n) false (rns_switch_basis D a (at_level c l) (rc_ps c) hat_inv hat_mod q_mod)
      (fun i => centered (big_q (at_level c l)) (f i)).
Proof.
  intros k log_n qs ps t c D l a f u A M HL NEp Ha Hu.
  destruct (C49_levels k log_n qs ps t c l A M HL) as (_ & (ws & E1 & H1) & (rows & E2 & H2) & (z & E3 & H3) & _).
  destruct (made_ok _ _ _ _ _ _ A M) as (_ & _ & _ & Mq & Mp & Oq & Op & DI & _).
  exists ws, rows, z. split; [exact E1|]. split; [exact E2|]. split; [exact E3|].
  pose proof (Forall2_len _ _ _ H1) as L1. pose proof (Forall2_len _ _ _ H2) as L2.
  apply (C55_switch k _ D (at_level c l) (rc_ps c) ws rows z a f u).
  - apply ForallFirstn, Oq.
  - exact Op.
  - unfold at_level, distinct, moduli. rewrite <- firstn_map. unfold distinct, moduli in DI. rewrite map_app in DI.
    apply nodup_app2 in DI. destruct DI as [DI _]. rewrite <- (firstn_skipn (S l)) in DI. apply nodup_app2 in DI. apply DI.
  - intros E. apply NEp. rewrite <- Mp, E. reflexivity.
  - rewrite firstn_all2 by lia. exact H1.
  - unfold hat_residues. rewrite firstn_all2 by lia.
    eapply Forall2_imp; [exact H2|]. intros m r _ Hr. cbv beta in *. rewrite firstn_all2; [exact Hr|]. rewrite (Forall2_len _ _ _ Hr). lia.
  - lia.
  - exact H3.
  - exact Ha.
  - exact Hu.
Qed.

(** Rounding errors: when every floating-point operation has relative error at
    most eps (2^-53 for doubles), the condition of C55_switch holds for all
    coefficients whose centred value is below Q (1/2 - eps n (n + 6)) in
    absolute value, n being the number of primes. *)
Theorem C55_rounding :
  forall k L D val eps ms x, float_model D val eps -> moduli_ok k L ms -> distinct ms ->
  let n := Z.of_nat (length ms) in
  let err := (eps * inject_Z (n * (n + 6)))%Q in
  (eps <= 1 # 16)%Q -> (err <= 1 # 2)%Q -> 0 < k -> n < 2 ^ k ->
  (inject_Z (Z.abs (centered (big_q ms) x)) < ((1 # 2) - err) * inject_Z (big_q ms))%Q ->
  exists u, rounds_to D k ms x u /\ nearest ms x u.
Proof. intros k L D val eps ms x FM OK DI n err He Herr Hk Hn Hx. exact (float_nearest D val eps FM k L ms OK DI x He Herr Hk Hn Hx). Qed.

(** ** C56 *)

(** ExtendRnsBasis: the centred representative, over the old and new primes. *)
Theorem C56_extend :
  forall k L D qs ps hat_inv hat_mod q_mod a f u,
  moduli_ok k L qs -> moduli_ok k L ps -> distinct qs -> ps <> [] ->
  hat_inverses qs (firstn (length qs) hat_inv) -> hat_residues qs ps hat_mod -> (length qs <= length hat_mod)%nat ->
  residues ps q_mod (big_q qs) -> rns_is qs L false a f ->
  (forall i, (i < 2 ^ L)%nat -> rounds_to D k qs (f i) (u i) /\ nearest qs (f i) (u i)) ->
  is_rns (qs ++ ps) L false (rns_extend_basis D a qs ps hat_inv hat_mod q_mod) (fun i => centered (big_q qs) (f i)).
Proof.
  intros k L D qs ps hat_inv hat_mod q_mod a f u OKq OKp DI NEp HI HR LH HQ Ha Hu.
  destruct (extend_ok k L qs ps D OKq OKp DI NEp hat_inv hat_mod q_mod a f u HI HR LH HQ Ha (fun i Hi => proj1 (Hu i Hi))) as (c & E & Hc).
  exists c. split; [exact E|]. apply (rns_ext_eq k L (qs ++ ps) (proj2 (Forall_app _ _ _) (conj OKq OKp)) _ _ _ _ Hc). intros i Hi. cbv beta.
  apply (nearest_centered k L qs OKq DI); [apply (big_q_odd k L qs OKq)|apply (Hu i Hi)].
Qed.

(** ScaleAndReduceRnsBasis: t f / P rounded to the nearest integer, over the
    main primes. *)
Theorem C56_scale_and_reduce :
  forall k L D qs ps hat_inv hat_mod p_mod p_inv t ntt ntt' a aux f u,
  moduli_ok k L qs -> moduli_ok k L ps -> distinct ps -> qs <> [] -> ps <> [] ->
  hat_inverses ps (firstn (length ps) hat_inv) -> hat_residues ps qs hat_mod -> (length ps <= length hat_mod)%nat ->
  residues qs p_mod (big_q ps) -> inverses qs p_inv (big_q ps) -> 0 <= t < 2 ^ k ->
  rns_is qs L ntt a f -> rns_is ps L ntt' aux f ->
  (forall i, (i < 2 ^ L)%nat -> rounds_to D k ps (t * f i) (u i) /\ nearest ps (t * f i) (u i)) ->
  exists g, is_rns qs L ntt (rns_scale_and_reduce D a aux t qs ps hat_inv hat_mod p_mod p_inv) g /\
  forall i, (i < 2 ^ L)%nat -> 2 * Z.abs (big_q ps * g i - t * f i) <= big_q ps.
Proof.
  intros k L D qs ps hat_inv hat_mod p_mod p_inv t ntt ntt' a aux f u OKq OKp DI NEq NEp HI HR LH HP HV Ht Ha Hb Hu.
  set (P := big_q ps). pose proof (big_q_pos k L ps OKp) as PP. fold P in PP.
  set (g := fun i => (t * f i - centered P (t * f i)) / P).
  assert (EG : forall i, P * g i = t * f i - centered P (t * f i)).
  { intros i. unfold g. symmetry. apply Z_div_exact_full_2; [lia|]. apply Z.mod_divide; [lia|]. destruct (centered_cong P (t * f i)) as [y Ey]. exists (- y). lia. }
  exists g. split.
  - apply (scale_reduce_ok k L qs ps D OKq OKp DI NEq hat_inv hat_mod p_mod p_inv t ntt ntt' a aux f u); try assumption.
    + intros i Hi. apply (Hu i Hi).
    + intros i Hi. fold P. rewrite EG. f_equal. symmetry. apply (nearest_centered k L ps OKp DI); [apply (big_q_odd k L ps OKp)|apply (Hu i Hi)].
  - intros i Hi. rewrite EG. pose proof (centered_fits P (t * f i) PP) as F. unfold fits in F. lia.
Qed.

(** ScaleAndSwitchRnsBasis: P f / Q rounded to the nearest integer, over the
    new primes. *)
Theorem C56_scale_and_switch :
  forall k L D qs ps hat_inv invs p_mod a f u,
  moduli_ok k L qs -> moduli_ok k L ps -> distinct qs -> distinct (qs ++ ps) -> ps <> [] ->
  hat_inverses qs (firstn (length qs) hat_inv) -> 
  Forall2 (fun p z => Forall2 (fun q w => stored (pm_p p) w /\ (export_int (pm_p p) w * modulus q) mod modulus p = 1)
     qs (firstn (length qs) z)) ps invs ->
  residues qs (firstn (length qs) p_mod) (big_q ps) ->
  rns_is qs L false a f ->
  (forall i, (i < 2 ^ L)%nat -> rounds_to D k qs (big_q ps * f i) (u i) /\ nearest qs (big_q ps * f i) (u i)) ->
  exists g, is_rns ps L false (rns_scale_and_switch D a qs ps hat_inv invs p_mod) g /\
  forall i, (i < 2 ^ L)%nat -> 2 * Z.abs (big_q qs * g i - big_q ps * f i) <= big_q qs.
Proof.
  intros k L D qs ps hat_inv invs p_mod a f u OKq OKp DI DA NEp HI HV HP Ha Hu.
  set (Q := big_q qs). pose proof (big_q_pos k L qs OKq) as PQ. fold Q in PQ. set (P := big_q ps) in *.
  set (g := fun i => (P * f i - centered Q (P * f i)) / Q).
  assert (EG : forall i, Q * g i = P * f i - centered Q (P * f i)).
  { intros i. unfold g. symmetry. apply Z_div_exact_full_2; [lia|]. apply Z.mod_divide; [lia|]. destruct (centered_cong Q (P * f i)) as [y Ey]. exists (- y). lia. }
  exists g. split.
  - apply (scale_switch_ok k L qs ps D OKq OKp DI NEp hat_inv HI invs p_mod a f u g HV); try assumption.
    + intros q pj Iq Ip E. unfold distinct, moduli in DA. rewrite map_app in DA.
      assert (G : forall (a b : list Z) x, NoDup (a ++ b) -> In x a -> In x b -> False).
      { induction a0 as [|y a0 IH]; intros b x N Ia Ib; [contradiction|]. cbn [app] in N. inversion N as [|? ? N1 N2]; subst.
        destruct Ia as [->|Ia]; [apply N1, in_or_app; right; exact Ib|apply (IH b x); assumption]. }
      apply (G _ _ (modulus q) DA); [apply in_map, Iq|rewrite E; apply in_map, Ip].
    + intros i Hi. apply (Hu i Hi).
    + intros i Hi. fold Q P. rewrite EG. f_equal. symmetry. apply (nearest_centered k L qs OKq DI); [apply (big_q_odd k L qs OKq)|apply (Hu i Hi)].
  - intros i Hi. rewrite EG. pose proof (centered_fits Q (P * f i) PQ) as F. unfold fits in F. lia.
Qed.

(** ApproxModReduceMsb: f / P up to an error below #ps. *)
Theorem C56_approx_mod_reduce_msb :
  forall k L qs ps hat_inv hat_mod p_inv ntt ntt' a aux f,
  moduli_ok k L qs -> moduli_ok k L ps -> distinct ps -> qs <> [] -> ps <> [] ->
  hat_inverses ps hat_inv -> hat_residues ps qs hat_mod -> length hat_mod = length ps -> inverses qs p_inv (big_q ps) ->
  rns_is qs L ntt a f -> rns_is ps L ntt' aux f ->
  exists g, is_rns qs L true (rns_approx_reduce_msb a aux qs ps p_inv hat_inv hat_mod) g /\
  forall i, (i < 2 ^ L)%nat -> 0 <= f i - big_q ps * g i < Z.of_nat (length ps) * big_q ps.
Proof.
  intros k L qs ps hat_inv hat_mod p_inv ntt ntt' a aux f OKq OKp DI NEq NEp HI HR LH HV Ha Hb.
  set (P := big_q ps). pose proof (big_q_pos k L ps OKp) as PP. fold P in PP.
  set (g := fun i => (f i - approx_value ps false (f i)) / P).
  assert (EG : forall i, P * g i = f i - approx_value ps false (f i)).
  { intros i. unfold g. symmetry. apply Z_div_exact_full_2; [lia|]. apply Z.mod_divide; [lia|].
    destruct (approx_cong k L ps OKp DI false (f i)) as [y Ey]. fold P in Ey. exists (- y). lia. }
  exists g. split.
  - apply (approx_msb_ok k L qs ps OKq OKp DI NEq hat_inv hat_mod p_inv HI HR LH HV ntt ntt' a aux f g Ha Hb). intros i Hi. apply EG.
  - intros i Hi. rewrite EG. replace (f i - (f i - approx_value ps false (f i))) with (approx_value ps false (f i)) by ring.
    apply (approx_range k L ps OKp (f i) NEp).
Qed.

(** ApproxModReduceLsb: congruent to f modulo t, and (P mod t) f / P up to an
    error of t #ps / 2. *)
Theorem C56_approx_mod_reduce_lsb :
  forall k L qs ps hat_inv hat_mod p_inv t_inv t ntt ntt' a aux f,
  moduli_ok k L qs -> moduli_ok k L ps -> distinct ps -> qs <> [] -> ps <> [] ->
  hat_inverses ps hat_inv -> hat_residues ps qs hat_mod -> length hat_mod = length ps -> inverses qs p_inv (big_q ps) ->
  inverses ps t_inv t -> 0 < t < 2 ^ k ->
  rns_is qs L ntt a f -> rns_is ps L ntt' aux f ->
  exists g, is_rns qs L true (rns_approx_reduce_lsb a aux qs ps p_inv hat_inv hat_mod t_inv (big_q ps mod t) t) g /\
  forall i, (i < 2 ^ L)%nat ->
    (Z.gcd (big_q ps) t = 1 -> (g i - f i) mod t = 0) /\
    2 * Z.abs (big_q ps * g i - (big_q ps mod t) * f i) <= t * Z.of_nat (length ps) * big_q ps.
Proof.
  intros k L qs ps hat_inv hat_mod p_inv t_inv t ntt ntt' a aux f OKq OKp DI NEq NEp HI HR LH HV HT Ht Ha Hb.
  set (P := big_q ps). pose proof (big_q_pos k L ps OKp) as PP. fold P in PP.
  pose proof (Z_div_mod_eq_full P t) as ED.
  set (v := fun i => approx_value ps true (P / t * f i)).
  set (g := fun i => ((P mod t) * f i + t * v i) / P).
  assert (EG : forall i, P * g i = (P mod t) * f i + t * v i).
  { intros i. unfold g. symmetry. apply Z_div_exact_full_2; [lia|]. apply Z.mod_divide; [lia|].
    destruct (approx_cong k L ps OKp DI true (P / t * f i)) as [y Ey]. fold P in Ey. exists (f i + t * y).
    unfold v. replace (approx_value ps true (P / t * f i)) with (P / t * f i + y * P) by lia.
    transitivity ((t * (P / t) + P mod t) * f i + t * y * P); [ring|rewrite <- ED; ring]. }
  exists g. split.
  - apply (approx_lsb_ok k L qs ps OKq OKp DI NEq hat_inv hat_mod p_inv HI HR LH HV t_inv t ntt ntt' a aux f g HT Ht Ha Hb). intros i Hi. apply EG.
  - intros i Hi. split.
    + intros G. apply Z.mod_divide; [lia|]. apply (Gauss t P); [|apply Zgcd_1_rel_prime; rewrite Z.gcd_comm; exact G].
      exists (v i - P / t * f i). replace (P * (g i - f i)) with (P * g i - P * f i) by ring. rewrite EG.
      assert (PF : P * f i = (t * (P / t) + P mod t) * f i) by (rewrite <- ED; reflexivity). rewrite PF. ring.
    + rewrite EG. replace ((P mod t) * f i + t * v i - (P mod t) * f i) with (t * v i) by ring. rewrite Z.abs_mul.
      pose proof (approx_abs k L ps OKp (P / t * f i)) as B. fold P in B. fold (v i) in B. nia.
Qed.

(** ** Examples: the context of C49_example *)
Definition f8 : list Z := [1; 2; 3; 100; 20000; 0; 7; 318256].

(** the arithmetic without rounding errors satisfies the error model, and the
    switch of a polynomial modulo 97 * 193 * 17 to the primes 113, 241 gives the
    centred representatives *)
Example C55_example :
  float_model exact_dops (fun x => x) 0 /\
  match ctx8 with
  | Ok c =>
      let qs := rc_qs c in let ps := rc_ps c in
      (do! h <- main_crt_factors c 2; do! r <- main_complement_residues c 2; do! z <- main_leveled_aux_residues c 2;
       do! a <- ex_poly qs f8; do! a <- rns_to_coeff a qs;
       ex_view ps (rns_switch_basis exact_dops a qs ps h r z)) = res ps (map (centered (97 * 193 * 17)) f8)
  | _ => False
  end.
Proof. split; [exact exact_model|]. vm_compute. reflexivity. Qed.

Example C54_C56_example :
  match ctx8 with
  | Ok c =>
      let qs := rc_qs c in let ps := rc_ps c in
      (do! h <- main_crt_factors c 2; do! r <- main_complement_residues c 2;
       do! a <- ex_poly qs f8; do! a <- rns_to_coeff a qs;
       ex_view ps (rns_approx_switch a qs ps h r true)) = res ps (map (approx_value qs true) f8) /\
      ex_view qs (do! a <- ex_poly qs f8; do! b <- ex_poly ps f8;
        rns_scale_and_reduce exact_dops a b 7 qs ps (rc_p_hat_invs c) (rc_p_hat_mod_qs c) (rc_p_mod_qs c) (rc_p_inv_mod_qs c)) =
        res qs (map (fun x => (7 * x - centered (113 * 241) (7 * x)) / (113 * 241)) f8) /\
      ex_view qs (do! a <- ex_poly qs f8; do! b <- ex_poly ps f8;
        rns_approx_reduce_lsb a b qs ps (rc_p_inv_mod_qs c) (rc_p_hat_invs c) (rc_p_hat_mod_qs c) (rc_t_inv_mod_ps c) (rc_p_mod_t c) 257) =
        res qs (map (fun x => (113 * 241 mod 257 * x + 257 * approx_value ps true (113 * 241 / 257 * x)) / (113 * 241)) f8)
  | _ => False
  end.
Proof. vm_compute. repeat split. Qed.

Print Assumptions C54_approx_switch.
Print Assumptions C55_switch.
Print Assumptions C55_switch_with_context.
Print Assumptions C55_rounding.
Print Assumptions C56_extend.
Print Assumptions C56_scale_and_reduce.
Print Assumptions C56_scale_and_switch.
Print Assumptions C56_approx_mod_reduce_msb.
Print Assumptions C56_approx_mod_reduce_lsb.
