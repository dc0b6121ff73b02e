(** Which arguments the factories accept; primality of the shipped moduli. *)
From Coq Require Import Znumtheory.
From Verif Require Import Base FinSum Ring Montgomery MontgomeryProofs Spec ArithFacts Ntt NttProofs NttFacts PrimeCheck PrimeCert
  RnsPoly RnsSpec RnsCtx RnsCtxSpec RnsCtxProofs ThmArith Shipped ShippedSpec.

(** ** Creating parameters *)
Lemma word_pos k : word_size k -> 16 <= k.
Proof. intros [->|[->|[->| ->]]]; lia. Qed.

Lemma pow_four k : 2 <= k -> 2 ^ k = 4 * 2 ^ (k - 2).
Proof. intros H. replace k with (2 + (k - 2)) at 1 by lia. rewrite Z.pow_add_r by lia. reflexivity. Qed.

Lemma params_create_odd k q : word_size k -> 0 < q -> q mod 2 = 1 -> 4 * q <= 2 ^ k -> params_create k q = Ok (params_make k q).
Proof.
  intros W Q O F. pose proof (word_pos k W). rewrite (pow_four k) in F by lia. unfold params_create.
  assert (q <> 2 ^ (k - 2)).
  { intros ->. replace (k - 2) with (1 + (k - 3)) in O by lia. rewrite Z.pow_add_r in O by lia.
    change (2 ^ 1) with 2 in O. rewrite Z.mul_comm, Z.mod_mul in O by lia. lia. }
  unfold shr. rewrite Z.div_small by lia. cbn [Z.eqb negb]. rewrite O. reflexivity.
Qed.

Lemma params_create_bad k q : word_size k -> 0 < q -> ~ (4 * q <= 2 ^ k /\ q mod 2 = 1) -> params_create k q = Err InvalidArgument.
Proof.
  intros W Q N. pose proof (word_pos k W). rewrite (pow_four k) in N by lia. unfold params_create.
  assert (P : 0 < 2 ^ (k - 2)) by (apply Z.pow_pos_nonneg; lia).
  destruct (Z.eqb_spec (shr q (k - 2)) 0) as [E|E]; [|reflexivity]. cbn [negb].
  destruct (Z.eqb_spec (q mod 2) 0) as [E2|E2]; [reflexivity|]. exfalso. apply N.
  unfold shr in E. pose proof (Z.div_mod q (2 ^ (k - 2)) ltac:(lia)) as D. rewrite E in D.
  pose proof (Z.mod_pos_bound q (2 ^ (k - 2)) P). pose proof (Z.mod_pos_bound q 2 ltac:(lia)). lia.
Qed.

Lemma usable_odd k l q : 1 <= l -> usable k l q -> q mod 2 = 1.
Proof.
  intros Hl [_ E]. assert (D : (2 | q - 1)).
  { apply Z.divide_trans with (2 ^ (l + 1)).
    - replace (l + 1) with (1 + l) by lia. rewrite Z.pow_add_r by lia. apply Z.divide_mul_l, Z.divide_refl.
    - exists (q / 2 ^ (l + 1)). pose proof (Z.div_mod q (2 ^ (l + 1)) ltac:(pose proof (Z.pow_pos_nonneg 2 (l + 1)); lia)). lia. }
  destruct D as [z Ez]. symmetry. apply Z.mod_unique with z; lia.
Qed.

Lemma make_modulus_usable k l q : word_size k -> prime q -> 1 <= l <= 15 -> usable k l q ->
  exists m, make_modulus k l q = Ok m.
Proof.
  intros W P Hl U. pose proof (prime_ge_2 q P) as Q2. pose proof (usable_odd k l q ltac:(lia) U) as O. destruct U as [F E].
  unfold make_modulus. pose proof (params_create_odd k q W ltac:(lia) O F) as Ep. rewrite Ep. cbn [bind].
  assert (PF : params_for k q (params_make k q)) by (split; [exact W|split; [lia|exact Ep]]).
  pose proof (pf_good _ _ _ PF) as (G & _ & Em).
  pose proof (fit_of_mod (params_make k q) l G ltac:(lia)) as FM. rewrite Em in FM. specialize (FM E).
  destruct (init_ntt_ok (params_make k q) G ltac:(rewrite Em; exact P) l Hl FM ltac:(rewrite Em; exact E)) as (np & X & En & _).
  rewrite En. cbn [bind]. eexists. reflexivity.
Qed.

Lemma make_modulus_bad k l q : word_size k -> prime q -> ~ (1 <= l <= 15 /\ usable k l q) -> make_modulus k l q = Err InvalidArgument.
Proof.
  intros W P N. pose proof (prime_ge_2 q P) as Q2. unfold make_modulus.
  assert (D : (4 * q <= 2 ^ k /\ q mod 2 = 1) \/ ~ (4 * q <= 2 ^ k /\ q mod 2 = 1)) by lia.
  destruct D as [[F O]|B]; [|rewrite params_create_bad; [reflexivity|exact W|lia|exact B]].
  pose proof (params_create_odd k q W ltac:(lia) O F) as Ep. rewrite Ep. cbn [bind].
  assert (PF : params_for k q (params_make k q)) by (split; [exact W|split; [lia|exact Ep]]).
  rewrite (init_reject k q _ l PF); [reflexivity|]. intros [Hl E]. apply N. split; [exact Hl|]. split; assumption.
Qed.

Lemma usable_dec k l q : {usable k l q} + {~ usable k l q}.
Proof.
  unfold usable. destruct (Z_le_dec (4 * q) (2 ^ k)) as [A|A]; [|right; tauto].
  destruct (Z.eq_dec (q mod 2 ^ (l + 1)) 1) as [B|B]; [left; tauto|right; tauto].
Qed.

Lemma moduli_create k l qs : word_size k -> Forall prime qs -> 1 <= l <= 15 -> Forall (usable k l) qs ->
  exists ms, seqr (map (make_modulus k l) qs) = Ok ms.
Proof.
  intros W P Hl U. induction qs as [|q qs IH]; [exists []; reflexivity|]. inversion_clear P as [|? ? P1 P2]. inversion_clear U as [|? ? U1 U2].
  destruct (make_modulus_usable k l q W P1 Hl U1) as [m Em]. destruct (IH P2 U2) as [ms Ems]. exists (m :: ms).
  cbn [map seqr]. rewrite Em. cbn [bind]. rewrite Ems. reflexivity.
Qed.

Lemma moduli_bad k l qs : word_size k -> Forall prime qs -> (15 < l -> qs <> []) -> 1 <= l -> ~ (l <= 15 /\ Forall (usable k l) qs) ->
  seqr (map (make_modulus k l) qs) = Err InvalidArgument.
Proof.
  intros W P Ne Hl N. induction qs as [|q qs IH].
  - exfalso. apply N. split; [|constructor]. destruct (Z_le_gt_dec l 15); [assumption|]. exfalso. apply Ne; [lia|reflexivity].
  - inversion_clear P as [|? ? P1 P2]. cbn [map seqr].
    destruct (Z_le_dec l 15) as [L15|L15]; [|rewrite make_modulus_bad; [reflexivity|exact W|exact P1|lia]].
    destruct (usable_dec k l q) as [U|U]; [|rewrite make_modulus_bad; [reflexivity|exact W|exact P1|tauto]].
    destruct (make_modulus_usable k l q W P1 ltac:(lia) U) as [m Em]. rewrite Em. cbn [bind]. rewrite IH; [reflexivity|exact P2|lia|].
    intros [_ F]. apply N. split; [exact L15|]. constructor; assumption.
Qed.

Lemma forall_usable_dec k l qs : {Forall (usable k l) qs} + {~ Forall (usable k l) qs}.
Proof. apply Forall_dec. apply usable_dec. Qed.

Lemma bfv_loop_total k t pt : params_for k t pt -> forall ms acc,
  (Forall (fun m => Z.gcd (modulus m) t = 1) ms -> exists r, bfv_loop pt t ms acc = Ok r) /\
  (~ Forall (fun m => Z.gcd (modulus m) t = 1) ms -> bfv_loop pt t ms acc = Err InvalidArgument).
Proof.
  intros Hp. pose proof (pf_good _ _ _ Hp) as (G & Gk & Gm). assert (T1 : 1 < t) by apply Hp.
  assert (TK : t < 2 ^ k). { rewrite <- Gk, <- Gm. pose proof (m4 pt G). pose proof (m_gt1 pt G). lia. }
  induction ms as [|m l IH]; intros acc.
  - split; [intros _; eexists; reflexivity|]. intros N. exfalso. apply N. constructor.
  - cbn [bfv_loop]. change (pm_q m) with (modulus m).
    pose proof (Z.mod_pos_bound (modulus m) t ltac:(lia)) as RM.
    set (x := import_int pt (modulus m mod t)).
    assert (Sx : stored pt x /\ export_int pt x = modulus m mod t).
    { destruct (C03_import_export k t pt (modulus m mod t) Hp ltac:(lia)) as [V R]. split; [apply reduced_stored, R|].
      unfold x. rewrite V. apply Zmod_mod. }
    destruct Sx as [Sx Ex].
    assert (Eg : Z.gcd (export_int pt x) t = Z.gcd (modulus m) t) by (rewrite Ex, Z.gcd_mod by lia; apply Z.gcd_comm).
    destruct (C07_multiplicative_inverse_fast k t pt x Hp Sx) as [I1 I2]. rewrite Eg in I1, I2.
    destruct (Z.eq_dec (Z.gcd (modulus m) t) 1) as [E1|E1].
    + destruct (I1 E1) as (y & Ey & _). rewrite Ey. cbn [bind]. destruct (IH (mmul pt acc y)) as [J1 J2]. split.
      * intros F. destruct (J1 (Forall_inv_tail F)) as [[[xs ys] zs] Er]. rewrite Er. eexists. reflexivity.
      * intros N. rewrite J2; [reflexivity|]. intros F. apply N. constructor; assumption.
    + rewrite (I2 E1). split; [intros F; destruct (E1 (Forall_inv F))|reflexivity].
Qed.

Lemma create_ok k l qs ps t : word_size k -> Forall prime qs -> Forall prime ps -> 1 <= l <= 15 -> t <> 0 ->
  Forall (usable k l) (qs ++ ps) ->
  exists c, ctx_create k l qs ps t = Ok c /\ rc_t c = t /\ rc_logn c = l /\ moduli (rc_qs c) = qs.
Proof.
  intros W Pq Pp Hl Ht U. apply Forall_app in U. destruct U as [Uq Up].
  destruct (moduli_create k l qs W Pq Hl Uq) as [mq Eq]. destruct (moduli_create k l ps W Pp Hl Up) as [mp Ep].
  unfold ctx_create. destruct (Z.leb_spec l 0); [lia|]. destruct (Z.eqb_spec t 0); [contradiction|].
  rewrite Eq. cbn [bind]. rewrite Ep. cbn [bind]. eexists. split; [reflexivity|]. cbn [rc_t rc_logn rc_qs]. split; [reflexivity|]. split; [reflexivity|].
  assert (exists L, l = Z.of_nat L) as [L EL] by (exists (Z.to_nat l); lia). rewrite EL in Eq.
  exact (proj2 (make_moduli k L qs W Pq mq Eq)).
Qed.

Lemma create_bad k l qs ps t : word_size k -> Forall prime qs -> Forall prime ps -> qs ++ ps <> [] ->
  ~ (1 <= l <= 15 /\ t <> 0 /\ Forall (usable k l) (qs ++ ps)) -> ctx_create k l qs ps t = Err InvalidArgument.
Proof.
  intros W Pq Pp Ne N. unfold ctx_create. destruct (Z.leb_spec l 0); [reflexivity|]. destruct (Z.eqb_spec t 0); [reflexivity|].
  destruct (Z_le_dec l 15) as [L15|L15].
  - destruct (forall_usable_dec k l qs) as [U|U].
    + destruct (moduli_create k l qs W Pq ltac:(lia) U) as [mq Eq]. rewrite Eq. cbn [bind].
      rewrite (moduli_bad k l ps W Pp); [reflexivity|lia|lia|]. intros [_ F]. apply N. split; [lia|]. split; [assumption|].
      apply Forall_app. split; assumption.
    + rewrite (moduli_bad k l qs W Pq); [reflexivity|lia|lia|tauto].
  - destruct qs as [|q qs].
    + cbn [map seqr bind]. rewrite (moduli_bad k l ps W Pp); [reflexivity|intros _; exact Ne|lia|lia].
    + rewrite (moduli_bad k l (q :: qs) W Pq); [reflexivity|discriminate|lia|lia].
Qed.

Lemma gcd_moduli ms qs t : moduli ms = qs ->
  (Forall (fun m => Z.gcd (modulus m) t = 1) ms <-> Forall (fun q => Z.gcd q t = 1) qs).
Proof. intros <-. unfold moduli. rewrite Forall_map. reflexivity. Qed.

Lemma gcd_dec t qs : {Forall (fun q => Z.gcd q t = 1) qs} + {~ Forall (fun q => Z.gcd q t = 1) qs}.
Proof. apply Forall_dec. intros q. apply Z.eq_dec. Qed.

Lemma ctx_bfv_total k t pt c qs : params_for k t pt -> rc_t c = t -> rc_pt c = Some pt -> moduli (rc_qs c) = qs ->
  (Forall (fun q => Z.gcd q t = 1) qs -> exists c', ctx_bfv c = Ok c') /\
  (~ Forall (fun q => Z.gcd q t = 1) qs -> ctx_bfv c = Err InvalidArgument).
Proof.
  intros P Et Ept M. unfold ctx_bfv. rewrite Ept, Et. destruct (bfv_loop_total k t pt P (rc_qs c) (import_one pt)) as [I1 I2].
  rewrite (gcd_moduli _ _ t M) in I1, I2. split.
  - intros F. destruct (I1 F) as [[[xs ys] zs] ->]. eexists. reflexivity.
  - intros N. rewrite (I2 N). reflexivity.
Qed.

(** ** Certificates *)
Ltac trial n := apply (prime_by_trial _ n); [lia|vm_compute; reflexivity].

Lemma certified q l : Forall prime (map (fun '(p, _, _) => p) l) -> NoDup (map (fun '(p, _, _) => p) l) ->
  check q l = true -> prime q.
Proof. apply check_prime. Qed.

Lemma prime2 : prime 2. Proof. exact prime_2. Qed.
Lemma prime_17 : prime 17. Proof. trial 10%nat. Qed.
Lemma prime_857 : prime 857. Proof. trial 40%nat. Qed.
Lemma prime_113083 : prime 113083. Proof. trial 400%nat. Qed.
Lemma prime_224011 : prime 224011. Proof. trial 500%nat. Qed.
Lemma prime_286063 : prime 286063. Proof. trial 600%nat. Qed.
Lemma prime_277273 : prime 277273. Proof. trial 600%nat. Qed.
Lemma prime_594151 : prime 594151. Proof. trial 800%nat. Qed.

Ltac nodup := repeat (constructor; [cbn; lia|]); constructor.
Ltac by_cert l :=
  apply (certified _ l); [cbn [map]; repeat (apply Forall_cons; [assumption|]); apply Forall_nil|cbn [map]; nodup|vm_compute; reflexivity].

Lemma prime_14784727 : prime 14784727.
Proof. pose proof prime_224011. by_cert [(224011, 1, 2)]. Qed.
Lemma prime_27048060487031 : prime 27048060487031.
Proof. pose proof prime_857. pose proof prime_286063. by_cert [(857, 1, 2); (286063, 1, 2)]. Qed.
Lemma prime_157743999648925645441 : prime 157743999648925645441.
Proof. pose proof prime_277273. pose proof prime_594151. by_cert [(277273, 1, 2); (594151, 1, 2)]. Qed.

Lemma prime_newhope : prime kNewhopeModulus.
Proof. pose proof prime2. unfold kNewhopeModulus. by_cert [(2, 12, 11)]. Qed.
Lemma prime_m59 : prime kModulus59.
Proof. pose proof prime_27048060487031. unfold kModulus59. by_cert [(27048060487031, 1, 2)]. Qed.
Lemma prime_m44 : prime kModulus44.
Proof. pose proof prime_14784727. unfold kModulus44. by_cert [(14784727, 1, 2)]. Qed.
Lemma prime_m29 : prime kModulus29.
Proof. pose proof prime_113083. unfold kModulus29. by_cert [(113083, 1, 2)]. Qed.
Lemma prime_m25 : prime kModulus25.
Proof. pose proof prime2. unfold kModulus25. by_cert [(2, 14, 3)]. Qed.
Lemma prime_m80 : prime kModulus80.
Proof. pose proof prime_157743999648925645441. unfold kModulus80. by_cert [(157743999648925645441, 1, 2)]. Qed.
Lemma prime_60q0 : prime k60BitModulusQ0.
Proof. pose proof prime2. unfold k60BitModulusQ0. by_cert [(2, 13, 3)]. Qed.
Lemma prime_60q1 : prime k60BitModulusQ1.
Proof. pose proof prime2. unfold k60BitModulusQ1. by_cert [(2, 12, 3)]. Qed.
Lemma prime_60p0 : prime k60BitModulusP0.
Proof. pose proof prime2. unfold k60BitModulusP0. by_cert [(2, 15, 3)]. Qed.
Lemma prime_59q0 : prime k59BitModulusQ0.
Proof. pose proof prime2. pose proof prime_17. unfold k59BitModulusQ0. by_cert [(2, 12, 3); (17, 1, 2)]. Qed.
Lemma prime_59p0 : prime k59BitModulusP0.
Proof. pose proof prime2. pose proof prime_17. unfold k59BitModulusP0. by_cert [(2, 12, 3); (17, 2, 2)]. Qed.
