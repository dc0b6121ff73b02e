(** C63: products and modulus reduction of BFV ciphertexts. *)
From Coq Require Import Setoid Znumtheory QArith Lia.
From Verif Require Import Base FinSum PolySpec Ring NegRing SymSpec Montgomery MontBatch Spec Prng Sampling SampleSpec ThmSymEnc RnsPoly RnsSpec CrtMath RnsSub RnsProofs RnsBasis RnsBasis2 RnsFloat
  RnsCtx RnsCtxSpec RnsCtxProofs RnsCtxFacts ThmRnsCtx RnsCt RnsCtSpec RnsCtProofs RnsNoise RnsEncode RnsEncodeSpec RnsKey RnsKeySpec RnsKeyProofs RnsDecode RnsDecodeBfv ThmRnsBfv
  RnsBfv RnsBfvSpec RnsBfvProofs RnsBfvNoise RnsBfvProofs2 RnsBfvProofs3.
Local Open Scope Z_scope.

Lemma bounded_nonneg L B e : bounded (2 ^ L) B e -> 0 <= B.
Proof. intros H. specialize (H 0%nat (Hn L)). lia. Qed.

(** Mul of two ciphertexts over all main primes. If t times the phase of each
    operand is Q times its message up to noise E, E', the same holds of the
    result for a polynomial that is the product of the messages modulo t (and
    modulo X^n + 1), with the noise [mul_noise]. *)
Theorem C63_mul :
  forall k log_n qs ps t c D val eps s lx ly j x y w v m m' E E', ctx_args k qs ps t -> ctx_made k log_n qs ps t c -> k <> 16 ->
  let n := (2 ^ Z.to_nat log_n)%nat in let Q := prodz qs in let P := prodz ps in
  float_model D val eps -> roundable k eps (Z.of_nat (length qs)) -> roundable k eps (Z.of_nat (length ps)) ->
  (1 <= lx)%nat -> ciphertext (rc_qs c) (Z.to_nat log_n) s lx j x w -> ciphertext (rc_qs c) (Z.to_nat log_n) s ly j y v ->
  bounded n E (fun i => t * w i - Q * m i) -> bounded n E' (fun i => t * v i - Q * m' i) ->
  exists g M, gives (rc_qs c) (Z.to_nat log_n) s (lx + ly - 1) j (bfv_mul D c x y) g /\ pcong t n M (negacyclic n m m') /\
    forall i, (i < n)%nat -> P * Q * Z.abs (t * g i - Q * M i) <=
      mul_noise n t P Q E E' (key_size n s lx) (key_size n s ly) (key_size n s (lx + ly - 1)).
Proof.
  intros k log_n qs ps t c D val eps s lx ly j x y w v m m' E E' A M K16 n Q P FM Rq Rp HL Hx Hy Bw Bv.
  destruct (made_ok _ _ _ _ _ _ A M) as (_ & _ & Et & Mq & Mp & _).
  assert (EQ : Q = big_q (rc_qs c)) by (unfold Q, big_q; congruence). assert (EP : P = big_q (rc_ps c)) by (unfold P, big_q; congruence).
  pose proof (bounded_nonneg _ _ _ Bw) as PE. pose proof (bounded_nonneg _ _ _ Bv) as PE'.
  unfold bounded in Bw, Bv. fold n in Bw, Bv. rewrite EQ in Bw, Bv |- *. rewrite EP. rewrite <- Et in Bw, Bv |- *.
  apply (with_constants k log_n qs ps t c D val eps A M FM Rq Rp). intros OKq OKp DIq DIp DA NEq NEp NRq NRp Ht K1 K2 K3 K4 K5 K6 hi hm qm F1 F2 F3 H1 H2 H3 H4.
  eapply (bfv_mul_gives k (Z.to_nat log_n) D c); eassumption.
Qed.

(** AbsorbInPlace of a scaled plaintext over all main primes. *)
Theorem C63_absorb :
  forall k log_n qs ps t c D val eps s lx j x w plain f m m' E E', ctx_args k qs ps t -> ctx_made k log_n qs ps t c ->
  let n := (2 ^ Z.to_nat log_n)%nat in let Q := prodz qs in let P := prodz ps in
  float_model D val eps -> roundable k eps (Z.of_nat (length qs)) -> roundable k eps (Z.of_nat (length ps)) -> (1 <= lx)%nat ->
  ciphertext (rc_qs c) (Z.to_nat log_n) s lx j x w -> rns_is (rc_qs c) (Z.to_nat log_n) true plain f ->
  bounded n E (fun i => t * w i - Q * m i) -> bounded n E' (fun i => t * f i - Q * m' i) ->
  exists g M, gives (rc_qs c) (Z.to_nat log_n) s lx j (bfv_absorb D c x plain) g /\ pcong t n M (negacyclic n m m') /\
    forall i, (i < n)%nat -> P * Q * Z.abs (t * g i - Q * M i) <=
      mul_noise n t P Q E E' (key_size n s lx) 1 (key_size n s lx).
Proof.
  intros k log_n qs ps t c D val eps s lx j x w plain f m m' E E' A M n Q P FM Rq Rp HL Hx Hp Bw Bv.
  destruct (made_ok _ _ _ _ _ _ A M) as (_ & _ & Et & Mq & Mp & _).
  assert (EQ : Q = big_q (rc_qs c)) by (unfold Q, big_q; congruence). assert (EP : P = big_q (rc_ps c)) by (unfold P, big_q; congruence).
  pose proof (bounded_nonneg _ _ _ Bw) as PE. pose proof (bounded_nonneg _ _ _ Bv) as PE'.
  unfold bounded in Bw, Bv. fold n in Bw, Bv. rewrite EQ in Bw, Bv |- *. rewrite EP. rewrite <- Et in Bw, Bv |- *.
  apply (with_constants k log_n qs ps t c D val eps A M FM Rq Rp). intros OKq OKp DIq DIp DA NEq NEp NRq NRp Ht K1 K2 K3 K4 K5 K6 hi hm qm F1 F2 F3 H1 H2 H3 H4.
  eapply (bfv_absorb_gives k (Z.to_nat log_n) D c); try eassumption. intros i _. exists 0. ring.
Qed.

(** AbsorbInPlaceSimple of an unscaled plaintext with coefficients of size at
    most B, at any level. *)
Theorem C63_absorb_simple :
  forall k L ms t s len j x w plain f m E B, moduli_ok k L ms -> let n := (2 ^ L)%nat in let Q := big_q ms in
  ciphertext ms L s len j x w -> rns_is ms L true plain f -> bounded n B f -> bounded n E (fun i => t * w i - Q * m i) ->
  gives ms L s len j (bfv_absorb_simple x plain) (negacyclic n w f) /\
  bounded n (Z.of_nat n * (E * B)) (fun i => t * negacyclic n w f i - Q * negacyclic n m f i).
Proof.
  intros k L ms t s len j x w plain f m E B OK n Q Hx Hp Bf Bw.
  split; [apply (absorb_simple_gives k L ms s len j x w plain f OK Hx Hp)|].
  pose proof (bounded_nonneg _ _ _ Bw) as PE. pose proof (bounded_nonneg _ _ _ Bf) as PB. intros i Hi.
  replace (t * negacyclic n w f i - Q * negacyclic n m f i) with (negacyclic n (fun i => t * w i - Q * m i) f i); [apply (negacyclic_bound n _ f E B i PE PB Bw Bf Hi)|].
  unfold negacyclic. rewrite <- !zsum_mul_l.
  assert (Sub : forall N (a b : nat -> Z), FinSum.zsum N a - FinSum.zsum N b = FinSum.zsum N (fun i => a i - b i)).
  { intros N a b. induction N as [|N IH]; cbn [FinSum.zsum]; [reflexivity|]. lia. }
  rewrite Sub. apply zsum_ext. intros a _. destruct (Nat.leb_spec a i); ring.
Qed.

(** ModReduce: the message is kept, the noise shrinks by the dropped prime up to
    a term that depends on t, the secret key and the number of components. *)
Theorem C63_mod_reduce :
  forall k log_n qs ps t c l s len j x w m E, ctx_args k qs ps t -> ctx_made k log_n qs ps t c -> (S l < length qs)%nat ->
  let n := (2 ^ Z.to_nat log_n)%nat in let ql := nth (S l) qs 0 in
  ciphertext (at_level c (S l)) (Z.to_nat log_n) s len j x w ->
  bounded n E (fun i => t * w i - prodz (firstn (S (S l)) qs) * m i) ->
  exists g M, gives (at_level c l) (Z.to_nat log_n) s len j (bfv_mod_reduce c x) g /\ pcong t n M m /\
    forall i, (i < n)%nat -> 2 * ql * Z.abs (t * g i - prodz (firstn (S l) qs) * M i) <= 2 * E + t * ql * key_size n s len.
Proof.
  intros k log_n qs ps t c l s len j x w m E A M Hl n ql Hx Bw.
  destruct (made_ok _ _ _ _ _ _ A M) as (_ & _ & Et & Mq & Mp & Oq & _).
  pose proof (len_moduli _ _ Mq) as Lq.
  destruct (C49_levels k log_n qs ps t c (S l) A M Hl) as (_ & _ & _ & _ & (ml & z & inv & Em & Ez & Ei & HI)).
  assert (SP : at_level c (S l) = at_level c l ++ [ml]).
  { unfold at_level. clear - Em. revert Em. generalize (S l) as i. intros i. revert i. induction (rc_qs c) as [|a r IH]; intros [|i] Em; try discriminate; cbn in *; [congruence|].
    rewrite (IH i Em). reflexivity. }
  assert (Lm : length (at_level c l) = S l) by (unfold at_level; rewrite firstn_length; lia).
  assert (NE : at_level c l <> []) by (intros E0; rewrite E0 in Lm; discriminate).
  assert (Om : moduli_ok k (Z.to_nat log_n) (at_level c l)) by (apply ForallFirstn, Oq).
  assert (Ol : mod_ok k (Z.to_nat log_n) ml) by (apply (moduli_in _ _ _ _ Oq), nth_error_In with (n := S l), Em).
  assert (EL : ql = modulus ml).
  { unfold ql. rewrite <- Mq. unfold moduli. rewrite (nth_error_nth _ _ 0 (map_nth_error modulus _ _ Em)). reflexivity. }
  assert (EQ : prodz (firstn (S l) qs) = big_q (at_level c l)) by (unfold big_q, moduli, at_level; rewrite <- firstn_map; unfold moduli in Mq; rewrite Mq; reflexivity).
  assert (EQ2 : prodz (firstn (S (S l)) qs) = big_q (at_level c l) * ql).
  { assert (E0 : prodz (firstn (S (S l)) qs) = big_q (at_level c (S l))) by (unfold big_q, moduli, at_level; rewrite <- firstn_map; unfold moduli in Mq; rewrite Mq; reflexivity).
    rewrite E0, SP, EL. unfold big_q, moduli. rewrite map_app. cbn [map]. unfold prodz. rewrite fold_right_app. cbn [fold_right].
    clear. induction (map modulus (at_level c l)) as [|a r IH]; cbn [fold_right]; [ring|]. rewrite IH. ring. }
  rewrite SP in Hx. change (firstn (S l) (rc_qs c)) with (at_level c l) in HI.
  destruct (mod_reduce_msb_gives k _ (at_level c l) ml s len j x w inv z Om Ol NE HI Hx c) as (g & u & Hg & B); [rewrite Lm; exact Ez|rewrite Lm; exact Ei|].
  exists g, (fun i => m i + t * u i). split; [exact Hg|]. split; [intros i _; exists (u i); ring|].
  intros i Hi. specialize (B i Hi). specialize (Bw i Hi). cbv beta in Bw. fold n in B. rewrite EQ2 in Bw. rewrite EQ. rewrite <- EL in B.
  pose proof (ok_q k _ ml Ol) as Q1. rewrite <- EL in Q1. assert (Ht : 1 < t) by apply A. set (Q' := big_q (at_level c l)) in *.
  replace (2 * ql * Z.abs (t * g i - Q' * (m i + t * u i))) with (2 * Z.abs (ql * (t * g i - Q' * (m i + t * u i)))) by (rewrite Z.abs_mul, (Z.abs_eq ql) by lia; ring).
  replace (ql * (t * g i - Q' * (m i + t * u i))) with ((t * w i - Q' * ql * m i) + t * (ql * g i - (w i + Q' * ql * u i))) by ring.
  set (d := ql * g i - (w i + Q' * ql * u i)) in *.
  pose proof (Z.abs_triangle (t * w i - Q' * ql * m i) (t * d)) as TR. rewrite (Z.abs_mul t), (Z.abs_eq t) in TR by lia.
  pose proof (Z.mul_le_mono_nonneg_l _ _ t ltac:(lia) B) as B'. lia.
Qed.

(** ** Decryption *)

(** The product of two ciphertexts decrypts to the product of the messages
    modulo t and X^n + 1. *)
Theorem C63_mul_decrypt :
  forall k log_n qs ps t c D val eps key sk lx ly x y w v m m' E E' B, ctx_args k qs ps t -> ctx_made_bfv k log_n qs ps t c -> k <> 16 ->
  let n := (2 ^ Z.to_nat log_n)%nat in let Q := prodz qs in let P := prodz ps in
  (forall q, In q qs -> Z.gcd q t = 1) -> float_model D val eps -> (0 < length qs)%nat -> roundable k eps (Z.of_nat (length ps)) ->
  key_is (rc_qs c) (Z.to_nat log_n) key sk ->
  (1 <= lx)%nat -> (1 <= ly)%nat -> ciphertext (rc_qs c) (Z.to_nat log_n) sk lx 1 x w -> ciphertext (rc_qs c) (Z.to_nat log_n) sk ly 1 y v ->
  bounded n E (fun i => t * w i - Q * m i) -> bounded n E' (fun i => t * v i - Q * m' i) ->
  mul_noise n t P Q E E' (key_size n sk lx) (key_size n sk ly) (key_size n sk (lx + ly - 1)) <= P * Q * B -> bfv_decodable k eps qs B ->
  exists z, bfv_mul D c x y = Ok z /\ length (rt_c z) = (lx + ly - 1)%nat /\
    rsk_decrypt_bfv key (coeff_encoder D c) z = Ok (map (fun i => negacyclic n m m' i mod t) (seq 0 n)).
Proof.
  intros k log_n qs ps t c D val eps key sk lx ly x y w v m m' E E' B A M K16 n Q P G FM HQ Rp HK HL HL' Hx Hy Bw Bv HB HD.
  pose proof (bfv_made _ _ _ _ _ _ M) as M'. destruct (made_ok _ _ _ _ _ _ A M') as (_ & _ & Et & Mq & Mp & OKq & OKp & _).
  assert (Rq : roundable k eps (Z.of_nat (length qs))) by (destruct HD as (D1 & D2 & D3 & _); split; [lia|]; split; assumption).
  destruct (C63_mul k log_n qs ps t c D val eps sk lx ly 1 x y w v m m' E E' A M' K16 FM Rq Rp HL Hx Hy Bw Bv) as (g & MM & (z & Ez & Hz) & HM & BN).
  exists z. split; [exact Ez|]. split; [apply Hz|].
  pose proof (full_level k log_n t qs ps c A M HQ) as FL. rewrite FL in HK, Hz.
  assert (FQ : firstn (S (length qs - 1)) qs = qs) by (apply firstn_all2; lia).
  rewrite (C62_decrypt k log_n qs ps t c (length qs - 1) D val eps key sk z (lx + ly - 1) g MM B A M ltac:(lia) G FM HK ltac:(lia) Hz).
  - f_equal. apply map_ext_in. intros i Hi. apply in_seq in Hi. apply cong_iff; [assert (1 < t) by apply A; lia|]. apply HM. unfold n. lia.
  - rewrite FQ. intros i Hi. specialize (BN i Hi). cbv beta. fold Q. fold n Q P in BN.
    assert (PP : 0 < P) by (unfold P; rewrite <- Mp; apply (big_q_pos k _ _ OKp)). assert (PQ : 0 < Q) by (unfold Q; rewrite <- Mq; apply (big_q_pos k _ _ OKq)).
    apply (Z.mul_le_mono_pos_l _ _ (P * Q)); [apply Z.mul_pos_pos; assumption|]. lia.
  - rewrite FQ. exact HD.
Qed.

(** The same for a scaled plaintext. *)
Theorem C63_absorb_decrypt :
  forall k log_n qs ps t c D val eps key sk lx x w plain f m m' E E' B, ctx_args k qs ps t -> ctx_made_bfv k log_n qs ps t c ->
  let n := (2 ^ Z.to_nat log_n)%nat in let Q := prodz qs in let P := prodz ps in
  (forall q, In q qs -> Z.gcd q t = 1) -> float_model D val eps -> (0 < length qs)%nat -> roundable k eps (Z.of_nat (length ps)) ->
  key_is (rc_qs c) (Z.to_nat log_n) key sk -> (1 <= lx)%nat ->
  ciphertext (rc_qs c) (Z.to_nat log_n) sk lx 1 x w -> rns_is (rc_qs c) (Z.to_nat log_n) true plain f ->
  bounded n E (fun i => t * w i - Q * m i) -> bounded n E' (fun i => t * f i - Q * m' i) ->
  mul_noise n t P Q E E' (key_size n sk lx) 1 (key_size n sk lx) <= P * Q * B -> bfv_decodable k eps qs B ->
  exists z, bfv_absorb D c x plain = Ok z /\
    rsk_decrypt_bfv key (coeff_encoder D c) z = Ok (map (fun i => negacyclic n m m' i mod t) (seq 0 n)).
Proof.
  intros k log_n qs ps t c D val eps key sk lx x w plain f m m' E E' B A M n Q P G FM HQ Rp HK HL Hx Hp Bw Bv HB HD.
  pose proof (bfv_made _ _ _ _ _ _ M) as M'. destruct (made_ok _ _ _ _ _ _ A M') as (_ & _ & Et & Mq & Mp & OKq & OKp & _).
  assert (Rq : roundable k eps (Z.of_nat (length qs))) by (destruct HD as (D1 & D2 & D3 & _); split; [lia|]; split; assumption).
  destruct (C63_absorb k log_n qs ps t c D val eps sk lx 1 x w plain f m m' E E' A M' FM Rq Rp HL Hx Hp Bw Bv) as (g & MM & (z & Ez & Hz) & HM & BN).
  exists z. split; [exact Ez|].
  pose proof (full_level k log_n t qs ps c A M HQ) as FL. rewrite FL in HK, Hz.
  assert (FQ : firstn (S (length qs - 1)) qs = qs) by (apply firstn_all2; lia).
  rewrite (C62_decrypt k log_n qs ps t c (length qs - 1) D val eps key sk z lx g MM B A M ltac:(lia) G FM HK ltac:(lia) Hz).
  - f_equal. apply map_ext_in. intros i Hi. apply in_seq in Hi. apply cong_iff; [assert (1 < t) by apply A; lia|]. apply HM. unfold n. lia.
  - rewrite FQ. intros i Hi. specialize (BN i Hi). cbv beta. fold Q. fold n Q P in BN.
    assert (PP : 0 < P) by (unfold P; rewrite <- Mp; apply (big_q_pos k _ _ OKp)). assert (PQ : 0 < Q) by (unfold Q; rewrite <- Mq; apply (big_q_pos k _ _ OKq)).
    apply (Z.mul_le_mono_pos_l _ _ (P * Q)); [apply Z.mul_pos_pos; assumption|]. lia.
  - rewrite FQ. exact HD.
Qed.

(** An unscaled plaintext, at any level. *)
Theorem C63_absorb_simple_decrypt :
  forall k log_n qs ps t c l D val eps key sk len x w plain f m E B, ctx_args k qs ps t -> ctx_made_bfv k log_n qs ps t c -> (l < length qs)%nat ->
  let n := (2 ^ Z.to_nat log_n)%nat in
  (forall q, In q qs -> Z.gcd q t = 1) -> float_model D val eps -> key_is (at_level c l) (Z.to_nat log_n) key sk -> (1 <= len)%nat ->
  ciphertext (at_level c l) (Z.to_nat log_n) sk len 1 x w -> rns_is (at_level c l) (Z.to_nat log_n) true plain f -> bounded n B f ->
  bounded n E (fun i => t * w i - prodz (firstn (S l) qs) * m i) -> bfv_decodable k eps (firstn (S l) qs) (Z.of_nat n * (E * B)) ->
  exists z, bfv_absorb_simple x plain = Ok z /\
    rsk_decrypt_bfv key (coeff_encoder D c) z = Ok (map (fun i => negacyclic n m f i mod t) (seq 0 n)).
Proof.
  intros k log_n qs ps t c l D val eps key sk len x w plain f m E B A M Hl n G FM HK HL Hx Hp Bf Bw HD.
  pose proof (bfv_made _ _ _ _ _ _ M) as M'. destruct (made_ok _ _ _ _ _ _ A M') as (_ & _ & Et & Mq & _).
  assert (EQ : prodz (firstn (S l) qs) = big_q (at_level c l)) by (unfold big_q, moduli, at_level; rewrite <- firstn_map; unfold moduli in Mq; rewrite Mq; reflexivity).
  pose proof Bw as Bw'. rewrite EQ in Bw'.
  destruct (C63_absorb_simple k _ (at_level c l) t sk len 1 x w plain f m E B (level_ok k log_n t qs ps c A M' l) Hx Hp Bf Bw') as ((z & Ez & Hz) & BN).
  exists z. split; [exact Ez|].
  apply (C62_decrypt k log_n qs ps t c l D val eps key sk z len _ (negacyclic n m f) (Z.of_nat n * (E * B)) A M Hl G FM HK ltac:(lia) Hz); [|exact HD].
  rewrite EQ. exact BN.
Qed.

(** A reduced ciphertext decrypts, under the key for the remaining primes, to
    the same messages. *)
Theorem C63_mod_reduce_decrypt :
  forall k log_n qs ps t c l D val eps key sk len x w m E B, ctx_args k qs ps t -> ctx_made_bfv k log_n qs ps t c -> (S l < length qs)%nat ->
  let n := (2 ^ Z.to_nat log_n)%nat in let ql := nth (S l) qs 0 in
  (forall q, In q qs -> Z.gcd q t = 1) -> float_model D val eps -> key_is (at_level c l) (Z.to_nat log_n) key sk -> (1 <= len)%nat ->
  ciphertext (at_level c (S l)) (Z.to_nat log_n) sk len 1 x w ->
  bounded n E (fun i => t * w i - prodz (firstn (S (S l)) qs) * m i) ->
  2 * E + t * ql * key_size n sk len <= 2 * ql * B -> bfv_decodable k eps (firstn (S l) qs) B ->
  exists z, bfv_mod_reduce c x = Ok z /\ rsk_decrypt_bfv key (coeff_encoder D c) z = Ok (map (fun i => m i mod t) (seq 0 n)).
Proof.
  intros k log_n qs ps t c l D val eps key sk len x w m E B A M Hl n ql G FM HK HL Hx Bw HB HD.
  pose proof (bfv_made _ _ _ _ _ _ M) as M'.
  destruct (C63_mod_reduce k log_n qs ps t c l sk len 1 x w m E A M' Hl Hx Bw) as (g & MM & (z & Ez & Hz) & HM & BN).
  exists z. split; [exact Ez|].
  rewrite (C62_decrypt k log_n qs ps t c l D val eps key sk z len g MM B A M ltac:(lia) G FM HK ltac:(lia) Hz); [| |exact HD].
  - f_equal. apply map_ext_in. intros i Hi. apply in_seq in Hi. apply cong_iff; [assert (1 < t) by apply A; lia|]. apply HM. unfold n. lia.
  - intros i Hi. specialize (BN i Hi). cbv beta. fold n ql in BN.
    assert (P1 : 0 < ql).
    { assert (PR : Forall prime qs) by apply A. rewrite Forall_forall in PR. specialize (PR ql (nth_In qs 0 Hl)). destruct PR; lia. }
    apply (Z.mul_le_mono_pos_l _ _ (2 * ql)); lia.
Qed.

(** ** What is refused *)
Theorem C63_errors :
  forall D c x y plain,
  (length (rt_ms x) <> length (rt_ms y) \/ rt_pow x <> rt_pow y -> bfv_mul D c x y = Err InvalidArgument) /\
  (rp_ntt plain = false -> bfv_absorb D c x plain = Err InvalidArgument /\ bfv_absorb_simple x plain = Err InvalidArgument) /\
  (length (rt_ms x) <> length (rp_vs plain) -> bfv_absorb_simple x plain = Err InvalidArgument) /\
  ((length (rt_ms x) <= 1)%nat -> bfv_mod_reduce c x = Err FailedPrecondition).
Proof.
  intros D c x y plain. split; [|split; [|split]].
  - intros H. unfold bfv_mul. destruct (Nat.eq_dec (length (rt_ms x)) (length (rt_ms y))) as [El|El].
    + rewrite same_len_eq by exact El. cbn [negb]. destruct H as [H|H]; [contradiction|]. apply Z.eqb_neq in H. rewrite H. reflexivity.
    + rewrite same_len_neq by exact El. reflexivity.
  - intros H. unfold bfv_absorb, bfv_absorb_simple. rewrite H. cbn [negb]. split; [reflexivity|]. destruct (negb _); reflexivity.
  - intros H. unfold bfv_absorb_simple, level_of. destruct (Z.eqb_spec (Z.of_nat (length (rt_ms x)) - 1 + 1) (Z.of_nat (length (rp_vs plain)))); [lia|reflexivity].
  - intros H. unfold bfv_mod_reduce. apply Nat.leb_le in H. rewrite H. reflexivity.
Qed.

(** After ModReduce, no product is possible any more: below the full list of
    main primes Mul and AbsorbInPlace fail on every ciphertext. (They pass the
    residues of P modulo all main primes, and SwitchRnsBasis wants exactly one
    for each prime of the level.) *)
Theorem C63_lower_level_refuted :
  forall k log_n qs ps t c D val eps l s lx ly j x y w v plain f, ctx_args k qs ps t -> ctx_made k log_n qs ps t c ->
  float_model D val eps -> roundable k eps (Z.of_nat (length qs)) -> roundable k eps (Z.of_nat (length ps)) -> (S l < length qs)%nat ->
  (1 <= lx)%nat -> ciphertext (at_level c l) (Z.to_nat log_n) s lx j x w -> ciphertext (at_level c l) (Z.to_nat log_n) s ly j y v ->
  rns_is (at_level c l) (Z.to_nat log_n) true plain f ->
  bfv_mul D c x y = Err InvalidArgument /\ bfv_absorb D c x plain = Err InvalidArgument.
Proof.
  intros k log_n qs ps t c D val eps l s lx ly j x y w v plain f A M FM Rq Rp Hl HL Hx Hy Hp. split.
  - eapply (mul_low k log_n qs ps t c D val eps l A M FM Rq Rp Hl); eassumption.
  - eapply (absorb_low k log_n qs ps t c D val eps l A M FM Rq Rp Hl); eassumption.
Qed.

(** ** Example: degree 4, t = 3, q = 97, 193, 257, p = 113, 241, 337, variance 1 *)
Example C63_example :
  (let n := 4%nat in let g2 := 1 + 4 in let g3 := 1 + 4 + 16 in
   mul_noise n 3 (113 * 241 * 337) (97 * 193 * 257) 9 9 g2 g2 g3 <= (113 * 241 * 337) * (97 * 193 * 257) * 10000) /\
  bfv_decodable 32 (1 # 2 ^ 53) [97; 193; 257] 10000 /\ roundable 32 (1 # 2 ^ 53) 3 /\
  (do! c <- ctx_create_bfv 32 2 [97; 193; 257] [113; 241; 337] 3; let e := coeff_encoder exact_dops c in
   do! ' (key, s) <- rsk_sample toy 2 1 (rc_qs c) 12345;
   do! ' (x, s, r) <- rsk_encrypt_bfv toy toy 200 key e [1; 2; 0; 1] s 99;
   do! ' (y, s, r) <- rsk_encrypt_bfv toy toy 200 key e [0; 1; 1] s r;
   do! z <- bfv_mul exact_dops c x y; do! m <- rsk_decrypt_bfv key e z;
   do! p <- coeff_encode_bfv c [0; 1; 1] (rc_qs c) true; do! z1 <- bfv_absorb exact_dops c x p; do! m1 <- rsk_decrypt_bfv key e z1;
   do! p <- coeff_encode_bfv c [0; 1; 1] (rc_qs c) false; do! z2 <- bfv_absorb_simple x p; do! m2 <- rsk_decrypt_bfv key e z2;
   do! x' <- bfv_mod_reduce c x; do! y' <- bfv_mod_reduce c y;
   Ok (length (rt_c z), m, m1, m2, length (rt_ms x'), bfv_mul exact_dops c x' y')) =
  (** (1 + 2X + X^3) (X + X^2) mod X^4 + 1 *)
  let product := [2; 0; 0; 2] in
  Ok (3%nat, product, product, product, 2%nat, Err InvalidArgument).
Proof.
  split; [vm_compute; discriminate|]. split; [vm_compute; repeat split; discriminate|]. split; [vm_compute; repeat split; discriminate|].
  vm_compute; reflexivity.
Qed.

Print Assumptions C63_mul.
Print Assumptions C63_absorb.
Print Assumptions C63_absorb_simple.
Print Assumptions C63_mod_reduce.
Print Assumptions C63_mul_decrypt.
Print Assumptions C63_absorb_decrypt.
Print Assumptions C63_absorb_simple_decrypt.
Print Assumptions C63_mod_reduce_decrypt.
Print Assumptions C63_errors.
Print Assumptions C63_lower_level_refuted.
