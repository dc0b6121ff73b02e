(** C99: the distribution of public-key encryptions, public keys,
    relinearization keys and Galois keys over one modulus
    (public_key_encryption.cc, relinearization_key.cc, galois_key.h). The
    generators read tapes of uniform bytes. *)
From Coq Require Import Znumtheory Lia Arith.
From Verif Require RnsProofs NegRing.
From Verif Require Import Base FinSum PolySpec Ring ZLemmas Montgomery MontBatch Ntt Poly PolyExt Prng Sampling SampleSpec MontgomeryProofs
  MontBatchProofs NttIndex NttMath NttProofs Spec PolyView ArithFacts NttFacts PolyProofs PolyFacts PolyExtProofs SampleProofs SampleErrProofs
  SymEnc SymSpec SymProofs ThmSample SymProofs2 SymFacts SymSwitch ThmPoly ThmSymEnc Relin RelinSpec RelinProofs ThmRelin PubKey
  DistSpec DistProofs TapeSpec TapeProofs TapeRns EndSpec EndProofs PubTapeSpec PubTape KeyTapeSpec KeyTape OneTapeSpec OneTape.
Local Notation tapes N := (repeat 8 N).
Local Opaque error_widths error_count.

(** The pads: every list of d vectors of residues is the outcome for the same
    number of tapes, and all are possible. *)
Section Pads.
Variables (k q : Z) (p : mparams) (fuel n : nat).
Hypothesis PF : params_for k q p.
Hypothesis Hn : (0 < n)%nat.
Fixpoint pads_weight (d N : nat) : Z := match d with O => 256 ^ Z.of_nat N | S d' => weights p fuel n N (pads_weight d') end.
Lemma polys_count vs : Forall (fun v => length v = n /\ Forall (fun x => 0 <= x < q) v) vs -> forall N,
  count_tapes N (fun ds => gave_polys vs (uniform_polys fuel p n (length vs) ds)) = pads_weight (length vs) N.
Proof.
  intros H. unfold count_tapes, count_scripts. induction H as [|v vs [Lv Fv] _ IH]; intros N.
  - cbn [length uniform_polys pads_weight]. rewrite <- over_ones. reflexivity.
  - cbn [length pads_weight]. rewrite <- (weights_ext _ _ _ _ IH). pose proof (weights_ok k q p PF fuel (fun s => Z.b2z (gave_polys vs (uniform_polys fuel p n (length vs) s))) v Fv N) as W.
    rewrite Lv in W. rewrite <- W. unfold ex. apply over_ext; [|apply tapes_nonneg]. intros ds _. cbn [uniform_polys]. unfold sample_polynomial.
    destruct (Z.ltb_spec (Z.of_nat n) 1); [lia|]. rewrite Nat2Z.id. change (pr_st tape) with (list Z).
    destruct (sample_n tape fuel n p ds) as [[x s]| |] eqn:Ex; try reflexivity. cbn [bind]. destruct (sample_n_reduced k q p PF fuel n ds x s Ex) as [Lx _].
    destruct x as [|x0 x]; [cbn in Lx; lia|]. cbn [Poly.poly_of bind].
    destruct (uniform_polys fuel p n (length vs) s) as [[rs s']| |]; cbn [bind gave_polys Z.b2z]; try (rewrite Z.mul_0_r; reflexivity).
    unfold is_list. change poly with (list Z) in *. destruct (list_eq_dec Z.eq_dec (x0 :: x) v) as [<-|NE].
    + destruct (list_eq_dec (list_eq_dec Z.eq_dec) rs vs) as [E|E]; destruct (list_eq_dec (list_eq_dec Z.eq_dec) ((x0 :: x) :: rs) ((x0 :: x) :: vs)) as [E'|E']; try reflexivity; exfalso.
      * apply E'. rewrite E. reflexivity.
      * apply E. injection E' as E'. exact E'.
    + destruct (list_eq_dec (list_eq_dec Z.eq_dec) ((x0 :: x) :: rs) (v :: vs)) as [E'|E']; [exfalso; apply NE; injection E' as E1 E2; exact E1|reflexivity].
Qed.
Lemma pads_nonneg d : forall N, 0 <= pads_weight d N.
Proof. induction d as [|d IH]; intros N; cbn [pads_weight]; [apply Z.pow_nonneg; lia|]. apply (weights_nonneg k q p _ fuel PF IH). Qed.
Lemma pads_pos d : (1 <= fuel)%nat -> forall N, (d * (n * nbytes (attempt_widths (p_logm p))) <= N)%nat -> 0 < pads_weight d N.
Proof.
  intros Hf. induction d as [|d IH]; intros N HN; cbn [pads_weight]; [apply Z.pow_pos_nonneg; lia|].
  apply (weights_pos k q p _ fuel (d * (n * nbytes (attempt_widths (p_logm p)))) PF (pads_nonneg d) IH Hf n). cbn [Nat.mul] in HN. lia.
Qed.
End Pads.
Theorem C99_pads :
  forall k q p fuel n vs vs' N, params_for k q p -> (0 < n)%nat ->
  Forall (fun v => length v = n /\ Forall (fun x => 0 <= x < q) v) vs -> Forall (fun v => length v = n /\ Forall (fun x => 0 <= x < q) v) vs' -> length vs = length vs' ->
  count_tapes N (fun ds => gave_polys vs (uniform_polys fuel p n (length vs) ds)) =
  count_tapes N (fun ds => gave_polys vs' (uniform_polys fuel p n (length vs) ds)) /\
  ((1 <= fuel)%nat -> (length vs * (n * nbytes (attempt_widths (p_logm p))) <= N)%nat ->
     0 < count_tapes N (fun ds => gave_polys vs (uniform_polys fuel p n (length vs) ds))).
Proof.
  intros k q p fuel n vs vs' N PF Hn H H' E. pose proof (polys_count k q p fuel n PF Hn vs H N) as C. pose proof (polys_count k q p fuel n PF Hn vs' H' N) as C'. rewrite <- E in C'.
  rewrite C, C'. split; [reflexivity|]. intros Hf HN. exact (pads_pos k q p fuel n PF Hn (length vs) Hf N HN).
Qed.

(** A public-key encryption under any pair (b, a): for every test, the number of
    tapes on which the ciphertext passes is the sum over all polynomials v, e0,
    e1, with their binomial weights, of the test on
    (b v + t e0 + m, a v + t e1). *)
Theorem C99_encrypt :
  forall k q L t pk pt var, params_for k q (pk_p pk) -> ntt_for (pk_p pk) L (pk_np pk) -> k <> 16 -> 0 < var <= 256 -> 4 * var < q ->
  ntt_poly (pk_p pk) L (pk_a pk) -> ntt_poly (pk_p pk) L (pk_b pk) -> ntt_poly (pk_p pk) L pt -> stored (pk_p pk) (pk_t pk) -> export_int (pk_p pk) (pk_t pk) = t ->
  let is := poly_is (pk_p pk) (pk_np pk) L in
  let co := coeff (pk_p pk) (pk_np pk) in
  exists x : list Z -> list Z -> list Z -> ct,
    (forall v e0 e1, errors var (2 ^ L) v -> errors var (2 ^ L) e0 -> errors var (2 ^ L) e1 ->
       exists c0 c1, x v e0 e1 = ct_make (pk_p pk) [c0; c1] 1 /\
         is c0 (fun i => negacyclic (2 ^ L) (co (pk_b pk)) (fun j => nth j v 0) i + t * nth i e0 0 + co pt i) /\
         is c1 (fun i => negacyclic (2 ^ L) (co (pk_a pk)) (fun j => nth j v 0) i + t * nth i e1 0)) /\
    forall test N, (3 * error_bytes var (2 ^ L) <= N)%nat ->
      count_tapes N (fun ds => passes_one test (pub_encrypt tape pk pt var ds)) =
      over_errors var (2 ^ L) (fun v => over_errors var (2 ^ L) (fun e0 => over_errors var (2 ^ L) (fun e1 => Z.b2z (test (x v e0 e1))))) *
      256 ^ Z.of_nat (N - 3 * error_bytes var (2 ^ L)).
Proof.
  intros k q L t pk pt var PF HN K16 Hv Hq Ha Hb Hpt St Et is co. destruct (mk_ctx k q (pk_p pk) L (pk_np pk) PF HN) as (C & Ek & Eq).
  set (p := pk_p pk) in *. set (np := pk_np pk) in *. set (n := (2 ^ L)%nat) in *. assert (Kp : p_k p <> 16) by congruence.
  pose (fin := fun xv x0 x1 =>
    do! v <- convert_to_ntt p np xv; do! c0 <- convert_to_ntt p np x0; do! c0 <- poly_mul_scalar p c0 (pk_t pk); do! c0 <- poly_fused_mul_add p c0 (pk_b pk) v; do! c0 <- poly_add p c0 pt;
    do! c1 <- convert_to_ntt p np x1; do! c1 <- poly_mul_scalar p c1 (pk_t pk); do! c1 <- poly_fused_mul_add p c1 (pk_a pk) v; Ok (ct_make p [c0; c1] 1)).
  assert (FIN : forall xv x0 x1 v e0 e1, words p L xv v -> words p L x0 e0 -> words p L x1 e1 -> exists c0 c1, fin xv x0 x1 = Ok (ct_make p [c0; c1] 1) /\
    is c0 (fun i => negacyclic n (co (pk_b pk)) v i + t * e0 i + co pt i) /\ is c1 (fun i => negacyclic n (co (pk_a pk)) v i + t * e1 i)).
  { intros xv x0 x1 v e0 e1 Wv W0 W1. destruct (is_convert p L np C xv v Wv) as (cv & A1 & B1). destruct (is_convert p L np C x0 e0 W0) as (c0 & A2 & B2). destruct (is_convert p L np C x1 e1 W1) as (c1 & A3 & B3).
    destruct (is_scale p L np C c0 e0 (pk_t pk) t B2 St Et) as (d0 & A4 & B4). destruct (is_scale p L np C c1 e1 (pk_t pk) t B3 St Et) as (d1 & A5 & B5).
    destruct (is_fused p L np C d0 (pk_b pk) cv _ _ _ Kp B4 (is_self p L np C _ Hb) B1) as (f0 & A6 & B6). destruct (is_fused p L np C d1 (pk_a pk) cv _ _ _ Kp B5 (is_self p L np C _ Ha) B1) as (f1 & A7 & B7).
    destruct (is_add p L np C f0 pt _ _ B6 (is_self p L np C _ Hpt)) as (g0 & A8 & B8). exists g0, f1. unfold fin. rewrite A1. cbn [bind]. rewrite A2. cbn [bind]. rewrite A4. cbn [bind]. rewrite A6. cbn [bind].
    rewrite A8. cbn [bind]. rewrite A3. cbn [bind]. rewrite A5. cbn [bind]. rewrite A7. cbn [bind]. split; [reflexivity|].
    split; [apply (is_ext p L np C _ _ _ B8)|apply (is_ext p L np C _ _ _ B7)]; intros i _; apply cong_eq; unfold co, n; ring. }
  pose (x := fun xv x0 x1 => match fin xv x0 x1 with Ok y => y | _ => ct_make p [] 0 end).
  exists (fun v e0 e1 => x (map (imp p) v) (map (imp p) e0) (map (imp p) e1)). split.
  - intros v e0 e1 Hv' H0 H1. destruct (FIN _ _ _ _ _ _ (words_imp p L np C var v Hv') (words_imp p L np C var e0 H0) (words_imp p L np C var e1 H1)) as (c0 & c1 & E & I0 & I1).
    exists c0, c1. unfold x. rewrite E. split; [reflexivity|]. split; assumption.
  - intros test N HN'. pose (mk := fun xs => x (nth 0 xs []) (nth 1 xs []) (nth 2 xs [])).
    rewrite (draw_count k q p var n PF ltac:(lia) Hq 3 mk _ test N HN'); [reflexivity|].
    intros ds. unfold pub_encrypt. destruct (Z.leb_spec var 0); [lia|]. cbv zeta. fold p np. rewrite (proj1 Ha). fold n. cbn [draw]. change (pr_st tape) with (list Z).
    destruct (sample_error tape p n var ds) as [[xv s1]| |] eqn:E1; try reflexivity. cbn [bind]. assert (V2 : 2 * var <= p_m p) by lia.
    pose proof (words_sampled p L np C var ds xv s1 ltac:(lia) V2 E1) as W1. destruct (is_convert p L np C xv _ W1) as (cv & A1 & _). rewrite A1. cbn [bind].
    destruct (sample_error tape p n var s1) as [[x0 s2]| |] eqn:E2; try reflexivity. cbn [bind]. pose proof (words_sampled p L np C var s1 x0 s2 ltac:(lia) V2 E2) as W2.
    destruct (sample_error tape p n var s2) as [[x1 s3]| |] eqn:E3; try reflexivity. cbn [bind]. pose proof (words_sampled p L np C var s2 x1 s3 ltac:(lia) V2 E3) as W3.
    destruct (FIN _ _ _ _ _ _ W1 W2 W3) as (c0 & c1 & E & _). unfold mk, x. cbn [nth]. rewrite E. revert E. unfold fin. rewrite A1. cbn [bind].
    destruct (convert_to_ntt p np x0) as [y1| |]; try discriminate. cbn [bind]. destruct (poly_mul_scalar p y1 (pk_t pk)) as [y2| |]; try discriminate. cbn [bind].
    destruct (poly_fused_mul_add p y2 (pk_b pk) cv) as [y3| |]; try discriminate. cbn [bind]. destruct (poly_add p y3 pt) as [y4| |]; try discriminate. cbn [bind].
    destruct (convert_to_ntt p np x1) as [z1| |]; try discriminate. cbn [bind]. destruct (poly_mul_scalar p z1 (pk_t pk)) as [z2| |]; try discriminate. cbn [bind].
    destruct (poly_fused_mul_add p z2 (pk_a pk) cv) as [z3| |]; try discriminate. cbn [bind]. intros E. injection E as <- <-. reflexivity.
Qed.

(** A public key, given the pad u: (b, a) = (u s + t e, - u) for an error
    polynomial e of binomial coefficients. *)
Theorem C99_public :
  forall k q L t key fuel var ty seed u rest, enc_key k q L t key -> k <> 16 -> 0 < var <= 256 -> 4 * var < q -> known_type ty = true ->
  sample_polynomial tape fuel (Z.of_nat (2 ^ L)) (sk_p key) seed = Ok (u, rest) ->
  let is := poly_is (sk_p key) (sk_np key) L in
  let f := coeff (sk_p key) (sk_np key) u in
  exists pk : list Z -> pkey,
    (forall e, errors var (2 ^ L) e ->
       is (pk_a (pk e)) (fun i => - f i) /\ is (pk_b (pk e)) (fun i => negacyclic (2 ^ L) f (secret key) i + t * nth i e 0) /\
       pk_seed (pk e) = seed /\ pk_type (pk e) = ty /\ pk_t (pk e) = sk_t key /\ pk_np (pk e) = sk_np key /\ pk_p (pk e) = sk_p key) /\
    forall test N, (error_bytes var (2 ^ L) <= N)%nat ->
      count_tapes N (fun ds => succeeds test (pub_create tape_fam fuel key var ty seed ds)) =
      over_errors var (2 ^ L) (fun e => Z.b2z (test (pk e))) * 256 ^ Z.of_nat (N - error_bytes var (2 ^ L)).
Proof.
  intros k q L t key fuel var ty seed u rest EK K16 Hv Hq KT Eu is f. pose proof (ek_key _ _ _ _ _ EK) as K. pose proof (key_ctx k q L t key K) as C.
  pose proof (key_q k q L t key K) as Eq. pose proof (key_k k q L t key K) as Ek. pose proof (ko_key _ _ _ _ _ K) as Hk.
  pose proof (t_export' k q L t key EK) as Et. pose proof (ek_stored _ _ _ _ _ EK) as St.
  set (p := sk_p key) in *. set (np := sk_np key) in *. set (n := (2 ^ L)%nat) in *. assert (Kp : p_k p <> 16) by congruence.
  assert (Nu : ntt_poly p L u).
  { destruct (sample_polynomial_stored tape p _ _ _ _ _ (proj1 C) Eu) as (Lr & _ & Rr). rewrite Nat2Z.id in Lr. split; assumption. }
  pose (fin := fun x => do! b <- convert_to_ntt p np x; do! b <- poly_mul_scalar p b (sk_t key); poly_fused_mul_add p b u (sk_key key)).
  assert (FIN : forall x e, words p L x e -> exists b, fin x = Ok b /\ is b (fun i => negacyclic n f (secret key) i + t * e i)).
  { intros x e W. destruct (is_convert p L np C x e W) as (c & A1 & B1). destruct (is_scale p L np C c e (sk_t key) t B1 St Et) as (d & A2 & B2).
    destruct (is_fused p L np C d u (sk_key key) _ _ _ Kp B2 (is_self p L np C _ Nu) (is_self p L np C _ Hk)) as (b & A3 & B3). exists b. unfold fin. rewrite A1. cbn [bind]. rewrite A2. cbn [bind].
    split; [exact A3|]. apply (is_ext p L np C _ _ _ B3). intros i _. apply cong_eq. unfold f, secret, n. fold p np. ring. }
  pose (mk := fun xs : list (list Z) => {| pk_a := poly_neg p u; pk_b := match fin (nth 0 xs []) with Ok b => b | _ => [] end; pk_seed := seed; pk_type := ty; pk_t := sk_t key; pk_np := np; pk_p := p |}).
  exists (fun e => mk [map (imp p) e]). split.
  - intros e He. cbn [mk pk_a pk_b pk_seed pk_type pk_t pk_np pk_p nth]. split; [exact (is_neg p L np C u f (is_self p L np C u Nu))|].
    destruct (FIN _ _ (words_imp p L np C var e He)) as (b & E & I). rewrite E. split; [exact I|]. repeat split; reflexivity.
  - intros test N HN. assert (HN' : (1 * error_bytes var n <= N)%nat) by lia.
    rewrite (draw_count k q p var n (ko_params _ _ _ _ _ K) ltac:(lia) Hq 1 mk _ test N HN').
    { cbn [over_rounds map Nat.mul]. rewrite Nat.add_0_r. reflexivity. }
    intros ds. unfold pub_create. destruct (Z.leb_spec var 0); [lia|]. rewrite KT. cbn [negb]. cbv zeta. fold p np. rewrite (proj1 Hk). fold n. cbn [gf_start gf_prng tape_fam bind]. rewrite Eu. cbn [bind draw].
    change (pr_st tape) with (list Z). destruct (sample_error tape p n var ds) as [[x s1]| |] eqn:E1; try reflexivity. cbn [bind]. assert (V2 : 2 * var <= p_m p) by lia.
    pose proof (words_sampled p L np C var ds x s1 ltac:(lia) V2 E1) as W1. destruct (FIN x _ W1) as (b & E & _). unfold mk. cbn [nth]. rewrite E. revert E. unfold fin.
    destruct (convert_to_ntt p np x) as [y1| |]; try discriminate. cbn [bind]. destruct (poly_mul_scalar p y1 (sk_t key)) as [y2| |]; try discriminate. cbn [bind]. intros ->. reflexivity.
Qed.

(** A relinearization key, given its pads r_j: the upper rows are
    t e_j + 2^(c logT) s(X^power)^a - r_j s for independent error polynomials e_j,
    one for each power a and each digit c. A Galois key is the case num = 2. *)
Theorem C99_relin :
  forall k q L t key fuel ty num logT power seed rs rest, enc_key k q L t key -> 0 <= sk_var key <= 256 -> 4 * sk_var key < q ->
  0 <= sk_logt key < k -> known_type ty = true -> 1 <= logT <= p_logm (sk_p key) -> 0 < power < 2 * Z.of_nat (2 ^ L) -> Z.odd power = true ->
  (if power =? 1 then 3 else 2) <= num ->
  let first := if power =? 1 then 2%nat else 1%nat in
  let count := (Z.to_nat num - first)%nat in
  let dim := Z.to_nat (gadget_size (sk_p key) logT) in
  let d := (count * dim)%nat in
  let hs := concat (map (fun a => multiples (powers_of logT dim) (npow (2 ^ L) (secret_at L key power) a)) (seq first count)) in
  uniform_polys fuel (sk_p key) (2 ^ L) d seed = Ok (rs, rest) ->
  exists rk : list (list Z) -> relin,
    (forall es, rounds (sk_var key) (2 ^ L) d es ->
       encryptions_one L t key hs rs es (concat (map pt_top (rk_parts (rk es)))) /\ concat (map pt_bot (rk_parts (rk es))) = rs /\
       length (rk_parts (rk es)) = count /\ Forall (fun pt => length (pt_top pt) = dim /\ length (pt_bot pt) = dim /\ pt_logT pt = logT) (rk_parts (rk es)) /\
       rk_num (rk es) = num /\ rk_logT (rk es) = logT /\ rk_pow (rk es) = power /\ rk_p (rk es) = sk_p key /\ rk_np (rk es) = sk_np key /\
       rk_seed (rk es) = seed /\ rk_type (rk es) = ty) /\
    forall test N, (d * error_bytes (sk_var key) (2 ^ L) <= N)%nat ->
      count_tapes N (fun ds => succeeds test (relin_create tape_fam fuel key ty num logT power seed ds)) =
      over_rounds (sk_var key) (2 ^ L) d (fun es => Z.b2z (test (rk es))) * 256 ^ Z.of_nat (N - d * error_bytes (sk_var key) (2 ^ L)).
Proof.
  intros k q L t key fuel ty num logT power seed rs rest EK Hv Hq Hl KT HT Hp Ho Hnum first count dim d hs Eu.
  pose proof (ek_key _ _ _ _ _ EK) as K. pose proof (key_ctx k q L t key K) as C. pose proof (key_q k q L t key K) as Eq. pose proof (key_k k q L t key K) as Ek.
  pose proof (ko_key _ _ _ _ _ K) as Hk. pose proof (key_L _ _ _ _ _ K) as HL.
  assert (I32 : int32 power = power).
  { apply int32_small. assert (2 ^ Z.of_nat L <= 2 ^ 15) by (apply Z.pow_le_mono_r; lia). rewrite Nat2Z.inj_pow in Hp. change (Z.of_nat 2) with 2 in Hp. lia. }
  destruct (substitute_holds (sk_p key) L (sk_np key) (ntt_root (sk_p key) (sk_np key)) (proj2 C) (sk_key key) (secret key) power (poly_holds _ L _ C _ Hk) Hp Ho) as (base & Eb & Hb & _).
  assert (Ib : poly_is (sk_p key) (sk_np key) L base (secret_at L key power)) by (apply (holds_is _ L _ C); exact Hb).
  destruct (import_T k q L t key EK logT HT) as [ST VT]. rewrite Eq in VT.
  assert (Hn : (0 < 2 ^ L)%nat) by (pose proof (Nat.pow_nonzero 2 L); lia).
  assert (I1 : poly_is (sk_p key) (sk_np key) L base (npow (2 ^ L) (secret_at L key power) (Nat.max 1 (first - 1)))).
  { replace (Nat.max 1 (first - 1)) with 1%nat by (unfold first; destruct (power =? 1); reflexivity). cbn [npow]. apply (is_ext _ L _ C _ _ _ Ib). intros i Hi.
    symmetry. exact (NegRing.neg_one (p_m (sk_p key)) (2 ^ L) Hn (secret_at L key power) i Hi). }
  destruct (create_form k q L t key EK Hv Hq fuel base _ logT _ dim ST VT ltac:(lia) Ib count first base ltac:(unfold first; destruct (power =? 1); lia) I1) as (pows & P1 & P2 & P3).
  fold hs in P1. fold d in P2, P3.
  pose proof (polys_len _ _ _ _ _ _ _ Eu) as Lr. pose proof (polys_ntt k q L t key EK fuel d _ _ _ Eu) as Nr.
  assert (Lh : length hs = d) by (rewrite <- (RnsProofs.Forall2_len _ _ _ P1); exact P2).
  pose (mk := fun xs => {| rk_dim := gadget_size (sk_p key) logT; rk_num := num; rk_logT := logT; rk_T := import_int (sk_p key) (2 ^ logT); rk_pow := int32 power; rk_p := sk_p key;
            rk_np := sk_np key; rk_parts := cut logT dim count (map2 (top key) (combine pows rs) xs) rs; rk_seed := seed; rk_type := ty |}).
  exists (fun es => mk (map (map (imp (sk_p key))) es)). split.
  - intros es HE. cbn [mk rk_parts rk_num rk_logT rk_pow rk_p rk_np rk_seed rk_type].
    destruct (cut_concat logT dim count (map2 (top key) (combine pows rs) (map (map (imp (sk_p key))) es)) rs) as (X1 & X2 & X3 & X4).
    { rewrite map2_length; rewrite combine_length, ?map_length; destruct HE; lia. }
    { exact Lr. }
    rewrite X1, X2, X3. split; [|repeat split; try reflexivity; try exact X4; exact I32]. rewrite <- Lh in HE. apply (tops_enc k q L t key EK hs pows P1 rs es Nr ltac:(lia) HE).
  - intros test N HN. rewrite (draw_count k q (sk_p key) (sk_var key) (2 ^ L) (ko_params _ _ _ _ _ K) Hv Hq d mk _ test N HN); [reflexivity|].
    intros ds. unfold relin_create. unfold identical_base. rewrite I32. destruct (Z.ltb_spec num (if power =? 1 then 3 else 2)); [lia|].
    destruct (Z.leb_spec logT 0); [lia|]. rewrite Z.gtb_ltb. destruct (Z.ltb_spec (p_logm (sk_p key)) logT); [lia|]. unfold key_substitute.
    rewrite (t_word_ok _ _ (proj1 C)) by lia. cbn [bind]. rewrite Eb. cbn [bind]. rewrite KT. cbn [negb gf_start gf_prng tape_fam bind sk_key].
    assert (EF : first_index power = Z.of_nat first) by (unfold first_index, identical_base, first; rewrite I32; destruct (power =? 1); reflexivity). rewrite EF.
    replace (Z.to_nat (num - Z.of_nat first)) with count by (unfold count; lia). fold dim. rewrite (P3 rs seed rest ds Eu).
    destruct (draw (sk_p key) (2 ^ L) (sk_var key) d ds) as [[xs s]| |]; try reflexivity. cbn [bind succeeds]. unfold mk. rewrite I32. reflexivity.
Qed.

(** Given enough bytes for the errors, the three calls succeed on every tape. *)
Theorem C99_never_fails :
  (forall k q L pk pt var N, params_for k q (pk_p pk) -> ntt_for (pk_p pk) L (pk_np pk) -> k <> 16 -> 0 < var <= 256 -> 4 * var < q ->
   ntt_poly (pk_p pk) L (pk_a pk) -> ntt_poly (pk_p pk) L (pk_b pk) -> ntt_poly (pk_p pk) L pt -> stored (pk_p pk) (pk_t pk) -> (3 * error_bytes var (2 ^ L) <= N)%nat ->
   count_tapes N (fun ds => passes_one (fun _ => true) (pub_encrypt tape pk pt var ds)) = 256 ^ Z.of_nat N) /\
  (forall k q L t key fuel var ty seed u rest N, enc_key k q L t key -> k <> 16 -> 0 < var <= 256 -> 4 * var < q -> known_type ty = true ->
   sample_polynomial tape fuel (Z.of_nat (2 ^ L)) (sk_p key) seed = Ok (u, rest) -> (error_bytes var (2 ^ L) <= N)%nat ->
   count_tapes N (fun ds => succeeds (fun _ => true) (pub_create tape_fam fuel key var ty seed ds)) = 256 ^ Z.of_nat N) /\
  (forall k q L t key fuel ty num logT power seed rs rest N, enc_key k q L t key -> 0 <= sk_var key <= 256 -> 4 * sk_var key < q ->
   0 <= sk_logt key < k -> known_type ty = true -> 1 <= logT <= p_logm (sk_p key) -> 0 < power < 2 * Z.of_nat (2 ^ L) -> Z.odd power = true ->
   (if power =? 1 then 3 else 2) <= num ->
   let d := ((Z.to_nat num - (if (power =? 1)%Z then 2 else 1)) * Z.to_nat (gadget_size (sk_p key) logT))%nat in
   uniform_polys fuel (sk_p key) (2 ^ L) d seed = Ok (rs, rest) -> (d * error_bytes (sk_var key) (2 ^ L) <= N)%nat ->
   count_tapes N (fun ds => succeeds (fun _ => true) (relin_create tape_fam fuel key ty num logT power seed ds)) = 256 ^ Z.of_nat N).
Proof.
  split; [|split].
  - intros k q L pk pt var N PF HN K16 Hv Hq Ha Hb Hpt St HB.
    destruct (C99_encrypt k q L _ pk pt var PF HN K16 Hv Hq Ha Hb Hpt St eq_refl) as (x & _ & E). rewrite (E (fun _ => true) N HB). cbn [Z.b2z].
    pose proof (rounds_one k q (pk_p pk) var (2 ^ L) PF ltac:(lia) Hq 3) as O. cbn [over_rounds] in O. rewrite O. revert HB. generalize (3 * error_bytes var (2 ^ L))%nat as M. intros M HB.
    rewrite <- Z.pow_add_r by lia. f_equal. lia.
  - intros k q L t key fuel var ty seed u rest N EK K16 Hv Hq KT Eu HB.
    destruct (C99_public k q L t key fuel var ty seed u rest EK K16 Hv Hq KT Eu) as (x & _ & E). rewrite (E (fun _ => true) N HB). cbn [Z.b2z].
    pose proof (rounds_one k q (sk_p key) var (2 ^ L) (ko_params _ _ _ _ _ (ek_key _ _ _ _ _ EK)) ltac:(lia) Hq 1) as O. cbn [over_rounds Nat.mul] in O. rewrite Nat.add_0_r in O. rewrite O.
    rewrite <- Z.pow_add_r by lia. f_equal. lia.
  - intros k q L t key fuel ty num logT power seed rs rest N EK Hv Hq Hl KT HT Hp Ho Hnum d Eu HB.
    destruct (C99_relin k q L t key fuel ty num logT power seed rs rest EK Hv Hq Hl KT HT Hp Ho Hnum Eu) as (x & _ & E). specialize (E (fun _ => true) N HB). cbn [Z.b2z] in E.
    etransitivity; [exact E|]. fold d.
    pose proof (rounds_one k q (sk_p key) (sk_var key) (2 ^ L) (ko_params _ _ _ _ _ (ek_key _ _ _ _ _ EK)) Hv Hq d) as O. rewrite O. revert HB. generalize (d * error_bytes (sk_var key) (2 ^ L))%nat as M. intros M HB.
    rewrite <- Z.pow_add_r by lia. f_equal. lia.
Qed.

(** Degree 8, q = 786433, t = 3, variance 1. A public key takes 64 bytes of pad
    and 16 of errors, an encryption 48, a relinearization key for three
    components in base 2^4 has 5 columns, 320 bytes of pads and 80 of errors; a
    Galois key for X^5 as well. One byte less is too little. *)
Definition bytes99 (n : nat) : list Z := map (fun i => Z.of_nat (i * 7 mod 11)) (seq 0 n).
Definition yes {A : Type} (_ : A) : bool := true.
Definition pk99 : pkey := Eval vm_compute in
  match pub_create tape_fam 1 keyr 1 1 (bytes99 64) (bytes99 16) with Ok pk => pk
  | _ => {| pk_a := []; pk_b := []; pk_seed := []; pk_type := 0; pk_t := 0; pk_np := npr; pk_p := pr |} end.
Example C99_example :
  forallb (fun x : bool => x) [succeeds yes (pub_create tape_fam 1 keyr 1 1 (bytes99 64) (bytes99 16));
    negb (succeeds yes (pub_create tape_fam 1 keyr 1 1 (bytes99 64) (bytes99 15)));
    passes_one yes (pub_encrypt tape pk99 mr 1 (bytes99 48)); negb (passes_one yes (pub_encrypt tape pk99 mr 1 (bytes99 47)));
    succeeds (fun rk => (length (concat (map pt_top (rk_parts rk))) =? 5)%nat) (relin_create tape_fam 1 keyr 1 3 4 1 (bytes99 320) (bytes99 80));
    negb (succeeds yes (relin_create tape_fam 1 keyr 1 3 4 1 (bytes99 319) (bytes99 80))); negb (succeeds yes (relin_create tape_fam 1 keyr 1 3 4 1 (bytes99 320) (bytes99 79)));
    succeeds (fun rk => (length (concat (map pt_top (rk_parts rk))) =? 5)%nat) (galois_create tape_fam 1 keyr 1 5 4 (bytes99 320) (bytes99 80));
    match uniform_polys 1 pr 8 5 (bytes99 320) with Ok (rs, []) => (length rs =? 5)%nat | _ => false end] = true /\
  gadget_size pr 4 = 5 /\ error_bytes 1 8 = 16%nat /\ nbytes (attempt_widths (p_logm pr)) = 8%nat /\
  enc_key 32 786433 3 3 keyr /\ sk_var keyr = 1 /\ sk_logt keyr = 1 /\ p_logm pr = 20 /\
  params_for 32 786433 (pk_p pk99) /\ ntt_for (pk_p pk99) 3 (pk_np pk99) /\ ntt_poly (pk_p pk99) 3 (pk_a pk99) /\ ntt_poly (pk_p pk99) 3 (pk_b pk99) /\ ntt_poly (pk_p pk99) 3 mr /\
  stored (pk_p pk99) (pk_t pk99) /\ export_int (pk_p pk99) (pk_t pk99) = 3.
Proof.
  assert (NP : forall a : list Z, (length a =? 8)%nat && forallb (fun x => (0 <=? x) && (x <=? 786433)) a = true -> ntt_poly pr 3 a).
  { intros a H. apply andb_prop in H. destruct H as [H1 H2]. apply Nat.eqb_eq in H1. split; [exact H1|]. rewrite forallb_forall in H2. apply Forall_forall. intros x Hx. specialize (H2 x Hx).
    apply andb_prop in H2. unfold stored. change (p_m pr) with 786433. lia. }
  destruct keyr_ok as (EK & Ev & _). change (pk_p pk99) with pr. change (pk_np pk99) with npr.
  split; [vm_compute; reflexivity|]. split; [vm_compute; reflexivity|]. split; [vm_compute; reflexivity|]. split; [vm_compute; reflexivity|]. split; [exact EK|]. split; [exact Ev|].
  split; [vm_compute; reflexivity|]. split; [vm_compute; reflexivity|]. split; [exact pr_for|]. split; [exact npr_for|]. split; [apply NP; vm_compute; reflexivity|]. split; [apply NP; vm_compute; reflexivity|].
  split; [apply NP; vm_compute; reflexivity|]. split; [|vm_compute; reflexivity]. unfold stored. change (p_m pr) with 786433. let x := eval vm_compute in (pk_t pk99) in change (pk_t pk99) with x. lia.
Qed.
Print Assumptions C99_pads.
Print Assumptions C99_encrypt.
Print Assumptions C99_public.
Print Assumptions C99_relin.
Print Assumptions C99_never_fails.
Print Assumptions C99_example.
