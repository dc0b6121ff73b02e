(** C100: the distribution of seed-compressed encryptions
    (symmetric_encryption_with_prng.h). The masks are drawn from one tape, the
    errors from another; C99_pads says that the masks are uniform. *)
From Coq Require Import Znumtheory Lia Arith.
From Verif Require Import Base FinSum PolySpec Ring ZLemmas Montgomery MontBatch Ntt Poly PolyExt Prng Sampling SampleSpec MontgomeryProofs
  MontBatchProofs NttIndex NttMath NttProofs Spec PolyView ArithFacts NttFacts PolyProofs PolyFacts PolyExtProofs SampleProofs SampleErrProofs
  SymEnc SymSpec SymProofs ThmSample SymProofs2 SymFacts SymSwitch ThmPoly ThmSymEnc Relin RelinSpec RelinProofs ThmRelin
  DistSpec DistProofs TapeSpec TapeProofs TapeRns EndSpec EndProofs PubTapeSpec PubTape KeyTapeSpec KeyTape OneTapeSpec OneTape ThmOneTape.
Local Opaque error_widths error_count.

(** the call succeeded and its polynomials pass the test *)
Definition passes_list (test : list poly -> bool) (res : result (list poly * (list Z * list Z))) : bool :=
  match res with Ok (cs, _) => test cs | _ => false end.

(** cs are the polynomials m_j + t e_j + a_j s *)
Definition masked (L : nat) (t : Z) (key : skey) (pts masks : list poly) (es : list (list Z)) (cs : list poly) : Prop :=
  length cs = length pts /\ forall j c m a e, nth_error cs j = Some c -> nth_error pts j = Some m -> nth_error masks j = Some a -> nth_error es j = Some e ->
    poly_is (sk_p key) (sk_np key) L c (fun i => coeff (sk_p key) (sk_np key) m i + t * nth i e 0 +
      negacyclic (2 ^ L) (coeff (sk_p key) (sk_np key) a) (secret key) i).

Section Key.
Variables (k q : Z) (L : nat) (t : Z) (key : skey).
Hypothesis EK : enc_key k q L t key.
Hypothesis K16 : k <> 16.
Local Notation p := (sk_p key).
Local Notation np := (sk_np key).
Local Notation n := (2 ^ L)%nat.
Local Notation v := (sk_var key).
Local Notation is := (poly_is p np L).
Let K : key_ok k q L t key := ek_key _ _ _ _ _ EK.
Let C : ctx p L np := key_ctx k q L t key K.
Let Kp : p_k p <> 16.
Proof. rewrite (key_k k q L t key K). exact K16. Qed.

Definition body (m a : poly) (x : list Z) : result poly :=
  do! c0 <- convert_to_ntt p np x;
  do! c0 <- poly_mul_scalar p c0 (sk_t key);
  do! c0 <- poly_add p c0 m;
  poly_fused_mul_add p c0 a (sk_key key).
Definition first (ma : poly * poly) (x : list Z) : poly := match body (fst ma) (snd ma) x with Ok y => y | _ => [] end.
Lemma body_is m a x e : ntt_poly p L m -> ntt_poly p L a -> words p L x e -> body m a x = Ok (first (m, a) x) /\
  is (first (m, a) x) (fun i => coeff p np m i + t * e i + negacyclic n (coeff p np a) (secret key) i).
Proof.
  intros Hm Ha Hx. destruct (is_convert p L np C x e Hx) as (c & E1 & H1). destruct (is_scale p L np C c e (sk_t key) t H1 (ek_stored _ _ _ _ _ EK) (t_export' k q L t key EK)) as (c2 & E2 & H2).
  destruct (is_add p L np C c2 m _ _ H2 (is_self p L np C m Hm)) as (c3 & E3 & H3).
  destruct (is_fused p L np C c3 a (sk_key key) _ _ _ Kp H3 (is_self p L np C a Ha) (is_self p L np C _ (ko_key _ _ _ _ _ K))) as (c4 & E4 & H4).
  unfold first, body. cbn [fst snd]. rewrite E1. cbn [bind]. rewrite E2. cbn [bind]. rewrite E3. cbn [bind]. rewrite E4. split; [reflexivity|].
  apply (is_ext p L np C _ _ _ H4). intros i _. apply cong_eq. unfold secret. ring.
Qed.

Hypothesis Hv : 0 <= v <= 256.
Hypothesis Hq : 4 * v < q.

Lemma list_form fuel pts : forall masks s s' e, Forall (ntt_poly p L) pts -> uniform_polys fuel p n (length pts) s = Ok (masks, s') ->
  encrypt_with_prng tape tape fuel key pts s e = do! ' (xs, e') <- draw p n v (length pts) e; Ok (map2 first (combine pts masks) xs, (s', e')).
Proof.
  pose proof (key_q k q L t key K) as Eq.
  induction pts as [|m pts IH]; intros masks s s' e F E; cbn [length uniform_polys] in E.
  - injection E as <- <-. reflexivity.
  - inversion_clear F as [|? ? Hm F']. cbn [encrypt_with_prng length draw]. unfold encrypt_internal. rewrite (proj1 (ko_key _ _ _ _ _ K)). cbv zeta.
    change (pr_st tape) with (list Z) in *. destruct (sample_polynomial tape fuel (Z.of_nat n) p s) as [[a s1]| |] eqn:Er; try discriminate E. cbn [bind] in E |- *.
    destruct (uniform_polys fuel p n (length pts) s1) as [[rs1 s2]| |] eqn:E1; try discriminate E. cbn [bind] in E. injection E as <- <-.
    destruct (sample_polynomial_stored tape p _ _ _ _ _ (proj1 C) Er) as (Lr & _ & Rr). rewrite Nat2Z.id in Lr. assert (Na : ntt_poly p L a) by (split; assumption).
    destruct (sample_error tape p n v e) as [[x e1]| |] eqn:Ee; try reflexivity. cbn [bind].
    pose proof (words_sampled p L np C v e x e1 ltac:(lia) ltac:(lia) Ee) as Hx. destruct (body_is m a x _ Hm Na Hx) as [B _]. revert B. unfold body at 1.
    destruct (convert_to_ntt p np x) as [c1| |]; try discriminate. cbn [bind]. destruct (poly_mul_scalar p c1 (sk_t key)) as [c2| |]; try discriminate. cbn [bind].
    destruct (poly_add p c2 m) as [c3| |]; try discriminate. cbn [bind]. intros ->. cbn [bind]. rewrite (IH rs1 s1 s2 e1 F' E1).
    destruct (draw p n v (length pts) e1) as [[xs e2]| |]; reflexivity.
Qed.

Lemma list_masked pts : forall masks es, Forall (ntt_poly p L) pts -> Forall (ntt_poly p L) masks -> length masks = length pts -> rounds v n (length pts) es ->
  masked L t key pts masks es (map2 first (combine pts masks) (map (map (imp p)) es)).
Proof.
  induction pts as [|m pts IH]; intros masks es F Fm Lm [Le Fe].
  - destruct masks; [|discriminate Lm]. destruct es; [|discriminate Le]. split; [reflexivity|]. intros [|j]; intros; discriminate.
  - destruct masks as [|a masks]; [discriminate Lm|]. destruct es as [|e es]; [discriminate Le|]. inversion_clear F as [|? ? Hm F']. inversion_clear Fm as [|? ? Ha Fm']. inversion_clear Fe as [|? ? He Fe'].
    destruct (IH masks es F' Fm') as [IL IJ]; [cbn in Lm; lia|split; [cbn in Le; lia|exact Fe']|].
    cbn [combine map map2 length] in *. split; [cbn [length]; f_equal; exact IL|]. intros [|j] c m' a' e' Hc Hm' Ha' He'; [|exact (IJ j c m' a' e' Hc Hm' Ha' He')].
    cbn [nth_error] in Hc, Hm', Ha', He'. injection Hc as <-. injection Hm' as <-. injection Ha' as <-. injection He' as <-.
    exact (proj2 (body_is m a _ _ Hm Ha (words_imp p L np C v e He))).
Qed.

Lemma expand_form fuel cs : forall masks s s', Forall (ntt_poly p L) cs -> uniform_polys fuel p n (length cs) s = Ok (masks, s') ->
  expand_from_prng tape fuel p cs s = Ok (map2 (fun c a => ct_make p [c; poly_neg p a] 1) cs masks, s').
Proof.
  induction cs as [|c cs IH]; intros masks s s' F E; cbn [length uniform_polys] in E.
  - injection E as <- <-. reflexivity.
  - inversion_clear F as [|? ? Hc F']. cbn [expand_from_prng]. rewrite (proj1 Hc). change (pr_st tape) with (list Z) in *.
    destruct (sample_polynomial tape fuel (Z.of_nat n) p s) as [[a s1]| |]; try discriminate E. cbn [bind] in E |- *.
    destruct (uniform_polys fuel p n (length cs) s1) as [[rs1 s2]| |] eqn:E1; try discriminate E. cbn [bind] in E. injection E as <- <-. rewrite (IH rs1 s1 s2 F' E1). reflexivity.
Qed.
End Key.

(** EncryptWithPrng, given the masks a_j: for every test on the list of
    polynomials, the number of error tapes on which it passes is the sum over
    all error polynomials e_1, ..., e_d, with their binomial weights, of the test
    on the list m_j + t e_j + a_j s; and ExpandFromPrng with the same seed gives
    the ciphertexts (m_j + t e_j + a_j s, - a_j). *)
Theorem C100_encrypt :
  forall k q L t key fuel pts seed masks rest, enc_key k q L t key -> k <> 16 -> 0 <= sk_var key <= 256 -> 4 * sk_var key < q ->
  Forall (ntt_poly (sk_p key) L) pts -> uniform_polys fuel (sk_p key) (2 ^ L) (length pts) seed = Ok (masks, rest) ->
  exists cs : list (list Z) -> list poly,
    (forall es, rounds (sk_var key) (2 ^ L) (length pts) es ->
       masked L t key pts masks es (cs es) /\
       expand_from_prng tape fuel (sk_p key) (cs es) seed = Ok (map2 (fun c a => ct_make (sk_p key) [c; poly_neg (sk_p key) a] 1) (cs es) masks, rest)) /\
    forall test N, (length pts * error_bytes (sk_var key) (2 ^ L) <= N)%nat ->
      count_tapes N (fun ds => passes_list test (encrypt_with_prng tape tape fuel key pts seed ds)) =
      over_rounds (sk_var key) (2 ^ L) (length pts) (fun es => Z.b2z (test (cs es))) * 256 ^ Z.of_nat (N - length pts * error_bytes (sk_var key) (2 ^ L)).
Proof.
  intros k q L t key fuel pts seed masks rest EK K16 Hv Hq F Eu. pose proof (ek_key _ _ _ _ _ EK) as K.
  pose proof (polys_len _ _ _ _ _ _ _ Eu) as Lm. pose proof (polys_ntt k q L t key EK fuel _ _ _ _ Eu) as Nm.
  pose (mk := fun xs => map2 (first key) (combine pts masks) xs). exists (fun es => mk (map (map (imp (sk_p key))) es)). split.
  - intros es HE. pose proof (list_masked k q L t key EK K16 pts masks es F Nm Lm HE) as M. split; [exact M|]. destruct M as [LM M]. apply (expand_form L key fuel).
    + apply Forall_forall. intros c Hc. destruct (In_nth_error _ _ Hc) as [j Hj].
      assert (Hlt : (j < length pts)%nat) by (rewrite <- LM; apply nth_error_Some; unfold mk in Hj; rewrite Hj; discriminate). destruct HE as [Le _].
      destruct (nth_error pts j) as [m|] eqn:Em; [|apply nth_error_None in Em; lia]. destruct (nth_error masks j) as [a|] eqn:Ea; [|apply nth_error_None in Ea; lia].
      destruct (nth_error es j) as [e|] eqn:Ee; [|apply nth_error_None in Ee; lia]. exact (proj1 (M j c m a e Hj Em Ea Ee)).
    + unfold mk. rewrite LM. exact Eu.
  - intros test N HN. rewrite (draw_count k q (sk_p key) (sk_var key) (2 ^ L) (ko_params _ _ _ _ _ K) Hv Hq (length pts) mk _ test N HN); [reflexivity|].
    intros ds. rewrite (list_form k q L t key EK K16 Hv Hq fuel pts masks seed rest ds F Eu). destruct (draw (sk_p key) (2 ^ L) (sk_var key) (length pts) ds) as [[xs s]| |]; reflexivity.
Qed.

(** Given enough bytes it succeeds on every error tape. *)
Theorem C100_never_fails :
  forall k q L t key fuel pts seed masks rest N, enc_key k q L t key -> k <> 16 -> 0 <= sk_var key <= 256 -> 4 * sk_var key < q ->
  Forall (ntt_poly (sk_p key) L) pts -> uniform_polys fuel (sk_p key) (2 ^ L) (length pts) seed = Ok (masks, rest) ->
  (length pts * error_bytes (sk_var key) (2 ^ L) <= N)%nat ->
  count_tapes N (fun ds => passes_list (fun _ => true) (encrypt_with_prng tape tape fuel key pts seed ds)) = 256 ^ Z.of_nat N.
Proof.
  intros k q L t key fuel pts seed masks rest N EK K16 Hv Hq F Eu HB. destruct (C100_encrypt k q L t key fuel pts seed masks rest EK K16 Hv Hq F Eu) as (cs & _ & E).
  rewrite (E (fun _ => true) N HB). cbn [Z.b2z]. rewrite (rounds_one k q (sk_p key) (sk_var key) (2 ^ L) (ko_params _ _ _ _ _ (ek_key _ _ _ _ _ EK)) Hv Hq).
  revert HB. generalize (length pts * error_bytes (sk_var key) (2 ^ L))%nat as M. intros M HB. rewrite <- Z.pow_add_r by lia. f_equal. lia.
Qed.

(** Three plaintexts of degree 8: 192 bytes of masks and 48 of errors. *)
Definition pts100 : list poly := [mr; mr; mr].
Example C100_example :
  forallb (fun x : bool => x) [passes_list (fun cs => (length cs =? 3)%nat) (encrypt_with_prng tape tape 1 keyr pts100 (bytes99 192) (bytes99 48));
    negb (passes_list (fun _ => true) (encrypt_with_prng tape tape 1 keyr pts100 (bytes99 192) (bytes99 47)));
    negb (passes_list (fun _ => true) (encrypt_with_prng tape tape 1 keyr pts100 (bytes99 191) (bytes99 48)));
    passes_list (fun cs => match cs with [a; b; c] => negb (forallb (fun xy => fst xy =? snd xy) (combine a b)) | _ => false end)
      (encrypt_with_prng tape tape 1 keyr pts100 (bytes99 192) (bytes99 48));
    match uniform_polys 1 pr 8 3 (bytes99 192) with Ok (rs, []) => (length rs =? 3)%nat | _ => false end] = true /\
  enc_key 32 786433 3 3 keyr /\ sk_var keyr = 1 /\ sk_p keyr = pr /\ error_bytes 1 8 = 16%nat /\ Forall (ntt_poly pr 3) pts100.
Proof.
  destruct keyr_ok as (EK & Ev & Ep & _). split; [vm_compute; reflexivity|]. split; [exact EK|]. split; [exact Ev|]. split; [exact Ep|]. split; [vm_compute; reflexivity|].
  assert (H : ntt_poly pr 3 mr) by (destruct C99_example as (_ & _ & _ & _ & _ & _ & _ & _ & _ & _ & _ & _ & H & _); exact H). unfold pts100. exact (Forall_cons _ H (Forall_cons _ H (Forall_cons _ H (Forall_nil _)))).
Qed.
Print Assumptions C100_encrypt.
Print Assumptions C100_never_fails.
Print Assumptions C100_example.
