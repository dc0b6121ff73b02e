(** Property C86: the coefficient polynomials and ciphertexts that the tests
    use as a reference compute what the polynomials in NTT form compute. *)
From Coq Require Import Arith.
From Verif Require Import Base FinSum PolySpec Montgomery MontBatch Ntt Poly Spec PolyView ArithFacts NttFacts PolyFacts SymEnc SymSpec
  CoeffPoly CoeffSpec CoeffProofs CoeffProofs2 ThmPoly ThmSymEnc.

(** ** The ring Z[X]/(X^n+1), for every n *)

Theorem C86_ring :
  forall k m p n a b, params_for k m p -> (0 < n)%nat -> length a = n -> length b = n ->
  Forall (stored p) a -> Forall (stored p) b ->
  let f := cvalue p a in let g := cvalue p b in
  returns p n (cpoly_add p a b) (fun i => f i + g i) /\
  returns p n (cpoly_sub p a b) (fun i => f i - g i) /\
  returns p n (cpoly_mul p a b) (negacyclic n f g) /\
  (forall s, stored p s -> returns p n (Ok (cpoly_scale p a s)) (fun i => export_int p s * f i)) /\
  (forall e, 0 <= e < 2 * Z.of_nat n -> returns p n (cpoly_monomial p a e) (negacyclic n f (xpow n (Z.to_nat e)))) /\
  (forall e, 0 < e < 2 * Z.of_nat n -> Z.odd e = true -> Nat.gcd (Z.to_nat e) n = 1%nat ->
     returns p n (cpoly_substitute p a e) (substituted n (Z.to_nat e) f)).
Proof.
  intros k m p n a b H Hn La Lb Sa Sb f g. pose proof (pf_good _ _ _ H) as (G & _).
  pose proof (stored_holds p n a G La Sa) as Ha. pose proof (stored_holds p n b G Lb Sb) as Hb. fold f in Ha. fold g in Hb.
  assert (R : forall r h, (exists v, r = Ok v /\ chold p n v h) -> returns p n r h).
  { intros r h (v & -> & Hv). apply chold_returns; assumption. }
  split; [apply R, cadd_ok; assumption|]. split; [apply R, csub_ok; assumption|]. split; [apply R, cmul_ok; assumption|].
  split; [|split].
  - intros s Hs. apply chold_returns; [exact G|]. apply cscale_ok; try assumption. rewrite stored_val by assumption. reflexivity.
  - intros e He. apply R. destruct (cmonomial_ok p G n a f e Ha He) as (c & E & [Hc Cc]). exists c. split; [exact E|]. split; [|exact Cc].
    eapply PolyProofs.holds_ext; [exact Hc|]. intros i Hi. apply nega_ext; [exact Hi|reflexivity|]. intros j _. apply cong_eq.
    apply xpow_mono. lia.
  - intros e He Ho Hg. apply R, csubst_ok; assumption.
Qed.

(** calls that are refused *)
Theorem C86_ring_rejects :
  forall p a b, 
  (length a <> length b -> cpoly_add p a b = Err InvalidArgument /\ cpoly_sub p a b = Err InvalidArgument /\ cpoly_mul p a b = Err InvalidArgument) /\
  (forall e, e < 0 \/ 2 * Z.of_nat (length a) <= e ->
     cpoly_monomial p a e = Err InvalidArgument /\ cpoly_substitute p a e = Err InvalidArgument) /\
  (forall e, Z.even e = true -> cpoly_substitute p a e = Err InvalidArgument).
Proof.
  intros p a b. split; [|split].
  - intros H. assert (E : same_len a b = false).
    { apply Bool.not_true_iff_false. rewrite MontBatchProofs.same_len_spec. exact H. }
    unfold cpoly_add, cpoly_sub, cpoly_mul. rewrite E. repeat split.
  - intros e H. unfold cpoly_monomial, cpoly_substitute. rewrite Z.gtb_ltb, Z.geb_leb.
    destruct (Z.ltb_spec e 0); [split; reflexivity|]. destruct (Z.leb_spec (2 * Z.of_nat (length a)) e); [|lia].
    rewrite !orb_true_r. split; reflexivity.
  - intros e H. apply Z.even_spec in H. destruct H as [h ->]. unfold cpoly_substitute.
    rewrite Z.mul_comm, Z.rem_mul by lia. rewrite Z.eqb_refl, orb_true_r. reflexivity.
Qed.

(** Comparison decides equality of values, for polynomials of the same length. *)
Theorem C86_equality :
  forall k m p n a b, params_for k m p -> (0 < n)%nat -> length a = n -> length b = n ->
  Forall (reduced p) a -> Forall (reduced p) b ->
  exists r, cpoly_eqb p a b = Ok r /\ (r = true <-> forall i, (i < n)%nat -> cvalue p a i = cvalue p b i).
Proof.
  intros k m p n a b H Hn La Lb Ra Rb. pose proof (pf_good _ _ _ H) as (G & _).
  destruct (ceqb_ok p G n a b Hn La Lb Ra Rb) as (r & E & Hr). exists r. split; [exact E|]. rewrite Hr. split; [intros ->; reflexivity|].
  assert (St : forall v, Forall (reduced p) v -> Forall (stored p) v).
  { intros v F. eapply Forall_impl; [|exact F]. intros x. unfold reduced, stored. lia. }
  intros V. eapply (chold_eq p n a b _ _ G).
  - split; [apply (stored_holds p n a G La (St a Ra))|exact Ra].
  - split; [apply (stored_holds p n b G Lb (St b Rb))|exact Rb].
  - intros i Hi. apply cong_eq. apply V, Hi.
Qed.

(** A polynomial survives serialization. *)
Theorem C86_serialize :
  forall k m p a, params_for k m p -> Forall (stored p) a -> (0 < length a)%nat -> Z.of_nat (length a) <= 2 ^ 15 ->
  exists s, cpoly_serialize p a = Ok s /\ sp_num s = Z.of_nat (length a) /\ cpoly_deserialize p s = Ok a.
Proof.
  intros k m p a H Ha Hl Hmax. pose proof (pf_good _ _ _ H) as (G & _).
  destruct (MontBatchProofs.serialize_vector_ok p G a Hl Hmax) as (s & E & _ & _ & D).
  { eapply Forall_impl; [|exact Ha]. intros x Hx. apply MontBatchProofs.rep_logm; assumption. }
  unfold cpoly_serialize. rewrite E. cbn [bind]. eexists. split; [reflexivity|]. split; [reflexivity|].
  unfold cpoly_deserialize. cbn [sp_num sp_coeffs]. destruct (Z.ltb_spec (Z.of_nat (length a)) 0); [lia|]. exact D.
Qed.

(** ** Agreement with the polynomials in NTT form *)

(** va and vb are what InverseNtt gives for a and b. *)
Theorem C86_ntt_agrees :
  forall k m p L np a b va vb, params_for k m p -> ntt_for p L np -> ntt_poly p L a -> ntt_poly p L b ->
  inverse_ntt_poly p np a = Ok va -> inverse_ntt_poly p np b = Ok vb ->
  (do! c <- poly_add p a b; inverse_ntt_poly p np c) = cpoly_add p va vb /\
  (do! c <- poly_sub p a b; inverse_ntt_poly p np c) = cpoly_sub p va vb /\
  (do! c <- poly_mul p a b; inverse_ntt_poly p np c) = cpoly_mul p va vb /\
  (forall s, stored p s -> (do! c <- poly_mul_scalar p a s; inverse_ntt_poly p np c) = Ok (cpoly_scale p va s)) /\
  (forall e, (do! c <- poly_substitute np a e; inverse_ntt_poly p np c) = cpoly_substitute p va e) /\
  (forall e x, 0 <= e < 2 * Z.of_nat (2 ^ L) -> ntt_poly p L x ->
     (forall i, (i < 2 ^ L)%nat -> coeff p np x i = xpow (2 ^ L) (Z.to_nat e) i mod m) ->
     (do! c <- poly_mul p a x; inverse_ntt_poly p np c) = cpoly_monomial p va e).
Proof.
  intros k m p L np a b va vb H HN Na Nb Ea Eb. destruct (mk_ctx k m p L np H HN) as (C & _ & Em).
  pose proof (inv_twin p L np C a va Na Ea) as Ta. pose proof (inv_twin p L np C b vb Nb Eb) as Tb.
  assert (R : forall r r', (exists c u, r = Ok c /\ r' = Ok u /\ twin p L np c u) -> (do! c <- r; inverse_ntt_poly p np c) = r').
  { intros r r' (c & u & -> & -> & T). cbn [bind]. apply (twin_inv p L np C), T. }
  split; [apply R, (twin_add p L np C); assumption|]. split; [apply R, (twin_sub p L np C); assumption|].
  split; [apply R, (twin_mul p L np C); assumption|]. split; [|split].
  - intros s Hs. destruct (twin_scale p L np C a va s Ta Hs) as (c & E & T). rewrite E. cbn [bind]. apply (twin_inv p L np C), T.
  - intros e. assert (D : (0 < e < 2 * Z.of_nat (2 ^ L) /\ Z.odd e = true) \/ ~ (0 < e < 2 * Z.of_nat (2 ^ L) /\ Z.odd e = true)).
    { destruct (Z_lt_dec 0 e) as [Q1|Q1], (Z_lt_dec e (2 * Z.of_nat (2 ^ L))) as [Q2|Q2], (Z.odd e) eqn:Ev;
        try (right; intros [[? ?] ?]; (lia || congruence)). left. repeat split; assumption. }
    destruct D as [[D1 D2]|D]; [apply R, (twin_subst p L np C); assumption|].
    destruct (subst_rejects p L np a va e Ta D) as [A B]. rewrite A, B. reflexivity.
  - intros e x He Nx Vx. apply R, (twin_monomial p L np C); try assumption. intros i Hi. rewrite Vx, <- Em by exact Hi. apply cong_mod.
Qed.

(** ** Ciphertexts *)

(** Converting two ciphertexts to coefficients and computing there is computing
    with the ciphertexts and converting the result. *)
Theorem C86_ciphertext :
  forall k m p L np x y, params_for k m p -> ntt_for p L np ->
  ct_p x = p -> ct_p y = p -> ct_c x <> [] -> ct_c y <> [] ->
  Forall (ntt_poly p L) (ct_c x) -> Forall (ntt_poly p L) (ct_c y) ->
  (do! u <- cct_of np x; do! v <- cct_of np y; cct_add u v) = (do! z <- ct_add x y; cct_of np z) /\
  (forall e, (do! u <- cct_of np x; cct_substitute u e) = (do! z <- ct_substitute np e x; cct_of np z)) /\
  (forall e b, 0 <= e < 2 * Z.of_nat (2 ^ L) -> ntt_poly p L b ->
     (forall i, (i < 2 ^ L)%nat -> coeff p np b i = xpow (2 ^ L) (Z.to_nat e) i mod m) ->
     (do! u <- cct_of np x; cct_monomial u e) = (do! z <- ct_absorb x b; cct_of np z)).
Proof.
  intros k m p L np x y H HN Px Py Nx Ny Fx Fy. destruct (mk_ctx k m p L np H HN) as (C & _ & Em).
  destruct (cct_of_ok p L np C x Px Nx Fx) as (u & Eu & Tu). destruct (cct_of_ok p L np C y Py Ny Fy) as (v & Ev & Tv).
  rewrite Eu, Ev. cbn [bind]. split; [apply (add_ct p L np C); assumption|]. split.
  - intros e. apply (subst_ct p L np C), Tu.
  - intros e b He Hb Vb. apply (absorb_ct p L np C x u b e Tu Hb He). intros i Hi. rewrite Vb, <- Em by exact Hi. apply cong_mod.
Qed.

(** Converting to coefficients and back changes neither the components nor the
    message a key decrypts. *)
Theorem C86_convert :
  forall k q L t key x, key_ok k q L t key -> ct_ok L key x -> ct_c x <> [] ->
  exists u y, cct_of (sk_np key) x = Ok u /\ cct_to_ntt (sk_np key) u = Ok y /\ ct_ok L key y /\
    ct_pow y = ct_pow x /\ length (ct_c y) = length (ct_c x) /\
    (forall i j, (i < length (ct_c x))%nat -> (j < 2 ^ L)%nat -> component (sk_np key) y i j = component (sk_np key) x i j) /\
    decrypt key y = decrypt key x.
Proof.
  intros k q L t key x K Hx Nx. pose proof (SymFacts.key_ctx k q L t key K) as C. destruct (Hx) as [Px Fx].
  destruct (cct_of_ok _ L _ C x Px Nx Fx) as (u & Eu & Tu). destruct (to_ntt_ok _ L _ C x u Tu) as (y & Ey & Py & Ep & Ly & Fy & Vy).
  assert (Hy : ct_ok L key y) by (split; assumption). exists u, y. repeat (split; [assumption|]).
  apply (decrypt_components k q L t key x y K Hx Hy Ly Vy).
Qed.

(** ** What goes wrong outside these conditions *)

(** Substitute checks that the power is odd, not that it is prime to the
    length: for every other length than a power of two there are odd powers for
    which it writes past the end. *)
Theorem C86_substitute_refuted :
  forall k m p a e, params_for k m p -> 0 < e < 2 * Z.of_nat (length a) -> Z.odd e = true ->
  Nat.gcd (Z.to_nat e) (length a) <> 1%nat -> cpoly_substitute p a e = UB.
Proof. intros k m p a e H He Ho Hg. pose proof (pf_good _ _ _ H) as (G & _). apply csubst_ub; assumption. Qed.

(** Polynomials of different lengths compare equal; without coefficients the
    comparison reads out of bounds; a message with a negative number of
    coefficients is not refused. *)
Theorem C86_edges_refuted :
  (exists a b, Forall (stored p97) a /\ Forall (stored p97) b /\ length a <> length b /\ cpoly_eqb p97 a b = Ok true) /\
  (forall p, cpoly_eqb p [] [] = UB) /\
  (forall p s, sp_num s < 0 -> cpoly_deserialize p s = UB).
Proof.
  split; [|split].
  - exists [import_one p97], [import_one p97; 0; 0]. split; [|split; [|split; [discriminate|vm_compute; reflexivity]]].
    + constructor; [|constructor]. unfold stored. vm_compute. split; discriminate.
    + constructor; [|constructor; [|constructor; [|constructor]]]; unfold stored; vm_compute; split; discriminate.
  - intros p. reflexivity.
  - intros p s H. unfold cpoly_deserialize. destruct (Z.ltb_spec (sp_num s) 0); [reflexivity|lia].
Qed.

(** ** Examples *)

(** length 6, not a power of two: the power 5 is fine, 3 is not *)
Definition c6 : list Z := Eval vm_compute in map (import_int p97) [1; 2; 3; 4; 5; 6].
Example C86_example_ring :
  length c6 = 6%nat /\ Forall (reduced p97) c6 /\ Nat.gcd 5 6 = 1%nat /\
  (do! v <- cpoly_mul p97 c6 c6; Ok (map (export_int p97) v)) = Ok [28; 25; 34; 57; 96; 56] /\
  (do! v <- cpoly_monomial p97 c6 8; Ok (map (export_int p97) v)) = Ok [5; 6; 96; 95; 94; 93] /\
  (do! v <- cpoly_substitute p97 c6 5; Ok (map (export_int p97) v)) = Ok [1; 6; 92; 4; 94; 2] /\
  cpoly_substitute p97 c6 3 = UB /\ cpoly_eqb p97 c6 c6 = Ok true /\ cpoly_eqb p97 c6 (upd c6 2 1) = Ok false.
Proof.
  split; [reflexivity|]. split.
  - apply Forall_forall. intros x Hx. assert (F : forallb (fun x => (0 <=? x) && (x <? 97)) c6 = true) by (vm_compute; reflexivity).
    rewrite forallb_forall in F. apply F, andb_true_iff in Hx. destruct Hx as [H1 H2]. apply Z.leb_le in H1. apply Z.ltb_lt in H2.
    split; assumption.
  - vm_compute. repeat split; reflexivity.
Qed.

(** two ciphertexts, the second with three components, and X^3 in NTT form *)
Definition x8 : ct := Eval vm_compute in enc97 m8 99.
Definition y8 : ct := Eval vm_compute in with_c x8 (ct_c (enc97 m8 100) ++ [poly8 [1; 0; 0; 5; 0; 0; 0; 2]]).
Definition b3 : poly := Eval vm_compute in poly8 [0; 0; 0; 1; 0; 0; 0; 0].

Example C86_example_ciphertext :
  ct_p x8 = p97 /\ ct_p y8 = p97 /\ length (ct_c x8) = 2%nat /\ length (ct_c y8) = 3%nat /\
  Forall (ntt_poly p97 3) (ct_c x8) /\ Forall (ntt_poly p97 3) (ct_c y8) /\ ntt_poly p97 3 b3 /\
  (forall i, (i < 8)%nat -> coeff p97 np8 b3 i = xpow 8 3 i mod 97) /\
  exists w z, (do! u <- cct_of np8 x8; do! v <- cct_of np8 y8; cct_add u v) = Ok w /\ ct_add x8 y8 = Ok z /\ length (cc_c w) = 3%nat /\
    (do! u <- cct_of np8 x8; do! u <- cct_monomial u 3; do! y <- cct_to_ntt np8 u; decrypt key97 y) = Ok [0; 0; 2; 0; 1; 2; 2; 1].
Proof.
  assert (D : forall c, forallb (fun a => (length a =? 8)%nat && forallb (fun x => (0 <=? x) && (x <=? 97)) a) c = true -> Forall (ntt_poly p97 3) c).
  { intros c H. apply Forall_forall. intros a Ha. rewrite forallb_forall in H. apply H, andb_true_iff in Ha. destruct Ha as [H1 H2].
    split; [apply Nat.eqb_eq, H1|]. apply Forall_forall. intros x Hx. rewrite forallb_forall in H2. apply H2, andb_true_iff in Hx.
    destruct Hx as [A B]. apply Z.leb_le in A, B. split; assumption. }
  split; [reflexivity|]. split; [reflexivity|]. split; [reflexivity|]. split; [reflexivity|].
  split; [apply D; vm_compute; reflexivity|]. split; [apply D; vm_compute; reflexivity|].
  split; [apply (Forall_inv (D [b3] ltac:(vm_compute; reflexivity)))|]. split.
  - assert (E : forallb (fun i => coeff p97 np8 b3 i =? xpow 8 3 i mod 97) (seq 0 8) = true) by (vm_compute; reflexivity).
    intros i Hi. rewrite forallb_forall in E. specialize (E i ltac:(apply in_seq; lia)). apply Z.eqb_eq, E.
  - eexists. eexists. split; [vm_compute; reflexivity|]. split; [vm_compute; reflexivity|]. split; [reflexivity|vm_compute; reflexivity].
Qed.

Print Assumptions C86_ring.
Print Assumptions C86_ring_rejects.
Print Assumptions C86_equality.
Print Assumptions C86_serialize.
Print Assumptions C86_ntt_agrees.
Print Assumptions C86_ciphertext.
Print Assumptions C86_convert.
Print Assumptions C86_substitute_refuted.
Print Assumptions C86_edges_refuted.
