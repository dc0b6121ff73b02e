(** Property theorems C81 and C82: the arguments the RNS context factories
    accept, and the moduli the library ships. *)
From Coq Require Import Znumtheory.
From Verif Require Import Base FinSum PolySpec Ring Montgomery MontgomeryProofs Spec ArithFacts Ntt NttProofs NttFacts Poly PolyView ThmPoly
  PrimeCheck SymProofs2 RnsPoly RnsSpec RnsCtx RnsCtxSpec RnsCtxProofs Shipped ShippedSpec ShippedProofs.

(** ** C81 *)

(** Create: exactly the arguments that are accepted. Everything else is refused
    with InvalidArgument; no choice of prime moduli is undefined. *)
Theorem C81_create :
  forall k log_n qs ps t, word_size k -> Forall prime qs -> Forall prime ps -> qs ++ ps <> [] ->
  let accepted := 1 <= log_n <= 15 /\ t <> 0 /\ Forall (usable k log_n) (qs ++ ps) in
  (accepted -> exists c, ctx_create k log_n qs ps t = Ok c) /\
  (~ accepted -> ctx_create k log_n qs ps t = Err InvalidArgument).
Proof.
  intros k l qs ps t W Pq Pp Ne A. split; [|apply create_bad; assumption].
  intros (Hl & Ht & U). destruct (create_ok k l qs ps t W Pq Pp Hl Ht U) as (c & E & _). exists c. exact E.
Qed.

(** The BFV factory also needs an odd plaintext modulus that leaves two bits of
    the word free and shares no factor with a main modulus. *)
Theorem C81_create_bfv :
  forall k log_n qs ps t, word_size k -> Forall prime qs -> Forall prime ps -> qs ++ ps <> [] -> 1 < t ->
  let accepted := 1 <= log_n <= 15 /\ Forall (usable k log_n) (qs ++ ps) /\ Z.odd t = true /\ 4 * t <= 2 ^ k /\
                  Forall (fun q => Z.gcd q t = 1) qs in
  (accepted -> exists c, ctx_create_bfv k log_n qs ps t = Ok c) /\
  (~ accepted -> ctx_create_bfv k log_n qs ps t = Err InvalidArgument).
Proof.
  intros k l qs ps t W Pq Pp Ne T1 A. unfold A, ctx_create_bfv.
  assert (OD : Z.odd t = true <-> t mod 2 = 1).
  { rewrite Zmod_odd. destruct (Z.odd t); split; intros; try reflexivity; discriminate. }
  rewrite OD. clear OD.
  assert (B : (1 <= l <= 15 /\ t <> 0 /\ Forall (usable k l) (qs ++ ps)) \/ ~ (1 <= l <= 15 /\ t <> 0 /\ Forall (usable k l) (qs ++ ps))).
  { destruct (forall_usable_dec k l (qs ++ ps)); [|right; tauto]. destruct (Z_le_dec 1 l), (Z_le_dec l 15); try (right; lia). left. split; [lia|]. split; [lia|assumption]. }
  destruct B as [(Hl & Ht & U)|B].
  - destruct (create_ok k l qs ps t W Pq Pp Hl Ht U) as (c & E & Et & _ & M). rewrite E. cbn [bind].
    assert (D : (4 * t <= 2 ^ k /\ t mod 2 = 1) \/ ~ (4 * t <= 2 ^ k /\ t mod 2 = 1)) by lia. destruct D as [[F O]|D].
    + pose proof (params_create_odd k t W ltac:(lia) O F) as Ep. rewrite Ep. cbn [bind].
      assert (PF : params_for k t (params_make k t)) by (split; [exact W|split; [exact T1|exact Ep]]).
      destruct (ctx_bfv_total k t (params_make k t) (with_pt c (params_make k t)) qs PF Et eq_refl M) as [I1 I2].
      split; [intros H; apply I1; tauto|intros N; apply I2; tauto].
    + rewrite params_create_bad; [|exact W|lia|exact D]. split; [intros H; exfalso; tauto|reflexivity].
  - rewrite create_bad; [|assumption..]. split; [intros (H1 & H2 & _); exfalso; apply B; split; [exact H1|]; split; [lia|exact H2]|reflexivity].
Qed.

(** The finite field factories, for a prime plaintext modulus: it must itself be
    usable for the degree; for BFV it must not be one of the main moduli. *)
Theorem C81_create_finite_field :
  forall k log_n qs ps t, word_size k -> Forall prime qs -> Forall prime ps -> qs ++ ps <> [] -> prime t ->
  let accepted := 1 <= log_n <= 15 /\ Forall (usable k log_n) (t :: qs ++ ps) in
  ((accepted -> exists c, ctx_create_bgv_ff k log_n qs ps t = Ok c) /\
   (~ accepted -> ctx_create_bgv_ff k log_n qs ps t = Err InvalidArgument)) /\
  ((accepted /\ ~ In t qs -> exists c, ctx_create_bfv_ff k log_n qs ps t = Ok c) /\
   (~ (accepted /\ ~ In t qs) -> ctx_create_bfv_ff k log_n qs ps t = Err InvalidArgument)).
Proof.
  intros k l qs ps t W Pq Pp Ne Pt A. unfold A, ctx_create_bgv_ff, ctx_create_bfv_ff. pose proof (prime_ge_2 t Pt) as T2.
  assert (B : (1 <= l <= 15 /\ t <> 0 /\ Forall (usable k l) (qs ++ ps)) \/ ~ (1 <= l <= 15 /\ t <> 0 /\ Forall (usable k l) (qs ++ ps))).
  { destruct (forall_usable_dec k l (qs ++ ps)); [|right; tauto]. destruct (Z_le_dec 1 l), (Z_le_dec l 15); try (right; lia). left. split; [lia|]. split; [lia|assumption]. }
  destruct (Z.eqb_spec (t mod 2) 0) as [E0|E0].
  { assert (N : ~ (1 <= l <= 15 /\ Forall (usable k l) (t :: qs ++ ps))).
    { intros [Hl U]. pose proof (usable_odd k l t ltac:(lia) (Forall_inv U)). lia. }
    split; (split; [intros H; exfalso; tauto|reflexivity]). }
  destruct B as [(Hl & Ht & U)|B].
  - destruct (create_ok k l qs ps t W Pq Pp Hl Ht U) as (c & E & Et & El & M). rewrite E. cbn [bind].
    unfold ctx_finite_field. rewrite Et, El. destruct (usable_dec k l t) as [Ut|Ut].
    + destruct (make_modulus_usable k l t W Pt Hl Ut) as [m Em]. rewrite Em. cbn [bind].
      split; [split; [intros _; eexists; reflexivity|intros N; exfalso; apply N; split; [exact Hl|constructor; assumption]]|].
      assert (exists L, l = Z.of_nat L) as [L EL] by (exists (Z.to_nat l); lia). rewrite EL in Em.
      destruct (make_modulus_ok k L t m W Pt Em) as [[PF _] Eq]. rewrite Eq in PF.
      match goal with |- (_ -> exists c', ctx_bfv ?x = Ok c') /\ _ => destruct (ctx_bfv_total k t (pm_p m) x qs PF eq_refl eq_refl M) as [I1 I2] end.
      assert (GI : Forall (fun q => Z.gcd q t = 1) qs <-> ~ In t qs).
      { split.
        - intros F I. rewrite Forall_forall in F. specialize (F t I). cbv beta in F. rewrite Z.gcd_diag in F. lia.
        - intros NI. apply Forall_forall. intros q I. rewrite Forall_forall in Pq. specialize (Pq q I).
          apply Zgcd_1_rel_prime. apply prime_rel_prime; [exact Pq|]. intros D. apply NI.
          rewrite (prime_div_prime q t Pq Pt D) in I. exact I. }
      rewrite GI in I1, I2. split; [intros [_ NI]; exact (I1 NI)|]. intros N. apply I2. intros NI. apply N.
      split; [|exact NI]. split; [exact Hl|]. constructor; assumption.
    + rewrite make_modulus_bad; [|exact W|exact Pt|tauto]. cbn [bind].
      assert (N : ~ (1 <= l <= 15 /\ Forall (usable k l) (t :: qs ++ ps))) by (intros [_ F]; apply Ut; exact (Forall_inv F)).
      split; (split; [intros H; exfalso; tauto|reflexivity]).
  - rewrite create_bad; [|assumption..].
    assert (N : ~ (1 <= l <= 15 /\ Forall (usable k l) (t :: qs ++ ps))).
    { intros [H1 H2]. apply B. split; [exact H1|]. split; [lia|exact (Forall_inv_tail H2)]. }
    split; (split; [intros H; exfalso; tauto|reflexivity]).
Qed.

(** The plaintext modulus of a BGV context is not compared with the main moduli:
    with t = q the table holds a zero for the inverse of t. *)
Theorem C81_plaintext_modulus_equal_to_prime_accepted :
  exists c, ctx_create 32 3 [97] [] 97 = Ok c /\ rc_t_inv_mod_qs c = [0].
Proof. eexists. split; [vm_compute; reflexivity|]. vm_compute. reflexivity. Qed.

(** Nor are moduli tested for primality: for degree 2 the modulus 33 = 3 * 11
    is refused only because no root is found, but 4097 = 17 * 241 is accepted. *)
Theorem C81_composite_accepted : exists c, ctx_create 32 1 [17 * 241] [] 5 = Ok c.
Proof. eexists. vm_compute. reflexivity. Qed.

Example C81_example :
  Forall prime [97; 193] /\ Forall (usable 16 4) [97; 193] /\ ~ usable 16 5 97 /\
  match ctx_create 16 4 [97; 193] [] 6 with Ok c => moduli (rc_qs c) = [97; 193] | _ => False end /\
  ctx_create 16 5 [97; 193] [] 6 = Err InvalidArgument /\ ctx_create_bfv 16 4 [97; 193] [] 6 = Err InvalidArgument.
Proof.
  split; [repeat (apply Forall_cons; [apply (prime_by_trial _ 20); [lia|vm_compute; reflexivity]|]); apply Forall_nil|].
  split; [repeat constructor; cbn; lia|]. split; [intros [_ E]; vm_compute in E; discriminate E|].
  split; [vm_compute; reflexivity|]. split; vm_compute; reflexivity.
Qed.

(** ** C82 *)

(** every modulus the library ships is prime *)
Theorem C82_prime :
  Forall (fun '(q, _) => prime q) shipped /\ Forall (fun '(qs, ps, _, _) => Forall prime (qs ++ ps)) shipped_rns.
Proof.
  split.
  - repeat apply Forall_cons; [exact prime_newhope|exact prime_m59|exact prime_m44|exact prime_m29|exact prime_m25|exact prime_m80|apply Forall_nil].
  - repeat apply Forall_cons; [exact prime_60q0|exact prime_60q1|exact prime_60p0|apply Forall_nil|exact prime_59q0|exact prime_59p0|apply Forall_nil|apply Forall_nil].
Qed.

(** the degrees each of them really supports *)
Definition largest : list (Z * Z) :=
  [(kNewhopeModulus, 11); (kModulus59, 11); (kModulus44, 10); (kModulus29, 11); (kModulus25, 13); (kModulus80, 11)].

Lemma mod_one_le q a b : 0 <= a <= b -> q mod 2 ^ (b + 1) = 1 -> 1 <= a -> q mod 2 ^ (a + 1) = 1.
Proof.
  intros Hab E Ha. assert (P : 0 < 2 ^ (b + 1)) by (apply Z.pow_pos_nonneg; lia). assert (P' : 2 ^ 1 < 2 ^ (a + 1)) by (apply Z.pow_lt_mono_r; lia).
  change (2 ^ 1) with 2 in P'. pose proof (Z.div_mod q (2 ^ (b + 1)) ltac:(lia)) as D. rewrite E in D. set (w := q / 2 ^ (b + 1)) in D. clearbody w.
  symmetry. apply Z.mod_unique with (2 ^ (b - a) * w); [lia|].
  replace (2 ^ (b + 1)) with (2 ^ (a + 1) * 2 ^ (b - a)) in D by (rewrite <- Z.pow_add_r by lia; f_equal; lia). rewrite D. ring.
Qed.

Lemma largest_facts q b : In (q, b) largest -> prime q /\ 1 <= b <= 15 /\ q mod 2 ^ (b + 1) = 1 /\ q mod 2 ^ (b + 2) <> 1.
Proof.
  pose proof (proj1 C82_prime) as P. repeat (apply Forall_cons_iff in P; let H := fresh in destruct P as [H P]).
  unfold largest. cbn [In]. intros [E|[E|[E|[E|[E|[E|[]]]]]]]; injection E as <- <-; (split; [assumption|]; split; [lia|]; split; [vm_compute; reflexivity|vm_compute; discriminate]).
Qed.

(** Montgomery parameters exist in every word size with two spare bits, and
    transform parameters exist exactly up to the degree of the list above. *)
Theorem C82_largest_degree :
  forall q b k, In (q, b) largest -> word_size k -> 4 * q <= 2 ^ k ->
  exists p, params_create k q = Ok p /\ forall log_n, (exists np, init_ntt p log_n = Ok np) <-> 1 <= log_n <= b.
Proof.
  intros q b k I W F. destruct (largest_facts q b I) as (P & B & E1 & E2). pose proof (prime_ge_2 q P) as Q2.
  assert (O : q mod 2 = 1) by (apply (usable_odd k b q); [lia|split; assumption]).
  pose proof (params_create_odd k q W ltac:(lia) O F) as Ep. exists (params_make k q). split; [exact Ep|].
  assert (PF : params_for k q (params_make k q)) by (split; [exact W|split; [lia|exact Ep]]).
  pose proof (pf_good _ _ _ PF) as (G & _ & Em). intros l. split.
  - intros [np En]. assert (C : 1 <= l <= 15 /\ q mod 2 ^ (l + 1) = 1).
    { destruct (Z_le_dec 1 l), (Z_le_dec l 15), (Z.eq_dec (q mod 2 ^ (l + 1)) 1); try (split; [lia|assumption]);
      rewrite (init_reject _ _ _ _ PF) in En by (intros [? ?]; lia || contradiction); discriminate En. }
    destruct C as [Hl El]. split; [lia|]. destruct (Z_le_gt_dec l b); [assumption|]. exfalso. apply E2.
    replace (b + 2) with (b + 1 + 1) by lia. apply (mod_one_le q (b + 1) l); [lia|exact El|lia].
  - intros Hl. pose proof (mod_one_le q l b ltac:(lia) E1 ltac:(lia)) as El.
    pose proof (fit_of_mod (params_make k q) l G ltac:(lia) ltac:(rewrite Em; exact El)) as FM.
    destruct (init_ntt_ok (params_make k q) G ltac:(rewrite Em; exact P) l ltac:(lia) FM ltac:(rewrite Em; exact El)) as (np & X & En & _).
    exists np. exact En.
Qed.

(** In particular the documented bounds hold, and multiplication in the ring is
    exact in every degree up to the bound. *)
Theorem C82_documented_degree :
  forall q b k, In (q, b) shipped -> word_size k -> 4 * q <= 2 ^ k ->
  exists p, params_create k q = Ok p /\ forall L, (1 <= L <= Z.to_nat b)%nat ->
  exists np, init_ntt p (Z.of_nat L) = Ok np /\
    forall f g, length f = (2 ^ L)%nat -> length g = (2 ^ L)%nat -> Forall (stored p) f -> Forall (stored p) g ->
    exists x y z, convert_to_ntt p np f = Ok x /\ convert_to_ntt p np g = Ok y /\ poly_mul p x y = Ok z /\
      forall i, (i < 2 ^ L)%nat ->
        coeff p np z i = negacyclic (2 ^ L) (fun j => export_int p (nth j f 0)) (fun j => export_int p (nth j g 0)) i mod q.
Proof.
  intros q b k I W F.
  assert (I' : exists b', In (q, b') largest /\ b <= b').
  { unfold shipped in I. cbn [In] in I. unfold largest. destruct I as [E|[E|[E|[E|[E|[E|[]]]]]]]; injection E as <- <-; eexists; (split; [cbn [In]; tauto|vm_compute; discriminate]). }
  destruct I' as (b' & I' & Hb). destruct (C82_largest_degree q b' k I' W F) as (p & Ep & H). exists p. split; [exact Ep|].
  destruct (largest_facts q b' I') as (P & B & _ & _). pose proof (prime_ge_2 q P) as Q2.
  assert (PF : params_for k q p) by (split; [exact W|split; [lia|exact Ep]]).
  pose proof (pf_good _ _ _ PF) as (G & _ & Em).
  intros L HL. destruct (proj2 (H (Z.of_nat L)) ltac:(lia)) as [np En]. exists np. split; [exact En|].
  assert (NF : ntt_for p L np) by (split; [rewrite Em; exact P|exact En]).
  intros f g Lf Lg Sf Sg.
  destruct (C18_convert_to_ntt k q p L np f PF NF Lf Sf) as (x & Ex & Nx & Cx).
  destruct (C18_convert_to_ntt k q p L np g PF NF Lg Sg) as (y & Ey & Ny & Cy).
  destruct (proj1 (C18_mul k q p L np x y PF NF Nx Ny)) as (z & Ez & Nz & Cz).
  exists x, y, z. split; [exact Ex|]. split; [exact Ey|]. split; [exact Ez|]. intros i Hi. rewrite (Cz i Hi), Em.
  assert (EQ : forall h v, (forall j, (j < 2 ^ L)%nat -> coeff p np h j = export_int p (nth j v 0) mod p_m p) ->
    forall j, (j < 2 ^ L)%nat -> cong q (coeff p np h j) (export_int p (nth j v 0))).
  { intros h v E j Hj. rewrite (E j Hj), Em. apply cong_mod. }
  apply cong_to_mod; [lia|]. apply negacyclic_cong; [intros j Hj; exact (EQ x f Cx j Hj)|intros j Hj; exact (EQ y g Cy j Hj)|exact Hi].
Qed.

(** The Montgomery constant for the 59-bit modulus is the one Create computes:
    q * inv = -1 modulo 2^64. *)
Theorem C82_inverse :
  (kModulus59 * kInvModulus59) mod 2 ^ 64 = 2 ^ 64 - 1 /\
  exists p, params_create 64 kModulus59 = Ok p /\ p_invm p = kInvModulus59.
Proof. split; [vm_compute; reflexivity|]. exists (params_make 64 kModulus59). split; vm_compute; reflexivity. Qed.

(** The remaining claims of the comments: sizes, residues modulo 5 and 17, the
    limit on the number of coefficients. *)
Theorem C82_comments :
  has_bits 59 kModulus59 /\ has_bits 44 kModulus44 /\ has_bits 29 kModulus29 /\ has_bits 25 kModulus25 /\ has_bits 80 kModulus80 /\
  kModulus80 = 646119422561999443726337 /\
  kModulus29 mod 5 = 4 /\ kModulus25 mod 5 = 4 /\ kMaxNumCoeffs = 2 ^ kMaxLogNumCoeffs /\
  Forall (has_bits 20) [k60BitModulusQ0; k60BitModulusQ1; k60BitModulusP0] /\
  has_bits 29 k59BitModulusQ0 /\ has_bits 30 k59BitModulusP0 /\ has_bits 59 (k59BitModulusQ0 * k59BitModulusP0) /\
  Forall (fun '(qs, ps, log_n, t) => NoDup (qs ++ ps) /\
     Forall (fun q => q mod (2 * 2 ^ log_n) = 1 /\ q mod t = 1) (qs ++ ps)) shipped_rns.
Proof.
  repeat match goal with |- _ /\ _ => split | |- Forall _ _ => constructor end;
    try (vm_compute; reflexivity); try (vm_compute; discriminate); try (repeat (constructor; [vm_compute; intuition discriminate|]); constructor).
Qed.

(** The "60-bit" set has a product of 59 bits. *)
Theorem C82_sixty_bits_refuted :
  ~ has_bits 60 (k60BitModulusQ0 * k60BitModulusQ1 * k60BitModulusP0) /\
  has_bits 59 (k60BitModulusQ0 * k60BitModulusQ1 * k60BitModulusP0).
Proof. split; [intros [H _]; vm_compute in H; apply H; reflexivity|split; vm_compute; [discriminate|reflexivity]]. Qed.

(** Both sets give contexts for BGV and for BFV in every word size from 32 bits
    up and in every degree up to the documented one. The finite field encoding
    cannot be used with them: 17 is not 1 modulo twice the degree. *)
Theorem C82_rns_contexts :
  forall qs ps b t k log_n, In (qs, ps, b, t) shipped_rns -> word_size k -> 32 <= k ->
  1 <= log_n <= b ->
  ctx_args k qs ps t /\
  (exists c, ctx_create k log_n qs ps t = Ok c) /\ (exists c, ctx_create_bfv k log_n qs ps t = Ok c) /\
  (ctx_create_bgv_ff k b qs ps t = Err InvalidArgument /\ ctx_create_bfv_ff k b qs ps t = Err InvalidArgument).
Proof.
  intros qs ps b t k l I W K Hl.
  assert (ALL : t = 17 /\ b = 11 /\ Forall prime (qs ++ ps) /\ NoDup (qs ++ ps) /\ qs ++ ps <> [] /\
    Forall (fun q => 4 * q <= 2 ^ 32 /\ q mod 2 ^ (b + 1) = 1) (qs ++ ps) /\ Forall (fun q => Z.gcd q t = 1) qs).
  { pose proof (proj2 C82_prime) as P. pose proof C82_comments as (_ & _ & _ & _ & _ & _ & _ & _ & _ & _ & _ & _ & _ & C).
    rewrite Forall_forall in P, C. specialize (P _ I). specialize (C _ I). cbv beta iota in P, C.
    destruct I as [E|[E|[]]]; injection E as <- <- <- <-; (split; [reflexivity|]; split; [reflexivity|]; split; [exact P|]; split; [exact (proj1 C)|];
      split; [discriminate|]; split; repeat constructor; try (vm_compute; reflexivity); vm_compute; discriminate). }
  destruct ALL as (-> & -> & P & ND & Ne & U & Cop). apply Forall_app in P. destruct P as [Pq Pp].
  assert (K2 : 2 ^ 32 <= 2 ^ k) by (apply Z.pow_le_mono_r; lia). change (2 ^ 32) with 4294967296 in *.
  assert (UL : Forall (usable k l) (qs ++ ps)).
  { apply (Forall_impl _) with (2 := U). intros q [F E]. split; [lia|]. apply (mod_one_le q l 11); [lia|exact E|lia]. }
  split; [split; [exact W|split; [exact Pq|split; [exact Pp|split; [exact ND|lia]]]]|].
  split; [apply (proj1 (C81_create k l qs ps 17 W Pq Pp Ne)); split; [lia|split; [lia|exact UL]]|].
  split.
  - apply (proj1 (C81_create_bfv k l qs ps 17 W Pq Pp Ne ltac:(lia))). split; [lia|]. split; [exact UL|]. split; [reflexivity|]. split; [lia|exact Cop].
  - destruct (C81_create_finite_field k 11 qs ps 17 W Pq Pp Ne prime_17) as [[_ N1] [_ N2]].
    assert (N : ~ (1 <= 11 <= 15 /\ Forall (usable k 11) (17 :: qs ++ ps))).
    { intros [_ F]. pose proof (Forall_inv F) as [_ E]. vm_compute in E. discriminate E. }
    split; [apply N1, N|apply N2; tauto].
Qed.

(** each modulus with the smallest word size it fits *)
Example C82_example :
  (4 * kNewhopeModulus <= 2 ^ 16 /\ 2 ^ 32 < 4 * kModulus44 /\ 4 * kModulus59 <= 2 ^ 64 /\ 2 ^ 64 < 4 * kModulus80 <= 2 ^ 128) /\
  (exists p np, params_create 16 kNewhopeModulus = Ok p /\ init_ntt p 3 = Ok np /\ np_n np = 8%nat) /\
  exists c, ctx_create 32 2 [k60BitModulusQ0; k60BitModulusQ1] [k60BitModulusP0] 17 = Ok c /\ length (rc_qs c) = 2%nat.
Proof.
  split; [vm_compute; intuition discriminate|]. split.
  - eexists _, _. split; [vm_compute; reflexivity|]. split; vm_compute; reflexivity.
  - eexists. split; vm_compute; reflexivity.
Qed.

Print Assumptions C81_create.
Print Assumptions C81_create_bfv.
Print Assumptions C81_create_finite_field.
Print Assumptions C81_plaintext_modulus_equal_to_prime_accepted.
Print Assumptions C81_composite_accepted.
Print Assumptions C82_prime.
Print Assumptions C82_largest_degree.
Print Assumptions C82_documented_degree.
Print Assumptions C82_inverse.
Print Assumptions C82_comments.
Print Assumptions C82_sixty_bits_refuted.
Print Assumptions C82_rns_contexts.
