(** Exact boundaries of the properties that the code satisfies only in part:
    which inputs make the full statement true and which make it false. *)
From Coq Require Import Arith Znumtheory.
From Verif Require Import Base FinSum PolySpec Ring ZLemmas Montgomery MontBatch Ntt Poly PolyExt Prng Sampling SampleSpec MontgomeryProofs
  MontBatchProofs NttIndex NttMath NttProofs Spec PolyView ArithFacts NttFacts PolyProofs PolyFacts PolyExtProofs
  SymEnc SymSpec SymProofs SymProofs2 SymFacts SymSwitch ThmArith ThmPoly ThmPolyExt ThmSymEnc ThmKeys.

(** ** C05: == differs from equality of values exactly on the two spellings of zero *)

Definition both_zero (m a b : Z) : Prop := (a = 0 /\ b = m) \/ (a = m /\ b = 0).

Theorem C05_equality_exact :
  forall k m p a b, params_for k m p -> stored p a -> stored p b ->
  (export_int p a = export_int p b <-> meqb a b = true \/ both_zero m a b).
Proof.
  intros k m p a b H Ha Hb. pose proof (pf_good _ _ _ H) as (G & _ & Em).
  rewrite !(stored_val p _ G) by assumption. pose proof (m_gt1 p G) as M. unfold meqb, both_zero, stored in *. rewrite <- Em. split.
  - intros E. apply (val_inj_mod p G) in E. destruct (Z.eq_dec a (p_m p)) as [->|Na]; destruct (Z.eq_dec b (p_m p)) as [->|Nb].
    + left. apply Z.eqb_refl.
    + rewrite Z_mod_same_full, (Z.mod_small b) in E by lia. right. right. lia.
    + rewrite Z_mod_same_full, (Z.mod_small a) in E by lia. right. left. lia.
    + rewrite !Z.mod_small in E by lia. left. apply Z.eqb_eq, E.
  - intros [E|[[-> ->]|[-> ->]]].
    + apply Z.eqb_eq in E. congruence.
    + rewrite (val_m p). unfold val. reflexivity.
    + rewrite (val_m p). unfold val. reflexivity.
Qed.

Example C05_exact_example :
  stored p12289 0 /\ stored p12289 12289 /\ both_zero 12289 0 12289 /\ export_int p12289 0 = export_int p12289 12289 /\ meqb 0 12289 = false.
Proof.
  split; [vm_compute; split; congruence|]. split; [vm_compute; split; congruence|]. split; [left; split; reflexivity|].
  split; vm_compute; reflexivity.
Qed.

(** ** C06: the 16-bit fused multiply-add overflows int exactly when this product does *)

Theorem C06_uint16_exact :
  forall m p v n a b, params_for 16 m p -> 0 <= v < 2 ^ 16 -> (m * v + 1) mod 2 ^ 16 = 0 ->
  stored p n -> stored p a -> stored p b ->
  (fused_mul_add p n a b = UB <-> 2 ^ 31 <= (((2 ^ 16 mod m) * n + a * b) mod 2 ^ 16) * v) /\
  (v <= 2 ^ 15 -> exists r, fused_mul_add p n a b = Ok r).
Proof.
  intros m p v n a b H Hv Ev Hn Ha Hb. pose proof (pf_good _ _ _ H) as (G & Ek & Em).
  pose proof (m_gt1 p G). pose proof (m4 p G) as M4. pose proof (one_crep p G) as Ho. unfold import_one in Ho.
  pose proof (g_inv p G) as GI. pose proof (g_invm p G) as GV. pose proof (g_odd p G) as GO.
  assert (Evm : v = p_invm p).
  { rewrite Ek, Em in *. assert (D : (2 ^ 16 | m * (v - p_invm p))).
    { apply Z.mod_divide in Ev; [|lia]. destruct Ev as [c Ec]. exists (c - p_invr p).
      rewrite Z.mul_sub_distr_l, Z.mul_sub_distr_r, <- Ec. lia. }
    assert (RP : Znumtheory.rel_prime (2 ^ 16) m).
    { apply Znumtheory.bezout_rel_prime. apply (Znumtheory.Bezout_intro _ _ _ (p_invr p) (- p_invm p)). lia. }
    apply Znumtheory.Gauss in D; [|exact RP]. destruct D as [c Ec]. assert (c = 0) by nia. lia. }
  assert (EU : fused_mul_add p n a b =
    if 2 ^ 31 <=? (((2 ^ 16 mod m) * n + a * b) mod 2 ^ 16) * v then UB else
    Ok (csub p (wrap (p_k p) (shr (wrap (2 * p_k p) (p_rmm p * n + a * b + wrap (2 * p_k p) (p_m p *
      wrap (p_k p) (wrap (p_k p) (p_rmm p * n + a * b) * p_invm p)))) (p_k p))))).
  { unfold fused_mul_add. unfold stored, crep in *. rewrite Em in *.
    assert (R2 : 2 ^ (2 * p_k p) = 2 ^ p_k p * 2 ^ p_k p) by (rewrite <- Z.pow_add_r by (rewrite Ek; lia); f_equal; lia).
    assert (0 <= p_rmm p * n <= m * m) by nia. assert (0 <= a * b <= m * m) by nia.
    rewrite !(wrap_small (2 * p_k p) (p_rmm p * n)) by (rewrite R2; nia).
    rewrite !(wrap_small (2 * p_k p) (a * b)) by (rewrite R2; nia).
    rewrite !(wrap_small (2 * p_k p) (p_rmm p * n + a * b)) by (rewrite R2; nia).
    unfold mul_int at 1. rewrite (g_rmm p G), Ek, Em. rewrite Z.eqb_refl. cbn [andb].
    rewrite Evm. change (wrap 16 (2 ^ 16 mod m * n + a * b)) with ((2 ^ 16 mod m * n + a * b) mod 2 ^ 16).
    destruct (2 ^ 31 <=? (2 ^ 16 mod m * n + a * b) mod 2 ^ 16 * p_invm p); reflexivity. }
  rewrite EU. destruct (Z.leb_spec (2 ^ 31) (((2 ^ 16 mod m) * n + a * b) mod 2 ^ 16 * v)) as [L|L].
  - split; [split; [intros _; exact L|reflexivity]|]. intros V.
    pose proof (Z.mod_pos_bound (2 ^ 16 mod m * n + a * b) (2 ^ 16) ltac:(lia)). nia.
  - split; [split; [intros E; discriminate E|lia]|]. intros _. eexists. reflexivity.
Qed.

(** both sides are met: for 12289 the product always fits, for 16193 it can overflow *)
Example C06_exact_example :
  params_for 16 12289 p12289 /\ (12289 * 12287 + 1) mod 2 ^ 16 = 0 /\ 12287 <= 2 ^ 15 /\
  params_for 16 16193 (params_make 16 16193) /\ (16193 * 44863 + 1) mod 2 ^ 16 = 0 /\
  2 ^ 31 <= (((2 ^ 16 mod 16193) * 16192 + 16191 * 16191) mod 2 ^ 16) * 44863 /\
  fused_mul_add (params_make 16 16193) 16192 16191 16191 = UB.
Proof.
  split. { split; [left; reflexivity|]. split; [lia|vm_compute; reflexivity]. }
  split; [vm_compute; reflexivity|]. split; [lia|].
  split. { split; [left; reflexivity|]. split; [lia|vm_compute; reflexivity]. }
  split; [vm_compute; reflexivity|]. split; [vm_compute; intros E; discriminate E|vm_compute; reflexivity].
Qed.

(** ** C11: which deserialized words compute correctly *)

Theorem C11_deserialize_exact :
  forall k m p a n, params_for k m p -> stored p a -> 0 <= n < 2 ^ p_logm p ->
  export_int p (madd p a n) = (export_int p a + export_int p n) mod m /\
  (export_int p (msub p a n) = (export_int p a - export_int p n) mod m <-> n <= a + m) /\
  (export_int p (mneg p n) = (- export_int p n) mod m <-> n <= m).
Proof.
  intros k m p a n H Ha Hn. pose proof (proj1 (proj2 (proj2 (params_consistent k m p H)))) as LB. pose proof (pf_good _ _ _ H) as (G & <- & <-).
  pose proof (m_gt1 p G) as M1. pose proof (m4 p G) as M4. unfold stored in Ha.
  assert (N2 : n < 2 * p_m p).
  { assert (E : 2 ^ p_logm p = 2 * 2 ^ (p_logm p - 1)).
    { rewrite <- Z.pow_succ_r; [f_equal; lia|]. destruct (Z.le_gt_cases 0 (p_logm p - 1)); [assumption|].
      destruct (Z.eq_dec (p_logm p) 0) as [Z0|Z0]; [rewrite Z0 in LB; cbn in LB; lia|rewrite (Z.pow_neg_r 2 (p_logm p)) in LB by lia; lia]. }
    lia. }
  assert (R1 : 1 = val p (2 ^ p_k p)).
  { rewrite <- (Z.mul_1_l (2 ^ p_k p)), (val_mulR p G). symmetry. apply Z.mod_small. lia. }
  assert (B : forall x, 0 <= x < p_m p -> export_int p x = val p x) by (intros; apply (export_int_ok p G); lia).
  assert (W : forall x, 0 <= x < 2 ^ p_k p -> export_int p x = val p x) by (intros; apply (export_int_ok p G); lia).
  assert (D : forall x, (val p (2 ^ p_k p + x)) <> val p x).
  { intros x E. rewrite (val_add_mod p), <- R1 in E. pose proof (val_range p G x).
    destruct (Z.eq_dec (val p x) (p_m p - 1)) as [E1|E1].
    - rewrite E1 in E. replace (1 + (p_m p - 1)) with (p_m p) in E by lia. rewrite Z_mod_same_full in E. lia.
    - rewrite Z.mod_small in E by lia. lia. }
  split; [|split].
  - rewrite (madd_ok p G) by lia. pose proof (Z.mod_pos_bound (a + n) (p_m p) ltac:(lia)).
    rewrite !W, (val_mod p), (val_add_mod p) by lia. reflexivity.
  - unfold msub.
    assert (E : wrap (p_k p) (a + (p_m p - n)) = (if n <=? a + p_m p then 0 else 2 ^ p_k p) + (a + (p_m p - n))).
    { destruct (Z.leb_spec n (a + p_m p)).
      - apply wrap_small. lia.
      - unfold wrap. rewrite <- (Z_mod_plus_full _ 1), Z.mod_small by lia. lia. }
    rewrite E. clear E.
    assert (V : val p (a + (p_m p - n)) = (val p a - val p n) mod p_m p).
    { rewrite <- (val_sub_mod p). replace (a + (p_m p - n)) with (p_m p + (a - n)) by ring. rewrite (val_add_mod p), (val_m p), Z.add_0_l.
      apply Z.mod_small, (val_range p G). }
    rewrite (W a), (W n), <- V by lia.
    destruct (Z.leb_spec n (a + p_m p)) as [L|L]; rewrite (barrett_reduce_ok p G) by lia.
    + pose proof (Z.mod_pos_bound (0 + (a + (p_m p - n))) (p_m p) ltac:(lia)). rewrite W, (val_mod p) by lia. rewrite Z.add_0_l. split; [intros _; exact L|reflexivity].
    + pose proof (Z.mod_pos_bound (2 ^ p_k p + (a + (p_m p - n))) (p_m p) ltac:(lia)). rewrite W, (val_mod p) by lia. split; [intros E; destruct (D _ E)|lia].
  - unfold mneg.
    assert (V : val p (p_m p - n) = (- val p n) mod p_m p).
    { rewrite (val_sub_mod p), (val_m p), Z.sub_0_l. reflexivity. }
    rewrite (W n), <- V by lia. destruct (Z.le_gt_cases n (p_m p)) as [L|L].
    + rewrite wrap_small, W by lia. split; [intros _; exact L|reflexivity].
    + assert (E : wrap (p_k p) (p_m p - n) = 2 ^ p_k p + (p_m p - n)).
      { unfold wrap. rewrite <- (Z_mod_plus_full _ 1), Z.mod_small by lia. lia. }
      rewrite E, W by lia. split; [intros X; destruct (D _ X)|lia].
Qed.

(** the byte 7 read modulo 5: 3 - 7 is right, 1 - 7 is wrong *)
Example C11_exact_example :
  let p := params_make 16 5 in
  params_for 16 5 p /\ mdeserialize p [7] = Ok 7 /\ 0 <= 7 < 2 ^ p_logm p /\
  export_int p (msub p 3 7) = (export_int p 3 - export_int p 7) mod 5 /\
  export_int p (msub p 1 7) <> (export_int p 1 - export_int p 7) mod 5.
Proof.
  cbv zeta. split. { split; [left; reflexivity|]. split; [lia|vm_compute; reflexivity]. }
  split; [vm_compute; reflexivity|]. split; [vm_compute; split; [intros E; discriminate E|reflexivity]|].
  split; [vm_compute; reflexivity|]. vm_compute. intros E; discriminate E.
Qed.

(** ** C47: == differs from equality of coefficients exactly on words 0 and q *)

Theorem C47_equality_exact :
  forall k q p L np a b, params_for k q p -> ntt_for p L np -> ntt_poly p L a -> ntt_poly p L b ->
  ((forall i, (i < 2 ^ L)%nat -> coeff p np a i = coeff p np b i) <->
   (forall j, (j < 2 ^ L)%nat -> nth j a 0 = nth j b 0 \/ both_zero q (nth j a 0) (nth j b 0))).
Proof.
  intros k q p L np a b HP HN Ha Hb. destruct (mk_ctx k q p L np HP HN) as (C & _ & Eq). pose proof (proj1 C) as G.
  assert (St : forall c j, ntt_poly p L c -> (j < 2 ^ L)%nat -> stored p (nth j c 0)).
  { intros c j [Lc Rc] Hj. rewrite Forall_forall in Rc. apply Rc, nth_In. rewrite Lc. exact Hj. }
  split.
  - intros H j Hj. pose proof (C18_coefficients_determine k q p L np a b HP HN Ha Hb H j Hj) as E.
    apply (C05_equality_exact k q p _ _ HP (St a j Ha Hj) (St b j Hb Hj)) in E. destruct E as [E|E]; [left; apply Z.eqb_eq, E|right; exact E].
  - intros H i Hi.
    assert (I : cong (p_m p) (coeff p np a i) (coeff p np b i)).
    { revert i Hi. apply (ev_inj p G L np (ntt_root p np) (proj2 C)). intros j Hj.
      rewrite <- (coeff_at p L np C a j Ha Hj), <- (coeff_at p L np C b j Hb Hj).
      assert (E : export_int p (nth j a 0) = export_int p (nth j b 0)).
      { apply (C05_equality_exact k q p _ _ HP (St a j Ha Hj) (St b j Hb Hj)). destruct (H j Hj) as [E|E]; [left; apply Z.eqb_eq, E|right; exact E]. }
      rewrite !(stored_val p _ G) in E by (apply St; assumption). apply cong_eq. exact E. }
    apply cong_iff in I; [|pose proof (m_gt1 p G); lia].
    rewrite !Z.mod_small in I; [exact I|apply (coeff_range p L np _ i C); assumption..].
Qed.

(** zero and its negation: equal coefficients, different words *)
Example C47_exact_example :
  poly_zero p97 8 = Ok (repeat 0 8) /\ poly_neg p97 (repeat 0 8) = repeat 97 8 /\
  (forall j, (j < 8)%nat -> both_zero 97 (nth j (repeat 0 8) 0) (nth j (repeat 97 8) 0)).
Proof.
  split; [vm_compute; reflexivity|]. split; [vm_compute; reflexivity|]. intros j Hj. left.
  do 8 (destruct j as [|j]; [split; reflexivity|]). lia.
Qed.

(** ** C29: lazy accumulation is undefined exactly when a shorter ciphertext follows *)

Lemma lazy_into_short p L np b : ctx p L np -> ntt_poly p L b -> forall zs ds T, Forall (ntt_poly p L) ds -> (length ds < length zs)%nat ->
  lzs p L zs T -> lazy_into p zs ds b = UB.
Proof.
  intros C Hb. induction zs as [|z zs IH]; intros ds T Hd Hl [I1 I2]; cbn [lazy_into]; [cbn in Hl; lia|].
  destruct ds as [|d ds]; [reflexivity|]. inversion_clear Hd as [|? ? H Hd'].
  destruct (lz_fused p L np C z (T 0%nat) d b (I1 0%nat ltac:(cbn; lia)) H Hb) as (z' & E & _). rewrite E. cbn [bind].
  rewrite (IH ds (fun i => T (S i)) Hd' ltac:(cbn in Hl; lia)); [reflexivity|].
  split; [intros i Hi; apply (I1 (S i)); cbn; lia|intros i j Hi Hj; apply (I2 (S i)); [cbn; lia|exact Hj]].
Qed.

Lemma run_lazy_app x ops ops' : run_lazy x (ops ++ ops') = (do! y <- run_lazy x ops; run_lazy y ops').
Proof.
  revert x. induction ops as [|[a b] ops IH]; intros x; cbn [app run_lazy bind]; [reflexivity|].
  destruct (ct_fused_lazily x a b); cbn [bind]; [apply IH|reflexivity|reflexivity].
Qed.

Lemma growing_split ops : forall len, growing len ops \/
  exists pre a b post, ops = pre ++ (a, b) :: post /\ growing len pre /\ ct_c a <> [] /\ (length (ct_c a) < Nat.max len (maxlen 0 pre))%nat.
Proof.
  induction ops as [|[a b] ops IH]; intros len; [left; exact I|]. cbn [growing].
  assert (D : (ct_c a = [] \/ (len <= length (ct_c a))%nat) \/ (ct_c a <> [] /\ (length (ct_c a) < len)%nat)).
  { destruct (ct_c a) as [|c cs]; [left; left; reflexivity|]. destruct (Nat.le_gt_cases len (length (c :: cs))); [left; right; assumption|right; split; [discriminate|assumption]]. }
  destruct D as [D|[D1 D2]].
  - destruct (IH (Nat.max len (length (ct_c a)))) as [H|(pre & a' & b' & post & -> & H & N & S)]; [left; split; assumption|].
    right. exists ((a, b) :: pre), a', b', post. split; [reflexivity|]. split; [split; assumption|]. split; [exact N|].
    change (maxlen 0 ((a, b) :: pre)) with (maxlen (Nat.max 0 (length (ct_c a))) pre). rewrite maxlen_max. lia.
  - right. exists [], a, b, ops. split; [reflexivity|]. split; [exact I|]. split; [exact D1|]. cbn. lia.
Qed.

Lemma growing_app pre a b post : forall len, growing len (pre ++ (a, b) :: post) -> ct_c a = [] \/ (Nat.max len (maxlen 0 pre) <= length (ct_c a))%nat.
Proof.
  induction pre as [|[c d] pre IH]; intros len H; cbn [app growing] in H.
  - destruct H as [[H|H] _]; [left; exact H|right; cbn; lia].
  - destruct H as [_ H]. destruct (IH _ H) as [E|E]; [left; exact E|right].
    change (maxlen 0 ((c, d) :: pre)) with (maxlen (Nat.max 0 (length (ct_c c))) pre). rewrite maxlen_max. lia.
Qed.

Theorem C29_exact :
  forall k q L t key x ops, key_ok k q L t key -> ct_ok L key x -> ct_lazy x = [] ->
  Forall (fun ab => ct_ok L key (fst ab) /\ ntt_poly (sk_p key) L (snd ab) /\ ct_pow (fst ab) = ct_pow x) ops ->
  (growing 0 ops <-> exists y, run_lazy x ops = Ok y) /\ (~ growing 0 ops <-> run_lazy x ops = UB) /\
  (~ growing 0 ops <-> exists pre a b post c, ops = pre ++ (a, b) :: post /\ In c (map fst pre) /\
     (0 < length (ct_c a) < length (ct_c c))%nat).
Proof.
  intros k q L t key x ops K Hx El HO. pose proof (key_ctx _ _ _ _ _ K) as C.
  assert (Ls0 : lstate L key x x (fun _ _ => 0)).
  { split; [reflexivity|]. split; [reflexivity|]. split; [reflexivity|]. rewrite El. split; [cbn; lia|]. reflexivity. }
  assert (Good : growing 0 ops -> exists y, run_lazy x ops = Ok y).
  { intros HG. destruct (run_lazy_val k q L t key K ops) with (x := x) (y := x) (T := fun _ _ : nat => 0) as (z & E & _).
    - eapply Forall_impl; [|exact HO]. intros ab H. split; apply H.
    - exact Hx.
    - exact Ls0.
    - eapply Forall_impl; [|exact HO]. intros ab H. apply H.
    - rewrite El. exact HG.
    - exists z. exact E. }
  assert (Bad : forall pre a b post, ops = pre ++ (a, b) :: post -> growing 0 pre -> ct_c a <> [] ->
    (length (ct_c a) < Nat.max 0 (maxlen 0 pre))%nat -> run_lazy x ops = UB).
  { intros pre a b post -> HG Na Sh. apply Forall_app in HO. destruct HO as [HO1 HO2]. inversion_clear HO2 as [|? ? [Ha [Hb Pa]] _]. cbn [fst snd] in *.
    destruct (run_lazy_val k q L t key K pre) with (x := x) (y := x) (T := fun _ _ : nat => 0) as (z & E & Lz & S1 & S2 & S3 & S4).
    - eapply Forall_impl; [|exact HO1]. intros ab H. split; apply H.
    - exact Hx.
    - exact Ls0.
    - eapply Forall_impl; [|exact HO1]. intros ab H. apply H.
    - rewrite El. exact HG.
    - rewrite run_lazy_app, E. cbn [bind run_lazy]. rewrite El in Lz. cbn [length] in Lz.
      unfold ct_fused_lazily. rewrite S2, Pa, Z.eqb_refl. cbn [negb]. destruct (ct_c a) as [|a0 as'] eqn:Ea; [contradiction|].
      destruct (ct_lazy z) as [|z0 zs] eqn:Ez; [cbn [length] in *; lia|].
      destruct (Nat.ltb_spec (length (z0 :: zs)) (length (a0 :: as'))) as [X|X]; [lia|]. cbn [bind].
      destruct Hx as [Px Fx]. destruct Ha as [Pa' Fa]. rewrite S3, Px. rewrite Ea in Fa.
      rewrite (lazy_into_short (sk_p key) L (sk_np key) b C Hb (z0 :: zs) (a0 :: as') _ Fa ltac:(lia) S4). reflexivity. }
  assert (In_max : forall pre (a : ct), (length (ct_c a) < maxlen 0 pre)%nat -> exists c, In c (map fst pre) /\ (length (ct_c a) < length (ct_c c))%nat).
  { induction pre as [|[c d] pre IH]; intros a H; [cbn in H; lia|].
    change (maxlen 0 ((c, d) :: pre)) with (maxlen (Nat.max 0 (length (ct_c c))) pre) in H. rewrite maxlen_max in H.
    destruct (Nat.lt_ge_cases (length (ct_c a)) (length (ct_c c))) as [X|X]; [exists c; split; [left; reflexivity|exact X]|].
    destruct (IH a ltac:(lia)) as (c' & I' & L'). exists c'. split; [right; exact I'|exact L']. }
  assert (Max_in : forall (pre : list (ct * poly)) (c : ct), In c (map fst pre) -> (length (ct_c c) <= maxlen 0 pre)%nat).
  { induction pre as [|[c' d] pre IH]; intros c H; [destruct H|].
    change (maxlen 0 ((c', d) :: pre)) with (maxlen (Nat.max 0 (length (ct_c c'))) pre). rewrite maxlen_max.
    destruct H as [<-|H]; [cbn [fst]; lia|specialize (IH c H); lia]. }
  assert (NB : ~ growing 0 ops -> run_lazy x ops = UB /\ exists pre a b post c, ops = pre ++ (a, b) :: post /\ In c (map fst pre) /\
     (0 < length (ct_c a) < length (ct_c c))%nat).
  { intros N. destruct (growing_split ops 0) as [H|(pre & a & b & post & Eo & HG & Na & Sh)]; [contradiction|].
    split; [exact (Bad pre a b post Eo HG Na Sh)|]. destruct (In_max pre a ltac:(lia)) as (c & Ic & Lc).
    exists pre, a, b, post, c. split; [exact Eo|]. split; [exact Ic|]. split; [|exact Lc]. destruct (ct_c a); [contradiction|cbn; lia]. }
  split; [|split].
  - split; [exact Good|]. intros (y & Ey). destruct (growing_split ops 0) as [H|(pre & a & b & post & Eo & HG & Na & Sh)]; [exact H|].
    rewrite (Bad pre a b post Eo HG Na Sh) in Ey. discriminate Ey.
  - split; [intros N; apply (NB N)|]. intros E HG. destruct (Good HG) as (y & Ey). rewrite Ey in E. discriminate E.
  - split; [intros N; apply (NB N)|]. intros (pre & a & b & post & c & Eo & Ic & Lc) HG. rewrite Eo in HG.
    pose proof (Max_in pre c Ic). destruct (growing_app pre a b post 0 HG) as [E|E]; [rewrite E in Lc; cbn in Lc; lia|lia].
Qed.

(** one and two components in this order succeed, in the other order are undefined *)
Example C29_exact_example :
  let one := (ct_make p97 [a8] 1, a8) in let two := (ct_make p97 [a8; a8] 1, a8) in
  growing 0 [one; two] /\ ~ growing 0 [two; one] /\ run_lazy (ct_empty p97) [two; one] = UB /\
  match run_lazy (ct_empty p97) [one; two] with Ok y => length (ct_lazy y) = 2%nat | _ => False end.
Proof.
  cbv zeta. split; [|split; [|split]].
  - cbn [growing]. split; [right; cbn; lia|]. split; [right; cbn; lia|exact I].
  - cbn [growing]. intros [_ [[H|H] _]]; [discriminate H|cbn in H; lia].
  - vm_compute. reflexivity.
  - vm_compute. reflexivity.
Qed.

(** ** C48: the plaintext modulus of a substituted key *)

Theorem C48_exact :
  forall k q L t key b, key_ok k q L t key -> 0 <= sk_logt key -> 2 ^ sk_logt key + 1 < q ->
  0 < b < 2 * 2 ^ Z.of_nat L -> Z.odd b = true ->
  let t' := export_int (sk_pt key) (import_int (sk_p key) (2 ^ sk_logt key + 1)) in
  exists key', key_substitute b key = Ok key' /\ key_ok k q L t' key' /\ sk_pt key' = sk_pt key /\
    (forall i, (i < 2 ^ L)%nat -> secret key' i = substituted (2 ^ L) (Z.to_nat b) (secret key) i mod q) /\
    (forall y f, 0 < t' <= q -> ct_ok L key' y -> carries L key' y f -> (forall i, (i < 2 ^ L)%nat -> fits q (f i)) ->
       decrypt key' y = Ok (tabulate (2 ^ L) (fun i => f i mod t'))) /\
    (sk_pt key = sk_p key -> t' = 2 ^ sk_logt key + 1).
Proof.
  intros k q L t key b K Hl Ht Hb Ho. pose proof (key_q _ _ _ _ _ K) as Eq. pose proof (key_ctx _ _ _ _ _ K) as C. pose proof (proj1 C) as G.
  assert (Ht' : 2 ^ sk_logt key + 1 < p_m (sk_p key)) by (rewrite Eq; exact Ht). cbv zeta. set (t' := export_int _ _).
  unfold key_substitute. rewrite (t_word_ok (sk_p key) _ G (conj Hl (t_small _ _ G Hl Ht'))). cbn [bind].
  assert (Hb' : 0 < b < 2 * Z.of_nat (2 ^ L)) by (rewrite Nat2Z.inj_pow; exact Hb).
  destruct (C19_substitute k q (sk_p key) L (sk_np key) (sk_key key) b (ko_params _ _ _ _ _ K) (ko_ntt _ _ _ _ _ K) (ko_key _ _ _ _ _ K) Hb' Ho) as (s & Es & Hs & Vs).
  rewrite Es. cbn [bind]. eexists. split; [reflexivity|].
  match goal with |- key_ok _ _ _ _ ?k' /\ _ => assert (K' : key_ok k q L t' k') end.
  { split; [exact (ko_params _ _ _ _ _ K)|exact (ko_ntt _ _ _ _ _ K)|exact Hs|]. reflexivity. }
  split; [exact K'|]. split; [reflexivity|]. split; [intros i Hi; rewrite <- Eq; exact (Vs i Hi)|]. split.
  - intros y f T Hy Hf F. exact (proj2 (C26_decrypt k q L t' _ y f K' T Hy Hf) F).
  - intros E. unfold t'. rewrite E. exact (proj2 (t_export (sk_p key) _ G Hl Ht')).
Qed.

(** the deserialized key of C48_plaintext_params_refuted: three became another modulus *)
Example C48_exact_example :
  sk_logt keyd = 1 /\ 2 ^ 1 + 1 < 786433 /\ export_int (sk_pt keyd) (sk_t keyd) = 3 /\
  export_int (sk_pt keyd) (import_int (sk_p keyd) 3) <> 3.
Proof.
  split; [vm_compute; reflexivity|]. split; [lia|]. split; [vm_compute; reflexivity|]. vm_compute. intros E; discriminate E.
Qed.

Print Assumptions C05_equality_exact.
Print Assumptions C06_uint16_exact.
Print Assumptions C11_deserialize_exact.
Print Assumptions C47_equality_exact.
Print Assumptions C29_exact.
Print Assumptions C48_exact.
