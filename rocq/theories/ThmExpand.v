(** Property theorems C33-C35: oblivious expansion. *)
From Coq Require Import ZArith Lia List Bool.
From Verif Require Import Base BitsUtil FinSum PolySpec Ring Montgomery MontgomeryProofs MontBatch Spec ArithFacts TranscriptionProofs
  ZLemmas Ntt NttMath NttProofs NttFacts Poly PolyProofs PolyView PolyFacts PolyExt SymEnc SymSpec SymProofs SymFacts ThmSymEnc
  Relin RelinSpec RelinProofs ThmRelin Expand ExpandSpec ExpandProofs ExpandProofs2 GenFive.
Import ListNotations.
Open Scope Z_scope.

(** [fresh_shape L key x]: a well-formed two-component ciphertext. [carries L
    key x f]: decryption of x sees f modulo q. [expander_for L t v B key lv ex]:
    ex was created from Galois keys of [key] that suffice for lv levels, every
    substitution adding an error of at most B multiples of t. [residue_part d i
    f]: the terms of f with exponent i modulo d, divided by X^i. *)

(** ** C33 *)

(** one ciphertext becomes 2^lv ciphertexts; number i carries 2^lv times the
    terms with exponent i modulo 2^lv, moved down by i, with an added error of
    at most (2^lv - 1) B multiples of t. Only 16-bit ciphertexts can hit the
    undefined 16-bit multiplication (C06). *)
Theorem C33_expand_ciphertext :
  forall k q L t v B key lv ex x f, key_ok k q L t key -> 0 <= v -> 0 <= B -> expander_for L t v B key lv ex ->
  fresh_shape L key x -> carries L key x f ->
  (k <> 16 -> exists ys, expand_ciphertext ex x (Z.of_nat lv) = Ok ys) /\
  forall ys, expand_ciphertext ex x (Z.of_nat lv) = Ok ys ->
  length ys = (2 ^ lv)%nat /\
  forall i y, nth_error ys i = Some y -> fresh_shape L key y /\
    exists E, (forall l, (l < 2 ^ L)%nat -> Z.abs (E l) <= (2 ^ Z.of_nat lv - 1) * B) /\
      carries L key y (fun l => 2 ^ Z.of_nat lv * residue_part (2 ^ lv) i f l + t * E l).
Proof.
  intros k q L t v B key lv ex x f K Hv HB HE Hx Hc.
  destruct (expander_for_ok k q L t key K v B lv ex Hv HE) as (Ep & Enp & HL & HS).
  apply (expand_ciphertext_ok k q L t key K ex B f x lv Ep Enp HB HL HS Hx Hc).
Qed.

(** the whole request: output number a * 2^lv + j comes from the terms of
    ciphertext a with exponent j modulo 2^lv; exactly m outputs *)
Theorem C33_oblivious_expand :
  forall k q L t v B key lv ex xs (f : nat -> nat -> Z) m, key_ok k q L t key -> 0 <= v -> 0 <= B ->
  expander_for L t v B key lv ex ->
  (forall a x, nth_error xs a = Some x -> fresh_shape L key x /\ carries L key x (f a)) ->
  Z.of_nat (length xs) * 2 ^ Z.of_nat lv < 2 ^ 31 ->
  0 <= m <= Z.of_nat (length xs) * 2 ^ Z.of_nat lv -> m <> Z.of_nat (length xs) ->
  (k <> 16 -> exists ys, oblivious_expand ex xs (Z.of_nat lv) m = Ok ys) /\
  forall ys, oblivious_expand ex xs (Z.of_nat lv) m = Ok ys ->
  Z.of_nat (length ys) = m /\
  forall idx y, nth_error ys idx = Some y -> fresh_shape L key y /\
    exists E, (forall l, (l < 2 ^ L)%nat -> Z.abs (E l) <= (2 ^ Z.of_nat lv - 1) * B) /\
      carries L key y (fun l => 2 ^ Z.of_nat lv * residue_part (2 ^ lv) (idx mod 2 ^ lv) (f (idx / 2 ^ lv)%nat) l + t * E l).
Proof.
  intros k q L t v B key lv ex xs f m K Hv HB HE Hxs Hs Hm Hne.
  destruct (expander_for_ok k q L t key K v B lv ex Hv HE) as (_ & _ & HL & _). pose proof (L_range k q L t key K) as LR.
  rewrite oblivious_expand_unfold by lia.
  destruct (expand_all_ok k q L t key K v B lv ex f Hv HB HE xs 0 Hxs) as [HD HV].
  assert (HLen : forall r : list ct, length r = (length xs * 2 ^ lv)%nat -> Z.of_nat (length r) = Z.of_nat (length xs) * 2 ^ Z.of_nat lv).
  { intros r ->. rewrite Nat2Z.inj_mul, Nat2Z.inj_pow. reflexivity. }
  split.
  - intros Hk. destruct (HD Hk) as (r & Er). rewrite Er. cbn [bind]. rewrite (HLen r (proj1 (HV r Er))). rewrite Z.gtb_ltb.
    destruct (Z.ltb_spec m (Z.of_nat (length xs) * 2 ^ Z.of_nat lv)); [eauto|]. destruct (Z.ltb_spec (Z.of_nat (length xs) * 2 ^ Z.of_nat lv) m); [lia|]. eauto.
  - intros ys. destruct (expand_all ex (Z.of_nat lv) xs) as [r| |]; try discriminate. cbn [bind].
    destruct (HV r eq_refl) as [Lr Hr]. specialize (HLen r Lr). rewrite HLen, Z.gtb_ltb.
    destruct (Z.ltb_spec m (Z.of_nat (length xs) * 2 ^ Z.of_nat lv)) as [H|H].
    + intros E. injection E as <-. split; [rewrite firstn_length_le; lia|]. intros idx y Hy. apply (Hr idx y).
      rewrite <- (firstn_skipn (Z.to_nat m) r). rewrite nth_error_app1; [exact Hy|]. apply nth_error_Some. rewrite Hy. discriminate.
    + destruct (Z.ltb_spec (Z.of_nat (length xs) * 2 ^ Z.of_nat lv) m); [lia|]. intros E. injection E as <-. split; [lia|]. exact Hr.
Qed.

(** the selection vector: if ciphertext i0 encrypts c X^j0 and the others 0, and
    c is the inverse of 2^lv modulo t, then output i0 * 2^lv + j0 decrypts to 1
    and every other one to 0 *)
Theorem C33_selection :
  forall k q L t v B key lv ex xs i0 j0 c e m ys, key_ok k q L t key -> 0 < t <= q -> 0 <= v -> 0 <= B ->
  expander_for L t v B key lv ex -> (j0 < 2 ^ lv)%nat -> 0 <= c -> (c * 2 ^ Z.of_nat lv) mod t = 1 mod t ->
  (forall a x, nth_error xs a = Some x -> fresh_shape L key x /\
     exists er, (forall l, (l < 2 ^ L)%nat -> Z.abs (er l) <= e) /\
       carries L key x (fun l => (if (a =? i0)%nat then monomial c j0 l else 0) + t * er l)) ->
  2 * (2 ^ Z.of_nat lv * (c + t * e) + t * ((2 ^ Z.of_nat lv - 1) * B)) < q ->
  Z.of_nat (length xs) * 2 ^ Z.of_nat lv < 2 ^ 31 ->
  0 <= m <= Z.of_nat (length xs) * 2 ^ Z.of_nat lv -> m <> Z.of_nat (length xs) ->
  oblivious_expand ex xs (Z.of_nat lv) m = Ok ys ->
  Z.of_nat (length ys) = m /\
  forall idx y, nth_error ys idx = Some y ->
    decrypt key y = Ok (tabulate (2 ^ L) (fun l => if (idx =? i0 * 2 ^ lv + j0)%nat && (l =? 0)%nat then 1 mod t else 0)).
Proof.
  intros k q L t v B key lv ex xs i0 j0 c e m ys K Ht Hv HB HE Hj Hc Hinv Hxs Hq Hs Hm Hne E.
  destruct (expander_for_ok k q L t key K v B lv ex Hv HE) as (_ & _ & HL & _).
  assert (HX : exists er : nat -> nat -> Z, forall a x, nth_error xs a = Some x -> fresh_shape L key x /\
     (forall l, (l < 2 ^ L)%nat -> Z.abs (er a l) <= e) /\
     carries L key x (fun l => (if (a =? i0)%nat then monomial c j0 l else 0) + t * er a l)).
  { clear -Hxs. revert i0 Hxs. 
    assert (G : forall (g : nat -> nat -> Z), (forall a x, nth_error xs a = Some x -> fresh_shape L key x /\
       exists er, (forall l, (l < 2 ^ L)%nat -> Z.abs (er l) <= e) /\ carries L key x (fun l => g a l + t * er l)) ->
       exists er : nat -> nat -> Z, forall a x, nth_error xs a = Some x -> fresh_shape L key x /\
       (forall l, (l < 2 ^ L)%nat -> Z.abs (er a l) <= e) /\ carries L key x (fun l => g a l + t * er a l)).
    { induction xs as [|x xs IH]; intros g H.
      - exists (fun _ _ => 0). intros a x Ha. destruct a; discriminate.
      - destruct (H 0%nat x eq_refl) as (F0 & e0 & B0 & C0).
        destruct (IH (fun a => g (S a)) (fun a y Ha => H (S a) y Ha)) as (er & Her).
        exists (fun a => match a with O => e0 | S a' => er a' end). intros [|a] y Ha; [injection Ha as <-; auto|]. apply (Her a y Ha). }
    intros i0 H. exact (G (fun a l => if (a =? i0)%nat then monomial c j0 l else 0) H). }
  destruct HX as (er & Her).
  destruct (C33_oblivious_expand k q L t v B key lv ex xs
    (fun a l => (if (a =? i0)%nat then monomial c j0 l else 0) + t * er a l) m K Hv HB HE) as [_ HV]; try assumption.
  { intros a x Ha. destruct (Her a x Ha) as (F & _ & C). split; assumption. }
  destruct (HV ys E) as [Ly Hy]. split; [exact Ly|]. intros idx y Hidx. destruct (Hy idx y Hidx) as (Fy & E0 & HE0 & Cy).
  assert (P2 : (0 < 2 ^ lv)%nat) by apply (n_pos lv).
  assert (Hid : (idx / 2 ^ lv < length xs)%nat).
  { apply Nat.div_lt_upper_bound; [lia|]. assert (Hi : (idx < length ys)%nat) by (apply nth_error_Some; rewrite Hidx; discriminate).
    apply Nat2Z.inj_lt. rewrite Nat2Z.inj_mul, Nat2Z.inj_pow. change (Z.of_nat 2) with 2. lia. }
  destruct (nth_error xs (idx / 2 ^ lv)) as [xa|] eqn:Exa; [|apply nth_error_None in Exa; lia].
  destruct (Her _ xa Exa) as (_ & HBe & _). set (a := (idx / 2 ^ lv)%nat) in *. set (j := (idx mod 2 ^ lv)%nat) in *.
  assert (Eidx : idx = (a * 2 ^ lv + j)%nat) by (unfold a, j; pose proof (Nat.div_mod idx (2 ^ lv) ltac:(lia)); lia).
  assert (Hjj : (j < 2 ^ lv)%nat) by (apply Nat.mod_upper_bound; lia). clearbody a j.
  assert (D : (2 ^ L = 2 ^ (L - lv) * 2 ^ lv)%nat) by (rewrite <- Nat.pow_add_r; f_equal; lia).
  set (d := (2 ^ lv)%nat) in *. assert (Pz : 2 ^ Z.of_nat lv = Z.of_nat d) by (unfold d; rewrite Nat2Z.inj_pow; reflexivity).
  set (W := 2 ^ Z.of_nat lv) in *. assert (PW : 0 < W) by lia.
  assert (e0 : 0 <= e) by (specialize (HBe 0%nat (n_pos L)); lia).
  (* the value of a coefficient of the message part *)
  assert (Val : forall l, (l < 2 ^ L)%nat ->
    let r := residue_part d j (fun l0 => (if (a =? i0)%nat then monomial c j0 l0 else 0) + t * er a l0) l in
    Z.abs r <= c + t * e /\ (W * r) mod t = if (idx =? i0 * d + j0)%nat && (l =? 0)%nat then 1 mod t else 0).
  { intros l Hl. cbv zeta. unfold residue_part.
    assert (Hidx0 : (idx =? i0 * d + j0)%nat = true <-> a = i0 /\ j = j0).
    { rewrite Nat.eqb_eq, Eidx. split; [|intros [-> ->]; reflexivity]. intros H0.
      assert (a = i0) by nia. subst a. split; [reflexivity|lia]. }
    destruct (Nat.eqb_spec (l mod d) 0) as [Hz|Hz].
    - assert (Hlj : (l + j < 2 ^ L)%nat).
      { pose proof (Nat.div_mod l d ltac:(lia)) as DL. rewrite Hz, Nat.add_0_r in DL. revert DL. generalize (l / d)%nat. intros u DL.
        assert (u < 2 ^ (L - lv))%nat by nia. nia. }
      specialize (HBe _ Hlj). unfold monomial. destruct (Nat.eqb_spec a i0) as [Ea|Ea].
      + destruct (Nat.eqb_spec (l + j) j0) as [Ej|Ej].
        * assert (l = 0%nat). { destruct l as [|l]; [reflexivity|]. exfalso. pose proof (Nat.div_mod (S l) d ltac:(lia)) as DM. rewrite Hz in DM.
            revert DM. generalize (S l / d)%nat. intros [|u] DM; nia. }
          subst l. split; [nia|]. rewrite (proj2 Hidx0) by (split; [exact Ea|lia]). cbn [andb Nat.eqb].
          replace (W * (c + t * er a (0 + j)%nat)) with (c * W + W * er a (0 + j)%nat * t) by ring. rewrite Z_mod_plus_full. exact Hinv.
        * split; [nia|]. replace (W * (0 + t * er a (l + j)%nat)) with (W * er a (l + j)%nat * t) by ring. rewrite Z_mod_mult.
          destruct ((idx =? i0 * d + j0)%nat && (l =? 0)%nat) eqn:Q; [|reflexivity]. apply andb_true_iff in Q. destruct Q as [Q1 Q2].
          apply Hidx0 in Q1. apply Nat.eqb_eq in Q2. lia.
      + split; [nia|]. replace (W * (0 + t * er a (l + j)%nat)) with (W * er a (l + j)%nat * t) by ring. rewrite Z_mod_mult.
        destruct ((idx =? i0 * d + j0)%nat && (l =? 0)%nat) eqn:Q; [|reflexivity]. apply andb_true_iff in Q. destruct Q as [Q1 Q2].
        apply Hidx0 in Q1. lia.
    - split; [nia|]. rewrite Z.mul_0_r, Z.mod_0_l by lia. destruct ((idx =? i0 * d + j0)%nat && (l =? 0)%nat) eqn:Q; [|reflexivity].
      apply andb_true_iff in Q. destruct Q as [_ Q2]. apply Nat.eqb_eq in Q2. subst l. exfalso. apply Hz. apply Nat.mod_0_l. lia. }
  rewrite (proj2 (C26_decrypt k q L t key y _ K Ht (proj1 Fy) Cy)).
  - f_equal. unfold tabulate. apply map_ext_in. intros l Hl. apply in_seq in Hl. rewrite (Z.mul_comm t (E0 l)), Z_mod_plus_full.
    apply (Val l ltac:(lia)).
  - intros l Hl. unfold fits. destruct (Val l Hl) as [V1 _]. specialize (HE0 l Hl). cbv zeta in V1.
    set (r := residue_part d j _ l) in *. nia.
Qed.

(** the same with the constant that ComputeNormalizer prescribes *)
Theorem C33_selection_normalized :
  forall k q L t v B key lv ex xs i0 j0 c e m ys log_t, key_ok k q L t key -> 0 < t <= q -> 0 <= v -> 0 <= B ->
  expander_for L t v B key lv ex -> (j0 < 2 ^ lv)%nat -> 1 <= log_t <= 63 -> t = 2 ^ log_t + 1 ->
  compute_normalizer (Z.of_nat lv) log_t = Ok c ->
  (forall a x, nth_error xs a = Some x -> fresh_shape L key x /\
     exists er, (forall l, (l < 2 ^ L)%nat -> Z.abs (er l) <= e) /\
       carries L key x (fun l => (if (a =? i0)%nat then monomial c j0 l else 0) + t * er l)) ->
  2 * (2 ^ Z.of_nat lv * (t + t * e) + t * ((2 ^ Z.of_nat lv - 1) * B)) < q ->
  Z.of_nat (length xs) * 2 ^ Z.of_nat lv < 2 ^ 31 ->
  0 <= m <= Z.of_nat (length xs) * 2 ^ Z.of_nat lv -> m <> Z.of_nat (length xs) ->
  oblivious_expand ex xs (Z.of_nat lv) m = Ok ys ->
  Z.of_nat (length ys) = m /\
  forall idx y, nth_error ys idx = Some y ->
    decrypt key y = Ok (tabulate (2 ^ L) (fun l => if (idx =? i0 * 2 ^ lv + j0)%nat && (l =? 0)%nat then 1 else 0)).
Proof.
  intros k q L t v B key lv ex xs i0 j0 c e m ys log_t K Ht Hv HB HE Hj Hl Et Ec Hxs Hq Hs Hm Hne E.
  destruct (normalizer_ok (Z.of_nat lv) log_t ltac:(lia) Hl) as (r & Er & Hr & Hr1). rewrite Ec in Er. injection Er as <-.
  assert (P : 0 < 2 ^ log_t) by (apply Z.pow_pos_nonneg; lia). rewrite <- Et in Hr, Hr1.
  assert (E1 : 1 mod t = 1) by (apply Z.mod_small; lia). pose proof (Z.pow_pos_nonneg 2 (Z.of_nat lv) ltac:(lia) ltac:(lia)).
  destruct (C33_selection k q L t v B key lv ex xs i0 j0 c e m ys K Ht Hv HB HE Hj) as [H1 H2]; try assumption; try lia.
  { nia. }
  rewrite E1 in H2. split; assumption.
Qed.

(** requests that are refused *)
Theorem C33_rejects :
  forall ex xs levels m,
  m < 0 \/ levels < 0 \/ 32 <= levels \/
    (0 <= m /\ 0 <= levels <= 30 /\ Z.of_nat (length xs) * 2 ^ levels < 2 ^ 31 /\ Z.of_nat (length xs) * 2 ^ levels < m) ->
  oblivious_expand ex xs levels m = Err InvalidArgument.
Proof.
  intros ex xs levels m H. unfold oblivious_expand. destruct (Z.ltb_spec m 0); [reflexivity|].
  destruct (Z.ltb_spec levels 0); [reflexivity|]. destruct (Z.leb_spec 32 levels); [reflexivity|]. cbn [orb].
  destruct H as [H|[H|[H|(A1 & A2 & A3 & A4)]]]; try lia. pose proof (Z.pow_pos_nonneg 2 levels ltac:(lia) ltac:(lia)).
  destruct (Z.eqb_spec (Z.of_nat (length xs)) m); [nia|].
  replace (shl1 levels) with (2 ^ levels) by (rewrite <- (Z2Nat.id levels) by lia; symmetry; apply shl1_small; lia).
  assert (2 ^ levels <= 2 ^ 30) by (apply Z.pow_le_mono_r; lia).
  rewrite (wrap_small 64 (2 ^ levels)) by lia. rewrite wrap_small by nia. rewrite int32_small by nia. rewrite Z.gtb_ltb.
  destruct (Z.ltb_spec (Z.of_nat (length xs) * 2 ^ levels) m); [reflexivity|lia].
Qed.

(** if as many outputs as inputs are requested the inputs come back as they
    are, whatever the number of levels *)
Theorem C33_same_length :
  forall ex xs levels, 0 <= levels < 32 -> oblivious_expand ex xs levels (Z.of_nat (length xs)) = Ok xs.
Proof.
  intros ex xs levels H. unfold oblivious_expand. destruct (Z.ltb_spec (Z.of_nat (length xs)) 0); [lia|].
  destruct (Z.ltb_spec levels 0); [lia|]. destruct (Z.leb_spec 32 levels); [lia|]. cbn [orb]. rewrite Z.eqb_refl. reflexivity.
Qed.

(** which keys the constructors accept *)
Theorem C33_create :
  forall gks p np,
  ((forall i gk, nth_error gks i = Some gk -> rk_pow gk = Z.of_nat (np_n np) / 2 ^ Z.of_nat i + 1) ->
    exists ex, galois_expander gks p np = Ok ex) /\
  (~ (forall i gk, nth_error gks i = Some gk -> rk_pow gk = Z.of_nat (np_n np) / 2 ^ Z.of_nat i + 1) ->
    galois_expander gks p np = Err InvalidArgument) /\
  (forall gk, rk_pow gk = 5 -> exists ex, generator_expander gk p np = Ok ex) /\
  (forall gk, rk_pow gk <> 5 -> generator_expander gk p np = Err InvalidArgument).
Proof.
  intros gks p np. pose proof (keys_valid_spec (Z.of_nat (np_n np)) gks 0) as KV. cbn [Nat.add] in KV. change (Z.of_nat 0) with 0 in KV. unfold shr in KV.
  unfold galois_expander, generator_expander. split; [|split; [|split]].
  - intros H. rewrite (proj2 KV H). cbn [negb]. eauto.
  - intros H. destruct (keys_valid _ _ _); [|reflexivity]. exfalso. apply H, KV. reflexivity.
  - intros gk ->. cbn. eauto.
  - intros gk H. destruct (Z.eqb_spec (rk_pow gk) 5); [contradiction|reflexivity].
Qed.

(** without keys the request passes through unchanged or is refused *)
Theorem C33_default :
  forall xs levels m, - 2 ^ 31 <= m < 2 ^ 31 -> Z.of_nat (length xs) < 2 ^ 63 ->
  default_expand xs levels m = if Z.of_nat (length xs) =? m then Ok xs else Err InvalidArgument.
Proof.
  intros xs levels m Hm Hl. unfold default_expand. destruct (Z.eqb_spec (Z.of_nat (length xs)) m) as [E|E].
  - rewrite wrap_small by lia. rewrite <- E, Z.eqb_refl. reflexivity.
  - destruct (Z.eqb_spec (wrap 64 m) (Z.of_nat (length xs))) as [Q|Q]; [|reflexivity]. exfalso. unfold wrap in Q.
    destruct (Z.lt_ge_cases m 0).
    + rewrite <- (Z_mod_plus_full m 1), Z.mod_small in Q by lia. lia.
    + rewrite Z.mod_small in Q by lia. lia.
Qed.

Lemma expand_loop_app ex nc a : forall j b xs,
  expand_loop ex nc j (a + b) xs = do! ys <- expand_loop ex nc j a xs; expand_loop ex nc (j + Z.of_nat a) b ys.
Proof.
  induction a as [|a IH]; intros j b xs; cbn [Nat.add expand_loop bind].
  - replace (j + Z.of_nat 0) with j by lia. reflexivity.
  - destruct (expand_monomial ex nc j); cbn [bind]; try reflexivity. destruct (expand_row _ _ _ _) as [[los his]| |]; cbn [bind]; try reflexivity.
    rewrite IH. replace (j + 1 + Z.of_nat a) with (j + Z.of_nat (S a)) by lia. reflexivity.
Qed.

(** running the first [have] levels of a longer expansion *)
Lemma expand_prefix : forall k q L t v B key ex x f lv have, key_ok k q L t key -> 0 <= v -> 0 <= B -> k <> 16 ->
  expander_for L t v B key have ex -> (have < lv)%nat -> (lv <= L)%nat -> fresh_shape L key x -> carries L key x f ->
  exists y ys a g, ex_p ex = sk_p key /\ ex_np ex = sk_np key /\ fresh_shape L key y /\ carries L key y g /\
  expand_ciphertext ex x (Z.of_nat lv) =
    do! ' (los, his) <- expand_row ex a (2 ^ (Z.of_nat L - Z.of_nat have) + 1) (y :: ys);
    expand_loop ex (2 ^ Z.of_nat L) (Z.of_nat have + 1) (lv - have - 1) (los ++ his).
Proof.
  intros k q L t v B key ex x f lv have K Hv HB Hk HE Hlt HL Hx Hc. pose proof (L_range k q L t key K) as LR.
  destruct (expander_for_ok k q L t key K v B have ex Hv HE) as (Ep & Enp & HL2 & HS).
  assert (E0 : exists c0, ct_component x 0 = Ok c0 /\ length c0 = (2 ^ L)%nat).
  { destruct Hx as ((_ & Fx) & Lx & _). destruct (ct_c x) as [|c0 cs] eqn:Ec; [discriminate|]. exists c0.
    split; [unfold ct_component; rewrite Ec; reflexivity|]. inversion_clear Fx as [|? ? H _]. exact (proj1 H). }
  destruct E0 as (c0 & E0 & L0).
  assert (Un : forall w, (w <= L)%nat -> expand_ciphertext ex x (Z.of_nat w) = expand_loop ex (2 ^ Z.of_nat L) 0 w [x]).
  { intros w Hw. unfold expand_ciphertext. rewrite E0. cbn [bind]. rewrite L0, Enp, (ng_n _ _ _ _ (proj2 (key_ctx k q L t key K))), Z.eqb_refl. cbn [negb].
    rewrite shl1_small by lia. destruct (Z.ltb_spec (2 ^ Z.of_nat w) 0) as [N|_]; [pose proof (Z.pow_pos_nonneg 2 (Z.of_nat w) ltac:(lia) ltac:(lia)); lia|].
    rewrite Nat2Z.inj_pow, Nat2Z.id. reflexivity. }
  destruct (C33_expand_ciphertext k q L t v B key have ex x f K Hv HB HE Hx Hc) as [HD HV]. destruct (HD Hk) as (ys & Ey).
  destruct (HV ys Ey) as [Ly Hy]. rewrite Un in Ey by lia. pose proof (n_pos have) as Pn.
  destruct ys as [|y ys]; [cbn in Ly; lia|]. destruct (Hy 0%nat y eq_refl) as (Fy & E & _ & Cy).
  destruct (monomial_ok k q L t key K ex have Ep Enp HL2) as (a & Ea & _).
  exists y, ys, a, (fun l => 2 ^ Z.of_nat have * residue_part (2 ^ have) 0 f l + t * E l). split; [exact Ep|]. split; [exact Enp|]. split; [exact Fy|]. split; [exact Cy|].
  rewrite Un by exact HL. replace lv with (have + S (lv - have - 1))%nat at 1 by lia. rewrite expand_loop_app, Ey. cbn [bind]. rewrite Z.add_0_l.
  cbn [expand_loop]. rewrite Ea. cbn [bind]. unfold shr. rewrite <- Z.pow_sub_r by lia. reflexivity.
Qed.

(** asking for more levels than there are Galois keys is not refused: the
    missing key is looked up and dereferenced *)
Theorem C33_missing_keys_refuted :
  forall k q L t v B key gks ex x f lv, key_ok k q L t key -> 0 <= v -> 0 <= B -> k <> 16 ->
  galois_keys_ok L t v B key gks -> galois_expander gks (sk_p key) (sk_np key) = Ok ex ->
  (length gks < lv)%nat -> (lv <= L)%nat -> fresh_shape L key x -> carries L key x f ->
  expand_ciphertext ex x (Z.of_nat lv) = UB.
Proof.
  intros k q L t v B key gks ex x f lv K Hv HB Hk HG EX Hlt HL Hx Hc. pose proof (L_range k q L t key K) as LR.
  destruct (expand_prefix k q L t v B key ex x f lv (length gks) K Hv HB Hk) as (y & ys & a & g & Ep & Enp & Fy & Cy & ->); try assumption.
  { left. exists gks. split; [exact HG|]. split; [lia|]. split; [lia|exact EX]. }
  set (pw := 2 ^ (Z.of_nat L - Z.of_nat (length gks)) + 1).
  assert (Hpw : 2 ^ (Z.of_nat L - Z.of_nat (length gks)) = 2 * 2 ^ (Z.of_nat L - Z.of_nat (length gks) - 1)).
  { rewrite <- Z.pow_succ_r by lia. f_equal. lia. }
  assert (2 ^ (Z.of_nat L - Z.of_nat (length gks)) <= 2 ^ Z.of_nat L) by (apply Z.pow_le_mono_r; lia).
  pose proof (Z.pow_pos_nonneg 2 (Z.of_nat L - Z.of_nat (length gks) - 1) ltac:(lia) ltac:(lia)).
  assert (2 ^ Z.of_nat L <= 2 ^ 15) by (apply Z.pow_le_mono_r; lia).
  cbn [expand_row]. unfold galois_expander in EX. destruct (negb _); [discriminate|]. injection EX as <-. cbn [ex_subst].
  unfold galois_subst. destruct Fy as (Oy & Ly & Py & Zy).
  destruct (C32_substitute k q L t key 1 pw y g K Oy) as (z & Ez & _); try assumption; try lia; try (unfold pw; lia).
  { intros E0. rewrite E0 in Ly. discriminate. }
  { unfold pw. rewrite Hpw, Z.odd_add, Z.odd_mul. reflexivity. }
  { apply (secret_at_one k q L t key y g K Oy). exact Cy. }
  rewrite Ez. cbn [bind]. rewrite find_key_none; [reflexivity|]. intros gk Hin E.
  apply In_nth_error in Hin. destruct Hin as (i & Hi). destruct (HG i gk Hi) as (_ & _ & _ & P). rewrite P in E. unfold pw in E.
  assert (Hil : (i < length gks)%nat) by (apply nth_error_Some; rewrite Hi; discriminate).
  rewrite <- Z.pow_sub_r in E by lia. assert (2 ^ (Z.of_nat L - Z.of_nat (length gks)) < 2 ^ (Z.of_nat L - Z.of_nat i)) by (apply Z.pow_lt_mono_r; lia). lia.
Qed.

(** with one generator key the last level (power 3) is refused *)
Theorem C33_generator_last_level :
  forall k q L t v B key gk ex x f, key_ok k q L t key -> 0 <= v -> 0 <= B -> k <> 16 ->
  relin_ok L t v key gk -> rk_num gk = 2 -> 2 ^ (Z.of_nat L - 1) * relin_noise L v gk <= B ->
  generator_expander gk (sk_p key) (sk_np key) = Ok ex -> fresh_shape L key x -> carries L key x f ->
  expand_ciphertext ex x (Z.of_nat L) = Err InvalidArgument.
Proof.
  intros k q L t v B key gk ex x f K Hv HB Hk R Hn HN EX Hx Hc. pose proof (L_range k q L t key K) as LR.
  destruct (expand_prefix k q L t v B key ex x f L (L - 1) K Hv HB Hk) as (y & ys & a & g & Ep & Enp & Fy & Cy & ->); try assumption; try lia.
  { right. exists gk. split; [exact R|]. split; [exact Hn|]. split; [exact HN|]. split; [lia|exact EX]. }
  cbn [expand_row]. unfold generator_expander in EX. destruct (negb _); [discriminate|]. injection EX as <-. cbn [ex_subst].
  unfold generator_subst. destruct Fy as (_ & Ly & _). unfold ct_component. destruct (ct_c y) as [|c0 cs] eqn:Ec; [discriminate|]. cbn.
  replace (Z.of_nat L - Z.of_nat (L - 1)) with 1 by lia. reflexivity.
Qed.

(** *** A concrete case: degree 8, q = 786433, t = 3, Galois keys for two levels *)

Lemma polyr_ok l : length l = 8%nat -> Forall (fun z => 0 <= z < 2 ^ 32) l -> ntt_poly pr 3 (polyr l) /\
  forall i, (i < 8)%nat -> coeff pr npr (polyr l) i = nth i l 0 mod 786433.
Proof.
  intros Hl Hr. destruct (mk_ctx 32 786433 pr 3 npr pr_for npr_for) as (C & _).
  pose proof (proj1 C) as G.
  destruct (convert_coeff pr 3 npr C (map (import_int pr) l)) as (a & Ea & Ha & Hc).
  { rewrite map_length. exact Hl. }
  { apply Forall_forall. intros y Hy. apply in_map_iff in Hy. destruct Hy as (z & <- & Hz).
    apply (crep_rep pr), (import_crep pr G). rewrite Forall_forall in Hr. exact (Hr z Hz). }
  unfold polyr. rewrite Ea. split; [exact Ha|]. intros i Hi. rewrite (Hc i Hi).
  rewrite (nth_indep _ 0 (import_int pr 0)) by (rewrite map_length; lia). rewrite map_nth.
  assert (Hz : 0 <= nth i l 0 < 2 ^ p_k pr) by (rewrite Forall_forall in Hr; apply Hr, nth_In; lia).
  rewrite (stored_val pr _ G) by (apply (crep_rep pr), (import_crep pr G), Hz). rewrite (import_val pr G) by exact Hz.
  change (p_m pr) with 786433. apply Z.mod_mod. lia.
Qed.

Lemma encr_ok l seed : length l = 8%nat -> Forall (fun z => 0 <= z < 2 ^ 32) l -> ct_c (encr (polyr l) seed) <> [] ->
  fresh_shape 3 keyr (encr (polyr l) seed) /\
  exists e, (forall i, (i < 8)%nat -> Z.abs (e i) <= 2) /\
    carries 3 keyr (encr (polyr l) seed) (fun i => nth i l 0 + 3 * e i).
Proof.
  intros Hl Hr Hne. destruct keyr_ok as (EK & Ev & Ep & Enp). destruct (polyr_ok l Hl Hr) as [Hp Hc].
  unfold encr in *. destruct (encrypt toy 100 keyr (polyr l) seed) as [[x s']| |] eqn:E; try (exfalso; apply Hne; reflexivity).
  rewrite <- Ep in Hp.
  destruct (C26_encrypt 32 786433 3 3 keyr toy 100 (polyr l) seed x s' EK Hp toy_ok ltac:(lia) ltac:(lia) E) as (H1 & H2 & H3 & H4 & e & He & C).
  split; [split; [exact H1|]; split; [exact H2|]; split; assumption|].
  exists e. split; [intros i Hi; specialize (He i Hi); rewrite Ev in He; lia|].
  eapply carries_ext; [|exact C]. intros i Hi. cbv beta. rewrite Ep, Enp, (Hc i Hi). change (p_m pr) with 786433.
  rewrite cong_mod by lia. reflexivity.
Qed.

Definition gk9 : relin := Eval vm_compute in
  (match galois_create toys 100 keyr 2 9 4 [33] [34] with Ok rk => rk | _ => rk_default end).
Lemma two_cases {A} (a b : A) i x : nth_error [a; b] i = Some x -> (i = 0%nat /\ x = a) \/ (i = 1%nat /\ x = b).
Proof.
  destruct i as [|[|i]]; cbn; intros H; [injection H as <-; auto|injection H as <-; auto|]. destruct i; discriminate.
Qed.
Lemma one_case {A} (a : A) i x : nth_error [a] i = Some x -> i = 0%nat /\ x = a.
Proof. destruct i as [|i]; cbn; intros H; [injection H as <-; auto|]. destruct i; discriminate. Qed.
Lemma gks_ok : galois_keys_ok 3 3 1 1200 keyr [gk9; gkr].
Proof.
  destruct keyr_ok as (EK & Ev & _). destruct gkr_relin as (R & N & P).
  destruct (C32_create 32 786433 3 3 keyr toys 100%nat 2 9 4 [33] [34] gk9 EK) as (A & B & D & _); [lia|lia|exact toy_ok|vm_compute; reflexivity|].
  rewrite Ev in A. intros i gk H. apply two_cases in H. destruct H as [[-> ->]|[-> ->]].
  - split; [exact A|]. split; [exact B|]. split; [vm_compute; discriminate|]. rewrite D. reflexivity.
  - split; [exact R|]. split; [exact N|]. split; [vm_compute; discriminate|]. rewrite P. reflexivity.
Qed.
Definition ex2 : expander := {| ex_p := sk_p keyr; ex_np := sk_np keyr; ex_subst := galois_subst (sk_np keyr) [gk9; gkr] |}.
Definition ex5 : expander := {| ex_p := sk_p keyr; ex_np := sk_np keyr; ex_subst := generator_subst (sk_np keyr) gkr |}.
Lemma ex2_for lv : (lv <= 2)%nat -> expander_for 3 3 1 1200 keyr lv ex2.
Proof.
  intros H. left. exists [gk9; gkr]. split; [exact gks_ok|]. split; [exact H|]. split; [lia|]. unfold galois_expander.
  destruct gkr_relin as (_ & _ & P).
  replace (keys_valid (Z.of_nat (np_n (sk_np keyr))) 0 [gk9; gkr]) with true by (vm_compute; reflexivity). reflexivity.
Qed.
Lemma ex5_for : expander_for 3 3 1 4800 keyr 2 ex5.
Proof.
  right. destruct gkr_relin as (R & N & P). exists gkr. split; [exact R|]. split; [exact N|]. split; [vm_compute; discriminate|].
  split; [lia|]. unfold generator_expander. rewrite P. reflexivity.
Qed.

(** two ciphertexts, the second one encrypts X^2, expanded to 7 of 8 outputs:
    output 1 * 4 + 2 decrypts to 1, the others to 0 *)
Definition req : list ct := [encr (polyr [0; 0; 0; 0; 0; 0; 0; 0]) 5; encr (polyr [0; 0; 1; 0; 0; 0; 0; 0]) 6].
Example C33_example :
  compute_normalizer 2 1 = Ok 1 /\
  2 * (2 ^ 2 * (3 + 3 * 2) + 3 * ((2 ^ 2 - 1) * 4800)) < 786433 /\
  (forall a x, nth_error req a = Some x -> fresh_shape 3 keyr x /\
     exists er, (forall l, (l < 8)%nat -> Z.abs (er l) <= 2) /\
       carries 3 keyr x (fun l => (if (a =? 1)%nat then monomial 1 2 l else 0) + 3 * er l)) /\
  (match oblivious_expand ex2 req 2 7 with
   | Ok ys => map (decrypt keyr) ys =
       [Ok [0; 0; 0; 0; 0; 0; 0; 0]; Ok [0; 0; 0; 0; 0; 0; 0; 0]; Ok [0; 0; 0; 0; 0; 0; 0; 0]; Ok [0; 0; 0; 0; 0; 0; 0; 0];
        Ok [0; 0; 0; 0; 0; 0; 0; 0]; Ok [0; 0; 0; 0; 0; 0; 0; 0]; Ok [1; 0; 0; 0; 0; 0; 0; 0]]
   | _ => False end).
Proof.
  split; [reflexivity|]. split; [reflexivity|]. split.
  - intros a x H. apply two_cases in H. destruct H as [[-> ->]|[-> ->]].
    + destruct (encr_ok [0; 0; 0; 0; 0; 0; 0; 0] 5 eq_refl) as (F & e & He & C); [repeat constructor; lia|vm_compute; discriminate|]. split; [exact F|]. exists e. split; [exact He|].
      eapply carries_ext; [|exact C]. intros i Hi. apply cong_eq. do 8 (destruct i as [|i]; [reflexivity|]). cbn in Hi. lia.
    + destruct (encr_ok [0; 0; 1; 0; 0; 0; 0; 0] 6 eq_refl) as (F & e & He & C); [repeat constructor; lia|vm_compute; discriminate|]. split; [exact F|]. exists e. split; [exact He|].
      eapply carries_ext; [|exact C]. intros i Hi. apply cong_eq. do 8 (destruct i as [|i]; [reflexivity|]). cbn in Hi. lia.
  - vm_compute; reflexivity.
Qed.

(** the documented result fails if as many outputs as inputs are requested: one
    ciphertext encrypting the normalizer of one level, X^0, and one output:
    every other hypothesis of C33_selection_normalized holds, but the selected
    output decrypts to 2, not to 1 *)
Theorem C33_same_length_refuted :
  exists xs c ys, compute_normalizer 1 1 = Ok c /\ length xs = 1%nat /\
  expander_for 3 3 1 1200 keyr 1 ex2 /\ key_ok 32 786433 3 3 keyr /\
  (forall a x, nth_error xs a = Some x -> fresh_shape 3 keyr x /\
     exists er, (forall l, (l < 8)%nat -> Z.abs (er l) <= 2) /\
       carries 3 keyr x (fun l => (if (a =? 0)%nat then monomial c 0 l else 0) + 3 * er l)) /\
  2 * (2 ^ 1 * (3 + 3 * 2) + 3 * ((2 ^ 1 - 1) * 1200)) < 786433 /\
  oblivious_expand ex2 xs 1 1 = Ok ys /\ map (decrypt keyr) ys = [Ok [2; 0; 0; 0; 0; 0; 0; 0]].
Proof.
  exists [encr (polyr [2; 0; 0; 0; 0; 0; 0; 0]) 5], 2, [encr (polyr [2; 0; 0; 0; 0; 0; 0; 0]) 5].
  split; [reflexivity|]. split; [reflexivity|]. split; [apply ex2_for; lia|]. split; [exact (ek_key _ _ _ _ _ (proj1 keyr_ok))|].
  split; [|split; [reflexivity|split; [apply C33_same_length; lia|vm_compute; reflexivity]]].
  intros a x H. apply one_case in H. destruct H as [-> ->].
  destruct (encr_ok [2; 0; 0; 0; 0; 0; 0; 0] 5 eq_refl) as (F & e & He & C); [repeat constructor; lia|vm_compute; discriminate|]. split; [exact F|]. exists e. split; [exact He|].
  eapply carries_ext; [|exact C]. intros i Hi. apply cong_eq. do 8 (destruct i as [|i]; [reflexivity|]). cbn in Hi. lia.
Qed.

(** two keys, three levels: undefined; one generator key, three levels: refused *)
Example C33_missing_example :
  galois_expander [gk9; gkr] pr npr = Ok {| ex_p := pr; ex_np := npr; ex_subst := galois_subst npr [gk9; gkr] |} /\
  expand_ciphertext ex2 (encr (polyr [0; 0; 1; 0; 0; 0; 0; 0]) 6) 3 = UB /\
  expand_ciphertext ex5 (encr (polyr [0; 0; 1; 0; 0; 0; 0; 0]) 6) 3 = Err InvalidArgument.
Proof.
  split; [|split; vm_compute; reflexivity]. unfold galois_expander.
  replace (keys_valid (Z.of_nat (np_n npr)) 0 [gk9; gkr]) with true by (vm_compute; reflexivity). reflexivity.
Qed.

(** ** C34 *)

Theorem C34_normalizer :
  forall k log_t, 0 <= k -> 1 <= log_t <= 63 ->
  exists r, compute_normalizer k log_t = Ok r /\ 0 < r < 2 ^ log_t + 1 /\ (r * 2 ^ k) mod (2 ^ log_t + 1) = 1.
Proof. exact normalizer_ok. Qed.
Example C34_example : compute_normalizer 5 16 = Ok 63489 /\ (63489 * 2 ^ 5) mod (2 ^ 16 + 1) = 1 /\ compute_normalizer 17 16 = Ok 32768 /\
  compute_normalizer 3 0 = UB /\ compute_normalizer 3 64 = UB.
Proof. vm_compute. repeat split. Qed.

(** ** C35 *)

(** the l-th coefficient of polynomial a is 1 if index a * 2^log_cf + l was
    requested and l < 2^log_cf, and 0 otherwise *)
Theorem C35_compressed :
  forall k m p L np total indices log_cf, params_for k m p -> ntt_for p L np -> 0 < total ->
  0 <= log_cf <= Z.of_nat L -> (L <= 30)%nat -> (forall i, In i indices -> 0 <= i < total) ->
  exists polys, make_compressed_vector total indices log_cf p np = Ok polys /\
  Z.of_nat (length polys) = (total + 2 ^ log_cf - 1) / 2 ^ log_cf /\
  forall a, (a < length polys)%nat -> ntt_poly p L (nth a polys []) /\
  forall l, (l < 2 ^ L)%nat -> coeff p np (nth a polys []) l =
    if (Z.of_nat l <? 2 ^ log_cf) && existsb (Z.eqb (Z.of_nat a * 2 ^ log_cf + Z.of_nat l)) indices then 1 else 0.
Proof.
  intros k m p L np total indices log_cf HP HN Ht Hl HL Hi. destruct (mk_ctx k m p L np HP HN) as (C & _ & Em). pose proof (proj1 C) as G.
  pose proof (m_gt1 p G) as M1.
  assert (Pc : 0 < 2 ^ log_cf <= 2 ^ Z.of_nat L) by (split; [apply Z.pow_pos_nonneg; lia|apply Z.pow_le_mono_r; lia]).
  assert (En : np_n np = (2 ^ L)%nat) by (apply (ng_n _ _ _ _ (proj2 C))). assert (EnZ : Z.of_nat (np_n np) = 2 ^ Z.of_nat L) by (rewrite En, Nat2Z.inj_pow; reflexivity).
  unfold make_compressed_vector. destruct (Z.leb_spec total 0); [lia|]. destruct (Z.ltb_spec log_cf 0); [lia|]. destruct (Z.leb_spec 32 log_cf); [lia|]. cbn [orb].
  replace (shl1 log_cf) with (2 ^ log_cf) by (rewrite <- (Z2Nat.id log_cf) by lia; symmetry; apply shl1_small; lia).
  destruct (Z.leb_spec (2 ^ log_cf) 0); [lia|]. rewrite Z.gtb_ltb, EnZ. destruct (Z.ltb_spec (2 ^ Z.of_nat L) (2 ^ log_cf)); [lia|]. cbn [orb].
  set (cf := 2 ^ log_cf) in *. set (N := (total + cf - 1) / cf).
  assert (HN0 : 0 <= N) by (apply Z.div_pos; lia).
  assert (HNt : total <= N * cf).
  { unfold N. pose proof (Z.div_mod (total + cf - 1) cf ltac:(lia)). pose proof (Z.mod_pos_bound (total + cf - 1) cf ltac:(lia)). lia. }
  assert (Z0 : stored p (import_zero p)) by (unfold stored, import_zero; lia).
  assert (O1 : stored p (import_one p)) by (apply crep_rep, one_crep, G).
  destruct (compress_loop_ok p (np_n np) total log_cf ltac:(lia) ltac:(rewrite EnZ; fold cf; lia) (Z.to_nat N) ltac:(rewrite Z2Nat.id by lia; fold cf; lia)
     indices (repeat (repeat (import_zero p) (np_n np)) (Z.to_nat N))) as (vs & E & Lvs & Fvs & V).
  { apply repeat_length. }
  { apply Forall_forall. intros w Hw. apply repeat_spec in Hw. subst w. apply repeat_length. }
  { exact Hi. }
  fold cf in E, V. rewrite E. cbn [bind].
  assert (V2 : forall a l, (a < Z.to_nat N)%nat -> (l < 2 ^ L)%nat -> nth l (nth a vs []) 0 =
     if (Z.of_nat l <? cf) && existsb (Z.eqb (Z.of_nat a * cf + Z.of_nat l)) indices then import_one p else import_zero p).
  { intros a l Ha Hl2. rewrite (V a l Ha). destruct (_ && _); [reflexivity|].
    rewrite (nth_indep _ [] (repeat (import_zero p) (np_n np))) by (rewrite repeat_length; exact Ha). rewrite nth_repeat.
    rewrite (nth_indep _ 0 (import_zero p)) by (rewrite repeat_length; lia). apply nth_repeat. }
  assert (HV3 : forall v, In v vs -> exists a, convert_to_ntt p np v = Ok a /\ ntt_poly p L a /\
     forall i, (i < 2 ^ L)%nat -> coeff p np a i = export_int p (nth i v 0) mod p_m p).
  { intros v Hv. apply (convert_coeff p L np C v).
    - rewrite Forall_forall in Fvs. rewrite (Fvs v Hv). exact En.
    - apply Forall_forall. intros y Hy. apply In_nth with (d := 0) in Hy. destruct Hy as (l & Hl2 & <-).
      apply In_nth with (d := []) in Hv. destruct Hv as (a & Ha & <-).
      rewrite V2; [destruct (_ && _); assumption|lia|]. rewrite Forall_forall in Fvs. rewrite (Fvs (nth a vs [])) in Hl2 by (apply nth_In; lia). lia. }
  rewrite (RelinProofs.seqr_ok (convert_to_ntt p np) [] vs) by (intros v Hv; destruct (HV3 v Hv) as (a & Ea & _); eauto).
  eexists; split; [reflexivity|]. rewrite map_length, Lvs. split; [apply Z2Nat.id; lia|].
  intros a Ha. rewrite (nth_indep _ [] ((fun v => match convert_to_ntt p np v with Ok b => b | _ => [] end) [])) by (rewrite map_length; lia).
  rewrite (map_nth (fun v => match convert_to_ntt p np v with Ok b => b | _ => [] end)).
  destruct (HV3 (nth a vs []) ltac:(apply nth_In; lia)) as (b & Eb & Hb & Hc). rewrite Eb. split; [exact Hb|].
  intros l Hl2. rewrite (Hc l Hl2), (V2 a l Ha Hl2). destruct (_ && _).
  - rewrite (stored_val p _ G O1), (one_val p G). apply Z.mod_small. lia.
  - rewrite (stored_val p _ G Z0), (zero_val p G). apply Z.mod_0_l. lia.
Qed.

Theorem C35_rejects :
  forall k m p L np total indices log_cf, params_for k m p -> ntt_for p L np -> (L <= 30)%nat ->
  total <= 0 \/ log_cf < 0 \/ Z.of_nat L < log_cf \/ (exists i, In i indices /\ ~ 0 <= i < total) ->
  make_compressed_vector total indices log_cf p np = Err InvalidArgument.
Proof.
  intros k m p L np total indices log_cf HP HN HL H. destruct (mk_ctx k m p L np HP HN) as (C & _ & Em).
  assert (En : np_n np = (2 ^ L)%nat) by (apply (ng_n _ _ _ _ (proj2 C))). assert (EnZ : Z.of_nat (np_n np) = 2 ^ Z.of_nat L) by (rewrite En, Nat2Z.inj_pow; reflexivity).
  unfold make_compressed_vector. destruct (Z.leb_spec total 0) as [|Ht]; [reflexivity|]. destruct (Z.ltb_spec log_cf 0) as [|Hl]; [reflexivity|].
  destruct (Z.leb_spec 32 log_cf) as [|Hl2]; [reflexivity|]. cbn [orb].
  destruct (Z.eq_dec log_cf 31) as [->|N31].
  { reflexivity. }
  replace (shl1 log_cf) with (2 ^ log_cf) by (rewrite <- (Z2Nat.id log_cf) by lia; symmetry; apply shl1_small; lia).
  destruct (Z.leb_spec (2 ^ log_cf) 0); [reflexivity|]. rewrite Z.gtb_ltb, EnZ. destruct (Z.ltb_spec (2 ^ Z.of_nat L) (2 ^ log_cf)) as [|Hle]; [reflexivity|]. cbn [orb].
  assert (HlL : log_cf <= Z.of_nat L). { destruct (Z.le_gt_cases log_cf (Z.of_nat L)) as [|Hgt]; [assumption|]. exfalso.
    assert (2 ^ Z.of_nat L < 2 ^ log_cf) by (apply Z.pow_lt_mono_r; lia). lia. }
  destruct H as [H|[H|[H|H]]]; try lia.
  set (cf := 2 ^ log_cf) in *. set (N := (total + cf - 1) / cf).
  assert (HN0 : 0 <= N) by (apply Z.div_pos; lia).
  assert (HNt : total <= N * cf).
  { unfold N. pose proof (Z.div_mod (total + cf - 1) cf ltac:(lia)). pose proof (Z.mod_pos_bound (total + cf - 1) cf ltac:(lia)). lia. }
  unfold cf. rewrite (compress_loop_bad p (np_n np) total log_cf ltac:(lia) ltac:(rewrite EnZ; fold cf; lia) (Z.to_nat N) ltac:(rewrite Z2Nat.id by lia; fold cf; lia)); try reflexivity.
  - apply repeat_length.
  - apply Forall_forall. intros w Hw. apply repeat_spec in Hw. subst w. apply repeat_length.
  - exact H.
Qed.

Example C35_example :
  match make_compressed_vector 10 [2; 9] 2 pr npr with
  | Ok ps => ps = [polyr [0; 0; 1; 0; 0; 0; 0; 0]; polyr [0; 0; 0; 0; 0; 0; 0; 0]; polyr [0; 1; 0; 0; 0; 0; 0; 0]]
  | _ => False end /\
  make_compressed_vector 10 [2; 10] 2 pr npr = Err InvalidArgument /\
  make_compressed_vector 10 [2] 31 pr npr = Err InvalidArgument.
Proof. vm_compute. repeat split. Qed.

(** MakeCompressedVector and the expansion fit together: the plaintexts for the
    index i are the normalized monomial of ciphertext i / 2^lv *)
Theorem C35_single_index :
  forall k m p L np total i log_cf, params_for k m p -> ntt_for p L np ->
  0 <= log_cf <= Z.of_nat L -> (L <= 30)%nat -> 0 <= i < total ->
  exists polys, make_compressed_vector total [i] log_cf p np = Ok polys /\
  forall a, (a < length polys)%nat -> forall l, (l < 2 ^ L)%nat ->
    coeff p np (nth a polys []) l =
    if (Z.of_nat a =? i / 2 ^ log_cf) then monomial 1 (Z.to_nat (i mod 2 ^ log_cf)) l else 0.
Proof.
  intros k m p L np total i log_cf HP HN Hl HL Hi.
  destruct (C35_compressed k m p L np total [i] log_cf HP HN ltac:(lia) Hl HL) as (polys & E & Len & H).
  { intros j [<-|[]]. exact Hi. }
  exists polys. split; [exact E|]. intros a Ha l Hl2. destruct (H a Ha) as [_ Hc]. rewrite (Hc l Hl2). cbn [existsb]. rewrite orb_false_r.
  assert (Pc : 0 < 2 ^ log_cf) by (apply Z.pow_pos_nonneg; lia). set (cf := 2 ^ log_cf) in *.
  pose proof (Z.div_mod i cf ltac:(lia)) as DM. pose proof (Z.mod_pos_bound i cf Pc) as Hm. unfold monomial.
  destruct (Z.ltb_spec (Z.of_nat l) cf) as [Hc1|Hc1]; cbn [andb].
  - destruct (Z.eqb_spec (Z.of_nat a * cf + Z.of_nat l) i) as [Q|Q].
    + assert (Ed : i / cf = Z.of_nat a) by (rewrite <- Q, Z.add_comm, Z.div_add, Z.div_small by lia; lia). rewrite Ed, Z.eqb_refl.
      destruct (Nat.eqb_spec l (Z.to_nat (i mod cf))); [reflexivity|nia].
    + destruct (Z.eqb_spec (Z.of_nat a) (i / cf)) as [Q2|]; [|reflexivity].
      destruct (Nat.eqb_spec l (Z.to_nat (i mod cf))); [|reflexivity]. exfalso. apply Q. rewrite Q2. lia.
  - destruct (Z.eqb_spec (Z.of_nat a) (i / cf)) as [Q2|]; [|reflexivity].
    destruct (Nat.eqb_spec l (Z.to_nat (i mod cf))); [lia|reflexivity].
Qed.

Print Assumptions C33_expand_ciphertext.
Print Assumptions C33_oblivious_expand.
Print Assumptions C33_selection_normalized.
Print Assumptions C33_missing_keys_refuted.
Print Assumptions C33_same_length_refuted.
Print Assumptions C34_normalizer.
Print Assumptions C35_compressed.
