(** Proofs about oblivious expansion. *)
From Coq Require Import Arith Znumtheory.
From Verif Require Import Base FinSum PolySpec Ring Montgomery MontBatch Ntt Poly PolyExt Prng Sampling SampleSpec
  MontgomeryProofs Spec PolyView ArithFacts NttFacts NttProofs PolyProofs PolyFacts PolyExtProofs
  BitsUtil BitsUtilProofs SymEnc SymSpec SymProofs SymFacts SymSwitch ThmSymEnc Relin RelinSpec RelinProofs ThmRelin
  Expand ExpandSpec.
Local Notation zsum := FinSum.zsum.

(** ** Integer polynomials *)

Lemma substituted_add n pw f g l :
  substituted n pw (fun i => f i + g i) l = substituted n pw f l + substituted n pw g l.
Proof.
  unfold substituted. rewrite <- zsum_add. apply zsum_ext. intros i Hi.
  destruct (_ =? _)%nat; [ring|]. destruct (_ =? _)%nat; ring.
Qed.
Lemma substituted_scale n pw c f l : substituted n pw (fun i => c * f i) l = c * substituted n pw f l.
Proof.
  unfold substituted. rewrite <- zsum_mul_l. apply zsum_ext. intros i Hi.
  destruct (_ =? _)%nat; [ring|]. destruct (_ =? _)%nat; ring.
Qed.
Lemma substituted_ext n pw f g l : (forall i, (i < n)%nat -> f i = g i) -> substituted n pw f l = substituted n pw g l.
Proof. intros H. unfold substituted. apply zsum_ext. intros i Hi. rewrite (H i Hi). reflexivity. Qed.

(** f(X^(n/d+1)) when only powers of X^d occur in f, n = d * e *)
Lemma substituted_level d e f l : (0 < d)%nat -> (0 < e)%nat -> (l < d * e)%nat ->
  (forall i, (i mod d <> 0)%nat -> f i = 0) ->
  substituted (d * e) (e + 1) f l = if Nat.even (l / d) then f l else - f l.
Proof.
  intros Hd He Hl Hf. set (n := (d * e)%nat) in *.
  assert (Hmod : forall c, (c < e)%nat -> (d * c * (e + 1) mod (2 * n) = if Nat.even c then d * c else d * c + n)%nat).
  { intros c Hc. assert (Hdc : (d * c + d <= n)%nat) by (unfold n; nia).
    replace (d * c * (e + 1))%nat with (d * c + c * n)%nat by (unfold n; ring).
    destruct (Nat.even c) eqn:Ev.
    - apply Nat.even_spec in Ev. destruct Ev as (h & ->). replace (d * (2 * h) + 2 * h * n)%nat with (d * (2 * h) + h * (2 * n))%nat by ring.
      rewrite Nat.mod_add by lia. apply Nat.mod_small. lia.
    - assert (Od : Nat.odd c = true) by (unfold Nat.odd; rewrite Ev; reflexivity). apply Nat.odd_spec in Od. destruct Od as (h & ->).
      replace (d * (2 * h + 1) + (2 * h + 1) * n)%nat with (d * (2 * h + 1) + n + h * (2 * n))%nat by ring.
      rewrite Nat.mod_add by lia. apply Nat.mod_small. lia. }
  assert (Hterm : forall i, (i < n)%nat -> (if (i * (e + 1) mod (2 * n) =? l)%nat then f i
                   else if (i * (e + 1) mod (2 * n) =? l + n)%nat then - f i else 0) =
                   if (i =? l)%nat then (if Nat.even (l / d) then f l else - f l) else 0).
  { intros i Hi. destruct (Nat.eq_dec (i mod d) 0) as [Hz|Hz].
    - assert (Ei : i = (d * (i / d))%nat) by (pose proof (Nat.div_mod i d ltac:(lia)); lia).
      set (c := (i / d)%nat) in *. assert (Hc : (c < e)%nat) by (unfold n in Hi; nia).
      rewrite Ei, (Hmod c Hc). destruct (Nat.eqb_spec (d * c) l) as [El|El].
      + subst l. rewrite (Nat.mul_comm d c), Nat.div_mul by lia. rewrite (Nat.mul_comm c d).
        destruct (Nat.even c); [rewrite Nat.eqb_refl; reflexivity|].
        destruct (Nat.eqb_spec (d * c + n) (d * c)) as [Q|Q]; [lia|]. rewrite Nat.eqb_refl. reflexivity.
      + destruct (Nat.even c).
        * destruct (Nat.eqb_spec (d * c) l); [lia|]. destruct (Nat.eqb_spec (d * c) (l + n)); [|reflexivity]. lia.
        * destruct (Nat.eqb_spec (d * c + n) l); [lia|]. destruct (Nat.eqb_spec (d * c + n) (l + n)); [lia|reflexivity].
    - rewrite (Hf i Hz). destruct (Nat.eqb_spec i l) as [->|]; [rewrite (Hf l Hz)|];
      destruct (_ =? _)%nat; try destruct (_ =? _)%nat; try destruct (Nat.even _); reflexivity. }
  unfold substituted. rewrite (zsum_ext _ _ _ Hterm). rewrite (zsum_single n l); [rewrite Nat.eqb_refl; reflexivity|exact Hl|].
  intros i _ Hil. destruct (Nat.eqb_spec i l); [contradiction|reflexivity].
Qed.

(** division by X^d *)
Definition minus_monomial (n d : nat) (i : nat) : Z := if (i =? n - d)%nat then -1 else 0.

Lemma negacyclic_shift n d f l : (0 < d <= n)%nat -> (l < n)%nat ->
  negacyclic n f (minus_monomial n d) l = if (l + d <? n)%nat then f (l + d)%nat else - f (l + d - n)%nat.
Proof.
  intros Hd Hl. unfold negacyclic, minus_monomial. destruct (Nat.ltb_spec (l + d) n) as [H|H].
  - rewrite (zsum_single n (l + d)); [|lia|].
    + destruct (Nat.leb_spec (l + d) l); [lia|]. replace (l + n - (l + d))%nat with (n - d)%nat by lia. rewrite Nat.eqb_refl. ring.
    + intros i Hi Hne. destruct (Nat.leb_spec i l).
      * destruct (Nat.eqb_spec (l - i) (n - d)); [lia|ring].
      * destruct (Nat.eqb_spec (l + n - i) (n - d)); [lia|ring].
  - rewrite (zsum_single n (l + d - n)); [|lia|].
    + destruct (Nat.leb_spec (l + d - n) l); [|lia]. replace (l - (l + d - n))%nat with (n - d)%nat by lia. rewrite Nat.eqb_refl. ring.
    + intros i Hi Hne. destruct (Nat.leb_spec i l).
      * destruct (Nat.eqb_spec (l - i) (n - d)); [lia|ring].
      * destruct (Nat.eqb_spec (l + n - i) (n - d)); [lia|ring].
Qed.

Lemma shift_bound n d f l B : (0 < d <= n)%nat -> (l < n)%nat -> (forall i, (i < n)%nat -> Z.abs (f i) <= B) ->
  Z.abs (negacyclic n f (minus_monomial n d) l) <= B.
Proof.
  intros Hd Hl Hf. rewrite negacyclic_shift by assumption. destruct (Nat.ltb_spec (l + d) n) as [H|H].
  - apply Hf, H.
  - rewrite Z.abs_opp. apply Hf. lia.
Qed.

Lemma shift_add n d f g l : (0 < d <= n)%nat -> (l < n)%nat ->
  negacyclic n (fun i => f i + g i) (minus_monomial n d) l =
  negacyclic n f (minus_monomial n d) l + negacyclic n g (minus_monomial n d) l.
Proof. intros Hd Hl. rewrite !negacyclic_shift by assumption. destruct (_ <? _)%nat; ring. Qed.
Lemma shift_scale n d c f l : (0 < d <= n)%nat -> (l < n)%nat ->
  negacyclic n (fun i => c * f i) (minus_monomial n d) l = c * negacyclic n f (minus_monomial n d) l.
Proof. intros Hd Hl. rewrite !negacyclic_shift by assumption. destruct (_ <? _)%nat; ring. Qed.

(** one level of expansion on integer polynomials *)
Section Level.
Variables (d e : nat).
Hypothesis Hd : (0 < d)%nat.
Hypothesis He : (0 < e)%nat.
Let n := (d * (2 * e))%nat.
Variables (f : nat -> Z) (k : nat).
Let c := Z.of_nat d.
Let g l := c * residue_part d k f l.

Lemma g_support i : (i mod d <> 0)%nat -> g i = 0.
Proof. intros H. unfold g, residue_part. destruct (Nat.eqb_spec (i mod d) 0); [contradiction|ring]. Qed.

Lemma sub_g l : (l < n)%nat -> substituted n (2 * e + 1) g l = if Nat.even (l / d) then g l else - g l.
Proof. intros Hl. apply (substituted_level d (2 * e)); [lia|lia|exact Hl|exact g_support]. Qed.

Lemma mod_2d l : (l mod d = 0)%nat -> ((l mod (2 * d) =? 0)%nat = Nat.even (l / d)).
Proof.
  intros Hl. assert (El : l = (d * (l / d))%nat) by (pose proof (Nat.div_mod l d ltac:(lia)); lia).
  set (a := (l / d)%nat) in *. rewrite El. destruct (Nat.even a) eqn:Ev.
  - apply Nat.even_spec in Ev. destruct Ev as (h & ->). apply Nat.eqb_eq.
    replace (d * (2 * h))%nat with (h * (2 * d))%nat by ring. apply Nat.mod_mul. lia.
  - assert (Od : Nat.odd a = true) by (unfold Nat.odd; rewrite Ev; reflexivity). apply Nat.odd_spec in Od. destruct Od as (h & ->).
    apply Nat.eqb_neq. replace (d * (2 * h + 1))%nat with (d + h * (2 * d))%nat by ring. rewrite Nat.mod_add by lia.
    rewrite Nat.mod_small by lia. lia.
Qed.

Lemma mod_2d_neq l : (l mod d <> 0)%nat -> (l mod (2 * d) <> 0)%nat.
Proof.
  intros H E. apply H. apply Nat.mod_divide in E; [|lia]. destruct E as (a & ->). apply Nat.mod_divide; [lia|].
  exists (2 * a)%nat. ring.
Qed.

Lemma level_lo l : (l < n)%nat -> g l + substituted n (2 * e + 1) g l = Z.of_nat (2 * d) * residue_part (2 * d) k f l.
Proof.
  intros Hl. rewrite (sub_g l Hl).
  destruct (Nat.eq_dec (l mod d) 0) as [Hz|Hz].
  - unfold g, residue_part. rewrite (mod_2d l Hz), Hz. cbn [Nat.eqb].
    destruct (Nat.even (l / d)); unfold c; [rewrite Nat2Z.inj_mul|]; lia.
  - rewrite (g_support l Hz). unfold residue_part. destruct (Nat.eqb_spec (l mod (2 * d)) 0) as [E|E].
    + exfalso. exact (mod_2d_neq l Hz E).
    + destruct (Nat.even (l / d)); lia.
Qed.

Lemma level_hi l : (l < n)%nat ->
  negacyclic n (fun i => g i - substituted n (2 * e + 1) g i) (minus_monomial n d) l =
  Z.of_nat (2 * d) * residue_part (2 * d) (k + d) f l.
Proof.
  intros Hl. assert (Hdn : (2 * d <= n)%nat) by (unfold n; nia). rewrite negacyclic_shift by lia.
  assert (H2 : forall i, (i < n)%nat -> g i - substituted n (2 * e + 1) g i =
    if Nat.even (i / d) then 0 else 2 * g i).
  { intros i Hi. rewrite (sub_g i Hi). destruct (Nat.even (i / d)); ring. }
  assert (Hdiv : (((l + d) / d) = S (l / d))%nat).
  { replace (l + d)%nat with (l + 1 * d)%nat by ring. rewrite Nat.div_add by lia. lia. }
  assert (Hm : ((l + d) mod d = l mod d)%nat).
  { replace (l + d)%nat with (l + 1 * d)%nat by ring. apply Nat.mod_add. lia. }
  destruct (Nat.eq_dec (l mod d) 0) as [Hz|Hz].
  - unfold residue_part at 1. rewrite (mod_2d l Hz). destruct (Nat.ltb_spec (l + d) n) as [Hn|Hn].
    + rewrite (H2 _ Hn), Hdiv, Nat.even_succ. unfold Nat.odd. destruct (Nat.even (l / d)) eqn:Ev; cbn [negb]; [|ring].
      unfold g, residue_part. rewrite Hm, Hz. cbn [Nat.eqb]. replace (l + d + k)%nat with (l + (k + d))%nat by ring.
      unfold c. rewrite Nat2Z.inj_mul. lia.
    + (* l = n - d, an odd multiple of d *)
      assert (El : l = (d * (l / d))%nat) by (pose proof (Nat.div_mod l d ltac:(lia)); lia).
      assert (Ea : (l / d = 2 * e - 1)%nat) by (unfold n in *; nia).
      replace (l + d - n)%nat with 0%nat by (unfold n in *; nia). rewrite H2 by lia.
      rewrite Nat.div_0_l by lia. cbn [Nat.even]. rewrite Ea.
      replace (2 * e - 1)%nat with (S (2 * (e - 1))) by lia. rewrite Nat.even_succ.
      replace (Nat.odd (2 * (e - 1))) with false; [ring|]. symmetry. unfold Nat.odd. rewrite (proj2 (Nat.even_spec _)); [reflexivity|].
      exists (e - 1)%nat. reflexivity.
  - unfold residue_part at 1. destruct (Nat.eqb_spec (l mod (2 * d)) 0) as [E|E]; [exfalso; exact (mod_2d_neq l Hz E)|].
    rewrite Z.mul_0_r. destruct (Nat.ltb_spec (l + d) n) as [Hn|Hn].
    + rewrite (H2 _ Hn), (g_support (l + d)) by (rewrite Hm; exact Hz). destruct (Nat.even _); reflexivity.
    + rewrite H2 by lia. rewrite (g_support (l + d - n)); [destruct (Nat.even _); reflexivity|].
      intros E0. apply Hz. rewrite <- Hm. replace (l + d)%nat with ((l + d - n) + (2 * e) * d)%nat by (unfold n in *; nia).
      rewrite Nat.mod_add by lia. exact E0.
Qed.
End Level.

(** ** Ciphertexts *)

Lemma carries_ext L key x f g : (forall i, (i < 2 ^ L)%nat -> cong (p_m (sk_p key)) (f i) (g i)) ->
  carries L key x f -> carries L key x g.
Proof. intros H C i Hi. rewrite (C i Hi). apply H, Hi. Qed.

Section Expand.
Variables (k q : Z) (L : nat) (t : Z) (key : skey).
Hypothesis K : key_ok k q L t key.
Local Notation p := (sk_p key).
Local Notation np := (sk_np key).
Local Notation n := (2 ^ L)%nat.
Let C : ctx p L np := key_ctx k q L t key K.

Lemma L_range : (1 <= L <= 15)%nat.
Proof. exact (key_L k q L t key K). Qed.

(** what SubstitutionWithKeys has to achieve for one power *)
Definition subst_ok (S : ct -> Z -> result ct) (B power : Z) : Prop :=
  0 < power < 2 * 2 ^ Z.of_nat L /\ Z.odd power = true /\
  forall x f, fresh_shape L key x -> carries L key x f ->
  (k <> 16 -> exists y, S x power = Ok y) /\
  forall y, S x power = Ok y -> fresh_shape L key y /\
    exists E, (forall l, (l < n)%nat -> Z.abs (E l) <= B) /\
      carries L key y (fun l => substituted n (Z.to_nat power) f l + t * E l).

Lemma odd_nat power : 0 < power -> Z.odd power = true -> Nat.odd (Z.to_nat power) = true.
Proof.
  intros Hp Ho. rewrite <- (Z2Nat.id power) in Ho by lia. apply Nat.odd_spec. apply Z.odd_spec in Ho.
  destruct Ho as (h & Hh). exists (Z.to_nat h). lia.
Qed.

(** one ciphertext of one level *)
Lemma expand_one (S : ct -> Z -> result ct) B power d a x g E0 B0 :
  subst_ok S B power -> 0 <= B -> 0 <= B0 -> (0 < d <= n)%nat -> ntt_poly p L a ->
  (forall i, (i < n)%nat -> cong q (coeff p np a i) (minus_monomial n d i)) ->
  fresh_shape L key x -> (forall l, (l < n)%nat -> Z.abs (E0 l) <= B0) -> carries L key x (fun l => g l + t * E0 l) ->
  (k <> 16 -> exists sub, S x power = Ok sub) /\
  forall sub, S x power = Ok sub ->
  exists dd hi lo, ct_sub x sub = Ok dd /\ absorb_monomial dd a = Ok hi /\ ct_add x sub = Ok lo /\
    fresh_shape L key hi /\ fresh_shape L key lo /\
    (exists E, (forall l, (l < n)%nat -> Z.abs (E l) <= 2 * B0 + B) /\
       carries L key lo (fun l => (g l + substituted n (Z.to_nat power) g l) + t * E l)) /\
    (exists E, (forall l, (l < n)%nat -> Z.abs (E l) <= 2 * B0 + B) /\
       carries L key hi (fun l => negacyclic n (fun i => g i - substituted n (Z.to_nat power) g i) (minus_monomial n d) l + t * E l)).
Proof.
  intros (Hp & Ho & HS) HB HB0 Hd Ha Hm Hx HE0 Hc. destruct (HS x _ Hx Hc) as [Def Val]. split; [exact Def|].
  intros sub Es. destruct (Val sub Es) as (Fs & E1 & HE1 & Cs). clear Def Val.
  destruct Hx as (Ox & Lx & Px & Zx). destruct Fs as (Os & Ls & Ps & Zs).
  destruct (C27_add_sub k q L t key x sub _ _ K Ox Os Hc Cs ltac:(congruence)) as
    ((lo & Elo & Olo & Plo & Llo & Clo) & (dd & Ed & Od & Pd & Ld & Cd)).
  destruct (C28_absorb k q L t key dd _ a (minus_monomial n d) K Od Cd Ha Hm) as (hi & Ehi & Ohi & Phi & Lhi & Chi).
  assert (Zlo : ct_lazy lo = []).
  { revert Elo. unfold ct_add. destruct (negb _); [discriminate|]. destruct (pad_to _ _ _) as [c1| |]; try discriminate. cbn [bind].
    destruct (zip_into _ _ _) as [c2| |]; try discriminate. cbn [bind]. intros H; injection H as <-. exact Zx. }
  assert (Zdd : ct_lazy dd = []).
  { revert Ed. unfold ct_sub. destruct (negb _); [discriminate|]. destruct (pad_to _ _ _) as [c1| |]; try discriminate. cbn [bind].
    destruct (zip_into _ _ _) as [c2| |]; try discriminate. cbn [bind]. intros H; injection H as <-. exact Zx. }
  assert (Zhi : ct_lazy hi = []).
  { revert Ehi. unfold ct_absorb. destruct (seqr _) as [c1| |]; try discriminate. cbn [bind]. intros H; injection H as <-. exact Zdd. }
  assert (Sb : forall l, (l < n)%nat -> Z.abs (substituted n (Z.to_nat power) E0 l) <= B0).
  { intros l Hl. apply substituted_bound; [apply odd_nat; [lia|exact Ho]|exists L; reflexivity|exact Hl|exact HB0|exact HE0]. }
  exists dd, hi, lo. split; [exact Ed|]. split; [exact Ehi|]. split; [exact Elo|].
  split. { split; [exact Ohi|]. split; [rewrite Lhi, Ld, Lx, Ls; reflexivity|]. split; [congruence|exact Zhi]. }
  split. { split; [exact Olo|]. split; [rewrite Llo, Lx, Ls; reflexivity|]. split; [congruence|exact Zlo]. }
  split.
  - exists (fun l => E0 l + substituted n (Z.to_nat power) E0 l + E1 l). split.
    { intros l Hl. specialize (Sb l Hl). specialize (HE0 l Hl). specialize (HE1 l Hl). lia. }
    eapply carries_ext; [|exact Clo]. intros l Hl. apply cong_eq. cbv beta.
    rewrite substituted_add, (substituted_scale _ _ t E0). ring.
  - exists (negacyclic n (fun i => E0 i + - 1 * substituted n (Z.to_nat power) E0 i + - 1 * E1 i) (minus_monomial n d)). split.
    { intros l Hl. apply shift_bound; [exact Hd|exact Hl|]. intros i Hi.
      specialize (Sb i Hi). specialize (HE0 i Hi). specialize (HE1 i Hi). lia. }
    eapply carries_ext; [|exact Chi]. intros l Hl. apply cong_eq. cbv beta.
    rewrite <- (shift_scale n d t) by assumption. rewrite <- shift_add by assumption.
    unfold negacyclic. apply zsum_ext. intros i Hi.
    rewrite (substituted_add n (Z.to_nat power) g (fun i => t * E0 i)), (substituted_scale _ _ t E0).
    destruct (i <=? l)%nat; ring.
Qed.

(** a whole level *)
Lemma expand_row_ok ex B power d a B0 (g : nat -> nat -> Z) :
  subst_ok (ex_subst ex) B power -> 0 <= B -> 0 <= B0 -> (0 < d <= n)%nat -> ntt_poly p L a ->
  (forall i, (i < n)%nat -> cong q (coeff p np a i) (minus_monomial n d i)) ->
  forall xs i0,
  (forall i x, nth_error xs i = Some x -> fresh_shape L key x /\
     exists E, (forall l, (l < n)%nat -> Z.abs (E l) <= B0) /\ carries L key x (fun l => g (i0 + i)%nat l + t * E l)) ->
  (k <> 16 -> exists r, expand_row ex a power xs = Ok r) /\
  forall los his, expand_row ex a power xs = Ok (los, his) -> length los = length xs /\ length his = length xs /\
  (forall i y, nth_error los i = Some y -> fresh_shape L key y /\
     exists E, (forall l, (l < n)%nat -> Z.abs (E l) <= 2 * B0 + B) /\
       carries L key y (fun l => (g (i0 + i)%nat l + substituted n (Z.to_nat power) (g (i0 + i)%nat) l) + t * E l)) /\
  (forall i y, nth_error his i = Some y -> fresh_shape L key y /\
     exists E, (forall l, (l < n)%nat -> Z.abs (E l) <= 2 * B0 + B) /\
       carries L key y (fun l => negacyclic n (fun j => g (i0 + i)%nat j - substituted n (Z.to_nat power) (g (i0 + i)%nat) j) (minus_monomial n d) l + t * E l)).
Proof.
  intros HS HB HB0 Hd Ha Hm. induction xs as [|x xs IH]; intros i0 Hxs.
  - cbn [expand_row]. split; [eauto|]. intros los his E. injection E as <- <-. split; [reflexivity|]. split; [reflexivity|].
    split; intros i y Hy; destruct i; discriminate.
  - destruct (Hxs 0%nat x eq_refl) as (Fx & E0 & HE0 & Cx). rewrite Nat.add_0_r in Cx.
    destruct (expand_one (ex_subst ex) B power d a x (g i0) E0 B0 HS HB HB0 Hd Ha Hm Fx HE0 Cx) as [Def Val].
    destruct (IH (S i0)) as [IHd IHv].
    { intros i y Hy. replace (S i0 + i)%nat with (i0 + S i)%nat by lia. apply (Hxs (S i) y Hy). }
    cbn [expand_row]. split.
    + intros Hk. destruct (Def Hk) as (sub & Es). rewrite Es. cbn [bind].
      destruct (Val sub Es) as (dd & hi & lo & E1 & E2 & E3 & _). rewrite E1. cbn [bind]. rewrite E2. cbn [bind]. rewrite E3. cbn [bind].
      destruct (IHd Hk) as ([los his] & Er). rewrite Er. cbn [bind]. eauto.
    + intros los his. destruct (ex_subst ex x power) as [sub| |] eqn:Es; try discriminate. cbn [bind].
      destruct (Val sub eq_refl) as (dd & hi & lo & E1 & E2 & E3 & Fhi & Flo & Clo & Chi). rewrite E1. cbn [bind]. rewrite E2. cbn [bind]. rewrite E3. cbn [bind].
      destruct (expand_row ex a power xs) as [[los' his']| |] eqn:Er; try discriminate. cbn [bind]. intros E. injection E as <- <-.
      destruct (IHv los' his' eq_refl) as (L1 & L2 & H1 & H2). cbn [length]. split; [congruence|]. split; [congruence|]. split.
      * intros i y Hy. destruct i as [|i]; [injection Hy as <-; rewrite Nat.add_0_r; split; [exact Flo|exact Clo]|].
        replace (i0 + S i)%nat with (S i0 + i)%nat by lia. apply (H1 i y Hy).
      * intros i y Hy. destruct i as [|i]; [injection Hy as <-; rewrite Nat.add_0_r; split; [exact Fhi|exact Chi]|].
        replace (i0 + S i)%nat with (S i0 + i)%nat by lia. apply (H2 i y Hy).
Qed.

Lemma pow_nat : 2 ^ Z.of_nat L = Z.of_nat n.
Proof. rewrite Nat2Z.inj_pow. reflexivity. Qed.

Lemma monomial_ok ex j : ex_p ex = p -> ex_np ex = np -> (j <= L)%nat ->
  exists a, expand_monomial ex (2 ^ Z.of_nat L) (Z.of_nat j) = Ok a /\ ntt_poly p L a /\
  forall i, (i < n)%nat -> cong q (coeff p np a i) (minus_monomial n (2 ^ j) i).
Proof.
  intros Ep Enp Hj. pose proof (proj1 C) as G. pose proof (m_gt1 p G) as M1.
  unfold expand_monomial. rewrite Ep, Enp.
  assert (Hjn : 0 < 2 ^ Z.of_nat j <= 2 ^ Z.of_nat L).
  { split; [apply Z.pow_pos_nonneg; lia|apply Z.pow_le_mono_r; lia]. }
  destruct (Z.ltb_spec (2 ^ Z.of_nat L - 2 ^ Z.of_nat j) 0); [lia|].
  destruct (Z.leb_spec (2 ^ Z.of_nat L) (2 ^ Z.of_nat L - 2 ^ Z.of_nat j)); [lia|]. cbn [orb].
  assert (EL : Z.to_nat (2 ^ Z.of_nat L) = n) by (rewrite pow_nat; apply Nat2Z.id).
  assert (Ei : Z.to_nat (2 ^ Z.of_nat L - 2 ^ Z.of_nat j) = (n - 2 ^ j)%nat).
  { rewrite Z2Nat.inj_sub, EL by lia. f_equal. replace (2 ^ Z.of_nat j) with (Z.of_nat (2 ^ j)) by (rewrite Nat2Z.inj_pow; reflexivity). apply Nat2Z.id. }
  rewrite EL, Ei.
  assert (P2 : (0 < 2 ^ j <= n)%nat) by (split; [apply (n_pos j)|apply Nat.pow_le_mono_r; lia]).
  pose proof (one_crep p G) as O1. pose proof (crep_rep p _ O1) as O2. pose proof (mneg_rep p G _ O2) as O3.
  assert (Z0 : stored p (import_zero p)) by (unfold stored, import_zero; lia).
  destruct (convert_coeff p L np C (upd (repeat (import_zero p) n) (n - 2 ^ j) (mneg p (import_one p)))) as (a & Ea & Ha & Hc).
  { rewrite upd_len, repeat_length. reflexivity. }
  { apply Forall_forall. intros y Hy. apply In_nth with (d := import_zero p) in Hy. destruct Hy as (i & Hi & <-).
    rewrite upd_len, repeat_length in Hi. rewrite TranscriptionProofs.nth_upd by (rewrite repeat_length; lia).
    destruct (i =? _)%nat; [exact O3|]. rewrite nth_repeat. exact Z0. }
  exists a. split; [exact Ea|]. split; [exact Ha|]. intros i Hi. rewrite <- (key_q k q L t key K). rewrite (Hc i Hi).
  rewrite TranscriptionProofs.nth_upd by (rewrite repeat_length; lia). unfold minus_monomial.
  destruct (Nat.eqb_spec i (n - 2 ^ j)) as [E|E].
  - rewrite (stored_val p _ G O3). rewrite (mneg_val p G) by exact O2. rewrite (one_val p G). rewrite !cong_mod. apply cong_eq. reflexivity.
  - rewrite (nth_indep _ 0 (import_zero p)) by (rewrite repeat_length; exact Hi). rewrite nth_repeat.
    rewrite (stored_val p _ G Z0), (zero_val p G), cong_mod. reflexivity.
Qed.

Lemma shr_pow j : (j <= L)%nat -> shr (2 ^ Z.of_nat L) (Z.of_nat j) + 1 = Z.of_nat (2 ^ (L - j) + 1).
Proof.
  intros Hj. unfold shr. rewrite <- Z.pow_sub_r by lia.
  rewrite Nat2Z.inj_add, Nat2Z.inj_pow, Nat2Z.inj_sub by exact Hj. reflexivity.
Qed.

(** the loop over the levels *)
Lemma expand_loop_ok ex B f (lv : nat) : ex_p ex = p -> ex_np ex = np -> 0 <= B ->
  forall levels j xs, (j + levels = lv)%nat -> (lv <= L)%nat ->
  (forall i, (i < lv)%nat -> subst_ok (ex_subst ex) B (Z.of_nat (2 ^ (L - i) + 1))) ->
  length xs = (2 ^ j)%nat ->
  (forall i x, nth_error xs i = Some x -> fresh_shape L key x /\
     exists E, (forall l, (l < n)%nat -> Z.abs (E l) <= (2 ^ Z.of_nat j - 1) * B) /\
       carries L key x (fun l => 2 ^ Z.of_nat j * residue_part (2 ^ j) i f l + t * E l)) ->
  (k <> 16 -> exists ys, expand_loop ex (2 ^ Z.of_nat L) (Z.of_nat j) levels xs = Ok ys) /\
  forall ys, expand_loop ex (2 ^ Z.of_nat L) (Z.of_nat j) levels xs = Ok ys ->
  length ys = (2 ^ lv)%nat /\
  forall i y, nth_error ys i = Some y -> fresh_shape L key y /\
     exists E, (forall l, (l < n)%nat -> Z.abs (E l) <= (2 ^ Z.of_nat lv - 1) * B) /\
       carries L key y (fun l => 2 ^ Z.of_nat lv * residue_part (2 ^ lv) i f l + t * E l).
Proof.
  intros Ep Enp HB. induction levels as [|levels IH]; intros j xs Hlv HL HS Hlen Hxs.
  - rewrite Nat.add_0_r in Hlv. subst lv. cbn [expand_loop]. split; [eauto|]. intros ys E. injection E as <-. split; [exact Hlen|exact Hxs].
  - cbn [expand_loop]. destruct (monomial_ok ex j Ep Enp ltac:(lia)) as (a & Ea & Ha & Hm). rewrite Ea. cbn [bind].
    rewrite shr_pow by lia. assert (Pj : 0 < 2 ^ Z.of_nat j) by (apply Z.pow_pos_nonneg; lia).
    assert (P2 : (0 < 2 ^ j <= n)%nat) by (split; [apply (n_pos j)|apply Nat.pow_le_mono_r; lia]).
    destruct (expand_row_ok ex B (Z.of_nat (2 ^ (L - j) + 1)) (2 ^ j) a ((2 ^ Z.of_nat j - 1) * B)
      (fun i l => 2 ^ Z.of_nat j * residue_part (2 ^ j) i f l) (HS j ltac:(lia)) HB ltac:(nia) P2 Ha Hm xs 0 Hxs) as [Def Val].
    assert (Hn : (2 ^ j * (2 * 2 ^ (L - S j)) = n)%nat).
    { rewrite <- Nat.pow_succ_r', <- Nat.pow_add_r. f_equal. lia. }
    assert (He : (2 ^ (L - j) = 2 * 2 ^ (L - S j))%nat).
    { rewrite <- Nat.pow_succ_r'. f_equal. lia. }
    assert (HB2 : 2 * ((2 ^ Z.of_nat j - 1) * B) + B = (2 ^ Z.of_nat (S j) - 1) * B).
    { rewrite Nat2Z.inj_succ, Z.pow_succ_r by lia. ring. }
    assert (Step : forall los his, expand_row ex a (Z.of_nat (2 ^ (L - j) + 1)) xs = Ok (los, his) ->
      length (los ++ his) = (2 ^ S j)%nat /\
      forall i x, nth_error (los ++ his) i = Some x -> fresh_shape L key x /\
        exists E, (forall l, (l < n)%nat -> Z.abs (E l) <= (2 ^ Z.of_nat (S j) - 1) * B) /\
          carries L key x (fun l => 2 ^ Z.of_nat (S j) * residue_part (2 ^ S j) i f l + t * E l)).
    { intros los his Er. destruct (Val los his Er) as (L1 & L2 & H1 & H2).
      split; [rewrite app_length, L1, L2, Hlen, Nat.pow_succ_r'; lia|]. intros i x Hx.
      rewrite Nat2Z.id in H1, H2. rewrite He in H1, H2.
      assert (Ez : 2 ^ Z.of_nat j = Z.of_nat (2 ^ j)) by (rewrite Nat2Z.inj_pow; reflexivity).
      assert (Ezs : 2 ^ Z.of_nat (S j) = Z.of_nat (2 * 2 ^ j)) by (rewrite <- Nat.pow_succ_r', Nat2Z.inj_pow; reflexivity).
      destruct (Nat.lt_ge_cases i (length los)) as [Hi|Hi].
      - rewrite nth_error_app1 in Hx by exact Hi. destruct (H1 i x Hx) as (Fx & E & HE & Cx). split; [exact Fx|]. exists E.
        split; [intros l Hl; rewrite <- HB2; apply HE, Hl|]. eapply carries_ext; [|exact Cx]. intros l Hl. apply cong_eq. cbv beta.
        rewrite Nat.add_0_l. f_equal. rewrite <- Hn, Ez. rewrite (level_lo (2 ^ j) (2 ^ (L - S j))); [|lia|apply (n_pos (L - S j))|rewrite Hn; exact Hl].
        rewrite Ezs, Nat.pow_succ_r'. reflexivity.
      - rewrite nth_error_app2 in Hx by exact Hi. destruct (H2 (i - length los)%nat x Hx) as (Fx & E & HE & Cx). split; [exact Fx|]. exists E.
        split; [intros l Hl; rewrite <- HB2; apply HE, Hl|]. eapply carries_ext; [|exact Cx]. intros l Hl. apply cong_eq. cbv beta.
        rewrite Nat.add_0_l. f_equal. rewrite <- Hn, Ez. rewrite (level_hi (2 ^ j) (2 ^ (L - S j))); [|lia|apply (n_pos (L - S j))|rewrite Hn; exact Hl].
        rewrite Ezs, Nat.pow_succ_r'. replace (i - length los + 2 ^ j)%nat with i by lia. reflexivity. }
    assert (Ej : Z.of_nat j + 1 = Z.of_nat (S j)) by lia. rewrite Ej. split.
    + intros Hk. destruct (Def Hk) as ([los his] & Er). rewrite Er. cbn [bind].
      destruct (Step los his Er) as [SL SH]. apply (proj1 (IH (S j) (los ++ his) ltac:(lia) HL HS SL SH) Hk).
    + intros ys. destruct (expand_row ex a _ xs) as [[los his]| |] eqn:Er; try discriminate. cbn [bind]. intros E.
      destruct (Step los his eq_refl) as [SL SH]. apply (proj2 (IH (S j) (los ++ his) ltac:(lia) HL HS SL SH) ys E).
Qed.

Lemma residue_one f l : residue_part 1 0 f l = f l.
Proof. unfold residue_part. rewrite Nat.mod_1_r, Nat.add_0_r. reflexivity. Qed.

Lemma expand_ciphertext_ok ex B f x (lv : nat) : ex_p ex = p -> ex_np ex = np -> 0 <= B -> (lv <= L)%nat ->
  (forall i, (i < lv)%nat -> subst_ok (ex_subst ex) B (Z.of_nat (2 ^ (L - i) + 1))) ->
  fresh_shape L key x -> carries L key x f ->
  (k <> 16 -> exists ys, expand_ciphertext ex x (Z.of_nat lv) = Ok ys) /\
  forall ys, expand_ciphertext ex x (Z.of_nat lv) = Ok ys ->
  length ys = (2 ^ lv)%nat /\
  forall i y, nth_error ys i = Some y -> fresh_shape L key y /\
     exists E, (forall l, (l < n)%nat -> Z.abs (E l) <= (2 ^ Z.of_nat lv - 1) * B) /\
       carries L key y (fun l => 2 ^ Z.of_nat lv * residue_part (2 ^ lv) i f l + t * E l).
Proof.
  intros Ep Enp HB HL HS Hx Hc. pose proof L_range as LR. unfold expand_ciphertext.
  assert (E0 : exists c0, ct_component x 0 = Ok c0 /\ length c0 = n).
  { destruct Hx as ((_ & Fx) & Lx & _). destruct (ct_c x) as [|c0 cs] eqn:Ec; [discriminate|]. exists c0.
    split; [unfold ct_component; rewrite Ec; reflexivity|]. inversion_clear Fx as [|? ? H _]. exact (proj1 H). }
  destruct E0 as (c0 & E0 & L0). rewrite E0. cbn [bind]. rewrite L0, Enp, (ng_n _ _ _ _ (proj2 C)), Z.eqb_refl. cbn [negb].
  assert (Sh : shl1 (Z.of_nat lv) = 2 ^ Z.of_nat lv).
  { unfold shl1. apply int32_small. split; [pose proof (Z.pow_pos_nonneg 2 (Z.of_nat lv) ltac:(lia) ltac:(lia)); lia|apply Z.pow_lt_mono_r; lia]. }
  rewrite Sh. destruct (Z.ltb_spec (2 ^ Z.of_nat lv) 0) as [N|_]; [pose proof (Z.pow_pos_nonneg 2 (Z.of_nat lv) ltac:(lia) ltac:(lia)); lia|].
  rewrite <- pow_nat, Nat2Z.id. change 0 with (Z.of_nat 0) at 1 2.
  apply (expand_loop_ok ex B f lv Ep Enp HB lv 0 [x] eq_refl HL HS eq_refl).
  intros i y Hy. destruct i as [|i]; [|destruct i; discriminate]. injection Hy as <-. split; [exact Hx|]. exists (fun _ => 0).
  split; [intros l Hl; change (2 ^ Z.of_nat 0) with 1; lia|].
  eapply carries_ext; [|exact Hc]. intros l Hl. apply cong_eq. change (2 ^ Z.of_nat 0) with 1. change (2 ^ 0)%nat with 1%nat.
  rewrite residue_one. ring.
Qed.

(** ** Galois keys for every level *)

Lemma galois_step v gk x f : 0 <= v -> relin_ok L t v key gk -> rk_num gk = 2 -> fresh_shape L key x -> carries L key x f ->
  (k <> 16 -> exists y, (do! sub <- ct_substitute np (rk_pow gk) x; galois_apply gk sub) = Ok y) /\
  forall y, (do! sub <- ct_substitute np (rk_pow gk) x; galois_apply gk sub) = Ok y -> fresh_shape L key y /\
    exists E, (forall l, (l < n)%nat -> Z.abs (E l) <= relin_noise L v gk) /\
      carries L key y (fun l => substituted n (Z.to_nat (rk_pow gk)) f l + t * E l).
Proof.
  intros Hv R Hn (Ox & Lx & Px & Zx) Hc. pose proof L_range as LR.
  destruct (ro_pow _ _ _ _ _ R) as [Hr Ho].
  assert (2 ^ Z.of_nat L <= 2 ^ 15) by (apply Z.pow_le_mono_r; lia).
  destruct (C32_substitute k q L t key 1 (rk_pow gk) x f K Ox) as (y & Ey & Oy & Ly & Py & _ & Cy); try assumption; try lia.
  { intros E0. rewrite E0 in Lx. discriminate. }
  { apply (secret_at_one k q L t key x f K Ox). exact Hc. }
  rewrite Ey. cbn [bind]. rewrite Z.mul_1_l, Z.mod_small in Py by lia.
  destruct (C32_apply k q L t v key gk y _ K Hv R Hn Oy ltac:(congruence) Py Cy) as [HD HA]. split; [exact HD|].
  intros z Ez. destruct (HA z Ez) as (Oz & Lz & Pz & Zz & E). split; [|exact E].
  split; [exact Oz|]. split; [exact Lz|]. split; [exact Pz|exact Zz].
Qed.

Lemma find_key_some gks power : (exists gk, In gk gks /\ rk_pow gk = power) ->
  exists gk, find_key gks power = Ok gk /\ In gk gks /\ rk_pow gk = power.
Proof.
  induction gks as [|g gks IH]; intros (gk & Hin & Hp); [destruct Hin|]. cbn [find_key].
  destruct (find_key gks power) as [r| |] eqn:E.
  - exists r. split; [reflexivity|]. assert (HI : forall gs r', find_key gs power = Ok r' -> In r' gs /\ rk_pow r' = power).
    { clear. induction gs as [|g gs IH]; cbn [find_key]; intros r' E; [discriminate|].
      destruct (find_key gs power) as [r0| |].
      - injection E as <-. destruct (IH r0 eq_refl) as [A B]. split; [right; exact A|exact B].
      - destruct (Z.eqb_spec (rk_pow g) power) as [Q|Q]; [|discriminate]. injection E as <-. split; [left; reflexivity|exact Q].
      - destruct (Z.eqb_spec (rk_pow g) power) as [Q|Q]; [|discriminate]. injection E as <-. split; [left; reflexivity|exact Q]. }
    destruct (HI gks r E) as [A B]. split; [right; exact A|exact B].
  - destruct (Z.eqb_spec (rk_pow g) power) as [Q|Q]; [exists g; split; [reflexivity|]; split; [left; reflexivity|exact Q]|].
    destruct Hin as [->|Hin]; [contradiction|]. destruct (IH (ex_intro _ gk (conj Hin Hp))) as (r & Er & _). discriminate.
  - destruct (Z.eqb_spec (rk_pow g) power) as [Q|Q]; [exists g; split; [reflexivity|]; split; [left; reflexivity|exact Q]|].
    destruct Hin as [->|Hin]; [contradiction|]. destruct (IH (ex_intro _ gk (conj Hin Hp))) as (r & Er & _). discriminate.
Qed.

Lemma find_key_none gks power : (forall gk, In gk gks -> rk_pow gk <> power) -> find_key gks power = UB.
Proof.
  induction gks as [|g gks IH]; intros H; [reflexivity|]. cbn [find_key]. rewrite IH by (intros gk Hg; apply H; right; exact Hg).
  destruct (Z.eqb_spec (rk_pow g) power) as [Q|Q]; [|reflexivity]. exfalso. exact (H g (or_introl eq_refl) Q).
Qed.

Lemma galois_subst_ok v B gks i : 0 <= v -> galois_keys_ok L t v B key gks -> (i < length gks)%nat -> (i <= L)%nat ->
  subst_ok (galois_subst np gks) B (Z.of_nat (2 ^ (L - i) + 1)).
Proof.
  intros Hv HG Hi HiL.
  assert (Epow : 2 ^ Z.of_nat L / 2 ^ Z.of_nat i + 1 = Z.of_nat (2 ^ (L - i) + 1)) by (rewrite <- shr_pow by exact HiL; reflexivity).
  destruct (nth_error gks i) as [gk0|] eqn:E0; [|apply nth_error_None in E0; lia].
  destruct (HG i gk0 E0) as (R0 & _ & _ & P0). rewrite Epow in P0.
  destruct (find_key_some gks (Z.of_nat (2 ^ (L - i) + 1))) as (gk & Eg & Ig & Pg).
  { exists gk0. split; [eapply nth_error_In; exact E0|exact P0]. }
  apply In_nth_error in Ig. destruct Ig as (i' & Ei'). destruct (HG i' gk Ei') as (R & Hn & HB & _).
  destruct (ro_pow _ _ _ _ _ R) as [Hr Ho]. rewrite Pg in Hr, Ho. split; [exact Hr|]. split; [exact Ho|].
  intros x f Hx Hc. destruct (galois_step v gk x f Hv R Hn Hx Hc) as [HD HV]. rewrite Pg in HD, HV.
  unfold galois_subst. rewrite Eg. cbn [bind]. split; [exact HD|]. intros y Ey. destruct (HV y Ey) as (Fy & E & HE & Cy).
  split; [exact Fy|]. exists E. split; [|exact Cy]. intros l Hl. specialize (HE l Hl). lia.
Qed.

Lemma keys_valid_spec nc gks : forall i, keys_valid nc (Z.of_nat i) gks = true <->
  forall j gk, nth_error gks j = Some gk -> rk_pow gk = shr nc (Z.of_nat (i + j)) + 1.
Proof.
  induction gks as [|g gks IH]; intros i; cbn [keys_valid].
  - split; [intros _ j gk H; destruct j; discriminate|reflexivity].
  - rewrite Bool.andb_true_iff, Z.eqb_eq. replace (Z.of_nat i + 1) with (Z.of_nat (S i)) by lia. rewrite (IH (S i)). split.
    + intros [H1 H2] j gk Hj. destruct j as [|j]; [injection Hj as <-; rewrite Nat.add_0_r; exact H1|].
      rewrite (H2 j gk Hj). do 3 f_equal. lia.
    + intros H. split; [rewrite (H 0%nat g eq_refl), Nat.add_0_r; reflexivity|].
      intros j gk Hj. rewrite (H (S j) gk Hj). do 3 f_equal. lia.
Qed.

(** ** The generator 5 *)

Fixpoint subst_iter (c : nat) (f : nat -> Z) : nat -> Z :=
  match c with O => f | S c' => subst_iter c' (substituted n 5 f) end.

Lemma subst_iter_bound c : forall f B, 0 <= B -> (forall i, (i < n)%nat -> Z.abs (f i) <= B) ->
  forall i, (i < n)%nat -> Z.abs (subst_iter c f i) <= B.
Proof.
  induction c as [|c IH]; intros f B HB Hf i Hi; cbn [subst_iter]; [apply Hf, Hi|].
  apply IH; [exact HB| |exact Hi]. intros l Hl. apply substituted_bound; [reflexivity|exists L; reflexivity|exact Hl|exact HB|exact Hf].
Qed.

Lemma substituted_ext' pw f g : (forall i, f i = g i) -> forall l, substituted n pw f l = substituted n pw g l.
Proof. intros H l. apply substituted_ext. intros i _. apply H. Qed.
Lemma subst_iter_ext c : forall f g, (forall i, f i = g i) -> forall i, subst_iter c f i = subst_iter c g i.
Proof.
  induction c as [|c IH]; intros f g H i; cbn [subst_iter]; [apply H|]. apply IH. intros l. apply substituted_ext'. exact H.
Qed.
Lemma subst_iter_add c : forall f g i, subst_iter c (fun l => f l + t * g l) i = subst_iter c f i + t * subst_iter c g i.
Proof.
  induction c as [|c IH]; intros f g i; cbn [subst_iter]; [reflexivity|]. rewrite <- IH. apply subst_iter_ext.
  intros l. rewrite substituted_add, substituted_scale. reflexivity.
Qed.

Lemma subst_iter_ev c : forall f j, (j < n)%nat ->
  cong q (PolyProofs.ev L (ntt_root p np) (subst_iter c f) j) (peval n f (point L (ntt_root p np) j ^ 5 ^ Z.of_nat c)).
Proof.
  rewrite <- (key_q k q L t key K).
  induction c as [|c IH]; intros f j Hj; cbn [subst_iter].
  - change (5 ^ Z.of_nat 0) with 1. rewrite Z.pow_1_r. reflexivity.
  - rewrite (IH _ j Hj). rewrite peval_substituted; [|apply (n_pos L)|].
    + apply peval_x. rewrite <- Z.pow_mul_r by (try apply Z.pow_nonneg; lia). change (Z.of_nat 5) with 5.
      rewrite Nat2Z.inj_succ, Z.pow_succ_r by lia. rewrite (Z.mul_comm 5). reflexivity.
    + rewrite <- Z.pow_mul_r by (try apply Z.pow_nonneg; lia). rewrite (Z.mul_comm (5 ^ _)), Z.pow_mul_r by (try apply Z.pow_nonneg; lia).
      pose proof (point_root p L np _ (proj2 C) j) as PR. pose proof (Z.pow_pos_nonneg 5 (Z.of_nat c) ltac:(lia) ltac:(lia)) as P5.
      rewrite <- (Z2Nat.id (5 ^ Z.of_nat c)) by lia. rewrite Z2Nat.id by lia. rewrite PR.
      assert (Od : Z.odd (5 ^ Z.of_nat c) = true).
      { clear. induction c as [|c IH]; [reflexivity|]. rewrite Nat2Z.inj_succ, Z.pow_succ_r, Z.odd_mul, IH by lia. reflexivity. }
      apply Z.odd_spec in Od. destruct Od as (h & Eh). assert (Hh : 0 <= h) by lia. rewrite Eh.
      rewrite Z.pow_add_r, Z.pow_mul_r by lia. change ((-1) ^ 2) with 1.
      rewrite Z.pow_1_l by lia. reflexivity.
Qed.

Lemma subst_iter_power c f power : 0 < power < 2 * 2 ^ Z.of_nat L -> (5 ^ Z.of_nat c) mod (2 * 2 ^ Z.of_nat L) = power ->
  forall i, (i < n)%nat -> cong q (subst_iter c f i) (substituted n (Z.to_nat power) f i).
Proof.
  intros Hp E. pose proof (key_q k q L t key K) as Eq. rewrite <- Eq.
  apply (ev_inj p (proj1 C) L np _ (proj2 C)). intros j Hj. rewrite Eq. rewrite (subst_iter_ev c f j Hj). rewrite <- Eq.
  pose proof (point_root p L np _ (proj2 C) j) as PR.
  unfold PolyProofs.ev. rewrite peval_substituted; [|apply (n_pos L)|exact PR]. apply peval_x. rewrite Z2Nat.id by lia. rewrite <- E.
  rewrite pow_nat. eapply RelinProofs.pow_mod_2n; [exact PR|apply Z.pow_nonneg; lia].
Qed.

Lemma generator_iter_ok v gk : 0 <= v -> relin_ok L t v key gk -> rk_num gk = 2 -> rk_pow gk = 5 ->
  forall c x f, fresh_shape L key x -> carries L key x f ->
  (k <> 16 -> exists y, generator_iter np gk c x = Ok y) /\
  forall y, generator_iter np gk c x = Ok y -> fresh_shape L key y /\
    exists E, (forall l, (l < n)%nat -> Z.abs (E l) <= Z.of_nat c * relin_noise L v gk) /\
      carries L key y (fun l => subst_iter c f l + t * E l).
Proof.
  intros Hv R Hn P5. induction c as [|c IH]; intros x f Hx Hc.
  - cbn [generator_iter subst_iter]. split; [eauto|]. intros y E. injection E as <-. split; [exact Hx|]. exists (fun _ => 0).
    split; [intros l Hl; lia|]. eapply carries_ext; [|exact Hc]. intros l Hl. apply cong_eq. ring.
  - cbn [generator_iter]. destruct (galois_step v gk x f Hv R Hn Hx Hc) as [HD HV]. rewrite P5 in HD, HV.
    destruct (ct_substitute np 5 x) as [sub| |]; cbn [bind] in *;
      [|split; [intros Hk; destruct (HD Hk) as (y & Ey); discriminate|discriminate]..].
    destruct (galois_apply gk sub) as [y1| |]; cbn [bind] in *;
      [|split; [intros Hk; destruct (HD Hk) as (y & Ey); discriminate|discriminate]..].
    destruct (HV y1 eq_refl) as (F1 & E1 & HE1 & C1). destruct (IH y1 _ F1 C1) as [ID IV]. split; [exact ID|].
    intros y Ey. destruct (IV y Ey) as (Fy & E2 & HE2 & C2). split; [exact Fy|].
    exists (fun l => subst_iter c E1 l + E2 l). pose proof (HE1 0%nat (n_pos L)) as Hpos. split.
    + intros l Hl. specialize (HE2 l Hl). pose proof (subst_iter_bound c E1 (relin_noise L v gk) ltac:(lia) HE1 l Hl). lia.
    + eapply carries_ext; [|exact C2]. intros l Hl. apply cong_eq. cbv beta. cbn [subst_iter].
      rewrite (subst_iter_ext c (fun l0 => substituted n (Z.to_nat 5) f l0 + t * E1 l0) (fun l0 => substituted n 5 f l0 + t * E1 l0)) by reflexivity.
      rewrite subst_iter_add. ring.
Qed.
End Expand.
