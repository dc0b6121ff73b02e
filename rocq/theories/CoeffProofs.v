(** Polynomials kept as their coefficients: what each operation computes. *)
From Coq Require Import Arith Znumtheory.
From Verif Require Import Base FinSum PolySpec NegRing Montgomery MontBatch Ntt Poly ZLemmas MontgomeryProofs
  MontBatchProofs PolyProofs PrngProofs AliasProofs NttProofs CoeffPoly.
Local Notation zsum := FinSum.zsum.

Section Params.
Variable p : mparams.
Hypothesis G : good p.
Local Notation m := (p_m p).
Local Notation val := (val p).
Local Notation rep := (rep p).
Local Notation crep := (crep p).

Definition chold (n : nat) (v : list Z) (f : nat -> Z) : Prop := holds p n v f /\ Forall crep v.

Lemma chold_intro n v f : length v = n ->
  (forall j, (j < n)%nat -> crep (nth j v 0) /\ cong m (val (nth j v 0)) (f j)) -> chold n v f.
Proof.
  intros L H. split.
  - apply holds_intro; [exact L|]. intros j Hj. destruct (H j Hj) as [C V]. split; [apply crep_rep, C|exact V].
  - apply Forall_nth. intros i d Hi. rewrite nth_indep with (d' := 0) by exact Hi. apply H. lia.
Qed.

Lemma cadd_ok n a b f g : holds p n a f -> holds p n b g ->
  exists c, cpoly_add p a b = Ok c /\ chold n c (fun i => f i + g i).
Proof.
  intros Ha Hb. destruct (add_holds p G n a b f g Ha Hb) as (c & E & H & C). exists c. split; [|split; assumption].
  exact E.
Qed.
Lemma csub_ok n a b f g : holds p n a f -> holds p n b g ->
  exists c, cpoly_sub p a b = Ok c /\ chold n c (fun i => f i - g i).
Proof.
  intros Ha Hb. destruct (sub_holds p G n a b f g Ha Hb) as (c & E & H & C). exists c. split; [|split; assumption].
  exact E.
Qed.
Lemma cscale_ok n a f s c : holds p n a f -> rep s -> cong m (val s) c ->
  chold n (cpoly_scale p a s) (fun i => c * f i).
Proof.
  intros Ha Hs Hc. destruct (mul_scalar_holds p G n a f s c Ha Hs Hc) as (r & E & H & C). injection E as <-.
  split; assumption.
Qed.

(** ** product *)
Lemma mono_low n e k : (e < n)%nat -> (k < n)%nat -> mono n e k = if (k =? e)%nat then 1 else 0.
Proof. intros. rewrite mono_small, Nat.eqb_sym by assumption. reflexivity. Qed.
Lemma mono_high n e k : (n <= e < 2 * n)%nat -> (k < n)%nat -> mono n e k = - (if (k =? e - n)%nat then 1 else 0).
Proof.
  intros He Hk. replace e with (e - n + n)%nat at 1 by lia. rewrite mono_neg by lia. rewrite mono_low by lia. reflexivity.
Qed.

Lemma row_ok n i x : (i < n)%nat -> rep x -> forall b j out f, Forall rep b -> (j + length b <= n)%nat -> chold n out f ->
  exists out', cpoly_mul_row p n i x b j out = Ok out' /\
    chold n out' (fun k => f k + zsum (length b) (fun t => val x * val (nth t b 0) * mono n (i + (j + t)) k)).
Proof.
  intros Hi Hx. induction b as [|y b IH]; intros j out f Hb Hj Ho.
  - exists out. split; [reflexivity|]. destruct Ho as [Ho Co]. split; [|exact Co]. eapply holds_ext; [exact Ho|].
    intros k Hk. cbn. apply cong_eq. ring.
  - inversion_clear Hb as [|? ? Hy Hb']. cbn [length] in Hj. cbn [cpoly_mul_row length].
    pose proof (holds_len _ _ _ _ (proj1 Ho)) as Lo. destruct (mmul_cr p G x y Hx Hy) as [Cm Vm].
    assert (S : forall e o', (e < n)%nat -> crep o' ->
       (forall k, (k < n)%nat -> k = e -> cong m (val o') (f k + val x * val y * mono n (i + j) k)) ->
       (forall k, (k < n)%nat -> k <> e -> mono n (i + j) k = 0) ->
       chold n (upd out e o') (fun k => f k + val x * val y * mono n (i + j) k)).
    { intros e o' He Co V Z. apply chold_intro; [rewrite upd_len; exact Lo|]. intros k Hk. rewrite nth_upd by lia.
      destruct (Nat.eqb_spec k e) as [->|Ne]; [split; [exact Co|apply V; [exact Hk|reflexivity]]|].
      split; [destruct Ho as [_ Co']; rewrite Forall_forall in Co'; apply Co', nth_In; lia|].
      rewrite Z by assumption. rewrite (holds_val _ _ _ _ _ (proj1 Ho) Hk). apply cong_eq. ring. }
    assert (T : forall out1, chold n out1 (fun k => f k + val x * val y * mono n (i + j) k) ->
       exists out', cpoly_mul_row p n i x b (Datatypes.S j) out1 = Ok out' /\
       chold n out' (fun k => f k + zsum (Datatypes.S (length b)) (fun t => val x * val (nth t (y :: b) 0) * mono n (i + (j + t)) k))).
    { intros out1 H1. destruct (IH (Datatypes.S j) out1 _ Hb' ltac:(lia) H1) as (o' & E & [H' C']). exists o'. split; [exact E|].
      split; [|exact C']. eapply holds_ext; [exact H'|]. intros k Hk. rewrite zsum_first. cbn [nth]. apply cong_eq.
      rewrite Nat.add_0_r. rewrite <- Z.add_assoc. f_equal. f_equal. apply zsum_ext. intros t _.
      replace (i + (Datatypes.S j + t))%nat with (i + (j + Datatypes.S t))%nat by lia. reflexivity. }
    destruct (Nat.leb_spec n (i + j)) as [Hg|Hl].
    + rewrite get_nth by lia. cbn [bind].
      destruct (msub_cr p G (nth (i + j - n) out 0) (mmul p x y)) as [Cs Vs];
        [apply (holds_rep _ _ _ _ _ (proj1 Ho)); lia|apply crep_rep, Cm|].
      apply T. apply S; [lia|exact Cs| |].
      * intros k Hk ->. rewrite Vs, Vm, (holds_val _ _ _ _ _ (proj1 Ho) Hk), mono_high, Nat.eqb_refl by lia.
        apply cong_eq. ring.
      * intros k Hk Ne. rewrite mono_high by lia. destruct (Nat.eqb_spec k (i + j - n)); [lia|reflexivity].
    + rewrite get_nth by lia. cbn [bind].
      destruct (madd_cr p G (nth (i + j) out 0) (mmul p x y)) as [Cs Vs];
        [apply (holds_rep _ _ _ _ _ (proj1 Ho)); lia|apply crep_rep, Cm|].
      apply T. apply S; [lia|exact Cs| |].
      * intros k Hk ->. rewrite Vs, Vm, (holds_val _ _ _ _ _ (proj1 Ho) Hk), mono_low, Nat.eqb_refl by lia.
        apply cong_eq. ring.
      * intros k Hk Ne. rewrite mono_low by lia. destruct (Nat.eqb_spec k (i + j)); [lia|reflexivity].
Qed.

Lemma rows_ok n b : length b = n -> Forall rep b -> forall a i out f, Forall rep a -> (i + length a <= n)%nat -> chold n out f ->
  exists out', cpoly_mul_rows p n i a b out = Ok out' /\
    chold n out' (fun k => f k + zsum (length a) (fun s => zsum n (fun t => val (nth s a 0) * val (nth t b 0) * mono n (i + s + t) k))).
Proof.
  intros Lb Hb. induction a as [|x a IH]; intros i out f Ha Hi Ho.
  - exists out. split; [reflexivity|]. destruct Ho as [Ho Co]. split; [|exact Co]. eapply holds_ext; [exact Ho|].
    intros k Hk. cbn. apply cong_eq. ring.
  - inversion_clear Ha as [|? ? Hx Ha']. cbn [length] in Hi. cbn [cpoly_mul_rows length].
    destruct (row_ok n i x ltac:(lia) Hx b 0 out f Hb ltac:(lia) Ho) as (o1 & E1 & H1). rewrite E1. cbn [bind].
    destruct (IH (S i) o1 _ Ha' ltac:(lia) H1) as (o2 & E2 & [H2 C2]). exists o2. split; [exact E2|]. split; [|exact C2].
    eapply holds_ext; [exact H2|]. intros k Hk. rewrite zsum_first. cbn [nth]. apply cong_eq. rewrite Lb.
    rewrite <- Z.add_assoc. f_equal. f_equal.
    + apply zsum_ext. intros t _. replace (i + 0 + t)%nat with (i + (0 + t))%nat by lia. reflexivity.
    + apply zsum_ext. intros s _. apply zsum_ext. intros t _.
      replace (i + S s + t)%nat with (S i + s + t)%nat by lia. reflexivity.
Qed.

Lemma zero_chold n : chold n (repeat (import_zero p) n) (fun _ => 0).
Proof.
  apply chold_intro; [apply repeat_length|]. intros j Hj. rewrite nth_indep with (d' := import_zero p) by (rewrite repeat_length; exact Hj).
  rewrite nth_repeat. split; [unfold crep, import_zero; pose proof (m_gt1 p G); lia|]. rewrite zero_val by exact G. reflexivity.
Qed.

Lemma cmul_ok n a b f g : holds p n a f -> holds p n b g ->
  exists c, cpoly_mul p a b = Ok c /\ chold n c (negacyclic n f g).
Proof.
  intros Ha Hb. pose proof (holds_len _ _ _ _ Ha) as La. pose proof (holds_len _ _ _ _ Hb) as Lb.
  unfold cpoly_mul. rewrite same_len_true by lia. rewrite La.
  destruct (rows_ok n b Lb (holds_reps _ _ _ _ Hb) a 0 _ _ (holds_reps _ _ _ _ Ha) ltac:(lia) (zero_chold n)) as (c & E & [H C]).
  exists c. split; [exact E|]. split; [|exact C]. eapply holds_ext; [exact H|]. intros k Hk. rewrite negacyclic_mono by exact Hk.
  rewrite La. cbn [Z.add]. apply zsum_cong. intros i Hi. apply zsum_cong. intros j Hj.
  rewrite (holds_val _ _ _ _ _ Ha Hi), (holds_val _ _ _ _ _ Hb Hj). reflexivity.
Qed.

(** ** product with X^power *)
Lemma nega_shift n f e k : (0 < n)%nat -> (k < n)%nat -> negacyclic n f (mono n e) k = zsum n (fun i => f i * mono n (i + e) k).
Proof.
  intros Hn Hk. rewrite negacyclic_mono by exact Hk. apply zsum_ext. intros i Hi.
  rewrite (Nat.add_comm i e), <- (mono_comp1 n e i k Hn Hk), <- zsum_mul_l. apply zsum_ext. intros j _.
  rewrite (Nat.add_comm j i). ring.
Qed.

Lemma nega_mono_low n f e k : (e < n)%nat -> (k < n)%nat ->
  negacyclic n f (mono n e) k = if (k <? e)%nat then - f (k + n - e)%nat else f (k - e)%nat.
Proof.
  intros He Hk. rewrite nega_shift by lia. destruct (Nat.ltb_spec k e) as [H|H].
  - rewrite (zsum_single n (k + n - e)); [|lia|].
    + rewrite mono_high by lia. replace (k + n - e + e - n)%nat with k by lia. rewrite Nat.eqb_refl. ring.
    + intros i Hi Ne. destruct (Nat.lt_ge_cases (i + e) n).
      * rewrite mono_low by lia. destruct (Nat.eqb_spec k (i + e)); [lia|ring].
      * rewrite mono_high by lia. destruct (Nat.eqb_spec k (i + e - n)); [lia|ring].
  - rewrite (zsum_single n (k - e)); [|lia|].
    + rewrite mono_low by lia. replace (k - e + e)%nat with k by lia. rewrite Nat.eqb_refl. ring.
    + intros i Hi Ne. destruct (Nat.lt_ge_cases (i + e) n).
      * rewrite mono_low by lia. destruct (Nat.eqb_spec k (i + e)); [lia|ring].
      * rewrite mono_high by lia. destruct (Nat.eqb_spec k (i + e - n)); [lia|ring].
Qed.

Lemma mneg_cr x : rep x -> rep (mneg p x) /\ cong m (val (mneg p x)) (- val x).
Proof. intros H. split; [apply mneg_rep; assumption|]. rewrite mneg_val by assumption. apply cong_mod. Qed.

Lemma one_cr : rep (import_one p) /\ cong m (val (import_one p)) 1.
Proof. split; [apply crep_rep, one_crep, G|]. rewrite one_val by exact G. reflexivity. Qed.

Lemma shifted_ok n a f e mul s : holds p n a f -> (e < n)%nat -> rep mul -> cong m (val mul) s ->
  chold n (map (fun i => mmul p (mneg p mul) (nth (i + n - e) a 0)) (seq 0 e) ++
           map (fun i => mmul p mul (nth (i - e) a 0)) (seq e (n - e)))
    (fun k => s * negacyclic n f (mono n e) k).
Proof.
  intros Ha He Hm Hs. destruct (mneg_cr mul Hm) as [Rn Vn].
  apply chold_intro; [rewrite app_length, !map_length, !seq_length; lia|]. intros k Hk.
  rewrite nega_mono_low by lia. destruct (Nat.ltb_spec k e) as [H|H].
  - rewrite app_nth1 by (rewrite map_length, seq_length; lia).
    rewrite (nth_map_any (fun i => mmul p (mneg p mul) (nth (i + n - e) a 0)) _ 0%nat) by (rewrite seq_length; lia).
    rewrite seq_nth by lia. cbn [Nat.add].
    assert (Hi : (k + n - e < n)%nat) by lia.
    destruct (mmul_cr p G (mneg p mul) (nth (k + n - e) a 0) Rn (holds_rep _ _ _ _ _ Ha Hi)) as [C V].
    split; [exact C|]. rewrite V, Vn, Hs, (holds_val _ _ _ _ _ Ha Hi). apply cong_eq. ring.
  - rewrite app_nth2 by (rewrite map_length, seq_length; lia). rewrite map_length, seq_length.
    rewrite (nth_map_any (fun i => mmul p mul (nth (i - e) a 0)) _ 0%nat) by (rewrite seq_length; lia).
    rewrite seq_nth by lia. replace (e + (k - e))%nat with k by lia.
    assert (Hi : (k - e < n)%nat) by lia.
    destruct (mmul_cr p G mul (nth (k - e) a 0) Hm (holds_rep _ _ _ _ _ Ha Hi)) as [C V].
    split; [exact C|]. rewrite V, Hs, (holds_val _ _ _ _ _ Ha Hi). reflexivity.
Qed.

Lemma cmonomial_ok n a f power : holds p n a f -> 0 <= power < 2 * Z.of_nat n ->
  exists c, cpoly_monomial p a power = Ok c /\ chold n c (negacyclic n f (mono n (Z.to_nat power))).
Proof.
  intros Ha Hp. pose proof (holds_len _ _ _ _ Ha) as La. unfold cpoly_monomial. rewrite La.
  rewrite Z.gtb_ltb, Z.geb_leb. destruct (Z.ltb_spec power 0); [lia|]. destruct (Z.leb_spec (2 * Z.of_nat n) power); [lia|].
  cbn [orb]. destruct one_cr as [R1 V1]. destruct (mneg_cr _ R1) as [Rn Vn]. rewrite V1 in Vn.
  destruct (Z.leb_spec (Z.of_nat n) power) as [Hf|Hf]; eexists; (split; [reflexivity|]).
  - destruct (shifted_ok n a f (Z.to_nat (power - Z.of_nat n)) _ (- (1)) Ha ltac:(lia) Rn Vn) as [HH C]. split; [|exact C].
    eapply holds_ext; [exact HH|]. intros k Hk. cbv beta. apply cong_eq. rewrite !nega_shift by lia.
    rewrite <- zsum_mul_l. apply zsum_ext. intros i _.
    replace (i + Z.to_nat power)%nat with (i + Z.to_nat (power - Z.of_nat n) + n)%nat by lia. rewrite mono_neg by lia. ring.
  - destruct (shifted_ok n a f (Z.to_nat power) _ 1 Ha ltac:(lia) R1 V1) as [HH C]. split; [|exact C].
    eapply holds_ext; [exact HH|]. intros k Hk. cbv beta. apply cong_eq. ring.
Qed.

(** ** X -> X^power *)
Lemma wrap_ok n : (0 < n)%nat -> forall fuel idx mul c e, (idx < fuel)%nat -> (0 < idx)%nat -> e = (c * n + idx)%nat ->
  rep mul -> cong m (val mul) ((-1) ^ Z.of_nat c) ->
  exists c' idx' mul', cpoly_wrap fuel p n idx mul = Ok (idx', mul') /\ e = (c' * n + idx')%nat /\ (0 < idx' <= n)%nat /\
    rep mul' /\ cong m (val mul') ((-1) ^ Z.of_nat c').
Proof.
  intros Hn. induction fuel as [|fuel IH]; intros idx mul c e Hf Hi He Hr Hv; [lia|]. cbn [cpoly_wrap].
  destruct (Nat.ltb_spec n idx) as [H|H].
  - destruct (mneg_cr mul Hr) as [Rn Vn].
    destruct (IH (idx - n)%nat (mneg p mul) (S c) e ltac:(lia) ltac:(lia) ltac:(lia) Rn) as (c' & idx' & mul' & R).
    { rewrite Vn, Hv. rewrite Nat2Z.inj_succ, Z.pow_succ_r by lia. apply cong_eq. ring. }
    exists c', idx', mul'. exact R.
  - exists c, idx, mul. repeat split; try assumption; try lia; destruct Hr; lia.
Qed.

Lemma mono_at n c r k : (r < n)%nat -> (k < n)%nat -> mono n (c * n + r) k = (-1) ^ Z.of_nat c * (if (k =? r)%nat then 1 else 0).
Proof.
  intros Hr Hk. induction c as [|c IH]; [rewrite mono_low by lia; cbn [Nat.mul Nat.add Z.of_nat]; ring|].
  replace (S c * n + r)%nat with (c * n + r + n)%nat by lia. rewrite mono_neg by lia. rewrite IH.
  rewrite Nat2Z.inj_succ, Z.pow_succ_r by lia. ring.
Qed.

Lemma coprime_inj n power i j : (0 < n)%nat -> Nat.gcd power n = 1%nat -> (i < n)%nat -> (j < n)%nat ->
  (i * power mod n = j * power mod n)%nat -> i = j.
Proof.
  intros Hn Hg Hi Hj E.
  assert (D : (Z.of_nat n | Z.of_nat power * (Z.of_nat i - Z.of_nat j))).
  { pose proof (Nat.div_mod (i * power) n ltac:(lia)) as A. pose proof (Nat.div_mod (j * power) n ltac:(lia)) as B.
    rewrite E in A. exists (Z.of_nat (i * power / n) - Z.of_nat (j * power / n)). lia. }
  apply Gauss in D.
  - destruct D as [q Hq]. assert (q = 0) by nia. lia.
  - apply Zgcd_1_rel_prime. rewrite Z.gcd_comm.
    assert (E' : Z.gcd (Z.of_nat power) (Z.of_nat n) = Z.of_nat (Nat.gcd power n)); [|rewrite E', Hg; reflexivity].
    clear -Hn. apply Z.gcd_unique; [lia| | |].
    + destruct (Nat.gcd_divide_l power n) as [x Hx]. exists (Z.of_nat x). rewrite <- Nat2Z.inj_mul, <- Hx. reflexivity.
    + destruct (Nat.gcd_divide_r power n) as [x Hx]. exists (Z.of_nat x). rewrite <- Nat2Z.inj_mul, <- Hx. reflexivity.
    + intros q Hq Hq'. apply Z.divide_abs_l in Hq. apply Z.divide_abs_l in Hq'.
      apply Z.divide_abs_l. pose proof (Z2Nat.id (Z.abs q) (Z.abs_nonneg q)) as I.
      assert (X : (Nat.divide (Z.to_nat (Z.abs q)) (Nat.gcd power n))).
      { apply Nat.gcd_greatest.
        - destruct Hq as [x Hx]. exists (Z.to_nat (Z.abs x)). apply Nat2Z.inj. rewrite Nat2Z.inj_mul, I, Z2Nat.id by lia. nia.
        - destruct Hq' as [x Hx]. exists (Z.to_nat (Z.abs x)). apply Nat2Z.inj. rewrite Nat2Z.inj_mul, I, Z2Nat.id by lia. nia. }
      destruct X as [x Hx]. exists (Z.of_nat x). rewrite <- I, <- Nat2Z.inj_mul, <- Hx. reflexivity.
Qed.

(** an injective map of {0..n-1} into itself is onto *)
Lemma coprime_onto n power k : (0 < n)%nat -> Nat.gcd power n = 1%nat -> (k < n)%nat ->
  exists i, (i < n)%nat /\ (i * power mod n = k)%nat.
Proof.
  intros Hn Hg Hk.
  assert (I : incl (seq 0 n) (map (fun i => i * power mod n)%nat (seq 0 n))).
  { apply NoDup_length_incl.
    - assert (N : forall l, NoDup l -> (forall i, In i l -> (i < n)%nat) -> NoDup (map (fun i => i * power mod n)%nat l)).
      { induction 1 as [|x l Hx Hl IH]; intros B; cbn [map]; constructor.
        - intros Hin. apply in_map_iff in Hin. destruct Hin as (y & Ey & Hy). apply Hx.
          apply coprime_inj in Ey; [subst; exact Hy|assumption..|apply B; right; exact Hy|apply B; left; reflexivity].
        - apply IH. intros i Hin. apply B. right. exact Hin. }
      apply N; [apply seq_NoDup|]. intros i Hi. apply in_seq in Hi. lia.
    - rewrite map_length. lia.
    - intros x Hx. apply in_map_iff in Hx. destruct Hx as (i & <- & _). apply in_seq. pose proof (Nat.mod_upper_bound (i * power) n). lia. }
  specialize (I k ltac:(apply in_seq; lia)). apply in_map_iff in I. destruct I as (i & E & Hi). apply in_seq in Hi.
  exists i. split; [lia|exact E].
Qed.

(** the state before element i: e = i * power = c * n + idx with 0 < idx <= n, or i = 0 *)
Definition sub_inv (n e idx : nat) (mul : Z) : Prop :=
  exists c, e = (c * n + idx)%nat /\ (idx <= n)%nat /\ (idx = 0%nat -> e = 0%nat) /\ rep mul /\ cong m (val mul) ((-1) ^ Z.of_nat c).

Section Sub.
Variables (n power : nat) (f : nat -> Z).
Hypothesis (Hn : (0 < n)%nat) (Hpow : (0 < power)%nat).

Lemma sub_step i idx mul : sub_inv n (i * power) idx mul ->
  exists idx' mul', cpoly_wrap (S (idx + power)) p n (idx + power) mul = Ok (idx', mul') /\ sub_inv n (S i * power) idx' mul'.
Proof.
  intros (c & E & B & Z0 & R & V).
  destruct (wrap_ok n Hn (S (idx + power)) (idx + power) mul c (S i * power) ltac:(lia) ltac:(lia) ltac:(lia) R V)
    as (c' & idx' & mul' & E1 & E2 & E3 & E4 & E5).
  exists idx', mul'. split; [exact E1|]. exists c'. repeat split; try assumption; try lia; destruct E4; lia.
Qed.

Hypothesis Hg : Nat.gcd power n = 1%nat.

Lemma sub_inv_small i idx mul : (i < n)%nat -> sub_inv n (i * power) idx mul ->
  (idx < n)%nat /\ idx = (i * power mod n)%nat /\ forall k, (k < n)%nat -> cong m (val mul * (if (k =? idx)%nat then 1 else 0)) (mono n (i * power) k).
Proof.
  intros Hi (c & E & B & Z0 & R & V).
  assert (L : (idx < n)%nat).
  { destruct (Nat.eq_dec idx n) as [->|]; [|lia]. exfalso.
    assert (i = 0%nat); [|subst; cbn in E; lia].
    apply (coprime_inj n power); try assumption.
    rewrite E. replace (c * n + n)%nat with (S c * n)%nat by lia. rewrite Nat.mod_mul by lia. cbn [Nat.mul]. rewrite Nat.mod_small by lia. reflexivity. }
  split; [exact L|]. split.
  - rewrite E. rewrite Nat.add_comm, Nat.mod_add, Nat.mod_small by lia. reflexivity.
  - intros k Hk. rewrite E, mono_at by assumption. rewrite V. reflexivity.
Qed.

Lemma subloop_ok : forall a i idx mul out, (i + length a = n)%nat -> Forall rep a ->
  (forall t, (t < length a)%nat -> cong m (val (nth t a 0)) (f (i + t)%nat)) ->
  sub_inv n (i * power) idx mul -> length out = n ->
  (forall j, (j < i)%nat -> let k := (j * power mod n)%nat in
     crep (nth k out 0) /\ cong m (val (nth k out 0)) (f j * mono n (j * power) k)) ->
  exists out', cpoly_sub_loop p n power a idx mul out = Ok out' /\ length out' = n /\
    (forall j, (j < n)%nat -> let k := (j * power mod n)%nat in
     crep (nth k out' 0) /\ cong m (val (nth k out' 0)) (f j * mono n (j * power) k)).
Proof.
  induction a as [|x a IH]; intros i idx mul out Hi Ha Hv Hinv Lo Ho; cbn [length] in Hi.
  - exists out. split; [reflexivity|]. split; [exact Lo|]. intros j Hj. apply Ho. lia.
  - cbn [cpoly_sub_loop]. destruct (sub_inv_small i idx mul ltac:(lia) Hinv) as (L & Ei & Vm).
    destruct (Nat.leb_spec n idx); [lia|].
    destruct (sub_step i idx mul Hinv) as (idx' & mul' & Ew & Hinv'). rewrite Ew. cbn [bind].
    inversion_clear Ha as [|? ? Hx Ha'].
    apply (IH (S i)).
    + lia.
    + exact Ha'.
    + intros t Ht. specialize (Hv (S t) ltac:(cbn [length]; lia)). cbn [nth] in Hv. rewrite Hv. apply cong_eq. f_equal. lia.
    + exact Hinv'.
    + rewrite upd_len. exact Lo.
    + intros j Hj. cbv zeta. rewrite nth_upd by lia. destruct (Nat.eqb_spec (j * power mod n) idx) as [Ek|Ne].
      * assert (j = i) by (apply (coprime_inj n power); try assumption; try lia; congruence). subst j.
        destruct Hinv as (c & _ & _ & _ & R & _). destruct (mmul_cr p G x mul Hx R) as [C V]. split; [exact C|].
        rewrite V. specialize (Hv 0%nat ltac:(cbn; lia)). cbn [nth] in Hv. rewrite Hv, Nat.add_0_r.
        rewrite Ek. rewrite <- (Vm idx L), Nat.eqb_refl. apply cong_eq. ring.
      * apply Ho. assert (j <> i) by (intros ->; congruence). lia.
Qed.

Lemma substituted_at j : (j < n)%nat -> substituted n power f (j * power mod n) = f j * mono n (j * power) (j * power mod n).
Proof.
  intros Hj. rewrite substituted_mono. rewrite (zsum_single n j); [reflexivity|exact Hj|]. intros i Hi Ne.
  pose proof (Nat.mod_upper_bound (j * power) n ltac:(lia)) as B. pose proof (Nat.mod_upper_bound (i * power) n ltac:(lia)) as B'.
  rewrite (Nat.div_mod (i * power) n) at 1 by lia. rewrite (Nat.mul_comm n (i * power / n)). rewrite mono_at by assumption.
  destruct (Nat.eqb_spec (j * power mod n) (i * power mod n)) as [E|]; [|ring].
  exfalso. apply Ne. apply (coprime_inj n power); try assumption. congruence.
Qed.
End Sub.

Lemma csubst_ok n a f power : holds p n a f -> 0 < power < 2 * Z.of_nat n -> Z.odd power = true ->
  Nat.gcd (Z.to_nat power) n = 1%nat ->
  exists c, cpoly_substitute p a power = Ok c /\ chold n c (substituted n (Z.to_nat power) f).
Proof.
  intros Ha Hp Ho Hg. pose proof (holds_len _ _ _ _ Ha) as La. unfold cpoly_substitute. rewrite La, Z.gtb_ltb, Z.geb_leb.
  destruct (Z.ltb_spec power 0); [lia|].
  assert (E : (Z.rem power 2 =? 0) = false).
  { apply Z.eqb_neq. intros E. apply Z.rem_divide in E; [|lia]. destruct E as [q ->]. rewrite Z.mul_comm, Z.odd_mul in Ho. discriminate Ho. }
  rewrite E. destruct (Z.leb_spec (2 * Z.of_nat n) power); [lia|]. cbn [orb].
  destruct (subloop_ok n (Z.to_nat power) f ltac:(lia) ltac:(lia) Hg a 0 0 (import_one p) a) as (c & Ec & Lc & Hc).
  - lia.
  - eapply holds_reps; exact Ha.
  - intros t Ht. apply (holds_val _ _ _ _ _ Ha). lia.
  - exists 0%nat. destruct one_cr as [R V]. repeat split; try lia; try exact V; destruct R; lia.
  - exact La.
  - intros j Hj. lia.
  - exists c. split; [exact Ec|]. apply chold_intro; [exact Lc|]. intros k Hk.
    destruct (coprime_onto n (Z.to_nat power) k ltac:(lia) Hg Hk) as (j & Hj & <-).
    specialize (Hc j Hj). cbv zeta in Hc. rewrite substituted_at by (assumption || lia). exact Hc.
Qed.

(** without coprimality an index equal to the length is reached *)
Lemma subloop_ub n power : (0 < n)%nat -> (0 < power)%nat -> forall a i idx mul out d, (i + length a = n)%nat ->
  sub_inv n (i * power) idx mul -> (i <= d < n)%nat -> (0 < d)%nat -> (d * power mod n = 0)%nat ->
  cpoly_sub_loop p n power a idx mul out = UB.
Proof.
  intros Hn Hp. induction a as [|x a IH]; intros i idx mul out d Hi Hinv Hd H0 E; cbn [length] in Hi; [lia|].
  cbn [cpoly_sub_loop]. destruct (Nat.leb_spec n idx) as [|L]; [reflexivity|].
  destruct (sub_step n power Hn Hp i idx mul Hinv) as (idx' & mul' & Ew & Hinv'). rewrite Ew. cbn [bind].
  apply (IH (S i) idx' mul' _ d); try assumption; try lia.
  destruct (Nat.eq_dec i d) as [->|]; [|lia]. exfalso. destruct Hinv as (c & Ec & B & Z0 & _).
  rewrite Ec, Nat.add_comm, Nat.mod_add, Nat.mod_small in E by lia. specialize (Z0 E). nia.
Qed.

Lemma csubst_ub a power : let n := length a in 0 < power < 2 * Z.of_nat n -> Z.odd power = true ->
  Nat.gcd (Z.to_nat power) n <> 1%nat -> cpoly_substitute p a power = UB.
Proof.
  intros n Hp Ho Hg. unfold cpoly_substitute. fold n. rewrite Z.gtb_ltb, Z.geb_leb.
  destruct (Z.ltb_spec power 0); [lia|].
  assert (E : (Z.rem power 2 =? 0) = false).
  { apply Z.eqb_neq. intros E. apply Z.rem_divide in E; [|lia]. destruct E as [q ->]. rewrite Z.mul_comm, Z.odd_mul in Ho. discriminate Ho. }
  rewrite E. destruct (Z.leb_spec (2 * Z.of_nat n) power); [lia|]. cbn [orb].
  destruct (Nat.gcd_divide_l (Z.to_nat power) n) as [x Hx]. destruct (Nat.gcd_divide_r (Z.to_nat power) n) as [y Hy].
  set (g := Nat.gcd (Z.to_nat power) n) in *.
  apply (subloop_ub n (Z.to_nat power) ltac:(lia) ltac:(lia) a 0 0 (import_one p) a y).
  - reflexivity.
  - exists 0%nat. destruct one_cr as [R V]. repeat split; try lia; try exact V; destruct R; lia.
  - destruct g as [|[|g]]; nia.
  - destruct g as [|[|g]]; nia.
  - replace (y * Z.to_nat power)%nat with (x * n)%nat by nia. apply Nat.mod_mul. lia.
Qed.

(** ** comparison *)
Lemma degree_lt a i : (forall j, (j < i)%nat -> rep (nth j a 0)) -> (0 < i)%nat ->
  (cpoly_degree_loop p a i < i)%nat /\ (forall j, (cpoly_degree_loop p a i < j < i)%nat -> val (nth j a 0) = 0) /\
  (val (nth (cpoly_degree_loop p a i) a 0) = 0 -> cpoly_degree_loop p a i = 0%nat).
Proof.
  induction i as [|i IH]; intros H H0; [lia|]. cbn [cpoly_degree_loop].
  rewrite export_int_ok by (exact G || apply (rep_word p G), H; lia).
  destruct (Z.eqb_spec (val (nth i a 0)) 0) as [E|E].
  - destruct i as [|i]; [cbn; repeat split; [lia|intros; lia]|].
    destruct IH as (A & B & C); [intros j Hj; apply H; lia|lia|]. split; [lia|]. split; [|exact C].
    intros j Hj. destruct (Nat.eq_dec j (S i)) as [->|]; [exact E|apply B; lia].
  - split; [lia|]. split; [intros; lia|]. intros; contradiction.
Qed.

Lemma eqb_loop_ok a b : forall is, (forall i, In i is -> (i < length a)%nat /\ (i < length b)%nat) ->
  exists r, cpoly_eqb_loop a b is = Ok r /\ (r = true <-> forall i, In i is -> nth i a 0 = nth i b 0).
Proof.
  induction is as [|i is IH]; intros H; cbn [cpoly_eqb_loop].
  - exists true. split; [reflexivity|]. split; [intros _ i []|reflexivity].
  - destruct (H i (or_introl eq_refl)) as [A B]. rewrite !get_nth by assumption. cbn [bind]. unfold meqb.
    destruct (Z.eqb_spec (nth i a 0) (nth i b 0)) as [E|N].
    + destruct IH as (r & Er & Hr); [intros j Hj; apply H; right; exact Hj|]. exists r. split; [exact Er|]. rewrite Hr. split.
      * intros K j [<-|Hj]; [exact E|apply K, Hj].
      * intros K j Hj. apply K. right. exact Hj.
    + exists false. split; [reflexivity|]. split; [intros Q; discriminate Q|]. intros K. destruct N. apply K. left. reflexivity.
Qed.

Lemma ceqb_ok n a b : (0 < n)%nat -> length a = n -> length b = n -> Forall crep a -> Forall crep b ->
  exists r, cpoly_eqb p a b = Ok r /\ (r = true <-> a = b).
Proof.
  intros Hn La Lb Ca Cb. rewrite Forall_forall in Ca, Cb.
  assert (Ra : forall j, (j < n)%nat -> crep (nth j a 0)) by (intros; apply Ca, nth_In; lia).
  assert (Rb : forall j, (j < n)%nat -> crep (nth j b 0)) by (intros; apply Cb, nth_In; lia).
  unfold cpoly_eqb, cpoly_degree. rewrite La, Lb.
  destruct (degree_lt a n) as (A1 & A2 & A3); [intros; apply crep_rep; auto|exact Hn|].
  destruct (degree_lt b n) as (B1 & B2 & B3); [intros; apply crep_rep; auto|exact Hn|].
  destruct (Nat.eqb_spec (cpoly_degree_loop p a n) (cpoly_degree_loop p b n)) as [E|N].
  - destruct (eqb_loop_ok a b (seq 0 (S (cpoly_degree_loop p a n)))) as (r & Er & Hr).
    { intros i Hi. apply in_seq in Hi. lia. }
    exists r. split; [exact Er|]. rewrite Hr. split; [|intros ->; reflexivity].
    intros K. apply nth_ext with (d := 0) (d' := 0); [lia|]. intros i Hi. rewrite La in Hi.
    destruct (Nat.le_gt_cases i (cpoly_degree_loop p a n)); [apply K, in_seq; lia|].
    apply (val_inj p G); [auto..|]. rewrite A2, B2 by lia. reflexivity.
  - exists false. split; [reflexivity|]. split; [intros Q; discriminate Q|]. intros ->. destruct N. reflexivity.
Qed.
End Params.
