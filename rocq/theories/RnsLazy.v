(** Lazy RNS polynomials: the accumulators never overflow and hold the sum of
    products. *)
From Coq Require Import Znumtheory.
From Verif Require Import Base FinSum ZLemmas PolySpec Ring NegRing SymSpec Montgomery MontBatch MontgomeryProofs MontBatchProofs Ntt Poly PolyProofs PolyExt PolyExtProofs
  Spec ArithFacts NttFacts PolyView RnsPoly RnsSpec CrtMath RnsSub RnsProofs RnsBasis RnsMore RnsCt RnsCtSpec RnsCtProofs.

(** v holds level products of words modulo m and stands for f *)
Definition acc (m : pmod) (L : nat) (lvl : Z) (v : list Z) (f : nat -> Z) : Prop :=
  length v = (2 ^ L)%nat /\ Forall (fun c => 0 <= c <= lvl * (modulus m * modulus m)) v /\
  sub_is m L true (map (val (pm_p m)) v) f.

(** z is a lazy polynomial over ms of degree 2^L that stands for f *)
Definition lazy_is (k : Z) (ms : list pmod) (L : nat) (z : rlazy) (f : nat -> Z) : Prop :=
  0 <= rl_level z <= rl_max z /\ 1 < rl_max z /\
  Forall (fun m => rl_max z * (modulus m * modulus m) < 2 ^ (2 * k - 1)) ms /\
  Forall2 (fun m v => acc m L (rl_level z) v f) ms (rl_vs z).

Section One.
Variables (k : Z) (L : nat) (m : pmod).
Hypothesis OK : mod_ok k L m.
Local Notation p := (pm_p m).
Local Notation q := (modulus m).
Local Notation n := (2 ^ L)%nat.
Local Notation G := (ok_good k L m OK).

Lemma acc_weaken lvl lvl' v f : lvl <= lvl' -> acc m L lvl v f -> acc m L lvl' v f.
Proof.
  intros H (A & B & C). split; [exact A|]. split; [|exact C]. eapply Forall_impl; [|exact B]. cbn. intros c Hc.
  pose proof (ok_q k L m OK). nia.
Qed.

Lemma acc_zero : acc m L 0 (repeat 0 n) (fun _ => 0).
Proof.
  split; [apply repeat_length|]. split.
  - apply Forall_forall. intros c Hc. apply repeat_spec in Hc. subst c. lia.
  - assert (E : map (val p) (repeat 0 n) = repeat (import_zero p) n).
    { induction n as [|l IH]; [reflexivity|]. cbn [repeat map]. rewrite IH. f_equal. }
    rewrite E. apply (sub_zero k L m OK true).
Qed.

Lemma map_val_mul : forall a b, Forall (stored p) a -> Forall (stored p) b ->
  map (val p) (map2 (big_mul p) a b) = map2 (mmul p) a b /\
  Forall (fun c => 0 <= c <= 1 * (q * q)) (map2 (big_mul p) a b).
Proof.
  induction a as [|x a IH]; intros b Ha Hb; [split; [reflexivity|constructor]|]. destruct b as [|y b]; [split; [reflexivity|constructor]|].
  cbn [map2 map]. inversion Ha as [|? ? Hx Ha' E1]. inversion Hb as [|? ? Hy Hb' E2]. destruct (IH b Ha' Hb') as [E F].
  rewrite big_mul_ok by (try exact G; assumption). pose proof (word_prod p G x y Hx Hy) as W. fold q in W. split.
  - f_equal; [|exact E]. pose proof (rep_prod p G x y Hx Hy). unfold stored in Hx, Hy.
    rewrite (mmul_ok p G) by lia. reflexivity.
  - constructor; [lia|exact F].
Qed.

Lemma acc_create a b f g : sub_is m L true a f -> sub_is m L true b g ->
  acc m L 1 (map2 (big_mul p) a b) (negacyclic n f g).
Proof.
  intros Ha Hb. destruct (sub_mul k L m OK a b f g Ha Hb) as (r & E & Hr).
  pose proof (sub_len L m _ _ _ Ha) as La. pose proof (sub_len L m _ _ _ Hb) as Lb.
  destruct Ha as [[_ Sa] _], Hb as [[_ Sb] _]. destruct (map_val_mul a b Sa Sb) as [E2 F].
  split; [rewrite map2_length; lia|]. split; [exact F|]. rewrite E2.
  unfold batch_mul in E. rewrite same_len_true in E by lia. injection E as <-. exact Hr.
Qed.

Lemma acc_reduce lvl v f : 0 <= lvl -> lvl * (q * q) < 2 ^ (2 * k - 1) -> acc m L lvl v f ->
  map (barrett_reduce_bigint p) v = map (fun c => c mod q) v /\
  map (fun c => export_int p (barrett_reduce_bigint p c)) v = map (val p) v /\
  acc m L 1 (map (barrett_reduce_bigint p) v) f.
Proof.
  intros H0 HB (A & B & C). rewrite Forall_forall in B. pose proof (ok_q k L m OK).
  assert (E : forall c, In c v -> barrett_reduce_bigint p c = c mod q).
  { intros c I. specialize (B c I). apply barrett_reduce_bigint_ok; [exact G|]; rewrite (ok_k k L m OK); lia. }
  assert (E1 : map (barrett_reduce_bigint p) v = map (fun c => c mod q) v) by (apply map_ext_in, E).
  split; [exact E1|]. split.
  - apply map_ext_in. intros c I. rewrite (E c I). rewrite export_int_ok; [apply val_mod|exact G|].
    apply rep_word, crep_rep, mod_crep; exact G.
  - rewrite E1. split; [rewrite map_length; exact A|]. split.
    + apply Forall_forall. intros c I. apply in_map_iff in I. destruct I as (x & <- & I).
      pose proof (Z.mod_pos_bound x q ltac:(lia)). nia.
    + rewrite map_map. rewrite (map_ext _ (val p)); [exact C|]. intros c. apply val_mod.
Qed.

Lemma fused_words lvl : 0 <= lvl -> (lvl + 1) * (q * q) < 2 ^ (2 * k - 1) -> forall v a b,
  Forall (fun c => 0 <= c <= lvl * (q * q)) v -> Forall (stored p) a -> Forall (stored p) b ->
  length a = length v -> length b = length v ->
  let w := map2 (fun c xy => wrap (2 * p_k p) (c + big_mul p (fst xy) (snd xy))) v (combine a b) in
  map (val p) w = map2 (madd p) (map (val p) v) (map2 (mmul p) a b) /\
  Forall (fun c => 0 <= c <= (lvl + 1) * (q * q)) w.
Proof.
  intros H0 HB. pose proof (ok_q k L m OK) as Q1. pose proof (k_pos p G) as K. rewrite (ok_k k L m OK) in *.
  induction v as [|c v IH]; intros a b Hv Ha Hb La Lb.
  - split; [reflexivity|constructor].
  - destruct a as [|x a]; [discriminate|]. destruct b as [|y b]; [discriminate|].
    inversion Hv as [|? ? Hc Hv' E1]. inversion Ha as [|? ? Hx Ha' E2]. inversion Hb as [|? ? Hy Hb' E3].
    destruct (IH a b Hv' Ha' Hb' ltac:(cbn in La; lia) ltac:(cbn in Lb; lia)) as [E F]. cbv zeta in E, F |- *.
    cbn [combine map2 map fst snd]. rewrite big_mul_ok by (try exact G; assumption).
    pose proof (word_prod p G x y Hx Hy) as W. fold q in W.
    assert (2 ^ (2 * k - 1) < 2 ^ (2 * k)) by (apply Z.pow_lt_mono_r; lia).
    rewrite wrap_small by nia. split.
    + f_equal; [|exact E]. pose proof (rep_prod p G x y Hx Hy) as RP.
      assert (Cv : rep p (val p c)) by (apply crep_rep, val_range, G).
      pose proof (mmul_crep p G x y Hx Hy) as Cm.
      pose proof (m4 p G) as M4. unfold MontgomeryProofs.rep, MontgomeryProofs.crep in *. unfold stored in Hx, Hy.
      rewrite madd_ok by (try exact G; lia). rewrite (mmul_ok p G) by lia.
      rewrite <- val_mod. unfold MontgomeryProofs.val. rewrite Zmult_mod_idemp_l, <- Zplus_mod. f_equal. ring.
    + constructor; [nia|exact F].
Qed.

Lemma acc_fused lvl v a b h f g : 0 <= lvl -> (lvl + 1) * (q * q) < 2 ^ (2 * k - 1) -> acc m L lvl v h ->
  sub_is m L true a f -> sub_is m L true b g ->
  acc m L (lvl + 1) (map2 (fun c xy => wrap (2 * p_k p) (c + big_mul p (fst xy) (snd xy))) v (combine a b))
    (fun i => h i + negacyclic n f g i).
Proof.
  intros H0 HB (A & B & C) Ha Hb. pose proof (sub_len L m _ _ _ Ha) as La. pose proof (sub_len L m _ _ _ Hb) as Lb.
  destruct (sub_mul k L m OK a b f g Ha Hb) as (r & E & Hr).
  destruct (sub_add k L m OK true _ _ _ _ C Hr) as (u & Eu & Hu).
  destruct Ha as [[_ Sa] _], Hb as [[_ Sb] _].
  destruct (fused_words lvl H0 HB v a b B Sa Sb ltac:(lia) ltac:(lia)) as [E2 F]. cbv zeta in E2, F.
  split; [rewrite map2_length; rewrite ?combine_length; lia|]. split; [exact F|]. rewrite E2.
  unfold batch_mul in E. rewrite same_len_true in E by lia. injection E as <-.
  unfold batch_add in Eu. rewrite same_len_true in Eu by (rewrite map_length, map2_length; lia). injection Eu as <-. exact Hu.
Qed.
End One.

Section Lazy.
Variables (k : Z) (L : nat) (ms : list pmod).
Hypothesis OK : moduli_ok k L ms.
Local Notation n := (2 ^ L)%nat.

Lemma log_max_loop l0 : 1 <= l0 -> forall ms', moduli_ok k L ms' -> exists l, rlazy_log_max_loop ms' l0 = Ok l /\ 1 <= l <= l0 /\
  Forall (fun m => 2 ^ l * (modulus m * modulus m) < 2 ^ (2 * k - 1)) ms'.
Proof.
  intros H0 ms'. revert l0 H0. induction ms' as [|m ms' IH]; intros l0 H0 HF; cbn [rlazy_log_max_loop].
  - exists l0. split; [reflexivity|]. split; [lia|constructor].
  - pose proof (Forall_inv HF) as Hm; pose proof (Forall_inv_tail HF) as HF'. pose proof (ok_good k L m Hm) as G.
    pose proof (proj2 (log_max_ok (pm_p m) G)) as H1. pose proof (lmax_bound (pm_p m) G) as (_ & _ & H2). unfold lmax in H2.
    set (lq := 2 * p_k (pm_p m) - 1 - 2 * p_logm (pm_p m)) in *. destruct (Z.ltb_spec lq 1); [lia|].
    destruct (IH (if lq <? l0 then lq else l0) ltac:(destruct (Z.ltb_spec lq l0); lia) HF') as (l & E & B & F).
    exists l. split; [exact E|]. assert (l <= lq /\ l <= l0) by (destruct (Z.ltb_spec lq l0); lia).
    split; [lia|]. constructor; [|exact F]. rewrite (ok_k k L m Hm) in H2. fold (modulus m) in H2.
    assert (2 ^ l <= 2 ^ lq) by (apply Z.pow_le_mono_r; lia). pose proof (ok_q k L m Hm).
    eapply Z.le_lt_trans; [|exact H2]. apply Z.mul_le_mono_nonneg_r; [nia|assumption].
Qed.

Lemma log_max : ms <> [] -> exists l, rlazy_log_max ms = Ok l /\ 1 <= l /\
  Forall (fun m => 2 ^ l * (modulus m * modulus m) < 2 ^ (2 * k - 1)) ms.
Proof.
  intros NE. unfold rlazy_log_max. assert (K : 1 <= (match ms with m :: _ => p_k (pm_p m) | [] => 64 end) - 2).
  { clear -OK NE. revert OK NE. destruct ms as [|m t]; intros OK NE; [contradiction|]. inversion OK as [|? ? Hm _ E1].
    pose proof (ok_good k L m Hm) as G. pose proof (m4 (pm_p m) G) as M. pose proof (m_gt1 (pm_p m) G).
    destruct (Z.lt_ge_cases (p_k (pm_p m)) 3); [|lia].
    assert (2 ^ p_k (pm_p m) <= 2 ^ 2) by (apply Z.pow_le_mono_r; lia). lia. }
  destruct (log_max_loop _ K ms OK) as (l & E & B & F). exists l. split; [exact E|]. split; [lia|exact F].
Qed.

Lemma pow_gt1 l : 1 <= l -> 1 < 2 ^ l.
Proof. intros. apply Z.pow_gt_1; lia. Qed.

Lemma lazy_zero_ok : ms <> [] -> exists z, rlazy_zero (Z.of_nat L) ms = Ok z /\ lazy_is k ms L z (fun _ => 0).
Proof.
  intros NE. destruct (log_max NE) as (l & E & B & F). unfold rlazy_zero. pose proof (ok_L k L ms OK NE) as HL.
  destruct (Z.leb_spec (Z.of_nat L) 0); [lia|]. rewrite (ne_match ms _ _ NE), (shl_int_ok k L ms OK NE). cbn [bind].
  rewrite E. cbn [bind]. eexists. split; [reflexivity|]. pose proof (pow_gt1 l B).
  split; [cbn; lia|]. split; [cbn; lia|]. split; [exact F|]. cbn [rl_vs rl_level]. clear NE E F HL.
  induction OK as [|m t Hm HF IH]; cbn [map]; constructor; [apply (acc_zero k L m Hm)|exact (IH HF)].
Qed.

Lemma zip_products : forall ms' vs ws f g, moduli_ok k L ms' ->
  Forall2 (fun m v => sub_is m L true v f) ms' vs -> Forall2 (fun m v => sub_is m L true v g) ms' ws ->
  Forall2 (fun m v => acc m L 1 v (negacyclic n f g)) ms'
    (map2 (fun m vw => map2 (big_mul (pm_p m)) (fst vw) (snd vw)) ms' (combine vs ws)).
Proof.
  induction ms' as [|m t IH]; intros vs ws f g HO Hv Hw; inversion Hv as [|? v ? vs' V1 V2]; inversion Hw as [|? w ? ws' W1 W2]; subst; cbn [combine map2];
    constructor; inversion HO as [|? ? O1 O2]; [apply (acc_create k L m O1); assumption|apply IH; assumption].
Qed.

Lemma lazy_create_is a b f g : ms <> [] -> rns_is ms L true a f -> rns_is ms L true b g ->
  exists z, rlazy_create a b ms = Ok z /\ lazy_is k ms L z (negacyclic n f g).
Proof.
  intros NE Ha Hb. destruct (log_max NE) as (l & E & B & F). unfold rlazy_create.
  pose proof (rns_len _ _ _ _ _ Ha) as La. pose proof (rns_len _ _ _ _ _ Hb) as Lb.
  destruct Ha as (A1 & A2 & A3), Hb as (B1 & B2 & B3). rewrite A2, B2. cbn [negb orb].
  unfold rp_ncoeffs. rewrite A1, B1, Nat.eqb_refl. cbn [negb]. rewrite !same_len_eq by congruence. cbn [negb orb].
  rewrite E. cbn [bind]. eexists. split; [reflexivity|]. pose proof (pow_gt1 l B).
  split; [cbn; lia|]. split; [cbn; lia|]. split; [exact F|]. cbn [rl_vs rl_level]. apply zip_products; assumption.
Qed.

Lemma zip_reduce lvl h : 0 <= lvl -> forall ms' vs, moduli_ok k L ms' ->
  Forall (fun m => lvl * (modulus m * modulus m) < 2 ^ (2 * k - 1)) ms' ->
  Forall2 (fun m v => acc m L lvl v h) ms' vs ->
  Forall2 (fun m v => acc m L 1 v h) ms' (map2 (fun m v => map (barrett_reduce_bigint (pm_p m)) v) ms' vs) /\
  map2 (fun m v => map (fun c => export_int (pm_p m) (barrett_reduce_bigint (pm_p m) c)) v) ms' vs =
  map2 (fun m v => map (val (pm_p m)) v) ms' vs.
Proof.
  intros H0 ms' vs HO HB HF. induction HF as [|m v t vs Hv HF IH]; cbn [map2]; [split; [constructor|reflexivity]|].
  inversion HO as [|? ? O1 O2]. inversion HB as [|? ? B1 B2]. destruct (IH O2 B2) as [I1 I2].
  destruct (acc_reduce k L m O1 lvl v h H0 B1 Hv) as (_ & R1 & R2). split; [constructor; assumption|]. rewrite R1, I2. reflexivity.
Qed.

Lemma refresh_is z h : lazy_is k ms L z h -> lazy_is k ms L (rlazy_refresh z ms) h.
Proof.
  intros (A & B & C & D). split; [cbn; lia|]. split; [exact B|]. split; [exact C|]. cbn [rlazy_refresh rl_vs rl_level].
  apply (zip_reduce (rl_level z) h); [lia|exact OK| |exact D].
  rewrite Forall_forall in C |- *. intros m I. specialize (C m I). eapply Z.le_lt_trans; [|exact C].
  apply Z.mul_le_mono_nonneg_r; [|lia]. pose proof (ok_q k L m (moduli_in _ _ _ _ OK I)). nia.
Qed.

Lemma zip_fused lvl : 0 <= lvl -> forall ms' zs vs ws h f g, moduli_ok k L ms' ->
  Forall (fun m => (lvl + 1) * (modulus m * modulus m) < 2 ^ (2 * k - 1)) ms' ->
  Forall2 (fun m v => acc m L lvl v h) ms' zs ->
  Forall2 (fun m v => sub_is m L true v f) ms' vs -> Forall2 (fun m v => sub_is m L true v g) ms' ws ->
  Forall2 (fun m v => acc m L (lvl + 1) v (fun i => h i + negacyclic n f g i)) ms'
    (map2 (fun m zab => map2 (fun c xy => wrap (2 * p_k (pm_p m)) (c + big_mul (pm_p m) (fst xy) (snd xy)))
                  (fst zab) (combine (fst (snd zab)) (snd (snd zab)))) ms' (combine zs (combine vs ws))).
Proof.
  intros H0. induction ms' as [|m t IH]; intros zs vs ws h f g HO HB Hz Hv Hw; inversion Hz as [|? z ? zs' Z1 Z2]; inversion Hv as [|? v ? vs' V1 V2];
    inversion Hw as [|? w ? ws' W1 W2]; subst; cbn [combine map2]; constructor; inversion HO as [|? ? O1 O2]; inversion HB as [|? ? B1 B2].
  - cbn [fst snd]. apply (acc_fused k L m O1); assumption.
  - apply IH; assumption.
Qed.

Lemma lazy_fused_is z a b h f g : ms <> [] -> lazy_is k ms L z h -> rns_is ms L true a f -> rns_is ms L true b g ->
  exists z', rlazy_fused z a b ms = Ok z' /\ lazy_is k ms L z' (fun i => h i + negacyclic n f g i).
Proof.
  intros NE Hz Ha Hb. unfold rlazy_fused.
  pose proof (rns_len _ _ _ _ _ Ha) as La. pose proof (rns_len _ _ _ _ _ Hb) as Lb.
  destruct Ha as (A1 & A2 & A3), Hb as (B1 & B2 & B3). rewrite A2, B2. cbn [negb orb].
  pose proof Hz as (_ & _ & _ & D). pose proof (Forall2_len _ _ _ D) as Lz.
  rewrite !same_len_eq by congruence. cbn [negb orb].
  destruct (rl_vs z) as [|v0 vs] eqn:Ev. { destruct ms; [contradiction|cbn in Lz; lia]. }
  assert (L0 : length v0 = n) by (inversion D as [|? ? ? ? D1]; apply D1).
  unfold rp_ncoeffs. rewrite A1, B1, L0, Nat.eqb_refl. cbn [negb orb]. rewrite <- Ev in *.
  set (z1 := if rl_level z =? rl_max z then rlazy_refresh z ms else z).
  assert (H1 : lazy_is k ms L z1 h /\ rl_level z1 < rl_max z1).
  { unfold z1. pose proof Hz as (R1 & R2 & _). destruct (Z.eqb_spec (rl_level z) (rl_max z)).
    - split; [apply refresh_is, Hz|cbn; lia].
    - split; [exact Hz|lia]. }
  destruct H1 as ((C1 & C2 & C3 & C4) & Hlt). cbv zeta. eexists. split; [reflexivity|].
  split; [cbn; lia|]. split; [exact C2|]. split; [exact C3|]. cbn [rl_vs rl_level].
  apply zip_fused; try assumption; [lia|]. rewrite Forall_forall in C3 |- *. intros m I. specialize (C3 m I).
  eapply Z.le_lt_trans; [|exact C3]. apply Z.mul_le_mono_nonneg_r; [|lia]. pose proof (ok_q k L m (moduli_in _ _ _ _ OK I)). nia.
Qed.

Lemma lazy_export_is z h : ms <> [] -> lazy_is k ms L z h -> is_rns ms L true (rlazy_export z ms) h.
Proof.
  intros NE (A & B & C & D). unfold rlazy_export. pose proof (Forall2_len _ _ _ D) as Lz.
  rewrite same_len_eq by congruence. cbn [negb].
  assert (NZ : rl_vs z <> []). { intros E. rewrite E in Lz. revert NE Lz. destruct ms; [contradiction|cbn; lia]. }
  rewrite (ne_match (rl_vs z) _ _ NZ).
  assert (C' : Forall (fun m => rl_level z * (modulus m * modulus m) < 2 ^ (2 * k - 1)) ms).
  { rewrite Forall_forall in C |- *. intros m I. specialize (C m I). eapply Z.le_lt_trans; [|exact C].
    apply Z.mul_le_mono_nonneg_r; [|lia]. pose proof (ok_q k L m (moduli_in _ _ _ _ OK I)). nia. }
  rewrite (proj2 (zip_reduce (rl_level z) h ltac:(lia) ms (rl_vs z) OK C' D)).
  set (out := map2 _ ms (rl_vs z)).
  assert (HF : Forall2 (fun m v => sub_is m L true v h) ms out).
  { unfold out. clear - D. induction D as [|m v t vs Hv HF IH]; cbn [map2]; constructor; [apply Hv|exact IH]. }
  exists {| rp_logn := L; rp_vs := out; rp_ntt := true |}. split.
  - apply create_iff. exists L. pose proof (Forall2_len _ _ _ HF) as Lo. split.
    + intros E. rewrite E in Lo. destruct (rl_vs z); [contradiction|]. cbn in Lo, Lz. lia.
    + split; [|reflexivity]. clear -HF. induction HF as [|m v t vs Hv HF IH]; constructor; [exact (sub_len L m _ _ _ Hv)|exact IH].
  - split; [reflexivity|]. split; [reflexivity|exact HF].
Qed.
End Lazy.
