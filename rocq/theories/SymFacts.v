(** The lemmas of SymProofs and SymProofs2 restated with [carries]. *)
From Coq Require Import Arith Znumtheory.
From Verif Require Import Base FinSum PolySpec Ring ZLemmas Montgomery MontBatch Ntt Poly PolyExt Prng Sampling SampleSpec MontgomeryProofs
  MontBatchProofs NttIndex NttMath NttProofs Spec PolyView ArithFacts NttFacts PolyProofs PolyFacts PolyExtProofs
  SymEnc SymSpec SymProofs SymProofs2.
Local Notation zsum := FinSum.zsum.

Section Key.
Variables (k q : Z) (L : nat) (t : Z) (key : skey).
Hypothesis K : key_ok k q L t key.
Local Notation p := (sk_p key).
Local Notation np := (sk_np key).
Local Notation n := (2 ^ L)%nat.
Local Notation X := (ntt_root p np).

Lemma key_ctx : ctx p L np.
Proof. exact (proj1 (mk_ctx k q p L np (ko_params _ _ _ _ _ K) (ko_ntt _ _ _ _ _ K))). Qed.
Lemma key_k : p_k p = k.
Proof. exact (proj1 (proj2 (mk_ctx k q p L np (ko_params _ _ _ _ _ K) (ko_ntt _ _ _ _ _ K)))). Qed.
Lemma key_q : p_m p = q.
Proof. exact (proj2 (proj2 (mk_ctx k q p L np (ko_params _ _ _ _ _ K) (ko_ntt _ _ _ _ _ K)))). Qed.
Lemma key_good : good p.
Proof. exact (proj1 key_ctx). Qed.
Lemma q_gt1 : 1 < q.
Proof. pose proof (m_gt1 p key_good) as H. rewrite key_q in H. exact H. Qed.

Lemma carries_p x f : ct_p x = p -> (carries L key x f <-> pcarries p L np (secret key) (ct_c x) f).
Proof. intros E. unfold carries, pcarries, component. rewrite E. reflexivity. Qed.

Lemma carries_at x f : ct_ok L key x -> (carries L key x f <->
  forall j, (j < n)%nat -> cong q (hv p (ev L X (secret key) j) j (ct_c x)) (ev L X f j)).
Proof.
  intros [E F]. rewrite carries_p by exact E. pose proof (pcarries_iff p L np key_ctx (secret key) (ct_c x) f F) as H.
  rewrite key_q in H. exact H.
Qed.

Lemma extract_carries x f : ct_ok L key x -> carries L key x f ->
  extract_error_and_message key x = Ok (map (fun i => import_int p (f i mod q)) (seq 0 n)).
Proof.
  intros [E F] H. rewrite <- key_q. apply (extract_ok p L np key_ctx); try reflexivity; try assumption.
  - exact (ko_key _ _ _ _ _ K).
  - apply carries_p; assumption.
Qed.

Lemma decrypt_carries x f : ct_ok L key x -> carries L key x f -> 0 < t <= q ->
  decrypt key x = Ok (tabulate n (fun i => centered q (f i) mod t)).
Proof.
  intros Hx Hf Ht. unfold decrypt. rewrite (extract_carries x f Hx Hf). cbn [bind].
  rewrite (ko_t _ _ _ _ _ K). destruct (Z.eqb_spec t 0); [lia|]. rewrite key_q, <- key_q.
  pose proof key_good as G. pose proof (m4 p G) as M4. pose proof (m_gt1 p G).
  assert (B : forall i, 0 <= f i mod p_m p < 2 ^ p_k p).
  { intros i. pose proof (Z.mod_pos_bound (f i) (p_m p) ltac:(lia)). lia. }
  rewrite remove_error_ok; [|exact G|rewrite key_q; lia|].
  - rewrite map_map. f_equal. apply map_ext. intros i. f_equal.
    rewrite (stored_val p _ G (crep_rep p _ (import_crep p G _ (B i)))), (import_val p G _ (B i)).
    unfold centered. rewrite !Zmod_mod. reflexivity.
  - apply Forall_forall. intros y Hy. apply in_map_iff in Hy. destruct Hy as (i & <- & _).
    apply crep_rep, import_crep; [exact G|apply B].
Qed.

Lemma decrypt_fits x f : ct_ok L key x -> carries L key x f -> 0 < t <= q ->
  (forall i, (i < n)%nat -> fits q (f i)) -> decrypt key x = Ok (tabulate n (fun i => f i mod t)).
Proof.
  intros Hx Hf Ht Hb. rewrite (decrypt_carries x f Hx Hf Ht). f_equal. unfold tabulate. apply map_ext_in.
  intros i Hi. apply in_seq in Hi. f_equal. pose proof q_gt1. apply centered_eq; [lia|apply Hb; lia|reflexivity].
Qed.

Lemma carries_ext x f g : carries L key x f -> (forall i, (i < n)%nat -> cong q (f i) (g i)) -> carries L key x g.
Proof. intros H E i Hi. rewrite (H i Hi). rewrite key_q. apply E, Hi. Qed.

Section Two.
Variables x y : ct.
Variables f g : nat -> Z.
Hypothesis Hx : ct_ok L key x.
Hypothesis Hy : ct_ok L key y.
Hypothesis Hf : carries L key x f.
Hypothesis Hg : carries L key y g.

Lemma add_carries : ct_pow x = ct_pow y ->
  exists z, ct_add x y = Ok z /\ ct_ok L key z /\ ct_pow z = ct_pow x /\
    length (ct_c z) = Nat.max (length (ct_c x)) (length (ct_c y)) /\ carries L key z (fun i => f i + g i).
Proof.
  intros Ep. pose proof key_ctx as C. destruct Hx as [Px Fx], Hy as [Py Fy]. unfold ct_add. rewrite Ep, Z.eqb_refl. cbn [negb]. rewrite Px.
  destruct (pad_ok p L np C (ct_c x) (ct_c y) Fx Fy) as (c1 & E1 & L1 & L1' & F1 & V1). rewrite E1. cbn [bind].
  destruct (zip_ok p L (poly_add p) Z.add c1 (ct_c y) (add_pw p L np C)) as (c2 & E2 & L2 & F2 & V2);
    [intros; ring|intros; ring|apply add_cong|exact F1|exact Fy|exact L1|].
  rewrite E2. cbn [bind]. eexists. split; [reflexivity|].
  assert (Oz : ct_ok L key (with_c x c2)) by (split; [exact Px|exact F2]).
  split; [exact Oz|]. split; [cbn [with_c ct_make ct_pow]; congruence|]. split; [cbn [with_c ct_c]; congruence|].
  apply (carries_at _ _ Oz). intros j Hj. cbn [with_c ct_c]. rewrite <- key_q. rewrite (V2 _ j Hj), (V1 _ j Hj), ev_add.
  rewrite key_q. apply add_cong; [apply (proj1 (carries_at x f Hx) Hf j Hj)|apply (proj1 (carries_at y g Hy) Hg j Hj)].
Qed.

Lemma sub_carries : ct_pow x = ct_pow y ->
  exists z, ct_sub x y = Ok z /\ ct_ok L key z /\ ct_pow z = ct_pow x /\
    length (ct_c z) = Nat.max (length (ct_c x)) (length (ct_c y)) /\ carries L key z (fun i => f i - g i).
Proof.
  intros Ep. pose proof key_ctx as C. destruct Hx as [Px Fx], Hy as [Py Fy]. unfold ct_sub. rewrite Ep, Z.eqb_refl. cbn [negb]. rewrite Px.
  destruct (pad_ok p L np C (ct_c x) (ct_c y) Fx Fy) as (c1 & E1 & L1 & L1' & F1 & V1). rewrite E1. cbn [bind].
  destruct (zip_ok p L (poly_sub p) Z.sub c1 (ct_c y) (sub_pw p L np C)) as (c2 & E2 & L2 & F2 & V2);
    [intros; ring|intros; ring|apply sub_cong|exact F1|exact Fy|exact L1|].
  rewrite E2. cbn [bind]. eexists. split; [reflexivity|].
  assert (Oz : ct_ok L key (with_c x c2)) by (split; [exact Px|exact F2]).
  split; [exact Oz|]. split; [cbn [with_c ct_make ct_pow]; congruence|]. split; [cbn [with_c ct_c]; congruence|].
  apply (carries_at _ _ Oz). intros j Hj. cbn [with_c ct_c]. rewrite <- key_q. rewrite (V2 _ j Hj), (V1 _ j Hj), ev_sub.
  rewrite key_q. apply sub_cong; [apply (proj1 (carries_at x f Hx) Hf j Hj)|apply (proj1 (carries_at y g Hy) Hg j Hj)].
Qed.

Lemma mul_carries z : ct_mul x y = Ok z ->
  ct_ok L key z /\ ct_pow z = ct_pow x /\ (length (ct_c z) = length (ct_c x) + length (ct_c y) - 1)%nat /\
  carries L key z (negacyclic n f g).
Proof.
  pose proof key_ctx as C. pose proof (carries_at x f Hx) as Cx. pose proof (carries_at y g Hy) as Cy.
  destruct Hx as [Px Fx], Hy as [Py Fy]. unfold ct_mul. destruct (ct_pow x =? ct_pow y); [|discriminate]. cbn [negb].
  destruct (ct_c x) as [|x0 xs] eqn:Ex; [discriminate|]. destruct (ct_c y) as [|y0 ys] eqn:Ey; [discriminate|].
  destruct (_ || _); [discriminate|]. rewrite Px.
  inversion Fx as [|? ? [Lx0 _] _]; subst. rewrite Lx0. destruct (zero_at p L np C) as (z0 & Ez & Hz & Vz). rewrite Ez. cbn [bind].
  destruct (mul_rows _ _ _ _ _) as [res| |] eqn:Er; try discriminate. cbn [bind]. intros E; injection E as <-.
  set (cnt := (length (x0 :: xs) + length (y0 :: ys) - 1)%nat) in *.
  destruct (mul_rows_val p L np C (y0 :: ys) Fy (x0 :: xs) 0 (repeat z0 cnt) res Fx (Forall_repeat _ _ _ Hz) Er) as (Lr & Fr & Vr).
  assert (Oz : ct_ok L key (ct_make p res (ct_pow x))) by (split; [reflexivity|exact Fr]).
  split; [exact Oz|]. split; [cbn [with_c ct_make ct_pow]; congruence|]. split; [cbn [ct_make ct_c]; rewrite Lr; apply repeat_length|].
  apply (carries_at _ _ Oz). intros j Hj. cbn [ct_make ct_c]. rewrite <- key_q. rewrite (Vr _ j Hj).
  change (Z.of_nat 0) with 0. rewrite Z.pow_0_r. rewrite (hv_zeros p _ j z0 _ (Vz j Hj)).
  rewrite (ev_mul p L np X (proj2 C)). rewrite key_q. rewrite <- (proj1 Cx Hf j Hj), <- (proj1 Cy Hg j Hj).
  rewrite <- key_q. apply cong_eq. ring.
Qed.

Lemma mul_defined : k <> 16 -> ct_pow x = ct_pow y -> ct_c x <> [] -> ct_c y <> [] -> exists z, ct_mul x y = Ok z.
Proof.
  intros Hk Ep Nx Ny. pose proof key_ctx as C.
  destruct Hx as [Px Fx], Hy as [Py Fy]. unfold ct_mul. rewrite Ep, Z.eqb_refl. cbn [negb].
  destruct (ct_c x) as [|x0 xs] eqn:Ex; [congruence|]. destruct (ct_c y) as [|y0 ys] eqn:Ey; [congruence|].
  inversion Fx as [|? ? [Lx0 _] _]; subst. inversion Fy as [|? ? [Ly0 _] _]; subst. rewrite Lx0, Ly0.
  pose proof (n_pos L). destruct (Nat.leb_spec n 0); [lia|]. cbn [orb]. rewrite Px.
  destruct (zero_at p L np C) as (z0 & Ez & Hz & Vz). rewrite Ez. cbn [bind].
  destruct (mul_rows_ok p L np C (y0 :: ys) (fused_total_k p L np C ltac:(rewrite key_k; exact Hk)) Fy (x0 :: xs) 0
    (repeat z0 (length (x0 :: xs) + length (y0 :: ys) - 1)) Fx (Forall_repeat _ _ _ Hz)) as (res & Er).
  { right. rewrite repeat_length. cbn [length]. lia. }
  rewrite Er. cbn [bind]. eexists. reflexivity.
Qed.

Variable b : poly.
Hypothesis Hb : ntt_poly p L b.
Variable h : nat -> Z.
Hypothesis Hh : forall i, (i < n)%nat -> cong q (coeff p np b i) (h i).

Lemma b_at j : (j < n)%nat -> cong q (at_ p j b) (ev L X h j).
Proof.
  intros Hj. pose proof key_ctx as C. rewrite <- key_q, (coeff_at p L np C b j Hb Hj), key_q.   rewrite <- key_q. apply ev_cong. rewrite key_q. exact Hh.
Qed.

Lemma absorb_carries : exists z, ct_absorb x b = Ok z /\ ct_ok L key z /\ ct_pow z = ct_pow x /\
  length (ct_c z) = length (ct_c x) /\ carries L key z (negacyclic n f h).
Proof.
  pose proof key_ctx as C. destruct Hx as [Px Fx]. unfold ct_absorb. rewrite Px.
  destruct (seqr_pw p L _ _ (ct_c x) (mul_pw p L np C b Hb) Fx) as (c' & E' & Ll & _).
  destruct (seqr_hv p L _ (fun j => at_ p j b) (ct_c x) (mul_pw p L np C b Hb) Fx) as (c & E & Fc & V).
  rewrite E in E'. injection E' as <-. rewrite E. cbn [bind]. eexists. split; [reflexivity|].
  assert (Oz : ct_ok L key (with_c x c)) by (split; [exact Px|exact Fc]).
  split; [exact Oz|]. split; [cbn [with_c ct_make ct_pow]; congruence|]. split; [exact Ll|].
  apply (carries_at _ _ Oz). intros j Hj. cbn [with_c ct_c]. rewrite <- key_q. rewrite (V _ j Hj).
  rewrite (ev_mul p L np X (proj2 C)). rewrite key_q. rewrite (b_at j Hj). rewrite (proj1 (carries_at x f Hx) Hf j Hj). reflexivity.
Qed.

Lemma absorb_scalar_carries s c : stored p s -> cong q (export_int p s) c ->
  exists z, ct_absorb_scalar x s = Ok z /\ ct_ok L key z /\ ct_pow z = ct_pow x /\
  length (ct_c z) = length (ct_c x) /\ carries L key z (fun i => c * f i).
Proof.
  intros Hs Hc. pose proof key_ctx as C. destruct Hx as [Px Fx]. unfold ct_absorb_scalar. rewrite Px.
  destruct (seqr_pw p L _ _ (ct_c x) (mul_scalar_pw p L np C s Hs) Fx) as (c' & E' & Ll & _).
  destruct (seqr_hv p L _ (fun j => export_int p s) (ct_c x) (mul_scalar_pw p L np C s Hs) Fx) as (d & E & Fc & V).
  rewrite E in E'. injection E' as <-. rewrite E. cbn [bind]. eexists. split; [reflexivity|].
  assert (Oz : ct_ok L key (with_c x d)) by (split; [exact Px|exact Fc]).
  split; [exact Oz|]. split; [cbn [with_c ct_make ct_pow]; congruence|]. split; [exact Ll|].
  apply (carries_at _ _ Oz). intros j Hj. cbn [with_c ct_c]. rewrite <- key_q. rewrite (V _ j Hj).
  rewrite ev_scale. rewrite key_q. rewrite Hc. rewrite (proj1 (carries_at x f Hx) Hf j Hj). apply cong_eq. ring.
Qed.

Lemma fused_constant_carries : ct_pow x = ct_pow y ->
  exists z, (do! cb <- poly_constants p b; ct_fused_absorb_constant x y cb) = Ok z /\ ct_ok L key z /\
  ct_pow z = ct_pow x /\ carries L key z (fun i => f i + negacyclic n g h i).
Proof.
  intros Ep. pose proof key_ctx as C. destruct Hx as [Px Fx], Hy as [Py Fy]. rewrite constants_ok. cbn [bind].
  unfold ct_fused_absorb_constant. rewrite Ep, Z.eqb_refl. cbn [negb]. rewrite Px, Py.
  destruct (fused_into_ok p L _ _ (fun j => at_ p j b) (ct_c x) (ct_c y) (fused_constant_pw p L np C b Hb) (mul_constant_pw p L np C b Hb) Fx Fy)
    as (c & E & Lc & Fc & V).
  rewrite E. cbn [bind]. eexists. split; [reflexivity|].
  assert (Oz : ct_ok L key (with_c x c)) by (split; [exact Px|exact Fc]).
  split; [exact Oz|]. split; [cbn [with_c ct_make ct_pow]; congruence|].
  apply (carries_at _ _ Oz). intros j Hj. cbn [with_c ct_c]. rewrite <- key_q. rewrite (V _ j Hj).
  rewrite ev_add, (ev_mul p L np X (proj2 C)). rewrite key_q. rewrite (b_at j Hj).
  rewrite (proj1 (carries_at x f Hx) Hf j Hj), (proj1 (carries_at y g Hy) Hg j Hj). reflexivity.
Qed.

End Two.

(** the value of the components after fused absorption *)
Lemma fused_absorb_step x a b z : ct_ok L key x -> ct_ok L key a -> ntt_poly p L b ->
  ct_fused_absorb x a b = Ok z ->
  ct_ok L key z /\ ct_pow z = ct_pow x /\ ct_lazy z = ct_lazy x /\ ct_pow x = ct_pow a /\
  length (ct_c z) = Nat.max (length (ct_c x)) (length (ct_c a)) /\
  (forall i, (i < length (ct_c a))%nat -> canon p L (nth i (ct_c z) [])) /\
  (forall i, (length (ct_c a) <= i)%nat -> nth i (ct_c z) [] = nth i (ct_c x) []) /\
  forall i j, (j < n)%nat -> cong q (at_ p j (nth i (ct_c z) []))
     (at_ p j (nth i (ct_c x) []) + at_ p j (nth i (ct_c a) []) * at_ p j b).
Proof.
  intros [Px Fx] [Pa Fa] Hb. unfold ct_fused_absorb. destruct (Z.eqb_spec (ct_pow x) (ct_pow a)) as [Ep|]; [|discriminate]. cbn [negb].
  rewrite Px, Pa. destruct (fused_into _ _ _ _) as [c| |] eqn:E; try discriminate. cbn [bind]. intros H; injection H as <-.
  destruct (eager_step p L np key_ctx b (ct_c x) (ct_c a) c Hb Fx Fa E) as (I1 & I2 & I3 & I4 & I5).
  split; [split; [exact Px|exact I2]|]. split; [reflexivity|]. split; [reflexivity|]. split; [exact Ep|].
  split; [exact I1|]. split; [exact I3|]. split; [exact I4|]. rewrite <- key_q. exact I5.
Qed.

Lemma fused_absorb_defined x a b : k <> 16 -> ct_ok L key x -> ct_ok L key a -> ntt_poly p L b -> ct_pow x = ct_pow a ->
  exists z, ct_fused_absorb x a b = Ok z.
Proof.
  intros Hk [Px Fx] [Pa Fa] Hb Ep. unfold ct_fused_absorb. rewrite Ep, Z.eqb_refl. cbn [negb]. rewrite Px, Pa.
  pose proof key_ctx as C. assert (Hk' : p_k p <> 16) by (rewrite key_k; exact Hk).
  destruct (fused_into_ok p L _ _ (fun j => at_ p j b) (ct_c x) (ct_c a) (fused_pw p L np C Hk' b Hb) (mul_pw p L np C b Hb) Fx Fa)
    as (c & E & _). rewrite E. cbn [bind]. eexists. reflexivity.
Qed.

Lemma fused_absorb_carries x a b z f g h : ct_ok L key x -> ct_ok L key a -> ntt_poly p L b ->
  carries L key x f -> carries L key a g -> (forall i, (i < n)%nat -> cong q (coeff p np b i) (h i)) ->
  ct_fused_absorb x a b = Ok z ->
  ct_ok L key z /\ ct_pow z = ct_pow x /\ carries L key z (fun i => f i + negacyclic n g h i).
Proof.
  intros Hx Ha Hb Hf Hg Hh E. destruct (fused_absorb_step x a b z Hx Ha Hb E) as (Oz & Pz & _ & _ & Lz & _ & _ & V).
  split; [exact Oz|]. split; [exact Pz|]. apply (carries_at _ _ Oz). intros j Hj.
  rewrite ev_add, <- key_q, (ev_mul p L np X (proj2 key_ctx)), key_q, <- (b_at b Hb h Hh j Hj).
  rewrite <- (proj1 (carries_at x f Hx) Hf j Hj), <- (proj1 (carries_at a g Ha) Hg j Hj).
  set (w := ev L X (secret key) j).
  assert (W : forall cs M, (length cs <= M)%nat -> hv p w j cs = zsum M (fun i => at_ p j (nth i cs []) * w ^ Z.of_nat i)).
  { intros cs M HM. rewrite hv_sum. replace M with (length cs + (M - length cs))%nat by lia. rewrite FinSum.zsum_split.
    rewrite (zsum_ext (M - length cs) _ (fun _ => 0)), zsum_zero; [ring|].
    intros i Hi. rewrite at_over by lia. ring. }
  set (M := Nat.max (length (ct_c x)) (length (ct_c a))) in *.
  rewrite (W (ct_c z) M), (W (ct_c x) M), (W (ct_c a) M) by (unfold M in *; lia).
  rewrite <- zsum_mul_r, <- zsum_add. apply zsum_cong. intros i Hi. rewrite (V i j Hj). apply cong_eq. ring.
Qed.

(** ** Lazy = eager *)

Definition opsok (ops : list (ct * poly)) : Prop :=
  Forall (fun ab => ct_ok L key (fst ab) /\ ntt_poly p L (snd ab)) ops.

Definition acc (ops : list (ct * poly)) (i j : nat) : Z :=
  fold_right (fun ab r => at_ p j (nth i (ct_c (fst ab)) []) * at_ p j (snd ab) + r) 0 ops.
Definition maxlen (len : nat) (ops : list (ct * poly)) : nat :=
  fold_left (fun l ab => Nat.max l (length (ct_c (fst ab)))) ops len.

Lemma maxlen_ge ops : forall len, (len <= maxlen len ops)%nat.
Proof.
  induction ops as [|ab ops IH]; intros len; cbn [maxlen fold_left]; [lia|].
  specialize (IH (Nat.max len (length (ct_c (fst ab))))). unfold maxlen in *. lia.
Qed.
Lemma maxlen_max ops : forall len, maxlen len ops = Nat.max len (maxlen 0 ops).
Proof.
  induction ops as [|ab ops IH]; intros len; cbn [maxlen fold_left]; [lia|].
  change (maxlen (Nat.max len (length (ct_c (fst ab)))) ops = Nat.max len (maxlen (Nat.max 0 (length (ct_c (fst ab)))) ops)).
  rewrite IH, (IH (Nat.max 0 _)). lia.
Qed.

Lemma run_fused_val ops : opsok ops -> forall x z, ct_ok L key x -> run_fused x ops = Ok z ->
  ct_ok L key z /\ ct_pow z = ct_pow x /\ ct_lazy z = ct_lazy x /\
  length (ct_c z) = Nat.max (length (ct_c x)) (maxlen 0 ops) /\
  Forall (fun ab => ct_pow (fst ab) = ct_pow x) ops /\
  (forall i, (i < maxlen 0 ops)%nat -> canon p L (nth i (ct_c z) [])) /\
  (forall i, (maxlen 0 ops <= i)%nat -> nth i (ct_c z) [] = nth i (ct_c x) []) /\
  forall i j, (j < n)%nat -> cong q (at_ p j (nth i (ct_c z) [])) (at_ p j (nth i (ct_c x) []) + acc ops i j).
Proof.
  intros HO. induction HO as [|[a b] ops [Ha Hb] HO IH]; intros x z Hx E; cbn [run_fused] in E.
  - injection E as <-. split; [exact Hx|]. split; [reflexivity|]. split; [reflexivity|]. split; [cbn; lia|]. split; [constructor|].
    split; [cbn; lia|]. split; [reflexivity|]. intros i j Hj. cbn [acc fold_right]. apply cong_eq. ring.
  - cbn [fst snd] in *. destruct (ct_fused_absorb x a b) as [x1| |] eqn:E1; try discriminate. cbn [bind] in E.
    destruct (fused_absorb_step x a b x1 Hx Ha Hb E1) as (O1 & P1 & Z1 & Pa & L1 & I1 & I2 & I3).
    destruct (IH x1 z O1 E) as (O2 & P2 & Z2 & L2 & F2 & J1 & J2 & J3).
    assert (EM : maxlen 0 ((a, b) :: ops) = Nat.max (length (ct_c a)) (maxlen 0 ops)).
    { change (maxlen 0 ((a, b) :: ops)) with (maxlen (Nat.max 0 (length (ct_c a))) ops). rewrite maxlen_max. lia. }
    split; [exact O2|]. split; [congruence|]. split; [congruence|]. split; [rewrite L2, L1, EM; lia|].
    split; [constructor; [cbn; congruence|eapply Forall_impl; [|exact F2]; intros ab H; cbv beta in *; congruence]|].
    rewrite EM. split.
    { intros i Hi. destruct (Nat.lt_ge_cases i (maxlen 0 ops)) as [H|H]; [apply J1, H|]. rewrite (J2 i H). apply I1. lia. }
    split; [intros i Hi; rewrite (J2 i ltac:(lia)); apply I2; lia|].
    intros i j Hj. rewrite (J3 i j Hj), (I3 i j Hj). cbn [acc fold_right fst snd]. apply cong_eq. unfold acc. ring.
Qed.

Lemma run_fused_defined ops : k <> 16 -> opsok ops -> forall x, ct_ok L key x ->
  Forall (fun ab => ct_pow (fst ab) = ct_pow x) ops -> exists z, run_fused x ops = Ok z.
Proof.
  intros Hk HO. induction HO as [|[a b] ops [Ha Hb] HO IH]; intros x Hx HP; cbn [run_fused]; [eexists; reflexivity|].
  inversion_clear HP as [|? ? P1 P2]. cbn [fst snd] in *.
  destruct (fused_absorb_defined x a b Hk Hx Ha Hb ltac:(congruence)) as (x1 & E1). rewrite E1. cbn [bind].
  destruct (fused_absorb_step x a b x1 Hx Ha Hb E1) as (O1 & Q1 & _). apply IH; [exact O1|]. rewrite Q1. exact P2.
Qed.

(** the state of the lazy accumulators *)
Definition lstate (x y : ct) (T : nat -> nat -> Z) : Prop :=
  ct_c y = ct_c x /\ ct_pow y = ct_pow x /\ ct_p y = ct_p x /\ lzs p L (ct_lazy y) T.

Lemma lzs_ext zs T T' : lzs p L zs T -> (forall i j, (j < n)%nat -> cong q (T i j) (T' i j)) -> lzs p L zs T'.
Proof.
  intros [I1 I2] H. rewrite <- key_q in H. split.
  - intros i Hi. eapply lz_ext; [apply I1, Hi|]. intros j Hj. apply H, Hj.
  - intros i j Hi Hj. rewrite <- (H i j Hj). apply I2; assumption.
Qed.

Lemma run_lazy_val ops : opsok ops -> forall x y T, ct_ok L key x -> lstate x y T ->
  Forall (fun ab => ct_pow (fst ab) = ct_pow x) ops -> growing (length (ct_lazy y)) ops ->
  exists z, run_lazy y ops = Ok z /\ length (ct_lazy z) = Nat.max (length (ct_lazy y)) (maxlen 0 ops) /\
    lstate x z (fun i j => T i j + acc ops i j).
Proof.
  intros HO. induction HO as [|[a b] ops [Ha Hb] HO IH]; intros x y T Hx HS HP HG; cbn [run_lazy].
  - exists y. split; [reflexivity|]. split; [cbn; lia|]. destruct HS as (S1 & S2 & S3 & S4).
    split; [exact S1|]. split; [exact S2|]. split; [exact S3|]. eapply lzs_ext; [exact S4|].
    intros i j Hj. cbn [acc fold_right]. apply cong_eq. ring.
  - inversion_clear HP as [|? ? P1 P2]. cbn [fst snd] in *. destruct HG as [HG1 HG2].
    assert (EM : maxlen 0 ((a, b) :: ops) = Nat.max (length (ct_c a)) (maxlen 0 ops)).
    { change (maxlen 0 ((a, b) :: ops)) with (maxlen (Nat.max 0 (length (ct_c a))) ops). rewrite maxlen_max. lia. }
    assert (Step : exists y1, ct_fused_lazily y a b = Ok y1 /\ length (ct_lazy y1) = Nat.max (length (ct_lazy y)) (length (ct_c a)) /\
       lstate x y1 (fun i j => T i j + at_ p j (nth i (ct_c a) []) * at_ p j b)).
    { destruct HS as (S1 & S2 & S3 & S4). unfold ct_fused_lazily. rewrite S2, P1, Z.eqb_refl. cbn [negb].
      destruct Ha as [Pa Fa]. destruct Hx as [Px Fx].
      destruct (ct_c a) as [|a0 as'] eqn:Ea.
      { exists y. split; [reflexivity|]. split; [cbn; lia|]. split; [exact S1|]. split; [exact S2|]. split; [exact S3|].
        eapply lzs_ext; [exact S4|]. intros i j Hj. destruct i; cbn [nth]; rewrite at_nil; apply cong_eq; ring. }
      rewrite S3, Px. destruct (ct_lazy y) as [|z0 zs] eqn:Ez.
      - destruct (lazy_creates p L np key_ctx b (a0 :: as') Hb Fa) as (zs & Es & Ls & HZ). rewrite Es. cbn [bind].
        eexists. split; [reflexivity|]. cbn [with_lazy ct_lazy ct_c ct_pow ct_p]. split; [rewrite Ls; cbn; lia|].
        split; [exact S1|]. split; [exact S2|]. split; [exact S3|]. eapply lzs_ext; [exact HZ|]. cbv beta.
        intros i j Hj. assert (E0 : cong q (T i j) 0) by (rewrite <- key_q; apply (proj2 S4); [cbn; lia|exact Hj]).
        rewrite E0. apply cong_eq. ring.
      - destruct HG1 as [HG1|HG1]; [discriminate|].
        assert (Pad : exists zs1, (if (length (z0 :: zs) <? length (a0 :: as'))%nat then
            do! e <- lazy_create_empty p (length a0); Ok ((z0 :: zs) ++ repeat e (length (a0 :: as') - length (z0 :: zs)))
            else Ok (z0 :: zs)) = Ok zs1 /\ length zs1 = length (a0 :: as') /\ lzs p L zs1 T).
        { destruct (Nat.ltb_spec (length (z0 :: zs)) (length (a0 :: as'))) as [H|H].
          - inversion_clear Fa as [|? ? [La0 _] _]. rewrite La0. destruct (lz_empty p L np key_ctx) as (e & Ee & He).
            rewrite Ee. cbn [bind]. eexists. split; [reflexivity|].
            split; [rewrite app_length, repeat_length; lia|]. apply lazy_pad; assumption.
          - eexists. split; [reflexivity|]. split; [lia|exact S4]. }
        destruct Pad as (zs1 & -> & L1 & H1). cbn [bind].
        destruct (lazy_into_ok p L np key_ctx b Hb zs1 (a0 :: as') T Fa L1 H1) as (zs2 & E2 & L2 & H2).
        rewrite E2. cbn [bind]. eexists. split; [reflexivity|]. cbn [with_lazy ct_lazy ct_c ct_pow ct_p].
        split; [rewrite L2; lia|]. split; [exact S1|]. split; [exact S2|]. split; [exact S3|]. exact H2. }
    destruct Step as (y1 & E1 & L1 & S1). rewrite E1. cbn [bind].
    destruct (IH x y1 _ Hx S1 P2) as (z & Ez & Lz & Sz). { rewrite L1. exact HG2. }
    exists z. split; [exact Ez|]. split; [rewrite Lz, L1, EM; lia|].
    destruct Sz as (Z1 & Z2 & Z3 & Z4). split; [exact Z1|]. split; [exact Z2|]. split; [exact Z3|].
    eapply lzs_ext; [exact Z4|]. intros i j Hj. cbv beta. cbn [acc fold_right fst snd]. apply cong_eq. unfold acc. ring.
Qed.

Lemma lazy_equals_eager ops x : opsok ops -> ct_ok L key x -> ct_lazy x = [] ->
  Forall (fun ab => ct_pow (fst ab) = ct_pow x) ops -> growing 0 ops -> (0 < maxlen 0 ops)%nat ->
  exists z, (do! y <- run_lazy x ops; ct_merge y) = Ok z /\ ct_ok L key z /\ ct_lazy z = [] /\
    forall w, run_fused x ops = Ok w -> z = w.
Proof.
  intros HO Hx El HP HG HM. pose proof key_ctx as C.
  destruct (run_lazy_val ops HO x x (fun _ _ => 0) Hx) as (y & Ey & Ly & S1 & S2 & S3 & S4); [|exact HP|rewrite El; exact HG|].
  { split; [reflexivity|]. split; [reflexivity|]. split; [reflexivity|]. rewrite El. split; [cbn; lia|]. reflexivity. }
  rewrite Ey. cbn [bind]. rewrite El in Ly. cbn [length] in Ly. rewrite Nat.max_0_l in Ly.
  unfold ct_merge. destruct (ct_lazy y) as [|z0 zs] eqn:Ez; [cbn in Ly; lia|]. rewrite <- Ez in *.
  destruct Hx as [Px Fx]. rewrite S1, S2, S3, Px.
  destruct (merge_ok p L np C (ct_lazy y) (ct_c x) _ Fx S4) as (es & Es & Le & Fe & I1 & I2 & I3). rewrite Es. cbn [bind].
  eexists. split; [reflexivity|]. split; [split; [reflexivity|exact Fe]|]. split; [reflexivity|].
  intros w Ew. destruct (run_fused_val ops HO x w (conj Px Fx) Ew) as ([Pw Fw] & P2 & Z2 & L2 & _ & J1 & J2 & J3).
  destruct w as [cw lw pw qw]. cbn [ct_c ct_lazy ct_pow ct_p] in *. subst. unfold ct_make. rewrite El.
  f_equal. apply (nth_ext _ _ [] []); [etransitivity; [exact Le|]; rewrite Ly; symmetry; exact L2|]. intros i Hi.
  destruct (Nat.lt_ge_cases i (maxlen 0 ops)) as [H|H].
  - apply (canon_eq p L np C); [apply I1; lia|apply J1, H|]. intros j Hj. rewrite (I3 i j Hj). rewrite key_q, (J3 i j Hj).
    apply cong_eq. ring.
  - etransitivity; [apply (I2 i ltac:(lia))|symmetry; apply (J2 i H)].
Qed.

End Key.
