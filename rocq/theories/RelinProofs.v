(** Proofs about key switching. *)
From Coq Require Import Arith Znumtheory.
From Verif Require Import Base FinSum PolySpec Ring ZLemmas Montgomery MontBatch Ntt Poly PolyExt Prng Sampling SampleSpec MontgomeryProofs
  MontBatchProofs NttIndex NttMath NttProofs Spec PolyView ArithFacts NttFacts PolyProofs PolyFacts PolyExtProofs
  SymEnc SymSpec SymProofs SymProofs2 SymFacts SymSwitch Relin RelinSpec.
Local Notation zsum := FinSum.zsum.

Lemma choose_gen {A} (d : A) (P : nat -> A -> Prop) k : (forall i, (i < k)%nat -> exists e, P i e) ->
  exists e : nat -> A, forall i, (i < k)%nat -> P i (e i).
Proof.
  induction k as [|k IH]; intros H; [exists (fun _ => d); lia|].
  destruct IH as (e & He); [intros; apply H; lia|]. destruct (H k ltac:(lia)) as (x & Hx).
  exists (fun i => if (i =? k)%nat then x else e i). intros i Hi. destruct (Nat.eqb_spec i k) as [->|N]; [exact Hx|].
  apply He. lia.
Qed.

Section Ctx.
Variables (p : mparams) (L : nat) (np : nttp).
Hypothesis C : ctx p L np.
Let G : good p := proj1 C.
Local Notation X := (ntt_root p np).
Let NG := proj2 C.
Local Notation m := (p_m p).
Local Notation n := (2 ^ L)%nat.
Local Notation ev := (ev L X).
Local Notation at_ := (at_ p).
Local Notation holds := (holds p).

Lemma ev_npow s a j : cong m (ev (npow n s a) j) (ev s j ^ Z.of_nat a).
Proof. apply peval_npow; [apply (n_pos L)|apply (point_root p L np X NG)]. Qed.

(** the coefficients of digit vector i *)
Definition dig (ds : list (list Z)) (i l : nat) : Z := export_int p (nth l (nth i ds []) 0).

Lemma mm_loop_val top : forall ds bot r0 r1 o0 o1,
  length bot = length top -> length ds = length top ->
  (forall i, (i < length top)%nat -> length (nth i ds []) = n /\ Forall (stored p) (nth i ds [])) ->
  Forall (ntt_poly p L) top -> Forall (ntt_poly p L) bot -> ntt_poly p L r0 -> ntt_poly p L r1 ->
  mm_loop p np ds top bot r0 r1 = Ok (o0, o1) ->
  ntt_poly p L o0 /\ ntt_poly p L o1 /\
  forall w j, (j < n)%nat -> cong m (at_ j o0 + w * at_ j o1)
    (at_ j r0 + w * at_ j r1 + zsum (length top) (fun i => ev (dig ds i) j * (at_ j (nth i top []) + w * at_ j (nth i bot [])))).
Proof.
  induction top as [|a top IH]; intros ds bot r0 r1 o0 o1 Lb Ld Hd Ft Fb H0 H1 E; cbn [mm_loop] in E.
  - injection E as <- <-. split; [exact H0|]. split; [exact H1|]. intros w j Hj. cbn. apply cong_eq. ring.
  - destruct bot as [|b bot]; [discriminate|]. destruct ds as [|d ds]; [discriminate|].
    inversion_clear Ft as [|? ? Ha Ft']. inversion_clear Fb as [|? ? Hb Fb'].
    destruct (Hd 0%nat ltac:(cbn; lia)) as [Ld0 Sd0]. cbn [nth] in Ld0, Sd0.
    destruct (forward_holds p G L np X NG d (dig (d :: ds) 0) Ld0 Sd0) as (x & Ex & Hx & _).
    { intros i Hi. unfold dig. cbn [nth]. rewrite stored_val; [reflexivity|exact G|]. rewrite Forall_forall in Sd0. apply Sd0, nth_In. lia. }
    rewrite Ex in E. cbn [bind] in E. destruct (of_holds p L x _ Hx) as [Nx Vx].
    destruct (poly_fused_mul_add p r0 x a) as [r0'| |] eqn:E0; try discriminate. cbn [bind] in E.
    destruct (poly_fused_mul_add p r1 x b) as [r1'| |] eqn:E1; try discriminate. cbn [bind] in E.
    destruct (fused_result p L np C r0 x a r0' H0 Nx Ha E0) as [N0 V0].
    destruct (fused_result p L np C r1 x b r1' H1 Nx Hb E1) as [N1 V1].
    destruct (IH ds bot r0' r1' o0 o1 ltac:(cbn in Lb; lia) ltac:(cbn in Ld; lia)) as (O0 & O1 & V); try assumption.
    { intros i Hi. apply (Hd (S i)). cbn. lia. }
    split; [exact O0|]. split; [exact O1|]. intros w j Hj. rewrite (V w j Hj), (V0 j Hj), (V1 j Hj), (Vx j Hj).
    cbn [length]. rewrite zsum_first. cbn [nth]. change (dig (d :: ds) 0) with (dig [d] 0).
    apply cong_eq. rewrite (zsum_ext (length top) (fun i => ev (dig (d :: ds) (S i)) j * (at_ j (nth i top []) + w * at_ j (nth i bot [])))
      (fun i => ev (dig ds i) j * (at_ j (nth i top []) + w * at_ j (nth i bot [])))) by reflexivity. ring.
Qed.

Lemma mm_loop_defined top : fused_total p L -> forall ds bot r0 r1,
  length bot = length top -> length ds = length top ->
  (forall i, (i < length top)%nat -> length (nth i ds []) = n /\ Forall (stored p) (nth i ds [])) ->
  Forall (ntt_poly p L) top -> Forall (ntt_poly p L) bot -> ntt_poly p L r0 -> ntt_poly p L r1 ->
  exists o, mm_loop p np ds top bot r0 r1 = Ok o.
Proof.
  intros T. induction top as [|a top IH]; intros ds bot r0 r1 Lb Ld Hd Ft Fb H0 H1; cbn [mm_loop]; [eexists; reflexivity|].
  destruct bot as [|b bot]; [discriminate|]. destruct ds as [|d ds]; [discriminate|].
  inversion_clear Ft as [|? ? Ha Ft']. inversion_clear Fb as [|? ? Hb Fb'].
  destruct (Hd 0%nat ltac:(cbn; lia)) as [Ld0 Sd0]. cbn [nth] in Ld0, Sd0.
  destruct (forward_holds p G L np X NG d (dig (d :: ds) 0) Ld0 Sd0) as (x & Ex & Hx & _).
  { intros i Hi. unfold dig. cbn [nth]. rewrite stored_val; [reflexivity|exact G|]. rewrite Forall_forall in Sd0. apply Sd0, nth_In. lia. }
  rewrite Ex. cbn [bind]. destruct (of_holds p L x _ Hx) as [Nx Vx].
  destruct (T r0 x a H0 Nx Ha) as (r0' & E0). rewrite E0. cbn [bind].
  destruct (T r1 x b H1 Nx Hb) as (r1' & E1). rewrite E1. cbn [bind].
  destruct (fused_result p L np C r0 x a r0' H0 Nx Ha E0) as [N0 V0].
  destruct (fused_result p L np C r1 x b r1' H1 Nx Hb E1) as [N1 V1].
  apply IH; try assumption; try (cbn in *; lia). intros i Hi. apply (Hd (S i)). cbn. lia.
Qed.

(** digits of a polynomial *)
Lemma digits_of c lb : ntt_poly p L c -> 1 <= lb <= p_logm p ->
  exists v ds, inverse_ntt_poly p np c = Ok v /\ base_decompose p v lb (Z.to_nat (gadget_size p lb)) = Ok ds /\
    length ds = Z.to_nat (gadget_size p lb) /\
    (forall i, (i < length ds)%nat -> length (nth i ds []) = n /\ Forall (stored p) (nth i ds [])) /\
    (forall i l, (i < length ds)%nat -> (l < n)%nat -> 0 <= dig ds i l < 2 ^ lb) /\
    forall j, (j < n)%nat -> cong m (zsum (length ds) (fun i => ev (dig ds i) j * 2 ^ (Z.of_nat i * lb))) (at_ j c).
Proof.
  intros Hc Hlb. destruct (inverse_coeff p L np c C Hc) as (v & Ev & Lv & Sv & Vv).
  destruct (base_decompose_ok p G lb v Hlb Sv) as (ds & Ed & Ld & Hd & Vd). cbv zeta in *.
  exists v, ds. split; [exact Ev|]. split; [exact Ed|]. split; [exact Ld|]. rewrite Ld.
  assert (St : forall i, (i < Z.to_nat (gadget_size p lb))%nat -> length (nth i ds []) = n /\ Forall (stored p) (nth i ds [])).
  { intros i Hi. destruct (Hd i Hi) as [H1 H2]. split; [congruence|]. eapply Forall_impl; [|exact H2]. intros; apply crep_rep; assumption. }
  assert (DV : forall i l, (i < Z.to_nat (gadget_size p lb))%nat -> (l < n)%nat -> dig ds i l = MontgomeryProofs.val p (nth l (nth i ds []) 0)).
  { intros i l Hi Hl. unfold dig. apply stored_val; [exact G|]. destruct (St i Hi) as [H1 H2]. rewrite Forall_forall in H2. apply H2, nth_In. lia. }
  split; [exact St|]. split.
  - intros i l Hi Hl. rewrite (DV i l Hi Hl). apply Vd; [lia|exact Hi].
  - intros j Hj. rewrite (coeff_at p L np C c j Hc Hj).
    transitivity (ev (fun l => zsum (Z.to_nat (gadget_size p lb)) (fun i => dig ds i l * 2 ^ (Z.of_nat i * lb))) j).
    + apply cong_eq. unfold PolyProofs.ev. rewrite (peval_zsum n _ (fun i l => dig ds i l * 2 ^ (Z.of_nat i * lb))).
      apply zsum_ext. intros i Hi. rewrite (peval_ext n (fun l => dig ds i l * 2 ^ (Z.of_nat i * lb)) (fun l => 2 ^ (Z.of_nat i * lb) * dig ds i l)) by (intros; ring).
      rewrite peval_scale. ring.
    + apply ev_cong. intros l Hl. apply cong_eq. rewrite <- (Vv l Hl).
      rewrite (stored_val p _ G) by (rewrite Forall_forall in Sv; apply Sv, nth_In; lia).
      destruct (Vd l ltac:(lia)) as [_ V]. rewrite <- V. apply zsum_ext. intros i Hi. rewrite (DV i l Hi Hl). reflexivity.
Qed.
End Ctx.

Section Switch.
Variables (k q : Z) (L : nat) (t v : Z) (key : skey).
Hypothesis K : key_ok k q L t key.
Hypothesis Hv : 0 <= v.
Local Notation p := (sk_p key).
Local Notation np := (sk_np key).
Local Notation n := (2 ^ L)%nat.
Local Notation X := (ntt_root p np).
Let C : ctx p L np := key_ctx k q L t key K.

Definition part_noise (lb : Z) : Z := gadget_size p lb * (2 ^ Z.of_nat L * ((2 ^ lb - 1) * (2 * v))).

Lemma part_cols s a dim logT pt : part_ok L t v logT key s a dim pt ->
  Forall (ntt_poly p L) (pt_top pt) /\ Forall (ntt_poly p L) (pt_bot pt).
Proof.
  intros (Lt & Lb & _ & H). split; apply Forall_forall; intros y Hy; apply (In_nth _ _ ([] : poly)) in Hy; destruct Hy as (i & Hi & <-);
    destruct (H i ltac:(lia)) as [[_ F] _]; cbn [column ct_make ct_c] in F; inversion_clear F as [|? ? F1 F2].
  - exact F1.
  - inversion_clear F2. assumption.
Qed.

Lemma apply_part_val s a lb pt c o0 o1 : 1 <= lb <= p_logm p ->
  part_ok L t v lb key s a (Z.to_nat (gadget_size p lb)) pt -> ntt_poly p L c ->
  apply_part pt c p np = Ok (o0, o1) ->
  ntt_poly p L o0 /\ ntt_poly p L o1 /\
  exists E, (forall l, (l < n)%nat -> Z.abs (E l) <= part_noise lb) /\
  forall j, (j < n)%nat -> cong q (at_ p j o0 + ev L X (secret key) j * at_ p j o1)
    (t * ev L X E j + at_ p j c * ev L X s j ^ Z.of_nat a).
Proof.
  intros Hlb HP Hc E. destruct (part_cols _ _ _ _ _ HP) as [Ft Fb]. destruct HP as (Lt & Lb & ET & HP).
  destruct (digits_of p L np C c lb Hc Hlb) as (u & ds & Eu & Ed & Ld & St & Dr & Dv).
  unfold apply_part in E. rewrite Eu in E. cbn [bind] in E. rewrite ET, Lt, Ed in E. cbn [bind] in E.
  unfold matrix_multiply in E. pose proof (gadget_size_ok p lb Hlb) as [S1 _].
  destruct ds as [|d0 ds'] eqn:Eds; [cbn in Ld; lia|]. rewrite <- Eds in *. unfold get in E.
  assert (E0 : nth_error ds 0 = Some d0) by (rewrite Eds; reflexivity). rewrite E0 in E. cbn [bind] in E.
  destruct (St 0%nat ltac:(lia)) as [Ld0 _]. rewrite Eds in Ld0. cbn [nth] in Ld0. rewrite Ld0 in E.
  destruct (zero_at p L np C) as (z & Ez & Hz & Vz). rewrite Ez in E. cbn [bind] in E.
  destruct (mm_loop_val p L np C (pt_top pt) ds (pt_bot pt) z z o0 o1 ltac:(congruence) ltac:(congruence)) as (O0 & O1 & V); try assumption.
  { intros i Hi. apply St. lia. }
  split; [exact O0|]. split; [exact O1|].
  destruct (choose_gen (fun _ : nat => 0) (fun i e => (forall l, (l < n)%nat -> Z.abs (e l) <= 2 * v) /\
      carries L key (column p pt i) (fun l => t * e l + 2 ^ (Z.of_nat i * lb) * npow n s a l)) (Z.to_nat (gadget_size p lb))) as (e & He).
  { intros i Hi. destruct (HP i Hi) as [_ (e & H)]. exists e. exact H. }
  exists (fun l => zsum (length ds) (fun i => negacyclic n (dig p ds i) (e i) l)). split.
  - intros l Hl. eapply Z.le_trans; [apply zsum_abs|]. unfold part_noise. cbv beta.
    replace (gadget_size p lb) with (Z.of_nat (length ds)) by (rewrite Ld, Z2Nat.id; lia).
    rewrite <- zsum_const. apply zsum_le. intros i Hi.
    replace (2 ^ Z.of_nat L) with (Z.of_nat n) by (rewrite Nat2Z.inj_pow; reflexivity).
    assert (0 < 2 ^ lb) by (apply Z.pow_pos_nonneg; lia).
    apply negacyclic_bound; [lia|lia| | |exact Hl].
    + intros l' Hl'. specialize (Dr i l' Hi Hl'). lia.
    + intros l' Hl'. apply (proj1 (He i ltac:(lia))), Hl'.
  - intros j Hj. pose proof (key_q k q L t key K) as Eq. rewrite <- Eq. rewrite (V _ j Hj), (Vz j Hj).
    set (w := ev L X (secret key) j). set (W := ev L X s j ^ Z.of_nat a).
    assert (Cl : forall i, (i < length ds)%nat -> cong (p_m p) (at_ p j (nth i (pt_top pt) []) + w * at_ p j (nth i (pt_bot pt) []))
       (t * ev L X (e i) j + 2 ^ (Z.of_nat i * lb) * W)).
    { intros i Hi. destruct (HP i ltac:(lia)) as [Oc _]. destruct (He i ltac:(lia)) as [_ Hc'].
      pose proof (proj1 (carries_at k q L t key K _ _ Oc) Hc' j Hj) as H. cbn [column ct_make ct_c hv] in H. fold w in H.
      rewrite <- Eq in H. rewrite ev_add, ev_scale, ev_scale, (ev_npow p L np C) in H. fold W in H.
      rewrite <- H. apply cong_eq. ring. }
    rewrite Lt, <- Ld. 
    rewrite (zsum_cong (p_m p) (length ds) _ (fun i => t * (ev L X (dig p ds i) j * ev L X (e i) j) +
        W * (ev L X (dig p ds i) j * 2 ^ (Z.of_nat i * lb)))).
    2:{ intros i Hi. rewrite (Cl i Hi). apply cong_eq. ring. }
    rewrite zsum_add, !zsum_mul_l. rewrite (Dv j Hj).
    assert (EE : cong (p_m p) (ev L X (fun l => zsum (length ds) (fun i => negacyclic n (dig p ds i) (e i) l)) j)
       (zsum (length ds) (fun i => ev L X (dig p ds i) j * ev L X (e i) j))).
    { unfold PolyProofs.ev at 1. rewrite (peval_zsum n _ (fun i l => negacyclic n (dig p ds i) (e i) l)).
      apply zsum_cong. intros i Hi. apply (ev_mul p L np X (proj2 C)). }
    rewrite EE. apply cong_eq. ring.
Qed.

Lemma apply_part_defined s a lb pt c : k <> 16 -> 1 <= lb <= p_logm p ->
  part_ok L t v lb key s a (Z.to_nat (gadget_size p lb)) pt -> ntt_poly p L c ->
  exists o, apply_part pt c p np = Ok o.
Proof.
  intros Hk Hlb HP Hc. destruct (part_cols _ _ _ _ _ HP) as [Ft Fb]. destruct HP as (Lt & Lb & ET & HP).
  destruct (digits_of p L np C c lb Hc Hlb) as (u & ds & Eu & Ed & Ld & St & Dr & Dv).
  unfold apply_part. rewrite Eu. cbn [bind]. rewrite ET, Lt, Ed. cbn [bind].
  unfold matrix_multiply. pose proof (gadget_size_ok p lb Hlb) as [S1 _].
  destruct ds as [|d0 ds'] eqn:Eds; [cbn in Ld; lia|]. rewrite <- Eds in *. unfold get.
  assert (E0 : nth_error ds 0 = Some d0) by (rewrite Eds; reflexivity). rewrite E0. cbn [bind].
  destruct (St 0%nat ltac:(lia)) as [Ld0 _]. rewrite Eds in Ld0. cbn [nth] in Ld0. rewrite Ld0.
  destruct (zero_at p L np C) as (z & Ez & Hz & Vz). rewrite Ez. cbn [bind].
  apply (mm_loop_defined p L np C); try assumption; try congruence.
  - apply (fused_total_k p L np C). rewrite (key_k k q L t key K). exact Hk.
  - intros i Hi. apply St. lia.
Qed.

Lemma component_ok x i : ct_ok L key x -> 0 <= i < Z.of_nat (length (ct_c x)) ->
  ct_component x i = Ok (nth (Z.to_nat i) (ct_c x) []) /\ ntt_poly p L (nth (Z.to_nat i) (ct_c x) []).
Proof.
  intros [_ F] Hi. unfold ct_component. destruct (Z.gtb_spec 0 i); [lia|]. rewrite Z.geb_leb. destruct (Z.leb_spec (Z.of_nat (length (ct_c x))) i); [lia|].
  cbn [orb]. split; [apply (TranscriptionProofs.get_ok (ct_c x) (Z.to_nat i) ([] : poly)); lia|].
  rewrite Forall_forall in F. apply F, nth_In. lia.
Qed.

Lemma apply_loop_val s lb x : ct_ok L key x -> 1 <= lb <= p_logm p -> forall parts idx r0 r1 o0 o1,
  0 <= idx -> idx + Z.of_nat (length parts) <= Z.of_nat (length (ct_c x)) ->
  (forall j pt, nth_error parts j = Some pt -> part_ok L t v lb key s (Z.to_nat idx + j) (Z.to_nat (gadget_size p lb)) pt) ->
  ntt_poly p L r0 -> ntt_poly p L r1 ->
  apply_loop p np parts x idx r0 r1 = Ok (o0, o1) ->
  ntt_poly p L o0 /\ ntt_poly p L o1 /\
  exists E, (forall l, (l < n)%nat -> Z.abs (E l) <= Z.of_nat (length parts) * part_noise lb) /\
  forall j, (j < n)%nat -> cong q (at_ p j o0 + ev L X (secret key) j * at_ p j o1)
    (at_ p j r0 + ev L X (secret key) j * at_ p j r1 + t * ev L X E j +
     zsum (length parts) (fun i => at_ p j (nth (Z.to_nat idx + i) (ct_c x) []) * ev L X s j ^ Z.of_nat (Z.to_nat idx + i))).
Proof.
  intros Hx Hlb. induction parts as [|pt parts IH]; intros idx r0 r1 o0 o1 Hi Hlen HP H0 H1 E; cbn [apply_loop] in E.
  - injection E as <- <-. split; [exact H0|]. split; [exact H1|]. exists (fun _ => 0). split; [intros; cbn; lia|].
    intros j Hj. rewrite ev_zero. cbn. apply cong_eq. ring.
  - cbn [length] in Hlen. destruct (component_ok x idx Hx ltac:(lia)) as [Ec Hc]. rewrite Ec in E. cbn [bind] in E.
    destruct (apply_part pt (nth (Z.to_nat idx) (ct_c x) []) p np) as [[a b]| |] eqn:Ea; try discriminate. cbn [bind] in E.
    destruct (apply_part_val s (Z.to_nat idx + 0) lb pt _ a b Hlb (HP 0%nat pt eq_refl) Hc Ea) as (Na & Nb & E1 & B1 & V1).
    destruct (add_pw p L np C r0 a H0 Na) as (r0' & A0 & N0 & V0). rewrite A0 in E. cbn [bind] in E.
    destruct (add_pw p L np C r1 b H1 Nb) as (r1' & A1 & N1 & V1'). rewrite A1 in E. cbn [bind] in E.
    destruct (IH (idx + 1) r0' r1' o0 o1 ltac:(lia) ltac:(lia)) as (O0 & O1 & E2 & B2 & V2); try assumption.
    { intros j pt' Hj. replace (Z.to_nat (idx + 1) + j)%nat with (Z.to_nat idx + S j)%nat by lia. apply HP. exact Hj. }
    split; [exact O0|]. split; [exact O1|]. exists (fun l => E1 l + E2 l). split.
    + intros l Hl. specialize (B1 l Hl). specialize (B2 l Hl). cbn [length]. lia.
    + intros j Hj. rewrite (V2 j Hj). pose proof (key_q k q L t key K) as Eq. rewrite <- Eq. rewrite (V0 j Hj), (V1' j Hj).
      specialize (V1 j Hj). rewrite <- Eq in V1. cbn [length]. rewrite zsum_first, ev_add.
      replace (Z.to_nat (idx + 1)) with (S (Z.to_nat idx)) by lia.
      rewrite (zsum_ext (length parts) (fun i => at_ p j (nth (S (Z.to_nat idx) + i) (ct_c x) []) * ev L X s j ^ Z.of_nat (S (Z.to_nat idx) + i))
        (fun i => at_ p j (nth (Z.to_nat idx + S i) (ct_c x) []) * ev L X s j ^ Z.of_nat (Z.to_nat idx + S i)))
        by (intros i _; rewrite !Nat.add_succ_r; reflexivity).
      set (Sm := zsum (length parts) _). set (w := ev L X (secret key) j) in *.
      transitivity (at_ p j r0 + w * at_ p j r1 + (at_ p j a + w * at_ p j b) + t * ev L X E2 j + Sm); [apply cong_eq; ring|].
      rewrite V1. rewrite !Nat.add_0_r. apply cong_eq. ring.
Qed.

Lemma apply_loop_defined s lb x : k <> 16 -> ct_ok L key x -> 1 <= lb <= p_logm p -> forall parts idx r0 r1,
  0 <= idx -> idx + Z.of_nat (length parts) <= Z.of_nat (length (ct_c x)) ->
  (forall j pt, nth_error parts j = Some pt -> part_ok L t v lb key s (Z.to_nat idx + j) (Z.to_nat (gadget_size p lb)) pt) ->
  ntt_poly p L r0 -> ntt_poly p L r1 -> exists o, apply_loop p np parts x idx r0 r1 = Ok o.
Proof.
  intros Hk Hx Hlb. induction parts as [|pt parts IH]; intros idx r0 r1 Hi Hlen HP H0 H1; cbn [apply_loop]; [eexists; reflexivity|].
  cbn [length] in Hlen. destruct (component_ok x idx Hx ltac:(lia)) as [Ec Hc]. rewrite Ec. cbn [bind].
  destruct (apply_part_defined s _ lb pt _ Hk Hlb (HP 0%nat pt eq_refl) Hc) as ([a b] & Ea). rewrite Ea. cbn [bind].
  destruct (apply_part_val s (Z.to_nat idx + 0) lb pt _ a b Hlb (HP 0%nat pt eq_refl) Hc Ea) as (Na & Nb & _).
  destruct (add_pw p L np C r0 a H0 Na) as (r0' & -> & N0 & V0). cbn [bind].
  destruct (add_pw p L np C r1 b H1 Nb) as (r1' & -> & N1 & V1'). cbn [bind].
  apply IH; try assumption; try lia.
  intros j pt' Hj. replace (Z.to_nat (idx + 1) + j)%nat with (Z.to_nat idx + S j)%nat by lia. apply HP. exact Hj.
Qed.

Lemma int32_small z : - 2 ^ 31 <= z < 2 ^ 31 -> int32 z = z.
Proof. intros H. unfold int32. rewrite Z.mod_small by lia. lia. Qed.

Lemma first_small rk : relin_ok L t v key rk -> rk_pow rk < 2 ^ 31 ->
  first_index (rk_pow rk) = (if rk_pow rk =? 1 then 2 else 1) /\ identical_base (rk_pow rk) = (rk_pow rk =? 1).
Proof.
  intros R H. pose proof (ro_pow _ _ _ _ _ R). unfold first_index, identical_base. rewrite int32_small by lia. split; reflexivity.
Qed.

Lemma hv_index w j cs d : (d <= length cs)%nat ->
  hv p w j cs = zsum d (fun i => at_ p j (nth i cs []) * w ^ Z.of_nat i) +
    zsum (length cs - d) (fun i => at_ p j (nth (d + i) cs []) * w ^ Z.of_nat (d + i)).
Proof. intros H. rewrite hv_sum. replace (length cs) with (d + (length cs - d))%nat at 1 by lia. apply FinSum.zsum_split. Qed.

Lemma relin_apply_ok rk x f : relin_ok L t v key rk -> (L <= 29)%nat -> ct_ok L key x ->
  Z.of_nat (length (ct_c x)) = rk_num rk -> carries_under L key (secret_at L key (rk_pow rk)) x f ->
  (k <> 16 -> exists y, relin_apply rk x = Ok y) /\
  forall y, relin_apply rk x = Ok y ->
  ct_ok L key y /\ length (ct_c y) = 2%nat /\ ct_pow y = 1 /\ ct_lazy y = [] /\
  exists E, (forall l, (l < n)%nat -> Z.abs (E l) <= relin_noise L v rk) /\ carries L key y (fun l => f l + t * E l).
Proof.
  intros R HL Hx Hn Hf. set (s := secret_at L key (rk_pow rk)) in *.
  assert (Hp31 : rk_pow rk < 2 ^ 31).
  { pose proof (proj1 (ro_pow _ _ _ _ _ R)). assert (2 ^ Z.of_nat L <= 2 ^ 29) by (apply Z.pow_le_mono_r; lia).
    change (2 ^ 31) with (4 * 2 ^ 29). lia. }
  destruct (first_small rk R Hp31) as [Ef Ei].
  pose proof (ro_p _ _ _ _ _ R) as Rp. pose proof (ro_np _ _ _ _ _ R) as Rnp. pose proof (ro_logT _ _ _ _ _ R) as Hlb.
  pose proof (ro_num _ _ _ _ _ R) as Rn. pose proof (ro_parts _ _ _ _ _ R) as RP. pose proof (ro_each _ _ _ _ _ R) as RE.
  pose proof (key_q k q L t key K) as Eq.
  set (fi := if rk_pow rk =? 1 then 2 else 1) in *.
  assert (Hfi : fi = 1 \/ fi = 2) by (unfold fi; destruct (_ =? _); auto).
  unfold relin_apply. rewrite Rp, Rnp, Ef, Ei. rewrite Z.gtb_ltb. destruct (Z.ltb_spec (rk_num rk) (Z.of_nat (length (ct_c x)))); [lia|].
  destruct (component_ok x fi Hx ltac:(lia)) as [Ec Hc]. rewrite Ec. cbn [bind].
  destruct (rk_parts rk) as [|pt parts] eqn:Ep; [cbn in RP; lia|]. cbn [length] in RP.
  pose proof (RE 0%nat pt eq_refl) as P0. fold s in P0.
  assert (PR : forall j pt', nth_error parts j = Some pt' ->
     part_ok L t v (rk_logT rk) key s (Z.to_nat (fi + 1) + j) (Z.to_nat (gadget_size p (rk_logT rk))) pt').
  { intros j pt' Hj. replace (Z.to_nat (fi + 1) + j)%nat with (Z.to_nat fi + S j)%nat by lia. apply RE. exact Hj. }
  destruct (component_ok x 0 Hx ltac:(lia)) as [Ec0 Hc0]. destruct (component_ok x 1 Hx ltac:(lia)) as [Ec1 Hc1].
  rewrite Ec0. split.
  - intros Hk. destruct (apply_part_defined s _ (rk_logT rk) pt _ Hk Hlb P0 Hc) as ([r0 r1] & E1). rewrite E1. cbn [bind].
    destruct (apply_part_val s _ (rk_logT rk) pt _ r0 r1 Hlb P0 Hc E1) as (N0 & N1 & _).
    destruct (apply_loop_defined s (rk_logT rk) x Hk Hx Hlb parts (fi + 1) r0 r1 ltac:(lia) ltac:(lia) PR N0 N1) as ([o0 o1] & E2).
    rewrite E2. cbn [bind].
    destruct (apply_loop_val s (rk_logT rk) x Hx Hlb parts (fi + 1) r0 r1 o0 o1 ltac:(lia) ltac:(lia) PR N0 N1 E2) as (M0 & M1 & _).
    destruct (add_pw p L np C o0 _ M0 Hc0) as (u0 & -> & _). cbn [bind]. destruct (rk_pow rk =? 1).
    + rewrite Ec1. cbn [bind]. destruct (add_pw p L np C o1 _ M1 Hc1) as (u1 & -> & _). cbn [bind]. eexists. reflexivity.
    + cbn [bind]. eexists. reflexivity.
  - intros y E. destruct (apply_part pt (nth (Z.to_nat fi) (ct_c x) []) p np) as [[r0 r1]| |] eqn:E1; try discriminate. cbn [bind] in E.
    destruct (apply_part_val s _ (rk_logT rk) pt _ r0 r1 Hlb P0 Hc E1) as (N0 & N1 & F1 & B1 & V1).
    destruct (apply_loop p np parts x (fi + 1) r0 r1) as [[o0 o1]| |] eqn:E2; try discriminate. cbn [bind] in E.
    destruct (apply_loop_val s (rk_logT rk) x Hx Hlb parts (fi + 1) r0 r1 o0 o1 ltac:(lia) ltac:(lia) PR N0 N1 E2) as (M0 & M1 & F2 & B2 & V2).
    destruct (add_pw p L np C o0 _ M0 Hc0) as (u0 & EU0 & NU0 & VU0). rewrite EU0 in E. cbn [bind] in E.
    assert (U1 : exists u1, (if rk_pow rk =? 1 then do! c <- ct_component x 1; poly_add p o1 c else Ok o1) = Ok u1 /\ ntt_poly p L u1 /\
      forall j, (j < n)%nat -> cong q (at_ p j u1) (at_ p j o1 + if rk_pow rk =? 1 then at_ p j (nth 1 (ct_c x) []) else 0)).
    { destruct (rk_pow rk =? 1).
      - rewrite Ec1. cbn [bind]. destruct (add_pw p L np C o1 _ M1 Hc1) as (u1 & EU1 & NU1 & VU1). exists u1. rewrite <- Eq. auto.
      - exists o1. split; [reflexivity|]. split; [exact M1|]. intros j Hj. apply cong_eq. ring. }
    destruct U1 as (u1 & EU1 & NU1 & VU1). rewrite EU1 in E. cbn [bind] in E. injection E as <-.
    assert (Oy : ct_ok L key (ct_make p [u0; u1] 1)).
    { split; [reflexivity|]. cbn [ct_make ct_c]. constructor; [exact NU0|]. constructor; [exact NU1|constructor]. }
    split; [exact Oy|]. split; [reflexivity|]. split; [reflexivity|]. split; [reflexivity|].
    exists (fun l => F1 l + F2 l). split.
    { intros l Hl. specialize (B1 l Hl). specialize (B2 l Hl). unfold relin_noise. rewrite Ep, Rp. cbn [length].
      fold (part_noise (rk_logT rk)). lia. }
    apply (carries_at k q L t key K _ _ Oy). intros j Hj. cbn [ct_make ct_c hv]. rewrite ev_add, ev_scale, ev_add.
    destruct Hx as [Px Fx].
    assert (Hs : cong q (hv p (ev L X s j) j (ct_c x)) (ev L X f j)).
    { rewrite <- Eq. apply (pcarries_iff p L np C s (ct_c x) f Fx); [|exact Hj].
      intros i Hi. specialize (Hf i Hi). unfold component in Hf. rewrite Px in Hf. exact Hf. }
    specialize (V1 j Hj). specialize (V2 j Hj). specialize (VU1 j Hj). specialize (VU0 j Hj). rewrite Eq in VU0.
    set (w := ev L X (secret key) j) in *. set (W := ev L X s j) in *.
    transitivity (at_ p j u0 + w * at_ p j u1); [apply cong_eq; ring|]. rewrite VU0, VU1.
    transitivity ((at_ p j o0 + w * at_ p j o1) + at_ p j (nth (Z.to_nat 0) (ct_c x) []) +
      w * (if rk_pow rk =? 1 then at_ p j (nth 1 (ct_c x) []) else 0)); [apply cong_eq; ring|].
    rewrite V2, V1. rewrite <- Hs.
    rewrite (hv_index W j (ct_c x) (Z.to_nat fi)) by lia.
    replace (length (ct_c x) - Z.to_nat fi)%nat with (S (length parts)) by lia. rewrite zsum_first, Nat.add_0_r.
    replace (Z.to_nat (fi + 1)) with (S (Z.to_nat fi)) by lia.
    rewrite (zsum_ext (length parts) (fun i => at_ p j (nth (S (Z.to_nat fi) + i) (ct_c x) []) * W ^ Z.of_nat (S (Z.to_nat fi) + i))
        (fun i => at_ p j (nth (Z.to_nat fi + S i) (ct_c x) []) * W ^ Z.of_nat (Z.to_nat fi + S i)))
        by (intros i _; rewrite !Nat.add_succ_r; reflexivity).
    set (Sm := zsum (length parts) _).
    assert (Pre : cong q (zsum (Z.to_nat fi) (fun i => at_ p j (nth i (ct_c x) []) * W ^ Z.of_nat i))
       (at_ p j (nth (Z.to_nat 0) (ct_c x) []) + w * (if rk_pow rk =? 1 then at_ p j (nth 1 (ct_c x) []) else 0))).
    { unfold fi. destruct (Z.eqb_spec (rk_pow rk) 1) as [E1'|E1'].
      - change (Z.to_nat 2) with 2%nat. change (Z.to_nat 0) with 0%nat. cbn [FinSum.zsum].
        change (Z.of_nat 1) with 1. change (Z.of_nat 0) with 0. rewrite Z.pow_0_r, Z.pow_1_r.
        assert (WW : cong q W w).
        { unfold W, w, s, secret_at. rewrite E1'. change (Z.to_nat 1) with 1%nat. rewrite <- Eq.
          unfold PolyProofs.ev. rewrite peval_substituted; [|apply (n_pos L)|apply (point_root p L np X (proj2 C))].
          change (Z.of_nat 1) with 1. rewrite Z.pow_1_r. reflexivity. }
        rewrite WW. apply cong_eq. ring.
      - change (Z.to_nat 1) with 1%nat. change (Z.to_nat 0) with 0%nat. cbn [FinSum.zsum].
        change (Z.of_nat 0) with 0. rewrite Z.pow_0_r. apply cong_eq. ring. }
    rewrite Pre. apply cong_eq. ring.
Qed.

Lemma relin_apply_wrong_length rk x : relin_ok L t v key rk -> (L <= 29)%nat -> ct_ok L key x ->
  Z.of_nat (length (ct_c x)) > rk_num rk -> relin_apply rk x = Err InvalidArgument.
Proof. intros R HL Hx Hn. unfold relin_apply. destruct (Z.gtb_spec (Z.of_nat (length (ct_c x))) (rk_num rk)); [reflexivity|lia]. Qed.

Lemma relin_apply_short rk x : relin_ok L t v key rk -> (L <= 29)%nat -> ct_ok L key x ->
  Z.of_nat (length (ct_c x)) < rk_num rk ->
  (forall y, relin_apply rk x <> Ok y) /\ (k <> 16 -> relin_apply rk x = Err InvalidArgument).
Proof.
  intros R HL Hx Hn.
  assert (Hp31 : rk_pow rk < 2 ^ 31).
  { pose proof (proj1 (ro_pow _ _ _ _ _ R)). assert (2 ^ Z.of_nat L <= 2 ^ 29) by (apply Z.pow_le_mono_r; lia).
    change (2 ^ 31) with (4 * 2 ^ 29). lia. }
  destruct (first_small rk R Hp31) as [Ef Ei].
  pose proof (ro_p _ _ _ _ _ R) as Rp. pose proof (ro_np _ _ _ _ _ R) as Rnp. pose proof (ro_logT _ _ _ _ _ R) as Hlb.
  pose proof (ro_num _ _ _ _ _ R) as Rn. pose proof (ro_parts _ _ _ _ _ R) as RP. pose proof (ro_each _ _ _ _ _ R) as RE.
  set (fi := if rk_pow rk =? 1 then 2 else 1) in *.
  assert (Hfi : fi = 1 \/ fi = 2) by (unfold fi; destruct (_ =? _); auto).
  unfold relin_apply. rewrite Rp, Rnp, Ef. rewrite Z.gtb_ltb. destruct (Z.ltb_spec (rk_num rk) (Z.of_nat (length (ct_c x)))); [lia|].
  assert (Comp : forall i, Z.of_nat (length (ct_c x)) <= i -> ct_component x i = Err InvalidArgument).
  { intros i Hi. unfold ct_component. rewrite Z.geb_leb. destruct (Z.leb_spec (Z.of_nat (length (ct_c x))) i); [|lia].
    rewrite Bool.orb_true_r. reflexivity. }
  destruct (Z_lt_dec fi (Z.of_nat (length (ct_c x)))) as [Hl|Hl].
  2:{ rewrite (Comp fi ltac:(lia)). cbn [bind]. split; [discriminate|reflexivity]. }
  destruct (component_ok x fi Hx ltac:(lia)) as [Ec Hc]. rewrite Ec. cbn [bind].
  destruct (rk_parts rk) as [|pt parts] eqn:Ep; [cbn in RP; lia|]. cbn [length] in RP.
  pose proof (RE 0%nat pt eq_refl) as P0.
  assert (PR : forall j pt', nth_error parts j = Some pt' ->
     part_ok L t v (rk_logT rk) key (secret_at L key (rk_pow rk)) (Z.to_nat (fi + 1) + j) (Z.to_nat (gadget_size p (rk_logT rk))) pt').
  { intros j pt' Hj. replace (Z.to_nat (fi + 1) + j)%nat with (Z.to_nat fi + S j)%nat by lia. apply RE. exact Hj. }
  assert (Short : forall parts idx r0 r1, 0 <= idx -> ntt_poly p L r0 -> ntt_poly p L r1 ->
    Z.of_nat (length (ct_c x)) < idx + Z.of_nat (length parts) -> idx <= Z.of_nat (length (ct_c x)) ->
    (forall j pt', nth_error parts j = Some pt' ->
       part_ok L t v (rk_logT rk) key (secret_at L key (rk_pow rk)) (Z.to_nat idx + j) (Z.to_nat (gadget_size p (rk_logT rk))) pt') ->
    (forall y, apply_loop p np parts x idx r0 r1 <> Ok y) /\ (k <> 16 -> apply_loop p np parts x idx r0 r1 = Err InvalidArgument)).
  { clear - Hx Hlb Comp K C Hv. induction parts as [|pt parts IH]; intros idx r0 r1 Hi H0 H1 Hlen Hidx HP; cbn [length] in Hlen; [lia|].
    cbn [apply_loop]. destruct (Z.eq_dec idx (Z.of_nat (length (ct_c x)))) as [E|E].
    { rewrite (Comp idx) by lia. cbn [bind]. split; [discriminate|reflexivity]. }
    destruct (component_ok x idx Hx ltac:(lia)) as [Ec Hc]. rewrite Ec. cbn [bind].
    pose proof (HP 0%nat pt eq_refl) as P0.
    destruct (apply_part pt (nth (Z.to_nat idx) (ct_c x) []) p np) as [[a b]| |] eqn:Ea.
    2,3: split; [discriminate|]; intros Hk; exfalso;
      destruct (apply_part_defined _ _ _ _ _ Hk Hlb P0 Hc) as ([a b] & Ea'); rewrite Ea in Ea'; discriminate.
    cbn [bind]. destruct (apply_part_val _ _ _ _ _ a b Hlb P0 Hc Ea) as (Na & Nb & _).
    destruct (add_pw p L np C r0 a H0 Na) as (r0' & -> & N0 & V0). cbn [bind].
    destruct (add_pw p L np C r1 b H1 Nb) as (r1' & -> & N1 & V1'). cbn [bind].
    apply IH; try assumption; try lia.
    intros j pt' Hj. replace (Z.to_nat (idx + 1) + j)%nat with (Z.to_nat idx + S j)%nat by lia. apply HP. exact Hj. }
  destruct (apply_part pt (nth (Z.to_nat fi) (ct_c x) []) p np) as [[a b]| |] eqn:Ea.
  2,3: split; [discriminate|]; intros Hk; exfalso;
      destruct (apply_part_defined _ _ _ _ _ Hk Hlb P0 Hc) as ([a b] & Ea'); rewrite Ea in Ea'; discriminate.
  cbn [bind]. destruct (apply_part_val _ _ _ _ _ a b Hlb P0 Hc Ea) as (Na & Nb & _).
  destruct (Short parts (fi + 1) a b ltac:(lia) Na Nb ltac:(lia) ltac:(lia) PR) as [S1 S2].
  destruct (apply_loop p np parts x (fi + 1) a b) as [y0| |].
  - exfalso. exact (S1 y0 eq_refl).
  - cbn [bind]. split; [discriminate|]. intros Hk. specialize (S2 Hk). injection S2 as ->. reflexivity.
  - cbn [bind]. split; [discriminate|]. intros Hk. specialize (S2 Hk). discriminate.
Qed.

(** substitution composes *)
Lemma pow_mod_2n x e : cong (p_m p) (x ^ Z.of_nat n) (-1) -> 0 <= e ->
  cong (p_m p) (x ^ e) (x ^ (e mod (2 * Z.of_nat n))).
Proof.
  intros H He. pose proof (n_pos L) as Pn. rewrite (Z.div_mod e (2 * Z.of_nat n)) at 1 by lia.
  pose proof (Z.mod_pos_bound e (2 * Z.of_nat n) ltac:(lia)). pose proof (Z.div_pos e (2 * Z.of_nat n) He ltac:(lia)).
  rewrite Z.pow_add_r by nia. rewrite (Z.pow_mul_r x (2 * Z.of_nat n)) by lia. rewrite (Z.mul_comm 2), (Z.pow_mul_r x _ 2) by lia.
  rewrite H. change ((-1) ^ 2) with 1. rewrite Z.pow_1_l by (apply Z.div_pos; lia). rewrite Z.mul_1_l. reflexivity.
Qed.

Lemma secret_comp a b j : 0 < a -> 0 < b -> Z.odd b = true -> (j < n)%nat ->
  cong q (ev L X (substituted n (Z.to_nat b) (secret_at L key a)) j) (ev L X (secret_at L key ((a * b) mod (2 * 2 ^ Z.of_nat L))) j).
Proof.
  intros Ha Hb Ho Hj. rewrite <- (key_q k q L t key K). unfold secret_at, PolyProofs.ev.
  pose proof (n_pos L) as Pn. pose proof (point_root p L np X (proj2 C) j) as PR.
  set (x := point L X j) in *.
  assert (PRb : cong (p_m p) ((x ^ Z.of_nat (Z.to_nat b)) ^ Z.of_nat n) (-1)).
  { rewrite <- Z.pow_mul_r, (Z.mul_comm (Z.of_nat (Z.to_nat b))), Z.pow_mul_r by lia. apply (odd_pow_neg1 p); [exact PR|lia|].
    rewrite Z2Nat.id by lia. exact Ho. }
  rewrite (peval_substituted _ _ _ _ _ Pn PR), (peval_substituted _ _ _ _ _ Pn PRb), (peval_substituted _ _ _ _ _ Pn PR).
  apply peval_x. rewrite <- Z.pow_mul_r by lia. rewrite !Z2Nat.id; [|apply Z.mod_pos_bound; lia|lia|lia].
  replace (2 ^ Z.of_nat L) with (Z.of_nat n) by (rewrite Nat2Z.inj_pow; reflexivity).
  rewrite (pow_mod_2n x (b * a) PR) by nia. rewrite (Z.mul_comm b a). reflexivity.
Qed.

Lemma substitute_ct a b x f : ct_ok L key x -> ct_c x <> [] -> ct_pow x = a -> 0 < a < 2 * 2 ^ Z.of_nat L ->
  0 < b < 2 * 2 ^ Z.of_nat L -> Z.odd b = true -> a * b < 2 ^ 31 -> carries_under L key (secret_at L key a) x f ->
  exists y, ct_substitute np b x = Ok y /\ ct_ok L key y /\ length (ct_c y) = length (ct_c x) /\
    ct_pow y = (a * b) mod (2 * 2 ^ Z.of_nat L) /\ ct_lazy y = [] /\
    carries_under L key (secret_at L key (ct_pow y)) y (substituted n (Z.to_nat b) f).
Proof.
  intros [Px Fx] Hne Hpow Ha Hb Ho Hov Hf.
  assert (En : 2 ^ Z.of_nat L = Z.of_nat n) by (rewrite Nat2Z.inj_pow; reflexivity).
  destruct (substitute_carries p L np C (secret_at L key a) (ct_c x) f b) as (ds & E & Ll & Fd & Hs); try assumption.
  { rewrite <- En. exact Hb. }
  { intros i Hi. specialize (Hf i Hi). unfold component in Hf. rewrite Px in Hf. exact Hf. }
  unfold ct_substitute. rewrite E. cbn [bind]. destruct (ct_c x) as [|c0 cs] eqn:Ec; [contradiction|].
  cbn [get nth_error bind]. rewrite Hpow. inversion_clear Fx as [|? ? H0 _].
  destruct (Z.ltb_spec (a * b) (- 2 ^ 31)); [lia|]. destruct (Z.leb_spec (2 ^ 31) (a * b)); [lia|]. cbn [orb].
  rewrite (proj1 H0). pose proof (n_pos L) as Pn. destruct (Nat.eqb_spec (2 * n) 0) as [Z0|Z0]; [lia|].
  eexists. split; [reflexivity|].
  split; [split; [exact Px|exact Fd]|]. split; [exact Ll|]. cbn [ct_make ct_pow].
  rewrite En. rewrite Z.rem_mod_nonneg by nia. split; [reflexivity|]. split; [reflexivity|].
  intros i Hi. cbn [ct_make ct_c]. unfold component. cbn [ct_make ct_p ct_c]. rewrite Px.
  revert i Hi. change (pcarries p L np (secret_at L key ((a * b) mod (2 * Z.of_nat n))) ds (substituted n (Z.to_nat b) f)).
  apply (pcarries_iff p L np C _ ds _ Fd). intros j Hj.
  pose proof (proj1 (pcarries_iff p L np C _ ds _ Fd) (Hs (substituted n (Z.to_nat b) (secret_at L key a)) (fun i _ => cong_eq _ _ _ eq_refl)) j Hj) as HH1.
  rewrite <- HH1. apply hv_w. symmetry. pose proof (secret_comp a b j ltac:(lia) ltac:(lia) Ho Hj) as HH2.
  rewrite En in HH2. rewrite (key_q k q L t key K). exact HH2.
Qed.

Lemma substitute_overflow b x c0 cs : ct_ok L key x -> ct_c x = c0 :: cs -> 0 < b < 2 * 2 ^ Z.of_nat L -> Z.odd b = true ->
  2 ^ 31 <= ct_pow x * b -> ct_substitute np b x = UB.
Proof.
  intros [Px Fx] Ec Hb Ho Hov.
  assert (En : 2 ^ Z.of_nat L = Z.of_nat n) by (rewrite Nat2Z.inj_pow; reflexivity).
  destruct (substitute_carries p L np C (secret key) (ct_c x) (phase n (secret key) (length (ct_c x)) (fun i => coeff p np (nth i (ct_c x) []))) b) as (ds & E & _); try assumption.
  { rewrite <- En. exact Hb. }
  { intros i Hi. apply cong_eq. reflexivity. }
  unfold ct_substitute. rewrite E. cbn [bind]. rewrite Ec. cbn [get nth_error bind].
  destruct (Z.leb_spec (2 ^ 31) (ct_pow x * b)); [|lia]. rewrite Bool.orb_true_r. reflexivity.
Qed.

End Switch.

(** ** Key generation *)

Lemma substitute_range np (a : poly) power r : poly_substitute np a power = Ok r ->
  0 < power < 2 * Z.of_nat (length a) /\ Z.odd power = true.
Proof.
  unfold poly_substitute. intros E.
  match type of E with (if ?c then _ else _) = _ => destruct c eqn:B end; [discriminate|].
  apply Bool.orb_false_iff in B. destruct B as [B B3]. apply Bool.orb_false_iff in B. destruct B as [B1 B2].
  rewrite Z.geb_leb in B3. apply Z.leb_gt in B3. rewrite Z.gtb_ltb in B1. apply Z.ltb_ge in B1. apply Z.eqb_neq in B2.
  assert (Ho : Z.odd power = true).
  { rewrite Z.rem_mod_nonneg in B2 by lia. rewrite Zmod_odd in B2. destruct (Z.odd power); [reflexivity|contradiction]. }
  split; [|exact Ho]. split; [|exact B3]. destruct (Z.eq_dec power 0) as [->|]; [discriminate|lia].
Qed.

Section Create.
Variables (k q : Z) (L : nat) (t : Z) (key : skey).
Hypothesis EK : enc_key k q L t key.
Hypothesis Hv : 0 <= sk_var key.
Hypothesis Hvq : 2 * sk_var key <= q.
Local Notation v := (sk_var key).
Local Notation p := (sk_p key).
Local Notation np := (sk_np key).
Local Notation n := (2 ^ L)%nat.
Local Notation X := (ntt_root p np).
Let K : key_ok k q L t key := ek_key _ _ _ _ _ EK.
Let C : ctx p L np := key_ctx k q L t key K.
Let G : good p := proj1 C.
Let NG := proj2 C.
Local Notation w := (fun j => ev L X (secret key) j).

Lemma t_export' : export_int p (sk_t key) = t.
Proof. pose proof (ko_t _ _ _ _ _ K) as E. rewrite (ek_pt _ _ _ _ _ EK) in E. exact E. Qed.

Lemma part_loop_val (R E : prng) fuel : prng_ok E -> forall pows s e top bot se,
  Forall (ntt_poly p L) pows ->
  part_loop R E fuel key n pows s e = Ok ((top, bot), se) ->
  length top = length pows /\ length bot = length pows /\ forall i, (i < length pows)%nat ->
  ntt_poly p L (nth i top []) /\ ntt_poly p L (nth i bot []) /\
  exists err, (forall l, (l < n)%nat -> Z.abs (err l) <= 2 * v) /\
    forall j, (j < n)%nat -> cong q (at_ p j (nth i top []) + w j * at_ p j (nth i bot []))
      (t * ev L X err j + at_ p j (nth i pows [])).
Proof.
  intros HE. pose proof (key_q k q L t key K) as Eq. induction pows as [|x pows IH]; intros s e top bot se F E0; cbn [part_loop] in E0.
  - injection E0 as <- <- <-. split; [reflexivity|]. split; [reflexivity|]. cbn. lia.
  - inversion_clear F as [|? ? Hx F']. pose proof (ko_key _ _ _ _ _ K) as Hk.
    unfold sample_orthogonal in E0. rewrite (proj1 Hk) in E0.
    destruct (sample_polynomial R fuel (Z.of_nat n) p s) as [[r s1]| |] eqn:Er; try discriminate. cbn [bind] in E0.
    destruct (sample_polynomial_stored R p _ _ _ _ _ G Er) as (Lr & _ & Rr). rewrite Nat2Z.id in Lr.
    assert (Hr : ntt_poly p L r) by (split; assumption).
    destruct (mul_pw p L np C (sk_key key) Hk r Hr) as (top0 & E1 & N1 & V1). rewrite E1 in E0. cbn [bind fst snd] in E0.
    destruct (neg_pw p L np C top0 N1) as [N2 V2].
    destruct (sample_error E p n v e) as [[err e1]| |] eqn:Ee; try discriminate. cbn [bind] in E0.
    destruct (sample_error_bounded E p n v e err e1 G HE Hv ltac:(lia) Ee) as (_ & Le & Ce & Be).
    assert (Ch : exists f, forall i, (i < n)%nat -> (- (2 * v) <= f i <= 2 * v) /\ export_int p (nth i err 0) = f i mod p_m p).
    { apply (choose_gen 0 (fun i f => (- (2 * v) <= f <= 2 * v) /\ export_int p (nth i err 0) = f mod p_m p)).
      intros i Hi. rewrite Forall_forall in Be. apply (Be (nth i err 0)). apply nth_In. lia. }
    destruct Ch as (f & Hf).
    assert (Se : Forall (stored p) err) by (eapply Forall_impl; [|exact Ce]; intros; apply reduced_stored; assumption).
    destruct (forward_holds p G L np X NG err f Le Se) as (xe & Ex & Hxe & _).
    { intros i Hi. destruct (Hf i Hi) as [_ Hv']. rewrite <- (stored_val p _ G) by (rewrite Forall_forall in Se; apply Se, nth_In; lia).
      rewrite Hv'. apply cong_mod. }
    rewrite Ex in E0. cbn [bind] in E0. destruct (of_holds p L xe _ Hxe) as [Nx Vx].
    destruct (mul_scalar_pw p L np C (sk_t key) (ek_stored _ _ _ _ _ EK) xe Nx) as (x1 & A1 & M1 & W1). rewrite A1 in E0. cbn [bind] in E0.
    destruct (add_pw p L np C x1 _ M1 N2) as (x2 & A2 & M2 & W2). rewrite A2 in E0. cbn [bind] in E0.
    destruct (add_pw p L np C x2 _ M2 Hx) as (x3 & A3 & M3 & W3). rewrite A3 in E0. cbn [bind] in E0.
    destruct (part_loop R E fuel key n pows s1 e1) as [[[tp bt] se']| |] eqn:El; try discriminate. cbn [bind fst snd] in E0.
    injection E0 as <- <- <-. destruct (IH s1 e1 tp bt se' F' El) as (I1 & I2 & I3).
    split; [cbn; congruence|]. split; [cbn; congruence|]. intros [|i] Hi; [|apply I3; cbn in Hi; lia]. cbn [nth].
    split; [exact M3|]. split; [exact Hr|]. exists f. split; [intros l Hl; destruct (Hf l Hl); lia|].
    intros j Hj. rewrite <- Eq. rewrite (W3 j Hj), (W2 j Hj), (V2 j Hj), (V1 j Hj), (W1 j Hj), (Vx j Hj).
    rewrite t_export'. 
    assert (Wj : cong (p_m p) (w j) (at_ p j (sk_key key))) by (symmetry; apply (coeff_at p L np C); [exact Hk|exact Hj]).
    rewrite Wj. apply cong_eq. ring.
Qed.

Lemma powers_val T c : stored p T -> export_int p T = c -> forall dim x pows, ntt_poly p L x ->
  powers_of_t p x T dim = Ok pows -> length pows = dim /\ Forall (ntt_poly p L) pows /\
  forall i j, (i < dim)%nat -> (j < n)%nat -> cong (p_m p) (at_ p j (nth i pows [])) (c ^ Z.of_nat i * at_ p j x).
Proof.
  intros HT <-. induction dim as [|d IH]; intros x pows Hx E0.
  - injection E0 as <-. split; [reflexivity|]. split; [constructor|]. lia.
  - destruct d as [|d].
    + cbn in E0. injection E0 as <-. split; [reflexivity|]. split; [constructor; [exact Hx|constructor]|].
      intros i j Hi Hj. destruct i; [|lia]. cbn [nth]. apply cong_eq. change (Z.of_nat 0) with 0. rewrite Z.pow_0_r. ring.
    + change (powers_of_t p x T (S (S d))) with
        (do! next <- poly_mul_scalar p x T; do! r <- powers_of_t p next T (S d); Ok (x :: r)) in E0.
      destruct (mul_scalar_pw p L np C T HT x Hx) as (x1 & A1 & M1 & W1). rewrite A1 in E0. cbn [bind] in E0.
      destruct (powers_of_t p x1 T (S d)) as [r| |] eqn:Er; try discriminate. cbn [bind] in E0. injection E0 as <-.
      destruct (IH x1 r M1 Er) as (I1 & I2 & I3). split; [cbn [length]; congruence|]. split; [constructor; assumption|].
      intros [|i] j Hi Hj; cbn [nth].
      * apply cong_eq. change (Z.of_nat 0) with 0. rewrite Z.pow_0_r. ring.
      * rewrite (I3 i j ltac:(lia) Hj), (W1 j Hj), Nat2Z.inj_succ, Z.pow_succ_r by lia. apply cong_eq. ring.
Qed.

Lemma import_T logT : 1 <= logT <= p_logm p ->
  stored p (import_int p (2 ^ logT)) /\ cong (p_m p) (export_int p (import_int p (2 ^ logT))) (2 ^ logT).
Proof.
  intros H. pose proof (proj1 (logm_bounds p G)) as Hk.
  assert (R0 : 0 <= 2 ^ logT < 2 ^ p_k p) by (split; [apply Z.pow_nonneg; lia|apply Z.pow_lt_mono_r; lia]).
  pose proof (import_crep p G _ R0) as Hc. split; [apply crep_rep, Hc|].
  rewrite (stored_val p _ G) by (apply crep_rep, Hc). rewrite (import_val p G _ R0). apply cong_mod.
Qed.

Lemma create_loop_val (R E : prng) fuel base logT : prng_ok E -> 1 <= logT <= p_logm p -> ntt_poly p L base ->
  forall sec, (forall j, (j < n)%nat -> cong q (at_ p j base) (ev L X sec j)) ->
  forall count kp i s e parts, 1 <= i -> ntt_poly p L kp ->
  (forall j, (j < n)%nat -> cong q (at_ p j kp) (ev L X sec j ^ Z.max 1 (i - 1))) ->
  create_loop R E fuel key base kp logT (import_int p (2 ^ logT)) (Z.to_nat (gadget_size p logT)) i count s e = Ok parts ->
  length parts = count /\ forall j pt, nth_error parts j = Some pt ->
    part_ok L t v logT key sec (Z.to_nat i + j) (Z.to_nat (gadget_size p logT)) pt.
Proof.
  intros HE Hlb Hb sec Hsec. pose proof (key_q k q L t key K) as Eq. destruct (import_T logT Hlb) as [ST VT].
  induction count as [|c IH]; intros kp i s e parts Hi Hkp Vkp E0; cbn [create_loop] in E0.
  - injection E0 as <-. split; [reflexivity|]. intros [|j] pt Hj; discriminate.
  - assert (Hk' : exists kp', (if i =? 1 then Ok kp else poly_mul p kp base) = Ok kp' /\ ntt_poly p L kp' /\
      forall j, (j < n)%nat -> cong q (at_ p j kp') (ev L X sec j ^ i)).
    { destruct (Z.eqb_spec i 1) as [I1|I1].
      - exists kp. split; [reflexivity|]. split; [exact Hkp|]. intros j Hj. rewrite (Vkp j Hj). subst i. reflexivity.
      - destruct (mul_pw p L np C base Hb kp Hkp) as (kp' & A & N & V). exists kp'. split; [exact A|]. split; [exact N|].
        intros j Hj. rewrite <- Eq. rewrite (V j Hj). rewrite Eq. rewrite (Vkp j Hj), (Hsec j Hj).
        replace (Z.max 1 (i - 1)) with (i - 1) by lia. apply cong_eq. replace i with (Z.succ (i - 1)) at 2 by lia.
        rewrite Z.pow_succ_r by lia. ring. }
    destruct Hk' as (kp' & A & N & V). rewrite A in E0. cbn [bind] in E0. unfold part_create in E0.
    destruct (powers_of_t p kp' _ _) as [pows| |] eqn:Ep; try discriminate. cbn [bind] in E0.
    destruct (powers_val _ _ ST eq_refl _ _ _ N Ep) as (P1 & P2 & P3). rewrite (proj1 N) in E0.
    destruct (part_loop R E fuel key n pows s e) as [[[tp bt] se]| |] eqn:El; try discriminate. cbn [bind fst snd] in E0.
    destruct (create_loop _ _ _ _ _ kp' _ _ _ _ _ _ _) as [r| |] eqn:Er; try discriminate. cbn [bind] in E0. injection E0 as <-.
    destruct (part_loop_val R E fuel HE pows s e tp bt se P2 El) as (L1 & L2 & Q).
    destruct (IH kp' (i + 1) (fst se) (snd se) r ltac:(lia) N) as (I1 & I2).
    { intros j Hj. rewrite (V j Hj). replace (Z.max 1 (i + 1 - 1)) with i by lia. reflexivity. }
    { exact Er. }
    split; [cbn; congruence|]. intros [|j] pt Hj; cbn [nth_error] in Hj.
    2:{ replace (Z.to_nat i + S j)%nat with (Z.to_nat (i + 1) + j)%nat by lia. apply I2, Hj. }
    injection Hj as <-. split; [cbn [pt_top]; congruence|]. split; [cbn [pt_bot]; congruence|]. split; [reflexivity|].
    intros l Hl. rewrite <- P1 in Hl. destruct (Q l Hl) as (N1 & N2 & err & Berr & Verr). cbn [pt_top pt_bot].
    assert (Oc : ct_ok L key (column p {| pt_top := tp; pt_bot := bt; pt_logT := logT |} l)).
    { split; [reflexivity|]. cbn [column ct_make ct_c pt_top pt_bot]. constructor; [exact N1|]. constructor; [exact N2|constructor]. }
    split; [exact Oc|]. exists err. split; [exact Berr|].
    apply (carries_at k q L t key K _ _ Oc). intros j Hj. cbn [column ct_make ct_c pt_top pt_bot hv].
    rewrite ev_add, ev_scale, ev_scale. rewrite <- Eq.
    rewrite (ev_npow p L np C). rewrite Nat.add_0_r.
    specialize (Verr j Hj). rewrite <- Eq in Verr.
    transitivity (at_ p j (nth l tp []) + ev L X (secret key) j * at_ p j (nth l bt [])); [apply cong_eq; ring|].
    rewrite Verr. rewrite (P3 l j ltac:(lia) Hj). specialize (V j Hj). rewrite <- Eq in V. rewrite V.
    rewrite VT. rewrite Z2Nat.id by lia. rewrite <- Z.pow_mul_r by lia. rewrite (Z.mul_comm logT). reflexivity.
Qed.

Lemma int32_range z : - 2 ^ 31 <= int32 z < 2 ^ 31.
Proof. unfold int32. pose proof (Z.mod_pos_bound (z + 2 ^ 31) (2 ^ 32) ltac:(lia)). lia. Qed.
Lemma int32_idem z : int32 (int32 z) = int32 z.
Proof. apply int32_small, int32_range. Qed.

Lemma create_ok (F : genfam) fuel ty num logT power seed seed_e rk : prng_ok (gf_prng F ty) ->
  relin_create F fuel key ty num logT power seed seed_e = Ok rk ->
  relin_ok L t v key rk /\ rk_num rk = num /\ rk_logT rk = logT /\ rk_pow rk = int32 power /\
  rk_seed rk = seed /\ rk_type rk = ty /\ rk_T rk = import_int p (2 ^ logT) /\ rk_dim rk = gadget_size p logT /\ known_type ty = true.
Proof.
  intros HF. unfold relin_create.
  destruct (Z.ltb_spec num (if identical_base power then 3 else 2)) as [A1|A1]; [discriminate|].
  destruct (Z.leb_spec logT 0) as [A2|A2]; [discriminate|]. rewrite Z.gtb_ltb. destruct (Z.ltb_spec (p_logm p) logT) as [A3|A3]; [discriminate|].
  destruct (key_substitute (int32 power) key) as [base| |] eqn:Eb; try discriminate. cbn [bind].
  destruct (known_type ty) eqn:Ek; [|discriminate]. cbn [negb].
  destruct (gf_start F ty seed) as [s| |]; try discriminate. cbn [bind].
  destruct (gf_start F ty seed_e) as [e| |]; try discriminate. cbn [bind].
  destruct (create_loop _ _ _ _ _ _ _ _ _ _ _ _ _) as [parts| |] eqn:El; try discriminate. cbn [bind]. intros E0. injection E0 as <-.
  cbn [rk_num rk_logT rk_pow rk_seed rk_type rk_T rk_dim].
  split; [|repeat (split; [reflexivity|]); reflexivity].
  unfold key_substitute in Eb. destruct (t_word p (sk_logt key)) as [tw| |]; try discriminate. cbn [bind] in Eb.
  destruct (poly_substitute np (sk_key key) (int32 power)) as [sub| |] eqn:Es; try discriminate. cbn [bind] in Eb. injection Eb as <-.
  pose proof (ko_key _ _ _ _ _ K) as Hk. pose proof (key_q k q L t key K) as Eq.
  destruct (substitute_range _ _ _ _ Es) as [Hr Ho]. rewrite (proj1 Hk), Nat2Z.inj_pow in Hr. change (Z.of_nat 2) with 2 in Hr.
  assert (Hr' : 0 < int32 power < 2 * Z.of_nat n) by (rewrite Nat2Z.inj_pow; exact Hr).
  destruct (substitute_holds p L np X NG (sk_key key) (secret key) (int32 power) (poly_holds p L np C _ Hk) Hr' Ho) as (r & Er & Hr2 & _).
  rewrite Es in Er. injection Er as <-. destruct (of_holds p L sub _ Hr2) as [Ns Vs].
  assert (Fi : first_index power = if int32 power =? 1 then 2 else 1) by reflexivity.
  assert (Fp : 1 <= first_index power <= 2) by (rewrite Fi; destruct (_ =? _); lia).
  unfold identical_base in A1.
  assert (A1' : (if int32 power =? 1 then 2 else 1) < num) by (destruct (_ =? _); lia).
  cbn [sk_key] in El.
  destruct (create_loop_val (gf_prng F ty) (gf_prng F ty) fuel sub logT HF ltac:(lia) Ns (substituted n (Z.to_nat (int32 power)) (secret key))) with
    (count := Z.to_nat (num - first_index power)) (kp := sub) (i := first_index power) (s := s) (e := e) (parts := parts) as (Q1 & Q2).
  { intros j Hj. rewrite <- Eq. apply Vs, Hj. }
  { lia. }
  { exact Ns. }
  { intros j Hj. replace (Z.max 1 (first_index power - 1)) with 1 by lia. rewrite Z.pow_1_r, <- Eq. apply Vs, Hj. }
  { exact El. }
  constructor; cbn [rk_p rk_np rk_logT rk_pow rk_num rk_parts].
  - reflexivity.
  - reflexivity.
  - lia.
  - split; assumption.
  - exact A1'.
  - rewrite Q1, Fi. rewrite Z2Nat.id; lia.
  - intros j pt Hj. rewrite <- Fi. apply Q2, Hj.
Qed.

(** ** Serialization of keys *)

Definition good_poly (a : poly) : Prop := Forall (stored p) a /\ (0 < length a)%nat /\ Z.of_nat (length a) <= 2 ^ 15.

Lemma good_ntt a : (L <= 15)%nat -> ntt_poly p L a -> good_poly a.
Proof.
  intros HL [La Ra]. split; [exact Ra|]. rewrite La. split; [apply (n_pos L)|].
  rewrite Nat2Z.inj_pow. apply Z.pow_le_mono_r; lia.
Qed.

Lemma part_deser_val (R E : prng) fuel ser : forall pows s e top bot s' e',
  (forall a, In a top -> poly_deserialize p (ser a) = Ok a) ->
  (forall a, In a top -> length a = length (sk_key key)) ->
  part_loop R E fuel key n pows s e = Ok ((top, bot), (s', e')) ->
  part_deser_loop R fuel p (map ser top) s = Ok ((top, bot), s').
Proof.
  induction pows as [|x pows IH]; intros s e top bot s' e' Hd Hl E0; cbn [part_loop] in E0.
  - injection E0 as <- <- <- <-. reflexivity.
  - unfold sample_orthogonal in E0.
    destruct (sample_polynomial R fuel _ p s) as [[r s1]| |] eqn:Er; try discriminate. cbn [bind] in E0.
    destruct (poly_mul p r (sk_key key)) as [top0| |]; try discriminate. cbn [bind fst snd] in E0.
    destruct (sample_error E p n v e) as [[err e1]| |]; try discriminate. cbn [bind] in E0.
    destruct (convert_to_ntt p np err) as [x0| |]; try discriminate. cbn [bind] in E0.
    destruct (poly_mul_scalar p x0 (sk_t key)) as [x1| |]; try discriminate. cbn [bind] in E0.
    destruct (poly_add p x1 _) as [x2| |]; try discriminate. cbn [bind] in E0.
    destruct (poly_add p x2 x) as [x3| |]; try discriminate. cbn [bind] in E0.
    destruct (part_loop R E fuel key n pows s1 e1) as [[[tp bt] [s2 e2]]| |] eqn:El; try discriminate. cbn [bind fst snd] in E0.
    injection E0 as <- <- <- <-. cbn [map part_deser_loop]. rewrite (Hd x3 (or_introl eq_refl)). cbn [bind].
    rewrite (Hl x3 (or_introl eq_refl)), Er. cbn [bind].
    rewrite (IH s1 e1 tp bt s2 e2) by (try exact El; intros a Ha; first [apply Hd|apply Hl]; right; exact Ha).
    reflexivity.
Qed.

Lemma parts_deser_val (R E : prng) fuel ser base logT T dim : forall count kp i s e parts,
  (forall pt, In pt parts -> length (pt_top pt) = dim /\ forall a, In a (pt_top pt) ->
     poly_deserialize p (ser a) = Ok a /\ length a = length (sk_key key)) ->
  (forall a b c, poly_mul p a b = Ok c -> length a = n -> length b = n -> length c = n) ->
  length base = n -> length kp = n ->
  create_loop R E fuel key base kp logT T dim i count s e = Ok parts ->
  parts_deser R fuel p logT dim count (map ser (flat_map pt_top parts)) s = Ok parts.
Proof.
  induction count as [|c IH]; intros kp i s e parts Hp Hm Hb Hk E0; cbn [create_loop] in E0.
  - injection E0 as <-. reflexivity.
  - destruct (if i =? 1 then @Ok poly kp else poly_mul p kp base) as [kp'| |] eqn:A; try discriminate. cbn [bind] in E0.
    assert (Lk : length kp' = n).
    { destruct (i =? 1); [injection A as <-; exact Hk|]. apply (Hm _ _ _ A); assumption. }
    unfold part_create in E0. destruct (powers_of_t p kp' T dim) as [pows| |]; try discriminate. cbn [bind] in E0. rewrite Lk in E0.
    destruct (part_loop R E fuel key n pows s e) as [[[tp bt] [s' e']]| |] eqn:El; try discriminate. cbn [bind fst snd] in E0.
    destruct (create_loop _ _ _ _ _ kp' _ _ _ _ _ _ _) as [r| |] eqn:Er; try discriminate. cbn [bind] in E0. injection E0 as <-.
    destruct (Hp _ (or_introl eq_refl)) as [L1 D1]. cbn [pt_top] in L1, D1.
    cbn [parts_deser flat_map pt_top]. rewrite map_app.
    rewrite firstn_app, skipn_app, map_length, L1, Nat.sub_diag. cbn [firstn skipn].
    rewrite firstn_all2 by (rewrite map_length; lia). rewrite skipn_all2 by (rewrite map_length; lia). rewrite app_nil_r. cbn [app].
    rewrite (part_deser_val R E fuel ser pows s e tp bt s' e') by (try exact El; intros a Ha; apply D1; exact Ha). cbn [bind fst snd].
    rewrite (IH kp' (i + 1) s' e' r) by (try assumption; intros pt Hpt; apply Hp; right; exact Hpt).
    reflexivity.
Qed.

Lemma seqr_ok {A B} (f : A -> result B) (d : B) (l : list A) : (forall a, In a l -> exists b, f a = Ok b) ->
  seqr (map f l) = Ok (map (fun a => match f a with Ok b => b | _ => d end) l).
Proof.
  induction l as [|a l IH]; intros H; cbn [map seqr]; [reflexivity|].
  destruct (H a (or_introl eq_refl)) as (b & E). rewrite E. cbn [bind]. rewrite IH by (intros; apply H; right; assumption). reflexivity.
Qed.

Lemma flat_length (parts : list part) dim : (forall pt, In pt parts -> length (pt_top pt) = dim) ->
  length (flat_map pt_top parts) = (length parts * dim)%nat.
Proof.
  induction parts as [|a l IH]; intros H; [reflexivity|]. cbn [flat_map length]. rewrite app_length, IH by (intros; apply H; right; assumption).
  rewrite (H a (or_introl eq_refl)). lia.
Qed.

Lemma relin_parts_shape rk : relin_ok L t v key rk ->
  forall pt, In pt (rk_parts rk) -> length (pt_top pt) = Z.to_nat (gadget_size p (rk_logT rk)) /\
    Forall (ntt_poly p L) (pt_top pt) /\ Forall (ntt_poly p L) (pt_bot pt).
Proof.
  intros R pt Hpt. apply In_nth_error in Hpt. destruct Hpt as (j & Hj). pose proof (ro_each _ _ _ _ _ R j pt Hj) as P.
  split; [apply P|]. apply (part_cols L t v key _ _ _ _ _ P).
Qed.

Lemma poly_mul_length a b c : poly_mul p a b = Ok c -> length a = n -> length b = n -> length c = n.
Proof.
  unfold poly_mul, batch_mul. intros E Ha Hb. destruct (same_len a b); [|discriminate].
  assert (E' : c = map2 (mmul p) a b) by congruence. rewrite E'. clear E E'. rewrite <- Ha in *. clear Ha. revert b Hb.
  induction a as [|x a IH]; intros [|y b] Hb; cbn [map2 length] in *; try lia. rewrite IH; lia.
Qed.

Lemma serialize_polys rk : relin_ok L t v key rk -> (L <= 15)%nat ->
  exists ser : poly -> ser_poly, (forall pt a, In pt (rk_parts rk) -> In a (pt_top pt) -> poly_deserialize p (ser a) = Ok a) /\
    relin_serialize rk = Ok {| sr_c := map ser (flat_map pt_top (rk_parts rk)); sr_logT := int32 (rk_logT rk); sr_num := rk_num rk;
       sr_seed := rk_seed rk; sr_type := rk_type rk; sr_pow := rk_pow rk |}.
Proof.
  intros R HL. exists (fun a => match poly_serialize p a with Ok b => b | _ => {| sp_coeffs := []; sp_num := 0 |} end).
  assert (Hall : forall pt a, In pt (rk_parts rk) -> In a (pt_top pt) -> exists s, poly_serialize p a = Ok s /\ poly_deserialize p s = Ok a).
  { intros pt a Hpt Ha. destruct (relin_parts_shape rk R pt Hpt) as (_ & F & _). rewrite Forall_forall in F.
    destruct (good_ntt a HL (F a Ha)) as (S1 & S2 & S3).
    destruct (ThmPoly.C20_serialize k q p a (ko_params _ _ _ _ _ K) S1 S2 S3) as (s & E1 & _ & E2). exists s. split; assumption. }
  split.
  - intros pt a Hpt Ha. destruct (Hall pt a Hpt Ha) as (s & E1 & E2). rewrite E1. exact E2.
  - unfold relin_serialize. rewrite (ro_p _ _ _ _ _ R).
    rewrite (seqr_ok _ {| sp_coeffs := []; sp_num := 0 |}); [reflexivity|].
    intros a Ha. apply in_flat_map in Ha. destruct Ha as (pt & Hpt & Ha). destruct (Hall pt a Hpt Ha) as (s & E1 & _). exists s. exact E1.
Qed.

Lemma relin_round_trip (F : genfam) fuel ty num logT power seed seed_e rk : (L <= 15)%nat -> prng_ok (gf_prng F ty) ->
  relin_create F fuel key ty num logT power seed seed_e = Ok rk ->
  exists sr, relin_serialize rk = Ok sr /\ relin_deserialize F fuel sr p np = Ok rk.
Proof.
  intros HL HF E0. destruct (create_ok F fuel ty num logT power seed seed_e rk HF E0) as (R & E1 & E2 & E3 & E4 & E5 & E6 & E7 & E8).
  destruct (serialize_polys rk R HL) as (ser & Dser & Eser). eexists. split; [exact Eser|].
  unfold relin_deserialize. cbn [sr_c sr_logT sr_num sr_seed sr_type sr_pow].
  pose proof (ro_logT _ _ _ _ _ R) as Hlb. pose proof (ro_num _ _ _ _ _ R) as Hn. pose proof (ro_parts _ _ _ _ _ R) as HP.
  pose proof (proj1 (logm_bounds p G)) as Hm. pose proof (k_pos p G) as Hkp. pose proof (gadget_size_ok p (rk_logT rk) Hlb) as [Hgs _].
  assert (Ei : int32 (rk_logT rk) = rk_logT rk) by (apply int32_small; lia). rewrite Ei.
  assert (Fi : first_index (rk_pow rk) = if rk_pow rk =? 1 then 2 else 1).
  { unfold first_index, identical_base. rewrite E3, int32_idem. reflexivity. }
  rewrite Fi in *. destruct (Z.leb_spec (rk_num rk) (if rk_pow rk =? 1 then 2 else 1)); [lia|]. rewrite <- HP.
  set (np' := length (rk_parts rk)) in *. rewrite map_length.
  rewrite (flat_length _ (Z.to_nat (gadget_size p (rk_logT rk)))) by (intros pt Hpt; apply (relin_parts_shape rk R pt Hpt)).
  fold np'. rewrite Nat2Z.inj_mul, (Z2Nat.id (gadget_size p (rk_logT rk))) by lia.
  rewrite (Z.mul_comm (Z.of_nat np')), Z_mod_mult. cbn [negb Z.eqb].
  destruct (Z.leb_spec (rk_logT rk) 0); [lia|]. rewrite Z.gtb_ltb. destruct (Z.ltb_spec (p_logm p) (rk_logT rk)); [lia|].
  rewrite Z.div_mul by lia. rewrite Z.eqb_refl. cbn [negb]. rewrite E5, E8. cbn [negb].
  unfold relin_create in E0.
  destruct (num <? _); [discriminate|]. destruct (logT <=? 0); [discriminate|]. destruct (logT >? p_logm p); [discriminate|].
  destruct (key_substitute (int32 power) key) as [base| |] eqn:Eb; try discriminate. cbn [bind] in E0. rewrite E8 in E0. cbn [negb] in E0.
  rewrite E4. destruct (gf_start F ty seed) as [s| |]; try discriminate. cbn [bind] in E0 |- *.
  destruct (gf_start F ty seed_e) as [e| |]; try discriminate. cbn [bind] in E0.
  destruct (create_loop _ _ _ _ _ _ _ _ _ _ _ _ _) as [parts| |] eqn:El; try discriminate. cbn [bind] in E0. injection E0 as <-.
  cbn [rk_p rk_np rk_logT rk_pow rk_num rk_parts rk_dim rk_T rk_seed rk_type] in *.
  assert (Lb : length (sk_key base) = n).
  { unfold key_substitute in Eb. destruct (t_word p (sk_logt key)) as [tw| |]; try discriminate. cbn [bind] in Eb.
    destruct (poly_substitute np (sk_key key) (int32 power)) as [sub| |] eqn:Es; try discriminate. cbn [bind] in Eb. injection Eb as <-.
    cbn [sk_key]. pose proof (ko_key _ _ _ _ _ K) as Hk. destruct (substitute_range _ _ _ _ Es) as [Hr Ho]. rewrite (proj1 Hk) in Hr.
    destruct (substitute_holds p L np X NG (sk_key key) (secret key) (int32 power) (poly_holds p L np C _ Hk) Hr Ho) as (r & Er & Hr2 & _).
    rewrite Es in Er. injection Er as <-. apply (of_holds p L sub _ Hr2). }
  assert (Hc : Z.to_nat (num - first_index power) = np').
  { apply Nat2Z.inj. rewrite HP. replace (first_index power) with (if int32 power =? 1 then 2 else 1) by reflexivity.
    apply Z2Nat.id. lia. }
  rewrite Hc in El. rewrite Nat2Z.id.
  rewrite (parts_deser_val _ _ fuel ser _ _ _ _ _ _ _ _ _ _ ) with (5 := El); [reflexivity| | |exact Lb|exact Lb].
  - intros pt Hpt. destruct (relin_parts_shape _ R pt Hpt) as (S1 & S2 & _). split; [exact S1|]. intros a Ha. split; [apply (Dser pt a Hpt Ha)|].
    rewrite Forall_forall in S2. rewrite (proj1 (S2 a Ha)). symmetry. apply (ko_key _ _ _ _ _ K).
  - apply poly_mul_length.
Qed.

(** ** Seed compression *)

Lemma encrypt_expand (R E : prng) fuel : prng_ok E -> forall pts s e c0s s' e',
  Forall (ntt_poly p L) pts ->
  encrypt_with_prng R E fuel key pts s e = Ok (c0s, (s', e')) ->
  exists xs, expand_from_prng R fuel p c0s s = Ok (xs, s') /\ length xs = length pts /\
  forall i, (i < length pts)%nat ->
    let x := nth i xs (ct_empty p) in
    ct_ok L key x /\ length (ct_c x) = 2%nat /\ ct_pow x = 1 /\ ct_lazy x = [] /\
    exists err, (forall l, (l < n)%nat -> Z.abs (err l) <= 2 * v) /\
      carries L key x (fun l => coeff p np (nth i pts []) l + t * err l).
Proof.
  intros HE. pose proof (key_q k q L t key K) as Eq. pose proof (ko_key _ _ _ _ _ K) as Hk.
  induction pts as [|pt pts IH]; intros s e c0s s' e' F E0; cbn [encrypt_with_prng] in E0.
  - injection E0 as <- <- <-. exists []. split; [reflexivity|]. split; [reflexivity|]. cbn. lia.
  - inversion_clear F as [|? ? Hpt F']. rewrite (proj1 Hk) in E0.
    destruct (sample_polynomial R fuel (Z.of_nat n) p s) as [[a s1]| |] eqn:Ea; try discriminate. cbn [bind] in E0.
    destruct (sample_polynomial_stored R p _ _ _ _ _ G Ea) as (La & _ & Ra). rewrite Nat2Z.id in La.
    assert (Ha : ntt_poly p L a) by (split; assumption).
    destruct (encrypt_internal E key pt a e) as [[c0 e1]| |] eqn:Ec; try discriminate. cbn [bind] in E0.
    destruct (encrypt_with_prng R E fuel key pts s1 e1) as [[r [s2 e2]]| |] eqn:Er; try discriminate. cbn [bind] in E0.
    injection E0 as <- <- <-.
    destruct (encrypt_internal_val p L np C E key pt a e c0 e1 eq_refl eq_refl Hk (ek_stored _ _ _ _ _ EK) Hpt Ha HE Hv ltac:(lia) Ec)
      as (_ & err & Berr & Nc & Vc).
    destruct (IH s1 e1 r s2 e2 F' Er) as (xs & X1 & X2 & X3). cbn [expand_from_prng]. rewrite (proj1 Nc), Ea. cbn [bind].
    rewrite X1. cbn [bind]. eexists. split; [reflexivity|]. split; [cbn; congruence|].
    intros [|i] Hi; cbv zeta; cbn [nth]; [|apply X3; cbn in Hi; lia].
    destruct (neg_pw p L np C a Ha) as [Nn Vn].
    assert (Ox : ct_ok L key (ct_make p [c0; poly_neg p a] 1)).
    { split; [reflexivity|]. cbn [ct_make ct_c]. constructor; [exact Nc|]. constructor; [exact Nn|constructor]. }
    split; [exact Ox|]. split; [reflexivity|]. split; [reflexivity|]. split; [reflexivity|].
    exists err. split; [intros l Hl; specialize (Berr l Hl); lia|].
    apply (carries_at k q L t key K _ _ Ox). intros j Hj. cbn [ct_make ct_c hv]. rewrite <- Eq.
    rewrite (Vc j Hj), (Vn j Hj), t_export'.
    assert (Wj : cong (p_m p) (w j) (at_ p j (sk_key key))) by (symmetry; apply (coeff_at p L np C); [exact Hk|exact Hj]).
    cbv beta in Wj. rewrite Wj. apply cong_eq. ring.
Qed.

End Create.
