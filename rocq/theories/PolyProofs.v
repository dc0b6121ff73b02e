(** Polynomials in NTT form represent functions of the evaluation point. *)
From Coq Require Import Arith ArithRing Znumtheory.
From Verif Require Import Base FinSum PolySpec Ring Montgomery MontBatch Ntt Poly ZLemmas
  MontgomeryProofs TranscriptionProofs MontBatchProofs NttIndex NttMath NttProofs.

Section Params.
Variable p : mparams.
Hypothesis G : good p.
Local Notation m := (p_m p).
Local Notation val := (val p).
Local Notation rep := (rep p).
Local Notation crep := (crep p).

(** the n words of [a] have the values F 0, ..., F (n-1) modulo m *)
Definition holds (n : nat) (a : list Z) (F : nat -> Z) : Prop :=
  length a = n /\ Forall rep a /\ forall j, (j < n)%nat -> cong m (val (nth j a 0)) (F j).

Lemma holds_rep n a F j : holds n a F -> (j < n)%nat -> rep (nth j a 0).
Proof. intros (La & Ra & _) Hj. rewrite Forall_forall in Ra. apply Ra, nth_In. lia. Qed.

Lemma holds_val n a F j : holds n a F -> (j < n)%nat -> cong m (val (nth j a 0)) (F j).
Proof. intros (_ & _ & V) Hj. auto. Qed.

Lemma holds_len n a F : holds n a F -> length a = n.
Proof. intros (La & _). exact La. Qed.

Lemma holds_reps n a F : holds n a F -> Forall rep a.
Proof. intros (_ & R & _). exact R. Qed.

Lemma holds_ext n a F H : holds n a F -> (forall j, (j < n)%nat -> cong m (F j) (H j)) -> holds n a H.
Proof.
  intros (La & Ra & V) E. split; [exact La|]. split; [exact Ra|].
  intros j Hj. rewrite (V j Hj). apply E, Hj.
Qed.

Lemma holds_intro n a F : length a = n ->
  (forall j, (j < n)%nat -> rep (nth j a 0) /\ cong m (val (nth j a 0)) (F j)) -> holds n a F.
Proof.
  intros La H. split; [exact La|]. split.
  - apply Forall_nth. intros i d Hi. rewrite nth_indep with (d' := 0) by exact Hi. apply H. lia.
  - intros j Hj. apply H, Hj.
Qed.

Lemma holds_self n a : length a = n -> Forall rep a -> holds n a (fun j => val (nth j a 0)).
Proof. intros La Ra. split; [exact La|]. split; [exact Ra|]. reflexivity. Qed.

Lemma holds_map2 n a b F H (op : Z -> Z -> Z) (f : Z -> Z -> Z) :
  holds n a F -> holds n b H ->
  (forall x y, rep x -> rep y -> rep (op x y) /\ cong m (val (op x y)) (f (val x) (val y))) ->
  (forall x x' y y', cong m x x' -> cong m y y' -> cong m (f x y) (f x' y')) ->
  holds n (map2 op a b) (fun j => f (F j) (H j)).
Proof.
  intros Ha Hb Hop Hf. pose proof (holds_len _ _ _ Ha) as La. pose proof (holds_len _ _ _ Hb) as Lb.
  apply holds_intro; [rewrite map2_length by lia; exact La|].
  intros j Hj. rewrite (nth_map2 op 0 0) by lia.
  destruct (Hop _ _ (holds_rep _ _ _ _ Ha Hj) (holds_rep _ _ _ _ Hb Hj)) as [R V].
  split; [exact R|]. rewrite V. apply Hf; [apply (holds_val _ _ _ _ Ha Hj)|apply (holds_val _ _ _ _ Hb Hj)].
Qed.

Lemma holds_map n a F (op : Z -> Z) (f : Z -> Z) :
  holds n a F ->
  (forall x, rep x -> rep (op x) /\ cong m (val (op x)) (f (val x))) ->
  (forall x x', cong m x x' -> cong m (f x) (f x')) ->
  holds n (map op a) (fun j => f (F j)).
Proof.
  intros Ha Hop Hf. pose proof (holds_len _ _ _ Ha) as La.
  apply holds_intro; [rewrite map_length; exact La|].
  intros j Hj. rewrite (nth_map_any op _ 0) by lia.
  destruct (Hop _ (holds_rep _ _ _ _ Ha Hj)) as [R V].
  split; [exact R|]. rewrite V. apply Hf, (holds_val _ _ _ _ Ha Hj).
Qed.

Lemma madd_cr x y : rep x -> rep y -> crep (madd p x y) /\ cong m (val (madd p x y)) (val x + val y).
Proof. intros. split; [apply madd_crep; assumption|]. rewrite madd_val by assumption. apply cong_mod. Qed.
Lemma msub_cr x y : rep x -> rep y -> crep (msub p x y) /\ cong m (val (msub p x y)) (val x - val y).
Proof. intros. split; [apply msub_crep; assumption|]. rewrite msub_val by assumption. apply cong_mod. Qed.
Lemma mmul_cr x y : rep x -> rep y -> crep (mmul p x y) /\ cong m (val (mmul p x y)) (val x * val y).
Proof. intros. split; [apply mmul_crep; assumption|]. rewrite mmul_val by assumption. apply cong_mod. Qed.

Lemma Forall_map2_crep (op : Z -> Z -> Z) a b : Forall rep a -> Forall rep b ->
  (forall x y, rep x -> rep y -> crep (op x y)) -> Forall crep (map2 op a b).
Proof.
  intros Ha. revert b. induction Ha as [|x t Hx Ht IH]; intros b Hb H; [constructor|].
  destruct Hb as [|y u Hy Hu]; [constructor|]. cbn. constructor; [apply H; assumption|apply IH; assumption].
Qed.

Lemma same_len_true {A B} (a : list A) (b : list B) : length a = length b -> same_len a b = true.
Proof. intros. apply same_len_spec. assumption. Qed.

Lemma add_holds n a b F H : holds n a F -> holds n b H ->
  exists c, poly_add p a b = Ok c /\ holds n c (fun j => F j + H j) /\ Forall crep c.
Proof.
  intros Ha Hb. pose proof (holds_len _ _ _ Ha) as La. pose proof (holds_len _ _ _ Hb) as Lb.
  unfold poly_add, batch_add. rewrite same_len_true by lia. eexists. split; [reflexivity|]. split.
  - apply (holds_map2 n a b F H (madd p) Z.add Ha Hb).
    + intros x y Hx Hy. destruct (madd_cr x y Hx Hy). split; [apply crep_rep|]; assumption.
    + intros x x' y y' E1 E2. rewrite E1, E2. reflexivity.
  - apply Forall_map2_crep; [eapply holds_reps; eauto..|]. intros. apply madd_cr; assumption.
Qed.

Lemma sub_holds n a b F H : holds n a F -> holds n b H ->
  exists c, poly_sub p a b = Ok c /\ holds n c (fun j => F j - H j) /\ Forall crep c.
Proof.
  intros Ha Hb. pose proof (holds_len _ _ _ Ha) as La. pose proof (holds_len _ _ _ Hb) as Lb.
  unfold poly_sub, batch_sub. rewrite same_len_true by lia. eexists. split; [reflexivity|]. split.
  - apply (holds_map2 n a b F H (msub p) Z.sub Ha Hb).
    + intros x y Hx Hy. destruct (msub_cr x y Hx Hy). split; [apply crep_rep|]; assumption.
    + intros x x' y y' E1 E2. rewrite E1, E2. reflexivity.
  - apply Forall_map2_crep; [eapply holds_reps; eauto..|]. intros. apply msub_cr; assumption.
Qed.

Lemma mul_holds n a b F H : holds n a F -> holds n b H ->
  exists c, poly_mul p a b = Ok c /\ holds n c (fun j => F j * H j) /\ Forall crep c.
Proof.
  intros Ha Hb. pose proof (holds_len _ _ _ Ha) as La. pose proof (holds_len _ _ _ Hb) as Lb.
  unfold poly_mul, batch_mul. rewrite same_len_true by lia. eexists. split; [reflexivity|]. split.
  - apply (holds_map2 n a b F H (mmul p) Z.mul Ha Hb).
    + intros x y Hx Hy. destruct (mmul_cr x y Hx Hy). split; [apply crep_rep|]; assumption.
    + intros x x' y y' E1 E2. rewrite E1, E2. reflexivity.
  - apply Forall_map2_crep; [eapply holds_reps; eauto..|]. intros. apply mmul_cr; assumption.
Qed.

Lemma mul_scalar_holds n a F s c : holds n a F -> rep s -> cong m (val s) c ->
  exists r, poly_mul_scalar p a s = Ok r /\ holds n r (fun j => c * F j) /\ Forall crep r.
Proof.
  intros Ha Hs Hc. unfold poly_mul_scalar, batch_mul_scalar. eexists. split; [reflexivity|]. split.
  - apply (holds_map n a F (fun x => mmul p x s) (fun v => c * v) Ha).
    + intros x Hx. destruct (mmul_cr x s Hx Hs) as [C V]. split; [apply crep_rep; exact C|].
      rewrite V, Hc. apply cong_eq. ring.
    + intros x x' E. rewrite E. reflexivity.
  - apply Forall_map. eapply Forall_impl; [|eapply holds_reps; eauto]. intros x Hx. apply mmul_cr; assumption.
Qed.

Lemma neg_holds n a F : holds n a F -> holds n (poly_neg p a) (fun j => - F j).
Proof.
  intros Ha. unfold poly_neg. apply (holds_map n a F (mneg p) Z.opp Ha).
  - intros x Hx. split; [apply mneg_rep; assumption|]. rewrite mneg_val by assumption. apply cong_mod.
  - intros x x' E. rewrite E. reflexivity.
Qed.

Lemma combine_length_eq {A B} (a : list A) (b : list B) : length a = length b ->
  length (combine a b) = length a.
Proof. intros. rewrite combine_length. lia. Qed.

Lemma fused_holds n x a b FX F H r : holds n x FX -> holds n a F -> holds n b H ->
  poly_fused_mul_add p x a b = Ok r ->
  holds n r (fun j => FX j + F j * H j) /\ Forall crep r.
Proof.
  intros Hx Ha Hb E. pose proof (holds_len _ _ _ Hx) as Lx. pose proof (holds_len _ _ _ Ha) as La.
  pose proof (holds_len _ _ _ Hb) as Lb.
  unfold poly_fused_mul_add, batch_fused_mul_add in E.
  rewrite !same_len_true in E by lia. cbn [negb orb] in E.
  assert (Lc : length (combine a b) = n) by (rewrite combine_length_eq; lia).
  apply seqr_inv with (d := 0) in E. destruct E as [Lr E].
  rewrite map2_length in Lr, E by lia.
  assert (K : forall j, (j < n)%nat -> crep (nth j r 0) /\ cong m (val (nth j r 0)) (FX j + F j * H j)).
  { intros j Hj. specialize (E j ltac:(lia)).
    rewrite (nth_map2 _ 0 (0, 0)) in E by lia. rewrite combine_nth in E by lia. cbn [fst snd] in E.
    apply (fused_mul_add_ok p G) in E; [|eapply holds_rep; eauto..].
    destruct E as [C V]. split; [exact C|]. rewrite V, cong_mod.
    rewrite (holds_val _ _ _ _ Hx Hj), (holds_val _ _ _ _ Ha Hj), (holds_val _ _ _ _ Hb Hj). reflexivity. }
  split.
  - apply holds_intro; [lia|]. intros j Hj. destruct (K j Hj). split; [apply crep_rep|]; assumption.
  - apply Forall_nth. intros i d Hi. rewrite nth_indep with (d' := 0) by exact Hi. apply K. lia.
Qed.

Lemma fused_defined n x a b FX F H : p_k p <> 16 -> holds n x FX -> holds n a F -> holds n b H ->
  exists r, poly_fused_mul_add p x a b = Ok r.
Proof.
  intros Hk Hx Ha Hb. pose proof (holds_len _ _ _ Hx) as Lx. pose proof (holds_len _ _ _ Ha) as La.
  pose proof (holds_len _ _ _ Hb) as Lb.
  unfold poly_fused_mul_add, batch_fused_mul_add. rewrite !same_len_true by lia. cbn [negb orb].
  assert (Lc : length (combine a b) = n) by (rewrite combine_length_eq; lia).
  destruct (seqr_ok (map2 (fun x bc => fused_mul_add p x (fst bc) (snd bc)) x (combine a b)) 0) as (r & E & _).
  - intros i Hi. rewrite map2_length in Hi by lia. rewrite (nth_map2 _ 0 (0, 0)) by lia.
    apply fused_mul_add_defined. exact Hk.
  - exists r. exact E.
Qed.

(** constant representations *)
Definition const_of (a : poly) : const_poly :=
  {| cp_c := map (fun x => fst (get_constant p x)) a; cp_cb := map (fun x => snd (get_constant p x)) a |}.

Lemma constants_ok a : poly_constants p a = Ok (const_of a).
Proof. unfold poly_constants, const_poly_create. rewrite same_len_true by (rewrite !map_length; reflexivity). reflexivity. Qed.

Lemma combine_consts a : combine (cp_c (const_of a)) (cp_cb (const_of a)) = map (get_constant p) a.
Proof. induction a as [|x t IH]; [reflexivity|]. unfold const_of in *. cbn [cp_c cp_cb map combine] in *. rewrite IH. destruct (get_constant p x); reflexivity. Qed.

Lemma map2_map_r {A B C D} (f : A -> B -> C) (g : D -> B) l : forall a,
  map2 f a (map g l) = map2 (fun x y => f x (g y)) a l.
Proof. induction l as [|y t IH]; intros [|x a]; cbn; auto. f_equal. apply IH. Qed.

Lemma mul_constant_holds n a b F H : holds n a F -> holds n b H ->
  exists c, poly_mul_constant p a (const_of b) = Ok c /\ holds n c (fun j => F j * H j) /\ Forall crep c.
Proof.
  intros Ha Hb. pose proof (holds_len _ _ _ Ha) as La. pose proof (holds_len _ _ _ Hb) as Lb.
  unfold poly_mul_constant, batch_mul_constant.
  rewrite !same_len_true by (cbn [const_of cp_c cp_cb]; rewrite !map_length; lia). cbn [negb orb].
  eexists. split; [reflexivity|]. rewrite combine_consts, map2_map_r.
  assert (K : forall x y, rep x -> rep y -> crep (mul_constant p x (get_constant p y)) /\
    cong m (val (mul_constant p x (get_constant p y))) (val x * val y)).
  { intros x y Hx Hy. pose proof (rep_word p G x Hx) as Wx. pose proof (rep_word p G y Hy) as Wy.
    pose proof (get_constant_ok p G y Wy) as Cy. split; [eapply mul_constant_crep; eauto|].
    rewrite (mul_constant_val p G x _ _ Wx Cy). apply cong_mod. }
  split.
  - apply (holds_map2 n a b F H _ Z.mul Ha Hb).
    + intros x y Hx Hy. destruct (K x y Hx Hy). split; [apply crep_rep|]; assumption.
    + intros x x' y y' E1 E2. rewrite E1, E2. reflexivity.
  - apply Forall_map2_crep; [eapply holds_reps; eauto..|]. intros. apply K; assumption.
Qed.

Lemma fused_constant_holds n x a b FX F H : holds n x FX -> holds n a F -> holds n b H ->
  exists c, poly_fused_mul_constant_add p x a (const_of b) = Ok c /\
    holds n c (fun j => FX j + F j * H j) /\ Forall crep c.
Proof.
  intros Hx Ha Hb. pose proof (holds_len _ _ _ Hx) as Lx. pose proof (holds_len _ _ _ Ha) as La.
  pose proof (holds_len _ _ _ Hb) as Lb.
  unfold poly_fused_mul_constant_add, batch_fused_mul_constant_add.
  rewrite !same_len_true by (cbn [const_of cp_c cp_cb]; rewrite ?map_length; lia). cbn [negb orb].
  eexists. split; [reflexivity|]. rewrite combine_consts.
  assert (Lc : length (combine a (map (get_constant p) b)) = n) by (rewrite combine_length_eq; rewrite ?map_length; lia).
  assert (K : forall j, (j < n)%nat ->
    let o := nth j (map2 (fun x0 bc => fused_mul_constant_add p x0 (fst bc) (snd bc)) x
      (combine a (map (get_constant p) b))) 0 in
    crep o /\ cong m (val o) (FX j + F j * H j)).
  { intros j Hj. cbv zeta. rewrite (nth_map2 _ 0 (0, (0, 0))) by lia.
    rewrite combine_nth by (rewrite map_length; lia). cbn [fst snd].
    rewrite (nth_map_any (get_constant p) _ 0) by lia.
    pose proof (holds_rep _ _ _ _ Hx Hj) as Rx. pose proof (holds_rep _ _ _ _ Ha Hj) as Ra.
    pose proof (holds_rep _ _ _ _ Hb Hj) as Rb.
    pose proof (get_constant_ok p G _ (rep_word p G _ Rb)) as Cb.
    split; [eapply fused_mul_constant_add_crep; eauto|].
    rewrite (fused_mul_constant_add_val p G _ _ _ _ Rx Ra Cb), cong_mod.
    rewrite (holds_val _ _ _ _ Hx Hj), (holds_val _ _ _ _ Ha Hj), (holds_val _ _ _ _ Hb Hj). reflexivity. }
  split.
  - apply holds_intro; [rewrite map2_length by lia; exact Lx|]. intros j Hj. destruct (K j Hj).
    split; [apply crep_rep|]; assumption.
  - apply Forall_nth. intros i d Hi. rewrite nth_indep with (d' := 0) by exact Hi.
    rewrite map2_length in Hi by lia. apply K. lia.
Qed.

Lemma zero_holds n : holds n (repeat (import_zero p) n) (fun _ => 0).
Proof.
  pose proof (m_gt1 p G). apply holds_intro; [apply repeat_length|]. intros j Hj.
  rewrite nth_indep with (d' := import_zero p) by (rewrite repeat_length; exact Hj). rewrite nth_repeat.
  split; [unfold MontgomeryProofs.rep, import_zero; lia|]. rewrite zero_val by exact G. reflexivity.
Qed.

(** ** Transforms *)

Section Transform.
Variables (L : nat) (np : nttp) (X : Z).
Hypothesis NG : ntt_good p L np X.
Local Notation n := (2 ^ L)%nat.

Definition point (j : nat) : Z := X ^ Z.of_nat (2 * bitrev j L + 1).
Definition ev (f : nat -> Z) (j : nat) : Z := peval n f (point j).

Lemma pow_odd_root e : cong m ((X ^ Z.of_nat (2 * e + 1)) ^ Z.of_nat n) (-1).
Proof.
  rewrite <- Z.pow_mul_r by lia. rewrite Z.mul_comm, Z.pow_mul_r by lia.
  rewrite (ng_root p L np X NG). rewrite Nat2Z.inj_add, Z.pow_add_r by lia.
  rewrite Nat2Z.inj_mul, Z.pow_mul_r by lia. change ((-1) ^ Z.of_nat 2) with 1.
  rewrite Z.pow_1_l by lia. apply cong_eq. reflexivity.
Qed.

Lemma point_root j : cong m (point j ^ Z.of_nat n) (-1).
Proof. apply pow_odd_root. Qed.

Lemma n_pos : (0 < n)%nat.
Proof. apply pow2_gt0. Qed.

Lemma ev_add f g j : ev (fun i => f i + g i) j = ev f j + ev g j.
Proof. apply peval_add. Qed.
Lemma ev_sub f g j : ev (fun i => f i - g i) j = ev f j - ev g j.
Proof. apply peval_sub. Qed.
Lemma ev_opp f j : ev (fun i => - f i) j = - ev f j.
Proof. apply peval_opp. Qed.
Lemma ev_scale c f j : ev (fun i => c * f i) j = c * ev f j.
Proof. apply peval_scale. Qed.
Lemma ev_const c j : ev (pconst c) j = c.
Proof. apply peval_const, n_pos. Qed.
Lemma ev_zero j : ev (fun _ => 0) j = 0.
Proof. apply peval_zero. Qed.
Lemma ev_mul f g j : cong m (ev (negacyclic n f g) j) (ev f j * ev g j).
Proof. apply peval_negacyclic, point_root. Qed.
Lemma ev_cong f g j : (forall i, (i < n)%nat -> cong m (f i) (g i)) -> cong m (ev f j) (ev g j).
Proof. apply peval_cong. Qed.
Lemma ev_ext f g j : (forall i, (i < n)%nat -> f i = g i) -> ev f j = ev g j.
Proof. apply peval_ext. Qed.

Lemma forward_holds v f : length v = n -> Forall rep v ->
  (forall i, (i < n)%nat -> cong m (val (nth i v 0)) (f i)) ->
  exists a, convert_to_ntt p np v = Ok a /\ holds n a (ev f) /\ Forall crep a.
Proof.
  intros Lv Rv Hf. destruct (forward_eval p G L np X NG v Lv Rv) as (o & E & Lo & Co & Vo).
  exists o. pose proof n_pos. split.
  - unfold convert_to_ntt. rewrite E. destruct o; [cbn in Lo; lia|reflexivity].
  - split; [|exact Co]. split; [exact Lo|]. split.
    + eapply Forall_impl; [|exact Co]. intros; apply crep_rep; assumption.
    + intros j Hj. rewrite (Vo j Hj). unfold ev, peval, point. apply zsum_cong. intros i Hi.
      rewrite (Hf i Hi). reflexivity.
Qed.

Lemma import_reps f : let v := map (fun i => import_int p (f i mod m)) (seq 0 n) in
  length v = n /\ Forall crep v /\ forall i, (i < n)%nat -> val (nth i v 0) = f i mod m.
Proof.
  cbv zeta. pose proof (m_gt1 p G) as M. pose proof (m4 p G) as M4.
  assert (B : forall x, 0 <= x mod m < 2 ^ p_k p).
  { intros x. pose proof (Z.mod_pos_bound x m ltac:(lia)). lia. }
  split; [rewrite map_length, seq_length; reflexivity|]. split.
  - apply Forall_map, Forall_forall. intros i _. apply import_crep; [exact G|apply B].
  - intros i Hi. rewrite (nth_map_any _ _ 0%nat) by (rewrite seq_length; exact Hi).
    rewrite seq_nth by exact Hi. cbn [Nat.add]. rewrite import_val by (auto using B). apply Zmod_mod.
Qed.

(** The inverse transform recovers the coefficients. *)
Lemma inverse_holds a f : holds n a (ev f) ->
  inverse_ntt_poly p np a = Ok (map (fun i => import_int p (f i mod m)) (seq 0 n)).
Proof.
  intros Ha. destruct (import_reps f) as (Lv & Cv & Vv). cbv zeta in Lv, Cv, Vv.
  set (v := map (fun i => import_int p (f i mod m)) (seq 0 n)) in *.
  assert (Rv : Forall rep v) by (eapply Forall_impl; [|exact Cv]; intros; apply crep_rep; assumption).
  destruct (inverse_forward p G L np X NG v Lv Rv) as (o & Eo & Ei).
  destruct (forward_eval p G L np X NG v Lv Rv) as (o' & Eo' & Lo & Co & Vo).
  rewrite Eo in Eo'. injection Eo' as <-.
  destruct (inverse_ok p G L np X NG a (holds_len _ _ _ Ha) (holds_reps _ _ _ Ha)) as (w & Ew & Lw & Cw & Vw).
  assert (Ro : Forall rep o) by (eapply Forall_impl; [|exact Co]; intros; apply crep_rep; assumption).
  destruct (inverse_ok p G L np X NG o Lo Ro) as (w' & Ew' & Lw' & Cw' & Vw').
  unfold inverse_ntt_poly. rewrite Ew. f_equal.
  assert (map (fun x => x mod m) v = v) as Emv.
  { rewrite <- (map_id v) at 2. apply map_ext_in. intros x Hx. rewrite Forall_forall in Cv.
    apply Z.mod_small, Cv, Hx. }
  rewrite Ei, Emv in Ew'. injection Ew' as Ew'. rewrite Ew'.
  apply (eqv_list p G L); try assumption; try (rewrite <- Ew'; assumption).
  eapply eqv_trans; [exact Vw|]. eapply eqv_trans; [|apply eqv_sym; exact Vw'].
  assert (GE : eqv m L (gsl L (Wi L X) L (V p a)) (gsl L (Wi L X) L (V p o))).
  { apply gsl_eqv; [lia|]. intros j Hj. unfold V. rewrite (holds_val _ _ _ _ Ha Hj).
    rewrite (Vo j Hj). unfold ev, peval, point. apply zsum_cong. intros i Hi.
    rewrite (Vv i Hi), cong_mod. reflexivity. }
  intros j Hj. unfold scale. rewrite (GE j Hj). reflexivity.
Qed.

Lemma ev_inj f g : (forall j, (j < n)%nat -> cong m (ev f j) (ev g j)) ->
  forall i, (i < n)%nat -> cong m (f i) (g i).
Proof.
  intros H i Hi. destruct (import_reps f) as (Lv & Cv & Vv). cbv zeta in Lv, Cv, Vv.
  set (v := map (fun i => import_int p (f i mod m)) (seq 0 n)) in *.
  assert (Rv : Forall rep v) by (eapply Forall_impl; [|exact Cv]; intros; apply crep_rep; assumption).
  destruct (forward_holds v f Lv Rv) as (a & _ & Ha & _).
  { intros k Hk. rewrite (Vv k Hk). apply cong_mod. }
  pose proof (inverse_holds a f Ha) as E1.
  pose proof (inverse_holds a g (holds_ext _ _ _ _ Ha H)) as E2.
  rewrite E1 in E2. injection E2 as E2.
  assert (E3 : val (nth i v 0) = g i mod m).
  { unfold v. rewrite E2. apply (import_reps g). exact Hi. }
  rewrite (Vv i Hi) in E3. pose proof (m_gt1 p G). apply cong_iff; [lia|exact E3].
Qed.

(** Every vector of n stored words is the NTT form of some polynomial. *)
Lemma holds_exists a : length a = n -> Forall rep a ->
  exists f, (forall i, 0 <= f i < m) /\ holds n a (ev f).
Proof.
  intros La Ra. destruct (forward_inverse p G L np X NG a La Ra) as (v & Ev & Ef).
  destruct (inverse_ok p G L np X NG a La Ra) as (v' & Ev' & Lv & Cv & _).
  rewrite Ev in Ev'. injection Ev' as <-.
  assert (Rv : Forall rep v) by (eapply Forall_impl; [|exact Cv]; intros; apply crep_rep; assumption).
  exists (fun i => val (nth i v 0)). split; [intros; apply val_range; exact G|].
  destruct (forward_eval p G L np X NG v Lv Rv) as (o & Eo & Lo & Co & Vo).
  rewrite Ef in Eo. injection Eo as <-.
  split; [exact La|]. split; [exact Ra|]. intros j Hj.
  pose proof (Vo j Hj) as Vj. rewrite (nth_map_any _ _ 0) in Vj by lia. rewrite val_mod in Vj.
  rewrite Vj. unfold ev, peval, point. apply zsum_cong. intros i Hi. reflexivity.
Qed.

(** ** Substitution *)

Lemma bitrevs_get i : (i < n)%nat -> get (np_bitrevs np) i = Ok (bitrev i L).
Proof.
  intros Hi. rewrite (ng_bitrevs p L np X NG). unfold bitrev_array.
  rewrite (get_ok _ i 0%nat) by (rewrite map_length, seq_length; exact Hi).
  rewrite (nth_map_any _ _ 0%nat) by (rewrite seq_length; exact Hi). rewrite seq_nth by exact Hi. reflexivity.
Qed.

Lemma substitute_loop_ok a pw : length a = n -> forall c t idx out,
  (t + c = n)%nat -> (idx < n)%nat -> length out = n ->
  exists r, substitute_loop np a pw (seq t c) idx out = Ok r /\ length r = n /\
    (forall i, (i < t)%nat -> nth (bitrev i L) r 0 = nth (bitrev i L) out 0) /\
    (forall i, (i < c)%nat -> nth (bitrev (t + i) L) r 0 = nth (bitrev ((idx + i * pw) mod n) L) a 0).
Proof.
  intros La. pose proof n_pos as P. induction c as [|c IH]; intros t idx out Ht Hidx Lo.
  - exists out. cbn [seq substitute_loop]. split; [reflexivity|]. split; [exact Lo|]. split; [auto|lia].
  - cbn [seq substitute_loop]. rewrite (bitrevs_get idx Hidx). cbn [bind].
    pose proof (bitrev_lt L idx) as B1. pose proof (bitrev_lt L t) as B2.
    destruct (Nat.leb_spec (length a) (bitrev idx L)); [lia|].
    rewrite (bitrevs_get t) by lia. cbn [bind].
    destruct (Nat.leb_spec (length a) (bitrev t L)); [lia|].
    rewrite (get_ok a _ 0) by lia. cbn [bind]. rewrite La.
    destruct (IH (S t) ((idx + pw) mod n)%nat (upd out (bitrev t L) (nth (bitrev idx L) a 0)))
      as (r & Er & Lr & H1 & H2); [lia|apply Nat.mod_upper_bound; lia|rewrite upd_length; exact Lo|].
    exists r. split; [exact Er|]. split; [exact Lr|].
    assert (INJ : forall i j, (i < n)%nat -> (j < n)%nat -> bitrev i L = bitrev j L -> i = j).
    { intros i j Hi Hj E. rewrite <- (bitrev_invol L i Hi), <- (bitrev_invol L j Hj), E. reflexivity. }
    split.
    + intros i Hi. rewrite H1 by lia. rewrite nth_upd by lia.
      destruct (Nat.eqb_spec (bitrev i L) (bitrev t L)) as [E|_]; [|reflexivity].
      apply INJ in E; lia.
    + intros [|i] Hi.
      * rewrite Nat.add_0_r, H1 by lia. rewrite nth_upd, Nat.eqb_refl by lia.
        rewrite Nat.mul_0_l, Nat.add_0_r, Nat.mod_small by exact Hidx. reflexivity.
      * replace (t + S i)%nat with (S t + i)%nat by lia. rewrite H2 by lia.
        f_equal. f_equal. rewrite Nat.add_mod_idemp_l by lia. f_equal. lia.
Qed.

Lemma substitute_holds a f power : holds n a (ev f) -> 0 < power < 2 * Z.of_nat n -> Z.odd power = true ->
  exists r, poly_substitute np a power = Ok r /\
    holds n r (ev (substituted n (Z.to_nat power) f)) /\
    (Forall crep a -> Forall crep r).
Proof.
  intros Ha Hp Ho. pose proof (holds_len _ _ _ Ha) as La. pose proof n_pos as P.
  unfold poly_substitute. rewrite La.
  assert (Hr : Z.rem power 2 = 1).
  { rewrite Z.rem_mod_nonneg by lia. rewrite Zmod_odd, Ho. reflexivity. }
  rewrite Hr. rewrite Z.gtb_ltb. destruct (Z.ltb_spec power 0); [lia|].
  rewrite Z.geb_leb. destruct (Z.leb_spec (2 * Z.of_nat n) power); [lia|]. cbn [orb Z.eqb].
  set (pw := Z.to_nat power).
  assert (Epw : pw = (2 * ((pw - 1) / 2) + 1)%nat).
  { pose proof (Z.div_mod power 2 ltac:(lia)) as D. rewrite Zmod_odd, Ho in D.
    assert (pw = 2 * Z.to_nat (power / 2) + 1)%nat as E by (unfold pw; lia).
    rewrite E at 2. replace (2 * Z.to_nat (power / 2) + 1 - 1)%nat with (Z.to_nat (power / 2) * 2)%nat by lia.
    rewrite Nat.div_mul by lia. exact E. }
  set (h := ((pw - 1) / 2)%nat) in *.
  assert (Hh : (h < n)%nat) by lia.
  destruct (substitute_loop_ok a pw La n 0 h a ltac:(lia) Hh La) as (r & Er & Lr & _ & H2).
  assert (Hj : forall j, (j < n)%nat ->
     nth j r 0 = nth (bitrev ((h + bitrev j L * pw) mod n) L) a 0).
  { intros j Hj. pose proof (bitrev_lt L j). rewrite <- H2 by assumption. cbn [Nat.add].
    rewrite bitrev_invol by exact Hj. reflexivity. }
  exists r. split; [exact Er|]. split.
  - apply holds_intro; [exact Lr|]. intros j Hjn. rewrite (Hj j Hjn).
    set (e := ((h + bitrev j L * pw) mod n)%nat).
    assert (He : (e < n)%nat) by (apply Nat.mod_upper_bound; lia).
    pose proof (bitrev_lt L e) as Be.
    split; [eapply holds_rep; eauto|]. rewrite (holds_val _ _ _ _ Ha Be).
    unfold ev, point. rewrite bitrev_invol by exact He.
    rewrite peval_substituted by (try exact P; apply pow_odd_root).
    apply peval_x. rewrite <- Z.pow_mul_r by lia. rewrite <- Nat2Z.inj_mul.
    rewrite (pow_mod_2n m X n (2 * e + 1)) by (try exact P; apply NG).
    rewrite (pow_mod_2n m X n ((2 * bitrev j L + 1) * pw)) by (try exact P; apply NG).
    replace ((2 * bitrev j L + 1) * pw)%nat with (2 * (h + bitrev j L * pw) + 1)%nat by nia.
    unfold e. apply cong_eq. f_equal. f_equal.
    rewrite <- (Nat.add_mod_idemp_l (2 * (h + bitrev j L * pw))) by lia.
    rewrite Nat.mul_mod_distr_l by lia.
    rewrite <- Nat.mul_mod_distr_l by lia. reflexivity.
  - intros Ca. apply Forall_nth. intros i d Hi. rewrite nth_indep with (d' := 0) by exact Hi.
    rewrite Hj by lia. rewrite Forall_forall in Ca. apply Ca, nth_In. rewrite La.
    apply bitrev_lt.
Qed.

End Transform.
End Params.
