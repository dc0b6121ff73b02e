(** The noise of a product of two BFV ciphertexts. *)
From Coq Require Import Setoid Ring Znumtheory.
From Verif Require Import Base FinSum MontgomeryProofs PolySpec Ring NegRing SymSpec MontBatch MontBatchProofs ArithFacts
  RnsPoly RnsSpec RnsSub RnsProofs RnsCt RnsCtSpec RnsCtProofs RnsNoise RnsBfvSpec.
Local Notation zsum := FinSum.zsum.

(** (a, x): P/Q times x, up to the rounding, is a; x is f modulo Q *)
Definition scaled (n : nat) (P Q : Z) (f : nat -> Z) (ax : (nat -> Z) * (nat -> Z)) : Prop :=
  forall i, (i < n)%nat -> cong Q (snd ax i) (f i) /\ Z.abs (Q * fst ax i - P * snd ax i) <= Q /\ Z.abs (fst ax i) <= P.

Lemma key_size_geom n s len : key_size n s len = geom (l1 n s) len.
Proof. reflexivity. Qed.

Section Noise.
Variable n : nat.
Hypothesis Hn : (0 < n)%nat.
Add Ring NR0 : (neg_ring 0 n Hn) (setoid (pcong_equiv 0 n) (neg_ring_ext 0 n)).
Local Infix "=p" := (pcong 0 n) (at level 70).
Local Notation "a *p b" := (negacyclic n a b) (at level 40, left associativity).
Local Notation "a +p b" := (padd a b) (at level 50, left associativity).

Lemma const_at c f i : (i < n)%nat -> (pconst c *p f) i = c * f i.
Proof. intros Hi. symmetry. apply (pcong0 _ _ _ (pscale_const 0 n Hn c f) i Hi). Qed.

Lemma mul_identity A X R T Y G rho M1 M2 e e' P Q t :
  pconst Q *p A =p pconst P *p X +p R -> T =p A *p Y -> pconst P *p G =p pconst t *p T +p rho ->
  pconst t *p X =p pconst Q *p M1 +p e -> pconst t *p Y =p pconst Q *p M2 +p e' ->
  pconst P *p (pconst Q *p (pconst t *p G)) =p
    pconst P *p (pconst Q *p (pconst Q *p (M1 *p M2))) +p (pconst P *p (pconst Q *p M1)) *p e' +p
    pconst P *p (e *p (pconst Q *p M2)) +p pconst P *p (e *p e') +p pconst t *p (pconst t *p (R *p Y)) +p
    pconst t *p (pconst Q *p rho).
Proof.
  intros H1 H2 H3 H4 H5.
  assert (E1 : pconst P *p (pconst Q *p (pconst t *p G)) =p pconst t *p (pconst Q *p (pconst P *p G))) by ring.
  rewrite E1, H3, H2.
  assert (E2 : pconst t *p (pconst Q *p (pconst t *p (A *p Y) +p rho)) =p
               pconst t *p (pconst t *p ((pconst Q *p A) *p Y)) +p pconst t *p (pconst Q *p rho)) by ring.
  rewrite E2, H1.
  assert (E3 : pconst t *p (pconst t *p ((pconst P *p X +p R) *p Y)) =p
               pconst P *p ((pconst t *p X) *p (pconst t *p Y)) +p pconst t *p (pconst t *p (R *p Y))) by ring.
  rewrite E3, H4, H5. ring.
Qed.

Lemma Forall2_phase_diff S0 (F : (nat -> Z) -> (nat -> Z) -> nat -> Z) B : 0 <= B -> forall cs ds,
  Forall2 (fun c d => forall i, (i < n)%nat -> Z.abs (F c d i) <= B) cs ds ->
  forall i, (i < n)%nat -> Z.abs (phase_of n S0 (map2 F cs ds) i) <= B * geom (l1 n S0) (length cs).
Proof.
  intros HB cs ds H i Hi. pose proof (Forall2_len _ _ _ H) as El.
  assert (FF : Forall (fun d => forall j, (j < n)%nat -> Z.abs (d j) <= B) (map2 F cs ds)).
  { clear El. induction H; cbn [map2]; constructor; auto. }
  pose proof (phase_bound n S0 B Hn HB _ FF i Hi) as P0. rewrite map2_length in P0 by exact El. exact P0.
Qed.

Lemma phase_lin S0 a b cs : forall ds, length cs = length ds ->
  phase_of n S0 (map2 (fun c d i => a * c i - b * d i) cs ds) =p psub (pconst a *p phase_of n S0 cs) (pconst b *p phase_of n S0 ds).
Proof.
  induction cs as [|c cs IH]; intros [|d ds] El; try discriminate; [cbn [map2]; rewrite !phase_nil; ring|].
  cbn [map2]. rewrite !(phase_cons 0 n Hn), IH by (cbn [length] in El; lia).
  assert (E : (fun i => a * c i - b * d i) =p psub (pconst a *p c) (pconst b *p d)).
  { intros i Hi. unfold psub. rewrite !const_at by exact Hi. reflexivity. }
  rewrite E. ring.
Qed.

Variables (S0 : nat -> Z) (t P Q E E' : Z).
Hypothesis Pt : 0 <= t.
Hypothesis PP : 0 < P.
Hypothesis PQ : 0 < Q.

(** w + Q u *)
Lemma lift_phase f w : pcong Q n f w -> exists u, forall i, (i < n)%nat -> f i = w i + Q * u i.
Proof.
  intros H. exists (fun i => (f i - w i) / Q). intros i Hi. destruct (H i Hi) as [y Ey]. rewrite Ey, Z.div_mul by lia. lia.
Qed.

Lemma product_noise fs axs hs T gs w v m m' :
  0 <= E -> 0 <= E' ->
  Forall2 (scaled n P Q) fs axs -> Forall (fun h => forall i, (i < n)%nat -> Z.abs (h i) <= Q) hs ->
  phase_of n S0 T =p phase_of n S0 (map fst axs) *p phase_of n S0 hs ->
  Forall2 (fun T g => forall i, (i < n)%nat -> Z.abs (P * g i - t * T i) <= P) T gs ->
  pcong Q n (phase_of n S0 fs) w -> pcong Q n (phase_of n S0 hs) v ->
  (forall i, (i < n)%nat -> Z.abs (t * w i - Q * m i) <= E) -> (forall i, (i < n)%nat -> Z.abs (t * v i - Q * m' i) <= E') ->
  exists M, pcong t n M (m *p m') /\
    forall i, (i < n)%nat -> P * Q * Z.abs (t * phase_of n S0 gs i - Q * M i) <=
      mul_noise n t P Q E E' (geom (l1 n S0) (length fs)) (geom (l1 n S0) (length hs)) (geom (l1 n S0) (length gs)).
Proof.
  intros HE HE' HS HH HT HG Hw Hv Bw Bv.
  set (gx := geom (l1 n S0) (length fs)). set (gy := geom (l1 n S0) (length hs)). set (gl := geom (l1 n S0) (length gs)).
  assert (L0 : 0 <= l1 n S0) by apply l1_nonneg.
  assert (Gx : 0 <= gx) by (apply geom_nonneg, L0). assert (Gy : 0 <= gy) by (apply geom_nonneg, L0).
  set (A := phase_of n S0 (map fst axs)) in *. set (X := phase_of n S0 (map snd axs)). set (Y := phase_of n S0 hs) in *.
  set (G := phase_of n S0 gs).
  pose proof (Forall2_len _ _ _ HS) as LS. pose proof (Forall2_len _ _ _ HG) as LG.
  (* X is the phase of fs modulo Q *)
  assert (HX : pcong Q n X w).
  { intros i Hi. rewrite <- (Hw i Hi). unfold X. refine (phase_cong Q n Hn S0 S0 _ _ _ _ i Hi); [reflexivity|].
    clear - HS. induction HS as [|f ax fs axs H HS IH]; cbn [map]; constructor; [|exact IH]. intros j Hj. apply (H j Hj). }
  destruct (lift_phase X w HX) as (u & Hu). destruct (lift_phase Y v Hv) as (u' & Hu').
  set (M1 := fun i => m i + t * u i). set (M2 := fun i => m' i + t * u' i).
  set (e := fun i => t * w i - Q * m i). set (e' := fun i => t * v i - Q * m' i).
  (* the two roundings *)
  set (R := phase_of n S0 (map2 (fun c d i => Q * c i - P * d i) (map fst axs) (map snd axs))).
  set (rho := phase_of n S0 (map2 (fun T g i => P * g i - t * T i) T gs)).
  assert (HR : pconst Q *p A =p pconst P *p X +p R).
  { unfold R. rewrite (phase_lin S0 Q P (map fst axs) (map snd axs)) by (rewrite !map_length; reflexivity). fold A X. ring. }
  assert (Hrho : pconst P *p G =p pconst t *p phase_of n S0 T +p rho).
  { assert (E0 : rho =p psub (pconst P *p G) (pconst t *p phase_of n S0 T)).
    { unfold rho. replace (map2 (fun T g i => P * g i - t * T i) T gs) with (map2 (fun c d (i : nat) => P * c i - t * d i) gs T).
      - rewrite (phase_lin S0 P t gs T) by congruence. fold G. reflexivity.
      - clear. revert gs. induction T as [|a T IH]; intros [|b gs]; cbn [map2]; [reflexivity..|]. rewrite IH. reflexivity. }
    rewrite E0. ring. }
  assert (H4 : pconst t *p X =p pconst Q *p M1 +p e).
  { intros i Hi. unfold padd. rewrite !const_at by exact Hi. apply cong_eq. rewrite (Hu i Hi). unfold M1, e. ring. }
  assert (H5 : pconst t *p Y =p pconst Q *p M2 +p e').
  { intros i Hi. unfold padd. rewrite !const_at by exact Hi. apply cong_eq. rewrite (Hu' i Hi). unfold M2, e'. ring. }
  pose proof (mul_identity A X R _ Y G rho M1 M2 e e' P Q t HR HT Hrho H4 H5) as ID.
  exists (M1 *p M2). split.
  { apply neg_cong; intros i _; [exists (u i)|exists (u' i)]; unfold M1, M2; ring. }
  intros i Hi. pose proof (pcong0 _ _ _ ID i Hi) as EI. unfold padd in EI. rewrite !const_at in EI by exact Hi.
  (* bounds *)
  assert (BR : forall j, (j < n)%nat -> Z.abs (R j) <= Q * gx).
  { intros j Hj. unfold gx. rewrite LS, <- (map_length fst axs). apply Forall2_phase_diff; [lia| |exact Hj].
    clear - HS. induction HS as [|f ax fs axs H HS IH]; cbn [map]; constructor; [|exact IH]. intros a Ha. apply (H a Ha). }
  assert (Brho : Z.abs (rho i) <= P * gl).
  { unfold gl. rewrite <- LG. apply Forall2_phase_diff; [lia|exact HG|exact Hi]. }
  assert (BY : forall j, (j < n)%nat -> Z.abs (Y j) <= Q * gy).
  { intros j Hj. apply phase_bound; [exact Hn|lia|exact HH|exact Hj]. }
  assert (BA : forall j, (j < n)%nat -> Z.abs (A j) <= P * gx).
  { intros j Hj. unfold gx. rewrite LS, <- (map_length fst axs). apply phase_bound; [exact Hn|lia| |exact Hj].
    clear - HS. induction HS as [|f ax fs axs H HS IH]; cbn [map]; constructor; [|exact IH]. intros a Ha. apply (H a Ha). }
  assert (BX : forall j, (j < n)%nat -> Z.abs (P * X j) <= Q * (P + 1) * gx).
  { intros j Hj. pose proof (pcong0 _ _ _ HR j Hj) as Ej. unfold padd in Ej. rewrite !const_at in Ej by exact Hj.
    specialize (BA j Hj). specialize (BR j Hj). replace (P * X j) with (Q * A j - R j) by lia. 
    assert (Z.abs (Q * A j) <= Q * (P * gx)) by (rewrite Z.abs_mul, (Z.abs_eq Q) by lia; nia).
    replace (Q * (P + 1) * gx) with (Q * (P * gx) + Q * gx) by ring. lia. }
  assert (BM1 : forall j, (j < n)%nat -> Z.abs ((pconst P *p (pconst Q *p M1)) j) <= t * Q * (P + 1) * gx + P * E).
  { intros j Hj. rewrite !const_at by exact Hj. specialize (BX j Hj). specialize (Bw j Hj). fold (e j) in Bw.
    pose proof (pcong0 _ _ _ H4 j Hj) as Ej. unfold padd in Ej. rewrite !const_at in Ej by exact Hj.
    replace (P * (Q * M1 j)) with (t * (P * X j) - P * e j) by nia.
    assert (Z.abs (t * (P * X j)) <= t * (Q * (P + 1) * gx)) by (rewrite Z.abs_mul, (Z.abs_eq t) by lia; apply Z.mul_le_mono_nonneg_l; lia).
    assert (Z.abs (P * e j) <= P * E) by (rewrite Z.abs_mul, (Z.abs_eq P) by lia; apply Z.mul_le_mono_nonneg_l; lia).
    replace (t * Q * (P + 1) * gx) with (t * (Q * (P + 1) * gx)) by ring. lia. }
  assert (BM2 : forall j, (j < n)%nat -> Z.abs ((pconst Q *p M2) j) <= t * Q * gy + E').
  { intros j Hj. rewrite !const_at by exact Hj. specialize (BY j Hj). specialize (Bv j Hj). fold (e' j) in Bv.
    pose proof (pcong0 _ _ _ H5 j Hj) as Ej. unfold padd in Ej. rewrite !const_at in Ej by exact Hj.
    replace (Q * M2 j) with (t * Y j - e' j) by lia.
    assert (Z.abs (t * Y j) <= t * (Q * gy)) by (rewrite Z.abs_mul, (Z.abs_eq t) by lia; apply Z.mul_le_mono_nonneg_l; lia).
    replace (t * Q * gy) with (t * (Q * gy)) by ring. lia. }
  assert (N1 : 0 <= t * Q * (P + 1) * gx + P * E) by (apply Z.add_nonneg_nonneg; repeat apply Z.mul_nonneg_nonneg; lia).
  assert (N2 : 0 <= t * Q * gy + E') by (apply Z.add_nonneg_nonneg; [repeat apply Z.mul_nonneg_nonneg|]; lia).
  assert (N3 : 0 <= Q * gx) by (apply Z.mul_nonneg_nonneg; lia). assert (N4 : 0 <= Q * gy) by (apply Z.mul_nonneg_nonneg; lia).
  pose proof (negacyclic_bound n _ e' _ E' i N1 HE' BM1 Bv Hi) as B1.
  pose proof (negacyclic_bound n e _ E _ i HE N2 Bw BM2 Hi) as B2.
  pose proof (negacyclic_bound n e e' E E' i HE HE' Bw Bv Hi) as B3.
  pose proof (negacyclic_bound n R Y _ _ i N3 N4 BR BY Hi) as B4.
  set (Z1 := ((pconst P *p (pconst Q *p M1)) *p e') i) in *. set (Z2 := (e *p (pconst Q *p M2)) i) in *.
  set (Z3 := (e *p e') i) in *. set (Z4 := (R *p Y) i) in *. set (Z5 := rho i) in *.
  assert (EQ : P * Q * (t * G i - Q * (M1 *p M2) i) = Z1 + P * Z2 + P * Z3 + t * (t * Z4) + t * (Q * Z5)) by lia.
  replace (P * Q * Z.abs (t * G i - Q * (M1 *p M2) i)) with (Z.abs (P * Q * (t * G i - Q * (M1 *p M2) i)))
    by (rewrite Z.abs_mul, (Z.abs_eq (P * Q)) by (apply Z.mul_nonneg_nonneg; lia); reflexivity).
  rewrite EQ. unfold mul_noise.
  assert (C2 : Z.abs (P * Z2) <= P * (Z.of_nat n * (E * (t * Q * gy + E')))) by (rewrite Z.abs_mul, (Z.abs_eq P) by lia; apply Z.mul_le_mono_nonneg_l; lia).
  assert (C3 : Z.abs (P * Z3) <= P * (Z.of_nat n * (E * E'))) by (rewrite Z.abs_mul, (Z.abs_eq P) by lia; apply Z.mul_le_mono_nonneg_l; lia).
  assert (C4 : Z.abs (t * (t * Z4)) <= t * (t * (Z.of_nat n * (Q * gx * (Q * gy))))).
  { rewrite !Z.abs_mul, (Z.abs_eq t) by lia. apply Z.mul_le_mono_nonneg_l; [lia|]. apply Z.mul_le_mono_nonneg_l; lia. }
  assert (C5 : Z.abs (t * (Q * Z5)) <= t * (Q * (P * gl))).
  { rewrite !Z.abs_mul, (Z.abs_eq t), (Z.abs_eq Q) by lia. apply Z.mul_le_mono_nonneg_l; [lia|]. apply Z.mul_le_mono_nonneg_l; lia. }
  replace (Z.of_nat n * E' * (t * Q * (P + 1) * gx + P * E)) with (Z.of_nat n * ((t * Q * (P + 1) * gx + P * E) * E')) by ring.
  replace (Z.of_nat n * E * (t * Q * gy + E')) with (Z.of_nat n * (E * (t * Q * gy + E'))) by ring.
  replace (Z.of_nat n * E * E') with (Z.of_nat n * (E * E')) by ring.
  replace (t * t * (Z.of_nat n * (Q * gx) * (Q * gy))) with (t * (t * (Z.of_nat n * (Q * gx * (Q * gy))))) by ring.
  replace (t * Q * P * gl) with (t * (Q * (P * gl))) by ring.
  assert (T5 : forall a b c d f a' b' c' d' f', Z.abs a <= a' -> Z.abs b <= b' -> Z.abs c <= c' -> Z.abs d <= d' -> Z.abs f <= f' ->
    Z.abs (a + b + c + d + f) <= a' + b' + c' + d' + f') by (clear; lia).
  apply T5; assumption.
Qed.
End Noise.
