(** Property theorems C21-C23: lazy accumulation, modulus conversion, gadget. *)
From Coq Require Import Znumtheory.
From Verif Require Import Base FinSum PolySpec Ring Montgomery MontBatch Ntt Poly PolyExt MontgomeryProofs
  MontBatchProofs Spec PolyView ArithFacts NttFacts PolyProofs PolyFacts PolyExtProofs ThmArith ThmPoly.

(** ** C21 *)

(** a word vector of the given length *)
Definition words (p : mparams) (n : nat) (v : list Z) : Prop := length v = n /\ Forall (stored p) v.

(** the sum over all operand pairs of the products of their j-th values *)
Definition sum_of_products (p : mparams) (ops : list (list Z * list Z)) (j : nat) : Z :=
  fold_right Z.add 0 (map (fun ab => export_int p (nth j (fst ab) 0) * export_int p (nth j (snd ab) 0)) ops).

(** FusedMulAddInPlace with every operand pair in turn *)
Definition lazy_run (p : mparams) (start : result lazy) (ops : list (list Z * list Z)) : result lazy :=
  fold_left (fun r ab => do! z <- r; lazy_fused p z (fst ab) (snd ab)) ops start.

Lemma sum_of_products_val p ops j : good p ->
  Forall (fun ab => words p (length (fst ab)) (fst ab) /\ words p (length (fst ab)) (snd ab)) ops ->
  (forall ab, In ab ops -> (j < length (fst ab))%nat) ->
  sum_of_products p ops j =
  fold_right Z.add 0 (map (fun ab => val p (nth j (fst ab) 0) * val p (nth j (snd ab) 0)) ops).
Proof.
  intros G H HL. unfold sum_of_products. f_equal. apply map_ext_in. intros ab Hab.
  rewrite Forall_forall in H. destruct (H ab Hab) as [[_ W1] [E W2]]. rewrite Forall_forall in W1, W2.
  specialize (HL ab Hab).
  rewrite !stored_val by (try exact G; try (apply W1, nth_In; lia); apply W2, nth_In; lia). reflexivity.
Qed.

Lemma lazy_finish k m p n z S F ops : params_for k m p -> (0 < n)%nat ->
  Forall (fun ab => words p n (fst ab) /\ words p n (snd ab)) ops ->
  linv p n z S -> (forall j, S j = F j + sumprod ops j) ->
  exists out, lazy_export p z = Ok out /\ length out = n /\ Forall (reduced p) out /\
    forall j, (j < n)%nat -> export_int p (nth j out 0) =
       (F j * (p_invr p * p_invr p) + sum_of_products p ops j) mod m.
Proof.
  intros H Hn Hops Hz HS. destruct (pf_good _ _ _ H) as (G & _ & <-).
  destruct (lazy_export_ok p G n z S Hn Hz) as (out & E & Lo & Co & Vo).
  exists out. split; [exact E|]. split; [exact Lo|]. split; [exact Co|]. intros j Hj.
  rewrite stored_val; [|exact G|]. 2:{ apply reduced_stored. rewrite Forall_forall in Co. apply Co, nth_In. lia. }
  rewrite sum_of_products_val; [|exact G| |].
  - specialize (Vo j Hj). rewrite HS in Vo. apply cong_reduced; [apply val_range; exact G|].
    rewrite Vo. rewrite <- sumprod_val. apply cong_eq. ring.
  - eapply Forall_impl; [|exact Hops]. intros [a b] [[La Wa] [Lb Wb]]. cbn [fst snd] in *.
    unfold words. repeat split; auto; lia.
  - intros ab Hab. rewrite Forall_forall in Hops. destruct (Hops ab Hab) as [[-> _] _]. exact Hj.
Qed.

Lemma words_ok p n ops : Forall (fun ab => words p n (fst ab) /\ words p n (snd ab)) ops -> ok_ops p n ops.
Proof.
  apply Forall_impl. intros ab [[La Wa] [Lb Wb]]. repeat split; auto.
Qed.

(** Any number of products, of any values, in any order. *)
Theorem C21_lazy_exact :
  forall k m p n ops, params_for k m p -> (0 < n)%nat ->
  Forall (fun ab => words p n (fst ab) /\ words p n (snd ab)) ops ->
  exists z out, lazy_run p (lazy_create_empty p n) ops = Ok z /\ lazy_export p z = Ok out /\
    length out = n /\ Forall (reduced p) out /\
    forall j, (j < n)%nat -> export_int p (nth j out 0) = sum_of_products p ops j mod m.
Proof.
  intros k m p n ops H Hn Hops. destruct (pf_good _ _ _ H) as (G & _ & _).
  destruct (lazy_empty_ok p G n) as (z0 & E0 & H0).
  destruct (lazy_run_ok p G n ops (words_ok _ _ _ Hops) z0 _ H0) as (z & E & Hz).
  exists z. destruct (lazy_finish k m p n z _ (fun _ => 0) ops H Hn Hops Hz (fun j => eq_refl)) as (out & E' & A & B & V).
  exists out. split; [unfold lazy_run; rewrite E0; exact E|]. split; [exact E'|]. split; [exact A|]. split; [exact B|].
  intros j Hj. rewrite (V j Hj). f_equal. 
Qed.

(** The same when starting from Create(a, b), which is the first product. *)
Theorem C21_lazy_create_exact :
  forall k m p n a b ops, params_for k m p -> (0 < n)%nat ->
  Forall (fun ab => words p n (fst ab) /\ words p n (snd ab)) ((a, b) :: ops) ->
  exists z out, lazy_run p (lazy_create p a b) ops = Ok z /\ lazy_export p z = Ok out /\
    length out = n /\ Forall (reduced p) out /\
    forall j, (j < n)%nat -> export_int p (nth j out 0) = sum_of_products p ((a, b) :: ops) j mod m.
Proof.
  intros k m p n a b ops H Hn Hops. destruct (pf_good _ _ _ H) as (G & _ & <-).
  inversion Hops as [|? ? [[La Wa] [Lb Wb]] Ht]; subst x l. cbn [fst snd] in *.
  destruct (lazy_create_ok p G n a b La Lb Wa Wb) as (z0 & E0 & H0).
  destruct (lazy_run_ok p G n ops (words_ok _ _ _ Ht) z0 _ H0) as (z & E & Hz).
  exists z. destruct (lazy_finish k (p_m p) p n z _ _ ops H Hn Ht Hz (fun j => eq_refl)) as (out & E' & A & B & V).
  exists out. split; [unfold lazy_run; rewrite E0; exact E|]. split; [exact E'|]. split; [exact A|]. split; [exact B|].
  intros j Hj. rewrite (V j Hj). unfold sum_of_products. cbn [map fold_right fst snd].
  rewrite Forall_forall in Wa, Wb.
  rewrite (stored_val p (nth j a 0)), (stored_val p (nth j b 0)) by (try exact G; try (apply Wa, nth_In; lia); apply Wb, nth_In; lia).
  apply cong_to_mod; [pose proof (m_gt1 p G); lia|].
  apply add_cong; [|reflexivity]. unfold val. rewrite !cong_mod. apply cong_eq. ring.
Qed.

(** Hence lazy and eager accumulation give the same words. *)
Theorem C21_lazy_eq_eager :
  forall k m p n ops, params_for k m p -> (0 < n)%nat -> k <> 16 ->
  Forall (fun ab => words p n (fst ab) /\ words p n (snd ab)) ops ->
  exists acc,
    fold_left (fun r ab => do! x <- r; poly_fused_mul_add p x (fst ab) (snd ab)) ops
      (Ok (repeat (import_zero p) n)) = Ok acc /\
    (do! z <- lazy_run p (lazy_create_empty p n) ops; lazy_export p z) = Ok acc.
Proof.
  intros k m p n ops H Hn Hk Hops.
  destruct (C21_lazy_exact k m p n ops H Hn Hops) as (z & out & E1 & E2 & Lo & Ro & Vo).
  destruct (pf_good _ _ _ H) as (G & Ek & Em). rewrite <- Ek in Hk.
  assert (K : forall ops, Forall (fun ab => words p n (fst ab) /\ words p n (snd ab)) ops -> forall x F,
    holds p n x F -> Forall (crep p) x -> exists y,
    fold_left (fun r ab => do! x <- r; poly_fused_mul_add p x (fst ab) (snd ab)) ops (Ok x) = Ok y /\
    holds p n y (fun j => F j + sum_of_products p ops j) /\ Forall (crep p) y).
  { clear - G Hk. induction 1 as [|[a b] t [[La Wa] [Lb Wb]] Ht IH]; intros x F Hx Cx.
    - exists x. split; [reflexivity|]. split; [|exact Cx]. eapply holds_ext; [exact Hx|].
      intros j _. unfold sum_of_products. cbn. apply cong_eq. ring.
    - cbn [fold_left bind fst snd] in *.
      pose proof (holds_self p n a La Wa) as Ha. pose proof (holds_self p n b Lb Wb) as Hb.
      destruct (fused_defined p n x a b _ _ _ Hk Hx Ha Hb) as (c & Ec).
      destruct (fused_holds p G n x a b _ _ _ c Hx Ha Hb Ec) as (Hc & Cc).
      rewrite Ec. destruct (IH c _ Hc Cc) as (y & Ey & Hy & Cy). exists y. split; [exact Ey|]. split; [|exact Cy].
      eapply holds_ext; [exact Hy|]. intros j Hj. unfold sum_of_products. cbn [map fold_right fst snd].
      rewrite Forall_forall in Wa, Wb.
      rewrite (stored_val p (nth j a 0)), (stored_val p (nth j b 0)) by (try exact G; try (apply Wa, nth_In; lia); apply Wb, nth_In; lia).
      apply cong_eq. ring. }
  destruct (K ops Hops _ _ (zero_holds p G n)) as (y & Ey & (Ly & Ry & Vy) & Cy).
  { apply Forall_forall. intros x Hx. apply repeat_spec in Hx. subst x. pose proof (m_gt1 p G). split; unfold import_zero; lia. }
  exists y. split; [exact Ey|]. rewrite E1. cbn [bind]. rewrite E2. f_equal.
  apply nth_ext with (d := 0) (d' := 0); [lia|]. intros j Hj. rewrite Lo in Hj.
  rewrite Forall_forall in Cy, Ro.
  apply (val_inj p G); [apply Ro, nth_In; lia|apply Cy, nth_In; lia|].
  rewrite <- (stored_val p (nth j out 0)) by (try exact G; apply reduced_stored, Ro, nth_In; lia).
  rewrite (Vo j Hj). symmetry. subst m. apply cong_reduced; [apply val_range; exact G|].
  rewrite (Vy j Hj). apply cong_eq. ring.
Qed.

Theorem C21_lazy_rejects :
  forall p z a b, length a <> length b \/ length a <> length (lz_coeffs z) ->
  lazy_fused p z a b = Err InvalidArgument /\
  (length a <> length b -> lazy_create p a b = Err InvalidArgument).
Proof.
  intros p z a b H.
  assert (E : forall A B (u : list A) (v : list B), length u <> length v -> same_len u v = false).
  { intros A B u v N. apply Bool.not_true_iff_false. rewrite same_len_spec. exact N. }
  unfold lazy_fused, lazy_create. split.
  - destruct H as [H|H]; rewrite (E _ _ _ _ H); [reflexivity|]. rewrite orb_true_r. reflexivity.
  - intros N. rewrite (E _ _ _ _ N). reflexivity.
Qed.

(** A run that refreshes: with modulus 12289 in 16-bit words the maximum level
    is 8, and twenty products of the largest words are accumulated. *)
Example C21_example :
  let ops := repeat (repeat 12289 2, repeat 12288 2) 20 in
  Forall (fun ab => words p12289 2 (fst ab) /\ words p12289 2 (snd ab)) ops /\
  lazy_log_max p12289 = Ok 3 /\
  match (do! z <- lazy_run p12289 (lazy_create_empty p12289 2) ops; lazy_export p12289 z) with
  | Ok out => map (export_int p12289) out = [0; 0]
  | _ => False
  end /\
  match (do! z <- lazy_run p12289 (lazy_create_empty p12289 2) (repeat (repeat 12288 2, repeat 12288 2) 20); lazy_export p12289 z) with
  | Ok out => map (export_int p12289) out = map (fun _ => (20 * (export_int p12289 12288 * export_int p12289 12288)) mod 12289) [0; 0]
  | _ => False
  end.
Proof.
  cbv zeta. split.
  - apply Forall_forall. intros x Hx. apply repeat_spec in Hx. subst x.
    assert (p_m p12289 = 12289) as M by reflexivity.
    split; (split; [reflexivity|]); apply Forall_forall; intros y Hy; cbn [fst snd] in Hy;
      apply repeat_spec in Hy; subst y; unfold stored; rewrite M; lia.
  - split; [reflexivity|]. split; vm_compute; reflexivity.
Qed.

(** ** C22 *)

(** [centered q x]: the representative of x modulo q in (-q/2, q/2]. *)
Theorem C22_convert_balanced :
  forall k q p pq pp v, params_for k q pq -> params_for k p pp -> Forall (stored pq) v ->
  let out := convert_balanced pq pp v in
  length out = length v /\ Forall (stored pp) out /\
  forall i, (i < length v)%nat ->
    export_int pp (nth i out 0) = centered q (export_int pq (nth i v 0)) mod p.
Proof.
  intros k q p pq pp v Hq Hp Hv. destruct (pf_good _ _ _ Hq) as (Gq & Kq & Mq).
  destruct (pf_good _ _ _ Hp) as (Gp & Kp & Mp). cbv zeta. unfold convert_balanced. rewrite Mq, Mp.
  pose proof Hv as Hv'. rewrite Forall_forall in Hv.
  destruct (Z.eqb_spec q p) as [->|N].
  - assert (pq = pp) as ->. { destruct Hq as (_ & _ & E1). destruct Hp as (_ & _ & E2). congruence. }
    split; [reflexivity|]. split; [exact Hv'|]. intros i Hi.
    rewrite stored_val by (try exact Gp; apply Hv, nth_In; exact Hi). rewrite <- Mp.
    apply cong_reduced; [apply val_range; exact Gp|]. symmetry. apply centered_cong.
  - assert (K : forall x, stored pq x -> crep pp (convert_balanced1 pq pp x) /\
       export_int pp (convert_balanced1 pq pp x) = centered q (export_int pq x) mod p).
    { intros x Hx. destruct (convert_balanced1_ok pq pp Gq Gp ltac:(lia) x Hx) as [C V]. split; [exact C|].
      rewrite stored_val by (try exact Gp; apply reduced_stored; exact C). rewrite (stored_val pq) by assumption.
      rewrite <- Mp, <- Mq. apply cong_reduced; [apply val_range; exact Gp|exact V]. }
    split; [apply map_length|]. split.
    + rewrite Forall_map. eapply Forall_impl; [|exact Hv']. intros x Hx. apply reduced_stored, K, Hx.
    + intros i Hi. rewrite (NttProofs.nth_map_any _ _ 0) by exact Hi. apply K, Hv, nth_In, Hi.
Qed.

Theorem C22_convert_modulus :
  forall k q p pq pp v, params_for k q pq -> params_for k p pp -> Forall (stored pq) v ->
  let out := convert_modulus pq pp v in
  length out = length v /\ Forall (stored pp) out /\
  forall i, (i < length v)%nat -> export_int pp (nth i out 0) = export_int pq (nth i v 0) mod p.
Proof.
  intros k q p pq pp v Hq Hp Hv. destruct (pf_good _ _ _ Hq) as (Gq & Kq & Mq).
  destruct (pf_good _ _ _ Hp) as (Gp & Kp & Mp). cbv zeta. unfold convert_modulus. rewrite Mq, Mp.
  pose proof Hv as Hv'. rewrite Forall_forall in Hv.
  destruct (Z.eqb_spec q p) as [->|N].
  - assert (pq = pp) as ->. { destruct Hq as (_ & _ & E1). destruct Hp as (_ & _ & E2). congruence. }
    split; [reflexivity|]. split; [exact Hv'|]. intros i Hi.
    rewrite stored_val by (try exact Gp; apply Hv, nth_In; exact Hi). rewrite <- Mp.
    symmetry. apply Z.mod_small, val_range, Gp.
  - assert (K : forall x, stored pq x -> crep pp (import_int pp (export_int pq x)) /\
       export_int pp (import_int pp (export_int pq x)) = export_int pq x mod p).
    { intros x Hx. destruct (convert1_ok pq pp Gq Gp ltac:(lia) x Hx) as [C V]. split; [exact C|].
      rewrite stored_val by (try exact Gp; apply reduced_stored; exact C). rewrite (stored_val pq) in * by assumption.
      rewrite <- Mp. apply cong_reduced; [apply val_range; exact Gp|exact V]. }
    split; [apply map_length|]. split.
    + rewrite Forall_map. eapply Forall_impl; [|exact Hv']. intros x Hx. apply reduced_stored, K, Hx.
    + intros i Hi. rewrite (NttProofs.nth_map_any _ _ 0) by exact Hi. apply K, Hv, nth_In, Hi.
Qed.

(** Plain integers v modulo t, read as signed, imported modulo p. *)
Theorem C22_import_balanced :
  forall k p pp t vs, params_for k p pp -> 0 < t < 2 ^ k -> Forall (fun v => 0 <= v < 2 ^ k) vs ->
  exists out, import_balanced t pp vs = Ok out /\ length out = length vs /\ Forall (stored pp) out /\
  forall i, (i < length vs)%nat -> export_int pp (nth i out 0) = centered t (nth i vs 0) mod p.
Proof.
  intros k p pp t vs Hp Ht Hv. destruct (pf_good _ _ _ Hp) as (Gp & Kp & Mp). rewrite <- Kp in *.
  exists (map (import_balanced1 t pp) vs). split.
  { unfold import_balanced. destruct vs; [reflexivity|]. destruct (Z.eqb_spec t 0); [lia|reflexivity]. }
  pose proof Hv as Hv'. rewrite Forall_forall in Hv.
  assert (K : forall x, 0 <= x < 2 ^ p_k pp -> rep pp (import_balanced1 t pp x) /\
       export_int pp (import_balanced1 t pp x) = centered t x mod p).
  { intros x Hx. destruct (import_balanced1_ok pp t x Gp Ht ltac:(lia)) as [C V]. split; [exact C|].
    rewrite stored_val by (try exact Gp; exact C).
    rewrite <- Mp. apply cong_reduced; [apply val_range; exact Gp|exact V]. }
  split; [apply map_length|]. split.
  - rewrite Forall_map. eapply Forall_impl; [|exact Hv']. intros x Hx. apply K, Hx.
  - intros i Hi. rewrite (NttProofs.nth_map_any _ _ 0) by exact Hi. apply K, Hv, nth_In, Hi.
Qed.

(** The same on polynomials in NTT form. *)
Theorem C22_convert_ntt_polynomial :
  forall k q p pq pp L npq npp a, params_for k q pq -> params_for k p pp ->
  ntt_for pq L npq -> ntt_for pp L npp -> ntt_poly pq L a ->
  is_poly pp L npp (convert_balanced_ntt pq npq pp npp a) (fun i => centered q (coeff pq npq a i)).
Proof.
  intros k q p pq pp L npq npp a Hq Hp Nq Np Ha.
  destruct (mk_ctx _ _ _ _ _ Hq Nq) as ((Gq & NGq) & _ & Mq).
  unfold convert_balanced_ntt. pose proof (poly_holds pq L npq (conj Gq NGq) a Ha) as HA.
  pose proof (inverse_holds pq Gq L npq _ NGq a _ HA) as Ei.
  assert (Ec : forall i, coeff pq npq a i = export_int pq (nth i (map (fun i : nat => import_int pq (coeff pq npq a i mod p_m pq)) (seq 0 (2 ^ L))) 0)).
  { intros i. unfold coeff at 1. rewrite Ei. reflexivity. }
  rewrite Ei. cbn [bind]. set (v := map _ (seq 0 (2 ^ L))) in *.
  assert (Lv : length v = (2 ^ L)%nat) by (unfold v; rewrite map_length, seq_length; reflexivity).
  assert (Sv : Forall (stored pq) v).
  { apply (import_reps pq Gq L (coeff pq npq a)) || (destruct (import_reps pq Gq L (coeff pq npq a)) as (_ & C & _);
      eapply Forall_impl; [|exact C]; intros x Hx; apply reduced_stored, Hx). }
  destruct (C22_convert_balanced k q p pq pp v Hq Hp Sv) as (L1 & S1 & V1). cbv zeta in *.
  destruct (C18_convert_to_ntt k p pp L npp _ Hp Np (eq_trans L1 Lv) S1) as (c & E & Pc & Vc).
  exists c. split; [exact E|]. split; [exact Pc|]. intros i Hi. rewrite (Vc i Hi), V1 by lia.
  rewrite <- Ec. destruct (pf_good _ _ _ Hp) as (Gp & _ & Mp). rewrite Mp. apply Zmod_mod.
Qed.

Example C22_example :
  params_for 16 97 p97 /\ params_for 16 12289 p12289 /\
  map (export_int p12289) (convert_balanced p97 p12289 (map (import_int p97) [0; 1; 48; 49; 96])) = [0; 1; 48; 12241; 12288] /\
  map (export_int p97) (convert_balanced p12289 p97 (map (import_int p12289) [0; 1; 6144; 6145; 12288])) = [0; 1; 33; 64; 96].
Proof. split; [exact p97_for|]. split; [exact p12289_for|]. split; vm_compute; reflexivity. Qed.

(** ** C23 *)

Theorem C23_gadget_recomposes :
  forall k m p v log_base, params_for k m p -> Forall (stored p) v -> 1 <= log_base <= p_logm p ->
  let dim := Z.to_nat (gadget_size p log_base) in
  exists digits, base_decompose p v log_base dim = Ok digits /\ length digits = dim /\
    (forall i, (i < dim)%nat -> length (nth i digits []) = length v /\ Forall (reduced p) (nth i digits [])) /\
    forall j, (j < length v)%nat ->
      (forall i, (i < dim)%nat -> 0 <= export_int p (nth j (nth i digits []) 0) < 2 ^ log_base) /\
      zsum dim (fun i => export_int p (nth j (nth i digits []) 0) * 2 ^ (Z.of_nat i * log_base)) =
        export_int p (nth j v 0).
Proof.
  intros k m p v lb H Hv Hlb. destruct (pf_good _ _ _ H) as (G & _ & _). cbv zeta.
  destruct (base_decompose_ok p G lb v Hlb Hv) as (ds & E & L1 & L2 & V). exists ds.
  split; [exact E|]. split; [exact L1|]. split; [exact L2|]. intros j Hj.
  assert (K : forall i, (i < Z.to_nat (gadget_size p lb))%nat ->
     export_int p (nth j (nth i ds []) 0) = val p (nth j (nth i ds []) 0)).
  { intros i Hi. apply stored_val; [exact G|]. destruct (L2 i Hi) as [Li Ci]. rewrite Forall_forall in Ci.
    apply reduced_stored, Ci, nth_In. lia. }
  destruct (V j Hj) as [V1 V2]. split.
  - intros i Hi. rewrite (K i Hi). apply V1, Hi.
  - rewrite stored_val by (try exact G; rewrite Forall_forall in Hv; apply Hv, nth_In, Hj).
    rewrite <- V2. apply zsum_ext. intros i Hi. rewrite (K i Hi). reflexivity.
Qed.

(** The number of digits is the least that covers the modulus. *)
Theorem C23_gadget_size :
  forall k m p log_base, params_for k m p -> 1 <= log_base <= p_logm p ->
  1 <= gadget_size p log_base /\
  2 ^ ((gadget_size p log_base - 1) * log_base) <= m < 2 ^ (gadget_size p log_base * log_base).
Proof.
  intros k m p lb H Hlb. destruct (pf_good _ _ _ H) as (G & _ & <-).
  pose proof (gadget_size_ok p lb Hlb) as [S1 S2]. split; [exact S1|].
  pose proof (logm_bounds p G) as [B1 [B2 B3]]. split.
  - apply Z.le_trans with (2 ^ (p_logm p - 1)); [apply Z.pow_le_mono_r; lia|lia].
  - apply Z.lt_le_trans with (2 ^ p_logm p); [lia|]. apply Z.pow_le_mono_r; nia.
Qed.

Example C23_example :
  p_logm p12289 = 14 /\ gadget_size p12289 5 = 3 /\
  match base_decompose p12289 (map (import_int p12289) [12288; 1234]) 5 3 with
  | Ok ds => map (map (export_int p12289)) ds = [[0; 18]; [0; 6]; [12; 1]]
  | _ => False
  end.
Proof. split; [reflexivity|]. split; [reflexivity|]. vm_compute. reflexivity. Qed.

Print Assumptions C21_lazy_exact.
Print Assumptions C21_lazy_create_exact.
Print Assumptions C21_lazy_eq_eager.
Print Assumptions C21_lazy_rejects.
Print Assumptions C22_convert_balanced.
Print Assumptions C22_convert_modulus.
Print Assumptions C22_import_balanced.
Print Assumptions C22_convert_ntt_polynomial.
Print Assumptions C23_gadget_recomposes.
Print Assumptions C23_gadget_size.
