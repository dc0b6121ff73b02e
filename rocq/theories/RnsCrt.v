(** Facts about CRT interpolation over big integers and the removal of errors
    (crt_interpolation.h, error_correction.h). *)
From Coq Require Import Znumtheory.
From Verif Require Import Base FinSum PolySpec Ring Montgomery MontBatch Ntt MontgomeryProofs
  MontBatchProofs Spec PolyView ArithFacts NttFacts NttProofs PolyProofs
  RnsPoly RnsSpec RnsCtx CrtMath RnsSub RnsProofs RnsBasis RnsCtxProofs.
Local Notation zsum := FinSum.zsum.

Lemma wrap_fold K xs : 0 < K -> forall a, 0 <= a < 2 ^ K ->
  fold_left (fun acc x => wrap K (acc * wrap K x)) xs a = wrap K (a * prodz xs).
Proof.
  intros HK. induction xs as [|x t IH]; intros a Ha; cbn [fold_left].
  - change (prodz []) with 1. rewrite Z.mul_1_r. unfold wrap. symmetry. apply Z.mod_small, Ha.
  - assert (0 < 2 ^ K) by (apply Z.pow_pos_nonneg; lia).
    rewrite IH by (unfold wrap; apply Z.mod_pos_bound; lia). rewrite prodz_cons. unfold wrap.
    rewrite Zmult_mod_idemp_r, Zmult_mod_idemp_l. f_equal. ring.
Qed.

Lemma fold_left_map {A B C} (f : C -> B -> C) (g : A -> B) l : forall a,
  fold_left f (map g l) a = fold_left (fun acc x => f acc (g x)) l a.
Proof. induction l as [|x t IH]; intros a; [reflexivity|]. cbn [map fold_left]. apply IH. Qed.

Lemma big_product_ok K ms : 0 < K -> 0 < big_q ms < 2 ^ K -> big_product K ms = big_q ms.
Proof.
  intros HK Hq. unfold big_product. transitivity (wrap K (1 * big_q ms)).
  - unfold big_q, moduli. rewrite <- (wrap_fold K _ HK).
    + rewrite fold_left_map. reflexivity.
    + pose proof (Z.pow_le_mono_r 2 1 K). lia.
  - rewrite Z.mul_1_l. unfold wrap. apply Z.mod_small. lia.
Qed.

Lemma map_drop {A B} (f : A -> B) i l : map f (drop_at i l) = drop_at i (map f l).
Proof. unfold drop_at. rewrite map_app, firstn_map, skipn_map. reflexivity. Qed.

Lemma complements_ok K ms : 0 < K -> Forall (fun m => 0 < modulus m) ms -> big_q ms < 2 ^ K ->
  rns_modulus_complements K ms = map (hat (moduli ms)) (seq 0 (length ms)).
Proof.
  intros HK HP Hq. unfold rns_modulus_complements. apply map_ext_in. intros i Hi. apply in_seq in Hi.
  unfold indexed. rewrite (fold_except (fun acc m => wrap K (acc * wrap K (pm_q m)))). change (i <? 0)%nat with false. cbn iota. rewrite Nat.sub_0_r.
  rewrite <- (fold_left_map (fun acc x => wrap K (acc * wrap K x)) pm_q). rewrite wrap_fold; [|exact HK|].
  2:{ pose proof (Z.pow_le_mono_r 2 1 K). lia. }
  rewrite Z.mul_1_l, map_drop. change (map pm_q ms) with (moduli ms). rewrite <- hat_drop. unfold wrap. apply Z.mod_small.
  assert (Hl : (i < length (moduli ms))%nat) by (unfold moduli; rewrite map_length; lia).
  pose proof (hat_mul (moduli ms) i Hl) as E. fold (big_q ms) in E.
  assert (FP : Forall (fun q => 0 < q) (moduli ms)) by (unfold moduli; apply Forall_map; exact HP).
  assert (0 < nth i (moduli ms) 0) by (rewrite Forall_forall in FP; apply FP, nth_In, Hl).
  assert (0 < hat (moduli ms) i).
  { rewrite hat_drop. apply prodz_pos. unfold drop_at. apply Forall_app. split; [apply ForallFirstn, FP|apply ForallSkipn, FP]. }
  nia.
Qed.

Lemma crt_row_ok K q p h v : 0 < q -> 0 <= h -> 0 <= export_int p v -> export_int p v * h < 2 ^ K ->
  export_int p v < 2 ^ K -> 2 * q <= 2 ^ K ->
  forall acc row, length acc = length row -> Forall (fun a => 0 <= a < q) acc ->
  Forall (fun x => 0 <= export_int p x /\ q * export_int p x <= 2 ^ K /\ export_int p x < 2 ^ K) row ->
  crt_row K q p h v row acc = Ok (map2 (fun a x => (a + export_int p v * h * export_int p x) mod q) acc row).
Proof.
  intros Q H0 V0 VH VK Q2. induction acc as [|a acc IH]; intros [|x row] El Ha Hr; try discriminate; [reflexivity|].
  cbn [crt_row map2]. destruct (Z.eqb_spec q 0); [lia|].
  inversion Ha as [|? ? A1 A2]; subst. inversion Hr as [|? ? (X0 & X1 & X2) R2]; subst.
  cbv zeta. rewrite IH by (cbn in El; try lia; assumption). cbn [bind]. f_equal. f_equal.
  set (e := export_int p v) in *. set (y := export_int p x) in *. unfold wrap.
  rewrite (Z.mod_small e) by lia. rewrite (Z.mod_small (e * h)) by nia. rewrite (Z.mod_small y) by lia.
  pose proof (Z.mod_pos_bound (e * h) q Q) as B. rewrite (Z.mod_small ((e * h) mod q * y)) by nia.
  rewrite Zmult_mod_idemp_l. pose proof (Z.mod_pos_bound (e * h * y) q Q). rewrite (Z.mod_small (a + _)) by lia.
  rewrite Zplus_mod_idemp_r. reflexivity.
Qed.

Definition row_sum (ms : list pmod) (hats invs : list Z) (rows : list (list Z)) (d : pmod) (j : nat) : Z :=
  zsum (length ms) (fun i => export_int (pm_p (nth i ms d)) (nth i invs 0) * export_int (pm_p (nth i ms d)) (nth j (nth i rows []) 0) * nth i hats 0).

Lemma crt_rows_ok K q d n : 0 < q -> 2 * q <= 2 ^ K -> forall ms hats invs rows acc,
  length hats = length ms -> length invs = length ms -> length rows = length ms ->
  length acc = n -> Forall (fun a => 0 <= a < q) acc ->
  (forall i, (i < length ms)%nat -> let p := pm_p (nth i ms d) in
     let e := export_int p (nth i invs 0) in
     0 <= e < 2 ^ K /\ 0 <= nth i hats 0 /\ e * nth i hats 0 < 2 ^ K /\ length (nth i rows []) = n /\
     Forall (fun x => 0 <= export_int p x /\ q * export_int p x <= 2 ^ K /\ export_int p x < 2 ^ K) (nth i rows [])) ->
  exists acc', crt_rows K q ms hats invs rows acc = Ok acc' /\ length acc' = n /\ Forall (fun a => 0 <= a < q) acc' /\
    forall j, (j < n)%nat -> cong q (nth j acc' 0) (nth j acc 0 + row_sum ms hats invs rows d j).
Proof.
  intros Q Q2. induction ms as [|m ms IH]; intros hats invs rows acc Lh Li Lr La Ha H.
  - exists acc. split; [reflexivity|]. split; [exact La|]. split; [exact Ha|]. intros j _. unfold row_sum. cbn. rewrite Z.add_0_r. reflexivity.
  - destruct hats as [|h hats]; [discriminate|]. destruct invs as [|v invs]; [discriminate|]. destruct rows as [|r rows]; [discriminate|].
    cbn [length] in *. cbn [crt_rows].
    destruct (H 0%nat ltac:(lia)) as (E0 & H0 & EH & Lr0 & Fr). cbn [nth] in *. cbv zeta in *.
    rewrite (crt_row_ok K q (pm_p m) h v); try lia; try assumption. cbn [bind].
    set (acc1 := map2 _ acc r).
    assert (L1 : length acc1 = n) by (unfold acc1; rewrite map2_length; lia).
    destruct (IH hats invs rows acc1) as (acc' & E' & L' & F' & C').
    + lia.
    + lia.
    + lia.
    + exact L1.
    + apply Forall_forall. intros x Hx. apply (In_nth _ _ 0) in Hx. destruct Hx as (j & Hj & <-). unfold acc1 in *.
      rewrite (nth_map2 _ 0 0 0) by lia. apply Z.mod_pos_bound, Q.
    + intros i Hi. apply (H (S i)). lia.
    + exists acc'. split; [exact E'|]. split; [exact L'|]. split; [exact F'|]. intros j Hj.
      rewrite (C' j Hj). unfold acc1. rewrite (nth_map2 _ 0 0 0) by lia. rewrite cong_mod. apply cong_eq.
      unfold row_sum. cbn [length]. rewrite zsum_first. cbn [nth]. ring.
Qed.

Lemma Forall2_nth {A B} (P : A -> B -> Prop) l1 l2 d1 d2 i : Forall2 P l1 l2 -> (i < length l1)%nat -> P (nth i l1 d1) (nth i l2 d2).
Proof.
  intros F. revert i. induction F as [|x y l1 l2 H F IH]; intros i Hi; [cbn in Hi; lia|].
  destruct i; [exact H|]. cbn [nth]. apply IH. cbn in Hi. lia.
Qed.

(** For a list of moduli: 0 < value of an element, not larger than the product. *)
Lemma nth_moduli ms d i : (i < length ms)%nat -> nth i (moduli ms) 0 = modulus (nth i ms d).
Proof. intros H. unfold moduli. rewrite (nth_indep _ 0 (modulus d)) by (rewrite map_length; exact H). apply map_nth. Qed.

Lemma same_len_ok {A B} (a : list A) (b : list B) : length a = length b -> same_len a b = true.
Proof. intros H. unfold same_len. apply Nat.eqb_eq, H. Qed.

Section Crt.
Variables (k K : Z) (ms : list pmod) (rows : list (list Z)) (invs : list Z) (n : nat).
Hypothesis HK : k <= K.
Hypothesis PF : Forall (fun m => params_for k (modulus m) (pm_p m)) ms.
Hypothesis PW : pairwise (moduli ms).
Hypothesis NE : ms <> [].
Hypothesis FIT : Forall (fun m => big_q ms * modulus m <= 2 ^ K) ms.
Hypothesis ROWS : Forall2 (fun m r => length r = n /\ Forall (stored (pm_p m)) r) ms rows.
Hypothesis INV : Forall2 (fun m w => stored (pm_p m) w /\ (export_int (pm_p m) w * hat_of ms m) mod modulus m = 1) ms invs.

Lemma crt_interp_ok : exists xs, crt_interpolation K rows ms (rns_modulus_complements K ms) invs = Ok xs /\ length xs = n /\
  forall j, (j < n)%nat -> 0 <= nth j xs 0 < big_q ms /\
    Forall2 (fun m r => nth j xs 0 mod modulus m = export_int (pm_p m) (nth j r 0)) ms rows.
Proof.
  destruct ms as [|m0 ms0] eqn:Ems; [congruence|]. rewrite <- Ems in *. set (d := m0).
  assert (PFi : forall i, (i < length ms)%nat -> params_for k (modulus (nth i ms d)) (pm_p (nth i ms d))).
  { intros i Hi. rewrite Forall_forall in PF. apply PF, nth_In, Hi. }
  assert (FP : Forall (fun m => 0 < modulus m) ms).
  { apply Forall_forall. intros m Hm. rewrite Forall_forall in PF. specialize (PF m Hm). destruct PF as (_ & M1 & _). lia. }
  assert (FPz : Forall (fun q => 0 < q) (moduli ms)) by (unfold moduli; apply Forall_map; exact FP).
  assert (Qpos : 0 < big_q ms) by (apply prodz_pos, FPz).
  assert (Lms : (0 < length ms)%nat) by (rewrite Ems; cbn; lia).
  assert (Q2 : 2 * big_q ms <= 2 ^ K).
  { rewrite Forall_forall in FIT. specialize (FIT (nth 0 ms d) (nth_In _ _ Lms)). pose proof (proj1 (proj2 (PFi 0%nat Lms))). nia. }
  assert (Kpos : 0 < K).
  { destruct (Z.le_gt_cases K 0); [|lia]. assert (2 ^ K <= 2 ^ 0).
    { destruct (Z.eq_dec K 0) as [->|]; [lia|]. rewrite Z.pow_neg_r by lia. cbn. lia. }
    change (2 ^ 0) with 1 in *. lia. }
  pose proof (Forall2_len _ _ _ ROWS) as Lr. pose proof (Forall2_len _ _ _ INV) as Li.
  assert (Lh : length (rns_modulus_complements K ms) = length ms) by (unfold rns_modulus_complements; rewrite map_length, seq_length; reflexivity).
  assert (ROWi : forall i, (i < length ms)%nat -> length (nth i rows []) = n /\ Forall (stored (pm_p (nth i ms d))) (nth i rows [])).
  { intros i Hi. apply (Forall2_nth _ _ _ d [] i ROWS Hi). }
  assert (INVi : forall i, (i < length ms)%nat -> stored (pm_p (nth i ms d)) (nth i invs 0) /\
     (export_int (pm_p (nth i ms d)) (nth i invs 0) * hat_of ms (nth i ms d)) mod modulus (nth i ms d) = 1).
  { intros i Hi. apply (Forall2_nth _ _ _ d 0 i INV Hi). }
  assert (EXP : forall i w, (i < length ms)%nat -> stored (pm_p (nth i ms d)) w -> 0 <= export_int (pm_p (nth i ms d)) w < modulus (nth i ms d)).
  { intros i w Hi S. pose proof (pf_good _ _ _ (PFi i Hi)) as (G & _ & Gm). rewrite stored_val by assumption. unfold modulus. apply val_range, G. }
  assert (MK : forall i, (i < length ms)%nat -> big_q ms * modulus (nth i ms d) <= 2 ^ K).
  { intros i Hi. rewrite Forall_forall in FIT. apply FIT, nth_In, Hi. }
  assert (HAT : forall i, (i < length ms)%nat -> hat_of ms (nth i ms d) = hat (moduli ms) i /\ modulus (nth i ms d) * hat (moduli ms) i = big_q ms).
  { intros i Hi. assert (Hl : (i < length (moduli ms))%nat) by (unfold moduli; rewrite map_length; exact Hi).
    pose proof (hat_mul (moduli ms) i Hl) as E. rewrite (nth_moduli ms d i Hi) in E. fold (big_q ms) in E. split; [|exact E].
    unfold hat_of. rewrite <- E, Z.mul_comm. apply Z.div_mul. pose proof (proj1 (proj2 (PFi i Hi))). lia. }
  assert (HN : forall i, (i < length ms)%nat -> nth i (rns_modulus_complements K ms) 0 = hat (moduli ms) i).
  { intros i Hi. rewrite (complements_ok K ms Kpos FP) by lia. rewrite (nth_indep _ 0 (hat (moduli ms) 0%nat)) by (rewrite map_length, seq_length; exact Hi).
    rewrite map_nth, seq_nth by exact Hi. reflexivity. }
  destruct rows as [|r0 rows0] eqn:Er; [rewrite Ems in Lr; discriminate|]. unfold crt_interpolation. rewrite <- Er in *.
  rewrite !same_len_ok by congruence. cbn [negb].
  rewrite big_product_ok by (try exact Kpos; lia).
  assert (L0 : length r0 = n) by (destruct (ROWi 0%nat Lms) as [E _]; rewrite Er in E; exact E). rewrite L0.
  destruct (crt_rows_ok K (big_q ms) d n Qpos Q2 ms (rns_modulus_complements K ms) invs rows (repeat 0 n)) as (xs & E & Lx & Fx & Cx).
  - exact Lh.
  - congruence.
  - congruence.
  - apply repeat_length.
  - apply Forall_forall. intros x Hx. apply repeat_spec in Hx. subst x. lia.
  - intros i Hi. cbv zeta. destruct (INVi i Hi) as [S V]. pose proof (EXP i _ Hi S) as B. destruct (ROWi i Hi) as [R1 R2].
    destruct (HAT i Hi) as [HA HB]. pose proof (MK i Hi) as MKi. rewrite HN by exact Hi. pose proof (proj1 (proj2 (PFi i Hi))).
    split; [nia|]. split; [nia|]. split; [nia|]. split; [exact R1|].
    apply Forall_forall. intros x Hx. rewrite Forall_forall in R2. pose proof (EXP i _ Hi (R2 x Hx)). split; [lia|]. split; nia.
  - exists xs. split; [exact E|]. split; [exact Lx|]. intros j Hj. split.
    { rewrite Forall_forall in Fx. apply Fx, nth_In. lia. }
    assert (G : forall i, (i < length ms)%nat -> nth j xs 0 mod modulus (nth i ms d) = export_int (pm_p (nth i ms d)) (nth j (nth i rows []) 0)).
    { intros i Hi. assert (M1 : 1 < modulus (nth i ms d)) by (apply (PFi i Hi)).
      pose proof (Cx j Hj) as C. rewrite nth_repeat, Z.add_0_l in C.
      destruct (ROWi i Hi) as [R1 R2].
      assert (Sx : stored (pm_p (nth i ms d)) (nth j (nth i rows []) 0)) by (rewrite Forall_forall in R2; apply R2, nth_In; lia).
      pose proof (EXP i _ Hi Sx) as B. symmetry. apply cong_reduced; [exact B|]. symmetry.
      apply (cong_sub_modulus (modulus (nth i ms d))) in C; [|destruct (HAT i Hi) as [_ HB]; exists (hat (moduli ms) i); lia].
      transitivity (row_sum ms (rns_modulus_complements K ms) invs rows d j); [exact C|]. clear C.
      assert (Hl : (i < length (moduli ms))%nat) by (unfold moduli; rewrite map_length; exact Hi).
      pose proof (crt_sum_cong (moduli ms) (fun i => export_int (pm_p (nth i ms d)) (nth i invs 0) * export_int (pm_p (nth i ms d)) (nth j (nth i rows []) 0)) i Hl) as CS.
      rewrite (nth_moduli ms d i Hi) in CS.
      unfold row_sum. erewrite zsum_ext; [|intros i' Hi'; rewrite HN by exact Hi'; reflexivity].
      unfold moduli in CS at 1. rewrite map_length in CS. transitivity (export_int (pm_p (nth i ms d)) (nth i invs 0) * export_int (pm_p (nth i ms d)) (nth j (nth i rows []) 0) * hat (moduli ms) i); [exact CS|].
      destruct (INVi i Hi) as [_ V]. destruct (HAT i Hi) as [HA _]. rewrite HA in V.
      assert (CV : cong (modulus (nth i ms d)) (export_int (pm_p (nth i ms d)) (nth i invs 0) * hat (moduli ms) i) 1).
      { apply cong_iff; [lia|]. rewrite V. symmetry. apply Z.mod_small. lia. }
      transitivity (export_int (pm_p (nth i ms d)) (nth i invs 0) * hat (moduli ms) i * export_int (pm_p (nth i ms d)) (nth j (nth i rows []) 0)); [apply cong_eq; ring|].
      rewrite CV. apply cong_eq. ring. }
    clear -G Lr. revert rows Lr G. induction ms as [|m t IH]; intros [|r rs] Lr G; try discriminate; constructor.
    + apply (G 0%nat). cbn. lia.
    + apply IH; [cbn in Lr; lia|]. intros i Hi. apply (G (S i)). cbn. lia.
Qed.
End Crt.

Lemma remove_msb_ok K q t v : 0 < t <= q -> q < 2 ^ K -> Forall (fun x => 0 <= x < q) v ->
  remove_error_on_msb K v q t = Ok (map (fun x => centered q x mod t) v).
Proof.
  intros Ht Hq Hv. unfold remove_error_on_msb. destruct (Z.eqb_spec t 0); [lia|]. cbv zeta. f_equal.
  apply map_ext_in. intros x Ix. rewrite Forall_forall in Hv. specialize (Hv x Ix). unfold centered. rewrite (Z.mod_small x q) by lia.
  unfold shr. change (2 ^ 1) with 2. pose proof (Z_div_mod_eq_full q 2) as E2. pose proof (Z.mod_pos_bound q 2 ltac:(lia)).
  pose proof (Z_div_mod_eq_full q t) as Et. pose proof (Z.mod_pos_bound q t ltac:(lia)) as Bt.
  assert (1 <= q / t) by (apply Z.div_le_lower_bound; lia).
  destruct (Z.ltb_spec (q / 2) x), (Z.leb_spec (2 * x) q); try lia.
  unfold wrap. rewrite (Z.mod_small (x - _)) by nia.
  apply cong_to_mod; [lia|]. exists (q / t). lia.
Qed.
