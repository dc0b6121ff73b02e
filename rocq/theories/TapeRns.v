(** RNS polynomials and ciphertexts on tapes of random bytes (C94). *)
From Coq Require Import Znumtheory Lia Arith.
From Verif Require Import Base FinSum BitsUtil Montgomery MontBatch Ntt Poly PolyExt Prng Sampling SampleSpec ZLemmas MontgomeryProofs Spec ArithFacts
  PolySpec Ring MontBatchProofs SampleProofs SampleErrProofs ThmArith ThmSample SymSpec RnsPoly RnsSpec RnsSub RnsProofs RnsBasis2 RnsMore RnsCtx RnsCt RnsCtSpec RnsCtProofs
  RnsEncode RnsKey DistSpec DistProofs DistEnc RnsKeySpec RnsKeyProofs TapeSpec TapeProofs.
Local Notation zsum := FinSum.zsum.
Local Notation tapes N := (repeat 8 N).

Definition mk (L : nat) (vs : list (list Z)) : rpoly := {| rp_logn := L; rp_vs := vs; rp_ntt := true |}.

Section Rns.
Variables (k : Z) (L : nat) (m0 : pmod) (ms' : list pmod).
Local Notation ms := (m0 :: ms').
Hypothesis OK : moduli_ok k L ms.
Hypothesis DI : distinct ms.
Local Notation n := (2 ^ L)%nat.
Local Notation p0 := (pm_p m0).
Local Notation q0 := (modulus m0).
Lemma NE : ms <> [].
Proof. discriminate. Qed.
Lemma O0 : mod_ok k L m0.
Proof. exact (Forall_inv OK). Qed.
Lemma L0 : (Z.of_nat L <=? 0) = false.
Proof. pose proof (ok_L k L ms OK NE). apply Z.leb_gt. lia. Qed.

Lemma uniform_eq f ds : rns_sample_uniform tape f (Z.of_nat L) ms ds = do! ' (vs, s) <- rns_sample_rows tape f n ms ds; Ok (mk L vs, s).
Proof. unfold rns_sample_uniform. rewrite L0, (shl_int_ok k L ms OK NE). cbn [bind]. rewrite Nat2Z.id. reflexivity. Qed.

Lemma error_eq v ds : 0 < v -> rns_sample_error tape (Z.of_nat L) v ms ds =
  do! ' (xs, s) <- sample_error tape p0 n v ds; do! a <- rns_convert_balanced xs p0 ms; Ok (a, s).
Proof. intros Hv. unfold rns_sample_error. rewrite L0, (shl_int_ok k L ms OK NE). destruct (Z.leb_spec v 0); [lia|]. reflexivity. Qed.

Lemma rows_poly vs : residue_rows ms n vs -> rns_poly ms L (mk L vs).
Proof.
  intros H. split; [reflexivity|]. cbn [rp_vs mk]. unfold residue_rows in H. clear OK DI. induction H as [|m v l l' [A B] H IH]; [apply Forall2_nil|apply Forall2_cons; [|exact IH]]. split; [exact A|].
  eapply Forall_impl; [|exact B]. intros x Hx. unfold stored. unfold modulus in Hx. lia.
Qed.

Lemma neg_rows_inj : forall ms vs vs', moduli_ok k L ms -> residue_rows ms n vs -> residue_rows ms n vs' -> neg_rows ms vs = neg_rows ms vs' -> vs = vs'.
Proof.
  clear. induction ms as [|m ms IH]; intros vs vs' OK R R' E; inversion R as [|? v ? ws [Lv Fv] Rw]; subst; inversion R' as [|? v' ? ws' [Lv' Fv'] Rw']; subst; [reflexivity|].
  inversion OK as [|? ? [PF _] OK']; subst. unfold neg_rows in E. cbn [map2] in E. injection E as E1 E2. f_equal; [|apply (IH ws ws' OK' Rw Rw' E2)].
  pose proof (proj1 (pf_good _ _ _ PF)) as G. clear - E1 Fv Fv' G. revert v' E1 Fv'. induction v as [|x v IH]; intros [|y v'] E Fv'; try discriminate E; [reflexivity|].
  cbn [map] in E. injection E as E1 E2. inversion_clear Fv. inversion_clear Fv'. f_equal; [|apply IH; assumption].
  rewrite !(mneg_ok (pm_p m) G) in E1 by (apply crep_rep; unfold crep; unfold modulus in *; lia). lia.
Qed.

(** the values of sampled errors *)
Definition errs_ok (v : Z) (xs : list Z) : Prop := length xs = n /\ Forall (reduced p0) xs /\ Forall (fun e => Z.abs e <= 2 * v) (signed p0 xs).

Lemma errs_sampled v s xs s' : 0 <= v -> 2 * v <= q0 -> sample_error tape p0 n v s = Ok (xs, s') -> errs_ok v xs.
Proof.
  intros Hv Hq E. pose proof (ok_for k L m0 O0) as PF. pose proof (ok_q k L m0 O0) as Q1.
  destruct (C24_error_bounded k _ _ tape n v s xs s' PF tape_ok Hv Hq E) as (_ & Lx & Rx & Bx). split; [exact Lx|]. split; [exact Rx|].
  unfold signed. apply Forall_map. eapply Forall_impl; [|exact Bx]. intros x (e & Be & Ee). cbv beta. rewrite Ee.
  change (p_m p0) with q0.
  assert (EC : centered q0 (e mod q0) = centered q0 e) by (unfold centered; rewrite Zmod_mod; reflexivity).
  rewrite EC. pose proof (centered_le q0 e ltac:(lia)). lia.
Qed.

Lemma signed_inj xs ys : Forall (reduced p0) xs -> Forall (reduced p0) ys -> signed p0 xs = signed p0 ys -> xs = ys.
Proof.
  pose proof (proj1 (pf_good _ _ _ (ok_for k L m0 O0))) as G. pose proof (m_gt1 p0 G) as M1. unfold signed.
  revert ys. induction xs as [|x xs IH]; intros [|y ys] Fx Fy E; try discriminate E; [reflexivity|]. cbn [map] in E. injection E as E1 E2.
  inversion_clear Fx. inversion_clear Fy. f_equal; [|apply IH; assumption].
  assert (X : export_int p0 x mod p_m p0 = export_int p0 y mod p_m p0).
  { apply cong_iff; [lia|]. rewrite <- (centered_cong (p_m p0) (export_int p0 x)), <- (centered_cong (p_m p0) (export_int p0 y)), E1. apply cong_eq. reflexivity. }
  apply (val_inj p0 G); [assumption|assumption|]. rewrite <- !stored_val by (try exact G; apply reduced_stored; assumption).
  rewrite !stored_val in X by (try exact G; apply reduced_stored; assumption). rewrite !stored_val by (try exact G; apply reduced_stored; assumption).
  rewrite !Z.mod_small in X by apply (val_range p0 G). exact X.
Qed.

(** residues for given small integers *)
Definition res0 (e : list Z) : list Z := map (fun x => import_int p0 (x mod q0)) e.
Lemma res0_ok v e : 4 * v < q0 -> length e = n -> Forall (fun x => Z.abs x <= 2 * v) e -> errs_ok v (res0 e) /\ signed p0 (res0 e) = e.
Proof.
  intros Hq Le F. pose proof (ok_for k L m0 O0) as PF. pose proof (proj1 (pf_good _ _ _ PF)) as G. pose proof (ok_q k L m0 O0) as Q1. pose proof (ok_qk k L m0 O0) as Qk.
  pose proof (proj1 (proj2 (pf_good _ _ _ PF))) as Ek.
  assert (X : forall x, 0 <= x mod q0 < 2 ^ p_k p0) by (intros x; pose proof (Z.mod_pos_bound x q0 ltac:(lia)); rewrite Ek; lia).
  assert (S : signed p0 (res0 e) = e).
  { unfold signed, res0. rewrite map_map. rewrite <- map_id. apply map_ext_in. intros x Hx. rewrite Forall_forall in F. specialize (F x Hx).
    rewrite stored_val; [|exact G|apply reduced_stored, (import_crep p0 G), X]. rewrite (import_val p0 G) by apply X.
    change (p_m p0) with q0. apply centered_eq; [lia|unfold fits; lia|]. rewrite Z.mod_mod by lia. apply cong_mod. }
  split; [|exact S]. split; [unfold res0; rewrite map_length; exact Le|]. split; [|rewrite S; exact F].
  unfold res0. apply Forall_map. eapply Forall_impl; [|exact F]. intros x _. apply (import_crep p0 G), X.
Qed.

(** an encryption function that draws a pad, then an error, and then computes *)
Section Enc.
Variables (f : nat) (v t : Z) (s : nat -> Z) (key : rskey) (m : nat -> Z).
Variable enc : list Z -> result (rct * list Z).
Variable fin : list (list Z) -> list Z -> result rct.
Hypothesis Hv : 0 < v <= 256.
Hypothesis Hq : 4 * v < q0.
Hypothesis Ht : rel_prime t q0.
Hypothesis HK : RnsKeySpec.key_is ms L key s.
Hypothesis Eenc : forall ds, enc ds = do! ' (vs, s) <- rns_sample_rows tape f n ms ds; do! ' (xs, s) <- sample_error tape p0 n v s; do! x <- fin vs xs; Ok (x, s).
Hypothesis Hfin : forall vs xs, residue_rows ms n vs -> errs_ok v xs -> exists x, fin vs xs = Ok x /\
  masked ms L s x (mk L vs) (fun i => m i + t * nth i (signed p0 xs) 0) /\ nth_error (map rp_vs (rt_c x)) 1 = Some (neg_rows ms vs).

Lemma same_comps x y w w' : ciphertext ms L s 2 1 x w -> ciphertext ms L s 2 1 y w' -> map rp_vs (rt_c x) = map rp_vs (rt_c y) ->
  forall i, (i < n)%nat -> cong q0 (w i) (w' i).
Proof.
  intros Hx Hy E i Hi.
  assert (Ec : rt_c x = rt_c y).
  { destruct Hx as (_ & _ & _ & cs & Hc & _). destruct Hy as (_ & _ & _ & ds & Hd & _). clear - E Hc Hd. revert ds Hd E. generalize (rt_c y). induction Hc as [|a c la lc Ha Hc IH]; intros lb ds Hd E.
    - destruct lb; [reflexivity|discriminate E].
    - destruct Hd as [|b d lb ld Hb Hd]; [discriminate E|]. cbn [map] in E. injection E as E1 E2. f_equal; [|apply (IH lb ld Hd E2)].
      destruct a as [a1 a2 a3], b as [b1 b2 b3]. destruct Ha as (A1 & A2 & _), Hb as (B1 & B2 & _). cbn [rp_logn rp_ntt rp_vs] in *. congruence. }
  destruct HK as [K1 K2].
  destruct (raw_decrypt_is k L ms OK NE key s x w 2 K1 K2 Hx) as (c & Dc & Hc).
  destruct (raw_decrypt_is k L ms OK NE key s y w' 2 K1 K2 Hy) as (c' & Dc' & Hc').
  assert (EQ : c = c') by (unfold rsk_raw_decrypt in Dc, Dc'; rewrite Ec in Dc; congruence). subst c'.
  destruct Hc as (_ & _ & F), Hc' as (_ & _ & F'). destruct (rp_vs c) as [|r0 rs]; inversion F as [|? ? ? ? [_ V] _]; subst. inversion F' as [|? ? ? ? [_ V'] _]; subst.
  pose proof (ok_q k L m0 O0). apply cong_iff; [lia|]. rewrite <- (V i Hi), <- (V' i Hi). reflexivity.
Qed.

Definition is_ct (cs : list (list (list Z))) (x : rct) : Z := if list_eq_dec (list_eq_dec (list_eq_dec Z.eq_dec)) (map rp_vs (rt_c x)) cs then 1 else 0.

Lemma abs_nth e i : Forall (fun x => Z.abs x <= 2 * v) e -> Z.abs (nth i e 0) <= 2 * v.
Proof.
  intros F. destruct (lt_dec i (length e)) as [H|H]; [|rewrite nth_overflow by lia; change (Z.abs 0) with 0; lia]. rewrite Forall_forall in F. apply F, nth_In, H.
Qed.

Lemma split_test vs0 e0 x0 vs xs x : residue_rows ms n vs0 -> length e0 = n -> Forall (fun x => Z.abs x <= 2 * v) e0 -> fin vs0 (res0 e0) = Ok x0 ->
  residue_rows ms n vs -> errs_ok v xs -> fin vs xs = Ok x -> is_ct (map rp_vs (rt_c x0)) x = is_rows vs vs0 * is_list (signed p0 xs) e0.
Proof.
  intros R0 Le Fe E0 R X E. destruct (res0_ok v e0 Hq Le Fe) as [X0 S0].
  destruct (Hfin vs xs R X) as (y & Ey & My & Ny). assert (y = x) by congruence. subst y.
  destruct (Hfin vs0 (res0 e0) R0 X0) as (y & Ey0 & My0 & Ny0). assert (y = x0) by congruence. subst y. rewrite S0 in My0.
  unfold is_ct, is_rows, is_list.
  destruct (list_eq_dec (list_eq_dec Z.eq_dec) vs vs0) as [A|A]; destruct (list_eq_dec Z.eq_dec (signed p0 xs) e0) as [B|B];
    destruct (list_eq_dec (list_eq_dec (list_eq_dec Z.eq_dec)) (map rp_vs (rt_c x)) (map rp_vs (rt_c x0))) as [C|C]; try reflexivity; exfalso.
  - apply C. subst vs. assert (xs = res0 e0) by (apply signed_inj; [apply X|apply X0|congruence]). subst xs. congruence.
  - apply B. apply (nth_ext _ _ 0 0); [unfold signed; rewrite map_length; rewrite Le; apply X|]. intros i Hi.
    assert (Hi' : (i < n)%nat) by (unfold signed in Hi; rewrite map_length, (proj1 X) in Hi; exact Hi).
    pose proof (same_comps x x0 _ _ (proj1 My) (proj1 My0) C i Hi') as D. cbv beta in D.
    apply (scale_inj t q0 _ _ v Ht ltac:(lia) Hq (abs_nth _ i (proj2 (proj2 X))) (abs_nth e0 i Fe)). unfold cong in *.
    match type of D with (q0 | ?d) => replace (t * nth i (signed p0 xs) 0 - t * nth i e0 0) with d by ring end. exact D.
  - apply A. rewrite C, Ny0 in Ny. injection Ny as Ny. symmetry. apply (neg_rows_inj ms vs0 vs OK R0 R). exact Ny.
  - apply A. rewrite C, Ny0 in Ny. injection Ny as Ny. symmetry. apply (neg_rows_inj ms vs0 vs OK R0 R). exact Ny.
Qed.

Local Notation w := (nbytes (error_widths 24 (2 * v))).
Definition rest (M : nat) : Z := if (n * w <=? M)%nat then 256 ^ Z.of_nat (M - n * w) else 0.

Lemma over_ones N : over (tapes N) (fun _ => 1) = 256 ^ Z.of_nat N.
Proof.
  induction N as [|N IH]; [reflexivity|]. cbn [repeat over]. rewrite (zsum_ext _ _ (fun _ => 256 ^ Z.of_nat N)) by (intros; exact IH).
  rewrite zsum_const. rewrite Z2Nat.id by (change (2 ^ 8) with 256; lia). change (2 ^ 8) with 256. rewrite Nat2Z.inj_succ, Z.pow_succ_r by lia. reflexivity.
Qed.

Lemma enc_count vs0 e0 x0 N : residue_rows ms n vs0 -> length e0 = n -> Forall (fun x => Z.abs x <= 2 * v) e0 -> fin vs0 (res0 e0) = Ok x0 ->
  count_tapes N (fun ds => gave_ct (map rp_vs (rt_c x0)) (enc ds)) = row_weights ms f n N rest * product (map (error_count v) e0).
Proof.
  intros R0 Le Fe E0. pose proof (ok_for k L m0 O0) as PF. unfold count_tapes, count_scripts.
  transitivity (ex N (rns_sample_rows tape f n ms) (fun vs s => is_rows vs vs0 * runs (sample_error tape p0 n v) (fun xs _ => is_list (signed p0 xs) e0 * 1) s)).
  - unfold ex. apply over_ext; [|apply tapes_nonneg]. intros ds _. rewrite Eenc. destruct (rns_sample_rows tape f n ms ds) as [[vs s1]| |] eqn:Er; try reflexivity. cbn [bind].
    pose proof (rows_reduced k L f n ms ds vs s1 OK Er) as R. unfold runs.
    destruct (sample_error tape p0 n v s1) as [[xs s2]| |] eqn:Ee; cbn [bind]; try (cbn [gave_ct Z.b2z]; rewrite Z.mul_0_r; reflexivity).
    pose proof (errs_sampled v s1 xs s2 ltac:(lia) ltac:(lia) Ee) as X. destruct (Hfin vs xs R X) as (x & Ex & _). rewrite Ex. cbn [bind].
    rewrite Z.mul_1_r, <- (split_test vs0 e0 x0 vs xs x R0 Le Fe E0 R X Ex). unfold gave_ct, is_ct.
    destruct (list_eq_dec _ (map rp_vs (rt_c x)) (map rp_vs (rt_c x0))); reflexivity.
  - rewrite (row_weights_ok k L f n _ ms vs0 OK R0). rewrite Z.mul_comm, <- row_weights_mul. apply row_weights_ext. intros M. rewrite over_runs.
    pose proof (errors_over k q0 p0 v PF ltac:(lia) Hq (fun _ => 1) e0 M) as EO. rewrite Le in EO. rewrite EO. unfold rest.
    destruct (n * w <=? M)%nat; [|lia]. rewrite over_ones. reflexivity.
Qed.

(** the pad alone *)
Lemma pad_test vs0 N : residue_rows ms n vs0 ->
  count_tapes N (fun ds => gave_pad (neg_rows ms vs0) (enc ds)) =
  row_weights ms f n N (fun M => over (tapes M) (runs (sample_error tape p0 n v) (fun _ _ => 1))).
Proof.
  intros R0. unfold count_tapes, count_scripts. rewrite <- (row_weights_ok k L f n _ ms vs0 OK R0).
  unfold ex. apply over_ext; [|apply tapes_nonneg]. intros ds _. rewrite Eenc. destruct (rns_sample_rows tape f n ms ds) as [[vs s1]| |] eqn:Er; try reflexivity. cbn [bind].
  pose proof (rows_reduced k L f n ms ds vs s1 OK Er) as R. unfold runs.
  destruct (sample_error tape p0 n v s1) as [[xs s2]| |] eqn:Ee; cbn [bind]; try (cbn [gave_pad Z.b2z]; rewrite Z.mul_0_r; reflexivity).
  pose proof (errs_sampled v s1 xs s2 ltac:(lia) ltac:(lia) Ee) as X. destruct (Hfin vs xs R X) as (x & Ex & ((_ & _ & L2 & _) & _) & Nx). rewrite Ex. cbn [bind].
  unfold gave_pad. destruct (map rp_vs (rt_c x)) as [|b0 [|b1 [|b2 b]]] eqn:Eb; try (apply (f_equal (@length _)) in Eb; rewrite map_length in Eb; cbn [length] in Eb; lia).
  cbn [nth_error] in Nx. injection Nx as ->. cbn [tl]. rewrite Z.mul_1_r. unfold is_rows.
  destruct (list_eq_dec (list_eq_dec (list_eq_dec Z.eq_dec)) [neg_rows ms vs] [neg_rows ms vs0]) as [A|A];
    destruct (list_eq_dec (list_eq_dec Z.eq_dec) vs vs0) as [B|B]; try reflexivity; exfalso.
  - apply B. injection A as A. apply (neg_rows_inj ms vs vs0 OK R R0 A).
  - apply A. congruence.
Qed.
End Enc.
End Rns.

(** ** The two encryption functions *)
Section Fin.
Variables (k : Z) (L : nat) (m0 : pmod) (ms' : list pmod).
Local Notation ms := (m0 :: ms').
Hypothesis OK : moduli_ok k L ms.
Hypothesis DI : distinct ms.
Hypothesis K16 : k <> 16.
Local Notation n := (2 ^ L)%nat.
Local Notation p0 := (pm_p m0).
Variables (key : rskey) (sk : nat -> Z) (p : rpoly) (m : nat -> Z).
Hypothesis HK : RnsKeySpec.key_is ms L key sk.
Hypothesis Hp : rns_is ms L true p m.
Hypothesis Hv : 0 < rsk_var key <= 256.

Definition close_with (a c : rpoly) : result rct :=
  do! c0 <- rns_add c p ms;
  do! c0 <- rns_fused_mul_add c0 a (rsk_key key) ms;
  do! a <- rns_neg_in_place a ms;
  Ok (rct_make [c0; a] ms 1).
Definition fin_bgv (t : Z) (vs : list (list Z)) (xs : list Z) : result rct :=
  do! c <- rns_convert_balanced xs p0 ms;
  do! c <- rns_mul_scalar c t ms;
  close_with (mk L vs) c.
Definition fin_bfv (vs : list (list Z)) (xs : list Z) : result rct :=
  do! c <- rns_convert_balanced xs p0 ms;
  close_with (mk L vs) c.

Lemma close_ok t vs c e : residue_rows ms n vs -> rns_is ms L true c (fun i => t * e i) -> exists x, close_with (mk L vs) c = Ok x /\
  masked ms L sk x (mk L vs) (fun i => m i + t * e i) /\ nth_error (map rp_vs (rt_c x)) 1 = Some (neg_rows ms vs).
Proof.
  intros R Hc. pose proof (rows_poly L m0 ms' vs R) as P.
  destruct (rns_add_is k L ms OK true c p _ m Hc Hp) as (c2 & E2 & H2).
  assert (H2' : rns_is ms L true c2 (fun i => m i + t * e i)) by (apply (rns_ext k L ms OK _ _ _ _ H2); intros; apply cong_eq; ring).
  destruct (mask_ok k L ms OK DI K16 sk (mk L vs) _ c2 (rsk_key key) P eq_refl H2' (proj2 HK)) as (x0 & x1 & E3 & E4 & Hx).
  exists (rct_make [x0; x1] ms 1). unfold close_with. rewrite E2. cbn [bind]. rewrite E3. cbn [bind]. rewrite E4. cbn [bind]. split; [reflexivity|]. split; [exact Hx|].
  cbn [rct_make rt_c map nth_error]. f_equal. unfold rns_neg_in_place in E4. destruct (negb _); [discriminate E4|]. injection E4 as <-. reflexivity.
Qed.

Lemma balanced_ok v xs : errs_ok L m0 v xs -> exists c, rns_convert_balanced xs p0 ms = Ok c /\ rns_is ms L true c (fun i => nth i (signed p0 xs) 0).
Proof.
  intros (Lx & Rx & _). pose proof (ok_for k L m0 (Forall_inv OK)) as PF.
  destruct (convert_balanced_is k L ms OK ltac:(discriminate) _ _ xs PF Lx) as (c & Ec & Hc).
  { eapply Forall_impl; [|exact Rx]. intros x Hx. apply reduced_stored, Hx. }
  exists c. split; [exact Ec|]. apply (rns_ext k L ms OK _ _ _ _ Hc). intros m1 i _ Hi. apply cong_eq. unfold signed.
  rewrite (nth_indep (map (fun x => centered (p_m p0) (export_int p0 x)) xs) 0 (centered (p_m p0) (export_int p0 0))) by (rewrite map_length; lia).
  rewrite (map_nth (fun x => centered (p_m p0) (export_int p0 x))). reflexivity.
Qed.

Lemma fin_bgv_ok v t vs xs : 0 <= t < 2 ^ k -> residue_rows ms n vs -> errs_ok L m0 v xs -> exists x, fin_bgv t vs xs = Ok x /\
  masked ms L sk x (mk L vs) (fun i => m i + t * nth i (signed p0 xs) 0) /\ nth_error (map rp_vs (rt_c x)) 1 = Some (neg_rows ms vs).
Proof.
  intros Ht R X. destruct (balanced_ok v xs X) as (c & Ec & Hc). destruct (rns_mul_scalar_is k L ms OK true c _ t Hc Ht) as (c1 & E1 & H1).
  unfold fin_bgv. rewrite Ec. cbn [bind]. rewrite E1. cbn [bind]. apply (close_ok t vs c1 (fun i => nth i (signed p0 xs) 0) R H1).
Qed.
Lemma fin_bfv_ok v vs xs : residue_rows ms n vs -> errs_ok L m0 v xs -> exists x, fin_bfv vs xs = Ok x /\
  masked ms L sk x (mk L vs) (fun i => m i + 1 * nth i (signed p0 xs) 0) /\ nth_error (map rp_vs (rt_c x)) 1 = Some (neg_rows ms vs).
Proof.
  intros R X. destruct (balanced_ok v xs X) as (c & Ec & Hc). unfold fin_bfv. rewrite Ec. cbn [bind]. apply (close_ok 1 vs c (fun i => nth i (signed p0 xs) 0) R).
  apply (rns_ext k L ms OK _ _ _ _ Hc). intros. apply cong_eq. ring.
Qed.

Lemma enc_bgv_eq f t ds : rsk_encrypt_poly_bgv tape f key p t ds =
  do! ' (vs, s) <- rns_sample_rows tape f n ms ds; do! ' (xs, s) <- sample_error tape p0 n (rsk_var key) s; do! x <- fin_bgv t vs xs; Ok (x, s).
Proof.
  unfold rsk_encrypt_poly_bgv. rewrite (proj1 HK), (proj1 (proj2 HK)), (proj1 (proj2 Hp)). cbn [negb]. rewrite (uniform_eq k L m0 ms' OK).
  destruct (rns_sample_rows tape f n ms ds) as [[vs s]| |]; try reflexivity. cbn [bind]. rewrite (error_eq k L m0 ms' OK _ s (proj1 Hv)).
  destruct (sample_error tape p0 n (rsk_var key) s) as [[xs s1]| |]; try reflexivity. cbn [bind]. unfold fin_bgv, close_with.
  destruct (rns_convert_balanced xs p0 ms) as [c| |]; try reflexivity. cbn [bind].
  destruct (rns_mul_scalar c t ms) as [c1| |]; try reflexivity. cbn [bind]. destruct (rns_add c1 p ms) as [c2| |]; try reflexivity. cbn [bind].
  destruct (rns_fused_mul_add c2 (mk L vs) (rsk_key key) ms) as [c3| |]; try reflexivity. cbn [bind].
  destruct (rns_neg_in_place (mk L vs) ms) as [c4| |]; reflexivity.
Qed.
Lemma enc_bfv_eq f E msgs p1 ds : en_bfv E msgs ms = Ok p1 -> ensure_ntt p1 ms = Ok p -> rsk_encrypt_bfv1 tape f key E msgs ds =
  do! ' (vs, s) <- rns_sample_rows tape f n ms ds; do! ' (xs, s) <- sample_error tape p0 n (rsk_var key) s; do! x <- fin_bfv vs xs; Ok (x, s).
Proof.
  intros E1 E2. unfold rsk_encrypt_bfv1. rewrite (proj1 HK), (proj1 (proj2 HK)), E1. cbn [bind]. rewrite E2. cbn [bind]. rewrite (uniform_eq k L m0 ms' OK).
  destruct (rns_sample_rows tape f n ms ds) as [[vs s]| |]; try reflexivity. cbn [bind]. rewrite (error_eq k L m0 ms' OK _ s (proj1 Hv)).
  destruct (sample_error tape p0 n (rsk_var key) s) as [[xs s1]| |]; try reflexivity. cbn [bind]. unfold fin_bfv, close_with.
  destruct (rns_convert_balanced xs p0 ms) as [c| |]; try reflexivity. cbn [bind].
  destruct (rns_add c p ms) as [c2| |]; try reflexivity. cbn [bind].
  destruct (rns_fused_mul_add c2 (mk L vs) (rsk_key key) ms) as [c3| |]; try reflexivity. cbn [bind].
  destruct (rns_neg_in_place (mk L vs) ms) as [c4| |]; reflexivity.
Qed.
End Fin.

(** ** RNS error polynomials *)
Lemma rns_error_count k L m0 ms' v e : moduli_ok k L (m0 :: ms') -> 0 < v <= 256 -> 4 * v < modulus m0 ->
  length e = (2 ^ L)%nat -> Forall (fun x => Z.abs x <= 2 * v) e ->
  exists a, rns_is (m0 :: ms') L true a (fun i => nth i e 0) /\ forall N,
    count_tapes N (fun ds => gave_rows (rp_vs a) (rns_sample_error tape (Z.of_nat L) v (m0 :: ms') ds)) =
    if (error_bytes v (2 ^ L) <=? N)%nat then product (map (error_count v) e) * 256 ^ Z.of_nat (N - error_bytes v (2 ^ L)) else 0.
Proof.
  intros OK Hv Hq Le Fe. pose proof (ok_for k L m0 (Forall_inv OK)) as PF. pose proof (ok_q k L m0 (Forall_inv OK)) as Q1.
  destruct (res0_ok k L m0 ms' OK v e Hq Le Fe) as [X0 S0].
  destruct (balanced_ok k L m0 ms' OK v (res0 m0 e) X0) as (a & Ea & Ha). rewrite S0 in Ha.
  exists a. split; [exact Ha|]. intros N. unfold count_tapes, count_scripts.
  transitivity (ex N (sample_error tape (pm_p m0) (2 ^ L) v) (fun xs _ => is_list (signed (pm_p m0) xs) e * 1)).
  - unfold ex. apply over_ext; [|apply tapes_nonneg]. intros ds _. rewrite (error_eq k L m0 ms' OK v ds (proj1 Hv)).
    destruct (sample_error tape (pm_p m0) (2 ^ L) v ds) as [[xs s]| |] eqn:Es; try reflexivity. cbn [bind].
    pose proof (errs_sampled k L m0 ms' OK v ds xs s ltac:(lia) ltac:(lia) Es) as X. destruct (balanced_ok k L m0 ms' OK v xs X) as (c & Ec & Hc).
    rewrite Ec. cbn [bind]. unfold gave_rows, is_list. rewrite Z.mul_1_r.
    destruct (list_eq_dec (list_eq_dec Z.eq_dec) (rp_vs c) (rp_vs a)) as [A|A]; destruct (list_eq_dec Z.eq_dec (signed (pm_p m0) xs) e) as [B|B]; try reflexivity; exfalso.
    + apply B. apply (nth_ext _ _ 0 0); [unfold signed; rewrite map_length, Le; apply X|]. intros i Hi.
      assert (Hi' : (i < 2 ^ L)%nat) by (unfold signed in Hi; rewrite map_length, (proj1 X) in Hi; exact Hi).
      destruct Hc as (_ & _ & F), Ha as (_ & _ & F'). rewrite A in F. destruct (rp_vs a) as [|r0 rs]; inversion F as [|? ? ? ? [_ V] _]; subst. inversion F' as [|? ? ? ? [_ V'] _]; subst.
      pose proof (abs_nth v Hv _ i (proj2 (proj2 X))). pose proof (abs_nth v Hv e i Fe).
      assert (D : cong (modulus m0) (nth i (signed (pm_p m0) xs) 0) (nth i e 0)) by (apply cong_iff; [lia|]; rewrite <- (V i Hi'), <- (V' i Hi'); reflexivity).
      destruct D as (c' & D). destruct (Z.eq_dec c' 0) as [->|]; [lia|nia].
    + apply A. assert (xs = res0 m0 e) by (apply (signed_inj k L m0 ms' OK); [apply X|apply X0|congruence]). subst xs. congruence.
  - pose proof (errors_over k (modulus m0) (pm_p m0) v PF ltac:(lia) Hq (fun _ => 1) e N) as EO. rewrite Le in EO. rewrite EO. unfold error_bytes.
    destruct (_ <=? N)%nat; [|reflexivity]. rewrite over_ones. reflexivity.
Qed.
