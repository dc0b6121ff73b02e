(** Correctness of the NTT parameters and of both transforms. *)
From Coq Require Import Arith ArithRing Znumtheory.
From Verif Require Import Base FinSum Montgomery Ntt ZLemmas MontgomeryProofs TranscriptionProofs
  Fermat RootCount NttIndex NttMath Spec ArithFacts.

Section Params.
Variable p : mparams.
Hypothesis G : good p.
Hypothesis Hprime : prime (p_m p).
Notation m := (p_m p).
Notation k := (p_k p).
Notation R := (2 ^ p_k p).
Notation val := (val p).
Notation crep := (crep p).
Notation rep := (rep p).

Lemma val_cong_inv n : cong m (val n) (n * p_invr p).
Proof. unfold MontgomeryProofs.val. apply cong_mod. Qed.

Lemma mod_exp_cong a e : rep a -> 0 <= e < R ->
  crep (mod_exp p a e) /\ cong m (val (mod_exp p a e)) (val a ^ e).
Proof.
  intros Ha He. destruct (mod_exp_ok p G a e Ha He) as [C V].
  split; [exact C|]. rewrite V. apply cong_mod.
Qed.

Lemma mmul_cong a b : rep a -> rep b -> cong m (val (mmul p a b)) (val a * val b).
Proof. intros. rewrite mmul_val by assumption. apply cong_mod. Qed.

Lemma madd_cong a b : rep a -> rep b -> cong m (val (madd p a b)) (val a + val b).
Proof. intros. rewrite madd_val by assumption. apply cong_mod. Qed.

Lemma mneg_cong a : rep a -> cong m (val (mneg p a)) (- val a).
Proof. intros. rewrite mneg_val by assumption. apply cong_mod. Qed.

Lemma sq_one x : cong m (x * x) 1 -> cong m x 1 \/ cong m x (-1).
Proof.
  unfold cong. intros H. replace (x * x - 1) with ((x - 1) * (x - -1)) in H by ring.
  apply prime_mult in H; assumption.
Qed.

Lemma primitive_root_ok l : 1 <= l -> m mod 2 ^ l = 1 ->
  exists psi, primitive_root p l = Ok psi /\ crep psi /\
    cong m (val psi ^ (2 ^ (l - 1))) (-1).
Proof.
  intros Hl Hm. pose proof (m_gt1 p G) as M1. pose proof (m4 p G) as M4.
  set (H2 := 2 ^ (l - 1)).
  assert (H2p : 0 < H2) by (apply pow2_pos; lia).
  assert (EN : 2 ^ l = 2 * H2).
  { unfold H2. rewrite <- Z.pow_succ_r by lia. f_equal. lia. }
  pose proof (Z.div_mod m (2 ^ l) ltac:(lia)) as DM. rewrite Hm, EN in DM.
  set (e := m / (2 * H2)) in *.
  assert (He : 0 < e) by nia.
  assert (Nm : 2 * H2 < m) by nia.
  assert (Ee : (m - 1) / (2 * H2) = e).
  { symmetry. apply Z.div_unique with 0; lia. }
  assert (Hhalf : e * H2 * 2 = m - 1) by nia.
  unfold primitive_root. rewrite EN. rewrite (wrap_small (p_k p) (2 * H2)) by lia.
  unfold shr. change (2 ^ 1) with 2. rewrite (Z.mul_comm 2 H2), Z.div_mul by lia.
  rewrite (Z.mul_comm H2 2), Ee.
  assert (ER : 0 <= e < R) by nia.
  pose (P := fun t => 2 <= t <= m /\ forall s, 2 <= s < t -> cong m (s ^ (e * H2)) 1).
  pose (Q := fun r => exists psi, r = Ok psi /\ crep psi /\ cong m (val psi ^ H2) (-1)).
  assert (Step : forall t, P t -> match root_step p e H2 t with
                   | inl s => (P s /\ (m - s) + 1 <= m - t) | inr r => Q r end).
  { intros t [Ht Hs]. unfold root_step. destruct (Z.ltb_spec t m) as [Hlt|Hge].
    - pose proof (import_crep p G t ltac:(lia)) as C1.
      pose proof (import_val p G t ltac:(lia)) as V1. rewrite Z.mod_small in V1 by lia.
      destruct (mod_exp_cong (import_int p t) e (crep_rep p _ C1) ER) as [C2 V2].
      destruct (mod_exp_cong _ H2 (crep_rep p _ C2) ltac:(lia)) as [C3 V3].
      rewrite V1 in V2. rewrite V2 in V3. rewrite <- Z.pow_mul_r in V3 by lia.
      unfold meqb. destruct (Z.eqb_spec (mod_exp p (mod_exp p (import_int p t) e) H2) (import_one p)) as [E|N];
        cbn [negb].
      + rewrite wrap_small by lia. split; [|lia]. split; [lia|]. intros s Hs'.
        destruct (Z.eq_dec s t) as [->|]; [|apply Hs; lia].
        rewrite <- V3, E, one_val by assumption. reflexivity.
      + eexists. split; [reflexivity|]. split; [exact C2|].
        rewrite V2, <- Z.pow_mul_r by lia.
        assert (F : cong m (t ^ (e * H2) * t ^ (e * H2)) 1).
        { rewrite <- Z.pow_add_r by lia. replace (e * H2 + e * H2) with (m - 1) by lia.
          apply cong_iff; [lia|]. rewrite fermat_unit; [rewrite Z.mod_1_l by lia; reflexivity|exact Hprime|].
          apply not_div. lia. }
        destruct (sq_one _ F) as [X|X]; [|exact X]. exfalso. apply N.
        apply (val_inj p G); [exact C3|apply one_crep; exact G|]. rewrite one_val by assumption.
        apply (cong_small m); [apply val_range; exact G|lia|]. rewrite V3. exact X.
    - exfalso. destruct (nonroot_exists m (e * H2) Hprime) as (t' & Ht' & N); [nia|].
      apply N. apply Hs. lia. }
  assert (P2 : P 2) by (split; [lia|intros; lia]).
  pose proof (iter2_inv (root_step p e H2) P Q) as I.
  pose proof (iter2_measure (root_step p e H2) P (fun t => m - t)) as M.
  specialize (I ltac:(intros s Hs; specialize (Step s Hs); destruct (root_step p e H2 s); tauto)
                (Z.to_nat k) 2 P2).
  specialize (M ltac:(intros s Hs; specialize (Step s Hs); destruct (root_step p e H2 s); tauto)
                (Z.to_nat k) 2 P2).
  destruct (iter2 (Z.to_nat k) (root_step p e H2) 2) as [s|r].
  - exfalso. destruct M as [[Hs _] M]. pose proof (k_pos p G). rewrite Z2Nat.id in M by lia. lia.
  - exact I.
Qed.


(** ** Tables *)

Record ntt_good (L : nat) (np : nttp) (X : Z) : Prop := {
  ng_L : (1 <= L)%nat;
  ng_n : np_n np = (2 ^ L)%nat;
  ng_root : cong m (X ^ Z.of_nat (2 ^ L)) (-1);
  ng_bitrevs : np_bitrevs np = bitrev_array L;
  ng_psis_len : length (np_psis np) = (2 ^ L)%nat;
  ng_psis : forall h, (h < 2 ^ L)%nat ->
    crep (nth h (np_psis np) 0) /\
    cong m (val (nth h (np_psis np) 0)) (X ^ Z.of_nat (bitrev h L));
  ng_psis_c : np_psis_c np = map (get_constant p) (np_psis np);
  ng_psis_inv_len : length (np_psis_inv np) = (2 ^ L)%nat;
  ng_psis_inv : forall h, (h < 2 ^ L)%nat ->
    crep (nth h (np_psis_inv np) 0) /\
    cong m (val (nth h (np_psis_inv np) 0) * X ^ Z.of_nat (bitrev h L + 1)) 1;
  ng_psis_inv_c : np_psis_inv_c np = map (get_constant p) (np_psis_inv np);
  ng_ninv : crep (np_ninv np) /\ cong m (val (np_ninv np) * Z.of_nat (2 ^ L)) 1
}.

Lemma nth_map_any {A B} (f : A -> B) l d d' i : (i < length l)%nat ->
  nth i (map f l) d' = f (nth i l d).
Proof.
  intros H. rewrite nth_indep with (d' := f d) by (rewrite map_length; exact H). apply map_nth.
Qed.

Lemma fill_powers_ok psi n : crep psi -> Z.of_nat n <= R ->
  length (fill_powers p psi n) = n /\
  forall i, (i < n)%nat -> crep (nth i (fill_powers p psi n) 0) /\
    cong m (val (nth i (fill_powers p psi n) 0)) (val psi ^ Z.of_nat i).
Proof.
  intros Hpsi Hn. unfold fill_powers. split; [rewrite map_length, seq_length; reflexivity|].
  intros i Hi. rewrite nth_map_any with (d := 0%nat) by (rewrite seq_length; exact Hi).
  rewrite seq_nth by exact Hi. rewrite Nat.add_0_l.
  destruct (mod_exp_cong psi (Z.of_nat i) (crep_rep p _ Hpsi) ltac:(lia)) as [C V].
  pose proof (m_gt1 p G).
  assert (Z0 : rep (import_zero p)) by (unfold MontgomeryProofs.rep, import_zero; lia).
  split; [apply madd_crep; try assumption; apply crep_rep; exact C|].
  rewrite madd_cong; [|exact Z0|apply crep_rep; exact C]. rewrite zero_val by assumption.
  rewrite V. apply cong_eq. ring.
Qed.

Lemma bitrev_zero l : bitrev 0 l = 0%nat.
Proof.
  induction l as [|l IH]; [reflexivity|]. rewrite bitrev_S.
  change (0 mod 2)%nat with 0%nat. change (0 / 2)%nat with 0%nat. rewrite IH. lia.
Qed.

Lemma bitrev_pos l i : (0 < i < 2 ^ l)%nat -> (0 < bitrev i l)%nat.
Proof.
  intros H. assert (bitrev i l <> 0)%nat; [|lia]. intros E.
  pose proof (bitrev_invol l i ltac:(lia)) as I. rewrite E, bitrev_zero in I. lia.
Qed.

Lemma pow_inv_shift X Y n r : cong m (X * Y) 1 -> 0 <= r <= n ->
  cong m (X ^ (n - r)) (X ^ n * Y ^ r).
Proof.
  intros E Hr. replace n with ((n - r) + r) at 2 by lia.
  rewrite Z.pow_add_r by lia. rewrite <- Z.mul_assoc, <- Z.pow_mul_l, E, Z.pow_1_l by lia.
  apply cong_eq. ring.
Qed.

Lemma nth_firstn_rev (l : list Z) r : (0 < r < length l)%nat ->
  nth r (firstn 1 l ++ rev (skipn 1 l)) 0 = nth (length l - r) l 0.
Proof.
  intros Hr. destruct l as [|x l]; [cbn in Hr; lia|]. cbn [firstn skipn app length] in *.
  destruct r as [|r]; [lia|]. cbn [nth]. rewrite rev_nth by lia.
  replace (length l - S r)%nat with (S (length l) - S r - 1)%nat by lia.
  destruct (S (length l) - S r)%nat as [|q] eqn:E; [lia|]. cbn [nth]. f_equal. lia.
Qed.

Theorem init_ntt_ok log_n : 1 <= log_n <= 15 -> log_n < k - 1 -> m mod 2 ^ (log_n + 1) = 1 ->
  exists np X, init_ntt p log_n = Ok np /\ 0 <= X < m /\ ntt_good (Z.to_nat log_n) np X.
Proof.
  intros Hl Hfit Hm. pose proof (m_gt1 p G) as M1. pose proof (m4 p G) as M4.
  set (L := Z.to_nat log_n). assert (HL : Z.of_nat L = log_n) by (unfold L; lia).
  assert (EN : Z.of_nat (2 ^ L) = 2 ^ log_n) by (rewrite pow_of_nat2, HL; reflexivity).
  assert (Npos : 0 < 2 ^ log_n) by (apply pow2_pos; lia).
  assert (E2 : 2 ^ (log_n + 1) = 2 * 2 ^ log_n) by (rewrite Z.add_1_r, Z.pow_succ_r by lia; ring).
  pose proof (Z.div_mod m (2 ^ (log_n + 1)) ltac:(lia)) as DM. rewrite Hm in DM.
  assert (Nm : 2 * 2 ^ log_n < m).
  { rewrite E2 in DM. assert (0 < m / (2 * 2 ^ log_n)) by nia. nia. }
  assert (PN : (0 < 2 ^ L)%nat) by lia.
  destruct (primitive_root_ok (log_n + 1) ltac:(lia) Hm) as (psi & Epsi & Cpsi & Rpsi).
  replace (log_n + 1 - 1) with log_n in Rpsi by lia. set (X := val psi) in *.
  assert (HX : 0 <= X < m) by (apply val_range; exact G).
  set (row := fill_powers p psi (2 ^ L)).
  assert (Erow : ntt_psis p L = Ok row).
  { unfold ntt_psis. rewrite HL, Epsi. reflexivity. }
  destruct (fill_powers_ok psi (2 ^ L) Cpsi ltac:(lia)) as [Rlen Rnth]. fold row in Rlen, Rnth. fold X in Rnth.
  destruct (bitrev_helper_ok 0 L row Rlen) as (psis & Epsis & Lpsis & Npsis).
  set (row' := firstn 1 row ++ rev (skipn 1 row)).
  assert (Lrow' : length row' = (2 ^ L)%nat).
  { unfold row'. rewrite app_length, rev_length, firstn_length, skipn_length. lia. }
  destruct (bitrev_helper_ok 0 L row' Lrow') as (prow & Eprow & Lprow & Nprow).
  assert (L2 : (2 <= 2 ^ L)%nat).
  { destruct L as [|l]; [lia|]. rewrite Nat.pow_succ_r'. pose proof (pow2_gt0 l). lia. }
  assert (Row'0 : nth 0 row' 0 = nth 0 row 0).
  { unfold row'. destruct row as [|x t]; [cbn in Rlen; lia|]. reflexivity. }
  assert (Row'r : forall r, (0 < r < 2 ^ L)%nat -> nth r row' 0 = nth (2 ^ L - r) row 0).
  { intros r Hr. unfold row'. rewrite nth_firstn_rev by lia. rewrite Rlen. reflexivity. }
  set (row1 := nth 1 row' 0).
  assert (V1 : crep row1 /\ cong m (val row1) (X ^ (2 ^ log_n - 1))).
  { unfold row1. rewrite Row'r by lia. replace (2 ^ log_n - 1) with (Z.of_nat (2 ^ L - 1)) by lia.
    apply Rnth. lia. }
  destruct V1 as [C1 V1].
  set (Y := - X ^ (2 ^ log_n - 1)).
  assert (XY : cong m (X * Y) 1).
  { unfold Y. replace (X * - X ^ (2 ^ log_n - 1)) with (- (X * X ^ (2 ^ log_n - 1))) by ring.
    rewrite <- Z.pow_succ_r by lia. replace (Z.succ (2 ^ log_n - 1)) with (2 ^ log_n) by lia.
    rewrite Rpsi. apply cong_eq. reflexivity. }
  pose (inv_row := map (fun x => mmul p x (mneg p row1)) (firstn 1 prow) ++
                   map (fun x => mmul p x row1) (skipn 1 prow)).
  assert (Linv : length inv_row = (2 ^ L)%nat).
  { unfold inv_row. rewrite app_length, !map_length, firstn_length, skipn_length. lia. }
  assert (R1 : rep row1) by (apply crep_rep; exact C1).
  assert (Inv : forall h, (h < 2 ^ L)%nat -> crep (nth h inv_row 0) /\
            cong m (val (nth h inv_row 0)) (Y ^ Z.of_nat (bitrev h L + 1))).
  { intros h Hh. destruct prow as [|p0 prow']; [cbn [length] in Lprow; lia|].
    unfold inv_row. cbn [firstn skipn map app].
    destruct h as [|h].
    - cbn [nth]. pose proof (Nprow 0%nat ltac:(lia)) as E0. cbn [nth] in E0.
      rewrite bitrev_zero, Row'0 in E0. destruct (Rnth 0%nat ltac:(lia)) as [C0 V0]. rewrite <- E0 in C0, V0.
      split; [apply mmul_crep; try assumption; [apply crep_rep; exact C0|apply mneg_rep; assumption]|].
      rewrite mmul_cong by (try (apply crep_rep; assumption); apply mneg_rep; assumption).
      rewrite mneg_cong by assumption. rewrite V0, V1, bitrev_zero.
      change (Z.of_nat (0 + 1)) with 1. change (Z.of_nat 0) with 0. rewrite Z.pow_0_r, Z.pow_1_r.
      apply cong_eq. unfold Y. ring.
    - cbn [nth]. pose proof (Nprow (S h) Hh) as E0. cbn [nth] in E0.
      pose proof (bitrev_pos L (S h) ltac:(lia)) as Bp. pose proof (bitrev_lt L (S h)) as Bl.
      rewrite Row'r in E0 by lia.
      destruct (Rnth (2 ^ L - bitrev (S h) L)%nat ltac:(lia)) as [C0 V0]. rewrite <- E0 in C0, V0.
      cbn [length] in Lprow.
      rewrite (nth_map_any (fun x => mmul p x row1) prow' 0 0 h) by lia.
      split; [apply mmul_crep; try assumption; apply crep_rep; exact C0|].
      rewrite mmul_cong by (try (apply crep_rep; assumption); assumption).
      rewrite V0, V1.
      replace (Z.of_nat (2 ^ L - bitrev (S h) L)) with (2 ^ log_n - Z.of_nat (bitrev (S h) L)) by lia.
      rewrite (pow_inv_shift X Y (2 ^ log_n) (Z.of_nat (bitrev (S h) L)) XY) by lia.
      rewrite (pow_inv_shift X Y (2 ^ log_n) 1 XY) by lia.
      rewrite !Rpsi. rewrite Nat2Z.inj_add, Z.pow_add_r by lia. change (Z.of_nat 1) with 1.
      apply cong_eq. ring. }
  assert (Einv : ntt_psis_inv_bitrev p L = Ok inv_row).
  { unfold ntt_psis_inv_bitrev. rewrite Erow. cbn [bind]. fold row'.
    rewrite (get_ok row' 1 0) by lia. cbn [bind]. fold row1. rewrite Eprow. reflexivity. }
  assert (Ninv : crep (mult_inverse p (import_int p (2 ^ log_n))) /\
     cong m (val (mult_inverse p (import_int p (2 ^ log_n))) * Z.of_nat (2 ^ L)) 1).
  { pose proof (import_crep p G (2 ^ log_n) ltac:(lia)) as Cn.
    pose proof (import_val p G (2 ^ log_n) ltac:(lia)) as Vn. rewrite Z.mod_small in Vn by lia.
    destruct (inverse_prime p (import_int p (2 ^ log_n)) G Hprime (crep_rep p _ Cn) ltac:(lia)) as [C V].
    split; [exact C|]. rewrite Vn in V. rewrite EN. apply cong_iff; [lia|]. rewrite V, Z.mod_1_l; lia. }
  pose (np := {| np_n := 2 ^ L; np_ninv := mult_inverse p (import_int p (2 ^ log_n));
            np_psis := psis; np_psis_c := map (get_constant p) psis;
            np_psis_inv := inv_row; np_psis_inv_c := map (get_constant p) inv_row;
            np_bitrevs := bitrev_array L |}).
  exists np, X. split; [|split; [exact HX|]].
  - unfold init_ntt. destruct (Z.leb_spec log_n 0); [lia|].
    unfold max_log_num_coeffs. destruct (Z.ltb_spec 15 log_n); [lia|].
    unfold does_log_n_fit. destruct (Z.ltb_spec log_n (k - 1)); [|lia]. cbn [negb].
    rewrite (wrap_small k (2 ^ (log_n + 1))) by lia. rewrite Hm. cbn [Z.eqb Pos.eqb negb].
    rewrite (wrap_small k (2 ^ log_n)) by lia. fold L.
    unfold ntt_psis_bitrev. rewrite Erow. cbn [bind]. rewrite Epsis. cbn [bind].
    rewrite Einv. reflexivity.
  - constructor; unfold np; cbn [np_n np_ninv np_psis np_psis_c np_psis_inv np_psis_inv_c np_bitrevs];
      try reflexivity; try lia.
    + rewrite EN. exact Rpsi.
    + intros h Hh. rewrite Npsis by exact Hh. apply Rnth. apply bitrev_lt.
    + intros h Hh. destruct (Inv h Hh) as [C V]. split; [exact C|]. rewrite V.
      rewrite <- Z.pow_mul_l, (Z.mul_comm Y X), XY, Z.pow_1_l by lia. reflexivity.
    + exact Ninv.
Qed.

(** ** Butterflies *)

Definition ub (odd : bool) : Z := if odd then m else 2 * m.

Lemma val_add_cong a b : cong m (val (a + b)) (val a + val b).
Proof. rewrite (val_add_mod p). apply cong_mod. Qed.

Lemma val_sub_cong a b : cong m (val (a - b)) (val a - val b).
Proof. rewrite (val_sub_mod p). apply cong_mod. Qed.

Lemma mul_constant_cong n c cc : 0 <= n < R -> const_for p c cc ->
  cong m (val (mul_constant p n cc)) (c * val n).
Proof.
  intros Hn Hc. rewrite (mul_constant_val p G n c cc Hn Hc), cong_mod. apply cong_eq. ring.
Qed.

Definition out_range (odd : bool) (x : Z) : Prop := if odd then 0 <= x <= 2 * m else crep x.

Lemma ct_F_ok odd c cc u x : const_for p c cc -> 0 <= x < R -> 0 <= u <= ub odd ->
  out_range odd (ct_F p odd cc u x) /\ cong m (val (ct_F p odd cc u x)) (val u + c * val x).
Proof.
  intros Hc Hx Hu. pose proof (m4 p G). pose proof (m_gt1 p G).
  pose proof (mul_constant_crep p G x c cc Hx Hc) as Ct.
  pose proof (mul_constant_cong x c cc Hx Hc) as Vt.
  unfold ct_F, out_range, ub in *. set (t := mul_constant p x cc) in *.
  unfold MontgomeryProofs.crep in *. destruct odd.
  - unfold lazy_add. rewrite wrap_small by lia. split; [lia|].
    rewrite val_add_cong, Vt. reflexivity.
  - rewrite madd_ok by (try assumption; lia). split; [apply Z.mod_pos_bound; lia|].
    rewrite (val_mod p). rewrite val_add_cong, Vt. reflexivity.
Qed.

Lemma ct_G_ok odd c cc u x : const_for p c cc -> 0 <= x < R -> 0 <= u <= ub odd ->
  out_range odd (ct_G p odd cc u x) /\ cong m (val (ct_G p odd cc u x)) (val u - c * val x).
Proof.
  intros Hc Hx Hu. pose proof (m4 p G). pose proof (m_gt1 p G).
  pose proof (mul_constant_crep p G x c cc Hx Hc) as Ct.
  pose proof (mul_constant_cong x c cc Hx Hc) as Vt.
  unfold ct_G, out_range, ub in *. set (t := mul_constant p x cc) in *.
  unfold MontgomeryProofs.crep in *. destruct odd.
  - unfold lazy_sub. rewrite wrap_small by lia. split; [lia|].
    rewrite val_add_cong, val_sub_cong, (val_m p), Vt. apply cong_eq. ring.
  - rewrite msub_ok by (try assumption; try lia; unfold MontgomeryProofs.rep; lia).
    split; [apply Z.mod_pos_bound; lia|].
    rewrite (val_mod p). rewrite val_sub_cong, Vt. reflexivity.
Qed.

Lemma gs_F_ok u x : rep u -> rep x ->
  crep (gs_F p u x) /\ cong m (val (gs_F p u x)) (val u + val x).
Proof. intros. split; [apply madd_crep; assumption|apply madd_cong; assumption]. Qed.

Lemma gs_G_ok c cc u x : const_for p c cc -> rep u -> rep x ->
  crep (gs_G p cc u x) /\ cong m (val (gs_G p cc u x)) (c * (val u - val x)).
Proof.
  intros Hc Hu Hx. pose proof (m4 p G). pose proof (m_gt1 p G). unfold gs_G, MontgomeryProofs.rep in *.
  assert (E : lazy_sub p u x = u + (m - x)) by (unfold lazy_sub; apply wrap_small; lia).
  rewrite E. split; [apply mul_constant_crep with c; try assumption; lia|].
  rewrite (mul_constant_cong _ c) by (try assumption; lia).
  rewrite val_add_cong, val_sub_cong, (val_m p). apply cong_eq. ring.
Qed.

(** ** Forward transform *)

Section Transform.
Variables (L : nat) (np : nttp) (X : Z).
Hypothesis NG : ntt_good L np X.
Notation n := (2 ^ L)%nat.

Definition W (h : nat) : Z := X ^ Z.of_nat (bitrev h L).
Definition V (v : list Z) (q : nat) : Z := val (nth q v 0).

Lemma psis_const h : (h < n)%nat ->
  exists c, const_for p c (nth h (np_psis_c np) (0, 0)) /\ cong m c (W h).
Proof.
  intros Hh. destruct (ng_psis L np X NG h Hh) as [C E].
  exists (val (nth h (np_psis np) 0)). split; [|exact E].
  rewrite (ng_psis_c L np X NG), (nth_map_any _ _ 0) by (rewrite (ng_psis_len L np X NG); exact Hh).
  apply get_constant_ok; [exact G|]. apply rep_word; [exact G|apply crep_rep; exact C].
Qed.

Lemma psis_inv_const h : (h < n)%nat ->
  exists c, const_for p c (nth h (np_psis_inv_c np) (0, 0)) /\
    cong m (c * X ^ Z.of_nat (bitrev h L + 1)) 1.
Proof.
  intros Hh. destruct (ng_psis_inv L np X NG h Hh) as [C E].
  exists (val (nth h (np_psis_inv np) 0)). split; [|exact E].
  rewrite (ng_psis_inv_c L np X NG), (nth_map_any _ _ 0) by (rewrite (ng_psis_inv_len L np X NG); exact Hh).
  apply get_constant_ok; [exact G|]. apply rep_word; [exact G|apply crep_rep; exact C].
Qed.

Lemma ct_layer i v : (i < L)%nat -> length v = n ->
  (forall q, (q < n)%nat -> 0 <= nth q v 0 <= ub (Nat.odd i)) ->
  exists out, ct_blocks p np (Nat.odd i) (2 ^ i) (steps (length v) (2 * 2 ^ i)) v (2 ^ (L - 1 - i)) =
      Ok (out, (2 ^ (L - i))%nat) /\
    length out = n /\
    (forall q, (q < n)%nat -> out_range (Nat.odd i) (nth q out 0)) /\
    eqv m L (V out) (ctf (2 ^ i) (wl L W i) (V v)).
Proof.
  intros Hi Hv Hr. pose proof (m4 p G) as M4. pose proof (m_gt1 p G) as M1.
  pose proof (pow2_gt0 i) as Pi. pose proof (pow2_gt0 (L - 1 - i)) as PB.
  set (B := (2 ^ (L - 1 - i))%nat) in *.
  assert (EN : n = (B * (2 * 2 ^ i))%nat) by (apply n_split; exact Hi).
  assert (B2 : (2 ^ (L - i) = B + B)%nat).
  { unfold B. replace (L - i)%nat with (S (L - 1 - i)) by lia. rewrite Nat.pow_succ_r'. lia. }
  assert (BB : (B + B <= n)%nat) by (rewrite EN; nia).
  rewrite Hv, EN, steps_eq by lia.
  rewrite ct_blocks_pass
    by (rewrite (ng_psis_c L np X NG), map_length, (ng_psis_len L np X NG); lia).
  eexists. split; [rewrite B2; reflexivity|]. rewrite bf_pass_length. split; [lia|].
  assert (W' : forall q, (q < n)%nat -> 0 <= nth q v 0 < R).
  { intros q Hq. specialize (Hr q Hq). unfold ub in Hr. destruct (Nat.odd i); lia. }
  assert (K : forall q, (q < n)%nat ->
    let o := nth q (bf_pass
        (fun b => ct_F p (Nat.odd i) (nth (B + b) (np_psis_c np) (0, 0)))
        (fun b => ct_G p (Nat.odd i) (nth (B + b) (np_psis_c np) (0, 0))) (2 ^ i) B v) 0 in
    out_range (Nat.odd i) o /\ cong m (val o) (ctf (2 ^ i) (wl L W i) (V v) q)).
  { intros q Hq. cbv zeta. rewrite bf_pass_nth by lia.
    destruct (Nat.ltb_spec q (B * (2 * 2 ^ i))) as [_|]; [|lia].
    destruct (layer_pos L i q Hi Hq) as (b & r & Hb & Hrr & Hn & Hc). fold B in Hb.
    destruct (psis_const (B + b)%nat ltac:(lia)) as (c & Cc & Ec).
    destruct Hc as [-> | ->].
    - destruct (blk (2 ^ i) b r ltac:(lia)) as [-> ->].
      destruct (Nat.ltb_spec r (2 ^ i)); [|lia]. rewrite ctf_lo by exact Hrr.
      replace (b * (2 * 2 ^ i) + r + 2 ^ i)%nat with (b * (2 * 2 ^ i) + 2 ^ i + r)%nat by lia.
      destruct (ct_F_ok (Nat.odd i) c _ (nth (b * (2 * 2 ^ i) + r) v 0)
        (nth (b * (2 * 2 ^ i) + 2 ^ i + r) v 0) Cc ltac:(apply W'; lia) ltac:(apply Hr; lia)) as [A1 A2].
      split; [exact A1|]. rewrite A2, Ec. reflexivity.
    - destruct (blk (2 ^ i) b (2 ^ i + r) ltac:(lia)) as [D M].
      rewrite Nat.add_assoc in D, M. rewrite D, M.
      destruct (Nat.ltb_spec (2 ^ i + r) (2 ^ i)); [lia|]. rewrite ctf_hi by exact Hrr.
      replace (b * (2 * 2 ^ i) + 2 ^ i + r - 2 ^ i)%nat with (b * (2 * 2 ^ i) + r)%nat by lia.
      destruct (ct_G_ok (Nat.odd i) c _ (nth (b * (2 * 2 ^ i) + r) v 0)
        (nth (b * (2 * 2 ^ i) + 2 ^ i + r) v 0) Cc ltac:(apply W'; lia) ltac:(apply Hr; lia)) as [A1 A2].
      split; [exact A1|]. rewrite A2, Ec. reflexivity. }
  split; [intros q Hq; apply K; lia|]. intros q Hq. apply K. lia.
Qed.

Lemma ct_layers_ok i : forall v, (i <= L)%nat -> length v = n ->
  (forall q, (q < n)%nat -> 0 <= nth q v 0 <= ub (Nat.odd (pred i))) ->
  (i = 0%nat -> forall q, (q < n)%nat -> crep (nth q v 0)) ->
  exists out, ct_layers p np i v (2 ^ (L - i)) = Ok out /\ length out = n /\
    (forall q, (q < n)%nat -> crep (nth q out 0)) /\
    eqv m L (V out) (ctl L W i (V v)).
Proof.
  pose proof (m_gt1 p G) as M1.
  induction i as [|i IH]; intros v Hi Hv Hr H0.
  - exists v. split; [reflexivity|]. split; [exact Hv|]. split; [apply H0; reflexivity|].
    apply eqv_refl.
  - cbn [pred] in Hr. destruct (ct_layer i v ltac:(lia) Hv Hr) as (o & Eo & Lo & Ro & Vo).
    cbn [ct_layers]. replace (L - S i)%nat with (L - 1 - i)%nat by lia. rewrite Eo. cbn [bind].
    destruct (IH o ltac:(lia) Lo) as (out & E & Lout & Cout & Vout).
    + intros q Hq. specialize (Ro q Hq). unfold out_range, ub, MontgomeryProofs.crep in *.
      destruct i as [|i]; [cbn [Nat.odd pred Nat.even negb] in *; lia|].
      cbn [pred]. rewrite Nat.odd_succ, <- Nat.negb_odd in Ro.
      destruct (Nat.odd i); cbn [negb] in Ro; lia.
    + intros -> q Hq. exact (Ro q Hq).
    + exists out. split; [exact E|]. split; [exact Lout|]. split; [exact Cout|].
      cbn [ctl]. eapply eqv_trans; [exact Vout|]. apply ctl_eqv; [lia|exact Vo].
Qed.

Lemma log2_n : Nat.log2 n = L.
Proof. apply Nat.log2_pow2. lia. Qed.

(** The full forward transform on stored inputs. *)
Lemma forward_ok v : length v = n -> Forall rep v ->
  exists out, forward_ntt p np v = Ok out /\ length out = n /\
    Forall crep out /\ eqv m L (V out) (ctl L W L (V v)).
Proof.
  intros Hv Hr. pose proof (m_gt1 p G) as M1. pose proof (ng_L L np X NG) as HL. pose proof (pow2_gt0 L) as P.
  destruct (ct_layers_ok L v ltac:(lia) Hv) as (out & E & Lo & C & Vo).
  - intros q Hq. rewrite Forall_forall in Hr. specialize (Hr (nth q v 0)).
    unfold MontgomeryProofs.rep in Hr. unfold ub. specialize (Hr ltac:(apply nth_In; lia)).
    destruct (Nat.odd (pred L)); lia.
  - lia.
  - exists out. split; [|split; [exact Lo|split; [|exact Vo]]].
    + unfold forward_ntt. rewrite Hv, log2_n. destruct (Nat.eqb_spec n 0); [lia|].
      rewrite Nat.eqb_refl. cbn [negb]. rewrite Nat.sub_diag in E. exact E.
    + apply Forall_nth. intros i d Hi. rewrite nth_indep with (d' := 0) by exact Hi. apply C. lia.
Qed.

(** ** Inverse transform *)

Definition Wi (h : nat) : Z := X ^ Z.of_nat (2 * n - bitrev h L).

Lemma X_2n : cong m (X ^ Z.of_nat (2 * n)) 1.
Proof.
  rewrite Nat2Z.inj_mul, Z.mul_comm, Z.pow_mul_r by lia. rewrite (ng_root L np X NG).
  apply cong_eq. reflexivity.
Qed.

Lemma W_Wi h : cong m (W h * Wi h) 1.
Proof.
  unfold W, Wi. rewrite <- Z.pow_add_r by lia. rewrite <- Nat2Z.inj_add.
  pose proof (bitrev_lt L h). replace (bitrev h L + (2 * n - bitrev h L))%nat with (2 * n)%nat by lia.
  apply X_2n.
Qed.

Lemma inv_unique a b c : cong m (a * b) 1 -> cong m (a * c) 1 -> cong m b c.
Proof.
  intros H1 H2. transitivity (b * (a * c)); [rewrite H2; apply cong_eq; ring|].
  replace (b * (a * c)) with ((a * b) * c) by ring. rewrite H1. apply cong_eq. ring.
Qed.

(** The inverse table entry used by layer i, block b. *)
Lemma gs_const i b : (i < L)%nat -> (b < 2 ^ (L - 1 - i))%nat ->
  exists c, const_for p c (nth (n - 2 * 2 ^ (L - 1 - i) + b) (np_psis_inv_c np) (0, 0)) /\
    cong m c (wil L Wi i b).
Proof.
  intros Hi Hb.
  assert (Hle : (2 * 2 ^ (L - 1 - i) <= n)%nat).
  { rewrite <- Nat.pow_succ_r'. apply Nat.pow_le_mono_r; lia. }
  destruct (psis_inv_const (n - 2 * 2 ^ (L - 1 - i) + b) ltac:(lia)) as (c & Cc & Ec).
  exists c. split; [exact Cc|]. rewrite bitrev_inv_index in Ec by lia.
  apply (inv_unique (W (2 ^ (L - 1 - i) + b))).
  - unfold W. rewrite Z.mul_comm. exact Ec.
  - apply W_Wi.
Qed.

Lemma gs_layer i v : (i < L)%nat -> length v = n ->
  (forall q, (q < n)%nat -> rep (nth q v 0)) ->
  exists out, gs_blocks p np (2 ^ i) (steps (length v) (2 * 2 ^ i)) v (n - 2 * 2 ^ (L - 1 - i)) =
      Ok (out, (n - 2 ^ (L - 1 - i))%nat) /\
    length out = n /\
    (forall q, (q < n)%nat -> crep (nth q out 0)) /\
    eqv m L (V out) (gsf (2 ^ i) (wil L Wi i) (V v)).
Proof.
  intros Hi Hv Hr. pose proof (m4 p G) as M4. pose proof (m_gt1 p G) as M1.
  pose proof (pow2_gt0 i) as Pi. pose proof (pow2_gt0 (L - 1 - i)) as PB.
  assert (GC := gs_const i). specialize (fun b => GC b Hi).
  set (B := (2 ^ (L - 1 - i))%nat) in *.
  assert (EN : n = (B * (2 * 2 ^ i))%nat) by (apply n_split; exact Hi).
  assert (BB : (B + B <= n)%nat) by (rewrite EN; nia).
  assert (ES : steps n (2 * 2 ^ i) = map (fun b => b * (2 * 2 ^ i))%nat (seq 0 B))
    by (rewrite EN; apply steps_eq; lia).
  rewrite Hv, ES.
  rewrite gs_blocks_pass
    by (try rewrite (ng_psis_inv_c L np X NG), map_length, (ng_psis_inv_len L np X NG); lia).
  eexists. split; [replace (n - 2 * B + B)%nat with (n - B)%nat by lia; reflexivity|].
  rewrite bf_pass_length. split; [lia|].
  assert (K : forall q, (q < n)%nat ->
    let o := nth q (bf_pass (fun b => gs_F p)
        (fun b => gs_G p (nth (n - 2 * B + b) (np_psis_inv_c np) (0, 0))) (2 ^ i) B v) 0 in
    crep o /\ cong m (val o) (gsf (2 ^ i) (wil L Wi i) (V v) q)).
  { intros q Hq. cbv zeta. rewrite bf_pass_nth by lia.
    destruct (Nat.ltb_spec q (B * (2 * 2 ^ i))) as [_|]; [|lia].
    destruct (layer_pos L i q Hi Hq) as (b & r & Hb & Hrr & Hn & Hc). fold B in Hb.
    destruct (GC b Hb) as (c & Cc & Ec).
    destruct Hc as [-> | ->].
    - destruct (blk (2 ^ i) b r ltac:(lia)) as [-> ->].
      destruct (Nat.ltb_spec r (2 ^ i)); [|lia]. rewrite gsf_lo by exact Hrr.
      replace (b * (2 * 2 ^ i) + r + 2 ^ i)%nat with (b * (2 * 2 ^ i) + 2 ^ i + r)%nat by lia.
      apply gs_F_ok; apply Hr; lia.
    - destruct (blk (2 ^ i) b (2 ^ i + r) ltac:(lia)) as [D M].
      rewrite Nat.add_assoc in D, M. rewrite D, M.
      destruct (Nat.ltb_spec (2 ^ i + r) (2 ^ i)); [lia|]. rewrite gsf_hi by exact Hrr.
      replace (b * (2 * 2 ^ i) + 2 ^ i + r - 2 ^ i)%nat with (b * (2 * 2 ^ i) + r)%nat by lia.
      destruct (gs_G_ok c _ (nth (b * (2 * 2 ^ i) + r) v 0)
        (nth (b * (2 * 2 ^ i) + 2 ^ i + r) v 0) Cc ltac:(apply Hr; lia) ltac:(apply Hr; lia)) as [A1 A2].
      split; [exact A1|]. rewrite A2, Ec. reflexivity. }
  split; [intros q Hq; apply K; lia|]. intros q Hq. apply K. lia.
Qed.

Lemma gs_layers_ok f : forall i v V0, (i + f = L)%nat -> length v = n ->
  (forall q, (q < n)%nat -> rep (nth q v 0)) -> eqv m L (V v) (gsl L Wi i V0) ->
  exists out, gs_layers p np f i v (n - 2 ^ (L - i)) = Ok out /\ length out = n /\
    (forall q, (q < n)%nat -> rep (nth q out 0)) /\
    eqv m L (V out) (gsl L Wi L V0).
Proof.
  induction f as [|f IH]; intros i v V0 Hi Hv Hr E.
  - exists v. replace L with i in * by lia. auto.
  - cbn [gs_layers]. destruct (gs_layer i v ltac:(lia) Hv Hr) as (o & Eo & Lo & Ro & Vo).
    replace (2 ^ (L - i))%nat with (2 * 2 ^ (L - 1 - i))%nat
      by (rewrite <- Nat.pow_succ_r'; f_equal; lia).
    rewrite Eo. cbn [bind]. replace (L - 1 - i)%nat with (L - S i)%nat by lia.
    apply IH; [lia|exact Lo|intros; apply crep_rep; apply Ro; assumption|].
    cbn [gsl]. eapply eqv_trans; [exact Vo|]. apply gsf_eqv; [lia|exact E].
Qed.

Lemma inverse_ok v : length v = n -> Forall rep v ->
  exists out, inverse_ntt p np v = Ok out /\ length out = n /\ Forall crep out /\
    eqv m L (V out) (scale (val (np_ninv np)) (gsl L Wi L (V v))).
Proof.
  intros Hv Hr. pose proof (pow2_gt0 L) as P. destruct (ng_ninv L np X NG) as [Cn En].
  destruct (gs_layers_ok L 0 v (V v) ltac:(lia) Hv) as (o & E & Lo & C & Vo).
  - intros q Hq. rewrite Forall_forall in Hr. apply Hr, nth_In. lia.
  - apply eqv_refl.
  - exists (map (fun x => mmul p x (np_ninv np)) o).
    assert (Cn' : rep (np_ninv np)) by (apply crep_rep; exact Cn).
    split; [|split; [|split]].
    + unfold inverse_ntt. rewrite Hv, log2_n. destruct (Nat.eqb_spec n 0); [lia|].
      rewrite Nat.eqb_refl. cbn [negb]. rewrite Nat.sub_0_r, Nat.sub_diag in E. rewrite E. reflexivity.
    + rewrite map_length. exact Lo.
    + apply Forall_map. apply Forall_nth. intros i d Hi. rewrite nth_indep with (d' := 0) by exact Hi.
      apply mmul_crep; [exact G|apply C; lia|exact Cn'].
    + intros q Hq. unfold V at 1. rewrite (nth_map_any _ _ 0) by lia.
      rewrite mmul_cong by (try exact Cn'; apply C; lia). unfold scale.
      rewrite <- (Vo q Hq). apply cong_eq. unfold V. ring.
Qed.

Lemma eqv_list o1 o2 : length o1 = n -> length o2 = n -> Forall crep o1 -> Forall crep o2 ->
  eqv m L (V o1) (V o2) -> o1 = o2.
Proof.
  intros L1 L2 C1 C2 E. apply (nth_ext _ _ 0 0); [lia|]. intros i Hi.
  rewrite Forall_forall in C1, C2.
  apply (val_inj p G); [apply C1, nth_In; lia|apply C2, nth_In; lia|].
  apply (cong_small m); try apply val_range; try exact G. apply E. lia.
Qed.

Lemma V_mod v : length v = n -> eqv m L (V (map (fun x => x mod m) v)) (V v).
Proof.
  intros Hv q Hq. unfold V. rewrite (nth_map_any _ _ 0) by lia. rewrite val_mod. reflexivity.
Qed.

Lemma mod_crep_list v : Forall crep (map (fun x => x mod m) v).
Proof. apply Forall_map, Forall_forall. intros. apply mod_crep. exact G. Qed.

Theorem inverse_forward v : length v = n -> Forall rep v ->
  exists o, forward_ntt p np v = Ok o /\ inverse_ntt p np o = Ok (map (fun x => x mod m) v).
Proof.
  intros Hv Hr. destruct (forward_ok v Hv Hr) as (o & Eo & Lo & Co & Vo).
  exists o. split; [exact Eo|].
  destruct (inverse_ok o Lo) as (o' & Eo' & Lo' & Co' & Vo').
  { eapply Forall_impl; [|exact Co]. intros; apply crep_rep; assumption. }
  rewrite Eo'. f_equal. apply eqv_list; [exact Lo'|rewrite map_length; exact Hv|exact Co'|apply mod_crep_list|].
  eapply eqv_trans; [exact Vo'|]. eapply eqv_trans; [|apply eqv_sym, V_mod; exact Hv].
  assert (GC : eqv m L (gsl L Wi L (V o)) (scale (2 ^ Z.of_nat L) (V v))).
  { eapply eqv_trans; [apply gsl_eqv; [lia|exact Vo]|].
    apply gsl_ctl; [|lia]. intros h _. apply W_Wi. }
  intros q Hq. unfold scale at 1. rewrite (GC q Hq). unfold scale.
  destruct (ng_ninv L np X NG) as [Cn En]. rewrite pow_of_nat2 in En.
  rewrite Z.mul_assoc, En. apply cong_eq. ring.
Qed.

Theorem forward_inverse v : length v = n -> Forall rep v ->
  exists o, inverse_ntt p np v = Ok o /\ forward_ntt p np o = Ok (map (fun x => x mod m) v).
Proof.
  intros Hv Hr. destruct (inverse_ok v Hv Hr) as (o & Eo & Lo & Co & Vo).
  exists o. split; [exact Eo|].
  destruct (forward_ok o Lo) as (o' & Eo' & Lo' & Co' & Vo').
  { eapply Forall_impl; [|exact Co]. intros; apply crep_rep; assumption. }
  rewrite Eo'. f_equal. apply eqv_list; [exact Lo'|rewrite map_length; exact Hv|exact Co'|apply mod_crep_list|].
  eapply eqv_trans; [exact Vo'|]. eapply eqv_trans; [|apply eqv_sym, V_mod; exact Hv].
  eapply eqv_trans; [apply ctl_eqv; [lia|exact Vo]|].
  eapply eqv_trans; [apply ctl_scale; lia|].
  assert (GC : eqv m L (ctl L W L (gsl L Wi L (V v))) (scale (2 ^ Z.of_nat L) (V v))).
  { apply ctl_gsl; [|lia]. intros h _. apply W_Wi. }
  intros q Hq. unfold scale at 1. rewrite (GC q Hq). unfold scale.
  destruct (ng_ninv L np X NG) as [Cn En]. rewrite pow_of_nat2 in En.
  rewrite Z.mul_assoc, En. apply cong_eq. ring.
Qed.

(** ** Evaluation points *)

Lemma W_zero : W 0 = 1.
Proof. unfold W. rewrite bitrev_zero. reflexivity. Qed.

Lemma W_sq h : (1 <= h < n)%nat -> cong m (W h * W h) (zeta W h).
Proof.
  intros Hh. unfold W at 1 2. rewrite <- Z.pow_add_r by lia. rewrite <- Nat2Z.inj_add.
  replace (bitrev h L + bitrev h L)%nat with (2 * bitrev h L)%nat by lia.
  pose proof (Nat.div_mod h 2 ltac:(lia)) as D. pose proof (Nat.mod_upper_bound h 2 ltac:(lia)) as U.
  set (g := (h / 2)%nat) in *. destruct (Nat.eq_dec (h mod 2) 0) as [E|E].
  - replace h with (2 * g)%nat by lia. rewrite zeta_even, bitrev_double_even by lia. reflexivity.
  - replace h with (2 * g + 1)%nat by lia. rewrite zeta_odd, bitrev_double_odd by lia.
    rewrite Nat2Z.inj_add, Z.pow_add_r by lia. rewrite (ng_root L np X NG). unfold W.
    apply cong_eq. ring.
Qed.

(** the j-th evaluation point is X^(2 brv(j) + 1) *)
Lemma pt_eq j : (j < n)%nat -> cong m (pt L W j) (X ^ Z.of_nat (2 * bitrev j L + 1)).
Proof.
  intros Hj. unfold pt. pose proof (ng_L L np X NG) as HL.
  pose proof (ng_root L np X NG) as RT.
  assert (exists l, L = S l) as [l El] by (exists (pred L); lia).
  unfold zeta, W. rewrite El in *. rewrite Nat.pow_succ_r' in *.
  pose proof (Nat.div_mod j 2 ltac:(lia)) as D. pose proof (Nat.mod_upper_bound j 2 ltac:(lia)) as U.
  set (g := (j / 2)%nat) in *. destruct (Nat.eq_dec (j mod 2) 0) as [E|E].
  - replace j with (2 * g)%nat by lia. rewrite bitrev_even.
    replace (2 * 2 ^ l + 2 * g)%nat with (2 * (2 ^ l + g))%nat by lia.
    rewrite Nat.even_mul. cbn [Nat.even orb].
    rewrite (Nat.mul_comm 2 (2 ^ l + g)), Nat.div_mul by lia. rewrite bitrev_high by lia. reflexivity.
  - replace j with (2 * g + 1)%nat by lia. rewrite bitrev_odd.
    replace (2 * 2 ^ l + (2 * g + 1))%nat with (1 + 2 * (2 ^ l + g))%nat by lia.
    rewrite Nat.even_add_mul_2. cbn [Nat.even].
    replace ((1 + 2 * (2 ^ l + g)) / 2)%nat with (2 ^ l + g)%nat
      by (apply Nat.div_unique with 1%nat; lia).
    rewrite bitrev_high by lia.
    replace (2 * (2 ^ l + bitrev g l) + 1)%nat with (2 * 2 ^ l + (2 * bitrev g l + 1))%nat by lia.
    rewrite (Nat2Z.inj_add (2 * 2 ^ l)), Z.pow_add_r by lia. rewrite RT.
    apply cong_eq. ring.
Qed.

Theorem forward_eval v : length v = n -> Forall rep v ->
  exists out, forward_ntt p np v = Ok out /\ length out = n /\ Forall crep out /\
    forall j, (j < n)%nat ->
      cong m (val (nth j out 0))
        (zsum n (fun i => val (nth i v 0) * (X ^ Z.of_nat (2 * bitrev j L + 1)) ^ Z.of_nat i)).
Proof.
  intros Hv Hr. destruct (forward_ok v Hv Hr) as (o & Eo & Lo & Co & Vo).
  exists o. split; [exact Eo|]. split; [exact Lo|]. split; [exact Co|].
  intros j Hj. fold (V o j). rewrite (Vo j Hj).
  rewrite (ctl_full m L W W_sq (V v) j Hj).
  apply zsum_cong. intros i Hi. rewrite (pt_eq j Hj). reflexivity.
Qed.

End Transform.

End Params.
