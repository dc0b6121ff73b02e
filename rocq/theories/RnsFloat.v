(** The floating-point quotient of SwitchRnsBasis: a rounding error model and
    its consequence, that the rounded sum is the nearest integer when the value
    is not too close to half of the modulus. *)
From Coq Require Import Znumtheory QArith Qabs Qround Lqa.
From Verif Require Import Base FinSum Ring RnsPoly RnsSpec CrtMath RnsSub RnsProofs RnsBasis.
Local Open Scope Z_scope.

(** Each operation returns the exact result up to a relative error eps, and
    rounding is to the nearest integer. IEEE double precision with the default
    rounding mode satisfies this with eps = 2^-53 on the values of this
    computation, which neither overflow nor become subnormal. *)
Record float_model (D : dops) (val : d_t D -> Q) (eps : Q) : Prop := {
  fm_eps : (0 <= eps)%Q;
  fm_zero : (val (d_zero D) == 0)%Q;
  fm_of_int : forall z, 0 <= z -> (Qabs (val (d_of_int D z) - inject_Z z) <= eps * inject_Z z)%Q;
  fm_add : forall x y, (0 <= val x)%Q -> (0 <= val y)%Q ->
    (Qabs (val (d_add D x y) - (val x + val y)) <= eps * (val x + val y))%Q;
  fm_div : forall x y, (0 <= val x)%Q -> (0 < val y)%Q ->
    (Qabs (val (d_div D x y) - val x / val y) <= eps * (val x / val y))%Q;
  fm_round : forall x, (0 <= val x)%Q -> d_round D x = Ok (Qfloor (val x + (1 # 2)))
}.

(** the model without rounding errors *)
Definition exact_dops : dops := {|
  d_t := Q; d_of_int := inject_Z; d_zero := 0%Q; d_add := Qplus; d_div := Qdiv;
  d_round := fun x => Ok (Qfloor (x + (1 # 2))) |}.

Lemma Qabs_self x : (Qabs (x - x) <= 0)%Q.
Proof. assert (E : (x - x == 0)%Q) by ring. rewrite E. cbn. lra. Qed.

Lemma exact_model : float_model exact_dops (fun x => x) 0.
Proof.
  constructor.
  - lra.
  - reflexivity.
  - intros z _. eapply Qle_trans; [apply (Qabs_self (inject_Z z))|lra].
  - intros x y _ _. eapply Qle_trans; [apply (Qabs_self (x + y))|lra].
  - intros x y _ _. eapply Qle_trans; [apply (Qabs_self (x / y))|lra].
  - reflexivity.
Qed.

Lemma Qabs_iff x e : (Qabs x <= e <-> - e <= x /\ x <= e)%Q.
Proof. apply Qabs_Qle_condition. Qed.

(** one quotient *)
Lemma term_error (a q a' q' r e : Q) : (0 <= e)%Q -> (e <= 1 # 16)%Q -> (0 <= a)%Q -> (a <= q)%Q -> (0 < q)%Q ->
  (Qabs (a' - a) <= e * a -> Qabs (q' - q) <= e * q -> Qabs (r - a' / q') <= e * (a' / q') ->
  0 <= r /\ Qabs (r - a / q) <= 4 * e)%Q.
Proof.
  intros E0 E1 A0 Aq Q0 Ha Hq Hr. apply Qabs_iff in Ha, Hq, Hr.
  assert (Q' : (0 < q')%Q) by nra. assert (A' : (0 <= a')%Q) by nra.
  set (s := (a' / q')%Q) in *. set (t := (a / q)%Q) in *.
  assert (Es : (s * q' == a')%Q) by (unfold s; field; intros X; rewrite X in Q'; lra).
  assert (Et : (t * q == a)%Q) by (unfold t; field; intros X; rewrite X in Q0; lra).
  assert (S0 : (0 <= s)%Q) by (unfold s; apply Qle_shift_div_l; [exact Q'|lra]).
  assert (T0 : (0 <= t)%Q) by (unfold t; apply Qle_shift_div_l; [exact Q0|lra]).
  assert (T1 : (t <= 1)%Q) by (unfold t; apply Qle_shift_div_r; [exact Q0|lra]).
  (* s q (1-e) <= s q' = a' <= (1+e) t q, and the reverse *)
  assert (U : (s * (1 - e) <= (1 + e) * t)%Q).
  { apply (Qmult_le_l _ _ q Q0). nra. }
  assert (V : ((1 - e) * t <= s * (1 + e))%Q).
  { apply (Qmult_le_l _ _ q Q0). nra. }
  assert (S2 : (s <= (1 + 3 * e) * t)%Q) by nra.
  split; [nra|]. apply Qabs_iff. split; nra.
Qed.

Section Sum.
Variables (D : dops) (val : d_t D -> Q) (eps : Q).
Hypothesis FM : float_model D val eps.
Variables (k : Z) (L : nat) (ms : list pmod).
Hypothesis OK : moduli_ok k L ms.

Definition exact_sum (l : list pmod) (x : pmod -> Z) : Q :=
  fold_right (fun m acc => (inject_Z (x m) / inject_Z (modulus m) + acc)%Q) 0%Q l.

Lemma inj_pos z : 0 < z -> (0 < inject_Z z)%Q.
Proof. intros H. change 0%Q with (inject_Z 0). rewrite <- Zlt_Qlt. exact H. Qed.
Lemma inj_nonneg z : 0 <= z -> (0 <= inject_Z z)%Q.
Proof. intros H. change 0%Q with (inject_Z 0). rewrite <- Zle_Qle. exact H. Qed.

Lemma float_term m z : mod_ok k L m -> 0 <= z <= modulus m -> (eps <= 1 # 16)%Q ->
  (0 <= val (d_div D (d_of_int D z) (d_of_int D (modulus m))) /\
   Qabs (val (d_div D (d_of_int D z) (d_of_int D (modulus m))) - inject_Z z / inject_Z (modulus m)) <= 4 * eps)%Q.
Proof.
  intros O Hz He. pose proof (ok_q k L m O) as Q1. pose proof (fm_eps _ _ _ FM) as E0.
  pose proof (fm_of_int _ _ _ FM z (proj1 Hz)) as A. pose proof (fm_of_int _ _ _ FM (modulus m) ltac:(lia)) as B.
  pose proof (inj_nonneg z (proj1 Hz)) as Z0. pose proof (inj_pos (modulus m) ltac:(lia)) as M0.
  assert (ZM : (inject_Z z <= inject_Z (modulus m))%Q) by (rewrite <- Zle_Qle; lia).
  assert (P1 : (0 <= val (d_of_int D z))%Q) by (apply Qabs_iff in A; nra).
  assert (P2 : (0 < val (d_of_int D (modulus m)))%Q) by (apply Qabs_iff in B; nra).
  apply (term_error (inject_Z z) (inject_Z (modulus m)) (val (d_of_int D z)) (val (d_of_int D (modulus m))) _ eps); try assumption.
  apply (fm_div _ _ _ FM); assumption.
Qed.

(** i terms already added into acc, with sum s *)
Lemma float_sum_error x : (forall m, In m ms -> 0 <= x m < modulus m) -> forall l, incl l ms -> forall acc s i,
  (0 <= val acc)%Q -> 0 <= i -> (0 <= s <= inject_Z i)%Q ->
  (Qabs (val acc - s) <= eps * inject_Z (i * (i + 6)))%Q ->
  (eps * inject_Z ((i + Z.of_nat (length l)) * (i + Z.of_nat (length l) + 6)) <= 1 # 2)%Q ->
  (eps <= 1 # 16)%Q ->
  let r := fold_left (fun acc m => d_add D acc (d_div D (d_of_int D (x m)) (d_of_int D (modulus m)))) l acc in
  (0 <= val r /\ Qabs (val r - (s + exact_sum l x)) <= eps * inject_Z ((i + Z.of_nat (length l)) * (i + Z.of_nat (length l) + 6)))%Q.
Proof.
  intros Hx. pose proof (fm_eps _ _ _ FM) as E0.
  induction l as [|m l IH]; intros Inc acc s i A0 I0 Sr Err B He; cbn [fold_left].
  - cbn [exact_sum fold_right length]. rewrite !Z.add_0_r. split; [exact A0|].
    assert (E : (val acc - (s + 0) == val acc - s)%Q) by ring. rewrite E. exact Err.
  - assert (Im : In m ms) by (apply Inc; left; reflexivity). pose proof (moduli_in _ _ _ _ OK Im) as O.
    destruct (float_term m (x m) O ltac:(specialize (Hx m Im); lia) He) as [T0 T1].
    set (d := d_div D (d_of_int D (x m)) (d_of_int D (modulus m))) in *.
    pose proof (fm_add _ _ _ FM acc d A0 T0) as AD.
    pose proof (ok_q k L m O) as Q1. pose proof (inj_pos (modulus m) ltac:(lia)) as M0.
    set (t := (inject_Z (x m) / inject_Z (modulus m))%Q) in *.
    assert (t0 : (0 <= t)%Q) by (unfold t; apply Qle_shift_div_l; [exact M0|]; pose proof (inj_nonneg (x m) (proj1 (Hx m Im))); lra).
    assert (t1 : (t <= 1)%Q).
    { unfold t. apply Qle_shift_div_r; [exact M0|]. rewrite Qmult_1_l, <- Zle_Qle. specialize (Hx m Im). lia. }
    assert (Li : (inject_Z (i + 1) == inject_Z i + 1)%Q) by (rewrite inject_Z_plus; reflexivity).
    assert (Ee : (eps * inject_Z (i * (i + 6)) <= 1 # 2)%Q).
    { eapply Qle_trans; [|exact B]. rewrite !(Qmult_comm eps). apply Qmult_le_compat_r; [|exact E0]. rewrite <- Zle_Qle. nia. }
    cbn [length] in *.
    destruct (IH ltac:(intros y Hy; apply Inc; right; exact Hy) (d_add D acc d) (s + t)%Q (i + 1)) as [R0 R1].
    + apply Qabs_iff in AD. pose proof (fm_eps _ _ _ FM). nra.
    + lia.
    + rewrite Li. split; lra.
    + assert (P : (inject_Z ((i + 1) * (i + 1 + 6)) == inject_Z (i * (i + 6)) + (2 * inject_Z i + 7))%Q).
      { replace ((i + 1) * (i + 1 + 6)) with (i * (i + 6) + (2 * i + 7)) by ring.
        rewrite !inject_Z_plus, inject_Z_mult. reflexivity. }
      rewrite P. apply Qabs_iff in AD, T1, Err. pose proof (inj_nonneg i I0) as Ii.
      set (I := inject_Z i) in *. set (W := inject_Z (i * (i + 6))) in *. set (va := val acc) in *. set (vd := val d) in *.
      set (vs := val (d_add D acc d)) in *.
      assert (X : (va + vd <= I + 1 + (1 # 2) + (1 # 4))%Q) by lra.
      assert (Y : (eps * (va + vd) <= eps * (I + 1 + (1 # 2) + (1 # 4)))%Q).
      { rewrite !(Qmult_comm eps). apply Qmult_le_compat_r; assumption. }
      assert (Z1 : (0 <= eps * I)%Q) by (apply Qmult_le_0_compat; assumption).
      apply Qabs_iff. split; lra.
    + replace (i + 1 + Z.of_nat (length l)) with (i + Z.of_nat (S (length l))) by lia. exact B.
    + exact He.
    + split; [exact R0|]. replace (i + 1 + Z.of_nat (length l)) with (i + Z.of_nat (S (length l))) in R1 by lia.
      cbn [exact_sum fold_right]. fold (exact_sum l x). fold t.
      assert (E : (s + (t + exact_sum l x) == s + t + exact_sum l x)%Q) by ring. rewrite E. exact R1.
Qed.

Hypothesis DI : distinct ms.

Lemma exact_sum_value x : (exact_sum ms x * inject_Z (big_q ms) == inject_Z (sumz (map (fun m => x m * hat_of ms m)%Z ms)))%Q.
Proof.
  assert (G : forall l, incl l ms -> (exact_sum l x * inject_Z (big_q ms) == inject_Z (sumz (map (fun m => x m * hat_of ms m)%Z l)))%Q).
  { induction l as [|m l IH]; intros Inc; [cbn; ring|]. cbn [exact_sum fold_right map]. fold (exact_sum l x).
    change (sumz (?a :: ?b)) with (a + sumz b). rewrite inject_Z_plus, <- IH by (intros y Hy; apply Inc; right; exact Hy).
    assert (Im : In m ms) by (apply Inc; left; reflexivity). pose proof (hat_of_mul k L ms OK m Im) as E.
    pose proof (ok_q k L m (moduli_in _ _ _ _ OK Im)) as Q1. pose proof (inj_pos (modulus m) ltac:(lia)) as M0.
    assert (EQ : (inject_Z (big_q ms) == inject_Z (modulus m) * inject_Z (hat_of ms m))%Q) by (rewrite <- E, <- inject_Z_mult; try (rewrite Z.mul_comm); reflexivity).
    rewrite EQ, inject_Z_mult. field. intros X. rewrite X in M0. lra. }
  apply G. apply incl_refl.
Qed.

(** The rounded floating-point sum is the nearest integer when the centred value
    of x is at most Q (1/2 - eps n (n+6)) in absolute value. *)
Lemma float_nearest x : let n := Z.of_nat (length ms) in let err := (eps * inject_Z (n * (n + 6)))%Q in
  (eps <= 1 # 16)%Q -> (err <= 1 # 2)%Q -> 0 < k -> Z.of_nat (length ms) < 2 ^ k ->
  (inject_Z (Z.abs (PolySpec.centered (big_q ms) x)) < ((1 # 2) - err) * inject_Z (big_q ms))%Q ->
  exists u, rounds_to D k ms x u /\ nearest ms x u.
Proof.
  intros n err He Herr Hk Hn Hx. pose proof (big_q_pos k L ms OK) as PQ. pose proof (inj_pos _ PQ) as PQ'.
  assert (Dig : forall m, In m ms -> 0 <= crt_digit ms x m < modulus m).
  { intros m I. apply Z.mod_pos_bound. pose proof (ok_q k L m (moduli_in _ _ _ _ OK I)). lia. }
  destruct (float_sum_error (crt_digit ms x) Dig ms (incl_refl ms) (d_zero D) 0%Q 0) as [R0 R1].
  - rewrite (fm_zero _ _ _ FM). lra.
  - lia.
  - split; apply Qle_refl.
  - rewrite (fm_zero _ _ _ FM). change (Qabs (0 - 0)) with 0%Q. change (inject_Z (0 * (0 + 6))) with 0%Q.
    rewrite Qmult_0_r. apply Qle_refl.
  - exact Herr.
  - exact He.
  - cbv zeta in R0, R1. fold (float_sum D ms (crt_digit ms x)) in R0, R1. cbn [Z.add] in R1. fold n in R1. fold err in R1.
    set (fl := val (float_sum D ms (crt_digit ms x))) in *.
    pose proof (exact_sum_value (crt_digit ms x)) as EX. fold (crt_value ms x) in EX.
    set (es := exact_sum ms (crt_digit ms x)) in *.
    (* the exact quotient: crt_value = c + w Q with c centred *)
    pose proof (crt_value_cong k L ms OK DI x) as CC.
    pose proof (centered_cong (big_q ms) x) as CX. 
    assert (CW : cong (big_q ms) (crt_value ms x) (PolySpec.centered (big_q ms) x)) by (rewrite CC; symmetry; exact CX).
    destruct CW as [w Ew].
    set (c := PolySpec.centered (big_q ms) x) in *.
    assert (EV : crt_value ms x = c + w * big_q ms) by lia.
    exists w.
    assert (B : (fl * inject_Z (big_q ms) <= (inject_Z w + (1 # 2)) * inject_Z (big_q ms) /\
                 (inject_Z w - (1 # 2)) * inject_Z (big_q ms) < fl * inject_Z (big_q ms) /\ fl * inject_Z (big_q ms) < (inject_Z w + (1 # 2)) * inject_Z (big_q ms))%Q).
    { rewrite EV, inject_Z_plus, inject_Z_mult in EX. apply Qabs_iff in R1.
      assert (C1 : (inject_Z c <= inject_Z (Z.abs c))%Q) by (rewrite <- Zle_Qle; lia).
      assert (C2 : (- inject_Z (Z.abs c) <= inject_Z c)%Q) by (rewrite <- inject_Z_opp, <- Zle_Qle; lia).
      set (q := inject_Z (big_q ms)) in *.
      assert (F1 : (fl * q <= (es + err) * q)%Q) by (apply Qmult_le_compat_r; lra).
      assert (F2 : ((es - err) * q <= fl * q)%Q) by (apply Qmult_le_compat_r; lra).
      split; [|split]; lra. }
    destruct B as (_ & B1 & B2). apply Qmult_lt_r in B1; [|exact PQ']. apply Qmult_lt_r in B2; [|exact PQ'].
    assert (FL : Qfloor (fl + (1 # 2)) = w).
    { pose proof (Qfloor_le (fl + (1 # 2))) as F1. pose proof (Qlt_floor (fl + (1 # 2))) as F2.
      assert (w < Qfloor (fl + (1 # 2)) + 1) by (rewrite Zlt_Qlt; eapply Qlt_le_trans; [|apply Qlt_le_weak; exact F2] || (eapply Qlt_trans; [|exact F2]); lra).
      assert (Qfloor (fl + (1 # 2)) < w + 1); [|lia]. rewrite Zlt_Qlt, inject_Z_plus. eapply Qle_lt_trans; [exact F1|]. change (inject_Z 1) with 1%Q. lra. }
    split; [split|].
    + rewrite (fm_round _ _ _ FM _ R0). fold fl. rewrite FL. reflexivity.
    + assert (0 <= crt_value ms x) by (unfold crt_value; clear - Dig OK; 
        assert (G : forall l, incl l ms -> 0 <= sumz (map (fun m => crt_digit ms x m * hat_of ms m) l));
        [induction l as [|m l IH]; intros Inc; [cbn; lia|]; cbn [map]; change (sumz (?a :: ?b)) with (a + sumz b);
         assert (Im : In m ms) by (apply Inc; left; reflexivity); pose proof (Dig m Im); pose proof (hat_of_pos k L ms OK m Im);
         specialize (IH ltac:(intros y Hy; apply Inc; right; exact Hy)); nia|apply G, incl_refl]).
      assert (UP : crt_value ms x <= n * big_q ms).
      { assert (NE : ms = [] \/ ms <> []) by (clear; destruct ms; [left; reflexivity|right; discriminate]).
        destruct NE as [NE|NE]; [unfold crt_value, n; rewrite NE; cbn; lia|].
        pose proof (sum_range k L ms (crt_digit ms x) OK NE Dig) as SR. fold (crt_value ms x) in SR. unfold n. lia. }
      pose proof (centered_fits (big_q ms) x PQ) as Fc. fold c in Fc. unfold PolySpec.fits in Fc.
      assert (0 <= w) by nia. assert (w <= n) by nia. lia.
    + unfold nearest. rewrite EV. replace (c + w * big_q ms - w * big_q ms) with c by ring.
      pose proof (centered_fits (big_q ms) x PQ) as Fc. fold c in Fc. unfold PolySpec.fits in Fc. lia.
Qed.
End Sum.
