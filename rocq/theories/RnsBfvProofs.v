(** Lemmas about the BFV ciphertext operations. *)
From Coq Require Import Setoid Ring Znumtheory QArith Qabs Qround Lqa Lia.
From Verif Require Import Base FinSum MontgomeryProofs PolySpec Ring NegRing SymSpec Montgomery MontBatch MontBatchProofs Ntt Spec ArithFacts NttFacts PolyView
  RnsPoly RnsSpec CrtMath RnsSub RnsProofs RnsReduce RnsBasis RnsBasis2 RnsFloat RnsCt RnsCtSpec RnsCtProofs RnsNoise RnsCtx RnsBfv.
Local Open Scope Z_scope.
Local Notation zsum := FinSum.zsum.

(** ** Rounding: whatever the value, the rounded sum is off by at most one *)
Section Round.
Variables (D : dops) (val : d_t D -> Q) (eps : Q).
Hypothesis FM : float_model D val eps.
Variables (k : Z) (L : nat) (ms : list pmod).
Hypothesis OK : moduli_ok k L ms.
Hypothesis DI : distinct ms.

Lemma float_near x : let n := Z.of_nat (length ms) in let err := (eps * inject_Z (n * (n + 6)))%Q in
  (eps <= 1 # 16)%Q -> (err <= 1 # 2)%Q -> 0 < k -> n < 2 ^ k -> ms <> [] ->
  exists u, rounds_to D k ms x u /\ Z.abs (crt_value ms x - u * big_q ms) <= big_q ms.
Proof.
  intros n err He Herr Hk Hn NE. pose proof (big_q_pos k L ms OK) as PQ. pose proof (inj_pos _ PQ) as PQ'.
  assert (Dig : forall m, In m ms -> 0 <= crt_digit ms x m < modulus m).
  { intros m I. apply Z.mod_pos_bound. pose proof (ok_q k L m (moduli_in _ _ _ _ OK I)). lia. }
  destruct (float_sum_error D val eps FM k L ms OK (crt_digit ms x) Dig ms (incl_refl ms) (d_zero D) 0%Q 0) as [R0 R1].
  - rewrite (fm_zero _ _ _ FM). lra.
  - lia.
  - split; apply Qle_refl.
  - rewrite (fm_zero _ _ _ FM). change (Qabs (0 - 0)) with 0%Q. change (inject_Z (0 * (0 + 6))) with 0%Q.
    rewrite Qmult_0_r. apply Qle_refl.
  - exact Herr.
  - exact He.
  - cbv zeta in R0, R1. fold (float_sum D ms (crt_digit ms x)) in R0, R1. cbn [Z.add] in R1. fold n in R1. fold err in R1.
    set (fl := val (float_sum D ms (crt_digit ms x))) in *.
    pose proof (exact_sum_value k L ms OK (crt_digit ms x)) as EX. fold (crt_value ms x) in EX.
    set (es := exact_sum ms (crt_digit ms x)) in *.
    pose proof (sum_range k L ms (crt_digit ms x) OK NE Dig) as SR. fold (crt_value ms x) in SR. fold n in SR.
    set (u := Qfloor (fl + (1 # 2))) in *. exists u.
    pose proof (Qfloor_le (fl + (1 # 2))) as F1. pose proof (Qlt_floor (fl + (1 # 2))) as F2. fold u in F1, F2.
    rewrite inject_Z_plus in F2. change (inject_Z 1) with 1%Q in F2.
    apply Qabs_iff in R1.
    assert (B1 : (es - inject_Z u <= 1)%Q) by lra. assert (B2 : (inject_Z u - es <= 1)%Q) by lra.
    set (q := inject_Z (big_q ms)) in *.
    assert (C1 : ((es - inject_Z u) * q <= 1 * q)%Q) by (apply Qmult_le_compat_r; lra).
    assert (C2 : ((inject_Z u - es) * q <= 1 * q)%Q) by (apply Qmult_le_compat_r; lra).
    assert (D1 : crt_value ms x - u * big_q ms <= big_q ms).
    { rewrite Zle_Qle. unfold Z.sub. rewrite inject_Z_plus, inject_Z_opp, inject_Z_mult. fold q. lra. }
    assert (D2 : u * big_q ms - crt_value ms x <= big_q ms).
    { rewrite Zle_Qle. unfold Z.sub. rewrite inject_Z_plus, inject_Z_opp, inject_Z_mult. fold q. lra. }
    split; [split|].
    + rewrite (fm_round _ _ _ FM _ R0). reflexivity.
    + assert (U0 : -1 < u). { rewrite Zlt_Qlt. change (inject_Z (-1)) with (-1)%Q. lra. }
      assert (u <= n) by nia. lia.
    + lia.
Qed.
End Round.

(** ** Switching with such a rounding *)
Definition near (D : dops) (k : Z) (ms : list pmod) : Prop :=
  forall x, exists u, rounds_to D k ms x u /\ Z.abs (crt_value ms x - u * big_q ms) <= big_q ms.

Lemma near_fun D k ms (F : nat -> Z) N : near D k ms -> exists u, forall i, (i < N)%nat ->
  rounds_to D k ms (F i) (u i) /\ Z.abs (crt_value ms (F i) - u i * big_q ms) <= big_q ms.
Proof.
  intros H. destruct (pick _ (fun i => H (F i)) N) as (l & _ & Hl). exists (fun i => nth i l 0). exact Hl.
Qed.

Section Switch.
Variables (k : Z) (L : nat) (D : dops).
Local Notation n := (2 ^ L)%nat.

Lemma switch_near qs ps hat_inv hat_mod q_mod a f : moduli_ok k L qs -> moduli_ok k L ps -> distinct qs -> ps <> [] ->
  hat_inverses qs (firstn (length qs) hat_inv) -> hat_residues qs ps hat_mod -> (length qs <= length hat_mod)%nat ->
  residues ps q_mod (big_q qs) -> near D k qs -> rns_is qs L false a f ->
  exists g, is_rns ps L false (rns_switch_basis D a qs ps hat_inv hat_mod q_mod) g /\
    forall i, (i < n)%nat -> cong (big_q qs) (g i) (f i) /\ Z.abs (g i) <= big_q qs.
Proof.
  intros OKq OKp DI NEp HI HR LH HQ NR Ha. destruct (near_fun D k qs f n NR) as (u & Hu).
  exists (fun i => crt_value qs (f i) - u i * big_q qs). split.
  - apply (switch_ok k L qs ps D OKq OKp DI NEp hat_inv HI hat_mod q_mod a f u HR LH HQ Ha (fun i Hi => proj1 (Hu i Hi))).
  - intros i Hi. split; [|apply (Hu i Hi)].
    transitivity (crt_value qs (f i)); [exists (- u i); ring|apply (crt_value_cong k L qs OKq DI)].
Qed.

Lemma cross_distinct qs ps : distinct (qs ++ ps) -> forall q p, In q qs -> In p ps -> modulus q <> modulus p.
Proof.
  intros DA q p Iq Ip E. unfold distinct, moduli in DA. rewrite map_app in DA.
  assert (G : forall (a b : list Z) x, NoDup (a ++ b) -> In x a -> In x b -> False).
  { induction a as [|y a IH]; intros b x N Ia Ib; [contradiction|]. cbn [app] in N. inversion N as [|? ? N1 N2]; subst.
    destruct Ia as [->|Ia]; [apply N1, in_or_app; right; exact Ib|apply (IH b x); assumption]. }
  apply (G _ _ (modulus q) DA); [apply in_map, Iq|rewrite E; apply in_map, Ip].
Qed.

Lemma scale_near qs ps hat_inv invs p_mod a f : moduli_ok k L qs -> moduli_ok k L ps -> distinct qs -> distinct (qs ++ ps) -> ps <> [] ->
  hat_inverses qs (firstn (length qs) hat_inv) -> q_inverses qs ps invs ->
  residues qs (firstn (length qs) p_mod) (big_q ps) -> near D k qs -> rns_is qs L false a f ->
  exists g, is_rns ps L false (rns_scale_and_switch D a qs ps hat_inv invs p_mod) g /\
    forall i, (i < n)%nat -> Z.abs (big_q qs * g i - big_q ps * f i) <= big_q qs.
Proof.
  intros OKq OKp DI DA NEp HI HV HP NR Ha. pose proof (big_q_pos k L qs OKq) as PQ.
  destruct (near_fun D k qs (fun i => big_q ps * f i) n NR) as (u & Hu). cbv beta in Hu.
  set (Q := big_q qs) in *. set (P := big_q ps) in *.
  set (g := fun i => (P * f i - (crt_value qs (P * f i) - u i * Q)) / Q).
  assert (EG : forall i, Q * g i = P * f i - (crt_value qs (P * f i) - u i * Q)).
  { intros i. unfold g. symmetry. apply Z_div_exact_full_2; [lia|]. apply Z.mod_divide; [lia|].
    destruct (crt_value_cong k L qs OKq DI (P * f i)) as [y Ey]. fold Q in Ey. exists (u i - y). lia. }
  exists g. split.
  - apply (scale_switch_ok k L qs ps D OKq OKp DI NEp hat_inv HI invs p_mod a f u g HV (cross_distinct qs ps DA) HP Ha (fun i Hi => proj1 (Hu i Hi))).
    intros i Hi. fold P Q. apply EG.
  - intros i Hi. rewrite EG. destruct (Hu i Hi) as [_ B]. lia.
Qed.

Lemma reduce_near qs ps hat_inv hat_mod p_mod p_inv t ntt ntt' a aux f : moduli_ok k L qs -> moduli_ok k L ps -> distinct ps -> qs <> [] ->
  hat_inverses ps (firstn (length ps) hat_inv) -> hat_residues ps qs hat_mod -> (length ps <= length hat_mod)%nat ->
  residues qs p_mod (big_q ps) -> inverses qs p_inv (big_q ps) -> 0 <= t < 2 ^ k -> near D k ps ->
  rns_is qs L ntt a f -> rns_is ps L ntt' aux f ->
  exists g, is_rns qs L ntt (rns_scale_and_reduce D a aux t qs ps hat_inv hat_mod p_mod p_inv) g /\
    forall i, (i < n)%nat -> Z.abs (big_q ps * g i - t * f i) <= big_q ps.
Proof.
  intros OKq OKp DI NEq HI HR LH HP HV Ht NR Ha Hb. pose proof (big_q_pos k L ps OKp) as PP.
  destruct (near_fun D k ps (fun i => t * f i) n NR) as (u & Hu). cbv beta in Hu.
  set (P := big_q ps) in *.
  set (g := fun i => (t * f i - (crt_value ps (t * f i) - u i * P)) / P).
  assert (EG : forall i, P * g i = t * f i - (crt_value ps (t * f i) - u i * P)).
  { intros i. unfold g. symmetry. apply Z_div_exact_full_2; [lia|]. apply Z.mod_divide; [lia|].
    destruct (crt_value_cong k L ps OKp DI (t * f i)) as [y Ey]. fold P in Ey. exists (u i - y). lia. }
  exists g. split.
  - apply (scale_reduce_ok k L qs ps D OKq OKp DI NEq hat_inv hat_mod p_mod p_inv t ntt ntt' a aux f u g HI HR LH HP HV Ht Ha Hb (fun i Hi => proj1 (Hu i Hi))).
    intros i Hi. fold P. apply EG.
  - intros i Hi. rewrite EG. destruct (Hu i Hi) as [_ B]. lia.
Qed.
End Switch.

(** ** The tensor product over the integers *)
Fixpoint trow (n : nat) (f : nat -> Z) (hs : list (nat -> Z)) (idx : nat) (gs : list (nat -> Z)) : list (nat -> Z) :=
  match hs with
  | [] => gs
  | h :: hs => trow n f hs (S idx) (upd gs idx (padd (nth idx gs pzero) (negacyclic n f h)))
  end.

Lemma trow_len n f hs : forall idx gs, length (trow n f hs idx gs) = length gs.
Proof. induction hs as [|h hs IH]; intros idx gs; cbn [trow]; [reflexivity|]. rewrite IH. apply upd_len. Qed.

Section TRow.
Variables (Q : Z) (n : nat).
Hypothesis Hn : (0 < n)%nat.
Add Ring NRt : (neg_ring Q n Hn) (setoid (pcong_equiv Q n) (neg_ring_ext Q n)).

Lemma trow_phase S0 f hs : forall idx gs, (idx + length hs <= length gs)%nat ->
  pcong Q n (phase_of n S0 (trow n f hs idx gs))
    (padd (phase_of n S0 gs) (negacyclic n (npow n S0 idx) (negacyclic n f (phase_of n S0 hs)))).
Proof.
  induction hs as [|h hs IH]; intros idx gs Hl; cbn [trow].
  - rewrite phase_nil. ring.
  - cbn [length] in Hl. rewrite IH by (rewrite upd_len; lia). rewrite (phase_upd Q n Hn) by lia.
    rewrite (phase_cons Q n Hn _ h), (npow_succ Q n Hn). ring.
Qed.
End TRow.

Lemma trow_ok k L ms : moduli_ok k L ms -> k <> 16 -> forall ci f, rns_is ms L true ci f -> forall d hs, Forall2 (rns_is ms L true) d hs ->
  forall idx res gs, Forall2 (rns_is ms L true) res gs -> (idx + length d <= length res)%nat ->
  exists res', rct_mul_row ms ci d idx res = Ok res' /\ Forall2 (rns_is ms L true) res' (trow (2 ^ L) f hs idx gs).
Proof.
  intros OK K16 ci f Hf d hs HF. induction HF as [|dj h d hs Hd HF IH]; intros idx res gs Hr Hl.
  - exists res. cbn [rct_mul_row trow]. auto.
  - cbn [rct_mul_row trow]. cbn [length] in Hl. pose proof (Forall2_len _ _ _ Hr) as Lr.
    rewrite (get_ok res idx dj) by lia. cbn [bind].
    pose proof (Forall2_nth_ _ dj pzero _ _ idx Hr ltac:(lia)) as Hi.
    destruct (rns_fused_is k L ms OK _ ci dj _ f h K16 Hi Hf Hd) as (y & Ey & Hy). rewrite Ey. cbn [bind].
    apply IH; [apply Forall2_upd; assumption|rewrite upd_len; lia].
Qed.
