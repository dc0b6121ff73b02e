(** Facts about one sub-polynomial (one prime modulus) of an RNS polynomial. *)
From Coq Require Import Znumtheory.
From Verif Require Import Base FinSum PolySpec Ring Montgomery MontBatch Ntt Poly PolyExt MontgomeryProofs
  MontBatchProofs Spec PolyView ArithFacts NttFacts NttProofs PolyProofs PolyFacts ThmArith ThmPoly ThmPolyExt
  RnsPoly RnsSpec.

Section Sub.
Variables (k : Z) (L : nat) (m : pmod).
Hypothesis OK : mod_ok k L m.
Local Notation p := (pm_p m).
Local Notation np := (pm_np m).
Local Notation q := (modulus m).
Local Notation n := (2 ^ L)%nat.

Lemma ok_for : params_for k q p.
Proof. apply OK. Qed.
Lemma ok_good : good p.
Proof. apply (pf_good _ _ _ ok_for). Qed.
Lemma ok_ctx : ctx p L np.
Proof. destruct OK as [H1 H2]. apply (mk_ctx _ _ _ _ _ H1 H2). Qed.
Lemma ok_k : p_k p = k.
Proof. apply (pf_good _ _ _ ok_for). Qed.
Lemma ok_prime : prime q.
Proof. apply OK. Qed.
Lemma ok_q : 1 < q.
Proof. apply (m_gt1 p ok_good). Qed.
Lemma ok_qk : 4 * q < 2 ^ k.
Proof. rewrite <- ok_k. apply (m4 p ok_good). Qed.
Lemma ok_n : (0 < n)%nat.
Proof. apply NttMath.pow2_gt0. Qed.

Lemma sub_ext ntt v f g : sub_is m L ntt v f -> (forall i, (i < n)%nat -> cong q (f i) (g i)) -> sub_is m L ntt v g.
Proof.
  intros [P V] H. split; [exact P|]. intros i Hi. rewrite (V i Hi). pose proof ok_q.
  apply cong_to_mod; [lia|]. apply H, Hi.
Qed.

Lemma sub_self ntt v : ntt_poly p L v -> sub_is m L ntt v (rcoeff m ntt v).
Proof.
  intros P. split; [exact P|]. intros i Hi. symmetry. apply Z.mod_small. unfold rcoeff. destruct ntt.
  - apply (coeff_range p L np ok_ctx v i P Hi).
  - destruct P as [Lv Sv]. rewrite Forall_forall in Sv. rewrite stored_val; [|exact ok_good|apply Sv, nth_In; lia].
    apply val_range, ok_good.
Qed.

(** coefficient form: elementwise *)
Lemma rcoeff_form v f : sub_is m L false v f <->
  length v = n /\ (forall i, (i < n)%nat -> residue m (nth i v 0) (f i)).
Proof.
  unfold sub_is, rcoeff, residue. split.
  - intros [[Lv Sv] V]. split; [exact Lv|]. intros i Hi. split; [|auto].
    rewrite Forall_forall in Sv. apply Sv, nth_In. lia.
  - intros [Lv H]. split; [split; [exact Lv|]|].
    + apply Forall_forall. intros x Hx. destruct (In_nth _ _ 0 Hx) as (i & Hi & <-). apply H. lia.
    + intros i Hi. apply H, Hi.
Qed.

Lemma residue_val w x : residue m w x -> stored p w /\ val p w = x mod q.
Proof. intros [S E]. split; [exact S|]. rewrite <- stored_val by (try exact S; exact ok_good). exact E. Qed.

Lemma residue_intro w x : stored p w -> val p w = x mod q -> residue m w x.
Proof. intros S E. split; [exact S|]. rewrite stored_val by (try exact S; exact ok_good). exact E. Qed.

Lemma residue_ext w x y : residue m w x -> cong q x y -> residue m w y.
Proof. intros [S E] C. split; [exact S|]. rewrite E. pose proof ok_q. apply cong_to_mod; [lia|exact C]. Qed.

Lemma residue_add a b x y : residue m a x -> residue m b y -> residue m (madd p a b) (x + y).
Proof.
  intros Ha Hb. destruct (residue_val a x Ha) as [Sa Va]. destruct (residue_val b y Hb) as [Sb Vb].
  apply residue_intro; [apply crep_rep, madd_crep; try assumption; exact ok_good|].
  rewrite madd_val by (try assumption; exact ok_good). rewrite Va, Vb. symmetry. apply Zplus_mod.
Qed.
Lemma residue_sub a b x y : residue m a x -> residue m b y -> residue m (msub p a b) (x - y).
Proof.
  intros Ha Hb. destruct (residue_val a x Ha) as [Sa Va]. destruct (residue_val b y Hb) as [Sb Vb].
  apply residue_intro; [apply crep_rep, msub_crep; try assumption; exact ok_good|].
  rewrite msub_val by (try assumption; exact ok_good). rewrite Va, Vb. symmetry. apply Zminus_mod.
Qed.
Lemma residue_mul a b x y : residue m a x -> residue m b y -> residue m (mmul p a b) (x * y).
Proof.
  intros Ha Hb. destruct (residue_val a x Ha) as [Sa Va]. destruct (residue_val b y Hb) as [Sb Vb].
  apply residue_intro; [apply crep_rep, mmul_crep; try assumption; exact ok_good|].
  rewrite mmul_val by (try assumption; exact ok_good). rewrite Va, Vb. symmetry. apply Zmult_mod.
Qed.
Lemma residue_neg a x : residue m a x -> residue m (mneg p a) (- x).
Proof.
  intros Ha. destruct (residue_val a x Ha) as [Sa Va].
  apply residue_intro; [apply mneg_rep; try assumption; exact ok_good|].
  rewrite mneg_val by (try assumption; exact ok_good). rewrite Va. pose proof ok_q.
  apply cong_to_mod; [unfold modulus in *; lia|]. unfold modulus. rewrite cong_mod. reflexivity.
Qed.
Lemma residue_import x : 0 <= x < 2 ^ k -> residue m (import_int p x) x.
Proof.
  intros H. rewrite <- ok_k in H. pose proof ok_good as G.
  apply residue_intro; [apply crep_rep, import_crep; assumption|]. apply import_val; assumption.
Qed.
Lemma residue_zero : residue m (import_zero p) 0.
Proof.
  pose proof ok_q. apply residue_intro; [split; unfold import_zero, modulus in *; lia|].
  rewrite zero_val by exact ok_good. symmetry. apply Z.mod_0_l. lia.
Qed.
Lemma residue_one : residue m (import_one p) 1.
Proof.
  pose proof ok_q. apply residue_intro; [apply crep_rep, one_crep, ok_good|].
  rewrite one_val by exact ok_good. symmetry. apply Z.mod_small. lia.
Qed.

Lemma sub_res v f i : sub_is m L false v f -> (i < n)%nat -> residue m (nth i v 0) (f i).
Proof. intros H Hi. apply (proj2 (proj1 (rcoeff_form v f) H) i Hi). Qed.
Lemma sub_len ntt v f : sub_is m L ntt v f -> length v = n.
Proof. intros [[H _] _]. exact H. Qed.

Lemma map2_is (op : Z -> Z -> Z) (zop : Z -> Z -> Z) v w f g :
  (forall a b x y, residue m a x -> residue m b y -> residue m (op a b) (zop x y)) ->
  sub_is m L false v f -> sub_is m L false w g -> sub_is m L false (map2 op v w) (fun i => zop (f i) (g i)).
Proof.
  intros Hop Hv Hw. pose proof (sub_len _ _ _ Hv) as Lv. pose proof (sub_len _ _ _ Hw) as Lw.
  apply rcoeff_form. split; [rewrite map2_length; lia|]. intros i Hi.
  rewrite (nth_map2 op 0 0 0) by lia. apply Hop; apply sub_res; assumption.
Qed.
Lemma map_is (op : Z -> Z) (zop : Z -> Z) v f :
  (forall a x, residue m a x -> residue m (op a) (zop x)) ->
  sub_is m L false v f -> sub_is m L false (map op v) (fun i => zop (f i)).
Proof.
  intros Hop Hv. pose proof (sub_len _ _ _ Hv) as Lv.
  apply rcoeff_form. split; [rewrite map_length; lia|]. intros i Hi.
  rewrite (nth_map_any _ _ 0) by lia. apply Hop, sub_res; assumption.
Qed.

(** ** operations, in either form *)

Lemma result_sub r f : result_poly p L np r f -> exists w, r = Ok w /\ sub_is m L true w f.
Proof. intros (c & E & P & V). exists c. split; [exact E|]. split; assumption. Qed.

Lemma sub_add ntt v w f g : sub_is m L ntt v f -> sub_is m L ntt w g ->
  exists r, batch_add p v w = Ok r /\ sub_is m L ntt r (fun i => f i + g i).
Proof.
  intros Hv Hw. destruct ntt.
  - destruct Hv as [Pv Vv], Hw as [Pw Vw].
    destruct (result_sub _ _ (add_coeff p L np ok_ctx v w Pv Pw)) as (r & E & Hr). exists r. split; [exact E|].
    eapply sub_ext; [exact Hr|]. intros i Hi. cbv beta. unfold rcoeff in *. rewrite Vv, Vw by exact Hi.
    rewrite !cong_mod. reflexivity.
  - pose proof (sub_len _ _ _ Hv) as Lv. pose proof (sub_len _ _ _ Hw) as Lw.
    unfold batch_add. rewrite (proj2 (same_len_spec v w)) by lia. eexists. split; [reflexivity|].
    apply (map2_is (madd p) Z.add); try assumption. apply residue_add.
Qed.
Lemma sub_sub ntt v w f g : sub_is m L ntt v f -> sub_is m L ntt w g ->
  exists r, batch_sub p v w = Ok r /\ sub_is m L ntt r (fun i => f i - g i).
Proof.
  intros Hv Hw. destruct ntt.
  - destruct Hv as [Pv Vv], Hw as [Pw Vw].
    destruct (result_sub _ _ (sub_coeff p L np ok_ctx v w Pv Pw)) as (r & E & Hr). exists r. split; [exact E|].
    eapply sub_ext; [exact Hr|]. intros i Hi. cbv beta. unfold rcoeff in *. rewrite Vv, Vw by exact Hi.
    rewrite !cong_mod. reflexivity.
  - pose proof (sub_len _ _ _ Hv) as Lv. pose proof (sub_len _ _ _ Hw) as Lw.
    unfold batch_sub. rewrite (proj2 (same_len_spec v w)) by lia. eexists. split; [reflexivity|].
    apply (map2_is (msub p) Z.sub); try assumption. apply residue_sub.
Qed.
Lemma sub_neg ntt v f : sub_is m L ntt v f -> sub_is m L ntt (map (mneg p) v) (fun i => - f i).
Proof.
  intros Hv. destruct ntt.
  - destruct Hv as [Pv Vv].
    destruct (result_sub _ _ (neg_coeff p L np ok_ctx v Pv)) as (r & E & Hr). injection E as <-.
    eapply sub_ext; [exact Hr|]. intros i Hi. cbv beta. unfold rcoeff in *. rewrite Vv by exact Hi.
    rewrite !cong_mod. reflexivity.
  - apply (map_is (mneg p) Z.opp); [apply residue_neg|exact Hv].
Qed.
Lemma sub_scale ntt v f w x : sub_is m L ntt v f -> residue m w x ->
  exists r, batch_mul_scalar p v w = Ok r /\ sub_is m L ntt r (fun i => x * f i).
Proof.
  intros Hv Hw. destruct ntt.
  - destruct Hv as [Pv Vv].
    destruct (result_sub _ _ (mul_scalar_coeff p L np ok_ctx v Pv w (proj1 Hw))) as (r & E & Hr). exists r. split; [exact E|].
    eapply sub_ext; [exact Hr|]. intros i Hi. cbv beta. unfold rcoeff in *. rewrite Vv by exact Hi.
    rewrite (proj2 Hw), !cong_mod. reflexivity.
  - eexists. split; [reflexivity|].
    apply (map_is (fun y => mmul p y w) (fun y => x * y)); [|exact Hv].
    intros a y Ha. eapply residue_ext; [apply residue_mul; [exact Ha|exact Hw]|]. apply cong_eq. ring.
Qed.
Lemma sub_mul v w f g : sub_is m L true v f -> sub_is m L true w g ->
  exists r, batch_mul p v w = Ok r /\ sub_is m L true r (negacyclic n f g).
Proof.
  intros [Pv Vv] [Pw Vw].
  destruct (result_sub _ _ (mul_coeff p L np ok_ctx v w Pv Pw)) as (r & E & Hr). exists r. split; [exact E|].
  eapply sub_ext; [exact Hr|]. intros i Hi. unfold rcoeff in *. apply zsum_cong. intros j Hj.
  destruct (Nat.leb_spec j i); rewrite Vv, Vw by lia; rewrite !cong_mod; reflexivity.
Qed.
Lemma sub_fused x v w h f g : k <> 16 -> sub_is m L true x h -> sub_is m L true v f -> sub_is m L true w g ->
  exists r, batch_fused_mul_add p x v w = Ok r /\ sub_is m L true r (fun i => h i + negacyclic n f g i).
Proof.
  intros Hk [Px Vx] [Pv Vv] [Pw Vw].
  destruct (result_sub _ _ (fused_coeff p L np ok_ctx v w Pv Pw x Px ltac:(rewrite ok_k; exact Hk))) as (r & E & Hr).
  exists r. split; [exact E|].
  eapply sub_ext; [exact Hr|]. intros i Hi. cbv beta. unfold rcoeff in *. rewrite Vx by exact Hi.
  rewrite cong_mod. apply add_cong; [reflexivity|]. apply zsum_cong. intros j Hj.
  destruct (Nat.leb_spec j i); rewrite Vv, Vw by lia; rewrite !cong_mod; reflexivity.
Qed.

Lemma sub_forward v f : sub_is m L false v f ->
  exists r, forward_ntt p np v = Ok r /\ sub_is m L true r f.
Proof.
  intros Hv. pose proof (sub_len _ _ _ Hv) as Lv. destruct Hv as [[_ Sv] Vv].
  destruct ok_ctx as [G NG].
  destruct (forward_eval p G L np _ NG v Lv Sv) as (o & E & Lo & _).
  destruct (convert_coeff p L np ok_ctx v Lv Sv) as (c & Ec & Pc & Vc).
  assert (o = c) as <-.
  { unfold convert_to_ntt in Ec. rewrite E in Ec. pose proof ok_n. destruct o; [cbn in Lo; lia|]. cbn in Ec. congruence. }
  exists o. split; [exact E|]. split; [exact Pc|]. intros i Hi. unfold rcoeff in *.
  rewrite Vc by exact Hi. rewrite Vv by exact Hi. apply Zmod_mod.
Qed.

Lemma sub_inverse v f : sub_is m L true v f ->
  exists r, inverse_ntt p np v = Ok r /\ sub_is m L false r f.
Proof.
  intros [[Lv Sv] Vv]. destruct ok_ctx as [G NG].
  destruct (inverse_ok p G L np _ NG v Lv Sv) as (r & E & Lr & Cr & _).
  exists r. split; [exact E|]. split; [split; [exact Lr|]|].
  - eapply Forall_impl; [|exact Cr]. intros; apply crep_rep; assumption.
  - intros i Hi. unfold rcoeff in *. rewrite <- (Vv i Hi). unfold coeff, inverse_ntt_poly. rewrite E. reflexivity.
Qed.

Lemma sub_zero ntt : sub_is m L ntt (repeat (import_zero p) n) (fun _ => 0).
Proof.
  destruct ntt.
  - destruct ok_ctx as [G NG].
    destruct (mk_result p L np ok_ctx (repeat (import_zero p) n) (fun _ => 0) (fun _ => 0) (zero_holds p G n)) as [P V].
    { intros j Hj. rewrite ev_zero. reflexivity. }
    split; [exact P|exact V].
  - apply rcoeff_form. split; [apply repeat_length|]. intros i Hi.
    rewrite (nth_indep _ 0 (import_zero p)) by (rewrite repeat_length; exact Hi). rewrite nth_repeat. apply residue_zero.
Qed.

Lemma sub_one : sub_is m L true (repeat (import_one p) n) (pconst 1).
Proof.
  destruct ok_ctx as [G NG].
  destruct (mk_result p L np ok_ctx (repeat (import_one p) n) (pconst 1) (fun _ => 1)) as [P V].
  - apply holds_intro; [apply repeat_length|]. intros j Hj.
    rewrite (nth_indep _ 0 (import_one p)) by (rewrite repeat_length; exact Hj). rewrite nth_repeat.
    destruct (residue_val _ _ residue_one) as [S E]. split; [exact S|]. rewrite E. apply cong_mod.
  - intros j Hj. unfold ev. rewrite peval_const by exact ok_n. reflexivity.
  - split; [exact P|exact V].
Qed.

(** ** Substitution *)

Lemma rns_sub_loop_ok coeffs power js : forall idx out r, length coeffs = n -> length out = n ->
  substitute_loop np coeffs power js idx out = Ok r ->
  rns_sub_loop np n coeffs power js idx out =
    Ok (r, match js with [] => idx | _ => ((idx + length js * power) mod n)%nat end).
Proof.
  pose proof ok_n as P.
  induction js as [|j js IH]; intros idx out r Lc Lo; cbn [substitute_loop rns_sub_loop].
  - intros E. injection E as <-. reflexivity.
  - destruct (get (np_bitrevs np) idx) as [src| |]; cbn [bind]; try discriminate. rewrite Lc.
    destruct (Nat.leb_spec n src); [discriminate|].
    destruct (get (np_bitrevs np) j) as [dst| |]; cbn [bind]; try discriminate.
    destruct (Nat.leb_spec n dst); [discriminate|].
    destruct (get coeffs src) as [x| |]; cbn [bind]; try discriminate. rewrite Lo.
    destruct (Nat.leb_spec n dst); [lia|]. intros E. apply IH in E; [|exact Lc|rewrite TranscriptionProofs.upd_length; exact Lo].
    rewrite E. do 2 f_equal. destruct js as [|j' js].
    + cbn [length]. rewrite Nat.mul_1_l. reflexivity.
    + rewrite Nat.add_mod_idemp_l by lia. f_equal. cbn [length]. lia.
Qed.

Lemma sub_substitute v f power : sub_is m L true v f -> 0 < power < 2 * Z.of_nat n -> Z.odd power = true ->
  exists r, rns_sub_loop np n v (Z.to_nat power) (seq 0 n) ((Z.to_nat power - 1) / 2) v
      = Ok (r, ((Z.to_nat power - 1) / 2)%nat) /\
    sub_is m L true r (substituted n (Z.to_nat power) f).
Proof.
  intros Hv Hp Ho. pose proof ok_n as P. pose proof (sub_len _ _ _ Hv) as Lv. destruct Hv as [Pv Vv].
  destruct (substitute_coeff p L np ok_ctx v power Pv Hp Ho) as (r & E & Pr & Vr).
  exists r. split.
  - unfold poly_substitute in E. rewrite Lv in E.
    assert (Hr : Z.rem power 2 = 1). { rewrite Z.rem_mod_nonneg by lia. rewrite Zmod_odd, Ho. reflexivity. }
    rewrite Hr in E. rewrite Z.gtb_ltb, Z.geb_leb in E.
    destruct (Z.ltb_spec power 0); [lia|]. destruct (Z.leb_spec (2 * Z.of_nat n) power); [lia|]. cbn [orb Z.eqb] in E.
    rewrite (rns_sub_loop_ok v (Z.to_nat power) (seq 0 n) _ v r Lv Lv E). f_equal. f_equal.
    set (idx := ((Z.to_nat power - 1) / 2)%nat).
    assert (A : ((idx + length (seq 0 n) * Z.to_nat power) mod n = idx)%nat).
    { rewrite seq_length, (Nat.mul_comm n), Nat.mod_add by lia. apply Nat.mod_small. unfold idx.
      assert (Z.to_nat power < 2 * n)%nat by lia. apply Nat.div_lt_upper_bound; lia. }
    destruct (seq 0 n); [reflexivity|exact A].
  - split; [exact Pr|]. intros i Hi. unfold rcoeff in *. rewrite (Vr i Hi). pose proof ok_q.
    apply cong_to_mod; [unfold modulus in *; lia|]. apply zsum_cong. intros j Hj.
    assert (C : cong (p_m p) (coeff p np v j) (f j)) by (rewrite (Vv j Hj); apply cong_mod).
    destruct (_ =? i)%nat; [exact C|]. destruct (_ =? _)%nat; [rewrite C; reflexivity|reflexivity].
Qed.

End Sub.

(** ** Conversion between moduli *)

Lemma sub_convert_balanced k L mq mp v f : mod_ok k L mq -> mod_ok k L mp -> sub_is mq L false v f ->
  sub_is mp L false (convert_balanced (pm_p mq) (pm_p mp) v) (fun i => centered (modulus mq) (f i)).
Proof.
  intros Oq Op Hv. pose proof (sub_len _ _ _ _ _ Hv) as Lv. destruct Hv as [[_ Sv] Vv].
  destruct (C22_convert_balanced k _ _ _ _ v (ok_for k L mq Oq) (ok_for k L mp Op) Sv) as (L1 & S1 & V1).
  split; [split; [congruence|exact S1]|]. intros i Hi. unfold rcoeff. rewrite V1 by lia.
  f_equal. unfold rcoeff in Vv. rewrite (Vv i Hi). unfold centered. rewrite Zmod_mod. reflexivity.
Qed.

Lemma sub_convert_modulus k L mq mp v f : mod_ok k L mq -> mod_ok k L mp -> sub_is mq L false v f ->
  sub_is mp L false (convert_modulus (pm_p mq) (pm_p mp) v) (fun i => f i mod modulus mq).
Proof.
  intros Oq Op Hv. pose proof (sub_len _ _ _ _ _ Hv) as Lv. destruct Hv as [[_ Sv] Vv].
  destruct (C22_convert_modulus k _ _ _ _ v (ok_for k L mq Oq) (ok_for k L mp Op) Sv) as (L1 & S1 & V1).
  split; [split; [congruence|exact S1]|]. intros i Hi. unfold rcoeff. rewrite V1 by lia.
  f_equal. unfold rcoeff in Vv. apply (Vv i Hi).
Qed.
