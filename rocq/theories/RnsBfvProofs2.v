(** Products of BFV ciphertexts and of ciphertexts with plaintexts. *)
From Coq Require Import Setoid Ring Znumtheory.
From Verif Require Import Base FinSum MontgomeryProofs PolySpec Ring NegRing SymSpec Montgomery MontBatch MontBatchProofs Ntt Spec ArithFacts NttFacts PolyView
  RnsPoly RnsSpec CrtMath RnsSub RnsProofs RnsReduce RnsBasis RnsBasis2 RnsCt RnsCtSpec RnsCtProofs RnsNoise RnsCtx RnsBfv RnsBfvSpec RnsBfvProofs RnsBfvNoise.
Local Notation zsum := FinSum.zsum.

Section Top.
Variables (k : Z) (L : nat) (D : dops) (c : rctx).
Local Notation n := (2 ^ L)%nat.
Local Notation qs := (rc_qs c).
Local Notation ps := (rc_ps c).
Local Notation Q := (big_q (rc_qs c)).
Local Notation P := (big_q (rc_ps c)).
Local Notation Rq := (rns_is (rc_qs c) L true).
Local Notation Rp := (rns_is (rc_ps c) L true).
Hypothesis OKq : moduli_ok k L qs.
Hypothesis OKp : moduli_ok k L ps.
Hypothesis DIq : distinct qs.
Hypothesis DIp : distinct ps.
Hypothesis DA : distinct (qs ++ ps).
Hypothesis NEq : qs <> [].
Hypothesis NEp : ps <> [].
Hypothesis NRq : near D k qs.
Hypothesis NRp : near D k ps.
Hypothesis Ht : 0 <= rc_t c < 2 ^ k.
(* constants of the context *)
Hypothesis K1 : hat_inverses ps (firstn (length ps) (rc_p_hat_invs c)).
Hypothesis K2 : hat_residues ps qs (rc_p_hat_mod_qs c).
Hypothesis K3 : (length ps <= length (rc_p_hat_mod_qs c))%nat.
Hypothesis K4 : residues qs (rc_p_mod_qs c) P.
Hypothesis K5 : inverses qs (rc_p_inv_mod_qs c) P.
Hypothesis K6 : q_inverses qs ps (rc_q_inv_mod_ps c).
Variables (hat_inv : list Z) (hat_mod : list rnsint) (q_mod : list Z).
Hypothesis F1 : main_crt_factors c (level_of qs) = Ok hat_inv.
Hypothesis F2 : main_complement_residues c (level_of qs) = Ok hat_mod.
Hypothesis F3 : main_leveled_aux_residues c (level_of qs) = Ok q_mod.
Hypothesis H1 : hat_inverses qs (firstn (length qs) hat_inv).
Hypothesis H2 : hat_residues qs ps hat_mod.
Hypothesis H3 : (length qs <= length hat_mod)%nat.
Hypothesis H4 : residues ps q_mod Q.

Local Lemma N0 : (0 < n)%nat.
Proof. apply (Hn L). Qed.
Add Ring NR0x : (neg_ring 0 n N0) (setoid (pcong_equiv 0 n) (neg_ring_ext 0 n)).

Lemma bfv_scale_ok ci f : rns_is qs L false ci f ->
  exists aux main ax, bfv_scale D c qs hat_inv ci = Ok (aux, main) /\ rns_is ps L false aux (fst ax) /\ rns_is qs L false main (fst ax) /\
    scaled n P Q f ax.
Proof.
  intros Hc. pose proof (big_q_pos k L qs OKq) as PQ. pose proof (big_q_pos k L ps OKp) as PP. unfold bfv_scale.
  assert (K4' : residues qs (firstn (length qs) (rc_p_mod_qs c)) P).
  { pose proof (Forall2_len _ _ _ K4) as E. unfold rnsint in *. rewrite firstn_all2 by lia. exact K4. }
  destruct (scale_near k L D qs ps hat_inv _ _ ci f OKq OKp DIq DA NEp H1 K6 K4' NRq Hc) as (y & (aux & E1 & Ha) & By).
  rewrite E1. cbn [bind].
  destruct (switch_near k L D ps qs _ _ _ aux y OKp OKq DIp NEq K1 K2 K3 K4 NRp Ha) as (a & (main & E2 & Hm) & Ba).
  rewrite E2. cbn [bind]. exists aux, main, (a, fun i => f i - Q * ((y i - a i) / P)). split; [reflexivity|]. cbn [fst snd].
  split.
  { apply (proj2 (rns_iff k L ps OKp DIp false aux y a Ha)). intros i Hi. symmetry. apply (Ba i Hi). }
  split; [exact Hm|]. intros i Hi. cbn [fst snd]. destruct (Ba i Hi) as [[z Ez] Bi]. specialize (By i Hi).
  assert (EZ : (y i - a i) / P = - z) by (replace (y i - a i) with (- z * P) by lia; apply Z.div_mul; lia).
  rewrite EZ. split; [exists z; ring|]. split; [|exact Bi].
  replace (Q * a i - P * (f i - Q * - z)) with (Q * y i - P * f i); [exact By|].
  replace (y i) with (a i - z * P) by lia. ring.
Qed.

Lemma bfv_reduce_ok main aux T : Rq main T -> Rp aux T ->
  exists r g, bfv_reduce D c qs main aux = Ok r /\ Rq r g /\ forall i, (i < n)%nat -> Z.abs (P * g i - rc_t c * T i) <= P.
Proof.
  intros Hm Ha. unfold bfv_reduce.
  destruct (reduce_near k L D qs ps _ _ _ _ (rc_t c) true true main aux T OKq OKp DIp NEq K1 K2 K3 K4 K5 Ht NRp Hm Ha) as (g & (r & E & Hr) & B).
  exists r, g. auto.
Qed.

(** the operand that is switched to the auxiliary primes *)
Lemma bfv_to_aux d f : Rq d f ->
  exists h da, Rq d h /\ (do! ci <- rns_to_coeff d qs;
     do! ca <- rns_switch_basis D ci qs ps hat_inv hat_mod q_mod; rns_to_ntt ca ps) = Ok da /\ Rp da h /\
    (forall i, (i < n)%nat -> Z.abs (h i) <= Q).
Proof.
  intros Hd. destruct (rns_to_coeff_is k L qs OKq d f Hd) as (ci & E1 & Hc). rewrite E1. cbn [bind].
  destruct (switch_near k L D qs ps hat_inv hat_mod q_mod ci f OKq OKp DIq NEp H1 H2 H3 H4 NRq Hc) as (h & (ca & E2 & Ha) & B).
  rewrite E2. cbn [bind]. destruct (rns_to_ntt_is k L ps OKp ca h Ha) as (da & E3 & Hda).
  exists h, da. split; [|split; [exact E3|split; [exact Hda|intros i Hi; apply (B i Hi)]]].
  apply (proj2 (rns_iff k L qs OKq DIq true d f h Hd)). intros i Hi. symmetry. apply (B i Hi).
Qed.

Lemma bfv_rows_ok (K16 : k <> 16) cs fs : Forall2 Rq cs fs -> forall d da hs, Forall2 Rq d hs -> Forall2 Rp da hs ->
  forall idx res res_aux gs, Forall2 Rq res gs -> Forall2 Rp res_aux gs ->
  (d <> [] -> idx + length cs + length d - 1 <= length gs)%nat ->
  exists axs res' res_aux' T, bfv_rows D c qs hat_inv cs d da idx res res_aux = Ok (res', res_aux') /\
    Forall2 Rq res' T /\ Forall2 Rp res_aux' T /\ Forall2 (scaled n P Q) fs axs /\ length T = length gs /\
    forall S0, pcong 0 n (phase_of n S0 T)
      (padd (phase_of n S0 gs) (negacyclic n (npow n S0 idx) (negacyclic n (phase_of n S0 (map fst axs)) (phase_of n S0 hs)))).
Proof.
  intros HF. induction HF as [|ci f cs fs Hc HF IH]; intros d da hs Hd Hda idx res res_aux gs Hr Hra Hl.
  - exists [], res, res_aux, gs. cbn [bfv_rows map]. split; [reflexivity|]. split; [exact Hr|]. split; [exact Hra|]. split; [constructor|].
    split; [reflexivity|]. intros S0. rewrite phase_nil. ring.
  - cbn [bfv_rows]. destruct (rns_to_coeff_is k L qs OKq ci f Hc) as (ci' & E1 & Hc'). rewrite E1. cbn [bind].
    destruct (bfv_scale_ok ci' f Hc') as (aux & main & ax & E2 & Ha & Hm & Hsc). rewrite E2. cbn [bind].
    destruct (rns_to_ntt_is k L qs OKq main _ Hm) as (main' & E3 & Hm'). rewrite E3. cbn [bind].
    destruct (rns_to_ntt_is k L ps OKp aux _ Ha) as (aux' & E4 & Ha'). rewrite E4. cbn [bind].
    pose proof (Forall2_len _ _ _ Hr) as Lr. pose proof (Forall2_len _ _ _ Hra) as Lra.
    pose proof (Forall2_len _ _ _ Hd) as Ld. pose proof (Forall2_len _ _ _ Hda) as Lda.
    assert (BL : d = [] \/ (idx + length d <= length gs)%nat).
    { destruct d as [|d0 d']; [left; reflexivity|right]. specialize (Hl ltac:(discriminate)). cbn [length] in *. lia. }
    set (gs1 := trow n (fst ax) hs idx gs).
    assert (RQ : exists res1, rct_mul_row qs main' d idx res = Ok res1 /\ Forall2 Rq res1 gs1).
    { destruct BL as [->|BL].
      - assert (hs = []) as -> by (destruct hs; [reflexivity|discriminate]). exists res. split; [reflexivity|exact Hr].
      - apply (trow_ok k L qs OKq K16 main' (fst ax) Hm' d hs Hd idx res gs Hr). lia. }
    assert (RP : exists res1, rct_mul_row ps aux' da idx res_aux = Ok res1 /\ Forall2 Rp res1 gs1).
    { destruct BL as [Ed|BL].
      - rewrite Ed in Ld. assert (hs = []) as -> by (destruct hs; [reflexivity|discriminate]).
        assert (da = []) as -> by (destruct da; [reflexivity|discriminate]). exists res_aux. split; [reflexivity|exact Hra].
      - apply (trow_ok k L ps OKp K16 aux' (fst ax) Ha' da hs Hda idx res_aux gs Hra). lia. }
    destruct RQ as (res1 & E5 & Q1). destruct RP as (ra1 & E6 & P1). rewrite E5. cbn [bind]. rewrite E6. cbn [bind].
    assert (LG : length gs1 = length gs) by apply trow_len.
    destruct (IH d da hs Hd Hda (S idx) res1 ra1 gs1 Q1 P1) as (axs & res2 & ra2 & T & E7 & Q2 & P2 & HS & LT & HP).
    { intros Nd. specialize (Hl Nd). cbn [length] in Hl. rewrite LG. lia. }
    exists (ax :: axs), res2, ra2, T. split; [exact E7|]. split; [exact Q2|]. split; [exact P2|].
    split; [constructor; assumption|]. split; [congruence|]. intros S0. rewrite HP. cbn [map].
    assert (TP : pcong 0 n (phase_of n S0 gs1) (padd (phase_of n S0 gs) (negacyclic n (npow n S0 idx) (negacyclic n (fst ax) (phase_of n S0 hs))))).
    { destruct BL as [Ed|BL].
      - rewrite Ed in Ld. assert (hs = []) as Eh by (destruct hs; [reflexivity|discriminate]). unfold gs1. rewrite Eh. cbn [trow].
        rewrite phase_nil. ring.
      - apply (trow_phase 0 n N0). lia. }
    rewrite TP, (phase_cons 0 n N0 _ (fst ax)), (npow_succ 0 n N0). ring.
Qed.

(** result of a loop over components, where each step may choose among several
    represented polynomials *)
Lemma seqr_each {A} (g : A -> result rpoly) (R : A -> (nat -> Z) -> Prop) xs :
  Forall (fun x => exists r h, g x = Ok r /\ Rq r h /\ R x h) xs ->
  exists rs hs, seqr (map g xs) = Ok rs /\ Forall2 Rq rs hs /\ Forall2 R xs hs.
Proof.
  intros H. induction H as [|x xs (r & h & E & Hr & Hx) H IH]; [exists [], []; cbn; auto|].
  destruct IH as (rs & hs & E' & H5 & H6). cbn [map seqr]. rewrite E. cbn [bind]. rewrite E'. cbn [bind]. exists (r :: rs), (h :: hs). auto.
Qed.

Section Product.
Variables (s : nat -> Z) (w v m m' : nat -> Z) (E E' : Z) (j : Z) (x : rct) (lx : nat).
Hypothesis PE : 0 <= E.
Hypothesis PE' : 0 <= E'.
Hypothesis Bw : forall i, (i < n)%nat -> Z.abs (rc_t c * w i - Q * m i) <= E.
Hypothesis Bv : forall i, (i < n)%nat -> Z.abs (rc_t c * v i - Q * m' i) <= E'.
Hypothesis Hx : ciphertext qs L s lx j x w.
Hypothesis Lx : (1 <= lx)%nat.
Local Notation S0 := (substituted n (Z.to_nat j) s).

(** the key sizes of s(X^j) are at most those of s *)
Lemma noise_mono gx gy gl gx' gy' gl' : 0 <= gx <= gx' -> 0 <= gy <= gy' -> 0 <= gl <= gl' ->
  mul_noise n (rc_t c) P Q E E' gx gy gl <= mul_noise n (rc_t c) P Q E E' gx' gy' gl'.
Proof.
  intros Gx Gy Gl. pose proof (big_q_pos k L qs OKq) as PQ. pose proof (big_q_pos k L ps OKp) as PP. unfold mul_noise.
  set (N := Z.of_nat n). assert (PN : 0 <= N) by (unfold N; lia). set (t := rc_t c) in *. assert (Pt : 0 <= t) by apply Ht.
  assert (A1 : t * Q * (P + 1) * gx <= t * Q * (P + 1) * gx') by (apply Z.mul_le_mono_nonneg_l; [repeat apply Z.mul_nonneg_nonneg; lia|lia]).
  assert (A2 : t * Q * gy <= t * Q * gy') by (apply Z.mul_le_mono_nonneg_l; [repeat apply Z.mul_nonneg_nonneg; lia|lia]).
  assert (A3 : t * Q * P * gl <= t * Q * P * gl') by (apply Z.mul_le_mono_nonneg_l; [repeat apply Z.mul_nonneg_nonneg; lia|lia]).
  assert (B1 : N * E' * (t * Q * (P + 1) * gx + P * E) <= N * E' * (t * Q * (P + 1) * gx' + P * E)).
  { apply Z.mul_le_mono_nonneg_l; [apply Z.mul_nonneg_nonneg; lia|lia]. }
  assert (B2 : P * (N * E * (t * Q * gy + E')) <= P * (N * E * (t * Q * gy' + E'))).
  { apply Z.mul_le_mono_nonneg_l; [lia|]. apply Z.mul_le_mono_nonneg_l; [apply Z.mul_nonneg_nonneg; lia|lia]. }
  assert (B3 : t * t * (N * (Q * gx) * (Q * gy)) <= t * t * (N * (Q * gx') * (Q * gy'))).
  { apply Z.mul_le_mono_nonneg_l; [apply Z.mul_nonneg_nonneg; lia|].
    assert (X1 : N * (Q * gx) <= N * (Q * gx')) by (apply Z.mul_le_mono_nonneg_l; [lia|apply Z.mul_le_mono_nonneg_l; lia]).
    assert (X2 : Q * gy <= Q * gy') by (apply Z.mul_le_mono_nonneg_l; lia).
    apply Z.mul_le_mono_nonneg; [repeat apply Z.mul_nonneg_nonneg; lia|exact X1|apply Z.mul_nonneg_nonneg; lia|exact X2]. }
  lia.
Qed.

Lemma geom_key len : 0 <= geom (l1 n S0) len <= key_size n s len.
Proof.
  pose proof (l1_nonneg n S0) as Hl. pose proof (l1_subst n (Z.to_nat j) s N0) as LS.
  split; [apply geom_nonneg, Hl|]. rewrite key_size_geom. apply geom_mono. lia.
Qed.

Lemma bfv_mul_gives (K16 : k <> 16) y ly : ciphertext qs L s ly j y v ->
  exists g M, gives qs L s (lx + ly - 1) j (bfv_mul D c x y) g /\ pcong (rc_t c) n M (negacyclic n m m') /\
    forall i, (i < n)%nat -> P * Q * Z.abs (rc_t c * g i - Q * M i) <=
      mul_noise n (rc_t c) P Q E E' (key_size n s lx) (key_size n s ly) (key_size n s (lx + ly - 1)).
Proof.
  intros (Y1 & Y2 & Y3 & ds & Hd & Hq). destruct Hx as (X1 & X2 & X3 & cs & Hc & Hp).
  pose proof (Forall2_len _ _ _ Hc) as Lc. pose proof (Forall2_len _ _ _ Hd) as Ld.
  pose proof (big_q_pos k L qs OKq) as PQ. pose proof (big_q_pos k L ps OKp) as PP.
  unfold bfv_mul. rewrite X1, Y1, X2, Y2. rewrite (same_len_eq qs qs) by reflexivity. rewrite Z.eqb_refl. cbn [negb].
  rewrite F1, F2, F3. cbn [bind].
  (* that, over the auxiliary primes *)
  assert (AUX : exists da hs, seqr (map (fun ci => do! ci <- rns_to_coeff ci qs;
      do! ca <- rns_switch_basis D ci qs ps hat_inv hat_mod q_mod; rns_to_ntt ca ps) (rt_c y)) = Ok da /\
    Forall2 Rq (rt_c y) hs /\ Forall2 Rp da hs /\ Forall (fun h => forall i, (i < n)%nat -> Z.abs (h i) <= Q) hs).
  { clear Y3 Hq Ld. induction Hd as [|d f dd ff Hdf Hd IH]; [exists [], []; cbn; auto|].
    destruct (bfv_to_aux d f Hdf) as (h & da & G1 & G2 & G3 & G4). destruct IH as (das & hs & I1 & I2 & I3 & I4).
    exists (da :: das), (h :: hs). cbn [map seqr]. rewrite G2. cbn [bind]. rewrite I1. cbn [bind]. auto. }
  destruct AUX as (da & hs & EA & Hh & Hda & Bh). rewrite EA. cbn [bind].
  pose proof (Forall2_len _ _ _ Hh) as Lh.
  assert (Hq' : pcong Q n (phase_of n S0 hs) v).
  { intros i Hi. rewrite <- (Hq i Hi). refine (phase_cong Q n N0 S0 S0 hs ds _ _ i Hi); [reflexivity|].
    clear - Hh Hd OKq DIq. revert hs Hh. induction Hd as [|d f dd ff Hdf Hd IH]; intros hs Hh; inversion Hh as [|? h ? hh G1 G2 E1 E2]; subst; constructor.
    - intros i Hi. apply (proj1 (rns_iff k L qs OKq DIq true d h f G1) Hdf i Hi).
    - apply IH, G2. }
  destruct (rt_c x) as [|c0 cx] eqn:Ec; [cbn in X3; lia|].
  assert (E0 : rp_logn c0 = L) by (apply (Forall2_nth_ _ c0 pzero _ _ 0%nat Hc); cbn; lia).
  rewrite E0. destruct (rns_zero_is k L qs OKq true NEq) as (z & Ez & Hz). rewrite Ez. cbn [bind].
  destruct (rns_zero_is k L ps OKp true NEp) as (za & Eza & Hza). rewrite Eza. cbn [bind].
  set (size := (length (c0 :: cx) + length (rt_c y) - 1)%nat).
  destruct (bfv_rows_ok K16 _ _ Hc _ _ _ Hh Hda 0 (repeat z size) (repeat za size) (repeat pzero size)) as (axs & res & ra & T & ER & QT & PT & HS & LT & HP).
  { apply (repeat_zero L qs). exact Hz. } { apply (repeat_zero L ps). exact Hza. } { intros _. rewrite repeat_length. unfold size. lia. }
  rewrite ER. cbn [bind]. rewrite repeat_length in LT.
  assert (RED : exists rs gs, seqr (map2 (bfv_reduce D c qs) res ra) = Ok rs /\ Forall2 Rq rs gs /\
    Forall2 (fun T g => forall i, (i < n)%nat -> Z.abs (P * g i - rc_t c * T i) <= P) T gs).
  { clear ER LT HP E0 Ec. revert ra PT. induction QT as [|r f rr ff Hr QT IH]; intros ra PT.
    - exists [], []. cbn. auto.
    - inversion PT as [|a ? raa ? G1 G2 G3 G4]; subst. destruct (bfv_reduce_ok r a f Hr G1) as (r' & g & I1 & I2 & I3).
      destruct (IH raa G2) as (rs & gs & J1 & J2 & J3). exists (r' :: rs), (g :: gs). cbn [map2 seqr]. rewrite I1. cbn [bind]. rewrite J1. cbn [bind]. auto. }
  destruct RED as (rs & gs & ES & QG & BG). rewrite ES. cbn [bind].
  pose proof (Forall2_len _ _ _ BG) as LG. pose proof (Forall2_len _ _ _ QG) as LR.
  assert (HT : pcong 0 n (phase_of n S0 T) (negacyclic n (phase_of n S0 (map fst axs)) (phase_of n S0 hs))).
  { rewrite HP, (phase_zero 0 n N0). cbn [npow]. ring. }
  destruct (product_noise n N0 S0 (rc_t c) P Q E E' (proj1 Ht) PP PQ cs axs hs T gs w v m m' PE PE' HS Bh HT BG Hp Hq' Bw Bv) as (M & HM & BM).
  assert (LGn : length gs = (lx + ly - 1)%nat) by (unfold size in LT; lia).
  exists (phase_of n S0 gs), M. split; [|split; [exact HM|]].
  - eexists. split; [reflexivity|]. split; [reflexivity|]. split; [reflexivity|]. cbn [rct_make rt_c]. split; [lia|].
    exists gs. split; [exact QG|]. reflexivity.
  - intros i Hi. eapply Z.le_trans; [apply (BM i Hi)|]. rewrite LGn, <- Lh, Y3, <- Lc, X3. apply noise_mono; apply geom_key.
Qed.

Lemma bfv_absorb_gives plain f : Rq plain f -> pcong Q n f v ->
  exists g M, gives qs L s lx j (bfv_absorb D c x plain) g /\ pcong (rc_t c) n M (negacyclic n m m') /\
    forall i, (i < n)%nat -> P * Q * Z.abs (rc_t c * g i - Q * M i) <=
      mul_noise n (rc_t c) P Q E E' (key_size n s lx) 1 (key_size n s lx).
Proof.
  intros Hpl Hf. destruct Hx as (X1 & X2 & X3 & cs & Hc & Hp). pose proof (Forall2_len _ _ _ Hc) as Lc.
  pose proof (big_q_pos k L qs OKq) as PQ. pose proof (big_q_pos k L ps OKp) as PP.
  unfold bfv_absorb. rewrite X1. pose proof Hpl as (_ & En & _). rewrite En. cbn [negb]. rewrite F1, F2, F3. cbn [bind].
  destruct (bfv_to_aux plain f Hpl) as (h & pa & Hh & EA & Hpa & Bh).
  destruct (rns_to_coeff plain qs) as [pc| |] eqn:E1; cbn [bind] in EA |- *; try discriminate.
  destruct (rns_switch_basis D pc qs ps hat_inv hat_mod q_mod) as [pb| |] eqn:E2; cbn [bind] in EA |- *; try discriminate.
  rewrite EA. cbn [bind].
  assert (Hv' : pcong Q n (phase_of n S0 [h]) v).
  { intros i Hi. rewrite <- (Hf i Hi). pose proof (phase_cons Q n N0 S0 h [] i Hi) as G. rewrite G.
    pose proof (proj1 (rns_iff k L qs OKq DIq true plain h f Hh) Hpl i Hi) as G2. rewrite <- G2. unfold padd.
    assert (G3 : pcong 0 n (negacyclic n S0 (phase_of n S0 [])) pzero) by (rewrite phase_nil; ring).
    rewrite (pcong0 _ _ _ G3 i Hi). unfold pzero. apply cong_eq. ring. }
  (* each component *)
  assert (EACH : exists axs rs gs, seqr (map (bfv_absorb_one D c qs hat_inv plain pa) (rt_c x)) = Ok rs /\ Forall2 Rq rs gs /\
    Forall2 (scaled n P Q) cs axs /\
    Forall2 (fun T g => forall i, (i < n)%nat -> Z.abs (P * g i - rc_t c * T i) <= P) (map (fun ax => negacyclic n (fst ax) h) axs) gs).
  { clear Lc X3 Hp. induction Hc as [|ci d ci' d' Hcd Hc IH]; [exists [], [], []; cbn; auto|].
    destruct IH as (axs & rs & gs & I1 & I2 & I3 & I4). cbn [map seqr]. unfold bfv_absorb_one at 1.
    pose proof Hcd as (_ & En' & _). rewrite En'. destruct (rns_to_coeff_is k L qs OKq ci d Hcd) as (cc & G1 & Hcc). rewrite G1. cbn [bind].
    destruct (bfv_scale_ok cc d Hcc) as (aux & main & ax & G2 & Ha & Hm & Hsc). rewrite G2. cbn [bind].
    destruct (rns_to_ntt_is k L qs OKq main _ Hm) as (main' & G3 & Hm'). rewrite G3. cbn [bind].
    destruct (rns_mul_is k L qs OKq main' plain _ _ Hm' Hh) as (main2 & G4 & Hm2). rewrite G4. cbn [bind].
    destruct (rns_to_ntt_is k L ps OKp aux _ Ha) as (aux' & G5 & Ha'). rewrite G5. cbn [bind].
    destruct (rns_mul_is k L ps OKp aux' pa _ _ Ha' Hpa) as (aux2 & G6 & Ha2). rewrite G6. cbn [bind].
    destruct (bfv_reduce_ok main2 aux2 _ Hm2 Ha2) as (r & g & G7 & Hr & Bg). rewrite G7. cbn [bind]. rewrite I1. cbn [bind].
    exists (ax :: axs), (r :: rs), (g :: gs). split; [reflexivity|]. cbn [map]. auto. }
  destruct EACH as (axs & rs & gs & ES & QG & HS & BG).
  pose proof (Forall2_len _ _ _ BG) as LG. rewrite map_length in LG. pose proof (Forall2_len _ _ _ HS) as LS. pose proof (Forall2_len _ _ _ QG) as LR.
  assert (HT : pcong 0 n (phase_of n S0 (map (fun ax => negacyclic n (fst ax) h) axs)) (negacyclic n (phase_of n S0 (map fst axs)) (phase_of n S0 [h]))).
  { rewrite <- (map_map fst (fun a => negacyclic n a h)). rewrite (phase_map 0 n N0 S0 (fun a => negacyclic n a h) h) by (intros; reflexivity).
    rewrite (phase_cons 0 n N0 S0 h []), phase_nil. ring. }
  destruct (product_noise n N0 S0 (rc_t c) P Q E E' (proj1 Ht) PP PQ cs axs [h] _ gs w v m m' PE PE' HS ltac:(constructor; [exact Bh|constructor]) HT BG Hp Hv' Bw Bv) as (M & HM & BM).
  exists (phase_of n S0 gs), M. split; [|split; [exact HM|]].
  - unfold rct_map. rewrite ES. cbn [bind]. eexists. split; [reflexivity|]. split; [exact X1|]. split; [exact X2|]. cbn [rct_with_c rt_c]. split; [lia|].
    exists gs. split; [exact QG|]. reflexivity.
  - intros i Hi. eapply Z.le_trans; [apply (BM i Hi)|]. rewrite <- LG, <- LS, <- Lc, X3. apply noise_mono; apply geom_key.
Qed.
End Product.
End Top.
