(** Key switching: Galois keys and relinearization keys. *)
From Coq Require Import Setoid Ring Znumtheory.
From Verif Require Import Base FinSum PolySpec Ring NegRing SymSpec Montgomery MontBatch MontBatchProofs Prng Sampling SampleSpec ThmSample Relin
  Spec RnsPoly RnsSpec CrtMath RnsSub RnsProofs RnsReduce RnsBasis RnsBasis2 RnsMore RnsLazy RnsCtx RnsCt RnsCtSpec RnsCtProofs RnsEncode RnsKey RnsKeySpec RnsKeyProofs RnsGadget RnsGadgetSpec RnsGadgetProofs RnsSwitchSpec.
Local Notation zsum := FinSum.zsum.

(** the sum of the products d_j f_j *)
Definition pdot (n : nat) (ds fs : list (nat -> Z)) : nat -> Z := fold_right padd pzero (map2 (negacyclic n) ds fs).

Lemma pdot_bound n B be : 0 <= B -> 0 <= be -> forall ds es, Forall (bounded n B) ds -> Forall (bounded n be) es ->
  bounded n (switch_bound n (length ds) B be) (pdot n ds es).
Proof.
  intros HB Hb. assert (P : 0 <= Z.of_nat n * (B * be)) by (apply Z.mul_nonneg_nonneg; [lia|apply Z.mul_nonneg_nonneg; assumption]).
  unfold switch_bound. induction ds as [|d ds IH]; intros es Fd Fe i Hi; [cbn; lia|].
  destruct es as [|e es].
  - change (pdot n (d :: ds) [] i) with 0. rewrite Z.abs_0. apply Z.mul_nonneg_nonneg; [lia|exact P].
  - pose proof (Forall_inv Fd) as Hd. pose proof (Forall_inv Fe) as He.
    specialize (IH es (Forall_inv_tail Fd) (Forall_inv_tail Fe) i Hi).
    pose proof (negacyclic_bound n d e B be i HB Hb Hd He Hi).
    change (pdot n (d :: ds) (e :: es) i) with (negacyclic n d e i + pdot n ds es i). cbn [length]. rewrite Nat2Z.inj_succ. lia.
Qed.

Lemma weighted_cons w ws d ds : weighted (w :: ws) (d :: ds) = padd (pscale w d) (weighted ws ds).
Proof. reflexivity. Qed.

Lemma Forall2_two {A B} (P : A -> B -> Prop) a b l : Forall2 P [a; b] l -> exists x y, l = [x; y] /\ P a x /\ P b y.
Proof.
  intros H. inversion H as [|? x ? l1 H1 H2]; subst. inversion H2 as [|? y ? l2 H3 H4]; subst. inversion H4; subst. exists x, y. auto.
Qed.

Section Switch.
Variables (k : Z) (L : nat) (ms : list pmod).
Hypothesis OK : moduli_ok k L ms.
Hypothesis NE : ms <> [].
Hypothesis K16 : k <> 16.
Local Notation n := (2 ^ L)%nat.
Local Notation Q := (big_q ms).
Local Lemma HnS : (0 < n)%nat.
Proof. apply (Hn L). Qed.
Add Ring NRS : (neg_ring Q n HnS) (setoid (pcong_equiv Q n) (neg_ring_ext Q n)).
Local Notation is := (rns_is ms L true).

(** ** Products with keys *)

Lemma switch_sum s target t be : forall ws pas pbs ds, length pas = length ws -> length pbs = length ws -> length ds = length ws ->
  Forall2 (switch_entry ms L s target t be) ws (combine pas pbs) ->
  exists fs hs es, Forall2 is pas fs /\ Forall2 is pbs hs /\ Forall (bounded n be) es /\
    pcong Q n (padd (pdot n ds hs) (negacyclic n (pdot n ds fs) s)) (padd (pscale t (pdot n ds es)) (negacyclic n (weighted ws ds) target)).
Proof.
  induction ws as [|w ws IH]; intros pas pbs ds La Lb Ld H.
  - destruct pas; [|discriminate]. destruct pbs; [|discriminate]. destruct ds; [|discriminate].
    exists [], [], []. repeat (split; [constructor|]).
    change (pdot n [] []) with pzero. change (weighted [] []) with pzero. rewrite (pscale_const Q n HnS). ring.
  - destruct pas as [|a pas]; [discriminate|]. destruct pbs as [|b pbs]; [discriminate|]. destruct ds as [|d ds]; [discriminate|].
    cbn [combine] in H. inversion H as [|? ? ? ? (f & h & e & Hf & Hh & Be & Hp) H' E1 E2].
    cbn [fst snd] in *. destruct (IH pas pbs ds) as (fs & hs & es & F1 & F2 & F3 & HP); try assumption; try (cbn in *; lia).
    exists (f :: fs), (h :: hs), (e :: es). repeat (split; [constructor; assumption|]).
    change (pdot n (d :: ds) (h :: hs)) with (padd (negacyclic n d h) (pdot n ds hs)).
    change (pdot n (d :: ds) (f :: fs)) with (padd (negacyclic n d f) (pdot n ds fs)).
    change (pdot n (d :: ds) (e :: es)) with (padd (negacyclic n d e) (pdot n ds es)). rewrite weighted_cons.
    change (fun i => t * e i + w * target i) with (padd (pscale t e) (pscale w target)) in Hp.
    rewrite !(pscale_const Q n HnS) in *.
    set (A := pdot n ds hs) in *. set (C := pdot n ds fs) in *. set (E := pdot n ds es) in *. set (W := weighted ws ds) in *.
    transitivity (padd (negacyclic n d (padd h (negacyclic n f s))) (padd A (negacyclic n C s))); [ring|].
    rewrite Hp, HP. ring.
Qed.

Lemma fma_ok : forall xs ds ys fs, Forall2 is xs ds -> Forall2 is ys fs -> length xs = length ys -> forall acc h xpre ypre, is acc h ->
  length xpre = length ypre ->
  is_rns ms L true (fma_loop ms acc (xpre ++ xs) (ypre ++ ys) (seq (length xpre) (length xs))) (padd h (pdot n ds fs)).
Proof.
  induction xs as [|x xs IH]; intros ds ys fs Hx Hy Le acc h xpre ypre Ha Lp.
  - inversion Hx; subst. exists acc. split; [reflexivity|]. apply (rns_pcong k L ms OK true acc h); [exact Ha|].
    change (pdot n [] fs) with pzero. ring.
  - destruct ys as [|y ys]; [discriminate|]. inversion Hx as [|? d ? ds' Hx1 Hx2]; subst. inversion Hy as [|? f ? fs' Hy1 Hy2]; subst.
    cbn [length seq fma_loop]. rewrite (get_app xpre x xs) by reflexivity. cbn [bind]. rewrite (get_app ypre y ys) by exact Lp. cbn [bind].
    destruct (rns_fused_is k L ms OK acc x y h d f K16 Ha Hx1 Hy1) as (acc' & E & Ha'). rewrite E. cbn [bind].
    destruct (IH ds' ys fs' Hx2 Hy2 ltac:(cbn in Le; lia) acc' _ (xpre ++ [x]) (ypre ++ [y]) Ha' ltac:(rewrite !app_length; cbn; lia)) as (r & Er & Hr).
    rewrite <- !app_assoc, app_length in Er. cbn [app length] in Er. replace (length xpre + 1)%nat with (S (length xpre)) in Er by lia.
    exists r. split; [exact Er|]. apply (rns_pcong k L ms OK true r _ _ Hr).
    change (pdot n (d :: ds') (f :: fs')) with (padd (negacyclic n d f) (pdot n ds' fs')). unfold padd. intros i _. apply cong_eq. ring.
Qed.

Lemma fma_all xs ds ys fs acc h : Forall2 is xs ds -> Forall2 is ys fs -> length xs = length ys -> is acc h ->
  is_rns ms L true (fma_loop ms acc xs ys (seq 0 (length xs))) (padd h (pdot n ds fs)).
Proof. intros Hx Hy Le Ha. exact (fma_ok xs ds ys fs Hx Hy Le acc h [] [] Ha eq_refl). Qed.

Lemma lazy_ok : forall xs ds ys fs, Forall2 is xs ds -> Forall2 is ys fs -> length xs = length ys -> forall acc h xpre ypre, lazy_is k ms L acc h ->
  length xpre = length ypre ->
  exists z h', lazy_loop ms acc (xpre ++ xs) (ypre ++ ys) (seq (length xpre) (length xs)) = Ok z /\ lazy_is k ms L z h' /\
    pcong Q n h' (padd h (pdot n ds fs)).
Proof.
  induction xs as [|x xs IH]; intros ds ys fs Hx Hy Le acc h xpre ypre Ha Lp.
  - inversion Hx; subst. exists acc, h. split; [reflexivity|]. split; [exact Ha|]. change (pdot n [] fs) with pzero. ring.
  - destruct ys as [|y ys]; [discriminate|]. inversion Hx as [|? d ? ds' Hx1 Hx2]; subst. inversion Hy as [|? f ? fs' Hy1 Hy2]; subst.
    cbn [length seq lazy_loop]. rewrite (get_app xpre x xs) by reflexivity. cbn [bind]. rewrite (proj1 (proj2 Hx1)). cbn [negb].
    rewrite (get_app ypre y ys) by exact Lp. cbn [bind].
    destruct (lazy_fused_is k L ms OK acc x y h d f NE Ha Hx1 Hy1) as (acc' & E & Ha'). rewrite E. cbn [bind].
    destruct (IH ds' ys fs' Hx2 Hy2 ltac:(cbn in Le; lia) acc' _ (xpre ++ [x]) (ypre ++ [y]) Ha' ltac:(rewrite !app_length; cbn; lia)) as (r & h' & Er & Hr & Hp).
    rewrite <- !app_assoc, app_length in Er. cbn [app length] in Er. replace (length xpre + 1)%nat with (S (length xpre)) in Er by lia.
    exists r, h'. split; [exact Er|]. split; [exact Hr|]. rewrite Hp.
    change (pdot n (d :: ds') (f :: fs')) with (padd (negacyclic n d f) (pdot n ds' fs')). unfold padd. intros i _. apply cong_eq. ring.
Qed.

Lemma digits_ntt : forall xs ds, Forall2 (rns_is ms L false) xs ds -> forall pre,
  exists ys, seqr (map (fun i => do! d <- get (pre ++ xs) i; rns_to_ntt d ms) (seq (length pre) (length xs))) = Ok ys /\ Forall2 is ys ds.
Proof.
  induction xs as [|x xs IH]; intros ds H pre; inversion H as [|? d ? ds' H1 H2]; subst.
  - exists []. split; [reflexivity|constructor].
  - destruct (IH ds' H2 (pre ++ [x])) as (ys & Ey & Hy). rewrite <- app_assoc, app_length in Ey. cbn [app length] in Ey.
    replace (length pre + 1)%nat with (S (length pre)) in Ey by lia.
    destruct (rns_to_ntt_is k L ms OK x d H1) as (y & E & Hyd). exists (y :: ys). cbn [length seq map seqr].
    rewrite (get_app pre x xs) by reflexivity. cbn [bind]. rewrite E. cbn [bind]. rewrite Ey. split; [reflexivity|constructor; assumption].
Qed.

(** ** Generation *)

Lemma pads_ok R fuel : distinct ms -> forall count s pads, pad_loop R fuel (Z.of_nat L) ms count s = Ok pads ->
  length pads = count /\ exists fs, Forall2 is pads fs.
Proof.
  intros DI. induction count as [|c IH]; intros s pads E; cbn [pad_loop] in E.
  - injection E as <-. split; [reflexivity|]. exists []. constructor.
  - destruct (rns_sample_uniform R fuel (Z.of_nat L) ms s) as [[a s1]| |] eqn:Ea; try discriminate. cbn [bind] in E.
    destruct (pad_loop R fuel (Z.of_nat L) ms c s1) as [rest| |] eqn:Er; try discriminate. cbn [bind] in E. injection E as <-.
    destruct (IH s1 rest Er) as (Lr & fs & Hf). destruct (uniform_is k L ms OK NE _ _ _ _ _ DI Ea) as (f & _ & Hf1).
    split; [cbn; lia|]. exists (f :: fs). constructor; assumption.
Qed.

Lemma galois_pads_ok F fuel dim seed ty pads : distinct ms -> galois_pads F fuel dim (Z.of_nat L) ms seed ty = Ok pads ->
  length pads = dim /\ exists fs, Forall2 is pads fs.
Proof.
  intros DI E. unfold galois_pads in E. destruct (known_type ty); [|discriminate]. cbn [negb] in E.
  destruct (gf_start F ty seed) as [s| |]; try discriminate. cbn [bind] in E. exact (pads_ok _ _ DI _ _ _ E).
Qed.

Lemma switch_loop_ok R v t key s secret target : prng_ok R -> variance_fits v ms -> 0 <= t < 2 ^ k -> is key s -> is secret target ->
  forall gs ws, Forall2 (residues ms) gs ws -> forall ppre pads ppost fs st bs st', Forall2 is pads fs -> length pads = length gs ->
  switch_loop R (Z.of_nat L) v t ms key secret (ppre ++ pads ++ ppost) (length ppre) gs st = Ok (bs, st') ->
  length bs = length ws /\ Forall2 (switch_entry ms L s target t (2 * v)) ws (combine pads bs).
Proof.
  intros HR HV Ht Hk Hs. induction gs as [|g gs IH]; intros ws Hg ppre pads ppost fs st bs st' Hp Lp E.
  - inversion Hg; subst. destruct pads; [|discriminate]. cbn in E. injection E as <- <-. split; [reflexivity|constructor].
  - inversion Hg as [|? w ? ws' Hg1 Hg2]; subst. destruct pads as [|a pads]; [discriminate|]. inversion Hp as [|? f ? fs' Hp1 Hp2]; subst.
    cbn [switch_loop] in E. destruct (rns_mul_rnsint_is k L ms OK true secret target g w Hs Hg1) as (z & Ez & Hz). rewrite Ez in E. cbn [bind] in E.
    cbn [app] in E. rewrite (get_app ppre a (pads ++ ppost)) in E by reflexivity. cbn [bind] in E.
    destruct (rns_neg_copy k L ms OK true a f Hp1) as (u & Eu & Hu). rewrite Eu in E. cbn [bind] in E.
    destruct (rns_sample_error R (Z.of_nat L) v ms st) as [[b0 s1]| |] eqn:Eb; try discriminate. cbn [bind] in E.
    destruct (sample_err_is k L ms OK NE _ HR _ _ _ _ Eb HV) as (V & e & Be & He).
    destruct (rns_mul_scalar_is k L ms OK true b0 e t He Ht) as (b1 & E1 & H1). rewrite E1 in E. cbn [bind] in E.
    destruct (rns_add_is k L ms OK true b1 z _ _ H1 Hz) as (b2 & E2 & H2). rewrite E2 in E. cbn [bind] in E.
    destruct (rns_fused_is k L ms OK b2 u key _ _ s K16 H2 Hu Hk) as (b3 & E3 & H3). rewrite E3 in E. cbn [bind] in E.
    destruct (switch_loop R (Z.of_nat L) v t ms key secret (ppre ++ a :: pads ++ ppost) (S (length ppre)) gs s1) as [[bs' s2]| |] eqn:El; try discriminate.
    cbn [bind] in E. injection E as <- <-.
    destruct (IH ws' Hg2 (ppre ++ [a]) pads ppost fs' s1 bs' s2 Hp2 ltac:(cbn in Lp; lia)) as [Lb HF].
    { rewrite <- app_assoc, app_length. cbn [app length]. replace (length ppre + 1)%nat with (S (length ppre)) by lia. exact El. }
    split; [cbn; lia|]. cbn [combine]. constructor; [|exact HF].
    exists f, (padd (padd (pscale t e) (pscale w target)) (negacyclic n (popp f) s)), e. cbn [fst snd].
    split; [exact Hp1|]. split; [exact H3|]. split; [exact Be|]. change (fun i => t * e i + w * target i) with (padd (pscale t e) (pscale w target)). ring.
Qed.

Lemma switch_var R v t key s secret target g gs w pads st r : prng_ok R -> variance_fits v ms -> is key s -> is secret target -> residues ms g w ->
  (exists f, exists a, nth_error pads 0 = Some a /\ is a f) ->
  switch_loop R (Z.of_nat L) v t ms key secret pads 0 (g :: gs) st = Ok r -> 0 < v <= 256.
Proof.
  intros HR HV Hk Hs Hg (f & a & Ea & Hp1) E. cbn [switch_loop] in E.
  destruct (rns_mul_rnsint_is k L ms OK true secret target g w Hs Hg) as (z & Ez & Hz). rewrite Ez in E. cbn [bind] in E.
  unfold get in E. rewrite Ea in E. cbn [bind] in E.
  destruct (rns_neg_copy k L ms OK true a f Hp1) as (u & Eu & Hu). rewrite Eu in E. cbn [bind] in E.
  destruct (rns_sample_error R (Z.of_nat L) v ms st) as [[b0 s1]| |] eqn:Eb; try discriminate.
  exact (proj1 (sample_err_is k L ms OK NE _ HR _ _ _ _ Eb HV)).
Qed.

Lemma galois_create_ok F fuel key sk power v g ty t seed seed_e gk B ws : distinct ms -> key_is ms L key sk -> prng_ok (gf_prng F ty) ->
  variance_fits v ms -> 0 <= t < 2 ^ k -> gadget_for ms L B g ws -> galois_create F fuel key power v g ty t seed seed_e = Ok gk ->
  galois_key ms L sk t (2 * v) B ws gk /\ gk_pow gk = power /\ 0 < power < 2 * Z.of_nat n /\ Z.odd power = true /\ gk_g gk = g /\
  gk_seed gk = seed /\ gk_type gk = ty /\ galois_pads F fuel (rg_dimension g) (Z.of_nat L) ms seed ty = Ok (gk_as gk) /\ 0 < v.
Proof.
  intros DI (K1 & K2) HR HV Ht HG E. unfold galois_create in E. destruct (known_type ty) eqn:KT; [|discriminate]. cbn [negb] in E.
  rewrite K1, (proj1 K2) in E. destruct (galois_pads F fuel (rg_dimension g) (Z.of_nat L) ms seed ty) as [pads| |] eqn:Ep; try discriminate.
  cbn [bind] in E. destruct (galois_pads_ok _ _ _ _ _ _ DI Ep) as (Lp & fs & Hp).
  unfold galois_create_pads in E. cbv zeta in E. unfold rp_ncoeffs in E. rewrite K1, (proj1 K2) in E.
  destruct ((power <? 0) || (power mod 2 =? 0) || (2 * Z.of_nat (2 ^ L) <=? power)) eqn:EC; [discriminate|].
  apply Bool.orb_false_iff in EC. destruct EC as [EC C3]. apply Bool.orb_false_iff in EC. destruct EC as [C1 C2].
  apply Z.ltb_ge in C1. apply Z.eqb_neq in C2. apply Z.leb_gt in C3.
  assert (Ho : Z.odd power = true). { rewrite Zmod_odd in C2. destruct (Z.odd power); [reflexivity|congruence]. }
  assert (P0 : 0 < power). { destruct (Z.eq_dec power 0) as [->|]; [discriminate|lia]. }
  destruct (Z.leb_spec v 0); [discriminate|]. rewrite KT in E. cbn [negb] in E.
  destruct (gf_start F ty seed_e) as [s_e| |]; try discriminate. cbn [bind] in E.
  destruct (rns_substitute_is k L ms OK (rsk_key key) sk power K2 ltac:(lia) Ho) as (src & Es & Hs). rewrite Es in E. cbn [bind] in E.
  destruct (switch_loop (gf_prng F ty) (Z.of_nat L) v t ms (rsk_key key) src pads 0 (rg_gs g) s_e) as [[bs s2]| |] eqn:El; try discriminate.
  cbn [bind] in E. injection E as <-. pose proof HG as (G1 & G2 & _).
  assert (Lpg : length pads = length (rg_gs g)) by (rewrite Lp, G1; symmetry; apply (Forall2_len _ _ _ G2)).
  destruct (switch_loop_ok _ v t (rsk_key key) sk src _ HR HV Ht K2 Hs (rg_gs g) ws G2 [] pads [] fs s_e bs s2 Hp Lpg) as [Lb HF].
  { rewrite app_nil_r. exact El. }
  cbn [gk_pow gk_g gk_seed gk_type gk_as gk_bs gk_ms]. split; [|repeat split; try assumption; lia].
  split; [reflexivity|]. split; [exact HG|]. cbn [gk_as gk_bs gk_pow]. split; [congruence|]. split; [exact Lb|exact HF].
Qed.

(** ** Galois keys *)

Lemma ensure_coeff_ok a f : is a f -> is_rns ms L false (ensure_coeff a ms) f.
Proof. intros H. unfold ensure_coeff. rewrite (proj1 (proj2 H)). exact (rns_to_coeff_is k L ms OK a f H). Qed.

Lemma two_phase s f0 f1 : pcong Q n (phase_of n s [f0; f1]) (padd f0 (negacyclic n f1 s)).
Proof. rewrite (phase_cons Q n HnS), (phase_cons Q n HnS), (phase_nil Q n). ring. Qed.

Lemma galois_apply_ok s t be B ws gk x w : 0 <= B -> 0 <= be -> galois_key ms L s t be B ws gk -> ciphertext ms L s 2 (gk_pow gk) x w ->
  exists E, bounded n (switch_bound n (length ws) B be) E /\ gives ms L s 2 1 (galois_apply gk x) (fun i => w i + t * E i).
Proof.
  intros HB Hbe (G1 & (D1 & D2 & D3) & (A1 & A2 & A3)) (X1 & X2 & X3 & cs & Hc & Hw).
  destruct (rt_c x) as [|c0 [|c1 [|]]] eqn:Ex; try discriminate. destruct (Forall2_two _ _ _ _ Hc) as (f0 & f1 & -> & Hc0 & Hc1).
  destruct (ensure_coeff_ok c1 f1 Hc1) as (c1' & E1 & H1). destruct (D3 c1' f1 H1) as (xs & ds & Ed & Hx & Ld & Bd & Wd).
  destruct (digits_ntt xs ds Hx []) as (ys & Ey & Hy). cbn [app length] in Ey.
  destruct (switch_sum s _ t be ws (gk_as gk) (gk_bs gk) ds A1 A2 Ld A3) as (fs & hs & es & Hf & Hh & Be & HP).
  destruct (rns_zero_is k L ms OK true NE) as (z & E0 & Hz).
  assert (Lx : length xs = length ws) by (rewrite (Forall2_len _ _ _ Hx); exact Ld).
  assert (Ly : length ys = length ws) by (rewrite (Forall2_len _ _ _ Hy); exact Ld).
  destruct (fma_all ys ds (gk_bs gk) hs z _ Hy Hh ltac:(congruence) Hz) as (d0 & F0 & HD0).
  destruct (fma_all ys ds (gk_as gk) fs z _ Hy Hf ltac:(congruence) Hz) as (d1 & F1 & HD1).
  destruct (rns_add_is k L ms OK true d0 c0 _ f0 HD0 Hc0) as (d0' & F0' & HD0').
  exists (pdot n ds es). split; [rewrite <- Ld; apply pdot_bound; assumption|].
  exists (rct_make [d0'; d1] ms 1). split.
  - unfold galois_apply, galois_switch, galois_checks. cbv zeta. rewrite X2, Z.eqb_refl, X1, G1. cbn [negb].
    unfold rct_component. rewrite Ex. cbn [length Nat.eqb negb]. rewrite (same_len_eq ms ms eq_refl). cbn [negb bind].
    change ((1 <? 0) || (Z.of_nat 2 <=? 1)) with false. change (get [c0; c1] (Z.to_nat 1)) with (@Ok rpoly c1). cbn [bind].
    rewrite E1. cbn [bind]. rewrite Ed. cbn [bind]. rewrite (proj1 H1), E0. cbn [bind]. rewrite D1, <- Lx, Ey. cbn [bind]. rewrite Lx, <- Ly, F0. cbn [bind].
    rewrite F1. cbn [bind]. change ((0 <? 0) || (Z.of_nat 2 <=? 0)) with false. change (get [c0; c1] (Z.to_nat 0)) with (@Ok rpoly c0). cbn [bind].
    rewrite F0'. cbn [bind]. reflexivity.
  - split; [reflexivity|]. split; [reflexivity|]. split; [reflexivity|]. exists [padd (padd pzero (pdot n ds hs)) f0; padd pzero (pdot n ds fs)].
    split; [constructor; [exact HD0'|constructor; [exact HD1|constructor]]|]. change (Z.to_nat 1) with 1%nat.
    rewrite two_phase, (subst_one Q n HnS s).
    rewrite two_phase in Hw. change (fun i => w i + t * pdot n ds es i) with (padd w (pscale t (pdot n ds es))). rewrite <- Hw.
    set (A := pdot n ds hs) in *. set (C := pdot n ds fs) in *. set (E := pdot n ds es) in *. rewrite (pscale_const Q n HnS) in *.
    transitivity (padd (padd A (negacyclic n C s)) f0); [ring|]. rewrite HP, Wd. ring.
Qed.
End Switch.
