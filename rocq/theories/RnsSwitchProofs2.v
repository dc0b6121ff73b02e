(** Precomputed pads, serialization of Galois keys, and relinearization keys. *)
From Coq Require Import Setoid Ring Znumtheory.
From Verif Require Import Base FinSum PolySpec Ring NegRing SymSpec Montgomery MontBatch MontBatchProofs Prng Sampling SampleSpec ThmSample Relin
  Spec RnsPoly RnsSpec CrtMath RnsSub RnsProofs RnsReduce RnsBasis RnsBasis2 RnsMore RnsLazy RnsCtx RnsCt RnsCtSpec RnsCtProofs RnsEncode RnsKey RnsKeySpec RnsKeyProofs RnsGadget RnsGadgetSpec RnsGadgetProofs RnsSwitchSpec RnsSwitchProofs.

Lemma Forall2_head {A B} (P : A -> B -> Prop) l l' : Forall2 P l l' -> l <> [] -> exists a b, nth_error l 0 = Some a /\ P a b.
Proof. intros H N. destruct H as [|a b l l' H1 H2]; [contradiction|]. exists a, b. auto. Qed.

Section Switch.
Variables (k : Z) (L : nat) (ms : list pmod).
Hypothesis OK : moduli_ok k L ms.
Hypothesis NE : ms <> [].
Hypothesis K16 : k <> 16.
Local Notation n := (2 ^ L)%nat.
Local Notation Q := (big_q ms).
Local Lemma HnT : (0 < n)%nat.
Proof. apply (Hn L). Qed.
Add Ring NRT : (neg_ring Q n HnT) (setoid (pcong_equiv Q n) (neg_ring_ext Q n)).
Local Notation is := (rns_is ms L true).

Lemma is_poly ntt a f : rns_is ms L ntt a f -> rns_poly ms L a.
Proof.
  intros (A & _ & H). split; [exact A|]. clear -H. induction H as [|m v ms' vs [H1 _] H IH]; constructor; assumption.
Qed.

(** ** Precomputed pads *)

Lemma with_pad_ok s t be B ws gk x w c1 f1 digits ds : distinct ms -> 0 <= B -> 0 <= be -> ws <> [] -> galois_key ms L s t be B ws gk ->
  ciphertext ms L s 2 (gk_pow gk) x w -> nth_error (rt_c x) 1 = Some c1 -> is c1 f1 ->
  Forall2 is digits ds -> length ds = length ws -> Forall (bounded n B) ds -> pcong Q n (weighted ws ds) f1 ->
  exists pad E, galois_precompute gk digits = Ok pad /\ bounded n (switch_bound n (length ws) B be) E /\
    gives ms L s 2 1 (galois_apply_with_pad gk x digits pad) (fun i => w i + t * E i).
Proof.
  intros DI HB Hbe NW (G1 & (D1 & D2 & D3) & (A1 & A2 & A3)) (X1 & X2 & X3 & cs & Hc & Hw) Ec1 Hc1' Hy Ld Bd Wd.
  destruct (rt_c x) as [|c0 [|c1' [|]]] eqn:Ex; try discriminate. cbn in Ec1. injection Ec1 as ->.
  destruct (Forall2_two _ _ _ _ Hc) as (f0 & f1' & -> & Hc0 & Hc1).
  destruct (switch_sum L ms s _ t be ws (gk_as gk) (gk_bs gk) ds A1 A2 Ld A3) as (fs & hs & es & Hf & Hh & Be & HP).
  destruct (rns_zero_is k L ms OK true NE) as (z & E0 & Hz). destruct (lazy_zero_ok k L ms OK NE) as (lz & E0' & Hz').
  assert (Ly : length digits = length ws) by (rewrite (Forall2_len _ _ _ Hy); exact Ld).
  assert (NA : gk_as gk <> []) by (intros E; rewrite E in A1; destruct ws; [contradiction|discriminate]).
  assert (NB : gk_bs gk <> []) by (intros E; rewrite E in A2; destruct ws; [contradiction|discriminate]).
  destruct (Forall2_head _ _ _ Hf NA) as (a0 & fa & Ea0 & Ha0). destruct (Forall2_head _ _ _ Hh NB) as (b0 & fb & Eb0 & Hb0).
  destruct (fma_all k L ms OK K16 digits ds (gk_as gk) fs z _ Hy Hf ltac:(congruence) Hz) as (d1 & F1 & HD1).
  destruct (lazy_ok k L ms OK NE digits ds (gk_bs gk) hs Hy Hh ltac:(congruence) lz _ [] [] Hz' eq_refl) as (lz' & h' & F0 & Hl & Hh').
  cbn [app length] in F0. destruct (lazy_export_is k L ms OK lz' h' NE Hl) as (d0 & F2 & HD0).
  destruct (rns_add_is k L ms OK true d0 c0 _ f0 HD0 Hc0) as (d0' & F0' & HD0').
  exists d1, (pdot n ds es). split.
  { unfold galois_precompute. rewrite D1, Ly, Nat.eqb_refl. cbn [negb]. unfold get. rewrite Ea0. cbn [bind]. rewrite (proj1 Ha0), G1, E0. cbn [bind].
    rewrite <- Ly. exact F1. }
  split; [rewrite <- Ld; apply pdot_bound; assumption|].
  exists (rct_make [d0'; d1] ms 1). split.
  - unfold galois_apply_with_pad, galois_checks. cbv zeta. rewrite X2, Z.eqb_refl, X1, G1. cbn [negb].
    unfold rct_component. rewrite Ex. cbn [length Nat.eqb negb]. rewrite (same_len_eq ms ms eq_refl). cbn [negb bind].
    rewrite D1, Ly, Nat.eqb_refl. cbn [negb]. unfold get at 1. rewrite Eb0. cbn [bind]. rewrite (proj1 Hb0), E0'. cbn [bind].
    rewrite <- Ly, F0. cbn [bind]. rewrite F2. cbn [bind].
    change ((0 <? 0) || (Z.of_nat 2 <=? 0)) with false. change (get [c0; c1] (Z.to_nat 0)) with (@Ok rpoly c0). cbn [bind].
    rewrite F0'. cbn [bind]. reflexivity.
  - split; [reflexivity|]. split; [reflexivity|]. split; [reflexivity|]. exists [padd h' f0; padd pzero (pdot n ds fs)].
    split; [constructor; [exact HD0'|constructor; [exact HD1|constructor]]|]. change (Z.to_nat 1) with 1%nat.
    rewrite two_phase. rewrite (subst_one Q n HnT s), Hh'.
    assert (W1 : pcong Q n f1' f1).
    { exact (proj1 (rns_iff k L ms OK DI true c1 f1' f1 Hc1) Hc1'). }
    rewrite two_phase in Hw. change (fun i => w i + t * pdot n ds es i) with (padd w (pscale t (pdot n ds es))). rewrite <- Hw, W1.
    set (A := pdot n ds hs) in *. set (C := pdot n ds fs) in *. set (E := pdot n ds es) in *. rewrite (pscale_const Q n HnT) in *.
    change (fun _ : nat => 0) with pzero.
    transitivity (padd (padd A (negacyclic n C s)) f0); [ring|]. rewrite HP, Wd. ring.
Qed.

(** ** Serialization *)

Lemma serialize_all : forall bs hs, Forall2 is bs hs ->
  exists ss, seqr (map (fun b => rns_serialize b ms) bs) = Ok ss /\ seqr (map (fun b => rns_deserialize b ms) ss) = Ok bs /\ length ss = length bs.
Proof.
  induction bs as [|b bs IH]; intros hs H; inversion H as [|? h ? hs' H1 H2]; subst.
  - exists []. auto.
  - destruct (IH hs' H2) as (ss & E1 & E2 & E3). destruct (serialize_ok k L ms OK NE b (is_poly true b h H1)) as (x & F1 & F2).
    exists (x :: ss). cbn [map seqr length]. rewrite F1. cbn [bind]. rewrite E1. cbn [bind]. rewrite F2. cbn [bind]. rewrite E2. auto.
Qed.

Lemma galois_round_trip F fuel s t be B ws gk : ws <> [] -> galois_key ms L s t be B ws gk ->
  galois_pads F fuel (length ws) (Z.of_nat L) ms (gk_seed gk) (gk_type gk) = Ok (gk_as gk) ->
  exists sg, galois_serialize gk = Ok sg /\ galois_deserialize F fuel sg (gk_g gk) ms = Ok gk.
Proof.
  intros NW (G1 & _ & (A1 & A2 & A3)) EP.
  assert (HH : exists hs, Forall2 is (gk_bs gk) hs).
  { destruct (switch_sum L ms s _ t be ws (gk_as gk) (gk_bs gk) (map (fun _ => pzero) ws) A1 A2 (map_length _ _) A3) as (fs & hs & es & _ & Hh & _).
    exists hs. exact Hh. }
  destruct HH as [hs Hh]. destruct (serialize_all _ _ Hh) as (ss & E1 & E2 & E3).
  assert (NB : gk_bs gk <> []) by (intros E; rewrite E in A2; destruct ws; [contradiction|discriminate]).
  assert (NS : ss <> []) by (intros E; rewrite E in E3; destruct (gk_bs gk); [contradiction|discriminate]).
  destruct (Forall2_head _ _ _ Hh NB) as (b0 & h0 & Eb0 & Hb0).
  unfold galois_serialize. rewrite G1, E1. cbn [bind]. eexists. split; [reflexivity|]. unfold galois_deserialize. cbn [sg_bs sg_seed sg_type sg_pow].
  rewrite (ne_match ss) by exact NS. rewrite E2. cbn [bind]. unfold get. rewrite Eb0. cbn [bind]. rewrite (proj1 Hb0), A2, EP. cbn [bind].
  destruct gk. cbn in *. congruence.
Qed.

(** ** A key with too few components *)

Lemma fma_short : forall xs ds ys fs, Forall2 is xs ds -> Forall2 is ys fs -> (length ys < length xs)%nat -> forall acc h xpre ypre, is acc h ->
  length xpre = length ypre -> fma_loop ms acc (xpre ++ xs) (ypre ++ ys) (seq (length xpre) (length xs)) = UB.
Proof.
  induction xs as [|x xs IH]; intros ds ys fs Hx Hy Le acc h xpre ypre Ha Lp; [cbn in Le; lia|].
  inversion Hx as [|? d ? ds' Hx1 Hx2]; subst. cbn [length seq fma_loop]. rewrite (get_app xpre x xs) by reflexivity. cbn [bind].
  destruct ys as [|y ys].
  - unfold get. rewrite app_nil_r. destruct (nth_error ypre (length xpre)) eqn:E; [|reflexivity].
    assert (length xpre < length ypre)%nat by (apply nth_error_Some; congruence). lia.
  - inversion Hy as [|? f ? fs' Hy1 Hy2]; subst. rewrite (get_app ypre y ys) by exact Lp. cbn [bind].
    destruct (rns_fused_is k L ms OK acc x y h d f K16 Ha Hx1 Hy1) as (acc' & E & Ha'). rewrite E. cbn [bind].
    pose proof (IH ds' ys fs' Hx2 Hy2 ltac:(cbn in Le; lia) acc' _ (xpre ++ [x]) (ypre ++ [y]) Ha' ltac:(rewrite !app_length; cbn; lia)) as Er.
    rewrite <- !app_assoc, app_length in Er. cbn [app length] in Er. replace (length xpre + 1)%nat with (S (length xpre)) in Er by lia. exact Er.
Qed.

Lemma galois_short gk ws B hs s x w : gk_ms gk = ms -> gadget_for ms L B (gk_g gk) ws -> Forall2 is (gk_bs gk) hs ->
  (length (gk_bs gk) < length ws)%nat -> ciphertext ms L s 2 (gk_pow gk) x w -> galois_apply gk x = UB.
Proof.
  intros G1 (D1 & D2 & D3) Hh Ls (X1 & X2 & X3 & cs & Hc & Hw).
  destruct (rt_c x) as [|c0 [|c1 [|]]] eqn:Ex; try discriminate. destruct (Forall2_two _ _ _ _ Hc) as (f0 & f1 & -> & Hc0 & Hc1).
  destruct (ensure_coeff_ok k L ms OK c1 f1 Hc1) as (c1' & E1 & H1). destruct (D3 c1' f1 H1) as (xs & ds & Ed & Hx & Ld & Bd & Wd).
  destruct (digits_ntt k L ms OK xs ds Hx []) as (ys & Ey & Hy). cbn [app length] in Ey.
  destruct (rns_zero_is k L ms OK true NE) as (z & E0 & Hz).
  assert (Lx : length xs = length ws) by (rewrite (Forall2_len _ _ _ Hx); exact Ld).
  assert (Ly : length ys = length ws) by (rewrite (Forall2_len _ _ _ Hy); exact Ld).
  pose proof (fma_short ys ds (gk_bs gk) hs Hy Hh ltac:(congruence) z _ [] [] Hz eq_refl) as FU. cbn [app length] in FU.
  unfold galois_apply, galois_switch, galois_checks. cbv zeta. rewrite X2, Z.eqb_refl, X1, G1. cbn [negb].
  unfold rct_component. rewrite Ex. cbn [length Nat.eqb negb]. rewrite (same_len_eq ms ms eq_refl). cbn [negb bind].
  change ((1 <? 0) || (Z.of_nat 2 <=? 1)) with false. change (get [c0; c1] (Z.to_nat 1)) with (@Ok rpoly c1). cbn [bind].
  rewrite E1. cbn [bind]. rewrite Ed. cbn [bind]. rewrite (proj1 H1), E0. cbn [bind]. rewrite D1, <- Lx, Ey. cbn [bind]. rewrite Lx, <- Ly, FU. reflexivity.
Qed.

(** ** Relinearization keys *)

Lemma relin_loop_ok R v t key s ws gs : prng_ok R -> variance_fits v ms -> 0 <= t < 2 ^ k -> is key s -> Forall2 (residues ms) gs ws ->
  forall count i secret idx pads fs st bs, is secret (npow n s i) -> Forall2 is pads fs -> length pads = (idx + count * length ws)%nat ->
  relin_loop R (Z.of_nat L) v t ms key secret pads idx gs count st = Ok bs ->
  length bs = (count * length ws)%nat /\ forall j, (j < count)%nat ->
    switch_key ms L s (npow n s (S i + j)) t (2 * v) ws (firstn (length ws) (skipn (idx + j * length ws) pads)) (block (length ws) j bs).
Proof.
  intros HR HV Ht Hk Hg. pose proof (Forall2_len _ _ _ Hg) as Lg.
  induction count as [|c IH]; intros i secret idx pads fs st bs Hs Hp Lp E; cbn [relin_loop] in E.
  - injection E as <-. split; [reflexivity|]. intros j Hj. lia.
  - destruct (rns_mul_is k L ms OK secret key _ s Hs Hk) as (sec & Es & Hs'). rewrite Es in E. cbn [bind] in E.
    change (negacyclic n (npow n s i) s) with (npow n s (S i)) in Hs'.
    destruct (switch_loop R (Z.of_nat L) v t ms key sec pads idx gs st) as [[b0 s1]| |] eqn:El; try discriminate. cbn [bind] in E.
    destruct (relin_loop R (Z.of_nat L) v t ms key sec pads (idx + length gs) gs c s1) as [rest| |] eqn:Er; try discriminate.
    cbn [bind] in E. injection E as <-. rewrite Lg in Er.
    destruct (IH (S i) sec (idx + length ws)%nat pads fs s1 rest Hs' Hp ltac:(cbn in Lp; lia) Er) as [Lr HF].
    set (blk := firstn (length ws) (skipn idx pads)).
    assert (EP : pads = firstn idx pads ++ blk ++ skipn (length ws) (skipn idx pads)).
    { unfold blk. rewrite firstn_skipn, firstn_skipn. reflexivity. }
    assert (Lb : length blk = length ws) by (unfold blk; rewrite firstn_length, skipn_length; cbn [Nat.mul] in Lp; lia).
    assert (Li : length (firstn idx pads) = idx) by (rewrite firstn_length; lia).
    assert (Fb : exists fb, Forall2 is blk fb).
    { exists (firstn (length ws) (skipn idx fs)). unfold blk. clear -Hp. revert idx. induction Hp as [|a f pads fs H1 H2 IHp]; intros idx.
      - rewrite !skipn_nil, !firstn_nil. constructor.
      - destruct idx as [|idx]; [|exact (IHp idx)]. cbn [skipn]. clear IHp. revert H2. generalize (length ws). intros m H2.
        assert (FF : Forall2 is (a :: pads) (f :: fs)) by (constructor; assumption). clear -FF. revert m. induction FF; intros [|m]; cbn [firstn]; constructor; auto. }
    destruct Fb as [fb Hfb].
    destruct (switch_loop_ok k L ms OK NE K16 R v t key s sec _ HR HV Ht Hk Hs' gs ws Hg (firstn idx pads) blk (skipn (length ws) (skipn idx pads)) fb st b0 s1 Hfb)
      as [Lb0 HF0].
    { rewrite Lb, Lg. reflexivity. }
    { rewrite <- EP, Li. exact El. }
    split; [rewrite app_length, Lr, Lb0; cbn; lia|]. intros [|j] Hj.
    + rewrite Nat.add_0_r. cbn [Nat.mul]. rewrite Nat.add_0_r. unfold block. cbn [Nat.mul skipn].
      rewrite firstn_app, Lb0, Nat.sub_diag. cbn [firstn]. rewrite app_nil_r, (firstn_all2 b0) by lia.
      split; [exact Lb|]. split; [exact Lb0|exact HF0].
    + specialize (HF j ltac:(lia)). replace (S i + S j)%nat with (S (S i) + j)%nat by lia.
      replace (idx + S j * length ws)%nat with (idx + length ws + j * length ws)%nat by (cbn; lia).
      unfold block in *. rewrite skipn_app. rewrite (skipn_all2 b0) by (rewrite Lb0; cbn; lia). cbn [app].
      replace (S j * length ws - length b0)%nat with (j * length ws)%nat by (rewrite Lb0; cbn; lia). exact HF.
Qed.

Lemma relin_create_ok F fuel key sk degree v g ty t seed seed_e rr B ws : distinct ms -> key_is ms L key sk -> prng_ok (gf_prng F ty) ->
  variance_fits v ms -> 0 <= t < 2 ^ k -> gadget_for ms L B g ws -> rrelin_create F fuel key degree v g ty t seed seed_e = Ok rr ->
  relin_key ms L sk t (2 * v) B ws rr /\ rr_deg rr = degree /\ rr_g rr = g /\ rr_seed rr = seed /\ rr_type rr = ty /\ 0 < v.
Proof.
  intros DI (K1 & K2) HR HV Ht HG E. pose proof HG as (G1 & G2 & _). unfold rrelin_create in E.
  destruct (Z.leb_spec degree 1); [discriminate|]. destruct (known_type ty) eqn:KT; [|discriminate]. cbn [negb] in E.
  unfold relin_pads in E. rewrite G1 in E. destruct (Z.leb_spec (Z.of_nat (length ws)) 0); [discriminate|]. destruct (Z.leb_spec degree 1); [lia|].
  rewrite K1, (proj1 K2) in E. destruct (Z.leb_spec (Z.of_nat L) 0); [discriminate|]. rewrite KT in E. cbn [negb] in E.
  destruct (gf_start F ty seed) as [s0| |]; try discriminate. cbn [bind] in E.
  match type of E with bind ?x _ = _ => destruct x as [pads| |] eqn:Ep; try discriminate end. cbn [bind] in E.
  destruct (pads_ok k L ms OK NE _ _ DI _ _ _ Ep) as (Lp & fs & Hp). unfold relin_create_pads in E. cbv zeta in E.
  destruct (Z.leb_spec v 0); [discriminate|]. destruct (gf_start F ty seed_e) as [s_e| |]; try discriminate. cbn [bind] in E.
  rewrite K1, (proj1 K2) in E.
  match type of E with bind ?x _ = _ => destruct x as [bs| |] eqn:El; try discriminate end. cbn [bind] in E. injection E as <-.
  assert (Lp' : length pads = (Z.to_nat (degree - 1) * length ws)%nat).
  { rewrite Lp, Z2Nat.inj_mul by lia. rewrite Nat2Z.id. lia. }
  destruct (relin_loop_ok _ v t (rsk_key key) sk ws (rg_gs g) HR HV Ht K2 G2 (Z.to_nat (degree - 1)) 1%nat (rsk_key key) 0%nat pads fs s_e bs)
    as [Lb HF]; try assumption.
  { apply (rns_pcong k L ms OK true _ _ _ K2). change (npow n sk 1) with (negacyclic n (pconst 1) sk). ring. }
  cbn [rr_deg rr_g rr_seed rr_type]. split; [|repeat split; try reflexivity; lia].
  split; [reflexivity|]. split; [exact HG|]. cbn [rr_deg rr_as rr_bs]. split; [lia|]. split; [exact Lp'|]. split; [exact Lb|].
  intros i Hi2 Hi. specialize (HF (i - 2)%nat ltac:(lia)). cbn [Nat.add] in HF. replace (S (S (i - 2))) with i in HF by lia. exact HF.
Qed.

(** one component *)
Lemma relin_digits_ok rr : forall pas pbs fs hs, Forall2 is pas fs -> Forall2 is pbs hs -> length pas = length pbs ->
  forall xs ds, Forall2 (rns_is ms L false) xs ds -> length xs = length pas ->
  forall xpre apre bpre apost bpost base c0 c1 g0 g1, rr_as rr = apre ++ pas ++ apost -> rr_bs rr = bpre ++ pbs ++ bpost ->
  length apre = (base + length xpre)%nat -> length bpre = (base + length xpre)%nat -> is c0 g0 -> is c1 g1 ->
  exists d0 d1, relin_digits ms rr (xpre ++ xs) base (seq (length xpre) (length xs)) c0 c1 = Ok (d0, d1) /\
    is d0 (padd g0 (pdot n ds hs)) /\ is d1 (padd g1 (pdot n ds fs)).
Proof.
  induction pas as [|a pas IH]; intros pbs fs hs Ha Hb Lab xs ds Hx Lx xpre apre bpre apost bpost base c0 c1 g0 g1 Ea Eb La Lb H0 H1.
  - destruct xs; [|discriminate]. inversion Hx; subst. exists c0, c1. split; [reflexivity|]. change (pdot n [] hs) with pzero. change (pdot n [] fs) with pzero.
    split; [apply (rns_pcong k L ms OK true c0 g0 _ H0)|apply (rns_pcong k L ms OK true c1 g1 _ H1)]; ring.
  - destruct pbs as [|b pbs]; [discriminate|]. destruct xs as [|x xs]; [discriminate|].
    inversion Ha as [|? f ? fs' Ha1 Ha2]; subst. inversion Hb as [|? h ? hs' Hb1 Hb2]; subst. inversion Hx as [|? d ? ds' Hx1 Hx2]; subst.
    cbn [length seq relin_digits]. rewrite (get_app xpre x xs) by reflexivity. cbn [bind].
    destruct (rns_to_ntt_is k L ms OK x d Hx1) as (y & Ey & Hy). rewrite Ey. cbn [bind].
    cbn [app] in Ea, Eb. rewrite Eb. rewrite (get_app bpre b (pbs ++ bpost)) by lia. cbn [bind].
    destruct (rns_fused_is k L ms OK c0 y b g0 d h K16 H0 Hy Hb1) as (d0 & E0 & D0). rewrite E0. cbn [bind].
    rewrite Ea. rewrite (get_app apre a (pas ++ apost)) by lia. cbn [bind].
    destruct (rns_fused_is k L ms OK c1 y a g1 d f K16 H1 Hy Ha1) as (d1 & E1 & D1). rewrite E1. cbn [bind].
    destruct (IH pbs fs' hs' Ha2 Hb2 ltac:(cbn in Lab; lia) xs ds' Hx2 ltac:(cbn in Lx; lia) (xpre ++ [x]) (apre ++ [a]) (bpre ++ [b]) apost bpost base d0 d1 _ _
      ltac:(rewrite <- app_assoc; exact Ea) ltac:(rewrite <- app_assoc; exact Eb) ltac:(rewrite !app_length; cbn; lia) ltac:(rewrite !app_length; cbn; lia) D0 D1)
      as (r0 & r1 & Er & R0 & R1).
    rewrite <- !app_assoc, app_length in Er. cbn [app length] in Er. replace (length xpre + 1)%nat with (S (length xpre)) in Er by lia.
    exists r0, r1. split; [exact Er|].
    change (pdot n (d :: ds') (h :: hs')) with (padd (negacyclic n d h) (pdot n ds' hs')).
    change (pdot n (d :: ds') (f :: fs')) with (padd (negacyclic n d f) (pdot n ds' fs')).
    split; [apply (rns_pcong k L ms OK true _ _ _ R0)|apply (rns_pcong k L ms OK true _ _ _ R1)]; unfold padd; intros i _; apply cong_eq; ring.
Qed.

Lemma block_split {A} dim b (l : list A) : l = firstn (b * dim) l ++ block dim b l ++ skipn dim (skipn (b * dim) l).
Proof. unfold block. rewrite firstn_skipn, firstn_skipn. reflexivity. Qed.

Lemma npow_S s i : pcong Q n (npow n s (S i)) (negacyclic n s (npow n s i)).
Proof. cbn [npow]. ring. Qed.

Lemma relin_components_ok s t be B ws rr l : 0 <= B -> 0 <= be -> relin_key ms L s t be B ws rr ->
  forall cs gs i c0 c1 g0 g1, Forall2 is cs gs -> (2 <= i)%nat -> (cs = [] \/ Z.of_nat (i + length cs) - 1 <= rr_deg rr) ->
  (forall i', (i <= i' < i + length cs)%nat -> ((i' - 2) * l = (i' - 2) * length ws)%nat) -> is c0 g0 -> is c1 g1 ->
  exists d0 d1 h0 h1 E, relin_components rr l i cs c0 c1 = Ok (d0, d1) /\ is d0 h0 /\ is d1 h1 /\
    bounded n (Z.of_nat (length cs) * switch_bound n (length ws) B be) E /\
    pcong Q n (padd h0 (negacyclic n h1 s)) (padd (padd (padd g0 (negacyclic n g1 s)) (negacyclic n (npow n s i) (phase_of n s gs))) (pscale t E)).
Proof.
  intros HB Hbe (R1 & (D1 & D2 & D3) & R3 & R4 & R5 & R6).
  induction cs as [|c cs IH]; intros gs i c0 c1 g0 g1 Hc Hi Hd Hl H0 H1.
  - inversion Hc. exists c0, c1, g0, g1, pzero. split; [reflexivity|]. split; [exact H0|]. split; [exact H1|]. split.
    + intros j _. cbn. lia.
    + rewrite (phase_nil Q n), (pscale_const Q n HnT). ring.
  - inversion Hc as [|? f ? gs' Hc1 Hc2 E1 E2]. destruct Hd as [Hd|Hd]; [discriminate|]. cbn [length] in Hd.
    destruct (ensure_coeff_ok k L ms OK c f Hc1) as (c' & Ec & Hc'). destruct (D3 c' f Hc') as (xs & ds & Ed & Hx & Ld & Bd & Wd).
    destruct (R6 i Hi ltac:(lia)) as (S1 & S2 & S3).
    destruct (switch_sum L ms s _ t be ws _ _ ds S1 S2 Ld S3) as (fs & hs & es & Hf & Hh & Be & HP).
    assert (Lx : length xs = length ws) by (rewrite (Forall2_len _ _ _ Hx); exact Ld).
    pose proof (Hl i ltac:(cbn [length]; lia)) as HL.
    assert (LE : ((i - 2) * length ws <= Z.to_nat (rr_deg rr - 1) * length ws)%nat) by (apply Nat.mul_le_mono_r; lia).
    destruct (relin_digits_ok rr _ _ fs hs Hf Hh ltac:(congruence) xs ds Hx ltac:(congruence) []
      (firstn ((i - 2) * length ws) (rr_as rr)) (firstn ((i - 2) * length ws) (rr_bs rr))
      (skipn (length ws) (skipn ((i - 2) * length ws) (rr_as rr))) (skipn (length ws) (skipn ((i - 2) * length ws) (rr_bs rr))) ((i - 2) * l) c0 c1 g0 g1
      (block_split _ _ _) (block_split _ _ _)) as (d0 & d1 & Er & HD0 & HD1); try assumption.
    { rewrite firstn_length, R4, HL. cbn [length]. rewrite Nat.add_0_r. apply Nat.min_l. exact LE. }
    { rewrite firstn_length, R5, HL. cbn [length]. rewrite Nat.add_0_r. apply Nat.min_l. exact LE. }
    assert (Hd' : cs = [] \/ Z.of_nat (S i + length cs) - 1 <= rr_deg rr) by (right; lia).
    assert (Hl' : forall i', (S i <= i' < S i + length cs)%nat -> ((i' - 2) * l = (i' - 2) * length ws)%nat).
    { intros i' Hi'. apply Hl. cbn [length]. lia. }
    destruct (IH gs' (S i) d0 d1 _ _ Hc2 ltac:(lia) Hd' Hl' HD0 HD1) as (r0 & r1 & h0 & h1 & E & Er' & HR0 & HR1 & BE & HH).
    exists r0, r1, h0, h1, (padd (pdot n ds es) E). split.
    { cbn [relin_components]. rewrite R1, Ec. cbn [bind]. rewrite Ed. cbn [bind]. rewrite D1, <- Lx. cbn [app length] in Er. rewrite Er. cbn [bind]. exact Er'. }
    split; [exact HR0|]. split; [exact HR1|]. split.
    + intros j Hj. unfold padd. pose proof (pdot_bound n B be HB Hbe ds es Bd Be j Hj) as P. rewrite Ld in P. specialize (BE j Hj).
      cbn [length]. rewrite Nat2Z.inj_succ, Z.mul_succ_l. lia.
    + rewrite HH, (phase_cons Q n HnT). rewrite npow_S.
      set (A := pdot n ds hs) in *. set (C := pdot n ds fs) in *. set (E' := pdot n ds es) in *. rewrite !(pscale_const Q n HnT) in HP |- *. rewrite Wd in HP.
      set (N := npow n s i) in *. set (P := phase_of n s gs') in *.
      transitivity (padd (padd (padd g0 (negacyclic n g1 s)) (padd A (negacyclic n C s))) (padd (negacyclic n (negacyclic n s N) P) (negacyclic n (pconst t) E))); [ring|].
      rewrite HP. rewrite (pscale_const Q n HnT). ring.
Qed.

Lemma relin_apply_ok s t be B ws rr x w len : 0 <= B -> 0 <= be -> relin_key ms L s t be B ws rr -> ciphertext ms L s len 1 x w ->
  (2 <= len)%nat -> Z.of_nat len - 1 <= rr_deg rr -> (len <= 3 \/ len = S (length ws))%nat ->
  exists E, bounded n (Z.of_nat (len - 2) * switch_bound n (length ws) B be) E /\ gives ms L s 2 1 (rrelin_apply rr x) (fun i => w i + t * E i).
Proof.
  intros HB Hbe RK (X1 & X2 & X3 & cs & Hc & Hw) Hlen Hdeg Hidx. pose proof RK as (R1 & _).
  destruct (rt_c x) as [|c0 [|c1 cl]] eqn:Ex; try (cbn in X3; lia). destruct cs as [|g0 [|g1 gs]]; [inversion Hc|inversion Hc as [|? ? ? ? ? Hq]; inversion Hq|].
  assert (Hc0 : is c0 g0) by (inversion Hc; assumption). assert (Hc' : Forall2 is (c1 :: cl) (g1 :: gs)) by (inversion Hc; assumption).
  assert (Hc1 : is c1 g1) by (inversion Hc'; assumption). assert (Hc2 : Forall2 is cl gs) by (inversion Hc'; assumption). cbn [length] in X3.
  destruct (relin_components_ok s t be B ws rr (len - 1) HB Hbe RK cl gs 2 c0 c1 g0 g1 Hc2 (le_n _)) as (d0 & d1 & h0 & h1 & E & Er & HD0 & HD1 & BE & HH); try assumption.
  { right. lia. }
  { intros i' Hi'. destruct (Nat.eq_dec i' 2) as [->|]; [reflexivity|]. f_equal. lia. }
  exists E. split; [replace (len - 2)%nat with (length cl) by lia; exact BE|].
  exists (rct_make [d0; d1] ms 1). split.
  - unfold rrelin_apply. rewrite Ex, X1, X2, R1. rewrite (same_len_eq ms ms eq_refl). cbn [negb Z.eqb].
    assert (LT : (rr_deg rr <? Z.of_nat (length (c0 :: c1 :: cl)) - 1) = false) by (apply Z.ltb_ge; cbn [length]; lia). rewrite LT.
    unfold rct_component. rewrite Ex.
    assert (C0 : (0 <? 0) || (Z.of_nat (length (c0 :: c1 :: cl)) <=? 0) = false) by (apply Bool.orb_false_iff; split; [reflexivity|apply Z.leb_gt; cbn [length]; lia]).
    assert (C1 : (1 <? 0) || (Z.of_nat (length (c0 :: c1 :: cl)) <=? 1) = false) by (apply Bool.orb_false_iff; split; [reflexivity|apply Z.leb_gt; cbn [length]; lia]).
    rewrite C0, C1. change (get (c0 :: c1 :: cl) (Z.to_nat 0)) with (@Ok rpoly c0). change (get (c0 :: c1 :: cl) (Z.to_nat 1)) with (@Ok rpoly c1).
    cbn [bind skipn]. replace (length (c0 :: c1 :: cl) - 1)%nat with (len - 1)%nat by (cbn [length]; lia). rewrite Er. reflexivity.
  - split; [reflexivity|]. split; [reflexivity|]. split; [reflexivity|]. exists [h0; h1].
    split; [constructor; [exact HD0|constructor; [exact HD1|constructor]]|]. change (Z.to_nat 1) with 1%nat in *.
    rewrite two_phase, (subst_one Q n HnT s), HH. change (fun i => w i + t * E i) with (padd w (pscale t E)). rewrite <- Hw.
    rewrite !(phase_cons Q n HnT).
    assert (PS : pcong Q n (phase_of n (substituted n 1 s) gs) (phase_of n s gs)).
    { apply phase_cong; [exact HnT|apply (subst_one Q n HnT)|]. clear. induction gs; constructor; [reflexivity|assumption]. }
    rewrite PS, (subst_one Q n HnT s). cbn [npow]. ring.
Qed.

(** ** Indices past the end of the key *)

Lemma relin_digits_short rr : forall xs ds, Forall2 (rns_is ms L false) xs ds -> forall pas pbs fs hs, Forall2 is pas fs -> Forall2 is pbs hs ->
  length pas = length pbs -> (length pbs < length xs)%nat ->
  forall xpre apre bpre base c0 c1 g0 g1, rr_as rr = apre ++ pas -> rr_bs rr = bpre ++ pbs -> length apre = length bpre ->
  (length bpre = (base + length xpre)%nat \/ pbs = [] /\ (length bpre <= base + length xpre)%nat) -> is c0 g0 -> is c1 g1 ->
  relin_digits ms rr (xpre ++ xs) base (seq (length xpre) (length xs)) c0 c1 = UB.
Proof.
  induction xs as [|x xs IH]; intros ds Hx pas pbs fs hs Ha Hb Lab Lt xpre apre bpre base c0 c1 g0 g1 Ea Eb Lp LB H0 H1; [cbn in Lt; lia|].
  inversion Hx as [|? d ? ds' Hx1 Hx2]; subst. cbn [length seq relin_digits]. rewrite (get_app xpre x xs) by reflexivity. cbn [bind].
  destruct (rns_to_ntt_is k L ms OK x d Hx1) as (y & Ey & Hy). rewrite Ey. cbn [bind]. rewrite Eb.
  destruct pbs as [|b pbs].
  - unfold get. rewrite app_nil_r. destruct (nth_error bpre (base + length xpre)) eqn:E; [|reflexivity].
    assert (base + length xpre < length bpre)%nat by (apply nth_error_Some; congruence). lia.
  - destruct LB as [LB|[X _]]; [|discriminate]. destruct pas as [|a pas]; [discriminate|].
    inversion Ha as [|? f ? fs' Ha1 Ha2]; subst. inversion Hb as [|? h ? hs' Hb1 Hb2]; subst.
    rewrite (get_app bpre b pbs) by lia. cbn [bind].
    destruct (rns_fused_is k L ms OK c0 y b g0 d h K16 H0 Hy Hb1) as (d0 & E0 & D0). rewrite E0. cbn [bind].
    rewrite Ea. rewrite (get_app apre a pas) by lia. cbn [bind].
    destruct (rns_fused_is k L ms OK c1 y a g1 d f K16 H1 Hy Ha1) as (d1 & E1 & D1). rewrite E1. cbn [bind].
    pose proof (IH ds' Hx2 pas pbs fs' hs' Ha2 Hb2 ltac:(cbn in Lab; lia) ltac:(cbn in Lt; lia) (xpre ++ [x]) (apre ++ [a]) (bpre ++ [b]) base d0 d1 _ _
      ltac:(rewrite <- app_assoc; exact Ea) ltac:(rewrite <- app_assoc; exact Eb) ltac:(rewrite !app_length; cbn; lia) ltac:(rewrite !app_length; cbn; lia) D0 D1) as Er.
    rewrite <- !app_assoc, app_length in Er. cbn [app length] in Er. replace (length xpre + 1)%nat with (S (length xpre)) in Er by lia. exact Er.
Qed.

Lemma Forall2_firstn {A B} (P : A -> B -> Prop) l l' : Forall2 P l l' -> forall m, Forall2 P (firstn m l) (firstn m l').
Proof. intros H. induction H; intros [|m]; cbn [firstn]; constructor; auto. Qed.
Lemma Forall2_skipn {A B} (P : A -> B -> Prop) l l' : Forall2 P l l' -> forall m, Forall2 P (skipn m l) (skipn m l').
Proof. intros H. induction H; intros [|m]; cbn [skipn]; try constructor; auto. Qed.

Lemma relin_short s t be B ws rr x w : relin_key ms L s t be B ws rr -> rr_deg rr = 3 -> (1 <= length ws <= 2)%nat ->
  ciphertext ms L s 4 1 x w -> rrelin_apply rr x = UB.
Proof.
  intros (R1 & (D1 & D2 & D3) & R3 & R4 & R5 & R6) ED LW (X1 & X2 & X3 & cs & Hc & Hw).
  destruct (rt_c x) as [|c0 [|c1 [|c2 [|c3 [|]]]]] eqn:Ex; try discriminate.
  destruct cs as [|g0 [|g1 [|g2 [|g3 [|]]]]]; try (apply Forall2_len in Hc; discriminate).
  assert (F : is c0 g0 /\ is c1 g1 /\ is c2 g2 /\ is c3 g3).
  { clear -Hc. repeat match goal with H : Forall2 _ (_ :: _) _ |- _ => inversion H; clear H; subst end. auto. }
  destruct F as (Hc0 & Hc1 & Hc2 & Hc3).
  rewrite ED in *. change (Z.to_nat (3 - 1)) with 2%nat in *.
  destruct (R6 2%nat (le_n _) ltac:(lia)) as (S1 & S2 & S3). destruct (R6 3%nat ltac:(lia) ltac:(lia)) as (T1 & T2 & T3).
  assert (HA : exists fs hs fs' hs', Forall2 is (block (length ws) 0 (rr_as rr)) fs /\ Forall2 is (block (length ws) 0 (rr_bs rr)) hs /\
     Forall2 is (block (length ws) 1 (rr_as rr)) fs' /\ Forall2 is (block (length ws) 1 (rr_bs rr)) hs').
  { destruct (switch_sum L ms s _ t be ws _ _ (map (fun _ => pzero) ws) S1 S2 (map_length _ _) S3) as (fs & hs & es & A1 & A2 & _).
    destruct (switch_sum L ms s _ t be ws _ _ (map (fun _ => pzero) ws) T1 T2 (map_length _ _) T3) as (fs' & hs' & es' & A3 & A4 & _). exists fs, hs, fs', hs'. auto. }
  destruct HA as (fs & hs & fs' & hs' & A1 & A2 & A3 & A4). cbn [Nat.sub] in *.
  assert (EA : forall l : list rpoly, length l = (2 * length ws)%nat -> l = block (length ws) 0 l ++ block (length ws) 1 l).
  { intros l Hl. unfold block. cbn [Nat.mul skipn]. rewrite Nat.add_0_r. rewrite (firstn_all2 (skipn (length ws) l)) by (rewrite skipn_length; lia).
    symmetry. apply firstn_skipn. }
  assert (FA : Forall2 is (rr_as rr) (fs ++ fs')) by (rewrite (EA _ R4); apply Forall2_app; assumption).
  assert (FB : Forall2 is (rr_bs rr) (hs ++ hs')) by (rewrite (EA _ R5); apply Forall2_app; assumption).
  unfold rrelin_apply, rct_component. rewrite Ex, X1, X2, R1, ED. rewrite (same_len_eq ms ms eq_refl). cbn [negb Z.eqb length].
  change (3 <? Z.of_nat 4 - 1) with false. change ((0 <? 0) || (Z.of_nat 4 <=? 0)) with false. change ((1 <? 0) || (Z.of_nat 4 <=? 1)) with false.
  change (get [c0; c1; c2; c3] (Z.to_nat 0)) with (@Ok rpoly c0). change (get [c0; c1; c2; c3] (Z.to_nat 1)) with (@Ok rpoly c1).
  cbn [bind skipn relin_components]. rewrite R1, D1.
  destruct (ensure_coeff_ok k L ms OK c2 g2 Hc2) as (c2' & Ec & Hc'). destruct (D3 c2' g2 Hc') as (xs & ds & Ed & Hx & Ld & _).
  assert (Lx : length xs = length ws) by (rewrite (Forall2_len _ _ _ Hx); exact Ld).
  rewrite Ec. cbn [bind]. rewrite Ed. cbn [bind]. cbn [Nat.sub Nat.mul].
  assert (EI : forall l : list rpoly, l = [] ++ block (length ws) 0 l ++ skipn (length ws) l).
  { intros l. unfold block. cbn [Nat.mul skipn app]. symmetry. apply firstn_skipn. }
  destruct (relin_digits_ok rr _ _ fs hs A1 A2 ltac:(congruence) xs ds Hx ltac:(congruence) [] [] [] _ _ 0%nat c0 c1 g0 g1 (EI _) (EI _) eq_refl eq_refl Hc0 Hc1)
    as (d0 & d1 & Er & HD0 & HD1).
  cbn [app length] in Er. rewrite Lx in Er. rewrite Er. cbn [bind].
  destruct (ensure_coeff_ok k L ms OK c3 g3 Hc3) as (c3' & Ec3 & Hc3'). destruct (D3 c3' g3 Hc3') as (xs' & ds' & Ed' & Hx' & Ld' & _).
  assert (Lx' : length xs' = length ws) by (rewrite (Forall2_len _ _ _ Hx'); exact Ld').
  rewrite Ec3. cbn [bind]. rewrite Ed'. cbn [bind].
  assert (LB : length (firstn 3 (rr_bs rr)) = (3 + @length rpoly [])%nat \/ skipn 3 (rr_bs rr) = [] /\ (length (firstn 3 (rr_bs rr)) <= 3 + @length rpoly [])%nat).
  { rewrite firstn_length. cbn [length]. destruct (Nat.le_gt_cases 3 (length (rr_bs rr))); [left; lia|right]. split; [apply skipn_all2; lia|lia]. }
  pose proof (relin_digits_short rr xs' ds' Hx' (skipn 3 (rr_as rr)) (skipn 3 (rr_bs rr)) _ _ (Forall2_skipn _ _ _ FA 3) (Forall2_skipn _ _ _ FB 3)
    ltac:(rewrite !skipn_length; lia) ltac:(rewrite skipn_length; lia) [] (firstn 3 (rr_as rr)) (firstn 3 (rr_bs rr)) 3 d0 d1 _ _
    (eq_sym (firstn_skipn _ _)) (eq_sym (firstn_skipn _ _)) ltac:(rewrite !firstn_length; lia) LB HD0 HD1) as FU.
  cbn [app length] in FU. rewrite Lx' in FU.
  match goal with |- context [relin_digits _ _ _ ?b _ _ _] => change b with 3%nat end. rewrite FU. reflexivity.
Qed.
End Switch.
