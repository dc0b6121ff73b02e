(** The constants of a context for BFV products; modulus reduction, products
    with unscaled plaintexts, and what is refused. *)
From Coq Require Import Setoid Ring Znumtheory QArith Lia.
From Verif Require Import Base FinSum MontgomeryProofs PolySpec Ring NegRing SymSpec Montgomery MontBatch MontBatchProofs Ntt Spec ArithFacts NttFacts PolyView
  RnsPoly RnsSpec CrtMath RnsSub RnsProofs RnsReduce RnsBasis RnsBasis2 RnsFloat RnsCt RnsCtSpec RnsCtProofs RnsNoise RnsCtx RnsCtxSpec RnsCtxProofs RnsCtxFacts ThmRnsCtx
  RnsDecode RnsDecodeBfv RnsBfv RnsBfvSpec RnsBfvProofs RnsBfvNoise RnsBfvProofs2 RnsKeySpec ThmRns.
Local Open Scope Z_scope.
Local Notation zsum := FinSum.zsum.

Section Ctx.
Variables (k log_n : Z) (qs ps : list Z) (t : Z) (c : rctx) (D : dops) (val : d_t D -> Q) (eps : Q).
Hypothesis A : ctx_args k qs ps t.
Hypothesis M : ctx_made k log_n qs ps t c.
Hypothesis FM : float_model D val eps.
Hypothesis Rq : roundable k eps (Z.of_nat (length qs)).
Hypothesis Rp : roundable k eps (Z.of_nat (length ps)).
Local Notation L := (Z.to_nat log_n).

Lemma ctx_pos_k : 0 < k.
Proof. destruct A as (W & _). unfold word_size in W. lia. Qed.

Lemma len_moduli (ms : list pmod) l : moduli ms = l -> length ms = length l.
Proof. intros <-. unfold moduli. rewrite map_length. reflexivity. Qed.

Lemma near_of ms l : moduli_ok k L ms -> distinct ms -> moduli ms = l -> roundable k eps (Z.of_nat (length l)) -> near D k ms.
Proof.
  intros OK DI E (R1 & R2 & R3) x. rewrite <- (len_moduli ms l E) in *.
  apply (float_near D val eps FM k L ms OK x R2 R3 ctx_pos_k); [lia|]. intros ->. cbn in R1. lia.
Qed.

Lemma top_level : level_of (rc_qs c) = Z.of_nat (length qs - 1) /\ rc_qs c = at_level c (length qs - 1).
Proof.
  destruct (made_ok _ _ _ _ _ _ A M) as (_ & _ & _ & Mq & _). pose proof (len_moduli _ _ Mq) as Lq. destruct Rq as (R1 & _). split.
  - unfold level_of. lia.
  - unfold at_level. rewrite firstn_all2 by lia. reflexivity.
Qed.

Lemma with_constants (G : Prop) :
  (moduli_ok k L (rc_qs c) -> moduli_ok k L (rc_ps c) -> distinct (rc_qs c) -> distinct (rc_ps c) -> distinct (rc_qs c ++ rc_ps c) ->
   rc_qs c <> [] -> rc_ps c <> [] -> near D k (rc_qs c) -> near D k (rc_ps c) -> 0 <= rc_t c < 2 ^ k ->
   hat_inverses (rc_ps c) (firstn (length (rc_ps c)) (rc_p_hat_invs c)) -> hat_residues (rc_ps c) (rc_qs c) (rc_p_hat_mod_qs c) ->
   (length (rc_ps c) <= length (rc_p_hat_mod_qs c))%nat -> residues (rc_qs c) (rc_p_mod_qs c) (big_q (rc_ps c)) ->
   inverses (rc_qs c) (rc_p_inv_mod_qs c) (big_q (rc_ps c)) -> q_inverses (rc_qs c) (rc_ps c) (rc_q_inv_mod_ps c) ->
   forall hat_inv hat_mod q_mod, main_crt_factors c (level_of (rc_qs c)) = Ok hat_inv ->
   main_complement_residues c (level_of (rc_qs c)) = Ok hat_mod -> main_leveled_aux_residues c (level_of (rc_qs c)) = Ok q_mod ->
   hat_inverses (rc_qs c) (firstn (length (rc_qs c)) hat_inv) -> hat_residues (rc_qs c) (rc_ps c) hat_mod ->
   (length (rc_qs c) <= length hat_mod)%nat -> residues (rc_ps c) q_mod (big_q (rc_qs c)) -> G) -> G.
Proof.
  intros K. destruct (made_ok _ _ _ _ _ _ A M) as (_ & _ & Et & Mq & Mp & Oq & Op & DA & _).
  destruct top_level as [TL TA].
  destruct (C49_levels k log_n qs ps t c (length qs - 1) A M ltac:(destruct Rq; lia)) as (_ & (ws & E1 & H1) & (rows & E2 & H2) & (z & E3 & H3) & _).
  rewrite <- TL in E1, E2, E3. rewrite <- TA in H1, H2, H3.
  destruct (C49_constants k log_n qs ps t c A M) as (_ & _ & _ & _ & _ & _ & _ & P1 & P2 & P3 & P4 & P5 & _).
  assert (EP : prodz ps = big_q (rc_ps c)) by (unfold big_q; congruence). rewrite EP in *.
  assert (Dq : distinct (rc_qs c)) by (unfold distinct, moduli in *; rewrite map_app in DA; apply nodup_app2 in DA; apply DA).
  assert (Dp : distinct (rc_ps c)) by (unfold distinct, moduli in *; rewrite map_app in DA; apply nodup_app2 in DA; apply DA).
  pose proof (len_moduli _ _ Mq) as Lq. pose proof (len_moduli _ _ Mp) as Lp.
  pose proof (Forall2_len _ _ _ P1) as L1. pose proof (Forall2_len _ _ _ P2) as L2. pose proof (Forall2_len _ _ _ H1) as L3. pose proof (Forall2_len _ _ _ H2) as L4.
  apply (K Oq Op Dq Dp DA) with (hat_inv := ws) (hat_mod := rows) (q_mod := z); try assumption.
  - intros E. rewrite E in Lq. destruct Rq as (R1 & _). cbn in Lq. lia.
  - intros E. rewrite E in Lp. destruct Rp as (R1 & _). cbn in Lp. lia.
  - apply (near_of _ qs Oq Dq Mq Rq).
  - apply (near_of _ ps Op Dp Mp Rp).
  - rewrite Et. assert (1 < t < 2 ^ k) by apply A. lia.
  - rewrite firstn_all2 by lia. exact P1.
  - unfold hat_residues. unfold rnsint in *. rewrite firstn_all2 by lia. eapply Forall2_imp; [exact P2|]. intros m r _ Hr. cbv beta in *.
    rewrite firstn_all2; [exact Hr|]. rewrite (Forall2_len _ _ _ Hr). lia.
  - unfold rnsint in *. lia.
  - unfold q_inverses. eapply Forall2_imp; [exact P5|]. intros m r _ Hr. cbv beta in *.
    rewrite firstn_all2; [exact Hr|]. rewrite (Forall2_len _ _ _ Hr). lia.
  - rewrite firstn_all2 by lia. exact H1.
  - unfold hat_residues. unfold rnsint in *. rewrite firstn_all2 by lia. eapply Forall2_imp; [exact H2|]. intros m r _ Hr. cbv beta in *.
    rewrite firstn_all2; [exact Hr|]. rewrite (Forall2_len _ _ _ Hr). lia.
  - unfold rnsint in *. lia.
Qed.
End Ctx.

(** ** Products with unscaled plaintexts *)
Lemma absorb_simple_gives k L ms s len j x w plain f : moduli_ok k L ms -> ciphertext ms L s len j x w -> rns_is ms L true plain f ->
  gives ms L s len j (bfv_absorb_simple x plain) (negacyclic (2 ^ L) w f).
Proof.
  intros OK Hx Hp. unfold bfv_absorb_simple. pose proof Hx as (X1 & _). rewrite X1. pose proof (rns_len _ _ _ _ _ Hp) as El.
  unfold level_of. rewrite <- El. replace (Z.of_nat (length ms) - 1 + 1) with (Z.of_nat (length ms)) by ring. rewrite Z.eqb_refl. cbn [negb].
  pose proof Hp as (_ & En & _). rewrite En. cbn [negb].
  apply (map_gives L ms s len j x w _ (fun d => negacyclic (2 ^ L) d f) f _ Hx).
  - intros a d Ha. apply (rns_mul_is k L ms OK a plain d f Ha Hp).
  - intros d. reflexivity.
  - reflexivity.
Qed.

(** ** Modulus reduction *)
Lemma mod_reduce_msb_gives k L ms ml s len j x w inv z : moduli_ok k L ms -> mod_ok k L ml -> ms <> [] ->
  inverses ms inv (modulus ml) -> ciphertext (ms ++ [ml]) L s len j x w ->
  forall c, get (rc_prime_q_invs c) (length ms) = Ok z -> rnsint_prefix z (length ms) = Ok inv ->
  exists g u, gives ms L s len j (bfv_mod_reduce c x) g /\
    forall i, (i < 2 ^ L)%nat ->
      2 * Z.abs (modulus ml * g i - (w i + big_q ms * modulus ml * u i)) <= modulus ml * key_size (2 ^ L) s len.
Proof.
  intros OK OKl NE HI (X1 & X2 & X3 & cs & HF & HP) c Ez Ei. set (n := (2 ^ L)%nat) in *. set (ql := modulus ml) in *.
  set (S0 := substituted n (Z.to_nat j) s) in *. assert (N0 : (0 < n)%nat) by apply (Hn L).
  pose proof (ok_q k L ml OKl) as Q1. fold ql in Q1.
  assert (EQ : big_q (ms ++ [ml]) = big_q ms * ql).
  { unfold big_q, moduli. rewrite map_app. cbn [map]. unfold prodz. rewrite fold_right_app. cbn [fold_right].
    clear. fold ql. induction (map modulus ms) as [|a l IH]; cbn [fold_right]; [ring|]. rewrite IH. ring. }
  assert (R : exists ys gs, seqr (map (fun a => do! z0 <- rnsint_prefix z (length ms); rns_mod_reduce_msb a z0 (ms ++ [ml])) (rt_c x)) = Ok ys /\
    Forall2 (rns_is ms L true) ys gs /\ Forall2 (fun g d => forall i, (i < n)%nat -> Z.abs (ql * g i - 1 * d i) <= ql / 2) gs cs).
  { clear X3 HP. induction HF as [|a d aa dd Ha HF IH]; [exists [], []; cbn; auto|].
    destruct IH as (ys & gs & E & H1 & H2). cbn [map seqr].
    destruct (C53_mod_reduce_msb k L ms ml true a d inv OK OKl NE HI Ha) as (g & (y & Ey & Hy) & B).
    rewrite Ei in *. cbn [bind] in *. rewrite Ey. cbn [bind]. rewrite E. cbn [bind]. exists (y :: ys), (g :: gs).
    split; [reflexivity|]. split; [auto|]. constructor; [|exact H2]. intros i Hi. specialize (B i Hi). fold ql in B.
    rewrite Z.mul_1_l. apply Z.div_le_lower_bound; lia. }
  destruct R as (ys & gs & E & HY & HG). pose proof (Forall2_len _ _ _ HG) as LG. pose proof (Forall2_len _ _ _ HY) as LY. pose proof (Forall2_len _ _ _ HF) as LF.
  destruct (lift_phase n N0 (big_q ms * ql) ltac:(pose proof (big_q_pos k L ms OK); nia) (phase_of n S0 cs) w) as (u & Hu).
  { rewrite <- EQ. exact HP. }
  exists (phase_of n S0 gs), u. split.
  - unfold bfv_mod_reduce. rewrite X1, app_length. cbn [length].
    assert (LN : (1 <= length ms)%nat) by (revert NE; destruct ms; [contradiction|cbn; lia]). destruct (Nat.leb_spec (length ms + 1) 1); [lia|].
    replace (length ms + 1 - 1)%nat with (length ms) by lia. rewrite Ez. cbn [bind]. rewrite E. cbn [bind].
    eexists. split; [reflexivity|]. split; [|split; [exact X2|]].
    { cbn [rt_ms]. rewrite firstn_app, Nat.sub_diag, firstn_all. cbn. apply app_nil_r. }
    cbn [rt_c]. split; [congruence|]. exists gs. split; [exact HY|]. reflexivity.
  - intros i Hi. rewrite <- (Hu i Hi).
    pose proof (pcong0 _ _ _ (phase_lin n N0 S0 ql 1 gs cs LG) i Hi) as E1. unfold psub in E1. rewrite !(const_at n N0) in E1 by exact Hi.
    pose proof (Forall2_phase_diff n N0 S0 (fun g d i => ql * g i - 1 * d i) (ql / 2) ltac:(apply Z.div_pos; lia) gs cs HG i Hi) as B.
    rewrite E1, Z.mul_1_l in B. rewrite LG, <- LF, X3 in B.
    pose proof (l1_nonneg n S0) as N1. pose proof (l1_subst n (Z.to_nat j) s N0) as LS. fold S0 in LS.
    pose proof (geom_mono (l1 n S0) (l1 n s) len ltac:(lia)) as GM. pose proof (geom_nonneg _ len N1) as GN. rewrite key_size_geom.
    pose proof (Z.mul_div_le ql 2 ltac:(lia)) as DV.
    assert (2 * (ql / 2) * geom (l1 n S0) len <= ql * geom (l1 n s) len) by (apply Z.mul_le_mono_nonneg; [pose proof (Z.div_pos ql 2); lia|lia|lia|lia]).
    lia.
Qed.

(** ** Below the full list of main primes *)
Lemma roundable_le k eps n n' : (0 <= eps)%Q -> roundable k eps n -> 0 < n' <= n -> roundable k eps n'.
Proof.
  intros He (R1 & R2 & R3) Hn'. split; [lia|]. split; [exact R2|]. eapply Qle_trans; [|exact R3].
  rewrite !(Qmult_comm eps). apply Qmult_le_compat_r; [|exact He]. rewrite <- Zle_Qle. nia.
Qed.

Section Low.
Variables (k log_n : Z) (qs ps : list Z) (t : Z) (c : rctx) (D : dops) (val : d_t D -> Q) (eps : Q) (l : nat).
Hypothesis A : ctx_args k qs ps t.
Hypothesis M : ctx_made k log_n qs ps t c.
Hypothesis FM : float_model D val eps.
Hypothesis Rq : roundable k eps (Z.of_nat (length qs)).
Hypothesis Rp : roundable k eps (Z.of_nat (length ps)).
Hypothesis Hl : (S l < length qs)%nat.
Local Notation L := (Z.to_nat log_n).
Local Notation ms := (at_level c l).

Lemma low_facts : exists hat_inv hat_mod q_mod,
  main_crt_factors c (level_of ms) = Ok hat_inv /\ main_complement_residues c (level_of ms) = Ok hat_mod /\
  main_leveled_aux_residues c (level_of ms) = Ok q_mod /\
  (forall ci f, rns_is ms L true ci f -> exists cc, rns_to_coeff ci ms = Ok cc /\
     bfv_scale D c ms hat_inv cc = Err InvalidArgument /\
     exists ca b, rns_switch_basis D cc ms (rc_ps c) hat_inv hat_mod q_mod = Ok ca /\ rns_to_ntt ca (rc_ps c) = Ok b) /\
  ms <> [] /\ rc_ps c <> [] /\ moduli_ok k L ms /\ moduli_ok k L (rc_ps c).
Proof.
  destruct (made_ok _ _ _ _ _ _ A M) as (_ & _ & _ & Mq & Mp & Oq & Op & DA & _).
  destruct (C49_levels k log_n qs ps t c l A M ltac:(lia)) as (_ & (ws & E1 & H1) & (rows & E2 & H2) & (z & E3 & H3) & _).
  destruct (C49_constants k log_n qs ps t c A M) as (_ & _ & _ & _ & _ & _ & _ & P1 & P2 & P3 & P4 & P5 & _).
  assert (EP : prodz ps = big_q (rc_ps c)) by (unfold big_q; congruence). rewrite EP in *.
  pose proof (len_moduli _ _ Mq) as Lq. pose proof (len_moduli _ _ Mp) as Lp.
  assert (Lm : length ms = S l) by (unfold at_level; rewrite firstn_length; lia).
  assert (LV : level_of ms = Z.of_nat l) by (unfold level_of; lia).
  assert (Dq : distinct (rc_qs c)) by (unfold distinct, moduli in *; rewrite map_app in DA; apply nodup_app2 in DA; apply DA).
  assert (Dm : distinct ms).
  { unfold at_level, distinct, moduli. rewrite <- firstn_map. unfold distinct, moduli in Dq. rewrite <- (firstn_skipn (S l)) in Dq. apply nodup_app2 in Dq. apply Dq. }
  assert (Om : moduli_ok k L ms) by (apply ForallFirstn, Oq).
  assert (Dmp : distinct (ms ++ rc_ps c)).
  { unfold distinct, moduli in *. rewrite map_app in *. unfold at_level. rewrite <- firstn_map.
    rewrite <- (firstn_skipn (S l) (map modulus (rc_qs c))) in DA.
    clear - DA. set (a := firstn (S l) (map modulus (rc_qs c))) in *. set (b := skipn (S l) (map modulus (rc_qs c))) in *. clearbody a b.
    rewrite <- app_assoc in DA. induction a as [|x a IH]; cbn [app] in *; [apply nodup_app2 in DA; apply DA|].
    inversion DA as [|? ? N1 N2]; subst. constructor; [|apply IH, N2]. intros I. apply N1. rewrite !in_app_iff in *. tauto. }
  assert (NEm : ms <> []) by (intros E; rewrite E in Lm; discriminate).
  assert (NEp : rc_ps c <> []) by (intros E; rewrite E in Lp; destruct Rp as (R1 & _); cbn in Lp; lia).
  assert (NR : near D k ms).
  { apply (near_of k log_n qs ps t D val eps A FM ms (moduli ms) Om Dm eq_refl).
    apply (roundable_le k eps (Z.of_nat (length qs)) _ (fm_eps _ _ _ FM) Rq). unfold moduli. rewrite map_length. lia. }
  pose proof (Forall2_len _ _ _ H1) as L1. pose proof (Forall2_len _ _ _ H2) as L2.
  pose proof (Forall2_len _ _ _ P1) as L3. pose proof (Forall2_len _ _ _ P2) as L4. pose proof (Forall2_len _ _ _ P3) as L5.
  assert (I1 : hat_inverses ms (firstn (length ms) ws)) by (rewrite firstn_all2 by lia; exact H1).
  exists ws, rows, z. rewrite LV. split; [exact E1|]. split; [exact E2|]. split; [exact E3|]. split; [|auto].
  intros ci f Hci. destruct (rns_to_coeff_is k L ms Om ci f Hci) as (cc & Ec & Hc). exists cc. split; [exact Ec|]. split.
  - destruct (scale_near k L D ms (rc_ps c) ws (rc_q_inv_mod_ps c) (rc_p_mod_qs c) cc f Om Op Dm Dmp NEp I1) as (g & (aux & Ea & Ha) & _); try assumption.
    + unfold q_inverses. eapply Forall2_imp; [exact P5|]. intros m r _ Hr. cbv beta in *. unfold at_level.
      assert (Lr : length r = length (rc_qs c)) by (symmetry; apply (Forall2_len _ _ _ Hr)).
      rewrite firstn_length. replace (Nat.min (S l) (length (rc_qs c))) with (S l) by lia. apply Forall2_firstn, Hr.
    + rewrite Lm. unfold at_level. apply Forall2_firstn, P3.
    + unfold bfv_scale. rewrite Ea. cbn [bind]. pose proof (rns_len _ _ _ _ _ Ha) as La. destruct Ha as (_ & Hn' & _).
      unfold rns_switch_basis. rewrite Hn'. rewrite same_len_eq by exact La. rewrite (ne_match ms _ _ NEm).
      destruct (Nat.ltb_spec (length (rc_p_hat_invs c)) (length (rp_vs aux))); [reflexivity|].
      destruct (Nat.ltb_spec (length (rc_p_hat_mod_qs c)) (length (rp_vs aux))); [reflexivity|].
      rewrite same_len_neq by (unfold rnsint in *; lia). reflexivity.
  - destruct (switch_near k L D ms (rc_ps c) ws rows z cc f Om Op Dm NEp I1) as (g & (ca & Ea & Ha) & _); try assumption.
    + unfold hat_residues. unfold rnsint in *. rewrite firstn_all2 by lia. eapply Forall2_imp; [exact H2|]. intros m r _ Hr. cbv beta in *.
      rewrite firstn_all2; [exact Hr|]. rewrite (Forall2_len _ _ _ Hr). lia.
    + unfold rnsint in *. lia.
    + destruct (rns_to_ntt_is k L (rc_ps c) Op ca g Ha) as (b & Eb & _). exists ca, b. auto.
Qed.

Lemma mul_low s lx ly j x y w v : ciphertext ms L s lx j x w -> ciphertext ms L s ly j y v -> (1 <= lx)%nat ->
  bfv_mul D c x y = Err InvalidArgument.
Proof.
  intros (X1 & X2 & X3 & cs & Hc & _) (Y1 & Y2 & Y3 & ds & Hd & _) HL.
  destruct low_facts as (hi & hm & qm & E1 & E2 & E3 & F & NEm & NEp & Om & Op).
  unfold bfv_mul. rewrite X1, Y1, X2, Y2. rewrite (same_len_eq ms ms) by reflexivity. rewrite Z.eqb_refl. cbn [negb].
  rewrite E1, E2, E3. cbn [bind].
  assert (AUX : exists da, seqr (map (fun ci => do! ci <- rns_to_coeff ci ms;
      do! ca <- rns_switch_basis D ci ms (rc_ps c) hi hm qm; rns_to_ntt ca (rc_ps c)) (rt_c y)) = Ok da).
  { clear Y3. induction Hd as [|d f dd ff Hdf Hd IH]; [exists []; reflexivity|].
    destruct (F d f Hdf) as (cc & G1 & _ & ca & b & G2 & G3). destruct IH as (da & G4). exists (b :: da). cbn [map seqr].
    rewrite G1. cbn [bind]. rewrite G2. cbn [bind]. rewrite G3. cbn [bind]. rewrite G4. reflexivity. }
  destruct AUX as (da & EA). rewrite EA. cbn [bind].
  destruct (rt_c x) as [|c0 cx] eqn:Ec; [cbn in X3; lia|].
  assert (R0 : rns_is ms L true c0 (nth 0 cs pzero)) by (apply (Forall2_nth_ _ c0 pzero _ _ 0%nat Hc); cbn; lia).
  assert (E0 : rp_logn c0 = L) by apply R0.
  rewrite E0. destruct (rns_zero_is k L ms Om true NEm) as (z & Ez & Hz). rewrite Ez. cbn [bind].
  destruct (rns_zero_is k L (rc_ps c) Op true NEp) as (za & Eza & Hza). rewrite Eza. cbn [bind].
  cbn [bfv_rows]. destruct (F c0 _ R0) as (cc & G1 & G2 & _). rewrite G1. cbn [bind]. rewrite G2. reflexivity.
Qed.

Lemma absorb_low s lx j x w plain f : ciphertext ms L s lx j x w -> rns_is ms L true plain f -> (1 <= lx)%nat ->
  bfv_absorb D c x plain = Err InvalidArgument.
Proof.
  intros (X1 & X2 & X3 & cs & Hc & _) Hp HL.
  destruct low_facts as (hi & hm & qm & E1 & E2 & E3 & F & NEm & NEp & Om & Op).
  unfold bfv_absorb. rewrite X1. pose proof Hp as (_ & En & _). rewrite En. cbn [negb]. rewrite E1, E2, E3. cbn [bind].
  destruct (F plain f Hp) as (pc & G1 & _ & ca & b & G2 & G3). rewrite G1. cbn [bind]. rewrite G2. cbn [bind]. rewrite G3. cbn [bind].
  destruct (rt_c x) as [|c0 cx] eqn:Ec; [cbn in X3; lia|].
  assert (R0 : rns_is ms L true c0 (nth 0 cs pzero)) by (apply (Forall2_nth_ _ c0 pzero _ _ 0%nat Hc); cbn; lia).
  unfold rct_map. rewrite Ec. cbn [map seqr]. unfold bfv_absorb_one at 1. pose proof R0 as (_ & En' & _). rewrite En'.
  destruct (F c0 _ R0) as (cc & I1 & I2 & _). rewrite I1. cbn [bind]. rewrite I2. reflexivity.
Qed.
End Low.
