(** Lemmas about the RNS ciphertext operations. *)
From Coq Require Import Setoid Ring Znumtheory.
From Verif Require Import Base FinSum PolySpec Ring NegRing SymSpec Montgomery MontBatch MontBatchProofs Ntt Spec ArithFacts NttFacts PolyView
  RnsPoly RnsSpec CrtMath RnsProofs RnsReduce RnsCt RnsCtSpec.
Local Notation zsum := FinSum.zsum.

(** ** Phases *)
Lemma zsum_last n f : zsum (S n) f = zsum n f + f n.
Proof. reflexivity. Qed.

Section Phase.
Variable Q : Z.
Variable n : nat.
Hypothesis Hn : (0 < n)%nat.
Add Ring NR : (neg_ring Q n Hn) (setoid (pcong_equiv Q n) (neg_ring_ext Q n)).

Global Instance subst_proper p : Proper (pcong Q n ==> pcong Q n) (substituted n p).
Proof. intros f g H. apply subst_cong; assumption. Qed.

Lemma npow_cong f g i : pcong Q n f g -> pcong Q n (npow n f i) (npow n g i).
Proof.
  intros H. induction i as [|i IH]; [reflexivity|]. cbn [npow]. rewrite IH, H. reflexivity.
Qed.

Lemma npow_succ f i : pcong Q n (npow n f (S i)) (negacyclic n f (npow n f i)).
Proof. cbn [npow]. ring. Qed.

Lemma phase_nil s : pcong Q n (phase_of n s []) pzero.
Proof. intros i _. reflexivity. Qed.

Lemma phase_cons s c cs : pcong Q n (phase_of n s (c :: cs)) (padd c (negacyclic n s (phase_of n s cs))).
Proof.
  unfold phase_of. cbn [length]. intros k Hk. unfold phase. rewrite zsum_first. cbn [nth npow].
  unfold padd. apply add_cong.
  - pose proof (neg_comm Q n c (pconst 1) k Hk) as A. rewrite A. apply (neg_one Q n Hn c k Hk).
  - transitivity (negacyclic n s (fun k => zsum (length cs) (fun i => negacyclic n (nth i cs pzero) (npow n s i) k)) k).
    2: reflexivity.
    generalize (length cs) as m. induction m as [|m IH].
    + cbn [FinSum.zsum]. symmetry. assert (E : pcong Q n (negacyclic n s pzero) pzero) by ring. exact (E k Hk).
    + rewrite zsum_last, IH.
      set (S0 := fun k0 : nat => zsum m (fun i => negacyclic n (nth i cs pzero) (npow n s i) k0)).
      set (T := negacyclic n (nth m cs pzero) (npow n s m)).
      assert (E : pcong Q n (negacyclic n s (fun k0 => zsum (S m) (fun i => negacyclic n (nth i cs pzero) (npow n s i) k0)))
                            (negacyclic n s (padd S0 T))).
      { apply neg_cong; [reflexivity|]. intros i _. rewrite zsum_last. reflexivity. }
      rewrite (E k Hk).
      assert (E2 : pcong Q n (negacyclic n s (padd S0 T)) (padd (negacyclic n s S0) (negacyclic n s T))) by ring.
      rewrite (E2 k Hk). unfold padd. apply add_cong; [reflexivity|].
      unfold T. cbn [nth]. assert (E3 : pcong Q n (negacyclic n (nth m cs pzero) (npow n s (S m))) (negacyclic n s (negacyclic n (nth m cs pzero) (npow n s m)))).
      { cbn [npow]. ring. }
      exact (E3 k Hk).
Qed.

Lemma phase_cong s s' cs ds : pcong Q n s s' -> Forall2 (pcong Q n) cs ds -> pcong Q n (phase_of n s cs) (phase_of n s' ds).
Proof.
  intros Hs H. induction H as [|c d cs ds Hc _ IH]; [reflexivity|]. rewrite !phase_cons, Hc, IH, Hs. reflexivity.
Qed.

Lemma phase_map s (f : (nat -> Z) -> nat -> Z) b cs :
  (forall c, pcong Q n (f c) (negacyclic n c b)) ->
  pcong Q n (phase_of n s (map f cs)) (negacyclic n (phase_of n s cs) b).
Proof.
  intros H. induction cs as [|c cs IH]; [cbn [map]; rewrite !phase_nil; ring|]. cbn [map]. rewrite !phase_cons, IH, H. ring.
Qed.

Lemma phase_add s cs : forall ds, length cs = length ds ->
  pcong Q n (phase_of n s (map2 padd cs ds)) (padd (phase_of n s cs) (phase_of n s ds)).
Proof.
  induction cs as [|c cs IH]; intros [|d ds] H; try discriminate; [cbn [map2]; rewrite !phase_nil; ring|].
  cbn [map2]. rewrite !phase_cons, IH by (cbn [length] in H; lia). ring.
Qed.

Lemma phase_sub s cs : forall ds, length cs = length ds ->
  pcong Q n (phase_of n s (map2 psub cs ds)) (psub (phase_of n s cs) (phase_of n s ds)).
Proof.
  induction cs as [|c cs IH]; intros [|d ds] H; try discriminate; [cbn [map2]; rewrite !phase_nil; ring|].
  cbn [map2]. rewrite !phase_cons, IH by (cbn [length] in H; lia). ring.
Qed.

Lemma phase_upd s d : forall cs i, (i < length cs)%nat ->
  pcong Q n (phase_of n s (upd cs i (padd (nth i cs pzero) d))) (padd (phase_of n s cs) (negacyclic n (npow n s i) d)).
Proof.
  induction cs as [|c cs IH]; intros [|i] Hi; cbn [length] in Hi; try lia; cbn [upd nth].
  - rewrite !phase_cons. cbn [npow]. ring.
  - rewrite !phase_cons, IH, npow_succ by lia. ring.
Qed.

Lemma phase_zero s m : pcong Q n (phase_of n s (repeat pzero m)) pzero.
Proof. induction m as [|m IH]; [apply phase_nil|]. cbn [repeat]. rewrite phase_cons, IH. ring. Qed.

Lemma phase_subst s p cs : Nat.odd p = true ->
  pcong Q n (substituted n p (phase_of n s cs)) (phase_of n (substituted n p s) (map (substituted n p) cs)).
Proof.
  intros Ho. induction cs as [|c cs IH]; cbn [map].
  - rewrite !phase_nil. intros i _. rewrite substituted_mono. unfold pzero. rewrite (zsum_ext n _ (fun _ => 0)) by (intros; ring).
    rewrite zsum_zero. reflexivity.
  - rewrite !phase_cons, subst_add, subst_mul, IH by assumption. reflexivity.
Qed.
End Phase.

Lemma Forall2_nth_ {A B} (P : A -> B -> Prop) da db : forall l l' i, Forall2 P l l' -> (i < length l)%nat -> P (nth i l da) (nth i l' db).
Proof.
  intros l l' i H. revert i. induction H as [|x y l l' Hxy _ IH]; intros i Hi; [cbn in Hi; lia|].
  destruct i; cbn [nth]; [exact Hxy|]. apply IH. cbn [length] in Hi. lia.
Qed.

Lemma get_ok {A} (l : list A) i d : (i < length l)%nat -> get l i = Ok (nth i l d).
Proof. intros H. unfold get. rewrite (nth_error_nth' l d H). reflexivity. Qed.

Lemma Forall2_upd {A B} (P : A -> B -> Prop) x y : forall l l' i, Forall2 P l l' -> P x y -> Forall2 P (upd l i x) (upd l' i y).
Proof.
  intros l l' i H Hxy. revert i. induction H as [|a b l l' Hab Hl IH]; intros i; [constructor|].
  destruct i; cbn [upd]; constructor; auto.
Qed.

Lemma upd_len {A} (x : A) : forall l i, length (upd l i x) = length l.
Proof. induction l as [|a l IH]; intros [|i]; cbn [upd length]; auto. Qed.

(** ** Operations *)
Section Ops.
Variables (k : Z) (L : nat) (ms : list pmod).
Hypothesis OK : moduli_ok k L ms.
Local Notation n := (2 ^ L)%nat.
Local Notation Q := (big_q ms).
Local Notation R := (rns_is ms L true).

Lemma Hn : (0 < n)%nat.
Proof. apply Nat.neq_0_lt_0, Nat.pow_nonzero. discriminate. Qed.
Add Ring NRQ : (neg_ring Q n Hn) (setoid (pcong_equiv Q n) (neg_ring_ext Q n)).

Lemma seqr_map (f : rpoly -> result rpoly) (g : (nat -> Z) -> nat -> Z) cs ds :
  (forall c d, R c d -> is_rns ms L true (f c) (g d)) -> Forall2 R cs ds ->
  exists cs', seqr (map f cs) = Ok cs' /\ Forall2 R cs' (map g ds).
Proof.
  intros H HF. induction HF as [|c d cs ds Hc HF IH]; cbn [map seqr]; [exists []; auto|].
  destruct (H c d Hc) as (c' & E & Hc'). destruct IH as (cs' & E' & HF'). rewrite E. cbn [bind]. rewrite E'. cbn [bind].
  exists (c' :: cs'). auto.
Qed.

Lemma seqr_map2 (f : rpoly -> rpoly -> result rpoly) (g : (nat -> Z) -> (nat -> Z) -> nat -> Z) : forall cs cs' ds ds',
  (forall c d c' d', R c d -> R c' d' -> is_rns ms L true (f c c') (g d d')) ->
  Forall2 R cs ds -> Forall2 R cs' ds' -> length cs = length cs' ->
  exists r, seqr (map2 f cs cs') = Ok r /\ Forall2 R r (map2 g ds ds').
Proof.
  intros cs cs' ds ds' H HF. revert cs' ds'. induction HF as [|c d cs ds Hc HF IH]; intros cs' ds' HF' E.
  - destruct cs'; [|discriminate]. exists []. cbn. auto.
  - destruct cs' as [|c' cs']; [discriminate|]. inversion HF' as [|? d' ? ds'' Hc' HF'' E1 E2]. cbn [map2 seqr].
    destruct (H _ _ _ _ Hc Hc') as (r0 & E0 & R0). rewrite E0. cbn [bind].
    destruct (IH _ _ HF'' ltac:(cbn [length] in E; lia)) as (r & Er & Rr). rewrite Er. cbn [bind]. exists (r0 :: r). auto.
Qed.

Variable s : nat -> Z.
Local Notation ct := (ciphertext ms L s).

Lemma map_gives len j x w f g b w' :
  ct len j x w ->
  (forall c d, R c d -> is_rns ms L true (f c) (g d)) ->
  (forall d, pcong Q n (g d) (negacyclic n d b)) ->
  pcong Q n (negacyclic n w b) w' ->
  gives ms L s len j (rct_map f x) w'.
Proof.
  intros (E1 & E2 & E3 & cs & Hc & Hp) Hf Hg Hw. unfold rct_map.
  destruct (seqr_map f g _ _ Hf Hc) as (c' & E & Hc'). rewrite E. cbn [bind]. eexists. split; [reflexivity|].
  split; [exact E1|]. split; [exact E2|]. cbn [rct_with_c rt_c].
  pose proof (Forall2_len _ _ _ Hc) as L1. pose proof (Forall2_len _ _ _ Hc') as L2. rewrite map_length in L2.
  split; [congruence|]. exists (map g cs). split; [exact Hc'|].
  rewrite (phase_map Q n Hn _ g b cs Hg), Hp. exact Hw.
Qed.

Lemma neg_gives len j x w : ct len j x w -> gives ms L s len j (rct_neg x) (popp w).
Proof.
  intros H. pose proof H as (E & _). unfold rct_neg. rewrite E.
  apply (map_gives len j x w _ popp (popp (pconst 1)) (popp w) H).
  - intros c d Hc. apply (rns_neg_is k L ms OK true c d Hc).
  - intros d. ring.
  - ring.
Qed.

Lemma absorb_gives len j x w b m : ct len j x w -> R b m -> gives ms L s len j (rct_absorb x b) (negacyclic n w m).
Proof.
  intros H Hb. pose proof H as (E & _). unfold rct_absorb. rewrite E.
  apply (map_gives len j x w _ (fun d => negacyclic n d m) m _ H).
  - intros c d Hc. apply (rns_mul_is k L ms OK c b d m Hc Hb).
  - intros d. reflexivity.
  - reflexivity.
Qed.

Lemma scalar_gives len j x w a : ct len j x w -> 0 <= a < 2 ^ k -> gives ms L s len j (rct_absorb_scalar x a) (pscale a w).
Proof.
  intros H Ha. pose proof H as (E & _). unfold rct_absorb_scalar. rewrite E.
  apply (map_gives len j x w _ (pscale a) (pconst a) _ H).
  - intros c d Hc. eapply is_rns_ext; [exact OK|apply (rns_mul_scalar_is k L ms OK true c d a Hc Ha)|]. intros i Hi m _. unfold pscale. apply cong_eq. ring.
  - intros d. rewrite pscale_const by exact Hn. ring.
  - rewrite pscale_const by exact Hn. ring.
Qed.

Lemma rnsint_gives len j x w zs a : ct len j x w -> residues ms zs a -> gives ms L s len j (rct_absorb_rns x zs) (pscale a w).
Proof.
  intros H Ha. pose proof H as (E & _). unfold rct_absorb_rns. rewrite E.
  rewrite same_len_eq by (symmetry; apply (Forall2_len _ _ _ Ha)).
  apply (map_gives len j x w _ (pscale a) (pconst a) _ H).
  - intros c d Hc. eapply is_rns_ext; [exact OK|apply (rns_mul_rnsint_is k L ms OK true c d zs a Hc Ha)|]. intros i Hi m _. unfold pscale. apply cong_eq. ring.
  - intros d. rewrite pscale_const by exact Hn. ring.
  - rewrite pscale_const by exact Hn. ring.
Qed.

Lemma compatible len j x y w v : ct len j x w -> ct len j y v -> negb (rct_compatible x y) = false.
Proof.
  intros (X1 & X2 & X3 & _) (Y1 & Y2 & Y3 & _). unfold rct_compatible, same_len. rewrite X1, X2, X3, Y1, Y2, Y3, !Nat.eqb_refl, Z.eqb_refl. reflexivity.
Qed.

Lemma map2_gives len j x y w v f g w' :
  ct len j x w -> ct len j y v ->
  (forall c d c' d', R c d -> R c' d' -> is_rns ms L true (f c c') (g d d')) ->
  (forall cs ds, length cs = length ds -> pcong Q n (phase_of n (substituted n (Z.to_nat j) s) cs) w ->
     pcong Q n (phase_of n (substituted n (Z.to_nat j) s) ds) v ->
     pcong Q n (phase_of n (substituted n (Z.to_nat j) s) (map2 g cs ds)) w') ->
  gives ms L s len j (do! c <- seqr (map2 f (rt_c x) (rt_c y)); Ok (rct_with_c x c)) w'.
Proof.
  intros (X1 & X2 & X3 & cs & Hc & Hp) (Y1 & Y2 & Y3 & ds & Hd & Hq) Hf Hg.
  pose proof (Forall2_len _ _ _ Hc) as L1. pose proof (Forall2_len _ _ _ Hd) as L2.
  destruct (seqr_map2 f g _ _ _ _ Hf Hc Hd ltac:(congruence)) as (r & E & Hr). rewrite E. cbn [bind].
  pose proof (Forall2_len _ _ _ Hr) as L3. rewrite map2_length in L3 by congruence.
  eexists. split; [reflexivity|]. split; [exact X1|]. split; [exact X2|]. cbn [rct_with_c rt_c].
  split; [lia|]. exists (map2 g cs ds). split; [exact Hr|]. apply Hg; [congruence|exact Hp|exact Hq].
Qed.

Lemma add_gives len j x y w v : ct len j x w -> ct len j y v -> gives ms L s len j (rct_add x y) (padd w v).
Proof.
  intros Hx Hy. unfold rct_add. rewrite (compatible _ _ _ _ _ _ Hx Hy). pose proof Hx as (E & _). rewrite E.
  apply (map2_gives len j x y w v _ padd _ Hx Hy).
  - intros c d c' d' Hc Hd. apply (rns_add_is k L ms OK true c c' d d' Hc Hd).
  - intros cs ds El Hp Hq. rewrite (phase_add Q n Hn _ cs ds El), Hp, Hq. reflexivity.
Qed.

Lemma sub_gives len j x y w v : ct len j x w -> ct len j y v -> gives ms L s len j (rct_sub x y) (psub w v).
Proof.
  intros Hx Hy. unfold rct_sub. rewrite (compatible _ _ _ _ _ _ Hx Hy). pose proof Hx as (E & _). rewrite E.
  apply (map2_gives len j x y w v _ psub _ Hx Hy).
  - intros c d c' d' Hc Hd. apply (rns_sub_is k L ms OK true c c' d d' Hc Hd).
  - intros cs ds El Hp Hq. rewrite (phase_sub Q n Hn _ cs ds El), Hp, Hq. reflexivity.
Qed.

Lemma fused_gives len j x y w v b m : k <> 16 -> ct len j x w -> ct len j y v -> R b m ->
  gives ms L s len j (rct_fused x y b) (padd w (negacyclic n v m)).
Proof.
  intros K16 Hx Hy Hb. unfold rct_fused. rewrite (compatible _ _ _ _ _ _ Hx Hy). pose proof Hx as (E & _). rewrite E.
  apply (map2_gives len j x y w v _ (fun c d => padd c (negacyclic n d m)) _ Hx Hy).
  - intros c d c' d' Hc Hd. apply (rns_fused_is k L ms OK c c' b d d' m K16 Hc Hd Hb).
  - intros cs ds El Hp Hq.
    assert (E2 : map2 (fun c d => padd c (negacyclic n d m)) cs ds = map2 padd cs (map (fun d => negacyclic n d m) ds)).
    { clear. revert ds. induction cs as [|c cs IH]; intros [|d ds]; cbn [map map2]; [reflexivity..|]. rewrite IH. reflexivity. }
    rewrite E2, (phase_add Q n Hn) by (rewrite map_length; exact El).
    rewrite (phase_map Q n Hn _ (fun d => negacyclic n d m) m ds) by (intros; reflexivity). rewrite Hp, Hq. reflexivity.
Qed.

Lemma add_plain_gives len j x w b m : (1 <= len)%nat -> ct len j x w -> R b m -> gives ms L s len j (rct_add_plain x b) (padd w m).
Proof.
  intros Hl (X1 & X2 & X3 & cs & Hc & Hp) Hb. unfold rct_add_plain. rewrite X1.
  rewrite (same_len_eq ms (rp_vs b)) by (apply (rns_len _ _ _ _ _ Hb)).
  inversion Hc as [E1 E2|c d c' d' Hcd Hcs E1 E2]; [rewrite <- E1 in X3; cbn in X3; lia|].
  destruct (rns_add_is k L ms OK true c b d m Hcd Hb) as (y & Ey & Hy). rewrite Ey. cbn [bind].
  eexists. split; [reflexivity|]. split; [exact X1|]. split; [exact X2|]. cbn [rct_with_c rt_c]. rewrite <- E1 in X3. split; [exact X3|].
  exists (padd d m :: d'). split; [constructor; [exact Hy|exact Hcs]|]. subst cs. rewrite phase_cons in Hp |- * by exact Hn.
  rewrite <- Hp. ring.
Qed.

Lemma sub_plain_gives len j x w b m : (1 <= len)%nat -> ct len j x w -> R b m -> gives ms L s len j (rct_sub_plain x b) (psub w m).
Proof.
  intros Hl (X1 & X2 & X3 & cs & Hc & Hp) Hb. unfold rct_sub_plain. rewrite X1.
  rewrite (same_len_eq ms (rp_vs b)) by (apply (rns_len _ _ _ _ _ Hb)).
  inversion Hc as [E1 E2|c d c' d' Hcd Hcs E1 E2]; [rewrite <- E1 in X3; cbn in X3; lia|].
  destruct (rns_sub_is k L ms OK true c b d m Hcd Hb) as (y & Ey & Hy). rewrite Ey. cbn [bind].
  eexists. split; [reflexivity|]. split; [exact X1|]. split; [exact X2|]. cbn [rct_with_c rt_c]. rewrite <- E1 in X3. split; [exact X3|].
  exists (psub d m :: d'). split; [constructor; [exact Hy|exact Hcs]|]. subst cs. rewrite phase_cons in Hp |- * by exact Hn.
  rewrite <- Hp. ring.
Qed.

(** ** Products *)
Lemma mul_row_ok (K16 : k <> 16) S0 ci f : R ci f -> forall d hs, Forall2 R d hs -> forall idx res gs, Forall2 R res gs ->
  (idx + length d <= length res)%nat ->
  exists res' gs', rct_mul_row ms ci d idx res = Ok res' /\ Forall2 R res' gs' /\ length res' = length res /\
    pcong Q n (phase_of n S0 gs') (padd (phase_of n S0 gs) (negacyclic n (npow n S0 idx) (negacyclic n f (phase_of n S0 hs)))).
Proof.
  intros Hf d hs HF. induction HF as [|dj h d hs Hd HF IH]; intros idx res gs Hr Hl.
  - exists res, gs. cbn [rct_mul_row]. split; [reflexivity|]. split; [exact Hr|]. split; [reflexivity|]. rewrite phase_nil. ring.
  - cbn [rct_mul_row]. cbn [length] in Hl. pose proof (Forall2_len _ _ _ Hr) as Lr.
    rewrite (get_ok res idx dj) by lia. cbn [bind].
    pose proof (Forall2_nth_ _ dj pzero _ _ idx Hr ltac:(lia)) as Hi.
    destruct (rns_fused_is k L ms OK _ ci dj _ f h K16 Hi Hf Hd) as (y & Ey & Hy). rewrite Ey. cbn [bind].
    change (R y (padd (nth idx gs pzero) (negacyclic n f h))) in Hy.
    destruct (IH (Datatypes.S idx) (upd res idx y) (upd gs idx (padd (nth idx gs pzero) (negacyclic n f h)))) as (res' & gs' & E & H1 & H2 & H3).
    + apply Forall2_upd; assumption.
    + rewrite upd_len. lia.
    + exists res', gs'. split; [exact E|]. split; [exact H1|]. rewrite upd_len in H2. split; [exact H2|].
      rewrite H3, (phase_upd Q n Hn) by lia. rewrite (phase_cons Q n Hn _ h), (npow_succ Q n Hn). ring.
Qed.

Lemma mul_rows_ok (K16 : k <> 16) S0 : forall c fs, Forall2 R c fs -> forall d hs, Forall2 R d hs -> forall idx res gs, Forall2 R res gs ->
  (c <> [] -> d <> [] -> idx + length c + length d - 1 <= length res)%nat ->
  exists res' gs', rct_mul_rows ms c d idx res = Ok res' /\ Forall2 R res' gs' /\ length res' = length res /\
    pcong Q n (phase_of n S0 gs') (padd (phase_of n S0 gs) (negacyclic n (npow n S0 idx) (negacyclic n (phase_of n S0 fs) (phase_of n S0 hs)))).
Proof.
  intros c fs HF. induction HF as [|ci f c fs Hc HF IH]; intros d hs Hd idx res gs Hr Hl.
  - exists res, gs. cbn [rct_mul_rows]. split; [reflexivity|]. split; [exact Hr|]. split; [reflexivity|]. rewrite phase_nil. ring.
  - cbn [rct_mul_rows].
    assert (Row : exists res' gs', rct_mul_row ms ci d idx res = Ok res' /\ Forall2 R res' gs' /\ length res' = length res /\
      pcong Q n (phase_of n S0 gs') (padd (phase_of n S0 gs) (negacyclic n (npow n S0 idx) (negacyclic n f (phase_of n S0 hs))))).
    { destruct Hd as [|d0 h0 d hs H0 Hd].
      - exists res, gs. cbn [rct_mul_row]. split; [reflexivity|]. split; [exact Hr|]. split; [reflexivity|]. rewrite phase_nil. ring.
      - apply (mul_row_ok K16 S0 ci f Hc); [constructor; assumption|exact Hr|]. specialize (Hl ltac:(discriminate) ltac:(discriminate)).
        cbn [length] in *. lia. }
    destruct Row as (res1 & gs1 & E1 & H1 & L1 & P1). rewrite E1. cbn [bind].
    destruct (IH d hs Hd (Datatypes.S idx) res1 gs1 H1) as (res2 & gs2 & E2 & H2 & L2 & P2).
    + intros Hc0 Hd0. specialize (Hl ltac:(discriminate) Hd0). cbn [length] in Hl. rewrite L1. lia.
    + exists res2, gs2. split; [exact E2|]. split; [exact H2|]. split; [congruence|].
      rewrite P2, P1, (phase_cons Q n Hn _ f), (npow_succ Q n Hn). ring.
Qed.

Lemma repeat_zero m z : R z pzero -> Forall2 R (repeat z m) (repeat pzero m).
Proof. intros H. induction m; cbn [repeat]; constructor; auto. Qed.

Lemma mul_gives (NE : ms <> []) lx ly j x y w v : k <> 16 -> (1 <= lx)%nat -> ct lx j x w -> ct ly j y v ->
  gives ms L s (lx + ly - 1) j (rct_mul x y) (negacyclic n w v).
Proof.
  intros K16 Hl (X1 & X2 & X3 & cs & Hc & Hp) (Y1 & Y2 & Y3 & ds & Hd & Hq). unfold rct_mul.
  rewrite X1, Y1, X2, Y2. rewrite (same_len_eq ms ms) by reflexivity. rewrite Z.eqb_refl. cbn [negb].
  pose proof (Forall2_len _ _ _ Hc) as L1. pose proof (Forall2_len _ _ _ Hd) as L2.
  destruct (rt_c x) as [|c0 c] eqn:Ec; [cbn in X3; lia|].
  assert (E0 : rp_logn c0 = L) by (inversion Hc; match goal with H : rns_is _ _ _ c0 _ |- _ => apply H end).
  rewrite E0. destruct (rns_zero_is k L ms OK true NE) as (z & Ez & Hz). rewrite Ez. cbn [bind].
  set (S0 := substituted n (Z.to_nat j) s) in *.
  destruct (mul_rows_ok K16 S0 _ _ Hc _ _ Hd 0 (repeat z (length (c0 :: c) + length (rt_c y) - 1)) (repeat pzero (length (c0 :: c) + length (rt_c y) - 1))) as (res & gs & E & H1 & H2 & H3).
  - apply repeat_zero. exact Hz.
  - intros _ _. rewrite repeat_length. lia.
  - rewrite E. cbn [bind]. eexists. split; [reflexivity|]. split; [reflexivity|]. split; [reflexivity|]. cbn [rct_make rt_c].
    rewrite repeat_length in H2. split; [lia|]. exists gs. split; [exact H1|]. fold S0. rewrite H3, (phase_zero Q n Hn). cbn [npow].
    rewrite Hp, Hq. ring.
Qed.

(** ** Substitution *)
Lemma subst_gives len j x w p : (1 <= len)%nat -> ct len j x w -> 0 <= j -> 0 < p < 2 * Z.of_nat n -> Z.odd p = true -> j * p < 2 ^ 31 ->
  gives ms L s len ((j * p) mod (2 * Z.of_nat n)) (rct_substitute x p) (substituted n (Z.to_nat p) w).
Proof.
  intros Hl (X1 & X2 & X3 & cs & Hc & Hp) Hj Hpw Ho Hb. unfold rct_substitute. rewrite X1.
  destruct (seqr_map (fun a => rns_substitute a p ms) (substituted n (Z.to_nat p)) _ _
    (fun c d Hcd => rns_substitute_is k L ms OK c d p Hcd Hpw Ho) Hc) as (c' & E & Hc'). rewrite E. cbn [bind].
  destruct (rt_c x) as [|c0 c] eqn:Ec; [cbn in X3; lia|]. cbn [get nth_error]. unfold get. cbn [nth_error bind].
  assert (E0 : rp_logn c0 = L) by (inversion Hc; match goal with H : rns_is _ _ _ c0 _ |- _ => apply H end).
  rewrite X2. destruct (Z.ltb_spec (j * p) (- 2 ^ 31)); [nia|]. destruct (Z.leb_spec (2 ^ 31) (j * p)); [lia|]. cbn [orb].
  unfold rp_ncoeffs. rewrite E0. pose proof Hn as Hn0. rewrite Z.rem_mod_nonneg by nia.
  eexists. split; [reflexivity|]. split; [reflexivity|]. split; [reflexivity|]. cbn [rct_make rt_c].
  pose proof (Forall2_len _ _ _ Hc') as L2. pose proof (Forall2_len _ _ _ Hc) as L1. rewrite map_length in L2. split; [congruence|].
  exists (map (substituted n (Z.to_nat p)) cs). split; [exact Hc'|].
  assert (On : Nat.odd (Z.to_nat p) = true).
  { apply Nat.odd_spec. apply Z.odd_spec in Ho. destruct Ho as [h Hh]. exists (Z.to_nat h). lia. }
  assert (ES : pcong Q n (substituted n (Z.to_nat ((j * p) mod (2 * Z.of_nat n))) s)
                         (substituted n (Z.to_nat p) (substituted n (Z.to_nat j) s))).
  { rewrite subst_comp by (exact Hn0 || exact On). apply subst_mod; [exact Hn0|].
    rewrite Z2Nat.inj_mod, Z2Nat.inj_mul by nia. rewrite Z2Nat.inj_mul by lia. rewrite Nat2Z.id. rewrite Nat.mod_mod by lia. reflexivity. }
  assert (ER : Forall2 (pcong Q n) (map (substituted n (Z.to_nat p)) cs) (map (substituted n (Z.to_nat p)) cs)).
  { clear. induction cs; constructor; [reflexivity|assumption]. }
  rewrite (phase_cong Q n Hn _ _ _ _ ES ER). rewrite <- (phase_subst Q n Hn _ _ cs On). rewrite Hp. reflexivity.
Qed.
End Ops.
