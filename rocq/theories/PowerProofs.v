(** Histories with substitutions: the invariant behind C92. *)
From Coq Require Import Znumtheory Lia.
From Verif Require Import Base FinSum PolySpec Ring ZLemmas Montgomery MontBatch Ntt Poly PolyExt Prng Sampling SampleSpec MontgomeryProofs
  Spec PolyView ArithFacts NttFacts PolyFacts PrimeCheck NegRing PolyProofs SymEnc SymSpec SymProofs SymProofs2 SymFacts SymSwitch
  Relin RelinSpec RelinProofs AuxRelin AuxRelinSpec PubKey PubKeySpec PubKeyProofs ExpandProofs
  ThmArith ThmNtt ThmPoly ThmSymEnc ThmRelin ThmAuxRelin ThmPubKey ThmKeys ThmCircuit PowerSpec.
Local Notation zsum := FinSum.zsum.

(** the same ciphertext with the power forgotten *)
Definition relabel (x : ct) : ct := {| ct_c := ct_c x; ct_lazy := ct_lazy x; ct_pow := 1; ct_p := ct_p x |}.

Lemma relabel_add x y z : ct_add x y = Ok z -> ct_pow x = ct_pow y /\ ct_pow z = ct_pow x /\ ct_add (relabel x) (relabel y) = Ok (relabel z).
Proof.
  unfold ct_add. destruct (Z.eqb_spec (ct_pow x) (ct_pow y)) as [E|]; [|discriminate]. cbn [negb relabel ct_c ct_lazy ct_pow ct_p Z.eqb Pos.eqb].
  destruct (SymEnc.pad_to _ _ _) as [c| |]; try discriminate. cbn [bind]. destruct (zip_into _ _ _) as [d| |]; try discriminate. cbn [bind].
  intros H. injection H as <-. split; [exact E|]. split; reflexivity.
Qed.
Lemma relabel_sub x y z : ct_sub x y = Ok z -> ct_pow x = ct_pow y /\ ct_pow z = ct_pow x /\ ct_sub (relabel x) (relabel y) = Ok (relabel z).
Proof.
  unfold ct_sub. destruct (Z.eqb_spec (ct_pow x) (ct_pow y)) as [E|]; [|discriminate]. cbn [negb relabel ct_c ct_lazy ct_pow ct_p Z.eqb Pos.eqb].
  destruct (SymEnc.pad_to _ _ _) as [c| |]; try discriminate. cbn [bind]. destruct (zip_into _ _ _) as [d| |]; try discriminate. cbn [bind].
  intros H. injection H as <-. split; [exact E|]. split; reflexivity.
Qed.
Lemma relabel_scale x c z : ct_absorb_scalar x c = Ok z -> ct_pow z = ct_pow x /\ ct_absorb_scalar (relabel x) c = Ok (relabel z).
Proof.
  unfold ct_absorb_scalar. cbn [relabel ct_c ct_lazy ct_pow ct_p]. destruct (seqr _) as [d| |]; try discriminate. cbn [bind].
  intros H. injection H as <-. split; reflexivity.
Qed.
Lemma relabel_absorb x b z : ct_absorb x b = Ok z -> ct_pow z = ct_pow x /\ ct_absorb (relabel x) b = Ok (relabel z).
Proof.
  unfold ct_absorb. cbn [relabel ct_c ct_lazy ct_pow ct_p]. destruct (seqr _) as [d| |]; try discriminate. cbn [bind].
  intros H. injection H as <-. split; reflexivity.
Qed.
Lemma relabel_fused x y b z : ct_fused_absorb x y b = Ok z -> ct_pow x = ct_pow y /\ ct_pow z = ct_pow x /\ ct_fused_absorb (relabel x) (relabel y) b = Ok (relabel z).
Proof.
  unfold ct_fused_absorb. destruct (Z.eqb_spec (ct_pow x) (ct_pow y)) as [E|]; [|discriminate]. cbn [negb relabel ct_c ct_lazy ct_pow ct_p Z.eqb Pos.eqb].
  destruct (fused_into _ _ _ _) as [c| |]; try discriminate. cbn [bind]. intros H. injection H as <-. split; [exact E|]. split; reflexivity.
Qed.
Lemma relabel_mul x y z : ct_mul x y = Ok z -> ct_pow x = ct_pow y /\ ct_pow z = ct_pow x /\ ct_mul (relabel x) (relabel y) = Ok (relabel z).
Proof.
  unfold ct_mul. destruct (Z.eqb_spec (ct_pow x) (ct_pow y)) as [E|]; [|discriminate]. cbn [negb relabel ct_c ct_lazy ct_pow ct_p Z.eqb Pos.eqb].
  destruct (ct_c x) as [|x0 xs]; [discriminate|]. destruct (ct_c y) as [|y0 ys]; [discriminate|]. destruct (_ || _); [discriminate|].
  destruct (poly_zero _ _) as [d| |]; try discriminate. cbn [bind]. destruct (mul_rows _ _ _ _ _) as [c| |]; try discriminate. cbn [bind].
  intros H. injection H as <-. split; [exact E|]. split; reflexivity.
Qed.

Definition valid_power (L : nat) (b : Z) : Prop := 0 < b < 2 * 2 ^ Z.of_nat L /\ Z.odd b = true.

Lemma valid_one L : valid_power L 1.
Proof. split; [|reflexivity]. pose proof (Z.pow_pos_nonneg 2 (Z.of_nat L) ltac:(lia) ltac:(lia)). lia. Qed.

Lemma valid_mul L a b : valid_power L a -> valid_power L b -> valid_power L ((a * b) mod (2 * 2 ^ Z.of_nat L)).
Proof.
  intros [Ha Oa] [Hb Ob]. pose proof (Z.pow_pos_nonneg 2 (Z.of_nat L) ltac:(lia) ltac:(lia)) as P. set (N := 2 ^ Z.of_nat L) in *.
  pose proof (Z.mod_pos_bound (a * b) (2 * N) ltac:(lia)) as M.
  assert (O : Z.odd ((a * b) mod (2 * N)) = true).
  { rewrite Z.mod_eq by lia. rewrite <- Z.mul_assoc, Z.odd_sub, Z.odd_mul, Oa, Ob. rewrite (Z.odd_mul 2). reflexivity. }
  split; [|exact O]. destruct (Z.eq_dec ((a * b) mod (2 * N)) 0) as [E|E]; [rewrite E in O; discriminate O|]. lia.
Qed.

Section One.
Variables (k q : Z) (L : nat) (key : skey).
Local Notation t := (2 ^ sk_logt key + 1).
Hypothesis EK : enc_key k q L t key.
Hypothesis Hl : 0 <= sk_logt key.
Hypothesis Htq : t < q.
Hypothesis Hv : 0 <= sk_var key.
Hypothesis Hvq : 2 * sk_var key <= q.
Let K := ek_key _ _ _ _ _ EK.

Lemma t_range : 1 <= t <= q.
Proof. pose proof (Z.pow_pos_nonneg 2 (sk_logt key) ltac:(lia) Hl). lia. Qed.

Lemma key_at b : valid_power L b -> exists key', key_substitute b key = Ok key' /\ enc_key k q L t key' /\ sk_p key' = sk_p key /\ sk_np key' = sk_np key /\
  forall x f, ct_ok L key x -> (carries L key' x f <-> carries_under L key (secret_at L key b) x f).
Proof.
  intros [Hb Ho]. destruct (C48_key_substitute k q L key b EK Hl Htq Hb Ho) as (key' & E & EK' & Ep & En & _ & _ & S' & _).
  exists key'. split; [exact E|]. split; [exact EK'|]. split; [exact Ep|]. split; [exact En|]. intros x f Ox.
  assert (A : forall i, (i < 2 ^ L)%nat -> cong (p_m (sk_p key)) (phase (2 ^ L) (secret key') (length (ct_c x)) (component (sk_np key) x) i)
    (phase (2 ^ L) (secret_at L key b) (length (ct_c x)) (component (sk_np key) x) i)).
  { intros i Hi. apply phase_cong; [|intros; reflexivity|exact Hi]. intros j Hj. rewrite (S' j Hj), (key_q _ _ _ _ _ K). apply cong_mod. }
  unfold carries, carries_under. rewrite Ep, En. split; intros H i Hi; specialize (A i Hi); specialize (H i Hi).
  - rewrite <- A. exact H.
  - rewrite A. exact H.
Qed.

(** the invariant *)
Definition inv (x : ct) (b : Z) (w : nat) (m : nat -> Z) (B : Z) : Prop :=
  ct_pow x = b /\ valid_power L b /\ exists key', key_substitute b key = Ok key' /\ tracks L t key' (relabel x) w m B.

Lemma ok_relabel key' x : sk_p key' = sk_p key -> (ct_ok L key' (relabel x) <-> ct_ok L key x).
Proof. intros E. unfold ct_ok. cbn [relabel ct_p ct_c]. rewrite E. reflexivity. Qed.

(** the invariant without the key *)
Lemma inv_iff x b w m B : ct_pow x = b -> valid_power L b ->
  (inv x b w m B <-> ct_ok L key x /\ length (ct_c x) = w /\ (1 <= w)%nat /\
    exists f, carries_under L key (secret_at L key b) x f /\ forall i, (i < 2 ^ L)%nat -> Z.abs (f i) <= B /\ cong t (f i) (m i)).
Proof.
  intros Hb V. destruct (key_at b V) as (key' & E & EK' & Ep & En & Ca). split.
  - intros (_ & _ & key2 & E2 & (O & Ln & W & _ & f & Cf & Hf)). rewrite E in E2. injection E2 as <-. apply (ok_relabel key' x Ep) in O.
    split; [exact O|]. split; [exact Ln|]. split; [exact W|]. exists f. split; [|exact Hf]. apply (Ca x f O). exact Cf.
  - intros (O & Ln & W & f & Cf & Hf). split; [exact Hb|]. split; [exact V|]. exists key'. split; [exact E|].
    split; [apply (ok_relabel key' x Ep); exact O|]. split; [exact Ln|]. split; [exact W|]. split; [reflexivity|]. exists f. split; [|exact Hf].
    apply (Ca x f O) in Cf. exact Cf.
Qed.

Lemma inv_fresh x w m B : tracks L t key x w m B -> inv x 1 w m B.
Proof.
  intros (O & Ln & W & P & f & Cf & Hf). apply inv_iff; [exact P|apply valid_one|]. split; [exact O|]. split; [exact Ln|]. split; [exact W|].
  exists f. split; [|exact Hf]. apply (secret_at_one k q L t key x f K O). exact Cf.
Qed.

(** an operation that works for every key works at every power *)
Lemma inv_two (op : ct -> ct -> result ct) w' m' B' x y b c w u m n A B z :
  (forall x y z, op x y = Ok z -> ct_pow x = ct_pow y /\ ct_pow z = ct_pow x /\ op (relabel x) (relabel y) = Ok (relabel z)) ->
  (forall key', enc_key k q L t key' -> sk_p key' = sk_p key -> sk_np key' = sk_np key -> forall x y z,
     tracks L t key' x w m A -> tracks L t key' y u n B -> op x y = Ok z -> tracks L t key' z w' m' B') ->
  inv x b w m A -> inv y c u n B -> op x y = Ok z -> inv z b w' m' B'.
Proof.
  intros R S (Px & V & kx & Ex & Tx) (Py & V' & ky & Ey & Ty) E. destruct (R x y z E) as (E1 & E2 & E3).
  assert (Ecb : c = b) by congruence. rewrite Ecb, Ex in Ey. injection Ey as <-.
  destruct (key_at b V) as (key' & E' & EK' & Ep & En & _). rewrite Ex in E'. injection E' as <-.
  split; [congruence|]. split; [exact V|]. exists kx. split; [exact Ex|]. exact (S kx EK' Ep En _ _ _ Tx Ty E3).
Qed.
Lemma inv_one (op : ct -> result ct) w' m' B' x b w m A z :
  (forall x z, op x = Ok z -> ct_pow z = ct_pow x /\ op (relabel x) = Ok (relabel z)) ->
  (forall key', enc_key k q L t key' -> sk_p key' = sk_p key -> sk_np key' = sk_np key -> forall x z,
     tracks L t key' x w m A -> op x = Ok z -> tracks L t key' z w' m' B') ->
  inv x b w m A -> op x = Ok z -> inv z b w' m' B'.
Proof.
  intros R S (Px & V & kx & Ex & Tx) E. destruct (R x z E) as (E2 & E3).
  destruct (key_at b V) as (key' & E' & EK' & Ep & En & _). rewrite Ex in E'. injection E' as <-.
  split; [congruence|]. split; [exact V|]. exists kx. split; [exact Ex|]. exact (S kx EK' Ep En _ _ Tx E3).
Qed.

Lemma inv_nonneg x b w m B : inv x b w m B -> 0 <= B.
Proof. intros (_ & _ & key' & _ & T). exact (tracks_nonneg L t key' _ _ _ _ T). Qed.

(** substitution *)
Lemma subst_inv_ok np b x y c0 cs : ct_substitute np b x = Ok y -> ct_c x = c0 :: cs -> (0 < b < 2 * Z.of_nat (length c0) /\ Z.odd b = true) /\ ct_pow x * b < 2 ^ 31.
Proof.
  unfold ct_substitute. intros E Ec. rewrite Ec in E. cbn [map seqr] in E.
  destruct (poly_substitute np c0 b) as [d| |] eqn:Ed; try discriminate E. cbn [bind] in E.
  destruct (seqr _) as [ds| |]; try discriminate E. cbn [bind get nth_error] in E.
  split; [exact (substitute_range np c0 b d Ed)|]. destruct (Z.leb_spec (2 ^ 31) (ct_pow x * b)); [|lia].
  rewrite Bool.orb_true_r in E. discriminate E.
Qed.

Lemma inv_subst x b w m B p y : inv x b w m B -> ct_substitute (sk_np key) p x = Ok y ->
  inv y ((b * p) mod (2 * 2 ^ Z.of_nat L)) w (substituted (2 ^ L) (Z.to_nat p) m) B.
Proof.
  intros I E. pose proof (inv_nonneg _ _ _ _ _ I) as B0. pose proof I as (Px & V & _). apply (inv_iff x b w m B Px V) in I.
  destruct I as (O & Ln & W & f & Cf & Hf). destruct (ct_c x) as [|c0 cs] eqn:Ec; [cbn in Ln; lia|].
  destruct (subst_inv_ok _ _ _ _ _ _ E Ec) as ((Hp & Op) & Hov).
  assert (L0 : length c0 = (2 ^ L)%nat) by (destruct O as [_ F]; rewrite Ec in F; inversion_clear F as [|? ? H0 _]; exact (proj1 H0)).
  rewrite L0, Nat2Z.inj_pow in Hp. change (Z.of_nat 2) with 2 in Hp. assert (Vp : valid_power L p) by (split; assumption).
  destruct (C32_substitute k q L t key b p x f K O) as (y' & E' & Oy & Ly & Py & _ & Cy); try assumption; try exact (proj1 V).
  { rewrite Ec. discriminate. }
  { rewrite <- Px. exact Hov. }
  rewrite E in E'. injection E' as <-. apply inv_iff; [exact Py|apply valid_mul; assumption|].
  split; [exact Oy|]. split; [rewrite Ly, Ec; exact Ln|]. split; [exact W|]. eexists. split; [rewrite <- Py; exact Cy|].
  intros i Hi. split.
  - apply substituted_bound; [apply odd_nat; [lia|exact Op]|exists L; reflexivity|exact Hi|exact B0|]. intros j Hj. apply (Hf j Hj).
  - apply ThmCircuit.ext_cong_sub. intros j Hj. apply (Hf j Hj).
Qed.

(** key switching *)
Lemma inv_relin x b w m B rk z : inv x b w m B -> relin_ok L t (sk_var key) key rk -> rk_pow rk = b -> rk_num rk = Z.of_nat w -> relin_apply rk x = Ok z ->
  inv z 1 2 m (B + t * relin_noise L (sk_var key) rk).
Proof.
  intros I RO R1 Rn E. pose proof I as (Px & V & _). apply (inv_iff x b w m B Px V) in I. destruct I as (Ox & Lx & Wx & f & Cf & Hf). rewrite <- R1 in Cf.
  destruct (proj2 (C31_apply k q L t (sk_var key) key rk x f K Hv RO Ox ltac:(congruence) Cf) z E) as (Oz & Lz & Pz & _ & er & BE & Cz).
  pose proof t_range as T1. apply inv_fresh. split; [exact Oz|]. split; [exact Lz|]. split; [lia|]. split; [exact Pz|]. eexists. split; [exact Cz|]. cbv beta.
  intros i Hi. destruct (Hf i Hi) as (A1 & u & E1). specialize (BE i Hi). split.
  - assert (Z.abs (t * er i) <= t * relin_noise L (sk_var key) rk) by (rewrite Z.abs_mul, (Z.abs_eq t) by lia; apply Z.mul_le_mono_nonneg_l; lia). lia.
  - exists (u + er i). lia.
Qed.

Lemma t_word_range : 0 <= t < 2 ^ k.
Proof.
  pose proof t_range. pose proof (key_good k q L t key K) as G. pose proof (key_q k q L t key K) as Eq. pose proof (key_k k q L t key K) as Ek.
  pose proof (MontgomeryProofs.m4 _ G). pose proof (m_gt1 _ G). rewrite Eq, Ek in *. lia.
Qed.

Lemma inv_aux x b w m B ak z : inv x b w m B -> aux_fits L t key k w ak -> ak_pow ak = b -> aux_apply ak x = Ok z ->
  inv z 1 2 m (B + t * aux_noise L (sk_var key) key ak).
Proof.
  intros I (AO & Al & P & HP & HN & Hq & Hd) R1 E. pose proof I as (Px & V & _). apply (inv_iff x b w m B Px V) in I. destruct I as (Ox & Lx & Wx & f & Cf & Hf). rewrite <- R1 in Cf.
  rewrite (key_q _ _ _ _ _ K) in Hq.
  destruct (proj2 (C40_apply k q P L t (sk_var key) key ak x f K HP HN Hq Hd t_word_range Hv AO Ox ltac:(congruence) Cf) z E) as (Oz & Lz & Pz & _ & er & BE & Cz).
  pose proof t_range as T1. apply inv_fresh. split; [exact Oz|]. split; [exact Lz|]. split; [lia|]. split; [exact Pz|]. eexists. split; [exact Cz|]. cbv beta.
  intros i Hi. destruct (Hf i Hi) as (A1 & u & E1). specialize (BE i Hi). split.
  - assert (Z.abs (t * er i) <= t * aux_noise L (sk_var key) key ak) by (rewrite Z.abs_mul, (Z.abs_eq t) by lia; apply Z.mul_le_mono_nonneg_l; lia). lia.
  - exists (u + er i). lia.
Qed.

Lemma inv_send x b w m B : inv x b w m B -> Z.of_nat w <= 2 ^ 15 ->
  exists s y, ct_serialize x = Ok s /\ ct_deserialize (sk_p key) s = Ok y /\ inv y b w m B.
Proof.
  intros I Hw. pose proof I as (Px & V & _). apply (inv_iff x b w m B Px V) in I. destruct I as (Ox & Lx & Wx & f & Cf & Hf). pose proof (key_L _ _ _ _ _ K) as HL.
  destruct (C44_round_trip k q (sk_p key) x (ko_params _ _ _ _ _ K) (proj1 Ox)) as (s & Es & y & Ey & Y1 & Y2 & Y3 & Y4).
  { rewrite Lx. lia. }
  { eapply Forall_impl; [|exact (proj2 Ox)]. intros a [La Sa]. split; [exact Sa|]. rewrite La, Nat2Z.inj_pow. change (Z.of_nat 2) with 2.
    split; [apply Z.pow_pos_nonneg; lia|apply Z.pow_le_mono_r; lia]. }
  exists s, y. split; [exact Es|]. split; [exact Ey|]. apply inv_iff; [congruence|exact V|]. split; [split; [exact Y3|rewrite Y1; exact (proj2 Ox)]|].
  split; [congruence|]. split; [exact Wx|]. exists f. split; [|exact Hf]. intros i Hi. specialize (Cf i Hi). unfold component in *. rewrite Y1, Y3. rewrite (proj1 Ox) in Cf. exact Cf.
Qed.

Lemma run_inv h : forall x, wf L t key k h -> run key h = Ok x -> inv x (power L h) (width h) (meaning L key h) (noise L t key h).
Proof.
  pose proof t_range as T1.
  induction h as [G fuel pt s|G pk be pt v s|a IHa b IHb|a IHa b IHb|a IHa c|a IHa pt|a IHa b IHb pt|a IHa b IHb|a IHa p|a IHa gk|a IHa ak|a IHa rk|a IHa ak|a IHa];
    intros x Hw E; cbn [wf run power width meaning noise] in *.
  - destruct Hw as (HG & Hp & Hm). destruct (encrypt G fuel key pt s) as [[y s']| |] eqn:Ee; try discriminate E. injection E as <-.
    apply inv_fresh. exact (tracks_enc k q L t key EK T1 Hv Hvq G fuel pt s y s' HG Hp Hm Ee).
  - destruct Hw as (HG & (Hp & Hm) & PO & Hbe & V1 & V2). destruct (pub_encrypt G pk pt v s) as [[y s']| |] eqn:Ee; try discriminate E. injection E as <-.
    rewrite (key_q _ _ _ _ _ K) in V2. apply inv_fresh. exact (tracks_pub k q L t key EK T1 G pk be pt v s y s' HG Hp Hm PO Hbe V1 V2 Ee).
  - destruct Hw as (Wa & Wb). destruct (run key a) as [u| |]; try discriminate E. destruct (run key b) as [w| |]; try discriminate E. cbn [bind] in E.
    refine (inv_two ct_add _ _ _ u w _ _ _ _ _ _ _ _ x relabel_add _ (IHa u Wa eq_refl) (IHb w Wb eq_refl) E).
    intros key' EK' _ _ u' w' z. apply (tracks_add k q L t key' EK').
  - destruct Hw as (Wa & Wb). destruct (run key a) as [u| |]; try discriminate E. destruct (run key b) as [w| |]; try discriminate E. cbn [bind] in E.
    refine (inv_two ct_sub _ _ _ u w _ _ _ _ _ _ _ _ x relabel_sub _ (IHa u Wa eq_refl) (IHb w Wb eq_refl) E).
    intros key' EK' _ _ u' w' z. apply (tracks_sub k q L t key' EK').
  - destruct Hw as (Wa & Hc). destruct (run key a) as [u| |]; try discriminate E. cbn [bind] in E.
    refine (inv_one (fun x => ct_absorb_scalar x c) _ _ _ u _ _ _ _ x (fun x z => relabel_scale x c z) _ (IHa u Wa eq_refl) E).
    intros key' EK' Ep En u' z T. rewrite <- Ep. apply (tracks_scale k q L t key' EK' u' _ _ _ c z T). rewrite Ep. exact Hc.
  - destruct Hw as (Wa & Hc). destruct (run key a) as [u| |]; try discriminate E. cbn [bind] in E.
    refine (inv_one (fun x => ct_absorb x pt) _ _ _ u _ _ _ _ x (fun x z => relabel_absorb x pt z) _ (IHa u Wa eq_refl) E).
    intros key' EK' Ep En u' z T. unfold plain. rewrite <- Ep, <- En. apply (tracks_absorb k q L t key' EK' u' _ _ _ pt z T). rewrite Ep. exact Hc.
  - destruct Hw as (Wa & Wb & Hc). destruct (run key a) as [u| |]; try discriminate E. destruct (run key b) as [w| |]; try discriminate E. cbn [bind] in E.
    refine (inv_two (fun x y => ct_fused_absorb x y pt) _ _ _ u w _ _ _ _ _ _ _ _ x (fun x y z => relabel_fused x y pt z) _ (IHa u Wa eq_refl) (IHb w Wb eq_refl) E).
    intros key' EK' Ep En u' w' z T T'. unfold plain. rewrite <- Ep, <- En. apply (tracks_fused k q L t key' EK' u' w' _ _ _ _ _ _ pt z T T'). rewrite Ep. exact Hc.
  - destruct Hw as (Wa & Wb). destruct (run key a) as [u| |]; try discriminate E. destruct (run key b) as [w| |]; try discriminate E. cbn [bind] in E.
    refine (inv_two ct_mul _ _ _ u w _ _ _ _ _ _ _ _ x relabel_mul _ (IHa u Wa eq_refl) (IHb w Wb eq_refl) E).
    intros key' EK' _ _ u' w' z. apply (tracks_mul k q L t key' EK').
  - destruct (run key a) as [u| |]; try discriminate E. cbn [bind] in E. exact (inv_subst u _ _ _ _ p x (IHa u Hw eq_refl) E).
  - destruct Hw as (Wa & RO & Rn & W2). destruct (run key a) as [u| |]; try discriminate E. cbn [bind] in E. specialize (IHa u Wa eq_refl).
    unfold galois_apply in E. destruct (Z.eqb_spec (ct_pow u) (rk_pow gk)) as [Ep|]; [|discriminate E]. cbn [negb] in E. pose proof IHa as (Pu & _).
    apply (inv_relin u (power L a) (width a) _ _ gk x IHa RO); [congruence|rewrite W2; exact Rn|exact E].
  - destruct Hw as (Wa & AF). destruct (run key a) as [u| |]; try discriminate E. cbn [bind] in E. specialize (IHa u Wa eq_refl).
    unfold auxgalois_apply in E. destruct (Z.eqb_spec (ct_pow u) (ak_pow ak)) as [Ep|]; [|discriminate E]. cbn [negb] in E. pose proof IHa as (Pu & _).
    apply (inv_aux u (power L a) (width a) _ _ ak x IHa AF); [congruence|exact E].
  - destruct Hw as (Wa & RO & Rn & Rp). destruct (run key a) as [u| |]; try discriminate E. cbn [bind] in E.
    exact (inv_relin u _ _ _ _ rk x (IHa u Wa eq_refl) RO Rp Rn E).
  - destruct Hw as (Wa & AF & Ap). destruct (run key a) as [u| |]; try discriminate E. cbn [bind] in E.
    exact (inv_aux u _ _ _ _ ak x (IHa u Wa eq_refl) AF Ap E).
  - destruct Hw as (Wa & W2). destruct (run key a) as [u| |]; try discriminate E. cbn [bind] in E.
    destruct (inv_send u _ _ _ _ (IHa u Wa eq_refl) W2) as (m & y & E1 & E2 & T). rewrite E1 in E. cbn [bind] in E. rewrite E2 in E. injection E as <-. exact T.
Qed.

(** the key that belongs to a ciphertext *)
Lemma inv_use x b w m B key' : inv x b w m B -> key_substitute b key = Ok key' ->
  ct_ok L key' x /\ ct_pow x = b /\ length (ct_c x) = w /\ (1 <= w)%nat /\ exists f, carries L key' x f.
Proof.
  intros (P & V & key2 & E2 & (O & Ln & W & _ & f & Cf & _)) E. rewrite E in E2. injection E2 as <-.
  split; [exact O|]. split; [exact P|]. split; [exact Ln|]. split; [exact W|]. exists f. exact Cf.
Qed.

Lemma run_defined h : k <> 16 -> (L <= 14)%nat -> wf L t key k h -> powers_agree L h -> leaves_ok key h -> exists x, run key h = Ok x.
Proof.
  intros Hk HL14.
  induction h as [G fuel pt s|G pk be pt v s|a IHa b IHb|a IHa b IHb|a IHa c|a IHa pt|a IHa b IHb pt|a IHa b IHb|a IHa p|a IHa gk|a IHa ak|a IHa rk|a IHa ak|a IHa];
    intros Hw Ha Hlv; cbn [wf run leaves_ok powers_agree] in *.
  - destruct Hlv as ([x s'] & ->). eexists. reflexivity.
  - destruct Hlv as ([x s'] & ->). eexists. reflexivity.
  - destruct Hw as (Wa & Wb), Hlv as (La & Lb), Ha as (Aa & Ab & Ep). destruct (IHa Wa Aa La) as (u & Eu). destruct (IHb Wb Ab Lb) as (w & Ew). rewrite Eu, Ew. cbn [bind].
    pose proof (run_inv a u Wa Eu) as I. pose proof (run_inv b w Wb Ew) as J. rewrite <- Ep in J. destruct (key_at _ (proj1 (proj2 I))) as (key' & Ek & EK' & _).
    destruct (inv_use _ _ _ _ _ key' I Ek) as (Ou & Pu & _ & _ & f & Cf). destruct (inv_use _ _ _ _ _ key' J Ek) as (Ow & Pw & _ & _ & g & Cg).
    destruct (proj1 (C27_add_sub k _ L t _ u w f g (ek_key _ _ _ _ _ EK') Ou Ow Cf Cg ltac:(congruence))) as (z & Ez & _). eauto.
  - destruct Hw as (Wa & Wb), Hlv as (La & Lb), Ha as (Aa & Ab & Ep). destruct (IHa Wa Aa La) as (u & Eu). destruct (IHb Wb Ab Lb) as (w & Ew). rewrite Eu, Ew. cbn [bind].
    pose proof (run_inv a u Wa Eu) as I. pose proof (run_inv b w Wb Ew) as J. rewrite <- Ep in J. destruct (key_at _ (proj1 (proj2 I))) as (key' & Ek & EK' & _).
    destruct (inv_use _ _ _ _ _ key' I Ek) as (Ou & Pu & _ & _ & f & Cf). destruct (inv_use _ _ _ _ _ key' J Ek) as (Ow & Pw & _ & _ & g & Cg).
    destruct (proj2 (C27_add_sub k _ L t _ u w f g (ek_key _ _ _ _ _ EK') Ou Ow Cf Cg ltac:(congruence))) as (z & Ez & _). eauto.
  - destruct Hw as (Wa & Hc). destruct (IHa Wa Ha Hlv) as (u & Eu). rewrite Eu. cbn [bind]. pose proof (run_inv a u Wa Eu) as I.
    destruct (key_at _ (proj1 (proj2 I))) as (key' & Ek & EK' & Ep & _). destruct (inv_use _ _ _ _ _ key' I Ek) as (Ou & Pu & _ & _ & f & Cf). rewrite <- Ep in Hc.
    destruct (C28_absorb_scalar k _ L t _ u f c _ (ek_key _ _ _ _ _ EK') Ou Cf Hc (cong_eq _ _ _ eq_refl)) as (z & Ez & _). eauto.
  - destruct Hw as (Wa & Hc). destruct (IHa Wa Ha Hlv) as (u & Eu). rewrite Eu. cbn [bind]. pose proof (run_inv a u Wa Eu) as I.
    destruct (key_at _ (proj1 (proj2 I))) as (key' & Ek & EK' & Ep & _). destruct (inv_use _ _ _ _ _ key' I Ek) as (Ou & Pu & _ & _ & f & Cf). rewrite <- Ep in Hc.
    destruct (C28_absorb k _ L t _ u f pt _ (ek_key _ _ _ _ _ EK') Ou Cf Hc (fun i _ => cong_eq _ _ _ eq_refl)) as (z & Ez & _). eauto.
  - destruct Hw as (Wa & Wb & Hc), Hlv as (La & Lb), Ha as (Aa & Ab & Ep). destruct (IHa Wa Aa La) as (u & Eu). destruct (IHb Wb Ab Lb) as (w & Ew). rewrite Eu, Ew. cbn [bind].
    pose proof (run_inv a u Wa Eu) as I. pose proof (run_inv b w Wb Ew) as J. rewrite <- Ep in J. destruct (key_at _ (proj1 (proj2 I))) as (key' & Ek & EK' & Ekp & _).
    destruct (inv_use _ _ _ _ _ key' I Ek) as (Ou & Pu & _ & _ & f & Cf). destruct (inv_use _ _ _ _ _ key' J Ek) as (Ow & Pw & _ & _ & g & Cg). rewrite <- Ekp in Hc.
    exact (proj1 (proj2 (C28_fused_absorb k _ L t _ u w f g pt _ (ek_key _ _ _ _ _ EK') Ou Ow Cf Cg ltac:(congruence) Hc (fun i _ => cong_eq _ _ _ eq_refl))) Hk).
  - destruct Hw as (Wa & Wb), Hlv as (La & Lb), Ha as (Aa & Ab & Ep). destruct (IHa Wa Aa La) as (u & Eu). destruct (IHb Wb Ab Lb) as (w & Ew). rewrite Eu, Ew. cbn [bind].
    pose proof (run_inv a u Wa Eu) as I. pose proof (run_inv b w Wb Ew) as J. rewrite <- Ep in J. destruct (key_at _ (proj1 (proj2 I))) as (key' & Ek & EK' & _).
    destruct (inv_use _ _ _ _ _ key' I Ek) as (Ou & Pu & Lu & Wu & f & Cf). destruct (inv_use _ _ _ _ _ key' J Ek) as (Ow & Pw & Lw & Ww & g & Cg).
    apply (proj1 (proj2 (C28_multiply k _ L t _ u w f g (ek_key _ _ _ _ _ EK') Ou Ow Cf Cg)) Hk); [congruence| |];
      intros X; rewrite X in *; cbn [length] in *; lia.
  - destruct Ha as (Aa & Hp & Op). destruct (IHa Hw Aa Hlv) as (u & Eu). rewrite Eu. cbn [bind]. pose proof (run_inv a u Hw Eu) as I. pose proof I as (Pu & V & _).
    apply (inv_iff u _ _ _ _ Pu V) in I. destruct I as (O & Ln & W & f & Cf & _).
    destruct (C32_substitute k q L t key (power L a) p u f K O) as (y & E' & _); try assumption; try exact (proj1 V).
    { intros X. rewrite X in Ln. cbn in Ln. lia. }
    { assert (2 ^ Z.of_nat L <= 2 ^ 14) by (apply Z.pow_le_mono_r; lia). destruct V as [V _]. change (2 ^ 14) with 16384 in *. change (2 ^ 31) with 2147483648.
      set (N := 2 ^ Z.of_nat L) in *. nia. }
    eauto.
  - destruct Hw as (Wa & RO & Rn & W2), Ha as (Aa & Ep). destruct (IHa Wa Aa Hlv) as (u & Eu). rewrite Eu. cbn [bind]. pose proof (run_inv a u Wa Eu) as I. pose proof I as (Pu & V & _).
    apply (inv_iff u _ _ _ _ Pu V) in I. destruct I as (O & Ln & W & f & Cf & _). rewrite <- Pu in Cf.
    apply (proj1 (C32_apply k q L t (sk_var key) key gk u f K Hv RO Rn O ltac:(congruence) ltac:(congruence) Cf) Hk).
  - destruct Hw as (Wa & AO & Al & P & HP & HN & Hq & Hd), Ha as (Aa & Ep). destruct (IHa Wa Aa Hlv) as (u & Eu). rewrite Eu. cbn [bind]. pose proof (run_inv a u Wa Eu) as I. pose proof I as (Pu & V & _).
    apply (inv_iff u _ _ _ _ Pu V) in I. destruct I as (O & Ln & W & f & Cf & _). rewrite <- Ep in Cf. rewrite (key_q _ _ _ _ _ K) in Hq.
    unfold auxgalois_apply. rewrite Pu, Ep, Z.eqb_refl. cbn [negb].
    apply (proj1 (C40_apply k q P L t (sk_var key) key ak u f K HP HN Hq Hd t_word_range Hv AO O ltac:(congruence) Cf) Hk).
  - destruct Hw as (Wa & RO & Rn & Rp). destruct (IHa Wa Ha Hlv) as (u & Eu). rewrite Eu. cbn [bind]. pose proof (run_inv a u Wa Eu) as I. pose proof I as (Pu & V & _).
    apply (inv_iff u _ _ _ _ Pu V) in I. destruct I as (O & Ln & W & f & Cf & _). rewrite <- Rp in Cf.
    apply (proj1 (C31_apply k q L t (sk_var key) key rk u f K Hv RO O ltac:(congruence) Cf) Hk).
  - destruct Hw as (Wa & (AO & Al & P & HP & HN & Hq & Hd) & Ep). destruct (IHa Wa Ha Hlv) as (u & Eu). rewrite Eu. cbn [bind]. pose proof (run_inv a u Wa Eu) as I. pose proof I as (Pu & V & _).
    apply (inv_iff u _ _ _ _ Pu V) in I. destruct I as (O & Ln & W & f & Cf & _). rewrite <- Ep in Cf. rewrite (key_q _ _ _ _ _ K) in Hq.
    apply (proj1 (C40_apply k q P L t (sk_var key) key ak u f K HP HN Hq Hd t_word_range Hv AO O ltac:(congruence) Cf) Hk).
  - destruct Hw as (Wa & W2). destruct (IHa Wa Ha Hlv) as (u & Eu). rewrite Eu. cbn [bind].
    destruct (inv_send u _ _ _ _ (run_inv a u Wa Eu) W2) as (m & y & E1 & E2 & _). rewrite E1. cbn [bind]. eauto.
Qed.
End One.
