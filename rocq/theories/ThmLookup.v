(** C84: a private lookup returns the wanted records. *)
From Verif Require Import Base FinSum PolySpec Ring ZLemmas Montgomery MontBatch Ntt Poly PolyExt Prng Sampling SampleSpec MontgomeryProofs
  Spec PolyView ArithFacts NttMath NttProofs NttFacts PolyFacts PrimeCheck NegRing PolyProofs SymEnc SymSpec SymProofs SymProofs2 SymFacts
  Relin RelinSpec RelinProofs Expand ExpandSpec ExpandProofs ExpandProofs2
  ThmArith ThmNtt ThmPoly ThmSymEnc ThmRelin ThmKeys ThmExpand ThmCircuit LookupSpec.
Local Notation zsum := FinSum.zsum.

Lemma seqr_out {A B} (f : A -> result B) l r : seqr (map f l) = Ok r -> Forall2 (fun a b => f a = Ok b) l r.
Proof.
  revert r. induction l as [|a l IH]; cbn [map seqr]; intros r E.
  - injection E as <-. constructor.
  - destruct (f a) as [b| |] eqn:Ea; try discriminate. cbn [bind] in E. destruct (seqr (map f l)) as [bs| |]; try discriminate. cbn [bind] in E.
    injection E as <-. constructor; [exact Ea|]. apply IH. reflexivity.
Qed.
Lemma seqr_in {A B} (f : A -> result B) l r : Forall2 (fun a b => f a = Ok b) l r -> seqr (map f l) = Ok r.
Proof. intros H. induction H as [|a b l r E _ IH]; [reflexivity|]. cbn [map seqr]. rewrite E. cbn [bind]. rewrite IH. reflexivity. Qed.

Lemma Forall2_len {A B} (P : A -> B -> Prop) l r : Forall2 P l r -> length l = length r.
Proof. intros H. induction H; cbn; congruence. Qed.

Lemma expand_from_first (R : prng) fuel p : forall c0s s xs s', expand_from_prng R fuel p c0s s = Ok (xs, s') ->
  forall i, (i < length c0s)%nat -> nth 0 (ct_c (nth i xs (ct_empty p))) [] = nth i c0s [].
Proof.
  induction c0s as [|c c0s IH]; intros s xs s' E i Hi; [cbn in Hi; lia|]. cbn [expand_from_prng] in E.
  destruct (sample_polynomial _ _ _ _ _) as [[a s1]| |]; try discriminate. cbn [bind] in E.
  destruct (expand_from_prng R fuel p c0s s1) as [[r s2]| |] eqn:Er; try discriminate. cbn [bind] in E. injection E as <- <-.
  destruct i as [|i]; [reflexivity|]. cbn [nth]. apply (IH s1 r s2 Er). cbn in Hi. lia.
Qed.
Lemma expand_from_length (R : prng) fuel p : forall c0s s xs s', expand_from_prng R fuel p c0s s = Ok (xs, s') -> length xs = length c0s.
Proof.
  induction c0s as [|c c0s IH]; intros s xs s' E; cbn [expand_from_prng] in E; [injection E as <- <-; reflexivity|].
  destruct (sample_polynomial _ _ _ _ _) as [[a s1]| |]; try discriminate. cbn [bind] in E.
  destruct (expand_from_prng R fuel p c0s s1) as [[r s2]| |] eqn:Er; try discriminate. cbn [bind] in E. injection E as <- <-.
  cbn [length]. f_equal. apply (IH s1 r s2 Er).
Qed.

Lemma choose_list {A} (Q : nat -> A -> (nat -> Z) -> Prop) (d : A) (l : list A) :
  (forall a, (a < length l)%nat -> exists e, Q a (nth a l d) e) ->
  exists er : nat -> nat -> Z, forall a, (a < length l)%nat -> Q a (nth a l d) (er a).
Proof.
  revert Q. induction l as [|x l IH]; intros Q H.
  - exists (fun _ _ => 0). cbn. lia.
  - destruct (H 0%nat ltac:(cbn; lia)) as (e0 & He0). destruct (IH (fun a => Q (S a))) as (er & Her).
    { intros a Ha. apply (H (S a)). cbn. lia. }
    exists (fun a => match a with O => e0 | S a' => er a' end). intros [|a] Ha; [exact He0|]. apply (Her a). cbn in Ha. lia.
Qed.

Section Lookup.
Variables (k q : Z) (L : nat) (t : Z) (key : skey).
Hypothesis EK : enc_key k q L t key.
Hypothesis Ht : 1 <= t <= q.
Hypothesis Hv : 0 <= sk_var key.
Hypothesis Hvq : 2 * sk_var key <= q.
Let K := ek_key _ _ _ _ _ EK.

Lemma n_val : Z.of_nat (np_n (sk_np key)) = 2 ^ Z.of_nat L.
Proof. rewrite (ng_n _ _ _ _ (proj2 (key_ctx k q L t key K))), Nat2Z.inj_pow. reflexivity. Qed.

(** the server recovers usable Galois keys *)
Lemma keys_arrive F fuel ty lv logT seeds msgs : prng_ok (gf_prng F ty) ->
  client_keys F fuel key ty lv logT seeds = Ok msgs ->
  exists gks, seqr (map (fun m => galois_deserialize F fuel m (sk_p key) (sk_np key)) msgs) = Ok gks /\ length gks = lv /\
    galois_keys_ok L t (sk_var key) (switch_error L key logT) key gks.
Proof.
  intros HF E. unfold client_keys in E. apply seqr_out in E. pose proof (key_L k q L t key K) as LR.
  assert (G : forall start, (start + lv <= start + lv)%nat -> forall ms, Forall2 (fun i b => (do! gk <- galois_create F fuel key ty (Z.of_nat (np_n (sk_np key)) / 2 ^ Z.of_nat i + 1) logT (fst (seeds i)) (snd (seeds i));
    galois_serialize gk) = Ok b) (seq start lv) ms -> exists gks, Forall2 (fun m gk => galois_deserialize F fuel m (sk_p key) (sk_np key) = Ok gk) ms gks /\ length gks = lv /\
    forall i gk, nth_error gks i = Some gk -> relin_ok L t (sk_var key) key gk /\ rk_num gk = 2 /\ relin_noise L (sk_var key) gk <= switch_error L key logT /\
      rk_pow gk = 2 ^ Z.of_nat L / 2 ^ Z.of_nat (start + i) + 1).
  { clear E msgs. induction lv as [|lv IH]; intros start _ ms E; cbn [seq] in E; inversion E as [|? b ? bs E1 E2]; subst.
    - exists []. split; [constructor|]. split; [reflexivity|]. intros [|i] gk H; discriminate H.
    - destruct (IH (S start) ltac:(lia) bs E2) as (gks & F2 & Lg & Hg).
      destruct (galois_create _ _ _ _ _ _ _ _) as [gk| |] eqn:Eg in E1; try discriminate. cbn [bind] in E1.
      destruct (C39_galois_round_trip k q L t key F fuel ty _ logT _ _ gk EK Hv Hvq HF Eg) as (sr & Es & Ed). rewrite Es in E1. injection E1 as <-.
      destruct (C32_create k q L t key F fuel ty _ logT _ _ gk EK Hv Hvq HF Eg) as (R & N & P & P1).
      destruct (C31_create k q L t key F fuel ty 2 logT _ _ _ gk EK Hv Hvq HF Eg) as (_ & _ & T & _).
      exists (gk :: gks). split; [constructor; assumption|]. split; [cbn; congruence|]. intros [|i] g Hi.
      + injection Hi as <-. rewrite Nat.add_0_r. split; [exact R|]. split; [exact N|]. split.
        * unfold relin_noise, switch_error. rewrite (ro_p _ _ _ _ _ R), T. pose proof (ro_parts _ _ _ _ _ R) as RP.
          destruct (Z.eqb_spec (rk_pow gk) 1); [contradiction|]. rewrite RP, N. lia.
        * rewrite P, n_val. apply int32_small. pose proof (Z.pow_pos_nonneg 2 (Z.of_nat start) ltac:(lia) ltac:(lia)) as P0.
          assert (0 < 2 ^ Z.of_nat L <= 2 ^ 15) by (split; [apply Z.pow_pos_nonneg; lia|apply Z.pow_le_mono_r; lia]).
          assert (0 <= 2 ^ Z.of_nat L / 2 ^ Z.of_nat start <= 2 ^ Z.of_nat L).
          { split; [apply Z.div_pos; lia|]. apply Z.div_le_upper_bound; [exact P0|]. nia. }
          lia.
      + replace (start + S i)%nat with (S start + i)%nat by lia. apply Hg. exact Hi. }
  destruct (G 0%nat ltac:(lia) msgs E) as (gks & F2 & Lg & Hg). exists gks. split; [apply seqr_in; exact F2|]. split; [exact Lg|]. exact Hg.
Qed.

(** the server recovers ciphertexts of the scaled compressed vector *)
Lemma query_arrives F fuel ty lv log_t total indices seed seed_e msg : k <> 16 -> prng_ok (gf_prng F ty) ->
  (lv <= L)%nat -> 0 < total -> (forall i, In i indices -> 0 <= i < total) -> 1 <= log_t <= 63 -> t = 2 ^ log_t + 1 ->
  client_query F fuel key ty lv log_t total indices seed seed_e = Ok msg ->
  exists c c0s s xs s', compute_normalizer (Z.of_nat lv) log_t = Ok c /\ 0 < c < t /\ (c * 2 ^ Z.of_nat lv) mod t = 1 /\
    seqr (map (poly_deserialize (sk_p key)) msg) = Ok c0s /\ gf_start F ty seed = Ok s /\
    expand_from_prng (gf_prng F ty) fuel (sk_p key) c0s s = Ok (xs, s') /\
    Z.of_nat (length xs) = (total + 2 ^ Z.of_nat lv - 1) / 2 ^ Z.of_nat lv /\
    exists er : nat -> nat -> Z, forall a, (a < length xs)%nat -> fresh_shape L key (nth a xs (ct_empty (sk_p key))) /\
      (forall l, (l < 2 ^ L)%nat -> Z.abs (er a l) <= 2 * sk_var key) /\
      carries L key (nth a xs (ct_empty (sk_p key))) (fun l =>
        (if (Z.of_nat l <? 2 ^ Z.of_nat lv) && existsb (Z.eqb (Z.of_nat a * 2 ^ Z.of_nat lv + Z.of_nat l)) indices then c else 0) + t * er a l).
Proof.
  intros Hk HF HL Htot Hi Hlt Et E. unfold client_query in E. pose proof (key_L k q L t key K) as LR.
  pose proof (ko_params _ _ _ _ _ K) as HP. pose proof (ko_ntt _ _ _ _ _ K) as HN.
  destruct (mk_ctx k q (sk_p key) L (sk_np key) HP HN) as (C & Kk & Em). pose proof (proj1 C) as G.
  destruct (C35_compressed k q (sk_p key) L (sk_np key) total indices (Z.of_nat lv) HP HN Htot ltac:(lia) ltac:(lia) Hi) as (vs & Evs & Lvs & Hvs).
  rewrite Evs in E. cbn [bind] in E.
  destruct (normalizer_ok (Z.of_nat lv) log_t ltac:(lia) Hlt) as (c & Ec & Hc & Hc1). rewrite Ec in E. cbn [bind] in E. rewrite <- Et in Hc, Hc1.
  assert (Hq : q < 2 ^ p_k (sk_p key)) by (pose proof (g_m4 _ G) as M4; rewrite Em in M4; lia).
  assert (Sc : stored (sk_p key) (import_int (sk_p key) c)) by (apply crep_rep, import_crep; [exact G|lia]).
  assert (Vc : export_int (sk_p key) (import_int (sk_p key) c) = c).
  { rewrite (stored_val _ _ G Sc), (import_val _ G) by lia. apply Z.mod_small. lia. }
  destruct (seqr (map _ vs)) as [pts| |] eqn:Ep; try discriminate. cbn [bind] in E. apply seqr_out in Ep.
  destruct (gf_start F ty seed) as [s| |] eqn:Es; try discriminate. cbn [bind] in E.
  destruct (gf_start F ty seed_e) as [e| |] eqn:Ee; try discriminate. cbn [bind] in E.
  destruct (encrypt_with_prng _ _ _ _ _ _ _) as [[c0s [s' e']]| |] eqn:Ex; try discriminate. cbn [bind fst] in E.
  assert (Lp : length pts = length vs) by (symmetry; eapply Forall2_len; exact Ep).
  assert (Hp : forall a, (a < length vs)%nat -> ntt_poly (sk_p key) L (nth a pts []) /\
     forall l, (l < 2 ^ L)%nat -> coeff (sk_p key) (sk_np key) (nth a pts []) l = (c * coeff (sk_p key) (sk_np key) (nth a vs []) l) mod q).
  { intros a Ha. assert (EA : poly_mul_scalar (sk_p key) (nth a vs []) (import_int (sk_p key) c) = Ok (nth a pts [])).
    { clear -Ep Ha. revert a Ha. induction Ep as [|x y l r E0 _ IH]; intros [|a] Ha; cbn [length nth] in *; try lia; [exact E0|apply IH; lia]. }
    destruct (C18_mul_scalar k q (sk_p key) L (sk_np key) (nth a vs []) _ HP HN (proj1 (Hvs a Ha)) Sc) as (b & Eb & Nb & Cb).
    rewrite EA in Eb. injection Eb as <-. split; [exact Nb|]. intros l Hl. rewrite (Cb l Hl), Vc, Em. reflexivity. }
  destruct (C38_expand k q L t key (gf_prng F ty) (gf_prng F ty) fuel pts s e c0s s' e' EK Hv Hvq HF) as (xs & Exs & Lxs & Hxs).
  { apply Forall_forall. intros x Hx. apply (In_nth _ _ []) in Hx. destruct Hx as (a & Ha & <-). apply Hp. rewrite <- Lp. exact Ha. }
  { exact Ex. }
  pose proof (expand_from_length _ _ _ _ _ _ _ Exs) as Lc.
  assert (D : seqr (map (poly_deserialize (sk_p key)) msg) = Ok c0s).
  { destruct (seqr_round (poly_serialize (sk_p key)) (poly_deserialize (sk_p key)) c0s) as (m & E1 & _ & E2).
    - apply Forall_forall. intros x Hx. apply (In_nth _ _ []) in Hx. destruct Hx as (a & Ha & <-).
      pose proof (expand_from_first _ _ _ _ _ _ _ Exs a Ha) as EF. unfold poly in EF |- *. rewrite <- EF. unfold poly in Ha, Lc. destruct (Hxs a ltac:(lia)) as (O & L2 & _). destruct O as [_ O].
      set (y := nth a xs (ct_empty (sk_p key))) in *. destruct (ct_c y) as [|c0 cs]; [discriminate|]. inversion_clear O as [|? ? Hc0 _]. cbn [nth].
      destruct (C20_serialize k q (sk_p key) c0 HP (proj2 Hc0)) as (ss & A1 & _ & A2).
      + rewrite (proj1 Hc0). apply n_pos.
      + rewrite (proj1 Hc0), Nat2Z.inj_pow. change (Z.of_nat 2) with 2. apply Z.pow_le_mono_r; lia.
      + eauto.
    - rewrite E1 in E. injection E as <-. exact E2. }
  exists c, c0s, s, xs, s'. split; [exact Ec|]. split; [lia|]. split; [exact Hc1|]. split; [exact D|]. split; [reflexivity|]. split; [exact Exs|].
  split; [rewrite Lxs, Lp; exact Lvs|].
  apply (choose_list (fun a x e0 => fresh_shape L key x /\ (forall l, (l < 2 ^ L)%nat -> Z.abs (e0 l) <= 2 * sk_var key) /\
    carries L key x (fun l => (if (Z.of_nat l <? 2 ^ Z.of_nat lv) && existsb (Z.eqb (Z.of_nat a * 2 ^ Z.of_nat lv + Z.of_nat l)) indices then c else 0) + t * e0 l))
    (ct_empty (sk_p key)) xs).
  intros a Ha. destruct (Hxs a ltac:(lia)) as (H1 & H2 & H3 & H4 & e0 & B0 & C0). exists e0.
  split; [split; [exact H1|]; split; [exact H2|]; split; assumption|]. split; [exact B0|].
  eapply carries_ext; [|exact C0]. intros l Hl. cbv beta. rewrite Em. destruct (Hp a ltac:(lia)) as [_ Hpc]. rewrite (Hpc l Hl).
  destruct (Hvs a ltac:(lia)) as [_ Hvc]. rewrite (Hvc l Hl). destruct (_ && _).
  - rewrite cong_mod by lia. apply cong_eq. ring.
  - rewrite cong_mod by lia. apply cong_eq. ring.
Qed.

(** y encrypts the constant b in {0, 1} *)
Definition flag (b : bool) : nat -> Z := pconst (if b then 1 else 0).

Lemma run_tracks (D : nat -> nat -> Z) B : forall ops x m A, 0 <= B -> k <> 16 -> tracks L t key x 2 m A ->
  (forall i y d, nth_error ops i = Some (y, d) -> tracks L t key y 2 (D i) B /\ ntt_poly (sk_p key) L d) ->
  exists z, run_fused x ops = Ok z /\
    tracks L t key z 2 (fun l => m l + zsum (length ops) (fun i => negacyclic (2 ^ L) (D i) (coeff (sk_p key) (sk_np key) (snd (nth i ops (ct_empty (sk_p key), ([] : poly))))) l))
      (A + B * zsum (length ops) (fun i => l1 (2 ^ L) (coeff (sk_p key) (sk_np key) (snd (nth i ops (ct_empty (sk_p key), ([] : poly))))))).
Proof.
  intros ops. revert D. induction ops as [|[y d] ops IH]; intros D x m A HB Hk T H.
  - exists x. split; [reflexivity|]. cbn [length]. change (zsum 0 ?f) with 0. rewrite Z.mul_0_r, Z.add_0_r.
    destruct T as (T1 & T2 & T3 & T4 & f & T5 & T6). split; [exact T1|]. split; [exact T2|]. split; [exact T3|]. split; [exact T4|].
    exists f. split; [exact T5|]. intros i Hi. destruct (T6 i Hi) as (U1 & u & U2). split; [exact U1|]. exists u. rewrite <- U2. change (zsum 0 ?f) with 0. ring.
  - cbn [run_fused]. destruct (H 0%nat y d eq_refl) as (Ty & Hd). pose proof T as (Ox & Lx & Wx & Px & f & Cf & Hf). pose proof Ty as (Oy & Ly & Wy & Py & g & Cg & Hg).
    destruct (C28_fused_absorb k q L t key x y f g d (coeff (sk_p key) (sk_np key) d) K Ox Oy Cf Cg ltac:(congruence) Hd (fun i _ => cong_eq _ _ _ eq_refl)) as (_ & X & _).
    destruct (X Hk) as (z & Ez). rewrite Ez. cbn [bind].
    pose proof (tracks_fused k q L t key EK x y 2 2 m (D 0%nat) A B d z T Ty Hd Ez) as Tz. change (Nat.max 2 2) with 2%nat in Tz.
    destruct (IH (fun i => D (S i)) z _ _ HB Hk Tz (fun i y0 d0 Hi => H (S i) y0 d0 Hi)) as (w & Ew & Tw). exists w. split; [exact Ew|].
    destruct Tw as (T1 & T2 & T3 & T4 & f' & T5 & T6). split; [exact T1|]. split; [exact T2|]. split; [exact T3|]. split; [exact T4|].
    exists f'. split; [exact T5|]. intros i Hi. destruct (T6 i Hi) as (U1 & U2). cbn [length].
    rewrite !zsum_first. cbn [nth snd]. split; [lia|]. destruct U2 as (u & U2). exists u. rewrite <- U2. ring.
Qed.

(** an expanded ciphertext encrypts 1 or 0 *)
Lemma expanded_tracks lv logT indices c er y idx E : (lv <= L)%nat -> 0 < c < t -> (c * 2 ^ Z.of_nat lv) mod t = 1 ->
  (forall l, (l < 2 ^ L)%nat -> Z.abs (er l) <= 2 * sk_var key) ->
  (forall l, (l < 2 ^ L)%nat -> Z.abs (E l) <= (2 ^ Z.of_nat lv - 1) * switch_error L key logT) ->
  fresh_shape L key y ->
  carries L key y (fun l => 2 ^ Z.of_nat lv * residue_part (2 ^ lv) (idx mod 2 ^ lv) (fun l =>
    (if (Z.of_nat l <? 2 ^ Z.of_nat lv) && existsb (Z.eqb (Z.of_nat (idx / 2 ^ lv) * 2 ^ Z.of_nat lv + Z.of_nat l)) indices then c else 0) + t * er l) l + t * E l) ->
  tracks L t key y 2 (flag (existsb (Z.eqb (Z.of_nat idx)) indices)) (expanded_error L t key lv logT).
Proof.
  intros HL Hc Hinv He HE (F1 & F2 & F3 & _) Cy. split; [exact F1|]. split; [exact F2|]. split; [lia|]. split; [exact F3|].
  eexists. split; [exact Cy|]. cbv beta. intros l Hl. specialize (HE l Hl). unfold expanded_error.
  assert (P2 : (0 < 2 ^ lv)%nat) by apply (n_pos lv).
  assert (Pz : 2 ^ Z.of_nat lv = Z.of_nat (2 ^ lv)) by (rewrite Nat2Z.inj_pow; reflexivity).
  set (a := (idx / 2 ^ lv)%nat) in *. set (j := (idx mod 2 ^ lv)%nat) in *.
  assert (Eidx : idx = (a * 2 ^ lv + j)%nat) by (unfold a, j; pose proof (Nat.div_mod idx (2 ^ lv) ltac:(lia)); lia).
  assert (Hjj : (j < 2 ^ lv)%nat) by (apply Nat.mod_upper_bound; lia). clearbody a j.
  assert (D : (2 ^ L = 2 ^ (L - lv) * 2 ^ lv)%nat) by (rewrite <- Nat.pow_add_r; f_equal; lia).
  set (d := (2 ^ lv)%nat) in *. set (W := 2 ^ Z.of_nat lv) in *. assert (PW : 0 < W) by lia.
  set (sw := switch_error L key logT) in *.
  assert (T0 : 0 < t) by lia.
  assert (V : exists r, residue_part d j (fun l0 => (if (Z.of_nat l0 <? W) && existsb (Z.eqb (Z.of_nat a * W + Z.of_nat l0)) indices then c else 0) + t * er l0) l = r /\
    Z.abs r <= t + t * (2 * sk_var key) /\ cong t (W * r) (flag (existsb (Z.eqb (Z.of_nat idx)) indices) l)).
  { eexists. split; [reflexivity|]. unfold residue_part, flag, pconst.
    destruct (Nat.eqb_spec (l mod d) 0) as [Hz|Hz].
    - assert (Hlj : (l + j < 2 ^ L)%nat).
      { pose proof (Nat.div_mod l d ltac:(lia)) as DL. rewrite Hz, Nat.add_0_r in DL. revert DL. generalize (l / d)%nat. intros u DL.
        assert (u < 2 ^ (L - lv))%nat by nia. nia. }
      specialize (He _ Hlj). destruct (Nat.eqb_spec l 0) as [->|N0].
      + rewrite Nat.add_0_l in *. destruct (Z.ltb_spec (Z.of_nat j) W) as [_|N]; [|lia]. cbn [andb].
        replace (Z.of_nat a * W + Z.of_nat j) with (Z.of_nat idx) by (rewrite Eidx, Nat2Z.inj_add, Nat2Z.inj_mul, Pz; reflexivity).
        destruct (existsb _ indices).
        * split; [nia|]. replace (W * (c + t * er j)) with (c * W + W * er j * t) by ring. apply cong_iff; [lia|]. rewrite Z_mod_plus_full, Hinv. symmetry. apply Z.mod_small. lia.
        * split; [nia|]. exists (W * er j). ring.
      + assert (d <= l)%nat. { pose proof (Nat.div_mod l d ltac:(lia)) as DM. rewrite Hz in DM. revert DM. generalize (l / d)%nat. intros [|u] DM; nia. }
        destruct (Z.ltb_spec (Z.of_nat (l + j)) W) as [N|_]; [lia|]. cbn [andb]. split; [nia|]. exists (W * er (l + j)%nat). ring.
    - split; [specialize (He l Hl); nia|]. destruct (Nat.eqb_spec l 0) as [->|N0]; [exfalso; apply Hz; apply Nat.mod_0_l; lia|]. exists 0. ring. }
  destruct V as (r & -> & Br & u & Hu). split.
  - eapply Z.le_trans; [apply Z.abs_triangle|]. rewrite !Z.abs_mul, (Z.abs_eq W), (Z.abs_eq t) by lia. nia.
  - exists (u + E l). rewrite Z.mul_add_distr_r, <- Hu. ring.
Qed.

Lemma select_tracks ys db (D : nat -> nat -> Z) B : 0 <= B -> k <> 16 -> length ys = length db -> (0 < length db)%nat ->
  Forall (ntt_poly (sk_p key) L) db -> (forall i y, nth_error ys i = Some y -> tracks L t key y 2 (D i) B) ->
  exists z, select ys db = Ok z /\
    tracks L t key z 2 (fun l => zsum (length db) (fun i => negacyclic (2 ^ L) (D i) (record key db i) l))
      (B * zsum (length db) (fun i => l1 (2 ^ L) (record key db i))).
Proof.
  intros HB Hk Hl Hp Hd Hy. destruct ys as [|y ys], db as [|d db]; cbn [length] in *; try lia. cbn [select].
  inversion_clear Hd as [|? ? Hd0 Hd1]. pose proof (Hy 0%nat y eq_refl) as T. pose proof T as (Ox & Lx & Wx & Px & f & Cf & Hf).
  destruct (C28_absorb k q L t key y f d (coeff (sk_p key) (sk_np key) d) K Ox Cf Hd0) as (z & Ez & _); [intros i Hi; exists 0; ring|].
  rewrite Ez. cbn [bind]. pose proof (tracks_absorb k q L t key EK y 2 (D 0%nat) B d z T Hd0 Ez) as Tz.
  assert (LC : length (combine ys db) = length db) by (rewrite combine_length; lia).
  assert (NC : forall i, (i < length db)%nat -> nth i (combine ys db) (ct_empty (sk_p key), ([] : poly)) = (nth i ys (ct_empty (sk_p key)), nth i db [])).
  { intros i Hi. apply combine_nth. lia. }
  destruct (run_tracks (fun i => D (S i)) B (combine ys db) z _ _ HB Hk Tz) as (w & Ew & Tw).
  { intros i y0 d0 Hi. assert (Hi2 : (i < length db)%nat) by (rewrite <- LC; apply nth_error_Some; rewrite Hi; discriminate).
    pose proof (nth_error_nth _ _ (ct_empty (sk_p key), ([] : poly)) Hi) as N. rewrite (NC i Hi2) in N. injection N as <- <-.
    split; [apply (Hy (S i)); cbn [nth_error]; apply nth_error_nth'; lia|]. rewrite Forall_forall in Hd1. apply Hd1, nth_In, Hi2. }
  exists w. split; [exact Ew|]. destruct Tw as (T1 & T2 & T3 & T4 & f' & T5 & T6). split; [exact T1|]. split; [exact T2|]. split; [exact T3|]. split; [exact T4|].
  exists f'. split; [exact T5|]. intros i Hi. destruct (T6 i Hi) as (U1 & U2). rewrite LC in U1, U2. rewrite !zsum_first.
  assert (S1 : zsum (length db) (fun i0 => l1 (2 ^ L) (coeff (sk_p key) (sk_np key) (snd (nth i0 (combine ys db) (ct_empty (sk_p key), ([] : poly)))))) =
     zsum (length db) (fun i0 => l1 (2 ^ L) (record key (d :: db) (S i0)))) by (apply zsum_ext; intros a Ha; rewrite (NC a Ha); reflexivity).
  assert (S2 : zsum (length db) (fun i0 => negacyclic (2 ^ L) (D (S i0)) (coeff (sk_p key) (sk_np key) (snd (nth i0 (combine ys db) (ct_empty (sk_p key), ([] : poly))))) i) =
     zsum (length db) (fun i0 => negacyclic (2 ^ L) (D (S i0)) (record key (d :: db) (S i0)) i)) by (apply zsum_ext; intros a Ha; rewrite (NC a Ha); reflexivity).
  rewrite S1 in U1. rewrite S2 in U2. split; [|exact U2]. unfold record at 1. cbn [nth]. rewrite Z.mul_add_distr_l. exact U1.
Qed.
End Lookup.

(** ** C84 *)

(** [db]: the records, at least two. [lv]: how many times a ciphertext is
    doubled. If the client could make its keys and its query, the server can
    answer, and the client reads the sum modulo t of the records it wanted,
    provided the worst-case error is below q / 2. Only 16-bit words are left out
    (C06). *)
Theorem C84_lookup :
  forall k q L t key (F : genfam) fuel ty lv log_t logT seeds indices seed seed_e keys query db,
  enc_key k q L t key -> k <> 16 -> 0 <= sk_var key -> 2 * sk_var key <= q -> prng_ok (gf_prng F ty) ->
  1 <= log_t <= 63 -> t = 2 ^ log_t + 1 -> t <= q ->
  (1 <= lv <= L)%nat -> (2 <= length db)%nat -> Z.of_nat (length db) + 2 ^ Z.of_nat lv <= 2 ^ 31 ->
  Forall (ntt_poly (sk_p key) L) db -> (forall i, In i indices -> 0 <= i < Z.of_nat (length db)) ->
  2 * lookup_error L t key lv logT db < q ->
  client_keys F fuel key ty lv logT seeds = Ok keys ->
  client_query F fuel key ty lv log_t (Z.of_nat (length db)) indices seed seed_e = Ok query ->
  exists reply, server_reply F fuel (sk_p key) (sk_np key) ty lv keys query seed db = Ok reply /\
    client_decode key reply = Ok (tabulate (2 ^ L) (fun l => wanted_sum key db indices l mod t)).
Proof.
  intros k q L t key F fuel ty lv log_t logT seeds indices seed seed_e keys query db EK Hk Hv Hvq HF Hlt Et Htq Hlv Hdb Hsz Fdb Hi Hq EKeys EQuery.
  pose proof (ek_key _ _ _ _ _ EK) as K. pose proof (key_L k q L t key K) as LR. pose proof (Z.pow_pos_nonneg 2 log_t ltac:(lia) ltac:(lia)) as PT.
  assert (Ht : 1 <= t <= q) by lia.
  destruct (keys_arrive k q L t key EK Hv Hvq F fuel ty lv logT seeds keys HF EKeys) as (gks & Egk & Lgk & HG).
  destruct (query_arrives k q L t key EK Ht Hv Hvq F fuel ty lv log_t (Z.of_nat (length db)) indices seed seed_e query Hk HF ltac:(lia) ltac:(lia) Hi Hlt Et EQuery)
    as (c & c0s & s & xs & s' & Ec & Hc & Hinv & Ed & Es & Exs & Lxs & er & Her).
  unfold server_reply. rewrite Egk. cbn [bind].
  destruct (proj1 (C33_create gks (sk_p key) (sk_np key))) as (ex & Eex).
  { intros i gk Hg. rewrite (n_val k q L t key EK). apply (HG i gk Hg). }
  rewrite Eex. cbn [bind]. rewrite Ed. cbn [bind]. rewrite Es. cbn [bind]. rewrite Exs. cbn [bind fst].
  assert (Sw : 0 <= switch_error L key logT).
  { destruct gks as [|gk gks]; [cbn in Lgk; lia|]. destruct (HG 0%nat gk eq_refl) as (R & _ & B & _). eapply Z.le_trans; [|exact B].
    pose proof (ro_logT _ _ _ _ _ R). unfold relin_noise. pose proof (Z.pow_pos_nonneg 2 (Z.of_nat L) ltac:(lia) ltac:(lia)).
    pose proof (Z.pow_pos_nonneg 2 (rk_logT gk) ltac:(lia) ltac:(lia)).
    assert (0 <= gadget_size (rk_p gk) (rk_logT gk)).
    { unfold gadget_size. rewrite (ro_p _ _ _ _ _ R). apply Z.div_pos; lia. }
    apply Z.mul_nonneg_nonneg; [lia|]. apply Z.mul_nonneg_nonneg; [assumption|]. apply Z.mul_nonneg_nonneg; [lia|]. nia. }
  assert (EF : expander_for L t (sk_var key) (switch_error L key logT) key lv ex).
  { left. exists gks. split; [exact HG|]. split; [lia|]. split; [lia|exact Eex]. }
  set (W := 2 ^ Z.of_nat lv) in *. assert (PW : 2 <= W) by (unfold W; change 2 with (2 ^ 1) at 1; apply Z.pow_le_mono_r; lia).
  set (m := Z.of_nat (length db)) in *.
  pose proof (Z.div_mod (m + W - 1) W ltac:(lia)) as DM. pose proof (Z.mod_pos_bound (m + W - 1) W ltac:(lia)) as MB. rewrite <- Lxs in DM.
  set (fa := fun a l => (if (Z.of_nat l <? W) && existsb (Z.eqb (Z.of_nat a * W + Z.of_nat l)) indices then c else 0) + t * er a l).
  destruct (C33_oblivious_expand k q L t (sk_var key) (switch_error L key logT) key lv ex xs fa m K Hv Sw EF) as [HD HV].
  { intros a x Ha. assert (a < length xs)%nat by (apply nth_error_Some; rewrite Ha; discriminate).
    pose proof (nth_error_nth _ _ (ct_empty (sk_p key)) Ha) as <-. destruct (Her a H) as (A1 & _ & A2). split; [exact A1|exact A2]. }
  { fold W. nia. }
  { fold W. nia. }
  { nia. }
  destruct (HD Hk) as (ys & Eys). rewrite Eys. cbn [bind]. destruct (HV ys Eys) as [Lys Hys].
  assert (ELen : length ys = length db) by (unfold m in Lys; lia).
  assert (Be : 0 <= expanded_error L t key lv logT) by (unfold expanded_error; fold W; nia).
  destruct (select_tracks k q L t key EK ys db (fun i => flag (existsb (Z.eqb (Z.of_nat i)) indices)) (expanded_error L t key lv logT) Be Hk ELen ltac:(lia) Fdb)
    as (z & Ez & Tz).
  { intros i y Hy. destruct (Hys i y Hy) as (Fy & E & HE & Cy).
    assert (Hil : (i < length ys)%nat) by (apply nth_error_Some; rewrite Hy; discriminate).
    assert (Hia : (i / 2 ^ lv < length xs)%nat).
    { assert (P2 : (0 < 2 ^ lv)%nat) by apply (n_pos lv). apply Nat.div_lt_upper_bound; [lia|].
      apply Nat2Z.inj_lt. rewrite Nat2Z.inj_mul, Nat2Z.inj_pow. change (Z.of_nat 2) with 2. fold W. nia. }
    destruct (Her _ Hia) as (_ & He & _).
    eapply expanded_tracks with (c := c) (er := er (i / 2 ^ lv)%nat) (E := E); try eassumption; lia. }
  rewrite Ez. cbn [bind]. destruct Tz as (Oz & Lz & _ & Pz & f & Cf & Hf).
  destruct (C44_round_trip k q (sk_p key) z (ko_params _ _ _ _ _ K) (proj1 Oz)) as (msg & Em & _).
  { rewrite Lz. cbn. lia. }
  { eapply Forall_impl; [|exact (proj2 Oz)]. intros a [La Sa]. split; [exact Sa|]. rewrite La, Nat2Z.inj_pow. change (Z.of_nat 2) with 2.
    split; [apply Z.pow_pos_nonneg; lia|apply Z.pow_le_mono_r; lia]. }
  exists msg. split; [exact Em|]. unfold client_decode.
  destruct (C44_decrypts k q L t key z msg K Oz ltac:(lia) ltac:(rewrite Lz; cbn; lia) Em) as (y & Ey & Oy & Dy). rewrite Ey. cbn [bind]. rewrite Dy.
  rewrite (proj2 (C26_decrypt k q L t key z f K ltac:(lia) Oz Cf)).
  - f_equal. unfold tabulate. apply map_ext_in. intros l Hl. apply in_seq in Hl. destruct (Hf l ltac:(lia)) as (_ & Cl).
    apply cong_to_mod; [lia|]. rewrite Cl. unfold wanted_sum. apply zsum_cong. intros i _.
    pose proof (pscale_const t (2 ^ L) (n_pos L) (if existsb (Z.eqb (Z.of_nat i)) indices then 1 else 0) (record key db i) l ltac:(lia)) as PS.
    unfold flag. rewrite <- PS. unfold pscale. destruct (existsb _ _); apply cong_eq; ring.
  - intros l Hl. unfold fits. destruct (Hf l Hl) as (Bl & _). unfold lookup_error in Hq. lia.
Qed.

(** one record: it arrives as it is *)
Theorem C84_single :
  forall k q L t key (F : genfam) fuel ty lv log_t logT seeds i seed seed_e keys query db,
  enc_key k q L t key -> k <> 16 -> 0 <= sk_var key -> 2 * sk_var key <= q -> prng_ok (gf_prng F ty) ->
  1 <= log_t <= 63 -> t = 2 ^ log_t + 1 -> t <= q ->
  (1 <= lv <= L)%nat -> (2 <= length db)%nat -> Z.of_nat (length db) + 2 ^ Z.of_nat lv <= 2 ^ 31 ->
  Forall (ntt_poly (sk_p key) L) db -> (i < length db)%nat -> (forall l, (l < 2 ^ L)%nat -> 0 <= record key db i l < t) ->
  2 * lookup_error L t key lv logT db < q ->
  client_keys F fuel key ty lv logT seeds = Ok keys ->
  client_query F fuel key ty lv log_t (Z.of_nat (length db)) [Z.of_nat i] seed seed_e = Ok query ->
  exists reply, server_reply F fuel (sk_p key) (sk_np key) ty lv keys query seed db = Ok reply /\
    client_decode key reply = Ok (tabulate (2 ^ L) (record key db i)).
Proof.
  intros k q L t key F fuel ty lv log_t logT seeds i seed seed_e keys query db EK Hk Hv Hvq HF Hlt Et Htq Hlv Hdb Hsz Fdb Hi Hm Hq EKeys EQuery.
  destruct (C84_lookup k q L t key F fuel ty lv log_t logT seeds [Z.of_nat i] seed seed_e keys query db EK Hk Hv Hvq HF Hlt Et Htq Hlv Hdb Hsz Fdb) as (r & Er & Dr);
    try assumption.
  { intros j [<-|[]]. lia. }
  exists r. split; [exact Er|]. rewrite Dr. f_equal. unfold tabulate. apply map_ext_in. intros l Hl. apply in_seq in Hl. unfold wanted_sum.
  rewrite (zsum_single (length db) i); [|exact Hi|].
  - cbn [existsb]. rewrite Z.eqb_refl. cbn [orb]. apply Z.mod_small, Hm. lia.
  - intros j Hj Ne. cbn [existsb]. destruct (Z.eqb_spec (Z.of_nat j) (Z.of_nat i)); [lia|reflexivity].
Qed.

(** *** A concrete case: degree 4, q = 786433, t = 3, five records, two levels
    (so two ciphertexts in the query) *)
Definition np4 : nttp := Eval vm_compute in match init_ntt pr 2 with Ok np => np | _ => Build_nttp 0 0 [] [] [] [] [] end.
Lemma np4_for : ntt_for pr 2 np4.
Proof. split; [exact (proj1 npr_for)|vm_compute; reflexivity]. Qed.
Definition key4 : skey := Eval vm_compute in match key_sample toy 2 1 1 pr np4 12345 with Ok (key, _) => key | _ => keyr end.
Lemma key4_ok : enc_key 32 786433 2 3 key4.
Proof.
  destruct (key_sample toy 2 1 1 pr np4 12345) as [[key s']| |] eqn:E.
  2,3: vm_compute in E; discriminate E.
  assert (Ek : key = key4) by (vm_compute in E; injection E as <- _; reflexivity). rewrite <- Ek.
  exact (proj1 (C26_sampled_key 32 786433 pr np4 2 toy 1 1 12345 key s' pr_for np4_for toy_ok ltac:(lia) ltac:(lia) ltac:(lia) ltac:(lia) E)).
Qed.
Definition db4 : list poly := Eval vm_compute in
  map (fun l => match convert_to_ntt pr np4 (map (import_int pr) l) with Ok a => a | _ => [] end)
    [[1; 2; 0; 1]; [0; 0; 2; 1]; [2; 2; 2; 2]; [1; 0; 0; 1]; [0; 1; 2; 0]].
Definition seeds4 (i : nat) : list Z * list Z := ([Z.of_nat i + 40], [Z.of_nat i + 50]).
Definition keys4 : list ser_relin := Eval vm_compute in match client_keys toys 100 key4 1 2 4 seeds4 with Ok m => m | _ => [] end.
Definition query4 : list ser_poly := Eval vm_compute in match client_query toys 100 key4 1 2 1 5 [4] [7] [8] with Ok m => m | _ => [] end.
Lemma keys4_ok : client_keys toys 100 key4 1 2 4 seeds4 = Ok keys4.
Proof. vm_compute. reflexivity. Qed.
Lemma query4_ok : client_query toys 100 key4 1 2 1 5 [4] [7] [8] = Ok query4.
Proof. vm_compute. reflexivity. Qed.
Lemma db4_ok : Forall (ntt_poly pr 2) db4.
Proof. repeat constructor; vm_compute; discriminate. Qed.
Lemma db4_coeffs : map (fun a => tabulate 4 (coeff pr np4 a)) db4 = [[1; 2; 0; 1]; [0; 0; 2; 1]; [2; 2; 2; 2]; [1; 0; 0; 1]; [0; 1; 2; 0]].
Proof. vm_compute. reflexivity. Qed.
Lemma error4 : 2 * lookup_error 2 3 key4 2 4 db4 < 786433.
Proof. vm_compute. reflexivity. Qed.

Example C84_example :
  length keys4 = 2%nat /\ length query4 = 2%nat /\
  exists reply, server_reply toys 100 pr np4 1 2 keys4 query4 [7] db4 = Ok reply /\ client_decode key4 reply = Ok [0; 1; 2; 0].
Proof.
  split; [reflexivity|]. split; [reflexivity|].
  assert (R : tabulate (2 ^ 2) (record key4 db4 4) = [0; 1; 2; 0]) by (change (nth 4 (map (fun a => tabulate 4 (coeff pr np4 a)) db4) [] = [0; 1; 2; 0]); rewrite db4_coeffs; reflexivity).
  rewrite <- R.
  apply (C84_single 32 786433 2 3 key4 toys 100 1 2 1 4 seeds4 4 [7] [8] keys4 query4 db4 key4_ok).
  - lia.
  - discriminate.
  - discriminate.
  - exact toy_ok.
  - lia.
  - reflexivity.
  - lia.
  - lia.
  - cbn. lia.
  - discriminate.
  - exact db4_ok.
  - cbn. lia.
  - intros l Hl. assert (G : Forall (fun c => 0 <= c < 3) (tabulate (2 ^ 2) (record key4 db4 4))) by (rewrite R; repeat constructor; lia).
  rewrite Forall_forall in G. apply G. unfold tabulate. apply in_map, in_seq. lia.
  - exact error4.
  - exact keys4_ok.
  - exact query4_ok.
Qed.

Print Assumptions C84_lookup.
Print Assumptions C84_single.
