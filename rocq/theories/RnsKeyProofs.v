(** RNS secret keys: sampling, encryption, decryption. *)
From Coq Require Import Setoid Ring Znumtheory.
From Verif Require Import Base FinSum PolySpec Ring NegRing SymSpec Montgomery MontBatch MontBatchProofs Prng Sampling SampleSpec ThmSample
  Spec RnsPoly RnsSpec CrtMath RnsSub RnsProofs RnsReduce RnsBasis RnsBasis2 RnsMore RnsCtx RnsCt RnsCtSpec RnsCtProofs RnsEncode RnsKey RnsKeySpec Gauss GaussSpec ZLemmas.
Local Notation zsum := FinSum.zsum.

Lemma centered_le q e : 0 < q -> Z.abs (centered q e) <= Z.abs e.
Proof.
  intros Hq. destruct (Z.le_gt_cases (Z.abs (centered q e)) (Z.abs e)) as [|H]; [assumption|exfalso].
  pose proof (centered_fits q e Hq) as F. pose proof (centered_cong q e) as [y Ey]. unfold fits in F.
  assert (y = 0) by nia. lia.
Qed.

Section Key.
Variables (k : Z) (L : nat) (ms : list pmod).
Hypothesis OK : moduli_ok k L ms.
Hypothesis NE : ms <> [].
Local Notation n := (2 ^ L)%nat.
Local Notation Q := (big_q ms).
Local Lemma HnK : (0 < n)%nat.
Proof. apply (Hn L). Qed.
Add Ring NRK : (neg_ring Q n HnK) (setoid (pcong_equiv Q n) (neg_ring_ext Q n)).

(** rns_is up to congruence modulo Q *)
Lemma rns_pcong ntt a f g : rns_is ms L ntt a f -> pcong Q n f g -> rns_is ms L ntt a g.
Proof.
  intros H E. apply (rns_ext k L ms OK ntt a f g H). intros m i I Hi. destruct (E i Hi) as [y Ey].
  pose proof (hat_of_mul k L ms OK m I) as M. exists (y * hat_of ms m). rewrite Ey, <- M. ring.
Qed.

Section Sampling.
Variable R : prng.
Hypothesis HR : prng_ok R.

Lemma sample_err_is v s a s' : rns_sample_error R (Z.of_nat L) v ms s = Ok (a, s') ->
  variance_fits v ms ->
  0 < v <= 256 /\ exists e, bounded n (2 * v) e /\ rns_is ms L true a e.
Proof.
  intros E H0. pose proof (ok_L k L ms OK NE) as RL. unfold rns_sample_error in E.
  destruct (Z.leb_spec (Z.of_nat L) 0); [lia|]. destruct (Z.leb_spec v 0); [discriminate|].
  destruct ms as [|m0 t] eqn:Em; [discriminate|]. rewrite <- Em in *.
  rewrite (shl_int_ok k L ms OK NE) in E. cbn [bind] in E. rewrite Em in H0. cbn [variance_fits] in H0.
  assert (O0 : mod_ok k L m0) by (apply (moduli_in _ _ _ _ OK); rewrite Em; left; reflexivity).
  pose proof (ok_for k L m0 O0) as PF. pose proof (ok_q k L m0 O0) as Q1.
  destruct (sample_error R (pm_p m0) n v s) as [[xs s1]| |] eqn:Es; try discriminate. cbn [bind] in E.
  destruct (C24_error_bounded k _ _ R n v s xs s1 PF HR ltac:(lia) H0 Es) as (Hv & Lx & Rx & Bx).
  destruct (convert_balanced_is k L ms OK NE _ _ xs PF Lx) as (c & Ec & Hc).
  { eapply Forall_impl; [|exact Rx]. intros x Hx. unfold reduced, stored in *. lia. }
  rewrite Ec in E. cbn [bind] in E. injection E as <- _. split; [lia|].
  eexists. split; [|exact Hc]. intros i Hi. cbv beta. rewrite <- Lx in Hi.
  rewrite Forall_forall in Bx. destruct (Bx (nth i xs 0) ltac:(apply nth_In; exact Hi)) as (e & Be & ->).
  assert (EC : centered (modulus m0) (e mod modulus m0) = centered (modulus m0) e).
  { unfold centered. rewrite Zmod_mod. reflexivity. }
  rewrite EC. pose proof (centered_le (modulus m0) e ltac:(lia)). lia.
Qed.
End Sampling.

(** what encryption does after the noisy message h is formed *)
Lemma mask_gives s a f c h key : rns_is ms L true a f -> rns_is ms L true c h -> rns_is ms L true key s -> k <> 16 ->
  exists c0 c1, rns_fused_mul_add c a key ms = Ok c0 /\ rns_neg_in_place a ms = Ok c1 /\
    rns_is ms L true c1 (popp f) /\ ciphertext ms L s 2 1 (rct_make [c0; c1] ms 1) h.
Proof.
  intros Ha Hc Hk K. destruct (rns_fused_is k L ms OK c a key h f s K Hc Ha Hk) as (c0 & E0 & H0).
  destruct (rns_neg_is k L ms OK true a f Ha) as (c1 & E1 & H1). exists c0, c1.
  split; [exact E0|]. split; [exact E1|]. split; [exact H1|].
  split; [reflexivity|]. split; [reflexivity|]. split; [reflexivity|].
  exists [padd h (negacyclic n f s); popp f]. split; [constructor; [exact H0|constructor; [exact H1|constructor]]|].
  change (Z.to_nat 1) with 1%nat. rewrite (phase_cons Q n HnK), (phase_cons Q n HnK), (phase_nil Q n), (subst_one Q n HnK s). ring.
Qed.

(** a uniform sample represents some polynomial *)
Lemma uniform_is R fuel s a s' : distinct ms -> rns_sample_uniform R fuel (Z.of_nat L) ms s = Ok (a, s') ->
  exists f, (forall i, 0 <= f i < Q) /\ rns_is ms L true a f.
Proof.
  intros DI E. destruct (sample_ok k L ms OK NE R fuel s a s' E) as [P N].
  destruct (rns_exists k L ms OK DI a P) as (f & B & H). rewrite N in H. exists f. auto.
Qed.

(** ** Decryption *)
Lemma raw_ok key s : rns_is ms L true key s -> forall cs ds i sp out h, Forall2 (rns_is ms L true) cs ds ->
  (1 <= i)%nat -> rns_is ms L true sp (npow n s (Nat.max 1 (i - 1))) -> rns_is ms L true out h ->
  is_rns ms L true (raw_loop key ms cs i sp out) (padd h (negacyclic n (npow n s i) (phase_of n s ds))).
Proof.
  intros Hk cs ds i sp out h HF. revert i sp out h. induction HF as [|c d cs ds Hc HF IH]; intros i sp out h Hi Hs Ho; cbn [raw_loop].
  - exists out. split; [reflexivity|]. apply (rns_pcong true out h _ Ho). rewrite (phase_nil Q n). ring.
  - assert (Hsp : exists sp', (if (1 <? i)%nat then rns_mul sp key ms else Ok sp) = Ok sp' /\ rns_is ms L true sp' (npow n s i)).
    { destruct (Nat.ltb_spec 1 i).
      - destruct (rns_mul_is k L ms OK sp key _ s Hs Hk) as (y & E & Hy). exists y. split; [exact E|].
        replace (Nat.max 1 (i - 1)) with (i - 1)%nat in Hy by lia.
        replace (npow n s i) with (npow n s (S (i - 1))) by (f_equal; lia). exact Hy.
      - exists sp. split; [reflexivity|]. replace i with 1%nat in * by lia. exact Hs. }
    destruct Hsp as (sp' & -> & Hsp). cbn [bind]. destruct (Nat.ltb_spec 0 i); [|lia].
    destruct (rns_mul_is k L ms OK c sp' d _ Hc Hsp) as (y & -> & Hy). cbn [bind].
    destruct (rns_add_is k L ms OK true out y h _ Ho Hy) as (o' & -> & Ho'). cbn [bind].
    destruct (IH (S i) sp' o' _ ltac:(lia) ltac:(replace (Nat.max 1 (S i - 1)) with i by lia; exact Hsp) Ho') as (r & E & Hr).
    exists r. split; [exact E|]. apply (rns_pcong true r _ _ Hr).
    change (fun i0 => h i0 + negacyclic n d (npow n s i) i0) with (padd h (negacyclic n d (npow n s i))).
    rewrite (phase_cons Q n HnK s d ds), (npow_succ Q n HnK s i). ring.
Qed.

Lemma raw_decrypt_is key s x w len : rsk_ms key = ms -> rns_is ms L true (rsk_key key) s -> ciphertext ms L s len 1 x w ->
  is_rns ms L true (rsk_raw_decrypt key x) w.
Proof.
  intros K1 K2 (X1 & X2 & X3 & cs & Hc & Hp). unfold rsk_raw_decrypt. rewrite K1. rewrite (proj1 K2).
  destruct (rns_zero_is k L ms OK true NE) as (z & E & Hz). rewrite E. cbn [bind].
  assert (Hp' : pcong Q n (phase_of n s cs) w).
  { rewrite <- Hp. change (Z.to_nat 1) with 1%nat. apply phase_cong; [exact HnK|symmetry; apply (subst_one Q n HnK)|].
    clear. induction cs; constructor; [reflexivity|assumption]. }
  inversion Hc as [E1 E2|c d c' d' Hcd Hcs E1 E2]; cbn [raw_loop].
  - exists z. split; [reflexivity|]. apply (rns_pcong true z _ _ Hz). rewrite <- Hp', <- E2. rewrite (phase_nil Q n). reflexivity.
  - change (1 <? 0)%nat with false. change (0 <? 0)%nat with false. cbn [bind].
    destruct (rns_add_is k L ms OK true z c _ d Hz Hcd) as (o & Eo & Ho). rewrite Eo. cbn [bind].
    destruct (raw_ok (rsk_key key) s K2 c' d' 1%nat (rsk_key key) o (fun i => 0 + d i) Hcs (le_n 1)) as (r & Er & Hr).
    { cbn [Nat.max Nat.sub]. apply (rns_pcong true _ _ _ K2). cbn [npow]. rewrite (neg_one Q n HnK). reflexivity. }
    { exact Ho. }
    exists r. split; [exact Er|]. apply (rns_pcong true r _ _ Hr). rewrite <- Hp', <- E2.
    rewrite (phase_cons Q n HnK s d d'). change (fun i => 0 + d i) with (padd pzero d). cbn [npow]. rewrite (neg_one Q n HnK). ring.
Qed.
End Key.

(** The two encryption functions. *)
Section Encrypt.
Variables (k : Z) (L : nat) (ms : list pmod).
Hypothesis OK : moduli_ok k L ms.
Hypothesis NE : ms <> [].
Hypothesis DI : distinct ms.
Hypothesis K16 : k <> 16.
Local Notation n := (2 ^ L)%nat.

Lemma mask_ok s a h c key : rns_poly ms L a -> rp_ntt a = true -> rns_is ms L true c h -> rns_is ms L true key s ->
  exists c0 c1, rns_fused_mul_add c a key ms = Ok c0 /\ rns_neg_in_place a ms = Ok c1 /\ masked ms L s (rct_make [c0; c1] ms 1) a h.
Proof.
  intros Pa Na Hc Hk. destruct (rns_exists k L ms OK DI a Pa) as (f & _ & Hf). rewrite Na in Hf.
  destruct (mask_gives k L ms OK s a f c h key Hf Hc Hk K16) as (c0 & c1 & E0 & E1 & H1 & Hx).
  exists c0, c1. split; [exact E0|]. split; [exact E1|]. split; [exact Hx|]. exists f, c1. split; [exact Hf|].
  split; [reflexivity|exact H1].
Qed.
End Encrypt.

(** An RNS polynomial in coefficient form built from residues of each value. *)
Lemma create_residues k L ms (g : pmod -> Z -> Z) (h : Z -> Z) xs : moduli_ok k L ms -> ms <> [] -> length xs = (2 ^ L)%nat ->
  (forall m x, In m ms -> In x xs -> residue m (g m x) (h x)) ->
  is_rns ms L false (rns_create (map (fun m => map (g m) xs) ms) false) (fun i => h (nth i xs 0)).
Proof.
  intros OK NE Lx H. exists {| rp_logn := L; rp_vs := map (fun m => map (g m) xs) ms; rp_ntt := false |}. split.
  - apply create_iff. exists L. split; [destruct ms; [contradiction|discriminate]|]. split; [|reflexivity].
    apply Forall_forall. intros v Hv. apply in_map_iff in Hv. destruct Hv as (m & <- & _). rewrite map_length. exact Lx.
  - split; [reflexivity|]. split; [reflexivity|]. cbn [rp_vs]. apply map_forall. intros m I.
    assert (R : forall i, (i < 2 ^ L)%nat -> residue m (nth i (map (g m) xs) 0) (h (nth i xs 0))).
    { intros i Hi. rewrite <- Lx in Hi. rewrite (nth_indep _ 0 (g m 0)) by (rewrite map_length; exact Hi). rewrite map_nth.
      apply H; [exact I|apply nth_In, Hi]. }
    split; [split; [rewrite map_length; exact Lx|]|intros i Hi; apply (R i Hi)].
    apply Forall_forall. intros w Hw. apply in_map_iff in Hw. destruct Hw as (x & <- & Ix). apply (H m x I Ix).
Qed.

(** Residues of a Gaussian sample. *)
Lemma gauss_residue_ok k L m c : mod_ok k L m -> 0 <= c < 2 ^ k -> residue m (gauss_residue k m c) (read_signed k c).
Proof.
  intros O Hc. pose proof (ok_q k L m O) as Q1. pose proof (ok_qk k L m O) as Qk.
  unfold gauss_residue, read_signed. change (pm_q m) with (modulus m) in *.
  destruct (Z.ltb_spec ((2 ^ k - 1) / 2) c) as [H|H]; [|apply (residue_import k L m O c Hc)].
  assert (C0 : 0 < c). { assert (0 <= (2 ^ k - 1) / 2) by (apply Z.div_pos; lia). lia. }
  assert (E1 : wrap k (- c) = 2 ^ k - c). { unfold wrap. symmetry. apply (Z.mod_unique _ _ (-1)); lia. }
  rewrite E1. pose proof (Z.mod_pos_bound (2 ^ k - c) (modulus m) ltac:(lia)) as B.
  rewrite wrap_small by lia.
  eapply (residue_ext k L m O); [apply (residue_import k L m O); lia|].
  rewrite cong_mod. exists 1. ring.
Qed.

Lemma draw_gauss_ok R D k (g : sampler D) sd iters n s xs s' : draw_gauss R D k g sd iters n s = Ok (xs, s') ->
  length xs = n /\ (0 < k -> (forall x s s', sample_with_iterations D R k g sd iters s = Ok (x, s') -> 0 <= x < 2 ^ k) ->
    Forall (fun x => 0 <= x < 2 ^ k) xs).
Proof.
  revert s xs s'. induction n as [|n IH]; intros s xs s' E; cbn [draw_gauss] in E.
  - injection E as <- _. split; [reflexivity|constructor].
  - destruct (sample_with_iterations D R k g sd iters s) as [[x s1]| |] eqn:E1; try discriminate. cbn [bind] in E.
    destruct (draw_gauss R D k g sd iters n s1) as [[ys s2]| |] eqn:E2; try discriminate. cbn [bind] in E. injection E as <- _.
    destruct (IH _ _ _ E2) as [L1 F]. split; [cbn; congruence|]. intros K H. constructor; [eapply H, E1|apply F; assumption].
Qed.

Lemma gauss_word R D k (g : sampler D) sd iters s x s' : 0 < k -> sample_with_iterations D R k g sd iters s = Ok (x, s') -> 0 <= x < 2 ^ k.
Proof.
  intros K. unfold sample_with_iterations, sample_base. destruct (f_lt D sd (g_s_base g)); [discriminate|]. destruct (iters <? 0); [discriminate|].
  assert (P : 0 < 2 ^ k) by (apply Z.pow_pos_nonneg; lia).
  destruct (iters =? 0).
  - destruct (pr_rand64 R s) as [[u s1]| |]; try discriminate. cbn [bind]. intros [= <- _]. apply Z.mod_pos_bound, P.
  - destruct (sample_i D R k g iters s) as [[[x1 a1] s1]| |]; try discriminate. cbn [bind].
    destruct (sample_i D R k g iters s1) as [[[x2 a2] s2]| |]; try discriminate. cbn [bind]. cbv zeta.
    destruct (f_to_unsigned D k _) as [zi| |]; try discriminate. cbn [bind]. destruct (f_to_unsigned D k _) as [zj| |]; try discriminate. cbn [bind].
    destruct (mul_int k zi x1) as [y1| |]; try discriminate. cbn [bind]. destruct (mul_int k zj x2) as [y2| |]; try discriminate. cbn [bind].
    intros [= <- _]. apply Z.mod_pos_bound, P.
Qed.
