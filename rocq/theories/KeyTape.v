(** Proofs for C98. *)
From Coq Require Import Setoid Ring Znumtheory Lia Arith.
From Verif Require Import Base FinSum BitsUtil Montgomery MontBatch Ntt Poly PolyExt Prng Sampling SampleSpec ZLemmas MontgomeryProofs Spec ArithFacts
  PolySpec Ring NegRing SymSpec MontBatchProofs SampleProofs SampleErrProofs ThmArith ThmSample Relin RnsPoly RnsSpec RnsSub RnsProofs RnsReduce RnsBasis RnsBasis2 RnsMore
  RnsCt RnsCtSpec RnsCtProofs RnsEncode RnsKey RnsKeySpec RnsKeyProofs RnsGadget RnsGadgetSpec RnsGadgetProofs RnsSwitchSpec RnsSwitchProofs
  RnsPub DistSpec DistProofs TapeSpec TapeProofs TapeRns EndSpec EndProofs PubTapeSpec PubTape KeyTapeSpec.
Local Notation tapes N := (repeat 8 N).
Local Opaque error_widths error_count.

Lemma map2_app {A B C} (f : A -> B -> C) : forall a a' b b', length a = length b -> map2 f (a ++ a') (b ++ b') = map2 f a b ++ map2 f a' b'.
Proof. induction a as [|x a IH]; intros a' [|y b] b' E; try discriminate E; [reflexivity|]. cbn. rewrite IH by (cbn in E; lia). reflexivity. Qed.

(** ** rounds *)
Lemma over_rounds_ext v n d : forall F F', (forall es, rounds v n d es -> F es = F' es) -> over_rounds v n d F = over_rounds v n d F'.
Proof.
  induction d as [|d IH]; intros F F' H; cbn [over_rounds]; [apply H; split; [reflexivity|constructor]|].
  apply over_errors_ext. intros e He. apply IH. intros es [E1 E2]. apply H. split; [cbn; lia|constructor; assumption].
Qed.
Lemma over_rounds_mul v n c d : forall F, over_rounds v n d (fun es => F es * c) = over_rounds v n d F * c.
Proof.
  induction d as [|d IH]; intros F; [reflexivity|]. cbn [over_rounds]. rewrite <- over_errors_mul. apply over_errors_ext. intros e _. apply IH.
Qed.

Section Loop.
Variable R : prng.
Variables (log_n v : Z) (ms : list pmod).
(** sample an error polynomial for each function of the list, and apply it *)
Fixpoint post_loop (posts : list (rpoly -> result rpoly)) (s : pr_st R) : result (list rpoly * pr_st R) :=
  match posts with
  | [] => Ok ([], s)
  | f :: posts =>
      do! ' (b, s) <- rns_sample_error R log_n v ms s;
      do! b <- f b;
      do! ' (bs, s) <- post_loop posts s;
      Ok (b :: bs, s)
  end.
Lemma post_app p1 : forall p2 s, post_loop (p1 ++ p2) s = do! ' (b1, s) <- post_loop p1 s; do! ' (b2, s) <- post_loop p2 s; Ok (b1 ++ b2, s).
Proof.
  induction p1 as [|f p1 IH]; intros p2 s; cbn [app post_loop bind].
  - destruct (post_loop p2 s) as [[b2 s']| |]; reflexivity.
  - destruct (rns_sample_error R log_n v ms s) as [[b s1]| |]; try reflexivity. cbn [bind]. destruct (f b) as [c| |]; try reflexivity. cbn [bind]. rewrite IH.
    destruct (post_loop p1 s1) as [[b1 s2]| |]; try reflexivity. cbn [bind]. destruct (post_loop p2 s2) as [[b2 s3]| |]; reflexivity.
Qed.
End Loop.

Section Keys.
Variables (k : Z) (L : nat) (m0 : pmod) (ms' : list pmod).
Local Notation ms := (m0 :: ms').
Local Notation n := (2 ^ L)%nat.
Local Notation p0 := (pm_p m0).
Local Notation is := (rns_is ms L true).
Hypothesis OK : moduli_ok k L ms.
Variables (v t : Z).
Hypothesis Hv : 0 < v <= 256.
Hypothesis Hq : 4 * v < modulus m0.
Local Notation w := (nbytes (error_widths 24 (2 * v))).

(** f adds the polynomial h to t times its argument *)
Definition post_ok (f : rpoly -> result rpoly) (h : nat -> Z) : Prop := forall c e, is c e -> is_rns ms L true (f c) (fun i => t * e i + h i).

Definition finish (f : rpoly -> result rpoly) (e : list Z) : rpoly :=
  match (do! c <- rns_convert_balanced (res0 m0 e) p0 ms; f c) with Ok c => c | _ => mk 0 [] end.
Definition finish_all (posts : list (rpoly -> result rpoly)) (es : list (list Z)) : list rpoly := map2 finish posts es.

Lemma finish_ok f h e : post_ok f h -> errors v n e -> exists c, rns_convert_balanced (res0 m0 e) p0 ms = Ok c /\ f c = Ok (finish f e) /\
  is (finish f e) (fun i => t * nth i e 0 + h i).
Proof.
  intros Hf [Le Fe]. destruct (res0_ok k L m0 ms' OK v e Hq Le Fe) as [X S]. destruct (balanced_ok k L m0 ms' OK v _ X) as (c & Ec & Hc). rewrite S in Hc.
  destruct (Hf c _ Hc) as (d & Ed & Hd). exists c. unfold finish. rewrite Ec. cbn [bind]. rewrite Ed. split; [reflexivity|]. split; [reflexivity|exact Hd].
Qed.

Lemma post_avg posts : forall hs, Forall2 post_ok posts hs -> forall K N, (length posts * error_bytes v n <= N)%nat ->
  ex N (post_loop tape (Z.of_nat L) v ms posts) K =
  over_rounds v n (length posts) (fun es => over (tapes (N - length posts * error_bytes v n)) (K (finish_all posts es))).
Proof.
  pose proof (ok_for k L m0 (Forall_inv OK)) as PF. assert (V0 : 0 <= v <= 256) by lia.
  pose proof (errors_avg k (modulus m0) p0 v PF V0 Hq) as AV. unfold error_bytes.
  induction posts as [|f posts IH]; intros hs HF K N HN; inversion HF as [|? h ? hs' Hf HF']; subst.
  - cbn [length Nat.mul over_rounds]. rewrite Nat.sub_0_r. reflexivity.
  - transitivity (ex N (sample_error tape p0 n v) (fun xs s => match (do! c <- rns_convert_balanced xs p0 ms; f c) with
      | Ok b => runs (post_loop tape (Z.of_nat L) v ms posts) (fun bs s => K (b :: bs) s) s | _ => 0 end)).
    + apply ex_eq. intros ds. cbn [post_loop]. rewrite (error_eq k L m0 ms' OK v ds (proj1 Hv)). destruct (sample_error tape p0 n v ds) as [[xs s]| |]; try reflexivity. cbn [bind].
      destruct (rns_convert_balanced xs p0 ms) as [c| |]; try reflexivity. cbn [bind]. destruct (f c) as [b| |]; try reflexivity. cbn [bind]. unfold runs.
      change (pr_st tape) with (list Z). destruct (post_loop tape (Z.of_nat L) v ms posts s) as [[bs s']| |]; reflexivity.
    + rewrite AV. cbn [length] in HN |- *. destruct (Nat.leb_spec (n * w) N) as [N1|N1]; [|cbn [Nat.mul] in HN; lia]. cbn [over_rounds]. apply (over_errors_ext v n). intros e He.
      destruct (finish_ok f h e Hf He) as (c & Ec & Ef & _). change (map (imp p0) e) with (res0 m0 e). rewrite Ec. cbn [bind]. rewrite Ef.
      rewrite over_runs, (IH hs' HF') by (cbn [Nat.mul] in HN; lia). replace (N - S (length posts) * (n * w))%nat with (N - n * w - length posts * (n * w))%nat by (cbn [Nat.mul]; lia). reflexivity.
Qed.

Lemma over_rounds_one d : over_rounds v n d (fun _ => 1) = 256 ^ Z.of_nat (d * error_bytes v n).
Proof.
  pose proof (ok_for k L m0 (Forall_inv OK)) as PF.
  assert (ONE : over_errors v n (fun _ => 1) = 256 ^ Z.of_nat (error_bytes v n)).
  { pose proof (errors_avg k (modulus m0) p0 v PF ltac:(lia) Hq n (fun _ _ => 1) (n * w)) as E.
    pose proof (errors_total k (modulus m0) p0 v PF ltac:(lia) Hq (fun _ => 1) n (n * w)) as E'. pose proof (eq_trans (eq_sym E) E') as X. clear E E'. rename X into E'.
    rewrite Nat.leb_refl, Nat.sub_diag in E'. cbn [repeat over] in E'. unfold error_bytes. rewrite E'. ring. }
  induction d as [|d IH]; [reflexivity|]. cbn [over_rounds]. rewrite IH.
  rewrite (over_errors_ext v n _ (fun _ => 1 * 256 ^ Z.of_nat (d * error_bytes v n))) by (intros; ring). rewrite over_errors_mul, ONE.
  rewrite <- Z.pow_add_r by lia. f_equal. lia.
Qed.

(** the count of tapes that pass a test on the results *)
Lemma post_count {A} posts hs (mk : list rpoly -> A) (call : list Z -> result A) (test : A -> bool) N : Forall2 post_ok posts hs -> (length posts * error_bytes v n <= N)%nat ->
  (forall ds, call ds = do! ' (bs, _) <- post_loop tape (Z.of_nat L) v ms posts ds; Ok (mk bs)) ->
  count_tapes N (fun ds => succeeds test (call ds)) =
  over_rounds v n (length posts) (fun es => Z.b2z (test (mk (finish_all posts es)))) * 256 ^ Z.of_nat (N - length posts * error_bytes v n).
Proof.
  intros HF HN EC. unfold count_tapes, count_scripts.
  transitivity (ex N (post_loop tape (Z.of_nat L) v ms posts) (fun bs _ => Z.b2z (test (mk bs)))).
  - unfold ex. apply over_ext; [|apply tapes_nonneg]. intros ds _. rewrite EC. destruct (post_loop tape (Z.of_nat L) v ms posts ds) as [[bs s]| |]; reflexivity.
  - rewrite (post_avg posts hs HF _ N HN). rewrite <- over_rounds_mul. apply over_rounds_ext. intros es _. rewrite <- over_ones, <- over_mul. apply over_ext; [|apply tapes_nonneg]. intros; lia.
Qed.

Lemma finish_nth posts : forall hs, Forall2 post_ok posts hs -> forall es, rounds v n (length hs) es ->
  length (finish_all posts es) = length hs /\ forall j b h e, nth_error (finish_all posts es) j = Some b -> nth_error hs j = Some h -> nth_error es j = Some e ->
  is b (fun i => t * nth i e 0 + h i).
Proof.
  intros hs H. induction H as [|f h posts hs Hf H IH]; intros es [Le Fe].
  - destruct es; [|discriminate Le]. split; [reflexivity|]. intros [|j]; intros; discriminate.
  - destruct es as [|e es]; [discriminate Le|]. inversion Fe as [|? ? He Fe']; subst. destruct (IH es) as [IL IJ]; [split; [cbn in Le; lia|exact Fe']|].
    cbn [finish_all map2 length] in *. split; [f_equal; exact IL|]. intros [|j] b h' e' Hb Hh He'; [|exact (IJ j b h' e' Hb Hh He')].
    cbn [nth_error] in Hb, Hh, He'. injection Hb as <-. injection Hh as <-. injection He' as <-. destruct (finish_ok f h e Hf He) as (c & _ & _ & X). exact X.
Qed.

(** ** the loops of the keys *)
Variables (key : rpoly) (s : nat -> Z).
Hypothesis Hk : is key s.
Definition shift (hs fs : list (nat -> Z)) : list (nat -> Z) := map2 (fun h f i => h i - negacyclic n f s i) hs fs.

Lemma shift_len hs : forall fs, length hs = length fs -> length (shift hs fs) = length hs.
Proof. induction hs as [|h hs IH]; intros [|f fs] E; try discriminate E; [reflexivity|]. cbn in *. rewrite IH by lia. reflexivity. Qed.
Lemma shift_nth hs : forall fs j h f, nth_error hs j = Some h -> nth_error fs j = Some f -> nth_error (shift hs fs) j = Some (fun i => h i - negacyclic n f s i).
Proof.
  induction hs as [|h0 hs IH]; intros [|f0 fs] [|j] h f A B; try discriminate; cbn [shift map2 nth_error] in *; [injection A as <-; injection B as <-; reflexivity|exact (IH fs j h f A B)].
Qed.

Lemma finish_enc posts hs fs es : length hs = length fs -> Forall2 post_ok posts (shift hs fs) -> rounds v n (length hs) es ->
  encryptions ms L t s hs fs es (finish_all posts es).
Proof.
  intros El HF HE. rewrite <- (shift_len hs fs El) in HE. destruct (finish_nth posts _ HF es HE) as [FL FJ]. split; [rewrite FL; apply shift_len, El|].
  intros j b h f e Hb Hh Hf He. pose proof (FJ j b _ e Hb (shift_nth _ _ _ _ _ Hh Hf) He) as X. apply (rns_ext k L ms OK _ _ _ _ X). intros. apply cong_eq. ring.
Qed.

Let HnK : (0 < n)%nat. Proof. pose proof (Nat.pow_nonzero 2 L). lia. Qed.
Let QK := big_q ms.
Add Ring NRK : (neg_ring QK n HnK) (setoid (pcong_equiv QK n) (neg_ring_ext QK n)).

Lemma switch_posts R secret target : k <> 16 -> 0 <= t < 2 ^ k -> is secret target -> forall gs ws, Forall2 (residues ms) gs ws -> forall ppre pads ppost fs, Forall2 is pads fs -> length pads = length gs ->
  exists posts, Forall2 post_ok posts (shift (multiples ws target) fs) /\
    forall st, switch_loop R (Z.of_nat L) v t ms key secret (ppre ++ pads ++ ppost) (length ppre) gs st = post_loop R (Z.of_nat L) v ms posts st.
Proof.
  intros K16 Ht Hs. induction gs as [|g gs IH]; intros ws Hg ppre pads ppost fs Hp Lp.
  - inversion Hg; subst. exists []. split; [constructor|]. reflexivity.
  - inversion Hg as [|? x ? ws' Hg1 Hg2]; subst. destruct pads as [|a pads]; [discriminate|]. inversion Hp as [|? f ? fs' Hp1 Hp2]; subst.
    destruct (rns_mul_rnsint_is k L ms OK true secret target g x Hs Hg1) as (z & Ez & Hz).
    destruct (rns_neg_copy k L ms OK true a f Hp1) as (u & Eu & Hu).
    destruct (IH ws' Hg2 (ppre ++ [a]) pads ppost fs' Hp2 ltac:(cbn in Lp; lia)) as (posts & HF & EL).
    exists ((fun b => do! b <- rns_mul_scalar b t ms; do! b <- rns_add b z ms; rns_fused_mul_add b u key ms) :: posts). split.
    + constructor; [|exact HF]. intros c e Hc.
      destruct (rns_mul_scalar_is k L ms OK true c e t Hc Ht) as (b1 & E1 & H1). destruct (rns_add_is k L ms OK true b1 z _ _ H1 Hz) as (b2 & E2 & H2).
      destruct (rns_fused_is k L ms OK b2 u key _ _ s K16 H2 Hu Hk) as (b3 & E3 & H3). rewrite E1. cbn [bind]. rewrite E2. cbn [bind]. exists b3. split; [exact E3|].
      apply (rns_pcong k L ms OK true _ _ _ H3).
      change (pcong QK n (padd (padd (pscale t e) (pscale x target)) (negacyclic n (popp f) s)) (padd (pscale t e) (padd (pscale x target) (popp (negacyclic n f s))))). ring.
    + intros st. cbn [switch_loop post_loop]. rewrite Ez. cbn [bind app]. rewrite (get_app ppre a (pads ++ ppost)) by reflexivity. cbn [bind]. rewrite Eu. cbn [bind].
      destruct (rns_sample_error R (Z.of_nat L) v ms st) as [[b0 s1]| |]; try reflexivity. cbn [bind].
      destruct (rns_mul_scalar b0 t ms) as [b1| |]; try reflexivity. cbn [bind]. destruct (rns_add b1 z ms) as [b2| |]; try reflexivity. cbn [bind].
      destruct (rns_fused_mul_add b2 u key ms) as [b3| |]; try reflexivity. cbn [bind]. rewrite <- EL, <- app_assoc, app_length. cbn [app length].
      replace (length ppre + 1)%nat with (S (length ppre)) by lia. reflexivity.
Qed.

Lemma relin_posts R gs ws : k <> 16 -> 0 <= t < 2 ^ k -> Forall2 (residues ms) gs ws -> forall count i secret ppre pads fs, is secret (npow n s i) -> Forall2 is pads fs ->
  length pads = (count * length ws)%nat ->
  exists posts, Forall2 post_ok posts (shift (concat (map (fun j => multiples ws (npow n s j)) (seq (S i) count))) fs) /\
    forall st, relin_loop R (Z.of_nat L) v t ms key secret (ppre ++ pads) (length ppre) gs count st = do! ' (bs, _) <- post_loop R (Z.of_nat L) v ms posts st; Ok bs.
Proof.
  intros K16 Ht Hg. pose proof (Forall2_len _ _ _ Hg) as Lg. induction count as [|c IH]; intros i secret ppre pads fs Hs Hp Lp.
  - exists []. split; [constructor|]. reflexivity.
  - destruct (rns_mul_is k L ms OK secret key _ s Hs Hk) as (sec & Es & Hs'). change (negacyclic n (npow n s i) s) with (npow n s (S i)) in Hs'.
    pose (p1 := firstn (length ws) pads). pose (p2 := skipn (length ws) pads). assert (EP : pads = p1 ++ p2) by (unfold p1, p2; rewrite firstn_skipn; reflexivity).
    assert (L1 : length p1 = length ws) by (unfold p1; rewrite firstn_length; cbn [Nat.mul] in Lp; lia).
    assert (L2 : length p2 = (c * length ws)%nat) by (unfold p2; rewrite skipn_length; cbn [Nat.mul] in Lp; lia). clearbody p1 p2. subst pads.
    apply Forall2_app_inv_l in Hp. destruct Hp as (f1 & f2 & H1 & H2 & ->).
    destruct (switch_posts R sec _ K16 Ht Hs' gs ws Hg ppre p1 p2 f1 H1 ltac:(congruence)) as (q1 & HQ1 & E1).
    destruct (IH (S i) sec (ppre ++ p1) p2 f2 Hs' H2 L2) as (q2 & HQ2 & E2).
    exists (q1 ++ q2). split.
    + cbn [seq map concat]. unfold shift in *. rewrite map2_app.
      * apply Forall2_app; assumption.
      * unfold multiples. rewrite map_length, <- (Forall2_len _ _ _ H1). congruence.
    + intros st. cbn [relin_loop]. rewrite Es. cbn [bind]. rewrite E1, post_app. destruct (post_loop R (Z.of_nat L) v ms q1 st) as [[b1 s1]| |]; try reflexivity. cbn [bind].
      specialize (E2 s1). rewrite app_length, L1, <- app_assoc in E2. rewrite Lg, E2.
      destruct (post_loop R (Z.of_nat L) v ms q2 s1) as [[b2 s2]| |]; reflexivity.
Qed.
End Keys.

(** ** pads *)
Lemma pad_loop_len R fuel log_n ms d : forall s pads, pad_loop R fuel log_n ms d s = Ok pads -> length pads = d.
Proof.
  induction d as [|d IH]; intros s pads E; cbn [pad_loop] in E; [injection E as <-; reflexivity|].
  destruct (rns_sample_uniform R fuel log_n ms s) as [[a s1]| |]; try discriminate E. cbn [bind] in E.
  destruct (pad_loop R fuel log_n ms d s1) as [rest| |] eqn:Er; try discriminate E. cbn [bind] in E. injection E as <-. cbn [length]. f_equal. exact (IH s1 rest Er).
Qed.
Section Pads.
Variables (k : Z) (L : nat) (m0 : pmod) (ms' : list pmod) (fuel : nat).
Local Notation ms := (m0 :: ms').
Local Notation n := (2 ^ L)%nat.
Hypothesis OK : moduli_ok k L ms.
Fixpoint pads_weight (d N : nat) : Z := match d with O => 256 ^ Z.of_nat N | S d' => row_weights ms fuel n N (pads_weight d') end.

Lemma pads_count vss : Forall (residue_rows ms n) vss -> forall N,
  count_tapes N (fun ds => succeeds (gave_pads vss) (pad_loop tape fuel (Z.of_nat L) ms (length vss) ds)) = pads_weight (length vss) N.
Proof.
  intros H. unfold count_tapes, count_scripts. induction H as [|vs vss Hr _ IH]; intros N.
  - cbn [length pad_loop pads_weight]. rewrite <- over_ones. reflexivity.
  - cbn [length pads_weight]. rewrite <- (row_weights_ext fuel n _ _ IH). rewrite <- (row_weights_ok k L fuel n _ ms vs OK Hr). unfold ex. apply over_ext; [|apply tapes_nonneg]. intros ds _.
    cbn [pad_loop]. rewrite (uniform_eq k L m0 ms' OK). destruct (rns_sample_rows tape fuel n ms ds) as [[rows s]| |]; try reflexivity. cbn [bind].
    destruct (pad_loop tape fuel (Z.of_nat L) ms (length vss) s) as [rest| |]; cbn [bind succeeds]; try (rewrite Z.mul_0_r; reflexivity).
    unfold gave_pads, is_rows. cbn [map rp_vs mk].
    destruct (list_eq_dec (list_eq_dec Z.eq_dec) rows vs) as [->|NE].
    + destruct (list_eq_dec _ (map rp_vs rest) vss) as [E|E]; destruct (list_eq_dec _ (vs :: map rp_vs rest) (vs :: vss)) as [E'|E']; cbn; try reflexivity; exfalso; congruence.
    + destruct (list_eq_dec _ (rows :: map rp_vs rest) (vs :: vss)) as [E'|E']; [exfalso; congruence|]. destruct (list_eq_dec _ (map rp_vs rest) vss); reflexivity.
Qed.

Lemma pads_weight_nonneg d : forall N, 0 <= pads_weight d N.
Proof. induction d as [|d IH]; intros N; cbn [pads_weight]; [apply Z.pow_nonneg; lia|]. apply (row_weights_nonneg k L _ fuel n IH _ OK). Qed.
Lemma pads_weight_pos d : (1 <= fuel)%nat -> forall N, (d * row_bytes ms n <= N)%nat -> 0 < pads_weight d N.
Proof.
  intros Hf. induction d as [|d IH]; intros N HN; cbn [pads_weight]; [apply Z.pow_pos_nonneg; lia|].
  apply (row_weights_pos k L _ fuel n (d * row_bytes ms n) (pads_weight_nonneg d) IH Hf _ OK). cbn [Nat.mul] in HN. lia.
Qed.
End Pads.
