(** C98: the distribution of public keys, Galois keys and relinearization keys
    (rns/rns_public_key.cc, rns/rns_galois_key.cc, rns/rns_relinearization_key.cc).
    The two generators of a key read two tapes; the first gives the pads, the
    second the errors. *)
From Coq Require Import Setoid Ring Znumtheory Lia Arith.
From Verif Require Import Base FinSum BitsUtil Montgomery MontBatch Ntt Poly PolyExt Prng Sampling SampleSpec ZLemmas MontgomeryProofs Spec ArithFacts
  PolySpec Ring NegRing SymSpec MontBatchProofs SampleProofs SampleErrProofs ThmArith ThmSample Relin RnsPoly RnsSpec RnsSub RnsProofs RnsReduce RnsBasis RnsBasis2 RnsMore
  RnsCtx RnsCt RnsCtSpec RnsCtProofs RnsEncode RnsKey RnsKeySpec RnsKeyProofs RnsGadget RnsGadgetSpec RnsGadgetProofs RnsSwitchSpec RnsSwitchProofs
  RnsFloat RnsPub DistSpec DistProofs RnsExample TapeSpec TapeProofs TapeRns EndSpec EndProofs PubTapeSpec PubTape KeyTapeSpec KeyTape ThmTape ThmPubTape.
Local Opaque error_widths error_count.

(** The pads: every list of residue matrices is the outcome for the same number
    of tapes, and all are possible. *)
Theorem C98_pads :
  forall k L ms fuel ty, moduli_ok k L ms -> ms <> [] -> known_type ty = true ->
  (forall d vss vss' N, Forall (residue_rows ms (2 ^ L)) vss -> Forall (residue_rows ms (2 ^ L)) vss' -> length vss = d -> length vss' = d ->
     count_tapes N (fun ds => succeeds (gave_pads vss) (galois_pads tape_fam fuel d (Z.of_nat L) ms ds ty)) =
     count_tapes N (fun ds => succeeds (gave_pads vss') (galois_pads tape_fam fuel d (Z.of_nat L) ms ds ty)) /\
     ((1 <= fuel)%nat -> (d * row_bytes ms (2 ^ L) <= N)%nat ->
        0 < count_tapes N (fun ds => succeeds (gave_pads vss) (galois_pads tape_fam fuel d (Z.of_nat L) ms ds ty)))) /\
  (forall dim degree vss vss' N, (0 < L)%nat -> 0 < dim -> 1 < degree -> Forall (residue_rows ms (2 ^ L)) vss -> Forall (residue_rows ms (2 ^ L)) vss' ->
     Z.of_nat (length vss) = dim * (degree - 1) -> Z.of_nat (length vss') = dim * (degree - 1) ->
     count_tapes N (fun ds => succeeds (gave_pads vss) (relin_pads tape_fam fuel dim degree (Z.of_nat L) ms ds ty)) =
     count_tapes N (fun ds => succeeds (gave_pads vss') (relin_pads tape_fam fuel dim degree (Z.of_nat L) ms ds ty)) /\
     ((1 <= fuel)%nat -> (length vss * row_bytes ms (2 ^ L) <= N)%nat ->
        0 < count_tapes N (fun ds => succeeds (gave_pads vss) (relin_pads tape_fam fuel dim degree (Z.of_nat L) ms ds ty)))).
Proof.
  intros k L [|m0 ms'] fuel ty OK NE KT; [contradiction|]. split.
  - intros d vss vss' N R R' Ed Ed'. unfold galois_pads. rewrite KT. cbn [negb gf_start gf_prng tape_fam bind].
    pose proof (pads_count k L m0 ms' fuel OK vss R N) as C. pose proof (pads_count k L m0 ms' fuel OK vss' R' N) as C'. rewrite Ed in C. rewrite Ed' in C'.
    rewrite C, C'. split; [reflexivity|]. intros Hf HN. exact (pads_weight_pos k L m0 ms' fuel OK _ Hf N HN).
  - intros dim degree vss vss' N HL Hd Hg R R' E E'. unfold relin_pads. rewrite KT.
    destruct (Z.leb_spec dim 0); [lia|]. destruct (Z.leb_spec degree 1); [lia|]. destruct (Z.leb_spec (Z.of_nat L) 0); [lia|].
    cbn [negb gf_start gf_prng tape_fam bind]. assert (X : Z.to_nat (dim * (degree - 1)) = length vss) by lia. assert (X' : length vss' = length vss) by lia. rewrite X.
    pose proof (pads_count k L m0 ms' fuel OK vss R N) as C. pose proof (pads_count k L m0 ms' fuel OK vss' R' N) as C'. rewrite X' in C'.
    rewrite C, C'. split; [reflexivity|]. intros Hf HN. exact (pads_weight_pos k L m0 ms' fuel OK _ Hf N HN).
Qed.

(** A public key, given the pad u: for every test, the number of error tapes on
    which the key passes is the sum over all error polynomials e, with their
    binomial weights, of the test on (- u, u s + t e). *)
Theorem C98_public :
  forall k L ms fuel key sk v ty t seed u rest f, moduli_ok k L ms -> k <> 16 -> RnsKeySpec.key_is ms L key sk -> 0 < v <= 256 -> 4 * v < first_modulus ms ->
  0 <= t < 2 ^ k -> known_type ty = true -> rns_sample_uniform tape fuel (Z.of_nat L) ms seed = Ok (u, rest) -> rns_is ms L true u f ->
  exists pk : list Z -> rpkey,
    (forall e, errors v (2 ^ L) e ->
       rns_is ms L true (rpk_a (pk e)) (fun i => - f i) /\ rns_is ms L true (rpk_b (pk e)) (fun i => negacyclic (2 ^ L) f sk i + t * nth i e 0) /\
       rpk_ms (pk e) = ms /\ rpk_var (pk e) = v /\ rpk_seed (pk e) = seed /\ rpk_type (pk e) = ty) /\
    forall test N, (error_bytes v (2 ^ L) <= N)%nat ->
      count_tapes N (fun ds => succeeds test (rpk_create tape_fam fuel key v ty t seed ds)) =
      over_errors v (2 ^ L) (fun e => Z.b2z (test (pk e))) * 256 ^ Z.of_nat (N - error_bytes v (2 ^ L)).
Proof.
  intros k L [|m0 ms'] fuel key sk v ty t seed u rest f OK K16 (K1 & K2) Hv Hq Ht KT Eu Hf; [cbn [first_modulus] in Hq; lia|].
  destruct (rns_neg_is k L _ OK true u f Hf) as (a & Ea & Ha).
  pose (post := fun b => do! b <- rns_mul_scalar b t (m0 :: ms'); rns_fused_mul_add b u (rsk_key key) (m0 :: ms')).
  assert (HP : post_ok L m0 ms' t post (negacyclic (2 ^ L) f sk)).
  { intros c e Hc. destruct (rns_mul_scalar_is k L _ OK true c e t Hc Ht) as (b1 & E1 & H1). unfold post. rewrite E1. cbn [bind].
    exact (rns_fused_is k L _ OK b1 u (rsk_key key) _ f sk K16 H1 Hf K2). }
  assert (HF : Forall2 (post_ok L m0 ms' t) [post] [negacyclic (2 ^ L) f sk]) by (constructor; [exact HP|constructor]).
  pose (mkpk := fun bs : list rpoly => {| rpk_a := a; rpk_b := hd u bs; rpk_ms := m0 :: ms'; rpk_var := v; rpk_seed := seed; rpk_type := ty |}).
  exists (fun e => mkpk [finish m0 ms' post e]). split.
  - intros e He. cbn [mkpk rpk_a rpk_b rpk_ms rpk_var rpk_seed rpk_type hd]. split; [exact Ha|]. split; [|repeat split; reflexivity].
    destruct (finish_ok k L m0 ms' OK v t Hq post _ e HP He) as (c & _ & _ & X). apply (rns_ext k L _ OK _ _ _ _ X). intros. apply cong_eq. ring.
  - intros test N HN. assert (HN' : (length [post] * error_bytes v (2 ^ L) <= N)%nat) by (cbn [length Nat.mul]; lia).
    rewrite (post_count k L m0 ms' OK v t Hv Hq [post] _ mkpk _ test N HF HN').
    + cbn [length over_rounds finish_all map2 Nat.mul]. rewrite Nat.add_0_r. reflexivity.
    + intros ds. unfold rpk_create. destruct (Z.leb_spec v 0); [lia|]. rewrite KT. cbn [negb]. cbv zeta. rewrite K1, (proj1 K2).
      cbn [gf_start gf_prng tape_fam bind]. rewrite Eu. cbn [bind post_loop].
      destruct (rns_sample_error tape (Z.of_nat L) v (m0 :: ms') ds) as [[b0 s]| |]; try reflexivity. cbn [bind]. unfold post.
      destruct (rns_mul_scalar b0 t (m0 :: ms')) as [b1| |]; try reflexivity. cbn [bind]. destruct (rns_fused_mul_add b1 u (rsk_key key) (m0 :: ms')) as [b2| |]; try reflexivity.
      cbn [bind]. rewrite Ea. reflexivity.
Qed.

(** A Galois key, given its pads f_j: the other halves are t e_j + w_j s(X^power) - f_j s,
    for independent error polynomials e_j, one for each number w_j of the gadget. *)
Theorem C98_galois :
  forall k L ms fuel key sk power v g ws ty t seed pads fs, moduli_ok k L ms -> k <> 16 -> RnsKeySpec.key_is ms L key sk -> 0 < v <= 256 -> 4 * v < first_modulus ms ->
  0 <= t < 2 ^ k -> known_type ty = true -> 0 < power < 2 * Z.of_nat (2 ^ L) -> Z.odd power = true ->
  Forall2 (residues ms) (rg_gs g) ws -> rg_dimension g = length ws ->
  galois_pads tape_fam fuel (rg_dimension g) (Z.of_nat L) ms seed ty = Ok pads -> Forall2 (rns_is ms L true) pads fs ->
  exists gk : list (list Z) -> rgalois,
    (forall es, rounds v (2 ^ L) (length ws) es ->
       encryptions ms L t sk (multiples ws (substituted (2 ^ L) (Z.to_nat power) sk)) fs es (gk_bs (gk es)) /\
       gk_as (gk es) = pads /\ gk_g (gk es) = g /\ gk_pow (gk es) = power /\ gk_ms (gk es) = ms /\ gk_seed (gk es) = seed /\ gk_type (gk es) = ty) /\
    forall test N, (length ws * error_bytes v (2 ^ L) <= N)%nat ->
      count_tapes N (fun ds => succeeds test (galois_create tape_fam fuel key power v g ty t seed ds)) =
      over_rounds v (2 ^ L) (length ws) (fun es => Z.b2z (test (gk es))) * 256 ^ Z.of_nat (N - length ws * error_bytes v (2 ^ L)).
Proof.
  intros k L [|m0 ms'] fuel key sk power v g ws ty t seed pads fs OK K16 (K1 & K2) Hv Hq Ht KT Hp Ho HG HD Ep HP; [cbn [first_modulus] in Hq; lia|].
  assert (Lp : length pads = length ws).
  { rewrite <- HD. unfold galois_pads in Ep. rewrite KT in Ep. exact (pad_loop_len _ _ _ _ _ _ _ Ep). }
  destruct (rns_substitute_is k L _ OK (rsk_key key) sk power K2 Hp Ho) as (src & Es & Hs).
  destruct (switch_posts k L m0 ms' OK v t (rsk_key key) sk K2 tape src _ K16 Ht Hs (rg_gs g) ws HG [] pads [] fs HP) as (posts & HF & EL).
  { rewrite (Forall2_len _ _ _ HG). exact Lp. }
  assert (Lm : length (multiples ws (substituted (2 ^ L) (Z.to_nat power) sk)) = length fs) by (unfold multiples; rewrite map_length, <- (Forall2_len _ _ _ HP); congruence).
  assert (Lq : length posts = length ws) by (rewrite (Forall2_len _ _ _ HF), (shift_len L sk _ _ Lm); unfold multiples; apply map_length).
  pose (mkgk := fun bs => {| gk_as := pads; gk_bs := bs; gk_g := g; gk_pow := power; gk_ms := m0 :: ms'; gk_seed := seed; gk_type := ty |}).
  exists (fun es => mkgk (finish_all m0 ms' posts es)). split.
  - intros es HE. split; [|repeat split; reflexivity]. cbn [mkgk gk_bs].
    apply (finish_enc k L m0 ms' OK v t Hq sk posts _ fs es Lm HF). unfold multiples. rewrite map_length. exact HE.
  - intros test N HN. rewrite <- Lq in HN |- *. rewrite (post_count k L m0 ms' OK v t Hv Hq posts _ mkgk _ test N HF HN); [reflexivity|].
    intros ds. unfold galois_create. rewrite KT. cbn [negb]. rewrite K1, (proj1 K2), Ep. cbn [bind]. unfold galois_create_pads. cbv zeta. unfold rp_ncoeffs. rewrite K1, (proj1 K2).
    destruct (Z.ltb_spec power 0); [lia|]. rewrite Zmod_odd, Ho. cbn [orb Z.eqb]. destruct (Z.leb_spec (2 * Z.of_nat (2 ^ L)) power); [lia|]. destruct (Z.leb_spec v 0); [lia|].
    rewrite KT. cbn [negb gf_start gf_prng tape_fam bind]. rewrite Es. cbn [bind]. specialize (EL ds). rewrite app_nil_r in EL. cbn [app length] in EL. rewrite EL. reflexivity.
Qed.

(** A relinearization key of degree D: the multiples are those of s^2, ..., s^D. *)
Theorem C98_relin :
  forall k L ms fuel key sk degree v g ws ty t seed pads fs, moduli_ok k L ms -> k <> 16 -> RnsKeySpec.key_is ms L key sk -> 0 < v <= 256 -> 4 * v < first_modulus ms ->
  0 <= t < 2 ^ k -> known_type ty = true -> 1 < degree -> Forall2 (residues ms) (rg_gs g) ws -> rg_dimension g = length ws ->
  relin_pads tape_fam fuel (Z.of_nat (rg_dimension g)) degree (Z.of_nat L) ms seed ty = Ok pads ->
  let hs := concat (map (fun i => multiples ws (npow (2 ^ L) sk i)) (seq 2 (Z.to_nat (degree - 1)))) in
  let d := (Z.to_nat (degree - 1) * length ws)%nat in
  Forall2 (rns_is ms L true) pads fs ->
  exists rr : list (list Z) -> rrelin,
    (forall es, rounds v (2 ^ L) d es ->
       encryptions ms L t sk hs fs es (rr_bs (rr es)) /\
       rr_as (rr es) = pads /\ rr_g (rr es) = g /\ rr_deg (rr es) = degree /\ rr_ms (rr es) = ms /\ rr_seed (rr es) = seed /\ rr_type (rr es) = ty) /\
    forall test N, (d * error_bytes v (2 ^ L) <= N)%nat ->
      count_tapes N (fun ds => succeeds test (rrelin_create tape_fam fuel key degree v g ty t seed ds)) =
      over_rounds v (2 ^ L) d (fun es => Z.b2z (test (rr es))) * 256 ^ Z.of_nat (N - d * error_bytes v (2 ^ L)).
Proof.
  intros k L [|m0 ms'] fuel key sk degree v g ws ty t seed pads fs OK K16 (K1 & K2) Hv Hq Ht KT Hd HG HD Ep hs d HP; [cbn [first_modulus] in Hq; lia|].
  assert (Lp : length pads = d).
  { pose proof Ep as X. unfold relin_pads in X. rewrite KT in X. destruct (Z.leb_spec (Z.of_nat (rg_dimension g)) 0); [discriminate X|]. destruct (Z.leb_spec degree 1); [lia|].
    destruct (Z.leb_spec (Z.of_nat L) 0); [discriminate X|]. rewrite (pad_loop_len _ _ _ _ _ _ _ X). unfold d. rewrite <- HD, Z2Nat.inj_mul, Nat2Z.id by lia. lia. }
  assert (Hn : (0 < 2 ^ L)%nat) by (pose proof (Nat.pow_nonzero 2 L); lia).
  assert (H1 : rns_is (m0 :: ms') L true (rsk_key key) (npow (2 ^ L) sk 1)).
  { apply (rns_pcong k L _ OK true _ _ _ K2). cbn [npow]. symmetry.
    exact (Ring_theory.Rmul_1_l (neg_ring (big_q (m0 :: ms')) (2 ^ L) Hn) sk). }
  destruct (relin_posts k L m0 ms' OK v t (rsk_key key) sk K2 tape (rg_gs g) ws K16 Ht HG (Z.to_nat (degree - 1)) 1 (rsk_key key) [] pads fs H1 HP Lp) as (posts & HF & EL).
  change (seq (S 1) (Z.to_nat (degree - 1))) with (seq 2 (Z.to_nat (degree - 1))) in HF. fold hs in HF.
  assert (Lh : length hs = d).
  { unfold hs, d. assert (G : forall c i, length (concat (map (fun i => multiples ws (npow (2 ^ L) sk i)) (seq i c))) = (c * length ws)%nat).
    { induction c as [|c IH]; intros i; [reflexivity|]. cbn [seq map concat Nat.mul]. rewrite app_length, IH. unfold multiples. rewrite map_length. reflexivity. }
    apply G. }
  assert (Lm : length hs = length fs) by (rewrite <- (Forall2_len _ _ _ HP); congruence).
  assert (Lq : length posts = d) by (rewrite (Forall2_len _ _ _ HF), (shift_len L sk _ _ Lm); exact Lh).
  pose (mkrr := fun bs => {| rr_as := pads; rr_bs := bs; rr_g := g; rr_deg := degree; rr_ms := m0 :: ms'; rr_seed := seed; rr_type := ty |}).
  exists (fun es => mkrr (finish_all m0 ms' posts es)). split.
  - intros es HE. split; [|repeat split; reflexivity]. cbn [mkrr rr_bs]. rewrite <- Lh in HE. exact (finish_enc k L m0 ms' OK v t Hq sk posts hs fs es Lm HF HE).
  - intros test N HN. rewrite <- Lq in HN |- *. rewrite (post_count k L m0 ms' OK v t Hv Hq posts _ mkrr _ test N HF HN); [reflexivity|].
    intros ds. unfold rrelin_create. destruct (Z.leb_spec degree 1); [lia|]. rewrite KT. cbn [negb]. rewrite K1, (proj1 K2), Ep. cbn [bind]. unfold relin_create_pads. cbv zeta.
    destruct (Z.leb_spec v 0); [lia|]. cbn [gf_start gf_prng tape_fam bind]. rewrite K1, (proj1 K2). specialize (EL ds). cbn [app length] in EL. rewrite EL.
    destruct (post_loop tape (Z.of_nat L) v (m0 :: ms') posts ds) as [[bs s]| |]; reflexivity.
Qed.

(** Given enough bytes for the errors, the three calls succeed on every error
    tape, once the pads have been drawn. *)
Theorem C98_never_fails :
  forall k L ms fuel key sk v ty t seed N, moduli_ok k L ms -> k <> 16 -> RnsKeySpec.key_is ms L key sk -> 0 < v <= 256 -> 4 * v < first_modulus ms ->
  0 <= t < 2 ^ k -> known_type ty = true ->
  (forall u rest f, rns_sample_uniform tape fuel (Z.of_nat L) ms seed = Ok (u, rest) -> rns_is ms L true u f -> (error_bytes v (2 ^ L) <= N)%nat ->
     count_tapes N (fun ds => succeeds (fun _ => true) (rpk_create tape_fam fuel key v ty t seed ds)) = 256 ^ Z.of_nat N) /\
  (forall power g ws pads fs, 0 < power < 2 * Z.of_nat (2 ^ L) -> Z.odd power = true -> Forall2 (residues ms) (rg_gs g) ws -> rg_dimension g = length ws ->
     galois_pads tape_fam fuel (rg_dimension g) (Z.of_nat L) ms seed ty = Ok pads -> Forall2 (rns_is ms L true) pads fs ->
     (length ws * error_bytes v (2 ^ L) <= N)%nat ->
     count_tapes N (fun ds => succeeds (fun _ => true) (galois_create tape_fam fuel key power v g ty t seed ds)) = 256 ^ Z.of_nat N) /\
  (forall degree g ws pads fs, 1 < degree -> Forall2 (residues ms) (rg_gs g) ws -> rg_dimension g = length ws ->
     relin_pads tape_fam fuel (Z.of_nat (rg_dimension g)) degree (Z.of_nat L) ms seed ty = Ok pads -> Forall2 (rns_is ms L true) pads fs ->
     (Z.to_nat (degree - 1) * length ws * error_bytes v (2 ^ L) <= N)%nat ->
     count_tapes N (fun ds => succeeds (fun _ => true) (rrelin_create tape_fam fuel key degree v g ty t seed ds)) = 256 ^ Z.of_nat N).
Proof.
  intros k L ms fuel key sk v ty t seed N OK K16 HK Hv Hq Ht KT.
  assert (ONE : forall d, over_rounds v (2 ^ L) d (fun _ => 1) = 256 ^ Z.of_nat (d * error_bytes v (2 ^ L))).
  { destruct ms as [|m0 ms']; [cbn [first_modulus] in Hq; lia|]. exact (over_rounds_one k L m0 ms' OK v Hv Hq). }
  split; [|split].
  - intros u rest f Eu Hf HN. destruct (C98_public k L ms fuel key sk v ty t seed u rest f OK K16 HK Hv Hq Ht KT Eu Hf) as (pk & _ & C). rewrite (C _ N HN).
    pose proof (ONE 1%nat) as O1. cbn [over_rounds Nat.mul] in O1. rewrite Nat.add_0_r in O1. cbn [Z.b2z]. rewrite O1, <- Z.pow_add_r by lia. f_equal. lia.
  - intros power g ws pads fs Hp Ho HG HD Ep HP HN.
    destruct (C98_galois k L ms fuel key sk power v g ws ty t seed pads fs OK K16 HK Hv Hq Ht KT Hp Ho HG HD Ep HP) as (gk & _ & C). rewrite (C _ N HN). cbn [Z.b2z].
    rewrite ONE, <- Z.pow_add_r by lia. f_equal. lia.
  - intros degree g ws pads fs Hd HG HD Ep HP HN.
    destruct (C98_relin k L ms fuel key sk degree v g ws ty t seed pads fs OK K16 HK Hv Hq Ht KT Hd HG HD Ep HP) as (rr & _ & C). rewrite (C _ N HN). cbn [Z.b2z].
    rewrite ONE. revert HN. generalize (Z.to_nat (degree - 1) * length ws * error_bytes v (2 ^ L))%nat as M. intros M HN. rewrite <- Z.pow_add_r by lia. f_equal. lia.
Qed.

(** Degree 8, primes 97, 193 and 17, variance 1, t = 5, a gadget of 6 numbers in
    base 2^4: all three keys are created from 24, 144 and 288 bytes of pads and
    16, 96 and 192 bytes of errors; one byte less is too little. *)
Definition bytes98 (n : nat) : list Z := map (fun i => Z.of_nat (i * 7 mod 17)) (seq 0 n).
Definition gadget98 : rgadget := Eval vm_compute in
  match (do! c <- ctx97; do! hats <- main_complements c 2; do! invs <- main_crt_factors c 2; rgadget_create 3 [4; 4; 4] hats invs ex_qs) with
  | Ok g => g | _ => {| rg_gs := []; rg_logbs := []; rg_dims := [] |} end.
Fixpoint residues_check (ms : list pmod) (z : rnsint) (x : Z) : bool :=
  match ms, z with
  | [], [] => true
  | m :: ms, w :: z => (0 <=? w) && (w <? modulus m) && (export_int (pm_p m) w =? x mod modulus m) && residues_check ms z x
  | _, _ => false
  end.
Lemma residues_checked ms : forall z x, residues_check ms z x = true -> residues ms z x.
Proof.
  induction ms as [|m ms IH]; intros [|w z] x E; try discriminate E; [constructor|]. cbn [residues_check] in E.
  apply andb_prop in E. destruct E as [E E4]. apply andb_prop in E. destruct E as [E E3]. apply andb_prop in E. destruct E as [E1 E2].
  constructor; [|exact (IH z x E4)]. split; [|apply Z.eqb_eq, E3]. apply reduced_stored. unfold reduced. unfold modulus in E2. lia.
Qed.
Definition ws98 : list Z := Eval vm_compute in gadget_weights ex_qs [4; 4; 4].
Example C98_example :
  forallb (fun x : bool => x) [succeeds (fun _ => true) (rpk_create tape_fam 1 key94 1 1 5 (bytes98 24) (bytes98 16));
    negb (succeeds (fun _ => true) (rpk_create tape_fam 1 key94 1 1 5 (bytes98 24) (bytes98 15)));
    succeeds (fun gk => (length (gk_bs gk) =? 6)%nat) (galois_create tape_fam 1 key94 5 1 gadget98 1 5 (bytes98 144) (bytes98 96));
    negb (succeeds (fun _ => true) (galois_create tape_fam 1 key94 5 1 gadget98 1 5 (bytes98 144) (bytes98 95)));
    succeeds (fun rr => (length (rr_bs rr) =? 12)%nat) (rrelin_create tape_fam 1 key94 3 1 gadget98 1 5 (bytes98 288) (bytes98 192));
    negb (succeeds (fun _ => true) (rrelin_create tape_fam 1 key94 3 1 gadget98 1 5 (bytes98 287) (bytes98 192)))] = true /\
  rg_dimension gadget98 = 6%nat /\ error_bytes 1 8 = 16%nat /\ row_bytes ex_qs 8 = 24%nat /\
  moduli_ok 32 3 ex_qs /\ (exists sk, RnsKeySpec.key_is ex_qs 3 key94 sk) /\ Forall2 (residues ex_qs) (rg_gs gadget98) ws98.
Proof.
  split; [vm_compute; reflexivity|]. split; [vm_compute; reflexivity|]. split; [vm_compute; reflexivity|]. split; [vm_compute; reflexivity|]. split; [exact (proj1 ex_ok)|]. split.
  - destruct (rows_ok (rsk_key key94)) as [m Hm]; [vm_compute; reflexivity|vm_compute; reflexivity|vm_compute; reflexivity|]. exists m. split; [vm_compute; reflexivity|exact Hm].
  - assert (E : forallb (fun zx => residues_check ex_qs (fst zx) (snd zx)) (combine (rg_gs gadget98) ws98) = true) by (vm_compute; reflexivity).
    assert (El : length (rg_gs gadget98) = length ws98) by (vm_compute; reflexivity). revert E El. generalize ws98 as xs. generalize (rg_gs gadget98) as zs.
    induction zs as [|z zs IH]; intros [|x xs] E El; try discriminate El; [constructor|]. cbn [combine forallb fst snd] in E. apply andb_prop in E. destruct E as [E1 E2].
    constructor; [apply residues_checked, E1|apply IH; [exact E2|injection El as El; exact El]].
Qed.
Print Assumptions C98_pads.
Print Assumptions C98_public.
Print Assumptions C98_galois.
Print Assumptions C98_relin.
Print Assumptions C98_never_fails.
Print Assumptions C98_example.
