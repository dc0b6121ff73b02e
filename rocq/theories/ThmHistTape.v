(** C102: any number of encryptions, under any keys over one modulus, made one
    after the other with one generator: the joint distribution of all
    ciphertexts. The generator reads a tape of uniform bytes. *)
From Coq Require Import Znumtheory Lia Arith.
From Verif Require Import Base FinSum PolySpec Ring ZLemmas Montgomery MontBatch Ntt Poly PolyExt Prng Sampling SampleSpec MontgomeryProofs
  MontBatchProofs NttIndex NttMath NttProofs Spec PolyView ArithFacts NttFacts PolyProofs PolyFacts PolyExtProofs SampleProofs SampleErrProofs
  SymEnc SymSpec SymProofs ThmSample SymProofs2 SymFacts SymSwitch ThmPoly ThmSymEnc Relin RelinSpec RelinProofs ThmRelin
  DistSpec DistProofs DistEnc TapeSpec TapeProofs TapeRns EndSpec EndProofs PubTapeSpec PubTape KeyTapeSpec KeyTape OneTapeSpec OneTape ThmOneTape.
Local Notation tapes N := (repeat 8 N).
Local Opaque error_widths error_count.

(** a caller that encrypts each plaintext under its key, with one generator *)
Fixpoint encrypt_all (fuel : nat) (jobs : list (skey * poly)) (s : list Z) : result (list ct * list Z) :=
  match jobs with
  | [] => Ok ([], s)
  | (key, pt) :: jobs =>
      do! ' (x, s) <- encrypt tape fuel key pt s;
      do! ' (xs, s) <- encrypt_all fuel jobs s;
      Ok (x :: xs, s)
  end.
(** all calls succeeded and these are the components of the ciphertexts *)
Definition gave_cts (cs : list (list poly)) (res : result (list ct * list Z)) : bool :=
  match res with Ok (xs, _) => if list_eq_dec (list_eq_dec (list_eq_dec Z.eq_dec)) (map ct_c xs) cs then true else false | _ => false end.

(** a key and a plaintext, of the common modulus, degree and variance *)
Definition job_ok (k q : Z) (L : nat) (p : mparams) (var : Z) (job : skey * poly) : Prop :=
  exists t, enc_key k q L t (fst job) /\ rel_prime t q /\ sk_p (fst job) = p /\ sk_var (fst job) = var /\ ntt_poly p L (snd job).

(** the first components c0s and the pads -a encrypt the m_j + t_j e_j *)
Definition fresh_cts (L : nat) (p : mparams) (jobs : list (skey * poly)) (masks es : list (list Z)) (c0s : list poly) : Prop :=
  length c0s = length jobs /\ forall j key pt a e c0, nth_error jobs j = Some (key, pt) -> nth_error masks j = Some a -> nth_error es j = Some e -> nth_error c0s j = Some c0 ->
    carries L key (ct_make p [c0; poly_neg p a] 1) (fun i => coeff p (sk_np key) pt i + export_int p (sk_t key) * nth i e 0).

Definition is_cts (xs ys : list (list poly)) : Z := if list_eq_dec (list_eq_dec (list_eq_dec Z.eq_dec)) xs ys then 1 else 0.
Lemma is_cts_cons x xs y ys : is_cts (x :: xs) (y :: ys) = is_rows x y * is_cts xs ys.
Proof.
  unfold is_cts, is_rows. change poly with (list Z) in *. destruct (list_eq_dec (list_eq_dec Z.eq_dec) x y) as [A|A]; destruct (list_eq_dec (list_eq_dec (list_eq_dec Z.eq_dec)) xs ys) as [B|B];
    (destruct (list_eq_dec (list_eq_dec (list_eq_dec Z.eq_dec)) (x :: xs) (y :: ys)) as [C|C]); try reflexivity; exfalso; try (injection C as C1 C2; contradiction).
  apply C. rewrite A, B. reflexivity.
Qed.

Section One.
Variables (k q : Z) (L : nat) (t : Z) (key : skey).
Hypothesis EK : enc_key k q L t key.
Hypothesis K16 : k <> 16.
Local Notation p := (sk_p key).
Local Notation np := (sk_np key).
Local Notation n := (2 ^ L)%nat.
Local Notation v := (sk_var key).
Hypothesis Hv : 0 <= v <= 256.
Hypothesis Hq : 4 * v < q.
Hypothesis Ht : rel_prime t q.
Let K : key_ok k q L t key := ek_key _ _ _ _ _ EK.
Let C : ctx p L np := key_ctx k q L t key K.
Let PF : params_for k q p := ko_params _ _ _ _ _ K.
Let G : good p := proj1 C.
Local Notation eb := (error_bytes v n).

Lemma one_form f pt ds : encrypt tape f key pt ds =
  do! ' (a, s) <- sample_polynomial tape f (Z.of_nat n) p ds;
  do! ' (es, s) <- sample_error tape p n v s;
  do! c0 <- DistEnc.build key pt a es; Ok (ct_make p [c0; poly_neg p a] 1, s).
Proof.
  unfold encrypt, encrypt_internal, DistEnc.build. cbv zeta. rewrite (proj1 (ko_key _ _ _ _ _ K)).
  destruct (sample_polynomial tape f (Z.of_nat n) p ds) as [[a s]| |]; try reflexivity. cbn [bind].
  destruct (sample_error tape p n v s) as [[es s1]| |]; try reflexivity. cbn [bind].
  destruct (convert_to_ntt p np es) as [c| |]; try reflexivity. cbn [bind].
  destruct (poly_mul_scalar p c (sk_t key)) as [c1| |]; try reflexivity. cbn [bind].
  destruct (poly_add p c1 pt) as [c2| |]; try reflexivity. cbn [bind].
  destruct (poly_fused_mul_add p c2 a (sk_key key)) as [c3| |]; reflexivity.
Qed.

Lemma one_count f pt a e c0 H : ntt_poly p L pt -> length a = n -> Forall (reduced p) a -> errors v n e -> DistEnc.build key pt a (residues q key e) = Ok c0 ->
  forall N, ex N (encrypt tape f key pt) (fun x s => is_rows (ct_c x) [c0; poly_neg p a] * H s) =
  weights p f n N (fun M => if (eb <=? M)%nat then product (map (error_count v) e) * over (tapes (M - eb)) H else 0).
Proof.
  intros Hpt La Ra [Le Fe] Eb N. pose proof (proj2 (proj2 (pf_good _ _ _ PF))) as Em. pose proof (pow2_gt0 L) as Pn. assert (V0 : 0 <= v) by lia. assert (V2 : 2 * v <= p_m p) by lia.
  assert (Sa : Forall (stored p) a) by (eapply Forall_impl; [|exact Ra]; intros; apply reduced_stored; assumption).
  destruct (residues_ok k q L t key EK Hq e Fe) as [Rr Sr].
  destruct (build_ok k q L t key EK K16 pt a (residues q key e) Hpt (conj La Sa) ltac:(unfold residues; rewrite map_length; exact Le) Rr) as (c0' & Eb' & N0 & Cc).
  rewrite Eb in Eb'. injection Eb' as <-. rewrite Sr in Cc.
  set (H1 := runs (sample_error tape p n v) (fun l s => is_list (signed p l) e * H s)).
  transitivity (ex N (sample_n tape f (length a) p) (fun y s => is_list y a * H1 s)).
  - apply ex_eq. intros ds. rewrite one_form, La. unfold sample_polynomial. destruct (Z.ltb_spec (Z.of_nat n) 1); [lia|]. rewrite Nat2Z.id. change (pr_st tape) with (list Z).
    destruct (sample_n tape f n p ds) as [[y s]| |] eqn:Ey; try reflexivity. cbn [bind]. destruct (sample_n_reduced k q p PF f n ds y s Ey) as [Ly Ry].
    assert (Ry' : Forall (reduced p) y) by (unfold reduced; rewrite Em; exact Ry). assert (Sy : Forall (stored p) y) by (eapply Forall_impl; [|exact Ry']; intros; apply reduced_stored; assumption).
    destruct y as [|y0 y1]; [cbn in Ly; lia|]. cbn [Poly.poly_of bind]. set (y := y0 :: y1) in *. clearbody y. clear y0 y1. unfold H1, runs.
    destruct (sample_error tape p n v s) as [[es s1]| |] eqn:Es; cbn [bind]; try (rewrite Z.mul_0_r; reflexivity).
    destruct (sample_error_bounded tape p n v s es s1 G tape_ok V0 V2 Es) as (_ & Les & Res & Be).
    assert (Bes : Forall (fun e => Z.abs e <= 2 * v) (signed p es)).
    { unfold signed. apply Forall_map. apply Forall_forall. intros z Hz. rewrite Forall_forall in Be. destruct (Be z Hz) as (e' & Bd & ->).
      replace (centered (p_m p) (e' mod p_m p)) with e'; [lia|]. symmetry. pose proof (m_gt1 p G). apply centered_eq; [lia|unfold fits; lia|apply cong_mod]. }
    destruct (build_ok k q L t key EK K16 pt y es Hpt (conj Ly Sy) Les Res) as (c & Ebc & Nc & Cy). rewrite Ebc. cbn [bind]. cbn [ct_make ct_c].
    rewrite Z.mul_assoc. f_equal. unfold is_rows, is_list. change poly with (list Z) in *.
    destruct (list_eq_dec Z.eq_dec y a) as [Ea|NEa].
    + subst y. destruct (list_eq_dec Z.eq_dec (signed p es) e) as [Ee|NEe].
      * match goal with |- context [if list_eq_dec ?d ?x ?y then _ else _] => destruct (list_eq_dec d x y) as [E|E] end; [reflexivity|]. exfalso. apply E.
        assert (R : es = residues q key e) by (apply (DistEnc.signed_inj k q L t key EK); [exact Res|exact Rr|congruence]). rewrite R, Eb in Ebc. injection Ebc as <-. reflexivity.
      * match goal with |- context [if list_eq_dec ?d ?x ?y then _ else _] => destruct (list_eq_dec d x y) as [E|E] end; [|reflexivity]. exfalso. apply NEe. injection E as ->.
        apply (DistEnc.same_errors k q L t key EK Hv Hq Ht _ pt _ _ ltac:(unfold signed; rewrite map_length; exact Les) Le Bes Fe Cy Cc).
    + match goal with |- context [if list_eq_dec ?d ?x ?y then _ else _] => destruct (list_eq_dec d x y) as [E|E] end; [|reflexivity]. exfalso. apply NEa. injection E as _ E.
      exact (DistEnc.neg_inj k q L t key EK y a Ry' Ra E).
  - rewrite (weights_ok k q p PF f H1 a ltac:(unfold reduced in Ra; rewrite Em in Ra; exact Ra)). rewrite La. apply weights_ext. intros M. unfold H1. rewrite over_runs.
    pose proof (errors_over k q p v PF Hv Hq H e M) as EO. rewrite Le in EO. exact EO.
Qed.
End One.

(** the number of ways to spend N bytes on d masks and errors *)
Fixpoint spend (p : mparams) (fuel n eb d N : nat) : Z :=
  match d with
  | O => 256 ^ Z.of_nat N
  | S d => weights p fuel n N (fun M => if (eb <=? M)%nat then spend p fuel n eb d (M - eb) else 0)
  end.
Lemma spend_nonneg k q p fuel n eb d : params_for k q p -> forall N, 0 <= spend p fuel n eb d N.
Proof.
  intros PF. induction d as [|d IH]; intros N; cbn [spend]; [apply Z.pow_nonneg; lia|]. apply (weights_nonneg k q p _ fuel PF). intros M. destruct (eb <=? M)%nat; [apply IH|lia].
Qed.
Lemma spend_pos k q p fuel n eb d : params_for k q p -> (1 <= fuel)%nat -> forall N, (d * (n * nbytes (attempt_widths (p_logm p)) + eb) <= N)%nat -> 0 < spend p fuel n eb d N.
Proof.
  intros PF Hf. induction d as [|d IH]; intros N HN; cbn [spend]; [apply Z.pow_pos_nonneg; lia|].
  apply (weights_pos k q p _ fuel (eb + d * (n * nbytes (attempt_widths (p_logm p)) + eb)) PF); [| |exact Hf|cbn [Nat.mul] in HN; lia].
  - intros M. destruct (eb <=? M)%nat; [apply (spend_nonneg k q p fuel n eb d PF)|lia].
  - intros M HM. destruct (Nat.leb_spec eb M); [apply IH; lia|lia].
Qed.

(** For any number d of encryptions there is a weight, the same for all keys,
    plaintexts, masks and errors, with which the following holds. For all masks
    a_j and small errors e_j there is one list of ciphertexts, encrypting
    m_j + t_j e_j with these masks, and the number of tapes that give it is the
    weight times all the binomials: the masks are uniform, the errors binomial,
    and all of them independent. *)
Theorem C102_history :
  forall k q L p var fuel d, params_for k q p -> k <> 16 -> 0 <= var <= 256 -> 4 * var < q ->
  exists weight : nat -> Z,
    (forall N, (1 <= fuel)%nat -> (d * (2 ^ L * nbytes (attempt_widths (p_logm p)) + error_bytes var (2 ^ L)) <= N)%nat -> 0 < weight N) /\
    forall jobs masks es, length jobs = d -> Forall (job_ok k q L p var) jobs ->
    length masks = d -> Forall (fun a => length a = (2 ^ L)%nat /\ Forall (reduced p) a) masks -> rounds var (2 ^ L) d es ->
    exists c0s, fresh_cts L p jobs masks es c0s /\ forall N,
      count_tapes N (fun ds => gave_cts (map2 (fun c0 a => [c0; poly_neg p a]) c0s masks) (encrypt_all fuel jobs ds)) =
      weight N * product (map (fun e => product (map (error_count var) e)) es).
Proof.
  intros k q L p var fuel d PF K16 Hv Hq. exists (spend p fuel (2 ^ L) (error_bytes var (2 ^ L)) d). split.
  { intros N Hf HN. apply (spend_pos k q p fuel (2 ^ L) _ d PF Hf N HN). }
  intros jobs. revert d. induction jobs as [|[key pt] jobs IH]; intros d masks es Lj Fj Lm Fm [Ls Fs]; subst d.
  - destruct masks; [|discriminate Lm]. destruct es; [|discriminate Ls]. exists []. split; [split; [reflexivity|intros [|j]; intros; discriminate]|]. intros N.
    cbn [length spend map product fold_right]. rewrite Z.mul_1_r, <- over_ones. reflexivity.
  - destruct masks as [|a masks]; [discriminate Lm|]. destruct es as [|e es]; [discriminate Ls|].
    destruct (Forall_inv Fj) as (t & EK & Ht & Ep & Ev & Hpt). pose proof (Forall_inv_tail Fj) as Fj'. destruct (Forall_inv Fm) as [La Ra]. pose proof (Forall_inv_tail Fm) as Fm'. pose proof (Forall_inv Fs) as He. pose proof (Forall_inv_tail Fs) as Fs'. cbn [fst snd] in *.
    assert (R' : rounds var (2 ^ L) (length jobs) es) by (split; [cbn in Ls; lia|exact Fs']).
    destruct (IH (length jobs) masks es eq_refl Fj' ltac:(cbn in Lm; lia) Fm' R') as (c0s & [LC HC] & E).
    subst p var.
    assert (Sa : Forall (stored (sk_p key)) a) by (eapply Forall_impl; [|exact Ra]; intros; apply reduced_stored; assumption).
    destruct (residues_ok k q L t key EK Hq e (proj2 He)) as [Rr Sr].
    destruct (build_ok k q L t key EK K16 pt a (residues q key e) Hpt (conj La Sa) ltac:(unfold residues; rewrite map_length; exact (proj1 He)) Rr) as (c0 & Eb & N0 & Cc).
    rewrite Sr in Cc. exists (c0 :: c0s). split.
    + split; [cbn [length]; f_equal; exact LC|]. intros [|j] key' pt' a' e' c' Hj Ha He' Hc; [|exact (HC j key' pt' a' e' c' Hj Ha He' Hc)].
      cbn [nth_error] in *. injection Hj as <- <-. injection Ha as <-. injection He' as <-. injection Hc as <-. rewrite (t_export' k q L t key EK). exact Cc.
    + intros N. cbn [length spend map map2].
      set (cs := map2 (fun c0 a => [c0; poly_neg (sk_p key) a]) c0s masks) in *.
      transitivity (ex N (encrypt tape fuel key pt) (fun x s => is_rows (ct_c x) [c0; poly_neg (sk_p key) a] * Z.b2z (gave_cts cs (encrypt_all fuel jobs s)))).
      * unfold count_tapes, count_scripts, ex. apply over_ext; [|apply tapes_nonneg]. intros ds _. cbn [encrypt_all].
        destruct (encrypt tape fuel key pt ds) as [[x s]| |]; try reflexivity. cbn [bind]. destruct (encrypt_all fuel jobs s) as [[xs s1]| |]; cbn [bind gave_cts Z.b2z]; try (rewrite Z.mul_0_r; reflexivity).
        pose proof (is_cts_cons (ct_c x) (map ct_c xs) [c0; poly_neg (sk_p key) a] cs) as IC. unfold is_cts in IC. cbn [map]. change poly with (list Z) in *.
        assert (B : forall (P : Prop) (b : {P} + {~ P}), Z.b2z (if b then true else false) = if b then 1 else 0) by (intros P []; reflexivity). rewrite !B. exact IC.
      * rewrite (one_count k q L t key EK K16 Hv Hq Ht fuel pt a e c0 _ Hpt La Ra He Eb N). rewrite product_cons.
        rewrite Z.mul_comm, <- weights_mul. apply weights_ext. intros M. destruct (_ <=? M)%nat; [|lia].
        specialize (E (M - error_bytes (sk_var key) (2 ^ L))%nat). unfold count_tapes, count_scripts in E. rewrite E. ring.
Qed.

(** Two consecutive encryptions, of degree 8: 80 bytes each; different masks,
    and nothing at the end of the tape. *)
Definition jobs102 : list (skey * poly) := [(keyr, mr); (keyr, mr)].
Example C102_example :
  match encrypt_all 1 jobs102 (bytes99 160) with
  | Ok ([x; y], []) => negb (forallb (fun ab => fst ab =? snd ab) (combine (nth 1 (ct_c x) []) (nth 1 (ct_c y) [])))
  | _ => false end = true /\
  match encrypt_all 1 jobs102 (bytes99 159) with Ok _ => false | _ => true end = true /\
  params_for 32 786433 pr /\ Forall (job_ok 32 786433 3 pr 1) jobs102 /\ (8 * nbytes (attempt_widths (p_logm pr)) + error_bytes 1 8 = 80)%nat.
Proof.
  destruct keyr_ok as (EK & Ev & Ep & _). split; [vm_compute; reflexivity|]. split; [vm_compute; reflexivity|].
  pose proof (ko_params _ _ _ _ _ (ek_key _ _ _ _ _ EK)) as PF. rewrite Ep in PF. split; [exact PF|].
  assert (H : ntt_poly pr 3 mr) by (destruct C99_example as (_ & _ & _ & _ & _ & _ & _ & _ & _ & _ & _ & _ & H & _); exact H).
  assert (J : job_ok 32 786433 3 pr 1 (keyr, mr)).
  { exists 3. split; [exact EK|]. split; [|split; [exact Ep|split; [exact Ev|exact H]]]. apply Zgcd_1_rel_prime. vm_compute. reflexivity. }
  split; [exact (Forall_cons _ J (Forall_cons _ J (Forall_nil _)))|]. vm_compute. reflexivity.
Qed.
Print Assumptions C102_history.
Print Assumptions C102_example.
