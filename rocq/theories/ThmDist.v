(** C93: the distribution of keys, masks, errors and fresh ciphertexts
    (sample_error.h, polynomial.h, montgomery.h, symmetric_encryption.h). The
    random words are counted: [count_scripts ws test] is the number of scripts
    of words of widths ws that pass the test, all scripts being equally likely. *)
From Coq Require Import Znumtheory Lia Arith.
From Verif Require Import Base FinSum Montgomery Ntt Poly Prng Sampling SampleSpec MontgomeryProofs Spec ArithFacts
  PolySpec Ring NttFacts PolyView PolyFacts PrimeCheck SampleProofs SampleErrProofs ThmSample SymEnc SymSpec SymProofs SymFacts SymSwitch ThmRelin DistSpec DistProofs DistEnc.

(** A sampled polynomial: every vector of residues is the outcome of the same
    number of scripts of r attempts, for every r. *)
Theorem C93_mask :
  forall k m p fuel r v, params_for k m p -> (1 <= r <= fuel)%nat -> v <> [] -> Forall (reduced p) v ->
  count_scripts (attempts p r) (fun ds => returned v (sample_polynomial scripted fuel (Z.of_nat (length v)) p ds)) =
  mask_count p (length v) r.
Proof.
  intros k m p fuel r v PF Hr Hv Fv. apply (mask_distribution k m p PF fuel r v Hr Hv). rewrite <- (proj2 (proj2 (pf_good _ _ _ PF))). exact Fv.
Qed.

(** A sampled error vector: the coefficients are independent centred binomials,
    and no script fails. *)
Theorem C93_error :
  forall k m p var e, params_for k m p -> 0 <= var <= 256 -> 4 * var < m ->
  count_scripts (errors var (length e)) (fun ds => returned_signed p e (sample_error scripted p (length e) var ds)) =
  product (map (error_count var) e) /\
  (forall n ds, Forall2 (fun w d => 0 <= d < 2 ^ w) (errors var n) ds ->
     exists l, sample_error scripted p n var ds = Ok (l, []) /\ length l = n /\ Forall (fun x => Z.abs x <= 2 * var) (signed p l)).
Proof.
  intros k m p var e PF Hv Hm. split; [apply (error_distribution k m p var PF Hv Hm e)|].
  intros n ds D. destruct (many_errors k m p var PF Hv Hm n ds D) as (l & El & Ll & _ & Bl). exists l. auto.
Qed.

(** A sampled secret key: so are its coefficients. *)
Theorem C93_key :
  forall k q p np L var l e, params_for k q p -> ntt_for p L np -> 0 <= var <= 256 -> 4 * var < q -> 0 <= l -> 2 ^ l + 1 < q ->
  length e = (2 ^ L)%nat ->
  count_scripts (errors var (2 ^ L)) (fun ds => key_is (2 ^ L) e (key_sample scripted L var l p np ds)) =
  product (map (error_count var) e).
Proof.
  intros k q p np L var l e PF HN Hv Hq Hl Ht Le. pose proof (error_distribution k q p var PF Hv Hq e) as D. rewrite Le in D. rewrite <- D.
  unfold count_scripts. apply over_ext; [|apply widths_nonneg, errors_ok]. intros ds Ds. f_equal.
  destruct (mk_ctx k q p L np PF HN) as (C & Ek & Eq). pose proof (m_gt1 p (proj1 C)) as M1.
  destruct (many_errors k q p var PF Hv Hq (2 ^ L) ds Ds) as (es & Es & Les & Res & _). rewrite Es.
  assert (Se : Forall (stored p) es) by (eapply Forall_impl; [|exact Res]; intros; apply reduced_stored; assumption).
  unfold key_sample. rewrite Es. cbn [bind]. destruct (convert_coeff p L np C es Les Se) as (a & Ea & Ha & Va). rewrite Ea. cbn [bind].
  rewrite (t_word_ok p l (proj1 C) (conj Hl (t_small p l (proj1 C) Hl ltac:(rewrite Eq; exact Ht)))). cbn [bind key_is returned_signed].
  match goal with |- context [tabulate _ ?g] => assert (E : tabulate (2 ^ L) g = signed p es) end.
  { apply (nth_ext _ _ 0 0); [unfold tabulate, signed; rewrite !map_length, seq_length; symmetry; exact Les|].
    unfold tabulate. rewrite map_length, seq_length. intros i Hi. unfold signed.
    rewrite (nth_indep (map (fun x => centered (p_m p) (export_int p x)) es) 0 (centered (p_m p) (export_int p 0))) by (rewrite map_length; lia).
    rewrite (map_nth (fun x => centered (p_m p) (export_int p x))).
    match goal with |- nth i (map ?g _) 0 = _ => rewrite (nth_indep (map g (seq 0 (2 ^ L))) 0 (g 0%nat)) by (rewrite map_length, seq_length; lia); rewrite (map_nth g), seq_nth by lia end.
    unfold signed_secret, secret. cbn [sk_p sk_np sk_key Nat.add]. rewrite (Va i Hi). unfold centered. rewrite Z.mod_mod by lia. reflexivity. }
  rewrite E. reflexivity.
Qed.

(** A fresh ciphertext: for every mask a and every error e there is one first
    component, which encrypts message + t * e; the pair comes from
    mask_count * (product of binomials) of the scripts with r attempts at a
    residue. Mask and error are independent of each other and of the message
    and key. *)
Theorem C93_encrypt :
  forall k q L t key pt a e, enc_key k q L t key -> k <> 16 -> 0 <= sk_var key <= 256 -> 4 * sk_var key < q -> rel_prime t q ->
  ntt_poly (sk_p key) L pt -> length a = (2 ^ L)%nat -> Forall (reduced (sk_p key)) a ->
  length e = (2 ^ L)%nat -> Forall (fun x => Z.abs x <= 2 * sk_var key) e ->
  exists c0, ntt_poly (sk_p key) L c0 /\
    carries L key (ct_make (sk_p key) [c0; poly_neg (sk_p key) a] 1) (fun i => coeff (sk_p key) (sk_np key) pt i + t * nth i e 0) /\
    forall fuel r, (1 <= r <= fuel)%nat ->
    count_scripts (attempts (sk_p key) r ++ errors (sk_var key) (2 ^ L))
      (fun ds => encrypted_as [c0; poly_neg (sk_p key) a] (encrypt scripted fuel key pt ds)) =
    mask_count (sk_p key) (2 ^ L) r * product (map (error_count (sk_var key)) e).
Proof.
  intros k q L t key pt a e EK Hk Hv Hq Ht Hpt La Ra Le Fe.
  assert (Sa : Forall (stored (sk_p key)) a) by (eapply Forall_impl; [|exact Ra]; intros; apply reduced_stored; assumption).
  destruct (residues_ok k q L t key EK Hq e Fe) as [Rr Sr].
  destruct (build_ok k q L t key EK Hk pt a (residues q key e) Hpt (conj La Sa) ltac:(unfold residues; rewrite map_length; exact Le) Rr) as (c0 & Eb & N0 & Cc).
  rewrite Sr in Cc. exists c0. split; [exact N0|]. split; [exact Cc|]. intros fuel r Hr.
  apply (encrypt_count k q L t key EK Hk Hv Hq Ht r fuel pt a e c0 Hpt Hr La Ra Le Fe Eb).
Qed.

(** Nothing else comes out. *)
Theorem C93_outcomes :
  forall k q L t key pt fuel ds x rest, enc_key k q L t key -> k <> 16 -> 0 <= sk_var key <= 256 -> 4 * sk_var key < q ->
  ntt_poly (sk_p key) L pt -> encrypt scripted fuel key pt ds = Ok (x, rest) ->
  exists c0 a e, ct_c x = [c0; poly_neg (sk_p key) a] /\ length a = (2 ^ L)%nat /\ Forall (reduced (sk_p key)) a /\
    length e = (2 ^ L)%nat /\ Forall (fun x => Z.abs x <= 2 * sk_var key) e /\
    carries L key x (fun i => coeff (sk_p key) (sk_np key) pt i + t * nth i e 0).
Proof.
  intros k q L t key pt fuel ds x rest EK Hk Hv Hq Hpt E.
  destruct (encrypt_form k q L t key EK Hk Hv Hq fuel pt ds x rest Hpt E) as (a & s & es & c0 & _ & _ & La & Ra & Le & _ & Be & _ & _ & -> & Cc).
  exists c0, a, (signed (sk_p key) es). cbn [ct_make ct_c]. split; [reflexivity|]. split; [exact La|]. split; [exact Ra|].
  split; [unfold signed; rewrite map_length; exact Le|]. split; [exact Be|exact Cc].
Qed.

(** The second component alone is uniform: every value comes from the same
    number of scripts, whatever the message and the key. *)
Theorem C93_pad_uniform :
  forall k q L t key pt a fuel r, enc_key k q L t key -> k <> 16 -> 0 <= sk_var key <= 256 -> 4 * sk_var key < q -> rel_prime t q ->
  ntt_poly (sk_p key) L pt -> length a = (2 ^ L)%nat -> Forall (reduced (sk_p key)) a -> (1 <= r <= fuel)%nat ->
  count_scripts (attempts (sk_p key) r ++ errors (sk_var key) (2 ^ L)) (fun ds => pad_is (poly_neg (sk_p key) a) (encrypt scripted fuel key pt ds)) =
  mask_count (sk_p key) (2 ^ L) r * 2 ^ total (errors (sk_var key) (2 ^ L)).
Proof. intros k q L t key pt a fuel r EK Hk Hv Hq Ht Hpt La Ra Hr. apply (pad_count k q L t key EK Hk Hv Hq Ht r fuel pt a Hpt Hr La Ra). Qed.

(** Degree 8, q = 786433, t = 3, variance 1, nine attempts: the first word is
    rejected. The error is (1, 0, -1, 2, 0, 0, 0, -2). *)
Definition mask93 : list Z := [5; 0; 17; 786432; 400000; 3; 2; 1].
Definition words93 : list Z := 1048575 :: mask93 ++ [1; 0; 0; 0; 0; 1; 3; 0; 0; 0; 1; 1; 3; 3; 0; 3].
Definition error93 : list Z := [1; 0; -1; 2; 0; 0; 0; -2].
Definition ct93 : list poly := Eval vm_compute in
  (match encrypt scripted 9 keyr mr words93 with Ok (x, _) => ct_c x | _ => [] end).
Example C93_example :
  encrypted_as ct93 (encrypt scripted 9 keyr mr words93) = true /\ length ct93 = 2%nat /\
  nth 1 ct93 [] = poly_neg pr mask93 /\
  returned_signed pr error93 (sample_error scripted pr 8 1 (skipn 9 words93)) = true /\
  mask_count pr 8 9 = 8 * accept pr ^ 8 * reject pr /\ 0 < mask_count pr 8 9 /\
  map (error_count 1) [0; 1; -1; 2; -2; 3] = [4096 * 6; 4096 * 4; 4096 * 4; 4096; 4096; 0] /\
  rel_prime 3 786433 /\ 4 * sk_var keyr < 786433 /\ Forall (reduced pr) mask93 /\
  Forall (fun x => Z.abs x <= 2 * sk_var keyr) error93 /\ ntt_poly pr 3 mr.
Proof.
  destruct keyr_ok as (_ & Ev & _). rewrite Ev.
  repeat match goal with |- _ /\ _ => split end; try (vm_compute; reflexivity).
  - apply Zgcd_1_rel_prime. reflexivity.
  - change (p_m pr) with 786433. unfold mask93, reduced. change (p_m pr) with 786433. repeat constructor; lia.
  - unfold error93. repeat constructor; cbn; lia.
  - split; [vm_compute; reflexivity|]. unfold mr, stored. change (p_m pr) with 786433. repeat constructor; lia.
Qed.

Print Assumptions C93_mask.
Print Assumptions C93_error.
Print Assumptions C93_key.
Print Assumptions C93_encrypt.
Print Assumptions C93_outcomes.
Print Assumptions C93_pad_uniform.
Print Assumptions C93_example.
