(** Property theorems C01-C11: bit utilities, Montgomery arithmetic,
    transcription, serialization of ring elements. *)
From Coq Require Import Znumtheory.
From Verif Require Import Base BitsUtil Montgomery Transcription MontBatch ZLemmas BitsUtilProofs
  MontgomeryProofs TranscriptionProofs MontBatchProofs Spec ArithFacts.

(** ** C01: bit utilities *)

(** [ones_spec n x] = number of positions i < n at which bit i of x is set. *)
Theorem C01_count_ones_in_byte :
  forall x, 0 <= x < 2 ^ 8 ->
  count_ones_in_byte x =
  fold_right Z.add 0 (map (fun i => Z.b2z (Z.testbit x (Z.of_nat i))) (seq 0 8)).
Proof. exact count_ones_in_byte_ok. Qed.

Theorem C01_count_ones_64 :
  forall x, 0 <= x < 2 ^ 64 ->
  count_ones_64 x =
  fold_right Z.add 0 (map (fun i => Z.b2z (Z.testbit x (Z.of_nat i))) (seq 0 64)).
Proof. exact count_ones_64_ok. Qed.

Theorem C01_count_leading_zeros_64 :
  forall x, 0 <= x < 2 ^ 64 ->
  exists b, 0 <= b <= 64 /\ count_leading_zeros_64 x = 64 - b /\ x < 2 ^ b /\
    (0 < x -> 2 ^ (b - 1) <= x) /\ (x = 0 -> b = 0).
Proof. exact clz64_fact. Qed.

Theorem C01_bit_length :
  forall x b, 0 <= x < 2 ^ 128 ->
  (bit_length x = b <->
   0 <= b /\ x < 2 ^ b /\ (0 < x -> 2 ^ (b - 1) <= x) /\ (x = 0 -> b = 0)).
Proof. exact bit_length_fact. Qed.

Example C01_example :
  count_ones_64 0xF0F1 = 9 /\ count_leading_zeros_64 0xF0F1 = 48 /\ bit_length (2 ^ 100 + 5) = 101.
Proof. repeat split; vm_compute; reflexivity. Qed.

(** ** C02: parameter creation *)

Theorem C02_create_accepts :
  forall k m, word_size k -> 0 <= m < 2 ^ k ->
  ((exists p, params_create k m = Ok p) <-> (m mod 2 = 1 /\ m < 2 ^ (k - 2))).
Proof. exact params_create_iff. Qed.

Theorem C02_create_consistent :
  forall k m p, params_for k m p ->
  p_k p = k /\ p_m p = m /\
  (2 ^ (p_logm p - 1) <= m < 2 ^ p_logm p) /\
  2 ^ k * p_invr p - m * p_invm p = 1 /\ 0 < p_invr p < m /\ 0 <= p_invm p < 2 ^ k /\
  p_rmm p = 2 ^ k mod m /\ p_rmmb p = (2 ^ k mod m) * 2 ^ k / m /\
  p_invrb p = p_invr p * 2 ^ k / m /\ p_bn p = 2 ^ k / m /\ p_bnb p = 2 ^ (2 * k - 1) / m.
Proof. exact params_consistent. Qed.

(** A parameter set used by the examples: the 14-bit prime 12289 in 16-bit
    words, and a 60-bit modulus in 64-bit words. *)
Definition p12289 : mparams := Eval vm_compute in
  (params_make 16 12289).
Definition p60 : mparams := Eval vm_compute in
  (params_make 64 1152921504606830593).

Lemma p12289_for : params_for 16 12289 p12289.
Proof. split; [left; reflexivity|]. split; [lia|vm_compute; reflexivity]. Qed.

Lemma p60_for : params_for 64 1152921504606830593 p60.
Proof. split; [right; right; left; reflexivity|]. split; [lia|vm_compute; reflexivity]. Qed.

Example C02_example :
  (exists p, params_create 64 1152921504606830593 = Ok p) /\
  params_create 64 (2 ^ 62 + 1) = Err InvalidArgument /\
  params_create 64 12 = Err InvalidArgument.
Proof. split; [exists p60; vm_compute; reflexivity|]. split; vm_compute; reflexivity. Qed.

(** ** C03: import/export *)

Theorem C03_import_export :
  forall k m p n, params_for k m p -> 0 <= n < 2 ^ k ->
  export_int p (import_int p n) = n mod m /\ reduced p (import_int p n).
Proof.
  intros k m p n H Hn. pose proof (pf_good _ _ _ H) as (G & <- & <-).
  pose proof (import_crep p G n Hn) as C. split; [|exact C].
  rewrite stored_val; [|assumption|apply reduced_stored; exact C]. apply import_val; assumption.
Qed.

Theorem C03_import_zero_one :
  forall k m p, params_for k m p ->
  export_int p (import_zero p) = 0 /\ export_int p (import_one p) = 1 /\
  reduced p (import_zero p) /\ reduced p (import_one p).
Proof.
  intros k m p H. pose proof (pf_good _ _ _ H) as (G & <- & <-). pose proof (m_gt1 p G).
  pose proof (one_crep p G) as C. assert (Z0 : reduced p (import_zero p)) by (unfold reduced, import_zero; lia).
  rewrite !stored_val by (try assumption; apply reduced_stored; assumption).
  split; [apply zero_val; assumption|]. split; [apply one_val; assumption|]. auto.
Qed.

Example C03_example : export_int p60 (import_int p60 (2 ^ 64 - 1)) = (2 ^ 64 - 1) mod 1152921504606830593.
Proof. vm_compute. reflexivity. Qed.

(** ** C04: ring operations *)

Theorem C04_api_values_stored :
  forall k m p n, params_for k m p -> api_value p n -> stored p n.
Proof. exact api_stored. Qed.

Theorem C04_ring_operations :
  forall k m p a b, params_for k m p -> stored p a -> stored p b ->
  export_int p (madd p a b) = (export_int p a + export_int p b) mod m /\
  export_int p (msub p a b) = (export_int p a - export_int p b) mod m /\
  export_int p (mmul p a b) = (export_int p a * export_int p b) mod m /\
  export_int p (mneg p a) = (- export_int p a) mod m /\
  0 <= export_int p a < m.
Proof.
  intros k m p a b H Ha Hb. pose proof (pf_good _ _ _ H) as (G & <- & <-).
  pose proof (crep_rep p _ (madd_crep p G a b Ha Hb)).
  pose proof (crep_rep p _ (msub_crep p G a b Ha Hb)).
  pose proof (crep_rep p _ (mmul_crep p G a b Ha Hb)).
  pose proof (mneg_rep p G a Ha).
  rewrite !stored_val by assumption.
  split; [apply madd_val; assumption|]. split; [apply msub_val; assumption|].
  split; [apply mmul_val; assumption|]. split; [apply mneg_val; assumption|].
  apply val_range; assumption.
Qed.

(** The reductions also accept lazily reduced operands: any sum of two stored
    words that fits the machine word, as in the documented [0, 4m]. *)
Theorem C04_add_lazy_operands :
  forall k m p a b, params_for k m p -> 0 <= a -> 0 <= b -> a + b <= 4 * m ->
  madd p a b = (a + b) mod m.
Proof.
  intros k m p a b H Ha Hb Hab. pose proof (pf_good _ _ _ H) as (G & <- & <-).
  pose proof (m4 p G). apply madd_ok; [assumption|lia..].
Qed.

Theorem C04_sub_lazy_operands :
  forall k m p a b, params_for k m p -> 0 <= a <= 3 * m -> stored p b ->
  msub p a b = (a - b) mod m.
Proof.
  intros k m p a b H Ha Hb. pose proof (pf_good _ _ _ H) as (G & <- & <-).
  pose proof (m4 p G). apply msub_ok; [assumption|lia|assumption|lia].
Qed.

Example C04_example :
  stored p12289 12289 /\ stored p12289 12288 /\
  api_value p12289 (mneg p12289 (import_zero p12289)) /\
  mneg p12289 (import_zero p12289) = 12289.
Proof.
  split; [vm_compute; split; congruence|]. split; [vm_compute; split; congruence|].
  split; [apply api_neg, api_zero|]. vm_compute; reflexivity.
Qed.

(** ** C05: equality *)

Theorem C05_equality_refuted :
  forall k m p, params_for k m p ->
  exists a b, api_value p a /\ api_value p b /\
    export_int p a = export_int p b /\ meqb a b = false.
Proof.
  intros k m p H. exists (mneg p (import_zero p)), (import_zero p).
  destruct (neg_zero_neq k m p H) as [E1 E2].
  split; [apply api_neg, api_zero|]. split; [apply api_zero|]. split; assumption.
Qed.

(** Missing for the full claim: values produced by Negate(0). *)
Theorem C05_equality_reduced_partial :
  forall k m p a b, params_for k m p -> reduced p a -> reduced p b ->
  (meqb a b = true <-> export_int p a = export_int p b).
Proof. exact eq_reduced_iff. Qed.

Theorem C05_operations_reduced :
  forall k m p a b, params_for k m p -> stored p a -> stored p b ->
  reduced p (madd p a b) /\ reduced p (msub p a b) /\ reduced p (mmul p a b) /\
  (0 < a -> reduced p (mneg p a)).
Proof.
  intros k m p a b H Ha Hb. pose proof (pf_good _ _ _ H) as (G & <- & <-).
  split; [apply madd_crep; assumption|]. split; [apply msub_crep; assumption|].
  split; [apply mmul_crep; assumption|]. intros. rewrite mneg_ok by assumption.
  unfold stored, reduced in *. lia.
Qed.

Example C05_example : reduced p12289 5 /\ reduced p12289 12288 /\ meqb 5 12288 = false.
Proof. repeat split; vm_compute; congruence. Qed.

(** ** C06: constants and fused operations *)

Theorem C06_mul_constant :
  forall k m p n b, params_for k m p -> 0 <= n <= 4 * m -> stored p b ->
  let r := mul_constant p n (get_constant p b) in
  reduced p r /\ export_int p r = (export_int p (n mod m) * export_int p b) mod m.
Proof.
  intros k m p n b H Hn Hb. pose proof (pf_good _ _ _ H) as (G & <- & <-).
  pose proof (m4 p G). pose proof (rep_word p G b Hb) as Wb.
  pose proof (get_constant_ok p G b Wb) as C. cbv zeta.
  pose proof (mul_constant_crep p G n (val p b) (get_constant p b) ltac:(lia) C) as R.
  split; [exact R|].
  rewrite (stored_val p b) by assumption.
  rewrite (stored_val p (n mod p_m p)); [|assumption|apply reduced_stored, mod_crep; assumption].
  rewrite (stored_val p (mul_constant p n _)); [|assumption|apply reduced_stored; exact R].
  rewrite (mul_constant_val p G n (val p b)) by (try lia; assumption).
  rewrite val_mod. reflexivity.
Qed.

Theorem C06_fused_mul_add :
  forall k m p n a b, params_for k m p -> stored p n -> stored p a -> stored p b ->
  (k <> 16 -> exists r, fused_mul_add p n a b = Ok r) /\
  (forall r, fused_mul_add p n a b = Ok r ->
     reduced p r /\ export_int p r = (export_int p n + export_int p a * export_int p b) mod m).
Proof.
  intros k m p n a b H Hn Ha Hb. pose proof (pf_good _ _ _ H) as (G & <- & <-).
  split; [apply fused_mul_add_defined|]. intros r E.
  destruct (fused_mul_add_ok p G n a b r Hn Ha Hb E) as [R V].
  split; [exact R|]. rewrite !stored_val by (try assumption; apply reduced_stored; exact R).
  exact V.
Qed.

(** With 16-bit words the fused multiply-add has undefined behaviour (signed
    overflow after promotion) for an NTT-friendly prime and ordinary operands. *)
Theorem C06_fused_mul_add_uint16_refuted :
  exists m p n a b, params_for 16 m p /\ reduced p n /\ reduced p a /\ reduced p b /\
    fused_mul_add p n a b = UB.
Proof.
  exists 16193, (params_make 16 16193), 16192, 16191, 16191.
  split. { split; [left; reflexivity|]. split; [lia|vm_compute; reflexivity]. }
  repeat split; try (vm_compute; congruence).
Qed.

Theorem C06_fused_mul_constant_add :
  forall k m p n a b, params_for k m p -> stored p n -> stored p a -> stored p b ->
  let r := fused_mul_constant_add p n a (get_constant p b) in
  reduced p r /\ export_int p r = (export_int p n + export_int p a * export_int p b) mod m.
Proof.
  intros k m p n a b H Hn Ha Hb. pose proof (pf_good _ _ _ H) as (G & <- & <-).
  pose proof (get_constant_ok p G b (rep_word p G b Hb)) as C. cbv zeta.
  pose proof (fused_mul_constant_add_crep p G n a _ _ Hn Ha C) as R.
  split; [exact R|]. rewrite !stored_val by (try assumption; apply reduced_stored; exact R).
  apply fused_mul_constant_add_val; assumption.
Qed.

Example C06_example :
  stored p12289 12289 /\ 4 * 12289 < 2 ^ 16 /\
  mul_constant p12289 (4 * 12289) (get_constant p12289 777) = 0.
Proof. repeat split; vm_compute; congruence. Qed.

(** ** C07: exponentiation and inverses *)

Theorem C07_mod_exp :
  forall k m p a e, params_for k m p -> stored p a -> 0 <= e < 2 ^ k ->
  reduced p (mod_exp p a e) /\ export_int p (mod_exp p a e) = (export_int p a ^ e) mod m.
Proof.
  intros k m p a e H Ha He. pose proof (pf_good _ _ _ H) as (G & <- & <-).
  destruct (mod_exp_ok p G a e Ha He) as [R V].
  split; [exact R|]. rewrite !stored_val by (try assumption; apply reduced_stored; exact R).
  exact V.
Qed.

Theorem C07_multiplicative_inverse_prime :
  forall k m p a, params_for k m p -> prime m -> stored p a -> export_int p a <> 0 ->
  reduced p (mult_inverse p a) /\
  (export_int p (mult_inverse p a) * export_int p a) mod m = 1.
Proof.
  intros k m p a H Hp Ha Hnz. pose proof (pf_good _ _ _ H) as (G & <- & <-).
  rewrite stored_val in Hnz by assumption.
  destruct (inverse_prime p a G Hp Ha Hnz) as [R V].
  split; [exact R|]. rewrite !stored_val by (try assumption; apply reduced_stored; exact R).
  exact V.
Qed.

(** Totality of the conclusion (always Ok or Err) includes termination of the
    Euclidean loop and absence of overflow. *)
Theorem C07_multiplicative_inverse_fast :
  forall k m p a, params_for k m p -> stored p a ->
  (Z.gcd (export_int p a) m = 1 ->
     exists r, mult_inverse_fast p a = Ok r /\ reduced p r /\
       (export_int p r * export_int p a) mod m = 1) /\
  (Z.gcd (export_int p a) m <> 1 -> mult_inverse_fast p a = Err InvalidArgument).
Proof. exact fast_inverse_fact. Qed.

Example C07_example :
  Z.gcd (export_int p12289 5) 12289 = 1 /\
  mult_inverse_fast p12289 5 = Ok (mult_inverse p12289 5) /\
  mult_inverse_fast (params_make 16 15) (import_int (params_make 16 15) 6) = Err InvalidArgument.
Proof. repeat split; vm_compute; reflexivity. Qed.

(** ** C08: batch operations *)

Theorem C08_batch_binary :
  forall p a b,
  (length a = length b ->
    (exists out, batch_add p a b = Ok out /\ length out = length a /\
      forall i, (i < length a)%nat -> nth i out 0 = madd p (nth i a 0) (nth i b 0)) /\
    (exists out, batch_sub p a b = Ok out /\ length out = length a /\
      forall i, (i < length a)%nat -> nth i out 0 = msub p (nth i a 0) (nth i b 0)) /\
    (exists out, batch_mul p a b = Ok out /\ length out = length a /\
      forall i, (i < length a)%nat -> nth i out 0 = mmul p (nth i a 0) (nth i b 0))) /\
  (length a <> length b ->
    batch_add p a b = Err InvalidArgument /\ batch_sub p a b = Err InvalidArgument /\
    batch_mul p a b = Err InvalidArgument).
Proof.
  intros p a b.
  destruct (batch2_fact (madd p) a b) as [A1 A2], (batch2_fact (msub p) a b) as [B1 B2],
    (batch2_fact (mmul p) a b) as [C1 C2].
  split; intros H; repeat split; auto.
Qed.

Theorem C08_batch_scalar :
  forall p a b c,
  (exists out, batch_add_scalar p a b = Ok out /\ length out = length a /\
     forall i, (i < length a)%nat -> nth i out 0 = madd p (nth i a 0) b) /\
  (exists out, batch_sub_scalar p a b = Ok out /\ length out = length a /\
     forall i, (i < length a)%nat -> nth i out 0 = msub p (nth i a 0) b) /\
  (exists out, batch_mul_scalar p a b = Ok out /\ length out = length a /\
     forall i, (i < length a)%nat -> nth i out 0 = mmul p (nth i a 0) b) /\
  (exists out, batch_mul_constant_scalar p a b c = Ok out /\ length out = length a /\
     forall i, (i < length a)%nat -> nth i out 0 = mul_constant p (nth i a 0) (b, c)).
Proof.
  intros p a b c.
  assert (M : forall f : Z -> Z, exists out, Ok (map f a) = Ok out /\ length out = length a /\
     forall i, (i < length a)%nat -> nth i out 0 = f (nth i a 0)).
  { intros f. exists (map f a). split; [reflexivity|]. split; [apply map_length|].
    intros i Hi. rewrite nth_indep with (d' := f 0) by (rewrite map_length; exact Hi).
    apply map_nth. }
  split; [apply (M (fun x => madd p x b))|]. split; [apply (M (fun x => msub p x b))|].
  split; [apply (M (fun x => mmul p x b))|apply (M (fun x => mul_constant p x (b, c)))].
Qed.

Theorem C08_batch_mul_constant :
  forall p a c cb,
  (length a = length c -> length c = length cb ->
    exists out, batch_mul_constant p a c cb = Ok out /\ length out = length a /\
    forall i, (i < length a)%nat ->
      nth i out 0 = mul_constant p (nth i a 0) (nth i c 0, nth i cb 0)) /\
  (length a <> length c \/ length c <> length cb ->
    batch_mul_constant p a c cb = Err InvalidArgument).
Proof. exact batch_mul_constant_fact. Qed.

Theorem C08_batch_fused_mul_add :
  forall k m p a b c, params_for k m p -> k <> 16 ->
  (length a = length b -> length a = length c ->
    exists out, batch_fused_mul_add p a b c = Ok out /\ length out = length a /\
    forall i, (i < length a)%nat ->
      fused_mul_add p (nth i a 0) (nth i b 0) (nth i c 0) = Ok (nth i out 0)) /\
  (length a <> length b \/ length a <> length c ->
    batch_fused_mul_add p a b c = Err InvalidArgument).
Proof. exact batch_fused_fact. Qed.

Theorem C08_batch_fused_mul_constant_add :
  forall p a b c cb,
  (length a = length b -> length a = length c -> length a = length cb ->
    exists out, batch_fused_mul_constant_add p a b c cb = Ok out /\ length out = length a /\
    forall i, (i < length a)%nat ->
      nth i out 0 = fused_mul_constant_add p (nth i a 0) (nth i b 0) (nth i c 0, nth i cb 0)) /\
  (length a <> length b \/ length a <> length c \/ length a <> length cb ->
    batch_fused_mul_constant_add p a b c cb = Err InvalidArgument).
Proof. exact batch_fused_constant_fact. Qed.

Example C08_example :
  batch_add p12289 [1; 12288] [5; 2] = Ok [6; 1] /\
  batch_add p12289 [1] [5; 2] = Err InvalidArgument.
Proof. split; vm_compute; reflexivity. Qed.

(** ** C09: TranscribeBits *)

(** [stream_bit b v i]: bit i of the stream held by v in chunks of b bits, that
    is bit (i mod b) of element (i / b). The bound 2^31 is the range of [int]. *)
Theorem C09_transcribe :
  forall wi wo v len ibits obits,
  0 < ibits <= wi -> 0 < obits <= wo -> 0 < len ->
  len + ibits <= 2 ^ 31 -> len + obits <= 2 ^ 31 ->
  len <= ibits * Z.of_nat (length v) ->
  exists out, transcribe_bits wi wo v len ibits obits = Ok out /\
    Z.of_nat (length out) = (len + (obits - 1)) / obits /\
    forall j b, 0 <= b ->
      Z.testbit (nth j out 0) b =
      (b <? obits) && (obits * Z.of_nat j + b <? len) &&
      stream_bit ibits v (obits * Z.of_nat j + b).
Proof. exact transcribe_bits_ok. Qed.

Theorem C09_transcribe_rejects :
  forall wi wo v len ibits obits,
  0 < ibits -> 0 < obits -> len + ibits <= 2 ^ 31 -> len + obits <= 2 ^ 31 ->
  (transcribe_bits wi wo v len ibits obits = Err InvalidArgument <->
   (ibits > wi \/ obits > wo \/ len < 0 \/ (len = 0 /\ v <> []) \/
    ibits * Z.of_nat (length v) < len)).
Proof. exact transcribe_bits_err. Qed.

Theorem C09_transcribe_roundtrip :
  forall wi wo v ibits obits len out,
  0 < ibits <= wi -> 0 < obits <= wo -> len = ibits * Z.of_nat (length v) ->
  0 < len -> len + ibits <= 2 ^ 31 -> len + obits <= 2 ^ 31 ->
  Forall (fun x => 0 <= x < 2 ^ ibits) v ->
  transcribe_bits wi wo v len ibits obits = Ok out ->
  transcribe_bits wo wi out len obits ibits = Ok v.
Proof. exact transcribe_roundtrip. Qed.

Example C09_example :
  transcribe_bits 16 8 [5; 9; 1023] 30 10 8 = Ok [5; 36; 240; 63] /\
  transcribe_bits 8 16 [5; 36; 240; 63] 30 8 10 = Ok [5; 9; 1023].
Proof. split; vm_compute; reflexivity. Qed.

(** ** C10: serialization round trips *)

Theorem C10_serialize :
  forall k m p n, params_for k m p -> stored p n ->
  exists s, mserialize p n = Ok s /\ Z.of_nat (length s) = serialized_size p /\
    mdeserialize p s = Ok n.
Proof.
  intros k m p n H Hn. pose proof (pf_good _ _ _ H) as (G & <- & <-).
  apply serialize_one_ok; [assumption|]. apply rep_logm; assumption.
Qed.

Theorem C10_serialize_vector :
  forall k m p v, params_for k m p -> Forall (stored p) v ->
  (0 < length v)%nat -> Z.of_nat (length v) <= 2 ^ 15 ->
  exists s, mserialize_vector p v = Ok s /\
    Z.of_nat (length s) = (Z.of_nat (length v) * p_logm p + 7) / 8 /\
    Forall (fun b => 0 <= b < 256) s /\
    mdeserialize_vector p (Z.of_nat (length v)) s = Ok v.
Proof.
  intros k m p v H Hv Hl Hmax. pose proof (pf_good _ _ _ H) as (G & <- & <-).
  apply serialize_vector_ok; try assumption.
  eapply Forall_impl; [|exact Hv]. intros a Ha. apply rep_logm; assumption.
Qed.

Theorem C10_deserialize_short :
  forall k m p s, params_for k m p -> 8 * Z.of_nat (length s) < p_logm p ->
  mdeserialize p s = Err InvalidArgument.
Proof.
  intros k m p s H Hs. pose proof (pf_good _ _ _ H) as (G & <- & <-).
  apply deserialize_short; assumption.
Qed.

Example C10_example :
  mserialize_vector p12289 [1; 2; 12288] = Ok [1; 128; 0; 0; 0; 3] /\
  mserialize_vector p12289 [] = Err InvalidArgument.
Proof. split; vm_compute; reflexivity. Qed.

(** ** C11: deserialization range *)

Theorem C11_deserialize_range_refuted :
  exists k m p s n, params_for k m p /\ Forall (fun b => 0 <= b < 256) s /\
    mdeserialize p s = Ok n /\ ~ stored p n /\
    export_int p (msub p (import_zero p) n) <> (0 - export_int p n) mod m.
Proof.
  exists 16, 5, (params_make 16 5), [7], 7.
  split. { split; [left; reflexivity|]. split; [lia|vm_compute; reflexivity]. }
  split. { repeat constructor; lia. }
  split; [vm_compute; reflexivity|]. split.
  - vm_compute. intros [_ H]. apply H; reflexivity.
  - vm_compute. discriminate.
Qed.

(** What does hold for every byte string: the call never has undefined
    behaviour, succeeds only for acceptable counts, and every element is below
    2^log_modulus (not below the modulus). *)
Theorem C11_deserialize_vector_range_partial :
  forall k m p num s, params_for k m p -> Z.of_nat (length s) < 2 ^ 31 ->
  match mdeserialize_vector p num s with
  | Ok v => 0 <= num <= max_num_coeffs /\ Z.of_nat (length v) = num /\
            Forall (fun n => 0 <= n < 2 ^ p_logm p) v
  | Err c => c = InvalidArgument /\
             (num < 0 \/ num > max_num_coeffs \/ 8 * Z.of_nat (length s) < num * p_logm p \/
              (num = 0 /\ s <> []))
  | UB => False
  end.
Proof.
  intros k m p num s H Hs. pose proof (pf_good _ _ _ H) as (G & <- & <-).
  apply deserialize_vector_spec; assumption.
Qed.

Example C11_example :
  mdeserialize_vector p12289 3 [1; 128; 0; 0; 0; 3] = Ok [1; 2; 12288] /\
  mdeserialize_vector p12289 3 [1; 128; 0; 0; 0] = Err InvalidArgument.
Proof. split; vm_compute; reflexivity. Qed.

Print Assumptions C01_count_ones_64.
Print Assumptions C02_create_consistent.
Print Assumptions C03_import_export.
Print Assumptions C04_ring_operations.
Print Assumptions C05_equality_refuted.
Print Assumptions C06_fused_mul_add.
Print Assumptions C07_multiplicative_inverse_prime.
Print Assumptions C07_multiplicative_inverse_fast.
Print Assumptions C08_batch_fused_mul_add.
Print Assumptions C09_transcribe.
Print Assumptions C10_serialize_vector.
Print Assumptions C11_deserialize_vector_range_partial.
