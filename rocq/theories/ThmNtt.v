(** Property theorems C15-C17: NTT parameters and transforms. *)
From Coq Require Import Znumtheory.
From Verif Require Import Base FinSum Montgomery Ntt MontgomeryProofs Spec ArithFacts NttProofs NttFacts
  PrimeCheck ThmArith.

(** [ntt_for p L np]: the modulus is prime and InitializeNttParameters(L)
    returned np. [ntt_root p np]: the root psi held in the table.
    [bit_reversal L i]: i with its low L bits reversed. *)

(** ** C15 *)

Theorem C15_init_succeeds :
  forall k m p log_n, params_for k m p -> prime m ->
  1 <= log_n <= 15 -> m mod 2 ^ (log_n + 1) = 1 -> exists np, init_ntt p log_n = Ok np.
Proof.
  intros k m p log_n H Hp Hl Hm. pose proof (pf_good _ _ _ H) as (G & <- & <-).
  destruct (init_ntt_ok p G Hp log_n Hl (fit_of_mod p log_n G ltac:(lia) Hm) Hm) as (np & X & E & _).
  exists np. exact E.
Qed.

Theorem C15_init_rejects :
  forall k m p log_n, params_for k m p ->
  ~ (1 <= log_n <= 15 /\ m mod 2 ^ (log_n + 1) = 1) -> init_ntt p log_n = Err InvalidArgument.
Proof. exact init_reject. Qed.

Theorem C15_init_wellformed :
  forall k m p L np, params_for k m p -> ntt_for p L np ->
  let psi := ntt_root p np in let n := (2 ^ L)%nat in
  np_n np = n /\ 0 <= psi < m /\ psi ^ Z.of_nat n mod m = m - 1 /\
  psi ^ (2 * Z.of_nat n) mod m = 1 /\
  (forall e, 0 < e < 2 * Z.of_nat n -> psi ^ e mod m <> 1) /\
  length (np_psis np) = n /\ length (np_psis_inv np) = n /\
  (forall i, (i < n)%nat ->
     reduced p (nth i (np_psis np) 0) /\ reduced p (nth i (np_psis_inv np) 0) /\
     export_int p (nth i (np_psis np) 0) = psi ^ Z.of_nat (bit_reversal L i) mod m /\
     (export_int p (nth i (np_psis_inv np) 0) * psi ^ Z.of_nat (bit_reversal L i + 1)) mod m = 1) /\
  np_psis_c np = map (get_constant p) (np_psis np) /\
  np_psis_inv_c np = map (get_constant p) (np_psis_inv np) /\
  np_bitrevs np = map (bit_reversal L) (seq 0 n) /\
  reduced p (np_ninv np) /\ (export_int p (np_ninv np) * Z.of_nat n) mod m = 1.
Proof. exact init_wellformed. Qed.

(** A concrete instance: modulus 12289, 16 coefficients. *)
Definition np16 : nttp := Eval vm_compute in
  (match init_ntt p12289 4 with Ok np => np | _ => Build_nttp 0 0 [] [] [] [] [] end).

Example np16_for : ntt_for p12289 4 np16.
Proof. split; [exact prime_12289|vm_compute; reflexivity]. Qed.

Example C15_example : ntt_root p12289 np16 = 5860 /\ 5860 ^ 16 mod 12289 = 12288.
Proof. split; vm_compute; reflexivity. Qed.

(** ** C16 *)

Theorem C16_forward_evaluates :
  forall k m p L np v, params_for k m p -> ntt_for p L np ->
  length v = (2 ^ L)%nat -> Forall (stored p) v ->
  exists out, forward_ntt p np v = Ok out /\ length out = (2 ^ L)%nat /\ Forall (reduced p) out /\
    forall j, (j < 2 ^ L)%nat ->
      export_int p (nth j out 0) =
      zsum (2 ^ L) (fun i => export_int p (nth i v 0) *
                    ntt_root p np ^ Z.of_nat ((2 * bit_reversal L j + 1) * i)) mod m.
Proof. exact forward_evaluates. Qed.

Theorem C16_bad_length :
  forall p np v, v <> [] -> length v <> (2 ^ Nat.log2 (length v))%nat ->
  forward_ntt p np v = Err InvalidArgument /\ inverse_ntt p np v = Err InvalidArgument.
Proof. exact ntt_bad_length. Qed.

(** A power-of-two length larger than the parameters' is not rejected: the
    table is read out of bounds. *)
Theorem C16_forward_longer_vector_refuted :
  exists k m p L np v, params_for k m p /\ ntt_for p L np /\ Forall (reduced p) v /\
    length v = (2 ^ S L)%nat /\ forward_ntt p np v = UB.
Proof.
  exists 16, 12289, p12289, 4%nat, np16, (repeat 1 32).
  split; [exact p12289_for|]. split; [exact np16_for|].
  split. { apply Forall_forall. intros x Hx. apply repeat_spec in Hx. subst. split; vm_compute; congruence. }
  split; vm_compute; reflexivity.
Qed.

Example C16_example :
  Forall (stored p12289) (map Z.of_nat (seq 5 16)) /\
  forward_ntt p12289 np16 (map Z.of_nat (seq 5 16)) =
  Ok [11188; 12101; 12009; 230; 9479; 10417; 12013; 396; 3724; 9517; 1558;
      2980; 10484; 11127; 3371; 87].
Proof.
  split; [|vm_compute; reflexivity].
  apply Forall_forall. intros x Hx. apply in_map_iff in Hx. destruct Hx as (y & <- & Hy).
  apply in_seq in Hy. unfold stored. change (p_m p12289) with 12289. lia.
Qed.

(** ** C17 *)

Theorem C17_inverse_inverts :
  forall k m p L np v, params_for k m p -> ntt_for p L np ->
  length v = (2 ^ L)%nat -> Forall (stored p) v ->
  (exists o, forward_ntt p np v = Ok o /\ inverse_ntt p np o = Ok (map (fun x => x mod m) v)) /\
  (exists o, inverse_ntt p np v = Ok o /\ forward_ntt p np o = Ok (map (fun x => x mod m) v)) /\
  map (export_int p) (map (fun x => x mod m) v) = map (export_int p) v.
Proof. exact inverse_then. Qed.

Example C17_example :
  forward_ntt p12289 np16 (map Z.of_nat (seq 5 16)) <> Ok (map Z.of_nat (seq 5 16)) /\
  bind (forward_ntt p12289 np16 (map Z.of_nat (seq 5 16))) (inverse_ntt p12289 np16) =
  Ok (map Z.of_nat (seq 5 16)).
Proof. split; [vm_compute; discriminate|vm_compute; reflexivity]. Qed.

Print Assumptions C15_init_succeeds.
Print Assumptions C15_init_wellformed.
Print Assumptions C16_forward_evaluates.
Print Assumptions C17_inverse_inverts.
