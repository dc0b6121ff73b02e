(** Specification vocabulary for the encryption schemes: what a ciphertext
    encrypts, stated with integer polynomials modulo X^n + 1. *)
From Verif Require Import Base FinSum PolySpec Montgomery Ntt Poly PolyView Spec SymEnc NttFacts.

(** the i-th power of f modulo X^n + 1 *)
Fixpoint npow (n : nat) (f : nat -> Z) (i : nat) : nat -> Z :=
  match i with
  | O => pconst 1
  | S i' => negacyclic n (npow n f i') f
  end.

(** c_0 + c_1 s + c_2 s^2 + ... modulo X^n + 1, the quantity decryption looks
    at; [cs i] is component i, [num] the number of components *)
Definition phase (n : nat) (s : nat -> Z) (num : nat) (cs : nat -> nat -> Z) (k : nat) : Z :=
  zsum num (fun i => negacyclic n (cs i) (npow n s i) k).

(** sum of the absolute values of the coefficients *)
Definition l1 (n : nat) (f : nat -> Z) : Z := zsum n (fun i => Z.abs (f i)).

(** the coefficients of the secret key, between 0 and q *)
Definition secret (key : skey) : nat -> Z := coeff (sk_p key) (sk_np key) (sk_key key).

(** ... and with sign *)
Definition signed_secret (key : skey) (i : nat) : Z := centered (p_m (sk_p key)) (secret key i).

(** component i of a ciphertext as a polynomial; np are the NTT parameters *)
Definition component (np : nttp) (x : ct) (i : nat) : nat -> Z := coeff (ct_p x) np (nth i (ct_c x) []).

(** [key] is a key of degree 2^L over the k-bit modulus q whose plaintext
    modulus is t *)
Record key_ok (k q : Z) (L : nat) (t : Z) (key : skey) : Prop := {
  ko_params : params_for k q (sk_p key);
  ko_ntt : ntt_for (sk_p key) L (sk_np key);
  ko_key : ntt_poly (sk_p key) L (sk_key key);
  ko_t : export_int (sk_pt key) (sk_t key) = t
}.

(** [x] is a well-formed ciphertext over the ring of [key] (any number of
    components, any stored values) *)
Definition ct_ok (L : nat) (key : skey) (x : ct) : Prop :=
  ct_p x = sk_p key /\ Forall (ntt_poly (sk_p key) L) (ct_c x).

(** [x] encrypts the noisy plaintext f (message + t * error) under [key]: its
    phase is f modulo q *)
Definition carries (L : nat) (key : skey) (x : ct) (f : nat -> Z) : Prop :=
  forall i, (i < 2 ^ L)%nat ->
    cong (p_m (sk_p key))
      (phase (2 ^ L) (secret key) (length (ct_c x)) (component (sk_np key) x) i) (f i).

(** the first n values of f *)
Definition tabulate (n : nat) (f : nat -> Z) : list Z := map f (seq 0 n).

(** a key that can encrypt: the stored plaintext modulus belongs to the same
    parameters as the key *)
Record enc_key (k q : Z) (L : nat) (t : Z) (key : skey) : Prop := {
  ek_key : key_ok k q L t key;
  ek_pt : sk_pt key = sk_p key;
  ek_stored : stored (sk_p key) (sk_t key)
}.

(** a sequence of fused absorptions x += a * b, applied eagerly or lazily *)
Fixpoint run_fused (x : ct) (ops : list (ct * poly)) : result ct :=
  match ops with
  | [] => Ok x
  | (a, b) :: ops' => do! x' <- ct_fused_absorb x a b; run_fused x' ops'
  end.
Fixpoint run_lazy (x : ct) (ops : list (ct * poly)) : result ct :=
  match ops with
  | [] => Ok x
  | (a, b) :: ops' => do! x' <- ct_fused_lazily x a b; run_lazy x' ops'
  end.

(** every ciphertext has at least as many components as the ones before it
    (ciphertexts without components do not matter) *)
Fixpoint growing (len : nat) (ops : list (ct * poly)) : Prop :=
  match ops with
  | [] => True
  | (a, _) :: ops' => (ct_c a = [] \/ (len <= length (ct_c a))%nat) /\ growing (Nat.max len (length (ct_c a))) ops'
  end.
