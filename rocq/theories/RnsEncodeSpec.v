(** Specification vocabulary for the encoders. *)
From Coq Require Import QArith.
From Verif Require Import Base FinSum PolySpec Ring NegRing Montgomery Spec RnsPoly RnsSpec RnsCtx RnsCtxSpec.
Local Open Scope Z_scope.

(** an upper bound of the absolute value after dropping the primes qs, first one
    first, from values of absolute value at most B; t is the plaintext modulus:
    dropping q maps w to ((q mod t) w + t d) / q with |d| <= (q - 1) / 2 *)
Fixpoint residual_bound (t : Z) (qs : list Z) (B : Z) : Z :=
  match qs with
  | [] => B
  | q :: qs => residual_bound t qs (((q mod t) * B + t * ((q - 1) / 2)) / q)
  end.

(** DecodeBgv can recover values of absolute value at most B over the moduli
    q_0, ..., q_l: what remains after dropping q_l, ..., q_1 is below q_0 / 2 *)
Definition bgv_decodable (t : Z) (qs : list Z) (B : Z) : Prop :=
  match qs with [] => False | q0 :: qs => t <= q0 /\ 2 * residual_bound t (rev qs) B < q0 end.

(** messages, followed by zeros *)
Definition padded (n : nat) (msgs : list Z) : list Z := msgs ++ repeat 0 (n - length msgs).

(** DecodeBfv can recover noises of absolute value at most B over the moduli
    qs, with floating-point operations of relative error eps: below half of the
    product, with a margin for rounding errors *)
Definition bfv_decodable (k : Z) (eps : Q) (qs : list Z) (B : Z) : Prop :=
  let n := Z.of_nat (length qs) in
  n < 2 ^ k /\ (eps <= 1 # 16)%Q /\ (eps * inject_Z (n * (n + 6)) <= 1 # 2)%Q /\
  (inject_Z B < ((1 # 2) - eps * inject_Z (n * (n + 6))) * inject_Z (prodz qs))%Q.
