(** Specification vocabulary for key switching. *)
From Verif Require Import Base FinSum PolySpec Montgomery Ntt Poly PolyView Spec SymEnc SymSpec NttFacts PolyExt Relin.

(** x encrypts the noisy plaintext f under the secret polynomial s (in the ring
    of [key]); [carries] is the case s = secret key *)
Definition carries_under (L : nat) (key : skey) (s : nat -> Z) (x : ct) (f : nat -> Z) : Prop :=
  forall i, (i < 2 ^ L)%nat ->
    cong (p_m (sk_p key)) (phase (2 ^ L) s (length (ct_c x)) (component (sk_np key) x) i) (f i).

(** the secret key with X replaced by X^power, as a polynomial *)
Definition secret_at (L : nat) (key : skey) (power : Z) : nat -> Z :=
  substituted (2 ^ L) (Z.to_nat power) (secret key).

(** column i of a key switching matrix, read as a two-component ciphertext *)
Definition column (p : mparams) (pt : part) (i : nat) : ct :=
  ct_make p [nth i (pt_top pt) []; nth i (pt_bot pt) []] 1.

(** column i encrypts 2^(logT * i) * s^a with an error t * e, |e| <= 2 v *)
Definition part_ok (L : nat) (t v logT : Z) (key : skey) (s : nat -> Z) (a dim : nat) (pt : part) : Prop :=
  length (pt_top pt) = dim /\ length (pt_bot pt) = dim /\ pt_logT pt = logT /\
  forall i, (i < dim)%nat -> ct_ok L key (column (sk_p key) pt i) /\
    exists e, (forall l, (l < 2 ^ L)%nat -> Z.abs (e l) <= 2 * v) /\
      carries L key (column (sk_p key) pt i)
        (fun l => t * e l + 2 ^ (Z.of_nat i * logT) * npow (2 ^ L) s a l).

(** a usable key switching key from s(X^power) to [key], for ciphertexts of
    rk_num components *)
Record relin_ok (L : nat) (t v : Z) (key : skey) (rk : relin) : Prop := {
  ro_p : rk_p rk = sk_p key;
  ro_np : rk_np rk = sk_np key;
  ro_logT : 1 <= rk_logT rk <= p_logm (sk_p key);
  ro_pow : 0 < rk_pow rk < 2 * 2 ^ Z.of_nat L /\ Z.odd (rk_pow rk) = true;
  ro_num : (if rk_pow rk =? 1 then 2 else 1) < rk_num rk;
  ro_parts : Z.of_nat (length (rk_parts rk)) = rk_num rk - (if rk_pow rk =? 1 then 2 else 1);
  ro_each : forall j pt, nth_error (rk_parts rk) j = Some pt ->
    part_ok L t v (rk_logT rk) key (secret_at L key (rk_pow rk))
      (Z.to_nat (if rk_pow rk =? 1 then 2 else 1) + j) (Z.to_nat (gadget_size (sk_p key) (rk_logT rk))) pt
}.

(** bound on the error added by relinearization, in multiples of t *)
Definition relin_noise (L : nat) (v : Z) (rk : relin) : Z :=
  Z.of_nat (length (rk_parts rk)) *
  (gadget_size (rk_p rk) (rk_logT rk) * (2 ^ Z.of_nat L * ((2 ^ rk_logT rk - 1) * (2 * v)))).
