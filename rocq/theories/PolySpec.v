(** Specification vocabulary for the ring Z[X]/(X^n+1). A polynomial is the
    function giving its coefficients; only positions below n matter. *)
From Verif Require Import Base FinSum.

(** value of f at x *)
Definition peval (n : nat) (f : nat -> Z) (x : Z) : Z :=
  zsum n (fun i => f i * x ^ Z.of_nat i).

(** coefficient k of f * g modulo X^n + 1 *)
Definition negacyclic (n : nat) (f g : nat -> Z) (k : nat) : Z :=
  zsum n (fun i => if (i <=? k)%nat then f i * g (k - i)%nat else - (f i * g (k + n - i)%nat)).

(** coefficient k of f(X^power) modulo X^n + 1: X^(i*power) is X^e for
    e = i*power mod 2n if e < n, and -X^(e-n) otherwise *)
Definition substituted (n : nat) (power : nat) (f : nat -> Z) (k : nat) : Z :=
  zsum n (fun i => if (i * power mod (2 * n) =? k)%nat then f i
                   else if (i * power mod (2 * n) =? k + n)%nat then - f i else 0).

(** the constant polynomial c *)
Definition pconst (c : Z) (k : nat) : Z := if (k =? 0)%nat then c else 0.

(** the representative of x modulo q in (-q/2, q/2) (q odd), resp. (-q/2, q/2] *)
Definition centered (q x : Z) : Z := if 2 * (x mod q) <=? q then x mod q else x mod q - q.

(** x lies in the centred interval of q *)
Definition fits (q x : Z) : Prop := - q < 2 * x <= q.
