(** Vocabulary of the sampling theorems: generators, draws, scripts, counting. *)
From Verif Require Import Base FinSum Prng.

(** A well-behaved generator: Rand8 returns bytes, Rand64 64-bit words. It may
    fail. *)
Definition prng_ok (R : prng) : Prop :=
  (forall s, match pr_rand8 R s with Ok (x, _) => 0 <= x < 2 ^ 8 | _ => True end) /\
  (forall s, match pr_rand64 R s with Ok (x, _) => 0 <= x < 2 ^ 64 | _ => True end).

(** From state s the generator yields the values ds, one per requested width
    (8 or 64 bits), and ends in state s'. *)
Inductive draws (R : prng) : list Z -> pr_st R -> list Z -> pr_st R -> Prop :=
| draws_nil s : draws R [] s [] s
| draws_8 ws s x s1 ds s' : pr_rand8 R s = Ok (x, s1) -> draws R ws s1 ds s' ->
    draws R (8 :: ws) s (x :: ds) s'
| draws_64 ws s x s1 ds s' : pr_rand64 R s = Ok (x, s1) -> draws R ws s1 ds s' ->
    draws R (64 :: ws) s (x :: ds) s'.

(** Sum of F over all scripts ds with ds_i < 2^(ws_i). *)
Fixpoint over (ws : list Z) (F : list Z -> Z) : Z :=
  match ws with
  | [] => F []
  | w :: t => zsum (Z.to_nat (2 ^ w)) (fun d => over t (fun ds => F (Z.of_nat d :: ds)))
  end.

(** The number of scripts of the given widths satisfying a test. *)
Definition count_scripts (ws : list Z) (test : list Z -> bool) : Z :=
  over ws (fun ds => Z.b2z (test ds)).

Definition total (ws : list Z) : Z := fold_right Z.add 0 ws.

(** Number of ones among the low n bits of x. *)
Definition popcount (n : nat) (x : Z) : Z :=
  zsum n (fun i => Z.b2z (Z.testbit x (Z.of_nat i))).

(** Binomial coefficients by Pascal's rule (zero outside 0..n). *)
Fixpoint binom (n : nat) (j : Z) : Z :=
  match n with
  | O => if j =? 0 then 1 else 0
  | S n' => binom n' (j - 1) + binom n' j
  end.
