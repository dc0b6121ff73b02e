(** Vocabulary of the generator theorems. *)
From Verif Require Import Base Prng.

(** the calls of one client, in order *)
Definition gen_call (R : prng) (c : call) (s : pr_st R) : result (Z * pr_st R) :=
  match c with CallRand8 => pr_rand8 R s | CallRand64 => pr_rand64 R s end.
Fixpoint run_calls (R : prng) (cs : list call) (s : pr_st R) : result (list Z * pr_st R) :=
  match cs with
  | [] => Ok ([], s)
  | c :: t => do! ' (x, s) <- gen_call R c s; do! ' (xs, s) <- run_calls R t s; Ok (x :: xs, s)
  end.

(** Byte i of the stream B 0 ++ B 1 ++ B 2 ++ ..., blocks of 8160 bytes. *)
Definition stream_byte (B : Z -> list Z) (i : Z) : Z := nth (Z.to_nat (i mod (255 * 32))) (B (i / (255 * 32))) 0.

(** The n bytes from i on, read as a little-endian number. *)
Fixpoint stream_number (B : Z -> list Z) (n : nat) (i : Z) : Z :=
  match n with O => 0 | S n' => stream_byte B i + 256 * stream_number B n' (i + 1) end.

(** What a sequence of calls should return when it starts at byte i: Rand8 takes
    the next byte, Rand64 the next eight. *)
Fixpoint expected (B : Z -> list Z) (i : Z) (cs : list call) : list Z :=
  match cs with
  | [] => []
  | CallRand8 :: t => stream_byte B i :: expected B (i + 1) t
  | CallRand64 :: t => stream_number B 8 i :: expected B (i + 8) t
  end.

(** bytes a sequence of calls consumes *)
Definition reads (cs : list call) : Z :=
  fold_right Z.add 0 (map (fun c => match c with CallRand8 => 1 | CallRand64 => 8 end) cs).

(** The int counter of blocks can take the values 0 .. 2^31 - 2 before it
    overflows. *)
Definition capacity : Z := (2 ^ 31 - 1) * (255 * 32).

(** calls and results of a log of returned calls *)
Definition log_calls (log : list (nat * call * Z)) : list call := map (fun e => snd (fst e)) log.
Definition log_results (log : list (nat * call * Z)) : list Z := map snd log.
