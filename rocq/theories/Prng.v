(** Models of prng/*.{h,cc}. The cryptographic primitives are parameters. *)
From Verif Require Import Base.

(** prng/prng.h lines 28-37: the SecurePrng interface. A generator is any state
    machine with these two calls. *)
Record prng := { pr_st : Type;
                 pr_rand8 : pr_st -> result (Z * pr_st);
                 pr_rand64 : pr_st -> result (Z * pr_st) }.

(** prng/chacha_prng.h lines 86-88 (and the three other classes): the mutable state.
    [salt_counter] and [position_in_buffer] are C++ ints. *)
Record bstate := { b_pos : Z; b_salt : Z; b_buf : list Z }.

(** kChaChaOutputBytes / kHkdfMaxOutputBytes = 255 * 32
    (chacha_prng_util.h line 36, hkdf_prng_util.h line 43) *)
Definition output_bytes : Z := 255 * 32.

(** the 8 little-endian bytes of a counter (chacha_prng_util.cc lines 42-46) *)
Fixpoint le_bytes (n : nat) (c : Z) : list Z :=
  match n with O => [] | S n' => Z.land c 255 :: le_bytes n' (shr c 8) end.

(** chacha_prng_util.cc lines 38-46: "salt" followed by the counter. *)
Definition chacha_nonce (counter : Z) : list Z := [115; 97; 108; 116] ++ le_bytes 8 counter.

(** prng/hkdf_prng_util.cc line 31: decimal digits, most significant first, as printed by absl::StrCat *)
Fixpoint dec_digits (fuel : nat) (n : Z) (acc : list Z) : list Z :=
  match fuel with
  | O => acc
  | S f => let acc := (48 + n mod 10) :: acc in
           if n / 10 =? 0 then acc else dec_digits f (n / 10) acc
  end.

(** hkdf_prng_util.cc line 31: StrCat("salt", counter). *)
Definition hkdf_salt (counter : Z) : list Z := [115; 97; 108; 116] ++ dec_digits 20 counter [].

(** What Resalt asks the primitive for: ChaCha20 key stream for a key, a nonce
    and a length; HKDF-SHA256 output for a key, a salt and a length. The first
    cannot fail, the second returns a status. *)
Definition chacha_block (chacha20 : list Z -> list Z -> Z -> list Z) (key : list Z) (salt : Z)
  : result (list Z) := Ok (chacha20 key (chacha_nonce salt) output_bytes).
Definition hkdf_block (hkdf : list Z -> list Z -> Z -> result (list Z)) (key : list Z) (salt : Z)
  : result (list Z) := hkdf key (hkdf_salt salt) output_bytes.

Section Buffered.
(** the refill function of the key: chacha_block or hkdf_block *)
Variable block : Z -> result (list Z).

(** chacha_prng_util.cc lines 30-59, hkdf_prng_util.cc lines 28-43: Resalt.
    Incrementing the int counter past INT_MAX is undefined. *)
Definition resalt (s : bstate) : result bstate :=
  do! buf <- block (b_salt s);
  if b_salt s =? 2 ^ 31 - 1 then UB
  else Ok {| b_pos := 0; b_salt := b_salt s + 1; b_buf := buf |}.

(** chacha_prng_util.cc lines 73-85, hkdf_prng_util.cc lines 49-60: Rand8.
    [buffer->at] throws when out of range, modelled as UB. The buffer
    holds Uint8 elements, hence the conversion. *)
Definition buf_rand8 (s : bstate) : result (Z * bstate) :=
  do! s <- (if Z.of_nat (length (b_buf s)) <=? b_pos s then resalt s else Ok s);
  do! x <- get (b_buf s) (Z.to_nat (b_pos s));
  Ok (wrap 8 x, {| b_pos := b_pos s + 1; b_salt := b_salt s; b_buf := b_buf s |}).

(** chacha_prng_util.cc lines 87-98, hkdf_prng_util.cc lines 62-73: Rand64. *)
Fixpoint rand64_loop (n : nat) (i acc : Z) (s : bstate) : result (Z * bstate) :=
  match n with
  | O => Ok (acc, s)
  | S n' => do! ' (x, s) <- buf_rand8 s; rand64_loop n' (i + 1) (wrap 64 (acc + wrap 64 (x * 2 ^ (8 * i)))) s
  end.
Definition buf_rand64 (s : bstate) : result (Z * bstate) := rand64_loop 8 0 0 s.
End Buffered.

(** chacha_prng.cc lines 35-52 (SingleThreadChaChaPrng, HkdfPrng and
    SingleThreadHkdfPrng are identical up to the seed length): Create. *)
Definition prng_create (seed_length : nat) (block : list Z -> Z -> result (list Z)) (key : list Z)
  : result bstate :=
  if negb (Nat.eqb (length key) seed_length) then Err InvalidArgument
  else resalt (block key) {| b_pos := 0; b_salt := 0; b_buf := [] |}.

Definition chacha_create (chacha20 : list Z -> list Z -> Z -> list Z) (key : list Z) : result bstate :=
  prng_create 32 (chacha_block chacha20) key.
Definition hkdf_create (hkdf : list Z -> list Z -> Z -> result (list Z)) (key : list Z) : result bstate :=
  prng_create 64 (hkdf_block hkdf) key.

(** The generator object for a key. *)
Definition buffered (block : Z -> result (list Z)) : prng :=
  {| pr_st := bstate; pr_rand8 := buf_rand8 block; pr_rand64 := buf_rand64 block |}.

(** ** The thread-safe classes: every call holds the mutex
    (chacha_prng.cc lines 54-64, hkdf_prng.cc lines 54-64).

    Interleaving semantics: a thread acquires the mutex, performs one or eight
    byte reads (each a separate step), releases the mutex and returns. *)
Inductive call := CallRand8 | CallRand64.
Definition call_reads (c : call) : nat := match c with CallRand8 => 1 | CallRand64 => 8 end.

(** What a running call has read so far: bytes, first one first. *)
Record running := { r_tid : nat; r_call : call; r_bytes : list Z }.

(** The whole system: generator state, the holder of the mutex (if any) with
    its progress, and the results returned so far, latest first. *)
Record sys := { y_st : bstate; y_run : option running; y_log : list (nat * call * Z) }.

(** the number made of bytes, least significant first: the loop of Rand64, prng/chacha_prng_util.cc lines 87-98 *)
Fixpoint le_value (l : list Z) : Z := match l with [] => 0 | b :: t => b + 256 * le_value t end.

Inductive sys_step (block : Z -> result (list Z)) : sys -> sys -> Prop :=
| step_acquire st log tid c :
    sys_step block {| y_st := st; y_run := None; y_log := log |}
             {| y_st := st; y_run := Some {| r_tid := tid; r_call := c; r_bytes := [] |}; y_log := log |}
| step_read st st' log r x :
    (length (r_bytes r) < call_reads (r_call r))%nat ->
    buf_rand8 block st = Ok (x, st') ->
    sys_step block {| y_st := st; y_run := Some r; y_log := log |}
             {| y_st := st'; y_run := Some {| r_tid := r_tid r; r_call := r_call r; r_bytes := r_bytes r ++ [x] |}; y_log := log |}
| step_return st log r :
    length (r_bytes r) = call_reads (r_call r) ->
    sys_step block {| y_st := st; y_run := Some r; y_log := log |}
             {| y_st := st; y_run := None; y_log := (r_tid r, r_call r, le_value (r_bytes r)) :: log |}.

Inductive sys_steps (block : Z -> result (list Z)) : sys -> sys -> Prop :=
| steps_refl y : sys_steps block y y
| steps_next y y' y'' : sys_steps block y y' -> sys_step block y' y'' -> sys_steps block y y''.
