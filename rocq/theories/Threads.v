(** Threads that share one generator object: the calls Rand8 and Rand64 as
    sequences of accesses to its members, with the mutex of the thread-safe
    classes (ChaChaPrng, HkdfPrng) or without it (the SingleThread classes).

    A thread makes one call at a time. Each access to a member is one step and
    the steps of the threads interleave in any order; the C++ memory model calls
    concurrent accesses without a mutex undefined, so for the SingleThread classes
    these interleavings are only the best case. *)
From Verif Require Import Base Prng.

(** Where a thread is in Rand8 (chacha_prng_util.cc lines 73-85,
    hkdf_prng_util.cc lines 49-60) and, inside it, in Resalt (chacha_prng_util.cc
    lines 30-59, hkdf_prng_util.cc lines 28-43). *)
Inductive pc :=
| Check            (* position_in_buffer >= buffer->size() ? *)
| Fill             (* compute a block and assign it to the buffer *)
| Count            (* ++salt_counter *)
| Rewind           (* position_in_buffer = 0 *)
| Read             (* rand = buffer->at(position_in_buffer) *)
| Incr (x : Z)     (* ++position_in_buffer *)
| Done.            (* all bytes are there: return the number *)

(** a call of prng/chacha_prng.cc lines 54-64 in progress and the bytes it has got so far, first one first *)
Record frame := { f_call : call; f_got : list Z; f_pc : pc }.

(** the members of the object (prng/chacha_prng.h), the holder of the mutex, the calls in progress,
    and the calls that have returned, in the order of their return *)
Record machine := { m_mem : bstate; m_mutex : option nat; m_thr : nat -> option frame; m_history : list (nat * call * result Z) }.

Definition set_thr (f : nat -> option frame) (tid : nat) (x : option frame) : nat -> option frame :=
  fun t => if Nat.eqb t tid then x else f t.
(** thread [tid] goes on at [p] with the members [s] *)
Definition goto (m : machine) (tid : nat) (fr : frame) (p : pc) (s : bstate) : machine :=
  {| m_mem := s; m_mutex := m_mutex m; m_thr := set_thr (m_thr m) tid (Some {| f_call := f_call fr; f_got := f_got fr; f_pc := p |});
     m_history := m_history m |}.
(** the call of [tid] ends with [r]: the destructor of MutexLock (prng/chacha_prng.cc lines 55, 61) releases the mutex *)
Definition leave (locked : bool) (m : machine) (tid : nat) (fr : frame) (r : result Z) : machine :=
  {| m_mem := m_mem m; m_mutex := (if locked then None else m_mutex m); m_thr := set_thr (m_thr m) tid None;
     m_history := m_history m ++ [(tid, f_call fr, r)] |}.

(** [locked]: Rand8 and Rand64 start by MutexLock lock(&mu_) (chacha_prng.cc
    lines 54-64, hkdf_prng.cc lines 54-64); single_thread_chacha_prng.cc lines
    54-62 and single_thread_hkdf_prng.cc lines 54-62 do without. A block that cannot be
    computed ends the call with the error (RLWE_RETURN_IF_ERROR,
    RLWE_ASSIGN_OR_RETURN). Incrementing the counter past INT_MAX and a position
    outside the buffer have no step. *)
Inductive tstep (locked : bool) (block : Z -> result (list Z)) (tid : nat) : machine -> machine -> Prop :=
| t_begin m c :
    m_thr m tid = None -> (locked = true -> m_mutex m = None) ->
    tstep locked block tid m
      {| m_mem := m_mem m; m_mutex := (if locked then Some tid else m_mutex m);
         m_thr := set_thr (m_thr m) tid (Some {| f_call := c; f_got := []; f_pc := Check |}); m_history := m_history m |}
| t_check m fr :
    m_thr m tid = Some fr -> f_pc fr = Check ->
    tstep locked block tid m
      (goto m tid fr (if Z.of_nat (length (b_buf (m_mem m))) <=? b_pos (m_mem m) then Fill else Read) (m_mem m))
| t_fill m fr buf :
    m_thr m tid = Some fr -> f_pc fr = Fill -> block (b_salt (m_mem m)) = Ok buf ->
    tstep locked block tid m
      (goto m tid fr Count {| b_pos := b_pos (m_mem m); b_salt := b_salt (m_mem m); b_buf := buf |})
| t_fill_error m fr e :
    m_thr m tid = Some fr -> f_pc fr = Fill -> block (b_salt (m_mem m)) = Err e ->
    tstep locked block tid m (leave locked m tid fr (Err e))
| t_count m fr :
    m_thr m tid = Some fr -> f_pc fr = Count -> b_salt (m_mem m) <> 2 ^ 31 - 1 ->
    tstep locked block tid m
      (goto m tid fr Rewind {| b_pos := b_pos (m_mem m); b_salt := b_salt (m_mem m) + 1; b_buf := b_buf (m_mem m) |})
| t_rewind m fr :
    m_thr m tid = Some fr -> f_pc fr = Rewind ->
    tstep locked block tid m
      (goto m tid fr Read {| b_pos := 0; b_salt := b_salt (m_mem m); b_buf := b_buf (m_mem m) |})
| t_read m fr x :
    m_thr m tid = Some fr -> f_pc fr = Read -> get (b_buf (m_mem m)) (Z.to_nat (b_pos (m_mem m))) = Ok x ->
    tstep locked block tid m (goto m tid fr (Incr (wrap 8 x)) (m_mem m))
| t_incr m fr x :
    m_thr m tid = Some fr -> f_pc fr = Incr x ->
    tstep locked block tid m
      (goto m tid {| f_call := f_call fr; f_got := f_got fr ++ [x]; f_pc := Check |}
        (if Nat.eqb (length (f_got fr ++ [x])) (call_reads (f_call fr)) then Done else Check)
        {| b_pos := b_pos (m_mem m) + 1; b_salt := b_salt (m_mem m); b_buf := b_buf (m_mem m) |})
| t_return m fr :
    m_thr m tid = Some fr -> f_pc fr = Done ->
    tstep locked block tid m (leave locked m tid fr (Ok (le_value (f_got fr)))).

(** any number of steps of any threads *)
Inductive execution (locked : bool) (block : Z -> result (list Z)) : machine -> machine -> Prop :=
| x_refl m : execution locked block m m
| x_next m m1 m2 tid : execution locked block m m1 -> tstep locked block tid m1 m2 -> execution locked block m m2.

(** nobody is in a call *)
Definition at_rest (s : bstate) : machine := {| m_mem := s; m_mutex := None; m_thr := fun _ => None; m_history := [] |}.

(** the successful calls of one thread, in order *)
Definition seen_by (tid : nat) (h : list (nat * call * result Z)) : list (call * Z) :=
  flat_map (fun e => match e with (t, c, Ok v) => if Nat.eqb t tid then [(c, v)] else [] | _ => [] end) h.
