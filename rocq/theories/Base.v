(** Common vocabulary of the model: outcomes of a call, machine words.

    Every function of the C++ library that returns [absl::Status] or
    [absl::StatusOr<T>] is modelled by a function returning [result A]
    ([RLWE_ASSIGN_OR_RETURN] / [RLWE_RETURN_IF_ERROR] of
    /repo/shell_encryption/status_macros.h become [bind]).  Undefined behaviour
    of the C++ abstract machine is the separate outcome [UB]. *)

From Coq Require Export ZArith List Bool Lia.
Export ListNotations.
Open Scope Z_scope.

Inductive code := InvalidArgument | FailedPrecondition | Internal | Unknown.

Inductive result (A : Type) : Type :=
| Ok (a : A)
| Err (c : code)
| UB.
Arguments Ok {A} a.
Arguments Err {A} c.
Arguments UB {A}.

Definition bind {A B} (r : result A) (f : A -> result B) : result B :=
  match r with Ok a => f a | Err c => Err c | UB => UB end.

Notation "'do!' x <- e ; f" := (bind e (fun x => f))
  (at level 200, x name, e at level 100, f at level 200).
Notation "'do!' ' p <- e ; f" := (bind e (fun p => f))
  (at level 200, p strict pattern, e at level 100, f at level 200).

Definition rmap {A B} (f : A -> B) (r : result A) : result B :=
  do! a <- r; Ok (f a).

(** Sequence a list of results, left to right (a loop with early return). *)
Fixpoint seqr {A} (l : list (result A)) : result (list A) :=
  match l with
  | [] => Ok []
  | r :: rs => do! a <- r; do! xs <- seqr rs; Ok (a :: xs)
  end.

(** Truncation to a [k]-bit unsigned word (integral_types.h, absl::uint128,
    uint256): the value of [static_cast<UintK>(x)] and of every unsigned
    operation whose mathematical result is [x]. *)
Definition wrap (k x : Z) : Z := x mod 2 ^ k.

(** [x >> s] on unsigned words. *)
Definition shr (x s : Z) : Z := x / 2 ^ s.

(** Multiplication of two [k]-bit operands as written [a * b] in C++.  For
    [k = 16] the operands are promoted to (signed 32-bit) [int] and an overflow
    of [int] is undefined; for wider types the product wraps. *)
Definition mul_int (k a b : Z) : result Z :=
  if (k =? 16) && (2 ^ 31 <=? a * b) then UB else Ok (wrap k (a * b)).

(** Replace element [i] of a vector. *)
Fixpoint upd {A} (l : list A) (i : nat) (x : A) : list A :=
  match l, i with
  | [], _ => []
  | _ :: t, O => x :: t
  | h :: t, S i' => h :: upd t i' x
  end.

(** Checked indexing of a [std::vector]: out of range is undefined. *)
Definition get {A} (l : list A) (i : nat) : result A :=
  match nth_error l i with Some x => Ok x | None => UB end.

(** The word sizes the library instantiates (montgomery.cc lines 511-526:
    Uint16, Uint32, Uint64, absl::uint128 / unsigned __int128). *)
Definition word_size (k : Z) : Prop := k = 16 \/ k = 32 \/ k = 64 \/ k = 128.
