(** Specification vocabulary for C96. *)
From Verif Require Import Base SampleSpec TapeSpec.

(** the call has returned a value *)
Definition finished {A : Type} (r : result A) : bool := match r with Ok _ => true | _ => false end.
(** of the 256^N tapes, those on which the call has not returned a value: a
    rejection loop has used up its attempts and is still running, or the call failed *)
Definition unfinished {A : Type} (N : nat) (call : list Z -> result A) : Z := count_tapes N (fun ds => negb (finished (call ds))).
