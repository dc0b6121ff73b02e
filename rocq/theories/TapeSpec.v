(** Specification vocabulary: programs run on a tape of uniform random bytes. *)
From Verif Require Import Base FinSum PolySpec Montgomery MontBatch Poly Prng Sampling SampleSpec SampleProofs SampleErrProofs RnsPoly RnsSpec RnsCt RnsKey DistSpec.

(** The generator that reads a given tape of bytes; a 64-bit word is eight
    bytes, least significant first. It fails at the end of the tape. *)
Fixpoint take_bytes (j : nat) (l : list Z) : result (Z * list Z) :=
  match j with
  | O => Ok (0, l)
  | S j' =>
      match l with
      | [] => Err Internal
      | b :: t => do! ' (y, r) <- take_bytes j' t; Ok (b mod 256 + 256 * y, r)
      end
  end.
Definition tape : prng := {| pr_st := list Z; pr_rand8 := take_bytes 1; pr_rand64 := take_bytes 8 |}.

(** the number of tapes of N bytes, out of 256^N, that pass the test *)
Definition count_tapes (N : nat) (test : list Z -> bool) : Z := count_scripts (repeat 8 N) test.

(** the call succeeded and returned this, whatever is left of the tape *)
Definition gave_rows (vs : list (list Z)) (res : result (rpoly * list Z)) : bool :=
  match res with Ok (a, _) => if list_eq_dec (list_eq_dec Z.eq_dec) (rp_vs a) vs then true else false | _ => false end.
Definition gave_ct (cs : list (list (list Z))) (res : result (rct * list Z)) : bool :=
  match res with Ok (x, _) => if list_eq_dec (list_eq_dec (list_eq_dec Z.eq_dec)) (map rp_vs (rt_c x)) cs then true else false | _ => false end.

(** one vector of n reduced residues for each modulus *)
Definition residue_rows (ms : list pmod) (n : nat) (vs : list (list Z)) : Prop :=
  Forall2 (fun m v => length v = n /\ Forall (fun x => 0 <= x < modulus m) v) ms vs.
(** ... and its second component is b, whatever the first *)
Definition gave_pad (b : list (list Z)) (res : result (rct * list Z)) : bool :=
  match res with Ok (x, _) => if list_eq_dec (list_eq_dec (list_eq_dec Z.eq_dec)) (tl (map rp_vs (rt_c x))) [b] then true else false | _ => false end.

(** the bytes of some words, of one attempt at n residues for each modulus, and
    of n errors *)
Definition nbytes (ws : list Z) : nat := Z.to_nat (total ws / 8).
Definition row_bytes (ms : list pmod) (n : nat) : nat := fold_right (fun m acc => n * nbytes (attempt_widths (p_logm (pm_p m))) + acc)%nat 0%nat ms.
Definition error_bytes (v : Z) (n : nat) : nat := (n * nbytes (error_widths 24 (2 * v)))%nat.

(** the first modulus, which errors are sampled for *)
Definition first_modulus (ms : list pmod) : Z := match ms with [] => 0 | m :: _ => modulus m end.

(** the pad -vs *)
Definition neg_rows (ms : list pmod) (vs : list (list Z)) : list (list Z) := map2 (fun m v => map (mneg (pm_p m)) v) ms vs.

(** key generation succeeded, with this key *)
Definition gave_key (vs : list (list Z)) (res : result (rskey * list Z)) : bool :=
  match res with Ok (key, _) => if list_eq_dec (list_eq_dec Z.eq_dec) (rp_vs (rsk_key key)) vs then true else false | _ => false end.
