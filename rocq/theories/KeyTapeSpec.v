(** Specification vocabulary for C98: the distribution of public keys, Galois
    keys and relinearization keys. *)
From Verif Require Import Base FinSum PolySpec SymSpec Montgomery MontBatch Prng Sampling Relin RnsPoly RnsSpec DistSpec TapeSpec PubTapeSpec.

(** Generators that are tapes of bytes: the seed is the tape. *)
Definition tape_fam : genfam := {| gf_prng := fun _ => tape; gf_start := fun _ seed => Ok seed |}.

(** The sum over d error vectors of n coefficients, each weighted as in
    [over_errors]. *)
Fixpoint over_rounds (v : Z) (n d : nat) (F : list (list Z) -> Z) : Z :=
  match d with
  | O => F []
  | S d' => over_errors v n (fun e => over_rounds v n d' (fun es => F (e :: es)))
  end.

Definition rounds (v : Z) (n d : nat) (es : list (list Z)) : Prop := length es = d /\ Forall (errors v n) es.

(** the call succeeded and its result passes the test *)
Definition succeeds {A : Type} (test : A -> bool) (res : result A) : bool := match res with Ok x => test x | _ => false end.

(** the multiples w_j f *)
Definition multiples (ws : list Z) (f : nat -> Z) : list (nat -> Z) := map (fun w i => w * f i) ws.

(** bs are the polynomials t e_j + h_j - f_j s: with f_j, encryptions of h_j under s *)
Definition encryptions (ms : list pmod) (L : nat) (t : Z) (s : nat -> Z) (hs fs : list (nat -> Z)) (es : list (list Z)) (bs : list rpoly) : Prop :=
  length bs = length hs /\ forall j b h f e, nth_error bs j = Some b -> nth_error hs j = Some h -> nth_error fs j = Some f -> nth_error es j = Some e ->
    rns_is ms L true b (fun i => t * nth i e 0 + h i - negacyclic (2 ^ L) f s i).

(** the pads are the matrices vss *)
Definition gave_pads (vss : list (list (list Z))) (pads : list rpoly) : bool :=
  if list_eq_dec (list_eq_dec (list_eq_dec Z.eq_dec)) (map rp_vs pads) vss then true else false.
