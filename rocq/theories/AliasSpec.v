(** Specification vocabulary for methods whose operands may be the object they
    are called on. *)
From Verif Require Import Base Montgomery Poly SymEnc RnsPoly RnsCt Alias.

(** the values of the objects in a memory *)
Definition poly_at (s : store) (x : robj) : rpoly :=
  {| rp_logn := ro_logn x; rp_vs := map (fun a => nth a s []) (ro_rows x); rp_ntt := ro_ntt x |}.
Definition rct_at (s : store) (x : rcobj) : rct := rct_make (map (poly_at s) (rco_c x)) (rco_ms x) (rco_pow x).
Definition ct_at (s : store) (x : cobj) : ct := ct_make (co_p x) (map (fun a => nth a s []) (co_c x)) (co_pow x).

(** the addresses of an object *)
Definition rcells (x : rcobj) : list nat := flat_map ro_rows (rco_c x).

(** an object in a memory has its own distinct vectors *)
Definition stored (s : store) (l : list nat) : Prop := NoDup l /\ Forall (fun a => (a < length s)%nat) l.

Definition apart (l m : list nat) : Prop := forall a, In a l -> ~ In a m.

(** the vectors that the memory s has outside l are the same in s' *)
Definition only_changes (l : list nat) (s s' : store) : Prop :=
  (length s <= length s')%nat /\ forall a, (a < length s)%nat -> ~ In a l -> nth a s' [] = nth a s [].

(** The call [call], made in memory s on an object with the vectors l, does what
    [by_value] says: the same status; unless it is undefined, afterwards the
    object is the one [by_value] leaves, and no other vector has changed. *)
Definition same_as_by_value {A} (at_ : store -> A) (l : list nat) (s : store) (call : result unit * store) (by_value : result unit * A) : Prop :=
  fst call = fst by_value /\
  (fst call <> UB -> at_ (snd call) = snd by_value /\ only_changes l s (snd call)).

(** The same for a method that may give the ciphertext more components: the call
    returns the memory and the addresses of the components. *)
Definition same_ct_as_by_value (x : cobj) (s : store) (call : result unit * (store * list nat)) (by_value : result unit * ct) : Prop :=
  fst call = fst by_value /\
  (fst call <> UB ->
   ct_at (fst (snd call)) {| co_c := snd (snd call); co_pow := co_pow x; co_p := co_p x |} = snd by_value /\
   only_changes (co_c x) s (fst (snd call))).
