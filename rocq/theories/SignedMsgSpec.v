(** Specification vocabulary for C89: signed messages. *)
From Verif Require Import Base Spec Montgomery MontBatch RnsPoly RnsCtx RnsCt RnsKey RnsGadget RnsPub RnsCircuitSpec SignedMsg.

(** the signed types *)
Definition signed_bits (s : Z) : Prop := In s [8; 16; 32; 64].

(** x is a value of the signed type *)
Definition signed_value (s x : Z) : Prop := - 2 ^ (s - 1) <= x < 2 ^ (s - 1).

(** x lies in the range of signed messages: at most half of t in absolute value *)
Definition in_range (t x : Z) : Prop := - t <= 2 * x <= t.

(** The same computation with every vector of (signed) messages passed through
    WrapSigned first *)
Section Circuit.
Variable wrapping : list Z -> result (list Z).
Fixpoint wrap_circuit (a : rcirc) : result rcirc :=
  match a with
  | REnc l R fuel msgs s => do! m <- wrapping msgs; Ok (REnc l R fuel m s)
  | RPub l R pk be msgs s => do! m <- wrapping msgs; Ok (RPub l R pk be m s)
  | RNeg a => do! a <- wrap_circuit a; Ok (RNeg a)
  | RAdd a b => do! a <- wrap_circuit a; do! b <- wrap_circuit b; Ok (RAdd a b)
  | RSub a b => do! a <- wrap_circuit a; do! b <- wrap_circuit b; Ok (RSub a b)
  | RAddPlain a msgs => do! a <- wrap_circuit a; do! m <- wrapping msgs; Ok (RAddPlain a m)
  | RSubPlain a msgs => do! a <- wrap_circuit a; do! m <- wrapping msgs; Ok (RSubPlain a m)
  | RAbsorb a msgs => do! a <- wrap_circuit a; do! m <- wrapping msgs; Ok (RAbsorb a m)
  | RAbsorbScaled a msgs => do! a <- wrap_circuit a; do! m <- wrapping msgs; Ok (RAbsorbScaled a m)
  | RScale a x => do! a <- wrap_circuit a; Ok (RScale a x)
  | RFused a b msgs => do! a <- wrap_circuit a; do! b <- wrap_circuit b; do! m <- wrapping msgs; Ok (RFused a b m)
  | RMul a b => do! a <- wrap_circuit a; do! b <- wrap_circuit b; Ok (RMul a b)
  | RRelin a rr be B ws => do! a <- wrap_circuit a; Ok (RRelin a rr be B ws)
  | RSubst a swap r gk be B ws => do! a <- wrap_circuit a; Ok (RSubst a swap r gk be B ws)
  | RReduce a => do! a <- wrap_circuit a; Ok (RReduce a)
  | RSend a => do! a <- wrap_circuit a; Ok (RSend a)
  end.
End Circuit.

(** every vector of messages of the computation satisfies P *)
Section All.
Variable P : list Z -> Prop.
Fixpoint all_messages (a : rcirc) : Prop :=
  match a with
  | REnc _ _ _ msgs _ | RPub _ _ _ _ msgs _ => P msgs
  | RAddPlain a msgs | RSubPlain a msgs | RAbsorb a msgs | RAbsorbScaled a msgs => all_messages a /\ P msgs
  | RFused a b msgs => all_messages a /\ all_messages b /\ P msgs
  | RAdd a b | RSub a b | RMul a b => all_messages a /\ all_messages b
  | RNeg a | RScale a _ | RRelin a _ _ _ _ | RSubst a _ _ _ _ _ _ | RReduce a | RSend a => all_messages a
  end.
End All.
