(** Specification vocabulary: floating-point numbers as integers. *)
From Verif Require Import Base Int256 Int256Float.

(** z is a floating-point number of b bits *)
Definition representable (b z : Z) : Prop := exists m e, 0 <= m < 2 ^ b /\ 0 <= e /\ z = m * 2 ^ e.

(** y is a floating-point number of b bits, and none is closer to z *)
Definition nearest (b z y : Z) : Prop :=
  representable b y /\ forall w, representable b w -> Z.abs (y - z) <= Z.abs (w - z).

(** the order of floating-point values, infinity being the largest *)
Definition fle (x y : fval) : Prop :=
  match x, y with
  | Finite x, Finite y => x <= y
  | _, Infinite => True
  | Infinite, Finite _ => False
  end.
