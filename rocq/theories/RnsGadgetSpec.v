(** Specification vocabulary for gadgets and key switching keys. *)
From Verif Require Import Base FinSum PolySpec NegRing SymSpec Montgomery MontBatch Spec RnsPoly RnsSpec RnsCt RnsCtSpec RnsEncode RnsKey RnsKeySpec RnsGadget.

(** the number of base 2^lb digits of the numbers below q *)
Definition digit_count (q lb : Z) : nat := Z.to_nat ((Z.log2 q + lb) / lb).

(** the gadget vector: for each prime q and each digit position j the number
    that is 2^(lb j) modulo q and 0 modulo the other primes *)
Definition gadget_weights (ms : list pmod) (log_bs : list Z) : list Z :=
  concat (map2 (fun m lb => map (fun j => hat_of ms m * zinv (modulus m) (hat_of ms m) * 2 ^ (Z.of_nat j * lb))
                              (seq 0 (digit_count (modulus m) lb))) ms log_bs).

(** the polynomial w_0 d_0 + w_1 d_1 + ... *)
Definition weighted (ws : list Z) (ds : list (nat -> Z)) (i : nat) : Z := sumz (map2 (fun w d => w * d i) ws ds).

(** g is a gadget with vector ws: its components are the numbers of ws, and
    Decompose finds, for every polynomial f, polynomials ds with coefficients of
    absolute value at most B such that f is the sum of ws_j ds_j *)
Definition gadget_for (ms : list pmod) (L : nat) (B : Z) (g : rgadget) (ws : list Z) : Prop :=
  rg_dimension g = length ws /\ Forall2 (residues ms) (rg_gs g) ws /\
  forall a f, rns_is ms L false a f -> exists xs ds, rg_decompose g a ms = Ok xs /\
    Forall2 (rns_is ms L false) xs ds /\ length ds = length ws /\ Forall (bounded (2 ^ L) B) ds /\
    pcong (big_q ms) (2 ^ L) (weighted ws ds) f.
