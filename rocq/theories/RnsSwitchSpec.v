(** Specification vocabulary for key switching keys. *)
From Verif Require Import Base FinSum PolySpec NegRing SymSpec Montgomery Spec RnsPoly RnsSpec RnsCt RnsCtSpec RnsEncode RnsKey RnsKeySpec RnsGadget RnsGadgetSpec.

(** the pair (a, b) encrypts w * target under s: b + a s = t e + w target for
    an error e with coefficients of absolute value at most be *)
Definition switch_entry (ms : list pmod) (L : nat) (s target : nat -> Z) (t be w : Z) (ab : rpoly * rpoly) : Prop :=
  exists f h e, rns_is ms L true (fst ab) f /\ rns_is ms L true (snd ab) h /\ bounded (2 ^ L) be e /\
    pcong (big_q ms) (2 ^ L) (padd h (negacyclic (2 ^ L) f s)) (fun i => t * e i + w * target i).

(** the pairs (a_j, b_j) encrypt the multiples w_j * target *)
Definition switch_key (ms : list pmod) (L : nat) (s target : nat -> Z) (t be : Z) (ws : list Z) (pas pbs : list rpoly) : Prop :=
  length pas = length ws /\ length pbs = length ws /\ Forall2 (switch_entry ms L s target t be) ws (combine pas pbs).

(** gk switches ciphertexts from s(X^p) to s, for p = SubstitutionPower() *)
Definition galois_key (ms : list pmod) (L : nat) (s : nat -> Z) (t be B : Z) (ws : list Z) (gk : rgalois) : Prop :=
  gk_ms gk = ms /\ gadget_for ms L B (gk_g gk) ws /\
  switch_key ms L s (substituted (2 ^ L) (Z.to_nat (gk_pow gk)) s) t be ws (gk_as gk) (gk_bs gk).

(** block b of dim elements *)
Definition block {A} (dim b : nat) (l : list A) : list A := firstn dim (skipn (b * dim) l).

(** rr holds, for every i from 2 to its degree, encryptions of the multiples
    w_j s^i under s *)
Definition relin_key (ms : list pmod) (L : nat) (s : nat -> Z) (t be B : Z) (ws : list Z) (rr : rrelin) : Prop :=
  rr_ms rr = ms /\ gadget_for ms L B (rr_g rr) ws /\ 2 <= rr_deg rr /\
  length (rr_as rr) = (Z.to_nat (rr_deg rr - 1) * length ws)%nat /\ length (rr_bs rr) = (Z.to_nat (rr_deg rr - 1) * length ws)%nat /\
  forall i, (2 <= i)%nat -> Z.of_nat i <= rr_deg rr ->
    switch_key ms L s (npow (2 ^ L) s i) t be ws (block (length ws) (i - 2) (rr_as rr)) (block (length ws) (i - 2) (rr_bs rr)).

(** the error that switching with a gadget of dim components adds, divided by
    t: the sum of the products of digits of absolute value at most B and errors
    of absolute value at most be *)
Definition switch_bound (n dim : nat) (B be : Z) : Z := Z.of_nat dim * (Z.of_nat n * (B * be)).
