(** Model of the in-place methods on a memory that their operands share. The
    other model files pass operands by value; here an operand is an address, so
    that it can be the object the method is called on, or a part of it.

    The memory maps an address to the elements of a std::vector<ModularInt>
    (Polynomial::coeffs_, one entry of RnsPolynomial::coeff_vectors_); every
    element is read from the memory as it is at that moment. AliasProofs.v
    compares the methods here with those of InPlace.v.

    Not modelled: the lazy accumulators, which are separate vectors that no
    method can be given, and the error estimate, a number of the object itself. *)
From Verif Require Import Base Montgomery MontBatch Ntt Poly PolyExt SymEnc RnsPoly RnsCt InPlace.

(** all coefficient vectors in memory: coeffs_ of polynomial.h line 348, coeff_vectors_ of rns/rns_polynomial.h line 621 *)
Definition store := list (list Z).

(** the vector at an address, one element of it, and the assignment to an element *)
Definition ld (s : store) (a : nat) : list Z := nth a s [].
Definition rd (s : store) (a i : nat) : result Z := get (ld s a) i.
Definition wr (s : store) (a i : nat) (x : Z) : store := upd s a (upd (ld s a) i x).

(** a new vector *)
Definition alloc (s : store) (v : list Z) : store * nat := (s ++ [v], length s).

(** for (i in is) step(i); *)
Fixpoint mem_loop (step : nat -> store -> effect store) (is : list nat) (s : store) : effect store :=
  match is with
  | [] => (Ok tt, s)
  | i :: is' => andthen (step i s) (mem_loop step is')
  end.

(** [in1[i].Op(in2[i])]: the elements are read, then in1[i] is written. The
    operations of montgomery.h (lines 312-502) read their operands before the
    first assignment to n_, and after it read only n_ and the parameters. *)
Definition elem2 (f : nat -> Z -> Z -> result Z) (a b i : nat) (s : store) : effect store :=
  reading (do! x <- rd s a i; do! y <- rd s b i; f i x y) s (fun z => (Ok tt, wr s a i z)).
Definition elem3 (f : Z -> Z -> Z -> result Z) (a b c i : nat) (s : store) : effect store :=
  reading (do! x <- rd s a i; do! y <- rd s b i; do! z <- rd s c i; f x y z) s (fun z => (Ok tt, wr s a i z)).

(** [in1[i].Op(in2)] where in2 is a reference to element j of the vector b *)
Definition elem_ref (f : Z -> Z -> Z) (a b j i : nat) (s : store) : effect store :=
  reading (do! x <- rd s a i; do! y <- rd s b j; Ok (f x y)) s (fun z => (Ok tt, wr s a i z)).

Definition all_of (s : store) (a : nat) : list nat := seq 0 (length (ld s a)).

(** ** Vectors (montgomery.cc) *)

(** montgomery.cc lines 211-225, 257-270, 353-367: BatchAddInPlace, BatchSubInPlace, BatchMulInPlace. *)
Definition mem_add (p : mparams) (a b : nat) (s : store) : effect store :=
  if negb (same_len (ld s a) (ld s b)) then refuse s
  else mem_loop (elem2 (fun _ x y => Ok (madd p x y)) a b) (all_of s a) s.
Definition mem_sub (p : mparams) (a b : nat) (s : store) : effect store :=
  if negb (same_len (ld s a) (ld s b)) then refuse s
  else mem_loop (elem2 (fun _ x y => Ok (msub p x y)) a b) (all_of s a) s.
Definition mem_mul (p : mparams) (a b : nat) (s : store) : effect store :=
  if negb (same_len (ld s a) (ld s b)) then refuse s
  else mem_loop (elem2 (fun _ x y => Ok (mmul p x y)) a b) (all_of s a) s.

(** montgomery.cc lines 400-414: BatchFusedMulAddInPlace. *)
Definition mem_fused (p : mparams) (a b c : nat) (s : store) : effect store :=
  if negb (same_len (ld s a) (ld s b)) || negb (same_len (ld s a) (ld s c)) then refuse s
  else mem_loop (elem3 (fused_mul_add p) a b c) (all_of s a) s.

(** montgomery.cc lines 427-443: BatchFusedMulConstantAddInPlace. The constants are Int's, and
    cannot be elements of a vector of MontgomeryInt's. *)
Definition mem_fused_constant (p : mparams) (c cb : list Z) (a b : nat) (s : store) : effect store :=
  if negb (same_len (ld s a) (ld s b)) || negb (same_len (ld s a) c) || negb (same_len (ld s a) cb) then refuse s
  else mem_loop (elem2 (fun i x y => do! u <- get c i; do! v <- get cb i; Ok (fused_mul_constant_add p x y (u, v))) a b) (all_of s a) s.

(** montgomery.cc lines 236-246, 281-291, 377-388: the overloads that take a const
    MontgomeryInt&, here element j of the vector b. Polynomial::MulInPlace
    (polynomial.h lines 134-138) is the last of them. *)
Definition mem_add_ref (p : mparams) (a b j : nat) (s : store) : effect store :=
  mem_loop (elem_ref (madd p) a b j) (all_of s a) s.
Definition mem_sub_ref (p : mparams) (a b j : nat) (s : store) : effect store :=
  mem_loop (elem_ref (msub p) a b j) (all_of s a) s.
Definition mem_mul_ref (p : mparams) (a b j : nat) (s : store) : effect store :=
  mem_loop (elem_ref (mmul p) a b j) (all_of s a) s.

(** for (i < m.size()) f(l[i], m[i]); l[i] is not checked *)
Fixpoint mem_walk2 {A B} (f : A -> B -> store -> effect store) (l : list A) (m : list B) (s : store) {struct m} : effect store :=
  match m with
  | [] => (Ok tt, s)
  | b :: m' => match l with
    | [] => (UB, s)
    | x :: l' => andthen (f x b s) (mem_walk2 f l' m')
    end
  end.

(** ** RNS polynomials (rns_polynomial.h) *)

(** an RNS polynomial in memory (rns/rns_polynomial.h lines 618-625): the addresses of its coefficient vectors *)
Record robj := { ro_logn : nat; ro_rows : list nat; ro_ntt : bool }.

(** rns/rns_polynomial.h lines 188-205, 208-225: AddInPlace and SubInPlace. *)
Definition mem_rns_add (ms : list pmod) (x y : robj) (s : store) : effect store :=
  if negb (same_len (ro_rows y) (ro_rows x)) then refuse s
  else if negb (same_len ms (ro_rows x)) then refuse s
  else mem_walk2 (fun a mb => mem_add (pm_p (fst mb)) a (snd mb)) (ro_rows x) (combine ms (ro_rows y)) s.
Definition mem_rns_sub (ms : list pmod) (x y : robj) (s : store) : effect store :=
  if negb (same_len (ro_rows y) (ro_rows x)) then refuse s
  else if negb (same_len ms (ro_rows x)) then refuse s
  else mem_walk2 (fun a mb => mem_sub (pm_p (fst mb)) a (snd mb)) (ro_rows x) (combine ms (ro_rows y)) s.

(** rns/rns_polynomial.h lines 294-320: MulInPlace. *)
Definition mem_rns_mul (ms : list pmod) (x y : robj) (s : store) : effect store :=
  if negb (same_len (ro_rows y) (ro_rows x)) then refuse s
  else if negb (same_len ms (ro_rows x)) then refuse s
  else if negb (ro_ntt x) then refuse s
  else if negb (ro_ntt y) then refuse s
  else mem_walk2 (fun a mb => mem_mul (pm_p (fst mb)) a (snd mb)) (ro_rows x) (combine ms (ro_rows y)) s.

(** rns/rns_polynomial.h lines 324-359: FusedMulAddInPlace. *)
Definition mem_rns_fused (ms : list pmod) (x a b : robj) (s : store) : effect store :=
  if negb (same_len (ro_rows a) (ro_rows x)) then refuse s
  else if negb (same_len (ro_rows b) (ro_rows x)) then refuse s
  else if negb (same_len ms (ro_rows x)) then refuse s
  else if negb (ro_ntt x) then refuse s
  else if negb (ro_ntt a) then refuse s
  else if negb (ro_ntt b) then refuse s
  else mem_walk2 (fun r mab => mem_fused (pm_p (fst mab)) r (fst (snd mab)) (snd (snd mab))) (ro_rows x)
         (combine ms (combine (ro_rows a) (ro_rows b))) s.

(** ** RNS ciphertexts (rns_ciphertext.h) *)

(** an RNS ciphertext in memory (rns/rns_ciphertext.h lines 496-509) *)
Record rcobj := { rco_c : list robj; rco_ms : list pmod; rco_pow : Z }.

(** rns/rns_ciphertext.h lines 112-122, 144-154: the checks of AddInPlace and SubInPlace *)
Definition rco_compatible (x y : rcobj) : bool :=
  same_len (rco_c x) (rco_c y) && same_len (rco_ms x) (rco_ms y) && (rco_pow x =? rco_pow y).

(** rns/rns_ciphertext.h lines 111-128, 143-160: AddInPlace and SubInPlace. *)
Definition mem_rct_add (x y : rcobj) (s : store) : effect store :=
  if negb (rco_compatible x y) then refuse s
  else mem_walk2 (mem_rns_add (rco_ms x)) (rco_c x) (rco_c y) s.
Definition mem_rct_sub (x y : rcobj) (s : store) : effect store :=
  if negb (rco_compatible x y) then refuse s
  else mem_walk2 (mem_rns_sub (rco_ms x)) (rco_c x) (rco_c y) s.

(** rns/rns_ciphertext.h lines 237-258: FusedAbsorbAddInPlace. *)
Definition mem_rct_fused (x a : rcobj) (b : robj) (s : store) : effect store :=
  if negb (rco_compatible x a) then refuse s
  else mem_walk2 (fun u y => mem_rns_fused (rco_ms x) u y b) (rco_c x) (rco_c a) s.

(** rns/rns_ciphertext.h lines 175-182: AbsorbInPlace. *)
Definition mem_rct_absorb (x : rcobj) (b : robj) (s : store) : effect store :=
  mem_walk2 (fun u _ => mem_rns_mul (rco_ms x) u b) (rco_c x) (rco_c x) s.

(** ** Ciphertexts with one modulus (symmetric_encryption.h) *)

(** a ciphertext in memory (symmetric_encryption.h lines 593-604) *)
Record cobj := { co_c : list nat; co_pow : Z; co_p : mparams }.

(** symmetric_encryption.h lines 124-127: resize with copies of a zero polynomial. The elements that
    were there are moved, which leaves their vectors where they are. *)
Fixpoint alloc_all (s : store) (vs : list (list Z)) : store * list nat :=
  match vs with
  | [] => (s, [])
  | v :: vs' => let (s1, a) := alloc s v in let (s2, l) := alloc_all s1 vs' in (s2, a :: l)
  end.

Definition mem_pad (x y : cobj) (s : store) : result (store * list nat) :=
  if (length (co_c x) <? length (co_c y))%nat then
    do! d0 <- get (co_c y) 0;
    do! z <- poly_zero (co_p x) (length (ld s d0));
    let (s, l) := alloc_all s (repeat z (length (co_c y) - length (co_c x))) in Ok (s, co_c x ++ l)
  else Ok (s, co_c x).

(** symmetric_encryption.h lines 118-135, 162-179: AddInPlace and SubInPlace. The memory and the
    addresses of the components after the call. *)
Definition mem_ct_add (x y : cobj) (s : store) : effect (store * list nat) :=
  if negb (co_pow x =? co_pow y) then refuse (s, co_c x)
  else reading (mem_pad x y s) (s, co_c x) (fun sc => let (s, c) := sc in
       let e := mem_walk2 (mem_add (co_p x)) c (co_c y) s in (fst e, (snd e, c))).
Definition mem_ct_sub (x y : cobj) (s : store) : effect (store * list nat) :=
  if negb (co_pow x =? co_pow y) then refuse (s, co_c x)
  else reading (mem_pad x y s) (s, co_c x) (fun sc => let (s, c) := sc in
       let e := mem_walk2 (mem_sub (co_p x)) c (co_c y) s in (fst e, (snd e, c))).

(** symmetric_encryption.h lines 221-226: AbsorbInPlace. *)
Definition mem_ct_absorb (x : cobj) (b : nat) (s : store) : effect store :=
  mem_walk2 (fun u _ => mem_mul (co_p x) u b) (co_c x) (co_c x) s.

(** symmetric_encryption.h lines 250-275: FusedAbsorbAddInPlace, when the other operand has no more
    components than this ciphertext; with more, products are appended and nothing
    is shared. *)
Definition mem_ct_fused (x a : cobj) (b : nat) (s : store) : effect store :=
  if negb (co_pow x =? co_pow a) then refuse s
  else mem_walk2 (fun u y => mem_fused (co_p x) u y b) (co_c x) (firstn (length (co_c x)) (co_c a)) s.

(** symmetric_encryption.h lines 364-391: FusedAbsorbConstantAddInPlace, likewise. *)
Definition mem_ct_fused_constant (x a : cobj) (b : const_poly) (s : store) : effect store :=
  if negb (co_pow x =? co_pow a) then refuse s
  else mem_walk2 (mem_fused_constant (co_p x) (cp_c b) (cp_cb b)) (co_c x) (firstn (length (co_c x)) (co_c a)) s.
