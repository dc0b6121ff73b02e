(** Model of rns/rns_modulus.h, rns/rns_integer.h, rns/rns_polynomial.h and
    rns/rns_polynomial.cc.

    The methods that update an object return the new object. When such a method
    fails part way through its loop the C++ object is left half updated; the
    model returns only the error, and InPlace.v models what is left. Vector lengths are assumed to fit [int]. *)
From Verif Require Import Base Montgomery MontBatch Ntt Poly PolyExt Prng Sampling.

(** rns_modulus.h lines 30-44: PrimeModulus owns the Montgomery and the NTT
    parameters of one prime. *)
Record pmod := { pm_p : mparams; pm_np : nttp }.

(** rns_integer.h lines 28-51: RnsInt is the vector zs of residues. *)
Definition rnsint := list Z.

(** rns_integer.h lines 36-39 and 45-47: Prefix and RnsRepPrefix read the first n residues, undefined
    when there are fewer. *)
Definition rnsint_prefix (z : rnsint) (n : nat) : result rnsint :=
  if (length z <? n)%nat then UB else Ok (firstn n z).

(** rns_polynomial.h lines 609-625: members. log_n_ is an [int]; every
    constructor call passes a non-negative value below 31. *)
Record rpoly := { rp_logn : nat; rp_vs : list (list Z); rp_ntt : bool }.

(** rns/rns_polynomial.h line 595: NumCoeffs. *)
Definition rp_ncoeffs (a : rpoly) : nat := 2 ^ rp_logn a.

(** [1 << log_n] for a positive [int]; undefined from 31 on. *)
Definition shl_int (log_n : Z) : result nat :=
  if 31 <=? log_n then UB else Ok (2 ^ Z.to_nat log_n)%nat.

(** rns_polynomial.cc lines 29-32 *)
Definition is_not_power_of_two (n : Z) : bool :=
  if n <=? 0 then true else negb (Z.land n (n - 1) =? 0).

(** rns/rns_polynomial.cc lines 36-54: Create. log2 of a power of two is exact. *)
Definition rns_create (vs : list (list Z)) (ntt : bool) : result rpoly :=
  match vs with
  | [] => Err InvalidArgument
  | v0 :: _ =>
      if is_not_power_of_two (Z.of_nat (length v0)) then Err InvalidArgument
      else if negb (forallb (fun v => (length v =? length v0)%nat) vs) then Err InvalidArgument
      else Ok {| rp_logn := Nat.log2 (length v0); rp_vs := vs; rp_ntt := ntt |}
  end.

(** rns/rns_polynomial.cc lines 56-76: CreateZero. *)
Definition rns_zero (log_n : Z) (ms : list pmod) (ntt : bool) : result rpoly :=
  if log_n <=? 0 then Err InvalidArgument
  else match ms with
  | [] => Err InvalidArgument
  | _ => do! n <- shl_int log_n;
         Ok {| rp_logn := Z.to_nat log_n; rp_vs := map (fun m => repeat (import_zero (pm_p m)) n) ms; rp_ntt := ntt |}
  end.

(** rns/rns_polynomial.cc lines 78-98: CreateOne. *)
Definition rns_one (log_n : Z) (ms : list pmod) : result rpoly :=
  if log_n <=? 0 then Err InvalidArgument
  else match ms with
  | [] => Err InvalidArgument
  | _ => do! n <- shl_int log_n;
         Ok {| rp_logn := Z.to_nat log_n; rp_vs := map (fun m => repeat (import_one (pm_p m)) n) ms; rp_ntt := true |}
  end.

(** rns/rns_polynomial.cc lines 100-129: ConvertFromPolynomialCoeffs (a null mod_params_q is not
    modelled). *)
Definition rns_convert (coeffs : list Z) (pq : mparams) (ms : list pmod) : result rpoly :=
  if is_not_power_of_two (Z.of_nat (length coeffs)) then Err InvalidArgument
  else match ms with
  | [] => Err InvalidArgument
  | _ => do! vs <- seqr (map (fun m => forward_ntt (pm_p m) (pm_np m) (convert_modulus pq (pm_p m) coeffs)) ms);
         Ok {| rp_logn := Nat.log2 (length coeffs); rp_vs := vs; rp_ntt := true |}
  end.

(** rns/rns_polynomial.cc lines 131-161: ConvertBalancedFromPolynomialCoeffs. The length 0 passes
    the first test here; the transform of an empty vector is undefined. *)
Definition rns_convert_balanced (coeffs : list Z) (pq : mparams) (ms : list pmod) : result rpoly :=
  if negb (Z.land (Z.of_nat (length coeffs)) (Z.of_nat (length coeffs) - 1) =? 0) then Err InvalidArgument
  else match ms with
  | [] => Err InvalidArgument
  | _ => do! vs <- seqr (map (fun m => forward_ntt (pm_p m) (pm_np m) (convert_balanced pq (pm_p m) coeffs)) ms);
         Ok {| rp_logn := Nat.log2 (length coeffs); rp_vs := vs; rp_ntt := true |}
  end.

(** rns/rns_polynomial.h lines 93-134: SerializedRnsPolynomial, Deserialize, Serialize. An absent
    proto field reads as 0 or false. *)
Record ser_rpoly := { srp_logn : Z; srp_vs : list (list Z); srp_ntt : bool }.

Definition rns_deserialize (s : ser_rpoly) (ms : list pmod) : result rpoly :=
  if srp_logn s <=? 0 then Err InvalidArgument
  else if negb (same_len (srp_vs s) ms) then Err InvalidArgument
  else
    do! n <- shl_int (srp_logn s);
    do! vs <- seqr (map2 (fun m b => mdeserialize_vector (pm_p m) (Z.of_nat n) b) ms (srp_vs s));
    rns_create vs (srp_ntt s).

Definition rns_serialize (a : rpoly) (ms : list pmod) : result ser_rpoly :=
  if negb (same_len ms (rp_vs a)) then Err InvalidArgument
  else
    do! bs <- seqr (map2 (fun m v => mserialize_vector (pm_p m) v) ms (rp_vs a));
    Ok {| srp_logn := Z.of_nat (rp_logn a); srp_vs := bs; srp_ntt := rp_ntt a |}.

(** rns/rns_polynomial.h line 621: a copy with other coefficient vectors *)
Definition with_vs (a : rpoly) (vs : list (list Z)) : rpoly :=
  {| rp_logn := rp_logn a; rp_vs := vs; rp_ntt := rp_ntt a |}.

(** the loop over the moduli and the coefficient vectors of one polynomial, as in rns/rns_polynomial.h lines 160-165 *)
Definition each (f : mparams -> list Z -> result (list Z)) (ms : list pmod) (vs : list (list Z))
  : result (list (list Z)) := seqr (map2 (fun m v => f (pm_p m) v) ms vs).

(** the loop over the moduli and the coefficient vectors of two polynomials, as in rns/rns_polynomial.h lines 200-203 *)
Definition each2 (f : mparams -> list Z -> list Z -> result (list Z)) (ms : list pmod) (vs ws : list (list Z))
  : result (list (list Z)) := seqr (map2 (fun m vw => f (pm_p m) (fst vw) (snd vw)) ms (combine vs ws)).

(** rns/rns_polynomial.cc lines 163-180: ConvertToNttForm. *)
Definition rns_to_ntt (a : rpoly) (ms : list pmod) : result rpoly :=
  if rp_ntt a then Err InvalidArgument
  else if negb (same_len ms (rp_vs a)) then Err InvalidArgument
  else
    do! vs <- seqr (map2 (fun m v => forward_ntt (pm_p m) (pm_np m) v) ms (rp_vs a));
    Ok {| rp_logn := rp_logn a; rp_vs := vs; rp_ntt := true |}.

(** rns/rns_polynomial.cc lines 182-199: ConvertToCoeffForm. *)
Definition rns_to_coeff (a : rpoly) (ms : list pmod) : result rpoly :=
  if negb (rp_ntt a) then Err InvalidArgument
  else if negb (same_len ms (rp_vs a)) then Err InvalidArgument
  else
    do! vs <- seqr (map2 (fun m v => inverse_ntt (pm_p m) (pm_np m) v) ms (rp_vs a));
    Ok {| rp_logn := rp_logn a; rp_vs := vs; rp_ntt := false |}.

(** rns/rns_polynomial.h lines 153-167: NegateInPlace. *)
Definition rns_neg_in_place (a : rpoly) (ms : list pmod) : result rpoly :=
  if negb (same_len ms (rp_vs a)) then Err InvalidArgument
  else Ok (with_vs a (map2 (fun m v => map (mneg (pm_p m)) v) ms (rp_vs a))).

(** rns/rns_polynomial.h lines 145-150: Negate drops the status of NegateInPlace; on an error the
    copy was not touched. *)
Definition rns_neg (a : rpoly) (ms : list pmod) : result rpoly :=
  match rns_neg_in_place a ms with
  | Ok b => Ok b
  | Err _ => Ok a
  | UB => UB
  end.

(** rns/rns_polynomial.h lines 170-225: Add, Sub and their in-place forms. is_ntt_ of the two
    operands is not compared. *)
Definition rns_add (a b : rpoly) (ms : list pmod) : result rpoly :=
  if negb (same_len (rp_vs b) (rp_vs a)) then Err InvalidArgument
  else if negb (same_len ms (rp_vs a)) then Err InvalidArgument
  else do! vs <- each2 batch_add ms (rp_vs a) (rp_vs b); Ok (with_vs a vs).

Definition rns_sub (a b : rpoly) (ms : list pmod) : result rpoly :=
  if negb (same_len (rp_vs b) (rp_vs a)) then Err InvalidArgument
  else if negb (same_len ms (rp_vs a)) then Err InvalidArgument
  else do! vs <- each2 batch_sub ms (rp_vs a) (rp_vs b); Ok (with_vs a vs).

(** rns/rns_polynomial.h lines 228-253: multiplication by an Int scalar. *)
Definition rns_mul_scalar (a : rpoly) (s : Z) (ms : list pmod) : result rpoly :=
  if negb (same_len ms (rp_vs a)) then Err InvalidArgument
  else do! vs <- each (fun p v => batch_mul_scalar p v (import_int p s)) ms (rp_vs a); Ok (with_vs a vs).

(** rns/rns_polynomial.h lines 256-280: multiplication by a scalar given by its residues. *)
Definition rns_mul_rnsint (a : rpoly) (zs : rnsint) (ms : list pmod) : result rpoly :=
  if negb (same_len zs (rp_vs a)) then Err InvalidArgument
  else if negb (same_len ms (rp_vs a)) then Err InvalidArgument
  else
    do! vs <- seqr (map2 (fun m vz => batch_mul_scalar (pm_p m) (fst vz) (snd vz)) ms (combine (rp_vs a) zs));
    Ok (with_vs a vs).

(** rns/rns_polynomial.h lines 284-320: Mul and MulInPlace of polynomials. *)
Definition rns_mul (a b : rpoly) (ms : list pmod) : result rpoly :=
  if negb (same_len (rp_vs b) (rp_vs a)) then Err InvalidArgument
  else if negb (same_len ms (rp_vs a)) then Err InvalidArgument
  else if negb (rp_ntt a) then Err InvalidArgument
  else if negb (rp_ntt b) then Err InvalidArgument
  else do! vs <- each2 batch_mul ms (rp_vs a) (rp_vs b); Ok (with_vs a vs).

(** rns/rns_polynomial.h lines 324-359: FusedMulAddInPlace. *)
Definition rns_fused_mul_add (x a b : rpoly) (ms : list pmod) : result rpoly :=
  if negb (same_len (rp_vs a) (rp_vs x)) then Err InvalidArgument
  else if negb (same_len (rp_vs b) (rp_vs x)) then Err InvalidArgument
  else if negb (same_len ms (rp_vs x)) then Err InvalidArgument
  else if negb (rp_ntt x) then Err InvalidArgument
  else if negb (rp_ntt a) then Err InvalidArgument
  else if negb (rp_ntt b) then Err InvalidArgument
  else
    do! vs <- seqr (map2 (fun m xab => batch_fused_mul_add (pm_p m) (fst xab) (fst (snd xab)) (snd (snd xab)))
                      ms (combine (rp_vs x) (combine (rp_vs a) (rp_vs b))));
    Ok (with_vs x vs).

(** rns/rns_polynomial.cc lines 201-252: Substitute. The loop over j of one modulus, returning
    also psi_power_index, which the next modulus starts from; the written and
    read positions of the coefficient vectors are not checked. *)
Fixpoint rns_sub_loop (np : nttp) (n : nat) (coeffs : list Z) (power : nat) (js : list nat) (idx : nat)
  (out : list Z) : result (list Z * nat) :=
  match js with
  | [] => Ok (out, idx)
  | j :: js' =>
      do! src <- get (np_bitrevs np) idx;
      if (n <=? src)%nat then Err Internal
      else
        do! dst <- get (np_bitrevs np) j;
        do! x <- get coeffs src;
        if (length out <=? dst)%nat then UB
        else rns_sub_loop np n coeffs power js' ((idx + power) mod n) (upd out dst x)
  end.

Fixpoint rns_sub_moduli (n power : nat) (ms : list pmod) (vs : list (list Z)) (idx : nat)
  : result (list (list Z)) :=
  match ms, vs with
  | m :: ms', v :: vs' =>
      do! ' (w, idx) <- rns_sub_loop (pm_np m) n v power (seq 0 n) idx v;
      do! ws <- rns_sub_moduli n power ms' vs' idx;
      Ok (w :: ws)
  | _, _ => Ok []
  end.

Definition rns_substitute (a : rpoly) (power : Z) (ms : list pmod) : result rpoly :=
  let n := rp_ncoeffs a in
  if (power <? 0) || (Z.rem power 2 =? 0) || (2 * Z.of_nat n <=? power) then Err InvalidArgument
  else if negb (same_len ms (rp_vs a)) then Err InvalidArgument
  else if negb (rp_ntt a) then Err InvalidArgument
  else
    let pw := Z.to_nat power in
    do! vs <- rns_sub_moduli n pw ms (rp_vs a) ((pw - 1) / 2);
    Ok (with_vs a vs).

(** rns/rns_polynomial.h lines 563-570: DetachLastCoeffVector. *)
Definition rns_detach (a : rpoly) : result (list Z * rpoly) :=
  match rev (rp_vs a) with
  | [] => Err InvalidArgument
  | v :: vs => Ok (v, with_vs a (rev vs))
  end.

(** rns/rns_polynomial.h lines 558-560: AppendCoeffVector. *)
Definition rns_append (a : rpoly) (v : list Z) : rpoly := with_vs a (rp_vs a ++ [v]).

(** rns/rns_polynomial.h lines 573-581: ReplaceSubPolynomialAt. *)
Definition rns_replace (a : rpoly) (index : Z) (v : list Z) : result rpoly :=
  if (index <? 0) || (Z.of_nat (length (rp_vs a)) <=? index) then Err InvalidArgument
  else Ok (with_vs a (upd (rp_vs a) (Z.to_nat index) v)).

(** rns/rns_polynomial.h lines 584-588: operator== compares log_n_, is_ntt_ and the stored words. *)
Definition rns_eqb (a b : rpoly) : bool :=
  (rp_logn a =? rp_logn b)%nat && Bool.eqb (rp_ntt a) (rp_ntt b) &&
  same_len (rp_vs a) (rp_vs b) && forallb (fun vw => poly_eqb (fst vw) (snd vw)) (combine (rp_vs a) (rp_vs b)).

(** rns/rns_polynomial.cc lines 280-281, 366-367: the last element of moduli; ms is not empty where it is used *)
Definition last_modulus (ms : list pmod) : result pmod :=
  match rev ms with m :: _ => Ok m | [] => UB end.

(** rns/rns_polynomial.cc lines 254-336: ModReduceLsb. [modulus % t] is undefined for t = 0; t is
    an Int. *)
Definition rns_mod_reduce_lsb (a : rpoly) (t : Z) (ql_inv : rnsint) (ms : list pmod) : result rpoly :=
  if negb (same_len ms (rp_vs a)) then Err InvalidArgument
  else if (length (rp_vs a) <=? 1)%nat then Err InvalidArgument
  else if negb (length ql_inv =? length (rp_vs a) - 1)%nat then Err InvalidArgument
  else
    do! ' (dl, a) <- rns_detach a;
    do! ml <- last_modulus ms;
    let pl := pm_p ml in
    if t =? 0 then UB
    else
      let r := p_m pl mod t in
      let k := (p_m pl - r) / t in
      do! dl <- batch_mul_scalar pl dl (import_int pl k);
      let ms := firstn (length ms - 1) ms in
      do! a <- rns_mul_scalar a r ms;
      if rp_ntt a then
        do! dl <- inverse_ntt pl (pm_np ml) dl;
        let delta := {| rp_logn := rp_logn a; rp_vs := map (fun m => convert_balanced pl (pm_p m) dl) ms; rp_ntt := false |} in
        do! delta <- rns_to_ntt delta ms;
        do! delta <- rns_mul_scalar delta t ms;
        do! a <- rns_add a delta ms;
        rns_mul_rnsint a ql_inv ms
      else
        do! vs <- seqr (map2 (fun m vz =>
          let p := pm_p m in
          let d := convert_balanced pl p dl in
          do! d <- batch_mul_scalar p d (import_int p t);
          do! v <- batch_add p (fst vz) d;
          batch_mul_scalar p v (snd vz)) ms (combine (rp_vs a) ql_inv));
        Ok (with_vs a vs).

(** rns/rns_polynomial.cc lines 341-409: ModReduceMsb. *)
Definition rns_mod_reduce_msb (a : rpoly) (ql_inv : rnsint) (ms : list pmod) : result rpoly :=
  if negb (same_len ms (rp_vs a)) then Err InvalidArgument
  else if (length (rp_vs a) <=? 1)%nat then Err InvalidArgument
  else if negb (length ql_inv =? length (rp_vs a) - 1)%nat then Err InvalidArgument
  else
    do! ' (dl, a) <- rns_detach a;
    do! ml <- last_modulus ms;
    let pl := pm_p ml in
    let ms := firstn (length ms - 1) ms in
    if rp_ntt a then
      do! dl <- inverse_ntt pl (pm_np ml) dl;
      let delta := {| rp_logn := rp_logn a; rp_vs := map (fun m => convert_balanced pl (pm_p m) dl) ms; rp_ntt := false |} in
      do! delta <- rns_to_ntt delta ms;
      do! a <- rns_sub a delta ms;
      rns_mul_rnsint a ql_inv ms
    else
      do! vs <- seqr (map2 (fun m vz =>
        let p := pm_p m in
        let d := convert_balanced pl p dl in
        do! v <- batch_sub p (fst vz) d;
        batch_mul_scalar p v (snd vz)) ms (combine (rp_vs a) ql_inv));
      Ok (with_vs a vs).

(** ** Basis switching *)

(** The double-precision operations of SwitchRnsBasis, kept abstract:
    [static_cast<double>(Int)], [0.0], [+=], [/=] and
    [static_cast<Int>(std::round(x))], which is undefined out of range. *)
Record dops := {
  d_t : Type;
  d_of_int : Z -> d_t;
  d_zero : d_t;
  d_add : d_t -> d_t -> d_t;
  d_div : d_t -> d_t -> d_t;
  d_round : d_t -> result Z
}.

(** rns/rns_polynomial.cc lines 486-499, 605-619, 699-712: the loop over the output moduli p_j for
    one input modulus; [hs] gives the multiplier of each p_j, undefined when
    the index is out of range. *)
Fixpoint acc_row (conv : mparams -> list Z -> list Z) (row : list Z) (ps : list pmod) (hs : list (result Z))
  (outs : list (list Z)) : result (list (list Z)) :=
  match ps with
  | [] => Ok []
  | pj :: ps' =>
      match hs, outs with
      | h :: hs', o :: outs' =>
          do! h <- h;
          do! c <- batch_mul_scalar (pm_p pj) (conv (pm_p pj) row) h;
          do! o <- batch_add (pm_p pj) o c;
          do! os <- acc_row conv row ps' hs' outs';
          Ok (o :: os)
      | _, _ => UB
      end
  end.

(** rns/rns_polynomial.cc lines 484-500: the loop over the input moduli around it *)
Fixpoint acc_rows (conv : mparams -> mparams -> list Z -> list Z) (qs : list pmod) (rows : list (list Z))
  (ps : list pmod) (hss : list (list (result Z))) (outs : list (list Z)) : result (list (list Z)) :=
  match qs with
  | [] => Ok outs
  | q :: qs' =>
      match rows, hss with
      | r :: rows', hs :: hss' =>
          do! outs <- acc_row (conv (pm_p q)) r ps hs outs;
          acc_rows conv qs' rows' ps hss' outs
      | _, _ => UB
      end
  end.

(** rns/rns_polynomial.cc lines 479-483 (= 598-602, 680-684): the zero output vectors. *)
Definition zero_outs (n : nat) (ps : list pmod) : list (list Z) :=
  map (fun m => repeat (import_zero (pm_p m)) n) ps.

(** rns/rns_polynomial.cc lines 468-474 (= 588-594): the accumulators us for one input modulus. *)
Fixpoint us_row (D : dops) (p : mparams) (qd : d_t D) (row : list Z) (us : list (d_t D)) : result (list (d_t D)) :=
  match row, us with
  | [], _ => Ok us
  | x :: row', u :: us' =>
      do! rest <- us_row D p qd row' us';
      Ok (d_add D u (d_div D (d_of_int D (export_int p x)) qd) :: rest)
  | _ :: _, [] => UB
  end.

(** rns/rns_polynomial.cc lines 462-475 (= 581-594) *)
Fixpoint us_rows (D : dops) (qs : list pmod) (rows : list (list Z)) (us : list (d_t D)) : result (list (d_t D)) :=
  match qs, rows with
  | q :: qs', r :: rows' =>
      do! us <- us_row D (pm_p q) (d_of_int D (p_m (pm_p q))) r us;
      us_rows D qs' rows' us
  | _, _ => Ok us
  end.

(** rns/rns_polynomial.cc lines 411-523: SwitchRnsBasis. *)
Definition rns_switch_basis (D : dops) (a : rpoly) (qs ps : list pmod) (hat_inv : list Z)
  (hat_mod_ps : list rnsint) (q_mod_ps : list Z) : result rpoly :=
  if rp_ntt a then Err InvalidArgument
  else if negb (same_len qs (rp_vs a)) then Err InvalidArgument
  else match ps with
  | [] => Err InvalidArgument
  | _ =>
    if (length hat_inv <? length (rp_vs a))%nat then Err InvalidArgument
    else if (length hat_mod_ps <? length (rp_vs a))%nat then Err InvalidArgument
    else if negb (same_len q_mod_ps ps) then Err InvalidArgument
    else
      let n := rp_ncoeffs a in
      do! rows <- seqr (map2 (fun m vz => batch_mul_scalar (pm_p m) (fst vz) (snd vz)) qs (combine (rp_vs a) hat_inv));
      do! us <- us_rows D qs rows (repeat (d_zero D) n);
      do! outs <- acc_rows convert_modulus qs rows ps (map (map Ok) hat_mod_ps) (zero_outs n ps);
      do! outs <- seqr (map2 (fun pj oq =>
        do! cs <- seqr (map (fun x => do! u <- d_round D x; Ok (mmul (pm_p pj) (import_int (pm_p pj) u) (snd oq))) us);
        batch_sub (pm_p pj) (fst oq) cs) ps (combine outs q_mod_ps));
      Ok {| rp_logn := rp_logn a; rp_vs := outs; rp_ntt := false |}
  end.

(** rns/rns_polynomial.cc lines 525-642: ScaleAndSwitchRnsBasis. prime_q_inv_mod_ps is indexed by
    the output modulus first, Component(i) is not checked. *)
Definition rns_scale_and_switch (D : dops) (a : rpoly) (qs ps : list pmod) (hat_inv : list Z)
  (q_inv_mod_ps : list rnsint) (p_mod_qs : list Z) : result rpoly :=
  if rp_ntt a then Err InvalidArgument
  else if negb (same_len qs (rp_vs a)) then Err InvalidArgument
  else match ps with
  | [] => Err InvalidArgument
  | _ =>
    if (length hat_inv <? length (rp_vs a))%nat then Err InvalidArgument
    else if negb (same_len q_inv_mod_ps ps) then Err InvalidArgument
    else if (length p_mod_qs <? length (rp_vs a))%nat then Err InvalidArgument
    else
      let n := rp_ncoeffs a in
      do! rows <- seqr (map2 (fun m vz =>
        do! v <- batch_mul_scalar (pm_p m) (fst vz) (fst (snd vz));
        batch_mul_scalar (pm_p m) v (snd (snd vz))) qs (combine (rp_vs a) (combine p_mod_qs hat_inv)));
      do! us <- us_rows D qs rows (repeat (d_zero D) n);
      let column i := map2 (fun pj z => do! x <- get z i; Ok (mneg (pm_p pj) x)) ps q_inv_mod_ps in
      do! outs <- acc_rows convert_modulus qs rows ps (map column (seq 0 (length qs))) (zero_outs n ps);
      do! outs <- seqr (map2 (fun pj o =>
        do! cs <- seqr (map (fun x => do! u <- d_round D x; Ok (import_int (pm_p pj) u)) us);
        batch_add (pm_p pj) o cs) ps outs);
      Ok {| rp_logn := rp_logn a; rp_vs := outs; rp_ntt := false |}
  end.

(** rns/rns_polynomial.h lines 430-446: ExtendRnsBasisInPlace. *)
Definition rns_extend_basis (D : dops) (a : rpoly) (qs ps : list pmod) (hat_inv : list Z)
  (hat_mod_ps : list rnsint) (q_mod_ps : list Z) : result rpoly :=
  do! b <- rns_switch_basis D a qs ps hat_inv hat_mod_ps q_mod_ps;
  Ok (with_vs a (rp_vs a ++ rp_vs b)).

(** rns/rns_polynomial.h lines 452-484: ScaleAndReduceRnsBasisInPlace. *)
Definition rns_scale_and_reduce (D : dops) (a aux : rpoly) (t : Z) (qs ps : list pmod) (p_hat_inv : list Z)
  (p_hat_mod_qs : list rnsint) (p_mod_qs p_inv_mod_qs : list Z) : result rpoly :=
  do! a <- rns_mul_scalar a t qs;
  do! aux <- rns_mul_scalar aux t ps;
  do! aux <- (if rp_ntt aux then rns_to_coeff aux ps else Ok aux);
  do! delta <- rns_switch_basis D aux ps qs p_hat_inv p_hat_mod_qs p_mod_qs;
  do! delta <- (if rp_ntt a then rns_to_ntt delta qs else Ok delta);
  do! a <- rns_sub a delta qs;
  rns_mul_rnsint a p_inv_mod_qs qs.

(** rns/rns_polynomial.cc lines 654-717: ApproxSwitchRnsBasis. The transforms of each row are done
    before the rows are accumulated; the order does not matter here as neither
    depends on the other. *)
Definition rns_approx_switch (a : rpoly) (qs ps : list pmod) (hat_inv : list Z) (hat_mod_ps : list rnsint)
  (balanced : bool) : result rpoly :=
  if negb (same_len qs (rp_vs a)) then Err InvalidArgument
  else match ps with
  | [] => Err InvalidArgument
  | _ =>
    if negb (same_len hat_inv (rp_vs a)) then Err InvalidArgument
    else if negb (same_len hat_mod_ps (rp_vs a)) then Err InvalidArgument
    else
      do! rows <- seqr (map2 (fun m vz =>
        do! r <- batch_mul_scalar (pm_p m) (fst vz) (snd vz);
        if rp_ntt a then inverse_ntt (pm_p m) (pm_np m) r else Ok r) qs (combine (rp_vs a) hat_inv));
      do! outs <- acc_rows (if balanced then convert_balanced else convert_modulus) qs rows ps
        (map (map Ok) hat_mod_ps) (zero_outs (rp_ncoeffs a) ps);
      Ok {| rp_logn := rp_logn a; rp_vs := outs; rp_ntt := false |}
  end.

(** rns/rns_polynomial.cc lines 719-792: ApproxModReduceLsb. *)
Definition rns_approx_reduce_lsb (a aux : rpoly) (qs ps : list pmod) (p_inv_mod_qs p_hat_inv : list Z)
  (p_hat_mod_qs : list rnsint) (t_inv_mod_ps : list Z) (p_mod_t t : Z) : result rpoly :=
  if negb (same_len qs (rp_vs a)) then Err InvalidArgument
  else if negb (same_len ps (rp_vs aux)) then Err InvalidArgument
  else if negb (same_len p_inv_mod_qs (rp_vs a)) then Err InvalidArgument
  else if negb (same_len p_hat_inv (rp_vs aux)) then Err InvalidArgument
  else if negb (same_len p_hat_mod_qs (rp_vs aux)) then Err InvalidArgument
  else if negb (same_len t_inv_mod_ps (rp_vs aux)) then Err InvalidArgument
  else
    do! vs <- seqr (map2 (fun m vz =>
      let p := pm_p m in
      do! v <- batch_mul_scalar p (fst vz) (import_int p p_mod_t);
      batch_mul_scalar p v (mneg p (snd vz))) ps (combine (rp_vs aux) t_inv_mod_ps));
    let aux := with_vs aux vs in
    do! delta <- rns_approx_switch aux ps qs p_hat_inv p_hat_mod_qs true;
    do! delta <- rns_to_ntt delta qs;
    do! delta <- rns_mul_scalar delta t qs;
    do! a <- (if rp_ntt a then Ok a else rns_to_ntt a qs);
    do! a <- rns_mul_scalar a p_mod_t qs;
    do! a <- rns_add a delta qs;
    rns_mul_rnsint a p_inv_mod_qs qs.

(** rns/rns_polynomial.cc lines 794-844: ApproxModReduceMsb. *)
Definition rns_approx_reduce_msb (a aux : rpoly) (qs ps : list pmod) (p_inv_mod_qs p_hat_inv : list Z)
  (p_hat_mod_qs : list rnsint) : result rpoly :=
  if negb (same_len qs (rp_vs a)) then Err InvalidArgument
  else if negb (same_len ps (rp_vs aux)) then Err InvalidArgument
  else if negb (same_len p_inv_mod_qs (rp_vs a)) then Err InvalidArgument
  else if negb (same_len p_hat_inv (rp_vs aux)) then Err InvalidArgument
  else if negb (same_len p_hat_mod_qs (rp_vs aux)) then Err InvalidArgument
  else
    do! delta <- rns_approx_switch aux ps qs p_hat_inv p_hat_mod_qs false;
    do! delta <- rns_to_ntt delta qs;
    do! a <- (if rp_ntt a then Ok a else rns_to_ntt a qs);
    do! a <- rns_sub a delta qs;
    rns_mul_rnsint a p_inv_mod_qs qs.

(** rns/rns_polynomial.h lines 627-656: SampleUniform (a null generator is not modelled). *)
Section Sample.
Variable R : prng.

Fixpoint rns_sample_rows (fuel n : nat) (ms : list pmod) (s : pr_st R) : result (list (list Z) * pr_st R) :=
  match ms with
  | [] => Ok ([], s)
  | m :: ms' =>
      do! ' (v, s) <- sample_n R fuel n (pm_p m) s;
      do! ' (vs, s) <- rns_sample_rows fuel n ms' s;
      Ok (v :: vs, s)
  end.

Definition rns_sample_uniform (fuel : nat) (log_n : Z) (ms : list pmod) (s : pr_st R) : result (rpoly * pr_st R) :=
  if log_n <=? 0 then Err InvalidArgument
  else match ms with
  | [] => Err InvalidArgument
  | _ =>
      do! n <- shl_int log_n;
      do! ' (vs, s) <- rns_sample_rows fuel n ms s;
      Ok ({| rp_logn := Z.to_nat log_n; rp_vs := vs; rp_ntt := true |}, s)
  end.
End Sample.
