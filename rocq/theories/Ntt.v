(** Model of ntt_parameters.h, ntt_parameters.cc and dft_transformations.h.
    Vectors of ModularInt are lists of stored words; indices are [nat]. *)
From Verif Require Import Base Montgomery.

(** constants.h: kMaxLogNumCoeffs = 15. *)
Definition max_log_num_coeffs : Z := 15.

(** ntt_parameters.cc lines 21-30. The 32-bit words do not wrap for
    log_n <= 15, the only values InitializeNttParameters passes. *)
Fixpoint bitrev_loop (log_n : nat) (input output : nat) : nat :=
  match log_n with
  | O => output
  | S l => bitrev_loop l (input / 2) (2 * output + input mod 2)
  end.

Definition bitrev (input log_n : nat) : nat := bitrev_loop log_n input 0.

(** ntt_parameters.cc lines 32-41. *)
Definition bitrev_array (log_n : nat) : list nat :=
  map (fun i => bitrev i log_n) (seq 0 (2 ^ log_n)).

(** A loop with early exit, run for at most 2^d iterations (binary fuel, so
    that large bounds stay computable). [step] returns [inl] to continue. *)
Fixpoint iter2 {S R} (d : nat) (step : S -> S + R) (s : S) : S + R :=
  match d with
  | O => step s
  | Datatypes.S d' => match iter2 d' step s with inl s' => iter2 d' step s' | r => r end
  end.

(** ntt_parameters.h lines 41-71: PrimitiveNthRootOfUnity. 2^k iterations are
    more than the loop can make, since t < modulus < 2^k. *)
Definition root_step (p : mparams) (e half_n : Z) (t : Z) : Z + result Z :=
  if t <? p_m p then
    let mt := import_int p t in
    let candidate := mod_exp p mt e in
    if negb (meqb (mod_exp p candidate half_n) (import_one p)) then inr (Ok candidate)
    else inl (wrap (p_k p) (t + 1))
  else inr (Err Unknown).

Definition primitive_root (p : mparams) (log_n : Z) : result Z :=
  let n := wrap (p_k p) (2 ^ log_n) in
  let half_n := shr n 1 in
  let e := (p_m p - 1) / n in
  match iter2 (Z.to_nat (p_k p)) (root_step p e half_n) 2 with
  | inr r => r
  | inl _ => UB
  end.

(** ntt_parameters.h lines 32-39: FillWithEveryPower on a row of n zeros, and
    lines 79-92: NttPsis. *)
Definition fill_powers (p : mparams) (base : Z) (n : nat) : list Z :=
  map (fun i => madd p (import_zero p) (mod_exp p base (Z.of_nat i))) (seq 0 n).

Definition ntt_psis (p : mparams) (log_n : nat) : result (list Z) :=
  do! psi <- primitive_root p (Z.of_nat log_n + 1);
  Ok (fill_powers p psi (2 ^ log_n)).

(** ntt_parameters.h lines 101-111: BitrevHelper, swapping in place. *)
Definition swap {A} (d : A) (l : list A) (i j : nat) : list A :=
  upd (upd l i (nth j l d)) j (nth i l d).

Fixpoint bitrev_helper_loop {A} (d : A) (bitrevs : list nat) (is : list nat) (l : list A)
  : result (list A) :=
  match is with
  | [] => Ok l
  | i :: is' =>
      do! r <- get bitrevs i;
      if (i <? r)%nat then
        if (r <? length l)%nat then bitrev_helper_loop d bitrevs is' (swap d l i r) else UB
      else bitrev_helper_loop d bitrevs is' l
  end.

Definition bitrev_helper {A} (d : A) (bitrevs : list nat) (l : list A) : result (list A) :=
  bitrev_helper_loop d bitrevs (seq 0 (length l)) l.

(** ntt_parameters.h lines 117-126. *)
Definition ntt_psis_bitrev (p : mparams) (log_n : nat) : result (list Z) :=
  do! psis <- ntt_psis p log_n;
  bitrev_helper 0 (bitrev_array log_n) psis.

(** ntt_parameters.h lines 130-157. [row[1]] exists for log_n >= 1. *)
Definition ntt_psis_inv_bitrev (p : mparams) (log_n : nat) : result (list Z) :=
  do! row <- ntt_psis p log_n;
  let row := firstn 1 row ++ rev (skipn 1 row) in
  do! row1 <- get row 1;
  let psi_inv := mneg p row1 in
  let negative_psi_inv := row1 in
  do! row <- bitrev_helper 0 (bitrev_array log_n) row;
  Ok (map (fun x => mmul p x psi_inv) (firstn 1 row) ++
      map (fun x => mmul p x negative_psi_inv) (skipn 1 row)).

(** ntt_parameters.h lines 160-179: struct NttParameters. *)
Record nttp := {
  np_n : nat;                         (* number_coeffs *)
  np_ninv : Z;                        (* n_inv_ptr *)
  np_psis : list Z;                   (* psis_bitrev *)
  np_psis_c : list (Z * Z);           (* psis_bitrev_constant *)
  np_psis_inv : list Z;               (* psis_inv_bitrev *)
  np_psis_inv_c : list (Z * Z);       (* psis_inv_bitrev_constant *)
  np_bitrevs : list nat               (* bitrevs *)
}.

(** ntt_parameters.h lines 183-235: InitializeNttParameters. *)
Definition init_ntt (p : mparams) (log_n : Z) : result nttp :=
  if log_n <=? 0 then Err InvalidArgument
  else if max_log_num_coeffs <? log_n then Err InvalidArgument
  else if negb (does_log_n_fit (p_k p) log_n) then Err InvalidArgument
  else
    let two_n := wrap (p_k p) (2 ^ (log_n + 1)) in
    if negb (p_m p mod two_n =? 1) then Err InvalidArgument
    else
      let n := wrap (p_k p) (2 ^ log_n) in
      let mn := import_int p n in
      let n_inv := mult_inverse p mn in
      let l := Z.to_nat log_n in
      do! psis <- ntt_psis_bitrev p l;
      do! psis_inv <- ntt_psis_inv_bitrev p l;
      Ok {| np_n := 2 ^ l; np_ninv := n_inv;
            np_psis := psis; np_psis_c := map (get_constant p) psis;
            np_psis_inv := psis_inv; np_psis_inv_c := map (get_constant p) psis_inv;
            np_bitrevs := bitrev_array l |}.

(** [for (k = 0; k < size; k += m)]: the successive values of k. *)
Definition steps (size m : nat) : list nat :=
  map (fun b => b * m)%nat (seq 0 ((size + m - 1) / m)).

(** dft_transformations.h lines 72-94: one Cooley-Tukey butterfly at layer i,
    on positions lo and hi. *)
Definition ct_butterfly (p : mparams) (odd : bool) (c : Z * Z) (v : list Z) (lo hi : nat)
  : list Z :=
  let t := mul_constant p (nth hi v 0) c in
  let u := nth lo v 0 in
  if odd then upd (upd v lo (lazy_add p u t)) hi (lazy_sub p u t)
  else upd (upd v lo (madd p u t)) hi (msub p u t).

(** Lines 70-95: the loop over j. *)
Definition ct_block (p : mparams) (odd : bool) (c : Z * Z) (half k : nat) (v : list Z) : list Z :=
  fold_left (fun v j => ct_butterfly p odd c v (k + j) (k + j + half)) (seq 0 half) v.

(** Lines 67-97: the loop over k; the state is (coeffs, index_psi). The table
    is indexed without a check. *)
Fixpoint ct_blocks (p : mparams) (np : nttp) (odd : bool) (half : nat) (ks : list nat)
  (v : list Z) (index_psi : nat) : result (list Z * nat) :=
  match ks with
  | [] => Ok (v, index_psi)
  | k :: ks' =>
      do! c <- get (np_psis_c np) index_psi;
      ct_blocks p np odd half ks' (ct_block p odd c half k v) (S index_psi)
  end.

(** Lines 63-98: layers i = log_len - 1 down to 0. *)
Fixpoint ct_layers (p : mparams) (np : nttp) (i : nat) (v : list Z) (index_psi : nat)
  : result (list Z) :=
  match i with
  | O => Ok v
  | S i' =>
      do! '(v, index_psi) <-
        ct_blocks p np (Nat.odd i') (2 ^ i') (steps (length v) (2 * 2 ^ i')) v index_psi;
      ct_layers p np i' v index_psi
  end.

(** dft_transformations.h lines 157-175: ForwardNumberTheoreticTransform.
    [log2(size)] truncated is [Nat.log2]; for an empty vector the conversion of
    minus infinity to [int] is undefined. *)
Definition forward_ntt (p : mparams) (np : nttp) (v : list Z) : result (list Z) :=
  if (length v =? 0)%nat then UB
  else
    let log_len := Nat.log2 (length v) in
    if negb (length v =? 2 ^ log_len)%nat then Err InvalidArgument
    else ct_layers p np log_len v 1.

(** dft_transformations.h lines 132-147: the Gentleman-Sande loop over j. *)
Fixpoint gs_block (p : mparams) (c : Z * Z) (half k : nat) (js : list nat) (v : list Z)
  : result (list Z) :=
  match js with
  | [] => Ok v
  | j :: js' =>
      if (length v <=? k + j + half)%nat then Err InvalidArgument
      else
        let t := nth (k + j + half) v 0 in
        let u := nth (k + j) v 0 in
        let v := upd v (k + j) (madd p u t) in
        gs_block p c half k js' (upd v (k + j + half) (mul_constant p (lazy_sub p u t) c))
  end.

(** Lines 126-149. *)
Fixpoint gs_blocks (p : mparams) (np : nttp) (half : nat) (ks : list nat) (v : list Z)
  (index_psi_inv : nat) : result (list Z * nat) :=
  match ks with
  | [] => Ok (v, index_psi_inv)
  | k :: ks' =>
      match nth_error (np_psis_inv_c np) index_psi_inv with
      | None => Err InvalidArgument
      | Some c =>
          do! v <- gs_block p c half k (seq 0 half) v;
          gs_blocks p np half ks' v (S index_psi_inv)
      end
  end.

(** Lines 123-150: layers i, ..., log_len - 1 ([fuel] of them). *)
Fixpoint gs_layers (p : mparams) (np : nttp) (fuel i : nat) (v : list Z) (index_psi_inv : nat)
  : result (list Z) :=
  match fuel with
  | O => Ok v
  | S f =>
      do! '(v, index_psi_inv) <-
        gs_blocks p np (2 ^ i) (steps (length v) (2 * 2 ^ i)) v index_psi_inv;
      gs_layers p np f (S i) v index_psi_inv
  end.

(** dft_transformations.h lines 180-200: InverseNumberTheoreticTransform. *)
Definition inverse_ntt (p : mparams) (np : nttp) (v : list Z) : result (list Z) :=
  if (length v =? 0)%nat then UB
  else
    let log_len := Nat.log2 (length v) in
    if negb (length v =? 2 ^ log_len)%nat then Err InvalidArgument
    else
      do! v <- gs_layers p np log_len 0 v 0;
      Ok (map (fun x => mmul p x (np_ninv np)) v).
