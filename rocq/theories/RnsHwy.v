(** * The vectorised multiply-and-add of shell_encryption/rns/rns_polynomial_hwy.cc

    The Highway library is not part of /repo.  The operations below follow its
    documented meaning (quick reference of the version pinned in WORKSPACE).  A
    vector is the list of its lanes, lane 0 first; a lane of a [k]-bit type holds
    a number in [0, 2^k).  A lane that the documentation leaves unspecified holds
    [u], over which every theorem quantifies. *)
From Verif Require Import Base Montgomery MontBatch RnsPoly RnsCt.

(** ** Highway operations *)

(** a vector with [n] lanes, given lane by lane, as loaded in rns/rns_polynomial_hwy.cc lines 78-80 *)
Definition lanes {A} (n : nat) (f : nat -> A) : list A := map f (seq 0 n).
Definition lane (v : list Z) (i : nat) : Z := nth i v 0.

(** MulEven and MulOdd on lanes of less than 64 bits: double-width products of
    the even (odd) lanes; half as many lanes. *)
Definition mul_even_wide (a b : list Z) : list Z :=
  lanes (length a / 2) (fun i => lane a (2 * i) * lane b (2 * i)).
Definition mul_odd_wide (a b : list Z) : list Z :=
  lanes (length a / 2) (fun i => lane a (2 * i + 1) * lane b (2 * i + 1)).

(** MulEven and MulOdd on 64-bit lanes: low half of the product in the even
    lane, high half in the odd lane. *)
Definition half64 (i : nat) (x : Z) : Z := if Nat.even i then wrap 64 x else shr x 64.
Definition mul_even64 (a b : list Z) : list Z :=
  lanes (length a) (fun i => half64 i (lane a (2 * (i / 2)) * lane b (2 * (i / 2)))).
Definition mul_odd64 (a b : list Z) : list Z :=
  lanes (length a) (fun i => half64 i (lane a (2 * (i / 2) + 1) * lane b (2 * (i / 2) + 1))).

(** InterleaveWholeLower/Upper of rns/rns_polynomial_hwy.cc lines 85-86, 152-153: the lanes of the lower (upper) halves of both
    vectors, alternating. *)
Definition interleave_lower (x y : list Z) : list Z :=
  lanes (length x) (fun i => lane (if Nat.even i then x else y) (i / 2)).
Definition interleave_upper (x y : list Z) : list Z :=
  lanes (length x) (fun i => lane (if Nat.even i then x else y) (length x / 2 + i / 2)).

(** Per4LaneBlockShuffle<i3, i2, i1, i0>: within each block of four lanes, lane r
    becomes the lane with index [ir]; a vector of fewer than four lanes has
    unspecified contents where the index is not one of its lanes. *)
Definition per4_shuffle (i3 i2 i1 i0 : nat) (u : Z) (v : list Z) : list Z :=
  lanes (length v) (fun i => nth (4 * (i / 4) + nth (i mod 4) [i0; i1; i2; i3] 0%nat) v u).

(** Add (wrapping), Lt, And on masks, Slide1Up, SlideMask1Up, IfThenElseZero, Set,
    MaskedAddOr, LoadMaskBits. *)
Definition lanes_add (k : Z) (x y : list Z) : list Z := lanes (length x) (fun i => wrap k (lane x i + lane y i)).
Definition lanes_lt (x y : list Z) : list bool := lanes (length x) (fun i => lane x i <? lane y i).
Definition mask_and (m m' : list bool) : list bool := lanes (length m) (fun i => nth i m false && nth i m' false).
Definition slide1up (x : list Z) : list Z := lanes (length x) (fun i => match i with O => 0 | S j => lane x j end).
Definition slide_mask1up (m : list bool) : list bool :=
  lanes (length m) (fun i => match i with O => false | S j => nth j m false end).
Definition if_then_else_zero (m : list bool) (x : list Z) : list Z :=
  lanes (length x) (fun i => if nth i m false then lane x i else 0).
Definition set_all (n : nat) (x : Z) : list Z := lanes n (fun _ => x).
Definition masked_add_or (k : Z) (no : list Z) (m : list bool) (x y : list Z) : list Z :=
  lanes (length x) (fun i => if nth i m false then wrap k (lane x i + lane y i) else lane no i).
Definition load_mask_bits (n : nat) (bytes : list Z) : list bool :=
  lanes n (fun i => Z.testbit (nth (i / 8) bytes 0) (Z.of_nat (i mod 8))).

(** ** The functions of rns_polynomial_hwy.cc *)

(** output[i] += a[i] * b[i] on double-width integers: the tail loops (rns/rns_polynomial_hwy.cc lines
    93-96, 175-178) and BatchFusedMulAddMontgomeryRepNoHwy (lines 190-200).
    Entries of [out] past the end of [a] are left alone; reading [b] or [out]
    past its end is undefined. *)
Fixpoint fma_scalar (w : Z) (a b out : list Z) : result (list Z) :=
  match a with
  | [] => Ok out
  | x :: a' =>
      match b, out with
      | y :: b', o :: out' =>
          do! r <- fma_scalar w a' b' out';
          Ok (wrap w (o + wrap w (x * y)) :: r)
      | _, _ => UB
      end
  end.

(** The loop "for (; i + N <= num_coeffs; i += N)" (rns/rns_polynomial_hwy.cc lines 71-90, 129-171) over
    blocks of N entries, then the tail.  [step] is the loop body on the N entries
    of a, b and output; [fuel] bounds the number of blocks. *)
Fixpoint fma_blocks (w : Z) (N : nat) (step : list Z -> list Z -> list Z -> list Z) (fuel : nat)
    (a b out : list Z) : result (list Z) :=
  if (N <=? length a)%nat then
    match fuel with
    | O => UB
    | S fuel' =>
        if (length b <? N)%nat || (length out <? N)%nat then UB
        else
          do! r <- fma_blocks w N step fuel' (skipn N a) (skipn N b) (skipn N out);
          Ok (step (firstn N a) (firstn N b) (firstn N out) ++ r)
    end
  else fma_scalar w a b out.

(** rns/rns_polynomial_hwy.cc lines 71-90: the body for Integers of less than 64 bits; [k] is their size. *)
Definition hwy_step (k : Z) (N : nat) (a_vec b_vec out : list Z) : list Z :=
  let output0 := firstn (N / 2) out in
  let output1 := firstn (N / 2) (skipn (N / 2) out) in
  let mul_even := mul_even_wide a_vec b_vec in
  let mul_odd := mul_odd_wide a_vec b_vec in
  let mul0 := interleave_lower mul_even mul_odd in
  let mul1 := interleave_upper mul_even mul_odd in
  lanes_add (2 * k) output0 mul0 ++ lanes_add (2 * k) output1 mul1.

(** rns/rns_polynomial_hwy.cc lines 55-97: BatchFusedMulAddMontgomeryRepHwy. *)
Definition fma_hwy (k : Z) (N : nat) (a b out : list Z) : result (list Z) :=
  fma_blocks (2 * k) N (hwy_step k N) (length a) a b out.

(** rns/rns_polynomial_hwy.cc lines 131-132: 128-bit integers in memory as 64-bit lanes, low half first
    (little endian). *)
Definition to_lanes (out : list Z) : list Z := flat_map (fun x => [wrap 64 x; shr x 64]) out.
Fixpoint of_lanes (v : list Z) : list Z :=
  match v with lo :: hi :: v' => (lo + 2 ^ 64 * hi) :: of_lanes v' | _ => [] end.

(** rns/rns_polynomial_hwy.cc lines 115-122 and 125: mask_lo_bits, mask_lo and ones. The buffer is
    (N + 7) / 8 bytes long. *)
Definition mask_byte : Z := fold_left (fun b k => Z.lor b (wrap 8 (2 ^ k))) [0; 2; 4; 6] 0.
Definition mask_lo (N : nat) : list bool := load_mask_bits N (repeat mask_byte ((N + 7) / 8)).
Definition ones (N : nat) : list Z := slide1up (if_then_else_zero (mask_lo N) (set_all N 1)).

(** rns/rns_polynomial_hwy.cc lines 160-167 for one of the two halves of the output. *)
Definition add_carry (N : nat) (output mul : list Z) : list Z :=
  let output_new := lanes_add 64 output mul in
  let mask_carry := slide_mask1up (mask_and (lanes_lt output_new output) (mask_lo N)) in
  masked_add_or 64 output_new mask_carry output_new (ones N).

(** rns/rns_polynomial_hwy.cc lines 129-171: the body for 64-bit integers. *)
Definition hwy_step64 (u : Z) (N : nat) (a_vec b_vec out : list Z) : list Z :=
  let output0 := firstn N (to_lanes out) in
  let output1 := firstn N (skipn N (to_lanes out)) in
  let mul_even := mul_even64 a_vec b_vec in
  let mul_odd := mul_odd64 a_vec b_vec in
  let mul0 := per4_shuffle 3 1 2 0 u (interleave_lower mul_even mul_odd) in
  let mul1 := per4_shuffle 3 1 2 0 u (interleave_upper mul_even mul_odd) in
  of_lanes (add_carry N output0 mul0 ++ add_carry N output1 mul1).

(** rns/rns_polynomial_hwy.cc lines 102-179: the specialization for 64-bit integers. *)
Definition fma_hwy64 (u : Z) (N : nat) (a b out : list Z) : result (list Z) :=
  fma_blocks 128 N (hwy_step64 u N) (length a) a b out.

(** lazy_rns_polynomial.cc lines 82-120: FusedMulAddInPlace for 32- and 64-bit
    integers; [fma] is the multiply-and-add on one coefficient vector. The checks
    (lines 34-55) are those of [rlazy_fused]. *)
Definition rlazy_fused_with (fma : list Z -> list Z -> list Z -> result (list Z))
    (z : rlazy) (a b : rpoly) (ms : list pmod) : result rlazy :=
  if negb (rp_ntt a) || negb (rp_ntt b) then Err InvalidArgument
  else if negb (same_len (rp_vs a) ms) || negb (same_len (rp_vs b) ms) || negb (same_len (rl_vs z) ms) then Err InvalidArgument
  else match rl_vs z with
  | [] => UB
  | v0 :: _ =>
    if negb (rp_ncoeffs a =? length v0)%nat || negb (rp_ncoeffs b =? length v0)%nat then Err InvalidArgument
    else
      let z := if rl_level z =? rl_max z then rlazy_refresh z ms else z in
      do! vs <- seqr (map (fun zab => fma (fst (snd zab)) (snd (snd zab)) (fst zab))
                       (combine (rl_vs z) (combine (rp_vs a) (rp_vs b))));
      Ok {| rl_vs := vs; rl_level := rl_level z + 1; rl_max := rl_max z |}
  end.
Definition rlazy_fused32 (N : nat) := rlazy_fused_with (fma_hwy 32 N).
Definition rlazy_fused64 (u : Z) (N : nat) := rlazy_fused_with (fma_hwy64 u N).
