(** Model of shell_encryption/sampler/discrete_gaussian.{h,cc}.

    Floating-point numbers are a parameter: [fops] is the set of double
    operations the code uses. The theorems hold for every choice of them, so in
    particular for IEEE double arithmetic whatever the rounding. *)
From Verif Require Import Base Prng.

(** the operations on double used by sampler/discrete_gaussian.cc lines 56-160 *)
Record fops := { F : Type;
  f_lt : F -> F -> bool; f_le : F -> F -> bool;
  f_add : F -> F -> F; f_sub : F -> F -> F; f_mul : F -> F -> F; f_div : F -> F -> F;
  f_sqrt : F -> F; f_floor : F -> F; f_ceil : F -> F; f_max : F -> F -> F; f_exp : F -> F;
  f_of_Z : Z -> F;                 (* small integer constants and int -> double *)
  f_smoothing : F;                 (* kSmoothingParameter, 5.3349782 *)
  f_pi : F;
  f_to_unsigned : Z -> F -> result Z;  (* static_cast to a k-bit unsigned type, undefined when out of range *)
  f_to_int : F -> result Z }.

Section Gauss.
Variable D : fops.
Variable R : prng.
Notation d := (f_of_Z D).

(** discrete_gaussian.h:139-142: the members *)
Record sampler := { g_s_base : F D; g_cdt : list Z }.

(** discrete_gaussian.cc:43-50: FindInCdt *)
Definition find_in_cdt (cdt : list Z) (u : Z) : Z :=
  fold_left (fun index c => index + (if c <? u then 1 else 0)) cdt 0.

(** discrete_gaussian.cc:66-76: cdf[i + 1] += cdf[i] *)
Fixpoint running (acc : F D) (ps : list (F D)) : list (F D) :=
  match ps with [] => [] | p :: ps => let a := f_add D p acc in a :: running a ps end.
Definition cdf_of (ps : list (F D)) : list (F D) := match ps with [] => [] | p :: ps => p :: running p ps end.

(** discrete_gaussian.cc:56-87: Create. [scale] is exp2(63). The table size is
    computed in int, which overflows when cut_off_bound is 2^30 or more (lines
    70 and 76). *)
Definition g_create (scale : F D) (s_base : F D) : result sampler :=
  if f_lt D s_base (f_mul D (f_sqrt D (d 2)) (f_smoothing D)) then Err InvalidArgument
  else
    let mass_base := f_mul D (f_sqrt D (f_mul D (d 2) (f_pi D))) s_base in
    do! cut <- f_to_int D (f_mul D (d 8) (f_ceil D s_base));
    if 2 ^ 31 <=? 2 * cut + 1 then UB else
    let xs := map (fun i => - cut + Z.of_nat i) (seq 0 (Z.to_nat (2 * cut + 1))) in
    let ps := map (fun x => let y := f_div D (d x) s_base in
                            f_div D (f_exp D (f_div D (f_mul D (d (-1)) (f_mul D y y)) (d 2))) mass_base) xs in
    do! cdt <- seqr (map (fun p => f_to_unsigned D 64 (f_mul D p scale)) (cdf_of ps));
    Ok {| g_s_base := s_base; g_cdt := cdt |}.

Variable k : Z.   (* width of the template parameter Integer *)

(** discrete_gaussian.cc:124-134: SampleBase *)
Definition sample_base (g : sampler) (s : pr_st R) : result (Z * pr_st R) :=
  do! ' (u, s) <- pr_rand64 R s;
  let index := wrap k (find_in_cdt (g_cdt g) (Z.land u (2 ^ 63 - 1))) in
  let center_index := wrap k (Z.of_nat (length (g_cdt g)) / 2) in
  Ok (wrap k (index - center_index), s).

(** discrete_gaussian.cc:152-155 and 194-196: s_{i+1} from s_i *)
Definition level_z (s : F D) : F D := f_floor D (f_div D s (f_mul D (f_sqrt D (d 2)) (f_smoothing D))).
Definition level_next (s : F D) : F D :=
  let z := level_z s in
  let zm := f_sub D z (d 1) in
  f_mul D s (f_sqrt D (f_add D (f_max D (f_mul D zm zm) (d 1)) (f_mul D z z))).

(** discrete_gaussian.cc:137-160: NumIterations; [cnt] iterations at most
    ([i] is an int, so UB after 2^31 - 1 of them) *)
Fixpoint num_loop (cnt : nat) (s s_curr : F D) (i : Z) : result Z :=
  match cnt with
  | O => UB
  | S cnt => if f_le D s_curr s then
               if i =? 2 ^ 31 - 1 then UB else num_loop cnt s (level_next s_curr) (i + 1)
             else Ok (i - 1)
  end.
Definition num_iterations (fuel : nat) (g : sampler) (s : F D) : result Z :=
  if f_lt D s (g_s_base g) then Err InvalidArgument else num_loop fuel s (g_s_base g) 0.

(** discrete_gaussian.cc:183-189: drawing the base samples *)
Fixpoint draw_base (n : nat) (g : sampler) (s : pr_st R) : result (list Z * pr_st R) :=
  match n with
  | O => Ok ([], s)
  | S n => do! ' (x, s) <- sample_base g s; do! ' (xs, s) <- draw_base n g s; Ok (x :: xs, s)
  end.

(** discrete_gaussian.cc:203-210: one pass over the samples, [cnt] iterations
    left, current index [j] *)
Fixpoint comb_loop (cnt j gap : nat) (w v : Z) (samples : list Z) : result (list Z) :=
  match cnt with
  | O => Ok samples
  | S cnt =>
      do! x1 <- get samples j;
      do! x2 <- get samples (j + gap);
      do! y1 <- mul_int k w x1;
      do! y2 <- mul_int k v x2;
      comb_loop cnt (j + 2 * gap) gap w v (upd samples j (wrap k (y1 + y2)))
  end.

(** discrete_gaussian.cc:191-211: the levels; [n] left, current level [lvl] of [i] *)
Fixpoint level_loop (n lvl i : nat) (s : F D) (samples : list Z) : result (list Z * F D) :=
  match n with
  | O => Ok (samples, s)
  | S n =>
      let z := level_z s in
      do! w <- f_to_unsigned D k z;
      do! v <- f_to_unsigned D k (f_max D (d 1) (f_sub D z (d 1)));
      do! samples <- comb_loop (2 ^ (i - S lvl)) 0 (2 ^ lvl) w v samples;
      level_loop n (S lvl) i (level_next s) samples
  end.

(** discrete_gaussian.cc:162-213: SampleIIterative *)
Definition sample_i (g : sampler) (i : Z) (s : pr_st R) : result (Z * F D * pr_st R) :=
  if i <? 0 then Err InvalidArgument
  else if i =? 0 then do! ' (x, s) <- sample_base g s; Ok (x, g_s_base g, s)
  else if 31 <=? i then UB                       (* 1 << i *)
  else
    do! ' (samples, s) <- draw_base (2 ^ Z.to_nat i) g s;
    do! ' (samples, sd) <- level_loop (Z.to_nat i) 0 (Z.to_nat i) (g_s_base g) samples;
    do! x <- get samples 0;
    Ok (x, sd, s).

(** discrete_gaussian.cc:90-121: SampleWithIterations *)
Definition sample_with_iterations (g : sampler) (sd : F D) (n : Z) (s : pr_st R) : result (Z * pr_st R) :=
  if f_lt D sd (g_s_base g) then Err InvalidArgument
  else if n <? 0 then Err InvalidArgument
  else if n =? 0 then sample_base g s
  else
    do! ' (x1, s_i, s) <- sample_i g n s;
    do! ' (x2, s_i, s) <- sample_i g n s;
    let t := f_div D sd s_i in
    let z := f_ceil D (f_div D (f_add D (f_sqrt D (f_sub D (f_mul D (f_mul D (d 2) t) t) (d 1))) (d 1)) (d 2)) in
    do! zi <- f_to_unsigned D k z;
    do! zj <- f_to_unsigned D k (f_sub D z (d 1));
    do! y1 <- mul_int k zi x1;
    do! y2 <- mul_int k zj x2;
    Ok (wrap k (y1 + y2), s).

(** discrete_gaussian.h:97-100: Sample *)
Definition g_sample (fuel : nat) (g : sampler) (sd : F D) (s : pr_st R) : result (Z * pr_st R) :=
  do! n <- num_iterations fuel g sd; sample_with_iterations g sd n s.

End Gauss.
Arguments g_s_base {D}. Arguments g_cdt {D}. Arguments Build_sampler {D}.
