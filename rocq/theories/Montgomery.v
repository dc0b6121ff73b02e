(** Model of /repo/shell_encryption/montgomery.h and montgomery.cc (scalar part).
    A [MontgomeryInt] is its only field [n_], a [Z].  [k] is
    [Params::bitsize_int]; [BigInt] has [2k] bits. *)
From Verif Require Import Base BitsUtil.

(** montgomery.h lines 88-124: the fields of MontgomeryIntParams. *)
Record mparams := MkParams {
  p_k : Z;          (* bitsize_int *)
  p_m : Z;          (* modulus *)
  p_logm : Z;       (* log_modulus *)
  p_rmm : Z;        (* r_mod_modulus *)
  p_rmmb : Z;       (* r_mod_modulus_barrett *)
  p_invm : Z;       (* inv_modulus *)
  p_invr : Z;       (* inv_r *)
  p_invrb : Z;      (* inv_r_barrett *)
  p_bn : Z;         (* barrett_numerator *)
  p_bnb : Z         (* barrett_numerator_bigint *)
}.

(** montgomery.cc lines 41-70 (Inverses): body of the loop, in 2k-bit words. *)
Definition inverses_step (k m : Z) (xy : Z * Z) : Z * Z :=
  let '(x, y) := xy in
  let '(x, y) := if x mod 2 =? 1
                 then (wrap (2 * k) (x + m), wrap (2 * k) (y + 2 ^ k))
                 else (x, y) in
  (shr x 1, shr y 1).

(** montgomery.cc lines 41-70; returns (inv_r, inv_modulus). *)
Definition inverses (k m : Z) : Z * Z :=
  let '(x, y) := Nat.iter (Z.to_nat k) (inverses_step k m) (1, 0) in
  (wrap k x, wrap k y).

(** montgomery.h lines 177-192: the private constructor. *)
Definition params_make (k m : Z) : mparams :=
  let rmm := wrap k (2 ^ k mod m) in
  let invr := fst (inverses k m) in
  {| p_k := k;
     p_m := m;
     p_logm := bit_length m;
     p_rmm := rmm;
     p_rmmb := wrap k (wrap (2 * k) (rmm * 2 ^ k) / m);
     p_invm := snd (inverses k m);
     p_invr := invr;
     p_invrb := wrap k (wrap (2 * k) (invr * 2 ^ k) / m);
     p_bn := 2 ^ k / m;
     p_bnb := 2 ^ (2 * k - 1) / m |}.

(** montgomery.cc lines 22-37. *)
Definition params_create (k m : Z) : result mparams :=
  if negb (shr m (k - 2) =? 0) then Err InvalidArgument
  else if m mod 2 =? 0 then Err InvalidArgument
  else Ok (params_make k m).

(** The final "(out >= modulus) ? out - modulus : out" of every reduction, as in
    montgomery.h line 140. *)
Definition csub (p : mparams) (x : Z) : Z := if p_m p <=? x then x - p_m p else x.

(** montgomery.h lines 134-141. The product [out * modulus] is at most the
    input word, so for 16-bit words integer promotion cannot overflow there
    (MontgomeryProofs.barrett_product_le). *)
Definition barrett_reduce (p : mparams) (x : Z) : Z :=
  let out := wrap (p_k p) (shr (wrap (2 * p_k p) (p_bn p * x)) (p_k p)) in
  let out := wrap (p_k p) (x - wrap (p_k p) (out * p_m p)) in
  csub p out.

(** montgomery.h lines 143-152 and, for 128-bit words, lines 205-217. BigBigInt
    has 4k bits. *)
Definition barrett_reduce_bigint (p : mparams) (x : Z) : Z :=
  let k := p_k p in
  if k =? 128 then wrap k (x mod p_m p)
  else
    let out := wrap k (shr (wrap (4 * k) (p_bnb p * x)) (2 * k - 1)) in
    let out := wrap k (wrap k x - wrap k (out * p_m p)) in
    csub p out.

(** montgomery.h lines 156-164. *)
Definition export_int (p : mparams) (x : Z) : Z :=
  let k := p_k p in
  let out := wrap k (shr (wrap (2 * k) (p_invrb p * x)) k) in
  let out := wrap k (wrap k (x * p_invr p) - wrap k (out * p_m p)) in
  csub p out.

(** montgomery.h line 167. *)
Definition serialized_size (p : mparams) : Z := (p_logm p + 7) / 8.

(** montgomery.h line 170. *)
Definition does_log_n_fit (k log_n : Z) : bool := log_n <? k - 1.

(** montgomery.cc lines 73-82. *)
Definition import_int (p : mparams) (n : Z) : Z :=
  let k := p_k p in
  let product := wrap (2 * k) (p_rmmb p * n) in
  let res := wrap k (shr product k) in
  let res := wrap k (wrap k (n * p_rmm p) - wrap k (res * p_m p)) in
  csub p res.

(** montgomery.cc lines 84-93. *)
Definition import_zero (p : mparams) : Z := 0.
Definition import_one (p : mparams) : Z := p_rmm p.

(** montgomery.h lines 312-330. *)
Definition mmul (p : mparams) (a b : Z) : Z :=
  let k := p_k p in
  let product := wrap (2 * k) (a * b) in
  let u := wrap k (wrap (2 * k) (product * p_invm p)) in
  let t := wrap (2 * k) (product + wrap (2 * k) (p_m p * u)) in
  let t_msb := wrap k (shr t k) in
  csub p t_msb.

(** montgomery.cc lines 194-200. *)
Definition get_constant (p : mparams) (a : Z) : Z * Z :=
  let c := export_int p a in
  (c, wrap (p_k p) (wrap (2 * p_k p) (c * 2 ^ p_k p) / p_m p)).

(** montgomery.h lines 356-366. *)
Definition mul_constant (p : mparams) (n : Z) (c : Z * Z) : Z :=
  let k := p_k p in
  let out := wrap k (shr (wrap (2 * k) (snd c * n)) k) in
  let n := wrap k (wrap k (n * fst c) - wrap k (out * p_m p)) in
  csub p n.

(** montgomery.h lines 377-381. *)
Definition madd (p : mparams) (a b : Z) : Z := barrett_reduce p (wrap (p_k p) (a + b)).

(** montgomery.h lines 384-393. *)
Definition mneg (p : mparams) (a : Z) : Z := wrap (p_k p) (p_m p - a).

(** montgomery.h lines 405-409. *)
Definition msub (p : mparams) (a b : Z) : Z :=
  barrett_reduce p (wrap (p_k p) (a + (p_m p - b))).

(** montgomery.h lines 425-438. *)
Definition lazy_add (p : mparams) (a b : Z) : Z := wrap (p_k p) (a + b).
Definition lazy_sub (p : mparams) (a b : Z) : Z := wrap (p_k p) (a + (p_m p - b)).

(** montgomery.h lines 440-459. The product [static_cast<Int>(t) * inv_modulus]
    is a product of two values of type [Int], hence subject to promotion. *)
Definition fused_mul_add (p : mparams) (n a b : Z) : result Z :=
  let k := p_k p in
  let t := wrap (2 * k) (wrap (2 * k) (p_rmm p * n) + wrap (2 * k) (a * b)) in
  do! u <- mul_int k (wrap k t) (p_invm p);
  let t := wrap (2 * k) (t + wrap (2 * k) (p_m p * u)) in
  let t_msb := wrap k (shr t k) in
  Ok (csub p t_msb).

(** montgomery.h lines 461-502. *)
Definition fused_mul_constant_add (p : mparams) (n a : Z) (c : Z * Z) : Z :=
  let k := p_k p in
  let out := wrap k (shr (wrap (2 * k) (wrap (2 * k) (snd c * a) +
                                        wrap (2 * k) (p_bn p * n))) k) in
  let n := wrap k (n + (a * fst c - out * p_m p)) in
  csub p n.

(** montgomery.h line 602: operator==. *)
Definition meqb (a b : Z) : bool := a =? b.

(** montgomery.cc lines 446-466: the exponent has [k] bits, so the while loop
    runs at most [k] times; the fuel is exactly [k]. *)
Fixpoint mod_exp_loop (fuel : nat) (p : mparams) (result base exponent : Z) : Z :=
  match fuel with
  | O => result
  | S f =>
      if exponent >? 0 then
        let result := if exponent mod 2 =? 1 then mmul p result base else result in
        mod_exp_loop f p result (mmul p base base) (shr exponent 1)
      else result
  end.

Definition mod_exp (p : mparams) (a e : Z) : Z :=
  mod_exp_loop (Z.to_nat (p_k p)) p (import_one p) a e.

(** montgomery.cc lines 468-472. *)
Definition mult_inverse (p : mparams) (a : Z) : Z :=
  mod_exp p a (wrap (p_k p) (p_m p - 2)).

(** montgomery.cc lines 495-500: the loop.  [j] is 0 or 1; state is
    (r[j], r[j^1], s[j], s[j^1], j).  Running out of fuel is reported as [UB],
    so a theorem that the result is never [UB] includes termination within the
    fuel.  [s[j] + q * s[j^1]] is computed with [mul_int] and a wrap. *)
Fixpoint euclid_loop (fuel : nat) (k : Z) (rj rj1 sj sj1 : Z) (j : bool)
  : result (Z * Z * bool) :=
  match fuel with
  | O => UB
  | S f =>
      if rj1 =? 0 then Ok (rj, sj, j)
      else
        let q := rj / rj1 in
        let rj := rj mod rj1 in
        do! qs <- mul_int k q sj1;
        let sj := wrap k (sj + qs) in
        euclid_loop f k rj1 rj sj1 sj (negb j)
  end.

(** montgomery.cc lines 478-509. *)
Definition mult_inverse_fast (p : mparams) (a : Z) : result Z :=
  let k := p_k p in
  let x := export_int p a in
  do! '(rj, sj, j) <- euclid_loop (Z.to_nat (2 * k + 4)) k x (wrap k (p_m p - x)) 1 1 false;
  if negb (rj =? 1) then Err InvalidArgument
  else Ok (import_int p (if j then wrap k (p_m p - sj) else sj)).
