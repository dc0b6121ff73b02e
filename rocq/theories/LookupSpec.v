(** Specification vocabulary for C84: a private lookup, the use that
    oblivious_expand.h is made for, as the calls a client and a server make. *)
From Verif Require Import Base FinSum PolySpec Montgomery MontBatch Ntt Poly PolyView Spec SampleSpec SymEnc SymSpec NttFacts PolyExt Prng Sampling
  Relin RelinSpec Expand ExpandSpec.
Local Notation zsum := FinSum.zsum.

(** The client, once: a Galois key for each of the lv levels, the i-th for the
    power n / 2^i + 1 (oblivious_expand.h lines 238-256), as messages. *)
Definition client_keys (F : genfam) (fuel : nat) (key : skey) (ty : Z) (lv : nat) (logT : Z) (seeds : nat -> list Z * list Z)
  : result (list ser_relin) :=
  seqr (map (fun i =>
    do! gk <- galois_create F fuel key ty (Z.of_nat (np_n (sk_np key)) / 2 ^ Z.of_nat i + 1) logT (fst (seeds i)) (snd (seeds i));
    galois_serialize gk) (seq 0 lv)).

(** The client, for each request: the wanted indices as a compressed vector,
    multiplied by the normalizer, encrypted with the first components only; the
    second ones are generated from [seed], which is sent along. *)
Definition client_query (F : genfam) (fuel : nat) (key : skey) (ty : Z) (lv : nat) (log_t total : Z) (indices : list Z) (seed seed_e : list Z)
  : result (list ser_poly) :=
  do! vs <- make_compressed_vector total indices (Z.of_nat lv) (sk_p key) (sk_np key);
  do! c <- compute_normalizer (Z.of_nat lv) log_t;
  do! pts <- seqr (map (fun v => poly_mul_scalar (sk_p key) v (import_int (sk_p key) c)) vs);
  do! s <- gf_start F ty seed;
  do! e <- gf_start F ty seed_e;
  do! r <- encrypt_with_prng (gf_prng F ty) (gf_prng F ty) fuel key pts s e;
  seqr (map (poly_serialize (sk_p key)) (fst r)).

(** The server, which has no secret: y_0 * d_0 + y_1 * d_1 + ... *)
Definition select (ys : list ct) (db : list poly) : result ct :=
  match ys, db with
  | y :: ys', d :: db' => do! x <- ct_absorb y d; run_fused x (combine ys' db')
  | _, _ => Err InvalidArgument
  end.
Definition server_reply (F : genfam) (fuel : nat) (p : mparams) (np : nttp) (ty : Z) (lv : nat) (keys : list ser_relin)
  (query : list ser_poly) (seed : list Z) (db : list poly) : result ser_ct :=
  do! gks <- seqr (map (fun m => galois_deserialize F fuel m p np) keys);
  do! ex <- galois_expander gks p np;
  do! c0s <- seqr (map (poly_deserialize p) query);
  do! s <- gf_start F ty seed;
  do! xs <- expand_from_prng (gf_prng F ty) fuel p c0s s;
  do! ys <- oblivious_expand ex (fst xs) (Z.of_nat lv) (Z.of_nat (length db));
  do! x <- select ys db;
  ct_serialize x.

(** The client, when the reply arrives. *)
Definition client_decode (key : skey) (reply : ser_ct) : result (list Z) :=
  do! x <- ct_deserialize (sk_p key) reply; decrypt key x.

(** coefficient l of record i *)
Definition record (key : skey) (db : list poly) (i l : nat) : Z := coeff (sk_p key) (sk_np key) (nth i db []) l.

(** the sum of the records at the wanted indices, each counted once *)
Definition wanted_sum (key : skey) (db : list poly) (indices : list Z) (l : nat) : Z :=
  zsum (length db) (fun i => if existsb (Z.eqb (Z.of_nat i)) indices then record key db i l else 0).

(** the worst-case error of the reply: an expanded ciphertext times the sizes of
    the records *)
Definition switch_error (L : nat) (key : skey) (logT : Z) : Z :=
  gadget_size (sk_p key) logT * (2 ^ Z.of_nat L * ((2 ^ logT - 1) * (2 * sk_var key))).
Definition expanded_error (L : nat) (t : Z) (key : skey) (lv : nat) (logT : Z) : Z :=
  2 ^ Z.of_nat lv * (t + t * (2 * sk_var key)) + t * ((2 ^ Z.of_nat lv - 1) * switch_error L key logT).
Definition lookup_error (L : nat) (t : Z) (key : skey) (lv : nat) (logT : Z) (db : list poly) : Z :=
  expanded_error L t key lv logT * zsum (length db) (fun i => l1 (2 ^ L) (record key db i)).
