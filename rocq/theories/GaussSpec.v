(** What C42 refers to: the recursive algorithm over the integers. *)
From Coq Require Import Sorted.
From Verif Require Import Base Prng Gauss.

(** the integer a 64-bit random word stands for under a table: the number of
    table entries below its low 63 bits, minus the middle of the table *)
Definition base_value (cdt : list Z) (u : Z) : Z :=
  Z.of_nat (length (filter (fun c => c <? u mod 2 ^ 63) cdt)) - Z.of_nat (length cdt / 2).

(** SampleI of the paper cited in the code, over unbounded integers, with
    weights [w l], [v l] for combining two results of depth l *)
Fixpoint sampleI (R : prng) (cdt : list Z) (w v : nat -> Z) (i : nat) (s : pr_st R) : result (Z * pr_st R) :=
  match i with
  | O => do! ' (u, s) <- pr_rand64 R s; Ok (base_value cdt u, s)
  | S i =>
      do! ' (x1, s) <- sampleI R cdt w v i s;
      do! ' (x2, s) <- sampleI R cdt w v i s;
      Ok (w i * x1 + v i * x2, s)
  end.

(** the standard deviations s_0 = s_base, s_1, s_2, ... *)
Fixpoint s_at (D : fops) (s_base : F D) (i : nat) : F D :=
  match i with O => s_base | S i => level_next D (s_at D s_base i) end.

(** [w], [v] are the weights the code uses at each of the first n levels:
    z_l = floor(s_l / (sqrt 2 * eta)) and max(1, z_l - 1) *)
Definition weights (D : fops) (k : Z) (s_base : F D) (w v : nat -> Z) (n : nat) : Prop :=
  forall l, (l < n)%nat -> f_to_unsigned D k (level_z D (s_at D s_base l)) = Ok (w l) /\
    f_to_unsigned D k (f_max D (f_of_Z D 1) (f_sub D (level_z D (s_at D s_base l)) (f_of_Z D 1))) = Ok (v l).

(** how a returned word is read: above kNegativeThreshold means negative *)
Definition read_signed (k x : Z) : Z := if (2 ^ k - 1) / 2 <? x then x - 2 ^ k else x.

(** largest magnitude that can come out of depth i *)
Fixpoint reach (b : Z) (w v : nat -> Z) (i : nat) : Z :=
  match i with O => b | S i => (w i + v i) * reach b w v i end.
