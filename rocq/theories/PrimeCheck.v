(** Primality of the concrete moduli used in examples, by trial division. *)
From Coq Require Import ZArith Znumtheory Lia List.
From Verif Require Import Base.

Fixpoint no_divisor (fuel : nat) (d p : Z) : bool :=
  match fuel with
  | O => false
  | S f => if p <? d * d then true
           else if p mod d =? 0 then false else no_divisor f (d + 1) p
  end.

Lemma no_divisor_ok fuel : forall d p, 2 <= d -> no_divisor fuel d p = true ->
  forall x, d <= x -> x * x <= p -> ~ (x | p).
Proof.
  induction fuel as [|f IH]; intros d p Hd H x Hx Hxx D; [discriminate|]. cbn in H.
  destruct (Z.ltb_spec p (d * d)); [nia|].
  destruct (Z.eqb_spec (p mod d) 0) as [|N]; [discriminate|].
  destruct (Z.eq_dec x d) as [->|].
  - apply N. apply Z.mod_divide; [lia|exact D].
  - apply (IH (d + 1) p ltac:(lia) H x); [lia|exact Hxx|exact D].
Qed.

Lemma prime_by_trial p fuel : 1 < p -> no_divisor fuel 2 p = true -> prime p.
Proof.
  intros Hp H. apply prime_alt. split; [exact Hp|]. intros x Hx D.
  destruct (Z.le_gt_cases (x * x) p) as [L|L].
  - exact (no_divisor_ok fuel 2 p ltac:(lia) H x ltac:(lia) L D).
  - destruct D as [y E].
    assert (1 < y) by nia. assert (y * y <= p) by nia.
    apply (no_divisor_ok fuel 2 p ltac:(lia) H y ltac:(lia)); [lia|]. exists x. lia.
Qed.

Lemma prime_12289 : prime 12289.
Proof. apply (prime_by_trial _ 200%nat); [lia|vm_compute; reflexivity]. Qed.
