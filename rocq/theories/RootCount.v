(** Number theory behind the NTT parameters: a nonzero polynomial of degree d
    has at most d roots modulo a prime, hence quadratic non-residues exist. *)
From Coq Require Import ZArith Znumtheory Lia List.
From Verif Require Import Base FinSum Fermat.

Definition peval (l : list Z) (x : Z) : Z := fold_right (fun c acc => c + x * acc) 0 l.

Fixpoint sdiv (a : Z) (l : list Z) : list Z :=
  match l with
  | [] => []
  | _ :: l' => match l' with [] => [] | _ => peval l' a :: sdiv a l' end
  end.

Lemma sdiv_ok a x l : peval l x - peval l a = (x - a) * peval (sdiv a l) x.
Proof.
  induction l as [|c l IH]; [cbn; ring|]. destruct l as [|c' l].
  - cbn. ring.
  - change (sdiv a (c :: c' :: l)) with (peval (c' :: l) a :: sdiv a (c' :: l)).
    set (l' := c' :: l) in *. cbn [peval fold_right]. fold (peval l' x). fold (peval l' a).
    fold (peval (sdiv a l') x). transitivity (x * (peval l' x - peval l' a) + (x - a) * peval l' a); [ring|].
    rewrite IH. ring.
Qed.

Lemma sdiv_length a l : length (sdiv a l) = pred (length l).
Proof.
  induction l as [|c l IH]; [reflexivity|]. destruct l as [|c' l]; [reflexivity|].
  change (sdiv a (c :: c' :: l)) with (peval (c' :: l) a :: sdiv a (c' :: l)).
  cbn [length] in *. rewrite IH. reflexivity.
Qed.

Lemma sdiv_last a l : (2 <= length l)%nat -> last (sdiv a l) 0 = last l 0.
Proof.
  induction l as [|c l IH]; [cbn; lia|]. destruct l as [|c' l]; [cbn; lia|]. intros _.
  change (sdiv a (c :: c' :: l)) with (peval (c' :: l) a :: sdiv a (c' :: l)).
  destruct l as [|c'' l].
  - cbn. ring.
  - change (last (c :: c' :: c'' :: l) 0) with (last (c' :: c'' :: l) 0).
    rewrite <- IH by (cbn; lia). reflexivity.
Qed.

Lemma roots_bound p : prime p -> forall d l, length l = S d -> ~ (p | last l 0) ->
  forall rs, NoDup rs -> (forall r, In r rs -> 0 <= r < p /\ (p | peval l r)) ->
  (length rs <= d)%nat.
Proof.
  intros Hp. induction d as [|d IH]; intros l Hl Hlast rs Hnd Hr.
  - destruct l as [|c [|]]; try (cbn in Hl; lia). cbn in Hlast.
    destruct rs as [|r rs]; [cbn; lia|].
    destruct (Hr r (or_introl eq_refl)) as [_ D]. cbn in D. rewrite Z.mul_0_r, Z.add_0_r in D. contradiction.
  - destruct rs as [|a rs]; [cbn; lia|]. cbn [length]. apply le_n_S.
    inversion Hnd as [|? ? Hna Hnd']; subst.
    destruct (Hr a (or_introl eq_refl)) as [Ra Da].
    apply (IH (sdiv a l)).
    + rewrite sdiv_length, Hl. reflexivity.
    + rewrite sdiv_last by lia. exact Hlast.
    + exact Hnd'.
    + intros r Hin. destruct (Hr r (or_intror Hin)) as [Rr Dr]. split; [exact Rr|].
      assert (D : (p | (r - a) * peval (sdiv a l) r)).
      { rewrite <- sdiv_ok. apply Z.divide_sub_r; assumption. }
      apply prime_mult in D; [|exact Hp]. destruct D as [[q D]|D]; [|exact D].
      exfalso. assert (q = 0) by nia. assert (r = a) by lia. subst. contradiction.
Qed.

(** x^e - 1 *)
Definition xe1 (e : nat) : list Z := (-1) :: repeat 0 (pred e) ++ [1].

Lemma peval_app l1 l2 x : peval (l1 ++ l2) x = peval l1 x + x ^ Z.of_nat (length l1) * peval l2 x.
Proof.
  induction l1 as [|c l IH]; cbn [app peval fold_right length].
  - change (Z.of_nat 0) with 0. rewrite Z.pow_0_r. ring_simplify. reflexivity.
  - fold (peval (l ++ l2) x). fold (peval l x). rewrite IH, Nat2Z.inj_succ, Z.pow_succ_r by lia. ring.
Qed.

Lemma peval_zeros k x : peval (repeat 0 k) x = 0.
Proof. induction k; cbn [repeat peval fold_right]; [reflexivity|]. fold (peval (repeat 0 k) x). rewrite IHk. ring. Qed.

Lemma peval_xe1 e x : (1 <= e)%nat -> peval (xe1 e) x = x ^ Z.of_nat e - 1.
Proof.
  intros He. unfold xe1. cbn [peval fold_right]. fold (peval (repeat 0 (pred e) ++ [1]) x).
  rewrite peval_app, peval_zeros, repeat_length. cbn [peval fold_right].
  destruct e as [|e]; [lia|]. cbn [pred]. rewrite Nat2Z.inj_succ, Z.pow_succ_r by lia. ring.
Qed.

Lemma last_app1 {A} (l : list A) x d : last (l ++ [x]) d = x.
Proof. induction l as [|a l IH]; [reflexivity|]. destruct l; [reflexivity|]. exact IH. Qed.

(** For 0 < e < p-1 some t in [2,p) has t^e <> 1 modulo p. *)
Lemma nonroot_exists p e : prime p -> 0 < e < p - 1 -> exists t, 2 <= t < p /\ ~ cong p (t ^ e) 1.
Proof.
  intros Hp He.
  destruct (existsb (fun t => negb ((t ^ e - 1) mod p =? 0)) (units p)) eqn:E.
  - apply existsb_exists in E. destruct E as (t & Ht & Hn).
    apply units_in in Ht. apply negb_true_iff, Z.eqb_neq in Hn.
    assert (N : ~ cong p (t ^ e) 1) by (intros C; apply Hn; apply Z.mod_divide; [lia|exact C]).
    exists t. split; [|exact N].
    assert (t <> 1); [|lia]. intros ->. apply N. rewrite Z.pow_1_l by lia. reflexivity.
  - exfalso.
    assert (All : forall t, In t (units p) -> 0 <= t < p /\ (p | peval (xe1 (Z.to_nat e)) t)).
    { intros t Ht. split; [apply units_in in Ht; lia|].
      rewrite peval_xe1 by lia. rewrite Z2Nat.id by lia. apply Z.mod_divide; [lia|].
      destruct (Z.eqb_spec ((t ^ e - 1) mod p) 0) as [H|H]; [exact H|].
      assert (X : existsb (fun t => negb ((t ^ e - 1) mod p =? 0)) (units p) = true).
      { apply existsb_exists. exists t. split; [exact Ht|]. apply negb_true_iff, Z.eqb_neq. exact H. }
      congruence. }
    pose proof (roots_bound p Hp (Z.to_nat e) (xe1 (Z.to_nat e))) as B.
    assert (H : (length (units p) <= Z.to_nat e)%nat).
    { apply B; [| |apply units_nodup|exact All].
      - unfold xe1. cbn [length]. rewrite app_length, repeat_length. cbn [length]. lia.
      - unfold xe1. rewrite app_comm_cons, last_app1. apply not_div. lia. }
    unfold units in H. rewrite map_length, seq_length in H. lia.
Qed.
