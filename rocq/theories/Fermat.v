(** Fermat's little theorem over [Z], by the permutation argument: for a not
    divisible by the prime p, multiplication by a permutes 1..p-1 modulo p. *)
From Coq Require Import ZArith Znumtheory Lia List Permutation.
Import ListNotations.
Open Scope Z_scope.

Definition zprod (l : list Z) : Z := fold_right Z.mul 1 l.

Lemma zprod_perm l l' : Permutation l l' -> zprod l = zprod l'.
Proof. induction 1; cbn [zprod fold_right] in *; unfold zprod in *; lia. Qed.

Lemma zprod_scale p a l : 0 < p ->
  zprod (map (fun x => (a * x) mod p) l) mod p = (a ^ Z.of_nat (length l) * zprod l) mod p.
Proof.
  intros Hp. induction l as [|x l IH]; [reflexivity|].
  cbn [map zprod fold_right length] in *. fold (zprod l) in *.
  fold (zprod (map (fun x => (a * x) mod p) l)) in *.
  rewrite Z.mul_mod_idemp_l by lia. rewrite <- Z.mul_mod_idemp_r, IH, Z.mul_mod_idemp_r by lia.
  f_equal. rewrite Nat2Z.inj_succ, Z.pow_succ_r by lia. lia.
Qed.

Lemma zprod_coprime p l : prime p -> Forall (fun x => ~ (p | x)) l -> ~ (p | zprod l).
Proof.
  intros Hp. induction 1 as [|x l Hx Hl IH]; cbn [zprod fold_right].
  - intros [q Hq]. pose proof (prime_ge_2 p Hp).
    assert (q = 1 \/ q <= 0 \/ 2 <= q) as [-> | [?|?]] by lia; nia.
  - intros D. apply prime_mult in D; [|exact Hp]. destruct D; auto.
Qed.

Definition units (p : Z) : list Z := map Z.of_nat (seq 1 (Z.to_nat (p - 1))).

Lemma units_in p x : In x (units p) <-> 1 <= x < p.
Proof.
  unfold units. rewrite in_map_iff. split.
  - intros (n & <- & H). apply in_seq in H. lia.
  - intros H. exists (Z.to_nat x). split; [lia|]. apply in_seq. lia.
Qed.

Lemma units_nodup p : NoDup (units p).
Proof.
  apply FinFun.Injective_map_NoDup; [|apply seq_NoDup]. intros a b. apply Nat2Z.inj.
Qed.

Lemma NoDup_map_inj_on {A B} (f : A -> B) l :
  (forall x y, In x l -> In y l -> f x = f y -> x = y) -> NoDup l -> NoDup (map f l).
Proof.
  intros Hf. induction 1 as [|x l Hx Hl IH]; cbn; constructor.
  - rewrite in_map_iff. intros (y & E & Hy). apply Hf in E; [subst; auto|right; auto|left; auto].
  - apply IH. intros. apply Hf; auto; right; auto.
Qed.

Lemma not_div p x : 1 <= x < p -> ~ (p | x).
Proof. intros H D. apply Z.divide_pos_le in D; lia. Qed.

Lemma units_perm p a : prime p -> ~ (p | a) ->
  Permutation (map (fun x => (a * x) mod p) (units p)) (units p).
Proof.
  intros Hp Ha. pose proof (prime_ge_2 p Hp) as H2.
  apply NoDup_Permutation_bis.
  - apply NoDup_map_inj_on; [|apply units_nodup]. intros x y Hx Hy E.
    apply units_in in Hx, Hy.
    assert (D : (p | a * (x - y))).
    { apply Z.mod_divide; [lia|]. rewrite Z.mul_sub_distr_l, Zminus_mod, E, Z.sub_diag.
      apply Z.mod_0_l. lia. }
    apply prime_mult in D; [|exact Hp]. destruct D as [D|[q D]]; [contradiction|].
    assert (q = 0) by nia. lia.
  - rewrite map_length. lia.
  - intros z Hz. apply in_map_iff in Hz. destruct Hz as (x & <- & Hx).
    apply units_in in Hx. apply units_in.
    pose proof (Z.mod_pos_bound (a * x) p ltac:(lia)).
    assert ((a * x) mod p <> 0); [|lia]. intros E. apply Z.mod_divide in E; [|lia].
    apply prime_mult in E; [|exact Hp]. destruct E as [E|E]; [contradiction|].
    revert E. apply not_div. exact Hx.
Qed.

Lemma fermat_unit p a : prime p -> ~ (p | a) -> a ^ (p - 1) mod p = 1.
Proof.
  intros Hp Ha. pose proof (prime_ge_2 p Hp) as H2.
  pose proof (zprod_perm _ _ (units_perm p a Hp Ha)) as E.
  apply (f_equal (fun z => z mod p)) in E. cbv beta in E. rewrite zprod_scale in E by lia.
  assert (L : Z.of_nat (length (units p)) = p - 1).
  { unfold units. rewrite map_length, seq_length. lia. }
  rewrite L in E.
  assert (D : (p | (a ^ (p - 1) - 1) * zprod (units p))).
  { apply Z.mod_divide; [lia|]. rewrite Z.mul_sub_distr_r, Z.mul_1_l, Zminus_mod, E, Z.sub_diag.
    apply Z.mod_0_l. lia. }
  apply prime_mult in D; [|exact Hp]. destruct D as [D|D].
  - replace (a ^ (p - 1)) with (1 + (a ^ (p - 1) - 1)) by lia.
    rewrite Zplus_mod. apply Z.mod_divide in D; [|lia]. rewrite D.
    rewrite Z.add_0_r, Z.mod_mod, Z.mod_1_l; lia.
  - exfalso. revert D. apply zprod_coprime; [exact Hp|]. apply Forall_forall. intros x Hx.
    apply units_in in Hx. apply not_div. exact Hx.
Qed.

Lemma fermat_Z (p a : Z) : prime p -> 0 <= a -> (a ^ p) mod p = a mod p.
Proof.
  intros Hp H0. pose proof (prime_ge_2 p Hp) as H2.
  replace p with (Z.succ (p - 1)) at 1 by lia. rewrite Z.pow_succ_r by lia.
  destruct (Zdivide_dec p a) as [D|D].
  - apply Z.mod_divide in D; [|lia]. rewrite Z.mul_mod, D, Z.mul_0_l by lia. apply Z.mod_0_l. lia.
  - rewrite Z.mul_mod, (fermat_unit p a Hp D), Z.mul_1_r, Z.mod_mod by lia. reflexivity.
Qed.
