(** Z[X]/(X^n+1), coefficients modulo Q, as a commutative ring with the
    automorphisms X -> X^power. Q = 0 gives the ring over the integers. *)
From Coq Require Import Setoid Ring_theory.
From Verif Require Import Base FinSum PolySpec.
Local Notation zsum := FinSum.zsum.

(** the coefficient of X^k in X^e modulo X^n + 1 *)
Definition mono (n e k : nat) : Z :=
  if (e mod (2 * n) =? k)%nat then 1 else if (e mod (2 * n) =? k + n)%nat then - 1 else 0.

Lemma mono_mod n e e' k : (e mod (2 * n) = e' mod (2 * n))%nat -> mono n e k = mono n e' k.
Proof. unfold mono. intros ->. reflexivity. Qed.

Lemma mono_small n e k : (e < n)%nat -> (k < n)%nat -> mono n e k = if (e =? k)%nat then 1 else 0.
Proof.
  intros He Hk. unfold mono. rewrite Nat.mod_small by lia. destruct (Nat.eqb_spec e k); [reflexivity|].
  destruct (Nat.eqb_spec e (k + n)); [lia|reflexivity].
Qed.

Lemma mod_2n_cases n e : (0 < n)%nat -> exists c r b, (r < n)%nat /\ (b = 0 \/ b = 1)%nat /\ e = (c * (2 * n) + b * n + r)%nat.
Proof.
  intros Hn. exists (e / (2 * n))%nat, ((e mod (2 * n)) mod n)%nat, ((e mod (2 * n)) / n)%nat.
  pose proof (Nat.mod_upper_bound e (2 * n) ltac:(lia)) as B.
  split; [apply Nat.mod_upper_bound; lia|]. split.
  - assert ((e mod (2 * n)) / n < 2)%nat by (apply Nat.div_lt_upper_bound; lia). lia.
  - pose proof (Nat.div_mod e (2 * n) ltac:(lia)). pose proof (Nat.div_mod (e mod (2 * n)) n ltac:(lia)). nia.
Qed.

Lemma mono_shift n e c : (0 < n)%nat -> forall k, mono n (e + c * (2 * n)) k = mono n e k.
Proof. intros Hn k. apply mono_mod. apply Nat.mod_add. lia. Qed.

Lemma mono_neg n e k : (0 < n)%nat -> (k < n)%nat -> mono n (e + n) k = - mono n e k.
Proof.
  intros Hn Hk. destruct (mod_2n_cases n e Hn) as (c & r & b & Hr & Hb & ->).
  replace (c * (2 * n) + b * n + r + n)%nat with ((b + 1) * n + r + c * (2 * n))%nat by lia.
  replace (c * (2 * n) + b * n + r)%nat with (b * n + r + c * (2 * n))%nat by lia.
  rewrite !mono_shift by exact Hn. destruct Hb as [-> | ->].
  - unfold mono. rewrite !Nat.mod_small by lia.
    replace ((0 + 1) * n + r)%nat with (r + n)%nat by lia. replace (0 * n + r)%nat with r by lia.
    destruct (Nat.eqb_spec (r + n) k); [lia|]. destruct (Nat.eqb_spec r k) as [->|N].
    + rewrite Nat.eqb_refl. reflexivity.
    + destruct (Nat.eqb_spec (r + n) (k + n)); [lia|]. destruct (Nat.eqb_spec r (k + n)); [lia|reflexivity].
  - replace ((1 + 1) * n + r)%nat with (r + 1 * (2 * n))%nat by lia. rewrite mono_shift by exact Hn.
    unfold mono. rewrite !Nat.mod_small by lia. replace (1 * n + r)%nat with (r + n)%nat by lia.
    destruct (Nat.eqb_spec (r + n) k); [lia|]. destruct (Nat.eqb_spec r k) as [->|N].
    + rewrite Nat.eqb_refl. reflexivity.
    + destruct (Nat.eqb_spec (r + n) (k + n)); [lia|]. destruct (Nat.eqb_spec r (k + n)); [lia|reflexivity].
Qed.

Lemma mono_neg_odd n b e k : (0 < n)%nat -> (k < n)%nat -> Nat.odd b = true -> mono n (b * n + e) k = - mono n e k.
Proof.
  intros Hn Hk Ho. apply Nat.odd_spec in Ho. destruct Ho as [c ->].
  replace ((2 * c + 1) * n + e)%nat with (e + n + c * (2 * n))%nat by lia.
  rewrite mono_shift by exact Hn. apply mono_neg; assumption.
Qed.

(** X^e re-expanded and multiplied by X^l, after X -> X^p *)
Lemma mono_comp n p e l r : (0 < n)%nat -> (r < n)%nat -> Nat.odd p = true ->
  zsum n (fun k => mono n e k * mono n (k * p + l) r) = mono n (e * p + l) r.
Proof.
  intros Hn Hr Ho. destruct (mod_2n_cases n e Hn) as (c & x & b & Hx & Hb & ->).
  rewrite (zsum_single n x); [|exact Hx|].
  - replace ((c * (2 * n) + b * n + x) * p + l)%nat with (b * p * n + x * p + l + c * p * (2 * n))%nat by lia.
    rewrite mono_shift by exact Hn.
    replace (c * (2 * n) + b * n + x)%nat with (b * n + x + c * (2 * n))%nat by lia. rewrite mono_shift by exact Hn.
    destruct Hb as [-> | ->].
    + cbn [Nat.mul Nat.add]. rewrite mono_small, Nat.eqb_refl by assumption. ring.
    + rewrite mono_neg_odd by (assumption || reflexivity). rewrite mono_small, Nat.eqb_refl by assumption.
      replace (1 * p * n + x * p + l)%nat with (p * n + (x * p + l))%nat by lia.
      rewrite (mono_neg_odd n p) by assumption. ring.
  - intros i Hi Ne. replace (c * (2 * n) + b * n + x)%nat with (b * n + x + c * (2 * n))%nat by lia.
    rewrite mono_shift by exact Hn. destruct Hb as [-> | ->].
    + cbn [Nat.mul Nat.add]. rewrite mono_small by assumption. destruct (Nat.eqb_spec x i); [lia|ring].
    + rewrite mono_neg_odd by (assumption || reflexivity). rewrite mono_small by assumption.
      destruct (Nat.eqb_spec x i); [lia|ring].
Qed.

Lemma mono_comp1 n e l r : (0 < n)%nat -> (r < n)%nat ->
  zsum n (fun k => mono n e k * mono n (k + l) r) = mono n (e + l) r.
Proof.
  intros Hn Hr. pose proof (mono_comp n 1 e l r Hn Hr eq_refl) as H. rewrite Nat.mul_1_r in H. rewrite <- H.
  apply zsum_ext. intros i _. rewrite Nat.mul_1_r. reflexivity.
Qed.

(** negacyclic and substituted in terms of mono *)
Lemma negacyclic_mono n f g k : (k < n)%nat ->
  negacyclic n f g k = zsum n (fun i => zsum n (fun j => f i * g j * mono n (i + j) k)).
Proof.
  intros Hk. unfold negacyclic. apply zsum_ext. intros i Hi. destruct (Nat.leb_spec i k) as [H|H].
  - rewrite (zsum_single n (k - i)); [|lia|].
    + unfold mono. rewrite Nat.mod_small by lia. replace (i + (k - i))%nat with k by lia. rewrite Nat.eqb_refl. ring.
    + intros j Hj Ne. unfold mono. rewrite Nat.mod_small by lia.
      destruct (Nat.eqb_spec (i + j) k); [lia|]. destruct (Nat.eqb_spec (i + j) (k + n)); [lia|ring].
  - rewrite (zsum_single n (k + n - i)); [|lia|].
    + unfold mono. rewrite Nat.mod_small by lia. replace (i + (k + n - i))%nat with (k + n)%nat by lia.
      destruct (Nat.eqb_spec (k + n) k); [lia|]. rewrite Nat.eqb_refl. ring.
    + intros j Hj Ne. unfold mono. rewrite Nat.mod_small by lia.
      destruct (Nat.eqb_spec (i + j) k); [lia|]. destruct (Nat.eqb_spec (i + j) (k + n)); [lia|ring].
Qed.

Lemma substituted_mono n p f k : substituted n p f k = zsum n (fun i => f i * mono n (i * p) k).
Proof.
  unfold substituted. apply zsum_ext. intros i Hi. unfold mono.
  destruct (i * p mod (2 * n) =? k)%nat; [ring|]. destruct (i * p mod (2 * n) =? k + n)%nat; ring.
Qed.

Lemma zsum_mul n f g : zsum n f * zsum n g = zsum n (fun i => zsum n (fun j => f i * g j)).
Proof.
  rewrite <- zsum_mul_r. apply zsum_ext. intros i _. rewrite <- zsum_mul_l. apply zsum_ext. intros j _. ring.
Qed.

(** ** Ring laws *)

(** congruence of polynomials *)
Definition pcong (Q : Z) (n : nat) (f g : nat -> Z) : Prop := forall i, (i < n)%nat -> cong Q (f i) (g i).

Definition padd (f g : nat -> Z) (i : nat) : Z := f i + g i.
Definition psub (f g : nat -> Z) (i : nat) : Z := f i - g i.
Definition popp (f : nat -> Z) (i : nat) : Z := - f i.
Definition pzero (i : nat) : Z := 0.
Definition pscale (c : Z) (f : nat -> Z) (i : nat) : Z := c * f i.

Lemma padd_at f g i : padd f g i = f i + g i.
Proof. reflexivity. Qed.
Lemma pscale_at c f i : pscale c f i = c * f i.
Proof. reflexivity. Qed.

Section R.
Variable Q : Z.
Variable n : nat.
Hypothesis Hn : (0 < n)%nat.

Lemma pcong_refl f : pcong Q n f f.
Proof. intros i _. reflexivity. Qed.
Lemma pcong_sym f g : pcong Q n f g -> pcong Q n g f.
Proof. intros H i Hi. symmetry. apply H, Hi. Qed.
Lemma pcong_trans f g h : pcong Q n f g -> pcong Q n g h -> pcong Q n f h.
Proof. intros H K i Hi. rewrite (H i Hi). apply K, Hi. Qed.

Lemma pcong_eq f g : (forall i, (i < n)%nat -> f i = g i) -> pcong Q n f g.
Proof. intros H i Hi. rewrite (H i Hi). reflexivity. Qed.

Lemma neg_comm f g : pcong Q n (negacyclic n f g) (negacyclic n g f).
Proof.
  apply pcong_eq. intros k Hk. rewrite !negacyclic_mono by exact Hk.
  rewrite (zsum_swap n n (fun i j => f i * g j * mono n (i + j) k)). apply zsum_ext. intros i _. apply zsum_ext. intros j _. rewrite Nat.add_comm. ring.
Qed.

Lemma neg_cong f f' g g' : pcong Q n f f' -> pcong Q n g g' -> pcong Q n (negacyclic n f g) (negacyclic n f' g').
Proof.
  intros Hf Hg k Hk. rewrite !negacyclic_mono by exact Hk. apply zsum_cong. intros i Hi. apply zsum_cong. intros j Hj.
  rewrite (Hf i Hi), (Hg j Hj). reflexivity.
Qed.

Lemma neg_triple f g h k : (k < n)%nat -> negacyclic n (negacyclic n f g) h k =
  zsum n (fun i => zsum n (fun j => zsum n (fun l => f i * g j * h l * mono n (i + j + l) k))).
Proof.
  intros Hk. rewrite negacyclic_mono by exact Hk.
  rewrite (zsum_ext n _ (fun a => zsum n (fun l => zsum n (fun i => zsum n (fun j => f i * g j * h l * (mono n (i + j) a * mono n (a + l) k)))))).
  2:{ intros a Ha. apply zsum_ext. intros l _. rewrite negacyclic_mono by exact Ha.
      rewrite <- !zsum_mul_r. apply zsum_ext. intros i _. rewrite <- !zsum_mul_r. apply zsum_ext. intros j _. ring. }
  rewrite (zsum_swap n n (fun a l => zsum n (fun i => zsum n (fun j => f i * g j * h l * (mono n (i + j) a * mono n (a + l) k))))).
  rewrite (zsum_ext n _ (fun l => zsum n (fun i => zsum n (fun j => f i * g j * h l * mono n (i + j + l) k)))).
  2:{ intros l _. rewrite (zsum_swap n n (fun a i => zsum n (fun j => f i * g j * h l * (mono n (i + j) a * mono n (a + l) k)))).
      apply zsum_ext. intros i _. rewrite (zsum_swap n n (fun a j => f i * g j * h l * (mono n (i + j) a * mono n (a + l) k))).
      apply zsum_ext. intros j _. rewrite zsum_mul_l, mono_comp1 by assumption. reflexivity. }
  rewrite (zsum_swap n n (fun l i => zsum n (fun j => f i * g j * h l * mono n (i + j + l) k))). apply zsum_ext. intros i _.
  apply (zsum_swap n n (fun l j => f i * g j * h l * mono n (i + j + l) k)).
Qed.

Lemma neg_assoc f g h : pcong Q n (negacyclic n f (negacyclic n g h)) (negacyclic n (negacyclic n f g) h).
Proof.
  eapply pcong_trans; [apply neg_comm|]. apply pcong_eq. intros k Hk. rewrite !neg_triple by exact Hk.
  rewrite (zsum_ext n _ (fun j => zsum n (fun i => zsum n (fun l => g j * h l * f i * mono n (j + l + i) k)))).
  2:{ intros j _. apply (zsum_swap n n (fun l i => g j * h l * f i * mono n (j + l + i) k)). }
  rewrite (zsum_swap n n (fun j i => zsum n (fun l => g j * h l * f i * mono n (j + l + i) k))).
  apply zsum_ext. intros i _. apply zsum_ext. intros j _. apply zsum_ext. intros l _.
  replace (j + l + i)%nat with (i + j + l)%nat by lia. ring.
Qed.

Lemma neg_one f : pcong Q n (negacyclic n (pconst 1) f) f.
Proof.
  apply pcong_eq. intros k Hk. rewrite negacyclic_mono by exact Hk. rewrite (zsum_single n 0); [|exact Hn|].
  - rewrite (zsum_single n k); [|exact Hk|].
    + rewrite mono_small by (assumption || lia). cbn [Nat.add]. rewrite Nat.eqb_refl. unfold pconst. cbn [Nat.eqb]. ring.
    + intros j Hj Ne. rewrite mono_small by (assumption || lia). cbn [Nat.add]. destruct (Nat.eqb_spec j k); [lia|ring].
  - intros i Hi Ne. rewrite (zsum_ext n _ (fun _ => 0)); [apply zsum_zero|]. intros j _. unfold pconst.
    destruct (Nat.eqb_spec i 0); [lia|ring].
Qed.

Lemma neg_distr f g h : pcong Q n (negacyclic n (padd f g) h) (padd (negacyclic n f h) (negacyclic n g h)).
Proof.
  apply pcong_eq. intros k Hk. rewrite padd_at, !negacyclic_mono by exact Hk. rewrite <- zsum_add. apply zsum_ext. intros i _.
  rewrite <- zsum_add. apply zsum_ext. intros j _. unfold padd. ring.
Qed.

Global Instance pcong_equiv : Equivalence (pcong Q n).
Proof. split; [exact pcong_refl|exact pcong_sym|exact pcong_trans]. Qed.

Global Instance padd_proper : Proper (pcong Q n ==> pcong Q n ==> pcong Q n) padd.
Proof. intros f f' Hf g g' Hg i Hi. unfold padd. rewrite (Hf i Hi), (Hg i Hi). reflexivity. Qed.
Global Instance psub_proper : Proper (pcong Q n ==> pcong Q n ==> pcong Q n) psub.
Proof. intros f f' Hf g g' Hg i Hi. unfold psub. rewrite (Hf i Hi), (Hg i Hi). reflexivity. Qed.
Global Instance popp_proper : Proper (pcong Q n ==> pcong Q n) popp.
Proof. intros f f' Hf i Hi. unfold popp. rewrite (Hf i Hi). reflexivity. Qed.
Global Instance pscale_proper : Proper (eq ==> pcong Q n ==> pcong Q n) pscale.
Proof. intros c c' <- f f' Hf i Hi. unfold pscale. rewrite (Hf i Hi). reflexivity. Qed.
Global Instance neg_proper : Proper (pcong Q n ==> pcong Q n ==> pcong Q n) (negacyclic n).
Proof. intros f f' Hf g g' Hg. apply neg_cong; assumption. Qed.

Lemma neg_ring : ring_theory pzero (pconst 1) padd (negacyclic n) psub popp (pcong Q n).
Proof.
  constructor.
  - intros f. apply pcong_eq. intros i _. unfold padd, pzero. ring.
  - intros f g. apply pcong_eq. intros i _. unfold padd. ring.
  - intros f g h. apply pcong_eq. intros i _. unfold padd. ring.
  - intros f. apply neg_one.
  - intros f g. apply neg_comm.
  - intros f g h. apply neg_assoc.
  - intros f g h. apply neg_distr.
  - intros f g. apply pcong_eq. intros i _. unfold padd, psub, popp. ring.
  - intros f. apply pcong_eq. intros i _. unfold padd, popp, pzero. ring.
Qed.

Lemma neg_ring_ext : ring_eq_ext padd (negacyclic n) popp (pcong Q n).
Proof. constructor; [exact padd_proper|exact neg_proper|exact popp_proper]. Qed.

(** constants *)
Lemma pscale_const c f : pcong Q n (pscale c f) (negacyclic n (pconst c) f).
Proof.
  apply pcong_eq. intros k Hk. rewrite negacyclic_mono by exact Hk. rewrite (zsum_single n 0); [|exact Hn|].
  - rewrite (zsum_single n k); [|exact Hk|].
    + rewrite mono_small by (assumption || lia). cbn [Nat.add]. rewrite Nat.eqb_refl. unfold pconst, pscale. cbn [Nat.eqb]. ring.
    + intros j Hj Ne. rewrite mono_small by (assumption || lia). cbn [Nat.add]. destruct (Nat.eqb_spec j k); [lia|ring].
  - intros i Hi Ne. rewrite (zsum_ext n _ (fun _ => 0)); [apply zsum_zero|]. intros j _. unfold pconst.
    destruct (Nat.eqb_spec i 0); [lia|ring].
Qed.

(** ** Substitution *)

Lemma subst_cong p f g : pcong Q n f g -> pcong Q n (substituted n p f) (substituted n p g).
Proof.
  intros H k Hk. rewrite !substituted_mono. apply zsum_cong. intros i Hi. rewrite (H i Hi). reflexivity.
Qed.

Lemma subst_add p f g : pcong Q n (substituted n p (padd f g)) (padd (substituted n p f) (substituted n p g)).
Proof.
  apply pcong_eq. intros k _. rewrite padd_at, !substituted_mono, <- zsum_add. apply zsum_ext. intros i _. unfold padd. ring.
Qed.

Lemma subst_scale p c f : pcong Q n (substituted n p (pscale c f)) (pscale c (substituted n p f)).
Proof.
  apply pcong_eq. intros k _. rewrite pscale_at, !substituted_mono, <- zsum_mul_l. apply zsum_ext. intros i _. unfold pscale. ring.
Qed.

Lemma subst_mul p f g : Nat.odd p = true ->
  pcong Q n (substituted n p (negacyclic n f g)) (negacyclic n (substituted n p f) (substituted n p g)).
Proof.
  intros Ho. apply pcong_eq. intros k Hk. rewrite substituted_mono, negacyclic_mono by exact Hk.
  transitivity (zsum n (fun i => zsum n (fun j => f i * g j * mono n (i * p + j * p) k))).
  - rewrite (zsum_ext n _ (fun a => zsum n (fun i => zsum n (fun j => f i * g j * (mono n (i + j) a * mono n (a * p + 0) k))))).
    2:{ intros a Ha. rewrite negacyclic_mono by exact Ha. rewrite <- zsum_mul_r. apply zsum_ext. intros i _.
        rewrite <- zsum_mul_r. apply zsum_ext. intros j _. rewrite Nat.add_0_r. ring. }
    rewrite (zsum_swap n n (fun a i => zsum n (fun j => f i * g j * (mono n (i + j) a * mono n (a * p + 0) k)))).
    apply zsum_ext. intros i _. rewrite (zsum_swap n n (fun a j => f i * g j * (mono n (i + j) a * mono n (a * p + 0) k))).
    apply zsum_ext. intros j _. rewrite zsum_mul_l, mono_comp by assumption.
    replace ((i + j) * p + 0)%nat with (i * p + j * p)%nat by lia. reflexivity.
  - symmetry.
    rewrite (zsum_ext n _ (fun a => zsum n (fun b => zsum n (fun i => zsum n (fun j => f i * g j * (mono n (i * p) a * (mono n (j * p) b * mono n (a + b) k))))))).
    2:{ intros a _. apply zsum_ext. intros b _. rewrite !substituted_mono, zsum_mul, <- zsum_mul_r.
        apply zsum_ext. intros i _. rewrite <- zsum_mul_r. apply zsum_ext. intros j _. ring. }
    rewrite (zsum_ext n _ (fun a => zsum n (fun i => zsum n (fun j => f i * g j * (mono n (i * p) a * mono n (j * p + a) k))))).
    2:{ intros a _. rewrite (zsum_swap n n (fun b i => zsum n (fun j => f i * g j * (mono n (i * p) a * (mono n (j * p) b * mono n (a + b) k))))).
        apply zsum_ext. intros i _. rewrite (zsum_swap n n (fun b j => f i * g j * (mono n (i * p) a * (mono n (j * p) b * mono n (a + b) k)))).
        apply zsum_ext. intros j _.
        rewrite (zsum_ext n _ (fun b => f i * g j * mono n (i * p) a * (mono n (j * p) b * mono n (b + a) k))).
        2:{ intros b _. rewrite (Nat.add_comm b a). ring. }
        rewrite zsum_mul_l, mono_comp1 by assumption. ring. }
    rewrite (zsum_swap n n (fun a i => zsum n (fun j => f i * g j * (mono n (i * p) a * mono n (j * p + a) k)))).
    apply zsum_ext. intros i _. rewrite (zsum_swap n n (fun a j => f i * g j * (mono n (i * p) a * mono n (j * p + a) k))).
    apply zsum_ext. intros j _. rewrite zsum_mul_l.
    rewrite (zsum_ext n _ (fun a => mono n (i * p) a * mono n (a + j * p) k)) by (intros a _; rewrite (Nat.add_comm a); reflexivity).
    rewrite mono_comp1 by assumption. reflexivity.
Qed.

Lemma subst_comp a b f : Nat.odd b = true ->
  pcong Q n (substituted n b (substituted n a f)) (substituted n (a * b) f).
Proof.
  intros Ho. apply pcong_eq. intros k Hk. rewrite !substituted_mono.
  rewrite (zsum_ext n _ (fun i => zsum n (fun j => f j * (mono n (j * a) i * mono n (i * b + 0) k)))).
  2:{ intros i _. rewrite substituted_mono, <- zsum_mul_r. apply zsum_ext. intros j _. rewrite Nat.add_0_r. ring. }
  rewrite (zsum_swap n n (fun i j => f j * (mono n (j * a) i * mono n (i * b + 0) k))). apply zsum_ext. intros j _.
  rewrite zsum_mul_l, mono_comp by assumption. rewrite Nat.add_0_r, Nat.mul_assoc. reflexivity.
Qed.

Lemma subst_mod a b f : (a mod (2 * n) = b mod (2 * n))%nat -> pcong Q n (substituted n a f) (substituted n b f).
Proof.
  intros H. apply pcong_eq. intros k _. rewrite !substituted_mono. apply zsum_ext. intros i _. f_equal. apply mono_mod.
  rewrite (Nat.mul_mod i a), (Nat.mul_mod i b), H by lia. reflexivity.
Qed.

Lemma subst_one f : pcong Q n (substituted n 1 f) f.
Proof.
  apply pcong_eq. intros k Hk. rewrite substituted_mono, (zsum_single n k); [|exact Hk|].
  - rewrite Nat.mul_1_r, mono_small, Nat.eqb_refl by assumption. ring.
  - intros i Hi Ne. rewrite Nat.mul_1_r, mono_small by assumption. destruct (Nat.eqb_spec i k); [lia|ring].
Qed.

Lemma subst_const p c : pcong Q n (substituted n p (pconst c)) (pconst c).
Proof.
  apply pcong_eq. intros k Hk. rewrite substituted_mono, (zsum_single n 0); [|exact Hn|].
  - cbn [Nat.mul]. rewrite mono_small by assumption. unfold pconst. cbn [Nat.eqb]. destruct k; cbn [Nat.eqb]; ring.
  - intros i Hi Ne. unfold pconst. destruct (Nat.eqb_spec i 0); [lia|ring].
Qed.
End R.
