(** Facts about RNS contexts, CRT interpolation and error removal. *)
From Coq Require Import Znumtheory.
From Verif Require Import Base FinSum PolySpec Ring Montgomery MontBatch Ntt MontgomeryProofs
  MontBatchProofs Spec PolyView ArithFacts NttFacts NttProofs PolyProofs ThmArith
  RnsPoly RnsSpec RnsCtx CrtMath RnsSub RnsProofs RnsBasis RnsBasis2.
Local Notation zsum := FinSum.zsum.

(** ** Loops with an excluded index *)

Definition drop_at {A} (i : nat) (l : list A) : list A := firstn i l ++ skipn (S i) l.

Lemma fold_except {A B} (f : B -> A -> B) (xs : list A) : forall i s a,
  fold_left (fun acc jx => if (fst jx =? i)%nat then acc else f acc (snd jx)) (combine (seq s (length xs)) xs) a =
  fold_left f (if (i <? s)%nat then xs else drop_at (i - s) xs) a.
Proof.
  induction xs as [|x xs IH]; intros i s a.
  - destruct (i <? s)%nat; [reflexivity|]. unfold drop_at. rewrite firstn_nil, skipn_nil. reflexivity.
  - cbn [length seq combine fold_left fst snd]. rewrite IH.
    destruct (Nat.eqb_spec s i) as [->|N].
    + rewrite (proj2 (Nat.ltb_lt i (S i))) by lia. rewrite Nat.ltb_irrefl, Nat.sub_diag. reflexivity.
    + destruct (Nat.ltb_spec i s).
      * rewrite (proj2 (Nat.ltb_lt i (S s))) by lia. reflexivity.
      * rewrite (proj2 (Nat.ltb_ge i (S s))) by lia. replace (i - s)%nat with (S (i - S s)) by lia. reflexivity.
Qed.

Lemma mul_except_eq p i xs : mul_except p i xs = fold_left (mmul p) (drop_at i xs) (import_one p).
Proof. unfold mul_except, indexed. rewrite (fold_except (mmul p)). cbn [Nat.ltb]. rewrite Nat.sub_0_r. reflexivity. Qed.

Lemma Forall2_drop {A B} (P : A -> B -> Prop) : forall xs ys i, length xs = length ys ->
  (forall j x y, j <> i -> nth_error xs j = Some x -> nth_error ys j = Some y -> P x y) ->
  Forall2 P (drop_at i xs) (drop_at i ys).
Proof.
  assert (K : forall xs ys, length xs = length ys ->
    (forall j x y, nth_error xs j = Some x -> nth_error ys j = Some y -> P x y) -> Forall2 P xs ys).
  { induction xs as [|x xs IH]; intros [|y ys] E H; try discriminate; constructor.
    - apply (H 0%nat); reflexivity.
    - apply IH; [cbn in E; lia|]. intros j a b Ha Hb. apply (H (S j)); assumption. }
  induction xs as [|x xs IH]; intros [|y ys] i E H; try discriminate.
  - unfold drop_at. rewrite !firstn_nil, !skipn_nil. constructor.
  - destruct i as [|i].
    + unfold drop_at. cbn [firstn skipn app]. apply K; [cbn in E; lia|]. intros j a b Ha Hb. apply (H (S j)); [lia|exact Ha|exact Hb].
    + change (Forall2 P (x :: drop_at i xs) (y :: drop_at i ys)). constructor; [apply (H 0%nat); [lia|reflexivity|reflexivity]|].
      apply IH; [cbn in E; lia|]. intros j a b N Ha Hb. apply (H (S j)); [lia|exact Ha|exact Hb].
Qed.

Lemma hat_drop l i : hat l i = prodz (drop_at i l).
Proof. reflexivity. Qed.

Lemma prod_inverse q us vs : Forall2 (fun v u => cong q (v * u) 1) vs us -> cong q (prodz vs * prodz us) 1.
Proof.
  induction 1 as [|v u vs us H F IH]; [reflexivity|]. rewrite !prodz_cons.
  replace (v * prodz vs * (u * prodz us)) with (v * u * (prodz vs * prodz us)) by ring. rewrite H, IH. reflexivity.
Qed.

(** ** Lists by index *)

Lemma indexed_nth {A} (l : list A) i m : nth_error l i = Some m -> nth_error (indexed l) i = Some (i, m).
Proof.
  unfold indexed. assert (G : forall l s i (m : A), nth_error l i = Some m -> nth_error (combine (seq s (length l)) l) i = Some ((s + i)%nat, m)).
  { induction l0 as [|x t IH]; intros s j y H; [destruct j; discriminate|]. cbn [length seq combine].
    destruct j as [|j]; [injection H as <-; cbn; do 2 f_equal; lia|]. cbn [nth_error] in *. rewrite (IH (S s) j y H). do 2 f_equal. lia. }
  intros H. apply (G l 0%nat i m H).
Qed.
Lemma indexed_length {A} (l : list A) : length (indexed l) = length l.
Proof. unfold indexed. rewrite combine_length, seq_length. lia. Qed.

Lemma get_nth_error {A} (l : list A) i : get l i = match nth_error l i with Some x => Ok x | None => UB end.
Proof. revert i. induction l as [|x t IH]; intros [|i]; try reflexivity; cbn; apply IH. Qed.

Lemma get_indexed {A B} (f : nat * A -> B) l i m : nth_error l i = Some m -> get (map f (indexed l)) i = Ok (f (i, m)).
Proof. intros H. rewrite get_nth_error, nth_error_map, (indexed_nth l i m H). reflexivity. Qed.

Lemma indexed_Forall2 {A B} (P : A -> B -> Prop) (f : nat * A -> B) l :
  (forall i m, nth_error l i = Some m -> P m (f (i, m))) -> Forall2 P l (map f (indexed l)).
Proof.
  unfold indexed. assert (G : forall l s, (forall i m, nth_error l i = Some m -> P m (f ((s + i)%nat, m))) ->
    Forall2 P l (map f (combine (seq s (length l)) l))).
  { induction l0 as [|x t IH]; intros s H; [constructor|]. cbn [length seq combine map]. constructor.
    - specialize (H 0%nat x eq_refl). rewrite Nat.add_0_r in H. exact H.
    - apply IH. intros i m E. rewrite Nat.add_succ_comm. apply (H (S i) m E). }
  intros H. apply G. exact H.
Qed.

Lemma indexed_seqr {A B} (P : A -> B -> Prop) (f : nat * A -> result B) l :
  (forall i m, nth_error l i = Some m -> exists r, f (i, m) = Ok r /\ P m r) ->
  exists rs, seqr (map f (indexed l)) = Ok rs /\ Forall2 P l rs.
Proof.
  unfold indexed. assert (G : forall l s, (forall i m, nth_error l i = Some m -> exists r, f ((s + i)%nat, m) = Ok r /\ P m r) ->
    exists rs, seqr (map f (combine (seq s (length l)) l)) = Ok rs /\ Forall2 P l rs).
  { induction l0 as [|x t IH]; intros s H; [exists []; split; [reflexivity|constructor]|]. cbn [length seq combine map seqr].
    destruct (H 0%nat x eq_refl) as (r & E & Hr). rewrite Nat.add_0_r in E.
    destruct (IH (S s)) as (rs & Es & Hs); [intros i m Hi; rewrite Nat.add_succ_comm; apply (H (S i) m Hi)|].
    rewrite E. cbn [bind]. rewrite Es. exists (r :: rs). split; [reflexivity|constructor; assumption]. }
  intros H. apply G. exact H.
Qed.

Lemma seq_Forall2 {A B} (P : A -> B -> Prop) (f : nat -> B) (l : list A) :
  (forall i m, nth_error l i = Some m -> P m (f i)) -> Forall2 P l (map f (seq 0 (length l))).
Proof.
  assert (G : forall l s, (forall i m, nth_error l i = Some m -> P m (f (s + i)%nat)) -> Forall2 P l (map f (seq s (length l)))).
  { induction l0 as [|x t IH]; intros s H; [constructor|]. cbn [length seq map]. constructor.
    - specialize (H 0%nat x eq_refl). rewrite Nat.add_0_r in H. exact H.
    - apply IH. intros i m E. rewrite Nat.add_succ_comm. apply (H (S i) m E). }
  intros H. apply G. exact H.
Qed.

Lemma indexed_firstn {A} c (l : list A) : firstn c (indexed l) = indexed (firstn c l).
Proof.
  unfold indexed. generalize 0%nat. revert c. induction l as [|x t IH]; intros c s; [rewrite !firstn_nil; reflexivity|].
  destruct c; [reflexivity|]. cbn [length seq combine firstn]. f_equal. apply IH.
Qed.

Lemma nth_error_firstn {A} c (l : list A) i x : nth_error (firstn c l) i = Some x -> (i < c)%nat /\ nth_error l i = Some x.
Proof.
  revert c i. induction l as [|y t IH]; intros c i H; [rewrite firstn_nil in H; destruct i; discriminate|].
  destruct c; [destruct i; discriminate|]. destruct i as [|i]; [cbn in *; split; [lia|exact H]|].
  cbn [firstn nth_error] in *. destruct (IH c i H). split; [lia|assumption].
Qed.

(** ** Products of residues *)
Section Prod.
Variables (k : Z) (L : nat) (m : pmod).
Hypothesis O : mod_ok k L m.

Lemma mul_fold xs vs : Forall2 (residue m) xs vs -> forall acc a, residue m acc a ->
  residue m (fold_left (mmul (pm_p m)) xs acc) (a * prodz vs).
Proof.
  induction 1 as [|x v xs vs H F IH]; intros acc a Ha; cbn [fold_left].
  - change (prodz []) with 1. rewrite Z.mul_1_r. exact Ha.
  - rewrite prodz_cons, Z.mul_assoc. apply IH. apply (residue_mul k L m O); assumption.
Qed.

Lemma mul_all_res xs vs : Forall2 (residue m) xs vs -> residue m (mul_all (pm_p m) xs) (prodz vs).
Proof. intros H. rewrite <- (Z.mul_1_l (prodz vs)). apply mul_fold; [exact H|apply (residue_one k L m O)]. Qed.

Lemma mul_except_res i xs vs : length xs = length vs ->
  (forall j x v, j <> i -> nth_error xs j = Some x -> nth_error vs j = Some v -> residue m x v) ->
  residue m (mul_except (pm_p m) i xs) (hat vs i).
Proof.
  intros E H. rewrite mul_except_eq, hat_drop, <- (Z.mul_1_l (prodz _)). apply mul_fold; [|apply (residue_one k L m O)].
  apply Forall2_drop; assumption.
Qed.

Lemma odd_q : 2 < modulus m.
Proof.
  pose proof (ok_prime k L m O) as P. pose proof (prime_ge_2 _ P). pose proof (g_odd (pm_p m) (ok_good k L m O)) as Od.
  fold (modulus m) in Od. destruct (Z.eq_dec (modulus m) 2) as [E2|]; [rewrite E2 in Od; discriminate|lia].
Qed.

Lemma inv_res x : 0 <= x < 2 ^ k -> ~ (modulus m | x) ->
  residue m (mult_inverse (pm_p m) (import_int (pm_p m) x)) (zinv (modulus m) x) /\
  cong (modulus m) (zinv (modulus m) x * x) 1.
Proof.
  intros Hx N. pose proof (ok_q k L m O) as Q1. destruct (residue_import k L m O x Hx) as [S E].
  assert (NZ : export_int (pm_p m) (import_int (pm_p m) x) <> 0).
  { rewrite E. intros Z0. apply N. apply Z.mod_divide; [lia|exact Z0]. }
  destruct (C07_multiplicative_inverse_prime k _ _ _ (ok_for k L m O) (ok_prime k L m O) S NZ) as [R V].
  split; [|apply zinv_ok; [apply (ok_prime k L m O)|apply odd_q|exact N]].
  apply (inverses_residue k L m _ x O N); [apply reduced_stored, R|].
  rewrite E, Zmult_mod_idemp_r in V. exact V.
Qed.

Lemma inverse_word w x z : residue m w z -> cong (modulus m) (z * x) 1 ->
  stored (pm_p m) w /\ (export_int (pm_p m) w * x) mod modulus m = 1.
Proof.
  intros [S E] C. split; [exact S|]. rewrite E. pose proof (ok_q k L m O).
  rewrite Zmult_mod_idemp_l. apply cong_iff in C; [|lia]. rewrite C. apply Z.mod_small. lia.
Qed.
End Prod.

(** ** Contexts *)

(** A context whose primes are distinct and whose tables were generated by the
    constructors. *)
Definition tables_ok (c : rctx) : Prop :=
  let qs := rc_qs c in let ps := rc_ps c in
  rc_prime_qs c = ctx_prime_qs qs /\ rc_prime_q_invs c = ctx_prime_q_invs qs /\
  rc_q_inv_mod_ps c = ctx_q_inv_mod_ps qs ps /\ rc_leveled_q_mod_ps c = ctx_leveled_q_mod_ps qs ps /\
  rc_p_hat_invs c = ctx_p_hat_invs ps /\ rc_p_hat_mod_qs c = ctx_p_hat_mod_qs qs ps /\
  rc_p_mod_qs c = ctx_p_mod_qs qs ps /\ rc_p_inv_mod_qs c = ctx_p_inv_mod_qs qs ps.

Lemma make_modulus_ok k L q m : word_size k -> prime q -> make_modulus k (Z.of_nat L) q = Ok m ->
  mod_ok k L m /\ modulus m = q.
Proof.
  intros W P E. unfold make_modulus in E. destruct (params_create k q) as [p| |] eqn:Ep; try discriminate. cbn [bind] in E.
  destruct (init_ntt p (Z.of_nat L)) as [np| |] eqn:En; try discriminate. cbn [bind] in E. injection E as <-.
  assert (F : params_for k q p) by (split; [exact W|]; split; [pose proof (prime_ge_2 q P); lia|exact Ep]).
  pose proof (pf_good _ _ _ F) as (_ & _ & Em).
  unfold mod_ok, modulus. cbn [pm_p pm_np]. rewrite Em. split; [|reflexivity]. split; [exact F|].
  split; [rewrite Em; exact P|exact En].
Qed.

Lemma make_moduli k L qs : word_size k -> Forall prime qs -> forall ms,
  seqr (map (make_modulus k (Z.of_nat L)) qs) = Ok ms -> moduli_ok k L ms /\ moduli ms = qs.
Proof.
  intros W. induction 1 as [|q qs P F IH]; intros ms E; cbn [map seqr] in E.
  - injection E as <-. split; [constructor|reflexivity].
  - destruct (make_modulus k (Z.of_nat L) q) as [m| |] eqn:Em; try discriminate. cbn [bind] in E.
    destruct (seqr (map (make_modulus k (Z.of_nat L)) qs)) as [t| |] eqn:Et; try discriminate. cbn [bind] in E. injection E as <-.
    destruct (make_modulus_ok k L q m W P Em) as [O Eq]. destruct (IH t eq_refl) as [Ot Eqs].
    split; [constructor; assumption|]. unfold moduli in *. cbn [map]. congruence.
Qed.

Lemma nodup_app2 {A} (a b : list A) : NoDup (a ++ b) -> NoDup a /\ NoDup b.
Proof.
  induction a as [|x a IH]; intros H; [split; [constructor|exact H]|]. cbn [app] in H.
  inversion H as [|? ? N D]; subst. destruct (IH D) as [Ha Hb]. split; [|exact Hb]. constructor; [|exact Ha].
  intros I. apply N. apply in_or_app. left. exact I.
Qed.

Section Ctx.
Variables (k : Z) (L : nat) (qs ps : list pmod).
Hypothesis OKq : moduli_ok k L qs.
Hypothesis OKp : moduli_ok k L ps.
Hypothesis DI : distinct (qs ++ ps).

Lemma di_q : distinct qs.
Proof. unfold distinct, moduli in *. rewrite map_app in DI. apply (proj1 (nodup_app2 _ _ DI)). Qed.
Lemma di_p : distinct ps.
Proof. unfold distinct, moduli in *. rewrite map_app in DI. apply (proj2 (nodup_app2 _ _ DI)). Qed.
Lemma di_qp q p : In q qs -> In p ps -> modulus q <> modulus p.
Proof.
  intros Iq Ip E. unfold distinct, moduli in DI. rewrite map_app in DI.
  assert (G : forall (a b : list Z) x, NoDup (a ++ b) -> In x a -> In x b -> False).
  { induction a as [|y a IH]; intros b x D Ia Ib; [contradiction|]. cbn [app] in D. inversion D as [|? ? N D']; subst.
    destruct Ia as [->|Ia]; [apply N, in_or_app; right; exact Ib|apply (IH b x); assumption]. }
  apply (G _ _ (modulus q) DI); [apply in_map, Iq|rewrite E; apply in_map, Ip].
Qed.

(** different primes do not divide each other *)
Lemma not_div m m' : mod_ok k L m -> mod_ok k L m' -> modulus m' <> modulus m -> ~ (modulus m | modulus m').
Proof.
  intros O O' N D. apply prime_div_prime in D; [congruence|apply (ok_prime k L m O)|apply (ok_prime k L m' O')].
Qed.

Lemma nodup_nth ms i j a b : distinct ms -> nth_error ms i = Some a -> nth_error ms j = Some b -> i <> j -> modulus a <> modulus b.
Proof.
  intros D Ha Hb N E. unfold distinct, moduli in D. rewrite NoDup_nth_error in D. apply N, D.
  - rewrite map_length. apply nth_error_Some. congruence.
  - rewrite !nth_error_map, Ha, Hb. cbn. congruence.
Qed.

Lemma q_word m m' : mod_ok k L m -> mod_ok k L m' -> 0 <= modulus m' < 2 ^ k.
Proof. intros O O'. pose proof (ok_q k L m' O'). pose proof (ok_qk k L m' O'). lia. Qed.

Lemma import_q m m' : mod_ok k L m -> mod_ok k L m' -> residue m (import_int (pm_p m) (pm_q m')) (modulus m').
Proof. intros O O'. apply (residue_import k L m O). apply (q_word m m' O O'). Qed.

Lemma inverse_q m m' : mod_ok k L m -> mod_ok k L m' -> modulus m' <> modulus m ->
  residue m (mult_inverse (pm_p m) (import_int (pm_p m) (pm_q m'))) (zinv (modulus m) (modulus m')) /\
  cong (modulus m) (zinv (modulus m) (modulus m') * modulus m') 1.
Proof. intros O O' N. apply (inv_res k L m O); [apply (q_word m m' O O')|apply not_div; assumption]. Qed.

Lemma in_q i m : nth_error qs i = Some m -> mod_ok k L m.
Proof. intros E. apply nth_error_In in E. apply (moduli_in _ _ _ _ OKq E). Qed.
Lemma in_p i m : nth_error ps i = Some m -> mod_ok k L m.
Proof. intros E. apply nth_error_In in E. apply (moduli_in _ _ _ _ OKp E). Qed.

Lemma prime_qs_ok i m : nth_error qs i = Some m ->
  exists z, get (ctx_prime_qs qs) i = Ok z /\ residues qs z (modulus m).
Proof.
  intros Hi. unfold ctx_prime_qs. rewrite (get_indexed _ qs i m Hi). eexists. split; [reflexivity|]. cbn [fst snd].
  unfold residues. apply indexed_Forall2. intros j m' Hj. cbn [fst snd].
  destruct (Nat.eqb_spec j i) as [->|N].
  - assert (m' = m) by congruence. subst m'. apply (residue_ext k L m (in_q i m Hi) _ 0); [apply (residue_zero k L m (in_q i m Hi))|].
    exists (-1). ring.
  - apply import_q; [apply (in_q j m' Hj)|apply (in_q i m Hi)].
Qed.

(** q_i^-1 modulo every other prime, 1 modulo q_i *)
Lemma prime_q_invs_ok i m : nth_error qs i = Some m ->
  exists z, get (ctx_prime_q_invs qs) i = Ok z /\ length z = length qs /\
    forall j m' w, nth_error qs j = Some m' -> nth_error z j = Some w ->
      stored (pm_p m') w /\ (j = i -> export_int (pm_p m') w = 1) /\
      (j <> i -> residue m' w (zinv (modulus m') (modulus m)) /\ (export_int (pm_p m') w * modulus m) mod modulus m' = 1).
Proof.
  intros Hi. unfold ctx_prime_q_invs. rewrite (get_indexed _ qs i m Hi). eexists. split; [reflexivity|]. cbn [fst snd].
  split; [rewrite map_length, indexed_length; reflexivity|]. intros j m' w Hj Hw.
  rewrite nth_error_map, (indexed_nth qs j m' Hj) in Hw. cbn [option_map fst snd] in Hw. injection Hw as <-.
  pose proof (in_q j m' Hj) as O. destruct (Nat.eqb_spec j i) as [->|N].
  - destruct (residue_one k L m' O) as [S E]. split; [exact S|]. split; [|intros C; contradiction].
    intros _. rewrite E. pose proof (ok_q k L m' O). apply Z.mod_small. lia.
  - destruct (inverse_q m' m O (in_q i m Hi)) as [R C].
    { apply (nodup_nth qs i j m m' di_q Hi Hj). congruence. }
    destruct (inverse_word k L m' O _ _ _ R C) as [S E]. split; [exact S|]. split; [intros; contradiction|]. intros _. auto.
Qed.

Lemma q_inv_mod_ps_ok : Forall2 (fun p z => Forall2 (fun q w => stored (pm_p p) w /\
   (export_int (pm_p p) w * modulus q) mod modulus p = 1) qs z) ps (ctx_q_inv_mod_ps qs ps).
Proof.
  apply map_forall. intros p Ip. apply map_forall. intros q Iq.
  pose proof (moduli_in _ _ _ _ OKp Ip) as Op. pose proof (moduli_in _ _ _ _ OKq Iq) as Oq.
  destruct (inverse_q p q Op Oq (di_qp q p Iq Ip)) as [R C]. apply (inverse_word k L p Op _ _ _ R C).
Qed.

Lemma leveled_ok : forall qs', moduli_ok k L qs' -> forall acc a, residues ps acc a -> forall l m, nth_error qs' l = Some m ->
  exists z, get (leveled_loop qs' ps acc) l = Ok z /\ residues ps z (a * big_q (firstn (S l) qs')).
Proof.
  induction qs' as [|q t IH]; intros OK acc a Ha l m Hl; [destruct l; discriminate|]. inversion OK as [|? ? Oq Ot]; subst.
  cbn [leveled_loop]. cbv zeta. set (acc' := map2 _ ps acc).
  assert (Ha' : residues ps acc' (a * modulus q)).
  { unfold residues. eapply map2_forall; [exact Ha|]. intros p x Ip Hx. cbv beta in *. pose proof (moduli_in _ _ _ _ OKp Ip) as Op.
    apply (residue_mul k L p Op); [exact Hx|apply import_q; assumption]. }
  destruct l as [|l].
  - exists acc'. split; [reflexivity|]. unfold big_q, moduli. cbn [firstn map]. rewrite prodz_cons. change (prodz []) with 1.
    rewrite Z.mul_1_r. exact Ha'.
  - cbn [nth_error] in Hl. destruct (IH Ot acc' _ Ha' l m Hl) as (z & E & Hz). exists z. split; [exact E|].
    unfold big_q, moduli in *. cbn [firstn map] in *. rewrite prodz_cons, Z.mul_assoc. exact Hz.
Qed.

Lemma leveled_q_ok l m : nth_error qs l = Some m ->
  exists z, get (ctx_leveled_q_mod_ps qs ps) l = Ok z /\ residues ps z (big_q (firstn (S l) qs)).
Proof.
  intros Hl. unfold ctx_leveled_q_mod_ps.
  destruct (leveled_ok qs OKq (map (fun pj => import_one (pm_p pj)) ps) 1) with (l := l) (m := m) as (z & E & Hz).
  - apply map_forall. intros p Ip. apply (residue_one k L p (moduli_in _ _ _ _ OKp Ip)).
  - exact Hl.
  - exists z. split; [exact E|]. rewrite Z.mul_1_l in Hz. exact Hz.
Qed.

Lemma p_mod_qs_ok : residues qs (ctx_p_mod_qs qs ps) (big_q ps).
Proof.
  apply map_forall. intros q Iq. pose proof (moduli_in _ _ _ _ OKq Iq) as Oq. apply (mul_all_res k L q Oq).
  unfold moduli. clear DI. induction ps as [|p t IH]; [constructor|]. inversion OKp as [|? ? Op Ot]; subst. cbn [map]. constructor.
  - apply import_q; assumption.
  - apply IH, Ot.
Qed.

Lemma p_inv_mod_qs_ok : inverses qs (ctx_p_inv_mod_qs qs ps) (big_q ps).
Proof.
  apply map_forall. intros q Iq. pose proof (moduli_in _ _ _ _ OKq Iq) as Oq.
  apply (inverse_word k L q Oq _ _ (prodz (map (fun p => zinv (modulus q) (modulus p)) ps))).
  - apply (mul_all_res k L q Oq).
    assert (H : forall p, In p ps -> residue q (mult_inverse (pm_p q) (import_int (pm_p q) (pm_q p))) (zinv (modulus q) (modulus p))).
    { intros p Ip. apply inverse_q; [exact Oq|apply (moduli_in _ _ _ _ OKp Ip)|]. intros E. apply (di_qp q p Iq Ip). congruence. }
    clear -H. induction ps as [|p t IH]; cbn [map]; constructor; [apply H; left; reflexivity|].
    apply IH. intros p' I. apply H. right. exact I.
  - unfold big_q, moduli. apply prod_inverse.
    assert (H : forall p, In p ps -> cong (modulus q) (zinv (modulus q) (modulus p) * modulus p) 1).
    { intros p Ip. apply inverse_q; [exact Oq|apply (moduli_in _ _ _ _ OKp Ip)|]. intros E. apply (di_qp q p Iq Ip). congruence. }
    clear -H. induction ps as [|p t IH]; cbn [map]; constructor; [apply H; left; reflexivity|].
    apply IH. intros p' I. apply H. right. exact I.
Qed.

Lemma hat_at ms i m : moduli_ok k L ms -> nth_error ms i = Some m -> hat (moduli ms) i = hat_of ms m.
Proof.
  intros OK Hi. assert (Hl : (i < length ms)%nat) by (apply nth_error_Some; congruence).
  rewrite (hat_nth k L ms OK m i Hl). f_equal. apply nth_error_nth, Hi.
Qed.

(** the product of the inverses of all the other primes is the inverse of the
    complement *)
Lemma hat_inverse_of ms i m xs : moduli_ok k L ms -> distinct ms -> nth_error ms i = Some m -> length xs = length ms ->
  (forall j m' x, j <> i -> nth_error ms j = Some m' -> nth_error xs j = Some x ->
     residue m x (zinv (modulus m) (modulus m'))) ->
  stored (pm_p m) (mul_except (pm_p m) i xs) /\ (export_int (pm_p m) (mul_except (pm_p m) i xs) * hat_of ms m) mod modulus m = 1.
Proof.
  intros OK D Hi Lx H. pose proof (moduli_in _ _ _ _ OK (nth_error_In _ _ Hi)) as O.
  assert (Hl : (i < length ms)%nat) by (apply nth_error_Some; congruence).
  rewrite <- (hat_at ms i m OK Hi).
  apply (inverse_word k L m O _ _ (hat (map (fun m' => zinv (modulus m) (modulus m')) ms) i)).
  - apply (mul_except_res k L m O); [rewrite map_length; exact Lx|]. intros j x v N Hx Hv. rewrite nth_error_map in Hv.
    destruct (nth_error ms j) as [m'|] eqn:Ej; [|discriminate]. injection Hv as <-. apply (H j m' x N Ej Hx).
  - rewrite !hat_drop. apply prod_inverse. apply Forall2_drop; [unfold moduli; rewrite !map_length; reflexivity|].
    intros j a b N Ha Hb. unfold moduli in Hb. rewrite nth_error_map in Ha, Hb.
    destruct (nth_error ms j) as [m'|] eqn:Ej; [|discriminate]. injection Ha as <-. injection Hb as <-.
    apply inverse_q; [exact O|apply (moduli_in _ _ _ _ OK (nth_error_In _ _ Ej))|].
    apply (nodup_nth ms j i m' m D Ej Hi N).
Qed.

Lemma p_hat_invs_ok : hat_inverses ps (ctx_p_hat_invs ps).
Proof.
  unfold hat_inverses, ctx_p_hat_invs. apply indexed_Forall2. intros i m Hi. cbn [fst snd].
  apply (hat_inverse_of ps i m _ OKp di_p Hi); [apply map_length|]. intros j m' x N Ej Hx.
  rewrite nth_error_map, Ej in Hx. injection Hx as <-.
  apply inverse_q; [apply (in_p i m Hi)|apply (in_p j m' Ej)|]. apply (nodup_nth ps j i m' m di_p Ej Hi N).
Qed.

Lemma hat_rows ms rs i m : moduli_ok k L ms -> moduli_ok k L rs -> nth_error ms i = Some m ->
  residues rs (map (fun r => mul_except (pm_p r) i (map (fun x => import_int (pm_p r) (pm_q x)) ms)) rs) (hat_of ms m).
Proof.
  intros OK OKr Hi. assert (Hl : (i < length ms)%nat) by (apply nth_error_Some; congruence).
  rewrite <- (hat_at ms i m OK Hi).
  apply map_forall. intros r Ir. pose proof (moduli_in _ _ _ _ OKr Ir) as O. apply (mul_except_res k L r O).
  - unfold moduli. rewrite !map_length. reflexivity.
  - intros j x v N Hx Hv. unfold moduli in Hv. rewrite nth_error_map in Hx, Hv.
    destruct (nth_error ms j) as [m'|] eqn:Ej; [|discriminate]. injection Hx as <-. injection Hv as <-.
    apply import_q; [exact O|apply (moduli_in _ _ _ _ OK (nth_error_In _ _ Ej))].
Qed.

Lemma p_hat_mod_qs_ok : Forall2 (fun p z => residues qs z (hat_of ps p)) ps (ctx_p_hat_mod_qs qs ps).
Proof. apply seq_Forall2. intros i m Hi. apply hat_rows; assumption. Qed.

(** ** levels *)
Variable l : nat.
Hypothesis HL : (l < length qs)%nat.
Local Notation ql := (firstn (S l) qs).

Lemma ql_ok : moduli_ok k L ql.
Proof. apply ForallFirstn, OKq. Qed.
Lemma ql_di : distinct ql.
Proof.
  unfold distinct, moduli. rewrite <- firstn_map. pose proof di_q as D. unfold distinct, moduli in D.
  rewrite <- (firstn_skipn (S l)) in D. apply (proj1 (nodup_app2 _ _ D)).
Qed.
Lemma ql_len : length ql = S l.
Proof. rewrite firstn_length. lia. Qed.

Lemma components_ok (f : nat * pmod -> nat * pmod -> Z) i m : nth_error qs i = Some m ->
  components (map (fun im => map (f im) (indexed qs)) (indexed qs)) (S l) i =
  Ok (map (fun jm => f jm (i, m)) (indexed ql)).
Proof.
  intros Hi. unfold components.
  assert (G : forall c, (c <= length qs)%nat ->
    seqr (map (fun j => do! z <- get (map (fun im => map (f im) (indexed qs)) (indexed qs)) j; get z i) (seq 0 c)) =
    Ok (map (fun jm => f jm (i, m)) (indexed (firstn c qs)))).
  { intros c Hc.
    destruct (indexed_seqr (fun (_ : pmod) (x : Z) => True)
      (fun jm => do! z <- get (map (fun im => map (f im) (indexed qs)) (indexed qs)) (fst jm); get z i) (firstn c qs)) as (rs & E & _).
    { intros j m' Hj. apply nth_error_firstn in Hj. destruct Hj as [Hj1 Hj2]. cbn [fst].
      rewrite (get_indexed (fun im => map (f im) (indexed qs)) qs j m' Hj2). cbn [bind].
      rewrite (get_indexed (f (j, m')) qs i m Hi). eexists. split; [reflexivity|exact I]. }
    assert (Es : map (fun jm => do! z <- get (map (fun im => map (f im) (indexed qs)) (indexed qs)) (fst jm); get z i) (indexed (firstn c qs)) =
                 map (fun j => do! z <- get (map (fun im => map (f im) (indexed qs)) (indexed qs)) j; get z i) (seq 0 c)).
    { unfold indexed at 3. rewrite firstn_length, Nat.min_l by exact Hc.
      rewrite <- (map_map fst (fun j => do! z <- get (map (fun im => map (f im) (indexed qs)) (indexed qs)) j; get z i)).
      f_equal. assert (K : forall {A B} (a : list A) (b : list B), length a = length b -> map fst (combine a b) = a).
      { intros A B. induction a as [|x a IH]; intros [|y b] El; try discriminate; [reflexivity|]. cbn. f_equal. apply IH. cbn in El. lia. }
      apply K. rewrite seq_length, firstn_length. lia. }
    rewrite <- Es.
    clear Es E rs. assert (Q : forall l', (forall jm, In jm l' -> (do! z <- get (map (fun im => map (f im) (indexed qs)) (indexed qs)) (fst jm); get z i) = Ok (f jm (i, m))) ->
      seqr (map (fun jm => do! z <- get (map (fun im => map (f im) (indexed qs)) (indexed qs)) (fst jm); get z i) l') = Ok (map (fun jm => f jm (i, m)) l')).
    { induction l' as [|jm l' IH]; intros H; [reflexivity|]. cbn [map seqr]. rewrite (H jm (or_introl eq_refl)). cbn [bind].
      rewrite IH; [reflexivity|]. intros x Hx. apply H. right. exact Hx. }
    apply Q. intros jm Ij. apply In_nth_error in Ij. destruct Ij as [j Hj].
    destruct (nth_error (firstn c qs) j) as [m'|] eqn:Em.
    - rewrite (indexed_nth _ j m' Em) in Hj. injection Hj as <-. apply nth_error_firstn in Em. cbn [fst].
      rewrite (get_indexed (fun im => map (f im) (indexed qs)) qs j m' (proj2 Em)). cbn [bind].
      apply (get_indexed (f (j, m')) qs i m Hi).
    - exfalso. apply nth_error_None in Em. assert (nth_error (indexed (firstn c qs)) j <> None) by congruence.
      apply nth_error_Some in H. rewrite indexed_length in H. lia. }
  apply G. lia.
Qed.

Variable c : rctx.
Hypothesis Cq : rc_qs c = qs.
Hypothesis Cp : rc_ps c = ps.

Lemma level_ok : check_level c (Z.of_nat l) = false.
Proof.
  unfold check_level. rewrite Cq. destruct (Z.ltb_spec (Z.of_nat l) 0); [lia|].
  destruct (Z.leb_spec (Z.of_nat (length qs)) (Z.of_nat l)); [lia|]. reflexivity.
Qed.
Lemma level_nat : Z.to_nat (Z.of_nat l + 1) = S l.
Proof. lia. Qed.

Lemma main_complements_ok : rc_prime_qs c = ctx_prime_qs qs ->
  exists ws, main_complements c (Z.of_nat l) = Ok ws /\ Forall2 (fun m w => residue m w (hat_of ql m)) ql ws.
Proof.
  intros E. unfold main_complements, main_products. rewrite level_ok, level_nat, Cq, E. cbv zeta.
  rewrite indexed_firstn. apply indexed_seqr. intros i m Hi. cbn [fst snd].
  destruct (nth_error_firstn _ _ _ _ Hi) as [Hi1 Hi2]. unfold ctx_prime_qs.
  rewrite (components_ok (fun im jm => if (fst jm =? fst im)%nat then import_zero (pm_p (snd jm)) else import_int (pm_p (snd jm)) (pm_q (snd im))) i m Hi2).
  cbn [bind fst snd]. eexists. split; [reflexivity|].
  assert (Hl : (i < length ql)%nat) by (apply nth_error_Some; congruence).
  rewrite <- (hat_at ql i m ql_ok Hi).
  apply (mul_except_res k L m (in_q i m Hi2)).
  - unfold moduli. rewrite !map_length, indexed_length. reflexivity.
  - intros j x v N Hx Hv. unfold moduli in Hv. rewrite nth_error_map in Hx, Hv.
    destruct (nth_error ql j) as [m'|] eqn:Ej; [|discriminate]. rewrite (indexed_nth _ j m' Ej) in Hx. cbn [option_map fst snd] in Hx.
    injection Hx as <-. injection Hv as <-. destruct (Nat.eqb_spec i j); [congruence|].
    destruct (nth_error_firstn _ _ _ _ Ej) as [_ Ej2]. apply import_q; [apply (in_q i m Hi2)|apply (in_q j m' Ej2)].
Qed.

Lemma main_crt_factors_ok : rc_prime_q_invs c = ctx_prime_q_invs qs ->
  exists ws, main_crt_factors c (Z.of_nat l) = Ok ws /\ hat_inverses ql ws.
Proof.
  intros E. unfold main_crt_factors, main_products. rewrite level_ok, level_nat, Cq, E. cbv zeta.
  rewrite indexed_firstn. unfold hat_inverses. apply indexed_seqr. intros i m Hi. cbn [fst snd].
  destruct (nth_error_firstn _ _ _ _ Hi) as [Hi1 Hi2]. unfold ctx_prime_q_invs.
  rewrite (components_ok (fun im jm => if (fst jm =? fst im)%nat then import_one (pm_p (snd jm)) else mult_inverse (pm_p (snd jm)) (import_int (pm_p (snd jm)) (pm_q (snd im)))) i m Hi2).
  cbn [bind fst snd]. eexists. split; [reflexivity|].
  apply (hat_inverse_of ql i m _ ql_ok ql_di Hi); [rewrite map_length, indexed_length; reflexivity|].
  intros j m' x N Ej Hx. rewrite nth_error_map, (indexed_nth _ j m' Ej) in Hx. cbn [option_map fst snd] in Hx. injection Hx as <-.
  destruct (Nat.eqb_spec i j); [congruence|].
  destruct (nth_error_firstn _ _ _ _ Ej) as [_ Ej2].
  apply inverse_q; [apply (in_q i m Hi2)|apply (in_q j m' Ej2)|]. apply (nodup_nth qs j i m' m di_q Ej2 Hi2 N).
Qed.

Lemma main_complement_residues_ok :
  exists rows, main_complement_residues c (Z.of_nat l) = Ok rows /\ Forall2 (fun m z => residues ps z (hat_of ql m)) ql rows.
Proof.
  unfold main_complement_residues. rewrite level_ok, level_nat, Cq, Cp. cbv zeta. eexists. split; [reflexivity|].
  replace (seq 0 (S l)) with (seq 0 (length ql)) by (rewrite ql_len; reflexivity). apply seq_Forall2. intros i m Hi. apply hat_rows; [exact ql_ok|exact OKp|exact Hi].
Qed.

Lemma main_leveled_ok : rc_leveled_q_mod_ps c = ctx_leveled_q_mod_ps qs ps ->
  exists z, main_leveled_aux_residues c (Z.of_nat l) = Ok z /\ residues ps z (big_q ql).
Proof.
  intros E. unfold main_leveled_aux_residues. rewrite level_ok, Nat2Z.id, E.
  destruct (nth_error qs l) as [m|] eqn:Em; [|apply nth_error_None in Em; lia]. apply (leveled_q_ok l m Em).
Qed.
End Ctx.

Lemma rem_product_ok k L t ms : moduli_ok k L ms -> 1 < t < 2 ^ k -> rem_product k t ms = big_q ms mod t.
Proof.
  intros OK Ht. unfold rem_product.
  assert (G : forall ms', moduli_ok k L ms' -> forall a, 0 <= a < t ->
    fold_left (fun acc m => wrap (2 * k) (acc * pm_q m) mod t) ms' a = (a * big_q ms') mod t).
  { induction ms' as [|m l IH]; intros O a Ha; cbn [fold_left].
    - unfold big_q, moduli. cbn [map]. change (prodz []) with 1. rewrite Z.mul_1_r. symmetry. apply Z.mod_small. lia.
    - inversion O as [|? ? Om Ol]; subst. pose proof (ok_q k L m Om). pose proof (ok_qk k L m Om). change (pm_q m) with (modulus m).
      assert (Hk : 0 <= k). { destruct (Z.le_gt_cases 0 k); [assumption|]. rewrite Z.pow_neg_r in Ht by lia. lia. }
      unfold wrap. rewrite (Z.mod_small (a * modulus m)).
      2:{ rewrite Z.mul_comm, Z.mul_comm with (n := 2), Z.pow_mul_r by lia. change (2 ^ k) with (2 ^ k). 
          assert (a * modulus m < 2 ^ k * 2 ^ k) by nia. replace ((2 ^ k) ^ 2) with (2 ^ k * 2 ^ k) by ring. nia. }
      rewrite IH; [|exact Ol|apply Z.mod_pos_bound; lia]. rewrite Zmult_mod_idemp_l. f_equal.
      unfold big_q, moduli. cbn [map]. rewrite prodz_cons. ring. }
  rewrite (G ms OK 1) by lia. rewrite Z.mul_1_l. unfold wrap. apply Z.mod_small.
  pose proof (Z.mod_pos_bound (big_q ms) t). lia.
Qed.

Lemma bfv_loop_ok k L t pt : params_for k t pt -> forall qs, moduli_ok k L qs ->
  (forall m, In m qs -> Z.gcd (modulus m) t = 1) -> forall acc a, stored pt acc -> (export_int pt acc * a) mod t = 1 ->
  exists xs ys zs, bfv_loop pt t qs acc = Ok (xs, ys, zs) /\
    Forall2 (fun m w => stored pt w /\ export_int pt w = modulus m mod t) qs xs /\
    Forall2 (fun m w => stored pt w /\ (export_int pt w * modulus m) mod t = 1) qs ys /\
    length zs = length qs /\
    forall l w, nth_error zs l = Some w -> stored pt w /\ (export_int pt w * (a * big_q (firstn (S l) qs))) mod t = 1.
Proof.
  intros Hp. pose proof (pf_good _ _ _ Hp) as (G & Gk & Gm). assert (T1 : 1 < t) by apply Hp.
  assert (TK : t < 2 ^ k). { rewrite <- Gk, <- Gm. pose proof (m4 pt G). pose proof (m_gt1 pt G). lia. }
  induction qs as [|m l IH]; intros OK Hg acc a Sa Ha.
  - exists [], [], []. split; [reflexivity|]. split; [constructor|]. split; [constructor|]. split; [reflexivity|].
    intros [|i] w E; discriminate.
  - pose proof (Forall_inv OK) as O. pose proof (Forall_inv_tail OK) as Ol. cbn [bfv_loop]. change (pm_q m) with (modulus m).
    pose proof (Z.mod_pos_bound (modulus m) t ltac:(lia)) as RM.
    set (x := import_int pt (modulus m mod t)).
    assert (Sx : stored pt x /\ export_int pt x = modulus m mod t).
    { destruct (C03_import_export k t pt (modulus m mod t) Hp ltac:(lia)) as [V R]. split; [apply reduced_stored, R|].
      unfold x. rewrite V. apply Zmod_mod. }
    destruct Sx as [Sx Ex].
    assert (Gx : Z.gcd (export_int pt x) t = 1).
    { rewrite Ex. rewrite Z.gcd_mod by lia. rewrite Z.gcd_comm. apply Hg. left. reflexivity. }
    destruct (proj1 (C07_multiplicative_inverse_fast k t pt x Hp Sx) Gx) as (y & Ey & Ry & Vy). rewrite Ey. cbn [bind].
    pose proof (reduced_stored _ _ Ry) as Sy.
    assert (Vm : export_int pt (mmul pt acc y) = (export_int pt acc * export_int pt y) mod t /\ stored pt (mmul pt acc y)).
    { rewrite !stored_val; try assumption.
      - split; [rewrite mmul_val by assumption; rewrite Gm; reflexivity|apply (crep_rep pt), (mmul_crep pt); assumption].
      - apply (crep_rep pt), (mmul_crep pt); assumption. }
    destruct Vm as [Vm Sm].
    destruct (IH Ol ltac:(intros; apply Hg; right; assumption) (mmul pt acc y) (a * modulus m) Sm) as (xs & ys & zs & E & H1 & H2 & H3 & H4).
    { rewrite Vm, Zmult_mod_idemp_l.
      replace (export_int pt acc * export_int pt y * (a * modulus m)) with (export_int pt acc * a * (export_int pt y * modulus m)) by ring.
      rewrite Zmult_mod, Ha. rewrite Ex, Zmult_mod_idemp_r in Vy. rewrite Vy. apply Z.mod_small. lia. }
    rewrite E. cbn [bind]. exists (x :: xs), (y :: ys), (mmul pt acc y :: zs). split; [reflexivity|].
    split; [constructor; auto|]. split; [constructor; [|exact H2]|].
    { split; [exact Sy|]. rewrite Ex, Zmult_mod_idemp_r in Vy. exact Vy. }
    split; [cbn; congruence|]. intros [|i] w Ew.
    + injection Ew as <-. split; [exact Sm|]. cbn [firstn]. unfold big_q, moduli. cbn [map]. rewrite prodz_cons. change (prodz []) with 1.
      rewrite Vm, Zmult_mod_idemp_l.
      replace (export_int pt acc * export_int pt y * (a * (modulus m * 1))) with (export_int pt acc * a * (export_int pt y * modulus m)) by ring.
      rewrite Zmult_mod, Ha. rewrite Ex, Zmult_mod_idemp_r in Vy. rewrite Vy. apply Z.mod_small. lia.
    + destruct (H4 i w Ew) as [S4 V4]. split; [exact S4|]. rewrite <- V4. f_equal. unfold big_q, moduli. cbn [firstn map].
      rewrite prodz_cons. ring.
Qed.
