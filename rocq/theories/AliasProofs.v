(** Proofs about methods whose operands may be the object they are called on. *)
From Verif Require Import Base Montgomery MontBatch Ntt Poly PolyExt SymEnc RnsPoly RnsCt InPlace Alias AliasSpec.
Local Open Scope Z_scope.

(** ** Lists and memories *)
Lemma nth_upd {A} (d : A) : forall l i j x, (i < length l)%nat -> nth j (upd l i x) d = if Nat.eqb j i then x else nth j l d.
Proof.
  induction l as [|h t IH]; intros i j x H; [inversion H|]. destruct i as [|i]; destruct j as [|j]; cbn; try reflexivity.
  apply IH. cbn in H. lia.
Qed.
Lemma upd_len {A} : forall (l : list A) i x, length (upd l i x) = length l.
Proof. induction l as [|h t IH]; intros [|i] x; cbn; try reflexivity. now rewrite IH. Qed.
Lemma upd_upd {A} : forall (l : list A) i x y, upd (upd l i x) i y = upd l i y.
Proof. induction l as [|h t IH]; intros [|i] x y; cbn; try reflexivity. now rewrite IH. Qed.
Lemma upd_self {A} (d : A) : forall l i, upd l i (nth i l d) = l.
Proof. induction l as [|h t IH]; intros [|i]; cbn; try reflexivity. now rewrite IH. Qed.

Lemma ld_upd s a v b : (a < length s)%nat -> ld (upd s a v) b = if Nat.eqb b a then v else ld s b.
Proof. intros H. unfold ld. now apply nth_upd. Qed.

Lemma get_app_r {A} (w l : list A) i : length w = i -> get (w ++ l) i = get l 0.
Proof. intros E. unfold get. rewrite nth_error_app2 by lia. now replace (i - length w)%nat with 0%nat by lia. Qed.
Lemma get_skipn {A} (l : list A) i : get (skipn i l) 0 = get l i.
Proof. unfold get. revert l. induction i as [|i IH]; intros [|h t]; cbn; try reflexivity. apply IH. Qed.

(** reading element i while the elements before it have been overwritten *)
Lemma rd_mid s a b i w : (a < length s)%nat -> length w = i -> rd (upd s a (w ++ skipn i (ld s a))) b i = rd s b i.
Proof.
  intros Ha Hw. unfold rd. rewrite ld_upd by exact Ha. destruct (Nat.eqb b a) eqn:E; [|reflexivity].
  apply Nat.eqb_eq in E. subst b. rewrite get_app_r by exact Hw. apply get_skipn.
Qed.

Lemma upd_app_r {A} (w : list A) l x i : length w = i -> (0 < length l)%nat -> upd (w ++ l) i x = w ++ x :: skipn 1 l.
Proof.
  revert i. induction w as [|h t IH]; intros i E H; cbn in E; subst i.
  - destruct l; [cbn in H; lia|reflexivity].
  - cbn [upd app]. now rewrite (IH (length t)).
Qed.

Lemma skipn_next {A} (l : list A) i : skipn 1 (skipn i l) = skipn (S i) l.
Proof. revert l. induction i as [|i IH]; intros [|h t]; try reflexivity. apply IH. Qed.
Lemma nth_error_firstn_lt {A} : forall (l : list A) k i, (i < k)%nat -> nth_error (firstn k l) i = nth_error l i.
Proof. induction l as [|h t IH]; intros [|k] [|i] H; try reflexivity; try lia. apply IH. lia. Qed.

(** ** A loop over the elements of one vector *)
Section Loop.
Variable h : store -> nat -> result Z.
Variables (s : store) (a n : nat).
Hypothesis (Ha : (a < length s)%nat) (Hn : length (ld s a) = n).
Hypothesis Hh : forall i w, (i < n)%nat -> length w = i -> h (upd s a (w ++ skipn i (ld s a))) i = h s i.

Let step := fun i s => reading (h s i) s (fun z => (Ok tt, wr s a i z)).

Lemma loop_from : forall k i w, (i + k = n)%nat -> length w = i ->
  let e := mem_loop step (seq i k) (upd s a (w ++ skipn i (ld s a))) in
  match seqr (map (h s) (seq i k)) with
  | Ok v => e = (Ok tt, upd s a (w ++ v)) | Err c => fst e = Err c | UB => fst e = UB end.
Proof.
  induction k as [|k IH]; intros i w Hi Hw; cbn [seq map seqr mem_loop].
  - rewrite skipn_all2 by lia. reflexivity.
  - assert (Sx : step i (upd s a (w ++ skipn i (ld s a))) = reading (h s i) (upd s a (w ++ skipn i (ld s a))) (fun z => (Ok tt, wr (upd s a (w ++ skipn i (ld s a))) a i z)))
      by (unfold step; rewrite Hh by lia; reflexivity).
    unfold andthen. rewrite Sx. clear Sx. destruct (h s i) as [z|c|]; cbn [reading bind fst snd]; try reflexivity.
    specialize (IH (S i) (w ++ [z]) ltac:(lia) ltac:(rewrite app_length; cbn; lia)).
    assert (E : wr (upd s a (w ++ skipn i (ld s a))) a i z = upd s a ((w ++ [z]) ++ skipn (S i) (ld s a))).
    { unfold wr. rewrite ld_upd, Nat.eqb_refl, upd_upd by exact Ha. f_equal.
      rewrite upd_app_r; [|exact Hw|rewrite skipn_length; lia]. rewrite <- app_assoc. cbn [app]. do 2 f_equal.
      apply skipn_next. }
    rewrite E. cbv zeta in IH.
    destruct (seqr (map (h s) (seq (S i) k))) as [v|c|]; cbn [bind]; [|exact IH|exact IH].
    rewrite IH. now rewrite <- app_assoc.
Qed.

Lemma loop_all : (forall i c, h s i <> Err c) ->
  same_as_by_value (fun s => ld s a) [a] s (mem_loop step (seq 0 n) s) (checked (ld s a) (seqr (map (h s) (seq 0 n)))).
Proof.
  intros NE. pose proof (loop_from n 0 [] eq_refl eq_refl) as L. cbv zeta in L. cbn [app skipn] in L.
  assert (E : upd s a (ld s a) = s) by apply upd_self. rewrite E in L.
  assert (NErr : forall c, seqr (map (h s) (seq 0 n)) <> Err c).
  { intros c. generalize (seq 0 n). intros l. induction l as [|i l IH]; cbn; [intros Q; discriminate Q|].
    destruct (h s i) as [z|c'|] eqn:Ei; cbn; [|now apply NE in Ei|intros Q; discriminate Q].
    destruct (seqr (map (h s) l)); cbn; [intros Q; discriminate Q|exact IH|intros Q; discriminate Q]. }
  destruct (seqr (map (h s) (seq 0 n))) as [v|c|]; [|destruct (NErr c eq_refl)|].
  - rewrite L. split; [reflexivity|]. intros _. cbn [checked fst snd]. split.
    + rewrite ld_upd, Nat.eqb_refl by exact Ha. reflexivity.
    + split; [now rewrite upd_len|]. intros b Hb Nb. rewrite nth_upd by exact Ha. destruct (Nat.eqb b a) eqn:Eb; [|reflexivity].
      apply Nat.eqb_eq in Eb. destruct Nb. now left.
  - split; [exact L|]. intros Q. now destruct Q.
Qed.
End Loop.

Lemma refuse_same {A} (at_ : store -> A) l s v : at_ s = v -> same_as_by_value at_ l s (refuse s) (refuse v).
Proof. intros E. split; [reflexivity|]. intros _. cbn. split; [exact E|]. split; [lia|reflexivity]. Qed.

(** the loops as maps *)
Lemma map_seq_S {A} (f : nat -> A) n : map f (seq 0 (S n)) = f 0%nat :: map (fun i => f (S i)) (seq 0 n).
Proof. cbn [seq map]. f_equal. rewrite <- seq_shift, map_map. reflexivity. Qed.

Lemma loop2 (g : Z -> Z -> Z) : forall v w, length v = length w ->
  seqr (map (fun i => do! x <- get v i; do! y <- get w i; Ok (g x y)) (seq 0 (length v))) = Ok (map2 g v w).
Proof.
  induction v as [|x v IH]; intros [|y w] E; try discriminate E; [reflexivity|].
  cbn [length]. rewrite map_seq_S. cbn [seqr get nth_error bind map2].
  change (map _ (seq 0 (length v))) with (map (fun i => do! x <- get v i; do! y <- get w i; Ok (g x y)) (seq 0 (length v))).
  rewrite IH by (injection E; auto). reflexivity.
Qed.

Lemma loop3 (g : Z -> Z -> Z -> result Z) : forall v w u, length v = length w -> length v = length u ->
  seqr (map (fun i => do! x <- get v i; do! y <- get w i; do! z <- get u i; g x y z) (seq 0 (length v)))
  = seqr (map2 (fun x bc => g x (fst bc) (snd bc)) v (combine w u)).
Proof.
  induction v as [|x v IH]; intros [|y w] [|z u] E F; try discriminate E; try discriminate F; [reflexivity|].
  cbn [length]. rewrite map_seq_S. cbn [seqr get nth_error bind map2 combine fst snd].
  change (map _ (seq 0 (length v))) with (map (fun i => do! x <- get v i; do! y <- get w i; do! z <- get u i; g x y z) (seq 0 (length v))).
  rewrite IH by (try injection E; try injection F; auto). reflexivity.
Qed.

Lemma loop4 (g : Z -> Z -> Z * Z -> Z) : forall v w c cb, length v = length w -> length v = length c -> length v = length cb ->
  seqr (map (fun i => do! x <- get v i; do! y <- get w i; do! u <- get c i; do! t <- get cb i; Ok (g x y (u, t))) (seq 0 (length v)))
  = Ok (map2 (fun x bc => g x (fst bc) (snd bc)) v (combine w (combine c cb))).
Proof.
  induction v as [|x v IH]; intros [|y w] [|u c] [|t cb] E F G; try discriminate E; try discriminate F; try discriminate G; [reflexivity|].
  cbn [length]. rewrite map_seq_S. cbn [seqr get nth_error bind map2 combine fst snd].
  change (map _ (seq 0 (length v))) with (map (fun i => do! x <- get v i; do! y <- get w i; do! u <- get c i; do! t <- get cb i; Ok (g x y (u, t))) (seq 0 (length v))).
  rewrite IH by (try injection E; try injection F; try injection G; auto). reflexivity.
Qed.

Lemma get_not_err {A} (l : list A) i c : get l i <> Err c.
Proof. unfold get. destruct (nth_error l i); intros Q; discriminate Q. Qed.
Lemma bind_not_err {A B} (r : result A) (f : A -> result B) c : r <> Err c -> (forall x, f x <> Err c) -> bind r f <> Err c.
Proof. intros H K. destruct r as [x|e|]; cbn; [apply K|intros Q; apply H; injection Q; congruence|intros Q; discriminate Q]. Qed.

Lemma sl_eq {A B} (a : list A) (b : list B) : same_len a b = true -> length a = length b.
Proof. apply Nat.eqb_eq. Qed.

(** ** The vector operations *)
Definition on_vector s a (call : store -> effect store) (v : result (list Z)) : Prop :=
  same_as_by_value (fun s => ld s a) [a] s (call s) (checked (ld s a) v).

Section Vectors.
Variables (p : mparams) (s : store) (a b c : nat).
Hypothesis Ha : (a < length s)%nat.

Lemma two_ok g (bo : mparams -> list Z -> list Z -> result (list Z)) :
  (forall v w, bo p v w = if same_len v w then Ok (map2 g v w) else Err InvalidArgument) ->
  on_vector s a (fun s => if negb (same_len (ld s a) (ld s b)) then refuse s
    else mem_loop (elem2 (fun _ x y => Ok (g x y)) a b) (all_of s a) s) (bo p (ld s a) (ld s b)).
Proof.
  intros E. rewrite E. unfold on_vector. destruct (same_len (ld s a) (ld s b)) eqn:L; cbn [negb]; [|now apply refuse_same].
  apply sl_eq in L. rewrite <- (loop2 g _ _ L). unfold all_of.
  apply (loop_all (fun s i => do! x <- rd s a i; do! y <- rd s b i; Ok (g x y)) s a _ Ha eq_refl).
  - intros i w Hi Hw. rewrite !rd_mid by assumption. reflexivity.
  - intros i e. apply bind_not_err; [apply get_not_err|]. intros x. apply bind_not_err; [apply get_not_err|]. intros y Q. discriminate Q.
Qed.

Lemma add_ok : on_vector s a (mem_add p a b) (batch_add p (ld s a) (ld s b)).
Proof. apply (two_ok (madd p) batch_add). reflexivity. Qed.
Lemma sub_ok : on_vector s a (mem_sub p a b) (batch_sub p (ld s a) (ld s b)).
Proof. apply (two_ok (msub p) batch_sub). reflexivity. Qed.
Lemma mul_ok : on_vector s a (mem_mul p a b) (batch_mul p (ld s a) (ld s b)).
Proof. apply (two_ok (mmul p) batch_mul). reflexivity. Qed.

Lemma mul_int_not_err k x y e : mul_int k x y <> Err e.
Proof. unfold mul_int. destruct (_ && _); intros Q; discriminate Q. Qed.

Lemma fused_ok : on_vector s a (mem_fused p a b c) (batch_fused_mul_add p (ld s a) (ld s b) (ld s c)).
Proof.
  unfold on_vector, mem_fused, batch_fused_mul_add.
  destruct (same_len (ld s a) (ld s b)) eqn:L; cbn [negb orb]; [|now apply refuse_same].
  destruct (same_len (ld s a) (ld s c)) eqn:M; cbn [negb orb]; [|now apply refuse_same].
  apply sl_eq in L, M. rewrite <- (loop3 (fused_mul_add p) _ _ _ L M).
  apply (loop_all (fun s i => do! x <- rd s a i; do! y <- rd s b i; do! z <- rd s c i; fused_mul_add p x y z) s a _ Ha eq_refl).
  - intros i w Hi Hw. rewrite !rd_mid by assumption. reflexivity.
  - intros i e. apply bind_not_err; [apply get_not_err|]. intros x. apply bind_not_err; [apply get_not_err|]. intros y.
    apply bind_not_err; [apply get_not_err|]. intros z. apply bind_not_err; [apply mul_int_not_err|]. intros u Q. discriminate Q.
Qed.

Lemma fused_constant_ok u ub : on_vector s a (mem_fused_constant p u ub a b) (batch_fused_mul_constant_add p (ld s a) (ld s b) u ub).
Proof.
  unfold on_vector, mem_fused_constant, batch_fused_mul_constant_add.
  destruct (same_len (ld s a) (ld s b)) eqn:L; cbn [negb orb]; [|now apply refuse_same].
  destruct (same_len (ld s a) u) eqn:M; cbn [negb orb]; [|now apply refuse_same].
  destruct (same_len (ld s a) ub) eqn:N; cbn [negb orb]; [|now apply refuse_same].
  apply sl_eq in L, M, N. rewrite <- (loop4 (fused_mul_constant_add p) _ _ _ _ L M N).
  apply (loop_all (fun s i => do! x <- rd s a i; do! y <- rd s b i; do! v <- get u i; do! t <- get ub i; Ok (fused_mul_constant_add p x y (v, t))) s a _ Ha eq_refl).
  - intros i w Hi Hw. rewrite !rd_mid by assumption. reflexivity.
  - intros i e. repeat (apply bind_not_err; [apply get_not_err|]; intros ?). intros Q. discriminate Q.
Qed.

(** ** A scalar that is an element of some vector *)
Variables (j : nat) (g : Z -> Z -> Z) (y : Z).
Hypothesis Hy : nth_error (ld s b) j = Some y.

Lemma ref_apart : a <> b ->
  on_vector s a (fun s => mem_loop (elem_ref g a b j) (all_of s a) s) (Ok (map (fun x => g x y) (ld s a))).
Proof.
  intros NE. unfold on_vector, all_of.
  assert (E : seqr (map (fun i => do! x <- get (ld s a) i; do! z <- rd s b j; Ok (g x z)) (seq 0 (length (ld s a)))) = Ok (map (fun x => g x y) (ld s a))).
  { unfold rd. unfold get at 2. rewrite Hy. induction (ld s a) as [|x v IH]; [reflexivity|]. cbn [length]. rewrite map_seq_S. cbn [seqr get nth_error bind map].
    change (map _ (seq 0 (length v))) with (map (fun i => do! x <- get v i; do! z <- (Ok y : result Z); Ok (g x z)) (seq 0 (length v))).
    rewrite IH. reflexivity. }
  rewrite <- E.
  apply (loop_all (fun s i => do! x <- rd s a i; do! z <- rd s b j; Ok (g x z)) s a _ Ha eq_refl).
  - intros i w Hi Hw. rewrite rd_mid by assumption. unfold rd at 2. rewrite ld_upd by exact Ha. destruct (Nat.eqb b a) eqn:Q; [|reflexivity].
    apply Nat.eqb_eq in Q. now destruct NE.
  - intros i e. apply bind_not_err; [apply get_not_err|]. intros x. apply bind_not_err; [apply get_not_err|]. intros z Q. discriminate Q.
Qed.

(** the elements after the scalar see what the scalar has become *)
Lemma ref_self : a = b ->
  mem_loop (elem_ref g a a j) (all_of s a) s =
  (Ok tt, upd s a (map (fun x => g x y) (firstn (S j) (ld s a)) ++ map (fun x => g x (g y y)) (skipn (S j) (ld s a)))).
Proof.
  intros <-. unfold all_of. set (v := ld s a) in *.
  assert (Hj : (j < length v)%nat) by (apply nth_error_Some; rewrite Hy; intros Q; discriminate Q).
  set (goal := fun i => map (fun x => g x y) (firstn i (firstn (S j) v)) ++ map (fun x => g x (g y y)) (firstn (i - S j) (skipn (S j) v))).
  assert (Lg : forall i, (i <= length v)%nat -> length (goal i) = i).
  { intros i Hi. unfold goal. rewrite app_length, !map_length, !firstn_length, skipn_length. lia. }
  assert (Step : forall i, (i < length v)%nat ->
     elem_ref g a a j i (upd s a (goal i ++ skipn i v)) = (Ok tt, upd s a (goal (S i) ++ skipn (S i) v))).
  { intros i Hi. destruct (nth_error v i) as [x|] eqn:Ex; [|apply nth_error_None in Ex; lia].
    assert (Sk : skipn i v = x :: skipn (S i) v).
    { clear - Ex. revert i Ex. induction v as [|h t IH]; intros [|i] Ex; cbn in *; try discriminate Ex; [injection Ex as ->; reflexivity|]. apply IH, Ex. }
    assert (Ri : rd (upd s a (goal i ++ skipn i v)) a i = Ok x).
    { unfold rd. rewrite ld_upd, Nat.eqb_refl by exact Ha. rewrite get_app_r by (apply Lg; lia). rewrite Sk. reflexivity. }
    assert (Rj : rd (upd s a (goal i ++ skipn i v)) a j = Ok (if (j <? i)%nat then g y y else y)).
    { unfold rd. rewrite ld_upd, Nat.eqb_refl by exact Ha. unfold get.
      destruct (j <? i)%nat eqn:Q; [apply Nat.ltb_lt in Q|apply Nat.ltb_ge in Q].
      - rewrite nth_error_app1 by (rewrite Lg; lia). unfold goal.
        rewrite nth_error_app1 by (rewrite map_length, !firstn_length; lia).
        rewrite nth_error_map. rewrite firstn_firstn, nth_error_firstn_lt by lia. rewrite Hy. reflexivity.
      - rewrite nth_error_app2 by (rewrite Lg; lia). rewrite Lg by lia.
        assert (K : forall (l : list Z) i m, nth_error (skipn i l) m = nth_error l (i + m)).
        { clear. induction l as [|h t IH]; intros [|i] m; cbn; try reflexivity; [now destruct m|apply IH]. }
        rewrite K. replace (i + (j - i))%nat with j by lia. rewrite Hy. reflexivity. }
    unfold elem_ref. rewrite Ri, Rj. cbn [bind reading]. f_equal. unfold wr. rewrite ld_upd, Nat.eqb_refl, upd_upd by exact Ha. f_equal.
    rewrite upd_app_r; [|apply Lg; lia|rewrite Sk; cbn; lia]. rewrite Sk. cbn [skipn].
    assert (Asm : forall (l r : list Z) z, l ++ z :: r = (l ++ [z]) ++ r) by (intros; now rewrite <- app_assoc).
    rewrite Asm. f_equal.
    assert (F1 : forall (l : list Z) k z, nth_error l k = Some z -> firstn (S k) l = firstn k l ++ [z]).
    { clear. induction l as [|h t IH]; intros [|k] z E; cbn in E; try discriminate E; [injection E as ->; reflexivity|].
      cbn [firstn app]. f_equal. now apply IH. }
    unfold goal. destruct (j <? i)%nat eqn:Q; [apply Nat.ltb_lt in Q|apply Nat.ltb_ge in Q].
    - replace (S i - S j)%nat with (S (i - S j)) by lia.
      rewrite (F1 (skipn (S j) v) (i - S j)%nat x).
      + rewrite map_app, app_assoc. f_equal. f_equal. rewrite !firstn_firstn. do 2 f_equal. lia.
      + assert (K : forall (l : list Z) i m, nth_error (skipn i l) m = nth_error l (i + m)).
        { clear. induction l as [|h t IH]; intros [|i'] m; cbn; try reflexivity; [now destruct m|apply IH]. }
        rewrite K. replace (S j + (i - S j))%nat with i by lia. exact Ex.
    - rewrite !firstn_firstn. replace (Nat.min (S i) (S j)) with (S i) by lia. replace (Nat.min i (S j)) with i by lia.
      replace (i - S j)%nat with 0%nat by lia. replace (S i - S j)%nat with 0%nat by lia.
      rewrite (F1 v i x Ex), map_app. change (firstn 0 (skipn (S j) v)) with (@nil Z). cbn [map]. rewrite !app_nil_r. reflexivity. }
  assert (All : forall k i, (i + k = length v)%nat ->
     mem_loop (elem_ref g a a j) (seq i k) (upd s a (goal i ++ skipn i v)) = (Ok tt, upd s a (goal (length v)))).
  { induction k as [|k IH]; intros i Hi; cbn [seq mem_loop].
    - rewrite skipn_all2 by lia. rewrite app_nil_r. now replace i with (length v) by lia.
    - rewrite Step by lia. unfold andthen. cbn [fst snd]. apply IH. lia. }
  specialize (All (length v) 0%nat eq_refl). replace (upd s a (goal 0%nat ++ skipn 0 v)) with s in All by (symmetry; apply upd_self).
  rewrite All. do 2 f_equal. unfold goal. f_equal; f_equal.
  - apply firstn_all2. rewrite firstn_length. lia.
  - apply firstn_all2. rewrite skipn_length. lia.
Qed.
End Vectors.
