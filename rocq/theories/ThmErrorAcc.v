(** C95: the error reported for a sum of products. *)
From Coq Require Import Reals Lra Lia.
From Verif Require Import Base FinSum PolySpec Ring NegRing SymSpec Montgomery MontBatch Spec Poly PolyExt PolyView SymEnc SymFacts ThmSymEnc ThmRelin ThmErrorEst ErrorEst
  RnsPoly RnsSpec RnsCt RnsCtSpec RnsCtProofs RnsExample RnsLazyCt ThmRnsCt ThmRnsLazy RnsErrorEst ErrorAcc.
Local Open Scope R_scope.

(** x += a * b for each (a, b) in turn, with the operation op *)
Definition accumulate {C P : Type} (op : C * R -> C * R -> P -> result (C * R)) (x : C * R) (ops : list ((C * R) * P)) : result (C * R) :=
  fold_left (fun r ab => do! x <- r; op x (fst ab) (snd ab)) ops (Ok x).

(** what the sum of products should report: B bounds the plaintexts *)
Definition report {C P : Type} (B : R) (x : C * R) (ops : list ((C * R) * P)) : R :=
  snd x + B * fold_right Rplus 0 (map (fun ab => snd (fst ab)) ops).

(** the pairs without the reports *)
Definition bare {C P : Type} (ops : list ((C * R) * P)) : list (C * P) := map (fun ab => (fst (fst ab), snd ab)) ops.

(** the product and the sum as two calls *)
Definition t_apart (e : err_params) (x a : tct) (b : poly) : result tct := do! y <- t_absorb e a b; t_add x y.
Definition re_apart (e : rns_err) (x a : rtct) (b : rpoly) : result rtct := do! y <- re_absorb e a b; re_add x y.

Lemma acc_stop {C P : Type} (op : C * R -> C * R -> P -> result (C * R)) ops r : (forall v, r <> Ok v) ->
  fold_left (fun r ab => do! x <- r; op x (fst ab) (snd ab)) ops r = r.
Proof.
  revert r. induction ops as [|ab ops IH]; intros r H; [reflexivity|]. cbn [fold_left]. destruct r as [v| |]; [exfalso; eapply H; reflexivity| |]; apply IH; intros v; discriminate.
Qed.

Lemma acc_cons {C P : Type} (op : C * R -> C * R -> P -> result (C * R)) x a b ops :
  accumulate op x ((a, b) :: ops) = do! y <- op x a b; accumulate op y ops.
Proof.
  unfold accumulate. cbn [fold_left bind fst snd]. destruct (op x a b) as [y|e|] eqn:E; cbn [bind]; [reflexivity| |]; apply acc_stop; intros v; discriminate.
Qed.

(** an operation that adds B times the report of a *)
Lemma acc_report {C P : Type} (op : C * R -> C * R -> P -> result (C * R)) B :
  (forall x a b y, op x a b = Ok y -> snd y = snd x + snd a * B) ->
  forall ops x y, accumulate op x ops = Ok y -> snd y = report B x ops.
Proof.
  intros H. induction ops as [|[a b] ops IH]; intros x y E.
  - cbn in E. assert (x = y) as -> by congruence. unfold report. cbn. lra.
  - rewrite acc_cons in E. destruct (op x a b) as [z| |] eqn:Ez; try discriminate E. cbn [bind] in E.
    rewrite (IH _ _ E). unfold report. cbn [map fold_right fst snd]. rewrite (H _ _ _ _ Ez). lra.
Qed.

Ltac step_report := clear; intros x a b y E;
  match type of E with (do! z <- ?c; _) = _ => destruct c; try discriminate E; cbn [bind] in E end;
  match type of E with Ok (?u, ?v) = Ok ?y => assert (y = (u, v)) as -> by congruence end; reflexivity.

(** One modulus: whichever of the operations is used, whenever it succeeds, the
    report is the one before plus B_plaintext() times the sum of the reports of
    the operands. *)
Theorem C95_report :
  forall e x, 
  (forall ops y, accumulate (t_fused e) x ops = Ok y \/ accumulate (t_apart e) x ops = Ok y -> snd y = report (b_plaintext e) x ops) /\
  (forall ops y, accumulate (t_fused_constant e) x ops = Ok y -> snd y = report (b_plaintext e) x ops) /\
  (forall ops y, (do! y <- accumulate (t_fused_lazily e) x ops; t_merge y) = Ok y ->
    snd y = report (b_plaintext e) x (filter (fun ab => negb (length (ct_c (fst (fst ab))) =? 0)%nat) ops)).
Proof.
  intros e x. split; [|split].
  - intros ops y [E|E].
    + revert E. apply acc_report. unfold t_fused. step_report.
    + revert E. apply acc_report. unfold t_apart, t_absorb, t_add. clear. intros x a b y E.
      destruct (ct_absorb (fst a) b); try discriminate E. cbn [bind fst snd] in E. destruct (ct_add _ _) as [z| |]; try discriminate E. cbn [bind] in E.
      match type of E with Ok ?v = _ => assert (y = v) as -> by congruence end. reflexivity.
  - intros ops y. apply acc_report. unfold t_fused_constant. step_report.
  - intros ops y E. destruct (accumulate _ x ops) as [z| |] eqn:A; try discriminate E. cbn [bind] in E. unfold t_merge in E.
    destruct (ct_merge (fst z)) as [w| |]; try discriminate E. cbn [bind] in E. assert (y = (w, snd z)) as -> by congruence. cbn [snd]. clear E w.
    revert x z A. induction ops as [|[a b] ops IH]; intros x z A.
    + cbn in A. assert (x = z) as -> by congruence. unfold report. cbn. lra.
    + rewrite acc_cons in A. unfold t_fused_lazily at 1 in A. destruct (ct_fused_lazily (fst x) (fst a) b) as [w| |]; try discriminate A. cbn [bind] in A.
      rewrite (IH _ _ A). cbn [filter fst]. unfold report. destruct (ct_c (fst a)); cbn [length Nat.eqb negb map fold_right fst snd]; lra.
Qed.

Lemma eager_run e ops : forall x z, run_fused (fst x) (bare ops) = Ok z ->
  accumulate (t_fused e) x ops = Ok (z, report (b_plaintext e) x ops).
Proof.
  intros x z E. assert (G : exists err, accumulate (t_fused e) x ops = Ok (z, err)).
  { revert x E. induction ops as [|[a b] ops IH]; intros x E.
    - cbn in *. exists (snd x). destruct x. cbn in *. congruence.
    - cbn [bare map run_fused fst snd] in E. destruct (ct_fused_absorb (fst x) (fst a) b) as [w| |] eqn:Ew; try discriminate E. cbn [bind] in E.
      rewrite acc_cons. unfold t_fused at 1. rewrite Ew. cbn [bind]. apply IH. exact E. }
  destruct G as (err & G). rewrite G. f_equal. f_equal. exact (proj1 (C95_report e x) ops _ (or_introl G)).
Qed.

Lemma lazy_run e ops : forall x z, run_lazy (fst x) (bare ops) = Ok z -> exists err, accumulate (t_fused_lazily e) x ops = Ok (z, err).
Proof.
  induction ops as [|[a b] ops IH]; intros x z E.
  - cbn in *. exists (snd x). destruct x. cbn in *. congruence.
  - cbn [bare map run_lazy fst snd] in E. destruct (ct_fused_lazily (fst x) (fst a) b) as [w| |] eqn:Ew; try discriminate E. cbn [bind] in E.
    rewrite acc_cons. unfold t_fused_lazily at 1. rewrite Ew. cbn [bind]. apply IH. exact E.
Qed.

(** The eager sum and the lazy sum are the same ciphertext with the same report. *)
Theorem C95_lazy_equals_eager :
  forall k q L t key e x ops, key_ok k q L t key -> k <> 16%Z -> ct_ok L key (fst x) -> ct_lazy (fst x) = [] ->
  Forall (fun ab => ct_ok L key (fst (fst ab)) /\ ct_c (fst (fst ab)) <> [] /\ ntt_poly (sk_p key) L (snd ab) /\ ct_pow (fst (fst ab)) = ct_pow (fst x)) ops ->
  growing 0 (bare ops) -> ops <> [] ->
  exists z, ct_ok L key z /\ ct_lazy z = [] /\
    accumulate (t_fused e) x ops = Ok (z, report (b_plaintext e) x ops) /\
    (do! y <- accumulate (t_fused_lazily e) x ops; t_merge y) = Ok (z, report (b_plaintext e) x ops).
Proof.
  intros k q L t key e x ops K K16 Hx El HO HG NE.
  destruct (C29_lazy_equals_eager_partial k q L t key (fst x) (bare ops) K Hx El) as (z & Ez & Oz & Lz & _ & W).
  - unfold bare. apply Forall_map. eapply Forall_impl; [|exact HO]. cbn [fst snd]. intros ab (A & _ & B & C). auto.
  - exact HG.
  - destruct ops as [|[a b] ops]; [congruence|]. apply Exists_cons_hd. inversion HO as [|? ? (_ & A & _) _]. exact A.
  - exists z. split; [exact Oz|]. split; [exact Lz|]. split; [apply eager_run, (W K16)|].
    destruct (run_lazy (fst x) (bare ops)) as [y| |] eqn:Ey; try discriminate Ez. cbn [bind] in Ez.
    destruct (lazy_run e ops x y Ey) as (err & A). 
    assert (Em : (do! y <- accumulate (t_fused_lazily e) x ops; t_merge y) = Ok (z, err)) by (rewrite A; cbn [bind]; unfold t_merge; cbn [fst snd]; rewrite Ez; reflexivity).
    rewrite Em. f_equal. f_equal. pose proof (proj2 (proj2 (C95_report e x)) ops _ Em) as H. cbn [snd] in H. rewrite H. f_equal.
    clear - HO. induction HO as [|ab ops (_ & A & _) HO IH]; [reflexivity|]. cbn [filter]. destruct (ct_c (fst (fst ab))); [congruence|]. cbn [length Nat.eqb negb]. f_equal. exact IH.
Qed.

(** RNS: the same for the eager operations. *)
Theorem C95_rns_report :
  forall e x ops y,
  accumulate (re_fused e) x ops = Ok y \/ accumulate (re_apart e) x ops = Ok y \/ accumulate (re_fused_nopad e) x ops = Ok y ->
  snd y = report (re_plaintext e) x ops.
Proof.
  intros e x ops y [E|[E|E]]; revert E; apply acc_report.
  - unfold re_fused. step_report.
  - unfold re_apart, re_absorb, re_add. clear. intros x a b y E.
    destruct (rct_absorb (fst a) b); try discriminate E. cbn [bind fst snd] in E. destruct (rct_add _ _) as [z| |]; try discriminate E. cbn [bind] in E.
    match type of E with Ok ?v = _ => assert (y = v) as -> by congruence end. reflexivity.
  - unfold re_fused_nopad. step_report.
Qed.

Lemma lazily_nonempty x a b y : rct_fused_lazily x a b = Ok y -> rt_lazy y <> [].
Proof.
  unfold rct_fused_lazily. destruct (rt_c a) as [|a0 [|a1 [|? ?]]]; try discriminate. destruct (negb _); [discriminate|]. destruct (negb _); [discriminate|].
  destruct (rt_lazy x).
  - destruct (rlazy_create _ _ _); try discriminate. cbn [bind]. intros H. assert (y = rct_with_lazy x [a2]) as -> by congruence. discriminate.
  - destruct (rlazy_fused _ _ _ _); try discriminate. cbn [bind]. intros H. assert (y = rct_with_lazy x (a2 :: l)) as -> by congruence. discriminate.
Qed.

Lemma lazily_rest e ops : forall x y, rt_lazy (fst x) <> [] -> accumulate (re_fused_lazily e) x ops = Ok y -> snd y = report (re_plaintext e) x ops.
Proof.
  induction ops as [|[a b] ops IH]; intros x y N E.
  - cbn in E. assert (x = y) as -> by congruence. unfold report. cbn. lra.
  - rewrite acc_cons in E. unfold re_fused_lazily at 1 in E. destruct (rct_fused_lazily (fst x) (fst a) b) as [w| |] eqn:Ew; try discriminate E. cbn [bind] in E.
    rewrite (IH _ _ (lazily_nonempty _ _ _ _ Ew : rt_lazy (fst (w, _)) <> []) E). unfold report. cbn [map fold_right fst snd].
    destruct (rt_lazy (fst x)); [congruence|]. lra.
Qed.

(** The lazy sum: the first operand is not counted. *)
Theorem C95_rns_lazy_report :
  forall e x a b ops y, rt_lazy (fst x) = [] -> (do! y <- accumulate (re_fused_lazily e) x ((a, b) :: ops); re_merge y) = Ok y ->
  snd y = report (re_plaintext e) x ops /\ snd y = report (re_plaintext e) x ((a, b) :: ops) - re_plaintext e * snd a.
Proof.
  intros e x a b ops y El E. destruct (accumulate _ x _) as [z| |] eqn:A; try discriminate E. cbn [bind] in E. unfold re_merge in E.
  destruct (rct_merge (fst z)) as [w| |]; try discriminate E. cbn [bind] in E. assert (y = (w, snd z)) as -> by congruence. cbn [snd]. clear E w.
  rewrite acc_cons in A. unfold re_fused_lazily at 1 in A. rewrite El in A. destruct (rct_fused_lazily (fst x) (fst a) b) as [w| |] eqn:Ew; try discriminate A. cbn [bind] in A.
  pose proof (lazily_rest e ops _ _ (lazily_nonempty _ _ _ _ Ew : rt_lazy (fst (w, snd x)) <> []) A) as H. rewrite H. unfold report. cbn [map fold_right fst snd]. lra.
Qed.

Lemma rns_lazy_run e ops : forall x z, absorb_lazily (bare ops) (fst x) = Ok z -> exists err, accumulate (re_fused_lazily e) x ops = Ok (z, err).
Proof.
  assert (S : forall (ops : list (rct * rpoly)) r, (forall v, r <> Ok v) -> fold_left (fun r ab => do! x <- r; rct_fused_lazily x (fst ab) (snd ab)) ops r = r).
  { induction ops0 as [|ab ops0 IH]; intros r H; [reflexivity|]. cbn [fold_left]. destruct r as [v| |]; [exfalso; eapply H; reflexivity| |]; apply IH; intros v; discriminate. }
  induction ops as [|[a b] ops IH]; intros x z E.
  - cbn in *. exists (snd x). destruct x. cbn in *. congruence.
  - unfold absorb_lazily in E. cbn [bare map fold_left fst snd bind] in E. destruct (rct_fused_lazily (fst x) (fst a) b) as [w| |] eqn:Ew.
    + rewrite acc_cons. unfold re_fused_lazily at 1. rewrite Ew. cbn [bind]. apply IH. exact E.
    + rewrite S in E by (intros v; discriminate). discriminate E.
    + rewrite S in E by (intros v; discriminate). discriminate E.
Qed.

(** So the lazy sum of products, merged and with its pad set, decrypts to the sum
    of all of them, and reports an error without the first: with one product, 0,
    whatever the product is. *)
Theorem C95_rns_lazy_refuted :
  forall k L ms s e a b d ops ds pad, moduli_ok k L ms -> ms <> [] -> distinct ms ->
  Forall2 (lazy_operand ms L s) (bare ((a, b) :: ops)) (d :: ds) ->
  rns_is ms L true pad (fun i => fold_right Z.add 0%Z (map (fun d => let '(w, c1, m) := d in negacyclic (2 ^ L) c1 m i) (d :: ds))) ->
  exists y, (do! x <- accumulate (re_fused_lazily e) (rct_zero ms, 0) ((a, b) :: ops); do! x <- re_merge x; re_set_pad x pad)
      = Ok (y, re_plaintext e * fold_right Rplus 0 (map (fun ab => snd (fst ab)) ops)) /\
    ciphertext ms L s 2 1 y (fun i => fold_right Z.add 0%Z (map (fun d => let '(w, c1, m) := d in negacyclic (2 ^ L) w m i) (d :: ds))).
Proof.
  intros k L ms s e a b d ops ds pad OK NE DI HF Hp.
  destruct (C68_lazy_absorb k L ms s (bare ((a, b) :: ops)) (d :: ds) pad OK NE DI ltac:(discriminate) HF Hp) as (y & Ey & Hy).
  exists y. split; [|exact Hy].
  destruct (absorb_lazily _ _) as [z| |] eqn:Ez; try discriminate Ey. cbn [bind] in Ey.
  destruct (rns_lazy_run e ((a, b) :: ops) (rct_zero ms, 0) z Ez) as (err & A).
  destruct (rct_merge z) as [w| |] eqn:Ew; try discriminate Ey. cbn [bind] in Ey.
  assert (B : (do! y <- accumulate (re_fused_lazily e) (rct_zero ms, 0) ((a, b) :: ops); re_merge y) = Ok (w, err)) by (rewrite A; cbn [bind]; unfold re_merge; cbn [fst snd]; rewrite Ew; reflexivity).
  destruct (C95_rns_lazy_report e (rct_zero ms, 0) a b ops _ eq_refl B) as [H _]. cbn [snd] in H.
  rewrite A. cbn [bind]. unfold re_merge. cbn [fst snd]. rewrite Ew. cbn [bind]. unfold re_set_pad. cbn [fst snd]. rewrite Ey. cbn [bind]. rewrite H. unfold report. cbn [snd]. rewrite Rplus_0_l. reflexivity.
Qed.

Definition two_products (p : mparams) (m : poly) : list (tct * poly) := [((ct_make p [m] 1, 5), m); ((ct_make p [m; m] 1, 7), m)].
Lemma two_products_sum k q L t key e p m : key_ok k q L t key -> k <> 16%Z -> sk_p key = p -> ntt_poly p L m ->
  growing 0 (bare (two_products p m)) /\
  exists z, run_fused (ct_empty p) (bare (two_products p m)) = Ok z /\ accumulate (t_fused e) (ct_empty p, 0) (two_products p m) = Ok (z, b_plaintext e * 12) /\
    (do! y <- accumulate (t_fused_lazily e) (ct_empty p, 0) (two_products p m); t_merge y) = Ok (z, b_plaintext e * 12).
Proof.
  intros K K16 Ep M. subst p.
  assert (G : growing 0 (bare (two_products (sk_p key) m))).
  { cbn [two_products bare map growing fst snd ct_make ct_c length Nat.max]. split; [right; lia|]. split; [right; lia|exact I]. }
  split; [exact G|].
  assert (Er : report (b_plaintext e) (ct_empty (sk_p key), 0) (two_products (sk_p key) m) = b_plaintext e * 12)
    by (unfold report, two_products; cbn [map fold_right fst snd]; lra).
  destruct (C95_lazy_equals_eager k q L t key e (ct_empty (sk_p key), 0) (two_products (sk_p key) m) K K16) as (z & _ & _ & A & B).
  - split; [reflexivity|constructor].
  - reflexivity.
  - unfold two_products. constructor; [|constructor; [|constructor]]; cbn [fst snd ct_make ct_c ct_pow]; (split; [split; [reflexivity|]|split; [discriminate|split; [exact M|reflexivity]]]); cbn [ct_c ct_make].
    + constructor; [exact M|constructor].
    + constructor; [exact M|constructor; [exact M|constructor]].
  - exact G.
  - discriminate.
  - rewrite Er in A, B. exists z. split; [|split; [exact A|exact B]].
    destruct (C29_lazy_equals_eager_partial k q L t key (ct_empty (sk_p key)) (bare (two_products (sk_p key) m)) K) as (z2 & _ & _ & _ & _ & W).
    + split; [reflexivity|constructor].
    + reflexivity.
    + unfold two_products, bare. cbn [map fst snd]. constructor; [|constructor; [|constructor]]; cbn [fst snd ct_make ct_c ct_pow]; (split; [split; [reflexivity|]|split; [exact M|reflexivity]]); cbn [ct_c ct_make].
      * constructor; [exact M|constructor].
      * constructor; [exact M|constructor; [exact M|constructor]].
    + exact G.
    + apply Exists_cons_hd. discriminate.
    + specialize (W K16). rewrite W. pose proof (eager_run e (two_products (sk_p key) m) (ct_empty (sk_p key), 0) z2 W) as A2. congruence.
Qed.

(** a sum of two products with reports 5 and 7, of one and two components *)
Example C95_example :
  growing 0 (bare (two_products pr mr)) /\
  (do! z <- run_fused (ct_empty pr) (bare (two_products pr mr)); Ok (length (ct_c z))) = Ok 2%nat /\
  forall e, exists z, run_fused (ct_empty pr) (bare (two_products pr mr)) = Ok z /\ accumulate (t_fused e) (ct_empty pr, 0) (two_products pr mr) = Ok (z, b_plaintext e * 12) /\
    (do! y <- accumulate (t_fused_lazily e) (ct_empty pr, 0) (two_products pr mr); t_merge y) = Ok (z, b_plaintext e * 12).
Proof.
  destruct keyr_ok as (EK & Ev & E1 & E2). pose proof mr_ntt as M.
  pose proof (fun e => two_products_sum 32 786433 3 3 keyr e pr mr (ek_key _ _ _ _ _ EK) ltac:(lia) E1 M) as H.
  split; [exact (proj1 (H (mk_err_params 3 8 1 20)))|]. split; [|exact (fun e => proj2 (H e))].
  change (bare (two_products pr mr)) with [(ct_make pr [mr] 1%Z, mr); (ct_make pr [mr; mr] 1%Z, mr)]. vm_compute. reflexivity.
Qed.

(** one product, of a phase with values -4 .. 3 by the constant 2 *)
Example C95_rns_example :
  forall e err, exists a b pad y,
  (do! x <- accumulate (re_fused_lazily e) (rct_zero ex_qs, 0) [((a, err), b)]; do! x <- re_merge x; re_set_pad x pad) = Ok (y, 0) /\
  ciphertext ex_qs 3 (fun i => nth i ex_s 0%Z) 2 1 a (fun i => Z.of_nat i - 4)%Z /\
  ciphertext ex_qs 3 (fun i => nth i ex_s 0%Z) 2 1 y (fun i => 2 * (Z.of_nat i - 4))%Z.
Proof.
  intros e err. destruct ex_ok as (OK & _). destruct ex_distinct as (_ & DI & _).
  set (w := fun i => (Z.of_nat i - 4)%Z). set (c1 := fun i => (3 * Z.of_nat i)%Z). set (m := fun i => if (i =? 0)%nat then 2%Z else 0%Z).
  destruct (ciphertext_exists 32 3 ex_qs (fun i => nth i ex_s 0%Z) 1 w c1 OK DI) as (a & Ha & u0 & u1 & Eu & Hu).
  destruct (poly_exists 32 3 ex_qs m OK DI) as (b & Hb).
  destruct (poly_exists 32 3 ex_qs (fun i => fold_right Z.add 0%Z (map (fun d => let '(w, c1, m) := d in negacyclic (2 ^ 3) c1 m i) [(w, c1, m)])) OK DI) as (pad & Hp).
  destruct (C95_rns_lazy_refuted 32 3 ex_qs (fun i => nth i ex_s 0%Z) e (a, err) b (w, c1, m) [] [] pad OK ltac:(discriminate) DI) as (y & Ey & Hy).
  - constructor; [|constructor]. cbn [bare map fst snd]. split; [exact Ha|]. split; [exact Hb|]. exists u1. cbn [fst]. rewrite Eu. split; [reflexivity|exact Hu].
  - exact Hp.
  - exists a, b, pad, y. cbn [map fold_right] in Ey. rewrite Rmult_0_r in Ey. split; [exact Ey|]. split; [exact Ha|].
    destruct Hy as (Y1 & Y2 & Y3 & cs & Y4 & Y5). split; [exact Y1|]. split; [exact Y2|]. split; [exact Y3|]. exists cs. split; [exact Y4|].
    intros i Hi. rewrite (Y5 i Hi). apply cong_eq. change (2 ^ 3)%nat with 8%nat in Hi. cbn [map fold_right].
    do 8 (destruct i as [|i]; [vm_compute; reflexivity|]). lia.
Qed.

Print Assumptions C95_report.
Print Assumptions C95_lazy_equals_eager.
Print Assumptions C95_rns_report.
Print Assumptions C95_rns_lazy_report.
Print Assumptions C95_rns_lazy_refuted.
