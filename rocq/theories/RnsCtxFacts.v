(** Facts about contexts returned by the factory functions. *)
From Coq Require Import Znumtheory.
From Verif Require Import Base FinSum PolySpec Ring Montgomery MontBatch Ntt MontgomeryProofs
  MontBatchProofs Spec PolyView ArithFacts NttFacts NttProofs PolyProofs ThmArith
  RnsPoly RnsSpec RnsCtx RnsCtxSpec CrtMath RnsSub RnsProofs RnsBasis RnsBasis2 RnsCtxProofs.

Definition base (c : rctx) :=
  (rc_logn c, rc_qs c, rc_ps c, rc_t c, (rc_prime_qs c, rc_prime_q_invs c, rc_q_inv_mod_ps c, rc_leveled_q_mod_ps c),
   (rc_p_hat_invs c, rc_p_hat_mod_qs c, rc_p_mod_qs c, rc_p_inv_mod_qs c), (rc_q_mod_t c, rc_p_mod_t c),
   (rc_t_mod_qs c, rc_t_inv_mod_qs c, rc_t_inv_mod_ps c)).

Lemma ff_base k c c' : ctx_finite_field k c = Ok c' -> base c' = base c.
Proof. unfold ctx_finite_field. destruct (make_modulus k (rc_logn c) (rc_t c)); try discriminate. cbn [bind]. intros [= <-]. reflexivity. Qed.
Lemma bfv_base c c' : ctx_bfv c = Ok c' -> base c' = base c.
Proof.
  unfold ctx_bfv. destruct (rc_pt c); [|discriminate]. destruct (bfv_loop m (rc_t c) (rc_qs c) (import_one m)) as [[[xs ys] zs]| |]; try discriminate.
  cbn [bind]. intros [= <-]. reflexivity.
Qed.
Lemma pt_base c pt : base (with_pt c pt) = base c.
Proof. reflexivity. Qed.

Lemma made_base k l qs ps t c : ctx_made k l qs ps t c -> exists c0, ctx_create k l qs ps t = Ok c0 /\ base c = base c0.
Proof.
  intros [H|[H|[H|H]]].
  - exists c. auto.
  - unfold ctx_create_bgv_ff in H. destruct (t mod 2 =? 0); [discriminate|]. destruct (ctx_create k l qs ps t) as [c0| |]; try discriminate.
    exists c0. split; [reflexivity|]. apply (ff_base k _ _ H).
  - unfold ctx_create_bfv in H. destruct (ctx_create k l qs ps t) as [c0| |]; try discriminate. cbn [bind] in H.
    destruct (params_create k t) as [pt| |]; try discriminate. exists c0. split; [reflexivity|].
    cbn [bind] in H. rewrite (bfv_base _ _ H). apply pt_base.
  - unfold ctx_create_bfv_ff in H. destruct (t mod 2 =? 0); [discriminate|]. destruct (ctx_create k l qs ps t) as [c0| |]; try discriminate.
    cbn [bind] in H. destruct (ctx_finite_field k c0) as [c1| |] eqn:E; try discriminate. cbn [bind] in H. exists c0. split; [reflexivity|].
    rewrite (bfv_base _ _ H). apply (ff_base k _ _ E).
Qed.

(** what Create stores *)
Definition stored_tables (k : Z) (c : rctx) : Prop :=
  tables_ok c /\ rc_q_mod_t c = rem_product k (rc_t c) (rc_qs c) /\ rc_p_mod_t c = rem_product k (rc_t c) (rc_ps c) /\
  rc_t_mod_qs c = map (fun m => import_int (pm_p m) (rc_t c)) (rc_qs c) /\
  rc_t_inv_mod_qs c = map (fun m => mult_inverse (pm_p m) (import_int (pm_p m) (rc_t c))) (rc_qs c) /\
  rc_t_inv_mod_ps c = map (fun m => mult_inverse (pm_p m) (import_int (pm_p m) (rc_t c))) (rc_ps c).

Lemma create_tables k l qs ps t c : ctx_create k l qs ps t = Ok c ->
  rc_logn c = l /\ 0 < l /\ seqr (map (make_modulus k l) qs) = Ok (rc_qs c) /\ seqr (map (make_modulus k l) ps) = Ok (rc_ps c) /\
  rc_t c = t /\ stored_tables k c.
Proof.
  unfold ctx_create. destruct (Z.leb_spec l 0); [discriminate|]. destruct (Z.eqb_spec t 0); [discriminate|].
  destruct (seqr (map (make_modulus k l) qs)) as [ms| |]; try discriminate. cbn [bind].
  destruct (seqr (map (make_modulus k l) ps)) as [mp| |]; try discriminate. cbn [bind]. intros [= <-].
  cbn [rc_logn rc_qs rc_ps rc_t]. unfold stored_tables, tables_ok. cbn. tauto.
Qed.

Lemma base_tables k c c0 : base c = base c0 -> stored_tables k c0 -> stored_tables k c.
Proof.
  unfold base. intros E. injection E as E1 E2 E3 E4 E5 E6 E7 E8 E9 E10 E11 E12 E13 E14 E15 E16 E17.
  unfold stored_tables, tables_ok. rewrite E2, E3, E4, E5, E6, E7, E8, E9, E10, E11, E12, E13, E14, E15, E16, E17. tauto.
Qed.

Lemma made_ok k l qs ps t c : ctx_args k qs ps t -> ctx_made k l qs ps t c ->
  rc_logn c = l /\ 0 < l /\ rc_t c = t /\ moduli (rc_qs c) = qs /\ moduli (rc_ps c) = ps /\
  moduli_ok k (Z.to_nat l) (rc_qs c) /\ moduli_ok k (Z.to_nat l) (rc_ps c) /\ distinct (rc_qs c ++ rc_ps c) /\ stored_tables k c.
Proof.
  intros (W & Pq & Pp & ND & Ht) M. destruct (made_base _ _ _ _ _ _ M) as (c0 & E & B).
  destruct (create_tables _ _ _ _ _ _ E) as (L1 & L0 & Eq & Ep & Et & T).
  pose proof (base_tables k c c0 B T) as T'. unfold base in B.
  injection B as E1 E2 E3 E4 E5 E6 E7 E8 E9 E10 E11 E12 E13 E14 E15 E16 E17.
  rewrite E1, E2, E3, E4 in *. replace l with (Z.of_nat (Z.to_nat l)) in Eq, Ep by lia.
  destruct (make_moduli k _ qs W Pq _ Eq) as [Oq Mq]. destruct (make_moduli k _ ps W Pp _ Ep) as [Op Mp].
  split; [exact L1|]. split; [exact L0|]. split; [exact Et|]. split; [exact Mq|]. split; [exact Mp|]. split; [exact Oq|]. split; [exact Op|].
  split; [|exact T']. unfold distinct, moduli in *. rewrite map_app, Mq, Mp. exact ND.
Qed.

Lemma t_inverses k L t ms : moduli_ok k L ms -> 0 <= t < 2 ^ k -> (forall m, In m ms -> ~ (modulus m | t)) ->
  inverses ms (map (fun m => mult_inverse (pm_p m) (import_int (pm_p m) t)) ms) t.
Proof.
  intros OK Ht N. apply map_forall. intros m I. pose proof (moduli_in _ _ _ _ OK I) as O.
  destruct (inv_res k L m O t Ht (N m I)) as [R C]. apply (inverse_word k L m O _ _ _ R C).
Qed.

Lemma created_pt k l qs ps t c : ctx_args k qs ps t -> ctx_made_bfv k l qs ps t c ->
  (forall q, In q qs -> Z.gcd q t = 1) ->
  exists pt, rc_pt c = Some pt /\ params_for k t pt /\
    Forall2 (fun m w => stored pt w /\ export_int pt w = modulus m mod t) (rc_qs c) (rc_qs_mod_t c) /\
    Forall2 (fun m w => stored pt w /\ (export_int pt w * modulus m) mod t = 1) (rc_qs c) (rc_q_invs_mod_t c) /\
    length (rc_ql_invs_mod_t c) = length (rc_qs c) /\
    forall i w, nth_error (rc_ql_invs_mod_t c) i = Some w ->
      stored pt w /\ (export_int pt w * big_q (firstn (S i) (rc_qs c))) mod t = 1.
Proof.
  intros A M G. assert (M' : ctx_made k l qs ps t c) by (unfold ctx_made; destruct M; auto).
  destruct (made_ok _ _ _ _ _ _ A M') as (L1 & L0 & Et & Mq & Mp & Oq & Op & D & _).
  assert (S : exists c1 pt, rc_pt c1 = Some pt /\ params_for k t pt /\ rc_t c1 = t /\ ctx_bfv c1 = Ok c).
  { destruct A as (W & Pq & Pp & ND & Ht). destruct M as [H|H].
    - unfold ctx_create_bfv in H. destruct (ctx_create k l qs ps t) as [c0| |] eqn:E0; try discriminate. cbn [bind] in H.
      destruct (params_create k t) as [pt| |] eqn:Ep; try discriminate. cbn [bind] in H. exists (with_pt c0 pt), pt.
      split; [reflexivity|]. split; [split; [exact W|]; split; [lia|exact Ep]|]. split; [|exact H].
      apply create_tables in E0. apply E0.
    - unfold ctx_create_bfv_ff in H. destruct (t mod 2 =? 0); [discriminate|]. destruct (ctx_create k l qs ps t) as [c0| |] eqn:E0; try discriminate. cbn [bind] in H.
      apply create_tables in E0. destruct E0 as (_ & _ & _ & _ & Et0 & _).
      unfold ctx_finite_field in H. destruct (make_modulus k (rc_logn c0) (rc_t c0)) as [m| |] eqn:Em; try discriminate. cbn [bind] in H.
      eexists. exists (pm_p m). split; [|split; [|split; [|exact H]]]; [reflexivity| |exact Et0].
      unfold make_modulus in Em. rewrite Et0 in Em. destruct (params_create k t) as [pt| |] eqn:Ep; try discriminate. cbn [bind] in Em.
      destruct (init_ntt pt (rc_logn c0)); try discriminate. injection Em as <-. split; [exact W|]. split; [lia|exact Ep]. }
  destruct S as (c1 & pt & E1 & P & E2 & E3).
  pose proof (bfv_base _ _ E3) as B. unfold base in B. injection B as B1 B2 B3 B4 B5 B6 B7 B8 B9 B10 B11 B12 B13 B14 B15 B16 B17.
  pose proof (pf_good _ _ _ P) as (Gd & Gk & Gm). assert (T1 : 1 < t) by apply P.
  destruct (bfv_loop_ok k (Z.to_nat l) t pt P (rc_qs c) Oq) with (acc := import_one pt) (a := 1) as (xs & ys & zs & E & H1 & H2 & H3 & H4).
  - intros m I. apply G. rewrite <- Mq. apply in_map, I.
  - apply (crep_rep pt), (one_crep pt Gd).
  - rewrite stored_val; [|exact Gd|apply (crep_rep pt), (one_crep pt Gd)].
    rewrite (one_val pt Gd). apply Z.mod_small. lia.
  - unfold ctx_bfv in E3. rewrite E1, E2, <- B2, E in E3. cbn [bind] in E3. injection E3 as E3.
    pose proof (f_equal rc_pt E3) as X1. pose proof (f_equal rc_qs_mod_t E3) as X2. pose proof (f_equal rc_q_invs_mod_t E3) as X3.
    pose proof (f_equal rc_ql_invs_mod_t E3) as X4. cbn [rc_pt rc_qs_mod_t rc_q_invs_mod_t rc_ql_invs_mod_t] in X1, X2, X3, X4.
    clear E3. exists pt. rewrite <- X1, <- X2, <- X3, <- X4. split; [first [exact E1|reflexivity]|]. split; [exact P|]. split; [exact H1|]. split; [exact H2|]. split; [exact H3|].
    intros i w Hw. destruct (H4 i w Hw) as [S V]. split; [exact S|]. rewrite Z.mul_1_l in V. exact V.
Qed.
