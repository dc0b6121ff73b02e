(** The representation lemmas restated with [coeff]. *)
From Coq Require Import Arith Znumtheory.
From Verif Require Import Base FinSum PolySpec Ring Montgomery MontBatch Ntt Poly MontgomeryProofs
  MontBatchProofs NttIndex NttMath NttProofs Spec PolyView ArithFacts NttFacts PolyProofs.

(** Everything the proofs need about an NTT context. *)
Definition ctx (p : mparams) (L : nat) (np : nttp) : Prop :=
  good p /\ ntt_good p L np (ntt_root p np).

Lemma mk_ctx k m p L np : params_for k m p -> ntt_for p L np -> ctx p L np /\ p_k p = k /\ p_m p = m.
Proof.
  intros H HN. destruct (ntt_for_good k m p L np H HN) as (_ & _ & NG & _).
  pose proof (pf_good _ _ _ H) as (G & Hk & Hm). split; [split; assumption|]. split; assumption.
Qed.

Section Ctx.
Variables (p : mparams) (L : nat) (np : nttp).
Hypothesis C : ctx p L np.
Local Notation m := (p_m p).
Local Notation n := (2 ^ L)%nat.
Local Notation X := (ntt_root p np).
Local Notation ev := (ev L X).
Local Notation holds := (holds p).
Let G : good p := proj1 C.
Let NG : ntt_good p L np X := proj2 C.

Lemma coeff_holds a f : holds n a (ev f) -> forall i, (i < n)%nat -> coeff p np a i = f i mod m.
Proof.
  intros Ha i Hi. unfold coeff. rewrite (inverse_holds p G L np X NG a f Ha).
  destruct (import_reps p G L f) as (Lv & Cv & Vv). cbv zeta in *.
  rewrite <- (Vv i Hi). rewrite Forall_forall in Cv. apply stored_val; [exact G|].
  apply reduced_stored, Cv, nth_In. lia.
Qed.

Lemma poly_holds a : ntt_poly p L a -> holds n a (ev (coeff p np a)).
Proof.
  intros [La Ra]. destruct (holds_exists p G L np X NG a La Ra) as (f & Hf & Ha).
  eapply holds_ext; [exact Ha|]. intros j Hj. apply ev_cong. intros i Hi.
  rewrite (coeff_holds a f Ha i Hi). symmetry. apply cong_mod.
Qed.

Lemma holds_poly a F : holds n a F -> ntt_poly p L a.
Proof. intros (La & Ra & _). split; assumption. Qed.

Lemma coeff_range a i : ntt_poly p L a -> (i < n)%nat -> 0 <= coeff p np a i < m.
Proof.
  intros Ha Hi. rewrite (coeff_holds a _ (poly_holds a Ha) i Hi). apply Z.mod_pos_bound.
  pose proof (m_gt1 p G). lia.
Qed.

Lemma import_rep s : 0 <= s < 2 ^ p_k p -> rep p (import_int p s) /\ cong m (val p (import_int p s)) s.
Proof.
  intros Hs. split; [apply crep_rep, import_crep; assumption|]. rewrite import_val by assumption. apply cong_mod.
Qed.

(** a result polynomial whose coefficients are given modulo m *)
Definition result_poly (r : result poly) (f : nat -> Z) : Prop :=
  exists c, r = Ok c /\ ntt_poly p L c /\ forall i, (i < n)%nat -> coeff p np c i = f i mod m.

Lemma mk_result c f F : holds n c F -> (forall j, (j < n)%nat -> cong m (F j) (ev f j)) ->
  ntt_poly p L c /\ forall i, (i < n)%nat -> coeff p np c i = f i mod m.
Proof.
  intros Hc E. split; [eapply holds_poly; eauto|]. apply coeff_holds. eapply holds_ext; eauto.
Qed.

Section Two.
Variables a b : poly.
Hypothesis Ha : ntt_poly p L a.
Hypothesis Hb : ntt_poly p L b.
Let HA := poly_holds a Ha.
Let HB := poly_holds b Hb.

Lemma mul_coeff : result_poly (poly_mul p a b) (negacyclic n (coeff p np a) (coeff p np b)).
Proof.
  destruct (mul_holds p G n a b _ _ HA HB) as (c & E & Hc & _). exists c. split; [exact E|].
  eapply mk_result; [exact Hc|]. intros j Hj. symmetry. apply (ev_mul p L np X NG).
Qed.
Lemma add_coeff : result_poly (poly_add p a b) (fun i => coeff p np a i + coeff p np b i).
Proof.
  destruct (add_holds p G n a b _ _ HA HB) as (c & E & Hc & _). exists c. split; [exact E|].
  eapply mk_result; [exact Hc|]. intros j Hj. cbv beta. rewrite ev_add. reflexivity.
Qed.
Lemma sub_coeff : result_poly (poly_sub p a b) (fun i => coeff p np a i - coeff p np b i).
Proof.
  destruct (sub_holds p G n a b _ _ HA HB) as (c & E & Hc & _). exists c. split; [exact E|].
  eapply mk_result; [exact Hc|]. intros j Hj. cbv beta. rewrite ev_sub. reflexivity.
Qed.
Lemma neg_coeff : result_poly (Ok (poly_neg p a)) (fun i => - coeff p np a i).
Proof.
  exists (poly_neg p a). split; [reflexivity|]. eapply mk_result; [apply (neg_holds p G n a _ HA)|].
  intros j Hj. cbv beta. rewrite ev_opp. reflexivity.
Qed.
Lemma mul_scalar_coeff s : stored p s ->
  result_poly (poly_mul_scalar p a s) (fun i => export_int p s * coeff p np a i).
Proof.
  intros Hs. destruct (mul_scalar_holds p G n a _ s (export_int p s) HA Hs) as (c & E & Hc & _).
  { rewrite stored_val by (exact G || exact Hs). reflexivity. }
  exists c. split; [exact E|]. eapply mk_result; [exact Hc|].
  intros j Hj. cbv beta. rewrite ev_scale. reflexivity.
Qed.
Lemma mul_constant_coeff :
  result_poly (do! cb <- poly_constants p b; poly_mul_constant p a cb)
    (negacyclic n (coeff p np a) (coeff p np b)).
Proof.
  rewrite constants_ok. cbn [bind].
  destruct (mul_constant_holds p G n a b _ _ HA HB) as (c & E & Hc & _). exists c. split; [exact E|].
  eapply mk_result; [exact Hc|]. intros j Hj. symmetry. apply (ev_mul p L np X NG).
Qed.
Variable x : poly.
Hypothesis Hx : ntt_poly p L x.
Let HX := poly_holds x Hx.
Let muladd := fun i => coeff p np x i + negacyclic n (coeff p np a) (coeff p np b) i.
Lemma fused_constant_coeff :
  result_poly (do! cb <- poly_constants p b; poly_fused_mul_constant_add p x a cb) muladd.
Proof.
  rewrite constants_ok. cbn [bind].
  destruct (fused_constant_holds p G n x a b _ _ _ HX HA HB) as (c & E & Hc & _). exists c. split; [exact E|].
  eapply mk_result; [exact Hc|]. intros j Hj. unfold muladd. rewrite ev_add.
  rewrite (ev_mul p L np X NG). reflexivity.
Qed.
Lemma fused_coeff : p_k p <> 16 -> result_poly (poly_fused_mul_add p x a b) muladd.
Proof.
  intros Hk. destruct (fused_defined p n x a b _ _ _ Hk HX HA HB) as (c & E).
  destruct (fused_holds p G n x a b _ _ _ c HX HA HB E) as [Hc _]. exists c. split; [exact E|].
  eapply mk_result; [exact Hc|]. intros j Hj. unfold muladd. rewrite ev_add.
  rewrite (ev_mul p L np X NG). reflexivity.
Qed.
End Two.

Lemma convert_coeff v : length v = n -> Forall (stored p) v ->
  result_poly (convert_to_ntt p np v) (fun i => export_int p (nth i v 0)).
Proof.
  intros Lv Rv. destruct (forward_holds p G L np X NG v (fun i => export_int p (nth i v 0)) Lv Rv) as (c & E & Hc & _).
  { intros i Hi. rewrite Forall_forall in Rv. rewrite stored_val; [reflexivity|exact G|]. apply Rv, nth_In. lia. }
  exists c. split; [exact E|]. eapply mk_result; [exact Hc|]. reflexivity.
Qed.

Lemma substitute_coeff a power : ntt_poly p L a -> 0 < power < 2 * Z.of_nat n -> Z.odd power = true ->
  result_poly (poly_substitute np a power) (substituted n (Z.to_nat power) (coeff p np a)).
Proof.
  intros Ha Hp Ho.
  destruct (substitute_holds p L np X NG a _ power (poly_holds a Ha) Hp Ho) as (r & E & Hr & _).
  exists r. split; [exact E|]. eapply mk_result; [exact Hr|]. reflexivity.
Qed.

Lemma coeff_determines a b : ntt_poly p L a -> ntt_poly p L b ->
  (forall i, (i < n)%nat -> coeff p np a i = coeff p np b i) ->
  forall j, (j < n)%nat -> export_int p (nth j a 0) = export_int p (nth j b 0).
Proof.
  intros Ha Hb E j Hj. pose proof (poly_holds a Ha) as HA. pose proof (poly_holds b Hb) as HB.
  rewrite !stored_val by (try exact G; eapply holds_rep; eauto).
  apply (cong_small m); try apply val_range; try exact G.
  rewrite (holds_val p _ _ _ _ HA Hj), (holds_val p _ _ _ _ HB Hj). apply ev_cong.
  intros i Hi. rewrite (E i Hi). reflexivity.
Qed.

End Ctx.

Lemma substitute_rejects np a power :
  power < 0 \/ Z.even power = true \/ 2 * Z.of_nat (length a) <= power ->
  poly_substitute np a power = Err InvalidArgument.
Proof.
  intros H. unfold poly_substitute. rewrite Z.gtb_ltb, Z.geb_leb.
  destruct (Z.ltb_spec power 0); cbn [orb]; [reflexivity|].
  destruct (Z.leb_spec (2 * Z.of_nat (length a)) power); [rewrite orb_true_r; reflexivity|].
  destruct H as [H|[H|H]]; try lia. rewrite Z.rem_mod_nonneg by lia.
  rewrite Zmod_even, H. reflexivity.
Qed.
