(** Polynomials kept as coefficients against polynomials in NTT form. *)
From Coq Require Import Arith Znumtheory.
From Verif Require Import Base FinSum PolySpec NegRing Montgomery MontBatch Ntt Poly ZLemmas MontgomeryProofs
  MontBatchProofs NttProofs Spec PolyView ArithFacts NttFacts PolyProofs PolyFacts SymEnc SymSpec SymProofs SymProofs2 SymFacts
  CoeffPoly CoeffSpec CoeffProofs.
Local Notation zsum := FinSum.zsum.

Lemma chold_eq p n v w f g : good p -> chold p n v f -> chold p n w g -> (forall i, (i < n)%nat -> cong (p_m p) (f i) (g i)) -> v = w.
Proof.
  intros G [Hv Cv] [Hw Cw] E. pose proof (holds_len _ _ _ _ Hv). pose proof (holds_len _ _ _ _ Hw).
  rewrite Forall_forall in Cv, Cw. apply nth_ext with (d := 0) (d' := 0); [congruence|]. intros i Hi.
  apply (val_inj p G); [apply Cv, nth_In; lia|apply Cw, nth_In; lia|].
  pose proof (val_range p G (nth i v 0)). pose proof (val_range p G (nth i w 0)).
  eapply cong_small; [eassumption..|]. rewrite (holds_val _ _ _ _ i Hv) by lia. rewrite (holds_val _ _ _ _ i Hw) by lia. apply E. lia.
Qed.

Lemma stored_holds p n v : good p -> length v = n -> Forall (stored p) v -> holds p n v (cvalue p v).
Proof.
  intros G L F. apply holds_intro; [exact L|]. intros j Hj. assert (S : stored p (nth j v 0)) by (rewrite Forall_forall in F; apply F, nth_In; lia).
  split; [exact S|]. unfold cvalue. rewrite stored_val by assumption. reflexivity.
Qed.

Lemma chold_returns p n v f : good p -> chold p n v f -> returns p n (Ok v) f.
Proof.
  intros G [H C]. exists v. split; [reflexivity|]. split; [eapply holds_len; exact H|]. split; [exact C|].
  intros i Hi. unfold cvalue. rewrite stored_val by (exact G || apply (holds_rep _ _ _ _ _ H Hi)).
  pose proof (val_range p G (nth i v 0)). apply cong_reduced; [assumption|]. apply (holds_val _ _ _ _ _ H Hi).
Qed.

Lemma xpow_mono n e k : (e < 2 * n)%nat -> mono n e k = xpow n e k.
Proof. intros H. unfold mono, xpow. rewrite Nat.mod_small by exact H. reflexivity. Qed.

Lemma nega_ext p n f f' g g' k : (k < n)%nat -> (forall i, (i < n)%nat -> cong p (f i) (f' i)) -> (forall i, (i < n)%nat -> cong p (g i) (g' i)) ->
  cong p (negacyclic n f g k) (negacyclic n f' g' k).
Proof.
  intros Hk A B. rewrite !negacyclic_mono by exact Hk. apply zsum_cong. intros i Hi. apply zsum_cong. intros j Hj.
  rewrite (A i Hi), (B j Hj). reflexivity.
Qed.
Lemma substituted_ext p n w f f' k : (forall i, (i < n)%nat -> cong p (f i) (f' i)) -> cong p (substituted n w f k) (substituted n w f' k).
Proof. intros A. rewrite !substituted_mono. apply zsum_cong. intros i Hi. rewrite (A i Hi). reflexivity. Qed.

Lemma odd_gcd L power : Z.odd power = true -> 0 < power -> Nat.gcd (Z.to_nat power) (2 ^ L) = 1%nat.
Proof.
  intros Ho Hp. destruct (Nat.gcd_divide_l (Z.to_nat power) (2 ^ L)) as [x Hx]. destruct (Nat.gcd_divide_r (Z.to_nat power) (2 ^ L)) as [y Hy].
  set (g := Nat.gcd (Z.to_nat power) (2 ^ L)) in *.
  assert (D : forall L' y' , (2 ^ L' = y' * g)%nat -> g = 1%nat).
  { assert (Og : Nat.odd g = true).
    { rewrite Zodd_even_bool in Ho. destruct (Nat.odd g) eqn:E; [reflexivity|]. exfalso. rewrite <- Nat.negb_even in E. apply negb_false_iff in E.
      apply Nat.even_spec in E. destruct E as [h Eh]. rewrite Eh in Hx.
      assert (power = 2 * Z.of_nat (x * h)) by lia. subst power. rewrite Z.even_mul in Ho. discriminate Ho. }
    induction L' as [|L' IH]; intros y' E; [cbn in E; destruct y' as [|[|?]], g as [|[|?]]; lia|].
    rewrite Nat.pow_succ_r' in E. assert (Ey : Nat.even y' = true).
    { destruct (Nat.even y') eqn:Ev; [reflexivity|]. exfalso. assert (A : Nat.odd (y' * g) = true) by (rewrite Nat.odd_mul, Og; unfold Nat.odd; rewrite Ev; reflexivity).
      rewrite <- E in A. rewrite Nat.odd_mul in A. discriminate A. }
    apply Nat.even_spec in Ey. destruct Ey as [h Eh]. apply (IH h). subst y'. lia. }
  exact (D L y Hy).
Qed.

Section Ctx.
Variables (p : mparams) (L : nat) (np : nttp).
Hypothesis C : ctx p L np.
Local Notation n := (2 ^ L)%nat.
Local Notation G := (proj1 C).

Lemma npos : (0 < n)%nat.
Proof. pose proof (Nat.pow_nonzero 2 L). lia. Qed.

Lemma inv_ok a : ntt_poly p L a -> exists v, inverse_ntt_poly p np a = Ok v /\ chold p n v (coeff p np a).
Proof.
  intros Ha. rewrite (inverse_holds p G L np _ (proj2 C) a _ (poly_holds p L np C a Ha)). eexists. split; [reflexivity|].
  destruct (import_reps p G L (coeff p np a)) as (Lv & Cv & Vv). cbv zeta in *. apply chold_intro; [exact Lv|].
  intros i Hi. split; [rewrite Forall_forall in Cv; apply Cv, nth_In; lia|]. rewrite Vv by exact Hi. apply cong_mod.
Qed.

Definition twin (a v : list Z) : Prop := ntt_poly p L a /\ chold p n v (coeff p np a).

Lemma twin_inv a v : twin a v -> inverse_ntt_poly p np a = Ok v.
Proof.
  intros [Ha Hv]. destruct (inv_ok a Ha) as (w & E & Hw). rewrite E. f_equal. eapply chold_eq; [exact G|exact Hw|exact Hv|]. reflexivity.
Qed.
Lemma inv_twin a v : ntt_poly p L a -> inverse_ntt_poly p np a = Ok v -> twin a v.
Proof. intros Ha E. destruct (inv_ok a Ha) as (w & E' & Hw). rewrite E in E'. injection E' as ->. split; assumption. Qed.

(** an NTT operation with the coefficients f and a coefficient operation with the coefficients f' *)
Lemma both r f r' f' : (exists c, r = Ok c /\ ntt_poly p L c /\ forall i, (i < n)%nat -> coeff p np c i = f i mod p_m p) ->
  (exists v, r' = Ok v /\ chold p n v f') -> (forall i, (i < n)%nat -> cong (p_m p) (f i) (f' i)) ->
  exists c v, r = Ok c /\ r' = Ok v /\ twin c v.
Proof.
  intros (c & E & Hc & V) (v & E' & [Hv Cv]) H. exists c, v. split; [exact E|]. split; [exact E'|]. split; [exact Hc|].
  split; [|exact Cv]. eapply holds_ext; [exact Hv|]. intros i Hi. rewrite V by exact Hi. rewrite cong_mod. symmetry. apply H, Hi.
Qed.

Lemma twin_add a v b w : twin a v -> twin b w -> exists c u, poly_add p a b = Ok c /\ cpoly_add p v w = Ok u /\ twin c u.
Proof.
  intros [Ha [Hv _]] [Hb [Hw _]]. eapply both; [apply (add_coeff p L np C a b Ha Hb)|apply (cadd_ok p G n _ _ _ _ Hv Hw)|]. reflexivity.
Qed.
Lemma twin_sub a v b w : twin a v -> twin b w -> exists c u, poly_sub p a b = Ok c /\ cpoly_sub p v w = Ok u /\ twin c u.
Proof.
  intros [Ha [Hv _]] [Hb [Hw _]]. eapply both; [apply (sub_coeff p L np C a b Ha Hb)|apply (csub_ok p G n _ _ _ _ Hv Hw)|]. reflexivity.
Qed.
Lemma twin_mul a v b w : twin a v -> twin b w -> exists c u, poly_mul p a b = Ok c /\ cpoly_mul p v w = Ok u /\ twin c u.
Proof.
  intros [Ha [Hv _]] [Hb [Hw _]]. eapply both; [apply (mul_coeff p L np C a b Ha Hb)|apply (cmul_ok p G n _ _ _ _ Hv Hw)|]. reflexivity.
Qed.
Lemma twin_scale a v s : twin a v -> stored p s -> exists c, poly_mul_scalar p a s = Ok c /\ twin c (cpoly_scale p v s).
Proof.
  intros [Ha [Hv _]] Hs.
  destruct (both _ _ (Ok (cpoly_scale p v s)) _ (mul_scalar_coeff p L np C a Ha s Hs)
              (ex_intro _ _ (conj eq_refl (cscale_ok p G n v _ s (export_int p s) Hv Hs ltac:(rewrite stored_val by (exact G || exact Hs); reflexivity)))))
    as (c & u & E & E' & T).
  - reflexivity.
  - injection E' as <-. exists c. split; assumption.
Qed.
Lemma twin_subst a v power : twin a v -> 0 < power < 2 * Z.of_nat n -> Z.odd power = true ->
  exists c u, poly_substitute np a power = Ok c /\ cpoly_substitute p v power = Ok u /\ twin c u.
Proof.
  intros [Ha [Hv _]] Hp Ho. eapply both; [apply (substitute_coeff p L np C a power Ha Hp Ho)| |].
  - apply (csubst_ok p G n v _ power Hv Hp Ho). apply odd_gcd; [exact Ho|lia].
  - reflexivity.
Qed.
Lemma twin_monomial a v b e : twin a v -> ntt_poly p L b -> 0 <= e < 2 * Z.of_nat n ->
  (forall i, (i < n)%nat -> cong (p_m p) (coeff p np b i) (xpow n (Z.to_nat e) i)) ->
  exists c u, poly_mul p a b = Ok c /\ cpoly_monomial p v e = Ok u /\ twin c u.
Proof.
  intros [Ha [Hv _]] Hb He Hx. eapply both; [apply (mul_coeff p L np C a b Ha Hb)|apply (cmonomial_ok p G n v _ e Hv He)|].
  intros i Hi. apply nega_ext; [exact Hi|reflexivity|]. intros j Hj. rewrite Hx by exact Hj. rewrite xpow_mono by lia. reflexivity.
Qed.

(** ** Lists of components *)
Lemma list_twin c : Forall (ntt_poly p L) c -> exists vs, Forall2 twin c vs.
Proof.
  induction 1 as [|a c Ha _ [vs IH]]; [exists []; constructor|]. destruct (inv_ok a Ha) as (v & E & Hv). exists (v :: vs).
  constructor; [split; assumption|exact IH].
Qed.
Lemma twin_ntt c vs : Forall2 twin c vs -> Forall (ntt_poly p L) c.
Proof. induction 1 as [|a v c vs [Ha _] _ IH]; constructor; assumption. Qed.
Lemma twin_len c vs : Forall2 twin c vs -> length c = length vs.
Proof. induction 1; cbn; congruence. Qed.
Lemma seqr_inv_ok c vs : Forall2 twin c vs -> seqr (map (inverse_ntt_poly p np) c) = Ok vs.
Proof.
  induction 1 as [|a v c vs T _ IH]; cbn [map seqr]; [reflexivity|]. rewrite (twin_inv a v T). cbn [bind]. rewrite IH. reflexivity.
Qed.
Lemma seqr_twin (f g : list Z -> result (list Z)) c vs : Forall2 twin c vs ->
  (forall a v, twin a v -> exists a' v', f a = Ok a' /\ g v = Ok v' /\ twin a' v') ->
  exists c' vs', seqr (map f c) = Ok c' /\ seqr (map g vs) = Ok vs' /\ Forall2 twin c' vs'.
Proof.
  intros F H. induction F as [|a v c vs T _ (c' & vs' & E1 & E2 & F')]; [exists [], []; repeat split; constructor|].
  destruct (H a v T) as (a' & v' & A & B & T'). exists (a' :: c'), (v' :: vs'). cbn [map seqr]. rewrite A, B. cbn [bind].
  rewrite E1, E2. repeat split. constructor; assumption.
Qed.

Lemma add_into_twin c vs : Forall2 twin c vs -> forall d ws, Forall2 twin d ws -> (length d <= length c)%nat ->
  exists e us, zip_into (poly_add p) c d = Ok e /\ cct_add_into p vs ws = Ok us /\ Forall2 twin e us.
Proof.
  induction 1 as [|a v c vs T F IH]; intros d ws D Hl.
  - destruct D as [|b w d ws]; [|cbn in Hl; lia]. exists [], []. repeat split. constructor.
  - destruct D as [|b w d ws T' D]; [exists (a :: c), (v :: vs); repeat split; constructor; assumption|].
    cbn [length] in Hl. destruct (IH d ws D ltac:(lia)) as (e & us & E1 & E2 & F').
    destruct (twin_add a v b w T T') as (x & y & A & B & T''). exists (x :: e), (y :: us). cbn [zip_into cct_add_into].
    rewrite A, B. cbn [bind]. rewrite E1, E2. repeat split. constructor; assumption.
Qed.

Lemma cadd_comm v w f g : chold p n v f -> chold p n w g -> cpoly_add p v w = cpoly_add p w v.
Proof.
  intros [Hv _] [Hw _]. destruct (cadd_ok p G n v w f g Hv Hw) as (x & Ex & Hx). destruct (cadd_ok p G n w v g f Hw Hv) as (y & Ey & Hy).
  rewrite Ex, Ey. f_equal. eapply chold_eq; [exact G|exact Hx|exact Hy|]. intros i _. apply cong_eq. ring.
Qed.

Lemma zeros_into d ws z : Forall2 twin d ws -> ntt_poly p L z -> (forall i, (i < n)%nat -> coeff p np z i = 0) ->
  exists e, zip_into (poly_add p) (repeat z (length d)) d = Ok e /\ Forall2 twin e ws.
Proof.
  intros D Hz Vz. induction D as [|b w d ws T D (e & E & F)]; [exists []; split; [reflexivity|constructor]|].
  cbn [length repeat zip_into]. destruct (add_coeff p L np C z b Hz (proj1 T)) as (x & Ex & Nx & Vx). rewrite Ex. cbn [bind]. rewrite E.
  exists (x :: e). split; [reflexivity|]. constructor; [|exact F]. split; [exact Nx|]. destruct T as [_ [Hw Cw]]. split; [|exact Cw].
  eapply holds_ext; [exact Hw|]. intros i Hi. rewrite Vx, Vz by exact Hi. cbn [Z.add]. rewrite cong_mod. reflexivity.
Qed.

Lemma pad_into_twin z : ntt_poly p L z -> (forall i, (i < n)%nat -> coeff p np z i = 0) ->
  forall c vs, Forall2 twin c vs -> forall d ws, Forall2 twin d ws -> (length c <= length d)%nat ->
  exists e us, zip_into (poly_add p) (c ++ repeat z (length d - length c)) d = Ok e /\ cct_add_into p ws vs = Ok us /\ Forall2 twin e us.
Proof.
  intros Hz Vz c vs. induction 1 as [|a v c vs T F IH]; intros d ws D Hl.
  - cbn [length app]. rewrite Nat.sub_0_r. destruct (zeros_into d ws z D Hz Vz) as (e & E & F). exists e, ws. split; [exact E|].
    split; [destruct ws; reflexivity|exact F].
  - destruct D as [|b w d ws T' D]; [cbn in Hl; lia|]. cbn [length] in Hl |- *. cbn [Nat.sub].
    destruct (IH d ws D ltac:(lia)) as (e & us & E1 & E2 & F').
    destruct (twin_add a v b w T T') as (x & y & A & B & T''). exists (x :: e), (y :: us). cbn [app zip_into cct_add_into].
    rewrite A. rewrite (cadd_comm w v _ _ (proj2 T') (proj2 T)), B. cbn [bind]. rewrite E1, E2. repeat split. constructor; assumption.
Qed.

Lemma zero_poly : exists z, poly_zero p n = Ok z /\ ntt_poly p L z /\ forall i, (i < n)%nat -> coeff p np z i = 0.
Proof.
  pose proof npos. exists (repeat (import_zero p) n).
  split; [unfold poly_zero, poly_of; destruct n; [lia|reflexivity]|].
  destruct (mk_result p L np C (repeat (import_zero p) n) (fun _ => 0) (fun _ => 0) (zero_holds p G n)) as [P V].
  { intros j Hj. rewrite ev_zero. reflexivity. }
  split; [exact P|]. intros i Hi. rewrite V by exact Hi. apply Z.mod_0_l. pose proof (m_gt1 p G). lia.
Qed.

Lemma zip_nonnil f c b d : zip_into f c (b :: d) <> Ok [].
Proof.
  destruct c as [|h t]; cbn [zip_into]; [discriminate|]. destruct (f h b); cbn [bind]; [|discriminate..].
  destruct (zip_into f t d); discriminate.
Qed.

(** ** Ciphertexts *)
Definition cct_twin (x : ct) (u : cct) : Prop :=
  ct_p x = p /\ cc_p u = p /\ cc_pow u = ct_pow x /\ cc_c u <> [] /\ Forall2 twin (ct_c x) (cc_c u).

Lemma cct_of_ok x : ct_p x = p -> ct_c x <> [] -> Forall (ntt_poly p L) (ct_c x) ->
  exists u, cct_of np x = Ok u /\ cct_twin x u.
Proof.
  intros E N F. destruct (list_twin _ F) as (vs & T). unfold cct_of. rewrite E, (seqr_inv_ok _ _ T). cbn [bind].
  destruct vs as [|v vs]; [pose proof (twin_len _ _ T); destruct (ct_c x); [contradiction|discriminate]|].
  eexists. split; [reflexivity|]. repeat split; cbn [cc_c cc_p cc_pow]; try assumption. discriminate.
Qed.

Lemma cct_of_twin x u : cct_twin x u -> cct_of np x = Ok u.
Proof.
  intros (E & Eu & Ep & N & T). unfold cct_of. rewrite E, (seqr_inv_ok _ _ T). cbn [bind]. unfold cct_make.
  destruct u as [up uc upow]; cbn [cc_c cc_p cc_pow] in *. subst. destruct uc; [contradiction|reflexivity].
Qed.

Lemma add_ct x u y v : cct_twin x u -> cct_twin y v -> cct_add u v = (do! z <- ct_add x y; cct_of np z).
Proof.
  intros (E & Eu & Ep & N & T) (E' & Eu' & Ep' & N' & T'). unfold cct_add, ct_add. rewrite Ep, Ep'.
  destruct (ct_pow x =? ct_pow y); cbn [negb]; [|reflexivity].
  pose proof (twin_len _ _ T) as Lx. pose proof (twin_len _ _ T') as Ly. rewrite <- Lx, <- Ly. unfold pad_to. rewrite E, Eu, Eu'.
  assert (K : forall e us, Forall2 twin e us -> us <> [] -> cct_make p us (ct_pow x) = cct_of np (with_c x e)).
  { intros e us Te Nu. unfold cct_of. cbn [with_c ct_p ct_c ct_pow]. rewrite E, (seqr_inv_ok _ _ Te). reflexivity. }
  unfold poly in *. match goal with |- context [Nat.ltb ?a ?b] => destruct (Nat.ltb_spec a b) as [Hl|Hl] end.
  - destruct zero_poly as (z & Ez & Nz & Vz).
    assert (G0 : exists d0, get (ct_c y) 0 = Ok d0 /\ length d0 = n).
    { destruct (ct_c y) as [|b d] in T', Hl |- *; [cbn in Hl; lia|]. inversion T' as [|? ? ? ? Tb]; subst. exists b. split; [reflexivity|]. apply (proj1 Tb). }
    unfold poly in *. destruct G0 as (d0 & -> & Ld). cbn [bind]. rewrite Ld, Ez. cbn [bind].
    destruct (pad_into_twin z Nz Vz _ _ T _ _ T' (Nat.lt_le_incl _ _ Hl)) as (e & us & E1 & E2 & Te). unfold poly in *. rewrite E1, E2. cbn [bind].
    apply K; [exact Te|]. destruct us; [|discriminate]. apply twin_len in Te. destruct e; [|discriminate].
    exfalso. destruct (ct_c y) as [|b d] in E1, Hl; [cbn in Hl; lia|].
    exact (zip_nonnil _ _ _ _ E1).
  - cbn [bind]. destruct (add_into_twin _ _ T _ _ T' Hl) as (e & us & E1 & E2 & Te). rewrite E1, E2. cbn [bind].
    apply K; [exact Te|]. intros ->. revert E2. destruct (cc_c v) as [|w ws], (cc_c u) as [|w' us']; try contradiction.
    cbn [cct_add_into]. destruct (cpoly_add p w' w); cbn [bind]; [|discriminate..]. destruct (cct_add_into p us' ws); discriminate.
Qed.

Lemma absorb_ct x u b e : cct_twin x u -> ntt_poly p L b -> 0 <= e < 2 * Z.of_nat n ->
  (forall i, (i < n)%nat -> cong (p_m p) (coeff p np b i) (xpow n (Z.to_nat e) i)) ->
  cct_monomial u e = (do! z <- ct_absorb x b; cct_of np z).
Proof.
  intros (E & Eu & Ep & N & T) Hb He Hx. unfold cct_monomial, ct_absorb. rewrite E, Eu.
  destruct (seqr_twin (fun a => poly_mul p a b) (fun a => cpoly_monomial p a e) _ _ T) as (c & vs & E1 & E2 & T').
  { intros a v Tav. apply twin_monomial; assumption. }
  unfold poly in *. rewrite E1, E2. cbn [bind]. unfold cct_of. cbn [with_c ct_p ct_c ct_pow]. rewrite E, (seqr_inv_ok _ _ T'), Ep. reflexivity.
Qed.

Lemma subst_rejects a v power : twin a v -> ~ (0 < power < 2 * Z.of_nat n /\ Z.odd power = true) ->
  poly_substitute np a power = Err InvalidArgument /\ cpoly_substitute p v power = Err InvalidArgument.
Proof.
  intros [[La _] [Hv _]] H. pose proof (holds_len _ _ _ _ Hv) as Lv.
  assert (D : power < 0 \/ Z.even power = true \/ 2 * Z.of_nat n <= power).
  { destruct (Z_lt_dec power 0) as [|P0]; [left; assumption|]. destruct (Z.even power) eqn:Ev; [right; left; reflexivity|].
    right. right. destruct (Z_le_dec (2 * Z.of_nat n) power) as [|P1]; [assumption|]. exfalso. apply H. split.
    - destruct (Z.eq_dec power 0) as [->|]; [discriminate Ev|]. lia.
    - rewrite Zodd_even_bool, Ev. reflexivity. }
  split.
  - apply substitute_rejects. rewrite La. exact D.
  - unfold cpoly_substitute. rewrite Lv, Z.gtb_ltb, Z.geb_leb. destruct D as [D|[D|D]].
    + destruct (Z.ltb_spec power 0); [reflexivity|lia].
    + apply Z.even_spec in D. destruct D as [h ->]. rewrite Z.mul_comm, Z.rem_mul by lia. rewrite Z.eqb_refl, orb_true_r. reflexivity.
    + destruct (Z.leb_spec (2 * Z.of_nat n) power); [|lia]. rewrite orb_true_r. reflexivity.
Qed.

Lemma subst_ct x u power : cct_twin x u -> cct_substitute u power = (do! z <- ct_substitute np power x; cct_of np z).
Proof.
  intros (E & Eu & Ep & N & T). unfold cct_substitute, ct_substitute. rewrite E, Eu, Ep.
  assert (D : (0 < power < 2 * Z.of_nat n /\ Z.odd power = true) \/ ~ (0 < power < 2 * Z.of_nat n /\ Z.odd power = true)).
  { destruct (Z_lt_dec 0 power) as [Q1|Q1], (Z_lt_dec power (2 * Z.of_nat n)) as [Q2|Q2], (Z.odd power) eqn:Ev; try (right; intros [[? ?] ?]; (lia || congruence)).
    left. repeat split; assumption. }
  destruct D as [[Hp Ho]|D].
  - destruct (seqr_twin (fun a => poly_substitute np a power) (fun a => cpoly_substitute p a power) _ _ T) as (c & vs & E1 & E2 & T').
    { intros a v Tav. apply twin_subst; assumption. }
    unfold poly in *. rewrite E1, E2. cbn [bind].
    assert (G0 : exists a v, get (ct_c x) 0 = Ok a /\ get (cc_c u) 0 = Ok v /\ length a = length v).
    { destruct (cc_c u) as [|v ws] in T, N |- *; [contradiction|]. destruct (ct_c x) as [|a c0] in T |- *; inversion T as [|? ? ? ? Tb]; subst. exists a, v. split; [reflexivity|]. split; [reflexivity|].
      destruct Tb as [[La _] [Hv _]]. apply holds_len in Hv. congruence. }
    unfold poly in *. destruct G0 as (a & v & -> & -> & Lv). cbn [bind]. rewrite Lv.
    destruct ((ct_pow x * power <? - 2 ^ 31) || (2 ^ 31 <=? ct_pow x * power)); [reflexivity|].
    destruct (2 * length v =? 0)%nat; [reflexivity|]. cbn [bind]. unfold cct_of. cbn [ct_make ct_p ct_c ct_pow].
    rewrite (seqr_inv_ok _ _ T'). reflexivity.
  - destruct (cc_c u) as [|v ws] in T, N |- *; [contradiction|]. destruct (ct_c x) as [|a c0] in T |- *; inversion T as [|? ? ? ? Tb]; subst. destruct (subst_rejects a v power Tb D) as [A B].
    cbn [map seqr]. rewrite A, B. reflexivity.
Qed.

Lemma to_ntt_ok x u : cct_twin x u -> exists y, cct_to_ntt np u = Ok y /\ ct_p y = p /\ ct_pow y = ct_pow x /\
  length (ct_c y) = length (ct_c x) /\ Forall (ntt_poly p L) (ct_c y) /\
  forall i k, (i < length (ct_c x))%nat -> (k < n)%nat -> component np y i k = component np x i k.
Proof.
  intros (E & Eu & Ep & N & T). unfold cct_to_ntt. rewrite Eu, Ep.
  assert (K : exists c, seqr (map (convert_to_ntt p np) (cc_c u)) = Ok c /\ length c = length (ct_c x) /\ Forall (ntt_poly p L) c /\
    forall i k, (i < length (ct_c x))%nat -> (k < n)%nat -> coeff p np (nth i c []) k = coeff p np (nth i (ct_c x) []) k).
  { clear -T C. induction T as [|a v c vs [Ha [Hv Cv]] _ (c' & E' & L' & F' & V')].
    - exists []. split; [reflexivity|]. split; [reflexivity|]. split; [constructor|]. cbn. intros; lia.
    - destruct (convert_coeff p L np C v (holds_len _ _ _ _ Hv) (holds_reps _ _ _ _ Hv)) as (b & Eb & Nb & Vb).
      cbn [map seqr]. rewrite Eb. cbn [bind]. rewrite E'. exists (b :: c'). split; [reflexivity|]. split; [cbn; congruence|].
      split; [constructor; assumption|]. intros [|i] k Hi Hk; cbn [nth]; [|apply V'; [cbn in Hi; lia|exact Hk]].
      rewrite Vb by exact Hk. assert (R : stored p (nth k v 0)) by (apply (holds_rep _ _ _ _ _ Hv Hk)).
      rewrite stored_val by (exact G || exact R). pose proof (coeff_range p L np C a k Ha Hk) as B.
      symmetry. apply cong_reduced; [exact B|]. symmetry. apply (holds_val _ _ _ _ _ Hv Hk). }
  destruct K as (c & Ec & Lc & Fc & Vc). rewrite Ec. cbn [bind]. eexists. split; [reflexivity|]. cbn [ct_make ct_p ct_c ct_pow].
  repeat split; try assumption. intros i k Hi Hk. unfold component. cbn [ct_make ct_p ct_c]. rewrite E. apply Vc; assumption.
Qed.
End Ctx.

(** decryption depends on the coefficients of the components only *)
Lemma decrypt_components k q L t key x y : key_ok k q L t key -> ct_ok L key x -> ct_ok L key y -> length (ct_c y) = length (ct_c x) ->
  (forall i j, (i < length (ct_c x))%nat -> (j < 2 ^ L)%nat -> component (sk_np key) y i j = component (sk_np key) x i j) ->
  decrypt key y = decrypt key x.
Proof.
  intros K Hx Hy El V. unfold decrypt.
  set (f := phase (2 ^ L) (secret key) (length (ct_c x)) (component (sk_np key) x)).
  rewrite (extract_carries k q L t key K x f Hx), (extract_carries k q L t key K y f Hy); [reflexivity| |].
  - intros i Hi. apply cong_eq. unfold f, phase. rewrite El. apply zsum_ext. intros j Hj. rewrite !negacyclic_mono by exact Hi.
    apply zsum_ext. intros a Ha. apply zsum_ext. intros b Hb. rewrite V by assumption. reflexivity.
  - intros i Hi. reflexivity.
Qed.
