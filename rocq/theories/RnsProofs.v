(** Facts about whole RNS polynomials: the loops over the moduli. *)
From Coq Require Import Znumtheory.
From Verif Require Import Base FinSum PolySpec Ring Montgomery MontBatch Ntt Poly PolyExt MontgomeryProofs
  MontBatchProofs Spec PolyView ArithFacts NttFacts NttProofs PolyProofs PolyFacts
  RnsPoly RnsSpec CrtMath RnsSub.

(** ** Lists *)

Lemma each_ok {A B C} (P : A -> B -> Prop) (Q : A -> C -> Prop) (g : A -> B -> result C) ms vs :
  Forall2 P ms vs -> (forall m v, In m ms -> P m v -> exists w, g m v = Ok w /\ Q m w) ->
  exists ws, seqr (map2 g ms vs) = Ok ws /\ Forall2 Q ms ws.
Proof.
  induction 1 as [|m v ms vs H F IH]; intros G.
  - exists []. split; [reflexivity|constructor].
  - destruct (G m v (or_introl eq_refl) H) as (w & E & Hw).
    destruct IH as (ws & Es & Hws). { intros m' v' I. apply G. right. exact I. }
    exists (w :: ws). split; [cbn [map2 seqr]; rewrite E; cbn [bind]; rewrite Es; reflexivity|constructor; assumption].
Qed.

Lemma map_ok {A C} (Q : A -> C -> Prop) (g : A -> result C) ms :
  (forall m, In m ms -> exists w, g m = Ok w /\ Q m w) ->
  exists ws, seqr (map g ms) = Ok ws /\ Forall2 Q ms ws.
Proof.
  induction ms as [|m ms IH]; intros G.
  - exists []. split; [reflexivity|constructor].
  - destruct (G m (or_introl eq_refl)) as (w & E & Hw).
    destruct IH as (ws & Es & Hws). { intros m' I. apply G. right. exact I. }
    exists (w :: ws). split; [cbn [map seqr]; rewrite E; cbn [bind]; rewrite Es; reflexivity|constructor; assumption].
Qed.

Lemma map2_forall {A B C} (P : A -> B -> Prop) (Q : A -> C -> Prop) (g : A -> B -> C) ms vs :
  Forall2 P ms vs -> (forall m v, In m ms -> P m v -> Q m (g m v)) -> Forall2 Q ms (map2 g ms vs).
Proof.
  induction 1 as [|m v ms vs H F IH]; intros G; cbn [map2]; constructor.
  - apply G; [left; reflexivity|exact H].
  - apply IH. intros m' v' I. apply G. right. exact I.
Qed.

Lemma map_forall {A C} (Q : A -> C -> Prop) (g : A -> C) ms :
  (forall m, In m ms -> Q m (g m)) -> Forall2 Q ms (map g ms).
Proof.
  induction ms as [|m ms IH]; intros G; cbn [map]; constructor.
  - apply G. left. reflexivity.
  - apply IH. intros m' I. apply G. right. exact I.
Qed.

Lemma Forall2_combine {A B C} (P : A -> B -> Prop) (Q : A -> C -> Prop) ms vs : forall ws,
  Forall2 P ms vs -> Forall2 Q ms ws -> Forall2 (fun m vw => P m (fst vw) /\ Q m (snd vw)) ms (combine vs ws).
Proof.
  intros ws H. revert ws. induction H as [|m v ms vs H F IH]; intros ws G; inversion G; subst; cbn [combine]; constructor.
  - split; assumption.
  - apply IH. assumption.
Qed.

Lemma Forall2_imp {A B} (P Q : A -> B -> Prop) ms vs :
  Forall2 P ms vs -> (forall m v, In m ms -> P m v -> Q m v) -> Forall2 Q ms vs.
Proof.
  induction 1 as [|m v ms vs H F IH]; intros G; constructor.
  - apply G; [left; reflexivity|exact H].
  - apply IH. intros m' v' I. apply G. right. exact I.
Qed.

Lemma Forall2_len {A B} (P : A -> B -> Prop) l1 l2 : Forall2 P l1 l2 -> length l1 = length l2.
Proof. induction 1; cbn; congruence. Qed.

Lemma same_len_eq {A B} (a : list A) (b : list B) : length a = length b -> negb (same_len a b) = false.
Proof. intros H. rewrite (proj2 (same_len_spec a b) H). reflexivity. Qed.

Lemma same_len_neq {A B} (a : list A) (b : list B) : length a <> length b -> negb (same_len a b) = true.
Proof. intros H. destruct (same_len a b) eqn:E; [apply same_len_spec in E; contradiction|reflexivity]. Qed.

Lemma moduli_in k L ms m : moduli_ok k L ms -> In m ms -> mod_ok k L m.
Proof. intros H. apply (proj1 (Forall_forall _ _) H). Qed.

(** ** Arithmetic *)

Section Ops.
Variables (k : Z) (L : nat) (ms : list pmod).
Hypothesis OK : moduli_ok k L ms.
Local Notation n := (2 ^ L)%nat.

Lemma rns_len ntt a f : rns_is ms L ntt a f -> length ms = length (rp_vs a).
Proof. intros (_ & _ & H). eapply Forall2_len; eauto. Qed.

Lemma rns_ext ntt a f g : rns_is ms L ntt a f ->
  (forall m i, In m ms -> (i < n)%nat -> cong (modulus m) (f i) (g i)) -> rns_is ms L ntt a g.
Proof.
  intros (El & En & H) E. split; [exact El|]. split; [exact En|].
  eapply Forall2_imp; [exact H|]. intros m v I Hv. cbv beta in *.
  apply (sub_ext k L m (moduli_in _ _ _ _ OK I) ntt v f g Hv). intros i Hi. apply E; assumption.
Qed.

Lemma is_rns_ext ntt r f g : is_rns ms L ntt r f ->
  (forall m i, In m ms -> (i < n)%nat -> cong (modulus m) (f i) (g i)) -> is_rns ms L ntt r g.
Proof. intros (c & E & H) X. exists c. split; [exact E|]. eapply rns_ext; eauto. Qed.

Lemma rns_ext_eq ntt a f g : rns_is ms L ntt a f -> (forall i, (i < n)%nat -> f i = g i) -> rns_is ms L ntt a g.
Proof. intros H E. eapply rns_ext; [exact H|]. intros m i _ Hi. rewrite (E i Hi). reflexivity. Qed.

Lemma rns_each2 (op : mparams -> list Z -> list Z -> result (list Z)) (zop : (nat -> Z) -> (nat -> Z) -> nat -> Z) ntt a b f g :
  (forall m v w, mod_ok k L m -> sub_is m L ntt v f -> sub_is m L ntt w g ->
     exists r, op (pm_p m) v w = Ok r /\ sub_is m L ntt r (zop f g)) ->
  rns_is ms L ntt a f -> rns_is ms L ntt b g ->
  exists vs, each2 op ms (rp_vs a) (rp_vs b) = Ok vs /\ rns_is ms L ntt (with_vs a vs) (zop f g).
Proof.
  intros Hop (La & Na & Ha) (Lb & Nb & Hb). unfold each2.
  destruct (each_ok _ (fun m r => sub_is m L ntt r (zop f g))
    (fun m vw => op (pm_p m) (fst vw) (snd vw)) _ _ (Forall2_combine _ _ _ _ _ Ha Hb)) as (vs & E & H).
  { intros m [v w] I [Hv Hw]. cbn [fst snd] in *. apply Hop; try assumption. eapply moduli_in; eauto. }
  exists vs. split; [exact E|]. split; [exact La|]. split; [exact Na|]. exact H.
Qed.

Lemma rns_add_is ntt a b f g : rns_is ms L ntt a f -> rns_is ms L ntt b g ->
  is_rns ms L ntt (rns_add a b ms) (fun i => f i + g i).
Proof.
  intros Ha Hb. pose proof (rns_len _ _ _ Ha) as Ea. pose proof (rns_len _ _ _ Hb) as Eb. unfold rns_add.
  rewrite !same_len_eq by congruence.
  destruct (rns_each2 batch_add (fun f g i => f i + g i) ntt a b f g) as (vs & E & H); try assumption.
  - intros m v w O Hv Hw. apply (sub_add k L m O ntt v w f g Hv Hw).
  - rewrite E. cbn [bind]. eexists. split; [reflexivity|exact H].
Qed.

Lemma rns_sub_is ntt a b f g : rns_is ms L ntt a f -> rns_is ms L ntt b g ->
  is_rns ms L ntt (rns_sub a b ms) (fun i => f i - g i).
Proof.
  intros Ha Hb. pose proof (rns_len _ _ _ Ha) as Ea. pose proof (rns_len _ _ _ Hb) as Eb. unfold rns_sub.
  rewrite !same_len_eq by congruence.
  destruct (rns_each2 batch_sub (fun f g i => f i - g i) ntt a b f g) as (vs & E & H); try assumption.
  - intros m v w O Hv Hw. apply (sub_sub k L m O ntt v w f g Hv Hw).
  - rewrite E. cbn [bind]. eexists. split; [reflexivity|exact H].
Qed.

Lemma rns_mul_is a b f g : rns_is ms L true a f -> rns_is ms L true b g ->
  is_rns ms L true (rns_mul a b ms) (negacyclic n f g).
Proof.
  intros Ha Hb. pose proof (rns_len _ _ _ Ha) as Ea. pose proof (rns_len _ _ _ Hb) as Eb. unfold rns_mul.
  rewrite !same_len_eq by congruence.
  pose proof Ha as (_ & -> & _). pose proof Hb as (_ & -> & _). cbn [negb].
  destruct (rns_each2 batch_mul (fun f g => negacyclic n f g) true a b f g) as (vs & E & H); try assumption.
  - intros m v w O Hv Hw. apply (sub_mul k L m O v w f g Hv Hw).
  - rewrite E. cbn [bind]. eexists. split; [reflexivity|exact H].
Qed.

Lemma rns_neg_is ntt a f : rns_is ms L ntt a f ->
  is_rns ms L ntt (rns_neg_in_place a ms) (fun i => - f i).
Proof.
  intros Ha. pose proof (rns_len _ _ _ Ha) as Ea. unfold rns_neg_in_place. rewrite same_len_eq by congruence.
  eexists. split; [reflexivity|]. destruct Ha as (E1 & E2 & H). split; [exact E1|]. split; [exact E2|].
  cbn [rp_vs with_vs]. eapply map2_forall; [exact H|]. intros m v I Hv. cbv beta in *.
  apply (sub_neg k L m (moduli_in _ _ _ _ OK I) ntt v f Hv).
Qed.

Lemma rns_neg_copy ntt a f : rns_is ms L ntt a f -> is_rns ms L ntt (rns_neg a ms) (fun i => - f i).
Proof. intros H. destruct (rns_neg_is ntt a f H) as (c & E & Hc). unfold rns_neg. rewrite E. exists c. auto. Qed.

Lemma rns_each (op : pmod -> list Z -> result (list Z)) ntt ntt' a f g :
  (forall m v, mod_ok k L m -> sub_is m L ntt v f -> exists r, op m v = Ok r /\ sub_is m L ntt' r g) ->
  rns_is ms L ntt a f ->
  exists vs, seqr (map2 op ms (rp_vs a)) = Ok vs /\
    rns_is ms L ntt' {| rp_logn := rp_logn a; rp_vs := vs; rp_ntt := ntt' |} g.
Proof.
  intros Hop (La & Na & Ha).
  destruct (each_ok _ (fun m r => sub_is m L ntt' r g) op _ _ Ha) as (vs & E & H).
  { intros m v I Hv. apply Hop; try assumption. eapply moduli_in; eauto. }
  exists vs. split; [exact E|]. split; [exact La|]. split; [reflexivity|exact H].
Qed.

Lemma rns_mul_scalar_is ntt a f s : rns_is ms L ntt a f -> 0 <= s < 2 ^ k ->
  is_rns ms L ntt (rns_mul_scalar a s ms) (fun i => s * f i).
Proof.
  intros Ha Hs. pose proof (rns_len _ _ _ Ha) as Ea. unfold rns_mul_scalar. rewrite same_len_eq by congruence.
  unfold each.
  destruct (rns_each (fun m v => batch_mul_scalar (pm_p m) v (import_int (pm_p m) s)) ntt ntt a f (fun i => s * f i))
    as (vs & E & H); try assumption.
  - intros m v O Hv. apply (sub_scale k L m O ntt v f _ s Hv). apply (residue_import k L m O s Hs).
  - rewrite E. cbn [bind]. eexists. split; [reflexivity|]. destruct Ha as (E1 & E2 & Ha).
    destruct H as (F1 & F2 & F3). split; [exact E1|]. split; [exact E2|exact F3].
Qed.

(** multiplication by residues that depend on the modulus *)
Lemma rns_mul_words ntt a f zs (c : pmod -> Z) g : rns_is ms L ntt a f ->
  Forall2 (fun m w => residue m w (c m)) ms zs ->
  (forall m i, In m ms -> (i < n)%nat -> cong (modulus m) (c m * f i) (g i)) ->
  is_rns ms L ntt (rns_mul_rnsint a zs ms) g.
Proof.
  intros Ha Hz Hg. pose proof (rns_len _ _ _ Ha) as Ea. pose proof (Forall2_len _ _ _ Hz) as Ez.
  unfold rns_mul_rnsint. rewrite !same_len_eq by congruence. destruct Ha as (E1 & E2 & Ha).
  destruct (each_ok _ (fun m r => sub_is m L ntt r g)
    (fun m vz => batch_mul_scalar (pm_p m) (fst vz) (snd vz)) _ _ (Forall2_combine _ _ _ _ _ Ha Hz)) as (vs & E & H).
  - intros m [v w] I [Hv Hw]. cbn [fst snd] in *. pose proof (moduli_in _ _ _ _ OK I) as O.
    destruct (sub_scale k L m O ntt v f w (c m) Hv Hw) as (r & Er & Hr). exists r. split; [exact Er|].
    apply (sub_ext k L m O ntt r _ g Hr). intros i Hi. apply Hg; assumption.
  - rewrite E. cbn [bind]. eexists. split; [reflexivity|]. split; [exact E1|]. split; [exact E2|exact H].
Qed.

Lemma rns_mul_rnsint_is ntt a f zs s : rns_is ms L ntt a f -> residues ms zs s ->
  is_rns ms L ntt (rns_mul_rnsint a zs ms) (fun i => s * f i).
Proof.
  intros Ha Hz. apply (rns_mul_words ntt a f zs (fun _ => s)); try assumption. reflexivity.
Qed.

Lemma rns_fused_is x a b h f g : k <> 16 -> rns_is ms L true x h -> rns_is ms L true a f -> rns_is ms L true b g ->
  is_rns ms L true (rns_fused_mul_add x a b ms) (fun i => h i + negacyclic n f g i).
Proof.
  intros Hk Hx Ha Hb. pose proof (rns_len _ _ _ Ha) as Ea. pose proof (rns_len _ _ _ Hb) as Eb.
  pose proof (rns_len _ _ _ Hx) as Ex. unfold rns_fused_mul_add. rewrite !same_len_eq by congruence.
  destruct Hx as (X1 & X2 & Hx). destruct Ha as (A1 & A2 & Ha). destruct Hb as (B1 & B2 & Hb).
  rewrite X2, A2, B2. cbn [negb].
  destruct (each_ok _ (fun m r => sub_is m L true r (fun i => h i + negacyclic n f g i))
    (fun m xab => batch_fused_mul_add (pm_p m) (fst xab) (fst (snd xab)) (snd (snd xab))) _ _
    (Forall2_combine _ _ _ _ _ Hx (Forall2_combine _ _ _ _ _ Ha Hb))) as (vs & E & H).
  - intros m [u [v w]] I [Hu [Hv Hw]]. cbn [fst snd] in *.
    apply (sub_fused k L m (moduli_in _ _ _ _ OK I)); assumption.
  - rewrite E. cbn [bind]. eexists. split; [reflexivity|]. split; [exact X1|]. split; [exact X2|exact H].
Qed.

(** ** Forms, constants, substitution *)

Lemma rns_to_ntt_is a f : rns_is ms L false a f -> is_rns ms L true (rns_to_ntt a ms) f.
Proof.
  intros Ha. pose proof (rns_len _ _ _ Ha) as Ea. unfold rns_to_ntt. pose proof Ha as (_ & -> & _).
  rewrite same_len_eq by congruence.
  destruct (rns_each (fun m v => forward_ntt (pm_p m) (pm_np m) v) false true a f f) as (vs & E & H); try assumption.
  - intros m v O Hv. apply (sub_forward k L m O v f Hv).
  - rewrite E. cbn [bind]. eexists. split; [reflexivity|exact H].
Qed.

Lemma rns_to_coeff_is a f : rns_is ms L true a f -> is_rns ms L false (rns_to_coeff a ms) f.
Proof.
  intros Ha. pose proof (rns_len _ _ _ Ha) as Ea. unfold rns_to_coeff. pose proof Ha as (_ & -> & _). cbn [negb].
  rewrite same_len_eq by congruence.
  destruct (rns_each (fun m v => inverse_ntt (pm_p m) (pm_np m) v) true false a f f) as (vs & E & H); try assumption.
  - intros m v O Hv. apply (sub_inverse k L m O v f Hv).
  - rewrite E. cbn [bind]. eexists. split; [reflexivity|exact H].
Qed.

Lemma ok_L : ms <> [] -> (1 <= L <= 15)%nat.
Proof.
  intros H. destruct ms as [|m t]; [contradiction|]. pose proof (moduli_in _ _ _ m OK (or_introl eq_refl)) as O.
  destruct O as [_ [_ E]]. unfold init_ntt, max_log_num_coeffs in E.
  destruct (Z.leb_spec (Z.of_nat L) 0); [discriminate|]. destruct (Z.ltb_spec 15 (Z.of_nat L)); [discriminate|]. lia.
Qed.

Lemma shl_int_ok : ms <> [] -> shl_int (Z.of_nat L) = Ok n.
Proof.
  intros H. apply ok_L in H. unfold shl_int. destruct (Z.leb_spec 31 (Z.of_nat L)); [lia|].
  rewrite Nat2Z.id. reflexivity.
Qed.

Lemma rns_zero_is ntt : ms <> [] -> is_rns ms L ntt (rns_zero (Z.of_nat L) ms ntt) (fun _ => 0).
Proof.
  intros H. pose proof (ok_L H). pose proof (shl_int_ok H) as E. unfold rns_zero.
  destruct (Z.leb_spec (Z.of_nat L) 0); [lia|].
  destruct ms as [|m0 t] eqn:Em; [contradiction|]. rewrite E. cbn [bind]. rewrite Nat2Z.id. eexists. split; [reflexivity|].
  split; [reflexivity|]. split; [reflexivity|]. cbn [rp_vs]. apply map_forall. intros m I.
  apply (sub_zero k L m (moduli_in _ _ _ _ OK I)).
Qed.

Lemma rns_one_is : ms <> [] -> is_rns ms L true (rns_one (Z.of_nat L) ms) (pconst 1).
Proof.
  intros H. pose proof (ok_L H). pose proof (shl_int_ok H) as E. unfold rns_one.
  destruct (Z.leb_spec (Z.of_nat L) 0); [lia|].
  destruct ms as [|m0 t] eqn:Em; [contradiction|]. rewrite E. cbn [bind]. rewrite Nat2Z.id. eexists. split; [reflexivity|].
  split; [reflexivity|]. split; [reflexivity|]. cbn [rp_vs]. apply map_forall. intros m I.
  apply (sub_one k L m (moduli_in _ _ _ _ OK I)).
Qed.

Lemma rns_sub_moduli_ok power f : 0 < power < 2 * Z.of_nat n -> Z.odd power = true -> forall ms' vs,
  Forall (mod_ok k L) ms' -> Forall2 (fun m v => sub_is m L true v f) ms' vs ->
  exists ws, rns_sub_moduli n (Z.to_nat power) ms' vs ((Z.to_nat power - 1) / 2) = Ok ws /\
    Forall2 (fun m v => sub_is m L true v (substituted n (Z.to_nat power) f)) ms' ws.
Proof.
  intros Hp Ho ms' vs F H. revert F. induction H as [|m v ms' vs Hv H IH]; intros F.
  - exists []. split; [reflexivity|constructor].
  - inversion F as [|? ? O F']; subst. destruct (IH F') as (ws & E & Hws).
    destruct (sub_substitute k L m O v f power Hv Hp Ho) as (w & Ew & Hw).
    exists (w :: ws). cbn [rns_sub_moduli]. rewrite Ew. cbn [bind]. rewrite E. cbn [bind].
    split; [reflexivity|]. constructor; assumption.
Qed.

Lemma rns_substitute_is a f power : rns_is ms L true a f -> 0 < power < 2 * Z.of_nat n -> Z.odd power = true ->
  is_rns ms L true (rns_substitute a power ms) (substituted n (Z.to_nat power) f).
Proof.
  intros Ha Hp Ho. pose proof (rns_len _ _ _ Ha) as Ea. destruct Ha as (A1 & A2 & Ha).
  unfold rns_substitute, rp_ncoeffs. rewrite A1, A2.
  assert (Hr : Z.rem power 2 = 1). { rewrite Z.rem_mod_nonneg by lia. rewrite Zmod_odd, Ho. reflexivity. }
  rewrite Hr. destruct (Z.ltb_spec power 0); [lia|]. destruct (Z.leb_spec (2 * Z.of_nat n) power); [lia|].
  cbn [orb Z.eqb]. rewrite same_len_eq by congruence. cbn [negb].
  destruct (rns_sub_moduli_ok power f Hp Ho ms (rp_vs a) OK Ha) as (ws & E & HW).
  rewrite E. cbn [bind]. eexists. split; [reflexivity|]. split; [exact A1|]. split; [exact A2|exact HW].
Qed.
End Ops.
