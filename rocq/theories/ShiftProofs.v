(** Encrypting a message is encrypting zero and adding the message: word level,
    vectors and RNS polynomials. *)
From Verif Require Import Base Montgomery MontBatch MontBatchProofs MontgomeryProofs ArithFacts ThmArith Spec Ntt NttFacts PolyView RnsPoly RnsSpec ShiftSpec Poly.

Section Word.
Variable p : mparams.
Hypothesis G : exists m, params_for (p_k p) m p.
Hypothesis K : p_k p <> 16.

Lemma eq_words a b : reduced p a -> reduced p b -> export_int p a = export_int p b -> a = b.
Proof.
  destruct G as (m & H). pose proof (pf_good _ _ _ H) as (Gd & Em & _). intros Ha Hb E.
  rewrite !stored_val in E by (try exact Gd; apply reduced_stored; assumption).
  exact (val_inj p Gd a b Ha Hb E).
Qed.

Lemma add_red a b : stored p a -> stored p b -> reduced p (madd p a b).
Proof. destruct G as (m & H). pose proof (pf_good _ _ _ H) as (Gd & Em & _). intros. apply (madd_crep p Gd); assumption. Qed.

Lemma add_exp a b : stored p a -> stored p b -> export_int p (madd p a b) = (export_int p a + export_int p b) mod p_m p.
Proof.
  destruct G as (m & H). pose proof (pf_good _ _ _ H) as (Gd & _ & Em). intros Ha Hb. rewrite Em.
  exact (proj1 (C04_ring_operations _ m p a b H Ha Hb)).
Qed.

Lemma zero_st : stored p 0.
Proof. destruct G as (m & H). pose proof (pf_good _ _ _ H) as (Gd & _ & Em). pose proof (m_gt1 p Gd). unfold stored. lia. Qed.

Lemma zero_exp : export_int p 0 = 0.
Proof.
  destruct G as (m & H). pose proof (pf_good _ _ _ H) as (Gd & _ & Em). rewrite (stored_val p 0 Gd zero_st).
  unfold val. rewrite Z.mul_0_l. apply Z.mod_0_l. pose proof (m_gt1 p Gd). lia.
Qed.

Definition fw (n a b : Z) : Z := match fused_mul_add p n a b with Ok r => r | _ => 0 end.

Lemma fw_ok n a b : stored p n -> stored p a -> stored p b ->
  fused_mul_add p n a b = Ok (fw n a b) /\ reduced p (fw n a b) /\
  export_int p (fw n a b) = (export_int p n + export_int p a * export_int p b) mod p_m p.
Proof.
  destruct G as (m & H). pose proof (pf_good _ _ _ H) as (Gd & _ & Em). intros Hn Ha Hb.
  destruct (C06_fused_mul_add _ m p n a b H Hn Ha Hb) as [D V]. destruct (D K) as (r & E). unfold fw. rewrite E.
  split; [reflexivity|]. rewrite Em. exact (V r E).
Qed.

(** the fused step depends on the value of its first argument only *)
Lemma fw_ext n n' a b : stored p n -> stored p n' -> stored p a -> stored p b -> export_int p n = export_int p n' -> fw n a b = fw n' a b.
Proof.
  intros Hn Hn' Ha Hb E. destruct (fw_ok n a b Hn Ha Hb) as (_ & R1 & V1). destruct (fw_ok n' a b Hn' Ha Hb) as (_ & R2 & V2).
  apply eq_words; [assumption..|]. rewrite V1, V2, E. reflexivity.
Qed.

Lemma red_st a : reduced p a -> stored p a.
Proof. unfold reduced, stored. lia. Qed.

Lemma fw_shift n x a b : stored p n -> stored p x -> stored p a -> stored p b ->
  madd p (fw (madd p n 0) a b) x = fw (madd p n x) a b.
Proof.
  intros Hn Hx Ha Hb. pose proof zero_st as Z0. pose proof (red_st _ (add_red n 0 Hn Z0)) as H0. pose proof (red_st _ (add_red n x Hn Hx)) as H1.
  destruct (fw_ok _ a b H0 Ha Hb) as (_ & R0 & V0). destruct (fw_ok _ a b H1 Ha Hb) as (_ & R1 & V1).
  apply eq_words; [apply add_red; [apply red_st; exact R0|exact Hx]|exact R1|].
  rewrite add_exp by (first [assumption|apply red_st; assumption]). rewrite V0, V1, (add_exp n 0 Hn Z0), (add_exp n x Hn Hx), zero_exp, Z.add_0_r.
  rewrite (Zplus_mod_idemp_l (export_int p n)), !Zplus_mod_idemp_l. f_equal. ring.
Qed.

Lemma add_shift n x : stored p n -> stored p x -> madd p (madd p n 0) x = madd p n x.
Proof.
  intros Hn Hx. pose proof zero_st as Z0. pose proof (red_st _ (add_red n 0 Hn Z0)) as H0.
  apply eq_words; [apply add_red; assumption..|]. rewrite !add_exp by assumption. rewrite zero_exp, Z.add_0_r. apply Zplus_mod_idemp_l.
Qed.

(** ** Vectors *)
Definition vec (n : nat) (v : list Z) : Prop := length v = n /\ Forall (stored p) v.
Definition fv (v a b : list Z) : list Z := map2 (fun x bc => fw x (fst bc) (snd bc)) v (combine a b).

Lemma seqr_cons {A} (x : result A) l y r : x = Ok y -> seqr l = Ok r -> seqr (x :: l) = Ok (y :: r).
Proof. intros -> E. cbn [seqr]. rewrite E. reflexivity. Qed.

Lemma fv_ok : forall n v a b, vec n v -> vec n a -> vec n b -> batch_fused_mul_add p v a b = Ok (fv v a b) /\ vec n (fv v a b).
Proof.
  intros n v a b Hv Ha Hb. unfold batch_fused_mul_add, same_len. rewrite (proj1 Hv), (proj1 Ha), (proj1 Hb), !Nat.eqb_refl. cbn [negb orb].
  unfold fv. revert v a b Hv Ha Hb. induction n as [|n IH]; intros [|x v] [|y a] [|z b] [Lv Fv] [La Fa] [Lb Fb]; try discriminate.
  - cbn. split; [reflexivity|]. split; [reflexivity|constructor].
  - inversion_clear Fv. inversion_clear Fa. inversion_clear Fb. cbn [combine map2 fst snd].
    destruct (fw_ok x y z) as (E & Rd & _); [assumption..|].
    destruct (IH v a b) as (E' & L' & F'); [split; [cbn in *; lia|assumption]..|].
    split; [apply (seqr_cons _ _ _ _ E E')|]. split; [cbn [length]; f_equal; exact L'|constructor; [apply red_st; exact Rd|exact F']].
Qed.

Lemma add_ok : forall n v x, vec n v -> vec n x -> batch_add p v x = Ok (map2 (madd p) v x) /\ vec n (map2 (madd p) v x).
Proof.
  intros n v x Hv Hx. unfold batch_add, same_len. rewrite (proj1 Hv), (proj1 Hx), Nat.eqb_refl. split; [reflexivity|].
  revert v x Hv Hx. induction n as [|n IH]; intros [|a v] [|b x] [Lv Fv] [Lx Fx]; try discriminate.
  - split; [reflexivity|constructor].
  - inversion_clear Fv. inversion_clear Fx. cbn [map2]. destruct (IH v x) as [L' F']; [split; [cbn in *; lia|assumption]..|].
    split; [cbn [length]; f_equal; exact L'|constructor; [apply red_st, add_red; assumption|exact F']].
Qed.

Lemma zeros_vec n : vec n (repeat 0 n).
Proof. split; [apply repeat_length|]. apply Forall_forall. intros x Hx. apply repeat_spec in Hx. subst. exact zero_st. Qed.

Lemma fv_shift : forall n v x a b, vec n v -> vec n x -> vec n a -> vec n b ->
  map2 (madd p) (fv (map2 (madd p) v (repeat 0 n)) a b) x = fv (map2 (madd p) v x) a b.
Proof.
  unfold fv. induction n as [|n IH]; intros [|w v] [|x xs] [|y a] [|z b] [Lv Fv] [Lx Fx] [La Fa] [Lb Fb]; try discriminate; [reflexivity|].
  inversion_clear Fv. inversion_clear Fx. inversion_clear Fa. inversion_clear Fb. cbn [repeat combine map2 fst snd]. f_equal.
  - apply fw_shift; assumption.
  - apply IH; split; (cbn in *; lia) || assumption.
Qed.

Lemma fv_ext : forall n v v' a b, vec n v -> vec n v' -> vec n a -> vec n b -> map (export_int p) v = map (export_int p) v' -> fv v a b = fv v' a b.
Proof.
  unfold fv. induction n as [|n IH]; intros [|w v] [|x xs] [|y a] [|z b] [Lv Fv] [Lx Fx] [La Fa] [Lb Fb] E; try discriminate; [reflexivity|].
  inversion_clear Fv. inversion_clear Fx. inversion_clear Fa. inversion_clear Fb. cbn [map] in E. injection E as E0 E1.
  cbn [combine map2 fst snd]. f_equal.
  - apply fw_ext; assumption.
  - apply IH; try assumption; split; (cbn in *; lia) || assumption.
Qed.

Lemma add_vshift : forall n v x, vec n v -> vec n x -> map2 (madd p) (map2 (madd p) v (repeat 0 n)) x = map2 (madd p) v x.
Proof.
  induction n as [|n IH]; intros [|w v] [|x xs] [Lv Fv] [Lx Fx]; try discriminate; [reflexivity|].
  inversion_clear Fv. inversion_clear Fx. cbn [repeat map2]. f_equal; [apply add_shift; assumption|].
  apply IH; split; (cbn in *; lia) || assumption.
Qed.
End Word.

(** ** RNS polynomials *)
Section Rows.
Variables (k : Z) (L : nat).
Hypothesis K16 : k <> 16.
Local Notation n := (2 ^ L)%nat.
Local Notation shaped := (Forall2 (fun m v => ntt_poly (pm_p m) L v)).

Lemma mod_word m : mod_ok k L m -> (exists q, params_for (p_k (pm_p m)) q (pm_p m)) /\ p_k (pm_p m) <> 16.
Proof.
  intros [H _]. pose proof (pf_good _ _ _ H) as (_ & Ek & _). rewrite Ek. split; [exists (modulus m); exact H|exact K16].
Qed.

Definition rows_add (ms : list pmod) (vs xs : list (list Z)) : list (list Z) :=
  map2 (fun m vw => map2 (madd (pm_p m)) (fst vw) (snd vw)) ms (combine vs xs).
Definition rows_fma (ms : list pmod) (vs as_ ks : list (list Z)) : list (list Z) :=
  map2 (fun m xab => fv (pm_p m) (fst xab) (fst (snd xab)) (snd (snd xab))) ms (combine vs (combine as_ ks)).

Lemma rows_add_ok ms : moduli_ok k L ms -> forall (vs xs : list (list Z)), shaped ms vs -> shaped ms xs ->
  each2 batch_add ms vs xs = Ok (rows_add ms vs xs) /\ shaped ms (rows_add ms vs xs).
Proof.
  unfold each2, rows_add. induction 1 as [|m ms Om O IH]; intros vs xs Hv Hx; inversion_clear Hv; inversion_clear Hx; cbn [combine map2 fst snd].
  - split; [reflexivity|constructor].
  - destruct (mod_word m Om) as [P _]. destruct (add_ok (pm_p m) P n y y0) as [E S]; [assumption..|].
    destruct (IH l' l'0) as [E' S']; [assumption..|].
    split; [apply (seqr_cons _ _ _ _ E E')|constructor; assumption].
Qed.

Lemma rows_fma_ok ms : moduli_ok k L ms -> forall (vs xs ks : list (list Z)), shaped ms vs -> shaped ms xs -> shaped ms ks ->
  seqr (map2 (fun m xab => batch_fused_mul_add (pm_p m) (fst xab) (fst (snd xab)) (snd (snd xab))) ms (combine vs (combine xs ks)))
    = Ok (rows_fma ms vs xs ks) /\ shaped ms (rows_fma ms vs xs ks).
Proof.
  unfold rows_fma. induction 1 as [|m ms Om O IH]; intros vs xs ks Hv Hx Hk; inversion_clear Hv; inversion_clear Hx; inversion_clear Hk; cbn [combine map2 fst snd].
  - split; [reflexivity|constructor].
  - destruct (mod_word m Om) as [P Q]. destruct (fv_ok (pm_p m) P Q n y y0 y1) as [E S]; [assumption..|].
    destruct (IH l' l'0 l'1) as [E' S']; [assumption..|].
    split; [apply (seqr_cons _ _ _ _ E E')|constructor; assumption].
Qed.

Definition zero_rows (ms : list pmod) : list (list Z) := map (fun _ => repeat 0 n) ms.

Lemma zero_shaped ms : moduli_ok k L ms -> shaped ms (zero_rows ms).
Proof. induction 1 as [|m ms Om O IH]; cbn [zero_rows map]; constructor; [apply zeros_vec; exact (proj1 (mod_word m Om))|exact IH]. Qed.

Lemma rows_shift ms : moduli_ok k L ms -> forall (vs xs as_ ks : list (list Z)), shaped ms vs -> shaped ms xs -> shaped ms as_ -> shaped ms ks ->
  rows_add ms (rows_fma ms (rows_add ms vs (zero_rows ms)) as_ ks) xs = rows_fma ms (rows_add ms vs xs) as_ ks.
Proof.
  unfold rows_fma, rows_add. induction 1 as [|m ms Om O IH]; intros vs xs as_ ks Hv Hx Ha Hk;
    inversion_clear Hv; inversion_clear Hx; inversion_clear Ha; inversion_clear Hk; cbn [zero_rows map combine map2 fst snd]; [reflexivity|].
  destruct (mod_word m Om) as [P Q]. f_equal; [apply fv_shift; assumption|apply IH; assumption].
Qed.

Lemma rows_add_shift ms : moduli_ok k L ms -> forall (vs xs : list (list Z)), shaped ms vs -> shaped ms xs ->
  rows_add ms (rows_add ms vs (zero_rows ms)) xs = rows_add ms vs xs.
Proof.
  unfold rows_add. induction 1 as [|m ms Om O IH]; intros vs xs Hv Hx;
    inversion_clear Hv; inversion_clear Hx; cbn [zero_rows map combine map2 fst snd]; [reflexivity|].
  destruct (mod_word m Om) as [P Q]. f_equal; [apply add_vshift; assumption|apply IH; assumption].
Qed.

(** the polynomials *)
Variable ms : list pmod.
Hypothesis OK : moduli_ok k L ms.

Lemma shaped_len (vs : list (list Z)) : shaped ms vs -> length vs = length ms.
Proof. clear. induction 1; cbn [length]; congruence. Qed.

Lemma add_is c x : rns_poly ms L c -> rns_poly ms L x ->
  rns_add c x ms = Ok (with_vs c (rows_add ms (rp_vs c) (rp_vs x))) /\ rns_poly ms L (with_vs c (rows_add ms (rp_vs c) (rp_vs x))).
Proof.
  intros [Lc Hc] [Lx Hx]. unfold rns_add, same_len. rewrite (shaped_len _ Hc), (shaped_len _ Hx), Nat.eqb_refl. cbn [negb].
  destruct (rows_add_ok ms OK _ _ Hc Hx) as [E S]. rewrite E. cbn [bind]. split; [reflexivity|]. split; [exact Lc|exact S].
Qed.

Lemma fma_is c a b : rns_poly ms L c -> rns_poly ms L a -> rns_poly ms L b -> rp_ntt c = true -> rp_ntt a = true -> rp_ntt b = true ->
  rns_fused_mul_add c a b ms = Ok (with_vs c (rows_fma ms (rp_vs c) (rp_vs a) (rp_vs b))) /\
  rns_poly ms L (with_vs c (rows_fma ms (rp_vs c) (rp_vs a) (rp_vs b))).
Proof.
  intros [Lc Hc] [La Ha] [Lb Hb] Nc Na Nb. unfold rns_fused_mul_add, same_len. rewrite (shaped_len _ Hc), (shaped_len _ Ha), (shaped_len _ Hb), Nat.eqb_refl, Nc, Na, Nb. cbn [negb].
  destruct (rows_fma_ok ms OK _ _ _ Hc Ha Hb) as [E S]. rewrite E. cbn [bind]. split; [reflexivity|]. split; [exact Lc|exact S].
Qed.

Lemma zero_poly_ok : rns_poly ms L (zero_rns L ms).
Proof. split; [reflexivity|]. apply (zero_shaped ms OK). Qed.

(** adding the message before the fused step, or afterwards *)
Lemma before_or_after c x a b : rns_poly ms L c -> rns_poly ms L x -> rns_poly ms L a -> rns_poly ms L b ->
  rp_ntt c = true -> rp_ntt a = true -> rp_ntt b = true ->
  exists y z, rns_add c (zero_rns L ms) ms = Ok y /\ rns_fused_mul_add y a b ms = Ok z /\ rns_poly ms L z /\
    exists y' r, rns_add c x ms = Ok y' /\ rns_fused_mul_add y' a b ms = Ok r /\ rns_add z x ms = Ok r.
Proof.
  intros Hc Hx Ha Hb Nc Na Nb.
  destruct (add_is c _ Hc zero_poly_ok) as [E1 P1]. destruct (add_is c x Hc Hx) as [E2 P2].
  destruct (fma_is _ a b P1 Ha Hb Nc Na Nb) as [E3 P3]. destruct (fma_is _ a b P2 Ha Hb Nc Na Nb) as [E4 P4].
  destruct (add_is _ x P3 Hx) as [E5 _].
  eexists _, _. split; [exact E1|]. split; [exact E3|]. split; [exact P3|]. eexists _, _. split; [exact E2|]. split; [exact E4|].
  rewrite E5. f_equal. unfold with_vs. cbn [rp_logn rp_vs rp_ntt]. f_equal.
  apply (rows_shift ms OK); [exact (proj2 Hc)|exact (proj2 Hx)|exact (proj2 Ha)|exact (proj2 Hb)].
Qed.
End Rows.

(** ** One plaintext after the other *)
Section Turns.
Context {P C S : Type}.
Variables (enc : P -> S -> result (C * S)) (zero : S -> result (C * S)) (plus : C -> P -> result C).

Definition shifts (pt : P) : Prop :=
  forall s, enc pt s = do! ' (z, s') <- zero s; do! x <- plus z pt; Ok (x, s').

Lemma turns_ok pts : Forall shifts pts -> forall s xs s',
  in_turn enc pts s = Ok (xs, s') <->
  exists zs, in_turn (fun _ => zero) pts s = Ok (zs, s') /\ seqr (map2 plus zs pts) = Ok xs.
Proof.
  induction 1 as [|pt pts Hp Hps IH]; intros s xs s'; cbn [in_turn].
  - split; [intros [= <- <-]; exists []; auto|intros (zs & [= <- <-] & [= <-]); reflexivity].
  - rewrite (Hp s). destruct (zero s) as [[z s1]| |] eqn:Ez; cbn [bind].
    + destruct (plus z pt) as [x| |] eqn:Ex; cbn [bind].
      * split.
        -- intros E. destruct (in_turn enc pts s1) as [[ys s2]| |] eqn:Et; try discriminate E. cbn [bind] in E. injection E as <- <-.
           destruct (proj1 (IH s1 ys s2) Et) as (zs & Ezs & Eys). rewrite Ezs. cbn [bind]. exists (z :: zs). split; [reflexivity|].
           cbn [map2 seqr]. rewrite Ex. cbn [bind]. rewrite Eys. reflexivity.
        -- intros (zs & E & Es). destruct (in_turn (fun _ => zero) pts s1) as [[ys s2]| |] eqn:Et; try discriminate E. cbn [bind] in E. injection E as <- <-.
           cbn [map2 seqr] in Es. rewrite Ex in Es. cbn [bind] in Es. destruct (seqr (map2 plus ys pts)) as [ws| |] eqn:Ew; try discriminate Es. cbn [bind] in Es. injection Es as <-.
           rewrite (proj2 (IH s1 ws s2) (ex_intro _ ys (conj Et Ew))). reflexivity.
      * split; [discriminate|]. intros (zs & E & Es). destruct (in_turn (fun _ => zero) pts s1) as [[ys s2]| |]; try discriminate E. cbn [bind] in E. injection E as <- <-.
        cbn [map2 seqr] in Es. rewrite Ex in Es. discriminate Es.
      * split; [discriminate|]. intros (zs & E & Es). destruct (in_turn (fun _ => zero) pts s1) as [[ys s2]| |]; try discriminate E. cbn [bind] in E. injection E as <- <-.
        cbn [map2 seqr] in Es. rewrite Ex in Es. discriminate Es.
    + split; [discriminate|intros (zs & E & _); discriminate E].
    + split; [discriminate|intros (zs & E & _); discriminate E].
Qed.
End Turns.
