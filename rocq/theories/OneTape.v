(** Proofs for C99. *)
From Coq Require Import Znumtheory Lia Arith.
From Verif Require RnsProofs.
From Verif Require Import Base FinSum PolySpec Ring ZLemmas Montgomery MontBatch Ntt Poly PolyExt Prng Sampling SampleSpec MontgomeryProofs
  MontBatchProofs NttIndex NttMath NttProofs Spec PolyView ArithFacts NttFacts PolyProofs PolyFacts PolyExtProofs SampleProofs SampleErrProofs
  SymEnc SymSpec SymProofs ThmSample SymProofs2 SymFacts SymSwitch ThmPoly ThmSymEnc Relin RelinSpec RelinProofs PubKey
  DistSpec DistProofs TapeSpec TapeProofs TapeRns EndSpec EndProofs PubTapeSpec PubTape KeyTapeSpec KeyTape OneTapeSpec.
Local Notation tapes N := (repeat 8 N).
Local Opaque error_widths error_count.
Local Opaque sample_error sample_polynomial convert_to_ntt poly_mul_scalar poly_add poly_fused_mul_add poly_neg export_int.

(** d error vectors, one after the other *)
Fixpoint draw (p : mparams) (n : nat) (v : Z) (d : nat) (s : list Z) : result (list (list Z) * list Z) :=
  match d with
  | O => Ok ([], s)
  | S d' =>
      do! ' (x, s) <- sample_error tape p n v s;
      do! ' (xs, s) <- draw p n v d' s;
      Ok (x :: xs, s)
  end.
Lemma draw_app p n v a : forall b s, draw p n v (a + b) s = do! ' (x1, s) <- draw p n v a s; do! ' (x2, s) <- draw p n v b s; Ok (x1 ++ x2, s).
Proof.
  induction a as [|a IH]; intros b s; cbn [Nat.add draw bind].
  - destruct (draw p n v b s) as [[x s']| |]; reflexivity.
  - change (pr_st tape) with (list Z). destruct (sample_error tape p n v s) as [[x s1]| |]; try reflexivity. cbn [bind]. rewrite IH.
    destruct (draw p n v a s1) as [[x1 s2]| |]; try reflexivity. cbn [bind]. destruct (draw p n v b s2) as [[x2 s3]| |]; reflexivity.
Qed.
Lemma polys_app fuel p n a : forall b s, uniform_polys fuel p n (a + b) s = do! ' (x1, s) <- uniform_polys fuel p n a s; do! ' (x2, s) <- uniform_polys fuel p n b s; Ok (x1 ++ x2, s).
Proof.
  induction a as [|a IH]; intros b s; cbn [Nat.add uniform_polys bind].
  - destruct (uniform_polys fuel p n b s) as [[x s']| |]; reflexivity.
  - change (pr_st tape) with (list Z). destruct (sample_polynomial tape fuel (Z.of_nat n) p s) as [[x s1]| |]; try reflexivity. cbn [bind]. rewrite IH.
    destruct (uniform_polys fuel p n a s1) as [[x1 s2]| |]; try reflexivity. cbn [bind]. destruct (uniform_polys fuel p n b s2) as [[x2 s3]| |]; reflexivity.
Qed.
Lemma polys_len fuel p n d : forall s rs s', uniform_polys fuel p n d s = Ok (rs, s') -> length rs = d.
Proof.
  induction d as [|d IH]; intros s rs s' E; cbn [uniform_polys] in E; [injection E as <- <-; reflexivity|].
  change (pr_st tape) with (list Z) in E. destruct (sample_polynomial tape fuel (Z.of_nat n) p s) as [[x s1]| |]; try discriminate E. cbn [bind] in E.
  destruct (uniform_polys fuel p n d s1) as [[x1 s2]| |] eqn:E1; try discriminate E. cbn [bind] in E. injection E as <- <-. cbn [length]. rewrite (IH _ _ _ E1). reflexivity.
Qed.
Lemma draw_len p n v d : forall s rs s', draw p n v d s = Ok (rs, s') -> length rs = d.
Proof.
  induction d as [|d IH]; intros s rs s' E; cbn [draw] in E; [injection E as <- <-; reflexivity|].
  change (pr_st tape) with (list Z) in E. destruct (sample_error tape p n v s) as [[x s1]| |]; try discriminate E. cbn [bind] in E.
  destruct (draw p n v d s1) as [[x1 s2]| |] eqn:E1; try discriminate E. cbn [bind] in E. injection E as <- <-. cbn [length]. rewrite (IH _ _ _ E1). reflexivity.
Qed.

Section Draw.
Variables (k q : Z) (p : mparams) (v : Z) (n : nat).
Hypothesis PF : params_for k q p.
Hypothesis Hv : 0 <= v <= 256.
Hypothesis Hq : 4 * v < q.

Lemma draw_avg d : forall K N, (d * error_bytes v n <= N)%nat ->
  ex N (draw p n v d) K = over_rounds v n d (fun es => over (tapes (N - d * error_bytes v n)) (K (map (map (imp p)) es))).
Proof.
  pose proof (errors_avg k q p v PF Hv Hq) as AV. unfold error_bytes. set (w := nbytes (error_widths 24 (2 * v))) in *.
  induction d as [|d IH]; intros K N HN.
  - cbn [Nat.mul over_rounds map]. rewrite Nat.sub_0_r. reflexivity.
  - transitivity (ex N (sample_error tape p n v) (fun x s => runs (draw p n v d) (fun xs s => K (x :: xs) s) s)).
    + apply ex_eq. intros ds. cbn [draw]. change (pr_st tape) with (list Z). destruct (sample_error tape p n v ds) as [[x s]| |]; try reflexivity. cbn [bind]. unfold runs.
      destruct (draw p n v d s) as [[xs s']| |]; reflexivity.
    + rewrite AV. destruct (Nat.leb_spec (n * w) N) as [N1|N1]; [|cbn [Nat.mul] in HN; lia]. cbn [over_rounds]. apply (over_errors_ext v n). intros e He.
      rewrite over_runs, IH by (cbn [Nat.mul] in HN; lia). replace (N - S d * (n * w))%nat with (N - n * w - d * (n * w))%nat by (cbn [Nat.mul]; lia). reflexivity.
Qed.

Lemma rounds_one d : over_rounds v n d (fun _ => 1) = 256 ^ Z.of_nat (d * error_bytes v n).
Proof.
  assert (ONE : over_errors v n (fun _ => 1) = 256 ^ Z.of_nat (error_bytes v n)).
  { set (w := nbytes (error_widths 24 (2 * v))). pose proof (errors_avg k q p v PF Hv Hq n (fun _ _ => 1) (n * w)) as E.
    pose proof (errors_total k q p v PF Hv Hq (fun _ => 1) n (n * w)) as E'. pose proof (eq_trans (eq_sym E) E') as X. clear E E'. rename X into E'. fold w in E'.
    rewrite Nat.leb_refl, Nat.sub_diag in E'. cbn [repeat over] in E'. unfold error_bytes. fold w. rewrite E'. ring. }
  induction d as [|d IH]; [reflexivity|]. cbn [over_rounds]. rewrite IH.
  rewrite (over_errors_ext v n _ (fun _ => 1 * 256 ^ Z.of_nat (d * error_bytes v n))) by (intros; ring). rewrite over_errors_mul, ONE.
  rewrite <- Z.pow_add_r by lia. f_equal. lia.
Qed.

(** the count of tapes that pass a test on something made of d error vectors *)
Lemma draw_count {A} d (mk : list (list Z) -> A) (call : list Z -> bool) (test : A -> bool) N : (d * error_bytes v n <= N)%nat ->
  (forall ds, call ds = match draw p n v d ds with Ok (xs, _) => test (mk xs) | _ => false end) ->
  count_tapes N call = over_rounds v n d (fun es => Z.b2z (test (mk (map (map (imp p)) es)))) * 256 ^ Z.of_nat (N - d * error_bytes v n).
Proof.
  intros HN EC. unfold count_tapes, count_scripts. transitivity (ex N (draw p n v d) (fun xs _ => Z.b2z (test (mk xs)))).
  - unfold ex. apply over_ext; [|apply tapes_nonneg]. intros ds _. rewrite EC. destruct (draw p n v d ds) as [[xs s]| |]; reflexivity.
  - rewrite draw_avg by exact HN. rewrite <- over_rounds_mul. apply over_rounds_ext. intros es _. rewrite <- over_ones, <- over_mul. apply over_ext; [|apply tapes_nonneg]. intros; lia.
Qed.
End Draw.

Section Ctx.
Variables (p : mparams) (L : nat) (np : nttp).
Hypothesis C : ctx p L np.
Local Notation m := (p_m p).
Local Notation n := (2 ^ L)%nat.
Local Notation X := (ntt_root p np).
Local Notation ev := (ev L X).
Local Notation holds := (holds p).
Local Notation is := (poly_is p np L).
Let G : good p := proj1 C.
Let NG : ntt_good p L np X := proj2 C.

Lemma is_holds b f : is b f -> holds n b (ev f).
Proof.
  intros [N V]. eapply holds_ext; [exact (poly_holds p L np C b N)|]. intros j Hj. apply (ev_cong p L). intros i Hi. rewrite (V i Hi). apply cong_mod.
Qed.
Lemma holds_is b f : holds n b (ev f) -> is b f.
Proof. intros H. split; [exact (holds_poly p L b _ H)|]. exact (coeff_holds p L np C b f H). Qed.
Lemma is_self b : ntt_poly p L b -> is b (coeff p np b).
Proof. intros N. apply holds_is, (poly_holds p L np C b N). Qed.
Lemma is_ext b f g : is b f -> (forall i, (i < n)%nat -> cong m (f i) (g i)) -> is b g.
Proof. intros [N V] E. split; [exact N|]. intros i Hi. rewrite (V i Hi). apply cong_to_mod; [pose proof (m_gt1 p G); lia|exact (E i Hi)]. Qed.
Lemma is_add a b f g : is a f -> is b g -> exists c, poly_add p a b = Ok c /\ is c (fun i => f i + g i).
Proof.
  intros Ha Hb. destruct (add_holds p G n a b _ _ (is_holds _ _ Ha) (is_holds _ _ Hb)) as (c & E & H & _). exists c. split; [exact E|]. apply holds_is.
  eapply holds_ext; [exact H|]. intros j _. rewrite ev_add. reflexivity.
Qed.
Lemma is_mul a b f g : is a f -> is b g -> exists c, poly_mul p a b = Ok c /\ is c (negacyclic n f g).
Proof.
  intros Ha Hb. destruct (mul_holds p G n a b _ _ (is_holds _ _ Ha) (is_holds _ _ Hb)) as (c & E & H & _). exists c. split; [exact E|]. apply holds_is.
  eapply holds_ext; [exact H|]. intros j Hj. symmetry. apply (ev_mul p L np X NG); exact Hj.
Qed.
Lemma is_neg a f : is a f -> is (poly_neg p a) (fun i => - f i).
Proof.
  intros Ha. apply holds_is. eapply holds_ext; [exact (neg_holds p G n a _ (is_holds _ _ Ha))|]. intros j _. rewrite ev_opp. reflexivity.
Qed.
Lemma is_scale a f s t : is a f -> stored p s -> export_int p s = t -> exists c, poly_mul_scalar p a s = Ok c /\ is c (fun i => t * f i).
Proof.
  intros Ha Hs Ht. destruct (mul_scalar_holds p G n a _ s t (is_holds _ _ Ha) Hs) as (c & E & H & _).
  { rewrite <- Ht, (stored_val p _ G Hs). reflexivity. }
  exists c. split; [exact E|]. apply holds_is. eapply holds_ext; [exact H|]. intros j _. rewrite ev_scale. reflexivity.
Qed.
Lemma is_fused x a b h f g : p_k p <> 16 -> is x h -> is a f -> is b g -> exists c, poly_fused_mul_add p x a b = Ok c /\ is c (fun i => h i + negacyclic n f g i).
Proof.
  intros K16 Hx Ha Hb. destruct (fused_defined p n x a b _ _ _ K16 (is_holds _ _ Hx) (is_holds _ _ Ha) (is_holds _ _ Hb)) as [c E]. exists c. split; [exact E|].
  destruct (fused_holds p G n x a b _ _ _ c (is_holds _ _ Hx) (is_holds _ _ Ha) (is_holds _ _ Hb) E) as [H _]. apply holds_is.
  eapply holds_ext; [exact H|]. intros j Hj. rewrite ev_add, (ev_mul p L np X NG) by exact Hj. reflexivity.
Qed.

(** vectors of error words *)
Definition words (x : list Z) (e : nat -> Z) : Prop := length x = n /\ Forall (stored p) x /\ forall i, (i < n)%nat -> cong m (export_int p (nth i x 0)) (e i).
Lemma is_convert x e : words x e -> exists c, convert_to_ntt p np x = Ok c /\ is c e.
Proof.
  intros (Lx & Sx & Vx). destruct (forward_holds p G L np X NG x e Lx Sx) as (c & E & H & _).
  { intros i Hi. rewrite <- stored_val; [exact (Vx i Hi)|exact G|rewrite Forall_forall in Sx; apply Sx, nth_In; lia]. }
  exists c. split; [exact E|]. apply holds_is, H.
Qed.
Lemma words_sampled v s x s' : 0 <= v -> 2 * v <= m -> sample_error tape p n v s = Ok (x, s') -> words x (fun i => export_int p (nth i x 0)).
Proof.
  intros Hv Hm E. destruct (sample_error_bounded tape p n v s x s' G tape_ok Hv Hm E) as (_ & Lx & Rx & _). split; [exact Lx|]. split; [|reflexivity].
  eapply Forall_impl; [|exact Rx]. intros; apply reduced_stored; assumption.
Qed.
Lemma words_imp v e : errors v n e -> words (map (imp p) e) (fun i => nth i e 0).
Proof.
  intros [Le _]. pose proof (m_gt1 p G) as M1. pose proof (m4 p G) as M4.
  assert (B : forall x, 0 <= x mod m < 2 ^ p_k p) by (intros x; pose proof (Z.mod_pos_bound x m); lia).
  assert (S : Forall (stored p) (map (imp p) e)).
  { apply Forall_map, Forall_forall. intros x _. apply reduced_stored, (import_crep p G), B. }
  split; [rewrite map_length; exact Le|]. split; [exact S|]. intros i Hi.
  rewrite (nth_indep (map (imp p) e) 0 (imp p 0)) by (rewrite map_length; lia). rewrite (map_nth (imp p)). unfold imp.
  rewrite (stored_val p _ G) by (apply reduced_stored, (import_crep p G), B). rewrite (import_val p G) by apply B. rewrite !cong_mod. reflexivity.
Qed.
End Ctx.

(** ** Key switching keys *)
(** the parts of [count] rounds of dim columns *)
Fixpoint cut (logT : Z) (dim count : nat) (ts bs : list poly) : list part :=
  match count with
  | O => []
  | S c => {| pt_top := firstn dim ts; pt_bot := firstn dim bs; pt_logT := logT |} :: cut logT dim c (skipn dim ts) (skipn dim bs)
  end.
Lemma cut_concat logT dim count : forall ts bs, length ts = (count * dim)%nat -> length bs = (count * dim)%nat ->
  concat (map pt_top (cut logT dim count ts bs)) = ts /\ concat (map pt_bot (cut logT dim count ts bs)) = bs /\
  length (cut logT dim count ts bs) = count /\
  Forall (fun pt => length (pt_top pt) = dim /\ length (pt_bot pt) = dim /\ pt_logT pt = logT) (cut logT dim count ts bs).
Proof.
  induction count as [|c IH]; intros ts bs Lt Lb; cbn [Nat.mul] in Lt, Lb.
  - destruct ts; [|discriminate Lt]. destruct bs; [|discriminate Lb]. repeat split; constructor.
  - cbn [cut map concat pt_top pt_bot length]. destruct (IH (skipn dim ts) (skipn dim bs)) as (I1 & I2 & I3 & I4); [rewrite skipn_length; lia|rewrite skipn_length; lia|].
    rewrite I1, I2, I3, !firstn_skipn. split; [reflexivity|]. split; [reflexivity|]. split; [reflexivity|]. constructor; [|exact I4].
    cbn [pt_top pt_bot pt_logT]. rewrite !firstn_length. split; [lia|]. split; [lia|reflexivity].
Qed.
Lemma cut_app logT dim c t1 b1 t2 b2 : length t1 = dim -> length b1 = dim ->
  cut logT dim (S c) (t1 ++ t2) (b1 ++ b2) = {| pt_top := t1; pt_bot := b1; pt_logT := logT |} :: cut logT dim c t2 b2.
Proof.
  intros E1 E2. cbn [cut].
  assert (F : forall a b : list poly, length a = dim -> firstn dim (a ++ b) = a /\ skipn dim (a ++ b) = b).
  { intros a b <-. rewrite firstn_app, skipn_app, Nat.sub_diag, firstn_all, skipn_all. cbn [firstn skipn app]. rewrite app_nil_r. split; reflexivity. }
  destruct (F t1 t2 E1) as [-> ->]. destruct (F b1 b2 E2) as [-> ->]. reflexivity.
Qed.

Lemma combine_app {A B} : forall (a a' : list A) (b b' : list B), length a = length b -> combine (a ++ a') (b ++ b') = combine a b ++ combine a' b'.
Proof. induction a as [|x a IH]; intros a' [|y b] b' E; try discriminate E; [reflexivity|]. cbn. rewrite IH by (cbn in E; lia). reflexivity. Qed.

Section Key.
Variables (k q : Z) (L : nat) (t : Z) (key : skey).
Hypothesis EK : enc_key k q L t key.
Local Notation p := (sk_p key).
Local Notation np := (sk_np key).
Local Notation n := (2 ^ L)%nat.
Local Notation v := (sk_var key).
Local Notation is := (poly_is p np L).
Let K : key_ok k q L t key := ek_key _ _ _ _ _ EK.
Let C : ctx p L np := key_ctx k q L t key K.
Let G : good p := proj1 C.
Let Eq : p_m p = q := key_q k q L t key K.
Let HS : is (sk_key key) (secret key) := is_self p L np C _ (ko_key _ _ _ _ _ K).
Let Et : export_int p (sk_t key) = t := t_export' k q L t key EK.
Let St : stored p (sk_t key) := ek_stored _ _ _ _ _ EK.

(** the column for the polynomial w with the pad r and the error words x *)
Definition build (w r : poly) (x : list Z) : result poly :=
  do! tp <- poly_mul p r (sk_key key);
  do! x <- convert_to_ntt p np x;
  do! x <- poly_mul_scalar p x (sk_t key);
  do! x <- poly_add p x (poly_neg p tp);
  poly_add p x w.
Definition top (wr : poly * poly) (x : list Z) : poly := match build (fst wr) (snd wr) x with Ok y => y | _ => [] end.

Lemma build_is w r x h f e : is w h -> is r f -> words p L x e ->
  build w r x = Ok (top (w, r) x) /\ is (top (w, r) x) (fun i => t * e i + h i - negacyclic n f (secret key) i).
Proof.
  intros Hw Hr Hx. destruct (is_mul p L np C r (sk_key key) f _ Hr HS) as (tp & E1 & H1). destruct (is_convert p L np C x e Hx) as (c & E2 & H2).
  destruct (is_scale p L np C c e (sk_t key) t H2 St Et) as (c2 & E3 & H3). destruct (is_add p L np C c2 _ _ _ H3 (is_neg p L np C tp _ H1)) as (c3 & E4 & H4).
  destruct (is_add p L np C c3 w _ _ H4 Hw) as (c4 & E5 & H5). unfold top, build. cbn [fst snd]. rewrite E1. cbn [bind]. rewrite E2. cbn [bind]. rewrite E3. cbn [bind]. rewrite E4. cbn [bind].
  rewrite E5. split; [reflexivity|]. apply (is_ext p L np C _ _ _ H5). intros i _. apply cong_eq. ring.
Qed.

Hypothesis Hv : 0 <= v <= 256.
Hypothesis Hq : 4 * v < q.

Lemma polys_ntt fuel d : forall s rs s', uniform_polys fuel p n d s = Ok (rs, s') -> Forall (ntt_poly p L) rs.
Proof.
  induction d as [|d IH]; intros s rs s' E; cbn [uniform_polys] in E; [injection E as <- <-; constructor|].
  change (pr_st tape) with (list Z) in E. destruct (sample_polynomial tape fuel (Z.of_nat n) p s) as [[x s1]| |] eqn:Ex; try discriminate E. cbn [bind] in E.
  destruct (uniform_polys fuel p n d s1) as [[x1 s2]| |] eqn:E1; try discriminate E. cbn [bind] in E. injection E as <- <-. constructor; [|exact (IH _ _ _ E1)].
  destruct (sample_polynomial_stored tape p _ _ _ _ _ G Ex) as (Lr & _ & Rr). rewrite Nat2Z.id in Lr. split; assumption.
Qed.

Lemma part_form fuel pows : forall rs s s' e, Forall (ntt_poly p L) pows -> uniform_polys fuel p n (length pows) s = Ok (rs, s') ->
  part_loop tape tape fuel key n pows s e = do! ' (xs, e') <- draw p n v (length pows) e; Ok ((map2 top (combine pows rs) xs, rs), (s', e')).
Proof.
  induction pows as [|w pows IH]; intros rs s s' e F E; cbn [length uniform_polys] in E.
  - injection E as <- <-. reflexivity.
  - inversion_clear F as [|? ? Hw F']. cbn [part_loop length draw]. unfold sample_orthogonal. rewrite (proj1 (ko_key _ _ _ _ _ K)).
    change (pr_st tape) with (list Z) in *. destruct (sample_polynomial tape fuel (Z.of_nat n) p s) as [[r s1]| |] eqn:Er; try discriminate E. cbn [bind] in E |- *.
    destruct (uniform_polys fuel p n (length pows) s1) as [[rs1 s2]| |] eqn:E1; try discriminate E. cbn [bind] in E. injection E as <- <-.
    destruct (sample_polynomial_stored tape p _ _ _ _ _ G Er) as (Lr & _ & Rr). rewrite Nat2Z.id in Lr. assert (Nr : ntt_poly p L r) by (split; assumption).
    destruct (is_mul p L np C r (sk_key key) _ _ (is_self p L np C r Nr) HS) as (tp & Et' & _).
    rewrite Et'. cbn [bind fst snd]. destruct (sample_error tape p n v e) as [[x e1]| |] eqn:Ee; try reflexivity. cbn [bind].
    pose proof (words_sampled p L np C v e x e1 ltac:(lia) ltac:(lia) Ee) as Hx.
    destruct (build_is w r x _ _ _ (is_self p L np C w Hw) (is_self p L np C r Nr) Hx) as [B _]. revert B. unfold build at 1. rewrite Et'. cbn [bind].
    destruct (convert_to_ntt p np x) as [c1| |]; try discriminate. cbn [bind]. destruct (poly_mul_scalar p c1 (sk_t key)) as [c2| |]; try discriminate. cbn [bind].
    destruct (poly_add p c2 (poly_neg p tp)) as [c3| |]; try discriminate. cbn [bind]. intros ->. cbn [bind]. rewrite (IH rs1 s1 s2 e1 F' E1).
    destruct (draw p n v (length pows) e1) as [[xs e2]| |]; reflexivity.
Qed.

Lemma powers_is T c : stored p T -> cong q (export_int p T) c -> forall dim x h, is x h ->
  exists pows, powers_of_t p x T dim = Ok pows /\ Forall2 is pows (map (fun j i => c ^ Z.of_nat j * h i) (seq 0 dim)).
Proof.
  intros ST VT. assert (Gen : forall dim a x h, is x (fun i => c ^ Z.of_nat a * h i) ->
    exists pows, powers_of_t p x T dim = Ok pows /\ Forall2 is pows (map (fun j i => c ^ Z.of_nat j * h i) (seq a dim))).
  { induction dim as [|d IH]; intros a x h Hx; [exists []; split; [reflexivity|constructor]|]. destruct d as [|d].
    - exists [x]. split; [reflexivity|]. cbn [seq map]. constructor; [exact Hx|constructor].
    - change (powers_of_t p x T (S (S d))) with (do! next <- poly_mul_scalar p x T; do! r <- powers_of_t p next T (S d); Ok (x :: r)).
      destruct (is_scale p L np C x _ T _ Hx ST eq_refl) as (x1 & E1 & H1). rewrite E1. cbn [bind].
      destruct (IH (S a) x1 h) as (pows & E2 & H2).
      { apply (is_ext p L np C _ _ _ H1). intros i _. rewrite Eq, VT, Nat2Z.inj_succ, Z.pow_succ_r by lia. apply cong_eq. ring. }
      rewrite E2. cbn [bind]. exists (x :: pows). split; [reflexivity|]. change (seq a (S (S d))) with (a :: seq (S a) (S d)). cbn [map]. constructor; [exact Hx|exact H2]. }
  intros dim x h Hx. apply (Gen dim 0%nat x h). apply (is_ext p L np C _ _ _ Hx). intros i _. apply cong_eq. cbn [Z.of_nat]. rewrite Z.pow_0_r. ring.
Qed.

Lemma create_form fuel base sec logT T dim : stored p T -> cong q (export_int p T) (2 ^ logT) -> 0 <= logT -> is base sec ->
  forall count i kp, (1 <= i)%nat -> is kp (npow n sec (Nat.max 1 (i - 1))) ->
  exists pows, Forall2 is pows (concat (map (fun a => multiples (powers_of logT dim) (npow n sec a)) (seq i count))) /\
    length pows = (count * dim)%nat /\
    forall rs s s' e, uniform_polys fuel p n (count * dim) s = Ok (rs, s') ->
    create_loop tape tape fuel key base kp logT T dim (Z.of_nat i) count s e =
    do! ' (xs, _) <- draw p n v (count * dim) e; Ok (cut logT dim count (map2 top (combine pows rs) xs) rs).
Proof.
  intros ST VT H0 Hb. induction count as [|c IH]; intros i kp Hi Hkp.
  - exists []. split; [constructor|]. split; [reflexivity|]. intros rs s s' e E. reflexivity.
  - assert (Hk' : exists kp', (if Z.of_nat i =? 1 then Ok kp else poly_mul p kp base) = Ok kp' /\ is kp' (npow n sec i)).
    { destruct (Z.eqb_spec (Z.of_nat i) 1) as [I1|I1].
      - exists kp. split; [reflexivity|]. replace i with 1%nat in Hkp |- * by lia. exact Hkp.
      - destruct (is_mul p L np C kp base _ _ Hkp Hb) as (kp' & A & N). exists kp'. split; [exact A|].
        replace (npow n sec i) with (npow n sec (S (Nat.max 1 (i - 1)))) by (f_equal; lia). cbn [npow]. exact N. }
    destruct Hk' as (kp' & A & N). destruct (powers_is T (2 ^ logT) ST VT dim kp' _ N) as (pw & Ep & Hpw).
    assert (Lpw : length pw = dim) by (rewrite (RnsProofs.Forall2_len _ _ _ Hpw), map_length, seq_length; reflexivity).
    assert (Npw : Forall (ntt_poly p L) pw) by (clear - Hpw; induction Hpw as [|? ? ? ? H ? IH']; constructor; [exact (proj1 H)|exact IH']).
    destruct (IH (S i) kp' ltac:(lia)) as (pows & P1 & P2 & P3).
    { replace (Nat.max 1 (S i - 1)) with i by lia. exact N. }
    exists (pw ++ pows). split; [|split].
    + cbn [seq map concat]. apply Forall2_app; [|exact P1]. unfold multiples, powers_of. rewrite map_map.
      match goal with |- Forall2 _ _ ?l => match type of Hpw with Forall2 _ _ ?l' => replace l with l'; [exact Hpw|] end end.
      apply map_ext. intros j. f_equal. rewrite <- Z.pow_mul_r by lia. rewrite (Z.mul_comm logT). reflexivity.
    + rewrite app_length, Lpw, P2. reflexivity.
    + intros rs s s' e E. cbn [Nat.mul] in E |- *. rewrite polys_app in E. destruct (uniform_polys fuel p n dim s) as [[r1 s1]| |] eqn:E1; try discriminate E. cbn [bind] in E.
      destruct (uniform_polys fuel p n (c * dim) s1) as [[r2 s2]| |] eqn:E2; try discriminate E. cbn [bind] in E. injection E as <- <-.
      cbn [create_loop]. rewrite A. cbn [bind]. unfold part_create. rewrite Ep. cbn [bind]. rewrite (proj1 (proj1 N)).
      pose proof (part_form fuel pw r1 s s1 e Npw) as PFm. rewrite Lpw in PFm. rewrite (PFm E1). rewrite draw_app.
      destruct (draw p n v dim e) as [[x1 e1]| |] eqn:D1; try reflexivity. cbn [bind fst snd].
      replace (Z.of_nat i + 1) with (Z.of_nat (S i)) by lia. rewrite (P3 r2 s1 s2 e1 E2). destruct (draw p n v (c * dim) e1) as [[x2 e2]| |] eqn:D2; try reflexivity. cbn [bind]. f_equal.
      pose proof (polys_len _ _ _ _ _ _ _ E1) as Lr1. pose proof (draw_len _ _ _ _ _ _ _ D1) as Lx1.
      rewrite combine_app by congruence. rewrite map2_app by (rewrite combine_length; lia).
      rewrite (cut_app logT dim c); [reflexivity| |exact Lr1]. rewrite map2_length; rewrite combine_length; lia.
Qed.

Lemma tops_enc hs : forall pows, Forall2 is pows hs -> forall rs es, Forall (ntt_poly p L) rs -> length rs = length hs -> rounds v n (length hs) es ->
  encryptions_one L t key hs rs es (map2 top (combine pows rs) (map (map (imp p)) es)).
Proof.
  intros pows H. induction H as [|w h pows hs Hw H IH]; intros rs es Fr Lr [Le Fe].
  - destruct rs; [|discriminate Lr]. destruct es; [|discriminate Le]. split; [reflexivity|]. intros [|j]; intros; discriminate.
  - destruct rs as [|r rs]; [discriminate Lr|]. destruct es as [|e es]; [discriminate Le|]. inversion_clear Fr as [|? ? Hr Fr']. inversion_clear Fe as [|? ? He Fe'].
    destruct (IH rs es Fr') as [IL IJ]; [cbn in Lr; lia|split; [cbn in Le; lia|exact Fe']|].
    cbn [combine map map2 length] in *. split; [cbn [length]; f_equal; exact IL|]. intros [|j] b h' r' e' Hb Hh Hr' He'; [|exact (IJ j b h' r' e' Hb Hh Hr' He')].
    cbn [nth_error] in Hb, Hh, Hr', He'. injection Hb as <-. injection Hh as <-. injection Hr' as <-. injection He' as <-.
    exact (proj2 (build_is w r _ h _ _ Hw (is_self p L np C r Hr) (words_imp p L np C v e He))).
Qed.
End Key.
